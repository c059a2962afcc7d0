(** names(), dictval(), the view of a dictionary (C95-C97). *)
From Coq Require Import String Ascii Reals List Bool Arith Lia Lra DecimalString DecimalNat Decimal DecimalFacts FinFun.
From Verif Require Import Res Num Nd RSum ModelAutograd ModelSparse ModelParameters ModelMatrix ModelSimplex ModelProjection ModelDict ModelObjective ModelReport.
From Verif Require Import SpecParameters SpecMatrix SpecSimplex SpecProjection SpecDict SpecReport.
From Verif Require Import LemmasParameters LemmasLeaf LemmasDict.
Import List ListNotations.
Open Scope nat_scope.
Set Bullet Behavior "Strict Subproofs".

(** ---- decimal numbers ---- *)
Fixpoint uint_value (d : Decimal.uint) (acc : nat) : nat :=
  match d with
  | Nil => acc
  | D0 d => uint_value d (10 * acc) | D1 d => uint_value d (10 * acc + 1) | D2 d => uint_value d (10 * acc + 2)
  | D3 d => uint_value d (10 * acc + 3) | D4 d => uint_value d (10 * acc + 4) | D5 d => uint_value d (10 * acc + 5)
  | D6 d => uint_value d (10 * acc + 6) | D7 d => uint_value d (10 * acc + 7) | D8 d => uint_value d (10 * acc + 8)
  | D9 d => uint_value d (10 * acc + 9)
  end.
Lemma uint_value_of d acc : uint_value d acc = Nat.of_uint_acc d acc.
Proof.
  revert acc; induction d; intros acc; cbn [uint_value Nat.of_uint_acc]; try reflexivity;
    rewrite IHd; f_equal; rewrite Nat.tail_mul_spec; lia.
Qed.
Lemma digits_of_uint d acc : digits_value (NilEmpty.string_of_uint d) acc = Some (uint_value d acc).
Proof.
  revert acc; induction d; intros acc; cbn [NilEmpty.string_of_uint digits_value uint_value]; try reflexivity;
    match goal with |- context [digit ?c] => let v := eval compute in (digit c) in change (digit c) with v end;
    cbn iota beta; rewrite IHd; rewrite ?Nat.add_0_r; reflexivity.
Qed.
Lemma to_uint_not_nil k : Nat.to_uint k <> Nil.
Proof. intros E. assert (Q := DecimalNat.Unsigned.of_to k). rewrite E in Q. simpl in Q. subst k. discriminate. Qed.
Lemma py_str_uint k : py_str k = NilEmpty.string_of_uint (Nat.to_uint k).
Proof. unfold py_str, NilZero.string_of_uint. destruct (Nat.to_uint k) eqn:E; try reflexivity. destruct (to_uint_not_nil k E). Qed.
Lemma to_uint_head k d : Nat.to_uint k = D0 d -> d = Nil.
Proof.
  intros E. assert (Q := DecimalNat.Unsigned.to_of (Nat.to_uint k)). rewrite DecimalNat.Unsigned.of_to in Q.
  rewrite E in Q at 2. rewrite E in Q. unfold unorm in Q. cbn [nzhead] in Q.
  destruct (nzhead d) eqn:N; try discriminate Q.
  - injection Q. auto.
  - exfalso. exact (nzhead_nonzero _ _ N).
Qed.
Lemma string_of_uint_zero d tl : NilEmpty.string_of_uint d = String "0" tl -> exists d', d = D0 d' /\ tl = NilEmpty.string_of_uint d'.
Proof. destruct d; cbn [NilEmpty.string_of_uint]; intros E; try discriminate E. injection E as <-. eauto. Qed.
Lemma py_str_decimal k : decimal (py_str k) k.
Proof.
  rewrite py_str_uint. split; [|split].
  - destruct (Nat.to_uint k) eqn:E; cbn; try discriminate. destruct (to_uint_not_nil k E).
  - rewrite digits_of_uint, uint_value_of. f_equal. exact (DecimalNat.Unsigned.of_to k).
  - intros tl E. apply string_of_uint_zero in E as (d' & E & ->). apply to_uint_head in E as ->. reflexivity.
Qed.
Lemma py_str_inj j k : py_str j = py_str k -> j = k.
Proof.
  intros E. assert (A := py_str_decimal j). assert (B := py_str_decimal k). rewrite E in A.
  destruct A as (_ & A & _), B as (_ & B & _). rewrite A in B. injection B. auto.
Qed.
Lemma append_assoc (a b c : string) : ((a ++ b) ++ c = a ++ (b ++ c))%string.
Proof. induction a; cbn; congruence. Qed.
Lemma append_cancel (a b c : string) : (a ++ b = a ++ c)%string -> b = c.
Proof. induction a; cbn; intros E; [exact E|]. injection E. exact IHa. Qed.

(** ---- names ---- *)
Definition names_go := fix go (l : ents) : res (list names_val) :=
  match l with [] => Ok [] | (_, q) :: tl => do n <- p_names q; do r <- go tl; Ok (n :: r) end.
Lemma p_names_dict nm es fi vi fs vs : p_names (Dict nm es fi vi fs vs) =
  do ns <- names_go es; match ns with [] => Raise ValueError | _ => Ok (NameList (flat_map names_1d ns)) end.
Proof. reflexivity. Qed.
Definition labels (l : leaf) : list string :=
  if numbers_entries l then numbered (leaf_name l) (leaf_vector_size l) else [leaf_name l].
Lemma leaf_names_labels l : names_1d (leaf_names l) = labels l.
Proof. destruct l; reflexivity. Qed.
Lemma populated_dec p : populated p \/ ~ populated p.
Proof.
  induction p as [l|nm es fi vi fs vs IH] using param_rect'; [left; exact I|].
  rewrite populated_ents. destruct es as [|e0 tl]; [right; intros [N _]; exact (N eq_refl)|].
  assert (D : Forall (fun e => populated (snd e)) (e0 :: tl) \/ ~ Forall (fun e => populated (snd e)) (e0 :: tl)).
  { induction IH as [|e l He Hl IHl]; [left; constructor|]. destruct He as [A|A], IHl as [B|B].
    - left. constructor; assumption.
    - right. intros C. inversion C. contradiction.
    - right. intros C. inversion C. contradiction.
    - right. intros C. inversion C. contradiction. }
  destruct D as [D|D]; [left; split; [discriminate|exact D]|right; intros [_ Q]; contradiction].
Qed.
Lemma names_ok p : populated p -> exists n, p_names p = Ok n /\ names_1d n = flat_map labels (leaves p).
Proof.
  induction p as [l|nm es fi vi fs vs IH] using param_rect'; intros H.
  - exists (leaf_names l). split; [reflexivity|]. cbn [leaves flat_map]. rewrite app_nil_r. apply leaf_names_labels.
  - rewrite populated_ents in H. destruct H as [N H]. rewrite p_names_dict.
    assert (G : exists ns, names_go es = Ok ns /\ length ns = length es /\ flat_map names_1d ns = flat_map labels (flat_map (fun e => leaves (snd e)) es)).
    { clear N. induction IH as [|[k q] tl He Hl IHl]; [exists []; auto|]. inversion H as [|? ? H1 H2]; subst.
      destruct (He H1) as (n & E & L). destruct (IHl H2) as (ns & E' & F & L'). exists (n :: ns). cbn [names_go].
      cbn [snd] in E. rewrite E. cbn [rbind]. fold names_go. rewrite E'. cbn [rbind]. split; [reflexivity|]. split; [cbn; lia|].
      cbn [flat_map snd]. rewrite flat_map_app. cbn [snd] in L. congruence. }
    destruct G as (ns & E & F & L). rewrite E. cbn [rbind]. destruct ns as [|n ns]; [destruct es; [contradiction|discriminate F]|].
    eexists. split; [reflexivity|]. exact L.
Qed.
Lemma names_raise p : ~ populated p -> p_names p = Raise ValueError.
Proof.
  induction p as [l|nm es fi vi fs vs IH] using param_rect'; intros H; [destruct (H I)|].
  rewrite populated_ents in H. rewrite p_names_dict. destruct es as [|e0 tl]; [reflexivity|].
  assert (G : names_go (e0 :: tl) = Raise ValueError).
  { assert (D : ~ Forall (fun e => populated (snd e)) (e0 :: tl)) by (intros D; apply H; split; [discriminate|exact D]).
    clear H. induction IH as [|[k q] l He Hl IHl]; [destruct (D (Forall_nil _))|]. cbn [names_go]. fold names_go.
    destruct (populated_dec q) as [P|P].
    - destruct (names_ok q P) as (n & E & _). rewrite E. cbn [rbind]. rewrite IHl; [reflexivity|]. intros D'. apply D. constructor; assumption.
    - cbn [snd] in He. rewrite (He P). reflexivity. }
  rewrite G. reflexivity.
Qed.
Lemma labels_length l : length (labels l) = label_count l.
Proof. unfold labels, label_count, numbered. destruct (numbers_entries l); [rewrite map_length, seq_length|]; reflexivity. Qed.
Lemma nth_labels l k : k < label_count l -> is_label l k (nth k (labels l) EmptyString).
Proof.
  unfold labels, label_count, is_label. destruct (numbers_entries l); intros H.
  - exists (py_str k). split; [apply py_str_decimal|]. unfold numbered.
    rewrite (nth_indep _ _ ((leaf_name l ++ "_" ++ py_str 0)%string)) by (rewrite map_length, seq_length; exact H).
    rewrite (map_nth (fun k => (leaf_name l ++ "_" ++ py_str k)%string)), seq_nth by exact H. reflexivity.
  - assert (k = 0) by lia. subst. reflexivity.
Qed.
(** positions in a flat_map *)
Lemma nth_flat_map {B} (f : leaf -> list B) (size : leaf -> nat) ls i l k d : (forall m, In m ls -> length (f m) = size m) ->
  position size ls i l k -> nth i (flat_map f ls) d = nth k (f l) d.
Proof.
  intros S (l1 & l2 & -> & K & ->). rewrite flat_map_app. cbn [flat_map].
  assert (E : length (flat_map f l1) = fold_right Nat.add 0 (map size l1)).
  { assert (S1 : forall m, In m l1 -> length (f m) = size m) by (intros; apply S, in_or_app; auto). clear S.
    induction l1 as [|a l1 IH]; [reflexivity|]. cbn. rewrite app_length, (S1 a) by (left; reflexivity). rewrite IH; [reflexivity|].
    intros m M. apply S1. right. exact M. }
  rewrite app_nth2 by lia. rewrite E. rewrite app_nth1; [f_equal; lia|].
  rewrite S by (apply in_or_app; right; left; reflexivity). lia.
Qed.
Lemma position_exists (size : leaf -> nat) ls i : i < fold_right Nat.add 0 (map size ls) -> exists l k, position size ls i l k.
Proof.
  revert i. induction ls as [|a ls IH]; cbn; intros i H; [lia|]. destruct (le_lt_dec (size a) i) as [G|G].
  - destruct (IH (i - size a) ltac:(lia)) as (l & k & l1 & l2 & -> & K & E). exists l, k, (a :: l1), l2. cbn. repeat split; auto. lia.
  - exists a, i, [], ls. cbn. auto.
Qed.
Lemma flat_map_length {B} (f : leaf -> list B) (size : leaf -> nat) ls : (forall m, In m ls -> length (f m) = size m) ->
  length (flat_map f ls) = fold_right Nat.add 0 (map size ls).
Proof.
  intros S. induction ls as [|a l IH]; [reflexivity|]. cbn. rewrite app_length, (S a) by (left; reflexivity). rewrite IH; [reflexivity|].
  intros m M. apply S. right. exact M.
Qed.

Lemma names_spec p :
  (populated p -> exists ns, p_names p = Ok ns /\
     length (names_1d ns) = fold_right Nat.add 0 (map label_count (leaves p)) /\
     forall i l k, position label_count (leaves p) i l k -> is_label l k (nth i (names_1d ns) EmptyString)) /\
  (~ populated p -> p_names p = Raise ValueError).
Proof.
  split; [|apply names_raise]. intros H. destruct (names_ok p H) as (n & E & L). exists n. split; [exact E|]. rewrite L.
  split; [apply flat_map_length; intros; apply labels_length|].
  intros i l k P. rewrite (nth_flat_map labels label_count _ i l k) by (try exact P; intros; apply labels_length).
  destruct P as (? & ? & _ & K & _). apply nth_labels. exact K.
Qed.

(** ---- names against get_vector ---- *)
Lemma leaves_all (P : leaf -> Prop) p : all_leaves P p <-> Forall P (leaves p).
Proof.
  induction p as [l|nm es fi vi fs vs IH] using param_rect'.
  - cbn. split; intros H; [constructor; auto|inversion H; auto].
  - rewrite all_leaves_ents. cbn [leaves]. induction IH as [|e l He Hl IHl]; [split; constructor|]. cbn [flat_map].
    rewrite Forall_app, <- He, <- IHl. split; [intros Q; inversion Q; auto|intros [A B]; constructor; assumption].
Qed.
Lemma p_wf_ents nm es fi vi fs vs : p_wf (Dict nm es fi vi fs vs) -> Forall (fun e => p_wf (snd e)) es.
Proof. intros H. inversion H; assumption. Qed.
Lemma vector_data p a : p_wf p -> all_leaves stored_verbatim p -> p_get_vector p = Ok a -> length (shape a) <= 1 ->
  data a = flat_map (fun l => data (leaf_get l)) (leaves p) /\ populated p /\
  Forall (fun l => length (data (leaf_get l)) = leaf_vector_size l) (leaves p).
Proof.
  revert a. induction p as [l|nm es fi vi fs vs IH] using param_rect'; intros a W V E S.
  - cbn [leaves flat_map]. rewrite app_nil_r. inversion W; subst. assert (D := leaf_verbatim l a V E). splits; [exact D|exact I|].
    constructor; [|constructor]. destruct (leaf_get_vector_sized l a H0 E) as [Wa Sa]. rewrite <- D, Wa. exact Sa.
  - apply p_wf_ents in W. rewrite all_leaves_ents in V. rewrite p_get_vector_dict in E. destruct (get_go p_get_vector es) as [bs|] eqn:G; [|discriminate].
    cbn [rbind] in E. apply get_go_F2 in G. destruct (hstack_flat_data bs a E S) as (D & _ & B). rewrite D. rewrite populated_ents.
    cbn [leaves].
    assert (K : List.concat (map data bs) = flat_map (fun l => data (leaf_get l)) (flat_map (fun e => leaves (snd e)) es) /\
                Forall (fun e => populated (snd e)) es /\
                Forall (fun l => length (data (leaf_get l)) = leaf_vector_size l) (flat_map (fun e => leaves (snd e)) es)).
    { clear -IH W V G B. induction G as [|e b es bs H G IHg]; [splits; constructor|]. inversion IH; inversion W; inversion V; subst.
      destruct (H2 b H6 H10 H (B b (or_introl eq_refl))) as (X1 & X2 & X3).
      destruct IHg as (Y1 & Y2 & Y3); try assumption; [intros; apply B; right; assumption|].
      cbn [map List.concat flat_map]. rewrite flat_map_app, X1, Y1. splits; [reflexivity|constructor; assumption|apply Forall_app; auto]. }
    destruct K as (K1 & K2 & K3). splits; [exact K1| |exact K2|exact K3].
    intros ->. inversion G; subst. discriminate E.
Qed.
Lemma one_label_verbatim l : one_label_per_entry l -> stored_verbatim l.
Proof. destruct l; cbn; auto. Qed.
Lemma one_label_count l : one_label_per_entry l -> label_count l = leaf_vector_size l.
Proof. destruct l; cbn; intros H; try contradiction; reflexivity. Qed.
Lemma position_ext (f g : leaf -> nat) ls i l k : (forall m, In m ls -> f m = g m) -> position f ls i l k -> position g ls i l k.
Proof.
  intros E (l1 & l2 & -> & K & ->). exists l1, l2. splits; [reflexivity|rewrite <- E; [exact K|apply in_or_app; right; left; reflexivity]|].
  f_equal. f_equal. apply map_ext_in. intros m M. apply E, in_or_app. left. exact M.
Qed.
Lemma names_match p a : reachable p -> all_leaves one_label_per_entry p -> p_get_vector p = Ok a -> length (shape a) <= 1 ->
  exists ns, p_names p = Ok ns /\ length (names_1d ns) = p_vector_size p /\ length (data a) = p_vector_size p /\
    forall i, i < p_vector_size p -> exists l k, position leaf_vector_size (leaves p) i l k /\
      is_label l k (nth i (names_1d ns) EmptyString) /\ nth_error (data a) i = nth_error (data (leaf_get l)) k.
Proof.
  intros R O E S. apply reachable_wf in R. assert (V : all_leaves stored_verbatim p).
  { rewrite leaves_all in *. eapply Forall_impl; [|exact O]. exact one_label_verbatim. }
  destruct (vector_data p a R V E S) as (D & P & L). destruct (names_spec p) as [N _]. destruct (N P) as (ns & En & Ln & Lab).
  assert (C : forall m, In m (leaves p) -> label_count m = leaf_vector_size m).
  { intros m M. apply one_label_count. rewrite leaves_all, Forall_forall in O. auto. }
  assert (La : length (data a) = p_vector_size p) by (destruct (p_get_vector_sized p a R E) as [W Q]; rewrite W; exact Q).
  assert (Lf : length (data a) = fold_right Nat.add 0 (map leaf_vector_size (leaves p))).
  { rewrite D. apply flat_map_length. rewrite Forall_forall in L. exact L. }
  exists ns. splits; [exact En| |exact La|].
  - rewrite Ln, <- La, Lf. f_equal. apply map_ext_in, C.
  - intros i Hi. destruct (position_exists leaf_vector_size (leaves p) i) as (l & k & Q); [lia|]. exists l, k. splits; [exact Q| |].
    + apply Lab. eapply position_ext; [|exact Q]. intros m M. symmetry. apply C, M.
    + assert (K : k < length (data (leaf_get l))).
      { destruct Q as (l1 & l2 & El & K & _). rewrite Forall_forall in L. rewrite L; [exact K|]. rewrite El. apply in_or_app. right. left. reflexivity. }
      rewrite (nth_error_nth' _ NaN) by lia. rewrite (nth_error_nth' _ NaN) by exact K. f_equal. rewrite D.
      apply (nth_flat_map (fun l => data (leaf_get l)) leaf_vector_size); [rewrite Forall_forall in L; exact L|exact Q].
Qed.

(** ---- when the labels are distinct ---- *)
Lemma labels_nodup l : NoDup (labels l).
Proof.
  unfold labels. destruct (numbers_entries l); [|constructor; [intros []|constructor]]. unfold numbered.
  apply FinFun.Injective_map_NoDup; [|apply seq_NoDup]. intros j k E. apply append_cancel in E. cbn in E. injection E as E. apply py_str_inj, E.
Qed.
Lemma underscore_split a b c d : no_underscore a -> no_underscore b -> (a ++ "_" ++ c = b ++ "_" ++ d)%string -> a = b.
Proof.
  revert b. induction a as [|x a IH]; intros [|y b] A B E; cbn in *; [reflexivity| | |].
  - injection E as E _. destruct B as [B _]. congruence.
  - injection E as E _. destruct A as [A _]. congruence.
  - injection E as -> E. f_equal. destruct A, B. eapply IH; eassumption.
Qed.
Lemma underscore_bare a b d : no_underscore a -> a = (b ++ "_" ++ d)%string -> False.
Proof. revert b. induction a as [|x a IH]; intros [|y b] A E; cbn in *; try discriminate; injection E as ? E; destruct A as [A1 A2]; [congruence|]. apply (IH b A2 E). Qed.
Lemma labels_name l m s : no_underscore (leaf_name l) -> no_underscore (leaf_name m) -> In s (labels l) -> In s (labels m) -> leaf_name l = leaf_name m.
Proof.
  intros A B. unfold labels, numbered. destruct (numbers_entries l), (numbers_entries m); rewrite ?in_map_iff; cbn [In].
  - intros (j & <- & _) (k & E & _). symmetry. eapply underscore_split; eassumption.
  - intros (j & <- & _) [E|[]]. destruct (underscore_bare _ _ _ B E).
  - intros [<-|[]] (k & E & _). symmetry in E. destruct (underscore_bare _ _ _ A E).
  - intros [<-|[]] [E|[]]. auto.
Qed.
Lemma names_distinct p ns : p_names p = Ok ns -> NoDup (map leaf_name (leaves p)) ->
  Forall (fun l => no_underscore (leaf_name l)) (leaves p) -> NoDup (names_1d ns).
Proof.
  intros E N U. destruct (populated_dec p) as [P|P]; [|rewrite (names_raise p P) in E; discriminate].
  destruct (names_ok p P) as (n & E' & L). rewrite E in E'. injection E' as <-. rewrite L. clear -N U.
  induction (leaves p) as [|l ls IH]; [constructor|]. cbn [flat_map map] in *. inversion N; inversion U; subst.
  assert (G : forall (a b : list string), NoDup a -> NoDup b -> (forall x, In x a -> ~ In x b) -> NoDup (a ++ b)).
  { clear. induction a as [|x a IH]; intros b A B D; [exact B|]. inversion A; subst. cbn. constructor.
    - rewrite in_app_iff. intros [Q|Q]; [contradiction|]. exact (D x (or_introl eq_refl) Q).
    - apply IH; [assumption|assumption|]. intros y Y. apply D. right. exact Y. }
  apply G; [apply labels_nodup|apply IH; assumption|]. intros s A B. apply in_flat_map in B as (m & M & B).
  apply H1. rewrite Forall_forall in H6. rewrite (labels_name l m s); [apply in_map, M|assumption|apply H6, M|exact A|exact B].
Qed.

(** ---- dictval ---- *)
Lemma od_get_set {V} (d : list (string * V)) k v k' : od_get (od_set d k v) k' = if String.eqb k' k then Some v else od_get d k'.
Proof.
  induction d as [|[a w] d IH]; cbn [od_set od_get]; [destruct (String.eqb k' k); reflexivity|].
  destruct (String.eqb_spec k a) as [->|N]; cbn [od_get].
  - destruct (String.eqb_spec k' a); reflexivity.
  - rewrite IH. destruct (String.eqb_spec k' a) as [->|]; [|reflexivity]. destruct (String.eqb_spec a k); [congruence|reflexivity].
Qed.
Lemma od_set_keys {V} (d : list (string * V)) k v : NoDup (map fst d) -> NoDup (map fst (od_set d k v)) /\
  forall x, In x (map fst (od_set d k v)) <-> x = k \/ In x (map fst d).
Proof.
  induction d as [|[a w] d IH]; cbn; intros H; [split; [repeat constructor; auto|intuition]|]. inversion H; subst.
  destruct (IH H3) as [N I]. destruct (String.eqb_spec k a) as [->|]; cbn.
  - split; [constructor; assumption|]. intuition.
  - split; [constructor; [rewrite I; intros [Q|Q]; [congruence|contradiction]|exact N]|]. intros x. rewrite I. intuition.
Qed.
Definition od_all {V} (kvs acc : list (string * V)) := fold_left (fun acc e => od_set acc (fst e) (snd e)) kvs acc.
Lemma od_all_nodup {V} (kvs acc : list (string * V)) : NoDup (map fst acc) -> NoDup (map fst (od_all kvs acc)).
Proof. revert acc. induction kvs as [|e kvs IH]; intros acc H; [exact H|]. apply IH. apply od_set_keys, H. Qed.
Lemma od_all_app {V} (k1 k2 acc : list (string * V)) : od_all (k1 ++ k2) acc = od_all k2 (od_all k1 acc).
Proof. apply fold_left_app. Qed.
Lemma od_all_other {V} (kvs acc : list (string * V)) k : ~ In k (map fst kvs) -> od_get (od_all kvs acc) k = od_get acc k.
Proof.
  revert acc. induction kvs as [|e kvs IH]; intros acc H; [reflexivity|]. cbn [od_all fold_left]. fold (@od_all V kvs (od_set acc (fst e) (snd e))).
  rewrite IH by (intros Q; apply H; right; exact Q). rewrite od_get_set. destruct (String.eqb_spec k (fst e)) as [->|]; [|reflexivity].
  destruct H. left. reflexivity.
Qed.
Definition dict_vals (es : ents) : list (string * pyobj) := od_all (map (fun e => (p_name (snd e), p_dictval (snd e))) es) [].
Lemma p_dictval_dict nm es fi vi fs vs : p_dictval (Dict nm es fi vi fs vs) = ODict (dict_vals es).
Proof. reflexivity. Qed.
Lemma dict_vals_last es k q : last_named es k q -> od_get (dict_vals es) k = Some (p_dictval q).
Proof.
  intros (e1 & key & e2 & -> & N & F). unfold dict_vals. rewrite map_app, od_all_app. cbn [map od_all fold_left snd fst].
  fold (@od_all pyobj (map (fun e => (p_name (snd e), p_dictval (snd e))) e2)). 
  match goal with |- od_get (fold_left _ ?l ?a) k = _ => change (od_get (od_all l a) k = Some (p_dictval q)) end.
  rewrite od_all_other, od_get_set, <- N, String.eqb_refl; [reflexivity|]. rewrite map_map, in_map_iff. intros (e & E & I).
  rewrite Forall_forall in F. apply (F e I). cbn in E. congruence.
Qed.
Lemma dict_vals_none es k : ~ In k (map (fun e => p_name (snd e)) es) -> od_get (dict_vals es) k = None.
Proof. intros H. unfold dict_vals. rewrite od_all_other; [reflexivity|]. rewrite map_map. exact H. Qed.
Lemma dictval_lookup d : is_dict d = true -> exists kvs, p_dictval d = ODict kvs /\ NoDup (map fst kvs) /\
  (forall k q, last_named (p_entries d) k q -> od_get kvs k = Some (p_dictval q)) /\
  (forall k, ~ In k (map (fun e => p_name (snd e)) (p_entries d)) -> od_get kvs k = None).
Proof.
  destruct d as [|nm es fi vi fs vs]; [discriminate|]. intros _. exists (dict_vals es). splits; [reflexivity| | |].
  - apply od_all_nodup. constructor.
  - apply dict_vals_last.
  - apply dict_vals_none.
Qed.

(** ---- tolist ---- *)
Lemma nth_error_slice {A} (d : list A) lo m j : j < m -> nth_error (slice d lo (lo + m)) j = nth_error d (lo + j).
Proof.
  intros H. unfold slice. replace (lo + m - lo) with m by lia. revert lo m j H. induction d as [|x d IH]; intros lo m j H.
  - rewrite skipn_nil, firstn_nil. destruct j, lo; reflexivity.
  - destruct lo as [|lo]; cbn [skipn].
    + clear IH. cbn [plus]. revert m j H. generalize (x :: d). induction l as [|y l IH]; intros m j H; [rewrite firstn_nil; reflexivity|].
      destruct m as [|m]; [lia|]. destruct j as [|j]; [reflexivity|]. cbn. apply IH. lia.
    + cbn [plus nth_error]. apply IH, H.
Qed.
Lemma nth_error_seq_map {B} (f : nat -> B) n i : nth_error (map f (seq 0 n)) i = if i <? n then Some (f i) else None.
Proof.
  destruct (Nat.ltb_spec i n) as [H|H].
  - rewrite (nth_error_nth' _ (f 0)) by (rewrite map_length, seq_length; exact H). rewrite map_nth, seq_nth by exact H. reflexivity.
  - apply nth_error_None. rewrite map_length, seq_length. exact H.
Qed.
Lemma slice_len {A} (d : list A) n m i : length d = n * m -> i < n -> length (slice d (i * m) (i * m + m)) = m.
Proof. intros L I. rewrite slice_length; [lia|]. rewrite L. nia. Qed.
Lemma entry_in s : forall d idx, length d = nprod s -> Forall2 lt idx s -> entry_of (to_list s d) idx = nth_error d (ravel idx s) /\ ravel idx s < nprod s.
Proof.
  induction s as [|n s IH]; intros d idx L F; inversion F as [|i ? idx' ? I F']; subst.
  - destruct d as [|x [|]]; try discriminate L. split; [reflexivity|]. apply Nat.lt_0_1.
  - cbn [to_list entry_of ravel]. rewrite nth_error_seq_map. destruct (Nat.ltb_spec i n); [|lia].
    assert (L' : length d = n * nprod s) by exact L.
    destruct (IH (slice d (i * nprod s) (i * nprod s + nprod s)) idx') as [E B]; [apply (slice_len d n); assumption|exact F'|].
    rewrite E. rewrite nth_error_slice by exact B. split; [reflexivity|]. unfold nprod in *; cbn [fold_right]. nia.
Qed.
Lemma entry_out s : forall d idx, ~ Forall2 lt idx s -> entry_of (to_list s d) idx = None.
Proof.
  induction s as [|n s IH]; intros d idx F; cbn [to_list entry_of]; destruct idx as [|i idx]; try reflexivity.
  - destruct F. constructor.
  - cbn [entry_of]. rewrite nth_error_seq_map. destruct (Nat.ltb_spec i n); [|reflexivity]. apply IH. intros Q. apply F. constructor; assumption.
Qed.
Lemma dictval_leaf l idx : nd_wf (leaf_get l) ->
  (Forall2 lt idx (shape (leaf_get l)) -> exists x, entry_of (p_dictval (Leaf l)) idx = Some x /\ nth_error (data (leaf_get l)) (ravel idx (shape (leaf_get l))) = Some x) /\
  (~ Forall2 lt idx (shape (leaf_get l)) -> entry_of (p_dictval (Leaf l)) idx = None).
Proof.
  intros W. split; [|apply entry_out]. intros F. destruct (entry_in _ (data (leaf_get l)) idx W F) as [E B]. cbn [p_dictval]. unfold leaf_dictval. rewrite E.
  destruct (nth_error (data (leaf_get l)) (ravel idx (shape (leaf_get l)))) as [x|] eqn:Q; [eauto|]. apply nth_error_None in Q. rewrite W in Q. lia.
Qed.
Lemma to_list_inj s : forall s' d d', length d = nprod s -> 0 < nprod s -> length d' = nprod s' -> 0 < nprod s' ->
  to_list s d = to_list s' d' -> s = s' /\ d = d'.
Proof.
  induction s as [|n s IH]; intros [|n' s'] d d' L P L' P' E; try discriminate E.
  - cbn in L, L'. destruct d as [|x [|]]; try discriminate L. destruct d' as [|y [|]]; try discriminate L'. injection E as ->. auto.
  - cbn [to_list] in E. injection E as E.
    assert (n = n') as <- by (apply (f_equal (@length _)) in E; rewrite !map_length, !seq_length in E; exact E).
    assert (G : forall i, i < n -> to_list s (slice d (i * nprod s) (i * nprod s + nprod s)) = to_list s' (slice d' (i * nprod s') (i * nprod s' + nprod s'))).
    { intros i I. apply (f_equal (fun l => nth_error l i)) in E. rewrite !nth_error_seq_map in E. destruct (Nat.ltb_spec i n); [|lia]. injection E. auto. }
    change (nprod (n :: s)) with (n * nprod s) in *. change (nprod (n :: s')) with (n * nprod s') in *.
    assert (K : forall i, i < n -> s = s' /\ slice d (i * nprod s) (i * nprod s + nprod s) = slice d' (i * nprod s') (i * nprod s' + nprod s')).
    { intros i I. apply IH; [apply (slice_len d n); assumption|nia|apply (slice_len d' n); assumption|nia|apply G, I]. }
    destruct (K 0) as [<- _]; [nia|]. split; [reflexivity|].
    apply (nth_ext _ _ NaN NaN); [lia|]. intros i I. assert (M : 0 < nprod s) by nia.
    assert (B : i / nprod s < n) by (apply Nat.div_lt_upper_bound; lia). destruct (K _ B) as [_ Q].
    apply (f_equal (fun l => nth_error l (i mod nprod s))) in Q.
    assert (C : i mod nprod s < nprod s) by (apply Nat.mod_upper_bound; lia). rewrite !nth_error_slice in Q by exact C.
    replace (i / nprod s * nprod s + i mod nprod s) with i in Q by (rewrite (Nat.mul_comm (i / nprod s)); apply Nat.div_mod; lia).
    rewrite !(nth_error_nth' _ NaN) in Q by lia. injection Q. auto.
Qed.
Lemma to_list_not_dict s d kvs : to_list s d <> ODict kvs.
Proof. destruct s; discriminate. Qed.
Lemma names_are_keys_ents nm es fi vi fs vs : names_are_keys (Dict nm es fi vi fs vs) <-> Forall (fun e => p_name (snd e) = fst e /\ names_are_keys (snd e)) es.
Proof.
  cbn [names_are_keys]. induction es as [|[k q] es IH]; [split; constructor|]. split.
  - intros (A & B & C). constructor; [split; assumption|]. apply IH, C.
  - intros H. inversion H as [|? ? [A B] C]; subst. cbn in A, B. splits; [exact A|exact B|]. apply IH, C.
Qed.
Lemma own_name_last (es : ents) k q : NoDup (map fst es) -> Forall (fun e => p_name (snd e) = fst e /\ names_are_keys (snd e)) es ->
  od_get es k = Some q -> last_named es k q.
Proof.
  intros N F G. apply od_get_split in G as (e1 & e2 & -> & _). exists e1, k, e2. rewrite Forall_app in F. destruct F as [_ F].
  inversion F as [|? ? [A _] B]; subst. cbn in A. splits; [reflexivity|exact A|]. rewrite map_app in N. apply NoDup_remove_2 in N.
  rewrite Forall_forall in *. intros e I Q. apply N. rewrite in_app_iff. right. destruct (B e I) as [C _]. change (In k (map fst e2)). rewrite <- Q, C. apply in_map, I.
Qed.
Lemma own_name_none (es : ents) k : Forall (fun e => p_name (snd e) = fst e /\ names_are_keys (snd e)) es ->
  od_get es k = None -> od_get (dict_vals es) k = None.
Proof.
  intros F G. apply dict_vals_none. apply od_get_none in G. intros Q. apply G. apply in_map_iff in Q as (e & <- & I).
  rewrite Forall_forall in F. destruct (F e I) as [-> _]. apply in_map, I.
Qed.
Lemma dictval_faithful p p' : reachable p -> reachable p' -> names_are_keys p -> names_are_keys p' ->
  all_leaves has_entries p -> all_leaves has_entries p' -> p_dictval p = p_dictval p' ->
  forall path l, p_at p path = Ok (Leaf l) -> exists l', p_at p' path = Ok (Leaf l') /\ leaf_get l' = leaf_get l.
Proof.
  intros R R'. apply reachable_wf in R, R'. intros K K' A A' E path. revert p p' R R' K K' A A' E.
  induction path as [|k path IH]; intros p p' R R' K K' A A' E l At; cbn [p_at] in *.
  - injection At as ->. destruct p' as [l'|nm es fi vi fs vs].
    + exists l'. split; [reflexivity|]. cbn in E, A, A'. destruct A as [W P], A' as [W' P']. unfold leaf_dictval in E.
      destruct (to_list_inj _ _ _ _ W P W' P' E) as [S D]. destruct (leaf_get l), (leaf_get l'). cbn in *. congruence.
    + destruct (to_list_not_dict _ _ _ E).
  - destruct p as [l0|nm es fi vi fs vs]; [discriminate At|]. cbn [d_getitem] in At. destruct (od_get es k) as [q|] eqn:G; [|discriminate At].
    cbn [rbind] in At. destruct p' as [l'|nm' es' fi' vi' fs' vs']; [symmetry in E; destruct (to_list_not_dict _ _ _ E)|].
    rewrite !p_dictval_dict in E. injection E as E. rewrite names_are_keys_ents in K, K'. rewrite all_leaves_ents in A, A'.
    inversion R as [|? ? ? ? ? ? N F _ _ _ _]; inversion R' as [|? ? ? ? ? ? N' F' _ _ _ _]; subst.
    assert (D := dict_vals_last es k q (own_name_last es k q N K G)). rewrite E in D. cbn [d_getitem].
    destruct (od_get es' k) as [q'|] eqn:G'; [|rewrite (own_name_none es' k K' G') in D; discriminate].
    rewrite (dict_vals_last es' k q' (own_name_last es' k q' N' K' G')) in D. injection D as D. cbn [rbind].
    apply (IH q q').
    + exact (Forall_od_get p_wf es k q F G).
    + exact (Forall_od_get p_wf es' k q' F' G').
    + apply (Forall_od_get names_are_keys es k); [|exact G]. eapply Forall_impl; [|exact K]. intros ? [_ Q]; exact Q.
    + apply (Forall_od_get names_are_keys es' k); [|exact G']. eapply Forall_impl; [|exact K']. intros ? [_ Q]; exact Q.
    + exact (Forall_od_get (all_leaves has_entries) es k q A G).
    + exact (Forall_od_get (all_leaves has_entries) es' k q' A' G').
    + symmetry. exact D.
    + exact At.
Qed.

(** ---- views ---- *)
Lemma view_read p path : forall v, view_at (p_get p) path = Ok v <-> exists q, p_at p path = Ok q /\ v = p_get q.
Proof.
  revert p. induction path as [|k path IH]; intros p v; cbn [view_at p_at].
  - split; [intros E; injection E as <-; eauto|]. intros (q & E & ->). injection E as ->. reflexivity.
  - destruct p as [l|nm es fi vi fs vs]; cbn [p_get view_getitem rbind d_getitem].
    + split; [discriminate|]. intros (q & E & _). discriminate E.
    + destruct (od_get es k) as [q|]; cbn [rmap rbind]; [apply IH|]. split; [discriminate|]. intros (q & E & _). discriminate E.
Qed.
Lemma view_read_errors p pre k post :
  (forall d, p_at p pre = Ok d -> is_dict d = true -> d_getitem d k = Raise KeyError -> view_at (p_get p) (pre ++ k :: post) = Raise KeyError) /\
  (forall l, p_at p pre = Ok (Leaf l) -> (forall q, l <> LScalar q) -> view_at (p_get p) (pre ++ k :: post) = Raise IndexError).
Proof.
  revert p. induction pre as [|k1 pre IH]; intros p; cbn [app view_at p_at].
  - split.
    + intros d E D G. injection E as ->. destruct d; [discriminate D|]. cbn [p_get view_getitem]. rewrite G. reflexivity.
    + intros l E _. injection E as ->. reflexivity.
  - destruct p as [l|nm es fi vi fs vs]; cbn [p_get view_getitem rbind d_getitem].
    + split; intros ? E; discriminate E.
    + destruct (od_get es k1) as [q|]; cbn [rmap rbind]; [apply IH|]. split; intros ? E; discriminate E.
Qed.
Lemma leaf_set_raise l a l' e : leaf_set l a = (l', Raise e) -> l' = l.
Proof.
  destruct l as [p|p|p|p|p|p|p|p]; cbn [leaf_set]; unfold lift; intros E; injection E as <- E;
    f_equal; revert E; cbn [fst snd];
    unfold scalar_set, vector_set, array_set, posdef_set, pv_set, pa_set, simplex_set, subspace_set;
    repeat (match goal with
      | |- context [match ?x with _ => _ end] => destruct x
      | |- context [if ?x then _ else _] => destruct x
      end; cbn; try reflexivity; try discriminate); intros; try reflexivity; try discriminate.
Qed.
Lemma od_replace_same {V} (d : list (string * V)) k v : od_get d k = Some v -> od_replace d k v = d.
Proof. induction d as [|[a w] d IH]; cbn; [discriminate|]. destruct (String.eqb k a); [intros E; injection E as ->; reflexivity|]. intros E. rewrite IH by exact E. reflexivity. Qed.
Lemma od_get_replace {V} (d : list (string * V)) k v : (exists w, od_get d k = Some w) -> od_get (od_replace d k v) k = Some v.
Proof.
  induction d as [|[a w] d IH]; cbn; intros [u E]; [discriminate|]. destruct (String.eqb_spec k a) as [->|N]; cbn; [rewrite String.eqb_refl; reflexivity|].
  destruct (String.eqb_spec k a); [congruence|]. apply IH. eauto.
Qed.
Lemma od_get_replace_other {V} (d : list (string * V)) k v k' : k' <> k -> od_get (od_replace d k v) k' = od_get d k'.
Proof.
  intros N. induction d as [|[a w] d IH]; cbn; [reflexivity|]. destruct (String.eqb_spec k a) as [->|]; cbn.
  - destruct (String.eqb_spec k' a); [congruence|reflexivity].
  - rewrite IH. reflexivity.
Qed.
Lemma view_write_same d path k a e : snd (view_set_at d path k a) = Raise e -> fst (view_set_at d path k a) = d.
Proof.
  revert d. induction path as [|k1 path IH]; intros [l|nm es fi vi fs vs]; cbn [view_set_at].
  - reflexivity.
  - unfold values_setitem. cbn [d_getitem]. destruct (od_get es k) as [q|] eqn:G; [|reflexivity]. cbn [fst snd]. intros E. cbn [d_replace].
    rewrite od_replace_same; [reflexivity|]. rewrite G. f_equal. destruct q as [l|]; cbn [p_set fst snd] in *; [|reflexivity].
    f_equal. symmetry. apply (leaf_set_raise l a _ e). rewrite <- E. apply surjective_pairing.
  - reflexivity.
  - cbn [d_getitem]. destruct (od_get es k1) as [q|] eqn:G; [|reflexivity]. destruct q as [l|nm1 es1 fi1 vi1 fs1 vs1]; [reflexivity|]. cbn [fst snd]. intros E.
    cbn [d_replace]. rewrite od_replace_same; [reflexivity|]. rewrite (IH _ E). exact G.
Qed.
Lemma view_write d path k a : forall d' r, view_set_at d path k a = (d', r) ->
  (forall e, r = Raise e -> d' = d) /\
  (r = Ok tt -> exists l l', p_at d (path ++ [k]) = Ok (Leaf l) /\ leaf_set l a = (l', Ok tt) /\ p_at d' (path ++ [k]) = Ok (Leaf l')) /\
  (forall l l', p_at d (path ++ [k]) = Ok (Leaf l) -> leaf_set l a = (l', Ok tt) -> r = Ok tt) /\
  (forall other, diverge other (path ++ [k]) -> p_at d' other = p_at d other).
Proof.
  intros d' r E. split; [|revert d d' r E].
  { intros e ->. assert (Q := view_write_same d path k a e). rewrite E in Q. apply Q. reflexivity. }
  induction path as [|k1 path IH]; intros d d' r E; cbn [view_set_at app] in E |- *.
  - destruct d as [l0|nm es fi vi fs vs].
    + unfold values_setitem in E. cbn in E. injection E as <- <-. splits; [discriminate| |reflexivity]. intros l l' Q. discriminate Q.
    + unfold values_setitem in E. cbn [d_getitem] in E. destruct (od_get es k) as [q|] eqn:G.
      * injection E as <- <-. splits.
        -- intros E. destruct q as [l|]; [|discriminate E]. exists l, (fst (leaf_set l a)). cbn [p_at d_getitem]. rewrite G. cbn [rbind]. splits; [reflexivity| |].
           ++ cbn [p_set snd] in E. rewrite <- E. apply surjective_pairing.
           ++ cbn [d_replace d_getitem]. rewrite od_get_replace by eauto. reflexivity.
        -- cbn [p_at d_getitem]. rewrite G. cbn [rbind]. intros l l' Q S. injection Q as ->. cbn [p_set snd]. rewrite S. reflexivity.
        -- intros other D. destruct other as [|x other]; [destruct D|]. cbn [p_at d_replace d_getitem]. cbn [diverge] in D.
           destruct D as [D|D]; [|destruct other; destruct D]. rewrite od_get_replace_other by exact D. reflexivity.
      * injection E as <- <-. splits; [discriminate| |reflexivity]. intros l l' Q. cbn [p_at d_getitem] in Q. rewrite G in Q. discriminate Q.
  - destruct d as [l0|nm es fi vi fs vs].
    + cbn [d_getitem] in E. injection E as <- <-. splits; [discriminate| |reflexivity]. intros l l' Q. discriminate Q.
    + cbn [d_getitem] in E. destruct (od_get es k1) as [q|] eqn:G.
      * destruct q as [l0|nm1 es1 fi1 vi1 fs1 vs1].
        -- injection E as <- <-. splits; [discriminate| |reflexivity]. intros l l' Q. cbn [p_at d_getitem] in Q. rewrite G in Q. cbn [rbind] in Q.
           destruct path; cbn in Q; discriminate Q.
        -- set (q := Dict nm1 es1 fi1 vi1 fs1 vs1) in *. destruct (view_set_at q path k a) as [q' r'] eqn:E1. cbn [fst snd] in E. injection E as <- <-.
           destruct (IH q q' r' E1) as (A & B & C). cbn [p_at d_getitem d_replace]. rewrite G. cbn [rbind]. rewrite od_get_replace by eauto. cbn [rbind]. splits; [exact A|exact B|].
           intros other D. destruct other as [|x other]; [destruct D|]. cbn [diverge] in D. cbn [p_at d_getitem].
           destruct (string_dec x k1) as [->|N].
           ++ rewrite G, od_get_replace by eauto. cbn [rbind]. apply C. destruct D as [D|D]; [contradiction|exact D].
           ++ rewrite od_get_replace_other by exact N. reflexivity.
      * injection E as <- <-. splits; [discriminate| |reflexivity]. intros l l' Q. cbn [p_at d_getitem] in Q. rewrite G in Q. discriminate Q.
Qed.
Lemma view_errors d path k a : is_dict d = true ->
  (forall pre k' post q, path ++ [k] = pre ++ k' :: post -> p_at d pre = Ok q -> is_dict q = true -> d_getitem q k' = Raise KeyError ->
     snd (view_set_at d path k a) = Raise KeyError) /\
  (forall pre k' post l, path ++ [k] = pre ++ k' :: post -> p_at d pre = Ok (Leaf l) -> (forall p, l <> LScalar p) ->
     snd (view_set_at d path k a) = Raise IndexError) /\
  (forall l e, p_at d (path ++ [k]) = Ok (Leaf l) -> snd (leaf_set l a) = Raise e -> snd (view_set_at d path k a) = Raise e) /\
  (forall q, p_at d (path ++ [k]) = Ok q -> is_dict q = true -> snd (view_set_at d path k a) = Raise AttributeError).
Proof.
  revert d. induction path as [|k1 path IH]; intros [l0|nm es fi vi fs vs] D; try discriminate D; cbn [view_set_at app].
  - unfold values_setitem. splits.
    + intros pre k' post q E P Q G. destruct pre as [|x pre]; [|destruct pre; discriminate E]. injection E as <- <-. injection P as <-. rewrite G. reflexivity.
    + intros pre k' post l E P _. destruct pre as [|x pre]; [discriminate P|destruct pre; discriminate E].
    + intros l e P S. cbn [p_at] in P. destruct (d_getitem _ k) as [q|]; [|discriminate P]. injection P as ->. exact S.
    + intros q P Q. cbn [p_at] in P. destruct (d_getitem _ k) as [q'|]; [|discriminate P]. injection P as ->. destruct q; [discriminate Q|reflexivity].
  - cbn [p_at]. destruct (d_getitem (Dict nm es fi vi fs vs) k1) as [q1|e1] eqn:G1.
    2:{ assert (e1 = KeyError) by (cbn in G1; destruct (od_get es k1); congruence). subst e1. splits.
        - reflexivity.
        - intros pre k' post l E P _. destruct pre as [|x pre]; [discriminate P|]. injection E as <- _. cbn [p_at] in P. rewrite G1 in P. discriminate P.
        - intros l e P. discriminate P.
        - intros q P. discriminate P. }
    destruct q1 as [l1|nm1 es1 fi1 vi1 fs1 vs1].
    + cbn [rbind]. assert (T : forall tl q, tl <> [] -> p_at (Leaf l1) tl = Ok q -> False) by (intros [|? ?] q T P; [contradiction|discriminate P]). splits.
      * intros pre k' post q E P Q G. exfalso. destruct pre as [|x pre].
        -- injection P as <-. injection E as <- _. rewrite G1 in G. discriminate G.
        -- injection E as <- E. cbn [p_at] in P. rewrite G1 in P. cbn [rbind] in P. destruct pre as [|y pre]; [injection P as <-; discriminate Q|discriminate P].
      * reflexivity.
      * intros l e P. destruct (T _ _ ltac:(destruct path; discriminate) P).
      * intros q P. destruct (T _ _ ltac:(destruct path; discriminate) P).
    + set (q1 := Dict nm1 es1 fi1 vi1 fs1 vs1) in *. destruct (IH q1 eq_refl) as (A & B & C & E0). cbn [rbind snd]. splits.
      * intros pre k' post q E P Q G. destruct pre as [|x pre].
        -- injection P as <-. injection E as <- _. rewrite G1 in G. discriminate G.
        -- injection E as <- E. cbn [p_at] in P. rewrite G1 in P. exact (A _ _ _ _ E P Q G).
      * intros pre k' post l E P N. destruct pre as [|x pre]; [discriminate P|].
        injection E as <- E. cbn [p_at] in P. rewrite G1 in P. exact (B _ _ _ _ E P N).
      * exact C.
      * exact E0.
Qed.

(** ---- safe_matmul, compress (C98) ---- *)
Open Scope R_scope.
Lemma entry_sum n i (ent : list (nat * nat * R)) (x : nat -> R) sh : (forall r c v, In ((r, c), v) ent -> (c < n)%nat) ->
  lsum (map (fun e => let '(r, c, v) := e in if Nat.eqb r i then v * x c else 0) ent) = rsum n (fun k => coo_get (Coo sh ent) i k * x k).
Proof.
  induction ent as [|[[r c] v] ent IH]; intros H.
  - cbn. symmetry. apply rsum_zero. intros k _. unfold coo_get. cbn. ring.
  - cbn [map lsum fold_right]. change (fold_right Rplus 0) with lsum. rewrite IH by (intros; eapply H; right; eassumption).
    assert (C : (c < n)%nat) by (eapply H; left; reflexivity).
    replace (if Nat.eqb r i then v * x c else 0) with (rsum n (fun k => (if (Nat.eqb r i && Nat.eqb c k)%bool then v else 0) * x k)).
    + rewrite <- rsum_plus. apply rsum_ext. intros k _. unfold coo_get. cbn [coo_ent map lsum fold_right]. change (fold_right Rplus 0) with lsum. ring.
    + destruct (Nat.eqb r i).
      * rewrite (rsum_single n c); [rewrite Nat.eqb_refl; reflexivity|exact C|]. intros k _ K. destruct (Nat.eqb_spec c k); [congruence|]. cbn. ring.
      * apply rsum_zero. intros. cbn. ring.
Qed.
Lemma coo_T_get M i j : coo_get (coo_T M) i j = coo_get M j i.
Proof.
  unfold coo_get, coo_T. cbn [coo_ent]. rewrite map_map. apply lsum_map_ext. intros [[r c] v] _. cbn. rewrite andb_comm. reflexivity.
Qed.
Lemma product_entry (r c : nat) (v : R) N i j sh :
  lsum (map (fun e => let '(a, b, w) := e in if (Nat.eqb a i && Nat.eqb b j)%bool then w else 0)
    (flat_map (fun f => let '(r', c', w) := f in if Nat.eqb c r' then [((r, c'), v * w)] else []) N)) =
  if Nat.eqb r i then v * coo_get (Coo sh N) c j else 0.
Proof.
  induction N as [|[[r' c'] w] N IH]; cbn [flat_map map].
  - unfold coo_get. cbn. destruct (Nat.eqb r i); ring.
  - rewrite map_app, lsum_app, IH. unfold coo_get. cbn [coo_ent map lsum fold_right]. change (fold_right Rplus 0) with lsum.
    rewrite (Nat.eqb_sym r' c). destruct (Nat.eqb c r'); cbn [map lsum fold_right andb].
    + destruct (Nat.eqb r i); cbn [andb]; [|ring]. destruct (Nat.eqb c' j); cbn [andb]; ring.
    + destruct (Nat.eqb r i); ring.
Qed.
Lemma sparse_sparse_get M N P i j : m_ok (SparseM M) -> sparse_sparse M N = Ok P ->
  coo_get P i j = rsum (snd (coo_shape M)) (fun k => coo_get M i k * coo_get N k j).
Proof.
  intros H E. unfold sparse_sparse in E. destruct (negb _); [discriminate|]. injection E as <-. unfold coo_get at 1. cbn [coo_ent].
  destruct M as [sh ent]. cbn [coo_ent coo_shape m_ok fst snd] in *. destruct N as [shN N]. cbn [coo_ent].
  transitivity (lsum (map (fun e => let '(r, c, v) := e in if Nat.eqb r i then v * coo_get (Coo shN N) c j else 0) ent)).
  - clear H. induction ent as [|[[r c] v] ent IH]; [reflexivity|]. cbn [flat_map map]. rewrite map_app, lsum_app, IH.
    cbn [map lsum fold_right]. change (fold_right Rplus 0) with lsum. rewrite (product_entry r c v N i j shN). reflexivity.
  - apply (entry_sum _ i ent (fun c => coo_get (Coo shN N) c j) sh). intros r c v I. apply (H r c v I).
Qed.
Lemma sparse_sparse_ok M N P : m_ok (SparseM M) -> m_ok (SparseM N) -> sparse_sparse M N = Ok P -> m_ok (SparseM P).
Proof.
  intros HM HN E. unfold sparse_sparse in E. destruct (negb _); [discriminate|]. injection E as <-. cbn [m_ok coo_shape coo_ent fst snd].
  intros r c v I. apply in_flat_map in I as ([[r1 c1] v1] & I1 & I). apply in_flat_map in I as ([[r2 c2] v2] & I2 & I).
  destruct (Nat.eqb c1 r2); [|destruct I]. destruct I as [E|[]]. injection E as <- <- _. split; [apply (HM _ _ _ I1)|apply (HN _ _ _ I2)].
Qed.
Lemma safe_matmul_vec_spec M x : m_ok M ->
  (m_cols M <> length x -> safe_matmul_vec M x = Raise ValueError) /\
  (m_cols M = length x -> exists y, safe_matmul_vec M x = Ok y /\ length y = m_rows M /\
     forall i, (i < m_rows M)%nat -> nth i y 0 = rsum (length x) (fun k => m_entry M i k * nth k x 0)).
Proof.
  intros H. destruct M as [A|A]; cbn [m_cols m_rows m_entry safe_matmul_vec].
  - unfold mat_vec. split; intros E.
    + destruct (Nat.eqb_spec (rm_cols A) (length x)); [contradiction|reflexivity].
    + rewrite E, Nat.eqb_refl. cbn [negb]. eexists. split; [reflexivity|]. split; [rewrite map_length, seq_length; reflexivity|].
      intros i I. match goal with |- nth i (map ?f _) 0 = _ => rewrite (nth_indep _ 0 (f 0%nat)) by (rewrite map_length, seq_length; exact I); rewrite (map_nth f), seq_nth by exact I end. reflexivity.
  - unfold sparse_vec. split; intros E.
    + destruct (Nat.eqb_spec (snd (coo_shape A)) (length x)); [contradiction|reflexivity].
    + rewrite E, Nat.eqb_refl. cbn [negb]. eexists. split; [reflexivity|]. split; [rewrite map_length, seq_length; reflexivity|].
      intros i I. match goal with |- nth i (map ?f _) 0 = _ => rewrite (nth_indep _ 0 (f 0%nat)) by (rewrite map_length, seq_length; exact I); rewrite (map_nth f), seq_nth by exact I end.
      rewrite <- E. destruct A as [sh ent]. apply (entry_sum _ i ent (fun c => nth c x 0) sh). intros r c v J. apply (H r c v J).
Qed.
Definition is_sparse (M : matrix) : bool := match M with SparseM _ => true | DenseM _ => false end.
Lemma safe_matmul_spec M N : m_ok M -> m_ok N ->
  (m_cols M <> m_rows N -> safe_matmul M N = Raise ValueError) /\
  (m_cols M = m_rows N -> exists P, safe_matmul M N = Ok P /\ m_ok P /\ m_rows P = m_rows M /\ m_cols P = m_cols N /\
     forall i j, (i < m_rows M)%nat -> (j < m_cols N)%nat -> m_entry P i j = rsum (m_cols M) (fun k => m_entry M i k * m_entry N k j)).
Proof.
  intros HM HN. destruct M as [A|A], N as [B|B]; cbn [m_cols m_rows m_entry safe_matmul].
  - unfold mat_mat. split; intros E.
    + destruct (Nat.eqb_spec (rm_cols A) (rm_rows B)); [contradiction|reflexivity].
    + rewrite E, Nat.eqb_refl. eexists. split; [reflexivity|]. cbn. splits; try reflexivity.
  - unfold dense_sparse, sparse_dense. cbn [coo_T coo_shape fst snd rm_T rm_rows rm_cols]. split; intros E.
    + destruct (Nat.eqb_spec (fst (coo_shape B)) (rm_cols A)); [congruence|reflexivity].
    + rewrite <- E, Nat.eqb_refl. cbn [negb rmap]. eexists. split; [reflexivity|]. cbn [m_ok m_rows m_cols m_entry rm_T rm_rows rm_cols rm_get]. splits; try reflexivity.
      intros i j I J. destruct B as [sh ent]. set (T := map (fun e : nat * nat * R => let '(r, c, v) := e in ((c, r), v)) ent).
      change (coo_ent (coo_T (Coo sh ent))) with T.
      rewrite (entry_sum (rm_cols A) j T (fun c => rm_get A i c) (snd sh, fst sh)).
      * apply rsum_ext. intros k _. change (Coo (snd sh, fst sh) T) with (coo_T (Coo sh ent)). rewrite coo_T_get. ring.
      * intros r c v Q. apply in_map_iff in Q as ([[r' c'] v'] & Q & I'). injection Q as <- <- <-. cbn [coo_shape fst] in E. rewrite E. apply (HN _ _ _ I').
  - unfold sparse_dense. split; intros E.
    + destruct (Nat.eqb_spec (snd (coo_shape A)) (rm_rows B)); [contradiction|reflexivity].
    + rewrite E, Nat.eqb_refl. cbn [negb rmap]. eexists. split; [reflexivity|]. cbn [m_ok m_rows m_cols m_entry rm_rows rm_cols rm_get]. splits; try reflexivity.
      intros i j I J. destruct A as [sh ent]. cbn [coo_ent coo_shape] in *. apply (entry_sum _ i ent (fun c => rm_get B c j) sh).
      intros r c v Q. rewrite <- E. apply (HM _ _ _ Q).
  - split; intros E.
    + unfold sparse_sparse. destruct (Nat.eqb_spec (snd (coo_shape A)) (fst (coo_shape B))); [contradiction|reflexivity].
    + destruct (sparse_sparse A B) as [P|] eqn:Q; [|unfold sparse_sparse in Q; rewrite E, Nat.eqb_refl in Q; discriminate].
      exists (SparseM P). cbn [rmap]. splits; [reflexivity|exact (sparse_sparse_ok A B P HM HN Q)| | |].
      * unfold sparse_sparse in Q. rewrite E, Nat.eqb_refl in Q. injection Q as <-. reflexivity.
      * unfold sparse_sparse in Q. rewrite E, Nat.eqb_refl in Q. injection Q as <-. reflexivity.
      * intros i j _ _. cbn [m_entry]. apply (sparse_sparse_get A B P i j HM Q).
Qed.
(** compress *)
Lemma squeeze_prod s : nprod (filter (fun n => negb (Nat.eqb n 1)) s) = nprod s.
Proof.
  induction s as [|n s IH]; [reflexivity|]. cbn [filter]. change (nprod (n :: s)) with (n * nprod s)%nat.
  destruct (Nat.eqb_spec n 1) as [->|]; cbn [negb]; [rewrite IH; lia|]. change (nprod (n :: filter (fun n => negb (Nat.eqb n 1)) s)) with (n * nprod (filter (fun n => negb (Nat.eqb n 1)) s))%nat.
  rewrite IH. reflexivity.
Qed.
Lemma compress_spec M : nd_wf (compress M) /\ shape (compress M) = filter (fun n => negb (Nat.eqb n 1)) [m_rows M; m_cols M] /\
  forall i j, (i < m_rows M)%nat -> (j < m_cols M)%nat -> nth_error (data (compress M)) (i * m_cols M + j) = Some (m_entry M i j).
Proof.
  assert (G : forall n m (f : nat -> nat -> R), length (data (mk_mat n m f)) = (n * m)%nat /\
     forall i j, (i < n)%nat -> (j < m)%nat -> nth_error (data (mk_mat n m f)) (i * m + j) = Some (f i j)).
  { intros n m f. cbn [mk_mat data]. assert (L : forall a k, length (flat_map (fun i => map (f i) (seq 0 m)) (seq a k)) = (k * m)%nat).
    { intros a k. revert a. induction k as [|k IH]; intros a; [reflexivity|]. cbn [seq flat_map]. rewrite app_length, IH, map_length, seq_length. lia. }
    split; [apply L|]. intros i j I J. replace n with (i + S (n - S i))%nat by lia. rewrite seq_app, flat_map_app. cbn [plus seq flat_map].
    rewrite nth_error_app2 by (rewrite L; lia). rewrite L. replace (i * m + j - i * m)%nat with j by lia.
    rewrite nth_error_app1 by (rewrite map_length, seq_length; exact J). rewrite nth_error_seq_map. destruct (Nat.ltb_spec j m); [reflexivity|lia]. }
  destruct M as [A|A]; cbn [m_rows m_cols m_entry]; unfold compress, todense, np_squeeze; cbn [shape data].
  - destruct (G (rm_rows A) (rm_cols A) (rm_get A)) as [L E]. splits; [|reflexivity|exact E]. unfold nd_wf. cbn [shape data].
    rewrite squeeze_prod, L. unfold nprod; cbn. lia.
  - destruct (G (fst (coo_shape A)) (snd (coo_shape A)) (coo_get A)) as [L E]. splits; [|reflexivity|exact E]. unfold nd_wf. cbn [shape data].
    rewrite squeeze_prod, L. unfold nprod; cbn. lia.
Qed.
Lemma compress_array_spec {A} (a : nd A) : nd_wf a -> nd_wf (compress_array a) /\ data (compress_array a) = data a /\
  shape (compress_array a) = filter (fun n => negb (Nat.eqb n 1)) (shape a) /\ compress_array (compress_array a) = compress_array a.
Proof.
  intros W. unfold compress_array, np_squeeze. cbn [shape data]. splits; try reflexivity.
  - unfold nd_wf. cbn [shape data]. rewrite squeeze_prod. exact W.
  - f_equal. induction (shape a) as [|n s IH]; [reflexivity|]. cbn [filter]. destruct (Nat.eqb n 1) eqn:E; cbn [negb]; [exact IH|]. cbn [filter]. rewrite E. cbn [negb]. f_equal. exact IH.
Qed.

(** ---- Timer (C99) ---- *)
Lemma timer_run_snoc ops o : timer_run (ops ++ [o]) = timer_step (timer_run ops) o.
Proof. unfold timer_run. rewrite fold_left_app. reflexivity. Qed.
Lemma last_tic_app a b : last_tic (a ++ b) = match last_tic b with Some t => Some t | None => last_tic a end.
Proof. induction a as [|o a IH]; cbn [app last_tic]; [destruct (last_tic b); reflexivity|]. rewrite IH. destruct (last_tic b); reflexivity. Qed.
Lemma timer_tic_spec ops : tm_tic (timer_run ops) = last_tic ops.
Proof.
  induction ops as [|o ops IH] using rev_ind; [reflexivity|]. rewrite timer_run_snoc, last_tic_app. destruct o as [t|n t]; cbn [timer_step timer_tic tm_tic last_tic]; [reflexivity|].
  unfold timer_toc. destruct (tm_tic (timer_run ops)) eqn:E; cbn [fst tm_tic]; congruence.
Qed.
Lemma timer_spec ops name d : od_get (tm_dict (timer_run ops)) name = Some d <->
  exists before after now t0, ops = before ++ Toc name now :: after /\ (forall now', ~ In (Toc name now') after) /\
    last_tic before = Some t0 /\ d = now - t0.
Proof.
  revert d. induction ops as [|o ops IH] using rev_ind; intros d.
  - cbn. split; [discriminate|]. intros (b & a & n & t & E & _). destruct b; discriminate.
  - rewrite timer_run_snoc. assert (Old : forall P : Prop, (forall now', o <> Toc name now') ->
      ((exists before after now t0, ops = before ++ Toc name now :: after /\ (forall now', ~ In (Toc name now') after) /\ last_tic before = Some t0 /\ d = now - t0) <->
       exists before after now t0, ops ++ [o] = before ++ Toc name now :: after /\ (forall now', ~ In (Toc name now') after) /\ last_tic before = Some t0 /\ d = now - t0)).
    { intros _ No. split.
      - intros (b & a & n & t & -> & F & L & D). exists b, (a ++ [o]), n, t. splits; [rewrite <- app_assoc; reflexivity| |exact L|exact D].
        intros n' I. apply in_app_iff in I as [I|[I|[]]]; [exact (F n' I)|exact (No n' I)].
      - intros (b & a & n & t & E & F & L & D). destruct a as [|z a] using rev_ind.
        + apply app_inj_tail in E as [_ E]. destruct (No n E).
        + clear IHa. rewrite app_comm_cons, app_assoc in E. apply app_inj_tail in E as [-> ->]. exists b, a, n, t. splits; try assumption; [reflexivity|].
          intros n' I. apply (F n'), in_app_iff. left. exact I. }
    destruct o as [t|n t]; cbn [timer_step timer_tic tm_dict].
    + rewrite IH. apply (Old True). discriminate.
    + unfold timer_toc. destruct (tm_tic (timer_run ops)) as [t0|] eqn:T; cbn [fst tm_dict].
      * rewrite od_get_set. destruct (String.eqb_spec name n) as [<-|N].
        -- rewrite timer_tic_spec in T. split.
           ++ intros E. injection E as <-. exists ops, [], t, t0. splits; [reflexivity|intros ? []|exact T|reflexivity].
           ++ intros (b & a & n & t1 & E & F & L & D). destruct a as [|z a] using rev_ind.
              ** apply app_inj_tail in E as [-> E]. injection E as <-. congruence.
              ** clear IHa. rewrite app_comm_cons, app_assoc in E. apply app_inj_tail in E as [_ <-]. destruct (F t). apply in_app_iff. right. left. reflexivity.
        -- rewrite IH. apply (Old True). intros n' Q. injection Q. congruence.
      * rewrite IH. rewrite timer_tic_spec in T. split.
        -- intros (b & a & n' & t1 & -> & F & L & D). rewrite last_tic_app in T. cbn [last_tic] in T. destruct (last_tic a); [discriminate|congruence].
        -- intros (b & a & n' & t1 & E & F & L & D). destruct a as [|z a] using rev_ind.
           ++ apply app_inj_tail in E as [-> _]. congruence.
           ++ clear IHa. rewrite app_comm_cons, app_assoc in E. apply app_inj_tail in E as [-> _]. rewrite last_tic_app in T. cbn [app last_tic] in T. destruct (last_tic a); discriminate || congruence.
Qed.
Lemma timer_raises ops name now : snd (timer_toc (timer_run ops) name now) = Raise AttributeError <-> last_tic ops = None.
Proof. unfold timer_toc. rewrite timer_tic_spec. destruct (last_tic ops); cbn; split; intros; congruence. Qed.
