(** Dictionaries of parameters: the invariant of reachable objects and the properties C11-C19, C41. *)
From Coq Require Import String Reals List Bool Arith Lia Lra.
From Coquelicot Require Import Coquelicot.
From Verif Require Import Res Num Nd RSum ModelAutograd ModelSparse ModelParameters ModelMatrix ModelSimplex ModelProjection ModelDict.
From Verif Require Import SpecParameters SpecMatrix SpecSimplex SpecProjection SpecDict.
From Verif Require Import LemmasParameters LemmasCalc LemmasMatrix LemmasPosDef LemmasPosDefStack LemmasSimplex LemmasProjection LemmasLeaf.
Import List ListNotations.
Open Scope R_scope.
Set Bullet Behavior "Strict Subproofs".

Definition ents := list (string * param).

(** ---- induction on trees ---- *)
Fixpoint param_rect' (P : param -> Prop) (HL : forall l, P (Leaf l))
  (HD : forall nm (es : ents) fi vi fs vs, Forall (fun e => P (snd e)) es -> P (Dict nm es fi vi fs vs)) (p : param) : P p :=
  match p with
  | Leaf l => HL l
  | Dict nm es fi vi fs vs =>
      HD nm es fi vi fs vs
        ((fix go (l : ents) : Forall (fun e => P (snd e)) l :=
            match l with
            | [] => @Forall_nil _ _
            | e :: tl => @Forall_cons _ _ e tl (param_rect' P HL HD (snd e)) (go tl)
            end) es)
  end.

(** ---- the loops of the methods, named ---- *)
Definition set_go (size : param -> nat) (setf : param -> arr -> param * res unit) (vec : arr) :=
  fix go (l : ents) (offset : nat) : ents * res unit :=
    match l with
    | [] => ([], Ok tt)
    | (k, q) :: tl =>
        match np_slice vec offset (offset + size q) with
        | Raise e => (l, Raise e)
        | Ok s =>
            let r := setf q s in
            match snd r with
            | Ok _ => let r' := go tl (offset + size (fst r))%nat in ((k, fst r) :: fst r', snd r')
            | Raise e => ((k, fst r) :: tl, Raise e)
            end
        end
    end.
Definition get_go (getf : param -> res arr) :=
  fix go (l : ents) : res (list arr) :=
    match l with [] => Ok [] | (_, q) :: tl => do a <- getf q; do r <- go tl; Ok (a :: r) end.
Lemma p_set_free_dict nm es fi vi fs vs vec : p_set_free (Dict nm es fi vi fs vs) vec =
  if negb (Nat.eqb (nd_size vec) fs) then (Dict nm es fi vi fs vs, Raise ValueError)
  else let r := set_go p_free_size p_set_free vec es 0 in (Dict nm (fst r) fi vi fs vs, snd r).
Proof. reflexivity. Qed.
Lemma p_set_vector_dict nm es fi vi fs vs vec : p_set_vector (Dict nm es fi vi fs vs) vec =
  if negb (Nat.eqb (nd_size vec) vs) then (Dict nm es fi vi fs vs, Raise ValueError)
  else let r := set_go p_vector_size p_set_vector vec es 0 in (Dict nm (fst r) fi vi fs vs, snd r).
Proof. reflexivity. Qed.
Lemma p_get_free_dict nm es fi vi fs vs : p_get_free (Dict nm es fi vi fs vs) = do l <- get_go p_get_free es; np_hstack l.
Proof. reflexivity. Qed.
Lemma p_get_vector_dict nm es fi vi fs vs : p_get_vector (Dict nm es fi vi fs vs) = do l <- get_go p_get_vector es; np_hstack l.
Proof. reflexivity. Qed.

(** ---- the invariant ---- *)
Fixpoint total (size : param -> nat) (es : ents) : nat := match es with [] => 0%nat | (_, q) :: tl => (size q + total size tl)%nat end.
Fixpoint offsets (size : param -> nat) (off : nat) (es : ents) : list (string * (nat * nat)) :=
  match es with [] => [] | (k, q) :: tl => (k, (off, off + size q)%nat) :: offsets size (off + size q) tl end.
Inductive p_wf : param -> Prop :=
| wf_leaf l : leaf_wf l -> p_wf (Leaf l)
| wf_dict nm es fi vi fs vs : NoDup (map fst es) -> Forall (fun e => p_wf (snd e)) es ->
    fi = offsets p_free_size 0 es -> vi = offsets p_vector_size 0 es ->
    fs = total p_free_size es -> vs = total p_vector_size es -> p_wf (Dict nm es fi vi fs vs).
Definition same_sizes (p p' : param) : Prop := p_free_size p' = p_free_size p /\ p_vector_size p' = p_vector_size p.

Lemma p_set_free_sizes p a : same_sizes p (fst (p_set_free p a)) /\ p_name (fst (p_set_free p a)) = p_name p.
Proof.
  destruct p as [l|nm es fi vi fs vs].
  - destruct (leaf_set_free_sizes l a) as [A [B C]]. exact (conj (conj A B) C).
  - rewrite p_set_free_dict. destruct (negb _); exact (conj (conj eq_refl eq_refl) eq_refl).
Qed.
Lemma p_set_vector_sizes p a : same_sizes p (fst (p_set_vector p a)) /\ p_name (fst (p_set_vector p a)) = p_name p.
Proof.
  destruct p as [l|nm es fi vi fs vs].
  - destruct (leaf_set_vector_sizes l a) as [A [B C]]. exact (conj (conj A B) C).
  - rewrite p_set_vector_dict. destruct (negb _); exact (conj (conj eq_refl eq_refl) eq_refl).
Qed.
(** entry lists with the same keys and the same sizes *)
Definition similar (es es' : ents) : Prop := Forall2 (fun e e' => fst e' = fst e /\ same_sizes (snd e) (snd e')) es es'.
Lemma similar_refl es : similar es es.
Proof. induction es; constructor; [split; [reflexivity|split; reflexivity]|assumption]. Qed.
Lemma similar_facts es es' : similar es es' -> map fst es' = map fst es /\
  total p_free_size es' = total p_free_size es /\ total p_vector_size es' = total p_vector_size es /\
  (forall o, offsets p_free_size o es' = offsets p_free_size o es) /\ (forall o, offsets p_vector_size o es' = offsets p_vector_size o es).
Proof.
  intros H. induction H as [|[k q] [k' q'] es es' [Hk [Hf Hv]] _ IH]; [splits; reflexivity|]. cbn [fst snd] in *. subst k'.
  destruct IH as [A [B [C [D E]]]]. cbn [map total offsets fst]. rewrite Hf, Hv, A, B, C. splits; try reflexivity.
  - intros o. rewrite D. reflexivity.
  - intros o. rewrite E. reflexivity.
Qed.
Lemma wf_similar nm nm' es es' fi vi fs vs : p_wf (Dict nm es fi vi fs vs) -> similar es es' -> Forall (fun e => p_wf (snd e)) es' ->
  p_wf (Dict nm' es' fi vi fs vs).
Proof.
  intros W S F. inversion W; subst. destruct (similar_facts _ _ S) as [A [B [C [D E]]]].
  constructor; congruence.
Qed.
Lemma np_slice_vec_any {A} (l : list A) lo hi : exists w, np_slice (nd_vec l) lo hi = Ok (nd_vec w).
Proof.
  unfold np_slice, nd_vec. cbn [shape data]. rewrite nprod_nil, !Nat.mul_1_r. eexists. f_equal. f_equal.
  f_equal. rewrite slice_length by apply Nat.le_min_r. reflexivity.
Qed.
Lemma set_go_inv (size : param -> nat) setf (P : param -> Prop) v es off :
  (forall q w, same_sizes q (fst (setf q w))) -> Forall (fun e => forall w, P (snd e) -> P (fst (setf (snd e) (nd_vec w)))) es ->
  Forall (fun e => P (snd e)) es ->
  similar es (fst (set_go size setf (nd_vec v) es off)) /\ Forall (fun e => P (snd e)) (fst (set_go size setf (nd_vec v) es off)).
Proof.
  intros HS. revert off. induction es as [|[k q] es IH]; intros off HP F; [split; constructor|].
  inversion HP as [|? ? HP1 HP2]; subst. inversion F as [|? ? F1 F2]; subst. cbn [snd] in *. cbn [set_go].
  destruct (np_slice_vec_any v off (off + size q)) as [w ->]. specialize (HP1 w F1).
  specialize (HS q (nd_vec w)). destruct (setf q (nd_vec w)) as [q' [[]|e]]; cbn [fst snd] in *.
  - specialize (IH (off + size q')%nat HP2 F2). change (set_go size setf (nd_vec v)) with (set_go size setf (nd_vec v)) in *.
    destruct IH as [I1 I2]. split; constructor; cbn [fst snd]; try split; try reflexivity; assumption.
  - split; constructor; cbn [fst snd]; try split; try reflexivity; try assumption. apply similar_refl.
Qed.
Lemma p_set_free_wf p v : p_wf p -> p_wf (fst (p_set_free p (nd_vec v))).
Proof.
  revert v. induction p as [l|nm es fi vi fs vs IH] using param_rect'; intros v W.
  - inversion W; subst. constructor. apply leaf_set_free_wf. assumption.
  - rewrite p_set_free_dict. destruct (negb _); [exact W|]. cbn [fst snd].
    assert (F : Forall (fun e => p_wf (snd e)) es) by (inversion W; assumption).
    destruct (set_go_inv p_free_size p_set_free p_wf v es 0) as [A B]; [intros; apply p_set_free_sizes| |exact F|].
    + eapply Forall_impl; [|exact IH]. intros e H w. apply H.
    + apply (wf_similar nm nm es); assumption.
Qed.
Lemma p_set_vector_wf p v : p_wf p -> p_wf (fst (p_set_vector p (nd_vec v))).
Proof.
  revert v. induction p as [l|nm es fi vi fs vs IH] using param_rect'; intros v W.
  - inversion W; subst. constructor. apply leaf_set_vector_wf. assumption.
  - rewrite p_set_vector_dict. destruct (negb _); [exact W|]. cbn [fst snd].
    assert (F : Forall (fun e => p_wf (snd e)) es) by (inversion W; assumption).
    destruct (set_go_inv p_vector_size p_set_vector p_wf v es 0) as [A B]; [intros; apply p_set_vector_sizes| |exact F|].
    + eapply Forall_impl; [|exact IH]. intros e H w. apply H.
    + apply (wf_similar nm nm es); assumption.
Qed.
Lemma od_get_In {V} (d : list (string * V)) k v : od_get d k = Some v -> In (k, v) d.
Proof.
  induction d as [|[k' v'] d IH]; cbn; [discriminate|]. destruct (String.eqb_spec k k') as [->|]; intros H; [left; congruence|right; apply IH, H].
Qed.
Lemma od_get_none {V} (d : list (string * V)) k : od_get d k = None <-> ~ In k (map fst d).
Proof.
  induction d as [|[k' v'] d IH]; cbn; [tauto|]. destruct (String.eqb_spec k k') as [->|H].
  - split; [discriminate|intros N; exfalso; apply N; left; reflexivity].
  - rewrite IH. split; intros N; [intros [E|E]; [congruence|auto]|auto].
Qed.
Lemma od_replace_similar (es : ents) k q q' : od_get es k = Some q -> same_sizes q q' -> similar es (od_replace es k q').
Proof.
  induction es as [|[k' v] es IH]; cbn; [constructor|]. destruct (String.eqb_spec k k') as [->|]; intros H S.
  - injection H as ->. constructor; [split; [reflexivity|exact S]|apply similar_refl].
  - constructor; [split; [reflexivity|split; reflexivity]|apply IH; assumption].
Qed.
Lemma od_replace_Forall {V} (P : V -> Prop) (d : list (string * V)) k v : Forall (fun e => P (snd e)) d -> P v -> Forall (fun e => P (snd e)) (od_replace d k v).
Proof.
  intros F H. induction F as [|[k' v'] d Hd F IH]; cbn; [constructor|]. destruct (String.eqb k k'); constructor; auto.
Qed.
Lemma Forall_od_get {V} (P : V -> Prop) (d : list (string * V)) k v : Forall (fun e => P (snd e)) d -> od_get d k = Some v -> P v.
Proof. intros F H. apply od_get_In in H. rewrite Forall_forall in F. apply (F (k, v) H). Qed.
Lemma d_getitem_dict d k q : d_getitem d k = Ok q -> exists nm es fi vi fs vs, d = Dict nm es fi vi fs vs /\ od_get es k = Some q.
Proof.
  destruct d as [l|nm es fi vi fs vs]; cbn; [discriminate|]. destruct (od_get es k) as [q'|] eqn:E; [|discriminate]. intros H. injection H as ->.
  do 6 eexists. split; [reflexivity|exact E].
Qed.
Lemma call_inv p p' : call p p' -> p_wf p -> p_wf p' /\ same_sizes p p'.
Proof.
  intros C. induction C as [p v|p v|l a S|p nm|d k q q' G C IH]; intros W.
  - split; [apply p_set_free_wf, W|apply p_set_free_sizes].
  - split; [apply p_set_vector_wf, W|apply p_set_vector_sizes].
  - inversion W; subst. cbn. split; [constructor; apply leaf_set_wf; assumption|]. destruct (leaf_set_sizes l a) as [A [B _]]. split; assumption.
  - destruct p as [l|nm' es fi vi fs vs]; cbn; [split; [exact W|split; reflexivity]|]. split; [|split; reflexivity].
    apply (wf_similar nm' nm es es); [exact W|apply similar_refl|inversion W; assumption].
  - destruct (d_getitem_dict _ _ _ G) as [nm [es [fi [vi [fs [vs [-> E]]]]]]].
    assert (F : Forall (fun e => p_wf (snd e)) es) by (inversion W; assumption).
    destruct IH as [W' S']; [apply (Forall_od_get _ _ _ _ F E)|]. cbn [d_replace]. split; [|split; reflexivity].
    apply (wf_similar nm nm es); [exact W|apply (od_replace_similar _ _ q); assumption|apply od_replace_Forall; assumption].
Qed.
Lemma od_set_fresh {V} (d : list (string * V)) k v : ~ In k (map fst d) -> od_set d k v = d ++ [(k, v)].
Proof.
  induction d as [|[k' v'] d IH]; cbn; intros N; [reflexivity|]. destruct (String.eqb_spec k k') as [->|]; [exfalso; apply N; left; reflexivity|].
  rewrite IH; [reflexivity|auto].
Qed.
Lemma total_app size es es' : total size (es ++ es') = (total size es + total size es')%nat.
Proof. induction es as [|[k q] es IH]; cbn; [reflexivity|]. rewrite IH. lia. Qed.
Lemma offsets_app size o es es' : offsets size o (es ++ es') = offsets size o es ++ offsets size (o + total size es) es'.
Proof.
  revert o. induction es as [|[k q] es IH]; intros o; cbn [app offsets total]; [rewrite Nat.add_0_r; reflexivity|]. rewrite IH. cbn [app]. f_equal. f_equal. f_equal. lia.
Qed.
Lemma offsets_keys size o es : map fst (offsets size o es) = map fst es.
Proof. revert o. induction es as [|[k q] es IH]; intros o; cbn; [reflexivity|]. rewrite IH. reflexivity. Qed.
Lemma push_fresh nm es fi vi fs vs p : ~ In (p_name p) (map fst es) -> p_wf (Dict nm es fi vi fs vs) ->
  push_param (Dict nm es fi vi fs vs) p =
    (Dict nm (es ++ [(p_name p, p)]) (fi ++ [(p_name p, (fs, (fs + p_free_size p)%nat))]) (vi ++ [(p_name p, (vs, (vs + p_vector_size p)%nat))])
      (fs + p_free_size p) (vs + p_vector_size p), Ok tt).
Proof.
  intros N W. inversion W; subst. cbn [push_param]. rewrite !od_set_fresh; [reflexivity| | |]; rewrite ?offsets_keys; exact N.
Qed.
Lemma NoDup_snoc {A} (l : list A) x : NoDup l -> ~ In x l -> NoDup (l ++ [x]).
Proof.
  intros H. induction H as [|y l Hy H IH]; intros N; cbn; [repeat constructor; auto|]. constructor.
  - rewrite in_app_iff. intros [E|[E|[]]]; [auto|subst; apply N; left; reflexivity].
  - apply IH. intros E. apply N. right. exact E.
Qed.
Lemma push_wf nm es fi vi fs vs p : ~ In (p_name p) (map fst es) -> p_wf (Dict nm es fi vi fs vs) -> p_wf p ->
  p_wf (fst (push_param (Dict nm es fi vi fs vs) p)).
Proof.
  intros N W Wp. rewrite push_fresh by assumption. inversion W; subst. cbn [fst]. constructor.
  - rewrite map_app. apply NoDup_snoc; assumption.
  - apply Forall_app. split; [assumption|repeat constructor; assumption].
  - rewrite offsets_app. cbn [offsets]. rewrite Nat.add_0_l. reflexivity.
  - rewrite offsets_app. cbn [offsets]. rewrite Nat.add_0_l. reflexivity.
  - rewrite total_app. cbn [total]. lia.
  - rewrite total_app. cbn [total]. lia.
Qed.
Lemma reachable_wf p : reachable p -> p_wf p.
Proof.
  intros H. induction H as [l C|nm|d p d' _ IHd _ IHp K E|p p' _ IH C].
  - constructor. apply constructed_wf, C.
  - constructor; try reflexivity; constructor.
  - destruct d as [l|nm es fi vi fs vs]; [discriminate|].
    assert (N : ~ In (p_name p) (map fst es)). { cbn in K. destruct (od_get es (p_name p)) eqn:G; [discriminate|]. apply od_get_none, G. }
    pose proof (push_wf nm es fi vi fs vs p N IHd IHp) as R. rewrite E in R. exact R.
  - apply (call_inv p p' C IH).
Qed.

(** ---- np.hstack: sizes ---- *)
Definition sumn (l : list nat) : nat := fold_right Nat.add 0%nat l.
Lemma sumn_cons x l : sumn (x :: l) = (x + sumn l)%nat. Proof. reflexivity. Qed.
Lemma at_least_1d_facts (a : arr) : nd_wf a -> nd_wf (at_least_1d a) /\ nd_size (at_least_1d a) = nd_size a /\ data (at_least_1d a) = data a.
Proof.
  destruct a as [[|n s] d]; intros W; unfold at_least_1d; cbn [shape data]; [|splits; [exact W|reflexivity|reflexivity]].
  unfold nd_wf, nd_size in *. cbn [shape data] in *. rewrite nprod_nil in *. rewrite nprod_1. splits; [exact W|reflexivity|reflexivity].
Qed.
Lemma concat_length_sum {A} (l : list (list A)) : length (List.concat l) = sumn (map (@length A) l).
Proof. induction l as [|x l IH]; cbn [List.concat map]; [reflexivity|]. rewrite app_length, IH, sumn_cons. reflexivity. Qed.
Lemma sumn_ext {A} (f g : A -> nat) l : (forall x, In x l -> f x = g x) -> sumn (map f l) = sumn (map g l).
Proof. induction l as [|x l IH]; cbn [map]; intros H; [reflexivity|]. rewrite !sumn_cons, H by (left; reflexivity). rewrite IH; [reflexivity|]. intros y Hy. apply H. right. exact Hy. Qed.
Lemma sumn_scal {A} (f : A -> nat) c l : sumn (map (fun x => c * f x)%nat l) = (c * sumn (map f l))%nat.
Proof. induction l as [|x l IH]; cbn [map]; [unfold sumn; cbn; lia|]. rewrite !sumn_cons, IH. lia. Qed.
Lemma Ok_inj {A} (x y : A) : Ok x = Ok y -> x = y.
Proof. congruence. Qed.
Lemma np_hstack_sized (l : list arr) a : (forall b, In b l -> nd_wf b) -> np_hstack l = Ok a -> sized (sumn (map nd_size l)) a.
Proof.
  intros W E. unfold np_hstack in E.
  assert (X : sumn (map nd_size l) = sumn (map nd_size (map at_least_1d l))).
  { rewrite map_map. apply sumn_ext. intros b Hb. symmetry. apply at_least_1d_facts, W, Hb. }
  assert (W' : forall b, In b (map at_least_1d l) -> nd_wf b).
  { intros b Hb. apply in_map_iff in Hb as [c [<- Hc]]. apply at_least_1d_facts, W, Hc. }
  rewrite X. clear X W. destruct (map at_least_1d l) as [|a0 rest] eqn:El; [discriminate|]. set (arrs := a0 :: rest) in *.
  destruct (shape a0) as [|n0 [|n1 tl]]; [discriminate| |].
  - destruct (forallb _ arrs); [|discriminate]. apply Ok_inj in E. subst a. unfold sized, nd_wf, nd_size. cbn [shape data]. rewrite !nprod_1.
    split; [|reflexivity]. rewrite concat_length_sum, map_map. apply sumn_ext. intros b Hb. apply W', Hb.
  - destruct (forallb _ arrs) eqn:Ea; [|discriminate]. apply Ok_inj in E. subst a. rewrite forallb_forall in Ea.
    assert (Hw : forall b, In b arrs -> exists c, shape b = n0 :: c :: tl).
    { intros b Hb. specialize (Ea b Hb). destruct (shape b) as [|r' [|c t']]; try discriminate. apply andb_prop in Ea as [E1 E2].
      apply Nat.eqb_eq in E1. apply shape_eqb_true in E2. subst. exists c. reflexivity. }
    set (width := fun a : arr => match shape a with _ :: c :: _ => c | _ => 0%nat end).
    assert (Hs : sumn (map nd_size arrs) = (n0 * (sumn (map width arrs) * nprod tl))%nat).
    { rewrite <- (sumn_ext (fun b => (n0 * nprod tl) * width b)%nat), sumn_scal; [lia|].
      intros b Hb. destruct (Hw b Hb) as [c Ec]. unfold nd_size, width. rewrite Ec, !nprod_cons. lia. }
    unfold sized, nd_wf, nd_size. cbn [shape data]. fold width. rewrite !nprod_cons. split; [|symmetry; exact Hs].
    assert (Hi : forall i, (i < n0)%nat -> length (flat_map (fun a : arr => slice (data a) (i * (width a * nprod tl)) (i * (width a * nprod tl) + width a * nprod tl)) arrs) = (sumn (map width arrs) * nprod tl)%nat).
    { intros i Hi. rewrite flat_map_concat_map, concat_length_sum, map_map, Nat.mul_comm, <- sumn_scal. apply sumn_ext. intros b Hb.
      destruct (Hw b Hb) as [c Ec]. pose proof (W' b Hb) as Wb. unfold nd_wf in Wb. rewrite Ec in Wb. rewrite !nprod_cons in Wb.
      rewrite slice_length; [lia|]. rewrite Wb. unfold width. rewrite Ec. nia. }
    assert (G : forall m o, (o + m <= n0)%nat -> length (flat_map (fun i => flat_map (fun a : arr => slice (data a) (i * (width a * nprod tl)) (i * (width a * nprod tl) + width a * nprod tl)) arrs) (seq o m)) = (m * (sumn (map width arrs) * nprod tl))%nat).
    { induction m as [|m IH]; intros o Ho; cbn [seq flat_map]; [reflexivity|]. rewrite app_length, Hi, IH by lia. lia. }
    exact (G n0 0%nat (Nat.le_refl _)).
Qed.
(** ---- C11 ---- *)
Lemma get_go_sized getf (size : param -> nat) es l : Forall (fun e => forall a, getf (snd e) = Ok a -> sized (size (snd e)) a) es ->
  get_go getf es = Ok l -> (forall b, In b l -> nd_wf b) /\ sumn (map nd_size l) = total size es.
Proof.
  revert l. induction es as [|[k q] es IH]; intros l F E; cbn [get_go] in E.
  - injection E as <-. split; [intros b []|reflexivity].
  - inversion F as [|? ? F1 F2]; subst. cbn [snd] in F1. destruct (getf q) as [a|]; [|discriminate]. cbn [rbind] in E.
    change ((fix go (l : ents) : res (list arr) := match l with [] => Ok [] | (_, q) :: tl => do a <- getf q; do r <- go tl; Ok (a :: r) end) es) with (get_go getf es) in E.
    destruct (get_go getf es) as [r|] eqn:Er; [|discriminate]. injection E as <-. destruct (F1 a eq_refl) as [Wa Sa]. destruct (IH r F2 eq_refl) as [A B].
    split; [intros b [<-|Hb]; auto|]. cbn [map total]. rewrite sumn_cons, Sa, B. reflexivity.
Qed.
Lemma p_get_free_sized p a : p_wf p -> p_get_free p = Ok a -> sized (p_free_size p) a.
Proof.
  revert a. induction p as [l|nm es fi vi fs vs IH] using param_rect'; intros a W E.
  - inversion W; subst. apply flat_sized, leaf_get_free_flat; assumption.
  - inversion W; subst. rewrite p_get_free_dict in E. destruct (get_go p_get_free es) as [l|] eqn:El; [|discriminate]. cbn [rbind] in E.
    destruct (get_go_sized p_get_free p_free_size es l) as [A B]; [|exact El|].
    + rewrite Forall_forall in *. intros e He a'. apply IH; auto.
    + cbn [p_free_size]. rewrite <- B. apply np_hstack_sized; assumption.
Qed.
Lemma p_get_vector_sized p a : p_wf p -> p_get_vector p = Ok a -> sized (p_vector_size p) a.
Proof.
  revert a. induction p as [l|nm es fi vi fs vs IH] using param_rect'; intros a W E.
  - inversion W; subst. apply leaf_get_vector_sized; assumption.
  - inversion W; subst. rewrite p_get_vector_dict in E. destruct (get_go p_get_vector es) as [l|] eqn:El; [|discriminate]. cbn [rbind] in E.
    destruct (get_go_sized p_get_vector p_vector_size es l) as [A B]; [|exact El|].
    + rewrite Forall_forall in *. intros e He a'. apply IH; auto.
    + cbn [p_vector_size]. rewrite <- B. apply np_hstack_sized; assumption.
Qed.
Lemma dict_get_free_sized nm es fi vi fs vs a : Forall (fun e => p_wf (snd e)) es ->
  p_get_free (Dict nm es fi vi fs vs) = Ok a -> nd_size a = total p_free_size es.
Proof.
  intros F E. rewrite p_get_free_dict in E. destruct (get_go p_get_free es) as [l|] eqn:El; [|discriminate]. cbn [rbind] in E.
  destruct (get_go_sized p_get_free p_free_size es l) as [A B]; [|exact El|].
  - eapply Forall_impl; [|exact F]. intros e He a'. apply p_get_free_sized, He.
  - rewrite <- B. apply np_hstack_sized; assumption.
Qed.
Lemma dict_get_vector_sized nm es fi vi fs vs a : Forall (fun e => p_wf (snd e)) es ->
  p_get_vector (Dict nm es fi vi fs vs) = Ok a -> nd_size a = total p_vector_size es.
Proof.
  intros F E. rewrite p_get_vector_dict in E. destruct (get_go p_get_vector es) as [l|] eqn:El; [|discriminate]. cbn [rbind] in E.
  destruct (get_go_sized p_get_vector p_vector_size es l) as [A B]; [|exact El|].
  - eapply Forall_impl; [|exact F]. intros e He a'. apply p_get_vector_sized, He.
  - rewrite <- B. apply np_hstack_sized; assumption.
Qed.
Lemma total_sum size es : total size es = sumn (map (fun e => size (snd e)) es).
Proof. induction es as [|[k q] es IH]; cbn [total map snd]; [reflexivity|]. rewrite sumn_cons, IH. reflexivity. Qed.
Lemma dict_sizes d : reachable d -> is_dict d = true ->
  p_free_size d = fold_right Nat.add 0%nat (map (fun e => p_free_size (snd e)) (p_entries d)) /\
  p_vector_size d = fold_right Nat.add 0%nat (map (fun e => p_vector_size (snd e)) (p_entries d)) /\
  (forall a, p_get_free d = Ok a -> nd_size a = p_free_size d) /\ (forall a, p_get_vector d = Ok a -> nd_size a = p_vector_size d).
Proof.
  intros R D. apply reachable_wf in R. splits.
  - destruct d as [|nm es fi vi fs vs]; [discriminate|]. inversion R; subst. apply total_sum.
  - destruct d as [|nm es fi vi fs vs]; [discriminate|]. inversion R; subst. apply total_sum.
  - intros a Ea. apply p_get_free_sized; assumption.
  - intros a Ea. apply p_get_vector_sized; assumption.
Qed.
(** ---- C12 ---- *)
Lemma od_set_old (es : ents) k q old : od_get es k = Some old -> Forall (fun e => p_wf (snd e)) es -> p_wf q ->
  Forall (fun e => p_wf (snd e)) (od_set es k q) /\
  (total p_free_size (od_set es k q) + p_free_size old = total p_free_size es + p_free_size q)%nat /\
  (total p_vector_size (od_set es k q) + p_vector_size old = total p_vector_size es + p_vector_size q)%nat.
Proof.
  intros G F Wq. induction F as [|[k' q'] es W F IH]; cbn in G; [discriminate|]. cbn [od_set]. destruct (String.eqb k k').
  - injection G as ->. cbn [total]. splits; [constructor; assumption|lia|lia].
  - destruct (IH G) as [A [B C]]. cbn [total]. splits; [constructor; assumption|lia|lia].
Qed.
Lemma push_duplicate d q old : reachable d -> reachable q -> d_getitem d (p_name q) = Ok old ->
  exists d', push_param d q = (d', Ok tt) /\
    p_free_size d' = (p_free_size d + p_free_size q)%nat /\ p_vector_size d' = (p_vector_size d + p_vector_size q)%nat /\
    (forall a, p_get_free d' = Ok a -> (nd_size a + p_free_size old = p_free_size d')%nat /\
       ((0 < p_free_size old)%nat -> p_set_free d' a = (d', Raise ValueError))) /\
    (forall a, p_get_vector d' = Ok a -> (nd_size a + p_vector_size old = p_vector_size d')%nat /\
       ((0 < p_vector_size old)%nat -> p_set_vector d' a = (d', Raise ValueError))).
Proof.
  intros Rd Rq G. apply reachable_wf in Rd, Rq. destruct (d_getitem_dict _ _ _ G) as [nm [es [fi [vi [fs [vs [-> E]]]]]]].
  inversion Rd as [|? ? ? ? ? ? ND F Efi Evi Efs Evs]; subst. destruct (od_set_old es _ q old E F Rq) as [A [B C]]. cbn [push_param]. eexists. splits; [reflexivity|reflexivity|reflexivity| |]; intros a Ea.
  - pose proof (dict_get_free_sized _ _ _ _ _ _ _ A Ea) as L. cbn [p_free_size]. split; [lia|]. intros P. rewrite p_set_free_dict.
    destruct (Nat.eqb_spec (nd_size a) (total p_free_size es + p_free_size q)); [lia|reflexivity].
  - pose proof (dict_get_vector_sized _ _ _ _ _ _ _ A Ea) as L. cbn [p_vector_size]. split; [lia|]. intros P. rewrite p_set_vector_dict.
    destruct (Nat.eqb_spec (nd_size a) (total p_vector_size es + p_vector_size q)); [lia|reflexivity].
Qed.
(** ---- C19 ---- *)
Lemma od_replace_total (es : ents) k q old : od_get es k = Some old ->
  (total p_free_size (od_replace es k q) + p_free_size old = total p_free_size es + p_free_size q)%nat /\
  (total p_vector_size (od_replace es k q) + p_vector_size old = total p_vector_size es + p_vector_size q)%nat.
Proof.
  induction es as [|[k' q'] es IH]; cbn [od_get od_replace total]; [discriminate|]. destruct (String.eqb k k'); intros G.
  - injection G as ->. cbn [total]. lia.
  - specialize (IH G). cbn [total]. lia.
Qed.
Lemma nested_growth d k inner q inner' : reachable d -> d_getitem d k = Ok inner -> reachable q -> d_getitem inner (p_name q) = Raise KeyError ->
  push_param inner q = (inner', Ok tt) -> let d' := d_replace d k inner' in
  d_getitem d' k = Ok inner' /\ p_free_size d' = p_free_size d /\ p_vector_size d' = p_vector_size d /\
  (forall a, p_get_free d' = Ok a -> nd_size a = (p_free_size d' + p_free_size q)%nat /\
     ((0 < p_free_size q)%nat -> p_set_free d' a = (d', Raise ValueError))) /\
  (forall a, p_get_vector d' = Ok a -> nd_size a = (p_vector_size d' + p_vector_size q)%nat /\
     ((0 < p_vector_size q)%nat -> p_set_vector d' a = (d', Raise ValueError))).
Proof.
  intros Rd G Rq Kq E. apply reachable_wf in Rd, Rq. destruct (d_getitem_dict _ _ _ G) as [nm [es [fi [vi [fs [vs [-> Eo]]]]]]].
  inversion Rd as [|? ? ? ? ? ? ND F Efi Evi Efs Evs]; subst. pose proof (Forall_od_get _ _ _ _ F Eo) as Wi.
  destruct inner as [|nm2 es2 fi2 vi2 fs2 vs2]; [discriminate|].
  assert (N : ~ In (p_name q) (map fst es2)). { cbn in Kq. destruct (od_get es2 (p_name q)) eqn:G2; [discriminate|]. apply od_get_none, G2. }
  pose proof (push_wf nm2 es2 fi2 vi2 fs2 vs2 q N Wi Rq) as W'. rewrite E in W'. cbn [fst] in W'.
  assert (S1 : p_free_size inner' = (fs2 + p_free_size q)%nat) by (cbn in E; injection E as <-; reflexivity).
  assert (S2 : p_vector_size inner' = (vs2 + p_vector_size q)%nat) by (cbn in E; injection E as <-; reflexivity).
  destruct (od_replace_total es k inner' _ Eo) as [T1 T2]. cbn [p_free_size p_vector_size] in T1, T2.
  pose proof (od_replace_Forall p_wf es k inner' F W') as F'. cbn zeta. cbn [d_replace]. splits; [|reflexivity|reflexivity| |].
  - cbn [d_getitem]. assert (X : od_get (od_replace es k inner') k = Some inner').
    { clear -Eo. induction es as [|[k' v] es IH]; cbn in *; [discriminate|]. destruct (String.eqb k k') eqn:Ek; cbn; rewrite Ek; [reflexivity|apply IH, Eo]. }
    rewrite X. reflexivity.
  - intros a Ea. pose proof (dict_get_free_sized _ _ _ _ _ _ _ F' Ea) as L. cbn [p_free_size]. split; [lia|]. intros P. rewrite p_set_free_dict.
    destruct (Nat.eqb_spec (nd_size a) (total p_free_size es)); [lia|reflexivity].
  - intros a Ea. pose proof (dict_get_vector_sized _ _ _ _ _ _ _ F' Ea) as L. cbn [p_vector_size]. split; [lia|]. intros P. rewrite p_set_vector_dict.
    destruct (Nat.eqb_spec (nd_size a) (total p_vector_size es)); [lia|reflexivity].
Qed.
(** ---- C17 ---- *)
Lemma wrong_size d a : is_dict d = true ->
  (nd_size a <> p_free_size d -> p_set_free d a = (d, Raise ValueError)) /\ (nd_size a <> p_vector_size d -> p_set_vector d a = (d, Raise ValueError)).
Proof.
  destruct d as [|nm es fi vi fs vs]; [discriminate|]. intros _. rewrite p_set_free_dict, p_set_vector_dict. cbn [p_free_size p_vector_size].
  split; intros N; apply Nat.eqb_neq in N; rewrite N; reflexivity.
Qed.

(** ---- the loops over a concatenation of blocks ---- *)
Definition upd_ents {B} (f : B -> param) (es : ents) (st : list B) : ents := map (fun es => (fst (fst es), f (snd es))) (combine es st).
Lemma slice_block {A} (pre mid post : list A) : slice (pre ++ mid ++ post) (length pre) (length pre + length mid) = mid.
Proof.
  unfold slice. rewrite skipn_app, skipn_all, Nat.sub_diag. cbn [app skipn]. rewrite Nat.add_comm, Nat.add_sub, firstn_app, Nat.sub_diag, firstn_all. cbn. apply app_nil_r.
Qed.
Lemma set_go_blocks (size : param -> nat) setf (es : ents) (st : list (list num * param)) pre post :
  Forall2 (fun e s => setf (snd e) (nd_vec (fst s)) = (snd s, Ok tt) /\ length (fst s) = size (snd e) /\ size (snd s) = size (snd e)) es st ->
  set_go size setf (nd_vec (pre ++ List.concat (map fst st) ++ post)) es (length pre) = (upd_ents snd es st, Ok tt).
Proof.
  intros F. revert pre. induction F as [|[k q] [x q'] es st [H1 [H2 H3]] F IH]; intros pre; [reflexivity|]. cbn [fst snd] in *.
  cbn [map List.concat set_go fst]. rewrite <- app_assoc. rewrite np_slice_vec by (rewrite ?app_length; lia). rewrite <- H2, slice_block, H1. cbn [fst snd].
  specialize (IH (pre ++ x)). rewrite <- app_assoc, app_length in IH. rewrite H3, <- H2.
  change ((fix go (l : ents) (offset : nat) {struct l} : ents * res unit := _) es) with (set_go size setf (nd_vec (pre ++ x ++ List.concat (map fst st) ++ post)) es) .
  rewrite IH. reflexivity.
Qed.
Lemma set_go_blocks0 (size : param -> nat) setf (es : ents) (st : list (list num * param)) :
  Forall2 (fun e s => setf (snd e) (nd_vec (fst s)) = (snd s, Ok tt) /\ length (fst s) = size (snd e) /\ size (snd s) = size (snd e)) es st ->
  set_go size setf (nd_vec (List.concat (map fst st))) es 0 = (upd_ents snd es st, Ok tt).
Proof. intros F. pose proof (set_go_blocks size setf es st [] [] F) as H. rewrite app_nil_r in H. exact H. Qed.
Lemma blocks_length (size : param -> nat) (es : ents) (xs : list (list num)) : Forall2 (fun e x => length x = size (snd e)) es xs ->
  length (List.concat xs) = total size es.
Proof. intros F. induction F as [|[k q] x es xs H F IH]; [reflexivity|]. cbn [List.concat total]. rewrite app_length, IH. cbn [snd] in H. lia. Qed.
(** cutting a vector into the members' blocks and treating each *)
Lemma cut_blocks {A B} (size : param -> nat) (T : param -> list A -> B -> Prop) (es : ents) x :
  Forall (fun e => forall y, length y = size (snd e) -> exists b, T (snd e) y b) es -> length x = total size es ->
  exists st, x = List.concat (map fst st) /\ Forall2 (fun e s => length (fst s) = size (snd e) /\ T (snd e) (fst s) (snd s)) es st.
Proof.
  intros F. revert x. induction F as [|[k q] es H F IH]; intros x L; cbn [total] in L.
  - destruct x; [|discriminate]. exists []. split; [reflexivity|constructor].
  - cbn [snd] in H. destruct (H (firstn (size q) x)) as [b Hb]; [rewrite firstn_length; lia|].
    destruct (IH (skipn (size q) x)) as [st [E S]]; [rewrite skipn_length; lia|].
    exists ((firstn (size q) x, b) :: st). cbn [map List.concat fst]. rewrite <- E, firstn_skipn. split; [reflexivity|].
    constructor; [|exact S]. cbn [fst snd]. split; [rewrite firstn_length; lia|exact Hb].
Qed.
Lemma get_go_vecs getf (es : ents) (vs : list (list num)) : Forall2 (fun e v => getf (snd e) = Ok (nd_vec v)) es vs -> get_go getf es = Ok (map nd_vec vs).
Proof.
  intros F. induction F as [|[k q] v es vs H F IH]; [reflexivity|]. cbn [snd] in H. cbn [get_go]. rewrite H. cbn [rbind].
  change ((fix go (l : ents) : res (list arr) := _) es) with (get_go getf es). rewrite IH. reflexivity.
Qed.
Lemma all_leaves_ents (P : leaf -> Prop) nm es fi vi fs vs : all_leaves P (Dict nm es fi vi fs vs) <-> Forall (fun e => all_leaves P (snd e)) es.
Proof.
  cbn [all_leaves]. induction es as [|[k q] es IH]; split; intros H; try constructor; try exact I.
  - apply H.
  - apply IH, H.
  - inversion H; assumption.
  - inversion H; subst. apply IH. assumption.
Qed.
Lemma populated_ents nm es fi vi fs vs : populated (Dict nm es fi vi fs vs) <-> es <> [] /\ Forall (fun e => populated (snd e)) es.
Proof.
  cbn [populated]. split; intros [N H]; (split; [exact N|]); clear N; induction es as [|[k q] es IH]; try constructor; try exact I.
  - apply H.
  - apply IH, H.
  - inversion H; assumption.
  - inversion H; subst. apply IH. assumption.
Qed.
Lemma Forall2_map_r {A B C} (P : A -> C -> Prop) (f : B -> C) l m : Forall2 (fun a b => P a (f b)) l m -> Forall2 P l (map f m).
Proof. intros F. induction F; constructor; assumption. Qed.
Lemma Forall2_upd {A C} (P : param -> A -> Prop) (f : C -> param) (g : C -> A) (es : ents) (st : list C) :
  Forall2 (fun _ s => P (f s) (g s)) es st -> Forall2 (fun e a => P (snd e) a) (upd_ents f es st) (map g st).
Proof. intros F. induction F as [|[k q] s es st H F IH]; constructor; [exact H|exact IH]. Qed.
Lemma Forall2_impl {A B} (P Q : A -> B -> Prop) l m : (forall a b, P a b -> Q a b) -> Forall2 P l m -> Forall2 Q l m.
Proof. intros H F. induction F; constructor; auto. Qed.
Lemma concat_map_Fin {A B} (f : A -> B) (l : list (list A)) : List.concat (map (map f) l) = map f (List.concat l).
Proof. symmetry. apply concat_map. Qed.

(** the constrained vectors of the members one after the other *)
Fixpoint ftv_ents (es : ents) (off : nat) (x : list R) : list R :=
  match es with
  | [] => []
  | (k, q) :: tl => p_free_to_vector q (slice x off (off + p_free_size q)) ++ ftv_ents tl (off + p_free_size q) x
  end.
(** ---- C13 ---- *)
Definition ft_step (q : param) (y : list R) (b : param * list R) : Prop :=
  p_set_free q (fvec y) = (fst b, Ok tt) /\ p_get_free (fst b) = Ok (fvec y) /\ p_get_vector (fst b) = Ok (fvec (snd b)) /\
  length (snd b) = p_vector_size q.
Lemma p_free_roundtrip p x : p_wf p -> populated p -> length x = p_free_size p ->
  exists p' v, p_set_free p (fvec x) = (p', Ok tt) /\ p_get_free p' = Ok (fvec x) /\ p_get_vector p' = Ok (fvec v) /\ length v = p_vector_size p /\
    v = match p with Leaf _ => v | Dict _ es _ _ _ _ => ftv_ents es 0 x end.
Proof.
  revert x. induction p as [l|nm es fi vi fs vs IH] using param_rect'; intros x W Pop L.
  - inversion W; subst. destruct (leaf_free_roundtrip l x H0 L) as [l' [v [A [B [C D]]]]]. exists (Leaf l'), v. cbn. rewrite A. splits; auto.
  - inversion W as [|? ? ? ? ? ? ND F Efi Evi Efs Evs]; subst. apply populated_ents in Pop as [Ne Pop]. cbn [p_free_size p_vector_size] in *.
    destruct (cut_blocks p_free_size ft_step es x) as [st [-> S]]; [|exact L|].
    { rewrite Forall_forall in *. intros e He y Ly. destruct (IH e He y (F e He) (Pop e He) Ly) as [q' [v [H1 [H2 [H3 [H4 _]]]]]]. exists (q', v). exact (conj H1 (conj H2 (conj H3 H4))). }
    assert (Ns : st <> []). { intros ->. inversion S; subst. apply Ne. reflexivity. }
    exists (Dict nm (upd_ents (fun s => fst (snd s)) es st) (offsets p_free_size 0 es) (offsets p_vector_size 0 es) (total p_free_size es) (total p_vector_size es)),
      (List.concat (map (fun s => snd (snd s)) st)).
    assert (G : forall getf (g : list R * (param * list R) -> list R), Forall2 (fun _ s => getf (fst (snd s)) = Ok (fvec (g s))) es st ->
       rbind (get_go getf (upd_ents (fun s => fst (snd s)) es st)) (fun l => np_hstack l) = Ok (fvec (List.concat (map g st)))).
    { intros getf g F2. rewrite (get_go_vecs getf _ (map (fun s => map Fin (g s)) st)).
      - cbn [rbind]. rewrite np_hstack_vecs by (intros E; apply map_eq_nil in E; auto). rewrite <- (map_map g (map Fin)), concat_map_Fin. reflexivity.
      - exact (Forall2_upd (fun q v => getf q = Ok (nd_vec v)) (fun s : list R * (param * list R) => fst (snd s)) (fun s => map Fin (g s)) es st F2). }
    splits.
    + rewrite p_set_free_dict. unfold fvec at 1. rewrite nd_size_vec, map_length, L, Nat.eqb_refl. cbn [negb].
      pose proof (set_go_blocks0 p_free_size p_set_free es (map (fun s => (map Fin (fst s), fst (snd s))) st)) as X.
      rewrite map_map in X. cbn [fst] in X. rewrite <- (map_map fst (map Fin)), concat_map_Fin in X. cbn zeta. unfold fvec. rewrite X.
      * cbn [fst snd]. f_equal. f_equal. unfold upd_ents. clear. revert st. induction es as [|e es IH]; intros [|s st]; cbn; [reflexivity|reflexivity|reflexivity|]. f_equal. apply IH.
      * apply Forall2_map_r. eapply Forall2_impl; [|exact S]. cbn [fst snd]. intros e s [Ls [A [B [C D]]]]. splits; [exact A|rewrite map_length; exact Ls|].
        destruct (p_set_free_sizes (snd e) (fvec (fst s))) as [[Z _] _]. rewrite A in Z. exact Z.
    + rewrite p_get_free_dict. apply G. eapply Forall2_impl; [|exact S]. intros e s [Ls [A [B [C D]]]]. exact B.
    + rewrite p_get_vector_dict. apply (G p_get_vector (fun s => snd (snd s))). eapply Forall2_impl; [|exact S]. intros e s [Ls [A [B [C D]]]]. exact C.
    + pose proof (blocks_length p_vector_size es (map (fun s => map Fin (snd (snd s))) st)) as X.
      rewrite <- (map_map (fun s => snd (snd s)) (map Fin)), concat_map_Fin, map_length in X. apply X. rewrite map_map. apply Forall2_map_r.
      eapply Forall2_impl; [|exact S]. intros e s [Ls [A [B [C D]]]]. rewrite map_length. exact D.
    + assert (G2 : forall pre post, List.concat (map (fun s => snd (snd s)) st) = ftv_ents es (length pre) (pre ++ List.concat (map fst st) ++ post)).
      { clear -S. induction S as [|[k q] [y [q' w]] es st [Ly [A [_ [C _]]]] S IH]; intros pre post; [reflexivity|]. cbn [fst snd] in *.
        cbn [map List.concat ftv_ents fst snd]. rewrite <- app_assoc, <- Ly, slice_block. f_equal.
        - unfold p_free_to_vector. change (nd_vec (map Fin y)) with (fvec y). rewrite A, C. cbn [data fvec nd_vec]. symmetry. apply toR_Fin.
        - specialize (IH (pre ++ y) post). rewrite app_length, <- app_assoc in IH. exact IH. }
      specialize (G2 [] []). rewrite app_nil_r in G2. exact G2.
Qed.
(** ---- C15, first half ---- *)
Lemma p_vector_roundtrip p v : p_wf p -> populated p -> length v = p_vector_size p ->
  exists p', p_set_vector p (fvec v) = (p', Ok tt) /\ p_get_vector p' = Ok (fvec v).
Proof.
  revert v. induction p as [l|nm es fi vi fs vs IH] using param_rect'; intros v W Pop L.
  - inversion W; subst. destruct (leaf_vector_roundtrip l v H0 L) as [l' [A B]]. exists (Leaf l'). cbn. rewrite A. split; auto.
  - inversion W as [|? ? ? ? ? ? ND F Efi Evi Efs Evs]; subst. apply populated_ents in Pop as [Ne Pop]. cbn [p_free_size p_vector_size] in *.
    destruct (cut_blocks p_vector_size (fun q y q' => p_set_vector q (fvec y) = (q', Ok tt) /\ p_get_vector q' = Ok (fvec y)) es v) as [st [-> S]]; [|exact L|].
    { rewrite Forall_forall in *. intros e He y Ly. exact (IH e He y (F e He) (Pop e He) Ly). }
    assert (Ns : st <> []). { intros ->. inversion S; subst. apply Ne. reflexivity. }
    exists (Dict nm (upd_ents snd es st) (offsets p_free_size 0 es) (offsets p_vector_size 0 es) (total p_free_size es) (total p_vector_size es)).
    split.
    + rewrite p_set_vector_dict. unfold fvec at 1. rewrite nd_size_vec, map_length, L, Nat.eqb_refl. cbn [negb].
      pose proof (set_go_blocks0 p_vector_size p_set_vector es (map (fun s => (map Fin (fst s), snd s)) st)) as X.
      rewrite map_map in X. cbn [fst] in X. rewrite <- (map_map fst (map Fin)), concat_map_Fin in X. cbn zeta. unfold fvec. rewrite X.
      * cbn [fst snd]. f_equal. f_equal. unfold upd_ents. clear. revert st. induction es as [|e es IH]; intros [|s st]; cbn; [reflexivity|reflexivity|reflexivity|]. f_equal. apply IH.
      * apply Forall2_map_r. eapply Forall2_impl; [|exact S]. cbn [fst snd]. intros e s [Ls [A B]]. splits; [exact A|rewrite map_length; exact Ls|].
        destruct (p_set_vector_sizes (snd e) (fvec (fst s))) as [[_ Z] _]. rewrite A in Z. exact Z.
    + rewrite p_get_vector_dict, (get_go_vecs p_get_vector _ (map (fun s => map Fin (fst s)) st)).
      * cbn [rbind]. rewrite np_hstack_vecs by (intros E; apply map_eq_nil in E; auto). rewrite <- (map_map fst (map Fin)), concat_map_Fin. reflexivity.
      * apply (Forall2_upd (fun q v => p_get_vector q = Ok (nd_vec v)) snd (fun s : list R * param => map Fin (fst s)) es st).
        eapply Forall2_impl; [|exact S]. intros e s [Ls [A B]]. exact B.
Qed.
(** ---- C14, C15 second half ---- *)
Lemma same_values_ents nm es es' fi vi fs vs : Forall2 (fun e e' => fst e = fst e' /\ same_values (snd e) (snd e')) es es' ->
  same_values (Dict nm es fi vi fs vs) (Dict nm es' fi vi fs vs).
Proof.
  intros F. cbn [same_values]. splits; try reflexivity. induction F as [|[k q] [k' q'] es es' [A B] F IH]; [exact I|]. cbn [fst snd] in *. splits; assumption.
Qed.
Lemma collect {B} (T : param -> B -> Prop) (es : ents) : Forall (fun e => exists b, T (snd e) b) es -> exists st, Forall2 (fun e b => T (snd e) b) es st.
Proof. intros F. induction F as [|e es [b Hb] F [st IH]]; [exists []; constructor|]. exists (b :: st). constructor; assumption. Qed.
Lemma value_roundtrip (size : param -> nat) getf setf (P : leaf -> Prop) :
  (forall q a, size (fst (setf q a)) = size q) ->
  (forall l, leaf_wf l -> P l -> exists f l', getf (Leaf l) = Ok (nd_vec f) /\ length f = size (Leaf l) /\ setf (Leaf l) (nd_vec f) = (Leaf l', Ok tt) /\ data (leaf_get l') = data (leaf_get l)) ->
  (forall nm es fi vi fs vs, getf (Dict nm es fi vi fs vs) = do l <- get_go getf es; np_hstack l) ->
  (forall nm es fi vi fs vs vec, setf (Dict nm es fi vi fs vs) vec = if negb (Nat.eqb (nd_size vec) (size (Dict nm es fi vi fs vs))) then (Dict nm es fi vi fs vs, Raise ValueError)
      else let r := set_go size setf vec es 0 in (Dict nm (fst r) fi vi fs vs, snd r)) ->
  (forall nm es fi vi fs vs, p_wf (Dict nm es fi vi fs vs) -> size (Dict nm es fi vi fs vs) = total size es) ->
  forall p, p_wf p -> populated p -> all_leaves P p ->
  exists f p', getf p = Ok (nd_vec f) /\ length f = size p /\ setf p (nd_vec f) = (p', Ok tt) /\ same_values p p'.
Proof.
  intros HS HL HG HSet HT. induction p as [l|nm es fi vi fs vs IH] using param_rect'; intros W Pop AL.
  - inversion W; subst. destruct (HL l H0 AL) as [f [l' [A [B [C D]]]]]. exists f, (Leaf l'). splits; auto. cbn. congruence.
  - pose proof (HT _ _ _ _ _ _ W) as Hsz. inversion W as [|? ? ? ? ? ? ND F Efi Evi Efs Evs]; subst. apply populated_ents in Pop as [Ne Pop]. apply all_leaves_ents in AL.
    destruct (collect (fun q b => getf q = Ok (nd_vec (fst b)) /\ length (fst b) = size q /\ setf q (nd_vec (fst b)) = (snd b, Ok tt) /\ same_values q (snd b)) es) as [st S].
    { rewrite Forall_forall in *. intros e He. destruct (IH e He (F e He) (Pop e He) (AL e He)) as [f [q' H]]. exists (f, q'). exact H. }
    assert (Ns : st <> []). { intros ->. inversion S; subst. apply Ne. reflexivity. }
    assert (Lf : length (List.concat (map fst st)) = total size es).
    { apply blocks_length. apply Forall2_map_r. eapply Forall2_impl; [|exact S]. intros e s [A [B _]]. exact B. }
    exists (List.concat (map fst st)). eexists. splits.
    + rewrite HG, (get_go_vecs getf es (map fst st)).
      * cbn [rbind]. apply np_hstack_vecs. intros E; apply map_eq_nil in E; auto.
      * apply Forall2_map_r. eapply Forall2_impl; [|exact S]. intros e s [A _]. exact A.
    + rewrite Hsz. exact Lf.
    + rewrite HSet, nd_size_vec, Hsz, Lf, Nat.eqb_refl. cbn [negb]. rewrite (set_go_blocks0 size setf es st); [reflexivity|].
      eapply Forall2_impl; [|exact S]. intros e s [A [B [C _]]]. splits; [exact C|exact B|]. pose proof (HS (snd e) (nd_vec (fst s))) as Z. rewrite C in Z. exact Z.
    + cbn [fst]. apply same_values_ents. clear -S. induction S as [|[k q] s es st [_ [_ [_ H]]] S IH]; constructor; [split; [reflexivity|exact H]|exact IH].
Qed.
Lemma p_value_roundtrip p : p_wf p -> populated p -> all_leaves leaf_interior p ->
  exists f p', p_get_free p = Ok (nd_vec f) /\ length f = p_free_size p /\ p_set_free p (nd_vec f) = (p', Ok tt) /\ same_values p p'.
Proof.
  apply value_roundtrip.
  - intros q a. apply p_set_free_sizes.
  - intros l W Il. destruct (leaf_value_roundtrip l W Il) as [f [l' [A [B [C D]]]]]. exists f, l'. cbn. rewrite C. splits; auto.
  - reflexivity.
  - reflexivity.
  - intros nm es fi vi fs vs W. inversion W; subst. reflexivity.
Qed.
Lemma p_value_vector_roundtrip p : p_wf p -> populated p -> all_leaves leaf_regular p ->
  exists f p', p_get_vector p = Ok (nd_vec f) /\ length f = p_vector_size p /\ p_set_vector p (nd_vec f) = (p', Ok tt) /\ same_values p p'.
Proof.
  apply value_roundtrip.
  - intros q a. apply p_set_vector_sizes.
  - intros l W Il. destruct (leaf_value_vector_roundtrip l W Il) as [f [l' [A [B [C D]]]]]. exists f, l'. cbn. rewrite C. splits; auto.
  - reflexivity.
  - reflexivity.
  - intros nm es fi vi fs vs W. inversion W; subst. reflexivity.
Qed.

(** ---- C16 ---- *)
Lemma tiles_offsets size o es : tiles o (map snd (offsets size o es)) (o + total size es).
Proof.
  revert o. induction es as [|[k q] es IH]; intros o; cbn [offsets map snd tiles total]; [lia|]. splits; [reflexivity|lia|].
  specialize (IH (o + size q)%nat). rewrite <- Nat.add_assoc in IH. exact IH.
Qed.
Lemma od_get_split {V} (d : list (string * V)) k v : od_get d k = Some v -> exists d1 d2, d = d1 ++ (k, v) :: d2 /\ ~ In k (map fst d1).
Proof.
  induction d as [|[k' v'] d IH]; cbn; [discriminate|]. destruct (String.eqb_spec k k') as [->|N]; intros H.
  - injection H as ->. exists [], d. split; [reflexivity|intros []].
  - destruct (IH H) as [d1 [d2 [-> Hn]]]. exists ((k', v') :: d1), d2. split; [reflexivity|]. intros [E|E]; [cbn in E; congruence|auto].
Qed.
Lemma od_get_app {V} (d1 d2 : list (string * V)) k v : ~ In k (map fst d1) -> od_get (d1 ++ (k, v) :: d2) k = Some v.
Proof.
  induction d1 as [|[k' v'] d1 IH]; cbn; intros N; [rewrite String.eqb_refl; reflexivity|].
  destruct (String.eqb_spec k k') as [->|]; [exfalso; apply N; left; reflexivity|]. apply IH. auto.
Qed.
Lemma get_go_F2 getf es l : get_go getf es = Ok l -> Forall2 (fun e b => getf (snd e) = Ok b) es l.
Proof.
  revert l. induction es as [|[k q] es IH]; intros l E; cbn [get_go] in E; [injection E as <-; constructor|].
  destruct (getf q) as [a|] eqn:Ea; [|discriminate]. cbn [rbind] in E.
  change ((fix go (l : ents) : res (list arr) := _) es) with (get_go getf es) in E. destruct (get_go getf es) as [r|]; [|discriminate].
  injection E as <-. constructor; [exact Ea|apply IH; reflexivity].
Qed.
Lemma hstack_flat_data (l : list arr) a : np_hstack l = Ok a -> (length (shape a) <= 1)%nat ->
  data a = List.concat (map data l) /\ (exists n, shape a = [n]) /\ forall b, In b l -> (length (shape b) <= 1)%nat.
Proof.
  intros E Hs. unfold np_hstack in E. destruct (map at_least_1d l) as [|a0 rest] eqn:El; [discriminate|]. set (arrs := a0 :: rest) in *.
  assert (D : map data l = map data arrs).
  { rewrite <- El, map_map. apply map_ext. intros b. unfold at_least_1d. destruct (shape b); reflexivity. }
  destruct (shape a0) as [|n0 [|n1 tl]]; [discriminate| |].
  - destruct (forallb _ arrs) eqn:Ea; [|discriminate]. apply Ok_inj in E. subst a. cbn [data shape]. rewrite D. splits; [reflexivity|eexists; reflexivity|].
    intros b Hb. rewrite forallb_forall in Ea. specialize (Ea (at_least_1d b)). rewrite <- El in Ea. specialize (Ea (in_map _ _ _ Hb)).
    unfold at_least_1d in Ea. destruct (shape b) as [|? [|]] eqn:Eb; cbn; [lia|lia|]. rewrite Eb in Ea. discriminate.
  - destruct (forallb _ arrs); [|discriminate]. apply Ok_inj in E. subst a. cbn in Hs. lia.
Qed.
Lemma member_slice getf (size : param -> nat) (e1 e2 : ents) k q l a :
  Forall (fun e => forall b, getf (snd e) = Ok b -> sized (size (snd e)) b) (e1 ++ (k, q) :: e2) ->
  get_go getf (e1 ++ (k, q) :: e2) = Ok l -> np_hstack l = Ok a -> (length (shape a) <= 1)%nat ->
  exists b, getf q = Ok b /\ (length (shape b) <= 1)%nat /\ data b = slice (data a) (total size e1) (total size e1 + size q).
Proof.
  intros F G E Hs. destruct (hstack_flat_data l a E Hs) as [D [_ HL]]. apply get_go_F2 in G.
  apply Forall2_app_inv_l in G as [l1 [l2 [G1 [G2 ->]]]]. inversion G2 as [|? b ? l3 Hb G3]; subst. cbn [snd] in Hb.
  exists b. splits; [exact Hb|apply HL; apply in_app_iff; right; left; reflexivity|].
  rewrite D, map_app, concat_app. cbn [map List.concat]. rewrite Forall_app in F. destruct F as [F1 F2]. inversion F2 as [|? ? F3 F4]; subst.
  destruct (F3 b Hb) as [Wb Sb]. cbn [snd] in Sb.
  assert (L1 : length (List.concat (map data l1)) = total size e1).
  { clear -G1 F1. induction G1 as [|[k' q'] b e1 l1 H G1 IH]; [reflexivity|]. inversion F1 as [|? ? F3 F4]; subst. cbn [map List.concat total]. rewrite app_length, IH by assumption.
    destruct (F3 b H) as [W S]. cbn [snd] in S. rewrite W. unfold nd_size in S. rewrite S. reflexivity. }
  rewrite <- L1. replace (size q) with (length (data b)) by (rewrite Wb; exact Sb). symmetry. apply slice_block.
Qed.
Lemma p_get_free_flat p a : p_wf p -> p_get_free p = Ok a -> flat (p_free_size p) a.
Proof.
  revert a. induction p as [l|nm es fi vi fs vs IH] using param_rect'; intros a W E.
  - inversion W; subst. apply leaf_get_free_flat; assumption.
  - apply sized_flat; [apply p_get_free_sized; assumption|]. inversion W as [|? ? ? ? ? ? ND F _ _ _ _]; subst.
    pose proof (p_get_free_sized _ _ W E) as [Wa Sa]. cbn [p_free_size] in *. rewrite p_get_free_dict in E. destruct (get_go p_get_free es) as [l|] eqn:El; [|discriminate]. cbn [rbind] in E.
    apply get_go_F2 in El. assert (X : exists m, l = map nd_vec m).
    { clear -El IH F. induction El as [|e b es l H El IHl]; [exists []; reflexivity|]. inversion IH; inversion F; subst.
      destruct IHl as [m ->]; [assumption|assumption|]. destruct (H2 b H6 H) as [w [-> _]]. exists (w :: m). reflexivity. }
    destruct X as [m ->]. destruct m as [|w m]; [discriminate|]. rewrite np_hstack_vecs in E by discriminate. apply Ok_inj in E. subst a.
    unfold nd_size in Sa. cbn [nd_vec shape] in *. rewrite nprod_1 in Sa. rewrite Sa. reflexivity.
Qed.
Lemma index_ranges d : reachable d -> is_dict d = true ->
  map fst (p_free_indices d) = map fst (p_entries d) /\ tiles 0 (map snd (p_free_indices d)) (p_free_size d) /\
  map fst (p_vector_indices d) = map fst (p_entries d) /\ tiles 0 (map snd (p_vector_indices d)) (p_vector_size d) /\
  forall k q, d_getitem d k = Ok q ->
    (exists lo, od_get (p_free_indices d) k = Some (lo, (lo + p_free_size q)%nat) /\
       forall a, p_get_free d = Ok a -> exists b, p_get_free q = Ok b /\ np_slice a lo (lo + p_free_size q) = Ok b) /\
    (exists lo, od_get (p_vector_indices d) k = Some (lo, (lo + p_vector_size q)%nat) /\
       forall v, p_get_vector d = Ok (nd_vec v) -> exists b, p_get_vector q = Ok b /\ slice v lo (lo + p_vector_size q) = data b).
Proof.
  intros Rd D. apply reachable_wf in Rd. destruct d as [|nm es fi vi fs vs]; [discriminate|].
  pose proof Rd as W. inversion W as [|? ? ? ? ? ? ND F Efi Evi Efs Evs]; subst. cbn [p_free_indices p_vector_indices p_entries p_free_size p_vector_size]. splits.
  - apply offsets_keys.
  - apply (tiles_offsets p_free_size 0 es).
  - apply offsets_keys.
  - apply (tiles_offsets p_vector_size 0 es).
  - intros k q G. cbn [d_getitem] in G. destruct (od_get es k) as [q0|] eqn:Eo; [|discriminate]. injection G as ->.
    destruct (od_get_split es k q Eo) as [e1 [e2 [-> N1]]]. split.
    + exists (total p_free_size e1). split.
      * rewrite offsets_app. cbn [offsets]. rewrite Nat.add_0_l. apply od_get_app. rewrite offsets_keys. exact N1.
      * intros a Ea. destruct (p_get_free_flat _ _ Rd Ea) as [v [-> Lv]]. cbn [p_free_size] in Lv. rewrite total_app in Lv. cbn [total] in Lv.
        rewrite p_get_free_dict in Ea. destruct (get_go p_get_free (e1 ++ (k, q) :: e2)) as [l|] eqn:El; [|discriminate]. cbn [rbind] in Ea.
        destruct (member_slice p_get_free p_free_size e1 e2 k q l (nd_vec v)) as [b [A [B C]]]; [|exact El|exact Ea|cbn; lia|].
        { eapply Forall_impl; [|exact F]. intros e He b. apply p_get_free_sized, He. }
        exists b. split; [exact A|]. rewrite np_slice_vec by lia. f_equal. rewrite Forall_app in F. destruct F as [_ F]. inversion F as [|? ? Wq _]; subst.
        destruct (p_get_free_flat q b Wq A) as [w [-> Lw]]. cbn [nd_vec data] in C. rewrite <- C. reflexivity.
    + exists (total p_vector_size e1). split.
      * rewrite offsets_app. cbn [offsets]. rewrite Nat.add_0_l. apply od_get_app. rewrite offsets_keys. exact N1.
      * intros v Ea. rewrite p_get_vector_dict in Ea. destruct (get_go p_get_vector (e1 ++ (k, q) :: e2)) as [l|] eqn:El; [|discriminate]. cbn [rbind] in Ea.
        destruct (member_slice p_get_vector p_vector_size e1 e2 k q l (nd_vec v)) as [b [A [B C]]]; [|exact El|exact Ea|cbn; lia|].
        { eapply Forall_impl; [|exact F]. intros e He b. apply p_get_vector_sized, He. }
        exists b. split; [exact A|]. symmetry. exact C.
Qed.
(** ---- C18 ---- *)
Lemma set_go_member (size : param -> nat) setf (e1 e2 : ents) k q x off es' : (forall q a, size (fst (setf q a)) = size q) ->
  set_go size setf (nd_vec x) (e1 ++ (k, q) :: e2) off = (es', Ok tt) -> (off + total size (e1 ++ (k, q) :: e2) <= length x)%nat -> ~ In k (map fst e1) ->
  exists q', setf q (nd_vec (slice x (off + total size e1) (off + total size e1 + size q))) = (q', Ok tt) /\ od_get es' k = Some q'.
Proof.
  intros HS. revert off es'. induction e1 as [|[k1 q1] e1 IH]; intros off es' E L N; cbn [app set_go total] in *.
  - rewrite np_slice_vec in E by lia. rewrite Nat.add_0_r. destruct (setf q _) as [q' [[]|]]; cbn [fst snd] in E; [|discriminate].
    exists q'. split; [reflexivity|]. injection E as <- _. cbn. rewrite String.eqb_refl. reflexivity.
  - rewrite np_slice_vec in E by lia. pose proof (HS q1 (nd_vec (slice x off (off + size q1)))) as Z. destruct (setf q1 _) as [q1' [[]|]]; cbn [fst snd] in E, Z; [|discriminate].
    change ((fix go (l : ents) (offset : nat) {struct l} : ents * res unit := _) (e1 ++ (k, q) :: e2)) with (set_go size setf (nd_vec x) (e1 ++ (k, q) :: e2)) in E.
    destruct (set_go size setf (nd_vec x) (e1 ++ (k, q) :: e2) (off + size q1')) as [es1 r1] eqn:E1. cbn [fst snd] in E. injection E as <- ->.
    destruct (IH _ _ E1) as [q' [A B]]; [rewrite Z; lia|intros Hn; apply N; right; exact Hn|]. exists q'. rewrite Z in A. rewrite Nat.add_assoc. split; [exact A|].
    cbn [od_get]. destruct (String.eqb_spec k k1) as [->|]; [exfalso; apply N; left; reflexivity|exact B].
Qed.
Lemma member_update d k q x d' : reachable d -> d_getitem d k = Ok q -> p_set_free d (nd_vec x) = (d', Ok tt) ->
  exists lo q', od_get (p_free_indices d) k = Some (lo, (lo + p_free_size q)%nat) /\
    p_set_free q (nd_vec (slice x lo (lo + p_free_size q))) = (q', Ok tt) /\ d_getitem d' k = Ok q'.
Proof.
  intros Rd G E. apply reachable_wf in Rd. destruct (d_getitem_dict _ _ _ G) as [nm [es [fi [vi [fs [vs [-> Eo]]]]]]].
  inversion Rd as [|? ? ? ? ? ? ND F Efi Evi Efs Evs]; subst. rewrite p_set_free_dict, nd_size_vec in E.
  destruct (Nat.eqb_spec (length x) (total p_free_size es)) as [L|]; [|discriminate]. cbn [negb] in E. cbn zeta in E.
  destruct (set_go p_free_size p_set_free (nd_vec x) es 0) as [es' r] eqn:Es. cbn [fst snd] in E. injection E as <- ->.
  destruct (od_get_split es k q Eo) as [e1 [e2 [-> N1]]].
  destruct (set_go_member _ _ _ _ _ _ _ _ _ (fun q a => proj1 (proj1 (p_set_free_sizes q a))) Es) as [q' [A B]]; [lia|exact N1|].
  exists (total p_free_size e1), q'. splits; [|exact A|].
  - cbn [p_free_indices]. rewrite offsets_app. cbn [offsets]. rewrite Nat.add_0_l. apply od_get_app. rewrite offsets_keys. exact N1.
  - cbn [d_getitem]. rewrite B. reflexivity.
Qed.
Lemma member_update_vector d k q x d' : p_wf d -> d_getitem d k = Ok q -> p_set_vector d (nd_vec x) = (d', Ok tt) ->
  exists lo q', od_get (p_vector_indices d) k = Some (lo, (lo + p_vector_size q)%nat) /\
    p_set_vector q (nd_vec (slice x lo (lo + p_vector_size q))) = (q', Ok tt) /\ d_getitem d' k = Ok q' /\
    forall a, p_get_vector d = Ok a -> (length (shape a) <= 1)%nat ->
      exists b, p_get_vector q = Ok b /\ (length (shape b) <= 1)%nat /\ data b = slice (data a) lo (lo + p_vector_size q).
Proof.
  intros Rd G E. destruct (d_getitem_dict _ _ _ G) as [nm [es [fi [vi [fs [vs [-> Eo]]]]]]].
  inversion Rd as [|? ? ? ? ? ? ND F Efi Evi Efs Evs]; subst. rewrite p_set_vector_dict, nd_size_vec in E.
  destruct (Nat.eqb_spec (length x) (total p_vector_size es)) as [L|]; [|discriminate]. cbn [negb] in E. cbn zeta in E.
  destruct (set_go p_vector_size p_set_vector (nd_vec x) es 0) as [es' r] eqn:Es. cbn [fst snd] in E. injection E as <- ->.
  destruct (od_get_split es k q Eo) as [e1 [e2 [-> N1]]].
  destruct (set_go_member _ _ _ _ _ _ _ _ _ (fun q a => proj2 (proj1 (p_set_vector_sizes q a))) Es) as [q' [A B]]; [lia|exact N1|].
  exists (total p_vector_size e1), q'. splits; [|exact A| |].
  - cbn [p_vector_indices]. rewrite offsets_app. cbn [offsets]. rewrite Nat.add_0_l. apply od_get_app. rewrite offsets_keys. exact N1.
  - cbn [d_getitem]. rewrite B. reflexivity.
  - intros a Ea Ha. rewrite p_get_vector_dict in Ea. destruct (get_go p_get_vector (e1 ++ (k, q) :: e2)) as [l|] eqn:El; [|discriminate]. cbn [rbind] in Ea.
    apply (member_slice p_get_vector p_vector_size e1 e2 k q l a); [|exact El|exact Ea|exact Ha].
    eapply Forall_impl; [|exact F]. intros e He b. apply p_get_vector_sized, He.
Qed.
Lemma members_independent d k q lo x y dx dy : reachable d -> d_getitem d k = Ok q -> od_get (p_free_indices d) k = Some (lo, (lo + p_free_size q)%nat) ->
  (forall i, (lo <= i)%nat -> (i < lo + p_free_size q)%nat -> nth_error x i = nth_error y i) ->
  p_set_free d (nd_vec x) = (dx, Ok tt) -> p_set_free d (nd_vec y) = (dy, Ok tt) -> d_getitem dx k = d_getitem dy k.
Proof.
  intros Rd G I Hxy Ex Ey. destruct (member_update d k q x dx Rd G Ex) as [l1 [q1 [A1 [B1 C1]]]]. destruct (member_update d k q y dy Rd G Ey) as [l2 [q2 [A2 [B2 C2]]]].
  rewrite I in A1, A2. injection A1 as <-. injection A2 as <-. assert (S : slice x lo (lo + p_free_size q) = slice y lo (lo + p_free_size q)).
  { clear -Hxy. unfold slice. rewrite Nat.add_comm, Nat.add_sub in *. set (n := p_free_size q) in *. clearbody n. revert x y Hxy. induction lo as [|lo IH]; intros x y H.
    - cbn [skipn]. revert x y H. induction n as [|n IHn]; intros x y H; [reflexivity|]. pose proof (H 0%nat ltac:(lia) ltac:(lia)) as H0. destruct x as [|a x], y as [|b y]; cbn in H0; try discriminate; [reflexivity|].
      injection H0 as ->. cbn. f_equal. apply IHn. intros i _ Hi. apply (H (S i)); lia.
    - destruct x as [|a x], y as [|b y].
      + reflexivity.
      + cbn [skipn]. rewrite <- (IH [] y); [rewrite skipn_nil; reflexivity|]. intros i H1 H2. specialize (H (S i)). cbn in H. rewrite <- H by lia. destruct i; reflexivity.
      + cbn [skipn]. rewrite (IH x []); [rewrite skipn_nil; reflexivity|]. intros i H1 H2. specialize (H (S i)). cbn in H. rewrite H by lia. destruct i; reflexivity.
      + cbn [skipn]. apply IH. intros i H1 H2. apply (H (S i)); lia. }
  rewrite S in B1. rewrite B1 in B2. injection B2 as <-. congruence.
Qed.
Lemma values_setitem_others d k a k' : k' <> k ->
  d_getitem (fst (values_setitem d k a)) k' = d_getitem d k' /\ p_free_size (fst (values_setitem d k a)) = p_free_size d /\
  p_vector_size (fst (values_setitem d k a)) = p_vector_size d.
Proof.
  intros N. unfold values_setitem. destruct (d_getitem d k) as [q|]; [|splits; reflexivity]. cbn [fst]. destruct d as [l|nm es fi vi fs vs]; [splits; reflexivity|]. cbn [d_replace d_getitem p_free_size p_vector_size].
  splits; try reflexivity. assert (E : od_get (od_replace es k (fst (p_set q a))) k' = od_get es k'); [|rewrite E; reflexivity].
  induction es as [|[k1 q1] es IH]; [reflexivity|]. cbn [od_replace]. destruct (String.eqb_spec k k1) as [->|]; cbn [od_get].
  - destruct (String.eqb_spec k' k1); [congruence|reflexivity].
  - rewrite IH. reflexivity.
Qed.
(** ---- C41 ---- *)
Lemma nth_seq_map {A} (v : list A) lo n d : (lo + n <= length v)%nat -> slice v lo (lo + n) = map (fun k => nth k v d) (seq lo n).
Proof.
  intros L. apply (nth_ext _ _ d d).
  - rewrite slice_length, map_length, seq_length by lia. lia.
  - intros i Hi. rewrite slice_length in Hi by lia. rewrite nth_slice by lia. rewrite (nth_indep (map (fun k => nth k v d) (seq lo n)) d (nth 0 v d)) by (rewrite map_length, seq_length; lia).
    rewrite (map_nth (fun k => nth k v d) (seq lo n) 0%nat i), seq_nth by lia. reflexivity.
Qed.
Lemma slice_seq a n lo m : (lo + m <= n)%nat -> slice (seq a n) lo (lo + m) = seq (a + lo) m.
Proof.
  intros L. apply (nth_ext _ _ 0%nat 0%nat).
  - rewrite slice_length, seq_length by (rewrite seq_length; lia). lia.
  - intros i Hi. rewrite slice_length in Hi by (rewrite seq_length; lia). rewrite nth_slice, !seq_nth by lia. lia.
Qed.
Lemma offsets_bound size es o k lo hi : od_get (offsets size o es) k = Some (lo, hi) -> (o <= lo)%nat /\ (hi <= o + total size es)%nat.
Proof.
  revert o. induction es as [|[k1 q1] es IH]; intros o; cbn [offsets od_get total]; [discriminate|]. destruct (String.eqb k k1); intros H.
  - injection H as <- <-. lia.
  - specialize (IH _ H). lia.
Qed.
Definition positions (lo n : nat) : arr := nd_vec (map (fun k => Fin (INR k)) (seq lo n)).
Lemma index_path path : forall p lo0 p' q, p_wf p -> populated p -> p_set_vector p (positions lo0 (p_vector_size p)) = (p', Ok tt) ->
  p_at p path = Ok q -> p_wf q /\ populated q /\
  exists q' d, p_at p' path = Ok q' /\ (d + p_vector_size q <= p_vector_size p)%nat /\
    p_set_vector q (positions (lo0 + d) (p_vector_size q)) = (q', Ok tt) /\
    forall a, p_get_vector p = Ok a -> (length (shape a) <= 1)%nat ->
      exists b, p_get_vector q = Ok b /\ (length (shape b) <= 1)%nat /\ data b = slice (data a) d (d + p_vector_size q).
Proof.
  induction path as [|k path IH]; intros p lo0 p' q W Pop E A; cbn [p_at] in A.
  - injection A as <-. splits; [exact W|exact Pop|]. exists p', 0%nat. rewrite Nat.add_0_r. splits; [reflexivity|lia|exact E|]. intros a Ea Ha. exists a. splits; [exact Ea|exact Ha|].
    destruct (p_get_vector_sized p a W Ea) as [Wa Sa]. rewrite Nat.add_0_l, <- Sa. symmetry. unfold nd_size. rewrite <- Wa. apply slice_all.
  - destruct (d_getitem p k) as [q1|] eqn:G; [|discriminate]. cbn [rbind] in A.
    destruct (member_update_vector p k q1 _ p' W G E) as [lo [q1' [I [S1 [G' Sl]]]]].
    destruct (d_getitem_dict _ _ _ G) as [nm [es [fi [vi [fs [vs [-> Eo]]]]]]]. inversion W as [|? ? ? ? ? ? ND F Efi Evi Efs Evs]; subst.
    apply populated_ents in Pop as [_ Pop]. pose proof (Forall_od_get _ _ _ _ F Eo) as W1. pose proof (Forall_od_get _ _ _ _ Pop Eo) as Pop1. cbn [p_vector_size p_vector_indices] in *.
    destruct (offsets_bound _ _ _ _ _ _ I) as [_ Bd]. rewrite slice_map, slice_seq in S1 by lia. fold (positions (lo0 + lo) (p_vector_size q1)) in S1.
    destruct (IH q1 (lo0 + lo)%nat q1' q W1 Pop1 S1 A) as [Wq [Popq [q' [d [A' [Bd' [S' Sl']]]]]]].
    splits; [exact Wq|exact Popq|]. exists q', (lo + d)%nat. cbn [p_at]. rewrite G'. cbn [rbind]. splits; [exact A'|lia|rewrite Nat.add_assoc; exact S'|].
    intros a Ea Ha. destruct (Sl a Ea Ha) as [b1 [Eb1 [Hb1 Db1]]]. destruct (Sl' b1 Eb1 Hb1) as [b [Eb [Hb Db]]]. exists b. splits; [exact Eb|exact Hb|].
    rewrite Db, Db1, slice_slice by lia. f_equal; lia.
Qed.
Lemma leaf_verbatim l a : stored_verbatim l -> leaf_get_vector l = Ok a -> data a = data (leaf_get l).
Proof.
  destruct l as [p|p|p|p|p|p|p|p]; cbn [stored_verbatim leaf_get_vector leaf_get]; intros V E; try contradiction.
  - unfold scalar_get_vector, np_reshape in E. destruct (Nat.eqb _ _); [|discriminate]. injection E as <-. reflexivity.
  - injection E as <-. reflexivity.
  - injection E as <-. reflexivity.
  - injection E as <-. reflexivity.
  - injection E as <-. reflexivity.
Qed.
Lemma index_param p : reachable p -> populated p ->
  exists p', make_index_param p = (p', Ok tt) /\ p_get_vector p' = Ok (nd_vec (map (fun k => Fin (INR k)) (seq 0 (p_vector_size p)))) /\
  forall path q, p_at p path = Ok q -> exists q' lo, p_at p' path = Ok q' /\ (lo + p_vector_size q <= p_vector_size p)%nat /\
    p_get_vector q' = Ok (nd_vec (map (fun k => Fin (INR k)) (seq lo (p_vector_size q)))) /\
    (forall l', q' = Leaf l' -> stored_verbatim l' -> data (leaf_get l') = map (fun k => Fin (INR k)) (seq lo (p_vector_size q))) /\
    (forall v, p_get_vector p = Ok (nd_vec v) ->
       exists b, p_get_vector q = Ok b /\ data b = map (fun k => nth k v NaN) (seq lo (p_vector_size q))).
Proof.
  intros R Pop. apply reachable_wf in R.
  assert (P : forall q lo, p_wf q -> populated q -> exists q', p_set_vector q (positions lo (p_vector_size q)) = (q', Ok tt) /\ p_get_vector q' = Ok (positions lo (p_vector_size q))).
  { intros q lo W Pq. destruct (p_vector_roundtrip q (map INR (seq lo (p_vector_size q))) W Pq) as [q' [A B]]; [rewrite map_length, seq_length; reflexivity|].
    exists q'. unfold fvec in A, B. rewrite map_map in A, B. split; assumption. }
  destruct (P p 0%nat R Pop) as [p' [A B]]. exists p'. splits; [exact A|exact B|]. intros path q Hq.
  destruct (index_path path p 0 p' q R Pop A Hq) as [Wq [Pq [q' [lo [Hq' [Bd [S Sl]]]]]]]. exists q', lo. rewrite Nat.add_0_l in S.
  destruct (P q lo Wq Pq) as [q2 [A2 B2]]. rewrite S in A2. injection A2 as <-. splits; [exact Hq'|exact Bd|exact B2| |].
  - intros l' -> V. cbn [p_get_vector] in B2. rewrite <- (leaf_verbatim l' _ V B2). reflexivity.
  - intros v Ev. destruct (Sl (nd_vec v) Ev) as [b [Eb [_ Db]]]; [cbn; lia|]. exists b. split; [exact Eb|]. rewrite Db. cbn [nd_vec data]. apply nth_seq_map.
    destruct (p_get_vector_sized p _ R Ev) as [_ Sz]. rewrite nd_size_vec in Sz. lia.
Qed.
