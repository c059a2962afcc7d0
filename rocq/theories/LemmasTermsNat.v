(** Derivative terms in terms of natural numbers: construction never fails on the terms the expansion makes; evaluation. *)
From Coq Require Import String Reals List Bool Arith ZArith Lia Lra Permutation.
From Coquelicot Require Import Coquelicot.
From Verif Require Import Res Num Nd RSum ModelAutograd ModelSparse ModelParameters ModelMatrix ModelSimplex ModelProjection ModelDict ModelObjective ModelSensitivity.
From Verif Require Import LemmasParameters LemmasTerms.
Import List ListNotations.
Open Scope R_scope.
Set Bullet Behavior "Strict Subproofs".

Definition nsum (l : list nat) : nat := fold_right Nat.add 0%nat l.
Fixpoint nweight (i : nat) (l : list nat) : nat := match l with [] => 0%nat | k :: tl => (k * i + nweight (S i) tl)%nat end.
Definition zs (l : list nat) : list Z := map Z.of_nat l.

Lemma zsum_zs l : zsum (zs l) = Z.of_nat (nsum l).
Proof. induction l as [|k l IH]; [reflexivity|]. cbn [zs map zsum fold_right nsum]. change (Z.of_nat k + zsum (zs l) = Z.of_nat (k + nsum l))%Z. rewrite IH. lia. Qed.
Lemma weighted_zs l : forall i, weighted (Z.of_nat i) (zs l) = Z.of_nat (nweight i l).
Proof. induction l as [|k l IH]; intros i; [reflexivity|]. cbn [zs map weighted nweight]. fold (zs l). replace (Z.of_nat i + 1)%Z with (Z.of_nat (S i)) by lia. rewrite IH. lia. Qed.
Lemma nsum_weight l : forall i, (1 <= i)%nat -> (nsum l <= nweight i l)%nat.
Proof. induction l as [|k l IH]; intros i Hi; [cbn; lia|]. cbn [nsum fold_right nweight]. fold (nsum l). specialize (IH (S i) ltac:(lia)). nia. Qed.
Lemma zs_length l : length (zs l) = length l. Proof. apply map_length. Qed.

(** one term as numbers *)
Notation aterm := (nat * list nat * R)%type.
Definition a_ok (k : nat) (a : aterm) : Prop := let '(e, ks, _) := a in length ks = k /\ (e + nweight 1 ks)%nat = k.

Lemma nweight_upd l : forall s i v, (i < length l)%nat -> (nweight s (upd l i v) + (s + i) * nth i l 0 = nweight s l + (s + i) * v)%nat.
Proof.
  induction l as [|k l IH]; intros s i v Hi; [cbn in Hi; lia|]. destruct i as [|i]; cbn [upd nweight nth]; [nia|]. cbn in Hi. specialize (IH (S s) i v ltac:(lia)). nia.
Qed.
Lemma nweight_app l m : forall s, nweight s (l ++ m) = (nweight s l + nweight (s + length l) m)%nat.
Proof. induction l as [|k l IH]; intros s; cbn [nweight app length]; [rewrite Nat.add_0_r; reflexivity|]. rewrite IH. replace (S s + length l)%nat with (s + S (length l))%nat by lia. lia. Qed.
Definition nbump0 (l : list nat) : list nat := upd l 0 (nth 0 l 0 + 1)%nat.
Definition nshift (l : list nat) (i : nat) : list nat := let l1 := upd l i (nth i l 0 - 1)%nat in upd l1 (S i) (nth (S i) l1 0 + 1)%nat.
Lemma nth_upd_nat (l : list nat) i j v : (j < length l)%nat -> nth i (upd l j v) 0%nat = if Nat.eqb i j then v else nth i l 0%nat.
Proof.
  revert i j. induction l as [|k l IH]; intros i j Hj; [cbn in Hj; lia|]. destruct j, i; cbn [upd nth Nat.eqb]; try reflexivity. apply IH. cbn in Hj. lia.
Qed.
Lemma nbump0_weight l : (0 < length l)%nat -> nweight 1 (nbump0 l) = (nweight 1 l + 1)%nat.
Proof. intros H. unfold nbump0. pose proof (nweight_upd l 1 0 (nth 0 l 0 + 1)%nat H). lia. Qed.
Lemma nshift_weight l i : (S i < length l)%nat -> (0 < nth i l 0)%nat -> nweight 1 (nshift l i) = (nweight 1 l + 1)%nat.
Proof.
  intros H Hp. unfold nshift. set (l1 := upd l i (nth i l 0 - 1)%nat). pose proof (nweight_upd l 1 i (nth i l 0 - 1)%nat ltac:(lia)) as W1. fold l1 in W1.
  pose proof (nweight_upd l1 1 (S i) (nth (S i) l1 0 + 1)%nat ltac:(unfold l1; rewrite upd_length; lia)) as W2. nia.
Qed.
Lemma nshift_length l i : length (nshift l i) = length l.
Proof. unfold nshift. rewrite !upd_length. reflexivity. Qed.

Lemma zs_upd l : forall i v, zs (upd l i v) = upd (zs l) i (Z.of_nat v).
Proof. induction l as [|k l IH]; intros i v; [reflexivity|]. destruct i; cbn; [reflexivity|]. rewrite <- IH. reflexivity. Qed.
Lemma zs_nth l i : nth i (zs l) 0%Z = Z.of_nat (nth i l 0%nat).
Proof. unfold zs. change 0%Z with (Z.of_nat 0). apply map_nth. Qed.
Lemma zbump_plus l i : zbump (zs l) i 1 = zs (upd l i (nth i l 0 + 1)%nat).
Proof. unfold zbump. rewrite zs_nth, zs_upd. f_equal. lia. Qed.
Lemma zbump_minus l i : (0 < nth i l 0)%nat -> zbump (zs l) i (-1) = zs (upd l i (nth i l 0 - 1)%nat).
Proof. intros H. unfold zbump. rewrite zs_nth, zs_upd. f_equal. lia. Qed.

Definition adiff (a : aterm) : list aterm :=
  let '(e, ks, c) := a in
  let old := ks ++ [0%nat] in
  (S e, old, c) :: (e, nbump0 old, c) ::
  flat_map (fun i => if Nat.ltb 0 (nth i ks 0%nat) then [(e, nshift old i, c * INR (nth i ks 0%nat))] else []) (seq 0 (length ks)).
Lemma adiff_ok k a : a_ok k a -> Forall (a_ok (S k)) (adiff a).
Proof.
  destruct a as [[e ks] c]. intros [L W]. unfold adiff. set (old := ks ++ [0%nat]).
  assert (Lo : length old = S k) by (unfold old; rewrite app_length, L; cbn; lia). assert (Wo : nweight 1 old = nweight 1 ks) by (unfold old; rewrite nweight_app; cbn [nweight]; lia).
  constructor; [split; lia|]. constructor; [split; [unfold nbump0; rewrite upd_length; exact Lo|rewrite nbump0_weight; lia]|].
  apply Forall_forall. intros x Hx. apply in_flat_map in Hx. destruct Hx as [i [Hi Hx]]. apply in_seq in Hi. destruct (Nat.ltb_spec 0 (nth i ks 0%nat)); [|destruct Hx]. destruct Hx as [<-|[]].
  split; [rewrite nshift_length; exact Lo|]. rewrite nshift_weight; [lia|lia|]. unfold old. rewrite app_nth1 by lia. lia.
Qed.

Section Conc.
Variables (g : pyfun) (M : nat).
Local Notation gders := (jarray g M).
Definition conc (funs : list etafun) (a : aterm) : dterm :=
  let '(e, ks, c) := a in DTerm (Z.of_nat e) (zs ks) c funs (jarray g M) (Z.of_nat (length ks)) (J g (nsum ks) e).
Lemma make_conc k funs e ks c : a_ok k (e, ks, c) -> (k < M)%nat -> (k <= S (length funs))%nat ->
  make_term (Z.of_nat e) (zs ks) c funs gders = Ok (conc funs (e, ks, c)).
Proof.
  intros [L W] HM Hf. unfold make_term. rewrite zsum_zs. change 1%Z with (Z.of_nat 1) at 1. rewrite weighted_zs. pose proof (nsum_weight ks 1 ltac:(lia)).
  destruct (jarray_get g M (nsum ks) e ltac:(lia) ltac:(lia)) as [row [E1 [E2 E3]]]. rewrite py_index_nat, E1. cbn [rbind]. rewrite py_index_nat, E2. cbn [rbind].
  unfold rassert. rewrite zs_length. change 1%Z with (Z.of_nat 1). rewrite weighted_zs. destruct (Z.eqb_spec (Z.of_nat (length ks)) (Z.of_nat e + Z.of_nat (nweight 1 ks))) as [Eq|]; [|lia].
  destruct (Z.leb_spec 0 (Z.of_nat e)); [|lia]. replace (forallb (fun k0 => (0 <=? k0)%Z) (zs ks)) with true.
  2:{ symmetry. apply forallb_forall. intros x Hx. apply in_map_iff in Hx. destruct Hx as [y [<- _]]. apply Z.leb_le. lia. }
  destruct (Z.leb_spec (Z.of_nat e + Z.of_nat (nweight 1 ks) - Z.of_nat 1) (Z.of_nat (length funs))); [|lia].
  rewrite jarray_length. destruct (Nat.ltb_spec (length ks) M); [|lia]. replace (forallb _ (jarray g M)) with true.
  2:{ symmetry. apply forallb_forall. intros r Hr. unfold jarray in Hr. apply in_map_iff in Hr. destruct Hr as [y [<- _]]. unfold jrow. rewrite map_length, seq_length. apply Z.ltb_lt. lia. }
  unfold conc. rewrite <- Eq. reflexivity.
Qed.
Lemma conc_valid k funs a : a_ok k a -> (k < M)%nat -> (k <= S (length funs))%nat -> valid funs gders (conc funs a).
Proof. destruct a as [[e ks] c]. intros. unfold valid. cbn [conc dt_eps dt_eta dt_pref]. eapply make_conc; eassumption. Qed.

Lemma shift_ok k funs t e ks c next : a_ok k (e, ks, c) -> (S k < M)%nat -> (k <= S (length funs))%nat -> t = conc funs (e, ks, c) ->
  forall pre l, ks = pre ++ l ->
  shift_terms t (funs ++ [next]) (zs (ks ++ [0%nat])) (length pre) (zs l) =
  Ok (map (conc (funs ++ [next])) (flat_map (fun i => if Nat.ltb 0 (nth i ks 0%nat) then [(e, nshift (ks ++ [0%nat]) i, c * INR (nth i ks 0%nat))] else []) (seq (length pre) (length l)))).
Proof.
  intros [L W] HM Hf ->. intros pre l. revert pre. induction l as [|q l IH]; intros pre E; cbn [zs map shift_terms length seq flat_map]; [reflexivity|].
  assert (Nq : nth (length pre) ks 0%nat = q) by (rewrite E, app_nth2, Nat.sub_diag by lia; reflexivity). rewrite Nq.
  assert (IH' := IH (pre ++ [q])). rewrite app_length in IH'. cbn [length] in IH'. rewrite Nat.add_1_r in IH'. rewrite <- app_assoc in IH'. specialize (IH' E). fold (zs l). rewrite IH'. cbn [rbind].
  destruct (Nat.ltb_spec 0 q) as [Hq|Hq]; destruct (Z.ltb_spec 0 (Z.of_nat q)) as [Hz|Hz]; try lia; [|reflexivity].
  assert (Lk : (length pre < length ks)%nat) by (rewrite E, app_length; cbn; lia).
  assert (N' : nth (length pre) (ks ++ [0%nat]) 0%nat = q) by (rewrite app_nth1 by lia; exact Nq).
  cbn [conc dt_eps dt_pref dt_gders]. rewrite zbump_minus by lia. rewrite zbump_plus. fold (nshift (ks ++ [0%nat]) (length pre)).
  replace (c * IZR (Z.of_nat q)) with (c * INR q) by (rewrite INR_IZR_INZ; reflexivity).
  rewrite (make_conc (S k)).
  - cbn [rbind]. reflexivity.
  - split; [rewrite nshift_length, app_length; cbn; lia|]. rewrite nshift_weight; [rewrite nweight_app; cbn [nweight]; lia|rewrite app_length; cbn; lia|lia].
  - exact HM.
  - rewrite app_length. cbn. lia.
Qed.

Lemma differentiate_ok k funs a next : a_ok k a -> (S k < M)%nat -> (k <= S (length funs))%nat -> (1 <= k)%nat ->
  term_differentiate (conc funs a) next = Ok (map (conc (funs ++ [next])) (adiff a)).
Proof.
  destruct a as [[e ks] c]. intros HA HM Hf Hk. pose proof HA as [L W]. unfold term_differentiate. cbn [conc dt_eps dt_eta dt_pref dt_etafuns dt_gders].
  replace (zs ks ++ [0%Z]) with (zs (ks ++ [0%nat])) by (unfold zs; rewrite map_app; reflexivity).
  pose proof (adiff_ok k _ HA) as F. cbn [adiff] in F. inversion F as [|? ? F1 F']; subst. inversion F' as [|? ? F2 F'']; subst.
  assert (Lf : (S (length ks) <= S (length (funs ++ [next])))%nat) by (rewrite app_length; cbn; lia).
  replace (Z.of_nat e + 1)%Z with (Z.of_nat (S e)) by lia. rewrite (make_conc _ _ _ _ _ F1) by (try exact HM; exact Lf). cbn [rbind].
  rewrite zbump_plus. fold (nbump0 (ks ++ [0%nat])). rewrite (make_conc _ _ _ _ _ F2) by (try exact HM; exact Lf). cbn [rbind].
  pose proof (shift_ok _ funs _ e ks c next HA HM Hf eq_refl [] ks eq_refl) as Sh. cbn [length] in Sh. cbn [conc] in Sh. rewrite Sh. cbn [rbind]. reflexivity.
Qed.

Lemma conc_of_valid k funs t : (exists a, a_ok k a /\ sig t = (Z.of_nat (fst (fst a)), zs (snd (fst a)))) -> (k < M)%nat -> (k <= S (length funs))%nat -> valid funs gders t ->
  exists a, a_ok k a /\ t = conc funs a.
Proof.
  intros [[[e ks] c] [Hk Hs]] HM Hf Hv. cbn [fst snd] in Hs. unfold sig in Hs. injection Hs as E1 E2. exists (e, ks, dt_pref t). split; [exact Hk|].
  unfold valid in Hv. rewrite E1, E2 in Hv. rewrite (make_conc k) in Hv by (try exact HM; try exact Hf; exact Hk). congruence.
Qed.

(** differentiating a list of terms *)
Lemma differentiate_list k funs l next : Forall (a_ok k) l -> (S k < M)%nat -> (k <= S (length funs))%nat -> (1 <= k)%nat ->
  exists r, differentiate_terms (map (conc funs) l) next = Ok (map (conc (funs ++ [next])) r) /\ Forall (a_ok (S k)) r /\
    (forall s, In s (map fst r) <-> In s (map fst (flat_map adiff l))) /\
    (forall phi : nat * list nat -> R, lsum (map (fun a => snd a * phi (fst a)) r) = lsum (map (fun a => snd a * phi (fst a)) (flat_map adiff l))).
Proof.
  intros Fl HM Hf Hk. unfold differentiate_terms.
  assert (E : rmapM (fun t => term_differentiate t next) (map (conc funs) l) = Ok (map (fun a => map (conc (funs ++ [next])) (adiff a)) l)).
  { clear -Fl HM Hf Hk. induction l as [|a l IH]; [reflexivity|]. inversion Fl; subst. cbn [map rmapM]. rewrite (differentiate_ok k) by assumption. cbn [rbind]. rewrite IH by assumption. reflexivity. }
  rewrite E. cbn [rbind]. rewrite <- (map_map adiff (map (conc (funs ++ [next])))). rewrite <- concat_map. rewrite <- flat_map_concat_map. set (L := flat_map adiff l).
  assert (FL : Forall (a_ok (S k)) L).
  { apply Forall_forall. intros x Hx. apply in_flat_map in Hx. destruct Hx as [a [Ha Hx]]. rewrite Forall_forall in Fl. pose proof (adiff_ok k a (Fl a Ha)) as Q. rewrite Forall_forall in Q. apply Q, Hx. }
  assert (Lf : (S k <= S (length (funs ++ [next])))%nat) by (rewrite app_length; cbn; lia).
  assert (VL : Forall (valid (funs ++ [next]) gders) (map (conc (funs ++ [next])) L)).
  { apply Forall_forall. intros t Ht. apply in_map_iff in Ht. destruct Ht as [a [<- Ha]]. rewrite Forall_forall in FL. apply (conc_valid (S k)); auto. }
  destruct (consolidate_ok _ _ _ VL) as [r [Er [Vr [Ir Wr]]]]. rewrite Er.
  assert (zs_inj : forall a b, zs a = zs b -> a = b).
  { induction a as [|x a IHa]; intros [|y b]; cbn; intros H; try discriminate; [reflexivity|]. injection H as H1 H2. apply Nat2Z.inj in H1. rewrite H1, (IHa b H2). reflexivity. }
  assert (exists r', r = map (conc (funs ++ [next])) r' /\ Forall (a_ok (S k)) r') as [r' [Er' Fr']].
  { assert (Q : Forall (fun t => exists a, a_ok (S k) a /\ t = conc (funs ++ [next]) a) r).
    { apply Forall_forall. intros t Ht. apply (conc_of_valid (S k)); auto.
      - assert (Hs : In (sig t) (map sig (map (conc (funs ++ [next])) L))) by (apply Ir, in_map, Ht). rewrite map_map in Hs. apply in_map_iff in Hs. destruct Hs as [[[e ks] c] [Hs Ha]].
        rewrite Forall_forall in FL. exists (e, ks, c). split; [apply FL, Ha|]. rewrite <- Hs. reflexivity.
      - rewrite Forall_forall in Vr. apply Vr, Ht. }
    clear -Q. induction Q as [|t r [a [Ha Et]] Q [r' [E F]]]; [exists []; split; [reflexivity|constructor]|]. exists (a :: r'). split; [cbn [map]; rewrite Et, E; reflexivity|constructor; assumption]. }
  exists r'. subst r. splits; [reflexivity|exact Fr'| |].
  - intros s. destruct s as [e ks]. specialize (Ir (Z.of_nat e, zs ks)). rewrite !map_map in Ir. rewrite !in_map_iff in Ir. rewrite !in_map_iff.
    assert (Q : forall X, (exists x, sig (conc (funs ++ [next]) x) = (Z.of_nat e, zs ks) /\ In x X) <-> (exists x, fst x = (e, ks) /\ In x X)).
    { intros X. split; intros [[[e' ks'] c] [H1 H2]]; exists (e', ks', c); (split; [|exact H2]).
      - cbn [conc sig dt_eps dt_eta] in H1. injection H1 as H1 H3. apply Nat2Z.inj in H1. apply zs_inj in H3. subst. reflexivity.
      - cbn [fst] in H1. injection H1 as -> ->. reflexivity. }
    rewrite !Q in Ir. exact Ir.
  - intros phi. set (psi := fun s : Z * list Z => phi (Z.to_nat (fst s), map Z.to_nat (snd s))). specialize (Wr psi). unfold wsum in Wr. rewrite !map_map in Wr.
    assert (Q : forall X, lsum (map (fun x => dt_pref (conc (funs ++ [next]) x) * psi (sig (conc (funs ++ [next]) x))) X) = lsum (map (fun a : aterm => snd a * phi (fst a)) X)).
    { intros X. apply lsum_map_ext. intros [[e ks] c] _. change (sig (conc (funs ++ [next]) (e, ks, c))) with (Z.of_nat e, zs ks). unfold psi. cbn [conc dt_pref fst snd]. rewrite Nat2Z.id. unfold zs. rewrite map_map. rewrite (map_ext _ (fun x => x)) by (intros; apply Nat2Z.id). rewrite map_id. reflexivity. }
    rewrite !Q in Wr. exact Wr.
Qed.

Lemma base_ok : (1 < M)%nat -> get_taylor_base_terms gders = Ok (map (conc []) [(1%nat, [0%nat], 1); (0%nat, [1%nat], 1)]).
Proof.
  intros HM. unfold get_taylor_base_terms. pose proof (make_conc 1 [] 1 [0%nat] 1) as E1. pose proof (make_conc 1 [] 0 [1%nat] 1) as E2.
  change (Z.of_nat 1) with 1%Z in E1. change (Z.of_nat 0) with 0%Z in E2. change (zs [0%nat]) with [0%Z] in E1. change (zs [1%nat]) with [1%Z] in E2.
  rewrite E1; [|split; reflexivity|exact HM|cbn; lia]. cbn [rbind]. rewrite E2; [|split; reflexivity|exact HM|cbn; lia]. reflexivity.
Qed.

(** ---- evaluation ---- *)
(** the directions of a term *)
Fixpoint expand (i : nat) (ks : list nat) : list nat := match ks with [] => [] | k :: tl => repeat i k ++ expand (S i) tl end.
Lemma expand_length ks : forall i, length (expand i ks) = nsum ks.
Proof. induction ks as [|k ks IH]; intros i; [reflexivity|]. cbn [expand nsum fold_right]. rewrite app_length, repeat_length, IH. reflexivity. Qed.
Lemma eta_args_ok funs (E : nat -> vec) eta0 eps0 deps ks : forall i,
  (forall j, (j < length ks)%nat -> (0 < nth j ks 0)%nat -> exists h : etafun, nth_error funs (i + j) = Some h /\ h eta0 eps0 deps = Ok (E (i + j)%nat)) ->
  eta_args funs i (zs ks) eta0 eps0 deps = Ok (map E (expand i ks)).
Proof.
  induction ks as [|k ks IH]; intros i H; cbn [zs map eta_args expand]; [reflexivity|]. fold (zs ks).
  rewrite (IH (S i)) by (intros j Hj Hp; specialize (H (S j) ltac:(cbn; lia) Hp); rewrite Nat.add_succ_r in H; exact H). rewrite map_app.
  destruct (Z.ltb_spec 0 (Z.of_nat k)) as [Hk|Hk].
  - destruct (H 0%nat ltac:(cbn; lia) ltac:(cbn; lia)) as [h [H1 H2]]. rewrite Nat.add_0_r in H1, H2. rewrite py_index_nat, H1. cbn [rbind]. rewrite H2. cbn [rbind]. rewrite Nat2Z.id.
    cbn [rbind]. f_equal. f_equal. clear. induction k; cbn; [reflexivity|]. f_equal. exact IHk.
  - assert (k = 0%nat) by lia. subst k. reflexivity.
Qed.
Lemma evaluate_ok funs (E : nat -> vec) eta0 eps0 deps e ks c y :
  (forall j, (j < length ks)%nat -> (0 < nth j ks 0)%nat -> exists h : etafun, nth_error funs j = Some h /\ h eta0 eps0 deps = Ok (E j)) ->
  J g (nsum ks) e (eta0 :: eps0 :: map E (expand 0 ks) ++ repeat deps e) = Ok y ->
  term_evaluate (conc funs (e, ks, c)) eta0 eps0 deps = Ok (vscale c y).
Proof.
  intros H Hy. unfold term_evaluate. cbn [conc dt_etafuns dt_eta dt_eps dt_gfun dt_pref]. rewrite (eta_args_ok funs E) by exact H. cbn [rbind]. rewrite Nat2Z.id, Hy. reflexivity.
Qed.
End Conc.

Definition highest (ks : list nat) : bool := negb (Nat.eqb (last ks 0%nat) 0).
Lemma py_index_last (l : list Z) : l <> [] -> py_index l (-1) = Ok (last l 0%Z).
Proof.
  intros H. unfold py_index. cbn [Z.ltb Z.compare]. destruct l as [|a l]; [congruence|]. clear H. rename l into l'. set (l := a :: l').
  assert (L : length l = S (length l')) by reflexivity. destruct (Z.ltb_spec (-1 + Z.of_nat (length l)) 0); [lia|]. replace (Z.to_nat (-1 + Z.of_nat (length l))) with (length l') by lia.
  rewrite (nth_error_nth' l 0%Z) by lia. f_equal. rewrite (app_removelast_last 0%Z (l := l)) at 1 by discriminate. rewrite app_nth2.
  - replace (length l' - length (removelast l))%nat with 0%nat; [reflexivity|]. pose proof (app_removelast_last 0%Z (l := l) ltac:(discriminate)) as E. apply (f_equal (@length Z)) in E. rewrite app_length in E. cbn [length] in E. lia.
  - pose proof (app_removelast_last 0%Z (l := l) ltac:(discriminate)) as E. apply (f_equal (@length Z)) in E. rewrite app_length in E. cbn [length] in E. lia.
Qed.
Lemma last_zs ks : last (zs ks) 0%Z = Z.of_nat (last ks 0%nat).
Proof. induction ks as [|k ks IH]; [reflexivity|]. destruct ks; [reflexivity|]. exact IH. Qed.

Definition vsum (q : nat) (l : list vec) : vec := map (fun c => lsum (map (fun v => nth c v 0) l)) (seq 0 q).
Lemma nth_map_seq (f : nat -> R) q c : (c < q)%nat -> nth c (map f (seq 0 q)) 0 = f c.
Proof. intros H. rewrite (nth_indep _ 0 (f 0%nat)) by (rewrite map_length, seq_length; exact H). rewrite (map_nth f). rewrite seq_nth by exact H. reflexivity. Qed.
Lemma vadd_length u v : length u = length v -> length (vadd u v) = length u.
Proof. revert v. induction u as [|a u IH]; intros [|b v] H; cbn in *; try lia. rewrite IH by lia. reflexivity. Qed.
Lemma vadd_nth u v c : length u = length v -> nth c (vadd u v) 0 = nth c u 0 + nth c v 0.
Proof. revert v c. induction u as [|a u IH]; intros [|b v] c H; cbn in H; try lia; [destruct c; cbn; ring|]. destruct c; cbn; [reflexivity|]. apply IH. lia. Qed.
Lemma vscale_length c v : length (vscale c v) = length v. Proof. apply map_length. Qed.
Lemma vscale_nth c v i : nth i (vscale c v) 0 = c * nth i v 0.
Proof. unfold vscale. destruct (le_lt_dec (length v) i). - rewrite !nth_overflow by (try rewrite map_length; exact l). ring. - rewrite (nth_indep _ 0 (c * 0)) by (rewrite map_length; exact l). apply (map_nth (fun y => c * y)). Qed.

(** evaluating a list of terms: the sum of the values of the terms used *)
Lemma evaluate_from_ok q eta0 eps0 deps (incl : bool) (val : dterm -> vec) l : forall acc,
  (forall t, In t l -> dt_eta t <> [] /\ (incl = true \/ last (dt_eta t) 0%Z = 0%Z -> term_evaluate t eta0 eps0 deps = Ok (val t) /\ length (val t) = q)) ->
  (match acc with Some a => length a = q | None => True end) ->
  let used := filter (fun t => incl || Z.eqb (last (dt_eta t) 0%Z) 0)%bool l in
  exists r, evaluate_from acc l eta0 eps0 deps incl = Ok r /\
    match r with
    | Some v => length v = q /\ forall c, (c < q)%nat -> nth c v 0 = (match acc with Some a => nth c a 0 | None => 0 end) + lsum (map (fun t => nth c (val t) 0) used)
    | None => acc = None /\ used = []
    end.
Proof.
  induction l as [|t l IH]; intros acc H Ha used.
  - exists acc. split; [reflexivity|]. destruct acc as [a|]; [|split; reflexivity]. split; [exact Ha|]. intros c Hc. cbn. ring.
  - destruct (H t (or_introl eq_refl)) as [Hne Hev]. cbn [evaluate_from].
    assert (Eu : (if incl then Ok true else do k <- py_index (dt_eta t) (-1); Ok (Z.eqb k 0)) = Ok (incl || Z.eqb (last (dt_eta t) 0%Z) 0)%bool).
    { destruct incl; [reflexivity|]. rewrite py_index_last by exact Hne. reflexivity. }
    rewrite Eu. cbn [rbind]. unfold used. cbn [filter]. destruct (incl || Z.eqb (last (dt_eta t) 0%Z) 0)%bool eqn:B.
    + destruct Hev as [E1 E2]. { destruct incl; [left; reflexivity|right; apply Z.eqb_eq, B]. } rewrite E1. cbn [rbind].
      destruct (IH (Some (match acc with None => val t | Some a => vadd a (val t) end))) as [r [Er Hr]].
      * intros t' Ht'. apply H. now right.
      * destruct acc as [a|]; [rewrite vadd_length; lia|exact E2].
      * exists r. split; [exact Er|]. destruct r as [v|]; [|destruct Hr; discriminate]. destruct Hr as [L Hv]. split; [exact L|]. intros c Hc. rewrite (Hv c Hc). cbn [map lsum fold_right].
        fold (lsum (map (fun t0 => nth c (val t0) 0) (filter (fun t0 => incl || Z.eqb (last (dt_eta t0) 0%Z) 0)%bool l))). destruct acc as [a|]; [rewrite vadd_nth by lia|]; ring.
    + apply IH; [intros t' Ht'; apply H; now right|exact Ha].
Qed.
