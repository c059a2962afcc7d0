(** Subspace parameters. *)
From Coq Require Import String Reals List Bool Arith Lia Lra.
From Coquelicot Require Import Coquelicot.
From Verif Require Import Res Num Nd RSum ModelAutograd ModelSparse ModelParameters ModelProjection.
From Verif Require Import SpecParameters SpecMatrix SpecProjection LemmasParameters LemmasCalc LemmasMatrix LemmasPosDef.
Import List ListNotations.
Open Scope R_scope.
Set Bullet Behavior "Strict Subproofs".

Definition mv (n : nat) (A : nat -> nat -> R) (v : nat -> R) (i : nat) : R := rsum n (fun j => A i j * v j).
Lemma mv_ext n A B v w i : (forall j, (j < n)%nat -> A i j = B i j) -> (forall j, (j < n)%nat -> v j = w j) -> mv n A v i = mv n B w i.
Proof. intros H K. apply rsum_ext. intros j Hj. rewrite H, K by exact Hj. reflexivity. Qed.
Lemma mv_minus n A v w i : mv n A (fun j => v j - w j) i = mv n A v i - mv n A w i.
Proof. unfold mv. rewrite <- rsum_minus. apply rsum_ext. intros; ring. Qed.
Lemma mv_eye n v i : (i < n)%nat -> mv n np_eye v i = v i.
Proof.
  intros H. unfold mv, np_eye. rewrite (rsum_single n i); [rewrite Nat.eqb_refl; ring|exact H|].
  intros k _ Hk. destruct (Nat.eqb_spec i k); [congruence|ring].
Qed.
(** (A B) v = A (B v) *)
Lemma mv_mv n m A B v i : mv n A (mv m B v) i = mv m (fun i j => rsum n (fun k => A i k * B k j)) v i.
Proof.
  unfold mv. rewrite (rsum_ext n _ (fun j => rsum m (fun k => A i j * B j k * v k))).
  - rewrite (rsum_swap n m (fun j k => A i j * B j k * v k)). apply rsum_ext. intros k Hk. rewrite rsum_scal_r. reflexivity.
  - intros j Hj. rewrite <- rsum_scal_l. apply rsum_ext. intros; ring.
Qed.

Lemma gram_injective m d x c : full_rank m d x -> (forall i, (i < m)%nat -> mv m (gram d x) c i = 0) -> forall i, (i < m)%nat -> c i = 0.
Proof.
  intros F H. apply F. intros k Hk.
  assert (Z : rsum d (fun k => rsum m (fun i => c i * x i k) * rsum m (fun i => c i * x i k)) = 0).
  { rewrite (rsum_ext d _ (fun k => rsum m (fun i => rsum m (fun j => c i * (x i k * x j k) * c j)))).
    - rewrite (rsum_swap d m (fun k i => rsum m (fun j => c i * (x i k * x j k) * c j))).
      apply rsum_zero. intros i Hi. rewrite (rsum_swap d m (fun k j => c i * (x i k * x j k) * c j)).
      rewrite (rsum_ext m _ (fun j => c i * (gram d x i j * c j))).
      + rewrite rsum_scal_l. change (rsum m (fun j => gram d x i j * c j)) with (mv m (gram d x) c i). rewrite H by exact Hi. ring.
      + intros j Hj. rewrite (rsum_ext d _ (fun k => (c i * c j) * (x i k * x j k))) by (intros; ring). rewrite rsum_scal_l. unfold gram. ring.
    - intros q Hq. rewrite rsum_mult. apply rsum_ext. intros i Hi. apply rsum_ext. intros; ring. }
  apply (rsum_sq_zero d (fun k => rsum m (fun i => c i * x i k)) Z k Hk).
Qed.

Section Perp.
Variables (m d : nat) (x Y : nat -> nat -> R) (e : nat -> R) (V : nat -> nat -> R).
Hypothesis HF : full_rank m d x.
Hypothesis HY : solves m d (gram d x) x Y.
Let P := proj_perp m x Y.
Hypothesis HS : spectral d P e V.

Lemma YxT k l : (k < m)%nat -> (l < m)%nat -> rsum d (fun j => Y k j * x l j) = np_eye k l.
Proof.
  intros Hk Hl. 
  assert (E : rsum d (fun j => Y k j * x l j) - np_eye k l = 0); [|lra].
  apply (gram_injective m d x (fun k => rsum d (fun j => Y k j * x l j) - np_eye k l) HF); [|exact Hk].
  intros i Hi. rewrite mv_minus.
  transitivity (gram d x i l - gram d x i l); [|ring]. f_equal.
  - unfold mv. rewrite (rsum_ext m _ (fun k => rsum d (fun j => gram d x i k * Y k j * x l j))).
    + rewrite (rsum_swap m d (fun k j => gram d x i k * Y k j * x l j)). unfold gram at 2. apply rsum_ext. intros j Hj.
      rewrite rsum_scal_r. rewrite HY by assumption. reflexivity.
    + intros q Hq. rewrite <- rsum_scal_l. apply rsum_ext. intros; ring.
  - unfold mv, np_eye. rewrite (rsum_single m l); [rewrite Nat.eqb_refl; ring|exact Hl|].
    intros q _ Hq. apply Nat.eqb_neq in Hq. rewrite Hq. ring.
Qed.
(** P v = v - x' (Y v) *)
Lemma P_mv v i : (i < d)%nat -> mv d P v i = v i - rsum m (fun k => x k i * mv d Y v k).
Proof.
  intros Hi. unfold P, proj_perp, mv.
  rewrite (rsum_ext d _ (fun j => np_eye i j * v j - rsum m (fun k => x k i * (Y k j * v j)))).
  - rewrite rsum_minus. f_equal.
    + apply (mv_eye d v i Hi).
    + rewrite (rsum_swap d m (fun j k => x k i * (Y k j * v j))). apply rsum_ext. intros k Hk. apply rsum_scal_l.
  - intros j Hj. rewrite Rmult_minus_distr_r. f_equal. rewrite <- rsum_scal_r. apply rsum_ext. intros; ring.
Qed.
Lemma x_row_P l v : (l < m)%nat -> inner d (x l) (mv d P v) = 0.
Proof.
  intros Hl. unfold inner. rewrite (rsum_ext d _ (fun i => x l i * v i - rsum m (fun k => x l i * x k i * mv d Y v k))).
  - rewrite rsum_minus. rewrite (rsum_swap d m (fun i k => x l i * x k i * mv d Y v k)).
    rewrite (rsum_ext m _ (fun k => gram d x l k * mv d Y v k)).
    2:{ intros k Hk. rewrite rsum_scal_r. reflexivity. }
    change (rsum m (fun k => gram d x l k * mv d Y v k)) with (mv m (gram d x) (mv d Y v) l). rewrite mv_mv.
    rewrite (mv_ext d _ x v v l); [unfold mv; ring| |reflexivity]. intros j Hj. apply HY; assumption.
  - intros i Hi. rewrite P_mv by exact Hi. rewrite Rmult_minus_distr_l. f_equal. rewrite <- rsum_scal_l. apply rsum_ext. intros; ring.
Qed.
Lemma perp_P v : perp m d x (mv d P v).
Proof. intros l Hl. apply x_row_P, Hl. Qed.
Lemma P_fix v : perp m d x v -> forall i, (i < d)%nat -> mv d P v i = v i.
Proof.
  intros Hv i Hi. rewrite P_mv by exact Hi. rewrite rsum_zero; [ring|].
  intros k Hk. rewrite (gram_injective m d x (mv d Y v) HF); [ring| |exact Hk].
  intros l Hl. rewrite mv_mv. rewrite (mv_ext d _ x v v l).
  - apply Hv, Hl.
  - intros j Hj. apply HY; assumption.
  - reflexivity.
Qed.
Lemma P_residual v : in_row_space m d x (fun i => v i - mv d P v i).
Proof.
  exists (mv d Y v). intros i Hi. rewrite P_mv by exact Hi.
  rewrite (rsum_ext m (fun k => mv d Y v k * x k i) (fun k => x k i * mv d Y v k)) by (intros; ring). ring.
Qed.
Lemma trace_P : rsum d (fun i => P i i) = INR d - INR m.
Proof.
  unfold P, proj_perp. rewrite rsum_minus. f_equal.
  - rewrite (rsum_ext d _ (fun _ => 1)) by (intros i _; unfold np_eye; rewrite Nat.eqb_refl; reflexivity). rewrite rsum_const. ring.
  - rewrite (rsum_swap d m (fun i k => x k i * Y k i)). rewrite (rsum_ext m _ (fun _ => 1)).
    + rewrite rsum_const. ring.
    + intros k Hk. transitivity (np_eye k k); [|unfold np_eye; rewrite Nat.eqb_refl; reflexivity]. rewrite <- (YxT k k Hk Hk).
      apply rsum_ext. intros; ring.
Qed.
(** eigenvectors *)
Lemma P_eig k i : (k < d)%nat -> (i < d)%nat -> mv d P (fun j => V j k) i = e k * V i k.
Proof.
  intros Hk Hi. destruct HS as [HO HE]. unfold mv. 
  rewrite (rsum_ext d _ (fun j => rsum d (fun q => e q * V i q * (V j q * V j k)))).
  - rewrite (rsum_swap d d (fun j q => e q * V i q * (V j q * V j k))). rewrite (rsum_single d k).
    + rewrite rsum_scal_l. rewrite HO by assumption. rewrite Nat.eqb_refl. ring.
    + exact Hk.
    + intros q Hq Hqk. rewrite rsum_scal_l. rewrite HO by assumption. apply Nat.eqb_neq in Hqk. rewrite Hqk. ring.
  - intros j Hj. rewrite HE by assumption. rewrite <- rsum_scal_r. apply rsum_ext. intros; ring.
Qed.
Lemma V_norm k : (k < d)%nat -> rsum d (fun i => V i k * V i k) = 1.
Proof. intros Hk. destruct HS as [HO _]. rewrite HO by assumption. rewrite Nat.eqb_refl. reflexivity. Qed.
Lemma e01 k : (k < d)%nat -> e k = 0 \/ e k = 1.
Proof.
  intros Hk.
  assert (A : forall i, (i < d)%nat -> mv d P (mv d P (fun j => V j k)) i = mv d P (fun j => V j k) i).
  { intros i Hi. apply P_fix; [apply perp_P|exact Hi]. }
  assert (B : forall i, (i < d)%nat -> e k * e k * V i k = e k * V i k).
  { intros i Hi. specialize (A i Hi). rewrite (mv_ext d P P _ (fun j => e k * V j k) i) in A.
    - rewrite P_eig in A by assumption. unfold mv in A. rewrite (rsum_ext d _ (fun j => e k * (P i j * V j k))) in A by (intros; ring).
      rewrite rsum_scal_l in A. change (rsum d (fun j => P i j * V j k)) with (mv d P (fun j => V j k) i) in A. rewrite P_eig in A by assumption. lra.
    - reflexivity.
    - intros j Hj. apply P_eig; assumption. }
  assert (C : e k * e k = e k).
  { transitivity (rsum d (fun i => e k * e k * V i k * V i k)).
    - rewrite (rsum_ext d _ (fun i => e k * e k * (V i k * V i k))) by (intros; ring). rewrite rsum_scal_l, V_norm by exact Hk. ring.
    - transitivity (rsum d (fun i => e k * (V i k * V i k))).
      + apply rsum_ext. intros i Hi. rewrite B by exact Hi. ring.
      + rewrite rsum_scal_l, V_norm by exact Hk. ring. }
  assert (D : e k * (e k - 1) = 0) by lra. apply Rmult_integral in D as [D|D]; [left|right]; lra.
Qed.
Lemma trace_e : rsum d e = INR d - INR m.
Proof.
  rewrite <- trace_P. destruct HS as [_ HE].
  rewrite (rsum_ext d (fun i => P i i) (fun i => rsum d (fun k => e k * (V i k * V i k)))).
  - rewrite (rsum_swap d d (fun i k => e k * (V i k * V i k))). apply rsum_ext. intros k Hk. rewrite rsum_scal_l, V_norm by exact Hk. ring.
  - intros i Hi. rewrite HE by assumption. apply rsum_ext. intros; ring.
Qed.
Let keep k := Rltb (1 / 100000000) (Rabs (e k)).
Lemma keep_e k : (k < d)%nat -> e k = if keep k then 1 else 0.
Proof.
  intros Hk. unfold keep. destruct (e01 k Hk) as [E|E]; rewrite E.
  - rewrite Rabs_R0. destruct (Rltb (1 / 100000000) 0) eqn:X; [|reflexivity]. apply Rltb_true in X. lra.
  - rewrite Rabs_R1. destruct (Rltb (1 / 100000000) 1) eqn:X; [reflexivity|]. apply Rltb_false in X. lra.
Qed.
Lemma lsum_filter (f : nat -> R) n : lsum (map f (filter keep (seq 0 n))) = rsum n (fun k => if keep k then f k else 0).
Proof.
  rewrite <- lsum_map_seq. induction (seq 0 n) as [|a l IH]; [reflexivity|]. cbn [filter map].
  destruct (keep a); cbn [map]; unfold lsum in *; cbn [fold_right]; rewrite IH; ring.
Qed.
Lemma keep_count : (length (filter keep (seq 0 d)) + m = d)%nat.
Proof.
  apply INR_eq. rewrite plus_INR.
  assert (E : INR (length (filter keep (seq 0 d))) = rsum d e).
  { transitivity (lsum (map (fun _ => 1) (filter keep (seq 0 d)))).
    - induction (filter keep (seq 0 d)) as [|a l IH]; [reflexivity|]. cbn [length map]. rewrite S_INR, IH. unfold lsum; cbn [fold_right]. ring.
    - rewrite (lsum_filter (fun _ => 1)). apply rsum_ext. intros k Hk. symmetry. apply keep_e, Hk. }
  rewrite E, trace_e. ring.
Qed.
Let B := map (fun k i => V i k) (filter keep (seq 0 d)).
Lemma B_length : length B = (d - m)%nat.
Proof. unfold B. rewrite map_length. pose proof keep_count. lia. Qed.
Lemma B_nth a : (a < length B)%nat -> exists k, (k < d)%nat /\ keep k = true /\ nth a (filter keep (seq 0 d)) 0%nat = k /\
   forall i, nth a B (fun _ => 0) i = V i k.
Proof.
  intros Ha. unfold B in Ha. rewrite map_length in Ha. exists (nth a (filter keep (seq 0 d)) 0%nat).
  assert (I : In (nth a (filter keep (seq 0 d)) 0%nat) (filter keep (seq 0 d))) by (apply nth_In; exact Ha).
  apply filter_In in I as [I K]. apply in_seq in I. splits; try assumption; try lia; try reflexivity.
  intros i. unfold B. rewrite (nth_indep _ (fun _ => 0) ((fun k i => V i k) 0%nat)) by (rewrite map_length; exact Ha).
  rewrite (map_nth (fun k i => V i k)). reflexivity.
Qed.
Lemma B_orthonormal : orthonormal d B.
Proof.
  intros a b Ha Hb. destruct (B_nth a Ha) as [k [Hk [_ [Ek Ea]]]]. destruct (B_nth b Hb) as [l [Hl [_ [El Eb]]]].
  unfold inner. rewrite (rsum_ext d _ (fun i => V i k * V i l)) by (intros; rewrite Ea, Eb; reflexivity).
  destruct HS as [HO _]. rewrite HO by assumption.
  destruct (Nat.eqb_spec a b) as [<-|Hne]; [rewrite <- Ek, <- El, Nat.eqb_refl; reflexivity|].
  destruct (Nat.eqb_spec k l) as [E|]; [|reflexivity]. exfalso. apply Hne.
  assert (ND : NoDup (filter keep (seq 0 d))) by (apply NoDup_filter, seq_NoDup).
  unfold B in Ha, Hb. rewrite map_length in Ha, Hb. apply (proj1 (NoDup_nth _ 0%nat) ND); try assumption. congruence.
Qed.
Lemma B_perp a : (a < length B)%nat -> perp m d x (nth a B (fun _ => 0)).
Proof.
  intros Ha l Hl. destruct (B_nth a Ha) as [k [Hk [Kk [_ Ea]]]].
  assert (E1 : e k = 1) by (rewrite (keep_e k Hk), Kk; reflexivity).
  unfold inner. rewrite (rsum_ext d _ (fun i => x l i * mv d P (fun j => V j k) i)).
  - apply (x_row_P l (fun j => V j k) Hl).
  - intros i Hi. rewrite P_eig by assumption. rewrite E1, Ea. ring.
Qed.
Lemma B_outer i j : (i < d)%nat -> (j < d)%nat -> lsum (map (fun c => c i * c j) B) = P i j.
Proof.
  intros Hi Hj. unfold B. rewrite map_map. rewrite (lsum_filter (fun k => V i k * V j k)).
  destruct HS as [_ HE]. rewrite HE by assumption. apply rsum_ext. intros k Hk. rewrite (keep_e k Hk) at 1. destruct (keep k); ring.
Qed.
End Perp.

(** what the rest of the class needs to know about the basis *)
Record good_basis (m d : nat) (x : nat -> nat -> R) (B : list (nat -> R)) : Prop := GoodBasis {
  gb_le : (m <= d)%nat;
  gb_len : length B = (d - m)%nat;
  gb_orth : orthonormal d B;
  gb_perp : forall c, In c B -> perp m d x c;
  gb_fix : forall v, perp m d x v -> forall i, (i < d)%nat -> lsum (map (fun c => c i * inner d c v) B) = v i;
  gb_res : forall v, in_row_space m d x (fun i => v i - lsum (map (fun c => c i * inner d c v) B)) }.
Lemma lsum_rsum_swap {A} (l : list A) n (f : A -> nat -> R) : lsum (map (fun a => rsum n (f a)) l) = rsum n (fun k => lsum (map (fun a => f a k) l)).
Proof.
  induction l as [|a l IH]; cbn [map].
  - symmetry. apply rsum_zero. reflexivity.
  - unfold lsum in *; cbn [fold_right]. rewrite IH. rewrite <- rsum_plus. reflexivity.
Qed.
Lemma get_perpendicular_subspace_spec solve eigh m d x Y e V : full_rank m d x ->
  solve m d (gram d x) x = Ok Y -> solves m d (gram d x) x Y ->
  eigh d (proj_perp m x Y) = Ok (e, V) -> spectral d (proj_perp m x Y) e V ->
  exists B, get_perpendicular_subspace solve eigh m d x = Ok B /\ good_basis m d x B.
Proof.
  intros HF ES HY EE HS. unfold get_perpendicular_subspace. rewrite ES. cbn [rbind]. rewrite EE. cbn [rbind].
  pose proof (keep_count m d x Y e V HF HY HS) as KC.
  pose proof (B_length m d x Y e V HF HY HS) as BL.
  assert (M : (Nat.leb m d && Nat.eqb (length (filter (fun k => Rltb (1 / 100000000) (Rabs (e k))) (seq 0 d))) (d - m))%bool = true).
  { apply andb_true_iff. split; [apply Nat.leb_le; lia|apply Nat.eqb_eq; lia]. }
  rewrite M. unfold rassert. eexists. split; [reflexivity|].
  assert (BP : forall v i, (i < d)%nat -> lsum (map (fun c => c i * inner d c v) (map (fun k i => V i k) (filter (fun k => Rltb (1 / 100000000) (Rabs (e k))) (seq 0 d))))
      = mv d (proj_perp m x Y) v i).
  { intros v i Hi. unfold mv, inner.
    rewrite (lsum_map_ext _ (fun c : nat -> R => rsum d (fun j => c i * c j * v j))).
    2:{ intros c _. rewrite <- rsum_scal_l. apply rsum_ext. intros; ring. }
    rewrite (lsum_rsum_swap _ d (fun c j => c i * c j * v j)). apply rsum_ext. intros j Hj.
    rewrite <- (B_outer m d x Y e V HF HY HS i j Hi Hj). rewrite Rmult_comm. rewrite <- lsum_map_scal. apply lsum_map_ext. intros; ring. }
  constructor.
  - lia.
  - exact BL.
  - apply (B_orthonormal m d x Y e V HS).
  - intros c Hc. apply (In_nth _ _ (fun _ => 0)) in Hc as [a [Ha <-]]. apply (B_perp m d x Y e V HF HY HS a Ha).
  - intros v Hv i Hi. rewrite BP by exact Hi. apply (P_fix m d x Y HF HY v Hv i Hi).
  - intros v. destruct (P_residual m d x Y v) as [c Hc]. exists c. intros i Hi. rewrite <- Hc by exact Hi. rewrite BP by exact Hi. reflexivity.
Qed.

Lemma map_repeat {A B} (f : A -> B) a n : map f (repeat a n) = repeat (f a) n.
Proof. induction n; [reflexivity|]. cbn. f_equal. assumption. Qed.
(** what the constructor establishes *)
Definition subspace_good (m d : nat) (x : nat -> nat -> R) (p : subspace_param) : Prop :=
  sv_dim p = d /\ sv_cons p = m /\ good_basis m d x (sv_basis p).
Lemma subspace_set_fields p a : sv_dim (fst (subspace_set p a)) = sv_dim p /\ sv_cons (fst (subspace_set p a)) = sv_cons p /\ sv_basis (fst (subspace_set p a)) = sv_basis p.
Proof. unfold subspace_set. destruct (negb _); cbn; splits; reflexivity. Qed.
Lemma subspace_step_good m d x p o : subspace_good m d x p -> subspace_good m d x (subspace_step p o).
Proof.
  intros [A [B C]].
  assert (K : forall a, subspace_good m d x (fst (subspace_set p a))).
  { intros a. destruct (subspace_set_fields p a) as [E1 [E2 E3]]. unfold subspace_good. rewrite E1, E2, E3. splits; assumption. }
  destruct o as [a|a|a]; cbn [subspace_step]; [apply K| |apply K].
  unfold subspace_step, subspace_set_free. destruct (negb _); [exact (conj A (conj B C))|].
  destruct (basis_mul _ _ a); [apply K|exact (conj A (conj B C))].
Qed.
Lemma subspace_history m d x ops : forall p, subspace_good m d x p -> subspace_good m d x (fold_left subspace_step ops p).
Proof. induction ops as [|o ops IH]; intros p H; [exact H|]. cbn [fold_left]. apply IH, subspace_step_good, H. Qed.
Lemma subspace_init_good solve eigh name m d x val Y e V p : full_rank m d x ->
  solve m d (gram d x) x = Ok Y -> solves m d (gram d x) x Y ->
  eigh d (proj_perp m x Y) = Ok (e, V) -> spectral d (proj_perp m x Y) e V ->
  subspace_init solve eigh name d val (Some (m, d, x)) = Ok p -> subspace_good m d x p.
Proof.
  intros HF ES HY EE HS. destruct (get_perpendicular_subspace_spec solve eigh m d x Y e V HF ES HY EE HS) as [B [EB GB]].
  unfold subspace_init. rewrite Nat.eqb_refl. cbn [negb]. destruct (Nat.leb d m); [discriminate|].
  rewrite EB. cbn [rbind]. destruct (subspace_set _ _) as [q [u|err]] eqn:E; intros H; [|discriminate]. injection H as <-.
  match type of E with subspace_set ?p0 ?a = _ => destruct (subspace_set_fields p0 a) as [E1 [E2 E3]] end.
  rewrite E in E1, E2, E3. cbn in E1, E2, E3. rewrite <- E3 in GB. exact (conj E1 (conj E2 GB)).
Qed.
Lemma subspace_init_ok solve eigh name m d x Y e V val : full_rank m d x -> (m < d)%nat ->
  solve m d (gram d x) x = Ok Y -> solves m d (gram d x) x Y ->
  eigh d (proj_perp m x Y) = Ok (e, V) -> spectral d (proj_perp m x Y) e V ->
  let v := match val with Some v => v | None => fvec (repeat 0 d) end in
  if Nat.eqb (nd_size v) d
  then exists p, subspace_init solve eigh name d val (Some (m, d, x)) = Ok p /\ subspace_get p = v
  else subspace_init solve eigh name d val (Some (m, d, x)) = Raise ValueError.
Proof.
  intros HF Hm ES HY EE HS v. destruct (get_perpendicular_subspace_spec solve eigh m d x Y e V HF ES HY EE HS) as [B [EB GB]].
  unfold subspace_init. rewrite Nat.eqb_refl. cbn [negb]. destruct (Nat.leb_spec d m); [lia|]. rewrite EB. cbn [rbind].
  assert (EV : match val with Some v => v | None => np_full [d] (Fin 0) end = v).
  { unfold v. destruct val; [reflexivity|]. unfold np_full, fvec, nd_vec. rewrite nprod_1, map_length, repeat_length, map_repeat. reflexivity. }
  rewrite EV. unfold subspace_set. cbn [sv_dim sv_name sv_cons sv_basis]. destruct (Nat.eqb (nd_size v) d); cbn [negb]; [|reflexivity].
  eexists. split; reflexivity.
Qed.
Lemma subspace_init_rejects solve eigh name m d cols x val : (cols <> d \/ d <= m)%nat ->
  subspace_init solve eigh name d val (Some (m, cols, x)) = Raise ValueError.
Proof.
  intros H. unfold subspace_init. destruct (Nat.eqb_spec cols d); cbn [negb]; [|reflexivity].
  destruct (Nat.leb_spec d m); [reflexivity|lia].
Qed.

Lemma map2_Fin {A} (c : A -> R) : forall (B : list A) (f : list R), map2 (fun b v => nmul (Fin (c b)) v) B (map Fin f) = map Fin (map2 (fun b v => c b * v) B f).
Proof. induction B as [|b B IH]; intros [|v f]; cbn; try reflexivity. rewrite IH. reflexivity. Qed.
Definition bmul (B : list (nat -> R)) (f : list R) (i : nat) : R := rsum (length B) (fun k => nth k B (fun _ => 0) i * nth k f 0).
Lemma basis_mul_fin d B f : length f = length B -> basis_mul d B (fvec f) = Ok (fvec (map (bmul B f) (seq 0 d))).
Proof.
  intros H. unfold basis_mul, fvec, nd_vec. cbn [shape data]. rewrite map_length, H.
  replace (shape_eqb [length B] [length B]) with true by (symmetry; apply shape_eqb_refl). do 2 f_equal.
  - rewrite !map_length. reflexivity.
  - rewrite map_map. apply map_ext. intros i. rewrite (map2_Fin (fun c : nat -> R => c i)). rewrite nsum_Fin. f_equal.
    change (fold_right Rplus 0) with lsum. rewrite (lsum_map2_nth (fun (c : nat -> R) v => c i * v) B f (eq_sym H) (fun _ => 0) 0). reflexivity.
Qed.
Lemma nth_seq0 n k : (k < n)%nat -> nth k (seq 0 n) 0%nat = k.
Proof. intros H. rewrite seq_nth by exact H. reflexivity. Qed.
Lemma basis_t_mul_fin d B v : length v = d -> basis_t_mul d B (fvec v) = Ok (fvec (map (fun c => inner d c (entry v)) B)).
Proof.
  intros H. unfold basis_t_mul, fvec, nd_vec. cbn [shape data]. rewrite map_length, H.
  replace (shape_eqb [d] [d]) with true by (symmetry; apply shape_eqb_refl). do 2 f_equal.
  - rewrite !map_length. reflexivity.
  - rewrite map_map. apply map_ext. intros c. rewrite (map2_Fin c). rewrite nsum_Fin. f_equal.
    change (fold_right Rplus 0) with lsum. rewrite (lsum_map2_nth (fun i v => c i * v) (seq 0 d) v ltac:(rewrite seq_length; lia) 0%nat 0).
    rewrite seq_length. apply rsum_ext. intros k Hk. rewrite nth_seq0 by exact Hk. reflexivity.
Qed.
Lemma nd_size_fvec x : nd_size (fvec x) = length x.
Proof. unfold fvec. rewrite nd_size_vec, map_length. reflexivity. Qed.
Lemma nth_map_seq {A} (g : nat -> A) n k d : (k < n)%nat -> nth k (map g (seq 0 n)) d = g k.
Proof. intros H. rewrite (nth_indep _ d (g 0%nat)) by (rewrite map_length, seq_length; exact H). rewrite map_nth. f_equal. apply nth_seq0, H. Qed.
Lemma entry_map_seq g d i : (i < d)%nat -> entry (map g (seq 0 d)) i = g i.
Proof. intros H. unfold entry. apply nth_map_seq. exact H. Qed.
Lemma inner_ext d u u' v v' : (forall i, (i < d)%nat -> u i = u' i) -> (forall i, (i < d)%nat -> v i = v' i) -> inner d u v = inner d u' v'.
Proof. intros H K. apply rsum_ext. intros i Hi. rewrite H, K by exact Hi. reflexivity. Qed.
Lemma inner_bmul d u B f : inner d u (bmul B f) = rsum (length B) (fun k => inner d u (nth k B (fun _ => 0)) * nth k f 0).
Proof.
  unfold inner, bmul. rewrite (rsum_ext d _ (fun i => rsum (length B) (fun k => u i * nth k B (fun _ => 0) i * nth k f 0))).
  - rewrite (rsum_swap d (length B) (fun i k => u i * nth k B (fun _ => 0) i * nth k f 0)). apply rsum_ext. intros k Hk. apply rsum_scal_r.
  - intros i Hi. rewrite <- rsum_scal_l. apply rsum_ext. intros; ring.
Qed.
Lemma bmul_perp m d x B f : good_basis m d x B -> perp m d x (bmul B f).
Proof.
  intros G l Hl. rewrite inner_bmul. apply rsum_zero. intros k Hk. rewrite (gb_perp m d x B G _ (nth_In B (fun _ => 0) Hk) l Hl). ring.
Qed.
Lemma subspace_set_free_fin m d x p f : subspace_good m d x p -> length f = (d - m)%nat ->
  subspace_set_free p (fvec f) = (SubspaceP (sv_name p) (sv_dim p) (sv_cons p) (sv_basis p) (fvec (map (bmul (sv_basis p) f) (seq 0 d))), Ok tt).
Proof.
  intros [Ed [Em G]] Hf. unfold subspace_set_free, sv_free_size. rewrite nd_size_fvec, Ed, Em, Hf, Nat.eqb_refl. cbn [negb].
  rewrite basis_mul_fin by (rewrite (gb_len _ _ _ _ G); exact Hf).
  unfold subspace_set. rewrite nd_size_fvec, map_length, seq_length, Ed, ?Em, Nat.eqb_refl. cbn [negb]. reflexivity.
Qed.
Lemma nth_eta {A B} (g : A -> B) (l : list A) k da db : (k < length l)%nat -> nth k (map g l) db = g (nth k l da).
Proof. intros H. rewrite (nth_indep _ db (g da)) by (rewrite map_length; exact H). apply map_nth. Qed.
Lemma list_eq_nth {A} (l l' : list A) d : length l = length l' -> (forall k, (k < length l)%nat -> nth k l d = nth k l' d) -> l = l'.
Proof. intros H K. apply (nth_ext l l' d d H K). Qed.
Lemma subspace_free_roundtrip m d x p f : subspace_good m d x p -> length f = (d - m)%nat ->
  exists p' v, subspace_set_free p (fvec f) = (p', Ok tt) /\ subspace_get p' = fvec v /\ length v = d /\
    perp m d x (entry v) /\ subspace_get_free p' = Ok (fvec f).
Proof.
  intros G0 Hf. pose proof (subspace_set_free_fin m d x p f G0 Hf) as E. destruct G0 as [Ed [Em G]].
  eexists. exists (map (bmul (sv_basis p) f) (seq 0 d)). splits.
  - exact E.
  - reflexivity.
  - rewrite map_length, seq_length. reflexivity.
  - intros l Hl. rewrite (inner_ext d _ (x l) _ (bmul (sv_basis p) f)); [|reflexivity|intros i Hi; apply entry_map_seq; exact Hi].
    apply (bmul_perp m d x _ f G l Hl).
  - unfold subspace_get_free. cbn [sv_dim sv_basis sv_val]. rewrite Ed, basis_t_mul_fin by (rewrite map_length, seq_length; reflexivity).
    do 2 f_equal. assert (L : length f = length (sv_basis p)) by (rewrite (gb_len _ _ _ _ G); exact Hf).
    apply (list_eq_nth _ _ 0); [rewrite map_length; lia|]. rewrite map_length. intros k Hk.
    rewrite (nth_eta _ (sv_basis p) k (fun _ => 0)) by exact Hk.
    rewrite (inner_ext d _ (nth k (sv_basis p) (fun _ => 0)) _ (bmul (sv_basis p) f)); [|reflexivity|intros i Hi; apply entry_map_seq; exact Hi].
    rewrite inner_bmul. rewrite (rsum_single _ k); [|exact Hk|].
    + rewrite (gb_orth _ _ _ _ G k k Hk Hk), Nat.eqb_refl. ring.
    + intros q Hq Hn. rewrite (gb_orth _ _ _ _ G k q Hk Hq). destruct (Nat.eqb_spec k q); [congruence|ring].
Qed.
Lemma bmul_get_free d B v i : bmul B (map (fun c => inner d c (entry v)) B) i = lsum (map (fun c => c i * inner d c (entry v)) B).
Proof.
  unfold bmul. rewrite lsum_nth, map_length. apply rsum_ext. intros k Hk.
  rewrite (nth_eta (fun c => inner d c (entry v)) B k (fun _ => 0)) by exact Hk.
  rewrite (nth_eta (fun c : nat -> R => c i * inner d c (entry v)) B k (fun _ => 0)) by exact Hk. reflexivity.
Qed.
Lemma subspace_projection m d x p v : subspace_good m d x p -> subspace_get p = fvec v -> length v = d ->
  exists f p' w, subspace_get_free p = Ok (fvec f) /\ length f = (d - m)%nat /\ subspace_set_free p (fvec f) = (p', Ok tt) /\
    subspace_get p' = fvec w /\ length w = d /\ perp m d x (entry w) /\ in_row_space m d x (fun i => entry v i - entry w i) /\
    (perp m d x (entry v) -> p' = p).
Proof.
  intros G0 Hv Hl. pose proof G0 as [Ed [Em G]].
  set (f := map (fun c => inner d c (entry v)) (sv_basis p)).
  assert (Hf : length f = (d - m)%nat) by (unfold f; rewrite map_length; apply (gb_len _ _ _ _ G)).
  exists f. eexists. exists (map (bmul (sv_basis p) f) (seq 0 d)). splits.
  - unfold subspace_get_free. unfold subspace_get in Hv. rewrite Hv, Ed. apply basis_t_mul_fin, Hl.
  - exact Hf.
  - apply (subspace_set_free_fin m d x p f G0 Hf).
  - reflexivity.
  - rewrite map_length, seq_length. reflexivity.
  - intros l Hm. rewrite (inner_ext d _ (x l) _ (bmul (sv_basis p) f)); [|reflexivity|intros i Hi; apply entry_map_seq; exact Hi].
    apply (bmul_perp m d x _ f G l Hm).
  - destruct (gb_res _ _ _ _ G (entry v)) as [c Hc]. exists c. intros i Hi. rewrite <- Hc by exact Hi.
    rewrite entry_map_seq by exact Hi. unfold f. rewrite bmul_get_free. reflexivity.
  - intros Hp. unfold subspace_get in Hv. destruct p as [nm dd cc bb vv]. cbn [sv_name sv_dim sv_cons sv_basis sv_val] in *. f_equal.
    rewrite Hv. f_equal. apply (list_eq_nth _ _ 0); [rewrite map_length, seq_length; lia|].
    rewrite map_length, seq_length. intros i Hi. change (entry (map (bmul bb f) (seq 0 d)) i = entry v i).
    rewrite entry_map_seq by exact Hi. unfold f. rewrite bmul_get_free. apply (gb_fix _ _ _ _ G (entry v) Hp i Hi).
Qed.
Lemma subspace_bad_size p a :
  (nd_size a <> sv_free_size p -> subspace_set_free p a = (p, Raise ValueError)) /\
  (nd_size a <> sv_vector_size p -> subspace_set p a = (p, Raise ValueError) /\ subspace_set_vector p a = (p, Raise ValueError)).
Proof.
  split; intros H.
  - unfold subspace_set_free. apply Nat.eqb_neq in H. rewrite H. reflexivity.
  - unfold subspace_set_vector, subspace_set, sv_vector_size in *. apply Nat.eqb_neq in H. rewrite H. split; reflexivity.
Qed.
Lemma subspace_vector_roundtrip p a : nd_size a = sv_vector_size p ->
  exists p', subspace_set_vector p a = (p', Ok tt) /\ subspace_get p' = a /\ subspace_get_vector p' = Ok a.
Proof.
  intros H. unfold subspace_set_vector, subspace_set, sv_vector_size in *. rewrite H, Nat.eqb_refl. cbn [negb]. eexists. splits; reflexivity.
Qed.
Lemma subspace_derivs m d x p f : subspace_good m d x p -> length f = (d - m)%nat ->
  jacobian_of (subspace_free_to_vector p) (sv_vector_size p) (sv_free_size p) f (subspace_free_to_vector_jac p f) /\
  hessians_of (subspace_free_to_vector p) (sv_vector_size p) (sv_free_size p) f (subspace_free_to_vector_hess p f).
Proof.
  intros G0 Hf. pose proof G0 as [Ed [Em G]].
  assert (Fv : forall y i, length y = (d - m)%nat -> (i < d)%nat -> nth i (subspace_free_to_vector p y) 0 = bmul (sv_basis p) y i).
  { intros y i Hy Hi. unfold subspace_free_to_vector. fold (fvec y). rewrite (subspace_set_free_fin m d x p y G0 Hy).
    unfold subspace_get_vector. cbn [sv_val]. unfold fvec, nd_vec. cbn [data]. rewrite map_map.
    rewrite (map_ext _ (fun r => r)) by reflexivity. rewrite map_id. apply nth_map_seq. exact Hi. }
  assert (TD : forall i, (i < d)%nat -> twice_diff (fun y => nth i (subspace_free_to_vector p y) 0) (d - m) (fun b _ => nth b (sv_basis p) (fun _ => 0) i) (fun _ _ _ => 0)).
  { intros i Hi. apply (twice_diff_ext (fun y => bmul (sv_basis p) y i)); [intros y Hy; rewrite Fv by assumption; reflexivity|]. split.
    - intros b y Hb Hy. unfold bmul. eapply is_partial_value.
      + apply (is_partial_rsum (length (sv_basis p)) (fun k y => nth k (sv_basis p) (fun _ => 0) i * nth k y 0) b y
          (fun k => nth k (sv_basis p) (fun _ => 0) i * (if Nat.eqb k b then 1 else 0))).
        intros k Hk. apply is_partial_scal, is_partial_nth. lia.
      + rewrite (rsum_single _ b); [rewrite Nat.eqb_refl; ring|rewrite (gb_len _ _ _ _ G); exact Hb|].
        intros q _ Hq. destruct (Nat.eqb_spec q b); [congruence|ring].
    - intros. apply is_partial_const. }
  unfold sv_vector_size, sv_free_size. rewrite Ed, Em. split.
  - unfold subspace_free_to_vector_jac. rewrite (gb_len _ _ _ _ G), Ed. split; [reflexivity|]. intros i j Hi Hj.
    rewrite coo_get_of_dense by assumption. apply (proj1 (TD i Hi)); assumption.
  - unfold subspace_free_to_vector_hess, sv_vector_size, sv_free_size. rewrite Ed, Em. split; [rewrite map_length, seq_length; reflexivity|].
    intros k Hk. exists (Coo ((d - m)%nat, (d - m)%nat) []). splits; [|reflexivity|].
    + rewrite nth_error_map. rewrite (nth_error_nth' _ 0%nat) by (rewrite seq_length; exact Hk). reflexivity.
    + intros i j Hi Hj. eapply is_partial2_value; [apply (twice_diff_partial2 _ _ _ _ i j f (TD k Hk)); assumption|reflexivity].
Qed.

Lemma perp_basis solve eigh m d x Y e V : full_rank m d x ->
  solve m d (gram d x) x = Ok Y -> solves m d (gram d x) x Y ->
  eigh d (proj_perp m x Y) = Ok (e, V) -> spectral d (proj_perp m x Y) e V ->
  exists B, get_perpendicular_subspace solve eigh m d x = Ok B /\ (m <= d)%nat /\ length B = (d - m)%nat /\ orthonormal d B /\
    (forall b, In b B -> perp m d x b) /\
    (forall v, perp m d x v -> exists c, forall i, (i < d)%nat -> v i = rsum (length B) (fun k => c k * nth k B (fun _ => 0) i)).
Proof.
  intros HF ES HY EE HS. destruct (get_perpendicular_subspace_spec solve eigh m d x Y e V HF ES HY EE HS) as [B [EB [G1 G2 G3 G4 G5 G6]]].
  exists B. splits; try assumption. intros v Hv. exists (fun k => inner d (nth k B (fun _ => 0)) v). intros i Hi.
  rewrite <- (G5 v Hv i Hi). rewrite lsum_nth, map_length. apply rsum_ext. intros k Hk.
  rewrite (nth_eta (fun c : nat -> R => c i * inner d c v) B k (fun _ => 0)) by exact Hk. ring.
Qed.
