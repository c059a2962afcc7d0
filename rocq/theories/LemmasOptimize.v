(** Proofs about preconditioning by the Hessian, the optimisation wrappers and repeated optimisation. *)
From Coq Require Import Reals List Bool Arith ZArith Lia Lra.
From Coquelicot Require Import Coquelicot.
From Verif Require Import Res Num Nd RSum ModelAutograd ModelSparse ModelParameters ModelMatrix ModelSimplex ModelProjection ModelDict ModelObjective ModelOptimize.
From Verif Require Import SpecParameters SpecDict SpecObjective SpecOptimize SpecSensitivity LemmasParameters LemmasCalc LemmasMatrix LemmasDict LemmasObjective LemmasPrecond LemmasSmooth LemmasEigen.
Import List ListNotations.
Open Scope R_scope.
Set Bullet Behavior "Strict Subproofs".

Section Plain.
Variable f : tparam -> unit -> res R.
Variable trace : tparam -> list R -> tparam.
Hypothesis Htr : forall t y, traced t (trace t y).
Lemma plain_derivatives t0 t y G H : history t0 t -> length y = t_free_size t0 -> let n := t_free_size t0 in
  twice_differentiable n (free_real f t0 tt) G H y ->
  length (ag_grad f t y tt) = n /\ (forall k, (k < n)%nat -> nth k (ag_grad f t y tt) 0 = G y k) /\
  square n (ag_hessian f t y tt) /\ same_entries n (ag_hessian f t y tt) H /\
  forall v, length v = n -> length (ag_hvp f t y tt v) = n /\ forall k, (k < n)%nat -> nth k (ag_hvp f t y tt v) 0 = rsum n (fun l => H k l * nth l v 0).
Proof.
  intros Hh Ly n [D1 D2]. fold n in Ly. clearbody n.
  assert (P1 : forall z k, length z = n -> (k < n)%nat -> is_partial (free_real f t0 tt) k z (G z k)).
  { intros z k Lz Hk. apply (differentiable_partial n); [exact Lz|exact Hk|apply D1, Lz]. }
  assert (P2 : forall i k, (i < n)%nat -> (k < n)%nat -> is_partial (fun z => G z k) i y (H i k)).
  { intros i k Hi Hk. apply (differentiable_partial n _ y (fun b => H b k)); [exact Ly|exact Hi|apply D2, Hk]. }
  assert (E0 : forall z, free_real f t tt z = free_real f t0 tt z) by (intros; apply free_real_history, Hh).
  assert (A1 : forall z k, length z = n -> (k < n)%nat -> ad_partial (free_real f t tt) k z = G z k).
  { intros z k Lz Hk. apply ad_partial_eq. eapply is_partial_ext; [|apply (P1 z k Lz Hk)]. intros; symmetry; apply E0. }
  assert (A2 : forall i k, (i < n)%nat -> (k < n)%nat -> ad_partial (fun z => ad_partial (free_real f t tt) k z) i y = H i k).
  { intros i k Hi Hk. apply ad_partial_eq. eapply is_partial_ext; [|apply (P2 i k Hi Hk)]. intros z Lz. symmetry. apply A1; [lia|exact Hk]. }
  assert (NS : forall (h : nat -> R) k, (k < n)%nat -> nth k (map h (seq 0 n)) 0 = h k).
  { intros h k Hk. rewrite (nth_indep _ 0 (h 0%nat)) by (rewrite map_length, seq_length; exact Hk). rewrite map_nth, seq_nth by exact Hk. reflexivity. }
  split; [unfold ag_grad; rewrite map_length, seq_length; exact Ly|]. split; [|split; [|split]].
  - intros k Hk. unfold ag_grad. rewrite Ly, NS by exact Hk. apply A1; [exact Ly|exact Hk].
  - split; exact Ly.
  - intros i k Hi Hk. unfold ag_hessian. cbn [rm_get]. exact (A2 i k Hi Hk).
  - intros v Lv. split; [unfold ag_hvp; rewrite map_length, seq_length; exact Ly|]. intros k Hk. unfold ag_hvp. rewrite Ly, NS by exact Hk. apply ad_partial_eq.
    apply (is_partial_ext (fun z => rsum n (fun l => G z l * nth l v 0))).
    + intros z Lz. rewrite Lz, Ly. apply rsum_ext. intros l Hl. rewrite A1; [reflexivity|lia|exact Hl].
    + apply (is_partial_rsum n (fun l z => G z l * nth l v 0) (fun l => H k l * nth l v 0)). intros l Hl. apply (is_partial_scal (fun z => G z l)). apply P2; assumption.
Qed.
Lemma product_assoc n A B C i j : product n A (product n B C) i j = product n (product n A B) C i j.
Proof.
  unfold product. rewrite (rsum_ext _ _ (fun k => rsum n (fun l => A i k * B k l * C l j))) by (intros k Hk; rewrite <- rsum_scal_l; apply rsum_ext; intros; ring).
  rewrite rsum_swap. apply rsum_ext. intros l Hl. rewrite <- rsum_scal_r. reflexivity.
Qed.
Lemma left_inverse_nonsingular n P Q : square n P -> (forall i j, (i < n)%nat -> (j < n)%nat -> product n Q (rm_get P) i j = delta i j) -> nonsingular n P.
Proof.
  intros [R1 C1] I. split; [exact R1|]. split; [exact C1|]. intros x L Z0 i Hi.
  transitivity (rsum n (fun j => delta i j * nth j x 0)); [symmetry; apply (rsum_delta1 n i (fun j => nth j x 0)); exact Hi|].
  rewrite (rsum_ext _ _ (fun j => rsum n (fun k => Q i k * (rm_get P k j * nth j x 0)))) by (intros j Hj; rewrite <- I by assumption; unfold product; rewrite <- rsum_scal_r; apply rsum_ext; intros; ring).
  rewrite rsum_swap. apply rsum_zero. intros k Hk. rewrite rsum_scal_l, Z0 by exact Hk. ring.
Qed.
Section Whiten.
Variable eigh : rmat2 -> res (list R * rmat2).
Lemma whitening_matrix n Hs H lo hi : square n Hs -> same_entries n Hs H -> (forall i j, (i < n)%nat -> (j < n)%nat -> H i j = H j i) -> positive_definite n H -> spectrum_within n H lo hi ->
  (forall A, square n A -> same_entries n A H -> exists ev V, eigh A = Ok (ev, V) /\ eigen_decomposition n A ev V) ->
  exists P Hc, get_sym_matrix_inv_sqrt eigh Hs lo hi = Ok (P, Hc) /\ square n P /\ square n Hc /\ same_entries n Hc H /\ nonsingular n P /\ symmetric n P /\
    (forall x, length x = n -> exists z, length z = n /\ apply_mat P z = x) /\
    forall i j, (i < n)%nat -> (j < n)%nat -> product n (rm_get P) (product n H (rm_get P)) i j = delta i j.
Proof.
  intros Sq E Sy PD W Eg. set (A := RMat n n (fun i j => / 2 * (rm_get Hs i j + rm_get Hs j i))). assert (EA : same_entries n A H).
  { intros i j Hi Hj. unfold A. cbn [rm_get]. rewrite !E by assumption. rewrite (Sy j i) by assumption. field. }
  destruct (Eg A (conj eq_refl eq_refl) EA) as [ev [V [E1 D]]].
  destruct (inv_sqrt_spec eigh n Hs ev V lo hi Sq E1 D) as [P [Hc [E2 [S1 [S2 [S3 [S4 [_ [_ [S6 S7]]]]]]]]]].
  assert (UC : forall k, (k < n)%nat -> clip lo hi (nth k ev 0) = nth k ev 0 /\ 0 < nth k ev 0).
  { apply (unclipped n A ev V lo hi D).
    - intros x Hx. rewrite (quad_ext n _ _ x EA). apply PD, Hx.
    - intros x. rewrite (quad_ext n _ _ x EA). apply W. }
  destruct S6 as [_ [I1 I2]]; [intros k Hk; destruct (UC k Hk) as [-> U]; exact U|].
  assert (EHc : same_entries n Hc H). { intros i j Hi Hj. rewrite <- (EA i j Hi Hj). apply S7; [intros k Hk; apply UC, Hk|exact Hi|exact Hj]. }
  exists P, Hc. split; [exact E2|]. split; [exact S1|]. split; [exact S2|]. split; [exact EHc|]. split; [|split; [exact S3|split]].
  - apply (left_inverse_nonsingular n P (product n (rm_get Hc) (rm_get P)) S1). intros i j Hi Hj. rewrite <- product_assoc. apply I2; assumption.
  - intros x L. set (Q := product n (rm_get Hc) (rm_get P)). exists (map (fun i => rsum n (fun j => Q i j * nth j x 0)) (seq 0 n)). split; [rewrite map_length, seq_length; reflexivity|]. destruct S1 as [R1 C1].
    apply list_eq_nth; rewrite apply_mat_length; [lia|]. rewrite R1. intros i Hi. rewrite apply_mat_get by lia. rewrite C1.
    rewrite (rsum_ext _ _ (fun k => rsum n (fun j => rm_get P i k * Q k j * nth j x 0))).
    2:{ intros k Hk. set (h := fun i => rsum n (fun j => Q i j * nth j x 0)). rewrite (nth_indep _ 0 (h 0%nat)) by (rewrite map_length, seq_length; exact Hk). rewrite map_nth, seq_nth by exact Hk. unfold h. cbn [Nat.add]. rewrite <- rsum_scal_l. apply rsum_ext. intros. ring. }
    rewrite rsum_swap. rewrite (rsum_ext _ _ (fun j => delta i j * nth j x 0)); [apply (rsum_delta1 n i (fun j => nth j x 0)); exact Hi|].
    intros j Hj. rewrite rsum_scal_r. f_equal. exact (I1 i j Hi Hj).
  - intros i j Hi Hj. rewrite <- (I1 i j Hi Hj). apply product_ext; try assumption; [reflexivity|]. intros a b Ha Hb. apply product_ext; try assumption; [|reflexivity]. intros; symmetry; apply EHc; assumption.
Qed.
Lemma cond_hessian t0 t P z x G H : history t0 t -> reachable (erase t0) -> populated (erase t0) -> let n := t_free_size t0 in
  length z = n -> apply_mat P z = x -> length x = n -> square n P -> symmetric n P -> twice_differentiable n (free_real f t0 tt) G H x ->
  exists t1 K, fun_free_hessian_cond f trace (Some P) t z tt = (t1, Ok K) /\ square n K /\ same_entries n K (product n (rm_get P) (product n H (rm_get P))) /\ t_get_free t1 = Ok (fin_arg x) /\ all_numeric t1.
Proof.
  intros Hh Rp Pop n Lz Ez Lx [R1 C1] Sy D. destruct (t_set_free_finite t0 x Rp Pop Lx) as [t1 [E [Gt N]]].
  destruct (plain_derivatives t0 t x G H Hh Lx D) as [_ [_ [[Rh Ch] [Eh _]]]]. fold n in Rh, Ch, Eh. exists t1.
  eexists. split.
  - unfold fun_free_hessian_cond, need. rewrite mat_vec_ok by lia. rewrite Ez. unfold lift_res, fun_free_hessian. rewrite (after_cache_ok trace Htr t0 t x tt _ t1 Hh E). cbn [fst snd rbind].
    unfold mat_mat at 1. rewrite Ch, R1, Nat.eqb_refl. cbn [negb rbind]. unfold mat_mat. cbn [rm_T rm_cols rm_rows rm_get]. rewrite Rh, R1, Nat.eqb_refl. cbn [negb]. reflexivity.
  - split; [split; exact C1|]. split; [|split; [exact Gt|exact N]]. intros i j Hi Hj. cbn [rm_get]. unfold product. apply rsum_ext. intros k Hk. rewrite (Sy k i) by assumption. f_equal. apply rsum_ext. intros l Hl. rewrite Eh by assumption. reflexivity.
Qed.
Lemma set_pre_whitens s t0 x G H lo hi : history t0 (ob_par s) -> reachable (erase t0) -> populated (erase t0) -> let n := t_free_size t0 in length x = n ->
  twice_differentiable n (free_real f t0 tt) G H x -> (forall i j, (i < n)%nat -> (j < n)%nat -> H i j = H j i) -> positive_definite n H -> spectrum_within n H lo hi ->
  (forall A, square n A -> same_entries n A H -> exists ev V, eigh A = Ok (ev, V) /\ eigen_decomposition n A ev V) ->
  exists s' Hs P Hc, set_objective_preconditioner f trace eigh s (Some x) None lo hi = (s', Ok (Hs, P, Hc)) /\ ob_pre s' = Some P /\ ob_log s' = ob_log s /\
    t_get_free (ob_par s') = Ok (fin_arg x) /\ all_numeric (ob_par s') /\
    square n Hs /\ same_entries n Hs H /\ square n Hc /\ same_entries n Hc H /\ nonsingular n P /\ (exists z, length z = n /\ apply_mat P z = x) /\
    forall z, length z = n -> apply_mat P z = x ->
      exists t1 K, fun_free_hessian_cond f trace (ob_pre s') (ob_par s') z tt = (t1, Ok K) /\ square n K /\ same_entries n K delta /\ t_get_free t1 = Ok (fin_arg x).
Proof.
  intros Hh Rp Pop n Lx D Sy PD W Eg. destruct (t_set_free_finite t0 x Rp Pop Lx) as [t1 [E [Gt N]]].
  destruct (plain_derivatives t0 (ob_par s) x G H Hh Lx D) as [_ [_ [Sh [Eh _]]]]. fold n in Sh, Eh.
  destruct (whitening_matrix n _ H lo hi Sh Eh Sy PD W Eg) as [P [Hc [E2 [S1 [S2 [S3 [S4 [S5 [S6 S7]]]]]]]]].
  exists (with_pre (with_par s t1) P), (ag_hessian f (ob_par s) x tt), P, Hc. split.
  - unfold set_objective_preconditioner, on_par, fun_free_hessian. rewrite (after_cache_ok trace Htr t0 (ob_par s) x tt _ t1 Hh E). cbn [fst snd]. rewrite E2. reflexivity.
  - split; [reflexivity|]. split; [reflexivity|]. split; [exact Gt|]. split; [exact N|]. split; [exact Sh|]. split; [exact Eh|]. split; [exact S2|]. split; [exact S3|]. split; [exact S4|]. split; [apply S6, Lx|].
    intros z Lz Ez. cbn [with_pre with_par ob_pre ob_par].
    assert (Hh1 : history t0 t1). { replace t1 with (fst (t_set_free t0 (fin_arg x))) by (rewrite E; reflexivity). eapply hist_more; [constructor|constructor]. }
    destruct (cond_hessian t0 t1 P z x G H Hh1 Rp Pop Lz Ez Lx S1 S5 D) as [t2 [K [F1 [F2 [F3 [F4 _]]]]]]. exists t2, K. split; [exact F1|]. split; [exact F2|]. split; [|exact F4].
    intros i j Hi Hj. rewrite F3 by assumption. apply S7; assumption.
Qed.
Lemma set_pre_given s t0 fp Hs x G H lo hi : history t0 (ob_par s) -> reachable (erase t0) -> populated (erase t0) -> let n := t_free_size t0 in length x = n ->
  twice_differentiable n (free_real f t0 tt) G H x -> (forall i j, (i < n)%nat -> (j < n)%nat -> H i j = H j i) -> positive_definite n H -> spectrum_within n H lo hi ->
  (forall A, square n A -> same_entries n A H -> exists ev V, eigh A = Ok (ev, V) /\ eigen_decomposition n A ev V) ->
  square n Hs -> same_entries n Hs H ->
  exists P Hc, set_objective_preconditioner f trace eigh s fp (Some Hs) lo hi = (with_pre s P, Ok (Hs, P, Hc)) /\ square n Hc /\ same_entries n Hc H /\ nonsingular n P /\
    forall z, length z = n -> apply_mat P z = x ->
      exists t1 K, fun_free_hessian_cond f trace (Some P) (ob_par s) z tt = (t1, Ok K) /\ square n K /\ same_entries n K delta /\ t_get_free t1 = Ok (fin_arg x).
Proof.
  intros Hh Rp Pop n Lx D Sy PD W Eg Sh Eh.
  destruct (whitening_matrix n _ H lo hi Sh Eh Sy PD W Eg) as [P [Hc [E2 [S1 [S2 [S3 [S4 [S5 [S6 S7]]]]]]]]].
  exists P, Hc. split; [unfold set_objective_preconditioner; rewrite E2; reflexivity|]. split; [exact S2|]. split; [exact S3|]. split; [exact S4|].
  intros z Lz Ez. destruct (cond_hessian t0 (ob_par s) P z x G H Hh Rp Pop Lz Ez Lx S1 S5 D) as [t2 [K [F1 [F2 [F3 [F4 _]]]]]]. exists t2, K. split; [exact F1|]. split; [exact F2|]. split; [|exact F4].
  intros i j Hi Hj. rewrite F3 by assumption. apply S7; assumption.
Qed.
(** when the inverse square root cannot be computed the preconditioner stays as it was *)
Lemma set_pre_failure s fp hs lo hi s' e : set_objective_preconditioner f trace eigh s fp hs lo hi = (s', Raise e) ->
  ob_pre s' = ob_pre s /\ ob_log s' = ob_log s /\ ob_preconditioning s' = ob_preconditioning s /\ history (ob_par s) (ob_par s').
Proof.
  unfold set_objective_preconditioner. destruct hs as [Hs|].
  - destruct (get_sym_matrix_inv_sqrt eigh Hs lo hi) as [[P Hc]|e']; intros E; [discriminate|]. apply (f_equal fst) in E. cbn in E. subst s'. splits; try reflexivity. constructor.
  - destruct fp as [x|]; [|intros E; apply (f_equal fst) in E; cbn in E; subst s'; splits; try reflexivity; constructor].
    unfold on_par, fun_free_hessian, after_cache, cache_free_and_eval.
    assert (Hy : history (ob_par s) (trace (ob_par s) x)) by apply traced_history, Htr.
    destruct (t_set_free (trace (ob_par s) x) (fin_arg x)) as [t2 [[]|e2]] eqn:Et; cbn [fst snd];
      (assert (H2 : history (ob_par s) t2) by (replace t2 with (fst (t_set_free (trace (ob_par s) x) (fin_arg x))) by (rewrite Et; reflexivity); eapply hist_more; [exact Hy|constructor])).
    + destruct (get_sym_matrix_inv_sqrt eigh (ag_hessian f (ob_par s) x tt) lo hi) as [[P Hc]|e']; intros E; [discriminate|]. apply (f_equal fst) in E. cbn [fst] in E. subst s'. splits; try reflexivity. exact H2.
    + intros E. apply (f_equal fst) in E. cbn [fst] in E. subst s'. splits; try reflexivity. exact H2.
Qed.
End Whiten.
End Plain.
