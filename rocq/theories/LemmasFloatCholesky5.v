(** get_free succeeds after set_free when the error relative to the factor is small; with the bounds of LemmasFloatCholesky2 this is
    the round trip of all free values. *)
From Coq Require Import Reals ZArith List Lra Lia Psatz Bool.
From Flocq Require Import Core BinarySingleNaN Relative.
From Verif Require Import Res Nd RSum SpecFloat SpecFloatSimplex SpecFloatAcc SpecFloatMatrix SpecFloatCholesky SpecMatrix ModelFloat ModelMatrix ModelFloatMatrix SpecFloatReach LemmasMatrix
  LemmasFloat LemmasFloat2 LemmasFloat3 LemmasFloat4 LemmasFloatSimplex LemmasFloatSimplex2 LemmasFloatAcc LemmasFloatMatrix LemmasFloatMatrix2 LemmasFloatMatrix3 LemmasFloatMatrix4 LemmasFloatCholesky LemmasFloatCholesky2.
Import List ListNotations.
Set Bullet Behavior "Strict Subproofs".
Open Scope R_scope.

(** the square of a sum is at most n times the sum of the squares *)
Lemma square_sum n (z : nat -> R) : rsum n z * rsum n z <= INR n * rsum n (fun k => z k * z k).
Proof.
  assert (H : 2 * (rsum n z * rsum n z) <= 2 * (INR n * rsum n (fun k => z k * z k))).
  { rewrite rsum_mult, <- rsum_scal_l. apply Rle_trans with (rsum n (fun i => INR n * (z i * z i) + rsum n (fun k => z k * z k))).
    - apply rsum_le. intros i Hi. rewrite <- rsum_scal_l. rewrite <- (rsum_const n (z i * z i)), <- rsum_plus. apply rsum_le. intros j Hj. pose proof (Rle_0_sqr (z i - z j)) as Q. unfold Rsqr in Q. lra.
    - rewrite rsum_plus, rsum_const, rsum_scal_l. lra. }
  lra.
Qed.

(** y L *)
Definition colsum (n : nat) (L : nat -> nat -> R) (y : nat -> R) (k : nat) : R := rsum n (fun i => L i k * y i).
Section Quad.
Context (n : nat) (L T E : nat -> nat -> R) (HT : inverse_matrix n L T) (E0 : forall i j, 0 <= E i j) (g : R).
Context (Hg : forall i j, (i < n)%nat -> (j < n)%nat -> rsum n (fun k => rsum n (fun l => Rabs (T i k) * E k l * Rabs (T j l))) <= g).
Notation z := (colsum n L).
Lemma solve_y y i : (i < n)%nat -> y i = rsum n (fun k => T k i * z y k).
Proof.
  intros Hi. rewrite (rsum_ext n (fun k => T k i * z y k) (fun k => rsum n (fun j => y j * (L j k * T k i)))) by (intros k Hk; unfold colsum; rewrite <- rsum_scal_l; apply rsum_ext; intros; ring).
  rewrite rsum_swap. rewrite (rsum_ext n _ (fun j => y j * (if Nat.eqb j i then 1 else 0))) by (intros j Hj; rewrite rsum_scal_l, (proj1 (HT j i Hj Hi)); reflexivity).
  rewrite (rsum_single n i) by (first [exact Hi|intros j Hj N; destruct (Nat.eqb_spec j i); [congruence|ring]]). rewrite Nat.eqb_refl. ring.
Qed.
Lemma quad y : rsum n (fun i => rsum n (fun j => Rabs (y i) * E i j * Rabs (y j))) <= INR n * g * rsum n (fun k => z y k * z y k).
Proof.
  set (Z := fun k => Rabs (z y k)). assert (Y : forall i, (i < n)%nat -> Rabs (y i) <= rsum n (fun k => Rabs (T k i) * Z k)).
  { intros i Hi. rewrite (solve_y y i Hi) at 1. eapply Rle_trans; [apply rsum_Rabs|]. right. apply rsum_ext. intros k Hk. apply Rabs_mult. }
  destruct (Nat.eq_dec n 0) as [E1|E1]; [rewrite E1; cbn; lra|]. assert (n0 : (0 < n)%nat) by lia.
  assert (g0 : 0 <= g). { eapply Rle_trans; [|exact (Hg 0%nat 0%nat n0 n0)]. apply rsum_nonneg. intros k Hk. apply rsum_nonneg. intros l Hl. apply Rmult_le_pos; [apply Rmult_le_pos; [apply Rabs_pos|apply E0]|apply Rabs_pos]. }
  apply Rle_trans with (rsum n (fun i => rsum n (fun j => rsum n (fun k => Rabs (T k i) * Z k) * E i j * rsum n (fun l => Rabs (T l j) * Z l)))).
  { apply rsum_le. intros i Hi. apply rsum_le. intros j Hj. apply Rmult_le_compat; [apply Rmult_le_pos; [apply Rabs_pos|apply E0]|apply Rabs_pos| |apply Y; exact Hj]. apply Rmult_le_compat_r; [apply E0|apply Y; exact Hi]. }
  apply Rle_trans with (rsum n (fun k => rsum n (fun l => Z k * Z l * g))).
  - rewrite (rsum_ext n _ (fun i => rsum n (fun k => rsum n (fun l => Z k * Z l * rsum n (fun j => Rabs (T k i) * E i j * Rabs (T l j)))))).
    + rewrite rsum_swap. apply rsum_le. intros k Hk. rewrite rsum_swap. apply rsum_le. intros l Hl. rewrite rsum_scal_l. apply Rmult_le_compat_l; [apply Rmult_le_pos; apply Rabs_pos|]. apply Hg; assumption.
    + intros i Hi. rewrite (rsum_ext n _ (fun j => rsum n (fun k => rsum n (fun l => Z k * Z l * (Rabs (T k i) * E i j * Rabs (T l j)))))).
      * rewrite rsum_swap. apply rsum_ext. intros k Hk. rewrite rsum_swap. apply rsum_ext. intros l Hl. rewrite rsum_scal_l. reflexivity.
      * intros j Hj. rewrite (Rmult_comm (rsum n _) (E i j)), Rmult_assoc, rsum_mult, <- rsum_scal_l. apply rsum_ext. intros k Hk. rewrite <- rsum_scal_l. apply rsum_ext. intros l Hl. ring.
  - rewrite (rsum_ext n _ (fun k => g * rsum n (fun l => Z k * Z l))) by (intros k Hk; rewrite <- rsum_scal_l; apply rsum_ext; intros; ring). rewrite rsum_scal_l, <- rsum_mult.
    rewrite (Rmult_comm (INR n)), Rmult_assoc. apply Rmult_le_compat_l; [exact g0|]. eapply Rle_trans; [apply square_sum|]. right. f_equal. apply rsum_ext. intros k Hk. unfold Z. rewrite <- Rabs_mult. apply Rabs_pos_eq. apply Rle_0_sqr.
Qed.
Lemma gram_quad y : rsum n (fun i => rsum n (fun j => y i * rsum n (fun k => L i k * L j k) * y j)) = rsum n (fun k => z y k * z y k).
Proof.
  rewrite (rsum_ext n (fun k => z y k * z y k) (fun k => rsum n (fun i => rsum n (fun j => y i * (L i k * L j k) * y j)))).
  - symmetry. rewrite rsum_swap. apply rsum_ext. intros i Hi. rewrite rsum_swap. apply rsum_ext. intros j Hj. rewrite rsum_scal_r, rsum_scal_l. reflexivity.
  - intros k Hk. unfold colsum. rewrite rsum_mult. apply rsum_ext. intros i Hi. apply rsum_ext. intros j Hj. ring.
Qed.
Lemma z_pos y : (exists i, (i < n)%nat /\ y i <> 0) -> 0 < rsum n (fun k => z y k * z y k).
Proof.
  intros (i & Hi & N). assert (H : 0 <= rsum n (fun k => z y k * z y k)) by (apply rsum_nonneg; intros; apply Rle_0_sqr). destruct (Rle_lt_or_eq_dec _ _ H) as [|Q]; [assumption|exfalso]. apply N.
  rewrite (solve_y y i Hi). apply rsum_zero. intros k Hk. replace (z y k) with 0; [ring|]. symmetry. 
  assert (W : forall m (a : nat -> R), rsum m (fun k => a k * a k) = 0 -> forall k, (k < m)%nat -> a k = 0).
  { induction m as [|m IH]; intros a S k' Hk'; [lia|]. cbn [rsum] in S. assert (0 <= rsum m (fun k => a k * a k)) by (apply rsum_nonneg; intros; apply Rle_0_sqr). assert (0 <= a m * a m) by apply Rle_0_sqr.
    destruct (Nat.eq_dec k' m) as [->|]; [apply Rsqr_0_uniq; unfold Rsqr; lra|apply IH; [lra|lia]]. }
  exact (W n (z y) (eq_sym Q) k Hk).
Qed.
End Quad.

Section Whole.
Context (fexp flog : dbl -> dbl) (He : exp_good fexp) (Hl : log_good flog) (fdot : nat -> nat -> list dbl -> list dbl -> dbl) (Hd : matmul_good fdot).
Context (fchol : nd dbl -> res (nd dbl)) (Hc : cholesky_good fchol) (Hcs : cholesky_succeeds fchol) (n : nat) (Hn : INR n <= bpow radix2 20).
Context (lb : dbl) (Hlb : bounded500 lb) (Hlb0 : 0 <= B2R lb) (x : list dbl) (Hx : calm_free n x).
Notation L := (factor (reals x)).
Notation P := (exact_matrix n 0 (reals x)).
Notation ME := (matrix_error n (B2R lb) (reals x)).
Notation s := (scale n (B2R lb) (reals x)).
Notation BE := (back_error n (B2R lb) (reals x)).
Lemma get_free_succeeds p p' g : reachable fexp fdot n lb p -> fposdef_set_free fexp fdot p x = Ok p' -> relative_error n (B2R lb) (reals x) g -> INR n * g <= / 16 ->
  exists w, fposdef_get_free flog fchol p' = Ok w.
Proof.
  intros R HS (T & HT & Hg) ng. assert (R' : reachable fexp fdot n lb p') by exact (r_set_free _ _ _ _ _ _ _ R HS).
  destruct (set_free_accurate fexp He fdot Hd n x Hx lb Hlb Hlb0 Hn p R) as (p2 & H2 & _ & A). rewrite HS in H2. injection H2 as <-.
  rewrite (get_free_unfold fexp flog fdot fchol Hc n lb p' R'). set (v := mget dzero (fposdef_get p')) in *. set (M := lowered n lb (fposdef_get p')).
  assert (Ma : forall i j, (i < n)%nat -> (j < n)%nat -> mget dzero M i j = fsub (v i j) (if Nat.eqb i j then lb else dzero)) by (intros i j Hi Hj; unfold M, lowered; rewrite mget_mk_mat by assumption; reflexivity).
  pose proof (quad n L T BE HT (back_nonneg n Hn lb Hlb0 x) g Hg) as Qd.
  assert (Qd' : forall y, rsum n (fun i => rsum n (fun j => Rabs (y i) * BE i j * Rabs (y j))) <= / 16 * rsum n (fun k => colsum n L y k * colsum n L y k)).
  { intros y. eapply Rle_trans; [apply Qd|]. apply Rmult_le_compat_r; [apply rsum_nonneg; intros; apply Rle_0_sqr|exact ng]. }
  destruct (eps_range n Hn) as [[e0 e1] e2]. small_u.
  assert (Cl : forall i j, (i < n)%nat -> (j < n)%nat -> is_finite (mget dzero M i j) = true /\ Rabs (B2R (mget dzero M i j) - P i j) <= ME i j + u * sqrt (s i * s j)).
  { intros i j Hi Hj. rewrite (Ma i j Hi Hj). exact (lowered_close n Hn lb Hlb Hlb0 x Hx v A i j Hi Hj). }
  assert (sp : forall i, (i < n)%nat -> 0 < s i) by exact (scale_pos n Hn lb Hlb0 x Hx).
  assert (Up : forall i, (i < n)%nat -> B2R (mget dzero M i i) <= 101 / 100 * s i).
  { intros i Hi. destruct (Cl i i Hi Hi) as [_ B]. pose proof (sp i Hi). rewrite sqrt_square in B by lra. apply Rabs_le_inv in B. assert (u * s i <= / 100 * s i) by (apply Rmult_le_compat_r; lra). unfold scale in *. lra. }
  assert (Lo : forall i, (i < n)%nat -> bpow radix2 (-960) <= B2R (mget dzero M i i)).
  { intros i Hi. destruct (Cl i i Hi Hi) as [_ B]. pose proof (sp i Hi). pose proof (Qd' (fun k => if Nat.eqb k i then 1 else 0)) as Q1. cbv beta in Q1. unfold colsum in Q1.
    rewrite (rsum_single n i) in Q1.
    2:{ exact Hi. } 2:{ intros j Hj N. apply rsum_zero. intros k Hk. destruct (Nat.eqb_spec j i); [congruence|]. rewrite Rabs_R0. ring. }
    rewrite (rsum_single n i (fun j => _ * BE i j * _)) in Q1.
    2:{ exact Hi. } 2:{ intros j Hj N. destruct (Nat.eqb_spec j i); [congruence|]. rewrite Rabs_R0. ring. }
    rewrite Nat.eqb_refl, Rabs_R1 in Q1.
    rewrite (rsum_ext n (fun k => rsum n (fun i0 => L i0 k * (if Nat.eqb i0 i then 1 else 0)) * rsum n (fun i0 => L i0 k * (if Nat.eqb i0 i then 1 else 0))) (fun k => L i k * L i k)) in Q1.
    2:{ intros k Hk. rewrite (rsum_single n i (fun i0 => L i0 k * (if Nat.eqb i0 i then 1 else 0))); [rewrite Nat.eqb_refl; ring|exact Hi|]. intros j Hj N. destruct (Nat.eqb_spec j i); [congruence|ring]. }
    assert (PL : bpow radix2 (-952) <= P i i).
    { rewrite gram_P. destruct Hx as (_ & Hdg & _). destruct (Hdg i Hi) as [_ Bd]. pose proof (exp_calm_bounds _ Bd) as [EL _].
      pose proof (rsum_term_le n (fun k => L i k * L i k) i Hi ltac:(intros; apply Rle_0_sqr)) as T1. cbn beta in T1. rewrite (factor_diag x) in T1. eapply Rle_trans; [|exact T1].
      replace (bpow radix2 (-952)) with (bpow radix2 (-476) * bpow radix2 (-476)) by (rewrite <- bpow_plus; reflexivity). pose proof (bpow_ge_0 radix2 (-476)). apply Rmult_le_compat; lra. }
    rewrite <- gram_P in Q1. unfold back_error in Q1. rewrite sqrt_square in B, Q1 by lra. apply Rabs_le_inv in B. assert (u * s i <= eps n * s i) by (apply Rmult_le_compat_r; lra). assert (0 < eps n * s i) by (apply Rmult_lt_0_compat; lra).
    assert (bpow radix2 (-960) <= / 2 * bpow radix2 (-952)) by (change (/ 2) with (bpow radix2 (-1)); rewrite <- bpow_plus; apply bpow_le; lia). pose proof (bpow_gt_0 radix2 (-952)). lra. }
  destruct (Hcs n M eq_refl Hn) as [c Q].
  - intros i j Hi Hj. split; [exact (proj1 (Cl i j Hi Hj))|]. rewrite !Ma by assumption. split; [exact (lowered_bound n Hn lb Hlb Hlb0 x Hx v A i j Hi Hj)|]. rewrite (Nat.eqb_sym j i). f_equal. exact (proj1 (A i j Hi Hj)).
  - exact Lo.
  - intros y Hy. pose proof (z_pos n L T HT y Hy) as Zp. specialize (Qd' y). set (Z := rsum n (fun k => colsum n L y k * colsum n L y k)) in *.
    set (W := rsum n (fun i => rsum n (fun j => Rabs (y i) * BE i j * Rabs (y j)))) in *.
    assert (H1 : Z - rsum n (fun i => rsum n (fun j => Rabs (y i) * (ME i j + u * sqrt (s i * s j)) * Rabs (y j))) <= rsum n (fun i => rsum n (fun j => y i * B2R (mget dzero M i j) * y j))).
    { unfold Z. rewrite <- (gram_quad n L y). rewrite <- rsum_minus. apply rsum_le. intros i Hi. rewrite <- rsum_minus. apply rsum_le. intros j Hj. destruct (Cl i j Hi Hj) as [_ B]. rewrite gram_P in B.
      set (pij := rsum n (fun k => L i k * L j k)) in *. set (mij := B2R (mget dzero M i j)) in *. 
      assert (K : Rabs (y i * (mij - pij) * y j) <= Rabs (y i) * (ME i j + u * sqrt (s i * s j)) * Rabs (y j)). { rewrite !Rabs_mult. apply Rmult_le_compat_r; [apply Rabs_pos|]. apply Rmult_le_compat_l; [apply Rabs_pos|exact B]. }
      apply Rabs_le_inv in K. replace (y i * mij * y j) with (y i * pij * y j + y i * (mij - pij) * y j) by ring. lra. }
    assert (H2 : rsum n (fun i => rsum n (fun j => Rabs (y i) * (ME i j + u * sqrt (s i * s j)) * Rabs (y j))) <= W).
    { apply rsum_le. intros i Hi. apply rsum_le. intros j Hj. apply Rmult_le_compat_r; [apply Rabs_pos|]. apply Rmult_le_compat_l; [apply Rabs_pos|]. unfold back_error. apply Rplus_le_compat_l. apply Rmult_le_compat_r; [apply sqrt_pos|lra]. }
    assert (H3 : eps n * (rsum n (fun i => sqrt (B2R (mget dzero M i i)) * Rabs (y i))) ^ 2 <= W).
    { cbn [pow]. rewrite Rmult_1_r, rsum_mult, <- rsum_scal_l. apply rsum_le. intros i Hi. rewrite <- rsum_scal_l. apply rsum_le. intros j Hj.
      assert (X : sqrt (B2R (mget dzero M i i)) * sqrt (B2R (mget dzero M j j)) <= 101 / 100 * sqrt (s i * s j)).
      { pose proof (sp i Hi). pose proof (sp j Hj). pose proof (Lo i Hi). pose proof (Lo j Hj). pose proof (bpow_gt_0 radix2 (-960)). pose proof (Up i Hi). pose proof (Up j Hj). rewrite <- sqrt_mult by lra. rewrite <- (sqrt_square (101 / 100)) by lra. rewrite <- sqrt_mult by nra.
        apply sqrt_le_1; [nra|nra|]. apply Rle_trans with (101 / 100 * s i * (101 / 100 * s j)); [apply Rmult_le_compat; lra|right; ring]. }
      pose proof (sqrt_pos (s i * s j)). pose proof (ME_nonneg n Hn lb Hlb0 x i j) as M0. unfold back_error.
      replace (eps n * (sqrt (B2R (mget dzero M i i)) * Rabs (y i) * (sqrt (B2R (mget dzero M j j)) * Rabs (y j)))) with (Rabs (y i) * (eps n * (sqrt (B2R (mget dzero M i i)) * sqrt (B2R (mget dzero M j j)))) * Rabs (y j)) by ring.
      apply Rmult_le_compat_r; [apply Rabs_pos|]. apply Rmult_le_compat_l; [apply Rabs_pos|]. apply Rmult_le_compat_l with (r := eps n) in X; [|lra]. assert (0 <= eps n * sqrt (s i * s j)) by (apply Rmult_le_pos; lra). lra. }
    lra.
  - rewrite Q. eexists. reflexivity.
Qed.
End Whole.

Lemma round_trip : forall (fexp flog : dbl -> dbl), exp_good fexp -> log_good flog -> forall fdot, matmul_good fdot -> forall fchol, cholesky_good fchol -> cholesky_close fchol -> cholesky_succeeds fchol ->
  forall n, INR n <= bpow radix2 20 -> forall lb, bounded500 lb -> 0 <= B2R lb -> forall x, calm_free n x ->
  forall p g, reachable fexp fdot n lb p -> relative_error n (B2R lb) (reals x) g -> INR n * g <= / 16 ->
  exists p' w, fposdef_set_free fexp fdot p x = Ok p' /\ fposdef_get_free flog fchol p' = Ok w /\ length w = triangle n /\ forall i, (i < n)%nat ->
    (is_finite (at_ld dzero w i i) = true /\ Rabs (B2R (at_ld dzero w i i) - B2R (at_ld dzero x i i)) <= 4 * g + units 32 * (1 + Rabs (B2R (at_ld dzero x i i)) + exp (B2R (at_ld dzero x i i)))) /\
    (forall j, (j < i)%nat -> is_finite (at_ld dzero w i j) = true /\ Rabs (B2R (at_ld dzero w i j) - B2R (at_ld dzero x i j)) <= 2 * g * rsum n (fun k => Rabs (factor (reals x) i k))).
Proof.
  intros fexp flog He Hl fdot Hd fchol Hc Hcc Hcs n Hn lb Hlb Hlb0 x Hx p g R E ng.
  destruct (set_free_accurate fexp He fdot Hd n x Hx lb Hlb Hlb0 Hn p R) as (p' & S & _).
  destruct (get_free_succeeds fexp flog He fdot Hd fchol Hc Hcs n Hn lb Hlb Hlb0 x Hx p p' g R S E ng) as [w G]. exists p', w. split; [exact S|]. split; [exact G|].
  exact (all_back fexp flog He Hl fdot Hd fchol Hc Hcc n Hn lb Hlb Hlb0 x Hx p p' w g R S E ng G).
Qed.
