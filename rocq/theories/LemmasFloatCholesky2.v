(** Proofs about positive definite matrix parameters in binary64: all free values come back. *)
From Coq Require Import Reals ZArith List Lra Lia Psatz Bool.
From Flocq Require Import Core BinarySingleNaN.
From Verif Require Import Res Nd RSum SpecFloat SpecFloatSimplex SpecFloatAcc SpecFloatMatrix SpecFloatCholesky SpecMatrix ModelFloat ModelMatrix ModelFloatMatrix SpecFloatReach LemmasMatrix
  LemmasFloat LemmasFloat2 LemmasFloat3 LemmasFloat4 LemmasFloatSimplex LemmasFloatSimplex2 LemmasFloatAcc LemmasFloatMatrix LemmasFloatMatrix2 LemmasFloatMatrix3 LemmasFloatMatrix4 LemmasFloatCholesky.
Import List ListNotations.
Set Bullet Behavior "Strict Subproofs".
Open Scope R_scope.

(** the inequality of Cauchy and Schwarz with bounds on the squares *)
Lemma cauchy n (a b : nat -> R) s t : 0 < s -> 0 < t -> rsum n (fun k => a k * a k) <= s -> rsum n (fun k => b k * b k) <= t -> rsum n (fun k => Rabs (a k * b k)) <= sqrt (s * t).
Proof.
  intros s0 t0 A B. assert (ss : 0 < sqrt s) by (apply sqrt_lt_R0; exact s0). assert (st : 0 < sqrt t) by (apply sqrt_lt_R0; exact t0). rewrite sqrt_mult by lra.
  pose proof (sqrt_sqrt s ltac:(lra)) as Es. pose proof (sqrt_sqrt t ltac:(lra)) as Et. set (S := sqrt s) in *. set (U := sqrt t) in *.
  assert (K : forall k, (k < n)%nat -> Rabs (a k * b k) <= / 2 * (U / S) * (a k * a k) + / 2 * (S / U) * (b k * b k)).
  { intros k _. assert (Q : 0 <= (U * Rabs (a k) - S * Rabs (b k)) * (U * Rabs (a k) - S * Rabs (b k))) by apply Rle_0_sqr.
    assert (Ra : a k * a k = Rabs (a k) * Rabs (a k)) by (rewrite <- Rabs_mult, Rabs_pos_eq by apply Rle_0_sqr; reflexivity). assert (Rb : b k * b k = Rabs (b k) * Rabs (b k)) by (rewrite <- Rabs_mult, Rabs_pos_eq by apply Rle_0_sqr; reflexivity).
    rewrite Rabs_mult, Ra, Rb. set (x := Rabs (a k)) in *. set (y := Rabs (b k)) in *. apply Rmult_le_reg_r with (2 * (S * U)); [nra|].
    replace ((/ 2 * (U / S) * (x * x) + / 2 * (S / U) * (y * y)) * (2 * (S * U))) with (U * U * (x * x) + S * S * (y * y)) by (field; lra). lra. }
  eapply Rle_trans; [apply rsum_le; exact K|]. rewrite rsum_plus, !rsum_scal_l.
  assert (P1 : 0 <= / 2 * (U / S)). { apply Rmult_le_pos; [lra|]. apply Rmult_le_pos; [lra|]. left. apply Rinv_0_lt_compat. exact ss. }
  assert (P2 : 0 <= / 2 * (S / U)). { apply Rmult_le_pos; [lra|]. apply Rmult_le_pos; [lra|]. left. apply Rinv_0_lt_compat. exact st. }
  apply Rmult_le_compat_l with (r := / 2 * (U / S)) in A; [|exact P1]. apply Rmult_le_compat_l with (r := / 2 * (S / U)) in B; [|exact P2].
  replace (/ 2 * (U / S) * s) with (/ 2 * (S * U)) in A by (rewrite <- Es; field; lra). replace (/ 2 * (S / U) * t) with (/ 2 * (S * U)) in B by (rewrite <- Et; field; lra). lra.
Qed.

Section All.
Context (fexp flog : dbl -> dbl) (He : exp_good fexp) (Hl : log_good flog) (fdot : nat -> nat -> list dbl -> list dbl -> dbl) (Hd : matmul_good fdot).
Context (fchol : nd dbl -> res (nd dbl)) (Hc : cholesky_good fchol) (Hcc : cholesky_close fchol) (n : nat) (Hn : INR n <= bpow radix2 20).
Context (lb : dbl) (Hlb : bounded500 lb) (Hlb0 : 0 <= B2R lb) (x : list dbl) (Hx : calm_free n x).
Notation L := (factor (reals x)).
Notation P := (exact_matrix n 0 (reals x)).
Notation ME := (matrix_error n (B2R lb) (reals x)).
Notation s := (scale n (B2R lb) (reals x)).

Lemma eps_range : 0 < eps n <= / 1000000 /\ 32 * u <= eps n.
Proof.
  unfold eps. rewrite units_u. small_u. pose proof (pos_INR n). assert (INR n <= 1048576) by exact Hn.
  split; [split|].
  - apply Rmult_lt_0_compat; lra.
  - apply Rle_trans with ((4 * 1048576 + 32) * / 9000000000000000); [|lra]. apply Rmult_le_compat; lra.
  - apply Rmult_le_compat_r; lra.
Qed.
Lemma gram_P i j : P i j = rsum n (fun k => L i k * L j k).
Proof. unfold exact_matrix. destruct (Nat.eqb i j); ring. Qed.
Lemma exact_P i j : exact_matrix n (B2R lb) (reals x) i j = P i j + (if Nat.eqb i j then B2R lb else 0).
Proof. unfold exact_matrix. destruct (Nat.eqb i j); ring. Qed.
Lemma ME_sym i j : ME i j = ME j i.
Proof.
  unfold matrix_error. rewrite (Nat.eqb_sym j i). f_equal. f_equal.
  - f_equal. f_equal. apply rsum_ext. intros k Hk. ring.
  - f_equal. apply rsum_ext. intros k Hk. ring.
Qed.
Lemma ME_nonneg i j : 0 <= ME i j.
Proof.
  unfold matrix_error. destruct eps_range as [[e0 _] _]. pose proof (bpow_ge_0 radix2 (-1040)).
  assert (0 <= rsum n (fun k => Rabs (L i k) * size_of (reals x) j k + size_of (reals x) i k * Rabs (L j k))).
  { apply rsum_nonneg. intros k Hk. pose proof (Rabs_pos (L i k)). pose proof (Rabs_pos (L j k)). pose proof (size_nonneg x i k). pose proof (size_nonneg x j k). nra. }
  assert (0 <= rsum n (fun k => size_of (reals x) i k * size_of (reals x) j k)).
  { apply rsum_nonneg. intros k Hk. pose proof (size_nonneg x i k). pose proof (size_nonneg x j k). nra. }
  assert (0 <= (if Nat.eqb i j then B2R lb else 0)) by (destruct (Nat.eqb i j); lra). assert (0 <= eps n * eps n) by nra. nra.
Qed.
Lemma big k : bpow radix2 k * 2 = bpow radix2 (k + 1).
Proof. rewrite bpow_plus. reflexivity. Qed.
Lemma sizes i j : (i < n)%nat -> (j < n)%nat -> Rabs (P i j) <= bpow radix2 974 /\ ME i j <= bpow radix2 975.
Proof.
  intros Hi Hj. assert (SS : rsum n (fun k => size_of (reals x) i k * size_of (reals x) j k) <= bpow radix2 974).
  { apply Rle_trans with (rsum n (fun _ => bpow radix2 954)).
    - apply rsum_le. intros k Hk. replace (bpow radix2 954) with (bpow radix2 477 * bpow radix2 477) by (rewrite <- bpow_plus; reflexivity). apply Rmult_le_compat; try apply size_nonneg; apply (size_bound n x Hx); assumption.
    - rewrite rsum_const. replace (bpow radix2 974) with (bpow radix2 20 * bpow radix2 954) by (rewrite <- bpow_plus; reflexivity). apply Rmult_le_compat_r; [apply bpow_ge_0|exact Hn]. }
  assert (PS : rsum n (fun k => Rabs (L i k) * size_of (reals x) j k + size_of (reals x) i k * Rabs (L j k)) <= 2 * bpow radix2 974).
  { apply Rle_trans with (2 * rsum n (fun k => size_of (reals x) i k * size_of (reals x) j k)); [|lra]. rewrite <- rsum_scal_l. apply rsum_le. intros k Hk.
    pose proof (factor_le_size x i k). pose proof (factor_le_size x j k). pose proof (size_nonneg x i k). pose proof (size_nonneg x j k). pose proof (Rabs_pos (L i k)). pose proof (Rabs_pos (L j k)). nra. }
  split.
  - rewrite gram_P. eapply Rle_trans; [apply rsum_Rabs|]. eapply Rle_trans; [|exact SS]. apply rsum_le. intros k Hk. rewrite Rabs_mult. apply Rmult_le_compat; try apply Rabs_pos; apply factor_le_size.
  - unfold matrix_error. destruct eps_range as [[e0 e1] _]. assert (B : (if Nat.eqb i j then B2R lb else 0) <= bpow radix2 500) by (destruct (Nat.eqb i j); [pose proof (Rle_abs (B2R lb)); destruct Hlb; lra|apply bpow_ge_0]).
    assert (B0 : 0 <= (if Nat.eqb i j then B2R lb else 0)) by (destruct (Nat.eqb i j); lra).
    assert (H5 : bpow radix2 500 <= bpow radix2 974) by (apply bpow_le; lia). assert (Ht : bpow radix2 (-1040) <= / 10 * bpow radix2 974). { apply Rle_trans with (bpow radix2 970); [apply bpow_le; lia|]. change 974%Z with (970 + 4)%Z. rewrite bpow_plus. change (bpow radix2 4) with 16. pose proof (bpow_ge_0 radix2 970). lra. }
    replace (bpow radix2 975) with (bpow radix2 974 * 2) by exact (big 974). set (Z := bpow radix2 974) in *. set (a := rsum n (fun k => Rabs (L i k) * size_of (reals x) j k + _)) in *. set (b := rsum n (fun k => size_of (reals x) i k * size_of (reals x) j k)) in *. set (q := if Nat.eqb i j then B2R lb else 0) in *.
    assert (Z0 : 0 < Z) by apply bpow_gt_0.
    assert (T1 : eps n * (a + q) <= / 10 * Z). { apply Rle_trans with (eps n * (3 * Z)); [apply Rmult_le_compat_l; lra|]. assert (eps n * (3 * Z) <= / 1000000 * (3 * Z)) by (apply Rmult_le_compat_r; lra). lra. }
    assert (T2 : eps n * eps n * b <= / 10 * Z). { apply Rle_trans with (eps n * eps n * Z); [apply Rmult_le_compat_l; nra|]. apply Rmult_le_compat_r; nra. }
    lra.
Qed.
Lemma scale_low i : (i < n)%nat -> bpow radix2 (-952) <= s i.
Proof.
  intros Hi. unfold scale. pose proof (ME_nonneg i i). rewrite gram_P. destruct Hx as (_ & Hdg & _). destruct (Hdg i Hi) as [_ Bd]. pose proof (exp_calm_bounds _ Bd) as [EL _].
  pose proof (rsum_term_le n (fun k => L i k * L i k) i Hi) as T. cbn beta in T. assert (Q : L i i = exp (B2R (at_ld dzero x i i))) by (unfold factor; rewrite Nat.ltb_irrefl, Nat.eqb_refl, at_reals; reflexivity). rewrite Q in T.
  assert (T' := T ltac:(intros k Hk; apply Rle_0_sqr)). assert (bpow radix2 (-952) <= exp (B2R (at_ld dzero x i i)) * exp (B2R (at_ld dzero x i i))); [|lra].
  replace (bpow radix2 (-952)) with (bpow radix2 (-476) * bpow radix2 (-476)) by (rewrite <- bpow_plus; reflexivity). pose proof (bpow_ge_0 radix2 (-476)). apply Rmult_le_compat; lra.
Qed.
Lemma scale_pos i : (i < n)%nat -> 0 < s i.
Proof. intros Hi. pose proof (scale_low i Hi). pose proof (bpow_gt_0 radix2 (-952)). lra. Qed.

Section One.
Context (v : nat -> nat -> dbl) (Hv : forall i j, (i < n)%nat -> (j < n)%nat -> v i j = v j i /\ is_finite (v i j) = true /\ Rabs (B2R (v i j) - exact_matrix n (B2R lb) (reals x) i j) <= ME i j).
Notation a := (fun i j => fsub (v i j) (if Nat.eqb i j then lb else dzero)).
Lemma lowered_close i j : (i < n)%nat -> (j < n)%nat -> is_finite (a i j) = true /\ Rabs (B2R (a i j) - P i j) <= ME i j + u * sqrt (s i * s j).
Proof.
  intros Hi Hj. destruct (Hv i j Hi Hj) as (_ & F & A). rewrite exact_P in A. pose proof (scale_pos i Hi). pose proof (scale_pos j Hj). small_u.
  assert (0 <= u * sqrt (s i * s j)) by (apply Rmult_le_pos; [lra|apply sqrt_pos]). destruct (Nat.eqb_spec i j) as [<-|N].
  - rewrite sqrt_square by lra. destruct (sizes i i Hi Hi) as [B1 B2]. assert (G : Rabs (B2R (v i i) - B2R lb) <= s i).
    { unfold scale. replace (B2R (v i i) - B2R lb) with (P i i + (B2R (v i i) - (P i i + B2R lb))) by ring. eapply Rle_trans; [apply Rabs_triang|]. rewrite (Rabs_pos_eq (P i i)); [lra|]. rewrite gram_P. apply rsum_nonneg. intros; apply Rle_0_sqr. }
    destruct (fsub_rel (v i i) lb F (proj1 Hlb)) as [Fs Es].
    { eapply Rle_trans; [exact G|]. unfold scale. apply Rle_trans with (bpow radix2 975 * 2); [|replace (bpow radix2 975 * 2) with (bpow radix2 976) by (symmetry; exact (big 975)); apply bpow_le; lia]. pose proof (Rle_abs (P i i)). assert (bpow radix2 974 <= bpow radix2 975) by (apply bpow_le; lia). lra. }
    split; [exact Fs|]. replace (B2R (fsub (v i i) lb) - P i i) with ((B2R (fsub (v i i) lb) - (B2R (v i i) - B2R lb)) + (B2R (v i i) - (P i i + B2R lb))) by ring.
    eapply Rle_trans; [apply Rabs_triang|]. apply Rmult_le_compat_l with (r := u) in G; [|lra]. lra.
  - assert (S : same (fsub (v i j) dzero) (v i j)) by apply sub_zero_same. rewrite (same_finite _ _ S), (same_B2R _ _ S). split; [exact F|]. rewrite Rplus_0_r in A. lra.
Qed.
Lemma lowered_bound i j : (i < n)%nat -> (j < n)%nat -> Rabs (B2R (a i j)) <= bpow radix2 980.
Proof.
  intros Hi Hj. destruct (lowered_close i j Hi Hj) as [_ A]. destruct (sizes i j Hi Hj) as [B1 B2]. destruct (sizes i i Hi Hi) as [C1 C2]. destruct (sizes j j Hj Hj) as [D1 D2].
  assert (S : sqrt (s i * s j) <= bpow radix2 976).
  { pose proof (scale_pos i Hi). pose proof (scale_pos j Hj). pose proof (Rle_abs (P i i)). pose proof (Rle_abs (P j j)). assert (E : bpow radix2 974 <= bpow radix2 975) by (apply bpow_le; lia).
    rewrite <- (sqrt_square (bpow radix2 976)) by apply bpow_ge_0. apply sqrt_le_1_alt. replace (bpow radix2 976) with (bpow radix2 975 * 2) by exact (big 975). unfold scale in *. apply Rmult_le_compat; lra. }
  small_u. pose proof (sqrt_pos (s i * s j)). assert (u * sqrt (s i * s j) <= 1 * sqrt (s i * s j)) by (apply Rmult_le_compat_r; lra).
  replace (B2R (a i j)) with (P i j + (B2R (a i j) - P i j)) by ring. eapply Rle_trans; [apply Rabs_triang|].
  assert (E1 : bpow radix2 974 <= bpow radix2 976) by (apply bpow_le; lia). assert (E2 : bpow radix2 975 <= bpow radix2 976) by (apply bpow_le; lia).
  replace (bpow radix2 980) with (bpow radix2 976 * 16) by (change 16 with (bpow radix2 4); rewrite <- bpow_plus; reflexivity). pose proof (bpow_gt_0 radix2 976). lra.
Qed.

Context (c : nat -> nat -> R) (clow : forall i k, (i < n)%nat -> (k < n)%nat -> (i < k)%nat -> c i k = 0) (cpos : forall i, (i < n)%nat -> 0 < c i i).
Context (m : nat) (mn : (m <= n)%nat).
Context (Hcl : forall i j, (j <= i)%nat -> (i < n)%nat -> (j < m)%nat \/ i = j -> Rabs (rsum n (fun k => c i k * c j k) - B2R (a i j)) <= eps n * rsum n (fun k => Rabs (c i k * c j k)) + bpow radix2 (-1040) * (1 + c j j)).
Lemma squares i : (i < n)%nat -> rsum n (fun k => c i k * c i k) <= 101 / 100 * s i.
Proof.
  intros Hi. pose proof (Hcl i i (le_n i) Hi (or_intror eq_refl)) as A. destruct (lowered_close i i Hi Hi) as [_ B]. cbn beta in A. pose proof (scale_low i Hi) as Sl. pose proof (scale_pos i Hi) as Sp. rewrite sqrt_square in B by lra.
  rewrite (rsum_ext n (fun k => Rabs (c i k * c i k)) (fun k => c i k * c i k)) in A by (intros k Hk; apply Rabs_pos_eq; apply Rle_0_sqr).
  pose proof (rsum_term_le n (fun k => c i k * c i k) i Hi ltac:(intros; apply Rle_0_sqr)) as T. cbn beta in T. set (C := rsum n (fun k => c i k * c i k)) in *. set (w := B2R (fsub (v i i) (if Nat.eqb i i then lb else dzero))) in *.
  assert (cc : c i i <= 1 + C). { assert (0 <= (c i i - 1) * (c i i - 1)) by apply Rle_0_sqr. pose proof (cpos i Hi). nra. }
  destruct eps_range as [[e0 e1] _]. small_u. assert (C0 : 0 <= C) by (pose proof (Rle_0_sqr (c i i)) as Q; unfold Rsqr in Q; lra).
  assert (t1 : bpow radix2 (-1040) <= / 100000 * bpow radix2 (-952)). { replace (bpow radix2 (-1040)) with (bpow radix2 (-88) * bpow radix2 (-952)) by (rewrite <- bpow_plus; reflexivity). apply Rmult_le_compat_r; [apply bpow_ge_0|]. apply Rle_trans with (bpow radix2 (-20)); [apply bpow_le; lia|]. change (bpow radix2 (-20)) with (/ 1048576). lra. }
  assert (t2 : bpow radix2 (-1040) <= / 1000000). { apply Rle_trans with (bpow radix2 (-20)); [apply bpow_le; lia|]. change (bpow radix2 (-20)) with (/ 1048576). lra. }
  set (t := bpow radix2 (-1040)) in *. assert (t0 : 0 < t) by apply bpow_gt_0. apply Rabs_le_inv in A. apply Rabs_le_inv in B.
  assert (W : w <= s i + u * s i) by (unfold scale in *; lra). assert (u * s i <= / 100000 * s i) by (apply Rmult_le_compat_r; lra). assert (eps n * C <= / 1000000 * C) by (apply Rmult_le_compat_r; lra).
  assert (t * (1 + c i i) <= t * (2 + C)) by (apply Rmult_le_compat_l; lra). assert (t * C <= / 1000000 * C) by (apply Rmult_le_compat_r; lra). lra.
Qed.
Lemma product_close i j : (j <= i)%nat -> (i < n)%nat -> (j < m)%nat \/ i = j -> Rabs (rsum n (fun k => c i k * c j k) - P i j) <= back_error n (B2R lb) (reals x) i j.
Proof.
  intros Hji Hi Hjm. assert (Hj : (j < n)%nat) by lia. pose proof (Hcl i j Hji Hi Hjm) as A. destruct (lowered_close i j Hi Hj) as [_ B]. cbn beta in A. pose proof (squares i Hi) as Qi. pose proof (squares j Hj) as Qj.
  pose proof (scale_pos i Hi) as si. pose proof (scale_pos j Hj) as sj. pose proof (cauchy n (c i) (c j) (101 / 100 * s i) (101 / 100 * s j) ltac:(lra) ltac:(lra) Qi Qj) as K.
  replace (101 / 100 * s i * (101 / 100 * s j)) with (101 / 100 * (101 / 100) * (s i * s j)) in K by ring. assert (sij : 0 <= s i * s j) by (apply Rmult_le_pos; lra). rewrite (sqrt_mult (101 / 100 * (101 / 100))), (sqrt_square (101 / 100)) in K by lra.
  set (r := sqrt (s i * s j)) in *. destruct eps_range as [[e0 e1] e2]. small_u.
  assert (rr : r = sqrt (s i) * sqrt (s j)) by (unfold r; apply sqrt_mult; lra).
  assert (ri : forall k, (k < n)%nat -> bpow radix2 (-476) <= sqrt (s k)). { intros k Hk. rewrite <- (sqrt_square (bpow radix2 (-476))) by apply bpow_ge_0. apply sqrt_le_1_alt. rewrite <- bpow_plus. exact (scale_low k Hk). }
  assert (cj : c j j <= 2 * sqrt (s j)).
  { pose proof (rsum_term_le n (fun k => c j k * c j k) j Hj ltac:(intros; apply Rle_0_sqr)) as T. cbn beta in T. pose proof (cpos j Hj). pose proof (sqrt_sqrt (s j) ltac:(lra)). pose proof (sqrt_pos (s j)). nra. }
  pose proof (ri i Hi) as r1. pose proof (ri j Hj) as r2. pose proof (bpow_gt_0 radix2 (-476)) as h0. set (h := bpow radix2 (-476)) in *. set (X := sqrt (s i)) in *. set (Y := sqrt (s j)) in *.
  assert (r0 : 0 < r) by (rewrite rr; nra).
  assert (t1 : bpow radix2 (-1040) <= / 2 * (u * (h * h))) by (change (/ 2) with (bpow radix2 (-1)); unfold u, h; rewrite <- !bpow_plus; apply bpow_le; lia).
  assert (t3 : bpow radix2 (-1040) <= / 4 * (u * h)) by (change (/ 4) with (bpow radix2 (-2)); unfold u, h; rewrite <- !bpow_plus; apply bpow_le; lia).
  assert (t2 : bpow radix2 (-1040) * (1 + c j j) <= u * r).
  { set (t := bpow radix2 (-1040)) in *. assert (t0 : 0 < t) by apply bpow_gt_0. rewrite rr.
    assert (hh : h * h <= X * Y) by (apply Rmult_le_compat; lra). assert (hy : h * Y <= X * Y) by (apply Rmult_le_compat_r; lra).
    assert (t * c j j <= / 4 * (u * h) * (2 * Y)) by (apply Rmult_le_compat; pose proof (cpos j Hj); lra).
    assert (u * (h * h) <= u * (X * Y)) by (apply Rmult_le_compat_l; lra). assert (u * (h * Y) <= u * (X * Y)) by (apply Rmult_le_compat_l; lra). lra. }
  unfold back_error. fold r. replace (rsum n (fun k => c i k * c j k) - P i j) with ((rsum n (fun k => c i k * c j k) - B2R (fsub (v i j) (if Nat.eqb i j then lb else dzero))) + (B2R (fsub (v i j) (if Nat.eqb i j then lb else dzero)) - P i j)) by ring.
  eapply Rle_trans; [apply Rabs_triang|]. apply Rmult_le_compat_l with (r := eps n) in K; [|lra]. assert (0 < eps n * r) by nra. assert (u * r <= / 32 * eps n * r) by (apply Rmult_le_compat_r; lra). lra.
Qed.
End One.
Lemma factor_low i k : (i < k)%nat -> L i k = 0.
Proof. intros H. unfold factor. destruct (Nat.ltb_spec k i); [lia|]. destruct (Nat.eqb_spec k i); [lia|reflexivity]. Qed.
Lemma factor_diag i : L i i = exp (B2R (at_ld dzero x i i)).
Proof. unfold factor. rewrite Nat.ltb_irrefl, Nat.eqb_refl, at_reals. reflexivity. Qed.
Lemma back_sym i j : back_error n (B2R lb) (reals x) i j = back_error n (B2R lb) (reals x) j i.
Proof. unfold back_error. rewrite (ME_sym j i), (Rmult_comm (s j)). reflexivity. Qed.
Lemma back_nonneg i j : 0 <= back_error n (B2R lb) (reals x) i j.
Proof. unfold back_error. pose proof (ME_nonneg i j). destruct eps_range as [[e0 _] _]. pose proof (sqrt_pos (s i * s j)). nra. Qed.

Lemma all_back p p' w g : reachable fexp fdot n lb p -> fposdef_set_free fexp fdot p x = Ok p' -> relative_error n (B2R lb) (reals x) g -> INR n * g <= / 16 ->
  fposdef_get_free flog fchol p' = Ok w -> length w = triangle n /\ forall i, (i < n)%nat ->
    (is_finite (at_ld dzero w i i) = true /\ Rabs (B2R (at_ld dzero w i i) - B2R (at_ld dzero x i i)) <= 4 * g + units 32 * (1 + Rabs (B2R (at_ld dzero x i i)) + exp (B2R (at_ld dzero x i i)))) /\
    (forall j, (j < i)%nat -> is_finite (at_ld dzero w i j) = true /\ Rabs (B2R (at_ld dzero w i j) - B2R (at_ld dzero x i j)) <= 2 * g * rsum n (fun k => Rabs (L i k))).
Proof.
  intros R HS (T & HT & Hg) ng HG. assert (R' : reachable fexp fdot n lb p') by exact (r_set_free _ _ _ _ _ _ _ R HS).
  destruct (set_free_accurate fexp He fdot Hd n x Hx lb Hlb Hlb0 Hn p R) as (p2 & H2 & _ & A). rewrite HS in H2. injection H2 as <-.
  destruct (get_free_entries fexp flog Hl fdot fchol Hc n lb p' w R' HG) as (c & Q & Lw & W). split; [exact Lw|].
  set (v := mget dzero (fposdef_get p')) in *.
  assert (Ma : forall i j, (i < n)%nat -> (j < n)%nat -> mget dzero (lowered n lb (fposdef_get p')) i j = fsub (v i j) (if Nat.eqb i j then lb else dzero)) by (intros i j Hi Hj; unfold lowered; rewrite mget_mk_mat by assumption; reflexivity).
  assert (Cl := Hcc n (lowered n lb (fposdef_get p')) c eq_refl Hn).
  assert (Cp : forall i j, (i < n)%nat -> (j < n)%nat -> is_finite (mget dzero (lowered n lb (fposdef_get p')) i j) = true /\ Rabs (B2R (mget dzero (lowered n lb (fposdef_get p')) i j)) <= bpow radix2 980 /\
      mget dzero (lowered n lb (fposdef_get p')) i j = mget dzero (lowered n lb (fposdef_get p')) j i).
  { intros i j Hi Hj. rewrite !Ma by assumption. split; [exact (proj1 (lowered_close v A i j Hi Hj))|]. split; [exact (lowered_bound v A i j Hi Hj)|]. rewrite (Nat.eqb_sym j i). f_equal. exact (proj1 (A i j Hi Hj)). }
  specialize (Cl Cp Q). set (C := fun i k => B2R (mget dzero c i k)).
  assert (clow : forall i k, (i < n)%nat -> (k < n)%nat -> (i < k)%nat -> C i k = 0) by (intros i k Hi Hk Hik; unfold C; rewrite (ch_lower _ Hc n (lowered n lb (fposdef_get p')) c i k eq_refl Q Hik Hk); reflexivity).
  assert (cfin : forall i j, (j <= i)%nat -> (i < n)%nat -> is_finite (mget dzero c i j) = true) by (intros i j Hj Hi; exact (proj1 (Cl i j Hj Hi))).
  assert (cpos : forall i, (i < n)%nat -> 0 < C i i). { intros i Hi. destruct (ch_diag _ Hc n (lowered n lb (fposdef_get p')) c i eq_refl Q Hi) as [E|[_ P]]; [|exact P]. pose proof (cfin i i (le_n i) Hi) as F. rewrite E in F. discriminate. }
  assert (pc : forall i j, (i < n)%nat -> (j < n)%nat -> Rabs (rsum n (fun k => C i k * C j k) - rsum n (fun k => L i k * L j k)) <= back_error n (B2R lb) (reals x) i j).
  { assert (K : forall i j, (j <= i)%nat -> (i < n)%nat -> Rabs (rsum n (fun k => C i k * C j k) - P i j) <= back_error n (B2R lb) (reals x) i j).
    { intros i j Hji Hi. apply (product_close v A C cpos n (le_n n)); [|exact Hji|exact Hi|left; lia]. intros i' j' Hj' Hi' _. rewrite <- (Ma i' j') by lia. exact (proj2 (Cl i' j' Hj' Hi')). }
    intros i j Hi Hj. rewrite <- gram_P. destruct (le_lt_dec j i) as [H|H]; [exact (K i j H Hi)|]. pose proof (K j i ltac:(lia) Hj) as B. rewrite back_sym, gram_P. rewrite gram_P in B.
    rewrite (rsum_ext n (fun k => C i k * C j k) (fun k => C j k * C i k)), (rsum_ext n (fun k => L i k * L j k) (fun k => L j k * L i k)) by (intros; ring). exact B. }
  assert (posL : forall i, (i < n)%nat -> 0 < L i i) by (intros i Hi; rewrite factor_diag; apply exp_pos).
  intros i Hi. assert (n1 : 1 <= INR n) by (change 1 with (INR 1); apply le_INR; lia).
  assert (g0 : 0 <= g). { eapply Rle_trans; [|exact (Hg i i Hi Hi)]. apply rsum_nonneg. intros k Hk. apply rsum_nonneg. intros l Hl2. apply Rmult_le_pos; [apply Rmult_le_pos; [apply Rabs_pos|apply back_nonneg]|apply Rabs_pos]. }
  assert (g1 : g <= / 16) by nra.
  assert (HL : forall k l, (k < n)%nat -> (l < n)%nat -> (k < n)%nat \/ (l < n)%nat -> Rabs (rsum n (fun z => C k z * C l z) - rsum n (fun z => L k z * L l z)) <= back_error n (B2R lb) (reals x) k l) by (intros k l Hk Hl' _; exact (pc k l Hk Hl')).
  destruct (W i Hi) as (W1 & W2 & _). split.
  - pose proof (diag_relative n n (le_n n) L C T HT factor_low posL clow cpos _ HL g g0 ng Hg i Hi) as D. rewrite factor_diag in D. set (d := B2R (at_ld dzero x i i)) in *. pose proof (exp_pos d) as EP.
    assert (Cb : C i i <= 2 * exp d). { apply Rabs_le_inv in D. assert (2 * g * exp d <= 1 * exp d) by (apply Rmult_le_compat_r; lra). lra. }
    destruct (W2 (cfin i i (le_n i) Hi)) as [F1 F2].
    { fold (C i i). destruct Hx as (_ & Hdg & _). destruct (Hdg i Hi) as [_ Bd]. pose proof (exp_calm_bounds _ Bd) as [_ EU]. fold d in EU. apply Rle_trans with (bpow radix2 1 * bpow radix2 476); [change (bpow radix2 1) with 2; lra|]. rewrite <- bpow_plus. apply bpow_le. lia. }
    fold (C i i) in F2. split; [exact F1|]. destruct (ln_ratio (C i i) (exp d) (2 * g) EP ltac:(lra) D) as [_ LR]. rewrite ln_exp in LR. rewrite units_u in *.
    assert (Ln : Rabs (ln (C i i)) <= 1 + Rabs d). { replace (ln (C i i)) with ((ln (C i i) - d) + d) by ring. eapply Rle_trans; [apply Rabs_triang|]. lra. }
    replace (B2R (at_ld dzero w i i) - d) with ((B2R (at_ld dzero w i i) - ln (C i i)) + (ln (C i i) - d)) by ring. eapply Rle_trans; [apply Rabs_triang|].
    small_u. pose proof (Rabs_pos d). assert (12 * u * (1 + Rabs (ln (C i i)) + C i i) <= 12 * u * (2 + Rabs d + 2 * exp d)) by (apply Rmult_le_compat_l; lra).
    assert (0 <= u * Rabs d) by nra. assert (0 <= u * exp d) by nra. lra.
  - intros j Hj. pose proof (factor_close n n (le_n n) L C T HT factor_low posL clow cpos _ HL g g0 ng Hg i j Hi ltac:(lia) ltac:(lia)) as D.
    rewrite (same_finite _ _ (W1 j Hj)), (same_B2R _ _ (W1 j Hj)). split; [exact (cfin i j ltac:(lia) Hi)|]. fold (C i j).
    replace (B2R (at_ld dzero x i j)) with (L i j); [exact D|]. unfold factor. destruct (Nat.ltb_spec j i); [|lia]. apply at_reals.
Qed.
End All.
