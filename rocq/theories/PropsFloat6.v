(** Property C126: all free values of a positive definite matrix parameter come back, in IEEE-754 binary64 arithmetic. *)
From Coq Require Import Reals ZArith List Lra Lia.
From Flocq Require Import Core BinarySingleNaN.
From Verif Require Import Res Nd RSum SpecFloat SpecFloatSimplex SpecFloatAcc SpecFloatMatrix SpecFloatCholesky ModelFloat ModelFloatMatrix SpecFloatReach
  LemmasFloat LemmasFloat3 LemmasFloat4 LemmasFloatSimplex4 LemmasFloatMatrix LemmasFloatMatrix2 LemmasFloatMatrix3 LemmasFloatMatrix6 LemmasFloatCholesky2 LemmasFloatCholesky3 LemmasFloatCholesky4 LemmasFloatCholesky5.
Import List ListNotations.
Open Scope R_scope.
Set Bullet Behavior "Strict Subproofs".

(** C126: set_free, then get_free: both succeed and every free value comes back, if the error of the matrix is small relative to the
    factor *)
Theorem C126_round_trip : forall (fexp flog : dbl -> dbl), exp_good fexp -> log_good flog -> forall fdot, matmul_good fdot ->
  forall fchol, cholesky_good fchol -> cholesky_close fchol -> cholesky_succeeds fchol ->
  forall n, INR n <= bpow radix2 20 -> forall lb, bounded500 lb -> 0 <= B2R lb -> forall x, calm_free n x ->
  forall p g, reachable fexp fdot n lb p -> relative_error n (B2R lb) (reals x) g -> INR n * g <= / 16 ->
  exists p' w, fposdef_set_free fexp fdot p x = Ok p' /\ fposdef_get_free flog fchol p' = Ok w /\ length w = triangle n /\ forall i, (i < n)%nat ->
    (is_finite (at_ld dzero w i i) = true /\
     Rabs (B2R (at_ld dzero w i i) - B2R (at_ld dzero x i i)) <= 4 * g + units 32 * (1 + Rabs (B2R (at_ld dzero x i i)) + exp (B2R (at_ld dzero x i i)))) /\
    (forall j, (j < i)%nat -> is_finite (at_ld dzero w i j) = true /\
       Rabs (B2R (at_ld dzero w i j) - B2R (at_ld dzero x i j)) <= 2 * g * rsum n (fun k => Rabs (factor (reals x) i k))).
Proof. exact round_trip. Qed.
Print Assumptions C126_round_trip.
(** the same without asking when np.linalg.cholesky succeeds: whatever get_free returns is close *)
Theorem C126_all_back : forall (fexp flog : dbl -> dbl), exp_good fexp -> log_good flog -> forall fdot, matmul_good fdot ->
  forall fchol, cholesky_good fchol -> cholesky_close fchol ->
  forall n, INR n <= bpow radix2 20 -> forall lb, bounded500 lb -> 0 <= B2R lb -> forall x, calm_free n x ->
  forall p p' w g, reachable fexp fdot n lb p -> fposdef_set_free fexp fdot p x = Ok p' -> relative_error n (B2R lb) (reals x) g -> INR n * g <= / 16 ->
  fposdef_get_free flog fchol p' = Ok w -> length w = triangle n /\ forall i, (i < n)%nat ->
    (is_finite (at_ld dzero w i i) = true /\
     Rabs (B2R (at_ld dzero w i i) - B2R (at_ld dzero x i i)) <= 4 * g + units 32 * (1 + Rabs (B2R (at_ld dzero x i i)) + exp (B2R (at_ld dzero x i i)))) /\
    (forall j, (j < i)%nat -> is_finite (at_ld dzero w i j) = true /\
       Rabs (B2R (at_ld dzero w i j) - B2R (at_ld dzero x i j)) <= 2 * g * rsum n (fun k => Rabs (factor (reals x) i k))).
Proof. exact all_back. Qed.
Print Assumptions C126_all_back.

(** ** the hypotheses are met *)
(** the textbook factorisation in binary64 keeps all three contracts *)
Example C126_contracts : cholesky_good textbook_cholesky /\ cholesky_close textbook_cholesky /\ cholesky_succeeds textbook_cholesky.
Proof. exact (conj textbook_cholesky_good (conj textbook_cholesky_close textbook_cholesky_succeeds)). Qed.

Definition x2 : list double := [dint 0; dint 1; dint 0].
Definition T2 (i j : nat) : R := match i, j with O, O => 1 | S O, O => -1 | S O, S O => 1 | _, _ => 0 end.
Lemma reals_x2 : reals x2 = [0; 1; 0].
Proof. unfold reals, x2. cbn [map]. rewrite !dint_B2R by reflexivity. reflexivity. Qed.
Lemma factor_x2 : factor (reals x2) 0 0 = 1 /\ factor (reals x2) 0 1 = 0 /\ factor (reals x2) 1 0 = 1 /\ factor (reals x2) 1 1 = 1.
Proof.
  rewrite reals_x2. unfold factor, at_ld. cbn [Nat.ltb Nat.leb Nat.eqb Nat.mul Nat.add]. change (0 / 2)%nat with 0%nat. change (2 / 2)%nat with 1%nat. cbn [Nat.add nth]. rewrite exp_0. auto.
Qed.
Lemma size_x2 : size_of (reals x2) 0 0 = 1 /\ size_of (reals x2) 0 1 = 0 /\ size_of (reals x2) 1 0 = 1 /\ size_of (reals x2) 1 1 = 1.
Proof.
  destruct factor_x2 as (F1 & F2 & F3 & F4). unfold size_of. cbn [Nat.eqb]. rewrite F2, F3, Rabs_R0, Rabs_R1, reals_x2. unfold at_ld. cbn [Nat.mul Nat.add]. change (0 / 2)%nat with 0%nat. change (2 / 2)%nat with 1%nat. cbn [Nat.add nth]. rewrite exp_0, Rabs_R0, Rplus_0_r. auto.
Qed.
Lemma eps2 : eps 2 = 40 / 9007199254740992.
Proof. unfold eps, units. change (INR 2) with 2. change (bpow radix2 (-53)) with (/ 9007199254740992). field. Qed.
Lemma error_x2 k l : (k < 2)%nat -> (l < 2)%nat -> 0 <= back_error 2 0 (reals x2) k l <= 10 * eps 2.
Proof.
  intros Hk Hl. destruct factor_x2 as (F1 & F2 & F3 & F4). destruct size_x2 as (S1 & S2 & S3 & S4).
  assert (t : 0 < bpow radix2 (-1040) <= / 9007199254740992) by (split; [apply bpow_gt_0|change (/ 9007199254740992) with (bpow radix2 (-53)); apply bpow_le; lia]).
  assert (M : forall i j, (i < 2)%nat -> (j < 2)%nat -> 0 <= matrix_error 2 0 (reals x2) i j <= 5 * eps 2).
  { intros i j Hi Hj. unfold matrix_error. cbn [rsum]. rewrite eps2. destruct i as [|[|i]]; [| |lia]; (destruct j as [|[|j]]; [| |lia]); cbn [Nat.eqb]; rewrite ?F1, ?F2, ?F3, ?F4, ?S1, ?S2, ?S3, ?S4, ?Rabs_R0, ?Rabs_R1; lra. }
  assert (S : forall i, (i < 2)%nat -> 0 <= scale 2 0 (reals x2) i <= 5 / 2).
  { intros i Hi. unfold scale. pose proof (M i i Hi Hi) as H. rewrite eps2 in H. unfold exact_matrix. rewrite Nat.eqb_refl. cbn [rsum]. destruct i as [|[|i]]; [| |lia]; rewrite ?F1, ?F2, ?F3, ?F4; lra. }
  unfold back_error. pose proof (M k l Hk Hl). pose proof (S k Hk). pose proof (S l Hl). assert (Q : 0 <= sqrt (scale 2 0 (reals x2) k * scale 2 0 (reals x2) l) <= 5 / 2).
  { split; [apply sqrt_pos|]. rewrite <- (sqrt_square (5 / 2)) by lra. apply sqrt_le_1_alt. apply Rmult_le_compat; lra. }
  rewrite eps2 in *. lra.
Qed.
Lemma relative_x2 : relative_error 2 0 (reals x2) (40 * eps 2).
Proof.
  destruct factor_x2 as (F1 & F2 & F3 & F4). exists T2. split.
  - intros i j Hi Hj. cbn [rsum]. destruct i as [|[|i]]; [| |lia]; (destruct j as [|[|j]]; [| |lia]); cbn [Nat.eqb T2]; rewrite ?F1, ?F2, ?F3, ?F4; split; ring.
  - intros i j Hi Hj. cbn [rsum]. pose proof (error_x2 0 0 ltac:(lia) ltac:(lia)). pose proof (error_x2 0 1 ltac:(lia) ltac:(lia)). pose proof (error_x2 1 0 ltac:(lia) ltac:(lia)). pose proof (error_x2 1 1 ltac:(lia) ltac:(lia)).
    assert (R1 : Rabs (-1) = 1) by (rewrite Rabs_left; lra). destruct i as [|[|i]]; [| |lia]; (destruct j as [|[|j]]; [| |lia]); cbn [T2]; rewrite ?R1, ?Rabs_R0, ?Rabs_R1; lra.
Qed.
Lemma init2 : exists p, fposdef_init 2 (dint 0) None = Ok p.
Proof. unfold fposdef_init. assert (L : fle f_zero (dint 0) = true) by (vm_compute; reflexivity). rewrite L. eexists; reflexivity. Qed.
(** the free vector [0; 1; 0] of a 2 by 2 matrix with the default bound comes back, each entry within 2^-40 *)
Example C126_example : exists p p' w, fposdef_init 2 (dint 0) None = Ok p /\ fposdef_set_free ideal_exp (fun _ _ => seq_dot) p x2 = Ok p' /\
  fposdef_get_free ideal_log textbook_cholesky p' = Ok w /\ length w = 3%nat /\
  Rabs (B2R (at_ld dzero w 0 0)) <= bpow radix2 (-40) /\ Rabs (B2R (at_ld dzero w 1 0) - 1) <= bpow radix2 (-40) /\ Rabs (B2R (at_ld dzero w 1 1)) <= bpow radix2 (-40).
Proof.
  destruct init2 as [p I]. assert (E0 : B2R (dint 0) = 0) by (apply dint_B2R; reflexivity). assert (E1 : B2R (dint 1) = 1) by (apply dint_B2R; reflexivity).
  assert (N2 : INR 2 <= bpow radix2 20) by (change (INR 2) with (bpow radix2 1); apply bpow_le; lia).
  assert (B1 : bounded500 (dint 0)) by (split; [reflexivity|rewrite E0, Rabs_R0; apply bpow_ge_0]).
  assert (C : calm (dint 0)) by (split; [reflexivity|rewrite E0, Rabs_R0; lra]).
  assert (D : at_ld dzero x2 0 0 = dint 0 /\ at_ld dzero x2 1 0 = dint 1 /\ at_ld dzero x2 1 1 = dint 0) by (repeat split; reflexivity). destruct D as (D1 & D2 & D3).
  assert (Cx : calm_free 2 x2).
  { split; [reflexivity|]. split.
    - intros [|[|i]] Hi; [rewrite D1|rewrite D3|lia]; exact C.
    - intros [|[|i]] j Hi Hj; [lia| |lia]. replace j with 0%nat by lia. rewrite D2. split; [reflexivity|]. rewrite E1, Rabs_R1. change 1 with (bpow radix2 0). apply bpow_le. lia. }
  destruct (C126_round_trip ideal_exp ideal_log ideal_exp_good ideal_log_good _ seq_dot_good _ textbook_cholesky_good textbook_cholesky_close textbook_cholesky_succeeds 2 N2 (dint 0) B1 ltac:(lra) x2 Cx p (40 * eps 2) (r_init _ _ _ _ _ _ I)) as (p' & w & S & G & Lw & W).
  - rewrite E0. exact relative_x2.
  - rewrite eps2. change (INR 2) with 2. lra.
  - exists p, p', w. split; [exact I|]. split; [exact S|]. split; [exact G|]. split; [exact Lw|]. destruct factor_x2 as (F1 & F2 & F3 & F4).
    destruct (W 0%nat ltac:(lia)) as [[_ A] _]. destruct (W 1%nat ltac:(lia)) as [[_ B] Q]. destruct (Q 0%nat ltac:(lia)) as [_ K]. cbn [rsum] in K. rewrite F3, F4, Rabs_R1 in K. rewrite D1, E0 in A. rewrite D3, E0 in B. rewrite D2, E1 in K.
    rewrite eps2 in *. unfold units in *. rewrite Rabs_R0, exp_0 in A, B. rewrite Rminus_0_r in A, B. change (bpow radix2 (-53)) with (/ 9007199254740992) in *. change (bpow radix2 (-40)) with (/ 1099511627776).
    split; [|split]; lra.
Qed.
