(** Two-sided bounds over binary64. *)
From Coq Require Import Reals ZArith List Lra Lia Psatz Bool.
From Flocq Require Import Core BinarySingleNaN Relative Plus_error Mult_error.
From Verif Require Import Res SpecFloat ModelFloat LemmasFloat.
Import ListNotations.
Set Bullet Behavior "Strict Subproofs".
Open Scope R_scope.

#[local] Existing Instance P53.
#[local] Existing Instance V53.
#[local] Existing Instance M53.

(** ** Numeric facts about exp *)
Lemma exp_nat (n : nat) x : exp (INR n * x) = exp x ^ n.
Proof.
  induction n as [|n IH].
  - rewrite Rmult_0_l, exp_0. reflexivity.
  - rewrite S_INR, Rmult_plus_distr_r, Rmult_1_l, exp_plus, IH. cbn [pow]. ring.
Qed.

Lemma exp_Z (z : Z) : (0 <= z)%Z -> exp (IZR z) = exp 1 ^ Z.to_nat z.
Proof. intros H. rewrite <- exp_nat, Rmult_1_r, INR_IZR_INZ, Z2Nat.id by exact H. reflexivity. Qed.

Lemma pow_le_Z (a b : Z) (n k : nat) : (a ^ Z.of_nat n <= b ^ Z.of_nat k)%Z -> IZR a ^ n <= IZR b ^ k.
Proof. intros H. rewrite !pow_IZR. apply IZR_le. exact H. Qed.

Lemma exp_1_lower : 27165 / 10000 <= exp 1.
Proof.
  replace 1 with (INR 1024 * (/ 1024)) by (rewrite INR_IZR_INZ; cbn -[IZR]; field).
  rewrite exp_nat. apply Rle_trans with ((1025 / 1024) ^ 1024).
  - replace (1025 / 1024) with (1025 * / 1024) by field. rewrite Rpow_mult_distr, pow_inv.
    apply Rmult_le_reg_r with (1024 ^ 1024); [apply pow_lt; lra|].
    rewrite Rmult_assoc, Rinv_l, Rmult_1_r by (apply pow_nonzero; lra).
    apply Rmult_le_reg_l with 10000; [lra|].
    replace (10000 * (27165 / 10000 * 1024 ^ 1024)) with (27165 * 1024 ^ 1024) by field.
    rewrite !pow_IZR, <- !mult_IZR. apply IZR_le. apply Z.leb_le. vm_compute. reflexivity.
  - apply pow_incr. split; [lra|]. replace (1025 / 1024) with (1 + / 1024) by field. apply exp_ineq1_le.
Qed.

Lemma bpow_pow (n : nat) : bpow radix2 (Z.of_nat n) = 2 ^ n.
Proof. rewrite bpow_powerRZ. rewrite <- pow_powerRZ. reflexivity. Qed.

Lemma exp_711 : bpow radix2 1025 <= exp 711.
Proof.
  rewrite (exp_Z 711) by lia. apply Rle_trans with ((27165 / 10000) ^ 711).
  - change 1025%Z with (Z.of_nat 1025). rewrite bpow_pow.
    unfold Rdiv. rewrite Rpow_mult_distr, pow_inv.
    apply Rmult_le_reg_r with (10000 ^ 711); [apply pow_lt; lra|].
    rewrite Rmult_assoc, Rinv_l, Rmult_1_r by (apply pow_nonzero; lra).
    rewrite !pow_IZR, <- !mult_IZR. apply IZR_le. apply Z.leb_le. vm_compute. reflexivity.
  - change (Z.to_nat 711) with 711%nat. apply pow_incr. split; [lra|exact exp_1_lower].
Qed.

Lemma exp_40 : bpow radix2 57 <= exp 40.
Proof.
  rewrite (exp_Z 40) by lia. apply Rle_trans with ((27165 / 10000) ^ 40).
  - change 57%Z with (Z.of_nat 57). rewrite bpow_pow.
    unfold Rdiv. rewrite Rpow_mult_distr, pow_inv.
    apply Rmult_le_reg_r with (10000 ^ 40); [apply pow_lt; lra|].
    rewrite Rmult_assoc, Rinv_l, Rmult_1_r by (apply pow_nonzero; lra).
    rewrite !pow_IZR, <- !mult_IZR. apply IZR_le. apply Z.leb_le. vm_compute. reflexivity.
  - change (Z.to_nat 40) with 40%nat. apply pow_incr. split; [lra|exact exp_1_lower].
Qed.

Lemma exp_300 : exp 300 <= bpow radix2 476.
Proof.
  rewrite (exp_Z 300) by lia. apply Rle_trans with (3 ^ 300).
  - change (Z.to_nat 300) with 300%nat. apply pow_incr. split; [left; apply exp_pos|exact exp_le_3].
  - change 476%Z with (Z.of_nat 476). rewrite bpow_pow. apply pow_le_Z. apply Z.leb_le. vm_compute. reflexivity.
Qed.

Lemma exp_le' x y : x <= y -> exp x <= exp y.
Proof. intros [H| ->]; [left; apply exp_increasing; exact H|right; reflexivity]. Qed.

(** ** The exponential of a moderate number *)
Lemma moderate_number v : moderate v -> number v.
Proof. intros [-> |[H _]]; [reflexivity|apply finite_number; exact H]. Qed.

Lemma exp_moderate fexp v : exp_ok fexp -> moderate v ->
  is_finite (fexp v) = true /\ Bsign (fexp v) = false /\ 0 <= B2R (fexp v) <= bpow radix2 500.
Proof.
  intros HE M. destruct (exp_number _ HE v (moderate_number v M)) as [N S].
  assert (F : is_finite (fexp v) = true /\ B2R (fexp v) <= bpow radix2 500).
  { destruct M as [-> |[F B]].
    - rewrite (exp_minf _ HE). split; [reflexivity|]. apply bpow_ge_0.
    - pose proof (exp_le' _ _ B) as L. pose proof exp_300 as L3.
      destruct (exp_accuracy _ HE v F) as (A1 & A2 & _).
      + apply Rle_trans with (bpow radix2 476); [lra|]. apply bpow_le. lia.
      + split; [exact A1|]. apply Rle_trans with (2 * bpow radix2 476); [lra|].
        change 2 with (bpow radix2 1). rewrite <- bpow_plus. apply bpow_le. lia. }
  destruct F as [F B]. repeat split; auto. apply sign_false_nonneg. exact S.
Qed.

(** ** Values for two finite bounds *)
Lemma rnd64_nonneg x : 0 <= x -> 0 <= rnd64 x.
Proof. intros H. rewrite <- rnd64_0. apply rnd64_le. exact H. Qed.

Lemma rnd64_abs_bpow x k : (-1074 <= k)%Z -> Rabs x <= bpow radix2 k -> Rabs (rnd64 x) <= bpow radix2 k.
Proof.
  intros K H. apply Rabs_le_inv in H. apply Rabs_le.
  split; [|apply Rle_trans with (rnd64 (bpow radix2 k)); [apply rnd64_le; lra|right; apply rnd64_bpow; exact K]].
  replace (- bpow radix2 k) with (rnd64 (- bpow radix2 k)).
  - apply rnd64_le. lra.
  - apply rnd64_format. apply generic_format_opp. apply generic_format_FLT_bpow; [exact P53|exact K].
Qed.

Lemma rnd64_fin x k : (-1074 <= k < 1024)%Z -> Rabs x <= bpow radix2 k -> Rabs (rnd64 x) < bpow radix2 1024.
Proof.
  intros K H. apply Rle_lt_trans with (bpow radix2 k); [apply rnd64_abs_bpow; [lia|exact H]|]. apply bpow_lt. lia.
Qed.

Lemma rnd64_rel x : bpow radix2 (-1022) <= x -> rnd64 x <= x * (1 + bpow radix2 (-53)).
Proof.
  intros H. pose proof (bpow_gt_0 radix2 (-1022)) as P.
  assert (E : Rabs (rnd64 x - x) <= / 2 * bpow radix2 (-53 + 1) * Rabs x).
  { unfold rnd64. apply relative_error_N_FLT; [exact prec53|]. rewrite Rabs_pos_eq by lra. exact H. }
  rewrite (Rabs_pos_eq x) in E by lra. apply Rabs_le_inv in E. destruct E as [_ E].
  replace (/ 2 * bpow radix2 (-53 + 1)) with (bpow radix2 (-53)) in E.
  - lra.
  - replace (bpow radix2 (-53 + 1)) with (bpow radix2 1 * bpow radix2 (-53)) by (rewrite <- bpow_plus; reflexivity).
    change (bpow radix2 1) with 2. field.
Qed.

Section Both.
Context (lb ub e : dbl).
Context (Fl : is_finite lb = true) (Fu : is_finite ub = true) (Fe : is_finite e = true).
Context (L : B2R lb < B2R ub) (Se : Bsign e = false) (Be : B2R e <= bpow radix2 500).
Context (Bl : - bpow radix2 500 <= B2R lb) (Bu : B2R ub <= bpow radix2 500).
Let d := fsub ub lb.
Let p := fmul d e.
Let s := fadd f_one e.
Let q := fdiv p s.
Let r := fadd q lb.

Lemma both_e : 0 <= B2R e.
Proof. apply sign_false_nonneg. exact Se. Qed.

Lemma bp501 : bpow radix2 501 = bpow radix2 500 + bpow radix2 500.
Proof. replace (bpow radix2 501) with (bpow radix2 1 * bpow radix2 500) by (rewrite <- bpow_plus; reflexivity). change (bpow radix2 1) with 2. ring. Qed.

Lemma both_d : is_finite d = true /\ Bsign d = false /\ B2R d = rnd64 (B2R ub - B2R lb) /\ 0 <= B2R d <= bpow radix2 501.
Proof.
  assert (W : Rabs (B2R ub - B2R lb) <= bpow radix2 501).
  { rewrite Rabs_pos_eq by lra. rewrite bp501. lra. }
  destruct (fsub_cases ub lb Fu Fl) as [(A & E & F & S)|(A & E & S)].
  - fold d in E, F, S. split; [exact F|]. split; [apply S; lra|]. split; [exact E|]. rewrite E.
    split; [apply rnd64_nonneg; lra|]. eapply Rle_trans; [apply Rle_abs|]. apply rnd64_abs_bpow; [lia|exact W].
  - exfalso. pose proof (rnd64_fin _ 501 ltac:(lia) W). lra.
Qed.

Lemma both_p : is_finite p = true /\ Bsign p = false /\ B2R p = rnd64 (B2R d * B2R e) /\ 0 <= B2R p <= bpow radix2 1001.
Proof.
  destruct both_d as (Fd & Sd & Ed & D0 & D1). pose proof both_e as E0.
  assert (W : Rabs (B2R d * B2R e) <= bpow radix2 1001).
  { rewrite Rabs_pos_eq by nra. replace (bpow radix2 1001) with (bpow radix2 501 * bpow radix2 500) by (rewrite <- bpow_plus; reflexivity).
    apply Rmult_le_compat; assumption. }
  destruct (fmul_cases d e Fd Fe) as [(A & E & F & S)|(A & E)].
  - fold p in E, F, S. split; [exact F|]. split; [rewrite S, Sd, Se; reflexivity|]. split; [exact E|]. rewrite E.
    split; [apply rnd64_nonneg; nra|]. eapply Rle_trans; [apply Rle_abs|]. apply rnd64_abs_bpow; [lia|exact W].
  - exfalso. pose proof (rnd64_fin _ 1001 ltac:(lia) W). lra.
Qed.

Lemma one_B2R : B2R f_one = 1.
Proof. apply Bone_correct. Qed.

Lemma both_s : is_finite s = true /\ Bsign s = false /\ B2R s = rnd64 (1 + B2R e) /\ 1 <= B2R s /\ B2R e <= B2R s.
Proof.
  pose proof both_e as E0.
  assert (O : 1 <= bpow radix2 500) by (change 1 with (bpow radix2 0); apply bpow_le; lia).
  assert (W : Rabs (1 + B2R e) <= bpow radix2 501).
  { rewrite Rabs_pos_eq by lra. rewrite bp501. lra. }
  destruct (fadd_cases f_one e eq_refl Fe) as [(A & E & F & S)|(A & E & S)]; rewrite one_B2R in *.
  - fold s in E, F, S. split; [exact F|]. split; [apply S; lra|]. split; [exact E|]. rewrite E. split.
    + rewrite <- one_B2R at 1. rewrite <- (rnd64_id f_one). rewrite one_B2R. apply rnd64_le. lra.
    + rewrite <- (rnd64_id e) at 1. apply rnd64_le. lra.
  - exfalso. pose proof (rnd64_fin _ 501 ltac:(lia) W). lra.
Qed.

Lemma both_ratio : 0 <= B2R p / B2R s <= B2R p.
Proof.
  destruct both_p as (_ & _ & _ & P0 & _). destruct both_s as (_ & _ & _ & S1 & _). split.
  - apply Rmult_le_pos; [exact P0|]. left. apply Rinv_0_lt_compat. lra.
  - apply Rmult_le_reg_r with (B2R s); [lra|]. unfold Rdiv. rewrite Rmult_assoc, Rinv_l, Rmult_1_r by lra. nra.
Qed.

Lemma both_q : is_finite q = true /\ Bsign q = false /\ B2R q = rnd64 (B2R p / B2R s) /\ 0 <= B2R q <= bpow radix2 1001.
Proof.
  destruct both_p as (Fp & Sp & _ & P0 & P1). destruct both_s as (Fs & Ss & _ & S1 & _). destruct both_ratio as [R0 R1].
  assert (W : Rabs (B2R p / B2R s) <= bpow radix2 1001) by (rewrite Rabs_pos_eq; lra).
  destruct (fdiv_cases p s Fp ltac:(lra)) as [(A & E & F & S)|(A & E)].
  - fold q in E, F, S. split; [exact F|]. split; [rewrite S, Sp, Ss; reflexivity|]. split; [exact E|]. rewrite E.
    split; [apply rnd64_nonneg; lra|]. eapply Rle_trans; [apply Rle_abs|]. apply rnd64_abs_bpow; [lia|exact W].
  - exfalso. pose proof (rnd64_fin _ 1001 ltac:(lia) W). lra.
Qed.

Lemma both_r : is_finite r = true /\ B2R r = rnd64 (B2R q + B2R lb) /\ B2R lb <= B2R r.
Proof.
  destruct both_q as (Fq & Sq & _ & Q0 & Q1).
  assert (W : Rabs (B2R q + B2R lb) <= bpow radix2 1002).
  { replace (bpow radix2 1002) with (bpow radix2 1 * bpow radix2 1001) by (rewrite <- bpow_plus; reflexivity).
    change (bpow radix2 1) with 2. assert (bpow radix2 500 <= bpow radix2 1001) by (apply bpow_le; lia).
    apply Rabs_le. split; [|]; lra. }
  destruct (fadd_cases q lb Fq Fl) as [(A & E & F & S)|(A & E & S)].
  - fold r in E, F. split; [exact F|]. split; [exact E|]. rewrite E. rewrite <- (rnd64_id lb) at 1. apply rnd64_le. lra.
  - exfalso. pose proof (rnd64_fin _ 1002 ltac:(lia) W). lra.
Qed.

(** the product never exceeds the width by more than a rounding *)
Lemma both_q_slack : bpow radix2 (-1022) <= B2R ub - B2R lb ->
  B2R q + B2R lb <= B2R ub + (B2R ub - B2R lb) * bpow radix2 (-51).
Proof.
  intros W. destruct both_d as (Fd & _ & Ed & D0 & _). destruct both_p as (_ & _ & Ep & P0 & _).
  destruct both_s as (_ & _ & _ & S1 & S2). destruct both_q as (_ & _ & Eq & _ & _). pose proof both_e as E0.
  assert (D1 : bpow radix2 (-1022) <= B2R d).
  { rewrite Ed. rewrite <- (rnd64_bpow (-1022)) by lia. apply rnd64_le. exact W. }
  assert (D2 : B2R d <= (B2R ub - B2R lb) * (1 + bpow radix2 (-53))) by (rewrite Ed; apply rnd64_rel; exact W).
  pose proof (bpow_gt_0 radix2 (-1022)) as T. pose proof (bpow_gt_0 radix2 (-53)) as U.
  assert (RT : B2R p / B2R s <= B2R d * (1 + bpow radix2 (-53))).
  { apply Rmult_le_reg_r with (B2R s); [lra|]. unfold Rdiv. rewrite Rmult_assoc, Rinv_l, Rmult_1_r by lra.
    destruct (Rle_or_lt 1 (B2R e)) as [G|G].
    - assert (P1 : B2R p <= B2R d * B2R e * (1 + bpow radix2 (-53))).
      { rewrite Ep. apply rnd64_rel. nra. }
      apply Rle_trans with (1 := P1). nra.
    - assert (P1 : B2R p <= B2R d). { rewrite Ep. rewrite <- (rnd64_id d) at 2. apply rnd64_le. nra. }
      apply Rle_trans with (1 := P1). rewrite Rmult_assoc. rewrite <- (Rmult_1_r (B2R d)) at 1.
      apply Rmult_le_compat_l; [exact D0|]. set (u := bpow radix2 (-53)) in *. set (t := B2R s) in *.
      clear - U S1. nra. }
  assert (Q : B2R q <= B2R d * (1 + bpow radix2 (-53)) * (1 + bpow radix2 (-53))).
  { rewrite Eq. eapply Rle_trans; [apply rnd64_le; exact RT|]. apply rnd64_rel. nra. }
  set (w := B2R ub - B2R lb) in *. set (u := bpow radix2 (-53)) in *.
  assert (U1 : bpow radix2 (-51) = 4 * u).
  { unfold u. replace (bpow radix2 (-51)) with (bpow radix2 2 * bpow radix2 (-53)) by (rewrite <- bpow_plus; reflexivity).
    change (bpow radix2 2) with 4. ring. }
  assert (U2 : u <= / 4).
  { unfold u. replace (/ 4) with (bpow radix2 (-2)) by (cbn; lra). apply bpow_le. lia. }
  rewrite U1. assert (Wp : 0 < w) by lra.
  assert (Q2 : B2R q <= w * (1 + u) * (1 + u) * (1 + u)).
  { eapply Rle_trans; [exact Q|]. apply Rmult_le_compat_r; [lra|]. apply Rmult_le_compat_r; [lra|]. exact D2. }
  assert (U3 : (1 + u) * (1 + u) * (1 + u) <= 1 + 4 * u) by nra.
  assert (Q3 : w * (1 + u) * (1 + u) * (1 + u) <= w * (1 + 4 * u)).
  { rewrite !Rmult_assoc. apply Rmult_le_compat_l; [lra|]. rewrite <- Rmult_assoc. exact U3. }
  unfold w in *. lra.
Qed.

Lemma both_upper_slack : bpow radix2 (-1022) <= B2R ub - B2R lb ->
  B2R r <= rnd64 (B2R ub + (B2R ub - B2R lb) * bpow radix2 (-51)).
Proof.
  intros W. destruct both_r as (_ & -> & _). apply rnd64_le. apply both_q_slack. exact W.
Qed.

(** when the width is a power of two no entry leaves the interval *)
Lemma both_upper_pow k : (-1022 <= k)%Z -> B2R ub - B2R lb = bpow radix2 k -> B2R r <= B2R ub.
Proof.
  intros K W. destruct both_d as (_ & _ & Ed & _ & _). destruct both_p as (_ & _ & Ep & P0 & _).
  destruct both_s as (_ & _ & Es & S1 & S2). destruct both_q as (_ & _ & Eq & _ & _).
  destruct both_r as (_ & Er & _). pose proof both_e as E0.
  rewrite W, rnd64_bpow in Ed by lia. pose proof (bpow_gt_0 radix2 k) as Pk.
  assert (P1 : B2R p <= B2R s * bpow radix2 k).
  { rewrite Ep, Ed. replace (B2R s * bpow radix2 k) with (rnd64 (B2R s * bpow radix2 k)).
    - apply rnd64_le. nra.
    - apply rnd64_format. apply mult_bpow_exact_FLT; [exact (generic_format_B2R 53 1024 s)|].
      assert (M : (1 <= mag radix2 (B2R s))%Z).
      { apply mag_ge_bpow. rewrite Rabs_pos_eq by lra. cbn. exact S1. }
      lia. }
  assert (Q1 : B2R q <= bpow radix2 k).
  { rewrite Eq. rewrite <- (rnd64_bpow k) by lia. apply rnd64_le.
    apply Rmult_le_reg_r with (B2R s); [lra|]. unfold Rdiv. rewrite Rmult_assoc, Rinv_l, Rmult_1_r by lra. lra. }
  rewrite Er. rewrite <- (rnd64_id ub). apply rnd64_le. lra.
Qed.
End Both.
