(** Correctly rounded exp and log satisfy the contracts of SpecFloat: the floating-point theorems are not vacuous. *)
From Coq Require Import Reals ZArith List Lra Lia Psatz Bool.
From Flocq Require Import Core BinarySingleNaN Relative.
From Verif Require Import Res SpecFloat ModelFloat LemmasFloat LemmasFloat2 LemmasFloat3.
Import ListNotations.
Set Bullet Behavior "Strict Subproofs".
Open Scope R_scope.

#[local] Existing Instance P53.
#[local] Existing Instance V53.
#[local] Existing Instance M53.

(** the double nearest to a real number *)
Definition nearest (x : R) : double :=
  binary_normalize 53 1024 prec53 emax1024 mode_NE
    (ZnearestE (scaled_mantissa radix2 (FLT_exp (-1074) 53) x)) (cexp radix2 (FLT_exp (-1074) 53) x) false.

Lemma rnd64_rnd64 x : rnd64 (rnd64 x) = rnd64 x.
Proof. apply rnd64_format. unfold rnd64. apply generic_format_round; auto with typeclass_instances. Qed.

Lemma nearest_cases x :
  (Rabs (rnd64 x) < bpow radix2 1024 /\ B2R (nearest x) = rnd64 x /\ is_finite (nearest x) = true
   /\ (0 <= x -> Bsign (nearest x) = false))
  \/ (bpow radix2 1024 <= Rabs (rnd64 x) /\ nearest x = B754_infinity (Rlt_bool (rnd64 x) 0)).
Proof.
  pose proof (@binary_normalize_correct 53 1024 prec53 emax1024 mode_NE
    (ZnearestE (scaled_mantissa radix2 (FLT_exp (-1074) 53) x)) (cexp radix2 (FLT_exp (-1074) 53) x) false) as H.
  cbv zeta in H. fold (nearest x) in H.
  change (F2R {| Fnum := ZnearestE (scaled_mantissa radix2 (FLT_exp (-1074) 53) x);
                 Fexp := cexp radix2 (FLT_exp (-1074) 53) x |}) with (rnd64 x) in H.
  change (round radix2 (SpecFloat.fexp 53 1024) (round_mode mode_NE) (rnd64 x)) with (rnd64 (rnd64 x)) in H.
  rewrite rnd64_rnd64 in H.
  destruct (Rlt_bool_spec (Rabs (rnd64 x)) (bpow radix2 1024)) as [A|A].
  - left. destruct H as (H1 & H2 & H3). repeat split; auto. intros P. rewrite H3.
    pose proof (rnd64_nonneg x P) as Q. destruct (Rcompare_spec (rnd64 x) 0); auto; lra.
  - right. split; [exact A|]. apply B2SF_inf. exact H.
Qed.

Lemma nearest_number x : number (nearest x).
Proof. destruct (nearest_cases x) as [(_ & _ & F & _)|(_ & ->)]; [apply finite_number; exact F|reflexivity]. Qed.

Lemma nearest_sign x : 0 <= x -> Bsign (nearest x) = false.
Proof.
  intros P. destruct (nearest_cases x) as [(_ & _ & _ & S)|(_ & ->)]; [auto|]. cbn.
  apply Rlt_bool_false. apply rnd64_nonneg. exact P.
Qed.

Lemma nearest_mono x y : 0 <= x -> x <= y -> dle (nearest x) (nearest y).
Proof.
  intros P L. pose proof (rnd64_nonneg x P) as Q. pose proof (rnd64_le x y L) as M.
  destruct (nearest_cases y) as [(Ay & Ey & Fy & Sy)|(Ay & ->)].
  - destruct (nearest_cases x) as [(Ax & Ex & Fx & Sx)|(Ax & Ex)].
    + apply dle_finite; auto. rewrite Ex, Ey. exact M.
    + rewrite Rabs_pos_eq in Ax, Ay by lra. lra.
  - rewrite Rlt_bool_false by lra. apply dle_inf. apply nearest_number.
Qed.

Definition ideal_exp (x : double) : double :=
  match x with
  | B754_nan => B754_nan
  | B754_infinity true => B754_zero false
  | B754_infinity false => B754_infinity false
  | _ => nearest (exp (B2R x))
  end.

Lemma ideal_exp_finite x : is_finite x = true -> ideal_exp x = nearest (exp (B2R x)).
Proof. destruct x as [[]|[]| |[] m e B]; try discriminate; reflexivity. Qed.

Definition ideal_log (x : double) : double :=
  match x with
  | B754_zero _ => B754_infinity true
  | B754_infinity false => B754_infinity false
  | B754_finite false _ _ _ => nearest (ln (B2R x))
  | _ => B754_nan
  end.

Lemma rnd64_le_double x : 0 <= x -> rnd64 x <= 2 * x.
Proof.
  intros P. destruct (round_N_pt radix2 (FLT_exp (-1074) 53) (fun x => negb (Z.even x)) x) as [_ H].
  specialize (H 0 (generic_format_0 _ _)). fold (rnd64 x) in H. unfold ZnearestE in *.
  change (round radix2 (FLT_exp (-1074) 53) (Znearest (fun x => negb (Z.even x))) x) with (rnd64 x) in H.
  pose proof (rnd64_nonneg x P). replace (0 - x) with (- x) in H by ring.
  rewrite Rabs_Ropp, (Rabs_pos_eq x) in H by exact P. apply Rabs_le_inv in H. lra.
Qed.

Lemma rnd64_rel_lower x : bpow radix2 (-1022) <= x -> x * (1 - bpow radix2 (-53)) <= rnd64 x.
Proof.
  intros H. pose proof (bpow_gt_0 radix2 (-1022)) as P.
  assert (E : Rabs (rnd64 x - x) <= / 2 * bpow radix2 (-53 + 1) * Rabs x).
  { unfold rnd64. apply relative_error_N_FLT; [exact prec53|]. rewrite Rabs_pos_eq by lra. exact H. }
  rewrite (Rabs_pos_eq x) in E by lra. apply Rabs_le_inv in E. destruct E as [E _].
  replace (/ 2 * bpow radix2 (-53 + 1)) with (bpow radix2 (-53)) in E.
  - lra.
  - replace (bpow radix2 (-53 + 1)) with (bpow radix2 1 * bpow radix2 (-53)) by (rewrite <- bpow_plus; reflexivity).
    change (bpow radix2 1) with 2. field.
Qed.

Lemma ideal_exp_ok : exp_ok ideal_exp.
Proof.
  split.
  - intros x N. destruct (is_finite x) eqn:F.
    + rewrite ideal_exp_finite by exact F. split; [apply nearest_number|apply nearest_sign; left; apply exp_pos].
    + destruct x as [[]|[]| |[] m e B]; try discriminate; split; reflexivity.
  - reflexivity.
  - intros x F B. rewrite ideal_exp_finite by exact F. pose proof (exp_pos (B2R x)) as P.
    assert (Q : bpow radix2 1024 <= rnd64 (exp (B2R x))).
    { rewrite <- (rnd64_bpow 1024) by lia. apply rnd64_le. apply Rle_trans with (2 := B). apply bpow_le. lia. }
    pose proof (bpow_gt_0 radix2 1024) as P2.
    destruct (nearest_cases (exp (B2R x))) as [(A & _)|(_ & ->)].
    + rewrite Rabs_pos_eq in A by lra. lra.
    + rewrite Rlt_bool_false by lra. reflexivity.
  - intros x F B. rewrite ideal_exp_finite by exact F. pose proof (exp_pos (B2R x)) as P.
    destruct (nearest_cases (exp (B2R x))) as [(A & E & G & _)|(A & _)].
    + split; [exact G|]. rewrite E. split; [apply rnd64_le_double; lra|].
      destruct (Rle_or_lt (bpow radix2 (-1022)) (exp (B2R x))) as [C|C].
      * pose proof (rnd64_rel_lower _ C) as D. pose proof (bpow_gt_0 radix2 (-1000)).
        assert (U : bpow radix2 (-53) <= bpow radix2 (-1)) by (apply bpow_le; lia).
        change (bpow radix2 (-1)) with (/ 2) in U. nra.
      * pose proof (rnd64_nonneg (exp (B2R x)) ltac:(lra)).
        assert (bpow radix2 (-1022) <= bpow radix2 (-1000)) by (apply bpow_le; lia). lra.
    + exfalso. pose proof (rnd64_fin (exp (B2R x)) 1000 ltac:(lia)) as D. rewrite Rabs_pos_eq in D by lra.
      specialize (D B). lra.
Qed.

Lemma ideal_exp_monotone : exp_monotone ideal_exp.
Proof.
  intros x y L. destruct (dle_number _ _ L) as [Nx Ny].
  destruct (is_finite x) eqn:Fx; destruct (is_finite y) eqn:Fy.
  - rewrite !ideal_exp_finite by assumption. apply nearest_mono; [left; apply exp_pos|].
    apply exp_le'. apply dle_finite in L; assumption.
  - rewrite ideal_exp_finite by assumption.
    destruct y as [[]|[]| |[] m e B]; try discriminate; [destruct x as [[]|[]| |[] m' e' B']; try discriminate; contradiction|].
    apply dle_inf. apply nearest_number.
  - rewrite (ideal_exp_finite y) by assumption.
    destruct x as [[]|[]| |[] m e B]; try discriminate; [|destruct y as [[]|[]| |[] m' e' B']; try discriminate; contradiction].
    cbn [ideal_exp]. pose proof (exp_pos (B2R y)) as P.
    destruct (nearest_cases (exp (B2R y))) as [(A & E & G & _)|(A & ->)].
    + apply dle_finite; auto. rewrite E. cbn. apply rnd64_nonneg. lra.
    + rewrite Rlt_bool_false by (apply rnd64_nonneg; lra). exact I.
  - destruct x as [[]|[]| |[] m e B]; try discriminate; destruct y as [[]|[]| |[] m' e' B']; try discriminate; cbn in *; auto; lra.
Qed.

Lemma ln_bpow k : ln (bpow radix2 k) = IZR k * ln 2.
Proof.
  rewrite bpow_powerRZ. change (IZR radix2) with 2. destruct k as [|q|q]; cbn [powerRZ].
  - rewrite ln_1. ring.
  - rewrite ln_pow by lra. rewrite INR_IZR_INZ, positive_nat_Z. reflexivity.
  - rewrite ln_Rinv by (apply pow_lt; lra). rewrite ln_pow by lra. rewrite INR_IZR_INZ, positive_nat_Z.
    change (Z.neg q) with (Z.opp (Z.pos q)). rewrite opp_IZR. ring.
Qed.

Lemma ln_2_bound : 0 < ln 2 < 1.
Proof.
  split; [rewrite <- ln_1; apply ln_increasing; lra|].
  rewrite <- (ln_exp 1). apply ln_increasing; [lra|]. pose proof exp_1_lower. lra.
Qed.

Lemma ideal_log_ok : log_ok ideal_log.
Proof.
  split.
  - intros x L. destruct x as [[]|[]| |[] m e B]; cbn in L; try contradiction; try reflexivity.
    + exfalso. revert L. assert (H : F2R (beta := radix2) {| Fnum := Z.neg m; Fexp := e |} < 0) by (apply F2R_lt_0; cbn; lia).
      intros L. cbn in H, L. lra.
    + apply nearest_number.
  - reflexivity.
  - intros x F P. destruct x as [[]|[]| |[] m e B]; try discriminate; try (cbn in P; lra).
    + exfalso. assert (H : F2R (beta := radix2) {| Fnum := Z.neg m; Fexp := e |} < 0) by (apply F2R_lt_0; cbn; lia). cbn in H, P. lra.
    + set (x := B754_finite false m e B : double) in *. change (ideal_log x) with (nearest (ln (B2R x))).
      pose proof ln_2_bound as L2.
      assert (U : B2R x < bpow radix2 1024). { eapply Rle_lt_trans; [apply Rle_abs|]. apply abs_B2R_lt_emax. }
      assert (V : bpow radix2 (-1074) <= B2R x).
      { rewrite <- (Rabs_pos_eq (B2R x)) by lra. apply (abs_B2R_ge_emin 53 1024 x). reflexivity. }
      assert (W : Rabs (ln (B2R x)) <= bpow radix2 11).
      { change (bpow radix2 11) with 2048. apply Rabs_le. split.
        - apply Rle_trans with (ln (bpow radix2 (-1074))).
          + rewrite ln_bpow. nra.
          + destruct V as [V|V]; [left; apply ln_increasing; [apply bpow_gt_0|exact V]|right; rewrite V; reflexivity].
        - apply Rle_trans with (ln (bpow radix2 1024)).
          + left. apply ln_increasing; assumption.
          + rewrite ln_bpow. nra. }
      destruct (nearest_cases (ln (B2R x))) as [(_ & _ & G & _)|(A & _)]; [exact G|].
      exfalso. pose proof (rnd64_fin _ 11 ltac:(lia) W). lra.
Qed.
