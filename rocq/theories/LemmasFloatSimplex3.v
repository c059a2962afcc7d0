(** Proofs about simplex parameters in binary64: lost values, round trip, whole parameters, the contracts. *)
From Coq Require Import Reals ZArith List Lra Lia Psatz Bool Permutation.
From Flocq Require Import Core BinarySingleNaN Relative Plus_error.
From Verif Require Import Res RSum SpecFloat ModelFloat LemmasFloat LemmasFloat2 LemmasFloat3 LemmasFloat4 SpecFloatSimplex ModelFloatSimplex
  LemmasFloatSimplex LemmasFloatSimplex2.
Import List ListNotations.
Set Bullet Behavior "Strict Subproofs".
Open Scope R_scope.

Lemma exp_750 : bpow radix2 1080 <= exp 750.
Proof.
  rewrite (exp_Z 750) by lia. apply Rle_trans with ((27165 / 10000) ^ 750).
  - change 1080%Z with (Z.of_nat 1080). rewrite bpow_pow. replace (27165 / 10000) with (27165 * / 10000) by field.
    rewrite Rpow_mult_distr, pow_inv.
    apply Rmult_le_reg_r with (10000 ^ 750); [apply pow_lt; lra|].
    rewrite Rmult_assoc, Rinv_l, Rmult_1_r by (apply pow_nonzero; lra).
    rewrite !pow_IZR, <- !mult_IZR. apply IZR_le. apply Z.leb_le. vm_compute. reflexivity.
  - change (Z.to_nat 750) with 750%nat. apply pow_incr. split; [lra|exact exp_1_lower].
Qed.
Lemma exp_m750 x : x <= -750 -> exp x <= bpow radix2 (-1080).
Proof.
  intros H. apply Rle_trans with (exp (-750)); [apply exp_le'; exact H|].
  replace (-750) with (- (750)) by lra. rewrite exp_Ropp. change (-1080)%Z with (- (1080))%Z. rewrite bpow_opp.
  apply Rinv_le; [apply bpow_gt_0|exact exp_750].
Qed.
Lemma fmt_750 : generic_format radix2 (FLT_exp (-1074) 53) (-750).
Proof. rewrite <- (dint_B2R (-750)) by reflexivity. exact (generic_format_B2R 53 1024 (dint (-750))). Qed.

Section Row.
Variables (fexp flog : dbl -> dbl) (fsum : list dbl -> dbl).
Hypothesis He : exp_good fexp.
Hypothesis Hl : log_good flog.
Hypothesis Hs : sums fsum.

(** a category 750 below another one gets probability zero *)
Lemma row_zero (free : list dbl) (a b : dbl) : Forall not_up free -> In a (aug free) -> In b (aug free) -> is_finite a = true -> is_finite b = true ->
  B2R a <= B2R b - 750 -> fexp (fsub a (log_norm fexp flog fsum free)) = B754_zero false.
Proof.
  intros N Ia Ib Fa Fb D. destruct (top_spec free N) as (_ & _ & _ & J). pose proof (log_norm_spec fexp flog fsum He Hl Hs free N) as L.
  pose proof (dle_trans _ _ _ (J b Ib) L) as L'. set (n := log_norm fexp flog fsum free) in *.
  destruct (dle_number _ _ L') as [_ Nn]. destruct (is_finite n) eqn:Fn.
  - apply dle_finite in L'; auto. destruct (fsub_cases a n Fa Fn) as [(_ & E & G & _)|(A & E & S)].
    + apply (eg_underflow _ He); auto. apply exp_m750. rewrite E. rewrite <- (rnd64_format (-750) fmt_750). apply rnd64_le. lra.
    + rewrite E. destruct (Bsign a) eqn:Sa; [apply (exp_minf _ (eg_ok _ He))|]. exfalso.
      pose proof (sign_false_nonneg a Sa) as Pa.
      assert (B2R n <= 0).
      { assert (Sn : Bsign n = true) by (destruct (Bsign n); [reflexivity|discriminate]). clear - Sn Fn.
        destruct n as [[]|[]| |[] k x B]; try discriminate; cbn; try lra.
        assert (H' : F2R (beta := radix2) {| Fnum := Z.neg k; Fexp := x |} < 0) by (apply F2R_lt_0; cbn; lia). cbn in H'. lra. }
      lra.
  - destruct n as [[]|[]| |[] ? ? ?]; try discriminate; [destruct b as [[]|[]| |[] ? ? ?]; try discriminate; contradiction|].
    replace (fsub a (B754_infinity false)) with (B754_infinity true : dbl) by (destruct a as [[]|[]| |[] ? ? ?]; try discriminate; reflexivity).
    apply (exp_minf _ (eg_ok _ He)).
Qed.

Lemma row_split free : exists p0 ps, f_constrain_simplex_row fexp flog fsum free = p0 :: ps /\
  p0 = fexp (fsub (B754_zero false) (log_norm fexp flog fsum free)) /\ ps = map (fun a => fexp (fsub a (log_norm fexp flog fsum free))) free.
Proof. rewrite constrain_row. unfold aug. cbn [map]. eexists _, _. splits; reflexivity. Qed.

(** a free value of 750 or more: nothing of the row comes back *)
Lemma row_lost (free : list dbl) i (v : dbl) j (w : dbl) : Forall not_up free -> nth_error free i = Some v -> is_finite v = true -> 750 <= B2R v ->
  nth_error free j = Some w -> exists r,
    nth_error (f_unconstrain_simplex_row flog (f_constrain_simplex_row fexp flog fsum free)) j = Some r /\
    (r = B754_nan \/ r = B754_infinity false) /\ (is_finite w = true -> B2R w <= B2R v - 750 -> r = B754_nan) /\ (w = B754_infinity true -> r = B754_nan).
Proof.
  intros N Ei Fv Bv Ej. pose proof (row_range fexp flog fsum He Hl Hs free N) as U.
  destruct (row_split free) as (p0 & ps & E & E0 & Es). rewrite E in *. inversion U as [|? ? U0 Us]; subst x l.
  assert (Iv : In v (aug free)) by (right; eapply nth_error_In; eauto).
  assert (Iw : In w (aug free)) by (right; eapply nth_error_In; eauto).
  assert (Z0 : p0 = B754_zero false).
  { rewrite E0. apply (row_zero free _ v); auto; [left; reflexivity|cbn; lra]. }
  set (pj := fexp (fsub w (log_norm fexp flog fsum free))).
  assert (Epj : nth_error ps j = Some pj) by (rewrite Es, nth_error_map, Ej; reflexivity).
  assert (Uj : unit_interval pj) by (rewrite Forall_forall in Us; apply Us; eapply nth_error_In; eauto).
  exists (fsub (flog pj) (flog p0)). cbn [f_unconstrain_simplex_row]. rewrite nth_error_map, Epj. split; [reflexivity|].
  destruct (unconstrain_entry flog Hl pj p0 Uj U0) as (C1 & C2 & _).
  assert (B0 : B2R p0 = 0) by (rewrite Z0; reflexivity).
  splits.
  - destruct (Req_dec (B2R pj) 0); [left; apply C1; auto|right; apply C2; auto].
  - intros Fw Bw. apply C1. split; auto. unfold pj. rewrite (row_zero free w v); auto.
  - intros ->. apply C1. split; auto. unfold pj.
    assert (Q : fsub (B754_infinity true) (log_norm fexp flog fsum free) = B754_infinity true).
    { pose proof (arg_nonpos fexp flog fsum He Hl Hs free (B754_infinity true) N Iw) as L.
      destruct (log_norm fexp flog fsum free) as [[]|[]| |[] ? ? ?]; try reflexivity; contradiction. }
    rewrite Q, (exp_minf _ (eg_ok _ He)). reflexivity.
Qed.

(** free values of at most 300 come back *)
Lemma exp_m640 x : -640 <= x -> bpow radix2 (-1015) <= exp x.
Proof.
  intros H. apply Rle_trans with (exp (-640)); [|apply exp_le'; exact H].
  replace (-640) with (- (640)) by lra. rewrite exp_Ropp. change (-1015)%Z with (- (1015))%Z. rewrite bpow_opp.
  apply Rinv_le; [apply exp_pos|]. rewrite (exp_Z 640) by lia. apply Rle_trans with (3 ^ 640).
  - change (Z.to_nat 640) with 640%nat. apply pow_incr. split; [left; apply exp_pos|exact exp_le_3].
  - change 1015%Z with (Z.of_nat 1015). rewrite bpow_pow. apply pow_le_Z. apply Z.leb_le. vm_compute. reflexivity.
Qed.

Section Moderate.
Variable free : list dbl.
Hypothesis Hf : Forall (fun v : dbl => is_finite v = true /\ Rabs (B2R v) <= 300) free.
Hypothesis HK : INR (length (aug free)) <= bpow radix2 20.
Let K := INR (length (aug free)).
Let M300 : 0 <= 300 <= bpow radix2 20.
Proof. rewrite bpow20. lra. Qed.

Lemma log_entry a : In a (aug free) -> let p := fexp (fsub a (log_norm fexp flog fsum free)) in
  is_finite (flog p) = true /\ Rabs (B2R (flog p) - (B2R a - lse free)) <= (64 * K + 27000) * u.
Proof.
  intros I p. destruct (acc_entry fexp flog fsum He Hl Hs free 300 Hf M300 HK a I) as [Fp A]. fold p K in Fp, A.
  destruct (acc_lse fexp flog fsum He Hl Hs free 300 Hf M300 HK) as (_ & _ & B).
  destruct (acc_aug free 300 Hf M300 a I) as [_ Ba]. apply Rabs_le_inv in Ba. apply Rabs_le_inv in B.
  set (y := B2R a - lse free) in *. assert (Y : -640 <= y <= 640) by (unfold y; lra).
  pose proof (exp_m640 y ltac:(lra)) as Q. pose proof (K_pos free) as KP. fold K in KP, HK. rewrite bpow20 in HK.
  pose proof u_pos as PU. pose proof eta_u as EU.
  replace (bpow radix2 (-48)) with (32 * u) in A by (unfold u; change 32 with (bpow radix2 5); rewrite <- bpow_plus; reflexivity).
  assert (T : bpow radix2 (-1070) <= u * exp y).
  { apply Rle_trans with (u * bpow radix2 (-1015)); [unfold u; rewrite <- bpow_plus; apply bpow_le; lia|].
    apply Rmult_le_compat_l; lra. }
  pose proof (exp_pos y) as PE.
  set (b := (300 + K + 32) * (32 * u) + u).
  assert (Bb : 0 <= b <= / 1000) by (unfold b; rewrite u_val; lra).
  destruct (ln_ratio (B2R p) (exp y) b PE ltac:(lra)) as [Pp L]; [unfold b; lra|].
  rewrite ln_exp in L. pose proof (lg_close _ Hl p Fp Pp) as C. fold eta in C.
  assert (LA : Rabs (ln (B2R p)) <= 641) by (apply Rabs_le_inv in L; apply Rabs_le; lra).
  split; [apply (log_finite _ (lg_ok _ Hl)); auto|].
  replace (B2R (flog p) - y) with ((B2R (flog p) - ln (B2R p)) + (ln (B2R p) - y)) by ring.
  apply Rle_trans with (1 := Rabs_triang _ _).
  assert (C' : Rabs (B2R (flog p) - ln (B2R p)) <= 8 * u * 642).
  { apply Rle_trans with (1 := C). rewrite EU. apply Rmult_le_compat_l; lra. }
  unfold b in L. lra.
Qed.

Lemma row_round_trip j w : nth_error free j = Some w -> exists r,
  nth_error (f_unconstrain_simplex_row flog (f_constrain_simplex_row fexp flog fsum free)) j = Some r /\ is_finite r = true /\
  Rabs (B2R r - B2R w) <= (K + 512) * bpow radix2 (-46).
Proof.
  intros E. destruct (row_split free) as (p0 & ps & Er & E0 & Es). rewrite Er. cbn [f_unconstrain_simplex_row]. rewrite Es, map_map, nth_error_map, E.
  eexists. split; [reflexivity|]. rewrite E0.
  assert (Iw : In w (aug free)) by (right; eapply nth_error_In; eauto).
  destruct (log_entry w Iw) as [F1 A1]. destruct (log_entry (B754_zero false) ltac:(left; reflexivity)) as [F0 A0].
  destruct (acc_lse fexp flog fsum He Hl Hs free 300 Hf M300 HK) as (_ & _ & B). apply Rabs_le_inv in B.
  destruct (acc_aug free 300 Hf M300 w Iw) as [_ Bw]. apply Rabs_le_inv in Bw.
  set (l1 := flog (fexp (fsub w (log_norm fexp flog fsum free)))) in *.
  set (l0 := flog (fexp (fsub (B754_zero false) (log_norm fexp flog fsum free)))) in *.
  change (B2R (B754_zero false)) with 0 in A0. pose proof (K_pos free) as KP. fold K in KP, HK. rewrite bpow20 in HK. pose proof u_pos as PU.
  assert (SM : (64 * K + 27000) * u <= / 1000) by (rewrite u_val; lra).
  assert (D : Rabs (B2R l1 - B2R l0 - B2R w) <= 2 * ((64 * K + 27000) * u)).
  { apply Rabs_le_inv in A0. apply Rabs_le_inv in A1. apply Rabs_le. lra. }
  assert (Q : Rabs (B2R l1 - B2R l0) <= 301) by (apply Rabs_le_inv in D; apply Rabs_le; lra).
  destruct (fsub_rel l1 l0 F1 F0) as [G R]; [apply Rle_trans with (1 := Q); apply bpow1000_big; lra|].
  split; [exact G|].
  replace (bpow radix2 (-46)) with (128 * u) by (unfold u; change 128 with (bpow radix2 7); rewrite <- bpow_plus; reflexivity).
  replace (B2R (fsub l1 l0) - B2R w) with ((B2R (fsub l1 l0) - (B2R l1 - B2R l0)) + (B2R l1 - B2R l0 - B2R w)) by ring.
  apply Rle_trans with (1 := Rabs_triang _ _).
  assert (R' : Rabs (B2R (fsub l1 l0) - (B2R l1 - B2R l0)) <= u * 301) by (apply Rle_trans with (1 := R); apply Rmult_le_compat_l; lra).
  lra.
Qed.
End Moderate.
End Row.
