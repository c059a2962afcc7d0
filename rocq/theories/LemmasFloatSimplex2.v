(** Proofs about simplex parameters in binary64: accuracy. *)
From Coq Require Import Reals ZArith List Lra Lia Psatz Bool Permutation.
From Flocq Require Import Core BinarySingleNaN Relative Plus_error.
From Verif Require Import Res RSum SpecFloat ModelFloat LemmasFloat LemmasFloat2 LemmasFloat3 LemmasFloat4 SpecFloatSimplex ModelFloatSimplex LemmasFloatSimplex.
Import List ListNotations.
Set Bullet Behavior "Strict Subproofs".
Open Scope R_scope.

#[local] Instance P53 : Prec_gt_0 53 := prec53.
Definition u : R := bpow radix2 (-53).
Definition eta : R := bpow radix2 (-50).
Definition tiny : R := bpow radix2 (-1070).
Lemma u_pos : 0 < u. Proof. apply bpow_gt_0. Qed.
Lemma eta_u : eta = 8 * u.
Proof. unfold eta, u. change 8 with (bpow radix2 3). rewrite <- bpow_plus. reflexivity. Qed.
Lemma u_val : u = / 9007199254740992.
Proof. reflexivity. Qed.
Lemma tiny_pos : 0 < tiny. Proof. apply bpow_gt_0. Qed.
Lemma tiny_small : tiny * bpow radix2 20 <= eta.
Proof. unfold tiny, eta. rewrite <- bpow_plus. apply bpow_le. lia. Qed.
Lemma bpow20 : bpow radix2 20 = 1048576. Proof. reflexivity. Qed.

Lemma u_ro_le : u_ro radix2 53 / (1 + u_ro radix2 53) <= u.
Proof.
  assert (E : u_ro radix2 53 = u).
  { unfold u_ro, u. change (- (53) + 1)%Z with (1 + -53)%Z. rewrite bpow_plus. change (bpow radix2 1) with 2. field. }
  rewrite E. pose proof u_pos. apply Rle_trans with (u / 1); [|lra]. unfold Rdiv. apply Rmult_le_compat_l; [lra|]. apply Rinv_le; lra.
Qed.
Lemma fadd_rel (x y : dbl) : is_finite x = true -> is_finite y = true -> Rabs (B2R x + B2R y) <= bpow radix2 1000 ->
  is_finite (fadd x y) = true /\ Rabs (B2R (fadd x y) - (B2R x + B2R y)) <= u * Rabs (B2R x + B2R y).
Proof.
  intros Fx Fy B. destruct (fadd_cases x y Fx Fy) as [(_ & E & G & _)|(A & _)].
  - split; auto. rewrite E. unfold rnd64.
    destruct (FLT_plus_error_N_ex radix2 (-1074) 53 (fun x => negb (Z.even x)) (B2R x) (B2R y)) as (e & He & Ee).
    + exact (generic_format_B2R 53 1024 x).
    + exact (generic_format_B2R 53 1024 y).
    + rewrite Ee. replace ((B2R x + B2R y) * (1 + e) - (B2R x + B2R y)) with (e * (B2R x + B2R y)) by ring.
      rewrite Rabs_mult. apply Rmult_le_compat_r; [apply Rabs_pos|].
      apply Rle_trans with (1 := He). exact u_ro_le.
  - exfalso. pose proof (rnd64_fin _ 1000 ltac:(lia) B). lra.
Qed.
Lemma fsub_rel (x y : dbl) : is_finite x = true -> is_finite y = true -> Rabs (B2R x - B2R y) <= bpow radix2 1000 ->
  is_finite (fsub x y) = true /\ Rabs (B2R (fsub x y) - (B2R x - B2R y)) <= u * Rabs (B2R x - B2R y).
Proof.
  intros Fx Fy B. destruct (fsub_cases x y Fx Fy) as [(_ & E & G & _)|(A & _)].
  - split; auto. rewrite E. unfold rnd64.
    destruct (FLT_plus_error_N_ex radix2 (-1074) 53 (fun x => negb (Z.even x)) (B2R x) (- B2R y)) as (e & He & Ee).
    + exact (generic_format_B2R 53 1024 x).
    + apply generic_format_opp. exact (generic_format_B2R 53 1024 y).
    + change (B2R x - B2R y) with (B2R x + - B2R y). rewrite Ee.
      replace ((B2R x + - B2R y) * (1 + e) - (B2R x + - B2R y)) with (e * (B2R x + - B2R y)) by ring.
      rewrite Rabs_mult. apply Rmult_le_compat_r; [apply Rabs_pos|].
      apply Rle_trans with (1 := He). exact u_ro_le.
  - exfalso. pose proof (rnd64_fin _ 1000 ltac:(lia) B). lra.
Qed.

(** elementary estimates *)
Lemma exp_near x : Rabs x <= / 2 -> Rabs (exp x - 1) <= 2 * Rabs x.
Proof.
  intros B. apply Rabs_le_inv in B. pose proof (exp_ineq1_le x) as L. pose proof (exp_ineq1_le (- x)) as L'.
  rewrite exp_Ropp in L'. pose proof (exp_pos x) as P.
  assert (U : exp x * (1 - x) <= 1).
  { apply Rmult_le_compat_l with (r := exp x) in L'; [|lra]. rewrite Rinv_r in L' by lra. lra. }
  destruct (Rle_or_lt 0 x) as [H|H].
  - rewrite (Rabs_pos_eq x) by lra. apply Rabs_le. split; [lra|]. nra.
  - rewrite (Rabs_left x) by lra. apply Rabs_le. split; [lra|]. nra.
Qed.
Lemma ln_le_lin y : 0 < y -> ln y <= y - 1.
Proof. intros P. pose proof (exp_ineq1_le (ln y)) as H. rewrite exp_ln in H by exact P. lra. Qed.
Lemma ln_near x : Rabs x <= / 2 -> Rabs (ln (1 + x)) <= 2 * Rabs x.
Proof.
  intros B. apply Rabs_le_inv in B. pose proof (ln_le_lin (1 + x) ltac:(lra)) as U.
  pose proof (ln_le_lin (/ (1 + x)) ltac:(apply Rinv_0_lt_compat; lra)) as L. rewrite ln_Rinv in L by lra.
  assert (Q : / (1 + x) - 1 <= 2 * Rabs x).
  { apply Rmult_le_reg_r with (1 + x); [lra|]. rewrite Rmult_minus_distr_r, Rinv_l by lra.
    destruct (Rle_or_lt 0 x); [rewrite (Rabs_pos_eq x) by lra|rewrite (Rabs_left x) by lra]; nra. }
  apply Rabs_le. split; [lra|]. apply Rle_trans with (1 := U). unfold Rabs. destruct (Rcase_abs x); lra.
Qed.
Lemma ln_ratio s S b : 0 < S -> 0 <= b <= / 2 -> Rabs (s - S) <= b * S -> 0 < s /\ Rabs (ln s - ln S) <= 2 * b.
Proof.
  intros P B H. assert (H' : Rabs ((s - S) / S) <= b).
  { unfold Rdiv. rewrite Rabs_mult, (Rabs_pos_eq (/ S)) by (left; apply Rinv_0_lt_compat; exact P).
    apply Rmult_le_reg_r with S; [exact P|]. rewrite Rmult_assoc, Rinv_l by lra. lra. }
  set (x := (s - S) / S) in *. assert (E : s = S * (1 + x)) by (unfold x; field; lra).
  apply Rabs_le_inv in H' as X. assert (Q : 0 < 1 + x) by lra.
  split; [rewrite E; apply Rmult_lt_0_compat; auto|]. rewrite E, ln_mult by auto.
  replace (ln S + ln (1 + x) - ln S) with (ln (1 + x)) by ring.
  apply Rle_trans with (2 * Rabs x); [apply ln_near; lra|lra].
Qed.
Lemma exp_shift g y k : 0 <= k <= / 2 -> Rabs (g - y) <= k -> Rabs (exp g - exp y) <= 2 * k * exp y.
Proof.
  intros B H. replace g with (y + (g - y)) at 1 by ring. rewrite exp_plus.
  replace (exp y * exp (g - y) - exp y) with (exp y * (exp (g - y) - 1)) by ring.
  pose proof (exp_pos y). rewrite Rabs_mult, (Rabs_pos_eq (exp y)) by lra.
  pose proof (exp_near (g - y) ltac:(lra)). nra.
Qed.

(** sums *)
Lemma lsum_perm l l' : Permutation l l' -> lsum l = lsum l'.
Proof. induction 1; cbn [lsum fold_right] in *; unfold lsum in *; cbn [fold_right] in *; lra. Qed.
Definition reals (l : list dbl) : list R := map (fun x : dbl => B2R x) l.
Lemma lsum_reals_nonneg l : Forall unit_interval l -> 0 <= lsum (reals l) <= INR (length l).
Proof.
  induction 1 as [|x l [_ U] _ IH]; [cbn; lra|]. cbn [length reals map]. rewrite S_INR. unfold lsum in *. cbn [fold_right]. fold (reals l). lra.
Qed.
Lemma pow_u_pos n : 1 <= (1 + u) ^ n.
Proof. pose proof u_pos. apply pow_R1_Rle. lra. Qed.
Lemma pow_u_mono n k : (n <= k)%nat -> (1 + u) ^ n <= (1 + u) ^ k.
Proof. intros H. pose proof u_pos. apply Rle_pow; [lra|exact H]. Qed.
Lemma pow_u_le n : INR n <= bpow radix2 20 -> (1 + u) ^ n - 1 <= 2 * INR n * u.
Proof.
  intros H. pose proof u_pos as P. pose proof (pos_INR n) as Q.
  assert (A : (1 + u) ^ n <= exp (INR n * u)).
  { rewrite exp_nat. apply pow_incr. split; [lra|apply exp_ineq1_le]. }
  rewrite bpow20 in H. rewrite u_val in *.
  pose proof (exp_near (INR n * / 9007199254740992)) as E. rewrite (Rabs_pos_eq (INR n * _)) in E by lra.
  specialize (E ltac:(lra)). apply Rabs_le_inv in E. lra.
Qed.
Lemma sum_accuracy l s : sum_of l s -> Forall unit_interval l -> INR (length l) <= bpow radix2 20 ->
  is_finite s = true /\ Rabs (B2R s - lsum (reals l)) <= ((1 + u) ^ length l - 1) * lsum (reals l).
Proof.
  induction 1 as [|x|l l1 l2 a b P S1 IH1 S2 IH2]; intros F B.
  - split; [reflexivity|]. cbn. rewrite Rminus_0_r, Rabs_R0. lra.
  - inversion F as [|? ? [U U'] _]; subst. split; auto. cbn. replace (B2R x - (B2R x + 0)) with 0 by ring. rewrite Rabs_R0. pose proof u_pos. nra.
  - assert (F' : Forall unit_interval (l1 ++ l2)) by (eapply Permutation_Forall; eauto).
    apply Forall_app in F'. destruct F' as [F1 F2].
    assert (EL : length l = (length l1 + length l2)%nat) by (rewrite (Permutation_length P), app_length; reflexivity).
    assert (ES : lsum (reals l) = lsum (reals l1) + lsum (reals l2)).
    { unfold reals. rewrite (lsum_perm _ _ (Permutation_map (fun x : dbl => B2R x) P)), map_app, lsum_app. reflexivity. }
    rewrite EL, plus_INR in B. pose proof (pos_INR (length l1)) as N1. pose proof (pos_INR (length l2)) as N2.
    destruct (IH1 F1 ltac:(lra)) as [G1 A1]. destruct (IH2 F2 ltac:(lra)) as [G2 A2].
    pose proof (lsum_reals_nonneg l1 F1) as T1. pose proof (lsum_reals_nonneg l2 F2) as T2.
    pose proof (pow_u_le (length l1) ltac:(lra)) as E1. pose proof (pow_u_le (length l2) ltac:(lra)) as E2.
    change (Bplus mode_NE a b) with (fadd a b). rewrite ES, EL.
    destruct l1 as [|x1 l1'].
    { (* nothing on the left: the sum is 0 + b *)
      cbn [length reals map lsum fold_right] in *. change (0 + length l2)%nat with (length l2).
      cbn in A1. rewrite Rminus_0_r in A1.
      assert (Za : B2R a = 0). { assert (H0 : Rabs (B2R a) <= 0) by lra. apply Rabs_le_inv in H0. lra. }
      assert (Eb : B2R (fadd a b) = B2R b /\ is_finite (fadd a b) = true).
      { destruct (fadd_cases a b G1 G2) as [(_ & E & G & _)|(A & _)].
        - rewrite E, Za, Rplus_0_l, rnd64_id. auto.
        - exfalso. rewrite Za, Rplus_0_l, rnd64_id in A. pose proof (abs_B2R_lt b). lra. }
      destruct Eb as [Eb G]. split; auto. rewrite Eb. change (lsum []) with 0. rewrite Rplus_0_l. exact A2. }
    destruct l2 as [|x2 l2'].
    { set (k := length (x1 :: l1')) in *. cbn [length reals map lsum fold_right] in *. rewrite Nat.add_0_r.
      cbn in A2. rewrite Rminus_0_r in A2.
      assert (Zb : B2R b = 0). { assert (H0 : Rabs (B2R b) <= 0) by lra. apply Rabs_le_inv in H0. lra. }
      assert (Ea : B2R (fadd a b) = B2R a /\ is_finite (fadd a b) = true).
      { destruct (fadd_cases a b G1 G2) as [(_ & E & G & _)|(A & _)].
        - rewrite E, Zb, Rplus_0_r, rnd64_id. auto.
        - exfalso. rewrite Zb, Rplus_0_r, rnd64_id in A. pose proof (abs_B2R_lt a). lra. }
      destruct Ea as [Ea G]. split; auto. rewrite Ea. change (lsum []) with 0. rewrite Rplus_0_r. exact A1. }
    set (t1 := lsum (reals (x1 :: l1'))) in *. set (t2 := lsum (reals (x2 :: l2'))) in *.
    set (k1 := length (x1 :: l1')) in *. set (k2 := length (x2 :: l2')) in *.
    assert (K1 : (1 <= k1)%nat) by (unfold k1; cbn; lia). assert (K2 : (1 <= k2)%nat) by (unfold k2; cbn; lia).
    pose proof (pow_u_pos k1) as Q1. pose proof (pow_u_pos k2) as Q2. pose proof u_pos as PU.
    rewrite bpow20 in B.
    assert (U1 : (1 + u) ^ k1 - 1 <= 1) by (rewrite u_val in *; lra).
    assert (U2 : (1 + u) ^ k2 - 1 <= 1) by (rewrite u_val in *; lra).
    assert (M1 : Rabs (B2R a) <= 2 * t1).
    { replace (B2R a) with ((B2R a - t1) + t1) by ring. apply Rle_trans with (1 := Rabs_triang _ _). rewrite (Rabs_pos_eq t1) by lra. nra. }
    assert (M2 : Rabs (B2R b) <= 2 * t2).
    { replace (B2R b) with ((B2R b - t2) + t2) by ring. apply Rle_trans with (1 := Rabs_triang _ _). rewrite (Rabs_pos_eq t2) by lra. nra. }
    assert (BB : Rabs (B2R a + B2R b) <= bpow radix2 1000).
    { apply Rle_trans with (1 := Rabs_triang _ _). apply Rle_trans with (bpow radix2 22); [|apply bpow_le; lia].
      change (bpow radix2 22) with 4194304. lra. }
    destruct (fadd_rel a b G1 G2 BB) as [G R]. split; auto.
    set (K := (k1 + k2)%nat). assert (HK : exists j, K = S j /\ (k1 <= j)%nat /\ (k2 <= j)%nat) by (exists (k1 + k2 - 1)%nat; unfold K; lia).
    destruct HK as (j & -> & J1 & J2). pose proof (pow_u_mono k1 j J1) as V1. pose proof (pow_u_mono k2 j J2) as V2.
    set (w := (1 + u) ^ j) in *. cbn [pow]. fold w.
    assert (W1 : Rabs (B2R a - t1) <= (w - 1) * t1) by (apply Rle_trans with (1 := A1); apply Rmult_le_compat_r; lra).
    assert (W2 : Rabs (B2R b - t2) <= (w - 1) * t2) by (apply Rle_trans with (1 := A2); apply Rmult_le_compat_r; lra).
    assert (W : Rabs (B2R a + B2R b - (t1 + t2)) <= (w - 1) * (t1 + t2)).
    { replace (B2R a + B2R b - (t1 + t2)) with ((B2R a - t1) + (B2R b - t2)) by ring. apply Rle_trans with (1 := Rabs_triang _ _). lra. }
    assert (W3 : Rabs (B2R a + B2R b) <= w * (t1 + t2)).
    { replace (B2R a + B2R b) with ((B2R a + B2R b - (t1 + t2)) + (t1 + t2)) by ring. apply Rle_trans with (1 := Rabs_triang _ _).
      rewrite (Rabs_pos_eq (t1 + t2)) by lra. lra. }
    replace (B2R (fadd a b) - (t1 + t2)) with ((B2R (fadd a b) - (B2R a + B2R b)) + (B2R a + B2R b - (t1 + t2))) by ring.
    apply Rle_trans with (1 := Rabs_triang _ _). nra.
Qed.

Section Accuracy.
Variables (fexp flog : dbl -> dbl) (fsum : list dbl -> dbl).
Hypothesis He : exp_good fexp.
Hypothesis Hl : log_good flog.
Hypothesis Hs : sums fsum.
Variables (free : list dbl) (M : R).
Hypothesis Hf : Forall (fun v => is_finite v = true /\ Rabs (B2R v) <= M) free.
Hypothesis HM : 0 <= M <= bpow radix2 20.
Hypothesis HK : INR (length (aug free)) <= bpow radix2 20.
Let K := INR (length (aug free)).
Let m := top free.

Lemma acc_not_up : Forall not_up free.
Proof. eapply Forall_impl; [|exact Hf]. cbn. intros v [F _]. split; [apply finite_number; exact F|intros ->; discriminate]. Qed.
Lemma acc_aug a : In a (aug free) -> is_finite a = true /\ Rabs (B2R a) <= M.
Proof. intros [<-|I]; [split; [reflexivity|cbn; rewrite Rabs_R0; lra]|]. rewrite Forall_forall in Hf. auto. Qed.
Lemma acc_top : is_finite m = true /\ 0 <= B2R m <= M /\ In m (aug free) /\ forall a, In a (aug free) -> B2R a <= B2R m.
Proof.
  destruct (top_spec free acc_not_up) as (F & P & I & J). fold m in F, P, I, J. destruct (acc_aug m I) as [_ B]. apply Rabs_le_inv in B.
  splits; auto; try lra. intros a Ia. destruct (acc_aug a Ia). apply dle_finite; auto.
Qed.
Lemma K_pos : 1 <= K.
Proof. unfold K, aug. cbn [length]. rewrite S_INR. pose proof (pos_INR (length free)). lra. Qed.

Lemma bpow1000_big x : x <= 4194304 -> x <= bpow radix2 1000.
Proof. intros H. apply Rle_trans with (1 := H). change 4194304 with (bpow radix2 22). apply bpow_le. lia. Qed.

Lemma one_le_1000 : 1 <= bpow radix2 1000.
Proof. apply bpow1000_big. lra. Qed.

(** the terms of the sum *)
Lemma acc_tmp a : In a (aug free) ->
  is_finite (fexp (fsub a m)) = true /\ Rabs (B2R (fexp (fsub a m)) - exp (B2R a - B2R m)) <= (4 * M * u + 2 * eta) * exp (B2R a - B2R m) + tiny.
Proof.
  intros I. destruct acc_top as (Fm & Pm & _ & J). destruct (acc_aug a I) as [Fa Ba]. apply Rabs_le_inv in Ba. pose proof (J a I) as Ja.
  assert (D : Rabs (B2R a - B2R m) <= 2 * M) by (apply Rabs_le; lra). rewrite bpow20 in HM.
  destruct (fsub_rel a m Fa Fm) as [G R]; [apply Rle_trans with (1 := D); apply bpow1000_big; lra|].
  pose proof u_pos as PU. pose proof eta_u as EU.
  assert (N : B2R (fsub a m) <= 0).
  { assert (L : dle (fsub a m) (B754_zero false)).
    { apply fsub_nonpos; [apply dle_finite; auto| |intros ->; discriminate].
      split; [apply finite_number; exact Fa|intros ->; discriminate]. }
    apply dle_finite in L; auto. }
  assert (E1 : exp (B2R (fsub a m)) <= 1) by (rewrite <- exp_0; apply exp_le'; exact N).
  pose proof one_le_1000.
  destruct (exp_accuracy _ (eg_ok _ He) _ G) as [Fe _]; [lra|]. split; auto.
  pose proof (eg_close _ He _ G ltac:(lra)) as C. fold eta tiny in C.
  assert (R' : Rabs (B2R (fsub a m) - (B2R a - B2R m)) <= 2 * M * u) by nra.
  assert (S : Rabs (exp (B2R (fsub a m)) - exp (B2R a - B2R m)) <= 2 * (2 * M * u) * exp (B2R a - B2R m)).
  { apply exp_shift; auto. split; [nra|]. rewrite u_val in *. lra. }
  set (x := B2R (fexp (fsub a m))) in *. set (y := exp (B2R (fsub a m))) in *. pose proof (exp_pos (B2R a - B2R m)) as PZ. set (z := exp (B2R a - B2R m)) in *.
  assert (Y : y <= 2 * z). { apply Rabs_le_inv in S. assert (2 * (2 * M * u) * z <= z) by (rewrite u_val in *; nra). lra. }
  replace (x - z) with ((x - y) + (y - z)) by ring. apply Rle_trans with (1 := Rabs_triang _ _).
  assert (0 < eta) by lra. nra.
Qed.

Definition expsum : R := lsum (map (fun a : dbl => exp (B2R a - B2R m)) (aug free)).
Lemma lsum_abs_diff {A} (f g : A -> R) c d l : (forall a, In a l -> Rabs (f a - g a) <= c * g a + d) ->
  Rabs (lsum (map f l) - lsum (map g l)) <= c * lsum (map g l) + INR (length l) * d.
Proof.
  induction l as [|a l IH]; intros H; [cbn; rewrite Rminus_0_r, Rabs_R0; lra|].
  change (lsum (map f (a :: l))) with (f a + lsum (map f l)). change (lsum (map g (a :: l))) with (g a + lsum (map g l)).
  change (length (a :: l)) with (S (length l)). rewrite S_INR.
  specialize (IH (fun b Ib => H b (or_intror Ib))). pose proof (H a (or_introl eq_refl)) as Ha.
  replace (f a + lsum (map f l) - (g a + lsum (map g l))) with ((f a - g a) + (lsum (map f l) - lsum (map g l))) by ring.
  apply Rle_trans with (1 := Rabs_triang _ _). lra.
Qed.
Lemma lsum_bounds {A} (f : A -> R) l : (forall a, In a l -> 0 <= f a <= 1) -> 0 <= lsum (map f l) <= INR (length l) /\ (forall a, In a l -> f a <= lsum (map f l)).
Proof.
  induction l as [|b l IH]; intros H; [split; [cbn; lra|intros a []]|].
  change (lsum (map f (b :: l))) with (f b + lsum (map f l)). change (length (b :: l)) with (S (length l)). rewrite S_INR.
  destruct (IH (fun c Ic => H c (or_intror Ic))) as [B C]. pose proof (H b (or_introl eq_refl)) as Hb. split; [lra|].
  intros a [<-|I]; [lra|]. specialize (C a I). lra.
Qed.
Lemma expsum_bounds : 1 <= expsum <= K.
Proof.
  destruct acc_top as (_ & _ & I & J). destruct (lsum_bounds (fun a : dbl => exp (B2R a - B2R m)) (aug free)) as [B C].
  - intros a Ia. split; [left; apply exp_pos|]. rewrite <- exp_0. apply exp_le'. pose proof (J a Ia). lra.
  - split; [|apply B]. apply Rle_trans with (2 := C m I). replace (B2R m - B2R m) with 0 by ring. rewrite exp_0. lra.
Qed.

Definition fs : dbl := fsum (tmp fexp free).
Lemma acc_sum : is_finite fs = true /\ Rabs (B2R fs - expsum) <= (4 * K * u + 4 * M * u + 3 * eta) * expsum.
Proof.
  destruct (tmp_spec fexp He free acc_not_up) as (N & L & _).
  assert (U : Forall unit_interval (tmp fexp free)).
  { rewrite Forall_forall in *. intros t It. apply unit_of; [apply N|apply L]; exact It. }
  assert (LT : length (tmp fexp free) = length (aug free)) by (unfold tmp; apply map_length).
  destruct (sum_accuracy _ _ (Hs (tmp fexp free)) U) as [G A]; [change (@length (binary_float 53 1024)) with (@length dbl); rewrite LT; exact HK|].
  fold fs in G, A. split; auto. change (@length (binary_float 53 1024)) with (@length dbl) in A. rewrite LT in A.
  assert (ET : lsum (reals (tmp fexp free)) = lsum (map (fun a => B2R (fexp (fsub a m))) (aug free))).
  { unfold reals, tmp. rewrite map_map. reflexivity. }
  pose proof (lsum_abs_diff (fun a => B2R (fexp (fsub a m))) (fun a : dbl => exp (B2R a - B2R m)) (4 * M * u + 2 * eta) tiny (aug free)
     (fun a Ia => proj2 (acc_tmp a Ia))) as D.
  rewrite <- ET in D. fold expsum K in D. set (T := lsum (reals (tmp fexp free))) in *.
  pose proof (pow_u_le _ HK) as E. fold K in E. pose proof expsum_bounds as B. pose proof K_pos as KP. pose proof tiny_small as TS. pose proof tiny_pos as TP.
  pose proof u_pos as PU. pose proof eta_u as EU. fold K in HK.
  assert (KT : K * tiny <= eta) by nra. rewrite bpow20 in HM, HK.
  assert (MU : 0 <= M * u <= / 1000) by (rewrite u_val; lra). assert (KU : 0 <= K * u <= / 1000) by (rewrite u_val; lra).
  assert (EE : 0 < eta <= / 1000) by (rewrite EU, u_val; lra).
  assert (D' : Rabs (T - expsum) <= (4 * M * u + 3 * eta) * expsum) by nra.
  assert (T2 : T <= 2 * expsum). { apply Rabs_le_inv in D'. nra. }
  assert (T0 : 0 <= T) by (apply Rabs_le_inv in D'; nra).
  replace (B2R fs - expsum) with ((B2R fs - T) + (T - expsum)) by ring. apply Rle_trans with (1 := Rabs_triang _ _).
  assert (A' : Rabs (B2R fs - T) <= 2 * K * u * (2 * expsum)).
  { apply Rle_trans with (1 := A). pose proof (pow_u_pos (length (aug free))). apply Rmult_le_compat; lra. }
  lra.
Qed.

Lemma ln_20 x : 1 <= x <= bpow radix2 20 -> 0 <= ln x <= 20.
Proof.
  intros [A B]. split.
  - rewrite <- ln_1. destruct A as [A|A]; [left; apply ln_increasing; lra|rewrite A; lra].
  - apply Rle_trans with (ln (bpow radix2 20)).
    + destruct B as [B|B]; [left; apply ln_increasing; lra|rewrite B; lra].
    + rewrite ln_bpow. pose proof ln_2_bound. lra.
Qed.

Definition lse : R := ln expsum + B2R m.
Lemma acc_lse : is_finite (log_norm fexp flog fsum free) = true /\
  Rabs (B2R (log_norm fexp flog fsum free) - lse) <= (8 * K + 9 * M + 250) * u /\ Rabs lse <= M + 20.
Proof.
  destruct acc_sum as [G A]. destruct acc_top as (Fm & Pm & _ & _). pose proof expsum_bounds as B. pose proof K_pos as KP.
  pose proof u_pos as PU. pose proof eta_u as EU. fold K in HK.
  pose proof (ln_20 expsum ltac:(lra)) as LS.
  rewrite bpow20 in HM, HK.
  set (b := 4 * K * u + 4 * M * u + 3 * eta) in *.
  assert (Bb : 0 <= b <= / 1000) by (unfold b; rewrite EU, u_val; lra).
  destruct (ln_ratio (B2R fs) expsum b ltac:(lra) ltac:(lra) A) as [P L].
  pose proof (lg_close _ Hl fs G P) as C. fold eta in C.
  assert (LA : Rabs (ln (B2R fs)) <= 21) by (apply Rabs_le_inv in L; apply Rabs_le; lra).
  assert (EE : 0 < eta <= / 1000) by (rewrite EU, u_val; lra).
  assert (C' : Rabs (B2R (flog fs) - ln (B2R fs)) <= 22 * eta) by nra.
  assert (Fl : is_finite (flog fs) = true) by (apply (log_finite _ (lg_ok _ Hl)); auto).
  assert (Q : Rabs (B2R (flog fs) + B2R m) <= M + 22).
  { apply Rabs_le_inv in C'. apply Rabs_le_inv in L. apply Rabs_le. lra. }
  destruct (fadd_rel (flog fs) m Fl Fm) as [G2 R2]; [apply Rle_trans with (1 := Q); apply bpow1000_big; lra|].
  rewrite (log_norm_eq fexp flog fsum free acc_not_up). change (fsum (tmp fexp free)) with fs. fold m.
  split; [exact G2|]. split.
  - set (N := B2R (fadd (flog fs) m)) in *. unfold lse.
    replace (N - (ln expsum + B2R m)) with ((N - (B2R (flog fs) + B2R m)) + ((B2R (flog fs) - ln (B2R fs)) + (ln (B2R fs) - ln expsum))) by ring.
    apply Rle_trans with (1 := Rabs_triang _ _).
    assert (R2' : Rabs (N - (B2R (flog fs) + B2R m)) <= u * (M + 22)) by (apply Rle_trans with (1 := R2); apply Rmult_le_compat_l; lra).
    pose proof (Rabs_triang (B2R (flog fs) - ln (B2R fs)) (ln (B2R fs) - ln expsum)) as TR.
    unfold b in L. rewrite EU in *. lra.
  - unfold lse. rewrite Rabs_pos_eq; lra.
Qed.

(** one probability *)
Lemma acc_entry a : In a (aug free) ->
  is_finite (fexp (fsub a (log_norm fexp flog fsum free))) = true /\
  Rabs (B2R (fexp (fsub a (log_norm fexp flog fsum free))) - exp (B2R a - lse))
    <= (M + K + 32) * bpow radix2 (-48) * exp (B2R a - lse) + bpow radix2 (-1070).
Proof.
  intros I. destruct acc_lse as (Fn & An & Bn). set (n := log_norm fexp flog fsum free) in *.
  destruct (acc_aug a I) as [Fa Ba]. pose proof K_pos as KP. pose proof u_pos as PU. pose proof eta_u as EU. fold K in HK. rewrite bpow20 in HM, HK.
  assert (SM : (8 * K + 9 * M + 250) * u <= / 1000) by (rewrite u_val; lra).
  assert (Q : Rabs (B2R a - B2R n) <= 2 * M + 21).
  { apply Rabs_le_inv in Ba. apply Rabs_le_inv in An. apply Rabs_le_inv in Bn. apply Rabs_le. lra. }
  destruct (fsub_rel a n Fa Fn) as [G R]; [apply Rle_trans with (1 := Q); apply bpow1000_big; lra|].
  assert (Z : Rabs (B2R (fsub a n) - (B2R a - lse)) <= (8 * K + 11 * M + 271) * u).
  { replace (B2R (fsub a n) - (B2R a - lse)) with ((B2R (fsub a n) - (B2R a - B2R n)) - (B2R n - lse)) by ring.
    unfold Rminus at 1. apply Rle_trans with (1 := Rabs_triang _ _). rewrite Rabs_Ropp.
    assert (R' : Rabs (B2R (fsub a n) - (B2R a - B2R n)) <= u * (2 * M + 21)) by (apply Rle_trans with (1 := R); apply Rmult_le_compat_l; lra).
    lra. }
  assert (N : B2R (fsub a n) <= 0).
  { assert (L : dle (fsub a n) (B754_zero false)) by (exact (arg_nonpos fexp flog fsum He Hl Hs free a acc_not_up I)). apply dle_finite in L; auto. }
  assert (E1 : exp (B2R (fsub a n)) <= 1) by (rewrite <- exp_0; apply exp_le'; exact N).
  pose proof one_le_1000.
  destruct (exp_accuracy _ (eg_ok _ He) _ G) as [Fe _]; [lra|]. split; auto.
  pose proof (eg_close _ He _ G ltac:(lra)) as C. fold eta tiny in C.
  set (k := (8 * K + 11 * M + 271) * u) in *.
  assert (Bk : 0 <= k <= / 1000) by (unfold k; rewrite u_val; lra).
  pose proof (exp_shift _ _ k ltac:(lra) Z) as S.
  set (x := B2R (fexp (fsub a n))) in *. set (y := exp (B2R (fsub a n))) in *. pose proof (exp_pos (B2R a - lse)) as PZ. set (z := exp (B2R a - lse)) in *.
  assert (Y : y <= 2 * z) by (apply Rabs_le_inv in S; nra).
  replace (x - z) with ((x - y) + (y - z)) by ring. apply Rle_trans with (1 := Rabs_triang _ _).
  replace (bpow radix2 (-48)) with (32 * u) by (unfold u; change 32 with (bpow radix2 5); rewrite <- bpow_plus; reflexivity).
  fold tiny. assert (EE : 0 < eta) by lra. unfold k in S. rewrite EU in *.
  assert (C' : Rabs (x - y) <= 16 * u * z + tiny) by nra.
  assert (W : (2 * ((8 * K + 11 * M + 271) * u)) * z + 16 * u * z <= (M + K + 32) * (32 * u) * z).
  { assert (HH : 2 * ((8 * K + 11 * M + 271) * u) + 16 * u <= (M + K + 32) * (32 * u)) by nra. nra. }
  lra.
Qed.

Lemma exact_sum : lsum (map (fun a : dbl => exp (B2R a)) (aug free)) = exp lse.
Proof.
  pose proof expsum_bounds as B. unfold lse. rewrite exp_plus, exp_ln by lra. unfold expsum.
  rewrite Rmult_comm, <- lsum_map_scal. apply lsum_map_ext. intros a _. rewrite <- exp_plus. f_equal. ring.
Qed.
Lemma softmax_eq k a : nth_error (aug free) k = Some a -> softmax (reals free) k = exp (B2R a - lse).
Proof.
  intros E. unfold softmax. change (0 :: reals free) with (reals (aug free)).
  replace (nth k (reals (aug free)) 0) with (B2R a).
  - assert (X : lsum (map exp (reals (aug free))) = exp lse) by (unfold reals; rewrite map_map; exact exact_sum).
    rewrite X. unfold Rminus. rewrite exp_plus, exp_Ropp. reflexivity.
  - symmetry. apply nth_error_nth. unfold reals. rewrite nth_error_map, E. reflexivity.
Qed.
Lemma exact_total : lsum (map (fun a : dbl => exp (B2R a - lse)) (aug free)) = 1.
Proof.
  transitivity (exp (- lse) * lsum (map (fun a : dbl => exp (B2R a)) (aug free))).
  - rewrite <- lsum_map_scal. apply lsum_map_ext. intros a _. rewrite <- exp_plus. f_equal. ring.
  - etransitivity; [apply f_equal; exact exact_sum|]. rewrite <- exp_plus. replace (- lse + lse) with 0 by ring. apply exp_0.
Qed.

Lemma row_accuracy k : (k < length (aug free))%nat ->
  exists r, nth_error (f_constrain_simplex_row fexp flog fsum free) k = Some r /\ is_finite r = true /\
    Rabs (B2R r - softmax (reals free) k) <= (M + K + 32) * bpow radix2 (-48) * softmax (reals free) k + bpow radix2 (-1070).
Proof.
  intros L. destruct (nth_error (aug free) k) as [a|] eqn:E; [|apply nth_error_None in E; lia].
  exists (fexp (fsub a (log_norm fexp flog fsum free))). rewrite constrain_row, nth_error_map, E. split; [reflexivity|].
  rewrite (softmax_eq k a E). apply acc_entry. eapply nth_error_In; eauto.
Qed.
Lemma row_total : Rabs (lsum (reals (f_constrain_simplex_row fexp flog fsum free)) - 1) <= (M + K + 32) * bpow radix2 (-47).
Proof.
  pose proof (lsum_abs_diff (fun a => B2R (fexp (fsub a (log_norm fexp flog fsum free)))) (fun a : dbl => exp (B2R a - lse)) _ _ (aug free)
     (fun a Ia => proj2 (acc_entry a Ia))) as D.
  rewrite exact_total in D. unfold reals. rewrite constrain_row, map_map. apply Rle_trans with (1 := D). fold K. fold tiny.
  pose proof tiny_small as TS. pose proof tiny_pos. pose proof K_pos as KP. fold K in HK.
  replace (bpow radix2 (-47)) with (2 * bpow radix2 (-48)) by (change 2 with (bpow radix2 1); rewrite <- bpow_plus; reflexivity).
  assert (K * tiny <= eta) by nra.
  assert (eta <= bpow radix2 (-48)) by (apply bpow_le; lia). pose proof (bpow_gt_0 radix2 (-48)). rewrite bpow20 in *. nra.
Qed.
End Accuracy.
