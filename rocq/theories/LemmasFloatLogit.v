(** Proofs about log_v of ExponentialFamilies.py in binary64. *)
From Coq Require Import Reals ZArith List Lra Lia Psatz Bool.
From Flocq Require Import Core BinarySingleNaN Relative.
From Verif Require Import Res Nd RSum ModelNumpy SpecFloat SpecFloatSimplex SpecFloatAcc SpecFloatLogit ModelFloat ModelFloatFamilies ModelFloatLogit
  LemmasFloat LemmasFloat2 LemmasFloat3 LemmasFloat4 LemmasFloatSimplex LemmasFloatSimplex2 LemmasFloatAcc LemmasFloatAcc2 LemmasFloatFam LemmasFloatFam7 LemmasFloatEntropy.
Import List ListNotations.
Set Bullet Behavior "Strict Subproofs".
Open Scope R_scope.

(** ** exact operations *)
Lemma below_1024 (x : dbl) : Rabs (B2R x) < bpow radix2 1024. Proof. exact (abs_B2R_lt_emax 53 1024 x). Qed.
Lemma fmul_one_r (x : dbl) : is_finite x = true -> is_finite (fmul x f_one) = true /\ B2R (fmul x f_one) = B2R x.
Proof.
  intros F. pose proof (below_1024 x) as B. destruct (fmul_cases x f_one F one_finite) as [(_ & E & G & _)|(C & _)]; rewrite one_B2R, Rmult_1_r, rnd64_id in *; [split; assumption|lra].
Qed.
Lemma fmul_zero_r (x : dbl) : is_finite x = true -> is_finite (fmul x fz) = true /\ B2R (fmul x fz) = 0.
Proof. destruct x; cbn; try discriminate; intros _; split; reflexivity. Qed.
Lemma fadd_zero (x y : dbl) : is_finite x = true -> is_finite y = true -> B2R x = 0 \/ B2R y = 0 -> is_finite (fadd x y) = true /\ B2R (fadd x y) = B2R x + B2R y.
Proof.
  intros Fx Fy Z. assert (H : rnd64 (B2R x + B2R y) = B2R x + B2R y /\ Rabs (B2R x + B2R y) < bpow radix2 1024).
  { destruct Z as [->| ->]; rewrite ?Rplus_0_l, ?Rplus_0_r; rewrite rnd64_id; (split; [reflexivity|apply below_1024]). }
  destruct H as [H1 H2]. destruct (fadd_cases x y Fx Fy) as [(_ & E & G & _)|(C & _)]; rewrite H1 in *; [split; assumption|lra].
Qed.
Lemma m100_B2R : B2R f_m100 = -100. Proof. unfold f_m100, f_int. cbn. unfold F2R. cbn. lra. Qed.
Lemma m1e16_B2R : B2R f_m1e16 = -10000000000000000. Proof. unfold f_m1e16, f_int. cbn. unfold F2R. cbn. lra. Qed.
Lemma fle_m100 (x : dbl) : is_finite x = true -> fle x f_m100 = true <-> B2R x <= -100.
Proof. intros F. rewrite <- m100_B2R. apply fle_finite; [exact F|reflexivity]. Qed.
Lemma fgt_m100 (x : dbl) : is_finite x = true -> fgt x f_m100 = negb (fle x f_m100).
Proof.
  intros F. unfold fgt. assert (E : feq x f_m100 = Req_bool (B2R x) (-100)) by (unfold feq; rewrite <- m100_B2R; apply Beqb_correct; [exact F|reflexivity]).
  assert (L : fle f_m100 x = true <-> -100 <= B2R x) by (rewrite <- m100_B2R; apply fle_finite; [reflexivity|exact F]). pose proof (fle_m100 x F) as G. rewrite E.
  destruct (fle f_m100 x), (fle x f_m100); cbn [andb negb].
  - rewrite Req_bool_true; [reflexivity|]. apply Rle_antisym; [apply G|apply L]; reflexivity.
  - rewrite Req_bool_false; [reflexivity|]. intros Q. assert (false = true) by (apply G; lra). discriminate.
  - reflexivity.
  - exfalso. destruct (Rle_or_lt (-100) (B2R x)) as [A|A]; [apply L in A|assert (false = true) by (apply G; lra)]; discriminate.
Qed.

Section LogV.
Context (fexp flog : dbl -> dbl) (He : exp_good fexp) (Hl : log_good flog).
Lemma one_plus (w : dbl) : number w -> Bsign w = false -> fadd f_one w = B754_infinity false \/ (is_finite (fadd f_one w) = true /\ 1 <= B2R (fadd f_one w)).
Proof.
  intros N S. assert (D : is_finite w = true \/ w = B754_infinity false) by (destruct w as [s|s| |s m e b]; cbn in *; subst; auto; discriminate). destruct D as [F| ->]; [|left; reflexivity].
  assert (P : 0 <= B2R w). { destruct w as [s|s| |s m e b]; cbn in *; subst; try lra. apply F2R_ge_0. cbn. lia. }
  destruct (fadd_cases f_one w one_finite F) as [(_ & E & G & _)|(_ & E & _)]; [right|left; exact E]. split; [exact G|]. rewrite E, one_B2R. rewrite <- (rnd64_bpow 0) at 1 by lia. apply rnd64_le. change (bpow radix2 0) with 1. lra.
Qed.
Definition softplus_f (x : dbl) : dbl := flog (fadd f_one (fexp (Bopp x))).
Lemma softplus_cases (x : dbl) : number x -> softplus_f x = B754_infinity false \/ (is_finite (softplus_f x) = true /\ 0 <= B2R (softplus_f x)).
Proof using He Hl.
  intros N. unfold softplus_f. destruct (exp_number _ (eg_ok _ He) (Bopp x)) as [W S]; [destruct x; exact N || reflexivity|].
  destruct (one_plus _ W S) as [->|[F P]]; [left; exact (lg_inf _ Hl)|right]. assert (G : is_finite (flog (fadd f_one (fexp (Bopp x)))) = true) by (apply (log_finite _ (lg_ok _ Hl)); [exact F|lra]). split; [exact G|].
  assert (D : dle (B754_zero false) (flog (fadd f_one (fexp (Bopp x))))) by (apply (lg_nonneg _ Hl); apply dle_finite; [reflexivity|exact F|change (B2R done) with (B2R f_one); rewrite one_B2R; exact P]).
  apply dle_finite in D; [exact D|reflexivity|exact G].
Qed.
Lemma maximum_cases (g : dbl) : g = B754_infinity false \/ (is_finite g = true /\ 0 <= B2R g) -> let M := fmaximum (Bopp g) f_m1e16 in
  is_finite M = true /\ B2R M <= 0 /\ (is_finite g = true -> B2R g <= 10000000000000000 -> B2R M = - B2R g).
Proof.
  pose proof m1e16_B2R as E. intros [->|[F P]] M.
  - change M with f_m1e16. split; [reflexivity|]. split; [lra|]. discriminate.
  - assert (F' : is_finite (Bopp g) = true) by (rewrite is_finite_Bopp; exact F). assert (B : B2R (Bopp g) = - B2R g) by apply B2R_Bopp.
    pose proof (fle_finite (Bopp g) f_m1e16 F' eq_refl) as L. rewrite B, E in L. unfold M, fmaximum. replace (is_nan (Bopp g)) with false by (destruct g; try discriminate; reflexivity). change (is_nan f_m1e16) with false. cbv iota.
    destruct (fle (Bopp g) f_m1e16).
    + assert (Q : - B2R g <= -10000000000000000) by (apply L; reflexivity). split; [reflexivity|]. split; [lra|]. intros _ Z. lra.
    + split; [exact F'|]. split; [lra|]. intros _ _. exact B.
Qed.
Lemma softplus_close (x : dbl) : is_finite x = true -> -100 <= B2R x -> let s := ln (1 + exp (- B2R x)) in
  is_finite (softplus_f x) = true /\ 0 <= s <= 101 /\ Rabs (B2R (softplus_f x) - s) <= 64 * u * (1 + s).
Proof using He Hl.
  intros F P s. small_u. set (X := B2R x) in *. unfold softplus_f. assert (Fy : is_finite (Bopp x) = true) by (rewrite is_finite_Bopp; exact F). assert (By : B2R (Bopp x) = - X) by apply B2R_Bopp.
  pose proof (exp_pos (- X)) as Ep. assert (E100 : exp (- X) <= exp 100) by (destruct (Req_dec (- X) 100) as [->|]; [lra|left; apply exp_increasing; lra]).
  pose proof (exp_calm_bounds 100 ltac:(rewrite Rabs_pos_eq; lra)) as [_ C]. assert (B476 : bpow radix2 476 <= bpow radix2 1000) by (apply bpow_le; lia).
  pose proof (eg_close _ He (Bopp x) Fy ltac:(rewrite By; lra)) as A. destruct (exp_accuracy _ (eg_ok _ He) (Bopp x) Fy ltac:(rewrite By; lra)) as (Fw & W2 & _). rewrite By in A, W2. change (bpow radix2 (-50)) with eta in A. rewrite eta_u in A.
  set (w := fexp (Bopp x)) in *. set (y := exp (- X)) in *. assert (T : bpow radix2 (-1070) <= / 1000 * u) by (apply Rle_trans with (bpow radix2 (-10) * u); [unfold u; rewrite <- bpow_plus; apply bpow_le; lia|change (bpow radix2 (-10)) with (/ 1024); lra]).
  assert (UY : 0 <= u * y) by (apply Rmult_le_pos; lra). assert (UY2 : u * y <= / 1000 * y) by (apply Rmult_le_compat_r; lra).
  assert (W0 : 0 <= B2R w). { assert (N : number (Bopp x)) by (clear - Fy; destruct (Bopp x); try discriminate; reflexivity). destruct (exp_number _ (eg_ok _ He) (Bopp x) N) as [_ S]. fold w in S. clear - Fw S. destruct w as [t|t| |t m e b]; cbn in *; subst; try lra. apply F2R_ge_0. cbn. lia. }
  assert (B1 : bpow radix2 1 + 2 * bpow radix2 476 <= bpow radix2 1000).
  { apply Rle_trans with (bpow radix2 478); [|apply bpow_le; lia]. replace (bpow radix2 478) with (2 * bpow radix2 477) by (change 2 with (bpow radix2 1); rewrite <- bpow_plus; reflexivity). replace (bpow radix2 477) with (2 * bpow radix2 476) by (change 2 with (bpow radix2 1); rewrite <- bpow_plus; reflexivity). assert (bpow radix2 1 <= bpow radix2 476) by (apply bpow_le; lia). lra. }
  change (bpow radix2 1) with 2 in B1.
  destruct (fadd_rel f_one w one_finite Fw) as [Fz Z]; rewrite one_B2R in *; [rewrite Rabs_pos_eq by lra; lra|]. rewrite (Rabs_pos_eq (1 + B2R w)) in Z by lra. set (z := fadd f_one w) in *.
  assert (A' : Rabs (B2R w - y) <= 9 * (u * (1 + y))) by (rewrite Rmult_plus_distr_l; lra).
  assert (UZ : u * (1 + B2R w) <= u * (2 * (1 + y))) by (apply Rmult_le_compat_l; [lra|]; lra).
  assert (D : Rabs (B2R z - (1 + y)) <= 11 * u * (1 + y)). { replace (B2R z - (1 + y)) with ((B2R z - (1 + B2R w)) + (B2R w - y)) by ring. eapply Rle_trans; [apply Rabs_triang|]. lra. }
  pose proof (ln_ratio (B2R z) (1 + y) (11 * u) ltac:(lra) ltac:(lra) D) as R.
  assert (Z1 : 1 <= B2R z). { destruct (one_plus w) as [I|[_ I]]; [clear - Fw; destruct w; try discriminate; reflexivity| |fold z in I; rewrite I in Fz; discriminate|exact I]. assert (N : number (Bopp x)) by (clear - Fy; destruct (Bopp x); try discriminate; reflexivity). exact (proj2 (exp_number _ (eg_ok _ He) (Bopp x) N)). }
  split; [apply (log_finite _ (lg_ok _ Hl)); [exact Fz|lra]|].
  assert (S0 : 0 <= s). { unfold s. rewrite <- ln_1. destruct (Req_dec (1 + y) 1) as [Q|Q]; [fold y; rewrite Q; lra|left; apply ln_increasing; fold y; lra]. }
  assert (S1 : s <= 101).
  { unfold s. rewrite <- (ln_exp 101). assert (1 + y <= exp 101). { replace 101 with (100 + 1) by ring. rewrite exp_plus. pose proof (exp_ineq1 1 ltac:(lra)). pose proof (exp_ineq1 100 ltac:(lra)). assert (exp 100 * 2 <= exp 100 * exp 1) by (apply Rmult_le_compat_l; lra). lra. }
    destruct (Req_dec (1 + y) (exp 101)) as [Q|Q]; [fold y; rewrite Q; lra|left; apply ln_increasing; fold y; lra]. }
  split; [split; assumption|].
  pose proof (lg_close _ Hl z Fz ltac:(lra)) as G. change (bpow radix2 (-50)) with eta in G. rewrite eta_u in G. fold s in R. change (ln (1 + y)) with s in R.
  assert (LZ : Rabs (ln (B2R z)) <= s + 1). { replace (ln (B2R z)) with ((ln (B2R z) - s) + s) by ring. eapply Rle_trans; [apply Rabs_triang|]. rewrite (Rabs_pos_eq s) by exact S0. lra. }
  assert (UG : 8 * u * (1 + Rabs (ln (B2R z))) <= 8 * u * (s + 2)) by (apply Rmult_le_compat_l; lra).
  assert (US : 0 <= u * s) by (apply Rmult_le_pos; lra). replace (B2R (flog z) - s) with ((B2R (flog z) - ln (B2R z)) + (ln (B2R z) - s)) by ring. eapply Rle_trans; [apply Rabs_triang|]. lra.
Qed.
Lemma log_expit_softplus x : log_expit x = - ln (1 + exp (- x)).
Proof. unfold log_expit. pose proof (exp_pos (- x)). rewrite ln_Rinv by lra. reflexivity. Qed.
Lemma log_expit_low x : x <= -100 -> Rabs (x - log_expit x) <= 64 * u.
Proof.
  intros H. small_u. pose proof (exp_pos x) as P. pose proof (exp_pos (- x)) as P'.
  assert (E : log_expit x = x - ln (1 + exp x)).
  { rewrite log_expit_softplus. replace (1 + exp (- x)) with (exp (- x) * (1 + exp x)) by (rewrite Rmult_plus_distr_l, <- exp_plus; replace (- x + x) with 0 by ring; rewrite exp_0; ring). rewrite ln_mult, ln_exp by lra. ring. }
  rewrite E. replace (x - (x - ln (1 + exp x))) with (ln (1 + exp x)) by ring.
  assert (L0 : 0 <= ln (1 + exp x)) by (rewrite <- ln_1; left; apply ln_increasing; lra). rewrite Rabs_pos_eq by exact L0.
  assert (L1 : ln (1 + exp x) <= exp x). { rewrite <- (ln_exp (exp x)) at 2. left. apply ln_increasing; [lra|]. apply exp_ineq1. lra. }
  assert (X : exp x <= exp (-100)) by (destruct (Req_dec x (-100)) as [->|]; [lra|left; apply exp_increasing; lra]).
  assert (Y : exp (-100) <= 64 * u).
  { assert (Q : bpow radix2 47 <= exp 100).
    { apply Rle_trans with (exp 1 ^ 47). - rewrite (bpow_powerRZ radix2 47). change (IZR radix2) with 2. change 47%Z with (Z.of_nat 47). rewrite <- pow_powerRZ. apply pow_incr. pose proof (exp_ineq1 1 ltac:(lra)). lra.
      - rewrite <- Rpower_pow by apply exp_pos. unfold Rpower. rewrite ln_exp. left. apply exp_increasing. rewrite INR_IZR_INZ. cbn. lra. }
    change (-100) with (- (100)). rewrite exp_Ropp. replace (64 * u) with (/ bpow radix2 47) by (rewrite <- bpow_opp; change 64 with (bpow radix2 6); unfold u; rewrite <- bpow_plus; reflexivity). apply Rinv_le; [apply bpow_gt_0|exact Q]. }
  lra.
Qed.
Lemma log_v_finite (x : dbl) : is_finite x = true -> let v := f_log_v fexp flog x in
  is_finite v = true /\ B2R v <= 0 /\ Rabs (B2R v - log_expit (B2R x)) <= 64 * u * (1 + Rabs (log_expit (B2R x))) /\ (B2R x <= -100 -> B2R v = B2R x).
Proof using He Hl.
  intros F v. small_u. assert (N : number x) by (clear - F; destruct x; try discriminate; reflexivity).
  destruct (maximum_cases (softplus_f x) (softplus_cases x N)) as (FM & M0 & ME). unfold v, f_log_v. fold (softplus_f x). set (M := fmaximum (Bopp (softplus_f x)) f_m1e16) in *. rewrite fgt_m100 by exact F. pose proof (fle_m100 x F) as L.
  destruct (fle x f_m100); cbn [negb f_of_bool].
  - assert (X : B2R x <= -100) by (apply L; reflexivity). destruct (fmul_zero_r M FM) as [F1 E1]. destruct (fmul_one_r x F) as [F2 E2]. destruct (fadd_zero _ _ F1 F2 (or_introl E1)) as [F3 E3]. rewrite E1, E2, Rplus_0_l in E3.
    split; [exact F3|]. rewrite E3. split; [lra|]. split; [|reflexivity]. pose proof (log_expit_low _ X) as Q. pose proof (Rabs_pos (log_expit (B2R x))) as Q'. assert (0 <= u * Rabs (log_expit (B2R x))) by (apply Rmult_le_pos; lra). lra.
  - assert (X : -100 < B2R x) by (apply Rnot_le_lt; intros Q; apply L in Q; discriminate). destruct (fmul_one_r M FM) as [F1 E1]. destruct (fmul_zero_r x F) as [F2 E2]. destruct (fadd_zero _ _ F1 F2 (or_intror E2)) as [F3 E3]. rewrite E1, E2, Rplus_0_r in E3.
    split; [exact F3|]. rewrite E3. split; [exact M0|]. split; [|intros Q; lra]. destruct (softplus_close x F ltac:(lra)) as (Fs & S & C). cbv zeta in S, C. rewrite log_expit_softplus. set (s := ln (1 + exp (- B2R x))) in *. rewrite Rabs_Ropp, (Rabs_pos_eq s) by lra.
    assert (US : u * s <= u * 101) by (apply Rmult_le_compat_l; lra). assert (Sb : B2R (softplus_f x) <= 10000000000000000) by (apply Rabs_le_inv in C; lra). rewrite (ME Fs Sb). replace (- B2R (softplus_f x) - - s) with (- (B2R (softplus_f x) - s)) by ring. rewrite Rabs_Ropp. exact C.
Qed.
Lemma log_v_minf : f_log_v fexp flog f_ninf = f_ninf.
Proof using He Hl.
  destruct (maximum_cases (softplus_f f_ninf) (softplus_cases f_ninf eq_refl)) as (FM & _). unfold f_log_v. fold (softplus_f f_ninf). set (M := fmaximum (Bopp (softplus_f f_ninf)) f_m1e16) in *.
  change (fgt f_ninf f_m100) with false. change (fle f_ninf f_m100) with true. cbn [f_of_bool]. change (fmul f_ninf f_one) with f_ninf. destruct (fmul_zero_r M FM) as [F1 _]. destruct (fmul M fz) as [s|s| |s m e b]; try discriminate; reflexivity.
Qed.
Lemma log_v_pinf : f_log_v fexp flog f_inf = B754_nan.
Proof.
  unfold f_log_v. change (fle f_inf f_m100) with false. cbn [f_of_bool]. change (fmul f_inf fz) with (B754_nan : dbl). match goal with |- fadd ?a _ = _ => destruct a; reflexivity end.
Qed.
Lemma log_v_nan : f_log_v fexp flog B754_nan = B754_nan.
Proof. unfold f_log_v. change (fmul B754_nan (f_of_bool (fle B754_nan f_m100))) with (B754_nan : dbl). match goal with |- fadd ?a _ = _ => destruct a; reflexivity end. Qed.
End LogV.
