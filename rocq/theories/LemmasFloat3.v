(** Two-sided vector parameters over binary64, the cases that leave the interval, and correctly rounded exp and log. *)
From Coq Require Import Reals ZArith List Lra Lia Psatz Bool.
From Flocq Require Import Core BinarySingleNaN Relative Plus_error Mult_error.
From Verif Require Import Res SpecFloat ModelFloat LemmasFloat LemmasFloat2.
Import ListNotations.
Set Bullet Behavior "Strict Subproofs".
Open Scope R_scope.

#[local] Existing Instance P53.
#[local] Existing Instance V53.
#[local] Existing Instance M53.

Lemma fle_false_lt (ub lb : dbl) : is_finite lb = true -> is_finite ub = true -> fle ub lb = false -> B2R lb < B2R ub.
Proof.
  intros Fl Fu H. destruct (Rlt_or_le (B2R lb) (B2R ub)) as [A|A]; [exact A|].
  apply (fle_finite ub lb Fu Fl) in A. congruence.
Qed.

Section TwoSided.
Context (fexp flog : dbl -> dbl) (HE : exp_ok fexp) (HL : log_ok flog).
Context (lb ub : dbl) (Hl : bounded500 lb) (Hu : bounded500 ub) (L : B2R lb < B2R ub).

Lemma bl : - bpow radix2 500 <= B2R lb.
Proof. destruct Hl as [_ A]. apply Rabs_le_inv in A. lra. Qed.
Lemma bu : B2R ub <= bpow radix2 500.
Proof. destruct Hu as [_ A]. apply Rabs_le_inv in A. lra. Qed.

Lemma both_entry v : moderate v ->
  let r := f_constrain_entry fexp v lb ub in
  is_finite r = true /\ B2R lb <= B2R r
  /\ (bpow radix2 (-1022) <= B2R ub - B2R lb -> B2R r <= rnd64 (B2R ub + (B2R ub - B2R lb) * bpow radix2 (-51)))
  /\ (forall k, (-1022 <= k)%Z -> B2R ub - B2R lb = bpow radix2 k -> B2R r <= B2R ub).
Proof.
  intros M. destruct Hl as [Fl _], Hu as [Fu _]. destruct (exp_moderate _ _ HE M) as (Fe & Se & E0 & E1).
  cbv zeta. rewrite constrain_both by assumption. pose proof bl as Bl. pose proof bu as Bu.
  destruct (both_r lb ub (fexp v) Fl Fu Fe L Se E1 Bl Bu) as (A & _ & B).
  split; [exact A|]. split; [exact B|]. split.
  - intros W. apply both_upper_slack; assumption.
  - intros k K W. eapply both_upper_pow; eassumption.
Qed.

Lemma two_sided_values n v0 p x : fvector_init n lb ub v0 = Ok p -> length x = n -> Forall moderate x ->
  bpow radix2 (-1022) <= B2R ub - B2R lb ->
  exists p', fvector_set_free fexp p x = Ok p' /\ length (fvector_get p') = n
    /\ Forall (fun v => is_finite v = true /\ B2R lb <= B2R v <= rnd64 (B2R ub + (B2R ub - B2R lb) * bpow radix2 (-51)))
         (fvector_get p').
Proof.
  intros H E N W. rewrite (set_free_ok fexp _ _ _ _ _ _ H E). eexists. split; [reflexivity|].
  cbn [fvector_get fv_val]. rewrite map_length; split; [exact E|]. eapply Forall_map_of; [|exact N].
  intros a Ma. destruct (both_entry a Ma) as (A & B & C & _). auto.
Qed.

(** v - lb vanishes only at the bound *)
Lemma fsub_zero_iff (a b : dbl) : is_finite a = true -> is_finite b = true -> B2R b < B2R a ->
  Rabs (B2R a - B2R b) <= bpow radix2 501 -> is_finite (fsub a b) = true /\ 0 < B2R (fsub a b).
Proof.
  intros Fa Fb Lt W. destruct (fsub_cases a b Fa Fb) as [(A & E & F & S)|(A & E & S)].
  - split; [exact F|]. rewrite E. pose proof (rnd64_nonneg (B2R a - B2R b) ltac:(lra)) as G.
    destruct G as [G|G]; [exact G|exfalso].
    apply (round_plus_neq_0 radix2 (FLT_exp (-1074) 53) ZnearestE (B2R a) (- B2R b)).
    + exact (generic_format_B2R 53 1024 a).
    + apply generic_format_opp. exact (generic_format_B2R 53 1024 b).
    + lra.
    + symmetry. exact G.
  - exfalso. pose proof (rnd64_fin _ 501 ltac:(lia) W). lra.
Qed.

Lemma fsub_self (a b : dbl) : is_finite a = true -> is_finite b = true -> B2R a = B2R b ->
  exists s, fsub a b = B754_zero s.
Proof.
  intros Fa Fb Q. destruct (fsub_cases a b Fa Fb) as [(A & E & F & S)|(A & E & S)].
  - rewrite Q, Rminus_diag_eq, rnd64_0 in E by reflexivity.
    destruct (fsub a b) as [s|s| |s m x B]; try discriminate; [eauto|].
    exfalso. cbn in E. apply eq_0_F2R in E. destruct s; discriminate.
  - exfalso. rewrite Q, Rminus_diag_eq, rnd64_0, Rabs_R0 in A by reflexivity. pose proof (bpow_gt_0 radix2 1024). lra.
Qed.

Lemma both_free_number v : is_finite v = true -> B2R lb <= B2R v <= B2R ub ->
  number (f_unconstrain_entry flog v lb ub).
Proof.
  intros Fv [V1 V2]. destruct Hl as [Fl _], Hu as [Fu _]. rewrite unconstrain_both by assumption.
  pose proof bl as Bl. pose proof bu as Bu. pose proof bp501 as B5.
  assert (HA : (exists s, fsub v lb = B754_zero s) \/ (is_finite (flog (fsub v lb)) = true)).
  { destruct V1 as [V1|V1].
    - right. destruct (fsub_zero_iff v lb Fv Fl V1) as [A B]; [rewrite Rabs_pos_eq; lra|].
      apply (log_finite _ HL); assumption.
    - left. apply fsub_self; auto. }
  assert (HB : (exists s, fsub ub v = B754_zero s) \/ (is_finite (flog (fsub ub v)) = true)).
  { destruct V2 as [V2|V2].
    - right. destruct (fsub_zero_iff ub v Fu Fv V2) as [A B]; [rewrite Rabs_pos_eq; lra|].
      apply (log_finite _ HL); assumption.
    - left. apply fsub_self; auto. }
  destruct V1 as [V1|V1].
  - destruct HA as [[s HA]|HA].
    { exfalso. destruct (fsub_zero_iff v lb Fv Fl V1) as [A B]; [rewrite Rabs_pos_eq; lra|]. rewrite HA in B. cbn in B. lra. }
    destruct HB as [[t HB]|HB].
    + rewrite HB, (log_zero _ HL). destruct (flog (fsub v lb)) as [[]|[]| |[] m x B]; try discriminate; reflexivity.
    + destruct (fsub_cases _ _ HA HB) as [(_ & _ & F & _)|(_ & E & _)]; [apply finite_number; exact F|rewrite E; reflexivity].
  - destruct HB as [[t HB]|HB].
    { exfalso. destruct (fsub_zero_iff ub v Fu Fv ltac:(lra)) as [A B]; [rewrite Rabs_pos_eq; lra|]. rewrite HB in B. cbn in B. lra. }
    destruct HA as [[s HA]|HA].
    + rewrite HA, (log_zero _ HL). destruct (flog (fsub ub v)) as [[]|[]| |[] m x B]; try discriminate; reflexivity.
    + destruct (fsub_cases _ _ HA HB) as [(_ & _ & F & _)|(_ & E & _)]; [apply finite_number; exact F|rewrite E; reflexivity].
Qed.

Lemma two_sided_pow n v0 p x k : fvector_init n lb ub v0 = Ok p -> length x = n -> Forall moderate x ->
  (-1022 <= k)%Z -> B2R ub - B2R lb = bpow radix2 k ->
  exists p' w, fvector_set_free fexp p x = Ok p' /\ length (fvector_get p') = n
    /\ Forall (fun v => is_finite v = true /\ B2R lb <= B2R v <= B2R ub) (fvector_get p')
    /\ fvector_get_free flog p' = Ok w /\ length w = n /\ Forall number w.
Proof.
  intros H E N K W. rewrite (set_free_ok fexp _ _ _ _ _ _ H E). do 2 eexists. split; [reflexivity|].
  cbn [fvector_get fv_val]. rewrite map_length; split; [exact E|]. destruct Hl as [Fl _], Hu as [Fu _].
  destruct (fvector_init_fields _ _ _ _ _ H) as (_ & _ & _ & C & _).
  assert (G : Forall (fun v => is_finite v = true /\ B2R lb <= B2R v <= B2R ub)
                (map (fun v => f_constrain_entry fexp v lb ub) x)).
  { eapply Forall_map_of; [|exact N]. intros a Ma. destruct (both_entry a Ma) as (A & B & _ & D).
    split; [exact A|]. split; [exact B|]. exact (D k K W). }
  split; [exact G|]. rewrite get_free_ok; cbn [fvector_get fv_val fv_lb fv_ub].
  - split; [reflexivity|]. split; [rewrite !map_length; exact E|]. eapply Forall_map_of; [|exact G].
    cbn. intros a [A B]. apply both_free_number; assumption.
  - exact C.
  - eapply Forall_impl; [|exact G]. cbn. intros a [A B]. split; apply dle_finite; tauto.
Qed.
End TwoSided.

(** ** Free values whose exponential overflows *)
Lemma both_width_pos (lb ub : dbl) : is_finite lb = true -> is_finite ub = true -> B2R lb < B2R ub ->
  fmul (fsub ub lb) f_inf = f_inf.
Proof.
  intros Fl Fu L. destruct (fsub_cases ub lb Fu Fl) as [(A & E & F & S)|(A & E & S)].
  - specialize (S ltac:(lra)).
    assert (P : B2R (fsub ub lb) <> 0).
    { rewrite E. apply (round_plus_neq_0 radix2 (FLT_exp (-1074) 53) ZnearestE (B2R ub) (- B2R lb)).
      - exact (generic_format_B2R 53 1024 ub).
      - apply generic_format_opp. exact (generic_format_B2R 53 1024 lb).
      - lra. }
    destruct (fsub ub lb) as [[]|[]| |[] m x B]; try discriminate; try reflexivity; cbn in P; lra.
  - rewrite E. destruct (Bsign ub) eqn:Sv; [exfalso|reflexivity].
    assert (B2R ub <= 0). { destruct ub as [s|s| |s m e B]; cbn in *; try lra. subst s. apply F2R_le_0. cbn. lia. }
    assert (0 <= B2R lb). { apply sign_false_nonneg. destruct (Bsign lb); cbn in S; congruence. }
    lra.
Qed.

Lemma not_dle_nan (x : double) : ~ dle x B754_nan.
Proof. destruct x as [[]|[]| |[] m e B]; cbn; auto. Qed.

Lemma overflow_nan (fexp flog : dbl -> dbl) n lb ub v0 p x i v : exp_ok fexp ->
  is_finite lb = true -> is_finite ub = true -> fvector_init n lb ub v0 = Ok p -> length x = n ->
  nth_error x i = Some v -> is_finite v = true -> 711 <= B2R v ->
  exists p', fvector_set_free fexp p x = Ok p' /\ nth_error (fvector_get p') i = Some B754_nan
    /\ fvector_get_free flog p' = Raise ValueError.
Proof.
  intros HE Fl Fu H E I Fv B. destruct (fvector_init_fields _ _ _ _ _ H) as (_ & _ & _ & C & _).
  pose proof (fle_false_lt _ _ Fl Fu C) as L.
  rewrite (set_free_ok fexp _ _ _ _ _ _ H E). eexists. split; [reflexivity|]. cbn [fvector_get fv_val].
  assert (Q : f_constrain_entry fexp v lb ub = B754_nan).
  { rewrite constrain_both by assumption.
    rewrite (exp_overflow _ HE v Fv) by (apply Rle_trans with (exp 711); [exact exp_711|apply exp_le'; exact B]).
    change (B754_infinity false : dbl) with f_inf. rewrite both_width_pos by assumption.
    change (fdiv f_inf (fadd f_one f_inf)) with (B754_nan : dbl). destruct lb as [[]|[]| |[] m e B']; reflexivity. }
  assert (J : nth_error (map (fun v => f_constrain_entry fexp v lb ub) x) i = Some B754_nan).
  { erewrite map_nth_error by exact I. rewrite Q. reflexivity. }
  split; [exact J|].
  apply get_free_iff; [exact C|]. cbn [fvector_get fv_val fv_lb fv_ub]. intros G. rewrite Forall_forall in G.
  destruct (G _ (nth_error_In _ _ J)) as [G1 _]. exact (not_dle_nan _ G1).
Qed.

Lemma one_lt_1024 : 1 < bpow radix2 1024.
Proof. change 1 with (bpow radix2 0). apply bpow_lt. lia. Qed.

(** ** Large elements absorb 1 *)
Lemma rnd64_absorb (e t : R) : generic_format radix2 (FLT_exp (-1074) 53) e -> bpow radix2 54 <= e -> 0 <= t <= 1 ->
  rnd64 (t + e) = e.
Proof.
  intros F B T. pose proof (bpow_gt_0 radix2 54) as P. apply Rle_antisym.
  - unfold rnd64. apply round_N_le_midp; auto with typeclass_instances. rewrite succ_eq_pos by lra.
    assert (U : 4 <= ulp radix2 (FLT_exp (-1074) 53) e).
    { apply Rle_trans with (ulp radix2 (FLT_exp (-1074) 53) (bpow radix2 54)).
      - rewrite ulp_bpow. cbn. lra.
      - apply ulp_le_pos; auto with typeclass_instances. apply bpow_ge_0. }
    lra.
  - rewrite <- (rnd64_format e F) at 1. apply rnd64_le. lra.
Qed.

Lemma rnd64_absorb_one (t : R) : 0 <= t <= bpow radix2 (-54) -> rnd64 (t + 1) = 1.
Proof.
  intros T. assert (F : generic_format radix2 (FLT_exp (-1074) 53) 1).
  { change 1 with (bpow radix2 0). apply generic_format_FLT_bpow; [exact P53|lia]. }
  apply Rle_antisym.
  - unfold rnd64. apply round_N_le_midp; auto with typeclass_instances. rewrite succ_eq_pos by lra.
    replace (ulp radix2 (FLT_exp (-1074) 53) 1) with (bpow radix2 (-52)).
    + assert (bpow radix2 (-52) = 4 * bpow radix2 (-54)).
      { replace (bpow radix2 (-52)) with (bpow radix2 2 * bpow radix2 (-54)) by (rewrite <- bpow_plus; reflexivity).
        reflexivity. }
      pose proof (bpow_gt_0 radix2 (-54)). lra.
    + change 1 with (bpow radix2 0). rewrite ulp_bpow. reflexivity.
  - rewrite <- (rnd64_format 1 F) at 1. apply rnd64_le. lra.
Qed.

Lemma exp_large fexp v : exp_ok fexp -> is_finite v = true -> 40 <= B2R v <= 300 ->
  is_finite (fexp v) = true /\ Bsign (fexp v) = false /\ bpow radix2 54 <= B2R (fexp v) <= bpow radix2 500.
Proof.
  intros HE F [B1 B2]. destruct (exp_moderate fexp v HE (or_intror (conj F B2))) as (A & S & _ & C).
  repeat split; auto. destruct (exp_accuracy _ HE v F) as (_ & _ & D).
  - apply Rle_trans with (bpow radix2 476); [|apply bpow_le; lia]. apply Rle_trans with (2 := exp_300).
    apply exp_le'. exact B2.
  - pose proof (exp_le' _ _ B1) as X. pose proof exp_40 as Y.
    assert (Z0 : bpow radix2 57 = 8 * bpow radix2 54).
    { replace (bpow radix2 57) with (bpow radix2 3 * bpow radix2 54) by (rewrite <- bpow_plus; reflexivity). reflexivity. }
    assert (Z1 : bpow radix2 (-1000) <= bpow radix2 54) by (apply bpow_le; lia).
    pose proof (bpow_gt_0 radix2 54). lra.
Qed.

Lemma exp_small fexp v : exp_ok fexp -> is_finite v = true -> B2R v <= -40 ->
  is_finite (fexp v) = true /\ Bsign (fexp v) = false /\ 0 <= B2R (fexp v) <= bpow radix2 (-54).
Proof.
  intros HE F B. assert (B3 : B2R v <= 300) by lra.
  destruct (exp_moderate fexp v HE (or_intror (conj F B3))) as (A & S & C & _).
  repeat split; auto. pose proof (exp_le' _ _ B) as X. pose proof exp_40 as Y.
  replace (-40) with (- (40)) in X by lra. rewrite exp_Ropp in X.
  assert (Z0 : / exp 40 <= bpow radix2 (-57)).
  { change (-57)%Z with (Z.opp 57). rewrite bpow_opp. apply Rinv_le; [apply bpow_gt_0|exact Y]. }
  assert (Z1 : bpow radix2 (-54) = 8 * bpow radix2 (-57)).
  { replace (bpow radix2 (-54)) with (bpow radix2 3 * bpow radix2 (-57)) by (rewrite <- bpow_plus; reflexivity). reflexivity. }
  destruct (exp_accuracy _ HE v F) as (_ & D & _).
  - apply Rle_trans with (bpow radix2 (-57)); [lra|]. apply bpow_le. lia.
  - pose proof (bpow_gt_0 radix2 (-57)). lra.
Qed.

(** ** A natural interval whose upper bound is passed: (-0.7, 0.3) *)
Definition dint (z : Z) : dbl := binary_normalize 53 1024 prec53 emax1024 mode_NE z 0 false.
Definition d07 : dbl := fdiv (dint (-7)) (dint 10).
Definition d03 : dbl := fdiv (dint 3) (dint 10).

Lemma width_07_03 : fsub d03 d07 = f_one.
Proof. apply B2SF_inj. vm_compute. reflexivity. Qed.
Lemma above_03 : fle (fadd f_one d07) d03 = false.
Proof. vm_compute. reflexivity. Qed.

Lemma fmul_one (e : dbl) : is_finite e = true -> Bsign e = false -> fmul f_one e = e.
Proof.
  intros F S. assert (E : rnd64 (B2R f_one * B2R e) = B2R e) by (rewrite one_B2R, Rmult_1_l; apply rnd64_id).
  destruct (fmul_cases f_one e eq_refl F) as [(A & B & C & D)|(A & B)].
  - rewrite E in B. apply B2R_Bsign_inj; auto. rewrite D, S. reflexivity.
  - rewrite E in A. pose proof (abs_B2R_lt e). lra.
Qed.

Lemma fadd_one_absorb (e : dbl) : is_finite e = true -> Bsign e = false -> bpow radix2 54 <= B2R e -> fadd f_one e = e.
Proof.
  intros F S B. pose proof (bpow_gt_0 radix2 54) as P.
  assert (E : rnd64 (B2R f_one + B2R e) = B2R e).
  { rewrite one_B2R. apply rnd64_absorb; [exact (generic_format_B2R 53 1024 e)|exact B|lra]. }
  destruct (fadd_cases f_one e eq_refl F) as [(A & C & D & G)|(A & C & D)].
  - rewrite E in C. apply B2R_Bsign_inj; auto. rewrite G, S; [reflexivity|rewrite one_B2R; lra].
  - rewrite E in A. pose proof (abs_B2R_lt e). lra.
Qed.

Lemma fdiv_self (e : dbl) : is_finite e = true -> Bsign e = false -> 0 < B2R e -> fdiv e e = f_one.
Proof.
  intros F S P. assert (E : rnd64 (B2R e / B2R e) = 1).
  { unfold Rdiv. rewrite Rinv_r by lra. rewrite <- one_B2R. apply rnd64_id. }
  destruct (fdiv_cases e e F ltac:(lra)) as [(A & C & D & G)|(A & C)].
  - rewrite E in C. apply B2R_Bsign_inj; auto.
    + rewrite C. symmetry. apply one_B2R.
    + rewrite G, S. reflexivity.
  - rewrite E, Rabs_R1 in A. pose proof one_lt_1024. lra.
Qed.

Lemma above_upper (fexp flog : dbl -> dbl) n v0 p x i v : exp_ok fexp ->
  fvector_init n d07 d03 v0 = Ok p -> length x = n ->
  nth_error x i = Some v -> is_finite v = true -> 40 <= B2R v <= 300 ->
  exists p' r, fvector_set_free fexp p x = Ok p' /\ nth_error (fvector_get p') i = Some r
    /\ is_finite r = true /\ B2R d03 < B2R r /\ fvector_get_free flog p' = Raise ValueError.
Proof.
  intros HE H E I Fv B. destruct (fvector_init_fields _ _ _ _ _ H) as (_ & _ & _ & C & _).
  rewrite (set_free_ok fexp _ _ _ _ _ _ H E). exists (mkFV n d07 d03 (map (fun v => f_constrain_entry fexp v d07 d03) x)).
  exists (fadd f_one d07). split; [reflexivity|]. cbn [fvector_get fv_val].
  assert (Q : f_constrain_entry fexp v d07 d03 = fadd f_one d07).
  { rewrite constrain_both by reflexivity. destruct (exp_large fexp v HE Fv B) as (F & S & G1 & G2).
    pose proof (bpow_gt_0 radix2 54). rewrite width_07_03, fmul_one, fadd_one_absorb, fdiv_self; auto. lra. }
  assert (J : nth_error (map (fun v => f_constrain_entry fexp v d07 d03) x) i = Some (fadd f_one d07)).
  { erewrite map_nth_error by exact I. rewrite Q. reflexivity. }
  split; [exact J|]. assert (Fr : is_finite (fadd f_one d07) = true) by (vm_compute; reflexivity).
  split; [exact Fr|]. split; [apply fle_false_lt; [reflexivity|exact Fr|exact above_03]|].
  apply get_free_iff; [exact C|]. cbn [fvector_get fv_val fv_lb fv_ub]. intros G. rewrite Forall_forall in G.
  destruct (G _ (nth_error_In _ _ J)) as [_ G1]. apply fle_dle in G1. rewrite above_03 in G1. discriminate.
Qed.

(** ** A lower bound of one absorbs small exponentials *)
Lemma absorbed_lower (fexp flog : dbl -> dbl) n v0 p x i v : exp_ok fexp -> log_ok flog ->
  fvector_init n f_one f_inf v0 = Ok p -> length x = n -> Forall number x ->
  nth_error x i = Some v -> is_finite v = true -> B2R v <= -40 ->
  exists p' w, fvector_set_free fexp p x = Ok p' /\ nth_error (fvector_get p') i = Some f_one
    /\ fvector_get_free flog p' = Ok w /\ nth_error w i = Some (B754_infinity true).
Proof.
  intros HE HL H E N I Fv B. rewrite (set_free_ok fexp _ _ _ _ _ _ H E). do 2 eexists. split; [reflexivity|].
  cbn [fvector_get fv_val].
  assert (Q : f_constrain_entry fexp v f_one f_inf = f_one).
  { rewrite constrain_lower by reflexivity. destruct (exp_small fexp v HE Fv B) as (F & S & G1 & G2).
    assert (R1 : rnd64 (B2R (fexp v) + B2R f_one) = 1) by (rewrite one_B2R; apply rnd64_absorb_one; lra).
    destruct (fadd_cases (fexp v) f_one F eq_refl) as [(A & C & D & G)|(A & C & D)].
    - rewrite R1 in C. apply B2R_Bsign_inj; auto.
      + rewrite C. symmetry. apply one_B2R.
      + rewrite G; [reflexivity|rewrite one_B2R; lra].
    - rewrite R1, Rabs_R1 in A. pose proof one_lt_1024. lra. }
  assert (J : nth_error (map (fun v => f_constrain_entry fexp v f_one f_inf) x) i = Some f_one).
  { erewrite map_nth_error by exact I. rewrite Q. reflexivity. }
  split; [exact J|]. rewrite get_free_ok; cbn [fvector_get fv_val fv_lb fv_ub].
  - split; [reflexivity|]. erewrite map_nth_error by exact J. rewrite unconstrain_lower by reflexivity.
    change (fsub f_one f_one) with (B754_zero false : dbl). rewrite (log_zero _ HL). reflexivity.
  - reflexivity.
  - eapply Forall_map_of; [|exact N]. intros a Na. exact (lower_entry fexp HE a f_one Na eq_refl).
Qed.

(** ** No bounds *)
Lemma unbounded_free (fexp flog : dbl -> dbl) n v0 p x p' : fvector_init n f_ninf f_inf v0 = Ok p -> length x = n ->
  fvector_set_free fexp p x = Ok p' ->
  fvector_get p' = x
  /\ (Forall number x -> fvector_get_free flog p' = Ok x)
  /\ (~ Forall number x -> fvector_get_free flog p' = Raise ValueError).
Proof.
  intros H L E. rewrite (set_free_ok fexp _ _ _ _ _ _ H L) in E. injection E as <-.
  assert (Q : map (fun v => f_constrain_entry fexp v f_ninf f_inf) x = x).
  { rewrite <- (map_id x) at 2. apply map_ext. reflexivity. }
  rewrite Q. cbn [fvector_get fv_val]. split; [reflexivity|].
  assert (X : Forall number x <-> Forall (fun v => dle f_ninf v /\ dle v f_inf) x).
  { rewrite !Forall_forall. split; intros A a Ia.
    - split; [apply dle_minf|apply dle_inf]; auto.
    - destruct (A a Ia) as [A1 _]. apply (dle_number _ _ A1). }
  split; intros G.
  - rewrite get_free_ok; cbn [fvector_get fv_val fv_lb fv_ub]; [|reflexivity|apply X; exact G].
    f_equal. rewrite <- (map_id x) at 2. apply map_ext. reflexivity.
  - apply get_free_iff; [reflexivity|]. cbn [fvector_get fv_val fv_lb fv_ub]. rewrite <- X. exact G.
Qed.

Lemma get_free_raises_iff (flog : dbl -> dbl) n lb ub v0 p vals q :
  fvector_init n lb ub v0 = Ok p -> fvector_set p vals = Ok q ->
  ((exists w, fvector_get_free flog q = Ok w) <-> Forall (fun v => dle lb v /\ dle v ub) vals)
  /\ (fvector_get_free flog q = Raise ValueError <-> ~ Forall (fun v => dle lb v /\ dle v ub) vals).
Proof.
  intros H S. destruct (fvector_init_fields _ _ _ _ _ H) as (_ & A & B & C & _).
  unfold fvector_set in S. destruct (Nat.eqb _ _); [|discriminate]. injection S as <-. rewrite A, B.
  exact (get_free_iff flog (mkFV (fv_size p) lb ub vals) C).
Qed.

Lemma dint_B2R z : (Z.abs z < 2 ^ 53)%Z -> B2R (dint z) = IZR z.
Proof.
  intros H. assert (F : F2R (Float radix2 z 0) = IZR z) by (unfold F2R; cbn; ring).
  assert (E : rnd64 (IZR z) = IZR z).
  { apply rnd64_format. apply generic_format_FLT. exists (Float radix2 z 0); [symmetry; exact F|exact H|cbn; lia]. }
  pose proof (@binary_normalize_correct 53 1024 prec53 emax1024 mode_NE z 0 false) as C. cbv zeta in C.
  rewrite F in C. change (round radix2 (SpecFloat.fexp 53 1024) (round_mode mode_NE) (IZR z)) with (rnd64 (IZR z)) in C.
  rewrite E in C. rewrite Rlt_bool_true in C; [apply C|].
  rewrite <- abs_IZR. apply Rlt_trans with (IZR (2 ^ 53)); [apply IZR_lt; exact H|].
  change (IZR (2 ^ 53)) with (bpow radix2 53). apply bpow_lt. lia.
Qed.

Lemma d07_B2R : B2R d07 = rnd64 (-7 / 10).
Proof.
  assert (A : B2R (dint (-7)) = -7) by (apply dint_B2R; reflexivity). assert (B : B2R (dint 10) = 10) by (apply dint_B2R; reflexivity).
  destruct (fdiv_cases (dint (-7)) (dint 10) eq_refl ltac:(lra)) as [(_ & E & _)|(G & _)].
  - fold d07 in E. rewrite E, A, B. reflexivity.
  - exfalso. rewrite A, B in G. pose proof (rnd64_fin (-7 / 10) 0 ltac:(lia)) as H.
    assert (X : Rabs (-7 / 10) <= bpow radix2 0) by (cbn; rewrite Rabs_left; lra). specialize (H X). lra.
Qed.
Lemma d03_B2R : B2R d03 = rnd64 (3 / 10).
Proof.
  assert (A : B2R (dint 3) = 3) by (apply dint_B2R; reflexivity). assert (B : B2R (dint 10) = 10) by (apply dint_B2R; reflexivity).
  destruct (fdiv_cases (dint 3) (dint 10) eq_refl ltac:(lra)) as [(_ & E & _)|(G & _)].
  - fold d03 in E. rewrite E, A, B. reflexivity.
  - exfalso. rewrite A, B in G. pose proof (rnd64_fin (3 / 10) 0 ltac:(lia)) as H.
    assert (X : Rabs (3 / 10) <= bpow radix2 0) by (cbn; rewrite Rabs_pos_eq; lra). specialize (H X). lra.
Qed.

Lemma B2R_eq_nonzero (x y : dbl) : is_finite x = true -> is_finite y = true -> B2R x = B2R y -> B2R y <> 0 -> x = y.
Proof.
  intros Fx Fy E N. apply B2R_inj; [| |exact E].
  - rewrite <- E in N. destruct x as [s|s| |s m e B]; try discriminate; [cbn in N; lra|reflexivity].
  - destruct y as [s|s| |s m e B]; try discriminate; [cbn in N; lra|reflexivity].
Qed.

Lemma above_upper_any (fexp flog : dbl -> dbl) n lb ub v0 p x i v : exp_ok fexp ->
  is_finite lb = true -> B2R lb = rnd64 (-7 / 10) -> is_finite ub = true -> B2R ub = rnd64 (3 / 10) ->
  fvector_init n lb ub v0 = Ok p -> length x = n ->
  nth_error x i = Some v -> is_finite v = true -> 40 <= B2R v <= 300 ->
  exists p' r, fvector_set_free fexp p x = Ok p' /\ nth_error (fvector_get p') i = Some r
    /\ is_finite r = true /\ B2R ub < B2R r /\ fvector_get_free flog p' = Raise ValueError.
Proof.
  intros HE Fl El Fu Eu. rewrite <- d07_B2R in El. rewrite <- d03_B2R in Eu.
  assert (N7 : fle (B754_zero false) d07 = false) by (vm_compute; reflexivity).
  assert (N3 : fle d03 (B754_zero false) = false) by (vm_compute; reflexivity).
  apply (fle_false_lt (B754_zero false) d07 eq_refl eq_refl) in N7. cbn [B2R] in N7.
  apply (fle_false_lt d03 (B754_zero false) eq_refl eq_refl) in N3. cbn [B2R] in N3.
  rewrite (B2R_eq_nonzero lb d07 Fl eq_refl El) by lra. rewrite (B2R_eq_nonzero ub d03 Fu eq_refl Eu) by lra.
  apply above_upper. exact HE.
Qed.
