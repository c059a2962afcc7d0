(** Properties C100-C104: free values of vector parameters computed in IEEE-754 binary64 arithmetic. *)
From Coq Require Import Reals ZArith List Lra Lia.
From Flocq Require Import Core BinarySingleNaN.
From Verif Require Import Res SpecFloat ModelFloat LemmasFloat LemmasFloat2 LemmasFloat3 LemmasFloat4.
Import List ListNotations.
Open Scope R_scope.
Set Bullet Behavior "Strict Subproofs".

(** exp and log rounded to the nearest double meet the contracts assumed below *)
Example libm_contracts_met : exp_ok ideal_exp /\ exp_monotone ideal_exp /\ log_ok ideal_log.
Proof. split; [exact ideal_exp_ok|]. split; [exact ideal_exp_monotone|exact ideal_log_ok]. Qed.

(** C100: with a finite lower bound only, set_free never leaves the bounds and get_free returns numbers *)
Theorem C100_lower_bound : forall fexp flog, exp_ok fexp -> log_ok flog -> forall n lb v0 p x,
  is_finite lb = true -> fvector_init n lb f_inf v0 = Ok p -> length x = n -> Forall number x ->
  exists p' w, fvector_set_free fexp p x = Ok p' /\ length (fvector_get p') = n /\ Forall (dle lb) (fvector_get p')
    /\ fvector_get_free flog p' = Ok w /\ length w = n /\ Forall number w.
Proof. exact lower_safe. Qed.
Print Assumptions C100_lower_bound.
Theorem C100_monotone : forall fexp, exp_ok fexp -> forall n lb v0 p x y, exp_monotone fexp ->
  is_finite lb = true -> fvector_init n lb f_inf v0 = Ok p -> length x = n -> length y = n -> Forall2 dle x y ->
  exists px py, fvector_set_free fexp p x = Ok px /\ fvector_set_free fexp p y = Ok py
    /\ Forall2 dle (fvector_get px) (fvector_get py).
Proof. exact lower_monotone. Qed.
Print Assumptions C100_monotone.
(** with the bound 0 the only errors are those of exp and log *)
Theorem C100_zero_bound : forall (fexp flog : dbl -> dbl), exp_ok fexp -> forall n s v0 p x p',
  fvector_init n (B754_zero s) f_inf v0 = Ok p -> length x = n -> Forall number x ->
  fvector_set_free fexp p x = Ok p' ->
  fvector_get p' = map fexp x /\ fvector_get_free flog p' = Ok (map (fun v => flog (fexp v)) x).
Proof. exact zero_lower_free. Qed.
Print Assumptions C100_zero_bound.
(** with the bound 1, a free value of -40 or less gives the bound itself, and -inf comes back *)
Theorem C100_absorbed : forall (fexp flog : dbl -> dbl) n v0 p x i v, exp_ok fexp -> log_ok flog ->
  fvector_init n f_one f_inf v0 = Ok p -> length x = n -> Forall number x ->
  nth_error x i = Some v -> is_finite v = true -> B2R v <= -40 ->
  exists p' w, fvector_set_free fexp p x = Ok p' /\ nth_error (fvector_get p') i = Some f_one
    /\ fvector_get_free flog p' = Ok w /\ nth_error w i = Some (B754_infinity true).
Proof. exact absorbed_lower. Qed.
Print Assumptions C100_absorbed.
Example C100_example : exists p p', fvector_init 2 (dint 3) f_inf None = Ok p /\ fvector_init 1 f_one f_inf None = Ok p' /\
  Forall number [dint (-50); B754_infinity true : dbl] /\ Forall2 dle [dint (-50); B754_infinity true : dbl] [dint 2; dint 1]
  /\ B2R (dint (-50)) <= -40.
Proof.
  destruct (fvector_init_default 2 (dint 3) f_inf) as [p Q]; [vm_compute; reflexivity..|].
  destruct (fvector_init_default 1 f_one f_inf) as [p' Q']; [vm_compute; reflexivity..|].
  exists p, p'. split; [exact Q|]. split; [exact Q'|]. split; [repeat constructor|].
  rewrite dint_B2R by reflexivity. split; [|lra].
  constructor; [|constructor; [exact I|constructor]]. apply dle_finite; [reflexivity|reflexivity|].
  rewrite !dint_B2R by reflexivity. lra.
Qed.

(** C101: with a finite upper bound only, likewise *)
Theorem C101_upper_bound : forall fexp flog, exp_ok fexp -> log_ok flog -> forall n ub v0 p x,
  is_finite ub = true -> fvector_init n f_ninf ub v0 = Ok p -> length x = n -> Forall number x ->
  exists p' w, fvector_set_free fexp p x = Ok p' /\ length (fvector_get p') = n
    /\ Forall (fun v => dle v ub) (fvector_get p')
    /\ fvector_get_free flog p' = Ok w /\ length w = n /\ Forall number w.
Proof. exact upper_safe. Qed.
Print Assumptions C101_upper_bound.
Theorem C101_monotone : forall fexp, exp_ok fexp -> forall n ub v0 p x y, exp_monotone fexp ->
  is_finite ub = true -> fvector_init n f_ninf ub v0 = Ok p -> length x = n -> length y = n -> Forall2 dle x y ->
  exists px py, fvector_set_free fexp p x = Ok px /\ fvector_set_free fexp p y = Ok py
    /\ Forall2 dle (fvector_get px) (fvector_get py).
Proof. exact upper_monotone. Qed.
Print Assumptions C101_monotone.
Example C101_example : exists p, fvector_init 2 f_ninf (dint 3) None = Ok p.
Proof. apply fvector_init_default; vm_compute; reflexivity. Qed.

(** C102: two finite bounds and free values up to 300: the values are finite, at least lb, and at most the rounding of
    ub plus 2^-51 times the width; if the width is a power of two they are at most ub and get_free returns numbers *)
Theorem C102_values : forall fexp, exp_ok fexp -> forall lb ub, bounded500 lb -> bounded500 ub -> B2R lb < B2R ub ->
  forall n v0 p x, fvector_init n lb ub v0 = Ok p -> length x = n -> Forall moderate x ->
  bpow radix2 (-1022) <= B2R ub - B2R lb ->
  exists p', fvector_set_free fexp p x = Ok p' /\ length (fvector_get p') = n
    /\ Forall (fun v => is_finite v = true /\ B2R lb <= B2R v <= rnd64 (B2R ub + (B2R ub - B2R lb) * bpow radix2 (-51)))
         (fvector_get p').
Proof. exact two_sided_values. Qed.
Print Assumptions C102_values.
Theorem C102_power_of_two_width : forall fexp flog, exp_ok fexp -> log_ok flog ->
  forall lb ub, bounded500 lb -> bounded500 ub -> B2R lb < B2R ub ->
  forall n v0 p x k, fvector_init n lb ub v0 = Ok p -> length x = n -> Forall moderate x ->
  (-1022 <= k)%Z -> B2R ub - B2R lb = bpow radix2 k ->
  exists p' w, fvector_set_free fexp p x = Ok p' /\ length (fvector_get p') = n
    /\ Forall (fun v => is_finite v = true /\ B2R lb <= B2R v <= B2R ub) (fvector_get p')
    /\ fvector_get_free flog p' = Ok w /\ length w = n /\ Forall number w.
Proof. exact two_sided_pow. Qed.
Print Assumptions C102_power_of_two_width.
Example C102_example : bounded500 (dint (-1)) /\ bounded500 (dint 1) /\ B2R (dint 1) - B2R (dint (-1)) = bpow radix2 1 /\
  (exists p, fvector_init 2 (dint (-1)) (dint 1) None = Ok p) /\ Forall moderate [dint 250; B754_infinity true : dbl].
Proof.
  assert (A : 1 <= bpow radix2 500) by (change 1 with (bpow radix2 0); apply bpow_le; lia).
  unfold bounded500. rewrite !dint_B2R by reflexivity. repeat split.
  - rewrite Rabs_left; lra.
  - rewrite Rabs_pos_eq; lra.
  - cbn. lra.
  - apply fvector_init_default; vm_compute; reflexivity.
  - constructor; [right; split; [reflexivity|rewrite dint_B2R by reflexivity; lra]|].
    constructor; [left; reflexivity|constructor].
Qed.

(** C103: where two finite bounds fail. A free value of 711 or more becomes NaN and get_free raises; *)
Theorem C103_overflow_nan : forall (fexp flog : dbl -> dbl) n lb ub v0 p x i v, exp_ok fexp ->
  is_finite lb = true -> is_finite ub = true -> fvector_init n lb ub v0 = Ok p -> length x = n ->
  nth_error x i = Some v -> is_finite v = true -> 711 <= B2R v ->
  exists p', fvector_set_free fexp p x = Ok p' /\ nth_error (fvector_get p') i = Some B754_nan
    /\ fvector_get_free flog p' = Raise ValueError.
Proof. exact overflow_nan. Qed.
Print Assumptions C103_overflow_nan.
(** with the bounds -0.7 and 0.3, every free value between 40 and 300 gives a value above 0.3, and get_free raises *)
Theorem C103_upper_bound_passed : forall (fexp flog : dbl -> dbl) n lb ub v0 p x i v, exp_ok fexp ->
  is_finite lb = true -> B2R lb = rnd64 (-7 / 10) -> is_finite ub = true -> B2R ub = rnd64 (3 / 10) ->
  fvector_init n lb ub v0 = Ok p -> length x = n ->
  nth_error x i = Some v -> is_finite v = true -> 40 <= B2R v <= 300 ->
  exists p' r, fvector_set_free fexp p x = Ok p' /\ nth_error (fvector_get p') i = Some r
    /\ is_finite r = true /\ B2R ub < B2R r /\ fvector_get_free flog p' = Raise ValueError.
Proof. exact above_upper_any. Qed.
Print Assumptions C103_upper_bound_passed.
Example C103_example : exists p lb ub, is_finite lb = true /\ B2R lb = rnd64 (-7 / 10) /\ is_finite ub = true /\
  B2R ub = rnd64 (3 / 10) /\ fvector_init 1 lb ub None = Ok p /\ is_finite (dint 1000) = true /\ 711 <= B2R (dint 1000) /\
  is_finite (dint 50) = true /\ 40 <= B2R (dint 50) <= 300.
Proof.
  destruct (fvector_init_default 1 d07 d03) as [p Q]; [vm_compute; reflexivity..|].
  exists p, d07, d03. split; [reflexivity|]. split; [exact d07_B2R|]. split; [reflexivity|].
  split; [exact d03_B2R|]. split; [exact Q|].
  rewrite (dint_B2R 1000), (dint_B2R 50) by reflexivity. repeat split; lra.
Qed.

(** C104: get_free returns exactly when every entry is a number between the bounds; without bounds it returns what
    set_free was given, bit for bit *)
Theorem C104_get_free_domain : forall (flog : dbl -> dbl) n lb ub v0 p vals q, fvector_init n lb ub v0 = Ok p -> fvector_set p vals = Ok q ->
  ((exists w, fvector_get_free flog q = Ok w) <-> Forall (fun v => dle lb v /\ dle v ub) vals)
  /\ (fvector_get_free flog q = Raise ValueError <-> ~ Forall (fun v => dle lb v /\ dle v ub) vals).
Proof. exact get_free_raises_iff. Qed.
Print Assumptions C104_get_free_domain.
Theorem C104_unbounded : forall (fexp flog : dbl -> dbl) n v0 p x p', fvector_init n f_ninf f_inf v0 = Ok p -> length x = n ->
  fvector_set_free fexp p x = Ok p' ->
  fvector_get p' = x
  /\ (Forall number x -> fvector_get_free flog p' = Ok x)
  /\ (~ Forall number x -> fvector_get_free flog p' = Raise ValueError).
Proof. exact unbounded_free. Qed.
Print Assumptions C104_unbounded.
Example C104_example : exists p q, fvector_init 2 (dint 3) (dint 5) None = Ok p /\
  fvector_set p [dint 4; B754_nan] = Ok q /\ fvector_init 2 f_ninf f_inf None = Ok (mkFV 2 f_ninf f_inf [B754_zero false; B754_zero false]).
Proof.
  destruct (fvector_init_default 2 (dint 3) (dint 5)) as [p Q]; [vm_compute; reflexivity..|].
  exists p. destruct (fvector_init_fields _ _ _ _ _ Q) as (A & _). unfold fvector_set. rewrite A. eexists.
  split; [exact Q|]. split; reflexivity.
Qed.
