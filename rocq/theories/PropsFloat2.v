(** Property C106: construction of a vector parameter in IEEE-754 binary64 arithmetic. *)
From Coq Require Import Reals ZArith List Lra Lia.
From Flocq Require Import Core BinarySingleNaN.
From Verif Require Import Res SpecFloat ModelFloat LemmasFloat LemmasFloat2 LemmasFloat3 LemmasFloat4 LemmasFloat5 LemmasFloatDefault.
Import List ListNotations.
Open Scope R_scope.
Set Bullet Behavior "Strict Subproofs".

(** C106: which bounds and values the constructor accepts *)
Theorem C106_construction : forall n lb ub v0,
  (fvector_init n lb ub v0 = Raise AssertionError <-> is_nan lb = true \/ is_nan ub = true)
  /\ (fvector_init n lb ub v0 = Raise ValueError
      <-> number lb /\ number ub /\ (dle ub lb \/ exists v, v0 = Some v /\ length v <> n))
  /\ ((exists p, fvector_init n lb ub v0 = Ok p)
      <-> number lb /\ number ub /\ ~ dle ub lb /\ (forall v, v0 = Some v -> length v = n))
  /\ (forall p v, fvector_init n lb ub v0 = Ok p -> v0 = Some v -> fvector_get p = v).
Proof. exact vector_construct. Qed.
Print Assumptions C106_construction.
(** the default value with a lower bound only: lb + 1 rounded, never below the bound, and get_free returns numbers;
    they are finite for bounds in [-2^53, 2^53), while from 2^54 on the default is the bound and its free value -inf *)
Theorem C106_default_lower : forall flog, log_ok flog -> forall n lb, is_finite lb = true ->
  exists p w, fvector_init n lb f_inf None = Ok p /\ length (fvector_get p) = n
    /\ Forall (fun v => is_finite v = true /\ dle lb v /\ B2R v = rnd64 (B2R lb + 1)) (fvector_get p)
    /\ fvector_get_free flog p = Ok w /\ length w = n /\ Forall number w
    /\ (- bpow radix2 53 <= B2R lb < bpow radix2 53 -> Forall (fun v => is_finite v = true) w)
    /\ (bpow radix2 54 <= B2R lb -> fvector_get p = repeat lb n /\ w = repeat (B754_infinity true) n).
Proof. exact default_lower. Qed.
Print Assumptions C106_default_lower.
(** likewise with an upper bound only *)
Theorem C106_default_upper : forall flog, log_ok flog -> forall n ub, is_finite ub = true ->
  exists p w, fvector_init n f_ninf ub None = Ok p /\ length (fvector_get p) = n
    /\ Forall (fun v => is_finite v = true /\ dle v ub /\ B2R v = rnd64 (B2R ub - 1)) (fvector_get p)
    /\ fvector_get_free flog p = Ok w /\ length w = n /\ Forall number w
    /\ (- bpow radix2 53 < B2R ub <= bpow radix2 53 -> Forall (fun v => is_finite v = true) w)
    /\ (B2R ub <= - bpow radix2 54 -> fvector_get p = repeat ub n /\ w = repeat (B754_infinity false) n).
Proof. exact default_upper. Qed.
Print Assumptions C106_default_upper.
(** the default value between two finite bounds: half their difference, rounded; in exact arithmetic within the bounds: get_free returns numbers;
    get_free raises exactly if the rounded half difference is outside; bounds -ub and ub: the parameter starts on its upper bound, free value +inf *)
Theorem C106_default_both : forall flog, log_ok flog -> forall lb ub, bounded500 lb -> bounded500 ub -> bpow radix2 (-1000) <= B2R ub - B2R lb ->
  forall n, exists p, fvector_init n lb ub None = Ok p /\ length (fvector_get p) = n
    /\ Forall (fun v => is_finite v = true /\ B2R v = rnd64 (B2R ub - B2R lb) / 2) (fvector_get p)
    /\ (B2R lb <= (B2R ub - B2R lb) / 2 <= B2R ub -> exists w, fvector_get_free flog p = Ok w /\ length w = n /\ Forall number w)
    /\ ((0 < n)%nat -> fvector_get_free flog p = Raise ValueError <-> rnd64 (B2R ub - B2R lb) / 2 < B2R lb \/ B2R ub < rnd64 (B2R ub - B2R lb) / 2)
    /\ (B2R lb = - B2R ub -> fvector_get p = repeat ub n /\ fvector_get_free flog p = Ok (repeat (B754_infinity false) n)).
Proof. exact default_both. Qed.
Print Assumptions C106_default_both.
Lemma small_bounded z : (Z.abs z <= 8)%Z -> bounded500 (dint z).
Proof.
  intros H. split.
  - assert (Z : (z = -8 \/ z = -7 \/ z = -6 \/ z = -5 \/ z = -4 \/ z = -3 \/ z = -2 \/ z = -1 \/ z = 0 \/ z = 1 \/ z = 2 \/ z = 3 \/ z = 4 \/ z = 5 \/ z = 6 \/ z = 7 \/ z = 8)%Z) by lia.
    repeat (destruct Z as [->|Z]; [reflexivity|]). subst z. reflexivity.
  - rewrite dint_B2R by lia. rewrite <- abs_IZR. apply IZR_le in H. eapply Rle_trans; [exact H|]. replace 8 with (bpow radix2 3) by (cbn; lra). apply bpow_le. lia.
Qed.
(** -2 and 2: on the bound; 0 and 3: inside; 3 and 5: get_free raises *)
Example C106_both_example : bounded500 (dint (-2)) /\ bounded500 (dint 2) /\ B2R (dint (-2)) = - B2R (dint 2) /\ bpow radix2 (-1000) <= B2R (dint 2) - B2R (dint (-2)) /\
  B2R (dint 0) <= (B2R (dint 3) - B2R (dint 0)) / 2 <= B2R (dint 3) /\ rnd64 (B2R (dint 5) - B2R (dint 3)) / 2 < B2R (dint 3).
Proof.
  split; [apply small_bounded; lia|]. split; [apply small_bounded; lia|]. rewrite !dint_B2R by reflexivity. split; [reflexivity|]. split.
  - assert (bpow radix2 (-1000) <= 1); [|lra]. change 1 with (bpow radix2 0). apply bpow_le. lia.
  - split; [lra|]. replace (5 - 3) with (B2R (dint 2)) by (rewrite dint_B2R by reflexivity; ring). rewrite rnd64_id, dint_B2R by reflexivity. lra.
Qed.
Example C106_example : log_ok ideal_log /\ is_finite (dint (2 ^ 60)) = true /\ bpow radix2 54 <= B2R (dint (2 ^ 60)) /\
  is_finite (dint 3) = true /\ - bpow radix2 53 <= B2R (dint 3) < bpow radix2 53.
Proof.
  split; [exact ideal_log_ok|]. split; [reflexivity|]. split.
  - replace (B2R (dint (2 ^ 60))) with (bpow radix2 60); [apply bpow_le; lia|]. cbn. unfold F2R. cbn. lra.
  - split; [reflexivity|]. rewrite dint_B2R by reflexivity. cbn. lra.
Qed.
