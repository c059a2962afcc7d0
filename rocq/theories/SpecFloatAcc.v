(** Vocabulary for the accuracy of scalar, vector and array parameters in double precision: which free values and bounds are far from
    overflow and underflow, the exact transforms, and the errors allowed. Nothing about the model. *)
From Coq Require Import Reals ZArith List.
From Flocq Require Import Core BinarySingleNaN.
From Verif Require Import SpecFloat.
Import ListNotations.
Open Scope R_scope.

(** k units of 2^-53, the rounding error of one operation *)
Definition units (k : R) : R := k * bpow radix2 (-53).
(** the larger of two absolute values *)
Definition magnitude (a b : R) : R := Rmax (Rabs a) (Rabs b).

(** a free value between -300 and 300 *)
Definition calm (v : double) : Prop := is_finite v = true /\ Rabs (B2R v) <= 300.
(** the bounds: each is infinite or at most 2^500 in absolute value; if both are finite, they are at least 2^-500 apart *)
Definition good_bounds (lb ub : double) : Prop :=
  (lb = B754_infinity true \/ bounded500 lb) /\ (ub = B754_infinity false \/ bounded500 ub) /\
  (bounded500 lb -> bounded500 ub -> bpow radix2 (-500) <= B2R ub - B2R lb).

(** lb + (ub - lb) / (1 + exp(-x)) *)
Definition logistic_value (lb ub x : R) : R := lb + (ub - lb) * (exp x / (1 + exp x)).
(** the exact value that belongs to the free value x *)
Definition exact_value (lb ub : double) (x : R) : R :=
  match lb, ub with
  | B754_infinity _, B754_infinity _ => x
  | _, B754_infinity _ => B2R lb + exp x
  | B754_infinity _, _ => B2R ub - exp (- x)
  | _, _ => logistic_value (B2R lb) (B2R ub) x
  end.
(** how far the stored value may be from it: a few units of its distance from the bound, and one unit of its own size *)
Definition value_error (lb ub : double) (x : R) : R :=
  match lb, ub with
  | B754_infinity _, B754_infinity _ => 0
  | _, B754_infinity _ => units 10 * exp x + units 1 * Rabs (exact_value lb ub x)
  | B754_infinity _, _ => units 10 * exp (- x) + units 1 * Rabs (exact_value lb ub x)
  | _, _ => units 28 * (exact_value lb ub x - B2R lb) + units 1 * Rabs (exact_value lb ub x)
  end.

(** the size of the bounds relative to the distance of the value from the nearer of them *)
Definition condition (lb ub : double) (x : R) : R :=
  match lb, ub with
  | B754_infinity _, B754_infinity _ => 0
  | _, B754_infinity _ => Rabs (B2R lb) / exp x
  | B754_infinity _, _ => Rabs (B2R ub) / exp (- x)
  | _, _ => magnitude (B2R lb) (B2R ub) * (1 + exp (Rabs x)) / (B2R ub - B2R lb)
  end.
(** how far the free value that comes back may be from x *)
Definition free_error (lb ub : double) (x : R) : R :=
  match lb, ub with
  | B754_infinity _, B754_infinity _ => 0
  | B754_infinity _, _ | _, B754_infinity _ => units 64 * (1 + Rabs x + condition lb ub x)
  | _, _ => units 320 * (condition lb ub x + Rabs (ln (B2R ub - B2R lb)) + Rabs x)
  end.

(** a stored value whose distances from the finite bounds are moderate *)
Definition interior (lb ub v : double) : Prop := is_finite v = true /\
  match lb, ub with
  | B754_infinity _, B754_infinity _ => True
  | _, B754_infinity _ => bpow radix2 (-400) <= B2R v - B2R lb <= bpow radix2 400
  | B754_infinity _, _ => bpow radix2 (-400) <= B2R ub - B2R v <= bpow radix2 400
  | _, _ => bpow radix2 (-200) <= B2R v - B2R lb <= bpow radix2 200 /\ bpow radix2 (-200) <= B2R ub - B2R v <= bpow radix2 200
  end.
(** how far the value may move when its own free value is set *)
Definition refresh_error (lb ub : double) (v : R) : R :=
  match lb, ub with
  | B754_infinity _, B754_infinity _ => 0
  | _, B754_infinity _ => units 33 * (1 + Rabs (ln (v - B2R lb))) * (v - B2R lb) + units 1 * Rabs v
  | B754_infinity _, _ => units 33 * (1 + Rabs (ln (B2R ub - v))) * (B2R ub - v) + units 1 * Rabs v
  | _, _ => units 40 * (2 + Rabs (ln (v - B2R lb)) + Rabs (ln (B2R ub - v))) * (v - B2R lb) + units 1 * Rabs v
  end.

(** the stored value r belongs to the free value x; the free value w came back for x; the value v was replaced by r *)
Definition value_close (lb ub x r : double) : Prop := is_finite r = true /\ Rabs (B2R r - exact_value lb ub (B2R x)) <= value_error lb ub (B2R x).
Definition free_close (lb ub x w : double) : Prop := is_finite w = true /\ Rabs (B2R w - B2R x) <= free_error lb ub (B2R x).
Definition refresh_close (lb ub v r : double) : Prop := is_finite r = true /\ Rabs (B2R r - B2R v) <= refresh_error lb ub (B2R v).
(** a free value for which the bounds are not too large: the relative error 2^-53 of the value leaves 13 bits of the free value *)
Definition well_conditioned (lb ub x : double) : Prop := condition lb ub (B2R x) <= bpow radix2 40.
