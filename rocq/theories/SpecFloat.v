(** Vocabulary for the floating-point properties: what is asked of numpy's exp and log, and nothing about the model.
    Doubles, their real value [B2R], [is_nan], [is_finite] and [Bsign] are Flocq's. *)
From Coq Require Import Reals ZArith List.
From Flocq Require Import Core BinarySingleNaN.
Import ListNotations.
Open Scope R_scope.

Notation double := (binary_float 53 1024).

(** "is a number": finite or infinite, not a NaN *)
Definition number (x : double) : Prop := is_nan x = false.

(** x <= y between numbers (false if either is a NaN): the usual order on the extended reals *)
Definition dle (x y : double) : Prop :=
  match x, y with
  | B754_nan, _ | _, B754_nan => False
  | B754_infinity true, _ => True
  | _, B754_infinity false => True
  | B754_infinity false, _ => False
  | _, B754_infinity true => False
  | _, _ => B2R x <= B2R y
  end.

(** What is asked of a library exponential: numbers go to non-negative numbers, the result overflows when exp x is
    far beyond the largest double, and up to 2^1000 it is finite and right to within a factor of two (or underflows).
    Any exp with an error of a few units in the last place satisfies this. *)
Record exp_ok (f : double -> double) : Prop := {
  exp_number : forall x, number x -> number (f x) /\ Bsign (f x) = false;
  exp_minf : f (B754_infinity true) = B754_zero false;
  exp_overflow : forall x, is_finite x = true -> bpow radix2 1025 <= exp (B2R x) -> f x = B754_infinity false;
  exp_accuracy : forall x, is_finite x = true -> exp (B2R x) <= bpow radix2 1000 ->
    is_finite (f x) = true /\ B2R (f x) <= 2 * exp (B2R x) /\ exp (B2R x) / 2 - bpow radix2 (-1000) <= B2R (f x)
}.

(** a library exponential that never decreases *)
Definition exp_monotone (f : double -> double) : Prop := forall x y, dle x y -> dle (f x) (f y).

(** What is asked of a library logarithm: non-negative numbers go to numbers, zero to -inf, the positive finite
    numbers to finite numbers. *)
Record log_ok (f : double -> double) : Prop := {
  log_number : forall x, dle (B754_zero false) x -> number (f x);
  log_zero : forall s, f (B754_zero s) = B754_infinity true;
  log_finite : forall x, is_finite x = true -> 0 < B2R x -> is_finite (f x) = true
}.

(** the binary64 rounding of a real number *)
Definition rnd64 (x : R) : R := round radix2 (FLT_exp (-1074) 53) ZnearestE x.

(** a free value of at most 300 (-inf included) *)
Definition moderate (v : double) : Prop := v = B754_infinity true \/ (is_finite v = true /\ B2R v <= 300).

(** a bound that is far from overflow *)
Definition bounded500 (x : double) : Prop := is_finite x = true /\ Rabs (B2R x) <= bpow radix2 500.
