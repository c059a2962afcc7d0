(** Vocabulary for simplex parameters in double precision: how accurate exp and log have to be, in which order numbers
    may be added up, and the exact probabilities. Nothing about the model. *)
From Coq Require Import Reals ZArith List Permutation.
From Flocq Require Import Core BinarySingleNaN.
From Verif Require Import RSum SpecFloat.
Import ListNotations.
Open Scope R_scope.

(** the double 1 *)
Definition done : double := @Bone 53 1024 eq_refl eq_refl.

(** A good library exponential: exact at 0, at most 1 on negative numbers, NaN to NaN, infinity to infinity, relative
    error 2^-50 where the true value is at most 2^1000 (absolute error 2^-1070 on top, for underflow), zero where the
    true value is below 2^-1080. *)
Record exp_good (f : double -> double) : Prop := {
  eg_ok : exp_ok f;
  eg_le_one : forall x, dle x (B754_zero false) -> dle (f x) done;
  eg_inf : f (B754_infinity false) = B754_infinity false;
  eg_zero : forall s, f (B754_zero s) = done;
  eg_nan : f B754_nan = B754_nan;
  eg_close : forall x, is_finite x = true -> exp (B2R x) <= bpow radix2 1000 ->
    Rabs (B2R (f x) - exp (B2R x)) <= bpow radix2 (-50) * exp (B2R x) + bpow radix2 (-1070);
  eg_underflow : forall x, is_finite x = true -> exp (B2R x) <= bpow radix2 (-1080) -> f x = B754_zero false
}.

(** A good library logarithm: not negative from 1 on, infinite at infinity, error at most 2^-50 relative to 1 + |ln x|. *)
Record log_good (f : double -> double) : Prop := {
  lg_ok : log_ok f;
  lg_nonneg : forall x, dle done x -> dle (B754_zero false) (f x);
  lg_inf : f (B754_infinity false) = B754_infinity false;
  lg_close : forall x, is_finite x = true -> 0 < B2R x ->
    Rabs (B2R (f x) - ln (B2R x)) <= bpow radix2 (-50) * (1 + Rabs (ln (B2R x)))
}.

(** [s] is a floating-point sum of the numbers in [l], added in some order and with some bracketing *)
Inductive sum_of : list double -> double -> Prop :=
| sum_nil : sum_of [] (B754_zero false)
| sum_one x : sum_of [x] x
| sum_add l l1 l2 a b : Permutation l (l1 ++ l2) -> sum_of l1 a -> sum_of l2 b ->
    sum_of l (@Bplus 53 1024 eq_refl eq_refl mode_NE a b).

(** np.sum: some order and bracketing, which may depend on the numbers *)
Definition sums (f : list double -> double) : Prop := forall l, sum_of l (f l).

(** the exact probability number k of the simplex with free values [y]; the first category is the reference *)
Definition softmax (y : list R) (k : nat) : R := exp (nth k (0 :: y) 0) / lsum (map exp (0 :: y)).

(** a double that is finite or -inf *)
Definition not_up (x : double) : Prop := number x /\ x <> B754_infinity false.

(** a finite double between 0 and 1 *)
Definition unit_interval (x : double) : Prop := is_finite x = true /\ 0 <= B2R x <= 1.
