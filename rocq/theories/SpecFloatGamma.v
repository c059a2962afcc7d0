(** Vocabulary for the special functions in double precision. *)
From Coq Require Import Reals ZArith List.
From Flocq Require Import Core BinarySingleNaN.
From Verif Require Import RSum SpecFloat SpecFloatAcc.
Import ListNotations.
Open Scope R_scope.

(** an argument of digamma and log gamma, far from overflow *)
Definition fair_arg (x : double) : Prop := is_finite x = true /\ bpow radix2 (-100) <= B2R x <= bpow radix2 100.
(** f computes the real function F to within 64 units of 2^-53 relative to 1 + |F|; F is not huge where it is used *)
Definition computes (f : double -> double) (F : R -> R) : Prop := forall x, fair_arg x ->
  Rabs (F (B2R x)) <= bpow radix2 200 /\ is_finite (f x) = true /\ Rabs (B2R (f x) - F (B2R x)) <= units 64 * (1 + Rabs (F (B2R x))).
(** the entropy of a gamma distribution with shape s and rate r, given log gamma and digamma, and the sizes of its terms *)
Definition gamma_entropy_of (lgam psi : R -> R) (s r : R) : R := s - ln r + lgam s + (1 - s) * psi s.
Definition gamma_entropy_size (lgam psi : R -> R) (s r : R) : R := 1 + s + Rabs (ln r) + Rabs (lgam s) + Rabs (1 - s) * (1 + Rabs (psi s)).
