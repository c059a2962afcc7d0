(** Vocabulary for expectations by quadrature in double precision. *)
From Coq Require Import Reals ZArith.
From Flocq Require Import Core BinarySingleNaN.
From Verif Require Import SpecFloat SpecFloatAcc.
Open Scope R_scope.

(** fn computes the function g with an error of 64 units; g changes no faster than its argument *)
Definition integrand (fn : double -> double) (g : R -> R) : Prop :=
  (forall s t, Rabs (g s - g t) <= Rabs (s - t)) /\ (forall t, Rabs (g t) <= 1 + Rabs t) /\
  (forall x, is_finite x = true -> is_finite (fn x) = true /\ Rabs (B2R (fn x) - g (B2R x)) <= units 64 * (1 + Rabs (g (B2R x)))).
(** the logistic function, and what is asked of a library version of it *)
Definition logistic (x : R) : R := / (1 + exp (- x)).
Definition expit_good (f : double -> double) : Prop :=
  forall x, is_finite x = true -> is_finite (f x) = true /\ 0 <= B2R (f x) <= 1 /\ Rabs (B2R (f x) - logistic (B2R x)) <= units 8.
