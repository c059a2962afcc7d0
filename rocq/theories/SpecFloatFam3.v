(** Vocabulary for the moments of exp of a normal variable in double precision. *)
From Coq Require Import Reals ZArith.
From Flocq Require Import Core BinarySingleNaN.
From Verif Require Import SpecFloat SpecFloatFam.
Open Scope R_scope.

(** mean m and information i such that exp is far from overflow and underflow *)
Definition tame (m i : double) : Prop := is_finite m = true /\ fair_info i /\ Rabs (B2R m) + 1 / B2R i <= 290.
(** the mean and the second moment of exp of a normal variable with mean mu and variance v *)
Definition lognormal_mean (mu v : R) : R := exp (mu + v / 2).
Definition lognormal_second (mu v : R) : R := exp (2 * mu + 2 * v).
(** the error in units of 2^-53: exp turns the rounding errors of its argument into relative ones *)
Definition exp_units (m i : double) : R := 10 + 3 * (Rabs (B2R m) + 1 / B2R i).
