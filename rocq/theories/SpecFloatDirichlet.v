(** Vocabulary for the Dirichlet distribution in double precision. *)
From Coq Require Import Reals ZArith.
From Flocq Require Import Core BinarySingleNaN.
From Verif Require Import SpecFloat SpecFloatAcc.
Open Scope R_scope.

(** a parameter for which the sum of 2^20 of them is an argument of digamma far from overflow *)
Definition fair_alpha (x : double) : Prop := is_finite x = true /\ bpow radix2 (-99) <= B2R x <= bpow radix2 79.
(** a small relative change of the argument changes the function by little; so it is for digamma, whose derivative is at most 1/x + 1/x^2 *)
Definition steady (F : R -> R) : Prop := forall x y g, 0 < x -> 0 <= g <= / 1000 -> Rabs (y - x) <= g * x -> Rabs (F y - F x) <= 4 * g * (1 + / x).
