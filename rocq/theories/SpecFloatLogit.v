(** Vocabulary for the logit-normal expectations in double precision. *)
From Coq Require Import Reals ZArith.
From Flocq Require Import Core BinarySingleNaN.
From Verif Require Import SpecFloat RSum.
Open Scope R_scope.

(** ln of the logistic function 1 / (1 + exp(-x)) *)
Definition log_expit (x : R) : R := ln (/ (1 + exp (- x))).
(** the exact value of a quadrature rule with the n points x and weights w, for a function of a normal variable with mean mu and information L *)
Definition point (x mu L : R) : R := sqrt 2 * x / sqrt L + mu.
Definition quadrature (n : nat) (x w : nat -> R) (f : R -> R) (mu L : R) : R := rsum n (fun j => w j * f (point (x j) mu L)) / sqrt PI.
(** the sizes of the points, weighted *)
Definition spread (n : nat) (x w : nat -> R) (mu L : R) : R := rsum n (fun j => w j * (1 + Rabs (sqrt 2 * x j / sqrt L) + Rabs mu)).
(** finite doubles far from overflow: quadrature points and weights, means and informations *)
Definition fair_node (x : double) : Prop := is_finite x = true /\ Rabs (B2R x) <= bpow radix2 100.
Definition fair_weight (x : double) : Prop := is_finite x = true /\ 0 <= B2R x <= bpow radix2 100.
Definition fair_center (x : double) : Prop := is_finite x = true /\ Rabs (B2R x) <= bpow radix2 390.
Definition fair_scale (x : double) : Prop := is_finite x = true /\ bpow radix2 (-400) <= B2R x <= bpow radix2 400.
