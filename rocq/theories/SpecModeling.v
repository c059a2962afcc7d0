(** Vocabulary for Modeling.py. *)
From Coq Require Import Reals List Arith.
From Verif Require Import Res Num Nd RSum ModelNumpy SpecExpFam.
Import List ListNotations.
Open Scope R_scope.

(** log(1 + e^z) *)
Definition softplus (z : R) : R := ln (1 + exp z).
(** the log likelihood of an outcome y with log odds z *)
Definition logistic_loglik (y z : R) : R := y * z - softplus z.
(** a normal distribution with the mean and standard deviation, represented by n equally likely standard draws x *)
Definition draws_dist (n : nat) (x : nat -> R) (mu sd : R) : dist R := map (fun k => (/ INR n, sd * x k + mu)) (seq 0 n).
(** a quantile function that is finite inside (0, 1) and odd about 1/2, as the standard normal's is *)
Definition odd_quantile (ppf : num -> num) (q : R -> R) : Prop :=
  forall u, 0 < u < 1 -> ppf (Fin u) = Fin (q u) /\ q (1 - u) = - q u.
(** Gauss-Hermite approximation, with nodes x and weights w, to the expectation of f under a normal with the mean and standard deviation *)
Definition gh_expect_sd (m : nat) (w x : nat -> R) (mu sd : R) (f : R -> R) : R := / sqrt PI * rule m w x (fun t => f (sqrt 2 * sd * t + mu)).
