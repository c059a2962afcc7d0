(** Vocabulary for priors of vectors in double precision. *)
From Coq Require Import Reals ZArith List.
From Flocq Require Import Core BinarySingleNaN.
From Verif Require Import RSum Nd SpecFloat SpecFloatAcc SpecFloatMatrix SpecFloatFam.
Import ListNotations.
Open Scope R_scope.

(** What is asked of the inner product of two rows: n rounding errors, in any order of the summation, fused or not *)
Definition dot_good (dot : list double -> list double -> double) : Prop := forall x y, length x = length y ->
  List.Forall (fun v => is_finite v = true) x -> List.Forall (fun v => is_finite v = true) y -> INR (length x) <= bpow radix2 20 -> inner_abs x y <= bpow radix2 990 ->
  is_finite (dot x y) = true /\ Rabs (B2R (dot x y) - inner x y) <= units (4 * INR (length x)) * inner_abs x y + INR (length x) * bpow radix2 (-1070).
(** entry (i, j) of a matrix with n columns *)
Definition cell (n : nat) (a : nd double) (i j : nat) : R := B2R (entry a (i * n + j)).
(** d' P d and the trace of P C, and the same with every number replaced by its absolute value *)
Definition quad_form (n : nat) (P : nat -> nat -> R) (d : nat -> R) : R := rsum n (fun i => d i * rsum n (fun j => P i j * d j)).
Definition trace_prod (n : nat) (P C : nat -> nat -> R) : R := rsum n (fun i => rsum n (fun j => P i j * C j i)).
Definition prior_size (n : nat) (P C : nat -> nat -> R) (d : nat -> R) : R :=
  quad_form n (fun i j => Rabs (P i j)) (fun i => Rabs (d i)) + trace_prod n (fun i j => Rabs (P i j)) (fun i j => Rabs (C i j)).
