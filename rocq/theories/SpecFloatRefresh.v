(** Vocabulary for setting a positive definite matrix parameter to its own free value in double precision. Nothing about the model. *)
From Coq Require Import Reals ZArith List.
From Flocq Require Import Core BinarySingleNaN.
From Verif Require Import RSum SpecFloat SpecFloatAcc SpecFloatMatrix.
Open Scope R_scope.

(** a symmetric matrix of finite numbers of at most 2^60 whose diagonal is at least 2^-800 above the bound *)
Definition tidy (n : nat) (lb : double) (M : nat -> nat -> double) : Prop :=
  forall i j, (i < n)%nat -> (j < n)%nat ->
    is_finite (M i j) = true /\ M i j = M j i /\ Rabs (B2R (M i j)) <= bpow radix2 60 /\ bpow radix2 (-800) <= B2R (M i i) - B2R lb.
(** the matrix without the bound is positive definite, and a little more: y^T (M - lb) y > 4 eps (sum_i root_i |y_i|)^2, where root_i is
    the square root of its diagonal entry *)
Definition diag_root (lb : double) (M : nat -> nat -> double) (i : nat) : R := sqrt (B2R (M i i) - B2R lb).
Definition well_inside (n : nat) (lb : double) (M : nat -> nat -> double) : Prop :=
  forall y : nat -> R, (exists i, (i < n)%nat /\ y i <> 0) ->
    4 * eps n * (rsum n (fun i => diag_root lb M i * Rabs (y i))) ^ 2
    < rsum n (fun i => rsum n (fun j => y i * (B2R (M i j) - (if Nat.eqb i j then B2R lb else 0)) * y j)).
(** how far the entry (i, j) may move, for roots r and free diagonal entries of size d *)
Definition moved (n : nat) (lb : R) (r d : nat -> R) (i j : nat) : R :=
  4 * eps n * (r i * r j * (2 + d i + d j + r i + r j) + r i * d j + d i * r j) + (if Nat.eqb i j then eps n * lb else 0)
  + 2 * (eps n * eps n) * (d i * d j) + bpow radix2 (-1000).
(** the free diagonal entries of such a matrix are at most this *)
Definition log_size (lb : double) (M : nat -> nat -> double) (i : nat) : R := 20 + Rabs (ln (diag_root lb M i)).
(** the matrix M was replaced by N *)
Definition near (n : nat) (lb : double) (d : nat -> R) (M N : nat -> nat -> double) : Prop :=
  forall i j, (i < n)%nat -> (j < n)%nat ->
    is_finite (N i j) = true /\ N i j = N j i /\ Rabs (B2R (N i j) - B2R (M i j)) <= moved n (B2R lb) (diag_root lb M) d i j.
