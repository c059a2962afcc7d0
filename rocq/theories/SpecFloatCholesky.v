(** Vocabulary for the round trip of all free values of a positive definite matrix parameter in double precision. Nothing about the
    model. *)
From Coq Require Import Reals ZArith List.
From Flocq Require Import Core BinarySingleNaN.
From Verif Require Import Res Nd RSum SpecFloat SpecFloatAcc SpecFloatMatrix.
Import ListNotations.
Open Scope R_scope.

(** The backward error of np.linalg.cholesky: the factor of a symmetric matrix of finite numbers (far from overflow) has finite
    entries and is, entry by entry, the exact factor of a matrix within a few units of |c| |c|^T; the second term is underflow. *)
Definition cholesky_close (chol : nd double -> res (nd double)) : Prop :=
  forall n A c, shape A = [n; n] -> INR n <= bpow radix2 20 ->
    (forall i j, (i < n)%nat -> (j < n)%nat ->
       is_finite (mget dzero A i j) = true /\ Rabs (B2R (mget dzero A i j)) <= bpow radix2 980 /\ mget dzero A i j = mget dzero A j i) ->
    chol A = Ok c ->
    forall i j, (j <= i)%nat -> (i < n)%nat ->
      is_finite (mget dzero c i j) = true /\
      Rabs (rsum n (fun k => B2R (mget dzero c i k) * B2R (mget dzero c j k)) - B2R (mget dzero A i j))
      <= eps n * rsum n (fun k => Rabs (B2R (mget dzero c i k) * B2R (mget dzero c j k))) + bpow radix2 (-1040) * (1 + B2R (mget dzero c j j)).

(** T is the inverse of the n by n matrix L *)
Definition inverse_matrix (n : nat) (L T : nat -> nat -> R) : Prop :=
  forall i j, (i < n)%nat -> (j < n)%nat ->
    rsum n (fun k => L i k * T k j) = (if Nat.eqb i j then 1 else 0) /\ rsum n (fun k => T i k * L k j) = (if Nat.eqb i j then 1 else 0).

(** the diagonal entries of the exact matrix without the bound, with their error *)
Definition scale (n : nat) (lb : R) (x : list R) (i : nat) : R := exact_matrix n 0 x i i + matrix_error n lb x i i.
(** the error of the matrix whose exact factor get_free reads: that of set_free, and that of the factorisation *)
Definition back_error (n : nat) (lb : R) (x : list R) (i j : nat) : R :=
  matrix_error n lb x i j + 2 * eps n * sqrt (scale n lb x i * scale n lb x j).
(** g bounds that error relative to the factor: |T| back_error |T|^T, where T is the inverse of the factor *)
Definition relative_error (n : nat) (lb : R) (x : list R) (g : R) : Prop :=
  exists T, inverse_matrix n (factor x) T /\
    forall i j, (i < n)%nat -> (j < n)%nat -> rsum n (fun k => rsum n (fun l => Rabs (T i k) * back_error n lb x k l * Rabs (T j l))) <= g.

(** np.linalg.cholesky has a result if the matrix is far enough from a singular one: y^T A y > 3 eps (sum_i sqrt(A_ii) |y_i|)^2 for
    every vector y except zero (diagonal entries that do not underflow). *)
Definition cholesky_succeeds (chol : nd double -> res (nd double)) : Prop :=
  forall n A, shape A = [n; n] -> INR n <= bpow radix2 20 ->
    (forall i j, (i < n)%nat -> (j < n)%nat ->
       is_finite (mget dzero A i j) = true /\ Rabs (B2R (mget dzero A i j)) <= bpow radix2 980 /\ mget dzero A i j = mget dzero A j i) ->
    (forall i, (i < n)%nat -> bpow radix2 (-960) <= B2R (mget dzero A i i)) ->
    (forall y : nat -> R, (exists i, (i < n)%nat /\ y i <> 0) ->
       3 * eps n * (rsum n (fun i => sqrt (B2R (mget dzero A i i)) * Rabs (y i))) ^ 2
       < rsum n (fun i => rsum n (fun j => y i * B2R (mget dzero A i j) * y j))) ->
    exists c, chol A = Ok c.
