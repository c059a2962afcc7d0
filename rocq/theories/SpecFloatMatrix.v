(** Vocabulary for positive definite matrix parameters in double precision: what is asked of np.matmul and np.linalg.cholesky, the
    exact matrix that belongs to a free vector, and the errors allowed. Nothing about the model. *)
From Coq Require Import Reals ZArith List.
From Flocq Require Import Core BinarySingleNaN.
From Verif Require Import Res Nd RSum SpecFloat SpecFloatAcc.
Import ListNotations.
Open Scope R_scope.

Definition dzero : double := B754_zero false.
(** equal up to the sign of a zero *)
Definition same (x y : double) : Prop := x = y \/ exists s t, x = B754_zero s /\ y = B754_zero t.
(** 0 < x, x a finite number or +inf *)
Definition positive (x : double) : Prop := x = B754_infinity false \/ (is_finite x = true /\ 0 < B2R x).

(** the lower triangle of an n by n matrix in row order: row i starts at position i (i + 1) / 2 *)
Definition triangle (n : nat) : nat := (n * (n + 1) / 2)%nat.
Definition at_ld {A} (d : A) (x : list A) (i j : nat) : A := nth (i * (i + 1) / 2 + j) x d.

(** the real values of a list of doubles *)
Definition reals (x : list double) : list R := map B2R x.

(** the exact inner product of two lists of doubles, and that of the absolute values *)
Definition inner (x y : list double) : R := rsum (length x) (fun k => B2R (nth k x dzero) * B2R (nth k y dzero)).
Definition inner_abs (x y : list double) : R := rsum (length x) (fun k => Rabs (B2R (nth k x dzero) * B2R (nth k y dzero))).

(** What is asked of A @ A.T; [dot i j x y] is the entry (i, j) computed from the rows x and y of A: a symmetric result
    (numpy calls syrk for a matrix times its own transpose), zero where every product is zero, NaN where a NaN meets a NaN,
    and n rounding errors otherwise (any order of the summation, fused or not). *)
Record matmul_good (dot : nat -> nat -> list double -> list double -> double) : Prop := {
  mm_sym : forall i j x y, length x = length y -> List.Forall (fun v => is_finite v = true) x -> List.Forall (fun v => is_finite v = true) y ->
    dot i j x y = dot j i y x;
  mm_zero : forall i j x y, length x = length y -> List.Forall (fun v => is_finite v = true) x -> List.Forall (fun v => is_finite v = true) y ->
    (forall k, (k < length x)%nat -> B2R (nth k x dzero) * B2R (nth k y dzero) = 0) -> exists s, dot i j x y = B754_zero s;
  mm_nan : forall i j x y k, length x = length y -> (k < length x)%nat -> is_nan (nth k x dzero) = true -> is_nan (nth k y dzero) = true ->
    dot i j x y = B754_nan;
  mm_close : forall i j x y, length x = length y -> List.Forall (fun v => is_finite v = true) x -> List.Forall (fun v => is_finite v = true) y ->
    INR (length x) <= bpow radix2 20 -> inner_abs x y <= bpow radix2 990 ->
    is_finite (dot i j x y) = true /\
    Rabs (B2R (dot i j x y) - inner x y) <= units (4 * INR (length x)) * inner_abs x y + INR (length x) * bpow radix2 (-1070)
}.

(** What is asked of np.linalg.cholesky: a lower triangular factor with a positive diagonal; LinAlgError if the first diagonal entry
    is not positive; the first entry of the factor is the square root of the first entry, up to a few roundings; a positive
    1 by 1 matrix has a factor. *)
Record cholesky_good (chol : nd double -> res (nd double)) : Prop := {
  ch_shape : forall n A c, shape A = [n; n] -> chol A = Ok c -> shape c = [n; n] /\ nd_wf c;
  ch_lower : forall n A c i j, shape A = [n; n] -> chol A = Ok c -> (i < j)%nat -> (j < n)%nat -> mget dzero c i j = dzero;
  ch_diag : forall n A c i, shape A = [n; n] -> chol A = Ok c -> (i < n)%nat -> positive (mget dzero c i i);
  ch_fail : forall n A, shape A = [n; n] -> (0 < n)%nat -> ~ positive (mget dzero A 0 0) -> chol A = Raise LinAlgError;
  ch_first : forall n A c, shape A = [n; n] -> (0 < n)%nat -> chol A = Ok c -> is_finite (mget dzero A 0 0) = true ->
    is_finite (mget dzero c 0 0) = true /\
    Rabs (B2R (mget dzero c 0 0) - sqrt (B2R (mget dzero A 0 0))) <= units 8 * sqrt (B2R (mget dzero A 0 0));
  ch_one : forall A, shape A = [1%nat; 1%nat] -> is_finite (mget dzero A 0 0) = true -> 0 < B2R (mget dzero A 0 0) -> exists c, chol A = Ok c
}.

(** the factor that belongs to the free vector x: the entries below the diagonal as they are, exp of those on it *)
Definition factor (x : list R) (i k : nat) : R := if Nat.ltb k i then at_ld 0 x i k else if Nat.eqb k i then exp (at_ld 0 x i i) else 0.
(** factor times its transpose, plus lb on the diagonal *)
Definition exact_matrix (n : nat) (lb : R) (x : list R) (i j : nat) : R :=
  rsum n (fun k => factor x i k * factor x j k) + (if Nat.eqb i j then lb else 0).
(** the size of the numbers the factor is computed from: exp d + |d| on the diagonal *)
Definition size_of (x : list R) (i k : nat) : R := if Nat.eqb k i then exp (at_ld 0 x i i) + Rabs (at_ld 0 x i i) else Rabs (factor x i k).
(** the relative error of a sum of n products and a few more operations *)
Definition eps (n : nat) : R := units (4 * INR n + 32).
Definition matrix_error (n : nat) (lb : R) (x : list R) (i j : nat) : R :=
  eps n * (rsum n (fun k => Rabs (factor x i k) * size_of x j k + size_of x i k * Rabs (factor x j k)) + (if Nat.eqb i j then lb else 0))
  + eps n * eps n * rsum n (fun k => size_of x i k * size_of x j k) + bpow radix2 (-1040).

(** a free vector far from overflow: diagonal entries between -300 and 300, the others at most 2^400 *)
Definition calm_free (n : nat) (x : list double) : Prop := length x = triangle n /\
  (forall i, (i < n)%nat -> calm (at_ld dzero x i i)) /\
  (forall i j, (i < n)%nat -> (j < i)%nat -> is_finite (at_ld dzero x i j) = true /\ Rabs (B2R (at_ld dzero x i j)) <= bpow radix2 400).

(** how far the first free value may be from d when it comes back *)
Definition first_condition (lb d : R) : R := 1 + Rabs d * exp (- d) + lb * exp (- (2 * d)).
Definition first_error (n : nat) (lb d : R) : R := 8 * eps n * first_condition lb d + units 32 * (1 + Rabs d + exp d).

(** what set_vector keeps of the diagonal entry d: d itself, or the infinity of its sign if 2 d overflows *)
Definition kept (d : double) : double := if Rlt_bool (Rabs (B2R d)) (bpow radix2 1023) then d else B754_infinity (Bsign d).
