(** Independent vocabulary for matrices: symmetry, positive definiteness, triangularity. *)
From Coq Require Import Reals List Arith.
From Verif Require Import Res Num Nd RSum.
Import List ListNotations.
Open Scope R_scope.

Definition symmetric (n : nat) (A : nat -> nat -> R) : Prop :=
  forall i j, (i < n)%nat -> (j < n)%nat -> A i j = A j i.
(** x' A x *)
Definition quad (n : nat) (A : nat -> nat -> R) (x : nat -> R) : R :=
  rsum n (fun i => rsum n (fun j => x i * A i j * x j)).
Definition posdef (n : nat) (A : nat -> nat -> R) : Prop :=
  forall x, (exists i, (i < n)%nat /\ x i <> 0) -> 0 < quad n A x.
(** A - lb * I *)
Definition shifted (A : nat -> nat -> R) (lb : R) (i j : nat) : R := A i j - (if Nat.eqb i j then lb else 0).
Definition lower_triangular {A} (zero : A) (n : nat) (M : nat -> nat -> A) : Prop :=
  forall i j, (i < j)%nat -> (j < n)%nat -> M i j = zero.
(** the number of entries of an n by n lower triangle *)
Definition tri (n : nat) : nat := (n * (n + 1) / 2)%nat.
(** the array is the n by n matrix with the given finite entries *)
Definition fmat (n : nat) (A : nat -> nat -> R) : nd num := mk_mat n n (fun i j => Fin (A i j)).
(** the finite 1-d array with entries x *)
Definition fvec (x : list R) : nd num := nd_vec (map Fin x).
(** the lower triangle in row-major order *)
Definition lower_pairs (n : nat) : list (nat * nat) :=
  flat_map (fun i => map (fun j => (i, j)) (seq 0 (S i))) (seq 0 n).
(** inner products *)
Definition dot (x y : list R) : R := lsum (map2 Rmult x y).
Definition frob (n : nat) (A B : nat -> nat -> R) : R := rsum n (fun i => rsum n (fun j => A i j * B i j)).
