(** Independent vocabulary for subspaces: full rank, orthogonality, exact solvers. *)
From Coq Require Import Reals List Arith.
From Verif Require Import Res RSum.
Import List ListNotations.
Open Scope R_scope.

Definition inner (d : nat) (u v : nat -> R) : R := rsum d (fun k => u k * v k).
(** the m rows of x (vectors of length d) are linearly independent *)
Definition full_rank (m d : nat) (x : nat -> nat -> R) : Prop :=
  forall c, (forall k, (k < d)%nat -> rsum m (fun i => c i * x i k) = 0) -> forall i, (i < m)%nat -> c i = 0.
(** v is perpendicular to every row of x *)
Definition perp (m d : nat) (x : nat -> nat -> R) (v : nat -> R) : Prop := forall i, (i < m)%nat -> inner d (x i) v = 0.
(** v is a combination of the rows of x *)
Definition in_row_space (m d : nat) (x : nat -> nat -> R) (v : nat -> R) : Prop :=
  exists c, forall k, (k < d)%nat -> v k = rsum m (fun i => c i * x i k).
(** A Y = b *)
Definition solves (m d : nat) (A b Y : nat -> nat -> R) : Prop :=
  forall i j, (i < m)%nat -> (j < d)%nat -> rsum m (fun k => A i k * Y k j) = b i j.
(** P = V diag(e) V' with orthonormal columns V *)
Definition spectral (d : nat) (P : nat -> nat -> R) (e : nat -> R) (V : nat -> nat -> R) : Prop :=
  (forall a b, (a < d)%nat -> (b < d)%nat -> rsum d (fun i => V i a * V i b) = if Nat.eqb a b then 1 else 0) /\
  (forall i j, (i < d)%nat -> (j < d)%nat -> P i j = rsum d (fun k => e k * V i k * V j k)).
(** a list of vectors is orthonormal *)
Definition orthonormal (d : nat) (B : list (nat -> R)) : Prop :=
  forall a b, (a < length B)%nat -> (b < length B)%nat ->
    inner d (nth a B (fun _ => 0)) (nth b B (fun _ => 0)) = if Nat.eqb a b then 1 else 0.
(** the vector held in a list *)
Definition entry (l : list R) : nat -> R := fun k => nth k l 0.
