(** Independent vocabulary for sparse matrices. *)
From Coq Require Import Reals List Bool Arith ZArith.
From Verif Require Import Res RSum ModelSparse ModelSparseUtils.
Import List ListNotations.
Open Scope R_scope.

(** the invariants of a CSR object *)
Definition csr_valid (m : csr) : Prop :=
  length (csr_indptr m) = (fst (csr_shape m) + 1)%nat /\ nth 0 (csr_indptr m) 1%nat = 0%nat /\
  length (csr_indices m) = length (csr_data m) /\ (nth (fst (csr_shape m)) (csr_indptr m) 0%nat <= length (csr_data m))%nat.
(** every stored entry of a COO matrix lies inside its shape *)
Definition coo_in_range (m : coo) : Prop :=
  forall r c v, In ((r, c), v) (coo_ent m) -> (r < fst (coo_shape m))%nat /\ (c < snd (coo_shape m))%nat.
(** the matrix that has at (r, c) the sum of the entries of the block whose row maps to r and column to c *)
Definition scattered (nrow ncol : nat) (A : nat -> nat -> R) (ri ci : list Z) (r c : nat) : R :=
  rsum nrow (fun i => rsum ncol (fun j => if (Z.eqb (nth i ri (-1)%Z) (Z.of_nat r) && Z.eqb (nth j ci (-1)%Z) (Z.of_nat c))%bool then A i j else 0)).
(** every index is a position below the dimension *)
Definition indices_ok (n : nat) (l : list Z) (dim : nat) : Prop :=
  length l = n /\ forall i, (i < n)%nat -> (0 <= nth i l (-1) < Z.of_nat dim)%Z.
