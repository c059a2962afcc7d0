(** scipy.sparse.coo_matrix: a shape and a list of (row, col, value) triples; duplicates add. *)
From Coq Require Import Reals List Arith.
From Verif Require Import RSum.
Import ListNotations.
Open Scope R_scope.

Record coo := Coo { coo_shape : nat * nat; coo_ent : list (nat * nat * R) }.

(** The dense matrix a coo_matrix denotes (coo_matrix.toarray()). *)
Definition coo_get (m : coo) (i j : nat) : R :=
  lsum (map (fun e => let '(r, c, v) := e in if (Nat.eqb r i && Nat.eqb c j)%bool then v else 0) (coo_ent m)).

(** coo_matrix(dense): the nonzero entries in row-major order *)
Definition coo_of_dense (n m : nat) (f : nat -> nat -> R) : coo :=
  Coo (n, m)
      (flat_map (fun i => flat_map (fun j => if Req_EM_T (f i j) 0 then [] else [((i, j), f i j)]) (seq 0 m))
                (seq 0 n)).
