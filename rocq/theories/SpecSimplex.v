(** Independent vocabulary for simplex parameters. *)
From Coq Require Import Reals List Arith.
From Verif Require Import Res Num Nd RSum.
Import List ListNotations.
Open Scope R_scope.

(** the array is the n by m matrix with the given finite entries *)
Definition rmat (n m : nat) (A : nat -> nat -> R) : nd num := mk_mat n m (fun i j => Fin (A i j)).
(** the softmax with reference value 0 in front: entry 0 is 1/S, entry j+1 is exp(g j)/S with S = 1 + sum exp(g) *)
Definition logits (g : nat -> R) (j : nat) : R := match j with O => 0 | S j' => g j' end.
Definition softmax (K : nat) (g : nat -> R) (j : nat) : R :=
  exp (logits g j) / (1 + rsum K (fun k => exp (g k))).
(** row i of A is a point strictly inside the simplex *)
Definition interior_simplex (m : nat) (a : nat -> R) : Prop :=
  (forall j, (j < m)%nat -> 0 < a j) /\ rsum m a = 1.
