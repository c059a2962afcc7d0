(** Independent vocabulary for masks and masked solves. *)
From Coq Require Import Reals List Bool Arith ZArith.
From Verif Require Import RSum ModelConjugate.
Import List ListNotations.
Open Scope R_scope.

(** entry i of a mask is true *)
Definition on (m : list bool) (i : nat) : Prop := nth_error m i = Some true.
(** the number of true entries of m before position i *)
Definition rank (m : list bool) (i : nat) : nat := count_occ bool_dec (firstn i m) true.
Definition trues (m : list bool) : nat := count_occ bool_dec m true.
(** how many of the masks are true at position i *)
Definition hits (ms : list (list bool)) (i : nat) : nat := length (filter (fun m => match nth_error m i with Some b => b | None => false end) ms).
(** the masks have the length of m; the true entries of m are covered exactly once, the others never *)
Definition partitions (m : list bool) (ms : list (list bool)) : Prop :=
  List.Forall (fun m' => length m' = length m) ms /\ forall i, (i < length m)%nat -> hits ms i = if nth i m false then 1%nat else 0%nat.
(** the componentwise sum of vectors *)
Definition sum_entry (vs : list (list R)) (i : nat) : R := lsum (map (fun v => nth i v 0) vs).
(** the componentwise sum of vectors of length n *)
Definition sum_vec (n : nat) (vs : list (list R)) : list R := map (sum_entry vs) (seq 0 n).
