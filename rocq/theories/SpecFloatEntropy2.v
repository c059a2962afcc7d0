(** Vocabulary for the entropies of normal variables in double precision. *)
From Coq Require Import Reals ZArith.
From Flocq Require Import Core BinarySingleNaN.
From Verif Require Import SpecFloat RSum.
Open Scope R_scope.

(** the entropy of n independent normal variables with informations L 0, ..., L (n - 1) *)
Definition normal_entropy (n : nat) (L : nat -> R) : R := rsum n (fun k => (1 + ln (2 * PI / L k)) / 2).
(** the sizes of the logarithms *)
Definition log_sizes (n : nat) (L : nat -> R) : R := rsum n (fun k => 1 + Rabs (ln (L k))).
