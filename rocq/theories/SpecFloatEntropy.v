(** Vocabulary for entropies in double precision. *)
From Coq Require Import Reals ZArith.
From Flocq Require Import Core BinarySingleNaN.
From Verif Require Import SpecFloat RSum.
Open Scope R_scope.

(** a library logarithm that is not positive between 0 and 1 *)
Definition log_below (f : double -> double) : Prop := forall x, is_finite x = true -> 0 < B2R x <= 1 -> B2R (f x) <= 0.
(** - p ln p, and 0 at 0 *)
Definition surprise (p : R) : R := if Req_EM_T p 0 then 0 else - (p * ln p).
(** the entropy of the probabilities p 0, ..., p (n - 1) *)
Definition shannon (n : nat) (p : nat -> R) : R := rsum n (fun j => surprise (p j)).
(** a number to be added to the probabilities: at least 2^-60, and less than half the distance from 1 to the next double *)
Definition negligible (x : double) : Prop := is_finite x = true /\ bpow radix2 (-60) <= B2R x < bpow radix2 (-53).
(** a finite double between 0 and 1 *)
Definition probability (x : double) : Prop := is_finite x = true /\ 0 <= B2R x <= 1.
