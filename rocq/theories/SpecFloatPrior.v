(** Vocabulary for priors in double precision. *)
From Coq Require Import Reals ZArith List.
From Flocq Require Import Core BinarySingleNaN.
From Verif Require Import SpecFloat Nd SpecFloatMatrix SpecFloatFam.
Import ListNotations.
Open Scope R_scope.

(** the argument a has the value v k at the k-th place of an array of shape s: it is such an array, or a scalar that is broadcast *)
Definition reads (s : list nat) (a : nd double) (v : nat -> double) : Prop :=
  (proper s a /\ forall k, (k < nprod s)%nat -> entry a k = v k) \/ (exists x, a = nd_scalar x /\ forall k, (k < nprod s)%nat -> v k = x).
(** a finite double of size at most 2^k, and one that is not negative either *)
Definition sized (k : Z) (x : double) : Prop := is_finite x = true /\ Rabs (B2R x) <= bpow radix2 k.
Definition sized_nonneg (k : Z) (x : double) : Prop := sized k x /\ 0 <= B2R x.
