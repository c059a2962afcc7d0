(** Vocabulary for setting a simplex parameter to its own free value in double precision. Nothing about the model. *)
From Coq Require Import Reals ZArith List.
From Flocq Require Import Core BinarySingleNaN.
From Verif Require Import RSum SpecFloat SpecFloatSimplex.
Open Scope R_scope.

(** a finite double greater than 0 and at most 1 *)
Definition positive_unit (v : double) : Prop := unit_interval v /\ 0 < B2R v.
(** the share of entry v in the total of the row *)
Definition share (row : list double) (v : double) : R := B2R v / lsum (map (fun q : double => B2R q) row).
(** the row probs holds the shares of the entries of row, up to a relative error of (length + 4096) 2^-48 *)
Definition normalised (row probs : list double) : Prop := length probs = length row /\
  forall k v, nth_error row k = Some v -> exists q, nth_error probs k = Some q /\ is_finite q = true /\
    Rabs (B2R q - share row v) <= (INR (length row) + 4096) * bpow radix2 (-48) * share row v + bpow radix2 (-1070).
