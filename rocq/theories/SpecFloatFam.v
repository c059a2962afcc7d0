(** Vocabulary for the moments of distribution parameters in double precision. Nothing about the model. *)
From Coq Require Import Reals ZArith List.
From Flocq Require Import Core BinarySingleNaN.
From Verif Require Import Res RSum Nd SpecFloat SpecFloatAcc SpecFloatMatrix.
Import ListNotations.
Open Scope R_scope.

(** entry number k of an array, in row-major order *)
Definition entry (a : nd double) (k : nat) : double := nth k (data a) dzero.
(** an array that has as many entries as its shape says *)
Definition proper (s : list nat) (a : nd double) : Prop := shape a = s /\ length (data a) = nprod s.

(** What is asked of x ** 2: not negative, and within two units of 2^-53 of the exact square (one rounding of x * x, or a good pow) *)
Definition squares (f : double -> double) : Prop := forall x, is_finite x = true -> Rabs (B2R x) <= bpow radix2 490 ->
  is_finite (f x) = true /\ 0 <= B2R (f x) /\ Rabs (B2R (f x) - B2R x ^ 2) <= units 2 * B2R x ^ 2 + bpow radix2 (-1074).

(** the double a is finite and within k units of 2^-53 of the number x, relative to x *)
Definition within (k : R) (a : double) (x : R) : Prop := is_finite a = true /\ Rabs (B2R a - x) <= units k * x.
(** a mean, and an information or another positive parameter, far from overflow and underflow *)
Definition fair_mean (m : double) : Prop := is_finite m = true /\ Rabs (B2R m) <= bpow radix2 490.
Definition fair_info (i : double) : Prop := is_finite i = true /\ bpow radix2 (-490) <= B2R i <= bpow radix2 501.

(** a call that returns an array of shape s all of whose entries satisfy P *)
Definition returns (r : res (nd double)) (s : list nat) (P : double -> Prop) : Prop := exists a, r = Ok a /\ proper s a /\ forall k, (k < nprod s)%nat -> P (entry a k).
(** a lower bound that is finite or -inf *)
Definition usable (lb : double) : Prop := is_finite lb = true \/ lb = B754_infinity true.
(** v is where a parameter with this lower bound starts: 0 for -inf, otherwise the double next to lb + 1, and not below lb *)
Definition starts (lb v : double) : Prop := is_finite v = true /\ dle lb v /\ (lb = B754_infinity true -> v = dzero) /\ (is_finite lb = true -> B2R v = rnd64 (B2R lb + 1)).
(** the same bound for a diagonal: an n by n matrix with this on the diagonal and zeros elsewhere *)
Definition starts_diagonal (n : nat) (lb : double) (m : nd double) : Prop := proper [n; n] m /\
  forall i j, (i < n)%nat -> (j < n)%nat -> if Nat.eqb i j then starts lb (mget dzero m i j) else mget dzero m i j = dzero.
