(** Vocabulary for vectors and arrays of positive definite matrices in double precision. Nothing about the model. *)
From Coq Require Import Reals List Arith.
From Flocq Require Import Core BinarySingleNaN.
From Verif Require Import Nd RSum SpecFloat SpecFloatAcc SpecFloatMatrix.
Import ListNotations.

(** the entries of x that belong to matrix number o: as many as an n by n matrix has on and below its diagonal *)
Definition block (n o : nat) (x : list double) : list double := firstn (triangle n) (skipn (o * triangle n)%nat x).
(** obs is an index into an array of shape s *)
Definition valid_index (s obs : list nat) : Prop := Forall2 lt obs s.
(** how many indices there are *)
Definition how_many (s : list nat) : nat := fold_right Nat.mul 1%nat s.
(** the number of the index obs in row-major order (the last index runs fastest) *)
Fixpoint position (s obs : list nat) : nat :=
  match s, obs with
  | _ :: s', i :: obs' => (i * how_many s' + position s' obs')%nat
  | _, _ => 0%nat
  end.

(** what set_vector keeps of a diagonal entry that may be anything: NaN unless it is finite *)
Definition kept_any (d : double) : double := if is_finite d then kept d else B754_nan.

(** the free values w of one n by n matrix are those of x again, within the error that g allows (the bounds of one matrix alone) *)
Definition close_free (n : nat) (g : R) (x w : list double) : Prop := forall i, (i < n)%nat ->
    (is_finite (at_ld dzero w i i) = true /\
     (Rabs (B2R (at_ld dzero w i i) - B2R (at_ld dzero x i i)) <= 4 * g + units 32 * (1 + Rabs (B2R (at_ld dzero x i i)) + exp (B2R (at_ld dzero x i i))))%R) /\
    (forall j, (j < i)%nat -> is_finite (at_ld dzero w i j) = true /\
       (Rabs (B2R (at_ld dzero w i j) - B2R (at_ld dzero x i j)) <= 2 * g * rsum n (fun k => Rabs (factor (reals x) i k)))%R).

(** m holds the vector x: entries below the diagonal, on both sides of it, and what is kept of the diagonal *)
Definition holds (n : nat) (x : list double) (m : nd double) : Prop := shape m = [n; n] /\
  (forall i j, (j < i)%nat -> (i < n)%nat -> same (mget dzero m i j) (at_ld dzero x i j) /\ same (mget dzero m j i) (at_ld dzero x i j)) /\
  (forall i, (i < n)%nat -> same (mget dzero m i i) (kept_any (at_ld dzero x i i))).
(** the vector w is x again, except for what is not kept of the diagonal *)
Definition kept_vector (n : nat) (x w : list double) : Prop :=
  (forall i j, (j < i)%nat -> (i < n)%nat -> same (at_ld dzero w i j) (at_ld dzero x i j)) /\
  (forall i, (i < n)%nat -> same (at_ld dzero w i i) (kept_any (at_ld dzero x i i))).
