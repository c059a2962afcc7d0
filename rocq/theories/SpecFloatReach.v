(** The positive definite matrix parameters a program can hold, and the matrix that get_free factorises. *)
From Coq Require Import List Arith.
From Flocq Require Import BinarySingleNaN.
From Verif Require Import Res Nd SpecFloat SpecFloatMatrix ModelFloat ModelFloatMatrix.

Section Reach.
Context (fexp : dbl -> dbl) (fdot : nat -> nat -> list dbl -> list dbl -> dbl) (n : nat) (lb : dbl).
(** the parameters of size n and bound lb: created, and then changed by any number of successful calls *)
Inductive reachable : fposdef -> Prop :=
| r_init v0 p : fposdef_init n lb v0 = Ok p -> reachable p
| r_set p v p' : reachable p -> fposdef_set p v = Ok p' -> reachable p'
| r_set_free p x p' : reachable p -> fposdef_set_free fexp fdot p x = Ok p' -> reachable p'
| r_set_vector p x p' : reachable p -> fposdef_set_vector p x = Ok p' -> reachable p'.

End Reach.

(** the matrix without the bound: lb is taken off the diagonal *)
Definition lowered (n : nat) (lb : double) (val : nd double) : nd double := mk_mat n n (fun i j => fsub (mget dzero val i j) (if Nat.eqb i j then lb else dzero)).
