(** autograd.jacobian / autograd.hessian, modelled as exact partial derivatives (Coquelicot [Derive]).
    TRUSTED: that autograd computes these derivatives when they exist. *)
From Coq Require Import Reals List.
From Coquelicot Require Import Coquelicot.
Import ListNotations.
Open Scope R_scope.

(** x with entry j replaced by t *)
Fixpoint upd {A} (x : list A) (j : nat) (t : A) : list A :=
  match x, j with
  | [], _ => []
  | _ :: xs, O => t :: xs
  | a :: xs, S j' => a :: upd xs j' t
  end.

(** the value autograd returns for the j-th partial derivative of a real function at x *)
Definition ad_partial (f : list R -> R) (j : nat) (x : list R) : R :=
  Derive (fun t => f (upd x j t)) (nth j x 0).
(** autograd.jacobian(F)(x)[i, j] *)
Definition ad_jac (F : list R -> list R) (x : list R) (i j : nat) : R :=
  ad_partial (fun y => nth i (F y) 0) j x.
(** autograd.hessian(F)(x)[k, i, j] *)
Definition ad_hess (F : list R -> list R) (x : list R) (k i j : nat) : R :=
  ad_partial (fun y => ad_partial (fun z => nth k (F z) 0) j y) i x.
