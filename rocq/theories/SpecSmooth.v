(** Independent vocabulary: open sets of R^n, functions of class C^k, iterated directional derivatives. *)
From Coq Require Import Reals List Arith.
From Coquelicot Require Import Coquelicot.
From Verif Require Import RSum ModelAutograd SpecParameters.
Import List ListNotations.
Open Scope R_scope.

(** y is a point of R^n whose coordinates differ from those of x by less than d *)
Definition close (n : nat) (x y : list R) (d : R) : Prop :=
  length y = n /\ forall i, (i < n)%nat -> Rabs (nth i y 0 - nth i x 0) < d.
(** U is an open set of R^n *)
Definition open_in (n : nat) (U : list R -> Prop) : Prop :=
  forall x, U x -> length x = n /\ exists d, 0 < d /\ forall y, close n x y d -> U y.
(** f is continuous at the point x of R^n *)
Definition cont_at (n : nat) (f : list R -> R) (x : list R) : Prop :=
  forall eps, 0 < eps -> exists d, 0 < d /\ forall y, close n x y d -> Rabs (f y - f x) < eps.
(** f is of class C^k on U: it is continuous there and, if k > 0, has partial derivatives there that are of class C^(k-1) *)
Fixpoint Ck (k n : nat) (U : list R -> Prop) (f : list R -> R) : Prop :=
  (forall x, U x -> cont_at n f x) /\
  match k with
  | O => True
  | S k' => forall i, (i < n)%nat -> exists d, (forall x, U x -> is_partial f i x (d x)) /\ Ck k' n U d
  end.

(** x + t d *)
Definition move (x d : list R) (t : R) : list R := map (fun i => nth i x 0 + t * nth i d 0) (seq 0 (length x)).
(** val is the derivative of f at z along all the directions of ds: along the last one first, along the first one last *)
Fixpoint is_dir_deriv (U : list R -> Prop) (f : list R -> R) (ds : list (list R)) (z : list R) (val : R) : Prop :=
  match ds with
  | [] => val = f z
  | d :: ds' => exists h, (forall y, U y -> is_dir_deriv U f ds' y (h y)) /\ is_derive (fun t => h (move z d t)) 0 val
  end.
