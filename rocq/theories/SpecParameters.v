(** Independent vocabulary for the properties of scalar/vector/array parameters. Model files are imported only for the
    names of API calls, record fields and the sparse matrix representation. *)
From Coq Require Import Reals List.
From Coquelicot Require Import Coquelicot.
From Verif Require Import Res Num Nd ModelAutograd ModelSparse ModelParameters.
Import List ListNotations.
Open Scope R_scope.

(** A legal pair of bounds: a lower bound that is -inf or finite, an upper bound that is finite or +inf,
    lower strictly below upper. *)
Definition legal (lb ub : num) : Prop :=
  match lb, ub with
  | NInf, PInf => True
  | NInf, Fin _ => True
  | Fin _, PInf => True
  | Fin l, Fin u => l < u
  | _, _ => False
  end.

(** x lies strictly between the bounds *)
Definition inside (lb ub : num) (x : R) : Prop :=
  match lb with NInf => True | Fin l => l < x | _ => False end /\
  match ub with PInf => True | Fin u => x < u | _ => False end.

(** v lies in the closed interval (v may be infinite, NaN never does) *)
Definition within (lb ub v : num) : Prop :=
  match v with
  | NaN => False
  | PInf => ub = PInf
  | NInf => lb = NInf
  | Fin x => match lb with NInf => True | Fin l => l <= x | _ => False end /\
             match ub with PInf => True | Fin u => x <= u | _ => False end
  end.

(** every entry is a finite number strictly inside *)
Definition all_inside (lb ub : num) (l : list num) : Prop :=
  forall v, In v l -> exists x, v = Fin x /\ inside lb ub x.

(** d is the j-th partial derivative of f at x *)
Definition is_partial (f : list R -> R) (j : nat) (x : list R) (d : R) : Prop :=
  is_derive (fun t => f (upd x j t)) (nth j x 0) d.
(** h is the second partial derivative d/dx_i d/dx_j of f at x *)
Definition is_partial2 (f : list R -> R) (i j : nat) (x : list R) (h : R) : Prop :=
  exists g, (forall y, length y = length x -> is_partial f j y (g y)) /\ is_partial g i x h.

(** the only point of the closed range that does not survive: the upper bound when both bounds are finite *)
Definition lossy (lb ub v : num) : Prop := exists l u, lb = Fin l /\ ub = Fin u /\ v = Fin u.


(** the value a fresh parameter holds *)
Definition default_spec (lb ub : num) : R :=
  match lb, ub with
  | Fin l, Fin u => (u - l) / 2
  | Fin l, _ => l + 1
  | _, Fin u => u - 1
  | _, _ => 0
  end.
Definition default_ok (lb ub : num) : Prop :=
  match lb, ub with Fin l, Fin u => 3 * l <= u /\ 0 <= l + u | _, _ => True end.

(** statement shared by the three classes: J and Hs hold the first and second partials of F at x *)
Definition true_jacobian (F : list R -> list R) (n : nat) (x : list R) (J : coo) : Prop :=
  coo_shape J = (n, n) /\
  forall i j, (i < n)%nat -> (j < n)%nat -> is_partial (fun y => nth i (F y) 0) j x (coo_get J i j).
Definition true_hessians (F : list R -> list R) (n : nat) (x : list R) (Hs : list coo) : Prop :=
  length Hs = n /\
  forall k, (k < n)%nat -> exists M, nth_error Hs k = Some M /\ coo_shape M = (n, n) /\
    forall i j, (i < n)%nat -> (j < n)%nat -> is_partial2 (fun y => nth k (F y) 0) i j x (coo_get M i j).


(** what every constructed object satisfies (C10 proves that constructors establish it and calls keep it) *)
Definition vector_wf (p : vector_param) : Prop :=
  legal (vp_lb p) (vp_ub p) /\ nd_wf (vp_val p) /\ nd_size (vp_val p) = vp_size p.
Definition array_wf (p : array_param) : Prop :=
  legal (ap_lb p) (ap_ub p) /\ nd_wf (ap_val p) /\ shape (ap_val p) = ap_shape p.


(** the array passed by a call of a history *)
Definition op_arg (o : leaf_op) : arr := match o with OpSet a | OpSetFree a | OpSetVector a => a end.

(** the same for a map from nf to nv entries *)
Definition jacobian_of (F : list R -> list R) (nv nf : nat) (x : list R) (J : coo) : Prop :=
  coo_shape J = (nv, nf) /\
  forall i j, (i < nv)%nat -> (j < nf)%nat -> is_partial (fun y => nth i (F y) 0) j x (coo_get J i j).
Definition hessians_of (F : list R -> list R) (nv nf : nat) (x : list R) (Hs : list coo) : Prop :=
  length Hs = nv /\
  forall k, (k < nv)%nat -> exists M, nth_error Hs k = Some M /\ coo_shape M = (nf, nf) /\
    forall i j, (i < nf)%nat -> (j < nf)%nat -> is_partial2 (fun y => nth k (F y) 0) i j x (coo_get M i j).
