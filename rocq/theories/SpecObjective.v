(** Independent vocabulary for the objective wrappers. *)
From Coq Require Import String Reals List Bool Arith ZArith.
From Coquelicot Require Import Coquelicot.
From Verif Require Import Res Num Nd RSum ModelAutograd ModelSparse ModelParameters ModelMatrix ModelSimplex ModelProjection ModelDict ModelObjective.
From Verif Require Import SpecParameters SpecDict.
Import List ListNotations.
Open Scope R_scope.

(** one operation on a parameter object, or on an object held by it at any depth: a setter called with any array, numbers or
    tracing objects, of any shape; the call may raise *)
Inductive operation : tparam -> tparam -> Prop :=
| op_set_free t v : operation t (fst (t_set_free t v))
| op_set_vector t v : operation t (fst (t_set_vector t v))
| op_set l b v : operation (TLeaf l b) (fst (t_leaf_set leaf_set l b v))
| op_member nm es1 k q q' es2 fi vi fs vs : operation q q' ->
    operation (TDict nm (es1 ++ (k, q) :: es2) fi vi fs vs) (TDict nm (es1 ++ (k, q') :: es2) fi vi fs vs).
(** t' is what t has become after any number of operations *)
Inductive history (t : tparam) : tparam -> Prop :=
| hist_none : history t t
| hist_more t' t'' : history t t' -> operation t' t'' -> history t t''.
(** two parameters evolve *)
Definition history2 (st st' : pair_state) : Prop := history (fst st) (fst st') /\ history (snd st) (snd st').

(** all stored values are numbers *)
Definition all_numeric (t : tparam) : Prop := any_boxed t = false.

(** the linear map x -> A x *)
Definition apply_mat (M : rmat2) (x : list R) : list R :=
  map (fun i => rsum (rm_cols M) (fun k => rm_get M i k * nth k x 0)) (seq 0 (rm_rows M)).
(** f is twice differentiable near every point of R^n, with gradient G and Hessian H at y *)
Definition twice_differentiable (n : nat) (f : list R -> R) (G : list R -> nat -> R) (H : nat -> nat -> R) (y : list R) : Prop :=
  (forall z, length z = n -> differentiable_at n f z (G z)) /\
  (forall k, (k < n)%nat -> differentiable_at n (fun z => G z k) y (fun a => H a k)).

(** the form (free or vector) in which a method of TwoParameterObjective takes each of its two values, as its name says *)
Definition first_is_free (m : two_method) : bool :=
  match m with
  | FunGrad1 f _ | FunGrad2 f _ => f
  | FreeHessian12 | FreeHessian21 | HessianFree1Vector2 => true
  | VectorHessian12 | VectorHessian21 | HessianVector1Free2 => false
  end.
Definition second_is_free (m : two_method) : bool :=
  match m with
  | FunGrad1 _ f | FunGrad2 _ f => f
  | FreeHessian12 | FreeHessian21 | HessianVector1Free2 => true
  | VectorHessian12 | VectorHessian21 | HessianFree1Vector2 => false
  end.
(** g(u, w): entry i of the first value is u, entry j of the second is w; all second derivatives of g exist near the point and
    the two mixed ones are continuous there *)
Definition mixed_C2 (F : list R -> list R -> R) (i j : nat) (x1 x2 : list R) : Prop :=
  let g := fun u w => F (upd x1 i u) (upd x2 j w) in
  locally_2d (fun u v => ex_derive (fun z => g z v) u /\ ex_derive (fun z => g u z) v /\
      ex_derive (fun z => Derive (fun t => g z t) v) u /\ ex_derive (fun z => Derive (fun t => g t z) u) v) (nth i x1 0) (nth j x2 0) /\
  continuity_2d_pt (fun u v => Derive (fun z => Derive (fun t => g z t) v) u) (nth i x1 0) (nth j x2 0) /\
  continuity_2d_pt (fun u v => Derive (fun z => Derive (fun t => g t z) u) v) (nth i x1 0) (nth j x2 0).

(** get_free or get_vector, and the number of entries *)
Definition get_par (t : tparam) (is_free : bool) : res targ := if is_free then t_get_free t else t_get_vector t.
Definition par_size (t : tparam) (is_free : bool) : nat := if is_free then t_free_size t else t_vector_size t.
(** the converter computes F from the input's free or vector form to the output's *)
Definition implements (conv : pair_state -> pair_state * res unit) (in_free out_free : bool) (F : list R -> list R) : Prop :=
  forall s v, get_par (fst s) in_free = Ok (fin_arg v) ->
    conv s = ((fst s, fst (set_par (snd s) (fin_arg (F v)) out_free)), snd (set_par (snd s) (fin_arg (F v)) out_free)).
