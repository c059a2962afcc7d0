(** Independent vocabulary for dictionaries: which objects a user can build, and what "interior" means per class. *)
From Coq Require Import String Reals List Bool Arith.
From Coquelicot Require Import Coquelicot.
From Verif Require Import Res Num Nd RSum ModelAutograd ModelSparse ModelParameters ModelMatrix ModelSimplex ModelProjection ModelDict.
From Verif Require Import SpecParameters SpecMatrix SpecSimplex SpecProjection.
Import List ListNotations.
Open Scope R_scope.

(** l is the result of a constructor call.  Sensible arguments: well-formed arrays; a finite diagonal bound; stacks of
    matrices are not empty and get a value of the declared shape (C29 shows the class itself does not check this);
    simplexes have a column; the linear algebra of a subspace parameter is exact. *)
Inductive constructed : leaf -> Prop :=
| con_scalar nm lb ub val p : (forall a, val = Some a -> nd_wf a) -> scalar_init nm lb ub val = Ok p -> constructed (LScalar p)
| con_vector nm n lb ub val p : (forall a, val = Some a -> nd_wf a) -> vector_init nm n lb ub val = Ok p -> constructed (LVector p)
| con_array nm sh lb ub val p : (forall a, val = Some a -> nd_wf a) -> array_init nm sh lb ub val = Ok p -> constructed (LArray p)
| con_posdef nm n lb val p : (forall a, val = Some a -> nd_wf a) -> posdef_init nm n (Fin lb) val = Ok p -> constructed (LPosDef p)
| con_posdefv nm len n lb val p : (0 < len)%nat -> (forall a, val = Some a -> nd_wf a /\ shape a = [len; n; n]) ->
    pv_init nm len n (Fin lb) val = Ok p -> constructed (LPosDefV p)
| con_posdefa nm s n lb val p : (0 < nprod s)%nat -> (forall a, val = Some a -> nd_wf a /\ shape a = s ++ [n; n]) ->
    pa_init nm (ShapeTuple s) n (Fin lb) val = Ok p -> constructed (LPosDefA p)
| con_simplex nm rows cols val p : (0 < cols)%nat -> (forall a, val = Some a -> nd_wf a) ->
    simplex_init nm rows cols val = Ok p -> constructed (LSimplex p)
| con_subspace solve eigh nm m d x Y e V val p : full_rank m d x ->
    solve m d (gram d x) x = Ok Y -> solves m d (gram d x) x Y ->
    eigh d (proj_perp m x Y) = Ok (e, V) -> spectral d (proj_perp m x Y) e V ->
    (forall a, val = Some a -> nd_wf a) -> subspace_init solve eigh nm d val (Some (m, d, x)) = Ok p -> constructed (LSubspace p).

(** a direct assignment hands over an array whose shape the stack classes should have checked *)
Definition sensible_set (l : leaf) (a : arr) : Prop :=
  nd_wf a /\ match l with LPosDefV p => shape a = pv_shape p | LPosDefA p => shape a = pa_shape p | _ => True end.

(** one method call on an object, or on an object held by it at any depth; calls may raise *)
Inductive call : param -> param -> Prop :=
| call_set_free p v : call p (fst (p_set_free p (nd_vec v)))
| call_set_vector p v : call p (fst (p_set_vector p (nd_vec v)))
| call_set l a : sensible_set l a -> call (Leaf l) (fst (p_set (Leaf l) a))
| call_set_name p nm : call p (fst (set_name p nm))
| call_member d k q q' : d_getitem d k = Ok q -> call q q' -> call d (d_replace d k q').

(** the objects a program can build, pushing under fresh names only and finishing a dictionary before pushing it *)
Inductive reachable : param -> Prop :=
| reach_leaf l : constructed l -> reachable (Leaf l)
| reach_dict nm : reachable (dict_init nm)
| reach_push d p d' : reachable d -> reachable p -> d_getitem d (p_name p) = Raise KeyError ->
    push_param d p = (d', Ok tt) -> reachable d'
| reach_call p p' : reachable p -> call p p' -> reachable p'.

(** no dictionary in the tree is empty (np.hstack of nothing raises) *)
Fixpoint populated (p : param) : Prop :=
  match p with
  | Leaf _ => True
  | Dict _ ents _ _ _ _ => ents <> [] /\
      (fix all (l : list (string * param)) : Prop := match l with [] => True | (_, q) :: tl => populated q /\ all tl end) ents
  end.

(** the value of a leaf lies in the interior of its constraint set *)
Definition leaf_interior (l : leaf) : Prop :=
  match l with
  | LScalar p => nd_wf (sp_val p) /\ exists x, data (sp_val p) = [Fin x] /\ inside (sp_lb p) (sp_ub p) x
  | LVector p => all_inside (vp_lb p) (vp_ub p) (data (vp_val p))
  | LArray p => all_inside (ap_lb p) (ap_ub p) (data (ap_val p))
  | LPosDef p => exists A lb, pd_lb p = Fin lb /\ pd_val p = fmat (pd_size p) A /\ symmetric (pd_size p) A /\ posdef (pd_size p) (shifted A lb)
  | LPosDefV p => exists lb, pv_lb p = Fin lb /\ forall o, (o < pv_length p)%nat ->
      exists A, nd_index (pv_val p) [o] = Ok (fmat (pv_size p) A) /\ symmetric (pv_size p) A /\ posdef (pv_size p) (shifted A lb)
  | LPosDefA p => exists lb, pa_lb p = Fin lb /\ forall obs, In obs (product (pa_ashape p)) ->
      exists A, nd_index (pa_val p) obs = Ok (fmat (pa_size p) A) /\ symmetric (pa_size p) A /\ posdef (pa_size p) (shifted A lb)
  | LSimplex p => exists Z, sx_val p = rmat (sx_rows p) (sx_cols p) Z /\ forall i, (i < sx_rows p)%nat -> interior_simplex (sx_cols p) (Z i)
  | LSubspace p => exists v c, sv_val p = fvec v /\ length v = sv_dim p /\
      forall i, (i < sv_dim p)%nat -> nth i v 0 = rsum (length (sv_basis p)) (fun k => c k * nth k (sv_basis p) (fun _ => 0) i)
  end.
(** the value of a leaf is finite, symmetric where the vector form keeps half of it, and flat where it is stored verbatim *)
Definition leaf_regular (l : leaf) : Prop :=
  match l with
  | LScalar p => nd_wf (sp_val p) /\ exists x, data (sp_val p) = [Fin x]
  | LVector p => exists v, vp_val p = fvec v
  | LArray p => exists v, data (ap_val p) = map Fin v
  | LPosDef p => exists A, pd_val p = fmat (pd_size p) A /\ symmetric (pd_size p) A
  | LPosDefV p => forall o, (o < pv_length p)%nat -> exists A, nd_index (pv_val p) [o] = Ok (fmat (pv_size p) A) /\ symmetric (pv_size p) A
  | LPosDefA p => forall obs, In obs (product (pa_ashape p)) ->
      exists A, nd_index (pa_val p) obs = Ok (fmat (pa_size p) A) /\ symmetric (pa_size p) A
  | LSimplex p => exists v, data (sx_val p) = map Fin v
  | LSubspace p => exists v, sv_val p = fvec v
  end.
(** every leaf of the tree satisfies P *)
Fixpoint all_leaves (P : leaf -> Prop) (p : param) : Prop :=
  match p with
  | Leaf l => P l
  | Dict _ ents _ _ _ _ =>
      (fix all (l : list (string * param)) : Prop := match l with [] => True | (_, q) :: tl => all_leaves P q /\ all tl end) ents
  end.
(** two trees of the same build whose leaves hold the same numbers *)
Fixpoint same_values (p p' : param) {struct p} : Prop :=
  match p, p' with
  | Leaf l, Leaf l' => data (leaf_get l) = data (leaf_get l')
  | Dict nm ents fi vi fs vs, Dict nm' ents' fi' vi' fs' vs' =>
      nm = nm' /\ fi = fi' /\ vi = vi' /\ fs = fs' /\ vs = vs' /\
      (fix all (l l' : list (string * param)) : Prop :=
         match l, l' with
         | [], [] => True
         | (k, q) :: tl, (k', q') :: tl' => k = k' /\ same_values q q' /\ all tl tl'
         | _, _ => False
         end) ents ents'
  | _, _ => False
  end.
(** consecutive ranges from lo to hi, without gap or overlap, in the order of the list *)
Fixpoint tiles (lo : nat) (l : list (nat * nat)) (hi : nat) : Prop :=
  match l with
  | [] => lo = hi
  | (a, b) :: tl => a = lo /\ (a <= b)%nat /\ tiles b tl hi
  end.
(** d[k1][k2]... *)
Fixpoint p_at (p : param) (path : list string) : res param :=
  match path with
  | [] => Ok p
  | k :: tl => do q <- d_getitem p k; p_at q tl
  end.
(** classes whose vector form is the flattened value *)
Definition stored_verbatim (l : leaf) : Prop :=
  match l with LPosDef _ | LPosDefV _ | LPosDefA _ => False | _ => True end.
(** f is (Frechet) differentiable at the point v of R^n with gradient g *)
Definition differentiable_at (n : nat) (f : list R -> R) (v : list R) (g : nat -> R) : Prop :=
  forall eps, 0 < eps -> exists delta, 0 < delta /\
    forall w, length w = n -> (forall k, (k < n)%nat -> Rabs (nth k w 0 - nth k v 0) < delta) ->
      Rabs (f w - f v - rsum n (fun k => g k * (nth k w 0 - nth k v 0))) <= eps * rsum n (fun k => Rabs (nth k w 0 - nth k v 0)).
