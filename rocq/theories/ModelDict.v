(** Model of LinearResponseVariationalBayes/ParameterDictionary.py and of the offset helpers of Parameters.py:324-427.
    A parameter object is a tree: a leaf of one of the eight classes or a ModelParamsDict of parameters.
    SIMPLIFICATIONS: objects are trees (no parameter object is held by two dictionaries at once); a change made to a
    member through another reference is the operation [d_replace] on the tree. *)
From Coq Require Import String Reals List Bool Arith.
From Coquelicot Require Import Coquelicot.
From Verif Require Import Res Num Nd RSum ModelAutograd ModelSparse ModelParameters ModelMatrix ModelSimplex ModelProjection.
Import List ListNotations.
Open Scope R_scope.

(** ---- the eight leaf classes behind one interface (Python method dispatch) ---- *)
Inductive leaf :=
| LScalar (p : scalar_param) | LVector (p : vector_param) | LArray (p : array_param)
| LPosDef (p : posdef_param) | LPosDefV (p : posdef_vector) | LPosDefA (p : posdef_array)
| LSimplex (p : simplex_param) | LSubspace (p : subspace_param).
Definition leaf_name (l : leaf) : string :=
  match l with
  | LScalar p => sp_name p | LVector p => vp_name p | LArray p => ap_name p | LPosDef p => pd_name p
  | LPosDefV p => pv_name p | LPosDefA p => pa_name p | LSimplex p => sx_name p | LSubspace p => sv_name p
  end.
(** get() *)
Definition leaf_get (l : leaf) : arr :=
  match l with
  | LScalar p => sp_val p | LVector p => vp_val p | LArray p => ap_val p | LPosDef p => pd_val p
  | LPosDefV p => pv_val p | LPosDefA p => pa_val p | LSimplex p => sx_val p | LSubspace p => sv_val p
  end.
Definition leaf_free_size (l : leaf) : nat :=
  match l with
  | LScalar p => scalar_free_size p | LVector p => vector_free_size p | LArray p => array_free_size p
  | LPosDef p => pd_vec_size p | LPosDefV p => pv_free_size p | LPosDefA p => pa_free_size p
  | LSimplex p => sx_free_size p | LSubspace p => sv_free_size p
  end.
Definition leaf_vector_size (l : leaf) : nat :=
  match l with
  | LScalar p => scalar_vector_size p | LVector p => vector_vector_size p | LArray p => array_vector_size p
  | LPosDef p => pd_vec_size p | LPosDefV p => pv_vector_size p | LPosDefA p => pa_vector_size p
  | LSimplex p => sx_vector_size p | LSubspace p => sv_vector_size p
  end.
Definition leaf_get_free (l : leaf) : res arr :=
  match l with
  | LScalar p => scalar_get_free p | LVector p => vector_get_free p | LArray p => array_get_free p
  | LPosDef p => posdef_get_free p | LPosDefV p => pv_get_free p | LPosDefA p => pa_get_free p
  | LSimplex p => simplex_get_free p | LSubspace p => subspace_get_free p
  end.
Definition leaf_get_vector (l : leaf) : res arr :=
  match l with
  | LScalar p => scalar_get_vector p | LVector p => vector_get_vector p | LArray p => array_get_vector p
  | LPosDef p => posdef_get_vector p | LPosDefV p => pv_get_vector p | LPosDefA p => pa_get_vector p
  | LSimplex p => simplex_get_vector p | LSubspace p => subspace_get_vector p
  end.
Definition lift {P} (c : P -> leaf) (r : P * res unit) : leaf * res unit := (c (fst r), snd r).
Definition leaf_set (l : leaf) (a : arr) : leaf * res unit :=
  match l with
  | LScalar p => lift LScalar (scalar_set p a) | LVector p => lift LVector (vector_set p a)
  | LArray p => lift LArray (array_set p a) | LPosDef p => lift LPosDef (posdef_set p a)
  | LPosDefV p => lift LPosDefV (pv_set p a) | LPosDefA p => lift LPosDefA (pa_set p a)
  | LSimplex p => lift LSimplex (simplex_set p a) | LSubspace p => lift LSubspace (subspace_set p a)
  end.
Definition leaf_set_free (l : leaf) (a : arr) : leaf * res unit :=
  match l with
  | LScalar p => lift LScalar (scalar_set_free p a) | LVector p => lift LVector (vector_set_free p a)
  | LArray p => lift LArray (array_set_free p a) | LPosDef p => lift LPosDef (posdef_set_free p a)
  | LPosDefV p => lift LPosDefV (pv_set_free p a) | LPosDefA p => lift LPosDefA (pa_set_free p a)
  | LSimplex p => lift LSimplex (simplex_set_free p a) | LSubspace p => lift LSubspace (subspace_set_free p a)
  end.
Definition leaf_set_vector (l : leaf) (a : arr) : leaf * res unit :=
  match l with
  | LScalar p => lift LScalar (scalar_set_vector p a) | LVector p => lift LVector (vector_set_vector p a)
  | LArray p => lift LArray (array_set_vector p a) | LPosDef p => lift LPosDef (posdef_set_vector p a)
  | LPosDefV p => lift LPosDefV (pv_set_vector p a) | LPosDefA p => lift LPosDefA (pa_set_vector p a)
  | LSimplex p => lift LSimplex (simplex_set_vector p a) | LSubspace p => lift LSubspace (subspace_set_vector p a)
  end.
(** free_to_vector_jac / free_to_vector_hess on a finite 1-d free value.
    SIMPLIFICATION: the value autograd may leave in the object while it differentiates is not recorded here. *)
Definition leaf_jac (l : leaf) (x : list R) : res coo :=
  match l with
  | LScalar p => Ok (scalar_free_to_vector_jac p x) | LVector p => vector_free_to_vector_jac p x
  | LArray p => array_free_to_vector_jac p x | LPosDef p => Ok (posdef_free_to_vector_jac p x)
  | LPosDefV p => Ok (pv_free_to_vector_jac p x) | LPosDefA p => Ok (pa_free_to_vector_jac p x)
  | LSimplex p => simplex_free_to_vector_jac p x | LSubspace p => Ok (subspace_free_to_vector_jac p x)
  end.
Definition leaf_hess (l : leaf) (x : list R) : res (list coo) :=
  match l with
  | LScalar p => Ok (scalar_free_to_vector_hess p x) | LVector p => vector_free_to_vector_hess p x
  | LArray p => array_free_to_vector_hess p x | LPosDef p => Ok (posdef_free_to_vector_hess p x)
  | LPosDefV p => Ok (pv_free_to_vector_hess p x) | LPosDefA p => Ok (pa_free_to_vector_hess p x)
  | LSimplex p => simplex_free_to_vector_hess p x | LSubspace p => Ok (subspace_free_to_vector_hess p x)
  end.

(** ---- OrderedDict: assignment to an existing key keeps its position ---- *)
Fixpoint od_set {V} (d : list (string * V)) (k : string) (v : V) : list (string * V) :=
  match d with
  | [] => [(k, v)]
  | (k', v') :: tl => if String.eqb k k' then (k', v) :: tl else (k', v') :: od_set tl k v
  end.
Fixpoint od_get {V} (d : list (string * V)) (k : string) : option V :=
  match d with
  | [] => None
  | (k', v) :: tl => if String.eqb k k' then Some v else od_get tl k
  end.

(** ---- ModelParamsDict, ParameterDictionary.py:19-30 ----
    d_name, param_dict, free_indices_dict, vector_indices_dict (range objects as pairs), __free_size, __vector_size *)
Inductive param :=
| Leaf (l : leaf)
| Dict (name : string) (ents : list (string * param)) (fidx vidx : list (string * (nat * nat))) (fsize vsize : nat).

Definition dict_init (name : string) : param := Dict name [] [] [] 0 0.
Definition p_name (p : param) : string := match p with Leaf l => leaf_name l | Dict nm _ _ _ _ _ => nm end.
(** ParameterDictionary.py:104-107 *)
Definition p_free_size (p : param) : nat := match p with Leaf l => leaf_free_size l | Dict _ _ _ _ fs _ => fs end.
Definition p_vector_size (p : param) : nat := match p with Leaf l => leaf_vector_size l | Dict _ _ _ _ _ vs => vs end.
Definition p_entries (p : param) : list (string * param) := match p with Leaf _ => [] | Dict _ e _ _ _ _ => e end.
Definition p_free_indices (p : param) : list (string * (nat * nat)) := match p with Leaf _ => [] | Dict _ _ fi _ _ _ => fi end.
Definition p_vector_indices (p : param) : list (string * (nat * nat)) := match p with Leaf _ => [] | Dict _ _ _ vi _ _ => vi end.
Definition is_dict (p : param) : bool := match p with Leaf _ => false | Dict _ _ _ _ _ _ => true end.

(** ParameterDictionary.py:39-46 *)
Definition push_param (d : param) (p : param) : param * res unit :=
  match d with
  | Leaf _ => (d, Raise AttributeError)
  | Dict nm ents fi vi fs vs =>
      (Dict nm (od_set ents (p_name p) p)
            (od_set fi (p_name p) (fs, (fs + p_free_size p)%nat))
            (od_set vi (p_name p) (vs, (vs + p_vector_size p)%nat))
            (fs + p_free_size p) (vs + p_vector_size p), Ok tt)
  end.
(** ParameterDictionary.py:47-48 *)
Definition set_name (d : param) (nm : string) : param * res unit :=
  match d with
  | Leaf _ => (d, Raise AttributeError)
  | Dict _ ents fi vi fs vs => (Dict nm ents fi vi fs vs, Ok tt)
  end.
(** ParameterDictionary.py:36-37 *)
Definition d_getitem (d : param) (k : string) : res param :=
  match d with
  | Leaf _ => Raise TypeError
  | Dict _ ents _ _ _ _ => match od_get ents k with Some q => Ok q | None => Raise KeyError end
  end.
(** the state of d after the object d[k] was changed to q in place *)
Fixpoint od_replace {V} (d : list (string * V)) (k : string) (v : V) : list (string * V) :=
  match d with
  | [] => []
  | (k', v') :: tl => if String.eqb k k' then (k', v) :: tl else (k', v') :: od_replace tl k v
  end.
Definition d_replace (d : param) (k : string) (q : param) : param :=
  match d with
  | Leaf _ => d
  | Dict nm ents fi vi fs vs => Dict nm (od_replace ents k q) fi vi fs vs
  end.
(** set(): ModelParamsDict has no such method *)
Definition p_set (p : param) (a : arr) : param * res unit :=
  match p with
  | Leaf l => let r := leaf_set l a in (Leaf (fst r), snd r)
  | Dict _ _ _ _ _ _ => (p, Raise AttributeError)
  end.
(** ParameterDictionary.py:123-124: d.values[k] = a *)
Definition values_setitem (d : param) (k : string) (a : arr) : param * res unit :=
  match d_getitem d k with
  | Raise e => (d, Raise e)
  | Ok q => let r := p_set q a in (d_replace d k (fst r), snd r)
  end.

(** ParameterDictionary.py:55-63 with Parameters.py:326-328; the loop stops at the first exception, members already
    visited keep their new values *)
Fixpoint p_set_free (p : param) (vec : arr) {struct p} : param * res unit :=
  match p with
  | Leaf l => let r := leaf_set_free l vec in (Leaf (fst r), snd r)
  | Dict nm ents fi vi fs vs =>
      if negb (Nat.eqb (nd_size vec) fs) then (p, Raise ValueError)
      else
        let r := (fix go (l : list (string * param)) (offset : nat) : list (string * param) * res unit :=
             match l with
             | [] => ([], Ok tt)
             | (k, q) :: tl =>
                 match np_slice vec offset (offset + p_free_size q) with
                 | Raise e => (l, Raise e)
                 | Ok s =>
                     let r := p_set_free q s in
                     match snd r with
                     | Ok _ => let r' := go tl (offset + p_free_size (fst r))%nat in ((k, fst r) :: fst r', snd r')
                     | Raise e => ((k, fst r) :: tl, Raise e)
                     end
                 end
             end) ents 0%nat in
        (Dict nm (fst r) fi vi fs vs, snd r)
  end.
(** ParameterDictionary.py:88-96 with Parameters.py:339-341 *)
Fixpoint p_set_vector (p : param) (vec : arr) {struct p} : param * res unit :=
  match p with
  | Leaf l => let r := leaf_set_vector l vec in (Leaf (fst r), snd r)
  | Dict nm ents fi vi fs vs =>
      if negb (Nat.eqb (nd_size vec) vs) then (p, Raise ValueError)
      else
        let r := (fix go (l : list (string * param)) (offset : nat) : list (string * param) * res unit :=
             match l with
             | [] => ([], Ok tt)
             | (k, q) :: tl =>
                 match np_slice vec offset (offset + p_vector_size q) with
                 | Raise e => (l, Raise e)
                 | Ok s =>
                     let r := p_set_vector q s in
                     match snd r with
                     | Ok _ => let r' := go tl (offset + p_vector_size (fst r))%nat in ((k, fst r) :: fst r', snd r')
                     | Raise e => ((k, fst r) :: tl, Raise e)
                     end
                 end
             end) ents 0%nat in
        (Dict nm (fst r) fi vi fs vs, snd r)
  end.
(** ParameterDictionary.py:64-65 *)
Fixpoint p_get_free (p : param) : res arr :=
  match p with
  | Leaf l => leaf_get_free l
  | Dict _ ents _ _ _ _ => 
      do l <- (fix go (l : list (string * param)) : res (list arr) :=
           match l with
           | [] => Ok []
           | (_, q) :: tl => do a <- p_get_free q; do r <- go tl; Ok (a :: r)
           end) ents;
      np_hstack l
  end.
(** ParameterDictionary.py:97-99 *)
Fixpoint p_get_vector (p : param) : res arr :=
  match p with
  | Leaf l => leaf_get_vector l
  | Dict _ ents _ _ _ _ => 
      do l <- (fix go (l : list (string * param)) : res (list arr) :=
           match l with
           | [] => Ok []
           | (_, q) :: tl => do a <- p_get_vector q; do r <- go tl; Ok (a :: r)
           end) ents;
      np_hstack l
  end.
(** ParameterDictionary.py:67-69 on a finite 1-d free value, as a real map (also the leaf classes' free_to_vector) *)
Definition p_free_to_vector (p : param) (x : list R) : list R :=
  match p_set_free p (nd_vec (map Fin x)) with
  | (p', Ok _) => match p_get_vector p' with Ok v => map toR (data v) | Raise _ => [] end
  | (_, Raise _) => []
  end.

(** Parameters.py:362-366 *)
Definition offset_sparse_matrix (spmat : coo) (offset_shape full_shape : nat * nat) : coo :=
  Coo full_shape (map (fun e => let '(r, c, v) := e in ((r + fst offset_shape)%nat, (c + snd offset_shape)%nat, v)) (coo_ent spmat)).
(** scipy.sparse.block_diag; with no block it raises ValueError *)
Fixpoint block_entries (l : list coo) (ro co : nat) : list (nat * nat * R) :=
  match l with
  | [] => []
  | m :: tl => coo_ent (offset_sparse_matrix m (ro, co) (0, 0)%nat) ++ block_entries tl (ro + fst (coo_shape m)) (co + snd (coo_shape m))
  end.
Definition block_diag (l : list coo) : res coo :=
  match l with
  | [] => Raise ValueError
  | _ => Ok (Coo (fold_right Nat.add 0%nat (map (fun m => fst (coo_shape m)) l), fold_right Nat.add 0%nat (map (fun m => snd (coo_shape m)) l))
                 (block_entries l 0 0))
  end.
(** ParameterDictionary.py:70-78 with Parameters.py:351-356 *)
Fixpoint p_jac (p : param) (x : list R) {struct p} : res coo :=
  match p with
  | Leaf l => leaf_jac l x
  | Dict _ ents _ _ _ _ =>
      do js <- (fix go (l : list (string * param)) (free_offset : nat) : res (list coo) :=
           match l with
           | [] => Ok []
           | (_, q) :: tl =>
               do j <- p_jac q (slice x free_offset (free_offset + p_free_size q));
               do js <- go tl (free_offset + p_free_size q)%nat;
               Ok (j :: js)
           end) ents 0%nat;
      block_diag js
  end.
(** ParameterDictionary.py:79-87 with Parameters.py:371-381 *)
Fixpoint p_hess (p : param) (x : list R) {struct p} : res (list coo) :=
  match p with
  | Leaf l => leaf_hess l x
  | Dict _ ents _ _ fs _ =>
      (fix go (l : list (string * param)) (free_offset : nat) : res (list coo) :=
           match l with
           | [] => Ok []
           | (_, q) :: tl =>
               do h <- p_hess q (slice x free_offset (free_offset + p_free_size q));
               do hs <- go tl (free_offset + p_free_size q)%nat;
               Ok (map (fun m => offset_sparse_matrix m (free_offset, free_offset) (fs, fs)) h ++ hs)
           end) ents 0%nat
  end.

(** Parameters.py:397-427. The sparse sum and the product J.T * H * J are evaluated exactly; the result is the dense
    matrix. vector_grad is a finite 1-d array, vector_hess a finite square matrix given by its entries.
    np.hstack of no array raises ValueError; vector_grad[vec_ind] out of range raises IndexError. *)
Definition convert_vector_to_free_hessian (p : param) (free_val : list R) (vector_grad : list R) (vector_hess : nat -> nat -> R)
  : param * res (nat -> nat -> R) :=
  match p_set_free p (nd_vec (map Fin free_val)) with
  | (p', Raise e) => (p', Raise e)
  | (p', Ok _) =>
      (p',
       do jac <- p_jac p' free_val;
       do hess <- p_hess p' free_val;
       let vec_range := seq 0 (p_vector_size p') in
       if Nat.eqb (length vec_range) 0 then Raise ValueError else
       do ents <- rmapM (fun vec_ind =>
            match nth_error hess vec_ind with
            | None => Raise IndexError
            | Some h => do g <- getitem vector_grad vec_ind;
                        Ok (map (fun e => let '(r, c, v) := e in (r, c, v * g)) (coo_ent h))
            end) vec_range;
       let free_hess := Coo (p_free_size p', p_free_size p') (List.concat ents) in
       let nv := p_vector_size p' in
       Ok (fun i j => coo_get free_hess i j +
             rsum nv (fun b => rsum nv (fun a => coo_get jac a i * vector_hess a b) * coo_get jac b j)))
  end.

(** SparseObjectives.py:581-584. deepcopy of a tree is the tree itself; np.arange gives 0., 1., ... *)
Definition make_index_param (p : param) : param * res unit :=
  p_set_vector p (nd_vec (map (fun k => Fin (INR k)) (seq 0 (p_vector_size p)))).
