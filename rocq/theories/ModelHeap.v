(** Arrays as views of shared buffers, parameter objects that several dictionaries may hold.
    ModelDict.v treats parameters as values.  Here self.__val is a reference: [set] keeps the caller's array, [get]
    hands out the stored one, a slice of a vector is a view of it, and writing to an array is seen through every view
    of its buffer.  Which numpy operations copy follows numpy's documentation.
    SIMPLIFICATIONS: reshape always gives a view (numpy copies when the strides of a non-contiguous array do not allow
    one); a nested dictionary is part of its parent (two parents holding the same dictionary hold equal trees over the
    same parameter objects). *)
From Coq Require Import String Reals List Bool Arith.
From Verif Require Import Res Num Nd RSum ModelAutograd ModelSparse ModelParameters ModelMatrix ModelSimplex ModelProjection ModelDict.
Import List ListNotations.
Open Scope R_scope.

(** ---- buffers, arrays, Python values ---- *)
Definition heap := list (list num).
(** an array: its buffer and, for each entry, the position in the buffer *)
Record aref := ARef { a_buf : nat; a_idx : nd nat }.
(** a Python number (immutable) or an array *)
Inductive pyval := PNum (x : num) | PArr (a : aref).
Definition buffer (h : heap) (b : nat) : list num := nth b h [].
Definition rd (h : heap) (a : aref) : arr := nd_map (fun i => nth i (buffer h (a_buf a)) NaN) (a_idx a).
Definition rdv (h : heap) (v : pyval) : arr := match v with PNum x => nd_scalar x | PArr a => rd h a end.
(** a new array with its own buffer *)
Definition alloc (h : heap) (v : arr) : heap * pyval :=
  (h ++ [data v], PArr (ARef (length h) (Nd (shape v) (seq 0 (length (data v)))))).
(** a.flat[k] = x; out of range IndexError, heap unchanged *)
Definition poke (h : heap) (a : aref) (k : nat) (x : num) : heap :=
  match nth_error (data (a_idx a)) k with
  | None => h
  | Some i => upd h (a_buf a) (upd (buffer h (a_buf a)) i x)
  end.
(** views: v[lo:hi] and v.reshape(s) / np.reshape(v, s) of an array.  np.reshape of a number makes a new array. *)
Definition v_slice (v : pyval) (lo hi : nat) : res pyval :=
  match v with
  | PNum _ => Raise IndexError
  | PArr a => do i <- np_slice (a_idx a) lo hi; Ok (PArr (ARef (a_buf a) i))
  end.
Definition v_reshape (h : heap) (v : pyval) (s : list nat) : res (heap * pyval) :=
  match v with
  | PNum x => do a <- np_reshape (nd_scalar x) s; Ok (alloc h a)
  | PArr a => do i <- np_reshape (a_idx a) s; Ok (h, PArr (ARef (a_buf a) i))
  end.
(** arithmetic on a number gives a number, on an array a new array *)
Definition v_map (h : heap) (f : num -> num) (v : pyval) : heap * pyval :=
  match v with
  | PNum x => (h, PNum (f x))
  | PArr a => alloc h (nd_map f (rd h a))
  end.
(** copy.copy *)
Definition v_copy (h : heap) (v : pyval) : heap * pyval :=
  match v with
  | PNum x => (h, PNum x)
  | PArr a => alloc h (rd h a)
  end.
(** Parameters.py:47-61 *)
Definition h_constrain (h : heap) (v : pyval) (lb ub : num) : res (heap * pyval) :=
  if nleb ub lb then Raise ValueError
  else if neqb ub PInf && neqb lb NInf then Ok (v_copy h v)
  else Ok (v_map h (fun x => constrain_entry x lb ub) v).

(** ---- parameter objects ---- *)
(** everything but the stored value, and self.__val *)
Record obj := Obj { o_leaf : leaf; o_val : pyval }.
Record store := Store { s_heap : heap; s_objs : list obj }.
Definition leaf_put (l : leaf) (a : arr) : leaf :=
  match l with
  | LScalar p => LScalar (ScalarP (sp_name p) (sp_lb p) (sp_ub p) a)
  | LVector p => LVector (VectorP (vp_name p) (vp_size p) (vp_lb p) (vp_ub p) a)
  | LArray p => LArray (ArrayP (ap_name p) (ap_shape p) (ap_lb p) (ap_ub p) a)
  | LPosDef p => LPosDef (PosDefP (pd_name p) (pd_size p) (pd_lb p) a)
  | LPosDefV p => LPosDefV (PosDefV (pv_name p) (pv_length p) (pv_size p) (pv_lb p) a)
  | LPosDefA p => LPosDefA (PosDefA (pa_name p) (pa_ashape p) (pa_size p) (pa_lb p) a)
  | LSimplex p => LSimplex (SimplexP (sx_name p) (sx_rows p) (sx_cols p) a)
  | LSubspace p => LSubspace (SubspaceP (sv_name p) (sv_dim p) (sv_cons p) (sv_basis p) a)
  end.
Definition no_obj : obj := Obj (LScalar (ScalarP "" NInf PInf (nd_scalar (Fin 0)))) (PNum (Fin 0)).
Definition obj_at (s : store) (o : nat) : obj := nth o (s_objs s) no_obj.
(** the object with the value it currently shows *)
Definition cur (s : store) (o : nat) : leaf := leaf_put (o_leaf (obj_at s o)) (rdv (s_heap s) (o_val (obj_at s o))).
(** self.__val = v *)
Definition assign (s : store) (o : nat) (v : pyval) : store :=
  Store (s_heap s) (upd (s_objs s) o (Obj (o_leaf (obj_at s o)) v)).
(** self.__val = <new array> *)
Definition assign_new (s : store) (o : nat) (a : arr) : store :=
  let r := alloc (s_heap s) a in assign (Store (fst r) (s_objs s)) o (snd r).

(** set(val) of the eight classes: the check, then self.__val = val.
    Parameters.py:110-118, 178-187, 258-267; MatrixParameters.py:160-166, 225-228, 349-354; SimplexParams.py:86-89;
    ProjectionParams.py:66-69 *)
Definition h_set (s : store) (o : nat) (v : pyval) : store * res unit :=
  match snd (leaf_set (cur s o) (rdv (s_heap s) v)) with
  | Ok _ => (assign s o v, Ok tt)
  | Raise e => (s, Raise e)
  end.
(** get(): Parameters.py:119-120, 188-189, 268-269 and the same line in the other classes *)
Definition h_get (s : store) (o : nat) : pyval := o_val (obj_at s o).

(** what a method does that builds its new value out of newly made arrays *)
Definition by_value (s : store) (o : nat) (r : leaf * res unit) : store * res unit :=
  match snd r with
  | Ok _ => (assign_new s o (leaf_get (fst r)), Ok tt)
  | Raise e => (s, Raise e)
  end.
Definition then_set (s : store) (o : nat) (r : res (heap * pyval)) : store * res unit :=
  match r with
  | Ok (h, w) => h_set (Store h (s_objs s)) o w
  | Raise e => (s, Raise e)
  end.
(** set_free: Parameters.py:122-123, 191-194, 271-277 (constrain copies); the matrix, simplex and subspace classes
    compute a new array: MatrixParameters.py:170-173, 236-242, 368-376; SimplexParams.py:93-97; ProjectionParams.py:73-76 *)
Definition h_set_free (s : store) (o : nat) (v : pyval) : store * res unit :=
  let x := rdv (s_heap s) v in
  match cur s o with
  | LScalar p => then_set s o (h_constrain (s_heap s) v (sp_lb p) (sp_ub p))
  | LVector p =>
      if negb (Nat.eqb (nd_size x) (vp_size p)) then (s, Raise ValueError)
      else then_set s o (h_constrain (s_heap s) v (vp_lb p) (vp_ub p))
  | LArray p =>
      if negb (Nat.eqb (nd_size x) (array_free_size p)) then (s, Raise ValueError)
      else then_set s o (do r <- h_constrain (s_heap s) v (ap_lb p) (ap_ub p); v_reshape (fst r) (snd r) (ap_shape p))
  | l => by_value s o (leaf_set_free l x)
  end.
(** set_vector: Parameters.py:140-141, 221-222, 307-313; MatrixParameters.py:186-189, 299-305, 397-404;
    SimplexParams.py:157-160; ProjectionParams.py:90-91 *)
Definition h_set_vector (s : store) (o : nat) (v : pyval) : store * res unit :=
  let x := rdv (s_heap s) v in
  match cur s o with
  | LScalar _ | LVector _ | LSubspace _ => h_set s o v
  | LArray p =>
      if negb (Nat.eqb (nd_size x) (array_vector_size p)) then (s, Raise ValueError)
      else then_set s o (v_reshape (s_heap s) v (ap_shape p))
  | LSimplex p =>
      match np_len x with
      | Raise e => (s, Raise e)
      | Ok n => if negb (Nat.eqb n (sx_vector_size p)) then (s, Raise ValueError)
                else then_set s o (v_reshape (s_heap s) v (sx_shape p))
      end
  | l => by_value s o (leaf_set_vector l x)
  end.
(** a new array holding the outcome *)
Definition new_array (h : heap) (r : res arr) : heap * res pyval :=
  match r with Ok a => (fst (alloc h a), Ok (snd (alloc h a))) | Raise e => (h, Raise e) end.
(** get_vector: Parameters.py:142-143 (np.reshape), 223-224 and ProjectionParams.py:92-93 (the stored array itself),
    314-315 and SimplexParams.py:161-162 (flatten copies), MatrixParameters.py:190-191, 307-309, 406-411 *)
Definition h_get_vector (s : store) (o : nat) : heap * res pyval :=
  match cur s o with
  | LScalar _ => match v_reshape (s_heap s) (h_get s o) [1%nat] with Ok (h, w) => (h, Ok w) | Raise e => (s_heap s, Raise e) end
  | LVector _ | LSubspace _ => (s_heap s, Ok (h_get s o))
  | l => new_array (s_heap s) (leaf_get_vector l)
  end.
(** get_free: every class makes a new array (unconstrain_array flattens, unconstrain_scalar copies or computes).
    Parameters.py:124-125, 195-196, 278-279; MatrixParameters.py:174-175, 244-247, 389-395; SimplexParams.py:98-99;
    ProjectionParams.py:77-78 *)
Definition h_get_free (s : store) (o : nat) : heap * res pyval := new_array (s_heap s) (leaf_get_free (cur s o)).

(** ---- dictionaries: the leaves of the tree are objects of the store ---- *)
Inductive hparam :=
| HLeaf (o : nat)
| HDict (name : string) (ents : list (string * hparam)) (fidx vidx : list (string * (nat * nat))) (fsize vsize : nat).
Definition hp_name (s : store) (p : hparam) : string := match p with HLeaf o => leaf_name (cur s o) | HDict nm _ _ _ _ _ => nm end.
Definition hp_free_size (s : store) (p : hparam) : nat := match p with HLeaf o => leaf_free_size (cur s o) | HDict _ _ _ _ fs _ => fs end.
Definition hp_vector_size (s : store) (p : hparam) : nat := match p with HLeaf o => leaf_vector_size (cur s o) | HDict _ _ _ _ _ vs => vs end.
(** ParameterDictionary.py:39-46 *)
Definition h_push_param (s : store) (d p : hparam) : hparam :=
  match d with
  | HLeaf _ => d
  | HDict nm ents fi vi fs vs =>
      HDict nm (od_set ents (hp_name s p) p)
            (od_set fi (hp_name s p) (fs, (fs + hp_free_size s p)%nat))
            (od_set vi (hp_name s p) (vs, (vs + hp_vector_size s p)%nat))
            (fs + hp_free_size s p) (vs + hp_vector_size s p)
  end.
(** ParameterDictionary.py:55-63 with Parameters.py:326-328: every member gets a view of its slice *)
Fixpoint hp_set_free (s : store) (p : hparam) (v : pyval) {struct p} : store * res unit :=
  match p with
  | HLeaf o => h_set_free s o v
  | HDict _ ents _ _ fs _ =>
      if negb (Nat.eqb (nd_size (rdv (s_heap s) v)) fs) then (s, Raise ValueError)
      else
        (fix go (s : store) (l : list (string * hparam)) (offset : nat) : store * res unit :=
           match l with
           | [] => (s, Ok tt)
           | (_, q) :: tl =>
               match v_slice v offset (offset + hp_free_size s q) with
               | Raise e => (s, Raise e)
               | Ok w => match hp_set_free s q w with
                         | (s', Ok _) => go s' tl (offset + hp_free_size s' q)%nat
                         | (s', Raise e) => (s', Raise e)
                         end
               end
           end) s ents 0%nat
  end.
(** ParameterDictionary.py:88-96 with Parameters.py:339-341 *)
Fixpoint hp_set_vector (s : store) (p : hparam) (v : pyval) {struct p} : store * res unit :=
  match p with
  | HLeaf o => h_set_vector s o v
  | HDict _ ents _ _ _ vs =>
      if negb (Nat.eqb (nd_size (rdv (s_heap s) v)) vs) then (s, Raise ValueError)
      else
        (fix go (s : store) (l : list (string * hparam)) (offset : nat) : store * res unit :=
           match l with
           | [] => (s, Ok tt)
           | (_, q) :: tl =>
               match v_slice v offset (offset + hp_vector_size s q) with
               | Raise e => (s, Raise e)
               | Ok w => match hp_set_vector s q w with
                         | (s', Ok _) => go s' tl (offset + hp_vector_size s' q)%nat
                         | (s', Raise e) => (s', Raise e)
                         end
               end
           end) s ents 0%nat
  end.
(** ParameterDictionary.py:64-65, 97-99: np.hstack makes a new array *)
Fixpoint hp_get_free (s : store) (p : hparam) {struct p} : heap * res pyval :=
  match p with
  | HLeaf o => h_get_free s o
  | HDict _ ents _ _ _ _ =>
      let r := (fix go (h : heap) (l : list (string * hparam)) : heap * res (list pyval) :=
           match l with
           | [] => (h, Ok [])
           | (_, q) :: tl =>
               match hp_get_free (Store h (s_objs s)) q with
               | (h1, Raise e) => (h1, Raise e)
               | (h1, Ok w) => match go h1 tl with (h2, Ok ws) => (h2, Ok (w :: ws)) | (h2, Raise e) => (h2, Raise e) end
               end
           end) (s_heap s) ents in
      new_array (fst r) (do ws <- snd r; np_hstack (map (rdv (fst r)) ws))
  end.
Fixpoint hp_get_vector (s : store) (p : hparam) {struct p} : heap * res pyval :=
  match p with
  | HLeaf o => h_get_vector s o
  | HDict _ ents _ _ _ _ =>
      let r := (fix go (h : heap) (l : list (string * hparam)) : heap * res (list pyval) :=
           match l with
           | [] => (h, Ok [])
           | (_, q) :: tl =>
               match hp_get_vector (Store h (s_objs s)) q with
               | (h1, Raise e) => (h1, Raise e)
               | (h1, Ok w) => match go h1 tl with (h2, Ok ws) => (h2, Ok (w :: ws)) | (h2, Raise e) => (h2, Raise e) end
               end
           end) (s_heap s) ents in
      new_array (fst r) (do ws <- snd r; np_hstack (map (rdv (fst r)) ws))
  end.

(** copy.deepcopy: new buffers, new objects, the same sharing among them.
    SIMPLIFICATIONS: copies everything, not only what the tree reaches (the rest of the copy is garbage); overlapping
    views of one buffer stay overlapping views (numpy copies each array separately). *)
Definition shift_val (n : nat) (v : pyval) : pyval := match v with PNum x => PNum x | PArr a => PArr (ARef (n + a_buf a) (a_idx a)) end.
Fixpoint shift_param (n : nat) (p : hparam) : hparam :=
  match p with
  | HLeaf o => HLeaf (n + o)
  | HDict nm ents fi vi fs vs => HDict nm (map (fun e => (fst e, shift_param n (snd e))) ents) fi vi fs vs
  end.
Definition h_deepcopy (s : store) (p : hparam) : store * hparam :=
  (Store (s_heap s ++ s_heap s) (s_objs s ++ map (fun o => Obj (o_leaf o) (shift_val (length (s_heap s)) (o_val o))) (s_objs s)),
   shift_param (length (s_objs s)) p).
(** SparseObjectives.py:581-584 *)
Definition h_make_index_param (s : store) (p : hparam) : store * hparam * res unit :=
  let (s1, q) := h_deepcopy s p in
  let (h2, v) := alloc (s_heap s1) (nd_vec (map (fun k => Fin (INR k)) (seq 0 (hp_vector_size s1 q)))) in
  let (s2, r) := hp_set_vector (Store h2 (s_objs s1)) q v in
  (s2, q, r).
