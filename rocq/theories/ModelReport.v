(** What a parameter reports about itself: names(), dictval() and the view get() of a dictionary; and the small helpers of
    SparseObjectives.py: safe_matmul, compress, Timer and the deprecated get_sym_matrix_inv_sqrt.
    SIMPLIFICATIONS: names are strings without trailing NUL characters (numpy drops those); the printed forms __str__ are
    not modelled. *)
From Coq Require Import String Reals List Bool Arith DecimalString.
From Verif Require Import Res Num Nd RSum ModelAutograd ModelSparse ModelParameters ModelMatrix ModelSimplex ModelProjection ModelDict ModelObjective.
Import List ListNotations.
Open Scope nat_scope.

(** str(k) of a whole number *)
Definition py_str (k : nat) : string := NilZero.string_of_uint (Nat.to_uint k).

(** names() returns a list, except that of an ArrayParam, which returns the bare string *)
Inductive names_val := NameStr (s : string) | NameList (l : list string).
(** [ self.name + '_' + str(k) for k in range(n) ] *)
Definition numbered (nm : string) (n : nat) : list string := map (fun k => (nm ++ ("_" ++ py_str k))%string) (seq 0 n).
(** Parameters.py:101-102, 173-174, 253-254; MatrixParameters.py:155-156, 220-221, 344-345; SimplexParams.py:81-82;
    ProjectionParams.py:58-59 *)
Definition leaf_names (l : leaf) : names_val :=
  match l with
  | LScalar p => NameList [sp_name p]
  | LVector p => NameList (numbered (vp_name p) (vp_size p))
  | LArray p => NameStr (ap_name p)
  | LPosDef p => NameList [pd_name p] | LPosDefV p => NameList [pv_name p] | LPosDefA p => NameList [pa_name p]
  | LSimplex p => NameList [sx_name p]
  | LSubspace p => NameList (numbered (sv_name p) (sv_vector_size p))
  end.
(** np.atleast_1d *)
Definition names_1d (n : names_val) : list string := match n with NameStr s => [s] | NameList l => l end.
(** ParameterDictionary.py:101-103; np.concatenate of nothing raises ValueError *)
Fixpoint p_names (p : param) : res names_val :=
  match p with
  | Leaf l => Ok (leaf_names l)
  | Dict _ ents _ _ _ _ =>
      do ns <- (fix go (l : list (string * param)) : res (list names_val) :=
                  match l with [] => Ok [] | (_, q) :: tl => do n <- p_names q; do r <- go tl; Ok (n :: r) end) ents;
      match ns with [] => Raise ValueError | _ => Ok (NameList (flat_map names_1d ns)) end
  end.

(** ---- dictval() ---- *)
Inductive pyobj := ONum (x : num) | OList (l : list pyobj) | ODict (d : list (string * pyobj)).
(** arr.tolist(): nested lists, a bare number for a 0-d array *)
Fixpoint to_list (s : list nat) (d : list num) : pyobj :=
  match s with
  | [] => ONum (hd NaN d)
  | n :: rest => OList (map (fun i => to_list rest (slice d (i * nprod rest) (i * nprod rest + nprod rest))) (seq 0 n))
  end.
(** Parameters.py:103-108 (a Python number is reported as it is), 175-176, 255-256; MatrixParameters.py:157-158, 222-223,
    346-347; SimplexParams.py:83-84; ProjectionParams.py:60-61 *)
Definition leaf_dictval (l : leaf) : pyobj := to_list (shape (leaf_get l)) (data (leaf_get l)).
(** ParameterDictionary.py:49-53: the keys are the current names of the members *)
Fixpoint p_dictval (p : param) : pyobj :=
  match p with
  | Leaf l => leaf_dictval l
  | Dict _ ents _ _ _ _ =>
      ODict (fold_left (fun acc e => od_set acc (fst e) (snd e)) (map (fun e => (p_name (snd e), p_dictval (snd e))) ents) [])
  end.

(** ---- get() and the view self.values ---- *)
(** what get() returns: an array (or number), or the view of a dictionary *)
Inductive view := VArr (a : arr) | VValues (d : param).
(** ParameterDictionary.py:109-110, 116-117 and the get() of the leaf classes *)
Definition p_get (p : param) : view := match p with Leaf l => VArr (leaf_get l) | Dict _ _ _ _ _ _ => VValues p end.
(** ParameterDictionary.py:120-121, on a view; an array indexed by a string raises IndexError
    (SIMPLIFICATION: so does the value of a ScalarParam; if that is a Python number, Python raises TypeError) *)
Definition view_getitem (v : view) (k : string) : res view :=
  match v with
  | VArr _ => Raise IndexError
  | VValues d => rmap p_get (d_getitem d k)
  end.
(** v[k1][k2]... *)
Fixpoint view_at (v : view) (path : list string) : res view :=
  match path with [] => Ok v | k :: tl => do w <- view_getitem v k; view_at w tl end.
(** d.get()[k1]...[kn][k] = a, ParameterDictionary.py:123-124 at the end of a chain of views: the state of d afterwards *)
Fixpoint view_set_at (d : param) (path : list string) (k : string) (a : arr) : param * res unit :=
  match path with
  | [] => values_setitem d k a
  | k1 :: tl =>
      match d_getitem d k1 with
      | Raise e => (d, Raise e)
      | Ok q => match q with
                | Leaf _ => (d, Raise IndexError)
                | Dict _ _ _ _ _ _ => let r := view_set_at q tl k a in (d_replace d k1 (fst r), snd r)
                end
      end
  end.

(** ---- SparseObjectives.py:21-31 ---- *)
Open Scope R_scope.
(** a numpy matrix or a scipy sparse matrix *)
Inductive matrix := DenseM (M : rmat2) | SparseM (M : coo).
(** sparse * vector: every stored entry contributes once *)
Definition sparse_vec (M : coo) (x : list R) : res (list R) :=
  if negb (Nat.eqb (snd (coo_shape M)) (length x)) then Raise ValueError
  else Ok (map (fun i => lsum (map (fun e => let '(r, c, v) := e in if Nat.eqb r i then v * nth c x 0 else 0) (coo_ent M)))
               (seq 0 (fst (coo_shape M)))).
(** sparse * sparse, again sparse: a product entry for every pair of stored entries that meet.
    SIMPLIFICATION: scipy returns a csr_matrix with the duplicates already added up *)
Definition sparse_sparse (M N : coo) : res coo :=
  if negb (Nat.eqb (snd (coo_shape M)) (fst (coo_shape N))) then Raise ValueError
  else Ok (Coo (fst (coo_shape M), snd (coo_shape N))
               (flat_map (fun e => let '(r, c, v) := e in
                  flat_map (fun f => let '(r', c', w) := f in if Nat.eqb c r' then [((r, c'), v * w)] else []) (coo_ent N)) (coo_ent M))).
(** sparse * dense (a dense matrix): column by column *)
Definition sparse_dense (M : coo) (N : rmat2) : res rmat2 :=
  if negb (Nat.eqb (snd (coo_shape M)) (rm_rows N)) then Raise ValueError
  else Ok (RMat (fst (coo_shape M)) (rm_cols N)
                (fun i j => lsum (map (fun e => let '(r, c, v) := e in if Nat.eqb r i then v * rm_get N c j else 0) (coo_ent M)))).
(** .T of a sparse matrix: the triples with row and column exchanged *)
Definition coo_T (M : coo) : coo :=
  Coo (snd (coo_shape M), fst (coo_shape M)) (map (fun e => let '(r, c, v) := e in ((c, r), v)) (coo_ent M)).
(** dense * sparse: the __rmul__ of the sparse matrix, (sparse.T * dense.T).T *)
Definition dense_sparse (M : rmat2) (N : coo) : res rmat2 := rmap rm_T (sparse_dense (coo_T N) (rm_T M)).
(** SparseObjectives.py:21-25 on a matrix and a vector (the preconditioners' use), on a vector and a matrix, and on two
    matrices *)
Definition safe_matmul_vec (M : matrix) (x : list R) : res (list R) :=
  match M with DenseM A => mat_vec A x | SparseM A => sparse_vec A x end.
Definition safe_matmul (M N : matrix) : res matrix :=
  match M, N with
  | DenseM A, DenseM B => rmap DenseM (mat_mat A B)
  | SparseM A, SparseM B => rmap SparseM (sparse_sparse A B)
  | SparseM A, DenseM B => rmap DenseM (sparse_dense A B)
  | DenseM A, SparseM B => rmap DenseM (dense_sparse A B)
  end.
(** np.squeeze *)
Definition np_squeeze {A} (a : nd A) : nd A := Nd (filter (fun n => negb (Nat.eqb n 1)) (shape a)) (data a).
(** SparseObjectives.py:27-31; todense() of a sparse matrix, in rows *)
Definition todense (M : matrix) : nd R :=
  match M with
  | DenseM A => mk_mat (rm_rows A) (rm_cols A) (rm_get A)
  | SparseM A => mk_mat (fst (coo_shape A)) (snd (coo_shape A)) (coo_get A)
  end.
Definition compress (M : matrix) : nd R := np_squeeze (todense M).
(** compress of an array of any rank *)
Definition compress_array {A} (a : nd A) : nd A := np_squeeze a.

(** SparseObjectives.py:662-664: the first statement raises *)
Definition sparse_get_sym_matrix_inv_sqrt (M : matrix) (ev_min ev_max : option R) : res (matrix * matrix) :=
  Raise DeprecationWarningExc.

(** ---- Timer, SparseObjectives.py:35-45; tic_time does not exist before the first tic().
    SIMPLIFICATION: the printed line of toc(verbose=True) is not modelled. *)
Record timer := Timer { tm_dict : list (string * R); tm_tic : option R }.
(** SparseObjectives.py:36-37 *)
Definition timer_init : timer := Timer [] None.
(** SparseObjectives.py:38-39; [now] is what time.time() returns *)
Definition timer_tic (t : timer) (now : R) : timer := Timer (tm_dict t) (Some now).
(** SparseObjectives.py:40-43 *)
Definition timer_toc (t : timer) (name : string) (now : R) : timer * res unit :=
  match tm_tic t with
  | None => (t, Raise AttributeError)
  | Some t0 => (Timer (od_set (tm_dict t) name (now - t0)) (tm_tic t), Ok tt)
  end.
(** a history of calls, each with the clock at that moment *)
Inductive timer_op := Tic (now : R) | Toc (name : string) (now : R).
Definition timer_step (t : timer) (o : timer_op) : timer :=
  match o with Tic now => timer_tic t now | Toc name now => fst (timer_toc t name now) end.
Definition timer_run (ops : list timer_op) : timer := fold_left timer_step ops timer_init.
