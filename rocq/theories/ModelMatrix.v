(** Model of LinearResponseVariationalBayes/MatrixParameters.py: packing of triangular and symmetric matrices,
    positive definite matrix parameters (single, vector, array). *)
From Coq Require Import String Reals List Bool Arith.
From Verif Require Import Res Num Nd RSum ModelAutograd ModelSparse ModelParameters.
Import List ListNotations.
Open Scope R_scope.

(** MatrixParameters.py:16-23. k1 * (k1 + 1) is even, so the true division and int() are exact. *)
Definition LDInd (k1 k2 : nat) : nat := (k2 + k1 * (k1 + 1) / 2)%nat.
Definition SymIndex (k1 k2 : nat) : nat := if Nat.leb k2 k1 then LDInd k1 k2 else LDInd k2 k1.

(** mat[np.tril_indices(n)]: the lower triangle in row-major order *)
Definition tril_list {A} (n : nat) (f : nat -> nat -> A) : list A :=
  flat_map (fun i => map (f i) (seq 0 (S i))) (seq 0 n).

(** MatrixParameters.py:38-41. Unpacking a shape that is not 2-d raises ValueError. *)
Definition vectorize_ld_matrix (mat : arr) : res arr :=
  match shape mat with
  | [nrow; ncol] => if negb (Nat.eqb nrow ncol) then Raise ValueError
                    else Ok (nd_vec (tril_list nrow (mget NaN mat)))
  | _ => Raise ValueError
  end.

(** MatrixParameters.py:61: int(0.5 * (math.sqrt(1 + 8 * size) - 1)), with the square root taken exactly
    (the lemma [ld_mat_size_real] shows this integer form equals the real formula). *)
Definition ld_mat_size (size : nat) : nat := ((Nat.sqrt (1 + 8 * size) - 1) / 2)%nat.

(** MatrixParameters.py:60-68. vec[k] is a scalar for a 1-d vector (or when all trailing dimensions are one);
    otherwise the assignment mat[k1, k2] = vec[k] raises ValueError; a 0-d array cannot be indexed. *)
Definition unvectorize_ld_matrix (vec : arr) : res arr :=
  let n := ld_mat_size (nd_size vec) in
  if negb (Nat.eqb (n * (n + 1)) (2 * nd_size vec)) then Raise ValueError
  else if Nat.eqb n 0 then Ok (mk_mat 0 0 (fun _ _ => Fin 0))
  else match shape vec with
       | [] => Raise IndexError
       | _ :: rest =>
           if negb (Nat.eqb (nprod rest) 1) then Raise ValueError
           else Ok (mk_mat n n (fun k1 k2 => if Nat.leb k2 k1 then nth (SymIndex k1 k2) (data vec) NaN else Fin 0))
       end.

(** MatrixParameters.py:70-72: the registered vector-Jacobian product *)
Definition unvectorize_ld_matrix_vjp (g : arr) : res arr :=
  match shape g with
  | n :: m :: _ => rassert (Nat.eqb n m) (vectorize_ld_matrix g)
  | _ => Raise IndexError
  end.
(** MatrixParameters.py:77-78: the registered Jacobian-vector product *)
Definition unvectorize_ld_matrix_jvp (g : arr) : res arr := unvectorize_ld_matrix g.

(** np.make_diagonal(d) as an entry function *)
Definition make_diagonal (d : nat -> num) (i j : nat) : num := if Nat.eqb i j then d i else Fin 0.

(** MatrixParameters.py:83-89 and 92-98: f is np.exp or np.log. *)
Definition map_matrix_diagonal (f : num -> num) (mat : arr) : res arr :=
  match shape mat with
  | [n; m] => rassert (Nat.eqb n m)
      (Ok (mk_mat n n (fun i j =>
         nsub (nadd (make_diagonal (fun k => f (mget NaN mat k k)) i j) (mget NaN mat i j))
              (make_diagonal (fun k => mget NaN mat k k) i j))))
  | n :: m :: _ => rassert (Nat.eqb n m) (Raise ValueError)
  | _ => Raise IndexError
  end.
Definition exp_matrix_diagonal (mat : arr) : res arr := map_matrix_diagonal nexp mat.
Definition log_matrix_diagonal (mat : arr) : res arr := map_matrix_diagonal nlog mat.

(** The Cholesky factorisation, column by column: [cholL A c] is the factor with c columns filled in. *)
Fixpoint cholL (A : nat -> nat -> R) (c : nat) : nat -> nat -> R :=
  match c with
  | O => fun _ _ => 0
  | S c' =>
      let L := cholL A c' in
      let d := A c' c' - rsum c' (fun q => L c' q * L c' q) in
      fun i k =>
        if Nat.eqb k c' then
          if Nat.ltb i c' then 0
          else if Nat.eqb i c' then sqrt d
          else (A i c' - rsum c' (fun q => L i q * L c' q)) / sqrt d
        else L i k
  end.
Definition chol_pivot (A : nat -> nat -> R) (c : nat) : R :=
  A c c - rsum c (fun q => cholL A c c q * cholL A c c q).
(** np.linalg.cholesky: reads the lower triangle only; LinAlgError if a pivot is not positive.
    SIMPLIFICATION: exact arithmetic, and LinAlgError on any non-finite entry of the lower triangle. *)
Definition np_cholesky (mat : arr) : res arr :=
  match shape mat with
  | [n; m] =>
      if negb (Nat.eqb n m) then Raise LinAlgError
      else
        let A := fun i j => toR (mget NaN mat i j) in
        if forallb is_fin (tril_list n (mget NaN mat)) && forallb (fun c => Rltb 0 (chol_pivot A c)) (seq 0 n)
        then Ok (mk_mat n n (fun i k => Fin (cholL A n i k)))
        else Raise LinAlgError
  | _ => Raise LinAlgError
  end.

(** MatrixParameters.py:101-105.
    SIMPLIFICATION: a matrix that is not square raises ValueError (numpy would broadcast an (n, 1) array). *)
Definition pack_posdef_matrix (mat : arr) (diag_lb : num) : res arr :=
  match shape mat with
  | [k; m] =>
      if negb (Nat.eqb k m) then Raise ValueError
      else
        let mat_lb := mk_mat k k (fun i j => nsub (mget NaN mat i j) (make_diagonal (fun _ => diag_lb) i j)) in
        do c <- np_cholesky mat_lb;
        do l <- log_matrix_diagonal c;
        vectorize_ld_matrix l
  | _ => Raise ValueError
  end.

(** np.matmul(a, b.T) for square matrices *)
Definition matmul_t (n : nat) (a b : arr) : arr :=
  mk_mat n n (fun i j => nsum (map (fun k => nmul (mget NaN a i k) (mget NaN b j k)) (seq 0 n))).

(** MatrixParameters.py:108-112 *)
Definition unpack_posdef_matrix (free_vec : arr) (diag_lb : num) : res arr :=
  do u <- unvectorize_ld_matrix free_vec;
  do mat_chol <- exp_matrix_diagonal u;
  let k := nrows mat_chol in
  let mat := matmul_t k mat_chol mat_chol in
  Ok (mk_mat k k (fun i j => nadd (mget NaN mat i j) (make_diagonal (fun _ => diag_lb) i j))).

(** MatrixParameters.py:117-125 *)
Definition unvectorize_symmetric_matrix (vec_val : arr) : res arr :=
  do ld <- unvectorize_ld_matrix vec_val;
  let n := nrows ld in
  Ok (mk_mat n n (fun i j =>
        nsub (nadd (mget NaN ld i j) (mget NaN ld j i)) (make_diagonal (fun k => mget NaN ld k k) i j))).

(** MatrixParameters.py:128-130 *)
Definition pos_def_matrix_free_to_vector (free_val : arr) (diag_lb : num) : res arr :=
  do m <- unpack_posdef_matrix free_val diag_lb; vectorize_ld_matrix m.

(** ---- PosDefMatrixParam, MatrixParameters.py:137-198 ---- *)
Record posdef_param := PosDefP { pd_name : string; pd_size : nat; pd_lb : num; pd_val : arr }.
(** MatrixParameters.py:141, 195-198 *)
Definition pd_vec_size (p : posdef_param) : nat := (pd_size p * (pd_size p + 1) / 2)%nat.
(** MatrixParameters.py:160-166. val.transpose() == val compares entrywise (NaN is unequal to itself). *)
Definition posdef_set (p : posdef_param) (val : arr) : posdef_param * res unit :=
  match shape val with
  | [nrow; ncol] =>
      if negb (Nat.eqb nrow (pd_size p)) || negb (Nat.eqb ncol (pd_size p)) then (p, Raise ValueError)
      else if negb (forallb (fun i => forallb (fun j => neqb (mget NaN val j i) (mget NaN val i j)) (seq 0 ncol)) (seq 0 nrow))
      then (p, Raise ValueError)
      else (PosDefP (pd_name p) (pd_size p) (pd_lb p) val, Ok tt)
  | _ => (p, Raise ValueError)
  end.
(** MatrixParameters.py:138-147 *)
Definition posdef_init (name : string) (size : nat) (diag_lb : num) (val : option arr) : res posdef_param :=
  rassert (nleb (Fin 0) diag_lb)
    match val with
    | None => Ok (PosDefP name size diag_lb (mk_mat size size (make_diagonal (fun _ => nadd diag_lb (Fin 1)))))
    | Some v => match posdef_set (PosDefP name size diag_lb v) v with
                | (p, Ok _) => Ok p
                | (_, Raise e) => Raise e
                end
    end.
Definition posdef_get (p : posdef_param) : arr := pd_val p.
(** MatrixParameters.py:170-173 *)
Definition posdef_set_free (p : posdef_param) (free_val : arr) : posdef_param * res unit :=
  if negb (Nat.eqb (nd_size free_val) (pd_vec_size p)) then (p, Raise ValueError)
  else match unpack_posdef_matrix free_val (pd_lb p) with
       | Ok m => posdef_set p m
       | Raise e => (p, Raise e)
       end.
(** MatrixParameters.py:174-175 *)
Definition posdef_get_free (p : posdef_param) : res arr := pack_posdef_matrix (pd_val p) (pd_lb p).
(** MatrixParameters.py:186-189 *)
Definition posdef_set_vector (p : posdef_param) (vec_val : arr) : posdef_param * res unit :=
  if negb (Nat.eqb (nd_size vec_val) (pd_vec_size p)) then (p, Raise ValueError)
  else match unvectorize_symmetric_matrix vec_val with
       | Ok m => posdef_set p m
       | Raise e => (p, Raise e)
       end.
(** MatrixParameters.py:190-191 *)
Definition posdef_get_vector (p : posdef_param) : res arr := vectorize_ld_matrix (pd_val p).
(** MatrixParameters.py:176-178 on finite input, as a real map *)
Definition posdef_free_to_vector (p : posdef_param) (x : list R) : list R :=
  match posdef_set_free p (nd_vec (map Fin x)) with
  | (p', Ok _) => match posdef_get_vector p' with Ok v => map toR (data v) | Raise _ => [] end
  | (_, Raise _) => []
  end.
(** MatrixParameters.py:150, 179-180 *)
Definition posdef_free_to_vector_jac (p : posdef_param) (x : list R) : coo :=
  coo_of_dense (pd_vec_size p) (length x) (ad_jac (posdef_free_to_vector p) x).
(** MatrixParameters.py:151, 181-184 *)
Definition posdef_free_to_vector_hess (p : posdef_param) (x : list R) : list coo :=
  map (fun k => coo_of_dense (length x) (length x) (ad_hess (posdef_free_to_vector p) x k)) (seq 0 (pd_vec_size p)).

(** ---- indexing and stacking used by the vector and array versions ---- *)
(** val[i0, i1, ...] with leading integer indices *)
Fixpoint nd_index {A} (a : nd A) (idx : list nat) : res (nd A) :=
  match idx with
  | [] => Ok a
  | i :: is =>
      match shape a with
      | [] => Raise IndexError
      | n :: rest =>
          if Nat.ltb i n
          then nd_index (Nd rest (slice (data a) (i * nprod rest) (i * nprod rest + nprod rest))) is
          else Raise IndexError
      end
  end.
(** np.array([...]) of arrays of the same shape.
    SIMPLIFICATION: ragged lists raise ValueError (never reached by the code modelled here). *)
Definition np_stack {A} (l : list (nd A)) : res (nd A) :=
  match l with
  | [] => Ok (Nd [0%nat] [])
  | a :: _ => if forallb (fun b => shape_eqb (shape b) (shape a)) l
              then Ok (Nd (List.length l :: shape a) (List.concat (map data l)))
              else Raise ValueError
  end.
(** (val.shape != np.array(s)).all(): entrywise comparison of shapes. A one-element shape broadcasts; other
    length mismatches compare to a bool without .all (AttributeError in the numpy of the time). *)
Definition shape_ne_all (vs s : list nat) : res bool :=
  if Nat.eqb (List.length vs) (List.length s)
  then Ok (forallb (fun ab => negb (Nat.eqb (fst ab) (snd ab))) (combine vs s))
  else match vs with
       | [v] => Ok (forallb (fun b => negb (Nat.eqb v b)) s)
       | _ => Raise AttributeError
       end.

(** ---- PosDefMatrixParamVector, MatrixParameters.py:201-318 ---- *)
Record posdef_vector := PosDefV { pv_name : string; pv_length : nat; pv_size : nat; pv_lb : num; pv_val : arr }.
Definition pv_shape (p : posdef_vector) : list nat := [pv_length p; pv_size p; pv_size p].
Definition pv_vec_size (p : posdef_vector) : nat := (pv_size p * (pv_size p + 1) / 2)%nat.
(** MatrixParameters.py:315-318 *)
Definition pv_free_size (p : posdef_vector) : nat := (pv_vec_size p * pv_length p)%nat.
Definition pv_vector_size (p : posdef_vector) : nat := (pv_vec_size p * pv_length p)%nat.
Definition pv_with (p : posdef_vector) (v : arr) : posdef_vector :=
  PosDefV (pv_name p) (pv_length p) (pv_size p) (pv_lb p) v.
(** MatrixParameters.py:225-228 *)
Definition pv_set (p : posdef_vector) (val : arr) : posdef_vector * res unit :=
  match shape_ne_all (shape val) (pv_shape p) with
  | Ok true => (p, Raise ValueError)
  | Ok false => (pv_with p val, Ok tt)
  | Raise e => (p, Raise e)
  end.
(** MatrixParameters.py:202-216 *)
Definition pv_init (name : string) (len size : nat) (diag_lb : num) (val : option arr) : res posdef_vector :=
  rassert (nleb (Fin 0) diag_lb)
    match val with
    | None =>
        let d := mk_mat size size (make_diagonal (fun _ => nadd diag_lb (Fin 1))) in
        Ok (PosDefV name len size diag_lb (Nd [len; size; size] (List.concat (repeat (data d) len))))
    | Some v => match pv_set (PosDefV name len size diag_lb v) v with
                | (p, Ok _) => Ok p
                | (_, Raise e) => Raise e
                end
    end.
(** MatrixParameters.py:232-234 *)
Definition free_obs_slice (p : posdef_vector) (obs : nat) : res (nat * nat) :=
  rassert (Nat.ltb obs (pv_length p)) (Ok (pv_vec_size p * obs, pv_vec_size p * (obs + 1))%nat).
(** MatrixParameters.py:236-242 *)
Definition pv_set_free (p : posdef_vector) (free_val : arr) : posdef_vector * res unit :=
  if negb (Nat.eqb (nd_size free_val) (pv_free_size p)) then (p, Raise ValueError)
  else match (do ms <- rmapM (fun obs => do sl <- free_obs_slice p obs;
                                         do s <- np_slice free_val (fst sl) (snd sl);
                                         unpack_posdef_matrix s (pv_lb p)) (seq 0 (pv_length p));
              np_stack ms) with
       | Ok v => (pv_with p v, Ok tt)
       | Raise e => (p, Raise e)
       end.
(** self.__val[obs, :, :] *)
Definition pv_item (p : posdef_vector) (obs : nat) : res arr :=
  if Nat.leb 3 (List.length (shape (pv_val p))) then nd_index (pv_val p) [obs] else Raise IndexError.
(** MatrixParameters.py:244-247 *)
Definition pv_get_free (p : posdef_vector) : res arr :=
  do l <- rmapM (fun obs => do m <- pv_item p obs; pack_posdef_matrix m (pv_lb p)) (seq 0 (pv_length p));
  np_hstack l.
(** MatrixParameters.py:299-305 *)
Definition pv_set_vector (p : posdef_vector) (vec_val : arr) : posdef_vector * res unit :=
  match np_len vec_val with
  | Raise e => (p, Raise e)
  | Ok n =>
    if negb (Nat.eqb n (pv_vector_size p)) then (p, Raise ValueError)
    else match (do ms <- rmapM (fun obs => do sl <- free_obs_slice p obs;
                                           do s <- np_slice vec_val (fst sl) (snd sl);
                                           unvectorize_symmetric_matrix s) (seq 0 (pv_length p));
                np_stack ms) with
         | Ok v => (pv_with p v, Ok tt)
         | Raise e => (p, Raise e)
         end
  end.
(** MatrixParameters.py:307-309 *)
Definition pv_get_vector (p : posdef_vector) : res arr :=
  do l <- rmapM (fun obs => do m <- pv_item p obs; vectorize_ld_matrix m) (seq 0 (pv_length p));
  np_hstack l.

(** ---- PosDefMatrixParamArray, MatrixParameters.py:323-481 ---- *)
Record posdef_array := PosDefA { pa_name : string; pa_ashape : list nat; pa_size : nat; pa_lb : num; pa_val : arr }.
Definition pa_shape (p : posdef_array) : list nat := pa_ashape p ++ [pa_size p; pa_size p].
Definition pa_length (p : posdef_array) : nat := nprod (pa_ashape p).
Definition pa_vec_size (p : posdef_array) : nat := (pa_size p * (pa_size p + 1) / 2)%nat.
(** MatrixParameters.py:476-479 *)
Definition pa_free_size (p : posdef_array) : nat := (pa_vec_size p * pa_length p)%nat.
Definition pa_vector_size (p : posdef_array) : nat := (pa_vec_size p * pa_length p)%nat.
Definition pa_with (p : posdef_array) (v : arr) : posdef_array :=
  PosDefA (pa_name p) (pa_ashape p) (pa_size p) (pa_lb p) v.
(** MatrixParameters.py:349-354 *)
Definition pa_set (p : posdef_array) (val : arr) : posdef_array * res unit :=
  match shape_ne_all (shape val) (pa_shape p) with
  | Ok true => (p, Raise ValueError)
  | Ok false => (pa_with p val, Ok tt)
  | Raise e => (p, Raise e)
  end.
(** The array_shape argument: a tuple, or a plain integer such as the default (1). *)
Inductive shape_arg := ShapeTuple (s : list nat) | ShapeInt (n : nat).
(** MatrixParameters.py:324-340. Line 329 iterates over array_shape: TypeError for an integer. For the empty tuple line 331 makes the shape an array
    of doubles, which np.broadcast_to rejects with a TypeError. SIMPLIFICATION: with the empty tuple and a value the object is constructed, but
    the later reshapes to the shape of doubles are not modelled; the theorems are meant for array_shape <> (). *)
Definition pa_init (name : string) (ash : shape_arg) (size : nat) (diag_lb : num) (val : option arr) : res posdef_array :=
  match ash with
  | ShapeInt _ => Raise TypeError
  | ShapeTuple s =>
      rassert (nleb (Fin 0) diag_lb)
        match val with
        | None =>
            if Nat.eqb (List.length s) 0 then Raise TypeError else
            let d := mk_mat size size (make_diagonal (fun _ => nadd diag_lb (Fin 1))) in
            Ok (PosDefA name s size diag_lb (Nd (s ++ [size; size]) (List.concat (repeat (data d) (nprod s)))))
        | Some v => match pa_set (PosDefA name s size diag_lb v) v with
                    | (p, Ok _) => Ok p
                    | (_, Raise e) => Raise e
                    end
        end
  end.
(** MatrixParameters.py:362-366 *)
Definition stacked_obs_slice (p : posdef_array) (obs : list nat) : res (nat * nat) :=
  rassert (Nat.eqb (List.length obs) (List.length (pa_ashape p)))
    (let lin := (ravel obs (pa_ashape p) * pa_vec_size p)%nat in Ok (lin, (lin + pa_vec_size p)%nat)).
(** MatrixParameters.py:368-376 *)
Definition pa_set_free (p : posdef_array) (free_val : arr) : posdef_array * res unit :=
  if negb (Nat.eqb (nd_size free_val) (pa_free_size p)) then (p, Raise ValueError)
  else match (do ms <- rmapM (fun obs => do sl <- stacked_obs_slice p obs;
                                         do s <- np_slice free_val (fst sl) (snd sl);
                                         unpack_posdef_matrix s (pa_lb p)) (product (pa_ashape p));
              do st <- np_stack ms; np_reshape st (pa_shape p)) with
       | Ok v => (pa_with p v, Ok tt)
       | Raise e => (p, Raise e)
       end.
(** MatrixParameters.py:389-395 *)
Definition pa_get_free (p : posdef_array) : res arr :=
  do l <- rmapM (fun obs => do m <- nd_index (pa_val p) obs; pack_posdef_matrix m (pa_lb p)) (product (pa_ashape p));
  np_hstack l.
(** MatrixParameters.py:397-404 *)
Definition pa_set_vector (p : posdef_array) (vec_val : arr) : posdef_array * res unit :=
  match np_len vec_val with
  | Raise e => (p, Raise e)
  | Ok n =>
    if negb (Nat.eqb n (pa_vector_size p)) then (p, Raise ValueError)
    else match (do ms <- rmapM (fun obs => do sl <- stacked_obs_slice p obs;
                                           do s <- np_slice vec_val (fst sl) (snd sl);
                                           unvectorize_symmetric_matrix s) (product (pa_ashape p));
                do st <- np_stack ms; np_reshape st (pa_shape p)) with
         | Ok v => (pa_with p v, Ok tt)
         | Raise e => (p, Raise e)
         end
  end.
(** MatrixParameters.py:406-411 *)
Definition pa_get_vector (p : posdef_array) : res arr :=
  do l <- rmapM (fun obs => do m <- nd_index (pa_val p) obs; vectorize_ld_matrix m) (product (pa_ashape p));
  np_hstack l.

(** ---- derivatives of the vector and array versions ---- *)
(** MatrixParameters.py:128-135: autograd of pos_def_matrix_free_to_vector with its default diag_lb = 0.0 *)
Definition pdm_real (lb : num) (x : list R) : list R :=
  match pos_def_matrix_free_to_vector (nd_vec (map Fin x)) lb with
  | Ok v => map toR (data v)
  | Raise _ => []
  end.
Definition pos_def_matrix_free_to_vector_jac (x : list R) : nat -> nat -> R := ad_jac (pdm_real (Fin 0)) x.
Definition pos_def_matrix_free_to_vector_hess (x : list R) : nat -> nat -> nat -> R := ad_hess (pdm_real (Fin 0)) x.
(** free_val[vec_inds] for an index array *)
Definition gather (x : list R) (inds : list nat) : list R := map (fun i => nth i x 0) inds.

(** MatrixParameters.py:253-271 (vector) and 417-440 (array): [blocks] lists vec_inds for each observation. *)
Definition block_jac (blocks : list (list nat)) (vs total : nat) (x : list R) : coo :=
  Coo (total, total)
    (flat_map (fun vec_inds =>
       let row_jac := pos_def_matrix_free_to_vector_jac (gather x vec_inds) in
       flat_map (fun vec_row => map (fun free_row =>
           ((nth vec_row vec_inds 0%nat, nth free_row vec_inds 0%nat), row_jac vec_row free_row)) (seq 0 vs)) (seq 0 vs))
     blocks).
(** MatrixParameters.py:273-297 (vector) and 442-470 (array) *)
Definition block_hess (blocks : list (list nat)) (vs total : nat) (x : list R) : list coo :=
  flat_map (fun vec_inds =>
      let row_hess := pos_def_matrix_free_to_vector_hess (gather x vec_inds) in
      map (fun vec_row =>
        Coo (total, total)
          (flat_map (fun free_row1 => map (fun free_row2 =>
             ((nth free_row1 vec_inds 0%nat, nth free_row2 vec_inds 0%nat), row_hess vec_row free_row1 free_row2))
             (seq 0 vs)) (seq 0 vs))) (seq 0 vs))
    blocks.
(** np.ravel_multi_index([[row], vec_rows], (length, vec_size)) *)
Definition pv_blocks (p : posdef_vector) : list (list nat) :=
  map (fun row => map (fun k => ravel [row; k] [pv_length p; pv_vec_size p]) (seq 0 (pv_vec_size p))) (seq 0 (pv_length p)).
(** np.ravel_multi_index(obs + (vec_rows,), array_shape + (vec_size,)) *)
Definition pa_blocks (p : posdef_array) : list (list nat) :=
  map (fun obs => map (fun k => ravel (obs ++ [k]) (pa_ashape p ++ [pa_vec_size p])) (seq 0 (pa_vec_size p)))
      (product (pa_ashape p)).
Definition pv_free_to_vector_jac (p : posdef_vector) (x : list R) : coo :=
  block_jac (pv_blocks p) (pv_vec_size p) (pv_free_size p) x.
Definition pv_free_to_vector_hess (p : posdef_vector) (x : list R) : list coo :=
  block_hess (pv_blocks p) (pv_vec_size p) (pv_free_size p) x.
Definition pa_free_to_vector_jac (p : posdef_array) (x : list R) : coo :=
  block_jac (pa_blocks p) (pa_vec_size p) (pa_free_size p) x.
Definition pa_free_to_vector_hess (p : posdef_array) (x : list R) : list coo :=
  block_hess (pa_blocks p) (pa_vec_size p) (pa_free_size p) x.
(** free_to_vector, MatrixParameters.py:249-251 and 413-415, on finite 1-d input *)
Definition pv_free_to_vector (p : posdef_vector) (x : list R) : list R :=
  match pv_set_free p (nd_vec (map Fin x)) with
  | (p', Ok _) => match pv_get_vector p' with Ok v => map toR (data v) | Raise _ => [] end
  | (_, Raise _) => []
  end.
Definition pa_free_to_vector (p : posdef_array) (x : list R) : list R :=
  match pa_set_free p (nd_vec (map Fin x)) with
  | (p', Ok _) => match pa_get_vector p' with Ok v => map toR (data v) | Raise _ => [] end
  | (_, Raise _) => []
  end.
