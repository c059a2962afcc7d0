(** PosDefMatrixParamVector and PosDefMatrixParamArray over IEEE-754 binary64 numbers; ModelMatrix.v has the same lines over exact reals, and
    ModelFloatMatrix.v the functions on one matrix. exp, log, the entries of a matrix times its own transpose and the Cholesky
    factorisation are arguments as there.
    SIMPLIFICATION: free vectors and vectors are lists of doubles (1-d arrays). An assignment is the last step of each method, so a call that raises
    leaves the object as it was: a method returns the new object, or what it raises. *)
From Coq Require Import ZArith List Bool Arith.
From Flocq Require Import Core BinarySingleNaN.
From Verif Require Import Res Nd ModelFloat ModelMatrix ModelFloatMatrix.
Import List ListNotations.

(** np.hstack of a list of 1-d arrays, or of the rows of a 2-d array: ValueError for none *)
Definition f_hstack (l : list (list dbl)) : res (list dbl) :=
  match l with
  | [] => Raise ValueError
  | _ => Ok (List.concat l)
  end.
(** np.broadcast_to(np.diag(np.full(size, diag_lb + 1.0)), ...): MatrixParameters.py:213-214, 337-338 *)
Definition f_default_stack (s : list nat) (size : nat) (diag_lb : dbl) : nd dbl :=
  Nd (s ++ [size; size]) (List.concat (repeat (data (mk_mat size size (f_make_diagonal (fun _ => fadd diag_lb f_one)))) (nprod s))).

Section WithLibraries.
Context (fexp flog : dbl -> dbl) (fdot : nat -> nat -> list dbl -> list dbl -> dbl) (fchol : nd dbl -> res (nd dbl)).

(** ---- PosDefMatrixParamVector, MatrixParameters.py:201-318 ---- *)
Record fposdef_vector := mkFV { fv_length : nat; fv_size : nat; fv_lb : dbl; fv_val : nd dbl }.
(** MatrixParameters.py:209 *)
Definition fv_vec_size (p : fposdef_vector) : nat := (fv_size p * (fv_size p + 1) / 2)%nat.
(** MatrixParameters.py:315-318 *)
Definition fv_free_size (p : fposdef_vector) : nat := (fv_vec_size p * fv_length p)%nat.
Definition fv_vector_size (p : fposdef_vector) : nat := (fv_vec_size p * fv_length p)%nat.
Definition fv_with (p : fposdef_vector) (v : nd dbl) : fposdef_vector := mkFV (fv_length p) (fv_size p) (fv_lb p) v.
(** MatrixParameters.py:225-228: the value is not inspected *)
Definition fv_set (p : fposdef_vector) (val : nd dbl) : res fposdef_vector :=
  do ne <- shape_ne_all (shape val) [fv_length p; fv_size p; fv_size p];
  if ne then Raise ValueError else Ok (fv_with p val).
(** MatrixParameters.py:229-230 *)
Definition fv_get (p : fposdef_vector) : nd dbl := fv_val p.
(** MatrixParameters.py:202-216 *)
Definition fv_init (len size : nat) (diag_lb : dbl) (val : option (nd dbl)) : res fposdef_vector :=
  rassert (fle f_zero diag_lb)
    match val with
    | None => Ok (mkFV len size diag_lb (f_default_stack [len] size diag_lb))
    | Some v => fv_set (mkFV len size diag_lb v) v
    end.
(** MatrixParameters.py:232-234 *)
Definition fv_obs_slice (p : fposdef_vector) (obs : nat) : res (nat * nat) :=
  rassert (Nat.ltb obs (fv_length p)) (Ok (fv_vec_size p * obs, fv_vec_size p * (obs + 1))%nat).
(** MatrixParameters.py:236-242 *)
Definition fv_set_free (p : fposdef_vector) (free_val : list dbl) : res fposdef_vector :=
  if negb (Nat.eqb (length free_val) (fv_free_size p)) then Raise ValueError
  else do ms <- rmapM (fun obs => do sl <- fv_obs_slice p obs;
                                  f_unpack_posdef_matrix fexp fdot (slice free_val (fst sl) (snd sl)) (fv_lb p)) (seq 0 (fv_length p));
       do v <- np_stack ms; Ok (fv_with p v).
(** self.__val[obs, :, :] *)
Definition fv_item (p : fposdef_vector) (obs : nat) : res (nd dbl) :=
  if Nat.leb 3 (length (shape (fv_val p))) then nd_index (fv_val p) [obs] else Raise IndexError.
(** MatrixParameters.py:244-247 *)
Definition fv_get_free (p : fposdef_vector) : res (list dbl) :=
  do l <- rmapM (fun obs => do m <- fv_item p obs; f_pack_posdef_matrix flog fchol m (fv_lb p)) (seq 0 (fv_length p));
  f_hstack l.
(** MatrixParameters.py:299-305 *)
Definition fv_set_vector (p : fposdef_vector) (vec_val : list dbl) : res fposdef_vector :=
  if negb (Nat.eqb (length vec_val) (fv_vector_size p)) then Raise ValueError
  else do ms <- rmapM (fun obs => do sl <- fv_obs_slice p obs;
                                  f_unvectorize_symmetric_matrix (slice vec_val (fst sl) (snd sl))) (seq 0 (fv_length p));
       do v <- np_stack ms; Ok (fv_with p v).
(** MatrixParameters.py:307-309 *)
Definition fv_get_vector (p : fposdef_vector) : res (list dbl) :=
  do l <- rmapM (fun obs => do m <- fv_item p obs; f_vectorize_ld_matrix m) (seq 0 (fv_length p));
  f_hstack l.

(** ---- PosDefMatrixParamArray, MatrixParameters.py:323-481 ---- *)
Record fposdef_array := mkFA { fa_ashape : list nat; fa_size : nat; fa_lb : dbl; fa_val : nd dbl }.
(** MatrixParameters.py:333 *)
Definition fa_vec_size (p : fposdef_array) : nat := (fa_size p * (fa_size p + 1) / 2)%nat.
(** MatrixParameters.py:331 *)
Definition fa_shape (p : fposdef_array) : list nat := fa_ashape p ++ [fa_size p; fa_size p].
(** MatrixParameters.py:330, 476-479 *)
Definition fa_free_size (p : fposdef_array) : nat := (fa_vec_size p * nprod (fa_ashape p))%nat.
Definition fa_vector_size (p : fposdef_array) : nat := (fa_vec_size p * nprod (fa_ashape p))%nat.
Definition fa_with (p : fposdef_array) (v : nd dbl) : fposdef_array := mkFA (fa_ashape p) (fa_size p) (fa_lb p) v.
(** MatrixParameters.py:349-354 *)
Definition fa_set (p : fposdef_array) (val : nd dbl) : res fposdef_array :=
  do ne <- shape_ne_all (shape val) (fa_shape p);
  if ne then Raise ValueError else Ok (fa_with p val).
(** MatrixParameters.py:356-357 *)
Definition fa_get (p : fposdef_array) : nd dbl := fa_val p.
(** MatrixParameters.py:324-340; the errors for an integer and for the empty tuple are those of [pa_init] in ModelMatrix.v *)
Definition fa_init (ash : shape_arg) (size : nat) (diag_lb : dbl) (val : option (nd dbl)) : res fposdef_array :=
  match ash with
  | ShapeInt _ => Raise TypeError
  | ShapeTuple s =>
      rassert (fle f_zero diag_lb)
        match val with
        | None => if Nat.eqb (length s) 0 then Raise TypeError else Ok (mkFA s size diag_lb (f_default_stack s size diag_lb))
        | Some v => fa_set (mkFA s size diag_lb v) v
        end
  end.
(** MatrixParameters.py:362-366 *)
Definition fa_obs_slice (p : fposdef_array) (obs : list nat) : res (nat * nat) :=
  rassert (Nat.eqb (length obs) (length (fa_ashape p)))
    (let lin := (ravel obs (fa_ashape p) * fa_vec_size p)%nat in Ok (lin, (lin + fa_vec_size p)%nat)).
(** MatrixParameters.py:368-376 *)
Definition fa_set_free (p : fposdef_array) (free_val : list dbl) : res fposdef_array :=
  if negb (Nat.eqb (length free_val) (fa_free_size p)) then Raise ValueError
  else do ms <- rmapM (fun obs => do sl <- fa_obs_slice p obs;
                                  f_unpack_posdef_matrix fexp fdot (slice free_val (fst sl) (snd sl)) (fa_lb p)) (product (fa_ashape p));
       do st <- np_stack ms; do v <- np_reshape st (fa_shape p); Ok (fa_with p v).
(** MatrixParameters.py:389-395 *)
Definition fa_get_free (p : fposdef_array) : res (list dbl) :=
  do l <- rmapM (fun obs => do m <- nd_index (fa_val p) obs; f_pack_posdef_matrix flog fchol m (fa_lb p)) (product (fa_ashape p));
  f_hstack l.
(** MatrixParameters.py:397-404 *)
Definition fa_set_vector (p : fposdef_array) (vec_val : list dbl) : res fposdef_array :=
  if negb (Nat.eqb (length vec_val) (fa_vector_size p)) then Raise ValueError
  else do ms <- rmapM (fun obs => do sl <- fa_obs_slice p obs;
                                  f_unvectorize_symmetric_matrix (slice vec_val (fst sl) (snd sl))) (product (fa_ashape p));
       do st <- np_stack ms; do v <- np_reshape st (fa_shape p); Ok (fa_with p v).
(** MatrixParameters.py:406-411 *)
Definition fa_get_vector (p : fposdef_array) : res (list dbl) :=
  do l <- rmapM (fun obs => do m <- nd_index (fa_val p) obs; f_vectorize_ld_matrix m) (product (fa_ashape p));
  f_hstack l.
End WithLibraries.
