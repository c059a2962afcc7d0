(** PosDefMatrixParam over IEEE-754 binary64 numbers, as numpy computes it; ModelMatrix.v has the same lines over exact reals.
    SIMPLIFICATION: exp, log, the entries of a matrix times its own transpose and the Cholesky factorisation are the arguments [fexp],
    [flog], [fdot] (position, row, row) and [fchol]; the theorems quantify over all that meet a stated contract.
    SIMPLIFICATION: free vectors and vectors are lists of doubles (1-d arrays); matrices are arrays with a shape. *)
From Coq Require Import ZArith List Bool Arith.
From Flocq Require Import Core BinarySingleNaN.
From Verif Require Import Res Nd ModelFloat ModelMatrix.
Import List ListNotations.

Definition f_zero : dbl := B754_zero false.

(** MatrixParameters.py:38-41 *)
Definition f_vectorize_ld_matrix (mat : nd dbl) : res (list dbl) :=
  match shape mat with
  | [nrow; ncol] => if negb (Nat.eqb nrow ncol) then Raise ValueError else Ok (tril_list nrow (mget f_zero mat))
  | _ => Raise ValueError
  end.
(** MatrixParameters.py:60-68, with the square root taken exactly (see [ld_mat_size]) *)
Definition f_unvectorize_ld_matrix (vec : list dbl) : res (nd dbl) :=
  let n := ld_mat_size (length vec) in
  if negb (Nat.eqb (n * (n + 1)) (2 * length vec)) then Raise ValueError
  else Ok (mk_mat n n (fun k1 k2 => if Nat.leb k2 k1 then nth (SymIndex k1 k2) vec f_zero else f_zero)).

(** np.make_diagonal(d) as an entry function *)
Definition f_make_diagonal (d : nat -> dbl) (i j : nat) : dbl := if Nat.eqb i j then d i else f_zero.
(** MatrixParameters.py:83-89 and 92-98: f is np.exp or np.log; make_diagonal(f(diag)) + mat - make_diagonal(diag), from left to right *)
Definition f_map_matrix_diagonal (f : dbl -> dbl) (mat : nd dbl) : res (nd dbl) :=
  match shape mat with
  | [n; m] => rassert (Nat.eqb n m)
      (Ok (mk_mat n n (fun i j =>
         fsub (fadd (f_make_diagonal (fun k => f (mget f_zero mat k k)) i j) (mget f_zero mat i j))
              (f_make_diagonal (fun k => mget f_zero mat k k) i j))))
  | _ => Raise IndexError
  end.

Section WithLibraries.
Context (fexp flog : dbl -> dbl) (fdot : nat -> nat -> list dbl -> list dbl -> dbl) (fchol : nd dbl -> res (nd dbl)).

(** MatrixParameters.py:101-105 *)
Definition f_pack_posdef_matrix (mat : nd dbl) (diag_lb : dbl) : res (list dbl) :=
  match shape mat with
  | [k; m] =>
      if negb (Nat.eqb k m) then Raise ValueError
      else
        let mat_lb := mk_mat k k (fun i j => fsub (mget f_zero mat i j) (f_make_diagonal (fun _ => diag_lb) i j)) in
        do c <- fchol mat_lb;
        do l <- f_map_matrix_diagonal flog c;
        f_vectorize_ld_matrix l
  | _ => Raise ValueError
  end.

(** row i of a square matrix *)
Definition f_row (n : nat) (mat : nd dbl) (i : nat) : list dbl := map (mget f_zero mat i) (seq 0 n).
(** MatrixParameters.py:108-112 *)
Definition f_unpack_posdef_matrix (free_vec : list dbl) (diag_lb : dbl) : res (nd dbl) :=
  do u <- f_unvectorize_ld_matrix free_vec;
  do mat_chol <- f_map_matrix_diagonal fexp u;
  let k := nrows mat_chol in
  let mat := mk_mat k k (fun i j => fdot i j (f_row k mat_chol i) (f_row k mat_chol j)) in
  Ok (mk_mat k k (fun i j => fadd (mget f_zero mat i j) (f_make_diagonal (fun _ => diag_lb) i j))).

(** MatrixParameters.py:117-125 *)
Definition f_unvectorize_symmetric_matrix (vec_val : list dbl) : res (nd dbl) :=
  do ld <- f_unvectorize_ld_matrix vec_val;
  let n := nrows ld in
  Ok (mk_mat n n (fun i j =>
        fsub (fadd (mget f_zero ld i j) (mget f_zero ld j i)) (f_make_diagonal (fun k => mget f_zero ld k k) i j))).

(** PosDefMatrixParam's state: MatrixParameters.py:140-147 *)
Record fposdef := mkFP { fp_size : nat; fp_lb : dbl; fp_val : nd dbl }.
(** MatrixParameters.py:141, 195-198 *)
Definition fp_vec_size (p : fposdef) : nat := (fp_size p * (fp_size p + 1) / 2)%nat.
(** MatrixParameters.py:160-166: val.transpose() == val compares entry by entry, false at a NaN *)
Definition fposdef_set (p : fposdef) (val : nd dbl) : res fposdef :=
  match shape val with
  | [nrow; ncol] =>
      if negb (Nat.eqb nrow (fp_size p)) || negb (Nat.eqb ncol (fp_size p)) then Raise ValueError
      else if negb (forallb (fun i => forallb (fun j => feq (mget f_zero val j i) (mget f_zero val i j)) (seq 0 ncol)) (seq 0 nrow))
      then Raise ValueError
      else Ok (mkFP (fp_size p) (fp_lb p) val)
  | _ => Raise ValueError
  end.
(** MatrixParameters.py:138-147 *)
Definition fposdef_init (size : nat) (diag_lb : dbl) (val : option (nd dbl)) : res fposdef :=
  rassert (fle f_zero diag_lb)
    match val with
    | None => Ok (mkFP size diag_lb (mk_mat size size (f_make_diagonal (fun _ => fadd diag_lb f_one))))
    | Some v => fposdef_set (mkFP size diag_lb v) v
    end.
(** MatrixParameters.py:167-168 *)
Definition fposdef_get (p : fposdef) : nd dbl := fp_val p.
(** MatrixParameters.py:170-173 *)
Definition fposdef_set_free (p : fposdef) (free_val : list dbl) : res fposdef :=
  if negb (Nat.eqb (length free_val) (fp_vec_size p)) then Raise ValueError
  else do m <- f_unpack_posdef_matrix free_val (fp_lb p); fposdef_set p m.
(** MatrixParameters.py:174-175 *)
Definition fposdef_get_free (p : fposdef) : res (list dbl) := f_pack_posdef_matrix (fp_val p) (fp_lb p).
(** MatrixParameters.py:186-189 *)
Definition fposdef_set_vector (p : fposdef) (vec_val : list dbl) : res fposdef :=
  if negb (Nat.eqb (length vec_val) (fp_vec_size p)) then Raise ValueError
  else do m <- f_unvectorize_symmetric_matrix vec_val; fposdef_set p m.
(** MatrixParameters.py:190-191 *)
Definition fposdef_get_vector (p : fposdef) : res (list dbl) := f_vectorize_ld_matrix (fp_val p).
End WithLibraries.
