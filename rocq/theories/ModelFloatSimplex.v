(** SimplexParam over IEEE-754 binary64 numbers, as numpy and scipy compute it.
    SIMPLIFICATION: numpy's exp, log and sum are the arguments [fexp], [flog] and [fsum]; the theorems quantify over all
    that meet a stated contract.
    SIMPLIFICATION: a two-dimensional array is the list of its rows; there is at least one column. *)
From Coq Require Import ZArith List Bool.
From Flocq Require Import Core BinarySingleNaN.
From Verif Require Import Res ModelFloat.
Import ListNotations.

Section WithLibm.
Context (fexp flog : dbl -> dbl) (fsum : list dbl -> dbl).

(** np.maximum of two numbers; a NaN wins *)
Definition f_maximum (a b : dbl) : dbl := if fle b a || is_nan a then a else b.
(** np.amax of a row with at least one entry *)
Definition f_amax (l : list dbl) : dbl := match l with [] => B754_nan | a :: l' => fold_left f_maximum l' a end.
(** scipy's logsumexp of one row: subtract the maximum (0 if it is not finite), exponentiate, add up, take the
    logarithm, add the maximum *)
Definition f_logsumexp (l : list dbl) : dbl :=
  let a_max := f_amax l in
  let a_max := if is_finite a_max then a_max else B754_zero false in
  fadd (flog (fsum (map (fun a => fexp (fsub a a_max)) l))) a_max.

(** SimplexParams.py:11-18, one row: the free values with 0 in front *)
Definition f_constrain_simplex_row (free : list dbl) : list dbl :=
  let aug := B754_zero false :: free in
  let log_norm := f_logsumexp aug in
  map (fun a => fexp (fsub a log_norm)) aug.

(** SimplexParams.py:21-23, one row *)
Definition f_unconstrain_simplex_row (row : list dbl) : list dbl :=
  match row with
  | [] => []
  | p0 :: ps => map (fun p => fsub (flog p) (flog p0)) ps
  end.

(** SimplexParam's state: SimplexParams.py:70-77 *)
Record fsimplex := mkFS { fs_rows : nat; fs_cols : nat; fs_val : list (list dbl) }.

(** SimplexParams.py:86-89 *)
Definition fsimplex_set (p : fsimplex) (val : list (list dbl)) : res fsimplex :=
  if Nat.eqb (length val) (fs_rows p) && forallb (fun row => Nat.eqb (length row) (fs_cols p)) val
  then Ok (mkFS (fs_rows p) (fs_cols p) val) else Raise ValueError.

(** the double nearest to a natural number (conversion of shape[1] in 1. / shape[1]) *)
Definition f_of_nat (n : nat) : dbl := binary_normalize 53 1024 prec53 emax1024 mode_NE (Z.of_nat n) 0 false.

(** SimplexParams.py:70-77; 1. / shape[1] raises for Python's integer zero.
    SIMPLIFICATION: a number of columns beyond the largest double would raise OverflowError. *)
Definition fsimplex_init (rows cols : nat) (val : option (list (list dbl))) : res fsimplex :=
  let p := mkFS rows cols [] in
  match val with
  | Some v => fsimplex_set p v
  | None => if Nat.eqb cols 0 then Raise ZeroDivisionError
            else fsimplex_set p (repeat (repeat (fdiv f_one (f_of_nat cols)) cols) rows)
  end.

(** np.reshape(free_val, (rows, n)) *)
Fixpoint reshape_rows (rows n : nat) (l : list dbl) : list (list dbl) :=
  match rows with
  | O => []
  | S r => firstn n l :: reshape_rows r n (skipn n l)
  end.

(** SimplexParams.py:93-97 *)
Definition fsimplex_set_free (p : fsimplex) (free_val : list dbl) : res fsimplex :=
  if Nat.eqb (length free_val) (fs_rows p * (fs_cols p - 1))
  then fsimplex_set p (map f_constrain_simplex_row (reshape_rows (fs_rows p) (fs_cols p - 1) free_val))
  else Raise ValueError.

(** SimplexParams.py:98-99 *)
Definition fsimplex_get_free (p : fsimplex) : list dbl := concat (map f_unconstrain_simplex_row (fs_val p)).

(** SimplexParams.py:90-91 *)
Definition fsimplex_get (p : fsimplex) : list (list dbl) := fs_val p.
End WithLibm.
