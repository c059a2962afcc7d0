(** ScalarParam and ArrayParam over IEEE-754 binary64 numbers. The transforms of the entries are those of ModelFloat.v.
    SIMPLIFICATION: as in ModelFloat.v, numpy's exp and log are the arguments [fexp] and [flog].
    SIMPLIFICATION: a Python float and a 0-d numpy array are both an array of shape []. *)
From Coq Require Import ZArith List Bool.
From Flocq Require Import Core BinarySingleNaN.
From Verif Require Import Res Nd ModelFloat.
Import ListNotations.

Section WithLibm.
Context (fexp flog : dbl -> dbl).

(** Parameters.py:47-61 *)
Definition nd_f_constrain (free : nd dbl) (lb ub : dbl) : res (nd dbl) :=
  if fle ub lb then Raise ValueError else Ok (nd_map (fun v => f_constrain_entry fexp v lb ub) free).
(** Parameters.py:31-44 *)
Definition nd_f_unconstrain (val : nd dbl) (lb ub : dbl) : res (nd dbl) :=
  if fle ub lb then Raise ValueError else Ok (nd_map (fun v => f_unconstrain_entry flog v lb ub) val).
(** Parameters.py:15-20 *)
Definition nd_f_unconstrain_array (val : nd dbl) (lb ub : dbl) : res (nd dbl) :=
  if negb (forallb (fun v => fle v ub) (data val)) then Raise ValueError
  else if negb (forallb (fun v => fle lb v) (data val)) then Raise ValueError
  else do u <- nd_f_unconstrain val lb ub; Ok (np_flatten u).
(** [not (val <= ub)] and the like: the truth value of an array with other than one entry is a ValueError (of an empty one: False) *)
Definition f_truth (c : list bool) : res bool :=
  match c with [] => Ok false | [b] => Ok b | _ => Raise ValueError end.
(** Parameters.py:23-28 *)
Definition nd_f_unconstrain_scalar (val : nd dbl) (lb ub : dbl) : res (nd dbl) :=
  do b <- f_truth (map (fun v => fle v ub) (data val));
  if negb b then Raise ValueError
  else do c <- f_truth (map (fun v => fle lb v) (data val));
       if negb c then Raise ValueError else nd_f_unconstrain val lb ub.

(** ScalarParam's state: Parameters.py:83-94, 118 *)
Record fscalar := mkFS { fs_lb : dbl; fs_ub : dbl; fs_val : nd dbl }.
(** Parameters.py:110-118, 140-141: no check *)
Definition fscalar_set (p : fscalar) (val : nd dbl) : res fscalar := Ok (mkFS (fs_lb p) (fs_ub p) val).
(** Parameters.py:83-94 *)
Definition fscalar_init (lb ub : dbl) (val : option (nd dbl)) : res fscalar :=
  if fle ub lb then Raise ValueError
  else if negb (fle f_ninf lb) then Raise AssertionError
  else if negb (fle ub f_inf) then Raise AssertionError
  else match val with
       | Some v => fscalar_set (mkFS lb ub v) v
       | None => let v := nd_scalar (f_get_inbounds_value lb ub) in fscalar_set (mkFS lb ub v) v
       end.
(** Parameters.py:119-120 *)
Definition fscalar_get (p : fscalar) : nd dbl := fs_val p.
(** Parameters.py:122-123 *)
Definition fscalar_set_free (p : fscalar) (free_val : nd dbl) : res fscalar :=
  do v <- nd_f_constrain free_val (fs_lb p) (fs_ub p); fscalar_set p v.
(** Parameters.py:124-125 *)
Definition fscalar_get_free (p : fscalar) : res (nd dbl) :=
  do u <- nd_f_unconstrain_scalar (fs_val p) (fs_lb p) (fs_ub p); np_reshape u [1%nat].
(** Parameters.py:142-143 *)
Definition fscalar_get_vector (p : fscalar) : res (nd dbl) := np_reshape (fs_val p) [1%nat].

(** ArrayParam's state: Parameters.py:235-249, 267 *)
Record farray := mkFA { fa_shape : list nat; fa_lb : dbl; fa_ub : dbl; fa_val : nd dbl }.
(** Parameters.py:258-267 *)
Definition farray_set (p : farray) (val : nd dbl) : res farray :=
  if shape_eqb (shape val) (fa_shape p) then Ok (mkFA (fa_shape p) (fa_lb p) (fa_ub p) val) else Raise ValueError.
(** Parameters.py:235-249 *)
Definition farray_init (sh : list nat) (lb ub : dbl) (val : option (nd dbl)) : res farray :=
  if negb (fle f_ninf lb) then Raise AssertionError
  else if negb (fle ub f_inf) then Raise AssertionError
  else if fle ub lb then Raise ValueError
  else let p := mkFA sh lb ub (Nd [0%nat] []) in
       match val with
       | Some v => farray_set p v
       | None => farray_set p (np_full sh (f_get_inbounds_value lb ub))
       end.
(** Parameters.py:268-269 *)
Definition farray_get (p : farray) : nd dbl := fa_val p.
(** Parameters.py:319-322 *)
Definition farray_size (p : farray) : nat := nprod (fa_shape p).
(** Parameters.py:271-277 *)
Definition farray_set_free (p : farray) (free_val : nd dbl) : res farray :=
  if Nat.eqb (nd_size free_val) (farray_size p)
  then do v <- nd_f_constrain free_val (fa_lb p) (fa_ub p); do w <- np_reshape v (fa_shape p); farray_set p w
  else Raise ValueError.
(** Parameters.py:278-279 *)
Definition farray_get_free (p : farray) : res (nd dbl) := nd_f_unconstrain_array (fa_val p) (fa_lb p) (fa_ub p).
(** Parameters.py:307-313 *)
Definition farray_set_vector (p : farray) (val : nd dbl) : res farray :=
  if Nat.eqb (nd_size val) (farray_size p)
  then do w <- np_reshape val (fa_shape p); farray_set p w
  else Raise ValueError.
(** Parameters.py:314-315 *)
Definition farray_get_vector (p : farray) : nd dbl := np_flatten (fa_val p).
End WithLibm.
