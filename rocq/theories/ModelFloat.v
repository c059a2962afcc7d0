(** The constrain / unconstrain maps and VectorParam over IEEE-754 binary64 numbers, as numpy computes them.
    The rest of the development computes over exact reals; this file models the same lines of Parameters.py with
    Flocq's binary64 arithmetic (round to nearest, ties to even), so that rounding, overflow and NaN are visible.
    SIMPLIFICATION: numpy's exp and log are not correctly rounded and not specified by IEEE-754, so they are the
    arguments [fexp] and [flog]; the theorems quantify over every pair meeting a stated contract.
    SIMPLIFICATION: one-dimensional arrays are lists of doubles. *)
From Coq Require Import ZArith List.
From Flocq Require Import Core BinarySingleNaN.
From Verif Require Import Res.
Import ListNotations.

(** numpy's float64 *)
Definition prec53 : Prec_gt_0 53 := eq_refl.
Definition emax1024 : Prec_lt_emax 53 1024 := eq_refl.
Definition dbl := binary_float 53 1024.

(** the operators -, +, *, / on float64 scalars and, entry by entry, on arrays *)
Definition fadd (x y : dbl) : dbl := @Bplus 53 1024 prec53 emax1024 mode_NE x y.
Definition fsub (x y : dbl) : dbl := @Bminus 53 1024 prec53 emax1024 mode_NE x y.
Definition fmul (x y : dbl) : dbl := @Bmult 53 1024 prec53 emax1024 mode_NE x y.
Definition fdiv (x y : dbl) : dbl := @Bdiv 53 1024 prec53 emax1024 mode_NE x y.
(** the comparisons <= and ==, false as soon as an operand is a NaN *)
Definition fle (x y : dbl) : bool := @Bleb 53 1024 x y.
Definition feq (x y : dbl) : bool := @Beqb 53 1024 x y.
(** the literals 1, -1, 0.5, float('inf'), -float('inf') *)
Definition f_one : dbl := @Bone 53 1024 prec53 emax1024.
Definition f_mone : dbl := Bopp f_one.
Definition f_half : dbl := fdiv f_one (fadd f_one f_one).
Definition f_inf : dbl := B754_infinity false.
Definition f_ninf : dbl := B754_infinity true.

Section WithLibm.
Context (fexp flog : dbl -> dbl).

(** Parameters.py:34-44, one entry *)
Definition f_unconstrain_entry (v lb ub : dbl) : dbl :=
  if feq ub f_inf
  then if feq lb f_ninf then v else flog (fsub v lb)
  else if feq lb f_ninf then fmul f_mone (flog (fsub ub v))
       else fsub (flog (fsub v lb)) (flog (fsub ub v)).

(** Parameters.py:31-44 *)
Definition f_unconstrain (vec : list dbl) (lb ub : dbl) : res (list dbl) :=
  if fle ub lb then Raise ValueError
  else Ok (map (fun v => f_unconstrain_entry v lb ub) vec).

(** Parameters.py:50-61, one entry *)
Definition f_constrain_entry (v lb ub : dbl) : dbl :=
  if feq ub f_inf
  then if feq lb f_ninf then v else fadd (fexp v) lb
  else if feq lb f_ninf then fsub ub (fexp (fmul f_mone v))
       else let e := fexp v in
            fadd (fdiv (fmul (fsub ub lb) e) (fadd f_one e)) lb.

(** Parameters.py:47-61 *)
Definition f_constrain (free_vec : list dbl) (lb ub : dbl) : res (list dbl) :=
  if fle ub lb then Raise ValueError
  else Ok (map (fun v => f_constrain_entry v lb ub) free_vec).

(** Parameters.py:15-20 *)
Definition f_unconstrain_array (vec : list dbl) (lb ub : dbl) : res (list dbl) :=
  if negb (forallb (fun v => fle v ub) vec) then Raise ValueError
  else if negb (forallb (fun v => fle lb v) vec) then Raise ValueError
  else f_unconstrain vec lb ub.

(** Parameters.py:67-79 (the assert is on lb < ub, already checked by the only modelled caller) *)
Definition f_get_inbounds_value (lb ub : dbl) : dbl :=
  if negb (fle lb f_ninf) then
    if negb (fle f_inf ub) then fmul f_half (fsub ub lb) else fadd lb f_one
  else if negb (fle f_inf ub) then fsub ub f_one else B754_zero false.

(** VectorParam's state: Parameters.py:154-160, 187. *)
Record fvector := mkFV { fv_size : nat; fv_lb : dbl; fv_ub : dbl; fv_val : list dbl }.

(** Parameters.py:178-187 *)
Definition fvector_set (p : fvector) (val : list dbl) : res fvector :=
  if Nat.eqb (length val) (fv_size p) then Ok (mkFV (fv_size p) (fv_lb p) (fv_ub p) val) else Raise ValueError.

(** Parameters.py:155-169 *)
Definition fvector_init (size : nat) (lb ub : dbl) (val : option (list dbl)) : res fvector :=
  if negb (fle f_ninf lb) then Raise AssertionError
  else if negb (fle ub f_inf) then Raise AssertionError
  else if fle ub lb then Raise ValueError
  else let p := mkFV size lb ub [] in
       match val with
       | Some v => fvector_set p v
       | None => fvector_set p (repeat (f_get_inbounds_value lb ub) size)
       end.

(** Parameters.py:191-194 *)
Definition fvector_set_free (p : fvector) (free_val : list dbl) : res fvector :=
  if Nat.eqb (length free_val) (fv_size p)
  then do v <- f_constrain free_val (fv_lb p) (fv_ub p); fvector_set p v
  else Raise ValueError.

(** Parameters.py:195-196 *)
Definition fvector_get_free (p : fvector) : res (list dbl) := f_unconstrain_array (fv_val p) (fv_lb p) (fv_ub p).

(** Parameters.py:188-189, 223-224 *)
Definition fvector_get (p : fvector) : list dbl := fv_val p.
End WithLibm.
