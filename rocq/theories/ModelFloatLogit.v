(** The numeric integration functions of ExponentialFamilies.py over IEEE-754 binary64 numbers. ModelExpFam.v has the same lines over
    exact reals with infinities and NaN.
    SIMPLIFICATION: exp and log are the arguments [fexp] and [flog], the order of summation is the argument [fsum]. sqrt is correctly
    rounded, as IEEE-754 demands. *)
From Coq Require Import List ZArith Bool.
From Flocq Require Import Core BinarySingleNaN.
From Verif Require Import Res Nd ModelNumpy ModelFloat ModelFloatFamilies.
Import List ListNotations.

(** numpy.sqrt of a double *)
Definition fsqrt (x : dbl) : dbl := @Bsqrt 53 1024 prec53 emax1024 mode_NE x.
(** numpy.maximum of two doubles: NaN if one of them is *)
Definition fmaximum (x y : dbl) : dbl := if is_nan x then x else if is_nan y then y else if fle x y then y else x.
(** x > y, false if one of them is a NaN *)
Definition fgt (x y : dbl) : bool := fle y x && negb (feq x y).
(** a boolean in a product with a double *)
Definition f_of_bool (b : bool) : dbl := if b then f_one else fz.
(** the integer z, rounded *)
Definition f_int (z : Z) : dbl := binary_normalize 53 1024 prec53 emax1024 mode_NE z 0 false.
(** the literals -1e2 and -1e16 of ExponentialFamilies.py:156-157, both integers below 2^54 and exact *)
Definition f_m100 : dbl := f_int (-100).
Definition f_m1e16 : dbl := f_int (-10000000000000000).
(** numpy.pi: the double 7074237752028440 / 2^51 *)
Definition f_pi : dbl := binary_normalize 53 1024 prec53 emax1024 mode_NE 7074237752028440 (-51) false.

Section WithLibraries.
Context (fexp flog : dbl -> dbl) (fsum : list dbl -> dbl).

(** the lambda log_v at ExponentialFamilies.py:156-157, one entry *)
Definition f_log_v (x : dbl) : dbl :=
  fadd (fmul (fmaximum (Bopp (flog (fadd f_one (fexp (Bopp x))))) f_m1e16) (f_of_bool (fgt x f_m100)))
       (fmul x (f_of_bool (fle x f_m100))).
(** ExponentialFamilies.py:126-143 with a function [fn] of one entry *)
Definition f_get_e_fun_normal (means infos gh_loc gh_weights : nd dbl) (fn : dbl -> dbl) : res (nd dbl) :=
  rassert (shape_eqb (shape means) (shape infos))
    (let draws_axis := length (shape means) in
     do a <- f_bin fmul (nd_scalar (fsqrt (f_int 2))) gh_loc;
     do b <- f_bin fmul a (nd_scalar f_one);
     do i <- np_expand_dims draws_axis infos;
     do c <- f_bin fdiv b (nd_map fsqrt i);
     do m <- np_expand_dims draws_axis means;
     do change_of_vars <- f_bin fadd c m;
     do v <- f_bin fmul (nd_scalar (fdiv f_one (fsqrt f_pi))) gh_weights;
     do t <- f_bin fmul v (nd_map fn change_of_vars);
     np_sum_axis fz fsum draws_axis t).
(** ExponentialFamilies.py:152-168 *)
Definition f_get_e_log_logitnormal (means infos gh_loc gh_weights : nd dbl) : res (nd dbl * nd dbl) :=
  do e_log_v <- f_get_e_fun_normal means infos gh_loc gh_weights f_log_v;
  do e_log_1mv <- f_bin fadd (nd_map (fun x => Bopp x) means) e_log_v;
  Ok (e_log_v, e_log_1mv).
End WithLibraries.
