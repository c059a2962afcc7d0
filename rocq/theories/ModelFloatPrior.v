(** get_uvn_from_natural_parameters and the priors of ExponentialFamilies.py that only use arithmetic, over IEEE-754 binary64 numbers.
    ModelExpFam.v has the same lines over exact reals.
    SIMPLIFICATION: `x ** 2` is the argument [fsq]. *)
From Coq Require Import List ZArith.
From Flocq Require Import Core BinarySingleNaN.
From Verif Require Import Res Nd ModelNumpy ModelFloat ModelFloatFamilies ModelFloatLogit.
Import ListNotations.

(** the literals -2.0 and -0.5 of ExponentialFamilies.py:177, 192 *)
Definition f_m2 : dbl := f_int (-2).
Definition f_mhalf : dbl := Bopp f_half.

(** ExponentialFamilies.py:176-179: (mean, info) *)
Definition f_uvn_from_natural_parameters (e_term e2_term : nd dbl) : res (nd dbl * nd dbl) :=
  do x_info <- f_bin fmul (nd_scalar f_m2) e2_term;
  do x_mean <- f_bin fdiv e_term x_info;
  Ok (x_mean, x_info).
(** ExponentialFamilies.py:191-192 *)
Definition f_uvn_prior (fsq : dbl -> dbl) (prior_mean prior_info e_obs var_obs : nd dbl) : res (nd dbl) :=
  do d <- f_bin fsub e_obs prior_mean;
  do a <- f_bin fadd (nd_map fsq d) var_obs;
  do b <- f_bin fmul prior_info a;
  f_bin fmul (nd_scalar f_mhalf) b.
(** ExponentialFamilies.py:194-195 *)
Definition f_gamma_prior (prior_shape prior_rate e_obs e_log_obs : nd dbl) : res (nd dbl) :=
  do a <- f_bin fsub prior_shape (nd_scalar f_one);
  do b <- f_bin fmul a e_log_obs;
  do c <- f_bin fmul prior_rate e_obs;
  f_bin fsub b c.
(** ExponentialFamilies.py:197-198 *)
Definition f_exponential_prior (lambda_par e_obs : nd dbl) : res (nd dbl) :=
  do a <- f_bin fmul (nd_scalar f_mone) lambda_par;
  f_bin fmul a e_obs.
