(** get_e_log_dirichlet of ExponentialFamilies.py and DirichletParamArray.e_log over IEEE-754 binary64 numbers. ModelExpFam.v and ModelFamilies.v have the
    same lines over exact reals.
    SIMPLIFICATION: scipy.special.digamma and the order of summation are the arguments [fpsi] and [fsum]. *)
From Coq Require Import String List ZArith.
From Flocq Require Import Core BinarySingleNaN.
From Verif Require Import Res Nd ModelNumpy ModelFloat ModelFloatDict ModelFloatFamilies.
Import List ListNotations.

Section WithLibraries.
Context (fpsi : dbl -> dbl) (fsum : list dbl -> dbl).
(** ExponentialFamilies.py:118-120 *)
Definition f_get_e_log_dirichlet (alpha : nd dbl) : res (nd dbl) :=
  do total <- np_sum_keep fz fsum 0 alpha;
  f_bin fsub (nd_map fpsi alpha) (nd_map fpsi total).
(** DirichletParams.py:22-23 *)
Definition fdp_e_log (d : fparam) : res (nd dbl) := do alpha <- f_member d "alpha"; f_get_e_log_dirichlet alpha.
End WithLibraries.
