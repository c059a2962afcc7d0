(** univariate_normal_entropy of ExponentialFamilies.py and the entropies of the univariate normal parameters over IEEE-754 binary64 numbers.
    ModelExpFam.v and ModelFamilies.v have the same lines over exact reals.
    SIMPLIFICATION: log is the argument [flog] and the order of summation the argument [fsum]. *)
From Coq Require Import String List ZArith.
From Flocq Require Import Core BinarySingleNaN.
From Verif Require Import Res Nd ModelNumpy ModelFloat ModelFloatDict ModelFloatFamilies ModelFloatLogit.
Import List ListNotations.

Section WithLibraries.
Context (flog : dbl -> dbl) (fsum : list dbl -> dbl).

(** ExponentialFamilies.py:23-25 (math.pi and numpy.pi are the same double) *)
Definition f_univariate_normal_entropy (info_obs : nd dbl) : res (nd dbl) :=
  do a <- f_bin fmul (nd_scalar f_mone) (nd_map flog info_obs);
  do b <- f_bin fadd a (nd_scalar f_one);
  do c <- f_bin fadd b (nd_scalar (flog (fmul (f_int 2) f_pi)));
  f_bin fmul (nd_scalar f_half) (np_sum fsum c).
(** UVNParam: NormalParams.py:46-47 *)
Definition fuvn_entropy (d : fparam) : res (nd dbl) := do i <- f_member d "info"; f_univariate_normal_entropy i.
(** UVNParamVector and UVNParamArray: NormalParams.py:72-73, 100-101 *)
Definition fuvn_array_entropy (d : fparam) : res (nd dbl) := do i <- f_member d "info"; do h <- f_univariate_normal_entropy i; Ok (np_sum fsum h).
End WithLibraries.
