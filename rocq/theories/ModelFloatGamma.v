(** get_e_log_gamma and gamma_entropy of ExponentialFamilies.py and the methods of GammaParam that use them, over IEEE-754 binary64 numbers.
    ModelExpFam.v and ModelFamilies.v have the same lines over exact reals.
    SIMPLIFICATION: log, scipy.special.digamma, scipy.special.gammaln and the order of summation are the arguments [flog], [fpsi], [flgam] and [fsum]. *)
From Coq Require Import String List ZArith.
From Flocq Require Import Core BinarySingleNaN.
From Verif Require Import Res Nd ModelNumpy ModelFloat ModelFloatDict ModelFloatFamilies ModelFloatLogit.
Import List ListNotations.

Section WithLibraries.
Context (flog fpsi flgam : dbl -> dbl) (fsum : list dbl -> dbl).

(** ExponentialFamilies.py:111-112 *)
Definition f_get_e_log_gamma (shp rate : nd dbl) : res (nd dbl) := f_bin fsub (nd_map fpsi shp) (nd_map flog rate).
(** ExponentialFamilies.py:33-35 *)
Definition f_gamma_entropy (shp rate : nd dbl) : res (nd dbl) :=
  do a <- f_bin fsub shp (nd_map flog rate);
  do b <- f_bin fadd a (nd_map flgam shp);
  do c <- f_bin fsub (nd_scalar f_one) shp;
  do d <- f_bin fmul c (nd_map fpsi shp);
  do e <- f_bin fadd b d;
  Ok (np_sum fsum e).
(** GammaParams.py:11-13 *)
Definition fgp_e_log (d : fparam) : res (nd dbl) := do s <- f_member d "shape"; do r <- f_member d "rate"; f_get_e_log_gamma s r.
(** GammaParams.py:14-16 *)
Definition fgp_entropy (d : fparam) : res (nd dbl) := do s <- f_member d "shape"; do r <- f_member d "rate"; f_gamma_entropy s r.
End WithLibraries.
