(** get_e_logitnormal and get_e_dp_prior_logitnorm_approx of ExponentialFamilies.py over IEEE-754 binary64 numbers.
    ModelExpFam.v has the same lines over exact reals.
    SIMPLIFICATION: scipy.special.expit is the argument [fexpit], exp, log and the order of summation are arguments as in ModelFloatLogit.v. *)
From Coq Require Import List ZArith.
From Flocq Require Import Core BinarySingleNaN.
From Verif Require Import Res Nd ModelNumpy ModelFloat ModelFloatFamilies ModelFloatLogit.

(** ExponentialFamilies.py:145-150 *)
Definition f_get_e_logitnormal (fexpit : dbl -> dbl) (fsum : list dbl -> dbl) (means infos gh_loc gh_weights : nd dbl) : res (nd dbl) :=
  f_get_e_fun_normal fsum means infos gh_loc gh_weights fexpit.
(** ExponentialFamilies.py:213-221 *)
Definition f_get_e_dp_prior (fexp flog : dbl -> dbl) (fsum : list dbl -> dbl) (alpha means infos gh_loc gh_weights : nd dbl) : res (nd dbl) :=
  do p <- f_get_e_log_logitnormal fexp flog fsum means infos gh_loc gh_weights;
  do a <- f_bin fsub alpha (nd_scalar f_one);
  f_bin fmul a (snd p).
