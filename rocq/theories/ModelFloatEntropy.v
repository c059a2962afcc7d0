(** multinoulli_entropy of ExponentialFamilies.py over IEEE-754 binary64 numbers. ModelExpFam.v has the same line over exact reals.
    SIMPLIFICATION: log is the argument [flog] and the order of summation the argument [fsum]. *)
From Coq Require Import String List ZArith.
From Flocq Require Import Core BinarySingleNaN.
From Verif Require Import Res Nd ModelNumpy ModelFloat ModelFloatFamilies.

(** the literal 1e-16 of ExponentialFamilies.py:20: the double 8112963841460668 / 2^106 *)
Definition default_min_prob : dbl := binary_normalize 53 1024 prec53 emax1024 mode_NE 8112963841460668 (-106) false.
(** ExponentialFamilies.py:20-21 *)
Definition f_multinoulli_entropy (flog : dbl -> dbl) (fsum : list dbl -> dbl) (p : nd dbl) (min_prob : dbl) : res (nd dbl) :=
  do q <- f_bin fadd p (nd_scalar min_prob);
  do t <- f_bin fmul p (nd_map flog q);
  do s <- np_sum_axis fz fsum 1 t;
  f_bin fmul (nd_scalar f_mone) s.
