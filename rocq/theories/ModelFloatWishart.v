(** multivariate_digamma and e_log_det_wishart of ExponentialFamilies.py and WishartParam.e_log_det over IEEE-754 binary64 numbers. ModelExpFam.v and
    ModelFamilies.v have the same lines over exact reals.
    SIMPLIFICATION: log, scipy.special.digamma, the order of summation and np.linalg.slogdet are the arguments [flog], [fpsi], [fsum] and [fslogdet]. *)
From Coq Require Import String List ZArith Bool.
From Flocq Require Import Core BinarySingleNaN.
From Verif Require Import Res Nd ModelNumpy ModelFloat ModelFloatSimplex ModelFloatDict ModelFloatFamilies ModelFloatLogit.
Import List ListNotations.

(** np.linspace(start, stop, num): the step times 0 .. num - 1 plus start, the last entry replaced by stop; with one entry the step is not used.
    Used at ExponentialFamilies.py:6 *)
Definition f_linspace (start stop : dbl) (n : nat) : nd dbl :=
  let delta := fsub stop start in
  Nd [n] (map (fun i => if Nat.ltb 1 n
                        then (if Nat.eqb (S i) n then stop else fadd (fmul (f_of_nat i) (fdiv delta (f_of_nat (n - 1)))) start)
                        else fadd (fmul (f_of_nat i) delta) start) (seq 0 n)).

(** a.shape[k], used at ExponentialFamilies.py:89-90 *)
Definition f_shape_at (a : nd dbl) (k : nat) : res nat := match nth_error (shape a) k with Some n => Ok n | None => Raise IndexError end.
(** x > 0, used at ExponentialFamilies.py:92 *)
Definition f_positive (x : dbl) : bool := @Bltb 53 1024 fz x.

Section WithLibraries.
Context (flog fpsi : dbl -> dbl) (fsum : list dbl -> dbl) (fslogdet : nd dbl -> res (dbl * dbl)).
(** ExponentialFamilies.py:5-7.  SIMPLIFICATION: size is a whole number, as at every call *)
Definition f_multivariate_digamma (x : nd dbl) (size : nat) : res (nd dbl) :=
  do h <- f_bin fmul (nd_scalar f_half) (f_linspace fz (fsub (f_of_nat size) f_one) size);
  do x_vec <- f_bin fsub x h;
  Ok (np_sum fsum (nd_map fpsi x_vec)).
(** ExponentialFamilies.py:88-94 *)
Definition f_e_log_det_wishart (df v : nd dbl) : res (nd dbl) :=
  do k <- f_shape_at v 0;
  do k1 <- f_shape_at v 1;
  if Nat.eqb k k1
  then do sl <- fslogdet v;
       if f_positive (fst sl)
       then do half_df <- f_bin fmul (nd_scalar f_half) df;
            do m <- f_multivariate_digamma half_df k;
            do a <- f_bin fadd m (nd_scalar (fmul (f_of_nat k) (flog (f_int 2))));
            f_bin fadd a (nd_scalar (snd sl))
       else Raise AssertionError
  else Raise AssertionError.
(** WishartParams.py:19-21 *)
Definition fwp_e_log_det (d : fparam) : res (nd dbl) := do df <- f_member d "df"; do v <- f_member d "v"; f_e_log_det_wishart df v.
End WithLibraries.
