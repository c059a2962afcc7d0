(** e_log_inv_wishart_diag and expected_ljk_prior of ExponentialFamilies.py and WishartParam.e_log_lkj_inv_prior over IEEE-754 binary64 numbers.
    ModelExpFam.v and ModelFamilies.v have the same lines over exact reals.
    SIMPLIFICATION: log, scipy.special.digamma, the order of summation, np.linalg.slogdet and np.linalg.inv are the arguments [flog], [fpsi], [fsum],
    [fslogdet] and [finv]. *)
From Coq Require Import String List ZArith Bool.
From Flocq Require Import Core BinarySingleNaN.
From Verif Require Import Res Nd ModelNumpy ModelFloat ModelFloatSimplex ModelFloatDict ModelFloatFamilies ModelFloatLogit ModelFloatWishart.
Import List ListNotations.

(** np.diag of a matrix, used at ExponentialFamilies.py:100 *)
Definition f_diag (a : nd dbl) : res (nd dbl) :=
  match shape a with
  | [n; m] => Ok (Nd [Nat.min n m] (map (fun i => nth (i * m + i) (data a) fz) (seq 0 (Nat.min n m))))
  | _ => Raise ValueError
  end.

Section WithLibraries.
Context (flog fpsi : dbl -> dbl) (fsum : list dbl -> dbl) (fslogdet : nd dbl -> res (dbl * dbl)) (finv : nd dbl -> res (nd dbl)).
(** ExponentialFamilies.py:97-102 *)
Definition f_e_log_inv_wishart_diag (df v : nd dbl) : res (nd dbl) :=
  do k <- f_shape_at v 0;
  do k1 <- f_shape_at v 1;
  if Nat.eqb k k1
  then do vi <- finv v;
       do v_inv_diag <- f_diag vi;
       do a <- f_bin fsub df (nd_scalar (f_of_nat k));
       do b <- f_bin fadd a (nd_scalar f_one);
       do c <- f_bin fmul (nd_scalar f_half) b;
       do e <- f_bin fsub (nd_map flog v_inv_diag) (nd_map fpsi c);
       f_bin fsub e (nd_scalar (flog (f_int 2)))
  else Raise AssertionError.
(** ExponentialFamilies.py:208-211 *)
Definition f_expected_ljk_prior (lkj_param : dbl) (df v : nd dbl) : res (nd dbl) :=
  do p <- f_e_log_det_wishart flog fpsi fsum fslogdet df v;
  do m <- f_bin fmul (nd_scalar f_mone) p;
  do q <- f_e_log_inv_wishart_diag df v;
  do e_log_r <- f_bin fsub m (np_sum fsum q);
  f_bin fmul (nd_scalar (fsub lkj_param f_one)) e_log_r.
(** WishartParams.py:33-35 *)
Definition fwp_e_log_lkj_inv_prior (d : fparam) (lkj_param : dbl) : res (nd dbl) :=
  do df <- f_member d "df"; do v <- f_member d "v"; f_expected_ljk_prior lkj_param df v.
End WithLibraries.
