(** NormalParams.py over IEEE-754 binary64 numbers, continued: the moments of exp of a normal variable, and the second moments of MVNParam.
    ModelFamilies.v has the same lines over exact reals.
    SIMPLIFICATION: exp, x ** 2 and numpy.linalg.inv are the arguments [fexp], [fsq] and [finv]. *)
From Coq Require Import String List Arith.
From Flocq Require Import Core BinarySingleNaN.
From Verif Require Import Res Nd ModelNumpy ModelFloat ModelFloatDict ModelFloatFamilies.
Import List ListNotations.

Section WithLibraries.
Context (fexp fsq : dbl -> dbl) (finv : nd dbl -> res (nd dbl)).

(** ExponentialFamilies.py:104-105 *)
Definition f_e_lognormal (mu sigma_sq : nd dbl) : res (nd dbl) :=
  do h <- f_bin fmul (nd_scalar f_half) sigma_sq; do s <- f_bin fadd mu h; Ok (nd_map fexp s).
(** ExponentialFamilies.py:107-109 *)
Definition f_var_lognormal (mu sigma_sq : nd dbl) : res (nd dbl) :=
  do e <- f_e_lognormal mu sigma_sq;
  do x <- f_bin fsub (nd_map fexp sigma_sq) (nd_scalar f_one);
  f_bin fmul x (nd_map fsq e).
(** UVNParam, UVNParamVector and UVNParamArray: NormalParams.py:38-40, 64-66, 92-94 *)
Definition fuvn_e_exp (d : fparam) : res (nd dbl) := do m <- f_member d "mean"; do v <- fuvn_var d; f_e_lognormal m v.
(** NormalParams.py:41-43, 67-69, 95-97 *)
Definition fuvn_var_exp (d : fparam) : res (nd dbl) := do m <- f_member d "mean"; do v <- fuvn_var d; f_var_lognormal m v.
(** NormalParams.py:44-45, 70-71, 98-99 *)
Definition fuvn_e2_exp (d : fparam) : res (nd dbl) := do e <- fuvn_e_exp d; do w <- fuvn_var_exp d; f_bin fadd (nd_map fsq e) w.

(** numpy.outer of two vectors and the transpose of a matrix, as used at NormalParams.py:19-20 *)
Definition f_outer (a b : nd dbl) : nd dbl :=
  mk_mat (length (data a)) (length (data b)) (fun i j => fmul (nth i (data a) fz) (nth j (data b) fz)).
Definition f_transpose (a : nd dbl) : nd dbl := mk_mat (nth 1 (shape a) 0) (nth 0 (shape a) 0) (fun i j => mget fz a j i).
(** MVNParam: NormalParams.py:15-16 *)
Definition fmvn_cov (d : fparam) : res (nd dbl) := do i <- f_member d "info"; finv i.
(** NormalParams.py:17-20 *)
Definition fmvn_e_outer (d : fparam) : res (nd dbl) :=
  do mean <- f_member d "mean";
  do cov <- fmvn_cov d;
  do o <- f_bin fadd (f_outer mean mean) cov;
  do s <- f_bin fadd o (f_transpose o);
  f_bin fmul (nd_scalar f_half) s.
End WithLibraries.
