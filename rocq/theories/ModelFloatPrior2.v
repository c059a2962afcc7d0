(** mvn_prior and dirichlet_prior of ExponentialFamilies.py over IEEE-754 binary64 numbers. ModelExpFam.v has the same lines over exact reals.
    SIMPLIFICATION: the inner product of two rows inside np.dot and np.matmul is the argument [fdot], the order of the summation in np.trace is the
    argument [fsum]; both are any functions that meet a stated contract. Arrays with more than two dimensions are left out. *)
From Coq Require Import List ZArith.
From Flocq Require Import Core BinarySingleNaN.
From Verif Require Import Res Nd ModelNumpy ModelFloat ModelFloatFamilies ModelFloatLogit ModelFloatMatrix ModelFloatPrior.
Import ListNotations.

Section Dot.
Variable fdot : list dbl -> list dbl -> dbl.
Variable fsum : list dbl -> dbl.
(** column j of a matrix with n rows, for the np.matmul of ExponentialFamilies.py:189 *)
Definition f_col (n : nat) (mat : nd dbl) (j : nat) : list dbl := map (fun i => mget f_zero mat i j) (seq 0 n).
(** np.dot (used in ExponentialFamilies.py:188, 204) for scalars, vectors and matrices *)
Definition f_np_dot (a b : nd dbl) : res (nd dbl) :=
  match shape a, shape b with
  | [], _ | _, [] => f_bin fmul a b
  | [n], [m] => if Nat.eqb n m then Ok (nd_scalar (fdot (data a) (data b))) else Raise ValueError
  | [n; k], [m] => if Nat.eqb k m then Ok (Nd [n] (map (fun i => fdot (f_row k a i) (data b)) (seq 0 n))) else Raise ValueError
  | [n; k], [k'; m] => if Nat.eqb k k' then Ok (mk_mat n m (fun i j => fdot (f_row k a i) (f_col k b j))) else Raise ValueError
  | _, _ => Raise ValueError
  end.
(** np.matmul (ExponentialFamilies.py:188-189): np.dot without scalars *)
Definition f_np_matmul (a b : nd dbl) : res (nd dbl) :=
  match shape a, shape b with [], _ | _, [] => Raise ValueError | _, _ => f_np_dot a b end.
(** np.trace of a matrix (ExponentialFamilies.py:189) *)
Definition f_np_trace (a : nd dbl) : res (nd dbl) :=
  match shape a with
  | [n; m] => Ok (nd_scalar (fsum (map (fun i => mget f_zero a i i) (seq 0 (Nat.min n m)))))
  | _ => Raise ValueError
  end.
(** ExponentialFamilies.py:186-189 *)
Definition f_mvn_prior (prior_mean prior_info e_obs cov_obs : nd dbl) : res (nd dbl) :=
  do obs_diff <- f_bin fsub e_obs prior_mean;
  do w <- f_np_matmul prior_info obs_diff;
  do q <- f_np_dot obs_diff w;
  do m <- f_np_matmul prior_info cov_obs;
  do t <- f_np_trace m;
  do s <- f_bin fadd q t;
  f_bin fmul (nd_scalar f_mhalf) s.
(** ExponentialFamilies.py:201-204 *)
Definition f_dirichlet_prior (alpha log_e_obs : nd dbl) : res (nd dbl) :=
  rassert (shape_eqb (shape alpha) (shape log_e_obs))
    (do a <- f_bin fsub alpha (nd_scalar f_one); f_np_dot a log_e_obs).
End Dot.
