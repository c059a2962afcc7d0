(** ExponentialFamilies.py, function by function.  Arrays hold [num]s (finite reals and the IEEE special
    values, exact arithmetic: see Num.v), have any rank, and combine by numpy broadcasting (ModelNumpy.v).
    Python floats and ints are 0-d arrays.  The special functions gammaln and digamma and the linear
    algebra routines slogdet and inv are library code: they are arguments of the definitions that use them. *)
From Coq Require Import Reals List Arith Bool.
From Verif Require Import Res Num Nd ModelParameters ModelNumpy.
Import ListNotations.
Open Scope R_scope.

(** ---- numpy on arrays of numbers ---- *)
Definition nbin (f : num -> num -> num) (a b : res arr) : res arr := do x <- a; do y <- b; np_bin NaN NaN f x y.
Definition nun (f : num -> num) (a : res arr) : res arr := do x <- a; Ok (nd_map f x).
(** a Python number *)
Definition lit (r : R) : res arr := Ok (nd_scalar (Fin r)).
Definition litn (k : nat) : res arr := lit (INR k).
Declare Scope py_scope.
Delimit Scope py_scope with py.
Notation "a + b" := (nbin nadd a b) : py_scope.
Notation "a - b" := (nbin nsub a b) : py_scope.
Notation "a * b" := (nbin nmul a b) : py_scope.
Notation "a / b" := (nbin ndiv a b) : py_scope.
(** np.sqrt *)
Definition nsqrt (x : num) : num :=
  match x with Fin a => if Rle_dec 0 a then Fin (sqrt a) else NaN | PInf => PInf | NInf => NaN | NaN => NaN end.
(** x ** 2 *)
Definition nsq (x : num) : num := nmul x x.
(** np.maximum(x, c): NaN when either is NaN *)
Definition nmaximum (x y : num) : num :=
  match x, y with NaN, _ | _, NaN => NaN | _, _ => if nleb x y then y else x end.
(** a comparison used as a number: True is 1, False is 0 *)
Definition nbool (b : bool) : num := Fin (if b then 1 else 0).
Definition np_log (a : res arr) := nun nlog a.
Definition np_exp (a : res arr) := nun nexp a.
Definition np_sqrt (a : res arr) := nun nsqrt a.
Definition np_pow2 (a : res arr) := nun nsq a.
Definition np_neg (a : res arr) := nun nopp a.
Definition sum_all (a : res arr) : res arr := do x <- a; Ok (np_sum nsum x).
Definition sum_axis (k : nat) (a : res arr) : res arr := do x <- a; np_sum_axis NaN nsum k x.
Definition sum_keep (k : nat) (a : res arr) : res arr := do x <- a; np_sum_keep NaN nsum k x.
Definition expand (k : nat) (a : res arr) : res arr := do x <- a; np_expand_dims k x.
(** a.shape[k] *)
Definition shape_at (a : arr) (k : nat) : res nat :=
  match nth_error (shape a) k with Some n => Ok n | None => Raise IndexError end.
(** a[:, j] *)
Definition np_col (j : nat) (a : arr) : res arr :=
  match shape a with
  | n :: m :: rest =>
      if Nat.ltb j m then Ok (mk_nd (n :: rest) (fun idx => nd_at NaN a (hd 0%nat idx :: j :: tl idx))) else Raise IndexError
  | _ => Raise IndexError
  end.
(** np.linspace(start, stop, num) *)
Definition np_linspace (start stop : R) (n : nat) : arr :=
  nd_vec (map (fun i => Fin (if Nat.ltb 1 n && Nat.eqb (S i) n then stop
                             else INR i * ((stop - start) / INR (n - 1)) + start)) (seq 0 n)).
(** np.dot of two arrays.  SIMPLIFICATION: only ranks 0, 1 and 2 and a matrix with a vector; anything else
    is not modelled (ValueError). *)
Definition np_dot (a b : arr) : res arr :=
  match shape a, shape b with
  | [], _ => np_bin NaN NaN nmul a b
  | _, [] => np_bin NaN NaN nmul a b
  | [n], [m] => if Nat.eqb n m then Ok (nd_scalar (nsum (map2 nmul (data a) (data b)))) else Raise ValueError
  | [n; k], [m] =>
      if Nat.eqb k m
      then Ok (mk_nd [n] (fun idx => nsum (map (fun j => nmul (nd_at NaN a [nth 0 idx 0%nat; j]) (nd_at NaN b [j])) (seq 0 k))))
      else Raise ValueError
  | [n; k], [k'; m] =>
      if Nat.eqb k k'
      then Ok (mk_nd [n; m] (fun idx => nsum (map (fun j => nmul (nd_at NaN a [nth 0 idx 0%nat; j]) (nd_at NaN b [j; nth 1 idx 0%nat])) (seq 0 k))))
      else Raise ValueError
  | _, _ => Raise ValueError
  end.
(** np.matmul: on the ranks used here it is np.dot without the 0-d case *)
Definition np_matmul (a b : arr) : res arr :=
  match shape a, shape b with [], _ | _, [] => Raise ValueError | _, _ => np_dot a b end.
(** np.diag and np.trace of a 2-d array *)
Definition np_diag (a : arr) : res arr :=
  match shape a with
  | [n; m] => Ok (mk_nd [Nat.min n m] (fun idx => nd_at NaN a [nth 0 idx 0%nat; nth 0 idx 0%nat]))
  | _ => Raise ValueError
  end.
Definition np_trace (a : arr) : res arr :=
  match shape a with
  | [n; m] => Ok (nd_scalar (nsum (map (fun i => nd_at NaN a [i; i]) (seq 0 (Nat.min n m)))))
  | _ => Raise ValueError
  end.

Section Special.
Variable gammaln digamma : num -> num.
(** slogdet(a) = (sign, logdet); inv(a); both raise LinAlgError on arrays that are not square matrices *)
Variable slogdet : arr -> res (num * num).
Variable inv : arr -> res arr.
Definition sc (x : num) : res arr := Ok (nd_scalar x).
Open Scope py_scope.

(** ExponentialFamilies.py:5-7.  SIMPLIFICATION: size is a whole number (it is a matrix dimension at every call). *)
Definition multivariate_digamma (x : arr) (size : nat) : res arr :=
  sum_all (nun digamma (Ok x - lit (/ 2)%R * Ok (np_linspace 0 (INR size - 1)%R size))).
(** ExponentialFamilies.py:10-13.  SIMPLIFICATION: as above *)
Definition multivariate_gammaln (x : arr) (size : nat) : res arr :=
  sum_all (nun gammaln (Ok x - lit (/ 2)%R * Ok (np_linspace 0 (INR size - 1)%R size)))
  + lit (/ 4)%R * np_log (lit PI) * litn size * (litn size - lit 1).
(** ExponentialFamilies.py:20-21 *)
Definition multinoulli_entropy (p : arr) (min_prob : R) : res arr :=
  lit (-1) * sum_axis 1 (Ok p * np_log (Ok p + lit min_prob)).
(** ExponentialFamilies.py:23-25 *)
Definition univariate_normal_entropy (info_obs : arr) : res arr :=
  lit (/ 2)%R * sum_all (lit (-1) * np_log (Ok info_obs) + lit 1 + np_log (lit 2 * lit PI)).
(** ExponentialFamilies.py:27-31 *)
Definition multivariate_normal_entropy (info_obs : arr) : res arr :=
  do sl <- slogdet info_obs;
  rassert (nltb (Fin 0) (fst sl))
    (do k <- shape_at info_obs 0;
     lit (/ 2)%R * (lit (-1) * sc (snd sl) + litn k + litn k * np_log (lit 2 * lit PI))).
(** ExponentialFamilies.py:33-35 *)
Definition gamma_entropy (shp rate : arr) : res arr :=
  sum_all (Ok shp - np_log (Ok rate) + nun gammaln (Ok shp) + (lit 1 - Ok shp) * nun digamma (Ok shp)).
(** ExponentialFamilies.py:43-52 *)
Definition dirichlet_entropy (alpha : arr) : res arr :=
  do dirichlet_dim <- shape_at alpha 0;
  do sum_alpha <- sum_keep 0 (Ok alpha);
  do log_beta <- sum_keep 0 (nun gammaln (Ok alpha)) - nun gammaln (Ok sum_alpha);
  do entropy <- Ok log_beta
     - (litn dirichlet_dim - Ok sum_alpha) * nun digamma (Ok sum_alpha)
     - sum_axis 0 ((Ok alpha - lit 1) * nun digamma (Ok alpha));
  np_squeeze 0 entropy.
(** ExponentialFamilies.py:54-69 *)
Definition beta_entropy (tau : arr) : res arr :=
  let digamma_tau0 := nun digamma (np_col 0 tau) in
  let digamma_tau1 := nun digamma (np_col 1 tau) in
  let digamma_tausum := nun digamma (sum_axis 1 (Ok tau)) in
  let lgamma_tau0 := nun gammaln (np_col 0 tau) in
  let lgamma_tau1 := nun gammaln (np_col 1 tau) in
  let lgamma_tausum := nun gammaln (sum_axis 1 (Ok tau)) in
  let lbeta := lgamma_tau0 + lgamma_tau1 - lgamma_tausum in
  sum_all (lbeta - (np_col 0 tau - lit 1) * digamma_tau0 - (np_col 1 tau - lit 1) * digamma_tau1
           + (np_col 0 tau + np_col 1 tau - lit 2) * digamma_tausum).
(** the shared head of the Wishart functions: k, the shape assertion, slogdet and the sign assertion
    (ExponentialFamilies.py:73-76 and :90-93) *)
Definition wishart_head (v : arr) (body : nat -> num -> res arr) : res arr :=
  do k <- shape_at v 0;
  do k1 <- shape_at v 1;
  rassert (Nat.eqb k k1)
    (do sl <- slogdet v;
     rassert (nltb (Fin 0) (fst sl)) (body k (snd sl))).
(** ExponentialFamilies.py:72-82 *)
Definition wishart_entropy (df v : arr) : res arr :=
  wishart_head v (fun k log_det_v =>
    do half_df <- lit (/ 2)%R * Ok df;
    lit (/ 2)%R * (litn k + lit 1) * sc log_det_v
    + lit (/ 2)%R * litn k * (litn k + lit 1) * np_log (lit 2)
    + multivariate_gammaln half_df k
    - lit (/ 2)%R * (Ok df - litn k - lit 1) * multivariate_digamma half_df k
    + lit (/ 2)%R * Ok df * litn k).
(** ExponentialFamilies.py:88-94 *)
Definition e_log_det_wishart (df v : arr) : res arr :=
  wishart_head v (fun k log_det_v =>
    do half_df <- lit (/ 2)%R * Ok df;
    multivariate_digamma half_df k + litn k * np_log (lit 2) + sc log_det_v).
(** ExponentialFamilies.py:97-102 *)
Definition e_log_inv_wishart_diag (df v : arr) : res arr :=
  do k <- shape_at v 0;
  do k1 <- shape_at v 1;
  rassert (Nat.eqb k k1)
    (do vi <- inv v;
     do v_inv_diag <- np_diag vi;
     np_log (Ok v_inv_diag) - nun digamma (lit (/ 2)%R * (Ok df - litn k + lit 1)) - np_log (lit 2)).
(** ExponentialFamilies.py:104-105 *)
Definition get_e_lognormal (mu sigma_sq : arr) : res arr := np_exp (Ok mu + lit (/ 2)%R * Ok sigma_sq).
(** ExponentialFamilies.py:107-109 *)
Definition get_var_lognormal (mu sigma_sq : arr) : res arr :=
  do e_lognormal <- get_e_lognormal mu sigma_sq;
  (np_exp (Ok sigma_sq) - lit 1) * np_pow2 (Ok e_lognormal).
(** ExponentialFamilies.py:111-112 *)
Definition get_e_log_gamma (shp rate : arr) : res arr := nun digamma (Ok shp) - np_log (Ok rate).
(** ExponentialFamilies.py:114-116 *)
Definition get_e_dirichlet (alpha : arr) : res arr :=
  do denom <- sum_keep 0 (Ok alpha); Ok alpha / Ok denom.
(** ExponentialFamilies.py:118-120 *)
Definition get_e_log_dirichlet (alpha : arr) : res arr :=
  do digamma_sum <- nun digamma (sum_keep 0 (Ok alpha)); nun digamma (Ok alpha) - Ok digamma_sum.
(** ExponentialFamilies.py:126-143 *)
Definition get_e_fun_normal (means infos gh_loc gh_weights : arr) (fn : arr -> res arr) : res arr :=
  rassert (shape_eqb (shape means) (shape infos))
    (let draws_axis := length (shape means) in
     do change_of_vars <- np_sqrt (lit 2) * Ok gh_loc * lit 1 / np_sqrt (expand draws_axis (Ok infos)) + expand draws_axis (Ok means);
     do integrand <- fn change_of_vars;
     sum_axis draws_axis (lit 1 / np_sqrt (lit PI) * Ok gh_weights * Ok integrand)).
(** sp.special.expit *)
Definition nexpit (x : num) : num :=
  match x with Fin a => Fin (/ (1 + exp (- a)))%R | PInf => Fin 1 | NInf => Fin 0 | NaN => NaN end.
(** ExponentialFamilies.py:145-150 *)
Definition get_e_logitnormal (means infos gh_loc gh_weights : arr) : res arr :=
  get_e_fun_normal means infos gh_loc gh_weights (fun x => nun nexpit (Ok x)).
(** the lambda log_v at ExponentialFamilies.py:156-157 *)
Definition log_v (x : arr) : res arr :=
  nun (fun y => nmaximum y (Fin (- 10 ^ 16))) (np_neg (np_log (lit 1 + np_exp (np_neg (Ok x)))))
    * nun (fun y => nbool (nltb (Fin (-100)) y)) (Ok x)
  + Ok x * nun (fun y => nbool (nleb y (Fin (-100)))) (Ok x).
(** ExponentialFamilies.py:152-168 *)
Definition get_e_log_logitnormal (means infos gh_loc gh_weights : arr) : res (arr * arr) :=
  do e_log_v <- get_e_fun_normal means infos gh_loc gh_weights log_v;
  do e_log_1mv <- np_neg (Ok means) + Ok e_log_v;
  Ok (e_log_v, e_log_1mv).
(** ExponentialFamilies.py:176-179 *)
Definition get_uvn_from_natural_parameters (e_term e2_term : arr) : res (arr * arr) :=
  do x_info <- lit (-2) * Ok e2_term;
  do x_mean <- Ok e_term / Ok x_info;
  Ok (x_mean, x_info).
(** ExponentialFamilies.py:186-189 *)
Definition mvn_prior (prior_mean prior_info e_obs cov_obs : arr) : res arr :=
  do obs_diff <- Ok e_obs - Ok prior_mean;
  lit (- / 2)%R * ((do w <- np_matmul prior_info obs_diff; np_dot obs_diff w)
                   + (do m <- np_matmul prior_info cov_obs; np_trace m)).
(** ExponentialFamilies.py:191-192 *)
Definition uvn_prior (prior_mean prior_info e_obs var_obs : arr) : res arr :=
  lit (- / 2)%R * (Ok prior_info * (np_pow2 (Ok e_obs - Ok prior_mean) + Ok var_obs)).
(** ExponentialFamilies.py:194-195 *)
Definition gamma_prior (prior_shape prior_rate e_obs e_log_obs : arr) : res arr :=
  (Ok prior_shape - lit 1) * Ok e_log_obs - Ok prior_rate * Ok e_obs.
(** ExponentialFamilies.py:197-198 *)
Definition exponential_prior (lambda_par e_obs : arr) : res arr := lit (-1) * Ok lambda_par * Ok e_obs.
(** ExponentialFamilies.py:201-204 *)
Definition dirichlet_prior (alpha log_e_obs : arr) : res arr :=
  rassert (shape_eqb (shape alpha) (shape log_e_obs))
    (do a <- Ok alpha - lit 1; np_dot a log_e_obs).
(** ExponentialFamilies.py:208-211 *)
Definition expected_ljk_prior (lkj_param : R) (df v : arr) : res arr :=
  do e_log_r <- lit (-1) * e_log_det_wishart df v - sum_all (e_log_inv_wishart_diag df v);
  lit (lkj_param - 1)%R * Ok e_log_r.
(** ExponentialFamilies.py:213-221 *)
Definition get_e_dp_prior_logitnorm_approx (alpha means infos gh_loc gh_weights : arr) : res arr :=
  do p <- get_e_log_logitnormal means infos gh_loc gh_weights;
  (Ok alpha - lit 1) * Ok (snd p).
End Special.
