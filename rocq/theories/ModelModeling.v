(** Modeling.py, function by function. *)
From Coq Require Import Reals List Arith Bool.
From Verif Require Import Res Num Nd ModelParameters ModelNumpy ModelExpFam.
Import List ListNotations.
Open Scope R_scope.

(** np.log1p *)
Definition nlog1p (x : num) : num := nlog (nadd (Fin 1) x).
Definition np_log1p (a : res arr) : res arr := nun nlog1p a.
Open Scope py_scope.
(** Modeling.py:16-32.  SIMPLIFICATION: std_draws.size is the number of entries of the array. *)
Definition get_e_logistic_term (y z_mean z_sd std_draws : arr) : res arr :=
  rassert (Nat.eqb (length (shape z_sd)) (length (shape y)))
  (rassert (Nat.eqb (length (shape z_mean)) (length (shape y)))
   (let draws_axis := length (shape z_sd) in
    do z_draws <- expand draws_axis (Ok z_sd) * Ok std_draws + expand draws_axis (Ok z_mean);
    do logit_term <- sum_all (np_log1p (np_exp (Ok z_draws))) / litn (nd_size std_draws);
    sum_all (Ok y * Ok z_mean) - Ok logit_term)).
(** Modeling.py:35-52 *)
Definition get_e_logistic_term_guass_hermite (z_mean z_sd gh_x gh_w : arr) (aggregate_all : bool) : res arr :=
  rassert (shape_eqb (shape z_mean) (shape z_sd))
  (let draws_axis := length (shape z_sd) in
   do z_vals <- np_sqrt (lit 2) * expand draws_axis (Ok z_sd) * Ok gh_x + expand draws_axis (Ok z_mean);
   do logit_term <- Ok gh_w * np_log1p (np_exp (Ok z_vals)) / np_sqrt (lit PI);
   if aggregate_all then sum_all (Ok logit_term) else sum_axis draws_axis (Ok logit_term)).
(** Modeling.py:55-58.  [ppf] is scipy's norm.ppf, applied to every entry. *)
Definition get_standard_draws (ppf : num -> num) (num_draws : nat) : res arr :=
  let draw_spacing := (1 / (INR num_draws + 1))%R in
  nun ppf (Ok (np_linspace draw_spacing (1 - draw_spacing)%R num_draws)).
(** Modeling.py:61-63 *)
Definition univariate_normal_log_prob (u u_mean u_info : arr) : res arr :=
  lit (- / 2)%R * Ok u_info * np_pow2 (Ok u - Ok u_mean) + lit (/ 2)%R * Ok u_info - lit (/ 2)%R * np_log (lit 2 * lit PI).
