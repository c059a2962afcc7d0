(** C76, C77, C86, C87: Modeling.py. *)
From Coq Require Import Reals List Arith Lia Lra Bool.
From Verif Require Import Res Num Nd RSum ModelNumpy ModelExpFam ModelModeling SpecMatrix SpecExpFam SpecModeling LemmasNumpy LemmasExpFam LemmasQuad LemmasModeling.
Import List ListNotations.
Open Scope R_scope.

(** C76 *)
Theorem C76_draws : forall ppf q n, odd_quantile ppf q -> get_standard_draws ppf n = Ok (fvec_of n (fun i => q ((INR i + 1) / (INR n + 1)))).
Proof. exact standard_draws_value. Qed.
Print Assumptions C76_draws.
Theorem C76_antisymmetric : forall q ppf n, odd_quantile ppf q -> let x := fun i => q ((INR i + 1) / (INR n + 1)) in
  (forall i, (i < n)%nat -> x (n - 1 - i)%nat = - x i) /\ rsum n x = 0.
Proof. exact standard_draws_odd. Qed.
Print Assumptions C76_antisymmetric.
Theorem C76_increasing : forall q n, (forall u v, 0 < u -> u < v -> v < 1 -> q u < q v) -> forall i j, (i < j < n)%nat -> q ((INR i + 1) / (INR n + 1)) < q ((INR j + 1) / (INR n + 1)).
Proof. exact standard_draws_sorted. Qed.
Print Assumptions C76_increasing.

(** a quantile function: that of the logistic distribution, log(u / (1 - u)) *)
Definition logit_quantile (x : num) : num := match x with Fin u => Fin (ln u - ln (1 - u)) | _ => NaN end.
Lemma logit_quantile_odd : odd_quantile logit_quantile (fun u => ln u - ln (1 - u)).
Proof. intros u Hu. split; [reflexivity|]. replace (1 - (1 - u)) with u by ring. ring. Qed.
Example C76_nonvacuous : get_standard_draws logit_quantile 3 = Ok (fvec_of 3 (fun i => ln ((INR i + 1) / (INR 3 + 1)) - ln (1 - (INR i + 1) / (INR 3 + 1)))).
Proof. exact (C76_draws _ _ 3 logit_quantile_odd). Qed.

(** C77: what the function computes *)
Theorem C77_value : forall s u m L, (forall i, index s i -> 0 < L i) ->
  univariate_normal_log_prob (farr s u) (farr s m) (farr s L) = Ok (farr s (fun i => ln (normal_pdf (m i) (L i) (u i)) + (L i - ln (L i)) / 2)).
Proof. exact log_prob_value. Qed.
Print Assumptions C77_value.

(** C77: it is never the log density; it is too large by at least 1/2, at every entry *)
Theorem C77_log_prob_refuted : forall s u m L, (forall i, index s i -> 0 < L i) ->
  exists r, univariate_normal_log_prob (farr s u) (farr s m) (farr s L) = Ok (farr s r) /\
    forall i, index s i -> r i - ln (normal_pdf (m i) (L i) (u i)) = (L i - ln (L i)) / 2 /\ ln (normal_pdf (m i) (L i) (u i)) + / 2 <= r i.
Proof. exact log_prob_wrong. Qed.
Print Assumptions C77_log_prob_refuted.

Example C77_nonvacuous : univariate_normal_log_prob (farr [] (fun _ => 0)) (farr [] (fun _ => 0)) (farr [] (fun _ => 1)) = Ok (farr [] (fun _ => ln (normal_pdf 0 1 0) + / 2)).
Proof. rewrite C77_value by (intros; lra). apply Ok_eq, farr_ext. intros. rewrite ln_1. lra. Qed.

(** C86: for any draws at all *)
Theorem C86_value : forall s y mu sd m x, (0 < m)%nat ->
  get_e_logistic_term (farr s y) (farr s mu) (farr s sd) (fvec_of m x) =
    Ok (fnum (lsum (map (fun i => y i * mu i - / INR m * rsum m (fun k => softplus (sd i * x k + mu i))) (product s)))).
Proof. exact logistic_value. Qed.
Print Assumptions C86_value.

(** C86: for draws that sum to zero it is the expected log likelihood, over the distribution placing equal mass at the scaled and shifted draws *)
Theorem C86_expected_log_likelihood : forall s y mu sd m x, (0 < m)%nat -> rsum m x = 0 ->
  get_e_logistic_term (farr s y) (farr s mu) (farr s sd) (fvec_of m x) =
    Ok (fnum (lsum (map (fun i => expect (draws_dist m x (mu i) (sd i)) (logistic_loglik (y i))) (product s)))).
Proof. exact logistic_expect. Qed.
Print Assumptions C86_expected_log_likelihood.
Theorem C86_distribution : forall m x mu sd, (0 < m)%nat -> is_dist (draws_dist m x mu sd).
Proof. exact draws_is_dist. Qed.
Print Assumptions C86_distribution.
Theorem C86_mean : forall m x mu sd, (0 < m)%nat -> rsum m x = 0 -> mean (draws_dist m x mu sd) = mu.
Proof. exact draws_mean. Qed.
Print Assumptions C86_mean.

(** C86: in particular for the draws of get_standard_draws *)
Theorem C86_standard_draws : forall ppf q s y mu sd n, (0 < n)%nat -> odd_quantile ppf q -> exists x,
  get_standard_draws ppf n = Ok (fvec_of n x) /\
  get_e_logistic_term (farr s y) (farr s mu) (farr s sd) (fvec_of n x) = Ok (fnum (lsum (map (fun i => expect (draws_dist n x (mu i) (sd i)) (logistic_loglik (y i))) (product s)))) /\
  (forall i, mean (draws_dist n x (mu i) (sd i)) = mu i).
Proof. exact logistic_standard. Qed.
Print Assumptions C86_standard_draws.

(** C86: never above the log likelihood at the mean, and below it by at most an eighth of the variance of the draws *)
Theorem C86_bounds : forall s y mu sd m x, (0 < m)%nat -> rsum m x = 0 ->
  exists v, get_e_logistic_term (farr s y) (farr s mu) (farr s sd) (fvec_of m x) = Ok (fnum v) /\
    lsum (map (fun i => logistic_loglik (y i) (mu i) - sd i * sd i * (/ INR m * rsum m (fun k => x k * x k)) / 8) (product s)) <= v <= lsum (map (fun i => logistic_loglik (y i) (mu i)) (product s)).
Proof. exact logistic_bounds. Qed.
Print Assumptions C86_bounds.
Theorem C86_nonpositive : forall s y mu sd m x, (0 < m)%nat -> rsum m x = 0 -> (forall i, index s i -> 0 <= y i <= 1) ->
  exists v, get_e_logistic_term (farr s y) (farr s mu) (farr s sd) (fvec_of m x) = Ok (fnum v) /\ v <= 0.
Proof. exact logistic_nonpos. Qed.
Print Assumptions C86_nonpositive.
Theorem C86_ranks : forall y z_mean z_sd x, length (shape z_sd) <> length (shape y) \/ length (shape z_mean) <> length (shape y) -> get_e_logistic_term y z_mean z_sd x = Raise AssertionError.
Proof. exact logistic_rank. Qed.
Print Assumptions C86_ranks.

Example C86_nonvacuous : exists v, get_e_logistic_term (farr [2]%nat (fun i => INR (nth 0 i 0%nat))) (farr [2]%nat (fun _ => 0)) (farr [2]%nat (fun _ => 2)) (fvec_of 3 (fun k => INR k - 1)) = Ok (fnum v) /\ -2 * ln 2 - 2 / 3 <= v <= -2 * ln 2.
Proof.
  destruct (C86_bounds [2]%nat (fun i => INR (nth 0 i 0%nat)) (fun _ => 0) (fun _ => 2) 3 (fun k => INR k - 1)) as [v [E [B1 B2]]]; [lia|cbn; lra|].
  exists v. split; [exact E|]. unfold logistic_loglik, softplus in *. rewrite exp_0 in *. replace (1 + 1) with 2 in * by lra. cbn in *. lra.
Qed.

(** C87 *)
Theorem C87_entries : forall s mu sd m x w, get_e_logistic_term_guass_hermite (farr s mu) (farr s sd) (fvec_of m x) (fvec_of m w) false = Ok (farr s (fun i => gh_expect_sd m w x (mu i) (sd i) softplus)).
Proof. exact gh_logistic_entries. Qed.
Print Assumptions C87_entries.
Theorem C87_total : forall s mu sd m x w, get_e_logistic_term_guass_hermite (farr s mu) (farr s sd) (fvec_of m x) (fvec_of m w) true = Ok (fnum (lsum (map (fun i => gh_expect_sd m w x (mu i) (sd i) softplus) (product s)))).
Proof. exact gh_logistic_total. Qed.
Print Assumptions C87_total.

(** C87: with nodes and weights exact for polynomials up to degree two, as Gauss-Hermite rules with two or more nodes are *)
Theorem C87_bounds : forall m w x mu sd, exact2 m w x -> (forall k, (k < m)%nat -> 0 <= w k) -> softplus mu <= gh_expect_sd m w x mu sd softplus <= softplus mu + sd * sd / 8.
Proof. exact gh_softplus_bounds. Qed.
Print Assumptions C87_bounds.
Theorem C87_shapes : forall z_mean z_sd x w b, shape z_mean <> shape z_sd -> get_e_logistic_term_guass_hermite z_mean z_sd x w b = Raise AssertionError.
Proof. exact gh_logistic_mismatch. Qed.
Print Assumptions C87_shapes.

Example C87_nonvacuous : exists m w x, exact2 m w x /\ (forall k, (k < m)%nat -> 0 <= w k) /\ softplus 0 <= gh_expect_sd m w x 0 2 softplus <= softplus 0 + / 2.
Proof.
  destruct three_point as [E W]. eexists _, _, _. split; [exact E|]. split; [intros k _; apply W|]. pose proof (C87_bounds _ _ _ 0 2 E (fun k _ => W k)). lra.
Qed.
