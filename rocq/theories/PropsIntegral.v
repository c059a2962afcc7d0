(** C114, C115: the univariate normal and gamma formulas of ExponentialFamilies.py, Modeling.py, NormalParams.py and GammaParams.py
    as integrals against the densities (SpecIntegral.v: improper Riemann integrals over the line and the half line). *)
From Coq Require Import String Reals List Arith Lia Lra.
From Coquelicot Require Import Coquelicot.
From Verif Require Import Res Num Nd RSum ModelParameters ModelMatrix ModelDict ModelNumpy ModelExpFam ModelFamilies ModelModeling SpecMatrix SpecExpFam SpecFamilies SpecModeling SpecIntegral LemmasPosDef LemmasNumpy LemmasExpFam LemmasFamilies LemmasQuad LemmasGauss LemmasGamma LemmasIntegral PropsFamilies.
Import List ListNotations.
Open Scope R_scope.

(** C114: the density has total mass one, and an expectation has at most one value *)
Theorem C114_density : forall m L, 0 < L -> expects (normal_pdf m L) (fun _ => 1) 1.
Proof. exact normal_total. Qed.
Print Assumptions C114_density.
Theorem C114_C115_unique : forall p f v w, (expects p f v -> expects p f w -> v = w) /\ (expects_pos p f v -> expects_pos p f w -> v = w).
Proof. intros p f v w. exact (conj (expects_unique p f v w) (expects_pos_unique p f v w)). Qed.
Print Assumptions C114_C115_unique.

(** C114: UVNParam, UVNParamVector and UVNParamArray *)
Theorem C114_classes : forall d s m L, holds d "mean" (farr s m) -> holds d "info" (farr s L) -> (forall i, index s i -> 0 < L i) ->
  exists v eo ee ve e2,
    uvn_e d = Ok (farr s m) /\ uvn_var d = Ok (farr s v) /\ uvn_e_outer d = Ok (farr s eo) /\
    uvn_e_exp d = Ok (farr s ee) /\ uvn_var_exp d = Ok (farr s ve) /\ uvn_e2_exp d = Ok (farr s e2) /\
    forall i, index s i -> let p := normal_pdf (m i) (L i) in
      expects p (fun x => x) (m i) /\ expects p (fun x => (x - m i) * (x - m i)) (v i) /\ expects p (fun x => x * x) (eo i) /\
      expects p exp (ee i) /\ expects p (fun x => (exp x - ee i) * (exp x - ee i)) (ve i) /\ expects p (fun x => exp x * exp x) (e2 i).
Proof. exact uvn_integrals. Qed.
Print Assumptions C114_classes.
Theorem C114_class_entropy : forall d s L, holds d "info" (farr s L) -> (forall i, index s i -> 0 < L i) ->
  exists h, uvn_entropy d = Ok (fnum (lsum (map h (product s)))) /\ uvn_array_entropy d = Ok (fnum (lsum (map h (product s)))) /\
    forall i m, index s i -> expects (normal_pdf m (L i)) (fun x => - ln (normal_pdf m (L i) x)) (h i).
Proof. exact class_entropy_integrals. Qed.
Print Assumptions C114_class_entropy.

(** C114: UVNMomentParamArray, which stores E X and E X^2 *)
Theorem C114_moment_array : forall d s m w, holds d "e" (farr s m) -> holds d "e2" (farr s w) -> (forall i, index s i -> m i * m i < w i) ->
  exists v ee h, um_e d = Ok (farr s m) /\ um_e_outer d = Ok (farr s w) /\ um_var d = Ok (farr s v) /\ um_e_exp d = Ok (farr s ee) /\ um_entropy d = Ok (fnum (lsum (map h (product s)))) /\
    forall i, index s i -> let p := normal_pdf (m i) (/ (w i - m i * m i)) in
      expects p (fun x => x) (m i) /\ expects p (fun x => x * x) (w i) /\ expects p (fun x => (x - m i) * (x - m i)) (v i) /\ expects p exp (ee i) /\ expects p (fun x => - ln (p x)) (h i).
Proof. exact moment_integrals. Qed.
Print Assumptions C114_moment_array.

(** C114: MVNArray, rows of independent normals sharing one information *)
Theorem C114_rows : forall d n k m L, holds d "mean" (fmat_of n k m) -> holds d "info" (fvec_of n L) -> (forall i, (i < n)%nat -> 0 < L i) ->
  exists E, mvn_array_e d = Ok (fmat_of n k m) /\ mvn_array_e2 d = Ok (fmat_of n k E) /\
    forall i j, (i < n)%nat -> (j < k)%nat -> expects (normal_pdf (m i j) (L i)) (fun x => x) (m i j) /\ expects (normal_pdf (m i j) (L i)) (fun x => x * x) (E i j).
Proof. exact rows_integrals. Qed.
Print Assumptions C114_rows.

(** C114: the functions *)
Theorem C114_lognormal : forall s mu v, (forall i, index s i -> 0 < v i) ->
  exists e w, get_e_lognormal (farr s mu) (farr s v) = Ok (farr s e) /\ get_var_lognormal (farr s mu) (farr s v) = Ok (farr s w) /\
    forall i, index s i -> let p := normal_pdf (mu i) (/ v i) in expects p exp (e i) /\ expects p (fun x => (exp x - e i) * (exp x - e i)) (w i).
Proof. exact lognormal_integrals. Qed.
Print Assumptions C114_lognormal.
Theorem C114_entropy : forall s L, (forall i, index s i -> 0 < L i) ->
  exists h, univariate_normal_entropy (farr s L) = Ok (fnum (lsum (map h (product s)))) /\
    forall i m, index s i -> expects (normal_pdf m (L i)) (fun x => - ln (normal_pdf m (L i) x)) (h i).
Proof. exact entropy_integrals. Qed.
Print Assumptions C114_entropy.
(** uvn_prior leaves out the normaliser of the prior *)
Theorem C114_prior : forall s m0 L0 m L, (forall i, index s i -> 0 < L i /\ 0 < L0 i) ->
  exists r, uvn_prior (farr s m0) (farr s L0) (farr s m) (farr s (fun i => / L i)) = Ok (farr s r) /\
    forall i, index s i -> expects (normal_pdf (m i) (L i)) (fun x => ln (normal_pdf (m0 i) (L0 i) x)) (r i + ln (sqrt (L0 i / (2 * PI)))).
Proof. exact prior_integrals. Qed.
Print Assumptions C114_prior.

(** C114: Gauss-Hermite quadrature gives the integral whenever the rule is exact for the function after the change of variables *)
Theorem C114_quadrature : forall fn f s mu L m x w, componentwise fn f -> (forall i, index s i -> 0 < L i /\ exact_for m w x (fun t => f (sqrt 2 * t / sqrt (L i) + mu i))) ->
  exists r, get_e_fun_normal (farr s mu) (farr s L) (fvec_of m x) (fvec_of m w) fn = Ok (farr s r) /\ forall i, index s i -> expects (normal_pdf (mu i) (L i)) f (r i).
Proof. exact quadrature_integrals. Qed.
Print Assumptions C114_quadrature.
(** in particular for polynomials up to the degree to which the rule is exact, whatever the means and informations *)
Theorem C114_polynomials : forall fn s mu L m x w d c, componentwise fn (poly_of d c) -> (forall k, (k <= d)%nat -> exact_for m w x (fun t => t ^ k)) -> (forall i, index s i -> 0 < L i) ->
  exists r, get_e_fun_normal (farr s mu) (farr s L) (fvec_of m x) (fvec_of m w) fn = Ok (farr s r) /\ forall i, index s i -> expects (normal_pdf (mu i) (L i)) (poly_of d c) (r i).
Proof. exact quadrature_polynomials. Qed.
Print Assumptions C114_polynomials.
(** the condition exact2 used in C72 and C87 says that the rule is exact to degree two *)
Theorem C114_exact2 : forall m w x, exact2 m w x <-> exact_for m w x (fun _ => 1) /\ exact_for m w x (fun t => t) /\ exact_for m w x (fun t => t * t).
Proof. exact exact2_for. Qed.
Print Assumptions C114_exact2.

(** C114: how far the quadratures of the logistic functions are from the integrals, which exist *)
Theorem C114_logistic_error : forall m w x, exact2 m w x -> (forall k, (k < m)%nat -> 0 <= w k) -> forall s mu sd, (forall i, index s i -> 0 < sd i) ->
  exists r, get_e_logistic_term_guass_hermite (farr s mu) (farr s sd) (fvec_of m x) (fvec_of m w) false = Ok (farr s r) /\
    forall i, index s i -> exists v, expects (normal_pdf (mu i) (/ (sd i * sd i))) softplus v /\ Rabs (r i - v) <= sd i * sd i / 8.
Proof. exact logistic_error. Qed.
Print Assumptions C114_logistic_error.
Theorem C114_logitnormal_error : forall m w x, exact2 m w x -> (forall k, (k < m)%nat -> 0 <= w k) -> forall s mu L, (forall i, index s i -> 0 < L i) ->
  exists p, get_e_logitnormal (farr s mu) (farr s L) (fvec_of m x) (fvec_of m w) = Ok (farr s p) /\
    forall i, index s i -> exists v, expects (normal_pdf (mu i) (L i)) expit v /\ Rabs (p i - v) <= / (4 * L i).
Proof. exact logitnormal_error. Qed.
Print Assumptions C114_logitnormal_error.
Theorem C114_log_logitnormal_error : forall m w x, exact2 m w x -> (forall k, (k < m)%nat -> 0 <= w k) -> forall s mu L, (forall i, index s i -> 0 < L i) ->
  exists a b, get_e_log_logitnormal (farr s mu) (farr s L) (fvec_of m x) (fvec_of m w) = Ok (farr s a, farr s b) /\
    forall i, index s i -> exists u v, expects (normal_pdf (mu i) (L i)) (fun t => ln (expit t)) u /\ expects (normal_pdf (mu i) (L i)) (fun t => ln (1 - expit t)) v /\
      Rabs (a i - u) <= / (8 * L i) + exp (-100) /\ Rabs (b i - v) <= / (8 * L i) + exp (-100).
Proof. exact log_logitnormal_error. Qed.
Print Assumptions C114_log_logitnormal_error.

(** the default array parameter is an array of standard normals; the three-point rule is exact to degree two *)
Example C114_nonvacuous : exists q v, uvn_array_init "q" [2; 3]%nat (Fin 0) = Ok q /\ uvn_var_exp (ua_dict q) = Ok (farr [2; 3]%nat v) /\ expects (normal_pdf 0 1) (fun x => (exp x - exp (/ 2)) * (exp x - exp (/ 2))) (v [1; 2]%nat).
Proof.
  destruct (uvn_array_default "q" [2; 3]%nat) as [q [E [_ [H1 H2]]]].
  destruct (C114_classes _ _ _ _ H1 H2) as [v [eo [ee [ve [e2 [_ [_ [_ [Ee [Ev [_ H]]]]]]]]]]]; [intros; lra|]. exists q, ve. split; [exact E|]. split; [exact Ev|].
  destruct (H [1; 2]%nat) as [_ [_ [_ [H4 [H5 _]]]]]; [cbn; tauto|].
  assert (Q : ee [1; 2]%nat = exp (/ 2)).
  { apply (proj1 (C114_C115_unique _ _ _ _) H4). pose proof (lognormal_mean 0 1 Rlt_0_1) as K. replace (0 + / 1 / 2) with (/ 2) in K by field. exact K. }
  rewrite Q in H5. exact H5.
Qed.
Example C114_rule_nonvacuous : exists m w x, (forall k, (k <= 2)%nat -> exact_for m w x (fun t => t ^ k)) /\ exact2 m w x /\ (forall k, (k < m)%nat -> 0 <= w k).
Proof.
  destruct three_point as [E W]. eexists _, _, _. split; [|split; [exact E|intros k _; apply W]]. apply exact2_for in E as [E0 [E1 E2]].
  intros [|[|[|k]]] Hk; [eapply exact_ext; [|exact E0]|eapply exact_ext; [|exact E1]|eapply exact_ext; [|exact E2]|lia]; intros t; cbn; ring.
Qed.

(** C115: the gamma distribution. LG is the logarithm of the gamma integral and PSI its derivative, as scipy.special.gammaln and digamma promise *)
Theorem C115_density : forall LG PSI, log_gamma LG -> digamma_of LG PSI -> forall a b, 0 < a -> 0 < b -> expects_pos (gamma_pdf LG a b) (fun _ => 1) 1.
Proof. exact gamma_total. Qed.
Print Assumptions C115_density.
Theorem C115_class : forall gammaln digamma LG PSI, special gammaln LG -> special digamma PSI -> log_gamma LG -> digamma_of LG PSI ->
  forall d s a b, holds d "shape" (farr s a) -> holds d "rate" (farr s b) -> (forall i, index s i -> 0 < a i /\ 0 < b i) ->
  exists e l h, gp_e d = Ok (farr s e) /\ gp_e_log digamma d = Ok (farr s l) /\ gp_entropy gammaln digamma d = Ok (fnum (lsum (map h (product s)))) /\
    forall i, index s i -> let p := gamma_pdf LG (a i) (b i) in expects_pos p (fun x => x) (e i) /\ expects_pos p ln (l i) /\ expects_pos p (fun x => - ln (p x)) (h i).
Proof. exact gamma_class_integrals. Qed.
Print Assumptions C115_class.
Theorem C115_functions : forall gammaln digamma LG PSI, special gammaln LG -> special digamma PSI -> log_gamma LG -> digamma_of LG PSI ->
  forall s a b, (forall i, index s i -> 0 < a i /\ 0 < b i) ->
  exists l h, get_e_log_gamma digamma (farr s a) (farr s b) = Ok (farr s l) /\ gamma_entropy gammaln digamma (farr s a) (farr s b) = Ok (fnum (lsum (map h (product s)))) /\
    forall i, index s i -> let p := gamma_pdf LG (a i) (b i) in expects_pos p ln (l i) /\ expects_pos p (fun x => - ln (p x)) (h i).
Proof. exact gamma_fun_integrals. Qed.
Print Assumptions C115_functions.
(** gamma_prior and exponential_prior leave out the normaliser of the prior; the observation is gamma with shape a and rate b *)
Theorem C115_gamma_prior : forall digamma LG PSI, special digamma PSI -> log_gamma LG -> digamma_of LG PSI ->
  forall s a0 b0 a b, (forall i, index s i -> 0 < a i /\ 0 < b i /\ 0 < b0 i) ->
  exists l r, get_e_log_gamma digamma (farr s a) (farr s b) = Ok (farr s l) /\ gamma_prior (farr s a0) (farr s b0) (farr s (fun i => a i / b i)) (farr s l) = Ok (farr s r) /\
    forall i, index s i -> expects_pos (gamma_pdf LG (a i) (b i)) (fun x => ln (gamma_pdf LG (a0 i) (b0 i) x)) (r i + (a0 i * ln (b0 i) - LG (a0 i))).
Proof. exact gamma_prior_integrals. Qed.
Print Assumptions C115_gamma_prior.
Theorem C115_exponential_prior : forall LG PSI, log_gamma LG -> digamma_of LG PSI -> forall s l a b, (forall i, index s i -> 0 < a i /\ 0 < b i /\ 0 < l i) ->
  exists r, exponential_prior (farr s l) (farr s (fun i => a i / b i)) = Ok (farr s r) /\
    forall i, index s i -> expects_pos (gamma_pdf LG (a i) (b i)) (fun x => ln (exponential_pdf (l i) x)) (r i + ln (l i)).
Proof. exact exponential_prior_integrals. Qed.
Print Assumptions C115_exponential_prior.

(** such functions exist: the gamma integral converges, is positive and has the derivative under the integral sign *)
Example C115_nonvacuous : exists gammaln digamma LG PSI, special gammaln LG /\ special digamma PSI /\ log_gamma LG /\ digamma_of LG PSI.
Proof.
  destruct gamma_functions_exist as [LG [PSI [H1 H2]]]. exists (fun x => match x with Fin r => Fin (LG r) | _ => NaN end), (fun x => match x with Fin r => Fin (PSI r) | _ => NaN end), LG, PSI.
  split; [intros x _; reflexivity|]. split; [intros x _; reflexivity|]. split; assumption.
Qed.
