(** C117: the Dirichlet and beta formulas of ExponentialFamilies.py and DirichletParams.py as integrals against the Dirichlet and beta densities
    (SpecIntegral.v: iterated improper Riemann integrals over the probability vectors, whichever coordinate is left out and in whatever order the others are integrated). *)
From Coq Require Import String Reals List Arith Lia Lra.
From Coquelicot Require Import Coquelicot.
From Verif Require Import Res Num Nd RSum ModelParameters ModelMatrix ModelDict ModelNumpy ModelExpFam ModelFamilies SpecMatrix SpecExpFam SpecFamilies SpecIntegral LemmasPosDef LemmasNumpy LemmasExpFam LemmasFamilies LemmasFamInit LemmasGamma LemmasBeta LemmasDirichlet.
Import List ListNotations.
Open Scope R_scope.

(** C117: the densities have total mass one, and an expectation has at most one value *)
Theorem C117_density : forall LG, log_gamma LG ->
  (forall n a, (0 < n)%nat -> (forall i, (i < n)%nat -> 0 < a i) -> dexpects n (dirichlet_pdf LG n a) (fun _ => 1) 1) /\
  (forall a b, 0 < a -> 0 < b -> expects_unit (beta_pdf LG a b) (fun _ => 1) 1).
Proof. intros LG HL. exact (conj (dirichlet_total LG HL) (beta_total LG HL)). Qed.
Print Assumptions C117_density.
Theorem C117_unique : (forall n p f v w, dexpects n p f v -> dexpects n p f w -> v = w) /\ (forall p f v w, expects_unit p f v -> expects_unit p f w -> v = w).
Proof. exact (conj dexpects_unique expects_unit_unique). Qed.
Print Assumptions C117_unique.

(** C117: DirichletParamArray; one distribution per column, over the first axis *)
Theorem C117_class : forall LG PSI, log_gamma LG -> digamma_of LG PSI -> forall gammaln digamma, special gammaln LG -> special digamma PSI ->
  forall d n s alpha, (0 < n)%nat -> holds d "alpha" (farr (n :: s) alpha) -> (forall i, index (n :: s) i -> 0 < alpha i) ->
  exists e l h, dp_e d = Ok (farr (n :: s) e) /\ dp_e_log digamma d = Ok (farr (n :: s) l) /\ dp_entropy gammaln digamma d = Ok (farr s h) /\
    forall j, index s j -> let p := dirichlet_pdf LG n (fun k => alpha (k :: j)) in
      (forall k, (k < n)%nat -> dexpects n p (fun x => x k) (e (k :: j)) /\ dexpects n p (fun x => ln (x k)) (l (k :: j))) /\ dexpects n p (fun x => - ln (p x)) (h j).
Proof. exact dirichlet_class_integrals. Qed.
Print Assumptions C117_class.

(** C117: the functions *)
Theorem C117_functions : forall LG PSI, log_gamma LG -> digamma_of LG PSI -> forall gammaln digamma, special gammaln LG -> special digamma PSI ->
  forall n s alpha, (0 < n)%nat -> (forall i, index (n :: s) i -> 0 < alpha i) ->
  exists e l h, get_e_dirichlet (farr (n :: s) alpha) = Ok (farr (n :: s) e) /\ get_e_log_dirichlet digamma (farr (n :: s) alpha) = Ok (farr (n :: s) l) /\ dirichlet_entropy gammaln digamma (farr (n :: s) alpha) = Ok (farr s h) /\
    forall j, index s j -> let p := dirichlet_pdf LG n (fun k => alpha (k :: j)) in
      (forall k, (k < n)%nat -> dexpects n p (fun x => x k) (e (k :: j)) /\ dexpects n p (fun x => ln (x k)) (l (k :: j))) /\ dexpects n p (fun x => - ln (p x)) (h j).
Proof. exact dirichlet_fun_integrals. Qed.
Print Assumptions C117_functions.
(** beta_entropy adds up the entropies of the rows *)
Theorem C117_beta_entropy : forall LG PSI, log_gamma LG -> digamma_of LG PSI -> forall gammaln digamma, special gammaln LG -> special digamma PSI ->
  forall m t, (forall i k, (i < m)%nat -> (k < 2)%nat -> 0 < t i k) ->
  exists h, beta_entropy gammaln digamma (fmat_of m 2 t) = Ok (fnum (rsum m h)) /\
    forall i, (i < m)%nat -> let p := beta_pdf LG (t i 0%nat) (t i 1%nat) in expects_unit p (fun _ => 1) 1 /\ expects_unit p (fun x => - ln (p x)) (h i).
Proof. exact beta_integrals. Qed.
Print Assumptions C117_beta_entropy.
(** dirichlet_prior leaves out the normaliser of the prior; the observation is Dirichlet with parameters a *)
Theorem C117_prior : forall LG PSI, log_gamma LG -> digamma_of LG PSI -> forall digamma, special digamma PSI ->
  forall n a0 a, (0 < n)%nat -> (forall i, (i < n)%nat -> 0 < a i) ->
  exists l r, get_e_log_dirichlet digamma (fvec_of n a) = Ok (fvec_of n l) /\ dirichlet_prior (fvec_of n a0) (fvec_of n l) = Ok (fnum r) /\
    dexpects n (dirichlet_pdf LG n a) (fun x => ln (dirichlet_pdf LG n a0 x)) (r - dirichlet_log_norm LG n a0).
Proof. exact dirichlet_prior_integrals. Qed.
Print Assumptions C117_prior.

(** the default parameter meets the hypotheses; the share of the third of three categories under Dirichlet(1, 2, 3) has the expectation 1/2 *)
Example C117_nonvacuous : exists gammaln digamma LG PSI d, special gammaln LG /\ special digamma PSI /\ log_gamma LG /\ digamma_of LG PSI /\
  dirichlet_init "d" [3%nat; 2%nat] (Fin 0) None = Ok d /\ holds d "alpha" (farr [3%nat; 2%nat] (fun _ => start_value (Fin 0))) /\ 0 < start_value (Fin 0) /\
  dexpects 3 (dirichlet_pdf LG 3 (fun i => INR (S i))) (fun x => x 2%nat) (/ 2).
Proof.
  destruct gamma_functions_exist as [LG [PSI [H1 H2]]]. exists (fun x => match x with Fin r => Fin (LG r) | _ => NaN end), (fun x => match x with Fin r => Fin (PSI r) | _ => NaN end), LG, PSI.
  destruct (dirichlet_construct "d" [3%nat; 2%nat] (Fin 0) None) as [_ [_ [K _]]]. destruct K as [d [Ed [Hd _]]]; [unfold below_zero; lra|discriminate|reflexivity|]. exists d.
  split; [intros x _; reflexivity|]. split; [intros x _; reflexivity|]. split; [exact H1|]. split; [exact H2|]. split; [exact Ed|]. split; [exact Hd|]. split; [unfold start_value; lra|].
  pose proof (dirichlet_mean LG H1 3 (fun i => INR (S i)) ltac:(lia) (fun i _ => lt_0_INR (S i) (Nat.lt_0_succ i)) 2 ltac:(lia)) as H. replace (/ 2) with (INR 3 / rsum 3 (fun i => INR (S i))) by (cbn; lra). exact H.
Qed.
