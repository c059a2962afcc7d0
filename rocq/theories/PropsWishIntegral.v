(** C118: the Wishart formulas of ExponentialFamilies.py and WishartParams.py as integrals against the Wishart density
    (SpecIntegral.v: iterated improper Riemann integrals over the symmetric positive definite matrices, one row after the other, in whatever order the rows are taken). *)
From Coq Require Import String Reals List Arith Lia Lra.
From Coquelicot Require Import Coquelicot.
From Verif Require Import Res Num Nd RSum ModelParameters ModelMatrix ModelDict ModelNumpy ModelExpFam ModelFamilies SpecMatrix SpecExpFam SpecFamilies SpecIntegral LemmasPosDef LemmasNumpy LemmasExpFam LemmasFamilies LemmasFamInit LemmasGamma LemmasIntegral LemmasWishart PropsExpFam PropsFamilies.
Import List ListNotations.
Open Scope R_scope.

(** C118: the density has total mass one, and an expectation has at most one value *)
Theorem C118_density : forall LG PSI, log_gamma LG -> digamma_of LG PSI -> forall n df V Vinv, INR n - 1 < df -> symmetric n V -> posdef n V -> inverse_of n V Vinv ->
  wexpects n (wishart_pdf LG n df V Vinv) (fun _ => 1) 1.
Proof. exact wishart_total_scale. Qed.
Print Assumptions C118_density.
Theorem C118_unique : forall n p f v w, (wexpects n p f v -> wexpects n p f w -> v = w) /\ (forall r, (r < n)%nat -> wexpects_first r n p f v -> wexpects_first r n p f w -> v = w).
Proof. intros n p f v w. exact (conj (wexpects_unique n p f v w) (fun r => wexpects_first_unique r n p f v w)). Qed.
Print Assumptions C118_unique.

(** C118: WishartParam; df is stored as a number or as an array with one entry *)
Theorem C118_class : forall LG PSI, log_gamma LG -> digamma_of LG PSI -> forall gammaln digamma, special gammaln LG -> special digamma PSI -> forall slogdet, slogdet_contract slogdet ->
  forall s n df V Vinv, number_shape s -> INR n - 1 < df -> symmetric n V -> posdef n V -> inverse_of n V Vinv ->
  forall d, holds d "df" (farr s (fun _ => df)) -> holds d "v" (fmat n V) ->
  exists e l h, wp_e d = Ok (fmat n e) /\ wp_e_log_det digamma slogdet d = Ok (fnum l) /\ wp_entropy gammaln digamma slogdet d = Ok (farr s (fun _ => h)) /\
    let p := wishart_pdf LG n df V Vinv in
    (forall i j, (i < n)%nat -> (j < n)%nat -> wexpects n p (fun X => X i j) (e i j)) /\ wexpects n p (fun X => ln (det n X)) l /\ wexpects n p (fun X => - ln (p X)) h.
Proof. exact wishart_class_integrals. Qed.
Print Assumptions C118_class.
(** C118: the functions *)
Theorem C118_functions : forall LG PSI, log_gamma LG -> digamma_of LG PSI -> forall gammaln digamma, special gammaln LG -> special digamma PSI -> forall slogdet, slogdet_contract slogdet ->
  forall s n df V Vinv, number_shape s -> INR n - 1 < df -> symmetric n V -> posdef n V -> inverse_of n V Vinv ->
  exists l h, e_log_det_wishart digamma slogdet (farr s (fun _ => df)) (fmat n V) = Ok (fnum l) /\ wishart_entropy gammaln digamma slogdet (farr s (fun _ => df)) (fmat n V) = Ok (farr s (fun _ => h)) /\
    let p := wishart_pdf LG n df V Vinv in wexpects n p (fun X => ln (det n X)) l /\ wexpects n p (fun X => - ln (p X)) h.
Proof. exact wishart_fun_integrals. Qed.
Print Assumptions C118_functions.
(** C118: the LKJ prior on the correlations of the inverse, J X being the inverse of X.  The log density (without its constant) is a combination of ln det X and of the logarithms of the diagonal of the inverse,
    and the number returned is the same combination of their expectations; the expectation for entry i integrates row i first. *)
Theorem C118_lkj : forall LG PSI, log_gamma LG -> digamma_of LG PSI -> forall gammaln digamma, special gammaln LG -> special digamma PSI -> forall slogdet, slogdet_contract slogdet ->
  forall s n df V Vinv, number_shape s -> INR n - 1 < df -> symmetric n V -> posdef n V -> inverse_of n V Vinv -> forall inv, inverts inv n V ->
  forall d eta J, holds d "df" (farr s (fun _ => df)) -> holds d "v" (fmat n V) -> (forall X, symmetric n X -> posdef n X -> inverse_of n X (J X)) ->
  exists l q r, e_log_det_wishart digamma slogdet (farr s (fun _ => df)) (fmat n V) = Ok (fnum l) /\ e_log_inv_wishart_diag digamma inv (farr s (fun _ => df)) (fmat n V) = Ok (fvec_of n q) /\
    wp_e_log_lkj_inv_prior digamma slogdet inv eta d = Ok (fnum r) /\
    let p := wishart_pdf LG n df V Vinv in
    wexpects n p (fun X => ln (det n X)) l /\ (forall i, (i < n)%nat -> wexpects_first i n p (fun X => ln (J X i i)) (q i)) /\
    (forall X, symmetric n X -> posdef n X -> ln (Rpower (det n (correlation (J X))) (eta - 1)) = (eta - 1) * (- ln (det n X) - rsum n (fun i => ln (J X i i)))) /\
    r = (eta - 1) * (- l - rsum n q).
Proof. exact wishart_lkj_integrals. Qed.
Print Assumptions C118_lkj.
(** C118: e_inv is not the expectation of the inverse: it is df (df - n - 1) times the expectation w, entry by entry, and the diagonal of w is positive *)
Theorem C118_e_inv : forall LG PSI, log_gamma LG -> digamma_of LG PSI ->
  forall s n df V Vinv, number_shape s -> symmetric n V -> posdef n V -> inverse_of n V Vinv -> forall inv, inverts inv n V ->
  forall d J, holds d "df" (farr s (fun _ => df)) -> holds d "v" (fmat n V) -> INR n + 1 < df -> (forall X, symmetric n X -> posdef n X -> inverse_of n X (J X)) ->
  exists e w, wp_e_inv inv d = Ok (fmat n e) /\
    (forall i j, (i < n)%nat -> (j < n)%nat -> wexpects n (wishart_pdf LG n df V Vinv) (fun X => J X i j) (w i j) /\ e i j = df * (df - INR n - 1) * w i j) /\ (forall i, (i < n)%nat -> 0 < w i i).
Proof. exact wishart_inv_integrals. Qed.
Print Assumptions C118_e_inv.

(** the default parameter and an inverse function meet the hypotheses *)
Example C118_nonvacuous : exists gammaln digamma LG PSI d J, special gammaln LG /\ special digamma PSI /\ log_gamma LG /\ digamma_of LG PSI /\ slogdet_contract slogdet_ref /\
  wishart_init "w" 2 (Fin 0) None = Ok d /\ number_shape [] /\ holds d "df" (farr [] (fun _ => 2)) /\ holds d "v" (fmat 2 delta) /\ INR 2 - 1 < 2 /\ symmetric 2 delta /\ posdef 2 delta /\ inverse_of 2 delta delta /\
  inverts (fun a => Ok a) 2 delta /\ (forall X, symmetric 2 X -> posdef 2 X -> inverse_of 2 X (J X)).
Proof.
  destruct gamma_functions_exist as [LG [PSI [H1 H2]]]. destruct C80_classes_nonvacuous as [d [E [N [D1 [D2 [L [_ I]]]]]]].
  exists (fun x => match x with Fin r => Fin (LG r) | _ => NaN end), (fun x => match x with Fin r => Fin (PSI r) | _ => NaN end), LG, PSI, d, (inv_rec 2).
  split; [intros x _; reflexivity|]. split; [intros x _; reflexivity|]. split; [exact H1|]. split; [exact H2|]. split; [exact (proj1 C68_nonvacuous)|]. split; [exact E|]. split; [exact N|]. split; [exact D1|]. split; [exact D2|]. split; [exact L|].
  split; [intros i j _ _; unfold delta; rewrite Nat.eqb_sym; reflexivity|]. split.
  { intros x [i [Hi Nx]]. unfold quad, delta. cbn. assert (0 < x 0%nat * x 0%nat \/ 0 < x 1%nat * x 1%nat) by (destruct i as [|[|i]]; [left|right|lia]; apply Rsqr_pos_lt, Nx).
    pose proof (Rle_0_sqr (x 0%nat)). pose proof (Rle_0_sqr (x 1%nat)). unfold Rsqr in *. lra. }
  split; [exact I|]. split; [exists delta; split; [reflexivity|exact I]|exact (inv_rec_ok 2)].
Qed.
(** with 5 degrees of freedom and the scale matrix [[2, 1], [1, 1]] the expected inverse has 1/2 in its first entry *)
Example C118_expected_inverse : exists LG, log_gamma LG /\
  let B := fun i j => match i, j with O, O => 1 | S _, S _ => 2 | _, _ => -1 end in wexpects 2 (wishart_pdf LG 2 5 ex_V B) (fun X => inv_rec 2 X 0%nat 0%nat) (/ 2).
Proof.
  destruct gamma_functions_exist as [LG [PSI [H1 H2]]]. exists LG. split; [exact H1|]. cbv zeta. set (B := fun i j : nat => match i, j with O, O => 1 | S _, S _ => 2 | _, _ => -1 end).
  assert (I : inverse_of 2 B ex_V) by (intros [|[|i]] [|[|j]] Hi Hj; try lia; unfold ex_V, delta, B; cbn; lra).
  assert (S : symmetric 2 B) by (intros [|[|i]] [|[|j]] Hi Hj; try lia; reflexivity).
  assert (P : posdef 2 B).
  { intros x [i [Hi Nx]]. unfold quad, B. cbn. set (a := x 0%nat). set (b := x 1%nat). assert (0 < a * a \/ 0 < b * b) as K by (destruct i as [|[|i]]; [left|right|lia]; apply Rsqr_pos_lt, Nx).
    pose proof (Rle_0_sqr (a - b)) as Q1. pose proof (Rle_0_sqr b) as Q2. pose proof (Rle_0_sqr (a - 2 * b)) as Q3. pose proof (Rle_0_sqr a) as Q4. unfold Rsqr in *. destruct K; nra. }
  pose proof (wishart_inverse_mean LG PSI H1 H2 2 5 B ex_V (inv_rec 2) 0 0 ltac:(cbn; lra) S P I (inv_rec_ok 2) ltac:(lia) ltac:(lia)) as H. replace (/ 2) with (B 0%nat 0%nat / (5 - INR 2 - 1)) by (unfold B; cbn; field). exact H.
Qed.
