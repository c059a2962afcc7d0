(** C66-C69, C71, C72, C80-C82: ExponentialFamilies.py. *)
From Coq Require Import Reals List Arith Lia Lra Bool.
From Verif Require Import Res Num Nd RSum ModelParameters ModelNumpy ModelExpFam SpecMatrix SpecExpFam LemmasNumpy LemmasExpFam LemmasEntropy LemmasQuad.
Import List ListNotations.
Open Scope R_scope.

(** C66: entry by entry over arrays of any shape, the value at the mean and variance of any finitely supported distribution is the expected normal log density, up to the log normaliser *)
Theorem C66_normal : forall s m L (D : list nat -> dist R), (forall i, index s i -> is_dist (D i) /\ 0 < L i) ->
  exists r, uvn_prior (farr s m) (farr s L) (farr s (fun i => mean (D i))) (farr s (fun i => variance (D i))) = Ok (farr s r) /\
    forall i, index s i -> expect (D i) (fun x => ln (normal_pdf (m i) (L i) x)) = r i + ln (sqrt (L i / (2 * PI))).
Proof. exact uvn_prior_expect. Qed.
Print Assumptions C66_normal.
Theorem C66_multivariate_normal : forall n m L (d : dist (nat -> R)), is_dist d ->
  mvn_prior (fvec_of n m) (fmat n L) (fvec_of n (vmean d)) (fmat n (vcov d)) = Ok (fnum (expect d (fun x => ln (mvn_kernel n m L x)))).
Proof. exact mvn_prior_expect. Qed.
Print Assumptions C66_multivariate_normal.
Theorem C66_gamma : forall s a b (D : list nat -> dist R), (forall i, index s i -> is_dist (D i) /\ surely (D i) (fun x => 0 < x)) ->
  exists r, gamma_prior (farr s a) (farr s b) (farr s (fun i => mean (D i))) (farr s (fun i => expect (D i) ln)) = Ok (farr s r) /\
    forall i, index s i -> expect (D i) (fun x => ln (gamma_kernel (a i) (b i) x)) = r i.
Proof. exact gamma_prior_expect. Qed.
Print Assumptions C66_gamma.
Theorem C66_exponential : forall s l (D : list nat -> dist R), (forall i, index s i -> is_dist (D i) /\ 0 < l i) ->
  exists r, exponential_prior (farr s l) (farr s (fun i => mean (D i))) = Ok (farr s r) /\
    forall i, index s i -> expect (D i) (fun x => ln (exponential_pdf (l i) x)) = r i + ln (l i).
Proof. exact exponential_prior_expect. Qed.
Print Assumptions C66_exponential.
Theorem C66_dirichlet : forall n a (d : dist (nat -> R)), is_dist d -> surely d (fun x => forall k, (k < n)%nat -> 0 < x k) ->
  dirichlet_prior (fvec_of n a) (fvec_of n (fun k => expect d (fun x => ln (x k)))) =
  Ok (fnum (expect d (fun x => ln (dirichlet_kernel n a x)))).
Proof. exact dirichlet_prior_expect. Qed.
Print Assumptions C66_dirichlet.
Theorem C66_dirichlet_shapes : forall a l, shape a <> shape l -> dirichlet_prior a l = Raise AssertionError.
Proof. exact dirichlet_prior_mismatch. Qed.
Print Assumptions C66_dirichlet_shapes.
Definition coin : dist R := [(/ 2, 1); (/ 2, 3)].
Example C66_nonvacuous : is_dist coin /\ surely coin (fun x => 0 < x) /\ mean coin = 2 /\ variance coin = 1 /\
  uvn_prior (farr [2%nat; 1%nat] (fun _ => 5)) (farr [2%nat; 1%nat] (fun _ => 4)) (farr [2%nat; 1%nat] (fun _ => 2)) (farr [2%nat; 1%nat] (fun _ => 1)) = Ok (farr [2%nat; 1%nat] (fun _ => -20)).
Proof.
  assert (M : mean coin = 2) by (unfold mean, expect, coin; cbn; lra).
  split; [split; [repeat constructor; cbn; lra|unfold coin; cbn; lra]|]. split; [repeat constructor; cbn; lra|]. split; [exact M|].
  split; [unfold variance; rewrite M; unfold expect, coin; cbn; lra|]. rewrite uvn_prior_entries. apply Ok_eq. apply farr_ext. intros; lra.
Qed.
Definition coin2 : dist (nat -> R) := [(/ 4, fun k => match k with O => 1 | _ => 3 end); (3 / 4, fun k => match k with O => 5 | _ => 1 end)].
Example C66_nonvacuous_vectors : is_dist coin2 /\ surely coin2 (fun x => forall k, (k < 2)%nat -> 0 < x k).
Proof. split; [split; [repeat constructor; cbn; lra|cbn; lra]|]. repeat constructor; cbn; intros [|k] _; lra. Qed.

(** C67 *)
Theorem C67_square : forall s e e2, (forall i, index s i -> e2 i <> 0) ->
  exists m L, get_uvn_from_natural_parameters (farr s e) (farr s e2) = Ok (farr s m, farr s L) /\
    forall i, index s i -> exists c, forall x, e i * x + e2 i * (x * x) = - (L i / 2) * ((x - m i) * (x - m i)) + c.
Proof. exact natural_square. Qed.
Print Assumptions C67_square.
Theorem C67_inverse : forall s m L, (forall i, index s i -> L i <> 0) ->
  get_uvn_from_natural_parameters (farr s (fun i => L i * m i)) (farr s (fun i => - (L i / 2))) = Ok (farr s m, farr s L).
Proof. exact natural_inverse. Qed.
Print Assumptions C67_inverse.
Example C67_nonvacuous : get_uvn_from_natural_parameters (farr [2%nat] (fun _ => 6)) (farr [2%nat] (fun _ => -1)) = Ok (farr [2%nat] (fun _ => 3), farr [2%nat] (fun _ => 2)).
Proof. rewrite natural_entries by (intros; lra). apply Ok_eq. f_equal; apply farr_ext; intros; field. Qed.

(** C68: gammaln and digamma are any functions with finite values at positive arguments *)
Theorem C68_beta_is_dirichlet : forall gammaln digamma LG PSI, special gammaln LG -> special digamma PSI -> forall n t, (forall i k, (i < n)%nat -> (k < 2)%nat -> 0 < t i k) ->
  exists h, dirichlet_entropy gammaln digamma (fmat_of 2 n (fun k i => t i k)) = Ok (fvec_of n h) /\
            beta_entropy gammaln digamma (fmat_of n 2 t) = Ok (fnum (rsum n h)).
Proof. exact beta_is_dirichlet. Qed.
Print Assumptions C68_beta_is_dirichlet.


Theorem C68_wishart_is_gamma : forall gammaln digamma LG PSI, special gammaln LG -> special digamma PSI -> forall slogdet, slogdet_contract slogdet -> forall df v, 0 < df -> 0 < v ->
  wishart_entropy gammaln digamma slogdet (fnum df) (fmat 1 (fun _ _ => v)) = gamma_entropy gammaln digamma (fnum (df / 2)) (fnum (/ (2 * v))) /\
  e_log_det_wishart digamma slogdet (fnum df) (fmat 1 (fun _ _ => v)) = get_e_log_gamma digamma (fnum (df / 2)) (fnum (/ (2 * v))).
Proof. exact wishart_1_is_gamma. Qed.
Print Assumptions C68_wishart_is_gamma.

Theorem C68_diagonal_normal : forall slogdet, slogdet_contract slogdet -> forall n d, (forall i, (i < n)%nat -> 0 < d i) ->
  multivariate_normal_entropy slogdet (fmat n (fun i j => if Nat.eqb i j then d i else 0)) = univariate_normal_entropy (fvec_of n d).
Proof. exact mvn_diag_is_uvn. Qed.
Print Assumptions C68_diagonal_normal.


Theorem C68_recursion : forall gammaln digamma LG PSI, special gammaln LG -> special digamma PSI -> forall x n, INR n / 2 < x ->
  exists a b c e, multivariate_gammaln gammaln (fnum x) n = Ok (fnum a) /\ multivariate_gammaln gammaln (fnum x) (S n) = Ok (fnum b) /\
    multivariate_digamma digamma (fnum x) n = Ok (fnum c) /\ multivariate_digamma digamma (fnum x) (S n) = Ok (fnum e) /\
    b = a + LG (x - INR n / 2) + INR n / 2 * ln PI /\ e = c + PSI (x - INR n / 2) /\ (n = 0%nat -> a = 0 /\ c = 0).
Proof. exact multi_recursion. Qed.
Print Assumptions C68_recursion.

(** C68: without a positive determinant there is no value: AssertionError *)
Theorem C68_not_positive : forall slogdet, slogdet_contract slogdet -> forall n L, det n L <= 0 -> multivariate_normal_entropy slogdet (fmat n L) = Raise AssertionError.
Proof. exact mvn_entropy_not_pd. Qed.
Print Assumptions C68_not_positive.


Theorem C68_wishart_not_positive : forall gammaln digamma slogdet, slogdet_contract slogdet -> forall n df V, det n V <= 0 ->
  wishart_entropy gammaln digamma slogdet (fnum df) (fmat n V) = Raise AssertionError /\ e_log_det_wishart digamma slogdet (fnum df) (fmat n V) = Raise AssertionError.
Proof. exact wishart_not_pd. Qed.
Print Assumptions C68_wishart_not_positive.
(** an slogdet that meets the contract, and special functions that are finite on the positive reals *)
Definition slogdet_ref (a : arr) : res (num * num) :=
  match shape a with
  | [n; _] =>
      let d := det n (fun i j => toR (mget NaN a i j)) in
      if Rlt_dec 0 d then Ok (Fin 1, Fin (ln d)) else if Rlt_dec d 0 then Ok (Fin (-1), Fin (ln (- d))) else Ok (Fin 0, NInf)
  | _ => Raise LinAlgError
  end.
Lemma slogdet_ref_det n A : slogdet_ref (fmat n A) = let d := det n A in if Rlt_dec 0 d then Ok (Fin 1, Fin (ln d)) else if Rlt_dec d 0 then Ok (Fin (-1), Fin (ln (- d))) else Ok (Fin 0, NInf).
Proof.
  unfold slogdet_ref. cbn [shape fmat mk_mat].
  rewrite (det_ext n _ A); [reflexivity|]. intros i j Hi Hj. unfold fmat. rewrite mget_mk_mat by assumption. reflexivity.
Qed.
Example C68_nonvacuous : slogdet_contract slogdet_ref /\ special (fun x => x) (fun x => x) /\ 0 < det 2 (fun i j => if Nat.eqb i j then 3 else 1).
Proof.
  split; [|split].
  - intros n A. rewrite slogdet_ref_det. cbv zeta. split; [|split]; intros H; repeat (destruct (Rlt_dec _ _); try lra); reflexivity.
  - intros x _. reflexivity.
  - cbn. unfold minor. cbn. lra.
Qed.

(** C69: the functions *)
Theorem C69_moments : forall s mu v, exists e w e2, get_e_lognormal (farr s mu) (farr s v) = Ok (farr s e) /\ get_var_lognormal (farr s mu) (farr s v) = Ok (farr s w) /\
    get_e_lognormal (farr s (fun i => 2 * mu i)) (farr s (fun i => 4 * v i)) = Ok (farr s e2) /\
    forall i, index s i -> 0 < e i /\ e2 i = e i * e i + w i /\ (0 <= v i -> 0 <= w i) /\ (0 < v i -> 0 < w i) /\ (v i = 0 -> w i = 0 /\ e i = exp (mu i)).
Proof. exact lognormal_moments. Qed.
Print Assumptions C69_moments.
Example C69_nonvacuous : get_var_lognormal (farr [2%nat] (fun _ => 0)) (farr [2%nat] (fun _ => ln 2)) = Ok (farr [2%nat] (fun _ => 2)).
Proof.
  rewrite lognormal_var_entries. apply Ok_eq. apply farr_ext. intros idx _. rewrite <- exp_plus, exp_ln by lra. replace (0 + ln 2 / 2 + (0 + ln 2 / 2)) with (ln 2) by field. rewrite exp_ln by lra. lra.
Qed.

(** C71: axis 0 is the random variable, the remaining axes are an array of distributions *)
Theorem C71_simplex : forall n s alpha, (forall i, index (n :: s) i -> 0 < alpha i) ->
  exists p, get_e_dirichlet (farr (n :: s) alpha) = Ok (farr (n :: s) p) /\
    (forall i, index (n :: s) i -> 0 < p i <= 1) /\
    (forall j, index s j -> (0 < n)%nat -> rsum n (fun k => p (k :: j)) = 1) /\
    (forall k l j, index s j -> (k < n)%nat -> (l < n)%nat -> p (k :: j) * alpha (l :: j) = p (l :: j) * alpha (k :: j)).
Proof. exact dirichlet_mean_simplex. Qed.
Print Assumptions C71_simplex.
Theorem C71_rescaling : forall n s alpha (c : list nat -> R), (forall i, index (n :: s) i -> 0 < alpha i) -> (forall j, index s j -> 0 < c j) ->
  get_e_dirichlet (farr (n :: s) (fun i => c (tl i) * alpha i)) = get_e_dirichlet (farr (n :: s) alpha).
Proof. exact dirichlet_mean_rescale. Qed.
Print Assumptions C71_rescaling.
Example C71_nonvacuous : get_e_dirichlet (farr [2%nat; 1%nat] (fun i => match i with O :: _ => 1 | _ => 3 end)) = Ok (farr [2%nat; 1%nat] (fun i => match i with O :: _ => 1 / 4 | _ => 3 / 4 end)).
Proof.
  rewrite dirichlet_mean_entries; [apply Ok_eq; apply farr_ext|].
  - intros i Hi. apply in_product_2_inv in Hi as [a [b [-> [Ha Hb]]]]. destruct a as [|a]; cbn; field.
  - intros i Hi. apply in_product_2_inv in Hi as [a [b [-> [Ha Hb]]]]. destruct a as [|a]; lra.
Qed.

(** C72: with constants, linear and quadratic polynomials a + b x + c x^2 *)
Theorem C72_polynomials : forall s mu L m x w a b c fn, exact2 m w x -> componentwise fn (fun t => a + b * t + c * (t * t)) -> (forall i, index s i -> 0 < L i) ->
  get_e_fun_normal (farr s mu) (farr s L) (fvec_of m x) (fvec_of m w) fn = Ok (farr s (fun i => a + b * mu i + c * (mu i * mu i + / L i))).
Proof. exact gh_polynomial. Qed.
Print Assumptions C72_polynomials.

(** C72: for every function the result is the rule applied after the change of variables *)
Theorem C72_quadrature : forall fn f s mu L m x w, componentwise fn f -> (forall i, index s i -> 0 < L i) ->
  get_e_fun_normal (farr s mu) (farr s L) (fvec_of m x) (fvec_of m w) fn = Ok (farr s (fun i => gh_expect m w x (mu i) (L i) f)).
Proof. exact gh_value. Qed.
Print Assumptions C72_quadrature.
Theorem C72_shapes : forall fn a b x w, shape a <> shape b -> get_e_fun_normal a b x w fn = Raise AssertionError.
Proof. exact gh_mismatch. Qed.
Print Assumptions C72_shapes.
Theorem C72_log_logitnormal : forall s mu L m x w, exact2 m w x -> (forall k, (k < m)%nat -> 0 <= w k) -> (forall i, index s i -> 0 < L i) ->
  exists a b, get_e_log_logitnormal (farr s mu) (farr s L) (fvec_of m x) (fvec_of m w) = Ok (farr s a, farr s b) /\
    forall i, index s i -> b i = a i - mu i /\
      Rabs (a i - gh_expect m w x (mu i) (L i) (fun t => ln (expit t))) <= exp (-100) /\
      Rabs (b i - gh_expect m w x (mu i) (L i) (fun t => ln (1 - expit t))) <= exp (-100).
Proof. exact log_logitnormal_close. Qed.
Print Assumptions C72_log_logitnormal.
Theorem C72_logitnormal : forall s mu L m x w, (forall i, index s i -> 0 < L i) -> (forall k, (k < m)%nat -> 0 <= w k) -> rule m w x (fun _ => 1) = sqrt PI ->
  exists p, get_e_logitnormal (farr s mu) (farr s L) (fvec_of m x) (fvec_of m w) = Ok (farr s p) /\
    forall i, index s i -> p i = gh_expect m w x (mu i) (L i) expit /\ 0 <= p i <= 1.
Proof. exact logitnormal_value. Qed.
Print Assumptions C72_logitnormal.
Theorem C72_dp_prior : forall s al mu L m x w b, (forall i, index s i -> 0 < L i) ->
  (exists a, get_e_log_logitnormal (farr s mu) (farr s L) (fvec_of m x) (fvec_of m w) = Ok (farr s a, farr s b)) ->
  get_e_dp_prior_logitnorm_approx (fnum al) (farr s mu) (farr s L) (fvec_of m x) (fvec_of m w) = Ok (farr s (fun i => (al - 1) * b i)).
Proof. exact dp_prior_value. Qed.
Print Assumptions C72_dp_prior.
(** the three-point Gauss-Hermite rule is exact on quadratics and has nonnegative weights *)
Example C72_nonvacuous : exact2 3 (fun k => match k with O => 2 * sqrt PI / 3 | _ => sqrt PI / 6 end) (fun k => match k with O => 0 | S O => sqrt (3 / 2) | _ => - sqrt (3 / 2) end) /\
  (forall k, (k < 3)%nat -> 0 <= match k with O => 2 * sqrt PI / 3 | _ => sqrt PI / 6 end) /\
  componentwise (fun x => np_pow2 (Ok x)) (fun t => 0 + 0 * t + 1 * (t * t)).
Proof.
  split; [exact (proj1 three_point)|]. split; [intros k _; exact (proj2 three_point k)|]. intros s g. pyfin. f_equal. ring.
Qed.

(** C80: entropies are minus the expected log density under every distribution that has the moments the library reports *)
Theorem C80_normal : forall s m L (D : list nat -> dist R), (forall i, index s i -> 0 < L i /\ is_dist (D i) /\ mean (D i) = m i /\ variance (D i) = / L i) ->
  univariate_normal_entropy (farr s L) = Ok (fnum (lsum (map (fun i => - expect (D i) (fun x => ln (normal_pdf (m i) (L i) x))) (product s)))).
Proof. exact normal_entropy_expect. Qed.
Print Assumptions C80_normal.


Theorem C80_gamma : forall gammaln digamma LG PSI, special gammaln LG -> special digamma PSI -> forall s a b (D : list nat -> dist R), (forall i, index s i -> 0 < a i /\ 0 < b i /\ is_dist (D i) /\ surely (D i) (fun x => 0 < x) /\ mean (D i) = a i / b i) ->
  get_e_log_gamma digamma (farr s a) (farr s b) = Ok (farr s (fun i => expect (D i) ln)) ->
  gamma_entropy gammaln digamma (farr s a) (farr s b) =
    Ok (fnum (lsum (map (fun i => gamma_log_norm LG (a i) (b i) - expect (D i) (fun x => ln (gamma_kernel (a i) (b i) x))) (product s)))).
Proof. exact gamma_entropy_expect. Qed.
Print Assumptions C80_gamma.


Theorem C80_dirichlet : forall gammaln digamma LG PSI, special gammaln LG -> special digamma PSI -> forall n s alpha (D : list nat -> dist (nat -> R)), (0 < n)%nat -> (forall i, index (n :: s) i -> 0 < alpha i) ->
  (forall j, index s j -> is_dist (D j) /\ surely (D j) (fun x => forall k, (k < n)%nat -> 0 < x k)) ->
  get_e_log_dirichlet digamma (farr (n :: s) alpha) = Ok (farr (n :: s) (fun i => expect (D (tl i)) (fun x => ln (x (hd 0%nat i))))) ->
  dirichlet_entropy gammaln digamma (farr (n :: s) alpha) =
    Ok (farr s (fun j => let a := fun k => alpha (k :: j) in dirichlet_log_norm LG n a - expect (D j) (fun x => ln (dirichlet_kernel n a x)))).
Proof. exact dirichlet_entropy_expect. Qed.
Print Assumptions C80_dirichlet.


Theorem C80_multivariate_normal : forall slogdet, slogdet_contract slogdet -> forall n m L C (d : dist (nat -> R)), 0 < det n L -> inverse_of n L C -> is_dist d ->
  (forall i, (i < n)%nat -> vmean d i = m i) -> (forall i j, (i < n)%nat -> (j < n)%nat -> vcov d i j = C i j) ->
  multivariate_normal_entropy slogdet (fmat n L) = Ok (fnum (mvn_log_norm n L - expect d (fun x => ln (mvn_kernel n m L x)))).
Proof. exact mvn_entropy_expect. Qed.
Print Assumptions C80_multivariate_normal.


Theorem C80_wishart : forall gammaln digamma LG PSI, special gammaln LG -> special digamma PSI -> forall slogdet, slogdet_contract slogdet -> forall n df V Vinv (d : dist (nat -> nat -> R)), INR n - 1 < df -> 0 < det n V -> inverse_of n V Vinv -> is_dist d -> surely d (fun X => 0 < det n X) ->
  (forall i j, (i < n)%nat -> (j < n)%nat -> expect d (fun X => X i j) = df * V i j) ->
  e_log_det_wishart digamma slogdet (fnum df) (fmat n V) = Ok (fnum (expect d (fun X => ln (det n X)))) ->
  wishart_entropy gammaln digamma slogdet (fnum df) (fmat n V) = Ok (fnum (wishart_log_norm LG n df V - expect d (fun X => ln (wishart_kernel n df Vinv X)))).
Proof. exact wishart_entropy_expect. Qed.
Print Assumptions C80_wishart.
(** distributions with the reported moments exist: a symmetric coin for the normal; for the gamma with shape and rate 1,
    {1/2, 3/2} when digamma(1) is its mean log; the four corners of a square for the two-dimensional normal;
    {2 I, 4 I} for the 2 by 2 Wishart with 3 degrees of freedom *)
Definition corners : dist (nat -> R) :=
  map (fun p => (/ 4, fun k => match k with O => fst p | _ => snd p end)) [(1, 1); (1, -1); (-1, 1); (-1, -1)].
Definition scaled_eyes : dist (nat -> nat -> R) := [(/ 2, fun i j => 2 * delta i j); (/ 2, fun i j => 4 * delta i j)].
Definition halves : dist R := [(/ 2, / 2); (/ 2, 3 / 2)].
Example C80_nonvacuous :
  (is_dist coin /\ mean coin = 2 /\ variance coin = / 1) /\
  (is_dist halves /\ surely halves (fun x => 0 < x) /\ mean halves = 1 / 1 /\
   let c := / 2 * ln (3 / 4) in get_e_log_gamma (fun _ => Fin c) (farr [1%nat] (fun _ => 1)) (farr [1%nat] (fun _ => 1)) = Ok (farr [1%nat] (fun _ => expect halves ln))) /\
  (is_dist corners /\ inverse_of 2 delta delta /\ 0 < det 2 delta /\ (forall i, (i < 2)%nat -> vmean corners i = 0) /\ forall i j, (i < 2)%nat -> (j < 2)%nat -> vcov corners i j = delta i j) /\
  (is_dist scaled_eyes /\ surely scaled_eyes (fun X => 0 < det 2 X) /\ (forall i j, (i < 2)%nat -> (j < 2)%nat -> expect scaled_eyes (fun X => X i j) = 3 * delta i j) /\
   e_log_det_wishart (fun _ => Fin (/ 2 * ln 2)) slogdet_ref (fnum 3) (fmat 2 delta) = Ok (fnum (expect scaled_eyes (fun X => ln (det 2 X))))).
Proof.
  destruct C66_nonvacuous as [D [_ [M [V _]]]]. split; [split; [exact D|split; [exact M|rewrite Rinv_1; exact V]]|]. split; [|split].
  - split; [split; [repeat constructor; cbn; lra|cbn; lra]|]. split; [repeat constructor; cbn; lra|]. split; [unfold mean, expect, halves; cbn; lra|]. cbv zeta.
    rewrite (e_log_gamma_value (fun _ => Fin (/ 2 * ln (3 / 4))) (fun _ => / 2 * ln (3 / 4))) by (intros; try (intros x _; reflexivity); lra).
    apply Ok_eq. apply farr_ext. intros _ _. rewrite ln_1. unfold expect, halves. cbn. replace (3 / 4) with (/ 2 * (3 / 2)) by field. rewrite ln_mult by lra. ring.
  - split; [split; [repeat constructor; cbn; lra|cbn; lra]|]. split; [intros [|[|i]] [|[|j]] Hi Hj; try lia; unfold delta; cbn; lra|].
    split; [unfold delta; cbn; unfold minor; cbn; lra|].
    assert (Z : forall i, (i < 2)%nat -> vmean corners i = 0) by (intros [|[|i]] Hi; try lia; unfold vmean, expect, corners; cbn; lra). split; [exact Z|].
    intros i j Hi Hj. unfold vcov. rewrite !Z by assumption. destruct i as [|[|i]]; destruct j as [|[|j]]; try lia; unfold expect, corners, delta; cbn; lra.
  - assert (D2 : det 2 (fun i j => 2 * delta i j) = 4) by (unfold delta; cbn; unfold minor; cbn; lra).
    assert (D4 : det 2 (fun i j => 4 * delta i j) = 16) by (unfold delta; cbn; unfold minor; cbn; lra).
    assert (D1 : det 2 delta = 1) by (unfold delta; cbn; unfold minor; cbn; lra).
    split; [split; [repeat constructor; cbn; lra|cbn; lra]|]. split; [unfold surely, scaled_eyes; repeat constructor; cbn [snd]; lra|].
    split; [intros i j _ _; unfold expect, scaled_eyes; cbn; lra|].
    rewrite (e_log_det_value (fun _ => Fin (/ 2 * ln 2)) (fun _ => / 2 * ln 2)); [|intros x _; reflexivity|exact (proj1 C68_nonvacuous)|cbn; lra|lra].
    do 2 f_equal. unfold e_log_det_of. rewrite D1, ln_1. unfold expect, scaled_eyes. cbn [map fst snd lsum fold_right]. rewrite D2, D4. cbn [rsum INR].
    replace 16 with (2 * (2 * (2 * 2))) by ring. replace 4 with (2 * 2) by ring. rewrite !ln_mult by lra. lra.
Qed.

(** C81 *)
Theorem C81_bounds : forall n m p c, (0 < m)%nat -> 0 <= c ->
  (forall i, (i < n)%nat -> rsum m (p i) = 1 /\ forall j, (j < m)%nat -> 0 <= p i j /\ 0 < p i j + c) ->
  exists h, multinoulli_entropy (fmat_of n m p) c = Ok (fvec_of n h) /\ forall i, (i < n)%nat -> - c <= h i <= ln (INR m).
Proof. exact multinoulli_bounds. Qed.
Print Assumptions C81_bounds.
Theorem C81_uniform : forall n m, (0 < m)%nat -> multinoulli_entropy (fmat_of n m (fun _ _ => / INR m)) 0 = Ok (fvec_of n (fun _ => ln (INR m))).
Proof. exact multinoulli_uniform. Qed.
Print Assumptions C81_uniform.
Example C81_nonvacuous : (0 < 3)%nat /\ rsum 3 (fun j => match j with O => / 2 | S O => / 2 | _ => 0 end) = 1 /\ forall j, (j < 3)%nat -> 0 <= match j with O => / 2 | S O => / 2 | _ => 0 end /\ 0 < match j with O => / 2 | S O => / 2 | _ => 0 end + / 10.
Proof. split; [lia|]. split; [cbn; lra|]. intros [|[|[|j]]] H; try lia; lra. Qed.

(** C82: a one by one correlation matrix is constant, and rescaling the variables does not change their correlations *)
Theorem C82_one_dimension : forall digamma PSI, special digamma PSI -> forall slogdet, slogdet_contract slogdet -> forall inv, forall df v eta, 0 < df -> 0 < v -> inverts inv 1 (fun _ _ => v) -> expected_ljk_prior digamma slogdet inv eta (fnum df) (fmat 1 (fun _ _ => v)) = Ok (fnum 0).
Proof. exact lkj_one. Qed.
Print Assumptions C82_one_dimension.


Theorem C82_rescaling : forall digamma PSI, special digamma PSI -> forall slogdet, slogdet_contract slogdet -> forall inv, forall n df V eta d, INR n - 1 < df -> 0 < det n V -> (forall B, inverse_of n V B -> forall i, (i < n)%nat -> 0 < B i i) -> (forall i, (i < n)%nat -> d i <> 0) ->
  inverts inv n V -> inverts inv n (fun i j => d i * V i j * d j) ->
  exists r, expected_ljk_prior digamma slogdet inv eta (fnum df) (fmat n V) = Ok (fnum r) /\
            expected_ljk_prior digamma slogdet inv eta (fnum df) (fmat n (fun i j => d i * V i j * d j)) = Ok (fnum r).
Proof. exact lkj_scale. Qed.
Print Assumptions C82_rescaling.
(** an inverse routine for the matrix [[2, 1], [1, 1]] and its rescaling by (1, 3) *)
Definition ex_V (i j : nat) : R := match i, j with O, O => 2 | _, _ => 1 end.
Definition ex_d (i : nat) : R := match i with O => 1 | _ => 3 end.
Example C82_nonvacuous :
  let B := fun i j => match i, j with O, O => 1 | S _, S _ => 2 | _, _ => -1 end in
  inverse_of 2 ex_V B /\ (forall C, inverse_of 2 ex_V C -> forall i, (i < 2)%nat -> 0 < C i i) /\ 0 < det 2 ex_V /\
  inverse_of 2 (fun i j => ex_d i * ex_V i j * ex_d j) (fun i j => / ex_d i * B i j * / ex_d j) /\
  exists r, expected_ljk_prior (fun x => x) slogdet_ref (fun a => Ok (if Reqb (toR (mget NaN a 1 1)) 1 then fmat 2 B else fmat 2 (fun i j => / ex_d i * B i j * / ex_d j))) 3 (fnum 4) (fmat 2 ex_V) = Ok (fnum r) /\
            expected_ljk_prior (fun x => x) slogdet_ref (fun a => Ok (if Reqb (toR (mget NaN a 1 1)) 1 then fmat 2 B else fmat 2 (fun i j => / ex_d i * B i j * / ex_d j))) 3 (fnum 4) (fmat 2 (fun i j => ex_d i * ex_V i j * ex_d j)) = Ok (fnum r).
Proof.
  intros B. assert (I : inverse_of 2 ex_V B) by (intros [|[|i]] [|[|j]] Hi Hj; try lia; unfold B, ex_V, delta; cbn; lra). split; [exact I|].
  assert (U : forall C, inverse_of 2 ex_V C -> forall i, (i < 2)%nat -> 0 < C i i) by (intros C HC i Hi; rewrite (inverse_unique 2 ex_V C B HC I) by exact Hi; destruct i as [|[|i]]; try lia; unfold B; lra).
  split; [exact U|]. assert (D : 0 < det 2 ex_V) by (unfold ex_V; cbn; unfold minor; cbn; lra). split; [exact D|].
  assert (N : forall i, (i < 2)%nat -> ex_d i <> 0) by (intros [|i] _; unfold ex_d; lra). assert (I2 := inverse_scaled 2 ex_V B ex_d N I). split; [exact I2|].
  apply (C82_rescaling (fun x => x) (fun x => x)).
  - intros x _. reflexivity.
  - exact (proj1 C68_nonvacuous).
  - cbn. lra.
  - exact D.
  - exact U.
  - exact N.
  - exists B. split; [|exact I]. unfold fmat at 1. rewrite mget_mk_mat by lia. cbn [toR]. replace (ex_V 1 1) with 1 by reflexivity. rewrite Reqb_refl. reflexivity.
  - exists (fun i j => / ex_d i * B i j * / ex_d j). split; [|exact I2]. unfold fmat at 1. rewrite mget_mk_mat by lia. cbn [toR].
    replace (ex_d 1 * ex_V 1 1 * ex_d 1) with 9 by (unfold ex_d, ex_V; ring). unfold Reqb. destruct (Req_EM_T 9 1); [lra|reflexivity].
Qed.
