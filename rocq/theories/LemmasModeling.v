(** Proofs for Modeling.py. *)
From Coq Require Import Reals List Arith Bool Lia Lra.
From Coquelicot Require Import Coquelicot.
From Verif Require Import Res Num Nd RSum ModelParameters ModelNumpy ModelExpFam ModelModeling SpecMatrix SpecExpFam SpecModeling LemmasPosDef LemmasNumpy LemmasExpFam LemmasEntropy LemmasQuad.
Import List ListNotations.
Set Bullet Behavior "Strict Subproofs".
Open Scope R_scope.

(** ---- standard draws ---- *)
Lemma draw_point n i : (i < n)%nat -> (if (1 <? n)%nat && (S i =? n)%nat then 1 - 1 / (INR n + 1) else INR i * ((1 - 1 / (INR n + 1) - 1 / (INR n + 1)) / INR (n - 1)) + 1 / (INR n + 1)) = (INR i + 1) / (INR n + 1).
Proof.
  intros H. assert (P : 0 <= INR n) by apply pos_INR. destruct (1 <? n)%nat eqn:E1.
  - apply Nat.ltb_lt in E1. cbn [andb]. destruct (S i =? n)%nat eqn:E2.
    + apply Nat.eqb_eq in E2. subst n. rewrite S_INR in *. field. lra.
    + assert (Q : 0 < INR (n - 1)) by (apply lt_0_INR; lia). rewrite minus_INR in * by lia. cbn [INR] in *. field. lra.
  - apply Nat.ltb_ge in E1. assert (n = 1%nat) by lia. assert (i = 0%nat) by lia. subst. cbn [Nat.eqb andb]. change (INR 0) with 0. change (INR 1) with 1. rewrite Rmult_0_l. lra.
Qed.
Lemma point_inside n i : (i < n)%nat -> 0 < (INR i + 1) / (INR n + 1) < 1.
Proof.
  intros H. apply lt_INR in H. assert (0 <= INR i) by apply pos_INR. split; [apply Rdiv_lt_0_compat; lra|]. apply (Rmult_lt_reg_r (INR n + 1)); [lra|]. unfold Rdiv. rewrite Rmult_assoc, Rinv_l by lra. lra.
Qed.
Lemma standard_draws_value ppf q n : odd_quantile ppf q -> get_standard_draws ppf n = Ok (fvec_of n (fun i => q ((INR i + 1) / (INR n + 1)))).
Proof.
  intros Q. unfold get_standard_draws. rewrite np_linspace_mk, nun_mk. apply Ok_eq. unfold fvec_of, farr. apply mk_nd_ext. intros idx H. apply in_product_1 in H as [i [-> Hi]]. cbn [nth].
  rewrite draw_point by exact Hi. apply Q. apply point_inside. exact Hi.
Qed.
Lemma rsum_rev n f : rsum n (fun i => f (n - 1 - i)%nat) = rsum n f.
Proof.
  induction n as [|n IH]; [reflexivity|]. rewrite rsum_S_l. cbn [rsum]. rewrite (Rplus_comm (rsum n f)). f_equal; [f_equal; lia|]. rewrite <- IH. apply rsum_ext. intros i Hi. f_equal. lia.
Qed.
Lemma standard_draws_odd q ppf n : odd_quantile ppf q -> let x := fun i => q ((INR i + 1) / (INR n + 1)) in
  (forall i, (i < n)%nat -> x (n - 1 - i)%nat = - x i) /\ rsum n x = 0.
Proof.
  intros Q x. assert (A : forall i, (i < n)%nat -> x (n - 1 - i)%nat = - x i).
  { intros i Hi. unfold x. rewrite <- (proj2 (Q _ (point_inside n i Hi))). f_equal. rewrite !minus_INR by lia. cbn [INR]. field. pose proof (pos_INR n). lra. }
  split; [exact A|]. assert (E : rsum n x = - rsum n x). { rewrite <- rsum_opp. rewrite <- (rsum_rev n x) at 1. apply rsum_ext. exact A. } lra.
Qed.
Lemma standard_draws_sorted q n : (forall u v, 0 < u -> u < v -> v < 1 -> q u < q v) -> forall i j, (i < j < n)%nat -> q ((INR i + 1) / (INR n + 1)) < q ((INR j + 1) / (INR n + 1)).
Proof.
  intros M i j H. apply M; [apply point_inside; lia| |apply point_inside; lia]. assert (INR i < INR j) by (apply lt_INR; lia). pose proof (pos_INR n). unfold Rdiv. apply Rmult_lt_compat_r; [apply Rinv_0_lt_compat; lra|lra].
Qed.

(** ---- the normal log density ---- *)
Lemma log_prob_value s u m L : (forall i, index s i -> 0 < L i) ->
  univariate_normal_log_prob (farr s u) (farr s m) (farr s L) = Ok (farr s (fun i => ln (normal_pdf (m i) (L i) (u i)) + (L i - ln (L i)) / 2)).
Proof.
  intros H. unfold univariate_normal_log_prob, farr. py. apply Ok_eq. apply mk_nd_ext. intros i Hi. specialize (H i Hi). pose proof PI_RGT_0 as P.
  unfold nsq, nsub. cbn [nmul nopp nadd]. rewrite nlog_pos by nra. cbn [nmul nopp nadd]. f_equal. rewrite ln_normal_pdf by exact H.
  assert (Q : ln (sqrt (L i / (2 * PI))) = / 2 * (ln (L i) - ln (2 * PI))).
  { assert (T : 0 < L i / (2 * PI)) by (apply Rdiv_lt_0_compat; [exact H|apply two_pi_pos]).
    assert (E : ln (L i / (2 * PI)) = ln (sqrt (L i / (2 * PI))) + ln (sqrt (L i / (2 * PI)))) by (rewrite <- ln_mult by (apply sqrt_lt_R0; exact T); rewrite sqrt_sqrt by lra; reflexivity).
    unfold Rdiv in E at 1. rewrite ln_mult, ln_Rinv in E by (try apply two_pi_pos; try exact H; apply Rinv_0_lt_compat, two_pi_pos). lra. }
  rewrite Q. field.
Qed.
Lemma log_prob_wrong s u m L : (forall i, index s i -> 0 < L i) ->
  exists r, univariate_normal_log_prob (farr s u) (farr s m) (farr s L) = Ok (farr s r) /\
    forall i, index s i -> r i - ln (normal_pdf (m i) (L i) (u i)) = (L i - ln (L i)) / 2 /\ ln (normal_pdf (m i) (L i) (u i)) + / 2 <= r i.
Proof.
  intros H. eexists. split; [apply log_prob_value; exact H|]. intros i Hi. specialize (H i Hi). cbn beta. split; [ring|]. pose proof (exp_ineq1_le (ln (L i))) as E. rewrite exp_ln in E by exact H. lra.
Qed.

(** ---- log(1 + e^z) ---- *)
Lemma softplus_tangent m z : softplus m + expit m * (z - m) <= softplus z.
Proof.
  unfold softplus. pose proof (exp_pos m) as P1. pose proof (exp_pos z) as P2. pose proof (expit_pos m) as Pe.
  assert (E : 1 + exp z = (1 + exp m) * ((1 - expit m) + expit m * exp (z - m))).
  { replace (expit m) with (exp m / (1 + exp m)) by (unfold expit; rewrite exp_Ropp; field; lra). replace (exp (z - m)) with (exp z / exp m) by (unfold Rminus; rewrite exp_plus, exp_Ropp; reflexivity). field. lra. }
  assert (Pq : 0 < (1 - expit m) + expit m * exp (z - m)) by (pose proof (exp_pos (z - m)); nra).
  rewrite E, ln_mult by lra. apply Rplus_le_compat_l. rewrite <- (ln_exp (expit m * (z - m))). set (p := expit m) in *. set (t := z - m) in *.
  apply ln_le; [apply exp_pos|]. pose proof (exp_ineq1_le (0 - p * t)) as A. pose proof (exp_ineq1_le (t - p * t)) as B.
  assert (P := exp_pos (p * t)). assert (A' : exp (p * t) * (1 + (0 - p * t)) <= 1).
  { replace 1 with (exp (p * t) * exp (0 - p * t)) at 2 by (rewrite <- exp_plus; replace (p * t + (0 - p * t)) with 0 by ring; apply exp_0). apply Rmult_le_compat_l; lra. }
  assert (B' : exp (p * t) * (1 + (t - p * t)) <= exp t).
  { replace (exp t) with (exp (p * t) * exp (t - p * t)) by (rewrite <- exp_plus; f_equal; ring). apply Rmult_le_compat_l; lra. }
  assert (exp (p * t) = (1 - p) * (exp (p * t) * (1 + (0 - p * t))) + p * (exp (p * t) * (1 + (t - p * t)))) by ring. nra.
Qed.
Lemma softplus_derive z : is_derive softplus z (expit z).
Proof. unfold softplus. pose proof (exp_pos z) as P. auto_derive; [lra|]. unfold expit. rewrite exp_Ropp. field. lra. Qed.
Lemma expit_derive z : is_derive expit z (expit z * (1 - expit z)).
Proof. unfold expit. pose proof (exp_pos (- z)) as P. auto_derive; [lra|]. field. lra. Qed.
Lemma expit_slope z : 0 <= expit z * (1 - expit z) <= / 4.
Proof. pose proof (expit_pos z) as [P1 P2]. split; [nra|]. pose proof (Rle_0_sqr (expit z - / 2)) as S. unfold Rsqr in S. lra. Qed.
Lemma expit_lipschitz a b : a < b -> 0 <= expit b - expit a <= (b - a) / 4.
Proof.
  intros H. destruct (MVT_cor2 expit (fun z => expit z * (1 - expit z)) a b H) as [c [E _]]; [intros; apply is_derive_Reals, expit_derive|]. rewrite E. pose proof (expit_slope c). nra.
Qed.
Lemma softplus_quadratic m z : softplus z <= softplus m + expit m * (z - m) + (z - m) * (z - m) / 8.
Proof.
  set (g := fun z => softplus m + expit m * (z - m) + (z - m) * (z - m) / 8 - softplus z).
  assert (D : forall c, derivable_pt_lim g c (expit m + (c - m) / 4 - expit c)).
  { intros c. apply is_derive_Reals. unfold g. apply (is_derive_minus (fun z => softplus m + expit m * (z - m) + (z - m) * (z - m) / 8) softplus); [|apply softplus_derive]. auto_derive; [exact I|]. field. }
  assert (G0 : g m = 0) by (unfold g; field). cut (0 <= g z); [unfold g; lra|]. destruct (Rtotal_order m z) as [H|[->|H]].
  - destruct (MVT_cor2 g _ m z H (fun c _ => D c)) as [c [E B]]. pose proof (expit_lipschitz m c (proj1 B)). rewrite G0 in E. nra.
  - rewrite G0. lra.
  - destruct (MVT_cor2 g _ z m H (fun c _ => D c)) as [c [E B]]. pose proof (expit_lipschitz c m (proj2 B)). rewrite G0 in E. nra.
Qed.

(** ---- logistic terms ---- *)
Lemma flat_map_map_lsum {A B} (f : B -> R) (g : A -> list B) l : lsum (map (fun a => lsum (map f (g a))) l) = lsum (map f (flat_map g l)).
Proof. induction l as [|a l IH]; [reflexivity|]. cbn [flat_map map]. rewrite map_app, lsum_app, <- IH. reflexivity. Qed.
Lemma log1p_exp a : nlog1p (nexp (Fin a)) = Fin (softplus a).
Proof. unfold nlog1p. cbn [nexp nadd]. pose proof (exp_pos a). rewrite nlog_pos by lra. reflexivity. Qed.
Lemma lsum_snoc s m f : lsum (map f (product (s ++ [m]))) = lsum (map (fun i => rsum m (fun k => f (i ++ [k]))) (product s)).
Proof. rewrite product_app, product_1, <- (flat_map_map_lsum f). apply lsum_map_ext. intros i _. rewrite !map_map. apply lsum_map_seq. Qed.
Lemma logistic_value s y mu sd m x : (0 < m)%nat ->
  get_e_logistic_term (farr s y) (farr s mu) (farr s sd) (fvec_of m x) =
    Ok (fnum (lsum (map (fun i => y i * mu i - / INR m * rsum m (fun k => softplus (sd i * x k + mu i))) (product s)))).
Proof.
  intros M. unfold get_e_logistic_term, fvec_of, farr. rewrite !mk_nd_shape, Nat.eqb_refl. cbn [rassert]. cbv zeta. unfold np_log1p. py. cbn [rbind]. py. cbn [rbind]. py.
  cbn [rbind]. py. apply Ok_eq. unfold fnum. rewrite nd_scalar_mk. apply mk_nd_ext. intros idx _.
  assert (IM : INR m <> 0) by (apply not_0_INR; lia).
  rewrite (nsum_map_fin _ (fun i => y i * mu i)) by (intros; reflexivity).
  rewrite (nsum_map_fin _ (fun i => softplus (sd (removelast i) * x (last i 0%nat) + mu (removelast i)))).
  - unfold nd_size. rewrite mk_nd_shape. unfold nprod. cbn [fold_right]. rewrite Nat.mul_1_r. rewrite ndiv_fin by exact IM. cbn [nsub]. f_equal.
    rewrite lsum_snoc. unfold nsub. cbn [nopp nadd]. f_equal.
    rewrite (lsum_map_ext (fun i => rsum m (fun k => softplus (sd (removelast (i ++ [k])) * _ + _))) (fun i => rsum m (fun k => softplus (sd i * x k + mu i)))) by (intros i _; apply rsum_ext; intros k _; rewrite removelast_last, last_last; reflexivity).
    rewrite (lsum_map_ext (fun i => y i * mu i - _) (fun i => y i * mu i + (- / INR m) * rsum m (fun k => softplus (sd i * x k + mu i)))) by (intros; ring).
    rewrite lsum_map_plus, (lsum_map_scal (- / INR m)). field. exact IM.
  - intros i Hi. apply in_product_snoc_inv in Hi as [j [k [-> [Hj Hk]]]]. rewrite !removelast_last, !last_last. cbn [nth nmul nadd]. apply log1p_exp.
Qed.

Lemma draws_expect m x mu sd f : expect (draws_dist m x mu sd) f = / INR m * rsum m (fun k => f (sd * x k + mu)).
Proof. unfold expect, draws_dist. rewrite map_map, lsum_map_seq. cbn [fst snd]. apply rsum_scal_l. Qed.
Lemma draws_is_dist m x mu sd : (0 < m)%nat -> is_dist (draws_dist m x mu sd).
Proof.
  intros M. assert (IM : 0 < INR m) by (apply lt_0_INR; exact M). split.
  - unfold draws_dist. apply Forall_forall. intros p Hp. apply in_map_iff in Hp as [k [<- _]]. cbn [fst]. apply Rlt_le, Rinv_0_lt_compat, IM.
  - unfold draws_dist. rewrite map_map, lsum_map_seq. cbn [fst]. rewrite rsum_const. field. lra.
Qed.
Lemma draws_mean m x mu sd : (0 < m)%nat -> rsum m x = 0 -> mean (draws_dist m x mu sd) = mu.
Proof.
  intros M Z. assert (IM : 0 < INR m) by (apply lt_0_INR; exact M). unfold mean. rewrite draws_expect. rewrite rsum_plus, rsum_scal_l, Z, rsum_const. field. lra.
Qed.
Lemma logistic_expect s y mu sd m x : (0 < m)%nat -> rsum m x = 0 ->
  get_e_logistic_term (farr s y) (farr s mu) (farr s sd) (fvec_of m x) =
    Ok (fnum (lsum (map (fun i => expect (draws_dist m x (mu i) (sd i)) (logistic_loglik (y i))) (product s)))).
Proof.
  intros M Z. rewrite logistic_value by exact M. do 2 f_equal. apply lsum_map_ext. intros i _. rewrite draws_expect. unfold logistic_loglik.
  rewrite rsum_minus, rsum_scal_l, rsum_plus, rsum_scal_l, Z, rsum_const. assert (IM : INR m <> 0) by (apply not_0_INR; lia). field. exact IM.
Qed.
Lemma rsum_le n f g : (forall i, (i < n)%nat -> f i <= g i) -> rsum n f <= rsum n g.
Proof. induction n as [|n IH]; intros H; cbn [rsum]; [lra|]. specialize (IH (fun i Hi => H i (Nat.lt_lt_succ_r _ _ Hi))). specialize (H n (Nat.lt_succ_diag_r n)). lra. Qed.
Lemma lsum_le {A} (f g : A -> R) l : (forall i, In i l -> f i <= g i) -> lsum (map f l) <= lsum (map g l).
Proof. induction l as [|a l IH]; intros H; cbn; [lra|]. assert (A1 := H a (or_introl eq_refl)). assert (A2 := IH (fun i Hi => H i (or_intror Hi))). unfold lsum in *. lra. Qed.
Lemma logistic_bounds1 m x mu sd y : (0 < m)%nat -> rsum m x = 0 ->
  logistic_loglik y mu - sd * sd * (/ INR m * rsum m (fun k => x k * x k)) / 8 <= expect (draws_dist m x mu sd) (logistic_loglik y) <= logistic_loglik y mu.
Proof.
  intros M Z. assert (IM : 0 < INR m) by (apply lt_0_INR; exact M). rewrite draws_expect. split.
  - apply (Rle_trans _ (/ INR m * rsum m (fun k => logistic_loglik y mu + (y - expit mu) * sd * x k + (- (sd * sd) / 8) * (x k * x k)))).
    + rewrite !rsum_plus, !rsum_scal_l, Z, rsum_const. apply Req_le. field. lra.
    + apply Rmult_le_compat_l; [apply Rlt_le, Rinv_0_lt_compat, IM|]. apply rsum_le. intros k _. unfold logistic_loglik. pose proof (softplus_quadratic mu (sd * x k + mu)) as Q. nra.
  - apply (Rle_trans _ (/ INR m * rsum m (fun k => logistic_loglik y mu + (y - expit mu) * sd * x k))).
    + apply Rmult_le_compat_l; [apply Rlt_le, Rinv_0_lt_compat, IM|]. apply rsum_le. intros k _. unfold logistic_loglik. pose proof (softplus_tangent mu (sd * x k + mu)) as Q. nra.
    + rewrite !rsum_plus, !rsum_scal_l, Z, rsum_const. apply Req_le. field. lra.
Qed.
Lemma logistic_bounds s y mu sd m x : (0 < m)%nat -> rsum m x = 0 ->
  exists v, get_e_logistic_term (farr s y) (farr s mu) (farr s sd) (fvec_of m x) = Ok (fnum v) /\
    lsum (map (fun i => logistic_loglik (y i) (mu i) - sd i * sd i * (/ INR m * rsum m (fun k => x k * x k)) / 8) (product s)) <= v <= lsum (map (fun i => logistic_loglik (y i) (mu i)) (product s)).
Proof. intros M Z. eexists. split; [apply logistic_expect; assumption|]. split; apply lsum_le; intros i _; apply logistic_bounds1; assumption. Qed.
Lemma softplus_pos z : 0 < softplus z /\ z < softplus z.
Proof.
  unfold softplus. pose proof (exp_pos z). split.
  - rewrite <- ln_1. apply ln_increasing; lra.
  - rewrite <- (ln_exp z) at 1. apply ln_increasing; lra.
Qed.
Lemma logistic_nonpos s y mu sd m x : (0 < m)%nat -> rsum m x = 0 -> (forall i, index s i -> 0 <= y i <= 1) ->
  exists v, get_e_logistic_term (farr s y) (farr s mu) (farr s sd) (fvec_of m x) = Ok (fnum v) /\ v <= 0.
Proof.
  intros M Z Y. destruct (logistic_bounds s y mu sd m x M Z) as [v [E [_ B]]]. exists v. split; [exact E|]. eapply Rle_trans; [exact B|].
  apply (Rle_trans _ (lsum (map (fun i : list nat => 0 * 0) (product s)))); [|rewrite lsum_map_scal; lra]. apply lsum_le. intros i Hi. specialize (Y i Hi). destruct (softplus_pos (mu i)). unfold logistic_loglik. destruct (Rle_dec 0 (mu i)); nra.
Qed.
Lemma logistic_standard ppf q s y mu sd n : (0 < n)%nat -> odd_quantile ppf q -> exists x,
  get_standard_draws ppf n = Ok (fvec_of n x) /\
  get_e_logistic_term (farr s y) (farr s mu) (farr s sd) (fvec_of n x) = Ok (fnum (lsum (map (fun i => expect (draws_dist n x (mu i) (sd i)) (logistic_loglik (y i))) (product s)))) /\
  (forall i, mean (draws_dist n x (mu i) (sd i)) = mu i).
Proof.
  intros M Q. exists (fun i => q ((INR i + 1) / (INR n + 1))). split; [apply standard_draws_value; exact Q|]. destruct (standard_draws_odd q ppf n Q) as [_ Z]. split; [apply logistic_expect; assumption|]. intros i. apply draws_mean; assumption.
Qed.
Lemma logistic_rank y z_mean z_sd x : length (shape z_sd) <> length (shape y) \/ length (shape z_mean) <> length (shape y) -> get_e_logistic_term y z_mean z_sd x = Raise AssertionError.
Proof.
  intros H. unfold get_e_logistic_term. destruct (Nat.eqb_spec (length (shape z_sd)) (length (shape y))); [|reflexivity]. destruct (Nat.eqb_spec (length (shape z_mean)) (length (shape y))); [tauto|reflexivity].
Qed.

(** ---- Gauss-Hermite ---- *)
Lemma gh_logistic_entries s mu sd m x w :
  get_e_logistic_term_guass_hermite (farr s mu) (farr s sd) (fvec_of m x) (fvec_of m w) false = Ok (farr s (fun i => gh_expect_sd m w x (mu i) (sd i) softplus)).
Proof.
  unfold get_e_logistic_term_guass_hermite, fvec_of, farr. rewrite !mk_nd_shape, shape_eqb_refl. cbn [rassert]. cbv zeta. unfold np_log1p. py. cbn [rbind]. py. cbn [rbind]. py.
  apply Ok_eq. apply mk_nd_ext. intros i Hi. rewrite !nsqrt_pos by (pose proof PI_RGT_0; lra). unfold gh_expect_sd, rule.
  rewrite (nsum_seq_fin _ (fun k => / sqrt PI * (w k * softplus (sqrt 2 * sd i * x k + mu i)))); [rewrite rsum_scal_l; reflexivity|].
  intros k Hk. rewrite !removelast_last, !last_last, ?removelast_last. cbn [nth nmul nadd]. rewrite log1p_exp. cbn [nmul]. rewrite ndiv_fin by (pose proof sqrt_pi_pos; lra). f_equal. unfold Rdiv. ring.
Qed.
Lemma gh_logistic_total s mu sd m x w :
  get_e_logistic_term_guass_hermite (farr s mu) (farr s sd) (fvec_of m x) (fvec_of m w) true = Ok (fnum (lsum (map (fun i => gh_expect_sd m w x (mu i) (sd i) softplus) (product s)))).
Proof.
  unfold get_e_logistic_term_guass_hermite, fvec_of, farr. rewrite !mk_nd_shape, shape_eqb_refl. cbn [rassert]. cbv zeta. unfold np_log1p. py. cbn [rbind]. py. cbn [rbind]. py.
  apply Ok_eq. unfold fnum. rewrite nd_scalar_mk. apply mk_nd_ext. intros idx _. rewrite !nsqrt_pos by (pose proof PI_RGT_0; lra).
  rewrite (nsum_map_fin _ (fun i => / sqrt PI * (w (last i 0%nat) * softplus (sqrt 2 * sd (removelast i) * x (last i 0%nat) + mu (removelast i))))).
  - f_equal. rewrite lsum_snoc. apply lsum_map_ext. intros i _. unfold gh_expect_sd, rule. rewrite <- rsum_scal_l. apply rsum_ext. intros k _. rewrite removelast_last, last_last. reflexivity.
  - intros i Hi. apply in_product_snoc_inv in Hi as [j [k [-> [Hj Hk]]]]. rewrite !removelast_last, !last_last, ?removelast_last. cbn [nth nmul nadd]. rewrite log1p_exp. cbn [nmul]. rewrite ndiv_fin by (pose proof sqrt_pi_pos; lra). f_equal. unfold Rdiv. ring.
Qed.
Lemma gh_sd_quad m w x mu sd a b c : exact2 m w x -> gh_expect_sd m w x mu sd (fun t => a + b * (t - mu) + c * ((t - mu) * (t - mu))) = a + c * (sd * sd).
Proof.
  intros E. unfold gh_expect_sd. rewrite (rule_ext m w x _ (fun t => a + (b * (sqrt 2 * sd)) * t + (c * (2 * (sd * sd))) * (t * t))).
  - rewrite rule_quad by exact E. pose proof sqrt_pi_pos. field. lra.
  - intros k _. cbn beta. replace (2 * (sd * sd)) with ((sqrt 2 * sqrt 2) * (sd * sd)) by (rewrite sqrt_sqrt by lra; reflexivity). ring.
Qed.
Lemma gh_sd_mono m w x mu sd f g : (forall k, (k < m)%nat -> 0 <= w k) -> (forall t, f t <= g t) -> gh_expect_sd m w x mu sd f <= gh_expect_sd m w x mu sd g.
Proof. intros W H. unfold gh_expect_sd. apply Rmult_le_compat_l; [apply Rlt_le, Rinv_0_lt_compat, sqrt_pi_pos|]. apply rule_mono; [exact W|]. intros t. apply H. Qed.
Lemma gh_softplus_bounds m w x mu sd : exact2 m w x -> (forall k, (k < m)%nat -> 0 <= w k) -> softplus mu <= gh_expect_sd m w x mu sd softplus <= softplus mu + sd * sd / 8.
Proof.
  intros E W. split.
  - replace (softplus mu) with (softplus mu + 0 * (sd * sd)) by ring. rewrite <- (gh_sd_quad m w x mu sd _ (expit mu) _ E). apply gh_sd_mono; [exact W|]. intros t. pose proof (softplus_tangent mu t). lra.
  - replace (sd * sd / 8) with (/ 8 * (sd * sd)) by field. rewrite <- (gh_sd_quad m w x mu sd _ (expit mu) _ E). apply gh_sd_mono; [exact W|]. intros t. pose proof (softplus_quadratic mu t). lra.
Qed.
Lemma gh_logistic_mismatch z_mean z_sd x w b : shape z_mean <> shape z_sd -> get_e_logistic_term_guass_hermite z_mean z_sd x w b = Raise AssertionError.
Proof.
  intros H. unfold get_e_logistic_term_guass_hermite. destruct (shape_eqb (shape z_mean) (shape z_sd)) eqn:E; [apply shape_eqb_true in E; contradiction|reflexivity].
Qed.
