(** Gauss-Hermite expectations. *)
From Coq Require Import Reals List Arith Lia Lra Bool.
From Verif Require Import Res Num Nd RSum ModelParameters ModelNumpy ModelExpFam LemmasPosDef LemmasNumpy SpecMatrix SpecExpFam LemmasExpFam.
Import List ListNotations.
Open Scope R_scope.
Set Bullet Behavior "Strict Subproofs".

Lemma sqrt_pi_pos : 0 < sqrt PI.
Proof. apply sqrt_lt_R0, PI_RGT_0. Qed.
Lemma nsqrt_pos a : 0 <= a -> nsqrt (Fin a) = Fin (sqrt a).
Proof. intros H. unfold nsqrt. destruct (Rle_dec 0 a); [reflexivity|contradiction]. Qed.
Lemma gh_value fn f s mu L m x w : componentwise fn f -> (forall i, index s i -> 0 < L i) ->
  get_e_fun_normal (farr s mu) (farr s L) (fvec_of m x) (fvec_of m w) fn = Ok (farr s (fun i => gh_expect m w x (mu i) (L i) f)).
Proof.
  intros F P. unfold get_e_fun_normal. unfold fvec_of, farr. rewrite !mk_nd_shape, shape_eqb_refl. unfold rassert. cbv zeta. py. cbn [rbind].
  match goal with |- context [fn ?a] => replace a with (farr (s ++ [m]) (fun i => sqrt 2 * x (last i 0%nat) / sqrt (L (removelast i)) + mu (removelast i))) end.
  - rewrite F. cbn [rbind]. unfold farr. py. apply Ok_eq. apply mk_nd_ext. intros idx Hi. rewrite nsqrt_pos by (pose proof PI_RGT_0; lra). rewrite ndiv_fin by (pose proof sqrt_pi_pos; lra).
    rewrite (nsum_seq_fin _ (fun k => / sqrt PI * (w k * f (sqrt 2 * x k / sqrt (L idx) + mu idx)))).
    + rewrite rsum_scal_l. reflexivity.
    + intros k Hk. rewrite last_last, removelast_last. cbn [nth]. fin. f_equal. field. pose proof sqrt_pi_pos; lra.
  - symmetry. apply mk_nd_ext. intros idx Hi. apply in_product_snoc_inv in Hi as [i [k [-> [Hi Hk]]]]. rewrite !removelast_last, !last_last. cbn [nth].
    rewrite (nsqrt_pos 2) by lra. rewrite nsqrt_pos by (left; apply P, Hi). fin. rewrite Rmult_1_r. rewrite ndiv_fin by (apply Rgt_not_eq, sqrt_lt_R0, P, Hi). reflexivity.
Qed.
Lemma gh_mismatch fn a b x w : shape a <> shape b -> get_e_fun_normal a b x w fn = Raise AssertionError.
Proof. intros H. unfold get_e_fun_normal, rassert. destruct (shape_eqb (shape a) (shape b)) eqn:E; [|reflexivity]. apply shape_eqb_true in E. contradiction. Qed.

(** ---- exactness ---- *)
Lemma rule_ext m w x f g : (forall k, (k < m)%nat -> f (x k) = g (x k)) -> rule m w x f = rule m w x g.
Proof. intros H. apply rsum_ext. intros k Hk. rewrite H by exact Hk. reflexivity. Qed.
Lemma rule_quad m w x a b c : exact2 m w x -> rule m w x (fun t => a + b * t + c * (t * t)) = sqrt PI * (a + c / 2).
Proof.
  intros [E0 [E1 E2]]. unfold rule in *. rewrite (rsum_ext m _ (fun k => a * (w k * 1) + b * (w k * x k) + c * (w k * (x k * x k)))) by (intros; ring).
  rewrite !rsum_plus, !rsum_scal_l, E0, E1, E2. field.
Qed.
Lemma gh_exact m w x mu L a b c : exact2 m w x -> 0 < L ->
  gh_expect m w x mu L (fun t => a + b * t + c * (t * t)) = a + b * mu + c * (mu * mu + / L).
Proof.
  intros E P. unfold gh_expect. set (q := sqrt 2 / sqrt L). assert (S : 0 < sqrt L) by (apply sqrt_lt_R0; exact P).
  rewrite (rule_ext m w x _ (fun t => (a + b * mu + c * (mu * mu)) + (b * q + 2 * c * q * mu) * t + (c * (q * q)) * (t * t))).
  2:{ intros k _. replace (sqrt 2 * x k / sqrt L) with (q * x k) by (unfold q; field; lra). ring. }
  rewrite rule_quad by exact E. assert (Q : q * q = 2 * / L).
  { unfold q. transitivity ((sqrt 2 * sqrt 2) / (sqrt L * sqrt L)); [field; lra|]. rewrite !sqrt_sqrt by lra. reflexivity. }
  rewrite Q. field. pose proof sqrt_pi_pos. lra.
Qed.
Lemma gh_polynomial s mu L m x w a b c fn : exact2 m w x -> componentwise fn (fun t => a + b * t + c * (t * t)) -> (forall i, index s i -> 0 < L i) ->
  get_e_fun_normal (farr s mu) (farr s L) (fvec_of m x) (fvec_of m w) fn = Ok (farr s (fun i => a + b * mu i + c * (mu i * mu i + / L i))).
Proof. intros E F P. rewrite (gh_value fn _ s mu L m x w F P). apply Ok_eq. apply farr_ext. intros i Hi. apply gh_exact; [exact E|apply P, Hi]. Qed.

(** ---- the numerically safe log expit ---- *)
Definition lv (x : R) : R := if Rlt_dec (-100) x then - ln (1 + exp (- x)) else x.
Lemma lv_bound x : -100 < x -> - 10 ^ 16 < - ln (1 + exp (- x)).
Proof.
  intros H. assert (1 + exp (- x) < exp 101).
  { assert (exp (- x) < exp 100) by (apply exp_increasing; lra). assert (1 < exp 100) by (rewrite <- exp_0; apply exp_increasing; lra).
    assert (2 < exp 1) by (pose proof (exp_ineq1 1); lra). replace 101 with (1 + 100) by ring. rewrite exp_plus. nra. }
  assert (0 < 1 + exp (- x)) by (pose proof (exp_pos (- x)); lra). assert (ln (1 + exp (- x)) < 101) by (rewrite <- (ln_exp 101); apply ln_increasing; assumption).
  assert (101 < 10 ^ 16) by lra. lra.
Qed.
Lemma nmaximum_fin a b : nmaximum (Fin a) (Fin b) = Fin (if Rle_dec a b then b else a).
Proof. unfold nmaximum, nleb, Rleb. destruct (Rle_dec a b); reflexivity. Qed.
Lemma log_v_componentwise : componentwise log_v lv.
Proof.
  intros s g. unfold log_v, farr. py. apply Ok_eq. apply mk_nd_ext. intros i Hi. cbn [nopp nexp nadd]. rewrite nlog_pos by (pose proof (exp_pos (- g i)); lra). cbn [nopp].
  rewrite nmaximum_fin. unfold nbool, nltb, nleb, Rltb, Rleb, lv. destruct (Rlt_dec (-100) (g i)) as [H|H].
  - destruct (Rle_dec (g i) (-100)); [lra|]. destruct (Rle_dec (- ln (1 + exp (- g i))) (- 10 ^ 16)) as [B|B]; [pose proof (lv_bound _ H); lra|]. cbn [nmul nadd]. f_equal. ring.
  - destruct (Rle_dec (g i) (-100)); [|lra]. cbn [nmul nadd]. f_equal. ring.
Qed.
Lemma expit_pos x : 0 < expit x < 1.
Proof.
  unfold expit. pose proof (exp_pos (- x)). split; [apply Rinv_0_lt_compat; lra|]. rewrite <- Rinv_1. apply Rinv_lt_contravar; lra.
Qed.
Lemma ln_expit x : ln (expit x) = - ln (1 + exp (- x)).
Proof. unfold expit. apply ln_Rinv. pose proof (exp_pos (- x)). lra. Qed.
Lemma ln_1m_expit x : ln (1 - expit x) = ln (expit x) - x.
Proof.
  assert (E : 1 - expit x = expit x * exp (- x)) by (unfold expit; field; pose proof (exp_pos (- x)); lra).
  rewrite E, ln_mult, ln_exp by (apply expit_pos || apply exp_pos). ring.
Qed.
Lemma ln_1p_le y : 0 <= y -> ln (1 + y) <= y.
Proof.
  intros [H| <-]; [|rewrite Rplus_0_r, ln_1; lra]. left. apply exp_lt_inv. rewrite exp_ln by lra. apply exp_ineq1. lra.
Qed.
Lemma lv_close x : Rabs (lv x - ln (expit x)) <= exp (-100).
Proof.
  rewrite ln_expit. unfold lv. destruct (Rlt_dec (-100) x) as [H|H].
  - replace (- ln (1 + exp (- x)) - - ln (1 + exp (- x))) with 0 by ring. rewrite Rabs_R0. left. apply exp_pos.
  - assert (E : 1 + exp (- x) = exp (- x) * (1 + exp x)) by (rewrite Rmult_plus_distr_l, <- exp_plus, Rplus_opp_l, exp_0; ring).
    pose proof (exp_pos x). pose proof (exp_pos (- x)). rewrite E, ln_mult, ln_exp by lra. replace (x - - (- x + ln (1 + exp x))) with (ln (1 + exp x)) by ring.
    assert (0 <= ln (1 + exp x)) by (rewrite <- ln_1; left; apply ln_increasing; lra). rewrite Rabs_right by lra.
    apply Rle_trans with (exp x); [apply ln_1p_le; lra|]. destruct (Req_dec x (-100)) as [->|N]; [right; reflexivity|left; apply exp_increasing; lra].
Qed.
Lemma gh_close m w x mu L f g e : (forall k, (k < m)%nat -> 0 <= w k) -> rule m w x (fun _ => 1) = sqrt PI -> (forall t, Rabs (f t - g t) <= e) ->
  Rabs (gh_expect m w x mu L f - gh_expect m w x mu L g) <= e.
Proof.
  intros W E C. unfold gh_expect. pose proof sqrt_pi_pos as S. rewrite <- Rmult_minus_distr_l, Rabs_mult. rewrite (Rabs_right (/ sqrt PI)) by (left; apply Rinv_0_lt_compat; exact S).
  unfold rule in *. rewrite <- rsum_minus. apply (Rmult_le_reg_l (sqrt PI)); [exact S|]. rewrite <- Rmult_assoc, Rinv_r, Rmult_1_l by lra.
  eapply Rle_trans; [apply rsum_Rabs|]. rewrite <- E, <- rsum_scal_r. apply rsum_le. intros k Hk. rewrite <- Rmult_minus_distr_l, Rabs_mult, (Rabs_right (w k)) by (apply Rle_ge, W, Hk).
  rewrite Rmult_1_r. apply Rmult_le_compat_l; [apply W, Hk|apply C].
Qed.
Lemma gh_minus_id m w x mu L f : exact2 m w x -> 0 < L -> gh_expect m w x mu L (fun t => f t - t) = gh_expect m w x mu L f - mu.
Proof.
  intros E P. pose proof (gh_exact m w x mu L 0 1 0 E P) as G. replace (0 + 1 * mu + 0 * (mu * mu + / L)) with mu in G by ring.
  transitivity (gh_expect m w x mu L f - gh_expect m w x mu L (fun t => 0 + 1 * t + 0 * (t * t))); [|rewrite G; reflexivity]. clear G. unfold gh_expect.
  rewrite <- Rmult_minus_distr_l. f_equal. unfold rule. rewrite <- rsum_minus. apply rsum_ext. intros; ring.
Qed.
Lemma log_logitnormal_value s mu L m x w : (forall i, index s i -> 0 < L i) ->
  get_e_log_logitnormal (farr s mu) (farr s L) (fvec_of m x) (fvec_of m w) =
  Ok (farr s (fun i => gh_expect m w x (mu i) (L i) lv), farr s (fun i => - mu i + gh_expect m w x (mu i) (L i) lv)).
Proof.
  intros P. unfold get_e_log_logitnormal. rewrite (gh_value _ _ _ _ _ _ _ _ log_v_componentwise P). cbn [rbind]. unfold farr. py. cbn [rbind]. reflexivity.
Qed.
Lemma log_logitnormal_close s mu L m x w : exact2 m w x -> (forall k, (k < m)%nat -> 0 <= w k) -> (forall i, index s i -> 0 < L i) ->
  exists a b, get_e_log_logitnormal (farr s mu) (farr s L) (fvec_of m x) (fvec_of m w) = Ok (farr s a, farr s b) /\
    forall i, index s i -> b i = a i - mu i /\
      Rabs (a i - gh_expect m w x (mu i) (L i) (fun t => ln (expit t))) <= exp (-100) /\
      Rabs (b i - gh_expect m w x (mu i) (L i) (fun t => ln (1 - expit t))) <= exp (-100).
Proof.
  intros E W P. eexists _, _. split; [apply log_logitnormal_value; exact P|]. intros i Hi. cbn beta. specialize (P i Hi).
  assert (C : Rabs (gh_expect m w x (mu i) (L i) lv - gh_expect m w x (mu i) (L i) (fun t => ln (expit t))) <= exp (-100)) by (apply gh_close; [exact W|apply E|apply lv_close]).
  split; [ring|]. split; [exact C|].
  replace (gh_expect m w x (mu i) (L i) (fun t => ln (1 - expit t))) with (gh_expect m w x (mu i) (L i) (fun t => ln (expit t)) - mu i).
  - match goal with |- Rabs ?a <= _ => replace a with (gh_expect m w x (mu i) (L i) lv - gh_expect m w x (mu i) (L i) (fun t => ln (expit t))) by ring end. exact C.
  - rewrite <- gh_minus_id by assumption. unfold gh_expect. f_equal. apply rule_ext. intros k _. symmetry. apply ln_1m_expit.
Qed.
Lemma expit_componentwise : componentwise (fun x => nun nexpit (Ok x)) expit.
Proof. intros s g. unfold farr. py. reflexivity. Qed.
Lemma rule_mono m w x f g : (forall k, (k < m)%nat -> 0 <= w k) -> (forall t, f t <= g t) -> rule m w x f <= rule m w x g.
Proof. intros W H. apply rsum_le. intros k Hk. apply Rmult_le_compat_l; [apply W, Hk|apply H]. Qed.
Lemma gh_mono m w x mu L f g : (forall k, (k < m)%nat -> 0 <= w k) -> (forall t, f t <= g t) -> gh_expect m w x mu L f <= gh_expect m w x mu L g.
Proof. intros W H. unfold gh_expect. apply Rmult_le_compat_l; [left; apply Rinv_0_lt_compat, sqrt_pi_pos|]. apply rule_mono; [exact W|]. intros; apply H. Qed.
Lemma gh_const m w x mu L c : rule m w x (fun _ => 1) = sqrt PI -> gh_expect m w x mu L (fun _ => c) = c.
Proof.
  intros E. unfold gh_expect, rule in *. rewrite (rsum_ext m _ (fun k => c * (w k * 1))) by (intros; ring). rewrite rsum_scal_l, E. field. pose proof sqrt_pi_pos; lra.
Qed.
Lemma logitnormal_value s mu L m x w : (forall i, index s i -> 0 < L i) -> (forall k, (k < m)%nat -> 0 <= w k) -> rule m w x (fun _ => 1) = sqrt PI ->
  exists p, get_e_logitnormal (farr s mu) (farr s L) (fvec_of m x) (fvec_of m w) = Ok (farr s p) /\
    forall i, index s i -> p i = gh_expect m w x (mu i) (L i) expit /\ 0 <= p i <= 1.
Proof.
  intros P W E. eexists. split; [apply (gh_value _ _ _ _ _ _ _ _ expit_componentwise P)|]. intros i Hi. cbn beta. split; [reflexivity|].
  split.
  - rewrite <- (gh_const m w x (mu i) (L i) 0 E). apply gh_mono; [exact W|]. intros; left; apply expit_pos.
  - rewrite <- (gh_const m w x (mu i) (L i) 1 E). apply gh_mono; [exact W|]. intros; left; apply expit_pos.
Qed.
Lemma dp_prior_value s al mu L m x w b : (forall i, index s i -> 0 < L i) ->
  (exists a, get_e_log_logitnormal (farr s mu) (farr s L) (fvec_of m x) (fvec_of m w) = Ok (farr s a, farr s b)) ->
  get_e_dp_prior_logitnorm_approx (fnum al) (farr s mu) (farr s L) (fvec_of m x) (fvec_of m w) = Ok (farr s (fun i => (al - 1) * b i)).
Proof.
  intros P [a E]. unfold get_e_dp_prior_logitnorm_approx. rewrite E. cbn [rbind snd]. rewrite fnum_mk. unfold farr. py. reflexivity.
Qed.
(** a rule meeting the conditions: the three point Gauss-Hermite rule *)
Lemma three_point : exact2 3 (fun k => match k with O => 2 * sqrt PI / 3 | _ => sqrt PI / 6 end) (fun k => match k with O => 0 | S O => sqrt (3 / 2) | _ => - sqrt (3 / 2) end) /\
  forall k, 0 <= match k with O => 2 * sqrt PI / 3 | _ => sqrt PI / 6 end.
Proof.
  assert (Q : sqrt (3 / 2) * sqrt (3 / 2) = 3 / 2) by (apply sqrt_sqrt; lra). pose proof sqrt_pi_pos. split.
  - unfold exact2, rule. cbn [rsum]. split; [field|]. split; [field|]. replace (- sqrt (3 / 2) * - sqrt (3 / 2)) with (sqrt (3 / 2) * sqrt (3 / 2)) by ring. rewrite Q. field.
  - intros [|k]; lra.
Qed.
