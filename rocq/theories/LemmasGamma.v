(** The gamma integral: convergence, the recursion of its moments, its derivative, and expectations under the gamma density. *)
From Coq Require Import Reals List Arith Lia Lra.
From Coquelicot Require Import Coquelicot.
From Verif Require Import RSum SpecExpFam SpecIntegral LemmasGauss.
Import List ListNotations.
Open Scope R_scope.
Set Bullet Behavior "Strict Subproofs".

(** ---- integrals over the half line ---- *)
Lemma half_ends (P : R -> R -> Prop) : (forall a b, 0 < a < 1 -> 1 < b -> P a b) -> filter_prod (at_right 0) (Rbar_locally p_infty) (fun ab => P (fst ab) (snd ab)).
Proof.
  intros H. apply (Filter_prod _ _ _ (fun a => 0 < a < 1) (fun b => 1 < b)).
  - exists (mkposreal 1 Rlt_0_1). intros x B X. change (Rabs (x - 0) < 1) in B. rewrite Rminus_0_r in B. apply Rabs_def2 in B. lra.
  - exists 1. intros x X. exact X.
  - intros a b A B. cbn. apply H; assumption.
Qed.
Lemma half_line_integral (f F : R -> R) la lb :
  (forall x, 0 < x -> is_derive F x (f x)) -> (forall x, 0 < x -> continuous f x) ->
  filterlim F (at_right 0) (locally la) -> filterlim F (Rbar_locally p_infty) (locally lb) -> half_line f (lb - la).
Proof.
  intros D C A B. unfold half_line.
  assert (Pos : forall a b x, 0 < a < 1 -> 1 < b -> Rmin a b <= x <= Rmax a b -> 0 < x).
  { intros a b x Ha Hb. rewrite Rmin_left, Rmax_right by lra. lra. }
  assert (E : forall x, 0 < x -> Derive F x = f x) by (intros x X; apply is_derive_unique, D, X).
  apply (is_RInt_gen_ext (V := R_NormedModule) (Derive F) f (lb - la)).
  - apply (half_ends (fun a b => forall x, Rmin a b < x < Rmax a b -> Derive F x = f x)). intros a b Ha Hb x X. apply E. apply (Pos a b x Ha Hb). lra.
  - apply (is_RInt_gen_Derive F la lb).
    + apply (half_ends (fun a b => forall x, Rmin a b <= x <= Rmax a b -> ex_derive F x)). intros a b Ha Hb x X. exists (f x). apply D. exact (Pos a b x Ha Hb X).
    + apply (half_ends (fun a b => forall x, Rmin a b <= x <= Rmax a b -> continuous (Derive F) x)). intros a b Ha Hb x X. pose proof (Pos a b x Ha Hb X) as Px.
      apply (continuous_ext_loc (T := R_UniformSpace) (Derive F) f); [|apply C, Px].
      exists (mkposreal x Px). intros y By. change (Rabs (y - x) < x) in By. apply Rabs_def2 in By. symmetry. apply E. lra.
    + exact A.
    + exact B.
Qed.
Lemma half_ext f g v : (forall x, 0 < x -> f x = g x) -> half_line f v -> half_line g v.
Proof.
  intros E H. apply (is_RInt_gen_ext (V := R_NormedModule) f g v); [|exact H].
  apply (half_ends (fun a b => forall x, Rmin a b < x < Rmax a b -> f x = g x)). intros a b A B x X. apply E. rewrite Rmin_left, Rmax_right in X by lra. lra.
Qed.
Lemma half_scal f c v : half_line f v -> half_line (fun x => c * f x) (c * v).
Proof. intros H. exact (is_RInt_gen_scal (V := R_NormedModule) f c v H). Qed.
Lemma half_plus f g v w : half_line f v -> half_line g w -> half_line (fun x => f x + g x) (v + w).
Proof. intros H K. exact (is_RInt_gen_plus (V := R_NormedModule) f g v w H K). Qed.
Lemma half_unique f v w : half_line f v -> half_line f w -> v = w.
Proof.
  intros H K. pose proof (is_RInt_gen_unique (V := R_CompleteNormedModule) f v H) as E1. pose proof (is_RInt_gen_unique (V := R_CompleteNormedModule) f w K) as E2.
  exact (eq_trans (eq_sym E1) E2).
Qed.
Lemma half_norm f g v w : (forall x, 0 < x -> Rabs (f x) <= g x) -> half_line f v -> half_line g w -> Rabs v <= w.
Proof.
  intros B H K. apply (RInt_gen_norm (V := R_CompleteNormedModule) (Fa := at_right 0) (Fb := Rbar_locally p_infty) f g v w).
  - apply (half_ends (fun a b => a <= b)). intros; lra.
  - apply (half_ends (fun a b => forall x, a <= x <= b -> Rabs (f x) <= g x)). intros a b A Bb x X. apply B. lra.
  - exact H.
  - exact K.
Qed.
Lemma half_scale (f : R -> R) v u : 0 < u -> half_line f v -> half_line (fun x => u * f (u * x)) v.
Proof.
  intros U H P HP. specialize (H P HP). unfold filtermapi in *.
  destruct H as [Q S [e Q'] [N S'] H].
  apply (Filter_prod _ _ _ (fun a => Q (u * a + 0)) (fun b => S (u * b + 0))).
  - exists (mkposreal (e / u) (Rdiv_lt_0_compat _ _ (cond_pos e) U)). intros x B X. cbn in B. apply Q'.
    + change (Rabs (u * x + 0 - 0) < e). change (Rabs (x - 0) < e / u) in B. rewrite Rminus_0_r in *. rewrite Rplus_0_r. rewrite Rabs_pos_eq in * by nra.
      apply (Rmult_lt_compat_l u) in B; [|exact U]. replace (u * (e / u)) with (pos e) in B by (field; lra). exact B.
    + nra.
  - exists (N / u). intros x Hx. apply S'. apply (Rmult_lt_compat_l u) in Hx; [|exact U]. replace (u * (N / u)) with N in Hx by (field; lra). lra.
  - intros a b Qa Sb. destruct (H _ _ Qa Sb) as [y [Hy Py]]. exists y. split; [|exact Py]. cbn [fst snd] in *.
    apply (is_RInt_ext (fun x => scal u (f (u * x + 0)))).
    + intros x _. rewrite Rplus_0_r. reflexivity.
    + apply (is_RInt_comp_lin f u 0 a b y). exact Hy.
Qed.

(** ---- convergence by domination ---- *)
Lemma dominated_limit (Fi : (R -> Prop) -> Prop) (FF : ProperFilter Fi) (F G : R -> R) (P : R -> Prop) l :
  Fi P -> (forall u v, P u -> P v -> Rabs (F v - F u) <= Rabs (G v - G u)) -> filterlim G Fi (locally l) -> exists k, filterlim F Fi (locally k).
Proof.
  intros HP D L. apply (filterlim_locally_cauchy (U := R_CompleteSpace) F). intros eps.
  destruct (proj2 (filterlim_locally_cauchy (U := R_CompleteSpace) G) (ex_intro _ l L) eps) as [Q [HQ B]].
  exists (fun x => P x /\ Q x). split; [apply filter_and; assumption|]. intros u v [Pu Qu] [Pv Qv].
  change (Rabs (F v - F u) < eps). specialize (B u v Qu Qv). change (Rabs (G v - G u) < eps) in B.
  eapply Rle_lt_trans; [apply D; assumption|exact B].
Qed.
Lemma dominated_part (f g G : R -> R) (S : R -> Prop) : (forall u v x, S u -> S v -> u <= x <= v -> S x) ->
  (forall x, S x -> 0 < x) -> (forall x, 0 < x -> continuous f x) -> (forall x, S x -> continuous g x) -> (forall x, S x -> is_derive G x (g x)) -> (forall x, S x -> Rabs (f x) <= g x) ->
  forall u v, S u -> S v -> Rabs (RInt f 1 v - RInt f 1 u) <= Rabs (G v - G u).
Proof.
  intros Conv Pos Cf Cg DG B.
  assert (I : forall a b, 0 < a -> 0 < b -> ex_RInt f a b).
  { intros a b A Bb. apply (ex_RInt_continuous (V := R_CompleteNormedModule)). intros z Hz. apply Cf. apply Rlt_le_trans with (Rmin a b); [apply Rmin_glb_lt; assumption|apply Hz]. }
  assert (K : forall u v, S u -> S v -> u <= v -> Rabs (RInt f 1 v - RInt f 1 u) <= G v - G u).
  { intros u v Su Sv UV. pose proof (Pos u Su) as Pu. pose proof (Pos v Sv) as Pv.
    replace (RInt f 1 v - RInt f 1 u) with (RInt f u v).
    - eapply Rle_trans; [apply abs_RInt_le; [exact UV|apply I; assumption]|].
      assert (IG : is_RInt g u v (G v - G u)).
      { apply (is_RInt_derive (V := R_CompleteNormedModule) G g); rewrite Rmin_left, Rmax_right by exact UV; intros x X; [apply DG|apply Cg]; exact (Conv u v x Su Sv X). }
      rewrite <- (is_RInt_unique (V := R_CompleteNormedModule) _ _ _ _ IG).
      apply RInt_le; [exact UV| |exists (G v - G u); exact IG|].
      + apply (ex_RInt_norm f). apply I; assumption.
      + intros x X. apply B. apply (Conv u v x Su Sv). lra.
    - pose proof (RInt_Chasles (V := R_CompleteNormedModule) f 1 u v (I 1 u Rlt_0_1 Pu) (I u v Pu Pv)) as E. change (RInt f 1 u + RInt f u v = RInt f 1 v) in E. assert (Q : forall p q r : R, p + q = r -> q = r - p) by (intros; lra). exact (Q _ _ _ E). }
  intros u v Su Sv. destruct (Rle_dec u v) as [UV|UV].
  - eapply Rle_trans; [apply (K u v Su Sv UV)|apply Rle_abs].
  - rewrite Rabs_minus_sym, (Rabs_minus_sym (G v)). eapply Rle_trans; [apply (K v u Sv Su); lra|apply Rle_abs].
Qed.
Lemma Rpower_derive x y : 0 < x -> is_derive (fun x => Rpower x y) x (y * Rpower x (y - 1)).
Proof. intros X. apply is_derive_Reals. apply derivable_pt_lim_power, X. Qed.
Lemma Rpower_cont x y : 0 < x -> continuous (fun x => Rpower x y) x.
Proof. intros X. apply (ex_derive_continuous (fun x => Rpower x y)). eexists. apply Rpower_derive, X. Qed.
(** x^b -> 0 at 0 *)
Lemma Rpower_lim_0 b : 0 < b -> filterlim (fun x => Rpower x b) (at_right 0) (locally 0).
Proof.
  intros B. apply filterlim_locally. intros eps.
  exists (mkposreal (Rpower eps (/ b)) (exp_pos _)). intros x Bx X. change (Rabs (x - 0) < Rpower eps (/ b)) in Bx. rewrite Rminus_0_r, Rabs_pos_eq in Bx by lra.
  change (Rabs (Rpower x b - 0) < eps). rewrite Rminus_0_r, Rabs_pos_eq by (apply Rlt_le, exp_pos).
  replace (pos eps) with (Rpower (Rpower eps (/ b)) b).
  - unfold Rpower at 1 2. apply exp_increasing. apply Rmult_lt_compat_l; [exact B|]. apply ln_increasing; [exact X|exact Bx].
  - rewrite Rpower_mult, Rinv_l, Rpower_1 by (try lra; apply cond_pos). reflexivity.
Qed.
Lemma exp_half_lim : filterlim (fun x => exp (- x / 2)) (Rbar_locally p_infty) (locally 0).
Proof.
  apply (is_lim_comp exp (fun x => - x / 2) p_infty 0 m_infty).
  - apply is_lim_exp_m.
  - apply (is_lim_ext (fun x => (- / 2) * x)); [intros; field|].
    replace m_infty with (Rbar_mult (- / 2) p_infty).
    + apply (is_lim_scal_l (fun x => x) (- / 2) p_infty p_infty), is_lim_id.
    + cbn. destruct (Rle_dec 0 (- / 2)) as [H|H]; [exfalso; lra|reflexivity].
  - apply filter_forall. intros y. discriminate.
Qed.
Lemma half_converges (f : R -> R) b C : 0 < b -> (forall x, 0 < x -> continuous f x) ->
  (forall x, 0 < x <= 1 -> Rabs (f x) <= C * Rpower x (b - 1)) -> (forall x, 1 <= x -> Rabs (f x) <= C * exp (- x / 2)) -> exists v, half_line f v.
Proof.
  intros B Cf B0 B1.
  assert (L0 : exists k, filterlim (RInt f 1) (at_right 0) (locally k)).
  { apply (dominated_limit _ _ (RInt f 1) (fun x => C / b * Rpower x b) (fun x => 0 < x <= 1) (C / b * 0)).
    - exists (mkposreal 1 Rlt_0_1). intros x Bx X. change (Rabs (x - 0) < 1) in Bx. rewrite Rminus_0_r in Bx. apply Rabs_def2 in Bx. lra.
    - apply (dominated_part f (fun x => C * Rpower x (b - 1)) _ (fun x => 0 < x <= 1)).
      + intros u v x; lra.
      + intros x; lra.
      + exact Cf.
      + intros x X. apply (continuous_scal_r (V := R_NormedModule) C (fun x => Rpower x (b - 1))), Rpower_cont. lra.
      + intros x X. replace (C * Rpower x (b - 1)) with (C / b * (b * Rpower x (b - 1))) by (field; lra).
        apply (is_derive_scal (fun x => Rpower x b) x (C / b)), Rpower_derive. lra.
      + exact B0.
    - apply (filterlim_comp _ _ _ (fun x => Rpower x b) (fun y => C / b * y) _ (locally 0) _ (Rpower_lim_0 b B)).
      apply (continuous_scal_r (V := R_NormedModule) (C / b) (fun y => y)), continuous_id. }
  assert (L1 : exists k, filterlim (RInt f 1) (Rbar_locally p_infty) (locally k)).
  { apply (dominated_limit _ _ (RInt f 1) (fun x => - 2 * C * exp (- x / 2)) (fun x => 1 <= x) (- 2 * C * 0)).
    - exists 1. intros x X. lra.
    - apply (dominated_part f (fun x => C * exp (- x / 2)) _ (fun x => 1 <= x)).
      + intros u v x; lra.
      + intros x; lra.
      + exact Cf.
      + intros x X. apply (ex_derive_continuous (fun x => C * exp (- x / 2))). auto_derive. exact I.
      + intros x X. auto_derive; [exact I|]. change (- x * / 2) with (- x / 2). field.
      + exact B1.
    - apply (filterlim_comp _ _ _ (fun x => exp (- x / 2)) (fun y => - 2 * C * y) _ (locally 0) _ exp_half_lim).
      apply (continuous_scal_r (V := R_NormedModule) (- 2 * C) (fun y => y)), continuous_id. }
  destruct L0 as [la L0]. destruct L1 as [lb L1]. exists (lb - la). apply (half_line_integral f (RInt f 1)); [|exact Cf|exact L0|exact L1].
  intros x X. apply (is_derive_RInt f (RInt f 1) 1 x).
  - exists (mkposreal x X). intros y By. change (Rabs (y - x) < x) in By. apply Rabs_def2 in By.
    apply (RInt_correct (V := R_CompleteNormedModule)). apply (ex_RInt_continuous (V := R_CompleteNormedModule)). intros z Hz. apply Cf.
    apply Rlt_le_trans with (Rmin 1 y); [apply Rmin_glb_lt; lra|apply Hz].
  - apply Cf, X.
Qed.

(** ---- bounds ---- *)
Lemma ln_le_minus y : 0 < y -> ln y <= y - 1.
Proof. intros Y. pose proof (exp_ineq1_le (ln y)) as H. rewrite exp_ln in H by exact Y. lra. Qed.
Lemma tail_bound c : 0 < c -> forall x, 1 <= x -> Rpower x c * exp (- x) <= exp (c * ln (2 * c)) * exp (- x / 2).
Proof.
  intros C x X. unfold Rpower. rewrite <- !exp_plus.
  assert (H : c * ln x <= x / 2 + c * ln (2 * c)).
  { assert (P : 0 < x / (2 * c)) by (apply Rdiv_lt_0_compat; lra). pose proof (ln_le_minus _ P) as Q.
    unfold Rdiv in Q at 1. rewrite ln_mult, ln_Rinv in Q by (try lra; apply Rinv_0_lt_compat; lra).
    apply (Rmult_le_compat_l c) in Q; [|lra]. replace (c * (x / (2 * c) - 1)) with (x / 2 - c) in Q by (field; lra). lra. }
  destruct (Req_dec (c * ln x + - x) (c * ln (2 * c) + - x / 2)) as [->|N]; [lra|]. left. apply exp_increasing. lra.
Qed.
Lemma half_converges_gamma (f : R -> R) A b c : 0 <= A -> 0 < b -> 0 < c -> (forall x, 0 < x -> continuous f x) ->
  (forall x, 0 < x <= 1 -> Rabs (f x) <= A * (Rpower x (b - 1) * exp (- x))) -> (forall x, 1 <= x -> Rabs (f x) <= A * (Rpower x c * exp (- x))) -> exists v, half_line f v.
Proof.
  intros HA B C Cf B0 B1. apply (half_converges f b (A * (1 + exp (c * ln (2 * c))))).
  - exact B.
  - exact Cf.
  - intros x X. eapply Rle_trans; [apply B0, X|]. rewrite Rmult_assoc. apply Rmult_le_compat_l; [exact HA|].
    assert (0 < Rpower x (b - 1)) by apply exp_pos. pose proof (exp_pos (c * ln (2 * c))). assert (exp (- x) <= 1) by (rewrite <- exp_0; left; apply exp_increasing; lra). nra.
  - intros x X. eapply Rle_trans; [apply B1, X|]. rewrite Rmult_assoc. apply Rmult_le_compat_l; [exact HA|].
    pose proof (tail_bound c C x X). pose proof (exp_pos (- x / 2)). lra.
Qed.
Lemma Rpower_le_1 x c d : 0 < x <= 1 -> c <= d -> Rpower x d <= Rpower x c.
Proof.
  intros X H. unfold Rpower. assert (L : ln x <= 0) by (rewrite <- ln_1; destruct (Req_dec x 1) as [->|]; [lra|left; apply ln_increasing; lra]).
  destruct (Req_dec (d * ln x) (c * ln x)) as [->|N]; [lra|]. left. apply exp_increasing. nra.
Qed.
Lemma Rpower_ge_1 x c d : 1 <= x -> c <= d -> Rpower x c <= Rpower x d.
Proof.
  intros X H. unfold Rpower. assert (L : 0 <= ln x) by (rewrite <- ln_1; destruct (Req_dec x 1) as [->|]; [lra|left; apply ln_increasing; lra]).
  destruct (Req_dec (c * ln x) (d * ln x)) as [->|N]; [lra|]. left. apply exp_increasing. nra.
Qed.
(** M d x is at least x^d, x^-d and d |ln x| *)
Definition M (d x : R) : R := Rpower x d + Rpower x (- d).
Lemma M_pos d x : 0 < M d x.
Proof. unfold M. pose proof (exp_pos (d * ln x)). pose proof (exp_pos (- d * ln x)). unfold Rpower. lra. Qed.
Lemma M_exp d x h : Rabs h <= d -> exp (Rabs (h * ln x)) <= M d x.
Proof.
  intros H. rewrite Rabs_mult. unfold M, Rpower. pose proof (exp_pos (d * ln x)). pose proof (exp_pos (- d * ln x)).
  assert (E : forall u v, u <= v -> exp u <= exp v) by (intros u v [Q| ->]; [left; apply exp_increasing, Q|lra]).
  pose proof (Rabs_pos h). destruct (Rle_dec 0 (ln x)) as [P|P].
  - rewrite (Rabs_pos_eq (ln x)) by exact P. assert (exp (Rabs h * ln x) <= exp (d * ln x)) by (apply E; nra). lra.
  - rewrite (Rabs_left1 (ln x)) by lra. assert (exp (Rabs h * - ln x) <= exp (- d * ln x)) by (apply E; nra). lra.
Qed.
Lemma M_ln d x : 0 < d -> Rabs (ln x) <= / d * M d x.
Proof.
  intros D. pose proof (M_exp d x d) as H. rewrite (Rabs_pos_eq d) in H by lra. specialize (H (Rle_refl d)).
  pose proof (exp_ineq1_le (Rabs (d * ln x))) as Q. rewrite Rabs_mult, (Rabs_pos_eq d) in * by lra.
  apply (Rmult_le_reg_l d); [exact D|]. rewrite <- Rmult_assoc, Rinv_r, Rmult_1_l by lra. lra.
Qed.
Lemma M_low d x : 0 < d -> 0 < x <= 1 -> M d x <= 2 * Rpower x (- d).
Proof. intros D X. unfold M. pose proof (Rpower_le_1 x (- d) d X). lra. Qed.
Lemma M_high d x : 0 < d -> 1 <= x -> M d x <= 2 * Rpower x d.
Proof. intros D X. unfold M. pose proof (Rpower_ge_1 x (- d) d X). lra. Qed.
Lemma exp_remainder y : Rabs (exp y - 1 - y) <= y * y * exp (Rabs y).
Proof.
  pose proof (exp_ineq1_le y) as H1. pose proof (exp_ineq1_le (- y)) as H2. pose proof (exp_pos y) as P.
  assert (U : exp y - 1 <= y * exp y).
  { assert (E : exp y * exp (- y) = 1) by (rewrite <- exp_plus, Rplus_opp_r, exp_0; reflexivity). nra. }
  rewrite Rabs_pos_eq by lra. destruct (Rle_dec 0 y) as [Y|Y].
  - rewrite (Rabs_pos_eq y) by exact Y. nra.
  - rewrite (Rabs_left1 y) by lra. assert (1 <= exp (- y)) by lra. nra.
Qed.

(** ---- the gamma integral ---- *)
Definition ker (a x : R) : R := Rpower x (a - 1) * exp (- x).
Lemma ker_pos a x : 0 < ker a x.
Proof. unfold ker, Rpower. apply Rmult_lt_0_compat; apply exp_pos. Qed.
Lemma ker_shift a h x : ker (a + h) x = Rpower x h * ker a x.
Proof. unfold ker. rewrite <- Rmult_assoc, <- Rpower_plus. f_equal. f_equal. ring. Qed.
Lemma ker_converges a : 0 < a -> exists v, half_line (ker a) v.
Proof.
  intros A. apply (half_converges_gamma (ker a) 1 a a); try lra.
  - intros x X. apply (ex_derive_continuous (ker a)). unfold ker, Rpower. auto_derive. exact X.
  - intros x X. rewrite Rabs_pos_eq by (apply Rlt_le, ker_pos). unfold ker. lra.
  - intros x X. rewrite Rabs_pos_eq by (apply Rlt_le, ker_pos). unfold ker. rewrite Rmult_1_l. apply Rmult_le_compat_r; [apply Rlt_le, exp_pos|]. apply Rpower_ge_1; lra.
Qed.
Lemma ln_ker_converges a : 0 < a -> exists v, half_line (fun x => ln x * ker a x) v.
Proof.
  intros A. set (d := a / 2). assert (D : 0 < d) by (unfold d; lra).
  assert (B : forall x, Rabs (ln x * ker a x) <= / d * M d x * ker a x).
  { intros x. rewrite Rabs_mult, (Rabs_pos_eq (ker a x)) by (apply Rlt_le, ker_pos). apply Rmult_le_compat_r; [apply Rlt_le, ker_pos|]. apply M_ln, D. }
  assert (I : 0 < / d) by (apply Rinv_0_lt_compat, D).
  apply (half_converges_gamma (fun x => ln x * ker a x) (/ d * 2) d (a + d)); try lra.
  - intros x X. apply (ex_derive_continuous (fun x => ln x * ker a x)). unfold ker, Rpower. auto_derive. repeat split; exact X.
  - intros x X. eapply Rle_trans; [apply B|]. rewrite !Rmult_assoc. apply Rmult_le_compat_l; [lra|]. unfold ker.
    replace (2 * (Rpower x (d - 1) * exp (- x))) with (2 * Rpower x (- d) * (Rpower x (a - 1) * exp (- x))).
    + apply Rmult_le_compat_r; [apply Rlt_le, (ker_pos a)|]. apply M_low; assumption.
    + rewrite !Rmult_assoc. f_equal. rewrite <- Rmult_assoc, <- Rpower_plus. f_equal. f_equal. unfold d. field.
  - intros x X. eapply Rle_trans; [apply B|]. rewrite !Rmult_assoc. apply Rmult_le_compat_l; [lra|]. unfold ker.
    apply Rle_trans with (2 * Rpower x d * (Rpower x (a - 1) * exp (- x))).
    + apply Rmult_le_compat_r; [apply Rlt_le, (ker_pos a)|]. apply M_high; assumption.
    + rewrite !Rmult_assoc. apply Rmult_le_compat_l; [lra|]. rewrite <- Rmult_assoc, <- Rpower_plus. apply Rmult_le_compat_r; [apply Rlt_le, exp_pos|]. apply Rpower_ge_1; lra.
Qed.
Lemma remainder_converges a d : 0 < d -> 6 * d <= a -> exists v, half_line (fun x => (/ d * M d x) * (/ d * M d x) * M d x * ker a x) v.
Proof.
  intros D A. assert (I : 0 < / d) by (apply Rinv_0_lt_compat, D).
  assert (P : forall x e, 0 < M d x <= 2 * Rpower x e -> (/ d * M d x) * (/ d * M d x) * M d x * ker a x <= (/ d * / d * 8) * (Rpower x (a + 3 * e - 1) * exp (- x))).
  { intros x e H. unfold ker. pose proof (exp_pos (- x)) as Ex. assert (0 < Rpower x (a - 1)) as Px by apply exp_pos. assert (0 < Rpower x e) as Pe by apply exp_pos.
    replace (Rpower x (a + 3 * e - 1)) with (Rpower x e * Rpower x e * Rpower x e * Rpower x (a - 1)) by (rewrite <- !Rpower_plus; f_equal; ring).
    assert (C : M d x * M d x * M d x <= 8 * (Rpower x e * Rpower x e * Rpower x e)).
    { set (m := M d x) in *. set (q := Rpower x e) in *. assert (m * m <= (2 * q) * (2 * q)) by nra. assert (m * m * m <= (2 * q) * (2 * q) * (2 * q)) by (apply Rmult_le_compat; nra). lra. }
    apply (Rmult_le_compat_r (/ d * / d * (Rpower x (a - 1) * exp (- x)))) in C; [lra|].
    apply Rlt_le. repeat apply Rmult_lt_0_compat; assumption. }
  assert (Q : forall x, 0 <= (/ d * M d x) * (/ d * M d x) * M d x * ker a x).
  { intros x. pose proof (M_pos d x). pose proof (ker_pos a x). apply Rlt_le. repeat apply Rmult_lt_0_compat; first [assumption|apply exp_pos]. }
  apply (half_converges_gamma _ (/ d * / d * 8) (a + 3 * - d) (a + 3 * d)); try lra.
  - apply Rlt_le. repeat apply Rmult_lt_0_compat; try assumption; lra.
  - intros x X. apply (ex_derive_continuous (fun x => (/ d * M d x) * (/ d * M d x) * M d x * ker a x)). unfold M, ker, Rpower. auto_derive. repeat split; exact X.
  - intros x X. rewrite Rabs_pos_eq by apply Q. apply P. split; [apply M_pos|apply M_low; assumption].
  - intros x X. rewrite Rabs_pos_eq by apply Q. eapply Rle_trans; [apply (P x d); split; [apply M_pos|apply M_high; assumption]|].
    apply Rmult_le_compat_l; [apply Rlt_le; repeat apply Rmult_lt_0_compat; try assumption; lra|]. apply Rmult_le_compat_r; [apply Rlt_le, exp_pos|]. apply Rpower_ge_1; lra.
Qed.
(** differentiation under the integral sign *)
Lemma gamma_derive (G : R -> R) a I : 0 < a -> (forall a, 0 < a -> half_line (ker a) (G a)) -> half_line (fun x => ln x * ker a x) I -> is_derive G a I.
Proof.
  intros A HG HI. set (d := a / 6). assert (D : 0 < d) by (unfold d; lra).
  destruct (remainder_converges a d D) as [K HK]; [unfold d; lra|].
  assert (R : forall h, Rabs h <= d -> Rabs (G (a + h) - G a - h * I) <= h * h * K).
  { intros h H. assert (HP : 0 < a + h) by (apply Rabs_le_between in H; unfold d in H; lra).
    apply (half_norm (fun x => ker (a + h) x + -1 * ker a x + - h * (ln x * ker a x)) (fun x => (h * h) * ((/ d * M d x) * (/ d * M d x) * M d x * ker a x))).
    - intros x X. rewrite ker_shift. replace (Rpower x h * ker a x + -1 * ker a x + - h * (ln x * ker a x)) with ((Rpower x h - 1 - h * ln x) * ker a x) by ring.
      rewrite Rabs_mult, (Rabs_pos_eq (ker a x)) by (apply Rlt_le, ker_pos). rewrite <- Rmult_assoc. apply Rmult_le_compat_r; [apply Rlt_le, ker_pos|].
      unfold Rpower. eapply Rle_trans; [apply exp_remainder|]. pose proof (M_exp d x h H) as ME. pose proof (M_ln d x D) as ML.
      replace (h * ln x * (h * ln x)) with (h * h * (Rabs (ln x) * Rabs (ln x))) by (rewrite <- Rabs_mult, Rabs_pos_eq by nra; ring).
      pose proof (Rabs_pos (ln x)) as N. pose proof (M_pos d x) as MP. pose proof (exp_pos (Rabs (h * ln x))) as EP.
      set (q := / d * M d x) in *. rewrite (Rmult_assoc (h * h)). apply Rle_trans with (h * h * (q * q * M d x)); [|right; ring]. apply Rmult_le_compat_l; [nra|].
      apply Rmult_le_compat; [nra|lra|apply Rmult_le_compat; assumption|exact ME].
    - replace (G (a + h) - G a - h * I) with (G (a + h) + -1 * G a + - h * I) by ring.
      apply (half_plus (fun x => ker (a + h) x + -1 * ker a x) (fun x => - h * (ln x * ker a x))).
      + apply (half_plus (ker (a + h)) (fun x => -1 * ker a x)); [apply HG, HP|apply half_scal, HG, A].
      + apply (half_scal (fun x => ln x * ker a x)), HI.
    - apply (half_scal (fun x => (/ d * M d x) * (/ d * M d x) * M d x * ker a x)), HK. }
  assert (K0 : 0 <= K).
  { specialize (R d). rewrite (Rabs_pos_eq d) in R by lra. specialize (R (Rle_refl d)). pose proof (Rabs_pos (G (a + d) - G a - d * I)). assert (0 < d * d) by nra. nra. }
  apply is_derive_Reals. intros eps E.
  assert (E' : 0 < eps / (K + 1)) by (apply Rdiv_lt_0_compat; lra).
  exists (mkposreal (Rmin d (eps / (K + 1))) (Rmin_pos _ _ D E')). intros h H0 Hh. cbn in Hh.
  assert (Hd : Rabs h <= d) by (apply Rlt_le, (Rlt_le_trans _ _ _ Hh), Rmin_l). assert (He : Rabs h < eps / (K + 1)) by (apply (Rlt_le_trans _ _ _ Hh), Rmin_r).
  specialize (R h Hd). assert (P : 0 < Rabs h) by (apply Rabs_pos_lt, H0).
  replace ((G (a + h) - G a) / h - I) with ((G (a + h) - G a - h * I) * / h) by (field; exact H0). rewrite Rabs_mult, Rabs_inv.
  apply (Rmult_lt_reg_r (Rabs h)); [exact P|]. rewrite Rmult_assoc, Rinv_l, Rmult_1_r by lra.
  eapply Rle_lt_trans; [exact R|]. replace (h * h) with (Rabs h * Rabs h) by (rewrite <- Rabs_mult, Rabs_pos_eq by nra; ring).
  apply (Rmult_lt_compat_r (K + 1)) in He; [|lra]. replace (eps / (K + 1) * (K + 1)) with eps in He by (field; lra). nra.
Qed.

(** the mean: Gamma(a + 1) = a Gamma(a) *)
Lemma ker_mean a g : 0 < a -> half_line (ker a) g -> half_line (fun x => x * ker a x) (a * g).
Proof.
  intros A H.
  assert (T : half_line (fun x => x * ker a x + - a * ker a x) (- (0) - - (0))).
  { apply (half_line_integral _ (fun x => - (Rpower x a * exp (- x)))).
    - intros x X. unfold Rpower, ker. auto_derive; [exact X|]. fold (Rpower x a) (Rpower x (a - 1)). replace (Rpower x a) with (Rpower x (a - 1) * x).
      + field. lra.
      + rewrite <- (Rpower_1 x) at 2 by exact X. rewrite <- Rpower_plus. f_equal. ring.
    - intros x X. apply (ex_derive_continuous (fun x => x * ker a x + - a * ker a x)). unfold ker, Rpower. auto_derive. repeat split; exact X.
    - apply (filterlim_comp _ _ _ (fun x => Rpower x a * exp (- x)) Ropp _ (locally 0)); [|apply (continuous_opp (V := R_NormedModule) (fun x => x)), continuous_id].
      apply (filterlim_le_le (fun _ => 0) (fun x => Rpower x a * exp (- x)) (fun x => Rpower x a) (Finite 0)).
      + exists (mkposreal 1 Rlt_0_1). intros x Bx X. assert (0 < Rpower x a) by apply exp_pos. pose proof (exp_pos (- x)). assert (exp (- x) <= 1) by (rewrite <- exp_0; left; apply exp_increasing; lra). split; nra.
      + apply filterlim_const.
      + apply Rpower_lim_0, A.
    - apply (filterlim_comp _ _ _ (fun x => Rpower x a * exp (- x)) Ropp _ (locally 0)); [|apply (continuous_opp (V := R_NormedModule) (fun x => x)), continuous_id].
      apply (filterlim_le_le (fun _ => 0) (fun x => Rpower x a * exp (- x)) (fun x => exp (a * ln (2 * a)) * exp (- x / 2)) (Finite 0)).
      + exists 1. intros x X. assert (0 < Rpower x a) by apply exp_pos. pose proof (exp_pos (- x)). split; [nra|]. apply tail_bound; lra.
      + apply filterlim_const.
      + replace 0 with (exp (a * ln (2 * a)) * 0) by ring.
        apply (filterlim_comp _ _ _ (fun x => exp (- x / 2)) (fun y => exp (a * ln (2 * a)) * y) _ (locally 0) _ exp_half_lim).
        apply (continuous_scal_r (V := R_NormedModule) (exp (a * ln (2 * a))) (fun y => y)), continuous_id. }
  apply (half_scal _ a) in H. pose proof (half_plus _ _ _ _ T H) as S. replace (- (0) - - (0) + a * g) with (a * g) in S by ring.
  eapply half_ext; [|exact S]. intros x X. cbv beta. ring.
Qed.

(** ---- existence of a log-gamma and a digamma function ---- *)
Lemma ker_cont a x : 0 < x -> continuous (ker a) x.
Proof. intros X. apply (ex_derive_continuous (ker a)). unfold ker, Rpower. auto_derive. exact X. Qed.
Lemma ker_integral_pos a g : half_line (ker a) g -> 0 < g.
Proof.
  intros H.
  assert (I : forall u v, 0 < u -> 0 < v -> ex_RInt (ker a) u v).
  { intros u v U V. apply (ex_RInt_continuous (V := R_CompleteNormedModule)). intros z Hz. apply ker_cont. apply Rlt_le_trans with (Rmin u v); [apply Rmin_glb_lt; assumption|apply Hz]. }
  assert (C : 0 < RInt (ker a) 1 2).
  { apply RInt_gt_0; [lra|intros; apply ker_pos|]. intros x X. apply (ker_cont a). lra. }
  specialize (H (fun y => Rabs (y - g) < RInt (ker a) 1 2)). unfold filtermapi in H.
  destruct H as [Q S [e Q'] [N S'] H]; [exists (mkposreal _ C); intros y By; exact By|].
  assert (Qe : Q (Rmin (e / 2) (/ 2))).
  { pose proof (cond_pos e). apply Q'.
    - change (Rabs (Rmin (e / 2) (/ 2) - 0) < e). rewrite Rminus_0_r, Rabs_pos_eq by (apply Rmin_glb; lra). eapply Rle_lt_trans; [apply Rmin_l|]. lra.
    - apply Rmin_glb_lt; lra. }
  assert (SN : S (Rmax (N + 1) 2)) by (apply S'; eapply Rlt_le_trans; [|apply Rmax_l]; lra).
  destruct (H _ _ Qe SN) as [y [Hy Py]]. cbn [fst snd] in Hy.
  set (u := Rmin (e / 2) (/ 2)) in *. set (v := Rmax (N + 1) 2) in *.
  assert (U : 0 < u) by (pose proof (cond_pos e); apply Rmin_glb_lt; lra). assert (U1 : u <= / 2) by apply Rmin_r. assert (V : 2 <= v) by apply Rmax_r.
  apply (is_RInt_unique (V := R_CompleteNormedModule)) in Hy.
  pose proof (RInt_Chasles (V := R_CompleteNormedModule) (ker a) u 1 v (I u 1 U Rlt_0_1) (I 1 v Rlt_0_1 ltac:(lra))) as E1. change (RInt (ker a) u 1 + RInt (ker a) 1 v = RInt (ker a) u v) in E1.
  pose proof (RInt_Chasles (V := R_CompleteNormedModule) (ker a) 1 2 v (I 1 2 Rlt_0_1 ltac:(lra)) (I 2 v ltac:(lra) ltac:(lra))) as E2. change (RInt (ker a) 1 2 + RInt (ker a) 2 v = RInt (ker a) 1 v) in E2.
  assert (P1 : 0 <= RInt (ker a) u 1) by (apply RInt_ge_0; [lra|apply I; lra|intros; apply Rlt_le, ker_pos]).
  assert (P2 : 0 <= RInt (ker a) 2 v) by (apply RInt_ge_0; [lra|apply I; lra|intros; apply Rlt_le, ker_pos]).
  change (RInt (ker a) u v = y) in Hy. apply Rabs_def2 in Py. lra.
Qed.
Lemma gamma_functions_exist : exists LG PSI, log_gamma LG /\ digamma_of LG PSI.
Proof.
  set (G := fun a => RInt_gen (ker a) (at_right 0) (Rbar_locally p_infty)).
  set (J := fun a => RInt_gen (fun x => ln x * ker a x) (at_right 0) (Rbar_locally p_infty)).
  assert (HG : forall a, 0 < a -> half_line (ker a) (G a)) by (intros a A; apply (RInt_gen_correct (V := R_CompleteNormedModule)); exact (ker_converges a A)).
  assert (HJ : forall a, 0 < a -> half_line (fun x => ln x * ker a x) (J a)) by (intros a A; apply (RInt_gen_correct (V := R_CompleteNormedModule)); exact (ln_ker_converges a A)).
  assert (P : forall a, 0 < a -> 0 < G a) by (intros a A; exact (ker_integral_pos a _ (HG a A))).
  exists (fun a => ln (G a)), (fun a => J a / G a). split.
  - intros a A. cbv beta. rewrite exp_ln by exact (P a A). exact (HG a A).
  - intros a A. pose proof (gamma_derive G a (J a) A HG (HJ a A)) as D.
    auto_derive; [split; [exists (J a); exact D|split; [exact (P a A)|exact I]]|].
    change (fun x => G x) with G. rewrite (is_derive_unique G a _ D). pose proof (P a A). field. lra.
Qed.

(** ---- the moments of the gamma distribution ---- *)
Section GammaMoments.
Variables (LG PSI : R -> R).
Hypotheses (HL : log_gamma LG) (HP : digamma_of LG PSI).
Lemma ker_total a : 0 < a -> half_line (ker a) (exp (LG a)).
Proof. exact (HL a). Qed.
Lemma ker_log a : 0 < a -> half_line (fun x => ln x * ker a x) (PSI a * exp (LG a)).
Proof.
  intros A. destruct (ln_ker_converges a A) as [v H].
  assert (D : is_derive (fun a => exp (LG a)) a v) by (apply (gamma_derive _ a v A); [exact HL|exact H]).
  assert (D' : is_derive (fun a => exp (LG a)) a (PSI a * exp (LG a))).
  { pose proof (HP a A) as Q. auto_derive; [exists (PSI a); exact Q|]. change (fun x => LG x) with LG. rewrite (is_derive_unique LG a _ Q). ring. }
  rewrite <- (is_derive_unique _ _ _ D'), (is_derive_unique _ _ _ D). exact H.
Qed.
Lemma gamma_of_ker a b f v : 0 < b -> half_line (fun t => f (t / b) * ker a t) (exp (LG a) * v) -> expects_pos (gamma_pdf LG a b) f v.
Proof.
  intros B H. apply (half_scale _ _ b B) in H. apply (half_scal _ (/ exp (LG a))) in H. pose proof (exp_pos (LG a)) as E.
  replace (/ exp (LG a) * (exp (LG a) * v)) with v in H by (field; lra).
  eapply half_ext; [|exact H]. intros x X. cbv beta. unfold gamma_pdf, ker. replace (b * x / b) with x by (field; lra).
  rewrite <- Rpower_mult_distr by assumption. replace (Rpower b a) with (b * Rpower b (a - 1)).
  - field. lra.
  - rewrite <- (Rpower_1 b) at 1 by exact B. rewrite <- Rpower_plus. f_equal. ring.
Qed.
Lemma gamma_linear a b c0 c1 c2 : 0 < a -> 0 < b -> expects_pos (gamma_pdf LG a b) (fun x => c0 + c1 * x + c2 * ln x) (c0 + c1 * (a / b) + c2 * (PSI a - ln b)).
Proof.
  intros A B. apply gamma_of_ker; [exact B|].
  pose proof (half_scal _ (c0 - c2 * ln b) _ (ker_total a A)) as H0. pose proof (half_scal _ (c1 / b) _ (ker_mean a _ A (ker_total a A))) as H1. pose proof (half_scal _ c2 _ (ker_log a A)) as H2.
  pose proof (half_plus _ _ _ _ H0 (half_plus _ _ _ _ H1 H2)) as H.
  replace ((c0 - c2 * ln b) * exp (LG a) + (c1 / b * (a * exp (LG a)) + c2 * (PSI a * exp (LG a)))) with (exp (LG a) * (c0 + c1 * (a / b) + c2 * (PSI a - ln b))) in H by (field; lra).
  eapply half_ext; [|exact H]. intros t T. cbv beta. unfold Rdiv at 3. rewrite ln_mult, ln_Rinv by (try assumption; apply Rinv_0_lt_compat, B). field. lra.
Qed.
Lemma expects_pos_ext p f g v : (forall x, 0 < x -> f x = g x) -> expects_pos p f v -> expects_pos p g v.
Proof. intros E. apply half_ext. intros x X. rewrite (E x X). reflexivity. Qed.
Lemma ln_gamma_pdf a b x : 0 < b -> 0 < x -> ln (gamma_pdf LG a b x) = (a * ln b - LG a) + - b * x + (a - 1) * ln x.
Proof.
  intros B X. unfold gamma_pdf, Rpower, Rdiv. pose proof (exp_pos (LG a)) as E. rewrite <- exp_Ropp, <- !exp_plus, ln_exp. ring.
Qed.
End GammaMoments.
