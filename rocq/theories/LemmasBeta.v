(** The beta integral: convergence, recursion, log-convexity, its value in terms of the gamma function (Bohr and Mollerup), its derivative. *)
From Coq Require Import Reals List Arith Lia Lra.
From Coquelicot Require Import Coquelicot.
From Verif Require Import RSum SpecExpFam SpecIntegral LemmasGauss LemmasGamma.
Import List ListNotations.
Open Scope R_scope.
Set Bullet Behavior "Strict Subproofs".

(** ---- integrals over (0, r) ---- *)
Lemma iv_ends r (P : R -> R -> Prop) : 0 < r -> (forall a b, 0 < a < r / 2 -> r / 2 < b < r -> P a b) -> filter_prod (at_right 0) (at_left r) (fun ab => P (fst ab) (snd ab)).
Proof.
  intros Hr H. assert (H2 : 0 < r / 2) by lra. apply (Filter_prod _ _ _ (fun a => 0 < a < r / 2) (fun b => r / 2 < b < r)).
  - exists (mkposreal _ H2). intros x B X. change (Rabs (x - 0) < r / 2) in B. rewrite Rminus_0_r in B. apply Rabs_def2 in B. lra.
  - exists (mkposreal _ H2). intros x B X. change (Rabs (x - r) < r / 2) in B. apply Rabs_def2 in B. lra.
  - intros a b A B. cbn. apply H; assumption.
Qed.
Lemma iv_integral r (f F : R -> R) la lb : 0 < r ->
  (forall x, 0 < x < r -> is_derive F x (f x)) -> (forall x, 0 < x < r -> continuous f x) ->
  filterlim F (at_right 0) (locally la) -> filterlim F (at_left r) (locally lb) -> interval r f (lb - la).
Proof.
  intros Hr D C A B. unfold interval.
  assert (Pos : forall a b x, 0 < a < r / 2 -> r / 2 < b < r -> Rmin a b <= x <= Rmax a b -> 0 < x < r).
  { intros a b x Ha Hb. rewrite Rmin_left, Rmax_right by lra. lra. }
  assert (E : forall x, 0 < x < r -> Derive F x = f x) by (intros x X; apply is_derive_unique, D, X).
  apply (is_RInt_gen_ext (V := R_NormedModule) (Derive F) f (lb - la)).
  - apply (iv_ends r (fun a b => forall x, Rmin a b < x < Rmax a b -> Derive F x = f x) Hr). intros a b Ha Hb x X. apply E. apply (Pos a b x Ha Hb). lra.
  - apply (is_RInt_gen_Derive F la lb).
    + apply (iv_ends r (fun a b => forall x, Rmin a b <= x <= Rmax a b -> ex_derive F x) Hr). intros a b Ha Hb x X. exists (f x). apply D. exact (Pos a b x Ha Hb X).
    + apply (iv_ends r (fun a b => forall x, Rmin a b <= x <= Rmax a b -> continuous (Derive F) x) Hr). intros a b Ha Hb x X. pose proof (Pos a b x Ha Hb X) as Px.
      apply (continuous_ext_loc (T := R_UniformSpace) (Derive F) f); [|apply C, Px]. exists (mkposreal (Rmin x (r - x)) (Rmin_pos x (r - x) (proj1 Px) (Rlt_Rminus x r (proj2 Px)))). intros y By. change (Rabs (y - x) < Rmin x (r - x)) in By. apply Rabs_def2 in By. pose proof (Rmin_l x (r - x)). pose proof (Rmin_r x (r - x)). symmetry. apply E. lra.
    + exact A.
    + exact B.
Qed.
Lemma iv_ext r f g v : 0 < r -> (forall x, 0 < x < r -> f x = g x) -> interval r f v -> interval r g v.
Proof.
  intros Hr E H. apply (is_RInt_gen_ext (V := R_NormedModule) f g v); [|exact H].
  apply (iv_ends r (fun a b => forall x, Rmin a b < x < Rmax a b -> f x = g x) Hr). intros a b A B x X. apply E. rewrite Rmin_left, Rmax_right in X by lra. lra.
Qed.
Lemma iv_scal r f c v : interval r f v -> interval r (fun x => c * f x) (c * v).
Proof. intros H. exact (is_RInt_gen_scal (V := R_NormedModule) f c v H). Qed.
Lemma iv_plus r f g v w : interval r f v -> interval r g w -> interval r (fun x => f x + g x) (v + w).
Proof. intros H K. exact (is_RInt_gen_plus (V := R_NormedModule) f g v w H K). Qed.
Lemma iv_unique r f v w : interval r f v -> interval r f w -> v = w.
Proof.
  intros H K. pose proof (is_RInt_gen_unique (V := R_CompleteNormedModule) f v H) as E1. pose proof (is_RInt_gen_unique (V := R_CompleteNormedModule) f w K) as E2.
  exact (eq_trans (eq_sym E1) E2).
Qed.
Lemma iv_norm r f g v w : 0 < r -> (forall x, 0 < x < r -> Rabs (f x) <= g x) -> interval r f v -> interval r g w -> Rabs v <= w.
Proof.
  intros Hr B H K. apply (RInt_gen_norm (V := R_CompleteNormedModule) (Fa := at_right 0) (Fb := at_left r) f g v w).
  - apply (iv_ends r (fun a b => a <= b) Hr). intros; lra.
  - apply (iv_ends r (fun a b => forall x, a <= x <= b -> Rabs (f x) <= g x) Hr). intros a b A Bb x X. apply B. lra.
  - exact H.
  - exact K.
Qed.
Lemma iv_reflect r f v : interval r f v -> interval r (fun x => f (r - x)) v.
Proof.
  intros H P HP. specialize (H P HP). unfold filtermapi in *. destruct H as [Q S [e Q'] [d S'] H].
  apply (Filter_prod _ _ _ (fun a => S (-1 * a + r)) (fun b => Q (-1 * b + r))).
  - exists d. intros x B X. apply S'; [|lra]. change (Rabs (-1 * x + r - r) < d). change (Rabs (x - 0) < d) in B. replace (-1 * x + r - r) with (- (x - 0)) by ring. rewrite Rabs_Ropp. exact B.
  - exists e. intros x B X. apply Q'; [|lra]. change (Rabs (-1 * x + r - 0) < e). change (Rabs (x - r) < e) in B. replace (-1 * x + r - 0) with (- (x - r)) by ring. rewrite Rabs_Ropp. exact B.
  - intros a b Sa Qb. destruct (H _ _ Qb Sa) as [y [Hy Py]]. exists y. split; [|exact Py]. cbn [fst snd] in *.
    apply (is_RInt_swap (V := R_NormedModule)) in Hy. apply (is_RInt_comp_lin (V := R_NormedModule) f (-1) r a b) in Hy. apply (is_RInt_opp (V := R_NormedModule)) in Hy.
    rewrite opp_opp in Hy. eapply is_RInt_ext; [|exact Hy]. intros x _. cbv beta. change (- (-1 * f (-1 * x + r)) = f (r - x)). replace (-1 * x + r) with (r - x) by ring. ring.
Qed.
Lemma iv_scale r f v : 0 < r -> interval 1 f v -> interval r (fun x => / r * f (x / r)) v.
Proof.
  intros Hr H P HP. specialize (H P HP). unfold filtermapi in *. destruct H as [Q S [e Q'] [d S'] H]. pose proof (Rinv_0_lt_compat r Hr) as Hi.
  assert (A : forall x y (z : posreal), Rabs (x - y) < r * z -> Rabs (/ r * x + 0 - / r * y) < z).
  { intros x y z B. replace (/ r * x + 0 - / r * y) with (/ r * (x - y)) by ring. rewrite Rabs_mult, (Rabs_pos_eq (/ r)) by lra. apply (Rmult_lt_compat_l (/ r)) in B; [|exact Hi]. replace (/ r * (r * z)) with (pos z) in B by (field; lra). exact B. }
  apply (Filter_prod _ _ _ (fun a => Q (/ r * a + 0)) (fun b => S (/ r * b + 0))).
  - exists (mkposreal (r * e) (Rmult_lt_0_compat _ _ Hr (cond_pos e))). intros x B X. apply Q'; [|nra]. change (Rabs (x - 0) < r * e) in B. apply A in B. change (Rabs (/ r * x + 0 - 0) < e). replace (/ r * x + 0 - 0) with (/ r * x + 0 - / r * 0) by ring. exact B.
  - exists (mkposreal (r * d) (Rmult_lt_0_compat _ _ Hr (cond_pos d))). intros x B X. apply S'.
    + change (Rabs (x - r) < r * d) in B. apply A in B. change (Rabs (/ r * x + 0 - 1) < d). replace (/ r * x + 0 - 1) with (/ r * x + 0 - / r * r) by (field; lra). exact B.
    + apply (Rmult_lt_reg_l r); [exact Hr|]. replace (r * (/ r * x + 0)) with (x * (r * / r)) by ring. rewrite Rinv_r by lra. lra.
  - intros a b Qa Sb. destruct (H _ _ Qa Sb) as [y [Hy Py]]. exists y. split; [|exact Py]. cbn [fst snd] in *.
    apply (is_RInt_ext (fun x => scal (/ r) (f (/ r * x + 0)))).
    + intros x _. change (/ r * f (/ r * x + 0) = / r * f (x / r)). f_equal. f_equal. unfold Rdiv. ring.
    + apply (is_RInt_comp_lin f (/ r) 0 a b y). exact Hy.
Qed.

(** ---- convergence on (0, 1) by domination ---- *)
Lemma iv_part (f g G : R -> R) (S : R -> Prop) : (forall u v x, S u -> S v -> u <= x <= v -> S x) ->
  (forall x, S x -> 0 < x < 1) -> (forall x, 0 < x < 1 -> continuous f x) -> (forall x, S x -> continuous g x) -> (forall x, S x -> is_derive G x (g x)) -> (forall x, S x -> Rabs (f x) <= g x) ->
  forall u v, S u -> S v -> Rabs (RInt f (/ 2) v - RInt f (/ 2) u) <= Rabs (G v - G u).
Proof.
  intros Conv Pos Cf Cg DG B.
  assert (I : forall a b, 0 < a < 1 -> 0 < b < 1 -> ex_RInt f a b).
  { intros a b A Bb. apply (ex_RInt_continuous (V := R_CompleteNormedModule)). intros z Hz. apply Cf. split.
    - apply Rlt_le_trans with (Rmin a b); [apply Rmin_glb_lt; lra|apply Hz].
    - apply Rle_lt_trans with (Rmax a b); [apply Hz|apply Rmax_lub_lt; lra]. }
  assert (K : forall u v, S u -> S v -> u <= v -> Rabs (RInt f (/ 2) v - RInt f (/ 2) u) <= G v - G u).
  { intros u v Su Sv UV. pose proof (Pos u Su) as Pu. pose proof (Pos v Sv) as Pv.
    replace (RInt f (/ 2) v - RInt f (/ 2) u) with (RInt f u v).
    - eapply Rle_trans; [apply abs_RInt_le; [exact UV|apply I; assumption]|].
      assert (IG : is_RInt g u v (G v - G u)).
      { apply (is_RInt_derive (V := R_CompleteNormedModule) G g); rewrite Rmin_left, Rmax_right by exact UV; intros x X; [apply DG|apply Cg]; exact (Conv u v x Su Sv X). }
      rewrite <- (is_RInt_unique (V := R_CompleteNormedModule) _ _ _ _ IG).
      apply RInt_le; [exact UV| |exists (G v - G u); exact IG|].
      + apply (ex_RInt_norm f). apply I; assumption.
      + intros x X. apply B. apply (Conv u v x Su Sv). lra.
    - pose proof (RInt_Chasles (V := R_CompleteNormedModule) f (/ 2) u v (I (/ 2) u ltac:(lra) Pu) (I u v Pu Pv)) as E. change (RInt f (/ 2) u + RInt f u v = RInt f (/ 2) v) in E. assert (Q : forall p q r : R, p + q = r -> q = r - p) by (intros; lra). exact (Q _ _ _ E). }
  intros u v Su Sv. destruct (Rle_dec u v) as [UV|UV].
  - eapply Rle_trans; [apply (K u v Su Sv UV)|apply Rle_abs].
  - rewrite Rabs_minus_sym, (Rabs_minus_sym (G v)). eapply Rle_trans; [apply (K v u Sv Su); lra|apply Rle_abs].
Qed.
(** (1 - x)^b -> 0 at 1 *)
Lemma Rpower_lim_1 b : 0 < b -> filterlim (fun x => Rpower (1 - x) b) (at_left 1) (locally 0).
Proof.
  intros B. apply (filterlim_comp _ _ _ (fun x => 1 - x) (fun x => Rpower x b) _ (at_right 0)); [|apply Rpower_lim_0, B].
  intros P [e H]. exists e. intros x Bx X. apply H; [|lra]. change (Rabs (1 - x - 0) < e). change (Rabs (x - 1) < e) in Bx. rewrite Rabs_minus_sym in Bx. replace (1 - x - 0) with (1 - x) by ring. exact Bx.
Qed.
Lemma Rpower_derive1 x y : x < 1 -> is_derive (fun x => Rpower (1 - x) y) x (- (y * Rpower (1 - x) (y - 1))).
Proof.
  intros X. unfold Rpower. auto_derive; [lra|]. replace (1 + - x) with (1 - x) by ring. fold (Rpower (1 - x) y) (Rpower (1 - x) (y - 1)). replace (Rpower (1 - x) y) with (Rpower (1 - x) (y - 1) * (1 - x)).
  - field. lra.
  - rewrite <- (Rpower_1 (1 - x)) at 2 by lra. rewrite <- Rpower_plus. f_equal. ring.
Qed.
Lemma Rpower_cont1 x y : x < 1 -> continuous (fun x => Rpower (1 - x) y) x.
Proof. intros X. apply (ex_derive_continuous (fun x => Rpower (1 - x) y)). eexists. apply Rpower_derive1, X. Qed.
Lemma iv_converges (f : R -> R) a b C : 0 < a -> 0 < b -> (forall x, 0 < x < 1 -> continuous f x) ->
  (forall x, 0 < x <= / 2 -> Rabs (f x) <= C * Rpower x (a - 1)) -> (forall x, / 2 <= x < 1 -> Rabs (f x) <= C * Rpower (1 - x) (b - 1)) -> exists v, interval 1 f v.
Proof.
  intros A B Cf B0 B1.
  assert (L0 : exists k, filterlim (RInt f (/ 2)) (at_right 0) (locally k)).
  { apply (dominated_limit _ _ (RInt f (/ 2)) (fun x => C / a * Rpower x a) (fun x => 0 < x <= / 2) (C / a * 0)).
    - assert (Q : 0 < / 2) by lra. exists (mkposreal _ Q). intros x Bx X. change (Rabs (x - 0) < / 2) in Bx. rewrite Rminus_0_r in Bx. apply Rabs_def2 in Bx. lra.
    - apply (iv_part f (fun x => C * Rpower x (a - 1)) _ (fun x => 0 < x <= / 2)).
      + intros u v x; lra.
      + intros x; lra.
      + exact Cf.
      + intros x X. apply (continuous_scal_r (V := R_NormedModule) C (fun x => Rpower x (a - 1))), Rpower_cont. lra.
      + intros x X. replace (C * Rpower x (a - 1)) with (C / a * (a * Rpower x (a - 1))) by (field; lra).
        apply (is_derive_scal (fun x => Rpower x a) x (C / a)), Rpower_derive. lra.
      + exact B0.
    - apply (filterlim_comp _ _ _ (fun x => Rpower x a) (fun y => C / a * y) _ (locally 0) _ (Rpower_lim_0 a A)).
      apply (continuous_scal_r (V := R_NormedModule) (C / a) (fun y => y)), continuous_id. }
  assert (L1 : exists k, filterlim (RInt f (/ 2)) (at_left 1) (locally k)).
  { apply (dominated_limit _ _ (RInt f (/ 2)) (fun x => - (C / b) * Rpower (1 - x) b) (fun x => / 2 <= x < 1) (- (C / b) * 0)).
    - assert (Q : 0 < / 2) by lra. exists (mkposreal _ Q). intros x Bx X. change (Rabs (x - 1) < / 2) in Bx. apply Rabs_def2 in Bx. lra.
    - apply (iv_part f (fun x => C * Rpower (1 - x) (b - 1)) _ (fun x => / 2 <= x < 1)).
      + intros u v x; lra.
      + intros x; lra.
      + exact Cf.
      + intros x X. apply (continuous_scal_r (V := R_NormedModule) C (fun x => Rpower (1 - x) (b - 1))), Rpower_cont1. lra.
      + intros x X. replace (C * Rpower (1 - x) (b - 1)) with (- (C / b) * - (b * Rpower (1 - x) (b - 1))) by (field; lra).
        apply (is_derive_scal (fun x => Rpower (1 - x) b) x (- (C / b))), Rpower_derive1. lra.
      + exact B1.
    - apply (filterlim_comp _ _ _ (fun x => Rpower (1 - x) b) (fun y => - (C / b) * y) _ (locally 0) _ (Rpower_lim_1 b B)).
      apply (continuous_scal_r (V := R_NormedModule) (- (C / b)) (fun y => y)), continuous_id. }
  destruct L0 as [la L0]. destruct L1 as [lb L1]. exists (lb - la). apply (iv_integral 1 f (RInt f (/ 2))); [lra| |exact Cf|exact L0|exact L1].
  intros x X. apply (is_derive_RInt f (RInt f (/ 2)) (/ 2) x).
  - exists (mkposreal (Rmin x (1 - x)) (Rmin_pos x (1 - x) (proj1 X) (Rlt_Rminus x 1 (proj2 X)))). intros y By. change (Rabs (y - x) < Rmin x (1 - x)) in By. apply Rabs_def2 in By. pose proof (Rmin_l x (1 - x)). pose proof (Rmin_r x (1 - x)).
    apply (RInt_correct (V := R_CompleteNormedModule)). apply (ex_RInt_continuous (V := R_CompleteNormedModule)). intros z Hz. apply Cf. split.
    + apply Rlt_le_trans with (Rmin (/ 2) y); [apply Rmin_glb_lt; lra|apply Hz].
    + apply Rle_lt_trans with (Rmax (/ 2) y); [apply Hz|apply Rmax_lub_lt; lra].
  - apply Cf, X.
Qed.

(** ---- the beta integral ---- *)
Definition bk (a b t : R) : R := Rpower t (a - 1) * Rpower (1 - t) (b - 1).
Lemma bk_pos a b t : 0 < bk a b t.
Proof. unfold bk, Rpower. apply Rmult_lt_0_compat; apply exp_pos. Qed.
Lemma bk_cont a b t : 0 < t < 1 -> continuous (bk a b) t.
Proof. intros T. apply (ex_derive_continuous (bk a b)). unfold bk, Rpower. auto_derive. lra. Qed.
Lemma pow_mid x c : / 2 <= x <= 1 -> Rpower x c <= Rpower 2 (Rabs c).
Proof.
  intros X. unfold Rpower. assert (L : - ln 2 <= ln x <= 0).
  { rewrite <- ln_Rinv by lra. rewrite <- ln_1. split; [destruct (Req_dec (/ 2) x) as [->|]; [lra|left; apply ln_increasing; lra]|destruct (Req_dec x 1) as [->|]; [lra|left; apply ln_increasing; lra]]. }
  assert (H : c * ln x <= Rabs c * ln 2) by (unfold Rabs; destruct (Rcase_abs c); nra). destruct H as [H|H]; [left; apply exp_increasing, H|rewrite H; lra].
Qed.
Lemma bk_low a b x : 0 < x <= / 2 -> bk a b x <= (Rpower 2 (Rabs (a - 1)) + Rpower 2 (Rabs (b - 1))) * Rpower x (a - 1).
Proof.
  intros X. unfold bk. rewrite Rmult_comm. assert (0 < Rpower x (a - 1)) by apply exp_pos. apply Rmult_le_compat_r; [lra|]. pose proof (pow_mid (1 - x) (b - 1) ltac:(lra)). assert (0 < Rpower 2 (Rabs (a - 1))) by apply exp_pos. lra.
Qed.
Lemma bk_high a b x : / 2 <= x < 1 -> bk a b x <= (Rpower 2 (Rabs (a - 1)) + Rpower 2 (Rabs (b - 1))) * Rpower (1 - x) (b - 1).
Proof.
  intros X. unfold bk. assert (0 < Rpower (1 - x) (b - 1)) by apply exp_pos. apply Rmult_le_compat_r; [lra|]. pose proof (pow_mid x (a - 1) ltac:(lra)). assert (0 < Rpower 2 (Rabs (b - 1))) by apply exp_pos. lra.
Qed.
Lemma bk_dominated f a b C : 0 <= C -> 0 < a -> 0 < b -> (forall x, 0 < x < 1 -> continuous f x) -> (forall x, 0 < x < 1 -> Rabs (f x) <= C * bk a b x) -> exists v, interval 1 f v.
Proof.
  intros HC A B Cf D. apply (iv_converges f a b (C * (Rpower 2 (Rabs (a - 1)) + Rpower 2 (Rabs (b - 1))))); try assumption.
  - intros x X. eapply Rle_trans; [apply D; lra|]. rewrite Rmult_assoc. apply Rmult_le_compat_l; [exact HC|]. apply bk_low, X.
  - intros x X. eapply Rle_trans; [apply D; lra|]. rewrite Rmult_assoc. apply Rmult_le_compat_l; [exact HC|]. apply bk_high, X.
Qed.
Lemma bk_converges a b : 0 < a -> 0 < b -> exists v, interval 1 (bk a b) v.
Proof.
  intros A B. apply (bk_dominated (bk a b) a b 1); try assumption; [lra|intros; apply bk_cont; assumption|]. intros x X. rewrite Rabs_pos_eq by (apply Rlt_le, bk_pos). lra.
Qed.
Lemma bk_shift a b h x : bk (a + h) b x = Rpower x h * bk a b x.
Proof. unfold bk. rewrite <- Rmult_assoc, <- Rpower_plus. f_equal. f_equal. ring. Qed.
Lemma ln_neg x : 0 < x < 1 -> ln x < 0.
Proof. intros X. rewrite <- ln_1. apply ln_increasing; lra. Qed.
Lemma ln_bound d x : 0 < d -> 0 < x < 1 -> Rabs (ln x) <= / d * Rpower x (- d).
Proof.
  intros D X. pose proof (ln_neg x X). rewrite Rabs_left by assumption. unfold Rpower. pose proof (exp_ineq1_le (- d * ln x)). apply (Rmult_le_reg_l d); [exact D|]. rewrite <- Rmult_assoc, Rinv_r, Rmult_1_l by lra. nra.
Qed.
Lemma ln_bk_converges a b : 0 < a -> 0 < b -> exists v, interval 1 (fun x => ln x * bk a b x) v.
Proof.
  intros A B. set (d := a / 2). assert (D : 0 < d) by (unfold d; lra). apply (bk_dominated _ (a + - d) b (/ d)).
  - apply Rlt_le, Rinv_0_lt_compat, D.
  - unfold d; lra.
  - exact B.
  - intros x X. apply (ex_derive_continuous (fun x => ln x * bk a b x)). unfold bk, Rpower. auto_derive. lra.
  - intros x X. rewrite bk_shift, Rabs_mult, (Rabs_pos_eq (bk a b x)), <- Rmult_assoc by (apply Rlt_le, bk_pos). apply Rmult_le_compat_r; [apply Rlt_le, bk_pos|]. apply ln_bound; assumption.
Qed.
(** differentiation under the integral sign *)
Lemma beta_derive (G : R -> R) a b I : 0 < a -> 0 < b -> (forall a, 0 < a -> interval 1 (bk a b) (G a)) -> interval 1 (fun x => ln x * bk a b x) I -> is_derive G a I.
Proof.
  intros A B HG HI. set (d := a / 6). assert (D : 0 < d) by (unfold d; lra). pose proof (Rinv_0_lt_compat d D) as Di.
  assert (HK : interval 1 (bk (a + - (3 * d)) b) (G (a + - (3 * d)))) by (apply HG; unfold d; lra). set (K := / d * / d * G (a + - (3 * d))).
  assert (R : forall h, Rabs h <= d -> Rabs (G (a + h) - G a - h * I) <= h * h * K).
  { intros h H. assert (HP : 0 < a + h) by (apply Rabs_le_between in H; unfold d in H; lra).
    apply (iv_norm 1 (fun x => bk (a + h) b x + -1 * bk a b x + - h * (ln x * bk a b x)) (fun x => (h * h) * ((/ d * / d) * bk (a + - (3 * d)) b x)) _ _ Rlt_0_1).
    - intros x X. rewrite !bk_shift. replace (Rpower x h * bk a b x + -1 * bk a b x + - h * (ln x * bk a b x)) with ((Rpower x h - 1 - h * ln x) * bk a b x) by ring.
      rewrite Rabs_mult, (Rabs_pos_eq (bk a b x)) by (apply Rlt_le, bk_pos). rewrite <- !Rmult_assoc. apply Rmult_le_compat_r; [apply Rlt_le, bk_pos|].
      unfold Rpower at 1. eapply Rle_trans; [apply exp_remainder|]. pose proof (ln_bound d x D X) as ML.
      assert (ME : exp (Rabs (h * ln x)) <= Rpower x (- d)).
      { rewrite Rabs_mult, (Rabs_left (ln x)) by (apply ln_neg, X). unfold Rpower. pose proof (ln_neg x X). assert (Q : Rabs h * - ln x <= - d * ln x) by nra. destruct Q as [Q|Q]; [left; apply exp_increasing, Q|rewrite Q; lra]. }
      replace (h * ln x * (h * ln x)) with (h * h * (Rabs (ln x) * Rabs (ln x))) by (rewrite <- Rabs_mult, Rabs_pos_eq by nra; ring).
      pose proof (Rabs_pos (ln x)) as N. pose proof (exp_pos (Rabs (h * ln x))) as EP. assert (MP : 0 < Rpower x (- d)) by apply exp_pos.
      replace (Rpower x (- (3 * d))) with (Rpower x (- d) * Rpower x (- d) * Rpower x (- d)) by (rewrite <- !Rpower_plus; f_equal; ring).
      set (q := Rpower x (- d)) in *. rewrite (Rmult_assoc (h * h)). apply Rle_trans with (h * h * ((/ d * q) * (/ d * q) * q)); [|right; ring]. apply Rmult_le_compat_l; [nra|].
      apply Rmult_le_compat; [nra|lra|apply Rmult_le_compat; assumption|exact ME].
    - replace (G (a + h) - G a - h * I) with (G (a + h) + -1 * G a + - h * I) by ring.
      apply (iv_plus 1 (fun x => bk (a + h) b x + -1 * bk a b x) (fun x => - h * (ln x * bk a b x))).
      + apply (iv_plus 1 (bk (a + h) b) (fun x => -1 * bk a b x)); [apply HG, HP|apply iv_scal, HG, A].
      + apply (iv_scal 1 (fun x => ln x * bk a b x)), HI.
    - apply (iv_scal 1 (fun x => / d * / d * bk (a + - (3 * d)) b x)). unfold K. apply iv_scal, HK. }
  assert (K0 : 0 <= K).
  { specialize (R d). rewrite (Rabs_pos_eq d) in R by lra. specialize (R (Rle_refl d)). pose proof (Rabs_pos (G (a + d) - G a - d * I)). assert (0 < d * d) by nra. nra. }
  clearbody K. apply is_derive_Reals. intros eps E.
  assert (E' : 0 < eps / (K + 1)) by (apply Rdiv_lt_0_compat; lra).
  exists (mkposreal (Rmin d (eps / (K + 1))) (Rmin_pos _ _ D E')). intros h H0 Hh. cbn in Hh.
  assert (Hd : Rabs h <= d) by (apply Rlt_le, (Rlt_le_trans _ _ _ Hh), Rmin_l). assert (He : Rabs h < eps / (K + 1)) by (apply (Rlt_le_trans _ _ _ Hh), Rmin_r).
  specialize (R h Hd). assert (P : 0 < Rabs h) by (apply Rabs_pos_lt, H0).
  replace ((G (a + h) - G a) / h - I) with ((G (a + h) - G a - h * I) * / h) by (field; exact H0). rewrite Rabs_mult, Rabs_inv.
  apply (Rmult_lt_reg_r (Rabs h)); [exact P|]. rewrite Rmult_assoc, Rinv_l, Rmult_1_r by lra.
  eapply Rle_lt_trans; [exact R|]. replace (h * h) with (Rabs h * Rabs h) by (rewrite <- Rabs_mult, Rabs_pos_eq by nra; ring).
  apply (Rmult_lt_compat_r (K + 1)) in He; [|lra]. replace (eps / (K + 1) * (K + 1)) with eps in He by (field; lra). nra.
Qed.
Lemma Rpower_small x c : 0 < x <= 1 -> 0 <= c -> Rpower x c <= 1.
Proof. intros X C. pose proof (Rpower_le_1 x 0 c X C) as H. rewrite Rpower_O in H by lra. exact H. Qed.
(** B(a + 1, b) = a / (a + b) B(a, b), B(1, b) = 1 / b, B > 0 *)
Lemma bk_boundary a b : 0 < a -> 0 < b -> interval 1 (fun t => a * bk a (b + 1) t + - b * bk (a + 1) b t) 0.
Proof.
  intros A B. replace 0 with (0 - 0) by ring. apply (iv_integral 1 _ (fun t => Rpower t a * Rpower (1 - t) b) 0 0 Rlt_0_1).
  - intros x X. unfold bk. replace (a + 1 - 1) with a by ring. replace (b + 1 - 1) with b by ring. pose proof (Rpower_derive x a ltac:(lra)) as D1. pose proof (Rpower_derive1 x b ltac:(lra)) as D2.
    pose proof (is_derive_mult (fun t => Rpower t a) (fun t => Rpower (1 - t) b) x _ _ D1 D2 (fun n m => Rmult_comm n m)) as D. cbn in D.
    replace (a * (Rpower x (a - 1) * Rpower (1 - x) b) + - b * (Rpower x a * Rpower (1 - x) (b - 1))) with (plus (mult (a * Rpower x (a - 1)) (Rpower (1 - x) b)) (mult (Rpower x a) (- (b * Rpower (1 - x) (b - 1))))); [exact D|].
    change (a * Rpower x (a - 1) * Rpower (1 - x) b + Rpower x a * - (b * Rpower (1 - x) (b - 1)) = a * (Rpower x (a - 1) * Rpower (1 - x) b) + - b * (Rpower x a * Rpower (1 - x) (b - 1))). ring.
  - intros x X. apply (ex_derive_continuous (fun t => a * bk a (b + 1) t + - b * bk (a + 1) b t)). unfold bk, Rpower. auto_derive. repeat split; lra.
  - apply (filterlim_le_le (fun _ => 0) (fun t => Rpower t a * Rpower (1 - t) b) (fun t => Rpower t a) (Finite 0)).
    + exists (mkposreal 1 Rlt_0_1). intros x Bx X. change (Rabs (x - 0) < 1) in Bx. rewrite Rminus_0_r in Bx. apply Rabs_def2 in Bx. assert (0 < Rpower x a) by apply exp_pos. assert (0 < Rpower (1 - x) b) by apply exp_pos.
      assert (Rpower (1 - x) b <= 1) by (apply Rpower_small; lra). split; nra.
    + apply filterlim_const.
    + apply Rpower_lim_0, A.
  - apply (filterlim_le_le (fun _ => 0) (fun t => Rpower t a * Rpower (1 - t) b) (fun t => Rpower (1 - t) b) (Finite 0)).
    + exists (mkposreal 1 Rlt_0_1). intros x Bx X. change (Rabs (x - 1) < 1) in Bx. apply Rabs_def2 in Bx. assert (0 < Rpower x a) by apply exp_pos. assert (0 < Rpower (1 - x) b) by apply exp_pos.
      assert (Rpower x a <= 1) by (apply Rpower_small; lra). split; nra.
    + apply filterlim_const.
    + apply Rpower_lim_1, B.
Qed.
Lemma Rpower_succ x c : 0 < x -> Rpower x c = x * Rpower x (c - 1).
Proof. intros X. rewrite <- (Rpower_1 x) at 2 by exact X. rewrite <- Rpower_plus. f_equal. ring. Qed.
Lemma bk_recursion a b v w : 0 < a -> 0 < b -> interval 1 (bk a b) v -> interval 1 (bk (a + 1) b) w -> w = a / (a + b) * v.
Proof.
  intros A B V W.
  assert (U : interval 1 (bk a (b + 1)) (v + -1 * w)).
  { apply (iv_ext 1 (fun t => bk a b t + -1 * bk (a + 1) b t) _ _ Rlt_0_1); [|apply iv_plus; [exact V|apply iv_scal, W]]. intros x X. unfold bk. replace (a + 1 - 1) with a by ring. replace (b + 1 - 1) with b by ring. rewrite (Rpower_succ x a), (Rpower_succ (1 - x) b) by lra. ring. }
  pose proof (iv_plus 1 _ _ _ _ (iv_scal 1 _ a _ U) (iv_scal 1 _ (- b) _ W)) as S. pose proof (iv_unique 1 _ _ _ S (bk_boundary a b A B)) as E. apply (Rmult_eq_reg_l (a + b)); [|lra]. field_simplify; lra.
Qed.
Lemma bk_one b : 0 < b -> interval 1 (bk 1 b) (/ b).
Proof.
  intros B. apply (iv_ext 1 (fun t => Rpower (1 - t) (b - 1)) _ _ Rlt_0_1); [intros x X; unfold bk; replace (1 - 1) with 0 by ring; rewrite Rpower_O by lra; ring|].
  replace (/ b) with (- / b * 0 - - / b * 1) by ring. apply (iv_integral 1 _ (fun t => - / b * Rpower (1 - t) b) _ _ Rlt_0_1).
  - intros x X. replace (Rpower (1 - x) (b - 1)) with (- / b * - (b * Rpower (1 - x) (b - 1))) by (field; lra). apply (is_derive_scal (fun x => Rpower (1 - x) b) x (- / b)), Rpower_derive1. lra.
  - intros x X. apply Rpower_cont1. lra.
  - apply (filterlim_comp _ _ _ (fun t => Rpower (1 - t) b) (fun y => - / b * y) _ (locally 1)); [|apply (continuous_scal_r (V := R_NormedModule) (- / b) (fun y => y)), continuous_id].
    assert (E1 : Rpower (1 - 0) b = 1) by (rewrite Rminus_0_r; unfold Rpower; rewrite ln_1, Rmult_0_r; apply exp_0). pose proof (Rpower_cont1 0 b Rlt_0_1) as K. unfold continuous in K. rewrite E1 in K.
    intros Q HQ. destruct (K Q HQ) as [e He]. exists e. intros y By _. exact (He y By).
  - apply (filterlim_comp _ _ _ (fun t => Rpower (1 - t) b) (fun y => - / b * y) _ (locally 0)); [apply Rpower_lim_1, B|]. apply (continuous_scal_r (V := R_NormedModule) (- / b) (fun y => y)), continuous_id.
Qed.
Lemma bk_whole b n : 0 < b -> exists v, interval 1 (bk (INR (S n)) b) v /\ 0 < v.
Proof.
  intros B. induction n as [|n [v [H P]]]; [exists (/ b); split; [exact (bk_one b B)|apply Rinv_0_lt_compat, B]|].
  assert (N : 0 < INR (S n)) by (apply lt_0_INR; lia). rewrite (S_INR (S n)). destruct (bk_converges (INR (S n) + 1) b ltac:(lra) B) as [w W]. exists w. split; [exact W|].
  rewrite (bk_recursion _ b v w N B H W). apply Rmult_lt_0_compat; [apply Rdiv_lt_0_compat; lra|exact P].
Qed.
Lemma above a : exists n, a <= INR (S n).
Proof. exists (Z.to_nat (up a)). destruct (archimed a) as [U _]. rewrite S_INR, INR_IZR_INZ. assert (K : (up a <= Z.of_nat (Z.to_nat (up a)))%Z) by lia. apply IZR_le in K. lra. Qed.
Lemma bk_integral_pos a b v : 0 < a -> 0 < b -> interval 1 (bk a b) v -> 0 < v.
Proof.
  intros A B H. destruct (above a) as [n Hn]. destruct (bk_whole b n B) as [w [W P]]. apply Rlt_le_trans with w; [exact P|]. eapply Rle_trans; [apply Rle_abs|]. apply (iv_norm 1 (bk (INR (S n)) b) (bk a b) _ _ Rlt_0_1); [|exact W|exact H].
  intros x X. rewrite Rabs_pos_eq by (apply Rlt_le, bk_pos). unfold bk. apply Rmult_le_compat_r; [apply Rlt_le, exp_pos|]. apply Rpower_le_1; lra.
Qed.

(** ---- log-convexity of integrals of exponentials ---- *)
Lemma exp_convex th u v : 0 <= th <= 1 -> exp (th * u + (1 - th) * v) <= th * exp u + (1 - th) * exp v.
Proof.
  intros T. set (m := th * u + (1 - th) * v). pose proof (exp_pos m) as P.
  assert (K : forall x, exp m * (1 + (x - m)) <= exp x) by (intros x; replace (exp x) with (exp m * exp (x - m)) by (rewrite <- exp_plus; f_equal; ring); apply Rmult_le_compat_l; [lra|apply exp_ineq1_le]).
  pose proof (K u) as Ku. pose proof (K v) as Kv. apply (Rmult_le_compat_l th) in Ku; [|lra]. apply (Rmult_le_compat_l (1 - th)) in Kv; [|lra].
  assert (E : th * (exp m * (1 + (u - m))) + (1 - th) * (exp m * (1 + (v - m))) = exp m) by (unfold m; ring). lra.
Qed.
Section LogConvex.
Variable Int : (R -> R) -> R -> Prop.
Variable D : R -> Prop.
Hypotheses (Hscal : forall f c v, Int f v -> Int (fun x => c * f x) (c * v)) (Hplus : forall f g v w, Int f v -> Int g w -> Int (fun x => f x + g x) (v + w))
  (Hle : forall f g v w, (forall x, D x -> Rabs (f x) <= g x) -> Int f v -> Int g w -> Rabs v <= w).
Variables (L w : R -> R).
Hypothesis Hw : forall x, D x -> 0 <= w x.
Lemma log_convex x y z th gx gy gz : 0 <= th <= 1 -> z = th * x + (1 - th) * y -> 0 < gx -> 0 < gy -> 0 < gz ->
  Int (fun t => exp (x * L t) * w t) gx -> Int (fun t => exp (y * L t) * w t) gy -> Int (fun t => exp (z * L t) * w t) gz -> ln gz <= th * ln gx + (1 - th) * ln gy.
Proof.
  intros T -> Px Py Pz Hx Hy Hz. set (c := th * ln gx + (1 - th) * ln gy).
  assert (B : Rabs (exp (- c) * gz) <= th * / gx * gx + (1 - th) * / gy * gy).
  { apply (Hle (fun t => exp (- c) * (exp ((th * x + (1 - th) * y) * L t) * w t)) (fun t => th * / gx * (exp (x * L t) * w t) + (1 - th) * / gy * (exp (y * L t) * w t))).
    - intros t Dt. pose proof (Hw t Dt) as W. pose proof (exp_pos (- c)). pose proof (exp_pos ((th * x + (1 - th) * y) * L t)). rewrite Rabs_pos_eq by (apply Rmult_le_pos; [lra|apply Rmult_le_pos; lra]).
      pose proof (exp_convex th (x * L t - ln gx) (y * L t - ln gy) T) as Q. replace (th * (x * L t - ln gx) + (1 - th) * (y * L t - ln gy)) with (- c + (th * x + (1 - th) * y) * L t) in Q by (unfold c; ring).
      rewrite exp_plus in Q. unfold Rminus in Q at 2 4. rewrite !exp_plus, !exp_Ropp, !exp_ln in Q by assumption. apply (Rmult_le_compat_r (w t)) in Q; [|exact W]. rewrite (exp_Ropp c). lra.
    - apply Hscal, Hz.
    - apply Hplus; apply Hscal; assumption. }
  replace (th * / gx * gx + (1 - th) * / gy * gy) with 1 in B by (field; lra). pose proof (exp_pos (- c)) as E. rewrite Rabs_pos_eq in B by nra.
  apply (Rmult_le_compat_l (exp c)) in B; [|apply Rlt_le, exp_pos]. rewrite <- Rmult_assoc, <- exp_plus, Rplus_opp_r, exp_0, Rmult_1_l, Rmult_1_r in B. rewrite <- (ln_exp c). destruct B as [B|B]; [left; apply ln_increasing; assumption|rewrite B; lra].
Qed.
End LogConvex.
(** ---- the theorem of Bohr and Mollerup ---- *)
Definition gammalike (F : R -> R) : Prop := F 1 = 0 /\ (forall x, 0 < x -> F (x + 1) = F x + ln x) /\
  forall x y th, 0 < x -> 0 < y -> 0 <= th <= 1 -> F (th * x + (1 - th) * y) <= th * F x + (1 - th) * F y.
Lemma gammalike_bounds F n x : gammalike F -> 0 < x <= 1 -> let N := INR (S (S n)) in F N + x * ln (N - 1) <= F (N + x) <= F N + x * ln N.
Proof.
  intros [F1 [FR FC]] X N. assert (HN : 2 <= N) by (unfold N; rewrite !S_INR; pose proof (pos_INR n); lra). split.
  - pose proof (FC (N + x) (N - 1) (/ (1 + x)) ltac:(lra) ltac:(lra)) as H. assert (I : 0 < / (1 + x)) by (apply Rinv_0_lt_compat; lra). assert (J : / (1 + x) <= 1) by (rewrite <- Rinv_1; apply Rinv_le_contravar; lra). specialize (H ltac:(lra)).
    replace (/ (1 + x) * (N + x) + (1 - / (1 + x)) * (N - 1)) with N in H by (field; lra). pose proof (FR (N - 1) ltac:(lra)) as Q. replace (N - 1 + 1) with N in Q by ring.
    apply (Rmult_le_compat_l (1 + x)) in H; [|lra]. replace ((1 + x) * (/ (1 + x) * F (N + x) + (1 - / (1 + x)) * F (N - 1))) with (F (N + x) + x * F (N - 1)) in H by (field; lra). nra.
  - pose proof (FC (N + 1) N x ltac:(lra) ltac:(lra) ltac:(lra)) as H. rewrite (FR N) in H by lra. replace (x * (N + 1) + (1 - x) * N) with (N + x) in H by ring. lra.
Qed.
Lemma gammalike_whole F G n : gammalike F -> gammalike G -> F (INR (S n)) = G (INR (S n)).
Proof. intros [F1 [FR _]] [G1 [GR _]]. induction n as [|n IH]; [cbn; rewrite F1, G1; reflexivity|]. rewrite (S_INR (S n)), FR, GR, IH by (apply lt_0_INR; lia). reflexivity. Qed.
Lemma gammalike_shift F G x n : gammalike F -> gammalike G -> 0 < x -> F (INR n + x) - G (INR n + x) = F x - G x.
Proof.
  intros HF HG X. induction n as [|n IH]; [cbn; rewrite Rplus_0_l; reflexivity|]. rewrite S_INR. replace (INR n + 1 + x) with (INR n + x + 1) by ring. destruct HF as [_ [FR _]], HG as [_ [GR _]]. rewrite FR, GR by (pose proof (pos_INR n); lra). lra.
Qed.
Lemma small_zero y : 0 <= y -> (forall n, y <= / INR (S n)) -> y = 0.
Proof.
  intros Y H. destruct Y as [Y|Y]; [|congruence]. exfalso. destruct (above (/ y + 1)) as [n Hn]. pose proof (H n) as Q. pose proof (Rinv_0_lt_compat y Y). assert (P : 0 < INR (S n)) by lra.
  apply (Rmult_le_compat_l (INR (S n))) in Q; [|lra]. rewrite Rinv_r in Q by lra. assert (K : / y * y = 1) by (field; lra). nra.
Qed.
Lemma gammalike_unit F G x : gammalike F -> gammalike G -> 0 < x <= 1 -> F x = G x.
Proof.
  intros HF HG X. assert (Z : Rabs (F x - G x) = 0); [|unfold Rabs in Z; destruct (Rcase_abs (F x - G x)); lra]. apply small_zero; [apply Rabs_pos|]. intros n. set (N := INR (S (S n))).
  assert (HN : N = INR (S n) + 1) by apply S_INR. assert (P : 0 < INR (S n)) by (apply lt_0_INR; lia). rewrite <- (gammalike_shift F G x (S (S n)) HF HG) by lra. fold N.
  pose proof (gammalike_bounds F n x HF X) as BF. pose proof (gammalike_bounds G n x HG X) as BG. cbv zeta in BF, BG. fold N in BF, BG. pose proof (gammalike_whole F G (S n) HF HG) as E. fold N in E. rewrite E in BF.
  assert (L : ln N - ln (N - 1) <= / INR (S n)).
  { replace (ln N - ln (N - 1)) with (ln (N / (N - 1))) by (unfold Rdiv; rewrite ln_mult, ln_Rinv by (try apply Rinv_0_lt_compat; lra); ring). eapply Rle_trans; [apply ln_le_minus; apply Rdiv_lt_0_compat; lra|]. right. rewrite HN. field. lra. }
  assert (L0 : ln (N - 1) <= ln N) by (left; apply ln_increasing; lra). apply Rabs_le. split; nra.
Qed.
Lemma gammalike_unique F G x : gammalike F -> gammalike G -> 0 < x -> F x = G x.
Proof.
  intros HF HG X. assert (K : forall n x, 0 < x <= INR n + 1 -> F x = G x).
  { intros n. induction n as [|n IH]; intros y Y; [cbn in Y; apply gammalike_unit; [exact HF|exact HG|lra]|]. destruct (Rle_dec y (INR n + 1)) as [L|L]; [apply IH; lra|]. pose proof (pos_INR n). rewrite S_INR in Y.
    pose proof (IH (y - 1) ltac:(lra)) as E. destruct HF as [_ [FR _]], HG as [_ [GR _]]. pose proof (FR (y - 1) ltac:(lra)) as Q1. pose proof (GR (y - 1) ltac:(lra)) as Q2. replace (y - 1 + 1) with y in Q1, Q2 by ring. lra. }
  destruct (above x) as [n Hn]. rewrite S_INR in Hn. apply (K n). lra.
Qed.

(** ---- the beta function is the quotient of gamma functions ---- *)
Lemma exp_total : half_line (ker 1) 1.
Proof.
  replace 1 with (0 - -1) at 2 by ring. apply (half_ext (fun x => exp (- x))); [intros x X; unfold ker; replace (1 - 1) with 0 by ring; rewrite Rpower_O by exact X; ring|]. apply (half_line_integral _ (fun x => - exp (- x))).
  - intros x X. auto_derive; [exact I|]. ring.
  - intros x X. apply (ex_derive_continuous (fun x => exp (- x))). auto_derive. exact I.
  - assert (K : continuous (fun x => - exp (- x)) 0) by (apply (ex_derive_continuous (fun x => - exp (- x))); auto_derive; exact I). unfold continuous in K. rewrite Ropp_0, exp_0 in K. intros Q HQ. destruct (K Q HQ) as [e He]. exists e. intros y By _. exact (He y By).
  - replace 0 with (- 0) by ring. apply (filterlim_comp _ _ _ (fun x => exp (- x)) Ropp _ (locally 0)); [|apply (continuous_opp (V := R_NormedModule) (fun x => x)), continuous_id].
    apply (filterlim_le_le (fun _ => 0) (fun x => exp (- x)) (fun x => exp (- x / 2)) (Finite 0)); [|apply filterlim_const|exact exp_half_lim]. exists 0. intros x X. pose proof (exp_pos (- x)). split; [lra|]. left. apply exp_increasing. lra.
Qed.
Section Beta.
Variable LG : R -> R.
Hypothesis HL : log_gamma LG.
Lemma LG_succ a : 0 < a -> LG (a + 1) = LG a + ln a.
Proof.
  intros A. pose proof (ker_mean a _ A (HL a A)) as H. assert (K : half_line (fun x => x * ker a x) (exp (LG (a + 1)))).
  { eapply half_ext; [|exact (HL (a + 1) ltac:(lra))]. intros x X. cbv beta. unfold ker. rewrite <- Rmult_assoc. f_equal. replace (a + 1 - 1) with a by ring. apply Rpower_succ, X. }
  pose proof (half_unique _ _ _ H K) as E. apply (f_equal ln) in E. rewrite ln_exp, ln_mult, ln_exp in E by (try exact A; apply exp_pos). lra.
Qed.
Lemma LG_gammalike : gammalike LG.
Proof.
  split; [|split].
  - pose proof (half_unique _ _ _ (HL 1 Rlt_0_1) exp_total) as E. apply (f_equal ln) in E. rewrite ln_exp, ln_1 in E. exact E.
  - exact LG_succ.
  - intros x y th X Y T. assert (Z : 0 < th * x + (1 - th) * y) by (destruct (Req_dec th 0) as [->|]; [lra|]; assert (0 < th * x) by (apply Rmult_lt_0_compat; lra); assert (0 <= (1 - th) * y) by (apply Rmult_le_pos; lra); lra).
    pose proof (log_convex half_line (fun x => 0 < x) half_scal half_plus half_norm ln (fun t => / t * exp (- t))) as K.
    assert (W : forall t, 0 < t -> 0 <= / t * exp (- t)) by (intros t Ht; apply Rlt_le, Rmult_lt_0_compat; [apply Rinv_0_lt_compat, Ht|apply exp_pos]).
    assert (Q : forall a, 0 < a -> half_line (fun t => exp (a * ln t) * (/ t * exp (- t))) (exp (LG a))).
    { intros a A. eapply half_ext; [|exact (HL a A)]. intros t Ht. cbv beta. fold (Rpower t a). rewrite (Rpower_succ t a Ht). field. lra. }
    specialize (K W x y (th * x + (1 - th) * y) th _ _ _ T eq_refl (exp_pos _) (exp_pos _) (exp_pos _) (Q x X) (Q y Y) (Q _ Z)). rewrite !ln_exp in K. exact K.
Qed.
Lemma beta_value a b : 0 < a -> 0 < b -> interval 1 (bk a b) (exp (LG a + LG b - LG (a + b))).
Proof.
  intros A B. set (Bt := fun a => RInt_gen (bk a b) (at_right 0) (at_left 1)).
  assert (HB : forall a, 0 < a -> interval 1 (bk a b) (Bt a)) by (intros x X; apply (RInt_gen_correct (V := R_CompleteNormedModule)); exact (bk_converges x b X B)).
  assert (PB : forall a, 0 < a -> 0 < Bt a) by (intros x X; exact (bk_integral_pos x b _ X B (HB x X))).
  assert (K : gammalike (fun a => ln (Bt a) + LG (a + b) - LG b)).
  { destruct LG_gammalike as [L1 [LR LC]]. split; [|split].
    - rewrite (iv_unique 1 _ _ _ (HB 1 Rlt_0_1) (bk_one b B)), ln_Rinv by exact B. rewrite (Rplus_comm 1 b), LG_succ by exact B. ring.
    - intros x X. cbv beta. rewrite (bk_recursion x b _ _ X B (HB x X) (HB (x + 1) ltac:(lra))). unfold Rdiv. rewrite !ln_mult, ln_Rinv; try lra; [|apply Rinv_0_lt_compat; lra|apply Rmult_lt_0_compat; [lra|apply Rinv_0_lt_compat; lra]|apply PB, X].
      replace (x + 1 + b) with (x + b + 1) by ring. rewrite LG_succ by lra. ring.
    - intros x y th X Y T. cbv beta. assert (Z : 0 < th * x + (1 - th) * y) by (destruct (Req_dec th 0) as [->|]; [lra|]; assert (0 < th * x) by (apply Rmult_lt_0_compat; lra); assert (0 <= (1 - th) * y) by (apply Rmult_le_pos; lra); lra).
      pose proof (LC (x + b) (y + b) th ltac:(lra) ltac:(lra) T) as K1. replace (th * (x + b) + (1 - th) * (y + b)) with (th * x + (1 - th) * y + b) in K1 by ring.
      pose proof (log_convex (interval 1) (fun x => 0 < x < 1) (iv_scal 1) (iv_plus 1) (fun f g v w => iv_norm 1 f g v w Rlt_0_1) ln (fun t => / t * Rpower (1 - t) (b - 1))) as K2.
      assert (W : forall t, 0 < t < 1 -> 0 <= / t * Rpower (1 - t) (b - 1)) by (intros t Ht; apply Rlt_le, Rmult_lt_0_compat; [apply Rinv_0_lt_compat; lra|apply exp_pos]).
      assert (Q : forall a, 0 < a -> interval 1 (fun t => exp (a * ln t) * (/ t * Rpower (1 - t) (b - 1))) (Bt a)).
      { intros p P. eapply (iv_ext 1 _ _ _ Rlt_0_1); [|exact (HB p P)]. intros t Ht. cbv beta. fold (Rpower t p). rewrite (Rpower_succ t p) by lra. unfold bk. field. lra. }
      specialize (K2 W x y (th * x + (1 - th) * y) th _ _ _ T eq_refl (PB x X) (PB y Y) (PB _ Z) (Q x X) (Q y Y) (Q _ Z)). lra. }
  pose proof (gammalike_unique _ _ a K LG_gammalike A) as E. cbv beta in E. replace (LG a + LG b - LG (a + b)) with (ln (Bt a)) by lra. rewrite exp_ln by (apply PB, A). apply HB, A.
Qed.
Variable PSI : R -> R.
Hypothesis HP : digamma_of LG PSI.
Lemma beta_log a b : 0 < a -> 0 < b -> interval 1 (fun t => ln t * bk a b t) (exp (LG a + LG b - LG (a + b)) * (PSI a - PSI (a + b))).
Proof.
  intros A B. destruct (ln_bk_converges a b A B) as [v H].
  assert (D : is_derive (fun a => exp (LG a + LG b - LG (a + b))) a v) by (apply (beta_derive _ a b v A B); [intros x X; apply beta_value; assumption|exact H]).
  assert (D' : is_derive (fun a => exp (LG a + LG b - LG (a + b))) a (exp (LG a + LG b - LG (a + b)) * (PSI a - PSI (a + b)))).
  { pose proof (HP a A) as Q1. pose proof (HP (a + b) ltac:(lra)) as Q2. auto_derive; [repeat split; [exists (PSI a); exact Q1|exists (PSI (a + b)); exact Q2]|]. change (fun x => LG x) with LG. rewrite (is_derive_unique LG a _ Q1), (is_derive_unique LG (a + b) _ Q2). replace (LG a + LG b + - LG (a + b)) with (LG a + LG b - LG (a + b)) by ring. idtac. ring. }
  rewrite <- (is_derive_unique _ _ _ D'), (is_derive_unique _ _ _ D). exact H.
Qed.
(** on (0, r) *)
Definition bkr (r a b t : R) : R := Rpower t (a - 1) * Rpower (r - t) (b - 1).
Lemma bkr_scale r a b t : 0 < r -> 0 < t < r -> bkr r a b t = Rpower r (a + b - 1) * (/ r * bk a b (t / r)).
Proof.
  intros Hr T. unfold bkr, bk. assert (Q : 0 < t / r) by (apply Rdiv_lt_0_compat; lra). assert (S : 0 < 1 - t / r) by (replace (1 - t / r) with ((r - t) / r) by (field; lra); apply Rdiv_lt_0_compat; lra).
  replace t with (r * (t / r)) at 1 by (field; lra). replace (r - t) with (r * (1 - t / r)) by (field; lra). rewrite <- !Rpower_mult_distr by assumption.
  replace (Rpower r (a + b - 1)) with (r * (Rpower r (a - 1) * Rpower r (b - 1))); [field; lra|]. rewrite <- (Rpower_1 r) at 1 by exact Hr. rewrite <- !Rpower_plus. f_equal. ring.
Qed.
Lemma beta_r r a b : 0 < r -> 0 < a -> 0 < b -> interval r (bkr r a b) (exp (LG a + LG b - LG (a + b)) * Rpower r (a + b - 1)).
Proof.
  intros Hr A B. pose proof (iv_scal r _ (Rpower r (a + b - 1)) _ (iv_scale r _ _ Hr (beta_value a b A B))) as H. rewrite Rmult_comm. eapply (iv_ext r _ _ _ Hr); [|exact H]. intros t T. symmetry. apply bkr_scale; assumption.
Qed.
Lemma beta_ln_r r a b : 0 < r -> 0 < a -> 0 < b -> interval r (fun t => ln t * bkr r a b t) (exp (LG a + LG b - LG (a + b)) * Rpower r (a + b - 1) * (PSI a - PSI (a + b) + ln r)).
Proof.
  intros Hr A B. pose proof (iv_plus r _ _ _ _ (iv_scal r _ (Rpower r (a + b - 1)) _ (iv_scale r _ _ Hr (beta_log a b A B))) (iv_scal r _ (ln r) _ (beta_r r a b Hr A B))) as H.
  match type of H with interval _ _ ?v => replace v with (exp (LG a + LG b - LG (a + b)) * Rpower r (a + b - 1) * (PSI a - PSI (a + b) + ln r)) in H by ring end.
  eapply (iv_ext r _ _ _ Hr); [|exact H]. intros t T. cbv beta. rewrite (bkr_scale r a b t Hr T). unfold Rdiv at 1. rewrite ln_mult, ln_Rinv by (try apply Rinv_0_lt_compat; lra). ring.
Qed.
Lemma beta_ln1_r r a b : 0 < r -> 0 < a -> 0 < b -> interval r (fun t => ln (r - t) * bkr r a b t) (exp (LG a + LG b - LG (a + b)) * Rpower r (a + b - 1) * (PSI b - PSI (a + b) + ln r)).
Proof.
  intros Hr A B. pose proof (iv_reflect r _ _ (beta_ln_r r b a Hr B A)) as H. rewrite (Rplus_comm b a), (Rplus_comm (LG b)) in H. eapply (iv_ext r _ _ _ Hr); [|exact H]. intros t T. cbv beta. unfold bkr. replace (r - (r - t)) with t by ring. ring.
Qed.
End Beta.
