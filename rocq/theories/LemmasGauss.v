(** The Gaussian integral, its first moments, and expectations under the normal density. *)
From Coq Require Import Reals List Arith Lia Lra.
From Coquelicot Require Import Coquelicot.
From Verif Require Import RSum SpecExpFam SpecIntegral.
Import List ListNotations.
Open Scope R_scope.
Set Bullet Behavior "Strict Subproofs".
Ltac req := match goal with |- @eq _ ?a ?b => change (@eq R a b) end.

(** ---- integrals over the line from antiderivatives ---- *)
Lemma line_integral (f F : R -> R) la lb :
  (forall x, is_derive F x (f x)) -> (forall x, continuous f x) -> is_lim F m_infty (Finite la) -> is_lim F p_infty (Finite lb) ->
  line f (lb - la).
Proof.
  intros D C A B.
  assert (E : forall x, Derive F x = f x) by (intros x; apply is_derive_unique, D).
  apply (is_RInt_gen_ext (V := R_NormedModule) (Derive F) f (lb - la)).
  - apply filter_forall. intros ab x _. apply E.
  - apply (is_RInt_gen_Derive F la lb).
    + apply filter_forall. intros ab x _. exists (f x). apply D.
    + apply filter_forall. intros ab x _. apply (continuous_ext f); [intros y; symmetry; apply E|apply C].
    + exact A.
    + exact B.
Qed.

(** affine change of variables *)
Lemma line_affine (f : R -> R) l u v : 0 < u ->
  is_RInt_gen f (Rbar_locally m_infty) (Rbar_locally p_infty) l ->
  is_RInt_gen (fun x => u * f (u * x + v)) (Rbar_locally m_infty) (Rbar_locally p_infty) l.
Proof.
  intros U H P HP. specialize (H P HP). unfold filtermapi in *.
  destruct H as [Q S [M Q'] [N S'] H].
  apply (Filter_prod _ _ _ (fun a => Q (u * a + v)) (fun b => S (u * b + v))).
  - exists ((M - v) / u). intros x Hx. apply Q'. apply (Rmult_lt_compat_l u) in Hx; [|exact U]. replace (u * ((M - v) / u)) with (M - v) in Hx by (field; lra). lra.
  - exists ((N - v) / u). intros x Hx. apply S'. apply (Rmult_lt_compat_l u) in Hx; [|exact U]. replace (u * ((N - v) / u)) with (N - v) in Hx by (field; lra). lra.
  - intros a b Qa Sb. destruct (H _ _ Qa Sb) as [y [Hy Py]]. exists y. split; [|exact Py]. cbn [fst snd] in *.
    apply (is_RInt_comp_lin f u v a b y). exact Hy.
Qed.

(** ---- the Gaussian integral ---- *)
Definition gau (t : R) : R := exp (- (t * t)).
Definition Gau (x : R) : R := RInt gau 0 x.
Lemma gau_cont t : continuous gau t.
Proof. apply (ex_derive_continuous gau). unfold gau. auto_derive. exact I. Qed.
Lemma gau_int a b : ex_RInt gau a b.
Proof. apply (ex_RInt_continuous (V := R_CompleteNormedModule)). intros z _. apply gau_cont. Qed.
Lemma Gau_derive x : is_derive Gau x (gau x).
Proof.
  unfold Gau. apply (is_derive_RInt gau (fun b => RInt gau 0 b) 0 x).
  - apply filter_forall. intros b. apply (RInt_correct (V := R_CompleteNormedModule)), gau_int.
  - apply gau_cont.
Qed.
Lemma Gau_0 : Gau 0 = 0.
Proof. unfold Gau. apply (RInt_point (V := R_CompleteNormedModule)). Qed.

Definition hk (x t : R) : R := exp (- (x * x) * (1 + t * t)) / (1 + t * t).
Lemma den_pos t : 0 < 1 + t * t.
Proof. nra. Qed.
Lemma hk_derive x t : is_derive (fun u => hk u t) x (- 2 * x * exp (- (x * x) * (1 + t * t))).
Proof. unfold hk. auto_derive; [exact I|]. pose proof (den_pos t). field. lra. Qed.
Lemma hk_cont x t : continuous (fun t => hk x t) t.
Proof. apply (ex_derive_continuous (fun t => hk x t)). unfold hk. auto_derive. pose proof (den_pos t). lra. Qed.
Definition Hk (x : R) : R := RInt (fun t => hk x t) 0 1.
Lemma hk_int x : ex_RInt (fun t => hk x t) 0 1.
Proof. apply (ex_RInt_continuous (V := R_CompleteNormedModule)). intros z _. apply hk_cont. Qed.
Lemma Hk_derive x : is_derive Hk x (RInt (fun t => - 2 * x * exp (- (x * x) * (1 + t * t))) 0 1).
Proof.
  unfold Hk.
  assert (E : forall u t, Derive (fun z => hk z t) u = - 2 * u * exp (- (u * u) * (1 + t * t))) by (intros; apply is_derive_unique, hk_derive).
  rewrite (RInt_ext _ (fun t => Derive (fun u => hk u t) x)) by (intros; symmetry; apply E).
  apply is_derive_RInt_param.
  - apply filter_forall. intros u t _. eexists. apply hk_derive.
  - intros t _. apply (continuity_2d_pt_ext (fun u v => - 2 * u * exp (- (u * u) * (1 + v * v)))); [intros; symmetry; apply E|].
    apply (continuity_2d_pt_mult (fun u v => - 2 * u) (fun u v => exp (- (u * u) * (1 + v * v)))).
    + apply (continuity_2d_pt_mult (fun u v => - 2) (fun u v => u)); [apply continuity_2d_pt_const|apply continuity_2d_pt_id1].
    + apply (continuity_1d_2d_pt_comp exp (fun u v => - (u * u) * (1 + v * v))).
      * apply derivable_continuous_pt, derivable_pt_exp.
      * apply (continuity_2d_pt_mult (fun u v => - (u * u)) (fun u v => 1 + v * v)).
        -- apply (continuity_2d_pt_opp (fun u v => u * u)). apply (continuity_2d_pt_mult (fun u v => u) (fun u v => u)); apply continuity_2d_pt_id1.
        -- apply (continuity_2d_pt_plus (fun u v => 1) (fun u v => v * v)); [apply continuity_2d_pt_const|].
           apply (continuity_2d_pt_mult (fun u v => v) (fun u v => v)); apply continuity_2d_pt_id2.
  - apply filter_forall. intros u. apply hk_int.
Qed.
Lemma Hk_derive' x : is_derive Hk x (- 2 * gau x * Gau x).
Proof.
  replace (- 2 * gau x * Gau x) with (RInt (fun t => - 2 * x * exp (- (x * x) * (1 + t * t))) 0 1); [apply Hk_derive|].
  apply is_RInt_unique.
  apply (is_RInt_ext (fun t => (- 2 * gau x) * (x * gau (x * t + 0)))).
  - intros t _. unfold gau. replace (- (x * x) * (1 + t * t)) with (- (x * x) + - ((x * t + 0) * (x * t + 0))) by ring. rewrite exp_plus. req. ring.
  - apply (is_RInt_scal (V := R_NormedModule) (fun t => x * gau (x * t + 0)) 0 1 (- 2 * gau x) (Gau x)).
    apply (is_RInt_comp_lin (V := R_NormedModule) gau x 0 0 1 (Gau x)).
    rewrite Rmult_0_r, Rmult_1_r, !Rplus_0_r. unfold Gau. apply (RInt_correct (V := R_CompleteNormedModule)), gau_int.
Qed.
Lemma Gau_Hk x : Gau x * Gau x + Hk x = PI / 4.
Proof.
  assert (D : forall t, is_derive (fun t => Gau t * Gau t + Hk t) t 0).
  { intros t. replace 0 with (plus (plus (mult (gau t) (Gau t)) (mult (Gau t) (gau t))) (- 2 * gau t * Gau t)) by (unfold plus, mult; cbn; ring).
    apply (is_derive_plus (fun t => Gau t * Gau t) Hk); [|apply Hk_derive'].
    apply (is_derive_mult Gau Gau); [apply Gau_derive|apply Gau_derive|intros n m; unfold mult; cbn; ring]. }
  assert (E : Gau x * Gau x + Hk x = Gau 0 * Gau 0 + Hk 0).
  { destruct (Req_dec x 0) as [->|N]; [reflexivity|].
    destruct (MVT_gen (fun t => Gau t * Gau t + Hk t) 0 x (fun _ => 0)) as [c [_ Hc]].
    - intros t _. apply D.
    - intros t _. apply (continuity_pt_filterlim (fun t => Gau t * Gau t + Hk t)). apply (ex_derive_continuous (fun t => Gau t * Gau t + Hk t)). exists 0. apply D.
    - lra. }
  rewrite E, Gau_0. unfold Hk.
  rewrite (RInt_ext _ (fun t => / (1 + t ^ 2))).
  - assert (I : is_RInt (fun t => / (1 + t ^ 2)) 0 1 (atan 1 - atan 0)).
    { apply (is_RInt_derive atan (fun t => / (1 + t ^ 2))).
      - intros t _. pose proof (is_derive_Reals atan t (/ (1 + t ^ 2))) as [_ Q]. apply Q. apply derivable_pt_lim_atan.
      - intros t _. apply (ex_derive_continuous (fun t => / (1 + t ^ 2))). auto_derive. nra. }
    apply (is_RInt_unique (V := R_CompleteNormedModule)) in I. rewrite I, atan_0, atan_1. lra.
  - intros t _. unfold hk. replace (- (0 * 0) * (1 + t * t)) with 0 by ring. rewrite exp_0. pose proof (den_pos t). req. field. lra.
Qed.
Lemma Hk_bounds x : 0 <= Hk x <= gau x.
Proof.
  unfold Hk. split.
  - apply RInt_ge_0; [lra|apply hk_int|]. intros t _. unfold hk. apply Rlt_le, Rdiv_lt_0_compat; [apply exp_pos|apply den_pos].
  - replace (gau x) with (RInt (fun _ => gau x) 0 1) by (rewrite RInt_const; unfold scal; cbn; unfold mult; cbn; ring).
    apply RInt_le; [lra|apply hk_int|apply ex_RInt_const|]. intros t _. unfold hk, gau.
    pose proof (exp_pos (- (x * x))). pose proof (den_pos t).
    apply (Rmult_le_reg_r (1 + t * t)); [lra|]. unfold Rdiv. rewrite Rmult_assoc, Rinv_l, Rmult_1_r by lra.
    apply Rle_trans with (exp (- (x * x))); [|nra].
    destruct (Req_dec (x * t) 0) as [Z|Z].
    + right. f_equal. replace (- (x * x) * (1 + t * t)) with (- (x * x) - (x * t) * (x * t)) by ring. rewrite Z. ring.
    + left. apply exp_increasing. nra.
Qed.
Lemma gau_lim_p : is_lim gau p_infty 0.
Proof.
  apply (is_lim_comp exp (fun t => - (t * t)) p_infty 0 m_infty).
  - apply is_lim_exp_m.
  - replace m_infty with (Rbar_opp p_infty) by reflexivity. apply (is_lim_opp (fun t => t * t) p_infty p_infty).
    apply (is_lim_mult (fun t => t) (fun t => t) p_infty p_infty p_infty); [apply is_lim_id|apply is_lim_id|exact I].
  - apply filter_forall. intros y. discriminate.
Qed.
Lemma gau_even t : gau (- t) = gau t.
Proof. unfold gau. f_equal. ring. Qed.
Lemma Gau_pos x : 0 <= x -> 0 <= Gau x.
Proof. intros X. unfold Gau. apply RInt_ge_0; [exact X|apply gau_int|]. intros t _. apply Rlt_le, exp_pos. Qed.
Lemma Gau_lim_p : is_lim Gau p_infty (sqrt PI / 2).
Proof.
  assert (Q : is_lim (fun x => Gau x * Gau x) p_infty (PI / 4)).
  { apply (is_lim_ext (fun x => PI / 4 - Hk x)); [intros x; pose proof (Gau_Hk x); lra|].
    replace (Finite (PI / 4)) with (Finite (PI / 4 - 0)) by (f_equal; lra).
    apply (is_lim_minus' (fun _ => PI / 4) Hk p_infty (PI / 4) 0); [apply is_lim_const|].
    apply (is_lim_le_le_loc (fun _ => 0) gau); [apply filter_forall; intros x; apply Hk_bounds|apply is_lim_const|apply gau_lim_p]. }
  apply (is_lim_ext_loc (fun x => sqrt (Gau x * Gau x))).
  - exists 0. intros x X. apply sqrt_square, Gau_pos. lra.
  - replace (sqrt PI / 2) with (sqrt (PI / 4)).
    + apply (filterlim_comp _ _ _ (fun x => Gau x * Gau x) sqrt _ (locally (PI / 4)) _); [exact Q|].
      apply (continuity_pt_filterlim sqrt). apply continuity_pt_sqrt. pose proof PI_RGT_0. lra.
    + pose proof PI_RGT_0. replace (PI / 4) with (PI / (2 * 2)) by field. unfold Rdiv. rewrite sqrt_mult by (try lra; apply Rlt_le, Rinv_0_lt_compat; lra).
      rewrite sqrt_inv. rewrite sqrt_square by lra. reflexivity.
Qed.
Lemma Gau_odd x : Gau (- x) = - Gau x.
Proof.
  unfold Gau. apply (is_RInt_unique (V := R_CompleteNormedModule)).
  assert (C : is_RInt gau (-1 * 0 + 0) (-1 * - x + 0) (Gau x)).
  { replace (-1 * 0 + 0) with 0 by ring. replace (-1 * - x + 0) with x by ring. unfold Gau. apply (RInt_correct (V := R_CompleteNormedModule)), gau_int. }
  apply (is_RInt_comp_lin (V := R_NormedModule) gau (-1) 0 0 (- x)) in C.
  apply (is_RInt_opp (V := R_NormedModule)) in C.
  eapply is_RInt_ext; [|exact C]. intros t _. change (- (-1 * gau (-1 * t + 0)) = gau t). replace (-1 * t + 0) with (- t) by ring. rewrite gau_even. ring.
Qed.
Lemma Gau_lim_m : is_lim Gau m_infty (- (sqrt PI / 2)).
Proof.
  apply (is_lim_ext (fun x => - Gau (- x))); [intros x; rewrite Gau_odd; ring|].
  apply (is_lim_opp (fun x => Gau (- x)) m_infty (sqrt PI / 2)).
  apply (is_lim_comp Gau (fun x => - x) m_infty (sqrt PI / 2) p_infty); [apply Gau_lim_p| |apply filter_forall; intros; discriminate].
  replace p_infty with (Rbar_opp m_infty) by reflexivity. apply is_lim_opp, is_lim_id.
Qed.
Lemma gau_lim_m : is_lim gau m_infty 0.
Proof.
  apply (is_lim_ext (fun x => gau (- x))); [apply gau_even|].
  apply (is_lim_comp gau (fun x => - x) m_infty 0 p_infty); [apply gau_lim_p| |apply filter_forall; intros; discriminate].
  replace p_infty with (Rbar_opp m_infty) by reflexivity. apply is_lim_opp, is_lim_id.
Qed.
Lemma gau_1_lim_p : is_lim (fun t => t * gau t) p_infty 0.
Proof.
  apply (is_lim_le_le_loc (fun _ => 0) (fun t => - (- t * exp (- t)))); [|apply is_lim_const|].
  - exists 1. intros t T. unfold gau. pose proof (exp_pos (- (t * t))). split; [nra|].
    assert (exp (- (t * t)) <= exp (- t)) by (left; apply exp_increasing; nra). nra.
  - replace (Finite 0) with (Rbar_opp 0) by (cbn; f_equal; ring). apply is_lim_opp.
    apply (is_lim_comp (fun y => y * exp y) (fun t => - t) p_infty 0 m_infty); [apply is_lim_mul_exp_m| |apply filter_forall; intros; discriminate].
    replace m_infty with (Rbar_opp p_infty) by reflexivity. apply is_lim_opp, is_lim_id.
Qed.
Lemma gau_1_lim_m : is_lim (fun t => t * gau t) m_infty 0.
Proof.
  apply (is_lim_ext (fun t => - (- t * gau (- t)))); [intros t; rewrite gau_even; ring|].
  replace (Finite 0) with (Rbar_opp 0) by (cbn; f_equal; ring). apply is_lim_opp.
  apply (is_lim_comp (fun t => t * gau t) (fun x => - x) m_infty 0 p_infty); [apply gau_1_lim_p| |apply filter_forall; intros; discriminate].
  replace p_infty with (Rbar_opp m_infty) by reflexivity. apply is_lim_opp, is_lim_id.
Qed.
(** the integrals of 1, t and t^2 against exp(-t^2) *)
Lemma gau_0_line : line gau (sqrt PI).
Proof.
  replace (sqrt PI) with (sqrt PI / 2 - - (sqrt PI / 2)) by field.
  apply (line_integral gau Gau); [apply Gau_derive|apply gau_cont|apply Gau_lim_m|apply Gau_lim_p].
Qed.
Lemma gau_1_line : line (fun t => t * gau t) 0.
Proof.
  replace 0 with (- / 2 * 0 - - / 2 * 0) at 1 by ring.
  apply (line_integral (fun t => t * gau t) (fun t => - / 2 * gau t)).
  - intros t. unfold gau. auto_derive; [exact I|]. field.
  - intros t. apply (ex_derive_continuous (fun t => t * gau t)). unfold gau. auto_derive. exact I.
  - apply (is_lim_scal_l gau (- / 2) m_infty 0), gau_lim_m.
  - apply (is_lim_scal_l gau (- / 2) p_infty 0), gau_lim_p.
Qed.
Lemma gau_2_line : line (fun t => t * t * gau t) (sqrt PI / 2).
Proof.
  replace (sqrt PI / 2) with ((- / 2 * 0 + / 2 * (sqrt PI / 2)) - (- / 2 * 0 + / 2 * (- (sqrt PI / 2)))) by field.
  apply (line_integral (fun t => t * t * gau t) (fun t => - / 2 * (t * gau t) + / 2 * Gau t)).
  - intros t. replace (t * t * gau t) with (plus (- / 2 * (gau t + t * (- (2 * t) * gau t))) (/ 2 * gau t)) by (unfold plus; cbn; field).
    apply (is_derive_plus (fun t => - / 2 * (t * gau t)) (fun t => / 2 * Gau t)).
    + unfold gau. auto_derive; [exact I|]. field.
    + apply (is_derive_scal Gau t (/ 2) (gau t)), Gau_derive.
  - intros t. apply (ex_derive_continuous (fun t => t * t * gau t)). unfold gau. auto_derive. exact I.
  - apply (is_lim_plus' (fun t => - / 2 * (t * gau t)) (fun t => / 2 * Gau t)).
    + apply (is_lim_scal_l (fun t => t * gau t) (- / 2) m_infty 0), gau_1_lim_m.
    + apply (is_lim_scal_l Gau (/ 2) m_infty (- (sqrt PI / 2))), Gau_lim_m.
  - apply (is_lim_plus' (fun t => - / 2 * (t * gau t)) (fun t => / 2 * Gau t)).
    + apply (is_lim_scal_l (fun t => t * gau t) (- / 2) p_infty 0), gau_1_lim_p.
    + apply (is_lim_scal_l Gau (/ 2) p_infty (sqrt PI / 2)), Gau_lim_p.
Qed.

(** ---- linearity ---- *)
Lemma line_ext f g v : (forall x, f x = g x) -> line f v -> line g v.
Proof. intros E H. apply (is_RInt_gen_ext (V := R_NormedModule) f g v); [apply filter_forall; intros ab x _; apply E|exact H]. Qed.
Lemma line_scal f c v : line f v -> line (fun x => c * f x) (c * v).
Proof. intros H. exact (is_RInt_gen_scal (V := R_NormedModule) f c v H). Qed.
Lemma line_plus f g v w : line f v -> line g w -> line (fun x => f x + g x) (v + w).
Proof. intros H K. exact (is_RInt_gen_plus (V := R_NormedModule) f g v w H K). Qed.
Lemma line_unique f v w : line f v -> line f w -> v = w.
Proof.
  intros H K. pose proof (is_RInt_gen_unique (V := R_CompleteNormedModule) f v H) as E1. pose proof (is_RInt_gen_unique (V := R_CompleteNormedModule) f w K) as E2.
  exact (eq_trans (eq_sym E1) E2).
Qed.

(** ---- expectations under the normal density, from integrals against exp(-t^2) ---- *)
Lemma sqrtPI_pos : 0 < sqrt PI.
Proof. apply sqrt_lt_R0, PI_RGT_0. Qed.
Lemma normal_pdf_gau m L x : 0 < L -> normal_pdf m L x = / sqrt PI * (sqrt (L / 2) * gau (sqrt (L / 2) * x + - (sqrt (L / 2) * m))).
Proof.
  intros l. unfold normal_pdf, gau. pose proof PI_RGT_0. replace (L / (2 * PI)) with (/ PI * (L / 2)) by (field; lra).
  rewrite sqrt_mult by (try lra; apply Rlt_le, Rinv_0_lt_compat; lra). rewrite sqrt_inv, Rmult_assoc. do 3 f_equal.
  replace (sqrt (L / 2) * x + - (sqrt (L / 2) * m)) with (sqrt (L / 2) * (x - m)) by ring.
  replace (sqrt (L / 2) * (x - m) * (sqrt (L / 2) * (x - m))) with ((sqrt (L / 2) * sqrt (L / 2)) * ((x - m) * (x - m))) by ring. rewrite sqrt_sqrt by lra. ring.
Qed.
Lemma normal_of_gau m L f v : 0 < L -> line (fun t => f (t / sqrt (L / 2) + m) * gau t) (sqrt PI * v) -> expects (normal_pdf m L) f v.
Proof.
  intros l H. assert (U : 0 < sqrt (L / 2)) by (apply sqrt_lt_R0; lra). pose proof sqrtPI_pos as P.
  apply (line_affine _ _ (sqrt (L / 2)) (- (sqrt (L / 2) * m)) U) in H. apply (line_scal _ (/ sqrt PI)) in H.
  replace (/ sqrt PI * (sqrt PI * v)) with v in H by (field; lra).
  eapply line_ext; [|exact H]. intros x. cbv beta. rewrite (normal_pdf_gau m L x l).
  replace ((sqrt (L / 2) * x + - (sqrt (L / 2) * m)) / sqrt (L / 2) + m) with x by (field; lra). ring.
Qed.
Lemma gau_quad a b c : line (fun t => (a + b * t + c * (t * t)) * gau t) (sqrt PI * (a + c / 2)).
Proof.
  replace (sqrt PI * (a + c / 2)) with (a * sqrt PI + (b * 0 + c * (sqrt PI / 2))) by field.
  eapply line_ext; [|apply line_plus; [apply (line_scal gau a), gau_0_line|apply line_plus; [apply (line_scal (fun t => t * gau t) b), gau_1_line|apply (line_scal (fun t => t * t * gau t) c), gau_2_line]]].
  intros t. cbv beta. ring.
Qed.
Lemma expects_ext p f g v : (forall x, f x = g x) -> expects p f v -> expects p g v.
Proof. intros E. apply line_ext. intros x. rewrite E. reflexivity. Qed.
Lemma normal_quad m L a b c : 0 < L -> expects (normal_pdf m L) (fun x => a + b * (x - m) + c * ((x - m) * (x - m))) (a + c / L).
Proof.
  intros l. apply normal_of_gau; [exact l|]. assert (U : 0 < sqrt (L / 2)) by (apply sqrt_lt_R0; lra).
  assert (Q : sqrt (L / 2) * sqrt (L / 2) = L / 2) by (apply sqrt_sqrt; lra).
  replace (sqrt PI * (a + c / L)) with (sqrt PI * (a + (c * (2 / L)) / 2)) by (field; lra).
  eapply line_ext; [|apply (gau_quad a (b / sqrt (L / 2)) (c * (2 / L)))]. intros t. cbv beta. f_equal.
  replace (t / sqrt (L / 2) + m - m) with (t / sqrt (L / 2)) by ring.
  replace (t / sqrt (L / 2) * (t / sqrt (L / 2))) with (t * t / (sqrt (L / 2) * sqrt (L / 2))) by (field; lra). rewrite Q. field. lra.
Qed.
Lemma normal_exp m L k : 0 < L -> expects (normal_pdf m L) (fun x => exp (k * x)) (exp (k * m + k * k / (2 * L))).
Proof.
  intros l. apply normal_of_gau; [exact l|]. set (u := sqrt (L / 2)). assert (U : 0 < u) by (apply sqrt_lt_R0; lra).
  assert (Q : u * u = L / 2) by (apply sqrt_sqrt; lra).
  pose proof gau_0_line as G. apply (line_affine gau _ 1 (- (k / (2 * u)))) in G; [|lra].
  apply (line_scal _ (exp (k * m + k * k / (2 * L)))) in G. rewrite (Rmult_comm (sqrt PI)).
  eapply line_ext; [|exact G]. intros t. cbv beta. unfold gau. rewrite Rmult_1_l, <- !exp_plus. f_equal.
  replace (k * k / (2 * L)) with (k * k / (4 * (u * u))) by (rewrite Q; field; lra). field. lra.
Qed.
(** a quadrature rule that integrates f exactly after the change of variables gives the expectation of f *)
Lemma normal_rule m w x mu L f : 0 < L -> exact_for m w x (fun t => f (sqrt 2 * t / sqrt L + mu)) -> expects (normal_pdf mu L) f (gh_expect m w x mu L f).
Proof.
  intros l H. apply normal_of_gau; [exact l|]. unfold gh_expect. pose proof sqrtPI_pos as P.
  replace (sqrt PI * (/ sqrt PI * rule m w x (fun t => f (sqrt 2 * t / sqrt L + mu)))) with (rule m w x (fun t => f (sqrt 2 * t / sqrt L + mu))) by (field; lra).
  eapply line_ext; [|exact H]. intros t. cbv beta. unfold gau. f_equal. f_equal. f_equal.
  assert (0 < sqrt L) by (apply sqrt_lt_R0; lra). assert (0 < sqrt 2) by (apply sqrt_lt_R0; lra).
  assert (S2 : sqrt (L / 2) = sqrt L / sqrt 2) by (apply sqrt_div_alt; lra). rewrite S2.
  field. split; lra.
Qed.

(** ---- rules exact for powers are exact for polynomials ---- *)
Lemma exact_ext m w x f g : (forall t, f t = g t) -> exact_for m w x f -> exact_for m w x g.
Proof.
  intros E H. unfold exact_for in *. replace (rule m w x g) with (rule m w x f) by (unfold rule; apply rsum_ext; intros; rewrite E; reflexivity).
  eapply line_ext; [|exact H]. intros t. cbv beta. rewrite E. reflexivity.
Qed.
Lemma exact_scal m w x c f : exact_for m w x f -> exact_for m w x (fun t => c * f t).
Proof.
  intros H. unfold exact_for in *. replace (rule m w x (fun t => c * f t)) with (c * rule m w x f) by (unfold rule; rewrite <- rsum_scal_l; apply rsum_ext; intros; ring).
  eapply line_ext; [|apply (line_scal (fun t => f t * exp (- (t * t))) c), H]. intros t. cbv beta. ring.
Qed.
Lemma exact_plus m w x f g : exact_for m w x f -> exact_for m w x g -> exact_for m w x (fun t => f t + g t).
Proof.
  intros H K. unfold exact_for in *. replace (rule m w x (fun t => f t + g t)) with (rule m w x f + rule m w x g) by (unfold rule; rewrite <- rsum_plus; apply rsum_ext; intros; ring).
  eapply line_ext; [|apply line_plus; [exact H|exact K]]. intros t. cbv beta. ring.
Qed.
Lemma exact_zero m w x : exact_for m w x (fun _ => 0).
Proof.
  unfold exact_for. replace (rule m w x (fun _ => 0)) with (0 * sqrt PI) by (unfold rule; rewrite rsum_zero; [ring|intros; ring]).
  eapply line_ext; [|apply (line_scal gau 0), gau_0_line]. intros t. cbv beta. unfold gau. ring.
Qed.
Lemma exact_rsum m w x n f : (forall k, (k < n)%nat -> exact_for m w x (f k)) -> exact_for m w x (fun t => rsum n (fun k => f k t)).
Proof.
  induction n as [|n IH]; intros H; cbn [rsum]; [apply exact_zero|]. apply exact_plus; [apply IH; intros; apply H; lia|apply H; lia].
Qed.
Lemma rsum_sum_f n (f : nat -> R) : sum_f_R0 f n = rsum (S n) f.
Proof. induction n as [|n IH]; [cbn; ring|]. cbn [sum_f_R0]. rewrite IH. reflexivity. Qed.
Lemma exact_power m w x d : (forall k, (k <= d)%nat -> exact_for m w x (fun t => t ^ k)) -> forall a b k, (k <= d)%nat -> exact_for m w x (fun t => (a * t + b) ^ k).
Proof.
  intros H a b k K. apply (exact_ext _ _ _ (fun t => rsum (S k) (fun i => (Binomial.C k i * a ^ i * b ^ (k - i)) * t ^ i))).
  - intros t. rewrite binomial, rsum_sum_f. apply rsum_ext. intros i Hi. rewrite Rpow_mult_distr. ring.
  - apply exact_rsum. intros i Hi. apply exact_scal, H. lia.
Qed.
Lemma exact_poly m w x d c a b : (forall k, (k <= d)%nat -> exact_for m w x (fun t => t ^ k)) -> exact_for m w x (fun t => poly_of d c (a * t + b)).
Proof.
  intros H. unfold poly_of. apply (exact_rsum _ _ _ (S d) (fun k t => c k * (a * t + b) ^ k)). intros k K.
  apply (exact_scal _ _ _ (c k) (fun t => (a * t + b) ^ k)). apply (exact_power _ _ _ d H). lia.
Qed.
(** exact2 says that the rule is exact for constants, t and t^2 *)
Lemma exact2_for m w x : exact2 m w x <-> exact_for m w x (fun _ => 1) /\ exact_for m w x (fun t => t) /\ exact_for m w x (fun t => t * t).
Proof.
  unfold exact2, exact_for.
  assert (A : line (fun t => 1 * exp (- (t * t))) (sqrt PI)) by (eapply line_ext; [|apply gau_0_line]; intros t; unfold gau; ring).
  split.
  - intros [E0 [E1 E2]]. rewrite E0, E1, E2. split; [exact A|]. split; [exact gau_1_line|exact gau_2_line].
  - intros [E0 [E1 E2]]. split; [exact (line_unique _ _ _ E0 A)|]. split; [exact (line_unique _ _ _ E1 gau_1_line)|exact (line_unique _ _ _ E2 gau_2_line)].
Qed.
