(** The normal and gamma formulas as integrals against the densities; error bounds of the quadrature. *)
From Coq Require Import String Reals List Arith Lia Lra.
From Coquelicot Require Import Coquelicot.
From Verif Require Import Res Num Nd RSum ModelParameters ModelMatrix ModelDict ModelNumpy ModelExpFam ModelFamilies ModelModeling LemmasPosDef LemmasNumpy SpecMatrix SpecExpFam SpecFamilies SpecModeling SpecIntegral LemmasExpFam LemmasEntropy LemmasFamilies LemmasQuad LemmasModeling LemmasGauss LemmasGamma.
Import List ListNotations.
Open Scope R_scope.
Set Bullet Behavior "Strict Subproofs".

(** ---- expectations as a monotone functional ---- *)
Lemma expects_unique p f v w : expects p f v -> expects p f w -> v = w.
Proof. apply line_unique. Qed.
Lemma expects_pos_unique p f v w : expects_pos p f v -> expects_pos p f w -> v = w.
Proof. apply half_unique. Qed.
Lemma line_ends : filter_prod (Rbar_locally m_infty) (Rbar_locally p_infty) (fun ab => fst ab <= snd ab).
Proof. apply (Filter_prod _ _ _ (fun a => a < 0) (fun b => 0 < b)); [exists 0; intros x X; exact X|exists 0; intros x X; exact X|]. intros a b A B. cbn. lra. Qed.
Lemma line_norm f g v w : (forall x, Rabs (f x) <= g x) -> line f v -> line g w -> Rabs v <= w.
Proof.
  intros B H K. apply (RInt_gen_norm (V := R_CompleteNormedModule) (Fa := Rbar_locally m_infty) (Fb := Rbar_locally p_infty) f g v w).
  - exact line_ends.
  - apply filter_forall. intros ab x _. apply B.
  - exact H.
  - exact K.
Qed.
Lemma line_le f g v w : (forall x, f x <= g x) -> line f v -> line g w -> v <= w.
Proof.
  intros B H K. pose proof (line_plus _ _ _ _ K (line_scal _ (-1) _ H)) as D.
  pose proof (line_norm _ _ _ _ (fun x => ltac:(cbv beta; rewrite Rabs_pos_eq; [apply Rle_refl|specialize (B x); lra]) : Rabs (g x + -1 * f x) <= g x + -1 * f x) D D) as N.
  pose proof (Rabs_pos (w + -1 * v)). lra.
Qed.
Lemma normal_pdf_pos m L x : 0 < L -> 0 < normal_pdf m L x.
Proof. intros HL. unfold normal_pdf. apply Rmult_lt_0_compat; [|apply exp_pos]. apply sqrt_lt_R0, Rdiv_lt_0_compat; [exact HL|pose proof PI_RGT_0; lra]. Qed.
Lemma normal_le m L f g v w : 0 < L -> (forall x, f x <= g x) -> expects (normal_pdf m L) f v -> expects (normal_pdf m L) g w -> v <= w.
Proof. intros HL B. apply line_le. intros x. apply Rmult_le_compat_r; [apply Rlt_le, normal_pdf_pos, HL|apply B]. Qed.

(** ---- convergence under the Gaussian ---- *)
Lemma gau_converges f C : (forall t, continuous f t) -> (forall t, Rabs (f t) <= C * ((1 + t * t) * gau t)) -> exists v, line f v.
Proof.
  intros Cf B.
  set (G := fun t => C * (3 / 2 * Gau t - / 2 * (t * exp (- (t * t))))).
  assert (DG : forall t, is_derive G t (C * ((1 + t * t) * gau t))).
  { intros t. unfold G. pose proof (Gau_derive t) as D. auto_derive; [repeat split; exists (gau t); exact D|].
    change (fun x => Gau x) with Gau. rewrite (is_derive_unique Gau t _ D). unfold gau. field. }
  assert (If : forall a b, ex_RInt f a b) by (intros a b; apply (ex_RInt_continuous (V := R_CompleteNormedModule)); intros z _; apply Cf).
  assert (Cg : forall t, continuous (fun t => C * ((1 + t * t) * gau t)) t).
  { intros t. apply (ex_derive_continuous (fun t => C * ((1 + t * t) * gau t))). unfold gau. auto_derive. exact I. }
  assert (K : forall u v, u <= v -> Rabs (RInt f 0 v - RInt f 0 u) <= G v - G u).
  { intros u v UV.
    replace (RInt f 0 v - RInt f 0 u) with (RInt f u v).
    - eapply Rle_trans; [apply abs_RInt_le; [exact UV|apply If]|].
      assert (IG : is_RInt (fun t => C * ((1 + t * t) * gau t)) u v (G v - G u)) by (apply (is_RInt_derive (V := R_CompleteNormedModule) G); intros x _; [apply DG|apply Cg]).
      rewrite <- (is_RInt_unique (V := R_CompleteNormedModule) _ _ _ _ IG).
      apply RInt_le; [exact UV|apply (ex_RInt_norm f), If|exists (G v - G u); exact IG|]. intros x _. apply B.
    - pose proof (RInt_Chasles (V := R_CompleteNormedModule) f 0 u v (If _ _) (If _ _)) as E. change (RInt f 0 u + RInt f u v = RInt f 0 v) in E. assert (Q : forall p q r : R, p + q = r -> q = r - p) by (intros; lra). exact (Q _ _ _ E). }
  assert (K' : forall u v : R, True -> True -> Rabs (RInt f 0 v - RInt f 0 u) <= Rabs (G v - G u)).
  { intros u v _ _. destruct (Rle_dec u v) as [UV|UV].
    - eapply Rle_trans; [apply (K u v UV)|apply Rle_abs].
    - rewrite Rabs_minus_sym, (Rabs_minus_sym (G v)). eapply Rle_trans; [apply (K v u); lra|apply Rle_abs]. }
  assert (Lim : forall (x : Rbar) (l : R), is_lim Gau x l -> is_lim (fun t => t * gau t) x 0 -> is_lim G x (C * (3 / 2 * l - / 2 * 0))).
  { intros x l H1 H2. unfold G. apply (is_lim_scal_l (fun t => 3 / 2 * Gau t - / 2 * (t * gau t)) C x (3 / 2 * l - / 2 * 0)).
    apply (is_lim_minus' (fun t => 3 / 2 * Gau t) (fun t => / 2 * (t * gau t)) x (3 / 2 * l) (/ 2 * 0)); [apply (is_lim_scal_l Gau (3 / 2) x l), H1|apply (is_lim_scal_l (fun t => t * gau t) (/ 2) x 0), H2]. }
  destruct (dominated_limit (Rbar_locally m_infty) _ (RInt f 0) G (fun _ => True) _ (filter_forall _ (fun _ => I)) K' (Lim m_infty _ Gau_lim_m gau_1_lim_m)) as [la La].
  destruct (dominated_limit (Rbar_locally p_infty) _ (RInt f 0) G (fun _ => True) _ (filter_forall _ (fun _ => I)) K' (Lim p_infty _ Gau_lim_p gau_1_lim_p)) as [lb Lb].
  exists (lb - la). apply (line_integral f (RInt f 0)); [|exact Cf|exact La|exact Lb].
  intros x. apply (is_derive_RInt f (fun b => RInt f 0 b) 0 x); [|apply Cf]. apply filter_forall. intros b. apply (RInt_correct (V := R_CompleteNormedModule)), If.
Qed.
(** continuous functions of at most quadratic growth have an expectation *)
Lemma normal_converges m L f C : 0 < L -> (forall x, continuous f x) -> (forall x, Rabs (f x) <= C * (1 + (x - m) * (x - m))) -> exists v, expects (normal_pdf m L) f v.
Proof.
  intros HL Cf B. assert (S : 0 < sqrt (L / 2)) by (apply sqrt_lt_R0; lra).
  assert (C0 : 0 <= C) by (pose proof (B m) as Bm; pose proof (Rabs_pos (f m)); replace (m - m) with 0 in Bm by ring; lra).
  destruct (gau_converges (fun t => f (t / sqrt (L / 2) + m) * gau t) (C * (1 + / (L / 2)))) as [v H].
  - intros t. apply (continuous_mult (K := R_AbsRing) (fun t => f (t / sqrt (L / 2) + m)) gau); [|apply gau_cont].
    apply (continuous_comp (fun t => t / sqrt (L / 2) + m) f); [|apply Cf]. apply (ex_derive_continuous (fun t => t / sqrt (L / 2) + m)). auto_derive. exact I.
  - intros t. rewrite Rabs_mult, (Rabs_pos_eq (gau t)) by (unfold gau; apply Rlt_le, exp_pos).
    rewrite <- Rmult_assoc. apply Rmult_le_compat_r; [unfold gau; apply Rlt_le, exp_pos|]. eapply Rle_trans; [apply B|].
    rewrite Rmult_assoc. apply Rmult_le_compat_l; [exact C0|].
    replace ((t / sqrt (L / 2) + m - m) * (t / sqrt (L / 2) + m - m)) with (t * t * / (L / 2)).
    + assert (P : 0 < / (L / 2)) by (apply Rinv_0_lt_compat; lra). pose proof (Rle_0_sqr t) as T. unfold Rsqr in T. nra.
    + rewrite <- (sqrt_sqrt (L / 2)) at 1 by lra. field. lra.
  - exists (v / sqrt PI). apply normal_of_gau; [exact HL|]. replace (sqrt PI * (v / sqrt PI)) with v by (field; pose proof sqrtPI_pos; lra). exact H.
Qed.

(** ---- normal moments ---- *)
Lemma normal_total m L : 0 < L -> expects (normal_pdf m L) (fun _ => 1) 1.
Proof. intros HL. pose proof (normal_quad m L 1 0 0 HL) as H. replace (1 + 0 / L) with 1 in H by (field; lra). eapply expects_ext; [|exact H]. intros x. cbv beta. ring. Qed.
Lemma normal_mean m L : 0 < L -> expects (normal_pdf m L) (fun x => x) m.
Proof. intros HL. pose proof (normal_quad m L m 1 0 HL) as H. replace (m + 0 / L) with m in H by (field; lra). eapply expects_ext; [|exact H]. intros x. cbv beta. ring. Qed.
Lemma normal_var m L : 0 < L -> expects (normal_pdf m L) (fun x => (x - m) * (x - m)) (/ L).
Proof. intros HL. pose proof (normal_quad m L 0 0 1 HL) as H. replace (0 + 1 / L) with (/ L) in H by (field; lra). eapply expects_ext; [|exact H]. intros x. cbv beta. ring. Qed.
Lemma normal_second m L : 0 < L -> expects (normal_pdf m L) (fun x => x * x) (m * m + / L).
Proof. intros HL. pose proof (normal_quad m L (m * m) (2 * m) 1 HL) as H. replace (m * m + 1 / L) with (m * m + / L) in H by (field; lra). eapply expects_ext; [|exact H]. intros x. cbv beta. ring. Qed.
Lemma lognormal_mean m L : 0 < L -> expects (normal_pdf m L) exp (exp (m + / L / 2)).
Proof. intros HL. pose proof (normal_exp m L 1 HL) as H. replace (1 * m + 1 * 1 / (2 * L)) with (m + / L / 2) in H by (field; lra). eapply expects_ext; [|exact H]. intros x. cbv beta. f_equal. ring. Qed.
Lemma lognormal_second m L : 0 < L -> expects (normal_pdf m L) (fun x => exp x * exp x) (exp (/ L) * (exp (m + / L / 2) * exp (m + / L / 2))).
Proof.
  intros HL. pose proof (normal_exp m L 2 HL) as H. rewrite <- !exp_plus. replace (/ L + (m + / L / 2 + (m + / L / 2))) with (2 * m + 2 * 2 / (2 * L)) by (field; lra).
  eapply expects_ext; [|exact H]. intros x. cbv beta. rewrite <- exp_plus. f_equal. ring.
Qed.
Lemma expects_plus p f g v w : expects p f v -> expects p g w -> expects p (fun x => f x + g x) (v + w).
Proof. intros H K. pose proof (line_plus _ _ _ _ H K) as Q. eapply line_ext; [|exact Q]. intros x. cbv beta. ring. Qed.
Lemma expects_scal p c f v : expects p f v -> expects p (fun x => c * f x) (c * v).
Proof. intros H. pose proof (line_scal _ c _ H) as Q. eapply line_ext; [|exact Q]. intros x. cbv beta. ring. Qed.
Lemma lognormal_var m L : 0 < L -> let e := exp (m + / L / 2) in expects (normal_pdf m L) (fun x => (exp x - e) * (exp x - e)) ((exp (/ L) - 1) * (e * e)).
Proof.
  intros HL e. pose proof (expects_plus _ _ _ _ _ (lognormal_second m L HL) (expects_plus _ _ _ _ _ (expects_scal _ (-2 * e) _ _ (lognormal_mean m L HL)) (expects_scal _ (e * e) _ _ (normal_total m L HL)))) as H.
  fold e in H. replace (exp (/ L) * (e * e) + (-2 * e * e + e * e * 1)) with ((exp (/ L) - 1) * (e * e)) in H by ring. eapply expects_ext; [|exact H]. intros x. cbv beta. ring.
Qed.
Lemma normal_cross m L m0 L0 : 0 < L -> 0 < L0 -> expects (normal_pdf m L) (fun x => ln (normal_pdf m0 L0 x)) (- / 2 * (L0 * ((m - m0) * (m - m0) + / L)) + ln (sqrt (L0 / (2 * PI)))).
Proof.
  intros HL H0. pose proof (normal_quad m L (ln (sqrt (L0 / (2 * PI))) - L0 / 2 * ((m - m0) * (m - m0))) (- L0 * (m - m0)) (- (L0 / 2)) HL) as H.
  replace (- / 2 * (L0 * ((m - m0) * (m - m0) + / L)) + ln (sqrt (L0 / (2 * PI)))) with (ln (sqrt (L0 / (2 * PI))) - L0 / 2 * ((m - m0) * (m - m0)) + - (L0 / 2) / L) by (field; lra).
  eapply expects_ext; [|exact H]. intros x. cbv beta. rewrite ln_normal_pdf by exact H0. field.
Qed.
Lemma normal_entropy_integral m L : 0 < L -> expects (normal_pdf m L) (fun x => - ln (normal_pdf m L x)) (normal_entropy L).
Proof.
  intros HL. pose proof (expects_scal _ (-1) _ _ (normal_cross m L m L HL HL)) as H.
  replace (-1 * (- / 2 * (L * ((m - m) * (m - m) + / L)) + ln (sqrt (L / (2 * PI))))) with (normal_entropy L) in H.
  - eapply expects_ext; [|exact H]. intros x. cbv beta. ring.
  - pose proof PI_RGT_0 as P. unfold normal_entropy. assert (Q : ln (sqrt (L / (2 * PI))) = / 2 * (ln L - ln (2 * PI))).
    + unfold Rdiv. rewrite <- Rpower_sqrt by (apply Rmult_lt_0_compat; [exact HL|apply Rinv_0_lt_compat; lra]). unfold Rpower. rewrite ln_exp, ln_mult, ln_Rinv by (try lra; apply Rinv_0_lt_compat; lra). ring.
    + rewrite Q. field. lra.
Qed.

(** ---- the functions and classes ---- *)
Lemma uvn_integrals d s m L : holds d "mean" (farr s m) -> holds d "info" (farr s L) -> (forall i, index s i -> 0 < L i) ->
  exists v eo ee ve e2,
    uvn_e d = Ok (farr s m) /\ uvn_var d = Ok (farr s v) /\ uvn_e_outer d = Ok (farr s eo) /\
    uvn_e_exp d = Ok (farr s ee) /\ uvn_var_exp d = Ok (farr s ve) /\ uvn_e2_exp d = Ok (farr s e2) /\
    forall i, index s i -> let p := normal_pdf (m i) (L i) in
      expects p (fun x => x) (m i) /\ expects p (fun x => (x - m i) * (x - m i)) (v i) /\ expects p (fun x => x * x) (eo i) /\
      expects p exp (ee i) /\ expects p (fun x => (exp x - ee i) * (exp x - ee i)) (ve i) /\ expects p (fun x => exp x * exp x) (e2 i).
Proof.
  intros Hm HL P. eexists _, _, _, _, _. split; [exact (member_holds _ _ _ Hm)|]. split; [exact (uvn_var_value d s L HL P)|]. split; [exact (uvn_e_outer_value d s m L Hm HL P)|].
  split; [exact (uvn_e_exp_value d s m L Hm HL P)|]. split; [exact (uvn_var_exp_value d s m L Hm HL P)|]. split; [exact (uvn_e2_exp_value d s m L Hm HL P)|].
  intros i Hi p. specialize (P i Hi). split; [apply normal_mean, P|]. split; [apply normal_var, P|]. split; [apply normal_second, P|]. split; [apply lognormal_mean, P|]. split; [apply (lognormal_var (m i) (L i) P)|].
  cbv beta. pose proof (lognormal_second (m i) (L i) P) as Q. set (e := exp (m i + / L i / 2)) in *. replace (e * e + (exp (/ L i) - 1) * (e * e)) with (exp (/ L i) * (e * e)) by ring. exact Q.
Qed.
Lemma lognormal_integrals s mu v : (forall i, index s i -> 0 < v i) ->
  exists e w, get_e_lognormal (farr s mu) (farr s v) = Ok (farr s e) /\ get_var_lognormal (farr s mu) (farr s v) = Ok (farr s w) /\
    forall i, index s i -> let p := normal_pdf (mu i) (/ v i) in expects p exp (e i) /\ expects p (fun x => (exp x - e i) * (exp x - e i)) (w i).
Proof.
  intros P. eexists _, _. split; [apply lognormal_mean_entries|]. split; [apply lognormal_var_entries|]. intros i Hi p. specialize (P i Hi). assert (Q : 0 < / v i) by (apply Rinv_0_lt_compat, P).
  pose proof (lognormal_mean (mu i) _ Q) as H1. pose proof (lognormal_var (mu i) _ Q) as H2. cbv zeta in H2. rewrite !Rinv_inv in *. split; assumption.
Qed.
Lemma entropy_integrals s L : (forall i, index s i -> 0 < L i) ->
  exists h, univariate_normal_entropy (farr s L) = Ok (fnum (lsum (map h (product s)))) /\
    forall i m, index s i -> expects (normal_pdf m (L i)) (fun x => - ln (normal_pdf m (L i) x)) (h i).
Proof. intros P. eexists. split; [exact (uvn_entropy_value s L P)|]. intros i m Hi. apply normal_entropy_integral, P, Hi. Qed.
Lemma class_entropy_integrals d s L : holds d "info" (farr s L) -> (forall i, index s i -> 0 < L i) ->
  exists h, uvn_entropy d = Ok (fnum (lsum (map h (product s)))) /\ uvn_array_entropy d = Ok (fnum (lsum (map h (product s)))) /\
    forall i m, index s i -> expects (normal_pdf m (L i)) (fun x => - ln (normal_pdf m (L i) x)) (h i).
Proof.
  intros HL P. destruct (entropy_integrals s L P) as [h [E H]]. exists h. rewrite (uvn_array_entropy_same d s L HL P). unfold uvn_entropy. rewrite (member_holds _ _ _ HL). split; [exact E|]. split; [exact E|exact H].
Qed.
Lemma prior_integrals s m0 L0 m L : (forall i, index s i -> 0 < L i /\ 0 < L0 i) ->
  exists r, uvn_prior (farr s m0) (farr s L0) (farr s m) (farr s (fun i => / L i)) = Ok (farr s r) /\
    forall i, index s i -> expects (normal_pdf (m i) (L i)) (fun x => ln (normal_pdf (m0 i) (L0 i) x)) (r i + ln (sqrt (L0 i / (2 * PI)))).
Proof. intros P. eexists. split; [apply uvn_prior_entries|]. intros i Hi. destruct (P i Hi) as [P1 P2]. exact (normal_cross (m i) (L i) (m0 i) (L0 i) P1 P2). Qed.
Lemma quadrature_integrals fn f s mu L m x w : componentwise fn f -> (forall i, index s i -> 0 < L i /\ exact_for m w x (fun t => f (sqrt 2 * t / sqrt (L i) + mu i))) ->
  exists r, get_e_fun_normal (farr s mu) (farr s L) (fvec_of m x) (fvec_of m w) fn = Ok (farr s r) /\ forall i, index s i -> expects (normal_pdf (mu i) (L i)) f (r i).
Proof. intros C P. eexists. split; [apply (gh_value _ _ _ _ _ _ _ _ C); intros i Hi; apply P, Hi|]. intros i Hi. destruct (P i Hi) as [P1 P2]. apply normal_rule; assumption. Qed.
Lemma quadrature_polynomials fn s mu L m x w d c : componentwise fn (poly_of d c) -> (forall k, (k <= d)%nat -> exact_for m w x (fun t => t ^ k)) -> (forall i, index s i -> 0 < L i) ->
  exists r, get_e_fun_normal (farr s mu) (farr s L) (fvec_of m x) (fvec_of m w) fn = Ok (farr s r) /\ forall i, index s i -> expects (normal_pdf (mu i) (L i)) (poly_of d c) (r i).
Proof.
  intros C E P. apply quadrature_integrals; [exact C|]. intros i Hi. split; [apply P, Hi|]. eapply exact_ext; [|apply (exact_poly m w x d c (sqrt 2 / sqrt (L i)) (mu i) E)]. intros t. cbv beta. f_equal. unfold Rdiv. ring.
Qed.
Lemma moment_integrals d s m w : holds d "e" (farr s m) -> holds d "e2" (farr s w) -> (forall i, index s i -> m i * m i < w i) ->
  exists v ee h, um_e d = Ok (farr s m) /\ um_e_outer d = Ok (farr s w) /\ um_var d = Ok (farr s v) /\ um_e_exp d = Ok (farr s ee) /\ um_entropy d = Ok (fnum (lsum (map h (product s)))) /\
    forall i, index s i -> let p := normal_pdf (m i) (/ (w i - m i * m i)) in
      expects p (fun x => x) (m i) /\ expects p (fun x => x * x) (w i) /\ expects p (fun x => (x - m i) * (x - m i)) (v i) /\ expects p exp (ee i) /\ expects p (fun x => - ln (p x)) (h i).
Proof.
  intros He Hw P. assert (Pv : forall i, index s i -> 0 < w i - m i * m i) by (intros i Hi; specialize (P i Hi); lra).
  exists (fun i => w i - m i * m i), (fun i => exp (m i + (w i - m i * m i) / 2)), (fun i => normal_entropy (/ (w i - m i * m i))).
  split; [exact (member_holds _ _ _ He)|]. split; [exact (member_holds _ _ _ Hw)|]. split; [exact (um_var_value d s m w He Hw)|]. split; [exact (um_e_exp_value d s m w He Hw)|]. split.
  - unfold um_entropy. rewrite (um_var_value d s m w He Hw), (recip_entries s (fun i => w i - m i * m i)) by exact Pv. cbn [rbind]. rewrite uvn_entropy_value by (intros i Hi; apply Rinv_0_lt_compat, Pv, Hi). rewrite fnum_mk, sum_all_mk. apply Ok_eq. apply mk_nd_ext. intros _ _. cbn. f_equal. lra.
  - intros i Hi p. specialize (Pv i Hi). assert (Q : 0 < / (w i - m i * m i)) by (apply Rinv_0_lt_compat, Pv).
    split; [apply normal_mean, Q|]. split.
    + pose proof (normal_second (m i) _ Q) as H. rewrite Rinv_inv in H. replace (m i * m i + (w i - m i * m i)) with (w i) in H by ring. exact H.
    + split; [pose proof (normal_var (m i) _ Q) as H; rewrite Rinv_inv in H; exact H|]. split; [pose proof (lognormal_mean (m i) _ Q) as H; rewrite Rinv_inv in H; exact H|]. apply normal_entropy_integral, Q.
Qed.
Lemma rows_integrals d n k m L : holds d "mean" (fmat_of n k m) -> holds d "info" (fvec_of n L) -> (forall i, (i < n)%nat -> 0 < L i) ->
  exists E, mvn_array_e d = Ok (fmat_of n k m) /\ mvn_array_e2 d = Ok (fmat_of n k E) /\
    forall i j, (i < n)%nat -> (j < k)%nat -> expects (normal_pdf (m i j) (L i)) (fun x => x) (m i j) /\ expects (normal_pdf (m i j) (L i)) (fun x => x * x) (E i j).
Proof.
  intros Hm HL P. exists (fun i j => m i j * m i j + / L i). split; [exact (member_holds _ _ _ Hm)|]. split.
  - unfold mvn_array_e2. rewrite (member_holds _ _ _ Hm), (member_holds _ _ _ HL). change (fvec_of n L) with (farr [n] (fun idx => L (nth 0 idx 0%nat))).
    rewrite recip_entries by (intros i Hi; apply in_product_1 in Hi as [a [-> Ha]]; apply P, Ha). cbn [rbind]. unfold farr. rewrite (expand_mk [n]).
    unfold fmat_of, farr, np_pow2. rewrite nun_mk. change [n; k] with ([n] ++ [k])%list. rewrite nbin_last_full. apply Ok_eq. apply mk_nd_ext. intros idx H.
    apply in_product_2_inv in H as [i [j [-> [Hi Hj]]]]. cbn [nth removelast app]. fin. reflexivity.
  - intros i j Hi Hj. split; [apply normal_mean, P, Hi|apply normal_second, P, Hi].
Qed.

(** ---- error of the quadrature ---- *)
Section Error.
Variables (m : nat) (w x : nat -> R).
Hypotheses (X2 : exact2 m w x) (W : forall k, (k < m)%nat -> 0 <= w k).
Lemma gh_centered mu L a b c : 0 < L -> gh_expect m w x mu L (fun t => a + b * (t - mu) + c * ((t - mu) * (t - mu))) = a + c / L.
Proof.
  intros HL. pose proof (gh_exact m w x mu L (a - b * mu + c * (mu * mu)) (b - 2 * c * mu) c X2 HL) as E.
  replace (a + c / L) with (a - b * mu + c * (mu * mu) + (b - 2 * c * mu) * mu + c * (mu * mu + / L)) by (field; lra). rewrite <- E.
  unfold gh_expect. f_equal. apply rule_ext. intros k _. ring.
Qed.
Lemma quadrature_error f mu L A B lo hi : 0 < L -> (forall z, continuous f z) ->
  (forall z, A + B * (z - mu) + lo * ((z - mu) * (z - mu)) <= f z <= A + B * (z - mu) + hi * ((z - mu) * (z - mu))) ->
  exists v, expects (normal_pdf mu L) f v /\ A + lo / L <= v <= A + hi / L /\ Rabs (gh_expect m w x mu L f - v) <= (hi - lo) / L.
Proof.
  intros HL Cf Bd.
  destruct (normal_converges mu L f (Rabs A + Rabs B + Rabs lo + Rabs hi) HL Cf) as [v Hv].
  { intros z. pose proof (Bd z) as [B1 B2]. set (t := z - mu) in *. pose proof (Rle_0_sqr t) as T. unfold Rsqr in T.
    assert (Bt : Rabs (B * t) <= Rabs B * (1 + t * t)).
    { rewrite Rabs_mult. apply Rmult_le_compat_l; [apply Rabs_pos|]. apply Rabs_le. pose proof (Rle_0_sqr (t - / 2)) as T1. pose proof (Rle_0_sqr (t + / 2)) as T2. unfold Rsqr in *. split; nra. }
    pose proof (Rle_abs (B * t)) as Q1. pose proof (Rle_abs (- (B * t))) as Q2. rewrite Rabs_Ropp in Q2.
    pose proof (Rle_abs A) as A1. pose proof (Rle_abs (- A)) as A2. rewrite Rabs_Ropp in A2.
    pose proof (Rle_abs hi) as H1. pose proof (Rle_abs (- lo)) as L1. rewrite Rabs_Ropp in L1.
    pose proof (Rabs_pos A) as PA. pose proof (Rabs_pos lo) as Pl. pose proof (Rabs_pos hi) as Ph.
    assert (U1 : hi * (t * t) <= Rabs hi * (t * t)) by (apply Rmult_le_compat_r; assumption).
    assert (U2 : - lo * (t * t) <= Rabs lo * (t * t)) by (apply Rmult_le_compat_r; assumption).
    assert (V1 : 0 <= Rabs A * (t * t)) by (apply Rmult_le_pos; assumption). assert (V2 : 0 <= Rabs lo * (t * t)) by (apply Rmult_le_pos; assumption). assert (V3 : 0 <= Rabs hi * (t * t)) by (apply Rmult_le_pos; assumption).
    apply Rabs_le. split; nra. }
  exists v. split; [exact Hv|].
  assert (V : A + lo / L <= v <= A + hi / L).
  { split.
    - apply (normal_le mu L _ _ _ _ HL (fun z => proj1 (Bd z)) (normal_quad mu L A B lo HL) Hv).
    - apply (normal_le mu L _ _ _ _ HL (fun z => proj2 (Bd z)) Hv (normal_quad mu L A B hi HL)). }
  split; [exact V|].
  assert (G : A + lo / L <= gh_expect m w x mu L f <= A + hi / L).
  { rewrite <- (gh_centered mu L A B lo HL), <- (gh_centered mu L A B hi HL). split; apply gh_mono; try exact W; intros t; apply Bd. }
  unfold Rdiv in *. apply Rabs_le. lra.
Qed.
Lemma softplus_cont z : continuous softplus z.
Proof. apply (ex_derive_continuous softplus). eexists. apply softplus_derive. Qed.
Lemma expit_cont z : continuous expit z.
Proof. apply (ex_derive_continuous expit). eexists. apply expit_derive. Qed.
Lemma softplus_error mu L : 0 < L -> exists v, expects (normal_pdf mu L) softplus v /\ Rabs (gh_expect m w x mu L softplus - v) <= / 8 / L.
Proof.
  intros HL. destruct (quadrature_error softplus mu L (softplus mu) (expit mu) 0 (/ 8) HL softplus_cont) as [v [H [_ E]]].
  - intros z. pose proof (softplus_tangent mu z). pose proof (softplus_quadratic mu z). lra.
  - exists v. split; [exact H|]. rewrite Rminus_0_r in E. exact E.
Qed.
Lemma ln_expit_softplus z : ln (expit z) = z - softplus z.
Proof.
  rewrite ln_expit. unfold softplus. replace (1 + exp z) with (exp z * (1 + exp (- z))).
  - rewrite ln_mult by (try apply exp_pos; pose proof (exp_pos (- z)); lra). rewrite ln_exp. ring.
  - rewrite Rmult_plus_distr_l, <- exp_plus. replace (z + - z) with 0 by ring. rewrite exp_0. ring.
Qed.
Lemma ln_expit_error mu L : 0 < L -> exists v, expects (normal_pdf mu L) (fun t => ln (expit t)) v /\ expects (normal_pdf mu L) (fun t => ln (1 - expit t)) (v - mu) /\ Rabs (gh_expect m w x mu L (fun t => ln (expit t)) - v) <= / 8 / L.
Proof.
  intros HL. destruct (quadrature_error (fun t => ln (expit t)) mu L (mu - softplus mu) (1 - expit mu) (- / 8) 0 HL) as [v [H [_ E]]].
  - intros z. apply (continuous_ext (fun z => z - softplus z)); [intros t; symmetry; apply ln_expit_softplus|]. apply (continuous_minus (V := R_NormedModule) (fun z => z) softplus); [apply continuous_id|apply softplus_cont].
  - intros z. rewrite ln_expit_softplus. pose proof (softplus_tangent mu z). pose proof (softplus_quadratic mu z). lra.
  - exists v. split; [exact H|]. split; [|replace (0 - - / 8) with (/ 8) in E by ring; exact E].
    pose proof (expects_plus _ _ _ _ _ H (expects_scal _ (-1) _ _ (normal_mean mu L HL))) as K. replace (v + -1 * mu) with (v - mu) in K by ring. eapply expects_ext; [|exact K]. intros t. cbv beta. rewrite ln_1m_expit. ring.
Qed.
Lemma slope_lipschitz a b : a < b -> Rabs (expit b * (1 - expit b) - expit a * (1 - expit a)) <= (b - a) / 4.
Proof.
  intros H. destruct (MVT_cor2 (fun z => expit z * (1 - expit z)) (fun z => expit z * (1 - expit z) * (1 - 2 * expit z)) a b H) as [c [E _]].
  - intros c _. apply is_derive_Reals. pose proof (expit_derive c) as D. auto_derive; [repeat split; eexists; exact D|]. change (fun x => expit x) with expit. rewrite (is_derive_unique expit c _ D). ring.
  - rewrite E, Rabs_mult, (Rabs_pos_eq (b - a)) by lra. rewrite Rmult_comm. unfold Rdiv. apply Rmult_le_compat_l; [lra|]. pose proof (expit_slope c). pose proof (expit_pos c).
    apply Rabs_le. split; nra.
Qed.
Lemma expit_taylor mu z : Rabs (expit z - (expit mu + expit mu * (1 - expit mu) * (z - mu))) <= (z - mu) * (z - mu) / 8.
Proof.
  assert (K : forall s, s = 1 \/ s = -1 -> 0 <= (z - mu) * (z - mu) / 8 - s * (expit z - (expit mu + expit mu * (1 - expit mu) * (z - mu)))).
  { intros s S. set (g := fun z => (z - mu) * (z - mu) / 8 - s * (expit z - (expit mu + expit mu * (1 - expit mu) * (z - mu)))).
    assert (D : forall c, derivable_pt_lim g c ((c - mu) / 4 - s * (expit c * (1 - expit c) - expit mu * (1 - expit mu)))).
    { intros c. apply is_derive_Reals. unfold g. pose proof (expit_derive c) as D. auto_derive; [repeat split; eexists; exact D|]. change (fun x => expit x) with expit. rewrite (is_derive_unique expit c _ D). field. }
    assert (G0 : g mu = 0) by (unfold g; field). change (0 <= g z). destruct (Rtotal_order mu z) as [H|[<-|H]].
    - destruct (MVT_cor2 g _ mu z H (fun c _ => D c)) as [c [E B]]. pose proof (slope_lipschitz mu c (proj1 B)) as Q. rewrite G0 in E. apply Rabs_le_between in Q.
      assert (0 <= (c - mu) / 4 - s * (expit c * (1 - expit c) - expit mu * (1 - expit mu))) by (destruct S as [-> | ->]; lra). nra.
    - rewrite G0. lra.
    - destruct (MVT_cor2 g _ z mu H (fun c _ => D c)) as [c [E B]]. pose proof (slope_lipschitz c mu (proj2 B)) as Q. rewrite G0 in E. apply Rabs_le_between in Q.
      assert ((c - mu) / 4 - s * (expit c * (1 - expit c) - expit mu * (1 - expit mu)) <= 0) by (destruct S as [-> | ->]; lra). nra. }
  pose proof (K 1 (or_introl eq_refl)). pose proof (K (-1) (or_intror eq_refl)). apply Rabs_le. lra.
Qed.
Lemma expit_error mu L : 0 < L -> exists v, expects (normal_pdf mu L) expit v /\ Rabs (gh_expect m w x mu L expit - v) <= / 4 / L.
Proof.
  intros HL. destruct (quadrature_error expit mu L (expit mu) (expit mu * (1 - expit mu)) (- / 8) (/ 8) HL expit_cont) as [v [H [_ E]]].
  - intros z. pose proof (expit_taylor mu z) as T. apply Rabs_le_between in T. lra.
  - exists v. split; [exact H|]. replace (/ 8 - - / 8) with (/ 4) in E by field. exact E.
Qed.
Lemma gh_sd_info mu sd f : 0 < sd -> gh_expect_sd m w x mu sd f = gh_expect m w x mu (/ (sd * sd)) f.
Proof.
  intros S. unfold gh_expect_sd, gh_expect. f_equal. apply rule_ext. intros k _. f_equal. f_equal. rewrite sqrt_inv, sqrt_square by lra. unfold Rdiv. rewrite Rinv_inv. ring.
Qed.
Lemma logistic_error s mu sd : (forall i, index s i -> 0 < sd i) ->
  exists r, get_e_logistic_term_guass_hermite (farr s mu) (farr s sd) (fvec_of m x) (fvec_of m w) false = Ok (farr s r) /\
    forall i, index s i -> exists v, expects (normal_pdf (mu i) (/ (sd i * sd i))) softplus v /\ Rabs (r i - v) <= sd i * sd i / 8.
Proof.
  intros P. eexists. split; [apply gh_logistic_entries|]. intros i Hi. specialize (P i Hi). assert (Q : 0 < sd i * sd i) by (apply Rmult_lt_0_compat; exact P).
  destruct (softplus_error (mu i) (/ (sd i * sd i)) (Rinv_0_lt_compat _ Q)) as [v [H E]]. exists v. split; [exact H|]. cbv beta. rewrite gh_sd_info by exact P. replace (sd i * sd i / 8) with (/ 8 / / (sd i * sd i)) by (field; lra). exact E.
Qed.
Lemma log_logitnormal_error s mu L : (forall i, index s i -> 0 < L i) ->
  exists a b, get_e_log_logitnormal (farr s mu) (farr s L) (fvec_of m x) (fvec_of m w) = Ok (farr s a, farr s b) /\
    forall i, index s i -> exists u v, expects (normal_pdf (mu i) (L i)) (fun t => ln (expit t)) u /\ expects (normal_pdf (mu i) (L i)) (fun t => ln (1 - expit t)) v /\
      Rabs (a i - u) <= / (8 * L i) + exp (-100) /\ Rabs (b i - v) <= / (8 * L i) + exp (-100).
Proof.
  intros P. destruct (log_logitnormal_close s mu L m x w X2 W P) as [a [b [E H]]]. exists a, b. split; [exact E|]. intros i Hi. destruct (H i Hi) as [Eb [Ha _]]. specialize (P i Hi).
  destruct (ln_expit_error (mu i) (L i) P) as [v [V1 [V2 Er]]]. exists v, (v - mu i). split; [exact V1|]. split; [exact V2|]. rewrite Eb.
  assert (Q : Rabs (a i - v) <= / (8 * L i) + exp (-100)).
  { replace (/ (8 * L i)) with (/ 8 / L i) by (field; lra). replace (a i - v) with ((a i - gh_expect m w x (mu i) (L i) (fun t => ln (expit t))) + (gh_expect m w x (mu i) (L i) (fun t => ln (expit t)) - v)) by ring. eapply Rle_trans; [apply Rabs_triang|]. lra. }
  split; [exact Q|]. replace (a i - mu i - (v - mu i)) with (a i - v) by ring. exact Q.
Qed.
Lemma logitnormal_error s mu L : (forall i, index s i -> 0 < L i) ->
  exists p, get_e_logitnormal (farr s mu) (farr s L) (fvec_of m x) (fvec_of m w) = Ok (farr s p) /\
    forall i, index s i -> exists v, expects (normal_pdf (mu i) (L i)) expit v /\ Rabs (p i - v) <= / (4 * L i).
Proof.
  intros P. destruct (logitnormal_value s mu L m x w P W (proj1 X2)) as [p [E H]]. exists p. split; [exact E|]. intros i Hi. destruct (H i Hi) as [Ep _]. specialize (P i Hi).
  destruct (expit_error (mu i) (L i) P) as [v [V Er]]. exists v. split; [exact V|]. rewrite Ep. replace (/ (4 * L i)) with (/ 4 / L i) by (field; lra). exact Er.
Qed.
End Error.

(** ---- gamma ---- *)
Section Gamma.
Variables (gammaln digamma : num -> num) (LG PSI : R -> R).
Hypotheses (HLG : special gammaln LG) (HPSI : special digamma PSI) (HL : log_gamma LG) (HP : digamma_of LG PSI).
Lemma gamma_total a b : 0 < a -> 0 < b -> expects_pos (gamma_pdf LG a b) (fun _ => 1) 1.
Proof. intros A B. pose proof (gamma_linear LG PSI HL HP a b 1 0 0 A B) as H. replace (1 + 0 * (a / b) + 0 * (PSI a - ln b)) with 1 in H by ring. eapply expects_pos_ext; [|exact H]. intros x X. cbv beta. ring. Qed.
Lemma gamma_mean a b : 0 < a -> 0 < b -> expects_pos (gamma_pdf LG a b) (fun x => x) (a / b).
Proof. intros A B. pose proof (gamma_linear LG PSI HL HP a b 0 1 0 A B) as H. replace (0 + 1 * (a / b) + 0 * (PSI a - ln b)) with (a / b) in H by ring. eapply expects_pos_ext; [|exact H]. intros x X. cbv beta. ring. Qed.
Lemma gamma_log a b : 0 < a -> 0 < b -> expects_pos (gamma_pdf LG a b) ln (PSI a - ln b).
Proof. intros A B. pose proof (gamma_linear LG PSI HL HP a b 0 0 1 A B) as H. replace (0 + 0 * (a / b) + 1 * (PSI a - ln b)) with (PSI a - ln b) in H by ring. eapply expects_pos_ext; [|exact H]. intros x X. cbv beta. ring. Qed.
Lemma gamma_cross a b a0 b0 : 0 < a -> 0 < b -> 0 < b0 -> expects_pos (gamma_pdf LG a b) (fun x => ln (gamma_pdf LG a0 b0 x)) ((a0 - 1) * (PSI a - ln b) - b0 * (a / b) + (a0 * ln b0 - LG a0)).
Proof.
  intros A B B0. pose proof (gamma_linear LG PSI HL HP a b (a0 * ln b0 - LG a0) (- b0) (a0 - 1) A B) as H.
  replace ((a0 - 1) * (PSI a - ln b) - b0 * (a / b) + (a0 * ln b0 - LG a0)) with (a0 * ln b0 - LG a0 + - b0 * (a / b) + (a0 - 1) * (PSI a - ln b)) by ring.
  eapply expects_pos_ext; [|exact H]. intros x X. cbv beta. rewrite ln_gamma_pdf by assumption. ring.
Qed.
Lemma gamma_class_integrals d s a b : holds d "shape" (farr s a) -> holds d "rate" (farr s b) -> (forall i, index s i -> 0 < a i /\ 0 < b i) ->
  exists e l h, gp_e d = Ok (farr s e) /\ gp_e_log digamma d = Ok (farr s l) /\ gp_entropy gammaln digamma d = Ok (fnum (lsum (map h (product s)))) /\
    forall i, index s i -> let p := gamma_pdf LG (a i) (b i) in expects_pos p (fun x => x) (e i) /\ expects_pos p ln (l i) /\ expects_pos p (fun x => - ln (p x)) (h i).
Proof.
  intros Ha Hb P. exists (fun i => a i / b i), (fun i => PSI (a i) - ln (b i)), (fun i => gamma_entropy_of LG PSI (a i) (b i)). unfold gp_e, gp_e_log, gp_entropy. rewrite (member_holds _ _ _ Ha), (member_holds _ _ _ Hb). cbn [rbind]. split.
  - pyfin. destruct (P idx Hidx) as [_ Pb]. rewrite ndiv_fin by lra. reflexivity.
  - split; [apply (e_log_gamma_value _ PSI HPSI s a b P)|]. split; [apply (gamma_entropy_value _ _ LG PSI HLG HPSI s a b P)|].
    intros i Hi. set (p := gamma_pdf LG (a i) (b i)). destruct (P i Hi) as [A B]. split; [apply gamma_mean; assumption|]. split; [apply gamma_log; assumption|].
    pose proof (half_scal _ (-1) _ (gamma_cross (a i) (b i) (a i) (b i) A B B)) as H.
    replace (-1 * ((a i - 1) * (PSI (a i) - ln (b i)) - b i * (a i / b i) + (a i * ln (b i) - LG (a i)))) with (gamma_entropy_of LG PSI (a i) (b i)) in H by (unfold gamma_entropy_of; field; lra).
    eapply half_ext; [|exact H]. intros x X. cbv beta. fold p. ring.
Qed.
Lemma gamma_fun_integrals s a b : (forall i, index s i -> 0 < a i /\ 0 < b i) ->
  exists l h, get_e_log_gamma digamma (farr s a) (farr s b) = Ok (farr s l) /\ gamma_entropy gammaln digamma (farr s a) (farr s b) = Ok (fnum (lsum (map h (product s)))) /\
    forall i, index s i -> let p := gamma_pdf LG (a i) (b i) in expects_pos p ln (l i) /\ expects_pos p (fun x => - ln (p x)) (h i).
Proof.
  intros P. exists (fun i => PSI (a i) - ln (b i)), (fun i => gamma_entropy_of LG PSI (a i) (b i)).
  split; [apply (e_log_gamma_value _ PSI HPSI s a b P)|]. split; [apply (gamma_entropy_value _ _ LG PSI HLG HPSI s a b P)|].
  intros i Hi p. destruct (P i Hi) as [A B]. split; [apply gamma_log; assumption|].
  pose proof (half_scal _ (-1) _ (gamma_cross (a i) (b i) (a i) (b i) A B B)) as H.
  replace (-1 * ((a i - 1) * (PSI (a i) - ln (b i)) - b i * (a i / b i) + (a i * ln (b i) - LG (a i)))) with (gamma_entropy_of LG PSI (a i) (b i)) in H by (unfold gamma_entropy_of; field; lra).
  eapply half_ext; [|exact H]. intros x X. cbv beta. fold p. ring.
Qed.
Lemma gamma_prior_integrals s a0 b0 a b : (forall i, index s i -> 0 < a i /\ 0 < b i /\ 0 < b0 i) ->
  exists l r, get_e_log_gamma digamma (farr s a) (farr s b) = Ok (farr s l) /\ gamma_prior (farr s a0) (farr s b0) (farr s (fun i => a i / b i)) (farr s l) = Ok (farr s r) /\
    forall i, index s i -> expects_pos (gamma_pdf LG (a i) (b i)) (fun x => ln (gamma_pdf LG (a0 i) (b0 i) x)) (r i + (a0 i * ln (b0 i) - LG (a0 i))).
Proof.
  intros P. eexists _, _. split; [apply (e_log_gamma_value _ PSI HPSI s a b); intros i Hi; split; apply P, Hi|]. split; [apply gamma_prior_entries|].
  intros i Hi. destruct (P i Hi) as [A [B B0]]. exact (gamma_cross (a i) (b i) (a0 i) (b0 i) A B B0).
Qed.
Lemma exponential_prior_integrals s l a b : (forall i, index s i -> 0 < a i /\ 0 < b i /\ 0 < l i) ->
  exists r, exponential_prior (farr s l) (farr s (fun i => a i / b i)) = Ok (farr s r) /\
    forall i, index s i -> expects_pos (gamma_pdf LG (a i) (b i)) (fun x => ln (exponential_pdf (l i) x)) (r i + ln (l i)).
Proof.
  intros P. eexists. split; [apply exponential_prior_entries|]. intros i Hi. destruct (P i Hi) as [A [B L]]. cbv beta.
  pose proof (gamma_linear LG PSI HL HP (a i) (b i) (ln (l i)) (- l i) 0 A B) as H. replace (- l i * (a i / b i) + ln (l i)) with (ln (l i) + - l i * (a i / b i) + 0 * (PSI (a i) - ln (b i))) by ring.
  eapply expects_pos_ext; [|exact H]. intros x X. cbv beta. unfold exponential_pdf. rewrite ln_mult by (exact L || apply exp_pos). rewrite ln_exp. ring.
Qed.
End Gamma.
