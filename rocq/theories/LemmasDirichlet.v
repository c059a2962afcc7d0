(** Iterated integrals over the simplex, and the Dirichlet and beta densities. *)
From Coq Require Import String Reals List Arith Lia Lra.
From Coquelicot Require Import Coquelicot.
From Verif Require Import Res Num Nd RSum ModelParameters ModelMatrix ModelDict ModelNumpy ModelExpFam ModelFamilies LemmasPosDef LemmasNumpy SpecMatrix SpecExpFam SpecFamilies SpecIntegral LemmasExpFam LemmasEntropy LemmasFamilies LemmasGauss LemmasGamma LemmasIntegral LemmasSpace LemmasBeta.
Import List ListNotations.
Open Scope R_scope.
Set Bullet Behavior "Strict Subproofs".

Lemma simplex_ext k : forall r f g v, 0 < r -> (forall x, (forall i, (i <= k)%nat -> 0 < x i) -> rsum (S k) x = r -> f x = g x) -> simplex k r f v -> simplex k r g v.
Proof.
  induction k as [|k IH]; cbn [simplex]; intros r f g v Hr E H.
  - rewrite <- H. symmetry. apply E; [intros; exact Hr|cbn; ring].
  - destruct H as [q [Hq Hv]]. exists q. split; [|exact Hv]. intros t T. apply (IH (r - t) (fun x => f (put (S k) t x))); [lra| |exact (Hq t T)].
    intros x X SU. apply E.
    + intros i Hi. unfold put. destruct (Nat.eqb_spec i (S k)); [lra|apply X; lia].
    + change (rsum (S (S k)) (put (S k) t x) = r). cbn [rsum]. rewrite put_same. rewrite (rsum_ext k (put (S k) t x) x), (put_other _ _ _ k) by (try lia; intros i Hi; apply put_other; lia). cbn [rsum] in SU. lra.
Qed.
Lemma simplex_unique k : forall r f v w, 0 < r -> simplex k r f v -> simplex k r f w -> v = w.
Proof.
  induction k as [|k IH]; cbn [simplex]; intros r f v w Hr H K; [congruence|]. destruct H as [g [Hg Hv]], K as [h [Hh Hw]].
  apply (iv_unique r h); [|exact Hw]. apply (iv_ext r g h v Hr); [|exact Hv]. intros t T. exact (IH (r - t) _ _ _ ltac:(lra) (Hg t T) (Hh t T)).
Qed.
Lemma simplex_scal k : forall r f c v, simplex k r f v -> simplex k r (fun x => c * f x) (c * v).
Proof.
  induction k as [|k IH]; cbn [simplex]; intros r f c v H; [rewrite H; reflexivity|]. destruct H as [g [Hg Hv]]. exists (fun t => c * g t). split; [intros t T; apply (IH (r - t) _ c), Hg, T|apply iv_scal, Hv].
Qed.
Lemma simplex_plus k : forall r f g v w, simplex k r f v -> simplex k r g w -> simplex k r (fun x => f x + g x) (v + w).
Proof.
  induction k as [|k IH]; cbn [simplex]; intros r f g v w H K; [rewrite H, K; reflexivity|]. destruct H as [p [Hp Hv]], K as [q [Hq Hw]]. exists (fun t => p t + q t). split; [|apply iv_plus; assumption].
  intros t T. exact (IH (r - t) _ _ _ _ (Hp t T) (Hq t T)).
Qed.
Lemma rprod_exp n f : rprod n (fun k => exp (f k)) = exp (rsum n f).
Proof. induction n as [|n IH]; cbn [rprod rsum]; [symmetry; apply exp_0|]. rewrite IH, exp_plus. reflexivity. Qed.
Lemma kernel_exp n a x : dirichlet_kernel n a x = exp (rsum n (fun k => (a k - 1) * ln (x k))).
Proof. unfold dirichlet_kernel, Rpower. apply rprod_exp. Qed.
Lemma kernel_put k a t x : dirichlet_kernel (S (S k)) a (put (S k) t x) = Rpower t (a (S k) - 1) * dirichlet_kernel (S k) a x.
Proof.
  unfold dirichlet_kernel. cbn [rprod]. rewrite put_same, (put_other _ _ _ k) by lia. rewrite (rprod_ext k _ (fun i => Rpower (x i) (a i - 1))) by (intros i Hi; rewrite put_other by lia; reflexivity). ring.
Qed.
Section Dirichlet.
Variables LG PSI : R -> R.
Hypotheses (HL : log_gamma LG) (HP : digamma_of LG PSI).
Definition dz (k : nat) (a : nat -> R) : R := exp (dirichlet_log_norm LG (S k) a).
Lemma dz_succ k a : dz (S k) a = dz k a * exp (LG (a (S k)) + LG (rsum (S k) a) - LG (a (S k) + rsum (S k) a)).
Proof. unfold dz, dirichlet_log_norm. rewrite <- exp_plus. f_equal. cbn [rsum]. rewrite (Rplus_comm (a (S k)) (rsum k a + a k)). ring. Qed.
Lemma rsum_pos n f : (forall i, (i <= n)%nat -> 0 < f i) -> 0 < rsum (S n) f.
Proof. induction n as [|n IH]; intros H; cbn [rsum] in *; [pose proof (H 0%nat (le_n _)); lra|]. pose proof (IH (fun i Hi => H i (le_S _ _ Hi))). pose proof (H (S n) (le_n _)). lra. Qed.
Lemma kernel_total k : forall r a, 0 < r -> (forall i, (i <= k)%nat -> 0 < a i) -> simplex k r (dirichlet_kernel (S k) a) (dz k a * Rpower r (rsum (S k) a - 1)).
Proof.
  induction k as [|k IH]; intros r a Hr A.
  - cbn [simplex]. unfold dirichlet_kernel, dz, dirichlet_log_norm. cbn [rprod rsum]. rewrite !Rplus_0_l, Rminus_eq_0, exp_0. reflexivity.
  - cbn [simplex]. exists (fun t => dz k a * bkr r (a (S k)) (rsum (S k) a) t). split.
    + intros t T. pose proof (simplex_scal _ _ _ (Rpower t (a (S k) - 1)) _ (IH (r - t) a ltac:(lra) (fun i Hi => A i (le_S _ _ Hi)))) as H. unfold bkr.
      replace (dz k a * (Rpower t (a (S k) - 1) * Rpower (r - t) (rsum (S k) a - 1))) with (Rpower t (a (S k) - 1) * (dz k a * Rpower (r - t) (rsum (S k) a - 1))) by ring.
      eapply simplex_ext; [lra| |exact H]. intros x _ _. symmetry. apply kernel_put.
    + rewrite dz_succ, Rmult_assoc. replace (rsum (S (S k)) a - 1) with (a (S k) + rsum (S k) a - 1) by (cbn [rsum]; ring). apply iv_scal. apply (beta_r LG HL); [exact Hr|apply A; lia|apply rsum_pos; intros; apply A; lia].
Qed.
Lemma kernel_log k : forall r a i, 0 < r -> (forall i, (i <= k)%nat -> 0 < a i) -> (i <= k)%nat ->
  simplex k r (fun x => ln (x i) * dirichlet_kernel (S k) a x) (dz k a * Rpower r (rsum (S k) a - 1) * (PSI (a i) - PSI (rsum (S k) a) + ln r)).
Proof.
  induction k as [|k IH]; intros r a i Hr A Hi.
  - replace i with 0%nat by lia. cbn [simplex]. unfold dirichlet_kernel, dz, dirichlet_log_norm. cbn [rprod rsum]. rewrite !Rplus_0_l, Rminus_eq_0, exp_0. ring.
  - assert (P : 0 < rsum (S k) a) by (apply rsum_pos; intros; apply A; lia). assert (P' : 0 < a (S k)) by (apply A; lia).
    cbn [simplex]. rewrite dz_succ. replace (rsum (S (S k)) a) with (a (S k) + rsum (S k) a) by (cbn [rsum]; ring). rewrite !Rmult_assoc. destruct (Nat.eq_dec i (S k)) as [->|N].
    + exists (fun t => dz k a * (ln t * bkr r (a (S k)) (rsum (S k) a) t)). split.
      * intros t T. pose proof (simplex_scal _ _ _ (ln t * Rpower t (a (S k) - 1)) _ (kernel_total k (r - t) a ltac:(lra) (fun i Hi => A i (le_S _ _ Hi)))) as H. unfold bkr.
        replace (dz k a * (ln t * (Rpower t (a (S k) - 1) * Rpower (r - t) (rsum (S k) a - 1)))) with (ln t * Rpower t (a (S k) - 1) * (dz k a * Rpower (r - t) (rsum (S k) a - 1))) by ring.
        eapply simplex_ext; [lra| |exact H]. intros x _ _. cbv beta. fold (put (S k) t x). rewrite Nat.eqb_refl, Rmult_assoc. f_equal. symmetry. apply kernel_put.
      * apply iv_scal. rewrite <- Rmult_assoc. apply (beta_ln_r LG HL PSI HP); assumption.
    + exists (fun t => dz k a * ((PSI (a i) - PSI (rsum (S k) a)) * bkr r (a (S k)) (rsum (S k) a) t + ln (r - t) * bkr r (a (S k)) (rsum (S k) a) t)). split.
      * intros t T. pose proof (simplex_scal _ _ _ (Rpower t (a (S k) - 1)) _ (IH (r - t) a i ltac:(lra) (fun i Hi => A i (le_S _ _ Hi)) ltac:(lia))) as H. unfold bkr.
        match type of H with simplex _ _ _ ?v => match goal with |- simplex _ _ _ ?w => replace w with v by ring end end.
        eapply simplex_ext; [lra| |exact H]. intros x _ _. cbv beta. fold (put (S k) t x). destruct (Nat.eqb_spec i (S k)); [contradiction|]. rewrite (kernel_put k a t x). ring.
      * apply iv_scal. pose proof (iv_plus r _ _ _ _ (iv_scal r _ (PSI (a i) - PSI (rsum (S k) a)) _ (beta_r LG HL r (a (S k)) (rsum (S k) a) Hr P' P)) (beta_ln1_r LG HL PSI HP r (a (S k)) (rsum (S k) a) Hr P' P)) as H.
        match type of H with interval _ _ ?v => match goal with |- interval _ _ ?w => replace w with v by ring end end. exact H.
Qed.
Lemma bump_kernel k a x i : (i <= k)%nat -> 0 < x i -> dirichlet_kernel (S k) (fun j => a j + delta j i) x = x i * dirichlet_kernel (S k) a x.
Proof.
  intros Hi X. rewrite !kernel_exp. rewrite (rsum_ext (S k) _ (fun j => (a j - 1) * ln (x j) + delta j i * ln (x j))) by (intros; ring). rewrite rsum_plus, (pick1 (S k) i (fun j => ln (x j))) by lia. rewrite exp_plus, exp_ln by exact X. ring.
Qed.
Lemma kernel_mean k a i : (forall i, (i <= k)%nat -> 0 < a i) -> (i <= k)%nat -> simplex k 1 (fun x => x i * dirichlet_kernel (S k) a x) (dz k a * (a i / rsum (S k) a)).
Proof.
  intros A Hi. assert (P : 0 < rsum (S k) a) by (apply rsum_pos; exact A). set (b := fun j => a j + delta j i).
  assert (B : forall j, (j <= k)%nat -> 0 < b j) by (intros j Hj; unfold b, delta; pose proof (A j Hj); destruct (Nat.eqb j i); lra).
  pose proof (kernel_total k 1 b Rlt_0_1 B) as H. unfold Rpower in H. rewrite ln_1, Rmult_0_r, exp_0, Rmult_1_r in H.
  assert (S1 : rsum (S k) b = rsum (S k) a + 1) by (unfold b; rewrite rsum_plus; f_equal; rewrite (rsum_ext (S k) _ (fun j => delta j i * 1)) by (intros; ring); rewrite (pick1 (S k) i (fun _ => 1)) by lia; reflexivity).
  assert (S2 : rsum (S k) (fun j => LG (b j)) = rsum (S k) (fun j => LG (a j)) + ln (a i)).
  { rewrite (rsum_ext (S k) _ (fun j => LG (a j) + delta j i * ln (a j))); [rewrite rsum_plus, (pick1 (S k) i (fun j => ln (a j))) by lia; reflexivity|]. intros j Hj. unfold b, delta. destruct (Nat.eqb_spec j i) as [->|]; [rewrite (LG_succ LG HL) by (apply A; lia); ring|rewrite Rplus_0_r; ring]. }
  assert (E : dz k b = dz k a * (a i / rsum (S k) a)).
  { unfold dz, dirichlet_log_norm. rewrite S1, S2, (LG_succ LG HL) by exact P. replace (rsum (S k) (fun j => LG (a j)) + ln (a i) - (LG (rsum (S k) a) + ln (rsum (S k) a))) with (rsum (S k) (fun k0 => LG (a k0)) - LG (rsum (S k) a) + (ln (a i) + - ln (rsum (S k) a))) by ring.
    rewrite exp_plus. f_equal. rewrite exp_plus, exp_Ropp, !exp_ln by (try exact P; apply A; lia). reflexivity. }
  rewrite <- E. eapply simplex_ext; [lra| |exact H]. intros x X _. apply bump_kernel; [exact Hi|apply X, Hi].
Qed.
(** ---- relabelled coordinates ---- *)
Lemma relabel_pdf n s t a x : relabels n s t -> dirichlet_pdf LG n a (fun i => x (s i)) = dirichlet_pdf LG n (fun i => a (t i)) x.
Proof.
  intros H. unfold dirichlet_pdf. f_equal.
  - unfold dirichlet_log_norm. rewrite (rsum_relabel n s t a H), (rsum_relabel n s t (fun i => LG (a i)) H). reflexivity.
  - rewrite !kernel_exp. f_equal. rewrite <- (rsum_relabel n t s (fun i => (a (t i) - 1) * ln (x i)) (relabels_sym n s t H)). apply rsum_ext. intros i Hi. rewrite (proj2 (proj1 (H i Hi))). reflexivity.
Qed.
Lemma dexpects_unique n p f v w : dexpects n p f v -> dexpects n p f w -> v = w.
Proof. destruct n as [|k]; [contradiction|]. intros H K. exact (simplex_unique k 1 _ v w Rlt_0_1 (H _ _ (relabels_id (S k))) (K _ _ (relabels_id (S k)))). Qed.
Lemma rsum_relabel' n s t f : relabels n s t -> rsum n (fun i => f (s i)) = rsum n f.
Proof. intros H. exact (rsum_relabel n t s f (relabels_sym n s t H)). Qed.
Lemma dexpects_ext n p f g v : (forall x, (forall i, (i < n)%nat -> 0 < x i) -> rsum n x = 1 -> f x = g x) -> dexpects n p f v -> dexpects n p g v.
Proof.
  destruct n as [|k]; [intros _ []|]. intros E H s t Q. eapply simplex_ext; [lra| |exact (H s t Q)]. intros x X SU. cbv beta. f_equal. apply E; [intros i Hi; apply X; destruct (Q i Hi) as [[W _] _]; lia|]. rewrite (rsum_relabel' (S k) s t x Q). exact SU.
Qed.
Lemma dexpects_scal n p f c v : dexpects n p f v -> dexpects n p (fun x => c * f x) (c * v).
Proof. destruct n as [|k]; [intros []|]. intros H s t Q. eapply simplex_ext; [lra| |exact (simplex_scal k 1 _ c v (H s t Q))]. intros x _ _. cbv beta. ring. Qed.
Lemma dexpects_plus n p f g v w : dexpects n p f v -> dexpects n p g w -> dexpects n p (fun x => f x + g x) (v + w).
Proof. destruct n as [|k]; [intros []|]. intros H K s t Q. eapply simplex_ext; [lra| |exact (simplex_plus k 1 _ _ v w (H s t Q) (K s t Q))]. intros x _ _. cbv beta. ring. Qed.
Lemma dexpects_lift n a f v : (0 < n)%nat -> (forall i, (i < n)%nat -> 0 < a i) ->
  (forall s t, relabels n s t -> simplex (Nat.pred n) 1 (fun x => f (fun i => x (s i)) * dirichlet_kernel n (fun i => a (t i)) x) (dz (Nat.pred n) (fun i => a (t i)) * v)) -> dexpects n (dirichlet_pdf LG n a) f v.
Proof.
  destruct n as [|k]; [lia|]. intros _ A H s t Q. cbn [Nat.pred] in H. pose proof (simplex_scal k 1 _ (/ dz k (fun i => a (t i))) _ (H s t Q)) as K. rewrite <- Rmult_assoc, Rinv_l, Rmult_1_l in K by (apply Rgt_not_eq, exp_pos).
  eapply simplex_ext; [lra| |exact K]. intros x _ _. cbv beta. rewrite (relabel_pdf (S k) s t a x Q). unfold dirichlet_pdf, dz. rewrite exp_Ropp. ring.
Qed.
Variables (n : nat) (a : nat -> R).
Hypotheses (N : (0 < n)%nat) (A : forall i, (i < n)%nat -> 0 < a i).
Lemma dirichlet_total : dexpects n (dirichlet_pdf LG n a) (fun _ => 1) 1.
Proof.
  apply dexpects_lift; [exact N|exact A|]. intros s t Q. destruct n as [|k]; [lia|]. cbn [Nat.pred]. pose proof (kernel_total k 1 (fun i => a (t i)) Rlt_0_1) as H. unfold Rpower in H. rewrite ln_1, Rmult_0_r, exp_0 in H.
  eapply simplex_ext; [lra| |apply H; intros i Hi; apply A; destruct (Q i ltac:(lia)) as [_ [W _]]; exact W]. intros x _ _. cbv beta. ring.
Qed.
Lemma dirichlet_mean i : (i < n)%nat -> dexpects n (dirichlet_pdf LG n a) (fun x => x i) (a i / rsum n a).
Proof.
  intros Hi. apply dexpects_lift; [exact N|exact A|]. intros s t Q. rewrite <- (rsum_relabel n s t a Q). destruct (Q i Hi) as [[W1 W2] _]. destruct n as [|k]; [lia|]. cbn [Nat.pred].
  pose proof (kernel_mean k (fun i => a (t i)) (s i)) as H. cbv beta in H. rewrite W2 in H. apply H; [intros j Hj; apply A; destruct (Q j ltac:(lia)) as [_ [W _]]; exact W|lia].
Qed.
Lemma dirichlet_log i : (i < n)%nat -> dexpects n (dirichlet_pdf LG n a) (fun x => ln (x i)) (PSI (a i) - PSI (rsum n a)).
Proof.
  intros Hi. apply dexpects_lift; [exact N|exact A|]. intros s t Q. rewrite <- (rsum_relabel n s t a Q). destruct (Q i Hi) as [[W1 W2] _]. destruct n as [|k]; [lia|]. cbn [Nat.pred].
  pose proof (kernel_log k 1 (fun i => a (t i)) (s i) Rlt_0_1) as H. cbv beta in H. rewrite W2, ln_1, Rplus_0_r in H. unfold Rpower in H. rewrite ln_1, Rmult_0_r, exp_0, Rmult_1_r in H.
  apply H; [intros j Hj; apply A; destruct (Q j ltac:(lia)) as [_ [W _]]; exact W|lia].
Qed.
Lemma dirichlet_logs c m : (m <= n)%nat -> dexpects n (dirichlet_pdf LG n a) (fun x => rsum m (fun i => c i * ln (x i))) (rsum m (fun i => c i * (PSI (a i) - PSI (rsum n a)))).
Proof.
  induction m as [|m IH]; intros M.
  - cbn [rsum]. pose proof (dexpects_scal n _ _ 0 _ dirichlet_total) as H. rewrite Rmult_0_l in H. eapply dexpects_ext; [|exact H]. intros x _ _. cbv beta. ring.
  - cbn [rsum]. apply dexpects_plus; [apply IH; lia|]. apply dexpects_scal, dirichlet_log. lia.
Qed.
Lemma ln_dirichlet_pdf a0 x : ln (dirichlet_pdf LG n a0 x) = rsum n (fun i => (a0 i - 1) * ln (x i)) + - dirichlet_log_norm LG n a0.
Proof. unfold dirichlet_pdf. rewrite kernel_exp, <- exp_plus, ln_exp. ring. Qed.
Lemma dirichlet_cross a0 : dexpects n (dirichlet_pdf LG n a) (fun x => ln (dirichlet_pdf LG n a0 x)) (rsum n (fun i => (a0 i - 1) * (PSI (a i) - PSI (rsum n a))) - dirichlet_log_norm LG n a0).
Proof.
  pose proof (dexpects_plus n _ _ _ _ _ (dirichlet_logs (fun i => a0 i - 1) n (le_n n)) (dexpects_scal n _ _ (- dirichlet_log_norm LG n a0) _ dirichlet_total)) as H. rewrite Rmult_1_r in H.
  eapply dexpects_ext; [|exact H]. intros x _ _. cbv beta. rewrite ln_dirichlet_pdf. ring.
Qed.
Lemma dirichlet_entropy_int : dexpects n (dirichlet_pdf LG n a) (fun x => - ln (dirichlet_pdf LG n a x)) (dirichlet_entropy_of LG PSI n a).
Proof.
  pose proof (dexpects_scal n _ _ (-1) _ (dirichlet_cross a)) as H. eapply dexpects_ext; [|match type of H with dexpects _ _ _ ?v => replace (dirichlet_entropy_of LG PSI n a) with v; [exact H|] end]; [intros x _ _; cbv beta; ring|].
  rewrite (rsum_ext n _ (fun k => (a k - 1) * PSI (a k) - (a k - 1) * PSI (rsum n a))) by (intros; ring).
  rewrite rsum_minus, rsum_scal_r, rsum_minus, rsum_const. unfold dirichlet_entropy_of, dirichlet_log_norm. ring.
Qed.
End Dirichlet.

(** ---- the beta distribution ---- *)
Section BetaPdf.
Variables LG PSI : R -> R.
Hypotheses (HL : log_gamma LG) (HP : digamma_of LG PSI).
Lemma expects_unit_unique p f v w : expects_unit p f v -> expects_unit p f w -> v = w.
Proof. apply iv_unique. Qed.
Lemma beta_pdf_bk a b x : beta_pdf LG a b x = / exp (LG a + LG b - LG (a + b)) * bk a b x.
Proof. unfold beta_pdf, bk. f_equal. unfold Rminus. rewrite !exp_plus, exp_Ropp. pose proof (exp_pos (LG a)). pose proof (exp_pos (LG b)). pose proof (exp_pos (LG (a + b))). field. lra. Qed.
Lemma unit_lift a b f v : interval 1 (fun x => f x * bk a b x) (exp (LG a + LG b - LG (a + b)) * v) -> expects_unit (beta_pdf LG a b) f v.
Proof.
  intros H. pose proof (iv_scal 1 _ (/ exp (LG a + LG b - LG (a + b))) _ H) as K. rewrite <- Rmult_assoc, Rinv_l, Rmult_1_l in K by (apply Rgt_not_eq, exp_pos).
  eapply (iv_ext 1 _ _ _ Rlt_0_1); [|exact K]. intros x _. cbv beta. rewrite beta_pdf_bk. ring.
Qed.
Lemma beta_total a b : 0 < a -> 0 < b -> expects_unit (beta_pdf LG a b) (fun _ => 1) 1.
Proof. intros A B. apply unit_lift. rewrite Rmult_1_r. eapply (iv_ext 1 _ _ _ Rlt_0_1); [|exact (beta_value LG HL a b A B)]. intros x _. cbv beta. ring. Qed.
Lemma beta_e_log a b : 0 < a -> 0 < b -> expects_unit (beta_pdf LG a b) ln (PSI a - PSI (a + b)).
Proof. intros A B. apply unit_lift. exact (beta_log LG HL PSI HP a b A B). Qed.
Lemma beta_e_log1 a b : 0 < a -> 0 < b -> expects_unit (beta_pdf LG a b) (fun x => ln (1 - x)) (PSI b - PSI (a + b)).
Proof.
  intros A B. apply unit_lift. pose proof (beta_ln1_r LG HL PSI HP 1 a b Rlt_0_1 A B) as H. unfold Rpower at 1 in H. rewrite ln_1, Rmult_0_r, exp_0, Rmult_1_r, Rplus_0_r in H. exact H.
Qed.
Lemma beta_entropy_int a b : 0 < a -> 0 < b -> expects_unit (beta_pdf LG a b) (fun x => - ln (beta_pdf LG a b x)) (LG a + LG b - LG (a + b) - (a - 1) * (PSI a - PSI (a + b)) - (b - 1) * (PSI b - PSI (a + b))).
Proof.
  intros A B. pose proof (iv_plus 1 _ _ _ _ (iv_scal 1 _ (LG a + LG b - LG (a + b)) _ (beta_total a b A B)) (iv_plus 1 _ _ _ _ (iv_scal 1 _ (- (a - 1)) _ (beta_e_log a b A B)) (iv_scal 1 _ (- (b - 1)) _ (beta_e_log1 a b A B)))) as H.
  match type of H with interval _ _ ?v => match goal with |- expects_unit _ _ ?w => replace w with v by ring end end. eapply (iv_ext 1 _ _ _ Rlt_0_1); [|exact H]. intros x X. cbv beta.
  assert (E : ln (beta_pdf LG a b x) = - (LG a + LG b - LG (a + b)) + (a - 1) * ln x + (b - 1) * ln (1 - x)); [|rewrite E; ring]. rewrite beta_pdf_bk, <- exp_Ropp. unfold bk, Rpower. rewrite <- !exp_plus, ln_exp. ring.
Qed.
Lemma beta_mean a b : 0 < a -> 0 < b -> expects_unit (beta_pdf LG a b) (fun x => x) (a / (a + b)).
Proof.
  intros A B. apply unit_lift. pose proof (beta_value LG HL (a + 1) b ltac:(lra) B) as H. rewrite (LG_succ LG HL) in H by exact A. replace (a + 1 + b) with (a + b + 1) in H by ring. rewrite (LG_succ LG HL) in H by lra.
  replace (LG a + ln a + LG b - (LG (a + b) + ln (a + b))) with (LG a + LG b - LG (a + b) + (ln a + - ln (a + b))) in H by ring. rewrite exp_plus, (exp_plus (ln a)), exp_Ropp, !exp_ln in H by lra.
  eapply (iv_ext 1 _ _ _ Rlt_0_1); [|exact H]. intros x X. unfold bk. replace (a + 1 - 1) with a by ring. rewrite (Rpower_succ x a) by lra. ring.
Qed.
Variables gammaln digamma : num -> num.
Hypotheses (HLG : special gammaln LG) (HPSI : special digamma PSI).
Lemma beta_integrals m t : (forall i k, (i < m)%nat -> (k < 2)%nat -> 0 < t i k) ->
  exists h, beta_entropy gammaln digamma (fmat_of m 2 t) = Ok (fnum (rsum m h)) /\
    forall i, (i < m)%nat -> let p := beta_pdf LG (t i 0%nat) (t i 1%nat) in expects_unit p (fun _ => 1) 1 /\ expects_unit p (fun x => - ln (p x)) (h i).
Proof.
  intros P. exists (fun i => dirichlet_entropy_of LG PSI 2 (t i)). split; [apply (beta_entropy_value _ _ LG PSI HLG HPSI m t P)|]. intros i Hi p. assert (A : 0 < t i 0%nat) by (apply P; [exact Hi|lia]). assert (B : 0 < t i 1%nat) by (apply P; [exact Hi|lia]).
  split; [apply beta_total; assumption|]. pose proof (beta_entropy_int _ _ A B) as H. match type of H with expects_unit _ _ ?v => replace (dirichlet_entropy_of LG PSI 2 (t i)) with v; [exact H|] end.
  unfold dirichlet_entropy_of. cbn [rsum INR]. rewrite !Rplus_0_l. ring.
Qed.
(** ---- the functions and the class ---- *)
Lemma dirichlet_fun_integrals n s alpha : (0 < n)%nat -> (forall i, index (n :: s) i -> 0 < alpha i) ->
  exists e l h, get_e_dirichlet (farr (n :: s) alpha) = Ok (farr (n :: s) e) /\ get_e_log_dirichlet digamma (farr (n :: s) alpha) = Ok (farr (n :: s) l) /\ dirichlet_entropy gammaln digamma (farr (n :: s) alpha) = Ok (farr s h) /\
    forall j, index s j -> let p := dirichlet_pdf LG n (fun k => alpha (k :: j)) in
      (forall k, (k < n)%nat -> dexpects n p (fun x => x k) (e (k :: j)) /\ dexpects n p (fun x => ln (x k)) (l (k :: j))) /\ dexpects n p (fun x => - ln (p x)) (h j).
Proof.
  intros N P. eexists _, _, _. split; [apply dirichlet_mean_entries; exact P|]. split; [apply (e_log_dirichlet_value _ PSI HPSI); exact P|]. split; [apply (dirichlet_entropy_value _ _ LG PSI HLG HPSI); assumption|].
  intros j Hj p. cbv beta. cbn [tl]. assert (A : forall k, (k < n)%nat -> 0 < alpha (k :: j)) by (intros k Hk; apply P; apply in_product_cons; split; assumption).
  split; [|apply dirichlet_entropy_int; assumption]. intros k Hk. split; [apply (dirichlet_mean LG HL n (fun k => alpha (k :: j)))|apply (dirichlet_log LG PSI HL HP n (fun k => alpha (k :: j)))]; assumption.
Qed.
Lemma dirichlet_class_integrals d n s alpha : (0 < n)%nat -> holds d "alpha" (farr (n :: s) alpha) -> (forall i, index (n :: s) i -> 0 < alpha i) ->
  exists e l h, dp_e d = Ok (farr (n :: s) e) /\ dp_e_log digamma d = Ok (farr (n :: s) l) /\ dp_entropy gammaln digamma d = Ok (farr s h) /\
    forall j, index s j -> let p := dirichlet_pdf LG n (fun k => alpha (k :: j)) in
      (forall k, (k < n)%nat -> dexpects n p (fun x => x k) (e (k :: j)) /\ dexpects n p (fun x => ln (x k)) (l (k :: j))) /\ dexpects n p (fun x => - ln (p x)) (h j).
Proof. intros N Ha P. unfold dp_e, dp_e_log, dp_entropy. rewrite (member_holds _ _ _ Ha). cbn [rbind]. apply dirichlet_fun_integrals; assumption. Qed.
Lemma dirichlet_prior_integrals n a0 a : (0 < n)%nat -> (forall i, (i < n)%nat -> 0 < a i) ->
  exists l r, get_e_log_dirichlet digamma (fvec_of n a) = Ok (fvec_of n l) /\ dirichlet_prior (fvec_of n a0) (fvec_of n l) = Ok (fnum r) /\
    dexpects n (dirichlet_pdf LG n a) (fun x => ln (dirichlet_pdf LG n a0 x)) (r - dirichlet_log_norm LG n a0).
Proof.
  intros N A. exists (fun k => PSI (a k) - PSI (rsum n a)). eexists. split; [|split; [apply dirichlet_prior_entries|apply dirichlet_cross; assumption]].
  unfold fvec_of. rewrite (e_log_dirichlet_value _ PSI HPSI).
  - apply Ok_eq. apply farr_ext. intros i _. cbn [nth]. reflexivity.
  - intros i Hi. apply A. apply in_product_cons_inv in Hi as [k [r [-> [Hk _]]]]. exact Hk.
Qed.
End BetaPdf.
