(** Iterated integrals over R^n: linearity, products, triangular changes of variables, and the multivariate normal density. *)
From Coq Require Import String Reals List Arith Lia Lra.
From Coquelicot Require Import Coquelicot.
From Verif Require Import Res Num Nd RSum ModelParameters ModelMatrix ModelDict ModelNumpy ModelExpFam ModelFamilies LemmasPosDef LemmasNumpy SpecMatrix SpecExpFam SpecFamilies SpecIntegral LemmasExpFam LemmasEntropy LemmasFamilies LemmasDet LemmasMvnBound LemmasGauss LemmasIntegral.
Import List ListNotations.
Open Scope R_scope.
Set Bullet Behavior "Strict Subproofs".

Definition put (k : nat) (t : R) (x : nat -> R) (i : nat) : R := if Nat.eqb i k then t else x i.
Lemma put_same k t x : put k t x k = t.
Proof. unfold put. rewrite Nat.eqb_refl. reflexivity. Qed.
Lemma put_other k t x i : i <> k -> put k t x i = x i.
Proof. intros H. unfold put. destruct (Nat.eqb_spec i k); [contradiction|reflexivity]. Qed.
Lemma space_ext n f g v : (forall x, f x = g x) -> space n f v -> space n g v.
Proof.
  revert f g v. induction n as [|n IH]; intros f g v E H; cbn [space] in *; [rewrite <- E; exact H|].
  destruct H as [h [H1 H2]]. exists h. split; [|exact H2]. intros t. eapply IH; [|apply H1]. intros x. cbv beta. apply E.
Qed.
Lemma space_unique n f v w : space n f v -> space n f w -> v = w.
Proof.
  revert f v w. induction n as [|n IH]; intros f v w H K; cbn [space] in *; [congruence|].
  destruct H as [h [H1 H2]]. destruct K as [k [K1 K2]]. apply (line_unique h v w H2). eapply line_ext; [|exact K2]. intros t. exact (IH _ _ _ (K1 t) (H1 t)).
Qed.
Lemma space_scal n f c v : space n f v -> space n (fun x => c * f x) (c * v).
Proof.
  revert f v. induction n as [|n IH]; intros f v H; cbn [space] in *; [rewrite H; reflexivity|].
  destruct H as [h [H1 H2]]. exists (fun t => c * h t). split; [intros t; exact (IH _ _ (H1 t))|]. apply line_scal, H2.
Qed.
Lemma space_plus n f g v w : space n f v -> space n g w -> space n (fun x => f x + g x) (v + w).
Proof.
  revert f g v w. induction n as [|n IH]; intros f g v w H K; cbn [space] in *; [rewrite H, K; reflexivity|].
  destruct H as [h [H1 H2]]. destruct K as [k [K1 K2]]. exists (fun t => h t + k t). split; [intros t; exact (IH _ _ _ _ (H1 t) (K1 t))|]. apply line_plus; assumption.
Qed.
Lemma space_zero n : space n (fun _ => 0) 0.
Proof.
  induction n as [|n IH]; cbn [space]; [reflexivity|]. exists (fun _ => 0). split; [intros t; exact IH|]. pose proof (line_scal _ 0 _ gau_0_line) as H. rewrite Rmult_0_l in H. eapply line_ext; [|exact H]. intros x. cbv beta. ring.
Qed.
Lemma space_rsum n k f v : (forall i, (i < k)%nat -> space n (f i) (v i)) -> space n (fun x => rsum k (fun i => f i x)) (rsum k v).
Proof.
  induction k as [|k IH]; intros H; cbn [rsum]; [apply space_zero|]. apply (space_plus n (fun x => rsum k (fun i => f i x)) (f k)); [apply IH; intros; apply H; lia|apply H; lia].
Qed.
Lemma space_prod n f v : (forall i, (i < n)%nat -> line (f i) (v i)) -> space n (fun x => rprod n (fun i => f i (x i))) (rprod n v).
Proof.
  induction n as [|n IH]; intros H; cbn [space rprod]; [reflexivity|]. exists (fun t => rprod n v * f n t). split.
  - intros t. pose proof (space_scal n _ (f n t) _ (IH (fun i Hi => H i ltac:(lia)))) as Q. rewrite Rmult_comm in Q. eapply space_ext; [|exact Q]. intros x. cbv beta. rewrite Nat.eqb_refl, Rmult_comm. f_equal.
    apply rprod_ext. intros k Hk. destruct (Nat.eqb_spec k n); [lia|reflexivity].
  - apply line_scal, H. lia.
Qed.
(** y_i = d_i x_i + s_i(x_(i+1), ..., x_(n-1)) *)
Lemma space_tri n : forall F v d (s : nat -> (nat -> R) -> R), (forall i, (i < n)%nat -> 0 < d i) ->
  (forall i x y, (i < n)%nat -> (forall j, (i < j < n)%nat -> x j = y j) -> s i x = s i y) -> (forall x y, (forall i, (i < n)%nat -> x i = y i) -> F x = F y) ->
  space n F v -> space n (fun x => F (fun i => d i * x i + s i x)) (v / rprod n d).
Proof.
  induction n as [|n IH]; intros F v d s Hd Hs HF H.
  - cbn [space rprod] in *. rewrite <- H. unfold Rdiv. rewrite Rinv_1, Rmult_1_r. apply HF. intros; lia.
  - cbn [space] in *. destruct H as [g [H1 H2]]. set (c := s n (fun _ => 0)).
    assert (Pd : 0 < rprod n d) by (apply rprod_pos; intros; apply Hd; lia). assert (Dn : 0 < d n) by (apply Hd; lia).
    exists (fun t => g (d n * t + c) / rprod n d). split.
    + intros t. pose proof (IH (fun y => F (put n (d n * t + c) y)) (g (d n * t + c)) d (fun i x => s i (put n t x))) as Q.
      assert (Q' := Q ltac:(intros; apply Hd; lia)); clear Q. assert (Q := fun a b => Q' a b (H1 (d n * t + c))); clear Q'.
      assert (Q1 := Q ltac:(intros i x y Hi E; apply Hs; [lia|]; intros j Hj; unfold put; destruct (Nat.eqb_spec j n); [reflexivity|apply E; lia])); clear Q.
      assert (Q := Q1 ltac:(intros x y E; apply HF; intros i Hi; unfold put; destruct (Nat.eqb_spec i n); [reflexivity|apply E; lia])); clear Q1.
      eapply space_ext; [|exact Q]. intros x. cbv beta. apply HF. intros i Hi. unfold put at 1. destruct (Nat.eqb_spec i n) as [->|N]; [|reflexivity].
      unfold c. f_equal. apply Hs; [lia|]. intros j Hj. lia.
    + pose proof (line_scal _ (/ (rprod n d * d n)) _ (line_affine g v (d n) c Dn H2)) as Q. cbn [rprod]. replace (v / (rprod n d * d n)) with (/ (rprod n d * d n) * v) by (unfold Rdiv; ring).
      eapply line_ext; [|exact Q]. intros t. cbv beta. field. lra.
Qed.

(** ---- the standard normal distribution on R^n ---- *)
Definition std (n : nat) (y : nat -> R) : R := rprod n (fun k => normal_pdf 0 1 (y k)).
Lemma rprod_const1 n : rprod n (fun _ => 1) = 1.
Proof. induction n as [|n IH]; cbn; [reflexivity|]. rewrite IH. ring. Qed.
Lemma rprod_single n k f : (k < n)%nat -> (forall i, (i < n)%nat -> i <> k -> f i = 1) -> rprod n f = f k.
Proof.
  induction n as [|n IH]; intros Hk H; [lia|]. cbn. destruct (Nat.eq_dec k n) as [->|N].
  - rewrite (rprod_ext n f (fun _ => 1)) by (intros; apply H; lia). rewrite rprod_const1. ring.
  - rewrite IH by (try lia; intros; apply H; lia). rewrite (H n) by lia. ring.
Qed.
Lemma rprod_has_zero n k f : (k < n)%nat -> f k = 0 -> rprod n f = 0.
Proof. induction n as [|n IH]; intros Hk H; [lia|]. cbn. destruct (Nat.eq_dec k n) as [->|N]; [rewrite H; ring|]. rewrite IH by (try lia; exact H). ring. Qed.
(** integrated in the order of the coordinates *)
Definition iexpects (n : nat) (p f : (nat -> R) -> R) (v : R) : Prop := space n (fun x => f x * p x) v.
Lemma std_product n (q : nat -> R -> R) (v : nat -> R) : (forall k, (k < n)%nat -> expects (normal_pdf 0 1) (q k) (v k)) -> iexpects n (std n) (fun y => rprod n (fun k => q k (y k))) (rprod n v).
Proof. intros H. unfold iexpects, std. eapply space_ext; [|apply (space_prod n (fun k t => q k t * normal_pdf 0 1 t) v H)]. intros y. cbv beta. apply rprod_mult. Qed.
Lemma std_0 n : iexpects n (std n) (fun _ => 1) 1.
Proof.
  pose proof (std_product n (fun _ _ => 1) (fun _ => 1) (fun k _ => normal_total 0 1 Rlt_0_1)) as H. rewrite rprod_const1 in H. unfold iexpects in *. eapply space_ext; [|exact H]. intros y. cbv beta. rewrite rprod_const1. reflexivity.
Qed.
Lemma std_1 n k : (k < n)%nat -> iexpects n (std n) (fun y => y k) 0.
Proof.
  intros Hk. pose proof (std_product n (fun i t => if Nat.eqb i k then t else 1) (fun i => if Nat.eqb i k then 0 else 1)) as H.
  assert (Q : iexpects n (std n) (fun y => rprod n (fun i => if Nat.eqb i k then y i else 1)) (rprod n (fun i => if Nat.eqb i k then 0 else 1))).
  { apply H. intros i Hi. destruct (Nat.eqb i k); [exact (normal_mean 0 1 Rlt_0_1)|exact (normal_total 0 1 Rlt_0_1)]. }
  clear H.
  rewrite (rprod_has_zero n k) in Q by (try exact Hk; rewrite Nat.eqb_refl; reflexivity). unfold iexpects in *. eapply space_ext; [|exact Q]. intros y. cbv beta. f_equal.
  rewrite (rprod_single n k); [rewrite Nat.eqb_refl; reflexivity|exact Hk|]. intros i _ N. destruct (Nat.eqb_spec i k); [contradiction|reflexivity].
Qed.
Lemma std_2 n k l : (k < n)%nat -> (l < n)%nat -> iexpects n (std n) (fun y => y k * y l) (delta k l).
Proof.
  intros Hk Hl. pose proof (std_product n (fun i t => (if Nat.eqb i k then t else 1) * (if Nat.eqb i l then t else 1)) (fun i => if Nat.eqb i k then (if Nat.eqb i l then 1 else 0) else (if Nat.eqb i l then 0 else 1))) as H.
  assert (Q : iexpects n (std n) (fun y => rprod n (fun i => (if Nat.eqb i k then y i else 1) * (if Nat.eqb i l then y i else 1))) (rprod n (fun i => if Nat.eqb i k then (if Nat.eqb i l then 1 else 0) else (if Nat.eqb i l then 0 else 1)))).
  { apply H. intros i Hi. destruct (Nat.eqb i k), (Nat.eqb i l).
    - pose proof (normal_second 0 1 Rlt_0_1) as X. replace (0 * 0 + / 1) with 1 in X by field. exact X.
    - apply (expects_ext _ (fun t => t)); [intros; ring|exact (normal_mean 0 1 Rlt_0_1)].
    - apply (expects_ext _ (fun t => t)); [intros; ring|exact (normal_mean 0 1 Rlt_0_1)].
    - apply (expects_ext _ (fun t => 1)); [intros; ring|exact (normal_total 0 1 Rlt_0_1)]. }
  clear H.
  replace (delta k l) with (rprod n (fun i => if Nat.eqb i k then (if Nat.eqb i l then 1 else 0) else (if Nat.eqb i l then 0 else 1))).
  - unfold iexpects in *. eapply space_ext; [|exact Q]. intros y. cbv beta. f_equal. rewrite rprod_mult.
    rewrite (rprod_single n k (fun i => if Nat.eqb i k then y i else 1)), (rprod_single n l (fun i => if Nat.eqb i l then y i else 1)); rewrite ?Nat.eqb_refl; try assumption; [reflexivity| |].
    + intros i _ N. destruct (Nat.eqb_spec i l); [contradiction|reflexivity].
    + intros i _ N. destruct (Nat.eqb_spec i k); [contradiction|reflexivity].
  - unfold delta. destruct (Nat.eqb_spec k l) as [->|N].
    + rewrite (rprod_single n l); [rewrite Nat.eqb_refl; reflexivity|exact Hl|]. intros i _ N. destruct (Nat.eqb_spec i l); [contradiction|reflexivity].
    + apply (rprod_has_zero n k); [exact Hk|]. rewrite Nat.eqb_refl. destruct (Nat.eqb_spec k l); [contradiction|reflexivity].
Qed.
Lemma iexpects_ext n p f g v : (forall x, f x = g x) -> iexpects n p f v -> iexpects n p g v.
Proof. intros E. apply space_ext. intros x. rewrite E. reflexivity. Qed.
Lemma iexpects_scal n p c f v : iexpects n p f v -> iexpects n p (fun x => c * f x) (c * v).
Proof. intros H. eapply space_ext; [|apply (space_scal n _ c _ H)]. intros x. cbv beta. ring. Qed.
Lemma iexpects_plus n p f g v w : iexpects n p f v -> iexpects n p g w -> iexpects n p (fun x => f x + g x) (v + w).
Proof. intros H K. eapply space_ext; [|apply (space_plus n _ _ _ _ H K)]. intros x. cbv beta. ring. Qed.
Lemma iexpects_rsum n p k f v : (forall i, (i < k)%nat -> iexpects n p (f i) (v i)) -> iexpects n p (fun x => rsum k (fun i => f i x)) (rsum k v).
Proof. intros H. eapply space_ext; [|apply (space_rsum n k _ _ H)]. intros x. cbv beta. apply rsum_scal_r. Qed.
Lemma std_quad n a b N : iexpects n (std n) (fun y => a + rsum n (fun k => b k * y k) + rsum n (fun k => rsum n (fun l => N k l * (y k * y l)))) (a + rsum n (fun k => N k k)).
Proof.
  replace (a + rsum n (fun k => N k k)) with (a * 1 + rsum n (fun k => b k * 0) + rsum n (fun k => rsum n (fun l => N k l * delta k l))).
  - apply iexpects_plus; [apply iexpects_plus|].
    + eapply iexpects_ext; [|apply (iexpects_scal n _ a _ _ (std_0 n))]. intros; cbv beta; ring.
    + apply (iexpects_rsum n _ n (fun k y => b k * y k) (fun k => b k * 0)). intros k Hk. apply iexpects_scal, std_1, Hk.
    + apply (iexpects_rsum n _ n (fun k y => rsum n (fun l => N k l * (y k * y l))) (fun k => rsum n (fun l => N k l * delta k l))). intros k Hk.
      apply (iexpects_rsum n _ n (fun l y => N k l * (y k * y l)) (fun l => N k l * delta k l)). intros l Hl. apply iexpects_scal, std_2; assumption.
  - rewrite (rsum_zero n (fun k => b k * 0)) by (intros; ring). rewrite (rsum_ext n (fun k => rsum n (fun l => N k l * delta k l)) (fun k => N k k)); [ring|]. intros k Hk.
    rewrite (rsum_ext n _ (fun l => if Nat.eqb k l then N k l else 0)) by (intros l _; unfold delta; destruct (Nat.eqb k l); ring). apply (rsum_delta_r n k (fun l => N k l) Hk).
Qed.

(** ---- the multivariate normal distribution ---- *)
Section Mvn.
Variables (n : nat) (m : nat -> R) (L K : nat -> nat -> R).
Hypotheses (HU : forall i k, (i < k)%nat -> K i k = 0) (HD : forall k, (k < n)%nat -> 0 < K k k) (HK : forall i j, (i < n)%nat -> (j < n)%nat -> L i j = rsum n (fun k => K i k * K j k)).
Definition yof (x : nat -> R) (k : nat) : R := rsum n (fun i => K i k * (x i - m i)).
Definition sof (k : nat) (x : nat -> R) : R := rsum n (fun i => if Nat.ltb k i then K i k * (x i - m i) else 0) - K k k * m k.
Lemma yof_tri x k : (k < n)%nat -> yof x k = K k k * x k + sof k x.
Proof.
  intros Hk. unfold yof, sof. rewrite (rsum_ext n _ (fun i => (if Nat.eqb i k then K i k * (x i - m i) else 0) + (if Nat.ltb k i then K i k * (x i - m i) else 0))).
  - rewrite rsum_plus, (rsum_delta n k (fun i => K i k * (x i - m i)) Hk). ring.
  - intros i Hi. destruct (Nat.eqb_spec i k) as [->|N]; [rewrite Nat.ltb_irrefl; ring|]. destruct (Nat.ltb_spec k i); [ring|]. rewrite HU by lia. ring.
Qed.
Lemma yof_quad x : quad n L (fun i => x i - m i) = rsum n (fun k => yof x k * yof x k).
Proof.
  unfold quad, yof. rewrite (rsum_ext n (fun k => _ * _) (fun k => rsum n (fun i => rsum n (fun j => K i k * (x i - m i) * (K j k * (x j - m j)))))) by (intros; apply rsum_mult).
  symmetry. rewrite rsum_swap. apply rsum_ext. intros i Hi. rewrite rsum_swap. apply rsum_ext. intros j Hj. rewrite HK by assumption. rewrite <- rsum_scal_l, <- rsum_scal_r. apply rsum_ext. intros; ring.
Qed.
Lemma mvn_pdf_std x : mvn_pdf n m L x = rprod n (fun k => K k k) * std n (yof x).
Proof.
  assert (P : 0 < rprod n (fun k => K k k)) by (apply rprod_pos, HD). assert (S : forall k, (k < n)%nat -> 0 < normal_pdf 0 1 (yof x k)) by (intros; apply normal_pdf_pos; lra).
  assert (Q : 0 < std n (yof x)) by (apply rprod_pos, S). rewrite <- (exp_ln (rprod n (fun k => K k k) * std n (yof x))) by (apply Rmult_lt_0_compat; assumption).
  unfold mvn_pdf, mvn_kernel. rewrite <- exp_plus. f_equal. rewrite ln_mult by assumption. unfold std. rewrite !ln_rprod by assumption. unfold mvn_log_norm. rewrite (det_LLt n L K HU HK), ln_rprod by (intros k Hk; specialize (HD k Hk); nra).
  rewrite (rsum_ext n (fun k => ln (K k k * K k k)) (fun k => 2 * ln (K k k))) by (intros k Hk; rewrite ln_mult by (apply HD, Hk); ring). rewrite rsum_scal_l.
  rewrite (rsum_ext n (fun k => ln (normal_pdf 0 1 (yof x k))) (fun k => - / 2 * ln (2 * PI) + - / 2 * (yof x k * yof x k))).
  - rewrite rsum_plus, rsum_const, rsum_scal_l, yof_quad. field.
  - intros k _. rewrite ln_normal_pdf by lra. assert (E : ln (sqrt (1 / (2 * PI))) = - / 2 * ln (2 * PI)).
    + pose proof PI_RGT_0 as PP. unfold Rdiv. rewrite Rmult_1_l, <- Rpower_sqrt by (apply Rinv_0_lt_compat; lra). unfold Rpower. rewrite ln_exp, ln_Rinv by lra. ring.
    + rewrite E. field.
Qed.
Lemma mvn_change F v : (forall x y, (forall i, (i < n)%nat -> x i = y i) -> F x = F y) -> iexpects n (std n) F v -> iexpects n (mvn_pdf n m L) (fun x => F (yof x)) v.
Proof.
  intros HF H. assert (P : 0 < rprod n (fun k => K k k)) by (apply rprod_pos, HD).
  pose proof (space_tri n (fun y => F y * std n y) v (fun k => K k k) sof HD) as Q.
  assert (Q1 := Q ltac:(intros i x y Hi E; unfold sof; f_equal; apply rsum_ext; intros j Hj; destruct (Nat.ltb_spec i j); [rewrite E by lia; reflexivity|reflexivity])); clear Q.
  assert (Q := Q1 ltac:(intros x y E; cbv beta; f_equal; [apply HF, E|unfold std; apply rprod_ext; intros k Hk; rewrite E by exact Hk; reflexivity]) H); clear Q1.
  apply (space_scal n _ (rprod n (fun k => K k k))) in Q. replace (rprod n (fun k => K k k) * (v / rprod n (fun k => K k k))) with v in Q by (field; lra).
  eapply space_ext; [|exact Q]. intros x. cbv beta. rewrite mvn_pdf_std. rewrite (HF (fun i => K i i * x i + sof i x) (yof x)) by (intros; symmetry; apply yof_tri; assumption).
  assert (E : std n (fun i => K i i * x i + sof i x) = std n (yof x)) by (unfold std; apply rprod_ext; intros k Hk; rewrite yof_tri by exact Hk; reflexivity). rewrite E. ring.
Qed.
Variable C : nat -> nat -> R.
Hypotheses (HC : inverse_of n L C) (SC : symmetric n C).
Definition Bof (i k : nat) : R := rsum n (fun a => C i a * K a k).
Lemma Bof_inverse x i : (i < n)%nat -> rsum n (fun k => Bof i k * yof x k) = x i - m i.
Proof.
  intros Hi. unfold Bof, yof. rewrite (rsum_ext n _ (fun k => rsum n (fun a => rsum n (fun j => C i a * K a k * (K j k * (x j - m j)))))) by (intros; apply rsum_mult).
  rewrite rsum_swap. rewrite (rsum_ext n _ (fun a => rsum n (fun j => C i a * L a j * (x j - m j)))).
  - rewrite rsum_swap. rewrite (rsum_ext n _ (fun j => if Nat.eqb i j then x j - m j else 0)); [apply (rsum_delta_r n i (fun j => x j - m j) Hi)|]. intros j Hj. rewrite rsum_scal_r. rewrite (proj2 (HC i j Hi Hj)). unfold delta. destruct (Nat.eqb i j); ring.
  - intros a Ha. rewrite rsum_swap. apply rsum_ext. intros j Hj. rewrite HK by assumption. rewrite <- rsum_scal_l, <- rsum_scal_r. apply rsum_ext. intros; ring.
Qed.
Lemma Bof_cov i j : (i < n)%nat -> (j < n)%nat -> rsum n (fun k => Bof i k * Bof j k) = C i j.
Proof.
  intros Hi Hj. unfold Bof. rewrite (rsum_ext n _ (fun k => rsum n (fun a => rsum n (fun b => C i a * K a k * (C j b * K b k))))) by (intros; apply rsum_mult).
  rewrite rsum_swap. rewrite (rsum_ext n _ (fun a => if Nat.eqb a j then C i a else 0)); [apply (rsum_delta n j (fun a => C i a) Hj)|]. intros a Ha.
  rewrite rsum_swap. rewrite (rsum_ext n _ (fun b => C i a * (L a b * C b j))).
  - rewrite rsum_scal_l, (proj1 (HC a j Ha Hj)). unfold delta. destruct (Nat.eqb a j); ring.
  - intros b Hb. rewrite HK by assumption. rewrite (SC b j) by assumption. rewrite <- rsum_scal_r, <- rsum_scal_l. apply rsum_ext. intros; ring.
Qed.
Lemma mvn_quadratic a b M : iexpects n (mvn_pdf n m L) (fun x => a + rsum n (fun i => b i * (x i - m i)) + rsum n (fun i => rsum n (fun j => M i j * ((x i - m i) * (x j - m j))))) (a + rsum n (fun i => rsum n (fun j => M i j * C i j))).
Proof.
  set (F := fun y => a + rsum n (fun i => b i * rsum n (fun k => Bof i k * y k)) + rsum n (fun i => rsum n (fun j => M i j * (rsum n (fun k => Bof i k * y k) * rsum n (fun k => Bof j k * y k))))).
  assert (E : iexpects n (std n) F (a + rsum n (fun i => rsum n (fun j => M i j * C i j)))).
  { pose proof (std_quad n a (fun k => rsum n (fun i => b i * Bof i k)) (fun k l => rsum n (fun i => rsum n (fun j => M i j * (Bof i k * Bof j l))))) as H. cbv beta in H.
    replace (rsum n (fun k => rsum n (fun i => rsum n (fun j => M i j * (Bof i k * Bof j k))))) with (rsum n (fun i => rsum n (fun j => M i j * C i j))) in H.
    - eapply iexpects_ext; [|exact H]. intros y. cbv beta. unfold F. f_equal; [f_equal|].
      + rewrite (rsum_ext n _ (fun k => rsum n (fun i => b i * Bof i k * y k))) by (intros; symmetry; apply rsum_scal_r). rewrite rsum_swap. apply rsum_ext. intros i Hi. rewrite <- rsum_scal_l. apply rsum_ext. intros; ring.
      + rewrite (rsum_ext n _ (fun k => rsum n (fun i => rsum n (fun l => rsum n (fun j => M i j * (Bof i k * Bof j l) * (y k * y l)))))).
        * rewrite rsum_swap. apply rsum_ext. intros i Hi. rewrite (rsum_ext n _ (fun k => rsum n (fun j => rsum n (fun l => M i j * (Bof i k * Bof j l) * (y k * y l))))) by (intros; apply rsum_swap).
          rewrite rsum_swap. apply rsum_ext. intros j Hj. rewrite rsum_mult, <- rsum_scal_l. apply rsum_ext. intros k Hk. rewrite <- rsum_scal_l. apply rsum_ext. intros; ring.
        * intros k Hk. rewrite rsum_swap. apply rsum_ext. intros l Hl. rewrite <- rsum_scal_r. apply rsum_ext. intros i Hi. rewrite <- rsum_scal_r. reflexivity.
    - symmetry. rewrite rsum_swap. apply rsum_ext. intros i Hi. rewrite rsum_swap. apply rsum_ext. intros j Hj. rewrite rsum_scal_l, Bof_cov by assumption. reflexivity. }
  assert (X : forall x y, (forall i, (i < n)%nat -> x i = y i) -> F x = F y).
  { intros x y Hxy. unfold F. assert (R : forall i, rsum n (fun k => Bof i k * x k) = rsum n (fun k => Bof i k * y k)) by (intros i; apply rsum_ext; intros k Hk; rewrite Hxy by exact Hk; reflexivity).
    f_equal; [f_equal|]; apply rsum_ext; intros i _; [rewrite R; reflexivity|]. apply rsum_ext. intros j _. rewrite !R. reflexivity. }
  pose proof (mvn_change F _ X E) as Q. eapply iexpects_ext; [|exact Q]. intros x. cbv beta. unfold F. f_equal; [f_equal|]; apply rsum_ext; intros i Hi; [rewrite Bof_inverse by exact Hi; reflexivity|]. apply rsum_ext. intros j Hj. rewrite !Bof_inverse by assumption. reflexivity.
Qed.
End Mvn.

(** ---- relabelled coordinates ---- *)
Lemma relabels_sym n s t : relabels n s t -> relabels n t s.
Proof. intros H i Hi. destruct (H i Hi) as [A B]. split; assumption. Qed.
Lemma rsum_relabel n s t f : relabels n s t -> rsum n (fun i => f (t i)) = rsum n f.
Proof.
  intros H. rewrite (rsum_ext n (fun i => f (t i)) (fun i => rsum n (fun j => if Nat.eqb j (t i) then f j else 0))).
  - rewrite rsum_swap. apply rsum_ext. intros j Hj. destruct (H j Hj) as [[A B] _]. rewrite (rsum_single n (s j)); [rewrite B, Nat.eqb_refl; reflexivity|exact A|].
    intros i Hi N. destruct (Nat.eqb_spec j (t i)) as [E|]; [|reflexivity]. exfalso. apply N. destruct (H i Hi) as [_ [_ Q]]. rewrite E, Q. reflexivity.
  - intros i Hi. destruct (H i Hi) as [_ [A _]]. symmetry. apply (rsum_delta n (t i) f A).
Qed.
Definition pull {A} (t : nat -> nat) (L : nat -> nat -> A) (i j : nat) : A := L (t i) (t j).
Lemma rsum2_relabel n s t f : relabels n s t -> rsum n (fun i => rsum n (fun j => pull t f i j)) = rsum n (fun i => rsum n (fun j => f i j)).
Proof. intros H. unfold pull. rewrite <- (rsum_relabel n s t (fun i => rsum n (fun j => f i j)) H). apply rsum_ext. intros i _. apply (rsum_relabel n s t (fun j => f (t i) j) H). Qed.
Lemma pull_det n s t L : relabels n s t -> det n (pull t L) = det n L.
Proof.
  intros H. set (P := fun i a => delta (t i) a). set (Q := fun a j => delta a (t j)).
  assert (E : det n (pull t L) = det n (mmul n P (mmul n L Q))).
  { apply det_ext. intros i j Hi Hj. unfold mmul, P, Q, pull. destruct (H i Hi) as [_ [A _]]. destruct (H j Hj) as [_ [B _]].
    rewrite (rsum_single n (t i)); [|exact A|intros k _ N; unfold delta; destruct (Nat.eqb_spec (t i) k); [congruence|ring]]. rewrite (rsum_single n (t j)); [|exact B|intros k _ N; unfold delta; destruct (Nat.eqb_spec k (t j)); [congruence|ring]].
    unfold delta. rewrite !Nat.eqb_refl. ring. }
  rewrite E, !det_mmul. assert (I : det n P * det n Q = 1).
  { rewrite <- det_mmul. rewrite (det_ext n _ (fun i j => if Nat.eqb i j then 1 else 0)); [rewrite det_diag; apply rprod_const1|]. intros i j Hi Hj. unfold mmul, P, Q. destruct (H i Hi) as [_ [A A']]. destruct (H j Hj) as [_ [_ B']].
    rewrite (rsum_single n (t i)); [|exact A|intros k _ N; unfold delta; destruct (Nat.eqb_spec (t i) k); [congruence|ring]]. unfold delta. rewrite Nat.eqb_refl. destruct (Nat.eqb_spec (t i) (t j)) as [X|X], (Nat.eqb_spec i j) as [Y|Y]; try ring; exfalso; [|congruence].
    apply Y. rewrite <- A', <- B', X. reflexivity. }
  replace (det n P * (det n L * det n Q)) with (det n L * (det n P * det n Q)) by ring. rewrite I. ring.
Qed.
Lemma pull_quad n s t L m x : relabels n s t -> quad n (pull t L) (fun i => x i - m (t i)) = quad n L (fun i => x (s i) - m i).
Proof.
  intros H. unfold quad. rewrite <- (rsum2_relabel n s t (fun i j => (x (s i) - m i) * L i j * (x (s j) - m j)) H). unfold pull. apply rsum_ext. intros i Hi. apply rsum_ext. intros j Hj.
  rewrite (proj2 (proj2 (H i Hi))), (proj2 (proj2 (H j Hj))). reflexivity.
Qed.
Lemma pull_pdf n s t m L x : relabels n s t -> mvn_pdf n (fun i => m (t i)) (pull t L) x = mvn_pdf n m L (fun i => x (s i)).
Proof. intros H. unfold mvn_pdf, mvn_kernel, mvn_log_norm. rewrite (pull_det n s t L H), (pull_quad n s t L m x H). reflexivity. Qed.
Lemma pull_sym n s t L : relabels n s t -> symmetric n L -> symmetric n (pull t L).
Proof. intros H S i j Hi Hj. unfold pull. apply S; [apply (H i Hi)|apply (H j Hj)]. Qed.
Lemma pull_posdef n s t L : relabels n s t -> posdef n L -> posdef n (pull t L).
Proof.
  intros H P x [i [Hi Ni]]. pose proof (pull_quad n s t L (fun _ => 0) x H) as Q.
  assert (E : forall A y, quad n A (fun i => y i - 0) = quad n A y) by (intros A y; unfold quad; apply rsum_ext; intros a _; apply rsum_ext; intros b _; ring).
  rewrite (E _ x), (E _ (fun i => x (s i))) in Q. rewrite Q. apply P. exists (t i). destruct (H i Hi) as [_ [A B]]. split; [exact A|]. rewrite B. exact Ni.
Qed.
Lemma pull_inverse n s t L C : relabels n s t -> inverse_of n L C -> inverse_of n (pull t L) (pull t C).
Proof.
  intros H I i j Hi Hj. destruct (H i Hi) as [_ [A A']]. destruct (H j Hj) as [_ [B B']]. destruct (I _ _ A B) as [I1 I2]. unfold pull.
  assert (D : (if Nat.eqb (t i) (t j) then 1 else 0) = (if Nat.eqb i j then 1 else 0)).
  { destruct (Nat.eqb_spec (t i) (t j)) as [X|X], (Nat.eqb_spec i j) as [Y|Y]; try reflexivity; exfalso; [apply Y; rewrite <- A', <- B', X; reflexivity|congruence]. }
  rewrite (rsum_relabel n s t (fun k => L (t i) k * C k (t j)) H), (rsum_relabel n s t (fun k => C (t i) k * L k (t j)) H), I1, I2. split; exact D.
Qed.
Lemma relabels_id n : relabels n (fun i => i) (fun i => i).
Proof. intros i Hi. repeat split; exact Hi. Qed.
Lemma nexpects_unique n p f v w : nexpects n p f v -> nexpects n p f w -> v = w.
Proof. intros H K. exact (space_unique n _ v w (H _ _ (relabels_id n)) (K _ _ (relabels_id n))). Qed.
Lemma nexpects_ext n p f g v : (forall x, f x = g x) -> nexpects n p f v -> nexpects n p g v.
Proof. intros E H s t R. eapply space_ext; [|exact (H s t R)]. intros x. cbv beta. rewrite E. reflexivity. Qed.
(** the expectation of a quadratic function of the deviations *)
Lemma mvn_quad n m L C a b M : symmetric n L -> posdef n L -> inverse_of n L C ->
  nexpects n (mvn_pdf n m L) (fun x => a + rsum n (fun i => b i * (x i - m i)) + rsum n (fun i => rsum n (fun j => M i j * ((x i - m i) * (x j - m j))))) (a + rsum n (fun i => rsum n (fun j => M i j * C i j))).
Proof.
  intros S P I s t H. assert (S' := pull_sym n s t L H S). assert (P' := pull_posdef n s t L H P). assert (I' := pull_inverse n s t L C H I).
  destruct (cholesky_factor n _ S' P') as [K [K1 [K2 K3]]]. pose proof (mvn_quadratic n (fun i => m (t i)) (pull t L) K K1 K2 K3 (pull t C) I' (inverse_sym n _ _ S' I') a (fun i => b (t i)) (pull t M)) as Q.
  change (rsum n (fun i => rsum n (fun j => pull t M i j * pull t C i j))) with (rsum n (fun i => rsum n (fun j => pull t (fun i j => M i j * C i j) i j))) in Q.
  rewrite (rsum2_relabel n s t (fun i j => M i j * C i j) H) in Q. unfold iexpects in Q. eapply space_ext; [|exact Q]. intros x. cbv beta. rewrite (pull_pdf n s t m L x H). f_equal. f_equal; [f_equal|].
  - rewrite <- (rsum_relabel n s t (fun i => b i * (x (s i) - m i)) H). apply rsum_ext. intros i Hi. rewrite (proj2 (proj2 (H i Hi))). reflexivity.
  - rewrite <- (rsum2_relabel n s t (fun i j => M i j * ((x (s i) - m i) * (x (s j) - m j))) H). unfold pull. apply rsum_ext. intros i Hi. apply rsum_ext. intros j Hj. rewrite (proj2 (proj2 (H i Hi))), (proj2 (proj2 (H j Hj))). reflexivity.
Qed.
(** a positive definite matrix has an inverse *)
Lemma tri_inverse n K : (forall i k, (i < k)%nat -> K i k = 0) -> (forall k, (k < n)%nat -> 0 < K k k) -> exists R, inverse_of n K R.
Proof.
  intros HU. induction n as [|n IH]; intros HD; [exists delta; intros i j Hi; lia|]. destruct IH as [R I]; [intros; apply HD; lia|]. assert (P : K n n <> 0) by (pose proof (HD n); specialize (H ltac:(lia)); lra).
  exists (fun i j => if Nat.eqb i n then (if Nat.eqb j n then / K n n else - / K n n * rsum n (fun k => K n k * R k j)) else if Nat.eqb j n then 0 else R i j).
  intros i j Hi Hj. cbn [rsum]. rewrite Nat.eqb_refl. destruct (Nat.eqb_spec i n) as [->|Ni], (Nat.eqb_spec j n) as [->|Nj].
  - unfold delta. rewrite Nat.eqb_refl. rewrite rsum_zero, rsum_zero; [split; field; exact P| |].
    + intros k Hk. rewrite (HU k n Hk). ring.
    + intros k Hk. destruct (Nat.eqb_spec k n); [lia|ring].
  - unfold delta. destruct (Nat.eqb_spec n j); [lia|]. split.
    + rewrite (rsum_ext n _ (fun k => K n k * R k j)) by (intros k Hk; destruct (Nat.eqb_spec k n); [lia|reflexivity]). field. exact P.
    + rewrite (rsum_ext n _ (fun k => - / K n n * rsum n (fun l => K n l * (R l k * K k j)))).
      * rewrite rsum_scal_l, rsum_swap. rewrite (rsum_ext n _ (fun l => if Nat.eqb l j then K n l else 0)).
        -- rewrite (rsum_delta n j (fun l => K n l)) by lia. field. exact P.
        -- intros l Hl. rewrite rsum_scal_l, (proj2 (I l j Hl ltac:(lia))). unfold delta. destruct (Nat.eqb l j); ring.
      * intros k Hk. destruct (Nat.eqb_spec k n); [lia|]. rewrite Rmult_assoc. f_equal. rewrite <- rsum_scal_r. apply rsum_ext. intros; ring.
  - unfold delta. destruct (Nat.eqb_spec i n); [lia|]. rewrite rsum_zero, rsum_zero; [rewrite HU by lia; split; ring| |].
    + intros k Hk. rewrite (HU k n Hk). ring.
    + intros k Hk. destruct (Nat.eqb_spec k n); [lia|ring].
  - destruct (I i j ltac:(lia) ltac:(lia)) as [I1 I2]. rewrite <- I1 at 1. rewrite <- I2. split.
    + rewrite (HU i n) by lia. rewrite (rsum_ext n _ (fun k => K i k * R k j)) by (intros k Hk; destruct (Nat.eqb_spec k n); [lia|reflexivity]). ring.
    + rewrite (rsum_ext n _ (fun k => R i k * K k j)) by (intros k Hk; destruct (Nat.eqb_spec k n); [lia|reflexivity]). ring.
Qed.
Lemma posdef_inverse n L : symmetric n L -> posdef n L -> exists C, inverse_of n L C.
Proof.
  intros S P. destruct (cholesky_factor n L S P) as [K [K1 [K2 K3]]]. destruct (tri_inverse n K K1 K2) as [R I]. exists (fun i j => rsum n (fun k => R k i * R k j)).
  assert (T : forall i j, (i < n)%nat -> (j < n)%nat -> rsum n (fun k => L i k * rsum n (fun l => R l k * R l j)) = delta i j).
  { intros i j Hi Hj. rewrite <- (proj1 (I i j Hi Hj)). rewrite (rsum_ext n _ (fun k => rsum n (fun l => L i k * (R l k * R l j)))) by (intros; symmetry; apply rsum_scal_l).
    rewrite rsum_swap. apply rsum_ext. intros l Hl. rewrite (rsum_ext n _ (fun k => rsum n (fun a => K i a * (R l k * K k a) * R l j))).
    - rewrite rsum_swap. rewrite (rsum_ext n _ (fun a => if Nat.eqb l a then K i a * R l j else 0)); [apply (rsum_delta_r n l (fun a => K i a * R l j) Hl)|]. intros a Ha. rewrite rsum_scal_r, rsum_scal_l, (proj2 (I l a Hl Ha)). unfold delta. destruct (Nat.eqb l a); ring.
    - intros k Hk. rewrite K3 by assumption. rewrite <- rsum_scal_r. apply rsum_ext. intros; ring. }
  intros i j Hi Hj. split; [apply T; assumption|]. replace (delta i j) with (delta j i) by (unfold delta; rewrite Nat.eqb_sym; reflexivity). rewrite <- (T j i Hj Hi). apply rsum_ext. intros k Hk. rewrite (S k j Hk Hj), Rmult_comm. f_equal. apply rsum_ext. intros; ring.
Qed.
Lemma mvn_total n m L : symmetric n L -> posdef n L -> nexpects n (mvn_pdf n m L) (fun _ => 1) 1.
Proof.
  intros S P. destruct (posdef_inverse n L S P) as [C I]. pose proof (mvn_quad n m L C 1 (fun _ => 0) (fun _ _ => 0) S P I) as H.
  assert (Z : forall y, rsum n (fun i => rsum n (fun j => 0 * y i j)) = 0) by (intros y; apply rsum_zero; intros; apply rsum_zero; intros; ring). rewrite Z, Rplus_0_r in H.
  eapply nexpects_ext; [|exact H]. intros x. cbv beta. rewrite (rsum_zero n (fun i => 0 * (x i - m i))) by (intros; ring). rewrite (Z (fun i j => (x i - m i) * (x j - m j))). ring.
Qed.
Lemma pick1 n k (f : nat -> R) : (k < n)%nat -> rsum n (fun i => delta i k * f i) = f k.
Proof. intros Hk. rewrite (rsum_single n k); [unfold delta; rewrite Nat.eqb_refl; ring|exact Hk|]. intros i _ N. unfold delta. destruct (Nat.eqb_spec i k); [contradiction|ring]. Qed.
Lemma pick2 n k l (f : nat -> nat -> R) : (k < n)%nat -> (l < n)%nat -> rsum n (fun i => rsum n (fun j => delta i k * delta j l * f i j)) = f k l.
Proof.
  intros Hk Hl. rewrite (rsum_ext n _ (fun i => delta i k * rsum n (fun j => delta j l * f i j))) by (intros; rewrite <- rsum_scal_l; apply rsum_ext; intros; ring).
  rewrite (pick1 n k (fun i => rsum n (fun j => delta j l * f i j)) Hk). apply (pick1 n l (f k) Hl).
Qed.
Lemma mvn_mean n m L k : symmetric n L -> posdef n L -> (k < n)%nat -> nexpects n (mvn_pdf n m L) (fun x => x k) (m k).
Proof.
  intros S P Hk. destruct (posdef_inverse n L S P) as [C I]. pose proof (mvn_quad n m L C (m k) (fun i => delta i k) (fun _ _ => 0) S P I) as H.
  assert (Z : forall y, rsum n (fun i => rsum n (fun j => 0 * y i j)) = 0) by (intros y; apply rsum_zero; intros; apply rsum_zero; intros; ring). rewrite Z, Rplus_0_r in H.
  eapply nexpects_ext; [|exact H]. intros x. cbv beta. rewrite (pick1 n k (fun i => x i - m i) Hk), (Z (fun i j => (x i - m i) * (x j - m j))). ring.
Qed.
Lemma mvn_covariance n m L C k l : symmetric n L -> posdef n L -> inverse_of n L C -> (k < n)%nat -> (l < n)%nat -> nexpects n (mvn_pdf n m L) (fun x => (x k - m k) * (x l - m l)) (C k l).
Proof.
  intros S P I Hk Hl. pose proof (mvn_quad n m L C 0 (fun _ => 0) (fun i j => delta i k * delta j l) S P I) as H. cbv beta in H. rewrite (pick2 n k l C Hk Hl), Rplus_0_l in H.
  eapply nexpects_ext; [|exact H]. intros x. cbv beta. rewrite (rsum_zero n (fun i => 0 * (x i - m i))) by (intros; ring). rewrite (pick2 n k l (fun i j => (x i - m i) * (x j - m j)) Hk Hl). ring.
Qed.
Lemma mvn_second n m L C k l : symmetric n L -> posdef n L -> inverse_of n L C -> (k < n)%nat -> (l < n)%nat -> nexpects n (mvn_pdf n m L) (fun x => x k * x l) (m k * m l + C k l).
Proof.
  intros S P I Hk Hl. pose proof (mvn_quad n m L C (m k * m l) (fun i => m l * delta i k + m k * delta i l) (fun i j => delta i k * delta j l) S P I) as H. cbv beta in H. rewrite (pick2 n k l C Hk Hl) in H.
  eapply nexpects_ext; [|exact H]. intros x. cbv beta. rewrite (rsum_ext n (fun i => (m l * delta i k + m k * delta i l) * (x i - m i)) (fun i => m l * (delta i k * (x i - m i)) + m k * (delta i l * (x i - m i)))) by (intros; ring).
  rewrite rsum_plus, !rsum_scal_l, (pick1 n k (fun i => x i - m i) Hk), (pick1 n l (fun i => x i - m i) Hl), (pick2 n k l (fun i j => (x i - m i) * (x j - m j)) Hk Hl). ring.
Qed.
Lemma ln_mvn_pdf n m L x : ln (mvn_pdf n m L x) = - mvn_log_norm n L + - / 2 * quad n L (fun i => x i - m i).
Proof. unfold mvn_pdf, mvn_kernel. rewrite <- exp_plus, ln_exp. reflexivity. Qed.
(** the expected log density of one normal distribution under another *)
Lemma mvn_cross n m L C m0 L0 : symmetric n L -> posdef n L -> inverse_of n L C -> symmetric n L0 ->
  nexpects n (mvn_pdf n m L) (fun x => ln (mvn_pdf n m0 L0 x)) (- mvn_log_norm n L0 + - / 2 * (quad n L0 (fun i => m i - m0 i) + rsum n (fun i => rsum n (fun j => L0 i j * C i j)))).
Proof.
  intros S P I S0. pose proof (mvn_quad n m L C (- mvn_log_norm n L0 + - / 2 * quad n L0 (fun i => m i - m0 i)) (fun j => - rsum n (fun i => (m i - m0 i) * L0 i j)) (fun i j => - / 2 * L0 i j) S P I) as H. cbv beta in H.
  rewrite (rsum_ext n (fun i => rsum n (fun j => - / 2 * L0 i j * C i j)) (fun i => - / 2 * rsum n (fun j => L0 i j * C i j))) in H by (intros; rewrite <- rsum_scal_l; apply rsum_ext; intros; ring). rewrite rsum_scal_l in H.
  replace (- mvn_log_norm n L0 + - / 2 * quad n L0 (fun i => m i - m0 i) + - / 2 * rsum n (fun i => rsum n (fun j => L0 i j * C i j))) with (- mvn_log_norm n L0 + - / 2 * (quad n L0 (fun i => m i - m0 i) + rsum n (fun i => rsum n (fun j => L0 i j * C i j)))) in H by ring.
  eapply nexpects_ext; [|exact H]. intros x. cbv beta. rewrite ln_mvn_pdf.
  assert (E : quad n L0 (fun i => x i - m0 i) = quad n L0 (fun i => m i - m0 i) + 2 * rsum n (fun j => rsum n (fun i => (m i - m0 i) * L0 i j) * (x j - m j)) + rsum n (fun i => rsum n (fun j => L0 i j * ((x i - m i) * (x j - m j))))).
  { transitivity (rsum n (fun i => rsum n (fun j => (m i - m0 i) * L0 i j * (m j - m0 j) + ((m i - m0 i) * L0 i j * (x j - m j) + (m j - m0 j) * L0 j i * (x i - m i)) + L0 i j * ((x i - m i) * (x j - m j))))).
    - unfold quad. apply rsum_ext. intros i Hi. apply rsum_ext. intros j Hj. rewrite (S0 j i Hj Hi). ring.
    - rewrite (rsum_ext n _ (fun i => rsum n (fun j => (m i - m0 i) * L0 i j * (m j - m0 j)) + (rsum n (fun j => (m i - m0 i) * L0 i j * (x j - m j)) + rsum n (fun j => (m j - m0 j) * L0 j i * (x i - m i))) + rsum n (fun j => L0 i j * ((x i - m i) * (x j - m j))))) by (intros; rewrite !rsum_plus; reflexivity).
      rewrite !rsum_plus. unfold quad. f_equal. f_equal. rewrite (rsum_swap n n (fun i j => (m i - m0 i) * L0 i j * (x j - m j))).
      rewrite (rsum_ext n (fun j => rsum n (fun i => (m i - m0 i) * L0 i j * (x j - m j))) (fun j => rsum n (fun i => (m i - m0 i) * L0 i j) * (x j - m j))) by (intros; apply rsum_scal_r).
      ring. }
  rewrite E. rewrite (rsum_ext n (fun i => - rsum n (fun i0 => (m i0 - m0 i0) * L0 i0 i) * (x i - m i)) (fun i => - 1 * (rsum n (fun i0 => (m i0 - m0 i0) * L0 i0 i) * (x i - m i)))) by (intros; ring). rewrite rsum_scal_l.
  rewrite (rsum_ext n (fun i => rsum n (fun j => - / 2 * L0 i j * ((x i - m i) * (x j - m j)))) (fun i => - / 2 * rsum n (fun j => L0 i j * ((x i - m i) * (x j - m j))))) by (intros; rewrite <- rsum_scal_l; apply rsum_ext; intros; ring). rewrite rsum_scal_l. field.
Qed.
Lemma trace_inverse n L C : inverse_of n L C -> symmetric n C -> rsum n (fun i => rsum n (fun j => L i j * C i j)) = INR n.
Proof.
  intros I S. rewrite (rsum_ext n _ (fun _ => 1)); [rewrite rsum_const; ring|]. intros i Hi. rewrite (rsum_ext n _ (fun j => L i j * C j i)) by (intros j Hj; rewrite (S i j Hi Hj); reflexivity). rewrite (proj1 (I i i Hi Hi)). unfold delta. rewrite Nat.eqb_refl. reflexivity.
Qed.
Lemma mvn_entropy_int n m L : symmetric n L -> posdef n L -> nexpects n (mvn_pdf n m L) (fun x => - ln (mvn_pdf n m L x)) (mvn_log_norm n L + INR n / 2).
Proof.
  intros S P. destruct (posdef_inverse n L S P) as [C I]. assert (SC := inverse_sym n L C S I). pose proof (mvn_cross n m L C m L S P I S) as H. rewrite (trace_inverse n L C I SC) in H.
  replace (quad n L (fun i => m i - m i)) with 0 in H by (unfold quad; symmetry; apply rsum_zero; intros; apply rsum_zero; intros; ring).
  intros s t R. pose proof (space_scal n _ (-1) _ (H s t R)) as Q. replace (mvn_log_norm n L + INR n / 2) with (-1 * (- mvn_log_norm n L + - / 2 * (0 + INR n))) by field. eapply space_ext; [|exact Q]. intros x. cbv beta. ring.
Qed.

(** ---- MVNParam, multivariate_normal_entropy and mvn_prior ---- *)
Lemma mvn_integrals (inv : arr -> res arr) (slogdet : arr -> res (num * num)) d n m L : slogdet_contract slogdet -> holds d "mean" (fvec_of n m) -> holds d "info" (fmat n L) -> symmetric n L -> posdef n L -> inverts inv n L ->
  exists C E h, mvn_e d = Ok (fvec_of n m) /\ mvn_cov inv d = Ok (fmat n C) /\ mvn_e_outer inv d = Ok (fmat n E) /\ mvn_entropy slogdet d = Ok (fnum h) /\
    (forall i, (i < n)%nat -> nexpects n (mvn_pdf n m L) (fun x => x i) (m i)) /\
    (forall i j, (i < n)%nat -> (j < n)%nat -> nexpects n (mvn_pdf n m L) (fun x => (x i - m i) * (x j - m j)) (C i j) /\ nexpects n (mvn_pdf n m L) (fun x => x i * x j) (E i j)) /\
    nexpects n (mvn_pdf n m L) (fun x => - ln (mvn_pdf n m L x)) h.
Proof.
  intros HS Hm HL S P [C [EC I]]. assert (SC := inverse_sym n L C S I). exists C, (fun i j => m i * m j + (C i j + C j i) / 2), (mvn_log_norm n L + INR n / 2).
  split; [exact (member_holds _ _ _ Hm)|]. split; [unfold mvn_cov; rewrite (member_holds _ _ _ HL); exact EC|]. split; [apply (mvn_e_outer_value inv d n m L C Hm HL EC)|].
  split. { unfold mvn_entropy. rewrite (member_holds _ _ _ HL). cbn [rbind]. rewrite (mvn_entropy_value slogdet HS n L (posdef_det n L S P)). do 2 f_equal. unfold mvn_log_norm. field. }
  split; [intros i Hi; apply mvn_mean; assumption|]. split; [|apply mvn_entropy_int; assumption]. intros i j Hi Hj. split; [apply mvn_covariance; assumption|].
  replace (m i * m j + (C i j + C j i) / 2) with (m i * m j + C i j) by (rewrite (SC j i Hj Hi); field). apply mvn_second; assumption.
Qed.
Lemma mvn_entropy_integral (slogdet : arr -> res (num * num)) n L : slogdet_contract slogdet -> symmetric n L -> posdef n L ->
  exists h, multivariate_normal_entropy slogdet (fmat n L) = Ok (fnum h) /\ forall m, nexpects n (mvn_pdf n m L) (fun x => - ln (mvn_pdf n m L x)) h.
Proof.
  intros HS S P. exists (mvn_log_norm n L + INR n / 2). split; [|intros m; apply mvn_entropy_int; assumption]. rewrite (mvn_entropy_value slogdet HS n L (posdef_det n L S P)). do 2 f_equal. unfold mvn_log_norm. field.
Qed.
Lemma mvn_prior_integral n m0 L0 m L C : symmetric n L0 -> symmetric n L -> posdef n L -> inverse_of n L C ->
  exists r, mvn_prior (fvec_of n m0) (fmat n L0) (fvec_of n m) (fmat n C) = Ok (fnum r) /\ nexpects n (mvn_pdf n m L) (fun x => ln (mvn_pdf n m0 L0 x)) (r - mvn_log_norm n L0).
Proof.
  intros S0 S P I. eexists. split; [apply mvn_prior_entries|]. rewrite <- (quad_prod n L0 (fun i => m i - m0 i)). assert (SC := inverse_sym n L C S I).
  rewrite (rsum_ext n (fun i => rsum n (fun k => L0 i k * C k i)) (fun i => rsum n (fun j => L0 i j * C i j))) by (intros i Hi; apply rsum_ext; intros j Hj; rewrite (SC j i Hj Hi); reflexivity).
  replace (- / 2 * (quad n L0 (fun i => m i - m0 i) + rsum n (fun i => rsum n (fun j => L0 i j * C i j))) - mvn_log_norm n L0) with (- mvn_log_norm n L0 + - / 2 * (quad n L0 (fun i => m i - m0 i) + rsum n (fun i => rsum n (fun j => L0 i j * C i j)))) by ring.
  apply mvn_cross; assumption.
Qed.
