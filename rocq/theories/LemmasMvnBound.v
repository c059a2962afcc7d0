(** Multivariate normal factors: the evidence bound; the LKJ prior as an expected log density; the remaining methods of the distribution classes. *)
From Coq Require Import String Reals List Arith Lra Lia Bool.
From Verif Require Import Res Num Nd RSum ModelParameters ModelMatrix ModelDict ModelNumpy ModelExpFam ModelFamilies SpecMatrix SpecExpFam SpecFamilies.
From Verif Require Import LemmasChol LemmasPosDef LemmasNumpy LemmasExpFam LemmasEntropy LemmasFamilies LemmasDet.
Import List ListNotations.
Open Scope R_scope.
Set Bullet Behavior "Strict Subproofs".

Lemma ln_eq_minus_1 x : 0 < x -> ln x = x - 1 -> x = 1.
Proof.
  intros P E. destruct (Req_dec (ln x) 0) as [Z|Z]; [rewrite Z in E; lra|]. pose proof (exp_ineq1 (ln x) Z) as H. rewrite exp_ln in H by exact P. lra.
Qed.
Lemma tri_inj_low n (L : nat -> nat -> R) x : (forall i k, (i < k)%nat -> L i k = 0) -> (forall k, (k < n)%nat -> L k k <> 0) ->
  (forall i, (i < n)%nat -> rsum n (fun k => L i k * x k) = 0) -> forall i, (i < n)%nat -> x i = 0.
Proof.
  intros HU HD H i. induction i as [i IH] using lt_wf_ind. intros Hi. specialize (H i Hi).
  rewrite (rsum_single n i) in H; [|exact Hi|].
  - apply Rmult_integral in H as [H|H]; [exfalso; exact (HD i Hi H)|exact H].
  - intros k Hk Hne. destruct (Nat.lt_ge_cases k i) as [L1|L1]; [rewrite IH by lia; ring|rewrite HU by lia; ring].
Qed.
Lemma cholesky_factor n M : symmetric n M -> posdef n M ->
  exists K, (forall i k, (i < k)%nat -> K i k = 0) /\ (forall k, (k < n)%nat -> 0 < K k k) /\ forall i j, (i < n)%nat -> (j < n)%nat -> M i j = rsum n (fun k => K i k * K j k).
Proof.
  intros HS HP. pose proof (posdef_pivot n M HS HP) as PV. exists (ccol M). split; [intros; apply ccol_upper; assumption|]. split; [intros k Hk; rewrite ccol_diag; apply sqrt_lt_R0, PV, Hk|].
  intros i j Hi Hj. destruct (Nat.le_gt_cases j i).
  - symmetry. apply chol_recon; try lia. apply PV; lia.
  - rewrite (rsum_ext n _ (fun k => ccol M j k * ccol M i k)) by (intros; ring). rewrite chol_recon; try lia; [apply HS; lia|apply PV; lia].
Qed.
Lemma det_LLt n M K : (forall i k, (i < k)%nat -> K i k = 0) -> (forall i j, (i < n)%nat -> (j < n)%nat -> M i j = rsum n (fun k => K i k * K j k)) ->
  det n M = rprod n (fun k => K k k * K k k).
Proof.
  intros HU E. rewrite (det_ext n M (mmul n K (fun i j => K j i))) by (intros; unfold mmul; apply E; assumption).
  rewrite det_mmul, det_lower, det_upper, rprod_mult by (intros; apply HU; assumption). reflexivity.
Qed.
Lemma posdef_det n M : symmetric n M -> posdef n M -> 0 < det n M.
Proof.
  intros HS HP. destruct (cholesky_factor n M HS HP) as [K [HU [HD E]]]. rewrite (det_LLt n M K HU E). apply rprod_pos. intros k Hk. specialize (HD k Hk). nra.
Qed.
Lemma logdet_trace n M : symmetric n M -> posdef n M ->
  ln (det n M) <= rsum n (fun i => M i i) - INR n /\ (ln (det n M) = rsum n (fun i => M i i) - INR n -> forall i j, (i < n)%nat -> (j < n)%nat -> M i j = delta i j).
Proof.
  intros HS HP. destruct (cholesky_factor n M HS HP) as [K [HU [HD E]]]. rewrite (det_LLt n M K HU E).
  assert (PK : forall k, (k < n)%nat -> 0 < K k k * K k k) by (intros k Hk; specialize (HD k Hk); nra).
  rewrite ln_rprod by exact PK.
  assert (T : rsum n (fun i => M i i) - INR n = rsum n (fun i => (K i i * K i i - 1) + rsum n (fun k => if Nat.eqb k i then 0 else K i k * K i k))).
  { replace (INR n) with (rsum n (fun _ => 1)) by (rewrite rsum_const; ring). rewrite <- rsum_minus. apply rsum_ext. intros i Hi. rewrite E by assumption.
    assert (S : rsum n (fun k => K i k * K i k) = rsum n (fun k => (if Nat.eqb k i then K i k * K i k else 0) + (if Nat.eqb k i then 0 else K i k * K i k))) by (apply rsum_ext; intros k _; destruct (Nat.eqb k i); ring).
    rewrite S, rsum_plus, rsum_delta by exact Hi. ring. }
  rewrite T.
  assert (B : forall i, (i < n)%nat -> ln (K i i * K i i) <= K i i * K i i - 1) by (intros i Hi; apply ln_le_minus_1, PK, Hi).
  assert (Q : forall i, (i < n)%nat -> 0 <= rsum n (fun k => if Nat.eqb k i then 0 else K i k * K i k)) by (intros i Hi; apply rsum_nonneg; intros k Hk; destruct (Nat.eqb k i); nra).
  split; [apply rsum_le; intros i Hi; specialize (B i Hi); specialize (Q i Hi); lra|].
  intros Eq.
  assert (Z : rsum n (fun i => (K i i * K i i - 1) + rsum n (fun k => if Nat.eqb k i then 0 else K i k * K i k) - ln (K i i * K i i)) = 0) by (rewrite rsum_minus; lra).
  assert (Z' : forall i, (i < n)%nat -> (K i i * K i i - 1) + rsum n (fun k => if Nat.eqb k i then 0 else K i k * K i k) - ln (K i i * K i i) = 0).
  { intros i Hi. pose proof (rsum_term_le n (fun i => (K i i * K i i - 1) + rsum n (fun k => if Nat.eqb k i then 0 else K i k * K i k) - ln (K i i * K i i)) i Hi) as X.
    assert (N : forall i, (i < n)%nat -> 0 <= (K i i * K i i - 1) + rsum n (fun k => if Nat.eqb k i then 0 else K i k * K i k) - ln (K i i * K i i)) by (intros k Hk; specialize (B k Hk); specialize (Q k Hk); lra).
    specialize (X N). cbn beta in X. specialize (N i Hi). lra. }
  assert (D1 : forall i, (i < n)%nat -> K i i = 1).
  { intros i Hi. specialize (Z' i Hi). pose proof (B i Hi). pose proof (Q i Hi). assert (S : K i i * K i i = 1) by (apply ln_eq_minus_1; [apply PK, Hi|lra]). specialize (HD i Hi). nra. }
  assert (D0 : forall i k, (i < n)%nat -> (k < n)%nat -> k <> i -> K i k = 0).
  { intros i k Hi Hk Hne. specialize (Z' i Hi). pose proof (B i Hi). pose proof (Q i Hi).
    assert (S : rsum n (fun k => if Nat.eqb k i then 0 else K i k * K i k) = 0) by lra.
    pose proof (rsum_term_le n (fun k => if Nat.eqb k i then 0 else K i k * K i k) k Hk) as X. cbn beta in X. rewrite S in X. destruct (Nat.eqb_spec k i); [lia|].
    assert (Y : K i k * K i k <= 0) by (apply X; intros q Hq; destruct (Nat.eqb q i); nra). nra. }
  intros i j Hi Hj. rewrite E by assumption. rewrite (rsum_single n i); [|exact Hi|].
  - rewrite D1 by exact Hi. unfold delta. destruct (Nat.eqb_spec i j) as [<-|]; [rewrite D1 by exact Hi; ring|rewrite D0 by (assumption || lia); ring].
  - intros k Hk Hne. rewrite (D0 i k) by assumption. ring.
Qed.

Lemma zero_dec n (x : nat -> R) : (exists i, (i < n)%nat /\ x i <> 0) \/ forall i, (i < n)%nat -> x i = 0.
Proof.
  induction n as [|n [[i [Hi N]]|IH]]; [right; intros; lia|left; exists i; split; [lia|exact N]|].
  destruct (Req_dec (x n) 0) as [Z|N]; [right|left; exists n; split; [lia|exact N]]. intros i Hi. destruct (Nat.eq_dec i n) as [->|]; [exact Z|apply IH; lia].
Qed.
Lemma posdef_zero n L x : posdef n L -> quad n L x = 0 -> forall i, (i < n)%nat -> x i = 0.
Proof. intros HP E i Hi. destruct (Req_dec (x i) 0) as [|N]; [assumption|]. exfalso. specialize (HP x (ex_intro _ i (conj Hi N))). lra. Qed.
Lemma posdef_nonneg n L x : posdef n L -> 0 <= quad n L x.
Proof.
  intros HP. destruct (zero_dec n x) as [D|D]; [left; apply HP, D|]. right. symmetry. unfold quad. apply rsum_zero. intros i Hi. apply rsum_zero. intros j Hj. rewrite D by exact Hi. ring.
Qed.
Lemma inverse_symm n A B : inverse_of n A B -> inverse_of n B A.
Proof. intros H i j Hi Hj. destruct (H i j Hi Hj). split; assumption. Qed.
Lemma inverse_sym n A B : symmetric n A -> inverse_of n A B -> symmetric n B.
Proof.
  intros S H. assert (T : inverse_of n A (fun i j => B j i)).
  { intros i j Hi Hj. split.
    - rewrite (rsum_ext n _ (fun k => B j k * A k i)) by (intros k Hk; rewrite (S i k) by assumption; ring). rewrite (proj2 (H j i Hj Hi)). unfold delta. rewrite Nat.eqb_sym. reflexivity.
    - rewrite (rsum_ext n _ (fun k => A j k * B k i)) by (intros k Hk; rewrite (S k j) by assumption; ring). rewrite (proj1 (H j i Hj Hi)). unfold delta. rewrite Nat.eqb_sym. reflexivity. }
  intros i j Hi Hj. apply (inverse_unique n A B _ H T); assumption.
Qed.
Lemma inverse_posdef n A B : symmetric n A -> posdef n A -> inverse_of n A B -> posdef n B.
Proof.
  intros S P H x [i [Hi Hx]]. pose (y := fun a => rsum n (fun b => B a b * x b)).
  assert (AY : forall a, (a < n)%nat -> rsum n (fun b => A a b * y b) = x a).
  { intros a Ha. unfold y. rewrite (rsum_ext n _ (fun b => rsum n (fun c => A a b * B b c * x c))) by (intros; rewrite <- rsum_scal_l; apply rsum_ext; intros; ring).
    rewrite rsum_swap. rewrite (rsum_ext n _ (fun c => if Nat.eqb a c then x c else 0)).
    - apply (rsum_delta_r n a x Ha).
    - intros c Hc. rewrite rsum_scal_r. rewrite (proj1 (H a c Ha Hc)). unfold delta. destruct (Nat.eqb a c); ring. }
  assert (Q : quad n B x = quad n A y).
  { rewrite !quad_prod. transitivity (rsum n (fun a => x a * y a)); [reflexivity|]. apply rsum_ext. intros a Ha. rewrite AY by exact Ha. ring. }
  rewrite Q. apply P. destruct (Req_dec (quad n A y) 0) as [Z|Z].
  - exfalso. apply Hx. rewrite <- (AY i Hi). apply rsum_zero. intros b Hb. rewrite (posdef_zero n A y P Z b Hb). ring.
  - destruct (zero_dec n y) as [D|D]; [exact D|]. exfalso. apply Z. unfold quad. apply rsum_zero. intros a Ha. apply rsum_zero. intros b Hb. rewrite D by exact Ha. ring.
Qed.
(** the trace and determinant of L C, for L and C positive definite *)
Lemma product_bound n L C : symmetric n L -> posdef n L -> symmetric n C -> posdef n C ->
  let t := rsum n (fun i => rsum n (fun k => L i k * C k i)) in
  ln (det n L) + ln (det n C) <= t - INR n /\ (ln (det n L) + ln (det n C) = t - INR n -> forall i j, (i < n)%nat -> (j < n)%nat -> rsum n (fun k => L i k * C k j) = delta i j).
Proof.
  intros SL PL SC PC t. destruct (cholesky_factor n C SC PC) as [K [HU [HD E]]].
  assert (HD' : forall k, (k < n)%nat -> K k k <> 0) by (intros k Hk; specialize (HD k Hk); lra).
  pose (M := fun a b => rsum n (fun i => rsum n (fun j => K i a * L i j * K j b))).
  assert (MM : forall a b, M a b = mmul n (fun a i => K i a) (mmul n L K) a b).
  { intros a b. unfold M, mmul. apply rsum_ext. intros i Hi. rewrite <- rsum_scal_l. apply rsum_ext. intros; ring. }
  assert (SM : symmetric n M).
  { intros a b Ha Hb. unfold M. rewrite rsum_swap. apply rsum_ext. intros j Hj. apply rsum_ext. intros i Hi. rewrite (SL i j) by assumption. ring. }
  assert (QM : forall x, quad n M x = quad n L (fun i => rsum n (fun a => K i a * x a))).
  { intros x. unfold quad, M.
    transitivity (rsum n (fun i => rsum n (fun j => rsum n (fun a => rsum n (fun b => (K i a * x a) * (L i j * (K j b * x b))))))).
    - rewrite (rsum_ext n _ (fun a => rsum n (fun i => rsum n (fun j => rsum n (fun b => (K i a * x a) * (L i j * (K j b * x b))))))).
      + rewrite rsum_swap. apply rsum_ext. intros i Hi. rewrite rsum_swap. reflexivity.
      + intros a Ha. rewrite (rsum_ext n _ (fun b => rsum n (fun i => rsum n (fun j => (K i a * x a) * (L i j * (K j b * x b)))))).
        * rewrite rsum_swap. apply rsum_ext. intros i Hi. rewrite rsum_swap. reflexivity.
        * intros b Hb. rewrite <- rsum_scal_l, <- rsum_scal_r. apply rsum_ext. intros i Hi. rewrite <- rsum_scal_l, <- rsum_scal_r. apply rsum_ext. intros j Hj. ring.
    - apply rsum_ext. intros i Hi. apply rsum_ext. intros j Hj. rewrite Rmult_assoc. rewrite <- rsum_scal_r. apply rsum_ext. intros a Ha. rewrite <- !rsum_scal_l. reflexivity. }
  assert (PM : posdef n M).
  { intros x Hx. rewrite QM. apply PL. destruct (zero_dec n (fun i => rsum n (fun a => K i a * x a))) as [D|D]; [exact D|]. exfalso. destruct Hx as [i [Hi N]]. apply N. exact (tri_inj_low n K x HU HD' D i Hi). }
  assert (TM : rsum n (fun a => M a a) = t).
  { unfold M, t. rewrite rsum_swap. apply rsum_ext. intros i Hi. rewrite rsum_swap. apply rsum_ext. intros j Hj. rewrite E by assumption. rewrite <- rsum_scal_l. apply rsum_ext. intros a Ha. ring. }
  assert (DM : det n M = det n L * det n C).
  { rewrite (det_ext n M (mmul n (fun a i => K i a) (mmul n L K))) by (intros; apply MM). rewrite !det_mmul. rewrite (det_ext n C (mmul n K (fun i j => K j i))) by (intros; unfold mmul; apply E; assumption). rewrite det_mmul. ring. }
  pose proof (posdef_det n L SL PL) as DL. pose proof (posdef_det n C SC PC) as DC.
  destruct (logdet_trace n M SM PM) as [B1 B2]. rewrite DM, ln_mult, TM in B1, B2 by assumption. split; [exact B1|]. intros Eq. specialize (B2 Eq).
  intros i j Hi Hj. apply Rminus_diag_uniq. apply (tri_inj n K (fun i => rsum n (fun k => L i k * C k j) - delta i j) HU HD'); [|exact Hi]. intros b Hb.
  rewrite (rsum_ext n _ (fun i => K i b * rsum n (fun k => L i k * C k j) - K i b * delta i j)) by (intros; ring). rewrite rsum_minus.
  assert (X : rsum n (fun i => K i b * delta i j) = K j b).
  { rewrite (rsum_single n j); [unfold delta; rewrite Nat.eqb_refl; ring|exact Hj|]. intros k _ Hk. unfold delta. destruct (Nat.eqb_spec k j); [lia|ring]. }
  rewrite X.
  assert (Y : rsum n (fun i => K i b * rsum n (fun k => L i k * C k j)) = rsum n (fun a => M b a * K j a)).
  { transitivity (rsum n (fun i => rsum n (fun k => rsum n (fun a => K i b * L i k * K k a * K j a)))).
    - apply rsum_ext. intros q Hq. rewrite <- rsum_scal_l. apply rsum_ext. intros k Hk. rewrite E by assumption. rewrite <- !rsum_scal_l. apply rsum_ext. intros; ring.
    - rewrite (rsum_ext n (fun a => M b a * K j a) (fun a => rsum n (fun q => rsum n (fun k => K q b * L q k * K k a * K j a)))).
      + rewrite (rsum_swap n n (fun a q => rsum n (fun k => K q b * L q k * K k a * K j a))). apply rsum_ext. intros q Hq. apply rsum_swap.
      + intros a Ha. unfold M. rewrite <- rsum_scal_r. apply rsum_ext. intros q Hq. rewrite <- rsum_scal_r. reflexivity. }
  rewrite Y. rewrite (rsum_ext n _ (fun a => if Nat.eqb b a then K j a else 0)); [rewrite (rsum_delta_r n b (fun a => K j a) Hb); ring|].
  intros a Ha. rewrite B2 by assumption. unfold delta. destruct (Nat.eqb b a); ring.
Qed.

Section Bound.
Variable slogdet : arr -> res (num * num).
Hypothesis HS : slogdet_contract slogdet.
Variable inv : arr -> res arr.
Lemma mvn_bound d n e I m L : holds d "mean" (fvec_of n e) -> holds d "info" (fmat n I) -> symmetric n I -> posdef n I -> inverts inv n I -> symmetric n L -> posdef n L ->
  exists r h, (do x <- mvn_e d; do c <- mvn_cov inv d; mvn_prior (fvec_of n m) (fmat n L) x c) = Ok (fnum r) /\ mvn_entropy slogdet d = Ok (fnum h) /\
    let bound := r - mvn_log_norm n L + h in
    bound <= 0 /\ (bound = 0 <-> (forall i, (i < n)%nat -> e i = m i) /\ forall i j, (i < n)%nat -> (j < n)%nat -> I i j = L i j).
Proof.
  intros H1 H2 SI PI [C [EC HC]] SL PL. unfold mvn_e, mvn_cov, mvn_entropy. rewrite (member_holds _ _ _ H1), (member_holds _ _ _ H2). cbn [rbind]. rewrite EC. cbn [rbind].
  pose proof (posdef_det n I SI PI) as DI. pose proof (posdef_det n L SL PL) as DL.
  rewrite mvn_prior_entries, (mvn_entropy_value slogdet HS) by exact DI. eexists _, _. split; [reflexivity|]. split; [reflexivity|]. cbv zeta.
  pose proof (inverse_sym n I C SI HC) as SC. pose proof (inverse_posdef n I C SI PI HC) as PC.
  destruct (product_bound n L C SL PL SC PC) as [B1 B2]. cbv zeta in B1, B2.
  assert (LD : ln (det n C) = - ln (det n I)).
  { pose proof (det_inverse n I C HC) as D1. pose proof (posdef_det n C SC PC) as DC. assert (X : ln (det n I * det n C) = 0) by (rewrite D1; apply ln_1). rewrite ln_mult in X by assumption. lra. }
  rewrite LD in B1, B2. rewrite <- quad_prod. set (q := quad n L (fun i => e i - m i)). set (t := rsum n (fun i => rsum n (fun k => L i k * C k i))) in *.
  assert (Q : 0 <= q) by (apply posdef_nonneg, PL).
  assert (V : - / 2 * (q + t) - mvn_log_norm n L + / 2 * (INR n * (1 + ln (2 * Rtrigo1.PI)) - ln (det n I)) = - / 2 * q + / 2 * (ln (det n L) + - ln (det n I) - (t - INR n))) by (unfold mvn_log_norm; field).
  rewrite V. split; [lra|]. split.
  - intros Z. assert (Z1 : q = 0) by lra. assert (Z2 : ln (det n L) + - ln (det n I) = t - INR n) by lra. split.
    + intros i Hi. apply Rminus_diag_uniq. exact (posdef_zero n L _ PL Z1 i Hi).
    + specialize (B2 Z2). intros i j Hi Hj. symmetry.
      transitivity (rsum n (fun k => rsum n (fun l => L i l * C l k) * I k j)).
      * rewrite (rsum_ext n _ (fun k => rsum n (fun l => L i l * C l k * I k j))) by (intros; symmetry; apply rsum_scal_r). rewrite rsum_swap.
        rewrite (rsum_ext n _ (fun l => if Nat.eqb l j then L i l else 0)); [rewrite rsum_delta by exact Hj; reflexivity|].
        intros l Hl. rewrite (rsum_ext n _ (fun k => L i l * (C l k * I k j))) by (intros; ring). rewrite rsum_scal_l, (proj2 (HC l j Hl Hj)). unfold delta. destruct (Nat.eqb l j); ring.
      * rewrite (rsum_ext n _ (fun k => if Nat.eqb i k then I k j else 0)); [apply (rsum_delta_r n i (fun k => I k j) Hi)|]. intros k Hk. rewrite B2 by assumption. unfold delta. destruct (Nat.eqb i k); ring.
  - intros [E1 E2]. assert (Z1 : q = 0) by (unfold q, quad; apply rsum_zero; intros i Hi; apply rsum_zero; intros j Hj; rewrite (E1 i Hi); ring).
    assert (Z2 : t = INR n).
    { unfold t. rewrite (rsum_ext n _ (fun _ => 1)); [rewrite rsum_const; ring|]. intros i Hi. rewrite (rsum_ext n _ (fun k => I i k * C k i)) by (intros k Hk; rewrite E2 by assumption; reflexivity). rewrite (proj1 (HC i i Hi Hi)). unfold delta. rewrite Nat.eqb_refl. reflexivity. }
    rewrite (det_ext n I L) by exact E2. rewrite Z1, Z2. lra.
Qed.
(** entropy of the class *)
Lemma mvn_class d n m L (D : dist (nat -> R)) : holds d "mean" (fvec_of n m) -> holds d "info" (fmat n L) -> 0 < det n L -> inverts inv n L -> is_dist D ->
  mvn_e d = Ok (fvec_of n (vmean D)) -> mvn_cov inv d = Ok (fmat n (vcov D)) ->
  mvn_entropy slogdet d = Ok (fnum (mvn_log_norm n L - expect D (fun x => ln (mvn_kernel n m L x)))).
Proof.
  intros H1 H2 P [C [EC HC]] HD. unfold mvn_e, mvn_cov, mvn_entropy. rewrite (member_holds _ _ _ H1), (member_holds _ _ _ H2). cbn [rbind]. rewrite EC. intros E1 E2.
  apply (mvn_entropy_expect slogdet HS n m L C); try assumption.
  - intros i Hi. symmetry. exact (farr_inj _ _ _ E1 [i] (proj2 (in_product_1 n [i]) (ex_intro _ i (conj eq_refl Hi)))).
  - intros i j Hi Hj. symmetry. exact (LemmasFamilies.fmat_inj n _ _ E2 i j Hi Hj).
Qed.
(** the LKJ prior *)
Variable digamma : num -> num.
Lemma lkj_value_expect n eta (D : dist ((nat -> nat -> R) * (nat -> nat -> R))) :
  surely D (fun p => inverse_of n (fst p) (snd p) /\ 0 < det n (fst p) /\ forall i, (i < n)%nat -> 0 < snd p i i) ->
  (eta - 1) * (-1 * expect D (fun p => ln (det n (fst p))) + - rsum n (fun i => expect D (fun p => ln (snd p i i)))) = expect D (fun p => ln (Rpower (det n (correlation (snd p))) (eta - 1))).
Proof.
  intros HD.
  rewrite <- expect_rsum.
  rewrite (expect_ext_surely D _ (fun p => ln (Rpower (det n (correlation (snd p))) (eta - 1))) (fun p => (eta - 1) * (-1 * ln (det n (fst p)) + -1 * rsum n (fun i => ln (snd p i i)))) HD).
  - rewrite expect_scal, expect_plus, !expect_scal. ring.
  - intros p [I [P1 P2]]. unfold Rpower. rewrite ln_exp. f_equal.
    assert (E : det n (correlation (snd p)) = rprod n (fun i => / snd p i i) * det n (snd p)).
    { rewrite (det_ext n _ (fun i j => / sqrt (snd p i i) * / sqrt (snd p j j) * snd p i j)).
      - rewrite det_scale. f_equal. rewrite <- rprod_mult. apply rprod_ext. intros i Hi. rewrite <- Rinv_mult. rewrite sqrt_sqrt by (left; apply P2, Hi). reflexivity.
      - intros i j Hi Hj. unfold correlation. rewrite sqrt_mult by (left; apply P2; assumption). field. split; apply Rgt_not_eq, sqrt_lt_R0, P2; assumption. }
    pose proof (det_inverse n _ _ I) as DI. assert (P3 : 0 < det n (snd p)) by (apply (Rmult_lt_reg_l (det n (fst p))); [exact P1|]; rewrite DI; lra).
    assert (Pi : forall i, (i < n)%nat -> 0 < / snd p i i) by (intros; apply Rinv_0_lt_compat, P2; assumption).
    rewrite E, ln_mult, ln_rprod by (try assumption; apply rprod_pos; assumption).
    assert (X : ln (det n (fst p) * det n (snd p)) = 0) by (rewrite DI; apply ln_1). rewrite ln_mult in X by assumption.
    rewrite (rsum_ext n (fun k => ln (/ snd p k k)) (fun k => - ln (snd p k k))) by (intros k Hk; apply ln_Rinv, P2, Hk). rewrite rsum_opp. lra.
Qed.
Lemma lkj_expect d s n df v eta (D : dist ((nat -> nat -> R) * (nat -> nat -> R))) : number_shape s -> holds d "df" df -> holds d "v" v ->
  surely D (fun p => inverse_of n (fst p) (snd p) /\ 0 < det n (fst p) /\ forall i, (i < n)%nat -> 0 < snd p i i) ->
  wp_e_log_det digamma slogdet d = Ok (farr s (fun _ => expect D (fun p => ln (det n (fst p))))) ->
  e_log_inv_wishart_diag digamma inv df v = Ok (fvec_of n (fun i => expect D (fun p => ln (snd p i i)))) ->
  wp_e_log_lkj_inv_prior digamma slogdet inv eta d = Ok (farr s (fun _ => expect D (fun p => ln (Rpower (det n (correlation (snd p))) (eta - 1))))).
Proof.
  intros HN H1 H2 HD. unfold wp_e_log_det, wp_e_log_lkj_inv_prior. rewrite (member_holds _ _ _ H1), (member_holds _ _ _ H2). cbn [rbind]. intros E1 E2. unfold expected_ljk_prior. rewrite E1, E2. rewrite fvec_of_mk. unfold farr. 
  assert (G : forall x y, x = y -> Ok (mk_nd s (fun _ => Fin x)) = Ok (mk_nd s (fun _ => Fin y))) by (intros x y ->; reflexivity).
  destruct HN as [-> | ->]; py; cbn [rbind]; py; rewrite product_1, map_map; cbn [nth]; rewrite nsum_seq; fin; apply G; clear G.
  all: apply lkj_value_expect, HD.
Qed.
End Bound.

(** second moment of the exponential according to UVNMomentParamArray *)
Lemma um_e2_exp_wrong d s m w : holds d "e" (farr s m) -> holds d "e2" (farr s w) ->
  exists r, um_e2_exp d = Ok (farr s r) /\
    forall i, index s i -> let v := w i - m i * m i in let ee := exp (m i + v / 2) in r i = ee * ee + ee /\ (r i = exp (2 * m i + 2 * v) <-> (exp v - 1) * ee = 1) /\ (v = 0 -> r i <> exp (2 * m i + 2 * v)).
Proof.
  intros He He2. eexists. split.
  - unfold um_e2_exp. change (um_var_exp d) with (um_e_exp d). rewrite (um_e_exp_value d s m w He He2). pyfin. reflexivity.
  - intros i Hi. cbv zeta. set (v := w i - m i * m i). set (ee := exp (m i + v / 2)).
    assert (P : 0 < ee) by apply exp_pos. assert (X : exp (2 * m i + 2 * v) = exp v * (ee * ee)) by (unfold ee; rewrite <- !exp_plus; f_equal; field).
    match goal with |- ?A = _ /\ _ => change A with (ee * ee + ee) end.
    split; [reflexivity|]. rewrite X. split.
    + split; intros E; [apply (Rmult_eq_reg_l ee); lra|]. replace ee with ((exp v - 1) * ee * ee) at 3 by (rewrite E; ring). ring.
    + intros ->. rewrite exp_0. lra.
Qed.
Lemma dirichlet_e_class d n s alpha : holds d "alpha" (farr (n :: s) alpha) -> (forall i, index (n :: s) i -> 0 < alpha i) ->
  exists p, dp_e d = Ok (farr (n :: s) p) /\
    (forall i, index (n :: s) i -> 0 < p i <= 1) /\
    (forall j, index s j -> (0 < n)%nat -> rsum n (fun k => p (k :: j)) = 1) /\
    (forall k l j, index s j -> (k < n)%nat -> (l < n)%nat -> p (k :: j) * alpha (l :: j) = p (l :: j) * alpha (k :: j)).
Proof. intros H P. unfold dp_e. rewrite (member_holds _ _ _ H). cbn [rbind]. apply dirichlet_mean_simplex, P. Qed.
