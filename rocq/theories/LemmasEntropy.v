(** Entropies, Wishart expectations and the LKJ prior. *)
From Coq Require Import Reals List Arith Lia Lra Bool.
From Verif Require Import Res Num Nd RSum ModelParameters ModelNumpy ModelExpFam LemmasPosDef LemmasNumpy SpecMatrix SpecExpFam LemmasExpFam.
Import List ListNotations.
Open Scope R_scope.
Set Bullet Behavior "Strict Subproofs".

(** ---- products and determinants ---- *)
Lemma rprod_ext n f g : (forall k, (k < n)%nat -> f k = g k) -> rprod n f = rprod n g.
Proof. induction n as [|n IH]; intros H; cbn [rprod]; [reflexivity|]. rewrite IH by (intros; apply H; lia). rewrite H by lia. reflexivity. Qed.
Lemma rprod_S_l n f : rprod (S n) f = f 0%nat * rprod n (fun k => f (S k)).
Proof. induction n as [|n IH]; cbn [rprod]; [ring|]. cbn [rprod] in IH. rewrite IH. ring. Qed.
Lemma rprod_mult n f g : rprod n (fun k => f k * g k) = rprod n f * rprod n g.
Proof. induction n as [|n IH]; cbn [rprod]; [ring|]. rewrite IH. ring. Qed.
Lemma rprod_split_at n f j : (j <= n)%nat -> rprod (S n) f = f j * rprod n (fun k => f (if Nat.ltb k j then k else S k)).
Proof.
  revert f j. induction n as [|n IH]; intros f j H.
  - replace j with 0%nat by lia. cbn [rprod]. ring.
  - destruct (Nat.eq_dec j (S n)) as [->|N].
    + cbn [rprod]. rewrite Rmult_comm. f_equal. change (rprod n f * f n) with (rprod (S n) f).
      change (rprod (S n) f = rprod (S n) (fun k => f (if Nat.ltb k (S n) then k else S k))). apply rprod_ext. intros k Hk.
      destruct (Nat.ltb_spec k (S n)); [reflexivity|lia].
    + change (rprod (S (S n)) f) with (rprod (S n) f * f (S n)). rewrite (IH f j) by lia.
      change (rprod (S n) (fun k => f (if Nat.ltb k j then k else S k))) with (rprod n (fun k => f (if Nat.ltb k j then k else S k)) * f (if Nat.ltb n j then n else S n)).
      destruct (Nat.ltb_spec n j); [lia|]. ring.
Qed.
Lemma det_ext n A B : (forall i j, (i < n)%nat -> (j < n)%nat -> A i j = B i j) -> det n A = det n B.
Proof.
  revert A B. induction n as [|n IH]; intros A B H; [reflexivity|]. cbn [det]. apply rsum_ext. intros j Hj. rewrite H by lia. f_equal.
  apply IH. intros i k Hi Hk. unfold minor. destruct (Nat.ltb k j); apply H; lia.
Qed.
Lemma det_scale n A r c : det n (fun i j => r i * c j * A i j) = rprod n r * rprod n c * det n A.
Proof.
  revert A r c. induction n as [|n IH]; intros A r c; [cbn; ring|]. cbn [det]. rewrite <- rsum_scal_l. apply rsum_ext. intros j Hj.
  rewrite (det_ext n (minor (fun i j => r i * c j * A i j) j) (fun i k => r (S i) * c (if Nat.ltb k j then k else S k) * minor A j i k)) by (intros; reflexivity).
  rewrite IH. rewrite (rprod_S_l n r), (rprod_split_at n c j) by lia. ring.
Qed.
Lemma det_diag n d : det n (fun i j => if Nat.eqb i j then d i else 0) = rprod n d.
Proof.
  revert d. induction n as [|n IH]; intros d; [reflexivity|]. cbn [det]. rewrite rprod_S_l.
  rewrite (rsum_single (S n) 0).
  - cbn [pow Nat.eqb]. rewrite <- (IH (fun k => d (S k))). rewrite !Rmult_1_l. reflexivity.
  - lia.
  - intros i Hi Hn. destruct i as [|i]; [lia|]. cbn [Nat.eqb]. ring.
Qed.
Lemma det_1 A : det 1 A = A 0%nat 0%nat.
Proof. cbn. ring. Qed.

(** the inverse is unique *)
Lemma inverse_unique n A B C : inverse_of n A B -> inverse_of n A C -> forall i j, (i < n)%nat -> (j < n)%nat -> B i j = C i j.
Proof.
  intros HB HC i j Hi Hj.
  transitivity (rsum n (fun k => B i k * rsum n (fun l => A k l * C l j))).
  - rewrite (rsum_ext n _ (fun k => if Nat.eqb k j then B i k else 0)).
    + rewrite rsum_delta by exact Hj. reflexivity.
    + intros k Hk. rewrite (proj1 (HC k j Hk Hj)). unfold delta. destruct (Nat.eqb k j); ring.
  - rewrite (rsum_ext n _ (fun k => rsum n (fun l => B i k * A k l * C l j))) by (intros k Hk; rewrite <- rsum_scal_l; apply rsum_ext; intros; ring).
    rewrite rsum_swap. rewrite (rsum_ext n _ (fun l => if Nat.eqb i l then C l j else 0)).
    + apply (rsum_delta_r n i (fun l => C l j)); exact Hi.
    + intros l Hl. rewrite rsum_scal_r. rewrite (proj2 (HB i l Hi Hl)). unfold delta. destruct (Nat.eqb i l); ring.
Qed.

Section Special.
Variable gammaln digamma : num -> num.
Variable LG PSI : R -> R.
Hypothesis HLG : special gammaln LG.
Hypothesis HPSI : special digamma PSI.

(** ---- multivariate gamma ---- *)
Lemma linspace_entry n i : (i < n)%nat -> (if Nat.ltb 1 n && Nat.eqb (S i) n then INR n - 1 else INR i * ((INR n - 1 - 0) / INR (n - 1)) + 0) = INR i.
Proof.
  intros H. destruct (Nat.ltb_spec 1 n) as [L|L].
  - destruct (Nat.eqb_spec (S i) n) as [E|E]; cbn [andb].
    + subst n. rewrite S_INR. ring.
    + rewrite minus_INR by lia. cbn [INR]. field. change 1 with (INR 1). rewrite <- minus_INR by lia. apply not_0_INR. lia.
  - cbn [andb]. replace i with 0%nat by lia. cbn [INR]. ring.
Qed.
Lemma multi_arg x n idx : In idx (product [n]) ->
  nsub (Fin x) (nmul (Fin (/ 2)) (let i := nth 0 idx 0%nat in Fin (if Nat.ltb 1 n && Nat.eqb (S i) n then INR n - 1 else INR i * ((INR n - 1 - 0) / INR (n - 1)) + 0))) =
  Fin (x - INR (nth 0 idx 0%nat) / 2).
Proof. intros H. apply in_product_1 in H as [i [-> Hi]]. cbn [nth]. cbv zeta. rewrite linspace_entry by exact Hi. fin. f_equal. field. Qed.
Lemma multi_sum g G x n : special g G -> (forall i, (i < n)%nat -> 0 < x - INR i / 2) ->
  sum_all (nun g (Ok (fnum x) - lit (/ 2)%R * Ok (np_linspace 0 (INR n - 1)%R n))%py) = Ok (fnum (rsum n (fun i => G (x - INR i / 2)))).
Proof.
  intros Hg P. rewrite np_linspace_mk, fnum_mk. py. apply Ok_eq. rewrite fnum_mk. apply mk_nd_ext. intros _ _. rewrite product_1, map_map.
  apply nsum_seq_fin. intros i Hi. rewrite multi_arg by (apply in_product_1; exists i; auto). cbn [nth]. apply Hg, P, Hi.
Qed.
Lemma multivariate_digamma_value x n : (forall i, (i < n)%nat -> 0 < x - INR i / 2) ->
  multivariate_digamma digamma (fnum x) n = Ok (fnum (rsum n (fun i => PSI (x - INR i / 2)))).
Proof. apply multi_sum, HPSI. Qed.
Lemma multivariate_gammaln_value x n : (forall i, (i < n)%nat -> 0 < x - INR i / 2) ->
  multivariate_gammaln gammaln (fnum x) n = Ok (fnum (log_multigamma LG n x)).
Proof.
  intros P. unfold multivariate_gammaln. rewrite (multi_sum _ LG) by assumption. rewrite fnum_mk. py. apply Ok_eq. rewrite fnum_mk. apply mk_nd_ext. intros _ _.
  rewrite nlog_pos by apply PI_RGT_0. fin. f_equal. unfold log_multigamma. field.
Qed.
Lemma half_pos_args df n : INR n - 1 < df -> forall i, (i < n)%nat -> 0 < df / 2 - INR i / 2.
Proof. intros H i Hi. apply Nat.le_succ_l in Hi. apply le_INR in Hi. rewrite S_INR in Hi. lra. Qed.
Lemma multi_recursion x n : INR n / 2 < x ->
  exists a b c e, multivariate_gammaln gammaln (fnum x) n = Ok (fnum a) /\ multivariate_gammaln gammaln (fnum x) (S n) = Ok (fnum b) /\
    multivariate_digamma digamma (fnum x) n = Ok (fnum c) /\ multivariate_digamma digamma (fnum x) (S n) = Ok (fnum e) /\
    b = a + LG (x - INR n / 2) + INR n / 2 * ln PI /\ e = c + PSI (x - INR n / 2) /\ (n = 0%nat -> a = 0 /\ c = 0).
Proof.
  intros H. assert (P1 : forall i, (i < S n)%nat -> 0 < x - INR i / 2) by (intros i Hi; assert (INR i <= INR n) by (apply le_INR; lia); lra).
  assert (P0 : forall i, (i < n)%nat -> 0 < x - INR i / 2) by (intros; apply P1; lia).
  eexists _, _, _, _. split; [apply multivariate_gammaln_value; exact P0|]. split; [apply multivariate_gammaln_value; exact P1|].
  split; [apply multivariate_digamma_value; exact P0|]. split; [apply multivariate_digamma_value; exact P1|].
  unfold log_multigamma. split; [|split].
  - cbn [rsum]. rewrite S_INR. field.
  - reflexivity.
  - intros ->. cbn. split; field.
Qed.
(** lowering the dimension and the argument together *)
Lemma log_multigamma_shift n x : log_multigamma LG (S n) x = INR n / 2 * ln PI + LG x + log_multigamma LG n (x - / 2).
Proof.
  unfold log_multigamma. rewrite rsum_S_l, (S_INR n). change (INR 0) with 0. replace (x - 0 / 2) with x by field.
  rewrite (rsum_ext n (fun i => LG (x - INR (S i) / 2)) (fun i => LG (x - / 2 - INR i / 2))) by (intros; rewrite S_INR; f_equal; field). field.
Qed.

(** ---- entropies ---- *)
Definition normal_entropy (L : R) : R := / 2 * (1 + ln (2 * PI) - ln L).
Lemma two_pi_pos : 0 < 2 * PI.
Proof. pose proof PI_RGT_0. lra. Qed.
Lemma uvn_entropy_value s L : (forall i, index s i -> 0 < L i) ->
  univariate_normal_entropy (farr s L) = Ok (fnum (lsum (map (fun i => normal_entropy (L i)) (product s)))).
Proof.
  intros P. unfold univariate_normal_entropy, farr. py. apply Ok_eq. rewrite fnum_mk. apply mk_nd_ext. intros _ _.
  rewrite (nsum_map_fin _ (fun i => 2 * normal_entropy (L i))).
  - cbn [nmul]. f_equal. rewrite lsum_map_scal. field.
  - intros i Hi. cbn [nmul]. rewrite nlog_pos by (apply P, Hi). rewrite (nlog_pos (2 * PI)) by apply two_pi_pos. fin. f_equal. unfold normal_entropy. field.
Qed.
Definition gamma_entropy_of (a b : R) : R := a - ln b + LG a + (1 - a) * PSI a.
Lemma gamma_entropy_value s a b : (forall i, index s i -> 0 < a i /\ 0 < b i) ->
  gamma_entropy gammaln digamma (farr s a) (farr s b) = Ok (fnum (lsum (map (fun i => gamma_entropy_of (a i) (b i)) (product s)))).
Proof.
  intros P. unfold gamma_entropy, farr. py. apply Ok_eq. rewrite fnum_mk. apply mk_nd_ext. intros _ _.
  apply nsum_map_fin. intros i Hi. destruct (P i Hi) as [Pa Pb]. rewrite nlog_pos by exact Pb. rewrite HLG, HPSI by exact Pa. reflexivity.
Qed.
Lemma e_log_gamma_value s a b : (forall i, index s i -> 0 < a i /\ 0 < b i) ->
  get_e_log_gamma digamma (farr s a) (farr s b) = Ok (farr s (fun i => PSI (a i) - ln (b i))).
Proof. intros P. unfold get_e_log_gamma. pyfin. destruct (P idx Hidx) as [Pa Pb]. rewrite nlog_pos by exact Pb. rewrite HPSI by exact Pa. reflexivity. Qed.
Lemma e_log_dirichlet_value n s alpha : (forall i, index (n :: s) i -> 0 < alpha i) ->
  get_e_log_dirichlet digamma (farr (n :: s) alpha) = Ok (farr (n :: s) (fun i => PSI (alpha i) - PSI (rsum n (fun k => alpha (k :: tl i))))).
Proof.
  intros P. unfold get_e_log_dirichlet, farr. py. cbn [rbind]. py. apply Ok_eq. apply mk_nd_ext. intros i Hi. rewrite nsum_seq. cbn [tl].
  rewrite HPSI by (apply P, Hi). apply in_product_cons_inv in Hi as [k [r [-> [Hk Hr]]]]. cbn [tl].
  rewrite HPSI by (apply (column_sum_pos n s); [lia|exact P|exact Hr]). reflexivity.
Qed.
Definition dirichlet_entropy_of (n : nat) (a : nat -> R) : R :=
  rsum n (fun k => LG (a k)) - LG (rsum n a) - (INR n - rsum n a) * PSI (rsum n a) - rsum n (fun k => (a k - 1) * PSI (a k)).
Lemma dirichlet_entropy_value n s alpha : (0 < n)%nat -> (forall i, index (n :: s) i -> 0 < alpha i) ->
  dirichlet_entropy gammaln digamma (farr (n :: s) alpha) = Ok (farr s (fun j => dirichlet_entropy_of n (fun k => alpha (k :: j)))).
Proof.
  intros N P. unfold dirichlet_entropy, farr, shape_at. rewrite mk_nd_shape. cbn [nth_error rbind]. py. cbn [rbind]. py. cbn [rbind]. py. cbn [rbind].
  rewrite np_squeeze0. apply Ok_eq. apply mk_nd_ext. intros j Hj. cbn [tl].
  assert (C : 0 < rsum n (fun k => alpha (k :: j))) by (apply (column_sum_pos n s); assumption).
  assert (Pk : forall k, (k < n)%nat -> 0 < alpha (k :: j)) by (intros k Hk; apply P, in_product_cons; auto).
  rewrite nsum_seq, HLG, HPSI by exact C.
  rewrite (nsum_seq_fin _ (fun k => LG (alpha (k :: j)))) by (intros k Hk; apply HLG, Pk, Hk).
  rewrite (nsum_seq_fin _ (fun k => (alpha (k :: j) - 1) * PSI (alpha (k :: j)))) by (intros k Hk; rewrite HPSI by (apply Pk, Hk); reflexivity).
  reflexivity.
Qed.
Lemma np_col_mat n m j t : (j < m)%nat -> np_col j (fmat_of n m t) = Ok (mk_nd [n] (fun idx => Fin (t (nth 0 idx 0%nat) j))).
Proof.
  intros Hj. unfold np_col, fmat_of, farr. rewrite mk_nd_shape. replace (Nat.ltb j m) with true by (symmetry; apply Nat.ltb_lt; exact Hj). apply Ok_eq.
  apply mk_nd_ext. intros idx H. apply in_product_1 in H as [i [-> Hi]]. cbn [hd tl nth]. rewrite nd_at_mk by (apply in_product_2; auto). reflexivity.
Qed.
Lemma sum_axis1_mat n m t : sum_axis 1 (Ok (fmat_of n m t)) = Ok (mk_nd [n] (fun idx => Fin (rsum m (fun k => t (nth 0 idx 0%nat) k)))).
Proof.
  unfold fmat_of, farr. change [n; m] with ([n] ++ [m]). change 1%nat with (length [n]). rewrite sum_last_mk. apply Ok_eq. apply mk_nd_ext. intros idx H.
  apply in_product_1 in H as [i [-> Hi]]. cbn [app nth]. apply nsum_seq.
Qed.
Lemma beta_entropy_value n t : (forall i k, (i < n)%nat -> (k < 2)%nat -> 0 < t i k) ->
  beta_entropy gammaln digamma (fmat_of n 2 t) = Ok (fnum (rsum n (fun i => dirichlet_entropy_of 2 (t i)))).
Proof.
  intros P. unfold beta_entropy. cbv zeta. rewrite !np_col_mat by lia. rewrite !sum_axis1_mat. py. apply Ok_eq. rewrite fnum_mk. apply mk_nd_ext. intros _ _.
  rewrite product_1, map_map. cbn [nth]. apply nsum_seq_fin. intros i Hi.
  assert (P0 := P i 0%nat Hi ltac:(lia)). assert (P1 := P i 1%nat Hi ltac:(lia)). cbn [rsum]. rewrite !HLG, !HPSI by lra. fin. f_equal.
  unfold dirichlet_entropy_of. cbn [rsum INR]. ring.
Qed.
Lemma beta_is_dirichlet n t : (forall i k, (i < n)%nat -> (k < 2)%nat -> 0 < t i k) ->
  exists h, dirichlet_entropy gammaln digamma (fmat_of 2 n (fun k i => t i k)) = Ok (fvec_of n h) /\
            beta_entropy gammaln digamma (fmat_of n 2 t) = Ok (fnum (rsum n h)).
Proof.
  intros P. exists (fun i => dirichlet_entropy_of 2 (t i)). split; [|apply beta_entropy_value; exact P].
  unfold fmat_of. rewrite dirichlet_entropy_value; [apply Ok_eq; apply farr_ext|lia|].
  - intros idx H. apply in_product_1 in H as [i [-> Hi]]. cbn [nth]. reflexivity.
  - intros idx H. apply in_product_2_inv in H as [k [i [-> [Hk Hi]]]]. cbn [nth]. apply P; assumption.
Qed.

(** ---- determinant-based ---- *)
Variable slogdet : arr -> res (num * num).
Hypothesis HS : slogdet_contract slogdet.
Lemma sign_pos : nltb (Fin 0) (Fin 1) = true.
Proof. apply Rltb_true. lra. Qed.
Lemma mvn_entropy_value n L : 0 < det n L ->
  multivariate_normal_entropy slogdet (fmat n L) = Ok (fnum (/ 2 * (INR n * (1 + ln (2 * PI)) - ln (det n L)))).
Proof.
  intros P. unfold multivariate_normal_entropy. rewrite (proj1 (HS n L) P). cbn [rbind fst snd]. rewrite sign_pos. unfold rassert, shape_at. cbn [shape fmat mk_mat nth_error rbind].
  py. apply Ok_eq. rewrite fnum_mk. apply mk_nd_ext. intros _ _. cbn [nmul]. rewrite (nlog_pos (2 * PI)) by apply two_pi_pos. fin. f_equal. field.
Qed.
Lemma mvn_entropy_not_pd n L : det n L <= 0 -> multivariate_normal_entropy slogdet (fmat n L) = Raise AssertionError.
Proof.
  intros P. unfold multivariate_normal_entropy. destruct P as [P|P].
  - rewrite (proj1 (proj2 (HS n L)) P). cbn [rbind fst snd]. replace (nltb (Fin 0) (Fin (-1))) with false by (symmetry; apply Rltb_false; lra). reflexivity.
  - rewrite (proj2 (proj2 (HS n L)) P). cbn [rbind fst snd]. replace (nltb (Fin 0) (Fin 0)) with false by (symmetry; apply Rltb_false; lra). reflexivity.
Qed.
Lemma mvn_diag_is_uvn n d : (forall i, (i < n)%nat -> 0 < d i) ->
  multivariate_normal_entropy slogdet (fmat n (fun i j => if Nat.eqb i j then d i else 0)) = univariate_normal_entropy (fvec_of n d).
Proof.
  intros P. unfold fvec_of. rewrite uvn_entropy_value by (intros i Hi; apply in_product_1 in Hi as [k [-> Hk]]; apply P, Hk).
  rewrite mvn_entropy_value by (rewrite det_diag; apply rprod_pos; exact P). do 2 f_equal. rewrite det_diag, ln_rprod by exact P.
  rewrite product_1, map_map, lsum_map_seq. cbn [nth]. unfold normal_entropy. rewrite rsum_scal_l, rsum_minus, rsum_const. reflexivity.
Qed.
Lemma wishart_head_ok n V body : 0 < det n V -> wishart_head slogdet (fmat n V) body = body n (Fin (ln (det n V))).
Proof.
  intros P. unfold wishart_head, shape_at. cbn [shape fmat mk_mat nth_error rbind]. rewrite Nat.eqb_refl. unfold rassert. fold (fmat n V).
  change (mk_mat n n (fun i j => Fin (V i j))) with (fmat n V). rewrite (proj1 (HS n V) P). cbn [rbind fst snd]. rewrite sign_pos. reflexivity.
Qed.
Lemma half_df df : nbin nmul (lit (/ 2)) (Ok (fnum df)) = Ok (fnum (df / 2)).
Proof. rewrite fnum_mk. py. apply Ok_eq. rewrite fnum_mk. apply mk_nd_ext. intros _ _. fin. f_equal. field. Qed.
Lemma ln2_pos : 0 < 2. Proof. lra. Qed.
Definition e_log_det_of (n : nat) (df : R) (V : nat -> nat -> R) : R := rsum n (fun i => PSI (df / 2 - INR i / 2)) + INR n * ln 2 + ln (det n V).
Lemma e_log_det_value n df V : INR n - 1 < df -> 0 < det n V ->
  e_log_det_wishart digamma slogdet (fnum df) (fmat n V) = Ok (fnum (e_log_det_of n df V)).
Proof.
  intros Hd P. unfold e_log_det_wishart. rewrite wishart_head_ok by exact P. rewrite half_df. cbn [rbind].
  rewrite multivariate_digamma_value by (apply half_pos_args, Hd). rewrite fnum_mk. py. apply Ok_eq. rewrite fnum_mk. apply mk_nd_ext. intros _ _.
  rewrite (nlog_pos 2) by lra. fin. reflexivity.
Qed.
Definition wishart_entropy_of (n : nat) (df : R) (V : nat -> nat -> R) : R :=
  (INR n + 1) / 2 * ln (det n V) + INR n * (INR n + 1) / 2 * ln 2 + log_multigamma LG n (df / 2)
  - (df - INR n - 1) / 2 * rsum n (fun i => PSI (df / 2 - INR i / 2)) + df * INR n / 2.
Lemma wishart_entropy_value n df V : INR n - 1 < df -> 0 < det n V ->
  wishart_entropy gammaln digamma slogdet (fnum df) (fmat n V) = Ok (fnum (wishart_entropy_of n df V)).
Proof.
  intros Hd P. unfold wishart_entropy. rewrite wishart_head_ok by exact P. rewrite half_df. cbn [rbind].
  rewrite multivariate_digamma_value, multivariate_gammaln_value by (apply half_pos_args, Hd). rewrite !fnum_mk. py. apply Ok_eq. apply mk_nd_ext. intros _ _.
  rewrite (nlog_pos 2) by lra. fin. f_equal. unfold wishart_entropy_of. field.
Qed.
Lemma wishart_1_is_gamma df v : 0 < df -> 0 < v ->
  wishart_entropy gammaln digamma slogdet (fnum df) (fmat 1 (fun _ _ => v)) = gamma_entropy gammaln digamma (fnum (df / 2)) (fnum (/ (2 * v))) /\
  e_log_det_wishart digamma slogdet (fnum df) (fmat 1 (fun _ _ => v)) = get_e_log_gamma digamma (fnum (df / 2)) (fnum (/ (2 * v))).
Proof.
  intros Hd Hv. assert (L : ln (/ (2 * v)) = - (ln 2 + ln v)) by (rewrite ln_Rinv, ln_mult by lra; reflexivity).
  assert (I : 0 < / (2 * v)) by (apply Rinv_0_lt_compat; lra). split.
  - rewrite wishart_entropy_value by (rewrite ?det_1; cbn [INR]; lra). change (fnum (df / 2)) with (farr [] (fun _ => df / 2)). change (fnum (/ (2 * v))) with (farr [] (fun _ => / (2 * v))).
    rewrite gamma_entropy_value by (intros; lra). do 2 f_equal. cbn [product map lsum fold_right]. unfold wishart_entropy_of, gamma_entropy_of, log_multigamma. rewrite det_1, L. cbn [rsum INR].
    replace (df / 2 - 0 / 2) with (df / 2) by field. field.
  - rewrite e_log_det_value by (rewrite ?det_1; cbn [INR]; lra). change (fnum (df / 2)) with (farr [] (fun _ => df / 2)). change (fnum (/ (2 * v))) with (farr [] (fun _ => / (2 * v))).
    rewrite e_log_gamma_value by (intros; lra). apply Ok_eq. change (fnum (e_log_det_of 1 df (fun _ _ => v))) with (farr [] (fun _ => e_log_det_of 1 df (fun _ _ => v))).
    apply farr_ext. intros _ _. unfold e_log_det_of. rewrite det_1, L. cbn [rsum INR]. replace (df / 2 - 0 / 2) with (df / 2) by field. ring.
Qed.
Lemma wishart_not_pd n df V : det n V <= 0 ->
  wishart_entropy gammaln digamma slogdet (fnum df) (fmat n V) = Raise AssertionError /\ e_log_det_wishart digamma slogdet (fnum df) (fmat n V) = Raise AssertionError.
Proof.
  intros P. assert (H : forall body, wishart_head slogdet (fmat n V) body = Raise AssertionError).
  { intros body. unfold wishart_head, shape_at. cbn [shape fmat mk_mat nth_error rbind]. rewrite Nat.eqb_refl. unfold rassert.
    change (mk_mat n n (fun i j => Fin (V i j))) with (fmat n V). destruct P as [P|P].
    - rewrite (proj1 (proj2 (HS n V)) P). cbn [rbind fst snd]. replace (nltb (Fin 0) (Fin (-1))) with false by (symmetry; apply Rltb_false; lra). reflexivity.
    - rewrite (proj2 (proj2 (HS n V)) P). cbn [rbind fst snd]. replace (nltb (Fin 0) (Fin 0)) with false by (symmetry; apply Rltb_false; lra). reflexivity. }
  split; apply H.
Qed.

(** ---- entropies are minus expected log densities ---- *)
Lemma normal_entropy_expect s m L (D : list nat -> dist R) :
  (forall i, index s i -> 0 < L i /\ is_dist (D i) /\ mean (D i) = m i /\ variance (D i) = / L i) ->
  univariate_normal_entropy (farr s L) = Ok (fnum (lsum (map (fun i => - expect (D i) (fun x => ln (normal_pdf (m i) (L i) x))) (product s)))).
Proof.
  intros H. rewrite uvn_entropy_value by (intros i Hi; apply H, Hi). do 2 f_equal. apply lsum_map_ext. intros i Hi. destruct (H i Hi) as [Li [Di [Mi Vi]]].
  rewrite (expect_ext _ _ (fun x => (- (L i) / 2) * ((x - m i) * (x - m i)) + ln (sqrt (L i / (2 * PI))))) by (intros x; rewrite ln_normal_pdf by exact Li; field).
  rewrite expect_plus, expect_scal, expect_const, expect_centered by exact Di. rewrite Mi, Vi. unfold normal_entropy.
  assert (Q : ln (sqrt (L i / (2 * PI))) = / 2 * (ln (L i) - ln (2 * PI))).
  { assert (T : 0 < L i / (2 * PI)) by (apply Rdiv_lt_0_compat; [exact Li|apply two_pi_pos]).
    assert (E : ln (L i / (2 * PI)) = ln (sqrt (L i / (2 * PI))) + ln (sqrt (L i / (2 * PI)))) by (rewrite <- ln_mult by (apply sqrt_lt_R0; exact T); rewrite sqrt_sqrt by lra; reflexivity).
    unfold Rdiv in E at 1. rewrite ln_mult, ln_Rinv in E by (try apply two_pi_pos; try exact Li; apply Rinv_0_lt_compat, two_pi_pos). lra. }
  rewrite Q. field. lra.
Qed.
Lemma gamma_entropy_expect s a b (D : list nat -> dist R) :
  (forall i, index s i -> 0 < a i /\ 0 < b i /\ is_dist (D i) /\ surely (D i) (fun x => 0 < x) /\ mean (D i) = a i / b i) ->
  get_e_log_gamma digamma (farr s a) (farr s b) = Ok (farr s (fun i => expect (D i) ln)) ->
  gamma_entropy gammaln digamma (farr s a) (farr s b) =
    Ok (fnum (lsum (map (fun i => gamma_log_norm LG (a i) (b i) - expect (D i) (fun x => ln (gamma_kernel (a i) (b i) x))) (product s)))).
Proof.
  intros H E. rewrite e_log_gamma_value in E by (intros i Hi; split; apply H, Hi). rewrite gamma_entropy_value by (intros i Hi; split; apply H, Hi).
  do 2 f_equal. apply lsum_map_ext. intros i Hi. destruct (H i Hi) as [Pa [Pb [Di [Si Mi]]]].
  assert (E' : PSI (a i) - ln (b i) = expect (D i) ln).
  { injection E as E. apply (mk_nd_inj s (fun i => Fin (PSI (a i) - ln (b i))) (fun i => Fin (expect (D i) ln))) with (idx := i) in Hi; [injection Hi as Hi; exact Hi|]. unfold mk_nd. f_equal. exact E. }
  rewrite (expect_ext _ _ (fun x => (a i - 1) * ln x - b i * x)) by (intros; apply ln_gamma_kernel). rewrite expect_minus, !expect_scal. change (expect (D i) (fun x => ln x)) with (expect (D i) ln). rewrite <- E'.
  change (expect (D i) (fun x => x)) with (mean (D i)). rewrite Mi. unfold gamma_entropy_of, gamma_log_norm. field. lra.
Qed.
Lemma dirichlet_entropy_expect n s alpha (D : list nat -> dist (nat -> R)) :
  (0 < n)%nat -> (forall i, index (n :: s) i -> 0 < alpha i) ->
  (forall j, index s j -> is_dist (D j) /\ surely (D j) (fun x => forall k, (k < n)%nat -> 0 < x k)) ->
  get_e_log_dirichlet digamma (farr (n :: s) alpha) = Ok (farr (n :: s) (fun i => expect (D (tl i)) (fun x => ln (x (hd 0%nat i))))) ->
  dirichlet_entropy gammaln digamma (farr (n :: s) alpha) =
    Ok (farr s (fun j => let a := fun k => alpha (k :: j) in dirichlet_log_norm LG n a - expect (D j) (fun x => ln (dirichlet_kernel n a x)))).
Proof.
  intros N P H E. rewrite e_log_dirichlet_value in E by exact P. rewrite dirichlet_entropy_value by assumption. apply Ok_eq. apply farr_ext. intros j Hj.
  assert (E' : forall k, (k < n)%nat -> PSI (alpha (k :: j)) - PSI (rsum n (fun k => alpha (k :: j))) = expect (D j) (fun x => ln (x k))).
  { intros k Hk. injection E as E. assert (Hi : index (n :: s) (k :: j)) by (apply in_product_cons; auto).
    apply (mk_nd_inj (n :: s) (fun i => Fin (PSI (alpha i) - PSI (rsum n (fun k => alpha (k :: tl i))))) (fun i => Fin (expect (D (tl i)) (fun x => ln (x (hd 0%nat i)))))) with (idx := k :: j) in Hi; [injection Hi as Hi; exact Hi|]. unfold mk_nd. f_equal. exact E. }
  cbv zeta. rewrite (expect_ext _ _ (fun x => rsum n (fun k => (alpha (k :: j) - 1) * ln (x k)))) by (intros; apply ln_dirichlet_kernel). rewrite expect_rsum.
  rewrite (rsum_ext n _ (fun k => (alpha (k :: j) - 1) * PSI (alpha (k :: j)) - (alpha (k :: j) - 1) * PSI (rsum n (fun k => alpha (k :: j))))) by (intros k Hk; rewrite expect_scal, <- E' by exact Hk; ring).
  rewrite rsum_minus, rsum_scal_r, rsum_minus, rsum_const. unfold dirichlet_entropy_of, dirichlet_log_norm. ring.
Qed.
Lemma mvn_entropy_expect n m L C (d : dist (nat -> R)) :
  0 < det n L -> inverse_of n L C -> is_dist d ->
  (forall i, (i < n)%nat -> vmean d i = m i) -> (forall i j, (i < n)%nat -> (j < n)%nat -> vcov d i j = C i j) ->
  multivariate_normal_entropy slogdet (fmat n L) = Ok (fnum (mvn_log_norm n L - expect d (fun x => ln (mvn_kernel n m L x)))).
Proof.
  intros P I D M V. rewrite mvn_entropy_value by exact P. do 2 f_equal.
  rewrite (expect_ext d _ (fun x => - / 2 * rsum n (fun i => rsum n (fun j => L i j * ((x i - m i) * (x j - m j)))))).
  2:{ intros x. unfold mvn_kernel. rewrite ln_exp. f_equal. unfold quad. apply rsum_ext; intros i _; apply rsum_ext; intros j _. ring. }
  rewrite expect_scal, expect_rsum. rewrite (rsum_ext n _ (fun i => 1)).
  - rewrite rsum_const. unfold mvn_log_norm. field.
  - intros i Hi. rewrite expect_rsum. transitivity (rsum n (fun j => L i j * C j i)).
    + apply rsum_ext. intros j Hj. rewrite expect_scal, expect_vcentered, !M, vcov_sym, V by assumption. ring.
    + rewrite (proj1 (I i i Hi Hi)). unfold delta. rewrite Nat.eqb_refl. reflexivity.
Qed.
Lemma wishart_entropy_expect n df V Vinv (d : dist (nat -> nat -> R)) :
  INR n - 1 < df -> 0 < det n V -> inverse_of n V Vinv -> is_dist d -> surely d (fun X => 0 < det n X) ->
  (forall i j, (i < n)%nat -> (j < n)%nat -> expect d (fun X => X i j) = df * V i j) ->
  e_log_det_wishart digamma slogdet (fnum df) (fmat n V) = Ok (fnum (expect d (fun X => ln (det n X)))) ->
  wishart_entropy gammaln digamma slogdet (fnum df) (fmat n V) = Ok (fnum (wishart_log_norm LG n df V - expect d (fun X => ln (wishart_kernel n df Vinv X)))).
Proof.
  intros Hd P I D S M E. rewrite e_log_det_value in E by assumption. rewrite wishart_entropy_value by assumption. do 2 f_equal.
  injection E as E.
  rewrite (expect_ext d _ (fun X => (df - INR n - 1) / 2 * ln (det n X) + - / 2 * rsum n (fun i => rsum n (fun j => Vinv i j * X j i)))).
  2:{ intros X. unfold wishart_kernel, Rpower. rewrite ln_mult by apply exp_pos. rewrite !ln_exp. reflexivity. }
  rewrite expect_plus, !expect_scal, <- E, expect_rsum. rewrite (rsum_ext n _ (fun i => df)).
  - rewrite rsum_const. unfold wishart_entropy_of, e_log_det_of, wishart_log_norm. field.
  - intros i Hi. rewrite expect_rsum. rewrite (rsum_ext n _ (fun j => df * (Vinv i j * V j i))) by (intros j Hj; rewrite expect_scal, M by assumption; ring).
    rewrite rsum_scal_l, (proj2 (I i i Hi Hi)). unfold delta. rewrite Nat.eqb_refl. ring.
Qed.

(** ---- the LKJ prior ---- *)
Variable inv : arr -> res arr.
Lemma fvec_of_mk n x : fvec_of n x = mk_nd [n] (fun idx => Fin (x (nth 0 idx 0%nat))).
Proof. reflexivity. Qed.
Lemma e_log_inv_diag_value n df V B : INR n - 1 < df -> inv (fmat n V) = Ok (fmat n B) -> inverse_of n V B -> (forall i, (i < n)%nat -> 0 < B i i) ->
  e_log_inv_wishart_diag digamma inv (fnum df) (fmat n V) = Ok (fvec_of n (fun i => ln (B i i) - PSI ((df - INR n + 1) / 2) - ln 2)).
Proof.
  intros Hd EB HB PB. unfold e_log_inv_wishart_diag, shape_at. cbn [shape fmat mk_mat nth_error rbind]. rewrite Nat.eqb_refl. unfold rassert.
  change (mk_mat n n (fun i j => Fin (V i j))) with (fmat n V). rewrite EB. cbn [rbind].
  assert (Dg : np_diag (fmat n B) = Ok (mk_nd [n] (fun idx => Fin (B (nth 0 idx 0%nat) (nth 0 idx 0%nat))))).
  { rewrite fmat_fmat_of. unfold np_diag, fmat_of, farr. rewrite mk_nd_shape, Nat.min_id. apply Ok_eq. apply mk_nd_ext. intros idx H. apply in_product_1 in H as [i [-> Hi]].
    cbn [nth]. rewrite nd_at_mk by (apply in_product_2; auto). reflexivity. }
  rewrite Dg. cbn [rbind]. rewrite fnum_mk. py. apply Ok_eq. rewrite fvec_of_mk. apply mk_nd_ext. intros idx H. apply in_product_1 in H as [i [-> Hi]]. cbn [nth].
  rewrite nlog_pos by (apply PB, Hi). rewrite (nlog_pos 2) by lra. fin.
  replace (/ 2 * (df + - INR n + 1)) with ((df - INR n + 1) / 2) by field. rewrite HPSI by lra. reflexivity.
Qed.
Lemma lkj_value n df V B eta : INR n - 1 < df -> 0 < det n V -> inv (fmat n V) = Ok (fmat n B) -> inverse_of n V B -> (forall i, (i < n)%nat -> 0 < B i i) ->
  expected_ljk_prior digamma slogdet inv eta (fnum df) (fmat n V) =
  Ok (fnum ((eta - 1) * (- (rsum n (fun i => PSI (df / 2 - INR i / 2)) - INR n * PSI ((df - INR n + 1) / 2)) - (ln (det n V) + rsum n (fun i => ln (B i i)))))).
Proof.
  intros Hd P EB HB PB. unfold expected_ljk_prior. rewrite e_log_det_value by assumption. rewrite (e_log_inv_diag_value n df V B) by assumption.
  rewrite fnum_mk, fvec_of_mk. py. cbn [rbind]. py. apply Ok_eq. rewrite fnum_mk. apply mk_nd_ext. intros _ _. rewrite product_1, map_map. cbn [nth]. rewrite nsum_seq. fin. f_equal.
  unfold e_log_det_of. rewrite (rsum_ext n (fun i => ln (B i i) - PSI ((df - INR n + 1) / 2) - ln 2) (fun i => ln (B i i) - (PSI ((df - INR n + 1) / 2) + ln 2))) by (intros; ring). rewrite rsum_minus, rsum_const. ring.
Qed.
Lemma lkj_one df v eta : 0 < df -> 0 < v -> inverts inv 1 (fun _ _ => v) -> expected_ljk_prior digamma slogdet inv eta (fnum df) (fmat 1 (fun _ _ => v)) = Ok (fnum 0).
Proof.
  intros Hd Hv [B [EB HB]]. assert (B0 : B 0%nat 0%nat = / v).
  { destruct (HB 0%nat 0%nat) as [H _]; [lia|lia|]. cbn [rsum] in H. unfold delta in H. cbn [Nat.eqb] in H. apply (Rmult_eq_reg_l v); [|lra]. rewrite Rinv_r by lra. lra. }
  assert (Pi : 0 < / v) by (apply Rinv_0_lt_compat; exact Hv). rewrite (lkj_value 1 df _ B).
  - do 2 f_equal. rewrite det_1. cbn [rsum INR]. rewrite B0, ln_Rinv by exact Hv. replace (df / 2 - 0 / 2) with (df / 2) by field. replace ((df - 1 + 1) / 2) with (df / 2) by field. ring.
  - cbn [INR]. lra.
  - rewrite det_1. exact Hv.
  - exact EB.
  - exact HB.
  - intros i Hi. replace i with 0%nat by lia. rewrite B0. exact Pi.
Qed.
Lemma inverse_scaled n V B d : (forall i, (i < n)%nat -> d i <> 0) -> inverse_of n V B -> inverse_of n (fun i j => d i * V i j * d j) (fun i j => / d i * B i j * / d j).
Proof.
  intros Nd H i j Hi Hj. destruct (H i j Hi Hj) as [H1 H2]. split.
  - rewrite (rsum_ext n _ (fun k => d i * / d j * (V i k * B k j))) by (intros k Hk; field; split; apply Nd; assumption). rewrite rsum_scal_l, H1. unfold delta.
    destruct (Nat.eqb_spec i j) as [<-|]; [field; apply Nd; exact Hi|ring].
  - rewrite (rsum_ext n _ (fun k => / d i * d j * (B i k * V k j))) by (intros k Hk; field; split; apply Nd; assumption). rewrite rsum_scal_l, H2. unfold delta.
    destruct (Nat.eqb_spec i j) as [<-|]; [field; apply Nd; exact Hi|ring].
Qed.
Lemma lkj_scale n df V eta d : INR n - 1 < df -> 0 < det n V -> (forall B, inverse_of n V B -> forall i, (i < n)%nat -> 0 < B i i) -> (forall i, (i < n)%nat -> d i <> 0) ->
  inverts inv n V -> inverts inv n (fun i j => d i * V i j * d j) ->
  exists r, expected_ljk_prior digamma slogdet inv eta (fnum df) (fmat n V) = Ok (fnum r) /\
            expected_ljk_prior digamma slogdet inv eta (fnum df) (fmat n (fun i j => d i * V i j * d j)) = Ok (fnum r).
Proof.
  intros Hd P PB Nd [B [EB HB]] [C [EC HC]]. specialize (PB B HB). eexists. split; [apply (lkj_value n df V B); assumption|].
  assert (Dt : det n (fun i j => d i * V i j * d j) = rprod n (fun i => d i * d i) * det n V).
  { rewrite (det_ext n _ (fun i j => d i * d j * V i j)) by (intros; ring). rewrite det_scale, rprod_mult. reflexivity. }
  assert (Pd : forall i, (i < n)%nat -> 0 < d i * d i) by (intros i Hi; apply Rsqr_pos_lt; apply Nd; exact Hi).
  assert (Pi : forall i, (i < n)%nat -> 0 < / (d i * d i)) by (intros i Hi; apply Rinv_0_lt_compat, Pd, Hi).
  assert (Q : forall i, (i < n)%nat -> C i i = / (d i * d i) * B i i).
  { intros i Hi. rewrite (inverse_unique n _ C (fun i j => / d i * B i j * / d j) HC (inverse_scaled n V B d Nd HB) i i Hi Hi). field. apply Nd; exact Hi. }
  rewrite (lkj_value n df _ C).
  - do 2 f_equal. f_equal. rewrite Dt, ln_mult, ln_rprod by (assumption || apply rprod_pos; assumption).
    rewrite (rsum_ext n (fun i => ln (C i i)) (fun i => ln (B i i) - ln (d i * d i))).
    + rewrite rsum_minus. ring.
    + intros i Hi. rewrite Q by exact Hi. rewrite ln_mult, ln_Rinv by (apply Pd || apply Pi || apply PB; exact Hi). ring.
  - exact Hd.
  - rewrite Dt. apply Rmult_lt_0_compat; [apply rprod_pos; exact Pd|exact P].
  - exact EC.
  - exact HC.
  - intros i Hi. rewrite Q by exact Hi. apply Rmult_lt_0_compat; [apply Pi, Hi|apply PB, Hi].
Qed.
End Special.

(** ---- multinoulli ---- *)
Lemma multinoulli_value n m p c : (forall i j, (i < n)%nat -> (j < m)%nat -> 0 < p i j + c) ->
  multinoulli_entropy (fmat_of n m p) c = Ok (fvec_of n (fun i => - rsum m (fun j => p i j * ln (p i j + c)))).
Proof.
  intros P. unfold multinoulli_entropy.
  replace (nbin nmul (Ok (fmat_of n m p)) (np_log (nbin nadd (Ok (fmat_of n m p)) (lit c)))) with (Ok (fmat_of n m (fun i j => p i j * ln (p i j + c))) : res arr).
  - rewrite sum_axis1_mat. py. apply Ok_eq. apply mk_nd_ext. intros idx H. cbn [nmul]. f_equal. ring.
  - symmetry. unfold fmat_of. unfold farr. py. apply Ok_eq. apply mk_nd_ext. intros idx H. apply in_product_2_inv in H as [i [j [-> [Hi Hj]]]]. cbn [nth nadd]. rewrite nlog_pos by (apply P; assumption). reflexivity.
Qed.
Lemma ln_le_minus_1 x : 0 < x -> ln x <= x - 1.
Proof.
  intros H. destruct (Req_dec x 1) as [->|N]; [rewrite ln_1; lra|]. left. apply exp_lt_inv. rewrite exp_ln by exact H. replace x with (1 + (x - 1)) at 1 by ring. apply exp_ineq1. lra.
Qed.
(** Gibbs: -sum p ln(p + c) <= ln(1 + m c)... stated for c >= 0 as <= ln m when c = 0 *)
Lemma gibbs m p c : (0 < m)%nat -> (forall j, (j < m)%nat -> 0 <= p j /\ 0 < p j + c) -> rsum m p = 1 -> 0 <= c ->
  - rsum m (fun j => p j * ln (p j + c)) <= ln (INR m).
Proof.
  intros M P S C. assert (I : 0 < INR m) by (apply lt_0_INR; exact M). 
  assert (Q : rsum m (fun j => p j * (- ln (INR m) - ln (p j + c))) <= 0).
  { apply Rle_trans with (rsum m (fun j => / INR m - p j)).
    - apply rsum_le. intros j Hj. destruct (P j Hj) as [P0 P1].
      assert (T : - ln (INR m) - ln (p j + c) = ln (/ (INR m * (p j + c)))) by (rewrite ln_Rinv, ln_mult by (try apply Rmult_lt_0_compat; assumption); ring). rewrite T.
      assert (W : 0 < INR m * (p j + c)) by (apply Rmult_lt_0_compat; assumption).
      pose proof (ln_le_minus_1 (/ (INR m * (p j + c))) (Rinv_0_lt_compat _ W)) as B.
      apply Rle_trans with (p j * (/ (INR m * (p j + c)) - 1)); [apply Rmult_le_compat_l; assumption|].
      assert (Z : p j * / (INR m * (p j + c)) <= / INR m).
      { rewrite Rinv_mult. rewrite <- (Rmult_1_r (/ INR m)) at 2. replace (p j * (/ INR m * / (p j + c))) with (/ INR m * (p j * / (p j + c))) by ring.
        apply Rmult_le_compat_l; [left; apply Rinv_0_lt_compat; exact I|]. apply (Rmult_le_reg_r (p j + c)); [exact P1|]. rewrite Rmult_assoc, Rinv_l by lra. lra. }
      lra.
    - rewrite rsum_minus, rsum_const, S, Rinv_r by lra. lra. }
  rewrite (rsum_ext m _ (fun j => - (ln (INR m)) * p j - p j * ln (p j + c))) in Q by (intros; ring). rewrite rsum_minus, rsum_scal_l, S in Q. lra.
Qed.
Lemma entropy_lower m p c : (forall j, (j < m)%nat -> 0 <= p j /\ 0 < p j + c) -> rsum m p = 1 -> 0 <= c ->
  - c <= - rsum m (fun j => p j * ln (p j + c)).
Proof.
  intros P S C. assert (Q : rsum m (fun j => p j * ln (p j + c)) <= rsum m (fun j => c * p j)).
  { apply rsum_le. intros j Hj. destruct (P j Hj) as [P0 P1]. assert (p j <= 1) by (rewrite <- S; apply (rsum_term_le m p); [exact Hj|intros; apply P; assumption]).
    pose proof (ln_le_minus_1 _ P1). apply Rle_trans with (p j * c); [apply Rmult_le_compat_l; lra|lra]. }
  rewrite rsum_scal_l, S in Q. lra.
Qed.
Lemma multinoulli_bounds n m p c : (0 < m)%nat -> 0 <= c ->
  (forall i, (i < n)%nat -> rsum m (p i) = 1 /\ forall j, (j < m)%nat -> 0 <= p i j /\ 0 < p i j + c) ->
  exists h, multinoulli_entropy (fmat_of n m p) c = Ok (fvec_of n h) /\ forall i, (i < n)%nat -> - c <= h i <= ln (INR m).
Proof.
  intros M C H. eexists. split; [apply multinoulli_value; intros i j Hi Hj; apply (H i Hi); exact Hj|]. intros i Hi. destruct (H i Hi) as [S P].
  split; [apply entropy_lower|apply gibbs]; assumption.
Qed.
Lemma multinoulli_uniform n m : (0 < m)%nat -> multinoulli_entropy (fmat_of n m (fun _ _ => / INR m)) 0 = Ok (fvec_of n (fun _ => ln (INR m))).
Proof.
  intros M. assert (I : 0 < INR m) by (apply lt_0_INR; exact M). rewrite multinoulli_value by (intros; rewrite Rplus_0_r; apply Rinv_0_lt_compat; exact I).
  apply Ok_eq. apply farr_ext. intros idx _. rewrite Rplus_0_r, rsum_const, ln_Rinv by exact I. field. lra.
Qed.
