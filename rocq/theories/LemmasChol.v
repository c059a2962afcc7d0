(** The Cholesky factorisation in exact arithmetic: existence, uniqueness, and the link with positive definiteness. *)
From Coq Require Import Reals List Bool Arith Lia Lra.
From Verif Require Import Res Num Nd RSum ModelMatrix SpecMatrix.
Import List ListNotations.
Open Scope R_scope.
Set Bullet Behavior "Strict Subproofs".

(** column k of the factor, independent of how many columns have been computed *)
Definition ccol (A : nat -> nat -> R) (i k : nat) : R := cholL A (S k) i k.

Lemma cholL_col A c i k : (k < c)%nat -> cholL A c i k = ccol A i k.
Proof.
  induction c as [|c IH]; intros H; [lia|].
  destruct (Nat.eq_dec k c) as [->|Hne]; [reflexivity|].
  simpl. apply Nat.eqb_neq in Hne as E. rewrite E. apply IH. lia.
Qed.
Lemma chol_pivot_col A c : chol_pivot A c = A c c - rsum c (fun q => ccol A c q * ccol A c q).
Proof.
  unfold chol_pivot. f_equal. apply rsum_ext. intros q Hq. rewrite cholL_col by lia. reflexivity.
Qed.
Lemma ccol_eq A i k :
  ccol A i k = if Nat.ltb i k then 0 else if Nat.eqb i k then sqrt (chol_pivot A k)
               else (A i k - rsum k (fun q => ccol A i q * ccol A k q)) / sqrt (chol_pivot A k).
Proof.
  unfold ccol at 1. simpl. rewrite Nat.eqb_refl.
  destruct (Nat.ltb i k); [reflexivity|]. destruct (Nat.eqb i k); [reflexivity|].
  f_equal. f_equal. apply rsum_ext. intros q Hq. rewrite !cholL_col by lia. reflexivity.
Qed.
Lemma ccol_upper A i k : (i < k)%nat -> ccol A i k = 0.
Proof. intros H. rewrite ccol_eq. apply Nat.ltb_lt in H. rewrite H. reflexivity. Qed.
Lemma ccol_diag A k : ccol A k k = sqrt (chol_pivot A k).
Proof. rewrite ccol_eq, Nat.ltb_irrefl, Nat.eqb_refl. reflexivity. Qed.
Lemma ccol_lower A i k : (k < i)%nat ->
  ccol A i k = (A i k - rsum k (fun q => ccol A i q * ccol A k q)) / sqrt (chol_pivot A k).
Proof.
  intros H. rewrite ccol_eq. destruct (Nat.ltb_spec i k); [lia|].
  destruct (Nat.eqb_spec i k); [lia|]. reflexivity.
Qed.

(** reading only the lower triangle *)
Lemma ccol_ext n A B : (forall i j, (j <= i)%nat -> (i < n)%nat -> A i j = B i j) ->
  forall k i, (k < n)%nat -> (i < n)%nat -> ccol A i k = ccol B i k /\ chol_pivot A k = chol_pivot B k.
Proof.
  intros H k. induction k as [k IH] using lt_wf_ind. intros i Hk Hi.
  assert (P : chol_pivot A k = chol_pivot B k).
  { rewrite !chol_pivot_col. rewrite H by lia. f_equal. apply rsum_ext. intros q Hq.
    destruct (IH q Hq k) as [E _]; [lia|lia|]. rewrite E. reflexivity. }
  split; [|exact P].
  rewrite (ccol_eq A), (ccol_eq B). rewrite P.
  destruct (Nat.ltb_spec i k); [reflexivity|]. destruct (Nat.eqb_spec i k); [reflexivity|].
  f_equal. rewrite H by lia. f_equal. apply rsum_ext. intros q Hq.
  destruct (IH q Hq i) as [E _]; [lia|lia|]. destruct (IH q Hq k) as [E' _]; [lia|lia|].
  rewrite E, E'. reflexivity.
Qed.

(** L L' = A on the columns whose pivots are positive *)
Lemma chol_recon A i j c : (j <= i)%nat -> (j < c)%nat -> 0 < chol_pivot A j ->
  rsum c (fun k => ccol A i k * ccol A j k) = A i j.
Proof.
  intros Hij Hc Hp.
  replace c with (S j + (c - S j))%nat by lia. rewrite rsum_split.
  rewrite (rsum_zero (c - S j)).
  2:{ intros q Hq. rewrite (ccol_upper A j) by lia. ring. }
  rewrite Rplus_0_r. simpl rsum.
  assert (Hs : sqrt (chol_pivot A j) * sqrt (chol_pivot A j) = chol_pivot A j) by (apply sqrt_sqrt; lra).
  assert (Hs' : sqrt (chol_pivot A j) <> 0) by (apply Rgt_not_eq, sqrt_lt_R0; exact Hp).
  rewrite (ccol_diag A j).
  destruct (Nat.eq_dec i j) as [->|Hne].
  - rewrite ccol_diag, Hs. rewrite chol_pivot_col. ring.
  - rewrite (ccol_lower A i j) by lia. field. exact Hs'.
Qed.

(** triangular systems *)
Lemma tri_solve n (L : nat -> nat -> R) b :
  (forall i k, (i < k)%nat -> L i k = 0) -> (forall k, (k < n)%nat -> L k k <> 0) ->
  exists x, forall k, (k < n)%nat -> rsum n (fun i => L i k * x i) = b k.
Proof.
  intros HU HD. revert b. induction n as [|n IH]; intros b.
  - exists (fun _ => 0). intros; lia.
  - destruct (IH (fun k Hk => HD k (Nat.lt_lt_succ_r _ _ Hk)) (fun k => b k - L n k * (b n / L n n))) as [x Hx].
    exists (fun i => if Nat.eqb i n then b n / L n n else x i).
    intros k Hk. simpl. rewrite Nat.eqb_refl.
    destruct (Nat.eq_dec k n) as [->|Hne].
    + rewrite rsum_zero. 2:{ intros i Hi. rewrite HU by lia. ring. }
      field. apply HD; lia.
    + rewrite (rsum_ext n _ (fun i => L i k * x i)).
      * rewrite Hx by lia. ring.
      * intros i Hi. destruct (Nat.eqb_spec i n); [lia|reflexivity].
Qed.
Lemma tri_inj n (L : nat -> nat -> R) x :
  (forall i k, (i < k)%nat -> L i k = 0) -> (forall k, (k < n)%nat -> L k k <> 0) ->
  (forall k, (k < n)%nat -> rsum n (fun i => L i k * x i) = 0) -> forall i, (i < n)%nat -> x i = 0.
Proof.
  intros HU HD. induction n as [|n IH]; intros H i Hi; [lia|].
  assert (Hn : x n = 0).
  { specialize (H n (Nat.lt_succ_diag_r n)). simpl in H.
    rewrite rsum_zero in H. 2:{ intros q Hq. rewrite HU by lia. ring. }
    assert (L n n <> 0) by (apply HD; lia). 
    assert (E : L n n * x n = 0) by lra. apply Rmult_integral in E. tauto. }
  destruct (Nat.eq_dec i n) as [->|Hne]; [exact Hn|].
  apply IH; [intros; apply HD; lia| |lia].
  intros k Hk. specialize (H k (Nat.lt_lt_succ_r _ _ Hk)). simpl in H. rewrite Hn in H. lra.
Qed.

(** x' (L L') x = |L' x|^2 *)
Lemma quad_LLt n m (L : nat -> nat -> R) x :
  quad n (fun i j => rsum m (fun k => L i k * L j k)) x = rsum m (fun k => rsum n (fun i => L i k * x i) * rsum n (fun i => L i k * x i)).
Proof.
  unfold quad.
  rewrite (rsum_ext m (fun k => rsum n (fun i => L i k * x i) * rsum n (fun i => L i k * x i))
                      (fun k => rsum n (fun i => rsum n (fun j => L i k * x i * (L j k * x j)))))
    by (intros; apply rsum_mult).
  rewrite (rsum_swap m n). apply rsum_ext. intros i Hi. rewrite (rsum_swap m n). apply rsum_ext. intros j Hj.
  rewrite <- rsum_scal_l, <- rsum_scal_r. apply rsum_ext. intros; ring.
Qed.
Lemma quad_ext n A B x : (forall i j, (i < n)%nat -> (j < n)%nat -> A i j = B i j) -> quad n A x = quad n B x.
Proof.
  intros H. unfold quad. apply rsum_ext; intros i Hi. apply rsum_ext; intros j Hj. rewrite H by assumption. reflexivity.
Qed.
Lemma posdef_ext n A B : (forall i j, (i < n)%nat -> (j < n)%nat -> A i j = B i j) -> posdef n A -> posdef n B.
Proof. intros H P x Hx. rewrite <- (quad_ext n A B x H). apply P, Hx. Qed.

(** a positive definite matrix has positive pivots *)
Lemma posdef_pivot n A : symmetric n A -> posdef n A -> forall j, (j < n)%nat -> 0 < chol_pivot A j.
Proof.
  intros HS HP j. induction j as [j IH] using lt_wf_ind. intros Hj.
  assert (HPj : forall k, (k < j)%nat -> 0 < chol_pivot A k) by (intros; apply IH; lia).
  destruct (tri_solve j (ccol A) (fun k => - ccol A j k)) as [x Hx].
  { intros; apply ccol_upper; assumption. }
  { intros k Hk. rewrite ccol_diag. apply Rgt_not_eq, sqrt_lt_R0, HPj, Hk. }
  set (y := fun i => if Nat.ltb i j then x i else if Nat.eqb i j then 1 else 0).
  assert (Q : quad n A y = quad (S j) A y).
  { unfold quad. replace n with (S j + (n - S j))%nat by lia. rewrite rsum_split.
    rewrite (rsum_zero (n - S j)).
    2:{ intros i Hi. apply rsum_zero. intros q _. unfold y at 1.
        destruct (Nat.ltb_spec (S j + i) j); [lia|]. destruct (Nat.eqb_spec (S j + i) j); [lia|]. ring. }
    rewrite Rplus_0_r. apply rsum_ext. intros i Hi. rewrite rsum_split.
    rewrite (rsum_zero (n - S j)); [ring|].
    intros q Hq. unfold y at 2.
    destruct (Nat.ltb_spec (S j + q) j); [lia|]. destruct (Nat.eqb_spec (S j + q) j); [lia|]. ring. }
  assert (R' : forall a b, (a < S j)%nat -> (b < S j)%nat ->
            A a b = rsum j (fun k => ccol A a k * ccol A b k)
                    + (if Nat.eqb a j then if Nat.eqb b j then chol_pivot A j else 0 else 0)).
  { intros a b Ha Hb. destruct (Nat.eqb_spec a j) as [->|Na]; destruct (Nat.eqb_spec b j) as [->|Nb].
    - rewrite chol_pivot_col. ring.
    - rewrite chol_recon by (try apply HPj; lia). ring.
    - rewrite (rsum_ext j _ (fun k => ccol A j k * ccol A a k)) by (intros; ring).
      rewrite chol_recon by (try apply HPj; lia). rewrite HS by lia. ring.
    - destruct (Nat.le_gt_cases b a).
      + rewrite chol_recon by (try apply HPj; lia). ring.
      + rewrite (rsum_ext j _ (fun k => ccol A b k * ccol A a k)) by (intros; ring).
        rewrite chol_recon by (try apply HPj; lia). rewrite HS by lia. ring. }
  assert (E : quad (S j) A y = chol_pivot A j).
  { rewrite (quad_ext (S j) A _ y R').
    replace (quad (S j) _ y) with
      (quad (S j) (fun a b => rsum j (fun k => ccol A a k * ccol A b k)) y
       + quad (S j) (fun a b => if Nat.eqb a j then if Nat.eqb b j then chol_pivot A j else 0 else 0) y).
    2:{ unfold quad. rewrite <- rsum_plus. apply rsum_ext; intros a _. rewrite <- rsum_plus. apply rsum_ext; intros b _. ring. }
    rewrite quad_LLt. rewrite rsum_zero.
    2:{ intros k Hk. simpl. unfold y at 2 4. rewrite Nat.ltb_irrefl, Nat.eqb_refl.
        rewrite (rsum_ext j (fun i => ccol A i k * y i) (fun i => ccol A i k * x i)).
        - rewrite Hx by exact Hk. ring.
        - intros i Hi. unfold y. destruct (Nat.ltb_spec i j); [reflexivity|lia]. }
    unfold quad. simpl rsum at 1. rewrite Nat.eqb_refl.
    rewrite rsum_zero.
    2:{ intros i Hi. destruct (Nat.eqb_spec i j); [lia|]. change (rsum (S j) (fun q => y i * 0 * y q) = 0). apply rsum_zero. intros; ring. }
    simpl. rewrite ?Nat.eqb_refl.
    rewrite rsum_zero. 2:{ intros i Hi. destruct (Nat.eqb_spec i j); [lia|]. ring. }
    unfold y. rewrite Nat.ltb_irrefl, Nat.eqb_refl. ring. }
  rewrite <- E, <- Q. apply HP. exists j. split; [exact Hj|].
  unfold y. rewrite Nat.ltb_irrefl, Nat.eqb_refl. lra.
Qed.

(** a product L L' with L lower triangular with nonzero diagonal is positive definite *)
Lemma LLt_posdef n L : (forall i k, (i < k)%nat -> L i k = 0) -> (forall k, (k < n)%nat -> L k k <> 0) ->
  posdef n (fun i j => rsum n (fun k => L i k * L j k)).
Proof.
  intros HU HD x [i [Hi Hx]]. rewrite quad_LLt.
  set (s := rsum n _).
  assert (H0 : 0 <= s) by (apply rsum_nonneg; intros; nra).
  destruct (Rle_lt_or_eq_dec _ _ H0) as [|E]; [assumption|].
  exfalso. apply Hx. apply (tri_inj n L x HU HD); [|exact Hi].
  intros k Hk. symmetry in E. exact (rsum_sq_zero n (fun k => rsum n (fun i => L i k * x i)) E k Hk).
Qed.
Lemma pivot_posdef n A : symmetric n A -> (forall j, (j < n)%nat -> 0 < chol_pivot A j) -> posdef n A.
Proof.
  intros HS HP.
  apply (posdef_ext n (fun i j => rsum n (fun k => ccol A i k * ccol A j k))).
  - intros i j Hi Hj. destruct (Nat.le_gt_cases j i).
    + apply chol_recon; try lia. apply HP; lia.
    + rewrite (rsum_ext n _ (fun k => ccol A j k * ccol A i k)) by (intros; ring).
      rewrite chol_recon; try lia; [apply HS; lia|apply HP; lia].
  - apply LLt_posdef; [intros; apply ccol_upper; assumption|].
    intros k Hk. rewrite ccol_diag. apply Rgt_not_eq, sqrt_lt_R0, HP, Hk.
Qed.

(** uniqueness: the factor of L L' is L *)
Lemma chol_unique n A L :
  (forall i k, (i < k)%nat -> (k < n)%nat -> L i k = 0) -> (forall k, (k < n)%nat -> 0 < L k k) ->
  (forall i j, (j <= i)%nat -> (i < n)%nat -> A i j = rsum n (fun k => L i k * L j k)) ->
  forall k, (k < n)%nat -> chol_pivot A k = L k k * L k k /\ forall i, (i < n)%nat -> ccol A i k = L i k.
Proof.
  intros HU HD HA k. induction k as [k IH] using lt_wf_ind. intros Hk.
  assert (T : forall i, (k <= i)%nat -> (i < n)%nat ->
            A i k - rsum k (fun q => ccol A i q * ccol A k q) = L i k * L k k).
  { intros i Hki Hi. rewrite HA by lia.
    replace n with (S k + (n - S k))%nat by lia. rewrite rsum_split.
    rewrite (rsum_zero (n - S k)). 2:{ intros q Hq. rewrite (HU k) by lia. ring. }
    simpl rsum. rewrite (rsum_ext k (fun q => ccol A i q * ccol A k q) (fun q => L i q * L k q)); [ring|].
    intros q Hq. destruct (IH q Hq) as [_ E]; [lia|]. rewrite !E by lia. reflexivity. }
  assert (P : chol_pivot A k = L k k * L k k) by (rewrite chol_pivot_col; apply T; lia).
  split; [exact P|]. intros i Hi.
  assert (S' : sqrt (chol_pivot A k) = L k k).
  { rewrite P. apply sqrt_square. left. apply HD, Hk. }
  rewrite ccol_eq. destruct (Nat.ltb_spec i k); [symmetry; apply HU; lia|].
  destruct (Nat.eqb_spec i k) as [->|]; [exact S'|].
  rewrite T by lia. rewrite S'. field. apply Rgt_not_eq, HD, Hk.
Qed.
