(** Multivariate calculus: C^1 functions are differentiable, mixed partials commute, iterated directional derivatives. *)
From Coq Require Import Reals List Bool Arith Lia Lra Permutation.
From Coquelicot Require Import Coquelicot.
From Verif Require Import Res RSum Num Nd ModelAutograd SpecParameters LemmasParameters SpecDict LemmasChain LemmasPrecond SpecSmooth.
Import List ListNotations.
Open Scope R_scope.
Set Bullet Behavior "Strict Subproofs".

Lemma close_refl n x d : length x = n -> 0 < d -> close n x x d.
Proof. intros L P. split; [exact L|]. intros i _. replace (_ - _) with 0 by ring. rewrite Rabs_R0. exact P. Qed.
Lemma close_le n x y d d' : close n x y d -> d <= d' -> close n x y d'.
Proof. intros [L H] Hd. split; [exact L|]. intros i Hi. specialize (H i Hi). lra. Qed.
Lemma close_upd n x y d i t : close n x y d -> Rabs (t - nth i x 0) < d -> close n x (upd y i t) d.
Proof.
  intros [L H] Ht. split; [rewrite upd_length; exact L|]. intros k Hk. destruct (le_lt_dec (length y) i) as [Hi|Hi].
  - replace (upd y i t) with y; [apply H, Hk|]. clear -Hi. revert i Hi. induction y as [|a y IH]; intros i Hi; [reflexivity|]. destruct i; cbn in *; [lia|]. rewrite <- IH by lia. reflexivity.
  - rewrite nth_upd by exact Hi. destruct (Nat.eqb_spec k i) as [->|N]; [exact Ht|apply H, Hk].
Qed.

Lemma open_locally_upd n U x i : open_in n U -> U x -> exists d, 0 < d /\ forall t, Rabs (t - nth i x 0) < d -> U (upd x i t).
Proof.
  intros O Ux. destruct (O x Ux) as [L [d [P H]]]. exists d. split; [exact P|]. intros t Ht. apply H. apply close_upd; [apply close_refl; assumption|exact Ht].
Qed.

Lemma Ck_cont k n U f x : Ck k n U f -> U x -> cont_at n f x.
Proof. destruct k; intros H Ux; apply H, Ux. Qed.
Lemma Ck_pred k n U f : Ck (S k) n U f -> Ck k n U f.
Proof.
  revert f. induction k as [|k IH]; intros f H; [split; [apply H|exact I]|].
  destruct H as [Hc Hd]. split; [exact Hc|]. intros i Hi. destruct (Hd i Hi) as [d [D1 D2]]. exists d. split; [exact D1|apply IH, D2].
Qed.
Lemma Ck_le j k n U f : (j <= k)%nat -> Ck k n U f -> Ck j n U f.
Proof. induction 1; [easy|]. intros. apply IHle, Ck_pred, H0. Qed.

Lemma is_partial_loc n U f g i x d : open_in n U -> U x -> (forall y, U y -> f y = g y) -> is_partial f i x d -> is_partial g i x d.
Proof.
  intros O Ux E H. unfold is_partial in *. destruct (open_locally_upd n U x i O Ux) as [e [P L]].
  apply (is_derive_ext_loc (fun t => f (upd x i t))); [|exact H]. exists (mkposreal e P). intros t Ht. apply E, L. exact Ht.
Qed.
Lemma cont_at_loc n U f g x : open_in n U -> U x -> (forall y, U y -> f y = g y) -> cont_at n f x -> cont_at n g x.
Proof.
  intros O Ux E H eps He. destruct (H eps He) as [d [P C]]. destruct (O x Ux) as [L [e [Pe Hu]]]. exists (Rmin d e). split; [apply Rmin_pos; assumption|].
  intros y Hy. rewrite <- (E x Ux), <- (E y). { apply C. eapply close_le; [exact Hy|apply Rmin_l]. } apply Hu. eapply close_le; [exact Hy|apply Rmin_r].
Qed.
Lemma Ck_ext k n U f g : open_in n U -> (forall y, U y -> f y = g y) -> Ck k n U f -> Ck k n U g.
Proof.
  intros O E. destruct k; intros [Hc Hd]; (split; [intros x Ux; apply (cont_at_loc n U f g x O Ux E), Hc, Ux|]); [exact I|].
  intros i Hi. destruct (Hd i Hi) as [d [D1 D2]]. exists d. split; [|exact D2]. intros x Ux. apply (is_partial_loc n U f g i x _ O Ux E), D1, Ux.
Qed.
Lemma Ck_partial k n U f i : open_in n U -> Ck (S k) n U f -> (i < n)%nat ->
  (forall x, U x -> is_partial f i x (ad_partial f i x)) /\ Ck k n U (ad_partial f i).
Proof.
  intros O [_ Hd] Hi. destruct (Hd i Hi) as [d [D1 D2]].
  assert (E : forall x, U x -> d x = ad_partial f i x). { intros x Ux. symmetry. apply ad_partial_eq, D1, Ux. }
  split; [intros x Ux; rewrite <- E by exact Ux; apply D1, Ux|apply (Ck_ext k n U d _ O E), D2].
Qed.
Lemma ad_partial_loc n U f g i x : open_in n U -> U x -> (forall y, U y -> f y = g y) -> ad_partial f i x = ad_partial g i x.
Proof.
  intros O Ux E. unfold ad_partial. destruct (open_locally_upd n U x i O Ux) as [e [P L]]. apply Derive_ext_loc. exists (mkposreal e P). intros t Ht. apply E, L, Ht.
Qed.

(** closure properties *)
Lemma cont_const n c x : cont_at n (fun _ => c) x.
Proof. intros eps He. exists 1. split; [lra|]. intros. replace (c - c) with 0 by ring. rewrite Rabs_R0. exact He. Qed.
Lemma cont_plus n f g x : cont_at n f x -> cont_at n g x -> cont_at n (fun y => f y + g y) x.
Proof.
  intros Hf Hg eps He. destruct (Hf (eps / 2)) as [d1 [P1 H1]]; [lra|]. destruct (Hg (eps / 2)) as [d2 [P2 H2]]; [lra|].
  exists (Rmin d1 d2). split; [apply Rmin_pos; assumption|]. intros y Hy.
  specialize (H1 y (close_le _ _ _ _ _ Hy (Rmin_l _ _))). specialize (H2 y (close_le _ _ _ _ _ Hy (Rmin_r _ _))).
  replace (f y + g y - (f x + g x)) with ((f y - f x) + (g y - g x)) by ring. eapply Rle_lt_trans; [apply Rabs_triang|]. lra.
Qed.
Lemma cont_scal n f c x : cont_at n f x -> cont_at n (fun y => c * f y) x.
Proof.
  intros Hf eps He. pose proof (Rabs_pos c). destruct (Hf (eps / (Rabs c + 1))) as [d [P H1]]; [apply Rdiv_lt_0_compat; lra|].
  exists d. split; [exact P|]. intros y Hy. specialize (H1 y Hy). replace (c * f y - c * f x) with (c * (f y - f x)) by ring. rewrite Rabs_mult.
  pose proof (Rabs_pos (f y - f x)). apply Rle_lt_trans with ((Rabs c + 1) * Rabs (f y - f x)); [nra|].
  apply (Rmult_lt_compat_l (Rabs c + 1)) in H1; [|lra]. replace ((Rabs c + 1) * (eps / (Rabs c + 1))) with eps in H1 by (field; lra). exact H1.
Qed.
Lemma Ck_const k n U c : Ck k n U (fun _ => c).
Proof.
  revert c. induction k as [|k IH]; intros c; (split; [intros; apply cont_const|]); [exact I|]. intros i Hi. exists (fun _ => 0). split; [intros x Ux; unfold is_partial; apply @is_derive_const|apply IH].
Qed.
Lemma Ck_plus k n U f g : Ck k n U f -> Ck k n U g -> Ck k n U (fun y => f y + g y).
Proof.
  revert f g. induction k as [|k IH]; intros f g [Cf Df] [Cg Dg]; (split; [intros; apply cont_plus; auto|]); [exact I|].
  intros i Hi. destruct (Df i Hi) as [df [F1 F2]]. destruct (Dg i Hi) as [dg [G1 G2]]. exists (fun y => df y + dg y). split; [|apply IH; assumption].
  intros x Ux. unfold is_partial. apply (is_derive_plus (fun t => f (upd x i t)) (fun t => g (upd x i t))); [apply F1, Ux|apply G1, Ux].
Qed.
Lemma Ck_scal k n U f c : Ck k n U f -> Ck k n U (fun y => c * f y).
Proof.
  revert f. induction k as [|k IH]; intros f [Cf Df]; (split; [intros; apply cont_scal; auto|]); [exact I|].
  intros i Hi. destruct (Df i Hi) as [df [F1 F2]]. exists (fun y => c * df y). split; [|apply IH; assumption].
  intros x Ux. unfold is_partial. apply (is_derive_scal (fun t => f (upd x i t))). apply F1, Ux.
Qed.
Lemma Ck_rsum k n U m (f : nat -> list R -> R) : (forall i, (i < m)%nat -> Ck k n U (f i)) -> Ck k n U (fun y => rsum m (fun i => f i y)).
Proof.
  induction m as [|m IH]; intros H; cbn [rsum]; [apply Ck_const|]. apply (Ck_plus k n U (fun y => rsum m (fun i => f i y)) (f m)); [apply IH; intros; apply H; lia|apply H; lia].
Qed.

(** ---- C^1 implies differentiable ---- *)
Definition mix (k : nat) (x y : list R) : list R := firstn k y ++ skipn k x.
Lemma mix_length k x y : length y = length x -> length (mix k x y) = length x.
Proof. intros L. unfold mix. rewrite app_length, firstn_length, skipn_length. lia. Qed.
Lemma mix_nth k x y i : length y = length x -> (k <= length x)%nat -> nth i (mix k x y) 0 = if Nat.ltb i k then nth i y 0 else nth i x 0.
Proof.
  intros L Hk. unfold mix. assert (Lf : length (firstn k y) = k) by (rewrite firstn_length; lia). destruct (Nat.ltb_spec i k) as [H|H].
  - rewrite app_nth1 by lia. rewrite <- (firstn_skipn k y) at 2. rewrite app_nth1 by lia. reflexivity.
  - rewrite app_nth2 by lia. rewrite Lf. rewrite <- (firstn_skipn k x) at 2. rewrite app_nth2; rewrite firstn_length; [|lia]. f_equal. lia.
Qed.
Lemma list_eq_nth (x y : list R) : length x = length y -> (forall i, (i < length x)%nat -> nth i x 0 = nth i y 0) -> x = y.
Proof. intros L H. apply (nth_ext x y 0 0 L). exact H. Qed.
Lemma mix_S k x y : length y = length x -> (k < length x)%nat -> mix (S k) x y = upd (mix k x y) k (nth k y 0).
Proof.
  intros L Hk. apply list_eq_nth; [rewrite upd_length, !mix_length by exact L; reflexivity|]. intros i Hi. rewrite nth_upd by (rewrite mix_length by exact L; exact Hk).
  rewrite !mix_nth by lia. destruct (Nat.eqb_spec i k) as [E|N]; destruct (Nat.ltb_spec i (S k)); destruct (Nat.ltb_spec i k); try lia; try reflexivity. rewrite E. reflexivity.
Qed.
Lemma mix_0 x y : mix 0 x y = x. Proof. reflexivity. Qed.
Lemma mix_all x y : length y = length x -> mix (length x) x y = y.
Proof. intros L. unfold mix. rewrite firstn_all2 by lia. rewrite skipn_all. apply app_nil_r. Qed.
Lemma upd_upd {A} (x : list A) i s t : upd (upd x i s) i t = upd x i t.
Proof. revert i. induction x as [|a x IH]; intros i; [reflexivity|]. destruct i; cbn; [reflexivity|]. rewrite IH. reflexivity. Qed.

Lemma telescope n (a : nat -> R) : a n - a 0%nat = rsum n (fun k => a (S k) - a k).
Proof. induction n as [|n IH]; cbn [rsum]; [ring|]. rewrite <- IH. ring. Qed.

Lemma segment_near a b s d x : Rmin a b <= s <= Rmax a b -> Rabs (a - x) < d -> Rabs (b - x) < d -> Rabs (s - x) < d.
Proof.
  intros [H1 H2] Ha Hb. apply Rabs_def2 in Ha. apply Rabs_def2 in Hb. apply Rabs_def1.
  - apply Rle_lt_trans with (Rmax a b - x); [lra|]. unfold Rmax. destruct (Rle_dec a b); lra.
  - apply Rlt_le_trans with (Rmin a b - x); [|lra]. unfold Rmin. destruct (Rle_dec a b); lra.
Qed.

Lemma C1_differentiable n U f x : open_in n U -> U x -> Ck 1 n U f -> differentiable_at n f x (fun i => ad_partial f i x).
Proof.
  intros O Ux Hf eps He. destruct (O x Ux) as [Lx [d0 [P0 H0]]].
  destruct (uniform_delta n (fun k h => forall y, close n x y (Rabs h) -> Rabs (ad_partial f k y - ad_partial f k x) < eps)) as [d1 [P1 H1]].
  { intros k Hk. destruct (Ck_partial 0 n U f k O Hf Hk) as [_ C]. destruct (Ck_cont _ _ _ _ x C Ux eps He) as [d [P H]]. exists d. split; [exact P|].
    intros h Hh y Hy. apply H. eapply close_le; [exact Hy|lra]. }
  set (d := Rmin d0 (d1 / 2)). assert (Pd : 0 < d) by (apply Rmin_pos; lra). pose proof (Rmin_l d0 (d1 / 2)) as M0. pose proof (Rmin_r d0 (d1 / 2)) as M1. fold d in M0, M1.
  exists d. split; [exact Pd|]. intros y Ly Hy.
  assert (Cy : close n x y d) by (split; assumption).
  assert (Hsm : forall z, close n x z d -> forall k, (k < n)%nat -> Rabs (ad_partial f k z - ad_partial f k x) < eps).
  { intros z Hz k Hk. apply (H1 (d1 / 2)); [rewrite Rabs_pos_eq; lra|exact Hk|]. eapply close_le; [exact Hz|]. rewrite Rabs_pos_eq; lra. }
  assert (Cm : forall k, (k <= n)%nat -> close n x (mix k x y) d).
  { intros k Hk. split; [rewrite mix_length; lia|]. intros i Hi. rewrite mix_nth by lia. destruct (Nat.ltb i k); [apply Hy, Hi|]. replace (_ - _) with 0 by ring. rewrite Rabs_R0. exact Pd. }
  assert (E : f y - f x = rsum n (fun k => f (mix (S k) x y) - f (mix k x y))).
  { rewrite <- (telescope n (fun k => f (mix k x y))). rewrite mix_0. rewrite <- Lx at 1. rewrite mix_all by lia. reflexivity. }
  assert (St : forall k, (k < n)%nat -> Rabs (f (mix (S k) x y) - f (mix k x y) - ad_partial f k x * (nth k y 0 - nth k x 0)) <= eps * Rabs (nth k y 0 - nth k x 0)).
  { intros k Hk. rewrite mix_S by lia. set (m := mix k x y). assert (Lm : length m = n) by (unfold m; rewrite mix_length; lia).
    assert (Mk : nth k m 0 = nth k x 0). { unfold m. rewrite mix_nth by lia. rewrite Nat.ltb_irrefl. reflexivity. }
    assert (Cu : forall s, Rmin (nth k x 0) (nth k y 0) <= s <= Rmax (nth k x 0) (nth k y 0) -> close n x (upd m k s) d).
    { intros s Hs. apply close_upd; [apply Cm; lia|]. apply (segment_near (nth k x 0) (nth k y 0)); [exact Hs| |apply Hy, Hk]. replace (_ - _) with 0 by ring. rewrite Rabs_R0. exact Pd. }
    assert (Dv : forall s, Rmin (nth k x 0) (nth k y 0) <= s <= Rmax (nth k x 0) (nth k y 0) -> is_derive (fun t => f (upd m k t)) s (ad_partial f k (upd m k s))).
    { intros s Hs. assert (Us : U (upd m k s)) by (apply H0; eapply close_le; [apply Cu, Hs|exact M0]).
      destruct (Ck_partial 0 n U f k O Hf Hk) as [Pk _]. specialize (Pk _ Us). unfold is_partial in Pk. rewrite nth_upd, Nat.eqb_refl in Pk by lia.
      apply (is_derive_ext (fun t => f (upd (upd m k s) k t))); [intros t; rewrite upd_upd; reflexivity|exact Pk]. }
    destruct (MVT_gen (fun t => f (upd m k t)) (nth k x 0) (nth k y 0) (fun s => ad_partial f k (upd m k s))) as [c [Hc Ec]].
    - intros s Hs. apply Dv. lra.
    - intros s Hs. apply derivable_continuous_pt. exists (ad_partial f k (upd m k s)). apply is_derive_Reals, Dv, Hs.
    - replace (f (upd m k (nth k x 0))) with (f m) in Ec by (rewrite <- Mk, upd_same; reflexivity). rewrite Ec.
      replace (_ - _) with ((ad_partial f k (upd m k c) - ad_partial f k x) * (nth k y 0 - nth k x 0)) by ring. rewrite Rabs_mult. apply Rmult_le_compat_r; [apply Rabs_pos|].
      apply Rlt_le, Hsm; [apply Cu, Hc|exact Hk]. }
  rewrite E, <- rsum_minus. eapply Rle_trans; [apply rsum_Rabs|]. rewrite <- rsum_scal_l. apply rsum_le. exact St.
Qed.

(** the derivative along a curve *)
Lemma curve_rule n f (c c' : R -> list R) t (g : nat -> R) : (forall s, length (c s) = n) ->
  (forall i, (i < n)%nat -> is_derive (fun s => nth i (c s) 0) t (nth i (c' t) 0)) -> differentiable_at n f (c t) g ->
  is_derive (fun s => f (c s)) t (rsum n (fun i => nth i (c' t) 0 * g i)).
Proof.
  intros L D Hf. pose proof (chain_rule n (fun y => c (nth 0 y 0)) f 0 [t] (fun k => nth k (c' t) 0) g) as C.
  cbn [nth length] in C. assert (K : is_partial (fun y => f (c (nth 0 y 0))) 0 [t] (rsum n (fun k => g k * nth k (c' t) 0))).
  { apply C; [intros; apply L| |exact Hf|lia]. intros k Hk. unfold is_partial. cbn [upd nth]. apply D, Hk. }
  unfold is_partial in K. cbn [upd nth] in K. erewrite rsum_ext; [exact K|]. intros; cbv beta; ring.
Qed.
Lemma curve_rule_C1 n U f (c c' : R -> list R) t : open_in n U -> Ck 1 n U f -> U (c t) -> (forall s, length (c s) = n) ->
  (forall i, (i < n)%nat -> is_derive (fun s => nth i (c s) 0) t (nth i (c' t) 0)) ->
  is_derive (fun s => f (c s)) t (rsum n (fun i => nth i (c' t) 0 * ad_partial f i (c t))).
Proof. intros O Hf Uc L D. apply (curve_rule n f c c' t); [exact L|exact D|]. apply (C1_differentiable n U); assumption. Qed.

(** ---- mixed partial derivatives ---- *)
Lemma upd_comm {A} (x : list A) i j s t : i <> j -> upd (upd x i s) j t = upd (upd x j t) i s.
Proof. revert i j. induction x as [|a x IH]; intros i j N; [reflexivity|]. destruct i, j; cbn; try reflexivity; [lia|]. rewrite IH by lia. reflexivity. Qed.

Lemma mixed_partials n U f i j x : open_in n U -> U x -> Ck 2 n U f -> (i < n)%nat -> (j < n)%nat ->
  ad_partial (ad_partial f i) j x = ad_partial (ad_partial f j) i x.
Proof.
  intros O Ux Hf Hi Hj. destruct (Nat.eq_dec i j) as [->|N]; [reflexivity|].
  destruct (O x Ux) as [Lx [d [Pd Hd]]].
  set (g := fun u w => f (upd (upd x i u) j w)).
  set (P := fun u w => upd (upd x i u) j w).
  assert (Pi : forall u w, nth i (P u w) 0 = u). { intros. unfold P. rewrite nth_upd by (rewrite upd_length; lia). destruct (Nat.eqb_spec i j); [lia|]. rewrite nth_upd, Nat.eqb_refl by lia. reflexivity. }
  assert (Pj : forall u w, nth j (P u w) 0 = w). { intros. unfold P. rewrite nth_upd, Nat.eqb_refl by (rewrite upd_length; lia). reflexivity. }
  assert (Pui : forall u w s, upd (P u w) i s = P s w). { intros. unfold P. rewrite upd_comm by lia. rewrite upd_upd. reflexivity. }
  assert (Puj : forall u w s, upd (P u w) j s = P u s). { intros. unfold P. apply upd_upd. }
  assert (Px : P (nth i x 0) (nth j x 0) = x). { unfold P. rewrite upd_same. apply upd_same. }
  set (a := nth i x 0) in *. set (b := nth j x 0) in *.
  assert (UP : forall u w, Rabs (u - a) < d -> Rabs (w - b) < d -> U (P u w)).
  { intros u w Hu Hw. apply Hd. unfold P. apply close_upd; [apply close_upd; [apply close_refl; assumption|exact Hu]|exact Hw]. }
  destruct (Ck_partial 1 n U f i O Hf Hi) as [Fi Ci]. destruct (Ck_partial 1 n U f j O Hf Hj) as [Fj Cj].
  destruct (Ck_partial 0 n U _ j O Ci Hj) as [Fij Cij]. destruct (Ck_partial 0 n U _ i O Cj Hi) as [Fji Cji].
  assert (D1 : forall u w, U (P u w) -> is_derive (fun z => g z w) u (ad_partial f i (P u w))).
  { intros u w Hu. specialize (Fi _ Hu). unfold is_partial in Fi. rewrite Pi in Fi. apply (is_derive_ext (fun t => f (upd (P u w) i t))); [intros; rewrite Pui; reflexivity|exact Fi]. }
  assert (D2 : forall u w, U (P u w) -> is_derive (fun z => g u z) w (ad_partial f j (P u w))).
  { intros u w Hu. specialize (Fj _ Hu). unfold is_partial in Fj. rewrite Pj in Fj. apply (is_derive_ext (fun t => f (upd (P u w) j t))); [intros; rewrite Puj; reflexivity|exact Fj]. }
  assert (Loc1 : forall u w, U (P u w) -> locally u (fun z => U (P z w))).
  { intros u w Hu. destruct (open_locally_upd n U (P u w) i O Hu) as [e [Pe He]]. rewrite Pi in He. exists (mkposreal e Pe). intros z Hz. rewrite <- (Pui u w z). apply He, Hz. }
  assert (Loc2 : forall u w, U (P u w) -> locally w (fun z => U (P u z))).
  { intros u w Hu. destruct (open_locally_upd n U (P u w) j O Hu) as [e [Pe He]]. rewrite Pj in He. exists (mkposreal e Pe). intros z Hz. rewrite <- (Puj u w z). apply He, Hz. }
  assert (D21 : forall u w, U (P u w) -> is_derive (fun z => Derive (fun t => g z t) w) u (ad_partial (ad_partial f j) i (P u w))).
  { intros u w Hu. specialize (Fji _ Hu). unfold is_partial in Fji. rewrite Pi in Fji. apply (is_derive_ext_loc (fun z => ad_partial f j (upd (P u w) i z))); [|exact Fji].
    generalize (Loc1 u w Hu). apply filter_imp. intros z Hz. rewrite Pui. symmetry. apply is_derive_unique, D2, Hz. }
  assert (D12 : forall u w, U (P u w) -> is_derive (fun z => Derive (fun t => g t z) u) w (ad_partial (ad_partial f i) j (P u w))).
  { intros u w Hu. specialize (Fij _ Hu). unfold is_partial in Fij. rewrite Pj in Fij. apply (is_derive_ext_loc (fun z => ad_partial f i (upd (P u w) j z))); [|exact Fij].
    generalize (Loc2 u w Hu). apply filter_imp. intros z Hz. rewrite Puj. symmetry. apply is_derive_unique, D1, Hz. }
  assert (Ux' : U (P a b)) by (rewrite Px; exact Ux).
  assert (Ct : forall h, Ck 0 n U h -> continuity_2d_pt (fun u w => h (P u w)) a b).
  { intros h Hh eps. destruct (Ck_cont _ _ _ _ x Hh Ux eps (cond_pos eps)) as [e [Pe He]]. exists (mkposreal e Pe). intros u w Hu Hw. rewrite Px. apply He.
    unfold P. apply close_upd; [apply close_upd; [apply close_refl; assumption|exact Hu]|exact Hw]. }
  assert (L2 : locally_2d (fun u w => U (P u w)) a b). { exists (mkposreal d Pd). intros u w Hu Hw. apply UP; assumption. }
  assert (Ext : forall h h', (forall u w, U (P u w) -> h u w = h' u w) -> continuity_2d_pt h a b -> continuity_2d_pt h' a b).
  { intros h h' E. apply continuity_2d_pt_ext_loc. eapply locally_2d_impl; [|exact L2]. apply locally_2d_forall. intros u w Hu. apply E, Hu. }
  pose proof (Schwarz g a b) as Sch.
  assert (E21 : Derive (fun z : R => Derive (fun t : R => g z t) b) a = ad_partial (ad_partial f j) i (P a b)) by (apply is_derive_unique, D21, Ux').
  assert (E12 : Derive (fun z : R => Derive (fun t : R => g t z) a) b = ad_partial (ad_partial f i) j (P a b)) by (apply is_derive_unique, D12, Ux').
  rewrite E21, E12 in Sch. rewrite Px in Sch. symmetry. apply Sch.
  - eapply locally_2d_impl; [|exact L2]. apply locally_2d_forall. intros u w Hu. split; [eexists; apply D1, Hu|]. split; [eexists; apply D2, Hu|]. split; [eexists; apply D21, Hu|eexists; apply D12, Hu].
  - apply (Ext (fun u w => ad_partial (ad_partial f j) i (P u w))); [|apply Ct, Cji]. intros u w Hu. symmetry. apply is_derive_unique, D21, Hu.
  - apply (Ext (fun u w => ad_partial (ad_partial f i) j (P u w))); [|apply Ct, Cij]. intros u w Hu. symmetry. apply is_derive_unique, D12, Hu.
Qed.

(** polynomials *)
Lemma cont_mult n f g x : cont_at n f x -> cont_at n g x -> cont_at n (fun y => f y * g y) x.
Proof.
  intros Hf Hg eps He. set (M := 1 + Rabs (f x) + Rabs (g x)). assert (PM : 0 < M) by (unfold M; pose proof (Rabs_pos (f x)); pose proof (Rabs_pos (g x)); lra).
  set (e := Rmin 1 (eps / M)). assert (Pe : 0 < e) by (apply Rmin_pos; [lra|apply Rdiv_lt_0_compat; assumption]).
  destruct (Hf e Pe) as [d1 [P1 H1]]. destruct (Hg e Pe) as [d2 [P2 H2]]. exists (Rmin d1 d2). split; [apply Rmin_pos; assumption|]. intros y Hy.
  specialize (H1 y (close_le _ _ _ _ _ Hy (Rmin_l _ _))). specialize (H2 y (close_le _ _ _ _ _ Hy (Rmin_r _ _))).
  replace (f y * g y - f x * g x) with ((f y - f x) * (g y - g x) + f x * (g y - g x) + (f y - f x) * g x) by ring.
  pose proof (Rabs_pos (f y - f x)). pose proof (Rabs_pos (g y - g x)). pose proof (Rabs_pos (f x)). pose proof (Rabs_pos (g x)).
  assert (E1 : e <= 1) by apply Rmin_l. assert (E2 : e * M <= eps) by (apply Rle_trans with (eps / M * M); [apply Rmult_le_compat_r; [lra|apply Rmin_r]|right; field; lra]).
  eapply Rle_lt_trans; [apply Rabs_triang|]. eapply Rle_lt_trans; [apply Rplus_le_compat_r, Rabs_triang|]. rewrite !Rabs_mult. unfold M in E2.
  assert (A1 : Rabs (f y - f x) * Rabs (g y - g x) < e) by (apply Rle_lt_trans with (1 * Rabs (g y - g x)); [apply Rmult_le_compat_r; lra|lra]).
  assert (A2 : Rabs (f x) * Rabs (g y - g x) <= Rabs (f x) * e) by (apply Rmult_le_compat_l; lra).
  assert (A3 : Rabs (f y - f x) * Rabs (g x) <= e * Rabs (g x)) by (apply Rmult_le_compat_r; lra). nra.
Qed.
Lemma Ck_mult k n U f g : Ck k n U f -> Ck k n U g -> Ck k n U (fun y => f y * g y).
Proof.
  revert f g. induction k as [|k IH]; intros f g Hf Hg; pose proof Hf as [Cf Df]; pose proof Hg as [Cg Dg]; (split; [intros; apply cont_mult; auto|]); [exact I|].
  intros i Hi. destruct (Df i Hi) as [df [F1 F2]]. destruct (Dg i Hi) as [dg [G1 G2]]. exists (fun y => df y * g y + f y * dg y). split.
  - intros x Ux. unfold is_partial. replace (g x) with (g (upd x i (nth i x 0))) by (rewrite upd_same; reflexivity). replace (f x) with (f (upd x i (nth i x 0))) by (rewrite upd_same; reflexivity).
    apply (is_derive_mult (fun t => f (upd x i t)) (fun t => g (upd x i t))); [apply F1, Ux|apply G1, Ux|intros; apply Rmult_comm].
  - apply Ck_plus; apply IH; auto using Ck_pred.
Qed.
Lemma Ck_coord k n (U : list R -> Prop) i : (forall x, U x -> length x = n) -> Ck k n U (fun y => nth i y 0).
Proof.
  intros L. assert (C0 : forall x, U x -> cont_at n (fun y => nth i y 0) x).
  { intros x Ux eps He. exists eps. split; [exact He|]. intros y [Ly Hy]. destruct (Nat.lt_ge_cases i n) as [Hi|Hi]; [apply Hy, Hi|]. rewrite !nth_overflow by (rewrite ?(L x Ux); lia). rewrite Rminus_0_r, Rabs_R0. exact He. }
  destruct k as [|k]; (split; [exact C0|]); [exact I|]. intros j Hj. exists (fun _ => if Nat.eqb i j then 1 else 0). split; [|apply Ck_const].
  intros x Ux. unfold is_partial. destruct (Nat.eqb_spec i j) as [<-|N].
  - apply (is_derive_ext (fun t => t)); [intros t; rewrite nth_upd, Nat.eqb_refl by (rewrite (L x Ux); exact Hj); reflexivity|apply @is_derive_id].
  - apply (is_derive_ext (fun _ => nth i x 0)); [|exact (is_derive_const (V := R_NormedModule) (nth i x 0) _)]. intros t. rewrite nth_upd by (rewrite (L x Ux); exact Hj). destruct (Nat.eqb_spec i j); [contradiction|reflexivity].
Qed.
Lemma whole_space_open n : open_in n (fun z => length z = n).
Proof. intros x Lx. split; [exact Lx|]. exists 1. split; [lra|]. intros y [Ly _]. exact Ly. Qed.
