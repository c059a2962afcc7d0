(** Iterated directional derivatives: multilinearity, symmetry, derivative along a curve. *)
From Coq Require Import Reals List Bool Arith Lia Lra Permutation.
From Coquelicot Require Import Coquelicot.
From Verif Require Import Res RSum Num Nd ModelAutograd SpecParameters LemmasParameters SpecDict LemmasChain LemmasPrecond SpecSmooth LemmasSmooth.
Import List ListNotations.
Open Scope R_scope.
Set Bullet Behavior "Strict Subproofs".

(** the derivative of f along the directions ds, as a sum over coordinates *)
Fixpoint Dd (n : nat) (ds : list (list R)) (f : list R -> R) (z : list R) : R :=
  match ds with
  | [] => f z
  | d :: ds' => rsum n (fun i => nth i d 0 * Dd n ds' (ad_partial f i) z)
  end.

Section Dir.
Variables (n : nat) (U : list R -> Prop).
Hypothesis O : open_in n U.

Lemma Dd_ext ds : forall f g z, U z -> (forall y, U y -> f y = g y) -> Dd n ds f z = Dd n ds g z.
Proof.
  induction ds as [|d ds IH]; intros f g z Uz E; cbn [Dd]; [apply E, Uz|]. apply rsum_ext. intros i _. f_equal. apply IH; [exact Uz|].
  intros y Uy. apply (ad_partial_loc n U); assumption.
Qed.
Lemma Dd_swap a b ds f z : U z -> Ck 2 n U f -> Dd n (a :: b :: ds) f z = Dd n (b :: a :: ds) f z.
Proof.
  intros Uz Hf. cbn [Dd]. erewrite rsum_ext; [|intros i _; rewrite <- rsum_scal_l; reflexivity]. symmetry. erewrite rsum_ext; [|intros i _; rewrite <- rsum_scal_l; reflexivity].
  rewrite rsum_swap. apply rsum_ext. intros i Hi. apply rsum_ext. intros j Hj. rewrite (Dd_ext ds (ad_partial (ad_partial f j) i) (ad_partial (ad_partial f i) j)); [ring|exact Uz|].
  intros y Uy. apply (mixed_partials n U); assumption.
Qed.
Lemma Dd_perm ds ds' : Permutation ds ds' -> forall f z, U z -> Ck (length ds) n U f -> Dd n ds f z = Dd n ds' f z.
Proof.
  induction 1; intros f z Uz Hf; [reflexivity| | |].
  - cbn [Dd]. apply rsum_ext. intros i Hi. f_equal. apply IHPermutation; [exact Uz|]. apply (Ck_partial _ _ _ _ _ O Hf Hi).
  - apply Dd_swap; [exact Uz|]. apply (Ck_le 2 (length (y :: x :: l))); [cbn; lia|exact Hf].
  - rewrite IHPermutation1 by assumption. apply IHPermutation2; [exact Uz|]. rewrite <- (Permutation_length H). exact Hf.
Qed.
Lemma Dd_Ck ds : forall k f, Ck (k + length ds) n U f -> Ck k n U (Dd n ds f).
Proof.
  induction ds as [|d ds IH]; intros k f Hf; cbn [Dd].
  - cbn in Hf. rewrite Nat.add_0_r in Hf. exact Hf.
  - apply Ck_rsum. intros i Hi. apply (Ck_scal k n U (Dd n ds (ad_partial f i))). apply IH. cbn [length] in Hf. rewrite Nat.add_succ_r in Hf. apply (Ck_partial _ _ _ _ _ O Hf Hi).
Qed.
(** linearity in the first direction (hence, by symmetry, in each) *)
Lemma Dd_add a b c ds f z : (forall i, (i < n)%nat -> nth i c 0 = nth i a 0 + nth i b 0) -> Dd n (c :: ds) f z = Dd n (a :: ds) f z + Dd n (b :: ds) f z.
Proof. intros E. cbn [Dd]. rewrite <- rsum_plus. apply rsum_ext. intros i Hi. rewrite E by exact Hi. ring. Qed.
Lemma Dd_zero a ds f z : (forall i, (i < n)%nat -> nth i a 0 = 0) -> Dd n (a :: ds) f z = 0.
Proof. intros E. cbn [Dd]. apply rsum_zero. intros i Hi. rewrite E by exact Hi. ring. Qed.

(** all the lists in which one direction is replaced by its derivative *)
Fixpoint repls (l : list (list R * list R)) : list (list (list R)) :=
  match l with
  | [] => []
  | (v, v') :: tl => (v' :: map fst tl) :: map (cons v) (repls tl)
  end.
Lemma lsum_rsum {A} (l : list A) m (f : A -> nat -> R) : lsum (map (fun a => rsum m (f a)) l) = rsum m (fun i => lsum (map (fun a => f a i) l)).
Proof.
  induction l as [|a l IH]; cbn [map lsum fold_right]; [symmetry; apply rsum_zero; reflexivity|].
  change (rsum m (f a) + lsum (map (fun a => rsum m (f a)) l) = rsum m (fun i => f a i + lsum (map (fun a => f a i) l))). rewrite IH, rsum_plus. reflexivity.
Qed.

Lemma is_derive_rsum m (f : nat -> R -> R) (d : nat -> R) t : (forall i, (i < m)%nat -> is_derive (f i) t (d i)) -> is_derive (fun s => rsum m (fun i => f i s)) t (rsum m d).
Proof.
  induction m as [|m IH]; intros H; cbn [rsum]; [apply @is_derive_const|].
  apply (is_derive_plus (fun s => rsum m (fun i => f i s)) (f m)); [apply IH; intros; apply H; lia|apply H; lia].
Qed.
Lemma is_derive_Rmult f g t df dg : is_derive f t df -> is_derive g t dg -> is_derive (fun s => f s * g s) t (df * g t + f t * dg).
Proof. intros Hf Hg. apply is_derive_Reals. apply (derivable_pt_lim_mult f g); apply is_derive_Reals; assumption. Qed.

Lemma Dd_curve (c : R -> list R) c' t (vs : list ((R -> list R) * list R)) : U (c t) -> (forall s, length (c s) = n) ->
  (forall i, (i < n)%nat -> is_derive (fun s => nth i (c s) 0) t (nth i c' 0)) ->
  (forall v v', In (v, v') vs -> forall i, (i < n)%nat -> is_derive (fun s => nth i (v s) 0) t (nth i v' 0)) ->
  forall f, Ck (S (length vs)) n U f ->
  let pairs := map (fun p => (fst p t, snd p)) vs in
  is_derive (fun s => Dd n (map (fun p => fst p s) vs) f (c s)) t
    (Dd n (c' :: map fst pairs) f (c t) + lsum (map (fun ds => Dd n ds f (c t)) (repls pairs))).
Proof.
  intros Uc Lc Dc. induction vs as [|[v v'] vs IH]; intros Dv f Hf; cbn [map Dd fst snd repls].
  - pose proof (curve_rule_C1 n U f c (fun _ => c') t O Hf Uc Lc Dc) as K. cbn [lsum fold_right]. rewrite Rplus_0_r. exact K.
  - cbn [length] in Hf. set (pairs := map (fun p => (fst p t, snd p)) vs) in *.
    assert (Hp : forall i, (i < n)%nat -> Ck (S (length vs)) n U (ad_partial f i)) by (intros i Hi; apply (Ck_partial _ _ _ _ _ O Hf Hi)).
    assert (IH' : forall i, (i < n)%nat -> is_derive (fun s => Dd n (map (fun p => fst p s) vs) (ad_partial f i) (c s)) t
      (Dd n (c' :: map fst pairs) (ad_partial f i) (c t) + lsum (map (fun ds => Dd n ds (ad_partial f i) (c t)) (repls pairs)))).
    { intros i Hi. apply IH; [intros; eapply Dv; [right; eassumption|assumption]|apply Hp, Hi]. }
    assert (K : is_derive (fun s => rsum n (fun i => nth i (v s) 0 * Dd n (map (fun p => fst p s) vs) (ad_partial f i) (c s))) t
      (rsum n (fun i => nth i v' 0 * Dd n (map (fun p => fst p t) vs) (ad_partial f i) (c t) +
         nth i (v t) 0 * (Dd n (c' :: map fst pairs) (ad_partial f i) (c t) + lsum (map (fun ds => Dd n ds (ad_partial f i) (c t)) (repls pairs)))))).
    { apply is_derive_rsum. intros i Hi. apply (is_derive_Rmult (fun s => nth i (v s) 0) (fun s => Dd n (map (fun p => fst p s) vs) (ad_partial f i) (c s)));
        [apply (Dv v v'); [left; reflexivity|exact Hi]|apply IH', Hi]. }
    assert (M : map (fun p => fst p t) vs = map fst pairs) by (unfold pairs; rewrite map_map; reflexivity).
    match type of K with is_derive _ _ ?X => match goal with |- is_derive _ _ ?Y => replace Y with X; [exact K|] end end.
    change (rsum n (fun i => nth i c' 0 * rsum n (fun i0 => nth i0 (v t) 0 * Dd n (map fst pairs) (ad_partial (ad_partial f i) i0) (c t))))
      with (Dd n (c' :: v t :: map fst pairs) f (c t)).
    rewrite (Dd_swap c' (v t)) by (first [exact Uc | apply (Ck_le 2 (S (S (length vs)))); [lia|exact Hf]]).
    rewrite rsum_plus. rewrite M. change (rsum n (fun i => nth i v' 0 * Dd n (map fst pairs) (ad_partial f i) (c t))) with (Dd n (v' :: map fst pairs) f (c t)).
    rewrite (rsum_ext n (fun i => nth i (v t) 0 * (Dd n (c' :: map fst pairs) (ad_partial f i) (c t) + lsum (map (fun ds => Dd n ds (ad_partial f i) (c t)) (repls pairs))))
      (fun i => nth i (v t) 0 * Dd n (c' :: map fst pairs) (ad_partial f i) (c t) + nth i (v t) 0 * lsum (map (fun ds => Dd n ds (ad_partial f i) (c t)) (repls pairs)))) by (intros; ring).
    rewrite rsum_plus.
    change (rsum n (fun i => nth i (v t) 0 * Dd n (c' :: map fst pairs) (ad_partial f i) (c t))) with (Dd n (v t :: c' :: map fst pairs) f (c t)).
    cbn [lsum fold_right]. fold (lsum (map (fun ds => Dd n ds f (c t)) (map (cons (v t)) (repls pairs)))).
    assert (Q : rsum n (fun i => nth i (v t) 0 * lsum (map (fun ds => Dd n ds (ad_partial f i) (c t)) (repls pairs))) =
                lsum (map (fun ds => Dd n ds f (c t)) (map (cons (v t)) (repls pairs)))).
    { rewrite map_map. cbn [Dd]. rewrite (lsum_rsum (repls pairs) n (fun ds i => nth i (v t) 0 * Dd n ds (ad_partial f i) (c t))).
      apply rsum_ext. intros i Hi. rewrite <- lsum_map_scal. reflexivity. }
    rewrite Q. ring.
Qed.

(** moving along a fixed direction *)
Lemma move_length x d t : length (move x d t) = length x.
Proof. unfold move. rewrite map_length, seq_length. reflexivity. Qed.
Lemma move_nth x d t i : (i < length x)%nat -> nth i (move x d t) 0 = nth i x 0 + t * nth i d 0.
Proof.
  intros H. unfold move. rewrite (nth_indep _ 0 ((fun i => nth i x 0 + t * nth i d 0) 0%nat)) by (rewrite map_length, seq_length; exact H).
  rewrite (map_nth (fun i => nth i x 0 + t * nth i d 0)). rewrite seq_nth by exact H. reflexivity.
Qed.
Lemma move_0 x d : move x d 0 = x.
Proof. apply list_eq_nth; [apply move_length|]. intros i Hi. rewrite move_length in Hi. rewrite move_nth by exact Hi. ring. Qed.
Lemma Dd_move d ds f z : U z -> Ck (S (length ds)) n U f -> is_derive (fun t => Dd n ds f (move z d t)) 0 (Dd n (d :: ds) f z).
Proof.
  intros Uz Hf. destruct (O z Uz) as [Lz _].
  pose proof (Dd_curve (fun t => move z d t) d 0 (map (fun v => (fun _ : R => v, map (fun _ => 0) (seq 0 n))) ds)) as K. cbv beta zeta in K. rewrite move_0 in K.
  specialize (K Uz). assert (Lm : forall s, length (move z d s) = n) by (intros; rewrite move_length; exact Lz). specialize (K Lm).
  assert (A1 : forall i, (i < n)%nat -> is_derive (fun s => nth i (move z d s) 0) 0 (nth i d 0)).
  { intros i Hi. apply (is_derive_ext (fun s => nth i z 0 + s * nth i d 0)); [intros; symmetry; apply move_nth; lia|]. auto_derive; [exact I|ring]. }
  specialize (K A1).
  assert (Z0 : forall i, nth i (map (fun _ : nat => 0) (seq 0 n)) 0 = 0) by (intros i; apply (map_nth (fun _ : nat => 0) (seq 0 n) 0%nat i)).
  assert (A2 : forall v v', In (v, v') (map (fun v => (fun _ : R => v, map (fun _ : nat => 0) (seq 0 n))) ds) -> forall i, (i < n)%nat -> is_derive (fun s => nth i (v s) 0) 0 (nth i v' 0)).
  { intros v v' Hin i Hi. apply in_map_iff in Hin. destruct Hin as [w [E _]]. apply (f_equal (fun p => (fst p, snd p))) in E. cbn in E. injection E as <- <-. rewrite Z0. apply @is_derive_const. }
  specialize (K A2 f). rewrite map_length in K. specialize (K Hf).
  set (pr := map (fun p => (fst p 0, snd p)) (map (fun v => (fun _ : R => v, map (fun _ : nat => 0) (seq 0 n))) ds)) in K.
  assert (Ep : pr = map (fun v => (v, map (fun _ : nat => 0) (seq 0 n))) ds) by (unfold pr; rewrite map_map; reflexivity).
  assert (M : map fst pr = ds) by (rewrite Ep, map_map; cbn [fst]; apply map_id).
  assert (R0 : forall l ds0, (forall v v', In (v, v') l -> forall i, (i < n)%nat -> nth i v' 0 = 0) -> In ds0 (repls l) -> forall h, Dd n ds0 h z = 0).
  { clear. induction l as [|[v v'] l IH]; intros ds0 Hz Hin h; [destruct Hin|]. cbn [repls] in Hin. destruct Hin as [<-|Hin].
    - apply Dd_zero. intros. eapply Hz; [left; reflexivity|assumption].
    - apply in_map_iff in Hin. destruct Hin as [d1 [<- Hd]]. cbn [Dd]. apply rsum_zero. intros i Hi. rewrite (IH d1); [ring| |exact Hd]. intros; eapply Hz; [right; eassumption|assumption]. }
  assert (E0 : lsum (map (fun ds0 => Dd n ds0 f z) (repls pr)) = 0).
  { rewrite <- (lsum_map_ext (fun _ => 0 * 0)).
    - rewrite lsum_map_scal. ring.
    - intros ds0 Hin. rewrite (R0 pr ds0); [ring| |exact Hin]. intros v v' Hv i Hi. rewrite Ep in Hv. apply in_map_iff in Hv. destruct Hv as [w [E _]]. injection E as <- <-. apply Z0. }
  rewrite E0, M, Rplus_0_r in K. 
  eapply is_derive_ext; [|exact K]. intros s. cbv beta. rewrite map_map. cbn [fst]. rewrite map_id. reflexivity.
Qed.
End Dir.
