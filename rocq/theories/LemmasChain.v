(** The chain rule and the conversion of a Hessian with respect to the vector parameterisation into one with respect to the
    free parameterisation (C38). *)
From Coq Require Import Reals String List Lra Lia ZArith Arith Bool.
From Coquelicot Require Import Coquelicot.
From Verif Require Import Res RSum Num Nd ModelAutograd ModelSparse ModelParameters SpecParameters LemmasParameters LemmasCalc.
From Verif Require Import ModelMatrix ModelSimplex ModelProjection SpecMatrix SpecSimplex SpecProjection LemmasMatrix LemmasPosDef.
From Verif Require Import ModelDict SpecDict LemmasLeaf LemmasDict LemmasDictCalc.
Import List ListNotations.
Local Open Scope R_scope.
Set Bullet Behavior "Strict Subproofs".

Lemma uniform_delta n (P : nat -> R -> Prop) : (forall k, (k < n)%nat -> exists d, 0 < d /\ forall h, Rabs h < d -> P k h) ->
  exists d, 0 < d /\ forall h, Rabs h < d -> forall k, (k < n)%nat -> P k h.
Proof.
  induction n as [|n IH]; intros H.
  - exists 1. split; [lra|]. intros; lia.
  - destruct IH as [d1 [P1 H1]]; [intros; apply H; lia|]. destruct (H n) as [d2 [P2 H2]]; [lia|]. exists (Rmin d1 d2). split; [apply Rmin_pos; assumption|].
    intros h Hh k Hk. pose proof (Rmin_l d1 d2). pose proof (Rmin_r d1 d2). destruct (Nat.eq_dec k n) as [->|N]; [apply H2; lra|apply H1; [lra|lia]].
Qed.

Lemma chain_rule n (F : list R -> list R) f j x (D g : nat -> R) :
  (forall y, length y = length x -> length (F y) = n) ->
  (forall k, (k < n)%nat -> is_partial (fun y => nth k (F y) 0) j x (D k)) ->
  differentiable_at n f (F x) g -> (j < length x)%nat ->
  is_partial (fun y => f (F y)) j x (rsum n (fun k => g k * D k)).
Proof.
  intros LF HD Hf Hj. unfold is_partial. apply is_derive_Reals. intros eps He.
  set (t0 := nth j x 0). set (A := rsum n (fun k => Rabs (D k) + 1)). set (B := rsum n (fun k => Rabs (g k))).
  assert (A0 : 0 <= A) by (apply rsum_nonneg; intros k _; pose proof (Rabs_pos (D k)); lra).
  assert (B0 : 0 <= B) by (apply rsum_nonneg; intros; apply Rabs_pos).
  assert (E1 : 0 < eps / (4 * (A + 1))) by (apply Rdiv_lt_0_compat; lra).
  assert (E2 : 0 < Rmin 1 (eps / (4 * (B + 1)))) by (apply Rmin_pos; [lra|apply Rdiv_lt_0_compat; lra]).
  destruct (Hf _ E1) as [d1 [Hd1 F1]].
  set (e2 := Rmin 1 (eps / (4 * (B + 1)))) in *.
  destruct (uniform_delta n (fun k h => Rabs (nth k (F (upd x j (t0 + h))) 0 - nth k (F x) 0 - D k * h) <= e2 * Rabs h)) as [d2 [Hd2 F2]].
  { intros k Hk. pose proof (HD k Hk) as Dk. unfold is_partial in Dk. apply is_derive_Reals in Dk. destruct (Dk e2 E2) as [d Hd]. exists d. split; [apply cond_pos|].
    intros h Hh. destruct (Req_dec h 0) as [->|Nh].
    - rewrite Rplus_0_r. unfold t0. rewrite upd_same. rewrite Rabs_R0. replace (_ - _ - _) with 0 by ring. rewrite Rabs_R0. lra.
    - specialize (Hd h Nh Hh). fold t0 in Hd. unfold t0 in Hd at 2. rewrite upd_same in Hd.
      replace (nth k (F (upd x j (t0 + h))) 0 - nth k (F x) 0 - D k * h) with (((nth k (F (upd x j (t0 + h))) 0 - nth k (F x) 0) / h - D k) * h) by (field; exact Nh).
      rewrite Rabs_mult. apply Rmult_le_compat_r; [apply Rabs_pos|]. lra. }
  assert (Hd3 : 0 < d1 / (A + 1)) by (apply Rdiv_lt_0_compat; lra).
  assert (Hd : 0 < Rmin d2 (d1 / (A + 1))) by (apply Rmin_pos; assumption).
  exists (mkposreal _ Hd). cbn [pos]. intros h Nh Hh. pose proof (Rmin_l d2 (d1 / (A + 1))). pose proof (Rmin_r d2 (d1 / (A + 1))).
  specialize (F2 h ltac:(lra)). pose proof (Rabs_pos_lt h Nh) as Ph.
  set (w := F (upd x j (t0 + h))) in *.
  assert (Bd : forall k, (k < n)%nat -> Rabs (nth k w 0 - nth k (F x) 0) <= (Rabs (D k) + 1) * Rabs h).
  { intros k Hk. specialize (F2 k Hk). pose proof (Rmin_l 1 (eps / (4 * (B + 1)))). fold e2 in H1.
    replace (nth k w 0 - nth k (F x) 0) with ((nth k w 0 - nth k (F x) 0 - D k * h) + D k * h) by ring.
    eapply Rle_trans; [apply Rabs_triang|]. rewrite Rabs_mult. assert (e2 * Rabs h <= 1 * Rabs h) by (apply Rmult_le_compat_r; lra). lra. }
  assert (Lw : length w = n) by (apply LF; apply upd_length).
  assert (Sm : forall k, (k < n)%nat -> Rabs (D k) + 1 <= A).
  { intros k Hk. unfold A. clear -Hk. induction n as [|m IH]; [lia|]. cbn [rsum].
    assert (0 <= rsum m (fun k => Rabs (D k) + 1)) by (apply rsum_nonneg; intros i _; pose proof (Rabs_pos (D i)); lra).
    destruct (Nat.eq_dec k m) as [->|N]; [lra|]. assert (Rabs (D k) + 1 <= rsum m (fun k => Rabs (D k) + 1)) by (apply IH; lia). pose proof (Rabs_pos (D m)). lra. }
  specialize (F1 w Lw).
  assert (Cl : forall k, (k < n)%nat -> Rabs (nth k w 0 - nth k (F x) 0) < d1).
  { intros k Hk. eapply Rle_lt_trans; [apply Bd, Hk|]. assert (Rabs h < d1 / (A + 1)) by lra.
    apply (Rmult_lt_compat_r (A + 1)) in H1; [|lra]. replace (d1 / (A + 1) * (A + 1)) with d1 in H1 by (field; lra).
    pose proof (Sm k Hk). assert ((Rabs (D k) + 1) * Rabs h <= A * Rabs h) by (apply Rmult_le_compat_r; lra). lra. }
  specialize (F1 Cl). fold t0. fold w. unfold t0. rewrite upd_same.
  set (dif := f w - f (F x) - rsum n (fun k => g k * (nth k w 0 - nth k (F x) 0))) in *.
  replace ((f w - f (F x)) / h - rsum n (fun k => g k * D k)) with
    ((dif + rsum n (fun k => g k * (nth k w 0 - nth k (F x) 0 - D k * h))) / h).
  2:{ unfold dif. replace (rsum n (fun k => g k * (nth k w 0 - nth k (F x) 0 - D k * h))) with
        (rsum n (fun k => g k * (nth k w 0 - nth k (F x) 0)) - rsum n (fun k => g k * D k) * h).
      - field. exact Nh.
      - rewrite <- rsum_scal_r. clear. induction n as [|m IH]; cbn [rsum]; [ring|]. rewrite <- IH. ring. }
  unfold Rdiv. rewrite Rabs_mult. rewrite Rabs_inv. apply (Rmult_lt_reg_r (Rabs h)); [exact Ph|]. rewrite Rmult_assoc, Rinv_l by lra. rewrite Rmult_1_r.
  eapply Rle_lt_trans; [apply Rabs_triang|].
  assert (T1 : Rabs dif <= eps / 4 * Rabs h).
  { eapply Rle_trans; [exact F1|]. assert (S1 : rsum n (fun k => Rabs (nth k w 0 - nth k (F x) 0)) <= A * Rabs h).
    { unfold A. rewrite <- rsum_scal_r. apply rsum_le. exact Bd. }
    eapply Rle_trans; [apply Rmult_le_compat_l; [lra|exact S1]|]. rewrite <- Rmult_assoc. apply Rmult_le_compat_r; [lra|].
    apply (Rmult_le_reg_r (4 * (A + 1))); [lra|]. replace (eps / (4 * (A + 1)) * A * (4 * (A + 1))) with (eps * A) by (field; lra). nra. }
  assert (T2 : Rabs (rsum n (fun k => g k * (nth k w 0 - nth k (F x) 0 - D k * h))) <= eps / 4 * Rabs h).
  { eapply Rle_trans; [apply rsum_Rabs|]. eapply Rle_trans.
    - apply (rsum_le n _ (fun k => Rabs (g k) * (e2 * Rabs h))). intros k Hk. rewrite Rabs_mult. apply Rmult_le_compat_l; [apply Rabs_pos|apply F2, Hk].
    - rewrite rsum_scal_r. fold B. pose proof (Rmin_r 1 (eps / (4 * (B + 1)))) as M. fold e2 in M.
      assert (B * e2 <= eps / 4).
      { eapply Rle_trans; [apply Rmult_le_compat_l; [exact B0|exact M]|]. apply (Rmult_le_reg_r (4 * (B + 1))); [lra|].
        replace (B * (eps / (4 * (B + 1))) * (4 * (B + 1))) with (eps * B) by (field; lra). nra. }
      rewrite <- Rmult_assoc. apply Rmult_le_compat_r; lra. }
  assert (0 < eps * Rabs h) by (apply Rmult_lt_0_compat; lra). lra.
Qed.

Lemma concat_get sh (l : list (list (nat * nat * R))) i j :
  coo_get (Coo sh (List.concat l)) i j = lsum (map (fun e => coo_get (Coo sh e) i j) l).
Proof.
  induction l as [|e l IH]; [reflexivity|]. cbn [List.concat map lsum fold_right]. unfold coo_get in *. cbn [coo_ent] in *. rewrite map_app, lsum_app, IH. reflexivity.
Qed.
Lemma scaled_get sh (l : list (nat * nat * R)) g i j :
  coo_get (Coo sh (map (fun e => let '(r, c, v) := e in (r, c, v * g)) l)) i j = g * coo_get (Coo sh l) i j.
Proof.
  unfold coo_get. cbn [coo_ent]. rewrite map_map, <- lsum_map_scal. apply lsum_map_ext. intros [[r c] v] _. destruct (_ && _)%bool; ring.
Qed.

(** C38 *)
Lemma convert_hessian p x (f : list R -> R) (G : list R -> list R) (H : nat -> nat -> R) :
  reachable p -> populated p -> (0 < p_vector_size p)%nat -> length x = p_free_size p ->
  (forall y, length y = p_free_size p -> length (G (p_free_to_vector p y)) = p_vector_size p /\
     differentiable_at (p_vector_size p) f (p_free_to_vector p y) (fun k => nth k (G (p_free_to_vector p y)) 0)) ->
  (forall k, (k < p_vector_size p)%nat -> differentiable_at (p_vector_size p) (fun v => nth k (G v) 0) (p_free_to_vector p x) (fun a => H a k)) ->
  exists p' M, convert_vector_to_free_hessian p x (G (p_free_to_vector p x)) H = (p', Ok M) /\ p_get_free p' = Ok (nd_vec (map Fin x)) /\
    (forall i j, (i < p_free_size p)%nat -> (j < p_free_size p)%nat -> is_partial2 (fun y => f (p_free_to_vector p y)) i j x (M i j)) /\
    ((forall a b, (a < p_vector_size p)%nat -> (b < p_vector_size p)%nat -> H a b = H b a) -> forall i j, M i j = M j i).
Proof.
  intros Rp Pop Nz L HG HH. pose proof (reachable_wf p Rp) as W.
  destruct (p_free_roundtrip p x W Pop L) as [p' [v [E1 [E2 _]]]].
  destruct (p_derivatives p W Pop x L) as [[J [EJ [_ [ShJ DJ]]]] [Hs [EH [OkH [LH DH]]]]].
  destruct (set_free_derivatives p (fvec x) x) as [SJ SH]. destruct (p_set_free_sizes p (fvec x)) as [[Sf Sv] _]. rewrite E1 in SJ, SH, Sf, Sv. cbn [fst] in *.
  unfold convert_vector_to_free_hessian. unfold fvec in *. rewrite E1. exists p'. rewrite SJ, SH, EJ, EH, Sf, Sv. cbn [rbind].
  set (nv := p_vector_size p) in *. set (nf := p_free_size p) in *. set (F := p_free_to_vector p) in *. cbv zeta. rewrite seq_length.
  replace (Nat.eqb nv 0) with false by (symmetry; apply Nat.eqb_neq; lia).
  set (hk := fun k => nth k Hs (Coo (nf, nf) [])).
  assert (EM : rmapM (fun vec_ind => match nth_error Hs vec_ind with None => Raise IndexError | Some h => do g <- getitem (G (F x)) vec_ind;
             Ok (map (fun e => let '(r, c, v) := e in (r, c, v * g)) (coo_ent h)) end) (seq 0 nv) =
          Ok (map (fun k => map (fun e => let '(r, c, v) := e in (r, c, v * nth k (G (F x)) 0)) (coo_ent (hk k))) (seq 0 nv))).
  { apply rmapM_ok. intros k Hk. apply in_seq in Hk. destruct (DH k) as [M [EK _]]; [lia|]. rewrite EK. unfold getitem.
    destruct (nth_error (G (F x)) k) as [g|] eqn:Eg.
    - cbn [rbind]. unfold hk. rewrite (nth_error_nth _ _ _ EK), (nth_error_nth _ _ _ Eg). reflexivity.
    - apply nth_error_None in Eg. rewrite (proj1 (HG x L)) in Eg. lia. }
  rewrite EM. cbn [rbind]. eexists. splits; [reflexivity|exact E2| |].
  - intros i j Hi Hj.
    assert (DF : forall y, length y = nf -> forall k b, (k < nv)%nat -> (b < nf)%nat -> is_partial (fun z => nth k (F z) 0) b y (ad_jac F y k b)).
    { intros y Ly k b Hk Hb. destruct (p_derivatives p W Pop y Ly) as [[Jy [_ [_ [_ Dy]]]] _]. specialize (Dy k b Hk Hb). fold F in Dy. unfold ad_jac. rewrite (is_partial_unique _ _ _ _ Dy). exact Dy. }
    assert (LF : forall y, length y = length x -> length (F y) = nv) by (intros y Ly; apply p_ftv_value; [exact W|exact Pop|rewrite Ly; exact L]).
    apply (is_partial2_intro _ i j x (fun y => rsum nv (fun k => nth k (G (F y)) 0 * ad_jac F y k j))).
    + intros y Ly. apply (chain_rule nv F f j y (fun k => ad_jac F y k j) (fun k => nth k (G (F y)) 0)).
      * intros z Lz. apply LF. congruence.
      * intros k Hk. apply DF; try assumption. rewrite Ly; exact L.
      * apply HG. rewrite Ly; exact L.
      * lia.
    + eapply is_partial_value.
      * apply (is_partial_rsum nv (fun k y => nth k (G (F y)) 0 * ad_jac F y k j) i x
          (fun k => rsum nv (fun a => H a k * coo_get J a i) * ad_jac F x k j + nth k (G (F x)) 0 * coo_get (hk k) i j)).
        intros k Hk. apply (is_partial_mult (fun y => nth k (G (F y)) 0) (fun y => ad_jac F y k j)).
        -- apply (chain_rule nv F (fun v => nth k (G v) 0) i x (fun a => coo_get J a i) (fun a => H a k)).
           ++ exact LF.
           ++ intros a Ha. apply DJ; assumption.
           ++ apply HH, Hk.
           ++ lia.
        -- destruct (DH k Hk) as [M [EK [_ DM]]]. unfold hk. rewrite (nth_error_nth _ _ _ EK). destruct (DM i j Hi Hj) as [g' [G1 G2]].
           apply (is_partial_ext_len g'); [|exact G2]. intros y Ly. unfold ad_jac. symmetry. apply is_partial_unique, G1. exact Ly.
      * cbv beta. rewrite rsum_plus, Rplus_comm. f_equal.
        -- rewrite concat_get, map_map, lsum_map_seq. apply rsum_ext. intros k Hk. rewrite scaled_get. f_equal. 
        -- apply rsum_ext. intros b Hb. unfold ad_jac. rewrite (is_partial_unique _ _ _ _ (DJ b j Hb Hj)). f_equal. apply rsum_ext. intros a Ha. ring.
  - intros Sy i j. cbv beta. f_equal.
    + rewrite !concat_get, !map_map, !lsum_map_seq. apply rsum_ext. intros k Hk. rewrite !scaled_get. f_equal. destruct (DH k Hk) as [M [EK _]].
      unfold hk. rewrite (nth_error_nth _ _ _ EK). apply (proj2 (OkH M (nth_error_In _ _ EK))).
    + transitivity (rsum nv (fun b => rsum nv (fun a => coo_get J a i * H a b * coo_get J b j))).
      * apply rsum_ext. intros b Hb. rewrite <- rsum_scal_r. reflexivity.
      * rewrite rsum_swap. apply rsum_ext. intros b Hb. rewrite <- rsum_scal_r. apply rsum_ext. intros a Ha. rewrite (Sy b a) by assumption. ring.
Qed.
