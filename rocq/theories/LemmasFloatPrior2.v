(** Proofs about the priors of vectors in binary64. *)
From Coq Require Import Reals ZArith List Lra Lia Bool.
From Flocq Require Import Core BinarySingleNaN Relative.
From Verif Require Import Res Nd RSum ModelNumpy SpecFloat SpecFloatSimplex SpecFloatAcc SpecFloatMatrix SpecFloatFam SpecFloatPrior SpecFloatPrior2 ModelFloat ModelFloatFamilies ModelFloatLogit ModelFloatMatrix ModelFloatPrior ModelFloatPrior2
  LemmasPosDef LemmasNumpy LemmasFloat LemmasFloat2 LemmasFloat3 LemmasFloat4 LemmasFloat5 LemmasFloatDefault LemmasFloatSimplex LemmasFloatSimplex2 LemmasFloatSimplex4 LemmasFloatAcc LemmasFloatAcc2 LemmasFloatFam LemmasFloatFam7 LemmasFloatLogit LemmasFloatQuad LemmasFloatPrior.
From Verif Require LemmasFloatEntropy2.
Import List ListNotations.
Set Bullet Behavior "Strict Subproofs".
Open Scope R_scope.

Definition tab (n : nat) (f : nat -> dbl) : list dbl := map f (seq 0 n).
Lemma tab_length n f : length (tab n f) = n. Proof. unfold tab. rewrite map_length. apply seq_length. Qed.
Lemma tab_nth n f k : (k < n)%nat -> nth k (tab n f) dzero = f k.
Proof. intros H. unfold tab. rewrite (nth_indep _ dzero (f 0%nat)) by (rewrite map_length, seq_length; exact H). rewrite map_nth, seq_nth by exact H. reflexivity. Qed.
Lemma tab_data n (a : nd dbl) : proper [n] a -> data a = tab n (entry a).
Proof.
  intros [_ L]. rewrite nprod_1 in L. apply (nth_ext _ _ dzero dzero); [rewrite tab_length; exact L|]. intros k H. rewrite tab_nth by (rewrite <- L; exact H). reflexivity.
Qed.
Lemma tab_finite n f : (forall k, (k < n)%nat -> is_finite (f k) = true) -> List.Forall (fun v : dbl => is_finite v = true) (tab n f).
Proof. intros H. apply Forall_forall. intros y Hy. unfold tab in Hy. apply in_map_iff in Hy. destruct Hy as (j & <- & Hj). apply in_seq in Hj. apply H. lia. Qed.

Section Dot.
Context (fdot : list dbl -> list dbl -> dbl) (Hd : dot_good fdot) (n : nat) (Hn : INR n <= bpow radix2 20).
Lemma dot_about (x y : nat -> dbl) (Z A : nat -> R) : (forall k, (k < n)%nat -> is_finite (x k) = true /\ is_finite (y k) = true /\ Rabs (B2R (x k) * B2R (y k) - Z k) <= A k) ->
  rsum n (fun k => Rabs (Z k)) + rsum n A <= bpow radix2 990 ->
  let d := fdot (tab n x) (tab n y) in is_finite d = true /\ Rabs (B2R d - rsum n Z) <= 4 * INR n * u * (rsum n (fun k => Rabs (Z k)) + rsum n A) + rsum n A + INR n * bpow radix2 (-1070).
Proof using Hd Hn.
  intros H B d. destruct (Hd (tab n x) (tab n y)) as [F E].
  - rewrite !tab_length. reflexivity.
  - apply tab_finite. intros k Hk. apply (H k Hk).
  - apply tab_finite. intros k Hk. apply (H k Hk).
  - rewrite tab_length. exact Hn.
  - apply Rle_trans with (2 := B). unfold inner_abs. rewrite tab_length, <- rsum_plus. apply rsum_le. intros k Hk. rewrite !tab_nth by exact Hk. destruct (H k Hk) as (_ & _ & C). replace (B2R (x k) * B2R (y k)) with ((B2R (x k) * B2R (y k) - Z k) + Z k) by ring. eapply Rle_trans; [apply Rabs_triang|]. lra.
  - split; [exact F|]. fold d in E. rewrite tab_length, units_u in E.
    assert (E1 : inner_abs (tab n x) (tab n y) <= rsum n (fun k => Rabs (Z k)) + rsum n A). { unfold inner_abs. rewrite tab_length, <- rsum_plus. apply rsum_le. intros k Hk. rewrite !tab_nth by exact Hk. destruct (H k Hk) as (_ & _ & C). replace (B2R (x k) * B2R (y k)) with ((B2R (x k) * B2R (y k) - Z k) + Z k) by ring. eapply Rle_trans; [apply Rabs_triang|]. lra. }
    assert (E2 : Rabs (inner (tab n x) (tab n y) - rsum n Z) <= rsum n A). { unfold inner. rewrite tab_length, <- rsum_minus. eapply Rle_trans; [apply rsum_Rabs|]. apply rsum_le. intros k Hk. rewrite !tab_nth by exact Hk. apply (H k Hk). }
    small_u. pose proof (pos_INR n). replace (B2R d - rsum n Z) with ((B2R d - inner (tab n x) (tab n y)) + (inner (tab n x) (tab n y) - rsum n Z)) by ring. eapply Rle_trans; [apply Rabs_triang|].
    assert (4 * INR n * u * inner_abs (tab n x) (tab n y) <= 4 * INR n * u * (rsum n (fun k => Rabs (Z k)) + rsum n A)) by (apply Rmult_le_compat_l; [repeat apply Rmult_le_pos; lra|exact E1]). lra.
Qed.
Lemma n_u : 0 <= INR n * u <= / 1000000000.
Proof using Hn. small_u. pose proof (pos_INR n). rewrite bpow20 in Hn. split; [apply Rmult_le_pos; lra|]. apply Rle_trans with (1048576 * / 9000000000000000); [apply Rmult_le_compat; lra|lra]. Qed.
Lemma dot_rel (x y : nat -> dbl) (Z : nat -> R) : (forall k, (k < n)%nat -> is_finite (x k) = true /\ is_finite (y k) = true /\ Rabs (B2R (x k) * B2R (y k) - Z k) <= u * Rabs (Z k)) ->
  rsum n (fun k => Rabs (Z k)) <= bpow radix2 980 ->
  let d := fdot (tab n x) (tab n y) in is_finite d = true /\ Rabs (B2R d - rsum n Z) <= (4 * INR n + 2) * u * rsum n (fun k => Rabs (Z k)) + INR n * bpow radix2 (-1070).
Proof using Hd Hn.
  intros H B d. small_u. set (S := rsum n (fun k => Rabs (Z k))) in *. assert (S0 : 0 <= S) by (apply rsum_nonneg; intros; apply Rabs_pos). assert (EA : rsum n (fun k => u * Rabs (Z k)) = u * S) by apply rsum_scal_l.
  assert (uS : u * S <= S) by (rewrite <- (Rmult_1_l S) at 2; apply Rmult_le_compat_r; lra). assert (P : 2 * bpow radix2 980 <= bpow radix2 990) by (change 2 with (bpow radix2 1); rewrite <- bpow_plus; apply bpow_le; lia).
  destruct (dot_about x y Z (fun k => u * Rabs (Z k)) H) as [F E]; [fold S; rewrite EA; lra|]. split; [exact F|]. fold d S in E. rewrite EA in E. apply Rle_trans with (1 := E). apply Rplus_le_compat_r. pose proof n_u as [N0 N1]. assert (uS0 : 0 <= u * S) by (apply Rmult_le_pos; lra). assert (INR n * u * (u * S) <= / 1000000000 * (u * S)) by (apply Rmult_le_compat_r; lra).
  replace (4 * INR n * u * (S + u * S) + u * S) with (4 * INR n * u * S + 4 * (INR n * u * (u * S)) + u * S) by ring. replace ((4 * INR n + 2) * u * S) with (4 * INR n * u * S + 2 * (u * S)) by ring. lra.
Qed.
Context (fsum : list dbl -> dbl) (Hs : sums fsum).
Lemma sum_about (t : nat -> dbl) (T A : nat -> R) : (forall k, (k < n)%nat -> is_finite (t k) = true /\ Rabs (B2R (t k) - T k) <= A k) -> rsum n (fun k => Rabs (T k)) + rsum n A <= bpow radix2 500 ->
  let s := fsum (tab n t) in is_finite s = true /\ Rabs (B2R s - rsum n T) <= 2 * INR n * u * (rsum n (fun k => Rabs (T k)) + rsum n A) + rsum n A.
Proof using Hn Hs.
  intros H B s. set (l := tab n t) in *. assert (C : forall k, (k < n)%nat -> Rabs (B2R (t k)) <= Rabs (T k) + A k) by (intros k Hk; destruct (H k Hk) as [_ E]; replace (B2R (t k)) with ((B2R (t k) - T k) + T k) by ring; eapply Rle_trans; [apply Rabs_triang|]; lra).
  assert (Md : List.Forall LemmasFloatEntropy2.modest l).
  { apply Forall_forall. intros y Hy. unfold l, tab in Hy. apply in_map_iff in Hy. destruct Hy as (j & <- & Hj). apply in_seq in Hj. split; [apply H; lia|]. apply Rle_trans with (bpow radix2 500); [|apply bpow_le; lia]. apply Rle_trans with (2 := B). rewrite <- rsum_plus. apply Rle_trans with (Rabs (T j) + A j); [apply C; lia|].
    apply (rsum_term_le n (fun k => Rabs (T k) + A k) j); [lia|]. intros i Hi. pose proof (C i Hi). pose proof (Rabs_pos (B2R (t i))). lra. }
  assert (Ln : length l = n) by apply tab_length.
  destruct (LemmasFloatEntropy2.sum_accuracy_signed l (fsum l) (Hs l) Md) as [Fs E]; [exact (eq_rect_r (fun k => INR k <= bpow radix2 20) Hn Ln)|]. split; [exact Fs|].
  assert (E1 : lsum (LemmasFloatEntropy2.reals l) = rsum n (fun k => B2R (t k))) by (unfold LemmasFloatEntropy2.reals, LemmasFloatSimplex2.reals, l, tab; rewrite map_map; apply LemmasFloatEntropy2.lsum_seq).
  assert (E2 : lsum (LemmasFloatEntropy2.sizes l) = rsum n (fun k => Rabs (B2R (t k)))) by (unfold LemmasFloatEntropy2.sizes, l, tab; rewrite map_map; apply LemmasFloatEntropy2.lsum_seq).
  assert (E' : Rabs (B2R (fsum l) - rsum n (fun k => B2R (t k))) <= ((1 + u) ^ n - 1) * rsum n (fun k => Rabs (B2R (t k)))) by (apply (eq_rect (length l) (fun k => Rabs (B2R (fsum l) - rsum n (fun k => B2R (t k))) <= ((1 + u) ^ k - 1) * rsum n (fun k => Rabs (B2R (t k)))) ); [rewrite <- E1, <- E2; exact E|exact Ln]). clear E.
  pose proof (pow_u_le n Hn) as Pu. pose proof (pow_u_pos n) as Pu1. fold s in E'.
  assert (V : Rabs (rsum n (fun k => B2R (t k)) - rsum n T) <= rsum n A) by (rewrite <- rsum_minus; eapply Rle_trans; [apply rsum_Rabs|]; apply rsum_le; intros k Hk; apply (H k Hk)).
  assert (W : rsum n (fun k => Rabs (B2R (t k))) <= rsum n (fun k => Rabs (T k)) + rsum n A) by (rewrite <- rsum_plus; apply rsum_le; exact C). assert (W0 : 0 <= rsum n (fun k => Rabs (B2R (t k)))) by (apply rsum_nonneg; intros; apply Rabs_pos).
  assert (((1 + u) ^ n - 1) * rsum n (fun k => Rabs (B2R (t k))) <= 2 * INR n * u * (rsum n (fun k => Rabs (T k)) + rsum n A)) by (apply Rmult_le_compat; lra).
  replace (B2R s - rsum n T) with ((B2R s - rsum n (fun k => B2R (t k))) + (rsum n (fun k => B2R (t k)) - rsum n T)) by ring. eapply Rle_trans; [apply Rabs_triang|]. lra.
Qed.

(** ** mvn_prior, number by number *)
Lemma mvn_core (m e : nat -> dbl) (P C : nat -> nat -> dbl) : (forall i, (i < n)%nat -> sized 100 (m i) /\ sized 100 (e i)) -> (forall i j, (i < n)%nat -> (j < n)%nat -> sized 100 (P i j) /\ sized 100 (C i j)) ->
  let d i := fsub (e i) (m i) in let D i := B2R (e i) - B2R (m i) in let Pr i j := B2R (P i j) in let Cr i j := B2R (C i j) in
  let q := fdot (tab n d) (tab n (fun i => fdot (tab n (P i)) (tab n d))) in let t := fsum (tab n (fun i => fdot (tab n (P i)) (tab n (fun j => C j i)))) in
  let r := fmul f_mhalf (fadd q t) in
  is_finite r = true /\ Rabs (B2R r + (quad_form n Pr D + trace_prod n Pr Cr) / 2) <= (5 * INR n + 4) * u * prior_size n Pr Cr D + (INR n + 1) * bpow radix2 (-900).
Proof using Hd Hn Hs.
  intros Hm HP d D Pr Cr q t r. small_u. pose proof n_u as [N0 N1]. pose proof (pos_INR n) as Np. assert (Nb : INR n <= 1048576) by (rewrite <- bpow20; exact Hn). set (N := INR n) in *. set (eta := bpow radix2 (-1070)). assert (e0 : 0 < eta) by apply bpow_gt_0.
  assert (HD : forall i, (i < n)%nat -> is_finite (d i) = true /\ Rabs (D i) <= bpow radix2 101 /\ Rabs (B2R (d i) - D i) <= u * Rabs (D i)).
  { intros i Hi. destruct (Hm i Hi) as [[Fm Bm] [Fe Be]]. assert (Rabs (D i) <= bpow radix2 101). { unfold D, Rminus. eapply Rle_trans; [apply Rabs_triang|]. rewrite Rabs_Ropp. replace (bpow radix2 101) with (2 * bpow radix2 100) by (change 2 with (bpow radix2 1); rewrite <- bpow_plus; reflexivity). lra. }
    destruct (fsub_rel (e i) (m i) Fe Fm) as [F E]; [apply Rle_trans with (1 := H1); apply bpow_le; lia|]. split; [exact F|]. split; [exact H1|exact E]. }
  (* the rows of P d *)
  set (W := fun i => rsum n (fun j => Pr i j * D j)). set (WA := fun i => rsum n (fun j => Rabs (Pr i j) * Rabs (D j))). set (w := fun i => fdot (tab n (P i)) (tab n d)).
  assert (WA0 : forall i, 0 <= WA i) by (intros i; apply rsum_nonneg; intros; apply Rmult_le_pos; apply Rabs_pos).
  assert (P21 : bpow radix2 101 * bpow radix2 100 = bpow radix2 201) by (rewrite <- bpow_plus; reflexivity). assert (P221 : 1048576 * bpow radix2 201 = bpow radix2 221) by (change 1048576 with (bpow radix2 20); rewrite <- bpow_plus; reflexivity).
  pose proof (bpow_gt_0 radix2 100) as p100. pose proof (bpow_gt_0 radix2 101) as p101. pose proof (bpow_gt_0 radix2 201) as p201.
  assert (WAB : forall i, (i < n)%nat -> WA i <= bpow radix2 221).
  { intros i Hi. apply Rle_trans with (N * bpow radix2 201); [|rewrite <- P221; apply Rmult_le_compat_r; lra]. unfold WA, N. rewrite <- rsum_const. apply rsum_le. intros j Hj. rewrite <- P21, Rmult_comm. apply Rmult_le_compat; try apply Rabs_pos; [apply (HD j Hj)|apply (HP i j Hi Hj)]. }
  assert (Hw : forall i, (i < n)%nat -> is_finite (w i) = true /\ Rabs (B2R (w i) - W i) <= (4 * N + 2) * u * WA i + N * eta).
  { intros i Hi. assert (EA : rsum n (fun j => Rabs (Pr i j * D j)) = WA i) by (apply rsum_ext; intros; apply Rabs_mult). destruct (dot_rel (P i) d (fun j => Pr i j * D j)) as [F E].
    - intros j Hj. destruct (HD j Hj) as (F & _ & E). split; [apply (HP i j Hi Hj)|]. split; [exact F|]. fold (Pr i j). replace (Pr i j * B2R (d j) - Pr i j * D j) with (Pr i j * (B2R (d j) - D j)) by ring. rewrite !Rabs_mult. replace (u * (Rabs (Pr i j) * Rabs (D j))) with (Rabs (Pr i j) * (u * Rabs (D j))) by ring. apply Rmult_le_compat_l; [apply Rabs_pos|exact E].
    - rewrite EA. apply Rle_trans with (1 := WAB i Hi). apply bpow_le; lia.
    - rewrite EA in E. split; [exact F|exact E]. }
  (* the quadratic form *)
  set (QA := rsum n (fun i => Rabs (D i) * WA i)). set (Q := rsum n (fun i => D i * W i)). set (SD := rsum n (fun i => Rabs (D i))).
  assert (WW : forall i, Rabs (W i) <= WA i) by (intros i; unfold W, WA; eapply Rle_trans; [apply rsum_Rabs|]; apply rsum_le; intros; rewrite Rabs_mult; lra).
  assert (QA0 : 0 <= QA) by (apply rsum_nonneg; intros; apply Rmult_le_pos; [apply Rabs_pos|apply WA0]). assert (SD0 : 0 <= SD) by (apply rsum_nonneg; intros; apply Rabs_pos). assert (SDB : SD <= N * bpow radix2 101) by (unfold SD, N; rewrite <- rsum_const; apply rsum_le; intros i Hi; apply (HD i Hi)).
  set (A := fun i => (4 * N + 4) * u * (Rabs (D i) * WA i) + 2 * N * eta * Rabs (D i)). assert (SA : rsum n A = (4 * N + 4) * u * QA + 2 * N * eta * SD) by (unfold A; rewrite rsum_plus, !rsum_scal_l; reflexivity).
  assert (k4 : 0 <= (4 * N + 4) * u <= / 100000000) by (replace ((4 * N + 4) * u) with (4 * (N * u) + 4 * u) by ring; lra). assert (k2 : 0 <= (4 * N + 2) * u <= / 100000000) by (replace ((4 * N + 2) * u) with (4 * (N * u) + 2 * u) by ring; lra).
  assert (Ne : 0 <= N * eta) by (apply Rmult_le_pos; lra).
  assert (HA : forall i, (i < n)%nat -> Rabs (B2R (d i) * B2R (w i) - D i * W i) <= A i).
  { intros i Hi. destruct (HD i Hi) as (_ & _ & Ed). destruct (Hw i Hi) as [_ Ew]. pose proof (WA0 i) as w0. assert (k2w : (4 * N + 2) * u * WA i <= / 100000000 * WA i) by (apply Rmult_le_compat_r; lra).
    assert (wB : Rabs (B2R (w i)) <= 2 * WA i + N * eta) by (replace (B2R (w i)) with ((B2R (w i) - W i) + W i) by ring; eapply Rle_trans; [apply Rabs_triang|]; pose proof (WW i); lra).
    pose proof (Rabs_pos (D i)) as D0. replace (B2R (d i) * B2R (w i) - D i * W i) with ((B2R (d i) - D i) * B2R (w i) + D i * (B2R (w i) - W i)) by ring. eapply Rle_trans; [apply Rabs_triang|]. rewrite !Rabs_mult.
    assert (T1 : Rabs (B2R (d i) - D i) * Rabs (B2R (w i)) <= u * Rabs (D i) * (2 * WA i + N * eta)) by (apply Rmult_le_compat; try apply Rabs_pos; assumption). assert (T2 : Rabs (D i) * Rabs (B2R (w i) - W i) <= Rabs (D i) * ((4 * N + 2) * u * WA i + N * eta)) by (apply Rmult_le_compat_l; assumption).
    assert (T3 : u * (Rabs (D i) * (N * eta)) <= 1 * (Rabs (D i) * (N * eta))) by (apply Rmult_le_compat_r; [apply Rmult_le_pos; assumption|lra]). unfold A.
    replace (u * Rabs (D i) * (2 * WA i + N * eta)) with (2 * (u * (Rabs (D i) * WA i)) + u * (Rabs (D i) * (N * eta))) in T1 by ring. replace (Rabs (D i) * ((4 * N + 2) * u * WA i + N * eta)) with ((4 * N + 4) * u * (Rabs (D i) * WA i) - 2 * (u * (Rabs (D i) * WA i)) + Rabs (D i) * (N * eta)) in T2 by ring.
    replace (2 * N * eta * Rabs (D i)) with (2 * (Rabs (D i) * (N * eta))) by ring. lra. }
  assert (QS : rsum n (fun i => Rabs (D i * W i)) <= QA) by (apply rsum_le; intros i Hi; rewrite Rabs_mult; apply Rmult_le_compat_l; [apply Rabs_pos|apply WW]).
  (* the small terms *)
  assert (et : eta * bpow radix2 101 = bpow radix2 (-969)) by (unfold eta; rewrite <- bpow_plus; reflexivity). pose proof (bpow_gt_0 radix2 (-969)) as p969. pose proof (bpow_gt_0 radix2 (-940)) as p940.
  assert (b940 : 16777216 * bpow radix2 (-969) <= bpow radix2 (-940)) by (change 16777216 with (bpow radix2 24); rewrite <- bpow_plus; apply bpow_le; lia). assert (b940' : bpow radix2 (-940) <= bpow radix2 (-902)) by (apply bpow_le; lia). assert (eta_le : eta <= bpow radix2 (-969)) by (apply bpow_le; lia).
  assert (sd1 : N * eta * SD <= N * (1048576 * bpow radix2 (-969))). { apply Rle_trans with (N * eta * (N * bpow radix2 101)); [apply Rmult_le_compat_l; assumption|]. replace (N * eta * (N * bpow radix2 101)) with (N * (N * (eta * bpow radix2 101))) by ring. rewrite et. apply Rmult_le_compat_l; [exact Np|]. apply Rmult_le_compat_r; lra. }
  assert (sd0 : 0 <= N * eta * SD) by (apply Rmult_le_pos; assumption). assert (b9n : N * (16777216 * bpow radix2 (-969)) <= N * bpow radix2 (-940)) by (apply Rmult_le_compat_l; lra). assert (n9 : 0 <= N * bpow radix2 (-940)) by (apply Rmult_le_pos; lra). assert (n9' : N * bpow radix2 (-940) <= 1).
  { apply Rle_trans with (1048576 * bpow radix2 (-940)); [apply Rmult_le_compat_r; lra|]. change 1048576 with (bpow radix2 20). rewrite <- bpow_plus. change 1 with (bpow radix2 0). apply bpow_le. lia. }
  assert (Qb : QA <= bpow radix2 342). { unfold QA. apply Rle_trans with (N * bpow radix2 322). - unfold N. rewrite <- rsum_const. apply rsum_le. intros i Hi. change (bpow radix2 322) with (bpow radix2 (101 + 221)). rewrite bpow_plus. apply Rmult_le_compat; [apply Rabs_pos|apply WA0|apply (HD i Hi)|apply WAB; exact Hi]. - change (bpow radix2 342) with (bpow radix2 (20 + 322)). rewrite bpow_plus, bpow20. apply Rmult_le_compat_r; [apply bpow_ge_0|exact Nb]. }
  assert (big1 : 1 <= bpow radix2 342) by (change 1 with (bpow radix2 0); apply bpow_le; lia). assert (big4 : 16 * bpow radix2 342 <= bpow radix2 400) by (change 16 with (bpow radix2 4); rewrite <- bpow_plus; apply bpow_le; lia). assert (big9 : bpow radix2 400 <= bpow radix2 990) by (apply bpow_le; lia). assert (big10 : bpow radix2 990 <= bpow radix2 1000) by (apply bpow_le; lia). assert (big5 : bpow radix2 400 <= bpow radix2 500) by (apply bpow_le; lia).
  assert (kQ : (4 * N + 4) * u * QA <= / 100000000 * QA) by (apply Rmult_le_compat_r; lra). assert (kQ0 : 0 <= (4 * N + 4) * u * QA) by (apply Rmult_le_pos; lra).
  assert (SA1 : rsum n A <= / 1000000 * QA + N * bpow radix2 (-940)) by (rewrite SA; replace (2 * N * eta * SD) with (2 * (N * eta * SD)) by ring; lra).
  destruct (dot_about d w (fun i => D i * W i) A) as [Fq Eq].
  { intros i Hi. split; [apply (HD i Hi)|]. split; [apply (Hw i Hi)|]. apply HA. exact Hi. }
  { lra. }
  change (fdot (tab n d) (tab n w)) with q in Fq, Eq. fold Q eta N in Eq.
  assert (E1 : Rabs (B2R q - Q) <= (9 * N + 4) * u * QA + N * bpow radix2 (-940)).
  { apply Rle_trans with (1 := Eq). rewrite SA. set (S1 := rsum n (fun k => Rabs (D k * W k))) in *. assert (X1 : 4 * N * u * (S1 + ((4 * N + 4) * u * QA + 2 * N * eta * SD)) <= 4 * N * u * (1001 / 1000 * QA + 2 * (N * eta * SD))). { apply Rmult_le_compat_l; [lra|]. replace (2 * N * eta * SD) with (2 * (N * eta * SD)) by ring. lra. }
    assert (X2 : N * u * (N * eta * SD) <= 1 * (N * eta * SD)) by (apply Rmult_le_compat_r; lra). assert (X3 : 0 <= N * u * QA) by (apply Rmult_le_pos; lra). assert (X4 : N * eta <= N * bpow radix2 (-969)) by (apply Rmult_le_compat_l; lra). assert (X5 : 0 <= N * bpow radix2 (-969)) by (apply Rmult_le_pos; lra).
    replace (4 * N * u * (1001 / 1000 * QA + 2 * (N * eta * SD))) with (4004 / 1000 * (N * u * QA) + 8 * (N * u * (N * eta * SD))) in X1 by field. replace ((9 * N + 4) * u * QA) with (9 * (N * u * QA) + 4 * (u * QA)) by ring. replace ((4 * N + 4) * u * QA) with (4 * (N * u * QA) + 4 * (u * QA)) in * by ring. replace (2 * N * eta * SD) with (2 * (N * eta * SD)) in * by ring. lra. }
  (* the trace *)
  set (T := fun i => rsum n (fun j => Pr i j * Cr j i)). set (TA := fun i => rsum n (fun j => Rabs (Pr i j) * Rabs (Cr j i))). set (v := fun i => fdot (tab n (P i)) (tab n (fun j => C j i))). set (TS := rsum n TA).
  assert (TA0 : forall i, 0 <= TA i) by (intros i; apply rsum_nonneg; intros; apply Rmult_le_pos; apply Rabs_pos). assert (TS0 : 0 <= TS) by (apply rsum_nonneg; intros; apply TA0).
  assert (TT : forall i, Rabs (T i) <= TA i) by (intros i; unfold T, TA; eapply Rle_trans; [apply rsum_Rabs|]; apply rsum_le; intros; rewrite Rabs_mult; lra).
  assert (TAB : forall i, (i < n)%nat -> TA i <= bpow radix2 221).
  { intros i Hi. apply Rle_trans with (N * bpow radix2 201); [|rewrite <- P221; apply Rmult_le_compat_r; lra]. unfold TA, N. rewrite <- rsum_const. apply rsum_le. intros j Hj. rewrite <- P21. apply Rmult_le_compat; try apply Rabs_pos; [apply Rle_trans with (bpow radix2 100); [apply (HP i j Hi Hj)|apply bpow_le; lia]|apply (HP j i Hj Hi)]. }
  assert (Tb : TS <= bpow radix2 342). { unfold TS. apply Rle_trans with (N * bpow radix2 322). - unfold N. rewrite <- rsum_const. apply rsum_le. intros i Hi. apply Rle_trans with (1 := TAB i Hi). apply bpow_le; lia. - change (bpow radix2 342) with (bpow radix2 (20 + 322)). rewrite bpow_plus, bpow20. apply Rmult_le_compat_r; [apply bpow_ge_0|exact Nb]. }
  set (B := fun i => (4 * N + 2) * u * TA i + N * eta). assert (SB : rsum n B = (4 * N + 2) * u * TS + N * (N * eta)) by (unfold B; rewrite rsum_plus, rsum_scal_l, rsum_const; reflexivity).
  assert (Hv : forall i, (i < n)%nat -> is_finite (v i) = true /\ Rabs (B2R (v i) - T i) <= B i).
  { intros i Hi. assert (EA : rsum n (fun j => Rabs (Pr i j * Cr j i)) = TA i) by (apply rsum_ext; intros; apply Rabs_mult). destruct (dot_rel (P i) (fun j => C j i) (fun j => Pr i j * Cr j i)) as [F E].
    - intros j Hj. split; [apply (HP i j Hi Hj)|]. split; [apply (HP j i Hj Hi)|]. fold (Pr i j) (Cr j i). replace (Pr i j * Cr j i - Pr i j * Cr j i) with 0 by ring. rewrite Rabs_R0. apply Rmult_le_pos; [lra|apply Rabs_pos].
    - rewrite EA. apply Rle_trans with (1 := TAB i Hi). apply bpow_le; lia.
    - rewrite EA in E. split; [exact F|exact E]. }
  assert (NN : N * (N * eta) <= N * (1048576 * bpow radix2 (-969))) by (apply Rmult_le_compat_l; [exact Np|]; apply Rmult_le_compat; lra). assert (NN0 : 0 <= N * (N * eta)) by (apply Rmult_le_pos; lra).
  assert (kT : (4 * N + 2) * u * TS <= / 100000000 * TS) by (apply Rmult_le_compat_r; lra). assert (kT0 : 0 <= (4 * N + 2) * u * TS) by (apply Rmult_le_pos; lra). assert (TSS : rsum n (fun i => Rabs (T i)) <= TS) by (apply rsum_le; intros; apply TT).
  destruct (sum_about v T B Hv) as [Ft Et]; [rewrite SB; lra|]. change (fsum (tab n v)) with t in Ft, Et. fold N in Et.
  assert (E2 : Rabs (B2R t - rsum n T) <= (7 * N + 2) * u * TS + N * bpow radix2 (-940)).
  { apply Rle_trans with (1 := Et). rewrite SB. assert (X1 : 2 * N * u * (rsum n (fun i => Rabs (T i)) + ((4 * N + 2) * u * TS + N * (N * eta))) <= 2 * N * u * (1001 / 1000 * TS + N * (N * eta))) by (apply Rmult_le_compat_l; lra).
    assert (X2 : N * u * (N * (N * eta)) <= 1 * (N * (N * eta))) by (apply Rmult_le_compat_r; lra). assert (X3 : 0 <= N * u * TS) by (apply Rmult_le_pos; lra).
    replace (2 * N * u * (1001 / 1000 * TS + N * (N * eta))) with (2002 / 1000 * (N * u * TS) + 2 * (N * u * (N * (N * eta)))) in X1 by field. replace ((7 * N + 2) * u * TS) with (7 * (N * u * TS) + 2 * (u * TS)) by ring. replace ((4 * N + 2) * u * TS) with (4 * (N * u * TS) + 2 * (u * TS)) in * by ring. lra. }
  (* the sum and the factor -0.5 *)
  set (TT' := rsum n T) in *. change (quad_form n Pr D) with Q. change (trace_prod n Pr Cr) with TT'. assert (EP : prior_size n Pr Cr D = QA + TS) by reflexivity. rewrite EP. set (S := QA + TS) in *. assert (S0 : 0 <= S) by (unfold S; lra).
  assert (AQ : Rabs Q <= QA) by (unfold Q; eapply Rle_trans; [apply rsum_Rabs|exact QS]). assert (AT : Rabs TT' <= TS) by (unfold TT'; eapply Rle_trans; [apply rsum_Rabs|exact TSS]).
  assert (nuQ : 0 <= N * u * QA <= / 1000000000 * QA) by (split; [apply Rmult_le_pos; lra|apply Rmult_le_compat_r; lra]). assert (nuT : 0 <= N * u * TS <= / 1000000000 * TS) by (split; [apply Rmult_le_pos; lra|apply Rmult_le_compat_r; lra]). assert (uQ : 0 <= u * QA <= / 1000000000 * QA) by (split; [apply Rmult_le_pos; lra|apply Rmult_le_compat_r; lra]). assert (uT : 0 <= u * TS <= / 1000000000 * TS) by (split; [apply Rmult_le_pos; lra|apply Rmult_le_compat_r; lra]).
  replace ((9 * N + 4) * u * QA) with (9 * (N * u * QA) + 4 * (u * QA)) in E1 by ring. replace ((7 * N + 2) * u * TS) with (7 * (N * u * TS) + 2 * (u * TS)) in E2 by ring.
  set (z := N * bpow radix2 (-940)) in *. set (G := B2R q + B2R t). assert (EG : Rabs (G - (Q + TT')) <= 9 * (N * u * QA) + 4 * (u * QA) + 7 * (N * u * TS) + 2 * (u * TS) + 2 * z) by (unfold G; replace (B2R q + B2R t - (Q + TT')) with ((B2R q - Q) + (B2R t - TT')) by ring; eapply Rle_trans; [apply Rabs_triang|]; lra).
  assert (BG : Rabs G <= 1001 / 1000 * S + 2 * z) by (replace G with ((G - (Q + TT')) + (Q + TT')) by ring; eapply Rle_trans; [apply Rabs_triang|]; pose proof (Rabs_triang Q TT'); unfold S; lra).
  destruct (fadd_rel q t Fq Ft) as [Fs' Es']; [fold G; unfold S in BG; lra|]. fold G in Es'. set (s := fadd q t) in *. assert (uG : u * Rabs G <= u * (1001 / 1000 * S + 2 * z)) by (apply Rmult_le_compat_l; lra). assert (uz : u * z <= / 1000 * z) by (apply Rmult_le_compat_r; lra). assert (uSe : u * S = u * QA + u * TS) by (unfold S; ring). replace (u * (1001 / 1000 * S + 2 * z)) with (1001 / 1000 * (u * S) + 2 * (u * z)) in uG by field. rewrite uSe in uG.
  assert (Bs : Rabs (B2R s) <= 1002 / 1000 * S + 3 * z) by (replace (B2R s) with ((B2R s - G) + G) by ring; eapply Rle_trans; [apply Rabs_triang|]; unfold S in *; lra).
  destruct f_mhalf_value as [Fh Eh]. destruct (fmul_rel f_mhalf s Fh Fs') as (Fr & _ & Er); [rewrite Eh, Rabs_mult, Rabs_Ropp, Rabs_pos_eq by lra; unfold S in Bs; lra|]. fold r in Fr, Er. rewrite Eh in Er. split; [exact Fr|].
  rewrite Rabs_mult, Rabs_Ropp, (Rabs_pos_eq (/ 2)) in Er by lra. assert (us : u * (/ 2 * Rabs (B2R s)) <= u * (1002 / 2000 * S + 3 / 2 * z)) by (apply Rmult_le_compat_l; lra). replace (u * (1002 / 2000 * S + 3 / 2 * z)) with (1002 / 2000 * (u * S) + 3 / 2 * (u * z)) in us by field. rewrite uSe in us.
  assert (zz : z + z <= N * bpow radix2 (-900)). { unfold z. rewrite <- Rmult_plus_distr_l. apply Rmult_le_compat_l; [exact Np|]. replace (bpow radix2 (-940) + bpow radix2 (-940)) with (2 * bpow radix2 (-940)) by ring. change 2 with (bpow radix2 1). rewrite <- bpow_plus. apply bpow_le. lia. } assert (b74 : bpow radix2 (-1074) <= bpow radix2 (-900)) by (apply bpow_le; lia).
  replace (B2R r + (Q + TT') / 2) with ((B2R r - - / 2 * B2R s) + - / 2 * ((B2R s - G) + (G - (Q + TT')))) by field. eapply Rle_trans; [apply Rabs_triang|]. rewrite (Rabs_mult (- / 2)), Rabs_Ropp, (Rabs_pos_eq (/ 2)) by lra. pose proof (Rabs_triang (B2R s - G) (G - (Q + TT'))) as Tr.
  replace ((5 * N + 4) * u * S) with (5 * (N * u * QA) + 5 * (N * u * TS) + 4 * (u * QA) + 4 * (u * TS)) by (unfold S; ring). lra.
Qed.
End Dot.
