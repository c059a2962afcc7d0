(** Proofs about the means of Gamma, Dirichlet and Wishart parameters and the second moments of MVNArray in binary64. *)
From Coq Require Import String Reals ZArith List Lra Lia Bool Permutation.
From Flocq Require Import Core BinarySingleNaN.
From Verif Require Import Res Nd RSum ModelNumpy SpecFloat SpecFloatSimplex SpecFloatAcc SpecFloatMatrix SpecFloatFam SpecFloatFam2 ModelFloat ModelFloatDict ModelFloatFamilies
  LemmasPosDef LemmasNumpy LemmasFloat LemmasFloat2 LemmasFloat3 LemmasFloat4 LemmasFloat5 LemmasFloatSimplex LemmasFloatSimplex2 LemmasFloatAcc LemmasFloatAcc2 LemmasFloatParams LemmasFloatFam LemmasFloatFam2 LemmasFloatFam4.
From Verif Require ModelFloatParams ModelFloatSimplex ModelFloatMatrix ModelFloatStack.
Import List ListNotations.
Set Bullet Behavior "Strict Subproofs".
Open Scope R_scope.

(** ** indices *)
Lemma entry_mk s (f : list nat -> dbl) k : (k < nprod s)%nat -> entry (mk_nd s f) k = f (nth k (product s) []).
Proof. intros H. unfold entry, mk_nd. cbn [data]. rewrite (nth_indep _ _ (f [])) by (rewrite map_length, product_length; exact H). apply map_nth. Qed.
Lemma product_nth_cons n s i j : (i < n)%nat -> (j < nprod s)%nat -> nth (i * nprod s + j) (product (n :: s)) [] = i :: nth j (product s) [].
Proof.
  intros Hi Hj. cbn [product]. rewrite nth_flat_map_blocks; [|intros k; rewrite map_length; apply product_length|exact Hi|exact Hj].
  rewrite (nth_indep _ [] (cons i [])) by (rewrite map_length, product_length; exact Hj). apply map_nth.
Qed.
Lemma ravel_nth s j : (j < nprod s)%nat -> ravel (nth j (product s) []) s = j.
Proof.
  intros H. pose proof (product_ravel s) as P. apply (f_equal (fun l => nth j l 0%nat)) in P. rewrite seq_nth in P by exact H. cbn [plus] in P. rewrite <- P at 2.
  symmetry. rewrite (nth_indep _ 0%nat (ravel [] s)) by (rewrite map_length, product_length; exact H). apply (map_nth (fun obs => ravel obs s)).
Qed.
Lemma block_lt n m i j : (i < n)%nat -> (j < m)%nat -> (i * m + j < n * m)%nat. Proof. intros. nia. Qed.
Lemma nprod_cons n s : nprod (n :: s) = (n * nprod s)%nat. Proof. reflexivity. Qed.

(** ** one entry *)
Lemma quotient_entry a b : fair_info a -> fair_info b -> let A := B2R a in let B := B2R b in is_finite (fdiv a b) = true /\ B2R (fdiv a b) = rnd64 (A / B) /\ 0 < B2R (fdiv a b) /\ within 1 (fdiv a b) (A / B).
Proof.
  intros [Fa [A0 A1]] Fb A B. pose proof (info_inverse b Fb) as [I0 I1]. destruct Fb as [Fb [B0 B1]]. fold A in A0, A1. fold B in B0, B1, I0, I1. pose proof (bpow_gt_0 radix2 (-490)) as P. pose proof (bpow_gt_0 radix2 (-501)) as P'.
  assert (Q : bpow radix2 (-1022) <= A / B <= bpow radix2 1000).
  { replace (A / B) with (A * (1 / B)) by (field; lra). split.
    - apply Rle_trans with (bpow radix2 (-490) * bpow radix2 (-501)); [rewrite <- bpow_plus; apply bpow_le; lia|]. apply Rmult_le_compat; lra.
    - apply Rle_trans with (bpow radix2 501 * bpow radix2 490); [|rewrite <- bpow_plus; apply bpow_le; lia]. apply Rmult_le_compat; lra. }
  destruct (fdiv_near a b Fa ltac:(fold B; lra) Q) as [W0 W1]. fold A B in W0. pose proof W0 as [F _]. split; [exact F|]. split; [|split; assumption].
  destruct (fdiv_cases a b Fa ltac:(fold B; lra)) as [(_ & E & _)|(_ & E)]; [exact E|]. rewrite E in F. discriminate.
Qed.

(** ** sums of positive numbers *)
Definition upto (x : dbl) : Prop := is_finite x = true /\ 0 <= B2R x <= bpow radix2 501.
Lemma lsum_upto l : List.Forall upto l -> 0 <= lsum (reals l) <= INR (length l) * bpow radix2 501.
Proof. induction 1 as [|x l [_ U] _ IH]; [cbn; lra|]. cbn [length reals map]. rewrite S_INR. unfold lsum in *. cbn [fold_right]. fold (reals l). lra. Qed.
Lemma sum_accuracy_upto l s : sum_of l s -> List.Forall upto l -> INR (length l) <= bpow radix2 20 ->
  is_finite s = true /\ Rabs (B2R s - lsum (reals l)) <= ((1 + u) ^ length l - 1) * lsum (reals l).
Proof.
  induction 1 as [|x|l l1 l2 a b P S1 IH1 S2 IH2]; intros F B.
  - split; [reflexivity|]. cbn. rewrite Rminus_0_r, Rabs_R0. lra.
  - inversion F as [|? ? [U U'] _]; subst. split; auto. cbn. replace (B2R x - (B2R x + 0)) with 0 by ring. rewrite Rabs_R0. pose proof u_pos. nra.
  - assert (F' : List.Forall upto (l1 ++ l2)) by (eapply Permutation_Forall; eauto).
    apply Forall_app in F'. destruct F' as [F1 F2].
    assert (EL : length l = (length l1 + length l2)%nat) by (rewrite (Permutation_length P), app_length; reflexivity).
    assert (ES : lsum (reals l) = lsum (reals l1) + lsum (reals l2)).
    { unfold reals. rewrite (lsum_perm _ _ (Permutation_map (fun x : dbl => B2R x) P)), map_app, lsum_app. reflexivity. }
    rewrite EL, plus_INR in B. pose proof (pos_INR (length l1)) as N1. pose proof (pos_INR (length l2)) as N2.
    destruct (IH1 F1 ltac:(lra)) as [G1 A1]. destruct (IH2 F2 ltac:(lra)) as [G2 A2].
    pose proof (lsum_upto l1 F1) as T1. pose proof (lsum_upto l2 F2) as T2.
    pose proof (pow_u_le (length l1) ltac:(lra)) as E1. pose proof (pow_u_le (length l2) ltac:(lra)) as E2.
    change (Bplus mode_NE a b) with (fadd a b). rewrite ES, EL.
    destruct l1 as [|x1 l1'].
    { cbn [length reals map lsum fold_right] in *. change (0 + length l2)%nat with (length l2).
      cbn in A1. rewrite Rminus_0_r in A1.
      assert (Za : B2R a = 0). { assert (H0 : Rabs (B2R a) <= 0) by lra. apply Rabs_le_inv in H0. lra. }
      assert (Eb : B2R (fadd a b) = B2R b /\ is_finite (fadd a b) = true).
      { destruct (fadd_cases a b G1 G2) as [(_ & E & G & _)|(A & _)].
        - rewrite E, Za, Rplus_0_l, rnd64_id. auto.
        - exfalso. rewrite Za, Rplus_0_l, rnd64_id in A. pose proof (abs_B2R_lt b). lra. }
      destruct Eb as [Eb G]. split; auto. rewrite Eb. change (lsum []) with 0. rewrite Rplus_0_l. exact A2. }
    destruct l2 as [|x2 l2'].
    { set (k := length (x1 :: l1')) in *. cbn [length reals map lsum fold_right] in *. rewrite Nat.add_0_r.
      cbn in A2. rewrite Rminus_0_r in A2.
      assert (Zb : B2R b = 0). { assert (H0 : Rabs (B2R b) <= 0) by lra. apply Rabs_le_inv in H0. lra. }
      assert (Ea : B2R (fadd a b) = B2R a /\ is_finite (fadd a b) = true).
      { destruct (fadd_cases a b G1 G2) as [(_ & E & G & _)|(A & _)].
        - rewrite E, Zb, Rplus_0_r, rnd64_id. auto.
        - exfalso. rewrite Zb, Rplus_0_r, rnd64_id in A. pose proof (abs_B2R_lt a). lra. }
      destruct Ea as [Ea G]. split; auto. rewrite Ea. change (lsum []) with 0. rewrite Rplus_0_r. exact A1. }
    set (t1 := lsum (reals (x1 :: l1'))) in *. set (t2 := lsum (reals (x2 :: l2'))) in *.
    set (k1 := length (x1 :: l1')) in *. set (k2 := length (x2 :: l2')) in *.
    assert (K1 : (1 <= k1)%nat) by (unfold k1; cbn; lia). assert (K2 : (1 <= k2)%nat) by (unfold k2; cbn; lia).
    pose proof (pow_u_pos k1) as Q1. pose proof (pow_u_pos k2) as Q2. pose proof u_pos as PU.
    change (0 <= t1 <= INR k1 * bpow radix2 501) in T1. change (0 <= t2 <= INR k2 * bpow radix2 501) in T2.
    assert (BB0 : t1 + t2 <= bpow radix2 20 * bpow radix2 501) by (pose proof (bpow_gt_0 radix2 501); apply Rle_trans with ((INR k1 + INR k2) * bpow radix2 501); [lra|apply Rmult_le_compat_r; lra]).
    rewrite <- bpow_plus in BB0. rewrite bpow20 in B.
    assert (U1 : (1 + u) ^ k1 - 1 <= 1) by (rewrite u_val in *; lra).
    assert (U2 : (1 + u) ^ k2 - 1 <= 1) by (rewrite u_val in *; lra).
    assert (M1 : Rabs (B2R a) <= 2 * t1).
    { replace (B2R a) with ((B2R a - t1) + t1) by ring. apply Rle_trans with (1 := Rabs_triang _ _). rewrite (Rabs_pos_eq t1) by lra. nra. }
    assert (M2 : Rabs (B2R b) <= 2 * t2).
    { replace (B2R b) with ((B2R b - t2) + t2) by ring. apply Rle_trans with (1 := Rabs_triang _ _). rewrite (Rabs_pos_eq t2) by lra. nra. }
    assert (BB : Rabs (B2R a + B2R b) <= bpow radix2 1000).
    { apply Rle_trans with (1 := Rabs_triang _ _). apply Rle_trans with (bpow radix2 1 * bpow radix2 (20 + 501)); [|rewrite <- bpow_plus; apply bpow_le; lia].
      change (bpow radix2 1) with 2. lra. }
    destruct (fadd_rel a b G1 G2 BB) as [G R]. split; auto.
    set (K := (k1 + k2)%nat). assert (HK : exists j, K = S j /\ (k1 <= j)%nat /\ (k2 <= j)%nat) by (exists (k1 + k2 - 1)%nat; unfold K; lia).
    destruct HK as (j & -> & J1 & J2). pose proof (pow_u_mono k1 j J1) as V1. pose proof (pow_u_mono k2 j J2) as V2.
    set (w := (1 + u) ^ j) in *. cbn [pow]. fold w. clear E1 E2 IH1 IH2 BB BB0.
    assert (W1 : Rabs (B2R a - t1) <= (w - 1) * t1) by (apply Rle_trans with (1 := A1); apply Rmult_le_compat_r; lra).
    assert (W2 : Rabs (B2R b - t2) <= (w - 1) * t2) by (apply Rle_trans with (1 := A2); apply Rmult_le_compat_r; lra).
    assert (W : Rabs (B2R a + B2R b - (t1 + t2)) <= (w - 1) * (t1 + t2)).
    { replace (B2R a + B2R b - (t1 + t2)) with ((B2R a - t1) + (B2R b - t2)) by ring. apply Rle_trans with (1 := Rabs_triang _ _). lra. }
    assert (W3 : Rabs (B2R a + B2R b) <= w * (t1 + t2)).
    { replace (B2R a + B2R b) with ((B2R a + B2R b - (t1 + t2)) + (t1 + t2)) by ring. apply Rle_trans with (1 := Rabs_triang _ _).
      rewrite (Rabs_pos_eq (t1 + t2)) by lra. lra. }
    replace (B2R (fadd a b) - (t1 + t2)) with ((B2R (fadd a b) - (B2R a + B2R b)) + (B2R a + B2R b - (t1 + t2))) by ring.
    apply Rle_trans with (1 := Rabs_triang _ _).
    assert (W4 : u * Rabs (B2R a + B2R b) <= u * (w * (t1 + t2))) by (apply Rmult_le_compat_l; lra). lra.
Qed.

(** ** the entries of a Dirichlet mean *)
Section Dirichlet.
Context (fsum : list dbl -> dbl) (Hs : sums fsum).
Lemma share_entry l a : List.Forall fair_info l -> INR (length l) <= bpow radix2 20 -> In a l -> let T := lsum (reals l) in let e := fdiv a (fsum l) in
  0 < T /\ within (3 * INR (length l) + 1) e (B2R a / T) /\ 0 < B2R e <= 1.
Proof using Hs.
  intros F N I T e. assert (Up : List.Forall upto l) by (eapply Forall_impl; [|exact F]; intros x [Fx [X0 X1]]; pose proof (bpow_gt_0 radix2 (-490)); split; [exact Fx|lra]).
  destruct (sum_accuracy_upto l (fsum l) (Hs l) Up N) as [Fs A]. fold T in A. pose proof (lsum_upto l Up) as [T0 T1]. fold T in T0, T1.
  assert (Nn : List.Forall nonneg l) by (eapply Forall_impl; [|exact F]; intros x [Fx [X0 X1]]; pose proof (bpow_gt_0 radix2 (-490)); apply nonneg_finite; [exact Fx|lra]).
  destruct (sum_of_nonneg l (fsum l) (Hs l) Nn) as [_ M]. specialize (M a I). pose proof (proj1 (Forall_forall _ _) F a I) as Fa. destruct Fa as [Fa [A0 A1]]. apply dle_finite in M; [|exact Fa|exact Fs].
  pose proof (bpow_gt_0 radix2 (-490)) as P. set (S := B2R (fsum l)) in *. set (x := B2R a) in *. pose proof (pow_u_le _ N) as E. pose proof (pow_u_pos (length l)) as E0. set (n := INR (length l)) in *.
  assert (N1 : 1 <= n) by (unfold n; destruct l as [|y l]; [destruct I|]; cbn [length]; rewrite S_INR; pose proof (pos_INR (length l)); lra).
  assert (Hn : 0 <= n * u <= / 1000) by (rewrite bpow20 in N; rewrite u_val; split; lra).
  assert (A' : Rabs (S - T) <= 2 * (n * u) * T) by (eapply Rle_trans; [exact A|]; apply Rmult_le_compat_r; lra). apply Rabs_le_inv in A'.
  assert (Tp : 0 < T). { assert (2 * (n * u) * T <= 2 * / 1000 * T) by (apply Rmult_le_compat_r; lra). lra. }
  assert (ST : (1 - 2 * (n * u)) * T <= S <= (1 + 2 * (n * u)) * T) by lra.
  assert (q1 : x / S <= 1) by (apply Rmult_le_reg_r with S; [lra|]; replace (x / S * S) with x by (field; lra); lra).
  assert (Sb : S <= bpow radix2 522).
  { assert (n * bpow radix2 501 <= bpow radix2 20 * bpow radix2 501) by (apply Rmult_le_compat_r; [apply bpow_ge_0|exact N]). rewrite <- bpow_plus in H. replace (bpow radix2 522) with (2 * bpow radix2 521) by (change 2 with (bpow radix2 1) at 1; rewrite <- bpow_plus; reflexivity).
    change (20 + 501)%Z with 521%Z in H. change (T <= n * bpow radix2 501) in T1. assert (2 * (n * u) * T <= 2 * / 1000 * T) by (apply Rmult_le_compat_r; lra). lra. }
  assert (q0 : bpow radix2 (-1022) <= x / S).
  { apply Rmult_le_reg_r with S; [lra|]. replace (x / S * S) with x by (field; lra). apply Rle_trans with (bpow radix2 (-1022) * bpow radix2 522); [apply Rmult_le_compat_l; [apply bpow_ge_0|exact Sb]|]. rewrite <- bpow_plus. apply Rle_trans with (bpow radix2 (-490)); [apply bpow_le; lia|exact A0]. }
  destruct (fdiv_near a (fsum l) Fa ltac:(fold S; lra)) as [[Fe W] Pe]; [fold x S; split; [exact q0|]; apply Rle_trans with (bpow radix2 0); [exact q1|apply bpow_le; lia]|]. fold x S e in W, Fe, Pe. rewrite units_u, Rmult_1_l in W.
  split; [exact Tp|]. split; [split; [exact Fe|]|split; [exact Pe|]].
  - rewrite units_u. set (r := x / T). assert (R0 : 0 < r) by (apply Rdiv_lt_0_compat; lra).
    assert (D : x / S - r = r * ((T - S) / S)) by (unfold r; field; lra).
    assert (Dm : Rabs ((T - S) / S) <= 201 / 100 * (n * u)).
    { unfold Rdiv. rewrite Rabs_mult, (Rabs_pos_eq (/ S)) by (apply Rlt_le, Rinv_0_lt_compat; lra). apply Rmult_le_reg_r with S; [lra|]. replace (Rabs (T - S) * / S * S) with (Rabs (T - S)) by (field; lra).
      apply Rle_trans with (2 * (n * u) * T); [apply Rabs_le; lra|]. apply Rle_trans with (201 / 100 * (n * u) * ((1 - 2 * (n * u)) * T)); [|apply Rmult_le_compat_l; lra].
      assert (K : 2 <= 201 / 100 * (1 - 2 * (n * u))) by lra. assert (0 <= (n * u) * T) by (apply Rmult_le_pos; lra). replace (201 / 100 * (n * u) * ((1 - 2 * (n * u)) * T)) with (201 / 100 * (1 - 2 * (n * u)) * (n * u * T)) by ring. replace (2 * (n * u) * T) with (2 * (n * u * T)) by ring. apply Rmult_le_compat_r; assumption. }
    assert (D1 : Rabs (x / S - r) <= 201 / 100 * (n * u) * r) by (rewrite D, Rabs_mult, (Rabs_pos_eq r) by lra; rewrite (Rmult_comm r); apply Rmult_le_compat_r; lra).
    small_u. assert (u1 : u <= n * u) by (replace u with (1 * u) at 1 by ring; apply Rmult_le_compat_r; lra). assert (D2 : x / S <= (1 + / 100) * r) by (apply Rabs_le_inv in D1; assert (201 / 100 * (n * u) * r <= / 100 * r) by (apply Rmult_le_compat_r; lra); lra).
    replace (B2R e - r) with ((B2R e - x / S) + (x / S - r)) by ring. eapply Rle_trans; [apply Rabs_triang|].
    assert (W1 : u * (x / S) <= u * ((1 + / 100) * r)) by (apply Rmult_le_compat_l; lra). assert (u2 : u * r <= n * u * r) by (apply Rmult_le_compat_r; lra). change (Rabs (B2R e - x / S) + Rabs (x / S - r) <= (3 * n + 1) * u * r). assert (0 <= u * r) by (apply Rmult_le_pos; lra). lra.
  - destruct (fdiv_cases a (fsum l) Fa ltac:(fold S; lra)) as [(_ & Ee & _)|(_ & Ee)]; [|unfold e in Fe; rewrite Ee in Fe; discriminate]. fold e x S in Ee. rewrite Ee. apply Rle_trans with (rnd64 (bpow radix2 0)); [apply rnd64_le; exact q1|rewrite rnd64_bpow by lia; apply Rle_refl].
Qed.
Lemma dirichlet_value d n s a : f_member d "alpha" = Ok a -> proper (n :: s) a -> exists e, fdp_e fsum d = Ok e /\ proper (n :: s) e /\
  forall i j, (i < n)%nat -> (j < nprod s)%nat -> entry e (i * nprod s + j) = fdiv (entry a (i * nprod s + j)) (fsum (map (fun r => entry a (r * nprod s + j)) (seq 0 n))).
Proof using.
  destruct a as [sa da]. intros Ea [Sa La]. cbn [shape data] in Sa, La. subst sa. unfold fdp_e. rewrite Ea. cbn [rbind]. pose proof (mk_nd_eta fz (Nd (n :: s) da) La) as Ma. cbn [shape] in Ma. set (a := Nd (n :: s) da) in *.
  assert (K : np_sum_keep fz fsum 0 a = Ok (mk_nd (1%nat :: s) (fun idx => fsum (map (fun i => nd_at fz a (i :: tl idx)) (seq 0 n))))) by (etransitivity; [exact (f_equal (np_sum_keep fz fsum 0) Ma)|apply np_sum_keep0]).
  rewrite K. cbn [rbind]. set (g := fun idx : list nat => fsum (map (fun i => nd_at fz a (i :: tl idx)) (seq 0 n))). eexists. split; [unfold f_bin; etransitivity; [exact (f_equal (fun t => np_bin fz fz fdiv t (mk_nd (1%nat :: s) g)) Ma)|apply np_bin_lead]|]. unfold g. clear g. split.
  - split; [reflexivity|]. unfold mk_nd. cbn [data]. rewrite map_length. apply product_length.
  - intros i j Hi Hj. rewrite entry_mk by (rewrite nprod_cons; apply block_lt; assumption). rewrite product_nth_cons by assumption. cbn [tl]. assert (AE : forall r, nd_at fz a (r :: nth j (product s) []) = entry a (r * nprod s + j)).
    { intros r. unfold nd_at, entry, a. cbn [ravel shape data]. rewrite (ravel_nth s j Hj). reflexivity. }
    rewrite AE. f_equal. f_equal. apply map_ext. exact AE.
Qed.
End Dirichlet.
Lemma rsum_lsum (l : list dbl) : lsum (reals l) = rsum (length l) (fun k => B2R (nth k l dzero)).
Proof.
  induction l as [|x l IH] using rev_ind; [reflexivity|]. unfold reals in *. rewrite map_app, lsum_app, IH, app_length. cbn [length map]. replace (length l + 1)%nat with (S (length l)) by lia. cbn [rsum]. f_equal.
  - apply rsum_ext. intros k Hk. rewrite app_nth1 by exact Hk. reflexivity.
  - rewrite app_nth2, Nat.sub_diag by lia. cbn. ring.
Qed.
Lemma column_sum a n m j : lsum (reals (map (fun r => entry a (r * m + j)) (seq 0 n))) = rsum n (fun r => B2R (entry a (r * m + j))).
Proof.
  rewrite rsum_lsum, map_length, seq_length. apply rsum_ext. intros k Hk. rewrite (nth_indep _ dzero (entry a (0 * m + j))) by (rewrite map_length, seq_length; exact Hk). rewrite (map_nth (fun r => entry a (r * m + j)) (seq 0 n) 0%nat k), seq_nth by exact Hk. reflexivity.
Qed.
Lemma dirichlet_mean fsum : sums fsum -> forall d n s a, f_member d "alpha" = Ok a -> proper (n :: s) a -> INR n <= bpow radix2 20 -> (forall k, (k < nprod (n :: s))%nat -> fair_info (entry a k)) ->
  exists e, fdp_e fsum d = Ok e /\ proper (n :: s) e /\
    (forall i j, (i < n)%nat -> (j < nprod s)%nat -> let T := rsum n (fun r => B2R (entry a (r * nprod s + j))) in
       within (3 * INR n + 1) (entry e (i * nprod s + j)) (B2R (entry a (i * nprod s + j)) / T) /\ 0 < B2R (entry e (i * nprod s + j)) <= 1) /\
    (forall j, (0 < n)%nat -> (j < nprod s)%nat -> Rabs (rsum n (fun i => B2R (entry e (i * nprod s + j))) - 1) <= units (3 * INR n + 1)).
Proof.
  intros Hs d n s a Ea Pa Hn Fr. destruct (dirichlet_value fsum d n s a Ea Pa) as (e & Ee & Pe & K). exists e. split; [exact Ee|]. split; [exact Pe|].
  assert (B : forall i j, (i < n)%nat -> (j < nprod s)%nat -> let T := rsum n (fun r => B2R (entry a (r * nprod s + j))) in 0 < T /\
    within (3 * INR n + 1) (entry e (i * nprod s + j)) (B2R (entry a (i * nprod s + j)) / T) /\ 0 < B2R (entry e (i * nprod s + j)) <= 1).
  { intros i j Hi Hj. pose proof (share_entry fsum Hs (map (fun r => entry a (r * nprod s + j)) (seq 0 n)) (entry a (i * nprod s + j))) as H. rewrite map_length, seq_length, column_sum in H. cbv zeta in *. rewrite (K i j Hi Hj). apply H.
    - apply Forall_forall. intros x Hx. apply in_map_iff in Hx. destruct Hx as (r & <- & Hr). apply in_seq in Hr. apply Fr. rewrite nprod_cons. apply block_lt; [lia|exact Hj].
    - exact Hn.
    - apply in_map_iff. exists i. split; [reflexivity|]. apply in_seq. lia. }
  split; [intros i j Hi Hj; exact (proj2 (B i j Hi Hj))|]. intros j H0 Hj. pose proof (proj1 (B 0%nat j H0 Hj)) as Tp. set (T := rsum n (fun r => B2R (entry a (r * nprod s + j)))) in *.
  assert (One : rsum n (fun i => B2R (entry a (i * nprod s + j)) / T) = 1).
  { rewrite (rsum_ext n _ (fun i => / T * B2R (entry a (i * nprod s + j)))) by (intros; unfold Rdiv; ring). rewrite rsum_scal_l. fold T. field. lra. }
  rewrite <- One at 1. rewrite <- rsum_minus. eapply Rle_trans; [apply rsum_Rabs|]. apply Rle_trans with (rsum n (fun i => units (3 * INR n + 1) * (B2R (entry a (i * nprod s + j)) / T))).
  - apply rsum_le. intros i Hi. destruct (B i j Hi Hj) as (_ & [_ W] & _). exact W.
  - rewrite rsum_scal_l, One. lra.
Qed.

(** ** Gamma *)
Lemma gamma_mean d s a b : f_member d "shape" = Ok a -> f_member d "rate" = Ok b -> proper s a -> proper s b -> (forall k, (k < nprod s)%nat -> fair_info (entry a k) /\ fair_info (entry b k)) ->
  exists e, fgp_e d = Ok e /\ proper s e /\ forall k, (k < nprod s)%nat -> let A := B2R (entry a k) in let B := B2R (entry b k) in
    is_finite (entry e k) = true /\ B2R (entry e k) = rnd64 (A / B) /\ 0 < B2R (entry e k) /\ within 1 (entry e k) (A / B).
Proof.
  intros Ea Eb Pa Pb Fr. destruct (bin_same fdiv s a b Pa Pb) as (e & Ee & Pe & K). exists e. split; [unfold fgp_e; rewrite Ea, Eb; exact Ee|]. split; [exact Pe|]. intros k Hk A B. rewrite (K k Hk). destruct (Fr k Hk) as [Fa Fb]. exact (quotient_entry _ _ Fa Fb).
Qed.
Section Free.
Context (fexp flog : dbl -> dbl) (fsum : list dbl -> dbl) (fdot : nat -> nat -> list dbl -> list dbl -> dbl) (He : exp_good fexp).
Lemma gamma_free nm la lb d x : bounded500 la -> 0 <= B2R la -> bounded500 lb -> 0 <= B2R lb -> fgamma_init nm la lb = Ok d -> length x = 2%nat -> List.Forall calm x ->
  exists d' a b, fd_set_free fexp flog fsum fdot d x = (d', Ok tt) /\ f_member d' "shape" = Ok a /\ f_member d' "rate" = Ok b /\ proper [1%nat] a /\ proper [1%nat] b /\
    fair_info (entry a 0) /\ dle la (entry a 0) /\ value_close la f_inf (nth 0 x dzero) (entry a 0) /\ fair_info (entry b 0) /\ dle lb (entry b 0) /\ value_close lb f_inf (nth 1 x dzero) (entry b 0).
Proof using He.
  intros Ba Pa Bb Pb E L C. assert (Ua : usable la) by (left; apply Ba). assert (Ub : usable lb) by (left; apply Bb). unfold fgamma_init in E. rewrite (scalar_new _ Ua), (scalar_new lb Ub) in E. cbn [rbind] in E. injection E as <-. destruct x as [|y [|z [|c x]]]; try discriminate. destruct (usable_order la Ua) as [Oa _]. destruct (usable_order lb Ub) as [Ob _].
  inversion C as [|? ? Cy C']; subst. inversion C' as [|? ? Cz _]; subst. cbn. unfold ModelFloatParams.fscalar_set_free, ModelFloatParams.nd_f_constrain. cbn. rewrite Oa. cbn. rewrite Ob. cbn.
  do 3 eexists. split; [reflexivity|]. split; [reflexivity|]. split; [reflexivity|]. split; [split; reflexivity|]. split; [split; reflexivity|].
  destruct (calm_info fexp He la y Ba Pa Cy) as (A1 & A2 & A3). destruct (calm_info fexp He lb z Bb Pb Cz) as (B1 & B2 & B3). unfold entry. cbn [nth data nd_map nd_vec map]. split; [exact A1|]. split; [exact A2|]. split; [exact A3|]. split; [exact B1|]. split; [exact B2|exact B3].
Qed.
(** ** Dirichlet *)
Lemma dirichlet_free nm s lb val d (x : list dbl) : bounded500 lb -> 0 <= B2R lb -> fdirichlet_init nm s lb val = Ok d -> length x = nprod s -> List.Forall calm x ->
  exists d' a, fd_set_free fexp flog fsum fdot d x = (d', Ok tt) /\ f_member d' "alpha" = Ok a /\ proper s a /\ forall k, (k < nprod s)%nat -> fair_info (entry a k) /\ dle lb (entry a k) /\ value_close lb f_inf (nth k x dzero) (entry a k).
Proof using He.
  intros B P E L C. unfold fdirichlet_init, rassert in E. destruct (fle fz lb); [|discriminate E]. destruct (ModelFloatParams.farray_init s lb f_inf val) as [p|] eqn:Ep; [|discriminate E]. cbn [rbind] in E. injection E as <-.
  assert (Sp : ModelFloatParams.fa_shape p = s) by (exact (proj1 (farray_init_fields _ _ _ _ _ Ep))).
  cbn [fd_set_free f_dict_of fd_free_size fl_free_size]. unfold ModelFloatParams.farray_size. rewrite Sp. cbn [plus]. replace (Nat.eqb (length x) (nprod s)) with true by (symmetry; apply Nat.eqb_eq; exact L). cbn [negb].
  assert (A : fl_set_free fexp flog fsum fdot (FArray p) (@slice dbl x 0 (nprod s)) = Ok (FArray (ModelFloatParams.mkFA s lb f_inf (Nd s (map (fun v => f_constrain_entry fexp v lb f_inf) x))))).
  { rewrite slice_first, firstn_all2 by lia. cbn [fl_set_free]. etransitivity; [exact (f_equal (lift_res FArray) (array_set_free_ok fexp lb f_inf s val p (nd_vec x) Ep ltac:(unfold nd_size; cbn [nd_vec shape]; rewrite nprod_1; exact L)))|reflexivity]. }
  rewrite A. cbn [fst snd]. do 2 eexists. split; [reflexivity|]. split; [reflexivity|]. cbn [fl_get]. split; [split; [reflexivity|cbn; rewrite map_length; exact L]|].
  intros k Hk. unfold entry. cbn [data ModelFloatParams.farray_get ModelFloatParams.fa_val]. assert (Ek : nth k (map (fun v => f_constrain_entry fexp v lb f_inf) x) dzero = f_constrain_entry fexp (nth k x dzero) lb f_inf) by (apply (nth_map_in (fun v => f_constrain_entry fexp v lb f_inf) x k dzero); exact (eq_ind_r (fun t => (k < t)%nat) Hk L)).
  assert (Q : let r := nth k (map (fun v => f_constrain_entry fexp v lb f_inf) x) dzero in fair_info r /\ dle lb r /\ value_close lb f_inf (nth k x dzero) r); [|exact Q].
  rewrite Ek. apply (calm_info fexp He lb _ B P). exact (proj1 (Forall_nth calm x) C k dzero (eq_ind_r (fun t => (k < t)%nat) Hk L)).
Qed.
End Free.

(** ** MVNArray *)
Lemma np_bin_one {A B C} (da : A) (db : B) (f : A -> B -> C) s m g h : np_bin da db f (mk_nd [1%nat] g) (mk_nd (s ++ [m]) h) = Ok (mk_nd (s ++ [m]) (fun i => f (g [0%nat]) (h i))).
Proof.
  unfold np_bin. rewrite !mk_nd_shape. change (bshape [1%nat] (s ++ [m])) with (bshape ([] ++ [1%nat]) (s ++ [m])).
  rewrite (bshape_app _ _ _ _ s [m]) by (first [reflexivity|apply bshape_nil_l|apply bshape_11']).
  f_equal. apply mk_nd_ext. intros idx H. rewrite (bidx_self (s ++ [m])) by exact H. rewrite (nd_at_mk db) by exact H.
  apply in_product_snoc_inv in H as [i [k [-> [Hi Hk]]]]. rewrite bidx_skip by reflexivity. rewrite bidx_one. rewrite nd_at_mk by (apply in_product_1; exists 0%nat; split; [reflexivity|lia]). reflexivity.
Qed.
Lemma entry_2 n m (F : list nat -> dbl) i j : (i < n)%nat -> (j < m)%nat -> entry (mk_nd [n; m] F) (i * m + j) = F [i; j].
Proof.
  intros Hi Hj. assert (Hj' : (j < nprod [m])%nat) by (rewrite nprod_1; exact Hj). rewrite entry_mk by (rewrite nprod_cons, nprod_1; apply block_lt; assumption). f_equal.
  pose proof (product_nth_cons n [m] i j Hi Hj') as P. rewrite nprod_1 in P. rewrite P. f_equal.
  rewrite product_1. rewrite (nth_indep _ [] [0%nat]) by (rewrite map_length, seq_length; exact Hj). rewrite (map_nth (fun i => [i]) (seq 0 m) 0%nat j), seq_nth by exact Hj. reflexivity.
Qed.
Lemma bin_rows op n m a v : proper [n; m] a -> proper [n] v -> exists w c, np_expand_dims 1 v = Ok w /\ f_bin op a w = Ok c /\ proper [n; m] c /\
  forall i j, (i < n)%nat -> (j < m)%nat -> entry c (i * m + j) = op (entry a (i * m + j)) (entry v i).
Proof.
  destruct a as [sa da], v as [sv dv]. unfold proper at 1 2. cbn [shape data]. intros [-> La] [-> Lv]. pose proof (mk_nd_eta fz (Nd [n; m] da) La) as Ma. pose proof (mk_nd_eta fz (Nd [n] dv) Lv) as Mv. cbn [shape] in Ma, Mv.
  set (a := Nd [n; m] da) in *. set (v := Nd [n] dv) in *. set (g := fun idx => nd_at fz v (removelast idx)). exists (mk_nd [n; 1%nat] g). eexists. split; [etransitivity; [exact (f_equal (np_expand_dims 1) Mv)|exact (np_expand_last [n] (nd_at fz v))]|].
  split; [unfold f_bin; etransitivity; [exact (f_equal (fun t => np_bin fz fz op t (mk_nd [n; 1%nat] g)) Ma)|exact (np_bin_last_full fz fz op [n] m (nd_at fz a) g)]|].
  split; [split; [reflexivity|unfold mk_nd; cbn [data]; rewrite map_length; apply product_length]|]. intros i j Hi Hj.
  change (mk_nd ([n] ++ [m])) with (@mk_nd dbl [n; m]). rewrite entry_2 by assumption. unfold g. cbn [removelast app]. f_equal.
  - unfold nd_at, entry, a. cbn [shape data ravel]. rewrite nprod_1. replace (j * nprod [] + 0)%nat with j by (change (nprod []) with 1%nat; lia). reflexivity.
  - unfold nd_at, entry, v. cbn [shape data ravel]. replace (i * nprod [] + 0)%nat with i by (change (nprod []) with 1%nat; lia). reflexivity.
Qed.
Lemma mvn_array_moments fsq : squares fsq -> forall d n m a i, f_member d "mean" = Ok a -> f_member d "info" = Ok i -> proper [n; m] a -> proper [n] i ->
  (forall k, (k < n * m)%nat -> fair_mean (entry a k)) -> (forall k, (k < n)%nat -> fair_info (entry i k)) ->
  exists o, fmvn_array_e2 fsq d = Ok o /\ proper [n; m] o /\ forall r c, (r < n)%nat -> (c < m)%nat -> within 4 (entry o (r * m + c)) (B2R (entry a (r * m + c)) ^ 2 + 1 / B2R (entry i r)).
Proof.
  intros Hq d n m a i Ea Ei Pa Pi Fa Fi. destruct (bin_scalar_l fdiv [n] f_one i Pi) as (v & Ev & Pv & Kv). destruct (map_entry fsq [n; m] a Pa) as [Pq Kq]. destruct (bin_rows fadd n m (nd_map fsq a) v Pq Pv) as (w & o & Ew & Eo & Po & Ko).
  exists o. split; [unfold fmvn_array_e2, fuvn_var; rewrite Ei; cbn [rbind]; rewrite Ev, Ea; cbn [rbind]; etransitivity; [exact (f_equal (fun r => do x <- r; f_bin fadd (nd_map fsq a) x) Ew)|exact Eo]|]. split; [exact Po|]. intros r c Hr Hc. rewrite (Ko r c Hr Hc).
  assert (H : (r * m + c < nprod [n; m])%nat) by (rewrite nprod_cons, nprod_1; apply block_lt; assumption). pose proof (Kq _ H) as Q. pose proof (Kv r ltac:(rewrite nprod_1; exact Hr)) as V.
  assert (F : fadd (entry (nd_map fsq a) (r * m + c)) (entry v r) = fadd (fsq (entry a (r * m + c))) (fdiv f_one (entry i r))) by (f_equal; [exact Q|exact V]). rewrite F.
  exact (proj1 (outer_entry fsq Hq (entry a (r * m + c)) (entry i r) (Fa _ (block_lt n m r c Hr Hc)) (Fi r Hr))).
Qed.

(** ** Wishart *)
Lemma wishart_bin f v n m : proper [] f \/ proper [1%nat] f -> proper [n; m] v -> exists e, f_bin fmul f v = Ok e /\ proper [n; m] e /\ forall k, (k < nprod [n; m])%nat -> entry e k = fmul (entry f 0) (entry v k).
Proof.
  intros [Pf|Pf] Pv.
  - destruct f as [sf df]. destruct Pf as [Sf Lf]. cbn [shape data] in Sf, Lf. subst sf. destruct df as [|y [|z df]]; try discriminate Lf. exact (bin_scalar_l fmul [n; m] y v Pv).
  - destruct f as [sf df], v as [sv dv]. destruct Pf as [Sf Lf]. destruct Pv as [Sv Lv]. cbn [shape data] in *. subst sf sv. pose proof (mk_nd_eta fz (Nd [1%nat] df) Lf) as Mf. pose proof (mk_nd_eta fz (Nd [n; m] dv) Lv) as Mv. cbn [shape] in Mf, Mv.
    set (f := Nd [1%nat] df) in *. set (v := Nd [n; m] dv) in *. eexists. split; [unfold f_bin; etransitivity; [exact (f_equal2 (np_bin fz fz fmul) Mf Mv)|exact (np_bin_one fz fz fmul [n] m (nd_at fz f) (nd_at fz v))]|].
    split; [split; [reflexivity|unfold mk_nd; cbn [data]; rewrite map_length; apply product_length]|]. intros k Hk. change (mk_nd ([n] ++ [m])) with (@mk_nd dbl [n; m]). rewrite entry_mk by exact Hk. f_equal. unfold nd_at, entry, v. cbn [shape data]. rewrite ravel_nth by exact Hk. reflexivity.
Qed.
Lemma wishart_mean d n f v : f_member d "df" = Ok f -> f_member d "v" = Ok v -> proper [] f \/ proper [1%nat] f -> proper [n; n] v -> is_finite (entry f 0) = true ->
  (forall i j, (i < n)%nat -> (j < n)%nat -> is_finite (mget dzero v i j) = true /\ Rabs (B2R (entry f 0) * B2R (mget dzero v i j)) <= bpow radix2 1000) ->
  exists e, fwp_e d = Ok e /\ proper [n; n] e /\
    (forall i j, (i < n)%nat -> (j < n)%nat -> is_finite (mget dzero e i j) = true /\ B2R (mget dzero e i j) = rnd64 (B2R (entry f 0) * B2R (mget dzero v i j))) /\
    ((forall i j, (i < n)%nat -> (j < n)%nat -> B2R (mget dzero v i j) = B2R (mget dzero v j i)) -> forall i j, (i < n)%nat -> (j < n)%nat -> B2R (mget dzero e i j) = B2R (mget dzero e j i)).
Proof.
  intros Ef Ev Pf Pv Ff Fv. destruct (wishart_bin f v n n Pf Pv) as (e & Ee & Pe & K). exists e. split; [unfold fwp_e; rewrite Ef, Ev; exact Ee|]. split; [exact Pe|].
  assert (M : forall a, proper [n; n] a -> forall i j, mget dzero a i j = entry a (i * n + j)).
  { intros a [Sa _] i j. unfold mget, ncols. rewrite Sa. reflexivity. }
  assert (G : forall i j, (i < n)%nat -> (j < n)%nat -> is_finite (mget dzero e i j) = true /\ B2R (mget dzero e i j) = rnd64 (B2R (entry f 0) * B2R (mget dzero v i j))).
  { intros i j Hi Hj. assert (H : (i * n + j < nprod [n; n])%nat) by (rewrite nprod_cons, nprod_1; apply block_lt; assumption). destruct (Fv i j Hi Hj) as [F1 F2]. assert (Em : mget dzero e i j = fmul (entry f 0) (mget dzero v i j)) by (rewrite (M e Pe), (M v Pv); exact (K _ H)). rewrite Em.
    destruct (fmul_cases (entry f 0) (mget dzero v i j) Ff F1) as [(_ & E & F & _)|(C & _)]; [split; assumption|]. exfalso.
    assert (R : Rabs (rnd64 (B2R (entry f 0) * B2R (mget dzero v i j))) <= bpow radix2 1000).
    { apply Rabs_le_inv in F2. apply Rabs_le. rewrite <- (rnd64_bpow 1000) by lia. rewrite <- rnd64_opp. split; apply rnd64_le; lra. }
    pose proof (bpow_lt radix2 1000 1024 ltac:(lia)). lra. }
  split; [exact G|]. intros Sy i j Hi Hj. destruct (G i j Hi Hj) as [_ ->]. destruct (G j i Hj Hi) as [_ ->]. rewrite (Sy i j Hi Hj). reflexivity.
Qed.
