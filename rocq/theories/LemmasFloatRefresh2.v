(** Proofs about setting a positive definite matrix parameter to its own free value in binary64: the parameter. *)
From Coq Require Import Reals ZArith List Lra Lia Psatz Bool.
From Flocq Require Import Core BinarySingleNaN.
From Verif Require Import Res Nd RSum SpecFloat SpecFloatSimplex SpecFloatAcc SpecFloatMatrix SpecFloatCholesky SpecFloatRefresh ModelFloat ModelFloatMatrix SpecFloatReach LemmasMatrix
  LemmasFloat LemmasFloat2 LemmasFloat3 LemmasFloat4 LemmasFloatSimplex LemmasFloatSimplex2 LemmasFloatAcc LemmasFloatMatrix LemmasFloatMatrix2 LemmasFloatMatrix3 LemmasFloatMatrix4
  LemmasFloatCholesky LemmasFloatCholesky2 LemmasFloatCholesky4 LemmasFloatCholesky5 LemmasFloatRefresh.
Import List ListNotations.
Set Bullet Behavior "Strict Subproofs".
Open Scope R_scope.

Lemma ln_le' a b : 0 < a -> a <= b -> ln a <= ln b.
Proof. intros A [H|<-]; [left; apply ln_increasing; assumption|right; reflexivity]. Qed.

Section Refresh.
Context (fexp flog : dbl -> dbl) (He : exp_good fexp) (Hl : log_good flog) (fdot : nat -> nat -> list dbl -> list dbl -> dbl) (Hd : matmul_good fdot).
Context (fchol : nd dbl -> res (nd dbl)) (Hc : cholesky_good fchol) (Hcc : cholesky_close fchol) (n : nat) (Hn : INR n <= bpow radix2 20).
Context (lb : dbl) (Hlb : bounded500 lb) (Hlb0 : 0 <= B2R lb) (p : fposdef) (R : reachable fexp fdot n lb p).
Notation v := (mget dzero (fposdef_get p)).
Notation M := (lowered n lb (fposdef_get p)).
Context (Ht : tidy n lb v).
Notation r := (diag_root lb v).
Notation e := (eps n).
Definition Bm (i j : nat) : Rdefinitions.R := B2R (v i j) - (if Nat.eqb i j then B2R lb else 0).
Definition Am (i j : nat) : Rdefinitions.R := B2R (mget dzero M i j).

Lemma Ma i j : (i < n)%nat -> (j < n)%nat -> mget dzero M i j = fsub (v i j) (if Nat.eqb i j then lb else dzero).
Proof. intros Hi Hj. unfold lowered. rewrite mget_mk_mat by assumption. reflexivity. Qed.
Lemma gap i : (i < n)%nat -> bpow radix2 (-800) <= B2R (v i i) - B2R lb <= bpow radix2 60.
Proof. intros Hi. destruct (Ht i i Hi Hi) as (_ & _ & B & G). apply Rabs_le_inv in B. lra. Qed.
Lemma root_sq i : (i < n)%nat -> r i * r i = B2R (v i i) - B2R lb.
Proof. intros Hi. unfold diag_root. apply sqrt_sqrt. pose proof (gap i Hi). pose proof (bpow_gt_0 radix2 (-800)). lra. Qed.
Lemma root_range i : (i < n)%nat -> bpow radix2 (-400) <= r i <= bpow radix2 30.
Proof.
  intros Hi. pose proof (gap i Hi). unfold diag_root. split.
  - rewrite <- (sqrt_square (bpow radix2 (-400))) by apply bpow_ge_0. apply sqrt_le_1_alt. rewrite <- bpow_plus. apply H.
  - rewrite <- (sqrt_square (bpow radix2 30)) by apply bpow_ge_0. apply sqrt_le_1_alt. rewrite <- bpow_plus. apply H.
Qed.
Lemma Bm_diag i : (i < n)%nat -> Bm i i = r i * r i.
Proof. intros Hi. unfold Bm. rewrite Nat.eqb_refl, root_sq by exact Hi. reflexivity. Qed.
Lemma Am_close i j : (i < n)%nat -> (j < n)%nat -> is_finite (mget dzero M i j) = true /\ Rabs (Am i j - Bm i j) <= (if Nat.eqb i j then u * (r i * r i) else 0).
Proof.
  intros Hi Hj. destruct (Ht i j Hi Hj) as (F & _ & _ & _). unfold Am, Bm. rewrite (Ma i j Hi Hj). destruct (Nat.eqb_spec i j) as [<-|N].
  - pose proof (gap i Hi) as G. pose proof (bpow_gt_0 radix2 (-800)). assert (A : Rabs (B2R (v i i) - B2R lb) = r i * r i) by (rewrite Rabs_pos_eq, root_sq by (try exact Hi; lra); reflexivity).
    destruct (fsub_rel (v i i) lb F (proj1 Hlb)) as [Fs Es]; [rewrite Rabs_pos_eq by lra; eapply Rle_trans; [apply G|apply bpow_le; lia]|]. split; [exact Fs|]. rewrite <- A. exact Es.
  - assert (S : same (fsub (v i j) dzero) (v i j)) by apply sub_zero_same. rewrite (same_finite _ _ S), (same_B2R _ _ S). split; [exact F|]. rewrite Rminus_0_r, Rminus_eq_0, Rabs_R0. lra.
Qed.
Lemma Am_bound i j : (i < n)%nat -> (j < n)%nat -> Rabs (Am i j) <= bpow radix2 980.
Proof.
  intros Hi Hj. destruct (Am_close i j Hi Hj) as [_ A]. destruct (Ht i j Hi Hj) as (_ & _ & B & _). assert (C : Rabs (Bm i j) <= bpow radix2 60).
  { unfold Bm. destruct (Nat.eqb_spec i j) as [<-|N]; [|rewrite Rminus_0_r; exact B]. pose proof (gap i Hi). pose proof (bpow_gt_0 radix2 (-800)). rewrite Rabs_pos_eq by lra. lra. }
  replace (Am i j) with ((Am i j - Bm i j) + Bm i j) by ring. eapply Rle_trans; [apply Rabs_triang|]. assert (D : (if Nat.eqb i j then u * (r i * r i) else 0) <= bpow radix2 60).
  { destruct (Nat.eqb i j); [|apply bpow_ge_0]. rewrite (root_sq i Hi). pose proof (gap i Hi). pose proof (bpow_gt_0 radix2 (-800)). small_u. assert (u * (B2R (v i i) - B2R lb) <= 1 * (B2R (v i i) - B2R lb)) by (apply Rmult_le_compat_r; lra). lra. }
  apply Rle_trans with (2 * bpow radix2 60); [lra|]. change 2 with (bpow radix2 1) at 1. rewrite <- bpow_plus. apply bpow_le. lia.
Qed.
Lemma M_sym i j : (i < n)%nat -> (j < n)%nat -> mget dzero M i j = mget dzero M j i.
Proof. intros Hi Hj. rewrite !Ma by assumption. rewrite (Nat.eqb_sym j i). f_equal. exact (proj1 (proj2 (Ht i j Hi Hj))). Qed.
Lemma M_ok i j : (i < n)%nat -> (j < n)%nat -> is_finite (mget dzero M i j) = true /\ Rabs (B2R (mget dzero M i j)) <= bpow radix2 980 /\ mget dzero M i j = mget dzero M j i.
Proof. intros Hi Hj. split; [exact (proj1 (Am_close i j Hi Hj))|]. split; [exact (Am_bound i j Hi Hj)|exact (M_sym i j Hi Hj)]. Qed.
Lemma Am_sym i j : (i < n)%nat -> (j < n)%nat -> Am i j = Am j i.
Proof. intros Hi Hj. unfold Am. f_equal. apply M_sym; assumption. Qed.
Lemma AmBm i j : (i < n)%nat -> (j < n)%nat -> Rabs (Am i j - Bm i j) <= (if Nat.eqb i j then u * (r i * r i) else 0).
Proof. intros Hi Hj. exact (proj2 (Am_close i j Hi Hj)). Qed.

Section Factor.
Context (c : nd dbl) (Q : fchol M = Ok c).
Definition C (i k : nat) : Rdefinitions.R := B2R (mget dzero c i k).
Lemma c_fin i j : (j <= i)%nat -> (i < n)%nat -> is_finite (mget dzero c i j) = true.
Proof. intros Hj Hi. exact (proj1 (Hcc n M c eq_refl Hn M_ok Q i j Hj Hi)). Qed.
Lemma C_close i j : (j <= i)%nat -> (i < n)%nat -> Rabs (rsum n (fun k => C i k * C j k) - Am i j) <= e * rsum n (fun k => Rabs (C i k * C j k)) + bpow radix2 (-1040) * (1 + C j j).
Proof. intros Hj Hi. exact (proj2 (Hcc n M c eq_refl Hn M_ok Q i j Hj Hi)). Qed.
Lemma C_low i k : (i < n)%nat -> (k < n)%nat -> (i < k)%nat -> C i k = 0.
Proof. intros Hi Hk Hik. unfold C. rewrite (ch_lower _ Hc n M c i k eq_refl Q Hik Hk). reflexivity. Qed.
Lemma C_pos i : (i < n)%nat -> 0 < C i i.
Proof. intros Hi. destruct (ch_diag _ Hc n M c i eq_refl Q Hi) as [E|[_ P]]; [|exact P]. pose proof (c_fin i i (le_n i) Hi) as F. rewrite E in F. discriminate. Qed.
Lemma C_bound i k : (i < n)%nat -> (k < n)%nat -> Rabs (C i k) <= 102 / 100 * r i.
Proof. exact (c_bound n Hn r root_range Am Bm C Bm_diag AmBm C_pos C_close i k). Qed.
Lemma C_big i k : (i < n)%nat -> (k < n)%nat -> Rabs (C i k) <= bpow radix2 31.
Proof.
  intros Hi Hk. pose proof (C_bound i k Hi Hk). pose proof (root_range i Hi) as [_ U]. replace (bpow radix2 31) with (2 * bpow radix2 30) by (change 2 with (bpow radix2 1) at 1; rewrite <- bpow_plus; reflexivity). pose proof (bpow_gt_0 radix2 30). lra.
Qed.
(** the free values read off the factor *)
Context (w : list dbl) (Lw : length w = triangle n).
Context (W : forall i, (i < n)%nat ->
    (forall j, (j < i)%nat -> same (at_ld dzero w i j) (mget dzero c i j)) /\
    (is_finite (mget dzero c i i) = true -> B2R (mget dzero c i i) <= bpow radix2 900 -> is_finite (at_ld dzero w i i) = true /\
       Rabs (B2R (at_ld dzero w i i) - ln (B2R (mget dzero c i i))) <= units 12 * (1 + Rabs (ln (B2R (mget dzero c i i))) + B2R (mget dzero c i i))) /\
    (is_finite (mget dzero c i i) = true -> bpow radix2 64 <= B2R (mget dzero c i i) -> exists s, at_ld dzero w i i = B754_zero s)).
Definition hh (i : nat) : Rdefinitions.R := B2R (at_ld dzero w i i).
Lemma hh_close i : (i < n)%nat -> is_finite (at_ld dzero w i i) = true /\ Rabs (hh i - ln (C i i)) <= 12 * u * (1 + Rabs (ln (C i i)) + C i i).
Proof.
  intros Hi. destruct (W i Hi) as (_ & W2 & _). destruct (W2 (c_fin i i (le_n i) Hi)) as [F H].
  - fold (C i i). eapply Rle_trans; [apply Rle_abs|]. eapply Rle_trans; [exact (C_big i i Hi Hi)|]. apply bpow_le. lia.
  - split; [exact F|]. rewrite units_u in H. exact H.
Qed.
Lemma w_calm : (forall i, (i < n)%nat -> Rabs (hh i) <= 300) -> calm_free n w.
Proof.
  intros K. split; [exact Lw|]. split.
  - intros i Hi. split; [exact (proj1 (hh_close i Hi))|exact (K i Hi)].
  - intros i j Hi Hj. destruct (W i Hi) as (W1 & _). rewrite (same_finite _ _ (W1 j Hj)), (same_B2R _ _ (W1 j Hj)). split; [apply c_fin; lia|]. fold (C i j). eapply Rle_trans; [apply C_big; lia|]. apply bpow_le. lia.
Qed.
Lemma factor_w i k : (i < n)%nat -> (k < n)%nat -> factor (reals w) i k = ff C hh i k.
Proof.
  intros Hi Hk. unfold factor, ff. destruct (Nat.ltb_spec k i) as [L|L].
  - destruct (Nat.eqb_spec k i); [lia|]. rewrite at_reals. destruct (W i Hi) as (W1 & _). rewrite (same_B2R _ _ (W1 k L)). reflexivity.
  - destruct (Nat.eqb_spec k i) as [E|N]; [rewrite at_reals; reflexivity|]. symmetry. apply C_low; lia.
Qed.
Lemma size_w i k : (i < n)%nat -> (k < n)%nat -> size_of (reals w) i k = SS C hh i k.
Proof.
  intros Hi Hk. unfold size_of, SS. destruct (Nat.eqb_spec k i) as [->|N].
  - unfold ff. rewrite Nat.eqb_refl, at_reals, (Rabs_pos_eq (exp (hh i))) by (left; apply exp_pos). reflexivity.
  - rewrite (factor_w i k Hi Hk). ring.
Qed.
Lemma back (K : forall i, (i < n)%nat -> Rabs (hh i) <= 300) : exists p', fposdef_set_free fexp fdot p w = Ok p' /\ shape (fposdef_get p') = [n; n] /\
  near n lb (fun i => Rabs (hh i)) v (mget dzero (fposdef_get p')).
Proof.
  destruct (set_free_accurate fexp He fdot Hd n w (w_calm K) lb Hlb Hlb0 Hn p R) as (p' & S & Sh & A). exists p'. split; [exact S|]. split; [exact Sh|].
  intros i j Hi Hj. destruct (A i j Hi Hj) as (A1 & A2 & A3). split; [exact A2|]. split; [exact A1|].
  replace (B2R (v i j)) with (Bm i j + (if Nat.eqb i j then B2R lb else 0)) by (unfold Bm; ring).
  apply (whole n Hn r root_range Am Bm C Am_sym Bm_diag AmBm C_low C_pos C_close hh K (fun i Hi => proj2 (hh_close i Hi)) (B2R lb) i j _ Hi Hj).
  unfold exact_matrix, matrix_error in A3. rewrite (rsum_ext n (fun k => factor (reals w) i k * factor (reals w) j k) (fun k => ff C hh i k * ff C hh j k)) in A3 by (intros k Hk; rewrite !factor_w by assumption; reflexivity).
  rewrite (rsum_ext n (fun k => Rabs (factor (reals w) i k) * size_of (reals w) j k + size_of (reals w) i k * Rabs (factor (reals w) j k)) (fun k => Rabs (ff C hh i k) * SS C hh j k + SS C hh i k * Rabs (ff C hh j k))) in A3 by (intros k Hk; rewrite !factor_w, !size_w by assumption; reflexivity).
  rewrite (rsum_ext n (fun k => size_of (reals w) i k * size_of (reals w) j k) (fun k => SS C hh i k * SS C hh j k)) in A3 by (intros k Hk; rewrite !size_w by assumption; reflexivity).
  exact A3.
Qed.
(** ** well inside: the free diagonal is not large *)
Context (Hw : well_inside n lb v).
Lemma far_Bm (y : nat -> Rdefinitions.R) : (exists i, (i < n)%nat /\ y i <> 0) -> 4 * e * (rsum n (fun i => r i * Rabs (y i))) ^ 2 < rsum n (fun i => rsum n (fun j => y i * Bm i j * y j)).
Proof. exact (Hw y). Qed.
Lemma ln_pivot i : (i < n)%nat -> Rabs (ln (C i i)) <= 17 + Rabs (ln (r i)).
Proof.
  intros Hi. pose proof (pivot_low n Hn r root_range Am Bm C Am_sym Bm_diag AmBm C_low C_pos C_close far_Bm i Hi) as P. pose proof (C_bound i i Hi Hi) as U. pose proof (C_pos i Hi) as C0. rewrite Rabs_pos_eq in U by lra.
  pose proof (root_range i Hi) as [r0 _]. pose proof (bpow_gt_0 radix2 (-400)). pose proof (e_low n Hn) as El.
  assert (L : bpow radix2 (-24) * r i <= C i i).
  { apply Rsqr_incr_0_var; [|lra]. unfold Rsqr. eapply Rle_trans; [|exact P]. replace (bpow radix2 (-24) * r i * (bpow radix2 (-24) * r i)) with ((bpow radix2 (-24) * bpow radix2 (-24)) * (r i * r i)) by ring. rewrite <- bpow_plus. apply Rmult_le_compat_r; [nra|exact El]. }
  assert (L1 : ln (bpow radix2 (-24)) + ln (r i) <= ln (C i i)). { pose proof (bpow_gt_0 radix2 (-24)). rewrite <- ln_mult by lra. apply ln_le'; [apply Rmult_lt_0_compat; lra|exact L]. }
  assert (L2 : ln (C i i) <= ln 2 + ln (r i)). { rewrite <- ln_mult by lra. apply ln_le'; [exact C0|lra]. }
  assert (B24 : bpow radix2 (- (24)) <= bpow radix2 (-24) <= bpow radix2 24) by (split; [apply Rle_refl|apply bpow_le; lia]). pose proof (ln_range 24 (bpow radix2 (-24)) ltac:(lia) B24) as N24. apply Rabs_le_inv in N24. pose proof ln_2_bound. pose proof (Rle_abs (ln (r i))). pose proof (Rle_abs (- ln (r i))) as N. rewrite Rabs_Ropp in N. apply Rabs_le. lra.
Qed.
Lemma hh_size i : (i < n)%nat -> Rabs (hh i) <= log_size lb v i /\ Rabs (hh i) <= 300.
Proof.
  intros Hi. destruct (hh_close i Hi) as [_ H]. pose proof (ln_pivot i Hi) as L. pose proof (C_big i i Hi Hi) as B. rewrite Rabs_pos_eq in B by (pose proof (C_pos i Hi); lra). change (bpow radix2 31) with 2147483648 in B. pose proof (root_range i Hi) as [R1 R2].
  assert (R3 : bpow radix2 30 <= bpow radix2 400) by (apply bpow_le; lia). pose proof (ln_400 (r i) (conj R1 (Rle_trans _ _ _ R2 R3))) as L4. small_u. pose proof (Rabs_pos (ln (C i i))). pose proof (C_pos i Hi).
  assert (S : 12 * u * (1 + Rabs (ln (C i i)) + C i i) <= 1). { apply Rle_trans with (12 * / 9000000000000000 * (1 + 297 + 2147483648)); [|lra]. apply Rmult_le_compat; lra. }
  assert (T : Rabs (hh i) <= 18 + Rabs (ln (r i))). { replace (hh i) with ((hh i - ln (C i i)) + ln (C i i)) by ring. eapply Rle_trans; [apply Rabs_triang|]. lra. }
  unfold log_size. lra.
Qed.
End Factor.

Lemma moved_mono l (s d d' : nat -> Rdefinitions.R) i j : 0 < s i -> 0 < s j -> 0 <= d i <= d' i -> 0 <= d j <= d' j -> moved n l s d i j <= moved n l s d' i j.
Proof.
  intros Si Sj Di Dj. unfold moved. destruct (eps_range n Hn) as [[e0 _] _].
  assert (P1 : s i * s j * (2 + d i + d j + s i + s j) <= s i * s j * (2 + d' i + d' j + s i + s j)) by (apply Rmult_le_compat_l; [apply Rmult_le_pos; lra|lra]).
  assert (P2 : s i * d j <= s i * d' j) by (apply Rmult_le_compat_l; lra). assert (P3 : d i * s j <= d' i * s j) by (apply Rmult_le_compat_r; lra). assert (P4 : d i * d j <= d' i * d' j) by (apply Rmult_le_compat; lra).
  assert (P5 : 4 * e * (s i * s j * (2 + d i + d j + s i + s j) + s i * d j + d i * s j) <= 4 * e * (s i * s j * (2 + d' i + d' j + s i + s j) + s i * d' j + d' i * s j)) by (apply Rmult_le_compat_l; lra).
  assert (P6 : 2 * (e * e) * (d i * d j) <= 2 * (e * e) * (d' i * d' j)) by (apply Rmult_le_compat_l; [nra|exact P4]). lra.
Qed.
Lemma refresh w : fposdef_get_free flog fchol p = Ok w -> (forall i, (i < n)%nat -> Rabs (B2R (at_ld dzero w i i)) <= 300) ->
  exists p', fposdef_set_free fexp fdot p w = Ok p' /\ shape (fposdef_get p') = [n; n] /\ near n lb (fun i => Rabs (B2R (at_ld dzero w i i))) v (mget dzero (fposdef_get p')).
Proof.
  intros G K. destruct (get_free_entries fexp flog Hl fdot fchol Hc n lb p w R G) as (c & Q & Lw & W). exact (back c Q w Lw W K).
Qed.
Context (Hcs : cholesky_succeeds fchol) (Hw : well_inside n lb v).
Lemma Am_root i : (i < n)%nat -> bpow radix2 (-960) <= Am i i /\ sqrt (Am i i) <= 1001 / 1000 * r i.
Proof.
  intros Hi. pose proof (AmBm i i Hi Hi) as A. rewrite Nat.eqb_refl, (Bm_diag i Hi) in A. pose proof (gap i Hi) as G. rewrite <- (root_sq i Hi) in G. apply Rabs_le_inv in A. small_u. pose proof (root_range i Hi) as [r0 _]. pose proof (bpow_gt_0 radix2 (-400)).
  assert (X : u * (r i * r i) <= / 1000 * (r i * r i)) by (apply Rmult_le_compat_r; [nra|lra]). split.
  - apply Rle_trans with (bpow radix2 (-1) * bpow radix2 (-800)); [rewrite <- bpow_plus; apply bpow_le; lia|]. change (bpow radix2 (-1)) with (/ 2). pose proof (bpow_gt_0 radix2 (-800)). lra.
  - rewrite <- (sqrt_square (1001 / 1000 * r i)) by lra. apply sqrt_le_1_alt. nra.
Qed.
Lemma chol_ok : exists c, fchol M = Ok c.
Proof.
  apply (Hcs n M eq_refl Hn M_ok); [intros i Hi; exact (proj1 (Am_root i Hi))|]. intros y Hy. change (3 * e * rsum n (fun i => sqrt (Am i i) * Rabs (y i)) ^ 2 < rsum n (fun i => rsum n (fun j => y i * Am i j * y j))).
  pose proof (Hw y Hy) as F. change (4 * e * rsum n (fun i => r i * Rabs (y i)) ^ 2 < rsum n (fun i => rsum n (fun j => y i * Bm i j * y j))) in F. destruct (eps_range n Hn) as [[e0 e1] e2]. small_u.
  assert (D : Rabs (rsum n (fun i => rsum n (fun j => y i * Am i j * y j)) - rsum n (fun i => rsum n (fun j => y i * Bm i j * y j))) <= / 10 * e * rsum n (fun i => r i * Rabs (y i)) ^ 2).
  { apply (quad_diff n r Bm y Am (/ 10 * e)). intros i j Hi Hj. eapply Rle_trans; [exact (AmBm i j Hi Hj)|]. pose proof (root_range i Hi). pose proof (root_range j Hj). pose proof (bpow_gt_0 radix2 (-400)).
    assert (0 < r i * r j) by (apply Rmult_lt_0_compat; lra). destruct (Nat.eqb_spec i j) as [<-|N]; [apply Rmult_le_compat_r; lra|]. apply Rmult_le_pos; lra. }
  assert (S : rsum n (fun i => sqrt (Am i i) * Rabs (y i)) ^ 2 <= 11 / 10 * rsum n (fun i => r i * Rabs (y i)) ^ 2).
  { assert (S1 : rsum n (fun i => sqrt (Am i i) * Rabs (y i)) <= 1001 / 1000 * rsum n (fun i => r i * Rabs (y i))).
    { rewrite <- rsum_scal_l. apply rsum_le. intros i Hi. rewrite <- Rmult_assoc. apply Rmult_le_compat_r; [apply Rabs_pos|exact (proj2 (Am_root i Hi))]. }
    assert (S0 : 0 <= rsum n (fun i => sqrt (Am i i) * Rabs (y i))) by (apply rsum_nonneg; intros; apply Rmult_le_pos; [apply sqrt_pos|apply Rabs_pos]). nra. }
  set (q := rsum n (fun i => r i * Rabs (y i)) ^ 2) in *. assert (q0 : 0 <= q) by apply pow2_ge_0. apply Rabs_le_inv in D. apply Rmult_le_compat_l with (r := 3 * e) in S; [|lra]. assert (0 <= e * q) by (apply Rmult_le_pos; lra). lra.
Qed.
Lemma refresh_inside : exists w p', fposdef_get_free flog fchol p = Ok w /\ fposdef_set_free fexp fdot p w = Ok p' /\ calm_free n w /\ shape (fposdef_get p') = [n; n] /\ near n lb (log_size lb v) v (mget dzero (fposdef_get p')).
Proof.
  destruct chol_ok as [c0 Q0]. assert (E : exists w, fposdef_get_free flog fchol p = Ok w) by (rewrite (get_free_unfold fexp flog fdot fchol Hc n lb p R), Q0; eexists; reflexivity). destruct E as [w G].
  destruct (get_free_entries fexp flog Hl fdot fchol Hc n lb p w R G) as (c & Q & Lw & W). destruct (back c Q w Lw W) as (p' & S & Sh & N); [intros i Hi; exact (proj2 (hh_size c Q w Lw W Hw i Hi))|].
  exists w, p'. split; [exact G|]. split; [exact S|]. split; [exact (w_calm c Q w Lw W (fun i Hi => proj2 (hh_size c Q w Lw W Hw i Hi)))|]. split; [exact Sh|]. intros i j Hi Hj. destruct (N i j Hi Hj) as (N1 & N2 & N3). split; [exact N1|]. split; [exact N2|]. eapply Rle_trans; [exact N3|].
  pose proof (root_range i Hi). pose proof (root_range j Hj). pose proof (bpow_gt_0 radix2 (-400)). apply moved_mono; try lra; (split; [apply Rabs_pos|]); [exact (proj1 (hh_size c Q w Lw W Hw i Hi))|exact (proj1 (hh_size c Q w Lw W Hw j Hj))].
Qed.
End Refresh.
