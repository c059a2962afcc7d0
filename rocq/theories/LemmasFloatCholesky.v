(** How the Cholesky factor moves when the matrix moves, over exact reals. *)
From Coq Require Import Reals ZArith List Lra Lia Psatz.
From Flocq Require Import Core.
From Verif Require Import RSum SpecFloatCholesky.
Open Scope R_scope.
Set Bullet Behavior "Strict Subproofs".

Definition dl (i j : nat) : R := if Nat.eqb i j then 1 else 0.
Lemma dl_same i : dl i i = 1. Proof. unfold dl. rewrite Nat.eqb_refl. reflexivity. Qed.
Lemma dl_diff i j : i <> j -> dl i j = 0. Proof. intros H. unfold dl. destruct (Nat.eqb_spec i j); [contradiction|reflexivity]. Qed.

(** rsum over k <= j when the terms beyond vanish *)
Lemma rsum_upto n j f : (j < n)%nat -> (forall k, (k < n)%nat -> (j < k)%nat -> f k = 0) -> rsum n f = rsum j f + f j.
Proof.
  intros Hj H. replace n with (S j + (n - S j))%nat by lia. rewrite rsum_split. rewrite (rsum_zero (n - S j)); [cbn [rsum]; ring|]. intros i Hi. apply H; lia.
Qed.

Section Core.
Context (n m : nat) (M : nat -> nat -> R) (g : R) (g0 : 0 <= g) (ng : INR n * g <= / 16) (mn : (m <= n)%nat).
Context (low : forall i k, (i < n)%nat -> (k < n)%nat -> (i < k)%nat -> M i k = 0) (pos : forall i, (i < m)%nat -> 0 < M i i).
Context (eqn : forall i j, (i < n)%nat -> (j < m)%nat -> (j <= i)%nat -> Rabs (rsum n (fun k => M i k * M j k) - dl i j) <= g).

Lemma core : forall j, (j < m)%nat -> forall i, (i < n)%nat -> (j <= i)%nat -> Rabs (M i j - dl i j) <= 2 * g.
Proof.
  induction j as [j IH] using lt_wf_ind. intros Hj.
  assert (n1 : 1 <= INR n) by (change 1 with (INR 1); apply le_INR; lia). assert (g1 : g <= / 16) by nra.
  assert (S : forall i, (i < n)%nat -> (j <= i)%nat -> Rabs (rsum j (fun k => M i k * M j k)) <= / 4 * g).
  { intros i Hi Hji. eapply Rle_trans; [apply rsum_Rabs|]. apply Rle_trans with (rsum j (fun _ => 4 * g * g)).
    - apply rsum_le. intros k Hk. pose proof (IH k Hk ltac:(lia) i Hi ltac:(lia)) as A. pose proof (IH k Hk ltac:(lia) j ltac:(lia) ltac:(lia)) as B. rewrite dl_diff, Rminus_0_r in A, B by lia.
      rewrite Rabs_mult. replace (4 * g * g) with (2 * g * (2 * g)) by ring. apply Rmult_le_compat; try apply Rabs_pos; assumption.
    - rewrite rsum_const. assert (INR j <= INR n) by (apply le_INR; lia). assert (INR j * g <= / 16) by nra. replace (INR j * (4 * g * g)) with (4 * g * (INR j * g)) by ring. nra. }
  assert (Q : forall i, (i < n)%nat -> (j <= i)%nat -> Rabs (M i j * M j j - dl i j) <= 5 / 4 * g).
  { intros i Hi Hji. pose proof (eqn i j Hi Hj Hji) as A. rewrite (rsum_upto n j) in A by (try lia; intros k Hk Hjk; rewrite (low j k) by lia; ring). specialize (S i Hi Hji).
    apply Rabs_le_inv in A. apply Rabs_le_inv in S. apply Rabs_le. lra. }
  assert (D : Rabs (M j j - 1) <= 5 / 4 * g).
  { pose proof (Q j ltac:(lia) (le_n j)) as A. rewrite dl_same in A. pose proof (pos j Hj) as P. apply Rabs_le_inv in A. apply Rabs_le. split; nra. }
  intros i Hi Hji. destruct (Nat.eq_dec i j) as [->|N].
  - rewrite dl_same. lra.
  - specialize (Q i Hi Hji). rewrite dl_diff, Rminus_0_r in Q |- * by exact N. rewrite Rabs_mult in Q. apply Rabs_le_inv in D. rewrite (Rabs_pos_eq (M j j)) in Q by lra. pose proof (Rabs_pos (M i j)). nra.
Qed.
End Core.

Section Perturb.
Context (n m : nat) (mn : (m <= n)%nat) (L L' T : nat -> nat -> R) (HT : inverse_matrix n L T).
Context (lowL : forall i k, (i < k)%nat -> L i k = 0) (posL : forall i, (i < n)%nat -> 0 < L i i).
Context (lowL' : forall i k, (i < n)%nat -> (k < n)%nat -> (i < k)%nat -> L' i k = 0) (posL' : forall i, (i < m)%nat -> 0 < L' i i).

Lemma lowT : forall i j, (i < n)%nat -> (j < n)%nat -> (i < j)%nat -> T i j = 0.
Proof.
  induction i as [i IH] using lt_wf_ind. intros j Hi Hj Hij. destruct (HT i j Hi Hj) as [A _]. destruct (Nat.eqb_spec i j); [lia|].
  rewrite (rsum_upto n i) in A by (try exact Hi; intros k Hk Hik; rewrite lowL by exact Hik; ring). rewrite rsum_zero, Rplus_0_l in A by (intros k Hk; rewrite (IH k) by lia; ring).
  pose proof (posL i Hi). apply Rmult_integral in A. destruct A; [lra|assumption].
Qed.
Lemma diagT i : (i < n)%nat -> T i i * L i i = 1.
Proof.
  intros Hi. destruct (HT i i Hi Hi) as [A _]. rewrite Nat.eqb_refl in A. rewrite (rsum_upto n i) in A by (try exact Hi; intros k Hk Hik; rewrite lowL by exact Hik; ring).
  rewrite rsum_zero in A by (intros k Hk; rewrite lowT by lia; ring). lra.
Qed.
Definition MM i j := rsum n (fun k => T i k * L' k j).
Lemma MM_low i j : (i < n)%nat -> (j < n)%nat -> (i < j)%nat -> MM i j = 0.
Proof.
  intros Hi Hj Hij. apply rsum_zero. intros k Hk. destruct (le_lt_dec k i) as [H|H]; [rewrite lowL' by lia; ring|rewrite lowT by lia; ring].
Qed.
Lemma MM_diag i : (i < n)%nat -> MM i i = T i i * L' i i.
Proof.
  intros Hi. unfold MM. rewrite (rsum_single n i); [reflexivity|exact Hi|]. intros k Hk N. destruct (le_lt_dec k i) as [H|H]; [rewrite lowL' by lia; ring|rewrite lowT by lia; ring].
Qed.
Lemma MM_pos i : (i < m)%nat -> 0 < MM i i.
Proof. intros Hi. rewrite MM_diag by lia. pose proof (diagT i ltac:(lia)) as A. pose proof (posL i ltac:(lia)). pose proof (posL' i Hi). assert (0 < T i i) by nra. nra. Qed.
Lemma back_L i j : (i < n)%nat -> (j < n)%nat -> rsum n (fun k => L i k * MM k j) = L' i j.
Proof.
  intros Hi Hj. transitivity (rsum n (fun l => dl i l * L' l j)).
  - unfold MM. rewrite (rsum_ext n _ (fun k => rsum n (fun l => L i k * T k l * L' l j))) by (intros k Hk; rewrite <- rsum_scal_l; apply rsum_ext; intros; ring).
    rewrite rsum_swap. apply rsum_ext. intros l Hl. rewrite rsum_scal_r. f_equal. exact (proj1 (HT i l Hi Hl)).
  - rewrite (rsum_single n i); [rewrite dl_same; ring|exact Hi|]. intros l Hl N. rewrite dl_diff by auto. ring.
Qed.
(** M M^T = T L' L'^T T^T *)
Lemma gram i j : (i < n)%nat -> (j < n)%nat -> rsum n (fun k => MM i k * MM j k) = rsum n (fun k => rsum n (fun l => T i k * rsum n (fun s => L' k s * L' l s) * T j l)).
Proof.
  intros Hi Hj. unfold MM. rewrite (rsum_ext n _ (fun s => rsum n (fun k => rsum n (fun l => T i k * (L' k s * L' l s) * T j l)))).
  - rewrite rsum_swap. apply rsum_ext. intros k Hk. rewrite rsum_swap. apply rsum_ext. intros l Hl. rewrite <- rsum_scal_l, <- rsum_scal_r. reflexivity.
  - intros s Hs. rewrite rsum_mult. apply rsum_ext. intros k Hk. apply rsum_ext. intros l Hl. ring.
Qed.
Lemma gram_L i j : (i < n)%nat -> (j < n)%nat -> rsum n (fun k => rsum n (fun l => T i k * rsum n (fun s => L k s * L l s) * T j l)) = dl i j.
Proof.
  intros Hi Hj. transitivity (rsum n (fun s => dl i s * dl j s)).
  - rewrite (rsum_ext n _ (fun k => rsum n (fun s => rsum n (fun l => (T i k * L k s) * (T j l * L l s))))).
    + rewrite rsum_swap. apply rsum_ext. intros s Hs. rewrite <- rsum_mult. f_equal; [exact (proj2 (HT i s Hi Hs))|exact (proj2 (HT j s Hj Hs))].
    + intros k Hk. rewrite rsum_swap. apply rsum_ext. intros l Hl. rewrite <- rsum_scal_l, <- rsum_scal_r. apply rsum_ext. intros s Hs. ring.
  - rewrite (rsum_single n i); [rewrite dl_same, Rmult_1_l; unfold dl; rewrite Nat.eqb_sym; reflexivity|exact Hi|]. intros s Hs N. rewrite (dl_diff i s) by auto. ring.
Qed.
Context (E : nat -> nat -> R) (HE : forall k l, (k < n)%nat -> (l < n)%nat -> 0 <= E k l).
Context (HL : forall k l, (k < n)%nat -> (l < n)%nat -> ((k < m)%nat \/ (l < m)%nat) -> Rabs (rsum n (fun s => L' k s * L' l s) - rsum n (fun s => L k s * L l s)) <= E k l).
Context (g : R) (g0 : 0 <= g) (ng : INR n * g <= / 16) (Hg : forall i j, (i < n)%nat -> (j < n)%nat -> rsum n (fun k => rsum n (fun l => Rabs (T i k) * E k l * Rabs (T j l))) <= g).
Lemma gram_close i j : (i < n)%nat -> (j < m)%nat -> Rabs (rsum n (fun k => MM i k * MM j k) - dl i j) <= g.
Proof.
  intros Hi Hj. rewrite (gram i j), <- (gram_L i j) by lia. rewrite <- rsum_minus. eapply Rle_trans; [|exact (Hg i j Hi ltac:(lia))]. eapply Rle_trans; [apply rsum_Rabs|]. apply rsum_le. intros k Hk.
  rewrite <- rsum_minus. eapply Rle_trans; [apply rsum_Rabs|]. apply rsum_le. intros l Hl.
  destruct (le_lt_dec m l) as [H|H].
  - rewrite (lowT j l) by lia. rewrite !Rmult_0_r, Rminus_0_r, Rabs_R0, Rmult_0_r. lra.
  - rewrite <- Rmult_minus_distr_r, <- Rmult_minus_distr_l, !Rabs_mult. apply Rmult_le_compat_r; [apply Rabs_pos|]. apply Rmult_le_compat_l; [apply Rabs_pos|]. apply HL; auto.
Qed.
Lemma MM_close i j : (i < n)%nat -> (j < m)%nat -> (j <= i)%nat -> Rabs (MM i j - dl i j) <= 2 * g.
Proof. intros Hi Hj Hji. apply (core n m MM g g0 ng mn MM_low MM_pos); auto. intros a b Ha Hb Hab. apply gram_close; assumption. Qed.
Lemma factor_close i j : (i < n)%nat -> (j < m)%nat -> (j <= i)%nat -> Rabs (L' i j - L i j) <= 2 * g * rsum n (fun k => Rabs (L i k)).
Proof.
  intros Hi Hj Hji. rewrite <- (back_L i j) by lia. assert (R : L i j = rsum n (fun k => L i k * dl k j)).
  { rewrite (rsum_single n j); [rewrite dl_same; ring|lia|]. intros k Hk N. rewrite dl_diff by exact N. ring. }
  rewrite R, <- rsum_minus, <- rsum_scal_l. eapply Rle_trans; [apply rsum_Rabs|]. apply rsum_le. intros k Hk. rewrite <- Rmult_minus_distr_l, Rabs_mult, Rmult_comm. apply Rmult_le_compat_r; [apply Rabs_pos|].
  destruct (le_lt_dec j k) as [H|H]; [apply MM_close; auto|]. rewrite MM_low, dl_diff, Rminus_0_r, Rabs_R0 by lia. lra.
Qed.
Lemma diag_relative i : (i < m)%nat -> Rabs (L' i i - L i i) <= 2 * g * L i i.
Proof.
  intros Hi. pose proof (MM_close i i ltac:(lia) Hi (le_n i)) as A. rewrite dl_same, MM_diag in A by lia. pose proof (diagT i ltac:(lia)) as B. pose proof (posL i ltac:(lia)) as P.
  replace (L' i i - L i i) with ((T i i * L' i i - 1) * L i i) by (rewrite <- B; ring_simplify; replace (T i i * L' i i * L i i) with (L' i i * (T i i * L i i)) by ring; rewrite B; ring_simplify; replace (T i i * L i i ^ 2) with (L i i * (T i i * L i i)) by ring; rewrite B; ring).
  rewrite Rabs_mult, (Rabs_pos_eq (L i i)) by lra. apply Rmult_le_compat_r; lra.
Qed.
End Perturb.
