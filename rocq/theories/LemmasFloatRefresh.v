(** Proofs about setting a positive definite matrix parameter to its own free value in binary64: the part about real numbers. *)
From Coq Require Import Reals ZArith List Lra Lia Psatz Bool.
From Flocq Require Import Core BinarySingleNaN.
From Verif Require Import Res Nd RSum SpecFloat SpecFloatSimplex SpecFloatAcc SpecFloatMatrix SpecFloatCholesky SpecFloatRefresh ModelFloat
  LemmasFloat LemmasFloat2 LemmasFloat3 LemmasFloat4 LemmasFloatSimplex LemmasFloatSimplex2 LemmasFloatAcc LemmasFloatMatrix LemmasFloatMatrix2 LemmasFloatMatrix4
  LemmasFloatCholesky LemmasFloatCholesky2 LemmasFloatCholesky4 LemmasFloatCholesky5.
Import List ListNotations.
Set Bullet Behavior "Strict Subproofs".
Open Scope R_scope.

Section Reals.
Context (n : nat) (Hn : INR n <= bpow radix2 20).
Notation e := (eps n).
Notation t := (bpow radix2 (-1040)).
Context (r : nat -> R) (rr : forall i, (i < n)%nat -> bpow radix2 (-400) <= r i <= bpow radix2 30).
(** B: the matrix without the bound; A: the same, its diagonal rounded; c: the computed factor *)
Context (A B c : nat -> nat -> R) (symA : forall i j, (i < n)%nat -> (j < n)%nat -> A i j = A j i) (symB : forall i j, (i < n)%nat -> (j < n)%nat -> B i j = B j i).
Context (Bd : forall i, (i < n)%nat -> B i i = r i * r i).
Context (AB : forall i j, (i < n)%nat -> (j < n)%nat -> Rabs (A i j - B i j) <= (if Nat.eqb i j then u * (r i * r i) else 0)).
Context (clow : forall i k, (i < n)%nat -> (k < n)%nat -> (i < k)%nat -> c i k = 0) (cpos : forall i, (i < n)%nat -> 0 < c i i).
Context (Hcl : forall i j, (j <= i)%nat -> (i < n)%nat -> Rabs (rsum n (fun k => c i k * c j k) - A i j) <= e * rsum n (fun k => Rabs (c i k * c j k)) + t * (1 + c j j)).
Notation G i j := (rsum n (fun k => c i k * c j k)).

Lemma er : 0 < e <= / 1000000 /\ 32 * u <= e. Proof. exact (eps_range n Hn). Qed.
Lemma r_pos i : (i < n)%nat -> 0 < r i.
Proof. intros Hi. pose proof (rr i Hi). pose proof (bpow_gt_0 radix2 (-400)). lra. Qed.
Lemma r_low i j : (i < n)%nat -> (j < n)%nat -> bpow radix2 (-800) <= r i * r j.
Proof.
  intros Hi Hj. replace (bpow radix2 (-800)) with (bpow radix2 (-400) * bpow radix2 (-400)) by (rewrite <- bpow_plus; reflexivity). pose proof (bpow_ge_0 radix2 (-400)). apply Rmult_le_compat; try assumption; apply rr; assumption.
Qed.
Lemma t_small : 0 < t /\ t <= bpow radix2 (-800) * (/ 1000 * bpow radix2 (-48)) /\ t <= / 1000000.
Proof.
  split; [apply bpow_gt_0|]. split.
  - apply Rle_trans with (bpow radix2 (-800) * (bpow radix2 (-10) * bpow radix2 (-48))); [rewrite <- !bpow_plus; apply bpow_le; lia|]. apply Rmult_le_compat_l; [apply bpow_ge_0|]. apply Rmult_le_compat_r; [apply bpow_ge_0|]. cbn. lra.
  - apply Rle_trans with (bpow radix2 (-20)); [apply bpow_le; lia|cbn; lra].
Qed.
Lemma e_low : bpow radix2 (-48) <= e.
Proof. destruct er as [_ H]. eapply Rle_trans; [|exact H]. right. unfold u. change 32 with (bpow radix2 5). rewrite <- bpow_plus. reflexivity. Qed.
Lemma t_rel i j : (i < n)%nat -> (j < n)%nat -> t <= / 1000 * (e * (r i * r j)).
Proof.
  intros Hi Hj. destruct t_small as (T0 & T1 & _). eapply Rle_trans; [exact T1|]. pose proof (r_low i j Hi Hj). pose proof e_low. pose proof (bpow_ge_0 radix2 (-800)). pose proof (bpow_ge_0 radix2 (-48)).
  replace (/ 1000 * (e * (r i * r j))) with (r i * r j * (/ 1000 * e)) by ring. apply Rmult_le_compat; lra.
Qed.
Lemma squares i : (i < n)%nat -> G i i <= 102 / 100 * (r i * r i).
Proof.
  intros Hi. pose proof (Hcl i i (le_n i) Hi) as H. pose proof (AB i i Hi Hi) as H2. rewrite Nat.eqb_refl, (Bd i Hi) in H2.
  rewrite (rsum_ext n (fun k => Rabs (c i k * c i k)) (fun k => c i k * c i k)) in H by (intros k _; apply Rabs_pos_eq, Rle_0_sqr).
  assert (C : c i i * c i i <= G i i) by (apply (rsum_term_le n (fun k => c i k * c i k) i Hi); intros; apply Rle_0_sqr).
  set (X := G i i) in *. destruct er as [[e0 e1] e2]. destruct t_small as (T0 & _ & T2). pose proof (t_rel i i Hi Hi) as T3. small_u. pose proof (r_pos i Hi) as rp. assert (0 < r i * r i) by (apply Rmult_lt_0_compat; lra).
  apply Rabs_le_inv in H. apply Rabs_le_inv in H2. assert (X0 : 0 <= X) by (eapply Rle_trans; [apply Rle_0_sqr|exact C]).
  assert (K : t * (1 + c i i) <= 2 * t + t * X) by (pose proof (cpos i Hi); assert (c i i <= 1 + X) by (destruct (Rle_dec (c i i) 1); nra); nra).
  assert (e * X <= / 1000000 * X) by (apply Rmult_le_compat_r; lra). assert (t * X <= / 1000000 * X) by (apply Rmult_le_compat_r; lra).
  assert (e * (r i * r i) <= / 1000000 * (r i * r i)) by (apply Rmult_le_compat_r; lra). assert (u * (r i * r i) <= / 1000000 * (r i * r i)) by (apply Rmult_le_compat_r; lra). lra.
Qed.
Lemma sqrt_two k a b : 0 < k -> 0 < a -> 0 < b -> sqrt (k * (a * a) * (k * (b * b))) = k * (a * b).
Proof. intros K HA HB. replace (k * (a * a) * (k * (b * b))) with ((k * (a * b)) * (k * (a * b))) by ring. apply sqrt_square. apply Rlt_le. apply Rmult_lt_0_compat; [lra|]. apply Rmult_lt_0_compat; lra. Qed.
Lemma products i j : (i < n)%nat -> (j < n)%nat -> rsum n (fun k => Rabs (c i k * c j k)) <= 102 / 100 * (r i * r j).
Proof.
  intros Hi Hj. pose proof (r_pos i Hi). pose proof (r_pos j Hj). rewrite <- sqrt_two by lra.
  apply cauchy; [| |exact (squares i Hi)|exact (squares j Hj)]; apply Rmult_lt_0_compat; try lra; apply Rmult_lt_0_compat; lra.
Qed.
Lemma c_bound i k : (i < n)%nat -> (k < n)%nat -> Rabs (c i k) <= 102 / 100 * r i.
Proof.
  intros Hi Hk. pose proof (r_pos i Hi). apply Rsqr_incr_0_var; [|lra]. unfold Rsqr. rewrite <- Rabs_mult, Rabs_pos_eq by apply Rle_0_sqr.
  eapply Rle_trans; [apply (rsum_term_le n (fun k => c i k * c i k) k Hk); intros; apply Rle_0_sqr|]. eapply Rle_trans; [exact (squares i Hi)|]. nra.
Qed.
Lemma tiny_add j : (j < n)%nat -> t * (1 + c j j) <= bpow radix2 (-1005).
Proof.
  intros Hj. pose proof (c_bound j j Hj Hj) as H. rewrite Rabs_pos_eq in H by (pose proof (cpos j Hj); lra). pose proof (rr j Hj) as [_ R]. replace (bpow radix2 (-1005)) with (t * bpow radix2 35) by (rewrite <- bpow_plus; reflexivity).
  apply Rmult_le_compat_l; [apply bpow_ge_0|]. replace (bpow radix2 35) with (32 * bpow radix2 30) by (change 32 with (bpow radix2 5); rewrite <- bpow_plus; reflexivity). assert (1 <= bpow radix2 30) by (change 1 with (bpow radix2 0); apply bpow_le; lia). lra.
Qed.
Lemma gram_A i j : (i < n)%nat -> (j < n)%nat -> Rabs (G i j - A i j) <= 102 / 100 * (e * (r i * r j)) + bpow radix2 (-1005).
Proof.
  assert (K : forall i j, (j <= i)%nat -> (i < n)%nat -> Rabs (G i j - A i j) <= 102 / 100 * (e * (r i * r j)) + bpow radix2 (-1005)).
  { intros i' j' H Hi. assert (Hj : (j' < n)%nat) by lia. pose proof (Hcl i' j' H Hi) as Q. pose proof (products i' j' Hi Hj) as P. pose proof (tiny_add j' Hj). destruct er as [[e0 _] _]. apply Rmult_le_compat_l with (r := e) in P; lra. }
  intros Hi Hj. destruct (le_lt_dec j i) as [H|H]; [exact (K i j H Hi)|]. pose proof (K j i ltac:(lia) Hj) as Q. rewrite (symA i j Hi Hj), (rsum_ext n (fun k => c i k * c j k) (fun k => c j k * c i k)), (Rmult_comm (r i)) by (intros; ring). exact Q.
Qed.
Lemma small_1005 i j : (i < n)%nat -> (j < n)%nat -> bpow radix2 (-1005) <= / 1000 * (e * (r i * r j)).
Proof.
  intros Hi Hj. apply Rle_trans with (bpow radix2 (-10) * (bpow radix2 (-48) * bpow radix2 (-800))); [rewrite <- !bpow_plus; apply bpow_le; lia|].
  pose proof (r_low i j Hi Hj). pose proof e_low. pose proof (bpow_ge_0 radix2 (-800)). pose proof (bpow_ge_0 radix2 (-48)). apply Rmult_le_compat; [apply bpow_ge_0|apply Rmult_le_pos; lra|cbn; lra|]. apply Rmult_le_compat; lra.
Qed.
Lemma gram_B i j : (i < n)%nat -> (j < n)%nat -> Rabs (G i j - B i j) <= 11 / 10 * (e * (r i * r j)).
Proof.
  intros Hi Hj. pose proof (gram_A i j Hi Hj) as P. pose proof (AB i j Hi Hj) as Q. pose proof (small_1005 i j Hi Hj). replace (G i j - B i j) with ((G i j - A i j) + (A i j - B i j)) by ring. eapply Rle_trans; [apply Rabs_triang|].
  destruct er as [[e0 _] e2]. small_u. pose proof (r_pos i Hi). pose proof (r_pos j Hj). assert (0 < r i * r j) by (apply Rmult_lt_0_compat; lra). assert (32 * (u * (r i * r j)) <= e * (r i * r j)) by (rewrite <- Rmult_assoc; apply Rmult_le_compat_r; lra). assert (0 < u * (r i * r j)) by (apply Rmult_lt_0_compat; lra).
  destruct (Nat.eqb_spec i j) as [<-|N]; lra.
Qed.

(** ** the pivots, when the matrix is well inside *)
Section Far.
Context (Far : forall y : nat -> R, (exists i, (i < n)%nat /\ y i <> 0) -> 4 * e * (rsum n (fun i => r i * Rabs (y i))) ^ 2 < rsum n (fun i => rsum n (fun j => y i * B i j * y j))).
Lemma quad_diff (y : nat -> R) (E : nat -> nat -> R) k : (forall i j, (i < n)%nat -> (j < n)%nat -> Rabs (E i j - B i j) <= k * (r i * r j)) ->
  Rabs (rsum n (fun i => rsum n (fun j => y i * E i j * y j)) - rsum n (fun i => rsum n (fun j => y i * B i j * y j))) <= k * (rsum n (fun i => r i * Rabs (y i))) ^ 2.
Proof.
  intros H. cbn [pow]. rewrite Rmult_1_r, rsum_mult, <- rsum_minus, <- rsum_scal_l. eapply Rle_trans; [apply rsum_Rabs|]. apply rsum_le. intros i Hi. rewrite <- rsum_minus, <- rsum_scal_l. eapply Rle_trans; [apply rsum_Rabs|]. apply rsum_le. intros j Hj.
  replace (y i * E i j * y j - y i * B i j * y j) with (y i * y j * (E i j - B i j)) by ring. rewrite !Rabs_mult. pose proof (H i j Hi Hj) as K. apply Rmult_le_compat_l with (r := Rabs (y i) * Rabs (y j)) in K; [|apply Rmult_le_pos; apply Rabs_pos]. eapply Rle_trans; [exact K|]. right. ring.
Qed.
Lemma gram_form (y : nat -> R) : rsum n (fun i => rsum n (fun j => y i * G i j * y j)) = rsum n (fun k => rsum n (fun i => y i * c i k) * rsum n (fun i => y i * c i k)).
Proof.
  rewrite (rsum_ext n (fun k => rsum n (fun i => y i * c i k) * rsum n (fun i => y i * c i k)) (fun k => rsum n (fun i => rsum n (fun j => y i * (c i k * c j k) * y j)))).
  - symmetry. rewrite rsum_swap. apply rsum_ext. intros i Hi. rewrite rsum_swap. apply rsum_ext. intros j Hj. rewrite rsum_scal_r, rsum_scal_l. reflexivity.
  - intros k Hk. rewrite rsum_mult. apply rsum_ext. intros i Hi. apply rsum_ext. intros j Hj. ring.
Qed.
Lemma pivot_low i : (i < n)%nat -> e * (r i * r i) <= c i i * c i i.
Proof.
  intros Hi. destruct (back_subst i c (fun k => c i k)) as [z Hz]; [intros a k Ha Hk Hak; apply clow; lia|intros a Ha; pose proof (cpos a ltac:(lia)); lra|].
  set (y := fun a => if Nat.ltb a i then z a else if Nat.eqb a i then 1 else 0).
  assert (yi : y i = 1) by (unfold y; destruct (Nat.ltb_spec i i); [lia|]; rewrite Nat.eqb_refl; reflexivity).
  assert (ny : exists a, (a < n)%nat /\ y a <> 0) by (exists i; split; [exact Hi|rewrite yi; lra]). pose proof (Far y ny) as F. pose proof (quad_diff y (fun i j => G i j) (11 / 10 * e)) as D. cbv beta in D. specialize (D ltac:(intros a b Ha Hb; eapply Rle_trans; [exact (gram_B a b Ha Hb)|right; ring])).
  assert (E : rsum n (fun k => rsum n (fun a => y a * c a k) * rsum n (fun a => y a * c a k)) = c i i * c i i).
  { assert (W : forall k, rsum n (fun a => y a * c a k) = rsum i (fun a => z a * c a k) + c i k) by (intros k; unfold y; apply (split_sum n i i z (fun a => c a k) (le_n i) Hi)).
    rewrite (rsum_single n i); [|exact Hi|].
    - rewrite W. rewrite rsum_zero; [ring|]. intros a Ha. rewrite (clow a i) by lia. ring.
    - intros k Hk N. rewrite W. destruct (Nat.lt_trichotomy k i) as [L|[L|L]]; [rewrite (Hz k L); ring|contradiction|]. rewrite (clow i k) by lia. rewrite rsum_zero; [ring|]. intros a Ha. rewrite (clow a k) by lia. ring. }
  rewrite gram_form, E in D. apply Rabs_le_inv in D. destruct er as [[e0 _] _]. pose proof (r_pos i Hi).
  assert (S : r i <= rsum n (fun i => r i * Rabs (y i))). { pose proof (rsum_term_le n (fun i => r i * Rabs (y i)) i Hi) as T. cbv beta in T. rewrite yi, Rabs_R1, Rmult_1_r in T. apply T. intros a Ha. apply Rmult_le_pos; [pose proof (r_pos a Ha); lra|apply Rabs_pos]. }
  set (Q := rsum n (fun i => r i * Rabs (y i))) in *. assert (r i * r i <= Q ^ 2) by (cbn [pow]; nra). assert (e * (r i * r i) <= e * Q ^ 2) by (apply Rmult_le_compat_l; lra). assert (0 < r i * r i) by (apply Rmult_lt_0_compat; lra). assert (0 < e * (r i * r i)) by (apply Rmult_lt_0_compat; lra). lra.
Qed.
End Far.

(** ** the exact matrix that belongs to the free values read off the factor *)
Context (h : nat -> R) (h0 : forall i, (i < n)%nat -> Rabs (h i) <= 300).
Context (hc : forall i, (i < n)%nat -> Rabs (h i - ln (c i i)) <= 12 * u * (1 + Rabs (ln (c i i)) + c i i)).
Definition bb i := 13 * u * (1 + Rabs (h i) + r i).
Lemma cii_bound i : (i < n)%nat -> 0 < c i i <= 102 / 100 * r i.
Proof. intros Hi. pose proof (cpos i Hi). pose proof (c_bound i i Hi Hi) as H1. rewrite Rabs_pos_eq in H1 by lra. lra. Qed.
Lemma bb_bound i : (i < n)%nat -> 0 < bb i <= / 1000.
Proof.
  intros Hi. pose proof (r_pos i Hi). pose proof (rr i Hi) as [_ R]. pose proof (h0 i Hi). pose proof (Rabs_pos (h i)). small_u. unfold bb. replace (bpow radix2 30) with 1073741824 in R by (cbn; lra). split; [apply Rmult_lt_0_compat; lra|].
  apply Rle_trans with (13 * / 9000000000000000 * (1 + 300 + 1073741824)); [|lra]. apply Rmult_le_compat; lra.
Qed.
Lemma log_close i : (i < n)%nat -> Rabs (h i - ln (c i i)) <= bb i.
Proof.
  intros Hi. eapply Rle_trans; [exact (hc i Hi)|]. unfold bb. pose proof (cii_bound i Hi) as [C0 C1]. pose proof (hc i Hi) as H. set (l := ln (c i i)) in *. small_u. pose proof (Rabs_pos l). pose proof (Rabs_pos (h i)). pose proof (r_pos i Hi).
  assert (L : Rabs l <= Rabs (h i) + Rabs (h i - l)). { replace l with (h i - (h i - l)) at 1 by ring. eapply Rle_trans; [apply Rabs_triang|]. rewrite Rabs_Ropp. lra. }
  assert (K : 12 * u * (1 + Rabs l + c i i) <= / 10000 * (1 + Rabs l + c i i)) by (apply Rmult_le_compat_r; lra).
  replace (12 * u * (1 + Rabs l + c i i)) with (u * (12 * (1 + Rabs l + c i i))) by ring. replace (13 * u * (1 + Rabs (h i) + r i)) with (u * (13 * (1 + Rabs (h i) + r i))) by ring. apply Rmult_le_compat_l; lra.
Qed.
Definition ff i k := if Nat.eqb k i then exp (h i) else c i k.
Lemma ff_diag i : (i < n)%nat -> Rabs (exp (h i) - c i i) <= 205 / 100 * (bb i * r i) /\ 0 < exp (h i) <= 1023 / 1000 * r i.
Proof.
  intros Hi. pose proof (bb_bound i Hi) as [b0 b1]. pose proof (cii_bound i Hi) as [C0 C1]. pose proof (exp_shift (h i) (ln (c i i)) (bb i) ltac:(lra) (log_close i Hi)) as E. rewrite exp_ln in E by lra.
  pose proof (exp_pos (h i)). pose proof (r_pos i Hi). assert (X : 2 * bb i * c i i <= 2 * bb i * (102 / 100 * r i)) by (apply Rmult_le_compat_l; lra). assert (0 < bb i * r i) by (apply Rmult_lt_0_compat; lra). split; [lra|]. split; [lra|].
  apply Rabs_le_inv in E. assert (Y : bb i * r i <= / 1000 * r i) by (apply Rmult_le_compat_r; lra). assert (Z : 2 * bb i * c i i <= 2 * / 1000 * (102 / 100 * r i)) by (apply Rmult_le_compat; lra). lra.
Qed.
Lemma ff_split i j (Hi : (i < n)%nat) (Hj : (j < n)%nat) : (j < i)%nat -> rsum n (fun k => ff i k * ff j k) = G i j + c i j * (exp (h j) - c j j).
Proof.
  intros H. rewrite (rsum_ext n (fun k => ff i k * ff j k) (fun k => c i k * c j k + (if Nat.eqb k j then c i j * (exp (h j) - c j j) else 0))).
  - rewrite rsum_plus. f_equal. apply (rsum_delta n j (fun _ => c i j * (exp (h j) - c j j)) Hj).
  - intros k Hk. unfold ff. destruct (Nat.eqb_spec k i) as [->|N1].
    + destruct (Nat.eqb_spec i j); [lia|]. rewrite (clow j i) by lia. ring.
    + destruct (Nat.eqb_spec k j) as [->|N2]; ring.
Qed.
Lemma ff_split_diag i (Hi : (i < n)%nat) : rsum n (fun k => ff i k * ff i k) = G i i + (exp (h i) * exp (h i) - c i i * c i i).
Proof.
  rewrite (rsum_ext n (fun k => ff i k * ff i k) (fun k => c i k * c i k + (if Nat.eqb k i then exp (h i) * exp (h i) - c i i * c i i else 0))).
  - rewrite rsum_plus. f_equal. apply (rsum_delta n i (fun _ => exp (h i) * exp (h i) - c i i * c i i) Hi).
  - intros k Hk. unfold ff. destruct (Nat.eqb_spec k i) as [->|N1]; ring.
Qed.
Lemma diag_sq i : (i < n)%nat -> Rabs (exp (h i) * exp (h i) - c i i * c i i) <= 43 / 10 * (bb i * (r i * r i)).
Proof.
  intros Hi. destruct (ff_diag i Hi) as [D [E0 E1]]. pose proof (cii_bound i Hi) as [C0 C1]. replace (exp (h i) * exp (h i) - c i i * c i i) with ((exp (h i) - c i i) * (exp (h i) + c i i)) by ring. rewrite Rabs_mult, (Rabs_pos_eq (exp (h i) + c i i)) by lra.
  pose proof (bb_bound i Hi). pose proof (r_pos i Hi). apply Rle_trans with (205 / 100 * (bb i * r i) * (2043 / 1000 * r i)).
  - apply Rmult_le_compat; [apply Rabs_pos|lra|exact D|lra].
  - replace (205 / 100 * (bb i * r i) * (2043 / 1000 * r i)) with (205 * 2043 / 100000 * (bb i * (r i * r i))) by field. assert (0 < bb i * (r i * r i)) by (apply Rmult_lt_0_compat; [lra|apply Rmult_lt_0_compat; lra]). lra.
Qed.
Lemma ff_gram i j : (i < n)%nat -> (j < n)%nat -> Rabs (rsum n (fun k => ff i k * ff j k) - G i j) <= 3 * ((bb i + bb j) * (r i * r j)).
Proof.
  assert (K : forall i j, (j < i)%nat -> (i < n)%nat -> Rabs (rsum n (fun k => ff i k * ff j k) - G i j) <= 3 * ((bb i + bb j) * (r i * r j))).
  { intros i' j' H Hi. assert (Hj : (j' < n)%nat) by lia. rewrite (ff_split i' j' Hi Hj H). replace (G i' j' + c i' j' * (exp (h j') - c j' j') - G i' j') with (c i' j' * (exp (h j') - c j' j')) by ring. rewrite Rabs_mult.
    destruct (ff_diag j' Hj) as [D _]. pose proof (c_bound i' j' Hi Hj) as C. pose proof (bb_bound i' Hi). pose proof (bb_bound j' Hj). pose proof (r_pos i' Hi). pose proof (r_pos j' Hj). assert (P : 0 < r i' * r j') by (apply Rmult_lt_0_compat; lra).
    apply Rle_trans with (102 / 100 * r i' * (205 / 100 * (bb j' * r j'))); [apply Rmult_le_compat; try apply Rabs_pos; assumption|].
    replace (102 / 100 * r i' * (205 / 100 * (bb j' * r j'))) with (102 * 205 / 10000 * bb j' * (r i' * r j')) by field. replace (3 * ((bb i' + bb j') * (r i' * r j'))) with (3 * (bb i' + bb j') * (r i' * r j')) by ring. apply Rmult_le_compat_r; lra. }
  intros Hi Hj. destruct (Nat.lt_trichotomy i j) as [L|[<-|L]].
  - pose proof (K j i L Hj) as Q. rewrite (rsum_ext n (fun k => ff i k * ff j k) (fun k => ff j k * ff i k)), (rsum_ext n (fun k => c i k * c j k) (fun k => c j k * c i k)) by (intros; ring). rewrite (Rplus_comm (bb i)), (Rmult_comm (r i)). exact Q.
  - rewrite (ff_split_diag i Hi). replace (G i i + (exp (h i) * exp (h i) - c i i * c i i) - G i i) with (exp (h i) * exp (h i) - c i i * c i i) by ring. pose proof (diag_sq i Hi). pose proof (bb_bound i Hi). pose proof (r_pos i Hi). assert (0 < bb i * (r i * r i)) by (apply Rmult_lt_0_compat; [lra|apply Rmult_lt_0_compat; lra]). lra.
  - exact (K i j L Hi).
Qed.
Lemma ff_squares i : (i < n)%nat -> rsum n (fun k => ff i k * ff i k) <= 103 / 100 * (r i * r i).
Proof.
  intros Hi. rewrite (ff_split_diag i Hi). pose proof (squares i Hi). pose proof (diag_sq i Hi) as D. apply Rabs_le_inv in D. pose proof (bb_bound i Hi). pose proof (r_pos i Hi). assert (P : 0 < r i * r i) by (apply Rmult_lt_0_compat; lra). assert (bb i * (r i * r i) <= / 1000 * (r i * r i)) by (apply Rmult_le_compat_r; lra). lra.
Qed.
Lemma ff_products i j : (i < n)%nat -> (j < n)%nat -> rsum n (fun k => Rabs (ff i k) * Rabs (ff j k)) <= 103 / 100 * (r i * r j).
Proof.
  intros Hi Hj. pose proof (r_pos i Hi). pose proof (r_pos j Hj). rewrite <- sqrt_two by lra. rewrite (rsum_ext n _ (fun k => Rabs (ff i k * ff j k))) by (intros; rewrite Rabs_mult; reflexivity).
  apply cauchy; [| |exact (ff_squares i Hi)|exact (ff_squares j Hj)]; apply Rmult_lt_0_compat; try lra; apply Rmult_lt_0_compat; lra.
Qed.
Lemma ff_bound i k : (i < n)%nat -> (k < n)%nat -> Rabs (ff i k) <= 103 / 100 * r i.
Proof.
  intros Hi Hk. unfold ff. pose proof (r_pos i Hi). destruct (Nat.eqb_spec k i); [|pose proof (c_bound i k Hi Hk); lra]. destruct (ff_diag i Hi) as [_ [E0 E1]]. rewrite Rabs_pos_eq; lra.
Qed.
(** ** the errors together; S is the size of the numbers the factor is computed from *)
Definition SS i k := Rabs (ff i k) + (if Nat.eqb k i then Rabs (h i) else 0).
Lemma SS_sum i j : (i < n)%nat -> (j < n)%nat -> rsum n (fun k => Rabs (ff i k) * SS j k) <= 103 / 100 * (r i * r j) + 103 / 100 * (r i * Rabs (h j)).
Proof.
  intros Hi Hj. rewrite (rsum_ext n _ (fun k => Rabs (ff i k) * Rabs (ff j k) + (if Nat.eqb k j then Rabs (ff i k) * Rabs (h j) else 0))) by (intros k Hk; unfold SS; destruct (Nat.eqb k j); ring).
  rewrite rsum_plus, (rsum_delta n j (fun k => Rabs (ff i k) * Rabs (h j)) Hj). pose proof (ff_products i j Hi Hj). pose proof (ff_bound i j Hi Hj) as F. apply Rmult_le_compat_r with (r := Rabs (h j)) in F; [|apply Rabs_pos]. lra.
Qed.
Lemma SS_SS i j : (i < n)%nat -> (j < n)%nat -> rsum n (fun k => SS i k * SS j k) <= 103 / 100 * (r i * r j) + 103 / 100 * (r i * Rabs (h j)) + 103 / 100 * (Rabs (h i) * r j) + Rabs (h i) * Rabs (h j).
Proof.
  intros Hi Hj. rewrite (rsum_ext n _ (fun k => Rabs (ff i k) * SS j k + (if Nat.eqb k i then Rabs (h i) * SS j k else 0))) by (intros k Hk; unfold SS; destruct (Nat.eqb k i); ring).
  rewrite rsum_plus, (rsum_delta n i (fun k => Rabs (h i) * SS j k) Hi). pose proof (SS_sum i j Hi Hj). pose proof (ff_bound j i Hj Hi) as F.
  assert (X : SS j i <= 103 / 100 * r j + Rabs (h j)) by (unfold SS; pose proof (Rabs_pos (h j)); destruct (Nat.eqb i j); lra). apply Rmult_le_compat_l with (r := Rabs (h i)) in X; [|apply Rabs_pos]. lra.
Qed.
Context (lb : R) (lb0 : 0 <= lb).
Definition EE i j := e * (rsum n (fun k => Rabs (ff i k) * SS j k + SS i k * Rabs (ff j k)) + (if Nat.eqb i j then lb else 0)) + e * e * rsum n (fun k => SS i k * SS j k) + t.
Lemma whole i j N : (i < n)%nat -> (j < n)%nat -> Rabs (N - (rsum n (fun k => ff i k * ff j k) + (if Nat.eqb i j then lb else 0))) <= EE i j ->
  Rabs (N - (B i j + (if Nat.eqb i j then lb else 0))) <= moved n lb r (fun i => Rabs (h i)) i j.
Proof.
  intros Hi Hj H. set (D := if Nat.eqb i j then lb else 0) in *. set (F := rsum n (fun k => ff i k * ff j k)) in *.
  replace (N - (B i j + D)) with ((N - (F + D)) + (F - G i j) + (G i j - A i j) + (A i j - B i j)) by ring.
  pose proof (ff_gram i j Hi Hj) as Q1. fold F in Q1. pose proof (gram_A i j Hi Hj) as Q2. pose proof (AB i j Hi Hj) as Q3. unfold EE in H.
  rewrite rsum_plus in H. rewrite (rsum_ext n (fun k => SS i k * Rabs (ff j k)) (fun k => Rabs (ff j k) * SS i k)) in H by (intros; ring).
  pose proof (SS_sum i j Hi Hj) as S1. pose proof (SS_sum j i Hj Hi) as S2. pose proof (SS_SS i j Hi Hj) as S3. fold D in H.
  set (s1 := rsum n (fun k => Rabs (ff i k) * SS j k)) in *. set (s2 := rsum n (fun k => Rabs (ff j k) * SS i k)) in *. set (s3 := rsum n (fun k => SS i k * SS j k)) in *.
  eapply Rle_trans; [apply Rabs_triang|]. eapply Rle_trans; [apply Rplus_le_compat_r, Rabs_triang|]. eapply Rle_trans; [apply Rplus_le_compat_r, Rplus_le_compat_r, Rabs_triang|].
  destruct er as [[e0 e1] e2]. small_u. pose proof (r_pos i Hi) as ri. pose proof (r_pos j Hj) as rj. pose proof (Rabs_pos (h i)) as hi. pose proof (Rabs_pos (h j)) as hj. unfold moved, bb in *. cbv beta.
  set (a := Rabs (h i)) in *. set (b := Rabs (h j)) in *. set (x := r i * r j) in *. set (y := r i * b) in *. set (z := a * r j) in *. replace (r j * a) with z in * by (unfold z; ring). replace (r j * r i) with x in * by (unfold x; ring).
  assert (x0 : 0 < x) by (apply Rmult_lt_0_compat; lra). assert (y0 : 0 <= y) by (apply Rmult_le_pos; lra). assert (z0 : 0 <= z) by (apply Rmult_le_pos; lra). assert (w0 : 0 <= a * b) by (apply Rmult_le_pos; lra). set (w := a * b) in *.
  assert (P1 : e * (s1 + s2 + D) <= e * (206 / 100 * x + 103 / 100 * y + 103 / 100 * z + D)) by (apply Rmult_le_compat_l; lra).
  assert (P2 : e * e * s3 <= e * e * (103 / 100 * x + 103 / 100 * y + 103 / 100 * z + w)) by (apply Rmult_le_compat_l; [apply Rmult_le_pos|]; lra).
  assert (P3 : e * e * (103 / 100 * x + 103 / 100 * y + 103 / 100 * z) <= / 100 * (e * (x + y + z))).
  { replace (e * e * (103 / 100 * x + 103 / 100 * y + 103 / 100 * z)) with ((e * (103 / 100)) * (e * (x + y + z))) by ring. apply Rmult_le_compat_r; [apply Rmult_le_pos; lra|lra]. }
  set (m := 2 + a + b + r i + r j). replace (13 * u * (1 + a + r i) + 13 * u * (1 + b + r j)) with (13 * u * m) in Q1 by (unfold m; ring).
  assert (m0 : 2 <= m) by (unfold m; lra). assert (X0 : 0 < x * m) by (apply Rmult_lt_0_compat; lra).
  assert (P4 : 3 * (13 * u * m * x) <= 125 / 100 * (e * (x * m))). { replace (3 * (13 * u * m * x)) with (39 * u * (x * m)) by ring. replace (125 / 100 * (e * (x * m))) with (125 / 100 * e * (x * m)) by ring. apply Rmult_le_compat_r; lra. }
  assert (P5 : e * x <= / 2 * (e * (x * m))). { replace (/ 2 * (e * (x * m))) with (e * (x * (m / 2))) by field. apply Rmult_le_compat_l; [lra|]. rewrite <- (Rmult_1_r x) at 1. apply Rmult_le_compat_l; lra. }
  assert (P6 : (if Nat.eqb i j then u * (r i * r i) else 0) <= / 32 * (e * x)).
  { destruct (Nat.eqb_spec i j) as [E|N0]; [|assert (0 < e * x) by (apply Rmult_lt_0_compat; lra); lra]. replace (r i * r i) with x by (unfold x; rewrite E; reflexivity). assert (32 * (u * x) <= e * x) by (rewrite <- Rmult_assoc; apply Rmult_le_compat_r; lra). lra. }
  assert (P7 : t + bpow radix2 (-1005) <= bpow radix2 (-1000)). { assert (t <= bpow radix2 (-1001)) by (apply bpow_le; lia). assert (bpow radix2 (-1005) <= bpow radix2 (-1001)) by (apply bpow_le; lia). replace (bpow radix2 (-1000)) with (2 * bpow radix2 (-1001)) by (change 2 with (bpow radix2 1) at 1; rewrite <- bpow_plus; reflexivity). lra. }
  assert (P8 : e * D = (if Nat.eqb i j then e * lb else 0)) by (unfold D; destruct (Nat.eqb i j); ring).
  assert (y1 : 0 <= e * y) by (apply Rmult_le_pos; lra). assert (z1 : 0 <= e * z) by (apply Rmult_le_pos; lra). assert (w1 : 0 <= e * e * w) by (apply Rmult_le_pos; [apply Rmult_le_pos; lra|lra]). assert (x1 : 0 < e * x) by (apply Rmult_lt_0_compat; lra).
  rewrite <- P8. lra.
Qed.
End Reals.
