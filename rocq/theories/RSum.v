(** Finite sums of reals over 0..n-1, with the usual algebra. *)
From Coq Require Import Reals List Lra Lia Arith.
Import ListNotations.
Open Scope R_scope.

Fixpoint rsum (n : nat) (f : nat -> R) : R :=
  match n with O => 0 | S m => rsum m f + f m end.

Lemma rsum_ext n f g : (forall i, (i < n)%nat -> f i = g i) -> rsum n f = rsum n g.
Proof.
  induction n as [|n IH]; intros H; simpl; [reflexivity|].
  rewrite IH by (intros; apply H; lia). rewrite H by lia. reflexivity.
Qed.
Lemma rsum_zero n f : (forall i, (i < n)%nat -> f i = 0) -> rsum n f = 0.
Proof.
  induction n as [|n IH]; intros H; simpl; [reflexivity|].
  rewrite IH by (intros; apply H; lia). rewrite H by lia. lra.
Qed.
Lemma rsum_plus n f g : rsum n (fun i => f i + g i) = rsum n f + rsum n g.
Proof. induction n as [|n IH]; simpl; [lra|]. rewrite IH; lra. Qed.
Lemma rsum_minus n f g : rsum n (fun i => f i - g i) = rsum n f - rsum n g.
Proof. induction n as [|n IH]; simpl; [lra|]. rewrite IH; lra. Qed.
Lemma rsum_opp n f : rsum n (fun i => - f i) = - rsum n f.
Proof. induction n as [|n IH]; simpl; [lra|]. rewrite IH; lra. Qed.
Lemma rsum_scal_l n c f : rsum n (fun i => c * f i) = c * rsum n f.
Proof. induction n as [|n IH]; simpl; [lra|]. rewrite IH; lra. Qed.
Lemma rsum_scal_r n c f : rsum n (fun i => f i * c) = rsum n f * c.
Proof. induction n as [|n IH]; simpl; [lra|]. rewrite IH; lra. Qed.
Lemma rsum_const n c : rsum n (fun _ => c) = INR n * c.
Proof. induction n as [|n IH]; [simpl; lra|]. rewrite S_INR. simpl rsum. rewrite IH; lra. Qed.
Lemma rsum_swap n m f :
  rsum n (fun i => rsum m (fun j => f i j)) = rsum m (fun j => rsum n (fun i => f i j)).
Proof.
  induction n as [|n IH]; simpl.
  - symmetry; apply rsum_zero; reflexivity.
  - rewrite IH, <- rsum_plus. apply rsum_ext; reflexivity.
Qed.
Lemma rsum_split n m f : rsum (n + m) f = rsum n f + rsum m (fun i => f (n + i)%nat).
Proof.
  induction m as [|m IH]; simpl.
  - rewrite Nat.add_0_r; lra.
  - rewrite Nat.add_succ_r; simpl; rewrite IH; lra.
Qed.
Lemma rsum_S_l n f : rsum (S n) f = f O + rsum n (fun i => f (S i)).
Proof. induction n as [|n IH]; [simpl; lra|]. simpl in *. lra. Qed.
Lemma rsum_single n k f : (k < n)%nat -> (forall i, (i < n)%nat -> i <> k -> f i = 0) -> rsum n f = f k.
Proof.
  induction n as [|n IH]; intros Hk H; [lia|]. simpl.
  destruct (Nat.eq_dec k n) as [->|Hne].
  - rewrite rsum_zero; [lra|]. intros i Hi; apply H; lia.
  - rewrite IH; [rewrite (H n) by lia; lra|lia|]. intros i Hi Hik; apply H; lia.
Qed.
Lemma rsum_delta n k f : (k < n)%nat -> rsum n (fun i => if Nat.eqb i k then f i else 0) = f k.
Proof.
  intros Hk. rewrite (rsum_single n k); [rewrite Nat.eqb_refl; reflexivity|exact Hk|].
  intros i _ Hi. apply Nat.eqb_neq in Hi. rewrite Hi; reflexivity.
Qed.
Lemma rsum_delta_r n k f : (k < n)%nat -> rsum n (fun i => if Nat.eqb k i then f i else 0) = f k.
Proof.
  intros Hk. rewrite (rsum_single n k); [rewrite Nat.eqb_refl; reflexivity|exact Hk|].
  intros i _ Hi. apply Nat.neq_sym, Nat.eqb_neq in Hi. rewrite Hi; reflexivity.
Qed.
Lemma rsum_nonneg n f : (forall i, (i < n)%nat -> 0 <= f i) -> 0 <= rsum n f.
Proof.
  induction n as [|n IH]; intros H; simpl; [lra|].
  assert (0 <= rsum n f) by (apply IH; intros; apply H; lia).
  assert (0 <= f n) by (apply H; lia). lra.
Qed.
Lemma rsum_pos n f : (0 < n)%nat -> (forall i, (i < n)%nat -> 0 < f i) -> 0 < rsum n f.
Proof.
  intros Hn H. destruct n as [|n]; [lia|]. simpl.
  assert (0 <= rsum n f) by (apply rsum_nonneg; intros; left; apply H; lia).
  assert (0 < f n) by (apply H; lia). lra.
Qed.
Lemma rsum_le n f g : (forall i, (i < n)%nat -> f i <= g i) -> rsum n f <= rsum n g.
Proof.
  induction n as [|n IH]; intros H; simpl; [lra|].
  assert (rsum n f <= rsum n g) by (apply IH; intros; apply H; lia).
  assert (f n <= g n) by (apply H; lia). lra.
Qed.
Lemma rsum_term_le n f k : (k < n)%nat -> (forall i, (i < n)%nat -> 0 <= f i) -> f k <= rsum n f.
Proof.
  induction n as [|n IH]; intros Hk H; [lia|]. simpl.
  destruct (Nat.eq_dec k n) as [->|].
  - assert (0 <= rsum n f) by (apply rsum_nonneg; intros; apply H; lia). lra.
  - assert (f k <= rsum n f) by (apply IH; [lia|intros; apply H; lia]).
    assert (0 <= f n) by (apply H; lia). lra.
Qed.
Lemma rsum_sq_zero n f : rsum n (fun i => f i * f i) = 0 -> forall i, (i < n)%nat -> f i = 0.
Proof.
  intros H i Hi.
  assert (f i * f i <= 0).
  { rewrite <- H. apply (rsum_term_le n (fun i => f i * f i)); [exact Hi|]. intros; nra. }
  nra.
Qed.
Lemma rsum_mult n m f g :
  rsum n f * rsum m g = rsum n (fun i => rsum m (fun j => f i * g j)).
Proof.
  rewrite <- rsum_scal_r. apply rsum_ext; intros i Hi. rewrite rsum_scal_l. reflexivity.
Qed.
Lemma rsum_Rabs n f : Rabs (rsum n f) <= rsum n (fun i => Rabs (f i)).
Proof.
  induction n as [|n IH]; simpl; [rewrite Rabs_R0; lra|].
  eapply Rle_trans; [apply Rabs_triang|]. lra.
Qed.

(** The sum of a list of reals, and its relation to [rsum]. *)
Definition lsum (l : list R) : R := fold_right Rplus 0 l.
Lemma lsum_app l1 l2 : lsum (l1 ++ l2) = lsum l1 + lsum l2.
Proof. induction l1 as [|x xs IH]; simpl; [lra|]. unfold lsum in *; simpl; lra. Qed.
Lemma lsum_map_seq n f : lsum (map f (seq 0 n)) = rsum n f.
Proof.
  induction n as [|n IH]; [reflexivity|].
  rewrite seq_S, map_app, lsum_app, IH. simpl. unfold lsum; simpl; lra.
Qed.
Lemma lsum_nth l : lsum l = rsum (length l) (fun i => nth i l 0).
Proof.
  induction l as [|x xs IH]; [reflexivity|].
  change (length (x :: xs)) with (S (length xs)). rewrite rsum_S_l.
  simpl. unfold lsum in *. simpl. rewrite IH. reflexivity.
Qed.
Lemma lsum_map_plus {A} (f g : A -> R) l : lsum (map (fun x => f x + g x) l) = lsum (map f l) + lsum (map g l).
Proof. induction l as [|x xs IH]; simpl; [lra|]. lra. Qed.
Lemma lsum_map_scal {A} c (f : A -> R) l : lsum (map (fun x => c * f x) l) = c * lsum (map f l).
Proof. induction l as [|x xs IH]; simpl; [lra|]. lra. Qed.
Lemma lsum_map_ext {A} (f g : A -> R) l : (forall x, In x l -> f x = g x) -> lsum (map f l) = lsum (map g l).
Proof.
  induction l as [|x xs IH]; simpl; intros H; [reflexivity|].
  rewrite H by (left; reflexivity). rewrite IH; [reflexivity|]. intros; apply H; right; assumption.
Qed.
Lemma lsum_flat_map {A} (f : A -> list R) l : lsum (flat_map f l) = lsum (map (fun x => lsum (f x)) l).
Proof. induction l as [|x xs IH]; simpl; [reflexivity|]. rewrite lsum_app, IH. reflexivity. Qed.
