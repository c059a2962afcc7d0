(** Gaussian elimination: the contracts of the linear solvers can be met. *)
From Coq Require Import Reals List Bool Arith Lia Lra.
From Verif Require Import Res RSum ModelObjective ModelSensitivity SpecSensitivity LemmasParameters LemmasProjection.
Import List ListNotations.
Open Scope R_scope.
Set Bullet Behavior "Strict Subproofs".

(** the first row with a nonzero entry in column 0 *)
Fixpoint pivot (n : nat) (A : nat -> nat -> R) : nat :=
  match n with O => O | S m => let r := pivot m A in if Req_EM_T (A r 0%nat) 0 then m else r end.
Definition swap (r i : nat) : nat := if Nat.eqb i 0 then r else if Nat.eqb i r then 0%nat else i.
Fixpoint gauss (n : nat) (A : nat -> nat -> R) (v : nat -> R) : nat -> R :=
  match n with
  | O => fun _ => 0
  | S m =>
      let r := pivot n A in
      let B := fun i j => A (swap r i) j in
      let w := fun i => v (swap r i) in
      let y := gauss m (fun i j => B (S i) (S j) - B (S i) 0%nat / B 0%nat 0%nat * B 0%nat (S j)) (fun i => w (S i) - B (S i) 0%nat / B 0%nat 0%nat * w 0%nat) in
      fun k => match k with O => (w 0%nat - rsum m (fun j => B 0%nat (S j) * y j)) / B 0%nat 0%nat | S j => y j end
  end.
Lemma pivot_ok n A : (0 < n)%nat -> (exists i, (i < n)%nat /\ A i 0%nat <> 0) -> (pivot n A < n)%nat /\ A (pivot n A) 0%nat <> 0.
Proof.
  induction n as [|m IH]; intros Hn [i [Hi Ni]]; [lia|]. cbn [pivot]. destruct (Req_EM_T (A (pivot m A) 0%nat) 0) as [E|N].
  - split; [lia|]. destruct (Nat.eq_dec i m) as [->|]; [exact Ni|]. exfalso. destruct IH as [_ Q]; [lia|exists i; split; [lia|exact Ni]|]. apply Q, E.
  - split; [|exact N]. assert (pivot m A <= m)%nat; [|lia]. clear. induction m as [|m IH]; [cbn; lia|]. cbn [pivot]. destruct (Req_EM_T _ _); lia.
Qed.
Lemma swap_inv r i : swap r (swap r i) = i.
Proof. unfold swap. destruct (Nat.eqb_spec i 0) as [->|N]; [|destruct (Nat.eqb_spec i r) as [->|M]]; cbn; try rewrite Nat.eqb_refl.
  - destruct (Nat.eqb_spec r 0); [assumption|]. reflexivity.
  - reflexivity.
  - destruct (Nat.eqb_spec i 0); [contradiction|]. destruct (Nat.eqb_spec i r); [contradiction|reflexivity].
Qed.
Lemma swap_lt r i n : (r < n)%nat -> (i < n)%nat -> (swap r i < n)%nat.
Proof. intros. unfold swap. destruct (Nat.eqb i 0); [assumption|]. destruct (Nat.eqb i r); lia. Qed.
Lemma classic_exists_lt n (f : nat -> R) : (exists k, (k < n)%nat /\ f k <> 0) \/ forall k, (k < n)%nat -> f k = 0.
Proof.
  induction n as [|n [[k [Hk Nk]]|IH]]; [right; intros; lia|left; exists k; split; [lia|exact Nk]|]. destruct (Req_EM_T (f n) 0) as [E|N]; [|left; exists n; split; [lia|exact N]]. right. intros k Hk. destruct (Nat.eq_dec k n) as [->|]; [exact E|apply IH; lia].
Qed.
Definition injective_mat (n : nat) (A : nat -> nat -> R) : Prop :=
  forall x : nat -> R, (forall i, (i < n)%nat -> rsum n (fun j => A i j * x j) = 0) -> forall i, (i < n)%nat -> x i = 0.
Lemma gauss_solves n : forall A v, injective_mat n A -> forall i, (i < n)%nat -> rsum n (fun j => A i j * gauss n A v j) = v i.
Proof.
  induction n as [|m IH]; intros A v Inj i Hi; [lia|].
  assert (P : exists k, (k < S m)%nat /\ A k 0%nat <> 0).
  { destruct (classic_exists_lt (S m) (fun k => A k 0%nat)) as [Q|Q]; [exact Q|]. exfalso. specialize (Inj (fun j => match j with O => 1 | _ => 0 end)). assert (1 = 0); [|lra]. apply (Inj) with (i := 0%nat); [|lia].
    intros k Hk. rewrite rsum_S_l. rewrite rsum_zero by (intros; ring). rewrite (Q k Hk). ring. }
  destruct (pivot_ok (S m) A) as [Pl Pn]; [lia|exact P|]. set (r := pivot (S m) A) in *.
  set (B := fun i j => A (swap r i) j). set (w := fun i => v (swap r i)).
  assert (B0 : B 0%nat 0%nat <> 0) by exact Pn.
  set (Sc := fun i j => B (S i) (S j) - B (S i) 0%nat / B 0%nat 0%nat * B 0%nat (S j)). set (wv := fun i => w (S i) - B (S i) 0%nat / B 0%nat 0%nat * w 0%nat).
  assert (G : gauss (S m) A v = fun k => match k with O => (w 0%nat - rsum m (fun j => B 0%nat (S j) * gauss m Sc wv j)) / B 0%nat 0%nat | S j => gauss m Sc wv j end) by reflexivity.
  rewrite G. clear G. set (y := gauss m Sc wv).
  assert (InjB : injective_mat (S m) B).
  { intros x Hx k Hk. apply Inj; [|exact Hk]. intros a Ha. rewrite <- (swap_inv r a). apply (Hx (swap r a)). apply swap_lt; assumption. }
  assert (InjS : injective_mat m Sc).
  { intros z Hz k Hk. apply (InjB (fun j => match j with O => - rsum m (fun j => B 0%nat (S j) * z j) / B 0%nat 0%nat | S j => z j end)) with (i := S k); [|lia].
    assert (Z0 : forall a, rsum (S m) (fun j => B a j * match j with O => - rsum m (fun j => B 0%nat (S j) * z j) / B 0%nat 0%nat | S j => z j end) = rsum m (fun j => B a (S j) * z j) - B a 0%nat / B 0%nat 0%nat * rsum m (fun j => B 0%nat (S j) * z j)).
    { intros a. rewrite rsum_S_l. field. exact B0. }
    intros [|a] Ha; rewrite Z0; [field; exact B0|]. rewrite <- rsum_scal_l, <- rsum_minus. rewrite <- (Hz a) by lia. apply rsum_ext. intros j Hj. unfold Sc. ring. }
  assert (Sol : forall a, (a < S m)%nat -> rsum (S m) (fun j => B a j * match j with O => (w 0%nat - rsum m (fun j => B 0%nat (S j) * y j)) / B 0%nat 0%nat | S j => y j end) = w a).
  { assert (Z0 : forall a, rsum (S m) (fun j => B a j * match j with O => (w 0%nat - rsum m (fun j => B 0%nat (S j) * y j)) / B 0%nat 0%nat | S j => y j end) = B a 0%nat / B 0%nat 0%nat * w 0%nat + (rsum m (fun j => B a (S j) * y j) - B a 0%nat / B 0%nat 0%nat * rsum m (fun j => B 0%nat (S j) * y j))).
    { intros a. rewrite rsum_S_l. field. exact B0. }
    intros [|a] Ha; rewrite Z0; [field; exact B0|]. rewrite <- rsum_scal_l, <- rsum_minus.
    rewrite (rsum_ext m _ (fun j => Sc a j * y j)) by (intros j Hj; unfold Sc; ring). unfold y. rewrite (IH Sc wv InjS a) by lia. unfold wv. ring. }
  specialize (Sol (swap r i) (swap_lt r i _ Pl Hi)). unfold B at 1, w at 2 in Sol. rewrite swap_inv in Sol. exact Sol.
Qed.

Definition gauss_solve (H : rmat2) (v : list R) : res (list R) := Ok (map (gauss (rm_rows H) (rm_get H) (fun i => nth i v 0)) (seq 0 (rm_rows H))).
Lemma nonsingular_injective n H : nonsingular n H -> injective_mat n (rm_get H).
Proof.
  intros [_ [_ I]] x Hx i Hi. specialize (I (map x (seq 0 n))). rewrite map_length, seq_length in I. rewrite <- (nth_map_seq x n i 0) by exact Hi. apply I; [reflexivity| |exact Hi].
  intros a Ha. rewrite <- (Hx a Ha). apply rsum_ext. intros j Hj. rewrite nth_map_seq by exact Hj. reflexivity.
Qed.
Lemma gauss_solves_systems : solves_systems gauss_solve.
Proof.
  intros n H v Hns Lv. pose proof Hns as [R1 [R2 _]]. unfold gauss_solve. rewrite R1. eexists. split; [reflexivity|]. split; [rewrite map_length, seq_length; reflexivity|]. intros i Hi.
  rewrite <- (gauss_solves n (rm_get H) (fun i => nth i v 0) (nonsingular_injective n H Hns) i Hi). apply rsum_ext. intros j Hj. rewrite nth_map_seq by exact Hj. reflexivity.
Qed.
Definition gauss_factor (H : rmat2) : res rmat2 := Ok H.
Definition gauss_cho_solve (H B : rmat2) : res rmat2 := Ok (RMat (rm_rows H) (rm_cols B) (fun i j => gauss (rm_rows H) (rm_get H) (fun k => rm_get B k j) i)).
Lemma gauss_cho_solves : cho_solves gauss_factor gauss_cho_solve.
Proof.
  intros n H c B Hc Hns _ Rb. injection Hc as <-. pose proof Hns as [R1 _]. unfold gauss_cho_solve. rewrite R1. eexists. split; [reflexivity|]. split; [reflexivity|]. split; [reflexivity|]. intros i j Hi Hj. cbn [rm_get].
  exact (gauss_solves n (rm_get H) (fun k => rm_get B k j) (nonsingular_injective n H Hns) i Hi).
Qed.
