(** Iterated integrals over positive definite matrices, and the Wishart density. *)
From Coq Require Import String Reals List Arith Lia Lra.
From Coquelicot Require Import Coquelicot.
From Verif Require Import Res Num Nd RSum ModelParameters ModelMatrix ModelDict ModelNumpy ModelExpFam ModelFamilies LemmasPosDef LemmasNumpy SpecMatrix SpecExpFam SpecFamilies SpecIntegral LemmasExpFam LemmasEntropy LemmasFamilies LemmasDet LemmasMvnBound LemmasGauss LemmasGamma LemmasBeta LemmasIntegral LemmasSpace.
Import List ListNotations.
Open Scope R_scope.
Set Bullet Behavior "Strict Subproofs".

(** ---- bordered matrices ---- *)
Section Border.
Variables (k : nat) (X : nat -> nat -> R) (x : nat -> R) (t : R).
Lemma border_in i j : (i < k)%nat -> (j < k)%nat -> border k X x t i j = X i j.
Proof. intros Hi Hj. unfold border. destruct (Nat.eqb_spec i k), (Nat.eqb_spec j k); try lia. reflexivity. Qed.
Lemma border_col i : (i < k)%nat -> border k X x t i k = x i.
Proof. intros Hi. unfold border. rewrite Nat.eqb_refl. destruct (Nat.eqb_spec i k); [lia|]. reflexivity. Qed.
Lemma border_row j : (j < k)%nat -> border k X x t k j = x j.
Proof. intros Hj. unfold border. rewrite Nat.eqb_refl. destruct (Nat.eqb_spec j k); [lia|]. reflexivity. Qed.
Lemma border_corner : border k X x t k k = t.
Proof. unfold border. rewrite Nat.eqb_refl. reflexivity. Qed.
Lemma border_sym : symmetric k X -> symmetric (S k) (border k X x t).
Proof. intros S i j Hi Hj. unfold border. destruct (Nat.eqb_spec i k), (Nat.eqb_spec j k); try reflexivity. apply S; lia. Qed.
Lemma rsum2_S M : rsum (S k) (fun i => rsum (S k) (fun j => M i j)) = rsum k (fun i => rsum k (fun j => M i j)) + rsum k (fun i => M i k) + rsum k (fun j => M k j) + M k k.
Proof. cbn [rsum]. rewrite rsum_plus. ring. Qed.
Lemma border_sum M : rsum (S k) (fun i => rsum (S k) (fun j => M i j * border k X x t i j)) = rsum k (fun i => rsum k (fun j => M i j * X i j)) + rsum k (fun i => (M i k + M k i) * x i) + M k k * t.
Proof.
  rewrite rsum2_S. rewrite border_corner. rewrite (rsum_ext k (fun i => rsum k (fun j => M i j * border k X x t i j)) (fun i => rsum k (fun j => M i j * X i j))) by (intros i Hi; apply rsum_ext; intros j Hj; rewrite border_in by assumption; reflexivity).
  rewrite (rsum_ext k (fun i => M i k * border k X x t i k) (fun i => M i k * x i)) by (intros i Hi; rewrite border_col by exact Hi; reflexivity).
  rewrite (rsum_ext k (fun j => M k j * border k X x t k j) (fun j => M k j * x j)) by (intros i Hi; rewrite border_row by exact Hi; reflexivity).
  rewrite (rsum_ext k (fun i => (M i k + M k i) * x i) (fun i => M i k * x i + M k i * x i)) by (intros; ring). rewrite rsum_plus. ring.
Qed.
End Border.
Lemma det_block k : forall X s, det (S k) (border k X (fun _ => 0) s) = det k X * s.
Proof.
  induction k as [|k IH]; intros X s; [cbn [det rsum]; unfold border; cbn; ring|].
  assert (E : det (S (S k)) (border (S k) X (fun _ => 0) s) = rsum (S k) (fun j => (-1) ^ j * X 0%nat j * det k (minor X j) * s)).
  { transitivity (rsum (S (S k)) (fun j => (-1) ^ j * border (S k) X (fun _ => 0) s 0%nat j * det (S k) (minor (border (S k) X (fun _ => 0) s) j))); [reflexivity|].
    transitivity (rsum (S k) (fun j => (-1) ^ j * border (S k) X (fun _ => 0) s 0%nat j * det (S k) (minor (border (S k) X (fun _ => 0) s) j)) + 0).
    { change (rsum (S (S k)) ?f) with (rsum (S k) f + f (S k)). cbv beta. rewrite (border_col (S k) X (fun _ => 0) s 0%nat) by lia. ring. }
    rewrite Rplus_0_r. apply rsum_ext. intros j Hj. rewrite border_in by lia. rewrite (Rmult_assoc _ (det k (minor X j)) s), <- (IH (minor X j) s). f_equal. apply det_ext. intros i c Hi Hc.
    unfold minor, border. destruct (Nat.ltb_spec c j); destruct (Nat.eqb_spec (S i) (S k)), (Nat.eqb_spec i k), (Nat.eqb_spec c k); try lia; repeat match goal with |- context [Nat.eqb ?a ?b] => destruct (Nat.eqb_spec a b) end; try lia; try reflexivity. }
  rewrite E, rsum_scal_r. reflexivity.
Qed.
Lemma det_border k X Y x t : symmetric k X -> inverse_of k X Y -> det (S k) (border k X x t) = det k X * (t - quad k Y x).
Proof.
  intros SX I. set (w := fun l => rsum k (fun j => Y l j * x j)). set (L := fun i j => if Nat.eqb i k then (if Nat.eqb j k then 1 else w j) else delta i j). set (s := t - quad k Y x).
  assert (W1 : forall i, (i < k)%nat -> rsum k (fun l => X i l * w l) = x i).
  { intros i Hi. unfold w. rewrite (rsum_ext k _ (fun l => rsum k (fun j => X i l * Y l j * x j))) by (intros l Hl; rewrite <- rsum_scal_l; apply rsum_ext; intros; ring).
    rewrite rsum_swap. rewrite (rsum_ext k _ (fun j => delta j i * x j)); [apply (pick1 k i x), Hi|]. intros j Hj. rewrite rsum_scal_r. f_equal. rewrite (proj1 (I i j Hi Hj)). unfold delta. rewrite Nat.eqb_sym. reflexivity. }
  assert (W2 : rsum k (fun l => x l * w l) = quad k Y x) by (unfold quad, w; apply rsum_ext; intros i Hi; rewrite <- rsum_scal_l; apply rsum_ext; intros; ring).
  assert (Lk : forall j, (j < k)%nat -> L k j = w j) by (intros j Hj; unfold L; rewrite Nat.eqb_refl; destruct (Nat.eqb_spec j k); [lia|reflexivity]).
  assert (Lkk : L k k = 1) by (unfold L; rewrite Nat.eqb_refl; reflexivity).
  assert (Li : forall i j, (i < k)%nat -> L i j = delta i j) by (intros i j Hi; unfold L; destruct (Nat.eqb_spec i k); [lia|reflexivity]).
  assert (E1 : forall i j, (i < S k)%nat -> (j < S k)%nat -> mmul (S k) L (border k X (fun _ => 0) s) i j = border k X (if Nat.eqb i k then x else fun _ => 0) s i j).
  { intros i j Hi Hj. unfold mmul. destruct (Nat.eq_dec i k) as [->|Ni].
    - rewrite Nat.eqb_refl. cbn [rsum]. rewrite Lkk. destruct (Nat.eq_dec j k) as [->|Nj].
      + rewrite !border_corner. rewrite rsum_zero; [ring|]. intros l Hl. rewrite border_col by exact Hl. ring.
      + rewrite !border_row by lia. rewrite (rsum_ext k _ (fun l => X j l * w l)); [rewrite W1 by lia; ring|]. intros l Hl. rewrite border_in, Lk by lia. rewrite (SX l j) by lia. ring.
    - destruct (Nat.eqb_spec i k); [lia|]. rewrite (rsum_ext (S k) _ (fun l => delta l i * border k X (fun _ => 0) s l j)) by (intros l Hl; rewrite Li by lia; unfold delta; rewrite Nat.eqb_sym; reflexivity). apply (pick1 (S k) i (fun l => border k X (fun _ => 0) s l j)). lia. }
  assert (E2 : forall i j, (i < S k)%nat -> (j < S k)%nat -> mmul (S k) (mmul (S k) L (border k X (fun _ => 0) s)) (fun a b => L b a) i j = border k X x t i j).
  { intros i j Hi Hj. unfold mmul at 1. rewrite (rsum_ext (S k) _ (fun l => border k X (if Nat.eqb i k then x else fun _ => 0) s i l * L j l)) by (intros l Hl; rewrite E1 by lia; reflexivity).
    destruct (Nat.eq_dec j k) as [->|Nj].
    - cbn [rsum]. rewrite Lkk. destruct (Nat.eq_dec i k) as [->|Ni].
      + rewrite Nat.eqb_refl, !border_corner. rewrite (rsum_ext k _ (fun l => x l * w l)); [rewrite W2; unfold s; ring|]. intros l Hl. rewrite border_row, Lk by exact Hl. reflexivity.
      + destruct (Nat.eqb_spec i k); [lia|]. rewrite !border_col by lia. rewrite (rsum_ext k _ (fun l => X i l * w l)); [rewrite W1 by lia; ring|]. intros l Hl. rewrite border_in, Lk by lia. reflexivity.
    - rewrite (rsum_ext (S k) _ (fun l => delta l j * border k X (if Nat.eqb i k then x else fun _ => 0) s i l)) by (intros l Hl; rewrite Li by lia; unfold delta; rewrite (Nat.eqb_sym j l); ring).
      rewrite (pick1 (S k) j (fun l => border k X (if Nat.eqb i k then x else fun _ => 0) s i l)) by lia. destruct (Nat.eqb_spec i k) as [->|Ni]; [rewrite !border_row by lia; reflexivity|]. rewrite !border_in by lia. reflexivity. }
  rewrite <- (det_ext (S k) _ _ E2), !det_mmul, det_block.
  rewrite (det_lower (S k) L) by (intros i j Hi Hj; rewrite Li by lia; unfold delta; destruct (Nat.eqb_spec i j); [lia|reflexivity]).
  rewrite (det_upper (S k) (fun a b => L b a)) by (intros i j Hi Hj; rewrite Li by lia; unfold delta; destruct (Nat.eqb_spec j i); [lia|reflexivity]).
  assert (U : rprod (S k) (fun i => L i i) = 1) by (cbn [rprod]; rewrite Lkk; rewrite (rprod_ext k _ (fun _ => 1)) by (intros i Hi; rewrite Li by exact Hi; unfold delta; rewrite Nat.eqb_refl; reflexivity); rewrite rprod_const1; ring).
  rewrite U. unfold s. ring.
Qed.
Lemma quad_shift k X Y x t z : symmetric k X -> inverse_of k X Y -> quad (S k) (border k X x t) z = quad k X (fun i => z i + z k * rsum k (fun j => Y i j * x j)) + (t - quad k Y x) * (z k * z k).
Proof.
  intros SX I. set (w := fun l => rsum k (fun j => Y l j * x j)). set (c := z k).
  assert (W1 : forall i, (i < k)%nat -> rsum k (fun l => X i l * w l) = x i).
  { intros i Hi. unfold w. rewrite (rsum_ext k _ (fun l => rsum k (fun j => X i l * Y l j * x j))) by (intros l Hl; rewrite <- rsum_scal_l; apply rsum_ext; intros; ring).
    rewrite rsum_swap. rewrite (rsum_ext k _ (fun j => delta j i * x j)); [apply (pick1 k i x), Hi|]. intros j Hj. rewrite rsum_scal_r. f_equal. rewrite (proj1 (I i j Hi Hj)). unfold delta. rewrite Nat.eqb_sym. reflexivity. }
  assert (W2 : rsum k (fun l => x l * w l) = quad k Y x) by (unfold quad, w; apply rsum_ext; intros i Hi; rewrite <- rsum_scal_l; apply rsum_ext; intros; ring).
  assert (Q : quad k X (fun i => z i + c * w i) = quad k X z + 2 * c * rsum k (fun i => z i * x i) + c * c * quad k Y x).
  { rewrite <- W2. unfold quad. rewrite (rsum_ext k _ (fun i => rsum k (fun j => z i * X i j * z j) + c * (z i * rsum k (fun j => X i j * w j)) + c * rsum k (fun j => w i * X i j * z j) + c * c * (w i * rsum k (fun j => X i j * w j)))).
    - rewrite !rsum_plus, !rsum_scal_l. rewrite (rsum_ext k (fun i => z i * rsum k (fun j => X i j * w j)) (fun i => z i * x i)) by (intros i Hi; rewrite W1 by exact Hi; reflexivity).
      rewrite (rsum_ext k (fun i => w i * rsum k (fun j => X i j * w j)) (fun i => x i * w i)) by (intros i Hi; rewrite W1 by exact Hi; ring).
      rewrite (rsum_swap k k (fun i j => w i * X i j * z j)). rewrite (rsum_ext k (fun j => rsum k (fun i => w i * X i j * z j)) (fun j => z j * x j)); [ring|].
      intros j Hj. rewrite rsum_scal_r, Rmult_comm. f_equal. rewrite <- (W1 j Hj). apply rsum_ext. intros i Hi. rewrite (SX i j Hi Hj). ring.
    - intros i Hi. rewrite <- !rsum_scal_l, <- !rsum_plus. apply rsum_ext. intros j Hj. ring. }
  change (quad (S k) (border k X x t) z = quad k X (fun i => z i + c * w i) + (t - quad k Y x) * (c * c)). rewrite Q. unfold quad at 1. rewrite (rsum_ext (S k) _ (fun i => rsum (S k) (fun j => (z i * z j) * border k X x t i j))) by (intros i Hi; apply rsum_ext; intros; ring).
  rewrite (border_sum k X x t (fun i j => z i * z j)). fold c. rewrite (rsum_ext k (fun i => (z i * c + c * z i) * x i) (fun i => 2 * c * (z i * x i))) by (intros; ring). rewrite rsum_scal_l.
  unfold quad at 1. rewrite (rsum_ext k (fun i => rsum k (fun j => z i * z j * X i j)) (fun i => rsum k (fun j => z i * X i j * z j))) by (intros i Hi; apply rsum_ext; intros; ring). ring.
Qed.
Lemma posdef_border k X Y x : symmetric k X -> posdef k X -> inverse_of k X Y -> forall t, posdef (S k) (border k X x t) <-> quad k Y x < t.
Proof.
  intros SX P I t. split.
  - intros H. assert (K : 0 < quad (S k) (border k X x t) (fun i => if Nat.eqb i k then 1 else - rsum k (fun j => Y i j * x j))) by (apply H; exists k; split; [lia|rewrite Nat.eqb_refl; lra]).
    rewrite (quad_shift k X Y x t _ SX I), Nat.eqb_refl in K. replace (quad k X _) with 0 in K; [lra|]. symmetry. unfold quad. apply rsum_zero. intros i Hi. apply rsum_zero. intros j Hj. destruct (Nat.eqb_spec i k); [lia|]. ring.
  - intros H z [i [Hi N]]. rewrite (quad_shift k X Y x t z SX I). destruct (Req_dec (z k) 0) as [Z|Z].
    + rewrite Z. assert (K : 0 < quad k X (fun i => z i + 0 * rsum k (fun j => Y i j * x j))); [|lra]. apply P. exists i. assert (i <> k) by (intros ->; contradiction). split; [lia|]. lra.
    + pose proof (posdef_nonneg k X (fun i => z i + z k * rsum k (fun j => Y i j * x j)) P). assert (0 < z k * z k) by (apply Rsqr_pos_lt, Z). assert (0 < (t - quad k Y x) * (z k * z k)) by (apply Rmult_lt_0_compat; lra). lra.
Qed.
(** ---- the inverse of a bordered matrix ---- *)
Definition schur (k : nat) (A : nat -> nat -> R) (i j : nat) : R := A i j - A k i * A k j / A k k.
Section Schur.
Variables (k : nat) (A V : nat -> nat -> R).
Hypotheses (SA : symmetric (S k) A) (PA : posdef (S k) A) (I : inverse_of (S k) A V).
Lemma corner_pos : 0 < A k k.
Proof. apply (posdef_diag (S k)); [exact PA|lia]. Qed.
Lemma inv_row j : (j < k)%nat -> rsum k (fun l => A k l * V l j) = - (A k k * V k j).
Proof. intros Hj. pose proof (proj1 (I k j ltac:(lia) ltac:(lia))) as H. cbn [rsum] in H. unfold delta in H. destruct (Nat.eqb_spec k j); [lia|]. lra. Qed.
Lemma inv_corner : rsum k (fun l => A k l * V l k) = 1 - A k k * V k k.
Proof. pose proof (proj1 (I k k ltac:(lia) ltac:(lia))) as H. cbn [rsum] in H. unfold delta in H. rewrite Nat.eqb_refl in H. lra. Qed.
Lemma inv_sym : symmetric (S k) V.
Proof. exact (inverse_sym (S k) A V SA I). Qed.
Lemma schur_sym : symmetric k (schur k A).
Proof. intros i j Hi Hj. unfold schur. rewrite (SA i j) by lia. unfold Rdiv. ring. Qed.
Lemma schur_quad u : quad k (schur k A) u = quad (S k) A (fun i => if Nat.eqb i k then - rsum k (fun j => A k j * u j) / A k k else u i).
Proof.
  set (r := rsum k (fun j => A k j * u j)). pose proof corner_pos as C.
  assert (E : quad k (schur k A) u = quad k A u - / A k k * (r * r)).
  { unfold quad, schur. unfold r at 1. rewrite <- rsum_scal_r, <- rsum_scal_l. rewrite <- rsum_minus. apply rsum_ext. intros i Hi. rewrite (rsum_ext k _ (fun j => u i * A i j * u j - / A k k * (A k i * u i) * (A k j * u j))) by (intros; field; lra).
    rewrite rsum_minus, rsum_scal_l. fold r. ring. }
  rewrite E. unfold quad at 2. rewrite rsum2_S. rewrite Nat.eqb_refl.
  assert (F : forall i, (i < k)%nat -> (Nat.eqb i k) = false) by (intros i Hi; destruct (Nat.eqb_spec i k); [lia|reflexivity]).
  rewrite (rsum_ext k (fun i => rsum k _) (fun i => rsum k (fun j => u i * A i j * u j))) by (intros i Hi; apply rsum_ext; intros j Hj; rewrite !F by assumption; reflexivity).
  rewrite (rsum_ext k (fun i => (if Nat.eqb i k then _ else u i) * A i k * (- r / A k k)) (fun i => A k i * u i * (- r / A k k))) by (intros i Hi; rewrite F, (SA i k) by lia; ring).
  rewrite (rsum_ext k (fun j => - r / A k k * A k j * _) (fun i => A k i * u i * (- r / A k k))) by (intros i Hi; rewrite F by lia; ring). rewrite !rsum_scal_r. fold r. unfold quad. field. lra.
Qed.
Lemma schur_posdef : posdef k (schur k A).
Proof. intros u [i [Hi N]]. rewrite schur_quad. apply PA. exists i. split; [lia|]. destruct (Nat.eqb_spec i k); [lia|exact N]. Qed.
Lemma schur_inverse : inverse_of k (schur k A) V.
Proof.
  pose proof corner_pos as C. pose proof inv_sym as SV.
  assert (L : forall i j, (i < k)%nat -> (j < k)%nat -> rsum k (fun l => schur k A i l * V l j) = delta i j).
  { intros i j Hi Hj. unfold schur. rewrite (rsum_ext k _ (fun l => A i l * V l j - A k i / A k k * (A k l * V l j))) by (intros; field; lra). rewrite rsum_minus, rsum_scal_l, inv_row by exact Hj.
    pose proof (proj1 (I i j ltac:(lia) ltac:(lia))) as H. cbn [rsum] in H. rewrite <- H, (SA i k) by lia. field. lra. }
  intros i j Hi Hj. split; [apply L; assumption|]. rewrite (rsum_ext k _ (fun l => schur k A j l * V l i)); [rewrite L by assumption; unfold delta; rewrite Nat.eqb_sym; reflexivity|].
  intros l Hl. rewrite (schur_sym l j), (SV i l) by lia. ring.
Qed.
Lemma schur_corner : V k k - quad k (schur k A) (fun i => V k i) = / A k k.
Proof.
  pose proof corner_pos as C. pose proof inv_sym as SV.
  assert (E : forall i, (i < k)%nat -> rsum k (fun j => schur k A i j * V k j) = - (A k i / A k k)).
  { intros i Hi. unfold schur. rewrite (rsum_ext k _ (fun l => A i l * V l k - A k i / A k k * (A k l * V l k))) by (intros l Hl; rewrite (SV k l) by lia; field; lra). rewrite rsum_minus, rsum_scal_l, inv_corner.
    pose proof (proj1 (I i k ltac:(lia) ltac:(lia))) as H. cbn [rsum] in H. unfold delta in H. destruct (Nat.eqb_spec i k); [lia|]. rewrite (SA i k) in H by lia. replace (rsum k (fun l => A i l * V l k)) with (- (A k i * V k k)) by lra. field. lra. }
  unfold quad. rewrite (rsum_ext k _ (fun i => - / A k k * (A k i * V i k))). 2:{ intros i Hi. rewrite (rsum_ext k _ (fun j => V k i * (schur k A i j * V k j))) by (intros; ring). rewrite rsum_scal_l, E, (SV k i) by lia. field. lra. }
  rewrite rsum_scal_l, inv_corner. field. lra.
Qed.
Lemma det_inv_step : det (S k) V = det k V / A k k.
Proof.
  pose proof corner_pos as C. pose proof inv_sym as SV. rewrite (det_ext (S k) V (border k V (fun i => V k i) (V k k))).
  - rewrite (det_border k V (schur k A)); [rewrite schur_corner; reflexivity|intros i j Hi Hj; apply SV; lia|apply inverse_symm, schur_inverse].
  - intros i j Hi Hj. unfold border. destruct (Nat.eqb_spec i k) as [->|], (Nat.eqb_spec j k) as [->|]; try reflexivity. apply SV; lia.
Qed.
End Schur.

(** ---- integrals over the half line beyond b and over the cone ---- *)
Lemma half_shift (f : R -> R) v b : half_line (fun s => f (b + s)) v -> is_RInt_gen f (at_right b) (Rbar_locally p_infty) v.
Proof.
  intros H P HP. specialize (H P HP). unfold filtermapi in *. destruct H as [Q S [e Q'] [N S'] H].
  apply (Filter_prod _ _ _ (fun x => Q (1 * x + - b)) (fun y => S (1 * y + - b))).
  - exists e. intros x B X. apply Q'; [|lra]. change (Rabs (1 * x + - b - 0) < e). change (Rabs (x - b) < e) in B. replace (1 * x + - b - 0) with (x - b) by ring. exact B.
  - exists (N + b). intros x Hx. apply S'. lra.
  - intros a c Qa Sc. destruct (H _ _ Qa Sc) as [y [Hy Py]]. exists y. split; [|exact Py]. cbn [fst snd] in *.
    apply (is_RInt_ext (fun x => scal 1 ((fun s => f (b + s)) (1 * x + - b)))).
    + intros x _. change (1 * f (b + (1 * x + - b)) = f x). rewrite Rmult_1_l. f_equal. ring.
    + apply (is_RInt_comp_lin (fun s => f (b + s)) 1 (- b) a c y). exact Hy.
Qed.
Lemma beyond_ends b (P : R -> R -> Prop) : (forall x y, b < x < b + 1 -> b + 1 < y -> P x y) -> filter_prod (at_right b) (Rbar_locally p_infty) (fun ab => P (fst ab) (snd ab)).
Proof.
  intros H. apply (Filter_prod _ _ _ (fun a => b < a < b + 1) (fun y => b + 1 < y)).
  - exists (mkposreal 1 Rlt_0_1). intros x B X. change (Rabs (x - b) < 1) in B. apply Rabs_def2 in B. lra.
  - exists (b + 1). intros y Y. exact Y.
  - intros x y. apply H.
Qed.
Lemma beyond_ext b (f g : R -> R) v : (forall x, b < x -> f x = g x) -> is_RInt_gen f (at_right b) (Rbar_locally p_infty) v -> is_RInt_gen g (at_right b) (Rbar_locally p_infty) v.
Proof.
  intros E H. apply (is_RInt_gen_ext (V := R_NormedModule) f g v); [|exact H].
  apply (beyond_ends b (fun u w => forall x, Rmin u w < x < Rmax u w -> f x = g x)). intros u w A B x X. apply E. rewrite Rmin_left, Rmax_right in X by lra. lra.
Qed.
Lemma beyond_unique b (f : R -> R) v w : is_RInt_gen f (at_right b) (Rbar_locally p_infty) v -> is_RInt_gen f (at_right b) (Rbar_locally p_infty) w -> v = w.
Proof.
  intros H K. pose proof (is_RInt_gen_unique (V := R_CompleteNormedModule) f v H) as E1. pose proof (is_RInt_gen_unique (V := R_CompleteNormedModule) f w K) as E2.
  exact (eq_trans (eq_sym E1) E2).
Qed.
Lemma extensions_ext k X f g v : symmetric k X -> (forall B, symmetric (S k) B -> posdef (S k) B -> f B = g B) -> extensions k X f v -> extensions k X g v.
Proof.
  intros SX E [h [H1 H2]]. exists h. split; [|exact H2]. intros x. destruct (H1 x) as [b [P I]]. exists b. split; [exact P|]. eapply beyond_ext; [|exact I].
  intros t Ht. cbv beta. apply E; [apply border_sym, SX|apply P, Ht].
Qed.
Lemma bound_unique (P : R -> Prop) b c : (forall t, P t <-> b < t) -> (forall t, P t <-> c < t) -> b = c.
Proof.
  intros H K. destruct (Rtotal_order b c) as [L|[L|L]]; [|exact L|]; exfalso.
  - assert (Q : b < (b + c) / 2) by lra. apply H, K in Q. lra.
  - assert (Q : c < (b + c) / 2) by lra. apply K, H in Q. lra.
Qed.
Lemma extensions_unique k X f v w : extensions k X f v -> extensions k X f w -> v = w.
Proof.
  intros [h [H1 H2]] [l [L1 L2]]. apply (space_unique k h v w H2). eapply space_ext; [|exact L2]. intros x. destruct (H1 x) as [b [P I]]. destruct (L1 x) as [c [Q J]].
  assert (b = c) as <- by (eapply bound_unique; [exact P|exact Q]). exact (beyond_unique _ _ _ _ J I).
Qed.
Lemma cone_ext n f g v : (forall X, symmetric n X -> posdef n X -> f X = g X) -> cone n f v -> cone n g v.
Proof.
  destruct n as [|k]; cbn [cone]; intros E H.
  - rewrite <- E; [exact H|intros i j Hi; lia|intros x [i [Hi _]]; lia].
  - destruct H as [h [H1 H2]]. exists h. split; [|exact H2]. intros X SX PX. eapply extensions_ext; [exact SX|exact E|apply H1; assumption].
Qed.
Lemma cone_unique n f v w : cone n f v -> cone n f w -> v = w.
Proof.
  revert f v w. induction n as [|k IH]; intros f v w H K; cbn [cone] in *; [congruence|]. destruct H as [g [H1 H2]]. destruct K as [h [K1 K2]]. apply (IH g v w H2).
  eapply cone_ext; [|exact K2]. intros X SX PX. exact (extensions_unique _ _ _ _ _ (K1 X SX PX) (H1 X SX PX)).
Qed.

(** ---- one step: the last row of a Wishart matrix given the others is a normal column and a gamma variable ---- *)
Section Step.
Variables (LG PSI : R -> R).
Hypotheses (HL : log_gamma LG) (HP : digamma_of LG PSI).
Variables (k : nat) (df : R) (A V X Y : nat -> nat -> R).
Hypotheses (Hd : INR k < df) (SA : symmetric (S k) A) (PA : posdef (S k) A) (IA : inverse_of (S k) A V).
Hypotheses (SX : symmetric k X) (PX : posdef k X) (IX : inverse_of k X Y).
Let c := A k k.
Let mean := fun i => - / c * rsum k (fun j => X i j * A k j).
Let prec := fun i j => c * Y i j.
Let alpha := (df - INR k) / 2.
Lemma c_pos : 0 < c.
Proof. exact (corner_pos k A PA). Qed.
Lemma SY : symmetric k Y.
Proof. exact (inverse_sym k X Y SX IX). Qed.
Lemma prec_sym : symmetric k prec.
Proof. intros i j Hi Hj. unfold prec. rewrite (SY i j Hi Hj). reflexivity. Qed.
Lemma prec_quad x : quad k prec x = c * quad k Y x.
Proof. unfold quad, prec. rewrite <- rsum_scal_l. apply rsum_ext. intros i Hi. rewrite <- rsum_scal_l. apply rsum_ext. intros; ring. Qed.
Lemma prec_posdef : posdef k prec.
Proof. intros x Nx. rewrite prec_quad. apply Rmult_lt_0_compat; [apply c_pos|]. exact (inverse_posdef k X Y SX PX IX x Nx). Qed.
Lemma prec_inverse : inverse_of k prec (fun i j => / c * X i j).
Proof.
  pose proof c_pos. intros i j Hi Hj. unfold prec. destruct (IX i j Hi Hj) as [I1 I2]. split.
  - rewrite <- I2. apply rsum_ext. intros; field; lra.
  - rewrite <- I1. apply rsum_ext. intros; field; lra.
Qed.
Lemma prec_det : ln (det k prec) = INR k * ln c - ln (det k X).
Proof.
  pose proof c_pos as C. pose proof (posdef_det k X SX PX) as D. pose proof (det_inverse k X Y IX) as E.
  assert (F : det k prec = c ^ k * det k Y). { unfold prec. rewrite (det_ext k _ (fun i j => c * 1 * Y i j)) by (intros; ring). rewrite (det_scale k Y (fun _ => c) (fun _ => 1)), rprod_const1, Rmult_1_r. f_equal. assert (Pw : forall n, rprod n (fun _ => c) = c ^ n) by (intros n; induction n as [|n IHn]; cbn [rprod pow]; [reflexivity|rewrite IHn; ring]). apply Pw. }
  assert (G : det k Y = / det k X) by (apply (Rmult_eq_reg_l (det k X)); [rewrite E; field; lra|lra]).
  rewrite F, G, ln_mult by (try apply Rinv_0_lt_compat; try apply pow_lt; lra). rewrite ln_Rinv, ln_pow by lra. ring.
Qed.
(** Y applied to the mean *)
Lemma Y_mean i : (i < k)%nat -> rsum k (fun j => Y i j * mean j) = - / c * A k i.
Proof.
  intros Hi. unfold mean. rewrite (rsum_ext k _ (fun j => - / c * rsum k (fun l => Y i j * X j l * A k l))) by (intros j Hj; rewrite (rsum_ext k (fun l => Y i j * X j l * A k l) (fun l => Y i j * (X j l * A k l))) by (intros; ring); rewrite rsum_scal_l; ring).
  rewrite rsum_scal_l. f_equal. rewrite rsum_swap. rewrite (rsum_ext k _ (fun l => delta l i * A k l)); [apply (pick1 k i (fun l => A k l)), Hi|]. intros l Hl. rewrite rsum_scal_r, (proj2 (IX i l Hi Hl)). unfold delta. rewrite Nat.eqb_sym. reflexivity.
Qed.
Lemma quad_Y x : quad k Y x = quad k Y mean - 2 * / c * rsum k (fun i => A k i * (x i - mean i)) + rsum k (fun i => rsum k (fun j => Y i j * ((x i - mean i) * (x j - mean j)))).
Proof.
  assert (E : forall i j, (x i) * Y i j * x j = mean i * Y i j * mean j + (x i - mean i) * (Y i j * mean j) + (x j - mean j) * (Y i j * mean i) + Y i j * ((x i - mean i) * (x j - mean j))) by (intros; ring).
  unfold quad at 1. rewrite (rsum_ext k _ (fun i => rsum k (fun j => mean i * Y i j * mean j) + (x i - mean i) * rsum k (fun j => Y i j * mean j) + rsum k (fun j => (x j - mean j) * (Y i j * mean i)) + rsum k (fun j => Y i j * ((x i - mean i) * (x j - mean j))))).
  2:{ intros i Hi. rewrite <- rsum_scal_l, <- !rsum_plus. apply rsum_ext. intros j Hj. apply E. }
  rewrite !rsum_plus. fold (quad k Y mean). rewrite (rsum_swap k k (fun i j => (x j - mean j) * (Y i j * mean i))).
  rewrite (rsum_ext k (fun i => (x i - mean i) * rsum k (fun j => Y i j * mean j)) (fun i => - / c * (A k i * (x i - mean i)))) by (intros i Hi; rewrite Y_mean by exact Hi; ring).
  rewrite (rsum_ext k (fun j => rsum k (fun i => (x j - mean j) * (Y i j * mean i))) (fun i => - / c * (A k i * (x i - mean i)))).
  2:{ intros j Hj. rewrite rsum_scal_l. rewrite (rsum_ext k _ (fun i => Y j i * mean i)) by (intros i Hi; rewrite (SY i j Hi Hj); reflexivity). rewrite Y_mean by exact Hj. ring. }
  rewrite !rsum_scal_l. ring.
Qed.
Lemma quad_Y_mean : quad k Y mean = / c * / c * quad k X (fun i => A k i).
Proof.
  unfold quad at 1. rewrite (rsum_ext k _ (fun i => - / c * A k i * mean i)). 2:{ intros i Hi. rewrite (rsum_ext k _ (fun j => mean i * (Y i j * mean j))) by (intros; ring). rewrite rsum_scal_l, Y_mean by exact Hi. ring. }
  unfold quad, mean. rewrite <- rsum_scal_l. apply rsum_ext. intros i Hi. rewrite (rsum_ext k (fun j => A k i * X i j * A k j) (fun j => A k i * (X i j * A k j))) by (intros; ring). rewrite rsum_scal_l. ring.
Qed.
Lemma quad_prec x : quad k prec (fun i => x i - mean i) = c * quad k Y x + 2 * rsum k (fun i => A k i * x i) + / c * quad k X (fun i => A k i).
Proof.
  pose proof c_pos. rewrite prec_quad, (quad_Y x), quad_Y_mean. unfold quad at 1. rewrite (rsum_ext k (fun i => rsum k (fun j => (x i - mean i) * Y i j * (x j - mean j))) (fun i => rsum k (fun j => Y i j * ((x i - mean i) * (x j - mean j))))) by (intros i Hi; apply rsum_ext; intros; ring).
  rewrite (rsum_ext k (fun i => A k i * (x i - mean i)) (fun i => A k i * x i - A k i * mean i)) by (intros; ring). rewrite rsum_minus.
  assert (E : rsum k (fun i => A k i * mean i) = - / c * quad k X (fun i => A k i)). { unfold quad, mean. rewrite <- rsum_scal_l. apply rsum_ext. intros i Hi. rewrite (rsum_ext k (fun j => A k i * X i j * A k j) (fun j => A k i * (X i j * A k j))) by (intros; ring). rewrite rsum_scal_l. ring. }
  rewrite E. field. lra.
Qed.
Lemma V_det : ln (det (S k) V) = ln (det k V) - ln c /\ 0 < det k V.
Proof.
  pose proof c_pos as C. assert (D : 0 < det k V).
  { apply posdef_det; [intros i j Hi Hj; apply (inverse_sym (S k) A V SA IA); lia|]. eapply inverse_posdef; [| |apply (schur_inverse k A V SA PA IA)]; [apply schur_sym; exact SA|apply schur_posdef; assumption]. }
  split; [|exact D]. rewrite (det_inv_step k A V SA PA IA). unfold Rdiv. rewrite ln_mult by (try apply Rinv_0_lt_compat; try exact D; exact C). rewrite ln_Rinv by exact C. reflexivity.
Qed.
Lemma wishart_factor x s : 0 < s -> wishart_pdf LG (S k) df V A (border k X x (quad k Y x + s)) = wishart_pdf LG k df V (schur k A) X * (mvn_pdf k mean prec x * gamma_pdf LG alpha (c / 2) s).
Proof.
  intros Hs. pose proof c_pos as C. pose proof (posdef_det k X SX PX) as D. destruct V_det as [DV DV'].
  unfold wishart_pdf, wishart_kernel, mvn_pdf, mvn_kernel, gamma_pdf, Rpower, Rdiv. rewrite <- exp_Ropp, <- !exp_plus. f_equal.
  rewrite (det_border k X Y x _ SX IX). replace (quad k Y x + s - quad k Y x) with s by ring. rewrite ln_mult by assumption.
  rewrite quad_prec. unfold mvn_log_norm. rewrite prec_det. unfold wishart_log_norm, log_multigamma. rewrite DV, (ln_mult 2 PI) by (try apply PI_RGT_0; lra). rewrite (ln_mult c (/ 2)) by lra. rewrite (ln_Rinv 2) by lra.
  assert (T : rsum (S k) (fun i => rsum (S k) (fun j => A i j * border k X x (quad k Y x + s) j i)) = rsum k (fun i => rsum k (fun j => A i j * X j i)) + 2 * rsum k (fun i => A k i * x i) + c * (quad k Y x + s)).
  { rewrite (rsum_ext (S k) _ (fun i => rsum (S k) (fun j => A i j * border k X x (quad k Y x + s) i j))). 2:{ intros i Hi. apply rsum_ext. intros j Hj. rewrite (border_sym k X x _ SX j i Hj Hi). reflexivity. }
    rewrite border_sum. rewrite (rsum_ext k (fun i => (A i k + A k i) * x i) (fun i => 2 * (A k i * x i))) by (intros i Hi; rewrite (SA i k) by lia; ring). rewrite rsum_scal_l. fold c. f_equal. f_equal. apply rsum_ext. intros i Hi. apply rsum_ext. intros j Hj. rewrite (SX i j Hi Hj). reflexivity. }
  assert (U : rsum k (fun i => rsum k (fun j => schur k A i j * X j i)) = rsum k (fun i => rsum k (fun j => A i j * X j i)) - / c * quad k X (fun i => A k i)).
  { unfold quad. rewrite <- rsum_scal_l, <- rsum_minus. apply rsum_ext. intros i Hi. rewrite <- rsum_scal_l, <- rsum_minus. apply rsum_ext. intros j Hj. unfold schur. fold c. rewrite (SX j i Hj Hi). field. lra. }
  rewrite T, U. cbn [rsum]. replace (df / 2 - INR k / 2) with alpha by (unfold alpha; field). rewrite S_INR. unfold alpha. field. lra.
Qed.
Lemma wishart_step p (M : nat -> nat -> R) bt gm (F : (nat -> nat -> R) -> R) :
  (forall x s, 0 < s -> F (border k X x (quad k Y x + s)) = p + rsum (S k) (fun i => rsum (S k) (fun j => M i j * border k X x (quad k Y x + s) i j)) + bt * ln (det k X) + gm * ln s) ->
  extensions k X (fun B => F B * wishart_pdf LG (S k) df V A B)
    ((p + M k k * (df / c) + gm * (PSI alpha - ln (c / 2)) + rsum k (fun i => rsum k (fun j => (M i j - (M i k + M k i) * A k j / c + M k k * A k i * A k j / (c * c)) * X i j)) + bt * ln (det k X)) * wishart_pdf LG k df V (schur k A) X).
Proof.
  intros HF. pose proof c_pos as C. assert (Ha : 0 < alpha) by (unfold alpha; lra). set (w := wishart_pdf LG k df V (schur k A) X). set (mu := M k k). set (r := fun i => M i k + M k i).
  set (S0 := rsum k (fun i => rsum k (fun j => M i j * X i j))).
  set (G := fun x => p + S0 + rsum k (fun i => r i * x i) + mu * quad k Y x + bt * ln (det k X) + mu * (alpha / (c / 2)) + gm * (PSI alpha - ln (c / 2))).
  exists (fun x => w * mvn_pdf k mean prec x * G x). split.
  - intros x. exists (quad k Y x). split; [intros t; apply posdef_border; assumption|]. apply half_shift.
    pose proof (gamma_linear LG PSI HL HP alpha (c / 2) (p + S0 + rsum k (fun i => r i * x i) + mu * quad k Y x + bt * ln (det k X)) mu gm Ha ltac:(lra)) as H. unfold expects_pos in H.
    apply (half_scal _ (w * mvn_pdf k mean prec x)) in H. eapply half_ext; [|exact H]. intros s Hs. cbv beta. rewrite HF, wishart_factor by exact Hs. rewrite border_sum. fold w S0 mu. unfold r. ring.
  - pose proof (mvn_quad k mean prec (fun i j => / c * X i j) (G mean) (fun i => r i - 2 * mu * / c * A k i) (fun i j => mu * Y i j) prec_sym prec_posdef prec_inverse _ _ (relabels_id k)) as H. cbv beta in H.
    apply (space_scal k _ w) in H.
    match type of H with space _ _ ?v => match goal with |- space _ _ ?u => replace u with v end end.
    + eapply space_ext; [|exact H]. intros x. cbv beta. rewrite (rsum_ext k (fun i => (r i - 2 * mu * / c * A k i) * (x i - mean i)) (fun i => r i * x i - r i * mean i - 2 * mu * / c * (A k i * (x i - mean i)))) by (intros; ring). rewrite !rsum_minus, rsum_scal_l.
      rewrite (rsum_ext k (fun i => rsum k (fun j => mu * Y i j * ((x i - mean i) * (x j - mean j)))) (fun i => mu * rsum k (fun j => Y i j * ((x i - mean i) * (x j - mean j))))) by (intros; rewrite <- rsum_scal_l; apply rsum_ext; intros; ring). rewrite rsum_scal_l.
      change (fun i => x i) with x. unfold G. rewrite (quad_Y x). ring.
    + rewrite (Rmult_comm w). f_equal. unfold G. rewrite quad_Y_mean.
      rewrite (rsum_ext k (fun i => rsum k (fun j => mu * Y i j * (/ c * X i j))) (fun i => mu / c * rsum k (fun j => Y i j * X i j))) by (intros; rewrite <- rsum_scal_l; apply rsum_ext; intros; unfold Rdiv; ring). rewrite rsum_scal_l, (trace_inverse k Y X (inverse_symm k X Y IX) SX).
      assert (E1 : rsum k (fun i => r i * mean i) = - / c * rsum k (fun i => rsum k (fun j => r i * A k j * X i j))).
      { rewrite <- rsum_scal_l. apply rsum_ext. intros i Hi. unfold mean. rewrite (rsum_ext k (fun j => r i * A k j * X i j) (fun j => r i * (X i j * A k j))) by (intros; ring). rewrite rsum_scal_l. ring. }
      assert (E2 : rsum k (fun i => rsum k (fun j => (M i j - (M i k + M k i) * A k j / c + mu * A k i * A k j / (c * c)) * X i j)) = S0 - / c * rsum k (fun i => rsum k (fun j => r i * A k j * X i j)) + mu * (/ c * / c * quad k X (fun i => A k i))).
      { unfold S0, quad, r. rewrite <- !rsum_scal_l, <- rsum_minus, <- rsum_plus. apply rsum_ext. intros i Hi. rewrite <- !rsum_scal_l, <- rsum_minus, <- rsum_plus. apply rsum_ext. intros j Hj. field. lra. }
      rewrite E1, E2. unfold alpha. field. lra.
Qed.
Lemma wishart_step_gen phi e u v a0 b N (F : (nat -> nat -> R) -> R) : expects_pos (gamma_pdf LG alpha (c / 2)) phi e ->
  (forall x s, 0 < s -> F (border k X x (quad k Y x + s)) = u x + v x * phi s) ->
  (forall x, u x + v x * e = a0 + rsum k (fun i => b i * (x i - mean i)) + rsum k (fun i => rsum k (fun j => N i j * ((x i - mean i) * (x j - mean j))))) ->
  extensions k X (fun B => F B * wishart_pdf LG (S k) df V A B) ((a0 + rsum k (fun i => rsum k (fun j => N i j * (/ c * X i j)))) * wishart_pdf LG k df V (schur k A) X).
Proof.
  intros He HF HG. pose proof c_pos as C. assert (Ha : 0 < alpha) by (unfold alpha; lra). set (w := wishart_pdf LG k df V (schur k A) X).
  exists (fun x => w * mvn_pdf k mean prec x * (u x + v x * e)). split.
  - intros x. exists (quad k Y x). split; [intros t; apply posdef_border; assumption|]. apply half_shift.
    pose proof (gamma_linear LG PSI HL HP alpha (c / 2) (u x) 0 0 Ha ltac:(lra)) as H0. unfold expects_pos in H0, He. pose proof (half_plus _ _ _ _ H0 (half_scal _ (v x) _ He)) as H.
    apply (half_scal _ (w * mvn_pdf k mean prec x)) in H. replace (u x + v x * e) with (u x + 0 * (alpha / (c / 2)) + 0 * (PSI alpha - ln (c / 2)) + v x * e) by ring. eapply half_ext; [|exact H]. intros s Hs. cbv beta. rewrite HF, wishart_factor by exact Hs. fold w. ring.
  - pose proof (mvn_quad k mean prec (fun i j => / c * X i j) a0 b N prec_sym prec_posdef prec_inverse _ _ (relabels_id k)) as H. cbv beta in H.
    apply (space_scal k _ w) in H. rewrite (Rmult_comm _ w). eapply space_ext; [|exact H]. intros x. cbv beta. rewrite HG. change (fun i => x i) with x. ring.
Qed.
(** the linear function Y x of the column *)
Lemma w_mean x i : (i < k)%nat -> rsum k (fun j => Y i j * x j) = - / c * A k i + rsum k (fun j => Y i j * (x j - mean j)).
Proof. intros Hi. rewrite <- (Y_mean i Hi), <- rsum_plus. apply rsum_ext. intros; ring. Qed.
Lemma inverse_step e p N (F : (nat -> nat -> R) -> R) : expects_pos (gamma_pdf LG alpha (c / 2)) (fun s => / s) e ->
  (forall x s, 0 < s -> F (border k X x (quad k Y x + s)) = p + rsum (S k) (fun i => rsum (S k) (fun j => N i j * border k (fun i j => Y i j + rsum k (fun l => Y i l * x l) * rsum k (fun l => Y j l * x l) * / s) (fun i => - rsum k (fun l => Y i l * x l) * / s) (/ s) i j))) ->
  extensions k X (fun B => F B * wishart_pdf LG (S k) df V A B)
    ((p + e * (rsum k (fun i => rsum k (fun j => N i j * (A k i * A k j))) / (c * c) + rsum k (fun i => (N i k + N k i) * A k i) / c + N k k) + (1 + e / c) * rsum k (fun i => rsum k (fun j => N i j * Y i j))) * wishart_pdf LG k df V (schur k A) X).
Proof.
  intros He HF. pose proof c_pos as C. set (w := fun (x : nat -> R) i => rsum k (fun l => Y i l * x l)). set (z := fun (x : nat -> R) j => x j - mean j). set (r := fun i => N i k + N k i).
  set (a0 := p + rsum k (fun i => rsum k (fun j => N i j * Y i j)) + e * (rsum k (fun i => rsum k (fun j => N i j * (A k i * A k j))) / (c * c) + rsum k (fun i => r i * A k i) / c + N k k)).
  set (b := fun l => - (e / c) * rsum k (fun i => rsum k (fun j => N i j * (A k i * Y j l + A k j * Y i l))) - e * rsum k (fun i => r i * Y i l)).
  set (Q := fun l m => e * rsum k (fun i => rsum k (fun j => N i j * (Y i l * Y j m)))).
  assert (Hw : forall x i, (i < k)%nat -> w x i = - / c * A k i + rsum k (fun l => Y i l * z x l)) by (intros x i Hi; apply w_mean, Hi).
  pose proof (wishart_step_gen (fun s => / s) e (fun x => p + rsum k (fun i => rsum k (fun j => N i j * Y i j))) (fun x => rsum k (fun i => rsum k (fun j => N i j * (w x i * w x j))) - rsum k (fun i => r i * w x i) + N k k) a0 b Q F He) as H.
  assert (H1 : forall x s, 0 < s -> F (border k X x (quad k Y x + s)) = p + rsum k (fun i => rsum k (fun j => N i j * Y i j)) + (rsum k (fun i => rsum k (fun j => N i j * (w x i * w x j))) - rsum k (fun i => r i * w x i) + N k k) * / s).
  { intros x s Hs. rewrite HF by exact Hs. fold (w x). rewrite border_sum.
    rewrite (rsum_ext k (fun i => rsum k (fun j => N i j * (Y i j + _))) (fun i => rsum k (fun j => N i j * Y i j) + / s * rsum k (fun j => N i j * (w x i * w x j)))). 2:{ intros i Hi. rewrite <- rsum_scal_l, <- rsum_plus. apply rsum_ext. intros j Hj. unfold w. ring. }
    rewrite rsum_plus, rsum_scal_l. rewrite (rsum_ext k (fun i => (N i k + N k i) * _) (fun i => - / s * (r i * w x i))) by (intros i Hi; unfold w, r; ring). rewrite rsum_scal_l. ring. }
  specialize (H H1). clear H1 HF.
  assert (H2 : forall x, p + rsum k (fun i => rsum k (fun j => N i j * Y i j)) + (rsum k (fun i => rsum k (fun j => N i j * (w x i * w x j))) - rsum k (fun i => r i * w x i) + N k k) * e = a0 + rsum k (fun i => b i * (x i - mean i)) + rsum k (fun i => rsum k (fun j => Q i j * ((x i - mean i) * (x j - mean j))))).
  { intros x. change (fun i => b i * (x i - mean i)) with (fun i => b i * z x i). change (fun i => rsum k (fun j => Q i j * ((x i - mean i) * (x j - mean j)))) with (fun i => rsum k (fun j => Q i j * (z x i * z x j))).
    set (y := fun i => rsum k (fun l => Y i l * z x l)).
    assert (R1 : rsum k (fun i => r i * w x i) = - / c * rsum k (fun i => r i * A k i) + rsum k (fun i => r i * y i)) by (rewrite <- rsum_scal_l, <- rsum_plus; apply rsum_ext; intros i Hi; rewrite Hw by exact Hi; fold (y i); ring).
    assert (R2 : rsum k (fun i => rsum k (fun j => N i j * (w x i * w x j))) = / c * / c * rsum k (fun i => rsum k (fun j => N i j * (A k i * A k j))) - / c * rsum k (fun i => rsum k (fun j => N i j * (A k i * y j + A k j * y i))) + rsum k (fun i => rsum k (fun j => N i j * (y i * y j)))).
    { rewrite <- !rsum_scal_l, <- rsum_minus, <- rsum_plus. apply rsum_ext. intros i Hi. rewrite <- !rsum_scal_l, <- rsum_minus, <- rsum_plus. apply rsum_ext. intros j Hj. rewrite !Hw by assumption. fold (y i) (y j). ring. }
    assert (R3 : rsum k (fun l => b l * z x l) = - (e / c) * rsum k (fun i => rsum k (fun j => N i j * (A k i * y j + A k j * y i))) - e * rsum k (fun i => r i * y i)).
    { unfold b. rewrite (rsum_ext k _ (fun l => - (e / c) * rsum k (fun i => rsum k (fun j => N i j * (A k i * Y j l + A k j * Y i l) * z x l)) - e * rsum k (fun i => r i * Y i l * z x l))).
      2:{ intros l Hl. rewrite Rmult_minus_distr_r, !Rmult_assoc, <- !rsum_scal_r. f_equal. f_equal. apply rsum_ext. intros i Hi. rewrite <- rsum_scal_r. reflexivity. }
      rewrite rsum_minus, !rsum_scal_l. f_equal.
      - f_equal. rewrite rsum_swap. apply rsum_ext. intros i Hi. rewrite rsum_swap. apply rsum_ext. intros j Hj. unfold y. rewrite (rsum_ext k _ (fun l => N i j * (A k i * (Y j l * z x l) + A k j * (Y i l * z x l)))) by (intros; ring). rewrite rsum_scal_l, rsum_plus, !rsum_scal_l. reflexivity.
      - f_equal. rewrite rsum_swap. apply rsum_ext. intros i Hi. unfold y. rewrite <- rsum_scal_l. apply rsum_ext. intros; ring. }
    assert (R4 : rsum k (fun l => rsum k (fun m => Q l m * (z x l * z x m))) = e * rsum k (fun i => rsum k (fun j => N i j * (y i * y j)))).
    { assert (R5 : forall i j, y i * y j = rsum k (fun l => rsum k (fun m => Y i l * Y j m * (z x l * z x m)))).
      { intros i j. unfold y. rewrite <- rsum_scal_r. apply rsum_ext. intros l Hl. rewrite <- rsum_scal_l. apply rsum_ext. intros; ring. }
      transitivity (rsum k (fun l => rsum k (fun m => rsum k (fun i => rsum k (fun j => e * (N i j * (Y i l * Y j m * (z x l * z x m)))))))).
      - apply rsum_ext. intros l Hl. apply rsum_ext. intros m Hm. unfold Q. rewrite Rmult_assoc, <- rsum_scal_r, <- rsum_scal_l. apply rsum_ext. intros i Hi. rewrite <- rsum_scal_r, <- rsum_scal_l. apply rsum_ext. intros; ring.
      - transitivity (rsum k (fun i => rsum k (fun j => rsum k (fun l => rsum k (fun m => e * (N i j * (Y i l * Y j m * (z x l * z x m)))))))).
        + transitivity (rsum k (fun l => rsum k (fun i => rsum k (fun m => rsum k (fun j => e * (N i j * (Y i l * Y j m * (z x l * z x m)))))))); [apply rsum_ext; intros l Hl; apply (rsum_swap k k (fun m i => rsum k (fun j => e * (N i j * (Y i l * Y j m * (z x l * z x m))))))|].
          rewrite (rsum_swap k k (fun l i => rsum k (fun m => rsum k (fun j => e * (N i j * (Y i l * Y j m * (z x l * z x m))))))). apply rsum_ext. intros i Hi.
          transitivity (rsum k (fun l => rsum k (fun j => rsum k (fun m => e * (N i j * (Y i l * Y j m * (z x l * z x m))))))); [apply rsum_ext; intros l Hl; apply (rsum_swap k k (fun m j => e * (N i j * (Y i l * Y j m * (z x l * z x m)))))|].
          apply (rsum_swap k k (fun l j => rsum k (fun m => e * (N i j * (Y i l * Y j m * (z x l * z x m)))))).
        + rewrite <- rsum_scal_l. apply rsum_ext. intros i Hi. rewrite <- rsum_scal_l. apply rsum_ext. intros j Hj. rewrite R5, <- !rsum_scal_l. apply rsum_ext. intros l Hl. rewrite <- !rsum_scal_l. reflexivity. }
    rewrite R1, R2, R3, R4. unfold a0. field. lra. }
  specialize (H H2). clear H2.
  match type of H with extensions _ _ _ ?v => match goal with |- extensions _ _ _ ?u => replace u with v; [exact H|] end end. f_equal. unfold a0.
  assert (T : rsum k (fun l => rsum k (fun m => Q l m * (/ c * X l m))) = e / c * rsum k (fun i => rsum k (fun j => N i j * Y i j))).
  { pose proof SY as SYY. assert (T1 : forall i j, (i < k)%nat -> (j < k)%nat -> rsum k (fun l => rsum k (fun m => Y i l * Y j m * X l m)) = Y i j).
    { intros i j Hi Hj. rewrite (rsum_ext k _ (fun l => delta l j * Y i l)); [apply (pick1 k j (fun l => Y i l)), Hj|]. intros l Hl. rewrite (rsum_ext k _ (fun m => Y i l * (X l m * Y m j))) by (intros m Hm; rewrite (SYY j m Hj Hm); ring). rewrite rsum_scal_l, (proj1 (IX l j Hl Hj)). ring. }
    transitivity (rsum k (fun l => rsum k (fun m => rsum k (fun i => rsum k (fun j => e / c * (N i j * (Y i l * Y j m * X l m))))))).
    - apply rsum_ext. intros l Hl. apply rsum_ext. intros m Hm. unfold Q. rewrite Rmult_assoc, <- rsum_scal_r, <- rsum_scal_l. apply rsum_ext. intros i Hi. rewrite <- rsum_scal_r, <- rsum_scal_l. apply rsum_ext. intros; field; lra.
    - transitivity (rsum k (fun i => rsum k (fun j => rsum k (fun l => rsum k (fun m => e / c * (N i j * (Y i l * Y j m * X l m))))))).
      + transitivity (rsum k (fun l => rsum k (fun i => rsum k (fun m => rsum k (fun j => e / c * (N i j * (Y i l * Y j m * X l m))))))); [apply rsum_ext; intros l Hl; apply (rsum_swap k k (fun m i => rsum k (fun j => e / c * (N i j * (Y i l * Y j m * X l m)))))|].
        rewrite (rsum_swap k k (fun l i => rsum k (fun m => rsum k (fun j => e / c * (N i j * (Y i l * Y j m * X l m)))))). apply rsum_ext. intros i Hi.
        transitivity (rsum k (fun l => rsum k (fun j => rsum k (fun m => e / c * (N i j * (Y i l * Y j m * X l m)))))); [apply rsum_ext; intros l Hl; apply (rsum_swap k k (fun m j => e / c * (N i j * (Y i l * Y j m * X l m))))|].
        apply (rsum_swap k k (fun l j => rsum k (fun m => e / c * (N i j * (Y i l * Y j m * X l m))))).
      + rewrite <- rsum_scal_l. apply rsum_ext. intros i Hi. rewrite <- rsum_scal_l. apply rsum_ext. intros j Hj. rewrite <- (T1 i j Hi Hj), <- !rsum_scal_l. apply rsum_ext. intros l Hl. rewrite <- !rsum_scal_l. reflexivity. }
  rewrite T. change (fun i => (N i k + N k i) * A k i) with (fun i => r i * A k i). field. lra.
Qed.
Lemma border_inverse x s : 0 < s -> inverse_of (S k) (border k X x (quad k Y x + s)) (border k (fun i j => Y i j + rsum k (fun l => Y i l * x l) * rsum k (fun l => Y j l * x l) * / s) (fun i => - rsum k (fun l => Y i l * x l) * / s) (/ s)).
Proof.
  intros Hs. pose proof SY as SYY. set (w := fun i => rsum k (fun l => Y i l * x l)). set (D := border k (fun i j => Y i j + w i * w j * / s) (fun i => - w i * / s) (/ s)). set (B := border k X x (quad k Y x + s)).
  change (inverse_of (S k) B D).
  assert (SB : symmetric (S k) B) by (apply border_sym, SX). assert (SD : symmetric (S k) D) by (apply border_sym; intros i j Hi Hj; rewrite (SYY i j Hi Hj); ring).
  assert (W1 : forall i, (i < k)%nat -> rsum k (fun l => X i l * w l) = x i).
  { intros i Hi. unfold w. rewrite (rsum_ext k _ (fun l => rsum k (fun j => X i l * Y l j * x j))) by (intros l Hl; rewrite <- rsum_scal_l; apply rsum_ext; intros; ring).
    rewrite rsum_swap. rewrite (rsum_ext k _ (fun j => delta j i * x j)); [apply (pick1 k i x), Hi|]. intros j Hj. rewrite rsum_scal_r. f_equal. rewrite (proj1 (IX i j Hi Hj)). unfold delta. rewrite Nat.eqb_sym. reflexivity. }
  assert (W2 : rsum k (fun l => x l * w l) = quad k Y x) by (unfold quad, w; apply rsum_ext; intros i Hi; rewrite <- rsum_scal_l; apply rsum_ext; intros; ring).
  assert (L : forall i j, (i < S k)%nat -> (j < S k)%nat -> rsum (S k) (fun l => B i l * D l j) = delta i j).
  { intros i j Hi Hj. cbn [rsum]. unfold B, D. destruct (Nat.eq_dec i k) as [->|Ni], (Nat.eq_dec j k) as [->|Nj].
    - rewrite !border_corner. rewrite (rsum_ext k _ (fun l => - / s * (x l * w l))) by (intros l Hl; rewrite border_row, border_col by exact Hl; ring). rewrite rsum_scal_l, W2. unfold delta. rewrite Nat.eqb_refl. field. lra.
    - rewrite border_corner, (border_row k _ _ (/ s)) by lia. rewrite (rsum_ext k _ (fun l => Y j l * x l + w j * / s * (x l * w l))) by (intros l Hl; rewrite border_row, border_in by lia; rewrite (SYY l j) by lia; ring). rewrite rsum_plus, rsum_scal_l, W2. fold (w j). unfold delta. destruct (Nat.eqb_spec k j); [lia|]. field. lra.
    - rewrite border_corner, (border_col k X) by lia. rewrite (rsum_ext k _ (fun l => - / s * (X i l * w l))) by (intros l Hl; rewrite border_in, border_col by lia; ring). rewrite rsum_scal_l, W1 by lia. unfold delta. destruct (Nat.eqb_spec i k); [lia|]. field. lra.
    - rewrite (border_col k X), (border_row k _ _ (/ s)) by lia. rewrite (rsum_ext k _ (fun l => X i l * Y l j + w j * / s * (X i l * w l))) by (intros l Hl; rewrite !border_in by lia; ring). rewrite rsum_plus, rsum_scal_l, W1, (proj1 (IX i j ltac:(lia) ltac:(lia))) by lia. field. lra. }
  intros i j Hi Hj. split; [apply L; assumption|]. rewrite (rsum_ext (S k) _ (fun l => B j l * D l i)) by (intros l Hl; rewrite (SB l j Hl Hj), (SD i l Hi Hl); ring). rewrite L by assumption. unfold delta. rewrite Nat.eqb_sym. reflexivity.
Qed.
End Step.

(** ---- expectations under the Wishart density ---- *)
Section Wishart.
Variables (LG PSI : R -> R).
Hypotheses (HL : log_gamma LG) (HP : digamma_of LG PSI).
Lemma wishart_linear n : forall df A V p M bt, INR n - 1 < df -> symmetric n A -> posdef n A -> inverse_of n A V ->
  cone n (fun X => (p + rsum n (fun i => rsum n (fun j => M i j * X i j)) + bt * ln (det n X)) * wishart_pdf LG n df V A X) (p + df * rsum n (fun i => rsum n (fun j => M i j * V i j)) + bt * e_log_det_of PSI n df V).
Proof.
  induction n as [|k IH]; intros df A V p M bt Hd SA PA IA.
  - cbn [cone]. unfold wishart_pdf, wishart_kernel, wishart_log_norm, log_multigamma, e_log_det_of, Rpower. cbn [rsum det INR]. rewrite ln_1. replace (- (df * 0 / 2 * ln 2 + df / 2 * 0 + (0 * (0 - 1) / 4 * ln PI + 0))) with 0 by field. replace ((df - 0 - 1) / 2 * 0) with 0 by ring. rewrite !Rmult_0_r, exp_0. ring.
  - assert (Hd' : INR k < df) by (rewrite S_INR in Hd; lra). pose proof (corner_pos k A PA) as C. set (c := A k k) in *.
    exists (fun X => (p + M k k * (df / c) + bt * (PSI ((df - INR k) / 2) - ln (c / 2)) + rsum k (fun i => rsum k (fun j => (M i j - (M i k + M k i) * A k j / c + M k k * A k i * A k j / (c * c)) * X i j)) + bt * ln (det k X)) * wishart_pdf LG k df V (schur k A) X). split.
    + intros X SX PX. destruct (posdef_inverse k X SX PX) as [Y IX]. apply (wishart_step LG PSI HL HP k df A V X Y Hd' SA PA IA SX PX IX p M bt bt (fun X => p + rsum (S k) (fun i => rsum (S k) (fun j => M i j * X i j)) + bt * ln (det (S k) X))).
      intros x s Hs. cbv beta. rewrite (det_border k X Y x _ SX IX). replace (quad k Y x + s - quad k Y x) with s by ring. rewrite ln_mult by (try exact Hs; apply posdef_det; assumption). ring.
    + pose proof (IH df (schur k A) V (p + M k k * (df / c) + bt * (PSI ((df - INR k) / 2) - ln (c / 2))) (fun i j => M i j - (M i k + M k i) * A k j / c + M k k * A k i * A k j / (c * c)) bt ltac:(lra) (schur_sym k A SA) (schur_posdef k A SA PA) (schur_inverse k A V SA PA IA)) as H. cbv beta in H.
      match type of H with cone _ _ ?v => match goal with |- cone _ _ ?u => replace u with v; [exact H|] end end. clear H IH.
      pose proof (inverse_sym (S k) A V SA IA) as SV. destruct (V_det k A V SA PA IA) as [DV _]. fold c in DV.
      assert (R1 : forall i, (i < k)%nat -> rsum k (fun j => A k j * V i j) = - (c * V i k)). { intros i Hi. rewrite (rsum_ext k _ (fun j => A k j * V j i)) by (intros j Hj; rewrite (SV i j) by lia; reflexivity). rewrite (inv_row k A V IA i Hi), (SV i k) by lia. reflexivity. }
      assert (E : rsum k (fun i => rsum k (fun j => (M i j - (M i k + M k i) * A k j / c + M k k * A k i * A k j / (c * c)) * V i j)) = rsum k (fun i => rsum k (fun j => M i j * V i j)) + rsum k (fun i => (M i k + M k i) * V i k) - M k k / c * rsum k (fun i => A k i * V i k)).
      { rewrite <- rsum_scal_l, <- rsum_plus, <- rsum_minus. apply rsum_ext. intros i Hi. rewrite (rsum_ext k _ (fun j => M i j * V i j + (- (M i k + M k i) / c + M k k * A k i / (c * c)) * (A k j * V i j))) by (intros; field; lra).
        rewrite rsum_plus, rsum_scal_l, R1 by exact Hi. field. lra. }
      rewrite E, (inv_corner k A V IA). fold c. rewrite (rsum2_S k (fun i j => M i j * V i j)).
      rewrite (rsum_ext k (fun i => (M i k + M k i) * V i k) (fun i => M i k * V i k + M k i * V k i)) by (intros i Hi; rewrite (SV k i) by lia; ring). rewrite rsum_plus.
      unfold e_log_det_of. cbn [rsum]. rewrite DV, S_INR. replace (df / 2 - INR k / 2) with ((df - INR k) / 2) by field. replace (ln (c / 2)) with (ln c - ln 2) by (unfold Rdiv; rewrite (ln_mult c (/ 2)), (ln_Rinv 2) by lra; ring). field. lra.
Qed.
Lemma relabels_sym n s t : relabels n s t -> relabels n t s.
Proof. intros H i Hi. destruct (H i Hi) as [[A B] [C D]]. repeat split; assumption. Qed.
Lemma pdf_reorder n s t df V A X : relabels n s t -> wishart_pdf LG n df V A (reorder s X) = wishart_pdf LG n df (pull t V) (pull t A) X.
Proof.
  intros H. unfold wishart_pdf, wishart_kernel, wishart_log_norm. change (reorder s X) with (pull s X). rewrite (pull_det n t s X (relabels_sym n s t H)), (pull_det n s t V H). do 3 f_equal. f_equal.
  rewrite <- (rsum2_relabel n s t (fun i j => A i j * pull s X j i) H). unfold pull. apply rsum_ext. intros i Hi. apply rsum_ext. intros j Hj. rewrite (proj2 (proj2 (H i Hi))), (proj2 (proj2 (H j Hj))). reflexivity.
Qed.
Lemma e_log_det_pull n s t df V : relabels n s t -> e_log_det_of PSI n df (pull t V) = e_log_det_of PSI n df V.
Proof. intros H. unfold e_log_det_of. rewrite (pull_det n s t V H). reflexivity. Qed.
Lemma wexpects_linear n df A V p M bt f v : INR n - 1 < df -> symmetric n A -> posdef n A -> inverse_of n A V ->
  (forall X, symmetric n X -> posdef n X -> f X = p + rsum n (fun i => rsum n (fun j => M i j * X i j)) + bt * ln (det n X)) ->
  v = p + df * rsum n (fun i => rsum n (fun j => M i j * V i j)) + bt * e_log_det_of PSI n df V -> wexpects n (wishart_pdf LG n df V A) f v.
Proof.
  intros Hd SA PA IA Hf -> s t H. pose proof (relabels_sym n s t H) as H'. unfold wexpects_in.
  pose proof (wishart_linear n df (pull t A) (pull t V) p (pull t M) bt Hd (pull_sym n s t A H SA) (pull_posdef n s t A H PA) (pull_inverse n s t A V H IA)) as Q.
  rewrite (rsum2_relabel n s t (fun i j => M i j * V i j) H : rsum n (fun i => rsum n (fun j => pull t M i j * pull t V i j)) = _), (e_log_det_pull n s t df V H) in Q.
  eapply cone_ext; [|exact Q]. intros X SX PX. cbv beta. rewrite (pdf_reorder n s t df V A X H). f_equal.
  change (reorder s X) with (pull s X). rewrite Hf by (first [apply (pull_sym n t s)|apply (pull_posdef n t s)]; assumption). rewrite (pull_det n t s X H'). f_equal. f_equal.
  rewrite <- (rsum2_relabel n s t (fun i j => M i j * pull s X i j) H). unfold pull. apply rsum_ext. intros i Hi. apply rsum_ext. intros j Hj. rewrite (proj2 (proj2 (H i Hi))), (proj2 (proj2 (H j Hj))). reflexivity.
Qed.
Lemma wexpects_unique n p f v w : wexpects n p f v -> wexpects n p f w -> v = w.
Proof. intros H K. exact (cone_unique n _ _ _ (H _ _ (relabels_id n)) (K _ _ (relabels_id n))). Qed.
Lemma zero2 n (y : nat -> nat -> R) : rsum n (fun i => rsum n (fun j => 0 * y i j)) = 0.
Proof. apply rsum_zero. intros i Hi. apply rsum_zero. intros; ring. Qed.
Section One.
Variables (n : nat) (df : R) (A V : nat -> nat -> R).
Hypotheses (Hd : INR n - 1 < df) (SA : symmetric n A) (PA : posdef n A) (IA : inverse_of n A V).
Lemma wishart_total : wexpects n (wishart_pdf LG n df V A) (fun _ => 1) 1.
Proof. apply (wexpects_linear n df A V 1 (fun _ _ => 0) 0); try assumption; [intros X _ _|]; rewrite zero2; ring. Qed.
Lemma wishart_mean i j : (i < n)%nat -> (j < n)%nat -> wexpects n (wishart_pdf LG n df V A) (fun X => X i j) (df * V i j).
Proof. intros Hi Hj. apply (wexpects_linear n df A V 0 (fun a b => delta a i * delta b j) 0); try assumption; [intros X _ _|]; rewrite pick2 by assumption; ring. Qed.
Lemma wishart_log_det : wexpects n (wishart_pdf LG n df V A) (fun X => ln (det n X)) (e_log_det_of PSI n df V).
Proof. apply (wexpects_linear n df A V 0 (fun _ _ => 0) 1); try assumption; [intros X _ _|]; rewrite zero2; ring. Qed.
Lemma ln_wishart_pdf df0 V0 A0 X : ln (wishart_pdf LG n df0 V0 A0 X) = - wishart_log_norm LG n df0 V0 + (df0 - INR n - 1) / 2 * ln (det n X) - / 2 * rsum n (fun i => rsum n (fun j => A0 i j * X j i)).
Proof. unfold wishart_pdf, wishart_kernel, Rpower. rewrite <- !exp_plus, ln_exp. ring. Qed.
Lemma wishart_entropy_int : wexpects n (wishart_pdf LG n df V A) (fun X => - ln (wishart_pdf LG n df V A X)) (wishart_entropy_of LG PSI n df V).
Proof.
  pose proof (inverse_sym n A V SA IA) as SV. apply (wexpects_linear n df A V (wishart_log_norm LG n df V) (fun i j => / 2 * A i j) (- ((df - INR n - 1) / 2))); try assumption.
  - intros X SX PX. rewrite ln_wishart_pdf. rewrite (rsum_ext n (fun i => rsum n (fun j => / 2 * A i j * X i j)) (fun i => / 2 * rsum n (fun j => A i j * X j i))). 2:{ intros i Hi. rewrite <- rsum_scal_l. apply rsum_ext. intros j Hj. rewrite (SX i j Hi Hj). ring. }
    rewrite rsum_scal_l. ring.
  - rewrite (rsum_ext n (fun i => rsum n (fun j => / 2 * A i j * V i j)) (fun i => / 2 * rsum n (fun j => A i j * V i j))) by (intros i Hi; rewrite <- rsum_scal_l; apply rsum_ext; intros; ring). rewrite rsum_scal_l, (trace_inverse n A V IA SV).
    unfold wishart_entropy_of, e_log_det_of, wishart_log_norm. field.
Qed.
End One.
(** the diagonal of the inverse: the row in question integrated first *)
Lemma border_inverse_corner k X Y x t J : symmetric k X -> posdef k X -> inverse_of k X Y -> quad k Y x < t -> inverse_of (S k) (border k X x t) J -> J k k = / (t - quad k Y x).
Proof.
  intros SX PX IX Ht IJ. pose proof (border_sym k X x t SX) as SB. assert (PB : posdef (S k) (border k X x t)) by (apply (posdef_border k X Y x SX PX IX), Ht).
  pose proof (inverse_sym _ _ _ SB IJ) as SJ. pose proof (inverse_posdef _ _ _ SB PB IJ) as PJ. pose proof (schur_corner k J (border k X x t) SJ PJ (inverse_symm _ _ _ IJ)) as E.
  pose proof (corner_pos k J PJ) as C. rewrite border_corner in E.
  assert (Q : quad k (schur k J) (fun i => border k X x t k i) = quad k Y x).
  { pose proof (schur_inverse k J (border k X x t) SJ PJ (inverse_symm _ _ _ IJ)) as I1. assert (I2 : inverse_of k X (schur k J)).
    { apply inverse_symm. intros i j Hi Hj. destruct (I1 i j Hi Hj) as [I2 I3]. split; [rewrite <- I2|rewrite <- I3]; apply rsum_ext; intros l Hl; rewrite border_in by assumption; reflexivity. }
    unfold quad. apply rsum_ext. intros i Hi. apply rsum_ext. intros j Hj. rewrite !border_row by assumption. rewrite (inverse_unique k X _ _ I2 IX i j Hi Hj). reflexivity. }
  rewrite Q in E. rewrite E. rewrite Rinv_inv. reflexivity.
Qed.
Lemma wishart_inverse_diag_last k df A V J : INR (S k) - 1 < df -> symmetric (S k) A -> posdef (S k) A -> inverse_of (S k) A V -> (forall X, symmetric (S k) X -> posdef (S k) X -> inverse_of (S k) X (J X)) ->
  cone (S k) (fun X => ln (J X k k) * wishart_pdf LG (S k) df V A X) (ln (A k k) - PSI ((df - INR (S k) + 1) / 2) - ln 2).
Proof.
  intros Hd SA PA IA HJ. assert (Hd' : INR k < df) by (rewrite S_INR in Hd; lra). pose proof (corner_pos k A PA) as C.
  exists (fun X => (0 + 0 * (df / A k k) + -1 * (PSI ((df - INR k) / 2) - ln (A k k / 2)) + rsum k (fun i => rsum k (fun j => (0 - (0 + 0) * A k j / A k k + 0 * A k i * A k j / (A k k * A k k)) * X i j)) + 0 * ln (det k X)) * wishart_pdf LG k df V (schur k A) X). split.
  - intros X SX PX. destruct (posdef_inverse k X SX PX) as [Y IX].
    apply (wishart_step LG PSI HL HP k df A V X Y Hd' SA PA IA SX PX IX 0 (fun _ _ => 0) 0 (-1) (fun X => ln (J X k k))).
    intros x s Hs. cbv beta. rewrite (border_inverse_corner k X Y x (quad k Y x + s) (J (border k X x (quad k Y x + s)))); try assumption; [|lra|apply HJ; [apply border_sym, SX|apply (posdef_border k X Y x SX PX IX); lra]].
    replace (quad k Y x + s - quad k Y x) with s by ring. rewrite ln_Rinv by exact Hs. rewrite zero2. ring.
  - pose proof (wishart_linear k df (schur k A) V (- (PSI ((df - INR k) / 2) - ln (A k k / 2))) (fun _ _ => 0) 0 ltac:(lra) (schur_sym k A SA) (schur_posdef k A SA PA) (schur_inverse k A V SA PA IA)) as H. rewrite zero2 in H.
    match type of H with cone _ _ ?v => match goal with |- cone _ _ ?u => replace u with v end end.
    + eapply cone_ext; [|exact H]. intros X _ _. cbv beta. rewrite zero2. f_equal. rewrite rsum_zero; [ring|]. intros i Hi. apply rsum_zero. intros j Hj. field. lra.
    + rewrite S_INR. replace (df - (INR k + 1) + 1) with (df - INR k) by ring. replace (ln (A k k / 2)) with (ln (A k k) - ln 2) by (unfold Rdiv; rewrite (ln_mult (A k k) (/ 2)), (ln_Rinv 2) by lra; ring). ring.
Qed.
Lemma wishart_inverse_diag n df A V J r s t : INR n - 1 < df -> symmetric n A -> posdef n A -> inverse_of n A V -> (forall X, symmetric n X -> posdef n X -> inverse_of n X (J X)) ->
  (r < n)%nat -> relabels n s t -> S (s r) = n -> wexpects_in s n (wishart_pdf LG n df V A) (fun X => ln (J X r r)) (ln (A r r) - PSI ((df - INR n + 1) / 2) - ln 2).
Proof.
  intros Hd SA PA IA HJ Hr H E. pose proof (relabels_sym n s t H) as H'. destruct n as [|k]; [lia|]. assert (Ek : s r = k) by lia. unfold wexpects_in.
  assert (Er : t k = r) by (rewrite <- Ek; apply (H r Hr)).
  assert (HJ' : forall X, symmetric (S k) X -> posdef (S k) X -> inverse_of (S k) X (pull t (J (pull s X)))).
  { intros X SX PX. pose proof (pull_inverse (S k) s t _ _ H (HJ (pull s X) (pull_sym _ t s X H' SX) (pull_posdef _ t s X H' PX))) as Q.
    intros i j Hi Hj. destruct (Q i j Hi Hj) as [Q1 Q2]. split; [rewrite <- Q1|rewrite <- Q2]; apply rsum_ext; intros l Hl; unfold pull at 1 3; [|unfold pull at 3]; unfold pull; rewrite ?(proj2 (proj2 (H i Hi))), ?(proj2 (proj2 (H j Hj))), ?(proj2 (proj2 (H l Hl))); reflexivity. }
  pose proof (wishart_inverse_diag_last k df (pull t A) (pull t V) (fun X => pull t (J (pull s X))) Hd (pull_sym _ s t A H SA) (pull_posdef _ s t A H PA) (pull_inverse _ s t A V H IA) HJ') as Q.
  change (pull t A k k) with (A (t k) (t k)) in Q. rewrite Er in Q. eapply cone_ext; [|exact Q]. intros X SX PX. cbv beta. rewrite (pdf_reorder (S k) s t df V A X H). f_equal.
  change (pull t (J (pull s X)) k k) with (J (pull s X) (t k) (t k)). rewrite Er. reflexivity.
Qed.
Lemma gamma_inverse a b : 1 < a -> 0 < b -> expects_pos (gamma_pdf LG a b) (fun x => / x) (b / (a - 1)).
Proof.
  intros Ha Hb. pose proof (gamma_total LG PSI HL HP (a - 1) b ltac:(lra) Hb) as H. unfold expects_pos in *. apply (half_scal _ (b / (a - 1))) in H. rewrite Rmult_1_r in H. eapply half_ext; [|exact H]. intros x X. cbv beta.
  pose proof (LG_succ LG HL (a - 1) ltac:(lra)) as E. replace (a - 1 + 1) with a in E by ring. unfold gamma_pdf. rewrite E, exp_plus, exp_ln by lra.
  replace (Rpower b a) with (b * Rpower b (a - 1)) by (rewrite <- (Rpower_1 b) at 1 by exact Hb; rewrite <- Rpower_plus; f_equal; ring).
  replace (Rpower x (a - 1)) with (x * Rpower x (a - 1 - 1)) by (rewrite <- (Rpower_1 x) at 1 by exact X; rewrite <- Rpower_plus; f_equal; ring).
  pose proof (exp_pos (LG (a - 1))). field. lra.
Qed.
Lemma inverse_block k J X : symmetric k X -> posdef k X -> (forall Z, symmetric (S k) Z -> posdef (S k) Z -> inverse_of (S k) Z (J Z)) -> inverse_of k X (J (border k X (fun _ => 0) 1)).
Proof.
  intros SX PX HJ. destruct (posdef_inverse k X SX PX) as [Y IX].
  assert (Q0 : quad k Y (fun _ => 0) = 0) by (unfold quad; apply rsum_zero; intros; apply rsum_zero; intros; ring).
  assert (PB : posdef (S k) (border k X (fun _ => 0) 1)) by (apply (posdef_border k X Y _ SX PX IX); rewrite Q0; lra).
  pose proof (HJ _ (border_sym k X (fun _ => 0) 1 SX) PB) as I1. pose proof (border_inverse k X Y SX IX (fun _ => 0) 1 Rlt_0_1) as I2. rewrite Q0, Rplus_0_l in I2.
  assert (E : forall i j, (i < k)%nat -> (j < k)%nat -> J (border k X (fun _ => 0) 1) i j = Y i j).
  { intros i j Hi Hj. rewrite (inverse_unique (S k) _ _ _ I1 I2 i j) by lia. rewrite border_in by assumption. rewrite (rsum_zero k (fun l => Y i l * 0)) by (intros; ring). ring. }
  intros i j Hi Hj. destruct (IX i j Hi Hj) as [X1 X2]. split; [rewrite <- X1|rewrite <- X2]; apply rsum_ext; intros l Hl; rewrite E by assumption; reflexivity.
Qed.
Lemma wishart_inverse_linear n : forall df A V p N J, INR n + 1 < df -> symmetric n A -> posdef n A -> inverse_of n A V -> (forall X, symmetric n X -> posdef n X -> inverse_of n X (J X)) ->
  cone n (fun X => (p + rsum n (fun i => rsum n (fun j => N i j * J X i j))) * wishart_pdf LG n df V A X) (p + rsum n (fun i => rsum n (fun j => N i j * A i j)) / (df - INR n - 1)).
Proof.
  induction n as [|k IH]; intros df A V p N J Hd SA PA IA HJ.
  - pose proof (wishart_linear 0 df A V p (fun _ _ => 0) 0 ltac:(cbn [INR] in *; lra) SA PA IA) as H. cbn [cone] in *. cbn [rsum] in *. rewrite Rmult_0_r, !Rmult_0_l, !Rplus_0_r in H. unfold Rdiv. rewrite Rmult_0_l, !Rplus_0_r. exact H.
  - rewrite S_INR in Hd. assert (Hd' : INR k < df) by lra. pose proof (corner_pos k A PA) as C. set (c := A k k) in *. set (e := (c / 2) / ((df - INR k) / 2 - 1)).
    assert (He : expects_pos (gamma_pdf LG ((df - INR k) / 2) (c / 2)) (fun s => / s) e) by (apply gamma_inverse; lra).
    set (K := fun X => J (border k X (fun _ => 0) 1)). assert (HK : forall X, symmetric k X -> posdef k X -> inverse_of k X (K X)) by (intros X SX PX; apply inverse_block; assumption).
    exists (fun X => (p + e * (rsum k (fun i => rsum k (fun j => N i j * (A k i * A k j))) / (c * c) + rsum k (fun i => (N i k + N k i) * A k i) / c + N k k) + (1 + e / c) * rsum k (fun i => rsum k (fun j => N i j * K X i j))) * wishart_pdf LG k df V (schur k A) X). split.
    + intros X SX PX. pose proof (HK X SX PX) as IX. apply (inverse_step LG PSI HL HP k df A V X (K X) Hd' SA PA IA SX PX IX e p N (fun X => p + rsum (S k) (fun i => rsum (S k) (fun j => N i j * J X i j))) He).
      intros x s Hs. cbv beta. f_equal. apply rsum_ext. intros i Hi. apply rsum_ext. intros j Hj. f_equal.
      refine (inverse_unique (S k) _ _ _ _ (border_inverse k X (K X) SX IX x s Hs) i j Hi Hj). apply HJ; [apply border_sym, SX|]. apply (posdef_border k X (K X) x SX PX IX). lra.
    + pose proof (IH df (schur k A) V (p + e * (rsum k (fun i => rsum k (fun j => N i j * (A k i * A k j))) / (c * c) + rsum k (fun i => (N i k + N k i) * A k i) / c + N k k)) (fun i j => (1 + e / c) * N i j) K ltac:(lra) (schur_sym k A SA) (schur_posdef k A SA PA) (schur_inverse k A V SA PA IA) HK) as H. cbv beta in H.
      assert (E1 : forall Z, rsum k (fun i => rsum k (fun j => (1 + e / c) * N i j * Z i j)) = (1 + e / c) * rsum k (fun i => rsum k (fun j => N i j * Z i j))) by (intros Z; rewrite <- rsum_scal_l; apply rsum_ext; intros i Hi; rewrite <- rsum_scal_l; apply rsum_ext; intros; ring).
      rewrite E1 in H. match type of H with cone _ _ ?v => match goal with |- cone _ _ ?u => replace u with v end end.
      * eapply cone_ext; [|exact H]. intros X _ _. cbv beta. rewrite E1. reflexivity.
      * rewrite (rsum2_S k (fun i j => N i j * A i j)). assert (E2 : rsum k (fun i => rsum k (fun j => N i j * schur k A i j)) = rsum k (fun i => rsum k (fun j => N i j * A i j)) - / c * rsum k (fun i => rsum k (fun j => N i j * (A k i * A k j)))).
        { rewrite <- rsum_scal_l, <- rsum_minus. apply rsum_ext. intros i Hi. rewrite <- rsum_scal_l, <- rsum_minus. apply rsum_ext. intros j Hj. unfold schur. fold c. field. lra. }
        rewrite E2. rewrite (rsum_ext k (fun i => (N i k + N k i) * A k i) (fun i => N i k * A i k + N k i * A k i)) by (intros i Hi; rewrite (SA i k) by lia; ring). rewrite rsum_plus. fold c. unfold e. rewrite S_INR. field. repeat split; lra.
Qed.
Lemma wishart_inverse_mean n df A V J i j : INR n + 1 < df -> symmetric n A -> posdef n A -> inverse_of n A V -> (forall X, symmetric n X -> posdef n X -> inverse_of n X (J X)) -> (i < n)%nat -> (j < n)%nat ->
  wexpects n (wishart_pdf LG n df V A) (fun X => J X i j) (A i j / (df - INR n - 1)).
Proof.
  intros Hd SA PA IA HJ Hi Hj s t H. pose proof (relabels_sym n s t H) as H'. unfold wexpects_in. destruct (H i Hi) as [[Si Ei] _]. destruct (H j Hj) as [[Sj Ej] _].
  assert (HJ' : forall X, symmetric n X -> posdef n X -> inverse_of n X (pull t (J (pull s X)))).
  { intros X SX PX. pose proof (pull_inverse n s t _ _ H (HJ (pull s X) (pull_sym _ t s X H' SX) (pull_posdef _ t s X H' PX))) as Q.
    intros a b Ha Hb. destruct (Q a b Ha Hb) as [Q1 Q2]. split; [rewrite <- Q1|rewrite <- Q2]; apply rsum_ext; intros l Hl; unfold pull; rewrite ?(proj2 (proj2 (H a Ha))), ?(proj2 (proj2 (H b Hb))), ?(proj2 (proj2 (H l Hl))); reflexivity. }
  pose proof (wishart_inverse_linear n df (pull t A) (pull t V) 0 (fun a b => delta a (s i) * delta b (s j)) (fun X => pull t (J (pull s X))) Hd (pull_sym _ s t A H SA) (pull_posdef _ s t A H PA) (pull_inverse _ s t A V H IA) HJ') as Q. cbv beta in Q.
  rewrite (pick2 n (s i) (s j) (pull t A)) in Q by assumption. change (pull t A (s i) (s j)) with (A (t (s i)) (t (s j))) in Q. rewrite Ei, Ej, Rplus_0_l in Q.
  eapply cone_ext; [|exact Q]. intros X SX PX. cbv beta. rewrite (pdf_reorder n s t df V A X H). rewrite (pick2 n (s i) (s j) (pull t (J (pull s X)))) by assumption.
  change (pull t (J (pull s X)) (s i) (s j)) with (J (pull s X) (t (s i)) (t (s j))). rewrite Ei, Ej. change (reorder s X) with (pull s X). ring.
Qed.
Lemma first_order n r : (r < n)%nat -> exists s t, relabels n s t /\ S (s r) = n.
Proof.
  intros Hr. set (s := fun i => if Nat.eqb i r then (n - 1)%nat else if Nat.eqb i (n - 1) then r else i). assert (Q : forall i, (i < n)%nat -> (s i < n)%nat /\ s (s i) = i).
  { intros i Hi. unfold s. destruct (Nat.eqb_spec i r); [|destruct (Nat.eqb_spec i (n - 1))]; repeat match goal with |- context [Nat.eqb ?a ?b] => destruct (Nat.eqb_spec a b) end; lia. }
  exists s, s. split; [intros i Hi; split; apply Q, Hi|]. unfold s. rewrite Nat.eqb_refl. lia.
Qed.
Lemma wexpects_first_unique r n p f v w : (r < n)%nat -> wexpects_first r n p f v -> wexpects_first r n p f w -> v = w.
Proof. intros Hr H K. destruct (first_order n r Hr) as [s [t [R E]]]. exact (cone_unique n _ _ _ (H s t R E) (K s t R E)). Qed.
End Wishart.

(** ---- the Wishart functions and WishartParam ---- *)
Section Code.
Variables (LG PSI : R -> R).
Hypotheses (HL : log_gamma LG) (HP : digamma_of LG PSI).
Variables (gammaln digamma : num -> num).
Hypotheses (SL : special gammaln LG) (SP : special digamma PSI).
Variable slogdet : arr -> res (num * num).
Hypothesis HS : slogdet_contract slogdet.
Variables (s : list nat) (n : nat) (df : R) (V Vinv : nat -> nat -> R).
Hypotheses (Ns : number_shape s) (Hd : INR n - 1 < df) (SV : symmetric n V) (PV : posdef n V) (IV : inverse_of n V Vinv).
Lemma Vinv_sym : symmetric n Vinv.
Proof. exact (inverse_sym n V Vinv SV IV). Qed.
Lemma Vinv_posdef : posdef n Vinv.
Proof. exact (inverse_posdef n V Vinv SV PV IV). Qed.
Lemma Vinv_inverse : inverse_of n Vinv V.
Proof. exact (inverse_symm n V Vinv IV). Qed.
Lemma wishart_fun_integrals : exists l h, e_log_det_wishart digamma slogdet (farr s (fun _ => df)) (fmat n V) = Ok (fnum l) /\ wishart_entropy gammaln digamma slogdet (farr s (fun _ => df)) (fmat n V) = Ok (farr s (fun _ => h)) /\
  let p := wishart_pdf LG n df V Vinv in wexpects n p (fun X => ln (det n X)) l /\ wexpects n p (fun X => - ln (p X)) h.
Proof.
  destruct (wishart_shape_value gammaln digamma LG PSI SL SP slogdet HS s n df V Ns Hd (posdef_det n V SV PV)) as [E1 E2].
  exists (e_log_det_of PSI n df V), (wishart_entropy_of LG PSI n df V). split; [exact E1|]. split; [exact E2|]. cbv zeta.
  split; [apply wishart_log_det|apply wishart_entropy_int]; try assumption; first [apply Vinv_sym|apply Vinv_posdef|apply Vinv_inverse].
Qed.
Lemma wishart_class_integrals d : holds d "df" (farr s (fun _ => df)) -> holds d "v" (fmat n V) ->
  exists e l h, wp_e d = Ok (fmat n e) /\ wp_e_log_det digamma slogdet d = Ok (fnum l) /\ wp_entropy gammaln digamma slogdet d = Ok (farr s (fun _ => h)) /\
  let p := wishart_pdf LG n df V Vinv in (forall i j, (i < n)%nat -> (j < n)%nat -> wexpects n p (fun X => X i j) (e i j)) /\ wexpects n p (fun X => ln (det n X)) l /\ wexpects n p (fun X => - ln (p X)) h.
Proof.
  intros H1 H2. destruct wishart_fun_integrals as [l [h [E1 [E2 [E3 E4]]]]]. exists (fun i j => df * V i j), l, h. unfold wp_e, wp_e_log_det, wp_entropy. rewrite (member_holds _ _ _ H1), (member_holds _ _ _ H2). cbn [rbind].
  split; [apply scale_matrix, Ns|]. split; [exact E1|]. split; [exact E2|]. cbv zeta. split; [|split; assumption].
  intros i j Hi Hj. apply (wishart_mean LG PSI HL HP); try assumption; first [apply Vinv_sym|apply Vinv_posdef|apply Vinv_inverse].
Qed.
Variable inv : arr -> res arr.
Hypothesis HI : inverts inv n V.
Lemma inv_value : inv (fmat n V) = Ok (fmat n Vinv).
Proof.
  destruct HI as [B [E I]]. rewrite E. apply Ok_eq. apply fmat_ext. intros i j Hi Hj. exact (inverse_unique n V B Vinv I IV i j Hi Hj).
Qed.
Lemma e_log_inv_shape : e_log_inv_wishart_diag digamma inv (farr s (fun _ => df)) (fmat n V) = Ok (fvec_of n (fun i => ln (Vinv i i) - PSI ((df - INR n + 1) / 2) - ln 2)).
Proof.
  assert (PB : forall i, (i < n)%nat -> 0 < Vinv i i) by (intros i Hi; apply (posdef_diag n Vinv i Vinv_posdef Hi)).
  unfold e_log_inv_wishart_diag, shape_at. cbn [shape fmat mk_mat nth_error rbind]. rewrite Nat.eqb_refl. unfold rassert.
  change (mk_mat n n (fun i j => Fin (V i j))) with (fmat n V). rewrite inv_value. cbn [rbind].
  assert (Dg : np_diag (fmat n Vinv) = Ok (mk_nd [n] (fun idx => Fin (Vinv (nth 0 idx 0%nat) (nth 0 idx 0%nat))))).
  { rewrite fmat_fmat_of. unfold np_diag, fmat_of, farr. rewrite mk_nd_shape, Nat.min_id. apply Ok_eq. apply mk_nd_ext. intros idx H. apply in_product_1 in H as [i [-> Hi]].
    cbn [nth]. rewrite nd_at_mk by (apply in_product_2; auto). reflexivity. }
  rewrite Dg. cbn [rbind]. rewrite fvec_of_mk. unfold farr.
  destruct Ns as [-> | ->]; py; apply Ok_eq; apply mk_nd_ext; intros idx H; apply in_product_1 in H as [i [-> Hi]]; cbn [nth];
  rewrite nlog_pos by (apply PB, Hi); rewrite (nlog_pos 2) by lra; fin; replace (/ 2 * (df + - INR n + 1)) with ((df - INR n + 1) / 2) by field; rewrite SP by lra; reflexivity.
Qed.
Lemma lkj_pointwise eta X J : symmetric n X -> posdef n X -> inverse_of n X J -> ln (Rpower (det n (correlation J)) (eta - 1)) = (eta - 1) * (- ln (det n X) - rsum n (fun i => ln (J i i))).
Proof.
  intros SX PX I. pose proof (lkj_value_expect n eta [(1, (X, J))]) as H. unfold surely, expect, lsum in H. cbn [map fst snd fold_right] in H. rewrite ?Rmult_1_l, ?Rplus_0_r in H.
  rewrite (rsum_ext n (fun i => 1 * ln (J i i) + 0) (fun i => ln (J i i))) in H by (intros; ring). rewrite <- H; [ring|]. constructor; [|constructor]. cbn [fst snd]. split; [exact I|]. split; [apply posdef_det; assumption|].
  intros i Hi. apply (posdef_diag n J i); [exact (inverse_posdef n X J SX PX I)|exact Hi].
Qed.
Lemma wishart_lkj_integrals d eta J : holds d "df" (farr s (fun _ => df)) -> holds d "v" (fmat n V) -> (forall X, symmetric n X -> posdef n X -> inverse_of n X (J X)) ->
  exists l q r, e_log_det_wishart digamma slogdet (farr s (fun _ => df)) (fmat n V) = Ok (fnum l) /\ e_log_inv_wishart_diag digamma inv (farr s (fun _ => df)) (fmat n V) = Ok (fvec_of n q) /\ wp_e_log_lkj_inv_prior digamma slogdet inv eta d = Ok (fnum r) /\
    let p := wishart_pdf LG n df V Vinv in wexpects n p (fun X => ln (det n X)) l /\ (forall i, (i < n)%nat -> wexpects_first i n p (fun X => ln (J X i i)) (q i)) /\
    (forall X, symmetric n X -> posdef n X -> ln (Rpower (det n (correlation (J X))) (eta - 1)) = (eta - 1) * (- ln (det n X) - rsum n (fun i => ln (J X i i)))) /\
    r = (eta - 1) * (- l - rsum n q).
Proof.
  intros H1 H2 HJ. destruct wishart_fun_integrals as [l [h [E1 [_ [E3 _]]]]]. exists l, (fun i => ln (Vinv i i) - PSI ((df - INR n + 1) / 2) - ln 2), ((eta - 1) * (- l - rsum n (fun i => ln (Vinv i i) - PSI ((df - INR n + 1) / 2) - ln 2))).
  split; [exact E1|]. split; [exact e_log_inv_shape|]. split.
  - unfold wp_e_log_lkj_inv_prior. rewrite (member_holds _ _ _ H1), (member_holds _ _ _ H2). cbn [rbind]. unfold expected_ljk_prior. rewrite E1, e_log_inv_shape. rewrite fnum_mk, fvec_of_mk. py. cbn [rbind]. py. apply Ok_eq. rewrite fnum_mk. apply mk_nd_ext. intros _ _. rewrite product_1, map_map. cbn [nth]. rewrite nsum_seq. fin. f_equal. ring.
  - cbv zeta. split; [exact E3|]. split; [|split; [intros X SX PX; apply lkj_pointwise; auto|reflexivity]].
    intros i Hi s0 t R E. apply (wishart_inverse_diag LG PSI HL HP n df Vinv V J i s0 t); try assumption; first [apply Vinv_sym|apply Vinv_posdef|apply Vinv_inverse].
Qed.
Lemma wishart_inv_integrals d J : holds d "df" (farr s (fun _ => df)) -> holds d "v" (fmat n V) -> INR n + 1 < df -> (forall X, symmetric n X -> posdef n X -> inverse_of n X (J X)) ->
  exists e w, wp_e_inv inv d = Ok (fmat n e) /\ (forall i j, (i < n)%nat -> (j < n)%nat -> wexpects n (wishart_pdf LG n df V Vinv) (fun X => J X i j) (w i j) /\ e i j = df * (df - INR n - 1) * w i j) /\ (forall i, (i < n)%nat -> 0 < w i i).
Proof.
  intros H1 H2 Hd2 HJ. exists (fun i j => df * Vinv i j), (fun i j => Vinv i j / (df - INR n - 1)). split; [apply (wishart_e_inv inv d s n df V Vinv); try assumption; apply inv_value|].
  split; [|intros i Hi; apply Rdiv_lt_0_compat; [apply (posdef_diag n Vinv i Vinv_posdef Hi)|lra]].
  intros i j Hi Hj. split; [|field; lra]. apply (wishart_inverse_mean LG PSI HL HP n df Vinv V J i j); try assumption; first [apply Vinv_sym|apply Vinv_posdef|apply Vinv_inverse].
Qed.
End Code.
(** an inverse function exists *)
Fixpoint inv_rec (n : nat) (X : nat -> nat -> R) : nat -> nat -> R :=
  match n with
  | O => X
  | S k => let Y := inv_rec k X in let x := fun i => X i k in let s := X k k - quad k Y x in
      border k (fun i j => Y i j + rsum k (fun l => Y i l * x l) * rsum k (fun l => Y j l * x l) * / s) (fun i => - rsum k (fun l => Y i l * x l) * / s) (/ s)
  end.
Lemma inv_rec_ok n : forall X, symmetric n X -> posdef n X -> inverse_of n X (inv_rec n X).
Proof.
  induction n as [|k IH]; intros X SX PX; [intros i j Hi; lia|].
  assert (S1 : symmetric k X) by (intros i j Hi Hj; apply SX; lia).
  assert (B1 : forall i j, (i < S k)%nat -> (j < S k)%nat -> X i j = border k X (fun i => X i k) (X k k) i j).
  { intros i j Hi Hj. unfold border. destruct (Nat.eqb_spec i k) as [->|], (Nat.eqb_spec j k) as [->|]; try reflexivity. apply SX; lia. }
  assert (P1 : posdef k X).
  { intros z [i [Hi Ni]]. pose proof (PX (fun i => if Nat.eqb i k then 0 else z i)) as Q. assert (Q1 : 0 < quad (S k) X (fun i => if Nat.eqb i k then 0 else z i)) by (apply Q; exists i; split; [lia|]; destruct (Nat.eqb_spec i k); [lia|exact Ni]).
    unfold quad in *. rewrite rsum2_S in Q1. rewrite Nat.eqb_refl in Q1. rewrite (rsum_ext k (fun i => rsum k (fun j => (if Nat.eqb i k then 0 else z i) * X i j * (if Nat.eqb j k then 0 else z j))) (fun i => rsum k (fun j => z i * X i j * z j))) in Q1.
    2:{ intros a Ha. apply rsum_ext. intros b Hb. destruct (Nat.eqb_spec a k), (Nat.eqb_spec b k); try lia. reflexivity. }
    rewrite (rsum_zero k (fun i => (if Nat.eqb i k then 0 else z i) * X i k * 0)) in Q1 by (intros; ring). rewrite (rsum_zero k (fun j => 0 * X k j * (if Nat.eqb j k then 0 else z j))) in Q1 by (intros; ring). lra. }
  pose proof (IH X S1 P1) as I1.
  assert (PB : posdef (S k) (border k X (fun i => X i k) (X k k))). { intros z Nz. specialize (PX z Nz). unfold quad in *. erewrite rsum_ext; [exact PX|]. intros i Hi. cbv beta. apply rsum_ext. intros j Hj. rewrite (B1 i j Hi Hj). reflexivity. }
  apply (posdef_border k X (inv_rec k X) _ S1 P1 I1) in PB.
  pose proof (border_inverse k X (inv_rec k X) S1 I1 (fun i => X i k) (X k k - quad k (inv_rec k X) (fun i => X i k)) ltac:(lra)) as Q. replace (quad k (inv_rec k X) (fun i => X i k) + (X k k - quad k (inv_rec k X) (fun i => X i k))) with (X k k) in Q by ring.
  intros i j Hi Hj. destruct (Q i j Hi Hj) as [Q1 Q2]. split; [rewrite <- Q1|rewrite <- Q2]; apply rsum_ext; intros l Hl; [rewrite (B1 i l Hi Hl)|rewrite (B1 l j Hl Hj)]; reflexivity.
Qed.
Lemma wishart_total_scale LG PSI : log_gamma LG -> digamma_of LG PSI -> forall n df V Vinv, INR n - 1 < df -> symmetric n V -> posdef n V -> inverse_of n V Vinv -> wexpects n (wishart_pdf LG n df V Vinv) (fun _ => 1) 1.
Proof.
  intros HL HP n df V Vinv Hd SV PV IV. apply (wishart_total LG PSI HL HP); [exact Hd|exact (inverse_sym n V Vinv SV IV)|exact (inverse_posdef n V Vinv SV PV IV)|exact (inverse_symm n V Vinv IV)].
Qed.
