(** Determinants: multilinear and alternating in the rows, hence multiplicative. *)
From Coq Require Import Reals List Arith Lra Lia FunctionalExtensionality.
From Verif Require Import Res Num Nd RSum SpecMatrix SpecExpFam LemmasEntropy.
Import List ListNotations.
Open Scope R_scope.
Set Bullet Behavior "Strict Subproofs".

Notation mat := (nat -> nat -> R) (only parsing).
Definition skip (j k : nat) : nat := if Nat.ltb k j then k else S k.
Definition upd (A : mat) (i : nat) (r : nat -> R) : mat := fun k => if Nat.eqb k i then r else A k.
Definition agree (n : nat) (A B : mat) : Prop := forall i j, (i < n)%nat -> (j < n)%nat -> A i j = B i j.
Record form (n : nat) (F : mat -> R) : Prop := Form {
  form_ext : forall A B, agree n A B -> F A = F B;
  form_lin : forall A i x y u v, (i < n)%nat -> F (upd A i (fun c => x * u c + y * v c)) = x * F (upd A i u) + y * F (upd A i v);
  form_alt : forall A i, (S i < n)%nat -> (forall c, (c < n)%nat -> A i c = A (S i) c) -> F A = 0 }.

Lemma rsum_skip n a f : (a <= n)%nat -> rsum (S n) f = f a + rsum n (fun l => f (skip a l)).
Proof.
  revert f a. induction n as [|n IH]; intros f a Ha.
  - replace a with 0%nat by lia. cbn. ring.
  - destruct (Nat.eq_dec a (S n)) as [->|Hne].
    + change (rsum (S (S n)) f) with (rsum (S n) f + f (S n)). rewrite Rplus_comm. f_equal. apply rsum_ext. intros k Hk. unfold skip. destruct (Nat.ltb_spec k (S n)); [reflexivity|lia].
    + change (rsum (S (S n)) f) with (rsum (S n) f + f (S n)). rewrite (IH f a) by lia.
      change (rsum (S n) (fun l => f (skip a l))) with (rsum n (fun l => f (skip a l)) + f (skip a n)).
      replace (skip a n) with (S n) by (unfold skip; destruct (Nat.ltb_spec n a); [lia|reflexivity]). ring.
Qed.
Lemma antisym_sum n (T : nat -> nat -> R) : (forall a b, (a < n)%nat -> (b < n)%nat -> T a b = - T b a) -> rsum n (fun a => rsum n (fun b => T a b)) = 0.
Proof.
  intros H. assert (E : rsum n (fun a => rsum n (fun b => T a b)) = - rsum n (fun a => rsum n (fun b => T a b))).
  { rewrite rsum_swap at 1. rewrite <- rsum_opp. apply rsum_ext. intros a Ha. rewrite <- rsum_opp. apply rsum_ext. intros b Hb. apply H; assumption. }
  lra.
Qed.
(** the first two rows equal *)
Lemma det_alt0 n A : (forall c, (c < S (S n))%nat -> A 0%nat c = A 1%nat c) -> det (S (S n)) A = 0.
Proof.
  intros H. pose (M := fun a b => det n (fun i k => A (S (S i)) (skip (Nat.min a b) (skip (Nat.max a b - 1) k)))).
  pose (T := fun a b => if Nat.eqb a b then 0 else (if Nat.ltb b a then 1 else -1) * (-1) ^ (a + b) * A 0%nat a * A 0%nat b * M a b).
  rewrite <- (antisym_sum (S (S n)) T).
  - change (det (S (S n)) A) with (rsum (S (S n)) (fun j => (-1) ^ j * A 0%nat j * det (S n) (minor A j))). apply rsum_ext. intros a Ha.
    rewrite (rsum_skip (S n) a (fun b => T a b)) by lia. unfold T at 1. rewrite Nat.eqb_refl, Rplus_0_l.
    change (det (S n) (minor A a)) with (rsum (S n) (fun l => (-1) ^ l * minor A a 0%nat l * det n (minor (minor A a) l))). rewrite <- rsum_scal_l. apply rsum_ext. intros l Hl.
    unfold T, minor at 1. fold (skip a l). destruct (Nat.lt_ge_cases l a) as [L|L].
    + replace (skip a l) with l by (unfold skip; destruct (Nat.ltb_spec l a); lia). destruct (Nat.eqb_spec a l); [lia|]. destruct (Nat.ltb_spec l a); [|lia]. rewrite pow_add. rewrite <- (H l) by lia.
      rewrite (det_ext n (minor (minor A a) l) (fun i k => A (S (S i)) (skip (Nat.min a l) (skip (Nat.max a l - 1) k)))); [unfold M; ring|].
      intros i k Hi Hk. unfold minor. fold (skip l k). fold (skip a (skip l k)). rewrite Nat.min_r, Nat.max_l by lia. f_equal. unfold skip.
      destruct (Nat.ltb_spec k l), (Nat.ltb_spec k (a - 1)); repeat (match goal with |- context [Nat.ltb ?x ?y] => destruct (Nat.ltb_spec x y) end); lia.
    + replace (skip a l) with (S l) by (unfold skip; destruct (Nat.ltb_spec l a); lia). destruct (Nat.eqb_spec a (S l)); [lia|]. destruct (Nat.ltb_spec (S l) a); [lia|]. rewrite pow_add. rewrite <- (H (S l)) by lia. cbn [pow].
      rewrite (det_ext n (minor (minor A a) l) (fun i k => A (S (S i)) (skip (Nat.min a (S l)) (skip (Nat.max a (S l) - 1) k)))); [unfold M; ring|].
      intros i k Hi Hk. unfold minor. fold (skip l k). fold (skip a (skip l k)). rewrite Nat.min_l, Nat.max_r by lia. f_equal. f_equal. f_equal. lia.
  - intros a b Ha Hb. unfold T, M. rewrite (Nat.min_comm a b), (Nat.max_comm a b), (Nat.add_comm a b), (Nat.eqb_sym a b).
    destruct (Nat.eqb_spec b a); [ring|]. destruct (Nat.ltb_spec b a), (Nat.ltb_spec a b); try lia; ring.
Qed.
Lemma minor_upd A i r j a k : minor (upd A (S i) r) j a k = upd (minor A j) i (fun k => r (skip j k)) a k.
Proof. unfold minor, upd, skip. cbn [Nat.eqb]. destruct (Nat.eqb a i); reflexivity. Qed.
Lemma minor_upd0 A r j : minor (upd A 0 r) j = minor A j.
Proof. reflexivity. Qed.
Lemma det_form n : form n (det n).
Proof.
  split.
  - intros A B H. apply det_ext. exact H.
  - induction n as [|n IH]; intros A i x y u v Hi; [lia|]. cbn [det]. change (rsum (S n)) with (rsum (S n)). rewrite <- !rsum_scal_l, <- rsum_plus. apply rsum_ext. intros j Hj. destruct i as [|i].
    + rewrite !minor_upd0. unfold upd. cbn [Nat.eqb]. ring.
    + rewrite !(det_ext n (minor (upd A (S i) _) j) _ (fun a k _ _ => minor_upd A i _ j a k)). unfold upd at 1 3 5. cbn [Nat.eqb]. rewrite (IH _ i x y (fun k => u (skip j k)) (fun k => v (skip j k))) by lia. ring.
  - induction n as [|n IH]; intros A i Hi H; [lia|]. destruct i as [|i].
    + destruct n as [|n]; [lia|]. apply det_alt0. exact H.
    + cbn [det]. apply rsum_zero. intros j Hj. rewrite (IH (minor A j) i); [ring|lia|]. intros c Hc. unfold minor. destruct (Nat.ltb_spec c j); apply H; lia.
Qed.

(** consequences for every such form *)
Section F.
Variable n : nat.
Variable F : mat -> R.
Hypothesis HF : form n F.
Lemma upd_same A i : agree n (upd A i (A i)) A.
Proof. intros k c _ _. unfold upd. destruct (Nat.eqb_spec k i) as [->|]; reflexivity. Qed.
Definition swap (A : mat) (i k : nat) : mat := fun a => if Nat.eqb a i then A k else if Nat.eqb a k then A i else A a.
(** if equal rows i and k always give 0, swapping them changes the sign *)
Lemma swap_of_alt i k : (i < n)%nat -> (k < n)%nat -> i <> k -> (forall A, (forall c, (c < n)%nat -> A i c = A k c) -> F A = 0) -> forall A, F (swap A i k) = - F A.
Proof.
  intros Hi Hk Hne Z A. pose (s := fun c => 1 * A i c + 1 * A k c).
  assert (E : F (upd (upd A i s) k s) = 0).
  { apply Z. intros c _. unfold upd. rewrite !Nat.eqb_refl. destruct (Nat.eqb_spec i k); [lia|reflexivity]. }
  assert (X : F (upd (upd A i s) k s) = F A + F (swap A i k)).
  { unfold s at 2. rewrite (form_lin n F HF) by exact Hk.
    assert (C : forall r, F (upd (upd A i s) k r) = F (upd (upd A i (A i)) k r) + F (upd (upd A i (A k)) k r)).
    { intros r. assert (Cm : forall q, agree n (upd (upd A i q) k r) (upd (upd A k r) i q)).
      { intros q a c _ _. unfold upd. destruct (Nat.eqb_spec a k), (Nat.eqb_spec a i); subst; try lia; reflexivity. }
      rewrite (form_ext n F HF _ _ (Cm s)). unfold s. rewrite (form_lin n F HF) by exact Hi. rewrite (form_ext n F HF _ _ (Cm (A i))), (form_ext n F HF _ _ (Cm (A k))). ring. }
    rewrite !C.
    assert (Z1 : F (upd (upd A i (A i)) k (A i)) = 0) by (apply Z; intros c _; unfold upd; rewrite !Nat.eqb_refl; destruct (Nat.eqb_spec i k); [lia|reflexivity]).
    assert (Z2 : F (upd (upd A i (A k)) k (A k)) = 0) by (apply Z; intros c _; unfold upd; rewrite !Nat.eqb_refl; destruct (Nat.eqb_spec i k); [lia|reflexivity]).
    rewrite Z1, Z2.
    rewrite (form_ext n F HF (upd (upd A i (A i)) k (A k)) A) by (intros a c _ _; unfold upd; destruct (Nat.eqb_spec a k), (Nat.eqb_spec a i); subst; reflexivity).
    rewrite (form_ext n F HF (upd (upd A i (A k)) k (A i)) (swap A i k)) by (intros a c _ _; unfold upd, swap; destruct (Nat.eqb_spec a k), (Nat.eqb_spec a i); subst; try lia; reflexivity).
    ring. }
  lra.
Qed.
Lemma alt0 i : (0 < i)%nat -> (i < n)%nat -> forall A, (forall c, (c < n)%nat -> A 0%nat c = A i c) -> F A = 0.
Proof.
  induction i as [|i IH]; [lia|]. intros _ Hi A H. destruct (Nat.eq_dec i 0) as [->|Hne].
  - apply (form_alt n F HF A 0); assumption.
  - assert (E : F (swap A i (S i)) = - F A) by (apply swap_of_alt; [lia|lia|lia|intros B HB; apply (form_alt n F HF B i); assumption]).
    rewrite (IH ltac:(lia) ltac:(lia) (swap A i (S i))) in E; [lra|]. intros c Hc. unfold swap. destruct (Nat.eqb_spec 0 i); [lia|]. cbn [Nat.eqb]. rewrite Nat.eqb_refl. apply H, Hc.
Qed.
Lemma swap0 i A : (0 < i)%nat -> (i < n)%nat -> F (swap A 0 i) = - F A.
Proof. intros H0 Hi. apply swap_of_alt; [lia|exact Hi|lia|]. intros B HB. apply (alt0 i H0 Hi). exact HB. Qed.
(** adding a multiple of row 0 to row i *)
Lemma add_row0 i A x : (0 < i)%nat -> (i < n)%nat -> F (upd A i (fun c => A i c + x * A 0%nat c)) = F A.
Proof.
  intros H0 Hi. rewrite (form_ext n F HF _ (upd A i (fun c => 1 * A i c + x * A 0%nat c))) by (intros a c _ _; unfold upd; destruct (Nat.eqb a i); ring).
  rewrite (form_lin n F HF) by exact Hi. rewrite (form_ext n F HF _ _ (upd_same A i)).
  rewrite (alt0 i H0 Hi (upd A i (A 0%nat))); [ring|]. intros c _. unfold upd. rewrite Nat.eqb_refl. destruct (Nat.eqb_spec 0 i); [lia|reflexivity].
Qed.
(** clearing a column below row 0 *)
Lemma add_rows0 x m A : (m < n)%nat -> F (fun i c => if Nat.eqb i 0 then A 0%nat c else if Nat.leb i m then A i c + x i * A 0%nat c else A i c) = F A.
Proof.
  induction m as [|m IH]; intros Hm.
  - apply (form_ext n F HF). intros i c _ _. destruct (Nat.eqb_spec i 0) as [->|]; [reflexivity|]. destruct (Nat.leb_spec i 0); [lia|reflexivity].
  - rewrite <- IH by lia. pose (B := fun i c => if Nat.eqb i 0 then A 0%nat c else if Nat.leb i m then A i c + x i * A 0%nat c else A i c).
    change (F (fun i c => if Nat.eqb i 0 then A 0%nat c else if Nat.leb i m then A i c + x i * A 0%nat c else A i c)) with (F B).
    rewrite <- (add_row0 (S m) B (x (S m))) by lia. unfold B. apply (form_ext n F HF). intros i c _ _. unfold upd.
    destruct (Nat.eqb_spec i (S m)) as [->|]; [cbn [Nat.eqb]; destruct (Nat.leb_spec (S m) (S m)); [|lia]; destruct (Nat.leb_spec (S m) m); [lia|reflexivity]|].
    destruct (Nat.eqb_spec i 0); [reflexivity|]. destruct (Nat.leb_spec i (S m)), (Nat.leb_spec i m); try lia; reflexivity.
Qed.
Lemma row0_expand A k : (k <= n)%nat -> (0 < n)%nat -> F (upd A 0 (fun c => rsum k (fun j => A 0%nat j * delta j c))) = rsum k (fun j => A 0%nat j * F (upd A 0 (delta j))).
Proof.
  induction k as [|k IH]; intros Hk Hn.
  - cbn [rsum]. rewrite (form_ext n F HF _ (upd A 0 (fun c => 0 * A 0%nat c + 0 * A 0%nat c))) by (intros a c _ _; unfold upd; destruct (Nat.eqb a 0); ring). rewrite (form_lin n F HF) by exact Hn. ring.
  - cbn [rsum]. rewrite <- IH by lia.
    rewrite (form_ext n F HF _ (upd A 0 (fun c => 1 * rsum k (fun j => A 0%nat j * delta j c) + A 0%nat k * delta k c))) by (intros a c _ _; unfold upd; destruct (Nat.eqb a 0); ring).
    rewrite (form_lin n F HF) by exact Hn. ring.
Qed.
End F.

(** rows e_j, and e_0, e_1, ... without e_j below, or a given smaller matrix in the columns other than j *)
Definition bordered (j : nat) (B : mat) : mat := fun i c =>
  match i with O => delta j c | S i' => if Nat.eqb c j then 0 else B i' (if Nat.ltb c j then c else (c - 1)%nat) end.
Lemma skip_ne j k : skip j k <> j.
Proof. unfold skip. destruct (Nat.ltb_spec k j); lia. Qed.
Lemma unskip j k : (if Nat.ltb (skip j k) j then skip j k else (skip j k - 1)%nat) = k.
Proof. unfold skip. destruct (Nat.ltb_spec k j); [destruct (Nat.ltb_spec k j); lia|destruct (Nat.ltb_spec (S k) j); lia]. Qed.
Lemma skip_unskip j c : c <> j -> skip j (if Nat.ltb c j then c else (c - 1)%nat) = c.
Proof. intros H. unfold skip. destruct (Nat.ltb_spec c j); [destruct (Nat.ltb_spec c j); lia|destruct (Nat.ltb_spec (c - 1) j); lia]. Qed.
Lemma bordered_form n F j : form (S n) F -> (j <= n)%nat -> form n (fun B => F (bordered j B)).
Proof.
  intros HF Hj. split.
  - intros A B H. apply (form_ext _ _ HF). intros [|i] c Hi Hc; [reflexivity|]. cbn [bordered]. destruct (Nat.eqb_spec c j); [reflexivity|]. apply H; [lia|]. destruct (Nat.ltb_spec c j); lia.
  - intros A i x y u v Hi.
    assert (E : forall r, F (bordered j (upd A i r)) = F (upd (bordered j A) (S i) (fun c => if Nat.eqb c j then 0 else r (if Nat.ltb c j then c else (c - 1)%nat)))).
    { intros r. apply (form_ext _ _ HF). intros [|a] c _ _; [reflexivity|]. unfold upd. cbn [Nat.eqb]. unfold bordered. destruct (Nat.eqb a i); destruct (Nat.eqb c j); reflexivity. }
    rewrite !E. rewrite <- (form_lin _ _ HF) by lia. apply (form_ext _ _ HF). intros a c _ _. unfold upd. destruct (Nat.eqb a (S i)); [|reflexivity]. destruct (Nat.eqb c j); ring.
  - intros A i Hi H. apply (form_alt _ _ HF _ (S i)); [lia|]. intros c Hc. cbn [bordered]. destruct (Nat.eqb_spec c j); [reflexivity|]. apply H. destruct (Nat.ltb_spec c j); lia.
Qed.
Lemma bordered_delta n F j : form (S n) F -> (j <= n)%nat -> F (bordered j delta) = (-1) ^ j * F delta.
Proof.
  intros HF. induction j as [|j IH]; intros Hj.
  - cbn [pow]. rewrite Rmult_1_l. apply (form_ext _ _ HF). intros [|i] c _ _; [reflexivity|]. cbn [bordered]. unfold delta. destruct (Nat.eqb_spec c 0) as [->|]; [reflexivity|]. destruct (Nat.ltb_spec c 0); [lia|].
    destruct (Nat.eqb_spec i (c - 1)), (Nat.eqb_spec (S i) c); try lia; reflexivity.
  - cbn [pow]. rewrite Rmult_assoc, <- IH by lia.
    transitivity (- F (bordered j delta)); [|ring]. rewrite <- (swap0 (S n) F HF (S j)) by lia. apply (form_ext _ _ HF). intros i c _ _. unfold swap.
    destruct (Nat.eqb_spec i 0) as [->|Hi0].
    + cbn [bordered]. unfold delta. destruct (Nat.eqb_spec c j) as [->|]; [destruct (Nat.eqb_spec (S j) j); [lia|reflexivity]|]. destruct (Nat.ltb_spec c j).
      * destruct (Nat.eqb_spec (S j) c), (Nat.eqb_spec j c); try lia; reflexivity.
      * destruct (Nat.eqb_spec (S j) c), (Nat.eqb_spec j (c - 1)); try lia; reflexivity.
    + destruct i as [|i]; [lia|]. destruct (Nat.eqb_spec (S i) (S j)) as [E|Hne].
      * injection E as ->. cbn [bordered]. unfold delta. destruct (Nat.eqb_spec c (S j)) as [->|]; [destruct (Nat.eqb_spec j (S j)); [lia|reflexivity]|]. destruct (Nat.ltb_spec c (S j)).
        -- reflexivity.
        -- destruct (Nat.eqb_spec j (c - 1)), (Nat.eqb_spec j c); try lia; reflexivity.
      * cbn [bordered]. unfold delta. destruct (Nat.eqb_spec c (S j)) as [->|N1]; destruct (Nat.eqb_spec (S j) j) as [|_]; try lia.
        -- destruct (Nat.ltb_spec (S j) j); [lia|]. destruct (Nat.eqb_spec i (S j - 1)); [lia|reflexivity].
        -- destruct (Nat.eqb_spec c j) as [->|N2]; [destruct (Nat.ltb_spec j (S j)); [|lia]; destruct (Nat.eqb_spec i j); [lia|reflexivity]|].
           destruct (Nat.ltb_spec c (S j)), (Nat.ltb_spec c j); try lia; reflexivity.
Qed.
(** uniqueness *)
Theorem form_det : forall n F, form n F -> forall A, F A = det n A * F delta.
Proof.
  induction n as [|n IH]; intros F HF A.
  - cbn [det]. rewrite Rmult_1_l. apply (form_ext _ _ HF). intros i j Hi. lia.
  - transitivity (F (upd A 0 (fun c => rsum (S n) (fun j => A 0%nat j * delta j c)))).
    { apply (form_ext _ _ HF). intros i c _ Hc. unfold upd. destruct (Nat.eqb_spec i 0) as [->|]; [|reflexivity].
      rewrite (rsum_single (S n) c); [unfold delta; rewrite Nat.eqb_refl; ring|exact Hc|]. intros k _ Hk. unfold delta. destruct (Nat.eqb_spec k c); [lia|ring]. }
    rewrite (row0_expand (S n) F HF) by lia. cbn [det]. rewrite <- rsum_scal_r. apply rsum_ext. intros j Hj.
    assert (E : F (upd A 0 (delta j)) = F (bordered j (minor A j))).
    { rewrite <- (add_rows0 (S n) F HF (fun i => - A i j) n (upd A 0 (delta j))) by lia. apply (form_ext _ _ HF). intros [|i] c Hi Hc; [reflexivity|]. cbn [Nat.eqb upd bordered].
      unfold upd. cbn [Nat.eqb]. destruct (Nat.leb_spec (S i) n); [|lia]. unfold delta, minor. destruct (Nat.eqb_spec c j) as [->|Hne].
      - rewrite Nat.eqb_refl. ring.
      - destruct (Nat.eqb_spec j c); [lia|]. fold (skip j (if Nat.ltb c j then c else (c - 1)%nat)). rewrite skip_unskip by exact Hne. ring. }
    rewrite E. rewrite (IH _ (bordered_form n F j HF ltac:(lia)) (minor A j)). rewrite (bordered_delta n F j HF) by lia. ring.
Qed.
Definition mmul (n : nat) (A B : mat) : mat := fun i j => rsum n (fun k => A i k * B k j).
Theorem det_mmul : forall n A B, det n (mmul n A B) = det n A * det n B.
Proof.
  intros n A B. pose proof (det_form n) as D.
  assert (HF : form n (fun X => det n (mmul n X B))).
  { split.
    - intros X Y H. apply det_ext. intros i j Hi Hj. unfold mmul. apply rsum_ext. intros k Hk. rewrite H by assumption. reflexivity.
    - intros X i x y u v Hi.
      assert (E : forall r, det n (mmul n (upd X i r) B) = det n (upd (mmul n X B) i (fun j => rsum n (fun k => r k * B k j)))).
      { intros r. apply det_ext. intros a c _ _. unfold mmul, upd. destruct (Nat.eqb a i); reflexivity. }
      rewrite !E. rewrite <- (form_lin _ _ D) by exact Hi. apply det_ext. intros a c _ _. unfold upd. destruct (Nat.eqb a i); [|reflexivity].
      rewrite <- !rsum_scal_l, <- rsum_plus. apply rsum_ext. intros k _. ring.
    - intros X i Hi H. apply (form_alt _ _ D _ i Hi). intros c Hc. unfold mmul. apply rsum_ext. intros k Hk. rewrite H by exact Hk. reflexivity. }
  rewrite (form_det n _ HF A). f_equal. apply det_ext. intros i j Hi _. unfold mmul. rewrite (rsum_single n i); [unfold delta; rewrite Nat.eqb_refl; ring|exact Hi|].
  intros k _ Hk. unfold delta. destruct (Nat.eqb_spec i k); [lia|ring].
Qed.
(** triangular matrices *)
Lemma det_lower n L : (forall i j, (i < j)%nat -> (j < n)%nat -> L i j = 0) -> det n L = rprod n (fun i => L i i).
Proof.
  revert L. induction n as [|n IH]; intros L H; [reflexivity|]. cbn [det]. rewrite (rsum_single (S n) 0); [|lia|].
  - cbn [pow]. rewrite (IH (minor L 0)); [rewrite rprod_S_l; unfold minor; cbn [Nat.ltb Nat.leb]; ring|]. intros i j Hi Hj. unfold minor. cbn [Nat.ltb Nat.leb]. apply H; lia.
  - intros j Hj Hne. rewrite H by lia. ring.
Qed.
Lemma det_col0 n A : (0 < n)%nat -> (forall i, (i < n)%nat -> A i 0%nat = 0) -> det n A = 0.
Proof.
  revert A. induction n as [|n IH]; intros A Hn H; [lia|]. cbn [det]. apply rsum_zero. intros j Hj. destruct j as [|j]; [rewrite H by lia; ring|].
  rewrite (IH (minor A (S j))); [ring|lia|]. intros i Hi. unfold minor. cbn [Nat.ltb Nat.leb]. apply H. lia.
Qed.
Lemma det_upper n U : (forall i j, (j < i)%nat -> (i < n)%nat -> U i j = 0) -> det n U = rprod n (fun i => U i i).
Proof.
  revert U. induction n as [|n IH]; intros U H; [reflexivity|]. cbn [det]. rewrite (rsum_single (S n) 0); [|lia|].
  - cbn [pow]. rewrite (IH (minor U 0)); [rewrite rprod_S_l; unfold minor; cbn [Nat.ltb Nat.leb]; ring|]. intros i j Hi Hj. unfold minor. cbn [Nat.ltb Nat.leb]. apply H; lia.
  - intros j Hj Hne. destruct j as [|j]; [lia|]. rewrite (det_col0 n); [ring|lia|]. intros i Hi. unfold minor. cbn [Nat.ltb Nat.leb]. apply H; lia.
Qed.
Lemma det_inverse n A B : inverse_of n A B -> det n A * det n B = 1.
Proof.
  intros H. rewrite <- det_mmul. rewrite (det_ext n _ (fun i j => if Nat.eqb i j then 1 else 0)).
  - rewrite det_diag. induction n; cbn; [reflexivity|]. clear -n. induction n; cbn; [ring|]. rewrite IHn. ring.
  - intros i j Hi Hj. unfold mmul. exact (proj1 (H i j Hi Hj)).
Qed.
