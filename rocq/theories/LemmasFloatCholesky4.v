(** The textbook Cholesky factorisation in binary64 succeeds on matrices far enough from singular. *)
From Coq Require Import Reals ZArith List Lra Lia Psatz Bool.
From Flocq Require Import Core BinarySingleNaN Relative.
From Verif Require Import Res Nd RSum SpecFloat SpecFloatSimplex SpecFloatAcc SpecFloatMatrix SpecFloatCholesky SpecMatrix ModelFloat ModelMatrix ModelFloatMatrix SpecFloatReach LemmasMatrix
  LemmasFloat LemmasFloat2 LemmasFloat3 LemmasFloat4 LemmasFloatSimplex LemmasFloatSimplex2 LemmasFloatAcc LemmasFloatMatrix LemmasFloatMatrix2 LemmasFloatMatrix3 LemmasFloatMatrix6 LemmasFloatCholesky LemmasFloatCholesky2 LemmasFloatCholesky3.
Import List ListNotations.
Set Bullet Behavior "Strict Subproofs".
Open Scope R_scope.

(** ** back substitution *)
Lemma back_subst m : forall (l : nat -> nat -> R) rho, (forall a k, (a < m)%nat -> (k < m)%nat -> (a < k)%nat -> l a k = 0) -> (forall a, (a < m)%nat -> l a a <> 0) ->
  exists z, forall k, (k < m)%nat -> rsum m (fun a => z a * l a k) = - rho k.
Proof.
  induction m as [|m IH]; intros l rho low nz; [exists (fun _ => 0); intros k Hk; lia|].
  set (zm := - rho m / l m m). destruct (IH l (fun k => rho k + zm * l m k)) as [z Hz].
  - intros a k Ha Hk. apply low; lia.
  - intros a Ha. apply nz. lia.
  - exists (fun a => if Nat.eqb a m then zm else z a). intros k Hk. cbn [rsum]. rewrite Nat.eqb_refl.
    rewrite (rsum_ext m _ (fun a => z a * l a k)) by (intros a Ha; destruct (Nat.eqb_spec a m); [lia|reflexivity]). destruct (Nat.eq_dec k m) as [->|N].
    + rewrite rsum_zero by (intros a Ha; rewrite (low a m) by lia; ring). unfold zm. field. apply nz. lia.
    + rewrite (Hz k) by lia. ring.
Qed.
Lemma split_sum n m i z (g : nat -> R) : (m <= i)%nat -> (i < n)%nat -> rsum n (fun a => (if Nat.ltb a m then z a else if Nat.eqb a i then 1 else 0) * g a) = rsum m (fun a => z a * g a) + g i.
Proof.
  intros Hm Hi. replace n with (m + (n - m))%nat by lia. rewrite rsum_split. f_equal.
  - apply rsum_ext. intros a Ha. destruct (Nat.ltb_spec a m); [reflexivity|lia].
  - rewrite (rsum_single (n - m) (i - m)).
    + replace (m + (i - m))%nat with i by lia. destruct (Nat.ltb_spec i m); [lia|]. rewrite Nat.eqb_refl. ring.
    + lia.
    + intros a Ha N. destruct (Nat.ltb_spec (m + a) m); [lia|]. destruct (Nat.eqb_spec (m + a) i); [lia|]. ring.
Qed.

Section Abstract.
Context (n m i : nat) (mi : (m <= i)%nat) (Hi : (i < n)%nat) (l A : nat -> nat -> R) (rho : nat -> R) (e : R) (e0 : 0 < e <= / 1000000).
Context (low : forall a k, (a < m)%nat -> (k < m)%nat -> (a < k)%nat -> l a k = 0) (pos : forall a, (a < m)%nat -> 0 < l a a).
Context (sym : forall a b, (a < n)%nat -> (b < n)%nat -> A a b = A b a).
Notation Q := (rsum m (fun k => rho k * rho k)).
Context (H1 : forall a b, (a < m)%nat -> (b < m)%nat -> Rabs (A a b - rsum m (fun k => l a k * l b k)) <= 103 / 100 * e * (sqrt (A a a) * sqrt (A b b))).
Context (H2 : forall a, (a < m)%nat -> Rabs (A i a - rsum m (fun k => rho k * l a k)) <= sqrt (A a a) * (101 / 100 * e * sqrt Q + 2 / 100 * e * sqrt (A i i))).
Context (A0 : 0 < A i i) (H3 : A i i - Q <= 11 / 10 * e * (Q + A i i)).
Context (H4 : forall y : nat -> R, (exists a, (a < n)%nat /\ y a <> 0) -> 3 * e * (rsum n (fun a => sqrt (A a a) * Rabs (y a))) ^ 2 < rsum n (fun a => rsum n (fun b => y a * A a b * y b))).
Lemma impossible : False.
Proof.
  destruct (back_subst m l rho low) as [z Hz]; [intros a Ha; pose proof (pos a Ha); lra|].
  set (y := fun a => if Nat.ltb a m then z a else if Nat.eqb a i then 1 else 0).
  assert (Y : exists a, (a < n)%nat /\ y a <> 0). { exists i. split; [exact Hi|]. unfold y. destruct (Nat.ltb_spec i m); [lia|]. rewrite Nat.eqb_refl. lra. }
  specialize (H4 y Y). set (al := sqrt (A i i)). set (w := sqrt Q). set (S := rsum m (fun a => sqrt (A a a) * Rabs (z a))).
  assert (Q0 : 0 <= Q) by (apply rsum_nonneg; intros; apply Rle_0_sqr).
  assert (al0 : 0 < al) by (apply sqrt_lt_R0; exact A0). assert (w0 : 0 <= w) by apply sqrt_pos. assert (S0 : 0 <= S) by (apply rsum_nonneg; intros; apply Rmult_le_pos; [apply sqrt_pos|apply Rabs_pos]).
  assert (al2 : al * al = A i i) by (apply sqrt_sqrt; lra). assert (w2 : w * w = Q) by (apply sqrt_sqrt; exact Q0).
  assert (L1 : rsum n (fun a => sqrt (A a a) * Rabs (y a)) = S + al).
  { rewrite (rsum_ext n _ (fun a => (if Nat.ltb a m then Rabs (z a) else if Nat.eqb a i then 1 else 0) * sqrt (A a a))).
    - rewrite (split_sum n m i (fun a => Rabs (z a)) (fun a => sqrt (A a a)) mi Hi). f_equal. apply rsum_ext. intros a Ha. ring.
    - intros a Ha. unfold y. destruct (Nat.ltb a m); [ring|]. destruct (Nat.eqb a i); [rewrite Rabs_R1|rewrite Rabs_R0]; ring. }
  assert (L2 : rsum n (fun a => rsum n (fun b => y a * A a b * y b)) = rsum m (fun a => rsum m (fun b => z a * z b * A a b)) + 2 * rsum m (fun a => z a * A i a) + A i i).
  { rewrite (rsum_ext n _ (fun a => y a * (rsum m (fun b => z b * A a b) + A a i))).
    - unfold y. rewrite (split_sum n m i z (fun a => rsum m (fun b => z b * A a b) + A a i) mi Hi).
      rewrite (rsum_ext m _ (fun a => rsum m (fun b => z a * z b * A a b) + z a * A i a)).
      + rewrite rsum_plus. ring.
      + intros a Ha. rewrite Rmult_plus_distr_l, <- rsum_scal_l, (sym a i) by lia. f_equal. apply rsum_ext. intros b Hb. ring.
    - intros a Ha. rewrite (rsum_ext n _ (fun b => y a * (y b * A a b))) by (intros; ring). rewrite rsum_scal_l. f_equal. unfold y. apply (split_sum n m i z (fun b => A a b) mi Hi). }
  assert (L3 : rsum m (fun a => rsum m (fun b => z a * z b * rsum m (fun k => l a k * l b k))) + 2 * rsum m (fun a => z a * rsum m (fun k => rho k * l a k)) + Q = 0).
  { transitivity (rsum m (fun k => (rsum m (fun a => z a * l a k) + rho k) * (rsum m (fun a => z a * l a k) + rho k))).
    - rewrite (rsum_ext m (fun k => (rsum m (fun a => z a * l a k) + rho k) * (rsum m (fun a => z a * l a k) + rho k)) (fun k => rsum m (fun a => rsum m (fun b => z a * z b * (l a k * l b k))) + (2 * rsum m (fun a => z a * (rho k * l a k)) + rho k * rho k))).
      + rewrite rsum_plus, rsum_plus, rsum_scal_l, <- Rplus_assoc. f_equal. f_equal.
        * symmetry. rewrite rsum_swap. apply rsum_ext. intros a Ha. rewrite rsum_swap. apply rsum_ext. intros b Hb. rewrite rsum_scal_l. reflexivity.
        * f_equal. symmetry. rewrite rsum_swap. apply rsum_ext. intros a Ha. rewrite rsum_scal_l. reflexivity.
      + intros k Hk. replace ((rsum m (fun a => z a * l a k) + rho k) * (rsum m (fun a => z a * l a k) + rho k)) with (rsum m (fun a => z a * l a k) * rsum m (fun a => z a * l a k) + (2 * (rsum m (fun a => z a * l a k) * rho k) + rho k * rho k)) by ring.
        rewrite rsum_mult, <- rsum_scal_r. f_equal; [|f_equal; f_equal].
        * apply rsum_ext. intros a Ha. apply rsum_ext. intros b Hb. ring.
        * apply rsum_ext. intros a Ha. ring.
    - apply rsum_zero. intros k Hk. rewrite (Hz k Hk). ring. }
  assert (B1 : rsum m (fun a => rsum m (fun b => z a * z b * A a b)) - rsum m (fun a => rsum m (fun b => z a * z b * rsum m (fun k => l a k * l b k))) <= 103 / 100 * e * (S * S)).
  { rewrite <- rsum_minus. unfold S. rewrite rsum_mult, <- rsum_scal_l. apply rsum_le. intros a Ha. rewrite <- rsum_minus, <- rsum_scal_l. apply rsum_le. intros b Hb. rewrite <- Rmult_minus_distr_l.
    eapply Rle_trans; [apply Rle_abs|]. rewrite !Rabs_mult. pose proof (H1 a b Ha Hb) as K. apply Rmult_le_compat_l with (r := Rabs (z a) * Rabs (z b)) in K; [|apply Rmult_le_pos; apply Rabs_pos]. eapply Rle_trans; [exact K|]. right. ring. }
  assert (B2 : rsum m (fun a => z a * A i a) - rsum m (fun a => z a * rsum m (fun k => rho k * l a k)) <= S * (101 / 100 * e * w + 2 / 100 * e * al)).
  { rewrite <- rsum_minus. unfold S. rewrite <- rsum_scal_r. apply rsum_le. intros a Ha. rewrite <- Rmult_minus_distr_l. eapply Rle_trans; [apply Rle_abs|]. rewrite Rabs_mult. pose proof (H2 a Ha) as K. fold w al in K.
    apply Rmult_le_compat_l with (r := Rabs (z a)) in K; [|apply Rabs_pos]. eapply Rle_trans; [exact K|]. right. ring. }
  rewrite L1, L2 in H4. rewrite <- w2, <- al2 in *. set (T1 := rsum m (fun a => rsum m (fun b => z a * z b * A a b))) in *. set (T2 := rsum m (fun a => z a * A i a)) in *.
  set (U1 := rsum m (fun a => rsum m (fun b => z a * z b * rsum m (fun k => l a k * l b k)))) in *. set (U2 := rsum m (fun a => z a * rsum m (fun k => rho k * l a k))) in *.
  assert (H : 3 * e * (S + al) ^ 2 < 103 / 100 * e * (S * S) + 2 * (S * (101 / 100 * e * w + 2 / 100 * e * al)) + (al * al - w * w)) by lra.
  set (be := 101 / 100 * e * S) in *. assert (be0 : 0 <= be) by (unfold be; nra).
  assert (W : 2 * be * w + (al * al - w * w) <= 2 * be * al + be * be + 22 / 10 * e * (al * al)).
  { destruct (Rle_lt_dec al w) as [C|C].
    - assert (D : (w - al) * (2 * be - w - al) <= be * be).
      { destruct (Rle_lt_dec be al) as [G|G]; [assert (0 <= (w - al) * (w + al - 2 * be)) by (apply Rmult_le_pos; lra); assert (0 <= be * be) by nra; lra|].
        assert (0 <= (w - be) * (w - be)) by apply Rle_0_sqr. assert (0 <= al * (2 * be - al)) by (apply Rmult_le_pos; lra). lra. }
      assert (0 <= e * (al * al)) by nra. lra.
    - assert (be * w <= be * al) by (apply Rmult_le_compat_l; lra). assert (w * w <= al * al) by nra. assert (e * (w * w) <= e * (al * al)) by (apply Rmult_le_compat_l; lra). assert (0 <= be * be) by nra. lra. }
  assert (E : be * be <= / 100 * (e * (S * S))). { unfold be. replace (101 / 100 * e * S * (101 / 100 * e * S)) with ((101 / 100 * (101 / 100) * e) * (e * (S * S))) by ring. apply Rmult_le_compat_r; [|lra]. apply Rmult_le_pos; [lra|apply Rle_0_sqr]. }
  assert (e * (S * S) >= 0) by (apply Rle_ge, Rmult_le_pos; [lra|apply Rle_0_sqr]). assert (e * (S * al) >= 0) by (apply Rle_ge, Rmult_le_pos; [lra|nra]). assert (e * (al * al) > 0) by (apply Rmult_lt_0_compat; [lra|nra]).
  replace (3 * e * (S + al) ^ 2) with (3 * (e * (S * S)) + 6 * (e * (S * al)) + 3 * (e * (al * al))) in H by ring. unfold be in W, E. lra.
Qed.
End Abstract.

Lemma zero_squares n (a : nat -> R) : rsum n (fun k => a k * a k) = 0 -> forall k, (k < n)%nat -> a k = 0.
Proof.
  induction n as [|n IH]; intros H k Hk; [lia|]. cbn [rsum] in H. assert (0 <= rsum n (fun k => a k * a k)) by (apply rsum_nonneg; intros; apply Rle_0_sqr). assert (0 <= a n * a n) by apply Rle_0_sqr.
  destruct (Nat.eq_dec k n) as [->|N]; [apply Rsqr_0_uniq; unfold Rsqr; lra|apply IH; [lra|lia]].
Qed.
Lemma cauchy0 n (a b : nat -> R) t : 0 < t -> rsum n (fun k => b k * b k) <= t -> rsum n (fun k => Rabs (a k * b k)) <= sqrt (rsum n (fun k => a k * a k)) * sqrt t.
Proof.
  intros t0 B. assert (A : 0 <= rsum n (fun k => a k * a k)) by (apply rsum_nonneg; intros; apply Rle_0_sqr). destruct (Rle_lt_or_eq_dec _ _ A) as [P|E].
  - rewrite <- sqrt_mult by lra. apply cauchy; auto. apply Rle_refl.
  - rewrite rsum_zero; [apply Rmult_le_pos; apply sqrt_pos|]. intros k Hk. rewrite (zero_squares n a (eq_sym E) k Hk), Rmult_0_l, Rabs_R0. reflexivity.
Qed.

Section Succeed.
Context (A : nat -> nat -> double) (n : nat).
Notation F := (fcholL A n).
Notation f := (fun i k => B2R (fcholL A n i k)).
Notation a := (fun i j => B2R (A i j)).
Notation e := (eps n).
Notation t := (bpow radix2 (-1040)).
Context (Hn : INR n <= bpow radix2 20) (HA : forall i j, (i < n)%nat -> (j < n)%nat -> is_finite (A i j) = true /\ Rabs (B2R (A i j)) <= bpow radix2 980).
Context (sym : forall i j, (i < n)%nat -> (j < n)%nat -> a i j = a j i) (Amin : forall i, (i < n)%nat -> bpow radix2 (-960) <= a i i).
Context (Far : forall y : nat -> R, (exists i, (i < n)%nat /\ y i <> 0) -> 3 * e * (rsum n (fun i => sqrt (a i i) * Rabs (y i))) ^ 2 < rsum n (fun i => rsum n (fun j => y i * a i j * y j))).
Lemma er : 0 < e <= / 1000000 /\ 32 * u <= e.
Proof. exact (eps_range n Hn). Qed.
Lemma root i : (i < n)%nat -> 0 < a i i /\ bpow radix2 (-480) <= sqrt (a i i) /\ sqrt (a i i) * sqrt (a i i) = a i i.
Proof.
  intros Hi. pose proof (Amin i Hi) as H. cbv beta in H. pose proof (bpow_gt_0 radix2 (-960)). assert (P : 0 < a i i) by (cbv beta; lra). split; [exact P|]. split; [|apply sqrt_sqrt; lra].
  rewrite <- (sqrt_square (bpow radix2 (-480))) by apply bpow_ge_0. apply sqrt_le_1; [apply Rle_0_sqr|lra|]. rewrite <- bpow_plus. exact H.
Qed.
Lemma tiny i j : (i < n)%nat -> (j < n)%nat -> t <= / 1000 * (e * (sqrt (a i i) * sqrt (a j j))) /\ t * sqrt (a j j) <= / 1000 * (e * (sqrt (a i i) * sqrt (a j j))).
Proof.
  intros Hi Hj. destruct (root i Hi) as (_ & Ri & _). destruct (root j Hj) as (_ & Rj & _). set (x := sqrt (a i i)) in *. set (y := sqrt (a j j)) in *. destruct er as [[e0 _] e1].
  set (h := bpow radix2 (-480)) in *. assert (h0 : 0 < h) by apply bpow_gt_0.
  assert (E : bpow radix2 (-48) <= e). { eapply Rle_trans; [|exact e1]. right. unfold u. change 32 with (bpow radix2 5). rewrite <- bpow_plus. reflexivity. }
  assert (T1 : t <= / 1000 * (e * h)).
  { apply Rle_trans with (bpow radix2 (-10) * (bpow radix2 (-48) * h)); [unfold h; rewrite <- !bpow_plus; apply bpow_le; lia|]. apply Rmult_le_compat; [apply bpow_ge_0|apply Rmult_le_pos; [apply bpow_ge_0|lra]| |apply Rmult_le_compat_r; lra].
    change (bpow radix2 (-10)) with (/ 1024). lra. }
  assert (T2 : t <= / 1000 * (e * (h * h))).
  { apply Rle_trans with (bpow radix2 (-10) * (bpow radix2 (-48) * (h * h))); [unfold h; rewrite <- !bpow_plus; apply bpow_le; lia|]. apply Rmult_le_compat; [apply bpow_ge_0|apply Rmult_le_pos; [apply bpow_ge_0|nra]| |apply Rmult_le_compat_r; [nra|lra]].
    change (bpow radix2 (-10)) with (/ 1024). lra. }
  split.
  - eapply Rle_trans; [exact T2|]. apply Rmult_le_compat_l; [lra|]. apply Rmult_le_compat_l; [lra|]. apply Rmult_le_compat; lra.
  - apply Rle_trans with (/ 1000 * (e * h) * y); [apply Rmult_le_compat_r; lra|]. replace (/ 1000 * (e * h) * y) with (/ 1000 * (e * (h * y))) by ring. apply Rmult_le_compat_l; [lra|]. apply Rmult_le_compat_l; [lra|]. apply Rmult_le_compat_r; lra.
Qed.
(** a row of the factor is no longer than the square root of its diagonal entry *)
Lemma diag_size j : (j < n)%nat -> positive (fpivot A j) -> 0 < f j j /\ rsum (S j) (fun k => f j k * f j k) <= 101 / 100 * a j j /\ f j j <= 2 * sqrt (a j j).
Proof.
  intros Hj P. destruct (diag_eq A n Hn HA j Hj P) as (_ & c0 & D). cbn [rsum]. cbv beta in *. destruct (root j Hj) as (a0 & R & Q). cbv beta in *. destruct (tiny j j Hj Hj) as [T _]. rewrite Q in T. destruct er as [[e0 e1] _].
  assert (Z0 : 0 <= rsum j (fun k => f j k * f j k)) by (apply rsum_nonneg; intros; apply Rle_0_sqr). cbv beta in Z0. rewrite (rsum_ext j (fun k => Rabs (B2R (F j k) * B2R (F j k))) (fun k => B2R (F j k) * B2R (F j k))) in D by (intros; apply Rabs_pos_eq; apply Rle_0_sqr).
  set (c := B2R (F j j)) in *. assert (cc : 0 <= c * c) by apply Rle_0_sqr. rewrite (Rabs_pos_eq (c * c)) in D by exact cc. set (Z := rsum j (fun k => B2R (F j k) * B2R (F j k))) in *. apply Rabs_le_inv in D. set (v := B2R (A j j)) in *.
  assert (e * (Z + c * c) <= / 1000000 * (Z + c * c)) by (apply Rmult_le_compat_r; lra). assert (e * v <= / 1000000 * v) by (apply Rmult_le_compat_r; lra).
  assert (M : Z + c * c <= 101 / 100 * v) by lra. split; [exact c0|]. split; [exact M|]. set (s := sqrt v) in *. pose proof (bpow_gt_0 radix2 (-480)).
  apply Rsqr_incr_0; unfold Rsqr; [|lra|lra]. lra.
Qed.
Lemma small_part p b : (p < n)%nat -> (b < n)%nat -> positive (fpivot A b) -> t * (1 + f b b) <= 3 / 1000 * (e * (sqrt (a p p) * sqrt (a b b))).
Proof.
  intros Hp Hb P. destruct (diag_size b Hb P) as (_ & _ & C). destruct (tiny p b Hp Hb) as [T1 T2]. cbv beta in *. pose proof (bpow_gt_0 radix2 (-1040)) as t0.
  apply Rmult_le_compat_l with (r := t) in C; [|lra]. lra.
Qed.
Lemma sqrt_101 v : 0 < v -> sqrt (101 / 100 * v) <= 101 / 100 * sqrt v.
Proof. intros H. rewrite sqrt_mult by lra. apply Rmult_le_compat_r; [apply sqrt_pos|]. rewrite <- (sqrt_square (101 / 100)) at 2 by lra. apply sqrt_le_1; lra. Qed.
Lemma earlier m : (m <= n)%nat -> (forall b, (b < m)%nat -> positive (fpivot A b)) -> forall p b, (b <= p)%nat -> (p < m)%nat ->
  Rabs (a p b - rsum m (fun k => f p k * f b k)) <= 103 / 100 * e * (sqrt (a p p) * sqrt (a b b)).
Proof.
  intros Hm P p b Hb Hp. assert (Pn : (p < n)%nat) by lia. assert (Bn : (b < n)%nat) by lia. destruct er as [[e0 e1] _].
  assert (K : Rabs (rsum b (fun k => f p k * f b k) + f p b * f b b - a p b) <= e * (rsum b (fun k => Rabs (f p k * f b k)) + Rabs (f p b * f b b)) + t * (1 + f b b)).
  { destruct (diag_size b Bn (P b ltac:(lia))) as (c0 & _). destruct (Nat.eq_dec p b) as [->|N].
    - destruct (diag_eq A n Hn HA b Bn (P b ltac:(lia))) as (_ & _ & D). eapply Rle_trans; [exact D|]. pose proof (bpow_gt_0 radix2 (-1040)). assert (0 <= t * f b b) by (apply Rmult_le_pos; lra). cbv beta in *. lra.
    - destruct (pivot_good A n Hn HA p Pn (P p Hp)) as (Fi & Si & _). apply (off_eq A n Hn HA p b); auto; try lia; [apply P; lia|intros k Hk; apply Fi; lia| |apply Fi; lia]. eapply Rle_trans; [|exact Si]. apply rsum_prefix; [lia|]. intros; apply Rle_0_sqr. }
  rewrite (rsum_upto m b) by (try lia; intros k Hk Hbk; rewrite (fcholL_upper A n b k Hbk); cbn; ring). rewrite Rabs_minus_sym. eapply Rle_trans; [exact K|].
  destruct (diag_size p Pn (P p Hp)) as (_ & Sp & _). destruct (diag_size b Bn (P b ltac:(lia))) as (_ & Sb & _). destruct (root p Pn) as (p0 & _). destruct (root b Bn) as (b0 & _).
  assert (C : rsum (S b) (fun k => Rabs (f p k * f b k)) <= 101 / 100 * (sqrt (a p p) * sqrt (a b b))).
  { assert (Sp' : rsum (S b) (fun k => f p k * f p k) <= 101 / 100 * a p p). { eapply Rle_trans; [|exact Sp]. apply rsum_prefix; [lia|]. intros; apply Rle_0_sqr. }
    eapply Rle_trans; [apply (cauchy (S b) (fun k => f p k) (fun k => f b k) (101 / 100 * a p p) (101 / 100 * a b b)); auto; cbv beta in *; lra|]. right. cbv beta in *.
    replace (101 / 100 * B2R (A p p) * (101 / 100 * B2R (A b b))) with (101 / 100 * (101 / 100) * (B2R (A p p) * B2R (A b b))) by ring. rewrite sqrt_mult by nra. rewrite sqrt_square by lra. rewrite sqrt_mult by lra. reflexivity. }
  cbn [rsum] in C. pose proof (small_part p b Pn Bn (P b ltac:(lia))) as T. cbv beta in *. apply Rmult_le_compat_l with (r := e) in C; [|lra]. set (w := sqrt (B2R (A p p)) * sqrt (B2R (A b b))) in *. assert (0 <= e * w) by (apply Rmult_le_pos; [lra|apply Rmult_le_pos; apply sqrt_pos]). lra.
Qed.
(** the row under construction, rounded or not *)
Lemma row_small m i rho : (m <= i)%nat -> (i < n)%nat -> (forall b, (b < m)%nat -> positive (fpivot A b)) ->
  (forall b, (b < m)%nat -> Rabs (rsum b (fun k => rho k * f b k) + rho b * f b b - a i b) <= e * (rsum b (fun k => Rabs (rho k * f b k)) + Rabs (rho b * f b b)) + t * (1 + f b b)) ->
  rsum m (fun k => rho k * rho k) + 11 / 10 * e * (rsum m (fun k => rho k * rho k) + a i i) < a i i.
Proof.
  intros Hm Hi P H. destruct (Rlt_le_dec (rsum m (fun k => rho k * rho k) + 11 / 10 * e * (rsum m (fun k => rho k * rho k) + a i i)) (a i i)) as [|N]; [assumption|exfalso]. destruct er as [[e0 e1] _].
  apply (impossible n m i Hm Hi f a rho e (conj e0 e1)); auto.
  - intros p k _ _ Hpk. cbv beta. rewrite (fcholL_upper A n p k Hpk). reflexivity.
  - intros b Hb. apply (diag_size b); [lia|apply P; exact Hb].
  - intros p b Hp Hb. destruct (le_lt_dec b p) as [C|C]; [apply earlier; auto; lia|]. rewrite (sym p b) by lia. rewrite (rsum_ext m _ (fun k => f b k * f p k)) by (intros; ring). rewrite (Rmult_comm (sqrt _)). apply earlier; auto; lia.
  - intros b Hb. assert (Bn : (b < n)%nat) by lia. rewrite (rsum_upto m b) by (try lia; intros k Hk Hbk; rewrite (fcholL_upper A n b k Hbk); cbn; ring). rewrite Rabs_minus_sym. eapply Rle_trans; [apply H; exact Hb|].
    destruct (diag_size b Bn (P b Hb)) as (_ & Sb & _). destruct (root b Bn) as (b0 & _).
    assert (C : rsum (S b) (fun k => Rabs (rho k * f b k)) <= 101 / 100 * (sqrt (rsum m (fun k => rho k * rho k)) * sqrt (a b b))).
    { eapply Rle_trans; [apply (cauchy0 (S b) rho (fun k => f b k) (101 / 100 * a b b)); [cbv beta in *; lra|exact Sb]|]. pose proof (sqrt_101 (a b b) b0) as R. assert (Q : sqrt (rsum (S b) (fun k => rho k * rho k)) <= sqrt (rsum m (fun k => rho k * rho k))).
      { apply sqrt_le_1; [apply rsum_nonneg; intros; apply Rle_0_sqr|apply rsum_nonneg; intros; apply Rle_0_sqr|]. apply rsum_prefix; [lia|]. intros; apply Rle_0_sqr. }
      eapply Rle_trans; [apply Rmult_le_compat; [apply sqrt_pos|apply sqrt_pos|exact Q|exact R]|]. right. ring. }
    cbn [rsum] in C. pose proof (small_part i b Hi Bn (P b Hb)) as T. cbv beta in *. apply Rmult_le_compat_l with (r := e) in C; [|lra]. set (w := sqrt (B2R (A i i)) * sqrt (B2R (A b b))) in *. assert (0 <= e * w) by (apply Rmult_le_pos; [lra|apply Rmult_le_pos; apply sqrt_pos]).
    set (s := sqrt (rsum m (fun k => rho k * rho k))) in *. replace (sqrt (B2R (A b b)) * (101 / 100 * e * s + 2 / 100 * e * sqrt (B2R (A i i)))) with (e * (101 / 100 * (s * sqrt (B2R (A b b)))) + 2 / 100 * (e * w)) by (unfold w; ring). lra.
  - apply (root i Hi).
  - lra.
Qed.
Lemma row_ok i : (i < n)%nat -> (forall b, (b < i)%nat -> positive (fpivot A b)) -> forall m, (m <= i)%nat ->
  (forall k, (k < m)%nat -> is_finite (F i k) = true) /\ rsum m (fun k => f i k * f i k) + 11 / 10 * e * (rsum m (fun k => f i k * f i k) + a i i) < a i i.
Proof.
  intros Hi P. destruct er as [[e0 e1] _]. destruct (root i Hi) as (a0 & _). destruct (HA i i Hi Hi) as [_ Ba]. apply Rabs_le_inv in Ba. cbv beta in a0.
  assert (big : bpow radix2 980 <= bpow radix2 981) by (apply bpow_le; lia).
  induction m as [|m IH]; intros Hm.
  - split; [intros k Hk; lia|]. cbn [rsum]. assert (e * a i i <= / 1000000 * a i i) by (apply Rmult_le_compat_r; cbv beta; lra). cbv beta in *. lra.
  - destruct IH as [Fk Q]; [lia|]. assert (Q0 : 0 <= rsum m (fun k => f i k * f i k)) by (apply rsum_nonneg; intros; apply Rle_0_sqr).
    assert (Qb : rsum m (fun k => f i k * f i k) <= bpow radix2 981). { assert (0 <= e * (rsum m (fun k => f i k * f i k) + a i i)) by (apply Rmult_le_pos; cbv beta in *; lra). cbv beta in *. lra. }
    assert (pre : forall b, (b < m)%nat -> Rabs (rsum b (fun k => f i k * f b k) + f i b * f b b - a i b) <= e * (rsum b (fun k => Rabs (f i k * f b k)) + Rabs (f i b * f b b)) + t * (1 + f b b)).
    { intros b Hb. apply (off_eq A n Hn HA i b); auto; try lia; [apply P; lia|intros k Hk; apply Fk; lia|]. eapply Rle_trans; [|exact Qb]. apply rsum_prefix; [lia|]. intros; apply Rle_0_sqr. }
    destruct (off_virtual A n Hn HA i m ltac:(lia) Hi (P m ltac:(lia)) Fk Qb) as [Fn V]. set (num := fsub (A i m) (seq_dot (frow_of A n i m) (frow_of A n m m))) in *. set (r := B2R num / f m m) in *. cbv zeta in V.
    destruct (diag_size m ltac:(lia) (P m ltac:(lia))) as (c0 & _).
    assert (R : rsum (S m) (fun k => (if Nat.ltb k m then f i k else r) * (if Nat.ltb k m then f i k else r)) <= bpow radix2 980).
    { pose proof (row_small (S m) i (fun k => if Nat.ltb k m then f i k else r) Hm Hi ltac:(intros b Hb; apply P; lia)) as X. assert (0 <= rsum (S m) (fun k => (if Nat.ltb k m then f i k else r) * (if Nat.ltb k m then f i k else r))) by (apply rsum_nonneg; intros; apply Rle_0_sqr).
      assert (Y : forall b, (b < S m)%nat -> Rabs (rsum b (fun k => (if Nat.ltb k m then f i k else r) * f b k) + (if Nat.ltb b m then f i b else r) * f b b - a i b)
                  <= e * (rsum b (fun k => Rabs ((if Nat.ltb k m then f i k else r) * f b k)) + Rabs ((if Nat.ltb b m then f i b else r) * f b b)) + t * (1 + f b b)).
      { intros b Hb. rewrite (rsum_ext b (fun k => (if Nat.ltb k m then f i k else r) * f b k) (fun k => f i k * f b k)) by (intros k Hk; destruct (Nat.ltb_spec k m); [reflexivity|lia]).
        rewrite (rsum_ext b (fun k => Rabs ((if Nat.ltb k m then f i k else r) * f b k)) (fun k => Rabs (f i k * f b k))) by (intros k Hk; destruct (Nat.ltb_spec k m); [reflexivity|lia]).
        destruct (Nat.ltb_spec b m) as [C|C]; [apply pre; exact C|]. replace b with m by lia. eapply Rle_trans; [exact V|]. pose proof (bpow_gt_0 radix2 (-1040)). assert (0 <= t * f m m) by (apply Rmult_le_pos; lra). cbv beta in *. lra. }
      specialize (X Y). cbv beta in *. set (q := rsum (S m) _) in *. assert (0 <= e * (q + B2R (A i i))) by (apply Rmult_le_pos; lra). lra. }
    assert (r2 : r * r <= bpow radix2 980). { eapply Rle_trans; [|exact R]. cbn [rsum]. rewrite Nat.ltb_irrefl. assert (0 <= rsum m (fun k => (if Nat.ltb k m then f i k else r) * (if Nat.ltb k m then f i k else r))) by (apply rsum_nonneg; intros; apply Rle_0_sqr). lra. }
    assert (Fm : is_finite (F i m) = true).
    { rewrite (F_off A n i m) by lia. fold num. destruct (fdiv_cases num (F m m) Fn) as [(_ & _ & G & _)|(B & _)]; [cbv beta in c0; lra|exact G|exfalso]. cbv beta in *. fold r in B.
      assert (Rabs r <= bpow radix2 490). { apply Rsqr_incr_0; [|apply Rabs_pos|apply bpow_ge_0]. rewrite <- Rsqr_abs. unfold Rsqr. rewrite <- bpow_plus. exact r2. }
      pose proof (rnd64_fin r 490 ltac:(lia) H). lra. }
    split; [intros k Hk; destruct (Nat.eq_dec k m) as [->|]; [exact Fm|apply Fk; lia]|].
    apply (row_small (S m) i (fun k => f i k) Hm Hi); [intros b Hb; apply P; lia|]. intros b Hb. destruct (Nat.eq_dec b m) as [->|]; [|apply pre; lia]. apply (off_eq A n Hn HA i m); auto; try lia; apply P; lia.
Qed.
Lemma all_positive i : (i < n)%nat -> positive (fpivot A i).
Proof.
  induction i as [i IH] using (well_founded_induction Wf_nat.lt_wf). intros Hi. assert (P : forall b, (b < i)%nat -> positive (fpivot A b)) by (intros b Hb; apply IH; lia).
  destruct (row_ok i Hi P i (le_n i)) as [Fk Q]. destruct er as [[e0 e1] _]. destruct (root i Hi) as (a0 & _ & rr). destruct (HA i i Hi Hi) as [_ Ba]. apply Rabs_le_inv in Ba. cbv beta in *.
  assert (Q0 : 0 <= rsum i (fun k => f i k * f i k)) by (apply rsum_nonneg; intros; apply Rle_0_sqr). cbv beta in Q0. assert (big : bpow radix2 980 <= bpow radix2 981) by (apply bpow_le; lia).
  set (Z := rsum i (fun k => B2R (F i k) * B2R (F i k))) in *. assert (eZ : 0 <= e * Z) by (apply Rmult_le_pos; lra). assert (ea : 0 < e * B2R (A i i)) by (apply Rmult_lt_0_compat; lra).
  assert (Qb : Z <= bpow radix2 981) by lra. destruct (num_close A n Hn HA i i (le_n i) Hi Fk Fk Qb Qb) as [G H]. rewrite <- (pivot_row A n i) in G, H by lia. cbv beta in *. fold Z in H.
  right. split; [exact G|]. destruct (Rlt_le_dec 0 (B2R (fpivot A i))) as [|N]; [assumption|exfalso]. set (p := B2R (fpivot A i)) in *. rewrite (Rabs_left1 p) in H by exact N.
  rewrite (rsum_ext i (fun k => Rabs (B2R (F i k) * B2R (F i k))) (fun k => B2R (F i k) * B2R (F i k))) in H by (intros; apply Rabs_pos_eq; apply Rle_0_sqr). fold Z in H.
  destruct (eps_split n Hn i Hi) as [s1 s2]. destruct (tiny i i Hi Hi) as [T _]. rewrite rr in T. small_u. apply Rabs_le_inv in H. assert (units (4 * INR i) * Z <= e * Z) by (apply Rmult_le_compat_r; lra). assert (0 <= (1 - 2 * u) * - p) by (apply Rmult_le_pos; lra). lra.
Qed.
End Succeed.

Theorem textbook_cholesky_succeeds : cholesky_succeeds textbook_cholesky.
Proof.
  intros n M S Hn HM Amin Far. unfold textbook_cholesky. rewrite S, Nat.eqb_refl. cbn [negb]. replace (forallb _ _) with true; [eexists; reflexivity|]. symmetry. apply forallb_forall. intros i Hi. apply in_seq in Hi. apply fpositive_spec.
  apply (all_positive (mget dzero M) n Hn); auto; try lia.
  - intros p q Hp Hq. destruct (HM p q Hp Hq) as (X & Y & _). auto.
  - intros p q Hp Hq. destruct (HM p q Hp Hq) as (_ & _ & Z). rewrite Z. reflexivity.
Qed.
