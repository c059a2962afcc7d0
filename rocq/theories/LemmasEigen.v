(** Proofs about the matrix inverse square root. *)
From Coq Require Import Reals List Bool Arith ZArith Lia Lra.
From Verif Require Import Res Num Nd RSum ModelAutograd ModelObjective ModelOptimize SpecObjective SpecOptimize LemmasParameters LemmasPrecond LemmasMatrix.
Import List ListNotations.
Open Scope R_scope.
Set Bullet Behavior "Strict Subproofs".

(** V diag(d) V' *)
Definition spec (n : nat) (V : nat -> nat -> R) (d : nat -> R) (i j : nat) : R := rsum n (fun k => V i k * d k * V j k).
Definition cols_orth n (V : nat -> nat -> R) := forall k l, (k < n)%nat -> (l < n)%nat -> rsum n (fun i => V i k * V i l) = delta k l.
Definition rows_orth n (V : nat -> nat -> R) := forall i j, (i < n)%nat -> (j < n)%nat -> rsum n (fun k => V i k * V j k) = delta i j.
Lemma rsum_delta1 n k f : (k < n)%nat -> rsum n (fun l => delta k l * f l) = f k.
Proof.
  intros H. rewrite (rsum_single n k); [unfold delta; rewrite Nat.eqb_refl; ring|exact H|]. intros i Hi N. unfold delta. destruct (Nat.eqb_spec k i); [lia|ring].
Qed.
Lemma rsum_delta2 n k f : (k < n)%nat -> rsum n (fun l => delta l k * f l) = f k.
Proof.
  intros H. rewrite (rsum_single n k); [unfold delta; rewrite Nat.eqb_refl; ring|exact H|]. intros i Hi N. unfold delta. destruct (Nat.eqb_spec i k); [lia|ring].
Qed.
Lemma delta_sym i j : delta i j = delta j i.
Proof. unfold delta. rewrite Nat.eqb_sym. reflexivity. Qed.
Lemma spec_sym n V d i j : spec n V d i j = spec n V d j i.
Proof. unfold spec. apply rsum_ext. intros. ring. Qed.
Lemma spec_ext n V d e i j : (forall k, (k < n)%nat -> d k = e k) -> spec n V d i j = spec n V e i j.
Proof. intros H. unfold spec. apply rsum_ext. intros k Hk. rewrite H by exact Hk. reflexivity. Qed.
Lemma spec_apply n V d i k : cols_orth n V -> (k < n)%nat -> rsum n (fun j => spec n V d i j * V j k) = V i k * d k.
Proof.
  intros C Hk. unfold spec. rewrite (rsum_ext _ _ (fun j => rsum n (fun l => V i l * d l * (V j l * V j k)))) by (intros j Hj; rewrite <- rsum_scal_r; apply rsum_ext; intros; ring).
  rewrite rsum_swap. rewrite (rsum_ext _ _ (fun l => delta l k * (V i l * d l))).
  - apply (rsum_delta2 n k (fun l => V i l * d l)). exact Hk.
  - intros l Hl. rewrite rsum_scal_l, C by assumption. ring.
Qed.
Lemma spec_product n V d e i m : cols_orth n V -> product n (spec n V d) (spec n V e) i m = spec n V (fun k => d k * e k) i m.
Proof.
  intros C. unfold product. rewrite (rsum_ext _ _ (fun j => rsum n (fun l => spec n V d i j * V j l * (e l * V m l)))).
  2:{ intros j Hj. unfold spec at 2. rewrite <- rsum_scal_l. apply rsum_ext. intros. ring. }
  rewrite rsum_swap. unfold spec at 2. apply rsum_ext. intros l Hl. rewrite rsum_scal_r, spec_apply by assumption. ring.
Qed.
Lemma spec_one n V i j : rows_orth n V -> (i < n)%nat -> (j < n)%nat -> spec n V (fun _ => 1) i j = delta i j.
Proof. intros C Hi Hj. unfold spec. rewrite <- C by assumption. apply rsum_ext. intros. ring. Qed.
(** coordinates in the eigenbasis *)
Definition coord n (V : nat -> nat -> R) (x : nat -> R) (k : nat) : R := rsum n (fun i => x i * V i k).
Lemma quad_spec n V d x : quad n (spec n V d) x = rsum n (fun k => d k * (coord n V x k * coord n V x k)).
Proof.
  unfold quad, spec. rewrite (rsum_ext _ _ (fun i => rsum n (fun k => rsum n (fun j => x i * V i k * d k * (x j * V j k))))).
  2:{ intros i Hi. rewrite rsum_swap. apply rsum_ext. intros j Hj. rewrite <- rsum_scal_l, <- rsum_scal_r. apply rsum_ext. intros. ring. }
  rewrite rsum_swap. apply rsum_ext. intros k Hk. unfold coord. rewrite (rsum_ext _ _ (fun i => x i * V i k * (d k * rsum n (fun j => x j * V j k)))).
  - rewrite rsum_scal_r. ring.
  - intros i Hi. rewrite rsum_scal_l. ring.
Qed.
Lemma norm2_coord n V x : rows_orth n V -> norm2 n x = rsum n (fun k => coord n V x k * coord n V x k).
Proof.
  intros C. transitivity (quad n (spec n V (fun _ => 1)) x).
  - unfold norm2, quad. apply rsum_ext. intros i Hi. rewrite (rsum_ext _ _ (fun j => delta i j * (x i * x j))) by (intros j Hj; rewrite spec_one by assumption; ring). symmetry. apply (rsum_delta1 n i (fun j => x i * x j)). exact Hi.
  - rewrite quad_spec. apply rsum_ext. intros. ring.
Qed.
Lemma coord_zero n V x : rows_orth n V -> (forall k, (k < n)%nat -> coord n V x k = 0) -> forall i, (i < n)%nat -> x i = 0.
Proof.
  intros C Z0. apply rsum_sq_zero. change (norm2 n x = 0). rewrite (norm2_coord n V x C). apply rsum_zero. intros k Hk. rewrite Z0 by exact Hk. ring.
Qed.
Lemma quad_lower n V d x lo : rows_orth n V -> (forall k, (k < n)%nat -> lo <= d k) -> lo * norm2 n x <= quad n (spec n V d) x.
Proof.
  intros C H. rewrite (norm2_coord n V x C), quad_spec, <- rsum_scal_l. apply rsum_le. intros k Hk. apply Rmult_le_compat_r; [apply Rle_0_sqr|apply H, Hk].
Qed.
Lemma quad_upper n V d x hi : rows_orth n V -> (forall k, (k < n)%nat -> d k <= hi) -> quad n (spec n V d) x <= hi * norm2 n x.
Proof.
  intros C H. rewrite (norm2_coord n V x C), quad_spec, <- rsum_scal_l. apply rsum_le. intros k Hk. apply Rmult_le_compat_r; [apply Rle_0_sqr|apply H, Hk].
Qed.
Lemma quad_pos n V d : rows_orth n V -> (forall k, (k < n)%nat -> 0 < d k) -> positive_definite n (spec n V d).
Proof.
  intros C H x [i [Hi N]]. rewrite quad_spec. destruct (Rlt_or_le 0 (rsum n (fun k => d k * (coord n V x k * coord n V x k)))) as [L|L]; [exact L|]. exfalso. apply N.
  apply (coord_zero n V x C); [|exact Hi]. intros k Hk. pose proof (rsum_term_le n (fun k => d k * (coord n V x k * coord n V x k)) k Hk) as T. cbn beta in T.
  specialize (H k Hk) as Hd. pose proof (Rle_0_sqr (coord n V x k)) as Sq. unfold Rsqr in Sq.
  assert (T2 : d k * (coord n V x k * coord n V x k) <= 0). { eapply Rle_trans; [apply T|exact L]. intros j Hj. apply Rmult_le_pos; [left; apply H, Hj|apply Rle_0_sqr]. }
  assert (coord n V x k * coord n V x k = 0) by nra. apply Rmult_integral in H0. tauto.
Qed.
(** the eigenvalues are values of the quadratic form *)
Lemma quad_column n V d k : cols_orth n V -> (k < n)%nat -> quad n (spec n V d) (fun i => V i k) = d k /\ norm2 n (fun i => V i k) = 1.
Proof.
  intros C Hk. split; [|unfold norm2; rewrite (C k k Hk Hk); unfold delta; rewrite Nat.eqb_refl; reflexivity].
  rewrite quad_spec. rewrite (rsum_ext _ _ (fun l => delta k l * (delta k l * d l))).
  - rewrite (rsum_delta1 n k (fun l => delta k l * d l)) by exact Hk. unfold delta. rewrite Nat.eqb_refl. ring.
  - intros l Hl. unfold coord. rewrite C by assumption. ring.
Qed.
Lemma column_nonzero n V k : cols_orth n V -> (k < n)%nat -> exists i, (i < n)%nat /\ V i k <> 0.
Proof.
  intros C Hk. destruct (quad_column n V (fun _ => 0) k C Hk) as [_ N]. 
  assert (D : forall m, (m <= n)%nat -> (exists i, (i < m)%nat /\ V i k <> 0) \/ forall i, (i < m)%nat -> V i k = 0).
  { induction m as [|m IH]; intros Hm; [right; intros; lia|]. destruct IH as [[i [Hi Hn]]|Z0]; [lia|left; exists i; split; [lia|exact Hn]|]. destruct (Req_dec (V m k) 0) as [E|E]; [right|left; exists m; split; [lia|exact E]].
    intros i Hi. destruct (Nat.eq_dec i m) as [->|]; [exact E|apply Z0; lia]. }
  destruct (D n (le_n n)) as [[i Hi]|Z0]; [exists i; exact Hi|]. exfalso. unfold norm2 in N. rewrite rsum_zero in N; [lra|]. intros i Hi. rewrite Z0 by exact Hi. ring.
Qed.

Lemma quad_ext n A B x : (forall i j, (i < n)%nat -> (j < n)%nat -> A i j = B i j) -> quad n A x = quad n B x.
Proof. intros H. unfold quad. apply rsum_ext. intros i Hi. apply rsum_ext. intros j Hj. rewrite H by assumption. reflexivity. Qed.
Lemma product_ext n A A' B B' i j : (i < n)%nat -> (j < n)%nat -> (forall i j, (i < n)%nat -> (j < n)%nat -> A i j = A' i j) -> (forall i j, (i < n)%nat -> (j < n)%nat -> B i j = B' i j) -> product n A B i j = product n A' B' i j.
Proof. intros Hi Hj H1 H2. unfold product. apply rsum_ext. intros k Hk. rewrite H1, H2 by assumption. reflexivity. Qed.

Lemma nth_map0 (f : R -> R) l k : (k < length l)%nat -> nth k (map f l) 0 = f (nth k l 0).
Proof. revert k. induction l as [|a l IH]; intros [|k] H; cbn in *; try lia; [reflexivity|apply IH; lia]. Qed.
Lemma clip_below_nth lo ev k : (k < length ev)%nat -> length (clip_below lo ev) = length ev /\ nth k (clip_below lo ev) 0 = clip lo None (nth k ev 0).
Proof.
  intros H. unfold clip_below, clip. destruct lo as [l|]; [|split; reflexivity]. split; [apply map_length|].
  rewrite nth_map0 by exact H. unfold Rmax. destruct (Rle_dec (nth k ev 0) l), (Rle_dec l (nth k ev 0)); lra.
Qed.
Lemma clip_above_nth hi ev k : (k < length ev)%nat -> length (clip_above hi ev) = length ev /\ nth k (clip_above hi ev) 0 = clip None hi (nth k ev 0).
Proof.
  intros H. unfold clip_above, clip. destruct hi as [h|]; [|split; reflexivity]. split; [apply map_length|].
  rewrite nth_map0 by exact H. unfold Rmin. destruct (Rge_dec (nth k ev 0) h), (Rle_dec h (nth k ev 0)); lra.
Qed.
Lemma clip_below_length lo ev : length (clip_below lo ev) = length ev.
Proof. unfold clip_below. destruct lo; [apply map_length|reflexivity]. Qed.
Lemma clip_above_length lo ev : length (clip_above lo ev) = length ev.
Proof. unfold clip_above. destruct lo; [apply map_length|reflexivity]. Qed.
Lemma clipped_nth lo hi ev k : (k < length ev)%nat -> nth k (clip_above hi (clip_below lo ev)) 0 = clip lo hi (nth k ev 0).
Proof.
  intros H. destruct (clip_above_nth hi (clip_below lo ev) k) as [_ E]; [rewrite clip_below_length; exact H|]. rewrite E. destruct (clip_below_nth lo ev k H) as [_ E2]. rewrite E2. unfold clip. destruct lo, hi; reflexivity.
Qed.
Lemma vdv n V d : rm_rows V = n -> rm_cols V = n -> length d = n ->
  exists A, (do dv <- mat_mat (rm_diag d) (rm_T V); mat_mat V dv) = Ok A /\ square n A /\ same_entries n A (spec n (rm_get V) (fun k => nth k d 0)).
Proof.
  intros R1 C1 L. unfold mat_mat at 1. unfold rm_diag, rm_T. cbn [ rm_cols rm_rows rm_get]. rewrite L, C1, Nat.eqb_refl. cbn [negb rbind]. unfold mat_mat. cbn [rm_rows rm_cols rm_get]. rewrite C1, Nat.eqb_refl. cbn [negb].
  eexists. split; [reflexivity|]. split; [split; cbn; assumption|]. intros i j Hi Hj. cbn [rm_get]. unfold spec. apply rsum_ext. intros k Hk.
  rewrite (rsum_ext _ _ (fun l => delta k l * (nth k d 0 * rm_get V j l))) by (intros l Hl; unfold delta; destruct (Nat.eqb k l); ring). rewrite (rsum_delta1 n k (fun l => nth k d 0 * rm_get V j l)) by exact Hk. ring.
Qed.
Lemma inv_sqrt_ok eigh n H ev V lo hi : square n H -> let A := RMat n n (fun i j => / 2 * (rm_get H i j + rm_get H j i)) in
  eigh A = Ok (ev, V) -> eigen_decomposition n A ev V ->
  exists Sq Hc, get_sym_matrix_inv_sqrt eigh H lo hi = Ok (Sq, Hc) /\ square n Sq /\ square n Hc /\
    same_entries n Sq (spec n (rm_get V) (fun k => 1 / sqrt (clip lo hi (nth k ev 0)))) /\ same_entries n Hc (spec n (rm_get V) (fun k => clip lo hi (nth k ev 0))).
Proof.
  intros [R1 C1] A E [L [[RV CV] [O1 [O2 D]]]]. set (c := clip_above hi (clip_below lo ev)). assert (Lc : length c = n) by (unfold c; rewrite clip_above_length, clip_below_length; exact L).
  destruct (vdv n V (map (fun x => 1 / sqrt x) c) RV CV) as [Sq [E1 [S1 S2]]]; [rewrite map_length; exact Lc|]. destruct (vdv n V c RV CV Lc) as [Hc [E2 [S3 S4]]].
  exists Sq, Hc. split; [|split; [exact S1|split; [exact S3|split]]].
  - unfold get_sym_matrix_inv_sqrt, sym_part. rewrite R1, C1, Nat.eqb_refl. cbn [rbind]. unfold A in E. rewrite E. cbn [rbind fst snd]. fold c.
    destruct (mat_mat (rm_diag c) (rm_T V)) as [dv|] eqn:F1; [|discriminate]. cbn [rbind] in *. rewrite E2. cbn [rbind]. destruct (mat_mat (rm_diag (map _ c)) (rm_T V)) as [dv'|] eqn:F2; [|discriminate]. cbn [rbind] in *. rewrite E1. reflexivity.
  - intros i j Hi Hj. rewrite S2 by assumption. apply spec_ext. intros k Hk. unfold c in *. rewrite nth_map0 by lia. rewrite clipped_nth by lia. reflexivity.
  - intros i j Hi Hj. rewrite S4 by assumption. apply spec_ext. intros k Hk. unfold c. apply clipped_nth. lia.
Qed.
Lemma clip_le_hi lo h e : clip lo (Some h) e <= h.
Proof. unfold clip. apply Rmin_l. Qed.
Lemma clip_ge_lo l hi e : (forall h, hi = Some h -> l <= h) -> l <= clip (Some l) hi e.
Proof. intros H. unfold clip. destruct hi as [h|]; [apply Rmin_glb; [apply H; reflexivity|apply Rmax_l]|apply Rmax_l]. Qed.
(** the properties of the two matrices *)
Lemma inv_sqrt_spec eigh n H ev V lo hi : square n H -> let A := RMat n n (fun i j => / 2 * (rm_get H i j + rm_get H j i)) in
  eigh A = Ok (ev, V) -> eigen_decomposition n A ev V ->
  exists Sq Hc, get_sym_matrix_inv_sqrt eigh H lo hi = Ok (Sq, Hc) /\ square n Sq /\ square n Hc /\ symmetric n Sq /\ symmetric n Hc /\
    (forall k i, (k < n)%nat -> (i < n)%nat -> product n (rm_get Hc) (rm_get V) i k = clip lo hi (nth k ev 0) * rm_get V i k) /\
    ((forall l h, lo = Some l -> hi = Some h -> l <= h) -> spectrum_within n (rm_get Hc) lo hi) /\
    ((forall k, (k < n)%nat -> 0 < clip lo hi (nth k ev 0)) ->
       positive_definite n (rm_get Sq) /\
       (forall i j, (i < n)%nat -> (j < n)%nat -> product n (rm_get Sq) (product n (rm_get Hc) (rm_get Sq)) i j = delta i j) /\
       (forall i j, (i < n)%nat -> (j < n)%nat -> product n (rm_get Hc) (product n (rm_get Sq) (rm_get Sq)) i j = delta i j)) /\
    ((forall k, (k < n)%nat -> clip lo hi (nth k ev 0) = nth k ev 0) -> same_entries n Hc (rm_get A)).
Proof.
  intros Hs A E D. destruct (inv_sqrt_ok eigh n H ev V lo hi Hs E D) as [Sq [Hc [E0 [S1 [S2 [S3 S4]]]]]]. destruct D as [L [[RV CV] [O1 [O2 D]]]].
  exists Sq, Hc. split; [exact E0|]. split; [exact S1|]. split; [exact S2|]. split; [|split; [|split; [|split; [|split]]]].
  - intros i j Hi Hj. rewrite !S3 by assumption. apply spec_sym.
  - intros i j Hi Hj. rewrite !S4 by assumption. apply spec_sym.
  - intros k i Hk Hi. unfold product. rewrite (rsum_ext _ _ (fun j => spec n (rm_get V) (fun k => clip lo hi (nth k ev 0)) i j * rm_get V j k)) by (intros j Hj; rewrite S4 by assumption; reflexivity). rewrite spec_apply by assumption. ring.
  - intros Hb x. rewrite (quad_ext n _ _ x S4). split.
    + intros l ->. apply quad_lower; [exact O2|]. intros k Hk. apply clip_ge_lo. intros h ->. apply (Hb l h); reflexivity.
    + intros h ->. apply quad_upper; [exact O2|]. intros k Hk. apply clip_le_hi.
  - intros P.
    assert (Sg : forall k, (k < n)%nat -> 0 < 1 / sqrt (clip lo hi (nth k ev 0))). { intros k Hk. apply Rdiv_lt_0_compat; [lra|apply sqrt_lt_R0, P, Hk]. }
    assert (Pr : forall k, (k < n)%nat -> 1 / sqrt (clip lo hi (nth k ev 0)) * (clip lo hi (nth k ev 0) * (1 / sqrt (clip lo hi (nth k ev 0)))) = 1).
    { intros k Hk. pose proof (sqrt_lt_R0 _ (P k Hk)) as Q. pose proof (sqrt_sqrt _ (Rlt_le _ _ (P k Hk))) as Q2. rewrite <- Q2 at 2. field. lra. }
    split; [|split].
    + intros x Hx. rewrite (quad_ext n _ _ x S3). apply quad_pos; assumption.
    + intros i j Hi Hj. transitivity (product n (spec n (rm_get V) (fun k => 1 / sqrt (clip lo hi (nth k ev 0)))) (spec n (rm_get V) (fun k => clip lo hi (nth k ev 0) * (1 / sqrt (clip lo hi (nth k ev 0))))) i j).
      { apply product_ext; try assumption. intros a b Ha Hb. rewrite <- spec_product by exact O1. apply product_ext; assumption. }
      rewrite spec_product by exact O1. rewrite <- (spec_one n (rm_get V)) by assumption. apply spec_ext. intros k Hk. apply Pr, Hk.
    + intros i j Hi Hj. transitivity (product n (spec n (rm_get V) (fun k => clip lo hi (nth k ev 0))) (spec n (rm_get V) (fun k => 1 / sqrt (clip lo hi (nth k ev 0)) * (1 / sqrt (clip lo hi (nth k ev 0))))) i j).
      { apply product_ext; try assumption. intros a b Ha Hb. rewrite <- spec_product by exact O1. apply product_ext; assumption. }
      rewrite spec_product by exact O1. rewrite <- (spec_one n (rm_get V)) by assumption. apply spec_ext. intros k Hk. rewrite <- (Pr k Hk) at 3. ring.
  - intros U i j Hi Hj. rewrite S4, (D i j) by assumption. apply spec_ext. exact U.
Qed.
(** for a matrix with a positive definite symmetric part whose spectrum lies within the bounds, nothing is clipped *)
Lemma unclipped n A ev V lo hi : eigen_decomposition n A ev V -> positive_definite n (rm_get A) -> spectrum_within n (rm_get A) lo hi ->
  forall k, (k < n)%nat -> clip lo hi (nth k ev 0) = nth k ev 0 /\ 0 < nth k ev 0.
Proof.
  intros [L [[RV CV] [O1 [O2 D]]]] P W k Hk. destruct (quad_column n (rm_get V) (fun k => nth k ev 0) k O1 Hk) as [Q N]. rewrite <- (quad_ext n (rm_get A)) in Q by exact D.
  split; [|rewrite <- Q; apply P; apply column_nonzero; assumption]. destruct (W (fun i => rm_get V i k)) as [W1 W2]. rewrite Q, N in W1, W2. unfold clip. destruct lo as [l|]; [specialize (W1 l eq_refl); rewrite Rmax_right by lra|].
  - destruct hi as [h|]; [specialize (W2 h eq_refl); rewrite Rmin_right by lra; reflexivity|reflexivity].
  - destruct hi as [h|]; [specialize (W2 h eq_refl); rewrite Rmin_right by lra; reflexivity|reflexivity].
Qed.
(** matrices that are neither square nor a single row or column are rejected *)
Lemma inv_sqrt_rejects eigh H lo hi : rm_rows H <> rm_cols H -> rm_rows H <> 1%nat -> rm_cols H <> 1%nat -> get_sym_matrix_inv_sqrt eigh H lo hi = Raise ValueError.
Proof. intros N1 N2 N3. unfold get_sym_matrix_inv_sqrt, sym_part. rewrite (proj2 (Nat.eqb_neq _ _) N1), (proj2 (Nat.eqb_neq _ _) N2), (proj2 (Nat.eqb_neq _ _) N3). reflexivity. Qed.
