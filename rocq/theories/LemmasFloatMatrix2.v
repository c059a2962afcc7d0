(** Proofs about positive definite matrix parameters in binary64: accuracy of the stored matrix, and what survives every history. *)
From Coq Require Import Reals ZArith List Lra Lia Psatz Bool.
From Flocq Require Import Core BinarySingleNaN.
From Verif Require Import Res Nd RSum SpecFloat SpecFloatSimplex SpecFloatAcc SpecFloatMatrix SpecMatrix ModelFloat ModelMatrix ModelFloatMatrix SpecFloatReach LemmasMatrix
  LemmasFloat LemmasFloat2 LemmasFloat3 LemmasFloat4 LemmasFloatSimplex LemmasFloatSimplex2 LemmasFloatAcc LemmasFloatMatrix.
Import List ListNotations.
Set Bullet Behavior "Strict Subproofs".
Open Scope R_scope.

(** ** histories *)
Section History.
Context (fexp : dbl -> dbl) (fdot : nat -> nat -> list dbl -> list dbl -> dbl) (n : nat) (lb : dbl).
Notation reachable := (reachable fexp fdot n lb).
Lemma set_keeps p v p' : fposdef_set p v = Ok p' -> fp_size p' = fp_size p /\ fp_lb p' = fp_lb p /\ shape (fp_val p') = [fp_size p; fp_size p] /\
  forall i j, (i < fp_size p)%nat -> (j < fp_size p)%nat -> feq (mget f_zero (fp_val p') j i) (mget f_zero (fp_val p') i j) = true.
Proof. intros H. destruct (fposdef_set_inv _ _ _ H) as (S & -> & K). cbn. auto. Qed.
Lemma set_free_is_set p x p' : fposdef_set_free fexp fdot p x = Ok p' -> exists v, fposdef_set p v = Ok p'.
Proof. unfold fposdef_set_free. destruct (negb _); [discriminate|]. destruct (f_unpack_posdef_matrix _ _ _ _) as [v|e]; [|discriminate]. cbn. eauto. Qed.
Lemma set_vector_is_set p x p' : fposdef_set_vector p x = Ok p' -> exists v, fposdef_set p v = Ok p'.
Proof. unfold fposdef_set_vector. destruct (negb _); [discriminate|]. destruct (f_unvectorize_symmetric_matrix _) as [v|e]; [|discriminate]. cbn. eauto. Qed.
Lemma reachable_inv p : reachable p -> fp_size p = n /\ fp_lb p = lb /\ fle f_zero lb = true /\ shape (fp_val p) = [n; n] /\
  forall i j, (i < n)%nat -> (j < n)%nat -> feq (mget f_zero (fp_val p) j i) (mget f_zero (fp_val p) i j) = true.
Proof.
  intros R. induction R as [v0 p H|p v p' R (I1 & I2 & I3 & I4 & I5) H|p x p' R (I1 & I2 & I3 & I4 & I5) H|p x p' R (I1 & I2 & I3 & I4 & I5) H].
  - unfold fposdef_init, rassert in H. destruct (fle f_zero lb) eqn:L; [|discriminate]. destruct v0 as [v|].
    + destruct (set_keeps _ _ _ H) as (A & B & C & D). cbn in *. auto.
    + injection H as <-. cbn [fp_size fp_lb fp_val]. split; [reflexivity|]. split; [reflexivity|]. split; [reflexivity|]. split; [reflexivity|].
      intros i j Hi Hj. rewrite !mget_mk_mat by assumption. unfold f_make_diagonal. rewrite (Nat.eqb_sym j i). destruct (Nat.eqb_spec i j); [|reflexivity].
      apply feq_self. apply fle_dle in L. assert (N : nonneg lb) by exact L. assert (N1 : nonneg f_one) by (apply fle_dle; reflexivity).
      destruct (fadd_nonneg lb f_one N N1) as [K _]. exact (proj2 (dle_number _ _ K)).
  - destruct (set_keeps _ _ _ H) as (A & B & C & D). rewrite I1 in *. rewrite I2 in *. auto.
  - destruct (set_free_is_set _ _ _ H) as [v H']. destruct (set_keeps _ _ _ H') as (A & B & C & D). rewrite I1 in *. rewrite I2 in *. auto.
  - destruct (set_vector_is_set _ _ _ H) as [v H']. destruct (set_keeps _ _ _ H') as (A & B & C & D). rewrite I1 in *. rewrite I2 in *. auto.
Qed.
Lemma reachable_numbers p : reachable p -> shape (fposdef_get p) = [n; n] /\ forall i j, (i < n)%nat -> (j < n)%nat ->
  number (mget f_zero (fposdef_get p) i j) /\ same (mget f_zero (fposdef_get p) i j) (mget f_zero (fposdef_get p) j i).
Proof.
  intros R. destruct (reachable_inv p R) as (_ & _ & _ & S & K). split; [exact S|]. intros i j Hi Hj. destruct (feq_number _ _ (K j i Hj Hi)) as (A & _ & B). auto.
Qed.
End History.

(** ** accuracy *)
Lemma at_reals x i j : at_ld 0 (reals x) i j = B2R (at_ld dzero x i j).
Proof. unfold at_ld, reals. change 0 with (B2R dzero). apply map_nth. Qed.

Section Accuracy.
Context (fexp : dbl -> dbl) (He : exp_good fexp) (fdot : nat -> nat -> list dbl -> list dbl -> dbl) (Hd : matmul_good fdot).
Context (n : nat) (x : list dbl) (Hx : calm_free n x).
Notation L := (factor (reals x)).
Notation S := (size_of (reals x)).

Lemma size_nonneg i k : 0 <= S i k.
Proof. unfold size_of. destruct (Nat.eqb k i); [|apply Rabs_pos]. pose proof (exp_pos (at_ld 0 (reals x) i i)). pose proof (Rabs_pos (at_ld 0 (reals x) i i)). lra. Qed.
Lemma factor_le_size i k : Rabs (L i k) <= S i k.
Proof.
  unfold size_of. destruct (Nat.eqb_spec k i) as [->|N]; [|lra]. unfold factor. rewrite Nat.ltb_irrefl, Nat.eqb_refl.
  rewrite Rabs_pos_eq by (left; apply exp_pos). pose proof (Rabs_pos (at_ld 0 (reals x) i i)). lra.
Qed.
Lemma size_bound i k : (i < n)%nat -> S i k <= bpow radix2 477.
Proof.
  intros Hi. destruct Hx as (_ & Hdg & Ho). unfold size_of, factor. destruct (Nat.eqb_spec k i) as [->|N].
  - rewrite at_reals. destruct (Hdg i Hi) as [_ B]. pose proof (exp_calm_bounds _ B) as [_ U].
    change 477%Z with (476 + 1)%Z. rewrite bpow_plus. change (bpow radix2 1) with 2. assert (512 <= bpow radix2 476) by (change 512 with (bpow radix2 9); apply bpow_le; lia). lra.
  - destruct (Nat.ltb_spec k i) as [K|K].
    + rewrite at_reals. destruct (Ho i k Hi K) as [_ B]. eapply Rle_trans; [exact B|]. apply bpow_le. lia.
    + rewrite Rabs_R0. apply bpow_ge_0.
Qed.
Lemma entry_close i k : (i < n)%nat -> (k < n)%nat -> is_finite (fent fexp x i k) = true /\ Rabs (B2R (fent fexp x i k) - L i k) <= 12 * u * S i k.
Proof.
  intros Hi Hk. pose proof (size_nonneg i k) as S0. destruct Hx as (_ & Hdg & Ho). unfold fent, size_of, factor in *. change f_zero with dzero. rewrite (Nat.eqb_sym i k).
  destruct (Nat.eqb_spec k i) as [->|N].
  - rewrite Nat.ltb_irrefl, at_reals. exact (diag_close fexp He _ (Hdg i Hi)).
  - match goal with |- is_finite ?a = true /\ _ => assert (E : same a (if Nat.leb k i then at_ld dzero x i k else dzero)) by exact (offdiag_same _);
      rewrite (same_B2R a _ E), (same_finite a _ E) end.
    destruct (Nat.ltb_spec k i) as [K|K].
    + destruct (Nat.leb_spec k i); [|lia]. rewrite at_reals in *. split; [apply (Ho i k Hi K)|]. rewrite Rminus_eq_0, Rabs_R0. small_u. apply Rmult_le_pos; lra.
    + destruct (Nat.leb_spec k i); [lia|]. split; [reflexivity|]. change (B2R dzero) with 0. rewrite Rminus_eq_0, Rabs_R0. small_u. apply Rmult_le_pos; lra.
Qed.
Lemma frow_finite i : (i < n)%nat -> List.Forall (fun v => is_finite v = true) (frow fexp x n i).
Proof. intros Hi. apply List.Forall_forall. intros v Hv. unfold frow in Hv. apply in_map_iff in Hv. destruct Hv as (k & <- & Hk). apply in_seq in Hk. apply entry_close; lia. Qed.

Definition PP i j := rsum n (fun k => Rabs (L i k) * S j k + S i k * Rabs (L j k)).
Definition SS i j := rsum n (fun k => S i k * S j k).
Lemma product_close i j k : (i < n)%nat -> (j < n)%nat -> (k < n)%nat ->
  Rabs (B2R (fent fexp x i k) * B2R (fent fexp x j k) - L i k * L j k) <= 12 * u * (Rabs (L i k) * S j k + S i k * Rabs (L j k)) + (12 * u) * (12 * u) * (S i k * S j k).
Proof.
  intros Hi Hj Hk. destruct (entry_close i k Hi Hk) as [_ A]. destruct (entry_close j k Hj Hk) as [_ B].
  set (a := B2R (fent fexp x i k)) in *. set (b := B2R (fent fexp x j k)) in *. set (c := 12 * u) in *.
  replace (a * b - L i k * L j k) with (L i k * (b - L j k) + (a - L i k) * L j k + (a - L i k) * (b - L j k)) by ring.
  eapply Rle_trans; [apply Rabs_triang|]. rewrite (Rabs_mult (a - L i k) (b - L j k)).
  assert (T : Rabs (L i k * (b - L j k) + (a - L i k) * L j k) <= Rabs (L i k) * (c * S j k) + (c * S i k) * Rabs (L j k)).
  { eapply Rle_trans; [apply Rabs_triang|]. rewrite !Rabs_mult. apply Rplus_le_compat; [apply Rmult_le_compat_l; [apply Rabs_pos|exact B]|apply Rmult_le_compat_r; [apply Rabs_pos|exact A]]. }
  assert (T2 : Rabs (a - L i k) * Rabs (b - L j k) <= (c * S i k) * (c * S j k)) by (apply Rmult_le_compat; try apply Rabs_pos; assumption).
  lra.
Qed.
Lemma dot_close i j : (i < n)%nat -> (j < n)%nat -> INR n <= bpow radix2 20 -> let q := units (4 * INR n) in let c := 12 * u in
  let d := fdot i j (frow fexp x n i) (frow fexp x n j) in is_finite d = true /\
  Rabs (B2R d - rsum n (fun k => L i k * L j k)) <= (q * (1 + c) + c) * PP i j + (q + 1) * (c * c) * SS i j + INR n * bpow radix2 (-1070).
Proof.
  intros Hi Hj Hn q c d. set (ri := frow fexp x n i) in *. set (rj := frow fexp x n j) in *.
  assert (Li : length ri = n) by apply frow_length. assert (Lj : length rj = n) by apply frow_length.
  assert (c0 : 0 <= c) by (unfold c; pose proof u_pos; lra).
  assert (q0 : 0 <= q). { unfold q. rewrite units_u. pose proof u_pos. pose proof (pos_INR n). apply Rmult_le_pos; lra. }
  assert (Ei : inner ri rj = rsum n (fun k => B2R (fent fexp x i k) * B2R (fent fexp x j k))).
  { unfold inner. rewrite Li. apply rsum_ext. intros k Hk. unfold ri, rj. rewrite !frow_nth by exact Hk. reflexivity. }
  assert (Ea : inner_abs ri rj = rsum n (fun k => Rabs (B2R (fent fexp x i k) * B2R (fent fexp x j k)))).
  { unfold inner_abs. rewrite Li. apply rsum_ext. intros k Hk. unfold ri, rj. rewrite !frow_nth by exact Hk. reflexivity. }
  assert (D : Rabs (inner ri rj - rsum n (fun k => L i k * L j k)) <= c * PP i j + c * c * SS i j).
  { rewrite Ei, <- rsum_minus. eapply Rle_trans; [apply rsum_Rabs|]. unfold PP, SS. rewrite <- !rsum_scal_l, <- rsum_plus. apply rsum_le. intros k Hk. apply product_close; assumption. }
  assert (Ab : inner_abs ri rj <= (1 + c) * PP i j + c * c * SS i j).
  { rewrite Ea. unfold PP, SS. rewrite <- !rsum_scal_l, <- rsum_plus. apply rsum_le. intros k Hk. cbv beta. pose proof (product_close i j k Hi Hj Hk) as P. fold c in P.
    set (ab := B2R (fent fexp x i k) * B2R (fent fexp x j k)) in *. replace ab with ((ab - L i k * L j k) + L i k * L j k) by ring.
    eapply Rle_trans; [apply Rabs_triang|]. rewrite Rabs_mult.
    assert (Rabs (L i k) * Rabs (L j k) <= Rabs (L i k) * S j k) by (apply Rmult_le_compat_l; [apply Rabs_pos|apply factor_le_size]).
    assert (0 <= S i k * Rabs (L j k)) by (apply Rmult_le_pos; [apply size_nonneg|apply Rabs_pos]). lra. }
  assert (Bd : inner_abs ri rj <= bpow radix2 990).
  { rewrite Ea. apply Rle_trans with (rsum n (fun _ => bpow radix2 478 * bpow radix2 478)).
    - apply rsum_le. intros k Hk. rewrite Rabs_mult. destruct (entry_close i k Hi Hk) as [_ A]. destruct (entry_close j k Hj Hk) as [_ B]. fold c in A, B.
      assert (c <= 1) by (unfold c; small_u; lra). change 478%Z with (477 + 1)%Z. rewrite !bpow_plus. change (bpow radix2 1) with 2.
      pose proof (size_bound i k Hi). pose proof (size_bound j k Hj). pose proof (factor_le_size i k). pose proof (factor_le_size j k). pose proof (size_nonneg i k). pose proof (size_nonneg j k).
      assert (c * S i k <= 1 * S i k) by (apply Rmult_le_compat_r; lra). assert (c * S j k <= 1 * S j k) by (apply Rmult_le_compat_r; lra).
      apply Rmult_le_compat; try apply Rabs_pos.
      + replace (B2R (fent fexp x i k)) with ((B2R (fent fexp x i k) - L i k) + L i k) by ring. eapply Rle_trans; [apply Rabs_triang|]. lra.
      + replace (B2R (fent fexp x j k)) with ((B2R (fent fexp x j k) - L j k) + L j k) by ring. eapply Rle_trans; [apply Rabs_triang|]. lra.
    - rewrite rsum_const, <- bpow_plus. apply Rle_trans with (bpow radix2 20 * bpow radix2 (478 + 478)).
      + apply Rmult_le_compat_r; [apply bpow_ge_0|]. exact Hn.
      + rewrite <- bpow_plus. apply bpow_le. lia. }
  assert (Ll : length ri = length rj) by congruence.
  destruct (mm_close _ Hd i j ri rj Ll (frow_finite i Hi) (frow_finite j Hj) ltac:(rewrite Li; exact Hn) Bd) as [F C]. fold d in F, C. split; [exact F|].
  rewrite Li in C. fold q in C.
  replace (B2R d - rsum n (fun k => L i k * L j k)) with ((B2R d - inner ri rj) + (inner ri rj - rsum n (fun k => L i k * L j k))) by ring.
  eapply Rle_trans; [apply Rabs_triang|]. apply Rmult_le_compat_l with (r := q) in Ab; [|exact q0]. lra.
Qed.

Context (lb : dbl) (Hlb : bounded500 lb) (Hlb0 : 0 <= B2R lb) (Hn : INR n <= bpow radix2 20).
Lemma stored_close i j : (i < n)%nat -> (j < n)%nat -> is_finite (stored fexp x fdot lb n i j) = true /\
  Rabs (B2R (stored fexp x fdot lb n i j) - exact_matrix n (B2R lb) (reals x) i j) <= matrix_error n (B2R lb) (reals x) i j.
Proof.
  intros Hi Hj. destruct (dot_close i j Hi Hj Hn) as [Fd Ed]. unfold stored. set (d := fdot i j (frow fexp x n i) (frow fexp x n j)) in *.
  set (b := if Nat.eqb i j then lb else f_zero). assert (Fb : is_finite b = true) by (unfold b; destruct (Nat.eqb i j); [apply Hlb|reflexivity]).
  assert (Eb : (if Nat.eqb i j then B2R lb else 0) = B2R b) by (unfold b; destruct (Nat.eqb i j); reflexivity).
  assert (b0 : 0 <= B2R b <= bpow radix2 500). { rewrite <- Eb. destruct Hlb as [_ B]. rewrite Rabs_pos_eq in B by exact Hlb0. pose proof (bpow_ge_0 radix2 500). destruct (Nat.eqb i j); lra. }
  unfold exact_matrix, matrix_error. rewrite Eb. set (X := rsum n (fun k => L i k * L j k)) in *.
  change (rsum n (fun k => Rabs (L i k) * S j k + S i k * Rabs (L j k))) with (PP i j). change (rsum n (fun k => S i k * S j k)) with (SS i j).
  assert (PB : PP i j <= bpow radix2 975).
  { unfold PP. apply Rle_trans with (rsum n (fun _ => 2 * (bpow radix2 477 * bpow radix2 477))).
    - apply rsum_le. intros k Hk. pose proof (size_bound i k Hi). pose proof (size_bound j k Hj). pose proof (factor_le_size i k). pose proof (factor_le_size j k). pose proof (size_nonneg i k). pose proof (size_nonneg j k).
      assert (Rabs (L i k) * S j k <= bpow radix2 477 * bpow radix2 477) by (apply Rmult_le_compat; try apply Rabs_pos; lra).
      assert (S i k * Rabs (L j k) <= bpow radix2 477 * bpow radix2 477) by (apply Rmult_le_compat; try apply Rabs_pos; lra). lra.
    - rewrite rsum_const. change 2 with (bpow radix2 1). rewrite <- !bpow_plus. apply Rle_trans with (bpow radix2 20 * bpow radix2 (1 + (477 + 477))).
      + apply Rmult_le_compat_r; [apply bpow_ge_0|]. exact Hn.
      + rewrite <- bpow_plus. apply bpow_le. lia. }
  assert (SB : SS i j <= bpow radix2 974).
  { unfold SS. apply Rle_trans with (rsum n (fun _ => bpow radix2 477 * bpow radix2 477)).
    - apply rsum_le. intros k Hk. pose proof (size_bound i k Hi). pose proof (size_bound j k Hj). apply Rmult_le_compat; try apply size_nonneg; assumption.
    - rewrite rsum_const. rewrite <- !bpow_plus. apply Rle_trans with (bpow radix2 20 * bpow radix2 (477 + 477)).
      + apply Rmult_le_compat_r; [apply bpow_ge_0|]. exact Hn.
      + rewrite <- bpow_plus. apply bpow_le. lia. }
  assert (P0 : 0 <= PP i j). { apply rsum_nonneg. intros k Hk. assert (0 <= Rabs (L i k) * S j k) by (apply Rmult_le_pos; [apply Rabs_pos|apply size_nonneg]). assert (0 <= S i k * Rabs (L j k)) by (apply Rmult_le_pos; [apply size_nonneg|apply Rabs_pos]). lra. }
  assert (S0 : 0 <= SS i j). { apply rsum_nonneg. intros k Hk. apply Rmult_le_pos; apply size_nonneg. }
  assert (XP : Rabs X <= PP i j).
  { unfold X, PP. eapply Rle_trans; [apply rsum_Rabs|]. apply rsum_le. intros k Hk. rewrite Rabs_mult.
    assert (Rabs (L i k) * Rabs (L j k) <= Rabs (L i k) * S j k) by (apply Rmult_le_compat_l; [apply Rabs_pos|apply factor_le_size]).
    assert (0 <= S i k * Rabs (L j k)) by (apply Rmult_le_pos; [apply size_nonneg|apply Rabs_pos]). lra. }
  unfold eps. rewrite !units_u in *. set (q := 4 * INR n * u) in *.
  assert (q0 : 0 <= q <= / 1000000). { unfold q. small_u. pose proof (pos_INR n). split; [apply Rmult_le_pos; lra|]. assert (INR n <= 1048576) by exact Hn. apply Rle_trans with (4 * 1048576 * / 9000000000000000); [|lra]. apply Rmult_le_compat; lra. }
  replace ((4 * INR n + 32) * u) with (q + 32 * u) by (unfold q; ring).
  assert (NE : INR n * bpow radix2 (-1070) <= / 2 * bpow radix2 (-1040)).
  { apply Rle_trans with (bpow radix2 20 * bpow radix2 (-1070)).
    - apply Rmult_le_compat_r; [apply bpow_ge_0|]. exact Hn.
    - change (/ 2) with (bpow radix2 (-1)). rewrite <- !bpow_plus. apply bpow_le. lia. }
  set (eta1 := bpow radix2 (-1040)) in *. assert (eta0 : 0 < eta1) by apply bpow_gt_0. assert (eta2 : eta1 <= 1) by (change 1 with (bpow radix2 0); apply bpow_le; lia).
  set (P := PP i j) in *. set (Q := SS i j) in *. set (v := u) in *. assert (v0 : 0 < v <= / 9000000000000000) by (unfold v; small_u; lra).
  assert (T1 : (q * (1 + 12 * v) + 12 * v) * P <= (q + 13 * v) * P). { apply Rmult_le_compat_r; [exact P0|]. assert (q * (12 * v) <= / 1000000 * (12 * v)) by (apply Rmult_le_compat_r; lra). lra. }
  assert (T2 : (q + 1) * (12 * v * (12 * v)) * Q <= 150 * (v * v) * Q). { apply Rmult_le_compat_r; [exact S0|]. assert (q * (v * v) <= / 1000000 * (v * v)) by (apply Rmult_le_compat_r; [nra|lra]). assert (0 <= v * v) by nra. lra. }
  assert (ED : Rabs (B2R d - X) <= (q + 13 * v) * P + 150 * (v * v) * Q + / 2 * eta1) by lra.
  assert (Z1 : (q + 13 * v) * P <= 1 * P) by (apply Rmult_le_compat_r; lra).
  assert (vv : v * v <= / 9000000000000000 * v) by (apply Rmult_le_compat_r; lra).
  assert (Z2 : 150 * (v * v) * Q <= 1 * Q) by (apply Rmult_le_compat_r; lra).
  assert (T : Rabs (B2R d + B2R b) <= P + B2R b + ((q + 13 * v) * P + 150 * (v * v) * Q + / 2 * eta1)).
  { replace (B2R d + B2R b) with (X + B2R b + (B2R d - X)) by ring. eapply Rle_trans; [apply Rabs_triang|]. apply Rplus_le_compat; [|exact ED].
    eapply Rle_trans; [apply Rabs_triang|]. rewrite (Rabs_pos_eq (B2R b)) by lra. lra. }
  destruct (fadd_rel d b Fd Fb) as [Fr Er].
  { eapply Rle_trans; [exact T|]. assert (bpow radix2 975 <= bpow radix2 990) by (apply bpow_le; lia). assert (bpow radix2 974 <= bpow radix2 990) by (apply bpow_le; lia). assert (bpow radix2 500 <= bpow radix2 990) by (apply bpow_le; lia).
    assert (1 <= bpow radix2 990) by (change 1 with (bpow radix2 0); apply bpow_le; lia). assert (bpow radix2 990 * 8 <= bpow radix2 1000) by (change 8 with (bpow radix2 3); rewrite <- bpow_plus; apply bpow_le; lia). lra. }
  split; [exact Fr|]. fold v in Er. replace (B2R (fadd d b) - (X + B2R b)) with ((B2R (fadd d b) - (B2R d + B2R b)) + (B2R d - X)) by ring.
  eapply Rle_trans; [apply Rabs_triang|]. apply Rmult_le_compat_l with (r := v) in T; [|lra].
  assert (W1 : v * ((q + 13 * v) * P) <= v * P) by (apply Rmult_le_compat_l; lra).
  assert (W2 : v * (150 * (v * v) * Q) <= v * v * Q). { replace (v * (150 * (v * v) * Q)) with ((150 * v) * (v * v * Q)) by ring. rewrite <- (Rmult_1_l (v * v * Q)) at 2. apply Rmult_le_compat_r; [|lra]. apply Rmult_le_pos; [nra|exact S0]. }
  assert (W3 : v * (/ 2 * eta1) <= / 2 * eta1) by (rewrite <- (Rmult_1_l (/ 2 * eta1)) at 2; apply Rmult_le_compat_r; lra).
  assert (W4 : 1024 * (v * v) * Q <= (q + 32 * v) * (q + 32 * v) * Q). { apply Rmult_le_compat_r; [exact S0|]. assert (0 <= q * v) by nra. assert (0 <= q * q) by nra. lra. }
  assert (0 <= v * v * Q) by (apply Rmult_le_pos; [nra|exact S0]). assert (0 <= v * P) by nra. assert (0 <= v * B2R b) by nra. assert (0 <= q * B2R b) by nra. lra.
Qed.
Lemma stored_sym i j : (i < n)%nat -> (j < n)%nat -> stored fexp x fdot lb n i j = stored fexp x fdot lb n j i.
Proof.
  intros Hi Hj. unfold stored. rewrite (Nat.eqb_sym j i). f_equal. apply (mm_sym _ Hd); [rewrite !frow_length; reflexivity| |]; apply frow_finite; assumption.
Qed.
Lemma set_free_accurate p : reachable fexp fdot n lb p -> exists p', fposdef_set_free fexp fdot p x = Ok p' /\ shape (fposdef_get p') = [n; n] /\
  forall i j, (i < n)%nat -> (j < n)%nat -> mget dzero (fposdef_get p') i j = mget dzero (fposdef_get p') j i /\ is_finite (mget dzero (fposdef_get p') i j) = true /\
    Rabs (B2R (mget dzero (fposdef_get p') i j) - exact_matrix n (B2R lb) (reals x) i j) <= matrix_error n (B2R lb) (reals x) i j.
Proof.
  intros R. destruct (reachable_inv _ _ _ _ _ R) as (E1 & E2 & _). exists (mkFP n lb (mk_mat n n (stored fexp x fdot lb n))).
  rewrite (set_free_unfold fexp fdot p x n E1 (proj1 Hx)), E2. split.
  - rewrite (fposdef_set_spec p _ n E1); [rewrite E2; reflexivity|reflexivity|].
    intros i j Hi Hj. rewrite !mget_mk_mat by assumption. rewrite (stored_sym j i Hj Hi). apply feq_self. apply finite_number. apply stored_close; assumption.
  - split; [reflexivity|]. intros i j Hi Hj. unfold fposdef_get, fp_val. rewrite !mget_mk_mat by assumption. split; [apply stored_sym; assumption|]. apply stored_close; assumption.
Qed.
End Accuracy.

