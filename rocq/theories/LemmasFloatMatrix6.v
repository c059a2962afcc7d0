(** The contracts asked of np.matmul and np.linalg.cholesky are met: the textbook loops in binary64. *)
From Coq Require Import Reals ZArith List Lra Lia Psatz Bool.
From Flocq Require Import Core BinarySingleNaN Relative.
From Verif Require Import Res Nd RSum SpecFloat SpecFloatSimplex SpecFloatAcc SpecFloatMatrix SpecMatrix ModelFloat ModelMatrix ModelFloatMatrix SpecFloatReach LemmasMatrix
  LemmasFloat LemmasFloat2 LemmasFloat3 LemmasFloat4 LemmasFloatSimplex LemmasFloatSimplex2 LemmasFloatAcc LemmasFloatMatrix LemmasFloatMatrix2 LemmasFloatMatrix3.
Import List ListNotations.
Set Bullet Behavior "Strict Subproofs".
Open Scope R_scope.
#[local] Existing Instance P53.

Definition accumulate (l : list (double * double)) (s : double) : double := fold_left (fun s p => fadd s (fmul (fst p) (snd p))) l s.
Definition seq_dot (x y : list double) : double := accumulate (combine x y) dzero.

Lemma fmul_comm (x y : dbl) : is_finite x = true -> is_finite y = true -> fmul x y = fmul y x.
Proof.
  intros Fx Fy. pose proof (fmul_cases x y Fx Fy) as A. pose proof (fmul_cases y x Fy Fx) as B. rewrite (Rmult_comm (B2R y)), (xorb_comm (Bsign y)) in B.
  destruct A as [(A1 & A2 & A3 & A4)|(A1 & A2)], B as [(B1 & B2 & B3 & B4)|(B1 & B2)]; try lra.
  - apply B2R_Bsign_inj; try assumption; congruence.
  - congruence.
Qed.
Lemma fmul_close (x y : dbl) : is_finite x = true -> is_finite y = true -> Rabs (B2R x * B2R y) <= bpow radix2 1000 ->
  is_finite (fmul x y) = true /\ Rabs (B2R (fmul x y) - B2R x * B2R y) <= u * Rabs (B2R x * B2R y) + bpow radix2 (-1074).
Proof.
  intros Fx Fy B. destruct (fmul_cases x y Fx Fy) as [(_ & E & G & _)|(A & _)].
  - split; [exact G|]. rewrite E. set (m := B2R x * B2R y) in *. destruct (error_N_FLT radix2 (-1074) 53 ltac:(lia) (fun t => negb (Z.even t)) m) as (e & h & He & Hh & _ & Er).
    unfold rnd64. change ZnearestE with (Znearest (fun t => negb (Z.even t))). rewrite Er. replace (m * (1 + e) + h - m) with (e * m + h) by ring.
    eapply Rle_trans; [apply Rabs_triang|]. apply Rplus_le_compat.
    + rewrite Rabs_mult. apply Rmult_le_compat_r; [apply Rabs_pos|]. eapply Rle_trans; [exact He|]. unfold u. change (/ 2) with (bpow radix2 (-1)). rewrite <- bpow_plus. right. reflexivity.
    + pose proof (bpow_ge_0 radix2 (-1074)). lra.
  - exfalso. pose proof (rnd64_fin _ 1000 ltac:(lia) B). lra.
Qed.
Lemma fmul_zero (x y : dbl) : is_finite x = true -> is_finite y = true -> B2R x * B2R y = 0 -> exists s, fmul x y = B754_zero s.
Proof.
  intros Fx Fy Z. destruct (fmul_cases x y Fx Fy) as [(_ & E & G & _)|(A & _)]; rewrite Z, rnd64_0 in *.
  - apply zero_of; assumption.
  - rewrite Rabs_R0 in A. pose proof (bpow_gt_0 radix2 1024). lra.
Qed.
Lemma accumulate_nan l : accumulate l B754_nan = B754_nan.
Proof. induction l as [|p l IH]; [reflexivity|]. cbn [accumulate fold_left]. exact IH. Qed.
Lemma fadd_nan_r (s : dbl) : fadd s B754_nan = B754_nan. Proof. destruct s; reflexivity. Qed.
Lemma accumulate_nan_in l a b s : In (a, b) l -> is_nan a = true -> is_nan b = true -> accumulate l s = B754_nan.
Proof.
  intros H Na Nb. revert s. induction l as [|p l IH]; intros s; [destruct H|]. cbn [accumulate fold_left]. destruct H as [->|H]; [|apply (IH H)].
  destruct a; try discriminate. destruct b; try discriminate. cbn [fst snd]. change (fmul B754_nan B754_nan) with (@B754_nan 53 1024). rewrite fadd_nan_r. apply accumulate_nan.
Qed.
Definition abs_sum (l : list (double * double)) : R := lsum (map (fun p => Rabs (B2R (fst p) * B2R (snd p))) l).
Definition exact_sum (l : list (double * double)) : R := lsum (map (fun p => B2R (fst p) * B2R (snd p)) l).
Lemma abs_sum_nonneg l : 0 <= abs_sum l.
Proof. unfold abs_sum, lsum. induction l as [|p l IH]; cbn [map fold_right]; [lra|]. pose proof (Rabs_pos (B2R (fst p) * B2R (snd p))). lra. Qed.
Lemma abs_sum_cons p l : abs_sum (p :: l) = Rabs (B2R (fst p) * B2R (snd p)) + abs_sum l. Proof. reflexivity. Qed.
Lemma exact_sum_cons p l : exact_sum (p :: l) = B2R (fst p) * B2R (snd p) + exact_sum l. Proof. reflexivity. Qed.
Lemma accumulate_close l : forall (s : double) (k X A : R), 0 <= k -> k + INR (length l) <= bpow radix2 20 ->
  List.Forall (fun p => is_finite (fst p) = true /\ is_finite (snd p) = true) l -> is_finite s = true -> Rabs X <= A -> A + abs_sum l <= bpow radix2 990 ->
  Rabs (B2R s - X) <= 3 * k * u * A + 2 * k * bpow radix2 (-1074) ->
  is_finite (accumulate l s) = true /\ Rabs (B2R (accumulate l s) - (X + exact_sum l)) <= 3 * (k + INR (length l)) * u * (A + abs_sum l) + 2 * (k + INR (length l)) * bpow radix2 (-1074).
Proof.
  induction l as [|[a b] l IH]; intros s k X A k0 K F Fs XA AB H.
  - unfold exact_sum, abs_sum, lsum in *. cbn [accumulate fold_left length map fold_right INR] in *. rewrite !Rplus_0_r. split; [exact Fs|exact H].
  - inversion F as [|? ? [Fa Fb] F']; subst. cbn [fst snd] in *. pose proof (abs_sum_nonneg l) as N0. cbn [length] in K. rewrite S_INR in K. pose proof (pos_INR (length l)) as L0.
    rewrite abs_sum_cons, exact_sum_cons in *. cbn [fst snd accumulate fold_left length] in *. fold (accumulate l (fadd s (fmul a b))). rewrite S_INR.
    set (m := B2R a * B2R b) in *. pose proof (Rabs_pos m) as m0. pose proof (Rabs_pos X) as X0. small_u. set (h := bpow radix2 (-1074)) in *. assert (h0 : 0 < h) by apply bpow_gt_0.
    assert (h1 : h <= 1) by (change 1 with (bpow radix2 0); apply bpow_le; lia). assert (K' : k <= 1048576) by (change (bpow radix2 20) with 1048576 in K; lra).
    assert (H1000 : bpow radix2 990 * 1024 = bpow radix2 1000) by (change 1024 with (bpow radix2 10); rewrite <- bpow_plus; reflexivity).
    assert (H990 : 4000000 <= bpow radix2 990) by (apply Rle_trans with (bpow radix2 22); [change (bpow radix2 22) with 4194304; lra|apply bpow_le; lia]).
    destruct (fmul_close a b Fa Fb) as [Fm Em]. { fold m. lra. } fold m h in Em.
    assert (ku : k * u <= / 8000000). { apply Rle_trans with (1048576 * / 9000000000000000); [apply Rmult_le_compat; lra|lra]. } assert (ku0 : 0 <= k * u) by nra.
    set (q := B2R (fmul a b)) in *. set (v := B2R s) in *.
    assert (S1 : Rabs (v + q - (X + m)) <= (3 * k * u * A + 2 * k * h) + (u * Rabs m + h)). { replace (v + q - (X + m)) with ((v - X) + (q - m)) by ring. eapply Rle_trans; [apply Rabs_triang|]. lra. }
    assert (S2 : Rabs (v + q) <= A + Rabs m + ((3 * k * u * A + 2 * k * h) + (u * Rabs m + h))). { replace (v + q) with ((X + m) + (v + q - (X + m))) by ring. eapply Rle_trans; [apply Rabs_triang|]. apply Rplus_le_compat; [|exact S1]. eapply Rle_trans; [apply Rabs_triang|]. lra. }
    assert (kA : k * u * A <= / 8000000 * A) by (apply Rmult_le_compat_r; lra). assert (um : u * Rabs m <= / 8000000 * Rabs m) by (apply Rmult_le_compat_r; lra).
    assert (kh : k * h <= 1048576 * 1) by (apply Rmult_le_compat; lra).
    destruct (fadd_rel s (fmul a b) Fs Fm) as [Fr Er]. { fold v q. lra. } fold v q in Er.
    specialize (IH (fadd s (fmul a b)) (k + 1) (X + m) (A + Rabs m) ltac:(lra) ltac:(lra) F' Fr). destruct IH as [I1 I2].
    + eapply Rle_trans; [apply Rabs_triang|]. lra.
    + lra.
    + replace (B2R (fadd s (fmul a b)) - (X + m)) with ((B2R (fadd s (fmul a b)) - (v + q)) + (v + q - (X + m))) by ring. eapply Rle_trans; [apply Rabs_triang|].
      apply Rmult_le_compat_l with (r := u) in S2; [|lra].
      assert (Y1 : u * (k * u * A) <= u * (/ 8000000 * A)) by (apply Rmult_le_compat_l; lra). assert (Y2 : u * (u * Rabs m) <= u * (/ 8000000 * Rabs m)) by (apply Rmult_le_compat_l; lra).
      assert (Y3 : u * (2 * k * h + h) <= / 8 * h). { replace (u * (2 * k * h + h)) with ((2 * (k * u) + u) * h) by ring. apply Rmult_le_compat_r; lra. }
      assert (0 <= u * A) by nra. assert (0 <= u * Rabs m) by nra. assert (0 <= k * u * Rabs m) by nra.
      lra.
    + split; [exact I1|]. replace (X + (m + exact_sum l)) with (X + m + exact_sum l) by ring. replace (k + (INR (length l) + 1)) with (k + 1 + INR (length l)) by ring. replace (A + (Rabs m + abs_sum l)) with (A + Rabs m + abs_sum l) by ring. exact I2.
Qed.
Lemma combine_sums x y : length x = length y -> exact_sum (combine x y) = inner x y /\ abs_sum (combine x y) = inner_abs x y.
Proof.
  intros L. unfold exact_sum, abs_sum, inner, inner_abs. rewrite !lsum_nth, !map_length, combine_length, <- L, Nat.min_id. split; apply rsum_ext; intros k Hk.
  - set (F := fun p : double * double => B2R (fst p) * B2R (snd p)). rewrite (nth_indep (map F (combine x y)) 0 (F (dzero, dzero))) by (rewrite map_length, combine_length; lia).
    rewrite (map_nth F), combine_nth by exact L. reflexivity.
  - set (F := fun p : double * double => Rabs (B2R (fst p) * B2R (snd p))). rewrite (nth_indep (map F (combine x y)) 0 (F (dzero, dzero))) by (rewrite map_length, combine_length; lia).
    rewrite (map_nth F), combine_nth by exact L. reflexivity.
Qed.
Lemma combine_finite (x y : list double) : List.Forall (fun v => is_finite v = true) x -> List.Forall (fun v => is_finite v = true) y ->
  List.Forall (fun p => is_finite (fst p) = true /\ is_finite (snd p) = true) (combine x y).
Proof.
  intros Fx Fy. rewrite List.Forall_forall in *. intros [a b] H. split; [apply Fx; exact (in_combine_l _ _ _ _ H)|apply Fy; exact (in_combine_r _ _ _ _ H)].
Qed.
Lemma seq_dot_sym x : forall y s, List.Forall (fun v => is_finite v = true) x -> List.Forall (fun v => is_finite v = true) y -> accumulate (combine x y) s = accumulate (combine y x) s.
Proof.
  induction x as [|a x IH]; intros [|b y] s Fx Fy; try reflexivity. inversion Fx; inversion Fy; subst. cbn [combine accumulate fold_left fst snd].
  rewrite (fmul_comm a b) by assumption. apply IH; assumption.
Qed.
Lemma accumulate_zero l : forall s, List.Forall (fun p => is_finite (fst p) = true /\ is_finite (snd p) = true) l -> (forall p, In p l -> B2R (fst p) * B2R (snd p) = 0) ->
  exists t, accumulate l (B754_zero s) = B754_zero t.
Proof.
  induction l as [|[a b] l IH]; intros s F Z; [exists s; reflexivity|]. inversion F as [|? ? [Fa Fb] F']; subst. cbn [accumulate fold_left fst snd] in *.
  destruct (fmul_zero a b Fa Fb (Z (a, b) (or_introl eq_refl))) as [t E]. rewrite E.
  assert (Q : exists t', fadd (B754_zero s) (B754_zero t) = B754_zero t') by (destruct s, t; eexists; reflexivity). destruct Q as [t' Q]. rewrite Q.
  apply IH; [exact F'|]. intros p Hp. apply Z. right. exact Hp.
Qed.
Theorem seq_dot_good : matmul_good (fun _ _ => seq_dot).
Proof.
  split.
  - intros i j x y L Fx Fy. apply seq_dot_sym; assumption.
  - intros i j x y L Fx Fy Z. apply accumulate_zero; [apply combine_finite; assumption|]. intros p Hp. destruct (In_nth _ _ (dzero, dzero) Hp) as (k & Hk & <-).
    rewrite combine_length, <- L, Nat.min_id in Hk. rewrite combine_nth by exact L. apply Z. exact Hk.
  - intros i j x y k L Hk Nx Ny. apply (accumulate_nan_in _ (nth k x dzero) (nth k y dzero)); try assumption. rewrite <- combine_nth by exact L. apply nth_In. rewrite combine_length. lia.
  - intros i j x y L Fx Fy N B. destruct (combine_sums x y L) as [E1 E2].
    destruct (accumulate_close (combine x y) dzero 0 0 0) as [F C]; try lra.
    + rewrite combine_length, <- L, Nat.min_id. lra.
    + apply combine_finite; assumption.
    + reflexivity.
    + rewrite Rabs_R0. lra.
    + cbn. rewrite Rminus_eq_0, Rabs_R0. lra.
    + split; [exact F|]. rewrite E1, E2, combine_length, <- L, Nat.min_id, !Rplus_0_l in C. rewrite units_u. eapply Rle_trans; [exact C|].
      apply Rplus_le_compat.
      * apply Rmult_le_compat_r; [unfold inner_abs; apply rsum_nonneg; intros; apply Rabs_pos|]. apply Rmult_le_compat_r; [left; apply u_pos|]. pose proof (pos_INR (length x)). lra.
      * rewrite (Rmult_comm 2), Rmult_assoc. apply Rmult_le_compat_l; [apply pos_INR|]. change 2 with (bpow radix2 1). rewrite <- bpow_plus. apply bpow_le. lia.
Qed.

(** ** the column by column factorisation *)
Definition fsqrt (x : double) : double := @Bsqrt 53 1024 prec53 emax1024 mode_NE x.
Fixpoint fcholL (A : nat -> nat -> double) (c : nat) : nat -> nat -> double :=
  match c with
  | O => fun _ _ => dzero
  | S c' =>
      let L := fcholL A c' in
      let row i := map (L i) (seq 0 c') in
      let d := fsub (A c' c') (seq_dot (row c') (row c')) in
      fun i k => if Nat.eqb k c' then (if Nat.ltb i c' then dzero else if Nat.eqb i c' then fsqrt d else fdiv (fsub (A i c') (seq_dot (row i) (row c'))) (fsqrt d)) else L i k
  end.
Definition fpivot (A : nat -> nat -> double) (c : nat) : double := let row := map (fcholL A c c) (seq 0 c) in fsub (A c c) (seq_dot row row).
(** the comparison 0 < x *)
Definition fpositive (x : double) : bool := negb (fle x dzero) && fle dzero x.
Definition textbook_cholesky (A : nd double) : res (nd double) :=
  match shape A with
  | [n; m] => if negb (Nat.eqb n m) then Raise LinAlgError
              else if forallb (fun c => fpositive (fpivot (mget dzero A) c)) (seq 0 n) then Ok (mk_mat n n (fcholL (mget dzero A) n)) else Raise LinAlgError
  | _ => Raise LinAlgError
  end.
Lemma fpositive_spec x : fpositive x = true <-> positive x.
Proof.
  unfold fpositive, positive. destruct (is_finite x) eqn:F.
  - pose proof (fle_finite x dzero F eq_refl) as A. pose proof (fle_finite dzero x eq_refl F) as B. cbn [B2R dzero] in A, B. rewrite andb_true_iff, negb_true_iff. split.
    + intros [H1 H2]. right. split; [reflexivity|]. apply B in H2. change (B2R dzero) with 0 in *. destruct (Rle_lt_or_eq_dec _ _ H2) as [|E]; [assumption|]. exfalso. rewrite (proj2 A) in H1; [discriminate|]. lra.
    + intros [->|[_ P]]; [discriminate|]. split; [apply not_true_is_false; intros Q; apply A in Q; change (B2R dzero) with 0 in *; lra|]. apply B. change (B2R dzero) with 0. lra.
  - destruct x as [s|s| |s m e H]; try discriminate.
    + destruct s; split; intros H; [discriminate|destruct H as [H|[H _]]; discriminate|left; reflexivity|reflexivity].
    + split; intros H; [discriminate|destruct H as [H|[H _]]; discriminate].
Qed.
Lemma fcholL_upper A c i k : (i < k)%nat -> fcholL A c i k = dzero.
Proof.
  induction c as [|c IH]; intros H; [reflexivity|]. cbn [fcholL]. destruct (Nat.eqb_spec k c) as [->|N]; [|apply IH; exact H].
  destruct (Nat.ltb_spec i c); [reflexivity|lia].
Qed.
Lemma fcholL_diag A c i : (i < c)%nat -> fcholL A c i i = fsqrt (fpivot A i).
Proof.
  induction c as [|c IH]; intros H; [lia|]. cbn [fcholL]. destruct (Nat.eqb_spec i c) as [->|N]; [|apply IH; lia].
  rewrite Nat.ltb_irrefl. reflexivity.
Qed.
Lemma fsqrt_close (x : dbl) : is_finite x = true -> 0 < B2R x -> is_finite (fsqrt x) = true /\ 0 < B2R (fsqrt x) /\ Rabs (B2R (fsqrt x) - sqrt (B2R x)) <= u * sqrt (B2R x).
Proof.
  intros F P. destruct (@Bsqrt_correct 53 1024 prec53 emax1024 mode_NE x) as (E & G & _). fold (fsqrt x) in E, G.
  assert (L : bpow radix2 (-1074) <= B2R x). { destruct x as [s|s| |s m e H]; try (cbn in P; lra). rewrite <- (Rabs_pos_eq (B2R _)) by lra. exact (abs_B2R_ge_emin 53 1024 (B754_finite s m e H) eq_refl). }
  assert (S : bpow radix2 (-537) <= sqrt (B2R x)).
  { apply Rsqr_incr_0; [|apply bpow_ge_0|apply sqrt_pos]. rewrite Rsqr_sqrt by lra. unfold Rsqr. rewrite <- bpow_plus. exact L. }
  assert (Fs : is_finite (fsqrt x) = true). { rewrite G. destruct x as [s|s| |s m e H]; try discriminate; [reflexivity|]. destruct s; [|reflexivity]. exfalso. pose proof (F2R_lt_0 radix2 (Float radix2 (Z.neg m) e) ltac:(reflexivity)). change (F2R (Float radix2 (Z.neg m) e) > 0) in P. lra. }
  assert (C : Rabs (B2R (fsqrt x) - sqrt (B2R x)) <= u * sqrt (B2R x)).
  { rewrite E. pose proof (relative_error_N_FLT radix2 (-1074) 53 ltac:(lia) (fun t => negb (Z.even t)) (sqrt (B2R x))) as R. rewrite (Rabs_pos_eq (sqrt (B2R x))) in R by apply sqrt_pos.
    eapply Rle_trans; [apply R|].
    - eapply Rle_trans; [|exact S]. apply bpow_le. lia.
    - apply Rmult_le_compat_r; [apply sqrt_pos|]. unfold u. change (/ 2) with (bpow radix2 (-1)). rewrite <- bpow_plus. right. reflexivity. }
  split; [exact Fs|]. split; [|exact C]. pose proof (bpow_gt_0 radix2 (-537)). apply Rabs_le_inv in C. small_u. assert (u * sqrt (B2R x) <= / 2 * sqrt (B2R x)) by (apply Rmult_le_compat_r; [apply sqrt_pos|lra]). lra.
Qed.
Lemma fsqrt_positive (x : dbl) : positive x -> positive (fsqrt x).
Proof. intros [->|[F P]]; [left; reflexivity|]. destruct (fsqrt_close x F P) as (A & B & _). right. auto. Qed.
Lemma fpivot_0 A : same (fpivot A 0) (A 0%nat 0%nat).
Proof. apply sub_zero_same. Qed.
Lemma same_positive x y : same x y -> positive x -> positive y.
Proof. intros [<-|(s & t & -> & ->)]; auto. intros [H|[_ H]]; [discriminate|cbn in H; lra]. Qed.
Theorem textbook_cholesky_good : cholesky_good textbook_cholesky.
Proof.
  assert (K : forall n A c, shape A = [n; n] -> textbook_cholesky A = Ok c -> c = mk_mat n n (fcholL (mget dzero A) n) /\ forall i, (i < n)%nat -> positive (fpivot (mget dzero A) i)).
  { intros n A c S H. unfold textbook_cholesky in H. rewrite S, Nat.eqb_refl in H. cbn [negb] in H. destruct (forallb _ _) eqn:Q; [|discriminate]. injection H as <-. split; [reflexivity|].
    intros i Hi. rewrite forallb_forall in Q. apply fpositive_spec. apply Q. apply in_seq. lia. }
  split.
  - intros n A c S H. destruct (K n A c S H) as [-> _]. split; [reflexivity|apply mk_mat_wf].
  - intros n A c i j S H Hij Hj. destruct (K n A c S H) as [-> _]. rewrite mget_mk_mat by lia. apply fcholL_upper. exact Hij.
  - intros n A c i S H Hi. destruct (K n A c S H) as [-> Q]. rewrite mget_mk_mat by lia. rewrite fcholL_diag by exact Hi. apply fsqrt_positive. apply Q. exact Hi.
  - intros n A S Hn H. unfold textbook_cholesky. rewrite S, Nat.eqb_refl. cbn [negb]. destruct (forallb _ _) eqn:Q; [|reflexivity]. exfalso. apply H.
    rewrite forallb_forall in Q. apply (same_positive _ _ (fpivot_0 (mget dzero A))). apply fpositive_spec. apply Q. apply in_seq. lia.
  - intros n A c S Hn H F. destruct (K n A c S H) as [-> Q]. rewrite mget_mk_mat by lia. rewrite fcholL_diag by exact Hn. pose proof (fpivot_0 (mget dzero A)) as Z.
    destruct (Q 0%nat Hn) as [E|[Fp P]]; [rewrite (same_finite _ _ (same_sym _ _ Z)), E in F; discriminate|]. destruct (fsqrt_close _ Fp P) as (A1 & _ & A2). split; [exact A1|]. rewrite <- (same_B2R _ _ Z). rewrite units_u.
    eapply Rle_trans; [exact A2|]. apply Rmult_le_compat_r; [apply sqrt_pos|]. small_u. lra.
  - intros A S F P. unfold textbook_cholesky. rewrite S. cbn [Nat.eqb negb forallb seq]. replace (fpositive (fpivot (mget dzero A) 0)) with true; [eexists; reflexivity|].
    symmetry. apply fpositive_spec. apply (same_positive _ _ (same_sym _ _ (fpivot_0 (mget dzero A)))). right. auto.
Qed.
