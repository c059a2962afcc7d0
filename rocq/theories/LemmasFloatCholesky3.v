(** The textbook Cholesky factorisation in binary64 has a small backward error. *)
From Coq Require Import Reals ZArith List Lra Lia Psatz Bool.
From Flocq Require Import Core BinarySingleNaN Relative.
From Verif Require Import Res Nd RSum SpecFloat SpecFloatSimplex SpecFloatAcc SpecFloatMatrix SpecFloatCholesky SpecMatrix ModelFloat ModelMatrix ModelFloatMatrix SpecFloatReach LemmasMatrix
  LemmasFloat LemmasFloat2 LemmasFloat3 LemmasFloat4 LemmasFloatSimplex LemmasFloatSimplex2 LemmasFloatAcc LemmasFloatMatrix LemmasFloatMatrix2 LemmasFloatMatrix3 LemmasFloatMatrix6 LemmasFloatCholesky.
Import List ListNotations.
Set Bullet Behavior "Strict Subproofs".
Open Scope R_scope.
#[local] Existing Instance P53.

(** ** sums of squares *)
Definition nonneg_or_lost (x : double) : Prop := x = B754_nan \/ x = B754_infinity false \/ (is_finite x = true /\ 0 <= B2R x).
Lemma fadd_finite (x y : dbl) : is_finite (fadd x y) = true -> is_finite x = true /\ is_finite y = true.
Proof. destruct x as [s|s| |s m e H], y as [t|t| |t m' e' H']; auto; intros F; try discriminate; destruct s; try discriminate; destruct t; discriminate. Qed.
Lemma fmul_finite (x y : dbl) : is_finite (fmul x y) = true -> is_finite x = true /\ is_finite y = true.
Proof. destruct x as [s|s| |s m e H], y as [t|t| |t m' e' H']; auto; intros F; discriminate. Qed.
Lemma square_lost (q : dbl) : nonneg_or_lost (fmul q q).
Proof.
  destruct (is_finite q) eqn:F.
  - destruct (fmul_cases q q F F) as [(_ & E & G & _)|(_ & E)].
    + right. right. split; [exact G|]. rewrite E. apply rnd64_nonneg. apply Rle_0_sqr.
    + right. left. rewrite E, xorb_nilpotent. reflexivity.
  - destruct q as [s|s| |s m e H]; try discriminate; [right; left; destruct s; reflexivity|left; reflexivity].
Qed.
Lemma sign_true (x : dbl) : is_finite x = true -> Bsign x = true -> B2R x <= 0.
Proof. destruct x as [s|s| |s m e H]; try discriminate; cbn [Bsign]; intros _ ->; [cbn; lra|]. left. apply (F2R_lt_0 radix2 (Float radix2 (Z.neg m) e)). reflexivity. Qed.
Lemma fadd_lost (x y : dbl) : nonneg_or_lost x -> nonneg_or_lost y -> nonneg_or_lost (fadd x y).
Proof.
  intros [->|[->|[Fx Px]]] [->|[->|[Fy Py]]]; try (left; reflexivity); try (right; left; reflexivity).
  - right. left. destruct y as [s|s| |s m e H]; try discriminate; reflexivity.
  - left. destruct x; reflexivity.
  - right. left. destruct x as [s|s| |s m e H]; try discriminate; reflexivity.
  - destruct (fadd_cases x y Fx Fy) as [(_ & E & G & _)|(A & E)].
    + right. right. split; [exact G|]. rewrite E. apply rnd64_nonneg. lra.
    + destruct E as (I & E). assert (Z : Bsign x = true -> B2R x + B2R y <= 0) by (intros Q; pose proof (sign_true x Fx Q); rewrite E in Q; pose proof (sign_true y Fy Q); lra).
      destruct (Bsign x) eqn:Q; [exfalso|right; left; exact I].
      specialize (Z eq_refl). assert (B2R x + B2R y = 0) as Y by lra. rewrite Y, rnd64_0, Rabs_R0 in A. pose proof (bpow_gt_0 radix2 1024). lra.
Qed.

Lemma accumulate_app l p s : accumulate (l ++ [p]) s = fadd (accumulate l s) (fmul (fst p) (snd p)).
Proof. unfold accumulate. rewrite fold_left_app. reflexivity. Qed.
Definition diagonal (l : list (double * double)) : Prop := forall p, In p l -> fst p = snd p.
Lemma accumulate_lost l : diagonal l -> nonneg_or_lost (accumulate l dzero).
Proof.
  induction l as [|p l IH] using rev_ind; intros H; [right; right; split; [reflexivity|cbn; lra]|]. rewrite accumulate_app. apply fadd_lost.
  - apply IH. intros q Hq. apply H. apply in_or_app. left. exact Hq.
  - rewrite (H p) by (apply in_or_app; right; left; reflexivity). apply square_lost.
Qed.
Lemma abs_sum_app l p : abs_sum (l ++ [p]) = abs_sum l + Rabs (B2R (fst p) * B2R (snd p)).
Proof. induction l as [|q l IH]; [cbn [app]; rewrite abs_sum_cons; unfold abs_sum; cbn; ring|]. cbn [app]. rewrite !abs_sum_cons, IH. ring. Qed.
Lemma exact_diagonal l : diagonal l -> exact_sum l = abs_sum l.
Proof.
  induction l as [|p l IH]; intros H; [reflexivity|]. rewrite exact_sum_cons, abs_sum_cons, IH by (intros q Hq; apply H; right; exact Hq). f_equal. symmetry. apply Rabs_pos_eq. rewrite (H p (or_introl eq_refl)). apply Rle_0_sqr.
Qed.
Lemma squares_ok l : diagonal l -> INR (length l) <= bpow radix2 20 -> is_finite (accumulate l dzero) = true -> B2R (accumulate l dzero) <= bpow radix2 980 ->
  List.Forall (fun p => is_finite (fst p) = true /\ is_finite (snd p) = true) l /\ abs_sum l <= bpow radix2 981.
Proof.
  induction l as [|p l IH] using rev_ind; intros D N F B; [split; [apply List.Forall_nil|change (abs_sum []) with 0; apply bpow_ge_0]|].
  assert (D' : diagonal l) by (intros q Hq; apply D; apply in_or_app; left; exact Hq). assert (Dp : fst p = snd p) by (apply D; apply in_or_app; right; left; reflexivity). destruct p as [q q']. cbn [fst snd] in Dp. subst q'.
  rewrite accumulate_app in F, B. cbn [fst snd] in F, B. destruct (fadd_finite _ _ F) as [Fa Fm]. destruct (fmul_finite _ _ Fm) as [Fq _].
  rewrite app_length, plus_INR in N. cbn [length] in N. change (INR 1) with 1 in N.
  destruct (accumulate_lost l D') as [E|[E|[_ Pa]]]; [rewrite E in Fa; discriminate|rewrite E in Fa; discriminate|]. destruct (square_lost q) as [E|[E|[_ Pm]]]; [rewrite E in Fm; discriminate|rewrite E in Fm; discriminate|].
  destruct (fadd_cases _ _ Fa Fm) as [(_ & Es & _)|(_ & E & _)]; [|rewrite E in F; discriminate]. rewrite Es in B.
  assert (Ba : B2R (accumulate l dzero) <= bpow radix2 980). { eapply Rle_trans; [|exact B]. rewrite <- (rnd64_id (accumulate l dzero)) at 1. apply rnd64_le. lra. }
  assert (Bm : B2R (fmul q q) <= bpow radix2 980). { eapply Rle_trans; [|exact B]. rewrite <- (rnd64_id (fmul q q)) at 1. apply rnd64_le. lra. }
  destruct (IH D' ltac:(lra) Fa Ba) as [G S]. assert (FA : List.Forall (fun p => is_finite (fst p) = true /\ is_finite (snd p) = true) (l ++ [(q, q)])) by (apply List.Forall_app; split; [exact G|apply List.Forall_cons; [split; exact Fq|apply List.Forall_nil]]).
  split; [exact FA|].
  destruct (fmul_cases q q Fq Fq) as [(_ & Em & _)|(_ & E)]; [|rewrite E in Fm; discriminate]. rewrite Em in Bm. pose proof (Rle_0_sqr (B2R q)) as Q0. unfold Rsqr in Q0.
  assert (E81 : bpow radix2 981 = 2 * bpow radix2 980) by (change 981%Z with (1 + 980)%Z; rewrite bpow_plus; reflexivity). pose proof (bpow_gt_0 radix2 980) as P80.
  assert (Q : B2R q * B2R q <= bpow radix2 981). { destruct (Rle_lt_dec (B2R q * B2R q) (bpow radix2 981)) as [|C]; [assumption|exfalso]. assert (bpow radix2 981 <= rnd64 (B2R q * B2R q)) by (rewrite <- rnd64_bpow by lia; apply rnd64_le; lra). lra. }
  assert (SA : abs_sum (l ++ [(q, q)]) <= 2 * bpow radix2 981). { rewrite abs_sum_app. cbn [fst snd]. rewrite Rabs_pos_eq by exact Q0. lra. }
  destruct (accumulate_close (l ++ [(q, q)]) dzero 0 0 0) as [_ C]; try lra.
  - rewrite app_length, plus_INR. cbn [length]. change (INR 1) with 1. lra.
  - exact FA.
  - reflexivity.
  - rewrite Rabs_R0. lra.
  - apply Rle_trans with (bpow radix2 1 * bpow radix2 981); [change (bpow radix2 1) with 2; lra|]. rewrite <- bpow_plus. apply bpow_le. lia.
  - cbn. rewrite Rminus_eq_0, Rabs_R0. lra.
  - rewrite (exact_diagonal _ D), accumulate_app, app_length, plus_INR, !Rplus_0_l in C. cbn [fst snd length] in C. change (INR 1) with 1 in C. rewrite Es in C. apply Rabs_le_inv in C.
    set (N1 := INR (length l) + 1) in *. assert (N0 : 0 <= N1) by (unfold N1; pose proof (pos_INR (length l)); lra). small_u. set (a := abs_sum (l ++ [(q, q)])) in *. pose proof (abs_sum_nonneg (l ++ [(q, q)])) as a0. fold a in a0.
    assert (N2 : N1 <= 1048576) by exact N. assert (3 * N1 * u <= / 1000000). { apply Rle_trans with (3 * 1048576 * / 9000000000000000); [apply Rmult_le_compat; lra|lra]. }
    assert (3 * N1 * u * a <= / 1000000 * a) by (apply Rmult_le_compat_r; lra).
    assert (h1 : bpow radix2 (-1074) <= 1) by (change 1 with (bpow radix2 0); apply bpow_le; lia). pose proof (bpow_gt_0 radix2 (-1074)). assert (2 * N1 * bpow radix2 (-1074) <= 2 * 1048576 * 1) by (apply Rmult_le_compat; lra).
    assert (4000000 <= bpow radix2 980 / 4). { assert (bpow radix2 24 <= bpow radix2 980) by (apply bpow_le; lia). change (bpow radix2 24) with 16777216 in *. lra. }
    lra.
Qed.

(** ** one entry *)
Lemma rnd64_err m : exists e h, Rabs e <= u /\ Rabs h <= bpow radix2 (-1074) /\ rnd64 m = m * (1 + e) + h.
Proof.
  destruct (error_N_FLT radix2 (-1074) 53 ltac:(lia) (fun t => negb (Z.even t)) m) as (e & h & He & Hh & _ & Er). exists e, h. split; [|split; [|exact Er]].
  - eapply Rle_trans; [exact He|]. unfold u. change (/ 2) with (bpow radix2 (-1)). rewrite <- bpow_plus. right. reflexivity.
  - pose proof (bpow_ge_0 radix2 (-1074)). lra.
Qed.
Lemma entry_num (a : dbl) x y : length x = length y -> INR (length x) <= bpow radix2 20 -> List.Forall (fun v => is_finite v = true) x -> List.Forall (fun v => is_finite v = true) y ->
  inner_abs x y <= bpow radix2 981 -> is_finite a = true -> Rabs (B2R a) <= bpow radix2 980 ->
  is_finite (fsub a (seq_dot x y)) = true /\
  Rabs (B2R (fsub a (seq_dot x y)) + inner x y - B2R a) <= units (4 * INR (length x)) * inner_abs x y + INR (length x) * bpow radix2 (-1070) + 2 * u * Rabs (B2R (fsub a (seq_dot x y))).
Proof.
  intros L N Fx Fy I Fa Ba. assert (I' : inner_abs x y <= bpow radix2 990) by (eapply Rle_trans; [exact I|apply bpow_le; lia]).
  destruct (mm_close _ seq_dot_good 0%nat 0%nat x y L Fx Fy N I') as [Fd Ed]. set (d := seq_dot x y) in *. set (E := units (4 * INR (length x)) * inner_abs x y + INR (length x) * bpow radix2 (-1070)) in *.
  assert (I0 : 0 <= inner_abs x y) by (unfold inner_abs; apply rsum_nonneg; intros; apply Rabs_pos). assert (I1 : Rabs (inner x y) <= inner_abs x y) by (unfold inner, inner_abs; apply rsum_Rabs).
  small_u. pose proof (pos_INR (length x)) as N0. assert (N1 : INR (length x) <= 1048576) by exact N.
  assert (EB : E <= bpow radix2 981). { unfold E. rewrite units_u. assert (4 * INR (length x) * u <= / 1000000). { apply Rle_trans with (4 * 1048576 * / 9000000000000000); [apply Rmult_le_compat; lra|lra]. }
    assert (4 * INR (length x) * u * inner_abs x y <= / 1000000 * inner_abs x y) by (apply Rmult_le_compat_r; lra).
    assert (h1 : bpow radix2 (-1070) <= 1) by (change 1 with (bpow radix2 0); apply bpow_le; lia). pose proof (bpow_gt_0 radix2 (-1070)). assert (INR (length x) * bpow radix2 (-1070) <= 1048576 * 1) by (apply Rmult_le_compat; lra).
    assert (bpow radix2 24 <= bpow radix2 981) by (apply bpow_le; lia). change (bpow radix2 24) with 16777216 in *. lra. }
  assert (E80 : bpow radix2 980 <= bpow radix2 981) by (apply bpow_le; lia). assert (E1000 : 4 * bpow radix2 981 <= bpow radix2 1000). { change 4 with (bpow radix2 2). rewrite <- bpow_plus. apply bpow_le. lia. }
  destruct (fsub_rel a d Fa Fd) as [Fs Es].
  { replace (B2R a - B2R d) with (B2R a - inner x y - (B2R d - inner x y)) by ring. eapply Rle_trans; [apply Rabs_triang|]. rewrite Rabs_Ropp. assert (Rabs (B2R a - inner x y) <= Rabs (B2R a) + Rabs (inner x y)) by (eapply Rle_trans; [apply Rabs_triang|rewrite Rabs_Ropp; lra]). lra. }
  split; [exact Fs|]. set (m := B2R (fsub a d)) in *. set (q := B2R a - B2R d) in *.
  assert (Q : Rabs q <= 2 * Rabs m). { assert (Rabs q <= Rabs m + Rabs (m - q)). { replace q with (m + - (m - q)) at 1 by ring. eapply Rle_trans; [apply Rabs_triang|]. rewrite Rabs_Ropp. lra. } pose proof (Rabs_pos q). assert (u * Rabs q <= / 2 * Rabs q) by (apply Rmult_le_compat_r; lra). lra. }
  replace (m + inner x y - B2R a) with ((m - q) + - (B2R d - inner x y)) by (unfold q; ring). eapply Rle_trans; [apply Rabs_triang|]. rewrite Rabs_Ropp. assert (u * Rabs q <= 2 * u * Rabs m) by (replace (2 * u * Rabs m) with (u * (2 * Rabs m)) by ring; apply Rmult_le_compat_l; lra). lra.
Qed.
Lemma entry_quot (num c : dbl) : is_finite num = true -> is_finite (fdiv num c) = true -> 0 < B2R c ->
  Rabs (B2R (fdiv num c) * B2R c - B2R num) <= 2 * u * Rabs (B2R (fdiv num c) * B2R c) + bpow radix2 (-1073) * B2R c.
Proof.
  intros Fn Ff P. destruct (fdiv_cases num c Fn ltac:(lra)) as [(_ & E & _)|(_ & E)]; [|rewrite E in Ff; discriminate]. rewrite E. destruct (rnd64_err (B2R num / B2R c)) as (e & h & He & Hh & Er). set (m := B2R num / B2R c) in *. set (f := rnd64 m) in *.
  assert (Em : B2R num = m * B2R c) by (unfold m; field; lra). rewrite Em. replace (f * B2R c - m * B2R c) with ((f - m) * B2R c) by ring. rewrite !Rabs_mult, (Rabs_pos_eq (B2R c)) by lra.
  replace (2 * u * (Rabs f * B2R c) + bpow radix2 (-1073) * B2R c) with ((2 * u * Rabs f + bpow radix2 (-1073)) * B2R c) by ring. apply Rmult_le_compat_r; [lra|].
  assert (D : Rabs (f - m) <= u * Rabs m + bpow radix2 (-1074)). { rewrite Er. replace (m * (1 + e) + h - m) with (e * m + h) by ring. eapply Rle_trans; [apply Rabs_triang|]. rewrite Rabs_mult. assert (Rabs e * Rabs m <= u * Rabs m) by (apply Rmult_le_compat_r; [apply Rabs_pos|exact He]). lra. }
  assert (M : Rabs m <= Rabs f + Rabs (f - m)). { replace m with (f + - (f - m)) at 1 by ring. eapply Rle_trans; [apply Rabs_triang|]. rewrite Rabs_Ropp. lra. }
  small_u. replace (bpow radix2 (-1073)) with (2 * bpow radix2 (-1074)) by (change 2 with (bpow radix2 1); rewrite <- bpow_plus; reflexivity). set (h0 := bpow radix2 (-1074)) in *. assert (hp : 0 < h0) by apply bpow_gt_0. pose proof (Rabs_pos m). pose proof (Rabs_pos f).
  assert (u * Rabs m <= / 4 * Rabs m) by (apply Rmult_le_compat_r; lra). assert (M2 : Rabs m <= 3 / 2 * Rabs f + 3 / 2 * h0) by lra. apply Rmult_le_compat_l with (r := u) in M2; [|lra]. assert (u * h0 <= / 4 * h0) by (apply Rmult_le_compat_r; lra). assert (0 <= u * Rabs f) by (apply Rmult_le_pos; lra). lra.
Qed.
Lemma entry_sqrt (p : dbl) : is_finite p = true -> 0 < B2R p -> Rabs (B2R (fsqrt p) * B2R (fsqrt p) - B2R p) <= 3 * u * (B2R (fsqrt p) * B2R (fsqrt p)) /\ B2R p <= 2 * (B2R (fsqrt p) * B2R (fsqrt p)).
Proof.
  intros F P. destruct (fsqrt_close p F P) as (_ & c0 & C). pose proof (sqrt_sqrt (B2R p) ltac:(lra)) as S. assert (r0 : 0 < sqrt (B2R p)) by (apply sqrt_lt_R0; exact P). set (r := sqrt (B2R p)) in *. set (c := B2R (fsqrt p)) in *. small_u.
  assert (K : Rabs (c * c - B2R p) <= 21 / 10 * u * B2R p). { rewrite <- S. replace (c * c - r * r) with ((c - r) * (c + r)) by ring. rewrite Rabs_mult, (Rabs_pos_eq (c + r)) by lra. apply Rabs_le_inv in C. assert (c + r <= 21 / 10 * r). { assert (u * r <= / 100 * r) by (apply Rmult_le_compat_r; lra). lra. }
    apply Rle_trans with (u * r * (21 / 10 * r)); [|right; ring]. apply Rmult_le_compat; [apply Rabs_pos|lra|apply Rabs_le; exact C|assumption]. }
  assert (K2 : 21 / 10 * u * B2R p <= / 100 * B2R p) by (apply Rmult_le_compat_r; lra). assert (Pc : B2R p <= 11 / 10 * (c * c)) by (apply Rabs_le_inv in K; lra). split; [|lra].
  eapply Rle_trans; [exact K|]. apply Rmult_le_compat_l with (r := 21 / 10 * u) in Pc; [|lra]. assert (0 <= u * (c * c)) by (apply Rmult_le_pos; [lra|apply Rle_0_sqr]). lra.
Qed.

(** ** the loop, unfolded *)
Section Loop.
Context (A : nat -> nat -> double) (n : nat).
Notation F := (fcholL A n).
Definition frow_of (i c : nat) : list double := map (fcholL A n i) (seq 0 c).
Notation row := frow_of.
Lemma fcholL_stable c : forall d i k, (k < c)%nat -> fcholL A (d + c) i k = fcholL A c i k.
Proof. induction d as [|d IH]; intros i k H; [reflexivity|]. cbn [plus fcholL]. destruct (Nat.eqb_spec k (d + c)); [lia|]. apply IH. exact H. Qed.
Lemma stable c i k : (k < c)%nat -> (c <= n)%nat -> fcholL A c i k = F i k.
Proof. intros H1 H2. replace n with (n - c + c)%nat by lia. symmetry. apply fcholL_stable. exact H1. Qed.
Lemma row_stable c i : (c <= n)%nat -> map (fcholL A c i) (seq 0 c) = row i c.
Proof. intros H. apply map_ext_in. intros k Hk. apply in_seq in Hk. apply stable; lia. Qed.
Lemma pivot_row j : (j <= n)%nat -> fpivot A j = fsub (A j j) (seq_dot (row j j) (row j j)).
Proof. intros H. unfold fpivot. rewrite (row_stable j j) by exact H. reflexivity. Qed.
Lemma F_diag j : (j < n)%nat -> F j j = fsqrt (fpivot A j).
Proof. apply fcholL_diag. Qed.
Lemma F_off i j : (j < i)%nat -> (j < n)%nat -> F i j = fdiv (fsub (A i j) (seq_dot (row i j) (row j j))) (F j j).
Proof.
  intros H1 H2. rewrite (F_diag j H2), (pivot_row j) by lia. rewrite <- (stable (S j) i j) by lia. cbn [fcholL]. rewrite Nat.eqb_refl. destruct (Nat.ltb_spec i j); [lia|]. destruct (Nat.eqb_spec i j); [lia|].
  rewrite !(row_stable j) by lia. reflexivity.
Qed.
Lemma row_length i c : length (row i c) = c. Proof. unfold frow_of. rewrite map_length, seq_length. reflexivity. Qed.
Lemma row_nth i c k : (k < c)%nat -> nth k (row i c) dzero = F i k.
Proof. intros H. unfold frow_of. rewrite (nth_indep _ dzero (F i 0%nat)) by (rewrite map_length, seq_length; exact H). rewrite map_nth, seq_nth by exact H. reflexivity. Qed.
Lemma row_inner i j c : inner (row i c) (row j c) = rsum c (fun k => B2R (F i k) * B2R (F j k)) /\ inner_abs (row i c) (row j c) = rsum c (fun k => Rabs (B2R (F i k) * B2R (F j k))).
Proof. unfold inner, inner_abs. rewrite row_length. split; apply rsum_ext; intros k Hk; rewrite !row_nth by exact Hk; reflexivity. Qed.
Lemma row_finite i c : (forall k, (k < c)%nat -> is_finite (F i k) = true) -> List.Forall (fun v => is_finite v = true) (row i c).
Proof. intros H. apply List.Forall_forall. intros v Hv. apply in_map_iff in Hv. destruct Hv as (k & <- & Hk). apply in_seq in Hk. apply H. lia. Qed.
Lemma F_upper i k : (i < k)%nat -> F i k = dzero. Proof. apply fcholL_upper. Qed.
Lemma self_diagonal i c : diagonal (combine (row i c) (row i c)).
Proof. intros [a b] H. destruct (In_nth _ _ (dzero, dzero) H) as (k & Hk & E). rewrite combine_nth in E by reflexivity. injection E as E1 E2. cbn. congruence. Qed.
Context (Hn : INR n <= bpow radix2 20) (HA : forall i j, (i < n)%nat -> (j < n)%nat -> is_finite (A i j) = true /\ Rabs (B2R (A i j)) <= bpow radix2 980).
Notation f := (fun i k => B2R (fcholL A n i k)).
Lemma pivot_good i : (i < n)%nat -> positive (fpivot A i) ->
  (forall k, (k < i)%nat -> is_finite (F i k) = true) /\ rsum i (fun k => f i k * f i k) <= bpow radix2 981 /\ is_finite (fpivot A i) = true /\ 0 < B2R (fpivot A i).
Proof.
  intros Hi P. destruct (HA i i Hi Hi) as [Fa Ba]. assert (Hp : fpivot A i = fsub (A i i) (seq_dot (row i i) (row i i))) by (apply pivot_row; lia). rewrite Hp in *. set (D := seq_dot (row i i) (row i i)) in *.
  assert (FD : is_finite D = true /\ 0 <= B2R D).
  { destruct (accumulate_lost _ (self_diagonal i i)) as [E|[E|E]]; fold (seq_dot (row i i) (row i i)) in E; fold D in E; [exfalso|exfalso|exact E]; rewrite E in P; destruct (A i i) as [s|s| |s m e H]; try discriminate; destruct P as [P|[P _]]; discriminate. }
  destruct FD as [FD D0].
  assert (X : is_finite (fsub (A i i) D) = true /\ 0 < B2R (fsub (A i i) D) /\ B2R D <= bpow radix2 980).
  { destruct (fsub_cases _ _ Fa FD) as [(_ & E & G & _)|(B & E & S)].
    - destruct P as [P|[_ P]]; [rewrite P in G; discriminate|]. split; [exact G|]. split; [exact P|]. rewrite E in P. apply Rabs_le_inv in Ba.
      destruct (Rle_lt_dec (B2R (A i i) - B2R D) 0) as [C|C]; [apply rnd64_le in C; rewrite rnd64_0 in C; lra|lra].
    - exfalso. rewrite E in P. destruct P as [P|[P _]]; [|discriminate]. injection P as P. rewrite P in S. symmetry in S. apply negb_false_iff in S. pose proof (sign_true D FD S). assert (Z : B2R D = 0) by lra. rewrite Z, Rminus_0_r in B. pose proof (rnd64_fin _ 980 ltac:(lia) Ba). lra. }
  destruct X as (X1 & X2 & X3). destruct (squares_ok _ (self_diagonal i i)) as [G S].
  - rewrite combine_length, row_length, Nat.min_id. eapply Rle_trans; [apply le_INR|exact Hn]. lia.
  - exact FD.
  - exact X3.
  - split; [|split; [|split; assumption]].
    + intros k Hk. rewrite List.Forall_forall in G. destruct (G (F i k, F i k)) as [H _]; [|exact H]. rewrite <- (row_nth i i k Hk) at 1 2. rewrite <- combine_nth by reflexivity. apply nth_In. rewrite combine_length, row_length, Nat.min_id. exact Hk.
    + destruct (combine_sums (row i i) (row i i) eq_refl) as [_ E]. rewrite E in S. rewrite (proj2 (row_inner i i i)) in S. eapply Rle_trans; [|exact S]. apply rsum_le. intros k Hk. apply Rle_abs.
Qed.
Lemma sums_bound i j c : rsum c (fun k => f i k * f i k) <= bpow radix2 981 -> rsum c (fun k => f j k * f j k) <= bpow radix2 981 -> rsum c (fun k => Rabs (f i k * f j k)) <= bpow radix2 981.
Proof.
  intros H1 H2. apply Rle_trans with (/ 2 * rsum c (fun k => f i k * f i k) + / 2 * rsum c (fun k => f j k * f j k)); [|lra]. rewrite <- !rsum_scal_l, <- rsum_plus. apply rsum_le. intros k Hk. set (a := f i k). set (b := f j k).
  rewrite Rabs_mult. assert (0 <= (Rabs a - Rabs b) * (Rabs a - Rabs b)) by apply Rle_0_sqr. assert (a * a = Rabs a * Rabs a) by (rewrite <- Rabs_mult, Rabs_pos_eq by apply Rle_0_sqr; reflexivity). assert (b * b = Rabs b * Rabs b) by (rewrite <- Rabs_mult, Rabs_pos_eq by apply Rle_0_sqr; reflexivity). lra.
Qed.
Lemma eps_split j : (j < n)%nat -> units (4 * INR j) + 32 * u <= eps n /\ INR j * bpow radix2 (-1070) <= / 2 * bpow radix2 (-1040).
Proof.
  intros Hj. assert (INR j <= INR n) by (apply le_INR; lia). unfold eps. rewrite !units_u. small_u. split.
  - rewrite <- Rmult_plus_distr_r. apply Rmult_le_compat_r; lra.
  - apply Rle_trans with (bpow radix2 20 * bpow radix2 (-1070)); [apply Rmult_le_compat_r; [apply bpow_ge_0|lra]|]. change (/ 2) with (bpow radix2 (-1)). rewrite <- !bpow_plus. apply bpow_le. lia.
Qed.
(** the numerator of an entry *)
Notation num i j := (fsub (A i j) (seq_dot (row i j) (row j j))).
Lemma num_close i j : (j <= i)%nat -> (i < n)%nat -> (forall k, (k < j)%nat -> is_finite (F i k) = true) -> (forall k, (k < j)%nat -> is_finite (F j k) = true) ->
  rsum j (fun k => f i k * f i k) <= bpow radix2 981 -> rsum j (fun k => f j k * f j k) <= bpow radix2 981 ->
  is_finite (num i j) = true /\ Rabs (B2R (num i j) + rsum j (fun k => f i k * f j k) - B2R (A i j)) <= units (4 * INR j) * rsum j (fun k => Rabs (f i k * f j k)) + INR j * bpow radix2 (-1070) + 2 * u * Rabs (B2R (num i j)).
Proof.
  intros Hj Hi Fi Fj Si Sj. destruct (HA i j Hi ltac:(lia)) as [Fa Ba]. destruct (row_inner i j j) as [E1 E2].
  destruct (entry_num (A i j) (row i j) (row j j)) as [G H]; rewrite ?row_length; auto.
  - eapply Rle_trans; [apply le_INR|exact Hn]. lia.
  - apply row_finite. exact Fi.
  - apply row_finite. exact Fj.
  - rewrite E2. apply sums_bound; assumption.
  - rewrite row_length, E1, E2 in H. split; [exact G|exact H].
Qed.
Lemma diag_eq j : (j < n)%nat -> positive (fpivot A j) ->
  is_finite (F j j) = true /\ 0 < f j j /\ Rabs (rsum j (fun k => f j k * f j k) + f j j * f j j - B2R (A j j)) <= eps n * (rsum j (fun k => Rabs (f j k * f j k)) + Rabs (f j j * f j j)) + bpow radix2 (-1040).
Proof.
  intros Hj P. destruct (pivot_good j Hj P) as (Fr & S & Fp & Pp). destruct (num_close j j (le_n j) Hj Fr Fr S S) as [_ H]. rewrite <- (pivot_row j) in H by lia.
  destruct (fsqrt_close _ Fp Pp) as (Fc & c0 & _). destruct (entry_sqrt _ Fp Pp) as [Q1 Q2]. rewrite <- (F_diag j Hj) in Fc, c0, Q1, Q2. cbv beta. split; [exact Fc|]. split; [exact c0|].
  set (c := B2R (F j j)) in *. set (p := B2R (fpivot A j)) in *. rewrite (Rabs_pos_eq p) in H by lra. destruct (eps_split j Hj) as [e1 e2]. small_u. assert (cc : 0 <= c * c) by apply Rle_0_sqr. rewrite (Rabs_pos_eq (c * c)) by exact cc.
  set (Z := rsum j (fun k => f j k * f j k)) in *. set (Y := rsum j (fun k => Rabs (f j k * f j k))) in *. assert (Y0 : 0 <= Y) by (apply rsum_nonneg; intros; apply Rabs_pos). pose proof (bpow_gt_0 radix2 (-1040)).
  replace (Z + c * c - B2R (A j j)) with ((p + Z - B2R (A j j)) + (c * c - p)) by ring. eapply Rle_trans; [apply Rabs_triang|].
  assert (U0 : 0 <= units (4 * INR j)) by (rewrite units_u; pose proof (pos_INR j); apply Rmult_le_pos; lra).
  assert (units (4 * INR j) * Y <= eps n * Y) by (apply Rmult_le_compat_r; lra). assert (32 * u * (c * c) <= eps n * (c * c)) by (apply Rmult_le_compat_r; lra).
  apply Rmult_le_compat_l with (r := u) in Q2; [|lra]. assert (0 <= u * (c * c)) by (apply Rmult_le_pos; lra). lra.
Qed.
(** an entry below the diagonal, before the quotient is rounded *)
Lemma off_virtual i j : (j < i)%nat -> (i < n)%nat -> positive (fpivot A j) -> (forall k, (k < j)%nat -> is_finite (F i k) = true) -> rsum j (fun k => f i k * f i k) <= bpow radix2 981 ->
  is_finite (num i j) = true /\ let r := B2R (num i j) / f j j in
  Rabs (rsum j (fun k => f i k * f j k) + r * f j j - B2R (A i j)) <= eps n * (rsum j (fun k => Rabs (f i k * f j k)) + Rabs (r * f j j)) + bpow radix2 (-1040).
Proof.
  intros Hj Hi P Fi Si. destruct (pivot_good j ltac:(lia) P) as (Fr & S & _ & _). destruct (diag_eq j ltac:(lia) P) as (_ & c0 & _). destruct (num_close i j ltac:(lia) Hi Fi Fr Si S) as [G H]. split; [exact G|]. intros r. cbv beta in *.
  assert (E : r * B2R (F j j) = B2R (num i j)) by (unfold r; field; lra). rewrite E. set (m := B2R (num i j)) in *. destruct (eps_split j ltac:(lia)) as [e1 e2]. small_u.
  set (Z := rsum j (fun k => f i k * f j k)) in *. set (Y := rsum j (fun k => Rabs (f i k * f j k))) in *. assert (Y0 : 0 <= Y) by (apply rsum_nonneg; intros; apply Rabs_pos). pose proof (bpow_gt_0 radix2 (-1040)). pose proof (Rabs_pos m).
  assert (U0 : 0 <= units (4 * INR j)) by (rewrite units_u; pose proof (pos_INR j); apply Rmult_le_pos; lra).
  assert (units (4 * INR j) * Y <= eps n * Y) by (apply Rmult_le_compat_r; lra). assert (32 * u * Rabs m <= eps n * Rabs m) by (apply Rmult_le_compat_r; lra). assert (0 <= u * Rabs m) by (apply Rmult_le_pos; lra).
  rewrite (Rplus_comm Z m). lra.
Qed.
Lemma off_eq i j : (j < i)%nat -> (i < n)%nat -> positive (fpivot A j) -> (forall k, (k < j)%nat -> is_finite (F i k) = true) -> rsum j (fun k => f i k * f i k) <= bpow radix2 981 -> is_finite (F i j) = true ->
  Rabs (rsum j (fun k => f i k * f j k) + f i j * f j j - B2R (A i j)) <= eps n * (rsum j (fun k => Rabs (f i k * f j k)) + Rabs (f i j * f j j)) + bpow radix2 (-1040) * (1 + f j j).
Proof.
  intros Hj Hi P Fi Si Fij. destruct (pivot_good j ltac:(lia) P) as (Fr & S & _ & _). destruct (diag_eq j ltac:(lia) P) as (_ & c0 & _). destruct (num_close i j ltac:(lia) Hi Fi Fr Si S) as [G H].
  pose proof (F_off i j Hj ltac:(lia)) as E. rewrite E in Fij. pose proof (entry_quot _ _ G Fij c0) as Q. rewrite <- E in Q. cbv beta in *. set (m := B2R (num i j)) in *. set (c := B2R (F j j)) in *. set (w := B2R (F i j)) in *.
  destruct (eps_split j ltac:(lia)) as [e1 e2]. small_u.
  set (Z := rsum j (fun k => f i k * f j k)) in *. set (Y := rsum j (fun k => Rabs (f i k * f j k))) in *. assert (Y0 : 0 <= Y) by (apply rsum_nonneg; intros; apply Rabs_pos). pose proof (Rabs_pos m) as m0. pose proof (Rabs_pos (w * c)) as wc0.
  assert (U0 : 0 <= units (4 * INR j)) by (rewrite units_u; pose proof (pos_INR j); apply Rmult_le_pos; lra).
  assert (units (4 * INR j) * Y <= eps n * Y) by (apply Rmult_le_compat_r; lra). assert (32 * u * Rabs (w * c) <= eps n * Rabs (w * c)) by (apply Rmult_le_compat_r; lra).
  assert (T : bpow radix2 (-1073) * c <= / 4 * (bpow radix2 (-1040) * c)). { rewrite <- Rmult_assoc. apply Rmult_le_compat_r; [lra|]. change (/ 4) with (bpow radix2 (-2)). rewrite <- bpow_plus. apply bpow_le. lia. }
  set (t := bpow radix2 (-1040)) in *. assert (t0 : 0 < t) by apply bpow_gt_0. assert (tc : 0 <= t * c) by (apply Rmult_le_pos; lra). set (h := bpow radix2 (-1073)) in *.
  assert (M : Rabs m <= 2 * Rabs (w * c) + t * c). { assert (Rabs m <= Rabs (w * c) + Rabs (w * c - m)). { replace m with (w * c + - (w * c - m)) at 1 by ring. eapply Rle_trans; [apply Rabs_triang|]. rewrite Rabs_Ropp. lra. } assert (u * Rabs (w * c) <= / 4 * Rabs (w * c)) by (apply Rmult_le_compat_r; lra). lra. }
  apply Rmult_le_compat_l with (r := u) in M; [|lra]. assert (u * (t * c) <= / 8 * (t * c)) by (apply Rmult_le_compat_r; lra). assert (0 <= u * Rabs (w * c)) by (apply Rmult_le_pos; lra).
  replace (Z + w * c - B2R (A i j)) with ((m + Z - B2R (A i j)) + (w * c - m)) by ring. eapply Rle_trans; [apply Rabs_triang|]. lra.
Qed.
End Loop.

Lemma rsum_prefix j i (g : nat -> R) : (j <= i)%nat -> (forall k, 0 <= g k) -> rsum j g <= rsum i g.
Proof. intros H P. replace i with (j + (i - j))%nat by lia. rewrite rsum_split. pose proof (rsum_nonneg (i - j) (fun k => g (j + k)%nat) ltac:(intros; apply P)). lra. Qed.
Theorem textbook_cholesky_close : cholesky_close textbook_cholesky.
Proof.
  intros n M c S Hn HA H. unfold textbook_cholesky in H. rewrite S, Nat.eqb_refl in H. cbn [negb] in H. destruct (forallb _ _) eqn:Q; [|discriminate]. injection H as <-.
  assert (P : forall i, (i < n)%nat -> positive (fpivot (mget dzero M) i)). { intros i Hi. rewrite forallb_forall in Q. apply fpositive_spec. apply Q. apply in_seq. lia. }
  set (A := mget dzero M) in *. assert (HA' : forall i j, (i < n)%nat -> (j < n)%nat -> is_finite (A i j) = true /\ Rabs (B2R (A i j)) <= bpow radix2 980) by (intros i j Hi Hj; destruct (HA i j Hi Hj) as (X & Y & _); auto).
  intros i j Hji Hi. assert (Hj : (j < n)%nat) by lia. rewrite !mget_mk_mat by lia.
  rewrite (rsum_ext n (fun k => B2R (mget dzero (mk_mat n n (fcholL A n)) i k) * B2R (mget dzero (mk_mat n n (fcholL A n)) j k)) (fun k => B2R (fcholL A n i k) * B2R (fcholL A n j k))) by (intros k Hk; rewrite !mget_mk_mat by lia; reflexivity).
  rewrite (rsum_ext n (fun k => Rabs (B2R (mget dzero (mk_mat n n (fcholL A n)) i k) * B2R (mget dzero (mk_mat n n (fcholL A n)) j k))) (fun k => Rabs (B2R (fcholL A n i k) * B2R (fcholL A n j k)))) by (intros k Hk; rewrite !mget_mk_mat by lia; reflexivity).
  rewrite (rsum_upto n j (fun k => B2R (fcholL A n i k) * B2R (fcholL A n j k))) by (try exact Hj; intros k Hk Hjk; rewrite (fcholL_upper A n j k Hjk); cbn; ring).
  rewrite (rsum_upto n j (fun k => Rabs (B2R (fcholL A n i k) * B2R (fcholL A n j k)))) by (try exact Hj; intros k Hk Hjk; rewrite (fcholL_upper A n j k Hjk); cbn; rewrite Rmult_0_r, Rabs_R0; reflexivity).
  destruct (diag_eq A n Hn HA' j Hj (P j Hj)) as (Fj & c0 & D). destruct (Nat.eq_dec i j) as [->|N].
  - split; [exact Fj|]. eapply Rle_trans; [exact D|]. pose proof (bpow_gt_0 radix2 (-1040)). assert (0 <= bpow radix2 (-1040) * B2R (fcholL A n j j)) by (apply Rmult_le_pos; lra). lra.
  - destruct (pivot_good A n Hn HA' i Hi (P i Hi)) as (Fi & Si & _). split; [apply Fi; lia|]. apply off_eq; auto; try lia; [intros k Hk; apply Fi; lia| |apply Fi; lia].
    eapply Rle_trans; [|exact Si]. apply rsum_prefix; [lia|]. intros; apply Rle_0_sqr.
Qed.
