(** Proofs about multinoulli_entropy in binary64. *)
From Coq Require Import Reals ZArith List Lra Lia Psatz Bool Permutation.
From Flocq Require Import Core BinarySingleNaN Relative.
From Verif Require Import Res Nd RSum ModelNumpy SpecFloat SpecFloatSimplex SpecFloatAcc SpecFloatMatrix SpecFloatFam SpecFloatEntropy ModelFloat ModelFloatFamilies ModelFloatEntropy
  LemmasPosDef LemmasNumpy LemmasFloat LemmasFloat2 LemmasFloat3 LemmasFloat4 LemmasFloatSimplex LemmasFloatSimplex2 LemmasFloatSimplex4 LemmasFloatAcc LemmasFloatAcc2 LemmasFloatFam LemmasFloatFam6 LemmasFloatFam7.
From Verif Require Import SpecFloatFam.
Import List ListNotations.
Set Bullet Behavior "Strict Subproofs".
Open Scope R_scope.

(** ** sums of numbers that are not positive *)
Lemma fadd_args (x y : dbl) : is_finite (fadd x y) = true -> is_finite x = true /\ is_finite y = true.
Proof. destruct x as [sx|sx| |sx mx ex bx], y as [sy|sy| |sy my ey by_]; intros H; try (split; reflexivity); try discriminate; destruct sx, sy; discriminate. Qed.
Lemma rnd64_neg x : rnd64 (- x) = - rnd64 x. Proof. apply round_NE_opp. Qed.
Lemma sum_opp l s : sum_of l s -> exists s', sum_of (map (fun x => Bopp x) l) s' /\ (is_finite s' = true -> is_finite s = true /\ B2R s = - B2R s').
Proof.
  induction 1 as [|x|l l1 l2 a b P S1 IH1 S2 IH2].
  - exists (B754_zero false). split; [constructor|]. intros _. split; [reflexivity|]. cbn. ring.
  - exists (Bopp x). split; [constructor|]. rewrite is_finite_Bopp, B2R_Bopp. intros F. split; [exact F|ring].
  - destruct IH1 as (a' & Ta & Ka). destruct IH2 as (b' & Tb & Kb). exists (fadd a' b'). split.
    { apply sum_add with (map (fun x => Bopp x) l1) (map (fun x => Bopp x) l2); [rewrite <- map_app; apply Permutation_map; exact P|exact Ta|exact Tb]. }
    intros F. destruct (fadd_args _ _ F) as [Fa Fb]. destruct (Ka Fa) as [Ga Ea]. destruct (Kb Fb) as [Gb Eb]. change (Bplus mode_NE a b) with (fadd a b).
    destruct (fadd_cases a' b' Fa Fb) as [(B' & E' & _)|(_ & E' & _)]; [|rewrite E' in F; discriminate].
    assert (R : rnd64 (B2R a + B2R b) = - rnd64 (B2R a' + B2R b')) by (rewrite Ea, Eb, <- rnd64_neg; f_equal; ring).
    destruct (fadd_cases a b Ga Gb) as [(_ & E & G & _)|(A & _)]; [split; [exact G|rewrite E, E'; exact R]|rewrite R, Rabs_Ropp in A; lra].
Qed.

(** ** one term *)
Lemma ln_ratio x y k : 0 < y -> 0 <= k <= / 1000 -> Rabs (x - y) <= k * y -> Rabs (ln x - ln y) <= 2 * k.
Proof.
  intros Hy K H. apply Rabs_le_inv in H. assert (k * y <= / 1000 * y) by (apply Rmult_le_compat_r; lra). assert (Hx : 0 < x) by lra.
  assert (L : forall a b, 0 < a -> 0 < b -> ln a - ln b <= a / b - 1).
  { intros a b Ha Hb. replace (ln a - ln b) with (ln (a / b)) by (unfold Rdiv; rewrite ln_mult by (try apply Rinv_0_lt_compat; assumption); rewrite ln_Rinv by exact Hb; ring).
    assert (P : 0 < a / b) by (apply Rdiv_lt_0_compat; assumption). pose proof (exp_ineq1_le (ln (a / b))) as E. rewrite exp_ln in E by exact P. lra. }
  pose proof (L x y Hx Hy) as L1. pose proof (L y x Hy Hx) as L2.
  assert (A : x / y - 1 <= k) by (apply Rmult_le_reg_r with y; [exact Hy|]; replace ((x / y - 1) * y) with (x - y) by (field; lra); lra).
  assert (B : y / x - 1 <= 2 * k) by (apply Rmult_le_reg_r with x; [exact Hx|]; replace ((y / x - 1) * x) with (y - x) by (field; lra); nra).
  apply Rabs_le. lra.
Qed.
Lemma ln_60 x : bpow radix2 (-60) <= x <= 1 + / 1000 -> Rabs (ln x) <= 60.
Proof.
  intros [A B]. pose proof (bpow_gt_0 radix2 (-60)). assert (L : ln (bpow radix2 (-60)) <= ln x) by (apply Rcomplements.ln_le; assumption). rewrite ln_bpow in L. pose proof ln_2_bound.
  assert (U : ln x <= 1). { rewrite <- (ln_exp 1). apply Rcomplements.ln_le; [lra|]. pose proof (exp_ineq1_le 1). lra. }
  apply Rabs_le. change (IZR (-60)) with (-60) in L. lra.
Qed.
Lemma surprise_shift p m : 0 <= p -> 0 < m -> Rabs (p * ln (p + m) + surprise p) <= m.
Proof.
  intros P M. unfold surprise. destruct (Req_EM_T p 0) as [->|N]; [rewrite Rmult_0_l, Rplus_0_l, Rabs_R0; lra|]. assert (0 < p) by lra.
  replace (p * ln (p + m) + - (p * ln p)) with (p * (ln (p + m) - ln p)) by ring. assert (L0 : 0 <= ln (p + m) - ln p) by (assert (ln p < ln (p + m)) by (apply ln_increasing; lra); lra).
  rewrite Rabs_pos_eq by (apply Rmult_le_pos; lra). replace (ln (p + m) - ln p) with (ln ((p + m) / p)) by (unfold Rdiv; rewrite ln_mult by (try apply Rinv_0_lt_compat; lra); rewrite ln_Rinv by lra; ring).
  assert (Q : 0 < (p + m) / p) by (apply Rdiv_lt_0_compat; lra). pose proof (exp_ineq1_le (ln ((p + m) / p))) as E. rewrite exp_ln in E by exact Q.
  apply Rle_trans with (p * ((p + m) / p - 1)); [apply Rmult_le_compat_l; lra|]. right. field. lra.
Qed.
Section Term.
Context (flog : dbl -> dbl) (Hl : log_good flog) (Hb : log_below flog) (mp : dbl) (Hm : negligible mp).
Lemma round_to_one x : 0 <= x <= 1 -> rnd64 (x + B2R mp) <= 1.
Proof using Hm.
  intros H. destruct Hm as [_ [_ M]]. assert (F1 : generic_format radix2 (FLT_exp (-1074) 53) 1) by (rewrite <- one_B2R; exact (generic_format_B2R 53 1024 f_one)).
  unfold rnd64. apply round_N_le_midp; [exact (@FLT_exp_valid (-1074) 53 prec53)|exact F1|]. rewrite succ_eq_pos by lra.
  assert (U : ulp radix2 (FLT_exp (-1074) 53) 1 = bpow radix2 (-52)).
  { rewrite ulp_neq_0 by lra. f_equal. unfold cexp, FLT_exp. change 1 with (bpow radix2 0) at 1. rewrite mag_bpow. lia. }
  rewrite U. replace (bpow radix2 (-52)) with (2 * bpow radix2 (-53)) by (change 2 with (bpow radix2 1) at 1; rewrite <- bpow_plus; reflexivity). lra.
Qed.
Lemma term p : probability p -> let t := fmul p (flog (fadd p mp)) in is_finite t = true /\ -64 * B2R p <= B2R t <= 0 /\ Rabs (- B2R t - surprise (B2R p)) <= 600 * (u * B2R p) + 2 * u /\ (B2R p = 0 \/ B2R p = 1 -> B2R t = 0).
Proof using Hl Hb Hm.
  intros [Fp [P0 P1]] t. pose proof Hm as [Fm [M0 M1]]. small_u. pose proof (bpow_gt_0 radix2 (-60)) as B60. assert (M1' : B2R mp < u) by exact M1. set (x := B2R p) in *. set (m := B2R mp) in *.
  assert (G : Rabs (rnd64 (x + m)) < bpow radix2 1024).
  { assert (0 <= rnd64 (x + m)) by (rewrite <- rnd64_0; apply rnd64_le; lra). rewrite Rabs_pos_eq by assumption. eapply Rle_lt_trans; [apply round_to_one; lra|exact one_lt_1024]. }
  destruct (fadd_cases p mp Fp Fm) as [(_ & Eq & Fq & _)|(C & _)]; [|fold x m in C; lra]. fold x m in Eq. set (q := fadd p mp) in *.
  assert (Q1 : B2R q <= 1) by (rewrite Eq; apply round_to_one; lra). assert (Q0 : bpow radix2 (-60) <= B2R q) by (rewrite Eq, <- (rnd64_bpow (-60)) by lia; apply rnd64_le; lra).
  assert (Qn : Rabs (B2R q - (x + m)) <= u * (x + m)) by (rewrite Eq; apply rnd64_near; apply Rle_trans with (bpow radix2 (-60)); [apply bpow_le; lia|lra]).
  assert (Fl : is_finite (flog q) = true) by (apply (log_finite _ (lg_ok _ Hl)); [exact Fq|lra]). assert (L0 : B2R (flog q) <= 0) by (apply Hb; [exact Fq|lra]).
  pose proof (lg_close _ Hl q Fq ltac:(lra)) as Lc. change (bpow radix2 (-50)) with eta in Lc. rewrite eta_u in Lc. pose proof (ln_60 (B2R q) ltac:(lra)) as L60.
  assert (Lr : Rabs (ln (B2R q) - ln (x + m)) <= 2 * u) by (apply ln_ratio; lra). set (l := B2R (flog q)) in *.
  assert (Le : Rabs (l - ln (B2R q)) <= 488 * u). { eapply Rle_trans; [exact Lc|]. assert (8 * u * (1 + Rabs (ln (B2R q))) <= 8 * u * 61) by (apply Rmult_le_compat_l; lra). lra. }
  assert (Lb : Rabs l <= 61). { replace l with ((l - ln (B2R q)) + ln (B2R q)) by ring. eapply Rle_trans; [apply Rabs_triang|]. lra. }
  assert (Bx : Rabs (x * l) <= 61 * x) by (rewrite Rabs_mult, (Rabs_pos_eq x) by lra; rewrite Rmult_comm; apply Rmult_le_compat_r; lra).
  destruct (fmul_rel p (flog q) Fp Fl) as (Ft & Et & Te); [fold x l; assert (64 <= bpow radix2 1000) by (apply Rle_trans with (bpow radix2 6); [change (bpow radix2 6) with 64; lra|apply bpow_le; lia]); lra|]. fold x l t in Te, Et. fold t in Ft.
  split; [exact Ft|]. assert (UB : u * Rabs (x * l) <= u * (61 * x)) by (apply Rmult_le_compat_l; lra). assert (UX : 0 <= u * x) by (apply Rmult_le_pos; lra). assert (UX2 : u * x <= / 1000 * x) by (apply Rmult_le_compat_r; lra).
  assert (T0 : B2R t <= 0). { rewrite Et, <- rnd64_0. apply rnd64_le. assert (0 <= x * (- l)) by (apply Rmult_le_pos; lra). lra. }
  assert (T1 : -64 * x <= B2R t).
  { assert (Fx : generic_format radix2 (FLT_exp (-1074) 53) (-64 * x)).
    { replace (-64 * x) with (- (x * bpow radix2 6)) by (change (bpow radix2 6) with 64; ring). apply generic_format_opp. apply Mult_error.mult_bpow_pos_exact_FLT; [exact (generic_format_B2R 53 1024 p)|lia]. }
    rewrite Et, <- (rnd64_format _ Fx). apply rnd64_le. apply Rabs_le_inv in Bx. lra. }
  split; [split; [exact T1|exact T0]|]. split.
  - assert (A : Rabs (x * l - x * ln (x + m)) <= 490 * (u * x)).
    { replace (x * l - x * ln (x + m)) with (x * ((l - ln (B2R q)) + (ln (B2R q) - ln (x + m)))) by ring. rewrite Rabs_mult, (Rabs_pos_eq x) by lra. replace (490 * (u * x)) with (x * (490 * u)) by ring. apply Rmult_le_compat_l; [lra|]. eapply Rle_trans; [apply Rabs_triang|]. lra. }
    assert (B : Rabs (x * ln (x + m) + surprise x) <= m) by (apply surprise_shift; lra). assert (E : bpow radix2 (-1074) <= / 1000 * u) by (apply Rle_trans with (bpow radix2 (-10) * u); [unfold u; rewrite <- bpow_plus; apply bpow_le; lia|change (bpow radix2 (-10)) with (/ 1024); lra]).
    replace (- B2R t - surprise x) with (- ((B2R t - x * l) + (x * l - x * ln (x + m)) + (x * ln (x + m) + surprise x))) by ring. rewrite Rabs_Ropp.
    eapply Rle_trans; [apply Rabs_triang|]. pose proof (Rabs_triang (B2R t - x * l) (x * l - x * ln (x + m))). lra.
  - intros [Z|Z]; rewrite Et; rewrite Z; [rewrite Rmult_0_l; exact rnd64_0|]. assert (Q : 1 <= B2R q) by (rewrite Eq, Z, <- (rnd64_bpow 0) at 1 by lia; apply rnd64_le; change (bpow radix2 0) with 1; lra).
    assert (D : dle (B754_zero false) (flog q)) by (apply (lg_nonneg _ Hl); apply dle_finite; [reflexivity|exact Fq|change (B2R done) with (B2R f_one); rewrite one_B2R; exact Q]).
    apply dle_finite in D; [|reflexivity|exact Fl]. change (B2R (B754_zero false)) with 0 in D. fold l in D. replace l with 0 by lra. rewrite Rmult_0_r. exact rnd64_0.
Qed.
End Term.

(** ** one row *)
Lemma reals_opp (l : list dbl) : LemmasFloatSimplex2.reals (map (fun x => Bopp x) l) = map Ropp (LemmasFloatSimplex2.reals l).
Proof. unfold LemmasFloatSimplex2.reals. rewrite !map_map. apply map_ext. intros x. apply B2R_Bopp. Qed.
Section Row.
Context (flog : dbl -> dbl) (Hl : log_good flog) (Hb : log_below flog) (mp : dbl) (Hm : negligible mp) (fsum : list dbl -> dbl) (Hs : sums fsum).
Lemma row n (p : nat -> dbl) : INR n <= bpow radix2 20 -> (forall j, (j < n)%nat -> probability (p j)) ->
  let h := fmul f_mone (fsum (map (fun j => fmul (p j) (flog (fadd (p j) mp))) (seq 0 n))) in
  is_finite h = true /\ 0 <= B2R h /\ Rabs (B2R h - shannon n (fun j => B2R (p j))) <= units (600 + 128 * INR n) * rsum n (fun j => B2R (p j)) + units (2 * INR n) /\
  ((forall j, (j < n)%nat -> B2R (p j) = 0 \/ B2R (p j) = 1) -> B2R h = 0).
Proof using Hl Hb Hm Hs.
  intros Hn Hp h. set (t := fun j => fmul (p j) (flog (fadd (p j) mp))) in *. assert (Ht := fun j Hj => term flog Hl Hb mp Hm (p j) (Hp j Hj)). change (forall j, (j < n)%nat -> _) with (forall j, (j < n)%nat -> is_finite (t j) = true /\ -64 * B2R (p j) <= B2R (t j) <= 0 /\ Rabs (- B2R (t j) - surprise (B2R (p j))) <= 600 * (u * B2R (p j)) + 2 * u /\ (B2R (p j) = 0 \/ B2R (p j) = 1 -> B2R (t j) = 0)) in Ht.
  set (l := map t (seq 0 n)) in *. destruct (sum_opp l (fsum l) (Hs l)) as (s' & S' & K).
  match type of S' with sum_of ?L _ => set (l' := L) in * end.
  assert (Up : List.Forall upto l').
  { apply Forall_forall. intros y Hy. apply in_map_iff in Hy. destruct Hy as (z & <- & Hz). unfold l in Hz. apply in_map_iff in Hz. destruct Hz as (j & <- & Hj). apply in_seq in Hj. destruct (Ht j ltac:(lia)) as (F & [A B] & _). destruct (Hp j ltac:(lia)) as [_ [_ P1]].
    split; [rewrite is_finite_Bopp; exact F|]. rewrite B2R_Bopp. split; [lra|]. apply Rle_trans with (bpow radix2 6); [change (bpow radix2 6) with 64; lra|apply bpow_le; lia]. }
  assert (Ln : length l' = n) by (unfold l', l; rewrite !map_length; apply seq_length).
  destruct (sum_accuracy_upto l' s' S' Up) as [Fs A]; [exact (eq_rect_r (fun k => INR k <= bpow radix2 20) Hn Ln)|]. rewrite rsum_lsum in A. 
  assert (Es : rsum (length l') (fun k => B2R (nth k l' dzero)) = rsum n (fun j => - B2R (t j))).
  { rewrite Ln. apply rsum_ext. intros j Hj. unfold l', l. rewrite map_map. rewrite (nth_indep _ dzero (Bopp (t 0%nat))) by (rewrite map_length, seq_length; exact Hj). rewrite (map_nth (fun x => Bopp (t x)) (seq 0 n) 0%nat j), seq_nth by exact Hj. apply B2R_Bopp. }
  destruct (K Fs) as [Fl El]. change (rsum (length l') (fun k => B2R (nth k l' dzero))) with (rsum (length l') (fun k => B2R (nth k l' dzero))) in A. rewrite Es in A. rewrite Ln in A.
  pose proof (pow_u_le n Hn) as Pu. pose proof (pow_u_pos n) as Pu1. small_u. pose proof (pos_INR n) as N0.
  destruct (fmul_mone (fsum l) Fl) as (Eh & Fh & _). fold h in Fh, Eh. rewrite El in Eh. rewrite Ropp_involutive in Eh.
  set (S := rsum n (fun j => B2R (p j))). set (T := rsum n (fun j => - B2R (t j))) in *.
  assert (T0 : 0 <= T) by (apply rsum_nonneg; intros j Hj; destruct (Ht j Hj) as (_ & B & _); lra).
  assert (T1 : T <= 64 * S) by (unfold T, S; rewrite <- rsum_scal_l; apply rsum_le; intros j Hj; destruct (Ht j Hj) as (_ & B & _); lra).
  assert (S0 : 0 <= S) by (apply rsum_nonneg; intros j Hj; destruct (Hp j Hj) as [_ B]; lra).
  assert (D : Rabs (T - shannon n (fun j => B2R (p j))) <= 600 * (u * S) + 2 * (INR n * u)).
  { unfold T, shannon. rewrite <- rsum_minus. eapply Rle_trans; [apply rsum_Rabs|]. eapply Rle_trans; [apply rsum_le; intros j Hj; exact (proj1 (proj2 (proj2 (Ht j Hj))))|].
    right. rewrite rsum_plus, rsum_const. rewrite (rsum_ext n _ (fun j => (600 * u) * B2R (p j))) by (intros; ring). rewrite rsum_scal_l. fold S. ring. }
  set (g := (1 + u) ^ n - 1) in *. assert (g1 : g <= / 1000) by (rewrite bpow20 in Hn; assert (2 * INR n * u <= 2 * 1048576 * u) by (apply Rmult_le_compat_r; lra); lra).
  assert (gT : 0 <= g * T) by (apply Rmult_le_pos; unfold g; lra). assert (gT1 : g * T <= / 1000 * T) by (apply Rmult_le_compat_r; lra). assert (gT2 : g * T <= (2 * INR n * u) * (64 * S)) by (apply Rmult_le_compat; unfold g in *; lra).
  split; [exact Fh|]. split; [rewrite Eh; apply Rabs_le_inv in A; lra|]. split.
  - rewrite Eh, !units_u. replace (B2R s' - shannon n (fun j => B2R (p j))) with ((B2R s' - T) + (T - shannon n (fun j => B2R (p j)))) by ring. eapply Rle_trans; [apply Rabs_triang|].
    replace ((600 + 128 * INR n) * u * S + 2 * INR n * u) with ((2 * INR n * u) * (64 * S) + (600 * (u * S) + 2 * (INR n * u))) by ring. lra.
  - intros Z. assert (TZ : T = 0) by (unfold T; rewrite (rsum_ext n _ (fun _ => 0)) by (intros j Hj; rewrite (proj2 (proj2 (proj2 (Ht j Hj))) (Z j Hj)); ring); rewrite rsum_const; ring).
    rewrite Eh. rewrite TZ, Rmult_0_r, Rminus_0_r in A. apply Rabs_le_inv in A. lra.
Qed.
End Row.

(** ** the array *)
Lemma at_row (a : nd dbl) N n r j : proper [N; n] a -> nd_at fz a [r; j] = entry a (r * n + j).
Proof. destruct a as [sa da]. intros [Sa _]. cbn in Sa. subst sa. unfold nd_at, entry. cbn [shape data ravel]. f_equal. rewrite nprod_1. change (nprod []) with 1%nat. lia. Qed.
Lemma entropy_rows (flog : dbl -> dbl) (fsum : list dbl -> dbl) (Hl : log_good flog) (Hb : log_below flog) (Hs : sums fsum) (mp : dbl) (p : nd dbl) N n : negligible mp -> proper [N; n] p -> INR n <= bpow radix2 20 -> (forall k, (k < N * n)%nat -> probability (entry p k)) ->
  exists h, f_multinoulli_entropy flog fsum p mp = Ok h /\ proper [N] h /\ forall r, (r < N)%nat -> let q j := B2R (entry p (r * n + j)) in
    is_finite (entry h r) = true /\ 0 <= B2R (entry h r) /\ Rabs (B2R (entry h r) - shannon n q) <= units (600 + 128 * INR n) * rsum n q + units (2 * INR n) /\
    ((forall j, (j < n)%nat -> q j = 0 \/ q j = 1) -> B2R (entry h r) = 0).
Proof.
  intros Hm Pp Hn Hp. destruct (bin_scalar_r fadd _ p mp Pp) as (q & Eq & Pq & Kq). destruct (map_entry flog _ q Pq) as [Pl Kl]. destruct (bin_same fmul _ p _ Pp Pl) as (t & Et & Pt & Kt).
  set (F := fun r => fsum (map (fun j => fmul (entry p (r * n + j)) (flog (fadd (entry p (r * n + j)) mp))) (seq 0 n))).
  assert (Es : exists s, np_sum_axis fz fsum 1 t = Ok s /\ proper [N] s /\ forall r, (r < N)%nat -> entry s r = F r).
  { assert (St : @shape dbl t = [N; n]) by exact (proj1 Pt). unfold np_sum_axis. rewrite St. cbn [length Nat.ltb Nat.leb firstn skipn app nth]. eexists. split; [reflexivity|]. split.
    - split; [reflexivity|]. unfold mk_nd. cbn [data]. rewrite map_length. apply product_length.
    - intros r Hr. etransitivity; [apply entry_mk; rewrite nprod_1; exact Hr|]. unfold F. f_equal. apply map_ext_in. intros j Hj. apply in_seq in Hj.
      assert (Ix : nth r (product [N]) [] = [r]). { pose proof (product_nth_cons N [] r 0 Hr ltac:(change (nprod []) with 1%nat; lia)) as Y. change (nprod []) with 1%nat in Y. replace (r * 1 + 0)%nat with r in Y by lia. exact Y. }
      rewrite Ix. cbn [firstn skipn app]. rewrite (at_row t N n r j Pt). assert (Hk : (r * n + j < nprod [N; n])%nat) by (rewrite nprod_cons, nprod_1; nia). rewrite Kt, Kl, Kq by exact Hk. reflexivity. }
  destruct Es as (s & Es & Ps & Ks). destruct (bin_scalar_l fmul _ f_mone s Ps) as (h & Eh & Ph & Kh). exists h. assert (Et' : f_bin fmul p (@nd_map dbl dbl flog q) = Ok t) by exact Et. split; [unfold f_multinoulli_entropy; rewrite Eq; cbn [rbind]; rewrite Et'; cbn [rbind]; rewrite Es; exact Eh|]. split; [exact Ph|].
  intros r Hr. cbv zeta. rewrite Kh by (rewrite nprod_1; exact Hr). rewrite Ks by exact Hr. apply (row flog Hl Hb mp Hm fsum Hs n (fun j => entry p (r * n + j)) Hn). intros j Hj. apply Hp. nia.
Qed.
