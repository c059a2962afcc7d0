(** Proofs about univariate_normal_entropy in binary64. *)
From Coq Require Import Reals ZArith List Lra Lia Psatz Bool Permutation.
From Flocq Require Import Core BinarySingleNaN Relative.
From Verif Require Import Res Nd RSum ModelNumpy SpecFloat SpecFloatSimplex SpecFloatAcc SpecFloatMatrix SpecFloatFam SpecFloatEntropy2 ModelFloat ModelFloatFamilies ModelFloatLogit ModelFloatEntropy2
  LemmasPosDef LemmasNumpy LemmasFloat LemmasFloat2 LemmasFloat3 LemmasFloat4 LemmasFloatDefault LemmasFloatSimplex LemmasFloatSimplex2 LemmasFloatSimplex4 LemmasFloatAcc LemmasFloatAcc2 LemmasFloatFam LemmasFloatFam6 LemmasFloatFam7 LemmasFloatEntropy LemmasFloatLogit LemmasFloatQuad.
Import List ListNotations.
Set Bullet Behavior "Strict Subproofs".
Open Scope R_scope.

(** ** sums of numbers of either sign *)
Definition reals := LemmasFloatSimplex2.reals.
Definition sizes (l : list dbl) : list R := map (fun x : dbl => Rabs (B2R x)) l.
Definition modest (x : dbl) : Prop := is_finite x = true /\ Rabs (B2R x) <= bpow radix2 501.
Lemma lsum_sizes l : List.Forall modest l -> 0 <= lsum (sizes l) <= INR (length l) * bpow radix2 501 /\ Rabs (lsum (reals l)) <= lsum (sizes l).
Proof.
  induction 1 as [|x l [_ U] _ [IH IH']]; [cbn; rewrite Rabs_R0; lra|]. cbn [length sizes reals LemmasFloatSimplex2.reals map]. rewrite S_INR. unfold lsum in *. cbn [fold_right]. fold (LemmasFloatSimplex2.reals l) (reals l) (sizes l). pose proof (Rabs_pos (B2R x)).
  split; [lra|]. eapply Rle_trans; [apply Rabs_triang|]. lra.
Qed.
Lemma sum_accuracy_signed l s : sum_of l s -> List.Forall modest l -> INR (length l) <= bpow radix2 20 ->
  is_finite s = true /\ Rabs (B2R s - lsum (reals l)) <= ((1 + u) ^ length l - 1) * lsum (sizes l).
Proof.
  induction 1 as [|x|l l1 l2 a b P S1 IH1 S2 IH2]; intros F B.
  - split; [reflexivity|]. cbn. rewrite Rminus_0_r, Rabs_R0. lra.
  - inversion F as [|? ? [U U'] _]; subst. split; auto. cbn. replace (B2R x - (B2R x + 0)) with 0 by ring. rewrite Rabs_R0. pose proof u_pos. pose proof (Rabs_pos (B2R x)). nra.
  - assert (F' : List.Forall modest (l1 ++ l2)) by (eapply Permutation_Forall; eauto).
    apply Forall_app in F'. destruct F' as [F1 F2].
    assert (EL : length l = (length l1 + length l2)%nat) by (rewrite (Permutation_length P), app_length; reflexivity).
    assert (ES : lsum (reals l) = lsum (reals l1) + lsum (reals l2)).
    { unfold reals, LemmasFloatSimplex2.reals. rewrite (lsum_perm _ _ (Permutation_map (fun x : dbl => B2R x) P)), map_app, lsum_app. reflexivity. }
    assert (EZ : lsum (sizes l) = lsum (sizes l1) + lsum (sizes l2)).
    { unfold sizes. rewrite (lsum_perm _ _ (Permutation_map (fun x : dbl => Rabs (B2R x)) P)), map_app, lsum_app. reflexivity. }
    rewrite EL, plus_INR in B. pose proof (pos_INR (length l1)) as N1. pose proof (pos_INR (length l2)) as N2.
    destruct (IH1 F1 ltac:(lra)) as [G1 A1]. destruct (IH2 F2 ltac:(lra)) as [G2 A2].
    destruct (lsum_sizes l1 F1) as [T1 R1]. destruct (lsum_sizes l2 F2) as [T2 R2].
    pose proof (pow_u_le (length l1) ltac:(lra)) as E1. pose proof (pow_u_le (length l2) ltac:(lra)) as E2.
    change (Bplus mode_NE a b) with (fadd a b). rewrite ES, EZ, EL.
    destruct l1 as [|x1 l1'].
    { cbn in A1. rewrite Rminus_0_r in A1. assert (Za : B2R a = 0) by (assert (H0 : Rabs (B2R a) <= 0) by lra; apply Rabs_le_inv in H0; lra).
      destruct (fadd_zero a b G1 G2 (or_introl Za)) as [G E]. split; [exact G|]. rewrite E, Za. cbn [length reals LemmasFloatSimplex2.reals sizes map]. change (lsum []) with 0. rewrite !Rplus_0_l. exact A2. }
    destruct l2 as [|x2 l2'].
    { cbn in A2. rewrite Rminus_0_r in A2. assert (Zb : B2R b = 0) by (assert (H0 : Rabs (B2R b) <= 0) by lra; apply Rabs_le_inv in H0; lra).
      destruct (fadd_zero a b G1 G2 (or_intror Zb)) as [G E]. split; [exact G|]. rewrite E, Zb. change (length (@nil dbl)) with 0%nat. rewrite Nat.add_0_r. change (lsum (reals [])) with 0. change (lsum (sizes [])) with 0. rewrite !Rplus_0_r. exact A2 || exact A1. }
    set (t1 := lsum (sizes (x1 :: l1'))) in *. set (t2 := lsum (sizes (x2 :: l2'))) in *. set (r1 := lsum (reals (x1 :: l1'))) in *. set (r2 := lsum (reals (x2 :: l2'))) in *.
    set (k1 := length (x1 :: l1')) in *. set (k2 := length (x2 :: l2')) in *.
    assert (K1 : (1 <= k1)%nat) by (unfold k1; cbn; lia). assert (K2 : (1 <= k2)%nat) by (unfold k2; cbn; lia).
    pose proof (pow_u_pos k1) as Q1. pose proof (pow_u_pos k2) as Q2. pose proof u_pos as PU.
    change (0 <= t1 <= INR k1 * bpow radix2 501) in T1. change (0 <= t2 <= INR k2 * bpow radix2 501) in T2.
    assert (BB0 : t1 + t2 <= bpow radix2 20 * bpow radix2 501) by (pose proof (bpow_gt_0 radix2 501); apply Rle_trans with ((INR k1 + INR k2) * bpow radix2 501); [lra|apply Rmult_le_compat_r; lra]).
    rewrite <- bpow_plus in BB0. rewrite bpow20 in B.
    assert (U1 : (1 + u) ^ k1 - 1 <= 1) by (rewrite u_val in *; lra).
    assert (U2 : (1 + u) ^ k2 - 1 <= 1) by (rewrite u_val in *; lra).
    assert (H1 : ((1 + u) ^ k1 - 1) * t1 <= 1 * t1) by (apply Rmult_le_compat_r; lra). assert (H2 : ((1 + u) ^ k2 - 1) * t2 <= 1 * t2) by (apply Rmult_le_compat_r; lra).
    assert (M1 : Rabs (B2R a) <= 2 * t1) by (replace (B2R a) with ((B2R a - r1) + r1) by ring; apply Rle_trans with (1 := Rabs_triang _ _); lra).
    assert (M2 : Rabs (B2R b) <= 2 * t2) by (replace (B2R b) with ((B2R b - r2) + r2) by ring; apply Rle_trans with (1 := Rabs_triang _ _); lra).
    assert (BB : Rabs (B2R a + B2R b) <= bpow radix2 1000).
    { apply Rle_trans with (1 := Rabs_triang _ _). apply Rle_trans with (bpow radix2 1 * bpow radix2 (20 + 501)); [|rewrite <- bpow_plus; apply bpow_le; lia].
      change (bpow radix2 1) with 2. lra. }
    destruct (fadd_rel a b G1 G2 BB) as [G R]. split; auto.
    set (K := (k1 + k2)%nat). assert (HK : exists j, K = S j /\ (k1 <= j)%nat /\ (k2 <= j)%nat) by (exists (k1 + k2 - 1)%nat; unfold K; lia).
    destruct HK as (j & -> & J1 & J2). pose proof (pow_u_mono k1 j J1) as V1. pose proof (pow_u_mono k2 j J2) as V2.
    set (w := (1 + u) ^ j) in *. cbn [pow]. fold w. clear E1 E2 IH1 IH2 BB BB0 H1 H2.
    assert (W1 : Rabs (B2R a - r1) <= (w - 1) * t1) by (apply Rle_trans with (1 := A1); apply Rmult_le_compat_r; lra).
    assert (W2 : Rabs (B2R b - r2) <= (w - 1) * t2) by (apply Rle_trans with (1 := A2); apply Rmult_le_compat_r; lra).
    assert (W : Rabs (B2R a + B2R b - (r1 + r2)) <= (w - 1) * (t1 + t2)).
    { replace (B2R a + B2R b - (r1 + r2)) with ((B2R a - r1) + (B2R b - r2)) by ring. apply Rle_trans with (1 := Rabs_triang _ _). lra. }
    assert (W3 : Rabs (B2R a + B2R b) <= w * (t1 + t2)).
    { replace (B2R a + B2R b) with ((B2R a + B2R b - (r1 + r2)) + (r1 + r2)) by ring. apply Rle_trans with (1 := Rabs_triang _ _).
      pose proof (Rabs_triang r1 r2). lra. }
    replace (B2R (fadd a b) - (r1 + r2)) with ((B2R (fadd a b) - (B2R a + B2R b)) + (B2R a + B2R b - (r1 + r2))) by ring.
    apply Rle_trans with (1 := Rabs_triang _ _).
    assert (W4 : u * Rabs (B2R a + B2R b) <= u * (w * (t1 + t2))) by (apply Rmult_le_compat_l; lra). lra.
Qed.
Lemma lsum_seq n (f : nat -> R) : lsum (map f (seq 0 n)) = rsum n f.
Proof. induction n as [|n IH]; [reflexivity|]. rewrite seq_S, map_app, lsum_app, IH. cbn. ring. Qed.

(** ** one term *)
Section Term.
Context (flog : dbl -> dbl) (Hl : log_good flog).
Lemma positive_range (x : dbl) : is_finite x = true -> 0 < B2R x -> Rabs (ln (B2R x)) <= 752.
Proof.
  intros F P. assert (A : bpow radix2 (-1074) <= B2R x <= bpow radix2 1074).
  { split.
    - destruct (positive_cases x F P) as (m & e & b & ->). pose proof (abs_B2R_ge_emin 53 1024 prec53 _ _ _ _ b) as G || pose proof (generic_format_B2R 53 1024 (B754_finite false m e b)) as G. cbn [B2R]. apply Rle_trans with (bpow radix2 e).
      + apply bpow_le. clear - b. unfold SpecFloat.bounded, SpecFloat.canonical_mantissa, SpecFloat.fexp, SpecFloat.emin in b. apply andb_prop in b. destruct b as [b _]. apply Zeq_bool_eq in b. lia.
      + unfold F2R. cbn. rewrite <- (Rmult_1_l (bpow radix2 e)) at 1. apply Rmult_le_compat_r; [apply bpow_ge_0|]. apply IZR_le. lia.
    - pose proof (below_1024 x) as Q. rewrite Rabs_pos_eq in Q by lra. apply Rle_trans with (bpow radix2 1024); [lra|apply bpow_le; lia]. }
  pose proof (ln_range 1074 (B2R x) ltac:(lia) A). lra.
Qed.
Definition f_log2pi : dbl := flog (fmul (f_int 2) f_pi).
Lemma log2pi_close : is_finite f_log2pi = true /\ 0 <= ln (2 * PI) <= 3 /\ Rabs (B2R f_log2pi - ln (2 * PI)) <= 40 * u.
Proof using Hl.
  small_u. destruct f_two as [F2 E2]. destruct f_pi_close as [P B]. assert (Ep : B2R f_pi = 7074237752028440 / 2251799813685248) by exact f_pi_B2R.
  assert (Hb : 2 * B2R f_pi = B2R f_pi * bpow radix2 1) by (change (bpow radix2 1) with 2; ring).
  assert (R : rnd64 (2 * B2R f_pi) = 2 * B2R f_pi) by (apply rnd64_format; rewrite Hb; apply Mult_error.mult_bpow_pos_exact_FLT; [exact (generic_format_B2R 53 1024 f_pi)|lia]).
  assert (G : Rabs (2 * B2R f_pi) < bpow radix2 1024) by (rewrite Ep, Rabs_pos_eq by lra; apply Rlt_le_trans with (bpow radix2 3); [change (bpow radix2 3) with 8; lra|apply bpow_le; lia]).
  destruct (fmul_cases (f_int 2) f_pi F2 eq_refl) as [(_ & E & F & _)|(C & _)]; rewrite E2, R in *; [|lra]. unfold f_log2pi. set (y := fmul (f_int 2) f_pi) in *.
  assert (Y : 6 <= B2R y <= 7) by (rewrite E, Ep; lra). split; [apply (log_finite _ (lg_ok _ Hl)); [exact F|lra]|].
  assert (L0 : 0 <= ln (2 * PI)) by (rewrite <- ln_1; left; apply ln_increasing; lra).
  assert (E3 : 8 <= exp 3). { replace 3 with (1 + (1 + 1)) by ring. rewrite !exp_plus. pose proof (exp_ineq1 1 ltac:(lra)) as Q. assert (2 * 2 <= exp 1 * exp 1) by (apply Rmult_le_compat; lra). assert (2 * (2 * 2) <= exp 1 * (exp 1 * exp 1)) by (apply Rmult_le_compat; lra). lra. }
  assert (L1 : ln (2 * PI) <= 3) by (rewrite <- (ln_exp 3); destruct (Req_dec (2 * PI) (exp 3)) as [->|]; [lra|left; apply ln_increasing; lra]). split; [split; assumption|].
  assert (D : Rabs (B2R y - 2 * PI) <= u * (2 * PI)) by (rewrite E; replace (2 * B2R f_pi - 2 * PI) with (2 * (B2R f_pi - PI)) by ring; rewrite Rabs_mult, (Rabs_pos_eq 2) by lra; lra).
  pose proof (ln_ratio (B2R y) (2 * PI) u ltac:(lra) ltac:(lra) D) as Q. pose proof (lg_close _ Hl y F ltac:(lra)) as K. change (bpow radix2 (-50)) with eta in K. rewrite eta_u in K.
  assert (LY : Rabs (ln (B2R y)) <= 3 + / 100). { replace (ln (B2R y)) with ((ln (B2R y) - ln (2 * PI)) + ln (2 * PI)) by ring. eapply Rle_trans; [apply Rabs_triang|]. rewrite (Rabs_pos_eq (ln (2 * PI))) by lra. lra. }
  assert (8 * u * (1 + Rabs (ln (B2R y))) <= 8 * u * (4 + / 100)) by (apply Rmult_le_compat_l; lra). replace (B2R (flog y) - ln (2 * PI)) with ((B2R (flog y) - ln (B2R y)) + (ln (B2R y) - ln (2 * PI))) by ring. eapply Rle_trans; [apply Rabs_triang|]. lra.
Qed.
Lemma entropy_term (L : dbl) : is_finite L = true -> 0 < B2R L -> let t := fadd (fadd (fmul f_mone (flog L)) f_one) f_log2pi in let S := 1 + Rabs (ln (B2R L)) in
  is_finite t = true /\ 1 <= S <= 753 /\ Rabs (B2R t) <= 5 * S /\ Rabs (B2R t - (1 + ln (2 * PI / B2R L))) <= 60 * (u * S).
Proof using Hl.
  intros F P t S. small_u. pose proof (positive_range L F P) as Rg. destruct log2pi_close as (Fc & C & Cc). set (c := f_log2pi) in *. set (C2 := ln (2 * PI)) in *. destruct f_pi_close as [_ PB].
  assert (El : ln (2 * PI / B2R L) = C2 - ln (B2R L)) by (unfold Rdiv; rewrite ln_mult, ln_Rinv by (try apply Rinv_0_lt_compat; lra); reflexivity). set (l := ln (B2R L)) in *. pose proof (Rabs_pos l) as l0. assert (S1 : 1 <= S <= 753) by (unfold S; lra).
  assert (Fl : is_finite (flog L) = true) by (apply (log_finite _ (lg_ok _ Hl)); assumption). pose proof (lg_close _ Hl L F P) as K. change (bpow radix2 (-50)) with eta in K. rewrite eta_u in K. fold l S in K.
  destruct (fmul_mone (flog L) Fl) as (Em & Fm & _). set (a := fmul f_mone (flog L)) in *. set (g := B2R (flog L)) in *.
  assert (uS : u * 1 <= u * S) by (apply Rmult_le_compat_l; lra). assert (uS2 : u * S <= / 100000 * S) by (apply Rmult_le_compat_r; lra).
  assert (gB : Rabs g <= 1001 / 1000 * S). { replace g with ((g - l) + l) by ring. eapply Rle_trans; [apply Rabs_triang|]. assert (Rabs l <= S) by (unfold S; lra). lra. }
  assert (B : 753 * 10 <= bpow radix2 1000) by (apply Rle_trans with (bpow radix2 13); [change (bpow radix2 13) with 8192; lra|apply bpow_le; lia]).
  assert (T1 : Rabs (- g + 1) <= 2002 / 1000 * S) by (eapply Rle_trans; [apply Rabs_triang|]; rewrite Rabs_Ropp, (Rabs_pos_eq 1) by lra; lra).
  destruct (fadd_rel a f_one Fm one_finite) as [Fb Eb]; rewrite Em, one_B2R in *; [lra|]. set (b := fadd a f_one) in *.
  assert (ub : u * Rabs (- g + 1) <= u * (2002 / 1000 * S)) by (apply Rmult_le_compat_l; lra). assert (bB : Rabs (B2R b) <= 2003 / 1000 * S). { replace (B2R b) with ((B2R b - (- g + 1)) + (- g + 1)) by ring. eapply Rle_trans; [apply Rabs_triang|]. lra. }
  assert (cB : Rabs (B2R c) <= 3 + / 1000). { replace (B2R c) with ((B2R c - C2) + C2) by ring. eapply Rle_trans; [apply Rabs_triang|]. rewrite (Rabs_pos_eq C2) by lra. lra. }
  assert (T2 : Rabs (B2R b + B2R c) <= 5005 / 1000 * S) by (eapply Rle_trans; [apply Rabs_triang|]; lra).
  destruct (fadd_rel b c Fb Fc) as [Ft Et]; [lra|]. change (fadd b c) with t in Ft, Et. assert (ut : u * Rabs (B2R b + B2R c) <= u * (5005 / 1000 * S)) by (apply Rmult_le_compat_l; lra).
  assert (E : Rabs (B2R t - (1 + (C2 - l))) <= 60 * (u * S)).
  { replace (B2R t - (1 + (C2 - l))) with ((B2R t - (B2R b + B2R c)) + ((B2R b - (- g + 1)) + ((B2R c - C2) + - (g - l)))) by ring. eapply Rle_trans; [apply Rabs_triang|]. pose proof (Rabs_triang (B2R b - (- g + 1)) ((B2R c - C2) + - (g - l))) as Q1. pose proof (Rabs_triang (B2R c - C2) (- (g - l))) as Q2. rewrite Rabs_Ropp in Q2. lra. }
  split; [exact Ft|]. split; [exact S1|]. split; [|rewrite El; exact E].
  replace (B2R t) with ((B2R t - (1 + (C2 - l))) + (1 + (C2 - l))) by ring. eapply Rle_trans; [apply Rabs_triang|]. assert (Rabs (1 + (C2 - l)) <= 4 + Rabs l). { eapply Rle_trans; [apply Rabs_triang|]. rewrite (Rabs_pos_eq 1) by lra. pose proof (Rabs_triang C2 (- l)) as Q. rewrite Rabs_Ropp, (Rabs_pos_eq C2) in Q by lra. unfold Rminus. lra. } unfold S in *. lra.
Qed.

(** ** the sum *)
Context (fsum : list dbl -> dbl) (Hs : sums fsum).
Lemma entropy_sum n (L : nat -> dbl) : INR n <= bpow radix2 20 -> (forall k, (k < n)%nat -> is_finite (L k) = true /\ 0 < B2R (L k)) ->
  let h := fmul f_half (fsum (map (fun k => fadd (fadd (fmul f_mone (flog (L k))) f_one) f_log2pi) (seq 0 n))) in
  is_finite h = true /\ Rabs (B2R h) <= bpow radix2 100 /\ Rabs (B2R h - normal_entropy n (fun k => B2R (L k))) <= units (40 + 6 * INR n) * log_sizes n (fun k => B2R (L k)).
Proof using Hl Hs.
  intros Hn HL h. set (t := fun k => fadd (fadd (fmul f_mone (flog (L k))) f_one) f_log2pi) in *. set (S := fun k => 1 + Rabs (ln (B2R (L k)))). set (q := fun k => 1 + ln (2 * PI / B2R (L k))).
  assert (Ht : forall k, (k < n)%nat -> is_finite (t k) = true /\ 1 <= S k <= 753 /\ Rabs (B2R (t k)) <= 5 * S k /\ Rabs (B2R (t k) - q k) <= 60 * (u * S k)) by (intros k Hk; destruct (HL k Hk) as [F P]; exact (entropy_term (L k) F P)).
  set (l := map t (seq 0 n)) in *. assert (Md : List.Forall modest l).
  { apply Forall_forall. intros y Hy. unfold l in Hy. apply in_map_iff in Hy. destruct Hy as (j & <- & Hj). apply in_seq in Hj. destruct (Ht j ltac:(lia)) as (F & B & C & _). split; [exact F|]. apply Rle_trans with (bpow radix2 12); [change (bpow radix2 12) with 4096; lra|apply bpow_le; lia]. }
  assert (Ln : length l = n) by (unfold l; rewrite map_length; apply seq_length).
  destruct (sum_accuracy_signed l (fsum l) (Hs l) Md) as [Fs A]; [exact (eq_rect_r (fun k => INR k <= bpow radix2 20) Hn Ln)|].
  assert (E1 : lsum (reals l) = rsum n (fun k => B2R (t k))) by (unfold reals, LemmasFloatSimplex2.reals, l; rewrite map_map; apply lsum_seq). assert (E2 : lsum (sizes l) = rsum n (fun k => Rabs (B2R (t k)))) by (unfold sizes, l; rewrite map_map; apply lsum_seq).
  assert (A' : Rabs (B2R (fsum l) - rsum n (fun k => B2R (t k))) <= ((1 + u) ^ n - 1) * rsum n (fun k => Rabs (B2R (t k)))) by (apply (eq_rect (length l) (fun k => Rabs (B2R (fsum l) - rsum n (fun k => B2R (t k))) <= ((1 + u) ^ k - 1) * rsum n (fun k => Rabs (B2R (t k)))) ); [rewrite <- E1, <- E2; exact A|exact Ln]). clear A.
  pose proof (pow_u_le n Hn) as Pu. pose proof (pow_u_pos n) as Pu1. small_u. pose proof (pos_INR n) as N0. set (N := INR n) in *. set (g := (1 + u) ^ n - 1) in *. set (s := fsum l) in *.
  set (SS := rsum n S). set (T := rsum n (fun k => Rabs (B2R (t k)))) in *. set (V := rsum n (fun k => B2R (t k))) in *. set (Q := rsum n q).
  assert (g0 : 0 <= g) by (unfold g; lra). assert (S0 : 0 <= SS) by (apply rsum_nonneg; intros k Hk; destruct (Ht k Hk) as (_ & B & _); lra).
  assert (T1 : T <= 5 * SS) by (unfold T, SS; rewrite <- rsum_scal_l; apply rsum_le; intros k Hk; apply (Ht k Hk)). assert (T0 : 0 <= T) by (apply rsum_nonneg; intros; apply Rabs_pos).
  assert (VT : Rabs V <= T) by apply rsum_Rabs. assert (S753 : SS <= N * 753) by (unfold SS, N; rewrite <- rsum_const; apply rsum_le; intros k Hk; destruct (Ht k Hk) as (_ & B & _); lra).
  assert (D : Rabs (V - Q) <= 60 * (u * SS)).
  { unfold V, Q. rewrite <- rsum_minus. eapply Rle_trans; [apply rsum_Rabs|]. eapply Rle_trans; [apply rsum_le; intros k Hk; exact (proj2 (proj2 (proj2 (Ht k Hk))))|]. right. rewrite (rsum_ext n _ (fun k => (60 * u) * S k)) by (intros; ring). rewrite rsum_scal_l. fold SS. ring. }
  assert (gT : g * T <= 2 * N * u * (5 * SS)) by (apply Rmult_le_compat; lra). rewrite bpow20 in Hn.
  assert (Nu : N * u <= / 1000) by (assert (N * u <= 1048576 * u) by (apply Rmult_le_compat_r; lra); lra).
  assert (gT' : g * T <= / 100 * SS) by (apply Rle_trans with (1 := gT); replace (2 * N * u * (5 * SS)) with (10 * (N * u * SS)) by ring; assert (N * u * SS <= / 1000 * SS) by (apply Rmult_le_compat_r; lra); lra).
  assert (sB : Rabs (B2R s) <= 6 * SS). { replace (B2R s) with ((B2R s - V) + V) by ring. eapply Rle_trans; [apply Rabs_triang|]. lra. }
  assert (SB : 6 * SS <= bpow radix2 90) by (apply Rle_trans with (bpow radix2 33); [change (bpow radix2 33) with 8589934592; lra|apply bpow_le; lia]). assert (B90 : bpow radix2 90 <= bpow radix2 1000) by (apply bpow_le; lia).
  assert (hB : Rabs (B2R f_half * B2R s) <= 3 * SS) by (rewrite f_half_B2R, Rabs_mult, (Rabs_pos_eq (/ 2)) by lra; lra).
  destruct (fmul_rel f_half s f_half_finite Fs) as (Fh & Eh & Ch); [lra|]. change (fmul f_half s) with h in Fh, Eh, Ch. rewrite f_half_B2R in Eh, Ch, hB.
  assert (NE : normal_entropy n (fun k => B2R (L k)) = / 2 * Q) by (unfold normal_entropy, Q; rewrite <- rsum_scal_l; apply rsum_ext; intros; unfold q; field). assert (LS : log_sizes n (fun k => B2R (L k)) = SS) by reflexivity.
  split; [exact Fh|]. rewrite NE, LS, units_u.
  assert (Ch' : Rabs (B2R h - / 2 * B2R s) <= 4 * (u * SS)).
  { destruct (Nat.eq_dec n 0) as [Z|Z].
    - assert (SZ : SS = 0) by (unfold SS; rewrite Z; reflexivity). assert (sz : B2R s = 0) by (rewrite SZ in sB; apply Rabs_le_inv in sB; lra). rewrite Eh, sz, Rmult_0_r, rnd64_0, SZ, Rmult_0_r, Rminus_0_r, Rabs_R0. lra.
    - assert (SS1 : 1 <= SS). { unfold SS. apply Rle_trans with N; [unfold N; change 1 with (INR 1); apply le_INR; lia|]. replace N with (rsum n (fun _ => 1)) by (rewrite rsum_const; fold N; ring). apply rsum_le. intros k Hk. destruct (Ht k Hk) as (_ & B & _). lra. }
      assert (d : bpow radix2 (-1074) <= u) by (apply bpow_le; lia). assert (u * 1 <= u * SS) by (apply Rmult_le_compat_l; lra). assert (u * Rabs (/ 2 * B2R s) <= u * (3 * SS)) by (apply Rmult_le_compat_l; lra). lra. }
  assert (uSS : u * SS <= / 1000 * SS) by (apply Rmult_le_compat_r; lra).
  split.
  - replace (B2R h) with ((B2R h - / 2 * B2R s) + / 2 * B2R s) by ring. eapply Rle_trans; [apply Rabs_triang|]. apply Rle_trans with (bpow radix2 90); [lra|apply bpow_le; lia].
  - replace (B2R h - / 2 * Q) with ((B2R h - / 2 * B2R s) + / 2 * ((B2R s - V) + (V - Q))) by ring. eapply Rle_trans; [apply Rabs_triang|]. rewrite (Rabs_mult (/ 2)), (Rabs_pos_eq (/ 2)) by lra. pose proof (Rabs_triang (B2R s - V) (V - Q)) as Tr.
    replace ((40 + 6 * N) * u * SS) with (40 * (u * SS) + 6 * (N * u * SS)) by ring. replace (2 * N * u * (5 * SS)) with (10 * (N * u * SS)) in gT by ring. assert (0 <= u * SS) by (apply Rmult_le_pos; lra). assert (0 <= N * u * SS) by (apply Rmult_le_pos; [apply Rmult_le_pos; lra|lra]). lra.
Qed.
Lemma entropy_array s (i : nd dbl) : proper s i -> exists h, f_univariate_normal_entropy flog fsum i = Ok h /\ proper [] h /\ entry h 0 = fmul f_half (fsum (map (fun k => fadd (fadd (fmul f_mone (flog (entry i k))) f_one) f_log2pi) (seq 0 (nprod s)))).
Proof.
  intros Pi. destruct (map_entry flog s i Pi) as [Pl Kl]. destruct (bin_scalar_l fmul s f_mone _ Pl) as (a & Ea & Pa & Ka). destruct (bin_scalar_r fadd s a f_one Pa) as (b & Eb & Pb & Kb). destruct (bin_scalar_r fadd s b f_log2pi Pb) as (c & Ec & Pc & Kc).
  exists (nd_scalar (fmul f_half (fsum (data c)))). split; [|split; [split; reflexivity|]].
  - unfold f_univariate_normal_entropy. etransitivity; [exact (f_equal (fun r => rbind r _) Ea)|]. cbn [rbind]. rewrite Eb. cbn [rbind]. unfold f_log2pi in Ec. rewrite Ec. cbn [rbind]. reflexivity.
  - unfold entry. cbn [nd_scalar data nth]. f_equal. f_equal. destruct c as [sc dc]. destruct Pc as [Sc Lc]. cbn in Sc, Lc. subst sc. cbn [data]. apply (nth_ext _ _ dzero dzero); [rewrite map_length, seq_length; exact Lc|]. intros k Hk. assert (Hk' : (k < nprod s)%nat) by (rewrite <- Lc; exact Hk).
    rewrite (nth_indep (map _ _) dzero (fadd (fadd (fmul f_mone (flog (entry i 0))) f_one) f_log2pi)) by (rewrite map_length, seq_length; exact Hk').
    rewrite (map_nth (fun k => fadd (fadd (fmul f_mone (flog (entry i k))) f_one) f_log2pi)), seq_nth by exact Hk'. cbn [Nat.add]. pose proof (Kc k Hk') as Q. unfold entry at 1 in Q. cbn [data] in Q. rewrite Q. rewrite Kb, Ka by exact Hk'. rewrite Kl by exact Hk'. reflexivity.
Qed.
Lemma sum_one_value (x : dbl) : is_finite x = true -> Rabs (B2R x) <= bpow radix2 501 -> is_finite (fsum [x]) = true /\ B2R (fsum [x]) = B2R x.
Proof using Hs.
  intros F B. assert (G : forall l s, sum_of l s -> (length l <= 1)%nat -> List.Forall (fun y : dbl => is_finite y = true) l -> is_finite s = true /\ B2R s = lsum (map (fun y : dbl => B2R y) l)).
  { induction 1 as [|y|l l1 l2 a b P S1 IH1 S2 IH2]; intros Hn Fl.
    - split; reflexivity.
    - inversion Fl; subst. split; [assumption|]. cbn. ring.
    - assert (EL : length l = (length l1 + length l2)%nat) by (rewrite (Permutation_length P), app_length; reflexivity). assert (Fl' := Permutation_Forall P Fl). apply Forall_app in Fl'. destruct Fl' as [L1 L2].
      destruct (IH1 ltac:(lia) L1) as [G1 V1]. destruct (IH2 ltac:(lia) L2) as [G2 V2]. destruct (fadd_zero a b G1 G2) as [G E].
      { destruct l1 as [|y1 l1]; [left; exact V1|]. destruct l2 as [|y2 l2]; [right; exact V2|]. cbn in EL. lia. }
      split; [exact G|]. etransitivity; [exact E|]. etransitivity; [exact (f_equal2 Rplus V1 V2)|]. symmetry. etransitivity; [exact (lsum_perm _ _ (Permutation_map (fun x : dbl => B2R x) P))|]. rewrite map_app, lsum_app. reflexivity. }
  destruct (G [x] (fsum [x]) (Hs [x]) ltac:(cbn; lia) ltac:(repeat constructor; exact F)) as [G1 G2]. split; [exact G1|]. rewrite G2. cbn. ring.
Qed.
Lemma inf_add_finite (b : dbl) : is_finite b = true -> fadd (B754_infinity false) b = B754_infinity false /\ fadd b (B754_infinity false) = B754_infinity false.
Proof using. destruct b; try discriminate; split; reflexivity. Qed.
Lemma sum_inf l s : sum_of l s -> List.Forall (fun x : dbl => x = B754_infinity false \/ modest x) l -> INR (length l) <= bpow radix2 20 -> In (B754_infinity false : dbl) l -> s = B754_infinity false.
Proof using.
  induction 1 as [|x|l l1 l2 a b P S1 IH1 S2 IH2]; intros F B I; [destruct I|destruct I as [I|[]]; exact I|].
  assert (EL : length l = (length l1 + length l2)%nat) by (rewrite (Permutation_length P), app_length; reflexivity). rewrite EL, plus_INR in B. pose proof (pos_INR (length l1)). pose proof (pos_INR (length l2)).
  assert (F' := Permutation_Forall P F). apply Forall_app in F'. destruct F' as [F1 F2]. apply (Permutation_in _ P) in I. apply in_app_or in I.
  assert (D : forall l', List.Forall (fun x : dbl => x = B754_infinity false \/ modest x) l' -> In (B754_infinity false : dbl) l' \/ List.Forall modest l').
  { clear. induction 1 as [|x l' [-> | M] _ [IH|IH]]; [right; constructor|left; left; reflexivity|left; left; reflexivity|left; right; exact IH|right; constructor; assumption]. }
  change (Bplus mode_NE a b) with (fadd a b). destruct (D l1 F1) as [I1|M1].
  - rewrite (IH1 F1 ltac:(lra) I1). destruct (D l2 F2) as [I2|M2]; [rewrite (IH2 F2 ltac:(lra) I2); reflexivity|]. apply inf_add_finite. exact (proj1 (sum_accuracy_signed l2 b S2 M2 ltac:(lra))).
  - assert (I2 : In (B754_infinity false : dbl) l2). { destruct I as [I|I]; [|exact I]. exfalso. rewrite List.Forall_forall in M1. destruct (M1 _ I) as [Fi _]. discriminate. }
    rewrite (IH2 F2 ltac:(lra) I2). apply inf_add_finite. exact (proj1 (sum_accuracy_signed l1 a S1 M1 ltac:(lra))).
Qed.
Lemma entropy_zero n (L : nat -> dbl) : INR n <= bpow radix2 20 -> (forall k, (k < n)%nat -> is_finite (L k) = true /\ 0 <= B2R (L k)) -> (exists k, (k < n)%nat /\ B2R (L k) = 0) ->
  fmul f_half (fsum (map (fun k => fadd (fadd (fmul f_mone (flog (L k))) f_one) f_log2pi) (seq 0 n))) = B754_infinity false.
Proof using Hl Hs.
  intros Hn HL (k & Hk & Zk). destruct log2pi_close as (Fc & _ & _).
  assert (Z : forall j, (j < n)%nat -> B2R (L j) = 0 -> fadd (fadd (fmul f_mone (flog (L j))) f_one) f_log2pi = B754_infinity false).
  { intros j Hj Zj. destruct (HL j Hj) as [F _]. assert (El : exists s, L j = B754_zero s). { destruct (L j) as [s|s| |s m e b]; try discriminate; [exists s; reflexivity|]. exfalso. cbn [B2R] in Zj. apply eq_0_F2R in Zj. destruct s; discriminate. }
    destruct El as [s ->]. rewrite (log_zero _ (lg_ok _ Hl)). change (fadd (fmul f_mone (B754_infinity true)) f_one) with (B754_infinity false : dbl). exact (proj1 (inf_add_finite f_log2pi Fc)). }
  rewrite (sum_inf _ _ (Hs _)); [reflexivity| | |].
  - apply Forall_forall. intros y Hy. apply in_map_iff in Hy. destruct Hy as (j & <- & Hj). apply in_seq in Hj. destruct (HL j ltac:(lia)) as [F P]. destruct (Req_dec (B2R (L j)) 0) as [E|E]; [left; apply Z; [lia|exact E]|right].
    destruct (entropy_term (L j) F ltac:(lra)) as (Ft & B & C & _). split; [exact Ft|]. apply Rle_trans with (bpow radix2 12); [change (bpow radix2 12) with 4096; lra|apply bpow_le; lia].
  - rewrite map_length, seq_length. exact Hn.
  - apply in_map_iff. exists k. split; [apply Z; assumption|]. apply in_seq. lia.
Qed.
End Term.
