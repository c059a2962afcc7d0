(** Proofs about the log expectations of Wishart matrices in binary64. *)
From Coq Require Import Reals ZArith List Lra Lia Bool String.
From Flocq Require Import Core BinarySingleNaN Relative.
From Verif Require Import Res Nd RSum ModelNumpy SpecFloat SpecFloatSimplex SpecFloatAcc SpecFloatMatrix SpecFloatFam SpecFloatGamma SpecFloatDirichlet ModelFloat ModelFloatSimplex ModelFloatDict ModelFloatFamilies ModelFloatLogit ModelFloatWishart
  LemmasPosDef LemmasNumpy LemmasFloat LemmasFloat2 LemmasFloat3 LemmasFloat4 LemmasFloat5 LemmasFloatDefault LemmasFloatSimplex LemmasFloatSimplex2 LemmasFloatSimplex4 LemmasFloatAcc LemmasFloatAcc2 LemmasFloatFam LemmasFloatFam6 LemmasFloatFam7 LemmasFloatLogit LemmasFloatPrior LemmasFloatPrior2.
From Verif Require LemmasFloatDefault LemmasFloatGamma.
Import List ListNotations.
Set Bullet Behavior "Strict Subproofs".
Open Scope R_scope.

Section Exact.
Context (x y : dbl) (v : R) (Fx : is_finite x = true) (Fy : is_finite y = true) (Hv : rnd64 v = v) (Bv : Rabs v <= bpow radix2 1000).
Lemma exact_small : ~ bpow radix2 1024 <= Rabs (rnd64 v).
Proof using Hv Bv. rewrite Hv. pose proof (bpow_lt radix2 1000 1024 ltac:(lia)). lra. Qed.
Lemma add_exact : B2R x + B2R y = v -> is_finite (fadd x y) = true /\ B2R (fadd x y) = v.
Proof using Fx Fy Hv Bv. intros E. destruct (fadd_cases x y Fx Fy) as [(_ & A & B & _)|(A & _)]; rewrite E in A; [rewrite Hv in A; split; assumption|destruct (exact_small A)]. Qed.
Lemma sub_exact : B2R x - B2R y = v -> is_finite (fsub x y) = true /\ B2R (fsub x y) = v.
Proof using Fx Fy Hv Bv. intros E. destruct (fsub_cases x y Fx Fy) as [(_ & A & B & _)|(A & _)]; rewrite E in A; [rewrite Hv in A; split; assumption|destruct (exact_small A)]. Qed.
Lemma mul_exact : B2R x * B2R y = v -> is_finite (fmul x y) = true /\ B2R (fmul x y) = v.
Proof using Fx Fy Hv Bv. intros E. destruct (fmul_cases x y Fx Fy) as [(_ & A & B & _)|(A & _)]; rewrite E in A; [rewrite Hv in A; split; assumption|destruct (exact_small A)]. Qed.
Lemma div_exact : B2R y <> 0 -> B2R x / B2R y = v -> is_finite (fdiv x y) = true /\ B2R (fdiv x y) = v.
Proof using Fx Hv Bv. intros N E. destruct (fdiv_cases x y Fx N) as [(_ & A & B & _)|(A & _)]; rewrite E in A; [rewrite Hv in A; split; assumption|destruct (exact_small A)]. Qed.
End Exact.

Section Size.
Context (n : nat) (Hn : INR n <= bpow radix2 20).
Lemma nat_small i : (i <= n)%nat -> INR i <= bpow radix2 20.
Proof using Hn. intros H. apply Rle_trans with (2 := Hn). apply le_INR. exact H. Qed.
Lemma nat_rnd i : (i <= n)%nat -> rnd64 (INR i) = INR i /\ Rabs (INR i) <= bpow radix2 1000.
Proof using Hn.
  intros H. pose proof (nat_small i H) as B. destruct (f_of_nat_B2R i B) as [_ E]. split; [rewrite <- E; apply rnd64_id|]. rewrite Rabs_pos_eq by apply pos_INR. apply Rle_trans with (1 := B). apply bpow_le. lia.
Qed.
Lemma zero_val : is_finite fz = true /\ B2R fz = 0. Proof. split; reflexivity. Qed.
Lemma linspace_entry i : (i < n)%nat -> let e := entry (f_linspace fz (fsub (f_of_nat n) f_one) n) i in is_finite e = true /\ B2R e = INR i.
Proof using Hn.
  intros Hi e. unfold e, f_linspace, entry. cbn [data]. rewrite (nth_indep _ dzero (let f := (fun i0 : nat => if Nat.ltb 1 n then (if Nat.eqb (S i0) n then fsub (f_of_nat n) f_one else fadd (fmul (f_of_nat i0) (fdiv (fsub (fsub (f_of_nat n) f_one) fz) (f_of_nat (n - 1)))) fz) else fadd (fmul (f_of_nat i0) (fsub (fsub (f_of_nat n) f_one) fz)) fz) in f 0%nat)) by (rewrite map_length, seq_length; exact Hi).
  cbv zeta. rewrite map_nth, seq_nth by exact Hi. rewrite Nat.add_0_l.
  destruct (f_of_nat_B2R n Hn) as [Fn En]. destruct (f_of_nat_B2R i (nat_small i ltac:(lia))) as [Fi Ei]. destruct (f_of_nat_B2R (n - 1) (nat_small (n - 1) ltac:(lia))) as [Fm Em]. destruct (nat_rnd (n - 1) ltac:(lia)) as [R1 B1]. destruct (nat_rnd i ltac:(lia)) as [Ri Bi]. destruct (nat_rnd 1 ltac:(lia)) as [Ro Bo]. change (INR 1) with 1 in Ro, Bo. destruct zero_val as [F0 E0].
  destruct (sub_exact (f_of_nat n) f_one (INR (n - 1)) Fn one_finite R1 B1) as [Fs Es]; [rewrite En, one_B2R, minus_INR by lia; reflexivity|]. destruct (sub_exact (fsub (f_of_nat n) f_one) fz (INR (n - 1)) Fs F0 R1 B1) as [Fd Ed]; [rewrite Es, E0; ring|].
  destruct (Nat.ltb_spec 1 n) as [L|L].
  - destruct (Nat.eqb_spec (S i) n) as [Q|Q]; [split; [exact Fs|rewrite Es; f_equal; lia]|]. assert (N0 : INR (n - 1) <> 0) by (apply not_0_INR; lia).
    destruct (div_exact (fsub (fsub (f_of_nat n) f_one) fz) (f_of_nat (n - 1)) 1 Fd Ro Bo) as [Fq Eq]; [rewrite Em; exact N0|rewrite Ed, Em; field; exact N0|]. destruct (mul_exact (f_of_nat i) _ (INR i) Fi Fq Ri Bi) as [Fp Ep]; [rewrite Ei, Eq; ring|]. apply add_exact; try assumption. rewrite Ep, E0. ring.
  - assert (n = 1%nat) by lia. assert (i = 0%nat) by lia. subst i. destruct (mul_exact (f_of_nat 0) _ (INR 0) Fi Fd Ri Bi) as [Fp Ep]; [rewrite Ei; cbn; ring|]. apply add_exact; try assumption. rewrite Ep, E0. ring.
Qed.
Lemma half_nat (h : dbl) i : (i < n)%nat -> is_finite h = true -> B2R h = INR i -> is_finite (fmul f_half h) = true /\ B2R (fmul f_half h) = INR i / 2.
Proof using Hn.
  intros Hi Fh Eh. pose proof (nat_small i ltac:(lia)) as B. pose proof (pos_INR i) as P. assert (F2 : is_finite f_half = true) by reflexivity. assert (E2 : B2R f_half = / 2) by exact LemmasFloatDefault.f_half_B2R.
  apply mul_exact; [exact F2|exact Fh| | |rewrite E2, Eh; field].
  - destruct i as [|i]; [cbn; replace (0 / 2) with 0 by field; apply rnd64_0|]. replace (INR (S i) / 2) with (/ 2 * INR (S i)) at 1 by field. apply half_format; [rewrite <- Eh; exact (generic_format_B2R 53 1024 h)|]. apply Rle_trans with 1; [change 1 with (bpow radix2 0); apply bpow_le; lia|]. rewrite S_INR. pose proof (pos_INR i). lra.
  - rewrite Rabs_pos_eq by lra. apply Rle_trans with (bpow radix2 20); [lra|apply bpow_le; lia].
Qed.
End Size.
Lemma bin_lead op f v n : proper [] f \/ proper [1%nat] f -> proper [n] v -> exists e, f_bin op f v = Ok e /\ proper [n] e /\ forall k, (k < n)%nat -> entry e k = op (entry f 0) (entry v k).
Proof.
  intros [Pf|Pf] Pv.
  - destruct f as [sf df]. destruct Pf as [Sf Lf]. cbn [shape data] in Sf, Lf. subst sf. destruct df as [|y [|z df]]; try discriminate Lf. destruct (bin_scalar_l op [n] y v Pv) as (e & E & Pe & K). exists e. split; [exact E|]. split; [exact Pe|]. intros k Hk. apply K. rewrite nprod_1. exact Hk.
  - destruct f as [sf df], v as [sv dv]. destruct Pf as [Sf Lf]. destruct Pv as [Sv Lv]. cbn [shape data] in *. subst sf sv. pose proof (mk_nd_eta fz (Nd [1%nat] df) Lf) as Mf. pose proof (mk_nd_eta fz (Nd [n] dv) Lv) as Mv. cbn [shape] in Mf, Mv.
    set (f := Nd [1%nat] df) in *. set (v := Nd [n] dv) in *. eexists. split; [unfold f_bin; etransitivity; [exact (f_equal2 (np_bin fz fz op) Mf Mv)|exact (np_bin_one fz fz op [] n (nd_at fz f) (nd_at fz v))]|].
    split; [split; [reflexivity|unfold mk_nd; cbn [data]; rewrite map_length; apply LemmasPosDef.product_length]|]. intros k Hk. assert (Hk' : (k < nprod [n])%nat) by (rewrite nprod_1; exact Hk). change (mk_nd ([] ++ [n])) with (@mk_nd dbl [n]). rewrite entry_mk by exact Hk'. f_equal. unfold nd_at, entry, v. cbn [shape data]. rewrite ravel_nth by exact Hk'. reflexivity.
Qed.

Lemma rsum_triangle n f : Rabs (rsum n f) <= rsum n (fun i => Rabs (f i)).
Proof.
  induction n as [|n IH]; [cbn; rewrite Rabs_R0; apply Rle_refl|]. cbn [rsum]. eapply Rle_trans; [apply Rabs_triang|]. lra.
Qed.
Section Digamma.
Context (fpsi : dbl -> dbl) (psi : R -> R) (Hp : computes fpsi psi) (Hc : steady psi) (fsum : list dbl -> dbl) (Hs : sums fsum).
Definition psize (D : R) : R := 1 + Rabs (psi D) + / D.
Lemma digamma_term (x h : dbl) : is_finite x = true -> is_finite h = true -> let D := B2R x - B2R h in bpow radix2 (-99) <= D <= bpow radix2 79 -> let t := fpsi (fsub x h) in
  is_finite t = true /\ 1 <= psize D <= bpow radix2 203 /\ Rabs (psi D) <= psize D /\ Rabs (B2R t - psi D) <= 69 * u * psize D.
Proof using Hp Hc.
  intros Fx Fh D [L U] t. small_u. pose proof (bpow_gt_0 radix2 (-99)) as p99. assert (D0 : 0 < D) by lra. assert (iD : 0 < / D) by (apply Rinv_0_lt_compat; exact D0). assert (aD : Rabs D = D) by (apply Rabs_pos_eq; lra).
  destruct (fsub_rel x h Fx Fh) as [Fy Ey]; [fold D; rewrite aD; apply Rle_trans with (1 := U); apply bpow_le; lia|]. fold D in Ey. rewrite aD in Ey. set (y := fsub x h) in *. assert (uD : u * D <= / 100000000 * D) by (apply Rmult_le_compat_r; lra).
  assert (fa : fair_arg y). { split; [exact Fy|]. apply Rabs_le_inv in Ey. assert (2 * bpow radix2 (-100) = bpow radix2 (-99)) by (change 2 with (bpow radix2 1); rewrite <- bpow_plus; reflexivity). assert (2 * bpow radix2 79 <= bpow radix2 100) by (change 2 with (bpow radix2 1); rewrite <- bpow_plus; apply bpow_le; lia). lra. }
  destruct (Hp y fa) as (By & Ft & Et). rewrite units_u in Et. pose proof (Hc D (B2R y) u D0 ltac:(lra) Ey) as Ec. fold t in Ft, Et. set (q := psi D) in *. set (q' := psi (B2R y)) in *. pose proof (Rabs_pos q) as q0. set (W := 1 + / D). replace (4 * u * (1 + / D)) with (4 * (u * W)) in Ec by (unfold W; ring).
  assert (uW : 0 <= u * W <= / 100000000 * W) by (split; [apply Rmult_le_pos; unfold W; lra|apply Rmult_le_compat_r; unfold W; lra]). assert (uq0 : 0 <= u * Rabs q) by (apply Rmult_le_pos; lra). assert (q'B : Rabs q' <= Rabs q + 4 * (u * W)) by (replace q' with ((q' - q) + q) by ring; eapply Rle_trans; [apply Rabs_triang|]; lra).
  assert (uq : u * Rabs q' <= u * (Rabs q + 4 * (u * W))) by (apply Rmult_le_compat_l; lra). assert (uuW : u * (u * W) <= / 100000000 * (u * W)) by (apply Rmult_le_compat_r; lra). replace (u * (Rabs q + 4 * (u * W))) with (u * Rabs q + 4 * (u * (u * W))) in uq by ring. assert (uW1 : u <= u * W) by (rewrite <- (Rmult_1_r u) at 1; apply Rmult_le_compat_l; unfold W; lra).
  unfold psize. fold q. split; [exact Ft|]. split; [split; [lra|]|split; [lra|]].
  - assert (iB : / D <= bpow radix2 99) by (replace (bpow radix2 99) with (/ bpow radix2 (-99)) by (rewrite <- bpow_opp; reflexivity); apply Rinv_le; lra). assert (qB : Rabs q <= bpow radix2 200 + 4 * (u * W)) by (replace q with (- (q' - q) + q') by ring; eapply Rle_trans; [apply Rabs_triang|]; rewrite Rabs_Ropp; lra).
    assert (bpow radix2 99 <= bpow radix2 200) by (apply bpow_le; lia). assert (1 <= bpow radix2 200) by (change 1 with (bpow radix2 0); apply bpow_le; lia). assert (bpow radix2 203 = 8 * bpow radix2 200) by (change 8 with (bpow radix2 3); rewrite <- bpow_plus; reflexivity). unfold W in *. lra.
  - replace (64 * u * (1 + Rabs q')) with (64 * u + 64 * (u * Rabs q')) in Et by ring. replace (69 * u * (1 + Rabs q + / D)) with (69 * (u * Rabs q) + 69 * (u * W)) by (unfold W; ring). replace (B2R t - q) with ((B2R t - q') + (q' - q)) by ring. eapply Rle_trans; [apply Rabs_triang|]. lra.
Qed.
Lemma digamma_sum n (x : dbl) (h : nat -> dbl) : INR n <= bpow radix2 20 -> is_finite x = true -> (forall i, (i < n)%nat -> is_finite (h i) = true /\ B2R (h i) = INR i / 2 /\ bpow radix2 (-99) <= B2R x - INR i / 2 <= bpow radix2 79) ->
  let m := fsum (tab n (fun i => fpsi (fsub x (h i)))) in let Z := rsum n (fun i => psize (B2R x - INR i / 2)) in let M := rsum n (fun i => psi (B2R x - INR i / 2)) in
  is_finite m = true /\ INR n <= Z <= bpow radix2 223 /\ Rabs M <= Z /\ Rabs (B2R m - M) <= (69 + 3 * INR n) * u * Z.
Proof using Hp Hc Hs.
  intros Hn Fx H m Z M. small_u. set (T := fun i => psi (B2R x - INR i / 2)) in *. set (S := fun i => psize (B2R x - INR i / 2)) in *.
  assert (K : forall i, (i < n)%nat -> let t := fpsi (fsub x (h i)) in is_finite t = true /\ 1 <= S i <= bpow radix2 203 /\ Rabs (T i) <= S i /\ Rabs (B2R t - T i) <= 69 * u * S i).
  { intros i Hi. destruct (H i Hi) as (A & B & C). pose proof (digamma_term x (h i) Fx A) as X. cbv zeta in X. rewrite B in X. exact (X C). }
  assert (SA : rsum n (fun i => 69 * u * S i) = 69 * u * Z) by apply rsum_scal_l. assert (ST : rsum n (fun i => Rabs (T i)) <= Z) by (apply rsum_le; intros i Hi; apply (K i Hi)). assert (Sn : INR n <= Z) by (apply Rle_trans with (rsum n (fun _ => 1)); [rewrite rsum_const; lra|apply rsum_le; intros i Hi; apply (K i Hi)]). pose proof (pos_INR n) as n0.
  assert (SB : Z <= bpow radix2 223). { apply Rle_trans with (INR n * bpow radix2 203); [unfold Z; rewrite <- rsum_const; apply rsum_le; intros i Hi; apply (K i Hi)|]. change (bpow radix2 223) with (bpow radix2 (20 + 203)). rewrite bpow_plus. apply Rmult_le_compat_r; [apply bpow_ge_0|exact Hn]. }
  assert (uS : 0 <= u * Z <= / 100000000 * Z) by (split; [apply Rmult_le_pos; lra|apply Rmult_le_compat_r; lra]). assert (c : 2 * bpow radix2 223 <= bpow radix2 500) by (change 2 with (bpow radix2 1); rewrite <- bpow_plus; apply bpow_le; lia).
  destruct (sum_about n Hn fsum Hs (fun i => fpsi (fsub x (h i))) T (fun i => 69 * u * S i)) as [F E].
  - intros i Hi. destruct (K i Hi) as (A & _ & _ & B). split; [exact A|exact B].
  - rewrite SA. replace (69 * u * Z) with (69 * (u * Z)) by ring. lra.
  - split; [exact F|]. split; [split; assumption|]. split; [apply Rle_trans with (2 := ST); apply rsum_triangle|]. apply Rle_trans with (1 := E). rewrite SA. pose proof (n_u n Hn) as [N0 N1]. assert (X : 2 * INR n * u * (rsum n (fun k => Rabs (T k)) + 69 * u * Z) <= 2 * INR n * u * (11 / 10 * Z)) by (apply Rmult_le_compat_l; [lra|replace (69 * u * Z) with (69 * (u * Z)) by ring; lra]).
    assert (0 <= INR n * u * Z) by (apply Rmult_le_pos; lra). replace (2 * INR n * u * (11 / 10 * Z)) with (22 / 10 * (INR n * u * Z)) in X by field. replace ((69 + 3 * INR n) * u * Z) with (69 * u * Z + 3 * (INR n * u * Z)) by ring. lra.
Qed.
Lemma multivariate_digamma_value n (x : nd dbl) : INR n <= bpow radix2 20 -> proper [] x \/ proper [1%nat] x -> exists h, f_multivariate_digamma fpsi fsum x n = Ok (nd_scalar (fsum (tab n (fun i => fpsi (fsub (entry x 0) (h i)))))) /\ forall i, (i < n)%nat -> is_finite (h i) = true /\ B2R (h i) = INR i / 2.
Proof using.
  intros Hn Px. set (l := f_linspace fz (fsub (f_of_nat n) f_one) n). assert (Pl : proper [n] l) by (split; [reflexivity|unfold l, f_linspace; cbn [data]; rewrite map_length, seq_length, nprod_1; reflexivity]). destruct (bin_scalar_l fmul [n] f_half l Pl) as (h & Eh & Ph & Kh). destruct (bin_lead fsub x h n Px Ph) as (y & Ey & Py & Ky). destruct (map_entry fpsi [n] y Py) as [Pt Kt].
  exists (entry h). split.
  - unfold f_multivariate_digamma. fold l. etransitivity; [exact (f_equal (fun r => rbind r _) Eh)|]. cbn [rbind]. etransitivity; [exact (f_equal (fun r => rbind r _) Ey)|]. cbn [rbind]. apply (f_equal (fun l => Ok (nd_scalar (fsum l)))). pose proof (proj2 Pt) as Lt. rewrite nprod_1 in Lt. apply (nth_ext _ _ dzero dzero); [rewrite tab_length; exact Lt|]. intros k Hk. assert (Hk' : (k < n)%nat) by (rewrite <- Lt; exact Hk). rewrite tab_nth by exact Hk'. etransitivity; [apply (Kt k); rewrite nprod_1; exact Hk'|]. rewrite (Ky k Hk'). reflexivity.
  - intros i Hi. rewrite (Kh i) by (rewrite nprod_1; exact Hi). destruct (linspace_entry n Hn i Hi) as [F E]. exact (half_nat n Hn _ i Hi F E).
Qed.
End Digamma.

Lemma log_det_sum (flog : dbl -> dbl) (Hl : log_good flog) n (m L : dbl) (M Z l E : R) : (1 <= n)%nat -> INR n <= bpow radix2 20 -> is_finite m = true -> INR n <= Z <= bpow radix2 223 -> Rabs M <= Z -> Rabs (B2R m - M) <= (69 + 3 * INR n) * u * Z ->
  is_finite L = true -> Rabs (B2R L - l) <= E -> Rabs l + E <= bpow radix2 900 -> let e := fadd (fadd m (fmul (f_of_nat n) (flog (f_int 2)))) L in
  is_finite e = true /\ Rabs (B2R e - (M + INR n * ln 2 + l)) <= (92 + 3 * INR n) * u * (Z + Rabs l) + 2 * E.
Proof.
  intros N1 Hn Fm [Zn ZB] BM Em FL EL Bl e. small_u. assert (one : 1 <= INR n) by (change 1 with (INR 1); apply le_INR; exact N1). pose proof (n_u n Hn) as [Nu0 Nu1]. pose proof (Rabs_pos (B2R L - l)) as E0. pose proof (Rabs_pos l) as l0.
  assert (E2 : B2R (f_int 2) = 2) by (apply (dint_B2R 2); reflexivity). destruct (LemmasFloatGamma.log_value flog Hl (f_int 2) eq_refl ltac:(rewrite E2; lra)) as (Fg & _ & Eg). rewrite E2 in Eg. set (g := B2R (flog (f_int 2))) in *.
  assert (ln2a : 0 < ln 2) by (rewrite <- ln_1; apply ln_increasing; lra). assert (ln2b : ln 2 < 1) by (rewrite <- (ln_exp 1); apply ln_increasing; [lra|pose proof (exp_ineq1 1 ltac:(lra)); lra]). set (w := ln 2) in *. rewrite (Rabs_pos_eq w) in Eg by lra. assert (Eg' : Rabs (g - w) <= 16 * u) by (assert (u * w <= u * 1) by (apply Rmult_le_compat_l; lra); replace (8 * u * (1 + w)) with (8 * u + 8 * (u * w)) in Eg by ring; lra).
  destruct (f_of_nat_B2R n Hn) as [Fn En]. set (N := INR n) in *. assert (uZ : 0 <= u * Z <= / 100000000 * Z) by (split; [apply Rmult_le_pos; lra|apply Rmult_le_compat_r; lra]). assert (NuZ : 0 <= N * u * Z <= / 1000000000 * Z) by (split; [apply Rmult_le_pos; lra|apply Rmult_le_compat_r; lra]). assert (uN : u * N <= u * Z) by (apply Rmult_le_compat_l; lra). assert (ul : 0 <= u * Rabs l) by (apply Rmult_le_pos; lra). assert (uE : 0 <= u * E <= / 100000000 * E) by (split; [apply Rmult_le_pos; lra|apply Rmult_le_compat_r; lra]). assert (Nul : 0 <= N * u * Rabs l) by (apply Rmult_le_pos; lra).
  assert (Nw : 0 <= N * w <= N) by (split; [apply Rmult_le_pos; lra|rewrite <- (Rmult_1_r N) at 2; apply Rmult_le_compat_l; lra]).
  assert (Dp : Rabs (N * g - N * w) <= 16 * (u * Z)). { replace (N * g - N * w) with (N * (g - w)) by ring. rewrite Rabs_mult, (Rabs_pos_eq N) by lra. assert (N * Rabs (g - w) <= N * (16 * u)) by (apply Rmult_le_compat_l; lra). lra. }
  assert (Bp : Rabs (N * g) <= 1001 / 1000 * Z) by (replace (N * g) with ((N * g - N * w) + N * w) by ring; eapply Rle_trans; [apply Rabs_triang|]; rewrite (Rabs_pos_eq (N * w)) by lra; lra).
  assert (c1 : bpow radix2 223 <= bpow radix2 900) by (apply bpow_le; lia). assert (c2 : 16 * bpow radix2 900 <= bpow radix2 1000) by (change 16 with (bpow radix2 4); rewrite <- bpow_plus; apply bpow_le; lia). pose proof (bpow_gt_0 radix2 900) as c0.
  destruct (fmul_rel (f_of_nat n) (flog (f_int 2)) Fn Fg) as (Fc & _ & Ec); [rewrite En; fold N g; lra|]. rewrite En in Ec. fold N g in Ec. set (c := fmul (f_of_nat n) (flog (f_int 2))) in *. assert (u * Rabs (N * g) <= u * (1001 / 1000 * Z)) by (apply Rmult_le_compat_l; lra). assert (tiny : bpow radix2 (-1074) <= / 2 * u) by (change (/ 2) with (bpow radix2 (-1)); unfold u; rewrite <- bpow_plus; apply bpow_le; lia).
  assert (uZ1 : u <= u * Z) by (rewrite <- (Rmult_1_r u) at 1; apply Rmult_le_compat_l; lra). assert (Dc : Rabs (B2R c - N * w) <= 176 / 10 * (u * Z)) by (replace (B2R c - N * w) with ((B2R c - N * g) + (N * g - N * w)) by ring; eapply Rle_trans; [apply Rabs_triang|]; lra).
  replace ((69 + 3 * N) * u * Z) with (69 * (u * Z) + 3 * (N * u * Z)) in Em by ring.
  assert (Dmc : Rabs (B2R m + B2R c - (M + N * w)) <= 866 / 10 * (u * Z) + 3 * (N * u * Z)) by (replace (B2R m + B2R c - (M + N * w)) with ((B2R m - M) + (B2R c - N * w)) by ring; eapply Rle_trans; [apply Rabs_triang|]; lra).
  assert (BMw : Rabs (M + N * w) <= 2 * Z) by (eapply Rle_trans; [apply Rabs_triang|]; rewrite (Rabs_pos_eq (N * w)) by lra; lra). assert (Bmc : Rabs (B2R m + B2R c) <= 201 / 100 * Z) by (replace (B2R m + B2R c) with ((B2R m + B2R c - (M + N * w)) + (M + N * w)) by ring; eapply Rle_trans; [apply Rabs_triang|]; lra).
  destruct (fadd_rel m c Fm Fc ltac:(lra)) as [Fa Ea]. set (a := fadd m c) in *. assert (u * Rabs (B2R m + B2R c) <= u * (201 / 100 * Z)) by (apply Rmult_le_compat_l; lra). assert (Da : Rabs (B2R a - (M + N * w)) <= 887 / 10 * (u * Z) + 3 * (N * u * Z)) by (replace (B2R a - (M + N * w)) with ((B2R a - (B2R m + B2R c)) + (B2R m + B2R c - (M + N * w))) by ring; eapply Rle_trans; [apply Rabs_triang|]; lra).
  assert (Ds : Rabs (B2R a + B2R L - (M + N * w + l)) <= 887 / 10 * (u * Z) + 3 * (N * u * Z) + E) by (replace (B2R a + B2R L - (M + N * w + l)) with ((B2R a - (M + N * w)) + (B2R L - l)) by ring; eapply Rle_trans; [apply Rabs_triang|]; lra).
  assert (Bs : Rabs (B2R a + B2R L) <= 202 / 100 * Z + Rabs l + E). { replace (B2R a + B2R L) with ((B2R a + B2R L - (M + N * w + l)) + ((M + N * w) + l)) by ring. eapply Rle_trans; [apply Rabs_triang|]. pose proof (Rabs_triang (M + N * w) l) as T. lra. }
  destruct (fadd_rel a L Fa FL ltac:(lra)) as [Fe Ee]. fold e in Fe, Ee. split; [exact Fe|]. assert (uB : u * Rabs (B2R a + B2R L) <= u * (202 / 100 * Z + Rabs l + E)) by (apply Rmult_le_compat_l; lra). replace (u * (202 / 100 * Z + Rabs l + E)) with (202 / 100 * (u * Z) + u * Rabs l + u * E) in uB by field.
  replace ((92 + 3 * N) * u * (Z + Rabs l)) with (92 * (u * Z) + 3 * (N * u * Z) + 92 * (u * Rabs l) + 3 * (N * u * Rabs l)) by ring. replace (B2R e - (M + N * w + l)) with ((B2R e - (B2R a + B2R L)) + (B2R a + B2R L - (M + N * w + l))) by ring. eapply Rle_trans; [apply Rabs_triang|]. lra.
Qed.
