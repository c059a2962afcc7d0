(** Property C151: the log expectation of the diagonal of the inverse of Wishart matrices and the expected LKJ prior in double precision. *)
From Coq Require Import Reals ZArith List Lra Lia Bool String.
From Flocq Require Import Core BinarySingleNaN.
From Verif Require Import Res Nd RSum ModelNumpy ModelFloat ModelFloatSimplex ModelFloatDict ModelFloatFamilies ModelFloatLogit ModelFloatWishart ModelFloatWishart2 SpecFloat SpecFloatSimplex SpecFloatAcc SpecFloatMatrix SpecFloatGamma SpecFloatDirichlet SpecFloatWishart
  LemmasNumpy LemmasFloat LemmasFloat2 LemmasFloat3 LemmasFloat4 LemmasFloatDefault LemmasFloatSimplex LemmasFloatSimplex2 LemmasFloatSimplex4 LemmasFloatAcc LemmasFloatAcc2 LemmasFloatFam LemmasFloatFam6 LemmasFloatFam7 LemmasFloatPrior2 LemmasFloatWishart LemmasFloatWishart2 PropsFloat15 PropsFloat20 PropsFloat21 PropsFloat22.
From Verif Require LemmasFloatDefault LemmasFloatGamma.
From Verif Require Import SpecFloatFam.
Import List ListNotations.
Set Bullet Behavior "Strict Subproofs".
Open Scope R_scope.

(** e_log_inv_wishart_diag(df, v), where inv(v) has the diagonal d: n finite numbers, entry i close to ln(d_i) - psi((df - n + 1)/2) - ln 2 *)
Theorem C151_e_log_inv_diag : forall flog fpsi psi finv, log_good flog -> computes fpsi psi -> steady psi -> forall n df v vi, INR n <= bpow radix2 20 -> proper [] df \/ proper [1%nat] df -> is_finite (entry df 0) = true ->
  let nu := B2R (entry df 0) in INR n <= nu <= bpow radix2 79 -> proper [n; n] v -> finv v = Ok vi -> proper [n; n] vi -> (forall i, (i < n)%nat -> is_finite (entry vi (i * n + i)) = true /\ 0 < B2R (entry vi (i * n + i))) ->
  exists e, f_e_log_inv_wishart_diag flog fpsi finv df v = Ok e /\ proper [n] e /\ forall i, (i < n)%nat -> let d := B2R (entry vi (i * n + i)) in let p := psi ((nu - INR n + 1) / 2) in
    is_finite (entry e i) = true /\ Rabs (B2R (entry e i) - (ln d - p - ln 2)) <= units 130 * (1 + Rabs (ln d) + Rabs p).
Proof.
  intros flog fpsi psi finv Hl Hp Hc n df v vi Hn Pd Fd nu B Pv Ei Pi Hd. destruct (diag_value flog fpsi finv n df v vi Pd Pv Ei Pi) as (e & E & Pe & K). exists e. split; [exact E|]. split; [exact Pe|]. intros i Hi. cbv zeta. destruct (Hd i Hi) as [Fi Gi]. destruct (argument n (entry df 0) Hn Fd B) as (fc & D1 & Dc). rewrite (K i Hi), units_u.
  exact (diag_entry flog fpsi psi Hl Hp Hc (entry vi (i * n + i)) _ _ Fi Gi fc D1 Dc).
Qed.
Print Assumptions C151_e_log_inv_diag.
Lemma tiny_absorbed (x : dbl) : is_finite x = true -> 0 < B2R x <= bpow radix2 (-55) -> B2R (fmul f_half (fadd (fsub x (f_of_nat 1)) f_one)) = 0.
Proof.
  intros Fx [P U]. destruct (f_of_nat_B2R 1 ltac:(cbn; lra)) as [F1 E1]. change (INR 1) with 1 in E1. assert (M1 : rnd64 (-1) = -1) by (rewrite <- mone_B2R; apply rnd64_id).
  assert (T : rnd64 (bpow radix2 (-55) - 1) = -1). { set (t := binary_normalize 53 1024 prec53 emax1024 mode_NE 1 (-55) false : dbl). assert (Et : B2R t = bpow radix2 (-55)) by (unfold t; cbn; unfold F2R; cbn; lra). destruct (fsub_cases t f_one eq_refl one_finite) as [(_ & A & _)|(A & _)]; rewrite Et, one_B2R in A.
    - rewrite <- A. rewrite <- (SF2R_B2SF 53 1024). replace (B2SF (fsub t f_one)) with (SpecFloat.S754_finite true 4503599627370496 (-52)) by (vm_compute; reflexivity). cbn. unfold F2R. cbn. lra.
    - exfalso. pose proof (rnd64_fin (bpow radix2 (-55) - 1) 0 ltac:(lia)) as X. assert (bpow radix2 (-55) <= 1) by (change 1 with (bpow radix2 0); apply bpow_le; lia). pose proof (bpow_gt_0 radix2 (-55)). specialize (X ltac:(apply Rabs_le; change (bpow radix2 0) with 1; lra)). lra. }
  assert (R : rnd64 (B2R x - 1) = -1) by (apply Rle_antisym; [rewrite <- T; apply rnd64_le; lra|rewrite <- M1 at 1; apply rnd64_le; lra]). assert (b0 : 1 <= bpow radix2 1024) by (change 1 with (bpow radix2 0); apply bpow_le; lia).
  destruct (fsub_cases x (f_of_nat 1) Fx F1) as [(_ & A & F & _)|(A & _)]; rewrite E1, R in A; [|exfalso; rewrite Rabs_left in A by lra; assert (bpow radix2 1 <= bpow radix2 1024) by (apply bpow_le; lia); change (bpow radix2 1) with 2 in *; lra].
  pose proof (bpow_ge_0 radix2 1000) as b1. destruct (add_exact (fsub x (f_of_nat 1)) f_one 0 F one_finite rnd64_0 ltac:(rewrite Rabs_R0; exact b1)) as [Fb Eb]; [rewrite A, one_B2R; ring|]. destruct (mul_exact f_half _ 0 eq_refl Fb rnd64_0 ltac:(rewrite Rabs_R0; exact b1)) as [_ Ec]; [rewrite Eb; ring|exact Ec].
Qed.
(** for a 1 x 1 matrix and df of at most 2^-55, which the distribution allows, df - k + 1 is computed as zero: digamma is taken at 0 whatever df is *)
Theorem C151_small_df : forall flog fpsi finv df v vi, proper [] df \/ proper [1%nat] df -> is_finite (entry df 0) = true -> 0 < B2R (entry df 0) <= bpow radix2 (-55) -> proper [1%nat; 1%nat] v -> finv v = Ok vi -> proper [1%nat; 1%nat] vi ->
  exists e z, f_e_log_inv_wishart_diag flog fpsi finv df v = Ok e /\ B2R z = 0 /\ entry e 0 = fsub (fsub (flog (entry vi 0)) (fpsi z)) (flog (f_int 2)).
Proof.
  intros flog fpsi finv df v vi Pd Fd B Pv Ei Pi. destruct (diag_value flog fpsi finv 1 df v vi Pd Pv Ei Pi) as (e & E & _ & K). eexists e, _. split; [exact E|]. split; [exact (tiny_absorbed (entry df 0) Fd B)|]. exact (K 0%nat ltac:(lia)).
Qed.
Print Assumptions C151_small_df.
Lemma sizes n (x : dbl) fpsi psi fsum : computes fpsi psi -> steady psi -> sums fsum -> INR n <= bpow radix2 20 -> is_finite x = true -> (INR n - 1) / 2 + bpow radix2 (-99) <= B2R x <= bpow radix2 79 ->
  INR n <= mv_digamma_size psi n (B2R x) <= bpow radix2 223 /\ Rabs (mv_digamma psi n (B2R x)) <= mv_digamma_size psi n (B2R x).
Proof.
  intros Hp Hc Hs Hn Fx B. destruct (digamma_sum fpsi psi Hp Hc fsum Hs n x (fun i => fmul f_half (f_of_nat i)) Hn Fx) as (_ & Z & M & _); [|split; assumption]. intros i Hi. destruct (f_of_nat_B2R i (nat_small n Hn i ltac:(lia))) as [Fi Vi]. destruct (half_nat n Hn (f_of_nat i) i Hi Fi Vi) as [F V]. split; [exact F|]. split; [exact V|]. exact (terms_in_range n _ i Hi Hn B).
Qed.
(** expected_ljk_prior(lkj, df, v) and WishartParam.e_log_lkj_inv_prior(lkj): one finite number, close to (lkj - 1) (- E log det - the sum of the logs of the diagonal) *)
Theorem C151_lkj_prior : forall flog fpsi psi fsum fslogdet finv, log_good flog -> computes fpsi psi -> steady psi -> sums fsum -> forall n lkj df v vi sign logdet l err, (1 <= n)%nat -> INR n <= bpow radix2 20 -> proper [] df \/ proper [1%nat] df -> is_finite (entry df 0) = true ->
  let nu := B2R (entry df 0) in INR n <= nu <= bpow radix2 79 -> proper [n; n] v -> fslogdet v = Ok (sign, logdet) -> is_finite sign = true -> 0 < B2R sign -> is_finite logdet = true -> Rabs (B2R logdet - l) <= err -> Rabs l + err <= bpow radix2 900 ->
  finv v = Ok vi -> proper [n; n] vi -> (forall i, (i < n)%nat -> is_finite (entry vi (i * n + i)) = true /\ 0 < B2R (entry vi (i * n + i))) -> is_finite lkj = true -> Rabs (B2R lkj - 1) <= bpow radix2 50 ->
  let d i := B2R (entry vi (i * n + i)) in let p := psi ((nu - INR n + 1) / 2) in let k := B2R lkj - 1 in
  exists r, f_expected_ljk_prior flog fpsi fsum fslogdet finv lkj df v = Ok (nd_scalar r) /\ (forall w, f_member w "df" = Ok df -> f_member w "v" = Ok v -> fwp_e_log_lkj_inv_prior flog fpsi fsum fslogdet finv w lkj = Ok (nd_scalar r)) /\ is_finite r = true /\
    Rabs (B2R r - k * (- (mv_digamma psi n (nu / 2) + INR n * ln 2 + l) - rsum n (fun i => ln (d i) - p - ln 2)))
      <= Rabs k * (units (140 + 3 * INR n) * (mv_digamma_size psi n (nu / 2) + Rabs l + rsum n (fun i => 1 + Rabs (ln (d i)) + Rabs p)) + 4 * err) + bpow radix2 (-1074).
Proof.
  intros flog fpsi psi fsum fsl finv Hl Hp Hc Hs n lkj df v vi sg ld l err N1 Hn Pd Fd nu B Pv Es Fs Ps FL EL BL Ei Pi Hd Fk Bk d p k. pose proof (bpow_gt_0 radix2 (-98)) as p98. assert (s98 : bpow radix2 (-98) <= 1) by (change 1 with (bpow radix2 0); apply bpow_le; lia). assert (h98 : bpow radix2 (-98) = 2 * bpow radix2 (-99)) by (change 2 with (bpow radix2 1); rewrite <- bpow_plus; reflexivity). assert (h80 : bpow radix2 79 <= bpow radix2 80) by (apply bpow_le; lia). assert (n1 : 1 <= INR n) by (change 1 with (INR 1); apply le_INR; exact N1).
  destruct (C150_e_log_det flog fpsi psi fsum fsl Hl Hp Hc Hs n df v sg ld l err N1 Hn Pd Fd ltac:(fold nu; lra) Pv Es Fs Ps FL EL BL) as (a & Ea & _ & Fa & Da). fold nu in Da. rewrite units_u in Da.
  destruct (mul_exact f_half (entry df 0) (nu / 2)) as [Fx Vx]; [reflexivity|exact Fd| | |rewrite LemmasFloatDefault.f_half_B2R; fold nu; field|].
  { replace (nu / 2) with (/ 2 * nu) at 1 by field. apply half_format; [exact (generic_format_B2R 53 1024 (entry df 0))|]. apply Rle_trans with (bpow radix2 0); [apply bpow_le; lia|change (bpow radix2 0) with 1; lra]. }
  { rewrite Rabs_pos_eq by lra. apply Rle_trans with (bpow radix2 79); [lra|apply bpow_le; lia]. }
  destruct (sizes n (fmul f_half (entry df 0)) fpsi psi fsum Hp Hc Hs Hn Fx ltac:(rewrite Vx; lra)) as [[Z0 Z1] M]. rewrite Vx in Z0, Z1, M.
  destruct (diag_value flog fpsi finv n df v vi Pd Pv Ei Pi) as (e & Ee & Pe & K). destruct (argument n (entry df 0) Hn Fd B) as (fc & D1 & Dc). fold nu in D1, Dc.
  destruct (diag_sum flog fpsi psi Hl Hp Hc fsum Hs n (fun i => entry vi (i * n + i)) (entry e) _ _ Hn Hd fc D1 Dc K) as (Fq & [V0 V1] & BQ & Dq). fold p in V0, V1, BQ, Dq. set (q := fsum (tab n (entry e))) in *. set (Q := rsum n (fun i => ln (B2R (entry vi (i * n + i))) - p - ln 2)) in *. set (V := rsum n (fun i => 1 + Rabs (ln (B2R (entry vi (i * n + i)))) + Rabs p)) in *.
  set (Z := mv_digamma_size psi n (nu / 2)) in *. set (M0 := mv_digamma psi n (nu / 2)) in *.
  assert (Sq : np_sum fsum e = nd_scalar q). { apply (f_equal (fun l => nd_scalar (fsum l))). pose proof (proj2 Pe) as Le. rewrite nprod_1 in Le. apply (nth_ext _ _ dzero dzero); [rewrite tab_length; exact Le|]. intros j Hj. assert (Hj' : (j < n)%nat) by (rewrite <- Le; exact Hj). rewrite tab_nth by exact Hj'. reflexivity. }
  assert (E : f_expected_ljk_prior flog fpsi fsum fsl finv lkj df v = Ok (nd_scalar (fmul (fsub lkj f_one) (fsub (fmul f_mone a) q)))).
  { unfold f_expected_ljk_prior. rewrite Ea. cbn [rbind]. change (f_bin fmul (nd_scalar f_mone) (nd_scalar a)) with (Ok (nd_scalar (fmul f_mone a))). cbn [rbind]. etransitivity; [exact (f_equal (fun r => rbind r _) Ee)|]. cbn [rbind]. etransitivity; [exact (f_equal (fun t => rbind (f_bin fsub (nd_scalar (fmul f_mone a)) t) _) Sq)|]. reflexivity. }
  eexists. split; [exact E|]. split; [intros w Ed Ev; unfold fwp_e_log_lkj_inv_prior; rewrite Ed; cbn [rbind]; rewrite Ev; exact E|]. rewrite units_u. pose proof (Rabs_pos l) as l0. pose proof (Rabs_pos (B2R ld - l)) as e0. small_u. pose proof (n_u n Hn) as [Nu0 Nu1].
  assert (ln2a : 0 < ln 2) by (rewrite <- ln_1; apply ln_increasing; lra). assert (ln2b : ln 2 < 1) by (rewrite <- (ln_exp 1); apply ln_increasing; [lra|pose proof (exp_ineq1 1 ltac:(lra)); lra]). assert (Nw : 0 <= INR n * ln 2 <= INR n) by (split; [apply Rmult_le_pos; lra|rewrite <- (Rmult_1_r (INR n)) at 2; apply Rmult_le_compat_l; lra]).
  apply (lkj_value n lkj a q _ Q (Z + Rabs l + V) err Hn Fk Bk Fa Fq); [lra|lra| | |].
  - assert (bpow radix2 223 <= bpow radix2 900) by (apply bpow_le; lia). assert (16 * bpow radix2 900 <= bpow radix2 910) by (change 16 with (bpow radix2 4); rewrite <- bpow_plus; apply bpow_le; lia). lra.
  - assert (Rabs (M0 + INR n * ln 2 + l) <= 2 * Z + Rabs l); [|lra]. eapply Rle_trans; [apply Rabs_triang|]. pose proof (Rabs_triang M0 (INR n * ln 2)) as X. rewrite (Rabs_pos_eq (INR n * ln 2)) in X by lra. lra.
  - assert (X : 0 <= u * (Z + Rabs l)) by (apply Rmult_le_pos; lra). replace ((92 + 3 * INR n) * u * (Z + Rabs l)) with (92 * (u * (Z + Rabs l)) + 3 * INR n * u * (Z + Rabs l)) in Da by ring. replace ((130 + 3 * INR n) * u * (Z + Rabs l + V)) with (130 * (u * (Z + Rabs l)) + 3 * INR n * u * (Z + Rabs l) + (130 + 3 * INR n) * u * V) by ring. lra.
Qed.
Print Assumptions C151_lkj_prior.

(** ** the hypotheses are met: as in C150, diag(2, 3) with a library inverse of diagonal 1, 7 (the theorems hold for any positive diagonal) *)
Definition ex_inv (_ : nd dbl) : res (nd dbl) := Ok (Nd [2%nat; 2%nat] [dint 1; dint 0; dint 0; dint 7]).
Lemma ex_inv_ok i : (i < 2)%nat -> is_finite (entry (Nd [2%nat; 2%nat] [dint 1; dint 0; dint 0; dint 7]) (i * 2 + i)) = true /\ 0 < B2R (entry (Nd [2%nat; 2%nat] [dint 1; dint 0; dint 0; dint 7]) (i * 2 + i)).
Proof. intros Hi. destruct i as [|[|i]]; [| |lia]; unfold entry; cbn [nth data Nat.mul Nat.add]; (split; [reflexivity|rewrite dint_B2R by reflexivity; lra]). Qed.
Lemma ex_df_ok : INR 2 <= B2R (entry ex_df 0) <= bpow radix2 79.
Proof. unfold entry. cbn [nth data ex_df]. rewrite dint_B2R by reflexivity. assert (1024 <= bpow radix2 79) by (change 1024 with (bpow radix2 10); apply bpow_le; lia). cbn [INR]. lra. Qed.
Example C151_e_log_inv_diag_example : exists e, f_e_log_inv_wishart_diag ideal_log ideal_log ex_inv ex_df ex_v = Ok e /\ Rabs (B2R (entry e 1) - (ln 7 - ln 2 - ln 2)) <= units 130 * (1 + Rabs (ln 7) + Rabs (ln 2)).
Proof.
  destruct (C151_e_log_inv_diag ideal_log ideal_log ln ex_inv ideal_log_good (log_computes _ ideal_log_good) ln_steady 2 ex_df ex_v _ ltac:(cbn; lra) (or_intror (conj eq_refl eq_refl)) eq_refl ex_df_ok (conj eq_refl eq_refl) eq_refl (conj eq_refl eq_refl) ex_inv_ok) as (e & E & _ & K). exists e. split; [exact E|].
  destruct (K 1%nat ltac:(lia)) as [_ X]. cbv zeta in X. replace (B2R (entry (Nd [2%nat; 2%nat] [dint 1; dint 0; dint 0; dint 7]) (1 * 2 + 1))) with 7 in X by (unfold entry; cbn [nth data Nat.mul Nat.add]; rewrite dint_B2R by reflexivity; reflexivity). replace ((B2R (entry ex_df 0) - INR 2 + 1) / 2) with 2 in X by (unfold entry; cbn [nth data ex_df INR]; rewrite dint_B2R by reflexivity; field). exact X.
Qed.
Example C151_lkj_prior_example : exists r, f_expected_ljk_prior ideal_log ideal_log add_in_order ex_slogdet ex_inv (dint 4) ex_df ex_v = Ok (nd_scalar r) /\ is_finite r = true.
Proof.
  destruct (LemmasFloatGamma.log_value ideal_log ideal_log_good (dint 6) eq_refl ltac:(rewrite dint_B2R by reflexivity; lra)) as (F & B & E).
  destruct (C151_lkj_prior ideal_log ideal_log ln add_in_order ex_slogdet ex_inv ideal_log_good (log_computes _ ideal_log_good) ln_steady add_in_order_sums 2 (dint 4) ex_df ex_v (Nd [2%nat; 2%nat] [dint 1; dint 0; dint 0; dint 7]) (dint 1) (ideal_log (dint 6)) (ln (B2R (dint 6))) 1000000 ltac:(lia) ltac:(cbn; lra) (or_intror (conj eq_refl eq_refl)) eq_refl ex_df_ok (conj eq_refl eq_refl) eq_refl eq_refl) as (r & X & _ & G & _); [rewrite dint_B2R by reflexivity; lra|exact F| | |reflexivity|split; reflexivity|exact ex_inv_ok|reflexivity| |exists r; split; assumption].
  - apply Rle_trans with (1 := E). pose proof u_pos. assert (u <= 1) by (change 1 with (bpow radix2 0); unfold u; apply bpow_le; lia). apply Rle_trans with (8 * 1 * (1 + 752)); [|lra]. pose proof (Rabs_pos (ln (B2R (dint 6)))). apply Rmult_le_compat; lra.
  - apply Rle_trans with (bpow radix2 20); [change (bpow radix2 20) with 1048576; lra|apply bpow_le; lia].
  - rewrite dint_B2R by reflexivity. rewrite Rabs_pos_eq by lra. apply Rle_trans with (bpow radix2 2); [change (bpow radix2 2) with 4; lra|apply bpow_le; lia].
Qed.
(** df = 2^-60 *)
Example C151_small_df_example : exists e z, f_e_log_inv_wishart_diag ideal_log ideal_log (fun v => Ok v) (Nd [] [@B754_finite 53 1024 false 4503599627370496 (-112) eq_refl]) (Nd [1%nat; 1%nat] [dint 1]) = Ok e /\ B2R z = 0 /\ entry e 0 = fsub (fsub (ideal_log (dint 1)) (ideal_log z)) (ideal_log (f_int 2)).
Proof.
  apply (C151_small_df ideal_log ideal_log (fun v => Ok v) _ _ (Nd [1%nat; 1%nat] [dint 1])); [left; split; reflexivity|reflexivity| |split; reflexivity|reflexivity|split; reflexivity]. unfold entry. cbn [nth data B2R]. replace (F2R _) with (bpow radix2 (-60)) by (unfold F2R; cbn; lra). split; [apply bpow_gt_0|apply bpow_le; lia].
Qed.
