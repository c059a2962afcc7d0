(** Property C146: expectations by quadrature of any integrand, of a logit-normal variable, and the Dirichlet process prior, in double precision. *)
From Coq Require Import Reals ZArith List Lra Lia Bool.
From Flocq Require Import Core BinarySingleNaN.
From Verif Require Import Res Nd RSum ModelNumpy ModelFloat ModelFloatFamilies ModelFloatLogit ModelFloatQuad SpecFloat SpecFloatSimplex SpecFloatAcc SpecFloatMatrix SpecFloatLogit SpecFloatQuad SpecFloatPrior
  LemmasNumpy LemmasFloat LemmasFloat2 LemmasFloat3 LemmasFloat4 LemmasFloatSimplex LemmasFloatSimplex2 LemmasFloatSimplex4 LemmasFloatAcc LemmasFloatAcc2 LemmasFloatFam LemmasFloatFam7 LemmasFloatLogit LemmasFloatQuad LemmasFloatQuad2 LemmasFloatPrior PropsFloat15.
From Verif Require Import SpecFloatFam.
Import List ListNotations.
Set Bullet Behavior "Strict Subproofs".
Open Scope R_scope.

(** get_e_fun_normal() for every integrand fn that computes a function g which changes no faster than its argument: finite, and close to the exact value of the rule for g *)
Theorem C146_any_integrand : forall fn g fsum, integrand fn g -> sums fsum -> forall s n means infos loc weights,
  proper s means -> proper s infos -> proper [n] loc -> proper [n] weights -> INR n <= bpow radix2 20 ->
  (forall k, (k < nprod s)%nat -> fair_center (entry means k) /\ fair_scale (entry infos k)) -> (forall j, (j < n)%nat -> fair_node (entry loc j) /\ fair_weight (entry weights j)) ->
  exists e, f_get_e_fun_normal fsum means infos loc weights fn = Ok e /\ proper s e /\ forall k, (k < nprod s)%nat ->
    let mu := B2R (entry means k) in let L := B2R (entry infos k) in let x j := B2R (entry loc j) in let w j := B2R (entry weights j) in
    is_finite (entry e k) = true /\ Rabs (B2R (entry e k) - quadrature n x w g mu L) <= units (100 + 2 * INR n) * spread n x w mu L + INR n * bpow radix2 (-600).
Proof.
  intros fn g fsum Hg Hs s n means infos loc wts Pm Pi Pl Pw Hn Hk Hj. destruct (quad_array fsum s n means infos loc wts fn Pm Pi Pl Pw) as (e & Ee & Pe & Ke). exists e. split; [exact Ee|]. split; [exact Pe|]. intros k Hi. cbv zeta. destruct (Hk k Hi) as [Hm HL].
  destruct (fun_sum fn g Hg fsum Hs n (fun j => entry loc j) (fun j => entry wts j) (entry means k) (entry infos k) Hn Hj Hm HL) as (A & B & _). rewrite <- (Ke k Hi) in A, B. split; [exact A|exact B].
Qed.
Print Assumptions C146_any_integrand.
(** get_e_logitnormal(): finite, not negative, at most the sum of the weights over sqrt(pi) up to rounding, and close to the exact value of the rule *)
Theorem C146_logitnormal : forall fexpit fsum, expit_good fexpit -> sums fsum -> forall s n means infos loc weights,
  proper s means -> proper s infos -> proper [n] loc -> proper [n] weights -> INR n <= bpow radix2 20 ->
  (forall k, (k < nprod s)%nat -> fair_center (entry means k) /\ fair_scale (entry infos k)) -> (forall j, (j < n)%nat -> fair_node (entry loc j) /\ fair_weight (entry weights j)) ->
  exists e, f_get_e_logitnormal fexpit fsum means infos loc weights = Ok e /\ proper s e /\ forall k, (k < nprod s)%nat ->
    let mu := B2R (entry means k) in let L := B2R (entry infos k) in let x j := B2R (entry loc j) in let w j := B2R (entry weights j) in
    is_finite (entry e k) = true /\ 0 <= B2R (entry e k) <= (1 + units (8 + 3 * INR n)) * (rsum n w / sqrt PI) + INR n * bpow radix2 (-600) /\
    Rabs (B2R (entry e k) - quadrature n x w logistic mu L) <= units (100 + 2 * INR n) * spread n x w mu L + INR n * bpow radix2 (-600).
Proof.
  intros fexpit fsum Hg Hs s n means infos loc wts Pm Pi Pl Pw Hn Hk Hj. destruct (quad_array fsum s n means infos loc wts fexpit Pm Pi Pl Pw) as (e & Ee & Pe & Ke). exists e. split; [exact Ee|]. split; [exact Pe|]. intros k Hi. cbv zeta. destruct (Hk k Hi) as [Hm HL].
  destruct (fun_sum fexpit logistic (expit_integrand fexpit Hg) fsum Hs n (fun j => entry loc j) (fun j => entry wts j) (entry means k) (entry infos k) Hn Hj Hm HL) as (A & B & C & D). rewrite <- (Ke k Hi) in A, B, C, D. split; [exact A|]. split; [|exact B].
  split; [apply C; intros y F; apply (Hg y F)|apply D; intros y F; apply (Hg y F)].
Qed.
Print Assumptions C146_logitnormal.
Theorem C146_shapes : forall fexpit fsum means infos loc weights, shape means <> shape infos -> f_get_e_logitnormal fexpit fsum means infos loc weights = Raise AssertionError.
Proof.
  intros fexpit fsum means infos loc wts H. unfold f_get_e_logitnormal, f_get_e_fun_normal. destruct (shape_eqb (shape means) (shape infos)) eqn:E; [apply shape_eqb_true in E; contradiction|reflexivity].
Qed.
Print Assumptions C146_shapes.
(** get_e_dp_prior_logitnorm_approx(): finite, and alpha - 1 times the E log(1 - X) of get_e_log_logitnormal() up to two roundings; alpha is a scalar or an array *)
Theorem C146_dp_prior : forall fexp flog fsum, exp_good fexp -> log_good flog -> sums fsum -> forall s n alpha means infos loc weights al, reads s alpha al -> (forall k, (k < nprod s)%nat -> sized 200 (al k)) ->
  proper s means -> proper s infos -> proper [n] loc -> proper [n] weights -> INR n <= bpow radix2 20 ->
  (forall k, (k < nprod s)%nat -> fair_center (entry means k) /\ fair_scale (entry infos k)) -> (forall j, (j < n)%nat -> fair_node (entry loc j) /\ fair_weight (entry weights j)) ->
  exists e e' p, f_get_e_log_logitnormal fexp flog fsum means infos loc weights = Ok (e, e') /\ f_get_e_dp_prior fexp flog fsum alpha means infos loc weights = Ok p /\ proper s p /\ forall k, (k < nprod s)%nat -> let P := (B2R (al k) - 1) * B2R (entry e' k) in
    is_finite (entry p k) = true /\ Rabs (B2R (entry p k) - P) <= units 3 * Rabs P + bpow radix2 (-1074).
Proof.
  intros fexp flog fsum He Hl Hs s n alpha means infos loc wts al Ra Ba Pm Pi Pl Pw Hn Hk Hj.
  destruct (quad_array fsum s n means infos loc wts (f_log_v fexp flog) Pm Pi Pl Pw) as (e & Ee & Pe & Ke). destruct (map_entry (fun x => Bopp x) s means Pm) as [Po Ko]. destruct (bin_same fadd s _ e Po Pe) as (e' & Ee' & Pe' & Ke').
  assert (E : f_get_e_log_logitnormal fexp flog fsum means infos loc wts = Ok (e, e')) by (unfold f_get_e_log_logitnormal; rewrite Ee; cbn [rbind]; etransitivity; [exact (f_equal (fun r => rbind r (fun e1 => Ok (e, e1))) Ee')|reflexivity]).
  destruct (bin_reads fsub s alpha (nd_scalar f_one) al (fun _ => f_one) Ra (scalar_reads s f_one)) as (a & Ea & Qa). assert (Re : reads s e' (entry e')) by (left; split; [exact Pe'|reflexivity]).
  assert (G : exists p, f_bin fmul a e' = Ok p /\ proper s p /\ forall k, (k < nprod s)%nat -> entry p k = fmul (fsub (al k) f_one) (entry e' k)).
  { destruct Qa as [(P1 & V1)|(y & -> & V1)]; [destruct (bin_same fmul s a e' P1 Pe') as (p & Ep & Pp & Kp)|destruct (bin_scalar_l fmul s y e' Pe') as (p & Ep & Pp & Kp)]; exists p; (split; [exact Ep|]); (split; [exact Pp|]); intros k Hi; rewrite (Kp k Hi), (V1 k Hi); reflexivity. }
  destruct G as (p & Ep & Pp & Kp). exists e, e', p. split; [exact E|]. split; [unfold f_get_e_dp_prior; rewrite E; cbn [rbind snd]; etransitivity; [exact (f_equal (fun r => rbind r _) Ea)|exact Ep]|]. split; [exact Pp|].
  intros k Hi. cbv zeta. rewrite (Kp k Hi). destruct (Hk k Hi) as [Hm HL]. destruct (quad_sum fexp flog fsum He Hl Hs n (fun j => entry loc j) (fun j => entry wts j) (entry means k) (entry infos k) Hn Hj Hm HL) as (A & _ & _ & D). rewrite <- (Ke k Hi) in A, D. destruct Hm as [Fm Bm].
  assert (Fo : is_finite (Bopp (entry means k)) = true) by (rewrite is_finite_Bopp; exact Fm). assert (Bo : B2R (Bopp (entry means k)) = - B2R (entry means k)) by apply B2R_Bopp. small_u. assert (P6 : 2 * bpow radix2 600 = bpow radix2 601) by (change 2 with (bpow radix2 1); rewrite <- bpow_plus; reflexivity). assert (P9 : bpow radix2 390 <= bpow radix2 600) by (apply bpow_le; lia). assert (P10 : bpow radix2 601 <= bpow radix2 1000) by (apply bpow_le; lia).
  assert (Bs : Rabs (B2R (Bopp (entry means k)) + B2R (entry e k)) <= bpow radix2 601) by (rewrite Bo; eapply Rle_trans; [apply Rabs_triang|]; rewrite Rabs_Ropp; lra).
  destruct (fadd_rel (Bopp (entry means k)) (entry e k) Fo A ltac:(lra)) as [F' R']. rewrite (Ke' k Hi), (Ko k Hi). set (f := fadd (Bopp (entry means k)) (entry e k)) in *. set (S := B2R (Bopp (entry means k)) + B2R (entry e k)) in *.
  assert (Bf : Rabs (B2R f) <= 2 * bpow radix2 601). { replace (B2R f) with ((B2R f - S) + S) by ring. eapply Rle_trans; [apply Rabs_triang|]. assert (u * Rabs S <= 1 * Rabs S) by (apply Rmult_le_compat_r; [apply Rabs_pos|lra]). lra. }
  destruct (Ba k Hi) as [Fa B2]. assert (B201 : Rabs (B2R (al k) - 1) <= bpow radix2 201). { unfold Rminus. eapply Rle_trans; [apply Rabs_triang|]. rewrite Rabs_Ropp, (Rabs_pos_eq 1) by lra. replace (bpow radix2 201) with (2 * bpow radix2 200) by (change 2 with (bpow radix2 1); rewrite <- bpow_plus; reflexivity). assert (1 <= bpow radix2 200) by (change 1 with (bpow radix2 0); apply bpow_le; lia). lra. }
  destruct (fsub_rel (al k) f_one Fa one_finite) as [Fd Ed]; rewrite one_B2R in *; [apply Rle_trans with (1 := B201); apply bpow_le; lia|]. set (d := fsub (al k) f_one) in *. set (Dd := B2R (al k) - 1) in *. set (X := Dd * B2R f).
  assert (EX : Rabs (B2R d * B2R f - X) <= u * Rabs X). { unfold X. replace (B2R d * B2R f - Dd * B2R f) with ((B2R d - Dd) * B2R f) by ring. rewrite !Rabs_mult, <- Rmult_assoc. apply Rmult_le_compat_r; [apply Rabs_pos|exact Ed]. }
  assert (BX : Rabs X <= bpow radix2 803) by (apply (b_prod 201 602); [exact B201| |lia]; replace (bpow radix2 602) with (2 * bpow radix2 601) by (change 2 with (bpow radix2 1); rewrite <- bpow_plus; reflexivity); exact Bf). pose proof (Rabs_pos X) as X0. assert (uX : u * Rabs X <= / 1000 * Rabs X) by (apply Rmult_le_compat_r; lra).
  assert (Bdf : Rabs (B2R d * B2R f) <= 1001 / 1000 * Rabs X). { replace (B2R d * B2R f) with ((B2R d * B2R f - X) + X) by ring. eapply Rle_trans; [apply Rabs_triang|]. lra. }
  assert (B8 : 2 * bpow radix2 803 <= bpow radix2 1000) by (replace (2 * bpow radix2 803) with (bpow radix2 804) by (change 2 with (bpow radix2 1); rewrite <- bpow_plus; reflexivity); apply bpow_le; lia). pose proof (bpow_gt_0 radix2 803) as p8.
  destruct (fmul_rel d f Fd F' ltac:(lra)) as (Ft & _ & Et). split; [exact Ft|]. assert (ub : u * Rabs (B2R d * B2R f) <= u * (1001 / 1000 * Rabs X)) by (apply Rmult_le_compat_l; lra). assert (uX0 : 0 <= u * Rabs X) by (apply Rmult_le_pos; lra).
  rewrite units_u. replace (B2R (fmul d f) - X) with ((B2R (fmul d f) - B2R d * B2R f) + (B2R d * B2R f - X)) by ring. eapply Rle_trans; [apply Rabs_triang|]. lra.
Qed.
Print Assumptions C146_dp_prior.

(** ** the hypotheses are met *)
Definition ideal_expit (x : double) : double := nearest (logistic (B2R x)).
Lemma ideal_expit_good : expit_good ideal_expit.
Proof.
  intros x F. pose proof (logistic_range (B2R x)) as R. unfold ideal_expit. set (y := logistic (B2R x)) in *. assert (R1 : rnd64 1 = 1) by (change 1 with (bpow radix2 0); apply rnd64_bpow; lia).
  assert (Q : 0 <= rnd64 y <= 1) by (split; [rewrite <- rnd64_0|rewrite <- R1]; apply rnd64_le; lra).
  destruct (nearest_cases y) as [(_ & E & Fn & _)|(C & _)].
  - split; [exact Fn|]. rewrite E. split; [exact Q|]. eapply Rle_trans; [apply rnd64_error|]. rewrite units_u, (Rabs_pos_eq y) by lra. small_u. assert (bpow radix2 (-1074) <= u) by (apply bpow_le; lia). assert (u * y <= u * 1) by (apply Rmult_le_compat_l; lra). lra.
  - exfalso. rewrite Rabs_pos_eq in C by lra. assert (1 < bpow radix2 1024) by (change 1 with (bpow radix2 0); apply bpow_lt; lia). lra.
Qed.
Lemma ex_rule : (forall k, (k < nprod [2%nat])%nat -> fair_center (entry ex_means k) /\ fair_scale (entry ex_infos k)) /\ (forall j, (j < 2)%nat -> fair_node (entry ex_loc j) /\ fair_weight (entry ex_wts j)).
Proof.
  split.
  - intros k Hk. rewrite nprod_1 in Hk. destruct k as [|[|k]]; [| |lia]; unfold entry; cbn [nth data ex_means ex_infos]; (split; [apply small_int; [reflexivity|reflexivity|lia]|]); (split; [reflexivity|]); rewrite dint_B2R by reflexivity; (split; [apply Rle_trans with (bpow radix2 0); [apply bpow_le; lia|change (bpow radix2 0) with 1; lra]|apply Rle_trans with (bpow radix2 3); [change (bpow radix2 3) with 8; lra|apply bpow_le; lia]]).
  - intros j Hj. destruct j as [|[|j]]; [| |lia]; unfold entry; cbn [nth data ex_loc ex_wts]; (split; [apply small_int; [reflexivity|reflexivity|lia]|]); (split; [reflexivity|]); rewrite one_B2R; (split; [lra|]); change 1 with (bpow radix2 0); apply bpow_le; lia.
Qed.
Example C146_logitnormal_example : exists e, f_get_e_logitnormal ideal_expit add_in_order ex_means ex_infos ex_loc ex_wts = Ok e /\ 0 <= B2R (entry e 0) /\ is_finite (entry e 1) = true.
Proof.
  destruct ex_rule as [R1 R2]. destruct (C146_logitnormal _ _ ideal_expit_good add_in_order_sums [2%nat] 2 ex_means ex_infos ex_loc ex_wts) as (e & E & _ & K); try (split; reflexivity); [cbn; lra|exact R1|exact R2|].
  exists e. split; [exact E|]. split; [apply (K 0%nat); rewrite nprod_1; lia|apply (K 1%nat); rewrite nprod_1; lia].
Qed.
(** the integrand of get_e_log_logitnormal() is one of them *)
Example C146_integrand_example : integrand (f_log_v ideal_exp ideal_log) log_expit.
Proof. exact (log_v_integrand _ _ ideal_exp_good ideal_log_good). Qed.
Example C146_dp_example : exists p, f_get_e_dp_prior ideal_exp ideal_log add_in_order (nd_scalar (dint 5)) ex_means ex_infos ex_loc ex_wts = Ok p /\ is_finite (entry p 1) = true.
Proof.
  destruct ex_rule as [R1 R2]. destruct (C146_dp_prior _ _ _ ideal_exp_good ideal_log_good add_in_order_sums [2%nat] 2 (nd_scalar (dint 5)) ex_means ex_infos ex_loc ex_wts (fun _ => dint 5)) as (e & e' & p & _ & E & _ & K); try (split; reflexivity); try exact R1; try exact R2.
  - right. exists (dint 5). split; reflexivity.
  - intros k Hk. apply small_int; [reflexivity|reflexivity|lia].
  - cbn. lra.
  - exists p. split; [exact E|]. apply (K 1%nat). rewrite nprod_1. lia.
Qed.
