(** Property C140: the moments of exp of a normal variable in double precision; property C141: the second moments of MVNParam. *)
From Coq Require Import String Reals ZArith List Lra Lia Bool.
From Flocq Require Import Core BinarySingleNaN.
From Verif Require Import Res Nd ModelFloat ModelFloatDict ModelFloatFamilies ModelFloatFamilies2 SpecFloat SpecFloatSimplex SpecFloatAcc SpecFloatMatrix SpecFloatFam3
  LemmasFloat LemmasFloat3 LemmasFloat4 LemmasFloatSimplex4 LemmasFloatFam LemmasFloatFam7.
From Verif Require Import SpecFloatFam.
From Verif Require ModelFloatParams ModelFloatMatrix.
Import List ListNotations.
Set Bullet Behavior "Strict Subproofs".
Open Scope R_scope.

(** e_exp(), var_exp() and e2_exp() of UVNParam, UVNParamVector and UVNParamArray: the error of the mean and of the second moment is relative
    to the exact value, that of the variance only relative to the exact second moment *)
Theorem C140_lognormal : forall fexp fsq, exp_good fexp -> squares fsq -> forall d s m i, f_member d "mean" = Ok m -> f_member d "info" = Ok i -> proper s m -> proper s i -> (forall k, (k < nprod s)%nat -> tame (entry m k) (entry i k)) ->
  exists e w o, fuvn_e_exp fexp d = Ok e /\ fuvn_var_exp fexp fsq d = Ok w /\ fuvn_e2_exp fexp fsq d = Ok o /\ proper s e /\ proper s w /\ proper s o /\
    forall k, (k < nprod s)%nat -> let mu := B2R (entry m k) in let v := 1 / B2R (entry i k) in let K := exp_units (entry m k) (entry i k) in
      within K (entry e k) (lognormal_mean mu v) /\ within (7 * K) (entry o k) (lognormal_second mu v) /\
      is_finite (entry w k) = true /\ Rabs (B2R (entry w k) - (lognormal_second mu v - lognormal_mean mu v ^ 2)) <= units (4 * K) * lognormal_second mu v.
Proof.
  intros fexp fsq He Hq d s m i Em Ei Pm Pi T. destruct (lognormal_moments fexp fsq He Hq d s m i Em Ei Pm Pi T) as (e & w & o & E1 & E2 & E3 & P1 & P2 & P3 & K). exists e, w, o. repeat (split; [assumption|]). intros k Hk. destruct (K k Hk) as (A & B & C & D & _). repeat split; try apply A; try apply B; assumption.
Qed.
Print Assumptions C140_lognormal.
(** var_exp() is never negative if the library exp is monotone *)
Theorem C140_variance_sign : forall fexp fsq, exp_good fexp -> exp_monotone fexp -> squares fsq -> forall d s m i, f_member d "mean" = Ok m -> f_member d "info" = Ok i -> proper s m -> proper s i -> (forall k, (k < nprod s)%nat -> tame (entry m k) (entry i k)) ->
  exists w, fuvn_var_exp fexp fsq d = Ok w /\ forall k, (k < nprod s)%nat -> is_finite (entry w k) = true /\ 0 <= B2R (entry w k).
Proof.
  intros fexp fsq He Hm Hq d s m i Em Ei Pm Pi T. destruct (lognormal_moments fexp fsq He Hq d s m i Em Ei Pm Pi T) as (e & w & o & E1 & E2 & E3 & P1 & P2 & P3 & K). exists w. split; [exact E2|]. intros k Hk. destruct (K k Hk) as (_ & _ & C & _ & D & _). split; [exact C|exact (D Hm)].
Qed.
Print Assumptions C140_variance_sign.
(** with a correctly rounded exp it is exactly 0 once the information reaches 2^55, although the exact variance is positive *)
Theorem C140_variance_lost : forall fsq, squares fsq -> forall d s m i, f_member d "mean" = Ok m -> f_member d "info" = Ok i -> proper s m -> proper s i -> (forall k, (k < nprod s)%nat -> tame (entry m k) (entry i k)) ->
  exists w, fuvn_var_exp ideal_exp fsq d = Ok w /\ forall k, (k < nprod s)%nat -> bpow radix2 55 <= B2R (entry i k) ->
    B2R (entry w k) = 0 /\ 0 < lognormal_second (B2R (entry m k)) (1 / B2R (entry i k)) - lognormal_mean (B2R (entry m k)) (1 / B2R (entry i k)) ^ 2.
Proof.
  intros fsq Hq d s m i Em Ei Pm Pi T. destruct (lognormal_moments ideal_exp fsq ideal_exp_good Hq d s m i Em Ei Pm Pi T) as (e & w & o & E1 & E2 & E3 & P1 & P2 & P3 & K). exists w. split; [exact E2|].
  intros k Hk L. destruct (K k Hk) as (_ & _ & _ & _ & _ & D). destruct (T k Hk) as (_ & Fi & _). split; [apply D; apply ideal_exp_tiny; assumption|].
  unfold lognormal_second, lognormal_mean. assert (P : 0 < B2R (entry i k)) by (pose proof (bpow_gt_0 radix2 55); lra). assert (J : 0 < 1 / B2R (entry i k)) by (apply Rdiv_lt_0_compat; lra). set (v := 1 / B2R (entry i k)) in *. set (mu := B2R (entry m k)) in *.
  replace (exp (mu + v / 2) ^ 2) with (exp (2 * mu + v)); [assert (exp (2 * mu + v) < exp (2 * mu + 2 * v)) by (apply exp_increasing; lra); lra|]. replace (2 * mu + v) with ((mu + v / 2) + (mu + v / 2)) by field. rewrite exp_plus. ring.
Qed.
Print Assumptions C140_variance_lost.

(** MVNParam.e_outer(): whatever the library inverse returns, even if it is not symmetric, contains NaN or infinite numbers, the result is exactly symmetric;
    entry r, k is the rounded average of the two entries of mean mean^T + cov(), and averaging adds no error on the diagonal *)
Theorem C141_second_moment : forall finv d n m i c, f_member d "mean" = Ok m -> f_member d "info" = Ok i -> proper [n] m -> finv i = Ok c -> proper [n; n] c ->
  fmvn_cov finv d = Ok c /\ exists o, fmvn_e_outer finv d = Ok o /\ proper [n; n] o /\ (forall r k, (r < n)%nat -> (k < n)%nat -> mget dzero o r k = mget dzero o k r) /\
    (forall r k, (r < n)%nat -> (k < n)%nat -> let x r k := fadd (fmul (entry m r) (entry m k)) (mget dzero c r k) in mget dzero o r k = fmul f_half (fadd (x r k) (x k r))) /\
    (forall r, (r < n)%nat -> let x := fadd (fmul (entry m r) (entry m r)) (mget dzero c r r) in is_finite x = true -> Rabs (B2R x) <= bpow radix2 1000 -> is_finite (mget dzero o r r) = true /\ B2R (mget dzero o r r) = B2R x).
Proof. intros finv d n m i c Em Ei Pm Ec Pc. split; [unfold fmvn_cov; rewrite Ei; exact Ec|exact (mvn_outer_symmetric finv d n m i c Em Ei Pm Ec Pc)]. Qed.
Print Assumptions C141_second_moment.
(** and an error of the inverse (a singular matrix) is passed on *)
Theorem C141_singular : forall finv d m i err, f_member d "mean" = Ok m -> f_member d "info" = Ok i -> finv i = Raise err -> fmvn_cov finv d = Raise err /\ fmvn_e_outer finv d = Raise err.
Proof. intros finv d m i err Em Ei Ec. unfold fmvn_e_outer, fmvn_cov. rewrite Em. cbn [rbind]. rewrite Ei. cbn [rbind]. rewrite Ec. split; reflexivity. Qed.
Print Assumptions C141_singular.

(** ** the hypotheses are met *)
(** mean 1 and information 2, and mean -3 and information 2^52 *)
Definition ex_m := Nd [2%nat] [dint 1; dint (-3)].
Definition ex_i := Nd [2%nat] [dint 2; dint (2 ^ 52)].
Definition ex_uvn : fparam := FDict "q" [("mean"%string, FLeaf "mean" (FArray (ModelFloatParams.mkFA [2%nat] f_ninf f_inf ex_m))); ("info"%string, FLeaf "info" (FArray (ModelFloatParams.mkFA [2%nat] (dint 0) f_inf ex_i)))] 4 4.
Lemma ex_tame k : (k < nprod [2%nat])%nat -> tame (entry ex_m k) (entry ex_i k).
Proof.
  intros H. rewrite nprod_1 in H. assert (B : forall z, (1 <= z <= 2 ^ 52)%Z -> is_finite (dint z) = true -> fair_info (dint z)).
  { intros z Hz F. assert (E : B2R (dint z) = IZR z) by (apply dint_B2R; lia). assert (Z : 1 <= IZR z <= IZR (2 ^ 52)) by (split; apply IZR_le; lia). split; [exact F|]. rewrite E. split.
    - apply Rle_trans with (bpow radix2 0); [apply bpow_le; lia|change (bpow radix2 0) with 1; lra].
    - apply Rle_trans with (bpow radix2 52); [change (bpow radix2 52) with (IZR (2 ^ 52)); lra|apply bpow_le; lia]. }
  destruct k as [|[|k]]; [| |lia]; (split; [reflexivity|]); (split; [apply B; [lia|reflexivity]|]); unfold entry; cbn [nth data ex_m ex_i]; rewrite !dint_B2R by reflexivity.
  - rewrite Rabs_pos_eq by lra. lra.
  - rewrite Rabs_left by lra. change (IZR (2 ^ 52)) with 4503599627370496. lra.
Qed.
Example C140_example : exists e w o, fuvn_e_exp ideal_exp ex_uvn = Ok e /\ fuvn_var_exp ideal_exp (fun x => fmul x x) ex_uvn = Ok w /\ fuvn_e2_exp ideal_exp (fun x => fmul x x) ex_uvn = Ok o /\
  within (29 / 2) (entry e 0) (exp (5 / 4)) /\ 0 <= B2R (entry w 1).
Proof.
  destruct (C140_lognormal _ _ ideal_exp_good fmul_squares ex_uvn [2%nat] ex_m ex_i eq_refl eq_refl ltac:(split; reflexivity) ltac:(split; reflexivity) ex_tame) as (e & w & o & E1 & E2 & E3 & _ & _ & _ & K).
  destruct (C140_variance_sign _ _ ideal_exp_good ideal_exp_monotone fmul_squares ex_uvn [2%nat] ex_m ex_i eq_refl eq_refl ltac:(split; reflexivity) ltac:(split; reflexivity) ex_tame) as (w' & E2' & S). rewrite E2 in E2'. injection E2' as <-.
  exists e, w, o. split; [exact E1|]. split; [exact E2|]. split; [exact E3|]. split; [|apply S; rewrite nprod_1; lia].
  destruct (K 0%nat ltac:(rewrite nprod_1; lia)) as (A & _). unfold lognormal_mean, exp_units in A. unfold entry in A at 1 2 4 5. cbn [nth data ex_m ex_i] in A. rewrite !dint_B2R in A by reflexivity. rewrite Rabs_pos_eq in A by lra.
  replace (10 + 3 * (1 + 1 / 2)) with (29 / 2) in A by field. replace (1 + 1 / 2 / 2) with (5 / 4) in A by field. exact A.
Qed.
(** an "inverse" that is not symmetric *)
Definition ex_mvn : fparam := FDict "q" [("mean"%string, FLeaf "mean" (FVector (mkFV 2 f_ninf f_inf [dint 1; dint 2]))); ("info"%string, FLeaf "info" (FPosDef (ModelFloatMatrix.mkFP 2 (dint 0) (Nd [2%nat; 2%nat] [dint 2; dint 1; dint 1; dint 2]))))] 5 6.
Example C141_example : exists o, fmvn_e_outer (fun _ => Ok (Nd [2%nat; 2%nat] [dint 3; dint 4; dint 5; dint 6])) ex_mvn = Ok o /\ mget dzero o 0 1 = mget dzero o 1 0.
Proof.
  destruct (C141_second_moment (fun _ => Ok (Nd [2%nat; 2%nat] [dint 3; dint 4; dint 5; dint 6])) ex_mvn 2 (Nd [2%nat] [dint 1; dint 2]) _ _ eq_refl eq_refl ltac:(split; reflexivity) eq_refl ltac:(split; reflexivity)) as (_ & o & E & _ & S & _).
  exists o. split; [exact E|]. apply S; lia.
Qed.
(** mean 1 and information 2^60: the exact variance is about e^2 / 2^60, the computed one is 0 *)
Definition i60 : dbl := binary_normalize 53 1024 prec53 emax1024 mode_NE 1 60 false.
Lemma i60_B2R : B2R i60 = bpow radix2 60.
Proof. unfold i60. cbn. unfold F2R. cbn. lra. Qed.
Definition ex_sharp : fparam := FDict "q" [("mean"%string, FLeaf "mean" (FVector (mkFV 1 f_ninf f_inf [dint 1]))); ("info"%string, FLeaf "info" (FVector (mkFV 1 (dint 0) f_inf [i60])))] 2 2.
Example C140_lost_example : exists w, fuvn_var_exp ideal_exp (fun x => fmul x x) ex_sharp = Ok w /\ B2R (entry w 0) = 0.
Proof.
  destruct (C140_variance_lost _ fmul_squares ex_sharp [1%nat] (Nd [1%nat] [dint 1]) (Nd [1%nat] [i60]) eq_refl eq_refl ltac:(split; reflexivity) ltac:(split; reflexivity)) as (w & E & K).
  - intros k Hk. rewrite nprod_1 in Hk. destruct k; [|lia]. split; [reflexivity|]. unfold entry. cbn [nth data]. split.
    + split; [reflexivity|]. rewrite i60_B2R. split; apply bpow_le; lia.
    + rewrite i60_B2R, dint_B2R by reflexivity. rewrite Rabs_pos_eq by lra. change (bpow radix2 60) with 1152921504606846976. lra.
  - exists w. split; [exact E|]. apply K; [rewrite nprod_1; lia|]. unfold entry. cbn [nth data]. rewrite i60_B2R. apply bpow_le. lia.
Qed.
