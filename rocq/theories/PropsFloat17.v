(** Property C145: natural parameters and priors in double precision. *)
From Coq Require Import Reals ZArith List Lra Lia Bool.
From Flocq Require Import Core BinarySingleNaN.
From Verif Require Import Res Nd RSum ModelNumpy ModelFloat ModelFloatFamilies ModelFloatPrior SpecFloat SpecFloatSimplex SpecFloatAcc SpecFloatMatrix SpecFloatPrior
  LemmasFloat LemmasFloat3 LemmasFloat4 LemmasFloatSimplex2 LemmasFloatSimplex4 LemmasFloatFam LemmasFloatPrior.
From Verif Require Import SpecFloatFam.
Import List ListNotations.
Set Bullet Behavior "Strict Subproofs".
Open Scope R_scope.

(** get_uvn_from_natural_parameters: the information is exact, the mean is the rounded quotient; an e2 term of 0 never gives a finite mean *)
Theorem C145_natural_parameters : forall s e_term e2_term E Q, reads s e_term E -> reads s e2_term Q -> (forall k, (k < nprod s)%nat -> is_finite (E k) = true /\ is_finite (Q k) = true /\ Rabs (B2R (Q k)) < bpow radix2 1023) ->
  exists mean info M I, f_uvn_from_natural_parameters e_term e2_term = Ok (mean, info) /\ reads s mean M /\ reads s info I /\ forall k, (k < nprod s)%nat -> let x := B2R (E k) / (-2 * B2R (Q k)) in
    is_finite (I k) = true /\ B2R (I k) = -2 * B2R (Q k) /\
    (B2R (Q k) <> 0 -> Rabs x <= bpow radix2 1000 -> is_finite (M k) = true /\ B2R (M k) = rnd64 x) /\
    (B2R (Q k) = 0 -> is_finite (M k) = false /\ (B2R (E k) = 0 -> M k = B754_nan)).
Proof.
  intros s e q E Q He Hq H. destruct (natural_reads s e q E Q He Hq) as (m & i & Em & Rm & Ri). exists m, i, (fun k => fdiv (E k) (fmul f_m2 (Q k))), (fun k => fmul f_m2 (Q k)). split; [exact Em|]. split; [exact Rm|]. split; [exact Ri|].
  intros k Hk. destruct (H k Hk) as (FE & FQ & BQ). destruct (double_exact (Q k) FQ BQ) as [FI EI]. split; [exact FI|]. split; [exact EI|]. split; [|exact (zero_info (E k) (Q k) FE FQ)].
  intros N B. pose proof (fdiv_rounded (E k) (fmul f_m2 (Q k)) FE) as G. rewrite EI in G. apply G; [lra|exact B].
Qed.
Print Assumptions C145_natural_parameters.
(** the natural parameters info * mean and -0.5 * info of a normal variable give back the same information, and the mean up to rounding *)
Theorem C145_round_trip : forall s e_term e2_term m i, (forall k, (k < nprod s)%nat -> sized 400 (m k) /\ is_finite (i k) = true /\ bpow radix2 (-400) <= B2R (i k) <= bpow radix2 400) ->
  reads s e_term (fun k => fmul (i k) (m k)) -> reads s e2_term (fun k => fmul f_mhalf (i k)) ->
  exists mean info M I, f_uvn_from_natural_parameters e_term e2_term = Ok (mean, info) /\ reads s mean M /\ reads s info I /\ forall k, (k < nprod s)%nat ->
    is_finite (I k) = true /\ B2R (I k) = B2R (i k) /\ is_finite (M k) = true /\ Rabs (B2R (M k) - B2R (m k)) <= units 3 * Rabs (B2R (m k)) + bpow radix2 (-600).
Proof.
  intros s e q m i H He Hq. destruct (natural_reads s e q _ _ He Hq) as (mm & ii & Em & Rm & Ri). eexists mm, ii, _, _. split; [exact Em|]. split; [exact Rm|]. split; [exact Ri|].
  intros k Hk. destruct (H k Hk) as ([Fm Bm] & Fi & Bi). exact (round_trip (m k) (i k) Fm Bm Fi Bi).
Qed.
Print Assumptions C145_round_trip.
(** uvn_prior: never positive, and close to -info ((e - mean)^2 + var) / 2, relative to that number itself *)
Theorem C145_normal_prior : forall fsq, squares fsq -> forall s prior_mean prior_info e_obs var_obs m i e v, reads s prior_mean m -> reads s prior_info i -> reads s e_obs e -> reads s var_obs v ->
  (forall k, (k < nprod s)%nat -> sized 200 (m k) /\ sized_nonneg 200 (i k) /\ sized 200 (e k) /\ sized_nonneg 200 (v k)) ->
  exists p P, f_uvn_prior fsq prior_mean prior_info e_obs var_obs = Ok p /\ reads s p P /\ forall k, (k < nprod s)%nat -> let size := / 2 * (B2R (i k) * ((B2R (e k) - B2R (m k)) ^ 2 + B2R (v k))) in
    is_finite (P k) = true /\ B2R (P k) <= 0 /\ Rabs (B2R (P k) - - size) <= units 13 * size + bpow radix2 (-870).
Proof.
  intros fsq Hq s pm pi eo vo m i e v H1 H2 H3 H4 H. destruct (uvn_prior_reads fsq s pm pi eo vo m i e v H1 H2 H3 H4) as (p & E & R). eexists p, _. split; [exact E|]. split; [exact R|].
  intros k Hk. destruct (H k Hk) as (A & B & C & D). exact (uvn_prior_entry fsq Hq _ _ _ _ A B C D).
Qed.
Print Assumptions C145_normal_prior.
(** gamma_prior: close to (shape - 1) e_log - rate e, relative to the sizes of the two products *)
Theorem C145_gamma_prior : forall s prior_shape prior_rate e_obs e_log_obs a r e l, reads s prior_shape a -> reads s prior_rate r -> reads s e_obs e -> reads s e_log_obs l ->
  (forall k, (k < nprod s)%nat -> sized 200 (a k) /\ sized 200 (r k) /\ sized 200 (e k) /\ sized 200 (l k)) ->
  exists p P, f_gamma_prior prior_shape prior_rate e_obs e_log_obs = Ok p /\ reads s p P /\ forall k, (k < nprod s)%nat -> let X := (B2R (a k) - 1) * B2R (l k) in let Y := B2R (r k) * B2R (e k) in
    is_finite (P k) = true /\ Rabs (B2R (P k) - (X - Y)) <= units 4 * (Rabs X + Rabs Y) + bpow radix2 (-1070).
Proof.
  intros s ps pr eo lo a r e l H1 H2 H3 H4 H. destruct (gamma_prior_reads s ps pr eo lo a r e l H1 H2 H3 H4) as (p & E & R). eexists p, _. split; [exact E|]. split; [exact R|].
  intros k Hk. destruct (H k Hk) as (A & B & C & D). exact (gamma_prior_entry _ _ _ _ A B C D).
Qed.
Print Assumptions C145_gamma_prior.
(** exponential_prior: one rounding *)
Theorem C145_exponential_prior : forall s lambda_par e_obs l e, reads s lambda_par l -> reads s e_obs e -> (forall k, (k < nprod s)%nat -> sized 500 (l k) /\ sized 500 (e k)) ->
  exists p P, f_exponential_prior lambda_par e_obs = Ok p /\ reads s p P /\ forall k, (k < nprod s)%nat -> is_finite (P k) = true /\ B2R (P k) = rnd64 (- (B2R (l k) * B2R (e k))).
Proof.
  intros s lo eo l e H1 H2 H. destruct (exponential_prior_reads s lo eo l e H1 H2) as (p & E & R). eexists p, _. split; [exact E|]. split; [exact R|].
  intros k Hk. destruct (H k Hk) as (A & B). exact (exponential_prior_entry _ _ A B).
Qed.
Print Assumptions C145_exponential_prior.

(** ** the hypotheses are met: an array of two observations and scalar prior parameters *)
Lemma int_sized z k : is_finite (dint z) = true -> (Z.abs z < 2 ^ 53)%Z -> (53 <= k)%Z -> sized k (dint z).
Proof.
  intros F H Hk. split; [exact F|rewrite dint_B2R by exact H; apply Rle_trans with (bpow radix2 53); [|apply bpow_le; exact Hk]; rewrite <- abs_IZR; change (bpow radix2 53) with (IZR (2 ^ 53)); apply IZR_le; lia].
Qed.
Definition ex_obs : nd dbl := Nd [2%nat] [dint 3; dint (-5)].
Definition ex_var : nd dbl := Nd [2%nat] [dint 2; dint 0].
Lemma array_reads s a : proper s a -> reads s a (entry a).
Proof. intros P. left. split; [exact P|]. reflexivity. Qed.
Lemma scalar_reads_as s (x : dbl) : reads s (nd_scalar x) (fun _ => x).
Proof. right. exists x. split; reflexivity. Qed.
Example C145_normal_prior_example : exists p P, f_uvn_prior (fun x => fmul x x) (nd_scalar (dint 1)) (nd_scalar (dint 4)) ex_obs ex_var = Ok p /\ reads [2%nat] p P /\ Rabs (B2R (P 1%nat) - -72) <= units 936 + bpow radix2 (-870).
Proof.
  destruct (C145_normal_prior _ fmul_squares [2%nat] (nd_scalar (dint 1)) (nd_scalar (dint 4)) ex_obs ex_var (fun _ => dint 1) (fun _ => dint 4) (entry ex_obs) (entry ex_var)) as (p & P & E & R & K); try apply scalar_reads_as; try (apply array_reads; split; reflexivity).
  - intros k Hk. rewrite nprod_1 in Hk. destruct k as [|[|k]]; [| |lia]; unfold entry; cbn [nth data ex_obs ex_var]; repeat split; try reflexivity; try (apply int_sized; [reflexivity|reflexivity|lia]); rewrite dint_B2R by reflexivity; lra.
  - exists p, P. split; [exact E|]. split; [exact R|]. destruct (K 1%nat ltac:(rewrite nprod_1; lia)) as (_ & _ & A). unfold entry in A. cbn [nth data ex_obs ex_var] in A. rewrite !dint_B2R in A by reflexivity. replace (/ 2 * (4 * ((-5 - 1) ^ 2 + 0))) with 72 in A by field. replace (units 936) with (units 13 * 72) by (unfold units; ring). exact A.
Qed.
Example C145_natural_example : exists mean info M I, f_uvn_from_natural_parameters ex_obs (nd_scalar (dint (-2))) = Ok (mean, info) /\ reads [2%nat] mean M /\ reads [2%nat] info I /\ B2R (I 0%nat) = 4 /\ B2R (M 0%nat) = rnd64 (3 / (-2 * -2)).
Proof.
  destruct (C145_natural_parameters [2%nat] ex_obs (nd_scalar (dint (-2))) (entry ex_obs) (fun _ => dint (-2))) as (m & i & M & I & E & R1 & R2 & K); [apply array_reads; split; reflexivity|apply scalar_reads_as| |].
  - intros k Hk. rewrite nprod_1 in Hk. split; [destruct k as [|[|k]]; [reflexivity|reflexivity|lia]|]. split; [reflexivity|]. rewrite dint_B2R by reflexivity. rewrite Rabs_left by lra. apply Rle_lt_trans with (bpow radix2 1); [change (bpow radix2 1) with 2; lra|apply bpow_lt; lia].
  - exists m, i, M, I. split; [exact E|]. split; [exact R1|]. split; [exact R2|]. destruct (K 0%nat ltac:(rewrite nprod_1; lia)) as (_ & A & B & _). unfold entry in A, B. cbn [nth data ex_obs] in A, B. rewrite !dint_B2R in A by reflexivity. rewrite (dint_B2R (-2)), (dint_B2R 3) in B by reflexivity. split; [lra|]. apply B; [lra|]. replace (3 / (-2 * -2)) with (3 / 4) by field. rewrite Rabs_pos_eq by lra. apply Rle_trans with (bpow radix2 0); [change (bpow radix2 0) with 1; lra|apply bpow_le; lia].
Qed.
Example C145_gamma_example : exists p P, f_gamma_prior (nd_scalar (dint 3)) (nd_scalar (dint 2)) (nd_scalar (dint 5)) ex_obs = Ok p /\ reads [2%nat] p P /\ Rabs (B2R (P 1%nat) - -20) <= units 80 + bpow radix2 (-1070).
Proof.
  destruct (C145_gamma_prior [2%nat] (nd_scalar (dint 3)) (nd_scalar (dint 2)) (nd_scalar (dint 5)) ex_obs (fun _ => dint 3) (fun _ => dint 2) (fun _ => dint 5) (entry ex_obs)) as (p & P & E & R & K); try apply scalar_reads_as; try (apply array_reads; split; reflexivity).
  - intros k Hk. rewrite nprod_1 in Hk. destruct k as [|[|k]]; [| |lia]; unfold entry; cbn [nth data ex_obs]; repeat split; try reflexivity; (apply int_sized; [reflexivity|reflexivity|lia]).
  - exists p, P. split; [exact E|]. split; [exact R|]. destruct (K 1%nat ltac:(rewrite nprod_1; lia)) as (_ & A). unfold entry in A. cbn [nth data ex_obs] in A. rewrite !dint_B2R in A by reflexivity. replace ((3 - 1) * -5) with (- (10)) in A by ring. replace (2 * 5) with 10 in A by ring. rewrite Rabs_Ropp, (Rabs_pos_eq 10) in A by lra. replace (- (10) - 10) with (-20) in A by ring. replace (units 80) with (units 4 * (10 + 10)) by (unfold units; ring). exact A.
Qed.
