(** Proofs about priors and natural parameters in binary64. *)
From Coq Require Import Reals ZArith List Lra Lia Bool.
From Flocq Require Import Core BinarySingleNaN Relative.
From Verif Require Import Res Nd RSum ModelNumpy SpecFloat SpecFloatSimplex SpecFloatAcc SpecFloatMatrix SpecFloatFam SpecFloatPrior ModelFloat ModelFloatFamilies ModelFloatLogit ModelFloatPrior
  LemmasNumpy LemmasFloat LemmasFloat2 LemmasFloat3 LemmasFloat4 LemmasFloat5 LemmasFloatDefault LemmasFloatSimplex LemmasFloatSimplex2 LemmasFloatSimplex4 LemmasFloatAcc LemmasFloatAcc2 LemmasFloatFam LemmasFloatFam7 LemmasFloatLogit LemmasFloatQuad.
Import List ListNotations.
Set Bullet Behavior "Strict Subproofs".
Open Scope R_scope.

(** ** broadcasting *)
Lemma bin_reads op s a b v w : reads s a v -> reads s b w -> exists c, f_bin op a b = Ok c /\ reads s c (fun k => op (v k) (w k)).
Proof.
  intros [(Pa & Va)|(x & -> & Va)] [(Pb & Vb)|(y & -> & Vb)].
  - destruct (bin_same op s a b Pa Pb) as (c & E & P & K). exists c. split; [exact E|]. left. split; [exact P|]. intros k Hk. rewrite K, Va, Vb by exact Hk. reflexivity.
  - destruct (bin_scalar_r op s a y Pa) as (c & E & P & K). exists c. split; [exact E|]. left. split; [exact P|]. intros k Hk. rewrite K, Va, Vb by exact Hk. reflexivity.
  - destruct (bin_scalar_l op s x b Pb) as (c & E & P & K). exists c. split; [exact E|]. left. split; [exact P|]. intros k Hk. rewrite K, Va, Vb by exact Hk. reflexivity.
  - exists (nd_scalar (op x y)). split; [reflexivity|]. right. exists (op x y). split; [reflexivity|]. intros k Hk. rewrite Va, Vb by exact Hk. reflexivity.
Qed.
Lemma scalar_reads s (x : dbl) : reads s (nd_scalar x) (fun _ => x).
Proof. right. exists x. split; reflexivity. Qed.
Lemma map_reads (f : dbl -> dbl) s a v : reads s a v -> reads s (nd_map f a) (fun k => f (v k)).
Proof.
  intros [(Pa & Va)|(x & -> & Va)].
  - destruct (map_entry f s a Pa) as [P K]. left. split; [exact P|]. intros k Hk. rewrite K, Va by exact Hk. reflexivity.
  - right. exists (f x). split; [reflexivity|]. intros k Hk. rewrite Va by exact Hk. reflexivity.
Qed.
Lemma natural_reads s e q E Q : reads s e E -> reads s q Q -> exists m i, f_uvn_from_natural_parameters e q = Ok (m, i) /\ reads s m (fun k => fdiv (E k) (fmul f_m2 (Q k))) /\ reads s i (fun k => fmul f_m2 (Q k)).
Proof.
  intros He Hq. destruct (bin_reads fmul s _ q _ Q (scalar_reads s f_m2) Hq) as (i & Ei & Ri). destruct (bin_reads fdiv s e i E _ He Ri) as (m & Em & Rm). exists m, i. split; [|split; assumption].
  unfold f_uvn_from_natural_parameters. etransitivity; [exact (f_equal (fun r => rbind r _) Ei)|]. cbn [rbind]. rewrite Em. reflexivity.
Qed.
Lemma uvn_prior_reads fsq s pm pi e v PM PI' E V : reads s pm PM -> reads s pi PI' -> reads s e E -> reads s v V ->
  exists r, f_uvn_prior fsq pm pi e v = Ok r /\ reads s r (fun k => fmul f_mhalf (fmul (PI' k) (fadd (fsq (fsub (E k) (PM k))) (V k)))).
Proof.
  intros H1 H2 H3 H4. destruct (bin_reads fsub s _ _ _ _ H3 H1) as (d & Ed & Rd). destruct (bin_reads fadd s _ _ _ _ (map_reads fsq s d _ Rd) H4) as (a & Ea & Ra). destruct (bin_reads fmul s _ _ _ _ H2 Ra) as (b & Eb & Rb). destruct (bin_reads fmul s _ _ _ _ (scalar_reads s f_mhalf) Rb) as (c & Ec & Rc).
  exists c. split; [|exact Rc]. unfold f_uvn_prior. rewrite Ed. cbn [rbind]. etransitivity; [exact (f_equal (fun r => rbind r _) Ea)|]. cbn [rbind]. rewrite Eb. cbn [rbind]. exact Ec.
Qed.
Lemma gamma_prior_reads s a r e l A B E L : reads s a A -> reads s r B -> reads s e E -> reads s l L ->
  exists g, f_gamma_prior a r e l = Ok g /\ reads s g (fun k => fsub (fmul (fsub (A k) f_one) (L k)) (fmul (B k) (E k))).
Proof.
  intros H1 H2 H3 H4. destruct (bin_reads fsub s _ _ _ _ H1 (scalar_reads s f_one)) as (d & Ed & Rd). destruct (bin_reads fmul s _ _ _ _ Rd H4) as (b & Eb & Rb). destruct (bin_reads fmul s _ _ _ _ H2 H3) as (c & Ec & Rc). destruct (bin_reads fsub s _ _ _ _ Rb Rc) as (g & Eg & Rg).
  exists g. split; [|exact Rg]. unfold f_gamma_prior. etransitivity; [exact (f_equal (fun r => rbind r _) Ed)|]. cbn [rbind]. rewrite Eb. cbn [rbind]. rewrite Ec. cbn [rbind]. exact Eg.
Qed.
Lemma exponential_prior_reads s l e L E : reads s l L -> reads s e E -> exists g, f_exponential_prior l e = Ok g /\ reads s g (fun k => fmul (fmul f_mone (L k)) (E k)).
Proof.
  intros H1 H2. destruct (bin_reads fmul s _ _ _ _ (scalar_reads s f_mone) H1) as (d & Ed & Rd). destruct (bin_reads fmul s _ _ _ _ Rd H2) as (g & Eg & Rg). exists g. split; [|exact Rg]. unfold f_exponential_prior. etransitivity; [exact (f_equal (fun r => rbind r _) Ed)|]. cbn [rbind]. exact Eg.
Qed.

(** ** natural parameters *)
Lemma f_m2_value : is_finite f_m2 = true /\ B2R f_m2 = -2.
Proof. split; [reflexivity|]. exact (dint_B2R (-2) eq_refl). Qed.
Lemma f_mhalf_value : is_finite f_mhalf = true /\ B2R f_mhalf = - / 2.
Proof. split; [reflexivity|]. unfold f_mhalf. rewrite B2R_Bopp, f_half_B2R. reflexivity. Qed.
Lemma double_exact (q : dbl) : is_finite q = true -> Rabs (B2R q) < bpow radix2 1023 -> is_finite (fmul f_m2 q) = true /\ B2R (fmul f_m2 q) = -2 * B2R q.
Proof.
  intros F B. destruct f_m2_value as [F2 E2]. assert (R : rnd64 (-2 * B2R q) = -2 * B2R q).
  { replace (-2 * B2R q) with (- (B2R q * bpow radix2 1)) by (change (bpow radix2 1) with 2; ring). rewrite rnd64_opp. f_equal. apply rnd64_format. apply Mult_error.mult_bpow_pos_exact_FLT; [exact (generic_format_B2R 53 1024 q)|lia]. }
  assert (G : Rabs (-2 * B2R q) < bpow radix2 1024). { rewrite Rabs_mult. replace (Rabs (-2)) with 2 by (rewrite Rabs_left; lra). replace (bpow radix2 1024) with (2 * bpow radix2 1023) by (change 2 with (bpow radix2 1); rewrite <- bpow_plus; reflexivity). lra. }
  destruct (fmul_cases f_m2 q F2 F) as [(_ & E & Fm & _)|(C & _)]; rewrite E2, R in *; [|lra]. split; assumption.
Qed.
Lemma zero_info (e q : dbl) : is_finite e = true -> is_finite q = true -> B2R q = 0 -> is_finite (fdiv e (fmul f_m2 q)) = false /\ (B2R e = 0 -> fdiv e (fmul f_m2 q) = B754_nan).
Proof.
  intros Fe Fq Z. assert (Eq : exists s, q = B754_zero s). { destruct q as [s|s| |s m ex b]; try discriminate; [exists s; reflexivity|]. exfalso. cbn [B2R] in Z. apply eq_0_F2R in Z. destruct s; discriminate. }
  destruct Eq as [s ->]. assert (Em : exists s', fmul f_m2 (B754_zero s) = B754_zero s') by (exists (xorb true s); destruct s; reflexivity). destruct Em as [s' ->]. split.
  - destruct e as [t|t| |t m ex b]; try discriminate; reflexivity.
  - intros Ze. destruct e as [t|t| |t m ex b]; try discriminate; [reflexivity|]. exfalso. cbn [B2R] in Ze. apply eq_0_F2R in Ze. destruct t; discriminate.
Qed.
Lemma fdiv_rounded (x y : dbl) : is_finite x = true -> B2R y <> 0 -> Rabs (B2R x / B2R y) <= bpow radix2 1000 -> is_finite (fdiv x y) = true /\ B2R (fdiv x y) = rnd64 (B2R x / B2R y).
Proof.
  intros Fx N B. pose proof (rnd64_abs_bpow _ 1000 ltac:(lia) B) as G. assert (bpow radix2 1000 < bpow radix2 1024) by (apply bpow_lt; lia).
  destruct (fdiv_cases x y Fx N) as [(_ & E & F & _)|(C & _)]; [split; assumption|lra].
Qed.
Lemma half_exact (i : dbl) : is_finite i = true -> bpow radix2 (-400) <= B2R i <= bpow radix2 400 -> is_finite (fmul f_mhalf i) = true /\ B2R (fmul f_mhalf i) = - (B2R i / 2).
Proof.
  intros F B. destruct f_mhalf_value as [Fh Eh]. pose proof (bpow_gt_0 radix2 (-400)) as P. assert (R : rnd64 (- / 2 * B2R i) = - (B2R i / 2)).
  { replace (- / 2 * B2R i) with (- (B2R i * bpow radix2 (-1))) by (change (bpow radix2 (-1)) with (/ 2); ring). rewrite rnd64_opp. f_equal. transitivity (B2R i * bpow radix2 (-1)); [|change (bpow radix2 (-1)) with (/ 2); reflexivity].
    apply rnd64_format. apply Mult_error.mult_bpow_exact_FLT; [exact (generic_format_B2R 53 1024 i)|]. assert (Mg : (-400 < mag radix2 (B2R i))%Z) by (apply mag_gt_bpow; rewrite Rabs_pos_eq; lra). lia. }
  assert (G : Rabs (- (B2R i / 2)) < bpow radix2 1024). { rewrite Rabs_Ropp, Rabs_pos_eq by lra. apply Rle_lt_trans with (bpow radix2 400); [lra|apply bpow_lt; lia]. }
  destruct (fmul_cases f_mhalf i Fh F) as [(_ & E & Fm & _)|(C & _)]; rewrite Eh, R in *; [|lra]. split; assumption.
Qed.
Lemma round_trip (m i : dbl) : is_finite m = true -> Rabs (B2R m) <= bpow radix2 400 -> is_finite i = true -> bpow radix2 (-400) <= B2R i <= bpow radix2 400 ->
  let I := fmul f_m2 (fmul f_mhalf i) in let M := fdiv (fmul i m) I in is_finite I = true /\ B2R I = B2R i /\ is_finite M = true /\ Rabs (B2R M - B2R m) <= units 3 * Rabs (B2R m) + bpow radix2 (-600).
Proof.
  intros Fm Bm Fi Bi I M. small_u. destruct (half_exact i Fi Bi) as [Fh Eh]. pose proof (bpow_gt_0 radix2 (-400)) as P4.
  destruct (double_exact (fmul f_mhalf i) Fh) as [FI EI]; [rewrite Eh, Rabs_Ropp, Rabs_pos_eq by lra; apply Rle_lt_trans with (bpow radix2 400); [lra|apply bpow_lt; lia]|]. change (fmul f_m2 (fmul f_mhalf i)) with I in FI, EI. rewrite Eh in EI. replace (-2 * - (B2R i / 2)) with (B2R i) in EI by field.
  split; [exact FI|]. split; [exact EI|]. set (x := B2R i) in *. set (y := B2R m) in *. pose proof (Rabs_pos y) as y0.
  assert (xy : Rabs (x * y) <= bpow radix2 800) by (rewrite Rabs_mult, (Rabs_pos_eq x) by lra; replace (bpow radix2 800) with (bpow radix2 400 * bpow radix2 400) by (rewrite <- bpow_plus; reflexivity); apply Rmult_le_compat; lra).
  destruct (fmul_rel i m Fi Fm) as (Fe & _ & Ee); [fold x y; apply Rle_trans with (1 := xy); apply bpow_le; lia|]. fold x y in Ee. set (e := fmul i m) in *. set (t := bpow radix2 (-1074)) in *.
  assert (t4 : t <= bpow radix2 (-674) * x). { apply Rle_trans with (bpow radix2 (-674) * bpow radix2 (-400)); [unfold t; rewrite <- bpow_plus; right; reflexivity|apply Rmult_le_compat_l; [apply bpow_ge_0|lra]]. }
  set (w := bpow radix2 (-674)) in *. assert (w0 : 0 < w) by apply bpow_gt_0. assert (xn : x <> 0) by lra.
  assert (D : Rabs (B2R e / x - y) <= u * Rabs y + w).
  { replace (B2R e / x - y) with ((B2R e - x * y) / x) by (field; exact xn). unfold Rdiv. rewrite Rabs_mult, (Rabs_pos_eq (/ x)) by (left; apply Rinv_0_lt_compat; lra). apply Rmult_le_reg_r with x; [lra|]. rewrite Rmult_assoc, Rinv_l, Rmult_1_r by exact xn. rewrite Rabs_mult, (Rabs_pos_eq x) in Ee by lra. lra. }
  assert (w1 : w <= 1) by (change 1 with (bpow radix2 0); apply bpow_le; lia). assert (uy : u * Rabs y <= / 1000 * Rabs y) by (apply Rmult_le_compat_r; lra).
  assert (Q : Rabs (B2R e / x) <= 1001 / 1000 * Rabs y + w). { replace (B2R e / x) with ((B2R e / x - y) + y) by ring. eapply Rle_trans; [apply Rabs_triang|]. lra. }
  destruct (fdiv_rel e I Fe) as [FM EM]; [rewrite EI; lra| |].
  { rewrite EI. apply Rle_trans with (1 := Q). apply Rle_trans with (bpow radix2 402); [|apply bpow_le; lia]. replace (bpow radix2 402) with (4 * bpow radix2 400) by (change 4 with (bpow radix2 2); rewrite <- bpow_plus; reflexivity). assert (1 <= bpow radix2 400) by (change 1 with (bpow radix2 0); apply bpow_le; lia). lra. }
  change (fdiv e I) with M in FM, EM. rewrite EI in EM. fold t in EM. split; [exact FM|]. rewrite units_u. assert (uq : u * Rabs (B2R e / x) <= u * (1001 / 1000 * Rabs y + w)) by (apply Rmult_le_compat_l; lra). assert (uw : u * w <= 1 * w) by (apply Rmult_le_compat_r; lra).
  assert (T6 : t + 3 * w <= bpow radix2 (-600)). { assert (t <= w) by (apply bpow_le; lia). replace (bpow radix2 (-600)) with (bpow radix2 74 * w) by (unfold w; rewrite <- bpow_plus; reflexivity). assert (4 * w <= bpow radix2 74 * w) by (apply Rmult_le_compat_r; [lra|]; change 4 with (bpow radix2 2); apply bpow_le; lia). lra. }
  replace (B2R M - y) with ((B2R M - B2R e / x) + (B2R e / x - y)) by ring. eapply Rle_trans; [apply Rabs_triang|]. assert (0 <= u * Rabs y) by (apply Rmult_le_pos; lra). lra.
Qed.

(** ** the priors *)
Lemma tiny_products k : 0 <= k <= bpow radix2 200 -> bpow radix2 (-1074) * k <= bpow radix2 (-874) /\ bpow radix2 (-1074) <= bpow radix2 (-874).
Proof.
  intros [K0 K]. split; [|apply bpow_le; lia]. apply Rle_trans with (bpow radix2 (-1074) * bpow radix2 200); [apply Rmult_le_compat_l; [apply bpow_ge_0|exact K]|rewrite <- bpow_plus; right; reflexivity].
Qed.
Lemma b_prod a b c x y : Rabs x <= bpow radix2 a -> Rabs y <= bpow radix2 b -> (a + b <= c)%Z -> Rabs (x * y) <= bpow radix2 c.
Proof. intros A B C. rewrite Rabs_mult. apply Rle_trans with (bpow radix2 a * bpow radix2 b); [apply Rmult_le_compat; auto using Rabs_pos|]. rewrite <- bpow_plus. apply bpow_le. exact C. Qed.
Lemma uvn_prior_entry fsq : squares fsq -> forall pm pi e v : dbl, sized 200 pm -> sized_nonneg 200 pi -> sized 200 e -> sized_nonneg 200 v ->
  let r := fmul f_mhalf (fmul pi (fadd (fsq (fsub e pm)) v)) in let S := / 2 * (B2R pi * ((B2R e - B2R pm) ^ 2 + B2R v)) in
  is_finite r = true /\ B2R r <= 0 /\ Rabs (B2R r - - S) <= units 13 * S + bpow radix2 (-870).
Proof.
  intros Hq pm pi e v [F1 B1] [[F2 B2] N2] [F3 B3] [[F4 B4] N4] r S. small_u. set (D := B2R e - B2R pm) in *. set (I := B2R pi) in *. set (V := B2R v) in *. set (t := bpow radix2 (-1074)). assert (t0 : 0 < t) by apply bpow_gt_0. rewrite Rabs_pos_eq in B2, B4 by assumption.
  assert (P2 : forall k, bpow radix2 (k + 1) = 2 * bpow radix2 k) by (intros k; rewrite bpow_plus; change (bpow radix2 1) with 2; ring). pose proof (P2 200%Z) as b201. pose proof (P2 201%Z) as b202. cbn [Z.add Pos.add Pos.succ] in b201, b202. change (200 + 1)%Z with 201%Z in b201. change (201 + 1)%Z with 202%Z in b202.
  assert (BD : Rabs D <= bpow radix2 201) by (unfold D, Rminus; eapply Rle_trans; [apply Rabs_triang|]; rewrite Rabs_Ropp; lra).
  destruct (fsub_rel e pm F3 F1) as [Fd Ed]; [fold D; apply Rle_trans with (1 := BD); apply bpow_le; lia|]. fold D in Ed. set (d := fsub e pm) in *. pose proof (Rabs_pos D) as D0. assert (uD : u * Rabs D <= / 1000 * Rabs D) by (apply Rmult_le_compat_r; lra).
  assert (Bd : Rabs (B2R d) <= 1001 / 1000 * Rabs D). { replace (B2R d) with ((B2R d - D) + D) by ring. eapply Rle_trans; [apply Rabs_triang|]. lra. }
  destruct (Hq d Fd) as (Fq & Nq & Eq); [apply Rle_trans with (bpow radix2 202); [lra|apply bpow_le; lia]|]. rewrite units_u in Eq. fold t in Eq. set (q := fsq d) in *.
  set (D2 := D ^ 2) in *. assert (ED2 : D2 = Rabs D * Rabs D) by (unfold D2; rewrite <- Rabs_mult, Rabs_pos_eq; [ring|]; replace (D * D) with (Rsqr D) by reflexivity; apply Rle_0_sqr).
  assert (D20 : 0 <= D2) by (rewrite ED2; apply Rmult_le_pos; lra).
  assert (Ed2 : Rabs (B2R d ^ 2 - D2) <= 2001 / 1000 * (u * D2)).
  { unfold D2 at 1. replace (B2R d ^ 2 - D ^ 2) with ((B2R d - D) * (B2R d + D)) by ring. rewrite Rabs_mult. apply Rle_trans with (u * Rabs D * (2001 / 1000 * Rabs D)); [|rewrite ED2; right; ring].
    apply Rmult_le_compat; [apply Rabs_pos|apply Rabs_pos|exact Ed|]. eapply Rle_trans; [apply Rabs_triang|]. lra. }
  assert (uD2 : u * D2 <= / 1000 * D2) by (apply Rmult_le_compat_r; lra). assert (uD20 : 0 <= u * D2) by (apply Rmult_le_pos; lra).
  assert (Bd2 : 0 <= B2R d ^ 2 <= 101 / 100 * D2) by (split; [replace (B2R d ^ 2) with (Rsqr (B2R d)) by (unfold Rsqr; ring); apply Rle_0_sqr|apply Rabs_le_inv in Ed2; lra]).
  assert (Eq2 : Rabs (B2R q - D2) <= 5 * (u * D2) + t).
  { replace (B2R q - D2) with ((B2R q - B2R d ^ 2) + (B2R d ^ 2 - D2)) by ring. eapply Rle_trans; [apply Rabs_triang|]. assert (2 * u * B2R d ^ 2 <= 2 * u * (101 / 100 * D2)) by (apply Rmult_le_compat_l; lra). lra. }
  set (W := D2 + V) in *. assert (W0 : 0 <= W) by (unfold W; lra). assert (uDW : u * D2 <= u * W) by (apply Rmult_le_compat_l; unfold W; lra). assert (uW : u * W <= / 1000 * W) by (apply Rmult_le_compat_r; lra).
  assert (BD2 : D2 <= bpow radix2 402). { rewrite ED2. replace (bpow radix2 402) with (bpow radix2 201 * bpow radix2 201) by (rewrite <- bpow_plus; reflexivity). apply Rmult_le_compat; lra. }
  assert (B200 : bpow radix2 200 <= bpow radix2 402) by (apply bpow_le; lia). assert (t1 : t <= bpow radix2 402) by (apply bpow_le; lia). pose proof (bpow_gt_0 radix2 402) as p402.
  assert (QV : 0 <= B2R q + V <= 1006 / 1000 * W + t) by (split; [lra|apply Rabs_le_inv in Eq2; unfold W in *; lra]).
  destruct (fadd_rel q v Fq F4) as [Fa Ea]; [fold V; rewrite Rabs_pos_eq by lra; apply Rle_trans with (8 * bpow radix2 402); [unfold W in *; lra|change 8 with (bpow radix2 3); rewrite <- bpow_plus; apply bpow_le; lia]|]. fold V in Ea. rewrite (Rabs_pos_eq (B2R q + V)) in Ea by lra. set (a := fadd q v) in *.
  assert (uQV : u * (B2R q + V) <= u * (1006 / 1000 * W + t)) by (apply Rmult_le_compat_l; lra). assert (ut : u * t <= / 1000 * t) by (apply Rmult_le_compat_r; lra).
  assert (Ea2 : Rabs (B2R a - W) <= 7 * (u * W) + 2 * t). { replace (B2R a - W) with ((B2R a - (B2R q + V)) + (B2R q - D2)) by (unfold W; ring). eapply Rle_trans; [apply Rabs_triang|]. lra. }
  assert (Na : 0 <= B2R a). { apply Rabs_le_inv in Ea. assert (u * (B2R q + V) <= 1 * (B2R q + V)) by (apply Rmult_le_compat_r; lra). lra. }
  assert (Ba : B2R a <= 1008 / 1000 * W + 2 * t) by (apply Rabs_le_inv in Ea2; lra).
  assert (BW : W <= 2 * bpow radix2 402) by (unfold W; lra).
  assert (BIa : Rabs (I * B2R a) <= bpow radix2 700). { apply (b_prod 200 405); [rewrite Rabs_pos_eq; assumption| |lia]. rewrite Rabs_pos_eq by exact Na. apply Rle_trans with (8 * bpow radix2 402); [lra|change 8 with (bpow radix2 3); rewrite <- bpow_plus; right; reflexivity]. }
  destruct (fmul_rel pi a F2 Fa) as (Fb & Eb' & Eb); [fold I; apply Rle_trans with (1 := BIa); apply bpow_le; lia|]. fold I in Eb, Eb'. fold t in Eb. set (b := fmul pi a) in *.
  assert (Ia0 : 0 <= I * B2R a) by (apply Rmult_le_pos; assumption). rewrite (Rabs_pos_eq (I * B2R a)) in Eb by exact Ia0. assert (Nb : 0 <= B2R b) by (rewrite Eb', <- rnd64_0; apply rnd64_le; exact Ia0).
  assert (IW0 : 0 <= I * W) by (apply Rmult_le_pos; assumption). assert (It0 : 0 <= t * I) by (apply Rmult_le_pos; lra). assert (uIW0 : 0 <= u * (I * W)) by (apply Rmult_le_pos; lra).
  assert (EIa : Rabs (I * B2R a - I * W) <= 7 * (u * (I * W)) + 2 * (t * I)). { rewrite <- Rmult_minus_distr_l, Rabs_mult, (Rabs_pos_eq I) by exact N2. eapply Rle_trans; [apply Rmult_le_compat_l; [exact N2|exact Ea2]|]. right. ring. }
  assert (uIW : u * (I * W) <= / 1000 * (I * W)) by (apply Rmult_le_compat_r; lra). assert (BIa2 : I * B2R a <= 1008 / 1000 * (I * W) + 2 * (t * I)) by (apply Rabs_le_inv in EIa; lra).
  assert (uIa : u * (I * B2R a) <= u * (1008 / 1000 * (I * W) + 2 * (t * I))) by (apply Rmult_le_compat_l; lra). assert (utI : u * (t * I) <= / 1000 * (t * I)) by (apply Rmult_le_compat_r; lra).
  assert (Eb2 : Rabs (B2R b - I * W) <= 9 * (u * (I * W)) + 3 * (t * I) + t). { replace (B2R b - I * W) with ((B2R b - I * B2R a) + (I * B2R a - I * W)) by ring. eapply Rle_trans; [apply Rabs_triang|]. lra. }
  assert (Bb : B2R b <= 1010 / 1000 * (I * W) + 3 * (t * I) + t) by (apply Rabs_le_inv in Eb2; lra).
  destruct f_mhalf_value as [Fh Eh]. assert (Bb' : Rabs (B2R b) <= bpow radix2 700) by (rewrite Eb'; apply rnd64_abs_bpow; [lia|exact BIa]).
  pose proof (Rabs_pos (B2R b)) as b0. destruct (fmul_rel f_mhalf b Fh Fb) as (Fr & Er' & Er); [rewrite Eh, Rabs_mult, Rabs_Ropp, (Rabs_pos_eq (/ 2)) by lra; apply Rle_trans with (bpow radix2 700); [lra|apply bpow_le; lia]|]. change (fmul f_mhalf b) with r in Fr, Er', Er. rewrite Eh in Er, Er'. fold t in Er.
  split; [exact Fr|]. split; [rewrite Er', <- rnd64_0; apply rnd64_le; lra|].
  rewrite Rabs_mult, Rabs_Ropp, (Rabs_pos_eq (/ 2)), (Rabs_pos_eq (B2R b)) in Er by lra. assert (ub : u * (/ 2 * B2R b) <= u * (/ 2 * (1010 / 1000 * (I * W) + 3 * (t * I) + t))) by (apply Rmult_le_compat_l; lra).
  destruct (tiny_products I ltac:(lra)) as [T1 T2]. fold t in T1, T2. assert (T3 : 16 * bpow radix2 (-874) = bpow radix2 (-870)) by (change 16 with (bpow radix2 4); rewrite <- bpow_plus; reflexivity).
  assert (ES : S = / 2 * (I * W)) by reflexivity. rewrite units_u, ES. replace (B2R r - - (/ 2 * (I * W))) with ((B2R r - - / 2 * B2R b) + - / 2 * (B2R b - I * W)) by ring. eapply Rle_trans; [apply Rabs_triang|]. rewrite (Rabs_mult (- / 2)), Rabs_Ropp, (Rabs_pos_eq (/ 2)) by lra. lra.
Qed.
Lemma gamma_prior_entry (a r e l : dbl) : sized 200 a -> sized 200 r -> sized 200 e -> sized 200 l -> let g := fsub (fmul (fsub a f_one) l) (fmul r e) in
  let X := (B2R a - 1) * B2R l in let Y := B2R r * B2R e in is_finite g = true /\ Rabs (B2R g - (X - Y)) <= units 4 * (Rabs X + Rabs Y) + bpow radix2 (-1070).
Proof.
  intros [F1 B1] [F2 B2] [F3 B3] [F4 B4] g X Y. small_u. set (t := bpow radix2 (-1074)). assert (t0 : 0 < t) by apply bpow_gt_0.
  assert (B201 : Rabs (B2R a - 1) <= bpow radix2 201). { unfold Rminus. eapply Rle_trans; [apply Rabs_triang|]. rewrite Rabs_Ropp, (Rabs_pos_eq 1) by lra. replace (bpow radix2 201) with (2 * bpow radix2 200) by (change 2 with (bpow radix2 1); rewrite <- bpow_plus; reflexivity). assert (1 <= bpow radix2 200) by (change 1 with (bpow radix2 0); apply bpow_le; lia). lra. }
  destruct (fsub_rel a f_one F1 one_finite) as [Fd Ed]; rewrite one_B2R in *; [apply Rle_trans with (1 := B201); apply bpow_le; lia|]. set (d := fsub a f_one) in *. set (D := B2R a - 1) in *. set (L := B2R l) in *. pose proof (Rabs_pos X) as X0. pose proof (Rabs_pos Y) as Y0.
  assert (EdL : Rabs (B2R d * L - X) <= u * Rabs X). { unfold X. replace (B2R d * L - D * L) with ((B2R d - D) * L) by ring. rewrite !Rabs_mult, <- Rmult_assoc. apply Rmult_le_compat_r; [apply Rabs_pos|exact Ed]. }
  assert (uX : u * Rabs X <= / 1000 * Rabs X) by (apply Rmult_le_compat_r; lra). assert (uY : u * Rabs Y <= / 1000 * Rabs Y) by (apply Rmult_le_compat_r; lra). assert (uX0 : 0 <= u * Rabs X) by (apply Rmult_le_pos; lra). assert (uY0 : 0 <= u * Rabs Y) by (apply Rmult_le_pos; lra).
  assert (BdL : Rabs (B2R d * L) <= 1001 / 1000 * Rabs X). { replace (B2R d * L) with ((B2R d * L - X) + X) by ring. eapply Rle_trans; [apply Rabs_triang|]. lra. }
  assert (BX : Rabs X <= bpow radix2 401) by (apply (b_prod 201 200); [exact B201|exact B4|lia]). assert (BY : Rabs Y <= bpow radix2 401) by (apply (b_prod 200 200); [exact B2|exact B3|lia]).
  pose proof (bpow_gt_0 radix2 401) as p401. assert (B8 : 8 * bpow radix2 401 <= bpow radix2 1000) by (change 8 with (bpow radix2 3); rewrite <- bpow_plus; apply bpow_le; lia). assert (t1 : t <= bpow radix2 401) by (apply bpow_le; lia).
  destruct (fmul_rel d l Fd F4) as (Fb & _ & Eb); [fold L; lra|]. fold L t in Eb. set (b := fmul d l) in *. destruct (fmul_rel r e F2 F3) as (Fc & _ & Ec); [fold Y; lra|]. fold Y t in Ec. set (c := fmul r e) in *.
  assert (ub : u * Rabs (B2R d * L) <= u * (1001 / 1000 * Rabs X)) by (apply Rmult_le_compat_l; lra).
  assert (Eb2 : Rabs (B2R b - X) <= 2002 / 1000 * (u * Rabs X) + t). { replace (B2R b - X) with ((B2R b - B2R d * L) + (B2R d * L - X)) by ring. eapply Rle_trans; [apply Rabs_triang|]. lra. }
  assert (Bbc : Rabs (B2R b - B2R c) <= 101 / 100 * (Rabs X + Rabs Y) + 2 * t).
  { replace (B2R b - B2R c) with ((B2R b - X) + (- (B2R c - Y) + (X - Y))) by ring. eapply Rle_trans; [apply Rabs_triang|]. pose proof (Rabs_triang (- (B2R c - Y)) (X - Y)) as Q1. pose proof (Rabs_triang X (- Y)) as Q2. rewrite Rabs_Ropp in Q1, Q2. fold (X - Y) in Q2. lra. }
  destruct (fsub_rel b c Fb Fc) as [Fg Eg]; [lra|]. change (fsub b c) with g in Fg, Eg. split; [exact Fg|].
  assert (ug : u * Rabs (B2R b - B2R c) <= u * (101 / 100 * (Rabs X + Rabs Y) + 2 * t)) by (apply Rmult_le_compat_l; lra). assert (ut : u * t <= / 1000 * t) by (apply Rmult_le_compat_r; lra). assert (T : 16 * t = bpow radix2 (-1070)) by (unfold t; change 16 with (bpow radix2 4); rewrite <- bpow_plus; reflexivity).
  rewrite units_u. replace (B2R g - (X - Y)) with ((B2R g - (B2R b - B2R c)) + ((B2R b - X) + - (B2R c - Y))) by ring. eapply Rle_trans; [apply Rabs_triang|]. pose proof (Rabs_triang (B2R b - X) (- (B2R c - Y))) as Q. rewrite Rabs_Ropp in Q. lra.
Qed.
Lemma exponential_prior_entry (l e : dbl) : sized 500 l -> sized 500 e -> let r := fmul (fmul f_mone l) e in is_finite r = true /\ B2R r = rnd64 (- (B2R l * B2R e)).
Proof.
  intros [F1 B1] [F2 B2] r. destruct (fmul_mone l F1) as (E & F & _). destruct (fmul_rel (fmul f_mone l) e F F2) as (G & V & _); rewrite E in *; [apply (b_prod 500 500); [rewrite Rabs_Ropp; exact B1|exact B2|lia]|]. split; [exact G|]. etransitivity; [exact V|]. f_equal. ring.
Qed.
