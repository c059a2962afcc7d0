(** Proofs about the moments of distribution parameters in binary64: single entries and array operations. *)
From Coq Require Import Reals ZArith List Lra Lia Psatz Bool.
From Flocq Require Import Core BinarySingleNaN Relative Plus_error.
From Verif Require Import Res Nd RSum ModelNumpy SpecFloat SpecFloatSimplex SpecFloatAcc SpecFloatMatrix SpecFloatFam ModelFloat ModelFloatFamilies
  LemmasPosDef LemmasNumpy LemmasFloat LemmasFloat2 LemmasFloat3 LemmasFloat4 LemmasFloatSimplex LemmasFloatSimplex2 LemmasFloatAcc LemmasFloatAcc2.
Import List ListNotations.
Set Bullet Behavior "Strict Subproofs".
Open Scope R_scope.

Lemma one_B2R : B2R f_one = 1. Proof. exact (Bone_correct 53 1024 prec53 emax1024). Qed.
Lemma one_finite : is_finite f_one = true. Proof. reflexivity. Qed.

(** ** one entry *)
Lemma fdiv_near (x y : dbl) : is_finite x = true -> 0 < B2R y -> bpow radix2 (-1022) <= B2R x / B2R y <= bpow radix2 1000 -> within 1 (fdiv x y) (B2R x / B2R y) /\ 0 < B2R (fdiv x y).
Proof.
  intros Fx Py [L U]. pose proof (rnd64_near _ L) as N. pose proof (bpow_gt_0 radix2 (-1022)) as P0. small_u.
  assert (G : 0 < rnd64 (B2R x / B2R y) <= 2 * (B2R x / B2R y)) by (apply Rabs_le_inv in N; split; nra).
  assert (B : 2 * bpow radix2 1000 <= bpow radix2 1001) by (change 2 with (bpow radix2 1); rewrite <- bpow_plus; apply bpow_le; lia).
  assert (B' : bpow radix2 1001 < bpow radix2 1024) by (apply bpow_lt; lia).
  destruct (fdiv_cases x y Fx) as [(_ & E & F & _)|(C & _)]; [lra| |rewrite Rabs_pos_eq in C by lra; lra].
  unfold within. rewrite units_u, Rmult_1_l, E. split; [split; [exact F|exact N]|lra].
Qed.
Lemma info_inverse i : fair_info i -> bpow radix2 (-501) <= 1 / B2R i <= bpow radix2 490.
Proof.
  intros [_ [A B]]. pose proof (bpow_gt_0 radix2 (-490)). unfold Rdiv. rewrite Rmult_1_l. change (-501)%Z with (- (501))%Z. change 490%Z with (- (-490))%Z. rewrite !bpow_opp.
  replace (/ bpow radix2 490) with (bpow radix2 (-490)) in * by (rewrite <- bpow_opp; reflexivity). split; apply Rinv_le; try lra; try apply bpow_gt_0.
Qed.
Lemma var_entry i : fair_info i -> within 1 (fdiv f_one i) (1 / B2R i) /\ 0 < B2R (fdiv f_one i).
Proof.
  intros F. pose proof (info_inverse i F) as [A B]. destruct F as [_ [C _]]. pose proof (bpow_gt_0 radix2 (-490)). pose proof (fdiv_near f_one i one_finite) as D. rewrite one_B2R in D. apply D; [lra|].
  split; [eapply Rle_trans; [|exact A]|eapply Rle_trans; [exact B|]]; apply bpow_le; lia.
Qed.
(** a larger information gives no larger variance *)
Lemma var_anti i j : fair_info i -> fair_info j -> B2R i <= B2R j -> B2R (fdiv f_one j) <= B2R (fdiv f_one i).
Proof.
  intros Fi Fj H. assert (G : forall i, fair_info i -> B2R (fdiv f_one i) = rnd64 (1 / B2R i)).
  { clear. intros i F. destruct (var_entry i F) as [[V _] P]. pose proof (info_inverse i F) as [A B]. destruct F as [_ [C _]]. pose proof (bpow_gt_0 radix2 (-490)).
    destruct (fdiv_cases f_one i one_finite) as [(_ & E & _)|(_ & E)]; [lra|rewrite one_B2R in E; exact E|]. rewrite E in V. discriminate. }
  rewrite !G by assumption. apply rnd64_le. destruct Fi as [_ [C _]]. pose proof (bpow_gt_0 radix2 (-490)). unfold Rdiv. rewrite !Rmult_1_l. apply Rinv_le; lra.
Qed.

Lemma bp_sum : bpow radix2 981 + bpow radix2 981 <= bpow radix2 1000.
Proof. replace (bpow radix2 981 + bpow radix2 981) with (bpow radix2 1 * bpow radix2 981) by (change (bpow radix2 1) with 2; ring). rewrite <- bpow_plus. apply bpow_le. lia. Qed.
Lemma bp_1074 : bpow radix2 (-1074) <= u * u * bpow radix2 (-501).
Proof. unfold u. rewrite <- !bpow_plus. apply bpow_le. lia. Qed.

Lemma uu x : 0 <= x -> 0 <= u * x /\ u * u * x <= / 100 * (u * x).
Proof. intros H. small_u. split; [nra|]. replace (/ 100 * (u * x)) with ((/ 100 * u) * x) by ring. apply Rmult_le_compat_r; [exact H|nra]. Qed.
Section Square.
Context (fsq : dbl -> dbl) (Hq : squares fsq).
Lemma square_bound m : fair_mean m -> is_finite (fsq m) = true /\ 0 <= B2R (fsq m) <= bpow radix2 981 /\ 0 <= B2R m ^ 2 <= bpow radix2 980.
Proof using Hq.
  intros [F B]. destruct (Hq m F B) as (A & C & D). rewrite units_u in D. assert (S : 0 <= B2R m ^ 2 <= bpow radix2 980).
  { split; [nra|]. replace (B2R m ^ 2) with (Rabs (B2R m) * Rabs (B2R m)) by (rewrite <- Rabs_mult, Rabs_pos_eq; nra). change 980%Z with (490 + 490)%Z. rewrite bpow_plus. apply Rmult_le_compat; try apply Rabs_pos; exact B. }
  split; [exact A|]. split; [|exact S]. split; [exact C|]. small_u. apply Rabs_le_inv in D.
  assert (E : bpow radix2 (-1074) <= / 4 * bpow radix2 980) by (change (/ 4) with (bpow radix2 (-2)); rewrite <- bpow_plus; apply bpow_le; lia).
  replace (bpow radix2 981) with (2 * bpow radix2 980) by (change 2 with (bpow radix2 1) at 1; rewrite <- bpow_plus; reflexivity).
  assert (2 * u * B2R m ^ 2 <= / 4 * bpow radix2 980) by nra. lra.
Qed.
(** the second moment *)
Lemma outer_entry m i : fair_mean m -> fair_info i -> let o := fadd (fsq m) (fdiv f_one i) in
  within 4 o (B2R m ^ 2 + 1 / B2R i) /\ B2R (fsq m) <= B2R o /\ B2R o = rnd64 (B2R (fsq m) + B2R (fdiv f_one i)) /\
  Rabs (B2R o - (B2R (fsq m) + B2R (fdiv f_one i))) <= u * (B2R (fsq m) + B2R (fdiv f_one i)).
Proof using Hq.
  intros Fm Fi o. destruct (square_bound m Fm) as (Fs & [S0 S1] & [Q0 Q1]). destruct (var_entry i Fi) as [[Fv V] V0]. pose proof (info_inverse i Fi) as [I0 I1].
  destruct (Hq m (proj1 Fm) (proj2 Fm)) as (_ & _ & D). rewrite units_u in *. set (s := B2R (fsq m)) in *. set (v := B2R (fdiv f_one i)) in *. set (M := B2R m ^ 2) in *. set (J := 1 / B2R i) in *.
  small_u. assert (J0 : 0 < J) by (pose proof (bpow_gt_0 radix2 (-501)); lra). assert (v <= 2 * J) by (apply Rabs_le_inv in V; nra).
  assert (T : 2 * J <= bpow radix2 981) by (eapply Rle_trans; [apply Rmult_le_compat_l; [lra|exact I1]|]; change 2 with (bpow radix2 1) at 1; rewrite <- bpow_plus; apply bpow_le; lia).
  pose proof bp_sum as BS. destruct (fadd_rel (fsq m) (fdiv f_one i) Fs Fv) as [Fo O]; [fold s v; rewrite Rabs_pos_eq by lra; lra|]. fold s v in O. rewrite (Rabs_pos_eq (s + v)) in O by lra. fold o in O, Fo.
  assert (R : B2R o = rnd64 (s + v)).
  { destruct (fadd_cases (fsq m) (fdiv f_one i) Fs Fv) as [(_ & E & _)|(_ & E & _)]; [exact E|]. unfold o in Fo. rewrite E in Fo. discriminate. }
  split; [|split; [|split; assumption]].
  - split; [exact Fo|]. rewrite units_u. pose proof bp_1074 as K. assert (K2 : u * u * bpow radix2 (-501) <= u * u * J) by (apply Rmult_le_compat_l; [nra|exact I0]).
    assert (A : Rabs (s + v - (M + J)) <= 2 * u * M + (1 + u) * u * J).
    { replace (s + v - (M + J)) with ((s - M) + (v - J)) by ring. eapply Rle_trans; [apply Rabs_triang|]. lra. }
    replace (B2R o - (M + J)) with ((B2R o - (s + v)) + (s + v - (M + J))) by ring. eapply Rle_trans; [apply Rabs_triang|].
    destruct (uu M Q0) as [M1 M2]. destruct (uu J (Rlt_le _ _ J0)) as [J1 J2].
    assert (B : s + v <= (1 + 2 * u) * (M + J)) by (apply Rabs_le_inv in A; lra). assert (u * (s + v) <= u * ((1 + 2 * u) * (M + J))) by (apply Rmult_le_compat_l; lra). lra.
  - rewrite R. unfold s at 1. rewrite <- (rnd64_id (fsq m)). fold s. apply rnd64_le. lra.
Qed.
(** the variance of the moment parameterisation *)
Lemma moment_entry m i : fair_mean m -> fair_info i -> let w := fsub (fadd (fsq m) (fdiv f_one i)) (fsq m) in
  is_finite w = true /\ 0 <= B2R w /\ Rabs (B2R w - 1 / B2R i) <= units 4 * (B2R m ^ 2 + 1 / B2R i) /\ (bpow radix2 55 <= B2R m ^ 2 * B2R i -> B2R w = 0).
Proof using Hq.
  intros Fm Fi w. destruct (outer_entry m i Fm Fi) as ([Fo O] & G & R & E). destruct (square_bound m Fm) as (Fs & [S0 S1] & [Q0 Q1]). destruct (var_entry i Fi) as [[Fv V] V0]. pose proof (info_inverse i Fi) as [I0 I1].
  destruct (Hq m (proj1 Fm) (proj2 Fm)) as (_ & _ & D). unfold w. set (o := fadd (fsq m) (fdiv f_one i)) in *. rewrite !units_u in *. set (s := B2R (fsq m)) in *. set (v := B2R (fdiv f_one i)) in *. set (M := B2R m ^ 2) in *. set (J := 1 / B2R i) in *.
  small_u. assert (J0 : 0 < J) by (pose proof (bpow_gt_0 radix2 (-501)); lra). assert (Vb : v <= 2 * J) by (apply Rabs_le_inv in V; nra).
  assert (T : 2 * J <= bpow radix2 981) by (eapply Rle_trans; [apply Rmult_le_compat_l; [lra|exact I1]|]; change 2 with (bpow radix2 1) at 1; rewrite <- bpow_plus; apply bpow_le; lia).
  pose proof bp_sum as BS. apply Rabs_le_inv in E. assert (E1 : B2R o - s <= v + u * (s + v)) by lra. assert (E2 : v - u * (s + v) <= B2R o - s) by lra.
  assert (Us : u * (s + v) <= / 4 * (bpow radix2 981 + bpow radix2 981)) by (apply Rmult_le_compat; lra).
  destruct (uu M Q0) as [M1 M2]. destruct (uu J (Rlt_le _ _ J0)) as [J1 J2]. assert (M3 : u * M <= / 100 * M) by (apply Rmult_le_compat_r; lra). assert (J3 : u * J <= / 100 * J) by (apply Rmult_le_compat_r; lra).
  destruct (fsub_rel o (fsq m) Fo Fs) as [Fw W]; [fold s; rewrite Rabs_pos_eq by lra; pose proof (bpow_gt_0 radix2 981);
    assert (bpow radix2 981 * 2 <= bpow radix2 1000) by lra; assert (X : 2 * bpow radix2 981 + 2 * bpow radix2 981 <= bpow radix2 1000) by (replace (2 * bpow radix2 981 + 2 * bpow radix2 981) with (bpow radix2 2 * bpow radix2 981) by (change (bpow radix2 2) with 4; ring); rewrite <- bpow_plus; apply bpow_le; lia); lra|].
  fold s in W. rewrite (Rabs_pos_eq (B2R o - s)) in W by lra. split; [exact Fw|].
  assert (Ws : B2R (fsub o (fsq m)) = rnd64 (B2R o - s)).
  { destruct (fsub_cases o (fsq m) Fo Fs) as [(_ & X & _)|(_ & X & _)]; [exact X|]. rewrite X in Fw. discriminate. }
  assert (Sb : s <= (1 + 2 * u) * M + u * u * J) by (pose proof bp_1074 as K; assert (K2 : u * u * bpow radix2 (-501) <= u * u * J) by (apply Rmult_le_compat_l; [nra|exact I0]); apply Rabs_le_inv in D; lra).
  assert (Vs : v <= (1 + u) * J) by (apply Rabs_le_inv in V; lra).
  split; [|split].
  - rewrite Ws, <- rnd64_0. apply rnd64_le. lra.
  - assert (T1 : s + v <= 21 / 20 * (M + J)) by lra. assert (P1 : u * (s + v) <= u * (21 / 20 * (M + J))) by (apply Rmult_le_compat_l; lra).
    assert (P2 : u * (B2R o - s) <= u * (11 / 10 * (M + J))) by (apply Rmult_le_compat_l; lra). apply Rabs_le_inv in W, V. apply Rabs_le. lra.
  - intros HM. rewrite Ws. replace (B2R o - s) with 0; [apply rnd64_0|]. rewrite R. symmetry. enough (K : rnd64 (s + v) = s) by lra.
    destruct Fi as [_ [Ib _]]. assert (I0' : 0 < B2R i) by (pose proof (bpow_gt_0 radix2 (-490)); lra).
    assert (MJ : bpow radix2 55 * J <= M) by (unfold J; apply Rmult_le_reg_r with (B2R i); [exact I0'|]; replace (bpow radix2 55 * (1 / B2R i) * B2R i) with (bpow radix2 55) by (field; lra); exact HM).
    change (bpow radix2 55) with 36028797018963968 in MJ.
    assert (SM : (1 - 3 * u) * M <= s) by (pose proof bp_1074 as K; assert (K2 : u * u * bpow radix2 (-501) <= u * u * J) by (apply Rmult_le_compat_l; [nra|exact I0]); apply Rabs_le_inv in D; assert (u * J <= u * M) by (apply Rmult_le_compat_l; lra); lra).
    assert (SP : 0 < s) by lra. assert (VS : 18014398509481984 * v <= s) by lra.
    apply Rle_antisym.
    + unfold rnd64. apply round_N_le_midp; [exact (@FLT_exp_valid (-1074) 53 prec53)|exact (generic_format_B2R 53 1024 (fsq m))|]. rewrite succ_eq_pos by lra.
      assert (U : / 9007199254740992 * s < ulp radix2 (FLT_exp (-1074) 53) s); [|lra].
      rewrite ulp_neq_0 by lra. unfold cexp, FLT_exp. apply Rlt_le_trans with (bpow radix2 (mag radix2 s - 53)); [|apply bpow_le; lia].
      replace (mag radix2 s - 53)%Z with (-53 + mag radix2 s)%Z by lia. rewrite bpow_plus. change (bpow radix2 (-53)) with (/ 9007199254740992). apply Rmult_lt_compat_l; [lra|].
      pose proof (bpow_mag_gt radix2 s) as B. rewrite Rabs_pos_eq in B by lra. exact B.
    + unfold s at 1. rewrite <- (rnd64_id (fsq m)). fold s. apply rnd64_le. lra.
Qed.
End Square.

(** x * x, rounded once, is a good square *)
Lemma fmul_squares : squares (fun x => fmul x x).
Proof.
  intros x F B. assert (S : 0 <= B2R x ^ 2 <= bpow radix2 980).
  { split; [nra|]. replace (B2R x ^ 2) with (Rabs (B2R x) * Rabs (B2R x)) by (rewrite <- Rabs_mult, Rabs_pos_eq; nra). change 980%Z with (490 + 490)%Z. rewrite bpow_plus. apply Rmult_le_compat; try apply Rabs_pos; exact B. }
  replace (B2R x ^ 2) with (B2R x * B2R x) in * by ring. assert (P : bpow radix2 980 < bpow radix2 1024) by (apply bpow_lt; lia).
  assert (G : 0 <= rnd64 (B2R x * B2R x) <= bpow radix2 980) by (split; [rewrite <- rnd64_0|rewrite <- (rnd64_bpow 980) by lia]; apply rnd64_le; lra).
  destruct (fmul_cases x x F F) as [(_ & E & H & _)|(C & _)]; [|rewrite Rabs_pos_eq in C by lra; lra]. rewrite E. split; [exact H|]. split; [lra|]. rewrite units_u. small_u.
  destruct (Rle_or_lt (bpow radix2 (-1022)) (B2R x * B2R x)) as [L|L].
  - pose proof (rnd64_near _ L). pose proof (bpow_gt_0 radix2 (-1074)). nra.
  - unfold rnd64. eapply Rle_trans; [apply error_le_half_ulp; exact (@FLT_exp_valid (-1074) 53 prec53)|]. rewrite (@ulp_FLT_small radix2 (-1074) 53 prec53) by (rewrite Rabs_pos_eq by lra; eapply Rlt_trans; [exact L|apply bpow_lt; lia]). pose proof (bpow_gt_0 radix2 (-1074)). nra.
Qed.

(** ** arrays *)
Lemma entry_tab s (F : nat -> dbl) k : (k < nprod s)%nat -> entry (Nd s (map F (seq 0 (nprod s)))) k = F k.
Proof. intros H. unfold entry. cbn [data]. rewrite (nth_indep _ _ (F 0%nat)) by (rewrite map_length, seq_length; exact H). rewrite map_nth, seq_nth by exact H. reflexivity. Qed.
Lemma proper_tab s (F : nat -> dbl) : proper s (Nd s (map F (seq 0 (nprod s)))).
Proof. split; [reflexivity|]. cbn [data]. rewrite map_length. apply seq_length. Qed.
Lemma bin_tab op s da db : length da = nprod s -> length db = nprod s -> f_bin op (Nd s da) (Nd s db) = Ok (Nd s (map (fun k => op (nth k da fz) (nth k db fz)) (seq 0 (nprod s)))).
Proof.
  intros La Lb. unfold f_bin. pose proof (mk_nd_eta fz (Nd s da) La) as Ea. pose proof (mk_nd_eta fz (Nd s db) Lb) as Eb. etransitivity; [exact (f_equal2 (np_bin fz fz op) Ea Eb)|]. cbn [shape]. rewrite np_bin_same. unfold mk_nd, nd_at. cbn [shape data].
  f_equal. f_equal. exact (map_product s (fun k => op (nth k da fz) (nth k db fz))).
Qed.
Lemma bin_tab_l op s x db : length db = nprod s -> f_bin op (nd_scalar x) (Nd s db) = Ok (Nd s (map (fun k => op x (nth k db fz)) (seq 0 (nprod s)))).
Proof.
  intros Lb. unfold f_bin. pose proof (mk_nd_eta fz (Nd s db) Lb) as Eb. etransitivity; [exact (f_equal2 (np_bin fz fz op) (nd_scalar_mk x) Eb)|]. cbn [shape]. rewrite np_bin_sl. unfold mk_nd, nd_at. cbn [shape data].
  f_equal. f_equal. exact (map_product s (fun k => op x (nth k db fz))).
Qed.
Lemma bin_same op s a b : proper s a -> proper s b -> exists c, f_bin op a b = Ok c /\ proper s c /\ forall k, (k < nprod s)%nat -> entry c k = op (entry a k) (entry b k).
Proof.
  destruct a as [sa da], b as [sb db]. unfold proper at 1 2. cbn [shape data]. intros [-> La] [-> Lb]. eexists. split; [apply bin_tab; assumption|]. split; [apply proper_tab|]. intros k H. rewrite entry_tab by exact H. reflexivity.
Qed.
Lemma bin_scalar_l op s x b : proper s b -> exists c, f_bin op (nd_scalar x) b = Ok c /\ proper s c /\ forall k, (k < nprod s)%nat -> entry c k = op x (entry b k).
Proof.
  destruct b as [sb db]. unfold proper at 1. cbn [shape data]. intros [-> Lb]. eexists. split; [apply bin_tab_l; assumption|]. split; [apply proper_tab|]. intros k H. rewrite entry_tab by exact H. reflexivity.
Qed.
Lemma map_entry f s a : proper s a -> proper s (nd_map f a) /\ forall k, (k < nprod s)%nat -> entry (nd_map f a) k = f (entry a k).
Proof.
  intros [Sa La]. split; [split; [exact Sa|cbn; rewrite map_length; exact La]|]. intros k H. unfold entry. cbn [data nd_map]. rewrite (nth_indep _ _ (f dzero)) by (rewrite map_length, La; exact H). apply map_nth.
Qed.
