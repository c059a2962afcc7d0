(** Proofs about Gauss-Hermite quadrature in binary64. *)
From Coq Require Import Reals ZArith List Lra Lia Psatz Bool Machin Ratan.
From Flocq Require Import Core BinarySingleNaN Relative.
From Verif Require Import Res Nd RSum ModelNumpy SpecFloat SpecFloatSimplex SpecFloatAcc SpecFloatMatrix SpecFloatFam SpecFloatLogit ModelFloat ModelFloatFamilies ModelFloatLogit
  LemmasPosDef LemmasNumpy LemmasFloat LemmasFloat2 LemmasFloat3 LemmasFloat4 LemmasFloatSimplex LemmasFloatSimplex2 LemmasFloatSimplex4 LemmasFloatAcc LemmasFloatAcc2 LemmasFloatFam LemmasFloatFam6 LemmasFloatFam7 LemmasFloatEntropy LemmasFloatLogit.
Import List ListNotations.
Set Bullet Behavior "Strict Subproofs".
Open Scope R_scope.

(** ** pi *)
Lemma ratan_inv x n : Ratan_seq (/ x) n = / (x ^ (2 * n + 1) * INR (2 * n + 1)).
Proof. unfold Ratan_seq. rewrite pow_inv. unfold Rdiv. rewrite Rinv_mult. reflexivity. Qed.
Lemma pi_tight : 7074237752028440 / 2251799813685248 - 3 / 10000000000000000 <= PI <= 7074237752028440 / 2251799813685248 + 3 / 10000000000000000.
Proof.
  pose proof (PI_2_3_7_ineq 8) as H. change (2 * 8)%nat with 16%nat in H. cbn [sum_f_R0] in H. unfold tg_alt, PI_2_3_7_tg in H. rewrite !ratan_inv in H.
  cbn [Nat.mul Nat.add] in H. rewrite !INR_IZR_INZ in H. cbn [Z.of_nat Pos.of_succ_nat Pos.succ] in H. cbn [pow] in H. lra.
Qed.
Lemma f_pi_B2R : B2R f_pi = 7074237752028440 / 2251799813685248. Proof. unfold f_pi. cbn. unfold F2R. cbn. lra. Qed.
Lemma f_pi_close : Rabs (B2R f_pi - PI) <= u * PI /\ 3 <= PI <= 4.
Proof. rewrite f_pi_B2R, u_val. pose proof pi_tight as H. split; [apply Rabs_le; lra|lra]. Qed.

(** ** square roots and quotients *)
Lemma fsqrt_pos (x : dbl) : is_finite x = true -> 0 < B2R x -> is_finite (fsqrt x) = true /\ B2R (fsqrt x) = rnd64 (sqrt (B2R x)).
Proof.
  intros F P. destruct (@Bsqrt_correct 53 1024 prec53 emax1024 mode_NE x) as (A & B & _). fold (fsqrt x) in A, B. split; [|exact A]. rewrite B.
  destruct x as [s|s| |s m e b]; try discriminate; [reflexivity|]. destruct s; [|reflexivity]. exfalso. clear - P. cbn in P. assert (F2R (Float radix2 (Z.neg m) e) <= 0) by (apply F2R_le_0; cbn; lia). lra.
Qed.
Lemma inv_rel r q k : 0 < q -> 0 <= k <= / 1000 -> Rabs (r - q) <= k * q -> 0 < r /\ / r <= 1002 / 1000 * / q /\ Rabs (/ r - / q) <= 1002 / 1000 * k * / q.
Proof.
  intros Q K H. pose proof (Rinv_0_lt_compat q Q) as Iq. assert (kq : k * q <= / 1000 * q) by (apply Rmult_le_compat_r; lra). apply Rabs_le_inv in H. assert (R : 0 < r) by lra. split; [exact R|]. pose proof (Rinv_0_lt_compat r R) as Ir.
  assert (E1 : / r * r = 1) by (apply Rinv_l; lra). assert (E2 : / q * q = 1) by (apply Rinv_l; lra).
  assert (B : / r <= 1002 / 1000 * / q).
  { apply Rmult_le_reg_r with (r * q); [apply Rmult_lt_0_compat; assumption|]. replace (/ r * (r * q)) with (/ r * r * q) by ring. replace (1002 / 1000 * / q * (r * q)) with (1002 / 1000 * r * (/ q * q)) by ring. rewrite E1, E2. lra. }
  split; [exact B|]. replace (/ r - / q) with ((q - r) * (/ r * / q)) by (field; lra). rewrite Rabs_mult, (Rabs_pos_eq (/ r * / q)) by (apply Rmult_le_pos; lra).
  apply Rle_trans with (k * q * (1002 / 1000 * / q * / q)).
  - apply Rmult_le_compat; [apply Rabs_pos|apply Rmult_le_pos; lra|rewrite Rabs_minus_sym; apply Rabs_le; lra|apply Rmult_le_compat_r; lra].
  - right. replace (k * q * (1002 / 1000 * / q * / q)) with (1002 / 1000 * k * / q * (/ q * q)) by ring. rewrite E2. ring.
Qed.
Lemma sqrt_rel x y k : 0 < y -> 0 <= x -> 0 <= k -> Rabs (x - y) <= k * y -> Rabs (sqrt x - sqrt y) <= k * sqrt y.
Proof.
  intros Y X K H. pose proof (sqrt_lt_R0 y Y) as Sy. pose proof (sqrt_pos x) as Sx. pose proof (sqrt_sqrt x X) as Ex. pose proof (sqrt_sqrt y ltac:(lra)) as Ey.
  apply Rmult_le_reg_r with (sqrt x + sqrt y); [lra|]. rewrite <- (Rabs_pos_eq (sqrt x + sqrt y)) at 1 by lra. rewrite <- Rabs_mult. replace ((sqrt x - sqrt y) * (sqrt x + sqrt y)) with (x - y) by (rewrite <- Ex, <- Ey at 1; ring).
  apply Rle_trans with (k * y); [exact H|]. rewrite Rmult_assoc. apply Rmult_le_compat_l; [exact K|]. rewrite <- Ey at 1. apply Rmult_le_compat_l; lra.
Qed.
Lemma fdiv_rel (x y : dbl) : is_finite x = true -> 0 < B2R y -> Rabs (B2R x / B2R y) <= bpow radix2 1000 ->
  is_finite (fdiv x y) = true /\ Rabs (B2R (fdiv x y) - B2R x / B2R y) <= u * Rabs (B2R x / B2R y) + bpow radix2 (-1074).
Proof.
  intros Fx Fy B. assert (G : Rabs (rnd64 (B2R x / B2R y)) < bpow radix2 1024).
  { apply Rabs_le_inv in B. assert (L : rnd64 (B2R x / B2R y) <= bpow radix2 1000) by (rewrite <- (rnd64_bpow 1000) by lia; apply rnd64_le; lra).
    assert (L' : - bpow radix2 1000 <= rnd64 (B2R x / B2R y)) by (rewrite <- (rnd64_bpow 1000) by lia; unfold rnd64 at 1; rewrite <- round_NE_opp; apply rnd64_le; lra).
    apply Rle_lt_trans with (bpow radix2 1000); [apply Rabs_le; lra|apply bpow_lt; lia]. }
  destruct (fdiv_cases x y Fx ltac:(lra)) as [(_ & E & F & _)|(C & _)]; [|lra]. split; [exact F|]. rewrite E. apply rnd64_error.
Qed.
Definition f_kappa : dbl := fdiv f_one (fsqrt f_pi).
Definition kappa : R := / sqrt PI.
Lemma kappa_bounds : / 2 <= kappa <= 6 / 10.
Proof.
  destruct f_pi_close as [_ P]. unfold kappa. assert (S1 : 17 / 10 <= sqrt PI) by (rewrite <- (sqrt_square (17 / 10)) by lra; apply sqrt_le_1_alt; lra). assert (S2 : sqrt PI <= 2) by (rewrite <- (sqrt_square 2) by lra; apply sqrt_le_1_alt; lra).
  split; [apply Rinv_le; lra|]. apply Rle_trans with (/ (17 / 10)); [apply Rinv_le; lra|lra].
Qed.
Lemma kappa_close : is_finite f_kappa = true /\ Rabs (B2R f_kappa - kappa) <= 4 * u * kappa.
Proof.
  small_u. destruct f_pi_close as [P B]. pose proof kappa_bounds as K. assert (P0 : 3 <= B2R f_pi) by (rewrite f_pi_B2R; lra). assert (P4 : B2R f_pi <= 4) by (rewrite f_pi_B2R; lra).
  destruct (fsqrt_pos f_pi eq_refl ltac:(lra)) as [Fr Er]. set (r := fsqrt f_pi) in *. assert (S0 : 0 < sqrt PI) by (apply sqrt_lt_R0; lra).
  assert (Sp1 : 1 <= sqrt (B2R f_pi)) by (rewrite <- sqrt_1 at 1; apply sqrt_le_1_alt; lra).
  assert (R1 : Rabs (B2R r - sqrt (B2R f_pi)) <= u * sqrt (B2R f_pi)) by (rewrite Er; apply rnd64_near; apply Rle_trans with 1; [change 1 with (bpow radix2 0); apply bpow_le; lia|exact Sp1]).
  assert (R2 : Rabs (sqrt (B2R f_pi) - sqrt PI) <= u * sqrt PI) by (apply sqrt_rel; lra).
  assert (uS : u * sqrt PI <= / 1000 * sqrt PI) by (apply Rmult_le_compat_r; lra). assert (Q : u * sqrt (B2R f_pi) <= u * (1001 / 1000 * sqrt PI)) by (apply Rmult_le_compat_l; [lra|]; apply Rabs_le_inv in R2; lra).
  assert (uS0 : 0 <= u * sqrt PI) by (apply Rmult_le_pos; lra).
  assert (R3 : Rabs (B2R r - sqrt PI) <= 201 / 100 * u * sqrt PI) by (replace (B2R r - sqrt PI) with ((B2R r - sqrt (B2R f_pi)) + (sqrt (B2R f_pi) - sqrt PI)) by ring; eapply Rle_trans; [apply Rabs_triang|]; lra).
  destruct (inv_rel (B2R r) (sqrt PI) (201 / 100 * u) S0 ltac:(lra) R3) as (R4 & R5 & R6). fold kappa in R5, R6.
  assert (uK : u * kappa <= / 1000 * kappa) by (apply Rmult_le_compat_r; lra). assert (uk0 : 0 <= u * kappa) by (apply Rmult_le_pos; lra).
  assert (Eq : B2R f_one / B2R r = / B2R r) by (rewrite one_B2R; unfold Rdiv; ring). assert (I0 : 0 < / B2R r) by (apply Rinv_0_lt_compat; exact R4).
  destruct (fdiv_rel f_one r one_finite R4) as [Fk Ek]; [rewrite Eq, Rabs_pos_eq by lra; apply Rle_trans with (bpow radix2 0); [change (bpow radix2 0) with 1; lra|apply bpow_le; lia]|]. change (fdiv f_one r) with f_kappa in Fk, Ek. rewrite Eq, (Rabs_pos_eq (/ B2R r)) in Ek by lra.
  split; [exact Fk|]. assert (T : bpow radix2 (-1074) <= / 1000 * (u * kappa)).
  { apply Rle_trans with (bpow radix2 (-11) * u); [unfold u; rewrite <- bpow_plus; apply bpow_le; lia|]. change (bpow radix2 (-11)) with (/ 2048). assert (u * / 2 <= u * kappa) by (apply Rmult_le_compat_l; lra). lra. }
  assert (UI : u * / B2R r <= u * (1002 / 1000 * kappa)) by (apply Rmult_le_compat_l; lra).
  replace (B2R f_kappa - kappa) with ((B2R f_kappa - / B2R r) + (/ B2R r - kappa)) by ring. eapply Rle_trans; [apply Rabs_triang|]. lra.
Qed.

(** ** one node *)
Lemma f_two : is_finite (f_int 2) = true /\ B2R (f_int 2) = 2. Proof. split; [reflexivity|]. unfold f_int. cbn. unfold F2R. cbn. lra. Qed.
Lemma sqrt2_bounds : 1 <= sqrt 2 <= 2.
Proof. split; [rewrite <- sqrt_1 at 1; apply sqrt_le_1_alt; lra|rewrite <- (sqrt_square 2) at 2 by lra; apply sqrt_le_1_alt; lra]. Qed.
Definition f_point (x mu L : dbl) : dbl := fadd (fdiv (fmul (fmul (fsqrt (f_int 2)) x) f_one) (fsqrt L)) mu.
Lemma point_close (x mu L : dbl) : fair_node x -> fair_center mu -> fair_scale L -> let A := sqrt 2 * B2R x / sqrt (B2R L) in let t := f_point x mu L in
  is_finite t = true /\ Rabs A <= bpow radix2 302 /\ Rabs (B2R t - point (B2R x) (B2R mu) (B2R L)) <= 8 * u * (Rabs A + Rabs (B2R mu)) + bpow radix2 (-850).
Proof.
  intros [Fx Bx] [Fm Bm] [FL [L0 L1]] A t. small_u. pose proof sqrt2_bounds as S2. destruct f_two as [F2 E2].
  set (d := bpow radix2 (-1074)). assert (d0 : 0 < d) by apply bpow_gt_0.
  destruct (fsqrt_pos (f_int 2) F2 ltac:(rewrite E2; lra)) as [Fs Es]. rewrite E2 in Es. set (s := fsqrt (f_int 2)) in *.
  assert (Sc : Rabs (B2R s - sqrt 2) <= u * sqrt 2) by (rewrite Es; apply rnd64_near; apply Rle_trans with 1; [change 1 with (bpow radix2 0); apply bpow_le; lia|lra]).
  assert (us : u * sqrt 2 <= / 1000 * sqrt 2) by (apply Rmult_le_compat_r; lra). assert (Sb : 0 <= B2R s <= 1001 / 1000 * sqrt 2) by (apply Rabs_le_inv in Sc; lra).
  set (X := Rabs (B2R x)) in *. assert (X0 : 0 <= X) by apply Rabs_pos. set (Y := sqrt 2 * X). assert (Y0 : 0 <= Y) by (apply Rmult_le_pos; lra).
  assert (Yb : Y <= bpow radix2 101) by (replace (bpow radix2 101) with (2 * bpow radix2 100) by (change 2 with (bpow radix2 1); rewrite <- bpow_plus; reflexivity); apply Rmult_le_compat; lra).
  assert (sX : Rabs (B2R s * B2R x) <= 1001 / 1000 * Y) by (rewrite Rabs_mult, (Rabs_pos_eq (B2R s)) by lra; fold X; unfold Y; rewrite <- Rmult_assoc; apply Rmult_le_compat_r; lra).
  assert (B102 : 2 * bpow radix2 101 <= bpow radix2 1000) by (replace (2 * bpow radix2 101) with (bpow radix2 102) by (change 2 with (bpow radix2 1); rewrite <- bpow_plus; reflexivity); apply bpow_le; lia).
  destruct (fmul_rel s x Fs Fx) as (Fb & _ & Eb); [lra|]. fold d in Eb. destruct (fmul_one_r _ Fb) as [Fb' Eb']. set (b := fmul s x) in *. set (b' := fmul b f_one) in *.
  assert (uY : 0 <= u * Y) by (apply Rmult_le_pos; lra). assert (uY2 : u * Y <= / 1000 * Y) by (apply Rmult_le_compat_r; lra).
  assert (C1 : Rabs (B2R b - sqrt 2 * B2R x) <= 21 / 10 * (u * Y) + d).
  { replace (B2R b - sqrt 2 * B2R x) with ((B2R b - B2R s * B2R x) + (B2R s - sqrt 2) * B2R x) by ring. eapply Rle_trans; [apply Rabs_triang|]. rewrite (Rabs_mult (B2R s - sqrt 2)). fold X.
    assert (Rabs (B2R s - sqrt 2) * X <= u * sqrt 2 * X) by (apply Rmult_le_compat_r; lra). assert (u * Rabs (B2R s * B2R x) <= u * (1001 / 1000 * Y)) by (apply Rmult_le_compat_l; lra). replace (u * sqrt 2 * X) with (u * Y) in * by (unfold Y; ring). lra. }
  pose proof (bpow_gt_0 radix2 (-400)) as B400. assert (Lp : 0 < B2R L) by lra. destruct (fsqrt_pos L FL Lp) as [Fr Er]. set (r := fsqrt L) in *. set (q := sqrt (B2R L)) in *.
  assert (q0 : bpow radix2 (-200) <= q). { unfold q. rewrite <- (sqrt_square (bpow radix2 (-200))) by apply bpow_ge_0. apply sqrt_le_1_alt. rewrite <- bpow_plus. exact L0. }
  pose proof (bpow_gt_0 radix2 (-200)) as B200. assert (qp : 0 < q) by lra.
  assert (Rc : Rabs (B2R r - q) <= u * q) by (rewrite Er; apply rnd64_near; apply Rle_trans with (bpow radix2 (-200)); [apply bpow_le; lia|exact q0]).
  destruct (inv_rel (B2R r) q u qp ltac:(lra) Rc) as (R0 & R1 & R2). assert (iq0 : 0 < / q) by (apply Rinv_0_lt_compat; exact qp). assert (ir0 : 0 < / B2R r) by (apply Rinv_0_lt_compat; exact R0).
  assert (iq1 : / q <= bpow radix2 200) by (change 200%Z with (- (-200))%Z; rewrite bpow_opp; apply Rinv_le; lra).
  set (W := Y * / q). assert (W0 : 0 <= W) by (apply Rmult_le_pos; lra). assert (AW : Rabs A = W). { unfold A, W, Y, Rdiv. rewrite !Rabs_mult, (Rabs_pos_eq (sqrt 2)), (Rabs_pos_eq (/ q)) by lra. reflexivity. }
  assert (WB : W <= bpow radix2 301) by (replace (bpow radix2 301) with (bpow radix2 101 * bpow radix2 200) by (rewrite <- bpow_plus; reflexivity); apply Rmult_le_compat; lra).
  assert (dq : d * / q <= bpow radix2 (-874)) by (replace (bpow radix2 (-874)) with (d * bpow radix2 200) by (unfold d; rewrite <- bpow_plus; reflexivity); apply Rmult_le_compat_l; lra). assert (dq0 : 0 <= d * / q) by (apply Rmult_le_pos; lra).
  set (z := bpow radix2 (-874)) in *. assert (z0 : 0 < z) by apply bpow_gt_0. assert (zd : d <= z) by (apply bpow_le; lia).
  assert (uW : 0 <= u * W) by (apply Rmult_le_pos; lra). assert (uW2 : u * W <= / 1000 * W) by (apply Rmult_le_compat_r; lra).
  assert (C2 : Rabs (B2R b / B2R r - A) <= 32 / 10 * (u * W) + 2 * z).
  { replace (B2R b / B2R r - A) with ((B2R b - sqrt 2 * B2R x) * / B2R r + sqrt 2 * B2R x * (/ B2R r - / q)) by (unfold A, Rdiv; fold q; ring). eapply Rle_trans; [apply Rabs_triang|].
    rewrite (Rabs_mult (B2R b - sqrt 2 * B2R x)), (Rabs_mult (sqrt 2 * B2R x)), (Rabs_mult (sqrt 2)), (Rabs_pos_eq (sqrt 2)), (Rabs_pos_eq (/ B2R r)) by lra. fold X Y.
    assert (G1 : Rabs (B2R b - sqrt 2 * B2R x) * / B2R r <= (21 / 10 * (u * Y) + d) * (1002 / 1000 * / q)) by (apply Rmult_le_compat; [apply Rabs_pos|lra|exact C1|exact R1]).
    assert (G2 : Y * Rabs (/ B2R r - / q) <= Y * (1002 / 1000 * u * / q)) by (apply Rmult_le_compat_l; lra).
    replace ((21 / 10 * (u * Y) + d) * (1002 / 1000 * / q)) with (21 / 10 * 1002 / 1000 * (u * W) + 1002 / 1000 * (d * / q)) in G1 by (unfold W; field; lra).
    replace (Y * (1002 / 1000 * u * / q)) with (1002 / 1000 * (u * W)) in G2 by (unfold W; field; lra). lra. }
  assert (C3 : Rabs (B2R b / B2R r) <= 1004 / 1000 * W + 2 * z). { replace (B2R b / B2R r) with ((B2R b / B2R r - A) + A) by ring. eapply Rle_trans; [apply Rabs_triang|]. rewrite AW. lra. }
  assert (zs : z <= bpow radix2 301) by (apply bpow_le; lia). assert (B305 : 8 * bpow radix2 301 = bpow radix2 304) by (change 8 with (bpow radix2 3); rewrite <- bpow_plus; reflexivity). assert (B306 : bpow radix2 304 <= bpow radix2 390) by (apply bpow_le; lia). assert (B307 : 8 * bpow radix2 390 <= bpow radix2 1000) by (replace (8 * bpow radix2 390) with (bpow radix2 393) by (change 8 with (bpow radix2 3); rewrite <- bpow_plus; reflexivity); apply bpow_le; lia).
  destruct (fdiv_rel b' r Fb' R0) as [Fc Ec]; rewrite Eb' in *; [lra|]. fold d in Ec. set (c := fdiv b' r) in *.
  assert (C4 : Rabs (B2R c - A) <= 43 / 10 * (u * W) + 4 * z).
  { replace (B2R c - A) with ((B2R c - B2R b / B2R r) + (B2R b / B2R r - A)) by ring. eapply Rle_trans; [apply Rabs_triang|]. assert (u * Rabs (B2R b / B2R r) <= u * (1004 / 1000 * W + 2 * z)) by (apply Rmult_le_compat_l; lra). assert (u * z <= / 1000 * z) by (apply Rmult_le_compat_r; lra). lra. }
  assert (C5 : Rabs (B2R c) <= 1005 / 1000 * W + 4 * z). { replace (B2R c) with ((B2R c - A) + A) by ring. eapply Rle_trans; [apply Rabs_triang|]. rewrite AW. lra. }
  set (m := Rabs (B2R mu)) in *. assert (m0 : 0 <= m) by apply Rabs_pos. assert (um : 0 <= u * m) by (apply Rmult_le_pos; lra).
  assert (C6 : Rabs (B2R c + B2R mu) <= 1005 / 1000 * W + 4 * z + m) by (eapply Rle_trans; [apply Rabs_triang|]; fold m; lra).
  destruct (fadd_rel c mu Fc Fm) as [Ft Et]; [lra|]. change (fadd c mu) with t in Ft, Et.
  split; [exact Ft|]. split; [rewrite AW; apply Rle_trans with (1 := WB); apply bpow_le; lia|]. unfold point. fold q A. rewrite AW.
  replace (B2R t - (A + B2R mu)) with ((B2R t - (B2R c + B2R mu)) + (B2R c - A)) by ring. eapply Rle_trans; [apply Rabs_triang|].
  assert (u * Rabs (B2R c + B2R mu) <= u * (1005 / 1000 * W + 4 * z + m)) by (apply Rmult_le_compat_l; lra). assert (u * z <= / 1000 * z) by (apply Rmult_le_compat_r; lra).
  assert (Z8 : 8 * z <= bpow radix2 (-850)) by (replace (8 * z) with (bpow radix2 (-871)) by (change 8 with (bpow radix2 3); unfold z; rewrite <- bpow_plus; reflexivity); apply bpow_le; lia). lra.
Qed.

(** ** the logarithm of the logistic function *)
Lemma log_expit_le0 x : log_expit x <= 0.
Proof. rewrite log_expit_softplus. pose proof (exp_pos (- x)). assert (0 < ln (1 + exp (- x))) by (rewrite <- ln_1; apply ln_increasing; lra). lra. Qed.
Lemma log_expit_step t h : 0 <= h -> 0 <= log_expit (t + h) - log_expit t <= h.
Proof.
  intros H. rewrite !log_expit_softplus. pose proof (exp_pos (- t)) as P. pose proof (exp_pos (- (t + h))) as P'. pose proof (exp_pos h) as Q.
  assert (E : exp (- t) = exp h * exp (- (t + h))) by (rewrite <- exp_plus; f_equal; ring). assert (H1 : 1 <= exp h) by (destruct (Req_dec h 0) as [->|]; [rewrite exp_0; lra|pose proof (exp_ineq1 h ltac:(lra)); lra]).
  assert (M : forall a b, 0 < a -> a <= b -> ln a <= ln b) by (intros a b A [B| ->]; [left; apply ln_increasing; assumption|lra]).
  assert (G : exp (- (t + h)) <= exp (- t)) by (rewrite E; rewrite <- (Rmult_1_l (exp (- (t + h)))) at 1; apply Rmult_le_compat_r; lra).
  split; [pose proof (M (1 + exp (- (t + h))) (1 + exp (- t)) ltac:(lra) ltac:(lra)); lra|].
  assert (K : ln (1 + exp (- t)) <= ln (exp h * (1 + exp (- (t + h))))) by (apply M; [lra|]; rewrite Rmult_plus_distr_l, <- E; lra). rewrite ln_mult, ln_exp in K by lra. lra.
Qed.
Lemma log_expit_lip s t : Rabs (log_expit s - log_expit t) <= Rabs (s - t).
Proof.
  destruct (Rle_or_lt t s) as [H|H].
  - pose proof (log_expit_step t (s - t) ltac:(lra)) as K. replace (t + (s - t)) with s in K by ring. rewrite !Rabs_pos_eq by lra. lra.
  - pose proof (log_expit_step s (t - s) ltac:(lra)) as K. replace (s + (t - s)) with t in K by ring. rewrite (Rabs_minus_sym s t), (Rabs_minus_sym (log_expit s)), !Rabs_pos_eq by lra. lra.
Qed.
Lemma log_expit_size x : Rabs (log_expit x) <= 1 + Rabs x.
Proof.
  assert (Z : Rabs (log_expit 0) <= 1).
  { rewrite log_expit_softplus, Rabs_Ropp, Ropp_0, exp_0. replace (1 + 1) with 2 by ring. assert (0 <= ln 2) by (rewrite <- ln_1; left; apply ln_increasing; lra). rewrite Rabs_pos_eq by assumption. rewrite <- (ln_exp 1). pose proof (exp_ineq1 1 ltac:(lra)). left. apply ln_increasing; lra. }
  pose proof (log_expit_lip x 0) as L. rewrite Rminus_0_r in L. replace (log_expit x) with (log_expit x - log_expit 0 + log_expit 0) by ring. eapply Rle_trans; [apply Rabs_triang|]. lra.
Qed.

(** ** one term of the sum *)
Section Term.
Context (fexp flog : dbl -> dbl) (He : exp_good fexp) (Hl : log_good flog).
Definition tiny : R := bpow radix2 (-650).
Lemma quad_term (x w mu L : dbl) : fair_node x -> fair_weight w -> fair_center mu -> fair_scale L ->
  let S := 1 + Rabs (sqrt 2 * B2R x / sqrt (B2R L)) + Rabs (B2R mu) in let t := fmul (fmul f_kappa w) (f_log_v fexp flog (f_point x mu L)) in
  is_finite t = true /\ 0 <= B2R w * S /\ - bpow radix2 501 <= B2R t <= 0 /\ - B2R t <= B2R w * S + tiny /\ Rabs (B2R t - kappa * (B2R w * log_expit (point (B2R x) (B2R mu) (B2R L)))) <= 100 * (u * (B2R w * S)) + tiny.
Proof using He Hl.
  intros Hx [Fw [W0 W1]] Hm HL S t. destruct (point_close x mu L Hx Hm HL) as (Fp & BA & Cp). cbv zeta in BA, Cp. destruct Hm as [_ Bm]. set (A := Rabs (sqrt 2 * B2R x / sqrt (B2R L))) in *. set (m := Rabs (B2R mu)) in *. set (P := f_point x mu L) in *. set (T := point (B2R x) (B2R mu) (B2R L)) in *.
  small_u. assert (A0 : 0 <= A) by apply Rabs_pos. assert (m0 : 0 <= m) by apply Rabs_pos. assert (S1 : 1 <= S) by (unfold S; lra). set (d := bpow radix2 (-1074)). assert (d0 : 0 < d) by apply bpow_gt_0.
  assert (SB : S <= bpow radix2 392). { replace (bpow radix2 392) with (4 * bpow radix2 390) by (change 4 with (bpow radix2 2); rewrite <- bpow_plus; reflexivity). assert (bpow radix2 302 <= bpow radix2 390) by (apply bpow_le; lia). assert (1 <= bpow radix2 390) by (change 1 with (bpow radix2 0); apply bpow_le; lia). unfold S. lra. }
  assert (T850 : bpow radix2 (-850) <= / 1000 * u) by (apply Rle_trans with (bpow radix2 (-10) * u); [unfold u; rewrite <- bpow_plus; apply bpow_le; lia|change (bpow radix2 (-10)) with (/ 1024); lra]).
  assert (uS : u * 1 <= u * S) by (apply Rmult_le_compat_l; lra). assert (uS2 : u * S <= / 1000 * S) by (apply Rmult_le_compat_r; lra).
  assert (Cp' : Rabs (B2R P - T) <= 9 * (u * S)). { eapply Rle_trans; [exact Cp|]. assert (u * (A + m) <= u * S) by (apply Rmult_le_compat_l; unfold S; lra). lra. }
  assert (TS : Rabs T <= S). { unfold T, point. eapply Rle_trans; [apply Rabs_triang|]. fold A m. unfold S. lra. }
  assert (LT : Rabs (log_expit T) <= S). { pose proof (log_expit_size T) as Q. assert (Rabs T <= A + m) by (unfold T, point; eapply Rle_trans; [apply Rabs_triang|]; fold A m; lra). unfold S. lra. }
  destruct (log_v_finite fexp flog He Hl P Fp) as (Fv & V0 & Cv & _). set (v := f_log_v fexp flog P) in *. pose proof (log_expit_lip (B2R P) T) as Lip.
  assert (LP : Rabs (log_expit (B2R P)) <= 101 / 100 * S). { replace (log_expit (B2R P)) with ((log_expit (B2R P) - log_expit T) + log_expit T) by ring. eapply Rle_trans; [apply Rabs_triang|]. lra. }
  assert (Cv' : Rabs (B2R v - log_expit T) <= 140 * (u * S)).
  { replace (B2R v - log_expit T) with ((B2R v - log_expit (B2R P)) + (log_expit (B2R P) - log_expit T)) by ring. eapply Rle_trans; [apply Rabs_triang|]. assert (64 * u * (1 + Rabs (log_expit (B2R P))) <= 64 * u * (1 + 101 / 100 * S)) by (apply Rmult_le_compat_l; lra). lra. }
  assert (VB : Rabs (B2R v) <= 102 / 100 * S). { replace (B2R v) with ((B2R v - log_expit T) + log_expit T) by ring. eapply Rle_trans; [apply Rabs_triang|]. assert (u * S <= / 100000 * S) by (apply Rmult_le_compat_r; lra). lra. }
  destruct kappa_close as [Fk Ck]. pose proof kappa_bounds as Kb. set (k := B2R f_kappa) in *. assert (uk : u * kappa <= u * (6 / 10)) by (apply Rmult_le_compat_l; lra). assert (kb : 0 <= k <= 61 / 100) by (apply Rabs_le_inv in Ck; lra).
  set (W := B2R w) in *. assert (uW : 0 <= u * W) by (apply Rmult_le_pos; lra). assert (uW2 : u * W <= / 100000 * W) by (apply Rmult_le_compat_r; lra). assert (kW : 0 <= k * W <= 61 / 100 * W) by (split; [apply Rmult_le_pos|apply Rmult_le_compat_r]; lra).
  assert (B100 : bpow radix2 100 <= bpow radix2 1000) by (apply bpow_le; lia).
  destruct (fmul_rel f_kappa w Fk Fw) as (Fa & Ea & Ca); [fold k W; rewrite Rabs_pos_eq by lra; lra|]. fold k W in Ea, Ca. fold d in Ca. rewrite (Rabs_pos_eq (k * W)) in Ca by lra. set (a := fmul f_kappa w) in *.
  assert (a0 : 0 <= B2R a) by (rewrite Ea, <- rnd64_0; apply rnd64_le; lra).
  assert (ukW : u * (k * W) <= u * (61 / 100 * W)) by (apply Rmult_le_compat_l; lra).
  assert (Ca' : Rabs (B2R a - kappa * W) <= 32 / 10 * (u * W) + d).
  { replace (B2R a - kappa * W) with ((B2R a - k * W) + (k - kappa) * W) by ring. eapply Rle_trans; [apply Rabs_triang|]. rewrite (Rabs_mult (k - kappa)), (Rabs_pos_eq W) by lra. assert (Rabs (k - kappa) * W <= 4 * u * (6 / 10) * W) by (apply Rmult_le_compat_r; lra). lra. }
  assert (a1 : B2R a <= 62 / 100 * W + d) by (apply Rabs_le_inv in Ca; lra).
  set (Z := W * S) in *. assert (Z0 : 0 <= Z) by (apply Rmult_le_pos; lra). assert (ZB : Z <= bpow radix2 492) by (replace (bpow radix2 492) with (bpow radix2 100 * bpow radix2 392) by (rewrite <- bpow_plus; reflexivity); apply Rmult_le_compat; lra).
  set (e := d * S). assert (e0 : 0 < e) by (apply Rmult_lt_0_compat; lra). assert (eB : e <= bpow radix2 (-682)) by (replace (bpow radix2 (-682)) with (d * bpow radix2 392) by (unfold d; rewrite <- bpow_plus; reflexivity); apply Rmult_le_compat_l; lra). assert (de : d * 1 <= e) by (apply Rmult_le_compat_l; lra).
  assert (eT : 8 * e <= tiny) by (apply Rle_trans with (8 * bpow radix2 (-682)); [lra|]; replace (8 * bpow radix2 (-682)) with (bpow radix2 (-679)) by (change 8 with (bpow radix2 3); rewrite <- bpow_plus; reflexivity); apply bpow_le; lia).
  assert (av : Rabs (B2R a * B2R v) <= 64 / 100 * Z + 102 / 100 * e).
  { rewrite Rabs_mult, (Rabs_pos_eq (B2R a)) by lra. apply Rle_trans with ((62 / 100 * W + d) * (102 / 100 * S)); [apply Rmult_le_compat; [lra|apply Rabs_pos|lra|lra]|]. replace ((62 / 100 * W + d) * (102 / 100 * S)) with (62 * 102 / 10000 * Z + 102 / 100 * e) by (unfold Z, e; field). lra. }
  assert (B492 : 4 * bpow radix2 492 <= bpow radix2 501) by (replace (4 * bpow radix2 492) with (bpow radix2 494) by (change 4 with (bpow radix2 2); rewrite <- bpow_plus; reflexivity); apply bpow_le; lia). assert (B501 : bpow radix2 501 <= bpow radix2 1000) by (apply bpow_le; lia). assert (e492 : bpow radix2 (-682) <= bpow radix2 492) by (apply bpow_le; lia).
  destruct (fmul_rel a v Fa Fv) as (Ft & Et & Ct); [lra|]. fold d in Ct. fold t in Ft, Et, Ct.
  assert (uav : u * Rabs (B2R a * B2R v) <= u * (64 / 100 * Z + 102 / 100 * e)) by (apply Rmult_le_compat_l; lra). assert (uZ : 0 <= u * Z) by (apply Rmult_le_pos; lra). assert (uZ2 : u * Z <= / 1000 * Z) by (apply Rmult_le_compat_r; lra). assert (ue : u * e <= / 1000 * e) by (apply Rmult_le_compat_r; lra).
  assert (t0 : B2R t <= 0). { rewrite Et, <- rnd64_0. apply rnd64_le. assert (0 <= B2R a * (- B2R v)) by (apply Rmult_le_pos; lra). lra. }
  assert (tb : - B2R t <= 65 / 100 * Z + 3 * e) by (apply Rabs_le_inv in Ct; apply Rabs_le_inv in av; lra).
  split; [exact Ft|]. split; [exact Z0|]. split; [split; [lra|exact t0]|]. split; [lra|].
  replace (B2R t - kappa * (W * log_expit T)) with ((B2R t - B2R a * B2R v) + ((B2R a - kappa * W) * B2R v + kappa * W * (B2R v - log_expit T))) by ring.
  eapply Rle_trans; [apply Rabs_triang|]. pose proof (Rabs_triang ((B2R a - kappa * W) * B2R v) (kappa * W * (B2R v - log_expit T))) as Tr. rewrite !Rabs_mult, (Rabs_pos_eq kappa), (Rabs_pos_eq W) in Tr by lra.
  assert (G1 : Rabs (B2R a - kappa * W) * Rabs (B2R v) <= (32 / 10 * (u * W) + d) * (102 / 100 * S)) by (apply Rmult_le_compat; [apply Rabs_pos|apply Rabs_pos|exact Ca'|exact VB]).
  replace ((32 / 10 * (u * W) + d) * (102 / 100 * S)) with (32 * 102 / 1000 * (u * Z) + 102 / 100 * e) in G1 by (unfold Z, e; field).
  assert (G2 : kappa * W * Rabs (B2R v - log_expit T) <= 6 / 10 * W * (140 * (u * S))) by (apply Rmult_le_compat; [apply Rmult_le_pos; lra|apply Rabs_pos|apply Rmult_le_compat_r; lra|exact Cv']).
  replace (6 / 10 * W * (140 * (u * S))) with (84 * (u * Z)) in G2 by (unfold Z; field). lra.
Qed.
End Term.

(** ** the sum over the points *)
Section Sum.
Context (fexp flog : dbl -> dbl) (fsum : list dbl -> dbl) (He : exp_good fexp) (Hl : log_good flog) (Hs : sums fsum).
Lemma quad_sum n (x w : nat -> dbl) (mu L : dbl) : INR n <= bpow radix2 20 -> (forall j, (j < n)%nat -> fair_node (x j) /\ fair_weight (w j)) -> fair_center mu -> fair_scale L ->
  let e := fsum (map (fun j => fmul (fmul f_kappa (w j)) (f_log_v fexp flog (f_point (x j) mu L))) (seq 0 n)) in let X j := B2R (x j) in let W j := B2R (w j) in
  is_finite e = true /\ B2R e <= 0 /\ Rabs (B2R e - quadrature n X W log_expit (B2R mu) (B2R L)) <= units (100 + 2 * INR n) * spread n X W (B2R mu) (B2R L) + INR n * bpow radix2 (-600) /\ Rabs (B2R e) <= bpow radix2 600.
Proof using He Hl Hs.
  intros Hn Hp Hm HL e X W. set (t := fun j => fmul (fmul f_kappa (w j)) (f_log_v fexp flog (f_point (x j) mu L))) in *.
  set (z := fun j => W j * (1 + Rabs (sqrt 2 * X j / sqrt (B2R L)) + Rabs (B2R mu))). set (q := fun j => W j * log_expit (point (X j) (B2R mu) (B2R L))).
  assert (Ht : forall j, (j < n)%nat -> is_finite (t j) = true /\ 0 <= z j /\ - bpow radix2 501 <= B2R (t j) <= 0 /\ - B2R (t j) <= z j + tiny /\ Rabs (B2R (t j) - kappa * q j) <= 100 * (u * z j) + tiny) by (intros j Hj; destruct (Hp j Hj) as [Hx Hw]; exact (quad_term fexp flog He Hl (x j) (w j) mu L Hx Hw Hm HL)).
  set (l := map t (seq 0 n)) in *. destruct (sum_opp l (fsum l) (Hs l)) as (s' & S' & K). match type of S' with sum_of ?l0 _ => set (l' := l0) in * end.
  assert (Up : List.Forall upto l').
  { apply Forall_forall. intros y Hy. apply in_map_iff in Hy. destruct Hy as (y' & <- & Hz). unfold l in Hz. apply in_map_iff in Hz. destruct Hz as (j & <- & Hj). apply in_seq in Hj. destruct (Ht j ltac:(lia)) as (F & _ & [A B] & _).
    split; [rewrite is_finite_Bopp; exact F|]. rewrite B2R_Bopp. lra. }
  assert (Ln : length l' = n) by (unfold l', l; rewrite !map_length; apply seq_length).
  pose proof (lsum_upto l' Up) as LU.
  destruct (sum_accuracy_upto l' s' S' Up) as [Fs A]; [exact (eq_rect_r (fun k => INR k <= bpow radix2 20) Hn Ln)|]. rewrite rsum_lsum in A, LU.
  assert (Es : rsum (length l') (fun k => B2R (nth k l' dzero)) = rsum n (fun j => - B2R (t j))).
  { rewrite Ln. apply rsum_ext. intros j Hj. unfold l', l. rewrite map_map. rewrite (nth_indep _ dzero (Bopp (t 0%nat))) by (rewrite map_length, seq_length; exact Hj). rewrite (map_nth (fun i => Bopp (t i)) (seq 0 n) 0%nat j), seq_nth by exact Hj. apply B2R_Bopp. }
  destruct (K Fs) as [Fl El]. change (rsum (length l') (fun k => B2R (nth k l' dzero))) with (rsum (length l') (fun k => B2R (nth k l' dzero))) in A, LU. rewrite Es in A, LU. rewrite Ln in A. assert (LU' : 0 <= rsum n (fun j => - B2R (t j)) <= INR n * bpow radix2 501) by exact (eq_rect _ (fun k => 0 <= rsum n (fun j => - B2R (t j)) <= INR k * bpow radix2 501) LU _ Ln). clear LU; rename LU' into LU. fold e in Fl, El.
  pose proof (pow_u_le n Hn) as Pu. pose proof (pow_u_pos n) as Pu1. small_u. pose proof (pos_INR n) as N0. set (T := rsum n (fun j => - B2R (t j))) in *. set (N := INR n) in *.
  assert (Z : spread n X W (B2R mu) (B2R L) = rsum n z) by reflexivity. assert (Q : quadrature n X W log_expit (B2R mu) (B2R L) = kappa * rsum n q) by (unfold quadrature, kappa, Rdiv; rewrite Rmult_comm; reflexivity). rewrite Z, Q. set (ZZ := rsum n z) in *.
  assert (tiny0 : 0 < tiny) by apply bpow_gt_0. assert (Z0 : 0 <= ZZ) by (apply rsum_nonneg; intros j Hj; apply (Ht j Hj)).
  assert (T1 : T <= ZZ + N * tiny). { unfold T, ZZ, N. rewrite <- rsum_const, <- rsum_plus. apply rsum_le. intros j Hj. destruct (Ht j Hj) as (_ & _ & _ & B & _). exact B. }
  assert (D : Rabs (- T - kappa * rsum n q) <= 100 * (u * ZZ) + N * tiny).
  { replace (- T - kappa * rsum n q) with (rsum n (fun j => B2R (t j) - kappa * q j)).
    - eapply Rle_trans; [apply rsum_Rabs|]. eapply Rle_trans; [apply rsum_le; intros j Hj; exact (proj2 (proj2 (proj2 (proj2 (Ht j Hj)))))|]. right. rewrite rsum_plus, rsum_const. rewrite (rsum_ext n _ (fun j => (100 * u) * z j)) by (intros; ring). rewrite rsum_scal_l. fold ZZ N. ring.
    - rewrite rsum_minus, rsum_scal_l. unfold T. rewrite (rsum_ext n (fun j => - B2R (t j)) (fun j => (-1) * B2R (t j))) by (intros; ring). rewrite rsum_scal_l. ring. }
  set (g := (1 + u) ^ n - 1) in *. assert (g0 : 0 <= g) by (unfold g; lra). assert (g1 : g <= / 1000) by (rewrite bpow20 in Hn; assert (2 * N * u <= 2 * 1048576 * u) by (apply Rmult_le_compat_r; lra); lra).
  assert (gT : 0 <= g * T) by (apply Rmult_le_pos; lra). assert (gT1 : g * T <= / 1000 * T) by (apply Rmult_le_compat_r; lra).
  assert (Nt : 0 <= N * tiny) by (apply Rmult_le_pos; lra). assert (gT2 : g * T <= (2 * N * u) * ZZ + / 1000 * (N * tiny)).
  { apply Rle_trans with (g * (ZZ + N * tiny)); [apply Rmult_le_compat_l; lra|]. rewrite Rmult_plus_distr_l. apply Rplus_le_compat; apply Rmult_le_compat_r; lra. }
  assert (T600 : 2 * tiny <= bpow radix2 (-600)) by (replace (2 * tiny) with (bpow radix2 (-649)) by (change 2 with (bpow radix2 1); unfold tiny; rewrite <- bpow_plus; reflexivity); apply bpow_le; lia).
  assert (NT : N * (2 * tiny) <= N * bpow radix2 (-600)) by (apply Rmult_le_compat_l; lra).
  split; [exact Fl|]. split; [rewrite El; apply Rabs_le_inv in A; lra|]. split.
  - rewrite El, units_u. replace (- B2R s' - kappa * rsum n q) with (- (B2R s' - T) + (- T - kappa * rsum n q)) by ring. eapply Rle_trans; [apply Rabs_triang|]. rewrite Rabs_Ropp.
    replace ((100 + 2 * N) * u * ZZ) with (100 * (u * ZZ) + 2 * N * u * ZZ) by ring. lra.
  - rewrite El, Rabs_Ropp. assert (NB : N * bpow radix2 501 <= bpow radix2 521) by (replace (bpow radix2 521) with (bpow radix2 20 * bpow radix2 501) by (rewrite <- bpow_plus; reflexivity); apply Rmult_le_compat_r; [apply bpow_ge_0|exact Hn]).
    assert (B : 2 * bpow radix2 521 <= bpow radix2 600) by (replace (2 * bpow radix2 521) with (bpow radix2 522) by (change 2 with (bpow radix2 1); rewrite <- bpow_plus; reflexivity); apply bpow_le; lia). replace (B2R s') with ((B2R s' - T) + T) by ring. eapply Rle_trans; [apply Rabs_triang|]. rewrite (Rabs_pos_eq T) by lra. pose proof (bpow_gt_0 radix2 521). lra.
Qed.

(** ** the arrays *)
Lemma proper_mk s (a : nd dbl) : proper s a -> a = mk_nd s (fun i => nd_at fz a i).
Proof. destruct a as [sa da]. intros [Sa La]. cbn in Sa, La. subst sa. apply (mk_nd_eta fz (Nd s da)). exact La. Qed.
Lemma at_entry s (a : nd dbl) k : proper s a -> (k < nprod s)%nat -> nd_at fz a (nth k (product s) []) = entry a k.
Proof. destruct a as [sa da]. intros [Sa La] Hk. cbn in Sa. subst sa. unfold nd_at, entry. cbn [shape data]. rewrite ravel_nth by exact Hk. reflexivity. Qed.
Lemma mk_proper s (f : list nat -> dbl) : proper s (mk_nd s f).
Proof. split; [reflexivity|]. unfold mk_nd. cbn [data]. rewrite map_length. apply product_length. Qed.
Lemma quad_array s m (means infos loc wts : nd dbl) (fn : dbl -> dbl) : proper s means -> proper s infos -> proper [m] loc -> proper [m] wts ->
  exists e, f_get_e_fun_normal fsum means infos loc wts fn = Ok e /\ proper s e /\
    forall k, (k < nprod s)%nat -> entry e k = fsum (map (fun j => fmul (fmul f_kappa (entry wts j)) (fn (f_point (entry loc j) (entry means k) (entry infos k)))) (seq 0 m)).
Proof.
  intros Pm Pi Pl Pw.
  exists (mk_nd s (fun i => fsum (map (fun j => fmul (fmul f_kappa (nd_at fz wts [j])) (fn (f_point (nd_at fz loc [j]) (nd_at fz means i) (nd_at fz infos i)))) (seq 0 m)))).
  split; [|split; [apply mk_proper|]].
  - rewrite (proper_mk _ _ Pm) at 1. rewrite (proper_mk _ _ Pi) at 1. rewrite (proper_mk _ _ Pl) at 1. rewrite (proper_mk _ _ Pw) at 1. unfold f_get_e_fun_normal, f_bin. rewrite !mk_nd_shape. rewrite (proj2 (shape_eqb_true s s) eq_refl). cbn [rassert].
    rewrite !nd_scalar_mk. rewrite np_bin_sl. cbn [rbind]. rewrite np_bin_sr. cbn [rbind]. rewrite np_expand_last. cbn [rbind]. rewrite nd_map_mk. rewrite np_bin_last_r. cbn [rbind]. rewrite np_expand_last. cbn [rbind]. rewrite np_bin_last_full. cbn [rbind]. rewrite np_bin_sl. cbn [rbind]. rewrite nd_map_mk. rewrite np_bin_vec_full. cbn [rbind]. rewrite np_sum_last.
    f_equal. apply mk_nd_ext. intros i Hi. f_equal. apply map_ext_in. intros j Hj. rewrite !removelast_last, !last_last. reflexivity.
  - intros k Hk. etransitivity; [apply entry_mk; exact Hk|]. cbv beta. rewrite (at_entry s means k Pm Hk), (at_entry s infos k Pi Hk). f_equal. apply map_ext_in. intros j Hj. apply in_seq in Hj.
    assert (V : forall a : nd dbl, proper [m] a -> nd_at fz a [j] = entry a j). { intros a [Sa La]. destruct a as [sa da]. cbn in Sa. subst sa. unfold nd_at, entry. cbn [shape data ravel]. f_equal. change (nprod []) with 1%nat. lia. }
    rewrite (V wts Pw), (V loc Pl). reflexivity.
Qed.
End Sum.

(** ** NaN *)
Lemma nan_add (x y : dbl) : x = B754_nan \/ y = B754_nan -> fadd x y = B754_nan.
Proof. intros [->| ->]; [destruct y; reflexivity|destruct x; reflexivity]. Qed.
Lemma sum_nan l s : sum_of l s -> In B754_nan l -> s = B754_nan.
Proof.
  induction 1 as [|x|l l1 l2 a b P S1 IH1 S2 IH2]; intros H; [destruct H|destruct H as [H|[]]; exact H|]. apply nan_add. apply (Permutation.Permutation_in _ P) in H. apply in_app_or in H. destruct H as [H|H]; [left; apply IH1|right; apply IH2]; exact H.
Qed.
Lemma positive_cases (x : dbl) : is_finite x = true -> 0 < B2R x -> exists m e b, x = B754_finite false m e b.
Proof.
  intros F P. destruct x as [s|s| |s m e b]; try discriminate; [cbn in P; lra|]. destruct s; [|exists m, e, b; reflexivity]. exfalso. cbn in P. assert (F2R (Float radix2 (Z.neg m) e) <= 0) by (apply F2R_le_0; cbn; lia). lra.
Qed.
Lemma zero_scale (x mu : dbl) : is_finite x = true -> 0 < B2R x -> is_finite mu = true -> f_point x mu (B754_zero false) = B754_infinity false.
Proof.
  intros Fx P Fm. unfold f_point. change (fsqrt (B754_zero false)) with (B754_zero false : dbl). destruct f_two as [F2 E2]. destruct (fsqrt_pos (f_int 2) F2 ltac:(rewrite E2; lra)) as [Fs Es]. rewrite E2 in Es. set (s := fsqrt (f_int 2)) in *. pose proof sqrt2_bounds as S2.
  assert (s1 : 1 <= B2R s) by (rewrite Es, <- (rnd64_bpow 0) at 1 by lia; apply rnd64_le; change (bpow radix2 0) with 1; lra).
  assert (sp : Bsign s = false) by (destruct (positive_cases s Fs ltac:(lra)) as (m & e & b & ->); reflexivity). assert (xp : Bsign x = false) by (destruct (positive_cases x Fx P) as (m & e & b & ->); reflexivity).
  assert (D : fmul s x = B754_infinity false \/ exists m e b, fmul s x = B754_finite false m e b).
  { destruct (fmul_cases s x Fs Fx) as [(_ & E & F & _)|(_ & E)]; [right|left; rewrite E, sp, xp; reflexivity]. apply positive_cases; [exact F|]. rewrite E. apply Rlt_le_trans with (1 := P). rewrite <- (rnd64_id x) at 1. apply rnd64_le. rewrite <- (Rmult_1_l (B2R x)) at 1. apply Rmult_le_compat_r; lra. }
  assert (D' : fmul (fmul s x) f_one = B754_infinity false \/ exists m e b, fmul (fmul s x) f_one = B754_finite false m e b).
  { destruct D as [->|(m & e & b & D)]; [left; reflexivity|right]. assert (F : is_finite (fmul s x) = true) by (rewrite D; reflexivity). destruct (fmul_one_r _ F) as [G E]. apply positive_cases; [exact G|]. rewrite E, D. cbn. apply F2R_gt_0. cbn. lia. }
  assert (I : fdiv (fmul (fmul s x) f_one) (B754_zero false) = B754_infinity false) by (destruct D' as [->|(m & e & b & ->)]; reflexivity). rewrite I. destruct mu as [t|t| |t m e b]; try discriminate; reflexivity.
Qed.
