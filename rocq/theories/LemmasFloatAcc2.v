(** Proofs about the accuracy of scalar, vector and array parameters in binary64: two finite bounds. *)
From Coq Require Import Reals ZArith List Lra Lia Psatz Bool.
From Flocq Require Import Core BinarySingleNaN Relative Plus_error.
From Verif Require Import Res RSum SpecFloat SpecFloatSimplex SpecFloatAcc ModelFloat LemmasFloat LemmasFloat2 LemmasFloat3 LemmasFloat4 LemmasFloatSimplex LemmasFloatSimplex2 LemmasFloatAcc.
Import List ListNotations.
Set Bullet Behavior "Strict Subproofs".
Open Scope R_scope.

Lemma rnd64_near x : bpow radix2 (-1022) <= x -> Rabs (rnd64 x - x) <= u * x.
Proof.
  intros H. pose proof (rnd64_rel x H) as A. pose proof (rnd64_rel_lower x H) as B. fold u in A, B. apply Rabs_le. lra.
Qed.
Lemma rel_round x y k : bpow radix2 (-1022) <= x -> 0 <= y -> 0 <= k <= / 1000 -> Rabs (x - y) <= k * y -> Rabs (rnd64 x - y) <= (k + 2 * u) * y.
Proof.
  intros Hx Hy Hk H. pose proof (bpow_gt_0 radix2 (-1022)) as P. pose proof (rnd64_near x Hx) as N. small_u.
  assert (N' : Rabs (rnd64 x - x) <= u * Rabs x) by (rewrite (Rabs_pos_eq x) by lra; exact N).
  eapply Rle_trans; [exact (rel_trans x y (rnd64 x) k u Hy ltac:(lra) H N')|]. apply Rmult_le_compat_r; [exact Hy|].
  assert (k * u <= / 1000 * u) by (apply Rmult_le_compat_r; lra). lra.
Qed.
Lemma rel_mult a b A B j k : 0 <= A -> 0 <= B -> 0 <= j <= / 1000 -> 0 <= k -> Rabs (a - A) <= j * A -> Rabs (b - B) <= k * B -> Rabs (a * b - A * B) <= (j + k + j * k) * (A * B).
Proof.
  intros HA HB Hj Hk H1 H2. replace (a * b - A * B) with ((a - A) * (b - B) + (a - A) * B + A * (b - B)) by ring.
  eapply Rle_trans; [apply Rabs_triang|]. eapply Rle_trans; [apply Rplus_le_compat_r, Rabs_triang|]. rewrite !Rabs_mult.
  rewrite (Rabs_pos_eq A), (Rabs_pos_eq B) by assumption.
  assert (T1 : Rabs (a - A) * Rabs (b - B) <= (j * A) * (k * B)) by (apply Rmult_le_compat; try apply Rabs_pos; assumption).
  assert (T2 : Rabs (a - A) * B <= (j * A) * B) by (apply Rmult_le_compat_r; assumption).
  assert (T3 : A * Rabs (b - B) <= A * (k * B)) by (apply Rmult_le_compat_l; assumption). lra.
Qed.
Lemma rel_div p s P S a b : 0 <= P -> 0 < S -> 0 <= a -> 0 <= b <= / 1000 -> Rabs (p - P) <= a * P -> Rabs (s - S) <= b * S ->
  0 < s /\ Rabs (p / s - P / S) <= (a + b) * (1 + 2 * b) * (P / S).
Proof.
  intros HP HS Ha Hb H1 H2. assert (Hs : S * (1 - b) <= s) by (apply Rabs_le_inv in H2; lra).
  assert (Ps : 0 < s) by (eapply Rlt_le_trans; [|exact Hs]; apply Rmult_lt_0_compat; lra). split; [exact Ps|].
  replace (p / s - P / S) with (((p - P) - P * ((s - S) / S)) / s) by (field; lra).
  unfold Rdiv at 1. rewrite Rabs_mult, (Rabs_pos_eq (/ s)) by (left; apply Rinv_0_lt_compat; exact Ps).
  assert (N : Rabs (p - P - P * ((s - S) / S)) <= (a + b) * P).
  { unfold Rminus at 1. eapply Rle_trans; [apply Rabs_triang|]. rewrite Rabs_Ropp, Rabs_mult, (Rabs_pos_eq P) by exact HP.
    assert (Q : Rabs ((s - S) / S) <= b). { unfold Rdiv. rewrite Rabs_mult, (Rabs_pos_eq (/ S)) by (left; apply Rinv_0_lt_compat; exact HS).
      apply Rmult_le_reg_r with S; [exact HS|]. rewrite Rmult_assoc, Rinv_l by lra. lra. }
    assert (P * Rabs ((s - S) / S) <= P * b) by (apply Rmult_le_compat_l; assumption). unfold Rdiv in *. lra. }
  assert (I : / s <= (1 + 2 * b) * / S).
  { apply Rmult_le_reg_r with s; [exact Ps|]. rewrite Rinv_l by lra. apply Rle_trans with ((1 + 2 * b) * / S * (S * (1 - b))).
    - replace ((1 + 2 * b) * / S * (S * (1 - b))) with ((1 + 2 * b) * (1 - b)) by (field; lra). nra.
    - apply Rmult_le_compat_l; [|exact Hs]. apply Rmult_le_pos; [lra|]. left. apply Rinv_0_lt_compat. exact HS. }
  apply Rle_trans with ((a + b) * P * ((1 + 2 * b) * / S)); [|right; field; lra].
  apply Rmult_le_compat; [apply Rabs_pos|left; apply Rinv_0_lt_compat; exact Ps|exact N|exact I].
Qed.

Section Acc.
Context (fexp flog : dbl -> dbl) (He : exp_good fexp) (Hlog : log_good flog).
Context (lb ub : dbl) (Hl : bounded500 lb) (Hu : bounded500 ub) (L : B2R lb < B2R ub) (Hw : bpow radix2 (-500) <= B2R ub - B2R lb).
Let W := B2R ub - B2R lb.
Let sig (x : R) : R := exp x / (1 + exp x).

Lemma sig_range x : 0 < sig x < 1.
Proof.
  unfold sig. pose proof (exp_pos x). split; [apply Rmult_lt_0_compat; [lra|apply Rinv_0_lt_compat; lra]|].
  apply Rmult_lt_reg_r with (1 + exp x); [lra|]. unfold Rdiv. rewrite Rmult_assoc, Rinv_l by lra. lra.
Qed.
Lemma W501 : 0 < W <= bpow radix2 501.
Proof. unfold W. rewrite bp501. pose proof (bl lb Hl). pose proof (bu ub Hu). lra. Qed.

Lemma both_value v : calm v -> let r := f_constrain_entry fexp v lb ub in
  is_finite r = true /\ Rabs (B2R r - logistic_value (B2R lb) (B2R ub) (B2R v)) <= units 28 * (W * sig (B2R v)) + units 1 * Rabs (logistic_value (B2R lb) (B2R ub) (B2R v)).
Proof.
  intros C r. unfold r. destruct Hl as [Fl Bl]. destruct Hu as [Fu Bu]. rewrite constrain_both by assumption.
  destruct (exp_tight fexp He v C) as (Fe & Se & [E0 E1] & Ee). pose proof (bl lb Hl) as Bl'. pose proof (bu ub Hu) as Bu'.
  destruct (both_d lb ub Fl Fu L Bl' Bu') as (_ & _ & Ed & D0 & _).
  destruct (both_p lb ub (fexp v) Fl Fu Fe L Se E1 Bl' Bu') as (_ & _ & Ep & P0 & _).
  destruct (both_s (fexp v) Fe Se E1) as (_ & _ & Es & S1 & _).
  destruct (both_q lb ub (fexp v) Fl Fu Fe L Se E1 Bl' Bu') as (Fq & _ & Eq & Q0 & _).
  set (d := fsub ub lb) in *. set (e := fexp v) in *. set (p := fmul d e) in *. set (s := fadd f_one e) in *. set (q := fdiv p s) in *.
  destruct C as [Fv Bv]. pose proof (exp_calm_bounds _ Bv) as [EL EU]. set (E := exp (B2R v)) in *. assert (EP : 0 < E) by apply exp_pos.
  fold W in Ed, Hw. destruct W501 as [W0 W1]. small_u.
  assert (b1 : bpow radix2 (-1022) <= W) by (eapply Rle_trans; [apply bpow_le|exact Hw]; lia).
  pose proof (rnd64_near W b1) as Rd. rewrite <- Ed in Rd.
  pose proof (rel_mult (B2R d) (B2R e) W E u (9 * u) ltac:(lra) ltac:(lra) ltac:(lra) ltac:(lra) Rd Ee) as Rp.
  assert (WE : 0 < W * E) by (apply Rmult_lt_0_compat; assumption).
  assert (WL : bpow radix2 (-977) <= W * E).
  { apply Rle_trans with (bpow radix2 (-976)); [apply bpow_le; lia|]. change (-976)%Z with (-500 + -476)%Z. rewrite bpow_plus. apply Rmult_le_compat; try apply bpow_ge_0; assumption. }
  assert (bp977 : forall x y, bpow radix2 (-977) <= y -> Rabs (x - y) <= / 2 * y -> bpow radix2 (-1022) <= x).
  { intros x y Hy Hx. apply Rabs_le_inv in Hx. apply Rle_trans with (/ 2 * y); [|lra]. apply Rle_trans with (/ 2 * bpow radix2 (-977)); [|lra].
    change (/ 2) with (bpow radix2 (-1)). rewrite <- bpow_plus. apply bpow_le. lia. }
  assert (uu : u * u <= / 9000000000000000 * u) by (apply Rmult_le_compat_r; lra).
  assert (Rp' : Rabs (B2R d * B2R e - W * E) <= (10 * u + u) * (W * E)).
  { eapply Rle_trans; [exact Rp|]. apply Rmult_le_compat_r; lra. }
  assert (bde : bpow radix2 (-1022) <= B2R d * B2R e).
  { apply (bp977 _ (W * E) WL). eapply Rle_trans; [exact Rp'|]. apply Rmult_le_compat_r; lra. }
  pose proof (rel_round (B2R d * B2R e) (W * E) (10 * u + u) bde ltac:(lra) ltac:(lra) Rp') as Rpp. rewrite <- Ep in Rpp.
  assert (Rs0 : Rabs (1 + B2R e - (1 + E)) <= 9 * u * (1 + E)) by (replace (1 + B2R e - (1 + E)) with (B2R e - E) by ring; lra).
  assert (b1e : bpow radix2 (-1022) <= 1 + B2R e) by (apply Rle_trans with (bpow radix2 0); [apply bpow_le; lia|cbn; lra]).
  pose proof (rel_round (1 + B2R e) (1 + E) (9 * u) b1e ltac:(lra) ltac:(lra) Rs0) as Rs. rewrite <- Es in Rs.
  destruct (rel_div (B2R p) (B2R s) (W * E) (1 + E) _ _ ltac:(lra) ltac:(lra) (ltac:(lra) : 0 <= 10 * u + u + 2 * u) (ltac:(lra) : 0 <= 9 * u + 2 * u <= / 1000) Rpp Rs) as [_ Rq].
  set (Q := W * E / (1 + E)) in *.
  assert (QE : Q = W * sig (B2R v)) by (unfold Q, sig; fold E; field; lra).
  assert (QP : 0 < Q) by (unfold Q; apply Rmult_lt_0_compat; [exact WE|apply Rinv_0_lt_compat; lra]).
  assert (Rq' : Rabs (B2R p / B2R s - Q) <= (25 * u) * Q). { eapply Rle_trans; [exact Rq|]. apply Rmult_le_compat_r; [lra|]. lra. }
  assert (bq : bpow radix2 (-1022) <= B2R p / B2R s).
  { apply (bp977 _ Q); [|eapply Rle_trans; [exact Rq'|]; apply Rmult_le_compat_r; lra].
    change (-977)%Z with (-500 + (-476 + -1))%Z. rewrite bpow_plus. unfold Q, Rdiv. rewrite Rmult_assoc. apply Rmult_le_compat; try apply bpow_ge_0; [exact Hw|].
    rewrite bpow_plus. change (bpow radix2 (-1)) with (/ 2). destruct (Rle_or_lt E 1) as [G|G].
    - apply Rmult_le_compat; [apply bpow_ge_0|lra|exact EL|apply Rinv_le; lra].
    - apply Rle_trans with (1 * / 2); [apply Rmult_le_compat_r; [lra|]; apply Rle_trans with (bpow radix2 0); [apply bpow_le; lia|cbn; lra]|].
      apply Rmult_le_reg_r with (1 + E); [lra|]. rewrite (Rmult_assoc E), Rinv_l by lra. lra. }
  pose proof (rel_round (B2R p / B2R s) Q (25 * u) bq ltac:(lra) ltac:(lra) Rq') as Rqq. rewrite <- Eq in Rqq.
  assert (Vq : logistic_value (B2R lb) (B2R ub) (B2R v) = B2R lb + Q) by (rewrite QE; reflexivity). rewrite Vq, <- QE, !units_u.
  assert (QW : Q <= W). { rewrite QE. pose proof (sig_range (B2R v)). nra. }
  assert (Bq : Rabs (B2R q) <= bpow radix2 502).
  { rewrite Rabs_pos_eq by exact Q0. apply Rabs_le_inv in Rqq. apply Rle_trans with (2 * Q); [assert ((25 * u + 2 * u) * Q <= 1 * Q) by (apply Rmult_le_compat_r; lra); lra|].
    apply Rle_trans with (2 * bpow radix2 501); [lra|]. change 2 with (bpow radix2 1). rewrite <- bpow_plus. apply bpow_le. lia. }
  assert (B1000 : Rabs (B2R q + B2R lb) <= bpow radix2 1000).
  { eapply Rle_trans; [apply Rabs_triang|]. apply Rle_trans with (bpow radix2 502 + bpow radix2 502); [apply Rplus_le_compat; [exact Bq|eapply Rle_trans; [exact Bl|apply bpow_le; lia]]|].
    replace (bpow radix2 502 + bpow radix2 502) with (bpow radix2 1 * bpow radix2 502) by (change (bpow radix2 1) with 2; ring). rewrite <- bpow_plus. apply bpow_le. lia. }
  destruct (fadd_rel q lb Fq Fl B1000) as [Fr Er]. split; [exact Fr|].
  replace (B2R (fadd q lb) - (B2R lb + Q)) with ((B2R (fadd q lb) - (B2R q + B2R lb)) + (B2R q - Q)) by ring.
  eapply Rle_trans; [apply Rabs_triang|].
  assert (T : Rabs (B2R q + B2R lb) <= Rabs (B2R lb + Q) + (25 * u + 2 * u) * Q).
  { replace (B2R q + B2R lb) with ((B2R lb + Q) + (B2R q - Q)) by ring. eapply Rle_trans; [apply Rabs_triang|]. lra. }
  apply Rmult_le_compat_l with (r := u) in T; [|lra].
  assert (Z : (25 * u + 2 * u) * Q <= 1 * Q) by (apply Rmult_le_compat_r; lra). apply Rmult_le_compat_l with (r := u) in Z; [|lra].
  lra.
Qed.

Let M := magnitude (B2R lb) (B2R ub).
Lemma M_bounds : Rabs (B2R lb) <= M /\ Rabs (B2R ub) <= M /\ W <= 2 * M /\ 0 < M.
Proof.
  pose proof (Rmax_l (Rabs (B2R lb)) (Rabs (B2R ub))) as A. pose proof (Rmax_r (Rabs (B2R lb)) (Rabs (B2R ub))) as B. fold (magnitude (B2R lb) (B2R ub)) in A, B. fold M in A, B.
  assert (C : W <= 2 * M) by (unfold W; apply Rabs_le_inv in A as A'; apply Rabs_le_inv in B as B'; lra).
  destruct W501. repeat split; try assumption. lra.
Qed.
(** the value keeps its distance from the two bounds *)
Lemma sig_sides x : / (1 + exp (Rabs x)) <= sig x /\ / (1 + exp (Rabs x)) <= 1 - sig x /\ 1 - sig x = / (1 + exp x) /\ ln (sig x) - ln (1 - sig x) = x.
Proof.
  pose proof (exp_pos x) as P. assert (E : 1 - sig x = / (1 + exp x)) by (unfold sig; field; lra).
  assert (E2 : sig x = / (1 + exp (- x))). { unfold sig. rewrite exp_Ropp. field. lra. }
  split; [rewrite E2|split; [rewrite E|split; [exact E|]]].
  - apply Rinv_le; [pose proof (exp_pos (- x)); lra|]. apply Rplus_le_compat_l, exp_le'. rewrite <- Rabs_Ropp. apply Rle_abs.
  - apply Rinv_le; [lra|]. apply Rplus_le_compat_l, exp_le', Rle_abs.
  - rewrite E. unfold sig, Rdiv. rewrite ln_mult, ln_exp by (try lra; apply Rinv_0_lt_compat; lra). ring.
Qed.
Lemma ln_side x y : / (1 + exp (Rabs x)) <= y <= 1 -> Rabs (ln y) <= Rabs x + 1.
Proof.
  intros [A B]. pose proof (Rabs_pos x) as X. assert (E1 : 1 <= exp (Rabs x)) by (rewrite <- exp_0; apply exp_le'; exact X).
  assert (I : 0 < / (1 + exp (Rabs x))) by (apply Rinv_0_lt_compat; lra). assert (Y : 0 < y) by lra.
  assert (N : ln y <= 0). { rewrite <- ln_1. destruct (Rle_lt_or_eq_dec _ _ B) as [H|H]; [left; apply ln_increasing; assumption|rewrite H; right; reflexivity]. }
  rewrite Rabs_left1 by exact N. rewrite <- ln_Rinv by exact Y.
  assert (T : / y <= 2 * exp (Rabs x)). { apply Rle_trans with (1 + exp (Rabs x)); [|lra]. rewrite <- (Rinv_inv (1 + exp (Rabs x))). apply Rinv_le; assumption. }
  apply Rle_trans with (ln (2 * exp (Rabs x))).
  - destruct (Rle_lt_or_eq_dec _ _ T) as [H|H]; [left; apply ln_increasing; [apply Rinv_0_lt_compat; exact Y|exact H]|rewrite H; right; reflexivity].
  - rewrite ln_mult, ln_exp by (try lra; apply exp_pos). pose proof ln_2_bound. lra.
Qed.
Lemma ln_W : Rabs (ln W) <= 351.
Proof.
  pose proof (ln_range 501 W ltac:(lia)) as A. assert (B : bpow radix2 (- (501)) <= W <= bpow radix2 501).
  { split; [eapply Rle_trans; [apply bpow_le|exact Hw]; lia|apply W501]. }
  specialize (A B). lra.
Qed.
(** one of the two logarithms of get_free; [y] is the exact distance over the width *)
Lemma log_side (d : dbl) X k y : 0 < y -> / (1 + exp (Rabs X)) <= y <= 1 -> is_finite d = true -> 0 <= k <= / 100 -> Rabs (B2R d - W * y) <= k * (W * y) ->
  is_finite (flog d) = true /\ Rabs (B2R (flog d) - (ln W + ln y)) <= 2 * k + 8 * u * (3 + Rabs (ln W) + Rabs X).
Proof.
  intros Py Hy Fd Hk H. destruct W501 as [W0 _]. assert (PA : 0 < W * y) by (apply Rmult_lt_0_compat; assumption).
  destruct (ln_ratio (B2R d) (W * y) k PA ltac:(lra) H) as [Pd Ld]. rewrite ln_mult in Ld by assumption.
  split; [exact (log_finite _ (lg_ok _ Hlog) d Fd Pd)|].
  pose proof (lg_close _ Hlog d Fd Pd) as C. fold eta in C. rewrite eta_u in C. pose proof (ln_side X y Hy) as S. small_u.
  assert (Q : Rabs (ln (B2R d)) <= Rabs (ln W) + (Rabs X + 1) + 1).
  { replace (ln (B2R d)) with ((ln (B2R d) - (ln W + ln y)) + (ln W + ln y)) by ring. eapply Rle_trans; [apply Rabs_triang|]. pose proof (Rabs_triang (ln W) (ln y)). lra. }
  replace (B2R (flog d) - (ln W + ln y)) with ((B2R (flog d) - ln (B2R d)) + (ln (B2R d) - (ln W + ln y))) by ring. eapply Rle_trans; [apply Rabs_triang|].
  assert (8 * u * (1 + Rabs (ln (B2R d))) <= 8 * u * (3 + Rabs (ln W) + Rabs X)) by (apply Rmult_le_compat_l; lra). lra.
Qed.
Lemma both_back v : calm v -> M * (1 + exp (Rabs (B2R v))) <= bpow radix2 40 * W ->
  let r := f_constrain_entry fexp v lb ub in let w := f_unconstrain_entry flog r lb ub in
  B2R lb < B2R r < B2R ub /\ is_finite w = true /\
  Rabs (B2R w - B2R v) <= units 320 * (M * (1 + exp (Rabs (B2R v))) / W + Rabs (ln W) + Rabs (B2R v)).
Proof.
  intros C H r w. destruct (both_value v C) as [Fr Er]. fold r in Fr, Er. destruct C as [Fv Bv]. set (X := B2R v) in *. destruct Hl as [Fl Bl]. destruct Hu as [Fu Bu].
  destruct W501 as [W0 W1]. destruct M_bounds as (M1 & M2 & M3 & M4). destruct (sig_sides X) as (S1 & S2 & S3 & S4). pose proof (sig_range X) as [G0 G1].
  set (y := sig X) in *. rewrite !units_u in *. small_u. pose proof ln_W as LW.
  set (c := M * (1 + exp (Rabs X)) / W). pose proof (exp_pos (Rabs X)) as EP.
  assert (E1 : 1 <= exp (Rabs X)) by (rewrite <- exp_0; apply exp_le', Rabs_pos).
  assert (cW : c * W = M * (1 + exp (Rabs X))) by (unfold c; field; lra).
  assert (c1 : 1 <= c). { apply Rmult_le_reg_r with W; [exact W0|]. rewrite cW. apply Rle_trans with (M * 2); [lra|]. apply Rmult_le_compat_l; lra. }
  assert (c40 : c <= bpow radix2 40). { apply Rmult_le_reg_r with W; [exact W0|]. rewrite cW. exact H. }
  assert (c2 : c * u <= / 8192). { apply Rle_trans with (bpow radix2 40 * u); [apply Rmult_le_compat_r; lra|]. unfold u. rewrite <- bpow_plus. right. reflexivity. }
  assert (Mc : M = c * (W * / (1 + exp (Rabs X)))) by (unfold c; field; lra).
  assert (My : M <= c * (W * y)). { rewrite Mc at 1. apply Rmult_le_compat_l; [lra|]. apply Rmult_le_compat_l; lra. }
  assert (My' : M <= c * (W * (1 - y))). { rewrite Mc at 1. apply Rmult_le_compat_l; [lra|]. apply Rmult_le_compat_l; lra. }
  set (V := logistic_value (B2R lb) (B2R ub) X) in *. assert (EV : V = B2R lb + W * y) by reflexivity.
  assert (Wy : 0 < W * y < W) by (split; nra).
  assert (BV : Rabs V <= M). { apply Rabs_le. apply Rabs_le_inv in M1. apply Rabs_le_inv in M2. unfold W in *. rewrite EV. lra. }
  assert (Er' : Rabs (B2R r - V) <= 57 * u * M).
  { eapply Rle_trans; [exact Er|]. assert (28 * u * (W * y) <= 28 * u * (2 * M)) by (apply Rmult_le_compat_l; lra). assert (1 * u * Rabs V <= 1 * u * M) by (apply Rmult_le_compat_l; lra). lra. }
  assert (K : 57 * u * M <= 57 * (c * u) * (W * y)). { replace (57 * (c * u) * (W * y)) with (57 * u * (c * (W * y))) by ring. apply Rmult_le_compat_l; [lra|exact My]. }
  assert (K' : 57 * u * M <= 57 * (c * u) * (W * (1 - y))). { replace (57 * (c * u) * (W * (1 - y))) with (57 * u * (c * (W * (1 - y)))) by ring. apply Rmult_le_compat_l; [lra|exact My']. }
  assert (cu : 0 < c * u) by (apply Rmult_lt_0_compat; lra).
  assert (Da : Rabs (B2R r - B2R lb - W * y) <= 57 * (c * u) * (W * y)) by (replace (B2R r - B2R lb - W * y) with (B2R r - V) by (rewrite EV; ring); lra).
  assert (Db : Rabs (B2R ub - B2R r - W * (1 - y)) <= 57 * (c * u) * (W * (1 - y))).
  { replace (B2R ub - B2R r - W * (1 - y)) with (- (B2R r - V)) by (rewrite EV; unfold W; ring). rewrite Rabs_Ropp. lra. }
  assert (Wy' : 0 < W * (1 - y)) by nra.
  assert (In : B2R lb < B2R r < B2R ub).
  { apply Rabs_le_inv in Da. apply Rabs_le_inv in Db.
    assert (57 * (c * u) * (W * y) <= / 2 * (W * y)) by (apply Rmult_le_compat_r; lra). assert (57 * (c * u) * (W * (1 - y)) <= / 2 * (W * (1 - y))) by (apply Rmult_le_compat_r; lra). lra. }
  split; [exact In|]. unfold w. rewrite unconstrain_both by assumption.
  assert (W1000 : W <= bpow radix2 1000) by (eapply Rle_trans; [exact W1|apply bpow_le; lia]).
  destruct (fsub_rel r lb Fr Fl) as [Fa Ea]. { rewrite Rabs_pos_eq by lra. unfold W in *. lra. }
  destruct (fsub_rel ub r Fu Fr) as [Fb Eb]. { rewrite Rabs_pos_eq by lra. unfold W in *. lra. }
  assert (kk : 57 * (c * u) + u + 57 * (c * u) * u <= 59 * (c * u)).
  { assert (u <= c * u) by (rewrite <- (Rmult_1_l u) at 1; apply Rmult_le_compat_r; lra). assert (57 * (c * u) * u <= 57 * (c * u) * / 57) by (apply Rmult_le_compat_l; lra). lra. }
  pose proof (rel_trans (B2R r - B2R lb) (W * y) (B2R (fsub r lb)) (57 * (c * u)) u ltac:(lra) ltac:(lra) Da Ea) as Ta.
  pose proof (rel_trans (B2R ub - B2R r) (W * (1 - y)) (B2R (fsub ub r)) (57 * (c * u)) u ltac:(lra) ltac:(lra) Db Eb) as Tb.
  destruct (log_side (fsub r lb) X (59 * (c * u)) y G0 ltac:(lra) Fa ltac:(lra)) as [Fga Ega]. { eapply Rle_trans; [exact Ta|]. apply Rmult_le_compat_r; lra. }
  destruct (log_side (fsub ub r) X (59 * (c * u)) (1 - y) ltac:(lra) ltac:(lra) Fb ltac:(lra)) as [Fgb Egb]. { eapply Rle_trans; [exact Tb|]. apply Rmult_le_compat_r; lra. }
  set (g1 := flog (fsub r lb)) in *. set (g2 := flog (fsub ub r)) in *.
  set (t := Rabs (ln W)) in *. assert (t0 : 0 <= t) by apply Rabs_pos. assert (x0 : 0 <= Rabs X) by apply Rabs_pos.
  assert (D : Rabs (B2R g1 - B2R g2 - X) <= 236 * (c * u) + 16 * u * (3 + t + Rabs X)).
  { replace (B2R g1 - B2R g2 - X) with ((B2R g1 - (ln W + ln y)) + - (B2R g2 - (ln W + ln (1 - y)))) by (rewrite <- S4; ring).
    eapply Rle_trans; [apply Rabs_triang|]. rewrite Rabs_Ropp. lra. }
  assert (ut : 16 * u * (3 + t + Rabs X) <= / 100). { apply Rle_trans with (16 * u * 700); [apply Rmult_le_compat_l; lra|lra]. }
  assert (D2 : Rabs (B2R g1 - B2R g2) <= Rabs X + 1). { replace (B2R g1 - B2R g2) with ((B2R g1 - B2R g2 - X) + X) by ring. eapply Rle_trans; [apply Rabs_triang|]. lra. }
  destruct (fsub_rel g1 g2 Fga Fgb) as [Fs Es]. { eapply Rle_trans; [exact D2|]. apply bpow1000_big. lra. }
  split; [exact Fs|]. replace (B2R (fsub g1 g2) - X) with ((B2R (fsub g1 g2) - (B2R g1 - B2R g2)) + (B2R g1 - B2R g2 - X)) by ring.
  eapply Rle_trans; [apply Rabs_triang|]. apply Rmult_le_compat_l with (r := u) in D2; [|lra].
  assert (uc : u <= c * u) by (rewrite <- (Rmult_1_l u) at 1; apply Rmult_le_compat_r; lra).
  assert (0 <= u * t) by (apply Rmult_le_pos; lra). assert (0 <= u * Rabs X) by (apply Rmult_le_pos; lra). lra.
Qed.
Lemma both_forth v : is_finite v = true -> bpow radix2 (-200) <= B2R v - B2R lb <= bpow radix2 200 -> bpow radix2 (-200) <= B2R ub - B2R v <= bpow radix2 200 ->
  let r := f_constrain_entry fexp (f_unconstrain_entry flog v lb ub) lb ub in
  is_finite r = true /\ Rabs (B2R r - B2R v) <= units 40 * (2 + Rabs (ln (B2R v - B2R lb)) + Rabs (ln (B2R ub - B2R v))) * (B2R v - B2R lb) + units 1 * Rabs (B2R v).
Proof.
  intros Fv RA RB r. destruct Hl as [Fl Bl]. destruct Hu as [Fu Bu]. unfold r. rewrite unconstrain_both by assumption. rewrite !units_u. small_u.
  pose proof (bpow_gt_0 radix2 (-200)) as P. set (A := B2R v - B2R lb) in *. set (B := B2R ub - B2R v) in *.
  assert (W' : W = A + B) by (unfold W, A, B; ring).
  pose proof (ln_range 200 A ltac:(lia) RA) as LA. pose proof (ln_range 200 B ltac:(lia) RB) as LB.
  set (lA := Rabs (ln A)) in *. set (lB := Rabs (ln B)) in *. assert (lA0 : 0 <= lA) by apply Rabs_pos. assert (lB0 : 0 <= lB) by apply Rabs_pos.
  assert (w1 : bpow radix2 (-400) <= bpow radix2 (-200)) by (apply bpow_le; lia). assert (w2 : bpow radix2 200 <= bpow radix2 400) by (apply bpow_le; lia).
  assert (w3 : bpow radix2 200 <= bpow radix2 1000) by (apply bpow_le; lia).
  destruct (fsub_rel v lb Fv Fl) as [Fa Ea]. { fold A. rewrite Rabs_pos_eq by lra. lra. }
  destruct (fsub_rel ub v Fu Fv) as [Fb Eb]. { fold B. rewrite Rabs_pos_eq by lra. lra. }
  fold A in Ea. fold B in Eb. rewrite (Rabs_pos_eq A) in Ea by lra. rewrite (Rabs_pos_eq B) in Eb by lra.
  destruct (log_diff flog Hlog _ A ltac:(lra) Fa Ea) as (Fg1 & Eg1 & _). destruct (log_diff flog Hlog _ B ltac:(lra) Fb Eb) as (Fg2 & Eg2 & _). fold lA in Eg1. fold lB in Eg2.
  set (g1 := flog (fsub v lb)) in *. set (g2 := flog (fsub ub v)) in *.
  assert (D : Rabs (B2R g1 - B2R g2 - (ln A - ln B)) <= 11 * u * (2 + lA + lB)).
  { replace (B2R g1 - B2R g2 - (ln A - ln B)) with ((B2R g1 - ln A) + - (B2R g2 - ln B)) by ring. eapply Rle_trans; [apply Rabs_triang|]. rewrite Rabs_Ropp. lra. }
  set (l := lA + lB) in *. assert (l280 : 0 <= l <= 280) by (unfold l; lra). replace (2 + lA + lB) with (2 + l) in * by (unfold l; ring).
  assert (AB : Rabs (ln A - ln B) <= l). { unfold Rminus, l, lA, lB. rewrite <- (Rabs_Ropp (ln B)). apply Rabs_triang. }
  assert (ul : 0 <= u * (2 + l) <= / 1000000). { split; [apply Rmult_le_pos; lra|]. apply Rle_trans with (u * 282); [apply Rmult_le_compat_l; lra|lra]. }
  assert (D2 : Rabs (B2R g1 - B2R g2) <= 1 + l). { replace (B2R g1 - B2R g2) with ((B2R g1 - B2R g2 - (ln A - ln B)) + (ln A - ln B)) by ring. eapply Rle_trans; [apply Rabs_triang|]. lra. }
  destruct (fsub_rel g1 g2 Fg1 Fg2) as [Fg Eg]. { eapply Rle_trans; [exact D2|]. apply bpow1000_big. lra. }
  set (g := fsub g1 g2) in *. apply Rmult_le_compat_l with (r := u) in D2; [|lra].
  assert (D3 : Rabs (B2R g - (ln A - ln B)) <= 12 * u * (2 + l)).
  { replace (B2R g - (ln A - ln B)) with ((B2R g - (B2R g1 - B2R g2)) + (B2R g1 - B2R g2 - (ln A - ln B))) by ring. eapply Rle_trans; [apply Rabs_triang|]. lra. }
  assert (Cg : calm g). { split; [exact Fg|]. replace (B2R g) with ((B2R g - (ln A - ln B)) + (ln A - ln B)) by ring. eapply Rle_trans; [apply Rabs_triang|]. lra. }
  destruct (both_value g Cg) as [Fr Er]. split; [exact Fr|]. rewrite !units_u in Er.
  pose proof (exp_shift (B2R g) (ln A - ln B) (12 * u * (2 + l)) ltac:(lra) D3) as S. set (E := exp (B2R g)) in *. assert (EP : 0 < E) by apply exp_pos.
  assert (EA : exp (ln A - ln B) = A / B). { unfold Rminus. rewrite exp_plus, exp_Ropp, !exp_ln by lra. reflexivity. }
  rewrite EA in S. set (k := 12 * u * (2 + l)) in *. assert (kb : 0 <= k <= / 1000) by (unfold k; lra).
  assert (S2 : Rabs (B * E - A) <= 2 * k * A).
  { replace (B * E - A) with (B * (E - A / B)) by (field; lra). rewrite Rabs_mult, (Rabs_pos_eq B) by lra.
    apply Rle_trans with (B * (2 * k * (A / B))); [apply Rmult_le_compat_l; lra|]. right. field. lra. }
  assert (S3 : Rabs (W * sig (B2R g) - A) <= 2 * k * A).
  { unfold sig. fold E. replace (W * (E / (1 + E)) - A) with ((B * E - A) * / (1 + E)) by (rewrite W'; field; lra).
    rewrite Rabs_mult, (Rabs_pos_eq (/ (1 + E))) by (left; apply Rinv_0_lt_compat; lra).
    apply Rle_trans with (Rabs (B * E - A) * 1); [|lra]. apply Rmult_le_compat_l; [apply Rabs_pos|]. rewrite <- Rinv_1. apply Rinv_le; lra. }
  set (Q := W * sig (B2R g)) in *. set (V := logistic_value (B2R lb) (B2R ub) (B2R g)) in *. assert (EV : V = B2R lb + Q) by reflexivity.
  assert (VA : Rabs (V - B2R v) <= 2 * k * A) by (replace (V - B2R v) with (Q - A) by (rewrite EV; unfold A; ring); exact S3).
  assert (QA : Q <= 2 * A). { apply Rabs_le_inv in S3. assert (2 * k * A <= 1 * A) by (apply Rmult_le_compat_r; lra). lra. }
  assert (VV : Rabs V <= Rabs (B2R v) + 2 * k * A). { replace V with (B2R v + (V - B2R v)) by ring. eapply Rle_trans; [apply Rabs_triang|]. lra. }
  assert (Q2 : Q <= A + 2 * k * A) by (apply Rabs_le_inv in S3; lra).
  set (rr := f_constrain_entry fexp g lb ub) in *.
  replace (B2R rr - B2R v) with ((B2R rr - V) + (V - B2R v)) by ring. eapply Rle_trans; [apply Rabs_triang|].
  apply Rmult_le_compat_l with (r := 28 * u) in Q2; [|lra]. apply Rmult_le_compat_l with (r := u) in VV; [|lra].
  assert (uA : 0 < u * A) by (apply Rmult_lt_0_compat; lra). assert (kA : 0 <= k * A) by (apply Rmult_le_pos; lra).
  assert (ukA : u * (2 * k * A) <= u * (/ 100 * A)) by (apply Rmult_le_compat_l; [lra|]; apply Rmult_le_compat_r; lra).
  assert (kA' : 2 * k * A = 24 * (u * A) * (2 + l)) by (unfold k; ring).
  assert (lA' : 0 <= (u * A) * l) by (apply Rmult_le_pos; lra). lra.
Qed.
End Acc.
