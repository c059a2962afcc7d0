(** Proofs about the moments of exp of a normal variable in binary64, and the symmetry of the second moments of MVNParam. *)
From Coq Require Import String Reals ZArith List Lra Lia Psatz Bool.
From Flocq Require Import Core BinarySingleNaN Relative Plus_error Mult_error.
From Verif Require Import Res Nd RSum ModelNumpy SpecFloat SpecFloatSimplex SpecFloatAcc SpecFloatMatrix SpecFloatFam SpecFloatFam3 ModelFloat ModelFloatDict ModelFloatFamilies ModelFloatFamilies2
  LemmasPosDef LemmasNumpy LemmasFloat LemmasFloat2 LemmasFloat3 LemmasFloat4 LemmasFloatSimplex LemmasFloatSimplex2 LemmasFloatSimplex4 LemmasFloatAcc LemmasFloatAcc2 LemmasFloatDefault LemmasFloatFam.
From Verif Require Import SpecFloatFam.
Import List ListNotations.
Set Bullet Behavior "Strict Subproofs".
Open Scope R_scope.

(** ** exp *)
Lemma exp_minus_one y d : 0 <= d <= / 1000 -> Rabs y <= d -> Rabs (exp y - 1) <= 11 / 10 * d.
Proof.
  intros [D0 D1] H. apply Rabs_le_inv in H. pose proof (exp_ineq1_le y) as A. pose proof (exp_ineq1_le (- y)) as B. pose proof (exp_pos y) as P. pose proof (exp_pos (- y)).
  assert (E : exp y * exp (- y) = 1) by (rewrite <- exp_plus; replace (y + - y) with 0 by ring; exact exp_0). apply Rabs_le. split; [lra|].
  assert (C : exp y * (1 - d) <= 1) by (rewrite <- E; apply Rmult_le_compat_l; lra). assert (U : exp y <= 2) by nra. assert (exp y * d <= (1 + 2 * d) * d) by (apply Rmult_le_compat_r; nra). nra.
Qed.
Lemma exp_shift x t d : 0 <= d <= / 1000 -> Rabs (x - t) <= d -> Rabs (exp x - exp t) <= 11 / 10 * d * exp t.
Proof.
  intros D H. replace (exp x) with (exp (x - t) * exp t) by (rewrite <- exp_plus; f_equal; ring). replace (exp (x - t) * exp t - exp t) with ((exp (x - t) - 1) * exp t) by ring.
  rewrite Rabs_mult, (Rabs_pos_eq (exp t)) by apply Rlt_le, exp_pos. apply Rmult_le_compat_r; [apply Rlt_le, exp_pos|]. apply exp_minus_one; assumption.
Qed.

(** ** one entry *)
Section Entry.
Context (fexp fsq : dbl -> dbl) (He : exp_good fexp) (Hq : squares fsq).
Lemma fmul_rel (x y : dbl) : is_finite x = true -> is_finite y = true -> Rabs (B2R x * B2R y) <= bpow radix2 1000 ->
  is_finite (fmul x y) = true /\ B2R (fmul x y) = rnd64 (B2R x * B2R y) /\ Rabs (B2R (fmul x y) - B2R x * B2R y) <= u * Rabs (B2R x * B2R y) + bpow radix2 (-1074).
Proof.
  intros Fx Fy B. assert (G : Rabs (rnd64 (B2R x * B2R y)) < bpow radix2 1024).
  { apply Rabs_le_inv in B. assert (L : rnd64 (B2R x * B2R y) <= bpow radix2 1000) by (rewrite <- (rnd64_bpow 1000) by lia; apply rnd64_le; lra).
    assert (L' : - bpow radix2 1000 <= rnd64 (B2R x * B2R y)) by (rewrite <- (rnd64_bpow 1000) by lia; unfold rnd64 at 1; rewrite <- round_NE_opp; apply rnd64_le; lra).
    apply Rle_lt_trans with (bpow radix2 1000); [apply Rabs_le; lra|apply bpow_lt; lia]. }
  destruct (fmul_cases x y Fx Fy) as [(_ & E & F & _)|(C & _)]; [|lra]. split; [exact F|]. split; [exact E|]. rewrite E. apply rnd64_error.
Qed.
Lemma tiny_1074 x : bpow radix2 (-1000) <= x -> bpow radix2 (-1074) <= / 1000 * (u * x).
Proof.
  intros H. assert (A : bpow radix2 (-1074) <= bpow radix2 (-10) * (u * bpow radix2 (-1000))) by (unfold u; rewrite <- !bpow_plus; apply bpow_le; lia). pose proof u_pos. change (bpow radix2 (-10)) with (/ 1024) in A. assert (u * bpow radix2 (-1000) <= u * x) by (apply Rmult_le_compat_l; lra).
  assert (0 <= u * bpow radix2 (-1000)) by (apply Rmult_le_pos; [lra|apply bpow_ge_0]). lra.
Qed.
Context (m i : dbl) (T : tame m i).
Let J := 1 / B2R i.
Let M := Rabs (B2R m) + J.
Let k := exp_units m i * u.
Let E := exp (B2R m + J / 2).
Let X := exp J.
Lemma range : 0 < J <= 290 /\ 0 <= M <= 290 /\ bpow radix2 (-501) <= J /\ 0 <= k <= / 1000000000 /\ 10 * u <= k /\ 3 * (u * M) <= k - 10 * u /\ u * J <= u * M.
Proof.
  destruct T as (_ & Fi & S). fold J in S. fold M in S. pose proof (info_inverse i Fi) as [I0 _]. fold J in I0. pose proof (bpow_gt_0 radix2 (-501)). pose proof (Rabs_pos (B2R m)). small_u.
  assert (J0 : 0 < J) by lra. assert (J <= M) by (unfold M; lra). assert (k = 10 * u + 3 * (u * M)) as -> by (unfold k, exp_units, M, J; ring). assert (0 <= u * M) by (apply Rmult_le_pos; lra). assert (u * M <= u * 290) by (apply Rmult_le_compat_l; lra). assert (u * J <= u * M) by (apply Rmult_le_compat_l; lra).
  repeat split; lra.
Qed.
Lemma calm_of_near x t : is_finite x = true -> Rabs t <= 290 -> Rabs (B2R x - t) <= 1 -> calm x.
Proof. intros F A B. split; [exact F|]. replace (B2R x) with ((B2R x - t) + t) by ring. eapply Rle_trans; [apply Rabs_triang|]. lra. Qed.

Lemma e_entry : let e := fexp (fadd m (fmul f_half (fdiv f_one i))) in is_finite e = true /\ 0 <= B2R e <= bpow radix2 490 /\ Rabs (B2R e - E) <= k * E.
Proof using He T.
  destruct range as (J0 & M0 & I0 & K0 & K1 & K2 & UJ). destruct T as (Fm & Fi & S). destruct (var_entry i Fi) as [[Fv V] V0]. fold J in V. rewrite units_u in V. set (v := fdiv f_one i) in *. small_u. pose proof (Rabs_pos (B2R m)) as Pm.
  assert (u * J <= / 1000) by (assert (u * J <= u * 290) by (apply Rmult_le_compat_l; lra); lra). assert (UJ0 : 0 <= u * J) by (apply Rmult_le_pos; lra). assert (V1 : Rabs (B2R v - J) <= u * J) by lra. clear V.
  assert (V2 : 0 < B2R v <= J + u * J) by (apply Rabs_le_inv in V1; lra). assert (B1 : 1000 <= bpow radix2 1000) by (apply Rle_trans with (bpow radix2 10); [change (bpow radix2 10) with 1024; lra|apply bpow_le; lia]).
  destruct (fmul_rel f_half v f_half_finite Fv) as (Fh & _ & Hh); [rewrite f_half_B2R, Rabs_pos_eq by lra; lra|]. rewrite f_half_B2R, (Rabs_pos_eq (/ 2 * B2R v)) in Hh by lra. set (h := fmul f_half v) in *.
  assert (T1 : bpow radix2 (-1074) <= / 1000 * (u * J)) by (apply tiny_1074; eapply Rle_trans; [|exact I0]; apply bpow_le; lia).
  assert (UJr : u * J <= / 1000 * J) by (apply Rmult_le_compat_r; lra).
  assert (Hu : u * (/ 2 * B2R v) <= u * (6 / 10 * J)) by (apply Rmult_le_compat_l; lra).
  assert (Hj : Rabs (B2R h - J / 2) <= 12 / 10 * (u * J)) by (apply Rabs_le_inv in Hh, V1; apply Rabs_le; lra).
  assert (Hb : Rabs (B2R m + B2R h) <= M) by (unfold M; eapply Rle_trans; [apply Rabs_triang|]; apply Rplus_le_compat_l; apply Rabs_le_inv in Hj; apply Rabs_le; lra).
  destruct (fadd_rel m h Fm Fh) as [Fs Hs]; [lra|]. set (s := fadd m h) in *. assert (Us : u * Rabs (B2R m + B2R h) <= u * M) by (apply Rmult_le_compat_l; lra).
  assert (S1 : Rabs (B2R s - (B2R m + J / 2)) <= 22 / 10 * (u * M)) by (replace (B2R s - (B2R m + J / 2)) with ((B2R s - (B2R m + B2R h)) + (B2R h - J / 2)) by ring; eapply Rle_trans; [apply Rabs_triang|]; lra).
  assert (UM : 0 <= u * M <= / 1000000) by (assert (u * M <= u * 290) by (apply Rmult_le_compat_l; lra); split; [apply Rmult_le_pos; lra|lra]).
  assert (C : calm s) by (apply calm_of_near with (B2R m + J / 2); [exact Fs| |lra]; eapply Rle_trans; [apply Rabs_triang|]; rewrite (Rabs_pos_eq (J / 2)) by lra; unfold M in M0; lra).
  destruct (exp_tight fexp He s C) as (Fe & _ & [E0 _] & D). cbv zeta. set (e := fexp s) in *. pose proof (exp_shift (B2R s) (B2R m + J / 2) (22 / 10 * (u * M)) ltac:(lra) S1) as D2. fold E in D2.
  assert (Ep : 0 < E) by apply exp_pos. assert (Q : Rabs (B2R e - E) <= k * E).
  { pose proof (rel_trans (exp (B2R s)) E (B2R e) (11 / 10 * (22 / 10 * (u * M))) (9 * u) (Rlt_le _ _ Ep) ltac:(lra) D2) as R. rewrite (Rabs_pos_eq (exp (B2R s))) in R by apply Rlt_le, exp_pos. specialize (R D).
    eapply Rle_trans; [exact R|]. apply Rmult_le_compat_r; [lra|]. assert (u * M * u <= / 1000 * u) by (apply Rmult_le_compat_r; lra). lra. }
  split; [exact Fe|]. split; [split; [exact E0|]|exact Q].
  destruct (exp_calm_bounds (B2R m + J / 2)) as [_ G]. { eapply Rle_trans; [apply Rabs_triang|]. rewrite (Rabs_pos_eq (J / 2)) by lra. unfold M in M0. lra. }
  fold E in G. assert (k * E <= 1 * E) by (apply Rmult_le_compat_r; lra). apply Rabs_le_inv in Q.
  assert (2 * bpow radix2 476 <= bpow radix2 490) by (change 2 with (bpow radix2 1) at 1; rewrite <- bpow_plus; apply bpow_le; lia). lra.
Qed.
Lemma x_entry : let x := fexp (fdiv f_one i) in is_finite x = true /\ Rabs (B2R x - X) <= k * X.
Proof using He T.
  destruct range as (J0 & M0 & I0 & K0 & K1 & K2 & UJ). destruct T as (Fm & Fi & S). destruct (var_entry i Fi) as [[Fv V] V0]. fold J in V. rewrite units_u in V. set (v := fdiv f_one i) in *. small_u.
  assert (UM : u * J <= / 1000000) by (assert (u * J <= u * 290) by (apply Rmult_le_compat_l; lra); lra). assert (UJ0 : 0 <= u * J) by (apply Rmult_le_pos; lra). assert (V1 : Rabs (B2R v - J) <= u * J) by lra.
  assert (C : calm v) by (apply calm_of_near with J; [exact Fv|rewrite Rabs_pos_eq by lra; lra|lra]).
  destruct (exp_tight fexp He v C) as (Fe & _ & _ & D). pose proof (exp_shift (B2R v) J (u * J) ltac:(lra) V1) as D2. fold X in D2. assert (Ep : 0 < X) by apply exp_pos. split; [exact Fe|].
  pose proof (rel_trans (exp (B2R v)) X (B2R (fexp v)) (11 / 10 * (u * J)) (9 * u) (Rlt_le _ _ Ep) ltac:(lra) D2) as R. rewrite (Rabs_pos_eq (exp (B2R v))) in R by apply Rlt_le, exp_pos. specialize (R D).
  eapply Rle_trans; [exact R|]. apply Rmult_le_compat_r; [lra|]. assert (u * J * u <= / 1000 * u) by (apply Rmult_le_compat_r; lra). lra.
Qed.
Lemma squared_range : bpow radix2 (-960) <= E * E /\ 1 <= X /\ X * (E * E) <= bpow radix2 980 /\ X <= bpow radix2 500 /\ X * (E * E) = exp (2 * B2R m + 2 * J).
Proof using T.
  destruct range as (J0 & M0 & _). assert (Pm := Rabs_pos (B2R m)). assert (A : Rabs (B2R m + J / 2) <= 300) by (eapply Rle_trans; [apply Rabs_triang|]; rewrite (Rabs_pos_eq (J / 2)) by lra; unfold M in M0; lra).
  destruct (exp_calm_bounds _ A) as [E0 _]. fold E in E0. assert (B : Rabs (B2R m + J) <= 300) by (eapply Rle_trans; [apply Rabs_triang|]; rewrite (Rabs_pos_eq J) by lra; fold M; lra).
  destruct (exp_calm_bounds _ B) as [_ E1]. destruct (exp_calm_bounds J ltac:(rewrite Rabs_pos_eq; lra)) as [_ E2]. fold X in E2. pose proof (bpow_gt_0 radix2 (-476)).
  assert (Q : X * (E * E) = exp (2 * B2R m + 2 * J)) by (unfold X, E; rewrite <- !exp_plus; f_equal; field).
  split; [|split; [|split; [|split; [|exact Q]]]].
  - apply Rle_trans with (bpow radix2 (-476) * bpow radix2 (-476)); [rewrite <- bpow_plus; apply bpow_le; lia|apply Rmult_le_compat; lra].
  - pose proof (exp_ineq1_le J). fold X in H0. lra.
  - rewrite Q. replace (2 * B2R m + 2 * J) with ((B2R m + J) + (B2R m + J)) by ring. rewrite exp_plus. pose proof (exp_pos (B2R m + J)). apply Rle_trans with (bpow radix2 476 * bpow radix2 476); [apply Rmult_le_compat; lra|rewrite <- bpow_plus; apply bpow_le; lia].
  - eapply Rle_trans; [exact E2|apply bpow_le; lia].
Qed.
Lemma second_entry : let e := fexp (fadd m (fmul f_half (fdiv f_one i))) in let q := fsq e in let x := fsub (fexp (fdiv f_one i)) f_one in let w := fmul x q in let o := fadd q w in
  is_finite w = true /\ Rabs (B2R w - (X - 1) * (E * E)) <= 4 * k * (X * (E * E)) /\ is_finite o = true /\ Rabs (B2R o - X * (E * E)) <= 7 * k * (X * (E * E)) /\
  (exp_monotone fexp -> 0 <= B2R w) /\ (fexp (fdiv f_one i) = f_one -> B2R w = 0).
Proof using He Hq T.
  intros e q x w o. destruct range as (J0 & M0 & I0 & K0 & K1 & K2 & UJ). destruct e_entry as (Fe & [Ee0 Ee1] & Ee). fold e in Fe, Ee0, Ee1, Ee. destruct x_entry as (Fx & Ex). destruct squared_range as (R0 & R1 & R2 & R3 & _).
  small_u. assert (Ep : 0 < E) by apply exp_pos. set (Z := E * E) in *. assert (Zp : 0 < Z) by (apply Rmult_lt_0_compat; exact Ep). set (a := B2R e) in *.
  (* the square *)
  destruct (Hq e Fe) as (Fq & Q0 & Q); [fold a; rewrite Rabs_pos_eq by lra; exact Ee1|]. fold q in Fq, Q0, Q. fold a in Q. rewrite units_u in Q. replace (a ^ 2) with (a * a) in Q by ring.
  assert (T1 : bpow radix2 (-1074) <= / 1000 * (u * Z)) by (apply tiny_1074; eapply Rle_trans; [|exact R0]; apply bpow_le; lia).
  assert (Kx : forall y, 0 <= y -> 0 <= k * y /\ k * (k * y) <= / 1000000000 * (k * y) /\ 10 * (u * y) <= k * y /\ 0 <= u * y /\ u * (k * y) <= / 1000000 * (k * y) /\ k * y <= / 1000000000 * y).
  { intros y Hy. assert (0 <= k * y) by (apply Rmult_le_pos; lra). assert (0 <= u * y) by (apply Rmult_le_pos; lra). split; [lra|]. split; [apply Rmult_le_compat_r; lra|]. split; [replace (10 * (u * y)) with ((10 * u) * y) by ring; apply Rmult_le_compat_r; lra|]. split; [lra|]. split; [apply Rmult_le_compat_r; lra|apply Rmult_le_compat_r; lra]. }
  destruct (Kx Z (Rlt_le _ _ Zp)) as (Z1 & Z2 & Z3 & Z4 & Z5 & Z6).
  assert (AA : Rabs (a * a - Z) <= 21 / 10 * (k * Z)).
  { replace (a * a - Z) with ((a - E) * (a - E) + 2 * E * (a - E)) by (unfold Z; ring). eapply Rle_trans; [apply Rabs_triang|]. rewrite !Rabs_mult, (Rabs_pos_eq 2), (Rabs_pos_eq E) by lra.
    assert (B1 : Rabs (a - E) * Rabs (a - E) <= (k * E) * (k * E)) by (apply Rmult_le_compat; try apply Rabs_pos; assumption). replace ((k * E) * (k * E)) with (k * (k * Z)) in B1 by (unfold Z; ring).
    assert (B2 : 2 * E * Rabs (a - E) <= 2 * E * (k * E)) by (apply Rmult_le_compat_l; lra). replace (2 * E * (k * E)) with (2 * (k * Z)) in B2 by (unfold Z; ring). lra. }
  assert (AU : u * (a * a) <= u * (11 / 10 * Z)) by (apply Rmult_le_compat_l; [lra|]; apply Rabs_le_inv in AA; lra).
  assert (QZ : Rabs (B2R q - Z) <= 24 / 10 * (k * Z)) by (replace (B2R q - Z) with ((B2R q - a * a) + (a * a - Z)) by ring; eapply Rle_trans; [apply Rabs_triang|]; lra). set (b := B2R q) in *.
  assert (QB : 0 <= b <= 101 / 100 * Z) by (apply Rabs_le_inv in QZ; lra).
  (* exp(v) - 1 *)
  destruct (Kx X ltac:(lra)) as (X1 & X2 & X3 & X4 & X5 & X6). set (c := B2R (fexp (fdiv f_one i))) in *.
  assert (C1 : Rabs (c - 1) <= 101 / 100 * X) by (apply Rabs_le_inv in Ex; apply Rabs_le; lra).
  assert (BB : 2 * bpow radix2 500 <= bpow radix2 1000) by (change 2 with (bpow radix2 1) at 1; rewrite <- bpow_plus; apply bpow_le; lia).
  destruct (fsub_rel (fexp (fdiv f_one i)) f_one Fx one_finite) as [Fx' Hx]; [rewrite one_B2R; fold c; lra|]. rewrite one_B2R in Hx. fold c x in Hx. fold x in Fx'. set (y := B2R x) in *.
  assert (CU : u * Rabs (c - 1) <= u * (101 / 100 * X)) by (apply Rmult_le_compat_l; lra).
  assert (Y : Rabs (y - (X - 1)) <= 12 / 10 * (k * X)) by (replace (y - (X - 1)) with ((y - (c - 1)) + (c - X)) by ring; eapply Rle_trans; [apply Rabs_triang|]; lra).
  assert (YB : Rabs y <= 101 / 100 * X) by (apply Rabs_le_inv in Y; apply Rabs_le; lra).
  (* the product *)
  set (W := X * Z) in *. assert (Wp : Z <= W) by (unfold W; rewrite <- (Rmult_1_l Z) at 1; apply Rmult_le_compat_r; lra). destruct (Kx W ltac:(lra)) as (W1 & W2 & W3 & W4 & W5 & W6).
  assert (YQ : Rabs (y * b) <= 11 / 10 * W).
  { rewrite Rabs_mult, (Rabs_pos_eq b) by lra. apply Rle_trans with (101 / 100 * X * (101 / 100 * Z)); [apply Rmult_le_compat; try apply Rabs_pos; lra|]. replace (101 / 100 * X * (101 / 100 * Z)) with (101 / 100 * (101 / 100) * W) by (unfold W; ring). lra. }
  assert (B981 : 2 * bpow radix2 980 <= bpow radix2 1000) by (change 2 with (bpow radix2 1) at 1; rewrite <- bpow_plus; apply bpow_le; lia).
  destruct (fmul_rel x q Fx' Fq) as (Fw & Ew & Hw); [fold y b; lra|]. fold y b w in Hw, Ew. fold w in Fw.
  assert (YU : u * Rabs (y * b) <= u * (11 / 10 * W)) by (apply Rmult_le_compat_l; lra). assert (UZ : u * Z <= u * W) by (apply Rmult_le_compat_l; lra). assert (KZ : k * Z <= k * W) by (apply Rmult_le_compat_l; lra).
  assert (P : Rabs (y * b - (X - 1) * Z) <= 37 / 10 * (k * W)).
  { replace (y * b - (X - 1) * Z) with ((y - (X - 1)) * b + (X - 1) * (b - Z)) by ring. eapply Rle_trans; [apply Rabs_triang|]. rewrite !Rabs_mult, (Rabs_pos_eq b), (Rabs_pos_eq (X - 1)) by lra.
    assert (G1 : Rabs (y - (X - 1)) * b <= 12 / 10 * (k * X) * (101 / 100 * Z)) by (apply Rmult_le_compat; try apply Rabs_pos; lra). replace (12 / 10 * (k * X) * (101 / 100 * Z)) with (12 / 10 * (101 / 100) * (k * W)) in G1 by (unfold W; ring).
    assert (G2 : (X - 1) * Rabs (b - Z) <= X * (24 / 10 * (k * Z))) by (apply Rmult_le_compat; try apply Rabs_pos; lra). replace (X * (24 / 10 * (k * Z))) with (24 / 10 * (k * W)) in G2 by (unfold W; ring). lra. }
  assert (PW : Rabs (B2R w - (X - 1) * Z) <= 39 / 10 * (k * W)) by (replace (B2R w - (X - 1) * Z) with ((B2R w - y * b) + (y * b - (X - 1) * Z)) by ring; eapply Rle_trans; [apply Rabs_triang|]; lra).
  (* the sum *)
  assert (SW : Rabs (b + B2R w - W) <= 63 / 10 * (k * W)) by (replace (b + B2R w - W) with ((b - Z) + (B2R w - (X - 1) * Z)) by (unfold W; ring); eapply Rle_trans; [apply Rabs_triang|]; lra).
  assert (SB : Rabs (b + B2R w) <= 11 / 10 * W) by (apply Rabs_le_inv in SW; apply Rabs_le; lra).
  destruct (fadd_rel q w Fq Fw) as [Fo Ho]; [fold b; lra|]. fold b o in Ho. fold o in Fo. assert (OU : u * Rabs (b + B2R w) <= u * (11 / 10 * W)) by (apply Rmult_le_compat_l; lra).
  split; [exact Fw|]. split; [replace (4 * k * W) with (4 * (k * W)) by ring; lra|]. split; [exact Fo|]. split.
  { replace (7 * k * W) with (7 * (k * W)) by ring. replace (B2R o - W) with ((B2R o - (b + B2R w)) + (b + B2R w - W)) by ring. eapply Rle_trans; [apply Rabs_triang|]. lra. }
  assert (Ey : y = rnd64 (c - 1)).
  { destruct (fsub_cases (fexp (fdiv f_one i)) f_one Fx one_finite) as [(_ & G & _)|(_ & G & _)]; [rewrite one_B2R in G; exact G|]. unfold x in Fx'. rewrite G in Fx'. discriminate. }
  split.
  - intros Mo. rewrite Ew, <- rnd64_0. apply rnd64_le. apply Rmult_le_pos; [|lra]. rewrite Ey, <- rnd64_0. apply rnd64_le.
    destruct T as (_ & Fi & _). destruct (var_entry i Fi) as [[Fv _] V0]. pose proof (Mo (B754_zero false) (fdiv f_one i)) as G. rewrite (eg_zero _ He) in G. assert (G' : dle done (fexp (fdiv f_one i))) by (apply G; apply dle_finite; [reflexivity|exact Fv|change (B2R (B754_zero false : dbl)) with 0; lra]).
    apply dle_finite in G'; [|reflexivity|exact Fx]. change (B2R done) with (B2R f_one) in G'. rewrite one_B2R in G'. fold c in G'. lra.
  - intros G. rewrite Ew, Ey. unfold c. rewrite G, one_B2R. replace (1 - 1) with 0 by ring. rewrite rnd64_0, Rmult_0_l. exact rnd64_0.
Qed.
End Entry.

(** ** arrays *)
Lemma bin_scalar_r op s a x : proper s a -> exists c, f_bin op a (nd_scalar x) = Ok c /\ proper s c /\ forall k, (k < nprod s)%nat -> entry c k = op (entry a k) x.
Proof.
  destruct a as [sa da]. unfold proper at 1. cbn [shape data]. intros [-> La]. exists (Nd s (map (fun k => op (nth k da fz) x) (seq 0 (nprod s)))). split; [|split; [apply proper_tab|intros k H; rewrite entry_tab by exact H; reflexivity]].
  unfold f_bin. pose proof (mk_nd_eta fz (Nd s da) La) as Ea. etransitivity; [exact (f_equal2 (np_bin fz fz op) Ea (nd_scalar_mk x))|]. cbn [shape]. rewrite np_bin_sr. unfold mk_nd, nd_at. cbn [shape data].
  f_equal. f_equal. exact (map_product s (fun k => op (nth k da fz) x)).
Qed.
Section Arrays.
Context (fexp fsq : dbl -> dbl) (He : exp_good fexp) (Hq : squares fsq).
Lemma lognormal_moments d s m i : f_member d "mean" = Ok m -> f_member d "info" = Ok i -> proper s m -> proper s i -> (forall k, (k < nprod s)%nat -> tame (entry m k) (entry i k)) ->
  exists e w o, fuvn_e_exp fexp d = Ok e /\ fuvn_var_exp fexp fsq d = Ok w /\ fuvn_e2_exp fexp fsq d = Ok o /\ proper s e /\ proper s w /\ proper s o /\
    forall k, (k < nprod s)%nat -> let mu := B2R (entry m k) in let v := 1 / B2R (entry i k) in let K := exp_units (entry m k) (entry i k) in
      within K (entry e k) (lognormal_mean mu v) /\ within (7 * K) (entry o k) (lognormal_second mu v) /\
      is_finite (entry w k) = true /\ Rabs (B2R (entry w k) - (lognormal_second mu v - lognormal_mean mu v ^ 2)) <= units (4 * K) * lognormal_second mu v /\
      (exp_monotone fexp -> 0 <= B2R (entry w k)) /\ (fexp (fdiv f_one (entry i k)) = f_one -> B2R (entry w k) = 0).
Proof using He Hq.
  intros Em Ei Pm Pi Tm. destruct (bin_scalar_l fdiv s f_one i Pi) as (v & Ev & Pv & Kv). assert (EV : fuvn_var d = Ok v) by (unfold fuvn_var; rewrite Ei; exact Ev).
  destruct (bin_scalar_l fmul s f_half v Pv) as (h & Eh & Ph & Kh). destruct (bin_same fadd s m h Pm Ph) as (a & Ea & Pa & Ka). destruct (map_entry fexp s a Pa) as [Pe Ke].
  assert (EE : f_e_lognormal fexp m v = Ok (nd_map fexp a)) by (unfold f_e_lognormal; rewrite Eh; cbn [rbind]; rewrite Ea; reflexivity).
  destruct (map_entry fexp s v Pv) as [Px Kx]. destruct (bin_scalar_r fsub s (nd_map fexp v) f_one Px) as (y & Ey & Py & Ky). destruct (map_entry fsq s (nd_map fexp a) Pe) as [Pq Kq]. destruct (bin_same fmul s y _ Py Pq) as (w & Ew & Pw & Kw).
  assert (EW : f_var_lognormal fexp fsq m v = Ok w) by (unfold f_var_lognormal; rewrite EE; cbn [rbind]; rewrite Ey; exact Ew).
  destruct (bin_same fadd s _ w Pq Pw) as (o & Eo & Po & Ko).
  assert (E1 : fuvn_e_exp fexp d = Ok (nd_map fexp a)) by (unfold fuvn_e_exp; rewrite Em; cbn [rbind]; rewrite EV; exact EE). assert (E2 : fuvn_var_exp fexp fsq d = Ok w) by (unfold fuvn_var_exp; rewrite Em; cbn [rbind]; rewrite EV; exact EW).
  exists (nd_map fexp a), w, o. split; [exact E1|]. split; [exact E2|]. split; [unfold fuvn_e2_exp; rewrite E1; cbn [rbind]; rewrite E2; exact Eo|]. split; [exact Pe|]. split; [exact Pw|]. split; [exact Po|].
  intros k Hk. cbv zeta. pose proof (e_entry fexp He _ _ (Tm k Hk)) as (Fe & _ & A). destruct (second_entry fexp fsq He Hq _ _ (Tm k Hk)) as (Fw & B & Fo & C & D & Z).
  destruct (squared_range _ _ (Tm k Hk)) as (_ & _ & _ & _ & Q). assert (Ie : entry (nd_map fexp a) k = fexp (fadd (entry m k) (fmul f_half (fdiv f_one (entry i k))))) by (rewrite Ke, Ka, Kh, Kv by exact Hk; reflexivity).
  assert (Iw : entry w k = fmul (fsub (fexp (fdiv f_one (entry i k))) f_one) (fsq (fexp (fadd (entry m k) (fmul f_half (fdiv f_one (entry i k))))))) by (rewrite Kw, Ky, Kx, Kv, Kq, Ie by exact Hk; reflexivity).
  rewrite Ko, Kq by exact Hk. rewrite Iw, Ie. unfold within, lognormal_mean, lognormal_second. rewrite !units_u. rewrite Q in B, C.
  split; [split; [exact Fe|exact A]|]. split; [split; [exact Fo|]|].
  { eapply Rle_trans; [exact C|]. right. ring. }
  split; [exact Fw|]. split; [|split; [exact D|exact Z]].
  replace (exp (2 * B2R (entry m k) + 2 * (1 / B2R (entry i k))) - exp (B2R (entry m k) + 1 / B2R (entry i k) / 2) ^ 2) with ((exp (1 / B2R (entry i k)) - 1) * (exp (B2R (entry m k) + 1 / B2R (entry i k) / 2) * exp (B2R (entry m k) + 1 / B2R (entry i k) / 2))) by (rewrite <- Q; ring).
  eapply Rle_trans; [exact B|]. right. ring.
Qed.
End Arrays.
(** correctly rounded exp of a tiny variance is 1 *)
Lemma ideal_exp_tiny i : fair_info i -> bpow radix2 55 <= B2R i -> ideal_exp (fdiv f_one i) = f_one.
Proof.
  intros Fi Hi. destruct (var_entry i Fi) as [[Fv _] V0]. assert (P : 0 < B2R i) by (pose proof (bpow_gt_0 radix2 55); lra).
  assert (V : B2R (fdiv f_one i) <= bpow radix2 (-55)).
  { destruct (fdiv_cases f_one i one_finite) as [(_ & E & _)|(_ & E)]; [lra| |rewrite E in Fv; discriminate]. rewrite E, one_B2R, <- (rnd64_bpow (-55)) by lia. apply rnd64_le. unfold Rdiv. rewrite Rmult_1_l. change (-55)%Z with (- (55))%Z. rewrite bpow_opp. apply Rinv_le; [apply bpow_gt_0|exact Hi]. }
  rewrite ideal_exp_finite by exact Fv. set (v := B2R (fdiv f_one i)) in *. change (bpow radix2 (-55)) with (/ 36028797018963968) in V.
  assert (X : 0 <= exp v - 1 <= bpow radix2 (-54)).
  { pose proof (exp_ineq1_le v). pose proof (exp_minus_one v v ltac:(lra)) as Y. rewrite (Rabs_pos_eq v) in Y by lra. specialize (Y (Rle_refl v)). apply Rabs_le_inv in Y. change (bpow radix2 (-54)) with (/ 18014398509481984). lra. }
  pose proof (rnd64_absorb_one _ X) as R. replace (exp v - 1 + 1) with (exp v) in R by ring.
  destruct (nearest_cases (exp v)) as [(_ & E & F & _)|(A & _)]; [|rewrite R, Rabs_pos_eq in A by lra; pose proof one_lt_1024; lra].
  apply B2R_eq_nonzero; [exact F|reflexivity| |]; rewrite one_B2R; [rewrite E; exact R|lra].
Qed.

(** ** symmetry *)
Lemma fadd_comm (x y : dbl) : fadd x y = fadd y x.
Proof.
  destruct x as [sx|sx| |sx mx ex bx], y as [sy|sy| |sy my ey by_]; try reflexivity; try (destruct sx, sy; reflexivity).
  unfold fadd, Bplus. rewrite (Z.min_comm ey ex). f_equal. apply Z.add_comm.
Qed.
Lemma mget_proper n m a i j : proper [n; m] a -> mget fz a i j = entry a (i * m + j).
Proof. destruct a as [sa da]. intros [Sa _]. cbn in Sa. subst sa. reflexivity. Qed.
Lemma proper_mat n m (f : nat -> nat -> dbl) : proper [n; m] (mk_mat n m f).
Proof. split; [reflexivity|]. pose proof (mk_mat_wf n m f) as W. unfold nd_wf in W. exact W. Qed.
Lemma block_bound n i j : (i < n)%nat -> (j < n)%nat -> (i * n + j < nprod [n; n])%nat.
Proof. intros Hi Hj. rewrite nprod_cons, nprod_1. nia. Qed.
Lemma double_half (x : dbl) : is_finite x = true -> Rabs (B2R x) <= bpow radix2 1000 -> is_finite (fmul f_half (fadd x x)) = true /\ B2R (fmul f_half (fadd x x)) = B2R x.
Proof.
  intros F B. assert (R : rnd64 (B2R x + B2R x) = B2R x + B2R x).
  { apply rnd64_format. replace (B2R x + B2R x) with (B2R x * bpow radix2 1) by (change (bpow radix2 1) with 2; ring). apply mult_bpow_pos_exact_FLT; [exact (generic_format_B2R 53 1024 x)|lia]. }
  assert (G : Rabs (B2R x + B2R x) <= bpow radix2 1001) by (replace (B2R x + B2R x) with (bpow radix2 1 * B2R x) by (change (bpow radix2 1) with 2; ring); rewrite Rabs_mult, Rabs_pos_eq by apply bpow_ge_0; change 1001%Z with (1 + 1000)%Z; rewrite bpow_plus; apply Rmult_le_compat_l; [apply bpow_ge_0|exact B]).
  pose proof (bpow_lt radix2 1001 1024 ltac:(lia)). destruct (fadd_cases x x F F) as [(_ & E & Fa & _)|(C & _)]; [|rewrite R in C; lra]. rewrite R in E.
  destruct (fmul_rel f_half (fadd x x) f_half_finite Fa) as (Fh & Eh & _); rewrite f_half_B2R, E in *; [replace (/ 2 * (B2R x + B2R x)) with (B2R x) by field; exact B|].
  replace (/ 2 * (B2R x + B2R x)) with (B2R x) in Eh by field. rewrite rnd64_id in Eh. split; assumption.
Qed.
Lemma mvn_outer_symmetric finv d n m i c : f_member d "mean" = Ok m -> f_member d "info" = Ok i -> proper [n] m -> finv i = Ok c -> proper [n; n] c ->
  exists o, fmvn_e_outer finv d = Ok o /\ proper [n; n] o /\ (forall r k, (r < n)%nat -> (k < n)%nat -> mget fz o r k = mget fz o k r) /\
    (forall r k, (r < n)%nat -> (k < n)%nat -> let x r k := fadd (fmul (entry m r) (entry m k)) (mget fz c r k) in mget fz o r k = fmul f_half (fadd (x r k) (x k r))) /\
    (forall r, (r < n)%nat -> let x := fadd (fmul (entry m r) (entry m r)) (mget fz c r r) in is_finite x = true -> Rabs (B2R x) <= bpow radix2 1000 -> is_finite (mget fz o r r) = true /\ B2R (mget fz o r r) = B2R x).
Proof.
  intros Em Ei [Sm Lm] Ec Pc. rewrite nprod_1 in Lm. assert (Lm' : @length dbl (@data dbl m) = n) by exact Lm. assert (Pu : proper [n; n] (f_outer m m)) by (unfold f_outer; rewrite Lm'; apply proper_mat).
  destruct (bin_same fadd _ _ c Pu Pc) as (o & Eo & Po & Ko). assert (So : @shape dbl o = [n; n]) by exact (proj1 Po). assert (Pt : proper [n; n] (f_transpose o)) by (unfold f_transpose; rewrite So; apply proper_mat).
  destruct (bin_same fadd _ _ _ Po Pt) as (s & Es & Ps & Ks). destruct (bin_scalar_l fmul _ f_half s Ps) as (q & Eq & Pq & Kq).
  exists q. split; [unfold fmvn_e_outer, fmvn_cov; rewrite Em; cbn [rbind]; rewrite Ei; cbn [rbind]; rewrite Ec; cbn [rbind]; rewrite Eo; cbn [rbind]; rewrite Es; exact Eq|]. split; [exact Pq|].
  assert (G : forall r k, (r < n)%nat -> (k < n)%nat -> mget fz q r k = fmul f_half (fadd (fadd (fmul (entry m r) (entry m k)) (mget fz c r k)) (fadd (fmul (entry m k) (entry m r)) (mget fz c k r)))).
  { assert (A : forall r k, (r < n)%nat -> (k < n)%nat -> mget fz o r k = fadd (fmul (entry m r) (entry m k)) (mget fz c r k)).
    { intros r k Hr Hk. rewrite (mget_proper n n) by exact Po. rewrite Ko by (apply block_bound; assumption). f_equal; [|symmetry; apply (mget_proper n n); exact Pc]. rewrite <- (mget_proper n n _ r k Pu). unfold f_outer. rewrite Lm'. etransitivity; [apply mget_mk_mat; assumption|reflexivity]. }
    intros r k Hr Hk. rewrite (mget_proper n n) by exact Pq. rewrite Kq, Ks by (apply block_bound; assumption). f_equal. rewrite <- !(mget_proper n n) by assumption. rewrite A by assumption. f_equal. rewrite <- A by assumption. unfold f_transpose. rewrite So. cbn [nth]. etransitivity; [apply mget_mk_mat; assumption|reflexivity]. }
  split; [|split].
  - intros r k Hr Hk. rewrite !G by assumption. f_equal. apply fadd_comm.
  - intros r k Hr Hk. exact (G r k Hr Hk).
  - intros r Hr x F B. rewrite G by assumption. apply double_half; assumption.
Qed.
