(** Proofs about positive definite matrix parameters in binary64: the first free value comes back, and the vector interface. *)
From Coq Require Import Reals ZArith List Lra Lia Psatz Bool.
From Flocq Require Import Core BinarySingleNaN.
From Verif Require Import Res Nd RSum SpecFloat SpecFloatSimplex SpecFloatAcc SpecFloatMatrix SpecMatrix ModelFloat ModelMatrix ModelFloatMatrix SpecFloatReach LemmasMatrix
  LemmasFloat LemmasFloat2 LemmasFloat3 LemmasFloat4 LemmasFloatSimplex LemmasFloatSimplex2 LemmasFloatAcc LemmasFloatMatrix LemmasFloatMatrix2 LemmasFloatMatrix3.
Import List ListNotations.
Set Bullet Behavior "Strict Subproofs".
Open Scope R_scope.

Lemma sqrt_close a e r : 0 < e -> 0 <= r <= / 2 -> Rabs (a - e * e) <= r * (e * e) -> Rabs (sqrt a - e) <= r * e.
Proof.
  intros P Hr H. apply Rabs_le_inv in H. assert (Q : 0 < e * e) by nra. assert (a0 : 0 <= a) by nra.
  apply Rabs_le. split.
  - assert (e * (1 - r) <= sqrt a); [|lra]. apply Rsqr_incr_0; [|nra|apply sqrt_pos]. rewrite Rsqr_sqrt by exact a0. unfold Rsqr. assert (e * (1 - r) * (e * (1 - r)) = (1 - 2 * r + r * r) * (e * e)) by ring. assert (r * r * (e * e) <= r * (e * e)) by (apply Rmult_le_compat_r; nra). lra.
  - assert (sqrt a <= e * (1 + r)); [|lra]. apply Rsqr_incr_0; [|apply sqrt_pos|nra]. rewrite Rsqr_sqrt by exact a0. unfold Rsqr. assert (e * (1 + r) * (e * (1 + r)) = (1 + 2 * r + r * r) * (e * e)) by ring. assert (0 <= r * r * (e * e)) by (apply Rmult_le_pos; nra). assert (0 <= r * (e * e)) by (apply Rmult_le_pos; lra). lra.
Qed.

Section First.
Context (fexp flog : dbl -> dbl) (He : exp_good fexp) (Hl : log_good flog) (fdot : nat -> nat -> list dbl -> list dbl -> dbl) (Hd : matmul_good fdot).
Context (fchol : nd dbl -> res (nd dbl)) (Hc : cholesky_good fchol) (n : nat) (Hn : INR n <= bpow radix2 20) (n0 : (0 < n)%nat).
Context (lb : dbl) (Hlb : bounded500 lb) (Hlb0 : 0 <= B2R lb) (x : list dbl) (Hx : calm_free n x).
Notation d := (B2R (at_ld dzero x 0 0)).
Notation E := (exp d).

Lemma first_sum (f : nat -> R) : (forall k, (0 < k)%nat -> f k = 0) -> rsum n f = f 0%nat.
Proof. intros H. apply rsum_single; [exact n0|]. intros i _ Hi. apply H. lia. Qed.
Lemma factor_00 : factor (reals x) 0 0 = E.
Proof. unfold factor. cbn. rewrite at_reals. reflexivity. Qed.
Lemma factor_0k k : (0 < k)%nat -> factor (reals x) 0 k = 0.
Proof. intros H. unfold factor. destruct k; [lia|reflexivity]. Qed.
Lemma size_00 : size_of (reals x) 0 0 = E + Rabs d.
Proof. unfold size_of. cbn. rewrite at_reals. reflexivity. Qed.
Lemma eps_bounds : 0 < eps n <= / 1000000 /\ 36 * u <= eps n.
Proof.
  unfold eps. rewrite units_u. small_u. assert (1 <= INR n) by (change 1 with (INR 1); apply le_INR; lia). assert (INR n <= 1048576) by exact Hn.
  split; [split|].
  - apply Rmult_lt_0_compat; lra.
  - apply Rle_trans with ((4 * 1048576 + 32) * / 9000000000000000); [|lra]. apply Rmult_le_compat; lra.
  - apply Rmult_le_compat_r; lra.
Qed.
(** the first entry of the stored matrix, lowered *)
Lemma first_lowered (g : dbl) : is_finite g = true -> Rabs (B2R g - exact_matrix n (B2R lb) (reals x) 0 0) <= matrix_error n (B2R lb) (reals x) 0 0 ->
  eps n * first_condition (B2R lb) d <= / 64 ->
  is_finite (fsub g lb) = true /\ Rabs (B2R (fsub g lb) - E * E) <= 33 / 10 * (eps n * first_condition (B2R lb) d) * (E * E).
Proof.
  intros Fg H K. destruct Hx as (_ & Hdg & _). destruct (Hdg 0%nat n0) as [Fd Bd]. pose proof (exp_calm_bounds _ Bd) as [EL EU]. pose proof (exp_pos d) as EP.
  destruct eps_bounds as [[p0 p1] p2]. set (p := eps n) in *. set (B := B2R lb) in *. small_u.
  unfold exact_matrix, matrix_error in H. cbn [Nat.eqb] in H. fold p in H.
  rewrite (first_sum (fun k => factor (reals x) 0 k * factor (reals x) 0 k)) in H by (intros k Hk; rewrite (factor_0k k Hk); ring).
  rewrite (first_sum (fun k => Rabs (factor (reals x) 0 k) * size_of (reals x) 0 k + size_of (reals x) 0 k * Rabs (factor (reals x) 0 k))) in H by (intros k Hk; rewrite (factor_0k k Hk), Rabs_R0; ring).
  rewrite (first_sum (fun k => size_of (reals x) 0 k * size_of (reals x) 0 k)) in H.
  2:{ intros k Hk. unfold size_of. destruct (Nat.eqb_spec k 0); [lia|]. rewrite (factor_0k k Hk), Rabs_R0. ring. }
  rewrite factor_00, size_00, (Rabs_pos_eq E) in H by lra. pose proof (Rabs_pos d) as v0. set (v := Rabs d) in *. set (k := first_condition B d) in *.
  assert (Kv : E + v <= k * E). { unfold k, first_condition. fold v. rewrite exp_Ropp. assert (0 <= B * exp (- (2 * d)) * E) by (apply Rmult_le_pos; [apply Rmult_le_pos; [exact Hlb0|left; apply exp_pos]|lra]). replace ((1 + v * / E + B * exp (- (2 * d))) * E) with (E + v + B * exp (- (2 * d)) * E) by (field; lra). lra. }
  assert (E2 : E * E = exp (2 * d)) by (rewrite <- exp_plus; f_equal; ring).
  assert (KB : E * E + B <= k * (E * E)). { unfold k, first_condition. fold v. rewrite exp_Ropp, exp_Ropp, <- E2. replace ((1 + v * / E + B * / (E * E)) * (E * E)) with (E * E + B + v * E) by (field; lra). assert (0 <= v * E) by nra. lra. }
  assert (k1 : 1 <= k). { apply Rmult_le_reg_r with E; [exact EP|]. lra. }
  set (Q := E * E) in *. assert (Q0 : 0 < Q) by (unfold Q; nra). set (P := p * k) in *. assert (P0 : 0 < P) by (unfold P; nra). assert (Pp : p <= P) by (unfold P; nra).
  assert (T1 : p * (E * (E + v) + (E + v) * E + B) <= 3 * P * Q).
  { assert (E * (E + v) <= E * (k * E)) by (apply Rmult_le_compat_l; lra). replace (3 * P * Q) with (p * (3 * (k * Q))) by (unfold P; ring). apply Rmult_le_compat_l; [lra|]. unfold Q in *. lra. }
  assert (T2 : p * p * ((E + v) * (E + v)) <= / 64 * P * Q).
  { assert ((E + v) * (E + v) <= (k * E) * (k * E)) by (apply Rmult_le_compat; lra). apply Rle_trans with (p * p * (k * E * (k * E))); [apply Rmult_le_compat_l; nra|].
    replace (p * p * (k * E * (k * E))) with (P * (P * Q)) by (unfold P, Q; ring). replace (/ 64 * P * Q) with (/ 64 * (P * Q)) by ring. apply Rmult_le_compat_r; [nra|exact K]. }
  assert (T3 : bpow radix2 (-1040) <= / 36 * P * Q).
  { assert (bpow radix2 (-952) <= Q). { unfold Q. replace (bpow radix2 (-952)) with (bpow radix2 (-476) * bpow radix2 (-476)) by (rewrite <- bpow_plus; reflexivity). pose proof (bpow_ge_0 radix2 (-476)). apply Rmult_le_compat; lra. }
    apply Rle_trans with (u * Q).
    - apply Rle_trans with (u * bpow radix2 (-952)); [unfold u; rewrite <- bpow_plus; apply bpow_le; lia|]. apply Rmult_le_compat_l; lra.
    - apply Rmult_le_compat_r; lra. }
  set (t0 := bpow radix2 (-1040)) in *.
  assert (G : Rabs (B2R g - B - Q) <= 305 / 100 * P * Q). { replace (B2R g - B - Q) with (B2R g - (Q + B)) by ring. eapply Rle_trans; [exact H|]. assert (0 < P * Q) by nra. lra. }
  assert (PQ : P * Q <= / 64 * Q) by (apply Rmult_le_compat_r; lra).
  assert (QU : Q <= bpow radix2 952). { unfold Q. replace (bpow radix2 952) with (bpow radix2 476 * bpow radix2 476) by (rewrite <- bpow_plus; reflexivity). apply Rmult_le_compat; lra. }
  assert (G2 : Rabs (B2R g - B) <= 2 * Q). { replace (B2R g - B) with (Q + (B2R g - B - Q)) by ring. eapply Rle_trans; [apply Rabs_triang|]. rewrite (Rabs_pos_eq Q) by lra. lra. }
  destruct (fsub_rel g lb Fg (proj1 Hlb)) as [Fs Es]. { fold B. eapply Rle_trans; [exact G2|]. apply Rle_trans with (bpow radix2 1 * bpow radix2 952); [change (bpow radix2 1) with 2; lra|]. rewrite <- bpow_plus. apply bpow_le. lia. }
  split; [exact Fs|]. fold B in Es. replace (B2R (fsub g lb) - Q) with ((B2R (fsub g lb) - (B2R g - B)) + (B2R g - B - Q)) by ring. eapply Rle_trans; [apply Rabs_triang|].
  apply Rmult_le_compat_l with (r := u) in G2; [|lra]. assert (u * (2 * Q) <= / 18 * P * Q). { replace (u * (2 * Q)) with (2 * u * Q) by ring. apply Rmult_le_compat_r; lra. } assert (0 < P * Q) by nra. lra.
Qed.
Lemma first_back_gen p p' w : reachable fexp fdot n lb p -> fposdef_set_free fexp fdot p x = Ok p' -> eps n * first_condition (B2R lb) d <= / 64 ->
  fposdef_get_free flog fchol p' = Ok w -> exists c : dbl, is_finite c = true /\ 94 / 100 * E <= B2R c <= 2 * E /\ Rabs (ln (B2R c) - d) <= 75 / 10 * (eps n * first_condition (B2R lb) d) /\
    is_finite (at_ld dzero w 0 0) = true /\ Rabs (B2R (at_ld dzero w 0 0) - ln (B2R c)) <= units 12 * (1 + Rabs (ln (B2R c)) + B2R c) /\
    (bpow radix2 64 <= B2R c -> exists s, at_ld dzero w 0 0 = B754_zero s).
Proof.
  intros R HS K HG. assert (R' : reachable fexp fdot n lb p') by exact (r_set_free _ _ _ _ _ _ _ R HS).
  destruct (set_free_accurate fexp He fdot Hd n x Hx lb Hlb Hlb0 Hn p R) as (p2 & H2 & _ & A). rewrite HS in H2. injection H2 as <-. destruct (A 0%nat 0%nat n0 n0) as (_ & Fg & Eg).
  destruct (first_lowered _ Fg Eg K) as [Fa Ea]. set (a := fsub (mget dzero (fposdef_get p') 0 0) lb) in *.
  destruct (get_free_entries fexp flog Hl fdot fchol Hc n lb p' w R' HG) as (c & Q & _ & W). destruct (W 0%nat n0) as (_ & W1 & W2).
  assert (Ma : mget dzero (lowered n lb (fposdef_get p')) 0 0 = a). { unfold lowered. rewrite mget_mk_mat by assumption. reflexivity. }
  destruct (ch_first _ Hc n (lowered n lb (fposdef_get p')) c eq_refl n0 Q) as [Fc Ec]. { rewrite Ma. exact Fa. } rewrite Ma in Ec.
  set (P := eps n * first_condition (B2R lb) d) in *. destruct eps_bounds as [[p0 p1] p2]. small_u.
  assert (k1 : 1 <= first_condition (B2R lb) d). { unfold first_condition. assert (0 <= Rabs d * exp (- d)) by (apply Rmult_le_pos; [apply Rabs_pos|left; apply exp_pos]). assert (0 <= B2R lb * exp (- (2 * d))) by (apply Rmult_le_pos; [exact Hlb0|left; apply exp_pos]). lra. }
  assert (Pp : eps n <= P) by (unfold P; nra). pose proof (exp_pos d) as EP.
  assert (S : Rabs (sqrt (B2R a) - E) <= 33 / 10 * P * E) by (apply sqrt_close; [exact EP|lra|exact Ea]).
  assert (Sq : sqrt (B2R a) <= 2 * E). { apply Rabs_le_inv in S. assert (33 / 10 * P * E <= 1 * E) by (apply Rmult_le_compat_r; lra). lra. }
  rewrite units_u in Ec. apply Rmult_le_compat_l with (r := 8 * u) in Sq; [|lra].
  assert (uE : 8 * u * (2 * E) <= 45 / 100 * P * E). { replace (8 * u * (2 * E)) with (16 * u * E) by ring. apply Rmult_le_compat_r; lra. }
  assert (C : Rabs (B2R (mget dzero c 0 0) - E) <= 375 / 100 * P * E).
  { replace (B2R (mget dzero c 0 0) - E) with ((B2R (mget dzero c 0 0) - sqrt (B2R a)) + (sqrt (B2R a) - E)) by ring. eapply Rle_trans; [apply Rabs_triang|]. lra. }
  exists (mget dzero c 0 0). split; [exact Fc|].
  assert (PE : P * E <= / 64 * E) by (apply Rmult_le_compat_r; lra).
  assert (Cb : 94 / 100 * E <= B2R (mget dzero c 0 0) <= 2 * E) by (apply Rabs_le_inv in C; lra). split; [exact Cb|].
  destruct (ln_ratio (B2R (mget dzero c 0 0)) E (375 / 100 * P) EP ltac:(lra) C) as [_ LR]. rewrite ln_exp in LR. split; [lra|].
  assert (U9 : B2R (mget dzero c 0 0) <= bpow radix2 900).
  { destruct Hx as (_ & Hdg & _). destruct (Hdg 0%nat n0) as [_ Bd]. pose proof (exp_calm_bounds _ Bd) as [_ EU]. apply Rle_trans with (bpow radix2 1 * bpow radix2 476); [change (bpow radix2 1) with 2; lra|]. rewrite <- bpow_plus. apply bpow_le. lia. }
  destruct (W1 Fc U9) as [F1 F2]. split; [exact F1|]. split; [exact F2|]. intros B64. exact (W2 Fc B64).
Qed.
Lemma first_back p p' w : reachable fexp fdot n lb p -> fposdef_set_free fexp fdot p x = Ok p' -> eps n * first_condition (B2R lb) d <= / 64 ->
  fposdef_get_free flog fchol p' = Ok w -> is_finite (at_ld dzero w 0 0) = true /\ Rabs (B2R (at_ld dzero w 0 0) - d) <= first_error n (B2R lb) d.
Proof.
  intros R HS K HG. destruct (first_back_gen p p' w R HS K HG) as (c & Fc & Cb & L & Fw & Ew & _). split; [exact Fw|]. unfold first_error.
  set (P := eps n * first_condition (B2R lb) d) in *. replace (8 * eps n * first_condition (B2R lb) d) with (8 * P) by (unfold P; ring). rewrite units_u in *.
  replace (B2R (at_ld dzero w 0 0) - d) with ((B2R (at_ld dzero w 0 0) - ln (B2R c)) + (ln (B2R c) - d)) by ring. eapply Rle_trans; [apply Rabs_triang|].
  assert (Ln : Rabs (ln (B2R c)) <= 1 + Rabs d). { replace (ln (B2R c)) with ((ln (B2R c) - d) + d) by ring. eapply Rle_trans; [apply Rabs_triang|]. lra. }
  small_u. pose proof (Rabs_pos d). pose proof (exp_pos d).
  assert (12 * u * (1 + Rabs (ln (B2R c)) + B2R c) <= 12 * u * (2 + Rabs d + 2 * E)) by (apply Rmult_le_compat_l; lra).
  assert (0 <= u * Rabs d) by nra. assert (0 <= u * E) by nra. assert (0 <= P) by (pose proof (Rabs_pos (ln (B2R c) - d)); lra). lra.
Qed.
Lemma first_high_lost p p' w : reachable fexp fdot n lb p -> fposdef_set_free fexp fdot p x = Ok p' -> 45 <= d -> B2R lb <= exp (2 * d) ->
  fposdef_get_free flog fchol p' = Ok w -> exists s, at_ld dzero w 0 0 = B754_zero s.
Proof.
  intros R HS D B HG. assert (K : eps n * first_condition (B2R lb) d <= / 64).
  { destruct eps_bounds as [[p0 p1] p2]. apply Rle_trans with (/ 1000000 * 3); [|lra]. apply Rmult_le_compat; [lra| |exact p1|].
    - unfold first_condition. assert (0 <= Rabs d * exp (- d)) by (apply Rmult_le_pos; [apply Rabs_pos|left; apply exp_pos]). assert (0 <= B2R lb * exp (- (2 * d))) by (apply Rmult_le_pos; [exact Hlb0|left; apply exp_pos]). lra.
    - unfold first_condition. assert (Rabs d * exp (- d) <= 1). { rewrite Rabs_pos_eq, exp_Ropp by lra. apply Rmult_le_reg_r with E; [apply exp_pos|]. rewrite Rmult_assoc, Rinv_l, Rmult_1_r by (apply Rgt_not_eq, exp_pos). pose proof (exp_ineq1_le d). lra. }
      assert (B2R lb * exp (- (2 * d)) <= 1). { rewrite exp_Ropp. apply Rmult_le_reg_r with (exp (2 * d)); [apply exp_pos|]. rewrite Rmult_assoc, Rinv_l, Rmult_1_r by (apply Rgt_not_eq, exp_pos). lra. } lra. }
  destruct (first_back_gen p p' w R HS K HG) as (c & Fc & Cb & _ & _ & _ & Z). apply Z. pose proof exp_45. pose proof (exp_le' _ _ D). change (bpow radix2 64) with 18446744073709551616. lra.
Qed.
End First.

(** a 1 by 1 matrix: the free value always comes back *)
Lemma one_back (fexp flog : dbl -> dbl) (He : exp_good fexp) (Hl : log_good flog) fdot (Hd : matmul_good fdot) fchol (Hc : cholesky_good fchol) lb (Hlb : bounded500 lb) (Hlb0 : 0 <= B2R lb) p (x : dbl) :
  reachable fexp fdot 1 lb p -> calm x -> eps 1 * first_condition (B2R lb) (B2R x) <= / 64 ->
  exists p' w, fposdef_set_free fexp fdot p [x] = Ok p' /\ fposdef_get_free flog fchol p' = Ok [w] /\ is_finite w = true /\ Rabs (B2R w - B2R x) <= first_error 1 (B2R lb) (B2R x).
Proof.
  intros R C K. assert (Cx : calm_free 1 [x]). { split; [reflexivity|]. split; [intros i Hi; replace i with 0%nat by lia; exact C|intros i j Hi Hj; lia]. }
  assert (N1 : INR 1 <= bpow radix2 20) by (change (INR 1) with (bpow radix2 0); apply bpow_le; lia).
  destruct (set_free_accurate fexp He fdot Hd 1 [x] Cx lb Hlb Hlb0 N1 p R) as (p' & HS & _ & A). destruct (A 0%nat 0%nat ltac:(lia) ltac:(lia)) as (_ & Fg & Eg).
  assert (R' : reachable fexp fdot 1 lb p') by exact (r_set_free _ _ _ _ _ _ _ R HS).
  destruct (first_lowered 1 N1 ltac:(lia) lb Hlb Hlb0 [x] Cx _ Fg Eg K) as [Fa Ea].
  assert (Ma : mget dzero (lowered 1 lb (fposdef_get p')) 0 0 = fsub (mget dzero (fposdef_get p') 0 0) lb). { unfold lowered. rewrite mget_mk_mat by lia. reflexivity. }
  destruct (ch_one _ Hc (lowered 1 lb (fposdef_get p')) eq_refl) as [c Q].
  { rewrite Ma. exact Fa. }
  { rewrite Ma. change (at_ld dzero [x] 0 0) with x in Ea. pose proof (exp_pos (B2R x)). set (X := exp (B2R x)) in *. apply Rabs_le_inv in Ea. assert (0 < X * X) by nra.
    assert (33 / 10 * (eps 1 * first_condition (B2R lb) (B2R x)) * (X * X) <= / 2 * (X * X)) by (apply Rmult_le_compat_r; lra). lra. }
  pose proof (get_free_unfold fexp flog fdot fchol Hc 1 lb p' R') as G. rewrite Q in G. cbn [tril_list flat_map map seq app] in G.
  eexists p', _. split; [exact HS|]. split; [exact G|].
  exact (first_back fexp flog He Hl fdot Hd fchol Hc 1 N1 ltac:(lia) lb Hlb Hlb0 [x] Cx p p' _ R HS K G).
Qed.
