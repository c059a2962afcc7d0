(** get_e_fun_normal with any integrand, and get_e_logitnormal, in binary64. *)
From Coq Require Import Reals ZArith List Lra Lia Bool Permutation.
From Flocq Require Import Core BinarySingleNaN Relative.
From Verif Require Import Res Nd RSum ModelNumpy SpecFloat SpecFloatSimplex SpecFloatAcc SpecFloatMatrix SpecFloatFam SpecFloatLogit SpecFloatQuad ModelFloat ModelFloatFamilies ModelFloatLogit
  LemmasPosDef LemmasNumpy LemmasFloat LemmasFloat2 LemmasFloat3 LemmasFloat4 LemmasFloatDefault LemmasFloatSimplex LemmasFloatSimplex2 LemmasFloatSimplex4 LemmasFloatAcc LemmasFloatAcc2 LemmasFloatFam LemmasFloatFam6 LemmasFloatFam7 LemmasFloatEntropy LemmasFloatLogit LemmasFloatQuad LemmasFloatEntropy2.
Import List ListNotations.
Set Bullet Behavior "Strict Subproofs".
Open Scope R_scope.

Section Generic.
Context (fn : dbl -> dbl) (g : R -> R) (Hg : integrand fn g).
Lemma fun_term (x w mu L : dbl) : fair_node x -> fair_weight w -> fair_center mu -> fair_scale L ->
  let S := 1 + Rabs (sqrt 2 * B2R x / sqrt (B2R L)) + Rabs (B2R mu) in let t := fmul (fmul f_kappa w) (fn (f_point x mu L)) in
  is_finite t = true /\ 0 <= B2R w * S /\ Rabs (B2R t) <= bpow radix2 501 /\ Rabs (B2R t) <= B2R w * S + tiny /\ Rabs (B2R t - kappa * (B2R w * g (point (B2R x) (B2R mu) (B2R L)))) <= 100 * (u * (B2R w * S)) + tiny /\
  (0 <= B2R (fn (f_point x mu L)) -> 0 <= B2R t) /\ (0 <= B2R (fn (f_point x mu L)) <= 1 -> B2R t <= (1 + 7 * u) * (kappa * B2R w) + tiny).
Proof using Hg.
  intros Hx [Fw [W0 W1]] Hm HL S t. destruct (point_close x mu L Hx Hm HL) as (Fp & BA & Cp). cbv zeta in BA, Cp. destruct Hm as [_ Bm]. set (A := Rabs (sqrt 2 * B2R x / sqrt (B2R L))) in *. set (m := Rabs (B2R mu)) in *. set (P := f_point x mu L) in *. set (T := point (B2R x) (B2R mu) (B2R L)) in *.
  small_u. assert (A0 : 0 <= A) by apply Rabs_pos. assert (m0 : 0 <= m) by apply Rabs_pos. assert (S1 : 1 <= S) by (unfold S; lra). set (d := bpow radix2 (-1074)). assert (d0 : 0 < d) by apply bpow_gt_0.
  assert (SB : S <= bpow radix2 392). { replace (bpow radix2 392) with (4 * bpow radix2 390) by (change 4 with (bpow radix2 2); rewrite <- bpow_plus; reflexivity). assert (bpow radix2 302 <= bpow radix2 390) by (apply bpow_le; lia). assert (1 <= bpow radix2 390) by (change 1 with (bpow radix2 0); apply bpow_le; lia). unfold S. lra. }
  assert (T850 : bpow radix2 (-850) <= / 1000 * u) by (apply Rle_trans with (bpow radix2 (-10) * u); [unfold u; rewrite <- bpow_plus; apply bpow_le; lia|change (bpow radix2 (-10)) with (/ 1024); lra]).
  assert (uS : u * 1 <= u * S) by (apply Rmult_le_compat_l; lra). assert (uS2 : u * S <= / 1000 * S) by (apply Rmult_le_compat_r; lra).
  assert (Cp' : Rabs (B2R P - T) <= 9 * (u * S)). { eapply Rle_trans; [exact Cp|]. assert (u * (A + m) <= u * S) by (apply Rmult_le_compat_l; unfold S; lra). lra. }
  assert (TS : Rabs T <= S). { unfold T, point. eapply Rle_trans; [apply Rabs_triang|]. fold A m. unfold S. lra. }
  assert (LT : Rabs (g T) <= S). { pose proof (proj1 (proj2 Hg) T) as Q. assert (Rabs T <= A + m) by (unfold T, point; eapply Rle_trans; [apply Rabs_triang|]; fold A m; lra). unfold S. lra. }
  destruct (proj2 (proj2 Hg) P Fp) as (Fv & Cv). rewrite units_u in Cv. set (v := fn P) in *. pose proof (proj1 Hg (B2R P) T) as Lip.
  assert (LP : Rabs (g (B2R P)) <= 101 / 100 * S). { replace (g (B2R P)) with ((g (B2R P) - g T) + g T) by ring. eapply Rle_trans; [apply Rabs_triang|]. lra. }
  assert (Cv' : Rabs (B2R v - g T) <= 140 * (u * S)).
  { replace (B2R v - g T) with ((B2R v - g (B2R P)) + (g (B2R P) - g T)) by ring. eapply Rle_trans; [apply Rabs_triang|]. assert (64 * u * (1 + Rabs (g (B2R P))) <= 64 * u * (1 + 101 / 100 * S)) by (apply Rmult_le_compat_l; lra). lra. }
  assert (VB : Rabs (B2R v) <= 102 / 100 * S). { replace (B2R v) with ((B2R v - g T) + g T) by ring. eapply Rle_trans; [apply Rabs_triang|]. assert (u * S <= / 100000 * S) by (apply Rmult_le_compat_r; lra). lra. }
  destruct kappa_close as [Fk Ck]. pose proof kappa_bounds as Kb. set (k := B2R f_kappa) in *. assert (uk : u * kappa <= u * (6 / 10)) by (apply Rmult_le_compat_l; lra). assert (kb : 0 <= k <= 61 / 100) by (apply Rabs_le_inv in Ck; lra).
  set (W := B2R w) in *. assert (uW : 0 <= u * W) by (apply Rmult_le_pos; lra). assert (uW2 : u * W <= / 100000 * W) by (apply Rmult_le_compat_r; lra). assert (kW : 0 <= k * W <= 61 / 100 * W) by (split; [apply Rmult_le_pos|apply Rmult_le_compat_r]; lra).
  assert (B100 : bpow radix2 100 <= bpow radix2 1000) by (apply bpow_le; lia).
  destruct (fmul_rel f_kappa w Fk Fw) as (Fa & Ea & Ca); [fold k W; rewrite Rabs_pos_eq by lra; lra|]. fold k W in Ea, Ca. fold d in Ca. rewrite (Rabs_pos_eq (k * W)) in Ca by lra. set (a := fmul f_kappa w) in *.
  assert (a0 : 0 <= B2R a) by (rewrite Ea, <- rnd64_0; apply rnd64_le; lra).
  assert (ukW : u * (k * W) <= u * (61 / 100 * W)) by (apply Rmult_le_compat_l; lra).
  assert (Ca' : Rabs (B2R a - kappa * W) <= 32 / 10 * (u * W) + d).
  { replace (B2R a - kappa * W) with ((B2R a - k * W) + (k - kappa) * W) by ring. eapply Rle_trans; [apply Rabs_triang|]. rewrite (Rabs_mult (k - kappa)), (Rabs_pos_eq W) by lra. assert (Rabs (k - kappa) * W <= 4 * u * (6 / 10) * W) by (apply Rmult_le_compat_r; lra). lra. }
  assert (a1 : B2R a <= 62 / 100 * W + d) by (apply Rabs_le_inv in Ca; lra).
  set (Z := W * S) in *. assert (Z0 : 0 <= Z) by (apply Rmult_le_pos; lra). assert (ZB : Z <= bpow radix2 492) by (replace (bpow radix2 492) with (bpow radix2 100 * bpow radix2 392) by (rewrite <- bpow_plus; reflexivity); apply Rmult_le_compat; lra).
  set (e := d * S). assert (e0 : 0 < e) by (apply Rmult_lt_0_compat; lra). assert (eB : e <= bpow radix2 (-682)) by (replace (bpow radix2 (-682)) with (d * bpow radix2 392) by (unfold d; rewrite <- bpow_plus; reflexivity); apply Rmult_le_compat_l; lra). assert (de : d * 1 <= e) by (apply Rmult_le_compat_l; lra).
  assert (eT : 8 * e <= tiny) by (apply Rle_trans with (8 * bpow radix2 (-682)); [lra|]; replace (8 * bpow radix2 (-682)) with (bpow radix2 (-679)) by (change 8 with (bpow radix2 3); rewrite <- bpow_plus; reflexivity); apply bpow_le; lia).
  assert (av : Rabs (B2R a * B2R v) <= 64 / 100 * Z + 102 / 100 * e).
  { rewrite Rabs_mult, (Rabs_pos_eq (B2R a)) by lra. apply Rle_trans with ((62 / 100 * W + d) * (102 / 100 * S)); [apply Rmult_le_compat; [lra|apply Rabs_pos|lra|lra]|]. replace ((62 / 100 * W + d) * (102 / 100 * S)) with (62 * 102 / 10000 * Z + 102 / 100 * e) by (unfold Z, e; field). lra. }
  assert (B492 : 4 * bpow radix2 492 <= bpow radix2 501) by (replace (4 * bpow radix2 492) with (bpow radix2 494) by (change 4 with (bpow radix2 2); rewrite <- bpow_plus; reflexivity); apply bpow_le; lia). assert (B501 : bpow radix2 501 <= bpow radix2 1000) by (apply bpow_le; lia). assert (e492 : bpow radix2 (-682) <= bpow radix2 492) by (apply bpow_le; lia).
  destruct (fmul_rel a v Fa Fv) as (Ft & Et & Ct); [lra|]. fold d in Ct. fold t in Ft, Et, Ct.
  assert (uav : u * Rabs (B2R a * B2R v) <= u * (64 / 100 * Z + 102 / 100 * e)) by (apply Rmult_le_compat_l; lra). assert (uZ : 0 <= u * Z) by (apply Rmult_le_pos; lra). assert (uZ2 : u * Z <= / 1000 * Z) by (apply Rmult_le_compat_r; lra). assert (ue : u * e <= / 1000 * e) by (apply Rmult_le_compat_r; lra).
  assert (tb : Rabs (B2R t) <= 65 / 100 * Z + 3 * e). { replace (B2R t) with ((B2R t - B2R a * B2R v) + B2R a * B2R v) by ring. eapply Rle_trans; [apply Rabs_triang|]. lra. }
  split; [exact Ft|]. split; [exact Z0|]. split; [lra|]. split; [lra|]. split; [|split].
  2: { intros V. rewrite Et, <- rnd64_0. apply rnd64_le. apply Rmult_le_pos; lra. }
  2: { intros V. assert (ta : B2R t <= B2R a) by (rewrite Et; apply Rle_trans with (rnd64 (B2R a)); [apply rnd64_le; rewrite <- (Rmult_1_r (B2R a)) at 2; apply Rmult_le_compat_l; lra|right; apply rnd64_id]).
    assert (uWk : u * W <= 2 * (u * (kappa * W))). { replace (2 * (u * (kappa * W))) with (u * W * (2 * kappa)) by ring. rewrite <- (Rmult_1_r (u * W)) at 1. apply Rmult_le_compat_l; lra. } apply Rabs_le_inv in Ca'. lra. }
  replace (B2R t - kappa * (W * g T)) with ((B2R t - B2R a * B2R v) + ((B2R a - kappa * W) * B2R v + kappa * W * (B2R v - g T))) by ring.
  eapply Rle_trans; [apply Rabs_triang|]. pose proof (Rabs_triang ((B2R a - kappa * W) * B2R v) (kappa * W * (B2R v - g T))) as Tr. rewrite !Rabs_mult, (Rabs_pos_eq kappa), (Rabs_pos_eq W) in Tr by lra.
  assert (G1 : Rabs (B2R a - kappa * W) * Rabs (B2R v) <= (32 / 10 * (u * W) + d) * (102 / 100 * S)) by (apply Rmult_le_compat; [apply Rabs_pos|apply Rabs_pos|exact Ca'|exact VB]).
  replace ((32 / 10 * (u * W) + d) * (102 / 100 * S)) with (32 * 102 / 1000 * (u * Z) + 102 / 100 * e) in G1 by (unfold Z, e; field).
  assert (G2 : kappa * W * Rabs (B2R v - g T) <= 6 / 10 * W * (140 * (u * S))) by (apply Rmult_le_compat; [apply Rmult_le_pos; lra|apply Rabs_pos|apply Rmult_le_compat_r; lra|exact Cv']).
  replace (6 / 10 * W * (140 * (u * S))) with (84 * (u * Z)) in G2 by (unfold Z; field). lra.
Qed.
Context (fsum : list dbl -> dbl) (Hs : sums fsum).
Lemma fun_sum n (x w : nat -> dbl) (mu L : dbl) : INR n <= bpow radix2 20 -> (forall j, (j < n)%nat -> fair_node (x j) /\ fair_weight (w j)) -> fair_center mu -> fair_scale L ->
  let e := fsum (map (fun j => fmul (fmul f_kappa (w j)) (fn (f_point (x j) mu L))) (seq 0 n)) in let X j := B2R (x j) in let W j := B2R (w j) in
  is_finite e = true /\ Rabs (B2R e - quadrature n X W g (B2R mu) (B2R L)) <= units (100 + 2 * INR n) * spread n X W (B2R mu) (B2R L) + INR n * bpow radix2 (-600) /\
  ((forall y, is_finite y = true -> 0 <= B2R (fn y)) -> 0 <= B2R e) /\
  ((forall y, is_finite y = true -> 0 <= B2R (fn y) <= 1) -> B2R e <= (1 + units (8 + 3 * INR n)) * (rsum n W / sqrt PI) + INR n * bpow radix2 (-600)).
Proof using Hg Hs.
  intros Hn Hp Hm HL e X W. set (t := fun j => fmul (fmul f_kappa (w j)) (fn (f_point (x j) mu L))) in *. set (y := fun j => f_point (x j) mu L).
  set (z := fun j => W j * (1 + Rabs (sqrt 2 * X j / sqrt (B2R L)) + Rabs (B2R mu))). set (q := fun j => W j * g (point (X j) (B2R mu) (B2R L))).
  assert (Ht : forall j, (j < n)%nat -> is_finite (t j) = true /\ 0 <= z j /\ Rabs (B2R (t j)) <= bpow radix2 501 /\ Rabs (B2R (t j)) <= z j + tiny /\ Rabs (B2R (t j) - kappa * q j) <= 100 * (u * z j) + tiny /\
    (0 <= B2R (fn (y j)) -> 0 <= B2R (t j)) /\ (0 <= B2R (fn (y j)) <= 1 -> B2R (t j) <= (1 + 7 * u) * (kappa * W j) + tiny)) by (intros j Hj; destruct (Hp j Hj) as [Hx Hw]; exact (fun_term (x j) (w j) mu L Hx Hw Hm HL)).
  assert (Fy : forall j, (j < n)%nat -> is_finite (y j) = true) by (intros j Hj; destruct (Hp j Hj) as [Hx Hw]; exact (proj1 (point_close (x j) mu L Hx Hm HL))).
  assert (W0 : forall j, (j < n)%nat -> 0 <= W j) by (intros j Hj; destruct (Hp j Hj) as [_ [_ [Hw _]]]; exact Hw).
  set (l := map t (seq 0 n)) in *. assert (Md : List.Forall modest l).
  { apply Forall_forall. intros a Ha. unfold l in Ha. apply in_map_iff in Ha. destruct Ha as (j & <- & Hj). apply in_seq in Hj. destruct (Ht j ltac:(lia)) as (F & _ & B & _). split; assumption. }
  assert (Ln : length l = n) by (unfold l; rewrite map_length; apply seq_length).
  destruct (sum_accuracy_signed l (fsum l) (Hs l) Md) as [Fs A]; [exact (eq_rect_r (fun k => INR k <= bpow radix2 20) Hn Ln)|].
  assert (E1 : lsum (reals l) = rsum n (fun k => B2R (t k))) by (unfold reals, LemmasFloatSimplex2.reals, l; rewrite map_map; apply lsum_seq). assert (E2 : lsum (sizes l) = rsum n (fun k => Rabs (B2R (t k)))) by (unfold sizes, l; rewrite map_map; apply lsum_seq).
  assert (A' : Rabs (B2R (fsum l) - rsum n (fun k => B2R (t k))) <= ((1 + u) ^ n - 1) * rsum n (fun k => Rabs (B2R (t k)))) by (apply (eq_rect (length l) (fun k => Rabs (B2R (fsum l) - rsum n (fun k => B2R (t k))) <= ((1 + u) ^ k - 1) * rsum n (fun k => Rabs (B2R (t k)))) ); [rewrite <- E1, <- E2; exact A|exact Ln]). clear A.
  fold e in A', Fs. pose proof (pow_u_le n Hn) as Pu. pose proof (pow_u_pos n) as Pu1. small_u. pose proof (pos_INR n) as N0. set (N := INR n) in *. set (h := (1 + u) ^ n - 1) in *.
  set (T := rsum n (fun k => Rabs (B2R (t k)))) in *. set (V := rsum n (fun k => B2R (t k))) in *.
  assert (Z : spread n X W (B2R mu) (B2R L) = rsum n z) by reflexivity. assert (Q : quadrature n X W g (B2R mu) (B2R L) = kappa * rsum n q) by (unfold quadrature, kappa, Rdiv; rewrite Rmult_comm; reflexivity). rewrite Z, Q. set (ZZ := rsum n z) in *.
  assert (tiny0 : 0 < tiny) by apply bpow_gt_0. assert (Z0 : 0 <= ZZ) by (apply rsum_nonneg; intros j Hj; apply (Ht j Hj)). assert (T0 : 0 <= T) by (apply rsum_nonneg; intros; apply Rabs_pos).
  assert (T1 : T <= ZZ + N * tiny). { unfold T, ZZ, N. rewrite <- rsum_const, <- rsum_plus. apply rsum_le. intros j Hj. destruct (Ht j Hj) as (_ & _ & _ & B & _). exact B. }
  assert (D : Rabs (V - kappa * rsum n q) <= 100 * (u * ZZ) + N * tiny).
  { replace (V - kappa * rsum n q) with (rsum n (fun j => B2R (t j) - kappa * q j)) by (rewrite rsum_minus, rsum_scal_l; reflexivity).
    eapply Rle_trans; [apply rsum_Rabs|]. eapply Rle_trans; [apply rsum_le; intros j Hj; exact (proj1 (proj2 (proj2 (proj2 (proj2 (Ht j Hj))))))|]. right. rewrite rsum_plus, rsum_const. rewrite (rsum_ext n _ (fun j => (100 * u) * z j)) by (intros; ring). rewrite rsum_scal_l. fold ZZ N. ring. }
  assert (h0 : 0 <= h) by (unfold h; lra). assert (h1 : h <= / 1000) by (rewrite bpow20 in Hn; assert (2 * N * u <= 2 * 1048576 * u) by (apply Rmult_le_compat_r; lra); lra).
  assert (Nt : 0 <= N * tiny) by (apply Rmult_le_pos; lra). assert (hT2 : h * T <= (2 * N * u) * ZZ + / 1000 * (N * tiny)).
  { apply Rle_trans with (h * (ZZ + N * tiny)); [apply Rmult_le_compat_l; lra|]. rewrite Rmult_plus_distr_l. apply Rplus_le_compat; apply Rmult_le_compat_r; lra. }
  assert (T600 : 2 * tiny <= bpow radix2 (-600)) by (replace (2 * tiny) with (bpow radix2 (-649)) by (change 2 with (bpow radix2 1); unfold tiny; rewrite <- bpow_plus; reflexivity); apply bpow_le; lia).
  assert (NT : N * (2 * tiny) <= N * bpow radix2 (-600)) by (apply Rmult_le_compat_l; lra).
  split; [exact Fs|]. split; [|split].
  - rewrite units_u. replace (B2R e - kappa * rsum n q) with ((B2R e - V) + (V - kappa * rsum n q)) by ring. eapply Rle_trans; [apply Rabs_triang|]. replace ((100 + 2 * N) * u * ZZ) with (100 * (u * ZZ) + 2 * N * u * ZZ) by ring. lra.
  - intros P. assert (VT : V = T) by (apply rsum_ext; intros j Hj; symmetry; apply Rabs_pos_eq; apply (Ht j Hj); apply P; apply Fy; exact Hj). assert (h * T <= / 1000 * T) by (apply Rmult_le_compat_r; lra). apply Rabs_le_inv in A'. lra.
  - intros P. assert (VT : V = T) by (apply rsum_ext; intros j Hj; symmetry; apply Rabs_pos_eq; apply (Ht j Hj); apply P; apply Fy; exact Hj). pose proof kappa_bounds as Kb. set (WW := rsum n W). assert (WW0 : 0 <= WW) by (apply rsum_nonneg; exact W0). replace (WW / sqrt PI) with (kappa * WW) by (unfold kappa, Rdiv; ring). set (K := kappa * WW). assert (K0 : 0 <= K) by (apply Rmult_le_pos; lra).
    assert (VB : V <= (1 + 7 * u) * K + N * tiny).
    { unfold V, K, WW, N. rewrite <- rsum_scal_l, <- rsum_scal_l, <- rsum_const, <- rsum_plus. apply rsum_le. intros j Hj. apply (Ht j Hj). apply P. apply Fy. exact Hj. }
    assert (hV : h * T <= h * ((1 + 7 * u) * K + N * tiny)) by (apply Rmult_le_compat_l; lra). assert (uK : 0 <= u * K) by (apply Rmult_le_pos; lra). assert (hK : h * K <= 2 * N * u * K) by (apply Rmult_le_compat_r; lra). assert (huK : h * (u * K) <= / 1000 * (u * K)) by (apply Rmult_le_compat_r; lra). assert (hN : h * (N * tiny) <= / 1000 * (N * tiny)) by (apply Rmult_le_compat_r; lra).
    assert (NuK : 0 <= N * u * K) by (apply Rmult_le_pos; [apply Rmult_le_pos; lra|lra]). apply Rabs_le_inv in A'. rewrite units_u. replace ((1 + (8 + 3 * N) * u) * K) with (K + 8 * (u * K) + 3 * (N * u * K)) by ring. replace (h * ((1 + 7 * u) * K + N * tiny)) with (h * K + 7 * (h * (u * K)) + h * (N * tiny)) in hV by ring. replace (2 * N * u * K) with (2 * (N * u * K)) in hK by ring. lra.
Qed.
End Generic.

(** ** the two integrands *)
Lemma log_v_integrand fexp flog : exp_good fexp -> log_good flog -> integrand (f_log_v fexp flog) log_expit.
Proof. intros He Hl. split; [exact log_expit_lip|]. split; [exact log_expit_size|]. intros x F. destruct (log_v_finite fexp flog He Hl x F) as (A & _ & B & _). split; assumption. Qed.
Lemma logistic_range x : 0 < logistic x <= 1.
Proof. unfold logistic. pose proof (exp_pos (- x)) as E. split; [apply Rinv_0_lt_compat; lra|]. rewrite <- Rinv_1 at 2. apply Rinv_le_contravar; lra. Qed.
Lemma logistic_step s h : 0 <= h -> 0 <= logistic (s + h) - logistic s <= h.
Proof.
  intros H. unfold logistic. set (a := exp (- (s + h))). set (b := exp (- s)). assert (a0 : 0 < a) by apply exp_pos. assert (b0 : 0 < b) by apply exp_pos.
  assert (ab : a = b * exp (- h)) by (unfold a, b; rewrite <- exp_plus; f_equal; ring). assert (eh : 1 - h <= exp (- h) <= 1). { split; [|rewrite <- exp_0; destruct (Req_dec h 0) as [->|]; [right; f_equal; ring|left; apply exp_increasing; lra]]. destruct (Req_dec h 0) as [->|N]; [rewrite Ropp_0, exp_0; lra|]. pose proof (exp_ineq1 (- h) ltac:(lra)). lra. }
  assert (D : / (1 + a) - / (1 + b) = (b - a) * (/ (1 + a) * / (1 + b))) by (field; lra). rewrite D. assert (P : 0 < / (1 + a) * / (1 + b)) by (apply Rmult_lt_0_compat; apply Rinv_0_lt_compat; lra).
  assert (ba : 0 <= b - a <= b * h). { rewrite ab. assert (b * exp (- h) <= b * 1) by (apply Rmult_le_compat_l; lra). assert (b * (1 - h) <= b * exp (- h)) by (apply Rmult_le_compat_l; lra). lra. }
  split; [apply Rmult_le_pos; lra|]. apply Rle_trans with (b * h * (/ (1 + a) * / (1 + b))); [apply Rmult_le_compat_r; lra|].
  assert (I1 : / (1 + a) <= 1) by (rewrite <- Rinv_1; apply Rinv_le_contravar; lra). assert (I2 : b * / (1 + b) <= 1) by (apply Rmult_le_reg_r with (1 + b); [lra|]; rewrite Rmult_assoc, Rinv_l by lra; lra). assert (I0 : 0 < / (1 + a)) by (apply Rinv_0_lt_compat; lra). assert (J0 : 0 < b * / (1 + b)) by (apply Rmult_lt_0_compat; [lra|apply Rinv_0_lt_compat; lra]).
  replace (b * h * (/ (1 + a) * / (1 + b))) with (h * (/ (1 + a) * (b * / (1 + b)))) by ring. rewrite <- (Rmult_1_r h) at 2. apply Rmult_le_compat_l; [exact H|]. apply Rle_trans with (1 * 1); [apply Rmult_le_compat; lra|lra].
Qed.
Lemma logistic_lip s t : Rabs (logistic s - logistic t) <= Rabs (s - t).
Proof.
  destruct (Rle_dec t s) as [H|H].
  - pose proof (logistic_step t (s - t) ltac:(lra)) as Q. replace (t + (s - t)) with s in Q by ring. rewrite (Rabs_pos_eq (s - t)) by lra. rewrite Rabs_pos_eq; lra.
  - pose proof (logistic_step s (t - s) ltac:(lra)) as Q. replace (s + (t - s)) with t in Q by ring. rewrite (Rabs_left1 (s - t)) by lra. rewrite Rabs_left1; lra.
Qed.
Lemma expit_integrand fexpit : expit_good fexpit -> integrand fexpit logistic.
Proof.
  intros He. split; [exact logistic_lip|]. split; [intros t; pose proof (logistic_range t); pose proof (Rabs_pos t); rewrite Rabs_pos_eq; lra|]. intros x F. destruct (He x F) as (A & _ & B). split; [exact A|]. eapply Rle_trans; [exact B|]. rewrite !units_u. small_u. pose proof (Rabs_pos (logistic (B2R x))). assert (0 <= u * Rabs (logistic (B2R x))) by (apply Rmult_le_pos; lra). lra.
Qed.
