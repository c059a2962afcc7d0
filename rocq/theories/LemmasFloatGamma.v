(** Proofs about the log expectation and the entropy of gamma variables in binary64. *)
From Coq Require Import Reals ZArith List Lra Lia Bool.
From Flocq Require Import Core BinarySingleNaN Relative.
From Verif Require Import Res Nd RSum ModelNumpy SpecFloat SpecFloatSimplex SpecFloatAcc SpecFloatMatrix SpecFloatFam SpecFloatGamma ModelFloat ModelFloatFamilies ModelFloatLogit ModelFloatGamma
  LemmasNumpy LemmasFloat LemmasFloat2 LemmasFloat3 LemmasFloat4 LemmasFloat5 LemmasFloatDefault LemmasFloatSimplex LemmasFloatSimplex2 LemmasFloatSimplex4 LemmasFloatAcc LemmasFloatAcc2 LemmasFloatFam LemmasFloatFam7 LemmasFloatLogit LemmasFloatPrior LemmasFloatPrior2.
From Verif Require LemmasFloatEntropy2.
Import List ListNotations.
Set Bullet Behavior "Strict Subproofs".
Open Scope R_scope.

Section Gamma.
Context (flog fpsi flgam : dbl -> dbl) (psi lgam : R -> R) (Hl : log_good flog) (Hp : computes fpsi psi) (Hg : computes flgam lgam).
Lemma log_value (r : dbl) : is_finite r = true -> 0 < B2R r -> is_finite (flog r) = true /\ Rabs (ln (B2R r)) <= 752 /\ Rabs (B2R (flog r) - ln (B2R r)) <= 8 * u * (1 + Rabs (ln (B2R r))).
Proof using Hl.
  intros F P. split; [apply (log_finite _ (lg_ok _ Hl)); assumption|]. split; [exact (LemmasFloatEntropy2.positive_range r F P)|]. pose proof (lg_close _ Hl r F P) as K. change (bpow radix2 (-50)) with eta in K. rewrite eta_u in K. exact K.
Qed.
Lemma e_log_entry (s r : dbl) : fair_arg s -> is_finite r = true -> 0 < B2R r -> let e := fsub (fpsi s) (flog r) in
  is_finite e = true /\ Rabs (B2R e - (psi (B2R s) - ln (B2R r))) <= 74 * u * (1 + Rabs (psi (B2R s)) + Rabs (ln (B2R r))).
Proof using Hl Hp.
  intros Hs Fr Pr e. small_u. destruct (log_value r Fr Pr) as (Fl & Bl & El). destruct (Hp s Hs) as (Bp & Fp & Ep). rewrite units_u in Ep. set (p := psi (B2R s)) in *. set (l := ln (B2R r)) in *. pose proof (Rabs_pos p) as p0. pose proof (Rabs_pos l) as l0. set (S := 1 + Rabs p + Rabs l).
  assert (up : 0 <= u * Rabs p <= / 100000000 * Rabs p) by (split; [apply Rmult_le_pos; lra|apply Rmult_le_compat_r; lra]). assert (ul : 0 <= u * Rabs l <= / 100000000 * Rabs l) by (split; [apply Rmult_le_pos; lra|apply Rmult_le_compat_r; lra]).
  replace (64 * u * (1 + Rabs p)) with (64 * u + 64 * (u * Rabs p)) in Ep by ring. replace (8 * u * (1 + Rabs l)) with (8 * u + 8 * (u * Rabs l)) in El by ring.
  assert (BG : Rabs (B2R (fpsi s) - B2R (flog r)) <= 1001 / 1000 * S). { replace (B2R (fpsi s) - B2R (flog r)) with ((B2R (fpsi s) - p) + (- (B2R (flog r) - l) + (p + - l))) by ring. eapply Rle_trans; [apply Rabs_triang|]. pose proof (Rabs_triang (- (B2R (flog r) - l)) (p + - l)) as T1. pose proof (Rabs_triang p (- l)) as T2. rewrite Rabs_Ropp in T1, T2. unfold S. lra. }
  assert (big : 1001 / 1000 * S <= bpow radix2 1000). { unfold S. assert (800 <= bpow radix2 200) by (apply Rle_trans with (bpow radix2 10); [change (bpow radix2 10) with 1024; lra|apply bpow_le; lia]). assert (4 * bpow radix2 200 <= bpow radix2 1000) by (change 4 with (bpow radix2 2); rewrite <- bpow_plus; apply bpow_le; lia). lra. }
  destruct (fsub_rel (fpsi s) (flog r) Fp Fl ltac:(lra)) as [F E]. fold e in F, E. split; [exact F|]. assert (uG : u * Rabs (B2R (fpsi s) - B2R (flog r)) <= u * (1001 / 1000 * S)) by (apply Rmult_le_compat_l; lra).
  replace (u * (1001 / 1000 * S)) with (1001 / 1000 * (u + u * Rabs p + u * Rabs l)) in uG by (unfold S; field). replace (74 * u * S) with (74 * u + 74 * (u * Rabs p) + 74 * (u * Rabs l)) by (unfold S; ring).
  replace (B2R e - (p - l)) with ((B2R e - (B2R (fpsi s) - B2R (flog r))) + ((B2R (fpsi s) - p) + - (B2R (flog r) - l))) by ring. eapply Rle_trans; [apply Rabs_triang|]. pose proof (Rabs_triang (B2R (fpsi s) - p) (- (B2R (flog r) - l))) as T. rewrite Rabs_Ropp in T. lra.
Qed.
Lemma entropy_term (s r : dbl) : fair_arg s -> is_finite r = true -> 0 < B2R r -> let t := fadd (fadd (fsub s (flog r)) (flgam s)) (fmul (fsub f_one s) (fpsi s)) in let S := gamma_entropy_size lgam psi (B2R s) (B2R r) in
  is_finite t = true /\ 1 <= S <= bpow radix2 310 /\ Rabs (gamma_entropy_of lgam psi (B2R s) (B2R r)) <= S /\ Rabs (B2R t - gamma_entropy_of lgam psi (B2R s) (B2R r)) <= 90 * u * S.
Proof using Hl Hp Hg.
  intros Hs Fr Pr t S. small_u. destruct (log_value r Fr Pr) as (Fl & Bl & El). destruct (Hp s Hs) as (Bp & Fp & Ep). destruct (Hg s Hs) as (Bg & Fg & Eg). destruct Hs as [Fs [Ls Us]]. rewrite units_u in Ep, Eg. unfold S, gamma_entropy_size, gamma_entropy_of. clear S.
  set (p := psi (B2R s)) in *. set (g := lgam (B2R s)) in *. set (l := ln (B2R r)) in *. set (x := B2R s) in *. assert (x0 : 0 < x) by (pose proof (bpow_gt_0 radix2 (-100)); lra). pose proof (Rabs_pos p) as p0. pose proof (Rabs_pos g) as g0. pose proof (Rabs_pos l) as l0.
  set (D := 1 - x). pose proof (Rabs_pos D) as D0. set (V := Rabs D * (1 + Rabs p)). assert (V0 : 0 <= V) by (apply Rmult_le_pos; lra). assert (DV : Rabs (D * p) <= V) by (rewrite Rabs_mult; apply Rmult_le_compat_l; lra). assert (DV1 : Rabs D <= V) by (unfold V; rewrite <- (Rmult_1_r (Rabs D)) at 1; apply Rmult_le_compat_l; lra).
  set (S := 1 + x + Rabs l + Rabs g + V).
  assert (one : 1 <= bpow radix2 100) by (change 1 with (bpow radix2 0); apply bpow_le; lia). assert (B101 : Rabs D <= bpow radix2 101) by (replace (bpow radix2 101) with (2 * bpow radix2 100) by (change 2 with (bpow radix2 1); rewrite <- bpow_plus; reflexivity); apply Rabs_le; unfold D; lra).
  assert (B201 : 1 + Rabs p <= bpow radix2 201) by (replace (bpow radix2 201) with (2 * bpow radix2 200) by (change 2 with (bpow radix2 1); rewrite <- bpow_plus; reflexivity); assert (1 <= bpow radix2 200) by (change 1 with (bpow radix2 0); apply bpow_le; lia); lra).
  assert (BV : V <= bpow radix2 302) by (change (bpow radix2 302) with (bpow radix2 (101 + 201)); rewrite bpow_plus; apply Rmult_le_compat; lra).
  assert (S1 : 1 <= S) by (unfold S; lra). assert (c1 : bpow radix2 100 <= bpow radix2 302) by (apply bpow_le; lia). assert (c2 : bpow radix2 200 <= bpow radix2 302) by (apply bpow_le; lia). assert (c3 : 753 <= bpow radix2 302) by (apply Rle_trans with (bpow radix2 10); [change (bpow radix2 10) with 1024; lra|apply bpow_le; lia]). assert (c4 : 16 * bpow radix2 302 <= bpow radix2 310) by (change 16 with (bpow radix2 4); rewrite <- bpow_plus; apply bpow_le; lia). assert (c5 : 2 * bpow radix2 310 <= bpow radix2 1000) by (change 2 with (bpow radix2 1); rewrite <- bpow_plus; apply bpow_le; lia). pose proof (bpow_gt_0 radix2 302) as c0.
  assert (SB : S <= bpow radix2 310) by (unfold S; lra).
  assert (ux : 0 <= u * x <= / 100000000 * x) by (split; [apply Rmult_le_pos; lra|apply Rmult_le_compat_r; lra]). assert (ul : 0 <= u * Rabs l <= / 100000000 * Rabs l) by (split; [apply Rmult_le_pos; lra|apply Rmult_le_compat_r; lra]). assert (ug : 0 <= u * Rabs g <= / 100000000 * Rabs g) by (split; [apply Rmult_le_pos; lra|apply Rmult_le_compat_r; lra]). assert (uV : 0 <= u * V <= / 100000000 * V) by (split; [apply Rmult_le_pos; lra|apply Rmult_le_compat_r; lra]).
  replace (64 * u * (1 + Rabs g)) with (64 * u + 64 * (u * Rabs g)) in Eg by ring. replace (8 * u * (1 + Rabs l)) with (8 * u + 8 * (u * Rabs l)) in El by ring.
  (* shape - log rate *)
  set (L := B2R (flog r)) in *. set (G := B2R (flgam s)) in *. assert (xa : Rabs x = x) by (apply Rabs_pos_eq; lra).
  assert (Ba : Rabs (x - L) <= x + 1001 / 1000 * Rabs l + / 1000). { replace (x - L) with ((- (L - l)) + (x + - l)) by ring. eapply Rle_trans; [apply Rabs_triang|]. pose proof (Rabs_triang x (- l)) as T. rewrite Rabs_Ropp in T |- *. lra. }
  destruct (fsub_rel s (flog r) Fs Fl) as [Fa Ea]; [fold x L; unfold S in SB; lra|]. fold x L in Ea. set (a := fsub s (flog r)) in *. assert (ua : u * Rabs (x - L) <= u * (x + 1001 / 1000 * Rabs l + / 1000)) by (apply Rmult_le_compat_l; lra). replace (u * (x + 1001 / 1000 * Rabs l + / 1000)) with (u * x + 1001 / 1000 * (u * Rabs l) + / 1000 * u) in ua by field.
  assert (Da : Rabs (B2R a - (x - l)) <= u * x + 10 * (u * Rabs l) + 9 * u). { replace (B2R a - (x - l)) with ((B2R a - (x - L)) + - (L - l)) by ring. eapply Rle_trans; [apply Rabs_triang|]. rewrite Rabs_Ropp. lra. }
  (* + log gamma *)
  assert (xl : Rabs (x - l) <= x + Rabs l) by (unfold Rminus; pose proof (Rabs_triang x (- l)) as T; rewrite Rabs_Ropp in T; lra).
  assert (Bb : Rabs (B2R a + G) <= 1001 / 1000 * (x + Rabs l + Rabs g) + / 1000). { replace (B2R a + G) with ((B2R a - (x - l)) + ((G - g) + ((x - l) + g))) by ring. eapply Rle_trans; [apply Rabs_triang|]. pose proof (Rabs_triang (G - g) ((x - l) + g)) as T1. pose proof (Rabs_triang (x - l) g) as T2. lra. }
  destruct (fadd_rel a (flgam s) Fa Fg) as [Fb Eb]; [fold G; unfold S in SB; lra|]. fold G in Eb. set (b := fadd a (flgam s)) in *. assert (ub : u * Rabs (B2R a + G) <= u * (1001 / 1000 * (x + Rabs l + Rabs g) + / 1000)) by (apply Rmult_le_compat_l; lra). replace (u * (1001 / 1000 * (x + Rabs l + Rabs g) + / 1000)) with (1001 / 1000 * (u * x + u * Rabs l + u * Rabs g) + / 1000 * u) in ub by field.
  assert (Db : Rabs (B2R b - (x - l + g)) <= 3 * (u * x) + 12 * (u * Rabs l) + 66 * (u * Rabs g) + 74 * u). { replace (B2R b - (x - l + g)) with ((B2R b - (B2R a + G)) + ((B2R a - (x - l)) + (G - g))) by ring. eapply Rle_trans; [apply Rabs_triang|]. pose proof (Rabs_triang (B2R a - (x - l)) (G - g)) as T. lra. }
  (* (1 - shape) digamma *)
  assert (BD : Rabs (B2R f_one - B2R s) <= bpow radix2 1000) by (rewrite one_B2R; fold x D; apply Rle_trans with (1 := B101); apply bpow_le; lia). destruct (fsub_rel f_one s one_finite Fs BD) as [Fd Ed]. rewrite one_B2R in Ed. fold x D in Ed. set (d := fsub f_one s) in *. set (Q := B2R (fpsi s)) in *.
  assert (up : 0 <= u * (1 + Rabs p) <= / 100000000 * (1 + Rabs p)) by (split; [apply Rmult_le_pos; lra|apply Rmult_le_compat_r; lra]). replace (64 * u * (1 + Rabs p)) with (64 * (u * (1 + Rabs p))) in Ep by ring. assert (BQ : Rabs Q <= 1001 / 1000 * (1 + Rabs p)). { replace Q with ((Q - p) + p) by ring. eapply Rle_trans; [apply Rabs_triang|]. lra. }
  assert (Dm : Rabs (B2R d * Q - D * p) <= 66 * (u * V)). { replace (B2R d * Q - D * p) with ((B2R d - D) * Q + D * (Q - p)) by ring. eapply Rle_trans; [apply Rabs_triang|]. rewrite !Rabs_mult. assert (T1 : Rabs (B2R d - D) * Rabs Q <= u * Rabs D * (1001 / 1000 * (1 + Rabs p))) by (apply Rmult_le_compat; try apply Rabs_pos; assumption). assert (T2 : Rabs D * Rabs (Q - p) <= Rabs D * (64 * (u * (1 + Rabs p)))) by (apply Rmult_le_compat_l; assumption).
    replace (u * Rabs D * (1001 / 1000 * (1 + Rabs p))) with (1001 / 1000 * (u * V)) in T1 by (unfold V; field). replace (Rabs D * (64 * (u * (1 + Rabs p)))) with (64 * (u * V)) in T2 by (unfold V; ring). lra. }
  assert (Bm : Rabs (B2R d * Q) <= 1001 / 1000 * V). { replace (B2R d * Q) with ((B2R d * Q - D * p) + D * p) by ring. eapply Rle_trans; [apply Rabs_triang|]. lra. }
  destruct (fmul_rel d (fpsi s) Fd Fp) as (Fm & _ & Em); [fold Q; unfold S in SB; lra|]. fold Q in Em. set (m := fmul d (fpsi s)) in *. assert (um : u * Rabs (B2R d * Q) <= u * (1001 / 1000 * V)) by (apply Rmult_le_compat_l; lra). assert (tiny : bpow radix2 (-1074) <= u) by (apply bpow_le; lia).
  assert (Dm' : Rabs (B2R m - D * p) <= 68 * (u * V) + u). { replace (B2R m - D * p) with ((B2R m - B2R d * Q) + (B2R d * Q - D * p)) by ring. eapply Rle_trans; [apply Rabs_triang|]. lra. }
  (* the sum *)
  assert (xg : Rabs (x - l + g) <= x + Rabs l + Rabs g) by (pose proof (Rabs_triang (x - l) g) as T; lra). assert (tot : Rabs (x - l + g + D * p) <= S) by (pose proof (Rabs_triang (x - l + g) (D * p)) as T; unfold S; lra).
  set (E0 := x - l + g + D * p) in *. assert (Dt : Rabs (B2R b + B2R m - E0) <= 3 * (u * x) + 12 * (u * Rabs l) + 66 * (u * Rabs g) + 68 * (u * V) + 75 * u) by (unfold E0; replace (B2R b + B2R m - (x - l + g + D * p)) with ((B2R b - (x - l + g)) + (B2R m - D * p)) by ring; eapply Rle_trans; [apply Rabs_triang|]; lra).
  assert (Bt : Rabs (B2R b + B2R m) <= 1001 / 1000 * S). { replace (B2R b + B2R m) with ((B2R b + B2R m - E0) + E0) by ring. eapply Rle_trans; [apply Rabs_triang|]. unfold S in *. lra. }
  destruct (fadd_rel b m Fb Fm ltac:(lra)) as [Ft Et]. change (fadd b m) with t in Ft, Et. split; [exact Ft|]. fold D V. fold S. split; [split; assumption|]. split; [exact tot|]. assert (ut : u * Rabs (B2R b + B2R m) <= u * (1001 / 1000 * S)) by (apply Rmult_le_compat_l; lra).
  replace (u * (1001 / 1000 * S)) with (1001 / 1000 * (u + u * x + u * Rabs l + u * Rabs g + u * V)) in ut by (unfold S; field). replace (90 * u * S) with (90 * (u + u * x + u * Rabs l + u * Rabs g + u * V)) by (unfold S; ring).
  fold E0. replace (B2R t - E0) with ((B2R t - (B2R b + B2R m)) + (B2R b + B2R m - E0)) by ring. eapply Rle_trans; [apply Rabs_triang|]. lra.
Qed.
Context (fsum : list dbl -> dbl) (Hs : sums fsum).
Lemma entropy_sum n (s r : nat -> dbl) : INR n <= bpow radix2 20 -> (forall k, (k < n)%nat -> fair_arg (s k) /\ is_finite (r k) = true /\ 0 < B2R (r k)) ->
  let h := fsum (tab n (fun k => fadd (fadd (fsub (s k) (flog (r k))) (flgam (s k))) (fmul (fsub f_one (s k)) (fpsi (s k))))) in
  is_finite h = true /\ Rabs (B2R h - rsum n (fun k => gamma_entropy_of lgam psi (B2R (s k)) (B2R (r k)))) <= (90 + 3 * INR n) * u * rsum n (fun k => gamma_entropy_size lgam psi (B2R (s k)) (B2R (r k))).
Proof using Hl Hp Hg Hs.
  intros Hn H h. small_u. set (S := fun k => gamma_entropy_size lgam psi (B2R (s k)) (B2R (r k))). set (T := fun k => gamma_entropy_of lgam psi (B2R (s k)) (B2R (r k))). set (SS := rsum n S).
  assert (K : forall k, (k < n)%nat -> let t := fadd (fadd (fsub (s k) (flog (r k))) (flgam (s k))) (fmul (fsub f_one (s k)) (fpsi (s k))) in is_finite t = true /\ 1 <= S k <= bpow radix2 310 /\ Rabs (T k) <= S k /\ Rabs (B2R t - T k) <= 90 * u * S k) by (intros k Hk; destruct (H k Hk) as (A & B & C); exact (entropy_term (s k) (r k) A B C)).
  assert (SA : rsum n (fun k => 90 * u * S k) = 90 * u * SS) by apply rsum_scal_l. assert (ST : rsum n (fun k => Rabs (T k)) <= SS) by (apply rsum_le; intros k Hk; apply (K k Hk)). assert (S0 : 0 <= SS) by (apply rsum_nonneg; intros k Hk; destruct (K k Hk) as (_ & B & _); lra).
  assert (SB : SS <= bpow radix2 330). { apply Rle_trans with (INR n * bpow radix2 310); [unfold SS; rewrite <- rsum_const; apply rsum_le; intros k Hk; apply (K k Hk)|]. change (bpow radix2 330) with (bpow radix2 (20 + 310)). rewrite bpow_plus. apply Rmult_le_compat_r; [apply bpow_ge_0|exact Hn]. }
  assert (uS : 0 <= u * SS <= / 100000000 * SS) by (split; [apply Rmult_le_pos; lra|apply Rmult_le_compat_r; lra]). assert (c : 2 * bpow radix2 330 <= bpow radix2 500) by (change 2 with (bpow radix2 1); rewrite <- bpow_plus; apply bpow_le; lia).
  destruct (sum_about n Hn fsum Hs (fun k => fadd (fadd (fsub (s k) (flog (r k))) (flgam (s k))) (fmul (fsub f_one (s k)) (fpsi (s k)))) T (fun k => 90 * u * S k)) as [F E].
  - intros k Hk. destruct (K k Hk) as (A & _ & _ & B). split; [exact A|exact B].
  - rewrite SA. replace (90 * u * SS) with (90 * (u * SS)) by ring. lra.
  - split; [exact F|]. apply Rle_trans with (1 := E). rewrite SA. fold SS. pose proof (n_u n Hn) as [N0 N1]. assert (X : 2 * INR n * u * (rsum n (fun k => Rabs (T k)) + 90 * u * SS) <= 2 * INR n * u * (11 / 10 * SS)) by (apply Rmult_le_compat_l; [lra|replace (90 * u * SS) with (90 * (u * SS)) by ring; lra]).
    assert (0 <= INR n * u * SS) by (apply Rmult_le_pos; lra). replace (2 * INR n * u * (11 / 10 * SS)) with (22 / 10 * (INR n * u * SS)) in X by field. replace ((90 + 3 * INR n) * u * SS) with (90 * u * SS + 3 * (INR n * u * SS)) by ring. lra.
Qed.
Lemma e_log_array sh (a b : nd dbl) : proper sh a -> proper sh b -> exists e, f_get_e_log_gamma flog fpsi a b = Ok e /\ proper sh e /\ forall k, (k < nprod sh)%nat -> entry e k = fsub (fpsi (entry a k)) (flog (entry b k)).
Proof.
  intros Pa Pb. destruct (map_entry fpsi sh a Pa) as [P1 K1]. destruct (map_entry flog sh b Pb) as [P2 K2]. destruct (bin_same fsub sh _ _ P1 P2) as (e & E & Pe & Ke). exists e. split; [exact E|]. split; [exact Pe|]. intros k Hk. rewrite (Ke k Hk), (K1 k Hk), (K2 k Hk). reflexivity.
Qed.
Lemma entropy_array sh (a b : nd dbl) : proper sh a -> proper sh b ->
  f_gamma_entropy flog fpsi flgam fsum a b = Ok (nd_scalar (fsum (tab (nprod sh) (fun k => fadd (fadd (fsub (entry a k) (flog (entry b k))) (flgam (entry a k))) (fmul (fsub f_one (entry a k)) (fpsi (entry a k))))))).
Proof.
  intros Pa Pb. destruct (map_entry fpsi sh a Pa) as [P1 K1]. destruct (map_entry flog sh b Pb) as [P2 K2]. destruct (map_entry flgam sh a Pa) as [P3 K3]. destruct (bin_same fsub sh a _ Pa P2) as (c & Ec & Pc & Kc). destruct (bin_same fadd sh c _ Pc P3) as (d & Ed & Pd & Kd).
  destruct (bin_scalar_l fsub sh f_one a Pa) as (g & Eg & Pg & Kg). destruct (bin_same fmul sh g _ Pg P1) as (m & Em & Pm & Km). destruct (bin_same fadd sh d m Pd Pm) as (t & Et & Pt & Kt).
  unfold f_gamma_entropy. etransitivity; [exact (f_equal (fun r => rbind r _) Ec)|]. cbn [rbind]. etransitivity; [exact (f_equal (fun r => rbind r _) Ed)|]. cbn [rbind]. etransitivity; [exact (f_equal (fun r => rbind r _) Eg)|]. cbn [rbind]. etransitivity; [exact (f_equal (fun r => rbind r _) Em)|]. cbn [rbind]. etransitivity; [exact (f_equal (fun r => rbind r _) Et)|]. cbn [rbind].
  apply (f_equal (fun l => Ok (nd_scalar (fsum l)))). apply (nth_ext _ _ dzero dzero); [rewrite tab_length; exact (proj2 Pt)|]. intros k Hk. assert (Hk' : (k < nprod sh)%nat) by (rewrite <- (proj2 Pt); exact Hk). rewrite tab_nth by exact Hk'. etransitivity; [exact (Kt k Hk')|]. rewrite (Kd k Hk'), (Kc k Hk'), (Km k Hk'), (Kg k Hk'), (K1 k Hk'), (K2 k Hk'), (K3 k Hk'). reflexivity.
Qed.
End Gamma.
