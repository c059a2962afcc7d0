(** Proofs about the log expectation of the diagonal of the inverse of Wishart matrices in binary64. *)
From Coq Require Import Reals ZArith List Lra Lia Bool String.
From Flocq Require Import Core BinarySingleNaN Relative.
From Verif Require Import Res Nd RSum ModelNumpy SpecFloat SpecFloatSimplex SpecFloatAcc SpecFloatMatrix SpecFloatFam SpecFloatGamma SpecFloatDirichlet ModelFloat ModelFloatSimplex ModelFloatDict ModelFloatFamilies ModelFloatLogit ModelFloatWishart ModelFloatWishart2
  LemmasPosDef LemmasNumpy LemmasFloat LemmasFloat2 LemmasFloat3 LemmasFloat4 LemmasFloat5 LemmasFloatDefault LemmasFloatSimplex LemmasFloatSimplex2 LemmasFloatSimplex4 LemmasFloatAcc LemmasFloatAcc2 LemmasFloatFam LemmasFloatFam6 LemmasFloatFam7 LemmasFloatLogit LemmasFloatPrior LemmasFloatPrior2 LemmasFloatWishart.
From Verif Require LemmasFloatDefault LemmasFloatGamma.
Import List ListNotations.
Set Bullet Behavior "Strict Subproofs".
Open Scope R_scope.

Lemma bin_trail op v f n : proper [n] v -> proper [] f \/ proper [1%nat] f -> exists e, f_bin op v f = Ok e /\ proper [n] e /\ forall k, (k < n)%nat -> entry e k = op (entry v k) (entry f 0).
Proof.
  intros Pv [Pf|Pf].
  - destruct f as [sf df]. destruct Pf as [Sf Lf]. cbn [shape data] in Sf, Lf. subst sf. destruct df as [|y [|z df]]; try discriminate Lf. destruct (bin_scalar_r op [n] v y Pv) as (e & E & Pe & K). exists e. split; [exact E|]. split; [exact Pe|]. intros k Hk. apply K. rewrite nprod_1. exact Hk.
  - destruct f as [sf df], v as [sv dv]. destruct Pf as [Sf Lf]. destruct Pv as [Sv Lv]. cbn [shape data] in *. subst sf sv. pose proof (mk_nd_eta fz (Nd [1%nat] df) Lf) as Mf. pose proof (mk_nd_eta fz (Nd [n] dv) Lv) as Mv. cbn [shape] in Mf, Mv.
    set (f := Nd [1%nat] df) in *. set (v := Nd [n] dv) in *. eexists. split; [unfold f_bin; etransitivity; [exact (f_equal2 (np_bin fz fz op) Mv Mf)|apply (np_bin_lead fz fz op n [])]|].
    split; [split; [reflexivity|unfold mk_nd; cbn [data]; rewrite map_length; apply LemmasPosDef.product_length]|]. intros k Hk. assert (Hk' : (k < nprod [n])%nat) by (rewrite nprod_1; exact Hk). rewrite entry_mk by exact Hk'.
    assert (Ek : nth k (product [n]) [] = [k]) by (pose proof (product_nth_cons n [] k 0 Hk (Nat.lt_0_succ 0)) as X; change (nprod []) with 1%nat in X; rewrite Nat.mul_1_r, Nat.add_0_r in X; exact X). rewrite Ek. cbn [tl]. f_equal. unfold nd_at, entry, v. cbn [shape data]. rewrite <- Ek, ravel_nth by exact Hk'. reflexivity.
Qed.
Lemma argument n (df : dbl) : INR n <= bpow radix2 20 -> is_finite df = true -> INR n <= B2R df <= bpow radix2 79 -> let c := fmul f_half (fadd (fsub df (f_of_nat n)) f_one) in let D := B2R df - INR n + 1 in fair_arg c /\ 1 <= D /\ Rabs (B2R c - D / 2) <= 3 * u * (D / 2).
Proof.
  intros Hn Fd [L U] c D. small_u. destruct (f_of_nat_B2R n Hn) as [Fn En]. pose proof (pos_INR n) as n0. set (N := INR n) in *. assert (c1 : 4 <= bpow radix2 79) by (change 4 with (bpow radix2 2); apply bpow_le; lia). assert (c2 : 4 * bpow radix2 79 <= bpow radix2 100) by (change 4 with (bpow radix2 2); rewrite <- bpow_plus; apply bpow_le; lia). assert (c3 : bpow radix2 100 <= bpow radix2 1000) by (apply bpow_le; lia). assert (D1 : 1 <= D) by (unfold D; lra).
  destruct (fsub_rel df (f_of_nat n) Fd Fn) as [Fa Ea]; [rewrite En, Rabs_pos_eq by lra; lra|]. rewrite En, (Rabs_pos_eq (B2R df - N)) in Ea by lra. set (a := fsub df (f_of_nat n)) in *. assert (uD0 : 0 <= u * D <= / 100000000 * D) by (split; [apply Rmult_le_pos; lra|apply Rmult_le_compat_r; lra]). assert (ua : u * (B2R df - N) <= u * D) by (apply Rmult_le_compat_l; unfold D; lra). assert (DU : D <= 2 * bpow radix2 79) by (unfold D; lra).
  assert (Da : Rabs (B2R a + 1 - D) <= u * D) by (unfold D at 1; replace (B2R a + 1 - (B2R df - N + 1)) with (B2R a - (B2R df - N)) by ring; lra). assert (Ba : Rabs (B2R a + 1) <= 11 / 10 * D) by (apply Rabs_le_inv in Da; apply Rabs_le; lra).
  destruct (fadd_rel a f_one Fa one_finite) as [Fb Eb]; [rewrite one_B2R; lra|]. rewrite one_B2R in Eb. set (b := fadd a f_one) in *. assert (ub : u * Rabs (B2R a + 1) <= u * (11 / 10 * D)) by (apply Rmult_le_compat_l; lra). assert (Db : Rabs (B2R b - D) <= 3 * (u * D)) by (replace (B2R b - D) with ((B2R b - (B2R a + 1)) + (B2R a + 1 - D)) by ring; eapply Rle_trans; [apply Rabs_triang|]; lra).
  pose proof (Rabs_le_inv _ _ Db) as Db'. destruct (mul_exact f_half b (B2R b / 2)) as [Fc Ec]; [reflexivity|exact Fb| | |rewrite LemmasFloatDefault.f_half_B2R; field|].
  { replace (B2R b / 2) with (/ 2 * B2R b) at 1 by field. apply half_format; [exact (generic_format_B2R 53 1024 b)|]. apply Rle_trans with (bpow radix2 (-1)); [apply bpow_le; lia|change (bpow radix2 (-1)) with (/ 2); lra]. }
  { rewrite Rabs_pos_eq by lra. lra. }
  fold c in Fc, Ec. assert (c4 : bpow radix2 (-100) <= / 4) by (change (/ 4) with (bpow radix2 (-2)); apply bpow_le; lia). split; [split; [exact Fc|rewrite Ec; lra]|]. split; [exact D1|]. rewrite Ec. replace (B2R b / 2 - D / 2) with ((B2R b - D) * / 2) by field. rewrite Rabs_mult, (Rabs_pos_eq (/ 2)) by lra. lra.
Qed.

Section Diag.
Context (flog fpsi : dbl -> dbl) (psi : R -> R) (Hl : log_good flog) (Hp : computes fpsi psi) (Hc : steady psi).
Lemma diag_entry (d c : dbl) (D : R) : is_finite d = true -> 0 < B2R d -> fair_arg c -> 1 <= D -> Rabs (B2R c - D / 2) <= 3 * u * (D / 2) -> let e := fsub (fsub (flog d) (fpsi c)) (flog (f_int 2)) in
  is_finite e = true /\ Rabs (B2R e - (ln (B2R d) - psi (D / 2) - ln 2)) <= 130 * u * (1 + Rabs (ln (B2R d)) + Rabs (psi (D / 2))).
Proof using Hl Hp Hc.
  intros Fd Pd fc D1 Dc e. small_u. destruct (LemmasFloatGamma.log_value flog Hl d Fd Pd) as (Fl & Bl & El). assert (E2 : B2R (f_int 2) = 2) by (apply (dint_B2R 2); reflexivity). destruct (LemmasFloatGamma.log_value flog Hl (f_int 2) eq_refl ltac:(rewrite E2; lra)) as (Fg & _ & Eg). rewrite E2 in Eg.
  assert (ln2a : 0 < ln 2) by (rewrite <- ln_1; apply ln_increasing; lra). assert (ln2b : ln 2 < 1) by (rewrite <- (ln_exp 1); apply ln_increasing; [lra|pose proof (exp_ineq1 1 ltac:(lra)); lra]). set (g := B2R (flog (f_int 2))) in *. set (w := ln 2) in *. rewrite (Rabs_pos_eq w) in Eg by lra. assert (Eg' : Rabs (g - w) <= 16 * u) by (assert (u * w <= u * 1) by (apply Rmult_le_compat_l; lra); replace (8 * u * (1 + w)) with (8 * u + 8 * (u * w)) in Eg by ring; lra).
  destruct (Hp c fc) as (Bc & Fc & Ec). rewrite units_u in Ec. pose proof (Hc (D / 2) (B2R c) (3 * u) ltac:(lra) ltac:(lra) Dc) as Es. set (q := psi (D / 2)) in *. set (q' := psi (B2R c)) in *. set (l := ln (B2R d)) in *. set (G := B2R (flog d)) in *. set (Q := B2R (fpsi c)) in *. pose proof (Rabs_pos q) as q0. pose proof (Rabs_pos l) as l0.
  assert (iD : / (D / 2) <= 2) by (rewrite <- (Rinv_inv 2); apply Rinv_le; lra). assert (Es' : Rabs (q' - q) <= 36 * u) by (apply Rle_trans with (1 := Es); apply Rle_trans with (4 * (3 * u) * (1 + 2)); [apply Rmult_le_compat_l; lra|lra]).
  assert (q'B : Rabs q' <= Rabs q + 36 * u) by (replace q' with ((q' - q) + q) by ring; eapply Rle_trans; [apply Rabs_triang|]; lra). assert (qB : Rabs q <= bpow radix2 200 + 36 * u) by (replace q with (- (q' - q) + q') by ring; eapply Rle_trans; [apply Rabs_triang|]; rewrite Rabs_Ropp; lra).
  assert (uq : 0 <= u * Rabs q <= / 100000000 * Rabs q) by (split; [apply Rmult_le_pos; lra|apply Rmult_le_compat_r; lra]). assert (ul : 0 <= u * Rabs l <= / 100000000 * Rabs l) by (split; [apply Rmult_le_pos; lra|apply Rmult_le_compat_r; lra]). assert (uq' : u * Rabs q' <= u * (Rabs q + 36 * u)) by (apply Rmult_le_compat_l; lra). assert (uu : u * u <= / 100000000 * u) by (apply Rmult_le_compat_r; lra). replace (u * (Rabs q + 36 * u)) with (u * Rabs q + 36 * (u * u)) in uq' by ring.
  replace (64 * u * (1 + Rabs q')) with (64 * u + 64 * (u * Rabs q')) in Ec by ring. replace (8 * u * (1 + Rabs l)) with (8 * u + 8 * (u * Rabs l)) in El by ring. assert (DQ : Rabs (Q - q) <= 101 * u + 64 * (u * Rabs q)) by (replace (Q - q) with ((Q - q') + (q' - q)) by ring; eapply Rle_trans; [apply Rabs_triang|]; lra).
  assert (one : 800 <= bpow radix2 200) by (apply Rle_trans with (bpow radix2 10); [change (bpow radix2 10) with 1024; lra|apply bpow_le; lia]). assert (big : 16 * bpow radix2 200 <= bpow radix2 1000) by (change 16 with (bpow radix2 4); rewrite <- bpow_plus; apply bpow_le; lia).
  assert (D1' : Rabs (G - Q - (l - q)) <= 109 * u + 8 * (u * Rabs l) + 64 * (u * Rabs q)) by (replace (G - Q - (l - q)) with ((G - l) + - (Q - q)) by ring; eapply Rle_trans; [apply Rabs_triang|]; rewrite Rabs_Ropp; lra). assert (lq : Rabs (l - q) <= Rabs l + Rabs q) by (unfold Rminus; eapply Rle_trans; [apply Rabs_triang|]; rewrite Rabs_Ropp; lra).
  assert (B1 : Rabs (G - Q) <= 101 / 100 * (Rabs l + Rabs q) + / 100) by (replace (G - Q) with ((G - Q - (l - q)) + (l - q)) by ring; eapply Rle_trans; [apply Rabs_triang|]; lra).
  destruct (fsub_rel (flog d) (fpsi c) Fl Fc) as [Fs Es1]; [fold G Q; lra|]. fold G Q in Es1. set (s := fsub (flog d) (fpsi c)) in *. assert (u1 : u * Rabs (G - Q) <= u * (101 / 100 * (Rabs l + Rabs q) + / 100)) by (apply Rmult_le_compat_l; lra). replace (u * (101 / 100 * (Rabs l + Rabs q) + / 100)) with (101 / 100 * (u * Rabs l + u * Rabs q) + / 100 * u) in u1 by field.
  assert (Ds : Rabs (B2R s - (l - q)) <= 110 * u + 10 * (u * Rabs l) + 66 * (u * Rabs q)) by (replace (B2R s - (l - q)) with ((B2R s - (G - Q)) + (G - Q - (l - q))) by ring; eapply Rle_trans; [apply Rabs_triang|]; lra).
  assert (D2 : Rabs (B2R s - g - (l - q - w)) <= 126 * u + 10 * (u * Rabs l) + 66 * (u * Rabs q)) by (replace (B2R s - g - (l - q - w)) with ((B2R s - (l - q)) + - (g - w)) by ring; eapply Rle_trans; [apply Rabs_triang|]; rewrite Rabs_Ropp; lra).
  assert (B2 : Rabs (B2R s - g) <= 101 / 100 * (1 + Rabs l + Rabs q)). { replace (B2R s - g) with ((B2R s - g - (l - q - w)) + ((l - q) + - w)) by ring. eapply Rle_trans; [apply Rabs_triang|]. pose proof (Rabs_triang (l - q) (- w)) as T. rewrite (Rabs_Ropp w), (Rabs_pos_eq w) in T by lra. lra. }
  destruct (fsub_rel s (flog (f_int 2)) Fs Fg) as [Fe Ee]; [fold g; lra|]. fold g e in Fe, Ee. split; [exact Fe|]. assert (u2 : u * Rabs (B2R s - g) <= u * (101 / 100 * (1 + Rabs l + Rabs q))) by (apply Rmult_le_compat_l; lra). replace (u * (101 / 100 * (1 + Rabs l + Rabs q))) with (101 / 100 * (u + u * Rabs l + u * Rabs q)) in u2 by field.
  replace (130 * u * (1 + Rabs l + Rabs q)) with (130 * (u + u * Rabs l + u * Rabs q)) by ring. replace (B2R e - (l - q - w)) with ((B2R e - (B2R s - g)) + (B2R s - g - (l - q - w))) by ring. eapply Rle_trans; [apply Rabs_triang|]. lra.
Qed.
Lemma f_diag_value n vi : proper [n; n] vi -> exists dg, f_diag vi = Ok dg /\ proper [n] dg /\ forall i, (i < n)%nat -> entry dg i = entry vi (i * n + i).
Proof using.
  destruct vi as [s da]. intros [Sv Lv]. cbn [shape data] in Sv, Lv. subst s. unfold f_diag. cbn [shape data]. rewrite Nat.min_id. eexists. split; [reflexivity|]. split; [split; [reflexivity|cbn [data]; rewrite map_length, seq_length, nprod_1; reflexivity]|]. intros i Hi. unfold entry. cbn [data].
  rewrite (nth_indep _ dzero ((fun i => nth (i * n + i) da fz) 0%nat)) by (rewrite map_length, seq_length; exact Hi). rewrite (map_nth (fun i => nth (i * n + i) da fz)), seq_nth by exact Hi. reflexivity.
Qed.
Lemma diag_value (finv : nd dbl -> res (nd dbl)) n df v vi : proper [] df \/ proper [1%nat] df -> proper [n; n] v -> finv v = Ok vi -> proper [n; n] vi -> exists e, f_e_log_inv_wishart_diag flog fpsi finv df v = Ok e /\ proper [n] e /\
  forall i, (i < n)%nat -> entry e i = fsub (fsub (flog (entry vi (i * n + i))) (fpsi (fmul f_half (fadd (fsub (entry df 0) (f_of_nat n)) f_one)))) (flog (f_int 2)).
Proof using.
  intros Pd Pv Ei Pi. destruct (f_diag_value n vi Pi) as (dg & Eg & Pg & Kg). assert (Z0 : (0 < nprod [])%nat) by exact (Nat.lt_0_succ 0). assert (Z1 : (0 < nprod [1%nat])%nat) by exact (Nat.lt_0_succ 0).
  assert (exists a b c, f_bin fsub df (nd_scalar (f_of_nat n)) = Ok a /\ f_bin fadd a (nd_scalar f_one) = Ok b /\ f_bin fmul (nd_scalar f_half) b = Ok c /\ (proper [] c \/ proper [1%nat] c) /\ entry c 0 = fmul f_half (fadd (fsub (entry df 0) (f_of_nat n)) f_one)) as (a & b & c & Ea & Eb & Ec & Pc & Kc).
  { destruct Pd as [P|P].
    - destruct (bin_scalar_r fsub [] df (f_of_nat n) P) as (a & Ea & Pa & Ka). destruct (bin_scalar_r fadd [] a f_one Pa) as (b & Eb & Pb & Kb). destruct (bin_scalar_l fmul [] f_half b Pb) as (c & Ec & Pc & Kc). exists a, b, c. rewrite (Kc _ Z0), (Kb _ Z0), (Ka _ Z0). tauto.
    - destruct (bin_scalar_r fsub [1%nat] df (f_of_nat n) P) as (a & Ea & Pa & Ka). destruct (bin_scalar_r fadd [1%nat] a f_one Pa) as (b & Eb & Pb & Kb). destruct (bin_scalar_l fmul [1%nat] f_half b Pb) as (c & Ec & Pc & Kc). exists a, b, c. rewrite (Kc _ Z1), (Kb _ Z1), (Ka _ Z1). tauto. }
  destruct (map_entry flog [n] dg Pg) as [P1 K1]. assert (P2 : (proper [] (nd_map fpsi c) \/ proper [1%nat] (nd_map fpsi c)) /\ entry (nd_map fpsi c) 0 = fpsi (entry c 0)) by (destruct Pc as [P|P]; [destruct (map_entry fpsi [] c P) as [Q K]; split; [left; exact Q|exact (K _ Z0)]|destruct (map_entry fpsi [1%nat] c P) as [Q K]; split; [right; exact Q|exact (K _ Z1)]]). destruct P2 as [P2 K2].
  destruct (bin_trail fsub (nd_map flog dg) (nd_map fpsi c) n P1 P2) as (s & Es & Ps & Ks). destruct (bin_scalar_r fsub [n] s (flog (f_int 2)) Ps) as (e & Ee & Pe & Ke). exists e. split; [|split; [exact Pe|]].
  - assert (S0 : f_shape_at v 0 = Ok n) by (unfold f_shape_at; rewrite (proj1 Pv : @shape dbl v = [n; n]); reflexivity). assert (S1 : f_shape_at v 1 = Ok n) by (unfold f_shape_at; rewrite (proj1 Pv : @shape dbl v = [n; n]); reflexivity). unfold f_e_log_inv_wishart_diag. rewrite S0. cbn [rbind]. rewrite S1. cbn [rbind]. rewrite Nat.eqb_refl, Ei. cbn [rbind]. etransitivity; [exact (f_equal (fun r => rbind r _) Eg)|]. cbn [rbind].
    etransitivity; [exact (f_equal (fun r => rbind r _) Ea)|]. cbn [rbind]. etransitivity; [exact (f_equal (fun r => rbind r _) Eb)|]. cbn [rbind]. etransitivity; [exact (f_equal (fun r => rbind r _) Ec)|]. cbn [rbind]. etransitivity; [exact (f_equal (fun r => rbind r _) Es)|]. exact Ee.
  - intros i Hi. assert (Hi' : (i < nprod [n])%nat) by (rewrite nprod_1; exact Hi). etransitivity; [exact (Ke i Hi')|]. apply (f_equal2 fsub); [|reflexivity]. etransitivity; [exact (Ks i Hi)|]. apply (f_equal2 fsub); [etransitivity; [exact (K1 i Hi')|exact (f_equal flog (Kg i Hi))]|etransitivity; [exact K2|exact (f_equal fpsi Kc)]].
Qed.
Context (fsum : list dbl -> dbl) (Hs : sums fsum).
Lemma diag_sum n (d t : nat -> dbl) (c : dbl) (D : R) : INR n <= bpow radix2 20 -> (forall i, (i < n)%nat -> is_finite (d i) = true /\ 0 < B2R (d i)) -> fair_arg c -> 1 <= D -> Rabs (B2R c - D / 2) <= 3 * u * (D / 2) ->
  (forall i, (i < n)%nat -> t i = fsub (fsub (flog (d i)) (fpsi c)) (flog (f_int 2))) -> let q := fsum (tab n t) in let Q := rsum n (fun i => ln (B2R (d i)) - psi (D / 2) - ln 2) in let V := rsum n (fun i => 1 + Rabs (ln (B2R (d i))) + Rabs (psi (D / 2))) in
  is_finite q = true /\ 0 <= V <= bpow radix2 223 /\ Rabs Q <= V /\ Rabs (B2R q - Q) <= (130 + 3 * INR n) * u * V.
Proof using Hl Hp Hc Hs.
  intros Hn Hd fc D1 Dc Ht q Q V. small_u. set (T := fun i => ln (B2R (d i)) - psi (D / 2) - ln 2) in *. set (S := fun i => 1 + Rabs (ln (B2R (d i))) + Rabs (psi (D / 2))) in *.
  assert (ln2a : 0 < ln 2) by (rewrite <- ln_1; apply ln_increasing; lra). assert (ln2b : ln 2 < 1) by (rewrite <- (ln_exp 1); apply ln_increasing; [lra|pose proof (exp_ineq1 1 ltac:(lra)); lra]).
  assert (qB : Rabs (psi (D / 2)) <= bpow radix2 200 + 1). { destruct (Hp c fc) as (Bc & _ & _). pose proof (Hc (D / 2) (B2R c) (3 * u) ltac:(lra) ltac:(lra) Dc) as Es. assert (iD : / (D / 2) <= 2) by (rewrite <- (Rinv_inv 2); apply Rinv_le; lra). assert (Es' : Rabs (psi (B2R c) - psi (D / 2)) <= 36 * u) by (apply Rle_trans with (1 := Es); apply Rle_trans with (4 * (3 * u) * (1 + 2)); [apply Rmult_le_compat_l; lra|lra]).
    replace (psi (D / 2)) with (- (psi (B2R c) - psi (D / 2)) + psi (B2R c)) by ring. eapply Rle_trans; [apply Rabs_triang|]. rewrite Rabs_Ropp. lra. }
  assert (k3 : bpow radix2 203 = 8 * bpow radix2 200) by (change 8 with (bpow radix2 3); rewrite <- bpow_plus; reflexivity). assert (k1 : 1024 <= bpow radix2 200) by (change 1024 with (bpow radix2 10); apply bpow_le; lia).
  assert (K : forall i, (i < n)%nat -> is_finite (t i) = true /\ 0 <= S i <= bpow radix2 203 /\ Rabs (T i) <= S i /\ Rabs (B2R (t i) - T i) <= 130 * u * S i).
  { intros i Hi. destruct (Hd i Hi) as [Fd Pd]. destruct (diag_entry (d i) c D Fd Pd fc D1 Dc) as [F E]. rewrite <- (Ht i Hi) in F, E. destruct (LemmasFloatGamma.log_value flog Hl (d i) Fd Pd) as (_ & Bl & _). pose proof (Rabs_pos (ln (B2R (d i)))) as l0. pose proof (Rabs_pos (psi (D / 2))) as q0. split; [exact F|]. split; [unfold S; lra|]. split; [|exact E]. unfold T, S.
    replace (ln (B2R (d i)) - psi (D / 2) - ln 2) with (ln (B2R (d i)) + (- psi (D / 2) + - ln 2)) by ring. eapply Rle_trans; [apply Rabs_triang|]. pose proof (Rabs_triang (- psi (D / 2)) (- ln 2)) as X. rewrite !Rabs_Ropp, (Rabs_pos_eq (ln 2)) in X by lra. lra. }
  assert (SA : rsum n (fun i => 130 * u * S i) = 130 * u * V) by apply rsum_scal_l. assert (ST : rsum n (fun i => Rabs (T i)) <= V) by (apply rsum_le; intros i Hi; apply (K i Hi)). assert (V0 : 0 <= V) by (apply rsum_nonneg; intros i Hi; apply (K i Hi)).
  assert (SB : V <= bpow radix2 223). { apply Rle_trans with (INR n * bpow radix2 203); [unfold V; rewrite <- rsum_const; apply rsum_le; intros i Hi; apply (K i Hi)|]. change (bpow radix2 223) with (bpow radix2 (20 + 203)). rewrite bpow_plus. apply Rmult_le_compat_r; [apply bpow_ge_0|exact Hn]. }
  assert (uS : 0 <= u * V <= / 100000000 * V) by (split; [apply Rmult_le_pos; lra|apply Rmult_le_compat_r; lra]). assert (k : 2 * bpow radix2 223 <= bpow radix2 500) by (change 2 with (bpow radix2 1); rewrite <- bpow_plus; apply bpow_le; lia).
  destruct (sum_about n Hn fsum Hs t T (fun i => 130 * u * S i)) as [F E].
  - intros i Hi. destruct (K i Hi) as (A & _ & _ & B). split; [exact A|exact B].
  - rewrite SA. replace (130 * u * V) with (130 * (u * V)) by ring. lra.
  - split; [exact F|]. split; [split; assumption|]. split; [apply Rle_trans with (2 := ST); apply rsum_triangle|]. apply Rle_trans with (1 := E). rewrite SA. pose proof (n_u n Hn) as [N0 N1]. assert (X : 2 * INR n * u * (rsum n (fun k => Rabs (T k)) + 130 * u * V) <= 2 * INR n * u * (11 / 10 * V)) by (apply Rmult_le_compat_l; [lra|replace (130 * u * V) with (130 * (u * V)) by ring; lra]).
    assert (0 <= INR n * u * V) by (apply Rmult_le_pos; lra). replace (2 * INR n * u * (11 / 10 * V)) with (22 / 10 * (INR n * u * V)) in X by field. replace ((130 + 3 * INR n) * u * V) with (130 * u * V + 3 * (INR n * u * V)) by ring. lra.
Qed.
End Diag.
Lemma lkj_value n (lkj p q : dbl) (A Q Y E : R) : INR n <= bpow radix2 20 -> is_finite lkj = true -> Rabs (B2R lkj - 1) <= bpow radix2 50 -> is_finite p = true -> is_finite q = true -> 0 <= E -> 0 <= Y -> Y + E <= bpow radix2 910 ->
  Rabs A + Rabs Q <= 2 * Y -> Rabs (B2R p - A) + Rabs (B2R q - Q) <= (130 + 3 * INR n) * u * Y + 2 * E -> let r := fmul (fsub lkj f_one) (fsub (fmul f_mone p) q) in
  is_finite r = true /\ Rabs (B2R r - (B2R lkj - 1) * (- A - Q)) <= Rabs (B2R lkj - 1) * ((140 + 3 * INR n) * u * Y + 4 * E) + bpow radix2 (-1074).
Proof.
  intros Hn Fk Bk Fp Fq E0 Y0 YB BAQ Er r. small_u. pose proof (n_u n Hn) as [N0 N1]. set (N := INR n) in *. set (k := B2R lkj - 1) in *. assert (uY : 0 <= u * Y <= / 100000000 * Y) by (split; [apply Rmult_le_pos; lra|apply Rmult_le_compat_r; lra]). assert (NuY : 0 <= N * u * Y <= / 1000000000 * Y) by (split; [apply Rmult_le_pos; lra|apply Rmult_le_compat_r; lra]). assert (uE : 0 <= u * E <= / 100000000 * E) by (split; [apply Rmult_le_pos; lra|apply Rmult_le_compat_r; lra]).
  replace ((130 + 3 * N) * u * Y) with (130 * (u * Y) + 3 * (N * u * Y)) in Er by ring. set (R := - A - Q). pose proof (Rabs_pos (B2R p - A)) as a0. pose proof (Rabs_pos (B2R q - Q)) as b0. pose proof (Rabs_pos A) as a1. pose proof (Rabs_pos Q) as b1.
  assert (c1 : 16 * bpow radix2 910 <= bpow radix2 920) by (change 16 with (bpow radix2 4); rewrite <- bpow_plus; apply bpow_le; lia). assert (c2 : bpow radix2 920 <= bpow radix2 1000) by (apply bpow_le; lia).
  assert (pB : Rabs (B2R p) <= bpow radix2 920) by (replace (B2R p) with ((B2R p - A) + A) by ring; eapply Rle_trans; [apply Rabs_triang|]; lra).
  destruct (mul_exact f_mone p (- B2R p)) as [Fm Em]; [reflexivity|exact Fp|rewrite rnd64_opp, rnd64_id; reflexivity|rewrite Rabs_Ropp; lra|rewrite mone_B2R; ring|]. set (m := fmul f_mone p) in *.
  assert (RB : Rabs R <= 2 * Y) by (unfold R; replace (- A - Q) with (- A + - Q) by ring; eapply Rle_trans; [apply Rabs_triang|]; rewrite !Rabs_Ropp; lra). assert (D1 : Rabs (B2R m - B2R q - R) <= 130 * (u * Y) + 3 * (N * u * Y) + 2 * E) by (rewrite Em; unfold R; replace (- B2R p - B2R q - (- A - Q)) with (- (B2R p - A) + - (B2R q - Q)) by ring; eapply Rle_trans; [apply Rabs_triang|]; rewrite !Rabs_Ropp; lra).
  assert (B1 : Rabs (B2R m - B2R q) <= 201 / 100 * Y + 2 * E) by (replace (B2R m - B2R q) with ((B2R m - B2R q - R) + R) by ring; eapply Rle_trans; [apply Rabs_triang|]; lra).
  destruct (fsub_rel m q Fm Fq ltac:(lra)) as [Fs Es]. set (s := fsub m q) in *. assert (u1 : u * Rabs (B2R m - B2R q) <= u * (201 / 100 * Y + 2 * E)) by (apply Rmult_le_compat_l; lra). replace (u * (201 / 100 * Y + 2 * E)) with (201 / 100 * (u * Y) + 2 * (u * E)) in u1 by field.
  assert (D2 : Rabs (B2R s - R) <= 1321 / 10 * (u * Y) + 3 * (N * u * Y) + 21 / 10 * E) by (replace (B2R s - R) with ((B2R s - (B2R m - B2R q)) + (B2R m - B2R q - R)) by ring; eapply Rle_trans; [apply Rabs_triang|]; lra). assert (B2 : Rabs (B2R s) <= 202 / 100 * Y + 22 / 10 * E) by (replace (B2R s) with ((B2R s - R) + R) by ring; eapply Rle_trans; [apply Rabs_triang|]; lra).
  destruct (fsub_rel lkj f_one Fk one_finite) as [Fl El]; [rewrite one_B2R; fold k; apply Rle_trans with (1 := Bk); apply bpow_le; lia|]. rewrite one_B2R in El. fold k in El. set (l := fsub lkj f_one) in *. pose proof (Rabs_pos k) as k0. set (K := Rabs k) in *. pose proof (Rabs_pos (B2R s)) as s0.
  assert (D3 : Rabs (B2R l * B2R s - k * R) <= K * (1342 / 10 * (u * Y) + 3 * (N * u * Y) + 22 / 10 * E)). { replace (B2R l * B2R s - k * R) with ((B2R l - k) * B2R s + k * (B2R s - R)) by ring. eapply Rle_trans; [apply Rabs_triang|]. rewrite !Rabs_mult. fold K. assert (X1 : Rabs (B2R l - k) * Rabs (B2R s) <= u * K * (202 / 100 * Y + 22 / 10 * E)) by (apply Rmult_le_compat; try apply Rabs_pos; lra). assert (X2 : K * Rabs (B2R s - R) <= K * (1321 / 10 * (u * Y) + 3 * (N * u * Y) + 21 / 10 * E)) by (apply Rmult_le_compat_l; lra).
    replace (u * K * (202 / 100 * Y + 22 / 10 * E)) with (K * (202 / 100 * (u * Y) + 22 / 10 * (u * E))) in X1 by field. assert (X3 : K * (202 / 100 * (u * Y) + 22 / 10 * (u * E)) + K * (1321 / 10 * (u * Y) + 3 * (N * u * Y) + 21 / 10 * E) <= K * (1342 / 10 * (u * Y) + 3 * (N * u * Y) + 22 / 10 * E)) by (rewrite <- Rmult_plus_distr_l; apply Rmult_le_compat_l; lra). lra. }
  assert (kR : Rabs (k * R) <= K * (2 * Y)) by (rewrite Rabs_mult; apply Rmult_le_compat_l; lra). assert (B3 : Rabs (B2R l * B2R s) <= K * (201 / 100 * Y + 23 / 10 * E)). { replace (B2R l * B2R s) with ((B2R l * B2R s - k * R) + k * R) by ring. eapply Rle_trans; [apply Rabs_triang|]. assert (X3 : K * (1342 / 10 * (u * Y) + 3 * (N * u * Y) + 22 / 10 * E) + K * (2 * Y) <= K * (201 / 100 * Y + 23 / 10 * E)) by (rewrite <- Rmult_plus_distr_l; apply Rmult_le_compat_l; lra). lra. }
  destruct (fmul_rel l s Fl Fs) as (Fr & _ & E4). { apply Rle_trans with (1 := B3). apply Rle_trans with (bpow radix2 50 * bpow radix2 920); [apply Rmult_le_compat; lra|rewrite <- bpow_plus; apply bpow_le; lia]. }
  fold r in Fr, E4. split; [exact Fr|]. assert (u4 : u * Rabs (B2R l * B2R s) <= u * (K * (201 / 100 * Y + 23 / 10 * E))) by (apply Rmult_le_compat_l; lra). replace (u * (K * (201 / 100 * Y + 23 / 10 * E))) with (K * (201 / 100 * (u * Y) + 23 / 10 * (u * E))) in u4 by field.
  assert (X5 : K * (201 / 100 * (u * Y) + 23 / 10 * (u * E)) + K * (1342 / 10 * (u * Y) + 3 * (N * u * Y) + 22 / 10 * E) <= K * ((140 + 3 * N) * u * Y + 4 * E)) by (rewrite <- Rmult_plus_distr_l; apply Rmult_le_compat_l; [lra|]; replace ((140 + 3 * N) * u * Y) with (140 * (u * Y) + 3 * (N * u * Y)) by ring; lra).
  fold R. replace (B2R r - k * R) with ((B2R r - B2R l * B2R s) + (B2R l * B2R s - k * R)) by ring. eapply Rle_trans; [apply Rabs_triang|]. lra.
Qed.
