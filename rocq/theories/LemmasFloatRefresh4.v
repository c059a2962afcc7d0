(** Proofs about setting a simplex parameter to its own free value in binary64. *)
From Coq Require Import Reals ZArith List Lra Lia Bool.
From Flocq Require Import Core BinarySingleNaN.
From Verif Require Import Res RSum SpecFloat SpecFloatSimplex SpecFloatRefresh2 ModelFloat ModelFloatSimplex
  LemmasFloat LemmasFloat2 LemmasFloat3 LemmasFloat4 LemmasFloatSimplex LemmasFloatSimplex2 LemmasFloatSimplex4.
Import List ListNotations.
Set Bullet Behavior "Strict Subproofs".
Open Scope R_scope.

Lemma ratio_close a A s S k : 0 < A -> 0 < S -> 0 <= k <= / 100 -> Rabs (a - A) <= k * A -> Rabs (s - S) <= k * S -> 0 < s /\ Rabs (a / s - A / S) <= 3 * k * (A / S).
Proof.
  intros A0 S0 K Ha Hs. apply Rabs_le_inv in Ha, Hs. assert (k * S <= / 100 * S) by (apply Rmult_le_compat_r; lra). assert (s0 : 0 < s) by lra. split; [exact s0|].
  assert (E : a / s - A / S = ((a - A) * S - A * (s - S)) / (s * S)) by (field; lra). rewrite E. unfold Rdiv at 1. rewrite Rabs_mult, (Rabs_pos_eq (/ (s * S))) by (left; apply Rinv_0_lt_compat; apply Rmult_lt_0_compat; lra).
  assert (N : Rabs ((a - A) * S - A * (s - S)) <= 2 * k * (A * S)). { apply Rabs_le. assert (0 <= (k * A - (a - A)) * S) by (apply Rmult_le_pos; lra). assert (0 <= ((a - A) + k * A) * S) by (apply Rmult_le_pos; lra). assert (0 <= A * (k * S - (s - S))) by (apply Rmult_le_pos; lra). assert (0 <= A * ((s - S) + k * S)) by (apply Rmult_le_pos; lra). lra. }
  apply Rle_trans with (2 * k * (A * S) * / (s * S)); [apply Rmult_le_compat_r; [left; apply Rinv_0_lt_compat; apply Rmult_lt_0_compat; lra|exact N]|].
  apply Rmult_le_reg_r with (s * S); [apply Rmult_lt_0_compat; lra|]. rewrite Rmult_assoc, Rinv_l, Rmult_1_r by (apply Rgt_not_eq, Rmult_lt_0_compat; lra).
  replace (3 * k * (A / S) * (s * S)) with (3 * k * (A * s)) by (field; lra). assert (A * S <= 3 / 2 * (A * s)). { replace (3 / 2 * (A * s)) with (A * (3 / 2 * s)) by ring. apply Rmult_le_compat_l; lra. }
  assert (2 * k * (A * S) <= 2 * k * (3 / 2 * (A * s))) by (apply Rmult_le_compat_l; lra). lra.
Qed.
Lemma lsum_rel {X} (f g : X -> R) k l : (forall a, In a l -> Rabs (f a - g a) <= k * g a) -> Rabs (lsum (map f l) - lsum (map g l)) <= k * lsum (map g l).
Proof.
  induction l as [|a l IH]; intros H; unfold lsum in *; cbn [map fold_right]; [rewrite Rminus_eq_0, Rabs_R0; lra|].
  specialize (IH (fun b Hb => H b (or_intror Hb))). specialize (H a (or_introl eq_refl)). set (x := fold_right Rplus 0 (map f l)) in *. set (y := fold_right Rplus 0 (map g l)) in *.
  replace (f a + x - (g a + y)) with ((f a - g a) + (x - y)) by ring. eapply Rle_trans; [apply Rabs_triang|]. lra.
Qed.
Lemma ln_2_small : ln 2 <= 7 / 10.
Proof.
  assert (Q : ln (bpow radix2 10) <= ln (exp 7)).
  { apply Rlt_le, ln_increasing; [apply bpow_gt_0|]. change (exp 7) with (exp (IZR 7)). rewrite exp_Z by lia.
    apply Rlt_le_trans with ((27165 / 10000) ^ Z.to_nat 7); [change (bpow radix2 10) with 1024; change (Z.to_nat 7) with 7%nat; unfold pow; lra|]. apply pow_incr. split; [lra|exact exp_1_lower]. }
  rewrite ln_bpow, ln_exp in Q. lra.
Qed.
Lemma ln_range_unit v : positive_unit v -> -752 <= ln (B2R v) <= 0.
Proof.
  intros [U P]. split.
  - pose proof (unit_ge_tiny v U ltac:(lra)) as T. assert (E : -752 <= ln (bpow radix2 (-1074))) by (rewrite ln_bpow; pose proof ln_2_small; lra).
    eapply Rle_trans; [exact E|]. destruct T as [T|T]; [left; apply ln_increasing; [apply bpow_gt_0|exact T]|right; rewrite T; reflexivity].
  - destruct U as [_ [_ U]]. rewrite <- ln_1. destruct U as [U|U]; [left; apply ln_increasing; assumption|right; rewrite U; reflexivity].
Qed.

Section Row.
Context (fexp flog : dbl -> dbl) (fsum : list dbl -> dbl) (He : exp_good fexp) (Hl : log_good flog) (Hs : sums fsum).
(** one free value is the exact one up to 404 2^-48, and at most 760 *)
Lemma free_entry v v0 : positive_unit v -> positive_unit v0 -> let w := fsub (flog v) (flog v0) in
  is_finite w = true /\ Rabs (B2R w) <= 760 /\ Rabs (B2R w - (ln (B2R v) - ln (B2R v0))) <= 404 * bpow radix2 (-48).
Proof.
  intros P P0. cbv zeta. pose proof (ln_range_unit v P) as L. pose proof (ln_range_unit v0 P0) as L0. destruct P as [U P]. destruct P0 as [U0 P0].
  pose proof (lg_close _ Hl v (proj1 U) P) as C. pose proof (lg_close _ Hl v0 (proj1 U0) P0) as C0. rewrite (Rabs_left1 (ln (B2R v))) in C by lra. rewrite (Rabs_left1 (ln (B2R v0))) in C0 by lra.
  assert (H48 : bpow radix2 (-48) = 4 * bpow radix2 (-50)) by (change 4 with (bpow radix2 2); rewrite <- bpow_plus; reflexivity). assert (H53 : bpow radix2 (-50) = 8 * bpow radix2 (-53)) by (change 8 with (bpow radix2 3); rewrite <- bpow_plus; reflexivity).
  assert (T : 0 < bpow radix2 (-50) <= / 1048576) by (split; [apply bpow_gt_0|change (/ 1048576) with (bpow radix2 (-20)); apply bpow_le; lia]).
  assert (C' : Rabs (B2R (flog v) - ln (B2R v)) <= 753 * bpow radix2 (-50)) by (eapply Rle_trans; [exact C|]; rewrite Rmult_comm; apply Rmult_le_compat_r; lra).
  assert (C0' : Rabs (B2R (flog v0) - ln (B2R v0)) <= 753 * bpow radix2 (-50)) by (eapply Rle_trans; [exact C0|]; rewrite Rmult_comm; apply Rmult_le_compat_r; lra).
  apply Rabs_le_inv in C', C0'. assert (D : Rabs (B2R (flog v) - B2R (flog v0)) <= 753) by (apply Rabs_le; lra).
  destruct (fsub_rel (flog v) (flog v0)) as [F E].
  - apply (log_pos flog Hl); [exact U|lra].
  - apply (log_pos flog Hl); [exact U0|lra].
  - eapply Rle_trans; [exact D|]. apply Rle_trans with (bpow radix2 10); [change (bpow radix2 10) with 1024; lra|apply bpow_le; lia].
  - assert (E' : Rabs (B2R (fsub (flog v) (flog v0)) - (B2R (flog v) - B2R (flog v0))) <= 753 * bpow radix2 (-53)).
    { eapply Rle_trans; [exact E|]. rewrite Rmult_comm. apply Rmult_le_compat; [apply Rabs_pos|unfold u; apply bpow_ge_0|exact D|right; reflexivity]. }
    apply Rabs_le_inv in E', D. split; [exact F|]. split; apply Rabs_le; lra.
Qed.
Lemma row_refresh row : (1 <= length row)%nat -> INR (length row) <= bpow radix2 20 -> List.Forall positive_unit row -> normalised row (f_constrain_simplex_row fexp flog fsum (f_unconstrain_simplex_row flog row)).
Proof.
  destruct row as [|v0 vs]; [cbn; lia|]. intros _ HK F. cbn [f_unconstrain_simplex_row]. set (free := map (fun p => fsub (flog p) (flog v0)) vs). rewrite Forall_forall in F.
  pose proof (F v0 (or_introl eq_refl)) as P0. assert (LA : length (aug free) = length (v0 :: vs)) by (unfold aug, free; cbn [length]; rewrite map_length; reflexivity).
  split; [rewrite constrain_row, map_length; exact LA|]. intros k v E.
  assert (N : List.Forall (fun a : dbl => is_finite a = true /\ Rabs (B2R a) <= 760) free).
  { apply Forall_forall. intros a I. apply in_map_iff in I. destruct I as (p & <- & I). destruct (free_entry p v0 (F p (or_intror I)) P0) as (A & B & _). split; assumption. }
  assert (Hk : (k < length (aug free))%nat) by (rewrite LA; apply nth_error_Some; rewrite E; discriminate).
  assert (M0 : 0 <= 760 <= bpow radix2 20) by (split; [lra|apply Rle_trans with (bpow radix2 10); [change (bpow radix2 10) with 1024; lra|apply bpow_le; lia]]).
  destruct (row_accuracy fexp flog fsum He Hl Hs free 760 N M0 ltac:(rewrite LA; exact HK) k Hk) as (q & Eq & Fq & A). exists q. split; [exact Eq|]. split; [exact Fq|].
  (* the exact row *)
  pose (g := fun p : dbl => B2R p / B2R v0).
  assert (S : softmax (reals free) k = exp (nth k (reals (aug free)) 0) / lsum (map exp (reals (aug free)))) by reflexivity.
  pose proof (proj2 P0) as p0.
  set (dl := 404 * bpow radix2 (-48)) in *. assert (dl0 : 0 <= dl <= / 1048576).
  { unfold dl. pose proof (bpow_gt_0 radix2 (-48)). split; [lra|]. apply Rle_trans with (bpow radix2 9 * bpow radix2 (-48)); [apply Rmult_le_compat_r; [lra|change (bpow radix2 9) with 512; lra]|]. rewrite <- bpow_plus. change (/ 1048576) with (bpow radix2 (-20)). apply bpow_le. lia. }
  assert (G : forall p a, (p = v0 /\ a = B754_zero false) \/ (In p vs /\ a = fsub (flog p) (flog v0)) -> Rabs (exp (B2R a) - g p) <= 2 * dl * g p).
  { intros p a H. assert (X : g p = exp (ln (B2R p) - ln (B2R v0)) /\ Rabs (B2R a - (ln (B2R p) - ln (B2R v0))) <= dl).
    { assert (Pp : positive_unit p) by (destruct H as [[-> _]|[I _]]; [exact P0|exact (F p (or_intror I))]). split.
      - unfold g, Rminus. rewrite exp_plus, exp_Ropp, !exp_ln; [reflexivity|exact p0|exact (proj2 Pp)].
      - destruct H as [[-> ->]|[_ ->]]; [cbn [B2R]; rewrite Rminus_eq_0, Rminus_eq_0, Rabs_R0; lra|]. exact (proj2 (proj2 (free_entry p v0 Pp P0))). }
    destruct X as [-> X]. apply exp_shift; [lra|exact X]. }
  assert (Tot : Rabs (lsum (map exp (reals (aug free))) - lsum (map g (v0 :: vs))) <= 2 * dl * lsum (map g (v0 :: vs))).
  { unfold reals, aug, free. rewrite map_map. cbn [map]. rewrite map_map. unfold lsum. cbn [fold_right].
    pose proof (G v0 (B754_zero false) (or_introl (conj eq_refl eq_refl))) as G0.
    pose proof (lsum_rel (fun p => exp (B2R (fsub (flog p) (flog v0)))) g (2 * dl) vs (fun p I => G p _ (or_intror (conj I eq_refl)))) as G1. unfold lsum in G1.
    set (x := fold_right Rplus 0 (map (fun p => exp (B2R (fsub (flog p) (flog v0)))) vs)) in *. set (y := fold_right Rplus 0 (map g vs)) in *.
    replace (exp (B2R (B754_zero false : dbl)) + x - (g v0 + y)) with ((exp (B2R (B754_zero false : dbl)) - g v0) + (x - y)) by ring. eapply Rle_trans; [apply Rabs_triang|]. lra. }
  assert (Top : Rabs (exp (nth k (reals (aug free)) 0) - g v) <= 2 * dl * g v).
  { assert (X : exists a, nth_error (aug free) k = Some a /\ ((v = v0 /\ a = B754_zero false) \/ (In v vs /\ a = fsub (flog v) (flog v0)))).
    { destruct k as [|k]; cbn [nth_error] in E; unfold aug; cbn [nth_error].
      - injection E as ->. eexists. split; [reflexivity|]. left. split; reflexivity.
      - exists (fsub (flog v) (flog v0)). unfold free. split; [exact (map_nth_error (fun p => fsub (flog p) (flog v0)) k vs E)|]. right. split; [exact (nth_error_In _ _ E)|reflexivity]. }
    destruct X as (a & Ea & X). replace (nth k (reals (aug free)) 0) with (B2R a); [exact (G v a X)|]. symmetry. apply nth_error_nth. unfold reals. rewrite nth_error_map, Ea. reflexivity. }
  assert (gpos : forall p, In p (v0 :: vs) -> 0 < g p) by (intros p I; unfold g; apply Rdiv_lt_0_compat; [exact (proj2 (F p I))|exact p0]).
  assert (spos : forall l, (forall p, In p l -> 0 < g p) -> 0 <= lsum (map g l)).
  { induction l as [|p l IH]; intros H; unfold lsum in *; cbn [map fold_right]; [lra|]. pose proof (H p (or_introl eq_refl)). specialize (IH (fun b Hb => H b (or_intror Hb))). lra. }
  assert (S0 : 0 < lsum (map g (v0 :: vs))). { pose proof (spos vs (fun p I => gpos p (or_intror I))) as Z. pose proof (gpos v0 (or_introl eq_refl)). unfold lsum in *. cbn [map fold_right]. lra. }
  destruct (ratio_close _ _ _ _ (2 * dl) (gpos v (nth_error_In _ _ E)) S0 ltac:(lra) Top Tot) as [_ Q]. rewrite <- S in Q.
  assert (Sh : g v / lsum (map g (v0 :: vs)) = share (v0 :: vs) v).
  { assert (Z : forall l, lsum (map g l) = lsum (map (fun q : dbl => B2R q) l) / B2R v0). { unfold lsum. induction l as [|p l IH]; cbn [map fold_right]; [field; lra|]. rewrite IH. unfold g. field. lra. }
    rewrite Z in S0 |- *. set (T := lsum (map (fun q : dbl => B2R q) (v0 :: vs))) in *. assert (T <> 0) by (intros C; rewrite C in S0; unfold Rdiv in S0; rewrite Rmult_0_l in S0; lra). change (B2R v / B2R v0 / (T / B2R v0) = B2R v / T). field. lra. }
  rewrite Sh in Q. assert (sh0 : 0 < share (v0 :: vs) v) by (rewrite <- Sh; apply Rdiv_lt_0_compat; [exact (gpos v (nth_error_In _ _ E))|exact S0]).
  rewrite LA in A. set (s := softmax (reals free) k) in *. set (x := share (v0 :: vs) v) in *. set (K := INR (length (v0 :: vs))) in *. assert (K0 : 0 <= K) by (unfold K; apply pos_INR).
  set (h := bpow radix2 (-48)) in *. assert (h0 : 0 < h) by apply bpow_gt_0. assert (Kh : (760 + K + 32) * h <= / 67108864).
  { apply Rle_trans with (bpow radix2 21 * h); [apply Rmult_le_compat_r; [lra|]; change (bpow radix2 20) with 1048576 in HK; change (bpow radix2 21) with 2097152; lra|]. unfold h. rewrite <- bpow_plus. change (/ 67108864) with (bpow radix2 (-26)). apply bpow_le. lia. }
  assert (e0 : 0 <= (760 + K + 32) * h) by (apply Rmult_le_pos; lra). apply Rabs_le_inv in Q. assert (s1 : s <= x + 2424 * h * x) by (unfold dl in Q; lra). assert (s2 : x - 2424 * h * x <= s) by (unfold dl in Q; lra).
  assert (B : (760 + K + 32) * h * s <= (760 + K + 32) * h * x + h * x).
  { apply Rle_trans with ((760 + K + 32) * h * (x + 2424 * h * x)); [apply Rmult_le_compat_l; lra|].
    assert ((760 + K + 32) * h * (2424 * h * x) <= / 67108864 * (2424 * h * x)) by (apply Rmult_le_compat_r; [apply Rmult_le_pos; lra|exact Kh]). assert (0 <= h * x) by (apply Rmult_le_pos; lra). lra. }
  assert (hx : 0 <= h * x) by (apply Rmult_le_pos; lra). apply Rabs_le_inv in A. apply Rabs_le. lra.
Qed.

Lemma simplex_refresh R K v0 p (val : list (list dbl)) q : fsimplex_init R K v0 = Ok p -> (1 <= K)%nat -> INR K <= bpow radix2 20 -> fsimplex_set p val = Ok q ->
  List.Forall (List.Forall positive_unit) val ->
  exists q', fsimplex_set_free fexp flog fsum q (fsimplex_get_free flog q) = Ok q' /\ length (fsimplex_get q') = R /\
    forall r row, nth_error val r = Some row -> exists probs, nth_error (fsimplex_get q') r = Some probs /\ length row = K /\ normalised row probs.
Proof.
  intros I KP HK Sq F. destruct (init_fields _ _ _ _ I) as [E1 E2]. destruct (fsimplex_set_ok p val q Sq) as (-> & L & C). rewrite E1, E2 in *.
  assert (I2 : fsimplex_init R K (Some val) = Ok (mkFS R K val)). { unfold fsimplex_init. rewrite <- Sq. unfold fsimplex_set. cbn [fs_rows fs_cols]. rewrite E1, E2. reflexivity. }
  assert (C2 : List.Forall (fun row => length row = (K - 1)%nat) (map (f_unconstrain_simplex_row flog) val)).
  { apply Forall_forall. intros w Iw. apply in_map_iff in Iw. destruct Iw as (row & <- & Ir). apply unconstrain_length. rewrite Forall_forall in C. exact (C row Ir). }
  unfold fsimplex_get_free. cbn [fs_val]. rewrite (set_free_rows fexp flog fsum R K _ _ _ I2 KP ltac:(rewrite map_length; exact L) C2). eexists. split; [reflexivity|]. cbn [fsimplex_get fs_val]. split; [rewrite !map_length; exact L|].
  intros r row Er. exists (f_constrain_simplex_row fexp flog fsum (f_unconstrain_simplex_row flog row)). rewrite !nth_error_map, Er. split; [reflexivity|]. rewrite Forall_forall in C, F. pose proof (nth_error_In _ _ Er) as Ir. pose proof (C row Ir) as Lr. split; [exact Lr|].
  apply row_refresh; [etransitivity; [exact KP|apply Nat.eq_le_incl; symmetry; exact Lr]|eapply Rle_trans; [right; exact (f_equal INR Lr)|exact HK]|exact (F row Ir)].
Qed.
End Row.

Lemma normalised_close row probs d : List.Forall positive_unit row -> normalised row probs -> Rabs (lsum (map (fun q : double => B2R q) row) - 1) <= d -> d <= / 2 ->
  forall k v q, nth_error row k = Some v -> nth_error probs k = Some q ->
  Rabs (B2R q - B2R v) <= 2 * (d + (INR (length row) + 4096) * bpow radix2 (-48)) * B2R v + bpow radix2 (-1070).
Proof.
  intros F [_ N] T D k v q Ev Eq. destruct (N k v Ev) as (q0 & E0 & _ & A). rewrite Eq in E0. injection E0 as <-. rewrite Forall_forall in F. destruct (F v (nth_error_In _ _ Ev)) as [_ P].
  unfold share in A. set (S := lsum _) in *. set (e := (INR (length row) + 4096) * bpow radix2 (-48)) in *. assert (e0 : 0 <= e) by (unfold e; apply Rmult_le_pos; [pose proof (pos_INR (length row)); lra|apply bpow_ge_0]).
  apply Rabs_le_inv in T. assert (S0 : / 2 <= S) by lra. assert (I : / S <= 2) by (replace 2 with (/ / 2) by field; apply Rinv_le_contravar; lra). assert (I0 : 0 < / S) by (apply Rinv_0_lt_compat; lra).
  assert (X : 0 <= B2R v / S <= 2 * B2R v) by (unfold Rdiv; split; [apply Rmult_le_pos; lra|rewrite Rmult_comm; apply Rmult_le_compat_r; lra]).
  assert (Y : Rabs (B2R v / S - B2R v) <= 2 * d * B2R v).
  { replace (B2R v / S - B2R v) with ((B2R v / S) * (1 - S)) by (field; lra). rewrite Rabs_mult, (Rabs_pos_eq (B2R v / S)) by lra. replace (2 * d * B2R v) with ((2 * B2R v) * d) by ring. apply Rmult_le_compat; [lra|apply Rabs_pos|lra|apply Rabs_le; lra]. }
  assert (Z : e * (B2R v / S) <= e * (2 * B2R v)) by (apply Rmult_le_compat_l; lra). apply Rabs_le_inv in A, Y. apply Rabs_le. lra.
Qed.
