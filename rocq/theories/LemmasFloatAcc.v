(** Proofs about the accuracy of scalar, vector and array parameters in binary64. *)
From Coq Require Import Reals ZArith List Lra Lia Psatz Bool.
From Flocq Require Import Core BinarySingleNaN Relative Plus_error.
From Verif Require Import Res RSum SpecFloat SpecFloatSimplex SpecFloatAcc ModelFloat LemmasFloat LemmasFloat2 LemmasFloat3 LemmasFloat4 LemmasFloatSimplex LemmasFloatSimplex2.
Import List ListNotations.
Set Bullet Behavior "Strict Subproofs".
Open Scope R_scope.

Lemma units_u k : units k = k * u. Proof. reflexivity. Qed.
Lemma u_small : u <= / 9000000000000000. Proof. rewrite u_val. apply Rinv_le; lra. Qed.
(** u = 2^-53, opened for estimates *)
Ltac small_u := pose proof u_pos; pose proof u_small.

Lemma rel_trans a b c k j : 0 <= b -> 0 <= j -> Rabs (a - b) <= k * b -> Rabs (c - a) <= j * Rabs a -> Rabs (c - b) <= (k + j + k * j) * b.
Proof.
  intros Hb Hj H1 H2. replace (c - b) with ((c - a) + (a - b)) by ring. eapply Rle_trans; [apply Rabs_triang|].
  assert (A : Rabs a <= (1 + k) * b). { replace a with ((a - b) + b) by ring. eapply Rle_trans; [apply Rabs_triang|]. rewrite (Rabs_pos_eq b) by lra. lra. }
  apply Rmult_le_compat_l with (r := j) in A; [|exact Hj]. lra.
Qed.

Section Acc.
Context (fexp flog : dbl -> dbl) (He : exp_good fexp) (Hl : log_good flog).

Lemma exp_calm_bounds X : Rabs X <= 300 -> bpow radix2 (-476) <= exp X <= bpow radix2 476.
Proof.
  intros B. apply Rabs_le_inv in B. pose proof exp_300 as E3. split.
  - replace X with (- - X) by ring. rewrite exp_Ropp. change (-476)%Z with (- (476))%Z. rewrite bpow_opp. apply Rinv_le; [apply exp_pos|].
    eapply Rle_trans; [apply exp_le'|exact E3]. lra.
  - eapply Rle_trans; [apply exp_le'|exact E3]. lra.
Qed.
Lemma exp_tight x : calm x -> is_finite (fexp x) = true /\ Bsign (fexp x) = false /\ 0 <= B2R (fexp x) <= bpow radix2 500 /\
  Rabs (B2R (fexp x) - exp (B2R x)) <= 9 * u * exp (B2R x).
Proof.
  intros [F B]. assert (M : moderate x) by (right; split; [exact F|apply Rabs_le_inv in B; lra]).
  destruct (exp_moderate _ _ (eg_ok _ He) M) as (Fe & Se & E0 & E1). split; [exact Fe|]. split; [exact Se|]. split; [split; assumption|].
  pose proof (exp_calm_bounds _ B) as [L U].
  eapply Rle_trans; [apply (eg_close _ He x F); eapply Rle_trans; [exact U|apply bpow_le; lia]|].
  fold eta tiny. rewrite eta_u. assert (T : tiny <= u * bpow radix2 (-476)) by (unfold tiny, u; rewrite <- bpow_plus; apply bpow_le; lia).
  small_u. assert (u * bpow radix2 (-476) <= u * exp (B2R x)) by (apply Rmult_le_compat_l; lra). lra.
Qed.
Lemma bp1000 a b : Rabs a <= bpow radix2 500 -> Rabs b <= bpow radix2 501 -> Rabs (a + b) <= bpow radix2 1000 /\ Rabs (a - b) <= bpow radix2 1000 /\ Rabs (b - a) <= bpow radix2 1000.
Proof.
  intros A B. assert (T : bpow radix2 501 + bpow radix2 501 <= bpow radix2 1000).
  { replace (bpow radix2 501 + bpow radix2 501) with (bpow radix2 1 * bpow radix2 501) by (change (bpow radix2 1) with 2; ring). rewrite <- bpow_plus. apply bpow_le. lia. }
  assert (T' : bpow radix2 500 <= bpow radix2 501) by (apply bpow_le; lia).
  apply Rabs_le_inv in A. apply Rabs_le_inv in B. split; [|split]; apply Rabs_le; lra.
Qed.

(** a lower bound only *)
Lemma lower_value v lb : calm v -> bounded500 lb -> let r := f_constrain_entry fexp v lb f_inf in
  is_finite r = true /\ Rabs (B2R r - (exp (B2R v) + B2R lb)) <= units 10 * exp (B2R v) + units 1 * Rabs (exp (B2R v) + B2R lb).
Proof.
  intros C [Fl Bl] r. unfold r. rewrite constrain_lower by exact Fl. destruct (exp_tight v C) as (Fe & _ & [E0 E1] & Ee).
  destruct (fadd_rel (fexp v) lb Fe Fl) as [A B].
  { rewrite Rplus_comm. apply bp1000; [exact Bl|]. rewrite Rabs_pos_eq by exact E0. eapply Rle_trans; [exact E1|apply bpow_le; lia]. }
  split; [exact A|]. rewrite !units_u. set (e := B2R (fexp v)) in *. set (E := exp (B2R v)) in *. assert (EP : 0 < E) by apply exp_pos.
  replace (B2R (fadd (fexp v) lb) - (E + B2R lb)) with ((B2R (fadd (fexp v) lb) - (e + B2R lb)) + (e - E)) by ring.
  eapply Rle_trans; [apply Rabs_triang|].
  assert (T : Rabs (e + B2R lb) <= Rabs (E + B2R lb) + 9 * u * E).
  { replace (e + B2R lb) with ((E + B2R lb) + (e - E)) by ring. eapply Rle_trans; [apply Rabs_triang|]. lra. }
  small_u. apply Rmult_le_compat_l with (r := u) in T; [|lra].
  assert (Q : 9 * u * E <= 1 * E) by (apply Rmult_le_compat_r; lra). apply Rmult_le_compat_l with (r := u) in Q; lra.
Qed.
(** values accurate to err come back as free values accurate to 2 err / exp x, plus the error of log *)
Lemma log_back (d : dbl) X k : Rabs X <= 300 -> is_finite d = true -> 0 <= k <= / 2 -> Rabs (B2R d - exp X) <= k * exp X ->
  is_finite (flog d) = true /\ Rabs (B2R (flog d) - X) <= 2 * k + 8 * u * (2 + Rabs X).
Proof.
  intros BX Fd Hk H. destruct (ln_ratio (B2R d) (exp X) k (exp_pos X) Hk H) as [P L]. rewrite ln_exp in L.
  split; [exact (log_finite _ (lg_ok _ Hl) d Fd P)|].
  pose proof (lg_close _ Hl d Fd P) as C. fold eta in C. rewrite eta_u in C.
  assert (Q : Rabs (ln (B2R d)) <= 1 + Rabs X). { replace (ln (B2R d)) with ((ln (B2R d) - X) + X) by ring. eapply Rle_trans; [apply Rabs_triang|]. lra. }
  replace (B2R (flog d) - X) with ((B2R (flog d) - ln (B2R d)) + (ln (B2R d) - X)) by ring. eapply Rle_trans; [apply Rabs_triang|].
  small_u. assert (8 * u * (1 + Rabs (ln (B2R d))) <= 8 * u * (2 + Rabs X)) by (apply Rmult_le_compat_l; lra). lra.
Qed.
Lemma lower_back v lb : calm v -> bounded500 lb -> Rabs (B2R lb) <= bpow radix2 40 * exp (B2R v) ->
  let w := f_unconstrain_entry flog (f_constrain_entry fexp v lb f_inf) lb f_inf in
  is_finite w = true /\ Rabs (B2R w - B2R v) <= units 64 * (1 + Rabs (B2R v) + Rabs (B2R lb) / exp (B2R v)).
Proof.
  intros C Bd H w. destruct (lower_value v lb C Bd) as [Fr Er]. set (r := f_constrain_entry fexp v lb f_inf) in *. destruct C as [Fv Bv]. destruct Bd as [Fl Bl].
  unfold w. rewrite unconstrain_lower by exact Fl. rewrite !units_u in *. set (E := exp (B2R v)) in *. assert (EP : 0 < E) by apply exp_pos.
  pose proof (exp_calm_bounds _ Bv) as [_ EU]. fold E in EU. small_u.
  set (c := Rabs (B2R lb) / E). assert (Hc : Rabs (B2R lb) = c * E) by (unfold c; field; lra).
  assert (c0 : 0 <= c). { apply Rmult_le_pos; [apply Rabs_pos|]. left. apply Rinv_0_lt_compat. exact EP. }
  assert (c1 : c <= bpow radix2 40). { rewrite Hc in H. apply Rmult_le_reg_r with E; [exact EP|exact H]. }
  assert (c2 : c * u <= / 8192). { apply Rle_trans with (bpow radix2 40 * u); [apply Rmult_le_compat_r; lra|]. unfold u. rewrite <- bpow_plus. right. reflexivity. }
  assert (D : Rabs (B2R r - B2R lb - E) <= (12 + c) * u * E).
  { replace (B2R r - B2R lb - E) with (B2R r - (E + B2R lb)) by ring. eapply Rle_trans; [exact Er|].
    assert (T : Rabs (E + B2R lb) <= (1 + c) * E). { eapply Rle_trans; [apply Rabs_triang|]. rewrite (Rabs_pos_eq E), Hc by lra. lra. }
    apply Rmult_le_compat_l with (r := 1 * u) in T; [|lra]. assert (0 < u * E) by (apply Rmult_lt_0_compat; lra). lra. }
  assert (Rb : Rabs (B2R r - B2R lb) <= bpow radix2 1000).
  { apply Rle_trans with (2 * E).
    - replace (B2R r - B2R lb) with ((B2R r - B2R lb - E) + E) by ring. eapply Rle_trans; [apply Rabs_triang|]. rewrite (Rabs_pos_eq E) by lra. nra.
    - apply Rle_trans with (bpow radix2 1 * bpow radix2 476); [change (bpow radix2 1) with 2; lra|]. rewrite <- bpow_plus. apply bpow_le. lia. }
  destruct (fsub_rel r lb Fr Fl Rb) as [Fd Ed].
  pose proof (rel_trans (B2R r - B2R lb) E (B2R (fsub r lb)) ((12 + c) * u) u ltac:(lra) ltac:(lra) D Ed) as T.
  destruct (log_back (fsub r lb) (B2R v) ((14 + 2 * c) * u) Bv Fd) as [Fw Ew].
  - split; [nra|]. nra.
  - eapply Rle_trans; [exact T|]. apply Rmult_le_compat_r; [fold E; lra|]. nra.
  - split; [exact Fw|]. eapply Rle_trans; [exact Ew|]. pose proof (Rabs_pos (B2R v)). nra.
Qed.
(** an upper bound only *)
Lemma neg_calm v : calm v -> calm (fmul f_mone v) /\ B2R (fmul f_mone v) = - B2R v.
Proof. intros [F B]. destruct (fmul_mone v F) as (E & G & _). split; [split; [exact G|]|exact E]. rewrite E, Rabs_Ropp. exact B. Qed.
Lemma upper_value v ub : calm v -> bounded500 ub -> let r := f_constrain_entry fexp v f_ninf ub in
  is_finite r = true /\ Rabs (B2R r - (B2R ub - exp (- B2R v))) <= units 10 * exp (- B2R v) + units 1 * Rabs (B2R ub - exp (- B2R v)).
Proof.
  intros C [Fl Bl] r. unfold r. rewrite constrain_upper by exact Fl. destruct (neg_calm v C) as [C' N]. destruct (exp_tight _ C') as (Fe & _ & [E0 E1] & Ee). rewrite N in Ee.
  set (f := fexp (fmul f_mone v)) in *. destruct (fsub_rel ub f Fl Fe) as [A B].
  { apply (proj1 (proj2 (bp1000 (B2R ub) _ Bl ltac:(rewrite Rabs_pos_eq by exact E0; eapply Rle_trans; [exact E1|apply bpow_le; lia])))). }
  split; [exact A|]. rewrite !units_u. set (e := B2R f) in *. set (E := exp (- B2R v)) in *. assert (EP : 0 < E) by apply exp_pos.
  replace (B2R (fsub ub f) - (B2R ub - E)) with ((B2R (fsub ub f) - (B2R ub - e)) + - (e - E)) by ring.
  eapply Rle_trans; [apply Rabs_triang|]. rewrite Rabs_Ropp.
  assert (T : Rabs (B2R ub - e) <= Rabs (B2R ub - E) + 9 * u * E).
  { replace (B2R ub - e) with ((B2R ub - E) + - (e - E)) by ring. eapply Rle_trans; [apply Rabs_triang|]. rewrite Rabs_Ropp. lra. }
  small_u. apply Rmult_le_compat_l with (r := u) in T; [|lra].
  assert (Q : 9 * u * E <= 1 * E) by (apply Rmult_le_compat_r; lra). apply Rmult_le_compat_l with (r := u) in Q; lra.
Qed.
Lemma upper_back v ub : calm v -> bounded500 ub -> Rabs (B2R ub) <= bpow radix2 40 * exp (- B2R v) ->
  let w := f_unconstrain_entry flog (f_constrain_entry fexp v f_ninf ub) f_ninf ub in
  is_finite w = true /\ Rabs (B2R w - B2R v) <= units 64 * (1 + Rabs (B2R v) + Rabs (B2R ub) / exp (- B2R v)).
Proof.
  intros C Bd H w. destruct (upper_value v ub C Bd) as [Fr Er]. set (r := f_constrain_entry fexp v f_ninf ub) in *. destruct C as [Fv Bv]. destruct Bd as [Fl Bl].
  unfold w. rewrite unconstrain_upper by exact Fl. rewrite !units_u in *. set (E := exp (- B2R v)) in *. assert (EP : 0 < E) by apply exp_pos.
  assert (Bv' : Rabs (- B2R v) <= 300) by (rewrite Rabs_Ropp; exact Bv).
  pose proof (exp_calm_bounds _ Bv') as [_ EU]. fold E in EU. small_u.
  set (c := Rabs (B2R ub) / E). assert (Hc : Rabs (B2R ub) = c * E) by (unfold c; field; lra).
  assert (c0 : 0 <= c). { apply Rmult_le_pos; [apply Rabs_pos|]. left. apply Rinv_0_lt_compat. exact EP. }
  assert (c1 : c <= bpow radix2 40). { rewrite Hc in H. apply Rmult_le_reg_r with E; [exact EP|exact H]. }
  assert (c2 : c * u <= / 8192). { apply Rle_trans with (bpow radix2 40 * u); [apply Rmult_le_compat_r; lra|]. unfold u. rewrite <- bpow_plus. right. reflexivity. }
  assert (D : Rabs (B2R ub - B2R r - E) <= (12 + c) * u * E).
  { replace (B2R ub - B2R r - E) with (- (B2R r - (B2R ub - E))) by ring. rewrite Rabs_Ropp. eapply Rle_trans; [exact Er|].
    assert (T : Rabs (B2R ub - E) <= (1 + c) * E). { eapply Rle_trans; [apply Rabs_triang|]. rewrite Rabs_Ropp, (Rabs_pos_eq E), Hc by lra. lra. }
    apply Rmult_le_compat_l with (r := 1 * u) in T; [|lra]. assert (0 < u * E) by (apply Rmult_lt_0_compat; lra). lra. }
  assert (Rb : Rabs (B2R ub - B2R r) <= bpow radix2 1000).
  { apply Rle_trans with (2 * E).
    - replace (B2R ub - B2R r) with ((B2R ub - B2R r - E) + E) by ring. eapply Rle_trans; [apply Rabs_triang|]. rewrite (Rabs_pos_eq E) by lra. nra.
    - apply Rle_trans with (bpow radix2 1 * bpow radix2 476); [change (bpow radix2 1) with 2; lra|]. rewrite <- bpow_plus. apply bpow_le. lia. }
  destruct (fsub_rel ub r Fl Fr Rb) as [Fd Ed].
  pose proof (rel_trans (B2R ub - B2R r) E (B2R (fsub ub r)) ((12 + c) * u) u ltac:(lra) ltac:(lra) D Ed) as T.
  destruct (log_back (fsub ub r) (- B2R v) ((14 + 2 * c) * u) Bv' Fd) as [Fw Ew].
  - split; [nra|]. nra.
  - eapply Rle_trans; [exact T|]. apply Rmult_le_compat_r; [fold E; lra|]. nra.
  - destruct (fmul_mone _ Fw) as (Ew' & Fw' & _). split; [exact Fw'|]. rewrite Ew'. rewrite Rabs_Ropp in Ew.
    replace (- B2R (flog (fsub ub r)) - B2R v) with (- (B2R (flog (fsub ub r)) - - B2R v)) by ring. rewrite Rabs_Ropp.
    eapply Rle_trans; [exact Ew|]. pose proof (Rabs_pos (B2R v)). nra.
Qed.

(** ln of something between 2^-n and 2^n *)
Lemma ln_range n A : (0 <= n)%Z -> bpow radix2 (- n) <= A <= bpow radix2 n -> Rabs (ln A) <= 7 / 10 * IZR n.
Proof.
  intros Hn [L U]. pose proof (bpow_gt_0 radix2 (- n)) as P. assert (PA : 0 < A) by lra. apply IZR_le in Hn.
  assert (L2 : ln 2 <= 7 / 10).
  { assert (Q : ln (bpow radix2 10) <= ln (exp 7)).
    { apply Rlt_le, ln_increasing; [apply bpow_gt_0|]. change (exp 7) with (exp (IZR 7)). rewrite exp_Z by lia.
      apply Rlt_le_trans with ((27165 / 10000) ^ Z.to_nat 7); [change (bpow radix2 10) with 1024; change (Z.to_nat 7) with 7%nat; unfold pow; lra|]. apply pow_incr. split; [lra|exact exp_1_lower]. }
    rewrite ln_bpow, ln_exp in Q. lra. }
  assert (H1 : ln A <= IZR n * ln 2).
  { rewrite <- ln_bpow. destruct (Rle_lt_or_eq_dec _ _ U) as [U'|U']; [left; apply ln_increasing; assumption|rewrite U'; right; reflexivity]. }
  assert (H2 : IZR (- n) * ln 2 <= ln A).
  { rewrite <- ln_bpow. destruct (Rle_lt_or_eq_dec _ _ L) as [U'|U']; [left; apply ln_increasing; assumption|rewrite <- U'; right; reflexivity]. }
  rewrite opp_IZR in H2. apply Rabs_le. assert (IZR n * ln 2 <= IZR n * (7 / 10)) by (apply Rmult_le_compat_l; assumption). lra.
Qed.
Lemma ln_400 A : bpow radix2 (-400) <= A <= bpow radix2 400 -> Rabs (ln A) <= 280.
Proof. intros R. pose proof (ln_range 400 A ltac:(lia) R). lra. Qed.
(** the logarithm of an accurate difference, in the form log of the exact one plus an error *)
Lemma log_diff (d : dbl) A : bpow radix2 (-400) <= A <= bpow radix2 400 -> is_finite d = true -> Rabs (B2R d - A) <= u * A ->
  is_finite (flog d) = true /\ Rabs (B2R (flog d) - ln A) <= 11 * u * (1 + Rabs (ln A)) /\ Rabs (ln A) <= 280.
Proof.
  intros R Fd H. pose proof (ln_400 A R) as L. pose proof (bpow_gt_0 radix2 (-400)) as P. assert (PA : 0 < A) by lra. small_u.
  destruct (log_back d (ln A) u) as [F B]; [lra|exact Fd|lra|rewrite exp_ln by exact PA; exact H|].
  split; [exact F|]. split; [|exact L].
  destruct (ln_ratio (B2R d) A u PA ltac:(lra) H) as [Pd Ld].
  pose proof (lg_close _ Hl d Fd Pd) as C. fold eta in C. rewrite eta_u in C.
  assert (Q : Rabs (ln (B2R d)) <= Rabs (ln A) + 2 * u). { replace (ln (B2R d)) with ((ln (B2R d) - ln A) + ln A) by ring. eapply Rle_trans; [apply Rabs_triang|]. lra. }
  replace (B2R (flog d) - ln A) with ((B2R (flog d) - ln (B2R d)) + (ln (B2R d) - ln A)) by ring. eapply Rle_trans; [apply Rabs_triang|].
  apply Rmult_le_compat_l with (r := 8 * u) in Q; [|lra]. pose proof (Rabs_pos (ln A)). nra.
Qed.
(** exp of an accurate logarithm *)
Lemma exp_again (g : dbl) A : bpow radix2 (-400) <= A <= bpow radix2 400 -> is_finite g = true -> Rabs (B2R g - ln A) <= 11 * u * (1 + Rabs (ln A)) ->
  calm g /\ is_finite (fexp g) = true /\ 0 <= B2R (fexp g) <= bpow radix2 500 /\ Rabs (B2R (fexp g) - A) <= 32 * u * (1 + Rabs (ln A)) * A.
Proof.
  intros R Fg H. pose proof (ln_400 A R) as L. pose proof (bpow_gt_0 radix2 (-400)) as P. assert (PA : 0 < A) by lra. small_u. set (l := Rabs (ln A)) in *.
  assert (l0 : 0 <= l) by apply Rabs_pos. assert (K : 0 <= 11 * u * (1 + l) <= / 1000) by (split; [apply Rmult_le_pos; lra|apply Rle_trans with (11 * u * 281); [apply Rmult_le_compat_l; lra|lra]]).
  assert (C : calm g). { split; [exact Fg|]. replace (B2R g) with ((B2R g - ln A) + ln A) by ring. eapply Rle_trans; [apply Rabs_triang|]. fold l. lra. }
  destruct (exp_tight g C) as (Fe & _ & Be & Ee). split; [exact C|]. split; [exact Fe|]. split; [exact Be|].
  pose proof (exp_shift (B2R g) (ln A) (11 * u * (1 + l)) ltac:(lra) H) as S. rewrite exp_ln in S by exact PA.
  assert (Ee' : Rabs (B2R (fexp g) - exp (B2R g)) <= 9 * u * Rabs (exp (B2R g))) by (rewrite (Rabs_pos_eq (exp (B2R g))) by (left; apply exp_pos); exact Ee).
  pose proof (rel_trans (exp (B2R g)) A (B2R (fexp g)) (2 * (11 * u * (1 + l))) (9 * u) ltac:(lra) ltac:(lra) S Ee') as T.
  eapply Rle_trans; [exact T|]. apply Rmult_le_compat_r; [lra|].
  assert (22 * u * (1 + l) * (9 * u) <= u * (1 + l)). { replace (22 * u * (1 + l) * (9 * u)) with ((198 * u) * (u * (1 + l))) by ring. rewrite <- (Rmult_1_l (u * (1 + l))) at 2. apply Rmult_le_compat_r; [apply Rmult_le_pos; lra|lra]. }
  assert (0 <= u * l) by (apply Rmult_le_pos; lra). lra.
Qed.
Lemma lower_forth v lb : is_finite v = true -> bounded500 lb -> bpow radix2 (-400) <= B2R v - B2R lb <= bpow radix2 400 ->
  let r := f_constrain_entry fexp (f_unconstrain_entry flog v lb f_inf) lb f_inf in
  is_finite r = true /\ Rabs (B2R r - B2R v) <= units 33 * (1 + Rabs (ln (B2R v - B2R lb))) * (B2R v - B2R lb) + units 1 * Rabs (B2R v).
Proof.
  intros Fv [Fl Bl] R r. unfold r. rewrite constrain_lower, unconstrain_lower by exact Fl. rewrite !units_u. small_u.
  pose proof (bpow_gt_0 radix2 (-400)) as P. set (A := B2R v - B2R lb) in *. set (l := Rabs (ln A)). assert (l0 : 0 <= l) by apply Rabs_pos.
  destruct (fsub_rel v lb Fv Fl) as [Fd Ed]. { fold A. rewrite Rabs_pos_eq by lra. eapply Rle_trans; [apply R|apply bpow_le; lia]. }
  fold A in Ed. rewrite (Rabs_pos_eq A) in Ed by lra.
  destruct (log_diff _ A R Fd Ed) as (Fg & Eg & L). destruct (exp_again _ A R Fg Eg) as (_ & Fe & [E0 E1] & Ee). fold l in Ee, L.
  set (e := fexp (flog (fsub v lb))) in *. destruct (fadd_rel e lb Fe Fl) as [Fs Es].
  { rewrite Rplus_comm. apply bp1000; [exact Bl|]. rewrite Rabs_pos_eq by exact E0. eapply Rle_trans; [exact E1|apply bpow_le; lia]. }
  split; [exact Fs|]. replace (B2R (fadd e lb) - B2R v) with ((B2R (fadd e lb) - (B2R e + B2R lb)) + (B2R e - A)) by (unfold A; ring).
  eapply Rle_trans; [apply Rabs_triang|].
  assert (T : Rabs (B2R e + B2R lb) <= Rabs (B2R v) + 32 * u * (1 + l) * A).
  { replace (B2R e + B2R lb) with (B2R v + (B2R e - A)) by (unfold A; ring). eapply Rle_trans; [apply Rabs_triang|]. lra. }
  apply Rmult_le_compat_l with (r := u) in T; [|lra].
  assert (Q : u * (32 * u * (1 + l) * A) <= u * ((1 + l) * A)). { apply Rmult_le_compat_l; [lra|]. rewrite Rmult_assoc. assert (0 <= (1 + l) * A) by (apply Rmult_le_pos; lra). nra. }
  lra.
Qed.
Lemma upper_forth v ub : is_finite v = true -> bounded500 ub -> bpow radix2 (-400) <= B2R ub - B2R v <= bpow radix2 400 ->
  let r := f_constrain_entry fexp (f_unconstrain_entry flog v f_ninf ub) f_ninf ub in
  is_finite r = true /\ Rabs (B2R r - B2R v) <= units 33 * (1 + Rabs (ln (B2R ub - B2R v))) * (B2R ub - B2R v) + units 1 * Rabs (B2R v).
Proof.
  intros Fv [Fl Bl] R r. unfold r. rewrite constrain_upper, unconstrain_upper by exact Fl. rewrite !units_u. small_u.
  pose proof (bpow_gt_0 radix2 (-400)) as P. set (A := B2R ub - B2R v) in *. set (l := Rabs (ln A)). assert (l0 : 0 <= l) by apply Rabs_pos.
  destruct (fsub_rel ub v Fl Fv) as [Fd Ed]. { fold A. rewrite Rabs_pos_eq by lra. eapply Rle_trans; [apply R|apply bpow_le; lia]. }
  fold A in Ed. rewrite (Rabs_pos_eq A) in Ed by lra.
  destruct (log_diff _ A R Fd Ed) as (Fg & Eg & L). rewrite !fmul_mone_opp, Bopp_involutive. destruct (exp_again _ A R Fg Eg) as (_ & Fe & [E0 E1] & Ee). fold l in Ee, L.
  set (e := fexp (flog (fsub ub v))) in *. destruct (fsub_rel ub e Fl Fe) as [Fs Es].
  { apply (proj1 (proj2 (bp1000 (B2R ub) _ Bl ltac:(rewrite Rabs_pos_eq by exact E0; eapply Rle_trans; [exact E1|apply bpow_le; lia])))). }
  split; [exact Fs|]. replace (B2R (fsub ub e) - B2R v) with ((B2R (fsub ub e) - (B2R ub - B2R e)) + - (B2R e - A)) by (unfold A; ring).
  eapply Rle_trans; [apply Rabs_triang|]. rewrite Rabs_Ropp.
  assert (T : Rabs (B2R ub - B2R e) <= Rabs (B2R v) + 32 * u * (1 + l) * A).
  { replace (B2R ub - B2R e) with (B2R v + - (B2R e - A)) by (unfold A; ring). eapply Rle_trans; [apply Rabs_triang|]. rewrite Rabs_Ropp. lra. }
  apply Rmult_le_compat_l with (r := u) in T; [|lra].
  assert (Q : u * (32 * u * (1 + l) * A) <= u * ((1 + l) * A)). { apply Rmult_le_compat_l; [lra|]. rewrite Rmult_assoc. assert (0 <= (1 + l) * A) by (apply Rmult_le_pos; lra). nra. }
  lra.
Qed.
End Acc.
