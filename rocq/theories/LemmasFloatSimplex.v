(** Proofs about simplex parameters in binary64: range, NaN and infinities. *)
From Coq Require Import Reals ZArith List Lra Lia Psatz Bool Permutation.
From Flocq Require Import Core BinarySingleNaN Relative Plus_error.
From Verif Require Import Res RSum SpecFloat ModelFloat LemmasFloat LemmasFloat2 LemmasFloat3 LemmasFloat4 SpecFloatSimplex ModelFloatSimplex.
Import List ListNotations.
Set Bullet Behavior "Strict Subproofs".
Open Scope R_scope.

Lemma done_B2R : B2R done = 1.
Proof. apply (Bone_correct 53 1024). Qed.
Lemma done_finite : is_finite done = true.
Proof. reflexivity. Qed.

Lemma dle_refl (x : double) : number x -> dle x x.
Proof. destruct x as [[]|[]| |[] m e B]; cbn; intros; try discriminate; auto; lra. Qed.
Lemma dle_trans (x y z : double) : dle x y -> dle y z -> dle x z.
Proof.
  destruct x as [[]|[]| |[] m e B]; destruct y as [[]|[]| |[] m' e' B']; destruct z as [[]|[]| |[] m'' e'' B''];
    cbn; intros; try contradiction; try exact I; lra.
Qed.
Lemma dle_total (x y : double) : number x -> number y -> dle x y \/ dle y x.
Proof.
  destruct x as [[]|[]| |[] m e B]; destruct y as [[]|[]| |[] m' e' B']; cbn; intros; try discriminate; auto; try lra; apply Rle_or_lt || idtac;
  match goal with |- ?a <= ?b \/ _ => destruct (Rle_or_lt a b); [left|right]; lra end.
Qed.

(** a number that is not negative (either zero included) *)
Definition nonneg (x : double) : Prop := dle (B754_zero false) x.
Lemma nonneg_cases x : nonneg x -> x = B754_infinity false \/ (is_finite x = true /\ 0 <= B2R x).
Proof. destruct x as [[]|[]| |[] m e B]; cbn; intros; try contradiction; auto; right; split; auto; lra. Qed.
Lemma nonneg_finite x : is_finite x = true -> 0 <= B2R x -> nonneg x.
Proof. intros F H. apply dle_finite; auto. Qed.
Lemma sign_nonneg x : number x -> Bsign x = false -> nonneg x.
Proof. intros N S. destruct (number_pos_cases x N S) as [[F H]| ->]; [apply nonneg_finite; auto|exact I]. Qed.

Lemma rnd64_ge_id (x : dbl) r : B2R x <= r -> B2R x <= rnd64 r.
Proof. intros H. rewrite <- (rnd64_id x). apply rnd64_le. exact H. Qed.
Lemma rnd64_le_id (x : dbl) r : r <= B2R x -> rnd64 r <= B2R x.
Proof. intros H. rewrite <- (rnd64_id x). apply rnd64_le. exact H. Qed.

(** adding a non-negative number to a number above -inf *)
Lemma fadd_up (e m : dbl) : nonneg e -> is_finite m = true -> dle m (fadd e m) /\ not_up m.
Proof.
  intros N F. split; [|split; [apply finite_number; exact F|intros ->; discriminate]].
  destruct (nonneg_cases e N) as [->|[Fe He]].
  - replace (fadd (B754_infinity false) m) with (B754_infinity false : dbl) by (destruct m as [[]|[]| |[] ? ? ?]; try discriminate; reflexivity).
    apply dle_inf. apply finite_number. exact F.
  - destruct (fadd_cases e m Fe F) as [(A & E & G & _)|(A & E & S)].
    + apply dle_finite; auto. rewrite E. apply rnd64_ge_id. lra.
    + rewrite E. destruct (Bsign e) eqn:Se.
      * exfalso. assert (Z : B2R e = 0).
        { destruct e as [[]|[]| |[] k x B]; try discriminate; try reflexivity. exfalso.
          assert (H : F2R (beta := radix2) {| Fnum := Z.neg k; Fexp := x |} < 0) by (apply F2R_lt_0; cbn; lia). cbn in H, He. lra. }
        rewrite Z, Rplus_0_l, rnd64_id in A. pose proof (abs_B2R_lt m). lra.
      * apply dle_inf. apply finite_number. exact F.
Qed.

(** sums of non-negative numbers *)
Lemma fadd_nonneg (a b : dbl) : nonneg a -> nonneg b -> nonneg (fadd a b) /\ dle a (fadd a b) /\ dle b (fadd a b).
Proof.
  intros Na Nb. destruct (nonneg_cases a Na) as [->|[Fa Ha]].
  - replace (fadd (B754_infinity false) b) with (B754_infinity false : dbl).
    + split; [exact I|]. split; [exact I|]. apply dle_inf. destruct (dle_number _ _ Nb); auto.
    + destruct b as [[]|[]| |[] ? ? ?]; try contradiction; reflexivity.
  - destruct (nonneg_cases b Nb) as [->|[Fb Hb]].
    + replace (fadd a (B754_infinity false)) with (B754_infinity false : dbl).
      * split; [exact I|]. split; [|exact I]. apply dle_inf. apply finite_number. exact Fa.
      * destruct a as [[]|[]| |[] ? ? ?]; try discriminate; reflexivity.
    + destruct (fadd_cases a b Fa Fb) as [(A & E & G & _)|(A & E & S)].
      * assert (B2R a <= B2R (fadd a b)) by (rewrite E; apply rnd64_ge_id; lra).
        assert (B2R b <= B2R (fadd a b)) by (rewrite E; apply rnd64_ge_id; lra).
        split; [apply nonneg_finite; auto; lra|]. split; apply dle_finite; auto.
      * assert (Sa : Bsign a = false).
        { destruct (Bsign a) eqn:Sa; auto. exfalso. symmetry in S.
          assert (Z : forall x : dbl, Bsign x = true -> is_finite x = true -> 0 <= B2R x -> B2R x = 0).
          { intros [[]|[]| |[] k x B] Sx Fx Hx; try discriminate; try reflexivity. exfalso.
            assert (H : F2R (beta := radix2) {| Fnum := Z.neg k; Fexp := x |} < 0) by (apply F2R_lt_0; cbn; lia). cbn in H, Hx. lra. }
          rewrite (Z a), (Z b) in A by auto. rewrite Rplus_0_l, rnd64_0, Rabs_R0 in A. pose proof (bpow_gt_0 radix2 1024). lra. }
        rewrite E, Sa. split; [exact I|]. split; apply dle_inf; apply finite_number; auto.
Qed.

Lemma sum_of_nonneg l s : sum_of l s -> Forall nonneg l -> nonneg s /\ (forall x, In x l -> dle x s).
Proof.
  induction 1 as [|x|l l1 l2 a b P S1 IH1 S2 IH2]; intros F.
  - split; [cbn; lra|]. intros x [].
  - inversion F; subst. split; auto. intros y [<-|[]]. apply dle_refl. destruct (dle_number _ _ H1); auto.
  - assert (F' : Forall nonneg (l1 ++ l2)) by (eapply Permutation_Forall; eauto).
    apply Forall_app in F'. destruct F' as [F1 F2]. destruct (IH1 F1) as [N1 M1]. destruct (IH2 F2) as [N2 M2].
    destruct (fadd_nonneg a b N1 N2) as (N & A & B). change (Bplus mode_NE a b) with (fadd a b).
    split; auto. intros x I. apply (Permutation_in _ P) in I. apply in_app_or in I. destruct I as [I|I].
    + eapply dle_trans; [apply M1; exact I|exact A].
    + eapply dle_trans; [apply M2; exact I|exact B].
Qed.

(** differences that are not positive *)
Lemma fsub_nonpos (a b : dbl) : dle a b -> not_up a -> b <> B754_infinity true -> dle (fsub a b) (B754_zero false).
Proof.
  intros L [Na Ua] Ub. destruct (dle_number _ _ L) as [_ Nb].
  destruct (is_finite a) eqn:Fa; destruct (is_finite b) eqn:Fb.
  - apply dle_finite in L; auto. destruct (fsub_cases a b Fa Fb) as [(A & E & G & _)|(A & E & S)].
    + apply dle_finite; auto. rewrite E. cbn. rewrite <- rnd64_0. apply rnd64_le. lra.
    + rewrite E. destruct (Bsign a) eqn:Sa; [exact I|]. exfalso.
      assert (rnd64 (B2R a - B2R b) <= 0) by (rewrite <- rnd64_0; apply rnd64_le; lra).
      assert (0 <= B2R a) by (apply sign_false_nonneg; auto).
      assert (B2R b <= 0).
      { assert (Sb : Bsign b = true) by (destruct (Bsign b); [reflexivity|discriminate]). clear S. destruct b as [[]|[]| |[] k x B]; try discriminate; cbn; try lra.
        assert (H' : F2R (beta := radix2) {| Fnum := Z.neg k; Fexp := x |} < 0) by (apply F2R_lt_0; cbn; lia). cbn in H'. lra. }
      assert (Z1 : B2R a - B2R b = 0) by lra. rewrite Z1, rnd64_0, Rabs_R0 in A. pose proof (bpow_gt_0 radix2 1024). lra.
  - destruct b as [[]|[]| |[] ? ? ?]; try discriminate; [congruence|]. destruct a as [[]|[]| |[] ? ? ?]; try discriminate; exact I.
  - destruct a as [[]|[]| |[] ? ? ?]; try discriminate; [|congruence]. destruct b as [[]|[]| |[] ? ? ?]; try discriminate; exact I.
  - destruct a as [[]|[]| |[] ? ? ?]; try discriminate; [|congruence]. destruct b as [[]|[]| |[] ? ? ?]; try discriminate; [congruence|exact I].
Qed.

(** the maximum *)
Lemma f_maximum_spec a b : number a -> number b -> (f_maximum a b = a \/ f_maximum a b = b) /\ dle a (f_maximum a b) /\ dle b (f_maximum a b).
Proof.
  intros Na Nb. unfold f_maximum. rewrite Na. rewrite orb_false_r. destruct (fle b a) eqn:E.
  - apply fle_dle in E. split; auto. split; auto. apply dle_refl. exact Na.
  - split; auto. split; [|apply dle_refl; exact Nb]. destruct (dle_total a b Na Nb) as [L|L]; auto.
    apply fle_dle in L. congruence.
Qed.
Lemma fold_maximum_spec l : forall a, number a -> Forall number l ->
  In (fold_left f_maximum l a) (a :: l) /\ (forall x, In x (a :: l) -> dle x (fold_left f_maximum l a)).
Proof.
  induction l as [|b l IH]; intros a Na Nl; cbn [fold_left].
  - split; [left; reflexivity|]. intros x [<-|[]]. apply dle_refl. exact Na.
  - inversion Nl as [|? ? Nb Nl']; subst. destruct (f_maximum_spec a b Na Nb) as (C & A & B).
    assert (Nm : number (f_maximum a b)) by (destruct (dle_number _ _ A); auto).
    destruct (IH _ Nm Nl') as [I J]. split.
    + destruct I as [<-|I]; [|right; right; exact I]. destruct C as [->| ->]; [left|right; left]; reflexivity.
    + intros x [<-|[<-|Ix]].
      * eapply dle_trans; [exact A|]. apply J. left. reflexivity.
      * eapply dle_trans; [exact B|]. apply J. left. reflexivity.
      * apply J. right. exact Ix.
Qed.
Lemma amax_spec l : l <> [] -> Forall number l -> In (f_amax l) l /\ (forall x, In x l -> dle x (f_amax l)).
Proof. destruct l as [|a l]; [congruence|]. intros _ F. inversion F; subst. apply fold_maximum_spec; auto. Qed.

Section Row.
Variables (fexp flog : dbl -> dbl) (fsum : list dbl -> dbl).
Hypothesis He : exp_good fexp.
Hypothesis Hl : log_good flog.
Hypothesis Hs : sums fsum.

Definition aug (free : list dbl) : list dbl := B754_zero false :: free.
Definition log_norm (free : list dbl) : dbl := f_logsumexp fexp flog fsum (aug free).
Definition top (free : list dbl) : dbl := f_amax (aug free).

Lemma constrain_row free : f_constrain_simplex_row fexp flog fsum free = map (fun a => fexp (fsub a (log_norm free))) (aug free).
Proof. reflexivity. Qed.

Lemma not_up_zero : not_up (B754_zero false).
Proof. split; [reflexivity|discriminate]. Qed.
Lemma aug_not_up free : Forall not_up free -> Forall not_up (aug free).
Proof. intros F. constructor; [apply not_up_zero|exact F]. Qed.
Lemma not_up_number l : Forall not_up l -> Forall number l.
Proof. apply Forall_impl. intros x [N _]. exact N. Qed.

Lemma top_spec free : Forall not_up free -> is_finite (top free) = true /\ 0 <= B2R (top free) /\ In (top free) (aug free)
  /\ (forall a, In a (aug free) -> dle a (top free)).
Proof.
  intros F. pose proof (aug_not_up _ F) as F'. destruct (amax_spec (aug free) ltac:(discriminate) (not_up_number _ F')) as [I J].
  fold (top free) in I, J. pose proof (J (B754_zero false) ltac:(left; reflexivity)) as Z.
  destruct (nonneg_cases _ Z) as [E|[G H]].
  - exfalso. rewrite Forall_forall in F'. destruct (F' _ I) as [_ U]. congruence.
  - splits; auto.
Qed.

Definition tmp (free : list dbl) : list dbl := map (fun a => fexp (fsub a (top free))) (aug free).
Lemma log_norm_eq free : Forall not_up free -> log_norm free = fadd (flog (fsum (tmp free))) (top free).
Proof. intros F. destruct (top_spec free F) as (G & _). unfold log_norm, f_logsumexp. fold (top free). rewrite G. reflexivity. Qed.

Lemma fsub_self (m : dbl) : is_finite m = true -> exists s, fsub m m = B754_zero s.
Proof.
  intros F. destruct (fsub_cases m m F F) as [(A & E & G & _)|(A & E & S)].
  - replace (B2R m - B2R m) with 0 in E by ring. rewrite rnd64_0 in E.
    destruct (fsub m m) as [s|s| |s k e B]; try discriminate; [exists s; reflexivity|]. exfalso. cbn in E.
    apply eq_0_F2R in E. destruct s; discriminate.
  - exfalso. destruct (Bsign m); discriminate.
Qed.

Lemma exp_nonneg x : number x -> nonneg (fexp x).
Proof. intros N. destruct (exp_number _ (eg_ok _ He) x N) as [A B]. apply sign_nonneg; auto. Qed.

Lemma tmp_spec free : Forall not_up free -> Forall nonneg (tmp free) /\ Forall (fun t => dle t done) (tmp free) /\ In done (tmp free).
Proof.
  intros F. destruct (top_spec free F) as (G & P & I & J). pose proof (aug_not_up _ F) as F'. rewrite Forall_forall in F'.
  assert (D : forall a, In a (aug free) -> dle (fsub a (top free)) (B754_zero false)).
  { intros a Ia. apply fsub_nonpos; auto. intros E. rewrite E in G. discriminate. }
  splits.
  - unfold tmp. apply Forall_forall. intros t It. apply in_map_iff in It. destruct It as (a & <- & Ia).
    apply exp_nonneg. destruct (dle_number _ _ (D a Ia)); auto.
  - unfold tmp. apply Forall_forall. intros t It. apply in_map_iff in It. destruct It as (a & <- & Ia).
    apply (eg_le_one _ He). auto.
  - unfold tmp. apply in_map_iff. exists (top free). split; auto. destruct (fsub_self _ G) as [s ->]. apply (eg_zero _ He).
Qed.

Lemma sum_spec free : Forall not_up free -> dle done (fsum (tmp free)).
Proof.
  intros F. destruct (tmp_spec free F) as (N & _ & I). destruct (sum_of_nonneg _ _ (Hs (tmp free)) N) as [_ M]. auto.
Qed.

Lemma log_norm_spec free : Forall not_up free -> dle (top free) (log_norm free).
Proof.
  intros F. rewrite log_norm_eq by exact F. destruct (top_spec free F) as (G & _). apply fadd_up; [|exact G].
  apply (lg_nonneg _ Hl). apply sum_spec. exact F.
Qed.

Lemma arg_nonpos free a : Forall not_up free -> In a (aug free) -> dle (fsub a (log_norm free)) (B754_zero false).
Proof.
  intros F I. destruct (top_spec free F) as (G & _ & _ & J). pose proof (log_norm_spec free F) as L.
  apply fsub_nonpos.
  - eapply dle_trans; [apply J; exact I|exact L].
  - pose proof (aug_not_up _ F) as F'. rewrite Forall_forall in F'. auto.
  - intros E. rewrite E in L. destruct (top free) as [[]|[]| |[] ? ? ?]; try discriminate; contradiction.
Qed.

Lemma unit_of x : nonneg x -> dle x done -> unit_interval x.
Proof.
  intros N L. destruct (nonneg_cases x N) as [->|[F H]]; [contradiction|].
  split; auto. split; auto. apply dle_finite in L; auto. rewrite done_B2R in L. exact L.
Qed.

Lemma row_range free : Forall not_up free -> Forall unit_interval (f_constrain_simplex_row fexp flog fsum free).
Proof.
  intros F. rewrite constrain_row. apply Forall_forall. intros t It. apply in_map_iff in It. destruct It as (a & <- & Ia).
  pose proof (arg_nonpos free a F Ia) as L. apply unit_of; [|apply (eg_le_one _ He); exact L].
  apply exp_nonneg. destruct (dle_number _ _ L); auto.
Qed.

(** an entry +inf *)
Lemma f_amax_inf l : Forall number l -> In (B754_infinity false) l -> f_amax l = B754_infinity false.
Proof.
  intros N I. destruct (amax_spec l) as [_ J]; auto; [intros ->; contradiction|]. pose proof (J _ I) as L.
  destruct (f_amax l) as [[]|[]| |[] ? ? ?]; try contradiction; reflexivity.
Qed.
Lemma sub_zero_num (x : dbl) : number x -> exists y, fsub x (B754_zero false) = y /\ number y /\ (x = B754_infinity false -> y = B754_infinity false).
Proof. intros N. eexists. split; [reflexivity|]. destruct x as [[]|[]| |[] ? ? ?]; try discriminate; split; try reflexivity; intros; discriminate. Qed.

Lemma log_norm_inf free : Forall number free -> In (B754_infinity false) free -> log_norm free = B754_infinity false.
Proof.
  intros N I. unfold log_norm, f_logsumexp.
  assert (N' : Forall number (aug free)) by (constructor; [reflexivity|exact N]).
  assert (I' : In (B754_infinity false) (aug free)) by (right; exact I).
  rewrite (f_amax_inf _ N' I'). cbn [is_finite].
  set (l := map (fun a => fexp (fsub a (B754_zero false))) (aug free)).
  assert (Nl : Forall nonneg l).
  { apply Forall_forall. intros t It. apply in_map_iff in It. destruct It as (a & <- & Ia). apply exp_nonneg.
    rewrite Forall_forall in N'. destruct (sub_zero_num a (N' a Ia)) as (y & -> & Ny & _). exact Ny. }
  assert (Il : In (B754_infinity false) l).
  { apply in_map_iff. exists (B754_infinity false). split; auto. apply (eg_inf _ He). }
  destruct (sum_of_nonneg _ _ (Hs l) Nl) as [_ M]. pose proof (M _ Il) as L.
  assert (E : fsum l = B754_infinity false) by (destruct (fsum l) as [[]|[]| |[] ? ? ?]; try contradiction; reflexivity).
  rewrite E, (lg_inf _ Hl). reflexivity.
Qed.

Lemma row_infinite free k v : Forall number free -> In (B754_infinity false) free -> nth_error (aug free) k = Some v ->
  nth_error (f_constrain_simplex_row fexp flog fsum free) k = Some (if is_finite v then B754_zero false else if Bsign v then B754_zero false else B754_nan).
Proof.
  intros N I E. rewrite constrain_row, nth_error_map, E. cbn [option_map]. rewrite (log_norm_inf free N I). f_equal.
  assert (Nv : number v).
  { apply nth_error_In in E. destruct E as [<-|E]; [reflexivity|]. rewrite Forall_forall in N. auto. }
  destruct v as [s|[]| |s m e B]; try discriminate; cbn [is_finite Bsign].
  - replace (fsub (B754_zero s) (B754_infinity false)) with (B754_infinity true : dbl) by (destruct s; reflexivity). apply (exp_minf _ (eg_ok _ He)).
  - change (fsub (B754_infinity true) (B754_infinity false)) with (B754_infinity true : dbl). apply (exp_minf _ (eg_ok _ He)).
  - change (fsub (B754_infinity false) (B754_infinity false)) with (B754_nan : dbl). apply (eg_nan _ He).
  - replace (fsub (B754_finite s m e B) (B754_infinity false)) with (B754_infinity true : dbl) by (destruct s; reflexivity). apply (exp_minf _ (eg_ok _ He)).
Qed.

(** what get_free makes of stored probabilities *)
Lemma log_pos x : unit_interval x -> B2R x <> 0 -> is_finite (flog x) = true.
Proof. intros [F H] N. apply (log_finite _ (lg_ok _ Hl)); auto. lra. Qed.
Lemma zero_of (x : dbl) : is_finite x = true -> B2R x = 0 -> exists s, x = B754_zero s.
Proof.
  intros F E. destruct x as [s|s| |s k e B]; try discriminate; [exists s; reflexivity|]. exfalso. cbn in E. apply eq_0_F2R in E.
  destruct s; discriminate.
Qed.
Lemma log_zero_of x : unit_interval x -> B2R x = 0 -> flog x = B754_infinity true.
Proof. intros [F H] E. destruct (zero_of x F E) as [s ->]. apply (log_zero _ (lg_ok _ Hl)). Qed.

Lemma unit_ge_tiny x : unit_interval x -> B2R x <> 0 -> bpow radix2 (-1074) <= B2R x.
Proof.
  intros [F H] N. rewrite <- (Rabs_pos_eq (B2R x)) by lra. apply (abs_B2R_ge_emin 53 1024 x).
  destruct x as [s|s| |s k e B]; try discriminate; [cbn in N; lra|reflexivity].
Qed.

Lemma log_unit_bound x : unit_interval x -> B2R x <> 0 -> Rabs (B2R (flog x)) <= 1200.
Proof.
  intros U N. pose proof (unit_ge_tiny x U N) as V. destruct U as [F [H0 H1]].
  assert (P : 0 < B2R x) by lra.
  pose proof (lg_close _ Hl x F P) as C.
  assert (L1 : ln (B2R x) <= 0).
  { rewrite <- ln_1. destruct H1 as [H1| ->]; [left; apply ln_increasing; auto|right; reflexivity]. }
  assert (L2 : -1074 <= ln (B2R x)).
  { pose proof ln_2_bound. apply Rle_trans with (ln (bpow radix2 (-1074))); [rewrite ln_bpow; lra|].
    destruct V as [V|V]; [left; apply ln_increasing; [apply bpow_gt_0|exact V]|right; rewrite V; reflexivity]. }
  assert (T : bpow radix2 (-50) <= /32) by (change (/32) with (bpow radix2 (-5)); apply bpow_le; lia).
  pose proof (bpow_gt_0 radix2 (-50)).
  rewrite (Rabs_left1 (ln (B2R x))) in C by exact L1.
  apply Rabs_le. apply Rabs_le_inv in C. nra.
Qed.

Lemma unconstrain_entry p p0 : unit_interval p -> unit_interval p0 ->
  (fsub (flog p) (flog p0) = B754_nan <-> B2R p = 0 /\ B2R p0 = 0)
  /\ (fsub (flog p) (flog p0) = B754_infinity false <-> B2R p <> 0 /\ B2R p0 = 0)
  /\ (fsub (flog p) (flog p0) = B754_infinity true <-> B2R p = 0 /\ B2R p0 <> 0)
  /\ (is_finite (fsub (flog p) (flog p0)) = true <-> B2R p <> 0 /\ B2R p0 <> 0).
Proof.
  intros U U0. destruct (Req_dec (B2R p) 0) as [Z|Z]; destruct (Req_dec (B2R p0) 0) as [Z0|Z0].
  - rewrite (log_zero_of p U Z), (log_zero_of p0 U0 Z0). change (fsub (B754_infinity true) (B754_infinity true)) with (B754_nan : dbl).
    splits; split; try discriminate; try tauto; intros [? ?]; try reflexivity; contradiction.
  - rewrite (log_zero_of p U Z). pose proof (log_pos p0 U0 Z0) as F.
    replace (fsub (B754_infinity true) (flog p0)) with (B754_infinity true : dbl) by (destruct (flog p0) as [[]|[]| |[] ? ? ?]; try discriminate; reflexivity).
    splits; split; try discriminate; try tauto; intros [? ?]; try reflexivity; contradiction.
  - rewrite (log_zero_of p0 U0 Z0). pose proof (log_pos p U Z) as F.
    replace (fsub (flog p) (B754_infinity true)) with (B754_infinity false : dbl) by (destruct (flog p) as [[]|[]| |[] ? ? ?]; try discriminate; reflexivity).
    splits; split; try discriminate; try tauto; intros [? ?]; try reflexivity; contradiction.
  - pose proof (log_pos p U Z) as F. pose proof (log_pos p0 U0 Z0) as F0.
    pose proof (log_unit_bound p U Z) as B. pose proof (log_unit_bound p0 U0 Z0) as B0.
    assert (G : is_finite (fsub (flog p) (flog p0)) = true).
    { destruct (fsub_cases _ _ F F0) as [(_ & _ & G & _)|(A & _)]; auto. exfalso.
      assert (Q : Rabs (B2R (flog p) - B2R (flog p0)) <= bpow radix2 12).
      { change (bpow radix2 12) with 4096. apply Rabs_le. apply Rabs_le_inv in B. apply Rabs_le_inv in B0. lra. }
      pose proof (rnd64_fin _ 12 ltac:(lia) Q). lra. }
    splits; split; try tauto; intros E; try (rewrite E in G; discriminate); try tauto; destruct E; contradiction.
Qed.
End Row.
