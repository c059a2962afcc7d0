(** Construction of a vector parameter in binary64: accepted bounds and the default value. *)
From Coq Require Import Reals ZArith List Lra Lia Psatz Bool.
From Flocq Require Import Core BinarySingleNaN Relative Plus_error.
From Verif Require Import Res SpecFloat ModelFloat LemmasFloat.
Import List ListNotations.
Set Bullet Behavior "Strict Subproofs".
Open Scope R_scope.

#[local] Instance P53 : Prec_gt_0 53 := prec53.
#[local] Instance V53 : Valid_exp (FLT_exp (-1074) 53) := FLT_exp_valid (-1074) 53.
#[local] Instance M53 : Monotone_exp (FLT_exp (-1074) 53) := FLT_exp_monotone (-1074) 53.

Lemma fle_minf x : fle f_ninf x = negb (is_nan x).
Proof. destruct x as [[]|[]| |[] m e B]; reflexivity. Qed.
Lemma fle_pinf x : fle x f_inf = negb (is_nan x).
Proof. destruct x as [[]|[]| |[] m e B]; reflexivity. Qed.
Lemma fle_false x y : fle x y = false <-> ~ dle x y.
Proof. rewrite <- fle_dle. destruct (fle x y); split; intros; try discriminate; auto. exfalso; auto. Qed.

Lemma vector_construct n lb ub v0 :
  (fvector_init n lb ub v0 = Raise AssertionError <-> is_nan lb = true \/ is_nan ub = true)
  /\ (fvector_init n lb ub v0 = Raise ValueError
      <-> number lb /\ number ub /\ (dle ub lb \/ exists v, v0 = Some v /\ length v <> n))
  /\ ((exists p, fvector_init n lb ub v0 = Ok p)
      <-> number lb /\ number ub /\ ~ dle ub lb /\ (forall v, v0 = Some v -> length v = n))
  /\ (forall p v, fvector_init n lb ub v0 = Ok p -> v0 = Some v -> fvector_get p = v).
Proof.
  unfold fvector_init, number. rewrite fle_minf, fle_pinf.
  destruct (is_nan lb); cbn [negb].
  { repeat match goal with |- _ /\ _ => split end; try (intros; discriminate).
    - split; auto.
    - split; [discriminate|]. intros (A & _). discriminate.
    - split; [intros [p H]; discriminate|]. intros (A & _). discriminate. }
  destruct (is_nan ub); cbn [negb].
  { repeat match goal with |- _ /\ _ => split end; try (intros; discriminate).
    - split; auto.
    - split; [discriminate|]. intros (_ & A & _). discriminate.
    - split; [intros [p H]; discriminate|]. intros (_ & A & _). discriminate. }
  destruct (fle ub lb) eqn:C.
  { pose proof (proj1 (fle_dle _ _) C) as D. repeat match goal with |- _ /\ _ => split end; try (intros; discriminate).
    - split; [discriminate|]. intros [A|A]; discriminate.
    - split; auto.
    - split; [intros [p H]; discriminate|]. intros (_ & _ & A & _). contradiction. }
  pose proof (proj1 (fle_false _ _) C) as D.
  destruct v0 as [v|].
  - unfold fvector_set. cbn [fv_size fv_lb fv_ub]. destruct (Nat.eqb (length v) n) eqn:E.
    + apply Nat.eqb_eq in E. repeat match goal with |- _ /\ _ => split end.
      * split; [discriminate|]. intros [A|A]; discriminate.
      * split; [discriminate|]. intros (_ & _ & [A|(w & A & B)]); [contradiction|]. injection A as <-. contradiction.
      * split; [|eauto]. intros _. split; [reflexivity|]. split; [reflexivity|]. split; [exact D|]. intros w A. injection A as <-. exact E.
      * intros p w A B. injection A as <-. injection B as <-. reflexivity.
    + apply Nat.eqb_neq in E. repeat match goal with |- _ /\ _ => split end.
      * split; [discriminate|]. intros [A|A]; discriminate.
      * split; [|reflexivity]. intros _. split; [reflexivity|]. split; [reflexivity|]. right. eauto.
      * split; [intros [p H]; discriminate|]. intros (_ & _ & _ & A). exfalso. apply E. apply A. reflexivity.
      * intros; discriminate.
  - unfold fvector_set. cbn [fv_size fv_lb fv_ub]. rewrite repeat_length, Nat.eqb_refl.
    repeat match goal with |- _ /\ _ => split end.
    + split; [discriminate|]. intros [A|A]; discriminate.
    + split; [discriminate|]. intros (_ & _ & [A|(w & A & B)]); [contradiction|discriminate].
    + split; [|eauto]. intros _. split; [reflexivity|]. split; [reflexivity|]. split; [exact D|]. intros; discriminate.
    + intros; discriminate.
Qed.

(** ** x + 1 rounded *)
Lemma nearest x g : generic_format radix2 (FLT_exp (-1074) 53) g -> Rabs (rnd64 x - x) <= Rabs (g - x).
Proof. intros H. unfold rnd64. apply (round_N_pt radix2 (FLT_exp (-1074) 53) (fun z => negb (Z.even z)) x). exact H. Qed.

Lemma plus_one_near (l : dbl) : B2R l <= rnd64 (B2R l + 1) <= B2R l + 2.
Proof.
  split; [rewrite <- (rnd64_id l) at 1; apply rnd64_le; lra|].
  pose proof (nearest (B2R l + 1) (B2R l) (generic_format_B2R 53 1024 l)) as H.
  replace (B2R l - (B2R l + 1)) with (-1) in H by ring. rewrite (Rabs_left (-1)) in H by lra.
  apply Rabs_le_inv in H. lra.
Qed.

Lemma plus_one_strict (l : dbl) : - bpow radix2 53 <= B2R l < bpow radix2 53 -> B2R l < rnd64 (B2R l + 1).
Proof.
  intros [A B]. set (x := B2R l + 1).
  destruct (Rle_or_lt (bpow radix2 53) x) as [C|C].
  { eapply Rlt_le_trans; [exact B|]. rewrite <- (rnd64_bpow 53) by lia. apply rnd64_le. exact C. }
  assert (H : Rabs (rnd64 x - x) <= / 2 * ulp radix2 (FLT_exp (-1074) 53) x).
  { unfold rnd64. apply error_le_half_ulp. auto with typeclass_instances. }
  assert (U : ulp radix2 (FLT_exp (-1074) 53) x < 2).
  { destruct (Rle_or_lt (bpow radix2 (-1074 + 53 - 1)) (Rabs x)) as [E|E].
    - eapply Rle_lt_trans; [apply ulp_FLT_le; exact E|].
      assert (P : bpow radix2 53 * bpow radix2 (1 - 53) = 2).
      { rewrite <- bpow_plus. cbn. lra. }
      rewrite <- P. apply Rmult_lt_compat_r; [apply bpow_gt_0|].
      apply Rabs_lt. split; [unfold x; lra|exact C].
    - rewrite ulp_FLT_small.
      + eapply Rlt_trans; [apply (bpow_lt radix2 (-1074) 0); lia|]. cbn. lra.
      + exact P53.
      + eapply Rlt_trans; [exact E|]. apply bpow_lt. lia. }
  apply Rabs_le_inv in H. unfold x in *. lra.
Qed.

Lemma plus_one_absorbed (l : dbl) : bpow radix2 54 <= B2R l -> rnd64 (B2R l + 1) = B2R l.
Proof.
  intros A. destruct (plus_one_near l) as [B C]. destruct B as [B|B]; [exfalso|symmetry; exact B].
  assert (F : generic_format radix2 (FLT_exp (-1074) 53) (rnd64 (B2R l + 1))).
  { unfold rnd64. apply generic_format_round; auto with typeclass_instances. }
  pose proof (generic_format_B2R 53 1024 l : generic_format radix2 (FLT_exp (-1074) 53) (B2R l)) as G.
  assert (P : 0 <= B2R l). { pose proof (bpow_gt_0 radix2 54). lra. }
  pose proof (succ_le_lt radix2 (FLT_exp (-1074) 53) _ _ G F B) as S.
  rewrite succ_eq_pos in S by exact P.
  assert (U : 4 <= ulp radix2 (FLT_exp (-1074) 53) (B2R l)).
  { replace 4 with (ulp radix2 (FLT_exp (-1074) 53) (bpow radix2 54)).
    - apply ulp_le; [auto with typeclass_instances..|]. rewrite !Rabs_pos_eq; [exact A|exact P|apply bpow_ge_0].
    - rewrite ulp_bpow. cbn. lra. }
  lra.
Qed.

Lemma f_one_B2R : B2R f_one = 1.
Proof. apply Bone_correct. Qed.
Lemma f_one_finite : is_finite f_one = true.
Proof. reflexivity. Qed.

Lemma finite_small_step x (l : dbl) : Rabs (x - B2R l) <= 2 -> Rabs x < bpow radix2 1024.
Proof.
  intros H. pose proof (abs_B2R_le_emax_minus_prec 53 1024 prec53 l) as B.
  assert (2 < bpow radix2 (1024 - 53)). { change 2 with (bpow radix2 1). apply bpow_lt. lia. }
  replace x with ((x - B2R l) + B2R l) by ring. eapply Rle_lt_trans; [apply Rabs_triang|]. lra.
Qed.

Lemma fadd_one (l : dbl) : is_finite l = true -> is_finite (fadd l f_one) = true /\ B2R (fadd l f_one) = rnd64 (B2R l + 1).
Proof.
  intros F. destruct (fadd_cases l f_one F f_one_finite) as [(A & E & G & _)|(A & _)]; rewrite f_one_B2R in *; [auto|].
  exfalso. destruct (plus_one_near l) as [B C].
  assert (D : Rabs (rnd64 (B2R l + 1) - B2R l) <= 2) by (rewrite Rabs_pos_eq; lra).
  apply finite_small_step in D. lra.
Qed.

Lemma rnd64_opp x : rnd64 (- x) = - rnd64 x.
Proof. unfold rnd64. apply round_NE_opp. Qed.

Lemma fsub_one (u : dbl) : is_finite u = true -> is_finite (fsub u f_one) = true /\ B2R (fsub u f_one) = - rnd64 (B2R (Bopp u) + 1).
Proof.
  intros F. destruct (fsub_cases u f_one F f_one_finite) as [(A & E & G & _)|(A & _)]; rewrite f_one_B2R in *.
  - split; [exact G|]. rewrite E, B2R_Bopp, <- rnd64_opp. f_equal. ring.
  - exfalso. destruct (plus_one_near (Bopp u)) as [B C]. rewrite B2R_Bopp in B, C.
    assert (K : rnd64 (B2R u - 1) = - rnd64 (- B2R u + 1)) by (rewrite <- rnd64_opp; f_equal; ring).
    assert (D : Rabs (rnd64 (B2R u - 1) - B2R u) <= 2) by (rewrite K; rewrite Rabs_left1; lra).
    apply finite_small_step in D. lra.
Qed.

(** a small positive difference is a finite positive double *)
Lemma fsub_pos (a b : dbl) : is_finite a = true -> is_finite b = true -> B2R b < B2R a <= B2R b + 2 ->
  is_finite (fsub a b) = true /\ 0 < B2R (fsub a b).
Proof.
  intros Fa Fb [L U].
  assert (T : rnd64 2 = 2) by (change 2 with (bpow radix2 1); apply rnd64_bpow; lia).
  assert (N : 0 <= rnd64 (B2R a - B2R b) <= 2).
  { split; [rewrite <- rnd64_0; apply rnd64_le; lra|rewrite <- T; apply rnd64_le; lra]. }
  assert (Z : rnd64 (B2R a - B2R b) <> 0).
  { unfold rnd64, Rminus. rewrite <- B2R_Bopp. apply round_plus_neq_0; auto with typeclass_instances.
    - exact (generic_format_B2R 53 1024 a).
    - exact (generic_format_B2R 53 1024 (Bopp b)).
    - rewrite B2R_Bopp. lra. }
  destruct (fsub_cases a b Fa Fb) as [(A & E & G & _)|(A & _)].
  - split; [exact G|]. rewrite E. lra.
  - exfalso. rewrite Rabs_pos_eq in A by lra. assert (2 < bpow radix2 1024); [|lra].
    change 2 with (bpow radix2 1). apply bpow_lt. lia.
Qed.

Lemma fsub_same (a b : dbl) : is_finite a = true -> is_finite b = true -> B2R a = B2R b -> exists s, fsub a b = B754_zero s.
Proof.
  intros Fa Fb E. destruct (fsub_cases a b Fa Fb) as [(A & H & G & _)|(A & _)].
  - rewrite E, Rminus_eq_0, rnd64_0 in H. destruct (fsub a b) as [s|s| |s m e B]; try discriminate; [eauto|].
    exfalso. cbn in H. destruct s; [apply eq_0_F2R in H|apply eq_0_F2R in H]; discriminate.
  - exfalso. rewrite E, Rminus_eq_0, rnd64_0, Rabs_R0 in A. pose proof (bpow_gt_0 radix2 1024). lra.
Qed.

Lemma Forall_repeat {A} (P : A -> Prop) x n : P x -> List.Forall P (repeat x n).
Proof. intros H. apply Forall_forall. intros y Y. apply repeat_spec in Y. subst. exact H. Qed.
Lemma map_repeat_ {A B} (f : A -> B) x n : map f (repeat x n) = repeat (f x) n.
Proof. induction n; cbn; congruence. Qed.

Lemma inf_feq x : is_finite x = true -> feq x f_ninf = false /\ feq x f_inf = false /\ fle x f_ninf = false /\ fle f_inf x = false.
Proof. destruct x as [[]|[]| |[] m e B]; intros; try discriminate; repeat split. Qed.

Lemma finite_value (x : dbl) r : is_finite x = true -> B2R x = r -> r <> 0 -> forall y : dbl, is_finite y = true -> B2R y = r -> x = y.
Proof. intros F E N y G H. apply B2R_inj; [| |congruence]; apply is_finite_strict_B2R; congruence. Qed.

Section Defaults.
Context (flog : dbl -> dbl) (HL : log_ok flog).

Lemma default_lower n lb : is_finite lb = true ->
  exists p w, fvector_init n lb f_inf None = Ok p /\ length (fvector_get p) = n
    /\ Forall (fun v => is_finite v = true /\ dle lb v /\ B2R v = rnd64 (B2R lb + 1)) (fvector_get p)
    /\ fvector_get_free flog p = Ok w /\ length w = n /\ Forall number w
    /\ (- bpow radix2 53 <= B2R lb < bpow radix2 53 -> Forall (fun v => is_finite v = true) w)
    /\ (bpow radix2 54 <= B2R lb -> fvector_get p = repeat lb n /\ w = repeat (B754_infinity true) n).
Proof.
  intros F. destruct (inf_feq lb F) as (Q1 & Q2 & Q3 & Q4). destruct (fadd_one lb F) as [Fv Ev].
  set (v := fadd lb f_one) in *. destruct (plus_one_near lb) as [B C].
  assert (D : dle lb v) by (apply dle_finite; [assumption..|]; rewrite Ev; exact B).
  assert (I : fvector_init n lb f_inf None = Ok (mkFV n lb f_inf (repeat v n))).
  { unfold fvector_init. rewrite fle_minf, Q4. replace (is_nan lb) with false by (destruct lb; try discriminate; reflexivity).
    cbn [negb]. replace (fle f_inf f_inf) with true by reflexivity. cbn [negb].
    unfold f_get_inbounds_value. rewrite Q3. replace (fle f_inf f_inf) with true by reflexivity. cbn [negb].
    unfold fvector_set. cbn [fv_size fv_lb fv_ub]. fold v. rewrite repeat_length, Nat.eqb_refl. reflexivity. }
  exists (mkFV n lb f_inf (repeat v n)), (repeat (flog (fsub v lb)) n).
  split; [exact I|]. cbn [fvector_get fv_val]. split; [apply repeat_length|].
  split; [apply Forall_repeat; auto|].
  split.
  { unfold fvector_get_free, f_unconstrain_array, f_unconstrain. cbn [fv_val fv_lb fv_ub]. rewrite Q4.
    replace (forallb (fun x => fle x f_inf) (repeat v n)) with true.
    2:{ symmetry. apply forallb_forall. intros x X. apply repeat_spec in X. subst x. rewrite fle_pinf.
        destruct v; try discriminate; reflexivity. }
    replace (forallb (fun x => fle lb x) (repeat v n)) with true.
    2:{ symmetry. apply forallb_forall. intros x X. apply repeat_spec in X. subst x. apply fle_dle. exact D. }
    cbn [negb]. rewrite map_repeat_. unfold f_unconstrain_entry. rewrite Q1. reflexivity. }
  split; [apply repeat_length|].
  split; [apply Forall_repeat; apply (log_number _ HL); apply fsub_nonneg; assumption|].
  split.
  - intros R. apply Forall_repeat. pose proof (plus_one_strict lb R) as S.
    destruct (fsub_pos v lb Fv F) as [G P]; [rewrite Ev; lra|]. apply (log_finite _ HL); assumption.
  - intros R. pose proof (plus_one_absorbed lb R) as S.
    assert (P : B2R lb <> 0) by (pose proof (bpow_gt_0 radix2 54); lra).
    assert (W : v = lb) by (apply (finite_value v (B2R lb)); auto; congruence).
    rewrite W. destruct (fsub_same lb lb F F eq_refl) as [s ->]. rewrite (log_zero _ HL). auto.
Qed.

Lemma fmul_mone_number x : number x -> number (fmul f_mone x).
Proof. destruct x as [[]|[]| |s m e B]; unfold number; intros; try discriminate; try reflexivity.
  destruct (fmul_cases f_mone (B754_finite s m e B) eq_refl eq_refl) as [(_ & _ & G & _)|(_ & ->)]; [|reflexivity].
  apply finite_number. exact G.
Qed.

Lemma fmul_mone_finite x : is_finite x = true -> is_finite (fmul f_mone x) = true.
Proof.
  intros F. destruct (fmul_cases f_mone x eq_refl F) as [(_ & _ & G & _)|(A & _)]; [exact G|exfalso].
  assert (M : B2R f_mone = -1). { unfold f_mone. rewrite B2R_Bopp, f_one_B2R. reflexivity. }
  rewrite M in A. replace (-1 * B2R x) with (- B2R x) in A by ring. rewrite rnd64_opp, rnd64_id, Rabs_Ropp in A.
  pose proof (abs_B2R_lt_emax 53 1024 x). lra.
Qed.

Lemma default_upper n ub : is_finite ub = true ->
  exists p w, fvector_init n f_ninf ub None = Ok p /\ length (fvector_get p) = n
    /\ Forall (fun v => is_finite v = true /\ dle v ub /\ B2R v = rnd64 (B2R ub - 1)) (fvector_get p)
    /\ fvector_get_free flog p = Ok w /\ length w = n /\ Forall number w
    /\ (- bpow radix2 53 < B2R ub <= bpow radix2 53 -> Forall (fun v => is_finite v = true) w)
    /\ (B2R ub <= - bpow radix2 54 -> fvector_get p = repeat ub n /\ w = repeat (B754_infinity false) n).
Proof.
  intros F. destruct (inf_feq ub F) as (Q1 & Q2 & Q3 & Q4). destruct (fsub_one ub F) as [Fv Ev].
  set (v := fsub ub f_one) in *. destruct (plus_one_near (Bopp ub)) as [B C]. rewrite B2R_Bopp in *.
  assert (K : rnd64 (B2R ub - 1) = - rnd64 (- B2R ub + 1)) by (rewrite <- rnd64_opp; f_equal; ring).
  assert (D : dle v ub) by (apply dle_finite; [assumption..|]; rewrite Ev; lra).
  assert (I : fvector_init n f_ninf ub None = Ok (mkFV n f_ninf ub (repeat v n))).
  { unfold fvector_init. rewrite fle_minf, Q3, fle_pinf. replace (is_nan ub) with false by (destruct ub; try discriminate; reflexivity).
    cbn [negb is_nan f_ninf]. unfold f_get_inbounds_value. replace (fle f_ninf f_ninf) with true by reflexivity. rewrite Q4. cbn [negb].
    unfold fvector_set. cbn [fv_size fv_lb fv_ub]. fold v. rewrite repeat_length, Nat.eqb_refl. reflexivity. }
  exists (mkFV n f_ninf ub (repeat v n)), (repeat (fmul f_mone (flog (fsub ub v))) n).
  split; [exact I|]. cbn [fvector_get fv_val]. split; [apply repeat_length|].
  split; [apply Forall_repeat; rewrite K; auto|].
  split.
  { unfold fvector_get_free, f_unconstrain_array, f_unconstrain. cbn [fv_val fv_lb fv_ub]. rewrite Q3.
    replace (forallb (fun x => fle f_ninf x) (repeat v n)) with true.
    2:{ symmetry. apply forallb_forall. intros x X. apply repeat_spec in X. subst x. rewrite fle_minf.
        destruct v; try discriminate; reflexivity. }
    replace (forallb (fun x => fle x ub) (repeat v n)) with true.
    2:{ symmetry. apply forallb_forall. intros x X. apply repeat_spec in X. subst x. apply fle_dle. exact D. }
    cbn [negb]. rewrite map_repeat_. unfold f_unconstrain_entry. rewrite Q2. reflexivity. }
  split; [apply repeat_length|].
  split; [apply Forall_repeat; apply fmul_mone_number; apply (log_number _ HL); apply fsub_nonneg_ub; assumption|].
  split.
  - intros R. apply Forall_repeat. apply fmul_mone_finite.
    assert (S : - B2R ub < rnd64 (- B2R ub + 1)).
    { rewrite <- B2R_Bopp. apply plus_one_strict. rewrite B2R_Bopp. lra. }
    destruct (fsub_pos ub v F Fv) as [G P]; [rewrite Ev; lra|]. apply (log_finite _ HL); assumption.
  - intros R. assert (S : rnd64 (- B2R ub + 1) = - B2R ub).
    { rewrite <- B2R_Bopp. apply plus_one_absorbed. rewrite B2R_Bopp. lra. }
    assert (P : B2R ub <> 0) by (pose proof (bpow_gt_0 radix2 54); lra).
    assert (W : v = ub) by (apply (finite_value v (B2R ub)); auto; rewrite Ev, S; ring).
    rewrite W. destruct (fsub_same ub ub F F eq_refl) as [s ->]. rewrite (log_zero _ HL). auto.
Qed.
End Defaults.
