(** Proofs about the binary64 constrain / unconstrain maps. *)
From Coq Require Import Reals ZArith List Lra Lia Psatz Bool.
From Flocq Require Import Core BinarySingleNaN Relative.
From Verif Require Import Res SpecFloat ModelFloat.
Import ListNotations.
Set Bullet Behavior "Strict Subproofs".
Open Scope R_scope.

#[local] Instance P53 : Prec_gt_0 53 := prec53.
#[local] Instance V53 : Valid_exp (FLT_exp (-1074) 53) := FLT_exp_valid (-1074) 53.
#[local] Instance M53 : Monotone_exp (FLT_exp (-1074) 53) := FLT_exp_monotone (-1074) 53.

(** ** The operations *)
Lemma rnd64_le x y : x <= y -> rnd64 x <= rnd64 y.
Proof. intros H. unfold rnd64. apply round_le; auto with typeclass_instances. Qed.

Lemma rnd64_id (x : dbl) : rnd64 (B2R x) = B2R x.
Proof. unfold rnd64. apply round_generic; [auto with typeclass_instances|]. exact (generic_format_B2R 53 1024 x). Qed.

Lemma rnd64_format x : generic_format radix2 (FLT_exp (-1074) 53) x -> rnd64 x = x.
Proof. intros H. unfold rnd64. apply round_generic; auto with typeclass_instances. Qed.

Lemma rnd64_0 : rnd64 0 = 0.
Proof. unfold rnd64. apply round_0. auto with typeclass_instances. Qed.

Lemma rnd64_bpow k : (-1074 <= k)%Z -> rnd64 (bpow radix2 k) = bpow radix2 k.
Proof. intros H. apply rnd64_format. apply generic_format_FLT_bpow; [exact P53|exact H]. Qed.

Lemma B2SF_inf (r : dbl) s : B2SF r = SpecFloat.S754_infinity s -> r = B754_infinity s.
Proof. destruct r; cbn; intros H; congruence. Qed.

Lemma fadd_cases (x y : dbl) : is_finite x = true -> is_finite y = true ->
  (Rabs (rnd64 (B2R x + B2R y)) < bpow radix2 1024 /\ B2R (fadd x y) = rnd64 (B2R x + B2R y)
   /\ is_finite (fadd x y) = true
   /\ (0 < B2R x + B2R y -> Bsign (fadd x y) = false))
  \/ (bpow radix2 1024 <= Rabs (rnd64 (B2R x + B2R y)) /\ fadd x y = B754_infinity (Bsign x) /\ Bsign x = Bsign y).
Proof.
  intros Fx Fy. pose proof (@Bplus_correct 53 1024 prec53 emax1024 mode_NE x y Fx Fy) as H.
  fold (fadd x y) in H. change (round radix2 (SpecFloat.fexp 53 1024) (round_mode mode_NE) (B2R x + B2R y))
    with (rnd64 (B2R x + B2R y)) in H.
  destruct (Rlt_bool_spec (Rabs (rnd64 (B2R x + B2R y))) (bpow radix2 1024)) as [A|A].
  - left. destruct H as (H1 & H2 & H3). repeat split; auto.
    intros P. rewrite H3. rewrite Rcompare_Gt by exact P. reflexivity.
  - right. destruct H as (H1 & H2). repeat split; auto. apply B2SF_inf. exact H1.
Qed.

Lemma fsub_cases (x y : dbl) : is_finite x = true -> is_finite y = true ->
  (Rabs (rnd64 (B2R x - B2R y)) < bpow radix2 1024 /\ B2R (fsub x y) = rnd64 (B2R x - B2R y)
   /\ is_finite (fsub x y) = true
   /\ (0 < B2R x - B2R y -> Bsign (fsub x y) = false))
  \/ (bpow radix2 1024 <= Rabs (rnd64 (B2R x - B2R y)) /\ fsub x y = B754_infinity (Bsign x)
      /\ Bsign x = negb (Bsign y)).
Proof.
  intros Fx Fy. pose proof (@Bminus_correct 53 1024 prec53 emax1024 mode_NE x y Fx Fy) as H.
  fold (fsub x y) in H. change (round radix2 (SpecFloat.fexp 53 1024) (round_mode mode_NE) (B2R x - B2R y))
    with (rnd64 (B2R x - B2R y)) in H.
  destruct (Rlt_bool_spec (Rabs (rnd64 (B2R x - B2R y))) (bpow radix2 1024)) as [A|A].
  - left. destruct H as (H1 & H2 & H3). repeat split; auto.
    intros P. rewrite H3. rewrite Rcompare_Gt by exact P. reflexivity.
  - right. destruct H as (H1 & H2). repeat split; auto. apply B2SF_inf. exact H1.
Qed.

Lemma fmul_cases (x y : dbl) : is_finite x = true -> is_finite y = true ->
  (Rabs (rnd64 (B2R x * B2R y)) < bpow radix2 1024 /\ B2R (fmul x y) = rnd64 (B2R x * B2R y)
   /\ is_finite (fmul x y) = true /\ Bsign (fmul x y) = xorb (Bsign x) (Bsign y))
  \/ (bpow radix2 1024 <= Rabs (rnd64 (B2R x * B2R y)) /\ fmul x y = B754_infinity (xorb (Bsign x) (Bsign y))).
Proof.
  intros Fx Fy. pose proof (@Bmult_correct 53 1024 prec53 emax1024 mode_NE x y) as H.
  fold (fmul x y) in H. change (round radix2 (SpecFloat.fexp 53 1024) (round_mode mode_NE) (B2R x * B2R y))
    with (rnd64 (B2R x * B2R y)) in H.
  destruct (Rlt_bool_spec (Rabs (rnd64 (B2R x * B2R y))) (bpow radix2 1024)) as [A|A].
  - left. destruct H as (H1 & H2 & H3). rewrite Fx, Fy in H2. cbn in H2. repeat split; auto.
    apply H3. destruct (fmul x y); cbn in *; congruence.
  - right. split; auto. apply B2SF_inf. exact H.
Qed.

Lemma fdiv_cases (x y : dbl) : is_finite x = true -> B2R y <> 0 ->
  (Rabs (rnd64 (B2R x / B2R y)) < bpow radix2 1024 /\ B2R (fdiv x y) = rnd64 (B2R x / B2R y)
   /\ is_finite (fdiv x y) = true /\ Bsign (fdiv x y) = xorb (Bsign x) (Bsign y))
  \/ (bpow radix2 1024 <= Rabs (rnd64 (B2R x / B2R y)) /\ fdiv x y = B754_infinity (xorb (Bsign x) (Bsign y))).
Proof.
  intros Fx Fy. pose proof (@Bdiv_correct 53 1024 prec53 emax1024 mode_NE x y Fy) as H.
  fold (fdiv x y) in H. change (round radix2 (SpecFloat.fexp 53 1024) (round_mode mode_NE) (B2R x / B2R y))
    with (rnd64 (B2R x / B2R y)) in H.
  destruct (Rlt_bool_spec (Rabs (rnd64 (B2R x / B2R y))) (bpow radix2 1024)) as [A|A].
  - left. destruct H as (H1 & H2 & H3). rewrite Fx in H2. repeat split; auto.
    apply H3. destruct (fdiv x y); cbn in *; congruence.
  - right. split; auto. apply B2SF_inf. exact H.
Qed.

(** ** The order *)
Lemma fle_finite (x y : dbl) : is_finite x = true -> is_finite y = true -> fle x y = true <-> B2R x <= B2R y.
Proof.
  intros Fx Fy. unfold fle. rewrite Bleb_correct by assumption.
  destruct (Rle_bool_spec (B2R x) (B2R y)); split; intros; auto; try discriminate; lra.
Qed.

Lemma fle_dle (x y : dbl) : fle x y = true <-> dle x y.
Proof.
  destruct (is_finite x) eqn:Fx; destruct (is_finite y) eqn:Fy.
  - rewrite fle_finite by assumption. destruct x; try discriminate; destruct y; try discriminate; cbn; tauto.
  - destruct x as [[]|[]| |[] m e B]; try discriminate; destruct y as [[]|[]| |[] m' e' B']; try discriminate;
      cbn; split; intros; auto; try discriminate; try contradiction.
  - destruct x as [[]|[]| |[] m e B]; try discriminate; destruct y as [[]|[]| |[] m' e' B']; try discriminate;
      cbn; split; intros; auto; try discriminate; try contradiction.
  - destruct x as [[]|[]| |[] m e B]; try discriminate; destruct y as [[]|[]| |[] m' e' B']; try discriminate;
      cbn; split; intros; auto; try discriminate; try contradiction.
Qed.

Lemma dle_number (x y : double) : dle x y -> number x /\ number y.
Proof. destruct x as [[]|[]| |[] m e B]; destruct y as [[]|[]| |[] m' e' B']; cbn; tauto || (split; reflexivity). Qed.

Lemma dle_finite (x y : double) : is_finite x = true -> is_finite y = true -> dle x y <-> B2R x <= B2R y.
Proof. intros Fx Fy. rewrite <- fle_dle. apply fle_finite; assumption. Qed.

Lemma dle_inf (x : double) : number x -> dle x (B754_infinity false).
Proof. destruct x as [[]|[]| |[] m e B]; unfold number; cbn; intros; try discriminate; exact I. Qed.

Lemma dle_minf (x : double) : number x -> dle (B754_infinity true) x.
Proof. destruct x as [[]|[]| |[] m e B]; unfold number; cbn; intros; try discriminate; exact I. Qed.

Lemma finite_number (x : double) : is_finite x = true -> number x.
Proof. destruct x; unfold number; cbn; congruence. Qed.

Lemma sign_false_nonneg (x : double) : Bsign x = false -> 0 <= B2R x.
Proof.
  destruct x as [s|s| |s m e B]; cbn; intros H; try lra. subst s. apply F2R_ge_0. cbn. lia.
Qed.

Lemma number_pos_cases (x : double) : number x -> Bsign x = false ->
  (is_finite x = true /\ 0 <= B2R x) \/ x = B754_infinity false.
Proof.
  intros N S. destruct x as [s|s| |s m e B].
  - left. split; [reflexivity|cbn; lra].
  - right. cbn in S. subst. reflexivity.
  - discriminate.
  - left. split; [reflexivity|]. exact (sign_false_nonneg _ S).
Qed.

(** ** One-sided bounds *)
Lemma fadd_ge (e lb : dbl) : number e -> Bsign e = false -> is_finite lb = true -> dle lb (fadd e lb).
Proof.
  intros Ne Se Fl. destruct (number_pos_cases e Ne Se) as [[Fe Pe]| ->].
  - destruct (fadd_cases e lb Fe Fl) as [(A & E & F & S)|(A & E & S)].
    + apply dle_finite; auto. rewrite E. rewrite <- (rnd64_id lb) at 1. apply rnd64_le. lra.
    + rewrite E, Se. apply dle_inf. apply finite_number. exact Fl.
  - destruct lb as [[]|[]| |[] m e B]; try discriminate; exact I.
Qed.

Lemma fsub_le (ub e : dbl) : number e -> Bsign e = false -> is_finite ub = true -> dle (fsub ub e) ub.
Proof.
  intros Ne Se Fl. destruct (number_pos_cases e Ne Se) as [[Fe Pe]| ->].
  - destruct (fsub_cases ub e Fl Fe) as [(A & E & F & S)|(A & E & S)].
    + apply dle_finite; auto. rewrite E. rewrite <- (rnd64_id ub) at 2. apply rnd64_le. lra.
    + rewrite E, S, Se. apply dle_minf. apply finite_number. exact Fl.
  - destruct ub as [[]|[]| |[] m e B]; try discriminate; exact I.
Qed.

(** v - lb for a number v >= lb is a number >= 0 *)
Lemma fsub_nonneg (v lb : dbl) : dle lb v -> is_finite lb = true -> dle (B754_zero false) (fsub v lb).
Proof.
  intros L Fl. destruct (dle_number _ _ L) as [_ Nv]. destruct (is_finite v) eqn:Fv.
  - pose proof (proj1 (dle_finite _ _ Fl Fv) L) as Lr.
    destruct (fsub_cases v lb Fv Fl) as [(A & E & F & S)|(A & E & S)].
    + apply dle_finite; auto. rewrite E. cbn. rewrite <- rnd64_0. apply rnd64_le. lra.
    + rewrite E. destruct (Bsign v) eqn:Sv; [exfalso|exact I].
      assert (B2R v <= 0). { destruct v as [s|s| |s m e B]; cbn in *; try lra. subst s. apply F2R_le_0. cbn. lia. }
      assert (0 <= B2R lb). { apply sign_false_nonneg. destruct (Bsign lb); cbn in S; congruence. }
      assert (Z0 : B2R v - B2R lb = 0) by lra.
      rewrite Z0, rnd64_0, Rabs_R0 in A. pose proof (bpow_gt_0 radix2 1024). lra.
  - destruct v as [s|s| |s m e B]; try discriminate. destruct s.
    + destruct lb as [t|t| |t m' e' B']; try discriminate; destruct t; cbn in L; contradiction.
    + destruct lb as [t|t| |t m' e' B']; try discriminate; destruct t; exact I.
Qed.

Lemma fsub_nonneg_ub (v ub : dbl) : dle v ub -> is_finite ub = true -> dle (B754_zero false) (fsub ub v).
Proof.
  intros L Fl. destruct (dle_number _ _ L) as [Nv _]. destruct (is_finite v) eqn:Fv.
  - pose proof (proj1 (dle_finite _ _ Fv Fl) L) as Lr.
    destruct (fsub_cases ub v Fl Fv) as [(A & E & F & S)|(A & E & S)].
    + apply dle_finite; auto. rewrite E. cbn. rewrite <- rnd64_0. apply rnd64_le. lra.
    + rewrite E. destruct (Bsign ub) eqn:Sv; [exfalso|exact I].
      assert (B2R ub <= 0). { destruct ub as [s|s| |s m e B]; cbn in *; try lra. subst s. apply F2R_le_0. cbn. lia. }
      assert (0 <= B2R v). { apply sign_false_nonneg. destruct (Bsign v); cbn in S; congruence. }
      assert (Z0 : B2R ub - B2R v = 0) by lra.
      rewrite Z0, rnd64_0, Rabs_R0 in A. pose proof (bpow_gt_0 radix2 1024). lra.
  - destruct v as [s|s| |s m e B]; try discriminate. destruct s.
    + destruct ub as [t|t| |t m' e' B']; try discriminate; destruct t; exact I.
    + destruct ub as [t|t| |t m' e' B']; try discriminate; destruct t; cbn in L; contradiction.
Qed.

(** ** Vector parameters *)
Lemma fvector_init_fields n lb ub v0 p : fvector_init n lb ub v0 = Ok p ->
  fv_size p = n /\ fv_lb p = lb /\ fv_ub p = ub /\ fle ub lb = false /\ number lb /\ number ub.
Proof.
  unfold fvector_init. intros H. destruct (fle f_ninf lb) eqn:A; cbn in H; [|discriminate].
  destruct (fle ub f_inf) eqn:B; cbn in H; [|discriminate]. destruct (fle ub lb) eqn:C; [discriminate|].
  assert (D : exists v, fvector_set (mkFV n lb ub []) v = Ok p) by (destruct v0; eauto).
  destruct D as [v D]. unfold fvector_set in D. cbn in D. destruct (Nat.eqb (length v) n); [|discriminate].
  injection D as <-. cbn. apply fle_dle in A, B. apply dle_number in A, B. tauto.
Qed.

Lemma fvector_init_default n lb ub : fle f_ninf lb = true -> fle ub f_inf = true -> fle ub lb = false ->
  exists p, fvector_init n lb ub None = Ok p.
Proof.
  intros A B C. unfold fvector_init. rewrite A, B, C. cbn [negb]. unfold fvector_set. cbn [fv_size fv_lb fv_ub].
  rewrite repeat_length, Nat.eqb_refl. eauto.
Qed.

Section Vec.
Context (fexp flog : dbl -> dbl).

Lemma set_free_ok n lb ub v0 p x : fvector_init n lb ub v0 = Ok p -> length x = n ->
  fvector_set_free fexp p x = Ok (mkFV n lb ub (map (fun v => f_constrain_entry fexp v lb ub) x)).
Proof.
  intros H L. destruct (fvector_init_fields _ _ _ _ _ H) as (<- & <- & <- & C & _).
  unfold fvector_set_free, f_constrain, fvector_set. rewrite L, Nat.eqb_refl, C. cbn.
  rewrite map_length, L, Nat.eqb_refl. reflexivity.
Qed.

Lemma forallb_Forall (P : dbl -> bool) l : forallb P l = true <-> Forall (fun x => P x = true) l.
Proof. rewrite forallb_forall, Forall_forall. tauto. Qed.

(** get_free returns exactly when every entry is a number between the bounds *)
Lemma get_free_iff (p : fvector) : fle (fv_ub p) (fv_lb p) = false ->
  ((exists w, fvector_get_free flog p = Ok w) <-> Forall (fun v => dle (fv_lb p) v /\ dle v (fv_ub p)) (fvector_get p))
  /\ (fvector_get_free flog p = Raise ValueError
      <-> ~ Forall (fun v => dle (fv_lb p) v /\ dle v (fv_ub p)) (fvector_get p)).
Proof.
  intros C. unfold fvector_get_free, f_unconstrain_array, f_unconstrain, fvector_get. rewrite C.
  assert (Q : Forall (fun v => dle (fv_lb p) v /\ dle v (fv_ub p)) (fv_val p)
          <-> forallb (fun v => fle v (fv_ub p)) (fv_val p) = true /\ forallb (fun v => fle (fv_lb p) v) (fv_val p) = true).
  { rewrite !forallb_Forall. rewrite !Forall_forall. split.
    - intros H. split; intros v V; apply fle_dle; apply (H v V).
    - intros [H1 H2] v V. split; apply fle_dle; auto. }
  rewrite Q.
  destruct (forallb (fun v => fle v (fv_ub p)) (fv_val p)); cbn;
  destruct (forallb (fun v => fle (fv_lb p) v) (fv_val p)); cbn;
  (split; split; [intros [w W]|intros [A B]|intros W|intros W]); try discriminate; eauto;
  try (intros [A B]; discriminate); try reflexivity; exfalso; apply W; auto.
Qed.

Lemma get_free_ok (p : fvector) : fle (fv_ub p) (fv_lb p) = false ->
  Forall (fun v => dle (fv_lb p) v /\ dle v (fv_ub p)) (fvector_get p) ->
  fvector_get_free flog p = Ok (map (fun v => f_unconstrain_entry flog v (fv_lb p) (fv_ub p)) (fvector_get p)).
Proof.
  intros C H. unfold fvector_get_free, f_unconstrain_array, f_unconstrain, fvector_get in *. rewrite C.
  replace (forallb (fun v => fle v (fv_ub p)) (fv_val p)) with true.
  - replace (forallb (fun v => fle (fv_lb p) v) (fv_val p)) with true; [reflexivity|].
    symmetry. apply forallb_Forall. eapply Forall_impl; [|exact H]. cbn. intros a [A B]. apply fle_dle; auto.
  - symmetry. apply forallb_Forall. eapply Forall_impl; [|exact H]. cbn. intros a [A B]. apply fle_dle; auto.
Qed.
End Vec.

Lemma feq_finite_ninf (lb : dbl) : is_finite lb = true -> feq lb f_ninf = false.
Proof. destruct lb as [[]|[]| |[] m e B]; cbn; intros; try discriminate; reflexivity. Qed.
Lemma feq_finite_inf (lb : dbl) : is_finite lb = true -> feq lb f_inf = false.
Proof. destruct lb as [[]|[]| |[] m e B]; cbn; intros; try discriminate; reflexivity. Qed.
Lemma fle_inf_finite (lb : dbl) : is_finite lb = true -> fle f_inf lb = false.
Proof. destruct lb as [[]|[]| |[] m e B]; cbn; intros; try discriminate; reflexivity. Qed.

Lemma Forall_map_of {A B} (f : A -> B) (P : A -> Prop) (Q : B -> Prop) l :
  (forall a, P a -> Q (f a)) -> Forall P l -> Forall Q (map f l).
Proof. intros H F. apply Forall_map. eapply Forall_impl; [|exact F]. exact H. Qed.

Lemma constrain_lower fexp v lb : is_finite lb = true -> f_constrain_entry fexp v lb f_inf = fadd (fexp v) lb.
Proof. intros F. unfold f_constrain_entry. rewrite (feq_finite_ninf lb F). reflexivity. Qed.
Lemma constrain_upper fexp v ub : is_finite ub = true ->
  f_constrain_entry fexp v f_ninf ub = fsub ub (fexp (fmul f_mone v)).
Proof. intros F. unfold f_constrain_entry. rewrite (feq_finite_inf ub F). reflexivity. Qed.
Lemma constrain_both fexp v lb ub : is_finite lb = true -> is_finite ub = true ->
  f_constrain_entry fexp v lb ub = fadd (fdiv (fmul (fsub ub lb) (fexp v)) (fadd f_one (fexp v))) lb.
Proof. intros F G. unfold f_constrain_entry. rewrite (feq_finite_inf ub G), (feq_finite_ninf lb F). reflexivity. Qed.
Lemma unconstrain_lower flog v lb : is_finite lb = true -> f_unconstrain_entry flog v lb f_inf = flog (fsub v lb).
Proof. intros F. unfold f_unconstrain_entry. rewrite (feq_finite_ninf lb F). reflexivity. Qed.
Lemma unconstrain_upper flog v ub : is_finite ub = true ->
  f_unconstrain_entry flog v f_ninf ub = fmul f_mone (flog (fsub ub v)).
Proof. intros F. unfold f_unconstrain_entry. rewrite (feq_finite_inf ub F). reflexivity. Qed.
Lemma unconstrain_both flog v lb ub : is_finite lb = true -> is_finite ub = true ->
  f_unconstrain_entry flog v lb ub = fsub (flog (fsub v lb)) (flog (fsub ub v)).
Proof. intros F G. unfold f_unconstrain_entry. rewrite (feq_finite_inf ub G), (feq_finite_ninf lb F). reflexivity. Qed.

Lemma mone_B2R : B2R f_mone = -1.
Proof. unfold f_mone, f_one. rewrite B2R_Bopp, Bone_correct. reflexivity. Qed.
Lemma mone_finite : is_finite f_mone = true.
Proof. reflexivity. Qed.

Lemma abs_B2R_lt (x : dbl) : Rabs (B2R x) < bpow radix2 1024.
Proof. apply abs_B2R_lt_emax. Qed.

Lemma fmul_mone (x : dbl) : is_finite x = true ->
  B2R (fmul f_mone x) = - B2R x /\ is_finite (fmul f_mone x) = true /\ Bsign (fmul f_mone x) = negb (Bsign x).
Proof.
  intros F. assert (E : rnd64 (B2R f_mone * B2R x) = - B2R x).
  { rewrite mone_B2R. replace (-1 * B2R x) with (B2R (Bopp x)) by (rewrite B2R_Bopp; ring).
    rewrite rnd64_id. apply B2R_Bopp. }
  destruct (fmul_cases f_mone x mone_finite F) as [(A & B & C & D)|(A & B)].
  - rewrite E in B. repeat split; auto.
  - rewrite E, Rabs_Ropp in A. pose proof (abs_B2R_lt x). lra.
Qed.

Lemma fmul_mone_opp (x : dbl) : fmul f_mone x = Bopp x.
Proof.
  destruct (is_finite x) eqn:F.
  - destruct (fmul_mone x F) as (A & B & C). apply B2R_Bsign_inj; auto.
    + rewrite is_finite_Bopp. exact F.
    + rewrite B2R_Bopp. exact A.
    + rewrite Bsign_Bopp; [exact C|]. apply finite_number. exact F.
  - destruct x as [[]|[]| |[] m e B]; try discriminate; reflexivity.
Qed.

Lemma fmul_mone_number (x : dbl) : number x -> number (fmul f_mone x).
Proof. rewrite fmul_mone_opp. unfold number. rewrite is_nan_Bopp. auto. Qed.

Lemma fmul_mone_anti (x y : dbl) : dle x y -> dle (fmul f_mone y) (fmul f_mone x).
Proof.
  intros L. destruct (dle_number _ _ L) as [Nx Ny]. rewrite !fmul_mone_opp.
  destruct (is_finite x) eqn:Fx; destruct (is_finite y) eqn:Fy.
  - apply dle_finite; rewrite ?is_finite_Bopp, ?B2R_Bopp; auto. apply dle_finite in L; auto. lra.
  - destruct y as [[]|[]| |[] m e B]; try discriminate; destruct x as [[]|[]| |[] m' e' B']; try discriminate; cbn in *; auto; contradiction.
  - destruct y as [[]|[]| |[] m e B]; try discriminate; destruct x as [[]|[]| |[] m' e' B']; try discriminate; cbn in *; auto; contradiction.
  - destruct y as [[]|[]| |[] m e B]; try discriminate; destruct x as [[]|[]| |[] m' e' B']; try discriminate; cbn in *; auto; contradiction.
Qed.

Lemma fadd_mono (e e' lb : dbl) : dle e e' -> Bsign e = false -> Bsign e' = false -> is_finite lb = true ->
  dle (fadd e lb) (fadd e' lb).
Proof.
  intros L S S' Fl. destruct (dle_number _ _ L) as [N N'].
  pose proof (fadd_ge e lb N S Fl) as G. destruct (dle_number _ _ G) as [_ Nr].
  destruct (number_pos_cases e' N' S') as [[F' P']| ->].
  - destruct (number_pos_cases e N S) as [[F P]| ->]; [|destruct e' as [[]|[]| |[] m x B]; try discriminate; contradiction].
    apply dle_finite in L; auto.
    destruct (fadd_cases e lb F Fl) as [(A & E & Fr & _)|(A & E & Sl)];
    destruct (fadd_cases e' lb F' Fl) as [(A' & E' & Fr' & _)|(A' & E' & Sl')].
    + apply dle_finite; auto. rewrite E, E'. apply rnd64_le. lra.
    + rewrite E', S'. apply dle_inf. exact Nr.
    + exfalso. rewrite S in Sl. pose proof (sign_false_nonneg lb (eq_sym Sl)) as Pl.
      rewrite Rabs_pos_eq in A by (rewrite <- rnd64_0; apply rnd64_le; lra).
      rewrite Rabs_pos_eq in A' by (rewrite <- rnd64_0; apply rnd64_le; lra).
      assert (rnd64 (B2R e + B2R lb) <= rnd64 (B2R e' + B2R lb)) by (apply rnd64_le; lra). lra.
    + rewrite E', S'. apply dle_inf. exact Nr.
  - replace (fadd (B754_infinity false) lb) with (B754_infinity false : dbl); [apply dle_inf; exact Nr|].
    destruct lb as [[]|[]| |[] m x B]; try discriminate; reflexivity.
Qed.

Lemma fsub_anti (e e' ub : dbl) : dle e e' -> Bsign e = false -> Bsign e' = false -> is_finite ub = true ->
  dle (fsub ub e') (fsub ub e).
Proof.
  intros L S S' Fl. destruct (dle_number _ _ L) as [N N'].
  pose proof (fsub_le ub e N S Fl) as G. destruct (dle_number _ _ G) as [Nr _].
  destruct (number_pos_cases e' N' S') as [[F' P']| ->].
  - destruct (number_pos_cases e N S) as [[F P]| ->]; [|destruct e' as [[]|[]| |[] m x B]; try discriminate; contradiction].
    apply dle_finite in L; auto.
    destruct (fsub_cases ub e Fl F) as [(A & E & Fr & _)|(A & E & Sl)];
    destruct (fsub_cases ub e' Fl F') as [(A' & E' & Fr' & _)|(A' & E' & Sl')].
    + apply dle_finite; auto. rewrite E, E'. apply rnd64_le. lra.
    + rewrite E', Sl', S'. apply dle_minf. exact Nr.
    + exfalso. rewrite S in Sl. cbn in Sl.
      assert (Pl : B2R ub <= 0). { destruct ub as [s|s| |s m x B]; cbn in *; try lra. subst s. apply F2R_le_0. cbn. lia. }
      rewrite Rabs_left1 in A by (rewrite <- rnd64_0; apply rnd64_le; lra).
      rewrite Rabs_left1 in A' by (rewrite <- rnd64_0; apply rnd64_le; lra).
      assert (rnd64 (B2R ub - B2R e') <= rnd64 (B2R ub - B2R e)) by (apply rnd64_le; lra). lra.
    + rewrite E', Sl', S'. apply dle_minf. exact Nr.
  - replace (fsub ub (B754_infinity false)) with (B754_infinity true : dbl); [apply dle_minf; exact Nr|].
    destruct ub as [[]|[]| |[] m x B]; try discriminate; reflexivity.
Qed.

(** ** C100: a lower bound only *)
Section Lower.
Context (fexp flog : dbl -> dbl) (HE : exp_ok fexp) (HL : log_ok flog).

Lemma lower_entry v lb : number v -> is_finite lb = true ->
  dle lb (f_constrain_entry fexp v lb f_inf) /\ dle (f_constrain_entry fexp v lb f_inf) f_inf.
Proof.
  intros N F. rewrite constrain_lower by exact F. destruct (exp_number _ HE v N) as [A B].
  pose proof (fadd_ge _ lb A B F) as G. split; [exact G|]. apply dle_inf. apply (dle_number _ _ G).
Qed.

Lemma lower_safe n lb v0 p x : is_finite lb = true -> fvector_init n lb f_inf v0 = Ok p ->
  length x = n -> Forall number x ->
  exists p' w, fvector_set_free fexp p x = Ok p' /\ length (fvector_get p') = n /\ Forall (dle lb) (fvector_get p')
    /\ fvector_get_free flog p' = Ok w /\ length w = n /\ Forall number w.
Proof.
  intros F H L N. rewrite (set_free_ok fexp _ _ _ _ _ _ H L). do 2 eexists. split; [reflexivity|]. cbn [fvector_get fv_val fv_lb fv_ub].
  rewrite map_length; split; [exact L|]. split.
  - eapply Forall_map_of; [|exact N]. intros a Na. exact (proj1 (lower_entry a lb Na F)).
  - rewrite get_free_ok; cbn [fvector_get fv_val fv_lb fv_ub].
    + split; [reflexivity|]. split; [rewrite !map_length; exact L|]. apply Forall_map.
      eapply Forall_map_of; [|exact N]. intros a Na. rewrite unconstrain_lower by exact F.
      apply (log_number _ HL). apply fsub_nonneg; [|exact F]. exact (proj1 (lower_entry a lb Na F)).
    + apply fle_inf_finite. exact F.
    + eapply Forall_map_of; [|exact N]. intros a Na. exact (lower_entry a lb Na F).
Qed.

Lemma lower_monotone n lb v0 p x y : exp_monotone fexp -> is_finite lb = true -> fvector_init n lb f_inf v0 = Ok p ->
  length x = n -> length y = n -> Forall2 dle x y ->
  exists px py, fvector_set_free fexp p x = Ok px /\ fvector_set_free fexp p y = Ok py
    /\ Forall2 dle (fvector_get px) (fvector_get py).
Proof.
  intros M F H Lx Ly D. rewrite (set_free_ok fexp _ _ _ _ _ _ H Lx), (set_free_ok fexp _ _ _ _ _ _ H Ly).
  do 2 eexists. split; [reflexivity|]. split; [reflexivity|]. cbn [fvector_get fv_val fv_lb fv_ub]. clear Lx Ly H.
  induction D as [|a b xs ys Dab _ IH]; cbn [map]; constructor; [|exact IH].
  rewrite !constrain_lower by exact F. destruct (dle_number _ _ Dab) as [Na Nb].
  apply fadd_mono; auto; apply (exp_number _ HE); auto.
Qed.
End Lower.

(** with a zero bound nothing is lost besides the errors of exp and log *)
Lemma add_zero_r (e : dbl) s : number e -> Bsign e = false -> fadd e (B754_zero s) = e.
Proof. intros N S. destruct e as [[]|[]| |[] m x B]; try discriminate; destruct s; try reflexivity. Qed.
Lemma sub_zero_r (e : dbl) s : number e -> Bsign e = false -> fsub e (B754_zero s) = e.
Proof. intros N S. destruct e as [[]|[]| |[] m x B]; try discriminate; destruct s; try reflexivity. Qed.

Lemma zero_lower_free (fexp flog : dbl -> dbl) : exp_ok fexp -> forall n s v0 p x p',
  fvector_init n (B754_zero s) f_inf v0 = Ok p -> length x = n -> Forall number x ->
  fvector_set_free fexp p x = Ok p' ->
  fvector_get p' = map fexp x /\ fvector_get_free flog p' = Ok (map (fun v => flog (fexp v)) x).
Proof.
  intros HE n s v0 p x p' H L N E. rewrite (set_free_ok fexp _ _ _ _ _ _ H L) in E. injection E as <-.
  assert (Q : map (fun v => f_constrain_entry fexp v (B754_zero s) f_inf) x = map fexp x).
  { apply map_ext_in. intros a Ia. rewrite constrain_lower by reflexivity.
    rewrite Forall_forall in N. destruct (exp_number _ HE a (N a Ia)). apply add_zero_r; auto. }
  assert (G : Forall (fun v => dle (B754_zero s) v /\ dle v f_inf) (map (fun v => f_constrain_entry fexp v (B754_zero s) f_inf) x)).
  { eapply Forall_map_of; [|exact N]. intros a Na. exact (lower_entry fexp HE a (B754_zero s) Na eq_refl). }
  split; [exact Q|]. rewrite get_free_ok; cbn [fv_lb fv_ub fvector_get fv_val]; [|destruct s; reflexivity|exact G].
  rewrite Q, map_map. f_equal. apply map_ext_in. intros a Ia. rewrite unconstrain_lower by reflexivity.
  rewrite Forall_forall in N. destruct (exp_number _ HE a (N a Ia)). rewrite sub_zero_r; auto.
Qed.

(** ** C101: an upper bound only *)
Section Upper.
Context (fexp flog : dbl -> dbl) (HE : exp_ok fexp) (HL : log_ok flog).

Lemma upper_entry v ub : number v -> is_finite ub = true ->
  dle f_ninf (f_constrain_entry fexp v f_ninf ub) /\ dle (f_constrain_entry fexp v f_ninf ub) ub.
Proof.
  intros N F. rewrite constrain_upper by exact F.
  destruct (exp_number _ HE (fmul f_mone v) (fmul_mone_number _ N)) as [A B].
  pose proof (fsub_le ub _ A B F) as G. split; [|exact G]. apply dle_minf. apply (dle_number _ _ G).
Qed.

Lemma fle_finite_ninf (ub : dbl) : is_finite ub = true -> fle ub f_ninf = false.
Proof. destruct ub as [[]|[]| |[] m e B]; cbn; intros; try discriminate; reflexivity. Qed.

Lemma upper_safe n ub v0 p x : is_finite ub = true -> fvector_init n f_ninf ub v0 = Ok p ->
  length x = n -> Forall number x ->
  exists p' w, fvector_set_free fexp p x = Ok p' /\ length (fvector_get p') = n
    /\ Forall (fun v => dle v ub) (fvector_get p')
    /\ fvector_get_free flog p' = Ok w /\ length w = n /\ Forall number w.
Proof.
  intros F H L N. rewrite (set_free_ok fexp _ _ _ _ _ _ H L). do 2 eexists. split; [reflexivity|]. cbn [fvector_get fv_val fv_lb fv_ub].
  rewrite map_length; split; [exact L|]. split.
  - eapply Forall_map_of; [|exact N]. intros a Na. exact (proj2 (upper_entry a ub Na F)).
  - rewrite get_free_ok; cbn [fvector_get fv_val fv_lb fv_ub].
    + split; [reflexivity|]. split; [rewrite !map_length; exact L|]. apply Forall_map.
      eapply Forall_map_of; [|exact N]. intros a Na. rewrite unconstrain_upper by exact F.
      apply fmul_mone_number. apply (log_number _ HL). apply fsub_nonneg_ub; [|exact F].
      exact (proj2 (upper_entry a ub Na F)).
    + apply fle_finite_ninf. exact F.
    + eapply Forall_map_of; [|exact N]. intros a Na. exact (upper_entry a ub Na F).
Qed.

Lemma upper_monotone n ub v0 p x y : exp_monotone fexp -> is_finite ub = true -> fvector_init n f_ninf ub v0 = Ok p ->
  length x = n -> length y = n -> Forall2 dle x y ->
  exists px py, fvector_set_free fexp p x = Ok px /\ fvector_set_free fexp p y = Ok py
    /\ Forall2 dle (fvector_get px) (fvector_get py).
Proof.
  intros M F H Lx Ly D. rewrite (set_free_ok fexp _ _ _ _ _ _ H Lx), (set_free_ok fexp _ _ _ _ _ _ H Ly).
  do 2 eexists. split; [reflexivity|]. split; [reflexivity|]. cbn [fvector_get fv_val fv_lb fv_ub]. clear Lx Ly H.
  induction D as [|a b xs ys Dab _ IH]; cbn [map]; constructor; [|exact IH].
  rewrite !constrain_upper by exact F. destruct (dle_number _ _ Dab) as [Na Nb].
  apply fsub_anti; auto.
  - apply M. apply fmul_mone_anti. exact Dab.
  - apply (exp_number _ HE). apply fmul_mone_number. exact Nb.
  - apply (exp_number _ HE). apply fmul_mone_number. exact Na.
Qed.
End Upper.
