(** Proofs about scalar, vector and array parameters in binary64: accuracy lifted to the parameters, and the three classes compared. *)
From Coq Require Import Reals ZArith List Lra Lia Psatz Bool.
From Flocq Require Import Core BinarySingleNaN.
From Verif Require Import Res Nd SpecFloat SpecFloatSimplex SpecFloatAcc ModelFloat ModelFloatParams LemmasFloat LemmasFloat2 LemmasFloat3 LemmasFloatSimplex LemmasFloatSimplex2 LemmasFloatAcc LemmasFloatAcc2.
Import List ListNotations.
Set Bullet Behavior "Strict Subproofs".
Open Scope R_scope.


(** case analysis on which bounds are finite *)
Lemma bounds_cases lb ub : good_bounds lb ub -> fle ub lb = false ->
  (lb = f_ninf /\ ub = f_inf) \/ (bounded500 lb /\ ub = f_inf) \/ (lb = f_ninf /\ bounded500 ub) \/
  (bounded500 lb /\ bounded500 ub /\ B2R lb < B2R ub /\ bpow radix2 (-500) <= B2R ub - B2R lb).
Proof.
  intros (A & B & C) H. destruct A as [A|A], B as [B|B]; [left|right; right; left|right; left|right; right; right]; try (split; assumption).
  split; [exact A|]. split; [exact B|]. split; [|exact (C A B)]. apply (fle_false_lt ub lb); [apply A|apply B|exact H].
Qed.
Lemma spec_lower lb x : is_finite lb = true -> exact_value lb f_inf x = B2R lb + exp x /\
  value_error lb f_inf x = units 10 * exp x + units 1 * Rabs (exact_value lb f_inf x) /\ condition lb f_inf x = Rabs (B2R lb) / exp x /\
  free_error lb f_inf x = units 64 * (1 + Rabs x + condition lb f_inf x) /\
  refresh_error lb f_inf x = units 33 * (1 + Rabs (ln (x - B2R lb))) * (x - B2R lb) + units 1 * Rabs x /\
  (forall v, interior lb f_inf v -> bpow radix2 (-400) <= B2R v - B2R lb <= bpow radix2 400).
Proof. intros F. destruct lb as [[]|[]| |[] m e b]; try discriminate F; repeat split; try reflexivity; intros; apply H. Qed.
Lemma spec_upper ub x : is_finite ub = true -> exact_value f_ninf ub x = B2R ub - exp (- x) /\
  value_error f_ninf ub x = units 10 * exp (- x) + units 1 * Rabs (exact_value f_ninf ub x) /\ condition f_ninf ub x = Rabs (B2R ub) / exp (- x) /\
  free_error f_ninf ub x = units 64 * (1 + Rabs x + condition f_ninf ub x) /\
  refresh_error f_ninf ub x = units 33 * (1 + Rabs (ln (B2R ub - x))) * (B2R ub - x) + units 1 * Rabs x /\
  (forall v, interior f_ninf ub v -> bpow radix2 (-400) <= B2R ub - B2R v <= bpow radix2 400).
Proof. intros F. destruct ub as [[]|[]| |[] m e b]; try discriminate F; repeat split; try reflexivity; intros; apply H. Qed.
Lemma spec_both lb ub x : is_finite lb = true -> is_finite ub = true -> exact_value lb ub x = logistic_value (B2R lb) (B2R ub) x /\
  value_error lb ub x = units 28 * (exact_value lb ub x - B2R lb) + units 1 * Rabs (exact_value lb ub x) /\
  condition lb ub x = magnitude (B2R lb) (B2R ub) * (1 + exp (Rabs x)) / (B2R ub - B2R lb) /\
  free_error lb ub x = units 320 * (condition lb ub x + Rabs (ln (B2R ub - B2R lb)) + Rabs x) /\
  refresh_error lb ub x = units 40 * (2 + Rabs (ln (x - B2R lb)) + Rabs (ln (B2R ub - x))) * (x - B2R lb) + units 1 * Rabs x /\
  (forall v, interior lb ub v -> bpow radix2 (-200) <= B2R v - B2R lb <= bpow radix2 200 /\ bpow radix2 (-200) <= B2R ub - B2R v <= bpow radix2 200).
Proof.
  intros F G. destruct lb as [[]|[]| |[] m e b]; try discriminate F; destruct ub as [[]|[]| |[] m' e' b']; try discriminate G; repeat split; try reflexivity; intros; apply H.
Qed.

Section Entries.
Context (fexp flog : dbl -> dbl) (He : exp_good fexp) (Hlog : log_good flog) (lb ub : dbl) (Hb : good_bounds lb ub) (Hf : fle ub lb = false).

Lemma value_entry x : calm x -> value_close lb ub x (f_constrain_entry fexp x lb ub).
Proof using He Hb Hf.
  intros C. unfold value_close. destruct (bounds_cases lb ub Hb Hf) as [[E1 E2]|[[A E]|[[E A]|(A & B & L & W)]]].
  - subst lb ub. split; [apply C|]. cbn. rewrite Rminus_eq_0, Rabs_R0. lra.
  - rewrite E. destruct (spec_lower lb (B2R x) (proj1 A)) as (S1 & S2 & _). rewrite S2, S1. rewrite Rplus_comm. exact (lower_value fexp He x lb C A).
  - rewrite E. destruct (spec_upper ub (B2R x) (proj1 A)) as (S1 & S2 & _). rewrite S2, S1. exact (upper_value fexp He x ub C A).
  - destruct (spec_both lb ub (B2R x) (proj1 A) (proj1 B)) as (S1 & S2 & _). rewrite S2, S1. destruct (both_value fexp He lb ub A B L W x C) as [F E].
    split; [exact F|]. eapply Rle_trans; [exact E|]. right. f_equal. f_equal. unfold logistic_value. ring.
Qed.
Lemma back_entry x : calm x -> well_conditioned lb ub x ->
  let r := f_constrain_entry fexp x lb ub in dle lb r /\ dle r ub /\ free_close lb ub x (f_unconstrain_entry flog r lb ub).
Proof using He Hlog Hb Hf.
  intros C K r. unfold well_conditioned in K. unfold free_close. pose proof (value_entry x C) as [Fr _]. fold r in Fr.
  destruct (bounds_cases lb ub Hb Hf) as [[E1 E2]|[[A E]|[[E A]|(A & B & L & W)]]].
  - subst lb ub. unfold r. split; [apply dle_minf, finite_number, C|]. split; [apply dle_inf, finite_number, C|]. split; [apply C|]. cbn. rewrite Rminus_eq_0, Rabs_R0. lra.
  - unfold r in *. rewrite E in *. destruct (spec_lower lb (B2R x) (proj1 A)) as (_ & _ & S3 & S4 & _). rewrite S4. rewrite S3 in K |- *.
    destruct (lower_entry fexp (eg_ok _ He) x lb (finite_number _ (proj1 C)) (proj1 A)) as [D1 D2]. split; [exact D1|]. split; [exact D2|].
    apply (lower_back fexp flog He Hlog x lb C A). pose proof (exp_pos (B2R x)) as P. apply Rmult_le_compat_r with (r := exp (B2R x)) in K; [|lra]. unfold Rdiv in K. rewrite Rmult_assoc, Rinv_l, Rmult_1_r in K by lra. exact K.
  - unfold r in *. rewrite E in *. destruct (spec_upper ub (B2R x) (proj1 A)) as (_ & _ & S3 & S4 & _). rewrite S4. rewrite S3 in K |- *.
    destruct (upper_entry fexp (eg_ok _ He) x ub (finite_number _ (proj1 C)) (proj1 A)) as [D1 D2]. split; [exact D1|]. split; [exact D2|].
    apply (upper_back fexp flog He Hlog x ub C A). pose proof (exp_pos (- B2R x)) as P. apply Rmult_le_compat_r with (r := exp (- B2R x)) in K; [|lra]. unfold Rdiv in K. rewrite Rmult_assoc, Rinv_l, Rmult_1_r in K by lra. exact K.
  - destruct (spec_both lb ub (B2R x) (proj1 A) (proj1 B)) as (_ & _ & S3 & S4 & _). rewrite S4. rewrite S3 in K |- *.
    destruct (both_back fexp flog He Hlog lb ub A B L W x C) as (I & F & E).
    + apply Rmult_le_compat_r with (r := B2R ub - B2R lb) in K; [|lra]. unfold Rdiv in K. rewrite (Rmult_assoc _ (/ _)), Rinv_l, Rmult_1_r in K by lra. exact K.
    + split; [apply dle_finite; [apply A|exact Fr|unfold r; lra]|]. split; [apply dle_finite; [exact Fr|apply B|unfold r; lra]|]. split; [exact F|exact E].
Qed.
Lemma interior_in v : interior lb ub v -> dle lb v /\ dle v ub.
Proof using Hb Hf.
  intros I. assert (Fv : is_finite v = true) by apply I. pose proof (bpow_gt_0 radix2 (-400)) as P. pose proof (bpow_gt_0 radix2 (-200)) as P'.
  destruct (bounds_cases lb ub Hb Hf) as [[E1 E2]|[[A E]|[[E A]|(A & B & L & W)]]].
  - subst lb ub. split; [apply dle_minf, finite_number, Fv|apply dle_inf, finite_number, Fv].
  - rewrite E in *. destruct (spec_lower lb 0 (proj1 A)) as (_ & _ & _ & _ & _ & S). specialize (S v I). split; [apply dle_finite; [apply A|exact Fv|lra]|apply dle_inf, finite_number, Fv].
  - rewrite E in *. destruct (spec_upper ub 0 (proj1 A)) as (_ & _ & _ & _ & _ & S). specialize (S v I). split; [apply dle_minf, finite_number, Fv|apply dle_finite; [exact Fv|apply A|lra]].
  - destruct (spec_both lb ub 0 (proj1 A) (proj1 B)) as (_ & _ & _ & _ & _ & S). specialize (S v I). split; apply dle_finite; try apply A; try apply B; try exact Fv; lra.
Qed.
Lemma forth_entry v : interior lb ub v -> refresh_close lb ub v (f_constrain_entry fexp (f_unconstrain_entry flog v lb ub) lb ub).
Proof using He Hlog Hb Hf.
  intros I. assert (Fv : is_finite v = true) by apply I. unfold refresh_close.
  destruct (bounds_cases lb ub Hb Hf) as [[E1 E2]|[[A E]|[[E A]|(A & B & L & W)]]].
  - subst lb ub. split; [exact Fv|]. cbn. rewrite Rminus_eq_0, Rabs_R0. lra.
  - rewrite E in *. destruct (spec_lower lb (B2R v) (proj1 A)) as (_ & _ & _ & _ & S5 & S). rewrite S5. exact (lower_forth fexp flog He Hlog v lb Fv A (S v I)).
  - rewrite E in *. destruct (spec_upper ub (B2R v) (proj1 A)) as (_ & _ & _ & _ & S5 & S). rewrite S5. exact (upper_forth fexp flog He Hlog v ub Fv A (S v I)).
  - destruct (spec_both lb ub (B2R v) (proj1 A) (proj1 B)) as (_ & _ & _ & _ & S5 & S). rewrite S5. destruct (S v I) as [Q1 Q2]. exact (both_forth fexp flog He Hlog lb ub A B L W v Fv Q1 Q2).
Qed.
End Entries.

Lemma Ok_same {A} (x y : A) : Ok x = Ok y -> x = y.
Proof. congruence. Qed.
Lemma Forall2_map_r {A B} (f : A -> B) (P : A -> Prop) (Q : A -> B -> Prop) l : (forall a, P a -> Q a (f a)) -> List.Forall P l -> List.Forall2 Q l (map f l).
Proof. intros H F. induction F; cbn; constructor; auto. Qed.
Lemma Forall_and_of {A} (P Q : A -> Prop) l : List.Forall P l -> List.Forall Q l -> List.Forall (fun a => P a /\ Q a) l.
Proof. intros F G. induction F; inversion G; constructor; auto. Qed.

(** the bounds of a constructed parameter *)
Lemma fscalar_init_fields lb ub v0 p : fscalar_init lb ub v0 = Ok p -> fs_lb p = lb /\ fs_ub p = ub /\ fle ub lb = false.
Proof.
  unfold fscalar_init, fscalar_set. destruct (fle ub lb); [discriminate|]. destruct (fle f_ninf lb); [|discriminate]. destruct (fle ub f_inf); [|discriminate].
  cbn [negb]. destruct v0; intros H; apply Ok_same in H; subst p; repeat split.
Qed.
Lemma farray_set_ok p val : shape val = fa_shape p -> farray_set p val = Ok (mkFA (fa_shape p) (fa_lb p) (fa_ub p) val).
Proof. intros H. unfold farray_set. rewrite H, shape_eqb_refl. reflexivity. Qed.
Lemma farray_init_fields sh lb ub v0 p : farray_init sh lb ub v0 = Ok p -> fa_shape p = sh /\ fa_lb p = lb /\ fa_ub p = ub /\ fle ub lb = false /\ shape (fa_val p) = sh.
Proof.
  unfold farray_init, farray_set. destruct (fle f_ninf lb); [|discriminate]. destruct (fle ub f_inf); [|discriminate]. destruct (fle ub lb); [discriminate|].
  cbn [negb fa_shape fa_lb fa_ub]. destruct v0 as [v|].
  - destruct (shape_eqb (shape v) sh) eqn:E; [|discriminate]. apply shape_eqb_true in E. intros H. apply Ok_same in H. subst p. repeat split. exact E.
  - cbn [np_full shape]. rewrite shape_eqb_refl. intros H. apply Ok_same in H. subst p. repeat split.
Qed.

Section Params.
Context (fexp flog : dbl -> dbl) (He : exp_good fexp) (Hlog : log_good flog) (lb ub : dbl) (Hb : good_bounds lb ub).

(** vectors *)
Lemma vector_stored n v0 p x : fvector_init n lb ub v0 = Ok p -> length x = n -> List.Forall calm x ->
  exists p', fvector_set_free fexp p x = Ok p' /\ List.Forall2 (value_close lb ub) x (fvector_get p').
Proof using He Hb.
  intros H E C. destruct (fvector_init_fields _ _ _ _ _ H) as (_ & _ & _ & Hf & _). rewrite (set_free_ok fexp _ _ _ _ _ _ H E). eexists. split; [reflexivity|].
  cbn [fvector_get fv_val]. apply (Forall2_map_r _ calm); [|exact C]. intros a Ca. exact (value_entry fexp He lb ub Hb Hf a Ca).
Qed.
Lemma vector_back n v0 p x : fvector_init n lb ub v0 = Ok p -> length x = n -> List.Forall calm x -> List.Forall (well_conditioned lb ub) x ->
  exists p' w, fvector_set_free fexp p x = Ok p' /\ fvector_get_free flog p' = Ok w /\ List.Forall2 (free_close lb ub) x w.
Proof using He Hlog Hb.
  intros H E C K. destruct (fvector_init_fields _ _ _ _ _ H) as (_ & _ & _ & Hf & _). rewrite (set_free_ok fexp _ _ _ _ _ _ H E). do 2 eexists. split; [reflexivity|].
  pose proof (Forall_and_of _ _ _ C K) as CK. rewrite get_free_ok; cbn [fvector_get fv_val fv_lb fv_ub].
  - split; [reflexivity|]. rewrite map_map. apply (Forall2_map_r _ (fun a => calm a /\ well_conditioned lb ub a)); [|exact CK]. intros a [Ca Ka]. exact (proj2 (proj2 (back_entry fexp flog He Hlog lb ub Hb Hf a Ca Ka))).
  - exact Hf.
  - eapply Forall_map_of; [|exact CK]. cbn. intros a [Ca Ka]. destruct (back_entry fexp flog He Hlog lb ub Hb Hf a Ca Ka) as (A & B & _). split; assumption.
Qed.
Lemma vector_forth n v0 p vals q : fvector_init n lb ub v0 = Ok p -> fvector_set p vals = Ok q -> List.Forall (interior lb ub) vals ->
  exists w q', fvector_get_free flog q = Ok w /\ fvector_set_free fexp q w = Ok q' /\ List.Forall2 (refresh_close lb ub) vals (fvector_get q').
Proof using He Hlog Hb.
  intros H S I. destruct (fvector_init_fields _ _ _ _ _ H) as (E1 & E2 & E3 & Hf & _). unfold fvector_set in S. destruct (Nat.eqb_spec (length vals) (fv_size p)) as [N|N]; [|discriminate].
  apply Ok_same in S. subst q. rewrite E1, E2, E3 in *. rewrite get_free_ok; cbn [fvector_get fv_val fv_lb fv_ub].
  - do 2 eexists. split; [reflexivity|]. unfold fvector_set_free, f_constrain, fvector_set. cbn [fv_size fv_lb fv_ub]. rewrite map_length, N, Nat.eqb_refl, Hf. cbn [rbind]. rewrite !map_length, N, Nat.eqb_refl.
    split; [reflexivity|]. cbn [fvector_get fv_val]. rewrite map_map. apply (Forall2_map_r _ (interior lb ub)); [|exact I]. intros a Ia. exact (forth_entry fexp flog He Hlog lb ub Hb Hf a Ia).
  - exact Hf.
  - eapply Forall_impl; [|exact I]. intros a Ia. exact (interior_in lb ub Hb Hf a Ia).
Qed.

(** arrays *)
Lemma nd_unconstrain_array_ok (a : nd dbl) : fle ub lb = false -> List.Forall (fun v => dle lb v /\ dle v ub) (data a) ->
  nd_f_unconstrain_array flog a lb ub = Ok (Nd [nprod (shape a)] (map (fun v => f_unconstrain_entry flog v lb ub) (data a))).
Proof using.
  intros C H. unfold nd_f_unconstrain_array, nd_f_unconstrain. rewrite C.
  replace (forallb (fun v => fle v ub) (data a)) with true; [replace (forallb (fun v => fle lb v) (data a)) with true; [reflexivity|]|];
    symmetry; apply forallb_Forall; (eapply Forall_impl; [|exact H]); cbn; intros b [A B]; apply fle_dle; assumption.
Qed.
Lemma array_set_free_ok sh v0 p x : farray_init sh lb ub v0 = Ok p -> nd_size x = nprod sh ->
  farray_set_free fexp p x = Ok (mkFA sh lb ub (Nd sh (map (fun v => f_constrain_entry fexp v lb ub) (data x)))).
Proof using.
  intros H E. destruct (farray_init_fields _ _ _ _ _ H) as (E1 & E2 & E3 & Hf & _). unfold farray_set_free, farray_size, nd_f_constrain. rewrite E1, E2, E3, E, Nat.eqb_refl, Hf. cbn [rbind].
  unfold np_reshape, nd_size, nd_map. cbn [shape data]. unfold nd_size in E. rewrite E, Nat.eqb_refl. cbn [rbind]. rewrite farray_set_ok by (rewrite E1; reflexivity). rewrite E1, E2, E3. reflexivity.
Qed.
Lemma array_stored sh v0 p x : farray_init sh lb ub v0 = Ok p -> nd_size x = nprod sh -> List.Forall calm (data x) ->
  exists p', farray_set_free fexp p x = Ok p' /\ shape (farray_get p') = sh /\ List.Forall2 (value_close lb ub) (data x) (data (farray_get p')).
Proof using He Hb.
  intros H E C. destruct (farray_init_fields _ _ _ _ _ H) as (_ & _ & _ & Hf & _). rewrite (array_set_free_ok _ _ _ _ H E). eexists. split; [reflexivity|]. split; [reflexivity|].
  cbn [farray_get fa_val data]. apply (Forall2_map_r _ calm); [|exact C]. intros a Ca. exact (value_entry fexp He lb ub Hb Hf a Ca).
Qed.
Lemma array_back sh v0 p x : farray_init sh lb ub v0 = Ok p -> nd_size x = nprod sh -> List.Forall calm (data x) -> List.Forall (well_conditioned lb ub) (data x) ->
  exists p' w, farray_set_free fexp p x = Ok p' /\ farray_get_free flog p' = Ok w /\ shape w = [nprod sh] /\ List.Forall2 (free_close lb ub) (data x) (data w).
Proof using He Hlog Hb.
  intros H E C K. destruct (farray_init_fields _ _ _ _ _ H) as (_ & _ & _ & Hf & _). rewrite (array_set_free_ok _ _ _ _ H E). do 2 eexists. split; [reflexivity|].
  pose proof (Forall_and_of _ _ _ C K) as CK. unfold farray_get_free. cbn [fa_val fa_lb fa_ub]. rewrite nd_unconstrain_array_ok; [| exact Hf |].
  - split; [reflexivity|]. split; [reflexivity|]. cbn [data]. rewrite map_map. apply (Forall2_map_r _ (fun a => calm a /\ well_conditioned lb ub a)); [|exact CK]. intros a [Ca Ka]. exact (proj2 (proj2 (back_entry fexp flog He Hlog lb ub Hb Hf a Ca Ka))).
  - cbn [data]. eapply Forall_map_of; [|exact CK]. cbn. intros a [Ca Ka]. destruct (back_entry fexp flog He Hlog lb ub Hb Hf a Ca Ka) as (A & B & _). split; assumption.
Qed.
Lemma array_forth sh v0 p val q : farray_init sh lb ub v0 = Ok p -> farray_set p val = Ok q -> List.Forall (interior lb ub) (data val) ->
  exists w q', farray_get_free flog q = Ok w /\ farray_set_free fexp q w = Ok q' /\ shape (farray_get q') = sh /\ List.Forall2 (refresh_close lb ub) (data val) (data (farray_get q')).
Proof using He Hlog Hb.
  intros H S I. destruct (farray_init_fields _ _ _ _ _ H) as (E1 & E2 & E3 & Hf & _). unfold farray_set in S. destruct (shape_eqb (shape val) (fa_shape p)) eqn:N; [|discriminate].
  apply shape_eqb_true in N. apply Ok_same in S. subst q. rewrite E1, E2, E3 in *. unfold farray_get_free. cbn [fa_val fa_lb fa_ub]. rewrite nd_unconstrain_array_ok; [|exact Hf|].
  - do 2 eexists. split; [reflexivity|]. unfold farray_set_free, farray_size, nd_f_constrain, nd_size. cbn [shape fa_shape fa_lb fa_ub]. rewrite nprod_1, N, Nat.eqb_refl, Hf. cbn [rbind].
    unfold np_reshape, nd_size, nd_map. cbn [shape data]. rewrite nprod_1, Nat.eqb_refl. cbn [rbind]. rewrite farray_set_ok by reflexivity. split; [reflexivity|]. split; [reflexivity|].
    cbn [farray_get fa_val data]. rewrite map_map. apply (Forall2_map_r _ (interior lb ub)); [|exact I]. intros a Ia. exact (forth_entry fexp flog He Hlog lb ub Hb Hf a Ia).
  - eapply Forall_impl; [|exact I]. intros a Ia. exact (interior_in lb ub Hb Hf a Ia).
Qed.

(** scalars *)
Lemma scalar_set_free_ok v0 p a : fscalar_init lb ub v0 = Ok p -> fscalar_set_free fexp p a = Ok (mkFS lb ub (nd_map (fun v => f_constrain_entry fexp v lb ub) a)).
Proof using. intros H. destruct (fscalar_init_fields _ _ _ _ H) as (E1 & E2 & Hf). unfold fscalar_set_free, nd_f_constrain. rewrite E1, E2, Hf. cbn [rbind]. unfold fscalar_set. rewrite E1, E2. reflexivity. Qed.
Lemma scalar_get_free_ok (a : nd dbl) v : fle ub lb = false -> nd_size a = 1%nat -> data a = [v] -> dle lb v -> dle v ub ->
  fscalar_get_free flog (mkFS lb ub a) = Ok (nd_vec [f_unconstrain_entry flog v lb ub]).
Proof using.
  intros Hf N D A B. unfold fscalar_get_free, nd_f_unconstrain_scalar, nd_f_unconstrain. cbn [fs_val fs_lb fs_ub]. rewrite D. cbn [map f_truth rbind]. rewrite (proj2 (fle_dle v ub) B). cbn [negb]. rewrite (proj2 (fle_dle lb v) A). cbn [negb]. rewrite Hf.
  cbn [rbind]. unfold np_reshape, nd_size, nd_map. cbn [shape data]. unfold nd_size in N. rewrite N. try rewrite D. reflexivity.
Qed.
Lemma scalar_stored v0 p (a : nd dbl) x : fscalar_init lb ub v0 = Ok p -> data a = [x] -> calm x ->
  exists p' r, fscalar_set_free fexp p a = Ok p' /\ fscalar_get p' = Nd (shape a) [r] /\ value_close lb ub x r.
Proof using He Hb.
  intros H D C. destruct (fscalar_init_fields _ _ _ _ H) as (_ & _ & Hf). rewrite (scalar_set_free_ok _ _ _ H). do 2 eexists. split; [reflexivity|]. split; [unfold fscalar_get, nd_map; cbn [fs_val]; rewrite D; reflexivity|].
  exact (value_entry fexp He lb ub Hb Hf x C).
Qed.
Lemma scalar_back v0 p (a : nd dbl) x : fscalar_init lb ub v0 = Ok p -> nd_size a = 1%nat -> data a = [x] -> calm x -> well_conditioned lb ub x ->
  exists p' w, fscalar_set_free fexp p a = Ok p' /\ fscalar_get_free flog p' = Ok (nd_vec [w]) /\ free_close lb ub x w.
Proof using He Hlog Hb.
  intros H N D C K. destruct (fscalar_init_fields _ _ _ _ H) as (_ & _ & Hf). rewrite (scalar_set_free_ok _ _ _ H). destruct (back_entry fexp flog He Hlog lb ub Hb Hf x C K) as (A & B & E). do 2 eexists. split; [reflexivity|].
  split; [|exact E]. apply scalar_get_free_ok; try assumption. unfold nd_map. cbn [data]. rewrite D. reflexivity.
Qed.
Lemma scalar_forth v0 p (a : nd dbl) v q : fscalar_init lb ub v0 = Ok p -> nd_size a = 1%nat -> data a = [v] -> fscalar_set p a = Ok q -> interior lb ub v ->
  exists w q' r, fscalar_get_free flog q = Ok w /\ fscalar_set_free fexp q w = Ok q' /\ fscalar_get q' = nd_vec [r] /\ refresh_close lb ub v r.
Proof using He Hlog Hb.
  intros H N D S I. destruct (fscalar_init_fields _ _ _ _ H) as (E1 & E2 & Hf). unfold fscalar_set in S. apply Ok_same in S. subst q. rewrite E1, E2. destruct (interior_in lb ub Hb Hf v I) as [A B].
  rewrite (scalar_get_free_ok a v Hf N D A B). do 3 eexists. split; [reflexivity|]. unfold fscalar_set_free, nd_f_constrain. cbn [fs_lb fs_ub]. rewrite Hf. split; [reflexivity|]. split; [reflexivity|].
  exact (forth_entry fexp flog He Hlog lb ub Hb Hf v I).
Qed.
End Params.
