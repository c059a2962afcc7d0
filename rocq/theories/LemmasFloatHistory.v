(** Scalars and arrays answer as vectors in double precision: lemmas behind C122. *)
From Coq Require Import Reals ZArith List Lia Bool.
From Flocq Require Import Core BinarySingleNaN.
From Verif Require Import Res Nd SpecFloat ModelFloat ModelFloatParams SpecFloatHistory LemmasFloat LemmasFloat5.
Import List ListNotations.
Set Bullet Behavior "Strict Subproofs".

Lemma one_entry_data a : one_entry a -> exists v, data a = [v] /\ nprod (shape a) = 1%nat.
Proof. intros [W S]. unfold nd_wf, nd_size in *. rewrite S in W. destruct (data a) as [|v [|? ?]]; try discriminate. eauto. Qed.
Lemma one_entry_of a v : data a = [v] -> nprod (shape a) = 1%nat -> one_entry a.
Proof. intros D S. split; [unfold nd_wf; rewrite D, S; reflexivity|exact S]. Qed.

Section Sim.
Context (fexp flog : dbl -> dbl).

Record scalar_as (p : fscalar) (q : fvector) : Prop := {
  sa_size : fv_size q = 1%nat; sa_lb : fv_lb q = fs_lb p; sa_ub : fv_ub q = fs_ub p; sa_val : fv_val q = data (fs_val p);
  sa_one : one_entry (fs_val p); sa_ok : fle (fs_ub p) (fs_lb p) = false }.

Lemma scalar_step_same p q c : scalar_as p q -> scalar_call c ->
  scalar_as (fst (scalar_step fexp flog p c)) (fst (vector_step fexp flog q (flat c))) /\ snd (scalar_step fexp flog p c) = snd (vector_step fexp flog q (flat c)).
Proof.
  intros [S Lb Ub V O K] C. destruct p as [lb ub val], q as [n lb' ub' vals]. cbn in S, Lb, Ub, V, O, K. subst n lb' ub' vals.
  assert (T : forall a, one_entry a -> scalar_as (mkFS lb ub a) (mkFV 1 lb ub (data a))) by (intros a A; constructor; try reflexivity; assumption).
  assert (T' : forall a, one_entry a -> fst (keep (mkFS lb ub val) (fscalar_set (mkFS lb ub val) a)) = mkFS lb ub a /\ fst (keep (mkFV 1 lb ub (data val)) (fvector_set (mkFV 1 lb ub (data val)) (data a))) = mkFV 1 lb ub (data a) /\
    snd (keep (mkFS lb ub val) (fscalar_set (mkFS lb ub val) a)) = snd (keep (mkFV 1 lb ub (data val)) (fvector_set (mkFV 1 lb ub (data val)) (data a)))).
  { intros a A. destruct (one_entry_data a A) as (v & D & _). unfold fvector_set. cbn [fv_size fv_lb fv_ub]. rewrite D. cbn. repeat split. }
  destruct c as [a|a|a| | |]; cbn [scalar_call] in C; cbn [scalar_step vector_step flat].
  - destruct (T' a C) as (-> & -> & ->). split; [exact (T a C)|reflexivity].
  - destruct (T' a C) as (-> & -> & ->). split; [exact (T a C)|reflexivity].
  - unfold fscalar_set_free, nd_f_constrain, fvector_set_free, f_constrain. cbn [fs_lb fs_ub fv_size fv_lb fv_ub]. rewrite K. cbn [rbind]. destruct (one_entry_data a C) as (v & D & S).
    assert (A : one_entry (nd_map (fun x => f_constrain_entry fexp x lb ub) a)) by (eapply one_entry_of; unfold nd_map; cbn [shape data]; [rewrite D; reflexivity|exact S]).
    replace (Nat.eqb (length (data a)) 1) with true by (rewrite D; reflexivity). destruct (T' _ A) as (E1 & E2 & E3). cbn [nd_map data] in E2, E3. rewrite E1, E2, E3. split; [|reflexivity]. exact (T _ A).
  - split; [exact (T val O)|reflexivity].
  - split; [exact (T val O)|]. destruct (one_entry_data val O) as (v & D & S). cbn [snd]. unfold fscalar_get_vector, np_reshape, nd_size. cbn [fs_val]. rewrite S. reflexivity.
  - split; [exact (T val O)|]. destruct (one_entry_data val O) as (v & D & S). cbn [snd].
    unfold fscalar_get_free, nd_f_unconstrain_scalar, nd_f_unconstrain, fvector_get_free, f_unconstrain_array, f_unconstrain. cbn [fs_lb fs_ub fs_val fv_lb fv_ub fv_val]. rewrite K, D. cbn [map f_truth rbind forallb].
    destruct (fle v ub); cbn [negb andb]; [|reflexivity]. destruct (fle lb v); cbn [negb andb]; [|reflexivity]. cbn [rbind]. unfold np_reshape, nd_size, nd_map. cbn [shape data]. rewrite S, D. reflexivity.
Qed.
Lemma scalar_answers_same cs : forall p q, scalar_as p q -> List.Forall scalar_call cs -> answers (scalar_step fexp flog) p cs = answers (vector_step fexp flog) q (map flat cs).
Proof.
  induction cs as [|c cs IH]; intros p q A F; [reflexivity|]. inversion F as [|? ? C F']; subst. destruct (scalar_step_same p q c A C) as [B E]. cbn [answers map]. rewrite E. f_equal. exact (IH _ _ B F').
Qed.
Lemma scalar_is_vector lb ub v0 cs : (forall a, v0 = Some a -> one_entry a) -> List.Forall scalar_call cs ->
  match fscalar_init lb ub v0, fvector_init 1 lb ub (option_map (@data dbl) v0) with
  | Ok p, Ok q => answers (scalar_step fexp flog) p cs = answers (vector_step fexp flog) q (map flat cs)
  | Raise e, Raise e' => e = e'
  | _, _ => False
  end.
Proof.
  intros V F. unfold fscalar_init, fvector_init. rewrite fle_minf, fle_pinf. destruct (fle ub lb) eqn:C.
  - apply fle_dle in C. destruct (dle_number _ _ C) as [A B]. unfold number in *. rewrite A, B. reflexivity.
  - destruct (is_nan lb); [reflexivity|]. destruct (is_nan ub); [reflexivity|]. cbn [negb]. destruct v0 as [a|]; cbn [option_map].
    + destruct (one_entry_data a (V a eq_refl)) as (v & D & S). unfold fscalar_set, fvector_set. cbn [fs_lb fs_ub fv_size fv_lb fv_ub]. rewrite D. cbn [length Nat.eqb].
      apply scalar_answers_same; [|exact F]. constructor; try reflexivity; [cbn [fs_val fv_val]; symmetry; exact D|apply V; reflexivity|exact C].
    + apply scalar_answers_same; [|exact F]. constructor; try reflexivity; [|exact C]. split; reflexivity.
Qed.

Record array_as (sh : list nat) (p : farray) (q : fvector) : Prop := {
  aa_shape : fa_shape p = sh; aa_size : fv_size q = nprod sh; aa_lb : fv_lb q = fa_lb p; aa_ub : fv_ub q = fa_ub p; aa_val : fv_val q = data (fa_val p);
  aa_vshape : shape (fa_val p) = sh; aa_wf : nd_wf (fa_val p); aa_ok : fle (fa_ub p) (fa_lb p) = false }.

Lemma array_step_same sh p q c : array_as sh p q -> array_call sh c ->
  array_as sh (fst (array_step fexp flog p c)) (fst (vector_step fexp flog q (flat c))) /\ snd (array_step fexp flog p c) = snd (vector_step fexp flog q (flat c)).
Proof.
  intros [Sh S Lb Ub V Sv W K] C. destruct p as [sh' lb ub val], q as [n lb' ub' vals]. cbn in Sh, S, Lb, Ub, V, Sv, W, K. subst sh' n lb' ub' vals.
  assert (T : forall a, shape a = sh -> nd_wf a -> array_as sh (mkFA sh lb ub a) (mkFV (nprod sh) lb ub (data a))) by (intros a A B; constructor; try reflexivity; assumption).
  destruct c as [a|a|a| | |]; cbn [array_call] in C; cbn [array_step vector_step flat].
  - destruct C as [Wa [E|N]].
    + unfold farray_set, fvector_set. cbn [fa_shape fa_lb fa_ub fv_size fv_lb fv_ub]. rewrite E, shape_eqb_refl. unfold nd_wf in Wa. rewrite Wa, E, Nat.eqb_refl. cbn [keep fst snd]. split; [|reflexivity]. apply T; [exact E|exact Wa].
    + unfold farray_set, fvector_set. cbn [fa_shape fa_lb fa_ub fv_size fv_lb fv_ub]. destruct (shape_eqb (shape a) sh) eqn:E; [apply shape_eqb_true in E; unfold nd_size in N; congruence|].
      unfold nd_wf in Wa. unfold nd_size in N. rewrite Wa. destruct (Nat.eqb_spec (nprod (shape a)) (nprod sh)) as [X|_]; [contradiction|]. cbn [keep fst snd]. split; [|reflexivity]. exact (T val Sv W).
  - unfold farray_set_vector, fvector_set, farray_size, np_reshape, nd_size. cbn [fa_shape fa_lb fa_ub fv_size fv_lb fv_ub]. unfold nd_wf in C. rewrite C.
    destruct (Nat.eqb_spec (nprod (shape a)) (nprod sh)) as [E|N]; cbn [rbind].
    + unfold farray_set. cbn [shape fa_shape fa_lb fa_ub]. rewrite shape_eqb_refl. cbn [keep fst snd]. split; [|reflexivity]. exact (T (Nd sh (data a)) eq_refl (eq_trans C E)).
    + cbn [keep fst snd]. split; [|reflexivity]. exact (T val Sv W).
  - unfold farray_set_free, fvector_set_free, farray_size, nd_f_constrain, f_constrain. cbn [fa_shape fa_lb fa_ub fv_size fv_lb fv_ub]. unfold nd_wf in C. change (nd_size a) with (nprod (shape a)). rewrite C, K.
    destruct (Nat.eqb_spec (nprod (shape a)) (nprod sh)) as [E|N]; cbn [rbind].
    + unfold np_reshape, nd_size, nd_map. cbn [shape data]. rewrite E, Nat.eqb_refl. cbn [rbind]. unfold farray_set, fvector_set. cbn [shape fa_shape fa_lb fa_ub fv_size fv_lb fv_ub]. rewrite shape_eqb_refl, map_length, C, E, Nat.eqb_refl. cbn [keep fst snd].
      split; [|reflexivity]. apply (T (Nd sh (map (fun v => f_constrain_entry fexp v lb ub) (data a))) eq_refl). unfold nd_wf. cbn [shape data]. rewrite map_length, C. exact E.
    + cbn [keep fst snd]. split; [|reflexivity]. exact (T val Sv W).
  - split; [exact (T val Sv W)|reflexivity].
  - split; [exact (T val Sv W)|reflexivity].
  - split; [exact (T val Sv W)|]. cbn [snd]. unfold farray_get_free, nd_f_unconstrain_array, nd_f_unconstrain, fvector_get_free, f_unconstrain_array, f_unconstrain. cbn [fa_lb fa_ub fa_val fv_lb fv_ub fv_val]. rewrite K.
    destruct (forallb (fun v => fle v ub) (data val)); cbn [negb]; [|reflexivity]. destruct (forallb (fun v => fle lb v) (data val)); cbn [negb]; reflexivity.
Qed.
Lemma array_answers_same sh cs : forall p q, array_as sh p q -> List.Forall (array_call sh) cs -> answers (array_step fexp flog) p cs = answers (vector_step fexp flog) q (map flat cs).
Proof.
  induction cs as [|c cs IH]; intros p q A F; [reflexivity|]. inversion F as [|? ? C F']; subst. destruct (array_step_same sh p q c A C) as [B E]. cbn [answers map]. rewrite E. f_equal. exact (IH _ _ B F').
Qed.
Lemma array_is_vector sh lb ub v0 cs : (forall a, v0 = Some a -> array_value sh a) -> List.Forall (array_call sh) cs ->
  match farray_init sh lb ub v0, fvector_init (nprod sh) lb ub (option_map (@data dbl) v0) with
  | Ok p, Ok q => answers (array_step fexp flog) p cs = answers (vector_step fexp flog) q (map flat cs)
  | Raise e, Raise e' => e = e'
  | _, _ => False
  end.
Proof.
  intros V F. unfold farray_init, fvector_init. destruct (fle f_ninf lb); [|reflexivity]. destruct (fle ub f_inf); [|reflexivity]. destruct (fle ub lb) eqn:C; [reflexivity|]. cbn [negb]. destruct v0 as [a|]; cbn [option_map].
  - destruct (V a eq_refl) as [W H]. unfold farray_set, fvector_set. cbn [fa_shape fa_lb fa_ub fv_size fv_lb fv_ub]. unfold nd_wf in W. rewrite W. unfold nd_size in H. destruct (shape_eqb (shape a) sh) eqn:E.
    + apply shape_eqb_true in E. rewrite E, Nat.eqb_refl. apply (array_answers_same sh); [|exact F]. constructor; try reflexivity; try assumption.
    + destruct H as [H|H]; [rewrite H, shape_eqb_refl in E; discriminate|]. destruct (Nat.eqb_spec (nprod (shape a)) (nprod sh)) as [X|_]; [contradiction|reflexivity].
  - unfold farray_set, fvector_set. cbn [np_full shape fa_shape fa_lb fa_ub fv_size fv_lb fv_ub]. rewrite shape_eqb_refl, repeat_length, Nat.eqb_refl. apply (array_answers_same sh); [|exact F].
    constructor; try reflexivity; [|exact C]. unfold nd_wf. cbn [fa_val np_full data shape]. apply repeat_length.
Qed.

(** the shape of an array parameter *)
Definition shaped (sh : list nat) (p : farray) : Prop := fa_shape p = sh /\ shape (fa_val p) = sh.
Lemma shaped_set sh p a p' : shaped sh p -> farray_set p a = Ok p' -> shaped sh p'.
Proof.
  intros [A B] H. unfold farray_set in H. destruct (shape_eqb (shape a) (fa_shape p)) eqn:E; [|discriminate]. apply shape_eqb_true in E. injection H as <-. split; [exact A|]. cbn [fa_val]. rewrite E. exact A.
Qed.
Lemma shaped_step sh p c : shaped sh p -> shaped sh (fst (array_step fexp flog p c)).
Proof.
  intros H. destruct c as [a|a|a| | |]; cbn [array_step]; try exact H.
  - destruct (farray_set p a) eqn:E; cbn [keep fst]; [exact (shaped_set _ _ _ _ H E)|exact H].
  - unfold farray_set_vector. destruct (Nat.eqb _ _); [|exact H]. destruct (np_reshape a (fa_shape p)) as [w|e]; cbn [rbind]; [|exact H]. destruct (farray_set p w) eqn:E; cbn [keep fst]; [exact (shaped_set _ _ _ _ H E)|exact H].
  - unfold farray_set_free. destruct (Nat.eqb _ _); [|exact H]. destruct (nd_f_constrain fexp a (fa_lb p) (fa_ub p)) as [v|e]; cbn [rbind]; [|exact H]. destruct (np_reshape v (fa_shape p)) as [w|e]; cbn [rbind]; [|exact H]. destruct (farray_set p w) eqn:E; cbn [keep fst]; [exact (shaped_set _ _ _ _ H E)|exact H].
Qed.
Lemma array_shapes sh lb ub v0 p cs : farray_init sh lb ub v0 = Ok p -> let p' := after (array_step fexp flog) p cs in
  shape (farray_get p') = sh /\ shape (farray_get_vector p') = [nprod sh] /\ (forall w, farray_get_free flog p' = Ok w -> shape w = [nprod sh]) /\
  (forall a, farray_set p' a = Raise ValueError <-> shape a <> sh) /\ (forall a p'', farray_set p' a = Ok p'' -> farray_get p'' = a).
Proof.
  intros H. assert (I : shaped sh p).
  { unfold farray_init in H. destruct (fle f_ninf lb); [|discriminate]. destruct (fle ub f_inf); [|discriminate]. destruct (fle ub lb); [discriminate|]. cbn [negb] in H.
    destruct v0 as [a|]; unfold farray_set in H; cbn [np_full shape fa_shape fa_lb fa_ub] in H.
    - destruct (shape_eqb (shape a) sh) eqn:E; [|discriminate]. apply shape_eqb_true in E. injection H as <-. split; [reflexivity|exact E].
    - rewrite shape_eqb_refl in H. injection H as <-. split; reflexivity. }
  cbv zeta. clear H. revert p I. induction cs as [|c cs IH]; intros p I; [|exact (IH _ (shaped_step sh p c I))]. cbn [after]. destruct I as [A B].
  split; [exact B|]. split; [unfold farray_get_vector, np_flatten; cbn [shape]; rewrite B; reflexivity|]. split; [|split].
  - intros w. unfold farray_get_free, nd_f_unconstrain_array, nd_f_unconstrain. destruct (negb _); [discriminate|]. destruct (negb _); [discriminate|]. destruct (fle _ _); [discriminate|]. cbn [rbind]. intros E. injection E as <-.
    unfold np_flatten, nd_map. cbn [shape]. rewrite B. reflexivity.
  - intros a. unfold farray_set. rewrite A. destruct (shape_eqb (shape a) sh) eqn:E; [apply shape_eqb_true in E|].
    + split; [discriminate|contradiction].
    + split; [|reflexivity]. intros _ X. rewrite X, shape_eqb_refl in E. discriminate.
  - intros a p''. unfold farray_set. destruct (shape_eqb _ _); [|discriminate]. intros X. injection X as <-. reflexivity.
Qed.
(** a scalar hands out vectors of length one *)
Lemma scalar_shapes p : (forall w, fscalar_get_vector p = Ok w -> shape w = [1%nat]) /\ (forall w, fscalar_get_free flog p = Ok w -> shape w = [1%nat]).
Proof.
  split; intros w.
  - unfold fscalar_get_vector, np_reshape. destruct (Nat.eqb _ _); [|discriminate]. intros E. injection E as <-. reflexivity.
  - unfold fscalar_get_free. destruct (nd_f_unconstrain_scalar flog (fs_val p) (fs_lb p) (fs_ub p)) as [u|e]; cbn [rbind]; [|discriminate]. unfold np_reshape. destruct (Nat.eqb _ _); [|discriminate]. intros E. injection E as <-. reflexivity.
Qed.
End Sim.
