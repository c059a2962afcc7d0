(** Properties C119-C122: accuracy of scalar, vector and array parameters in IEEE-754 binary64 arithmetic, and scalars and arrays as vectors. *)
From Coq Require Import Reals ZArith List Lra Lia.
From Flocq Require Import Core BinarySingleNaN.
From Verif Require Import Res Nd SpecFloat SpecFloatSimplex SpecFloatAcc SpecFloatHistory ModelFloat ModelFloatParams
  LemmasFloat LemmasFloat3 LemmasFloat4 LemmasFloatSimplex4 LemmasFloatParams LemmasFloatHistory.
Import List ListNotations.
Open Scope R_scope.
Set Bullet Behavior "Strict Subproofs".

(** C119: set_free stores the exact value up to a few rounding errors *)
Theorem C119_vector : forall (fexp : dbl -> dbl), exp_good fexp -> forall lb ub, good_bounds lb ub ->
  forall n v0 p x, fvector_init n lb ub v0 = Ok p -> length x = n -> List.Forall calm x ->
  exists p', fvector_set_free fexp p x = Ok p' /\ List.Forall2 (value_close lb ub) x (fvector_get p').
Proof. exact vector_stored. Qed.
Print Assumptions C119_vector.
Theorem C119_array : forall (fexp : dbl -> dbl), exp_good fexp -> forall lb ub, good_bounds lb ub ->
  forall sh v0 p x, farray_init sh lb ub v0 = Ok p -> nd_size x = nprod sh -> List.Forall calm (data x) ->
  exists p', farray_set_free fexp p x = Ok p' /\ shape (farray_get p') = sh /\ List.Forall2 (value_close lb ub) (data x) (data (farray_get p')).
Proof. exact array_stored. Qed.
Print Assumptions C119_array.
Theorem C119_scalar : forall (fexp : dbl -> dbl), exp_good fexp -> forall lb ub, good_bounds lb ub ->
  forall v0 p (a : nd dbl) x, fscalar_init lb ub v0 = Ok p -> data a = [x] -> calm x ->
  exists p' r, fscalar_set_free fexp p a = Ok p' /\ fscalar_get p' = Nd (shape a) [r] /\ value_close lb ub x r.
Proof. exact scalar_stored. Qed.
Print Assumptions C119_scalar.

(** C120: the free value comes back up to the conditioning of the bounds *)
Theorem C120_vector : forall (fexp flog : dbl -> dbl), exp_good fexp -> log_good flog -> forall lb ub, good_bounds lb ub ->
  forall n v0 p x, fvector_init n lb ub v0 = Ok p -> length x = n -> List.Forall calm x -> List.Forall (well_conditioned lb ub) x ->
  exists p' w, fvector_set_free fexp p x = Ok p' /\ fvector_get_free flog p' = Ok w /\ List.Forall2 (free_close lb ub) x w.
Proof. exact vector_back. Qed.
Print Assumptions C120_vector.
Theorem C120_array : forall (fexp flog : dbl -> dbl), exp_good fexp -> log_good flog -> forall lb ub, good_bounds lb ub ->
  forall sh v0 p x, farray_init sh lb ub v0 = Ok p -> nd_size x = nprod sh -> List.Forall calm (data x) -> List.Forall (well_conditioned lb ub) (data x) ->
  exists p' w, farray_set_free fexp p x = Ok p' /\ farray_get_free flog p' = Ok w /\ shape w = [nprod sh] /\ List.Forall2 (free_close lb ub) (data x) (data w).
Proof. exact array_back. Qed.
Print Assumptions C120_array.
Theorem C120_scalar : forall (fexp flog : dbl -> dbl), exp_good fexp -> log_good flog -> forall lb ub, good_bounds lb ub ->
  forall v0 p (a : nd dbl) x, fscalar_init lb ub v0 = Ok p -> nd_size a = 1%nat -> data a = [x] -> calm x -> well_conditioned lb ub x ->
  exists p' w, fscalar_set_free fexp p a = Ok p' /\ fscalar_get_free flog p' = Ok (nd_vec [w]) /\ free_close lb ub x w.
Proof. exact scalar_back. Qed.
Print Assumptions C120_scalar.

(** C121: setting a parameter to its own free value moves the stored value by a few rounding errors *)
Theorem C121_vector : forall (fexp flog : dbl -> dbl), exp_good fexp -> log_good flog -> forall lb ub, good_bounds lb ub ->
  forall n v0 p vals q, fvector_init n lb ub v0 = Ok p -> fvector_set p vals = Ok q -> List.Forall (interior lb ub) vals ->
  exists w q', fvector_get_free flog q = Ok w /\ fvector_set_free fexp q w = Ok q' /\ List.Forall2 (refresh_close lb ub) vals (fvector_get q').
Proof. exact vector_forth. Qed.
Print Assumptions C121_vector.
Theorem C121_array : forall (fexp flog : dbl -> dbl), exp_good fexp -> log_good flog -> forall lb ub, good_bounds lb ub ->
  forall sh v0 p val q, farray_init sh lb ub v0 = Ok p -> farray_set p val = Ok q -> List.Forall (interior lb ub) (data val) ->
  exists w q', farray_get_free flog q = Ok w /\ farray_set_free fexp q w = Ok q' /\ shape (farray_get q') = sh /\
    List.Forall2 (refresh_close lb ub) (data val) (data (farray_get q')).
Proof. exact array_forth. Qed.
Print Assumptions C121_array.
Theorem C121_scalar : forall (fexp flog : dbl -> dbl), exp_good fexp -> log_good flog -> forall lb ub, good_bounds lb ub ->
  forall v0 p (a : nd dbl) v q, fscalar_init lb ub v0 = Ok p -> nd_size a = 1%nat -> data a = [v] -> fscalar_set p a = Ok q -> interior lb ub v ->
  exists w q' r, fscalar_get_free flog q = Ok w /\ fscalar_set_free fexp q w = Ok q' /\ fscalar_get q' = nd_vec [r] /\ refresh_close lb ub v r.
Proof. exact scalar_forth. Qed.
Print Assumptions C121_scalar.

(** bounds 3 and 5, 3 and +inf, -inf and 5, none; the free value 1 and the value 4 *)
Lemma dint_bounded z : (Z.abs z < 2 ^ 53)%Z -> is_finite (dint z) = true -> Rabs (IZR z) <= 8 -> bounded500 (dint z).
Proof. intros H F B. split; [exact F|]. rewrite dint_B2R by exact H. eapply Rle_trans; [exact B|]. replace 8 with (bpow radix2 3) by (cbn; lra). apply bpow_le. lia. Qed.
Lemma b3 : bounded500 (dint 3).
Proof. apply dint_bounded; [reflexivity|reflexivity|]. rewrite Rabs_pos_eq; lra. Qed.
Lemma b5 : bounded500 (dint 5).
Proof. apply dint_bounded; [reflexivity|reflexivity|]. rewrite Rabs_pos_eq; lra. Qed.
Lemma p40 : 1024 <= bpow radix2 40.
Proof. replace 1024 with (bpow radix2 10) by (cbn; lra). apply bpow_le. lia. Qed.
Lemma pm200 k : (k <= 0)%Z -> bpow radix2 k <= 1.
Proof. intros H. change 1 with (bpow radix2 0). apply bpow_le. exact H. Qed.
Lemma p200 k : (0 <= k)%Z -> 1 <= bpow radix2 k.
Proof. intros H. change 1 with (bpow radix2 0). apply bpow_le. exact H. Qed.
Example C119_C121_contracts : exp_good ideal_exp /\ log_good ideal_log.
Proof. split; [exact ideal_exp_good|exact ideal_log_good]. Qed.
Example C119_C121_bounds : good_bounds (dint 3) (dint 5) /\ good_bounds (dint 3) f_inf /\ good_bounds f_ninf (dint 5) /\ good_bounds f_ninf f_inf.
Proof.
  pose proof b3. pose proof b5. unfold good_bounds. split; [|split; [|split]]; (split; [tauto|]; split; [tauto|]).
  - intros _ _. rewrite !dint_B2R by reflexivity. pose proof (pm200 (-500) ltac:(lia)). lra.
  - intros _ [F _]. discriminate.
  - intros [F _]. discriminate.
  - intros [F _]. discriminate.
Qed.
Example C119_C121_constructed :
  (exists p, fvector_init 2 (dint 3) (dint 5) None = Ok p) /\ (exists p, farray_init [1; 2]%nat (dint 3) (dint 5) None = Ok p) /\ (exists p, fscalar_init (dint 3) (dint 5) None = Ok p) /\
  (exists p, fscalar_init (dint 3) f_inf None = Ok p) /\ (exists p, fscalar_init f_ninf (dint 5) None = Ok p).
Proof.
  assert (A : fle f_ninf (dint 3) = true) by (vm_compute; reflexivity). assert (B : fle (dint 5) f_inf = true) by (vm_compute; reflexivity). assert (C : fle (dint 5) (dint 3) = false) by (vm_compute; reflexivity).
  assert (D : fle f_inf (dint 3) = false) by (vm_compute; reflexivity). assert (E : fle (dint 5) f_ninf = false) by (vm_compute; reflexivity).
  assert (F : fle f_inf f_inf = true) by reflexivity. assert (G : fle f_ninf f_ninf = true) by reflexivity.
  split; [exact (fvector_init_default 2 (dint 3) (dint 5) A B C)|]. unfold farray_init, fscalar_init, farray_set. rewrite A, B, C, D, E, F, G. cbn [negb np_full shape fa_shape]. rewrite shape_eqb_refl.
  repeat split; eexists; reflexivity.
Qed.
Example C119_C120_free : calm (dint 1) /\ well_conditioned (dint 3) (dint 5) (dint 1) /\ well_conditioned (dint 3) f_inf (dint 1) /\ well_conditioned f_ninf (dint 5) (dint 1).
Proof.
  pose proof p40 as P. pose proof exp_le_3 as E. pose proof (exp_ineq1 1 ltac:(lra)) as E1.
  assert (E2 : / 3 <= exp (- (1))) by (rewrite exp_Ropp; apply Rinv_le_contravar; [apply exp_pos|exact E]).
  pose proof (proj1 b3) as F3. pose proof (proj1 b5) as F5. unfold calm, well_conditioned.
  rewrite (proj1 (proj2 (proj2 (spec_both (dint 3) (dint 5) (B2R (dint 1)) F3 F5)))), (proj1 (proj2 (proj2 (spec_lower (dint 3) (B2R (dint 1)) F3)))), (proj1 (proj2 (proj2 (spec_upper (dint 5) (B2R (dint 1)) F5)))).
  unfold magnitude. rewrite !dint_B2R by reflexivity. rewrite !(Rabs_pos_eq 1), !(Rabs_pos_eq 3), !(Rabs_pos_eq 5) by lra. rewrite Rmax_right by lra. split; [|split; [|split]].
  - split; [reflexivity|lra].
  - lra.
  - apply Rmult_le_reg_r with (exp 1); [lra|]. unfold Rdiv. rewrite Rmult_assoc, Rinv_l by lra. nra.
  - apply Rmult_le_reg_r with (exp (- (1))); [lra|]. unfold Rdiv. rewrite Rmult_assoc, Rinv_l by lra. nra.
Qed.
Lemma interior_both lb ub v : is_finite lb = true -> is_finite ub = true -> is_finite v = true ->
  bpow radix2 (-200) <= B2R v - B2R lb <= bpow radix2 200 -> bpow radix2 (-200) <= B2R ub - B2R v <= bpow radix2 200 -> interior lb ub v.
Proof. intros F G H A B. split; [exact H|]. destruct lb; try discriminate F; destruct ub; try discriminate G; split; assumption. Qed.
Lemma interior_lower lb v : is_finite lb = true -> is_finite v = true -> bpow radix2 (-400) <= B2R v - B2R lb <= bpow radix2 400 -> interior lb f_inf v.
Proof. intros F H A. split; [exact H|]. destruct lb; try discriminate F; exact A. Qed.
Lemma interior_upper ub v : is_finite ub = true -> is_finite v = true -> bpow radix2 (-400) <= B2R ub - B2R v <= bpow radix2 400 -> interior f_ninf ub v.
Proof. intros F H A. split; [exact H|]. destruct ub; try discriminate F; exact A. Qed.
Example C121_interior : interior (dint 3) (dint 5) (dint 4) /\ interior (dint 3) f_inf (dint 4) /\ interior f_ninf (dint 5) (dint 4) /\ interior f_ninf f_inf (dint 4).
Proof.
  pose proof (pm200 (-200) ltac:(lia)). pose proof (pm200 (-400) ltac:(lia)). pose proof (p200 200 ltac:(lia)). pose proof (p200 400 ltac:(lia)).
  pose proof (proj1 b3) as F3. pose proof (proj1 b5) as F5.
  split; [apply interior_both|split; [apply interior_lower|split; [apply interior_upper|split; [reflexivity|exact I]]]]; try assumption; try reflexivity; rewrite !dint_B2R by reflexivity; lra.
Qed.

(** C122: a scalar answers every sequence of calls, exceptions included, as a vector of size one with the same entry *)
Theorem C122_scalar : forall (fexp flog : dbl -> dbl) lb ub (v0 : option (nd dbl)) cs, (forall a, v0 = Some a -> one_entry a) -> List.Forall scalar_call cs ->
  match fscalar_init lb ub v0, fvector_init 1 lb ub (option_map (@data dbl) v0) with
  | Ok p, Ok q => answers (scalar_step fexp flog) p cs = answers (vector_step fexp flog) q (map flat cs)
  | Raise e, Raise e' => e = e'
  | _, _ => False
  end.
Proof. exact scalar_is_vector. Qed.
Print Assumptions C122_scalar.
(** an array answers as a vector with the same entries in row-major order *)
Theorem C122_array : forall (fexp flog : dbl -> dbl) sh lb ub (v0 : option (nd dbl)) cs, (forall a, v0 = Some a -> array_value sh a) -> List.Forall (array_call sh) cs ->
  match farray_init sh lb ub v0, fvector_init (nprod sh) lb ub (option_map (@data dbl) v0) with
  | Ok p, Ok q => answers (array_step fexp flog) p cs = answers (vector_step fexp flog) q (map flat cs)
  | Raise e, Raise e' => e = e'
  | _, _ => False
  end.
Proof. exact array_is_vector. Qed.
Print Assumptions C122_array.
(** whatever was called before, get() has the shape of the array, get_vector() and get_free() are flat, and set takes exactly the arrays of that shape *)
Theorem C122_array_shapes : forall (fexp flog : dbl -> dbl) sh lb ub v0 p cs, farray_init sh lb ub v0 = Ok p -> let p' := after (array_step fexp flog) p cs in
  shape (farray_get p') = sh /\ shape (farray_get_vector p') = [nprod sh] /\ (forall w, farray_get_free flog p' = Ok w -> shape w = [nprod sh]) /\
  (forall a, farray_set p' a = Raise ValueError <-> shape a <> sh) /\ (forall a p'', farray_set p' a = Ok p'' -> farray_get p'' = a).
Proof. exact array_shapes. Qed.
Print Assumptions C122_array_shapes.
Theorem C122_scalar_shapes : forall (flog : dbl -> dbl) (p : fscalar),
  (forall w, fscalar_get_vector p = Ok w -> shape w = [1%nat]) /\ (forall w, fscalar_get_free flog p = Ok w -> shape w = [1%nat]).
Proof. exact scalar_shapes. Qed.
Print Assumptions C122_scalar_shapes.
(** histories that meet the hypotheses: out of bounds values, NaN and wrong lengths included *)
Example C122_nonvacuous :
  List.Forall scalar_call [CSet (nd_scalar (dint 4)); CGetFree; CSetFree (nd_vec [B754_nan]); CGetFree; CSetVector (nd_vec [dint 9]); CGetFree; CGet] /\
  List.Forall (array_call [1; 2]%nat) [CSet (Nd [1; 2]%nat [dint 4; dint 4]); CGetFree; CSetFree (nd_vec [dint 1]); CSetVector (nd_vec [dint 4; dint 7]); CGetFree; CGet] /\
  (exists p, farray_init [1; 2]%nat (dint 3) (dint 5) None = Ok p) /\ fscalar_init (dint 5) (dint 3) None = Raise ValueError /\ fscalar_init B754_nan (dint 3) None = Raise AssertionError.
Proof.
  destruct C119_C121_constructed as (_ & A & _).
  split; [repeat constructor|]. split; [repeat (constructor; try reflexivity; try (left; reflexivity))|]. split; [exact A|].
  assert (C : fle (dint 3) (dint 5) = true) by (vm_compute; reflexivity). unfold fscalar_init. rewrite C. split; reflexivity.
Qed.
