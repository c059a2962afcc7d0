(** Properties C107 and C108: predictions of output parameters; the derivative terms without the classes. *)
From Coq Require Import String Reals List Bool Arith ZArith Lia Lra Permutation.
From Coquelicot Require Import Coquelicot.
From Verif Require Import Res Num Nd RSum ModelAutograd ModelSparse ModelParameters ModelMatrix ModelSimplex ModelProjection ModelDict ModelObjective ModelSensitivity.
From Verif Require Import SpecParameters SpecDict SpecObjective SpecSmooth SpecSensitivity.
From Verif Require Import LemmasSmooth LemmasTerms LemmasSens LemmasSensMain LemmasModuleTerms LemmasConsolidate LemmasSensClass LemmasLinear LemmasSensStep LemmasOldSens LemmasSolve ExamplesSensitivity PropsSensitivity.
Import List ListNotations.
Open Scope R_scope.
Set Bullet Behavior "Strict Subproofs".

(** C107. [out0] is the value the output parameter has when the object is constructed; [conv_vec] is the output vector as a function of the
    free input vector. With [linear] the prediction starts from out0 and follows the derivative of the converted optimum. *)
Theorem C107_linear_prediction : forall obj_f hyp_f conv Chol (cho_factor : rmat2 -> res Chol) cho_solve trace trace_conv trace_two s n p U in0 hy0 H opt_in hess s' o opt J Jo out0,
  cho_solves cho_factor cho_solve -> (forall t y, traced t (trace t y)) -> (forall s, history2 s (fst (conv s))) -> (forall s, conv_traced conv true false s (trace_conv s)) -> (forall s x y, two_traced true false s (trace_two s x y)) ->
  regular_point n p U (joint obj_f (tr_in s, tr_hyp s) true false n) (joint hyp_f (tr_in s, tr_hyp s) true false n) in0 hy0 H ->
  t_get_vector (tr_hyp s) = Ok (fin_arg hy0) -> t_set_vector (tr_hyp s) (fin_arg hy0) = (tr_hyp s, Ok tt) ->
  match opt_in with Some x => x = in0 | None => t_get_free (tr_in s) = Ok (fin_arg in0) end -> supplied n H hess ->
  old_init obj_f hyp_f conv Chol cho_factor cho_solve trace trace_conv trace_two s opt_in hess = (s', Ok o) ->
  opt hy0 = in0 -> optimum_map n p (joint obj_f (tr_in s, tr_hyp s) true false n) hy0 opt -> is_jacobian n p opt hy0 J ->
  (forall i, (i < length out0)%nat -> exists g, differentiable_at n (fun y => nth i (conv_vec conv (tr_in s, tr_out s) y) 0) in0 g) ->
  is_jacobian (length out0) p (fun e => conv_vec conv (tr_in s, tr_out s) (opt e)) hy0 Jo ->
  t_get_vector (tr_out s) = Ok (fin_arg out0) -> t_set_vector (tr_out s) (fin_arg out0) = (tr_out s, Ok tt) -> length (conv_vec conv (tr_in s, tr_out s) in0) = length out0 ->
  forall s2 new_hyper, length new_hyper = p -> exists r, old_predict_output conv s2 o new_hyper true = (s2, Ok r) /\ length r = length out0 /\
    forall i, (i < length out0)%nat -> nth i r 0 = nth i out0 0 + rsum p (fun c => Jo i c * (nth c new_hyper 0 - nth c hy0 0)).
Proof.
  intros obj_f hyp_f conv Chol cho_factor cho_solve trace trace_conv trace_two s n p U in0 hy0 H opt_in hess s' o opt J Jo out0 Hc Ht Hconv Htc Htt [A1 [A2 [A3 [A4 [A5 [A6 [A7 [A8 A9]]]]]]]] G1 G2 Ho Hs Hi.
  exact (old_output_linear obj_f hyp_f conv Chol cho_factor cho_solve trace trace_conv trace_two Hc Ht Hconv Htc Htt s n p U in0 hy0 H A1 A2 A3 A4 A5 A6 A7 A8 A9 G1 G2 opt_in hess s' o Ho Hs Hi opt J Jo out0).
Qed.
Print Assumptions C107_linear_prediction.
(** without [linear]: the converter is applied to the predicted input; s2 is any later state in which the output parameter has its old value *)
Theorem C107_converted_prediction : forall obj_f hyp_f conv Chol (cho_factor : rmat2 -> res Chol) cho_solve trace trace_conv trace_two s n p U in0 hy0 H opt_in hess s' o opt J,
  cho_solves cho_factor cho_solve -> (forall t y, traced t (trace t y)) -> (forall s, history2 s (fst (conv s))) -> (forall s, conv_traced conv true false s (trace_conv s)) ->
  regular_point n p U (joint obj_f (tr_in s, tr_hyp s) true false n) (joint hyp_f (tr_in s, tr_hyp s) true false n) in0 hy0 H ->
  t_get_vector (tr_hyp s) = Ok (fin_arg hy0) -> t_set_vector (tr_hyp s) (fin_arg hy0) = (tr_hyp s, Ok tt) ->
  match opt_in with Some x => x = in0 | None => t_get_free (tr_in s) = Ok (fin_arg in0) end -> supplied n H hess ->
  old_init obj_f hyp_f conv Chol cho_factor cho_solve trace trace_conv trace_two s opt_in hess = (s', Ok o) ->
  opt hy0 = in0 -> optimum_map n p (joint obj_f (tr_in s, tr_hyp s) true false n) hy0 opt -> is_jacobian n p opt hy0 J ->
  forall s2 new_hyper, history (tr_in s) (tr_in s2) -> tr_out s2 = tr_out s -> length new_hyper = p ->
  exists x, old_predict_input o new_hyper = Ok x /\ length x = n /\ (forall i, (i < n)%nat -> nth i x 0 = nth i in0 0 + rsum p (fun c => J i c * (nth c new_hyper 0 - nth c hy0 0))) /\
    match snd (converter_eval conv true false (tr_in s, tr_out s) (fin_arg x)) with
    | Ok _ => snd (old_predict_output conv s2 o new_hyper false) = Ok (conv_vec conv (tr_in s, tr_out s) x)
    | Raise e => snd (old_predict_output conv s2 o new_hyper false) = Raise e
    end.
Proof.
  intros obj_f hyp_f conv Chol cho_factor cho_solve trace trace_conv trace_two s n p U in0 hy0 H opt_in hess s' o opt J Hc Ht Hconv Htc [A1 [A2 [A3 [A4 [A5 [A6 [A7 [A8 A9]]]]]]]] G1 G2 Ho Hs Hi.
  exact (old_output_nonlinear obj_f hyp_f conv Chol cho_factor cho_solve trace trace_conv trace_two Hc Ht Hconv Htc s n p U in0 hy0 H A1 A2 A3 A4 A5 A6 A7 A8 A9 G1 G2 opt_in hess s' o Ho Hs Hi opt J).
Qed.
Print Assumptions C107_converted_prediction.
(** the remembered output is the stale value of the output parameter, and the parameter keeps it: it is not converted from the optimum *)
Theorem C107_remembered_output : forall obj_f hyp_f conv Chol (cho_factor : rmat2 -> res Chol) cho_solve trace trace_conv trace_two s hy0 opt_in hess s' o out0,
  (forall t y, traced t (trace t y)) -> (forall s, history2 s (fst (conv s))) -> (forall s, conv_traced conv true false s (trace_conv s)) -> (forall s x y, two_traced true false s (trace_two s x y)) ->
  t_get_vector (tr_hyp s) = Ok (fin_arg hy0) ->
  old_init obj_f hyp_f conv Chol cho_factor cho_solve trace trace_conv trace_two s opt_in hess = (s', Ok o) ->
  t_get_vector (tr_out s) = Ok (fin_arg out0) -> t_set_vector (tr_out s) (fin_arg out0) = (tr_out s, Ok tt) -> os_out o = out0 /\ tr_out s' = tr_out s.
Proof.
  intros obj_f hyp_f conv Chol cho_factor cho_solve trace trace_conv trace_two s hy0 opt_in hess s' o out0 Ht Hconv Htc Htt G1 Hi Go So.
  pose proof (old_out obj_f hyp_f conv Chol cho_factor cho_solve trace trace_conv trace_two Ht Hconv Htc Htt s hy0 G1 opt_in hess s' o Hi out0 Go So) as [A [B _]]. split; assumption.
Qed.
Print Assumptions C107_remembered_output.
(** so at the base hyperparameter itself the linear prediction may be 7 where the converted optimum is 1 *)
Theorem C107_linear_prediction_refuted : exists f conv s n p U in0 hy0 H s' o opt,
  regular_point n p U (joint f (tr_in s, tr_hyp s) true false n) (joint f (tr_in s, tr_hyp s) true false n) in0 hy0 H /\
  (forall s, history2 s (fst (conv s))) /\ t_get_free (tr_in s) = Ok (fin_arg in0) /\ t_get_vector (tr_hyp s) = Ok (fin_arg hy0) /\
  opt hy0 = in0 /\ optimum_map n p (joint f (tr_in s, tr_hyp s) true false n) hy0 opt /\
  old_init f f conv rmat2 gauss_factor gauss_cho_solve clean_trace (fun s => s) (fun s _ _ => s) s None None = (s', Ok o) /\
  old_predict_output conv s' o hy0 true = (s', Ok [7]) /\ snd (old_predict_output conv s' o hy0 false) = Ok [1] /\ conv_vec conv (tr_in s, tr_out s) in0 = [1].
Proof.
  destruct C57_nonvacuous as [R1 [R2 [R3 [_ [_ [_ [R4 [[s' [o R5]] _]]]]]]]].
  exists (poly square), conv_sq, ex_trio, 1%nat, 1%nat, plane, [0], [0], H_one, s', o, (fun e => [nth 0 e 0]).
  assert (V0 : numbers (fin_arg [0]) = [0]) by apply numbers_fin.
  assert (A1 : t_get_vector (tr_hyp ex_trio) = Ok (fin_arg [0])) by reflexivity.
  assert (A2 : t_set_vector (tr_hyp ex_trio) (fin_arg [0]) = (tr_hyp ex_trio, Ok tt)) by reflexivity.
  assert (A3 : t_get_free (tr_in ex_trio) = Ok (fin_arg [0])) by reflexivity.
  assert (TC : forall s, conv_traced conv_sq true false s ((fun s => s) s)) by (intros; constructor).
  assert (TT : forall s (x y : list R), two_traced true false s s) by (intros; constructor).
  destruct (C107_remembered_output (poly square) (poly square) conv_sq rmat2 gauss_factor gauss_cho_solve clean_trace (fun s => s) (fun s _ _ => s) ex_trio [0] None None s' o [7] clean_traced R4 TC (fun s x y => TT s x y) A1 R5 eq_refl eq_refl) as [B1 B2].
  pose proof (old_made (poly square) (poly square) conv_sq rmat2 gauss_factor gauss_cho_solve clean_trace (fun s => s) (fun s _ _ => s) gauss_cho_solves clean_traced R4 TC ex_trio 1 1 plane [0] [0] H_one) as OM.
  pose proof R1 as [Q1 [Q2 [Q3 [Q4 [Q5 [Q6 [Q7 [Q8 Q9]]]]]]]]. specialize (OM Q1 Q2 Q3 Q4 Q5 Q6 Q7 Q8 Q9 A1 A2 None None s' o A3 I R5).
  pose proof (old_out (poly square) (poly square) conv_sq rmat2 gauss_factor gauss_cho_solve clean_trace (fun s => s) (fun s _ _ => s) clean_traced R4 TC (fun s x y => TT s x y) ex_trio [0] A1 None None s' o R5 [7] eq_refl eq_refl) as [_ [_ B3]].
  split; [exact R1|]. split; [exact R4|]. split; [exact A3|]. split; [exact A1|]. split; [reflexivity|]. split; [exact R2|]. split; [exact R5|].
  assert (CV : conv_vec conv_sq (tr_in ex_trio, tr_out ex_trio) [0] = [1]) by (transitivity [0 * 0 + 1]; [reflexivity|]; apply (f_equal (fun x => [x])); ring).
  split; [|split; [|exact CV]].
  - destruct OM as [O1 [O2 [O3 [O4 [_ [O5 [O6 _]]]]]]]. rewrite CV in O5. cbn [length] in O5. unfold old_predict_output. rewrite O2, B1. cbn [length Nat.eqb negb]. unfold mat_mat. rewrite O6, O3. cbn [Nat.eqb negb rbind]. unfold mat_vec. cbn [rm_rows rm_cols rm_get]. rewrite O4, O5. cbn [map2 length Nat.eqb negb rbind]. cbn [seq map rsum]. cbn [length Nat.eqb]. unfold vadd. cbn [map2 nth].
    f_equal. f_equal. apply (f_equal (fun x => [x])). ring.
  - destruct (C107_converted_prediction (poly square) (poly square) conv_sq rmat2 gauss_factor gauss_cho_solve clean_trace (fun s => s) (fun s _ _ => s) ex_trio 1 1 plane [0] [0] H_one None None s' o (fun e => [nth 0 e 0]) (fun _ _ => 1) gauss_cho_solves clean_traced R4 TC R1 A1 A2 A3 I R5 eq_refl R2 R3 s' [0] B3 B2 eq_refl) as [x [_ [Lx [Ex C]]]].
    assert (x = [0]) as -> by (destruct x as [|x0 [|]]; try discriminate; specialize (Ex 0%nat (le_n 1)); cbn [nth rsum] in Ex; apply (f_equal (fun z => [z])); lra).
    assert (CE : snd (converter_eval conv_sq true false (tr_in ex_trio, tr_out ex_trio) (fin_arg [0])) = Ok (fin_arg [0 * 0 + 1])) by reflexivity. rewrite CE, CV in C. exact C.
Qed.
Print Assumptions C107_linear_prediction_refuted.
(** the same objects with an output parameter that holds the converted optimum meet the hypotheses of the first theorem *)
Definition ex_trio1 : trio := Trio (one_par "x" NInf 0) (one_par "o" NInf 1) (one_par "e" NInf 0).
Example C107_nonvacuous : t_get_vector (tr_out ex_trio1) = Ok (fin_arg [1]) /\ t_set_vector (tr_out ex_trio1) (fin_arg [1]) = (tr_out ex_trio1, Ok tt) /\
  (exists s' o, old_init (poly square) (poly square) conv_sq rmat2 gauss_factor gauss_cho_solve clean_trace (fun s => s) (fun s _ _ => s) ex_trio1 None None = (s', Ok o)) /\
  conv_vec conv_sq (tr_in ex_trio1, tr_out ex_trio1) [0] = [1] /\
  (exists g, differentiable_at 1 (fun y => nth 0 (conv_vec conv_sq (tr_in ex_trio1, tr_out ex_trio1) y) 0) [0] g) /\
  is_jacobian 1 1 (fun e => conv_vec conv_sq (tr_in ex_trio1, tr_out ex_trio1) ((fun e => [nth 0 e 0]) e)) [0] (fun _ _ => 0).
Proof.
  assert (CV : forall a, conv_vec conv_sq (tr_in ex_trio1, tr_out ex_trio1) [a] = [a * a + 1]) by reflexivity.
  split; [reflexivity|]. split; [reflexivity|]. split; [eexists; eexists; reflexivity|]. split; [rewrite CV; apply (f_equal (fun x => [x])); ring|]. split.
  - exists (fun _ => 0). intros eps He. exists eps. split; [exact He|]. intros [|w [|]] Lw Hw; try discriminate. specialize (Hw 0%nat (le_n 1)). rewrite !CV. cbn [nth rsum] in *.
    replace (w * w + 1 - (0 * 0 + 1) - (0 + 0 * (w - 0))) with (w * w) by ring. rewrite Rabs_mult. rewrite Rminus_0_r in *. rewrite Rplus_0_l. pose proof (Rabs_pos w). nra.
  - intros i l Hi Hl. assert (i = 0%nat) by lia. assert (l = 0%nat) by lia. subst i l. unfold is_partial. cbn [nth]. apply (is_derive_ext (fun t => t * t + 1)); [intros t; rewrite CV; reflexivity|]. auto_derive; [exact I|ring].
Qed.

(** C108. g is any function of two vectors; E is a curve of solutions of g = 0. *)
Theorem C108_implicit_derivatives : forall solve n p K U g G delta E eps0 deps H M arr, solves_systems solve -> two_arg_fun n p n U g G -> smooth_root n p K U G delta E eps0 deps H ->
  generate_two_term_derivative_array g (Z.of_nat M) = Ok arr -> (K < M)%nat -> forall k, (k < K)%nat ->
  exists ts, expansion_terms solve H arr k = Ok ts /\ evaluate_dketa_depsk solve H ts (E 0%nat 0) eps0 deps = Ok (E (S k) 0).
Proof. intros solve n p K U g G delta E eps0 deps H M arr Hs Hg HS. exact (module_derivatives solve Hs n p K U g G delta E eps0 deps H Hg HS M arr). Qed.
Print Assumptions C108_implicit_derivatives.
(** x + x^2 = e *)
Definition C108_g : pyfun := fun argv => match argv with [[x]; [e]] => Ok [x + x * x + -1 * e] | _ => Raise TypeError end.
Definition C108_G (c : nat) (z : list R) : R := nth 0 z 0 + nth 0 z 0 * nth 0 z 0 + -1 * nth 1 z 0.
Example C108_nonvacuous : two_arg_fun 1 1 1 plane C108_g C108_G /\ smooth_root 1 1 2 plane C108_G (/ 4) E_cubic [0] [1] H_one /\ E_cubic 1 0 = [1] /\ E_cubic 2 0 = [-2].
Proof.
  split; [|split].
  - intros [|x [|]] [|e [|]] L1 L2 _; try discriminate. eexists. split; [reflexivity|]. split; [reflexivity|]. intros c Hc. assert (c = 0%nat) by lia. subst c. reflexivity.
  - unfold smooth_root. split; [lia|]. split; [lia|]. split; [lra|]. split; [reflexivity|]. split; [reflexivity|]. split; [apply whole_space_open|]. split; [|split; [apply cubic_curve|split; [intros t _; apply along_plane; apply cubic_curve|split; [|split; [apply one_nonsingular; cbn; lra|]]]]].
    + intros c _. pose proof (coordinate 2 0) as X. pose proof (coordinate 2 1) as Y. apply Ck_plus; [apply Ck_plus; [exact X|apply Ck_mult; exact X]|apply Ck_scal, Y].
    + intros t c Ht _. destruct (sqrt_near t Ht) as [P1 [P2 P3]]. unfold C108_G, along, move. cbn [E_cubic app nth length seq map]. nra.
    + intros c j Hc Hj. assert (j = 0%nat) by lia. subst j. rewrite E_cubic_0. unfold C108_G. apply (plane_partial (fun x e => x + x * x + -1 * e)); [reflexivity|]. cbn [app nth H_one rm_get]. auto_derive; [exact I|ring].
  - unfold E_cubic. rewrite Rmult_0_r, Rplus_0_r, sqrt_1. split; f_equal; field.
Qed.
