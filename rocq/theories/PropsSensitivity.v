(** Properties C48 to C57: Taylor expansions of optima and linear sensitivity. *)
From Coq Require Import String Reals List Bool Arith ZArith Lia Lra Permutation.
From Coquelicot Require Import Coquelicot.
From Verif Require Import Res Num Nd RSum ModelAutograd ModelSparse ModelParameters ModelMatrix ModelSimplex ModelProjection ModelDict ModelObjective ModelSensitivity.
From Verif Require Import SpecParameters SpecDict SpecObjective SpecSmooth SpecSensitivity.
From Verif Require Import LemmasSmooth LemmasTerms LemmasSens LemmasSensMain LemmasConsolidate LemmasSensClass LemmasLinear LemmasSensStep LemmasOldSens LemmasSolve ExamplesSensitivity.
Import List ListNotations.
Open Scope R_scope.
Set Bullet Behavior "Strict Subproofs".

(** C48. [two_arg_fun]: g is a function of two vectors with components G; [is_dir_deriv]: iterated directional derivatives. *)
Theorem C48_derivative_array : forall n p q U g G order, (0 < order)%nat -> open_in (n + p) U -> two_arg_fun n p q U g G ->
  exists arr, generate_two_term_derivative_array g (Z.of_nat order) = Ok arr /\ length arr = order /\
  forall i, (i < order)%nat -> exists row, nth_error arr i = Some row /\ length row = S order /\
  forall j, (j <= order)%nat -> exists f, nth_error row j = Some f /\
  forall x1 x2 vs ws, length x1 = n -> length x2 = p -> U (x1 ++ x2) -> length vs = i -> length ws = j ->
    List.Forall (fun v => length v = n) vs -> List.Forall (fun w => length w = p) ws -> smooth_components (i + j) n p q U G ->
  exists r, f (x1 :: x2 :: vs ++ ws) = Ok r /\ length r = q /\
    forall c ds, (c < q)%nat -> Permutation ds (map (first_dir p) vs ++ map (second_dir n) ws) -> is_dir_deriv U (G c) ds (x1 ++ x2) (nth c r 0).
Proof. exact derivative_array. Qed.
Print Assumptions C48_derivative_array.
(** g(x, e) = (x e, x + e) *)
Definition C48_g : pyfun := fun argv => match argv with [[x]; [e]] => Ok [x * e; x + e] | _ => Raise TypeError end.
Example C48_nonvacuous : open_in (1 + 1) plane /\
  two_arg_fun 1 1 2 plane C48_g (fun c z => match c with 0%nat => nth 0 z 0 * nth 1 z 0 | _ => nth 0 z 0 + nth 1 z 0 end) /\
  forall K, smooth_components K 1 1 2 plane (fun c z => match c with 0%nat => nth 0 z 0 * nth 1 z 0 | _ => nth 0 z 0 + nth 1 z 0 end).
Proof.
  split; [apply whole_space_open|]. split.
  - intros [|x [|]] [|e [|]] L1 L2 _; try discriminate. exists [x * e; x + e]. split; [reflexivity|]. split; [reflexivity|]. intros [|[|c]] Hc; [reflexivity|reflexivity|lia].
  - intros K c Hc. pose proof (coordinate K 0) as X. pose proof (coordinate K 1) as Y. destruct c; [apply Ck_mult; assumption|apply Ck_plus; assumption].
Qed.

(** C49: the terms evaluate to V(t) along the curve, the differentiated terms to V'(t). The k+1 eta functions are those that
    evaluate to the derivatives of the curve. *)
Theorem C49_differentiate_terms : forall n p q U g G K delta E eps0 deps M arr k funs next ts,
  open_in (n + p) U -> two_arg_fun n p q U g G -> smooth_components K n p q U G -> curve_with_derivatives n K delta E ->
  (forall t, Rabs t < delta -> U (along E eps0 deps t)) -> length eps0 = p -> length deps = p ->
  generate_two_term_derivative_array g (Z.of_nat M) = Ok arr -> (1 <= k)%nat -> (S k < M)%nat -> (S k <= K)%nat -> (k <= length funs)%nat -> ts <> [] ->
  List.Forall (fun t => exists eps eta pref, make_term eps eta pref funs arr = Ok t /\ length eta = k) ts ->
  (forall t i, Rabs t < delta -> (i <= k)%nat -> exists h, nth_error (funs ++ [next]) i = Some h /\ h (E 0%nat t) (move eps0 deps t) deps = Ok (E (S i) t)) ->
  exists ts' V V', differentiate_terms ts next = Ok ts' /\
    forall t, Rabs t < delta ->
      evaluate_terms ts (E 0%nat t) (move eps0 deps t) deps true = Ok (Some (V t)) /\ evaluate_terms ts' (E 0%nat t) (move eps0 deps t) deps true = Ok (Some (V' t)) /\
      length (V t) = q /\ length (V' t) = q /\ forall c, (c < q)%nat -> is_derive (fun s => nth c (V s) 0) t (nth c (V' t) 0).
Proof. exact differentiate_step. Qed.
Print Assumptions C49_differentiate_terms.
(** the base case: the two initial terms are the first derivative of g along the curve *)
Theorem C49_base_terms : forall n p q U g G K delta E eps0 deps M arr funs t1 t2,
  open_in (n + p) U -> two_arg_fun n p q U g G -> smooth_components K n p q U G -> curve_with_derivatives n K delta E ->
  (forall t, Rabs t < delta -> U (along E eps0 deps t)) -> length eps0 = p -> length deps = p -> (0 < K)%nat ->
  generate_two_term_derivative_array g (Z.of_nat M) = Ok arr -> (1 < M)%nat ->
  make_term 1 [0%Z] 1 funs arr = Ok t1 -> make_term 0 [1%Z] 1 funs arr = Ok t2 ->
  forall t, Rabs t < delta -> (exists h, nth_error funs 0 = Some h /\ h (E 0%nat t) (move eps0 deps t) deps = Ok (E 1%nat t)) ->
  exists v, evaluate_terms [t1; t2] (E 0%nat t) (move eps0 deps t) deps true = Ok (Some v) /\ length v = q /\
    forall c, (c < q)%nat -> is_derive (fun s => G c (along E eps0 deps s)) t (nth c v 0).
Proof. exact base_step. Qed.
Print Assumptions C49_base_terms.

(** the curve x = t with e = t, and the functions of x, e and the direction that give its first two derivatives *)
Example C49_nonvacuous : exists arr t1 t2, generate_two_term_derivative_array C48_g 3 = Ok arr /\ curve_with_derivatives 1 2 (/ 4) E_line /\
  (forall t, Rabs t < / 4 -> plane (along E_line [0] [1] t)) /\
  make_term 1 [0%Z] 1 [fun _ _ _ => Ok [1]] arr = Ok t1 /\ make_term 0 [1%Z] 1 [fun _ _ _ => Ok [1]] arr = Ok t2 /\
  forall t i, (i <= 1)%nat -> exists h : etafun, nth_error ([fun _ _ _ => Ok [1]] ++ [fun _ _ _ => Ok [0]]) i = Some h /\ h (E_line 0 t) (move [0] [1] t) [1] = Ok (E_line (S i) t).
Proof.
  eexists. eexists. eexists. split; [reflexivity|]. split; [apply line_curve|]. split; [intros t _; apply along_plane; apply (line_curve 2)|]. split; [reflexivity|]. split; [reflexivity|].
  intros t [|[|i]] Hi; [| |lia]; eexists; split; reflexivity.
Qed.

(** C50 *)
Theorem C50_consolidate_value : forall funs gders dterms q eta0 eps0 deps incl, List.Forall (constructed funs gders) dterms ->
  (forall t, In t dterms -> incl = true \/ last (dt_eta t) 0%Z = 0%Z -> exists v, term_evaluate t eta0 eps0 deps = Ok v /\ length v = q) ->
  exists r o, consolidate_terms dterms = Ok r /\ evaluate_terms dterms eta0 eps0 deps incl = Ok o /\ evaluate_terms r eta0 eps0 deps incl = Ok o.
Proof. exact consolidate_value. Qed.
Print Assumptions C50_consolidate_value.

(** C51 *)
Theorem C51_consolidate_pairs : forall funs gders dterms r, List.Forall (constructed funs gders) dterms ->
  (forall s, (count_occ sig_dec (map signature dterms) s <= 2)%nat) -> consolidate_terms dterms = Ok r -> NoDup (map signature r).
Proof.
  intros funs gders dterms r V. apply (consolidate_pairs funs gders). apply Forall_forall. intros t Ht. destruct (proj1 (Forall_forall _ _) V t Ht) as [eps [eta [pref [_ E]]]]. exact (proj1 (make_term_valid _ _ _ _ _ _ E)).
Qed.
Print Assumptions C51_consolidate_pairs.
Theorem C51_three_leave_two_refuted : forall funs gders t, constructed funs gders t ->
  exists t', consolidate_terms [t; t; t] = Ok [t'; t] /\ signature t' = signature t /\ ~ NoDup (map signature [t'; t]) /\ dt_pref t' = 2 * dt_pref t.
Proof.
  intros funs gders t [eps [eta [pref [_ E]]]]. destruct (consolidate_three funs gders t (proj1 (make_term_valid _ _ _ _ _ _ E))) as [t' [A [B C]]]. exists t'. split; [exact A|]. split; [exact B|]. split; [|exact C].
  change (sig t') with (signature t') in B. cbn [map]. rewrite B. change (sig t) with (signature t). intros N. inversion N as [|? ? N1 N2]. apply N1. left. reflexivity.
Qed.
Print Assumptions C51_three_leave_two_refuted.
(** three terms, two of which are equal, with eta functions and a derivative array that evaluate *)
Definition C50_f : pyfun := fun argv => Ok [match argv with [[x]; [e]; [v]] => e * v | [[x]; [e]; [v]; [w]] => v * w | _ => 0 end].
Definition C50_arr : list (list pyfun) := [[C50_f; C50_f]; [C50_f; C50_f]].
Definition C50_funs : list etafun := [fun x e d => Ok [3]].
Example C50_C51_nonvacuous : exists t1 t2, make_term 1 [0%Z] 2 C50_funs C50_arr = Ok t1 /\ make_term 0 [1%Z] 5 C50_funs C50_arr = Ok t2 /\
  List.Forall (constructed C50_funs C50_arr) [t1; t2; t1] /\ (forall s, (count_occ sig_dec (map signature [t1; t2; t1]) s <= 2)%nat) /\
  (forall t, In t [t1; t2; t1] -> exists v, term_evaluate t [1] [7] [1] = Ok v /\ length v = 1%nat) /\
  evaluate_terms [t1; t2; t1] [1] [7] [1] true = Ok (Some [2 * (7 * 1) + 5 * (7 * 3) + 2 * (7 * 1)]) /\ exists r, consolidate_terms [t1; t2; t1] = Ok r /\ length r = 2%nat.
Proof.
  eexists. eexists. split; [reflexivity|]. split; [reflexivity|]. split; [|split; [|split; [|split]]].
  - apply Forall_forall. intros t [<-|[<-|[<-|[]]]]; [exists 1%Z, [0%Z], 2|exists 0%Z, [1%Z], 5|exists 1%Z, [0%Z], 2]; (split; [discriminate|reflexivity]).
  - intros s. cbn [map]. unfold signature. cbn [dt_eps dt_eta count_occ]. destruct (sig_dec (1%Z, [0%Z]) s) as [<-|]; destruct (sig_dec (0%Z, [1%Z]) s) as [e|] || destruct (sig_dec (0%Z, [1%Z]) (1%Z, [0%Z])) as [e|]; try discriminate e; repeat constructor.
  - intros t [<-|[<-|[<-|[]]]]; eexists; (split; [reflexivity|reflexivity]).
  - reflexivity.
  - eexists. split; reflexivity.
Qed.

(** C52 *)
Theorem C52_order_ok : forall solve g in0 hy0 hess0 order, (0 < order)%nat ->
  exists terms fs, build_order solve g in0 hy0 hess0 (Z.of_nat order) = Ok (terms, fs) /\ length terms = order /\ length fs = order.
Proof. intros solve g in0 hy0 hess0 order Ho. destruct (build_order_ok solve g in0 hy0 hess0 order Ho) as [terms [fs [A [B [C _]]]]]. exists terms, fs. tauto. Qed.
Print Assumptions C52_order_ok.
Theorem C52_order_zero : forall solve g in0 hy0 hess0, build_order solve g in0 hy0 hess0 0 = Raise AssertionError.
Proof. exact build_order_zero. Qed.
Print Assumptions C52_order_zero.
Theorem C52_order_negative : forall solve g in0 hy0 hess0 order, (order < 0)%Z -> build_order solve g in0 hy0 hess0 order = Raise IndexError.
Proof. exact build_order_negative. Qed.
Print Assumptions C52_order_negative.
(** the whole constructor *)
Theorem C52_constructor : forall solve f h Chol (cho_factor : rmat2 -> res Chol) trace hf st0 in0 hy0 st1 n p U order hess_arg,
  (forall t y, traced t (trace t y)) -> length in0 = n -> length hy0 = p -> open_in (n + p) U -> U (in0 ++ hy0) -> Ck 2 (n + p) U (joint f st0 true hf n) ->
  set_both st0 (fin_arg in0) (fin_arg hy0) true hf = (st1, Ok tt) ->
  (forall m, is_hessian n U (joint f st0 true hf n) (in0 ++ hy0) m -> exists c, cho_factor m = Ok c) ->
  ((0 < order)%Z -> exists ty, taylor_init solve f h Chol cho_factor trace true hf st0 in0 hy0 order hess_arg = (st1, Ok ty)) /\
  (order = 0%Z -> taylor_init solve f h Chol cho_factor trace true hf st0 in0 hy0 order hess_arg = (st1, Raise AssertionError)) /\
  ((order < 0)%Z -> taylor_init solve f h Chol cho_factor trace true hf st0 in0 hy0 order hess_arg = (st1, Raise IndexError)).
Proof. exact taylor_init_ok. Qed.
Print Assumptions C52_constructor.
(** the cubic objective of C53 below, built at every positive order *)
Example C52_nonvacuous : (forall t y, traced t (clean_trace t y)) /\ open_in (1 + 1) plane /\ plane ([0] ++ [0]) /\ Ck 2 (1 + 1) plane (joint (poly cubic) ex_st true false 1) /\
  (exists st1, set_both ex_st (fin_arg [0]) (fin_arg [0]) true false = (st1, Ok tt)) /\
  (forall order, (0 < order)%Z -> exists st1 ty, taylor_init gauss_solve (poly cubic) (poly cubic) rmat2 gauss_factor clean_trace true false ex_st (E_cubic 0 0) [0] order None = (st1, Ok ty)).
Proof.
  split; [exact clean_traced|]. split; [apply whole_space_open|]. split; [reflexivity|]. split; [apply cubic_Ck|]. split; [eexists; apply poly_set|].
  intros order Ho. apply cubic_init, Ho.
Qed.

(** C53. [history2 st1 st]: between the construction and the call the parameters may have been set to anything. *)
Theorem C53_derivatives_of_optimum : forall solve Chol (cho_factor : rmat2 -> res Chol) trace trace2 hf f st0 n p U order delta E hy0 deps H hess_arg st1 ty st k tol,
  solves_systems solve -> (forall t y, traced t (trace t y)) -> (forall s, two_traced true hf s (trace2 s)) ->
  evaluates_on f st0 true hf n p U -> smooth_optimum n p order U (joint f st0 true hf n) delta E hy0 deps H ->
  taylor_init solve f f Chol cho_factor trace true hf st0 (E 0%nat 0) hy0 (Z.of_nat order) hess_arg = (st1, Ok ty) ->
  history2 st1 st -> (0 < k <= order)%nat -> tol_ok tol ->
  evaluate_dkinput_dhyperk solve f trace2 true hf (with_st ty st) deps (Z.of_nat k) tol = (ty, Ok (E k 0)).
Proof.
  intros solve Chol cho_factor trace trace2 hf f st0 n p U order delta E hy0 deps H hess_arg st1 ty st k tol Hs Ht Ht2 Hev [A1 [A2 [A3 [A4 [A5 [A6 [A7 [A8 [A9 [A10 [A11 A12]]]]]]]]]]] Hi Hh Hk Htol.
  exact (taylor_eval solve Chol cho_factor trace trace2 Hs Ht hf Ht2 f st0 n p U order delta E hy0 deps H A6 Hev A7 A8 A9 A4 A5 A3 A1 A2 ltac:(lia) A10 A11 A12 hess_arg st1 ty Hi st k tol Hh Hk Htol).
Qed.
Print Assumptions C53_derivatives_of_optimum.
Theorem C53_range : forall solve Chol (cho_factor : rmat2 -> res Chol) trace trace2 hf f st0 n p U order delta E hy0 deps H hess_arg st1 ty st k tol,
  (forall t y, traced t (trace t y)) -> (0 < order)%nat -> smooth_optimum n p order U (joint f st0 true hf n) delta E hy0 deps H ->
  taylor_init solve f f Chol cho_factor trace true hf st0 (E 0%nat 0) hy0 (Z.of_nat order) hess_arg = (st1, Ok ty) ->
  (k <= 0 \/ Z.of_nat order < k)%Z ->
  evaluate_dkinput_dhyperk solve f trace2 true hf (with_st ty st) deps k tol = (with_st ty st, Raise ValueError).
Proof.
  intros solve Chol cho_factor trace trace2 hf f st0 n p U order delta E hy0 deps H hess_arg st1 ty st k tol Ht Ho [A1 [A2 [A3 [A4 [A5 [A6 [A7 [A8 [A9 [A10 [A11 A12]]]]]]]]]]] Hi Hk.
  exact (taylor_eval_range solve Chol cho_factor trace trace2 Ht hf f st0 n p U order delta E hy0 deps H A6 A7 A8 A9 A4 A5 A3 A1 A2 Ho A11 A12 hess_arg st1 ty Hi st k tol Hk).
Qed.
Print Assumptions C53_range.

(** C54. [max_order] None is the constructed order. *)
Theorem C54_taylor_polynomial : forall solve Chol (cho_factor : rmat2 -> res Chol) trace trace2 hf f st0 n p U order delta E hy0 deps H hess_arg st1 ty st max_order m tol add_offset,
  solves_systems solve -> (forall t y, traced t (trace t y)) -> (forall s, two_traced true hf s (trace2 s)) ->
  evaluates_on f st0 true hf n p U -> smooth_optimum n p order U (joint f st0 true hf n) delta E hy0 deps H ->
  taylor_init solve f f Chol cho_factor trace true hf st0 (E 0%nat 0) hy0 (Z.of_nat order) hess_arg = (st1, Ok ty) ->
  history2 st1 st -> match max_order with Some z => z = Z.of_nat m | None => m = order end -> (0 < m <= order)%nat -> tol_ok tol ->
  exists r, evaluate_taylor_series solve f trace2 true hf (with_st ty st) deps add_offset max_order tol = (ty, Ok r) /\ length r = n /\
    forall c, (c < n)%nat -> nth c r 0 = (if add_offset then nth c (E 0%nat 0) 0 else 0) + rsum m (fun k => nth c (E (S k) 0) 0 / INR (fact (S k))).
Proof.
  intros solve Chol cho_factor trace trace2 hf f st0 n p U order delta E hy0 deps H hess_arg st1 ty st max_order m tol add_offset Hs Ht Ht2 Hev [A1 [A2 [A3 [A4 [A5 [A6 [A7 [A8 [A9 [A10 [A11 A12]]]]]]]]]]] Hi Hh Hm Hk Htol.
  exact (taylor_series solve Chol cho_factor trace trace2 Hs Ht hf Ht2 f st0 n p U order delta E hy0 deps H A6 Hev A7 A8 A9 A4 A5 A3 A1 A2 ltac:(lia) A10 A11 A12 hess_arg st1 ty Hi st max_order m tol add_offset Hh Hm Hk Htol).
Qed.
Print Assumptions C54_taylor_polynomial.
Theorem C54_range : forall solve Chol (cho_factor : rmat2 -> res Chol) trace trace2 hf f st0 n p U order delta E hy0 deps H hess_arg st1 ty st max_order tol add_offset,
  (forall t y, traced t (trace t y)) -> (0 < order)%nat -> smooth_optimum n p order U (joint f st0 true hf n) delta E hy0 deps H ->
  taylor_init solve f f Chol cho_factor trace true hf st0 (E 0%nat 0) hy0 (Z.of_nat order) hess_arg = (st1, Ok ty) ->
  (max_order <= 0 \/ Z.of_nat order < max_order)%Z ->
  evaluate_taylor_series solve f trace2 true hf (with_st ty st) deps add_offset (Some max_order) tol = (with_st ty st, Raise ValueError).
Proof.
  intros solve Chol cho_factor trace trace2 hf f st0 n p U order delta E hy0 deps H hess_arg st1 ty st max_order tol add_offset Ht Ho [A1 [A2 [A3 [A4 [A5 [A6 [A7 [A8 [A9 [A10 [A11 A12]]]]]]]]]]] Hi Hk.
  exact (taylor_series_range solve Chol cho_factor trace trace2 Ht hf f st0 n p U order delta E hy0 deps H A6 A7 A8 A9 A4 A5 A3 A1 A2 Ho A11 A12 hess_arg st1 ty Hi st max_order tol add_offset Hk).
Qed.
Print Assumptions C54_range.
(** how far the Taylor polynomial of order m is from the optimum at hy0 + deps *)
Theorem C54_remainder : forall n m delta E c, curve_with_derivatives n (S m) delta E -> 1 < delta -> (c < n)%nat ->
  exists z, 0 < z < 1 /\
    nth c (E 0%nat 1) 0 = nth c (E 0%nat 0) 0 + rsum m (fun k => nth c (E (S k) 0) 0 / INR (fact (S k))) + nth c (E (S m) z) 0 / INR (fact (S m)).
Proof. exact lagrange. Qed.
Print Assumptions C54_remainder.
(** the linear class along the same curve: its prediction at hy0 + deps is in0 plus the first derivative of the optimum *)
Theorem C54_linear_agrees : forall f Chol (cho_factor : rmat2 -> res Chol) cho_solve trace trace_two st0 n p U delta E hy0 deps H hess0 st2 l,
  cho_solves cho_factor cho_solve -> (forall t y, traced t (trace t y)) -> (forall s x y, two_traced true false s (trace_two s x y)) ->
  smooth_optimum n p 1 U (joint f st0 true false n) delta E hy0 deps H -> supplied n H hess0 ->
  linear_set_base_values f f Chol cho_factor trace true false cho_solve trace_two st0 (E 0%nat 0) hy0 hess0 = (st2, Ok l) ->
  mat_vec (get_dinput_dhyper l) deps = Ok (E 1%nat 0) /\ linear_predict l (move hy0 deps 1) = Ok (vadd (E 0%nat 0) (E 1%nat 0)).
Proof.
  intros f Chol cho_factor cho_solve trace trace_two st0 n p U delta E hy0 deps H hess0 st2 l Hc Ht Ht2 [A1 [A2 [A3 [A4 [A5 [A6 [A7 [A8 [A9 [A10 [A11 A12]]]]]]]]]]] Hs Hi.
  assert (Sp : split_off n U (joint f st0 true false n) (joint f st0 true false n)) by (exists (fun _ => 0); intros z _; ring).
  exact (linear_curve f f Chol cho_factor cho_solve trace trace_two Hc Ht Ht2 st0 n p U (E 0%nat 0) hy0 H A6 A7 A7 Sp (proj1 A8 0%nat 0) A4 (base_in_U U delta E hy0 deps A9 A3) A11 A12 hess0 st2 l Hs Hi 1%nat delta E deps eq_refl A8 ltac:(lia) A3 A5 A10).
Qed.
Print Assumptions C54_linear_agrees.
(** x^2/2 + x^3/3 - e x: its stationary points are x = (-1 + sqrt(1 + 4 e)) / 2, whose second derivative at e = 0 is -2 *)
Example C53_C54_nonvacuous : solves_systems gauss_solve /\ cho_solves gauss_factor gauss_cho_solve /\ evaluates_on (poly cubic) ex_st true false 1 1 plane /\
  smooth_optimum 1 1 2 plane (joint (poly cubic) ex_st true false 1) (/ 4) E_cubic [0] [1] H_one /\
  (exists st1 ty, taylor_init gauss_solve (poly cubic) (poly cubic) rmat2 gauss_factor clean_trace true false ex_st (E_cubic 0 0) [0] 2 None = (st1, Ok ty)) /\
  E_cubic 1 0 = [1] /\ E_cubic 2 0 = [-2].
Proof.
  split; [exact gauss_solves_systems|]. split; [exact gauss_cho_solves|]. split; [apply poly_evaluates|]. split; [|split; [apply cubic_init; lia|]].
  - unfold smooth_optimum. split; [lia|]. split; [lia|]. split; [lra|]. split; [reflexivity|]. split; [reflexivity|]. split; [apply whole_space_open|]. split; [apply cubic_Ck|]. split; [apply cubic_curve|].
    split; [intros t _; apply along_plane; apply cubic_curve|]. split; [apply cubic_stationary|]. split; [apply cubic_hessian|apply one_nonsingular; cbn; lra].
  - unfold E_cubic. rewrite Rmult_0_r, Rplus_0_r, sqrt_1. split; f_equal; field.
Qed.

(** C55: with only the part h of the objective that depends on the hyperparameter *)
Theorem C55_first_order : forall solve Chol (cho_factor : rmat2 -> res Chol) trace trace2 hf f h st0 n p U order delta E hy0 deps H hess_arg st1 ty st tol,
  solves_systems solve -> (forall t y, traced t (trace t y)) -> (forall s, two_traced true hf s (trace2 s)) ->
  evaluates_on h st0 true hf n p U -> smooth_optimum n p 1 U (joint f st0 true hf n) delta E hy0 deps H ->
  Ck 2 (n + p) U (joint h st0 true hf n) -> split_off n U (joint f st0 true hf n) (joint h st0 true hf n) -> (0 < order)%nat ->
  taylor_init solve f h Chol cho_factor trace true hf st0 (E 0%nat 0) hy0 (Z.of_nat order) hess_arg = (st1, Ok ty) -> history2 st1 st -> tol_ok tol ->
  evaluate_dkinput_dhyperk solve h trace2 true hf (with_st ty st) deps 1 tol = (ty, Ok (E 1%nat 0)).
Proof.
  intros solve Chol cho_factor trace trace2 hf f h st0 n p U order delta E hy0 deps H hess_arg st1 ty st tol Hs Ht Ht2 Hev [A1 [A2 [A3 [A4 [A5 [A6 [A7 [A8 [A9 [A10 [A11 A12]]]]]]]]]]] Hc Hsp Ho Hi Hh Htol.
  exact (taylor_first_order solve Chol cho_factor trace trace2 hf Hs Ht Ht2 f h st0 n p U order 1 delta E hy0 deps H A6 Hev A7 Hc Hsp A8 A9 A4 A5 A3 A1 A2 Ho ltac:(lia) A10 A11 A12 hess_arg st1 ty Hi st tol Hh Htol).
Qed.
Print Assumptions C55_first_order.
(** at second order the result is 0 although the second derivative of the optimum is -2 *)
Theorem C55_second_order_refuted : exists f h st0 n p U delta E hy0 deps H st1 ty ty' r,
  evaluates_on h st0 true false n p U /\ smooth_optimum n p 2 U (joint f st0 true false n) delta E hy0 deps H /\ (forall k, Ck k (n + p) U (joint h st0 true false n)) /\
  split_off n U (joint f st0 true false n) (joint h st0 true false n) /\
  taylor_init gauss_solve f h rmat2 gauss_factor clean_trace true false st0 (E 0%nat 0) hy0 2 None = (st1, Ok ty) /\
  evaluate_dkinput_dhyperk gauss_solve h (fun s => s) true false ty deps 2 None = (ty', Ok r) /\ r = [0] /\ E 2%nat 0 = [-2].
Proof.
  destruct (cubic_init (poly bilinear) false 2 ltac:(lia)) as [st1 [ty Hi]]. exists (poly cubic), (poly bilinear), ex_st, 1%nat, 1%nat, plane, (/ 4), E_cubic, [0], [1], H_one, st1, ty, ty, [0].
  destruct C53_C54_nonvacuous as [_ [_ [_ [A [_ [_ B]]]]]]. split; [apply poly_evaluates|]. split; [exact A|]. split; [intros k; apply bilinear_Ck|]. split; [apply cubic_bilinear|]. split; [exact Hi|]. split; [|split; [reflexivity|exact B]].
  rewrite E_cubic_0 in Hi. assert (T : with_st ty st1 = ty).
  { unfold taylor_init in Hi. destruct (set_base_values (poly cubic) rmat2 gauss_factor clean_trace true false ex_st [0] [0] None) as [s1 [[h c]|e]]; [|discriminate].
    unfold set_order in Hi. cbn [ty_st ty_in0 ty_hy0 ty_hess] in Hi. destruct (build_order _ _ _ _ _ _) as [[terms fs]|e]; [|discriminate Hi]. cbn [rbind] in Hi. pose proof (f_equal fst Hi) as H1. pose proof (f_equal snd Hi) as H2. cbn [fst snd] in H1, H2. apply Ok_inj in H2. subst ty s1. reflexivity. }
  rewrite <- T at 1. apply (split_second_order st1 ty st1 Hi). split; constructor.
Qed.
Print Assumptions C55_second_order_refuted.
(** the hypotheses of C55_first_order, with the objective of C53 and the part of it that depends on the hyperparameter *)
Example C55_nonvacuous : evaluates_on (poly bilinear) ex_st true false 1 1 plane /\ smooth_optimum 1 1 1 plane (joint (poly cubic) ex_st true false 1) (/ 4) E_cubic [0] [1] H_one /\
  Ck 2 (1 + 1) plane (joint (poly bilinear) ex_st true false 1) /\ split_off 1 plane (joint (poly cubic) ex_st true false 1) (joint (poly bilinear) ex_st true false 1) /\
  (exists st1 ty, taylor_init gauss_solve (poly cubic) (poly bilinear) rmat2 gauss_factor clean_trace true false ex_st (E_cubic 0 0) [0] 1 None = (st1, Ok ty)) /\ E_cubic 1 0 = [1].
Proof.
  split; [apply poly_evaluates|]. split; [|split; [apply bilinear_Ck|split; [apply cubic_bilinear|split; [apply cubic_init; lia|apply C53_C54_nonvacuous]]]].
  unfold smooth_optimum. split; [lia|]. split; [lia|]. split; [lra|]. split; [reflexivity|]. split; [reflexivity|]. split; [apply whole_space_open|]. split; [apply cubic_Ck|]. split; [split; [apply cubic_curve|intros k t c Hk; apply cubic_curve; lia]|].
  split; [intros t _; apply along_plane; apply cubic_curve|]. split; [apply cubic_stationary|]. split; [apply cubic_hessian|apply one_nonsingular; cbn; lra].
Qed.

(** C56: the constructor argument hess0 of both classes never influences anything *)
Theorem C56_hess0_ignored : forall solve obj_f hyp_f Chol (cho_factor : rmat2 -> res Chol) trace in_free hyp_free st0 in0 hy0 order cho_solve trace_two h h',
  taylor_init solve obj_f hyp_f Chol cho_factor trace in_free hyp_free st0 in0 hy0 order h = taylor_init solve obj_f hyp_f Chol cho_factor trace in_free hyp_free st0 in0 hy0 order h' /\
  linear_init obj_f hyp_f Chol cho_factor trace in_free hyp_free cho_solve trace_two st0 in0 hy0 h = linear_init obj_f hyp_f Chol cho_factor trace in_free hyp_free cho_solve trace_two st0 in0 hy0 h'.
Proof. intros. split; reflexivity. Qed.
Print Assumptions C56_hess0_ignored.
(** with input_is_free = False: E is the curve of optima in the coordinates of the vectors, its derivative is 1, the result is less than 1/2 *)
Theorem C56_input_not_free_refuted : exists f st0 U delta E hy0 deps H st1 ty ty' r,
  smooth_optimum 1 1 1 U (joint f st0 false false 1) delta E hy0 deps H /\ evaluates_on f st0 false false 1 1 U /\
  taylor_init gauss_solve f f rmat2 gauss_factor clean_trace false false st0 (E 0%nat 0) hy0 1 None = (st1, Ok ty) /\
  evaluate_dkinput_dhyperk gauss_solve f (fun s => s) false false ty deps 1 None = (ty', Ok [r]) /\ 0 < r < 1 / 2 /\ E 1%nat 0 = [1].
Proof.
  destruct not_free_wrong as [st1 [ty [r [ty' [A [B C]]]]]]. exists (poly square), st_b, plane, 1, E_b, [2], [1], H_one, st1, ty, ty', r.
  assert (E0 : E_b 0 0 = [2]) by (cbn; f_equal; ring). rewrite E0.
  split; [|split; [|split; [exact A|split; [exact B|split; [exact C|reflexivity]]]]].
  - destruct square_b_optimum as [Q1 Q2]. unfold smooth_optimum. split; [lia|]. split; [lia|]. split; [lra|]. split; [reflexivity|]. split; [reflexivity|]. split; [apply whole_space_open|]. split; [apply square_b_Ck|]. split; [exact Q1|].
    split; [intros t _; reflexivity|]. split; [exact Q2|]. split; [|apply one_nonsingular; cbn; lra]. rewrite E0.
    split; [reflexivity|]. split; [reflexivity|]. exists (fun j z => nth 0 z 0 - nth 1 z 0). split; [intros j y Hj Hy; assert (j = 0%nat) by lia; subst j; apply square_b_gradient, Hy|].
    intros i j Hi Hj. assert (i = 0%nat) by lia. subst i. unfold is_partial. cbn [H_one rm_get app nth upd]. auto_derive; [exact I|ring].
  - intros [|x [|]] [|e [|]] L1 L2 _; try discriminate. exists (square x e). reflexivity.
Qed.
Print Assumptions C56_input_not_free_refuted.
(** the linear class with hyper_is_free = True: the Jacobian of the optimum is exp 1, the result 1 *)
Theorem C56_linear_free_hyper_refuted : forall Chol (cho_factor : rmat2 -> res Chol) cho_solve, cho_solves cho_factor cho_solve -> (forall H, nonsingular 1 H -> exists c, cho_factor H = Ok c) ->
  exists f st0 opt hy0 J st2 l, optimum_map 1 1 (joint f st0 true true 1) hy0 opt /\ is_jacobian 1 1 opt hy0 J /\
  linear_init f f Chol cho_factor clean_trace true true cho_solve (fun s _ _ => s) st0 (opt hy0) hy0 None = (st2, Ok l) /\
  rm_get (get_dinput_dhyper l) 0 0 = 1 /\ J 0%nat 0%nat = exp 1.
Proof.
  intros Chol cho_factor cho_solve Hc Hf. destruct (free_hyper_wrong Chol cho_factor cho_solve Hc Hf) as [st2 [l [A B]]]. destruct square_c_optimum as [Q1 Q2].
  exists (poly square), st_c, opt_c, [1], (fun _ _ => exp 1), st2, l. split; [exact Q1|]. split; [exact Q2|]. split; [exact A|]. split; [exact B|reflexivity].
Qed.
Print Assumptions C56_linear_free_hyper_refuted.

(** C57: opt gives the optimum as a function of the hyperparameter, J is its Jacobian *)
Theorem C57_linear : forall obj_f hyp_f Chol (cho_factor : rmat2 -> res Chol) cho_solve trace trace_two st0 n p U in0 hy0 H hess0 st2 l opt J,
  cho_solves cho_factor cho_solve -> (forall t y, traced t (trace t y)) -> (forall s x y, two_traced true false s (trace_two s x y)) ->
  regular_point n p U (joint obj_f st0 true false n) (joint hyp_f st0 true false n) in0 hy0 H -> supplied n H hess0 ->
  linear_set_base_values obj_f hyp_f Chol cho_factor trace true false cho_solve trace_two st0 in0 hy0 hess0 = (st2, Ok l) ->
  opt hy0 = in0 -> optimum_map n p (joint obj_f st0 true false n) hy0 opt -> is_jacobian n p opt hy0 J ->
  set_both st0 (fin_arg in0) (fin_arg hy0) true false = (st2, Ok tt) /\
  rm_rows (get_dinput_dhyper l) = n /\ rm_cols (get_dinput_dhyper l) = p /\ (forall i c, (i < n)%nat -> (c < p)%nat -> rm_get (get_dinput_dhyper l) i c = J i c) /\
  forall new_hyper, length new_hyper = p -> exists r, linear_predict l new_hyper = Ok r /\ length r = n /\
    forall i, (i < n)%nat -> nth i r 0 = nth i in0 0 + rsum p (fun c => J i c * (nth c new_hyper 0 - nth c hy0 0)).
Proof.
  intros obj_f hyp_f Chol cho_factor cho_solve trace trace_two st0 n p U in0 hy0 H hess0 st2 l opt J Hc Ht Ht2 [A1 [A2 [A3 [A4 [A5 [A6 [A7 [A8 A9]]]]]]]] Hs Hi.
  exact (linear_jacobian obj_f hyp_f Chol cho_factor cho_solve trace trace_two Hc Ht Ht2 st0 n p U in0 hy0 H A1 A2 A3 A4 A5 A6 A7 A8 A9 hess0 st2 l Hs Hi opt J).
Qed.
Print Assumptions C57_linear.
(** the same through the constructor, whatever is passed as hess0 *)
Theorem C57_linear_constructor : forall obj_f hyp_f Chol (cho_factor : rmat2 -> res Chol) cho_solve trace trace_two st0 n p U in0 hy0 H hess0 st2 l opt J,
  cho_solves cho_factor cho_solve -> (forall t y, traced t (trace t y)) -> (forall s x y, two_traced true false s (trace_two s x y)) ->
  regular_point n p U (joint obj_f st0 true false n) (joint hyp_f st0 true false n) in0 hy0 H ->
  linear_init obj_f hyp_f Chol cho_factor trace true false cho_solve trace_two st0 in0 hy0 hess0 = (st2, Ok l) ->
  opt hy0 = in0 -> optimum_map n p (joint obj_f st0 true false n) hy0 opt -> is_jacobian n p opt hy0 J ->
  forall i c, (i < n)%nat -> (c < p)%nat -> rm_get (get_dinput_dhyper l) i c = J i c.
Proof.
  intros obj_f hyp_f Chol cho_factor cho_solve trace trace_two st0 n p U in0 hy0 H hess0 st2 l opt J Hc Ht Ht2 Hr Hi E1 E2 E3.
  exact (proj1 (proj2 (proj2 (proj2 (C57_linear obj_f hyp_f Chol cho_factor cho_solve trace trace_two st0 n p U in0 hy0 H None st2 l opt J Hc Ht Ht2 Hr I Hi E1 E2 E3))))).
Qed.
Print Assumptions C57_linear_constructor.
Theorem C57_linear_quadratic_exact : forall obj_f hyp_f Chol (cho_factor : rmat2 -> res Chol) cho_solve trace trace_two st0 n p U in0 hy0 H hess0 st2 l new_hyper,
  cho_solves cho_factor cho_solve -> (forall t y, traced t (trace t y)) -> (forall s x y, two_traced true false s (trace_two s x y)) ->
  regular_point n p U (joint obj_f st0 true false n) (joint hyp_f st0 true false n) in0 hy0 H -> supplied n H hess0 ->
  linear_set_base_values obj_f hyp_f Chol cho_factor trace true false cho_solve trace_two st0 in0 hy0 hess0 = (st2, Ok l) ->
  quadratic n p (joint obj_f st0 true false n) -> stationary n (joint obj_f st0 true false n) in0 hy0 -> length new_hyper = p ->
  exists x, linear_predict l new_hyper = Ok x /\ stationary n (joint obj_f st0 true false n) x new_hyper.
Proof.
  intros obj_f hyp_f Chol cho_factor cho_solve trace trace_two st0 n p U in0 hy0 H hess0 st2 l new_hyper Hc Ht Ht2 [A1 [A2 [A3 [A4 [A5 [A6 [A7 [A8 A9]]]]]]]] Hs Hi Hq Hst Hn.
  exact (linear_quadratic obj_f hyp_f Chol cho_factor cho_solve trace trace_two st0 n p U in0 hy0 H hess0 st2 l Hc Ht Ht2 A1 A2 A3 A4 A6 A7 A8 A9 Hs Hi Hq Hst new_hyper Hn).
Qed.
Print Assumptions C57_linear_quadratic_exact.
(** the deprecated class, which also has an output parameter: chain rule for the output sensitivity *)
Theorem C57_output_chain_rule : forall obj_f hyp_f conv Chol (cho_factor : rmat2 -> res Chol) cho_solve trace trace_conv trace_two s n p U in0 hy0 H opt_in hess s' o opt J,
  cho_solves cho_factor cho_solve -> (forall t y, traced t (trace t y)) -> (forall s, history2 s (fst (conv s))) -> (forall s, conv_traced conv true false s (trace_conv s)) ->
  regular_point n p U (joint obj_f (tr_in s, tr_hyp s) true false n) (joint hyp_f (tr_in s, tr_hyp s) true false n) in0 hy0 H ->
  t_get_vector (tr_hyp s) = Ok (fin_arg hy0) -> t_set_vector (tr_hyp s) (fin_arg hy0) = (tr_hyp s, Ok tt) ->
  match opt_in with Some x => x = in0 | None => t_get_free (tr_in s) = Ok (fin_arg in0) end -> supplied n H hess ->
  old_init obj_f hyp_f conv Chol cho_factor cho_solve trace trace_conv trace_two s opt_in hess = (s', Ok o) ->
  opt hy0 = in0 -> optimum_map n p (joint obj_f (tr_in s, tr_hyp s) true false n) hy0 opt -> is_jacobian n p opt hy0 J ->
  rm_rows (old_dinput_dhyper o) = n /\ rm_cols (old_dinput_dhyper o) = p /\ (forall i c, (i < n)%nat -> (c < p)%nat -> rm_get (old_dinput_dhyper o) i c = J i c) /\
  exists M, old_doutput_dhyper o = Ok M /\ rm_rows M = length (conv_vec conv (tr_in s, tr_out s) in0) /\ rm_cols M = p /\
    ((forall i, (i < rm_rows M)%nat -> exists g, differentiable_at n (fun y => nth i (conv_vec conv (tr_in s, tr_out s) y) 0) in0 g) ->
     is_jacobian (rm_rows M) p (fun e => conv_vec conv (tr_in s, tr_out s) (opt e)) hy0 (rm_get M)).
Proof.
  intros obj_f hyp_f conv Chol cho_factor cho_solve trace trace_conv trace_two s n p U in0 hy0 H opt_in hess s' o opt J Hc Ht Hconv Htc [A1 [A2 [A3 [A4 [A5 [A6 [A7 [A8 A9]]]]]]]] G1 G2 Ho Hs Hi.
  exact (old_jacobian obj_f hyp_f conv Chol cho_factor cho_solve trace trace_conv trace_two Hc Ht Hconv Htc s n p U in0 hy0 H A1 A2 A3 A4 A5 A6 A7 A8 A9 G1 G2 opt_in hess s' o Ho Hs Hi opt J).
Qed.
Print Assumptions C57_output_chain_rule.
Theorem C57_old_quadratic_exact : forall obj_f hyp_f conv Chol (cho_factor : rmat2 -> res Chol) cho_solve trace trace_conv trace_two s n p U in0 hy0 H opt_in hess s' o new_hyper,
  cho_solves cho_factor cho_solve -> (forall t y, traced t (trace t y)) -> (forall s, history2 s (fst (conv s))) -> (forall s, conv_traced conv true false s (trace_conv s)) ->
  regular_point n p U (joint obj_f (tr_in s, tr_hyp s) true false n) (joint hyp_f (tr_in s, tr_hyp s) true false n) in0 hy0 H ->
  t_get_vector (tr_hyp s) = Ok (fin_arg hy0) -> t_set_vector (tr_hyp s) (fin_arg hy0) = (tr_hyp s, Ok tt) ->
  match opt_in with Some x => x = in0 | None => t_get_free (tr_in s) = Ok (fin_arg in0) end -> supplied n H hess ->
  old_init obj_f hyp_f conv Chol cho_factor cho_solve trace trace_conv trace_two s opt_in hess = (s', Ok o) ->
  quadratic n p (joint obj_f (tr_in s, tr_hyp s) true false n) -> stationary n (joint obj_f (tr_in s, tr_hyp s) true false n) in0 hy0 -> length new_hyper = p ->
  exists x, old_predict_input o new_hyper = Ok x /\ stationary n (joint obj_f (tr_in s, tr_hyp s) true false n) x new_hyper.
Proof.
  intros obj_f hyp_f conv Chol cho_factor cho_solve trace trace_conv trace_two s n p U in0 hy0 H opt_in hess s' o new_hyper Hc Ht Hconv Htc [A1 [A2 [A3 [A4 [A5 [A6 [A7 [A8 A9]]]]]]]] G1 G2 Ho Hs Hi Hq Hst Hn.
  exact (old_quadratic obj_f hyp_f conv Chol cho_factor cho_solve trace trace_conv trace_two Hc Ht Hconv Htc s n p U in0 hy0 H A1 A2 A3 A4 A5 A6 A7 A8 A9 G1 G2 opt_in hess s' o Ho Hs Hi Hq Hst new_hyper Hn).
Qed.
Print Assumptions C57_old_quadratic_exact.
(** the objective (x - e)^2 / 2 at x = e = 0; the output parameter is set to x^2 + 1 *)
Definition conv_sq (s : pair_state) : pair_state * res unit :=
  match t_get_vector (fst s) with
  | Raise e => (s, Raise e)
  | Ok v => let x := toR (nth 0 (data (ta_val v)) NaN) in let r := t_set_vector (snd s) (fin_arg [x * x + 1]) in ((fst s, fst r), snd r)
  end.
Definition ex_trio : trio := Trio (one_par "x" NInf 0) (one_par "o" NInf 7) (one_par "e" NInf 0).
Lemma square_gradient z : plane z -> is_partial (joint (poly square) ex_st true false 1) 0 z (nth 0 z 0 - nth 1 z 0).
Proof. intros L. apply poly_partial; [exact L|]. unfold square. auto_derive; [exact I|]. field. Qed.
Example C57_nonvacuous : regular_point 1 1 plane (joint (poly square) ex_st true false 1) (joint (poly square) ex_st true false 1) [0] [0] H_one /\
  optimum_map 1 1 (joint (poly square) ex_st true false 1) [0] (fun e => [nth 0 e 0]) /\ is_jacobian 1 1 (fun e => [nth 0 e 0]) [0] (fun _ _ => 1) /\
  quadratic 1 1 (joint (poly square) ex_st true false 1) /\ stationary 1 (joint (poly square) ex_st true false 1) [0] [0] /\
  (exists st2 l, linear_init (poly square) (poly square) rmat2 gauss_factor clean_trace true false gauss_cho_solve (fun s _ _ => s) ex_st [0] [0] None = (st2, Ok l)) /\
  (forall s, history2 s (fst (conv_sq s))) /\
  (exists s' o, old_init (poly square) (poly square) conv_sq rmat2 gauss_factor gauss_cho_solve clean_trace (fun s => s) (fun s _ _ => s) ex_trio None None = (s', Ok o)) /\
  conv_vec conv_sq (tr_in ex_trio, tr_out ex_trio) [3] = [10].
Proof.
  split; [|split; [|split; [|split; [|split; [|split; [|split; [|split]]]]]]].
  - unfold regular_point. assert (C : Ck 2 2 plane (joint (poly square) ex_st true false 1)).
    { apply (poly_Ck 2 square false (fun z => / 2 * ((nth 0 z 0 + -1 * nth 1 z 0) * (nth 0 z 0 + -1 * nth 1 z 0)))); [intros z; unfold square; ring|].
      pose proof (coordinate 2 0) as X. pose proof (coordinate 2 1) as Y. apply Ck_scal, Ck_mult; apply Ck_plus; try assumption; apply Ck_scal; assumption. }
    split; [apply whole_space_open|]. split; [exact C|]. split; [exact C|]. split; [exists (fun _ => 0); intros z _; ring|]. split; [reflexivity|]. split; [reflexivity|]. split; [reflexivity|]. split; [|apply one_nonsingular; cbn; lra].
    split; [reflexivity|]. split; [reflexivity|]. exists (fun j z => nth 0 z 0 - nth 1 z 0). split; [intros j y Hj Hy; assert (j = 0%nat) by lia; subst j; apply square_gradient, Hy|].
    intros i j Hi Hj. assert (i = 0%nat) by lia. subst i. unfold is_partial. cbn [H_one rm_get app nth upd]. auto_derive; [exact I|ring].
  - split; [reflexivity|]. exists 1. split; [lra|]. intros [|y [|]] i [Ly _] Hi; try discriminate. assert (i = 0%nat) by lia. subst i. evar_last; [apply square_gradient; reflexivity|]. cbn [app nth]. ring.
  - intros i l Hi Hl. assert (i = 0%nat) by lia. assert (l = 0%nat) by lia. subst i l. unfold is_partial. cbn [upd nth]. auto_derive; [exact I|]. ring.
  - exists (fun _ _ => 1), (fun _ _ => -1), (fun _ => 0), (fun e => / 2 * (nth 0 e 0 * nth 0 e 0)). split; [reflexivity|]. intros [|x [|]] [|e [|]] Lx Le; try discriminate. rewrite poly_joint by reflexivity. cbn [app nth rsum]. unfold square. field.
  - split; [reflexivity|]. intros i Hi. assert (i = 0%nat) by lia. subst i. evar_last; [apply square_gradient; reflexivity|]. cbn [app nth]. ring.
  - eexists. eexists. reflexivity.
  - intros s. unfold conv_sq. destruct (t_get_vector (fst s)); cbn [fst]; [|split; constructor]. split; [constructor|]. cbn [snd]. eapply hist_more; [constructor|constructor].
  - eexists. eexists. reflexivity.
  - transitivity [3 * 3 + 1]; [reflexivity|]. apply (f_equal (fun x => [x])). ring.
Qed.
