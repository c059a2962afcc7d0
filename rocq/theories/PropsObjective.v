(** Properties C42-C47: objectives, preconditioning, parameter converters, two-parameter objectives, logging. *)
From Coq Require Import String Reals List Bool Arith ZArith Lia Lra.
From Coquelicot Require Import Coquelicot.
From Verif Require Import Res Num Nd RSum ModelAutograd ModelSparse ModelParameters ModelMatrix ModelSimplex ModelProjection ModelDict ModelObjective.
From Verif Require Import SpecParameters SpecMatrix SpecSimplex SpecProjection SpecDict SpecObjective.
From Verif Require Import LemmasParameters LemmasObjective LemmasPrecond LemmasTwoParam PropsDict.
Import List ListNotations.
Open Scope R_scope.
Set Bullet Behavior "Strict Subproofs".

(** C42: t0 is the parameter when the objective is made, t what it has become after any history (SpecObjective.v) *)
Theorem C42_values : forall A Val (f : tparam -> A -> res Val) t0 t a, history t0 t ->
  (forall x, snd (fun_free f t x a) = snd (fun_free f t0 x a)) /\ (forall v, snd (fun_vector f t v a) = snd (fun_vector f t0 v a)) /\
  (reachable (erase t0) -> populated (erase t0) ->
    (forall x, length x = t_free_size t0 -> exists t', fun_free f t (fin_arg x) a = (t', f t' a) /\ t_set_free t0 (fin_arg x) = (t', Ok tt) /\ t_get_free t' = Ok (fin_arg x)) /\
    (forall v, length v = t_vector_size t0 -> exists t', fun_vector f t (fin_arg v) a = (t', f t' a) /\ t_set_vector t0 (fin_arg v) = (t', Ok tt) /\ t_get_vector t' = Ok (fin_arg v))).
Proof. exact @objective_values. Qed.
Print Assumptions C42_values.

(** C43: any behaviour of the differentiation library, as long as it only calls the objective *)
Theorem C43_derivative_calls : forall A Out (ag : ag_function A Out), (forall t x a, traced t (fst (ag t x a))) ->
  forall t0 t x a, history t0 t ->
  (history t0 (fst (cache_free_and_eval ag t x a)) /\ history t0 (fst (cache_vector_and_eval ag t x a))) /\
  (forall t' r, cache_free_and_eval ag t x a = (t', Ok r) -> t_set_free t0 x = (t', Ok tt) /\ snd (ag t x a) = Ok r /\ (ta_box x = false -> all_numeric t')) /\
  (forall t' r, cache_vector_and_eval ag t x a = (t', Ok r) -> t_set_vector t0 x = (t', Ok tt) /\ snd (ag t x a) = Ok r /\ (ta_box x = false -> all_numeric t')).
Proof. exact @derivative_restores. Qed.
Print Assumptions C43_derivative_calls.

(** C43, last sentence: the library calls a function that raises with a tracing object; the tracing object stays in the parameter *)
Definition ex_t : tparam := numeric ex_vector.
Definition raising_ag : ag_function unit R := fun t x a => fun_free (fun _ _ => Raise ValueError) t (TArg (ta_val x) true) a.
Theorem C43_raise_leaves_tracing : (forall t x a, traced t (fst (raising_ag t x a))) /\
  exists t', cache_free_and_eval raising_ag ex_t (fin_arg [4; 5]) tt = (t', Raise ValueError) /\ all_numeric ex_t /\ ~ all_numeric t'.
Proof.
  split.
  - intros t x a. unfold raising_ag, fun_free. pose proof (tr_free t t (TArg (ta_val x) true) (tr_refl t)) as T. destruct (t_set_free t _) as [t' [[]|e]]; exact T.
  - eexists. split; [|split; [reflexivity|]].
    + unfold cache_free_and_eval, raising_ag, fun_free. cbn. reflexivity.
    + discriminate.
Qed.
Print Assumptions C43_raise_leaves_tracing.
(** a history that changes the state: a traced evaluation, then a call that raises *)
Example C42_C43_nonvacuous : exists t, history ex_t t /\ t <> ex_t /\ ~ all_numeric t /\ reachable (erase ex_t) /\ populated (erase ex_t) /\ t_free_size ex_t = 2%nat.
Proof.
  exists (fst (t_set_free (fst (t_set_free ex_t (TArg (nd_vec [Fin 7; Fin 8]) true))) (num_arg (nd_vec [Fin 7])))).
  split; [eapply hist_more; [eapply hist_more; [constructor|constructor]|constructor]|]. cbn. split; [discriminate|]. split; [discriminate|]. split; [|split; [exact I|reflexivity]].
  apply reach_leaf. apply (con_vector "v" 2 NInf PInf (Some (fvec [1; 3]))).
  - intros a E. injection E as <-. reflexivity.
  - reflexivity.
Qed.

(** C44 *)
Theorem C44_no_preconditioner : forall A (f : tparam -> A -> res R) trace t x a v,
  fun_free_cond f None t x a = (t, Raise AssertionError) /\ fun_free_grad_cond f trace None t x a = (t, Raise AssertionError) /\
  fun_free_hessian_cond f trace None t x a = (t, Raise AssertionError) /\ fun_free_hvp_cond f trace None t x a v = (t, Raise AssertionError).
Proof. intros. repeat split. Qed.
Print Assumptions C44_no_preconditioner.
Theorem C44_value : forall A (f : tparam -> A -> res R) M t0 t x a, history t0 t -> reachable (erase t0) -> populated (erase t0) -> rm_rows M = t_free_size t0 -> length x = rm_cols M ->
  exists t1, uncondition_x (Some M) x = Ok (apply_mat M x) /\ t_get_free t1 = Ok (fin_arg (apply_mat M x)) /\
    fun_free_cond f (Some M) t x a = (t1, f t1 a) /\ snd (fun_free_cond f (Some M) t x a) = snd (fun_free f t0 (fin_arg (apply_mat M x)) a).
Proof. exact @precond_value. Qed.
Print Assumptions C44_value.
Theorem C44_derivatives : forall A (f : tparam -> A -> res R) (trace : tparam -> list R -> tparam), (forall t y, traced t (trace t y)) -> forall M t0 t x a v G H, history t0 t -> reachable (erase t0) -> populated (erase t0) ->
  rm_rows M = t_free_size t0 -> length x = rm_cols M -> length v = rm_cols M ->
  twice_differentiable (t_free_size t0) (free_real f t0 a) G H (apply_mat M x) ->
  let F := fun z => free_real f t0 a (apply_mat M z) in let m := rm_cols M in
  exists t1 g K w, t_get_free t1 = Ok (fin_arg (apply_mat M x)) /\ all_numeric t1 /\
    fun_free_grad_cond f trace (Some M) t x a = (t1, Ok g) /\ fun_free_hessian_cond f trace (Some M) t x a = (t1, Ok K) /\
    fun_free_hvp_cond f trace (Some M) t x a v = (t1, Ok w) /\
    length g = m /\ rm_rows K = m /\ rm_cols K = m /\ length w = m /\
    forall i, (i < m)%nat -> is_partial F i x (nth i g 0) /\ (forall j, (j < m)%nat -> is_partial2 F i j x (rm_get K i j)) /\
      nth i w 0 = rsum m (fun j => rm_get K i j * nth j v 0).
Proof. exact @precond_derivatives. Qed.
Print Assumptions C44_derivatives.
(** the objective x0^2 + x1^2 of a vector parameter, preconditioned by a 2 x 2 matrix *)
Definition ex_sq (t : tparam) (a : unit) : res R :=
  do x <- t_get_vector t; Ok (rsum 2 (fun k => toR (nth k (data (ta_val x)) NaN) * toR (nth k (data (ta_val x)) NaN))).
Lemma ex_sq_value x : length x = 2%nat -> free_real ex_sq ex_t tt x = rsum 2 (fun k => nth k x 0 * nth k x 0).
Proof. destruct x as [|u [|w [|]]]; try discriminate. intros _. unfold free_real, fun_free. unfold constrain, rassert. cbn. reflexivity. Qed.
Example C44_nonvacuous : forall x, length x = 2%nat ->
  twice_differentiable (t_free_size ex_t) (free_real ex_sq ex_t tt) (fun z k => nth k (map (fun y => 2 * y) z) 0) (fun a k => if Nat.eqb a k then 2 else 0) x.
Proof.
  intros x L. split.
  - intros z Lz. destruct (ex_differentiable 2 z Lz) as [D _]. intros eps He. destruct (D eps He) as [d [Hd H]]. exists d. split; [exact Hd|]. intros w Lw Hw.
    rewrite !ex_sq_value by (try exact Lw; exact Lz). apply H; assumption.
  - intros k Hk. apply (ex_differentiable 2 x L), Hk.
Qed.


(** C45: conv is what the converter does to the two parameters; the output parameter holds a finite vector v before the call *)
Theorem C45_converter : forall Out conv in_free out_free (ag : pair_state -> targ -> pair_state * res Out) st0 st x v st' r, (forall s, history2 s (fst (conv s))) -> (forall s y, conv_traced conv in_free out_free s (fst (ag s y))) ->
  history2 st0 st -> reachable (erase (snd st)) -> populated (erase (snd st)) -> t_get_vector (snd st) = Ok (fin_arg v) ->
  converter_jacobian in_free ag st (num_arg x) = (st', Ok r) ->
  snd (ag st (num_arg x)) = Ok r /\ set_par (fst st0) (num_arg x) in_free = (fst st', Ok tt) /\ all_numeric (fst st') /\ all_numeric (snd st') /\
  t_get_vector (snd st') = Ok (fin_arg v) /\ (all_leaves leaf_regular (erase (snd st)) -> same_values (erase (snd st)) (erase (snd st'))).
Proof. exact @converter_restores. Qed.
Print Assumptions C45_converter.
(** a converter that copies the input vector into the output *)
Definition ex_conv (s : pair_state) : pair_state * res unit :=
  match t_get_vector (fst s) with
  | Raise e => (s, Raise e)
  | Ok v => let r := t_set_vector (snd s) v in ((fst s, fst r), snd r)
  end.
Definition ex_conv_ag (s : pair_state) (y : targ) : pair_state * res unit :=
  let r := converter_eval ex_conv true false s (TArg (ta_val y) true) in (fst r, do v <- snd r; Ok tt).
Example C45_nonvacuous : (forall s, history2 s (fst (ex_conv s))) /\ (forall s y, conv_traced ex_conv true false s (fst (ex_conv_ag s y))) /\
  t_get_vector ex_t = Ok (fin_arg [1; 3]) /\ exists st', converter_jacobian true ex_conv_ag (ex_t, ex_t) (fin_arg [4; 5]) = (st', Ok tt).
Proof.
  split; [|split; [|split]].
  - intros s. unfold ex_conv. destruct (t_get_vector (fst s)); cbn [fst]; [|apply history2_refl]. split; [constructor|]. cbn [snd]. eapply hist_more; [constructor|constructor].
  - intros s y. unfold ex_conv_ag. cbn [fst]. eapply ct_eval. constructor.
  - reflexivity.
  - eexists. unfold converter_jacobian. cbn. reflexivity.
Qed.

(** C88: all four functions (in_free and out_free range over both flags) *)
Theorem C88_converter_functions : forall conv in_free out_free F st x, implements conv in_free out_free F ->
  reachable (erase (fst st)) -> populated (erase (fst st)) -> reachable (erase (snd st)) -> populated (erase (snd st)) ->
  length x = par_size (fst st) in_free -> length (F x) = par_size (snd st) out_free ->
  exists st', converter_eval conv in_free out_free st (fin_arg x) = (st', Ok (fin_arg (F x))) /\
    get_par (fst st') in_free = Ok (fin_arg x) /\ get_par (snd st') out_free = Ok (fin_arg (F x)) /\ all_numeric (fst st') /\ all_numeric (snd st').
Proof. exact converter_values. Qed.
Print Assumptions C88_converter_functions.
Example C88_nonvacuous : implements ex_conv false false (fun v => v).
Proof. intros s v E. unfold ex_conv. cbn [get_par] in E. rewrite E. reflexivity. Qed.


(** C46 *)
Theorem C46_values : forall A Val (f : pair_state -> A -> res Val) st0 st v1 v2 f1 f2 a, history2 st0 st ->
  snd (eval_fun f st v1 v2 f1 f2 a) = snd (eval_fun f st0 v1 v2 f1 f2 a) /\
  (forall q1 q2, set_par (fst st0) v1 f1 = (q1, Ok tt) -> set_par (snd st0) v2 f2 = (q2, Ok tt) -> eval_fun f st v1 v2 f1 f2 a = ((q1, q2), f (q1, q2) a)).
Proof. exact @two_values. Qed.
Print Assumptions C46_values.
Theorem C46_forms : forall A Val (f : pair_state -> A -> res Val) st0 st v1 v2 a q1 q2, history2 st0 st ->
  (set_par (fst st0) v1 true = (q1, Ok tt) -> set_par (snd st0) v2 true = (q2, Ok tt) -> two_fun_free f st v1 v2 a = ((q1, q2), f (q1, q2) a)) /\
  (set_par (fst st0) v1 false = (q1, Ok tt) -> set_par (snd st0) v2 false = (q2, Ok tt) -> two_fun_vector f st v1 v2 a = ((q1, q2), f (q1, q2) a)).
Proof. intros A Val f st0 st v1 v2 a q1 q2 H. split; intros H1 H2; exact (proj2 (C46_values A Val f st0 st v1 v2 _ _ a H) q1 q2 H1 H2). Qed.
Print Assumptions C46_forms.
Theorem C46_derivative_calls : forall A Out (ag : which_fun -> ag_function2 A Out), (forall w s v1 v2 f1 f2 a, two_traced f1 f2 s (fst (ag w s v1 v2 f1 f2 a))) ->
  forall m st0 st v1 v2 a st' r, history2 st0 st -> two_call ag m st v1 v2 a = (st', Ok r) ->
  set_par (fst st0) v1 (first_is_free m) = (fst st', Ok tt) /\ set_par (snd st0) v2 (second_is_free m) = (snd st', Ok tt) /\
  (ta_box v1 = false -> all_numeric (fst st')) /\ (ta_box v2 = false -> all_numeric (snd st')).
Proof. exact @two_derivatives. Qed.
Print Assumptions C46_derivative_calls.
Theorem C46_derivative_values : forall A (f : pair_state -> A -> res R) trace2 m st0 st x1 x2 a st' K, history2 st0 st ->
  two_method_real f trace2 m st x1 x2 a = (st', Ok K) -> let F := real2 f st0 (first_is_free m) (second_is_free m) a in
  match m with
  | FunGrad1 _ _ => rm_cols K = length x1 /\ forall i, ex_derive (fun t => F (upd x1 i t) x2) (nth i x1 0) -> is_partial (fun y => F y x2) i x1 (rm_get K 0 i)
  | FunGrad2 _ _ => rm_cols K = length x2 /\ forall j, ex_derive (fun t => F x1 (upd x2 j t)) (nth j x2 0) -> is_partial (fun y => F x1 y) j x2 (rm_get K 0 j)
  | FreeHessian21 | VectorHessian21 => rm_rows K = length x2 /\ rm_cols K = length x1 /\
      forall j i, mixed_C2 F i j x1 x2 -> is_partial (fun z => Derive (fun t => F z (upd x2 j t)) (nth j x2 0)) i x1 (rm_get K j i)
  | _ => rm_rows K = length x1 /\ rm_cols K = length x2 /\
      forall i j, mixed_C2 F i j x1 x2 -> is_partial (fun z => Derive (fun t => F (upd x1 i t) z) (nth i x1 0)) j x2 (rm_get K i j)
  end.
Proof. exact @two_derivative_values. Qed.
Print Assumptions C46_derivative_values.
Theorem C46_transpose : forall A (f : pair_state -> A -> res R) trace2 st0 st st' x1 x2 a s1 s2 K12 K21 (form : bool), history2 st0 st -> history2 st0 st' ->
  two_method_real f trace2 (if form then FreeHessian12 else VectorHessian12) st x1 x2 a = (s1, Ok K12) ->
  two_method_real f trace2 (if form then FreeHessian21 else VectorHessian21) st' x1 x2 a = (s2, Ok K21) ->
  (rm_rows K12, rm_cols K12) = (length x1, length x2) /\ (rm_rows K21, rm_cols K21) = (length x2, length x1) /\
  forall i j, mixed_C2 (real2 f st0 form form a) i j x1 x2 -> rm_get K21 j i = rm_get K12 i j.
Proof. exact @two_transpose. Qed.
Print Assumptions C46_transpose.
(** the product of the two parameters' first entries *)
Definition ex_prod (st : pair_state) (a : unit) : res R :=
  do x <- t_get_vector (fst st); do y <- t_get_vector (snd st); Ok (toR (nth 0 (data (ta_val x)) NaN) * toR (nth 0 (data (ta_val y)) NaN)).
Example C46_nonvacuous : mixed_C2 (real2 ex_prod (ex_t, ex_t) true true tt) 0 0 [4; 5] [6; 7] /\
  exists s1 s2 K12 K21, two_method_real ex_prod (fun st _ _ => st) FreeHessian12 (ex_t, ex_t) [4; 5] [6; 7] tt = (s1, Ok K12) /\
    two_method_real ex_prod (fun st _ _ => st) FreeHessian21 (ex_t, ex_t) [4; 5] [6; 7] tt = (s2, Ok K21) /\ rm_get K12 0 0 = 1.
Proof.
  assert (E : forall u w a b, real2 ex_prod (ex_t, ex_t) true true tt [u; a] [w; b] = u * w).
  { intros. unfold real2, eval_fun. cbn. reflexivity. }
  assert (D1 : forall u w, Derive (fun z => real2 ex_prod (ex_t, ex_t) true true tt [z; 5] [w; 7]) u = w).
  { intros. rewrite (Derive_ext _ (fun z => z * w)) by (intros; apply E). apply is_derive_unique. auto_derive; [exact I|ring]. }
  assert (D2 : forall u w, Derive (fun z => real2 ex_prod (ex_t, ex_t) true true tt [u; 5] [z; 7]) w = u).
  { intros. rewrite (Derive_ext _ (fun z => u * z)) by (intros; apply E). apply is_derive_unique. auto_derive; [exact I|ring]. }
  assert (D12 : forall u v, Derive (fun z => Derive (fun t => real2 ex_prod (ex_t, ex_t) true true tt [z; 5] [t; 7]) v) u = 1).
  { intros. rewrite (Derive_ext _ (fun z => z)) by (intros; apply D2). apply Derive_id. }
  assert (D21 : forall u v, Derive (fun z => Derive (fun t => real2 ex_prod (ex_t, ex_t) true true tt [t; 5] [z; 7]) u) v = 1).
  { intros. rewrite (Derive_ext _ (fun z => z)) by (intros; apply D1). apply Derive_id. }
  split.
  - unfold mixed_C2. cbn [upd nth]. splits.
    + exists (mkposreal 1 Rlt_0_1). intros u v _ _. splits.
      * apply (ex_derive_ext (fun z => z * v)); [intros; symmetry; apply E|auto_derive; exact I].
      * apply (ex_derive_ext (fun z => u * z)); [intros; symmetry; apply E|auto_derive; exact I].
      * apply (ex_derive_ext (fun z => z)); [intros; symmetry; apply D2|auto_derive; exact I].
      * apply (ex_derive_ext (fun z => z)); [intros; symmetry; apply D1|auto_derive; exact I].
    + apply (continuity_2d_pt_ext (fun _ _ => 1)); [intros; symmetry; apply D12|apply continuity_2d_pt_const].
    + apply (continuity_2d_pt_ext (fun _ _ => 1)); [intros; symmetry; apply D21|apply continuity_2d_pt_const].
  - do 4 eexists. split; [|split].
    + unfold two_method_real, two_call, method_spec, cache_and_eval. cbn -[ag_two real2]. reflexivity.
    + unfold two_method_real, two_call, method_spec, cache_and_eval. cbn -[ag_two real2]. reflexivity.
    + cbn [ag_two rm_get]. unfold ad_partial. cbn [upd nth]. apply D21.
Qed.

(** C47 *)
Theorem C47_history : forall V X (diff_ok : X -> X -> bool) k ev (calls : list (V * X)), (k <> 0)%Z -> (forall x y, diff_ok x y = true) ->
  exists l, log_all diff_ok (logger_initialize k ev) calls = (l, Ok tt) /\ lg_iter l = length calls /\ lg_every l = k /\
    lg_val_array l = map fst calls /\ lg_x_array l = map snd calls /\
    (forall d, calls <> [] -> lg_value l = Some (fst (last calls d)) /\ lg_last_value l = Some (fst (last calls d)) /\
       lg_x l = Some (snd (last calls d)) /\ lg_last_x l = Some (snd (last calls d))) /\
    (calls = [] -> lg_value l = None /\ lg_last_value l = None /\ lg_x l = None /\ lg_last_x l = None) /\
    lg_events l = ev ++ map (fun i => (i, nth_error (map fst calls) i)) (filter (fun i => Z.eqb (Z.of_nat i mod k) 0) (seq 0 (length calls))).
Proof. exact @logger_history. Qed.
Print Assumptions C47_history.
(** print_every = 0 and points whose difference cannot be formed: the call is recorded, then it raises *)
Theorem C47_raises : forall V X (diff_ok : X -> X -> bool) (l : logger V X) v x,
  (forall y, lg_last_x l = Some y -> diff_ok x y = false) -> lg_last_x l <> None ->
  exists l', logger_log diff_ok l v x = (l', Raise ValueError) /\ lg_iter l' = lg_iter l /\ lg_val_array l' = lg_val_array l ++ [v] /\ lg_x_array l' = lg_x_array l ++ [x].
Proof.
  intros V X diff_ok l v x H N. unfold logger_log. destruct (lg_last_x l) as [y|]; [|contradiction N; reflexivity]. rewrite (H y eq_refl). cbn [negb].
  eexists. split; [reflexivity|]. repeat split.
Qed.
Print Assumptions C47_raises.
Theorem C47_print_every_zero : forall V X (diff_ok : X -> X -> bool) ev (v : V) (x : X),
  exists l', logger_log diff_ok (logger_initialize 0 ev) v x = (l', Raise ZeroDivisionError) /\ lg_iter l' = 0%nat /\ lg_val_array l' = [v] /\ lg_events l' = ev.
Proof. intros. eexists. split; [reflexivity|]. repeat split. Qed.
Print Assumptions C47_print_every_zero.
(** fun_free(x, verbose=True): the parameter and the value of fun_free(x); an exception of the objective is not recorded; a value is
    recorded even if the logger then raises, and that exception reaches the caller *)
Theorem C47_verbose : forall A V X (user_fun : tparam -> A -> res V) (diff_ok : X -> X -> bool) to_x t (lg : logger V X) x a t1 r1 t2 lg2 r2,
  fun_free user_fun t x a = (t1, r1) -> fun_free_verbose user_fun diff_ok to_x t lg x a = (t2, lg2, r2) ->
  t2 = t1 /\ (forall e, r1 = Raise e -> r2 = Raise e /\ lg2 = lg) /\
  (forall v, r1 = Ok v -> lg_val_array lg2 = lg_val_array lg ++ [v] /\ lg_x_array lg2 = lg_x_array lg ++ [to_x x] /\
     ((exists y, lg_last_x lg = Some y /\ diff_ok (to_x x) y = false) -> r2 = Raise ValueError /\ lg_iter lg2 = lg_iter lg) /\
     ((forall y, lg_last_x lg = Some y -> diff_ok (to_x x) y = true) ->
        (lg_every lg = 0%Z -> r2 = Raise ZeroDivisionError /\ lg_iter lg2 = lg_iter lg) /\
        (lg_every lg <> 0%Z -> r2 = Ok v /\ lg_iter lg2 = S (lg_iter lg)))).
Proof.
  intros A V X user_fun diff_ok to_x t lg x a t1 r1 t2 lg2 r2 H. unfold fun_free_verbose. rewrite H. destruct r1 as [v|e].
  - unfold logger_log. destruct (lg_last_x lg) as [y|] eqn:Y; [destruct (diff_ok (to_x x) y) eqn:D|]; cbn [negb];
      try destruct (Z.eqb_spec (lg_every lg) 0) as [Z0|Z0]; intros Q; inversion Q; subst; cbn [lg_val_array lg_x_array lg_iter];
      (split; [reflexivity|]); (split; [intros; discriminate|]); intros w W; inversion W; subst; (split; [reflexivity|]); (split; [reflexivity|]);
      (split; [intros (y' & Ey & Dy); try congruence; split; reflexivity|]); intros G; try (specialize (G _ eq_refl); congruence); split; intros; congruence || (split; reflexivity).
  - intros Q. inversion Q; subst. split; [reflexivity|]. split; [|intros; discriminate]. intros e' E. inversion E; subst. split; reflexivity.
Qed.
Print Assumptions C47_verbose.
Example C47_nonvacuous : lg_events (fst (log_all (fun _ _ => true) (logger_init 2) [(10, 0); (11, 1); (12, 2)]%nat)) = [(0, Some 10); (2, Some 12)]%nat.
Proof. reflexivity. Qed.
