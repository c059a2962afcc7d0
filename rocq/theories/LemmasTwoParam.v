(** ParameterConverter, TwoParameterObjective and Logger (C45-C47). *)
From Coq Require Import String Reals List Bool Arith ZArith Lia Lra.
From Coquelicot Require Import Coquelicot.
From Verif Require Import Res Num Nd RSum ModelAutograd ModelSparse ModelParameters ModelMatrix ModelSimplex ModelProjection ModelDict ModelObjective.
From Verif Require Import SpecParameters SpecMatrix SpecSimplex SpecProjection SpecDict SpecObjective.
From Verif Require Import LemmasParameters LemmasLeaf LemmasDict LemmasMatrix LemmasPosDef LemmasPosDefStack LemmasSimplex LemmasProjection LemmasDictCalc LemmasChain LemmasObjective.
Import List ListNotations.
Open Scope R_scope.
Set Bullet Behavior "Strict Subproofs".

Lemma set_par_agree t t' v b : sb t t' -> agree (set_par t v b) (set_par t' v b).
Proof. intros S. destruct b; [apply t_set_free_agree|apply t_set_vector_agree]; exact S. Qed.
Lemma set_par_numeric t a b t' : set_par t (num_arg a) b = (t', Ok tt) -> all_numeric t'.
Proof. destruct b; [apply t_set_free_numeric|apply t_set_vector_numeric]. Qed.
Lemma set_par_operation t v b : operation t (fst (set_par t v b)).
Proof. destruct b; constructor. Qed.
Lemma agree_ok {P} (r r' : P * res unit) t : agree r r' -> r' = (t, Ok tt) -> r = (t, Ok tt).
Proof. intros [A B] E. subst r'. cbn [fst snd] in *. destruct r as [t0 r]. cbn [fst snd] in *. subst r. rewrite B by reflexivity. reflexivity. Qed.
Lemma agree_ok' {P} (r r' : P * res unit) t : agree r r' -> r = (t, Ok tt) -> r' = (t, Ok tt).
Proof. intros [A B] E. subst r. cbn [fst snd] in *. destruct r' as [t0 r]. cbn [fst snd] in *. subst r. rewrite B by reflexivity. reflexivity. Qed.

(** ---- C45 ---- *)
Lemma history2_trans s1 s2 s3 : history2 s1 s2 -> history2 s2 s3 -> history2 s1 s3.
Proof. intros [A B] [C D]. split; eapply history_trans; eassumption. Qed.
Lemma history2_refl s : history2 s s. Proof. split; constructor. Qed.
Lemma conv_traced_history conv in_free out_free st st' : (forall s, history2 s (fst (conv s))) -> conv_traced conv in_free out_free st st' -> history2 st st'.
Proof.
  intros Hc H. induction H as [|st st' v _ IH]; [apply history2_refl|]. eapply history2_trans; [exact IH|]. unfold converter_eval.
  pose proof (set_par_operation (fst st') v in_free) as O. destruct (set_par (fst st') v in_free) as [pin [[]|e]]; cbn [fst] in O.
  - assert (H1 : history2 st' (pin, snd st')) by (split; [eapply hist_more; [constructor|exact O]|constructor]).
    pose proof (Hc (pin, snd st')) as H2. destruct (conv (pin, snd st')) as [st2 [[]|e]]; cbn [fst] in *; eapply history2_trans; eassumption.
  - cbn [fst]. split; [eapply hist_more; [constructor|exact O]|constructor].
Qed.
Lemma converter_restores {Out} conv in_free out_free (ag : pair_state -> targ -> pair_state * res Out) st0 st x v st' r :
  (forall s, history2 s (fst (conv s))) -> (forall s y, conv_traced conv in_free out_free s (fst (ag s y))) ->
  history2 st0 st -> reachable (erase (snd st)) -> populated (erase (snd st)) -> t_get_vector (snd st) = Ok (fin_arg v) ->
  converter_jacobian in_free ag st (num_arg x) = (st', Ok r) ->
  snd (ag st (num_arg x)) = Ok r /\ set_par (fst st0) (num_arg x) in_free = (fst st', Ok tt) /\ all_numeric (fst st') /\ all_numeric (snd st') /\
  t_get_vector (snd st') = Ok (fin_arg v) /\ (all_leaves leaf_regular (erase (snd st)) -> same_values (erase (snd st)) (erase (snd st'))).
Proof.
  intros Hc Hag Hh Rp Pop G E. unfold converter_jacobian in E. rewrite G in E.
  pose proof (conv_traced_history _ _ _ _ _ Hc (Hag st (num_arg x))) as [H1 H2]. destruct (ag st (num_arg x)) as [st1 [r1|e]]; [|discriminate]. cbn [fst snd] in *.
  destruct (set_par (fst st1) (num_arg x) in_free) as [pin [[]|e]] eqn:E1; [|discriminate].
  destruct (t_set_vector (snd st1) (fin_arg v)) as [pout [[]|e]] eqn:E2; [|discriminate]. inversion E; subst. clear E. cbn [fst snd].
  assert (L : length v = t_vector_size (snd st)).
  { unfold t_get_vector in G. destruct (p_get_vector (erase (snd st))) as [w|] eqn:Gw; [|discriminate]. cbn [rbind] in G. apply Ok_inj in G. apply (f_equal ta_val) in G. cbn in G. subst w.
    destruct (p_get_vector_sized _ _ (reachable_wf _ Rp) Gw) as [_ S]. rewrite nd_size_vec, map_length in S. exact S. }
  destruct (t_set_vector_finite (snd st) v Rp Pop L) as [t1 [A1 [A2 A3]]].
  assert (t1 = pout). { pose proof (agree_ok _ _ _ (t_set_vector_agree _ _ (fin_arg v) (history_sb _ _ H2)) E2) as Q. rewrite A1 in Q. congruence. } subst t1.
  split; [reflexivity|]. split; [|split; [exact (set_par_numeric _ _ _ _ E1)|split; [exact A3|split; [exact A2|]]]].
  - eapply agree_ok; [|exact E1]. apply set_par_agree, history_sb. eapply history_trans; [apply (proj1 Hh)|exact H1].
  - intros Rg. destruct (p_value_vector_roundtrip _ (reachable_wf _ Rp) Pop Rg) as [w [p' [B1 [B2 [B3 B4]]]]].
    unfold t_get_vector in G. rewrite B1 in G. cbn [rbind] in G. apply Ok_inj in G. apply (f_equal ta_val) in G. cbn in G. rewrite G in B3.
    destruct (t_set_vector_erase (snd st) (fin_arg v)) as [C1 _]. rewrite A1 in C1. cbn [fst] in C1. unfold fin_arg in C1. cbn [ta_val num_arg] in C1. rewrite C1, B3. exact B4.
Qed.

(** ---- C46 ---- *)
Lemma set_both_agree st st' v1 v2 f1 f2 : sb (fst st) (fst st') -> sb (snd st) (snd st') -> agree (set_both st v1 v2 f1 f2) (set_both st' v1 v2 f1 f2).
Proof.
  intros S1 S2. pose proof (set_par_agree _ _ v1 f1 S1) as [A B]. pose proof (set_par_agree _ _ v2 f2 S2) as [C D]. unfold set_both.
  destruct (set_par (fst st) v1 f1) as [p1 [[]|e1]], (set_par (fst st') v1 f1) as [p1' [[]|e1']]; cbn [fst snd] in *; try discriminate.
  - rewrite B by reflexivity. destruct (set_par (snd st) v2 f2) as [p2 [[]|e2]], (set_par (snd st') v2 f2) as [p2' [[]|e2']]; cbn [fst snd] in *; try discriminate.
    + rewrite D by reflexivity. split; reflexivity.
    + split; [cbn; congruence|discriminate].
  - split; [cbn; congruence|discriminate].
Qed.
Lemma set_both_history st v1 v2 f1 f2 : history2 st (fst (set_both st v1 v2 f1 f2)).
Proof.
  unfold set_both. pose proof (set_par_operation (fst st) v1 f1) as O1. pose proof (set_par_operation (snd st) v2 f2) as O2.
  destruct (set_par (fst st) v1 f1) as [p1 [[]|e1]]; cbn [fst] in *.
  - destruct (set_par (snd st) v2 f2) as [p2 [[]|e2]]; cbn [fst] in *; (split; [eapply hist_more; [constructor|exact O1]|eapply hist_more; [constructor|exact O2]]).
  - split; [eapply hist_more; [constructor|exact O1]|constructor].
Qed.
Lemma two_traced_history f1 f2 st st' : two_traced f1 f2 st st' -> history2 st st'.
Proof. intros H. induction H as [|st st' v1 v2 _ IH]; [apply history2_refl|]. eapply history2_trans; [exact IH|apply set_both_history]. Qed.
Lemma set_both_ok st v1 v2 f1 f2 st' : set_both st v1 v2 f1 f2 = (st', Ok tt) <->
  set_par (fst st) v1 f1 = (fst st', Ok tt) /\ set_par (snd st) v2 f2 = (snd st', Ok tt).
Proof.
  unfold set_both. split.
  - destruct (set_par (fst st) v1 f1) as [p1 [[]|e1]]; [|discriminate]. destruct (set_par (snd st) v2 f2) as [p2 [[]|e2]]; [|discriminate]. intros E. inversion E; subst. split; reflexivity.
  - intros [A B]. rewrite A, B. destruct st'. reflexivity.
Qed.
Lemma two_values {A Val} (f : pair_state -> A -> res Val) st0 st v1 v2 f1 f2 a : history2 st0 st ->
  snd (eval_fun f st v1 v2 f1 f2 a) = snd (eval_fun f st0 v1 v2 f1 f2 a) /\
  (forall q1 q2, set_par (fst st0) v1 f1 = (q1, Ok tt) -> set_par (snd st0) v2 f2 = (q2, Ok tt) -> eval_fun f st v1 v2 f1 f2 a = ((q1, q2), f (q1, q2) a)).
Proof.
  intros [H1 H2]. pose proof (set_both_agree st0 st v1 v2 f1 f2 (history_sb _ _ H1) (history_sb _ _ H2)) as G. split.
  - destruct G as [G1 G2]. unfold eval_fun. destruct (set_both st0 v1 v2 f1 f2) as [s [[]|e]], (set_both st v1 v2 f1 f2) as [s' [[]|e']]; cbn [fst snd] in *; try discriminate.
    + rewrite G2 by reflexivity. reflexivity.
    + congruence.
  - intros q1 q2 E1 E2. assert (E : set_both st0 v1 v2 f1 f2 = ((q1, q2), Ok tt)) by (apply set_both_ok; split; assumption).
    pose proof (agree_ok' _ _ _ G E) as E'. unfold eval_fun. rewrite E'. reflexivity.
Qed.
Lemma method_forms m : snd (fst (method_spec m)) = first_is_free m /\ snd (method_spec m) = second_is_free m.
Proof. destruct m; split; reflexivity. Qed.
Lemma two_derivatives {A Out} (ag : which_fun -> ag_function2 A Out) : (forall w s v1 v2 f1 f2 a, two_traced f1 f2 s (fst (ag w s v1 v2 f1 f2 a))) ->
  forall m st0 st v1 v2 a st' r, history2 st0 st -> two_call ag m st v1 v2 a = (st', Ok r) ->
  set_par (fst st0) v1 (first_is_free m) = (fst st', Ok tt) /\ set_par (snd st0) v2 (second_is_free m) = (snd st', Ok tt) /\
  (ta_box v1 = false -> all_numeric (fst st')) /\ (ta_box v2 = false -> all_numeric (snd st')).
Proof.
  intros Hag m st0 st v1 v2 a st' r H E. unfold two_call in E. destruct (method_forms m) as [M1 M2]. destruct (method_spec m) as [[w f1] f2]. cbn [fst snd] in M1, M2. subst f1 f2.
  unfold cache_and_eval in E. pose proof (two_traced_history _ _ _ _ (Hag w st v1 v2 (first_is_free m) (second_is_free m) a)) as T.
  destruct (ag w st v1 v2 _ _ a) as [st1 [r1|e]]; [|discriminate]. cbn [fst] in T. destruct (set_both st1 v1 v2 _ _) as [st2 [[]|e]] eqn:B; [|discriminate]. inversion E; subst.
  destruct (history2_trans _ _ _ H T) as [H1 H2]. apply (agree_ok _ _ _ (set_both_agree st0 st1 v1 v2 _ _ (history_sb _ _ H1) (history_sb _ _ H2))) in B. apply set_both_ok in B as [B1 B2].
  split; [exact B1|split; [exact B2|split; intros N]].
  - destruct v1 as [v1 b1]. cbn in N. subst b1. exact (set_par_numeric _ v1 _ _ B1).
  - destruct v2 as [v2 b2]. cbn in N. subst b2. exact (set_par_numeric _ v2 _ _ B2).
Qed.

(** the derivatives returned by the methods *)
Lemma cross_transpose F x1 x2 i j : mixed_C2 F i j x1 x2 -> rm_get (ag_two Hessian21 F x1 x2) j i = rm_get (ag_two Hessian12 F x1 x2) i j.
Proof.
  intros [H1 [H2 H3]]. cbn [ag_two rm_get]. unfold ad_partial. cbv zeta in H1.
  assert (L : locally_2d (fun u v => ex_derive (fun z => F (upd x1 i z) (upd x2 j v)) u /\ ex_derive (fun z => F (upd x1 i u) (upd x2 j z)) v /\
    ex_derive (fun z => Derive (fun t => F (upd x1 i z) (upd x2 j t)) v) u /\ ex_derive (fun z => Derive (fun t => F (upd x1 i t) (upd x2 j z)) u) v) (nth i x1 0) (nth j x2 0)) by exact H1.
  pose proof (Schwarz (fun u v => F (upd x1 i u) (upd x2 j v)) (nth i x1 0) (nth j x2 0) L) as S. cbv beta zeta in S. apply S; assumption.
Qed.
Definition kind (m : two_method) : which_fun :=
  match m with
  | FunGrad1 _ _ => Grad1 | FunGrad2 _ _ => Grad2
  | FreeHessian12 | VectorHessian12 | HessianFree1Vector2 | HessianVector1Free2 => Hessian12
  | FreeHessian21 | VectorHessian21 => Hessian21
  end.
Lemma two_results {A} (f : pair_state -> A -> res R) trace2 m st x1 x2 a st' K : two_method_real f trace2 m st x1 x2 a = (st', Ok K) ->
  K = ag_two (kind m) (real2 f st (first_is_free m) (second_is_free m) a) x1 x2.
Proof.
  unfold two_method_real, two_call. destruct (method_spec m) as [[w f1] f2] eqn:E. unfold cache_and_eval. destruct (set_both _ _ _ _ _) as [s [[]|e]]; intros H; inversion H.
  destruct m; inversion E; subst; reflexivity.
Qed.
Lemma real2_history {A} (f : pair_state -> A -> res R) st0 st f1 f2 a x1 x2 : history2 st0 st -> real2 f st f1 f2 a x1 x2 = real2 f st0 f1 f2 a x1 x2.
Proof. intros H. unfold real2. rewrite (proj1 (two_values f st0 st (fin_arg x1) (fin_arg x2) f1 f2 a H)). reflexivity. Qed.
Lemma real2_fun {A} (f : pair_state -> A -> res R) st0 st f1 f2 a : history2 st0 st -> real2 f st f1 f2 a = real2 f st0 f1 f2 a.
Proof. intros H. do 2 (apply FunctionalExtensionality.functional_extensionality; intro). apply real2_history, H. Qed.

(** entries of the returned matrices are the derivatives of the objective in the two arguments *)
Lemma two_derivative_values {A} (f : pair_state -> A -> res R) trace2 m st0 st x1 x2 a st' K : history2 st0 st ->
  two_method_real f trace2 m st x1 x2 a = (st', Ok K) -> let F := real2 f st0 (first_is_free m) (second_is_free m) a in
  match m with
  | FunGrad1 _ _ => rm_cols K = length x1 /\ forall i, ex_derive (fun t => F (upd x1 i t) x2) (nth i x1 0) -> is_partial (fun y => F y x2) i x1 (rm_get K 0 i)
  | FunGrad2 _ _ => rm_cols K = length x2 /\ forall j, ex_derive (fun t => F x1 (upd x2 j t)) (nth j x2 0) -> is_partial (fun y => F x1 y) j x2 (rm_get K 0 j)
  | FreeHessian21 | VectorHessian21 => rm_rows K = length x2 /\ rm_cols K = length x1 /\
      forall j i, mixed_C2 F i j x1 x2 -> is_partial (fun z => Derive (fun t => F z (upd x2 j t)) (nth j x2 0)) i x1 (rm_get K j i)
  | _ => rm_rows K = length x1 /\ rm_cols K = length x2 /\
      forall i j, mixed_C2 F i j x1 x2 -> is_partial (fun z => Derive (fun t => F (upd x1 i t) z) (nth i x1 0)) j x2 (rm_get K i j)
  end.
Proof.
  intros H E F. apply two_results in E. rewrite (real2_fun f st0 st _ _ a H) in E. fold F in E. subst K.
  assert (H12 : forall i j, mixed_C2 F i j x1 x2 -> is_partial (fun z => Derive (fun t => F (upd x1 i t) z) (nth i x1 0)) j x2 (rm_get (ag_two Hessian12 F x1 x2) i j)).
  { intros i j [M _]. unfold is_partial. cbn [ag_two rm_get]. unfold ad_partial. apply Derive_correct. destruct M as [d M]. destruct (M (nth i x1 0) (nth j x2 0)) as [_ [_ [_ M4]]].
    - unfold Rminus. rewrite Rplus_opp_r, Rabs_R0. apply cond_pos.
    - unfold Rminus. rewrite Rplus_opp_r, Rabs_R0. apply cond_pos.
    - exact M4. }
  assert (H21 : forall j i, mixed_C2 F i j x1 x2 -> is_partial (fun z => Derive (fun t => F z (upd x2 j t)) (nth j x2 0)) i x1 (rm_get (ag_two Hessian21 F x1 x2) j i)).
  { intros j i [M _]. unfold is_partial. cbn [ag_two rm_get]. unfold ad_partial. apply Derive_correct. destruct M as [d M]. destruct (M (nth i x1 0) (nth j x2 0)) as [_ [_ [M3 _]]].
    - unfold Rminus. rewrite Rplus_opp_r, Rabs_R0. apply cond_pos.
    - unfold Rminus. rewrite Rplus_opp_r, Rabs_R0. apply cond_pos.
    - exact M3. }
  destruct m; cbn [kind]; try (split; [reflexivity|split; [reflexivity|]]; assumption).
  - split; [reflexivity|]. intros i X. unfold is_partial. cbn [ag_two rm_get]. unfold ad_partial. apply Derive_correct, X.
  - split; [reflexivity|]. intros i X. unfold is_partial. cbn [ag_two rm_get]. unfold ad_partial. apply Derive_correct, X.
Qed.
Lemma two_transpose {A} (f : pair_state -> A -> res R) trace2 st0 st st' x1 x2 a s1 s2 K12 K21 (form : bool) :
  history2 st0 st -> history2 st0 st' ->
  two_method_real f trace2 (if form then FreeHessian12 else VectorHessian12) st x1 x2 a = (s1, Ok K12) ->
  two_method_real f trace2 (if form then FreeHessian21 else VectorHessian21) st' x1 x2 a = (s2, Ok K21) ->
  (rm_rows K12, rm_cols K12) = (length x1, length x2) /\ (rm_rows K21, rm_cols K21) = (length x2, length x1) /\
  forall i j, mixed_C2 (real2 f st0 form form a) i j x1 x2 -> rm_get K21 j i = rm_get K12 i j.
Proof.
  intros H H' E1 E2. apply two_results in E1. apply two_results in E2. subst K12 K21. destruct form; cbn [kind first_is_free second_is_free];
  rewrite (real2_fun f st0 st _ _ a H), (real2_fun f st0 st' _ _ a H'); (split; [reflexivity|split; [reflexivity|]]); intros i j M; apply cross_transpose, M.
Qed.

(** ---- C47 ---- *)
Section C47.
Context {V X : Type}.
Variable diff_ok : X -> X -> bool.
Lemma log_all_app (l : logger V X) c1 c2 : log_all diff_ok l (c1 ++ c2) = match log_all diff_ok l c1 with (l', Ok _) => log_all diff_ok l' c2 | (l', Raise e) => (l', Raise e) end.
Proof. revert l. induction c1 as [|[v x] c1 IH]; intros l; [reflexivity|]. cbn [app log_all]. destruct (logger_log diff_ok l v x) as [l' [[]|e]]; [apply IH|reflexivity]. Qed.
Lemma logger_history k ev (calls : list (V * X)) : (k <> 0)%Z -> (forall x y, diff_ok x y = true) ->
  exists l, log_all diff_ok (logger_initialize k ev) calls = (l, Ok tt) /\ lg_iter l = length calls /\ lg_every l = k /\
    lg_val_array l = map fst calls /\ lg_x_array l = map snd calls /\
    (forall d, calls <> [] -> lg_value l = Some (fst (last calls d)) /\ lg_last_value l = Some (fst (last calls d)) /\
       lg_x l = Some (snd (last calls d)) /\ lg_last_x l = Some (snd (last calls d))) /\
    (calls = [] -> lg_value l = None /\ lg_last_value l = None /\ lg_x l = None /\ lg_last_x l = None) /\
    lg_events l = ev ++ map (fun i => (i, nth_error (map fst calls) i)) (filter (fun i => Z.eqb (Z.of_nat i mod k) 0) (seq 0 (length calls))).
Proof.
  intros Hk Hd. induction calls as [|[v x] calls IH] using rev_ind.
  - eexists. split; [reflexivity|]. do 4 (split; [reflexivity|]). split; [intros d C; contradiction C; reflexivity|]. split; [intros _; repeat split|]. symmetry. apply app_nil_r.
  - destruct IH as [l [E [I1 [I2 [I3 [I4 [_ [_ I7]]]]]]]]. rewrite log_all_app, E. cbn [log_all]. unfold logger_log. rewrite I2.
    replace (match lg_last_x l with Some y => diff_ok x y | None => true end) with true by (destruct (lg_last_x l); [rewrite Hd|]; reflexivity). cbn [negb].
    destruct (Z.eqb_spec k 0) as [|_]; [contradiction|]. eexists. split; [reflexivity|].
    cbn [lg_iter lg_every lg_val_array lg_x_array lg_value lg_last_value lg_x lg_last_x lg_events]. rewrite I1, I3, I4, I7, !map_app, app_length, Nat.add_1_r. cbn [map fst snd].
    repeat (split; [reflexivity|]). split; [intros d _; rewrite last_last; repeat split|]. split; [intros C; destruct calls; discriminate|].
    rewrite seq_S, filter_app, map_app, app_assoc. cbn [Nat.add filter].
    assert (P : map (fun i => (i, nth_error (map fst calls) i)) (filter (fun i => (Z.of_nat i mod k =? 0)%Z) (seq 0 (length calls))) =
                map (fun i => (i, nth_error (map fst calls ++ [v]) i)) (filter (fun i => (Z.of_nat i mod k =? 0)%Z) (seq 0 (length calls)))).
    { apply map_ext_in. intros i Hi. apply filter_In in Hi as [Hi _]. apply in_seq in Hi. rewrite nth_error_app1; [reflexivity|]. rewrite map_length. lia. }
    destruct (Z.of_nat (length calls) mod k =? 0)%Z; cbn [map].
    + rewrite P. f_equal. rewrite nth_error_app2 by (rewrite map_length; lia). rewrite map_length, Nat.sub_diag. reflexivity.
    + rewrite P, app_nil_r. reflexivity.
Qed.
End C47.

(** ---- C88 ---- *)
Lemma set_par_finite t x b : reachable (erase t) -> populated (erase t) -> length x = par_size t b ->
  exists t', set_par t (fin_arg x) b = (t', Ok tt) /\ get_par t' b = Ok (fin_arg x) /\ all_numeric t'.
Proof. destruct b; [apply t_set_free_finite|apply t_set_vector_finite]. Qed.
Lemma converter_values conv in_free out_free F st x : implements conv in_free out_free F ->
  reachable (erase (fst st)) -> populated (erase (fst st)) -> reachable (erase (snd st)) -> populated (erase (snd st)) ->
  length x = par_size (fst st) in_free -> length (F x) = par_size (snd st) out_free ->
  exists st', converter_eval conv in_free out_free st (fin_arg x) = (st', Ok (fin_arg (F x))) /\
    get_par (fst st') in_free = Ok (fin_arg x) /\ get_par (snd st') out_free = Ok (fin_arg (F x)) /\ all_numeric (fst st') /\ all_numeric (snd st').
Proof.
  intros I R1 P1 R2 P2 L1 L2. destruct (set_par_finite _ x in_free R1 P1 L1) as [t1 [A1 [A2 A3]]]. destruct (set_par_finite _ (F x) out_free R2 P2 L2) as [t2 [B1 [B2 B3]]].
  exists (t1, t2). unfold converter_eval. rewrite A1. rewrite (I (t1, snd st) x A2). cbn [fst snd]. rewrite B1. cbn [fst snd]. split; [|auto]. f_equal. destruct out_free; exact B2.
Qed.
