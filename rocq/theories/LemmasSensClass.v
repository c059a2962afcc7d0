(** The sensitivity classes. *)
From Coq Require Import String Reals List Bool Arith ZArith Lia Lra Permutation.
From Coquelicot Require Import Coquelicot.
From Verif Require Import Res Num Nd RSum ModelAutograd ModelSparse ModelParameters ModelMatrix ModelSimplex ModelProjection ModelDict ModelObjective ModelSensitivity.
From Verif Require Import SpecParameters SpecDict SpecObjective LemmasParameters LemmasDict LemmasObjective LemmasPrecond LemmasTwoParam SpecSmooth SpecSensitivity LemmasSmooth LemmasDirDeriv LemmasTerms LemmasTermsNat LemmasSensCalc LemmasSens LemmasSensMain.
Import List ListNotations.
Open Scope R_scope.
Set Bullet Behavior "Strict Subproofs".

Lemma upd_app1 (x y : list R) i t : (i < length x)%nat -> upd (x ++ y) i t = upd x i t ++ y.
Proof. revert i. induction x as [|a x IH]; intros [|i] H; cbn in *; try lia; [reflexivity|]. f_equal. apply IH. lia. Qed.
Lemma upd_app2 (x y : list R) i t : upd (x ++ y) (length x + i) t = x ++ upd y i t.
Proof. induction x as [|a x IH]; cbn; [reflexivity|]. f_equal. exact IH. Qed.
Lemma joint_app f st b1 b2 n x1 x2 : length x1 = n -> joint f st b1 b2 n (x1 ++ x2) = real2 f st b1 b2 tt x1 x2.
Proof. intros L. unfold joint. rewrite firstn_app, skipn_app, firstn_all2, skipn_all2 by lia. replace (n - length x1)%nat with 0%nat by lia. cbn [firstn skipn]. rewrite app_nil_r. reflexivity. Qed.
Lemma joint_history f st0 st b1 b2 n : history2 st0 st -> joint f st b1 b2 n = joint f st0 b1 b2 n.
Proof. intros H. unfold joint. rewrite (real2_fun f st0 st b1 b2 tt H). reflexivity. Qed.
Lemma joint_partial1 f st b1 b2 n x1 x2 i : length x1 = n -> (i < n)%nat -> ad_partial (joint f st b1 b2 n) i (x1 ++ x2) = ad_partial (fun y => real2 f st b1 b2 tt y x2) i x1.
Proof.
  intros L Hi. unfold ad_partial. rewrite app_nth1 by lia. apply Derive_ext. intros t. rewrite upd_app1 by lia. apply joint_app. rewrite upd_length. exact L.
Qed.
Lemma joint_partial2 f st b1 b2 n x1 x2 j : length x1 = n -> ad_partial (joint f st b1 b2 n) (n + j) (x1 ++ x2) = ad_partial (fun y => real2 f st b1 b2 tt x1 y) j x2.
Proof.
  intros L. unfold ad_partial. rewrite app_nth2 by lia. replace (n + j - length x1)%nat with j by lia. apply Derive_ext. intros t. rewrite <- L. rewrite upd_app2. apply joint_app. reflexivity.
Qed.
(** the gradient of the joint objective, whatever has happened to the parameters meanwhile *)
Lemma gradient_two_arg f st0 st b1 b2 n p U : history2 st0 st -> evaluates_on f st0 b1 b2 n p U ->
  two_arg_fun n p n U (objective_gradient f b1 b2 st) (fun c => ad_partial (joint f st0 b1 b2 n) c).
Proof.
  intros H Ev x1 x2 L1 L2 Ux. unfold objective_gradient. destruct (Ev x1 x2 L1 L2 Ux) as [v Hv].
  rewrite (proj1 (two_values f st0 st (fin_arg x1) (fin_arg x2) b1 b2 tt H)), Hv. cbn [rbind]. eexists. split; [reflexivity|]. split; [rewrite map_length, seq_length; exact L1|].
  intros c Hc. rewrite L1. rewrite nth_map_seq by exact Hc. rewrite (real2_fun f st0 st b1 b2 tt H). symmetry. apply joint_partial1; assumption.
Qed.
Lemma gradient_smooth K F n p U : open_in (n + p) U -> Ck (S K) (n + p) U F -> smooth_components K n p n U (fun c => ad_partial F c).
Proof. intros O C c Hc. apply (Ck_partial K (n + p) U F c O C). lia. Qed.

(** ---- the base values ---- *)
Section Base.
Variables (obj_f : pair_state -> unit -> res R) (Chol : Type) (cho_factor : rmat2 -> res Chol) (trace : tparam -> list R -> tparam) (hf : bool).
Hypothesis Htrace : forall t y, traced t (trace t y).
Lemma set_both_idem st v1 v2 b1 b2 st1 : set_both st v1 v2 b1 b2 = (st1, Ok tt) -> forall st', history2 st st' -> set_both st' v1 v2 b1 b2 = (st1, Ok tt).
Proof. intros E st' [H1 H2]. exact (agree_ok' _ _ _ (set_both_agree st st' v1 v2 b1 b2 (history_sb _ _ H1) (history_sb _ _ H2)) E). Qed.
Lemma set_base_ok st0 in0 hy0 st1 h ch : set_base_values obj_f Chol cho_factor trace true hf st0 in0 hy0 None = (st1, Ok (h, ch)) ->
  set_both st0 (fin_arg in0) (fin_arg hy0) true hf = (st1, Ok tt) /\ history2 st0 st1 /\ cho_factor h = Ok ch /\
  rm_rows h = length in0 /\ rm_cols h = length in0 /\
  forall i j, (i < length in0)%nat -> (j < length in0)%nat -> rm_get h i j = ad_partial (fun z => ad_partial (joint obj_f st0 true hf (length in0)) j z) i (in0 ++ hy0).
Proof.
  unfold set_base_values, to_base. destruct (set_both st0 (fin_arg in0) (fin_arg hy0) true hf) as [s [[]|e]] eqn:B; [|discriminate].
  pose proof (set_both_history st0 (fin_arg in0) (fin_arg hy0) true hf) as Hs. rewrite B in Hs. cbn [fst] in Hs.
  unfold fun_free_hessian, after_cache, cache_free_and_eval. pose proof (traced_history _ _ (Htrace (fst s) in0)) as Ht.
  pose proof B as B0. apply set_both_ok in B0 as [B1 B2]. cbn [set_par] in B1.
  assert (S1 : t_set_free (trace (fst s) in0) (fin_arg in0) = (fst s, Ok tt)).
  { apply (agree_ok' (t_set_free (fst st0) (fin_arg in0))); [|exact B1]. apply t_set_free_agree, history_sb. eapply history_trans; [apply (proj1 Hs)|exact Ht]. }
  rewrite S1. cbn [rbind]. destruct (cho_factor _) as [c|] eqn:Ec; cbn [rbind]; intros E; [|discriminate].
  assert (E1 : st1 = (fst s, snd s)) by (apply (f_equal fst) in E; cbn in E; symmetry; exact E). destruct s as [s1 s2]. cbn [fst snd] in *. subst st1.
  apply (f_equal snd) in E. cbn [snd] in E.
  assert (Eh : ag_hessian (fun t a => obj_f (t, s2) a) s1 in0 tt = h) by (apply (f_equal (fun r => match r with Ok (a, _) => a | Raise _ => h end)) in E; exact E).
  assert (Ech : c = ch) by (apply (f_equal (fun r => match r with Ok (_, b) => b | Raise _ => ch end)) in E; exact E). subst c.
  split; [reflexivity|]. split; [exact Hs|]. split; [rewrite <- Eh; exact Ec|]. subst h. cbn [ag_hessian rm_rows rm_cols rm_get]. split; [reflexivity|]. split; [reflexivity|]. intros i j Hi Hj.
  assert (FR : forall y, free_real (fun t a => obj_f (t, s2) a) s1 tt y = real2 obj_f st0 true hf tt y hy0).
  { intros y. unfold free_real, real2, fun_free, eval_fun, set_both. cbn [set_par]. rewrite B2. pose proof (t_set_free_agree _ _ (fin_arg y) (history_sb _ _ (proj1 Hs))) as [A1 A2]. cbn [fst snd] in A1, A2.
    destruct (t_set_free (fst st0) (fin_arg y)) as [p1 [[]|e1]], (t_set_free s1 (fin_arg y)) as [p2 [[]|e2]]; cbn [fst snd] in *; try discriminate; [|reflexivity]. rewrite A2 by reflexivity. reflexivity. }
  unfold ad_partial at 1 3. rewrite app_nth1 by exact Hi. apply Derive_ext. intros t. rewrite upd_app1 by exact Hi. rewrite joint_partial1 by (rewrite ?upd_length; auto). unfold ad_partial. apply Derive_ext. intros u. apply FR.
Qed.
End Base.

Lemma hessian_entries n p U F z H : open_in (n + p) U -> U z -> is_hessian n U F z H ->
  forall i j, (i < n)%nat -> (j < n)%nat -> rm_get H i j = ad_partial (ad_partial F j) i z.
Proof.
  intros O Uz [_ [_ [gF [D1 D2]]]] i j Hi Hj. symmetry. apply ad_partial_eq. apply (is_partial_loc (n + p) U (gF j)); [exact O|exact Uz| |apply D2; assumption].
  intros y Uy. symmetry. apply ad_partial_eq, D1; assumption.
Qed.
Lemma nonsingular_ext n H K : nonsingular n H -> rm_rows K = n -> rm_cols K = n -> (forall i j, (i < n)%nat -> (j < n)%nat -> rm_get K i j = rm_get H i j) -> nonsingular n K.
Proof.
  intros [_ [_ I]] A B E. split; [exact A|]. split; [exact B|]. intros x Lx Hx. apply I; [exact Lx|]. intros i Hi. transitivity (rsum n (fun j => rm_get K i j * nth j x 0)); [|exact (Hx i Hi)]. apply rsum_ext. intros j Hj. rewrite (E i j Hi Hj). reflexivity.
Qed.


Section Made.
Variable solve : rmat2 -> vec -> res vec.
Variable (Chol : Type) (cho_factor : rmat2 -> res Chol) (trace : tparam -> list R -> tparam).
Hypothesis Htrace : forall t y, traced t (trace t y).
Variable hf : bool.
Variables (f hyp_f : pair_state -> unit -> res R) (st0 : pair_state) (n p : nat) (U : list R -> Prop) (order : nat) (K : nat) (delta : R)
  (E : nat -> R -> list R) (hy0 deps : list R) (H : rmat2).
Hypothesis O : open_in (n + p) U.
Hypothesis HC : Ck 2 (n + p) U (joint f st0 true hf n).
Hypothesis HcE : curve_with_derivatives n K delta E.
Hypothesis HU : forall t, Rabs t < delta -> U (along E hy0 deps t).
Hypothesis Hdelta : 0 < delta.
Hypothesis HH : is_hessian n U (joint f st0 true hf n) (E 0%nat 0 ++ hy0) H.
Hypothesis Hns : nonsingular n H.
Variables (hess_arg : option rmat2) (st1 : pair_state) (ty : taylor).
Hypothesis Hinit : taylor_init solve f hyp_f Chol cho_factor trace true hf st0 (E 0%nat 0) hy0 (Z.of_nat order) hess_arg = (st1, Ok ty).

Lemma base_point : along E hy0 deps 0 = E 0%nat 0 ++ hy0.
Proof. unfold along. rewrite move_0. reflexivity. Qed.
Lemma base_in_U : U (E 0%nat 0 ++ hy0).
Proof. rewrite <- base_point. apply HU. rewrite Rabs_R0. exact Hdelta. Qed.
Lemma taylor_made : set_both st0 (fin_arg (E 0%nat 0)) (fin_arg hy0) true hf = (st1, Ok tt) /\ history2 st0 st1 /\
  ty_st ty = st1 /\ ty_in0 ty = E 0%nat 0 /\ ty_hy0 ty = hy0 /\ ty_order ty = Z.of_nat order /\ nonsingular n (ty_hess ty) /\
  forall c j, (c < n)%nat -> (j < n)%nat -> rm_get (ty_hess ty) c j = ad_partial (ad_partial (joint f st0 true hf n) c) j (along E hy0 deps 0).
Proof.
  destruct HcE as [LE _]. pose proof Hinit as Hi. unfold taylor_init in Hi. destruct (set_base_values f Chol cho_factor trace true hf st0 (E 0%nat 0) hy0 None) as [s [[h ch]|e]] eqn:B; [|discriminate].
  apply (set_base_ok f Chol cho_factor trace hf Htrace) in B. destruct B as [B1 [B2 [_ [B3 [B4 B5]]]]]. unfold set_order in Hi. destruct (build_order _ _ _ _ _ _) as [bo|] eqn:EB; cbn [rbind] in Hi; [|discriminate].
  assert (Es : s = st1) by (apply (f_equal fst) in Hi; cbn in Hi; exact Hi). apply (f_equal snd) in Hi. cbn [snd] in Hi.
  assert (Et : Taylor s (E 0%nat 0) hy0 h (Z.of_nat order) = ty) by (apply (f_equal (fun r => match r with Ok a => a | Raise _ => ty end)) in Hi; exact Hi). subst s ty. cbn [ty_st ty_in0 ty_hy0 ty_order ty_hess].
  rewrite LE in *. repeat (split; [first [assumption|reflexivity]|]).
  assert (EH : forall i j, (i < n)%nat -> (j < n)%nat -> rm_get h i j = rm_get H i j) by (intros i j Hi2 Hj; rewrite B5 by assumption; symmetry; apply (hessian_entries n p U _ _ _ O base_in_U HH); assumption).
  split; [apply (nonsingular_ext n H); assumption|]. intros c j Hc Hj. rewrite B5 by assumption. rewrite base_point.
  symmetry. apply (mixed_partials (n + p) U); [exact O|exact base_in_U|exact HC|lia|lia].
Qed.

End Made.

Section General.
Variable solve : rmat2 -> vec -> res vec.
Variable (Chol : Type) (cho_factor : rmat2 -> res Chol) (trace : tparam -> list R -> tparam) (trace2 : pair_state -> pair_state).
Hypothesis Hsolve : solves_systems solve.
Hypothesis Htrace : forall t y, traced t (trace t y).
Variable hf : bool.
Hypothesis Htrace2 : forall s, two_traced true hf s (trace2 s).

Variables (f h : pair_state -> unit -> res R) (st0 : pair_state) (n p : nat) (U : list R -> Prop) (order : nat) (delta : R)
  (E : nat -> R -> list R) (hy0 deps : list R) (H : rmat2).
Hypothesis O : open_in (n + p) U.
Hypothesis Hev : evaluates_on h st0 true hf n p U.
Hypothesis HCf : Ck 2 (n + p) U (joint f st0 true hf n).
Hypothesis HC : Ck (S order) (n + p) U (joint h st0 true hf n).
Hypothesis HcE : curve_with_derivatives n order delta E.
Hypothesis HU : forall t, Rabs t < delta -> U (along E hy0 deps t).
Hypothesis Leps : length hy0 = p.
Hypothesis Ldeps : length deps = p.
Hypothesis Hdelta : 0 < delta.
Hypothesis Hn : (0 < n)%nat.
Hypothesis Hp : (0 < p)%nat.
Hypothesis Hord : (0 < order)%nat.
Hypothesis Hstat : corrected_curve n U (joint h st0 true hf n) H delta E hy0 deps.
Hypothesis HH : is_hessian n U (joint f st0 true hf n) (E 0%nat 0 ++ hy0) H.
Hypothesis Hns : nonsingular n H.

Variables (hess_arg : option rmat2) (st1 : pair_state) (ty : taylor).
Hypothesis Hinit : taylor_init solve f h Chol cho_factor trace true hf st0 (E 0%nat 0) hy0 (Z.of_nat order) hess_arg = (st1, Ok ty).

Lemma made0_gen : set_both st0 (fin_arg (E 0%nat 0)) (fin_arg hy0) true hf = (st1, Ok tt) /\ history2 st0 st1 /\
  ty_st ty = st1 /\ ty_in0 ty = E 0%nat 0 /\ ty_hy0 ty = hy0 /\ ty_order ty = Z.of_nat order /\ nonsingular n (ty_hess ty) /\
  forall c j, (c < n)%nat -> (j < n)%nat -> rm_get (ty_hess ty) c j = ad_partial (ad_partial (joint f st0 true hf n) c) j (along E hy0 deps 0).
Proof.
  apply (taylor_made solve Chol cho_factor trace Htrace hf f h st0 n p U order order delta E hy0 deps H O) with (hess_arg := hess_arg); assumption.
Qed.
Lemma taylor_eval_gen st k tol : history2 st1 st -> (0 < k <= order)%nat -> tol_ok tol ->
  evaluate_dkinput_dhyperk solve h trace2 true hf (with_st ty st) deps (Z.of_nat k) tol = (ty, Ok (E k 0)).
Proof.
  intros Hst Hk Htol. destruct made0_gen as [T1 [T2 [T3 [T4 [T5 [T6 [T7 T8]]]]]]]. unfold evaluate_dkinput_dhyperk. unfold with_st at 1 2. cbn [ty_order]. rewrite T6.
  destruct (Z.leb_spec (Z.of_nat k) 0); [lia|]. destruct (Z.ltb_spec (Z.of_nat order) (Z.of_nat k)); [lia|]. unfold with_st. cbn [ty_st ty_in0 ty_hy0 ty_hess ty_order]. rewrite T4, T5, T6.
  assert (Hh0 : history2 st0 st) by (eapply history2_trans; eassumption).
  destruct (build_order_ok solve (objective_gradient h true hf st) (E 0%nat 0) hy0 (ty_hess ty) order Hord) as [terms [fs [EB _]]]. rewrite EB. cbn [rbind snd].
  assert (U0 := base_in_U U delta E hy0 deps HU Hdelta).
  destruct (solution_general solve Hsolve n p U (objective_gradient h true hf st) (fun c => ad_partial (joint h st0 true hf n) c) order delta E hy0 deps (ty_hess ty) O
    (gradient_two_arg h st0 st true hf n p U Hh0 Hev) (gradient_smooth order _ n p U O HC) HcE HU Leps Ldeps Hdelta Hn Hp) with (terms := terms) (fs := fs) (j := (k - 1)%nat) as [h' [Eh Hh]].
  - destruct Hstat as [gh [Hh [Dg [Hhe Hc0]]]]. intros t c Ht Hc. assert (HU0 := HU 0 ltac:(rewrite Rabs_R0; exact Hdelta)).
    rewrite (ad_partial_eq _ _ _ _ (Dg c _ Hc (HU t Ht))), (ad_partial_eq _ _ _ _ (Dg c _ Hc HU0)).
    etransitivity; [|exact (Hc0 t c Ht Hc)]. f_equal. apply rsum_ext. intros j Hj. f_equal. f_equal.
    + rewrite T8 by assumption. pose proof (hessian_entries n p U _ _ _ O U0 HH) as HE. rewrite HE by assumption. rewrite base_point. apply (mixed_partials (n + p) U); [exact O|exact U0|exact HCf|lia|lia].
    + rewrite (hessian_entries n p U _ _ _ O HU0 Hhe) by assumption. apply (mixed_partials (n + p) U); [exact O|exact HU0|apply (Ck_le 2 (S order)); [lia|exact HC]|lia|lia].
  - exact T7.
  - exact Hord.
  - exact EB.
  - lia.
  - replace (Z.of_nat k - 1)%Z with (Z.of_nat (k - 1)) by lia. rewrite py_index_nat, Eh. cbn [rbind]. rewrite (Hh tol Htol). replace (S (k - 1)) with k by lia.
    unfold to_base. rewrite (set_both_idem st0 _ _ _ _ _ T1 (trace2 st)) by (eapply history2_trans; [exact Hh0|apply two_traced_history with (f1 := true) (f2 := hf), Htrace2]).
    f_equal. rewrite <- T4, <- T5, <- T6, <- T3. destruct ty. reflexivity.
Qed.
Lemma taylor_eval_range_gen st k tol : (k <= 0 \/ Z.of_nat order < k)%Z -> evaluate_dkinput_dhyperk solve h trace2 true hf (with_st ty st) deps k tol = (with_st ty st, Raise ValueError).
Proof.
  intros Hk. destruct made0_gen as [_ [_ [_ [_ [_ [T6 _]]]]]]. unfold evaluate_dkinput_dhyperk. replace (ty_order (with_st ty st)) with (Z.of_nat order) by (symmetry; exact T6).
  destruct (Z.leb_spec k 0); [reflexivity|]. destruct (Z.ltb_spec (Z.of_nat order) k); [reflexivity|lia].
Qed.
Lemma taylor_sum_ok_gen m : forall k d, (1 < k)%nat -> (k + m <= S order)%nat -> length d = n ->
  exists r, taylor_sum solve h trace2 true hf ty deps m k d = (ty, Ok r) /\ length r = n /\
    forall c, (c < n)%nat -> nth c r 0 = nth c d 0 + rsum m (fun j => nth c (E (k + j)%nat 0) 0 / INR (fact (k + j))).
Proof.
  destruct HcE as [LE _]. destruct made0_gen as [_ [_ [T3 _]]].
  assert (Ws : with_st ty st1 = ty) by (rewrite <- T3; destruct ty; reflexivity).
  induction m as [|m IH]; intros k d Hk Hm Ld.
  - exists d. split; [reflexivity|]. split; [exact Ld|]. intros c Hc. cbn. ring.
  - cbn [taylor_sum]. pose proof (taylor_eval_gen st1 k default_tol (history2_refl st1) ltac:(lia)) as EV. rewrite Ws in EV. rewrite EV by (change (0 <= / 10 ^ 8); apply Rlt_le, Rinv_0_lt_compat, pow_lt; lra).
    assert (Lm : length (map (fun y => y / INR (fact k)) (E k 0)) = n) by (rewrite map_length; apply LE).
    destruct (IH (S k) (vadd d (map (fun y => y / INR (fact k)) (E k 0)))) as [r [Er [Lr Hr]]]; [lia|lia|rewrite vadd_length; clear -Lm Ld; lia|].
    exists r. split; [exact Er|]. split; [exact Lr|]. intros c Hc. rewrite Hr by exact Hc. rewrite vadd_nth by (clear -Lm Ld; lia).
    assert (Em : nth c (map (fun y => y / INR (fact k)) (E k 0)) 0 = nth c (E k 0) 0 / INR (fact k)) by (rewrite (nth_indep (map (fun y => y / INR (fact k)) (E k 0)) 0 (0 / INR (fact k))) by (clear -Lm Hc; lia); apply (map_nth (fun y => y / INR (fact k)))). rewrite Em.
    rewrite (rsum_S_l m (fun j => nth c (E (k + j)%nat 0) 0 / INR (fact (k + j)))). rewrite Nat.add_0_r. rewrite Rplus_assoc. f_equal. f_equal. apply rsum_ext. intros j _. rewrite Nat.add_succ_r. reflexivity.
Qed.
Lemma taylor_series_gen st max_order m tol (add_offset : bool) : history2 st1 st -> match max_order with None => m = order | Some z => z = Z.of_nat m end -> (0 < m <= order)%nat -> tol_ok tol ->
  exists r, evaluate_taylor_series solve h trace2 true hf (with_st ty st) deps add_offset max_order tol = (ty, Ok r) /\ length r = n /\
    forall c, (c < n)%nat -> nth c r 0 = (if add_offset then nth c (E 0%nat 0) 0 else 0) + rsum m (fun k => nth c (E (S k) 0) 0 / INR (fact (S k))).
Proof.
  intros Hst Hmo Hm Htol. destruct HcE as [LE _]. destruct made0_gen as [_ [_ [T3 [T4 [_ [T6 _]]]]]]. unfold evaluate_taylor_series. replace (ty_order (with_st ty st)) with (Z.of_nat order) by (symmetry; exact T6).
  assert (Em : match max_order with None => Z.of_nat order | Some z => z end = Z.of_nat m) by (destruct max_order; subst; reflexivity). 
  replace (match max_order with Some m0 => m0 | None => Z.of_nat order end) with (Z.of_nat m) by (rewrite <- Em; destruct max_order; reflexivity).
  destruct (Z.leb_spec (Z.of_nat m) 0); [lia|]. destruct (Z.ltb_spec (Z.of_nat order) (Z.of_nat m)); [lia|].
  pose proof (taylor_eval_gen st 1 tol Hst ltac:(lia) Htol) as EV. change (Z.of_nat 1) with 1%Z in EV. rewrite EV.
  replace (Z.to_nat (Z.of_nat m - 1)) with (m - 1)%nat by lia. destruct (taylor_sum_ok_gen (m - 1) 2 (E 1%nat 0)) as [d [Ed [Ld Hd]]]; [lia|lia|apply LE|]. rewrite Ed.
  assert (Q : forall c, (c < n)%nat -> nth c d 0 = rsum m (fun k => nth c (E (S k) 0) 0 / INR (fact (S k)))).
  { intros c Hc. rewrite Hd by exact Hc. replace m with (S (m - 1)) at 2 by lia. rewrite rsum_S_l. cbn [fact Nat.mul Nat.add INR]. rewrite Rdiv_1. f_equal. }
  eexists. split; [reflexivity|]. change (ty_in0 (with_st ty st)) with (ty_in0 ty). rewrite T4. destruct add_offset.
  - split; [rewrite vadd_length; [exact Ld|rewrite LE; exact Ld]|]. intros c Hc. rewrite vadd_nth by (rewrite LE; exact Ld). rewrite Q by exact Hc. ring.
  - split; [exact Ld|]. intros c Hc. rewrite Q by exact Hc. ring.
Qed.
Lemma taylor_series_range_gen st max_order tol (add_offset : bool) : (max_order <= 0 \/ Z.of_nat order < max_order)%Z ->
  evaluate_taylor_series solve h trace2 true hf (with_st ty st) deps add_offset (Some max_order) tol = (with_st ty st, Raise ValueError).
Proof.
  intros Hk. destruct made0_gen as [_ [_ [_ [_ [_ [T6 _]]]]]]. unfold evaluate_taylor_series. replace (ty_order (with_st ty st)) with (Z.of_nat order) by (symmetry; exact T6).
  destruct (Z.leb_spec max_order 0); [reflexivity|]. destruct (Z.ltb_spec (Z.of_nat order) max_order); [reflexivity|lia].
Qed.
End General.

Section Classes.
Variable solve : rmat2 -> vec -> res vec.
Variable (Chol : Type) (cho_factor : rmat2 -> res Chol) (trace : tparam -> list R -> tparam) (trace2 : pair_state -> pair_state).
Hypothesis Hsolve : solves_systems solve.
Hypothesis Htrace : forall t y, traced t (trace t y).
Variable hf : bool.
Hypothesis Htrace2 : forall s, two_traced true hf s (trace2 s).

Variables (f : pair_state -> unit -> res R) (st0 : pair_state) (n p : nat) (U : list R -> Prop) (order : nat) (delta : R)
  (E : nat -> R -> list R) (hy0 deps : list R) (H : rmat2).
Hypothesis O : open_in (n + p) U.
Hypothesis Hev : evaluates_on f st0 true hf n p U.
Hypothesis HC : Ck (S order) (n + p) U (joint f st0 true hf n).
Hypothesis HcE : curve_with_derivatives n order delta E.
Hypothesis HU : forall t, Rabs t < delta -> U (along E hy0 deps t).
Hypothesis Leps : length hy0 = p.
Hypothesis Ldeps : length deps = p.
Hypothesis Hdelta : 0 < delta.
Hypothesis Hn : (0 < n)%nat.
Hypothesis Hp : (0 < p)%nat.
Hypothesis Hord : (0 < order)%nat.
Hypothesis Hstat : optimum_curve n (joint f st0 true hf n) delta E hy0 deps.
Hypothesis HH : is_hessian n U (joint f st0 true hf n) (E 0%nat 0 ++ hy0) H.
Hypothesis Hns : nonsingular n H.

Variables (hess_arg : option rmat2) (st1 : pair_state) (ty : taylor).
Hypothesis Hinit : taylor_init solve f f Chol cho_factor trace true hf st0 (E 0%nat 0) hy0 (Z.of_nat order) hess_arg = (st1, Ok ty).

Lemma own_curve : corrected_curve n U (joint f st0 true hf n) H delta E hy0 deps.
Proof.
  exists (ad_partial (joint f st0 true hf n)), H. split; [|split].
  - intros j y Hj Uy. apply (Ck_partial order (n + p) U _ j O HC); [lia|exact Uy].
  - unfold along. rewrite move_0. exact HH.
  - intros t c Ht Hc. rewrite rsum_zero by (intros; ring). rewrite (ad_partial_eq _ _ _ _ (Hstat t c Ht Hc)). rewrite (ad_partial_eq _ _ _ _ (Hstat 0 c ltac:(rewrite Rabs_R0; exact Hdelta) Hc)). ring.
Qed.
Lemma Ck_two : Ck 2 (n + p) U (joint f st0 true hf n).
Proof. apply (Ck_le 2 (S order)); [lia|exact HC]. Qed.
Lemma taylor_eval st k tol : history2 st1 st -> (0 < k <= order)%nat -> tol_ok tol ->
  evaluate_dkinput_dhyperk solve f trace2 true hf (with_st ty st) deps (Z.of_nat k) tol = (ty, Ok (E k 0)).
Proof. apply (taylor_eval_gen solve Chol cho_factor trace) with (f := f) (n := n) (p := p) (U := U) (delta := delta) (E := E) (H := H) (order := order) (st1 := st1) (hess_arg := hess_arg) (st0 := st0) (hy0 := hy0); try assumption; first [exact Ck_two|exact own_curve]. Qed.
Lemma taylor_eval_range st k tol : (k <= 0 \/ Z.of_nat order < k)%Z -> evaluate_dkinput_dhyperk solve f trace2 true hf (with_st ty st) deps k tol = (with_st ty st, Raise ValueError).
Proof. apply (taylor_eval_range_gen solve Chol cho_factor trace) with (f := f) (n := n) (p := p) (U := U) (delta := delta) (E := E) (H := H) (order := order) (st1 := st1) (hess_arg := hess_arg) (st0 := st0) (hy0 := hy0); try assumption; first [exact Ck_two|exact own_curve]. Qed.
Lemma taylor_series st max_order m tol (add_offset : bool) : history2 st1 st -> match max_order with None => m = order | Some z => z = Z.of_nat m end -> (0 < m <= order)%nat -> tol_ok tol ->
  exists r, evaluate_taylor_series solve f trace2 true hf (with_st ty st) deps add_offset max_order tol = (ty, Ok r) /\ length r = n /\
    forall c, (c < n)%nat -> nth c r 0 = (if add_offset then nth c (E 0%nat 0) 0 else 0) + rsum m (fun k => nth c (E (S k) 0) 0 / INR (fact (S k))).
Proof. apply (taylor_series_gen solve Chol cho_factor trace) with (f := f) (n := n) (p := p) (U := U) (delta := delta) (E := E) (H := H) (order := order) (st1 := st1) (hess_arg := hess_arg) (st0 := st0) (hy0 := hy0); try assumption; first [exact Ck_two|exact own_curve]. Qed.
Lemma taylor_series_range st max_order tol (add_offset : bool) : (max_order <= 0 \/ Z.of_nat order < max_order)%Z ->
  evaluate_taylor_series solve f trace2 true hf (with_st ty st) deps add_offset (Some max_order) tol = (with_st ty st, Raise ValueError).
Proof. apply (taylor_series_range_gen solve Chol cho_factor trace) with (f := f) (n := n) (p := p) (U := U) (delta := delta) (E := E) (H := H) (order := order) (st1 := st1) (hess_arg := hess_arg) (st0 := st0) (hy0 := hy0); try assumption; first [exact Ck_two|exact own_curve]. Qed.
End Classes.
