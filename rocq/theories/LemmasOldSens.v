(** Quadratic objectives; the deprecated sensitivity class. *)
From Coq Require Import String Reals List Bool Arith ZArith Lia Lra Permutation.
From Coquelicot Require Import Coquelicot.
From Verif Require Import Res Num Nd RSum ModelAutograd ModelSparse ModelParameters ModelMatrix ModelSimplex ModelProjection ModelDict ModelObjective ModelSensitivity.
From Verif Require Import SpecParameters SpecDict SpecObjective LemmasParameters LemmasDict LemmasMatrix LemmasChain LemmasObjective LemmasPrecond LemmasTwoParam SpecSmooth SpecSensitivity LemmasSmooth LemmasDirDeriv LemmasTerms LemmasTermsNat LemmasSensCalc LemmasSens LemmasSensMain LemmasConsolidate LemmasSensClass LemmasLinear.
Import List ListNotations.
Open Scope R_scope.
Set Bullet Behavior "Strict Subproofs".

(** ---- quadratic objectives ---- *)
Lemma coord_derive (x : list R) k i : (k < length x)%nat -> is_derive (fun t => nth i (upd x k t) 0) (nth k x 0) (if Nat.eqb i k then 1 else 0).
Proof.
  intros Hk. destruct (Nat.eqb_spec i k) as [->|N].
  - apply (is_derive_ext (fun t => t)); [|apply @is_derive_id]. intros t. rewrite nth_upd, Nat.eqb_refl by exact Hk. reflexivity.
  - apply (is_derive_ext (fun _ => nth i x 0)); [|exact (is_derive_const (V := R_NormedModule) (nth i x 0) _)]. intros t. rewrite nth_upd by exact Hk. destruct (Nat.eqb_spec i k); [contradiction|reflexivity].
Qed.
Lemma quadratic_gradient n p F : quadratic n p F -> exists (Q B : nat -> nat -> R) (b : nat -> R), forall x e i, length x = n -> length e = p -> (i < n)%nat ->
  is_partial F i (x ++ e) (rsum n (fun j => Q i j * nth j x 0) + rsum p (fun l => B i l * nth l e 0) + b i).
Proof.
  intros [Q [B [b [r [Sy HF]]]]]. exists Q, B, b. intros x e k Lx Le Hk. unfold is_partial. rewrite app_nth1 by lia.
  apply (is_derive_ext (fun t => / 2 * rsum n (fun i => rsum n (fun j => Q i j * (nth i (upd x k t) 0 * nth j (upd x k t) 0))) + rsum n (fun i => rsum p (fun l => B i l * nth l e 0 * nth i (upd x k t) 0)) + rsum n (fun i => b i * nth i (upd x k t) 0) + r e)).
  - intros t. rewrite upd_app1 by lia. rewrite HF by (rewrite ?upd_length; assumption). f_equal. f_equal. f_equal.
    + f_equal. apply rsum_ext. intros i Hi. apply rsum_ext. intros j Hj. ring.
    + apply rsum_ext. intros i Hi. apply rsum_ext. intros j Hj. ring.
  - assert (CD : forall i, is_derive (fun t => nth i (upd x k t) 0) (nth k x 0) (if Nat.eqb i k then 1 else 0)) by (intros; apply coord_derive; lia).
    assert (D1 : is_derive (fun t => rsum n (fun i => rsum n (fun j => Q i j * (nth i (upd x k t) 0 * nth j (upd x k t) 0)))) (nth k x 0)
      (rsum n (fun i => rsum n (fun j => Q i j * ((if Nat.eqb i k then 1 else 0) * nth j x 0 + nth i x 0 * (if Nat.eqb j k then 1 else 0)))))).
    { apply is_derive_rsum. intros i Hi. apply is_derive_rsum. intros j Hj. apply (is_derive_scal (fun t => nth i (upd x k t) 0 * nth j (upd x k t) 0)).
      pose proof (is_derive_Rmult _ _ _ _ _ (CD i) (CD j)) as D. cbv beta in D. rewrite !upd_same in D. exact D. }
    assert (D2 : is_derive (fun t => rsum n (fun i => rsum p (fun l => B i l * nth l e 0 * nth i (upd x k t) 0))) (nth k x 0) (rsum n (fun i => rsum p (fun l => B i l * nth l e 0 * (if Nat.eqb i k then 1 else 0))))).
    { apply is_derive_rsum. intros i Hi. apply is_derive_rsum. intros j Hj. apply (is_derive_scal (fun t => nth i (upd x k t) 0)), CD. }
    assert (D3 : is_derive (fun t => rsum n (fun i => b i * nth i (upd x k t) 0)) (nth k x 0) (rsum n (fun i => b i * (if Nat.eqb i k then 1 else 0)))).
    { apply is_derive_rsum. intros i Hi. apply (is_derive_scal (fun t => nth i (upd x k t) 0)), CD. }
    pose proof (is_derive_plus _ _ _ _ _ (is_derive_plus _ _ _ _ _ (is_derive_plus _ _ _ _ _ (is_derive_scal _ _ (/ 2) _ D1) D2) D3) (is_derive_const (V := R_NormedModule) (r e) (nth k x 0))) as D.
    evar_last; [exact D|]. unfold plus, zero. cbn. rewrite Rplus_0_r.
    assert (E1 : rsum n (fun i => rsum n (fun j => Q i j * ((if Nat.eqb i k then 1 else 0) * nth j x 0 + nth i x 0 * (if Nat.eqb j k then 1 else 0)))) = 2 * rsum n (fun j => Q k j * nth j x 0)).
    { rewrite (rsum_ext n _ (fun i => rsum n (fun j => (if Nat.eqb i k then Q k j * nth j x 0 else 0)) + rsum n (fun j => if Nat.eqb j k then Q i j * nth i x 0 else 0))).
      - rewrite rsum_plus. rewrite (rsum_single n k (fun i => rsum n (fun j => if Nat.eqb i k then Q k j * nth j x 0 else 0))); [|exact Hk|].
        + rewrite Nat.eqb_refl. rewrite (rsum_ext n (fun i => rsum n (fun j => if Nat.eqb j k then Q i j * nth i x 0 else 0)) (fun j => Q k j * nth j x 0)); [ring|].
          intros i Hi. rewrite (rsum_delta n k (fun j => Q i j * nth i x 0)) by exact Hk. rewrite Sy. reflexivity.
        + intros i Hi Ni. apply rsum_zero. intros j Hj. destruct (Nat.eqb_spec i k); [contradiction|reflexivity].
      - intros i Hi. rewrite <- rsum_plus. apply rsum_ext. intros j Hj. destruct (Nat.eqb_spec i k) as [->|], (Nat.eqb_spec j k) as [->|]; ring. }
    assert (E2 : rsum n (fun i => rsum p (fun l => B i l * nth l e 0 * (if Nat.eqb i k then 1 else 0))) = rsum p (fun l => B k l * nth l e 0)).
    { rewrite (rsum_single n k); [|exact Hk|].
      - rewrite Nat.eqb_refl. apply rsum_ext. intros; ring.
      - intros i Hi Ni. apply rsum_zero. intros j Hj. destruct (Nat.eqb_spec i k); [contradiction|ring]. }
    assert (E3 : rsum n (fun i => b i * (if Nat.eqb i k then 1 else 0)) = b k).
    { rewrite (rsum_single n k); [rewrite Nat.eqb_refl; ring|exact Hk|]. intros i Hi Ni. destruct (Nat.eqb_spec i k); [contradiction|ring]. }
    rewrite E1, E2, E3. field.
Qed.
Lemma affine_second n p F (Q B : nat -> nat -> R) (b : nat -> R) : (forall x e i, length x = n -> length e = p -> (i < n)%nat -> is_partial F i (x ++ e) (rsum n (fun j => Q i j * nth j x 0) + rsum p (fun l => B i l * nth l e 0) + b i)) ->
  forall x e i, length x = n -> length e = p -> (i < n)%nat ->
  (forall j, (j < n)%nat -> ad_partial (ad_partial F i) j (x ++ e) = Q i j) /\ forall l, (l < p)%nat -> ad_partial (ad_partial F i) (n + l) (x ++ e) = B i l.
Proof.
  intros HG x e i Lx Le Hi. split.
  - intros j Hj. apply ad_partial_eq. unfold is_partial. rewrite app_nth1 by lia. apply (is_derive_ext (fun t => rsum n (fun k => Q i k * nth k (upd x j t) 0) + (rsum p (fun l => B i l * nth l e 0) + b i))).
    + intros t. rewrite upd_app1 by lia. symmetry. rewrite <- Rplus_assoc. apply ad_partial_eq, HG; rewrite ?upd_length; assumption.
    + replace (Q i j) with (rsum n (fun k => Q i k * (if Nat.eqb k j then 1 else 0)) + 0).
      * apply (is_derive_plus (fun t => rsum n (fun k => Q i k * nth k (upd x j t) 0)) (fun _ => rsum p (fun l => B i l * nth l e 0) + b i)); [|exact (is_derive_const (V := R_NormedModule) _ _)].
        apply is_derive_rsum. intros k Hk. apply (is_derive_scal (fun t => nth k (upd x j t) 0)), coord_derive. lia.
      * rewrite (rsum_single n j); [rewrite Nat.eqb_refl; ring|exact Hj|]. intros k Hk Nk. destruct (Nat.eqb_spec k j); [contradiction|ring].
  - intros l Hl. apply ad_partial_eq. unfold is_partial. rewrite app_nth2 by lia. replace (n + l - length x)%nat with l by lia.
    apply (is_derive_ext (fun t => rsum p (fun k => B i k * nth k (upd e l t) 0) + (rsum n (fun j => Q i j * nth j x 0) + b i))).
    + assert (Z : forall t : R, ad_partial F i (upd (x ++ e) (n + l) t) = rsum p (fun k => B i k * nth k (upd e l t) 0) + (rsum n (fun j => Q i j * nth j x 0) + b i)).
      { intros t. rewrite <- Lx. rewrite upd_app2. rewrite Lx. rewrite (ad_partial_eq _ _ _ _ (HG x (upd e l t) i Lx ltac:(rewrite upd_length; exact Le) Hi)). ring. }
      intros t. symmetry. apply Z.
    + replace (B i l) with (rsum p (fun k => B i k * (if Nat.eqb k l then 1 else 0)) + 0).
      * apply (is_derive_plus (fun t => rsum p (fun k => B i k * nth k (upd e l t) 0)) (fun _ => rsum n (fun j => Q i j * nth j x 0) + b i)); [|exact (is_derive_const (V := R_NormedModule) _ _)].
        apply is_derive_rsum. intros k Hk. apply (is_derive_scal (fun t => nth k (upd e l t) 0)), coord_derive. lia.
      * rewrite (rsum_single p l); [rewrite Nat.eqb_refl; ring|exact Hl|]. intros k Hk Nk. destruct (Nat.eqb_spec k l); [contradiction|ring].
Qed.
Lemma quadratic_exact n p F in0 hy0 sens : quadratic n p F -> length hy0 = p -> stationary n F in0 hy0 -> rm_rows sens = n -> rm_cols sens = p ->
  (forall i c, (i < n)%nat -> (c < p)%nat -> rsum n (fun j => ad_partial (ad_partial F i) j (in0 ++ hy0) * rm_get sens j c) + ad_partial (ad_partial F i) (n + c) (in0 ++ hy0) = 0) ->
  forall new_hyper, length new_hyper = p -> exists x, predict_input in0 hy0 sens new_hyper = Ok x /\ stationary n F x new_hyper.
Proof.
  intros HQ Lp [Ln St] R1 R2 HS e Le. destruct (quadratic_gradient n p F HQ) as [Q [B [b HG]]].
  unfold predict_input. rewrite Le, Lp, Nat.eqb_refl. cbn [negb]. rewrite mat_vec_ok by (rewrite map2_length; lia). cbn [rbind]. rewrite apply_mat_length, R1, Ln, Nat.eqb_refl. eexists. split; [reflexivity|].
  assert (Lx : length (vadd in0 (apply_mat sens (map2 Rminus e hy0))) = n) by (rewrite vadd_length by (rewrite apply_mat_length; lia); exact Ln). split; [exact Lx|]. intros i Hi.
  destruct (affine_second n p F Q B b HG in0 hy0 i Ln Lp Hi) as [A1 A2].
  evar_last; [apply (HG _ e i Lx Le Hi)|].
  pose proof (is_derive_unique _ _ _ (St i Hi)) as S0. pose proof (is_derive_unique _ _ _ (HG in0 hy0 i Ln Lp Hi)) as S1. rewrite S0 in S1. clear S0.
  rewrite (rsum_ext n _ (fun j => Q i j * nth j in0 0 + Q i j * rsum p (fun c => rm_get sens j c * (nth c e 0 - nth c hy0 0)))).
  2:{ intros j Hj. rewrite vadd_nth by (rewrite apply_mat_length; lia). rewrite apply_mat_get by (rewrite R1; exact Hj). rewrite R2. rewrite Rmult_plus_distr_l. f_equal. f_equal. apply rsum_ext. intros c Hc. f_equal. apply (nth_map2 Rminus); lia. }
  rewrite rsum_plus.
  assert (E : rsum n (fun j => Q i j * rsum p (fun c => rm_get sens j c * (nth c e 0 - nth c hy0 0))) = - rsum p (fun c => B i c * (nth c e 0 - nth c hy0 0))).
  { rewrite (rsum_ext n _ (fun j => rsum p (fun c => Q i j * rm_get sens j c * (nth c e 0 - nth c hy0 0)))) by (intros j Hj; rewrite <- rsum_scal_l; apply rsum_ext; intros; ring).
    rewrite rsum_swap. rewrite <- rsum_opp. apply rsum_ext. intros c Hc. rewrite rsum_scal_r. pose proof (HS i c Hi Hc) as Z. rewrite A2 in Z by exact Hc. rewrite (rsum_ext n _ (fun j => Q i j * rm_get sens j c)) in Z by (intros j Hj; rewrite A1 by exact Hj; reflexivity). nra. }
  rewrite E. rewrite (rsum_ext p (fun c => B i c * (nth c e 0 - nth c hy0 0)) (fun c => B i c * nth c e 0 - B i c * nth c hy0 0)) by (intros; ring). rewrite rsum_minus. lra.
Qed.

(** ---- the deprecated class ---- *)
Lemma numbers_fin x : numbers (fin_arg x) = x.
Proof. unfold numbers, fin_arg. cbn [ta_val num_arg nd_vec data]. rewrite map_map. etransitivity; [|apply map_id]. apply map_ext. reflexivity. Qed.
Lemma conv_eval_history conv st0 st x : history (fst st0) (fst st) -> snd st = snd st0 ->
  snd (converter_eval conv true false st (fin_arg x)) = snd (converter_eval conv true false st0 (fin_arg x)).
Proof.
  intros H E. unfold converter_eval. cbn [set_par]. rewrite E. destruct (t_set_free_agree _ _ (fin_arg x) (history_sb _ _ H)) as [A1 A2].
  destruct (t_set_free (fst st0) (fin_arg x)) as [p1 [[]|e1]], (t_set_free (fst st) (fin_arg x)) as [p2 [[]|e2]]; cbn [fst snd] in *; try discriminate.
  - rewrite A2 by reflexivity. reflexivity.
  - injection A1 as ->. reflexivity.
Qed.
Lemma conv_vec_history conv st0 st x : history (fst st0) (fst st) -> snd st = snd st0 -> conv_vec conv st x = conv_vec conv st0 x.
Proof. intros H E. unfold conv_vec. rewrite (conv_eval_history conv st0 st x H E). reflexivity. Qed.

Section Old.
Variables (obj_f hyp_f : pair_state -> unit -> res R) (conv : pair_state -> pair_state * res unit) (Chol : Type) (cho_factor : rmat2 -> res Chol) (cho_solve : Chol -> rmat2 -> res rmat2)
  (trace : tparam -> list R -> tparam) (trace_conv : pair_state -> pair_state) (trace_two : pair_state -> list R -> list R -> pair_state).
Hypothesis Hcho : cho_solves cho_factor cho_solve.
Hypothesis Htrace : forall t y, traced t (trace t y).
Hypothesis Hconv : forall s, history2 s (fst (conv s)).
Hypothesis Htrace_conv : forall s, conv_traced conv true false s (trace_conv s).
Hypothesis Htrace_two : forall s x y, two_traced true false s (trace_two s x y).
Variables (s : trio) (n p : nat) (U : list R -> Prop) (in0 hy0 : list R) (H : rmat2).
Local Notation st0 := (tr_in s, tr_hyp s).
Hypothesis O : open_in (n + p) U.
Hypothesis HC : Ck 2 (n + p) U (joint obj_f st0 true false n).
Hypothesis Hh : Ck 2 (n + p) U (joint hyp_f st0 true false n).
Hypothesis Hsplit : split_off n U (joint obj_f st0 true false n) (joint hyp_f st0 true false n).
Hypothesis Ln : length in0 = n.
Hypothesis Lp : length hy0 = p.
Hypothesis U0 : U (in0 ++ hy0).
Hypothesis HH : is_hessian n U (joint obj_f st0 true false n) (in0 ++ hy0) H.
Hypothesis Hns : nonsingular n H.
Hypothesis Hget : t_get_vector (tr_hyp s) = Ok (fin_arg hy0).
Hypothesis Hset : t_set_vector (tr_hyp s) (fin_arg hy0) = (tr_hyp s, Ok tt).
Variables (opt_in : option vec) (hess : option rmat2) (s' : trio) (o : old_sens).
Hypothesis Hopt : match opt_in with Some x => x = in0 | None => t_get_free (tr_in s) = Ok (fin_arg in0) end.
Hypothesis Hhess : match hess with None => True | Some h => rm_rows h = n /\ rm_cols h = n /\ forall i j, (i < n)%nat -> (j < n)%nat -> rm_get h i j = rm_get H i j end.
Hypothesis Hmade : old_init obj_f hyp_f conv Chol cho_factor cho_solve trace trace_conv trace_two s opt_in hess = (s', Ok o).

Lemma old_made : os_in o = in0 /\ os_hyp o = hy0 /\ rm_rows (os_sens o) = n /\ rm_cols (os_sens o) = p /\
  (forall i c, (i < n)%nat -> (c < p)%nat -> rsum n (fun j => ad_partial (ad_partial (joint obj_f st0 true false n) i) j (in0 ++ hy0) * rm_get (os_sens o) j c) +
    ad_partial (ad_partial (joint obj_f st0 true false n) i) (n + c) (in0 ++ hy0) = 0) /\
  rm_rows (os_dout_din o) = length (conv_vec conv (tr_in s, tr_out s) in0) /\ rm_cols (os_dout_din o) = n /\
  forall i j, (i < rm_rows (os_dout_din o))%nat -> (j < n)%nat -> rm_get (os_dout_din o) i j = ad_partial (fun y => nth i (conv_vec conv (tr_in s, tr_out s) y) 0) j in0.
Proof.
  pose proof Hmade as Hi. unfold old_init, set_optimal_input_par in Hi.
  assert (Ex : match opt_in with None => do v <- t_get_free (tr_in s); Ok (numbers v) | Some x => Ok x end = @Ok vec in0).
  { destruct opt_in; [rewrite Hopt; reflexivity|]. rewrite Hopt. cbn [rbind]. rewrite numbers_fin. reflexivity. }
  rewrite Ex in Hi. clear Ex.
  destruct (match hess with None => _ | Some h => _ end) as [p1 rh] eqn:EH in Hi.
  destruct rh as [h|e] eqn:Erh; cbn [rbind] in Hi; [|discriminate]. subst rh. destruct (cho_factor h) as [ch|e] eqn:Ec; cbn [rbind] in Hi; [|discriminate].
  assert (B : history (tr_in s) p1 /\ rm_rows h = n /\ rm_cols h = n /\ forall i j, (i < n)%nat -> (j < n)%nat -> rm_get h i j = rm_get H i j).
  { destruct hess as [h0|].
    - assert (E1 : tr_in s = p1) by (apply (f_equal fst) in EH; exact EH). apply (f_equal snd) in EH. cbn [snd] in EH. apply Ok_inj in EH. subst h0. split; [rewrite E1; constructor|exact Hhess].
    - unfold fun_free_hessian, after_cache, cache_free_and_eval in EH. pose proof (traced_history _ _ (Htrace (tr_in s) in0)) as Ht.
      destruct (t_set_free (trace (tr_in s) in0) (fin_arg in0)) as [q [[]|e]] eqn:Eq; [|discriminate].
      assert (E1 : q = p1) by (apply (f_equal fst) in EH; exact EH). apply (f_equal snd) in EH. cbn [snd] in EH. apply Ok_inj in EH. subst q.
      split; [eapply history_trans; [exact Ht|]; pose proof (op_set_free (trace (tr_in s) in0) (fin_arg in0)) as Q; rewrite Eq in Q; cbn [fst] in Q; eapply hist_more; [constructor|exact Q]|].
      subst h. cbn [ag_hessian rm_rows rm_cols rm_get]. split; [exact Ln|]. split; [exact Ln|]. intros i j Hi2 Hj. rewrite (hessian_entries n p U _ _ _ O U0 HH) by assumption.
      assert (FR : forall y, free_real (fun t a => obj_f (t, tr_hyp s) a) (tr_in s) tt y = real2 obj_f st0 true false tt y hy0).
      { intros y. unfold free_real, real2, fun_free, eval_fun, set_both. cbn [set_par fst snd]. rewrite Hset. destruct (t_set_free (tr_in s) (fin_arg y)) as [p2 [[]|e1]]; reflexivity. }
      unfold ad_partial at 1 3. rewrite app_nth1 by lia. apply Derive_ext. intros t. rewrite upd_app1 by lia. rewrite joint_partial1 by (rewrite ?upd_length; auto). unfold ad_partial. apply Derive_ext. intros u. apply FR. }
  clear EH. destruct B as [Hp1 [B4 [B5 B6]]].
  destruct (free_to_vec_jacobian conv trace_conv (p1, tr_out s) in0) as [[p2 o2] [dout|e]] eqn:EJ; [|discriminate]. rewrite Hget in Hi. rewrite numbers_fin in Hi.
  assert (J : history p1 p2 /\ rm_rows dout = length (conv_vec conv (tr_in s, tr_out s) in0) /\ rm_cols dout = n /\
     forall i j, (i < rm_rows dout)%nat -> (j < n)%nat -> rm_get dout i j = ad_partial (fun y => nth i (conv_vec conv (tr_in s, tr_out s) y) 0) j in0).
  { unfold free_to_vec_jacobian, converter_jacobian in EJ. cbn [snd fst] in EJ. destruct (t_get_vector (tr_out s)) as [vo|] eqn:Evo; [|discriminate].
    destruct (snd (converter_eval conv true false (p1, tr_out s) (fin_arg in0))) as [cv|e] eqn:Ecv; cbn [rbind] in EJ; [|discriminate].
    pose proof (conv_traced_history _ _ _ _ _ Hconv (Htrace_conv (p1, tr_out s))) as [T1 T2]. cbn [fst snd] in T1, T2.
    destruct (set_par (fst (trace_conv (p1, tr_out s))) (fin_arg in0) true) as [pin [[]|e]] eqn:E1; [|discriminate].
    destruct (t_set_vector (snd (trace_conv (p1, tr_out s))) vo) as [pout [[]|e]] eqn:E2; [|discriminate].
    assert (Q1 : pin = p2) by (apply (f_equal (fun z => fst (fst z))) in EJ; exact EJ). apply (f_equal snd) in EJ. cbn [snd] in EJ. apply Ok_inj in EJ. subst pin dout. cbn [rm_rows rm_cols rm_get]. split.
    - eapply history_trans; [exact T1|]. pose proof (set_par_operation (fst (trace_conv (p1, tr_out s))) (fin_arg in0) true) as Q. rewrite E1 in Q. cbn [fst] in Q. eapply hist_more; [constructor|exact Q].
    - split; [|split; [exact Ln|]].
      + rewrite <- (conv_vec_history conv (tr_in s, tr_out s) (p1, tr_out s) in0 Hp1 eq_refl). unfold conv_vec. rewrite Ecv. reflexivity.
      + intros i j _ Hj. unfold ad_partial. apply Derive_ext. intros t. rewrite (conv_vec_history conv (tr_in s, tr_out s) (p1, tr_out s) _ Hp1 eq_refl). reflexivity. }
  clear EJ. destruct J as [Hp2 [J1 [J2 J3]]].
  assert (B2 : history2 st0 (p2, tr_hyp s)) by (split; [cbn [fst]; eapply history_trans; eassumption|constructor]).
  destruct (two_method_real hyp_f trace_two HessianFree1Vector2 (p2, tr_hyp s) in0 hy0 tt) as [[p3 h3] [cross|e]] eqn:TM; [|discriminate].
  apply (f_equal snd) in Hi. cbn [snd] in Hi. destruct (t_get_vector o2) as [ov|]; cbn [rbind] in Hi; [|discriminate].
  destruct (cho_solve ch cross) as [X|] eqn:EX; cbn [rbind] in Hi; [|discriminate]. apply Ok_inj in Hi. rewrite <- Hi. cbn [os_in os_hyp os_sens os_dout_din mscale rm_rows rm_cols rm_get].
  pose proof (two_results _ _ _ _ _ _ _ _ _ TM) as Ecr. cbn [kind first_is_free second_is_free] in Ecr. rewrite (real2_fun hyp_f st0 (p2, tr_hyp s) true false tt B2) in Ecr.
  assert (NS : nonsingular n h) by (apply (nonsingular_ext n H); assumption).
  assert (Sy : symmetric n h).
  { intros i j Hi2 Hj. rewrite !B6 by assumption. rewrite !(hessian_entries n p U _ _ _ O U0 HH) by assumption. apply (mixed_partials (n + p) U); try assumption; lia. }
  assert (Rc : rm_rows cross = n) by (rewrite Ecr; cbn [ag_two rm_rows]; exact Ln). assert (Cc : rm_cols cross = p) by (rewrite Ecr; cbn [ag_two rm_cols]; exact Lp).
  destruct (Hcho n h ch cross Ec NS Sy Rc) as [X' [E1 [E2 [E3 E4]]]]. rewrite EX in E1. apply Ok_inj in E1. subst X'. rewrite Cc in *.
  split; [reflexivity|]. split; [reflexivity|]. split; [exact E2|]. split; [exact E3|]. split; [|split; [exact J1|split; [exact J2|exact J3]]].
  intros i c Hi2 Hc. rewrite (split_cross n p U _ _ i c (in0 ++ hy0) O HC Hh Hsplit Hi2 Hc U0). rewrite joint_partial12 by assumption.
  pose proof (E4 i c Hi2 Hc) as Q. rewrite Ecr in Q. cbn [ag_two rm_get] in Q. rewrite <- Q.
  rewrite (rsum_ext n _ (fun j => -1 * (rm_get h i j * rm_get X j c))).
  - rewrite rsum_scal_l. ring.
  - intros j Hj. rewrite B6 by assumption. rewrite (hessian_entries n p U _ _ _ O U0 HH) by assumption. rewrite (mixed_partials (n + p) U _ i j) by (try assumption; lia). ring.
Qed.
Lemma old_jacobian opt J : opt hy0 = in0 -> optimum_map n p (joint obj_f st0 true false n) hy0 opt -> is_jacobian n p opt hy0 J ->
  rm_rows (old_dinput_dhyper o) = n /\ rm_cols (old_dinput_dhyper o) = p /\ (forall i c, (i < n)%nat -> (c < p)%nat -> rm_get (old_dinput_dhyper o) i c = J i c) /\
  exists M, old_doutput_dhyper o = Ok M /\ rm_rows M = length (conv_vec conv (tr_in s, tr_out s) in0) /\ rm_cols M = p /\
    ((forall i, (i < rm_rows M)%nat -> exists g, differentiable_at n (fun y => nth i (conv_vec conv (tr_in s, tr_out s) y) 0) in0 g) ->
     is_jacobian (rm_rows M) p (fun e => conv_vec conv (tr_in s, tr_out s) (opt e)) hy0 (rm_get M)).
Proof.
  intros Eo Om HJ. destruct old_made as [A1 [A2 [A3 [A4 [A5 [A6 [A7 A8]]]]]]]. unfold old_dinput_dhyper, old_doutput_dhyper.
  assert (HS : forall i j, (i < n)%nat -> (j < n)%nat -> rm_get H i j = ad_partial (ad_partial (joint obj_f st0 true false n) i) j (in0 ++ hy0)).
  { intros i j Hi Hj. rewrite (hessian_entries n p U _ _ _ O U0 HH) by assumption. apply (mixed_partials (n + p) U); try assumption; lia. }
  assert (EJ : forall i c, (i < n)%nat -> (c < p)%nat -> rm_get (os_sens o) i c = J i c).
  { intros i c Hi Hc. apply (same_solution n H (fun k => rm_get (os_sens o) k c) (fun k => J k c) (fun i => ad_partial (ad_partial (joint obj_f st0 true false n) i) (n + c) (in0 ++ hy0)) Hns); [| |exact Hi].
    - intros a Ha. etransitivity; [|exact (A5 a c Ha Hc)]. f_equal. apply rsum_ext. intros k Hk. rewrite HS by assumption. reflexivity.
    - intros a Ha. pose proof (implicit_map n p U (joint obj_f st0 true false n) hy0 opt J a c O HC) as Q. rewrite Eo in Q. etransitivity; [|exact (Q U0 Lp Om HJ Ha Hc)]. f_equal. apply rsum_ext. intros k Hk. rewrite HS by assumption. reflexivity. }
  split; [exact A3|]. split; [exact A4|]. split; [exact EJ|]. unfold mat_mat. rewrite A7, A3, Nat.eqb_refl. cbn [negb]. eexists. split; [reflexivity|]. cbn [rm_rows rm_cols rm_get].
  split; [exact A6|]. split; [exact A4|]. intros Hd i l Hi Hl. destruct (Hd i Hi) as [g Hg].
  pose proof (chain_rule n opt (fun y => nth i (conv_vec conv (tr_in s, tr_out s) y) 0) l hy0 (fun k => J k l) g) as CR. rewrite Eo in CR. evar_last; [apply CR|].
  - intros y _. apply (proj1 Om).
  - intros k Hk. apply HJ; assumption.
  - exact Hg.
  - rewrite Lp. exact Hl.
  - apply rsum_ext. intros k Hk. rewrite EJ by assumption. f_equal. rewrite (A8 i k Hi Hk). symmetry. apply ad_partial_eq. apply (differentiable_partial n _ _ g); assumption.
Qed.
(** the output value remembered by the constructor is the one the output parameter already had *)
Lemma old_out out0 : t_get_vector (tr_out s) = Ok (fin_arg out0) -> t_set_vector (tr_out s) (fin_arg out0) = (tr_out s, Ok tt) -> os_out o = out0 /\ tr_out s' = tr_out s /\ history (tr_in s) (tr_in s').
Proof.
  clear Hhess Hopt. intros Go So. pose proof Hmade as Hi. unfold old_init, set_optimal_input_par in Hi.
  destruct (match opt_in with None => _ | Some x => _ end) as [x|e] in Hi; [|discriminate].
  destruct (match hess with None => _ | Some h => _ end) as [p1 rh] eqn:EH in Hi.
  destruct rh as [h|e] eqn:Erh; cbn [rbind] in Hi; [|discriminate]. subst rh. destruct (cho_factor h) as [ch|e] eqn:Ec; cbn [rbind] in Hi; [|discriminate].
  assert (Hp1 : history (tr_in s) p1).
  { destruct hess as [h0|].
    - apply (f_equal fst) in EH. cbn [fst] in EH. rewrite EH. constructor.
    - unfold fun_free_hessian, after_cache, cache_free_and_eval in EH. pose proof (traced_history _ _ (Htrace (tr_in s) x)) as Ht.
      destruct (t_set_free (trace (tr_in s) x) (fin_arg x)) as [q [[]|e]] eqn:Eq; [|discriminate]. apply (f_equal fst) in EH. cbn [fst] in EH. subst q.
      eapply history_trans; [exact Ht|]. pose proof (op_set_free (trace (tr_in s) x) (fin_arg x)) as Q. rewrite Eq in Q. cbn [fst] in Q. eapply hist_more; [constructor|exact Q]. }
  clear EH. destruct (free_to_vec_jacobian conv trace_conv (p1, tr_out s) x) as [[p2 o2] [dout|e]] eqn:EJ; [|discriminate].
  assert (J : history p1 p2 /\ o2 = tr_out s).
  { unfold free_to_vec_jacobian, converter_jacobian in EJ. cbn [snd fst] in EJ. rewrite Go in EJ.
    destruct (snd (converter_eval conv true false (p1, tr_out s) (fin_arg x))) as [cv|e] eqn:Ecv; cbn [rbind] in EJ; [|discriminate].
    pose proof (conv_traced_history _ _ _ _ _ Hconv (Htrace_conv (p1, tr_out s))) as [T1 T2]. cbn [fst snd] in T1, T2.
    destruct (set_par (fst (trace_conv (p1, tr_out s))) (fin_arg x) true) as [pin [[]|e]] eqn:E1; [|discriminate].
    destruct (t_set_vector_agree _ _ (fin_arg out0) (history_sb _ _ T2)) as [A1 A2]. rewrite So in A1, A2. cbn [fst snd] in A1, A2.
    destruct (t_set_vector (snd (trace_conv (p1, tr_out s))) (fin_arg out0)) as [pout [[]|e]] eqn:E2; [|discriminate].
    apply (f_equal fst) in EJ. cbn [fst] in EJ. injection EJ as -> ->. split.
    - eapply history_trans; [exact T1|]. pose proof (set_par_operation (fst (trace_conv (p1, tr_out s))) (fin_arg x) true) as Q. rewrite E1 in Q. cbn [fst] in Q. eapply hist_more; [constructor|exact Q].
    - specialize (A2 eq_refl). cbn [fst] in A2. congruence. }
  clear EJ. destruct J as [Hp2 ->]. rewrite Hget in Hi. rewrite numbers_fin in Hi.
  destruct (two_method_real hyp_f trace_two HessianFree1Vector2 (p2, tr_hyp s) x hy0 tt) as [[p3 h3] [cross|e]] eqn:TM; [|discriminate].
  rewrite Go in Hi. cbn [rbind] in Hi. rewrite numbers_fin in Hi. destruct (cho_solve ch cross) as [X|] eqn:EX; cbn [rbind] in Hi; [|discriminate].
  pose proof (f_equal fst Hi) as H1. pose proof (f_equal snd Hi) as H2. cbn [fst snd] in H1, H2. apply Ok_inj in H2. rewrite <- H1, <- H2. cbn [os_out tr_out tr_in]. split; [reflexivity|]. split; [reflexivity|].
  eapply history_trans; [exact Hp1|]. eapply history_trans; [exact Hp2|]. unfold two_method_real, two_call, method_spec, cache_and_eval in TM.
  pose proof (set_both_history (trace_two (p2, tr_hyp s) x hy0) (fin_arg x) (fin_arg hy0) true false) as Q. pose proof (two_traced_history _ _ _ _ (Htrace_two (p2, tr_hyp s) x hy0)) as Q0.
  destruct (set_both (trace_two (p2, tr_hyp s) x hy0) (fin_arg x) (fin_arg hy0) true false) as [s3 [[]|e]]; [|discriminate].
  apply (f_equal fst) in TM. cbn [fst] in TM, Q. subst s3. exact (proj1 (history2_trans _ _ _ Q0 Q)).
Qed.
Lemma old_output_linear opt J Jo out0 : opt hy0 = in0 -> optimum_map n p (joint obj_f st0 true false n) hy0 opt -> is_jacobian n p opt hy0 J ->
  (forall i, (i < length out0)%nat -> exists g, differentiable_at n (fun y => nth i (conv_vec conv (tr_in s, tr_out s) y) 0) in0 g) ->
  is_jacobian (length out0) p (fun e => conv_vec conv (tr_in s, tr_out s) (opt e)) hy0 Jo ->
  t_get_vector (tr_out s) = Ok (fin_arg out0) -> t_set_vector (tr_out s) (fin_arg out0) = (tr_out s, Ok tt) -> length (conv_vec conv (tr_in s, tr_out s) in0) = length out0 ->
  forall s2 new_hyper, length new_hyper = p -> exists r, old_predict_output conv s2 o new_hyper true = (s2, Ok r) /\ length r = length out0 /\
    forall i, (i < length out0)%nat -> nth i r 0 = nth i out0 0 + rsum p (fun c => Jo i c * (nth c new_hyper 0 - nth c hy0 0)).
Proof.
  intros Eo Om HJ Hd HJo Go So Lo s2 new Lnew. destruct (old_out out0 Go So) as [Eout _]. destruct old_made as [_ [Eh _]].
  destruct (old_jacobian opt J Eo Om HJ) as [_ [_ [_ [M [EM [RM [CM HM]]]]]]]. rewrite RM, Lo in HM. specialize (HM Hd).
  unfold old_predict_output. unfold old_doutput_dhyper in EM. rewrite EM, Eh, Eout, Lnew, Lp, Nat.eqb_refl. cbn [negb rbind].
  rewrite mat_vec_ok by (rewrite map2_length; lia). cbn [rbind]. rewrite apply_mat_length, RM, Lo, Nat.eqb_refl. eexists. split; [reflexivity|].
  assert (L1 : length out0 = length (apply_mat M (map2 Rminus new hy0))) by (rewrite apply_mat_length, RM, Lo; reflexivity). split; [apply vadd_length, L1|].
  intros i Hi. rewrite vadd_nth by exact L1. rewrite apply_mat_get by (rewrite RM, Lo; exact Hi). rewrite CM. f_equal. apply rsum_ext. intros c Hc. f_equal.
  - transitivity (ad_partial (fun e => nth i (conv_vec conv (tr_in s, tr_out s) (opt e)) 0) c hy0); [symmetry|]; apply ad_partial_eq; [apply HM|apply HJo]; assumption.
  - apply (nth_map2 Rminus); lia.
Qed.
Lemma old_output_nonlinear opt J : opt hy0 = in0 -> optimum_map n p (joint obj_f st0 true false n) hy0 opt -> is_jacobian n p opt hy0 J ->
  forall s2 new_hyper, history (tr_in s) (tr_in s2) -> tr_out s2 = tr_out s -> length new_hyper = p ->
  exists x, old_predict_input o new_hyper = Ok x /\ length x = n /\ (forall i, (i < n)%nat -> nth i x 0 = nth i in0 0 + rsum p (fun c => J i c * (nth c new_hyper 0 - nth c hy0 0))) /\
    match snd (converter_eval conv true false (tr_in s, tr_out s) (fin_arg x)) with
    | Ok _ => snd (old_predict_output conv s2 o new_hyper false) = Ok (conv_vec conv (tr_in s, tr_out s) x)
    | Raise e => snd (old_predict_output conv s2 o new_hyper false) = Raise e
    end.
Proof.
  intros Eo Om HJ s2 new Hh2 Eo2 Lnew. destruct old_made as [Ei [Eh [A3 [A4 _]]]]. destruct (old_jacobian opt J Eo Om HJ) as [_ [_ [EJ _]]]. unfold old_dinput_dhyper in EJ.
  unfold old_predict_output, old_predict_input, predict_input. rewrite Ei, Eh, Lnew, Lp, Nat.eqb_refl. cbn [negb]. rewrite mat_vec_ok by (rewrite map2_length; lia). cbn [rbind]. rewrite apply_mat_length, A3, Ln, Nat.eqb_refl.
  set (x := vadd in0 _). assert (L1 : length in0 = length (apply_mat (os_sens o) (map2 Rminus new hy0))) by (rewrite apply_mat_length, A3; exact Ln).
  exists x. split; [reflexivity|]. split; [unfold x; rewrite vadd_length by exact L1; exact Ln|]. split.
  - intros i Hi. unfold x. rewrite vadd_nth by exact L1. rewrite apply_mat_get by (rewrite A3; exact Hi). rewrite A4. f_equal. apply rsum_ext. intros c Hc. rewrite EJ by assumption. f_equal. apply (nth_map2 Rminus); lia.
  - pose proof (conv_eval_history conv (tr_in s, tr_out s) (tr_in s2, tr_out s2) x Hh2 Eo2) as Q. unfold conv_vec. rewrite <- Q.
    destruct (converter_eval conv true false (tr_in s2, tr_out s2) (fin_arg x)) as [[q1 q2] [v|e]]; reflexivity.
Qed.
Lemma old_quadratic : quadratic n p (joint obj_f st0 true false n) -> stationary n (joint obj_f st0 true false n) in0 hy0 ->
  forall new_hyper, length new_hyper = p -> exists x, old_predict_input o new_hyper = Ok x /\ stationary n (joint obj_f st0 true false n) x new_hyper.
Proof.
  intros HQ HS. destruct old_made as [A1 [A2 [A3 [A4 [A5 _]]]]]. unfold old_predict_input. rewrite A1, A2. apply (quadratic_exact n p); assumption.
Qed.
End Old.
Lemma linear_quadratic obj_f hyp_f Chol (cho_factor : rmat2 -> res Chol) cho_solve trace trace_two st0 n p U in0 hy0 H hess0 st2 l :
  cho_solves cho_factor cho_solve -> (forall t y, traced t (trace t y)) -> (forall s x y, two_traced true false s (trace_two s x y)) -> open_in (n + p) U ->
  Ck 2 (n + p) U (joint obj_f st0 true false n) -> Ck 2 (n + p) U (joint hyp_f st0 true false n) -> split_off n U (joint obj_f st0 true false n) (joint hyp_f st0 true false n) ->
  length hy0 = p -> U (in0 ++ hy0) -> is_hessian n U (joint obj_f st0 true false n) (in0 ++ hy0) H -> nonsingular n H ->
  (match hess0 with None => True | Some h => rm_rows h = n /\ rm_cols h = n /\ forall i j, (i < n)%nat -> (j < n)%nat -> rm_get h i j = rm_get H i j end) ->
  linear_set_base_values obj_f hyp_f Chol cho_factor trace true false cho_solve trace_two st0 in0 hy0 hess0 = (st2, Ok l) ->
  quadratic n p (joint obj_f st0 true false n) -> stationary n (joint obj_f st0 true false n) in0 hy0 ->
  forall new_hyper, length new_hyper = p -> exists x, linear_predict l new_hyper = Ok x /\ stationary n (joint obj_f st0 true false n) x new_hyper.
Proof.
  intros Hcho Ht Ht2 O HC Hh Hs Lp U0 HH Hns Hhess Hmade HQ HS.
  destruct (linear_made obj_f hyp_f Chol cho_factor cho_solve trace trace_two Hcho Ht Ht2 st0 n p U in0 hy0 H O HC Hh Hs (proj1 HS) Lp U0 HH Hns hess0 st2 l Hhess Hmade) as [A1 [A2 [A3 [A4 [A5 A6]]]]].
  unfold linear_predict. rewrite A2, A3. apply (quadratic_exact n p); assumption.
Qed.
