(** Proofs about the optimisation wrappers (C60). *)
From Coq Require Import Reals List Bool Arith ZArith Lia Lra.
From Coquelicot Require Import Coquelicot.
From Verif Require Import Res Num Nd RSum ModelAutograd ModelSparse ModelParameters ModelMatrix ModelSimplex ModelProjection ModelDict ModelObjective ModelOptimize.
From Verif Require Import SpecParameters SpecDict SpecObjective SpecOptimize SpecSensitivity LemmasParameters LemmasCalc LemmasMatrix LemmasDict LemmasObjective LemmasPrecond LemmasSmooth LemmasEigen LemmasOptimize LemmasDictCalc LemmasChain.
Import List ListNotations.
Open Scope R_scope.
Set Bullet Behavior "Strict Subproofs".

Lemma arg_values_fin x : arg_values (fin_arg x) = x.
Proof. unfold arg_values, fin_arg, num_arg. cbn [ta_val]. unfold nd_vec. cbn [data]. rewrite map_map. rewrite <- (map_id x) at 2. apply map_ext. reflexivity. Qed.
Lemma nth_map_seq n (h : nat -> R) k : (k < n)%nat -> nth k (map h (seq 0 n)) 0 = h k.
Proof. intros Hk. rewrite (nth_indep _ 0 (h 0%nat)) by (rewrite map_length, seq_length; exact Hk). rewrite map_nth, seq_nth by exact Hk. reflexivity. Qed.
Section Run.
Variable f : tparam -> unit -> res R.
Variable trace : tparam -> list R -> tparam.
Hypothesis Htr : forall t y, traced t (trace t y).
Variable diff_ok : list R -> list R -> bool.
Variable t0 : tparam.
Hypothesis Rp : reachable (erase t0).
Hypothesis Pop : populated (erase t0).
Variable n : nat.
Hypothesis Hn : n = t_free_size t0.
Variable G : list R -> nat -> R.
Variable H : list R -> nat -> nat -> R.
Hypothesis Smooth : forall y, length y = n -> twice_differentiable n (free_real f t0 tt) G (H y) y.
Hypothesis Total : forall y, length y = n -> exists v, snd (fun_free f t0 (fin_arg y) tt) = Ok v.
Hypothesis Diff : forall x y, length x = n -> length y = n -> diff_ok x y = true.
Variables cond disp hessp : bool.
Variable M : rmat2.
Variable pre : option rmat2.
Hypothesis Hpre : cond = true -> pre = Some M /\ square n M.

Definition point (x : list R) : list R := if cond then apply_mat M x else x.
Definition Fz (x : list R) : R := free_real f t0 tt (point x).
Definition Gz (x : list R) : list R := map (fun j => ad_partial Fz j x) (seq 0 n).
Definition HVz (x v : list R) : list R := map (fun i => rsum n (fun j => ad_partial (fun y => ad_partial Fz j y) i x * nth j v 0)) (seq 0 n).
Lemma point_length x : length x = n -> length (point x) = n.
Proof. intros L. unfold point. destruct cond; [|exact L]. rewrite apply_mat_length. apply Hpre. reflexivity. Qed.

Definition log_ok (l : logger R (list R)) : Prop := lg_every l <> 0%Z /\ forall y, lg_last_x l = Some y -> length y = n.
Definition inv (s : objective) : Prop := history t0 (ob_par s) /\ ob_pre s = pre /\ (disp = true -> log_ok (ob_log s)).
Lemma set_free_ok y : length y = n -> exists t1, t_set_free t0 (fin_arg y) = (t1, Ok tt) /\ t_get_free t1 = Ok (fin_arg y) /\ all_numeric t1 /\ history t0 t1.
Proof.
  intros L. rewrite Hn in L. destruct (t_set_free_finite t0 y Rp Pop L) as [t1 [E [Gt N]]]. exists t1. split; [exact E|]. split; [exact Gt|]. split; [exact N|].
  replace t1 with (fst (t_set_free t0 (fin_arg y))) by (rewrite E; reflexivity). eapply hist_more; constructor.
Qed.
Lemma free_value t y : history t0 t -> length y = n -> exists t1, t_get_free t1 = Ok (fin_arg y) /\ all_numeric t1 /\ history t0 t1 /\ fun_free f t (fin_arg y) tt = (t1, Ok (free_real f t0 tt y)).
Proof.
  intros Hh L. destruct (set_free_ok y L) as [t1 [E [Gt [N H1]]]]. exists t1. split; [exact Gt|]. split; [exact N|]. split; [exact H1|].
  destruct (fun_free_history f t0 t (fin_arg y) tt Hh) as [B1 [B2 _]]. rewrite (B2 t1 E). f_equal. rewrite (B2 t1 E) in B1. cbn [snd] in B1. rewrite B1. unfold free_real. destruct (Total y L) as [v ->]. reflexivity.
Qed.
(** what a function evaluation does *)
Definition logged (l l' : logger R (list R)) (pts : list (list R)) : Prop :=
  lg_every l' = lg_every l /\ lg_x_array l' = lg_x_array l ++ (if disp then map point pts else []) /\ lg_val_array l' = lg_val_array l ++ (if disp then map Fz pts else []) /\
  lg_iter l' = (lg_iter l + (if disp then length pts else 0))%nat.
Lemma logged_nil l : logged l l [].
Proof. unfold logged. destruct disp; cbn; rewrite !app_nil_r, Nat.add_0_r; splits; reflexivity. Qed.
Lemma logged_trans l1 l2 l3 a b : logged l1 l2 a -> logged l2 l3 b -> logged l1 l3 (a ++ b).
Proof.
  unfold logged. intros [A1 [A2 [A3 A4]]] [B1 [B2 [B3 B4]]]. rewrite B1, B2, B3, B4, A1, A2, A3, A4. destruct disp; rewrite ?app_nil_r, ?map_app, ?app_length, <- ?app_assoc; splits; try reflexivity; lia.
Qed.
Lemma ask_fun_free_ok s y x : inv s -> length y = n -> y = point x -> exists s', ask_fun_free f diff_ok disp s y = (s', Ok (free_real f t0 tt y)) /\ inv s' /\
  ob_preconditioning s' = ob_preconditioning s /\ t_get_free (ob_par s') = Ok (fin_arg y) /\ all_numeric (ob_par s') /\ logged (ob_log s) (ob_log s') [x].
Proof.
  intros [Hh [Hp Hl]] Ly Ey. destruct (free_value (ob_par s) y Hh Ly) as [t1 [Gt [N [H1 E]]]]. unfold ask_fun_free. destruct disp eqn:Dd.
  - unfold fun_free_verbose. rewrite E. specialize (Hl eq_refl). destruct Hl as [L1 L2]. rewrite arg_values_fin. unfold logger_log.
    replace (match lg_last_x (ob_log s) with None => true | Some z => diff_ok y z end) with true by (destruct (lg_last_x (ob_log s)) as [z|]; [symmetry; apply Diff; [exact Ly|apply L2; reflexivity]|reflexivity]).
    cbn [negb]. rewrite (proj2 (Z.eqb_neq _ _) L1). eexists. split; [reflexivity|]. unfold inv, logged. cbn [ob_par ob_pre ob_log ob_preconditioning lg_every lg_last_x lg_x_array lg_val_array lg_iter]. rewrite Dd.
    split; [split; [exact H1|split; [exact Hp|intros _; split; [exact L1|intros z Ez; injection Ez as <-; exact Ly]]]|].
    split; [reflexivity|]. split; [exact Gt|]. split; [exact N|]. split; [reflexivity|]. cbn [map length]. unfold Fz. rewrite Ey. split; [reflexivity|]. split; [reflexivity|]. lia.
  - unfold on_par. rewrite E. cbn [fst snd]. eexists. split; [reflexivity|]. unfold inv, logged. cbn [with_par ob_par ob_pre ob_log ob_preconditioning]. rewrite Dd. rewrite !app_nil_r, Nat.add_0_r. split; [split; [exact H1|split; [exact Hp|discriminate]]|]. split; [reflexivity|]. split; [exact Gt|]. split; [exact N|]. splits; reflexivity.
Qed.
Lemma ask_value s x : inv s -> length x = n -> exists s', (if cond then ask_fun_free_cond f diff_ok disp s x else ask_fun_free f diff_ok disp s x) = (s', Ok (Fz x)) /\ inv s' /\
  ob_preconditioning s' = ob_preconditioning s /\ t_get_free (ob_par s') = Ok (fin_arg (point x)) /\ all_numeric (ob_par s') /\ logged (ob_log s) (ob_log s') [x].
Proof.
  intros I L. pose proof (point_length x L) as Lp. destruct (ask_fun_free_ok s (point x) x I Lp eq_refl) as [s' [E R0]]. exists s'. split; [|exact R0]. transitivity (ask_fun_free f diff_ok disp s (point x)); [|exact E]. destruct cond eqn:C; [|unfold point; rewrite C; reflexivity].
  destruct (Hpre eq_refl) as [P1 [P2 P3]]. destruct I as [_ [I2 _]]. unfold ask_fun_free_cond. rewrite I2, P1. rewrite mat_vec_ok by lia. unfold point. rewrite C. reflexivity.
Qed.
(** derivatives of the function the optimiser sees *)
Lemma Fz_derivatives x : length x = n -> (forall i, (i < n)%nat -> is_partial Fz i x (nth i (Gz x) 0)) /\
  exists K, (forall i j, (i < n)%nat -> (j < n)%nat -> is_partial2 Fz i j x (K i j)) /\ forall v, length v = n -> forall i, (i < n)%nat -> nth i (HVz x v) 0 = rsum n (fun j => K i j * nth j v 0).
Proof.
  intros L.
  assert (D : exists g K, (forall i y, (i < n)%nat -> length y = n -> is_partial Fz i y (g y i)) /\ forall i j, (i < n)%nat -> (j < n)%nat -> is_partial (fun y => g y j) i x (K i j)).
  { unfold Fz, point. destruct cond eqn:C.
    - destruct (Hpre eq_refl) as [_ [R1 C1]]. exists (fun y j => rsum n (fun k => G (apply_mat M y) k * rm_get M k j)), (fun i j => rsum n (fun l => rsum n (fun k => H (apply_mat M x) k l * rm_get M k i) * rm_get M l j)).
      assert (Lm : forall y, length (apply_mat M y) = n) by (intros; rewrite apply_mat_length; exact R1). split.
      + intros j y Hj Ly. apply (chain_rule n (apply_mat M) (free_real f t0 tt) j y (fun k => rm_get M k j) (G (apply_mat M y))); [intros; apply Lm| |destruct (Smooth (apply_mat M y) (Lm y)) as [S1 _]; apply S1, Lm|lia].
        intros k Hk. apply apply_mat_partial; lia.
      + intros i j Hi Hj. apply (is_partial_rsum n (fun l z => G (apply_mat M z) l * rm_get M l j) (fun l => rsum n (fun k => H (apply_mat M x) k l * rm_get M k i) * rm_get M l j)). intros l Hl.
        apply (is_partial_scal (fun z => G (apply_mat M z) l)).
        apply (chain_rule n (apply_mat M) (fun z => G z l) i x (fun k => rm_get M k i) (fun k => H (apply_mat M x) k l)); [intros; apply Lm| |destruct (Smooth (apply_mat M x) (Lm x)) as [_ S2]; apply S2, Hl|lia].
        intros k Hk. apply apply_mat_partial; lia.
    - exists G, (H x). split.
      + intros j y Hj Ly. apply (differentiable_partial n); [exact Ly|exact Hj|]. destruct (Smooth y Ly) as [S1 _]. apply S1, Ly.
      + intros i j Hi Hj. apply (differentiable_partial n _ x (fun b => H x b j)); [exact L|exact Hi|]. destruct (Smooth x L) as [_ S2]. apply S2, Hj. }
  destruct D as [g [K [D1 D2]]].
  assert (A1 : forall i y, (i < n)%nat -> length y = n -> ad_partial Fz i y = g y i) by (intros; apply ad_partial_eq, D1; assumption).
  assert (A2 : forall i j, (i < n)%nat -> (j < n)%nat -> ad_partial (fun y => ad_partial Fz j y) i x = K i j).
  { intros i j Hi Hj. apply ad_partial_eq. eapply is_partial_ext; [|apply (D2 i j Hi Hj)]. intros y Ly. symmetry. apply A1; [exact Hj|lia]. }
  split.
  - intros i Hi. unfold Gz. rewrite nth_map_seq by exact Hi. rewrite A1 by assumption. apply D1; assumption.
  - exists K. split.
    + intros i j Hi Hj. exists (fun y => g y j). split; [intros y Ly; apply D1; [exact Hj|lia]|apply D2; assumption].
    + intros v Lv i Hi. unfold HVz. rewrite nth_map_seq by exact Hi. apply rsum_ext. intros j Hj. rewrite A2 by assumption. reflexivity.
Qed.
Lemma list_eq_map x (h : nat -> R) : length x = n -> (forall i, (i < n)%nat -> nth i x 0 = h i) -> x = map h (seq 0 n).
Proof. intros L E. apply list_eq_nth; [rewrite map_length, seq_length; exact L|]. rewrite L. intros i Hi. rewrite nth_map_seq by exact Hi. apply E, Hi. Qed.
Lemma is_partial2_unique F i j x a : (forall y, length y = length x -> forall k, (k < length x)%nat -> is_partial F k y (ad_partial F k y)) -> (j < length x)%nat -> is_partial2 F i j x a -> ad_partial (fun y => ad_partial F j y) i x = a.
Proof.
  intros D Hj [g [A B]]. apply ad_partial_eq. eapply is_partial_ext; [|exact B]. intros y Ly. symmetry. apply ad_partial_eq, A, Ly.
Qed.
Lemma ask_derivs s x : inv s -> length x = n -> exists t1, t_get_free t1 = Ok (fin_arg (point x)) /\ all_numeric t1 /\ history t0 t1 /\
  ask_grad f trace cond s x = (with_par s t1, Ok (Gz x)) /\ forall p, length p = n -> ask_hvp f trace cond s x p = (with_par s t1, Ok (HVz x p)).
Proof.
  intros [Hh [Hp Hl]] L. pose proof (point_length x L) as Lp. destruct (set_free_ok (point x) Lp) as [t1 [E [Gt [N H1]]]].
  exists t1. split; [exact Gt|]. split; [exact N|]. split; [exact H1|]. destruct (Fz_derivatives x L) as [F1 [K [F2 F3]]].
  assert (Gq : forall g, length g = n -> (forall i, (i < n)%nat -> is_partial Fz i x (nth i g 0)) -> g = Gz x).
  { intros g Lg Hg. apply list_eq_nth; [unfold Gz; rewrite map_length, seq_length; exact Lg|]. rewrite Lg. intros i Hi. unfold Gz. rewrite nth_map_seq by exact Hi. symmetry. apply ad_partial_eq, Hg, Hi. }
  assert (Hq : forall p w, length p = n -> length w = n -> (exists K', (forall i j, (i < n)%nat -> (j < n)%nat -> is_partial2 Fz i j x (K' i j)) /\ forall i, (i < n)%nat -> nth i w 0 = rsum n (fun j => K' i j * nth j p 0)) -> w = HVz x p).
  { intros p w Lpp Lw [K' [Hw1 Hw2]]. apply list_eq_nth; [unfold HVz; rewrite map_length, seq_length; exact Lw|]. rewrite Lw. intros i Hi. rewrite Hw2 by exact Hi. unfold HVz. rewrite nth_map_seq by exact Hi. apply rsum_ext. intros j Hj. f_equal. symmetry.
    destruct (Hw1 i j Hi Hj) as [g [A B]]. apply ad_partial_eq. eapply is_partial_ext; [|exact B]. intros y Ly. symmetry. apply ad_partial_eq, A, Ly. }
  unfold ask_grad, ask_hvp, on_par. destruct cond eqn:C.
  - destruct (Hpre eq_refl) as [P1 [P2 P3]]. rewrite Hp, P1. assert (Pt : forall z, point z = apply_mat M z) by (intros; unfold point; rewrite C; reflexivity).
    assert (Dv : forall p, length p = n -> fun_free_grad_cond f trace (Some M) (ob_par s) x tt = (t1, Ok (Gz x)) /\ fun_free_hvp_cond f trace (Some M) (ob_par s) x tt p = (t1, Ok (HVz x p))).
    { intros p Lpp. destruct (precond_derivatives f trace Htr M t0 (ob_par s) x tt p G (H (apply_mat M x)) Hh Rp Pop) as [t2 [g [K2 [w [T1 [T2 [T3 [_ [T5 [T6 [T7 [T8 [T9 T10]]]]]]]]]]]]]; [lia|lia|lia|rewrite <- Hn; apply Smooth; rewrite apply_mat_length; exact P2|].
      cbv zeta in T10. rewrite P3 in *. assert (Ef : forall z, Fz z = free_real f t0 tt (apply_mat M z)) by (intros; unfold Fz; rewrite Pt; reflexivity).
      assert (g = Gz x). { apply Gq; [exact T6|]. intros i Hi. destruct (T10 i Hi) as [U _]. eapply is_partial_ext; [|exact U]. intros; symmetry; apply Ef. }
      assert (w = HVz x p). { apply Hq; [exact Lpp|exact T9|]. exists (rm_get K2). split; [|intros i Hi; destruct (T10 i Hi) as [_ [_ U]]; exact U]. intros i j Hi Hj. destruct (T10 i Hi) as [_ [U _]]. destruct (U j Hj) as [q [V1 V2]]. exists q. split; [|exact V2]. intros y Ly. eapply is_partial_ext; [|apply V1, Ly]. intros; symmetry; apply Ef. }
      subst g w. assert (t2 = t1); [|subst; split; assumption].
      unfold fun_free_grad_cond, need in T3. rewrite mat_vec_ok in T3 by lia. unfold lift_res, fun_free_grad in T3. rewrite <- Pt in T3. rewrite (after_cache_ok trace Htr t0 (ob_par s) (point x) tt _ t1 Hh E) in T3. apply (f_equal fst) in T3. cbn [fst] in T3. symmetry. exact T3. }
    split; [destruct (Dv x L) as [-> _]; reflexivity|]. intros p Lpp. destruct (Dv p Lpp) as [_ ->]. reflexivity.
  - assert (Pt : point x = x) by (unfold point; rewrite C; reflexivity). rewrite Pt in *. rewrite Hn in L. pose proof (Smooth x ltac:(lia)) as Sm. rewrite Hn in Sm. destruct (plain_derivatives f t0 (ob_par s) x G (H x) Hh L Sm) as [Q1 [Q2 [Q3 [Q4 Q5]]]]. rewrite <- Hn in *.
    assert (Ef : forall z, Fz z = free_real f t0 tt z) by (intros; unfold Fz, point; rewrite C; reflexivity).
    destruct Sm as [Sm1 Sm2].
    split.
    + unfold fun_free_grad. rewrite (after_cache_ok trace Htr t0 (ob_par s) x tt _ t1 Hh E). cbn [fst snd]. rewrite <- (Gq (ag_grad f (ob_par s) x tt)); [reflexivity|exact Q1|]. intros i Hi. rewrite Q2 by exact Hi. eapply is_partial_ext; [|apply (differentiable_partial n _ x (G x)); [exact L|exact Hi|apply Sm1, L]]. intros; symmetry; apply Ef.
    + intros p Lpp. unfold fun_free_hvp. rewrite Lpp, L, Nat.eqb_refl. rewrite (after_cache_ok trace Htr t0 (ob_par s) x tt _ t1 Hh E). cbn [fst snd]. destruct (Q5 p Lpp) as [Q6 Q7]. rewrite <- (Hq p (ag_hvp f (ob_par s) x tt p)); [reflexivity|exact Lpp|exact Q6|]. exists (H x). split; [|exact Q7].
      intros i j Hi Hj. exists (fun y => G y j). split.
      * intros y Ly. eapply is_partial_ext; [|apply (differentiable_partial n _ y (G y)); [lia|exact Hj|apply Sm1; lia]]. intros; symmetry; apply Ef.
      * apply (differentiable_partial n _ x (fun b => H x b j)); [exact L|exact Hi|apply Sm2, Hj].
Qed.
Lemma run_ok {Info} (st : strategy Info) : forall s, inv s -> sized n hessp st ->
  let '(q, out) := play Fz Gz HVz st in
  exists s', run f trace diff_ok disp cond hessp st s = (s', Ok out) /\ inv s' /\ ob_preconditioning s' = ob_preconditioning s /\ logged (ob_log s) (ob_log s') (value_points q) /\
    length (fst out) = n /\ (q = [] -> ob_par s' = ob_par s) /\
    (forall q' k x, q = q' ++ [(k, x)] -> t_get_free (ob_par s') = Ok (fin_arg (point x)) /\ all_numeric (ob_par s')).
Proof.
  assert (Tail : forall (s1 s' : objective) k x (q q' : list (kind * list R)) k' x', t_get_free (ob_par s1) = Ok (fin_arg (point x)) -> all_numeric (ob_par s1) ->
     (q = [] -> ob_par s' = ob_par s1) -> (forall q' k x, q = q' ++ [(k, x)] -> t_get_free (ob_par s') = Ok (fin_arg (point x)) /\ all_numeric (ob_par s')) ->
     (k, x) :: q = q' ++ [(k', x')] -> t_get_free (ob_par s') = Ok (fin_arg (point x')) /\ all_numeric (ob_par s')).
  { intros s1 s' k x q q' k' x' G1 N1 B1 B2 Eq. destruct q' as [|e q'].
    - cbn in Eq. injection Eq as -> -> Eq. rewrite (B1 Eq). split; assumption.
    - cbn in Eq. injection Eq as _ Eq. exact (B2 q' k' x' Eq). }
  induction st as [x info|x k IH|x k IH|x p k IH]; intros s I Sz; cbn [play].
  - exists s. cbn [run]. split; [reflexivity|]. split; [exact I|]. split; [reflexivity|]. split; [apply logged_nil|]. split; [exact Sz|]. split; [reflexivity|]. intros q' k y Eq. destruct q'; discriminate.
  - cbn [sized] in Sz. destruct Sz as [L Sz]. destruct (ask_value s x I L) as [s1 [E1 [I1 [P1 [G1 [N1 L1]]]]]]. specialize (IH (Fz x) s1 I1 (Sz (Fz x))). destruct (play Fz Gz HVz (k (Fz x))) as [q out]. destruct IH as [s' [E2 [I2 [P2 [L2 [Lo [B1 B2]]]]]]].
    cbn [fst snd]. exists s'. cbn [run]. rewrite E1, E2. split; [reflexivity|]. split; [exact I2|]. split; [congruence|]. split; [exact (logged_trans _ _ _ [x] _ L1 L2)|]. split; [exact Lo|]. split; [discriminate|].
    intros q' kk y Eq. exact (Tail s1 s' _ _ _ _ _ _ G1 N1 B1 B2 Eq).
  - cbn [sized] in Sz. destruct Sz as [L Sz]. destruct (ask_derivs s x I L) as [t1 [G1 [N1 [H1 [E1 _]]]]]. assert (I1 : inv (with_par s t1)) by (destruct I as [_ [I2 I3]]; split; [exact H1|split; assumption]).
    specialize (IH (Gz x) (with_par s t1) I1 (Sz (Gz x))). destruct (play Fz Gz HVz (k (Gz x))) as [q out]. destruct IH as [s' [E2 [I2 [P2 [L2 [Lo [B1 B2]]]]]]].
    cbn [fst snd]. exists s'. cbn [run]. rewrite E1, E2. split; [reflexivity|]. split; [exact I2|]. split; [exact P2|]. split; [exact L2|]. split; [exact Lo|]. split; [discriminate|].
    intros q' kk y Eq. exact (Tail (with_par s t1) s' _ _ _ _ _ _ G1 N1 B1 B2 Eq).
  - cbn [sized] in Sz. destruct Sz as [Hs [L [Lpp Sz]]]. destruct (ask_derivs s x I L) as [t1 [G1 [N1 [H1 [_ E1]]]]]. specialize (E1 p Lpp). assert (I1 : inv (with_par s t1)) by (destruct I as [_ [I2 I3]]; split; [exact H1|split; assumption]).
    specialize (IH (HVz x p) (with_par s t1) I1 (Sz (HVz x p))). destruct (play Fz Gz HVz (k (HVz x p))) as [q out]. destruct IH as [s' [E2 [I2 [P2 [L2 [Lo [B1 B2]]]]]]].
    cbn [fst snd]. exists s'. cbn [run]. rewrite Hs in *. rewrite E1, E2. split; [reflexivity|]. split; [exact I2|]. split; [exact P2|]. split; [exact L2|]. split; [exact Lo|]. split; [discriminate|].
    intros q' kk y Eq. exact (Tail (with_par s t1) s' _ _ _ _ _ _ G1 N1 B1 B2 Eq).
Qed.
End Run.
Lemma nonsingular_square n M : nonsingular n M -> square n M.
Proof. intros [A [B _]]. split; assumption. Qed.
Lemma minimize_ok {Info} f trace solve diff_ok t0 G H hessp (optimizer : list R -> strategy Info) s init_x precondition disp print_every init_logger M :
  (forall t y, traced t (trace t y)) -> reachable (erase t0) -> populated (erase t0) -> history t0 (ob_par s) -> let n := t_free_size t0 in
  (forall y, length y = n -> twice_differentiable n (free_real f t0 tt) G (H y) y) ->
  (forall y, length y = n -> exists v, snd (fun_free f t0 (fin_arg y) tt) = Ok v) ->
  (forall x y, length x = n -> length y = n -> diff_ok x y = true) ->
  (disp = true -> match print_every with Some k => k | None => lg_every (ob_log s) end <> 0%Z /\ (init_logger = false -> forall y, lg_last_x (ob_log s) = Some y -> length y = n)) ->
  (precondition = true -> ob_pre s = Some M /\ nonsingular n M /\ solves_systems solve) ->
  length init_x = n -> (forall x0, length x0 = n -> sized n hessp (optimizer x0)) ->
  let point := fun z => if precondition then apply_mat M z else z in let F := fun z => free_real f t0 tt (point z) in
  exists x0 Gr HV q x info s', length x0 = n /\ point x0 = init_x /\ gradient_of n F Gr /\ hvp_of n F HV /\ play F Gr HV (optimizer x0) = (q, (x, info)) /\
    minimize_objective f trace solve diff_ok hessp optimizer s init_x precondition disp print_every init_logger = (s', Ok (point x, (x, info))) /\
    history t0 (ob_par s') /\ ob_preconditioning s' = Some precondition /\ ob_pre s' = ob_pre s /\
    lg_every (ob_log s') = match print_every with Some k => k | None => lg_every (ob_log s) end /\
    lg_x_array (ob_log s') = (if init_logger then [] else lg_x_array (ob_log s)) ++ (if disp then map point (value_points q) else []) /\
    lg_val_array (ob_log s') = (if init_logger then [] else lg_val_array (ob_log s)) ++ (if disp then map F (value_points q) else []) /\
    (q = [] -> ob_par s' = ob_par s) /\ (forall q' k z, q = q' ++ [(k, z)] -> t_get_free (ob_par s') = Ok (fin_arg (point z)) /\ all_numeric (ob_par s')).
Proof.
  intros Htr Rp Pop Hh n Smooth Total Diff Hlog Hpre Lx Sz point F.
  set (lg1 := if init_logger then logger_initialize (lg_every (ob_log s)) (lg_events (ob_log s)) else ob_log s).
  set (lg2 := match print_every with None => lg1 | Some k => LoggerS k (lg_iter lg1) (lg_last_x lg1) (lg_x lg1) (lg_value lg1) (lg_last_value lg1) (lg_x_array lg1) (lg_val_array lg1) (lg_events lg1) end).
  set (s1 := Obj (ob_par s) lg2 (Some precondition) (ob_pre s)).
  assert (L2 : lg_every lg2 = match print_every with Some k => k | None => lg_every (ob_log s) end /\ lg_last_x lg2 = (if init_logger then None else lg_last_x (ob_log s)) /\
     lg_x_array lg2 = (if init_logger then [] else lg_x_array (ob_log s)) /\ lg_val_array lg2 = (if init_logger then [] else lg_val_array (ob_log s))).
  { unfold lg2, lg1. destruct print_every, init_logger; cbn; splits; reflexivity. }
  destruct L2 as [L2a [L2b [L2c L2d]]].
  assert (Hp : precondition = true -> ob_pre s = Some M /\ square n M) by (intros C; destruct (Hpre C) as [A [B _]]; split; [exact A|apply nonsingular_square, B]).
  assert (I : inv t0 n disp (ob_pre s) s1).
  { split; [exact Hh|]. split; [reflexivity|]. intros D. destruct (Hlog D) as [A B]. cbn [s1 ob_log]. split; [rewrite L2a; exact A|]. intros y Ey. rewrite L2b in Ey. destruct init_logger; [discriminate|]. apply (B eq_refl y Ey). }
  assert (X0 : exists x0, length x0 = n /\ point x0 = init_x /\ (precondition = true -> solve M init_x = Ok x0) /\ (precondition = false -> x0 = init_x)).
  { unfold point. destruct precondition; [|exists init_x; splits; try reflexivity; [exact Lx|discriminate]]. destruct (Hpre eq_refl) as [A [B C]]. destruct (C n M init_x B Lx) as [x0 [E1 [E2 E3]]]. exists x0. split; [exact E2|]. split; [|split; [intros _; exact E1|discriminate]].
    destruct B as [B1 [B2 _]]. apply list_eq_nth; rewrite apply_mat_length; [lia|]. intros i Hi. rewrite apply_mat_get by lia. rewrite B2. apply E3. lia. }
  destruct X0 as [x0 [X1 [X2 [X3 X4]]]].
  pose proof (run_ok f trace Htr diff_ok t0 Rp Pop n eq_refl G H Smooth Total Diff precondition disp hessp M (ob_pre s) Hp (optimizer x0) s1 I (Sz x0 X1)) as Rn.
  pose proof (Fz_derivatives f t0 n eq_refl G H Smooth precondition M (ob_pre s) Hp) as FD.
  change (Fz f t0 precondition M) with F in *. set (Gr := Gz f t0 n precondition M) in *. set (HV := HVz f t0 n precondition M) in *.
  destruct (play F Gr HV (optimizer x0)) as [q [x info]] eqn:Ep. destruct Rn as [s' [E [[I1 [I2 _]] [Pc [Lg [Lo [B1 B2]]]]]]]. cbn [fst] in Lo.
  exists x0, Gr, HV, q, x, info, s'. split; [exact X1|]. split; [exact X2|]. split; [|split; [|split; [exact Ep|split; [|split; [exact I1|split; [exact Pc|split; [exact I2|]]]]]]].
  - intros z Lz. split; [unfold Gr, Gz; rewrite map_length, seq_length; reflexivity|]. apply FD, Lz.
  - intros z Lz. destruct (FD z Lz) as [_ [K [K1 K2]]]. exists K. split; [exact K1|]. intros v Lv. split; [unfold HV, HVz; rewrite map_length, seq_length; reflexivity|]. apply K2, Lv.
  - unfold minimize_objective. fold lg1 lg2 s1. cbn [s1 ob_pre]. fold s1. unfold point. destruct precondition.
    + destruct (Hpre eq_refl) as [A [B C]]. rewrite A. rewrite (X3 eq_refl). cbv iota beta. rewrite E. cbv iota beta. rewrite I2, A. cbn [uncondition_x fst]. destruct B as [_ [B2' _]]. rewrite mat_vec_ok by lia. reflexivity.
    + rewrite (X4 eq_refl) in E. rewrite E. reflexivity.
  - destruct Lg as [Lg1 [Lg2 [Lg3 Lg4]]]. cbn [s1 ob_log] in Lg1, Lg2, Lg3, Lg4. rewrite L2a in Lg1. rewrite L2c in Lg2. rewrite L2d in Lg3. split; [exact Lg1|]. split; [exact Lg2|]. split; [exact Lg3|]. split; [exact B1|exact B2].
Qed.
Lemma minimize_no_preconditioner {Info} f trace solve diff_ok hessp (optimizer : list R -> strategy Info) s init_x disp print_every init_logger : ob_pre s = None ->
  exists s', minimize_objective f trace solve diff_ok hessp optimizer s init_x true disp print_every init_logger = (s', Raise AssertionError) /\ ob_par s' = ob_par s /\ ob_preconditioning s' = Some true /\
    lg_x_array (ob_log s') = (if init_logger then [] else lg_x_array (ob_log s)) /\ lg_every (ob_log s') = match print_every with Some k => k | None => lg_every (ob_log s) end.
Proof.
  intros E. unfold minimize_objective. cbn [ob_pre]. rewrite E. eexists. split; [reflexivity|]. cbn [ob_par ob_preconditioning ob_log]. destruct print_every, init_logger; splits; reflexivity.
Qed.
