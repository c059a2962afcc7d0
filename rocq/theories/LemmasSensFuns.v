(** Lemmas for C53: the functions stored in dkinput_dhyperk_list. *)
From Coq Require Import Reals List Bool Arith ZArith Lia Lra.
From Verif Require Import Res Num Nd RSum ModelSparse ModelObjective ModelSensitivity LemmasConsolidate LemmasSens.
Import List ListNotations.
Open Scope R_scope.
Set Bullet Behavior "Strict Subproofs".

Lemma built_functions solve in0 hy0 hess0 n : forall k terms fs terms' fs', order_loop solve in0 hy0 hess0 n k terms fs = Ok (terms', fs') ->
  (forall f, In f fs -> exists ts, f = dkinput_dhyperk solve in0 hy0 hess0 ts) -> forall f, In f fs' -> exists ts, f = dkinput_dhyperk solve in0 hy0 hess0 ts.
Proof.
  induction n as [|n IH]; intros k terms fs terms' fs' E H f Hf; cbn [order_loop] in E.
  - apply Ok_inj in E. injection E as <- <-. exact (H f Hf).
  - destruct (py_index terms (Z.of_nat k)) as [cur|]; [|discriminate E]. cbn [rbind] in E.
    destruct (differentiate_terms cur _) as [nt|]; [|discriminate E]. cbn [rbind] in E.
    refine (IH _ _ _ _ _ E _ f Hf). intros f' Hf'. apply in_app_or in Hf'. destruct Hf' as [Hf'|[<-|[]]]; [exact (H f' Hf')|]. exists cur. reflexivity.
Qed.
Lemma fold_max_le l : forall a tol, fold_left Rmax l a <= tol <-> a <= tol /\ forall d, In d l -> d <= tol.
Proof.
  induction l as [|b l IH]; intros a tol; cbn [fold_left]; [split; [intros H; split; [exact H|intros d []]|intros [H _]; exact H]|].
  rewrite IH. split.
  - intros [H1 H2]. split; [pose proof (Rmax_l a b); lra|]. intros d [<-|Hd]; [pose proof (Rmax_r a b); lra|exact (H2 d Hd)].
  - intros [H1 H2]. split; [apply Rmax_lub; [exact H1|apply H2; left; reflexivity]|]. intros d Hd. apply H2. right. exact Hd.
Qed.
Lemma map2_minus_nth (x : list R) : forall y d, length x = length y -> (In d (map Rabs (map2 Rminus x y)) <-> exists i, (i < length y)%nat /\ d = Rabs (nth i x 0 - nth i y 0)).
Proof.
  induction x as [|a x IH]; intros [|b y] d L; try discriminate L; cbn [map2 map In].
  - split; [intros []|intros [i [Hi _]]; cbn in Hi; lia].
  - injection L as L. rewrite (IH y d L). split.
    + intros [<-|[i [Hi E]]]; [exists 0%nat; split; [cbn; lia|reflexivity]|exists (S i); split; [cbn; lia|exact E]].
    + intros [[|i] [Hi E]]; [left; symmetry; exact E|right; exists i; split; [cbn in Hi; lia|exact E]].
Qed.
Lemma max_abs_diff_spec x y : length x = length y -> y <> [] -> exists m, max_abs_diff x y = Ok m /\ forall tol, m <= tol <-> forall i, (i < length y)%nat -> Rabs (nth i x 0 - nth i y 0) <= tol.
Proof.
  intros L N. unfold max_abs_diff. rewrite L, Nat.eqb_refl. pose proof (fun d => map2_minus_nth x y d L) as M.
  change (fun d : R => Rabs d) with Rabs. destruct (map Rabs (map2 Rminus x y)) as [|d ds] eqn:E.
  - exfalso. destruct y as [|b y]; [exact (N eq_refl)|]. apply (proj2 (M (Rabs (nth 0 x 0 - nth 0 (b :: y) 0)))). exists 0%nat. split; [cbn; lia|reflexivity].
  - eexists. split; [reflexivity|]. intros tol. rewrite fold_max_le. split.
    + intros [H1 H2] i Hi. destruct (proj2 (M (Rabs (nth i x 0 - nth i y 0))) (ex_intro _ i (conj Hi eq_refl))) as [<-|H]; [exact H1|exact (H2 _ H)].
    + intros H. split; [|intros e He]; [destruct (proj1 (M d) (or_introl eq_refl)) as [i [Hi ->]]|destruct (proj1 (M e) (or_intror He)) as [i [Hi ->]]]; exact (H i Hi).
Qed.
Lemma stored_functions : forall solve g in0 hy0 hess0 order terms fs, (0 < order)%nat -> build_order solve g in0 hy0 hess0 (Z.of_nat order) = Ok (terms, fs) -> in0 <> [] -> hy0 <> [] ->
  forall f, In f fs -> forall x y d, length x = length in0 -> length y = length hy0 ->
  f None x y d = f None in0 hy0 d /\
  forall tol,
  ((forall i, (i < length in0)%nat -> Rabs (nth i x 0 - nth i in0 0) <= tol) -> (forall i, (i < length hy0)%nat -> Rabs (nth i y 0 - nth i hy0 0) <= tol) ->
   f (Some tol) x y d = f None in0 hy0 d) /\
  ((exists i, (i < length in0)%nat /\ tol < Rabs (nth i x 0 - nth i in0 0)) \/ (exists i, (i < length hy0)%nat /\ tol < Rabs (nth i y 0 - nth i hy0 0)) ->
   f (Some tol) x y d = Raise AssertionError).
Proof.
  intros solve g in0 hy0 hess0 order terms fs Ho HB N1 N2 f Hf x y d L1 L2.
  assert (F : exists ts, f = dkinput_dhyperk solve in0 hy0 hess0 ts).
  { unfold build_order in HB. destruct (generate_two_term_derivative_array g _) as [gd|]; [|discriminate HB]. cbn [rbind] in HB.
    destruct (get_taylor_base_terms gd) as [base|]; [|discriminate HB]. cbn [rbind] in HB.
    destruct (order_loop solve in0 hy0 hess0 _ 0 _ []) as [[tt ff]|] eqn:EL; [|discriminate HB]. cbn [rbind fst snd] in HB.
    destruct (py_index tt _) as [last|]; [|discriminate HB]. cbn [rbind] in HB. apply Ok_inj in HB. injection HB as <- <-.
    apply in_app_or in Hf. destruct Hf as [Hf|[<-|[]]]; [|exists last; reflexivity]. refine (built_functions _ _ _ _ _ _ _ _ _ _ EL _ f Hf). intros ? []. }
  destruct F as [ts ->]. split; [reflexivity|]. intros tol.
  destruct (max_abs_diff_spec x in0 L1 N1) as [a [Ea Ha]]. destruct (max_abs_diff_spec y hy0 L2 N2) as [b [Eb Hb]].
  unfold dkinput_dhyperk. rewrite Ea. cbn [rbind]. split.
  - intros H1 H2. apply Ha in H1. apply Hb in H2. unfold rassert, Rleb. destruct (Rle_dec a tol); [|contradiction]. rewrite Eb. cbn [rbind]. destruct (Rle_dec b tol); [reflexivity|contradiction].
  - intros H. unfold rassert, Rleb. destruct (Rle_dec a tol) as [Ha'|]; [|reflexivity]. rewrite Eb. cbn [rbind]. destruct (Rle_dec b tol) as [Hb'|]; [|reflexivity]. exfalso.
    destruct H as [[i [Hi H]]|[i [Hi H]]]; [pose proof (proj1 (Ha tol) Ha' i Hi)|pose proof (proj1 (Hb tol) Hb' i Hi)]; lra.
Qed.

(** ---- set_order on an existing approximation ---- *)
Lemma no_order solve h trace2 inf hf ty : (ty_order ty <= 0)%Z ->
  (forall d k tol, evaluate_dkinput_dhyperk solve h trace2 inf hf ty d k tol = (ty, Raise ValueError)) /\
  (forall d off m tol, evaluate_taylor_series solve h trace2 inf hf ty d off m tol = (ty, Raise ValueError)).
Proof.
  intros Ho. split.
  - intros d k tol. unfold evaluate_dkinput_dhyperk. destruct (Z.leb_spec k 0); [reflexivity|]. destruct (Z.ltb_spec (ty_order ty) k); [reflexivity|lia].
  - intros d off m tol. unfold evaluate_taylor_series. destruct m as [m|]; cbv zeta iota.
    + destruct (Z.leb_spec m 0); [reflexivity|]. destruct (Z.ltb_spec (ty_order ty) m); [reflexivity|lia].
    + destruct (Z.leb_spec (ty_order ty) 0); [reflexivity|lia].
Qed.
Lemma set_order_again : forall solve f h Chol (cho_factor : rmat2 -> res Chol) trace trace2 inf hf st0 in0 hy0 order hess_arg st1 ty,
  taylor_init solve f h Chol cho_factor trace inf hf st0 in0 hy0 order hess_arg = (st1, Ok ty) ->
  (forall order', (0 < order')%Z -> exists ty', taylor_init solve f h Chol cho_factor trace inf hf st0 in0 hy0 order' hess_arg = (st1, Ok ty') /\
     forall st, set_order solve h inf hf (with_st ty st) order' = (with_st ty' st, Ok tt)) /\
  (forall order' st ty' r, (order' <= 0)%Z -> set_order solve h inf hf (with_st ty st) order' = (ty', r) ->
     r = Raise (if (order' =? 0)%Z then AssertionError else IndexError) /\
     (forall d k tol, evaluate_dkinput_dhyperk solve h trace2 inf hf ty' d k tol = (ty', Raise ValueError)) /\
     (forall d off m tol, evaluate_taylor_series solve h trace2 inf hf ty' d off m tol = (ty', Raise ValueError))).
Proof.
  intros solve f h Chol cho_factor trace trace2 inf hf st0 in0 hy0 order hess_arg st1 ty Hi. unfold taylor_init in *.
  destruct (set_base_values f Chol cho_factor trace inf hf st0 in0 hy0 None) as [s [[m c]|e]]; [|discriminate Hi].
  unfold set_order in *. cbn [ty_st ty_in0 ty_hy0 ty_hess] in *. destruct (build_order _ _ _ _ _ order) as [bo|e]; [|discriminate Hi]. cbn [rbind] in Hi.
  pose proof (f_equal fst Hi) as H1. pose proof (f_equal snd Hi) as H2. cbn [fst snd] in H1, H2. apply Ok_inj in H2. subst ty s. clear Hi bo. unfold with_st. cbn [ty_st ty_in0 ty_hy0 ty_hess ty_order].
  assert (B : forall g k, (0 < k)%Z -> exists bo, build_order solve g in0 hy0 m k = Ok bo).
  { intros g k Hk. destruct (build_order_ok solve g in0 hy0 m (Z.to_nat k) ltac:(lia)) as [terms [fs [EB _]]]. rewrite Z2Nat.id in EB by lia. eauto. }
  split.
  - intros k Hk. destruct (B (objective_gradient h inf hf st1) k Hk) as [b1 ->]. cbn [rbind]. eexists. split; [reflexivity|]. intros st. destruct (B (objective_gradient h inf hf st) k Hk) as [b2 ->]. reflexivity.
  - intros k st ty' r Hk E. pose proof (f_equal fst E) as E1. pose proof (f_equal snd E) as E2. cbn [fst snd] in E1, E2. subst ty' r.
    split; [|refine (no_order solve h trace2 inf hf (Taylor _ _ _ _ _) Hk)]. destruct (Z.eqb_spec k 0) as [->|N]; [rewrite build_order_zero; reflexivity|]. rewrite build_order_negative by lia. reflexivity.
Qed.
