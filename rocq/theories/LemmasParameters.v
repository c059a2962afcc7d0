(** Proofs about ModelParameters. *)
From Coq Require Import String Reals List Bool Arith Lra Lia.
From Coquelicot Require Import Coquelicot.
From Verif Require Import Res Num Nd RSum ModelAutograd ModelSparse ModelParameters SpecParameters.
Import List ListNotations.
Open Scope R_scope.
Set Bullet Behavior "Strict Subproofs".

(** ---- one entry ---- *)
Ltac neg1 := repeat match goal with |- context [-1 * ?x] => replace (-1 * x) with (- x) by lra end.

Definition cval (lb ub : num) (x : R) : R :=
  match lb, ub with
  | NInf, PInf => x
  | Fin l, PInf => exp x + l
  | NInf, Fin u => u - exp (- x)
  | Fin l, Fin u => (u - l) * exp x / (1 + exp x) + l
  | _, _ => 0
  end.
Definition uval (lb ub : num) (x : R) : R :=
  match lb, ub with
  | NInf, PInf => x
  | Fin l, PInf => ln (x - l)
  | NInf, Fin u => - ln (u - x)
  | Fin l, Fin u => ln (x - l) - ln (u - x)
  | _, _ => 0
  end.

Lemma constrain_entry_fin lb ub x : legal lb ub -> constrain_entry (Fin x) lb ub = Fin (cval lb ub x).
Proof.
  pose proof (exp_pos x) as He.
  destruct lb as [l| | |], ub as [u| | |]; cbn [legal]; intros H; try contradiction;
    unfold constrain_entry; cbn -[ndiv].
  - cbn [cval]. rewrite ndiv_fin by lra. reflexivity.
  - reflexivity.
  - replace (-1 * x) with (- x) by lra. reflexivity.
  - reflexivity.
Qed.

Lemma unconstrain_entry_fin lb ub x :
  legal lb ub -> inside lb ub x -> unconstrain_entry (Fin x) lb ub = Fin (uval lb ub x).
Proof.
  destruct lb as [l| | |], ub as [u| | |]; cbn [legal inside]; intros H [H1 H2]; try contradiction;
    unfold unconstrain_entry; cbn -[nlog nmul nsub].
  - cbn [nsub nadd nopp]. rewrite !nlog_pos by lra. cbn. reflexivity.
  - cbn [nsub nadd nopp]. rewrite nlog_pos by lra. reflexivity.
  - cbn [nsub nadd nopp]. rewrite nlog_pos by lra. cbn. f_equal.
    replace (u + - x) with (u - x) by lra. lra.
  - reflexivity.
Qed.

Lemma cval_inside lb ub x : legal lb ub -> inside lb ub (cval lb ub x).
Proof.
  pose proof (exp_pos x) as He. pose proof (exp_pos (- x)) as He'.
  destruct lb as [l| | |], ub as [u| | |]; cbn [legal inside cval]; intros H; try contradiction;
    split; try lra; auto.
  - assert (0 < (u - l) * exp x / (1 + exp x)).
    { apply Rdiv_lt_0_compat; [|lra]. apply Rmult_lt_0_compat; lra. }
    lra.
  - assert ((u - l) * exp x / (1 + exp x) < u - l).
    { apply (Rmult_lt_reg_r (1 + exp x)); [lra|].
      unfold Rdiv. rewrite Rmult_assoc, Rinv_l by lra. nra. }
    lra.
Qed.

Lemma uval_cval lb ub x : legal lb ub -> uval lb ub (cval lb ub x) = x.
Proof.
  pose proof (exp_pos x) as He. pose proof (exp_pos (- x)) as He'.
  destruct lb as [l| | |], ub as [u| | |]; cbn [legal cval uval]; intros H; try contradiction.
  - replace ((u - l) * exp x / (1 + exp x) + l - l) with ((u - l) * exp x / (1 + exp x)) by lra.
    replace (u - ((u - l) * exp x / (1 + exp x) + l)) with ((u - l) / (1 + exp x)) by (field; lra).
    unfold Rdiv. rewrite (ln_mult ((u - l) * exp x)); [| |].
    + rewrite (ln_mult (u - l) (exp x)); [|lra|exact He]. rewrite ln_exp.
      rewrite (ln_mult (u - l)); [lra|lra|apply Rinv_0_lt_compat; lra].
    + apply Rmult_lt_0_compat; lra.
    + apply Rinv_0_lt_compat; lra.
  - replace (exp x + l - l) with (exp x) by lra. apply ln_exp.
  - replace (u - (u - exp (- x))) with (exp (- x)) by lra. rewrite ln_exp. lra.
  - reflexivity.
Qed.

Lemma cval_uval lb ub x : legal lb ub -> inside lb ub x -> cval lb ub (uval lb ub x) = x.
Proof.
  destruct lb as [l| | |], ub as [u| | |]; cbn [legal inside cval uval]; intros H [H1 H2]; try contradiction.
  - rewrite <- ln_div by lra. rewrite exp_ln by (apply Rdiv_lt_0_compat; lra).
    field. split; [|lra]. replace (u - x + (x - l)) with (u - l) by lra. lra.
  - rewrite exp_ln by lra. lra.
  - rewrite Ropp_involutive, exp_ln by lra. lra.
  - reflexivity.
Qed.

Lemma cval_incr lb ub x y : legal lb ub -> x < y -> cval lb ub x < cval lb ub y.
Proof.
  pose proof (exp_pos x) as Hx. pose proof (exp_pos y) as Hy.
  destruct lb as [l| | |], ub as [u| | |]; cbn [legal cval]; intros H Hxy; try contradiction.
  - pose proof (exp_increasing x y Hxy) as Hi.
    assert ((u - l) * exp x / (1 + exp x) < (u - l) * exp y / (1 + exp y)); [|lra].
    apply (Rmult_lt_reg_r ((1 + exp x) * (1 + exp y))); [nra|].
    replace ((u - l) * exp x / (1 + exp x) * ((1 + exp x) * (1 + exp y))) with ((u - l) * exp x * (1 + exp y)) by (field; lra).
    replace ((u - l) * exp y / (1 + exp y) * ((1 + exp x) * (1 + exp y))) with ((u - l) * exp y * (1 + exp x)) by (field; lra).
    nra.
  - pose proof (exp_increasing x y Hxy) as Hi. lra.
  - assert (exp (- y) < exp (- x)) by (apply exp_increasing; lra). lra.
  - exact Hxy.
Qed.

Lemma legal_nleb lb ub : legal lb ub -> nleb ub lb = false.
Proof.
  destruct lb as [l| | |], ub as [u| | |]; cbn [legal]; intros H; try contradiction; try reflexivity.
  cbn. apply Rleb_false. exact H.
Qed.
Lemma legal_nltb lb ub : nltb lb ub = true <-> legal lb ub.
Proof.
  destruct lb as [l| | |], ub as [u| | |]; cbn; split; intros H; try easy; apply Rltb_true; exact H.
Qed.
Lemma legal_init_checks lb ub :
  legal lb ub <-> (nleb NInf lb = true /\ nleb ub PInf = true /\ nleb ub lb = false).
Proof.
  destruct lb as [l| | |], ub as [u| | |]; cbn; split; intros H; try easy; try tauto; try (destruct H as [? [? ?]]; easy).
  - repeat split; auto. apply Rleb_false; exact H.
  - destruct H as [_ [_ H]]. apply Rleb_false in H. exact H.
Qed.
Lemma within_nleb lb ub v : legal lb ub -> (nleb v ub = true /\ nleb lb v = true) <-> within lb ub v.
Proof.
  destruct lb as [l| | |], ub as [u| | |]; cbn [legal]; intros H; try contradiction;
   destruct v as [x| | |]; cbn; split; intros G; try easy; try tauto; try (destruct G as [G1 G2]; try easy);
   try (rewrite !Rleb_true in *); try tauto; try (split; auto; rewrite ?Rleb_true in *; tauto).
Qed.
Lemma inside_within lb ub x : inside lb ub x -> within lb ub (Fin x).
Proof. destruct lb, ub; cbn; intros [A B]; split; auto; lra. Qed.

(** ---- lists of entries ---- *)
Lemma map_constrain_fin lb ub (x : list R) : legal lb ub ->
  map (fun v => constrain_entry v lb ub) (map Fin x) = map Fin (map (cval lb ub) x).
Proof. intros H. rewrite !map_map. apply map_ext. intros a. apply constrain_entry_fin; exact H. Qed.

Lemma all_inside_reals lb ub l : all_inside lb ub l -> exists x, l = map Fin x /\ Forall (inside lb ub) x.
Proof.
  induction l as [|v vs IH]; intros H.
  - exists []. split; [reflexivity|constructor].
  - destruct (H v (or_introl eq_refl)) as [x [-> Hx]].
    destruct IH as [xs [-> Hxs]]. { intros w Hw; apply H; right; exact Hw. }
    exists (x :: xs). split; [reflexivity|constructor; assumption].
Qed.
Lemma reals_all_inside lb ub x : Forall (inside lb ub) x -> all_inside lb ub (map Fin x).
Proof. intros H v Hv. apply in_map_iff in Hv as [r [<- Hr]]. exists r. split; [reflexivity|]. rewrite Forall_forall in H; auto. Qed.
Lemma map_unconstrain_fin lb ub x : legal lb ub -> Forall (inside lb ub) x ->
  map (fun v => unconstrain_entry v lb ub) (map Fin x) = map Fin (map (uval lb ub) x).
Proof.
  intros H Hx. rewrite !map_map. apply map_ext_in. intros a Ha. apply unconstrain_entry_fin; [exact H|].
  rewrite Forall_forall in Hx; auto.
Qed.
Lemma map_cval_uval lb ub x : legal lb ub -> Forall (inside lb ub) x -> map (cval lb ub) (map (uval lb ub) x) = x.
Proof.
  intros H Hx. rewrite map_map. rewrite <- (map_id x) at 2. apply map_ext_in. intros a Ha.
  apply cval_uval; [exact H|]. rewrite Forall_forall in Hx; auto.
Qed.
Lemma map_uval_cval lb ub x : legal lb ub -> map (uval lb ub) (map (cval lb ub) x) = x.
Proof. intros H. rewrite map_map. rewrite <- (map_id x) at 2. apply map_ext. intros a. apply uval_cval; exact H. Qed.
Lemma Forall_cval_inside lb ub x : legal lb ub -> Forall (inside lb ub) (map (cval lb ub) x).
Proof. intros H. apply Forall_map. apply Forall_forall. intros a _. apply cval_inside; exact H. Qed.

Lemma constrain_fin lb ub s x : legal lb ub ->
  constrain (Nd s (map Fin x)) lb ub = Ok (Nd s (map Fin (map (cval lb ub) x))).
Proof.
  intros H. unfold constrain. rewrite legal_nleb by exact H. unfold nd_map. cbn [shape data].
  rewrite map_constrain_fin by exact H. reflexivity.
Qed.
Lemma unconstrain_fin lb ub s x : legal lb ub -> Forall (inside lb ub) x ->
  unconstrain (Nd s (map Fin x)) lb ub = Ok (Nd s (map Fin (map (uval lb ub) x))).
Proof.
  intros H Hx. unfold unconstrain. rewrite legal_nleb by exact H. unfold nd_map. cbn [shape data].
  rewrite map_unconstrain_fin by assumption. reflexivity.
Qed.
Lemma forallb_within lb ub l : legal lb ub ->
  (forallb (fun v => nleb v ub) l && forallb (fun v => nleb lb v) l = true <-> Forall (within lb ub) l).
Proof.
  intros H. rewrite andb_true_iff, !forallb_forall, Forall_forall. split.
  - intros [A B] v Hv. apply within_nleb; auto.
  - intros A. split; intros v Hv; apply A in Hv; apply within_nleb in Hv; tauto.
Qed.
Lemma unconstrain_array_spec lb ub a : legal lb ub ->
  (Forall (within lb ub) (data a) ->
     unconstrain_array a lb ub = Ok (np_flatten (nd_map (fun v => unconstrain_entry v lb ub) a))) /\
  (~ Forall (within lb ub) (data a) -> unconstrain_array a lb ub = Raise ValueError).
Proof.
  intros H. pose proof (forallb_within lb ub (data a) H) as E. unfold unconstrain_array.
  destruct (forallb (fun v => nleb v ub) (data a)) eqn:E1; cbn [negb andb] in *.
  - destruct (forallb (fun v => nleb lb v) (data a)) eqn:E2; cbn [negb] in *.
    + split; intros G; [|exfalso; tauto]. unfold unconstrain. rewrite legal_nleb by exact H. reflexivity.
    + split; intros G; [|reflexivity]. apply E in G. discriminate.
  - split; intros G; [|reflexivity]. apply E in G. discriminate.
Qed.
Lemma unconstrain_array_fin lb ub s x : legal lb ub -> Forall (inside lb ub) x ->
  unconstrain_array (Nd s (map Fin x)) lb ub = Ok (Nd [nprod s] (map Fin (map (uval lb ub) x))).
Proof.
  intros H Hx. rewrite (proj1 (unconstrain_array_spec lb ub _ H)).
  - unfold np_flatten, nd_map; cbn [shape data]. rewrite map_unconstrain_fin by assumption. reflexivity.
  - cbn [data]. apply Forall_map. eapply Forall_impl; [|exact Hx]. intros a. apply inside_within.
Qed.

(** ---- C01 ---- *)
Lemma scalar_constrained_roundtrip p x :
  legal (sp_lb p) (sp_ub p) -> data (sp_val p) = [Fin x] -> nd_wf (sp_val p) -> inside (sp_lb p) (sp_ub p) x ->
  exists f p', scalar_get_free p = Ok f /\ shape f = [1%nat] /\ scalar_set_free p f = (p', Ok tt) /\
     data (scalar_get p') = data (scalar_get p) /\ scalar_get_vector p' = scalar_get_vector p.
Proof.
  intros H Hd Hw Hx. destruct p as [nm lb ub [s l]]. cbn in Hd, H, Hx, Hw. subst l.
  unfold nd_wf in Hw; cbn [data shape length] in Hw.
  exists (Nd [1%nat] (map Fin [uval lb ub x])).
  eexists. split; [|split; [reflexivity|split]].
  - unfold scalar_get_free. cbn [sp_val sp_lb sp_ub]. unfold unconstrain_scalar. cbn [data].
    destruct (proj2 (within_nleb lb ub (Fin x) H) (inside_within _ _ _ Hx)) as [Hn1 Hn2]. rewrite Hn1, Hn2. cbn [negb].
    change [Fin x] with (map Fin [x]). rewrite unconstrain_fin by (assumption || (constructor; [assumption|constructor])).
    cbn [rbind]. unfold np_reshape, nd_size. cbn [shape]. rewrite <- Hw. reflexivity.
  - unfold scalar_set_free. cbn [sp_lb sp_ub]. rewrite constrain_fin by exact H. reflexivity.
  - cbn. rewrite cval_uval by assumption. unfold scalar_get_vector, np_reshape, nd_size; cbn [sp_val shape data].
    rewrite <- Hw. split; reflexivity.
Qed.

Lemma vector_constrained_roundtrip p :
  vector_wf p -> all_inside (vp_lb p) (vp_ub p) (data (vp_val p)) ->
  exists f p', vector_get_free p = Ok f /\ shape f = [vp_size p] /\ vector_set_free p f = (p', Ok tt) /\
     data (vector_get p') = data (vector_get p) /\ (shape (vp_val p) = [vp_size p] -> p' = p).
Proof.
  intros [H [Hw Hs]] Hx. destruct p as [nm n lb ub [s l]]. cbn in *.
  apply all_inside_reals in Hx as [x [-> Hx]]. unfold nd_size in Hs; cbn in Hs.
  exists (Nd [nprod s] (map Fin (map (uval lb ub) x))).
  eexists. splits.
  - unfold vector_get_free. cbn. apply unconstrain_array_fin; assumption.
  - cbn. rewrite Hs. reflexivity.
  - unfold vector_set_free. cbn [vp_size vp_lb vp_ub]. unfold nd_size. cbn [shape].
    rewrite nprod_1, Hs, Nat.eqb_refl. cbn [negb]. rewrite constrain_fin by exact H.
    unfold vector_set. unfold nd_size; cbn [shape vp_size]. rewrite nprod_1, Nat.eqb_refl. reflexivity.
  - cbn. rewrite map_cval_uval by assumption. reflexivity.
  - intros ->. cbn. rewrite map_cval_uval by assumption. reflexivity.
Qed.

Lemma array_constrained_roundtrip p :
  array_wf p -> all_inside (ap_lb p) (ap_ub p) (data (ap_val p)) ->
  exists f, array_get_free p = Ok f /\ shape f = [array_free_size p] /\ array_set_free p f = (p, Ok tt).
Proof.
  intros [H [Hw Hs]] Hx. destruct p as [nm n lb ub [s l]]. cbn in *. subst s.
  apply all_inside_reals in Hx as [x [-> Hx]].
  exists (Nd [nprod n] (map Fin (map (uval lb ub) x))).
  splits.
  - unfold array_get_free. cbn. apply unconstrain_array_fin; assumption.
  - reflexivity.
  - unfold array_set_free, array_free_size. cbn [ap_shape ap_lb ap_ub]. unfold nd_size. cbn [shape].
    rewrite nprod_1, Nat.eqb_refl. cbn [negb]. rewrite constrain_fin by exact H. cbn [rbind].
    unfold np_reshape, nd_size. cbn [shape data]. rewrite nprod_1, Nat.eqb_refl.
    unfold array_set. cbn [shape ap_shape]. rewrite shape_eqb_refl. cbn.
    rewrite map_cval_uval by assumption. reflexivity.
Qed.

(** ---- C02, C03 ---- *)
Lemma scalar_free_roundtrip p x : legal (sp_lb p) (sp_ub p) ->
  exists p' y, scalar_set_free p (nd_vec [Fin x]) = (p', Ok tt) /\
    scalar_get_free p' = Ok (nd_vec [Fin x]) /\
    data (scalar_get p') = [Fin y] /\ inside (sp_lb p) (sp_ub p) y.
Proof.
  intros H. destruct p as [nm lb ub v]. cbn in H. unfold scalar_set_free. cbn [sp_lb sp_ub].
  change (nd_vec [Fin x]) with (Nd [1%nat] (map Fin [x])).
  rewrite constrain_fin by exact H. cbn [scalar_set sp_name sp_lb sp_ub map].
  eexists. exists (cval lb ub x). split; [reflexivity|]. split; [|split; [reflexivity|apply cval_inside; exact H]].
  unfold scalar_get_free, unconstrain_scalar. cbn [sp_val sp_lb sp_ub data].
  pose proof (cval_inside lb ub x H) as Hi.
  destruct (proj2 (within_nleb lb ub _ H) (inside_within _ _ _ Hi)) as [Hn1 Hn2]. rewrite Hn1, Hn2. cbn [negb].
  change [Fin (cval lb ub x)] with (map Fin [cval lb ub x]).
  rewrite unconstrain_fin by (assumption || (constructor; [assumption|constructor])).
  cbn [map]. rewrite uval_cval by exact H. reflexivity.
Qed.

Lemma vector_set_free_fin p s x : legal (vp_lb p) (vp_ub p) -> nprod s = vp_size p ->
  vector_set_free p (Nd s (map Fin x)) =
    (VectorP (vp_name p) (vp_size p) (vp_lb p) (vp_ub p) (Nd s (map Fin (map (cval (vp_lb p) (vp_ub p)) x))), Ok tt).
Proof.
  intros H Hx. unfold vector_set_free. unfold nd_size; cbn [shape].
  rewrite Hx, Nat.eqb_refl. cbn [negb]. rewrite constrain_fin by exact H.
  unfold vector_set, nd_size; cbn [shape]. rewrite Hx, Nat.eqb_refl. reflexivity.
Qed.
Lemma vector_free_roundtrip p x : legal (vp_lb p) (vp_ub p) -> length x = vp_size p ->
  exists p', vector_set_free p (nd_vec (map Fin x)) = (p', Ok tt) /\
    vector_get_free p' = Ok (nd_vec (map Fin x)) /\
    all_inside (vp_lb p) (vp_ub p) (data (vector_get p')).
Proof.
  intros H Hx. unfold nd_vec. rewrite map_length.
  rewrite vector_set_free_fin by (exact H || rewrite nprod_1; exact Hx).
  eexists. split; [reflexivity|]. unfold vector_get_free. cbn [vp_val vp_lb vp_ub vector_get data].
  rewrite unconstrain_array_fin by (exact H || apply Forall_cval_inside; exact H).
  rewrite map_uval_cval by exact H. rewrite nprod_1.
  split; [reflexivity|]. apply reals_all_inside, Forall_cval_inside, H.
Qed.
Lemma array_set_free_fin p s x : legal (ap_lb p) (ap_ub p) -> nprod s = nprod (ap_shape p) ->
  array_set_free p (Nd s (map Fin x)) =
    (ArrayP (ap_name p) (ap_shape p) (ap_lb p) (ap_ub p)
       (Nd (ap_shape p) (map Fin (map (cval (ap_lb p) (ap_ub p)) x))), Ok tt).
Proof.
  intros H Hx. unfold array_set_free, array_free_size. unfold nd_size; cbn [shape].
  rewrite Hx, Nat.eqb_refl. cbn [negb]. rewrite constrain_fin by exact H. cbn [rbind].
  unfold np_reshape, nd_size. cbn [shape data]. rewrite Hx, Nat.eqb_refl.
  unfold array_set. cbn [shape]. rewrite shape_eqb_refl. reflexivity.
Qed.
Lemma array_free_roundtrip p x : legal (ap_lb p) (ap_ub p) -> length x = array_free_size p ->
  exists p', array_set_free p (nd_vec (map Fin x)) = (p', Ok tt) /\
    array_get_free p' = Ok (nd_vec (map Fin x)) /\
    all_inside (ap_lb p) (ap_ub p) (data (array_get p')) /\ shape (array_get p') = ap_shape p.
Proof.
  intros H Hx. unfold nd_vec. rewrite map_length. unfold array_free_size in Hx.
  rewrite array_set_free_fin by (exact H || rewrite nprod_1; exact Hx).
  eexists. split; [reflexivity|]. unfold array_get_free. cbn [ap_val ap_lb ap_ub array_get data].
  rewrite unconstrain_array_fin by (exact H || apply Forall_cval_inside; exact H).
  rewrite map_uval_cval by exact H. rewrite Hx.
  split; [reflexivity|]. split; [|reflexivity]. apply reals_all_inside, Forall_cval_inside, H.
Qed.

(** ---- C04 ---- *)
Lemma vector_get_free_rejects p : legal (vp_lb p) (vp_ub p) ->
  (vector_get_free p = Raise ValueError <-> exists v, In v (data (vp_val p)) /\ ~ within (vp_lb p) (vp_ub p) v) /\
  ((forall v, In v (data (vp_val p)) -> within (vp_lb p) (vp_ub p) v) -> exists f, vector_get_free p = Ok f).
Proof.
  intros H. unfold vector_get_free. pose proof (unconstrain_array_spec _ _ (vp_val p) H) as [A B].
  assert (D : forall v, {within (vp_lb p) (vp_ub p) v} + {~ within (vp_lb p) (vp_ub p) v}).
  { intros v. destruct (nleb v (vp_ub p)) eqn:E1; [destruct (nleb (vp_lb p) v) eqn:E2|].
    - left. apply within_nleb; auto.
    - right. intros G. apply within_nleb in G as [? ?]; congruence.
    - right. intros G. apply within_nleb in G as [? ?]; congruence. }
  split.
  - split.
    + intros E. destruct (Forall_Exists_dec _ D (data (vp_val p))) as [G|G].
      * rewrite (A G) in E. discriminate.
      * apply Exists_exists in G. exact G.
    + intros [v [Hv Hn]]. apply B. intros G. rewrite Forall_forall in G. apply Hn, G, Hv.
  - intros G. eexists. apply A. apply Forall_forall. exact G.
Qed.
Lemma array_get_free_rejects p : legal (ap_lb p) (ap_ub p) ->
  (array_get_free p = Raise ValueError <-> exists v, In v (data (ap_val p)) /\ ~ within (ap_lb p) (ap_ub p) v) /\
  ((forall v, In v (data (ap_val p)) -> within (ap_lb p) (ap_ub p) v) -> exists f, array_get_free p = Ok f).
Proof.
  intros H. exact (vector_get_free_rejects (VectorP (ap_name p) 0 (ap_lb p) (ap_ub p) (ap_val p)) H).
Qed.
Lemma scalar_get_free_rejects p v : legal (sp_lb p) (sp_ub p) -> nd_wf (sp_val p) -> data (sp_val p) = [v] ->
  (scalar_get_free p = Raise ValueError <-> ~ within (sp_lb p) (sp_ub p) v) /\
  (within (sp_lb p) (sp_ub p) v -> exists f, scalar_get_free p = Ok f).
Proof.
  intros H Hw Hd. unfold scalar_get_free, unconstrain_scalar. rewrite Hd.
  assert (Hok : within (sp_lb p) (sp_ub p) v ->
     exists f, (do u <- (if negb (nleb v (sp_ub p)) then Raise ValueError
                else if negb (nleb (sp_lb p) v) then Raise ValueError else unconstrain (sp_val p) (sp_lb p) (sp_ub p));
      np_reshape u [1%nat]) = Ok f).
  { intros G. apply within_nleb in G as [G1 G2]; [|exact H]. rewrite G1, G2. cbn [negb].
    unfold unconstrain. rewrite legal_nleb by exact H. cbn [rbind].
    unfold np_reshape, nd_size, nd_map. cbn [shape data]. unfold nd_wf in Hw. rewrite Hd in Hw. rewrite <- Hw.
    eexists; reflexivity. }
  split; [|exact Hok]. split.
  - intros E G. destruct (Hok G) as [f Hf]. rewrite Hf in E. discriminate.
  - intros G. destruct (nleb v (sp_ub p)) eqn:E1; cbn [negb]; [|reflexivity].
    destruct (nleb (sp_lb p) v) eqn:E2; cbn [negb]; [|reflexivity].
    exfalso. apply G, within_nleb; auto.
Qed.

(** ---- C05 ---- *)
Lemma boundary_lower l ub : legal (Fin l) ub ->
  unconstrain_entry (Fin l) (Fin l) ub = NInf /\ constrain_entry NInf (Fin l) ub = Fin l.
Proof.
  destruct ub as [u| | |]; cbn [legal]; intros H; try contradiction; unfold unconstrain_entry, constrain_entry;
    cbn -[nlog ndiv]; cbn [nsub nadd nopp].
  - replace (l + - l) with 0 by lra. cbn.
    destruct (Rlt_dec 0 0); [lra|]. destruct (Req_EM_T 0 0); [|lra].
    destruct (Rlt_dec 0 (u + - l)); [|lra]. cbn. destruct (Req_EM_T (1 + 0) 0); [lra|]. cbn. split; [reflexivity|]. f_equal. field.
  - replace (l + - l) with 0 by lra. cbn. destruct (Rlt_dec 0 0); [lra|]. destruct (Req_EM_T 0 0); [|lra].
    split; [reflexivity|]. f_equal; lra.
Qed.

Lemma boundary_upper_lossy l u : l < u ->
  unconstrain_entry (Fin u) (Fin l) (Fin u) = PInf /\ constrain_entry PInf (Fin l) (Fin u) = NaN.
Proof.
  intros H. unfold unconstrain_entry, constrain_entry. cbn -[nlog]. cbn [nsub nadd nopp].
  replace (u + - u) with 0 by lra. rewrite nlog_pos by lra. cbn.
  destruct (Rlt_dec 0 0); [lra|]. destruct (Req_EM_T 0 0); [|lra]. cbn.
  split; [reflexivity|]. unfold nscale_inf. destruct (Rlt_dec 0 (u + - l)); [reflexivity|lra].
Qed.
Lemma closed_roundtrip_entry lb ub v : legal lb ub -> within lb ub v -> ~ lossy lb ub v ->
  constrain_entry (unconstrain_entry v lb ub) lb ub = v.
Proof.
  intros H Hw Hl.
  destruct v as [x| | |].
  - assert (D : inside lb ub x \/ lb = Fin x \/ (lb = NInf /\ ub = Fin x)).
    { destruct lb as [l| | |], ub as [u| | |]; cbn in H, Hw; try contradiction.
      - destruct Hw as [H1 H2]. destruct (Req_dec l x) as [->|E1]; [right; left; reflexivity|].
        destruct (Req_dec u x) as [->|E2]; [|left; split; lra].
        exfalso; apply Hl. exists l, x; auto.
      - destruct (Req_dec l x) as [->|E1]; [right; left; reflexivity|]. left; split; [lra|auto].
      - destruct (Req_dec u x) as [->|E1]; [right; right; auto|]. left; split; [auto|lra].
      - left; split; auto. }
    destruct D as [D|[->|[-> ->]]].
    + rewrite unconstrain_entry_fin, constrain_entry_fin, cval_uval by assumption. reflexivity.
    + destruct (boundary_lower x ub H) as [-> ->]. reflexivity.
    + unfold unconstrain_entry, constrain_entry. cbn -[nlog]. cbn [nsub nadd nopp].
      replace (x + - x) with 0 by lra. cbn.
      destruct (Rlt_dec 0 0); [lra|]. destruct (Req_EM_T 0 0); [|lra]. cbn. unfold nscale_inf.
      destruct (Rlt_dec 0 (-1)); [lra|]. destruct (Rlt_dec (-1) 0); [|lra]. cbn. unfold nscale_inf.
      destruct (Rlt_dec 0 (-1)); [lra|]. destruct (Rlt_dec (-1) 0); [|lra]. cbn. f_equal; lra.
  - cbn in Hw. subst ub. destruct lb as [l| | |]; cbn in H; try contradiction; reflexivity.
  - cbn in Hw. subst lb. destruct ub as [u| | |]; cbn in H; try contradiction; [|reflexivity].
    unfold unconstrain_entry, constrain_entry. cbn. unfold nscale_inf.
    destruct (Rlt_dec 0 (-1)); [lra|]. destruct (Rlt_dec (-1) 0); [|lra]. cbn. unfold nscale_inf.
    destruct (Rlt_dec 0 (-1)); [lra|]. destruct (Rlt_dec (-1) 0); [|lra]. reflexivity.
  - contradiction.
Qed.
Lemma lossy_entry lb ub v : legal lb ub -> lossy lb ub v ->
  within lb ub v /\ unconstrain_entry v lb ub = PInf /\ constrain_entry PInf lb ub = NaN.
Proof.
  intros H [l [u [-> [-> ->]]]]. cbn in H. destruct (boundary_upper_lossy l u H) as [A B].
  splits; auto; cbn; lra.
Qed.

Lemma constrain_any lb ub a : legal lb ub -> constrain a lb ub = Ok (nd_map (fun v => constrain_entry v lb ub) a).
Proof. intros H. unfold constrain. rewrite legal_nleb by exact H. reflexivity. Qed.

Lemma vector_closed_roundtrip p : vector_wf p ->
  (forall v, In v (data (vp_val p)) -> within (vp_lb p) (vp_ub p) v) ->
  exists f p', vector_get_free p = Ok f /\ vector_set_free p f = (p', Ok tt) /\
    length (data (vector_get p')) = length (data (vector_get p)) /\
    forall i, (i < length (data (vector_get p)))%nat ->
      (lossy (vp_lb p) (vp_ub p) (nth i (data (vector_get p)) NaN) ->
          nth i (data f) NaN = PInf /\ nth i (data (vector_get p')) NaN = NaN) /\
      (~ lossy (vp_lb p) (vp_ub p) (nth i (data (vector_get p)) NaN) ->
          nth i (data (vector_get p')) NaN = nth i (data (vector_get p)) NaN).
Proof.
  intros [H [Hw Hs]] Hx. destruct p as [nm n lb ub [s l]]. cbn in *. unfold nd_size in Hs; cbn in Hs.
  exists (Nd [nprod s] (map (fun v => unconstrain_entry v lb ub) l)).
  eexists. splits.
  - unfold vector_get_free. cbn [vp_val vp_lb vp_ub].
    rewrite (proj1 (unconstrain_array_spec lb ub _ H)); [reflexivity|]. cbn. apply Forall_forall. exact Hx.
  - unfold vector_set_free. cbn [vp_size vp_lb vp_ub]. unfold nd_size. cbn [shape].
    rewrite nprod_1, Hs, Nat.eqb_refl. cbn [negb]. rewrite constrain_any by exact H.
    unfold vector_set. unfold nd_size; cbn [shape vp_size nd_map]. rewrite nprod_1, Nat.eqb_refl. reflexivity.
  - cbn. rewrite !map_length. reflexivity.
  - intros i Hi. cbn [vector_get vp_val nd_map data] in *. rewrite map_map.
    assert (Hn : within lb ub (nth i l NaN)) by (apply Hx, nth_In; exact Hi).
    rewrite (nth_indep (map (fun x => constrain_entry (unconstrain_entry x lb ub) lb ub) l) NaN
               (constrain_entry (unconstrain_entry NaN lb ub) lb ub)) by (rewrite map_length; exact Hi).
    rewrite (map_nth (fun x => constrain_entry (unconstrain_entry x lb ub) lb ub)).
    split.
    + intros L. destruct (lossy_entry lb ub _ H L) as [_ [U C]]. rewrite U, C. split; [|reflexivity].
      rewrite (nth_indep _ NaN (unconstrain_entry NaN lb ub)) by (rewrite map_length; exact Hi).
      rewrite (map_nth (fun v => unconstrain_entry v lb ub)). exact U.
    + intros L. apply closed_roundtrip_entry; assumption.
Qed.

(** ---- C06 ---- *)
Lemma get_inbounds_value_spec lb ub : legal lb ub -> get_inbounds_value lb ub = Ok (Fin (default_spec lb ub)).
Proof.
  intros H. unfold get_inbounds_value. rewrite (proj2 (legal_nltb lb ub) H). cbn [rassert].
  destruct lb as [l| | |], ub as [u| | |]; cbn in H; try contradiction; cbn; do 2 f_equal; try lra.
Qed.
Lemma default_within lb ub : legal lb ub -> (within lb ub (Fin (default_spec lb ub)) <-> default_ok lb ub).
Proof.
  intros H. destruct lb as [l| | |], ub as [u| | |]; cbn in H; try contradiction; cbn; intuition lra.
Qed.
Lemma default_inside lb ub : legal lb ub -> (inside lb ub (default_spec lb ub) <->
  match lb, ub with Fin l, Fin u => 3 * l < u /\ 0 < l + u | _, _ => True end).
Proof.
  intros H. destruct lb as [l| | |], ub as [u| | |]; cbn in H; try contradiction; unfold inside; cbn; intuition lra.
Qed.

Lemma init_checks lb ub : legal lb ub -> nleb NInf lb = true /\ nleb ub PInf = true /\ nleb ub lb = false.
Proof. apply legal_init_checks. Qed.

Lemma vector_default name n lb ub : legal lb ub ->
  exists p, vector_init name n lb ub None = Ok p /\ vector_wf p /\
    vector_get p = np_full [n] (Fin (default_spec lb ub)) /\ vp_lb p = lb /\ vp_ub p = ub /\ vp_size p = n.
Proof.
  intros H. destruct (init_checks lb ub H) as [A [B C]]. unfold vector_init. rewrite A, B, C. cbn [rassert].
  rewrite get_inbounds_value_spec by exact H. cbn [rbind].
  unfold vector_set, nd_size. cbn [vp_size np_full shape]. rewrite nprod_1, Nat.eqb_refl. cbn [negb].
  eexists. split; [reflexivity|]. splits; try reflexivity. split; [exact H|]. split; [apply np_full_wf|].
  unfold nd_size; cbn. apply nprod_1.
Qed.
Lemma array_default name sh lb ub : legal lb ub ->
  exists p, array_init name sh lb ub None = Ok p /\ array_wf p /\
    array_get p = np_full sh (Fin (default_spec lb ub)) /\ ap_lb p = lb /\ ap_ub p = ub /\ ap_shape p = sh.
Proof.
  intros H. destruct (init_checks lb ub H) as [A [B C]]. unfold array_init. rewrite A, B, C. cbn [rassert].
  rewrite get_inbounds_value_spec by exact H. cbn [rbind].
  unfold array_set. cbn [ap_shape np_full shape]. rewrite shape_eqb_refl. cbn [negb].
  eexists. split; [reflexivity|]. splits; try reflexivity. split; [exact H|]. split; [apply np_full_wf|]. reflexivity.
Qed.
Lemma scalar_default name lb ub : legal lb ub ->
  exists p, scalar_init name lb ub None = Ok p /\
    scalar_get p = nd_scalar (Fin (default_spec lb ub)) /\ sp_lb p = lb /\ sp_ub p = ub.
Proof.
  intros H. destruct (init_checks lb ub H) as [A [B C]]. unfold scalar_init. rewrite A, B, C. cbn [rassert].
  rewrite get_inbounds_value_spec by exact H. cbn [rbind].
  eexists. split; [reflexivity|]. splits; reflexivity.
Qed.
Lemma In_repeat {A} (x v : A) n : In v (repeat x n) -> v = x.
Proof. apply repeat_spec. Qed.
Lemma vector_default_free name n lb ub p : legal lb ub -> (0 < n)%nat -> vector_init name n lb ub None = Ok p ->
  ((exists f, vector_get_free p = Ok f) <-> default_ok lb ub) /\
  ((forall v, In v (data (vector_get p)) -> within lb ub v) <-> default_ok lb ub).
Proof.
  intros H Hn Hp. destruct (vector_default name n lb ub H) as [p' [E [Hw [Hg [Hl [Hu Hs]]]]]].
  rewrite Hp in E. inversion E; subst p'. clear E.
  assert (Hl' : legal (vp_lb p) (vp_ub p)) by (rewrite Hl, Hu; exact H).
  destruct (vector_get_free_rejects p Hl') as [R1 R2]. unfold vector_get in Hg. rewrite Hg, Hl, Hu in R1, R2. cbn [data np_full] in R1, R2.
  assert (W : (forall v, In v (data (vector_get p)) -> within lb ub v) <-> default_ok lb ub).
  { unfold vector_get. rewrite Hg. cbn [data np_full]. rewrite <- default_within by exact H. split.
    - intros G. apply G. rewrite nprod_1. destruct n; [lia|]. left; reflexivity.
    - intros G v Hv. apply In_repeat in Hv. subst v. exact G. }
  split; [|exact W]. rewrite <- W. unfold vector_get. rewrite Hg. cbn [data np_full]. split.
  - intros [f Hf] v Hv. destruct (nleb v ub) eqn:E1; [destruct (nleb lb v) eqn:E2|].
    + apply within_nleb; auto.
    + exfalso. rewrite (proj2 R1) in Hf; [discriminate|]. exists v. split; [exact Hv|]. intros G. apply within_nleb in G as [? ?]; congruence.
    + exfalso. rewrite (proj2 R1) in Hf; [discriminate|]. exists v. split; [exact Hv|]. intros G. apply within_nleb in G as [? ?]; congruence.
  - exact R2.
Qed.
Lemma array_default_free name sh lb ub p : legal lb ub -> (0 < nprod sh)%nat -> array_init name sh lb ub None = Ok p ->
  ((exists f, array_get_free p = Ok f) <-> default_ok lb ub) /\
  ((forall v, In v (data (array_get p)) -> within lb ub v) <-> default_ok lb ub).
Proof.
  intros H Hn Hp. destruct (array_default name sh lb ub H) as [p' [E [Hw [Hg [Hl [Hu Hs]]]]]].
  rewrite Hp in E. inversion E; subst p'. clear E.
  assert (Hl' : legal (ap_lb p) (ap_ub p)) by (rewrite Hl, Hu; exact H).
  destruct (array_get_free_rejects p Hl') as [R1 R2]. unfold array_get in Hg. rewrite Hg, Hl, Hu in R1, R2. cbn [data np_full] in R1, R2.
  assert (W : (forall v, In v (data (array_get p)) -> within lb ub v) <-> default_ok lb ub).
  { unfold array_get. rewrite Hg. cbn [data np_full]. rewrite <- default_within by exact H. split.
    - intros G. apply G. destruct (nprod sh); [lia|]. left; reflexivity.
    - intros G v Hv. apply In_repeat in Hv. subst v. exact G. }
  split; [|exact W]. rewrite <- W. unfold array_get. rewrite Hg. cbn [data np_full]. split.
  - intros [f Hf] v Hv. destruct (nleb v ub) eqn:E1; [destruct (nleb lb v) eqn:E2|].
    + apply within_nleb; auto.
    + exfalso. rewrite (proj2 R1) in Hf; [discriminate|]. exists v. split; [exact Hv|]. intros G. apply within_nleb in G as [? ?]; congruence.
    + exfalso. rewrite (proj2 R1) in Hf; [discriminate|]. exists v. split; [exact Hv|]. intros G. apply within_nleb in G as [? ?]; congruence.
  - exact R2.
Qed.
Lemma scalar_default_free name lb ub p : legal lb ub -> scalar_init name lb ub None = Ok p ->
  ((exists f, scalar_get_free p = Ok f) <-> default_ok lb ub) /\
  (within lb ub (Fin (default_spec lb ub)) <-> default_ok lb ub).
Proof.
  intros H Hp. destruct (scalar_default name lb ub H) as [p' [E [Hg [Hl Hu]]]].
  rewrite Hp in E. inversion E; subst p'. clear E. unfold scalar_get in Hg.
  split; [|apply default_within; exact H]. rewrite <- default_within by exact H.
  destruct (scalar_get_free_rejects p (Fin (default_spec lb ub))) as [R1 R2].
  - rewrite Hl, Hu; exact H.
  - rewrite Hg. reflexivity.
  - rewrite Hg. reflexivity.
  - rewrite Hl, Hu in R1, R2. split; [|exact R2].
    intros [f Hf]. destruct (nleb (Fin (default_spec lb ub)) ub) eqn:E1; [destruct (nleb lb (Fin (default_spec lb ub))) eqn:E2|].
    + apply within_nleb; auto.
    + exfalso. rewrite (proj2 R1) in Hf; [discriminate|]. intros G. apply within_nleb in G as [? ?]; congruence.
    + exfalso. rewrite (proj2 R1) in Hf; [discriminate|]. intros G. apply within_nleb in G as [? ?]; congruence.
Qed.

(** ---- C07 ---- *)
Lemma vector_set_free_increasing p x y i : legal (vp_lb p) (vp_ub p) ->
  length x = vp_size p -> length y = vp_size p -> (i < vp_size p)%nat -> nth i x 0 < nth i y 0 ->
  exists px py a b, vector_set_free p (nd_vec (map Fin x)) = (px, Ok tt) /\
    vector_set_free p (nd_vec (map Fin y)) = (py, Ok tt) /\
    nth i (data (vector_get px)) NaN = Fin a /\ nth i (data (vector_get py)) NaN = Fin b /\ a < b.
Proof.
  intros H Hx Hy Hi Hlt. unfold nd_vec. rewrite !map_length.
  rewrite !vector_set_free_fin by (exact H || rewrite nprod_1; assumption).
  do 2 eexists. exists (cval (vp_lb p) (vp_ub p) (nth i x 0)), (cval (vp_lb p) (vp_ub p) (nth i y 0)).
  splits; try reflexivity.
  - cbn. rewrite map_map. rewrite (nth_indep _ NaN (Fin (cval (vp_lb p) (vp_ub p) 0))) by (rewrite map_length; lia).
    rewrite (map_nth (fun x => Fin (cval (vp_lb p) (vp_ub p) x))). reflexivity.
  - cbn. rewrite map_map. rewrite (nth_indep _ NaN (Fin (cval (vp_lb p) (vp_ub p) 0))) by (rewrite map_length; lia).
    rewrite (map_nth (fun x => Fin (cval (vp_lb p) (vp_ub p) x))). reflexivity.
  - apply cval_incr; assumption.
Qed.
Lemma vector_set_free_surjective p y : legal (vp_lb p) (vp_ub p) ->
  length y = vp_size p -> (forall v, In v y -> inside (vp_lb p) (vp_ub p) v) ->
  exists x px, length x = vp_size p /\ vector_set_free p (nd_vec (map Fin x)) = (px, Ok tt) /\ vector_get px = nd_vec (map Fin y).
Proof.
  intros H Hy Hin. exists (map (uval (vp_lb p) (vp_ub p)) y). eexists. splits.
  - rewrite map_length; exact Hy.
  - unfold nd_vec. rewrite !map_length. apply vector_set_free_fin; [exact H|rewrite nprod_1; exact Hy].
  - cbn. rewrite map_cval_uval by (exact H || (apply Forall_forall; exact Hin)). unfold nd_vec. rewrite map_length. reflexivity.
Qed.
Lemma array_set_free_increasing p x y i : legal (ap_lb p) (ap_ub p) ->
  length x = array_free_size p -> length y = array_free_size p -> (i < array_free_size p)%nat -> nth i x 0 < nth i y 0 ->
  exists px py a b, array_set_free p (nd_vec (map Fin x)) = (px, Ok tt) /\
    array_set_free p (nd_vec (map Fin y)) = (py, Ok tt) /\
    nth i (data (array_get px)) NaN = Fin a /\ nth i (data (array_get py)) NaN = Fin b /\ a < b.
Proof.
  intros H Hx Hy Hi Hlt. unfold nd_vec. rewrite !map_length. unfold array_free_size in *.
  rewrite !array_set_free_fin by (exact H || rewrite nprod_1; assumption).
  do 2 eexists. exists (cval (ap_lb p) (ap_ub p) (nth i x 0)), (cval (ap_lb p) (ap_ub p) (nth i y 0)).
  splits; try reflexivity.
  - cbn. rewrite map_map. rewrite (nth_indep _ NaN (Fin (cval (ap_lb p) (ap_ub p) 0))) by (rewrite map_length; lia).
    rewrite (map_nth (fun x => Fin (cval (ap_lb p) (ap_ub p) x))). reflexivity.
  - cbn. rewrite map_map. rewrite (nth_indep _ NaN (Fin (cval (ap_lb p) (ap_ub p) 0))) by (rewrite map_length; lia).
    rewrite (map_nth (fun x => Fin (cval (ap_lb p) (ap_ub p) x))). reflexivity.
  - apply cval_incr; assumption.
Qed.
Lemma array_set_free_surjective p y : legal (ap_lb p) (ap_ub p) ->
  length y = array_free_size p -> (forall v, In v y -> inside (ap_lb p) (ap_ub p) v) ->
  exists x px, length x = array_free_size p /\ array_set_free p (nd_vec (map Fin x)) = (px, Ok tt) /\
    array_get px = Nd (ap_shape p) (map Fin y).
Proof.
  intros H Hy Hin. exists (map (uval (ap_lb p) (ap_ub p)) y). eexists. splits.
  - rewrite map_length; exact Hy.
  - unfold nd_vec. rewrite !map_length. apply array_set_free_fin; [exact H|rewrite nprod_1; exact Hy].
  - cbn. rewrite map_cval_uval by (exact H || (apply Forall_forall; exact Hin)). reflexivity.
Qed.
Lemma scalar_set_free_increasing p x y : legal (sp_lb p) (sp_ub p) -> x < y ->
  exists px py a b, scalar_set_free p (nd_vec [Fin x]) = (px, Ok tt) /\ scalar_set_free p (nd_vec [Fin y]) = (py, Ok tt) /\
    scalar_get px = nd_vec [Fin a] /\ scalar_get py = nd_vec [Fin b] /\ a < b.
Proof.
  intros H Hlt. unfold scalar_set_free. change (nd_vec [Fin x]) with (Nd [1%nat] (map Fin [x])).
  change (nd_vec [Fin y]) with (Nd [1%nat] (map Fin [y])). rewrite !constrain_fin by exact H.
  do 2 eexists. exists (cval (sp_lb p) (sp_ub p) x), (cval (sp_lb p) (sp_ub p) y). splits; try reflexivity.
  apply cval_incr; assumption.
Qed.

(** ---- C08: derivatives ---- *)
Definition cder (lb ub : num) (x : R) : R :=
  match lb, ub with
  | NInf, PInf => 1
  | Fin l, PInf => exp x
  | NInf, Fin u => exp (- x)
  | Fin l, Fin u => (u - l) * exp x / ((1 + exp x) * (1 + exp x))
  | _, _ => 0
  end.
Definition cder2 (lb ub : num) (x : R) : R :=
  match lb, ub with
  | NInf, PInf => 0
  | Fin l, PInf => exp x
  | NInf, Fin u => - exp (- x)
  | Fin l, Fin u => (u - l) * exp x * (1 - exp x) / ((1 + exp x) * (1 + exp x) * (1 + exp x))
  | _, _ => 0
  end.
Lemma cval_derive lb ub x : legal lb ub -> is_derive (cval lb ub) x (cder lb ub x).
Proof.
  pose proof (exp_pos x) as He.
  destruct lb as [l| | |], ub as [u| | |]; cbn [legal]; intros H; try contradiction; cbn [cder].
  - unfold cval. auto_derive; [lra|]. field. lra.
  - unfold cval. auto_derive; [auto|]. ring.
  - unfold cval. auto_derive; [auto|]. ring.
  - unfold cval. auto_derive; [auto|]. ring.
Qed.
Lemma cder_derive lb ub x : legal lb ub -> is_derive (cder lb ub) x (cder2 lb ub x).
Proof.
  pose proof (exp_pos x) as He.
  destruct lb as [l| | |], ub as [u| | |]; cbn [legal]; intros H; try contradiction; cbn [cder2].
  - unfold cder. auto_derive; [nra|]. field. lra.
  - unfold cder. auto_derive; [auto|]. ring.
  - unfold cder. auto_derive; [auto|]. ring.
  - unfold cder. auto_derive; [auto|]. ring.
Qed.
Lemma cder_pos lb ub x : legal lb ub -> 0 < cder lb ub x.
Proof.
  pose proof (exp_pos x) as He. pose proof (exp_pos (- x)) as He'.
  destruct lb as [l| | |], ub as [u| | |]; cbn [legal]; intros H; try contradiction; cbn [cder]; try lra.
  apply Rdiv_lt_0_compat; nra.
Qed.
Lemma constrain_real_cval lb ub x : legal lb ub -> constrain_real lb ub x = cval lb ub x.
Proof. intros H. unfold constrain_real. rewrite constrain_entry_fin by exact H. reflexivity. Qed.
Lemma constrain_scalar_jac_eq lb ub x : legal lb ub -> constrain_scalar_jac x lb ub = cder lb ub x.
Proof.
  intros H. unfold constrain_scalar_jac. rewrite (Derive_ext _ (cval lb ub)) by (intros; apply constrain_real_cval; exact H).
  apply is_derive_unique, cval_derive; exact H.
Qed.
Lemma constrain_scalar_hess_eq lb ub x : legal lb ub -> constrain_scalar_hess x lb ub = cder2 lb ub x.
Proof.
  intros H. unfold constrain_scalar_hess.
  rewrite (Derive_ext _ (cder lb ub)) by (intros; apply constrain_scalar_jac_eq; exact H).
  apply is_derive_unique, cder_derive; exact H.
Qed.

(** upd *)
Lemma upd_length {A} (x : list A) j t : length (upd x j t) = length x.
Proof. revert j; induction x as [|a xs IH]; intros [|j]; simpl; auto. Qed.
Lemma nth_upd {A} (x : list A) j t i d : (j < length x)%nat -> nth i (upd x j t) d = if Nat.eqb i j then t else nth i x d.
Proof.
  revert j i; induction x as [|a xs IH]; intros j i H; [simpl in H; lia|].
  destruct j as [|j], i as [|i]; simpl; try reflexivity. apply IH. simpl in H; lia.
Qed.
Lemma upd_same {A} (x : list A) j d : upd x j (nth j x d) = x.
Proof. revert j; induction x as [|a xs IH]; intros [|j]; simpl; auto. f_equal; apply IH. Qed.

(** partial derivatives of a function of one coordinate *)
Lemma is_partial_ext_len f g j x d :
  (forall y, length y = length x -> f y = g y) -> is_partial f j x d -> is_partial g j x d.
Proof.
  intros E H. unfold is_partial in *. apply (is_derive_ext (fun t => f (upd x j t))); [|exact H].
  intros t. apply E. apply upd_length.
Qed.
Lemma is_partial_coord (g : R -> R) (d : R) i j x : (j < length x)%nat ->
  is_derive g (nth i x 0) d ->
  is_partial (fun y => g (nth i y 0)) j x (if Nat.eqb i j then d else 0).
Proof.
  intros Hj Hg. unfold is_partial. destruct (Nat.eqb i j) eqn:E.
  - apply Nat.eqb_eq in E. subst j. apply (is_derive_ext g).
    + intros t. rewrite nth_upd by exact Hj. rewrite Nat.eqb_refl. reflexivity.
    + exact Hg.
  - apply (is_derive_ext (fun _ => g (nth i x 0))).
    + intros t. rewrite nth_upd by exact Hj. rewrite E. reflexivity.
    + apply @is_derive_const.
Qed.
Lemma is_partial_unique f j x d : is_partial f j x d -> ad_partial f j x = d.
Proof. intros H. unfold ad_partial. apply is_derive_unique. exact H. Qed.
Lemma ad_partial_ext f g j x : (forall y, length y = length x -> f y = g y) -> ad_partial f j x = ad_partial g j x.
Proof. intros E. unfold ad_partial. apply Derive_ext. intros t. apply E, upd_length. Qed.

Lemma coo_get_map_seq n (g : nat -> R) i j sh :
  coo_get (Coo sh (map (fun k => ((k, k), g k)) (seq 0 n))) i j
  = if (Nat.eqb i j && Nat.ltb i n)%bool then g i else 0.
Proof.
  unfold coo_get. cbn [coo_ent]. rewrite map_map. rewrite lsum_map_seq.
  destruct (Nat.eqb i j) eqn:E; cbn [andb].
  - apply Nat.eqb_eq in E. subst j. destruct (Nat.ltb i n) eqn:L.
    + apply Nat.ltb_lt in L. rewrite (rsum_single n i); [rewrite Nat.eqb_refl; reflexivity|exact L|].
      intros k _ Hk. apply Nat.eqb_neq in Hk. rewrite Hk. reflexivity.
    + apply Nat.ltb_ge in L. apply rsum_zero. intros k Hk.
      assert (Nat.eqb k i = false) as -> by (apply Nat.eqb_neq; lia). reflexivity.
  - apply rsum_zero. intros k Hk. destruct (Nat.eqb k i) eqn:E1; [|reflexivity]. cbn.
    apply Nat.eqb_eq in E1. subst k. rewrite E. reflexivity.
Qed.
Lemma combine_diag n (g : nat -> R) :
  combine (combine (seq 0 n) (seq 0 n)) (map g (seq 0 n)) = map (fun k => ((k, k), g k)) (seq 0 n).
Proof. generalize 0%nat. induction n as [|n IH]; intros s; simpl; [reflexivity|]. f_equal. apply IH. Qed.
Lemma getitem_nth (x : list R) i : (i < length x)%nat -> getitem x i = Ok (nth i x 0).
Proof. intros H. unfold getitem. rewrite (nth_error_nth' x 0) by exact H. reflexivity. Qed.
Lemma diag_jac_spec n lb ub x : legal lb ub -> length x = n ->
  exists m, diag_jac n lb ub x = Ok m /\ coo_shape m = (n, n) /\
    forall i j, coo_get m i j = if (Nat.eqb i j && Nat.ltb i n)%bool then cder lb ub (nth i x 0) else 0.
Proof.
  intros H Hx. unfold diag_jac.
  rewrite (rmapM_ok _ (fun i => cder lb ub (nth i x 0))).
  - cbn [rbind]. eexists. split; [reflexivity|]. split; [reflexivity|]. intros i j. rewrite combine_diag. apply coo_get_map_seq.
  - intros i Hi. apply in_seq in Hi. rewrite getitem_nth by lia. cbn [rmap]. rewrite constrain_scalar_jac_eq by exact H. reflexivity.
Qed.
Lemma diag_hess_spec n lb ub x : legal lb ub -> length x = n ->
  exists hs, diag_hess n lb ub x = Ok hs /\ length hs = n /\
    forall k, (k < n)%nat -> exists m, nth_error hs k = Some m /\ coo_shape m = (n, n) /\
     forall i j, coo_get m i j = if (Nat.eqb i k && Nat.eqb j k)%bool then cder2 lb ub (nth k x 0) else 0.
Proof.
  intros H Hx. unfold diag_hess.
  rewrite (rmapM_ok _ (fun i => Coo (n, n) [((i, i), cder2 lb ub (nth i x 0))])).
  - eexists. split; [reflexivity|]. split; [rewrite map_length, seq_length; reflexivity|].
    intros k Hk. eexists. split.
    + rewrite nth_error_map. rewrite (nth_error_nth' _ 0%nat) by (rewrite seq_length; exact Hk). rewrite seq_nth by exact Hk. reflexivity.
    + split; [reflexivity|]. intros i j. unfold coo_get. cbn. rewrite (Nat.eqb_sym k i), (Nat.eqb_sym k j). lra.
  - intros i Hi. apply in_seq in Hi. rewrite getitem_nth by lia. cbn [rmap]. rewrite constrain_scalar_hess_eq by exact H. reflexivity.
Qed.

(** first and second partials of an entrywise map *)
Definition entrywise (F : list R -> list R) (n : nat) (lb ub : num) : Prop :=
  forall y, length y = n -> F y = map (cval lb ub) y.
Lemma nth_map_cval lb ub y k : (k < length y)%nat -> nth k (map (cval lb ub) y) 0 = cval lb ub (nth k y 0).
Proof.
  intros H. rewrite (nth_indep _ 0 (cval lb ub 0)) by (rewrite map_length; exact H). apply map_nth.
Qed.
Lemma entrywise_partial F n lb ub x k j : legal lb ub -> entrywise F n lb ub -> length x = n -> (k < n)%nat -> (j < n)%nat ->
  is_partial (fun y => nth k (F y) 0) j x (if Nat.eqb k j then cder lb ub (nth k x 0) else 0).
Proof.
  intros H HF Hx Hk Hj. apply (is_partial_ext_len (fun y => cval lb ub (nth k y 0))).
  - intros y Hy. rewrite HF by lia. rewrite nth_map_cval by lia. reflexivity.
  - apply is_partial_coord; [lia|]. apply cval_derive; exact H.
Qed.
Lemma entrywise_partial2 F n lb ub x k i j : legal lb ub -> entrywise F n lb ub -> length x = n ->
  (k < n)%nat -> (i < n)%nat -> (j < n)%nat ->
  is_partial2 (fun y => nth k (F y) 0) i j x (if (Nat.eqb i k && Nat.eqb j k)%bool then cder2 lb ub (nth k x 0) else 0).
Proof.
  intros H HF Hx Hk Hi Hj. exists (fun y => if Nat.eqb k j then cder lb ub (nth k y 0) else 0). split.
  - intros y Hy. apply (entrywise_partial F n); auto; lia.
  - destruct (Nat.eqb k j) eqn:E.
    + apply Nat.eqb_eq in E. subst j. rewrite Nat.eqb_refl, andb_true_r.
      rewrite (Nat.eqb_sym i k). apply (is_partial_coord (cder lb ub)); [lia|]. apply cder_derive; exact H.
    + rewrite (Nat.eqb_sym j k), E, andb_false_r. unfold is_partial. apply @is_derive_const.
Qed.
Lemma vector_entrywise p : legal (vp_lb p) (vp_ub p) -> entrywise (vector_free_to_vector p) (vp_size p) (vp_lb p) (vp_ub p).
Proof.
  intros H y Hy. unfold vector_free_to_vector, nd_vec. rewrite map_length.
  rewrite vector_set_free_fin by (exact H || rewrite nprod_1; exact Hy). cbn. apply toR_Fin_map.
Qed.
Lemma array_entrywise p : legal (ap_lb p) (ap_ub p) -> entrywise (array_free_to_vector p) (array_free_size p) (ap_lb p) (ap_ub p).
Proof.
  intros H y Hy. unfold array_free_to_vector, nd_vec. rewrite map_length.
  rewrite array_set_free_fin by (exact H || rewrite nprod_1; exact Hy). cbn. apply toR_Fin_map.
Qed.
Lemma scalar_entrywise p n : legal (sp_lb p) (sp_ub p) -> entrywise (scalar_free_to_vector p) n (sp_lb p) (sp_ub p).
Proof.
  intros H y Hy. unfold scalar_free_to_vector, nd_vec, scalar_set_free. rewrite constrain_fin by exact H. cbn. apply toR_Fin_map.
Qed.

Lemma entrywise_jac F n lb ub x : legal lb ub -> entrywise F n lb ub -> length x = n ->
  exists J, diag_jac n lb ub x = Ok J /\ true_jacobian F n x J /\ forall i, (i < n)%nat -> 0 < coo_get J i i.
Proof.
  intros H HF Hx. destruct (diag_jac_spec n lb ub x H Hx) as [J [E [S G]]]. exists J. split; [exact E|]. split.
  - split; [exact S|]. intros i j Hi Hj. rewrite G. apply Nat.ltb_lt in Hi as Hi'. rewrite Hi', andb_true_r.
    apply (entrywise_partial F n); assumption.
  - intros i Hi. rewrite G, Nat.eqb_refl. apply Nat.ltb_lt in Hi as Hi'. rewrite Hi'. cbn. apply cder_pos; exact H.
Qed.
Lemma entrywise_hess F n lb ub x : legal lb ub -> entrywise F n lb ub -> length x = n ->
  exists Hs, diag_hess n lb ub x = Ok Hs /\ true_hessians F n x Hs.
Proof.
  intros H HF Hx. destruct (diag_hess_spec n lb ub x H Hx) as [Hs [E [S G]]]. exists Hs. split; [exact E|].
  split; [exact S|]. intros k Hk. destruct (G k Hk) as [M [E1 [E2 E3]]]. exists M. split; [exact E1|]. split; [exact E2|].
  intros i j Hi Hj. rewrite E3. apply (entrywise_partial2 F n); assumption.
Qed.

Lemma lsum_filter_dense (f : nat -> R) i j (P : nat -> bool) m s :
  (forall c, P c = Nat.eqb c j) ->
  lsum (map (fun e : nat * nat * R => let '(r, c, v) := e in if (Nat.eqb r i && P c)%bool then v else 0)
    (flat_map (fun c => if Req_EM_T (f c) 0 then [] else [((i, c), f c)]) (seq s m)))
  = if (Nat.leb s j && Nat.ltb j (s + m))%bool then f j else 0.
Proof.
  intros HP. revert s; induction m as [|m IH]; intros s; cbn [seq flat_map].
  - rewrite Nat.add_0_r. destruct (Nat.leb s j) eqn:A, (Nat.ltb j s) eqn:B; cbn [andb]; try reflexivity.
    apply Nat.leb_le in A. apply Nat.ltb_lt in B. lia.
  - rewrite map_app, lsum_app, IH.
    assert (E : lsum (map (fun e : nat * nat * R => let '(r, c, v) := e in if (Nat.eqb r i && P c)%bool then v else 0)
        (if Req_EM_T (f s) 0 then [] else [((i, s), f s)])) = if Nat.eqb s j then f s else 0).
    { destruct (Req_EM_T (f s) 0) as [E|E]; cbn.
      - destruct (Nat.eqb s j); [rewrite E|]; reflexivity.
      - rewrite Nat.eqb_refl, HP. cbn. destruct (Nat.eqb s j); lra. }
    rewrite E. destruct (Nat.eqb s j) eqn:Esj.
    + apply Nat.eqb_eq in Esj. subst j.
      assert (Nat.leb (S s) s = false) as -> by (apply Nat.leb_gt; lia). cbn [andb].
      rewrite Nat.leb_refl. assert (Nat.ltb s (s + S m) = true) as -> by (apply Nat.ltb_lt; lia). cbn. lra.
    + apply Nat.eqb_neq in Esj.
      replace (s + S m)%nat with (S s + m)%nat by lia.
      destruct (Nat.leb s j) eqn:A, (Nat.leb (S s) j) eqn:B; cbn [andb]; try lra.
      * apply Nat.leb_le in A. apply Nat.leb_gt in B. lia.
      * apply Nat.leb_gt in A. apply Nat.leb_le in B. lia.
Qed.
Lemma coo_get_of_dense n m f i j : (i < n)%nat -> (j < m)%nat -> coo_get (coo_of_dense n m f) i j = f i j.
Proof.
  intros Hi Hj. unfold coo_get, coo_of_dense. cbn [coo_ent].
  assert (G : forall s n, lsum (map (fun e : nat * nat * R => let '(r, c, v) := e in if (Nat.eqb r i && Nat.eqb c j)%bool then v else 0)
     (flat_map (fun i => flat_map (fun j => if Req_EM_T (f i j) 0 then [] else [((i, j), f i j)]) (seq 0 m)) (seq s n)))
     = if (Nat.leb s i && Nat.ltb i (s + n))%bool then f i j else 0).
  { clear n Hi. intros s n; revert s; induction n as [|n IH]; intros s; cbn [seq flat_map].
    - rewrite Nat.add_0_r. destruct (Nat.leb s i) eqn:A, (Nat.ltb i s) eqn:B; cbn [andb]; try reflexivity.
      apply Nat.leb_le in A. apply Nat.ltb_lt in B. lia.
    - rewrite map_app, lsum_app, IH.
      assert (E : lsum (map (fun e : nat * nat * R => let '(r, c, v) := e in if (Nat.eqb r i && Nat.eqb c j)%bool then v else 0)
         (flat_map (fun j => if Req_EM_T (f s j) 0 then [] else [((s, j), f s j)]) (seq 0 m)))
          = if Nat.eqb s i then f s j else 0).
      { destruct (Nat.eqb s i) eqn:Esi.
        - apply Nat.eqb_eq in Esi. subst s. rewrite (lsum_filter_dense (f i) i j (fun c => Nat.eqb c j)) by reflexivity.
          cbn [Nat.leb andb]. apply Nat.ltb_lt in Hj. rewrite Nat.add_0_l, Hj. reflexivity.
        - generalize (seq 0 m). intros l; induction l as [|c l IHl]; cbn [flat_map]; [reflexivity|].
          rewrite map_app, lsum_app, IHl. destruct (Req_EM_T (f s c) 0); cbn; [lra|]. rewrite Esi. cbn. lra. }
      rewrite E. destruct (Nat.eqb s i) eqn:Esi.
      + apply Nat.eqb_eq in Esi. subst s.
        assert (Nat.leb (S i) i = false) as -> by (apply Nat.leb_gt; lia). cbn [andb].
        rewrite Nat.leb_refl. assert (Nat.ltb i (i + S n) = true) as -> by (apply Nat.ltb_lt; lia). cbn. lra.
      + apply Nat.eqb_neq in Esi. replace (s + S n)%nat with (S s + n)%nat by lia.
        destruct (Nat.leb s i) eqn:A, (Nat.leb (S s) i) eqn:B; cbn [andb]; try lra.
        * apply Nat.leb_le in A. apply Nat.leb_gt in B. lia.
        * apply Nat.leb_gt in A. apply Nat.leb_le in B. lia. }
  rewrite G. apply Nat.ltb_lt in Hi. cbn [Nat.leb andb]. rewrite Nat.add_0_l, Hi. reflexivity.
Qed.

Lemma entrywise_ad_jac F n lb ub x : legal lb ub -> entrywise F n lb ub -> length x = n ->
  true_jacobian F n x (coo_of_dense n n (ad_jac F x)) /\
  forall i, (i < n)%nat -> 0 < coo_get (coo_of_dense n n (ad_jac F x)) i i.
Proof.
  intros H HF Hx.
  assert (E : forall i j, (i < n)%nat -> (j < n)%nat -> ad_jac F x i j = if Nat.eqb i j then cder lb ub (nth i x 0) else 0).
  { intros i j Hi Hj. unfold ad_jac. apply is_partial_unique. apply (entrywise_partial F n); assumption. }
  split.
  - split; [reflexivity|]. intros i j Hi Hj. rewrite coo_get_of_dense by assumption. rewrite E by assumption.
    apply (entrywise_partial F n); assumption.
  - intros i Hi. rewrite coo_get_of_dense, E, Nat.eqb_refl by assumption. apply cder_pos; exact H.
Qed.
Lemma entrywise_ad_hess F n lb ub x : legal lb ub -> entrywise F n lb ub -> length x = n ->
  true_hessians F n x (map (fun k => coo_of_dense n n (ad_hess F x k)) (seq 0 n)).
Proof.
  intros H HF Hx. split; [rewrite map_length, seq_length; reflexivity|].
  intros k Hk. eexists. split.
  - rewrite nth_error_map. rewrite (nth_error_nth' _ 0%nat) by (rewrite seq_length; exact Hk). rewrite seq_nth by exact Hk. reflexivity.
  - split; [reflexivity|]. intros i j Hi Hj. cbn [Nat.add]. rewrite coo_get_of_dense by assumption.
    unfold ad_hess. destruct (entrywise_partial2 F n lb ub x k i j H HF Hx Hk Hi Hj) as [g [G1 G2]].
    exists g. split; [exact G1|].
    rewrite (ad_partial_ext _ g) by (intros y Hy; apply is_partial_unique, G1, Hy).
    rewrite (is_partial_unique g i x _ G2). exact G2.
Qed.

(** ---- C09, C10 ---- *)
Lemma vector_size_check p a : nd_size a <> vp_size p ->
  vector_set p a = (p, Raise ValueError) /\ vector_set_free p a = (p, Raise ValueError) /\
  vector_set_vector p a = (p, Raise ValueError).
Proof.
  intros H. apply Nat.eqb_neq in H. unfold vector_set_vector, vector_set, vector_set_free. rewrite H. cbn. auto.
Qed.
Lemma array_size_check p a :
  (shape a <> ap_shape p -> array_set p a = (p, Raise ValueError)) /\
  (nd_size a <> array_free_size p -> array_set_free p a = (p, Raise ValueError) /\ array_set_vector p a = (p, Raise ValueError)).
Proof.
  split.
  - intros H. unfold array_set. destruct (shape_eqb (shape a) (ap_shape p)) eqn:E; [|reflexivity].
    apply shape_eqb_true in E. contradiction.
  - intros H. apply Nat.eqb_neq in H. unfold array_set_free, array_set_vector, array_vector_size, array_free_size in *.
    rewrite H. cbn. auto.
Qed.
Lemma np_reshape_bad {A} (a : nd A) n : nd_size a <> n -> np_reshape a [n] = Raise ValueError.
Proof. intros H. unfold np_reshape. rewrite nprod_1. apply Nat.eqb_neq in H. rewrite H. reflexivity. Qed.
Lemma scalar_no_size_check p a : legal (sp_lb p) (sp_ub p) -> nd_wf a -> nd_size a <> 1%nat ->
  (exists p', scalar_set_vector p a = (p', Ok tt) /\ scalar_get_vector p' = Raise ValueError) /\
  (exists p', scalar_set_free p a = (p', Ok tt) /\ scalar_get_vector p' = Raise ValueError /\ scalar_get_free p' = Raise ValueError).
Proof.
  intros H Hw Hs. split.
  - eexists. split; [reflexivity|]. unfold scalar_get_vector. cbn [sp_val]. apply np_reshape_bad; exact Hs.
  - unfold scalar_set_free. rewrite constrain_any by exact H. eexists. split; [reflexivity|]. split.
    + unfold scalar_get_vector. cbn [sp_val]. apply np_reshape_bad. exact Hs.
    + unfold scalar_get_free, unconstrain_scalar. cbn [sp_val nd_map data].
      unfold nd_wf in Hw. unfold nd_size in Hs. destruct (data a) as [|v [|w l]]; cbn; try reflexivity.
      cbn in Hw. lia.
Qed.

Lemma vector_init_ok name n lb ub val p : (forall a, val = Some a -> nd_wf a) ->
  vector_init name n lb ub val = Ok p -> vector_wf p /\ vp_lb p = lb /\ vp_ub p = ub /\ vp_size p = n.
Proof.
  intros Hv. unfold vector_init, rassert.
  destruct (nleb NInf lb) eqn:E1; [|discriminate]. destruct (nleb ub PInf) eqn:E2; [|discriminate].
  destruct (nleb ub lb) eqn:E3; [discriminate|].
  assert (H : legal lb ub) by (apply legal_init_checks; auto).
  destruct val as [a|]; cbn [rbind].
  - unfold vector_set. cbn [vp_size]. destruct (Nat.eqb (nd_size a) n) eqn:E4; cbn; [|discriminate].
    intros G; inversion G; subst; cbn. apply Nat.eqb_eq in E4. unfold vector_wf; cbn. splits; auto.
  - rewrite get_inbounds_value_spec by exact H. cbn [rbind]. unfold vector_set. cbn [vp_size].
    unfold nd_size; cbn [shape np_full]. rewrite nprod_1, Nat.eqb_refl. cbn [negb].
    intros G; inversion G; subst; cbn. unfold vector_wf; cbn. splits; auto; [apply np_full_wf|apply nprod_1].
Qed.
Lemma array_init_ok name sh lb ub val p : (forall a, val = Some a -> nd_wf a) ->
  array_init name sh lb ub val = Ok p -> array_wf p /\ ap_lb p = lb /\ ap_ub p = ub /\ ap_shape p = sh.
Proof.
  intros Hv. unfold array_init, rassert.
  destruct (nleb NInf lb) eqn:E1; [|discriminate]. destruct (nleb ub PInf) eqn:E2; [|discriminate].
  destruct (nleb ub lb) eqn:E3; [discriminate|].
  assert (H : legal lb ub) by (apply legal_init_checks; auto).
  destruct val as [a|]; cbn [rbind].
  - unfold array_set. cbn [ap_shape]. destruct (shape_eqb (shape a) sh) eqn:E4; cbn; [|discriminate].
    intros G; inversion G; subst; cbn. apply shape_eqb_true in E4. unfold array_wf; cbn. splits; auto.
  - rewrite get_inbounds_value_spec by exact H. cbn [rbind]. unfold array_set. cbn [ap_shape].
    cbn [shape np_full]. rewrite shape_eqb_refl. cbn [negb].
    intros G; inversion G; subst; cbn. unfold array_wf; cbn. splits; auto. apply np_full_wf.
Qed.
Lemma scalar_init_ok name lb ub val p :
  scalar_init name lb ub val = Ok p -> legal lb ub /\ sp_lb p = lb /\ sp_ub p = ub.
Proof.
  unfold scalar_init, rassert. destruct (nleb ub lb) eqn:E3; [discriminate|].
  destruct (nleb NInf lb) eqn:E1; [|discriminate]. destruct (nleb ub PInf) eqn:E2; [|discriminate].
  assert (H : legal lb ub) by (apply legal_init_checks; auto).
  destruct val as [a|]; cbn [rbind].
  - intros G; inversion G; subst; auto.
  - rewrite get_inbounds_value_spec by exact H. cbn [rbind]. intros G; inversion G; subst; auto.
Qed.
Lemma init_accepts name n sh lb ub : legal lb ub ->
  (forall a, nd_size a = n -> is_ok (vector_init name n lb ub (Some a)) = true) /\
  (forall a, shape a = sh -> is_ok (array_init name sh lb ub (Some a)) = true) /\
  (forall a, is_ok (scalar_init name lb ub (Some a)) = true).
Proof.
  intros H. destruct (init_checks lb ub H) as [A [B C]]. splits; intros a.
  - intros Ha. unfold vector_init. rewrite A, B, C. cbn. unfold vector_set. cbn. rewrite Ha, Nat.eqb_refl. reflexivity.
  - intros Ha. unfold array_init. rewrite A, B, C. cbn. unfold array_set. cbn. rewrite Ha, shape_eqb_refl. reflexivity.
  - unfold scalar_init. rewrite A, B, C. reflexivity.
Qed.

Lemma np_reshape_wf {A} (a b : nd A) s : nd_wf a -> np_reshape a s = Ok b -> nd_wf b /\ shape b = s /\ data b = data a.
Proof.
  unfold np_reshape. destruct (Nat.eqb (nd_size a) (nprod s)) eqn:E; [|discriminate].
  intros Hw G; inversion G; subst. unfold nd_wf in *; cbn. apply Nat.eqb_eq in E. unfold nd_size in E. splits; auto. lia.
Qed.
Lemma vector_step_wf p o : nd_wf (op_arg o) -> vector_wf p ->
  vector_wf (vector_step p o) /\ vp_lb (vector_step p o) = vp_lb p /\ vp_ub (vector_step p o) = vp_ub p
  /\ vp_size (vector_step p o) = vp_size p.
Proof.
  intros Ha [H [Hw Hs]].
  assert (S : forall a, nd_wf a -> let q := fst (vector_set p a) in
     vector_wf q /\ vp_lb q = vp_lb p /\ vp_ub q = vp_ub p /\ vp_size q = vp_size p).
  { intros a Hwa. unfold vector_set. destruct (Nat.eqb (nd_size a) (vp_size p)) eqn:E; cbn.
    - apply Nat.eqb_eq in E. unfold vector_wf; cbn. splits; auto.
    - unfold vector_wf. splits; auto. }
  destruct o as [a|a|a]; cbn [vector_step op_arg] in *.
  - apply S; exact Ha.
  - unfold vector_set_free. destruct (Nat.eqb (nd_size a) (vp_size p)) eqn:E; cbn [negb].
    + rewrite constrain_any by exact H. apply S. apply nd_map_wf; exact Ha.
    + cbn. unfold vector_wf. splits; auto.
  - apply S; exact Ha.
Qed.
Lemma array_step_wf p o : nd_wf (op_arg o) -> array_wf p ->
  array_wf (array_step p o) /\ ap_lb (array_step p o) = ap_lb p /\ ap_ub (array_step p o) = ap_ub p
  /\ ap_shape (array_step p o) = ap_shape p.
Proof.
  intros Ha [H [Hw Hs]].
  assert (S : forall a, nd_wf a -> let q := fst (array_set p a) in
     array_wf q /\ ap_lb q = ap_lb p /\ ap_ub q = ap_ub p /\ ap_shape q = ap_shape p).
  { intros a Hwa. unfold array_set. destruct (shape_eqb (shape a) (ap_shape p)) eqn:E; cbn.
    - apply shape_eqb_true in E. unfold array_wf; cbn. splits; auto.
    - unfold array_wf. splits; auto. }
  assert (P : array_wf p /\ ap_lb p = ap_lb p /\ ap_ub p = ap_ub p /\ ap_shape p = ap_shape p).
  { unfold array_wf. splits; auto. }
  destruct o as [a|a|a]; cbn [array_step op_arg] in *.
  - apply S; exact Ha.
  - unfold array_set_free. destruct (Nat.eqb (nd_size a) (array_free_size p)) eqn:E; cbn [negb]; [|exact P].
    rewrite constrain_any by exact H. cbn [rbind].
    destruct (np_reshape _ (ap_shape p)) as [b|e] eqn:R; [|exact P].
    apply S. apply np_reshape_wf in R; [tauto|]. apply nd_map_wf; exact Ha.
  - unfold array_set_vector. destruct (Nat.eqb (nd_size a) (array_vector_size p)) eqn:E; cbn [negb]; [|exact P].
    destruct (np_reshape a (ap_shape p)) as [b|e] eqn:R; [|exact P].
    apply S. apply np_reshape_wf in R; [tauto|exact Ha].
Qed.
Lemma scalar_step_bounds p o : sp_lb (scalar_step p o) = sp_lb p /\ sp_ub (scalar_step p o) = sp_ub p.
Proof.
  destruct o as [a|a|a]; cbn; auto. unfold scalar_set_free. destruct (constrain a (sp_lb p) (sp_ub p)); cbn; auto.
Qed.
Lemma vector_history p ops : vector_wf p -> (forall o, In o ops -> nd_wf (op_arg o)) ->
  let q := fold_left vector_step ops p in
  vector_wf q /\ vp_lb q = vp_lb p /\ vp_ub q = vp_ub p /\ vp_size q = vp_size p.
Proof.
  revert p; induction ops as [|o ops IH]; cbn [fold_left]; intros p Hp Ho; [splits; auto|].
  destruct (vector_step_wf p o (Ho o (or_introl eq_refl)) Hp) as [A [B [C D]]].
  destruct (IH (vector_step p o) A) as [A' [B' [C' D']]]. { intros o' Ho'. apply Ho; right; exact Ho'. }
  splits; auto; congruence.
Qed.
Lemma array_history p ops : array_wf p -> (forall o, In o ops -> nd_wf (op_arg o)) ->
  let q := fold_left array_step ops p in
  array_wf q /\ ap_lb q = ap_lb p /\ ap_ub q = ap_ub p /\ ap_shape q = ap_shape p.
Proof.
  revert p; induction ops as [|o ops IH]; cbn [fold_left]; intros p Hp Ho; [splits; auto|].
  destruct (array_step_wf p o (Ho o (or_introl eq_refl)) Hp) as [A [B [C D]]].
  destruct (IH (array_step p o) A) as [A' [B' [C' D']]]. { intros o' Ho'. apply Ho; right; exact Ho'. }
  splits; auto; congruence.
Qed.
Lemma scalar_history p ops : let q := fold_left scalar_step ops p in sp_lb q = sp_lb p /\ sp_ub q = sp_ub p.
Proof.
  revert p; induction ops as [|o ops IH]; cbn [fold_left]; intros p; [auto|].
  destruct (IH (scalar_step p o)) as [B' C']. destruct (scalar_step_bounds p o) as [B C]. split; congruence.
Qed.

(** ---- combined forms used by PropsParameters ---- *)
Lemma array_closed_roundtrip p : array_wf p ->
  (forall v, In v (data (ap_val p)) -> within (ap_lb p) (ap_ub p) v) ->
  exists f p', array_get_free p = Ok f /\ array_set_free p f = (p', Ok tt) /\
    shape (array_get p') = shape (array_get p) /\
    forall i, (i < length (data (array_get p)))%nat ->
      (lossy (ap_lb p) (ap_ub p) (nth i (data (array_get p)) NaN) ->
          nth i (data f) NaN = PInf /\ nth i (data (array_get p')) NaN = NaN) /\
      (~ lossy (ap_lb p) (ap_ub p) (nth i (data (array_get p)) NaN) ->
          nth i (data (array_get p')) NaN = nth i (data (array_get p)) NaN).
Proof.
  intros [H [Hw Hs]] Hx. destruct p as [nm sh lb ub [s l]]. cbn in *. subst s.
  exists (Nd [nprod sh] (map (fun v => unconstrain_entry v lb ub) l)).
  eexists. splits.
  - unfold array_get_free. cbn [ap_val ap_lb ap_ub].
    rewrite (proj1 (unconstrain_array_spec lb ub _ H)); [reflexivity|]. cbn. apply Forall_forall. exact Hx.
  - unfold array_set_free, array_free_size. cbn [ap_shape ap_lb ap_ub]. unfold nd_size. cbn [shape].
    rewrite nprod_1, Nat.eqb_refl. cbn [negb]. rewrite constrain_any by exact H. cbn [rbind].
    unfold np_reshape, nd_size. cbn [shape data nd_map]. rewrite nprod_1, Nat.eqb_refl.
    unfold array_set. cbn [shape ap_shape]. rewrite shape_eqb_refl. reflexivity.
  - reflexivity.
  - intros i Hi. cbn [array_get ap_val nd_map data] in *. rewrite map_map.
    assert (Hn : within lb ub (nth i l NaN)) by (apply Hx, nth_In; exact Hi).
    rewrite (nth_indep (map (fun x => constrain_entry (unconstrain_entry x lb ub) lb ub) l) NaN
               (constrain_entry (unconstrain_entry NaN lb ub) lb ub)) by (rewrite map_length; exact Hi).
    rewrite (map_nth (fun x => constrain_entry (unconstrain_entry x lb ub) lb ub)).
    split.
    + intros L. destruct (lossy_entry lb ub _ H L) as [_ [U C]]. rewrite U, C. split; [|reflexivity].
      rewrite (nth_indep _ NaN (unconstrain_entry NaN lb ub)) by (rewrite map_length; exact Hi).
      rewrite (map_nth (fun v => unconstrain_entry v lb ub)). exact U.
    + intros L. apply closed_roundtrip_entry; assumption.
Qed.
Lemma scalar_closed_roundtrip p v : legal (sp_lb p) (sp_ub p) -> sp_val p = nd_scalar v ->
  within (sp_lb p) (sp_ub p) v ->
  exists f p', scalar_get_free p = Ok f /\ scalar_set_free p f = (p', Ok tt) /\
    (lossy (sp_lb p) (sp_ub p) v -> f = nd_vec [PInf] /\ scalar_get p' = nd_vec [NaN]) /\
    (~ lossy (sp_lb p) (sp_ub p) v -> scalar_get p' = nd_vec [v]).
Proof.
  intros H Hv Hw. destruct p as [nm lb ub a]. cbn [sp_lb sp_ub sp_val] in *. subst a.
  exists (nd_vec [unconstrain_entry v lb ub]). eexists. splits.
  - unfold scalar_get_free, unconstrain_scalar. cbn [sp_val sp_lb sp_ub nd_scalar data].
    apply within_nleb in Hw as [-> ->]; [|exact H]. cbn [negb]. unfold unconstrain. rewrite legal_nleb by exact H. reflexivity.
  - unfold scalar_set_free. cbn [sp_lb sp_ub]. rewrite constrain_any by exact H. reflexivity.
  - intros L. destruct (lossy_entry lb ub _ H L) as [_ [U C]]. unfold scalar_get, nd_map, nd_vec. cbn [fst scalar_set sp_val shape data map length]. rewrite U, C. split; reflexivity.
  - intros L. unfold scalar_get, nd_map, nd_vec. cbn [fst scalar_set sp_val shape data map length]. rewrite closed_roundtrip_entry by assumption. reflexivity.
Qed.
Lemma scalar_default_full name lb ub : legal lb ub ->
  exists p, scalar_init name lb ub None = Ok p /\ scalar_get p = nd_scalar (Fin (default_spec lb ub)) /\
  ((exists f, scalar_get_free p = Ok f) <-> default_ok lb ub) /\
  (within lb ub (Fin (default_spec lb ub)) <-> default_ok lb ub).
Proof.
  intros H. destruct (scalar_default name lb ub H) as [p [E [G _]]]. exists p. split; [exact E|]. split; [exact G|].
  eapply scalar_default_free; eassumption.
Qed.
Lemma vector_default_full name n lb ub : legal lb ub -> (0 < n)%nat ->
  exists p, vector_init name n lb ub None = Ok p /\ vector_get p = np_full [n] (Fin (default_spec lb ub)) /\
  ((exists f, vector_get_free p = Ok f) <-> default_ok lb ub) /\
  ((forall v, In v (data (vector_get p)) -> within lb ub v) <-> default_ok lb ub).
Proof.
  intros H Hn. destruct (vector_default name n lb ub H) as [p [E [_ [G _]]]]. exists p. split; [exact E|]. split; [exact G|].
  eapply vector_default_free; eassumption.
Qed.
Lemma array_default_full name sh lb ub : legal lb ub -> (0 < nprod sh)%nat ->
  exists p, array_init name sh lb ub None = Ok p /\ array_get p = np_full sh (Fin (default_spec lb ub)) /\
  ((exists f, array_get_free p = Ok f) <-> default_ok lb ub) /\
  ((forall v, In v (data (array_get p)) -> within lb ub v) <-> default_ok lb ub).
Proof.
  intros H Hn. destruct (array_default name sh lb ub H) as [p [E [_ [G _]]]]. exists p. split; [exact E|]. split; [exact G|].
  eapply array_default_free; eassumption.
Qed.
Lemma default_refuted :
  exists name n lb ub p, legal lb ub /\ vector_init name n lb ub None = Ok p /\ vector_get_free p = Raise ValueError.
Proof.
  assert (H : legal (Fin 1) (Fin 2)) by (cbn; lra).
  destruct (vector_default "v"%string 1 _ _ H) as [p [E [W [G [L [U S]]]]]].
  exists "v"%string, 1%nat, (Fin 1), (Fin 2), p. splits; auto.
  apply vector_get_free_rejects; [rewrite L, U; exact H|]. unfold vector_get in G. rewrite G, L, U.
  eexists. split; [left; reflexivity|]. cbn. lra.
Qed.
Lemma scalar_set_free_surjective p y : legal (sp_lb p) (sp_ub p) -> inside (sp_lb p) (sp_ub p) y ->
  exists x px, scalar_set_free p (nd_vec [Fin x]) = (px, Ok tt) /\ scalar_get px = nd_vec [Fin y].
Proof.
  intros H Hy. exists (uval (sp_lb p) (sp_ub p) y). eexists. split.
  - unfold scalar_set_free. change (nd_vec [Fin ?x]) with (Nd [1%nat] (map Fin [x])).
    change (nd_vec [Fin (uval (sp_lb p) (sp_ub p) y)]) with (Nd [1%nat] (map Fin [uval (sp_lb p) (sp_ub p) y])).
    rewrite constrain_fin by exact H. reflexivity.
  - cbn. rewrite cval_uval by assumption. reflexivity.
Qed.
Lemma vector_derivatives p x : legal (vp_lb p) (vp_ub p) -> length x = vp_size p ->
  (exists J, vector_free_to_vector_jac p x = Ok J /\ true_jacobian (vector_free_to_vector p) (vp_size p) x J /\
     forall i, (i < vp_size p)%nat -> 0 < coo_get J i i) /\
  (exists Hs, vector_free_to_vector_hess p x = Ok Hs /\ true_hessians (vector_free_to_vector p) (vp_size p) x Hs).
Proof.
  intros H Hx. split.
  - apply entrywise_jac; auto. apply vector_entrywise; exact H.
  - apply entrywise_hess; auto. apply vector_entrywise; exact H.
Qed.
Lemma array_derivatives p x : legal (ap_lb p) (ap_ub p) -> length x = array_free_size p ->
  (exists J, array_free_to_vector_jac p x = Ok J /\ true_jacobian (array_free_to_vector p) (array_free_size p) x J /\
     forall i, (i < array_free_size p)%nat -> 0 < coo_get J i i) /\
  (exists Hs, array_free_to_vector_hess p x = Ok Hs /\ true_hessians (array_free_to_vector p) (array_free_size p) x Hs).
Proof.
  intros H Hx. split.
  - apply entrywise_jac; auto. apply array_entrywise; exact H.
  - apply entrywise_hess; auto. apply array_entrywise; exact H.
Qed.
Lemma scalar_derivatives p x0 : legal (sp_lb p) (sp_ub p) ->
  true_jacobian (scalar_free_to_vector p) 1 [x0] (scalar_free_to_vector_jac p [x0]) /\
  0 < coo_get (scalar_free_to_vector_jac p [x0]) 0 0 /\
  true_hessians (scalar_free_to_vector p) 1 [x0] (scalar_free_to_vector_hess p [x0]).
Proof.
  intros H. destruct (entrywise_ad_jac (scalar_free_to_vector p) 1 _ _ [x0] H (scalar_entrywise p 1 H) eq_refl) as [A B].
  splits; [exact A|apply B; lia|]. exact (entrywise_ad_hess _ 1 _ _ [x0] H (scalar_entrywise p 1 H) eq_refl).
Qed.
Lemma vector_free_to_vector_meaning p x : legal (vp_lb p) (vp_ub p) -> length x = vp_size p ->
  exists p', vector_set_free p (nd_vec (map Fin x)) = (p', Ok tt) /\
    vector_get_vector p' = Ok (nd_vec (map Fin (vector_free_to_vector p x))).
Proof.
  intros H Hx. rewrite (vector_entrywise p H x Hx). unfold nd_vec. rewrite !map_length.
  rewrite vector_set_free_fin by (exact H || rewrite nprod_1; exact Hx).
  eexists. split; reflexivity.
Qed.
Lemma vector_lifetime name n lb ub val p ops : (forall a, val = Some a -> nd_wf a) ->
  vector_init name n lb ub val = Ok p -> (forall o, In o ops -> nd_wf (op_arg o)) ->
  let q := fold_left vector_step ops p in
  legal lb ub /\ vp_lb q = lb /\ vp_ub q = ub /\ vp_size q = n /\ vector_free_size q = n /\ vector_vector_size q = n /\
  nd_size (vector_get q) = n /\ vector_wf q.
Proof.
  intros Hv Hp Ho q. destruct (vector_init_ok _ _ _ _ _ _ Hv Hp) as [W [L [U S]]].
  destruct (vector_history p ops W Ho) as [W' [L' [U' S']]]. fold q in W', L', U', S'.
  unfold vector_free_size, vector_vector_size, vector_get. pose proof W' as [A [B C]].
  rewrite L', U', L, U in A. splits; try congruence; assumption.
Qed.
Lemma array_lifetime name sh lb ub val p ops : (forall a, val = Some a -> nd_wf a) ->
  array_init name sh lb ub val = Ok p -> (forall o, In o ops -> nd_wf (op_arg o)) ->
  let q := fold_left array_step ops p in
  legal lb ub /\ ap_lb q = lb /\ ap_ub q = ub /\ ap_shape q = sh /\ array_free_size q = nprod sh /\
  array_vector_size q = nprod sh /\ shape (array_get q) = sh /\ array_wf q.
Proof.
  intros Hv Hp Ho q. destruct (array_init_ok _ _ _ _ _ _ Hv Hp) as [W [L [U S]]].
  destruct (array_history p ops W Ho) as [W' [L' [U' S']]]. fold q in W', L', U', S'.
  unfold array_free_size, array_vector_size, array_get. pose proof W' as [A [B C]].
  rewrite L', U', L, U in A. splits; try congruence; assumption.
Qed.
Lemma scalar_lifetime name lb ub val p ops : scalar_init name lb ub val = Ok p ->
  let q := fold_left scalar_step ops p in legal lb ub /\ sp_lb q = lb /\ sp_ub q = ub.
Proof.
  intros Hp q. destruct (scalar_init_ok _ _ _ _ _ Hp) as [W [L U]].
  destruct (scalar_history p ops) as [L' U']. fold q in L', U'. splits; congruence.
Qed.
