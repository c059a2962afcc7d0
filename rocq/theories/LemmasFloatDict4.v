(** Dictionaries of parameters in double precision: setting a tree to its own free value moves every parameter little. *)
From Coq Require Import String Reals List Bool Arith Lia Lra.
From Flocq Require Import Core BinarySingleNaN.
From Verif Require Import Res Nd SpecFloat SpecFloatSimplex SpecFloatAcc SpecFloatMatrix SpecFloatCholesky SpecFloatRefresh SpecFloatRefresh2 SpecFloatStack SpecFloatReach ModelFloat ModelFloatDict SpecFloatDict SpecFloatDict2 SpecFloatDict3
  LemmasFloat LemmasFloat2 LemmasFloatParams LemmasFloatSimplex4 LemmasFloatMatrix LemmasFloatMatrix2 LemmasFloatStack LemmasFloatStack2 LemmasFloatDict LemmasFloatDict2 LemmasFloatDict3 LemmasFloatRefresh2 LemmasFloatRefresh3 LemmasFloatRefresh4.
From Verif Require ModelMatrix ModelFloatParams ModelFloatSimplex ModelFloatMatrix ModelFloatStack PropsFloat4.
Import List ListNotations.
Set Bullet Behavior "Strict Subproofs".
Close Scope R_scope.

(** the index with the number o *)
Fixpoint index_of (s : list nat) (o : nat) : list nat :=
  match s with [] => [] | _ :: s' => (o / how_many s') :: index_of s' (o mod how_many s') end.
Lemma index_of_valid s : forall o, o < how_many s -> valid_index s (index_of s o).
Proof.
  induction s as [|k s IH]; intros o H; [constructor|]. cbn [how_many fold_right] in H. fold (how_many s) in H. cbn [index_of]. assert (how_many s <> 0) by nia.
  constructor; [apply Nat.div_lt_upper_bound; lia|]. apply IH. apply Nat.mod_upper_bound. assumption.
Qed.
Lemma index_of_position s : forall obs, valid_index s obs -> index_of s (position s obs) = obs.
Proof.
  induction s as [|k s IH]; intros obs H; inversion H as [|a ? l ? Ha Hl]; subst; [reflexivity|]. cbn [index_of position]. pose proof (position_bound s l Hl) as B.
  rewrite Nat.div_add_l by lia. rewrite (Nat.div_small _ _ B), Nat.add_0_r. rewrite (Nat.add_comm (a * how_many s)), Nat.mod_add by lia. rewrite (Nat.mod_small _ _ B), (IH l Hl). reflexivity.
Qed.

Section Leaf.
Context (fexp flog : dbl -> dbl) (fsum : list dbl -> dbl) (fdot : nat -> nat -> list dbl -> list dbl -> dbl) (fchol : nd dbl -> res (nd dbl)).
Context (Hexp : exp_good fexp) (Hlog : log_good flog) (Hsum : sums fsum) (Hdot : matmul_good fdot) (Hch : cholesky_good fchol) (Hcl : cholesky_close fchol) (Hcs : cholesky_succeeds fchol).
Notation goal l := (exists w l', fl_get_free flog fchol l = Ok w /\ length w = fl_free_size l /\ fl_set_free fexp flog fsum fdot l w = Ok l' /\ moved_little l l').

Lemma scalar_refresh p : settled (FScalar p) -> goal (FScalar p).
Proof.
  intros [(v0 & p0 & I) (G & N & v & D & Hv)]. destruct p as [lb ub a]. cbn [ModelFloatParams.fscalar_get ModelFloatParams.fs_val ModelFloatParams.fs_lb ModelFloatParams.fs_ub] in *.
  assert (S : ModelFloatParams.fscalar_set p0 a = Ok (ModelFloatParams.mkFS lb ub a)).
  { destruct (fscalar_init_fields _ _ _ _ I) as (E1 & E2 & _). unfold ModelFloatParams.fscalar_set. rewrite E1, E2. reflexivity. }
  destruct (PropsFloat4.C121_scalar fexp flog Hexp Hlog lb ub G v0 p0 a v _ I N D S Hv) as (w & q' & r & Gw & Sw & Er & K).
  assert (W : w = nd_vec (data w) /\ length (data w) = 1).
  { unfold ModelFloatParams.fscalar_get_free in Gw. cbn [ModelFloatParams.fs_val ModelFloatParams.fs_lb ModelFloatParams.fs_ub] in Gw. unfold ModelFloatParams.nd_f_unconstrain_scalar, ModelFloatParams.nd_f_unconstrain in Gw. rewrite D in Gw. cbn [map ModelFloatParams.f_truth rbind] in Gw.
    destruct (negb _); [discriminate|]. destruct (negb _); [discriminate|]. destruct (fle ub lb); [discriminate|]. cbn [rbind] in Gw. unfold np_reshape in Gw. destruct (Nat.eqb _ _); [|discriminate]. injection Gw as <-. unfold nd_map. cbn [data]. rewrite D. split; reflexivity. }
  destruct W as [W L]. exists (data w), (FScalar q'). cbn [fl_get_free fl_set_free fl_free_size]. rewrite Gw. split; [reflexivity|]. split; [exact L|]. rewrite <- W, Sw. split; [reflexivity|].
  change (Forall2 (refresh_close lb ub) (data a) (data (ModelFloatParams.fscalar_get q'))). rewrite D, Er. constructor; [exact K|constructor].
Qed.
Lemma vector_refresh p : settled (FVector p) -> goal (FVector p).
Proof.
  intros [(v0 & p0 & I) (G & L & Hv)]. destruct p as [n lb ub a]. cbn [fvector_get fv_val fv_lb fv_ub fv_size] in *.
  assert (S : fvector_set p0 a = Ok (mkFV n lb ub a)).
  { destruct (fvector_init_fields _ _ _ _ _ I) as (E1 & E2 & E3 & _). unfold fvector_set. rewrite E1, E2, E3, L, Nat.eqb_refl. reflexivity. }
  destruct (PropsFloat4.C121_vector fexp flog Hexp Hlog lb ub G n v0 p0 a _ I S Hv) as (w & q' & Gw & Sw & K). exists w, (FVector q'). cbn [fl_get_free fl_set_free fl_free_size fv_size].
  split; [exact Gw|]. assert (Lw : length w = n). { unfold fvector_set_free in Sw. cbn [fv_size] in Sw. destruct (Nat.eqb_spec (length w) n); [assumption|discriminate]. } split; [exact Lw|]. rewrite Sw. split; [reflexivity|exact K].
Qed.
Lemma array_refresh p : settled (FArray p) -> goal (FArray p).
Proof.
  intros [(v0 & p0 & I) (G & Sh & L & Hv)]. destruct p as [sh lb ub a]. cbn [ModelFloatParams.farray_get ModelFloatParams.fa_val ModelFloatParams.fa_lb ModelFloatParams.fa_ub ModelFloatParams.fa_shape] in *.
  assert (S : ModelFloatParams.farray_set p0 a = Ok (ModelFloatParams.mkFA sh lb ub a)).
  { destruct (farray_init_fields _ _ _ _ _ I) as (E1 & E2 & E3 & _). rewrite (farray_set_ok p0 a) by (rewrite E1; exact Sh). rewrite E1, E2, E3. reflexivity. }
  destruct (PropsFloat4.C121_array fexp flog Hexp Hlog lb ub G sh v0 p0 a _ I S Hv) as (w & q' & Gw & Sw & Sq & K).
  assert (W : w = nd_vec (data w) /\ length (data w) = nprod sh).
  { unfold ModelFloatParams.farray_get_free, ModelFloatParams.nd_f_unconstrain_array, ModelFloatParams.nd_f_unconstrain in Gw. cbn [ModelFloatParams.fa_val ModelFloatParams.fa_lb ModelFloatParams.fa_ub] in Gw.
    destruct (negb _); [discriminate|]. destruct (negb _); [discriminate|]. destruct (fle ub lb); [discriminate|]. cbn [rbind] in Gw. injection Gw as <-. unfold np_flatten, nd_map, nd_vec. cbn [data shape]. rewrite map_length, L, Sh. split; reflexivity. }
  destruct W as [W Lw]. exists (data w), (FArray q'). cbn [fl_get_free fl_set_free fl_free_size]. rewrite Gw. split; [reflexivity|]. split; [exact Lw|]. rewrite <- W, Sw. split; [reflexivity|].
  cbn [moved_little]. split; [etransitivity; [exact Sq|symmetry; exact Sh]|exact K].
Qed.
Lemma simplex_leaf_refresh p : settled (FSimplex p) -> goal (FSimplex p).
Proof.
  intros [(v0 & p0 & I) (C1 & C2 & L & F)]. destruct p as [rows cols a]. cbn [ModelFloatSimplex.fsimplex_get ModelFloatSimplex.fs_val ModelFloatSimplex.fs_rows ModelFloatSimplex.fs_cols] in *. rewrite Forall_forall in F.
  assert (S : ModelFloatSimplex.fsimplex_set p0 a = Ok (ModelFloatSimplex.mkFS rows cols a)).
  { destruct (init_fields _ _ _ _ I) as (E1 & E2). unfold ModelFloatSimplex.fsimplex_set. rewrite E1, E2, L, Nat.eqb_refl. replace (forallb _ a) with true; [reflexivity|]. symmetry. apply forallb_forall. intros row Hr. apply Nat.eqb_eq. exact (proj1 (F row Hr)). }
  destruct (simplex_refresh fexp flog fsum Hexp Hlog Hsum rows cols v0 p0 a _ I C1 C2 S) as (q' & Sq & Lq & K); [apply Forall_forall; intros row Hr; exact (proj2 (F row Hr))|].
  exists (ModelFloatSimplex.fsimplex_get_free flog (ModelFloatSimplex.mkFS rows cols a)), (FSimplex q'). cbn [fl_get_free fl_set_free fl_free_size]. split; [reflexivity|]. split; [|rewrite Sq; split; [reflexivity|]].
  - unfold ModelFloatSimplex.fsimplex_set_free in Sq. destruct (Nat.eqb_spec (length (ModelFloatSimplex.fsimplex_get_free flog (ModelFloatSimplex.mkFS rows cols a))) (ModelFloatSimplex.fs_rows (ModelFloatSimplex.mkFS rows cols a) * (ModelFloatSimplex.fs_cols (ModelFloatSimplex.mkFS rows cols a) - 1))) as [E|E]; [exact E|discriminate].
  - apply Forall2_nth_error; [etransitivity; [exact Lq|symmetry; exact L]|]. intros r row Hr. destruct (K r row Hr) as (probs & Hp & _ & Np). exists probs. split; assumption.
Qed.
Lemma posdef_refresh p : settled (FPosDef p) -> goal (FPosDef p).
Proof.
  intros [_ ((N & B & Z) & Sh & T & W)]. destruct p as [n lb m]. cbn [ModelFloatMatrix.fp_size ModelFloatMatrix.fp_lb ModelFloatMatrix.fposdef_get ModelFloatMatrix.fp_val] in *.
  pose proof (tidy_reachable fexp fdot n lb m B Z Sh T) as Rp. destruct (refresh_inside fexp flog Hexp Hlog fdot Hdot fchol Hch Hcl n N lb B Z _ Rp T Hcs W) as (w & p' & G & S & C & Sp & K).
  exists w, (FPosDef p'). cbn [fl_get_free fl_set_free fl_free_size]. split; [exact G|]. split; [exact (proj1 C)|]. rewrite S. split; [reflexivity|]. split; [exact Sp|exact K].
Qed.
Lemma stack_refresh p : settled (FPosDefV p) -> goal (FPosDefV p).
Proof.
  intros [_ ((N & B & Z) & P & Sh & H)].
  destruct (choose_items (ModelFloatStack.fv_length p) (fun o m => ModelMatrix.nd_index (ModelFloatStack.fv_get p) [o] = Ok m /\ inside (ModelFloatStack.fv_size p) (ModelFloatStack.fv_lb p) m) (Nd [] []) H) as [M HM].
  destruct (v_refresh fexp flog Hexp Hlog fdot Hdot fchol Hch Hcl Hcs p M N B Z P Sh HM) as (w & p' & G & S & Sp & K).
  exists w, (FPosDefV p'). cbn [fl_get_free fl_set_free fl_free_size]. split; [exact G|]. split.
  - unfold ModelFloatStack.fv_set_free in S. destruct (Nat.eqb_spec (length w) (ModelFloatStack.fv_free_size p)) as [E|E]; [exact E|discriminate].
  - rewrite S. split; [reflexivity|]. split; [exact Sp|]. intros o m Ho E. destruct (K o Ho) as (m' & E' & Q). exists m'. split; [exact E'|]. assert (X : M o = m) by (assert (Y := eq_trans (eq_sym (proj1 (HM o Ho))) E); injection Y as Y; exact Y). rewrite <- X. exact Q.
Qed.
Lemma astack_refresh p : settled (FPosDefA p) -> goal (FPosDefA p).
Proof.
  intros [_ ((N & B & Z) & P & H)]. set (s := ModelFloatStack.fa_ashape p) in *.
  destruct (choose_items (how_many s) (fun o m => ModelMatrix.nd_index (ModelFloatStack.fa_get p) (index_of s o) = Ok m /\ inside (ModelFloatStack.fa_size p) (ModelFloatStack.fa_lb p) m) (Nd [] [])) as [M HM];
    [intros o Ho; exact (H _ (index_of_valid s o Ho))|].
  assert (I : forall obs, valid_index s obs -> ModelMatrix.nd_index (ModelFloatStack.fa_get p) obs = Ok (M (position s obs))).
  { intros obs V. rewrite <- (proj1 (HM _ (position_bound s obs V))). rewrite (index_of_position s obs V). reflexivity. }
  destruct (a_refresh fexp flog Hexp Hlog fdot Hdot fchol Hch Hcl Hcs p M N B Z P I (fun o Ho => proj2 (HM o Ho))) as (w & p' & G & S & Sp & K).
  exists w, (FPosDefA p'). cbn [fl_get_free fl_set_free fl_free_size]. split; [exact G|]. split.
  - unfold ModelFloatStack.fa_set_free in S. destruct (Nat.eqb_spec (length w) (ModelFloatStack.fa_free_size p)) as [E|E]; [exact E|discriminate].
  - rewrite S. split; [reflexivity|]. split; [exact Sp|]. intros obs m V E. destruct (K obs V) as (m' & E' & Q). exists m'. split; [exact E'|]. cbv zeta in Q. assert (X : M (position s obs) = m) by (assert (Y := eq_trans (eq_sym (I obs V)) E); injection Y as Y; exact Y). rewrite <- X. exact Q.
Qed.
Lemma leaf_refresh l : settled l -> goal l.
Proof. destruct l; [apply scalar_refresh|apply vector_refresh|apply array_refresh|apply simplex_leaf_refresh|apply posdef_refresh|apply stack_refresh|apply astack_refresh]. Qed.

Lemma order_refresh ms : (forall m, In m ms -> settled (snd m)) -> exists w ms', get_in_order (fl_get_free flog fchol) ms = Ok w /\ length w = total fl_free_size ms /\
  set_in_order fl_free_size (fl_set_free fexp flog fsum fdot) ms w = (ms', Ok tt) /\ Forall2 (fun m m' => fst m' = fst m /\ moved_little (snd m) (snd m')) ms ms'.
Proof.
  induction ms as [|[k l] ms IH]; intros H; [exists [], []; repeat split; constructor|].
  destruct (leaf_refresh l (H _ (or_introl eq_refl))) as (a & l' & Ga & La & Sa & Ma). destruct (IH (fun m Hm => H m (or_intror Hm))) as (w & ms' & Gw & Lw & Sw & Mw).
  exists (a ++ w), ((k, l') :: ms'). cbn [get_in_order set_in_order]. rewrite Ga. cbn [rbind]. rewrite Gw. cbn [rbind]. split; [reflexivity|]. split; [unfold total in *; cbn [map list_sum fold_right snd]; etransitivity; [apply app_length|]; exact (f_equal2 Nat.add La Lw)|].
  rewrite <- La. rewrite firstn_app, Nat.sub_diag, firstn_O, app_nil_r, firstn_all. rewrite Sa. rewrite skipn_app, Nat.sub_diag, skipn_all. cbn [skipn app]. rewrite Sw. split; [reflexivity|].
  constructor; [split; [reflexivity|exact Ma]|exact Mw].
Qed.
Lemma t_refresh p : built (fd_set_free fexp flog fsum fdot) fd_set_vector p -> no_empty p -> (forall m, In m (members p) -> settled (snd m)) ->
  exists w p', fd_get_free flog fchol p = Ok w /\ length w = fd_free_size p /\ fd_set_free fexp flog fsum fdot p w = (p', Ok tt) /\
    Forall2 (fun m m' => fst m' = fst m /\ moved_little (snd m) (snd m')) (members p) (members p').
Proof.
  intros B N H. destruct (order_refresh (members p) H) as (w & ms' & G & L & S & M). rewrite <- (get_free_order flog fchol p N) in G. rewrite <- (proj1 (t_sizes _ _ _ _ p B)) in L.
  destruct (t_set_free fexp flog fsum fdot p w B L) as [Q _]. cbv zeta in Q. rewrite S in Q. destruct (fd_set_free fexp flog fsum fdot p w) as [p' r] eqn:E. cbn [fst snd] in Q. injection Q as Q1 Q2. subst ms' r.
  exists w, p'. split; [exact G|]. split; [exact L|]. split; [exact E|exact M].
Qed.
End Leaf.
