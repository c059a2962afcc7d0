(** The parameter classes with moments. *)
From Coq Require Import String Reals List Arith Lia Lra Bool.
From Verif Require Import Res Num Nd RSum ModelParameters ModelMatrix ModelDict ModelNumpy ModelExpFam ModelFamilies LemmasPosDef LemmasNumpy SpecMatrix SpecExpFam SpecFamilies LemmasExpFam LemmasEntropy.
Import List ListNotations.
Open Scope R_scope.
Set Bullet Behavior "Strict Subproofs".

Lemma member_holds d k a : holds d k a -> member d k = Ok a.
Proof. intros [l [H <-]]. unfold member. rewrite H. reflexivity. Qed.

Section Uvn.
Variables (d : param) (s : list nat) (m L : list nat -> R).
Hypothesis Hm : holds d "mean" (farr s m).
Hypothesis HL : holds d "info" (farr s L).
Hypothesis P : forall i, index s i -> 0 < L i.
Lemma recip_entries : nbin ndiv (lit 1) (Ok (farr s L)) = Ok (farr s (fun i => / L i)).
Proof. pyfin. rewrite ndiv_fin by (specialize (P idx Hidx); lra). f_equal. field. specialize (P idx Hidx); lra. Qed.
Lemma uvn_var_value : uvn_var d = Ok (farr s (fun i => / L i)).
Proof. unfold uvn_var. rewrite (member_holds _ _ _ HL). apply recip_entries. Qed.
Lemma uvn_e_outer_value : uvn_e_outer d = Ok (farr s (fun i => m i * m i + / L i)).
Proof. unfold uvn_e_outer. rewrite (member_holds _ _ _ HL), (member_holds _ _ _ Hm), recip_entries. pyfin. reflexivity. Qed.
Lemma uvn_e_exp_value : uvn_e_exp d = Ok (farr s (fun i => exp (m i + / L i / 2))).
Proof. unfold uvn_e_exp. rewrite (member_holds _ _ _ HL), (member_holds _ _ _ Hm), recip_entries. cbn [rbind]. apply lognormal_mean_entries. Qed.
Lemma uvn_var_exp_value : uvn_var_exp d = Ok (farr s (fun i => (exp (/ L i) - 1) * (exp (m i + / L i / 2) * exp (m i + / L i / 2)))).
Proof. unfold uvn_var_exp. rewrite (member_holds _ _ _ HL), (member_holds _ _ _ Hm), recip_entries. cbn [rbind]. apply lognormal_var_entries. Qed.
Lemma uvn_e2_exp_value : uvn_e2_exp d = Ok (farr s (fun i => exp (m i + / L i / 2) * exp (m i + / L i / 2) + (exp (/ L i) - 1) * (exp (m i + / L i / 2) * exp (m i + / L i / 2)))).
Proof. unfold uvn_e2_exp. rewrite uvn_var_exp_value, uvn_e_exp_value. pyfin. reflexivity. Qed.
Lemma uvn_array_entropy_same : uvn_array_entropy d = uvn_entropy d.
Proof.
  unfold uvn_array_entropy, uvn_entropy. rewrite (member_holds _ _ _ HL). cbn [rbind]. rewrite uvn_entropy_value by exact P.
  rewrite fnum_mk, sum_all_mk. apply Ok_eq. apply mk_nd_ext. intros _ _. cbn. f_equal. lra.
Qed.
End Uvn.
Lemma second_moment (D : dist R) : is_dist D -> expect D (fun x => x * x) = mean D * mean D + variance D.
Proof.
  intros H. rewrite <- (Rplus_0_r (expect D (fun x => x * x))). transitivity (expect D (fun x => (x - 0) * (x - 0))); [|rewrite expect_centered by exact H; ring].
  rewrite Rplus_0_r. apply expect_ext. intros; ring.
Qed.
Lemma uvn_moments d s m L :
  holds d "mean" (farr s m) -> holds d "info" (farr s L) -> (forall i, index s i -> 0 < L i) ->
  exists v eo ee ve e2,
    uvn_e d = Ok (farr s m) /\ uvn_var d = Ok (farr s v) /\ uvn_e_outer d = Ok (farr s eo) /\
    uvn_e_exp d = Ok (farr s ee) /\ uvn_var_exp d = Ok (farr s ve) /\ uvn_e2_exp d = Ok (farr s e2) /\
    get_e_lognormal (farr s (fun i => 2 * m i)) (farr s (fun i => 4 * v i)) = Ok (farr s e2) /\
    forall i, index s i -> v i = / L i /\ ee i = exp (m i + v i / 2) /\ 0 < ve i /\ e2 i = ee i * ee i + ve i /\
      forall D, is_dist D -> mean D = m i -> variance D = v i -> expect D (fun x => x * x) = eo i.
Proof.
  intros Hm HL P. exists (fun i => / L i), (fun i => m i * m i + / L i), (fun i => exp (m i + / L i / 2)),
    (fun i => (exp (/ L i) - 1) * (exp (m i + / L i / 2) * exp (m i + / L i / 2))),
    (fun i => exp (m i + / L i / 2) * exp (m i + / L i / 2) + (exp (/ L i) - 1) * (exp (m i + / L i / 2) * exp (m i + / L i / 2))).
  split; [exact (member_holds _ _ _ Hm)|]. split; [apply uvn_var_value; assumption|]. split; [apply uvn_e_outer_value; assumption|].
  split; [apply uvn_e_exp_value; assumption|]. split; [apply uvn_var_exp_value; assumption|]. split; [apply uvn_e2_exp_value; assumption|].
  split.
  - rewrite lognormal_mean_entries. apply Ok_eq. apply farr_ext. intros i Hi. rewrite <- !exp_plus.
    replace (2 * m i + 4 * / L i / 2) with (/ L i + (m i + / L i / 2 + (m i + / L i / 2))) by (field; specialize (P i Hi); lra). rewrite (exp_plus (/ L i)). ring.
  - intros i Hi. specialize (P i Hi). assert (Q : 0 < / L i) by (apply Rinv_0_lt_compat; exact P). split; [reflexivity|]. split; [reflexivity|]. split; [|split; [reflexivity|]].
    + assert (1 < exp (/ L i)) by (rewrite <- exp_0; apply exp_increasing; exact Q). apply Rmult_lt_0_compat; [lra|]. apply Rmult_lt_0_compat; apply exp_pos.
    + intros D HD M V. rewrite second_moment by exact HD. rewrite M, V. reflexivity.
Qed.
Lemma uvn_class_entropy d s m L (D : list nat -> dist R) :
  holds d "mean" (farr s m) -> holds d "info" (farr s L) -> (forall i, index s i -> 0 < L i /\ is_dist (D i)) ->
  uvn_e d = Ok (farr s (fun i => mean (D i))) -> uvn_var d = Ok (farr s (fun i => variance (D i))) ->
  uvn_array_entropy d = uvn_entropy d /\
  uvn_entropy d = Ok (fnum (lsum (map (fun i => - expect (D i) (fun x => ln (normal_pdf (m i) (L i) x))) (product s)))).
Proof.
  intros Hm HL P E V. split; [apply (uvn_array_entropy_same d s L HL); intros i Hi; apply P, Hi|].
  unfold uvn_entropy. rewrite (member_holds _ _ _ HL). cbn [rbind]. apply normal_entropy_expect. intros i Hi.
  split; [apply P, Hi|]. split; [apply P, Hi|]. unfold uvn_e in E. rewrite (member_holds _ _ _ Hm) in E. rewrite (uvn_var_value d s L HL) in V by (intros k Hk; apply P, Hk).
  injection E as E. injection V as V. split.
  - assert (Q := mk_nd_inj s (fun i => Fin (m i)) (fun i => Fin (mean (D i)))). specialize (Q ltac:(unfold mk_nd; f_equal; exact E) i Hi). injection Q as Q. symmetry. exact Q.
  - assert (Q := mk_nd_inj s (fun i => Fin (/ L i)) (fun i => Fin (variance (D i)))). specialize (Q ltac:(unfold mk_nd; f_equal; exact V) i Hi). injection Q as Q. symmetry. exact Q.
Qed.

(** ---- UVNMomentParamArray ---- *)
Lemma od_get_replace_same {V} (e : list (string * V)) k v q : od_get e k = Some q -> od_get (od_replace e k v) k = Some v.
Proof. induction e as [|[k' v'] e IH]; [discriminate|]. cbn. destruct (String.eqb k k') eqn:E; intros H; cbn; rewrite E; [reflexivity|apply IH, H]. Qed.
Lemma od_get_replace_other {V} (e : list (string * V)) k k0 v : k0 <> k -> od_get (od_replace e k v) k0 = od_get e k0.
Proof.
  intros N. induction e as [|[k' v'] e IH]; [reflexivity|]. cbn. destruct (String.eqb_spec k k') as [->|]; cbn; destruct (String.eqb_spec k0 k') as [->|]; try congruence; reflexivity.
Qed.
Lemma getitem_replace_same d k q r : d_getitem d k = Ok r -> d_getitem (d_replace d k q) k = Ok q.
Proof. destruct d as [l|nm e fi vi fs vs]; cbn; [discriminate|]. destruct (od_get e k) eqn:E; [|discriminate]. intros _. rewrite (od_get_replace_same _ _ _ _ E). reflexivity. Qed.
Lemma getitem_replace_other d k k0 q : k0 <> k -> d_getitem (d_replace d k q) k0 = d_getitem d k0.
Proof. intros N. destruct d as [l|nm e fi vi fs vs]; cbn; [reflexivity|]. rewrite od_get_replace_other by exact N. reflexivity. Qed.
Lemma set_array_member d k s a : array_member d k s -> shape a = s ->
  exists d', values_setitem d k a = (d', Ok tt) /\ holds d' k a /\ array_member d' k s /\ forall k0, k0 <> k -> d_getitem d' k0 = d_getitem d k0.
Proof.
  intros [p [G S]] Sa. unfold values_setitem. rewrite G. cbn [p_set leaf_set]. unfold array_set. rewrite Sa, S, shape_eqb_refl. cbn [negb lift fst snd].
  eexists. split; [reflexivity|]. split; [|split].
  - eexists. split; [apply (getitem_replace_same d k _ _ G)|reflexivity].
  - eexists. split; [apply (getitem_replace_same d k _ _ G)|reflexivity].
  - intros k0 N. apply getitem_replace_other, N.
Qed.
Lemma holds_transfer d d' k a : d_getitem d' k = d_getitem d k -> holds d k a -> holds d' k a.
Proof. intros E [l [H G]]. exists l. rewrite E. auto. Qed.
Lemma array_member_transfer d d' k s : d_getitem d' k = d_getitem d k -> array_member d k s -> array_member d' k s.
Proof. intros E [l [H G]]. exists l. rewrite E. auto. Qed.
Lemma set_two x s a b : moment_array x s -> shape a = s -> shape b = s ->
  exists d1 d', set_member (um_dict x) "e" (Ok a) = (d1, Ok tt) /\ set_member d1 "e2" (Ok b) = (d', Ok tt) /\
    holds d' "e" a /\ holds d' "e2" b /\ moment_array (UvnMoment d' (um_shape x)) s.
Proof.
  intros [Hs [He He2]] Sa Sb. destruct (set_array_member _ _ _ a He Sa) as [d1 [E1 [H1 [A1 O1]]]].
  assert (He2' : array_member d1 "e2" s) by (apply (array_member_transfer (um_dict x)); [apply O1; discriminate|exact He2]).
  destruct (set_array_member _ _ _ b He2' Sb) as [d' [E2 [H2 [A2 O2]]]]. exists d1, d'. cbn [set_member]. split; [exact E1|]. split; [exact E2|].
  split; [apply (holds_transfer d1); [apply O2; discriminate|exact H1]|]. split; [exact H2|]. split; [exact Hs|]. split; [|exact A2].
  cbn [um_dict]. apply (array_member_transfer d1); [apply O2; discriminate|exact A1].
Qed.
Section Um.
Variables (d : param) (s : list nat) (m w : list nat -> R).
Hypothesis He : holds d "e" (farr s m).
Hypothesis He2 : holds d "e2" (farr s w).
Lemma um_var_value : um_var d = Ok (farr s (fun i => w i - m i * m i)).
Proof. unfold um_var. rewrite (member_holds _ _ _ He), (member_holds _ _ _ He2). pyfin. reflexivity. Qed.
Lemma um_e_exp_value : um_e_exp d = Ok (farr s (fun i => exp (m i + (w i - m i * m i) / 2))).
Proof. unfold um_e_exp. rewrite (member_holds _ _ _ He), um_var_value. cbn [rbind]. apply lognormal_mean_entries. Qed.
End Um.
Lemma moment_array_init nm s mi x : uvn_moment_init nm s mi = Ok x -> moment_array x s.
Proof.
  unfold uvn_moment_init. destruct (array_init "e" s NInf PInf None) as [e|] eqn:E1; [|discriminate]. cbn [rbind].
  destruct (array_init "e2" s mi PInf None) as [e2|] eqn:E2; [|discriminate]. cbn [rbind]. intros H. injection H as <-.
  assert (Q : forall k lb ub p, array_init k s lb ub None = Ok p -> ap_name p = k /\ ap_shape p = s).
  { intros k lb ub p. unfold array_init, rassert. destruct (nleb NInf lb), (nleb ub PInf), (nleb ub lb); try discriminate.
    destruct (get_inbounds_value lb ub) as [v|]; [|discriminate]. cbn [rbind]. unfold array_set. cbn [ap_shape shape np_full ap_name ap_lb ap_ub]. rewrite shape_eqb_refl. cbn [negb]. intros H. injection H as <-. split; reflexivity. }
  destruct (Q _ _ _ _ E1) as [N1 S1], (Q _ _ _ _ E2) as [N2 S2]. unfold moment_array, array_member. cbn [um_shape um_dict].
  unfold dict_of. cbn [fold_left]. unfold dict_init, push_param. cbn [fst p_name leaf_name od_set]. rewrite N1, N2. cbn [String.eqb Ascii.eqb Bool.eqb od_set d_getitem od_get].
  split; [reflexivity|]. split; eexists; (split; [reflexivity|assumption]).
Qed.
Lemma set_from_uvn_agrees x q s m L :
  moment_array x s -> ua_shape q = s -> holds (ua_dict q) "mean" (farr s m) -> holds (ua_dict q) "info" (farr s L) -> (forall i, index s i -> 0 < L i) ->
  exists x', um_set_from_uvn x q = (x', Ok tt) /\ moment_array x' s /\
    um_e (um_dict x') = uvn_e (ua_dict q) /\ um_e_outer (um_dict x') = uvn_e_outer (ua_dict q) /\ um_var (um_dict x') = uvn_var (ua_dict q) /\
    um_e_exp (um_dict x') = uvn_e_exp (ua_dict q) /\ um_entropy (um_dict x') = uvn_array_entropy (ua_dict q).
Proof.
  intros M Sq Hm HL P. unfold um_set_from_uvn. rewrite Sq. rewrite (proj1 M), shape_eqb_refl. cbn [negb].
  unfold uvn_e. rewrite (member_holds _ _ _ Hm). rewrite (uvn_e_outer_value (ua_dict q) s m L Hm HL P).
  destruct (set_two x s (farr s m) (farr s (fun i => m i * m i + / L i)) M eq_refl eq_refl) as [d1 [d' [E1 [E2 [H1 [H2 M']]]]]].
  rewrite E1. rewrite E2. cbn [fst snd]. rewrite <- (proj1 M). eexists. split; [reflexivity|]. rewrite (proj1 M) in M' |- *. split; [exact M'|]. cbn [um_dict].
  assert (V : um_var d' = Ok (farr s (fun i => / L i))) by (rewrite (um_var_value d' s _ _ H1 H2); apply Ok_eq, farr_ext; intros; ring).
  split; [exact (member_holds _ _ _ H1)|]. split; [exact (member_holds _ _ _ H2)|]. split; [rewrite V, (uvn_var_value _ s L HL P); reflexivity|]. split.
  - rewrite (um_e_exp_value d' s _ _ H1 H2), (uvn_e_exp_value _ s m L Hm HL P). apply Ok_eq, farr_ext. intros. f_equal. lra.
  - unfold um_entropy, uvn_array_entropy. rewrite V, (member_holds _ _ _ HL). rewrite (recip_entries s (fun i => / L i)) by (intros i Hi; apply Rinv_0_lt_compat, P, Hi).
    cbn [rbind]. rewrite (farr_ext s (fun i => / / L i) L); [reflexivity|]. intros i Hi. apply Rinv_inv.
Qed.
Lemma set_from_uvn_mismatch x q : ua_shape q <> um_shape x -> um_set_from_uvn x q = (x, Raise AssertionError).
Proof. intros H. unfold um_set_from_uvn. destruct (shape_eqb (ua_shape q) (um_shape x)) eqn:E; [apply shape_eqb_true in E; contradiction|reflexivity]. Qed.
Lemma moment_constant_shapes x c : ap_shape c <> um_shape x -> um_set_from_constant x c = (x, Raise AssertionError).
Proof. intros H. unfold um_set_from_constant. destruct (shape_eqb (ap_shape c) (um_shape x)) eqn:E; [apply shape_eqb_true in E; contradiction|reflexivity]. Qed.
Lemma set_from_constant_value x c s m : moment_array x s -> ap_shape c = s -> array_get c = farr s m ->
  exists x', um_set_from_constant x c = (x', Ok tt) /\ moment_array x' s /\
    um_e (um_dict x') = Ok (farr s m) /\ um_var (um_dict x') = Ok (farr s (fun _ => 0)) /\ um_e_outer (um_dict x') = Ok (farr s (fun i => m i * m i)) /\
    um_e_exp (um_dict x') = Ok (farr s (fun i => exp (m i))) /\ (product s <> [] -> um_entropy (um_dict x') = Ok (nd_scalar NInf)).
Proof.
  intros M Sc Gc. unfold um_set_from_constant. rewrite Sc, (proj1 M), shape_eqb_refl. cbn [negb]. rewrite Gc.
  assert (E : np_pow2 (Ok (farr s m)) = Ok (farr s (fun i => m i * m i))) by (pyfin; reflexivity). rewrite E.
  destruct (set_two x s (farr s m) (farr s (fun i => m i * m i)) M eq_refl eq_refl) as [d1 [d' [E1 [E2 [H1 [H2 M']]]]]].
  rewrite E1, E2. cbn [fst snd]. rewrite <- (proj1 M). eexists. split; [reflexivity|]. rewrite (proj1 M) in M' |- *. split; [exact M'|]. cbn [um_dict].
  assert (V : um_var d' = Ok (farr s (fun _ => 0))) by (rewrite (um_var_value d' s _ _ H1 H2); apply Ok_eq, farr_ext; intros; ring).
  split; [exact (member_holds _ _ _ H1)|]. split; [exact V|]. split; [exact (member_holds _ _ _ H2)|]. split.
  - rewrite (um_e_exp_value d' s _ _ H1 H2). apply Ok_eq, farr_ext. intros. f_equal. field.
  - intros Ne. unfold um_entropy. rewrite V. unfold farr. py. cbn [rbind].
    replace (ndiv (Fin 1) (Fin 0)) with PInf by (unfold ndiv; destruct (Req_EM_T 0 0); [|lra]; destruct (Rlt_dec 0 1); [reflexivity|lra]).
    unfold univariate_normal_entropy. py. apply Ok_eq. cbn [product map]. unfold nd_scalar, mk_nd. cbn [product map]. do 2 f_equal.
    cbn [nmul]. rewrite nlog_pos by (pose proof PI_RGT_0; lra).
    assert (Z : forall l : list (list nat), l <> [] -> nsum (map (fun _ => nadd (nadd (nmul (Fin (-1)) (nlog PInf)) (Fin 1)) (Fin (ln (2 * PI)))) l) = NInf).
    { intros l Hl. cbn [nlog]. replace (nmul (Fin (-1)) PInf) with NInf by (cbn [nmul]; unfold nscale_inf; destruct (Rlt_dec 0 (-1)); [lra|]; destruct (Rlt_dec (-1) 0); [reflexivity|lra]). cbn [nadd].
      destruct l as [|y l]; [contradiction|]. unfold nsum. cbn [map fold_left nadd]. clear. induction l as [|z l IH]; [reflexivity|]. cbn [map fold_left nadd]. exact IH. }
    rewrite Z by exact Ne. cbn [nmul]. unfold nscale_inf. destruct (Rlt_dec 0 (/ 2)); [|lra]. reflexivity.
Qed.
(** UVNMomentParamArray.var_exp is the mean: for a constant the variance is zero, the class reports exp(c) > 0 *)
Lemma um_var_exp_is_mean d : um_var_exp d = um_e_exp d.
Proof. reflexivity. Qed.
Lemma um_var_exp_wrong d s m w : holds d "e" (farr s m) -> holds d "e2" (farr s w) ->
  exists r v, um_var_exp d = Ok (farr s r) /\ um_e_exp d = Ok (farr s r) /\ (do e <- um_e d; do y <- um_var d; get_var_lognormal e y) = Ok (farr s v) /\
    forall i, index s i -> (w i = m i * m i -> v i = 0 /\ 0 < r i) /\ (r i = v i <-> (exp (w i - m i * m i) - 1) * r i = 1).
Proof.
  intros He He2. eexists _, _. split; [apply (um_e_exp_value d s m w He He2)|]. split; [apply (um_e_exp_value d s m w He He2)|]. split.
  - unfold um_e. rewrite (member_holds _ _ _ He), (um_var_value d s m w He He2). cbn [rbind]. apply lognormal_var_entries.
  - intros i Hi. cbn beta. set (r := exp (m i + (w i - m i * m i) / 2)). assert (R : 0 < r) by apply exp_pos. split.
    + intros ->. split; [|exact R]. replace (m i * m i - m i * m i) with 0 by ring. rewrite exp_0. ring.
    + split; intros H; [apply (Rmult_eq_reg_l r); [lra|lra]|]. transitivity (((exp (w i - m i * m i) - 1) * r) * r); [rewrite H; ring|ring].
Qed.

(** ---- MVNParam ---- *)
Section Mvn.
Variable inv : arr -> res arr.
Lemma np_outer_vec n x : np_outer (fvec_of n x) (fvec_of n x) = fmat_of n n (fun i j => x i * x j).
Proof.
  unfold np_outer. assert (S : nd_size (fvec_of n x) = n) by (unfold nd_size, fvec_of, farr; rewrite mk_nd_shape; unfold nprod; cbn; lia).
  rewrite S. unfold fmat_of, farr. apply mk_nd_ext. intros idx H. apply in_product_2_inv in H as [i [j [-> [Hi Hj]]]]. cbn [nth].
  assert (G : forall k, (k < n)%nat -> nth k (data (fvec_of n x)) NaN = Fin (x k)).
  { intros k Hk. unfold fvec_of, farr, mk_nd. cbn [data]. rewrite product_1, map_map. cbn [nth]. rewrite (nth_indep _ NaN (Fin (x 0%nat))) by (rewrite map_length, seq_length; exact Hk).
    rewrite (map_nth (fun k => Fin (x k)) (seq 0 n) 0%nat k). rewrite seq_nth by exact Hk. reflexivity. }
  rewrite !G by assumption. reflexivity.
Qed.
Lemma np_transpose_mat n A : np_transpose (fmat_of n n A) = fmat_of n n (fun i j => A j i).
Proof.
  unfold np_transpose, fmat_of, farr. rewrite mk_nd_shape. cbn [rev app]. apply mk_nd_ext. intros idx H. apply in_product_2_inv in H as [i [j [-> [Hi Hj]]]].
  cbn [rev app nth]. rewrite nd_at_mk by (apply in_product_2; auto). reflexivity.
Qed.
Lemma mvn_e_outer_value d n m L C : holds d "mean" (fvec_of n m) -> holds d "info" (fmat n L) -> inv (fmat n L) = Ok (fmat n C) ->
  mvn_e_outer inv d = Ok (fmat n (fun i j => m i * m j + (C i j + C j i) / 2)).
Proof.
  intros Hm HL E. unfold mvn_e_outer, mvn_cov. rewrite (member_holds _ _ _ Hm), (member_holds _ _ _ HL). cbn [rbind]. rewrite E, np_outer_vec, !fmat_fmat_of.
  assert (Q : nbin nadd (Ok (fmat_of n n (fun i j => m i * m j))) (Ok (fmat_of n n C)) = Ok (fmat_of n n (fun i j => m i * m j + C i j))) by (unfold fmat_of; pyfin; reflexivity).
  rewrite Q. cbn [rbind]. rewrite np_transpose_mat. unfold fmat_of. pyfin. f_equal. field.
Qed.
Lemma inverse_symmetric n L C : symmetric n L -> inverse_of n L C -> symmetric n C.
Proof.
  intros S I i j Hi Hj. apply (inverse_unique n L C (fun i j => C j i) I); [|exact Hi|exact Hj]. intros a b Ha Hb. destruct (I b a Hb Ha) as [I1 I2].
  assert (D : delta b a = delta a b) by (unfold delta; rewrite Nat.eqb_sym; reflexivity). split.
  - rewrite <- D, <- I2. apply rsum_ext. intros k Hk. rewrite (S a k Ha Hk). ring.
  - rewrite <- D, <- I1. apply rsum_ext. intros k Hk. rewrite (S k b Hk Hb). ring.
Qed.
Lemma expect_product (D : dist (nat -> R)) i j : is_dist D -> expect D (fun x => x i * x j) = vmean D i * vmean D j + vcov D i j.
Proof.
  intros H. unfold vcov. rewrite (expect_ext D (fun x => (x i - vmean D i) * (x j - vmean D j)) (fun x => x i * x j - vmean D j * x i - vmean D i * x j + vmean D i * vmean D j)) by (intros; ring).
  rewrite expect_plus, !expect_minus, !expect_scal, expect_const by exact H. unfold vmean. ring.
Qed.
Lemma mvn_second_moments d n m L : holds d "mean" (fvec_of n m) -> holds d "info" (fmat n L) -> symmetric n L -> inverts inv n L ->
  exists C E, mvn_e d = Ok (fvec_of n m) /\ mvn_cov inv d = Ok (fmat n C) /\ mvn_e_outer inv d = Ok (fmat n E) /\ inverse_of n L C /\ symmetric n C /\ symmetric n E /\
    forall D, is_dist D -> (forall i, (i < n)%nat -> vmean D i = m i) -> (forall i j, (i < n)%nat -> (j < n)%nat -> vcov D i j = C i j) ->
      forall i j, (i < n)%nat -> (j < n)%nat -> expect D (fun x => x i * x j) = E i j.
Proof.
  intros Hm HL S [C [EC I]]. assert (SC := inverse_symmetric n L C S I). exists C, (fun i j => m i * m j + (C i j + C j i) / 2).
  split; [exact (member_holds _ _ _ Hm)|]. split; [unfold mvn_cov; rewrite (member_holds _ _ _ HL); exact EC|]. split; [apply (mvn_e_outer_value d n m L C Hm HL EC)|].
  split; [exact I|]. split; [exact SC|]. split; [intros i j Hi Hj; field|]. intros D HD M V i j Hi Hj. rewrite expect_product, !M, V by assumption. rewrite (SC j i Hj Hi). field.
Qed.
End Mvn.
Lemma mvn_array_moments d n k m L : holds d "mean" (fmat_of n k m) -> holds d "info" (fvec_of n L) -> (forall i, (i < n)%nat -> 0 < L i) ->
  exists E, mvn_array_e d = Ok (fmat_of n k m) /\ mvn_array_e2 d = Ok (fmat_of n k E) /\
    forall i j D, (i < n)%nat -> (j < k)%nat -> is_dist D -> mean D = m i j -> variance D = / L i -> expect D (fun x => x * x) = E i j.
Proof.
  intros Hm HL P. exists (fun i j => m i j * m i j + / L i). split; [exact (member_holds _ _ _ Hm)|]. split.
  - unfold mvn_array_e2. rewrite (member_holds _ _ _ Hm), (member_holds _ _ _ HL). change (fvec_of n L) with (farr [n] (fun idx => L (nth 0 idx 0%nat))).
    rewrite recip_entries by (intros i Hi; apply in_product_1 in Hi as [a [-> Ha]]; apply P, Ha). cbn [rbind]. unfold farr. rewrite (expand_mk [n]).
    unfold fmat_of, farr, np_pow2. rewrite nun_mk. change [n; k] with ([n] ++ [k])%list. rewrite nbin_last_full. apply Ok_eq. apply mk_nd_ext. intros idx H.
    apply in_product_2_inv in H as [i [j [-> [Hi Hj]]]]. cbn [nth removelast app]. fin. reflexivity.
  - intros i j D Hi Hj HD M V. rewrite second_moment, M, V by exact HD. reflexivity.
Qed.

(** ---- the evidence bound of normals ---- *)
Lemma ln_strict x : 0 < x -> x <> 1 -> ln x < x - 1.
Proof.
  intros P N. assert (H := exp_ineq1 (ln x)). rewrite exp_ln in H by exact P. assert (ln x <> 0) by (intros E; apply N; rewrite <- (exp_ln x P), E; apply exp_0). specialize (H H0). lra.
Qed.
Definition kl1 (m L e I : R) : R := - / 2 * (L * ((e - m) * (e - m) + / I)) + ln (sqrt (L / (2 * PI))) + / 2 * (- ln I + 1 + ln (2 * PI)).
Lemma kl1_le m L e I : 0 < L -> 0 < I -> kl1 m L e I <= 0 /\ (kl1 m L e I = 0 <-> e = m /\ I = L).
Proof.
  intros HL HI. assert (Pi : 0 < / I) by (apply Rinv_0_lt_compat; exact HI). assert (T : 0 < L / (2 * PI)) by (apply Rdiv_lt_0_compat; [exact HL|apply two_pi_pos]).
  assert (Q : ln (sqrt (L / (2 * PI))) = / 2 * (ln L - ln (2 * PI))).
  { assert (E : ln (L / (2 * PI)) = ln (sqrt (L / (2 * PI))) + ln (sqrt (L / (2 * PI)))) by (rewrite <- ln_mult by (apply sqrt_lt_R0; exact T); rewrite sqrt_sqrt by lra; reflexivity).
    unfold Rdiv in E at 1. rewrite ln_mult, ln_Rinv in E by (try apply two_pi_pos; try exact HL; apply Rinv_0_lt_compat, two_pi_pos). lra. }
  assert (R : kl1 m L e I = / 2 * (ln (L * / I) - (L * / I - 1)) - / 2 * (L * ((e - m) * (e - m)))) by (unfold kl1; rewrite Q, (ln_mult L (/ I)), ln_Rinv by assumption; field; lra).
  assert (X : 0 < L * / I) by (apply Rmult_lt_0_compat; assumption). assert (Y : 0 <= L * ((e - m) * (e - m))) by (apply Rmult_le_pos; [lra|apply Rle_0_sqr]).
  assert (Z := ln_le_minus_1 _ X). rewrite R. split; [lra|]. split.
  - intros H. destruct (Req_dec (L * / I) 1) as [E|N]; [|assert (W := ln_strict _ X N); lra]. rewrite E, ln_1 in H.
    assert (Y0 : (e - m) * (e - m) = 0) by (apply (Rmult_eq_reg_l L); [lra|lra]). apply Rsqr_0_uniq in Y0. split; [lra|].
    apply (f_equal (Rmult I)) in E. rewrite (Rmult_comm L), <- Rmult_assoc, Rinv_r in E by lra. lra.
  - intros [-> ->]. rewrite Rinv_r, ln_1 by lra. ring.
Qed.
Lemma lsum_nonpos {X} (f : X -> R) l : (forall x, In x l -> f x <= 0) -> lsum (map f l) <= 0 /\ (lsum (map f l) = 0 <-> forall x, In x l -> f x = 0).
Proof.
  induction l as [|y l IH]; intros H; cbn [map lsum fold_right].
  - split; [lra|]. split; [intros _ x []|reflexivity].
  - destruct IH as [I1 I2]; [intros; apply H; right; assumption|]. assert (Hy := H y (or_introl eq_refl)). change (fold_right Rplus 0 (map f l)) with (lsum (map f l)). split; [lra|]. split.
    + intros E x [<-|Hx]; [lra|]. apply I2; [lra|exact Hx].
    + intros E. rewrite (E y (or_introl eq_refl)), (proj2 I2) by (intros; apply E; right; assumption). lra.
Qed.
Lemma normal_evidence_bound s m L e I : (forall i, index s i -> 0 < L i /\ 0 < I i) ->
  exists r h, uvn_prior (farr s m) (farr s L) (farr s e) (farr s (fun i => / I i)) = Ok (farr s r) /\ univariate_normal_entropy (farr s I) = Ok (fnum h) /\
    let bound := lsum (map (fun i => r i + ln (sqrt (L i / (2 * PI)))) (product s)) + h in
    bound <= 0 /\ (bound = 0 <-> forall i, index s i -> e i = m i /\ I i = L i).
Proof.
  intros P. eexists _, _. split; [apply uvn_prior_entries|]. split; [apply uvn_entropy_value; intros i Hi; apply P, Hi|]. cbv zeta. rewrite <- lsum_map_plus.
  rewrite (lsum_map_ext _ (fun i => kl1 (m i) (L i) (e i) (I i))) by (intros i Hi; destruct (P i Hi); unfold kl1, normal_entropy; field; lra).
  destruct (lsum_nonpos (fun i => kl1 (m i) (L i) (e i) (I i)) (product s)) as [A B]; [intros i Hi; apply kl1_le; apply P, Hi|]. split; [exact A|]. rewrite B. split.
  - intros H i Hi. apply (kl1_le (m i) (L i) (e i) (I i)); try apply P, Hi. apply H, Hi.
  - intros H i Hi. apply (kl1_le (m i) (L i) (e i) (I i)); try apply P, Hi. apply H, Hi.
Qed.

(** ---- GammaParam, DirichletParamArray, WishartParam ---- *)
Lemma farr_inj s f g : Ok (farr s f) = Ok (farr s g) -> forall i, index s i -> f i = g i.
Proof.
  intros E i Hi. assert (Q : farr s f = farr s g) by congruence. unfold farr in Q. apply (mk_nd_inj s (fun i => Fin (f i)) (fun i => Fin (g i))) with (idx := i) in Q; [|exact Hi]. injection Q as Q. exact Q.
Qed.
Lemma fmat_inj n A B : Ok (fmat n A) = Ok (fmat n B) -> forall i j, (i < n)%nat -> (j < n)%nat -> A i j = B i j.
Proof. rewrite !fmat_fmat_of. intros E i j Hi Hj. apply (farr_inj _ _ _ E [i; j]). apply in_product_2. auto. Qed.
Section Classes.
Variable gammaln digamma : num -> num.
Variable LG PSI : R -> R.
Hypothesis HLG : special gammaln LG.
Hypothesis HPSI : special digamma PSI.
Lemma gamma_class d s a b (D : list nat -> dist R) : holds d "shape" (farr s a) -> holds d "rate" (farr s b) ->
  (forall i, index s i -> 0 < a i /\ 0 < b i /\ is_dist (D i) /\ surely (D i) (fun x => 0 < x)) ->
  gp_e d = Ok (farr s (fun i => mean (D i))) -> gp_e_log digamma d = Ok (farr s (fun i => expect (D i) ln)) ->
  gp_entropy gammaln digamma d = Ok (fnum (lsum (map (fun i => gamma_log_norm LG (a i) (b i) - expect (D i) (fun x => ln (gamma_kernel (a i) (b i) x))) (product s)))).
Proof.
  intros Ha Hb P E EL. unfold gp_entropy, gp_e, gp_e_log in *. rewrite (member_holds _ _ _ Ha), (member_holds _ _ _ Hb) in *. cbn [rbind] in *.
  apply (gamma_entropy_expect _ _ LG PSI); [exact HLG|exact HPSI| |exact EL].
  assert (Q : nbin ndiv (Ok (farr s a)) (Ok (farr s b)) = Ok (farr s (fun i => a i / b i))).
  { pyfin. destruct (P idx Hidx) as [_ [Pb _]]. rewrite ndiv_fin by lra. reflexivity. }
  rewrite Q in E. intros i Hi. destruct (P i Hi) as [Pa [Pb [Di Si]]]. repeat split; try assumption; try apply Di. symmetry. apply (farr_inj _ _ _ E i Hi).
Qed.
Lemma dirichlet_class d n s alpha (D : list nat -> dist (nat -> R)) : (0 < n)%nat -> holds d "alpha" (farr (n :: s) alpha) -> (forall i, index (n :: s) i -> 0 < alpha i) ->
  (forall j, index s j -> is_dist (D j) /\ surely (D j) (fun x => forall k, (k < n)%nat -> 0 < x k)) ->
  dp_e_log digamma d = Ok (farr (n :: s) (fun i => expect (D (tl i)) (fun x => ln (x (hd 0%nat i))))) ->
  dp_entropy gammaln digamma d =
    Ok (farr s (fun j => let a := fun k => alpha (k :: j) in dirichlet_log_norm LG n a - expect (D j) (fun x => ln (dirichlet_kernel n a x)))).
Proof.
  intros N Ha P H E. unfold dp_e_log, dp_entropy in *. rewrite (member_holds _ _ _ Ha) in *. cbn [rbind] in *. apply (dirichlet_entropy_expect _ _ LG PSI); assumption.
Qed.
Variable slogdet : arr -> res (num * num).
Hypothesis HS : slogdet_contract slogdet.
Variable inv : arr -> res arr.
Lemma multi_sum1 g G x n : special g G -> (forall i, (i < n)%nat -> 0 < x - INR i / 2) ->
  sum_all (nun g (Ok (farr [1%nat] (fun _ => x)) - lit (/ 2)%R * Ok (np_linspace 0 (INR n - 1)%R n))%py) = Ok (fnum (rsum n (fun i => G (x - INR i / 2)))).
Proof.
  intros Hg P. rewrite np_linspace_mk. unfold farr. rewrite lit_mk, nbin_sl. change [1%nat] with ([] ++ [1%nat])%list. rewrite nbin_last. cbn [app]. py. apply Ok_eq. rewrite fnum_mk. apply mk_nd_ext. intros _ _. rewrite product_1, map_map.
  apply nsum_seq_fin. intros i Hi.
  transitivity (g (Fin (x - INR i / 2))); [|apply Hg, P, Hi]. apply f_equal. apply (multi_arg x n [i]). apply in_product_1. exists i. auto.
Qed.
Lemma half_df1 df : nbin nmul (lit (/ 2)) (Ok (farr [1%nat] (fun _ => df))) = Ok (farr [1%nat] (fun _ => df / 2)).
Proof. pyfin. f_equal. field. Qed.
Lemma wishart_shape_value s n df V : number_shape s -> INR n - 1 < df -> 0 < det n V ->
  e_log_det_wishart digamma slogdet (farr s (fun _ => df)) (fmat n V) = Ok (fnum (e_log_det_of PSI n df V)) /\
  wishart_entropy gammaln digamma slogdet (farr s (fun _ => df)) (fmat n V) = Ok (farr s (fun _ => wishart_entropy_of LG PSI n df V)).
Proof.
  intros [->| ->] Hd P; [split; [apply e_log_det_value; assumption|apply wishart_entropy_value; assumption]|]. split.
  - unfold e_log_det_wishart. rewrite (wishart_head_ok slogdet HS) by exact P. rewrite half_df1. cbn [rbind]. unfold multivariate_digamma.
    rewrite (multi_sum1 digamma PSI) by (try exact HPSI; apply half_pos_args, Hd). rewrite fnum_mk. py. apply Ok_eq. rewrite fnum_mk. apply mk_nd_ext. intros _ _.
    rewrite (nlog_pos 2) by lra. fin. reflexivity.
  - unfold wishart_entropy. rewrite (wishart_head_ok slogdet HS) by exact P. rewrite half_df1. cbn [rbind]. unfold multivariate_digamma, multivariate_gammaln.
    rewrite (multi_sum1 digamma PSI), (multi_sum1 gammaln LG) by (try exact HPSI; try exact HLG; apply half_pos_args, Hd). rewrite !fnum_mk. unfold farr. py. apply Ok_eq. apply mk_nd_ext. intros _ _.
    rewrite (nlog_pos 2) by lra. rewrite (nlog_pos PI) by apply PI_RGT_0. fin. f_equal. unfold wishart_entropy_of, log_multigamma. field.
Qed.
Lemma nbin_one_full f s k g h : nbin f (Ok (mk_nd [1%nat] g)) (Ok (mk_nd (s ++ [k]) h)) = Ok (mk_nd (s ++ [k]) (fun i => f (g [0%nat]) (h i))).
Proof.
  unfold nbin. cbn [rbind]. unfold np_bin. rewrite !mk_nd_shape. change (bshape [1%nat] (s ++ [k])) with (bshape ([] ++ [1%nat]) (s ++ [k])).
  rewrite (bshape_app _ _ _ _ s [k]) by (first [reflexivity|apply bshape_nil_l|apply bshape_11']).
  apply Ok_eq. apply mk_nd_ext. intros idx H. rewrite (bidx_self (s ++ [k])) by exact H. rewrite (nd_at_mk NaN (s ++ [k])) by exact H.
  apply in_product_snoc_inv in H as [i [j [-> [Hi Hj]]]]. rewrite (bidx_skip [1%nat] i [j]) by reflexivity. rewrite bidx_one, nd_at_mk by (left; reflexivity). reflexivity.
Qed.
Lemma scale_matrix s n df V : number_shape s -> nbin nmul (Ok (farr s (fun _ => df))) (Ok (fmat n V)) = Ok (fmat n (fun i j => df * V i j)).
Proof.
  intros [->| ->]; rewrite !fmat_fmat_of; unfold fmat_of, farr.
  - rewrite nbin_sl. reflexivity.
  - change [n; n] with ([n] ++ [n])%list. rewrite nbin_one_full. reflexivity.
Qed.
Lemma wishart_class d s n df V Vinv (D : dist (nat -> nat -> R)) : number_shape s -> holds d "df" (farr s (fun _ => df)) -> holds d "v" (fmat n V) ->
  INR n - 1 < df -> 0 < det n V -> inverse_of n V Vinv -> is_dist D -> surely D (fun X => 0 < det n X) ->
  wp_e d = Ok (fmat n (fun i j => expect D (fun X => X i j))) ->
  wp_e_log_det digamma slogdet d = Ok (fnum (expect D (fun X => ln (det n X)))) ->
  wp_entropy gammaln digamma slogdet d = Ok (farr s (fun _ => wishart_log_norm LG n df V - expect D (fun X => ln (wishart_kernel n df Vinv X)))).
Proof.
  intros Ns Hdf Hv L P I HD S E EL. unfold wp_e, wp_e_log_det, wp_entropy in *. rewrite (member_holds _ _ _ Hdf), (member_holds _ _ _ Hv) in *. cbn [rbind] in *.
  rewrite scale_matrix in E by exact Ns. destruct (wishart_shape_value s n df V Ns L P) as [E1 E2]. rewrite E1 in EL. rewrite E2. apply Ok_eq. apply farr_ext. intros _ _.
  assert (M := fmat_inj n _ _ E). cbv beta in M.
  assert (W := wishart_entropy_expect gammaln digamma LG PSI HLG HPSI slogdet HS n df V Vinv D L P I HD S).
  specialize (W ltac:(intros i j Hi Hj; symmetry; apply M; assumption)). rewrite e_log_det_value with (PSI := PSI) in W by assumption. specialize (W EL).
  rewrite wishart_entropy_value with (LG := LG) (PSI := PSI) in W by assumption. injection W as W. exact W.
Qed.
(** E of the inverse of a Wishart matrix is V^-1 / (df - n - 1); e_inv multiplies by df instead *)
Lemma wishart_e_inv d s n df V B : number_shape s -> holds d "df" (farr s (fun _ => df)) -> holds d "v" (fmat n V) -> inv (fmat n V) = Ok (fmat n B) ->
  wp_e_inv inv d = Ok (fmat n (fun i j => df * B i j)).
Proof. intros Ns Hdf Hv E. unfold wp_e_inv. rewrite (member_holds _ _ _ Hdf), (member_holds _ _ _ Hv). cbn [rbind]. rewrite E. apply scale_matrix, Ns. Qed.
End Classes.
Lemma wishart_e_inv_wrong inv d s n df V : number_shape s -> holds d "df" (farr s (fun _ => df)) -> holds d "v" (fmat n V) -> inverts inv n V -> (0 < n)%nat -> INR n + 1 < df ->
  exists B r, inverse_of n V B /\ wp_e_inv inv d = Ok (fmat n r) /\
    ((forall i j, (i < n)%nat -> (j < n)%nat -> r i j = B i j / (df - INR n - 1)) <-> df * (df - INR n - 1) = 1).
Proof.
  intros Ns Hdf Hv [B [EB I]] N L. exists B, (fun i j => df * B i j). split; [exact I|]. split; [apply (wishart_e_inv inv d s n df V B); assumption|]. split.
  - intros H. assert (Q : exists j, (j < n)%nat /\ B 0%nat j <> 0).
    { destruct (Classical_Prop.classic (exists j, (j < n)%nat /\ B 0%nat j <> 0)) as [C|C]; [exact C|]. exfalso. destruct (I 0%nat 0%nat N N) as [_ I2].
      rewrite rsum_zero in I2; [unfold delta in I2; cbn in I2; lra|]. intros k Hk. destruct (Req_dec (B 0%nat k) 0) as [E|E]; [rewrite E; ring|exfalso; apply C; exists k; auto]. }
    destruct Q as [j [Hj Q]]. specialize (H 0%nat j N Hj). apply (Rmult_eq_reg_r (B 0%nat j)); [|exact Q]. transitivity ((df - INR n - 1) * (df * B 0%nat j)); [ring|]. rewrite H. field. lra.
  - intros H i j _ _. assert (E : / (df - INR n - 1) = df) by (apply (Rmult_eq_reg_l (df - INR n - 1)); [rewrite Rinv_r; lra|lra]). unfold Rdiv. rewrite E. ring.
Qed.

(** ---- WishartParam ignores its size ---- *)
Lemma scalar_init_fields k lb ub v p : scalar_init k lb ub v = Ok p -> sp_name p = k /\ sp_lb p = lb.
Proof.
  unfold scalar_init, rassert. destruct (nleb ub lb), (nleb NInf lb), (nleb ub PInf); try discriminate. destruct v as [v|]; [intros H; injection H as <-; auto|].
  destruct (get_inbounds_value lb ub); [|discriminate]. cbn [rbind]. intros H; injection H as <-; auto.
Qed.
Lemma posdef_init_fields k n lb p : posdef_init k n lb None = Ok p -> pd_name p = k /\ pd_size p = n /\ shape (pd_val p) = [n; n].
Proof. unfold posdef_init, rassert. destruct (nleb (Fin 0) lb); [|discriminate]. intros H; injection H as <-. auto. Qed.
Lemma wishart_init_inv nm n lb mdf d : wishart_init nm n lb mdf = Ok d ->
  exists p q, sp_name p = "df"%string /\ pd_name q = "v"%string /\ pd_size q = 2%nat /\ shape (pd_val q) = [2; 2]%nat /\
    d_getitem d "df" = Ok (Leaf (LScalar p)) /\ d_getitem d "v" = Ok (Leaf (LPosDef q)) /\ p_vector_size d = 4%nat /\ p_free_size d = 4%nat /\
    d = Dict nm [("df"%string, Leaf (LScalar p)); ("v"%string, Leaf (LPosDef q))] [("df"%string, (0, 1)%nat); ("v"%string, (1, 4)%nat)] [("df"%string, (0, 1)%nat); ("v"%string, (1, 4)%nat)] 4 4.
Proof.
  unfold wishart_init, rassert. destruct (nleb _ _); [|discriminate]. set (m := match mdf with None => _ | _ => _ end).
  destruct (scalar_init "df" m PInf None) as [p|] eqn:E1; [|discriminate]. cbn [rbind]. destruct (posdef_init "v" 2 lb None) as [q|] eqn:E2; [|discriminate]. cbn [rbind].
  intros H. injection H as <-. destruct (scalar_init_fields _ _ _ _ _ E1) as [N1 _]. destruct (posdef_init_fields _ _ _ _ E2) as [N2 [S2 H2]].
  exists p, q. split; [exact N1|]. split; [exact N2|]. split; [exact S2|]. split; [exact H2|].
  assert (Q : dict_of nm [LScalar p; LPosDef q] = Dict nm [("df"%string, Leaf (LScalar p)); ("v"%string, Leaf (LPosDef q))] [("df"%string, (0, 1)%nat); ("v"%string, (1, 4)%nat)] [("df"%string, (0, 1)%nat); ("v"%string, (1, 4)%nat)] 4 4).
  { unfold dict_of. cbn [fold_left]. unfold dict_init, push_param. cbn [fst p_name leaf_name od_set p_free_size p_vector_size leaf_free_size leaf_vector_size]. unfold pd_vec_size, scalar_free_size, scalar_vector_size. rewrite N1, N2, S2. reflexivity. }
  change (fold_left (fun d l => fst (push_param d (Leaf l))) [LScalar p; LPosDef q] (dict_init nm)) with (dict_of nm [LScalar p; LPosDef q]).
  rewrite Q. repeat split; reflexivity.
Qed.
Lemma wishart_size nm n lb mdf d : wishart_init nm n lb mdf = Ok d ->
  p_vector_size d = 4%nat /\ p_free_size d = 4%nat /\ (exists a, holds d "v" a /\ shape a = [2; 2]%nat) /\
  forall k A, k <> 2%nat -> values_setitem d "v" (fmat k A) = (d, Raise ValueError).
Proof.
  intros H. destruct (wishart_init_inv _ _ _ _ _ H) as [p [q [_ [_ [S2 [H2 [_ [G [V [F ->]]]]]]]]]]. split; [exact V|]. split; [exact F|]. split.
  - exists (pd_val q). split; [exists (LPosDef q); split; [exact G|reflexivity]|exact H2].
  - intros k A N. unfold values_setitem. rewrite G. cbn [p_set leaf_set]. unfold posdef_set. cbn [shape fmat mk_mat]. rewrite S2.
    apply Nat.eqb_neq in N. rewrite N. reflexivity.
Qed.
Lemma wishart_default nm n : exists d p, wishart_init nm n (Fin 0) None = Ok d /\ d_getitem d "df" = Ok (Leaf (LScalar p)) /\ sp_lb p = Fin (INR n - 1) /\ holds d "df" (fnum (INR n)) /\ holds d "v" (fmat 2 delta).
Proof.
  unfold wishart_init, rassert. replace (nleb (Fin (INR n - 1)) (Fin (INR n - 1))) with true by (symmetry; apply Rleb_true; lra).
  unfold scalar_init, rassert, posdef_init. replace (nleb PInf (Fin (INR n - 1))) with false by reflexivity. change (nleb NInf (Fin (INR n - 1))) with true. change (nleb PInf PInf) with true. cbv iota.
  unfold get_inbounds_value, rassert. change (nltb (Fin (INR n - 1)) PInf) with true. change (nltb NInf (Fin (INR n - 1))) with true. change (nltb PInf PInf) with false. cbn [andb rbind].
  replace (nleb (Fin 0) (Fin 0)) with true by (symmetry; apply Rleb_true; lra). cbn [rbind].
  assert (E : nadd (Fin (INR n - 1)) (Fin 1) = Fin (INR n)) by (cbn; f_equal; ring). rewrite ?E. cbn [rbind].
  eexists _, _. split; [reflexivity|]. unfold dict_of. cbn [fold_left]. unfold dict_init, push_param. cbn [fst p_name leaf_name od_set sp_name pd_name String.eqb Ascii.eqb Bool.eqb].
  unfold holds. cbn [d_getitem od_get String.eqb Ascii.eqb Bool.eqb].
  split; [reflexivity|]. split; [reflexivity|]. split; [eexists; split; reflexivity|]. eexists. split; [reflexivity|]. cbn [leaf_get pd_val].
  unfold fmat, mk_mat, make_diagonal, delta. cbn. do 2 f_equal; [f_equal; lra|]. do 2 f_equal. do 2 f_equal. f_equal. lra.
Qed.
