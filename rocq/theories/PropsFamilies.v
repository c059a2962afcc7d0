(** C69, C70, C73, C80, C83-C85: NormalParams.py, GammaParams.py, DirichletParams.py, WishartParams.py. *)
From Coq Require Import String Reals List Arith Lia Lra Bool.
From Verif Require Import Res Num Nd RSum ModelParameters ModelMatrix ModelDict ModelNumpy ModelExpFam ModelFamilies SpecMatrix SpecExpFam SpecFamilies LemmasPosDef LemmasNumpy LemmasExpFam LemmasEntropy LemmasFamilies.
Import List ListNotations.
Open Scope R_scope.
(** a UVNParamArray as constructed holds zeros and ones; a UVNMomentParamArray exists for every shape *)
Lemma uvn_array_default nm s : exists q, uvn_array_init nm s (Fin 0) = Ok q /\ ua_shape q = s /\ holds (ua_dict q) "mean" (farr s (fun _ => 0)) /\ holds (ua_dict q) "info" (farr s (fun _ => 1)).
Proof.
  unfold uvn_array_init, array_init, rassert, get_inbounds_value, array_set. cbn [nleb nltb andb rbind rassert negb ap_shape shape np_full ap_name ap_lb ap_ub]. rewrite shape_eqb_refl. cbn [negb rbind].
  eexists. split; [reflexivity|]. split; [reflexivity|]. unfold dict_of. cbn [fold_left]. unfold dict_init, push_param. cbn [fst p_name leaf_name od_set ap_name String.eqb Ascii.eqb Bool.eqb ua_dict].
  unfold holds. cbn [d_getitem od_get String.eqb Ascii.eqb Bool.eqb].
  assert (Q : forall c, np_full s (Fin c) = farr s (fun _ => c)).
  { intros c. unfold np_full, farr, mk_nd. f_equal. rewrite <- (product_length s). induction (product s) as [|x l IH]; [reflexivity|]. cbn. f_equal. exact IH. }
  split; eexists; (split; [reflexivity|]); cbn [leaf_get ap_val]; [apply Q|]. cbn [nadd]. replace (0 + 1) with 1 by lra. apply Q.
Qed.
Lemma uvn_moment_default nm s : exists x, uvn_moment_init nm s (Fin 0) = Ok x.
Proof. unfold uvn_moment_init, array_init, rassert, get_inbounds_value, array_set. cbn [nleb nltb andb rbind rassert negb ap_shape shape np_full ap_name ap_lb ap_ub]. rewrite shape_eqb_refl. eexists; reflexivity. Qed.

(** C69: UVNParam, UVNParamVector and UVNParamArray, whatever shape the values have *)
Theorem C69_classes : forall d s m L, holds d "mean" (farr s m) -> holds d "info" (farr s L) -> (forall i, index s i -> 0 < L i) ->
  exists v eo ee ve e2,
    uvn_e d = Ok (farr s m) /\ uvn_var d = Ok (farr s v) /\ uvn_e_outer d = Ok (farr s eo) /\
    uvn_e_exp d = Ok (farr s ee) /\ uvn_var_exp d = Ok (farr s ve) /\ uvn_e2_exp d = Ok (farr s e2) /\
    get_e_lognormal (farr s (fun i => 2 * m i)) (farr s (fun i => 4 * v i)) = Ok (farr s e2) /\
    forall i, index s i -> v i = / L i /\ ee i = exp (m i + v i / 2) /\ 0 < ve i /\ e2 i = ee i * ee i + ve i /\
      forall D, is_dist D -> mean D = m i -> variance D = v i -> expect D (fun x => x * x) = eo i.
Proof. exact uvn_moments. Qed.
Print Assumptions C69_classes.

(** C69: UVNMomentParamArray.var_exp is the mean; it is positive for constants and right only by accident *)
Theorem C69_moment_array_refuted : forall d s m w, holds d "e" (farr s m) -> holds d "e2" (farr s w) ->
  exists r v, um_var_exp d = Ok (farr s r) /\ um_e_exp d = Ok (farr s r) /\ (do e <- um_e d; do y <- um_var d; get_var_lognormal e y) = Ok (farr s v) /\
    forall i, index s i -> (w i = m i * m i -> v i = 0 /\ 0 < r i) /\ (r i = v i <-> (exp (w i - m i * m i) - 1) * r i = 1).
Proof. exact um_var_exp_wrong. Qed.
Print Assumptions C69_moment_array_refuted.
Example C69_classes_nonvacuous : exists q, uvn_array_init "q" [2; 3]%nat (Fin 0) = Ok q /\ uvn_e_exp (ua_dict q) = Ok (farr [2; 3]%nat (fun _ => exp (/ 2))).
Proof.
  destruct (uvn_array_default "q" [2; 3]%nat) as [q [E [_ [H1 H2]]]]. exists q. split; [exact E|]. rewrite (uvn_e_exp_value _ _ _ _ H1 H2) by (intros; lra).
  apply Ok_eq. apply farr_ext. intros _ _. f_equal. field.
Qed.

(** C70 *)
Theorem C70_from_normals : forall x q s m L, moment_array x s -> ua_shape q = s -> holds (ua_dict q) "mean" (farr s m) -> holds (ua_dict q) "info" (farr s L) -> (forall i, index s i -> 0 < L i) ->
  exists x', um_set_from_uvn x q = (x', Ok tt) /\ moment_array x' s /\
    um_e (um_dict x') = uvn_e (ua_dict q) /\ um_e_outer (um_dict x') = uvn_e_outer (ua_dict q) /\ um_var (um_dict x') = uvn_var (ua_dict q) /\
    um_e_exp (um_dict x') = uvn_e_exp (ua_dict q) /\ um_entropy (um_dict x') = uvn_array_entropy (ua_dict q).
Proof. exact set_from_uvn_agrees. Qed.
Print Assumptions C70_from_normals.
Theorem C70_shapes : forall x q, ua_shape q <> um_shape x -> um_set_from_uvn x q = (x, Raise AssertionError).
Proof. exact set_from_uvn_mismatch. Qed.
Print Assumptions C70_shapes.
Theorem C70_constant_shapes : forall x c, ap_shape c <> um_shape x -> um_set_from_constant x c = (x, Raise AssertionError).
Proof. exact moment_constant_shapes. Qed.
Print Assumptions C70_constant_shapes.
Theorem C70_from_constant : forall x c s m, moment_array x s -> ap_shape c = s -> array_get c = farr s m ->
  exists x', um_set_from_constant x c = (x', Ok tt) /\ moment_array x' s /\
    um_e (um_dict x') = Ok (farr s m) /\ um_var (um_dict x') = Ok (farr s (fun _ => 0)) /\ um_e_outer (um_dict x') = Ok (farr s (fun i => m i * m i)) /\
    um_e_exp (um_dict x') = Ok (farr s (fun i => exp (m i))) /\ (product s <> [] -> um_entropy (um_dict x') = Ok (nd_scalar NInf)).
Proof. exact set_from_constant_value. Qed.
Print Assumptions C70_from_constant.

(** C70: every constructed object is such an array, and both setters keep it one *)
Theorem C70_constructed : forall nm s mi x, uvn_moment_init nm s mi = Ok x -> moment_array x s.
Proof. exact moment_array_init. Qed.
Print Assumptions C70_constructed.
Example C70_nonvacuous : forall s, exists x q x', uvn_moment_init "x" s (Fin 0) = Ok x /\ uvn_array_init "q" s (Fin 0) = Ok q /\ um_set_from_uvn x q = (x', Ok tt) /\ um_e_outer (um_dict x') = Ok (farr s (fun _ => 1)).
Proof.
  intros s. destruct (uvn_moment_default "x" s) as [x Ex]. destruct (uvn_array_default "q" s) as [q [Eq [Sq [H1 H2]]]].
  destruct (C70_from_normals x q s _ _ (C70_constructed _ _ _ _ Ex) Sq H1 H2) as [x' [E [_ [_ [O _]]]]]; [intros; lra|]. exists x, q, x'. repeat split; try assumption.
  rewrite O, (uvn_e_outer_value _ _ _ _ H1 H2) by (intros; lra). apply Ok_eq, farr_ext. intros; field.
Qed.

(** C73: for every requested size the matrix is 2 by 2, and no other matrix can be stored *)
Theorem C73_size : forall nm n lb mdf d, wishart_init nm n lb mdf = Ok d ->
  p_vector_size d = 4%nat /\ p_free_size d = 4%nat /\ (exists a, holds d "v" a /\ shape a = [2; 2]%nat) /\
  forall k A, k <> 2%nat -> values_setitem d "v" (fmat k A) = (d, Raise ValueError).
Proof. exact wishart_size. Qed.
Print Assumptions C73_size.
Theorem C73_default : forall nm n, exists d p, wishart_init nm n (Fin 0) None = Ok d /\ d_getitem d "df" = Ok (Leaf (LScalar p)) /\ sp_lb p = Fin (INR n - 1) /\ holds d "df" (fnum (INR n)) /\ holds d "v" (fmat 2 delta).
Proof. exact wishart_default. Qed.
Print Assumptions C73_default.

(** C80: the same for the classes, in terms of their own e(), var(), e_log(), ... *)
Theorem C80_normal_classes : forall d s m L (D : list nat -> dist R), holds d "mean" (farr s m) -> holds d "info" (farr s L) -> (forall i, index s i -> 0 < L i /\ is_dist (D i)) ->
  uvn_e d = Ok (farr s (fun i => mean (D i))) -> uvn_var d = Ok (farr s (fun i => variance (D i))) ->
  uvn_array_entropy d = uvn_entropy d /\
  uvn_entropy d = Ok (fnum (lsum (map (fun i => - expect (D i) (fun x => ln (normal_pdf (m i) (L i) x))) (product s)))).
Proof. exact uvn_class_entropy. Qed.
Print Assumptions C80_normal_classes.


Theorem C80_gamma_class : forall gammaln digamma LG PSI, special gammaln LG -> special digamma PSI -> forall d s a b (D : list nat -> dist R), holds d "shape" (farr s a) -> holds d "rate" (farr s b) ->
  (forall i, index s i -> 0 < a i /\ 0 < b i /\ is_dist (D i) /\ surely (D i) (fun x => 0 < x)) ->
  gp_e d = Ok (farr s (fun i => mean (D i))) -> gp_e_log digamma d = Ok (farr s (fun i => expect (D i) ln)) ->
  gp_entropy gammaln digamma d = Ok (fnum (lsum (map (fun i => gamma_log_norm LG (a i) (b i) - expect (D i) (fun x => ln (gamma_kernel (a i) (b i) x))) (product s)))).
Proof. exact gamma_class. Qed.
Print Assumptions C80_gamma_class.


Theorem C80_dirichlet_class : forall gammaln digamma LG PSI, special gammaln LG -> special digamma PSI -> forall d n s alpha (D : list nat -> dist (nat -> R)), (0 < n)%nat -> holds d "alpha" (farr (n :: s) alpha) -> (forall i, index (n :: s) i -> 0 < alpha i) ->
  (forall j, index s j -> is_dist (D j) /\ surely (D j) (fun x => forall k, (k < n)%nat -> 0 < x k)) ->
  dp_e_log digamma d = Ok (farr (n :: s) (fun i => expect (D (tl i)) (fun x => ln (x (hd 0%nat i))))) ->
  dp_entropy gammaln digamma d =
    Ok (farr s (fun j => let a := fun k => alpha (k :: j) in dirichlet_log_norm LG n a - expect (D j) (fun x => ln (dirichlet_kernel n a x)))).
Proof. exact dirichlet_class. Qed.
Print Assumptions C80_dirichlet_class.


Theorem C80_wishart_class : forall gammaln digamma LG PSI, special gammaln LG -> special digamma PSI -> forall slogdet, slogdet_contract slogdet -> forall d s n df V Vinv (D : dist (nat -> nat -> R)), number_shape s -> holds d "df" (farr s (fun _ => df)) -> holds d "v" (fmat n V) ->
  INR n - 1 < df -> 0 < det n V -> inverse_of n V Vinv -> is_dist D -> surely D (fun X => 0 < det n X) ->
  wp_e d = Ok (fmat n (fun i j => expect D (fun X => X i j))) ->
  wp_e_log_det digamma slogdet d = Ok (fnum (expect D (fun X => ln (det n X)))) ->
  wp_entropy gammaln digamma slogdet d = Ok (farr s (fun _ => wishart_log_norm LG n df V - expect D (fun X => ln (wishart_kernel n df Vinv X)))).
Proof. exact wishart_class. Qed.
Print Assumptions C80_wishart_class.
Example C80_classes_nonvacuous : exists d, wishart_init "w" 2 (Fin 0) None = Ok d /\ number_shape [] /\ holds d "df" (farr [] (fun _ => 2)) /\ holds d "v" (fmat 2 delta) /\ INR 2 - 1 < 2 /\ 0 < det 2 delta /\ inverse_of 2 delta delta.
Proof.
  destruct (C73_default "w" 2) as [d [p [E [_ [_ [H1 H2]]]]]]. exists d. split; [exact E|]. split; [left; reflexivity|]. split; [exact H1|]. split; [exact H2|].
  split; [cbn; lra|]. split; [unfold delta; cbn; unfold minor; cbn; lra|]. intros [|[|i]] [|[|j]] Hi Hj; try lia; unfold delta; cbn; lra.
Qed.

(** C83: r + log normaliser is E_q[log p], h the entropy of q, so the bound is minus a Kullback-Leibler divergence *)
Theorem C83_bound : forall s m L e I, (forall i, index s i -> 0 < L i /\ 0 < I i) ->
  exists r h, uvn_prior (farr s m) (farr s L) (farr s e) (farr s (fun i => / I i)) = Ok (farr s r) /\ univariate_normal_entropy (farr s I) = Ok (fnum h) /\
    let bound := lsum (map (fun i => r i + ln (sqrt (L i / (2 * PI)))) (product s)) + h in
    bound <= 0 /\ (bound = 0 <-> forall i, index s i -> e i = m i /\ I i = L i).
Proof. exact normal_evidence_bound. Qed.
Print Assumptions C83_bound.
Example C83_nonvacuous : exists r h, uvn_prior (farr [1%nat] (fun _ => 0)) (farr [1%nat] (fun _ => 1)) (farr [1%nat] (fun _ => 1)) (farr [1%nat] (fun _ => / 2)) = Ok (farr [1%nat] r) /\ univariate_normal_entropy (farr [1%nat] (fun _ => 2)) = Ok (fnum h) /\
  lsum (map (fun i => r i + ln (sqrt (1 / (2 * PI)))) (product [1%nat])) + h < 0.
Proof.
  destruct (C83_bound [1%nat] (fun _ => 0) (fun _ => 1) (fun _ => 1) (fun _ => 2)) as [r [h [E1 [E2 [B Z]]]]]; [intros; lra|]. exists r, h. split; [exact E1|]. split; [exact E2|].
  destruct B as [B|B]; [exact B|]. destruct (proj1 Z B [0%nat]) as [C _]; [left; reflexivity|lra].
Qed.

(** C84 *)
Theorem C84_multivariate_normal : forall inv, forall d n m L, holds d "mean" (fvec_of n m) -> holds d "info" (fmat n L) -> symmetric n L -> inverts inv n L ->
  exists C E, mvn_e d = Ok (fvec_of n m) /\ mvn_cov inv d = Ok (fmat n C) /\ mvn_e_outer inv d = Ok (fmat n E) /\ inverse_of n L C /\ symmetric n C /\ symmetric n E /\
    forall D, is_dist D -> (forall i, (i < n)%nat -> vmean D i = m i) -> (forall i j, (i < n)%nat -> (j < n)%nat -> vcov D i j = C i j) ->
      forall i j, (i < n)%nat -> (j < n)%nat -> expect D (fun x => x i * x j) = E i j.
Proof. exact mvn_second_moments. Qed.
Print Assumptions C84_multivariate_normal.
Theorem C84_normal_rows : forall d n k m L, holds d "mean" (fmat_of n k m) -> holds d "info" (fvec_of n L) -> (forall i, (i < n)%nat -> 0 < L i) ->
  exists E, mvn_array_e d = Ok (fmat_of n k m) /\ mvn_array_e2 d = Ok (fmat_of n k E) /\
    forall i j D, (i < n)%nat -> (j < k)%nat -> is_dist D -> mean D = m i j -> variance D = / L i -> expect D (fun x => x * x) = E i j.
Proof. exact mvn_array_moments. Qed.
Print Assumptions C84_normal_rows.
Example C84_nonvacuous : exists d, mvn_init "m" 2 (Fin 0) = Ok d /\ holds d "mean" (fvec_of 2 (fun _ => 0)) /\ holds d "info" (fmat 2 delta) /\ symmetric 2 delta /\ inverts (fun a => Ok a) 2 delta.
Proof.
  eexists. split; [|].
  - unfold mvn_init, vector_init, posdef_init, rassert, get_inbounds_value, vector_set. cbn [nleb nltb andb rbind rassert negb vp_size nd_size nprod shape np_full vp_name vp_lb vp_ub fold_right Nat.mul Nat.eqb].
    replace (Rleb 0 0) with true by (symmetry; apply Rleb_true; lra). cbn [rbind]. reflexivity.
  - unfold dict_of. cbn [fold_left]. unfold dict_init, push_param. cbn [fst p_name leaf_name od_set vp_name pd_name String.eqb Ascii.eqb Bool.eqb]. unfold holds. cbn [d_getitem od_get String.eqb Ascii.eqb Bool.eqb].
    split; [eexists; split; reflexivity|]. split; [eexists; split; [reflexivity|]|].
    + cbn [leaf_get pd_val]. unfold fmat, mk_mat, make_diagonal, delta. cbn. do 2 f_equal; [f_equal; lra|]. do 2 f_equal. do 2 f_equal. f_equal. lra.
    + split; [intros [|[|i]] [|[|j]] Hi Hj; try lia; reflexivity|]. exists delta. split; [reflexivity|]. intros [|[|i]] [|[|j]] Hi Hj; try lia; unfold delta; cbn; lra.
Qed.

(** C85: the mean of the inverse of a Wishart matrix is V^-1 / (df - n - 1) *)
Theorem C85_inverse_moment_refuted : forall inv d s n df V, number_shape s -> holds d "df" (farr s (fun _ => df)) -> holds d "v" (fmat n V) -> inverts inv n V -> (0 < n)%nat -> INR n + 1 < df ->
  exists B r, inverse_of n V B /\ wp_e_inv inv d = Ok (fmat n r) /\
    ((forall i j, (i < n)%nat -> (j < n)%nat -> r i j = B i j / (df - INR n - 1)) <-> df * (df - INR n - 1) = 1).
Proof. exact wishart_e_inv_wrong. Qed.
Print Assumptions C85_inverse_moment_refuted.
Example C85_nonvacuous : exists d p, wishart_init "w" 4 (Fin 0) None = Ok d /\ d_getitem d "df" = Ok (Leaf (LScalar p)) /\ holds d "df" (farr [] (fun _ => 4)) /\ holds d "v" (fmat 2 delta) /\ inverts (fun a => Ok a) 2 delta /\ INR 2 + 1 < 4 /\ 4 * (4 - INR 2 - 1) <> 1.
Proof.
  destruct (C73_default "w" 4) as [d [p [E [G [_ [H1 H2]]]]]]. exists d, p. split; [exact E|]. split; [exact G|].
  split; [replace 4 with (INR 4) by (cbn; lra); exact H1|]. split; [exact H2|]. split; [|cbn; lra]. exists delta. split; [reflexivity|]. intros [|[|i]] [|[|j]] Hi Hj; try lia; unfold delta; cbn; lra.
Qed.
