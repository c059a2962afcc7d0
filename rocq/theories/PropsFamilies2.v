(** C69, C71, C80, C82, C83: the remaining methods of the distribution classes, the LKJ prior as an expected log density, the evidence bound of multivariate normals. *)
From Coq Require Import String Reals List Arith Lia Lra Bool.
From Verif Require Import Res Num Nd RSum ModelParameters ModelMatrix ModelDict ModelNumpy ModelExpFam ModelFamilies SpecMatrix SpecExpFam SpecFamilies LemmasPosDef LemmasNumpy LemmasExpFam LemmasEntropy LemmasFamilies LemmasMvnBound PropsExpFam PropsFamilies.
Import List ListNotations.
Open Scope R_scope.

(** C69: UVNMomentParamArray.e2_exp adds the mean to the square of the mean; v is the variance the object reports, and exp(2 m + 2 v) the second moment of the lognormal *)
Theorem C69_moment_array_e2_refuted : forall d s m w, holds d "e" (farr s m) -> holds d "e2" (farr s w) ->
  exists r, um_e2_exp d = Ok (farr s r) /\
    forall i, index s i -> let v := w i - m i * m i in let ee := exp (m i + v / 2) in r i = ee * ee + ee /\ (r i = exp (2 * m i + 2 * v) <-> (exp v - 1) * ee = 1) /\ (v = 0 -> r i <> exp (2 * m i + 2 * v)).
Proof. exact um_e2_exp_wrong. Qed.
Print Assumptions C69_moment_array_e2_refuted.
Example C69_moment_array_e2_nonvacuous : exists x q x', uvn_moment_init "x" [2]%nat (Fin 0) = Ok x /\ uvn_array_init "q" [2]%nat (Fin 0) = Ok q /\ um_set_from_uvn x q = (x', Ok tt) /\ um_e2_exp (um_dict x') = Ok (farr [2]%nat (fun _ => exp 1 + exp (/ 2))).
Proof.
  destruct (uvn_moment_default "x" [2]%nat) as [x E1]. destruct (uvn_array_default "q" [2]%nat) as [q [E2 [S [H1 H2]]]].
  destruct (C70_from_normals x q [2]%nat _ _ (C70_constructed _ _ _ _ E1) S H1 H2) as [x' [E3 [_ [A1 [A2 [A3 [A4 A5]]]]]]]; [intros; lra|].
  exists x, q, x'. split; [exact E1|]. split; [exact E2|]. split; [exact E3|]. unfold um_e2_exp. change (um_var_exp (um_dict x')) with (um_e_exp (um_dict x')).
  rewrite A4, (uvn_e_exp_value _ _ _ _ H1 H2) by (intros; lra). pyfin.
  replace (0 + / 1 / 2) with (/ 2) by field. rewrite <- exp_plus. replace (/ 2 + / 2) with 1 by lra. reflexivity.
Qed.

(** C71: DirichletParamArray.e *)
Theorem C71_class : forall d n s alpha, holds d "alpha" (farr (n :: s) alpha) -> (forall i, index (n :: s) i -> 0 < alpha i) ->
  exists p, dp_e d = Ok (farr (n :: s) p) /\
    (forall i, index (n :: s) i -> 0 < p i <= 1) /\
    (forall j, index s j -> (0 < n)%nat -> rsum n (fun k => p (k :: j)) = 1) /\
    (forall k l j, index s j -> (k < n)%nat -> (l < n)%nat -> p (k :: j) * alpha (l :: j) = p (l :: j) * alpha (k :: j)).
Proof. exact dirichlet_e_class. Qed.
Print Assumptions C71_class.
Example C71_class_nonvacuous : exists d, dirichlet_init "d" [2; 2]%nat (Fin 0) (Some (farr [2; 2]%nat (fun i => INR (S (nth 0 i 0%nat))))) = Ok d /\ holds d "alpha" (farr [2; 2]%nat (fun i => INR (S (nth 0 i 0%nat)))).
Proof.
  unfold dirichlet_init, array_init, rassert, array_set. replace (nleb (Fin 0) (Fin 0)) with true by (symmetry; apply Rleb_true; lra). cbn [nltb nleb andb negb]. unfold get_inbounds_value.
  cbn [ap_shape shape farr mk_nd ap_name ap_lb ap_ub rbind]. rewrite shape_eqb_refl. cbn [negb].
  cbn [rbind]. eexists. split; [reflexivity|]. unfold dict_of. cbn [fold_left]. unfold dict_init, push_param. cbn [fst p_name leaf_name od_set ap_name String.eqb Ascii.eqb Bool.eqb]. unfold holds. cbn [d_getitem od_get String.eqb Ascii.eqb Bool.eqb]. eexists; split; reflexivity.
Qed.

(** C80: MVNParam.entropy *)
Theorem C80_multivariate_normal_class : forall slogdet, slogdet_contract slogdet -> forall inv d n m L (D : dist (nat -> R)), holds d "mean" (fvec_of n m) -> holds d "info" (fmat n L) -> 0 < det n L -> inverts inv n L -> is_dist D ->
  mvn_e d = Ok (fvec_of n (vmean D)) -> mvn_cov inv d = Ok (fmat n (vcov D)) ->
  mvn_entropy slogdet d = Ok (fnum (mvn_log_norm n L - expect D (fun x => ln (mvn_kernel n m L x)))).
Proof. exact mvn_class. Qed.
Print Assumptions C80_multivariate_normal_class.
(** two fair coins with values 1 and -1 have the moments of the default object *)
Definition coin_pair : dist (nat -> R) :=
  [(/ 4, fun _ => 1); (/ 4, fun _ => -1); (/ 4, fun i => match i with O => 1 | _ => -1 end); (/ 4, fun i => match i with O => -1 | _ => 1 end)].
Example C80_multivariate_nonvacuous : exists d, mvn_init "m" 2 (Fin 0) = Ok d /\ is_dist coin_pair /\ mvn_e d = Ok (fvec_of 2 (vmean coin_pair)) /\ mvn_cov (fun a => Ok a) d = Ok (fmat 2 (vcov coin_pair)) /\
  mvn_entropy slogdet_ref d = Ok (fnum (mvn_log_norm 2 delta + 1)).
Proof.
  destruct C84_nonvacuous as [d [E [H1 [H2 [S I]]]]]. exists d. split; [exact E|].
  assert (P : is_dist coin_pair) by (split; [repeat constructor; cbn; lra|cbn; lra]). split; [exact P|].
  assert (M : forall i, (i < 2)%nat -> 0 = vmean coin_pair i) by (intros [|[|i]] Hi; try lia; unfold vmean, expect; cbn; lra).
  assert (M1 : mvn_e d = Ok (fvec_of 2 (vmean coin_pair))).
  { unfold mvn_e. rewrite (member_holds _ _ _ H1). apply Ok_eq. apply farr_ext. intros i Hi. apply in_product_1 in Hi as [k [-> Hk]]. cbn [nth]. apply M, Hk. }
  assert (M2 : mvn_cov (fun a => Ok a) d = Ok (fmat 2 (vcov coin_pair))).
  { unfold mvn_cov. rewrite (member_holds _ _ _ H2). cbn [rbind]. apply Ok_eq. rewrite !fmat_fmat_of. apply farr_ext. intros idx Hi. apply in_product_2_inv in Hi as [i [j [-> [Hi Hj]]]]. cbn [nth].
    unfold vcov. rewrite <- (M i Hi), <- (M j Hj). unfold expect, delta. destruct i as [|[|i]]; destruct j as [|[|j]]; try lia; cbn; lra. }
  split; [exact M1|]. split; [exact M2|].
  rewrite (C80_multivariate_normal_class slogdet_ref (proj1 C68_nonvacuous) (fun a => Ok a) d 2 (fun _ => 0) delta coin_pair H1 H2) by (try assumption; unfold delta; cbn; unfold minor; cbn; lra).
  do 2 f_equal. unfold expect, mvn_kernel, delta. cbn. rewrite !ln_exp. lra.
Qed.

(** C82: X is the Wishart matrix and Y its inverse, whose correlations have the LKJ density det(R)^(eta - 1) up to a constant.
    For every distribution whose expected log determinant and expected log inverse diagonal are the reported ones, the prior is the expected log density. *)
Theorem C82_expected_log_density : forall slogdet inv digamma d s n df v eta (D : dist ((nat -> nat -> R) * (nat -> nat -> R))), number_shape s -> holds d "df" df -> holds d "v" v ->
  surely D (fun p => inverse_of n (fst p) (snd p) /\ 0 < det n (fst p) /\ forall i, (i < n)%nat -> 0 < snd p i i) ->
  wp_e_log_det digamma slogdet d = Ok (farr s (fun _ => expect D (fun p => ln (det n (fst p))))) ->
  e_log_inv_wishart_diag digamma inv df v = Ok (fvec_of n (fun i => expect D (fun p => ln (snd p i i)))) ->
  wp_e_log_lkj_inv_prior digamma slogdet inv eta d = Ok (farr s (fun _ => expect D (fun p => ln (Rpower (det n (correlation (snd p))) (eta - 1))))).
Proof. exact lkj_expect. Qed.
Print Assumptions C82_expected_log_density.
(** a correlated matrix with the moments the default WishartParam reports when digamma is the identity *)
Definition ex_det : R := 4 * exp (3 / 2).
Definition ex_off : R := sqrt (4 * exp 2 - ex_det).
Definition ex_X (i j : nat) : R := if Nat.eqb i j then 2 * exp 1 else ex_off.
Definition ex_Y (i j : nat) : R := if Nat.eqb i j then 2 * exp 1 / ex_det else - ex_off / ex_det.
Example C82_density_nonvacuous : exists d, wishart_init "w" 2 (Fin 0) None = Ok d /\ holds d "df" (fnum 2) /\ holds d "v" (fmat 2 delta) /\ is_dist [(1, (ex_X, ex_Y))] /\ inverse_of 2 ex_X ex_Y /\ 0 < ex_off /\
  wp_e_log_lkj_inv_prior (fun x => x) slogdet_ref (fun a => Ok a) 3 d = Ok (fnum (expect [(1, (ex_X, ex_Y))] (fun p => ln (Rpower (det 2 (correlation (snd p))) (3 - 1))))).
Proof.
  destruct (C73_default "w" 2) as [d [p [E [_ [_ [H1 H2]]]]]]. change (fmat 2 delta) with (fmat 2 delta) in H2. replace (INR 2) with 2 in H1 by (cbn; lra). exists d. split; [exact E|]. split; [exact H1|]. split; [exact H2|].
  assert (PD : is_dist [(1, (ex_X, ex_Y))]) by (split; [repeat constructor; cbn; lra|cbn; lra]). split; [exact PD|].
  assert (P1 : 0 < ex_det) by (unfold ex_det; pose proof (exp_pos (3 / 2)); lra).
  assert (P2 : 0 < 4 * exp 2 - ex_det) by (unfold ex_det; assert (exp (3 / 2) < exp 2) by (apply exp_increasing; lra); lra).
  assert (SQ : ex_off * ex_off = 4 * exp 2 - ex_det) by (apply sqrt_sqrt; lra).
  assert (EE : exp 1 * exp 1 = exp 2) by (rewrite <- exp_plus; f_equal; lra).
  assert (N : ex_det <> 0) by lra.
  assert (I : inverse_of 2 ex_X ex_Y).
  { intros [|[|i]] [|[|j]] Hi Hj; try lia; unfold ex_X, ex_Y, delta; cbn; split; apply (Rmult_eq_reg_r ex_det); try exact N; field_simplify; try exact N; nra. }
  split; [exact I|]. split; [apply sqrt_lt_R0, P2|].
  assert (DX : det 2 ex_X = ex_det) by (unfold ex_X; cbn; unfold minor; cbn; nra).
  apply (C82_expected_log_density slogdet_ref (fun a => Ok a) (fun x => x) d [] 2 (fnum 2) (fmat 2 delta) 3 [(1, (ex_X, ex_Y))]); [left; reflexivity|exact H1|exact H2| | |].
  - constructor; [|constructor]. cbn [snd fst]. split; [exact I|]. split; [rewrite DX; exact P1|]. intros i _. unfold ex_Y. rewrite Nat.eqb_refl. apply Rdiv_lt_0_compat; [pose proof (exp_pos 1); lra|exact P1].
  - unfold wp_e_log_det. rewrite (member_holds _ _ _ H1), (member_holds _ _ _ H2). cbn [rbind].
    rewrite (e_log_det_value (fun x => x) (fun x => x) ltac:(intros x _; reflexivity) slogdet_ref (proj1 C68_nonvacuous)); [|cbn; lra|unfold delta; cbn; unfold minor; cbn; lra].
    change (fnum ?x) with (farr [] (fun _ => x)). apply Ok_eq. apply farr_ext. intros _ _. unfold expect. cbn [map lsum fst snd]. rewrite DX. unfold ex_det. rewrite ln_mult by (try lra; apply exp_pos). rewrite ln_exp.
    unfold e_log_det_of. replace (det 2 delta) with 1 by (unfold delta; cbn; unfold minor; cbn; lra). rewrite ln_1. replace 4 with (2 * 2) by lra. rewrite ln_mult by lra. cbn. lra.
  - rewrite (e_log_inv_diag_value (fun x => x) (fun x => x) ltac:(intros x _; reflexivity) (fun a => Ok a) 2 2 delta delta); [|cbn; lra|reflexivity| |intros i _; unfold delta; rewrite Nat.eqb_refl; lra].
    + apply Ok_eq. apply farr_ext. intros idx _. unfold expect. cbn [map lsum fst snd]. unfold ex_Y, delta. rewrite !Nat.eqb_refl. rewrite ln_1.
      replace (2 * exp 1 / ex_det) with (/ (2 * exp (/ 2))).
      * rewrite ln_Rinv, ln_mult, ln_exp by (try lra; try apply exp_pos; pose proof (exp_pos (/ 2)); lra). cbn. lra.
      * unfold ex_det. replace (3 / 2) with (1 + / 2) by lra. rewrite exp_plus. field. split; apply Rgt_not_eq, exp_pos.
    + intros [|[|i]] [|[|j]] Hi Hj; try lia; unfold delta; cbn; lra.
Qed.
(** the two facts about the numbers hold for the method of the class *)
Theorem C82_class : forall digamma PSI, special digamma PSI -> forall slogdet, slogdet_contract slogdet -> forall inv d d' n df V eta c,
  holds d "df" (fnum df) -> holds d "v" (fmat n V) -> holds d' "df" (fnum df) -> holds d' "v" (fmat n (fun i j => c i * V i j * c j)) ->
  INR n - 1 < df -> 0 < det n V -> (forall B, inverse_of n V B -> forall i, (i < n)%nat -> 0 < B i i) -> (forall i, (i < n)%nat -> c i <> 0) ->
  inverts inv n V -> inverts inv n (fun i j => c i * V i j * c j) ->
  exists r, wp_e_log_lkj_inv_prior digamma slogdet inv eta d = Ok (fnum r) /\ wp_e_log_lkj_inv_prior digamma slogdet inv eta d' = Ok (fnum r).
Proof.
  intros digamma PSI HP slogdet HS inv d d' n df V eta c H1 H2 H3 H4. unfold wp_e_log_lkj_inv_prior. rewrite (member_holds _ _ _ H1), (member_holds _ _ _ H2), (member_holds _ _ _ H3), (member_holds _ _ _ H4). cbn [rbind].
  apply (C82_rescaling digamma PSI HP slogdet HS).
Qed.
Print Assumptions C82_class.

(** C83: r - mvn_log_norm is E_q[log p] and h the entropy of q for a multivariate normal factor q = N(e, I^-1) and prior p = N(m, L^-1) *)
Theorem C83_multivariate_bound : forall slogdet, slogdet_contract slogdet -> forall inv d n e I m L, holds d "mean" (fvec_of n e) -> holds d "info" (fmat n I) -> symmetric n I -> posdef n I -> inverts inv n I -> symmetric n L -> posdef n L ->
  exists r h, (do x <- mvn_e d; do c <- mvn_cov inv d; mvn_prior (fvec_of n m) (fmat n L) x c) = Ok (fnum r) /\ mvn_entropy slogdet d = Ok (fnum h) /\
    let bound := r - mvn_log_norm n L + h in
    bound <= 0 /\ (bound = 0 <-> (forall i, (i < n)%nat -> e i = m i) /\ forall i j, (i < n)%nat -> (j < n)%nat -> I i j = L i j).
Proof. exact mvn_bound. Qed.
Print Assumptions C83_multivariate_bound.
(** the default object against a prior with correlated coordinates *)
Example C83_multivariate_nonvacuous : exists d r h, mvn_init "m" 2 (Fin 0) = Ok d /\ (do x <- mvn_e d; do c <- mvn_cov (fun a => Ok a) d; mvn_prior (fvec_of 2 (fun _ => 0)) (fmat 2 ex_V) x c) = Ok (fnum r) /\ mvn_entropy slogdet_ref d = Ok (fnum h) /\ r - mvn_log_norm 2 ex_V + h < 0.
Proof.
  destruct C84_nonvacuous as [d [E [H1 [H2 [S I]]]]]. exists d.
  assert (SV : symmetric 2 ex_V) by (intros [|[|i]] [|[|j]] Hi Hj; try lia; reflexivity).
  assert (PV : posdef 2 ex_V).
  { intros x [i [Hi N]]. unfold quad, ex_V. cbn. destruct i as [|[|i]]; try lia; destruct (Req_dec (x 0%nat + x 1%nat) 0) as [Z|Z].
    - assert (0 < x 0%nat * x 0%nat) by (pose proof (Rlt_0_sqr _ N) as Q; unfold Rsqr in Q; exact Q). nra.
    - assert (0 < (x 0%nat + x 1%nat) * (x 0%nat + x 1%nat)) by (pose proof (Rlt_0_sqr _ Z) as Q; unfold Rsqr in Q; exact Q). nra.
    - assert (0 < x 1%nat * x 1%nat) by (pose proof (Rlt_0_sqr _ N) as Q; unfold Rsqr in Q; exact Q). nra.
    - assert (0 < (x 0%nat + x 1%nat) * (x 0%nat + x 1%nat)) by (pose proof (Rlt_0_sqr _ Z) as Q; unfold Rsqr in Q; exact Q). nra. }
  assert (PI : posdef 2 delta).
  { intros x [i [Hi N]]. unfold quad, delta. cbn. destruct i as [|[|i]]; try lia.
    - assert (0 < x 0%nat * x 0%nat) by (pose proof (Rlt_0_sqr _ N) as Q; unfold Rsqr in Q; exact Q). nra.
    - assert (0 < x 1%nat * x 1%nat) by (pose proof (Rlt_0_sqr _ N) as Q; unfold Rsqr in Q; exact Q). nra. }
  destruct (C83_multivariate_bound slogdet_ref (proj1 C68_nonvacuous) (fun a => Ok a) d 2 (fun _ => 0) delta (fun _ => 0) ex_V H1 H2 S PI I SV PV) as [r [h [E1 [E2 [B Z]]]]].
  exists r, h. split; [exact E|]. split; [exact E1|]. split; [exact E2|]. destruct B as [B|B]; [exact B|]. destruct (proj2 (proj1 Z B) 0%nat 1%nat ltac:(lia) ltac:(lia)). 
  pose proof (proj2 (proj1 Z B) 0%nat 0%nat ltac:(lia) ltac:(lia)) as Q. unfold delta, ex_V in Q. cbn in Q. lra.
Qed.
