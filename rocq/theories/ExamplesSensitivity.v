(** One-dimensional objectives: concrete cases for the sensitivity classes, and counterexamples. *)
From Coq Require Import String Reals List Bool Arith ZArith Lia Lra.
From Coquelicot Require Import Coquelicot.
From Verif Require Import Res Num Nd RSum ModelAutograd ModelSparse ModelParameters ModelMatrix ModelSimplex ModelProjection ModelDict ModelObjective ModelSensitivity.
From Verif Require Import SpecParameters SpecDict SpecObjective LemmasParameters LemmasDict LemmasMatrix LemmasObjective LemmasPrecond LemmasTwoParam SpecSmooth SpecSensitivity LemmasSmooth LemmasDirDeriv LemmasTerms LemmasSens LemmasSensMain LemmasSensClass LemmasLinear LemmasSensStep LemmasOldSens LemmasSolve.
Import List ListNotations.
Open Scope R_scope.
Set Bullet Behavior "Strict Subproofs".

Definition one_par (nm : string) (lb : num) (v : R) : tparam := TLeaf (LVector (VectorP nm 1 lb PInf (nd_vec [Fin v]))) false.
Definition read (t : tparam) : res R := do v <- t_get_vector t; Ok (toR (nth 0 (data (ta_val v)) NaN)).
(** the objective P(input, hyperparameter) *)
Definition poly (P : R -> R -> R) : pair_state -> unit -> res R := fun st _ => do x <- read (fst st); do y <- read (snd st); Ok (P x y).
Definition ex_st : pair_state := (one_par "x" NInf 0, one_par "e" NInf 0).
Definition plane (z : list R) : Prop := length z = 2%nat.

Lemma plane_shape z : plane z -> z = [nth 0 z 0; nth 1 z 0].
Proof. destruct z as [|a [|b [|c z]]]; cbn; intros H; try discriminate. reflexivity. Qed.
Lemma poly_eval P hf x e : eval_fun (poly P) ex_st (fin_arg [x]) (fin_arg [e]) true hf tt = ((one_par "x" NInf x, one_par "e" NInf e), Ok (P x e)).
Proof. destruct hf; reflexivity. Qed.
Lemma poly_joint P hf z : plane z -> joint (poly P) ex_st true hf 1 z = P (nth 0 z 0) (nth 1 z 0).
Proof. intros L. rewrite (plane_shape z L). unfold joint, real2. cbn [firstn skipn nth]. rewrite poly_eval. reflexivity. Qed.
Lemma poly_evaluates P hf : evaluates_on (poly P) ex_st true hf 1 1 plane.
Proof. intros [|x [|]] [|e [|]] L1 L2 _; try discriminate. exists (P x e). rewrite poly_eval. reflexivity. Qed.
Lemma poly_set hf x e : set_both ex_st (fin_arg [x]) (fin_arg [e]) true hf = ((one_par "x" NInf x, one_par "e" NInf e), Ok tt).
Proof. destruct hf; reflexivity. Qed.
Lemma poly_partial P hf z d : plane z -> is_derive (fun t => P t (nth 1 z 0)) (nth 0 z 0) d -> is_partial (joint (poly P) ex_st true hf 1) 0 z d.
Proof.
  intros L D. unfold is_partial. apply (is_derive_ext (fun t => P t (nth 1 z 0))); [|exact D]. intros t. rewrite poly_joint by (unfold plane; rewrite upd_length; exact L). rewrite (plane_shape z L). reflexivity.
Qed.
Lemma plane_partial (g : R -> R -> R) z d : plane z -> is_derive (fun t => g t (nth 1 z 0)) (nth 0 z 0) d -> is_partial (fun y => g (nth 0 y 0) (nth 1 y 0)) 0 z d.
Proof.
  intros L D. unfold is_partial. apply (is_derive_ext (fun t => g t (nth 1 z 0))); [|exact D]. intros t. rewrite (plane_shape z L). reflexivity.
Qed.
Lemma poly_Ck k P hf (f : list R -> R) : (forall z, f z = P (nth 0 z 0) (nth 1 z 0)) -> Ck k 2 plane f -> Ck k 2 plane (joint (poly P) ex_st true hf 1).
Proof. intros E C. apply (Ck_ext k 2 plane f); [apply whole_space_open| |exact C]. intros y Ly. rewrite poly_joint by exact Ly. apply E. Qed.
Lemma coordinate k i : Ck k 2 plane (fun z => nth i z 0).
Proof. apply Ck_coord. intros x Lx. exact Lx. Qed.
Lemma one_nonsingular (h : nat -> nat -> R) : h 0%nat 0%nat <> 0 -> nonsingular 1 (RMat 1 1 h).
Proof.
  intros N. split; [reflexivity|]. split; [reflexivity|]. intros [|x [|]] L Hx i Hi; try discriminate. assert (i = 0%nat) by lia. subst i. cbn in *. specialize (Hx 0%nat Hi). cbn in Hx. rewrite Rplus_0_l in Hx. apply Rmult_integral in Hx. destruct Hx; [contradiction|assumption].
Qed.

(** ---- the objective x^2/2 + x^3/3 - e x, at x = e = 0 ---- *)
Definition cubic (x e : R) : R := / 2 * (x * x) + / 3 * (x * (x * x)) + -1 * (e * x).
Definition E_cubic (k : nat) (t : R) : list R :=
  match k with
  | 0%nat => [/ 2 * (-1 + sqrt (1 + 4 * t))]
  | 1%nat => [/ sqrt (1 + 4 * t)]
  | 2%nat => [- 2 / (sqrt (1 + 4 * t) * sqrt (1 + 4 * t) * sqrt (1 + 4 * t))]
  | _ => [0]
  end.
Lemma cubic_Ck k hf : Ck k 2 plane (joint (poly cubic) ex_st true hf 1).
Proof.
  apply (poly_Ck k cubic hf (fun z => / 2 * (nth 0 z 0 * nth 0 z 0) + / 3 * (nth 0 z 0 * (nth 0 z 0 * nth 0 z 0)) + -1 * (nth 1 z 0 * nth 0 z 0))); [reflexivity|].
  pose proof (coordinate k 0) as X. pose proof (coordinate k 1) as Y. apply Ck_plus; [apply Ck_plus|]; apply Ck_scal; repeat apply Ck_mult; assumption.
Qed.
Lemma cubic_gradient hf z : plane z -> is_partial (joint (poly cubic) ex_st true hf 1) 0 z (nth 0 z 0 + nth 0 z 0 * nth 0 z 0 - nth 1 z 0).
Proof. intros L. apply poly_partial; [exact L|]. unfold cubic. auto_derive; [exact I|]. field. Qed.
Lemma sqrt_near t : Rabs t < / 4 -> 0 < 1 + 4 * t /\ 0 < sqrt (1 + 4 * t) /\ sqrt (1 + 4 * t) * sqrt (1 + 4 * t) = 1 + 4 * t.
Proof. intros H. apply Rabs_def2 in H. assert (P : 0 < 1 + 4 * t) by lra. split; [exact P|]. split; [apply sqrt_lt_R0, P|apply sqrt_sqrt; lra]. Qed.
Lemma cubic_curve : curve_with_derivatives 1 2 (/ 4) E_cubic.
Proof.
  split; [intros [|[|[|k]]] t; reflexivity|]. intros k t c Hk Ht Hc. assert (c = 0%nat) by lia. subst c. destruct (sqrt_near t Ht) as [P1 [P2 P3]]. destruct k as [|[|k]]; [| |lia]; cbn [E_cubic nth].
  - auto_derive; [exact P1|]. field. lra.
  - apply (is_derive_ext_loc (fun s => / sqrt (1 + 4 * s))); [apply filter_forall; reflexivity|]. auto_derive; [split; [exact P1|split; [lra|exact I]]|]. field. lra.
Qed.
Lemma along_plane E t : (forall k t, length (E k t) = 1%nat) -> plane (along E [0] [1] t).
Proof. intros LE. unfold plane, along. rewrite app_length, LE, move_length. reflexivity. Qed.
Lemma cubic_stationary hf : optimum_curve 1 (joint (poly cubic) ex_st true hf 1) (/ 4) E_cubic [0] [1].
Proof.
  intros t i Ht Hi. assert (i = 0%nat) by lia. subst i. destruct (sqrt_near t Ht) as [P1 [P2 P3]]. evar_last; [apply cubic_gradient, along_plane; intros [|[|[|k]]] s; reflexivity|]. unfold along, move. cbn [E_cubic app nth length seq map]. nra.
Qed.
Definition H_one : rmat2 := RMat 1 1 (fun _ _ => 1).
Lemma E_cubic_0 : E_cubic 0 0 = [0].
Proof. cbn. rewrite Rmult_0_r, Rplus_0_r, sqrt_1. f_equal. lra. Qed.
Lemma cubic_hessian hf : is_hessian 1 plane (joint (poly cubic) ex_st true hf 1) (E_cubic 0 0 ++ [0]) H_one.
Proof.
  split; [reflexivity|]. split; [reflexivity|]. exists (fun _ y => nth 0 y 0 + nth 0 y 0 * nth 0 y 0 - nth 1 y 0). split.
  - intros j y Hj Ly. assert (j = 0%nat) by lia. subst j. apply cubic_gradient, Ly.
  - intros i j Hi Hj. assert (i = 0%nat) by lia. subst i. rewrite E_cubic_0. apply (plane_partial (fun x e => x + x * x - e)); [reflexivity|]. cbn [app nth H_one rm_get]. auto_derive; [exact I|ring].
Qed.
Lemma one_set_free nm y v : t_set_free (one_par nm NInf y) (fin_arg [v]) = (one_par nm NInf v, Ok tt). Proof. reflexivity. Qed.
(** a differentiation library that leaves nothing behind *)
Definition clean_trace (t : tparam) (y : list R) : tparam := t.
Lemma clean_traced t y : traced t (clean_trace t y). Proof. constructor. Qed.
Lemma clean_traced2 f1 f2 (s : pair_state) : two_traced f1 f2 s s. Proof. constructor. Qed.

Lemma cubic_init h hf order : (0 < order)%Z -> exists st1 ty, taylor_init gauss_solve (poly cubic) h rmat2 gauss_factor clean_trace true hf ex_st (E_cubic 0 0) [0] order None = (st1, Ok ty).
Proof.
  intros Ho. destruct (taylor_init_ok gauss_solve (poly cubic) h rmat2 gauss_factor clean_trace hf ex_st (E_cubic 0 0) [0] (one_par "x" NInf 0, one_par "e" NInf 0) 1 1 plane order None clean_traced) as [Q _]; try reflexivity.
  - apply whole_space_open.
  - apply cubic_Ck.
  - rewrite E_cubic_0. apply poly_set.
  - intros m _. exists m. reflexivity.
  - destruct (Q Ho) as [ty Ety]. eexists. exists ty. exact Ety.
Qed.

(** ---- the part -e x alone: what the expansion follows ---- *)
Definition bilinear (x e : R) : R := -1 * (e * x).
Definition E_line (k : nat) (t : R) : list R := match k with 0%nat => [t] | 1%nat => [1] | _ => [0] end.
Lemma bilinear_Ck k hf : Ck k 2 plane (joint (poly bilinear) ex_st true hf 1).
Proof. apply (poly_Ck k bilinear hf (fun z => -1 * (nth 1 z 0 * nth 0 z 0))); [reflexivity|]. apply Ck_scal, Ck_mult; apply coordinate. Qed.
Lemma bilinear_gradient hf z : plane z -> is_partial (joint (poly bilinear) ex_st true hf 1) 0 z (- nth 1 z 0).
Proof. intros L. apply poly_partial; [exact L|]. unfold bilinear. auto_derive; [exact I|]. ring. Qed.
Lemma line_curve K : curve_with_derivatives 1 K (/ 4) E_line.
Proof.
  split; [intros [|[|k]] t; reflexivity|]. intros k t c _ _ Hc. assert (c = 0%nat) by lia. subst c. destruct k as [|[|k]]; cbn [E_line nth].
  - apply @is_derive_id.
  - exact (is_derive_const (V := R_NormedModule) 1 t).
  - exact (is_derive_const (V := R_NormedModule) 0 t).
Qed.
Lemma cubic_bilinear hf : split_off 1 plane (joint (poly cubic) ex_st true hf 1) (joint (poly bilinear) ex_st true hf 1).
Proof.
  exists (fun x => / 2 * (nth 0 x 0 * nth 0 x 0) + / 3 * (nth 0 x 0 * (nth 0 x 0 * nth 0 x 0))). intros z L. rewrite !poly_joint by exact L. rewrite (plane_shape z L). reflexivity.
Qed.
Lemma line_corrected hf : corrected_curve 1 plane (joint (poly bilinear) ex_st true hf 1) H_one (/ 4) E_line [0] [1].
Proof.
  exists (fun _ y => - nth 1 y 0), (RMat 1 1 (fun _ _ => 0)). split; [|split].
  - intros j y Hj Ly. assert (j = 0%nat) by lia. subst j. apply bilinear_gradient, Ly.
  - split; [reflexivity|]. split; [reflexivity|]. exists (fun _ y => - nth 1 y 0). split; [intros j y Hj Ly; assert (j = 0%nat) by lia; subst j; apply bilinear_gradient, Ly|].
    intros i j Hi Hj. assert (i = 0%nat) by lia. subst i. apply (plane_partial (fun x e => - e)); [apply along_plane; intros [|[|k]] t; reflexivity|]. exact (is_derive_const (V := R_NormedModule) _ _).
  - intros t c Ht Hc. unfold along, move. cbn [E_line app nth length seq map rsum H_one rm_get]. ring.
Qed.
(** at order 2 the expansion of the split objective is wrong *)
Lemma split_second_order st1 ty st : taylor_init gauss_solve (poly cubic) (poly bilinear) rmat2 gauss_factor clean_trace true false ex_st [0] [0] 2 None = (st1, Ok ty) -> history2 st1 st ->
  evaluate_dkinput_dhyperk gauss_solve (poly bilinear) (fun s => s) true false (with_st ty st) [1] 2 None = (ty, Ok [0]).
Proof.
  intros Hi Hs. change [0] with (E_line 0 0) in Hi at 1. change (@Ok (list R) [0]) with (Ok (E_line 2 0)).
  apply (taylor_eval_gen gauss_solve rmat2 gauss_factor clean_trace (fun s => s) gauss_solves_systems clean_traced false (clean_traced2 true false) (poly cubic) (poly bilinear) ex_st 1 1 plane 2 (/ 4) E_line [0] [1] H_one) with (hess_arg := None) (st1 := st1) (k := 2%nat); try reflexivity; try lia; try lra; try assumption.
  - apply whole_space_open.
  - apply poly_evaluates.
  - apply cubic_Ck.
  - apply bilinear_Ck.
  - apply line_curve.
  - apply line_corrected.
  - pose proof (cubic_hessian false) as Hc. rewrite E_cubic_0 in Hc. exact Hc.
  - apply one_nonsingular. cbn. lra.
Qed.

(** ---- C56: the objective (x - e)^2 / 2 with x bounded below by 0, in vector coordinates, at x = e = 2 ---- *)
Definition square (x e : R) : R := / 2 * ((x - e) * (x - e)).
Definition st_b : pair_state := (one_par "x" (Fin 0) 2, one_par "e" NInf 2).
Definition E_b (k : nat) (t : R) : list R := match k with 0%nat => [2 + t] | 1%nat => [1] | _ => [0] end.
Lemma square_b z : plane z -> joint (poly square) st_b false false 1 z = square (nth 0 z 0) (nth 1 z 0).
Proof. intros L. rewrite (plane_shape z L). reflexivity. Qed.
Lemma square_b_Ck k : Ck k 2 plane (joint (poly square) st_b false false 1).
Proof.
  apply (Ck_ext k 2 plane (fun z => / 2 * ((nth 0 z 0 + -1 * nth 1 z 0) * (nth 0 z 0 + -1 * nth 1 z 0)))); [apply whole_space_open| |].
  - intros y Ly. rewrite square_b by exact Ly. unfold square. ring.
  - pose proof (coordinate k 0) as X. pose proof (coordinate k 1) as Y. apply Ck_scal, Ck_mult; apply Ck_plus; try assumption; apply Ck_scal; assumption.
Qed.
Lemma square_b_gradient z : plane z -> is_partial (joint (poly square) st_b false false 1) 0 z (nth 0 z 0 - nth 1 z 0).
Proof.
  intros L. unfold is_partial. apply (is_derive_ext (fun t => square t (nth 1 z 0))).
  - intros t. rewrite square_b by (unfold plane; rewrite upd_length; exact L). rewrite (plane_shape z L). reflexivity.
  - unfold square. auto_derive; [exact I|]. field.
Qed.
Lemma square_b_optimum : curve_with_derivatives 1 1 1 E_b /\ optimum_curve 1 (joint (poly square) st_b false false 1) 1 E_b [2] [1].
Proof.
  split.
  - split; [intros [|[|k]] t; reflexivity|]. intros k t c Hk _ Hc. assert (c = 0%nat) by lia. assert (k = 0%nat) by lia. subst c k. cbn [E_b nth]. auto_derive; [exact I|ring].
  - intros t i _ Hi. assert (i = 0%nat) by lia. subst i. evar_last; [apply square_b_gradient; unfold plane, along; rewrite app_length, move_length; reflexivity|]. unfold along, move. cbn [E_b app nth length seq map]. ring.
Qed.
Definition hess_b : rmat2 := ag_hessian (fun t a => poly square (t, snd st_b) a) (fst st_b) [2] tt.
Lemma hess_b_value : rm_get hess_b 0 0 = 2 * (exp 2 * exp 2) - 2 * exp 2.
Proof.
  assert (F : forall u, free_real (fun t a => poly square (t, snd st_b) a) (fst st_b) tt [u] = square (exp u + 0) 2) by reflexivity.
  change (rm_get hess_b 0 0) with (Derive (fun v => Derive (fun u => free_real (fun t a => poly square (t, snd st_b) a) (fst st_b) tt [u]) v) 2).
  rewrite (Derive_ext _ (fun v => (exp v - 2) * exp v)).
  - apply is_derive_unique. auto_derive; [exact I|]. ring.
  - intros v. rewrite (Derive_ext _ (fun u => square (exp u + 0) 2)) by (intros; apply F). apply is_derive_unique. unfold square. auto_derive; [exact I|]. field.
Qed.
Lemma exp2_big : 2 < exp 2.
Proof. pose proof (exp_ineq1 2 ltac:(lra)). lra. Qed.
Lemma not_free_wrong : exists st1 ty r ty', taylor_init gauss_solve (poly square) (poly square) rmat2 gauss_factor clean_trace false false st_b [2] [2] 1 None = (st1, Ok ty) /\
  evaluate_dkinput_dhyperk gauss_solve (poly square) (fun s => s) false false ty [1] 1 None = (ty', Ok [r]) /\ 0 < r < 1 / 2.
Proof.
  set (st1 := (one_par "x" (Fin 0) (exp 2 + 0), one_par "e" NInf 2)). set (ty := Taylor st1 [2] [2] hess_b 1).
  pose proof exp2_big as E2. pose proof hess_b_value as HV. assert (HP : 4 < rm_get hess_b 0 0) by (rewrite HV; nra).
  destruct (build_order_ok gauss_solve (objective_gradient (poly square) false false st1) [2] [2] hess_b 1 ltac:(lia)) as [terms [fs [EB _]]]. change (Z.of_nat 1) with 1%Z in EB.
  assert (Hi : taylor_init gauss_solve (poly square) (poly square) rmat2 gauss_factor clean_trace false false st_b [2] [2] 1 None = (st1, Ok ty)).
  { unfold taylor_init. change (set_base_values (poly square) rmat2 gauss_factor clean_trace false false st_b [2] [2] None) with (st1, @Ok (rmat2 * rmat2) (hess_b, hess_b)). cbv iota beta. unfold set_order. cbn [ty_st ty_in0 ty_hy0 ty_hess]. rewrite EB. reflexivity. }
  assert (NS : nonsingular 1 hess_b) by (apply one_nonsingular; change (rm_get hess_b 0 0 <> 0); lra).
  assert (Hh : history2 st_b st1).
  { split; [|constructor]. cbn [fst]. eapply hist_more; [constructor|]. change (fst st1) with (fst (t_set_free (one_par "x" (Fin 0) 2) (fin_arg [2]))). constructor. }
  assert (Hev : evaluates_on (poly square) st_b false false 1 1 plane) by (intros [|x [|]] [|e [|]] L1 L2 _; try discriminate; exists (square x e); reflexivity).
  destruct (first_order gauss_solve 1 1 plane (objective_gradient (poly square) false false st1) (fun c => ad_partial (joint (poly square) st_b false false 1) c) [2] [2] [1] hess_b None 1 (whole_space_open 2)
    (gradient_two_arg (poly square) st_b st1 false false 1 1 plane Hh Hev) (gradient_smooth 1 _ 1 1 plane (whole_space_open 2) (square_b_Ck 2)) ltac:(lia) eq_refl eq_refl eq_refl eq_refl gauss_solves_systems NS ltac:(lia) ltac:(lia) I 1 terms fs ltac:(lia) EB) as [g [x [Eg [Ex [Lx Hx]]]]].
  destruct x as [|r [|]]; try discriminate. exists st1, ty, r. eexists. split; [exact Hi|]. split.
  - unfold evaluate_dkinput_dhyperk. cbn [Z.leb Z.ltb Z.compare ty_order ty ty_st ty_in0 ty_hy0 ty_hess Pos.compare Pos.compare_cont]. rewrite EB. cbn [rbind snd]. change (1 - 1)%Z with (Z.of_nat 0). rewrite py_index_nat, Eg. cbn [rbind]. rewrite Ex. reflexivity.
  - specialize (Hx 0%nat ltac:(lia)). cbn [rsum nth Nat.add app] in Hx.
    assert (Q : ad_partial (ad_partial (joint (poly square) st_b false false 1) 0) 1 [2; 2] = -1).
    { apply ad_partial_eq. unfold is_partial. apply (is_derive_ext (fun t => 2 - t)).
      - intros t. symmetry. etransitivity; [apply ad_partial_eq, (square_b_gradient [2; t]); reflexivity|]. reflexivity.
      - auto_derive; [exact I|]. ring. }
    rewrite Q in Hx. assert (Er : rm_get hess_b 0 0 * r = 1) by lra. split; nra.
Qed.

(** ---- C56: the linear class with a free hyperparameter: (x - e)^2 / 2 with e bounded below by 0, at the free value 1 of e ---- *)
Definition st_c : pair_state := (one_par "x" NInf 0, one_par "e" (Fin 0) 1).
Definition opt_c (y : list R) : list R := [exp (nth 0 y 0) + 0].
Lemma square_c z : plane z -> joint (poly square) st_c true true 1 z = square (nth 0 z 0) (exp (nth 1 z 0) + 0).
Proof. intros L. rewrite (plane_shape z L). reflexivity. Qed.
Lemma square_c_optimum : optimum_map 1 1 (joint (poly square) st_c true true 1) [1] opt_c /\ is_jacobian 1 1 opt_c [1] (fun _ _ => exp 1).
Proof.
  split.
  - split; [reflexivity|]. exists 1. split; [lra|]. intros [|y [|]] i [Ly _] Hi; try discriminate. assert (i = 0%nat) by lia. subst i. unfold is_partial. cbn [opt_c nth app].
    apply (is_derive_ext (fun t => square t (exp y + 0))); [intros t; symmetry; apply square_c; reflexivity|]. unfold square. auto_derive; [exact I|]. field.
  - intros i l Hi Hl. assert (i = 0%nat) by lia. assert (l = 0%nat) by lia. subst i l. unfold is_partial. cbn [opt_c upd nth]. auto_derive; [exact I|]. ring.
Qed.
Lemma free_hyper_wrong Chol (cho_factor : rmat2 -> res Chol) cho_solve : cho_solves cho_factor cho_solve -> (forall H, nonsingular 1 H -> exists c, cho_factor H = Ok c) ->
  exists st2 l, linear_init (poly square) (poly square) Chol cho_factor clean_trace true true cho_solve (fun s _ _ => s) st_c (opt_c [1]) [1] None = (st2, Ok l) /\
  rm_get (get_dinput_dhyper l) 0 0 = 1.
Proof.
  intros Hc Hf.
  set (s1 := (one_par "x" NInf (exp 1 + 0), one_par "e" (Fin 0) (exp 1 + 0))).
  set (h := ag_hessian (fun t a => poly square (t, snd s1) a) (fst s1) [exp 1 + 0] tt).
  set (cr := ag_two Hessian12 (real2 (poly square) s1 true false tt) [exp 1 + 0] [1]).
  assert (Hh : rm_get h 0 0 = 1).
  { change (rm_get h 0 0) with (Derive (fun v => Derive (fun u => free_real (fun t a => poly square (t, snd s1) a) (fst s1) tt [u]) v) (exp 1 + 0)).
    rewrite (Derive_ext _ (fun v => v - (exp 1 + 0))).
    - apply is_derive_unique. auto_derive; [exact I|]. ring.
    - intros v. rewrite (Derive_ext _ (fun u => square u (exp 1 + 0))) by (intros; reflexivity). apply is_derive_unique. unfold square. auto_derive; [exact I|]. field. }
  assert (NS : nonsingular 1 h) by (apply one_nonsingular; change (rm_get h 0 0 <> 0); lra).
  assert (Hcr : rm_get cr 0 0 = -1).
  { change (rm_get cr 0 0) with (Derive (fun v => Derive (fun u => real2 (poly square) s1 true false tt [u] [v]) (exp 1 + 0)) 1).
    rewrite (Derive_ext _ (fun v => exp 1 + 0 - v)).
    - apply is_derive_unique. auto_derive; [exact I|]. ring.
    - intros v. rewrite (Derive_ext _ (fun u => square u v)) by (intros; reflexivity). apply is_derive_unique. unfold square. auto_derive; [exact I|]. field. }
  destruct (Hf h NS) as [c Ec]. assert (Sy : symmetric 1 h) by (intros i j Hi Hj; assert (i = 0%nat) by lia; assert (j = 0%nat) by lia; subst; reflexivity).
  destruct (Hc 1%nat h c cr Ec NS Sy eq_refl) as [X [EX [RX [CX HX]]]].
  exists (fst s1, one_par "e" (Fin 0) 1), (Linear (fst s1, one_par "e" (Fin 0) 1) [exp 1 + 0] [1] h cr (mscale (-1) X)). split.
  - unfold linear_init, linear_set_base_values.
    assert (EB : set_base_values (poly square) Chol cho_factor clean_trace true true st_c (opt_c [1]) [1] None = (s1, Ok (h, c))).
    { transitivity (s1, do c0 <- cho_factor h; Ok (h, c0)); [reflexivity|]. rewrite Ec. reflexivity. }
    rewrite EB. 
    match goal with |- context [two_method_real ?a ?b ?c ?d ?e ?f ?g] => change (two_method_real a b c d e f g) with ((fst s1, one_par "e" (Fin 0) 1), @Ok rmat2 cr) end.
    cbv iota beta. rewrite EX. reflexivity.
  - specialize (HX 0%nat 0%nat ltac:(lia) ltac:(cbn; lia)). cbn [rsum] in HX. rewrite Hh, Hcr in HX. cbn [get_dinput_dhyper li_sens mscale rm_get]. lra.
Qed.
