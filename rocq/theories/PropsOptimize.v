(** C58-C61, C79: inverse square roots, preconditioning by the Hessian, optimisation wrappers and repeated optimisation (OptimizationUtils.py). *)
From Coq Require Import Reals List Bool Arith ZArith Lia Lra.
From Coquelicot Require Import Coquelicot.
From Verif Require Import Res Num Nd RSum ModelAutograd ModelSparse ModelParameters ModelMatrix ModelSimplex ModelProjection ModelDict ModelObjective ModelOptimize.
From Verif Require Import SpecParameters SpecDict SpecObjective SpecOptimize SpecSensitivity LemmasParameters LemmasCalc LemmasMatrix LemmasDict LemmasObjective LemmasPrecond LemmasSmooth LemmasSolve LemmasEigen LemmasOptimize LemmasRun LemmasRepeat PropsObjective.
Import List ListNotations.
Open Scope R_scope.

(** C58: eigh is any function that returns an exact decomposition of the symmetric part A of H. The eigenvectors of the corrected matrix are those of A, its eigenvalues the clipped ones. *)
Theorem C58_inverse_square_root : forall eigh n H ev V lo hi, square n H -> let A := RMat n n (fun i j => / 2 * (rm_get H i j + rm_get H j i)) in
  eigh A = Ok (ev, V) -> eigen_decomposition n A ev V ->
  exists Sq Hc, get_sym_matrix_inv_sqrt eigh H lo hi = Ok (Sq, Hc) /\ square n Sq /\ square n Hc /\ symmetric n Sq /\ symmetric n Hc /\
    (forall k i, (k < n)%nat -> (i < n)%nat -> product n (rm_get Hc) (rm_get V) i k = clip lo hi (nth k ev 0) * rm_get V i k) /\
    ((forall l h, lo = Some l -> hi = Some h -> l <= h) -> spectrum_within n (rm_get Hc) lo hi) /\
    ((forall k, (k < n)%nat -> 0 < clip lo hi (nth k ev 0)) ->
       positive_definite n (rm_get Sq) /\
       (forall i j, (i < n)%nat -> (j < n)%nat -> product n (rm_get Sq) (product n (rm_get Hc) (rm_get Sq)) i j = delta i j) /\
       (forall i j, (i < n)%nat -> (j < n)%nat -> product n (rm_get Hc) (product n (rm_get Sq) (rm_get Sq)) i j = delta i j)) /\
    ((forall k, (k < n)%nat -> clip lo hi (nth k ev 0) = nth k ev 0) -> same_entries n Hc (rm_get A)).
Proof. exact inv_sqrt_spec. Qed.
Print Assumptions C58_inverse_square_root.

(** C58: nothing is clipped when the symmetric part has its spectrum within the bounds *)
Theorem C58_not_clipped : forall n A ev V lo hi, eigen_decomposition n A ev V -> positive_definite n (rm_get A) -> spectrum_within n (rm_get A) lo hi ->
  forall k, (k < n)%nat -> clip lo hi (nth k ev 0) = nth k ev 0 /\ 0 < nth k ev 0.
Proof. exact unclipped. Qed.
Print Assumptions C58_not_clipped.
Theorem C58_rejects : forall eigh H lo hi, rm_rows H <> rm_cols H -> rm_rows H <> 1%nat -> rm_cols H <> 1%nat -> get_sym_matrix_inv_sqrt eigh H lo hi = Raise ValueError.
Proof. exact inv_sqrt_rejects. Qed.
Print Assumptions C58_rejects.
(** an eigensolver for diagonal matrices *)
Definition eigh_diag (A : rmat2) : res (list R * rmat2) := Ok (map (fun i => rm_get A i i) (seq 0 (rm_rows A)), RMat (rm_rows A) (rm_rows A) delta).
Lemma eigh_diag_ok n A : square n A -> (forall i j, (i < n)%nat -> (j < n)%nat -> i <> j -> rm_get A i j = 0) ->
  eigh_diag A = Ok (map (fun i => rm_get A i i) (seq 0 n), RMat n n delta) /\ eigen_decomposition n A (map (fun i => rm_get A i i) (seq 0 n)) (RMat n n delta).
Proof.
  intros [R1 C1] Z. split; [unfold eigh_diag; rewrite R1; reflexivity|]. split; [rewrite map_length, seq_length; reflexivity|]. split; [split; reflexivity|]. cbn [rm_get]. split; [|split].
  - intros k l Hk Hl. rewrite rsum_delta2 by exact Hk. reflexivity.
  - intros i j Hi Hj. rewrite rsum_delta1 by exact Hi. apply delta_sym.
  - intros i j Hi Hj. rewrite (rsum_ext n _ (fun k => delta i k * (nth k (map (fun i => rm_get A i i) (seq 0 n)) 0 * delta j k))) by (intros; ring). rewrite rsum_delta1 by exact Hi. rewrite nth_map_seq by exact Hi.
    destruct (Nat.eq_dec i j) as [->|N]; [unfold delta; rewrite Nat.eqb_refl; ring|rewrite Z by assumption; unfold delta; rewrite (proj2 (Nat.eqb_neq j i)) by auto; ring].
Qed.
Definition ex_H : rmat2 := RMat 2 2 (fun i j => if Nat.eqb i j then (if Nat.eqb i 0 then 4 else -1) else if Nat.ltb i j then 3 else -3).
(** the symmetric part of [[4, 3], [-3, -1]] is diag(4, -1); clipped from below at 1 *)
Example C58_nonvacuous : square 2 ex_H /\ let A := RMat 2 2 (fun i j => / 2 * (rm_get ex_H i j + rm_get ex_H j i)) in
  eigh_diag A = Ok (map (fun i => rm_get A i i) (seq 0 2), RMat 2 2 delta) /\ eigen_decomposition 2 A (map (fun i => rm_get A i i) (seq 0 2)) (RMat 2 2 delta) /\
  forall k, (k < 2)%nat -> 0 < clip (Some 1) (Some 3) (nth k (map (fun i => rm_get A i i) (seq 0 2)) 0).
Proof.
  split; [split; reflexivity|]. intros A. destruct (eigh_diag_ok 2 A) as [E D]; [split; reflexivity| |split; [exact E|split; [exact D|]]].
  - intros [|[|i]] [|[|j]] Hi Hj N; try lia; cbn; lra.
  - intros [|[|k]] Hk; try lia; cbn; unfold Rmin, Rmax; repeat destruct (Rle_dec _ _); lra.
Qed.

(** C59: t0 is the parameter the objective was created with and its present parameter any state reached from it; lo and hi are thresholds that clip nothing. *)
Theorem C59_whitens : forall f trace, (forall t y, traced t (trace t y)) -> forall eigh, forall s t0 x G H lo hi, history t0 (ob_par s) -> reachable (erase t0) -> populated (erase t0) -> let n := t_free_size t0 in length x = n ->
  twice_differentiable n (free_real f t0 tt) G H x -> (forall i j, (i < n)%nat -> (j < n)%nat -> H i j = H j i) -> positive_definite n H -> spectrum_within n H lo hi ->
  (forall A, square n A -> same_entries n A H -> exists ev V, eigh A = Ok (ev, V) /\ eigen_decomposition n A ev V) ->
  exists s' Hs P Hc, set_objective_preconditioner f trace eigh s (Some x) None lo hi = (s', Ok (Hs, P, Hc)) /\ ob_pre s' = Some P /\ ob_log s' = ob_log s /\
    t_get_free (ob_par s') = Ok (fin_arg x) /\ all_numeric (ob_par s') /\
    square n Hs /\ same_entries n Hs H /\ square n Hc /\ same_entries n Hc H /\ nonsingular n P /\ (exists z, length z = n /\ apply_mat P z = x) /\
    forall z, length z = n -> apply_mat P z = x ->
      exists t1 K, fun_free_hessian_cond f trace (ob_pre s') (ob_par s') z tt = (t1, Ok K) /\ square n K /\ same_entries n K delta /\ t_get_free t1 = Ok (fin_arg x).
Proof. exact set_pre_whitens. Qed.
Print Assumptions C59_whitens.


Theorem C59_given_hessian : forall f trace, (forall t y, traced t (trace t y)) -> forall eigh, forall s t0 fp Hs x G H lo hi, history t0 (ob_par s) -> reachable (erase t0) -> populated (erase t0) -> let n := t_free_size t0 in length x = n ->
  twice_differentiable n (free_real f t0 tt) G H x -> (forall i j, (i < n)%nat -> (j < n)%nat -> H i j = H j i) -> positive_definite n H -> spectrum_within n H lo hi ->
  (forall A, square n A -> same_entries n A H -> exists ev V, eigh A = Ok (ev, V) /\ eigen_decomposition n A ev V) ->
  square n Hs -> same_entries n Hs H ->
  exists P Hc, set_objective_preconditioner f trace eigh s fp (Some Hs) lo hi = (with_pre s P, Ok (Hs, P, Hc)) /\ square n Hc /\ same_entries n Hc H /\ nonsingular n P /\
    forall z, length z = n -> apply_mat P z = x ->
      exists t1 K, fun_free_hessian_cond f trace (Some P) (ob_par s) z tt = (t1, Ok K) /\ square n K /\ same_entries n K delta /\ t_get_free t1 = Ok (fin_arg x).
Proof. exact set_pre_given. Qed.
Print Assumptions C59_given_hessian.


Theorem C59_failure : forall f trace, (forall t y, traced t (trace t y)) -> forall eigh, forall s fp hs lo hi s' e, set_objective_preconditioner f trace eigh s fp hs lo hi = (s', Raise e) ->
  ob_pre s' = ob_pre s /\ ob_log s' = ob_log s /\ ob_preconditioning s' = ob_preconditioning s /\ history (ob_par s) (ob_par s').
Proof. exact set_pre_failure. Qed.
Print Assumptions C59_failure.
Theorem C59_needs_point_or_hessian : forall f trace eigh s lo hi, set_objective_preconditioner f trace eigh s None None lo hi = (s, Raise ValueError).
Proof. reflexivity. Qed.
Print Assumptions C59_needs_point_or_hessian.
Definition ex_hess (a k : nat) : R := if Nat.eqb a k then 2 else 0.
Definition ex_ob (P : option rmat2) : objective := Obj ex_t (logger_init 1) (Some false) P.
Lemma quad_ex_hess x : quad 2 ex_hess x = 2 * norm2 2 x.
Proof. unfold quad, norm2, ex_hess. cbn. ring. Qed.
(** the objective x0^2 + x1^2 at (4, 5), with no thresholds or with thresholds 1 and 3 *)
Example C59_nonvacuous : let t0 := ex_t in let n := t_free_size t0 in history t0 (ob_par (ex_ob None)) /\ reachable (erase t0) /\ populated (erase t0) /\ length [4; 5] = n /\
  twice_differentiable n (free_real ex_sq t0 tt) (fun z k => nth k (map (fun y => 2 * y) z) 0) ex_hess [4; 5] /\
  (forall i j, (i < n)%nat -> (j < n)%nat -> ex_hess i j = ex_hess j i) /\ positive_definite n ex_hess /\ spectrum_within n ex_hess None None /\ spectrum_within n ex_hess (Some 1) (Some 3) /\
  (forall A, square n A -> same_entries n A ex_hess -> exists ev V, eigh_diag A = Ok (ev, V) /\ eigen_decomposition n A ev V).
Proof.
  cbn zeta. assert (Hs : t_free_size ex_t = 2%nat) by reflexivity. destruct C42_C43_nonvacuous as [_ [_ [_ [_ [R1 [P1 _]]]]]].
  split; [constructor|]. split; [exact R1|]. split; [exact P1|]. split; [reflexivity|]. split; [apply C44_nonvacuous; reflexivity|]. rewrite Hs. split; [|split; [|split; [|split]]].
  - intros i j _ _. unfold ex_hess. rewrite Nat.eqb_sym. reflexivity.
  - intros x [i [Hi Nz]]. rewrite quad_ex_hess. unfold norm2. cbn. destruct i as [|[|i]]; [| |lia]; pose proof (Rle_0_sqr (x 0%nat)) as Q0; pose proof (Rle_0_sqr (x 1%nat)) as Q1; unfold Rsqr in *; pose proof (Rsqr_pos_lt _ Nz) as Q; unfold Rsqr in Q; lra.
  - intros x. split; discriminate.
  - intros x. rewrite quad_ex_hess. assert (0 <= norm2 2 x) by (apply rsum_nonneg; intros; apply Rle_0_sqr). split; intros ? [= <-]; lra.
  - intros A Sq Se. destruct (eigh_diag_ok 2 A Sq) as [E D]; [|eexists; eexists; split; [exact E|exact D]]. intros i j Hi Hj N. rewrite (Se i j Hi Hj). unfold ex_hess. rewrite (proj2 (Nat.eqb_neq i j) N). reflexivity.
Qed.

(** C60 and C79: hessp says whether Hessian-vector products are offered (trust-ncg) or not (BFGS). The optimiser is any interactive strategy that asks for values, gradients and products and stops. [play] lets it play against the exact function F, gradient and products; M is the preconditioner. *)
Theorem C60_C79_minimize : forall Info f trace solve diff_ok t0 G H hessp (optimizer : list R -> strategy Info) s init_x precondition disp print_every init_logger M, (forall t y, traced t (trace t y)) -> reachable (erase t0) -> populated (erase t0) -> history t0 (ob_par s) -> let n := t_free_size t0 in
  (forall y, length y = n -> twice_differentiable n (free_real f t0 tt) G (H y) y) ->
  (forall y, length y = n -> exists v, snd (fun_free f t0 (fin_arg y) tt) = Ok v) ->
  (forall x y, length x = n -> length y = n -> diff_ok x y = true) ->
  (disp = true -> match print_every with Some k => k | None => lg_every (ob_log s) end <> 0%Z /\ (init_logger = false -> forall y, lg_last_x (ob_log s) = Some y -> length y = n)) ->
  (precondition = true -> ob_pre s = Some M /\ nonsingular n M /\ solves_systems solve) ->
  length init_x = n -> (forall x0, length x0 = n -> sized n hessp (optimizer x0)) ->
  let point := fun z => if precondition then apply_mat M z else z in let F := fun z => free_real f t0 tt (point z) in
  exists x0 Gr HV q x info s', length x0 = n /\ point x0 = init_x /\ gradient_of n F Gr /\ hvp_of n F HV /\ play F Gr HV (optimizer x0) = (q, (x, info)) /\
    minimize_objective f trace solve diff_ok hessp optimizer s init_x precondition disp print_every init_logger = (s', Ok (point x, (x, info))) /\
    history t0 (ob_par s') /\ ob_preconditioning s' = Some precondition /\ ob_pre s' = ob_pre s /\
    lg_every (ob_log s') = match print_every with Some k => k | None => lg_every (ob_log s) end /\
    lg_x_array (ob_log s') = (if init_logger then [] else lg_x_array (ob_log s)) ++ (if disp then map point (value_points q) else []) /\
    lg_val_array (ob_log s') = (if init_logger then [] else lg_val_array (ob_log s)) ++ (if disp then map F (value_points q) else []) /\
    (q = [] -> ob_par s' = ob_par s) /\ (forall q' k z, q = q' ++ [(k, z)] -> t_get_free (ob_par s') = Ok (fin_arg (point z)) /\ all_numeric (ob_par s')).
Proof. exact @minimize_ok. Qed.
Print Assumptions C60_C79_minimize.
Theorem C60_needs_preconditioner : forall Info f trace solve diff_ok hessp (optimizer : list R -> strategy Info) s init_x disp print_every init_logger, ob_pre s = None ->
  exists s', minimize_objective f trace solve diff_ok hessp optimizer s init_x true disp print_every init_logger = (s', Raise AssertionError) /\ ob_par s' = ob_par s /\ ob_preconditioning s' = Some true /\
    lg_x_array (ob_log s') = (if init_logger then [] else lg_x_array (ob_log s)) /\ lg_every (ob_log s') = match print_every with Some k => k | None => lg_every (ob_log s) end.
Proof. exact @minimize_no_preconditioner. Qed.
Print Assumptions C60_needs_preconditioner.
(** one steepest-descent step of length 1/4, which asks for the value and gradient at the start and the value at the end *)
Definition ex_optimizer (x0 : list R) : strategy R :=
  AskF x0 (fun _ => AskG x0 (fun g => let x := map (fun k => nth k x0 0 - / 4 * nth k g 0) (seq 0 2) in AskF x (fun v => Stop x v))).
Definition ex_M : rmat2 := RMat 2 2 (fun i j => if Nat.eqb i j then 2 else 0).
Example C60_C79_nonvacuous : let t0 := ex_t in let n := t_free_size t0 in let s := ex_ob (Some ex_M) in
  (forall y, length y = n -> twice_differentiable n (free_real ex_sq t0 tt) (fun z k => nth k (map (fun y => 2 * y) z) 0) ex_hess y) /\
  (forall y, length y = n -> exists v, snd (fun_free ex_sq t0 (fin_arg y) tt) = Ok v) /\
  ob_pre s = Some ex_M /\ nonsingular n ex_M /\ solves_systems gauss_solve /\ lg_every (ob_log s) <> 0%Z /\ lg_last_x (ob_log s) = None /\
  (forall x0, length x0 = n -> sized n false (ex_optimizer x0)).
Proof.
  cbn zeta. change (t_free_size ex_t) with 2%nat. split; [intros y L; apply (C44_nonvacuous y L)|]. split; [|split; [reflexivity|split; [|split; [exact gauss_solves_systems|split; [discriminate|split; [reflexivity|]]]]]].
  - intros [|a [|b [|]]] L; try discriminate. eexists. reflexivity.
  - split; [reflexivity|]. split; [reflexivity|]. intros [|a [|b [|]]] L H; try discriminate. pose proof (H 0%nat ltac:(lia)) as Ha. pose proof (H 1%nat ltac:(lia)) as Hb. cbn in Ha, Hb. intros [|[|i]] Hi; cbn; lra || lia.
  - intros x0 L. cbn. split; [exact L|]. intros _. split; [exact L|]. intros g. split; [reflexivity|]. intros _. reflexivity.
Qed.

(** C61: opt and the initial function are arbitrary as long as they use the parameter only through the objective and return points of length n. *)
Theorem C61_control_flow : forall Opt f trace t0 n G H (opt : opt_function Opt) init s init_x max_iter gtol ftol xtol keep s' new_x converged xc fc gc o results, (forall t y, traced t (trace t y)) -> reachable (erase t0) -> populated (erase t0) -> n = t_free_size t0 ->
  (forall y, length y = n -> twice_differentiable n (free_real f t0 tt) G (H y) y) -> (forall y, length y = n -> exists v, snd (fun_free f t0 (fin_arg y) tt) = Ok v) ->
  behaves t0 n opt -> (forall g, init = Some g -> behaves t0 n g) -> history t0 (ob_par s) -> length init_x = n ->
  repeatedly_optimize f trace opt s init_x init max_iter gtol ftol xtol keep = (s', Ok (new_x, converged, xc, fc, gc, o, results)) ->
  let F := free_real f t0 tt in exists Gr, gradient_of n F Gr /\
  exists s1 x t1 first runs, starts init s init_x s1 x first /\ t_set_free t0 (fin_arg x) = (t1, Ok tt) /\ passes opt t0 (with_par s1 t1) x runs s' /\
    (0 < Z.of_nat (length runs) <= max_iter)%Z /\ results = (if keep then first ++ map snd runs else []) /\
    (forall k a b, nth_error (moves x runs) k = Some (a, b) -> (S k < length runs)%nat -> ~ x_close n xtol a b /\ ~ f_close F ftol a b /\ ~ flat n Gr gtol b) /\
    (exists a, nth_error (moves x runs) (length runs - 1) = Some (a, new_x) /\ nth_error runs (length runs - 1) = Some (new_x, o) /\
       (xc = true <-> x_close n xtol a new_x) /\ (fc = true <-> f_close F ftol a new_x) /\ (gc = true <-> flat n Gr gtol new_x)) /\
    converged = xc || fc || gc /\ (converged = true \/ Z.of_nat (length runs) = max_iter).
Proof. exact @repeat_result. Qed.
Print Assumptions C61_control_flow.
Theorem C61_C79_parameter : forall Opt f trace t0 n G H (opt : opt_function Opt) init s init_x max_iter gtol ftol xtol keep s' new_x converged xc fc gc o results, (forall t y, traced t (trace t y)) -> reachable (erase t0) -> populated (erase t0) -> n = t_free_size t0 ->
  (forall y, length y = n -> twice_differentiable n (free_real f t0 tt) G (H y) y) -> (forall y, length y = n -> exists v, snd (fun_free f t0 (fin_arg y) tt) = Ok v) ->
  behaves t0 n opt -> (forall g, init = Some g -> behaves t0 n g) -> history t0 (ob_par s) -> length init_x = n ->
  repeatedly_optimize f trace opt s init_x init max_iter gtol ftol xtol keep = (s', Ok (new_x, converged, xc, fc, gc, o, results)) ->
  t_get_free (ob_par s') = Ok (fin_arg new_x) /\ all_numeric (ob_par s').
Proof. exact @repeat_parameter. Qed.
Print Assumptions C61_C79_parameter.
Theorem C61_returns : forall Opt f trace t0 n G H (opt : opt_function Opt) init s init_x max_iter gtol ftol xtol keep, (forall t y, traced t (trace t y)) -> reachable (erase t0) -> populated (erase t0) -> n = t_free_size t0 ->
  (forall y, length y = n -> twice_differentiable n (free_real f t0 tt) G (H y) y) -> (forall y, length y = n -> exists v, snd (fun_free f t0 (fin_arg y) tt) = Ok v) ->
  behaves t0 n opt -> never_raises opt -> (forall g, init = Some g -> behaves t0 n g /\ never_raises g) -> history t0 (ob_par s) -> length init_x = n -> (1 <= max_iter)%Z ->
  exists s' r, repeatedly_optimize f trace opt s init_x init max_iter gtol ftol xtol keep = (s', Ok r).
Proof. exact @repeat_returns. Qed.
Print Assumptions C61_returns.
Theorem C61_exceptions : forall Opt f trace t0 n G H (opt : opt_function Opt) init s init_x max_iter gtol ftol xtol keep s' e, (forall t y, traced t (trace t y)) -> reachable (erase t0) -> populated (erase t0) -> n = t_free_size t0 ->
  (forall y, length y = n -> twice_differentiable n (free_real f t0 tt) G (H y) y) -> (forall y, length y = n -> exists v, snd (fun_free f t0 (fin_arg y) tt) = Ok v) ->
  behaves t0 n opt -> (forall g, init = Some g -> behaves t0 n g) -> history t0 (ob_par s) -> length init_x = n ->
  repeatedly_optimize f trace opt s init_x init max_iter gtol ftol xtol keep = (s', Raise e) ->
  (max_iter <= 0)%Z /\ e = UnboundLocalError \/ (exists s1 x1, opt s1 x1 = (s', Raise e)) \/ (exists g, init = Some g /\ g s init_x = (s', Raise e)).
Proof. exact @repeat_exception. Qed.
Print Assumptions C61_exceptions.
Theorem C61_no_iterations : forall Opt f trace (opt : opt_function Opt) init s init_x max_iter gtol ftol xtol keep, (max_iter <= 0)%Z ->
  exists s' e, repeatedly_optimize f trace opt s init_x init max_iter gtol ftol xtol keep = (s', Raise e).
Proof. exact @repeat_no_iterations. Qed.
Print Assumptions C61_no_iterations.
(** which exception: the one of the initial optimisation if that raises, otherwise UnboundLocalError, whatever the optimisation function would do *)
Theorem C61_unbound : forall Opt f trace t0 n (opt : opt_function Opt) init s init_x max_iter gtol ftol xtol keep,
  reachable (erase t0) -> populated (erase t0) -> n = t_free_size t0 -> (forall y, length y = n -> exists v, snd (fun_free f t0 (fin_arg y) tt) = Ok v) ->
  (forall g, init = Some g -> behaves t0 n g) -> history t0 (ob_par s) -> length init_x = n -> (max_iter <= 0)%Z ->
  (forall g s1 e, init = Some g -> g s init_x = (s1, Raise e) -> repeatedly_optimize f trace opt s init_x init max_iter gtol ftol xtol keep = (s1, Raise e)) /\
  ((forall g, init = Some g -> exists s1 r, g s init_x = (s1, Ok r)) ->
   exists s', repeatedly_optimize f trace opt s init_x init max_iter gtol ftol xtol keep = (s', Raise UnboundLocalError) /\ history t0 (ob_par s')).
Proof. exact @repeat_unbound. Qed.
Print Assumptions C61_unbound.
(** an optimiser that halves the point *)
Definition halving : opt_function nat := fun s x => (s, Ok (map (fun y => y / 2) x, length x)).
Example C61_nonvacuous : behaves ex_t 2 halving /\ never_raises halving /\ history ex_t (ob_par (ex_ob None)) /\
  (exists s' r, repeatedly_optimize ex_sq (fun t _ => t) halving (ex_ob None) [4; 5] (Some halving) 3 (/ 10) (/ 10) (/ 10) true = (s', Ok r)) /\
  (exists s', repeatedly_optimize ex_sq (fun t _ => t) halving (ex_ob None) [4; 5] (Some halving) 0 (/ 10) (/ 10) (/ 10) true = (s', Raise UnboundLocalError)).
Proof.
  assert (B : behaves ex_t 2 halving) by (intros s x Hh L; cbn; split; [exact Hh|rewrite map_length; exact L]). assert (Nr : never_raises halving) by (intros s x; eexists; eexists; reflexivity).
  split; [exact B|]. split; [exact Nr|]. split; [constructor|]. destruct C60_C79_nonvacuous as [S1 [S2 _]]. destruct C59_nonvacuous as [Hh [R1 [P1 _]]]. split.
  2: { destruct (repeat_unbound ex_sq (fun t _ => t) ex_t 2 halving (Some halving) (ex_ob None) [4; 5] 0 (/ 10) (/ 10) (/ 10) true R1 P1 eq_refl S2) as [_ U]; try assumption; try reflexivity; try lia; [intros g [= <-]; exact B|].
    destruct U as [s' [U _]]; [intros g [= <-]; apply Nr|]. exists s'. exact U. }
  apply (repeat_returns ex_sq (fun t _ => t) ex_t 2 (fun z k => nth k (map (fun y => 2 * y) z) 0) (fun _ => ex_hess) halving (Some halving)); try assumption; try reflexivity; try lia.
  - intros t y. constructor.
  - intros g [= <-]. split; assumption.
Qed.
