(** Proofs about repeated optimisation (C61). *)
From Coq Require Import Reals List Bool Arith ZArith Lia Lra.
From Coquelicot Require Import Coquelicot.
From Verif Require Import Res Num Nd RSum ModelAutograd ModelSparse ModelParameters ModelMatrix ModelSimplex ModelProjection ModelDict ModelObjective ModelOptimize.
From Verif Require Import SpecParameters SpecDict SpecObjective SpecOptimize SpecSensitivity LemmasParameters LemmasCalc LemmasMatrix LemmasDict LemmasObjective LemmasPrecond LemmasSmooth LemmasEigen LemmasOptimize LemmasRun.
Import List ListNotations.
Open Scope R_scope.
Set Bullet Behavior "Strict Subproofs".

Lemma lt_bool_spec a b : lt_bool a b = true <-> a < b.
Proof. unfold lt_bool. destruct (Rlt_dec a b); split; intros; try congruence; try lra. Qed.
Lemma l1_norm_sum x : l1_norm x = rsum (length x) (fun i => Rabs (nth i x 0)).
Proof.
  unfold l1_norm. induction x as [|a x IH]; [reflexivity|]. cbn [map length]. rewrite rsum_S_l. cbn [nth]. unfold lsum in *. cbn [fold_right]. rewrite IH. reflexivity.
Qed.
Section Repeat.
Variable f : tparam -> unit -> res R.
Variable trace : tparam -> list R -> tparam.
Hypothesis Htr : forall t y, traced t (trace t y).
Variable t0 : tparam.
Hypothesis Rp : reachable (erase t0).
Hypothesis Pop : populated (erase t0).
Variable n : nat.
Hypothesis Hn : n = t_free_size t0.
Variable G : list R -> nat -> R.
Variable H : list R -> nat -> nat -> R.
Hypothesis Smooth : forall y, length y = n -> twice_differentiable n (free_real f t0 tt) G (H y) y.
Hypothesis Total : forall y, length y = n -> exists v, snd (fun_free f t0 (fin_arg y) tt) = Ok v.
Let F := free_real f t0 tt.
Let Gr (x : list R) := map (G x) (seq 0 n).
Lemma Gr_gradient : gradient_of n F Gr.
Proof.
  intros z Lz. split; [unfold Gr; rewrite map_length, seq_length; reflexivity|]. intros i Hi. unfold Gr. rewrite nth_map_seq by exact Hi. destruct (Smooth z Lz) as [S1 _]. apply (differentiable_partial n); [exact Lz|exact Hi|apply S1, Lz].
Qed.
Lemma eval_plain_ok s x : history t0 (ob_par s) -> length x = n -> exists t1, t_set_free t0 (fin_arg x) = (t1, Ok tt) /\ eval_plain f s x = (with_par s t1, Ok (F x)) /\ history t0 t1.
Proof.
  intros Hh L. destruct (set_free_ok t0 Rp Pop n Hn x L) as [t1 [E [_ [_ H1]]]]. exists t1. split; [exact E|]. split; [|exact H1]. unfold eval_plain, on_par.
  destruct (fun_free_history f t0 (ob_par s) (fin_arg x) tt Hh) as [B1 [B2 _]]. rewrite (B2 t1 E). cbn [fst snd]. f_equal. rewrite (B2 t1 E) in B1. cbn [snd] in B1. rewrite B1. unfold F, free_real. destruct (Total x L) as [v ->]. reflexivity.
Qed.
Lemma eval_grad_ok s x t1 : history t0 (ob_par s) -> length x = n -> t_set_free t0 (fin_arg x) = (t1, Ok tt) -> eval_grad f trace s x = (with_par s t1, Ok (Gr x)).
Proof.
  intros Hh L E. unfold eval_grad, on_par, fun_free_grad. rewrite (after_cache_ok trace Htr t0 (ob_par s) x tt _ t1 Hh E). cbn [fst snd]. f_equal. f_equal.
  pose proof (Smooth x L) as Sm. rewrite Hn in Sm, L. destruct (plain_derivatives f t0 (ob_par s) x G (H x) Hh L Sm) as [Q1 [Q2 _]]. rewrite <- Hn in Q1, Q2. apply list_eq_nth; [unfold Gr; rewrite map_length, seq_length; exact Q1|]. rewrite Q1. intros i Hi. rewrite Q2 by exact Hi. unfold Gr. rewrite nth_map_seq by exact Hi. reflexivity.
Qed.
Context {Opt : Type}.
Variable opt : opt_function Opt.
Hypothesis Behaves : behaves t0 n opt.
Variables gtol ftol xtol : R.
Variable keep : bool.
Definition crit (a b : list R) : Prop := x_close n xtol a b \/ f_close F ftol a b \/ flat n Gr gtol b.
(** the description of a finished loop *)
Definition loop_done (left : nat) (x : list R) (runs : list (list R * Opt)) (last : last_run Opt) : Prop :=
  (0 < length runs <= left)%nat /\
  (forall k a b, nth_error (moves x runs) k = Some (a, b) -> (S k < length runs)%nat -> ~ crit a b) /\
  (exists a, nth_error (moves x runs) (length runs - 1) = Some (a, lr_x last) /\ nth_error runs (length runs - 1) = Some (lr_x last, lr_opt last) /\
     (lr_x_conv last = true <-> x_close n xtol a (lr_x last)) /\ (lr_f_conv last = true <-> f_close F ftol a (lr_x last)) /\ (lr_grad_conv last = true <-> flat n Gr gtol (lr_x last))) /\
  lr_converged last = lr_x_conv last || lr_f_conv last || lr_grad_conv last /\
  (lr_converged last = true \/ length runs = left).
Lemma moves_cons x x' (o : Opt) runs : moves x ((x', o) :: runs) = (x, x') :: moves x' runs.
Proof. reflexivity. Qed.
Lemma loop_ok left : forall s x results last0, history t0 (ob_par s) -> length x = n ->
  match optimize_loop f trace opt gtol ftol xtol keep left s x (F x) results last0 with
  | (s', Ok (results', last)) => exists runs, passes opt t0 s x runs s' /\ history t0 (ob_par s') /\ results' = results ++ (if keep then map snd runs else []) /\
      (runs = [] /\ left = 0%nat /\ last = last0 \/ exists l, last = Some l /\ loop_done left x runs l)
  | (s', Raise e) => exists runs s1 x1, passes opt t0 s x runs s1 /\ (length runs < left)%nat /\ opt s1 x1 = (s', Raise e)
  end.
Proof.
  induction left as [|left IH]; intros s x results last0 Hh L; cbn [optimize_loop].
  - exists []. split; [constructor|]. split; [exact Hh|]. split; [destruct keep; rewrite app_nil_r; reflexivity|]. left. splits; reflexivity.
  - pose proof (Behaves s x Hh L) as B. destruct (opt s x) as [s1 [[x' o]|e]] eqn:Eo.
    2:{ exists [], s, x. split; [constructor|]. split; [cbn; lia|exact Eo]. }
    destruct B as [H1 L1]. destruct (eval_plain_ok s1 x' H1 L1) as [t1 [E [E1 H2]]]. rewrite E1. rewrite (eval_grad_ok (with_par s1 t1) x' t1 H2 L1 E). change (with_par (with_par s1 t1) t1) with (with_par s1 t1).
    unfold vec_minus. rewrite L1, L, Nat.eqb_refl. rewrite !l1_norm_sum.
    set (xc := lt_bool (rsum (length (map2 Rminus x' x)) _) xtol). set (fc := lt_bool (Rabs (F x' - F x)) ftol). set (gc := lt_bool (rsum (length (Gr x')) _) gtol).
    assert (Xc : xc = true <-> x_close n xtol x x').
    { unfold xc. rewrite lt_bool_spec. unfold x_close. rewrite map2_length by lia. rewrite L1. rewrite (rsum_ext n _ (fun i => Rabs (nth i x' 0 - nth i x 0))); [reflexivity|]. intros i Hi. rewrite (nth_map2 Rminus _ _ _ 0 0 0) by lia. reflexivity. }
    assert (Fc : fc = true <-> f_close F ftol x x') by (unfold fc; rewrite lt_bool_spec; reflexivity).
    assert (Gc : gc = true <-> flat n Gr gtol x') by (unfold gc; rewrite lt_bool_spec; unfold flat; unfold Gr at 1; rewrite map_length, seq_length; reflexivity).
    destruct (xc || fc || gc) eqn:Cv.
    + exists [(x', o)]. split; [eapply one_pass; [exact Eo|exact E|constructor]|]. split; [exact H2|]. split; [destruct keep; [reflexivity|rewrite app_nil_r; reflexivity]|]. right. eexists. split; [reflexivity|].
      split; [cbn; lia|]. split; [intros k a b _ Hk; cbn in Hk; lia|]. split; [|split; [exact (eq_sym Cv)|left; reflexivity]].
      exists x. cbn [lr_x lr_opt lr_x_conv lr_f_conv lr_grad_conv]. split; [reflexivity|]. split; [reflexivity|]. split; [exact Xc|]. split; [exact Fc|exact Gc].
    + set (results' := if keep then results ++ [o] else results). set (l1 := LastRun x' false xc fc gc o).
      specialize (IH (with_par s1 t1) x' results' (Some l1) H2 L1).
      destruct (optimize_loop f trace opt gtol ftol xtol keep left (with_par s1 t1) x' (F x') results' (Some l1)) as [s' [[res last]|e]].
      * destruct IH as [runs [P1 [P2 [P3 P4]]]]. exists ((x', o) :: runs). split; [eapply one_pass; [exact Eo|exact E|exact P1]|]. split; [exact P2|]. split; [rewrite P3; unfold results'; destruct keep; [rewrite <- app_assoc; reflexivity|reflexivity]|]. right.
        assert (NC : ~ crit x x'). { apply orb_false_iff in Cv. destruct Cv as [Cv C3]. apply orb_false_iff in Cv. destruct Cv as [C1 C2]. unfold crit. rewrite <- Xc, <- Fc, <- Gc, C1, C2, C3. intuition discriminate. }
        destruct P4 as [[-> [-> ->]]|[l [-> [D1 [D2 [[a [D3 [D4 D5]]] [D6 D7]]]]]]].
        -- exists l1. split; [reflexivity|]. split; [cbn; lia|]. split; [intros k a b _ Hk; cbn in Hk; lia|]. split; [|split; [exact (eq_sym Cv)|right; reflexivity]].
           exists x. split; [reflexivity|]. split; [reflexivity|]. split; [exact Xc|]. split; [exact Fc|exact Gc].
        -- exists l. split; [reflexivity|]. split; [cbn [length]; lia|]. split; [|split; [|split; [exact D6|destruct D7 as [D7|D7]; [left; exact D7|right; cbn [length]; lia]]]].
           ++ intros k a' b' Hk Hl. rewrite moves_cons in Hk. destruct k as [|k]; [cbn in Hk; injection Hk as <- <-; exact NC|]. cbn in Hk. apply (D2 k a' b' Hk). cbn in Hl. lia.
           ++ exists a. rewrite moves_cons. cbn [length]. replace (S (length runs) - 1)%nat with (S (length runs - 1)) by lia. split; [exact D3|]. split; [exact D4|exact D5].
      * destruct IH as [runs [s2 [x2 [P1 [P2 P3]]]]]. exists ((x', o) :: runs), s2, x2. split; [eapply one_pass; [exact Eo|exact E|exact P1]|]. split; [cbn; lia|exact P3].
Qed.
End Repeat.

Lemma repeat_result {Opt} f trace t0 n G H (opt : opt_function Opt) init s init_x max_iter gtol ftol xtol keep s' new_x converged xc fc gc o results :
  (forall t y, traced t (trace t y)) -> reachable (erase t0) -> populated (erase t0) -> n = t_free_size t0 ->
  (forall y, length y = n -> twice_differentiable n (free_real f t0 tt) G (H y) y) -> (forall y, length y = n -> exists v, snd (fun_free f t0 (fin_arg y) tt) = Ok v) ->
  behaves t0 n opt -> (forall g, init = Some g -> behaves t0 n g) -> history t0 (ob_par s) -> length init_x = n ->
  repeatedly_optimize f trace opt s init_x init max_iter gtol ftol xtol keep = (s', Ok (new_x, converged, xc, fc, gc, o, results)) ->
  let F := free_real f t0 tt in exists Gr, gradient_of n F Gr /\
  exists s1 x t1 first runs, starts init s init_x s1 x first /\ t_set_free t0 (fin_arg x) = (t1, Ok tt) /\ passes opt t0 (with_par s1 t1) x runs s' /\
    (0 < Z.of_nat (length runs) <= max_iter)%Z /\ results = (if keep then first ++ map snd runs else []) /\
    (forall k a b, nth_error (moves x runs) k = Some (a, b) -> (S k < length runs)%nat -> ~ x_close n xtol a b /\ ~ f_close F ftol a b /\ ~ flat n Gr gtol b) /\
    (exists a, nth_error (moves x runs) (length runs - 1) = Some (a, new_x) /\ nth_error runs (length runs - 1) = Some (new_x, o) /\
       (xc = true <-> x_close n xtol a new_x) /\ (fc = true <-> f_close F ftol a new_x) /\ (gc = true <-> flat n Gr gtol new_x)) /\
    converged = xc || fc || gc /\ (converged = true \/ Z.of_nat (length runs) = max_iter).
Proof.
  intros Htr Rp Pop Hn Smooth Total B Bi Hh L E F. exists (fun x => map (G x) (seq 0 n)). split; [exact (Gr_gradient f t0 n G H Smooth)|].
  assert (St : exists s1 x first, starts init s init_x s1 x first /\ history t0 (ob_par s1) /\ length x = n /\
    match eval_plain f s1 x with
    | (s1, Raise e) => (s1, Raise e)
    | (s1, Ok f_val) =>
        match optimize_loop f trace opt gtol ftol xtol keep (Z.to_nat max_iter) s1 x f_val (if keep then first else []) None with
        | (s2, Raise e) => (s2, Raise e)
        | (s2, Ok (_, None)) => (s2, Raise UnboundLocalError)
        | (s2, Ok (results', Some l)) => (s2, Ok (lr_x l, lr_converged l, lr_x_conv l, lr_f_conv l, lr_grad_conv l, lr_opt l, results'))
        end
    end = (s', Ok (new_x, converged, xc, fc, gc, o, results))).
  { unfold repeatedly_optimize in E. destruct init as [g|].
    - pose proof (Bi g eq_refl s init_x Hh L) as Bg. destruct (g s init_x) as [s1 [[x o']|e]] eqn:Eg; [|discriminate]. destruct Bg as [B1 B2]. exists s1, x, [o']. split; [exists o'; split; [exact Eg|reflexivity]|]. split; [exact B1|]. split; [exact B2|exact E].
    - exists s, init_x, []. split; [split; [reflexivity|split; reflexivity]|]. split; [exact Hh|]. split; [exact L|]. destruct keep; exact E. }
  destruct St as [s1 [x [first [S1 [S2 [S3 S4]]]]]]. destruct (eval_plain_ok f t0 Rp Pop n Hn Total s1 x S2 S3) as [t1 [E1 [E2 E3]]].
  rewrite E2 in S4. pose proof (loop_ok f trace Htr t0 Rp Pop n Hn G H Smooth Total opt B gtol ftol xtol keep (Z.to_nat max_iter) (with_par s1 t1) x (if keep then first else []) None E3 S3) as Lp.
  fold F in Lp, S4. destruct (optimize_loop f trace opt gtol ftol xtol keep (Z.to_nat max_iter) (with_par s1 t1) x (F x) (if keep then first else []) None) as [s2 [[results' [l|]]|e]]; try discriminate.
  destruct Lp as [runs [P1 [P2 [P3 P4]]]]. destruct P4 as [P4|P4]; [destruct P4 as [_ [_ P4]]; discriminate|]. destruct P4 as [l' [P4 [D1 [D2 [D3 [D8 D9]]]]]]. destruct D3 as [a [D3 [D4 [D5 [D6 D7]]]]]. injection P4 as <-.
  pose proof (f_equal fst S4) as X1. cbn [fst] in X1. apply (f_equal snd) in S4. cbn [snd] in S4. apply Ok_inj in S4. injection S4 as X2 X3 X4 X5 X6 X7 X8. subst s'.
  exists s1, x, t1, first, runs. split; [exact S1|]. split; [exact E1|]. split; [exact P1|]. split; [lia|]. split; [rewrite <- X8, P3; destruct keep; reflexivity|]. split.
  { intros k a' b' Hk Hl. pose proof (D2 k a' b' Hk Hl) as N. unfold crit in N. split; [|split]; intros C; apply N; [left|right; left|right; right]; exact C. }
  subst new_x converged xc fc gc o. split; [exists a; split; [exact D3|split; [exact D4|split; [exact D5|split; [exact D6|exact D7]]]]|]. split; [exact D8|]. destruct D9 as [D9|D9]; [left; exact D9|right; lia].
Qed.
Lemma repeat_exception {Opt} f trace t0 n G H (opt : opt_function Opt) init s init_x max_iter gtol ftol xtol keep s' e :
  (forall t y, traced t (trace t y)) -> reachable (erase t0) -> populated (erase t0) -> n = t_free_size t0 ->
  (forall y, length y = n -> twice_differentiable n (free_real f t0 tt) G (H y) y) -> (forall y, length y = n -> exists v, snd (fun_free f t0 (fin_arg y) tt) = Ok v) ->
  behaves t0 n opt -> (forall g, init = Some g -> behaves t0 n g) -> history t0 (ob_par s) -> length init_x = n ->
  repeatedly_optimize f trace opt s init_x init max_iter gtol ftol xtol keep = (s', Raise e) ->
  (max_iter <= 0)%Z /\ e = UnboundLocalError \/ (exists s1 x1, opt s1 x1 = (s', Raise e)) \/ (exists g, init = Some g /\ g s init_x = (s', Raise e)).
Proof.
  intros Htr Rp Pop Hn Smooth Total B Bi Hh L E.
  assert (K : forall s1 x first, history t0 (ob_par s1) -> length x = n ->
    match eval_plain f s1 x with
    | (s1, Raise e) => (s1, Raise e)
    | (s1, Ok f_val) =>
        match optimize_loop f trace opt gtol ftol xtol keep (Z.to_nat max_iter) s1 x f_val first None with
        | (s2, Raise e) => (s2, Raise e)
        | (s2, Ok (_, None)) => (s2, Raise UnboundLocalError)
        | (s2, Ok (results', Some l)) => (s2, Ok (lr_x l, lr_converged l, lr_x_conv l, lr_f_conv l, lr_grad_conv l, lr_opt l, results'))
        end
    end = (s', Raise e) -> (max_iter <= 0)%Z /\ e = UnboundLocalError \/ (exists s1 x1, opt s1 x1 = (s', Raise e))).
  { intros s1 x first S2 S3 S4. destruct (eval_plain_ok f t0 Rp Pop n Hn Total s1 x S2 S3) as [t1 [E1 [E2 E3]]].
    rewrite E2 in S4. pose proof (loop_ok f trace Htr t0 Rp Pop n Hn G H Smooth Total opt B gtol ftol xtol keep (Z.to_nat max_iter) (with_par s1 t1) x first None E3 S3) as Lp.
    destruct (optimize_loop f trace opt gtol ftol xtol keep (Z.to_nat max_iter) (with_par s1 t1) x _ first None) as [s2 [[results' [l|]]|e']]; [discriminate| |].
    - destruct Lp as [runs [P1 [P2 [P3 [[_ [P4 _]]|[l' [P4 _]]]]]]]; [|discriminate]. left. apply (f_equal snd) in S4. cbn [snd] in S4. split; [lia|congruence].
    - right. destruct Lp as [runs [s3 [x3 [_ [_ P]]]]]. exists s3, x3. congruence. }
  unfold repeatedly_optimize in E. destruct init as [g|].
  - pose proof (Bi g eq_refl s init_x Hh L) as Bg. destruct (g s init_x) as [s1 [[x o']|e']] eqn:Eg; [|right; right; exists g; split; [reflexivity|congruence]]. destruct Bg as [B1 B2]. destruct (K s1 x _ B1 B2 E) as [K1|K1]; [left; exact K1|right; left; exact K1].
  - destruct (K s init_x _ Hh L E) as [K1|K1]; [left; exact K1|right; left; exact K1].
Qed.
(** with max_iter <= 0 nothing is returned, whatever the functions do *)
Lemma repeat_no_iterations {Opt} f trace (opt : opt_function Opt) init s init_x max_iter gtol ftol xtol keep : (max_iter <= 0)%Z ->
  exists s' e, repeatedly_optimize f trace opt s init_x init max_iter gtol ftol xtol keep = (s', Raise e).
Proof.
  intros Hm. unfold repeatedly_optimize. assert (Z0 : Z.to_nat max_iter = 0%nat) by lia. rewrite Z0. cbn [optimize_loop]. destruct init as [g|].
  - destruct (g s init_x) as [s1 [[x o']|e']]; [destruct (eval_plain f s1 x) as [s2 [v|e]]|]; eexists; eexists; reflexivity.
  - destruct (eval_plain f s init_x) as [s2 [v|e]]; eexists; eexists; reflexivity.
Qed.
(** the exception is UnboundLocalError unless the initial optimisation raises; the optimisation function is never called *)
Lemma repeat_unbound {Opt} f trace t0 n (opt : opt_function Opt) init s init_x max_iter gtol ftol xtol keep :
  reachable (erase t0) -> populated (erase t0) -> n = t_free_size t0 -> (forall y, length y = n -> exists v, snd (fun_free f t0 (fin_arg y) tt) = Ok v) ->
  (forall g, init = Some g -> behaves t0 n g) -> history t0 (ob_par s) -> length init_x = n -> (max_iter <= 0)%Z ->
  (forall g s1 e, init = Some g -> g s init_x = (s1, Raise e) -> repeatedly_optimize f trace opt s init_x init max_iter gtol ftol xtol keep = (s1, Raise e)) /\
  ((forall g, init = Some g -> exists s1 r, g s init_x = (s1, Ok r)) ->
   exists s', repeatedly_optimize f trace opt s init_x init max_iter gtol ftol xtol keep = (s', Raise UnboundLocalError) /\ history t0 (ob_par s')).
Proof.
  intros Rp Pop Hn Total Bi Hh L Hm. assert (Z0 : Z.to_nat max_iter = 0%nat) by lia. unfold repeatedly_optimize. rewrite Z0. cbn [optimize_loop]. split.
  - intros g s1 e -> Eg. rewrite Eg. reflexivity.
  - intros Ok1. destruct init as [g|].
    + destruct (Ok1 g eq_refl) as [s1 [[x o] Eg]]. pose proof (Bi g eq_refl s init_x Hh L) as Bg. rewrite Eg in Bg |- *. destruct Bg as [B1 B2].
      destruct (eval_plain_ok f t0 Rp Pop n Hn Total s1 x B1 B2) as [t1 [E1 [E2 E3]]]. rewrite E2. eexists. split; [reflexivity|exact E3].
    + destruct (eval_plain_ok f t0 Rp Pop n Hn Total s init_x Hh L) as [t1 [E1 [E2 E3]]]. rewrite E2. eexists. split; [reflexivity|exact E3].
Qed.
(** it returns a result if the optimisation functions do and max_iter >= 1 *)
Lemma repeat_returns {Opt} f trace t0 n G H (opt : opt_function Opt) init s init_x max_iter gtol ftol xtol keep :
  (forall t y, traced t (trace t y)) -> reachable (erase t0) -> populated (erase t0) -> n = t_free_size t0 ->
  (forall y, length y = n -> twice_differentiable n (free_real f t0 tt) G (H y) y) -> (forall y, length y = n -> exists v, snd (fun_free f t0 (fin_arg y) tt) = Ok v) ->
  behaves t0 n opt -> never_raises opt -> (forall g, init = Some g -> behaves t0 n g /\ never_raises g) -> history t0 (ob_par s) -> length init_x = n -> (1 <= max_iter)%Z ->
  exists s' r, repeatedly_optimize f trace opt s init_x init max_iter gtol ftol xtol keep = (s', Ok r).
Proof.
  intros Htr Rp Pop Hn Smooth Total B Nr Bi Hh L Hm. destruct (repeatedly_optimize f trace opt s init_x init max_iter gtol ftol xtol keep) as [s' [r|e]] eqn:E; [exists s', r; reflexivity|].
  destruct (repeat_exception f trace t0 n G H opt init s init_x max_iter gtol ftol xtol keep s' e Htr Rp Pop Hn Smooth Total B (fun g Eg => proj1 (Bi g Eg)) Hh L E) as [[K _]|[[s1 [x1 K]]|[g [Eg K]]]]; [lia| |].
  - destruct (Nr s1 x1) as [s2 [r K']]. congruence.
  - destruct (Bi g Eg) as [_ N]. destruct (N s init_x) as [s2 [r K']]. congruence.
Qed.
(** the parameter ends at the returned point *)
Lemma passes_end {Opt} (opt : opt_function Opt) t0 s x runs s' x' o : passes opt t0 s x (runs ++ [(x', o)]) s' -> ob_par s' = fst (t_set_free t0 (fin_arg x')).
Proof.
  revert s x. induction runs as [|[y p] runs IH]; intros s x P; inversion P; subst.
  - match goal with H : passes _ _ _ _ [] _ |- _ => inversion H; subst end. cbn [with_par ob_par]. match goal with H : t_set_free _ _ = _ |- _ => rewrite H end. reflexivity.
  - eapply IH. eassumption.
Qed.
Lemma passes_lengths {Opt} (opt : opt_function Opt) t0 : reachable (erase t0) -> populated (erase t0) -> forall n, n = t_free_size t0 -> behaves t0 n opt ->
  forall s x runs s', passes opt t0 s x runs s' -> history t0 (ob_par s) -> length x = n -> forall y o, In (y, o) runs -> length y = n.
Proof.
  intros Rp Pop n Hn B s x runs s' P. induction P as [|s x s1 x' o t1 rest s' Eo Et P IH]; intros Hh L y p Hin; [destruct Hin|].
  pose proof (B s x Hh L) as B1. rewrite Eo in B1. destruct B1 as [H1 L1]. destruct Hin as [[= <- <-]|Hin]; [exact L1|]. apply (IH) with (o := p); [|exact L1|exact Hin].
  destruct (set_free_ok t0 Rp Pop n Hn x' L1) as [t2 [E2 [_ [_ H2]]]]. rewrite E2 in Et. injection Et as <-. exact H2.
Qed.
Lemma repeat_parameter {Opt} f trace t0 n G H (opt : opt_function Opt) init s init_x max_iter gtol ftol xtol keep s' new_x converged xc fc gc o results :
  (forall t y, traced t (trace t y)) -> reachable (erase t0) -> populated (erase t0) -> n = t_free_size t0 ->
  (forall y, length y = n -> twice_differentiable n (free_real f t0 tt) G (H y) y) -> (forall y, length y = n -> exists v, snd (fun_free f t0 (fin_arg y) tt) = Ok v) ->
  behaves t0 n opt -> (forall g, init = Some g -> behaves t0 n g) -> history t0 (ob_par s) -> length init_x = n ->
  repeatedly_optimize f trace opt s init_x init max_iter gtol ftol xtol keep = (s', Ok (new_x, converged, xc, fc, gc, o, results)) ->
  t_get_free (ob_par s') = Ok (fin_arg new_x) /\ all_numeric (ob_par s').
Proof.
  intros Htr Rp Pop Hn Smooth Total B Bi Hh L E.
  destruct (repeat_result f trace t0 n G H opt init s init_x max_iter gtol ftol xtol keep s' new_x converged xc fc gc o results Htr Rp Pop Hn Smooth Total B Bi Hh L E)
    as [Gr [_ [s1 [x [t1 [first [runs [St [Et [P [Lr [_ [_ [La _]]]]]]]]]]]]]]. destruct La as [a [_ [La _]]].
  assert (Sx : length x = n). { destruct init as [g|]; cbn in St; [destruct St as [o' [Eg _]]; pose proof (Bi g eq_refl s init_x Hh L) as Bg; rewrite Eg in Bg; apply Bg|destruct St as [_ [-> _]]; exact L]. }
  assert (Hs : history t0 t1). { destruct (set_free_ok t0 Rp Pop n Hn x Sx) as [t2 [E2 [_ [_ H2]]]]. rewrite E2 in Et. injection Et as <-. exact H2. }
  assert (Ln : length new_x = n). { apply nth_error_In in La. exact (passes_lengths opt t0 Rp Pop n Hn B _ x runs s' P Hs Sx new_x o La). }
  assert (Er : exists pre, runs = pre ++ [(new_x, o)]).
  { destruct runs as [|r0 rs] using rev_ind; [cbn in La; discriminate|]. exists rs. rewrite app_length, Nat.add_sub in La. rewrite nth_error_app2 in La by lia. rewrite Nat.sub_diag in La. cbn in La. congruence. }
  destruct Er as [pre ->]. rewrite (passes_end opt t0 _ x pre s' new_x o P). destruct (set_free_ok t0 Rp Pop n Hn new_x Ln) as [t2 [E2 [G2 [N2 _]]]]. rewrite E2. split; assumption.
Qed.
