(** Preconditioned objectives (C44). *)
From Coq Require Import String Reals List Bool Arith ZArith Lia Lra.
From Coquelicot Require Import Coquelicot.
From Verif Require Import Res Num Nd RSum ModelAutograd ModelSparse ModelParameters ModelMatrix ModelSimplex ModelProjection ModelDict ModelObjective.
From Verif Require Import SpecParameters SpecMatrix SpecSimplex SpecProjection SpecDict SpecObjective.
From Verif Require Import LemmasParameters LemmasLeaf LemmasDict LemmasDictCalc LemmasChain LemmasObjective.
Import List ListNotations.
Open Scope R_scope.
Set Bullet Behavior "Strict Subproofs".

Lemma apply_mat_length M x : length (apply_mat M x) = rm_rows M.
Proof. unfold apply_mat. rewrite map_length, seq_length. reflexivity. Qed.
Lemma apply_mat_get M x i : (i < rm_rows M)%nat -> nth i (apply_mat M x) 0 = rsum (rm_cols M) (fun k => rm_get M i k * nth k x 0).
Proof.
  intros H. unfold apply_mat. set (f := fun i => rsum _ _). rewrite (nth_indep _ 0 (f 0%nat)) by (rewrite map_length, seq_length; exact H).
  rewrite map_nth, seq_nth by exact H. reflexivity.
Qed.
Lemma mat_vec_ok M x : length x = rm_cols M -> mat_vec M x = Ok (apply_mat M x).
Proof. intros L. unfold mat_vec. rewrite L, Nat.eqb_refl. reflexivity. Qed.
Lemma rsum_upd n (c : nat -> R) x j t : (j < n)%nat -> (j < length x)%nat ->
  rsum n (fun k => c k * nth k (upd x j t) 0) = rsum n (fun k => c k * nth k x 0) + c j * (t - nth j x 0).
Proof.
  intros Hn Hj. replace (c j * (t - nth j x 0)) with (rsum n (fun k => if Nat.eqb k j then c k * (t - nth k x 0) else 0)).
  - rewrite <- rsum_plus. apply rsum_ext. intros k Hk. rewrite nth_upd by exact Hj. destruct (Nat.eqb_spec k j) as [->|N]; ring.
  - rewrite (rsum_single n j (fun k => if Nat.eqb k j then c k * (t - nth k x 0) else 0)); [rewrite Nat.eqb_refl; reflexivity|exact Hn|].
    intros k Hk N. destruct (Nat.eqb_spec k j); [lia|reflexivity].
Qed.
Lemma apply_mat_partial M k j x : (k < rm_rows M)%nat -> (j < rm_cols M)%nat -> length x = rm_cols M ->
  is_partial (fun y => nth k (apply_mat M y) 0) j x (rm_get M k j).
Proof.
  intros Hk Hj L. unfold is_partial.
  apply (is_derive_ext (fun t => rsum (rm_cols M) (fun l => rm_get M k l * nth l x 0) + rm_get M k j * (t - nth j x 0))).
  - intros t. rewrite apply_mat_get by exact Hk. symmetry. apply rsum_upd; lia.
  - auto_derive; [exact I|ring].
Qed.
Lemma differentiable_partial n f v g j : length v = n -> (j < n)%nat -> differentiable_at n f v g -> is_partial f j v (g j).
Proof.
  intros L Hj Hf. pose proof (chain_rule n (fun y => y) f j v (fun k => if Nat.eqb k j then 1 else 0) g) as C.
  assert (E : rsum n (fun k => g k * (if Nat.eqb k j then 1 else 0)) = g j).
  { rewrite (rsum_single n j (fun k => g k * (if Nat.eqb k j then 1 else 0))); [rewrite Nat.eqb_refl; ring|exact Hj|]. intros k Hk N. destruct (Nat.eqb_spec k j); [lia|ring]. }
  cbv beta in C. rewrite E in C. apply C; [intros; lia| |exact Hf|lia]. intros k Hk. unfold is_partial. 
  apply (is_derive_ext (fun t => if Nat.eqb k j then t else nth k v 0)).
  - intros t. rewrite nth_upd by lia. reflexivity.
  - destruct (Nat.eqb k j); [apply @is_derive_id|apply @is_derive_const].
Qed.
Lemma ad_partial_eq f j x d : is_partial f j x d -> ad_partial f j x = d.
Proof. intros H. unfold ad_partial. apply is_derive_unique. exact H. Qed.
Lemma is_partial_ext f g j x d : (forall y, length y = length x -> f y = g y) -> is_partial f j x d -> is_partial g j x d.
Proof. intros E H. unfold is_partial in *. apply (is_derive_ext (fun t => f (upd x j t))); [|exact H]. intros t. apply E, upd_length. Qed.
Lemma is_partial_rsum n (f : nat -> list R -> R) (d : nat -> R) j x : (forall k, (k < n)%nat -> is_partial (f k) j x (d k)) ->
  is_partial (fun y => rsum n (fun k => f k y)) j x (rsum n d).
Proof.
  intros H. unfold is_partial. induction n as [|n IH]; cbn [rsum]; [apply @is_derive_const|].
  apply (is_derive_plus (fun t => rsum n (fun k => f k (upd x j t))) (fun t => f n (upd x j t))); [apply IH; intros; apply H; lia|apply H; lia].
Qed.
Lemma is_partial_scal f c j x d : is_partial f j x d -> is_partial (fun y => f y * c) j x (d * c).
Proof.
  intros H. unfold is_partial in *. apply is_derive_Reals in H. apply is_derive_Reals.
  pose proof (derivable_pt_lim_scal (fun t => f (upd x j t)) c _ _ H) as K. rewrite Rmult_comm. unfold mult_real_fct in K.
  apply is_derive_Reals in K. apply is_derive_Reals. apply (is_derive_ext (fun t => c * f (upd x j t))); [intros t; apply Rmult_comm|exact K].
Qed.

Section C44.
Context {A : Type}.
Variable f : tparam -> A -> res R.
Variable trace : tparam -> list R -> tparam.
Hypothesis Htr : forall t y, traced t (trace t y).

Lemma free_real_history t0 t a x : history t0 t -> free_real f t a x = free_real f t0 a x.
Proof. intros H. unfold free_real. rewrite (proj1 (fun_free_history f t0 t (fin_arg x) a H)). reflexivity. Qed.
Lemma after_cache_ok {Out} t0 t x (a : A) (out : Out) t1 : history t0 t -> t_set_free t0 (fin_arg x) = (t1, Ok tt) ->
  after_cache trace t x a (Ok out) = (t1, Ok out).
Proof.
  intros H E. unfold after_cache, cache_free_and_eval.
  destruct (t_set_free_agree t0 (trace t x) (fin_arg x)) as [B1 B2].
  { apply history_sb. eapply history_trans; [exact H|]. apply traced_history, Htr. }
  rewrite E in B1, B2. destruct (t_set_free (trace t x) (fin_arg x)) as [t2 r]. cbn [fst snd] in *. subst r. rewrite B2 by reflexivity. reflexivity.
Qed.

Lemma precond_none t x a v : fun_free_cond f None t x a = (t, Raise AssertionError) /\ fun_free_grad_cond f trace None t x a = (t, Raise AssertionError) /\
  fun_free_hessian_cond f trace None t x a = (t, Raise AssertionError) /\ fun_free_hvp_cond f trace None t x a v = (t, Raise AssertionError).
Proof. repeat split. Qed.

Lemma precond_value M t0 t x a : history t0 t -> reachable (erase t0) -> populated (erase t0) -> rm_rows M = t_free_size t0 -> length x = rm_cols M ->
  exists t1, uncondition_x (Some M) x = Ok (apply_mat M x) /\ t_get_free t1 = Ok (fin_arg (apply_mat M x)) /\
    fun_free_cond f (Some M) t x a = (t1, f t1 a) /\ snd (fun_free_cond f (Some M) t x a) = snd (fun_free f t0 (fin_arg (apply_mat M x)) a).
Proof.
  intros H Rp Pop Hr Hx. destruct (t_set_free_finite t0 (apply_mat M x) Rp Pop) as [t1 [E [G _]]]; [rewrite apply_mat_length; exact Hr|].
  exists t1. unfold uncondition_x, fun_free_cond, need. rewrite mat_vec_ok by exact Hx. destruct (fun_free_history f t0 t (fin_arg (apply_mat M x)) a H) as [B1 [B2 _]].
  splits; [reflexivity|exact G|apply B2, E|exact B1].
Qed.

Lemma precond_derivatives M t0 t x a v G H : history t0 t -> reachable (erase t0) -> populated (erase t0) ->
  rm_rows M = t_free_size t0 -> length x = rm_cols M -> length v = rm_cols M ->
  twice_differentiable (t_free_size t0) (free_real f t0 a) G H (apply_mat M x) ->
  let F := fun z => free_real f t0 a (apply_mat M z) in let m := rm_cols M in
  exists t1 g K w, t_get_free t1 = Ok (fin_arg (apply_mat M x)) /\ all_numeric t1 /\
    fun_free_grad_cond f trace (Some M) t x a = (t1, Ok g) /\ fun_free_hessian_cond f trace (Some M) t x a = (t1, Ok K) /\
    fun_free_hvp_cond f trace (Some M) t x a v = (t1, Ok w) /\
    length g = m /\ rm_rows K = m /\ rm_cols K = m /\ length w = m /\
    forall i, (i < m)%nat -> is_partial F i x (nth i g 0) /\ (forall j, (j < m)%nat -> is_partial2 F i j x (rm_get K i j)) /\
      nth i w 0 = rsum m (fun j => rm_get K i j * nth j v 0).
Proof.
  intros Hh Rp Pop Hr Hx Hv [D1 D2] F m. set (n := t_free_size t0) in *. set (y := apply_mat M x) in *.
  assert (Ly : length y = n) by (unfold y; rewrite apply_mat_length; exact Hr).
  destruct (t_set_free_finite t0 y Rp Pop Ly) as [t1 [E [Gt N]]].
  assert (P1 : forall z k, length z = n -> (k < n)%nat -> is_partial (free_real f t0 a) k z (G z k)).
  { intros z k Lz Hk. apply (differentiable_partial n); [exact Lz|exact Hk|apply D1, Lz]. }
  assert (P2 : forall i k, (i < n)%nat -> (k < n)%nat -> is_partial (fun z => G z k) i y (H i k)).
  { intros i k Hi Hk. apply (differentiable_partial n _ y (fun b => H b k)); [exact Ly|exact Hi|apply D2, Hk]. }
  assert (E0 : forall z, free_real f t a z = free_real f t0 a z) by (intros; apply free_real_history, Hh).
  assert (A1 : forall z k, length z = n -> (k < n)%nat -> ad_partial (free_real f t a) k z = G z k).
  { intros z k Lz Hk. apply ad_partial_eq. eapply is_partial_ext; [|apply (P1 z k Lz Hk)]. intros; symmetry; apply E0. }
  assert (A2 : forall i k, (i < n)%nat -> (k < n)%nat -> ad_partial (fun z => ad_partial (free_real f t a) k z) i y = H i k).
  { intros i k Hi Hk. apply ad_partial_eq. eapply is_partial_ext; [|apply (P2 i k Hi Hk)]. intros z Lz. symmetry. apply A1; [lia|exact Hk]. }
  set (gy := ag_grad f t y a). set (mv := apply_mat M v).
  assert (Lg : length gy = n) by (unfold gy, ag_grad; rewrite map_length, seq_length; exact Ly).
  assert (Lmv : length mv = n) by (unfold mv; rewrite apply_mat_length; exact Hr).
  assert (Gg : forall k, (k < n)%nat -> nth k gy 0 = G y k).
  { intros k Hk. unfold gy, ag_grad. rewrite Ly. set (h := fun j => ad_partial _ j y). rewrite (nth_indep _ 0 (h 0%nat)) by (rewrite map_length, seq_length; exact Hk).
    rewrite map_nth, seq_nth by exact Hk. unfold h. apply A1; [exact Ly|exact Hk]. }
  set (hv := ag_hvp f t y a mv).
  assert (Lh : length hv = n) by (unfold hv, ag_hvp; rewrite map_length, seq_length; exact Ly).
  assert (Gh : forall k, (k < n)%nat -> nth k hv 0 = rsum n (fun l => H k l * nth l mv 0)).
  { intros k Hk. unfold hv, ag_hvp. rewrite Ly. set (h := fun i => ad_partial _ i y). rewrite (nth_indep _ 0 (h 0%nat)) by (rewrite map_length, seq_length; exact Hk).
    rewrite map_nth, seq_nth by exact Hk. unfold h. apply ad_partial_eq. cbn [Nat.add].
    apply (is_partial_ext (fun z => rsum n (fun l => G z l * nth l mv 0))).
    - intros z Lz. rewrite Lz, Ly. apply rsum_ext. intros l Hl. rewrite A1; [reflexivity|lia|exact Hl].
    - apply (is_partial_rsum n (fun l z => G z l * nth l mv 0) (fun l => H k l * nth l mv 0)). intros l Hl. apply (is_partial_scal (fun z => G z l)). apply P2; assumption. }
  exists t1, (apply_mat (rm_T M) gy), (RMat m m (fun i j => rsum n (fun k => rm_get M k i * rsum n (fun l => ad_partial (fun z => ad_partial (free_real f t a) l z) k y * rm_get M l j)))), (apply_mat (rm_T M) hv).
  split; [exact Gt|]. split; [exact N|].
  assert (Eh : mat_mat (ag_hessian f t y a) M = Ok (RMat n m (fun k j => rsum n (fun l => ad_partial (fun z => ad_partial (free_real f t a) l z) k y * rm_get M l j)))).
  { unfold mat_mat, ag_hessian. cbn [rm_cols rm_rows rm_get]. rewrite Ly, Hr, Nat.eqb_refl. reflexivity. }
  splits.
  - unfold fun_free_grad_cond, need. rewrite mat_vec_ok by exact Hx. fold y. unfold lift_res, fun_free_grad. rewrite (after_cache_ok t0 t y a _ t1 Hh E). cbn [fst snd rbind]. fold gy.
    rewrite mat_vec_ok; [reflexivity|]. cbn. lia.
  - unfold fun_free_hessian_cond, need. rewrite mat_vec_ok by exact Hx. fold y. unfold lift_res, fun_free_hessian. rewrite (after_cache_ok t0 t y a _ t1 Hh E). cbn [fst snd rbind]. rewrite Eh. cbn [rbind].
    unfold mat_mat, rm_T. cbn [rm_cols rm_rows rm_get]. rewrite Hr, Nat.eqb_refl. reflexivity.
  - unfold fun_free_hvp_cond, need. rewrite mat_vec_ok by exact Hx. rewrite mat_vec_ok by exact Hv. fold y mv. unfold lift_res, fun_free_hvp. rewrite Lmv, Ly, Nat.eqb_refl.
    rewrite (after_cache_ok t0 t y a _ t1 Hh E). cbn [fst snd rbind]. fold hv. rewrite mat_vec_ok; [reflexivity|]. cbn. lia.
  - apply apply_mat_length.
  - reflexivity.
  - reflexivity.
  - apply apply_mat_length.
  - intros i Hi. 
    assert (Ch : forall j z, (j < m)%nat -> length z = m -> is_partial F j z (rsum n (fun k => G (apply_mat M z) k * rm_get M k j))).
    { intros j z Hj Lz. apply (chain_rule n (apply_mat M) (free_real f t0 a) j z (fun k => rm_get M k j) (G (apply_mat M z))).
      - intros; rewrite apply_mat_length; exact Hr.
      - intros k Hk. apply apply_mat_partial; [lia|exact Hj|exact Lz].
      - apply D1. rewrite apply_mat_length. exact Hr.
      - lia. }
    splits.
    + replace (nth i (apply_mat (rm_T M) gy) 0) with (rsum n (fun k => G (apply_mat M x) k * rm_get M k i)); [apply Ch; [exact Hi|exact Hx]|].
      rewrite apply_mat_get by exact Hi. cbn [rm_T rm_cols rm_get]. rewrite Hr. apply rsum_ext. intros k Hk. rewrite Gg by exact Hk. fold y. ring.
    + intros j Hj. exists (fun z => rsum n (fun k => G (apply_mat M z) k * rm_get M k j)). split; [intros z Lz; apply Ch; [exact Hj|lia]|]. cbn [rm_get].
      replace (rsum n (fun k => rm_get M k i * rsum n (fun l => ad_partial (fun z => ad_partial (free_real f t a) l z) k y * rm_get M l j)))
        with (rsum n (fun l => rsum n (fun k => H k l * rm_get M k i) * rm_get M l j)).
      * apply (is_partial_rsum n (fun l z => G (apply_mat M z) l * rm_get M l j) (fun l => rsum n (fun k => H k l * rm_get M k i) * rm_get M l j)). intros l Hl.
        apply (is_partial_scal (fun z => G (apply_mat M z) l)).
        apply (chain_rule n (apply_mat M) (fun z => G z l) i x (fun k => rm_get M k i) (fun k => H k l)).
        -- intros; rewrite apply_mat_length; exact Hr.
        -- intros k Hk. apply apply_mat_partial; [lia|exact Hi|exact Hx].
        -- apply D2, Hl.
        -- lia.
      * rewrite (rsum_ext n (fun l => rsum n (fun k => H k l * rm_get M k i) * rm_get M l j) (fun l => rsum n (fun k => rm_get M k i * (H k l * rm_get M l j)))).
        2:{ intros l Hl. rewrite <- rsum_scal_r. apply rsum_ext. intros k Hk. ring. }
        rewrite (rsum_swap n n (fun l k => rm_get M k i * (H k l * rm_get M l j))). apply rsum_ext. intros k Hk. rewrite rsum_scal_l. f_equal. apply rsum_ext. intros l Hl. rewrite A2 by assumption. reflexivity.
    + rewrite apply_mat_get by exact Hi. cbn [rm_T rm_cols rm_get]. rewrite Hr.
      rewrite (rsum_ext m _ (fun j => rsum n (fun k => rm_get M k i * rsum n (fun l => H k l * (rm_get M l j * nth j v 0))))).
      2:{ intros j Hj. rewrite <- rsum_scal_r. apply rsum_ext. intros k Hk. rewrite Rmult_assoc. f_equal. rewrite <- rsum_scal_r. apply rsum_ext. intros l Hl. rewrite A2 by assumption. ring. }
      rewrite (rsum_swap m n (fun j k => rm_get M k i * rsum n (fun l => H k l * (rm_get M l j * nth j v 0)))). apply rsum_ext. intros k Hk.
      rewrite rsum_scal_l. f_equal. rewrite Gh by exact Hk. rewrite (rsum_swap m n (fun j l => H k l * (rm_get M l j * nth j v 0))). apply rsum_ext. intros l Hl.
      rewrite rsum_scal_l. f_equal. unfold mv. rewrite apply_mat_get by lia. reflexivity.
Qed.
End C44.
