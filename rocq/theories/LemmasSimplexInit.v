(** Construction of simplex parameters; the positions of a row in the vector form. *)
From Coq Require Import String Reals List Bool Arith Lra Lia.
From Verif Require Import Res Num Nd RSum ModelParameters ModelSimplex SpecMatrix SpecSimplex LemmasSimplex.
Import List ListNotations.
Open Scope R_scope.
Set Bullet Behavior "Strict Subproofs".

Lemma full_rmat n m c : np_full [n; m] (Fin c) = rmat n m (fun _ _ => c).
Proof.
  unfold np_full, rmat, mk_mat. f_equal. rewrite nprod_2.
  assert (Q : forall j k, map (fun _ : nat => Fin c) (seq j k) = repeat (Fin c) k) by (intros j k; revert j; induction k as [|k IH]; intros j; [reflexivity|cbn; f_equal; apply IH]).
  assert (G : forall j, repeat (Fin c) (n * m) = flat_map (fun _ : nat => map (fun _ : nat => Fin c) (seq 0 m)) (seq j n)); [|apply G].
  induction n as [|n IH]; intros j; [reflexivity|]. cbn [Nat.mul seq flat_map]. rewrite repeat_app, (IH (S j)). f_equal. symmetry. apply Q.
Qed.
Lemma simplex_default nm n K : exists p, simplex_init nm n (S K) None = Ok p /\ sx_rows p = n /\ sx_cols p = S K /\ simplex_get p = rmat n (S K) (fun _ _ => / INR (S K)) /\ interior_simplex (S K) (fun _ => / INR (S K)) /\
  simplex_get_free p = Ok (nd_vec (repeat (Fin 0) (sx_free_size p))).
Proof.
  unfold simplex_init, simplex_set. cbn [Nat.eqb rbind]. unfold sx_shape. cbn [sx_rows sx_cols shape np_full]. rewrite shape_eqb_refl. cbn [negb]. eexists. split; [reflexivity|]. split; [reflexivity|]. split; [reflexivity|].
  pose proof (lt_0_INR (S K) (Nat.lt_0_succ K)) as P. unfold simplex_get. cbn [sx_val].
  assert (E : np_full [n; S K] (ndiv (Fin 1) (Fin (INR (S K)))) = rmat n (S K) (fun _ _ => / INR (S K))).
  { rewrite <- full_rmat. f_equal. unfold ndiv. destruct (Req_EM_T (INR (S K)) 0) as [Z|_]; [lra|]. f_equal. unfold Rdiv. apply Rmult_1_l. }
  rewrite E. split; [reflexivity|]. split.
  - split; [intros; apply Rinv_0_lt_compat, P|]. rewrite rsum_const. apply Rinv_r. lra.
  - unfold simplex_get_free. cbn [sx_val]. rewrite unconstrain_simplex_rmat by (intros; apply Rinv_0_lt_compat, P). cbn [rbind]. unfold Rminus.
    f_equal. unfold np_flatten, nd_vec. unfold sx_free_size, sx_free_shape. cbn [sx_rows sx_cols]. replace (S K - 1)%nat with K by lia.
    replace (rmat n K (fun _ _ : nat => ln (/ INR (S K)) + - ln (/ INR (S K)))) with (np_full [n; K] (Fin 0)) by (rewrite full_rmat; f_equal; rewrite Rplus_opp_r; reflexivity).
    cbn [np_full data shape]. rewrite repeat_length. reflexivity.
Qed.
Lemma simplex_construct nm n m a : (forall p, simplex_init nm n m (Some a) = Ok p <-> shape a = [n; m] /\ p = SimplexP nm n m a) /\ (shape a <> [n; m] -> simplex_init nm n m (Some a) = Raise ValueError).
Proof.
  unfold simplex_init, simplex_set, sx_shape. cbn [rbind sx_rows sx_cols sx_name]. destruct (shape_eqb (shape a) [n; m]) eqn:E; cbn [negb].
  - apply shape_eqb_true in E. split; [|intros N; destruct (N E)]. intros p. split; [intros H; injection H as <-; auto|intros [_ ->]; reflexivity].
  - split; [|reflexivity]. intros p. split; [discriminate|]. intros [H _]. rewrite H, shape_eqb_refl in E. discriminate.
Qed.
Lemma vector_indices p : nd_wf (sx_val p) -> shape (sx_val p) = sx_shape p ->
  exists v, simplex_get_vector p = Ok v /\
    (forall row, (row < sx_rows p)%nat -> exists l, get_vector_indices p row = Ok l /\ length l = sx_cols p /\
       forall c, (c < sx_cols p)%nat -> nth_error (data v) (nth c l 0%nat) = Some (mget NaN (simplex_get p) row c)) /\
    (forall k, (k < sx_vector_size p)%nat -> exists row l, (row < sx_rows p)%nat /\ get_vector_indices p row = Ok l /\ In k l) /\
    (forall r1 r2 l1 l2 k, get_vector_indices p r1 = Ok l1 -> get_vector_indices p r2 = Ok l2 -> In k l1 -> In k l2 -> r1 = r2) /\
    (forall row, (sx_rows p <= row)%nat -> get_vector_indices p row = Raise ValueError).
Proof.
  intros W S. eexists. split; [reflexivity|]. unfold get_vector_indices. assert (B : forall row c, (row < sx_rows p)%nat -> (c < sx_cols p)%nat -> (row * sx_cols p + c < sx_rows p * sx_cols p)%nat) by (intros; nia).
  splits.
  - intros row Hr. replace (Nat.ltb row (sx_rows p)) with true by (symmetry; apply Nat.ltb_lt, Hr). eexists. split; [reflexivity|]. split; [rewrite map_length; apply seq_length|].
    intros c Hc. unfold sx_shape. rewrite nth_ravel2 by exact Hc. unfold simplex_get, mget, ncols. rewrite S. unfold sx_shape. cbn [nd_vec np_flatten data].
    apply nth_error_nth'. unfold nd_wf in W. rewrite W, S. unfold sx_shape. rewrite nprod_2. apply B; assumption.
  - intros k Hk. unfold sx_vector_size, sx_shape in Hk. rewrite nprod_2 in Hk. assert (M : sx_cols p <> 0%nat) by nia.
    assert (Hr : (k / sx_cols p < sx_rows p)%nat) by (apply Nat.div_lt_upper_bound; [exact M|lia]). exists (k / sx_cols p)%nat. eexists. split; [exact Hr|].
    replace (Nat.ltb _ (sx_rows p)) with true by (symmetry; apply Nat.ltb_lt, Hr). split; [reflexivity|]. apply in_map_iff. exists (k mod sx_cols p)%nat. split; [|apply in_seq; pose proof (Nat.mod_upper_bound k _ M); lia].
    unfold sx_shape. rewrite ravel2. rewrite (Nat.div_mod k (sx_cols p) M) at 3. lia.
  - intros r1 r2 l1 l2 k. destruct (Nat.ltb r1 _); [|discriminate]. destruct (Nat.ltb r2 _); [|discriminate]. intros E1 E2. injection E1 as <-. injection E2 as <-. intros H1 H2.
    apply in_map_iff in H1 as [c1 [<- Hc1]]. apply in_map_iff in H2 as [c2 [E Hc2]]. apply in_seq in Hc1, Hc2. rewrite nprod_1, nprod_nil in E. destruct (Nat.lt_trichotomy r1 r2) as [L|[L|L]]; [nia|exact L|nia].
  - intros row Hr. replace (Nat.ltb row (sx_rows p)) with false by (symmetry; apply Nat.ltb_ge, Hr). reflexivity.
Qed.
