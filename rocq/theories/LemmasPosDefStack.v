(** Vectors and arrays of positive definite matrices. *)
From Coq Require Import String Reals List Bool Arith Lia Lra.
From Coquelicot Require Import Coquelicot.
From Verif Require Import Res Num Nd RSum ModelAutograd ModelSparse ModelParameters ModelMatrix.
From Verif Require Import SpecParameters SpecMatrix LemmasParameters LemmasCalc LemmasChol LemmasMatrix LemmasPosDef.
Import List ListNotations.
Open Scope R_scope.
Set Bullet Behavior "Strict Subproofs".

Lemma mul_S_blk vs o : (vs * (o + 1) = vs * o + vs)%nat. Proof. lia. Qed.

(** ---- vector: set_free / get_free / set_vector / get_vector on finite data ---- *)
Section Vector.
Variable p : posdef_vector.
Variable lb : R.
Hypothesis Hlb : pv_lb p = Fin lb.
Hypothesis HN : (0 < pv_length p)%nat.
Let n := pv_size p.
Let N := pv_length p.
Let vs := pv_vec_size p.

Lemma pv_vs : vs = tri n. Proof. reflexivity. Qed.
Lemma pv_set_free_fin x : length x = pv_free_size p ->
  pv_set_free p (fvec x) = (pv_with p (stack_of [N] n (fun o => Mof n lb (blk vs o x))), Ok tt).
Proof.
  intros Hx. unfold pv_set_free. rewrite fvec_size, Hx, Nat.eqb_refl. cbn [negb].
  rewrite (rmapM_ok _ (fun o => fmat n (Mof n lb (blk vs o x)))).
  - cbn [rbind]. rewrite np_stack_fmat by exact HN. reflexivity.
  - intros o Ho. apply in_seq in Ho. unfold free_obs_slice. destruct (Nat.ltb_spec o (pv_length p)) as [L|]; [|lia].
    unfold rassert. cbn [rbind fst snd]. rewrite mul_S_blk. unfold pv_free_size in Hx.
    rewrite np_slice_fvec by nia. cbn [rbind]. rewrite Hlb. apply unpack_fin.
    apply (blk_length vs N); [exact Hx|lia].
Qed.
Lemma pv_item_stack A o : (o < N)%nat -> pv_item (pv_with p (stack_of [N] n A)) o = Ok (fmat n (A o)).
Proof.
  intros Ho. unfold pv_item. cbn [pv_with pv_val]. unfold stack_of at 1; cbn [shape app length Nat.leb].
  rewrite nd_index_stack.
  - cbn [ravel]. rewrite nprod_nil. f_equal. f_equal. f_equal. lia.
  - cbn [product]. apply in_flat_map. exists o. split; [apply in_seq; lia|]. left. reflexivity.
Qed.
Lemma pv_get_free_stack A v : (forall o, (o < N)%nat -> pack_posdef_matrix (fmat n (A o)) (Fin lb) = Ok (fvec (v o))) ->
  pv_get_free (pv_with p (stack_of [N] n A)) = Ok (fvec (List.concat (map v (seq 0 N)))).
Proof.
  intros H. unfold pv_get_free. change (pv_length (pv_with p (stack_of [N] n A))) with N.
  change (pv_lb (pv_with p (stack_of [N] n A))) with (pv_lb p). rewrite Hlb.
  rewrite (rmapM_ok _ (fun o => fvec (v o))).
  - cbn [rbind]. apply np_hstack_fvec. exact HN.
  - intros o Ho. apply in_seq in Ho. rewrite pv_item_stack by lia. cbn [rbind]. apply H. lia.
Qed.
Lemma pv_get_vector_stack A : 
  pv_get_vector (pv_with p (stack_of [N] n A)) = Ok (fvec (List.concat (map (fun o => tril_list n (A o)) (seq 0 N)))).
Proof.
  unfold pv_get_vector. change (pv_length (pv_with p (stack_of [N] n A))) with N.
  rewrite (rmapM_ok _ (fun o => fvec (tril_list n (A o)))).
  - cbn [rbind]. apply (np_hstack_fvec (fun o => tril_list n (A o))). exact HN.
  - intros o Ho. apply in_seq in Ho. rewrite pv_item_stack by lia. cbn [rbind]. unfold fmat. rewrite vectorize_mk.
    unfold fvec. rewrite tril_list_map. reflexivity.
Qed.
Lemma pv_set_vector_fin x : length x = pv_vector_size p ->
  pv_set_vector p (fvec x) = (pv_with p (stack_of [N] n (fun o => symof (blk vs o x))), Ok tt).
Proof.
  intros Hx. unfold pv_set_vector. unfold np_len, fvec at 1, nd_vec; cbn [shape]. rewrite map_length, Hx, Nat.eqb_refl. cbn [negb].
  rewrite (rmapM_ok _ (fun o => fmat n (symof (blk vs o x)))).
  - cbn [rbind]. rewrite np_stack_fmat by exact HN. reflexivity.
  - intros o Ho. apply in_seq in Ho. unfold free_obs_slice. destruct (Nat.ltb_spec o (pv_length p)) as [L|]; [|lia].
    unfold rassert. cbn [rbind fst snd]. rewrite mul_S_blk. unfold pv_vector_size in Hx.
    rewrite np_slice_fvec by nia. cbn [rbind]. apply unvectorize_symmetric_fin.
    apply (blk_length vs N); [exact Hx|lia].
Qed.

Lemma pv_free_roundtrip x : length x = pv_free_size p ->
  exists p', pv_set_free p (fvec x) = (p', Ok tt) /\ pv_get_free p' = Ok (fvec x) /\
    nd_wf (pv_val p') /\ shape (pv_val p') = [N; n; n] /\
    forall o, (o < N)%nat -> exists M, nd_index (pv_val p') [o] = Ok M /\
      unpack_posdef_matrix (fvec (slice x (tri n * o) (tri n * o + tri n))) (Fin lb) = Ok M.
Proof.
  intros Hx. eexists. split; [apply pv_set_free_fin; exact Hx|]. splits.
  - rewrite (pv_get_free_stack _ (fun o => blk vs o x)).
    + rewrite concat_blk by exact Hx. reflexivity.
    + intros o Ho. assert (L : length (blk vs o x) = tri n) by (apply (blk_length vs N); assumption).
      destruct (pack_unpack n lb _ L) as [M [E1 E2]]. rewrite (unpack_fin n lb _ L) in E1. congruence.
  - apply stack_wf.
  - reflexivity.
  - intros o Ho. exists (fmat n (Mof n lb (blk vs o x))). split.
    + cbn [pv_with pv_val]. rewrite nd_index_stack.
      * cbn [ravel]. rewrite nprod_nil. f_equal. f_equal. f_equal. f_equal. lia.
      * cbn [product]. apply in_flat_map. exists o. split; [apply in_seq; lia|]. left. reflexivity.
    + apply unpack_fin. apply (blk_length vs N); assumption.
Qed.
Lemma pv_vector_roundtrip x : length x = pv_vector_size p ->
  exists p', pv_set_vector p (fvec x) = (p', Ok tt) /\ pv_get_vector p' = Ok (fvec x) /\
    nd_wf (pv_val p') /\ shape (pv_val p') = [N; n; n] /\
    forall o, (o < N)%nat -> exists M, nd_index (pv_val p') [o] = Ok M /\
      unvectorize_symmetric_matrix (fvec (slice x (tri n * o) (tri n * o + tri n))) = Ok M.
Proof.
  intros Hx. eexists. split; [apply pv_set_vector_fin; exact Hx|]. splits.
  - rewrite pv_get_vector_stack. f_equal. f_equal. transitivity (List.concat (map (fun o => blk vs o x) (seq 0 N))); [f_equal|apply concat_blk, Hx].
    apply map_ext_in. intros o Ho. apply in_seq in Ho. apply tril_list_nth. apply (blk_length vs N); [exact Hx|lia].
  - apply stack_wf.
  - reflexivity.
  - intros o Ho. exists (fmat n (symof (blk vs o x))). split.
    + cbn [pv_with pv_val]. rewrite nd_index_stack.
      * cbn [ravel]. rewrite nprod_nil. f_equal. f_equal. f_equal. f_equal. lia.
      * cbn [product]. apply in_flat_map. exists o. split; [apply in_seq; lia|]. left. reflexivity.
    + apply unvectorize_symmetric_fin. apply (blk_length vs N); assumption.
Qed.
Lemma concat_blk_inv (v : nat -> list R) o : (forall k, (k < N)%nat -> length (v k) = vs) -> (o < N)%nat ->
  blk vs o (List.concat (map v (seq 0 N))) = v o.
Proof. intros H Ho. unfold blk. rewrite (Nat.mul_comm vs o). apply slice_concat; assumption. Qed.
Lemma pv_eta : pv_with p (pv_val p) = p. Proof. destruct p; reflexivity. Qed.
(** values of the right shape whose matrices are symmetric *)
Lemma pv_items_stack (P : (nat -> nat -> R) -> Prop) : nd_wf (pv_val p) -> shape (pv_val p) = [N; n; n] ->
  (forall o, (o < N)%nat -> exists A, nd_index (pv_val p) [o] = Ok (fmat n A) /\ P A) ->
  exists A, pv_val p = stack_of [N] n A /\ forall o, (o < N)%nat -> exists B, fmat n (A o) = fmat n B /\ P B.
Proof.
  intros Hw Hs H.
  destruct (stack_eta [N] n (pv_val p) (fun _ => P)) as [A [E HA]]; [exact Hs|exact Hw| |].
  - intros obs Hobs. cbn [product] in Hobs. apply in_flat_map in Hobs as [o [Ho Hobs]]. apply in_seq in Ho.
    destruct Hobs as [<-|[]]. apply H. lia.
  - exists A. split; [exact E|]. intros o Ho. apply HA. rewrite nprod_1. exact Ho.
Qed.
Lemma pv_value_roundtrip : nd_wf (pv_val p) -> shape (pv_val p) = [N; n; n] ->
  (forall o, (o < N)%nat -> exists A, nd_index (pv_val p) [o] = Ok (fmat n A) /\ symmetric n A /\ posdef n (shifted A lb)) ->
  exists f, pv_get_free p = Ok f /\ shape f = [pv_free_size p] /\ pv_set_free p f = (p, Ok tt).
Proof.
  intros Hw Hs H. destruct (pv_items_stack (fun A => symmetric n A /\ posdef n (shifted A lb)) Hw Hs H) as [A [E HA]].
  assert (HP : forall o, (o < N)%nat -> pack_posdef_matrix (fmat n (A o)) (Fin lb) = Ok (fvec (pack_real n (shifted (A o) lb))) /\
                 fmat n (Mof n lb (pack_real n (shifted (A o) lb))) = fmat n (A o)).
  { intros o Ho. destruct (HA o Ho) as [B [EB [HS HP]]].
    assert (SA : symmetric n (A o)) by (intros i j Hi Hj; rewrite !(fmat_inj n _ _ EB) by assumption; apply HS; assumption).
    assert (PA : posdef n (shifted (A o) lb)).
    { apply (posdef_ext n (shifted B lb)); [|exact HP]. intros i j Hi Hj. unfold shifted. rewrite (fmat_inj n _ _ EB i j Hi Hj). reflexivity. }
    assert (Q : forall j, (j < n)%nat -> 0 < chol_pivot (shifted (A o) lb) j).
    { intros j Hj. apply (posdef_pivot n); [apply shifted_sym, SA|exact PA|exact Hj]. }
    pose proof (pack_ok n (A o) lb Q) as K. split; [exact K|].
    destruct (unpack_pack n (A o) lb SA PA) as [v [E1 E2]]. rewrite K in E1. inversion E1 as [E1']. rewrite <- E1' in E2.
    rewrite (unpack_fin n) in E2 by apply tril_list_length. congruence. }
  assert (L : forall k, (k < N)%nat -> length (pack_real n (shifted (A k) lb)) = vs) by (intros; apply tril_list_length).
  assert (Len : length (List.concat (map (fun o => pack_real n (shifted (A o) lb)) (seq 0 N))) = pv_free_size p).
  { rewrite (concat_const_length _ _ vs); [rewrite seq_length; unfold pv_free_size; fold vs N; lia|].
    intros k Hk. apply in_seq in Hk. apply L. lia. }
  exists (fvec (List.concat (map (fun o => pack_real n (shifted (A o) lb)) (seq 0 N)))). splits.
  - rewrite <- pv_eta. rewrite E. apply (pv_get_free_stack A (fun o => pack_real n (shifted (A o) lb))).
    intros o Ho. apply HP, Ho.
  - unfold fvec, nd_vec; cbn [shape]. rewrite map_length, Len. reflexivity.
  - rewrite pv_set_free_fin by exact Len. f_equal. rewrite <- pv_eta at 2. f_equal. rewrite E.
    unfold stack_of. f_equal. f_equal. apply map_ext_in. intros o Ho. apply in_seq in Ho. rewrite nprod_1 in Ho.
    rewrite (concat_blk_inv (fun o => pack_real n (shifted (A o) lb))) by (try exact L; lia).
    rewrite (proj2 (HP o ltac:(lia))). reflexivity.
Qed.
Lemma pv_value_vector_roundtrip : nd_wf (pv_val p) -> shape (pv_val p) = [N; n; n] ->
  (forall o, (o < N)%nat -> exists A, nd_index (pv_val p) [o] = Ok (fmat n A) /\ symmetric n A) ->
  exists v, pv_get_vector p = Ok v /\ shape v = [pv_vector_size p] /\ pv_set_vector p v = (p, Ok tt).
Proof.
  intros Hw Hs H. destruct (pv_items_stack (fun A => symmetric n A) Hw Hs H) as [A [E HA]].
  assert (L : forall k, (k < N)%nat -> length (tril_list n (A k)) = vs) by (intros; apply tril_list_length).
  assert (Len : length (List.concat (map (fun o => tril_list n (A o)) (seq 0 N))) = pv_vector_size p).
  { rewrite (concat_const_length _ _ vs); [rewrite seq_length; unfold pv_vector_size; fold vs N; lia|].
    intros k Hk. apply in_seq in Hk. apply L. lia. }
  exists (fvec (List.concat (map (fun o => tril_list n (A o)) (seq 0 N)))). splits.
  - rewrite <- pv_eta. rewrite E. apply pv_get_vector_stack.
  - unfold fvec, nd_vec; cbn [shape]. rewrite map_length, Len. reflexivity.
  - rewrite pv_set_vector_fin by exact Len. f_equal. rewrite <- pv_eta at 2. f_equal. rewrite E.
    unfold stack_of. f_equal. f_equal. apply map_ext_in. intros o Ho. apply in_seq in Ho. rewrite nprod_1 in Ho.
    rewrite (concat_blk_inv (fun o => tril_list n (A o))) by (try exact L; lia).
    destruct (HA o ltac:(lia)) as [B [EB HS]].
    assert (SA : symmetric n (A o)) by (intros i j Hi Hj; rewrite !(fmat_inj n _ _ EB) by assumption; apply HS; assumption).
    f_equal. apply fmat_ext. intros i j Hi Hj. unfold symof. destruct (Nat.le_gt_cases j i).
    + apply nth_tril; assumption.
    + rewrite SymIndex_sym, nth_tril by lia. apply SA; assumption.
Qed.
End Vector.

Lemma pv_bad_length p a : (nd_size a <> pv_free_size p -> pv_set_free p a = (p, Raise ValueError)) /\
  (forall m r, shape a = m :: r -> m <> pv_vector_size p -> pv_set_vector p a = (p, Raise ValueError)).
Proof.
  split.
  - intros H. apply Nat.eqb_neq in H. unfold pv_set_free. rewrite H. reflexivity.
  - intros m r Hs H. apply Nat.eqb_neq in H. unfold pv_set_vector, np_len. rewrite Hs, H. reflexivity.
Qed.
Lemma pv_empty p lb : pv_lb p = Fin lb -> pv_length p = 0%nat ->
  exists p', pv_set_free p (fvec []) = (p', Ok tt) /\ pv_get_free p' = Raise ValueError /\ pv_get_vector p' = Raise ValueError.
Proof.
  intros Hlb HN. eexists. unfold pv_set_free. rewrite fvec_size. unfold pv_free_size. rewrite HN, Nat.mul_0_r, Nat.eqb_refl. cbn [negb seq rmapM rbind np_stack].
  split; [reflexivity|]. unfold pv_get_free, pv_get_vector. cbn [pv_with pv_length]. rewrite HN. split; reflexivity.
Qed.

(** ---- arrays ---- *)
Section Array.
Variable p : posdef_array.
Variable lb : R.
Hypothesis Hlb : pa_lb p = Fin lb.
Let n := pa_size p.
Let s := pa_ashape p.
Let N := nprod s.
Hypothesis HN : (0 < N)%nat.
Let vs := pa_vec_size p.

Lemma stack_reshape A : np_reshape (stack_of [N] n A) (s ++ [n; n]) = Ok (stack_of s n A).
Proof.
  unfold np_reshape. unfold nd_size. unfold stack_of at 1; cbn [shape]. rewrite !nprod_app, nprod_1. fold N.
  rewrite Nat.eqb_refl. unfold stack_of; cbn [data]. rewrite nprod_1. reflexivity.
Qed.
Lemma pa_slice_fin x obs : length x = pa_free_size p -> In obs (product s) ->
  (do sl <- stacked_obs_slice p obs; np_slice (fvec x) (fst sl) (snd sl)) = Ok (fvec (blk vs (ravel obs s) x)).
Proof.
  intros Hx Hobs. destruct (In_product_ravel s obs Hobs) as [R Lo].
  unfold stacked_obs_slice. fold s. rewrite Lo, Nat.eqb_refl. unfold rassert. cbn [rbind fst snd].
  unfold pa_free_size, pa_length in Hx. fold s vs N in Hx. fold vs.
  assert (B : (ravel obs s * vs + vs <= vs * N)%nat) by (unfold N; nia).
  rewrite np_slice_fvec by (try rewrite Hx; lia). unfold blk. rewrite (Nat.mul_comm vs). reflexivity.
Qed.
Lemma pa_set_free_fin x : length x = pa_free_size p ->
  pa_set_free p (fvec x) = (pa_with p (stack_of s n (fun o => Mof n lb (blk vs o x))), Ok tt).
Proof.
  intros Hx. unfold pa_set_free. rewrite fvec_size, Hx, Nat.eqb_refl. cbn [negb]. fold s.
  rewrite (rmapM_ok _ (fun obs => fmat n (Mof n lb (blk vs (ravel obs s) x)))).
  - cbn [rbind]. rewrite (map_product s (fun o => fmat n (Mof n lb (blk vs o x)))). fold N.
    rewrite (np_stack_fmat N n (fun o => Mof n lb (blk vs o x))) by exact HN. cbn [rbind]. unfold pa_shape. fold s n. rewrite stack_reshape. reflexivity.
  - intros obs Hobs. pose proof (pa_slice_fin x obs Hx Hobs) as E.
    destruct (stacked_obs_slice p obs) as [sl|]; [|discriminate]. cbn [rbind] in *. rewrite E. cbn [rbind]. rewrite Hlb.
    apply unpack_fin. apply (blk_length vs N); [exact Hx|]. apply In_product_ravel, Hobs.
Qed.
Lemma pa_set_vector_fin x : length x = pa_vector_size p ->
  pa_set_vector p (fvec x) = (pa_with p (stack_of s n (fun o => symof (blk vs o x))), Ok tt).
Proof.
  intros Hx. unfold pa_set_vector. unfold np_len, fvec at 1, nd_vec; cbn [shape]. rewrite map_length, Hx, Nat.eqb_refl. cbn [negb]. fold s.
  rewrite (rmapM_ok _ (fun obs => fmat n (symof (blk vs (ravel obs s) x)))).
  - cbn [rbind]. rewrite (map_product s (fun o => fmat n (symof (blk vs o x)))). fold N.
    rewrite (np_stack_fmat N n (fun o => symof (blk vs o x))) by exact HN. cbn [rbind]. unfold pa_shape. fold s n. rewrite stack_reshape. reflexivity.
  - intros obs Hobs. pose proof (pa_slice_fin x obs Hx Hobs) as E.
    destruct (stacked_obs_slice p obs) as [sl|]; [|discriminate]. cbn [rbind] in *. rewrite E. cbn [rbind].
    apply unvectorize_symmetric_fin. apply (blk_length vs N); [exact Hx|]. apply In_product_ravel, Hobs.
Qed.
Lemma pa_get_free_stack A v : (forall o, (o < N)%nat -> pack_posdef_matrix (fmat n (A o)) (Fin lb) = Ok (fvec (v o))) ->
  pa_get_free (pa_with p (stack_of s n A)) = Ok (fvec (List.concat (map v (seq 0 N)))).
Proof.
  intros H. unfold pa_get_free. change (pa_ashape (pa_with p (stack_of s n A))) with s.
  change (pa_lb (pa_with p (stack_of s n A))) with (pa_lb p). rewrite Hlb. cbn [pa_with pa_val].
  rewrite (rmapM_ok _ (fun obs => fvec (v (ravel obs s)))).
  - cbn [rbind]. rewrite (map_product s (fun o => fvec (v o))). apply np_hstack_fvec. exact HN.
  - intros obs Hobs. rewrite nd_index_stack by exact Hobs. cbn [rbind]. apply H. apply In_product_ravel, Hobs.
Qed.
Lemma pa_get_vector_stack A :
  pa_get_vector (pa_with p (stack_of s n A)) = Ok (fvec (List.concat (map (fun o => tril_list n (A o)) (seq 0 N)))).
Proof.
  unfold pa_get_vector. change (pa_ashape (pa_with p (stack_of s n A))) with s. cbn [pa_with pa_val].
  rewrite (rmapM_ok _ (fun obs => fvec (tril_list n (A (ravel obs s))))).
  - cbn [rbind]. rewrite (map_product s (fun o => fvec (tril_list n (A o)))). apply (np_hstack_fvec (fun o => tril_list n (A o))). exact HN.
  - intros obs Hobs. rewrite nd_index_stack by exact Hobs. cbn [rbind]. unfold fmat. rewrite vectorize_mk.
    unfold fvec. rewrite tril_list_map. reflexivity.
Qed.
Lemma pa_free_roundtrip x : length x = pa_free_size p ->
  exists p', pa_set_free p (fvec x) = (p', Ok tt) /\ pa_get_free p' = Ok (fvec x) /\
    nd_wf (pa_val p') /\ shape (pa_val p') = s ++ [n; n] /\
    forall obs, In obs (product s) -> exists M, nd_index (pa_val p') obs = Ok M /\
      unpack_posdef_matrix (fvec (slice x (tri n * ravel obs s) (tri n * ravel obs s + tri n))) (Fin lb) = Ok M.
Proof.
  intros Hx. eexists. split; [apply pa_set_free_fin; exact Hx|]. splits.
  - rewrite (pa_get_free_stack _ (fun o => blk vs o x)).
    + rewrite concat_blk by exact Hx. reflexivity.
    + intros o Ho. assert (L : length (blk vs o x) = tri n) by (apply (blk_length vs N); assumption).
      destruct (pack_unpack n lb _ L) as [M [E1 E2]]. rewrite (unpack_fin n lb _ L) in E1. congruence.
  - apply stack_wf.
  - reflexivity.
  - intros obs Hobs. exists (fmat n (Mof n lb (blk vs (ravel obs s) x))). split.
    + cbn [pa_with pa_val]. apply nd_index_stack. exact Hobs.
    + apply unpack_fin. apply (blk_length vs N); [exact Hx|]. apply In_product_ravel, Hobs.
Qed.
Lemma pa_vector_roundtrip x : length x = pa_vector_size p ->
  exists p', pa_set_vector p (fvec x) = (p', Ok tt) /\ pa_get_vector p' = Ok (fvec x) /\
    nd_wf (pa_val p') /\ shape (pa_val p') = s ++ [n; n] /\
    forall obs, In obs (product s) -> exists M, nd_index (pa_val p') obs = Ok M /\
      unvectorize_symmetric_matrix (fvec (slice x (tri n * ravel obs s) (tri n * ravel obs s + tri n))) = Ok M.
Proof.
  intros Hx. eexists. split; [apply pa_set_vector_fin; exact Hx|]. splits.
  - rewrite pa_get_vector_stack. f_equal. f_equal. transitivity (List.concat (map (fun o => blk vs o x) (seq 0 N))); [f_equal|apply concat_blk, Hx].
    apply map_ext_in. intros o Ho. apply in_seq in Ho. apply tril_list_nth. apply (blk_length vs N); [exact Hx|lia].
  - apply stack_wf.
  - reflexivity.
  - intros obs Hobs. exists (fmat n (symof (blk vs (ravel obs s) x))). split.
    + cbn [pa_with pa_val]. apply nd_index_stack. exact Hobs.
    + apply unvectorize_symmetric_fin. apply (blk_length vs N); [exact Hx|]. apply In_product_ravel, Hobs.
Qed.
Lemma concat_blk_inv_a (v : nat -> list R) o : (forall k, (k < N)%nat -> length (v k) = vs) -> (o < N)%nat ->
  blk vs o (List.concat (map v (seq 0 N))) = v o.
Proof. intros H Ho. unfold blk. rewrite (Nat.mul_comm vs o). apply slice_concat; assumption. Qed.
Lemma pa_eta : pa_with p (pa_val p) = p. Proof. destruct p; reflexivity. Qed.
Lemma pa_value_roundtrip : nd_wf (pa_val p) -> shape (pa_val p) = s ++ [n; n] ->
  (forall obs, In obs (product s) -> exists A, nd_index (pa_val p) obs = Ok (fmat n A) /\ symmetric n A /\ posdef n (shifted A lb)) ->
  exists f, pa_get_free p = Ok f /\ shape f = [pa_free_size p] /\ pa_set_free p f = (p, Ok tt).
Proof.
  intros Hw Hs H. destruct (stack_eta s n (pa_val p) (fun _ A => symmetric n A /\ posdef n (shifted A lb)) Hs Hw H) as [A [E HA]].
  fold N in HA.
  assert (HP : forall o, (o < N)%nat -> pack_posdef_matrix (fmat n (A o)) (Fin lb) = Ok (fvec (pack_real n (shifted (A o) lb))) /\
                 fmat n (Mof n lb (pack_real n (shifted (A o) lb))) = fmat n (A o)).
  { intros o Ho. destruct (HA o Ho) as [B [EB [HS HP]]].
    assert (SA : symmetric n (A o)) by (intros i j Hi Hj; rewrite !(fmat_inj n _ _ EB) by assumption; apply HS; assumption).
    assert (PA : posdef n (shifted (A o) lb)).
    { apply (posdef_ext n (shifted B lb)); [|exact HP]. intros i j Hi Hj. unfold shifted. rewrite (fmat_inj n _ _ EB i j Hi Hj). reflexivity. }
    assert (Q : forall j, (j < n)%nat -> 0 < chol_pivot (shifted (A o) lb) j).
    { intros j Hj. apply (posdef_pivot n); [apply shifted_sym, SA|exact PA|exact Hj]. }
    pose proof (pack_ok n (A o) lb Q) as K. split; [exact K|].
    destruct (unpack_pack n (A o) lb SA PA) as [v [E1 E2]]. rewrite K in E1. inversion E1 as [E1']. rewrite <- E1' in E2.
    rewrite (unpack_fin n) in E2 by apply tril_list_length. congruence. }
  assert (L : forall k, (k < N)%nat -> length (pack_real n (shifted (A k) lb)) = vs) by (intros; apply tril_list_length).
  assert (Len : length (List.concat (map (fun o => pack_real n (shifted (A o) lb)) (seq 0 N))) = pa_free_size p).
  { rewrite (concat_const_length _ _ vs); [rewrite seq_length; unfold pa_free_size, pa_length; fold vs s N; lia|].
    intros k Hk. apply in_seq in Hk. apply L. lia. }
  exists (fvec (List.concat (map (fun o => pack_real n (shifted (A o) lb)) (seq 0 N)))). splits.
  - rewrite <- pa_eta. rewrite E. apply (pa_get_free_stack A (fun o => pack_real n (shifted (A o) lb))).
    intros o Ho. apply HP, Ho.
  - unfold fvec, nd_vec; cbn [shape]. rewrite map_length, Len. reflexivity.
  - rewrite pa_set_free_fin by exact Len. f_equal. rewrite <- pa_eta at 2. f_equal. rewrite E.
    unfold stack_of. f_equal. f_equal. apply map_ext_in. intros o Ho. apply in_seq in Ho. fold N in Ho.
    rewrite (concat_blk_inv_a (fun o => pack_real n (shifted (A o) lb))) by (try exact L; lia).
    rewrite (proj2 (HP o ltac:(lia))). reflexivity.
Qed.
Lemma pa_value_vector_roundtrip : nd_wf (pa_val p) -> shape (pa_val p) = s ++ [n; n] ->
  (forall obs, In obs (product s) -> exists A, nd_index (pa_val p) obs = Ok (fmat n A) /\ symmetric n A) ->
  exists v, pa_get_vector p = Ok v /\ shape v = [pa_vector_size p] /\ pa_set_vector p v = (p, Ok tt).
Proof.
  intros Hw Hs H. destruct (stack_eta s n (pa_val p) (fun _ A => symmetric n A) Hs Hw H) as [A [E HA]].
  fold N in HA.
  assert (L : forall k, (k < N)%nat -> length (tril_list n (A k)) = vs) by (intros; apply tril_list_length).
  assert (Len : length (List.concat (map (fun o => tril_list n (A o)) (seq 0 N))) = pa_vector_size p).
  { rewrite (concat_const_length _ _ vs); [rewrite seq_length; unfold pa_vector_size, pa_length; fold vs s N; lia|].
    intros k Hk. apply in_seq in Hk. apply L. lia. }
  exists (fvec (List.concat (map (fun o => tril_list n (A o)) (seq 0 N)))). splits.
  - rewrite <- pa_eta. rewrite E. apply pa_get_vector_stack.
  - unfold fvec, nd_vec; cbn [shape]. rewrite map_length, Len. reflexivity.
  - rewrite pa_set_vector_fin by exact Len. f_equal. rewrite <- pa_eta at 2. f_equal. rewrite E.
    unfold stack_of. f_equal. f_equal. apply map_ext_in. intros o Ho. apply in_seq in Ho. fold N in Ho.
    rewrite (concat_blk_inv_a (fun o => tril_list n (A o))) by (try exact L; lia).
    destruct (HA o ltac:(lia)) as [B [EB HS]].
    assert (SA : symmetric n (A o)) by (intros i j Hi Hj; rewrite !(fmat_inj n _ _ EB) by assumption; apply HS; assumption).
    f_equal. apply fmat_ext. intros i j Hi Hj. unfold symof. destruct (Nat.le_gt_cases j i).
    + apply nth_tril; assumption.
    + rewrite SymIndex_sym, nth_tril by lia. apply SA; assumption.
Qed.
End Array.
Lemma pa_bad_length p a : (nd_size a <> pa_free_size p -> pa_set_free p a = (p, Raise ValueError)) /\
  (forall m r, shape a = m :: r -> m <> pa_vector_size p -> pa_set_vector p a = (p, Raise ValueError)).
Proof.
  split.
  - intros H. apply Nat.eqb_neq in H. unfold pa_set_free. rewrite H. reflexivity.
  - intros m r Hs H. apply Nat.eqb_neq in H. unfold pa_set_vector, np_len. rewrite Hs, H. reflexivity.
Qed.

(** ---- derivatives ---- *)
Definition std_blocks (vs N : nat) : list (list nat) := map (fun o => seq (vs * o) vs) (seq 0 N).
Lemma seq_shift_add c m : map (fun k => (c + k)%nat) (seq 0 m) = seq c m.
Proof. induction m as [|m IH]; [reflexivity|]. rewrite seq_S, map_app, IH, (seq_S m c). reflexivity. Qed.
Lemma pv_blocks_std p : pv_blocks p = std_blocks (pv_vec_size p) (pv_length p).
Proof.
  unfold pv_blocks, std_blocks. apply map_ext. intros o. rewrite <- (seq_shift_add (pv_vec_size p * o)).
  apply map_ext. intros k. cbn [ravel]. rewrite nprod_1, nprod_nil. lia.
Qed.
Lemma ravel_snoc obs s k vs : length obs = length s -> ravel (obs ++ [k]) (s ++ [vs]) = (ravel obs s * vs + k)%nat.
Proof.
  revert s. induction obs as [|i obs IH]; intros [|m s] H; try discriminate.
  - cbn. rewrite nprod_nil. lia.
  - cbn [ravel app]. rewrite IH by (simpl in H; lia). rewrite nprod_app, nprod_1. lia.
Qed.
Lemma pa_blocks_std p : pa_blocks p = std_blocks (pa_vec_size p) (pa_length p).
Proof.
  unfold pa_blocks, std_blocks, pa_length. rewrite <- (map_product (pa_ashape p) (fun o => seq (pa_vec_size p * o) (pa_vec_size p))).
  apply map_ext_in. intros obs Hobs. destruct (In_product_ravel _ _ Hobs) as [_ L].
  rewrite <- (seq_shift_add (pa_vec_size p * _)). apply map_ext. intros k. rewrite ravel_snoc by exact L. lia.
Qed.
Lemma gather_blk vs o x : (vs * o + vs <= length x)%nat -> gather x (seq (vs * o) vs) = blk vs o x.
Proof.
  intros H. unfold gather, blk. apply (nd_eq_nth _ _ 0).
  - rewrite map_length, seq_length, slice_length by lia. lia.
  - intros i Hi. rewrite map_length, seq_length in Hi. rewrite nth_slice by lia.
    rewrite (nth_indep _ 0 (nth 0 x 0)) by (rewrite map_length, seq_length; exact Hi).
    rewrite (map_nth (fun i => nth i x 0)). rewrite seq_nth by exact Hi. reflexivity.
Qed.
Lemma block_coo_get sh vs N (V : nat -> nat -> nat -> R) o a o' b : (o < N)%nat -> (a < vs)%nat -> (o' < N)%nat -> (b < vs)%nat ->
  coo_get (Coo sh (flat_map (fun vec_inds =>
       flat_map (fun r => map (fun c => ((nth r vec_inds 0%nat, nth c vec_inds 0%nat), V (hd 0%nat vec_inds) r c)) (seq 0 vs)) (seq 0 vs))
     (std_blocks vs N))) (vs * o + a) (vs * o' + b) = if Nat.eqb o o' then V (vs * o)%nat a b else 0.
Proof.
  intros Ho Ha Ho' Hb. rewrite coo_get_flat_map. unfold std_blocks. rewrite map_map, lsum_map_seq.
  rewrite (rsum_single N o).
  - rewrite coo_get_flat_map, lsum_map_seq. rewrite (rsum_single vs a).
    + rewrite coo_get_map, lsum_map_seq. rewrite seq_nth by exact Ha. rewrite Nat.eqb_refl. cbn [andb].
      assert (Hh : hd 0%nat (seq (vs * o) vs) = (vs * o)%nat) by (destruct vs; [lia|reflexivity]). rewrite Hh.
      destruct (Nat.eqb_spec o o') as [<-|Hne].
      * rewrite (rsum_single vs b).
        -- rewrite seq_nth by exact Hb. rewrite Nat.eqb_refl. reflexivity.
        -- exact Hb.
        -- intros c Hc Hcb. rewrite seq_nth by exact Hc. destruct (Nat.eqb_spec (vs * o + c) (vs * o + b)); [lia|reflexivity].
      * apply rsum_zero. intros c Hc. rewrite seq_nth by exact Hc.
        destruct (Nat.eqb_spec (vs * o + c) (vs * o' + b)) as [E|]; [|reflexivity].
        exfalso. apply Hne. destruct (Nat.lt_trichotomy o o') as [L|[L|L]]; [nia|exact L|nia].
    + exact Ha.
    + intros r Hr Hra. rewrite coo_get_map, lsum_map_seq. apply rsum_zero. intros c Hc. rewrite seq_nth by exact Hr.
      destruct (Nat.eqb_spec (vs * o + r) (vs * o + a)); [lia|reflexivity].
  - exact Ho.
  - intros q Hq Hqo. rewrite coo_get_flat_map, lsum_map_seq. apply rsum_zero. intros r Hr.
    rewrite coo_get_map, lsum_map_seq. apply rsum_zero. intros c Hc. rewrite seq_nth by exact Hr.
    destruct (Nat.eqb_spec (vs * q + r) (vs * o + a)) as [E|]; [|reflexivity].
    exfalso. apply Hqo. destruct (Nat.lt_trichotomy q o) as [L|[L|L]]; [nia|exact L|nia].
Qed.
Lemma split_index vs N m : (m < vs * N)%nat -> exists o a, m = (vs * o + a)%nat /\ (o < N)%nat /\ (a < vs)%nat.
Proof.
  intros H. assert (vs <> 0%nat) by nia. exists (m / vs)%nat, (m mod vs)%nat. splits.
  - apply Nat.div_mod. assumption.
  - apply Nat.div_lt_upper_bound; assumption.
  - apply Nat.mod_upper_bound. assumption.
Qed.
Lemma inrange_block vs o o' a : (a < vs)%nat -> inrange (vs * o) vs (vs * o' + a) = Nat.eqb o o'.
Proof.
  intros Ha. destruct (Nat.eqb_spec o o') as [<-|Hne].
  - apply inrange_spec. lia.
  - apply inrange_false. destruct (Nat.lt_trichotomy o o') as [L|[L|L]]; [right; nia|contradiction|left; nia].
Qed.
(** F consists of N packed matrices *)
Definition packs_blocks (F : list R -> list R) (n N : nat) (lb : R) : Prop :=
  forall y, length y = (tri n * N)%nat -> F y = List.concat (map (fun o => tril_list n (Mof n lb (blk (tri n) o y))) (seq 0 N)).
Lemma packs_self n lb : packs (fun y => tril_list n (Mof n lb y)) n lb.
Proof. intros y _. reflexivity. Qed.
Lemma packs_blocks_nth F n N lb o a y : packs_blocks F n N lb -> length y = (tri n * N)%nat -> (o < N)%nat -> (a < tri n)%nat ->
  nth (tri n * o + a) (F y) 0 = nth a (tril_list n (Mof n lb (slice y (tri n * o) (tri n * o + tri n)))) 0.
Proof.
  intros HF Hy Ho Ha. rewrite HF by exact Hy.
  rewrite <- (nth_slice _ (tri n * o) (tri n * o + tri n)) by lia. rewrite (Nat.mul_comm (tri n) o) at 1 2.
  rewrite (slice_concat (fun o => tril_list n (Mof n lb (blk (tri n) o y)))); [reflexivity| |exact Ho].
  intros; apply tril_list_length.
Qed.
Lemma blocks_derivatives F n N lb x : packs_blocks F n N lb -> length x = (tri n * N)%nat ->
  jacobian_of F (tri n * N) (tri n * N) x (block_jac (std_blocks (tri n) N) (tri n) (tri n * N) x) /\
  hessians_of F (tri n * N) (tri n * N) x (block_hess (std_blocks (tri n) N) (tri n) (tri n * N) x).
Proof.
  intros HF Hx. set (vs := tri n) in *.
  assert (T : forall o a, (o < N)%nat -> (a < vs)%nat -> 
     twice_diff (fun y => nth (vs * o + a) (F y) 0) (vs * N)
       (fun b y => if inrange (vs * o) vs b then dMof n (tri_row n a) (tri_col n a) (b - vs * o) (slice y (vs * o) (vs * o + vs)) else 0)
       (fun i j y => if (inrange (vs * o) vs i && inrange (vs * o) vs j)%bool
          then hMof n (tri_row n a) (tri_col n a) (i - vs * o) (j - vs * o) (slice y (vs * o) (vs * o + vs)) else 0)).
  { intros o a Ho Ha.
    apply (twice_diff_ext (fun y => nth a (tril_list n (Mof n lb (slice y (vs * o) (vs * o + vs)))) 0)).
    - intros y Hy. symmetry. apply (packs_blocks_nth F n N lb); assumption.
    - apply (twice_diff_slice (fun z => nth a (tril_list n (Mof n lb z)) 0)); [nia|].
      apply (packs_twice (fun z => tril_list n (Mof n lb z)) n lb a (packs_self n lb) Ha). }
  assert (T0 : forall a, (a < vs)%nat -> twice_diff (fun y => nth a (pdm_real (Fin 0) y) 0) vs
      (dMof n (tri_row n a) (tri_col n a)) (hMof n (tri_row n a) (tri_col n a))).
  { intros a Ha. apply (packs_twice _ n 0); [apply pdm_packs|exact Ha]. }
  assert (B : forall o, (o < N)%nat -> gather x (seq (vs * o) vs) = blk vs o x) by (intros; apply gather_blk; nia).
  assert (BL : forall o, (o < N)%nat -> length (blk vs o x) = vs) by (intros; apply (blk_length vs N); assumption).
  split.
  - split; [reflexivity|]. intros i j Hi Hj.
    destruct (split_index vs N i Hi) as [o [a [-> [Ho Ha]]]]. destruct (split_index vs N j Hj) as [o' [b [-> [Ho' Hb]]]].
    eapply is_partial_value; [apply (proj1 (T o a Ho Ha)); assumption|]. cbv beta. rewrite inrange_block by exact Hb.
    unfold block_jac.
    pose proof (block_coo_get (vs * N, vs * N)%nat vs N
       (fun off r c => pos_def_matrix_free_to_vector_jac (gather x (seq off vs)) r c) o a o' b Ho Ha Ho' Hb) as G.
    cbv beta in G. etransitivity; [|etransitivity; [symmetry; exact G|]].
    + destruct (Nat.eqb_spec o o') as [<-|]; [|reflexivity]. rewrite B by exact Ho.
      replace (vs * o + b - vs * o)%nat with b by lia. unfold pos_def_matrix_free_to_vector_jac, ad_jac.
      symmetry. apply is_partial_unique. apply (proj1 (T0 a Ha)); [exact Hb|apply BL; exact Ho].
    + f_equal. f_equal. unfold std_blocks. rewrite !flat_map_concat_map. rewrite !map_map. f_equal. apply map_ext_in. intros q Hq.
      apply in_seq in Hq. assert (Hh : hd 0%nat (seq (vs * q) vs) = (vs * q)%nat) by (destruct vs; [lia|reflexivity]). rewrite Hh. reflexivity.
  - assert (Len : forall l : list (list nat), length (block_hess l vs (vs * N) x) = (length l * vs)%nat).
    { intros l. unfold block_hess. apply length_flat_map_const. intros; rewrite map_length, seq_length; reflexivity. }
    split; [rewrite Len; unfold std_blocks; rewrite map_length, seq_length; lia|].
    intros k Hk. destruct (split_index vs N k Hk) as [o [a [-> [Ho Ha]]]].
    exists (Coo (vs * N, vs * N)%nat (flat_map (fun r => map (fun c =>
       ((nth r (seq (vs * o) vs) 0%nat, nth c (seq (vs * o) vs) 0%nat),
         pos_def_matrix_free_to_vector_hess (gather x (seq (vs * o) vs)) a r c)) (seq 0 vs)) (seq 0 vs))).
    splits.
    + unfold block_hess, std_blocks. rewrite flat_map_concat_map, map_map, <- flat_map_concat_map.
      rewrite (nth_error_nth' _ (Coo (0, 0)%nat [])).
      * f_equal. rewrite (Nat.mul_comm vs o).
        rewrite (nth_flat_map_seq (fun o vec_row => Coo (vs * N, vs * N)%nat (flat_map (fun r => map (fun c =>
           ((nth r (seq (vs * o) vs) 0%nat, nth c (seq (vs * o) vs) 0%nat),
           pos_def_matrix_free_to_vector_hess (gather x (seq (vs * o) vs)) vec_row r c)) (seq 0 vs)) (seq 0 vs))) N vs o a) by assumption.
        rewrite (Nat.mul_comm o vs). reflexivity.
      * rewrite (length_flat_map_const _ _ vs); [rewrite seq_length; nia|]. intros; rewrite map_length, seq_length; reflexivity.
    + reflexivity.
    + intros i j Hi Hj.
      destruct (split_index vs N i Hi) as [oi [ai [-> [Hoi Hai]]]]. destruct (split_index vs N j Hj) as [oj [aj [-> [Hoj Haj]]]].
      eapply is_partial2_value; [apply (twice_diff_partial2 _ _ _ _ _ _ _ (T o a Ho Ha)); assumption|].
      cbv beta. rewrite !inrange_block by assumption.
      rewrite coo_get_flat_map, lsum_map_seq.
      assert (Rw : forall r c, (r < vs)%nat -> (c < vs)%nat ->
         (Nat.eqb (nth r (seq (vs * o) vs) 0%nat) (vs * oi + ai) && Nat.eqb (nth c (seq (vs * o) vs) 0%nat) (vs * oj + aj))%bool
         = ((Nat.eqb o oi && Nat.eqb r ai) && (Nat.eqb o oj && Nat.eqb c aj))%bool).
      { assert (Q : forall r oi ai, (r < vs)%nat -> (ai < vs)%nat -> Nat.eqb (nth r (seq (vs * o) vs) 0%nat) (vs * oi + ai) = (Nat.eqb o oi && Nat.eqb r ai)%bool).
        { clear. intros r oi ai Hr Hai. rewrite seq_nth by exact Hr.
          destruct (Nat.eqb_spec o oi) as [<-|Hne]; cbn [andb].
          - destruct (Nat.eqb_spec (vs * o + r) (vs * o + ai)), (Nat.eqb_spec r ai); try lia; reflexivity.
          - apply Nat.eqb_neq. destruct (Nat.lt_trichotomy o oi) as [L|[L|L]]; [nia|contradiction|nia]. }
        intros r c Hr Hc. rewrite !Q by assumption. reflexivity. }
      rewrite (rsum_ext vs _ (fun r => rsum vs (fun c => if ((Nat.eqb o oi && Nat.eqb r ai) && (Nat.eqb o oj && Nat.eqb c aj))%bool
            then pos_def_matrix_free_to_vector_hess (gather x (seq (vs * o) vs)) a r c else 0))).
      2:{ intros r Hr. rewrite coo_get_map, lsum_map_seq. apply rsum_ext. intros c Hc. rewrite Rw by assumption. reflexivity. }
      rewrite (rsum_single vs ai).
      * rewrite (rsum_single vs aj).
        -- rewrite !Nat.eqb_refl, !andb_true_r.
           destruct (Nat.eqb_spec o oi) as [<-|]; [|reflexivity]. destruct (Nat.eqb_spec o oj) as [<-|]; [|reflexivity]. cbn [andb].
           replace (vs * o + ai - vs * o)%nat with ai by lia. replace (vs * o + aj - vs * o)%nat with aj by lia.
           rewrite B by exact Ho. unfold pos_def_matrix_free_to_vector_hess, ad_hess. symmetry.
           apply ad_partial2. apply (twice_diff_partial2 _ _ _ _ _ _ _ (T0 a Ha)); try assumption. apply BL, Ho.
        -- exact Haj.
        -- intros c Hc Hca. apply Nat.eqb_neq in Hca. rewrite Hca, !andb_false_r. reflexivity.
      * exact Hai.
      * intros r Hr Hra. apply rsum_zero. intros c Hc. apply Nat.eqb_neq in Hra. rewrite Hra, !andb_false_r. reflexivity.
Qed.
Lemma pv_packs p lb : pv_lb p = Fin lb -> (0 < pv_length p)%nat -> packs_blocks (pv_free_to_vector p) (pv_size p) (pv_length p) lb.
Proof.
  intros Hlb HN y Hy. unfold pv_free_to_vector. change (nd_vec (map Fin y)) with (fvec y).
  rewrite (pv_set_free_fin p lb Hlb HN y) by exact Hy. rewrite pv_get_vector_stack by exact HN.
  unfold fvec, nd_vec; cbn [data]. rewrite toR_Fin_map. reflexivity.
Qed.
Lemma pa_packs p lb : pa_lb p = Fin lb -> (0 < nprod (pa_ashape p))%nat -> packs_blocks (pa_free_to_vector p) (pa_size p) (pa_length p) lb.
Proof.
  intros Hlb HN y Hy. unfold pa_free_to_vector. change (nd_vec (map Fin y)) with (fvec y).
  rewrite (pa_set_free_fin p lb Hlb HN y) by exact Hy. rewrite pa_get_vector_stack by exact HN.
  unfold fvec, nd_vec; cbn [data]. rewrite toR_Fin_map. reflexivity.
Qed.
Lemma pv_derivatives p lb x : pv_lb p = Fin lb -> (0 < pv_length p)%nat -> length x = pv_free_size p ->
  jacobian_of (pv_free_to_vector p) (pv_vector_size p) (pv_free_size p) x (pv_free_to_vector_jac p x) /\
  hessians_of (pv_free_to_vector p) (pv_vector_size p) (pv_free_size p) x (pv_free_to_vector_hess p x).
Proof.
  intros Hlb HN Hx. unfold pv_free_to_vector_jac, pv_free_to_vector_hess. rewrite pv_blocks_std.
  apply (blocks_derivatives (pv_free_to_vector p) (pv_size p) (pv_length p) lb x); [apply pv_packs; assumption|exact Hx].
Qed.
Lemma pa_derivatives p lb x : pa_lb p = Fin lb -> (0 < nprod (pa_ashape p))%nat -> length x = pa_free_size p ->
  jacobian_of (pa_free_to_vector p) (pa_vector_size p) (pa_free_size p) x (pa_free_to_vector_jac p x) /\
  hessians_of (pa_free_to_vector p) (pa_vector_size p) (pa_free_size p) x (pa_free_to_vector_hess p x).
Proof.
  intros Hlb HN Hx. unfold pa_free_to_vector_jac, pa_free_to_vector_hess. rewrite pa_blocks_std.
  apply (blocks_derivatives (pa_free_to_vector p) (pa_size p) (pa_length p) lb x); [apply pa_packs; assumption|exact Hx].
Qed.
