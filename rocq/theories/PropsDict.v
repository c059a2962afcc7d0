(** Properties C11-C19, C36-C38 and C41: parameter dictionaries.
    "reachable" (SpecDict.v) are the objects a program can build by constructor calls, pushes under fresh names and any
    sequence of later method calls, with dictionaries nested to any depth. *)
From Coq Require Import String Reals List Bool Arith Lia Lra.
From Coquelicot Require Import Coquelicot.
From Verif Require Import Res Num Nd RSum ModelAutograd ModelSparse ModelParameters ModelMatrix ModelSimplex ModelProjection ModelDict.
From Verif Require Import SpecParameters SpecMatrix SpecSimplex SpecProjection SpecDict.
From Verif Require Import LemmasParameters LemmasMatrix LemmasLeaf LemmasDict LemmasDictCalc LemmasChain.
Import List ListNotations.
Open Scope R_scope.
Set Bullet Behavior "Strict Subproofs".

(** C11 *)
Theorem C11_sizes : forall d, reachable d -> is_dict d = true ->
  p_free_size d = fold_right Nat.add 0%nat (map (fun e => p_free_size (snd e)) (p_entries d)) /\
  p_vector_size d = fold_right Nat.add 0%nat (map (fun e => p_vector_size (snd e)) (p_entries d)) /\
  (forall a, p_get_free d = Ok a -> nd_size a = p_free_size d) /\ (forall a, p_get_vector d = Ok a -> nd_size a = p_vector_size d).
Proof. exact dict_sizes. Qed.
Print Assumptions C11_sizes.

(** C12: pushing under a name that is already present *)
Theorem C12_duplicate_push : forall d q old, reachable d -> reachable q -> d_getitem d (p_name q) = Ok old ->
  exists d', push_param d q = (d', Ok tt) /\
    p_free_size d' = (p_free_size d + p_free_size q)%nat /\ p_vector_size d' = (p_vector_size d + p_vector_size q)%nat /\
    (forall a, p_get_free d' = Ok a -> (nd_size a + p_free_size old = p_free_size d')%nat /\
       ((0 < p_free_size old)%nat -> p_set_free d' a = (d', Raise ValueError))) /\
    (forall a, p_get_vector d' = Ok a -> (nd_size a + p_vector_size old = p_vector_size d')%nat /\
       ((0 < p_vector_size old)%nat -> p_set_vector d' a = (d', Raise ValueError))).
Proof. exact push_duplicate. Qed.
Print Assumptions C12_duplicate_push.

(** C13; the second half says what free_to_vector computes *)
Theorem C13_free_roundtrip : forall p x, reachable p -> populated p -> length x = p_free_size p ->
  exists p', p_set_free p (fvec x) = (p', Ok tt) /\ p_get_free p' = Ok (fvec x) /\ (p_free_size p' = p_free_size p /\ p_vector_size p' = p_vector_size p) /\
    p_get_vector p' = Ok (fvec (p_free_to_vector p x)) /\ length (p_free_to_vector p x) = p_vector_size p.
Proof.
  intros p x Rp Pop L. destruct (p_free_roundtrip p x (reachable_wf p Rp) Pop L) as [p' [v [A [B [C [D _]]]]]].
  assert (E : p_free_to_vector p x = v).
  { unfold p_free_to_vector. change (nd_vec (map Fin x)) with (fvec x). rewrite A, C. unfold fvec, nd_vec. cbn [data]. rewrite map_map. cbn [toR]. apply map_id. }
  exists p'. rewrite E. pose proof (proj1 (p_set_free_sizes p (fvec x))) as Sz. rewrite A in Sz. exact (conj A (conj B (conj Sz (conj C D)))).
Qed.
Print Assumptions C13_free_roundtrip.

(** C14 *)
Theorem C14_value_roundtrip : forall p, reachable p -> populated p -> all_leaves leaf_interior p ->
  exists f p', p_get_free p = Ok (nd_vec f) /\ length f = p_free_size p /\ p_set_free p (nd_vec f) = (p', Ok tt) /\ same_values p p'.
Proof. intros p Rp. apply p_value_roundtrip, reachable_wf, Rp. Qed.
Print Assumptions C14_value_roundtrip.

(** C15 *)
Theorem C15_vector_roundtrip : forall p v, reachable p -> populated p -> length v = p_vector_size p ->
  exists p', p_set_vector p (fvec v) = (p', Ok tt) /\ p_get_vector p' = Ok (fvec v).
Proof. intros p v Rp. apply p_vector_roundtrip, reachable_wf, Rp. Qed.
Print Assumptions C15_vector_roundtrip.


Theorem C15_value_roundtrip : forall p, reachable p -> populated p -> all_leaves leaf_regular p ->
  exists f p', p_get_vector p = Ok (nd_vec f) /\ length f = p_vector_size p /\ p_set_vector p (nd_vec f) = (p', Ok tt) /\ same_values p p'.
Proof. intros p Rp. apply p_value_vector_roundtrip, reachable_wf, Rp. Qed.
Print Assumptions C15_value_roundtrip.

(** C16 *)
Theorem C16_index_ranges : forall d, reachable d -> is_dict d = true ->
  map fst (p_free_indices d) = map fst (p_entries d) /\ tiles 0 (map snd (p_free_indices d)) (p_free_size d) /\
  map fst (p_vector_indices d) = map fst (p_entries d) /\ tiles 0 (map snd (p_vector_indices d)) (p_vector_size d) /\
  forall k q, d_getitem d k = Ok q ->
    (exists lo, od_get (p_free_indices d) k = Some (lo, (lo + p_free_size q)%nat) /\
       forall a, p_get_free d = Ok a -> exists b, p_get_free q = Ok b /\ np_slice a lo (lo + p_free_size q) = Ok b) /\
    (exists lo, od_get (p_vector_indices d) k = Some (lo, (lo + p_vector_size q)%nat) /\
       forall v, p_get_vector d = Ok (nd_vec v) -> exists b, p_get_vector q = Ok b /\ slice v lo (lo + p_vector_size q) = data b).
Proof. exact index_ranges. Qed.
Print Assumptions C16_index_ranges.

(** C17 *)
Theorem C17_wrong_size : forall d a, is_dict d = true ->
  (nd_size a <> p_free_size d -> p_set_free d a = (d, Raise ValueError)) /\ (nd_size a <> p_vector_size d -> p_set_vector d a = (d, Raise ValueError)).
Proof. exact wrong_size. Qed.
Print Assumptions C17_wrong_size.

(** C18 *)
Theorem C18_members_independent : forall d k q lo x y dx dy, reachable d -> d_getitem d k = Ok q -> od_get (p_free_indices d) k = Some (lo, (lo + p_free_size q)%nat) ->
  (forall i, (lo <= i)%nat -> (i < lo + p_free_size q)%nat -> nth_error x i = nth_error y i) ->
  p_set_free d (nd_vec x) = (dx, Ok tt) -> p_set_free d (nd_vec y) = (dy, Ok tt) -> d_getitem dx k = d_getitem dy k.
Proof. exact members_independent. Qed.
Print Assumptions C18_members_independent.

(** each member ends as if it alone had been given its slice *)
Theorem C18_member_update : forall d k q x d', reachable d -> d_getitem d k = Ok q -> p_set_free d (nd_vec x) = (d', Ok tt) ->
  exists lo q', od_get (p_free_indices d) k = Some (lo, (lo + p_free_size q)%nat) /\
    p_set_free q (nd_vec (slice x lo (lo + p_free_size q))) = (q', Ok tt) /\ d_getitem d' k = Ok q'.
Proof. exact member_update. Qed.
Print Assumptions C18_member_update.


Theorem C18_assignment : forall d k a k', k' <> k ->
  d_getitem (fst (values_setitem d k a)) k' = d_getitem d k' /\ p_free_size (fst (values_setitem d k a)) = p_free_size d /\
  p_vector_size (fst (values_setitem d k a)) = p_vector_size d.
Proof. exact values_setitem_others. Qed.
Print Assumptions C18_assignment.

(** C19: the inner dictionary, still held by the outer one, gains a parameter *)
Theorem C19_nested_growth : forall d k inner q inner', reachable d -> d_getitem d k = Ok inner -> reachable q -> d_getitem inner (p_name q) = Raise KeyError ->
  push_param inner q = (inner', Ok tt) -> let d' := d_replace d k inner' in
  d_getitem d' k = Ok inner' /\ p_free_size d' = p_free_size d /\ p_vector_size d' = p_vector_size d /\
  (forall a, p_get_free d' = Ok a -> nd_size a = (p_free_size d' + p_free_size q)%nat /\
     ((0 < p_free_size q)%nat -> p_set_free d' a = (d', Raise ValueError))) /\
  (forall a, p_get_vector d' = Ok a -> nd_size a = (p_vector_size d' + p_vector_size q)%nat /\
     ((0 < p_vector_size q)%nat -> p_set_vector d' a = (d', Raise ValueError))).
Proof. exact nested_growth. Qed.
Print Assumptions C19_nested_growth.

(** C36 *)
Theorem C36_offset : forall M ro co sh, coo_shape (offset_sparse_matrix M (ro, co) sh) = sh /\
  (forall i j, coo_get (offset_sparse_matrix M (ro, co) sh) (ro + i) (co + j) = coo_get M i j) /\
  (forall i j, (i < ro \/ j < co)%nat -> coo_get (offset_sparse_matrix M (ro, co) sh) i j = 0).
Proof. exact offset_moves. Qed.
Print Assumptions C36_offset.


Theorem C36_layout : forall d x, reachable d -> populated d -> is_dict d = true -> length x = p_free_size d ->
  exists J Hs, p_jac d x = Ok J /\ p_hess d x = Ok Hs /\ coo_shape J = (p_vector_size d, p_free_size d) /\ length Hs = p_vector_size d /\
  forall k q, d_getitem d k = Ok q -> exists fl vl Jq Hq,
    od_get (p_free_indices d) k = Some (fl, (fl + p_free_size q)%nat) /\ od_get (p_vector_indices d) k = Some (vl, (vl + p_vector_size q)%nat) /\
    p_jac q (slice x fl (fl + p_free_size q)) = Ok Jq /\ p_hess q (slice x fl (fl + p_free_size q)) = Ok Hq /\
    forall a, (a < p_vector_size q)%nat ->
      (forall b, (b < p_free_size q)%nat -> coo_get J (vl + a) (fl + b) = coo_get Jq a b) /\
      (forall c, (c < fl \/ fl + p_free_size q <= c)%nat -> coo_get J (vl + a) c = 0) /\
      exists M Mq, nth_error Hs (vl + a) = Some M /\ nth_error Hq a = Some Mq /\ coo_shape M = (p_free_size d, p_free_size d) /\
        (forall i j, (i < p_free_size q)%nat -> (j < p_free_size q)%nat -> coo_get M (fl + i) (fl + j) = coo_get Mq i j) /\
        (forall i j, ((i < fl \/ fl + p_free_size q <= i) \/ (j < fl \/ fl + p_free_size q <= j))%nat -> coo_get M i j = 0).
Proof. exact dict_layout. Qed.
Print Assumptions C36_layout.

(** C37 *)
Theorem C37_derivatives : forall p x, reachable p -> populated p -> length x = p_free_size p ->
  (exists J, p_jac p x = Ok J /\ jacobian_of (p_free_to_vector p) (p_vector_size p) (p_free_size p) x J) /\
  (exists Hs, p_hess p x = Ok Hs /\ hessians_of (p_free_to_vector p) (p_vector_size p) (p_free_size p) x Hs).
Proof.
  intros p x Rp Pop L. destruct (p_derivatives p (reachable_wf p Rp) Pop x L) as [[J [A [_ B]]] [Hs [C [_ D]]]].
  split; [exists J|exists Hs]; split; assumption.
Qed.
Print Assumptions C37_derivatives.

(** C38: G is the gradient of f, differentiable at the constrained point with H the Hessian there *)
Theorem C38_convert_hessian : forall p x (f : list R -> R) (G : list R -> list R) (H : nat -> nat -> R), reachable p -> populated p -> (0 < p_vector_size p)%nat -> length x = p_free_size p ->
  (forall y, length y = p_free_size p -> length (G (p_free_to_vector p y)) = p_vector_size p /\
     differentiable_at (p_vector_size p) f (p_free_to_vector p y) (fun k => nth k (G (p_free_to_vector p y)) 0)) ->
  (forall k, (k < p_vector_size p)%nat -> differentiable_at (p_vector_size p) (fun v => nth k (G v) 0) (p_free_to_vector p x) (fun a => H a k)) ->
  exists p' M, convert_vector_to_free_hessian p x (G (p_free_to_vector p x)) H = (p', Ok M) /\ p_get_free p' = Ok (nd_vec (map Fin x)) /\
    (forall i j, (i < p_free_size p)%nat -> (j < p_free_size p)%nat -> is_partial2 (fun y => f (p_free_to_vector p y)) i j x (M i j)) /\
    ((forall a b, (a < p_vector_size p)%nat -> (b < p_vector_size p)%nat -> H a b = H b a) -> forall i j, M i j = M j i).
Proof. exact convert_hessian. Qed.
Print Assumptions C38_convert_hessian.

(** C41 *)
Theorem C41_index_param : forall p, reachable p -> populated p ->
  exists p', make_index_param p = (p', Ok tt) /\ p_get_vector p' = Ok (nd_vec (map (fun k => Fin (INR k)) (seq 0 (p_vector_size p)))) /\
  forall path q, p_at p path = Ok q -> exists q' lo, p_at p' path = Ok q' /\ (lo + p_vector_size q <= p_vector_size p)%nat /\
    p_get_vector q' = Ok (nd_vec (map (fun k => Fin (INR k)) (seq lo (p_vector_size q)))) /\
    (forall l', q' = Leaf l' -> stored_verbatim l' -> data (leaf_get l') = map (fun k => Fin (INR k)) (seq lo (p_vector_size q))) /\
    (forall v, p_get_vector p = Ok (nd_vec v) ->
       exists b, p_get_vector q = Ok b /\ data b = map (fun k => nth k v NaN) (seq lo (p_vector_size q))).
Proof. exact index_param. Qed.
Print Assumptions C41_index_param.

(** a nested dictionary holding a bounded scalar and, one level down, a vector and a positive definite matrix *)
Definition ex_scalar := Leaf (LScalar (ScalarP "s" (Fin 0) PInf (nd_scalar (Fin 2)))).
Definition ex_vector := Leaf (LVector (VectorP "v" 2 NInf PInf (fvec [1; 3]))).
Definition ex_matrix := Leaf (LPosDef (PosDefP "m" 2 (Fin 0) (fmat 2 (fun i j => if Nat.eqb i j then 1 else 0)))).
Definition ex_inner := fst (push_param (fst (push_param (dict_init "inner") ex_vector)) ex_matrix).
Definition ex_dict := fst (push_param (fst (push_param (dict_init "outer") ex_scalar)) ex_inner).
Example ex_dict_reachable : reachable ex_inner /\ reachable ex_dict.
Proof.
  assert (RS : reachable ex_scalar).
  { apply reach_leaf. apply (con_scalar "s" (Fin 0) PInf (Some (nd_scalar (Fin 2)))).
    - intros a E. injection E as <-. reflexivity.
    - unfold scalar_init. reflexivity. }
  assert (RV : reachable ex_vector).
  { apply reach_leaf. apply (con_vector "v" 2 NInf PInf (Some (fvec [1; 3]))).
    - intros a E. injection E as <-. reflexivity.
    - unfold vector_init. reflexivity. }
  assert (RM : reachable ex_matrix).
  { apply reach_leaf. apply (con_posdef "m" 2 0 (Some (fmat 2 (fun i j => if Nat.eqb i j then 1 else 0)))).
    - intros a E. injection E as <-. reflexivity.
    - unfold posdef_init, posdef_set. cbn. rewrite !Reqb_refl. rewrite (proj2 (Rleb_true 0 0)) by lra. reflexivity. }
  assert (RI : reachable ex_inner).
  { unfold ex_inner. eapply reach_push; [eapply reach_push; [apply reach_dict|exact RV|reflexivity|reflexivity]|exact RM|reflexivity|reflexivity]. }
  split; [exact RI|]. unfold ex_dict. eapply reach_push; [eapply reach_push; [apply reach_dict|exact RS|reflexivity|reflexivity]|exact RI|reflexivity|reflexivity].
Qed.
Example ex_dict_populated : populated ex_dict /\ is_dict ex_dict = true /\ p_free_size ex_dict = 6%nat /\ p_vector_size ex_dict = 6%nat /\
  map snd (p_free_indices ex_dict) = [(0, 1); (1, 6)]%nat.
Proof. repeat split; discriminate. Qed.
Example ex_dict_interior : all_leaves leaf_interior ex_dict /\ all_leaves leaf_regular ex_dict.
Proof.
  assert (Sy : symmetric 2 (fun i j => if Nat.eqb i j then 1 else 0)) by (intros i j _ _; rewrite Nat.eqb_sym; reflexivity).
  change (all_leaves leaf_interior ex_dict) with (all_leaves leaf_interior ex_scalar /\ (all_leaves leaf_interior ex_vector /\ all_leaves leaf_interior ex_matrix /\ True) /\ True).
  change (all_leaves leaf_regular ex_dict) with (all_leaves leaf_regular ex_scalar /\ (all_leaves leaf_regular ex_vector /\ all_leaves leaf_regular ex_matrix /\ True) /\ True).
  split; (split; [|split; [split; [|split; [|exact I]]|exact I]]); cbn [all_leaves leaf_interior leaf_regular ex_scalar ex_vector ex_matrix].
  - split; [reflexivity|]. exists 2. split; [reflexivity|]. cbn; split; [lra|exact I].
  - intros v [<-|[<-|[]]]; eexists; (split; [reflexivity|split; exact I]).
  - exists (fun i j => if Nat.eqb i j then 1 else 0), 0. splits; [reflexivity|reflexivity|exact Sy|].
    intros x [i [Hi Nx]]. unfold quad, shifted. cbn [rsum Nat.eqb pd_size] in *. pose proof (Rle_0_sqr (x 0%nat)). pose proof (Rle_0_sqr (x 1%nat)).
    pose proof (Rsqr_pos_lt _ Nx). unfold Rsqr in *. destruct i as [|[|i]]; [| |lia]; lra.
  - split; [reflexivity|]. exists 2. reflexivity.
  - exists [1; 3]. reflexivity.
  - exists (fun i j => if Nat.eqb i j then 1 else 0). split; [reflexivity|exact Sy].
Qed.
(** the hypotheses of C12, C19 *)
Example ex_duplicate : d_getitem ex_dict (p_name ex_scalar) = Ok ex_scalar /\ d_getitem ex_inner (p_name ex_scalar) = Raise KeyError /\
  d_getitem ex_dict "inner" = Ok ex_inner /\ p_free_size ex_scalar = 1%nat.
Proof. repeat split. Qed.
(** the hypotheses of C38, for the sum of squares *)
Example ex_differentiable : forall n v, length v = n ->
  differentiable_at n (fun w => rsum n (fun k => nth k w 0 * nth k w 0)) v (fun k => nth k (map (fun z => 2 * z) v) 0) /\
  forall k, (k < n)%nat -> differentiable_at n (fun w => nth k (map (fun z => 2 * z) w) 0) v (fun a => if Nat.eqb a k then 2 else 0).
Proof.
  intros n v L. split; [|intros k Hk]; intros eps He; exists eps; (split; [exact He|]); intros w Lw Hw.
  - rewrite <- rsum_minus, <- rsum_minus, <- rsum_scal_l. eapply Rle_trans; [apply rsum_Rabs|]. apply rsum_le. intros k Hk.
    rewrite (nth_indep (map _ v) 0 (2 * 0)) by (rewrite map_length; lia). rewrite (map_nth (fun z => 2 * z)).
    replace (nth k w 0 * nth k w 0 - nth k v 0 * nth k v 0 - 2 * nth k v 0 * (nth k w 0 - nth k v 0)) with ((nth k w 0 - nth k v 0) * (nth k w 0 - nth k v 0)) by ring.
    rewrite Rabs_mult. apply Rmult_le_compat_r; [apply Rabs_pos|]. specialize (Hw k Hk). lra.
  - rewrite (nth_indep (map _ w) 0 (2 * 0)), (nth_indep (map _ v) 0 (2 * 0)) by (rewrite map_length; lia). rewrite !(map_nth (fun z => 2 * z)).
    rewrite (rsum_ext n _ (fun a => if Nat.eqb a k then 2 * (nth a w 0 - nth a v 0) else 0)) by (intros a _; destruct (Nat.eqb a k); ring).
    rewrite rsum_delta by exact Hk. replace (2 * nth k w 0 - 2 * nth k v 0 - 2 * (nth k w 0 - nth k v 0)) with 0 by ring. rewrite Rabs_R0.
    apply Rmult_le_pos; [lra|]. apply rsum_nonneg. intros; apply Rabs_pos.
Qed.
