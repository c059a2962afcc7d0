(** Properties C31-C34: simplex parameters. *)
From Coq Require Import String Reals List Bool Arith Lra Lia.
From Coquelicot Require Import Coquelicot.
From Verif Require Import Res Num Nd RSum ModelAutograd ModelSparse ModelParameters ModelSimplex.
From Verif Require Import SpecParameters SpecMatrix SpecSimplex LemmasSimplex.
Import List ListNotations.
Open Scope R_scope.
Set Bullet Behavior "Strict Subproofs".

(** C31, and the first round trip of C32 at the level of the class *)
Theorem C31_C32_set_free : forall p x, (0 < sx_cols p)%nat -> length x = sx_free_size p ->
  exists p' Z, simplex_set_free p (fvec x) = (p', Ok tt) /\ simplex_get p' = rmat (sx_rows p) (sx_cols p) Z /\
    (forall i, (i < sx_rows p)%nat -> interior_simplex (sx_cols p) (Z i)) /\
    (forall i j, (i < sx_rows p)%nat -> (j < sx_cols p)%nat ->
       Z i j <= 1 /\ Z i j = softmax (sx_cols p - 1) (fun k => nth (i * (sx_cols p - 1) + k) x 0) j) /\
    simplex_get_free p' = Ok (fvec x).
Proof. exact simplex_set_free_roundtrip. Qed.
Print Assumptions C31_C32_set_free.
Theorem C31_wrong_length : forall p a,
  (forall m r, shape a = m :: r -> m <> sx_free_size p -> simplex_set_free p a = (p, Raise ValueError)) /\
  (forall m r, shape a = m :: r -> m <> sx_vector_size p -> simplex_set_vector p a = (p, Raise ValueError)).
Proof. exact simplex_bad_length. Qed.
Print Assumptions C31_wrong_length.
Example C31_nonvacuous : let p := SimplexP "s"%string 2 3 (np_full [2; 3]%nat (Fin (1/3))) in
  (0 < sx_cols p)%nat /\ length [1; 2; 3; 4] = sx_free_size p /\ sx_vector_size p = 6%nat.
Proof. cbn. unfold sx_free_size, sx_vector_size, sx_free_shape, sx_shape, nprod. cbn. splits; lia. Qed.

(** C32, matrix level *)
Theorem C32_unconstrain_constrain : forall n K A,
  exists Z, constrain_simplex_matrix (rmat n K A) = Ok (rmat n (S K) Z) /\
    (forall i, (i < n)%nat -> interior_simplex (S K) (Z i)) /\
    (forall i j, (i < n)%nat -> (j < S K)%nat -> Z i j = softmax K (A i) j) /\
    unconstrain_simplex_matrix (rmat n (S K) Z) = Ok (rmat n K A).
Proof. exact unconstrain_constrain. Qed.
Print Assumptions C32_unconstrain_constrain.
Theorem C32_constrain_unconstrain : forall n K Z, (forall i j, (i < n)%nat -> (j < S K)%nat -> 0 < Z i j) ->
  exists A, unconstrain_simplex_matrix (rmat n (S K) Z) = Ok (rmat n K A) /\
    constrain_simplex_matrix (rmat n K A) = Ok (rmat n (S K) (fun i j => Z i j / rsum (S K) (Z i))).
Proof. exact constrain_unconstrain. Qed.
Print Assumptions C32_constrain_unconstrain.
(** class level: positive rows come back normalised, so interior simplex rows come back unchanged *)
Theorem C32_value_roundtrip : forall p Z, (0 < sx_cols p)%nat -> simplex_get p = rmat (sx_rows p) (sx_cols p) Z ->
  (forall i j, (i < sx_rows p)%nat -> (j < sx_cols p)%nat -> 0 < Z i j) ->
  exists f p', simplex_get_free p = Ok (fvec f) /\ length f = sx_free_size p /\ simplex_set_free p (fvec f) = (p', Ok tt) /\
    simplex_get p' = rmat (sx_rows p) (sx_cols p) (fun i j => Z i j / rsum (sx_cols p) (Z i)) /\
    ((forall i, (i < sx_rows p)%nat -> rsum (sx_cols p) (Z i) = 1) -> p' = p).
Proof. exact simplex_value_roundtrip. Qed.
Print Assumptions C32_value_roundtrip.
Theorem C32_set_vector : forall p (l : list num), length l = sx_vector_size p ->
  exists p', simplex_set_vector p (nd_vec l) = (p', Ok tt) /\ simplex_get p' = Nd (sx_shape p) l /\ simplex_get_vector p' = Ok (nd_vec l).
Proof. exact simplex_set_vector_any. Qed.
Print Assumptions C32_set_vector.
Theorem C32_get_vector : forall p, nd_wf (sx_val p) -> shape (sx_val p) = sx_shape p ->
  exists v, simplex_get_vector p = Ok v /\ shape v = [sx_vector_size p] /\ simplex_set_vector p v = (p, Ok tt).
Proof. exact simplex_vector_roundtrip. Qed.
Print Assumptions C32_get_vector.
Example C32_nonvacuous : let Z := fun i j : nat => match j with O => 1/2 | _ => 1/4 end in
  forall i, (forall j, (j < 3)%nat -> 0 < Z i j) /\ rsum 3 (Z i) = 1.
Proof. intros Z i. split; [intros [|j] _; cbn; lra|cbn; lra]. Qed.

(** C33 and C34 for the free-standing functions: F is constrain_simplex_vector read as a map of real vectors *)
Theorem C33_C34_from_moment : forall (F : list R -> list R) x z,
  (forall y, length y = length x -> constrain_simplex_vector (fvec y) = Ok (fvec (F y))) ->
  constrain_simplex_vector (fvec x) = Ok (fvec z) ->
  (forall i j, (i < S (length x))%nat -> (j < length x)%nat -> is_partial (fun y => nth i (F y) 0) j x (constrain_grad_from_moment z i j)) /\
  (forall k i j, (k < S (length x))%nat -> (i < length x)%nat -> (j < length x)%nat ->
     is_partial2 (fun y => nth k (F y) 0) i j x (constrain_hess_from_moment z k i j)).
Proof. exact simplex_vector_derivs. Qed.
Print Assumptions C33_C34_from_moment.
(** the hypotheses hold for every x *)
Example C33_nonvacuous : forall x : list R, exists F z,
  (forall y, length y = length x -> constrain_simplex_vector (fvec y) = Ok (fvec (F y))) /\ constrain_simplex_vector (fvec x) = Ok (fvec z).
Proof.
  intros x. exists (fun y => map (fun j => sm (length y) j y) (seq 0 (S (length y)))). eexists. split.
  - intros y _. apply simplex_vector_fin.
  - apply simplex_vector_fin.
Qed.
Theorem C33_jacobian : forall p x, (0 < sx_cols p)%nat -> length x = sx_free_size p ->
  exists J, simplex_free_to_vector_jac p x = Ok J /\
    jacobian_of (simplex_free_to_vector p) (sx_vector_size p) (sx_free_size p) x J.
Proof. exact simplex_jac. Qed.
Print Assumptions C33_jacobian.
Theorem C34_hessian : forall p x, (0 < sx_cols p)%nat -> length x = sx_free_size p ->
  exists Hs, simplex_free_to_vector_hess p x = Ok Hs /\
    hessians_of (simplex_free_to_vector p) (sx_vector_size p) (sx_free_size p) x Hs.
Proof. exact simplex_hess. Qed.
Print Assumptions C34_hessian.
Example C33_C34_nonvacuous : let p := SimplexP "s"%string 2 3 (np_full [2; 3]%nat (Fin (1/3))) in
  (0 < sx_cols p)%nat /\ length [1; -2; 3; 4] = sx_free_size p /\ sx_vector_size p = 6%nat.
Proof. intros p. split; [cbn; lia|]. split; reflexivity. Qed.
