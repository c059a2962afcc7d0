(** C74, C75: regression_utils.py. *)
From Coq Require Import Reals List Arith Lia Lra Bool.
From Verif Require Import Res Nd RSum ModelNumpy ModelRegression SpecMatrix SpecExpFam SpecRegression LemmasPosDef LemmasNumpy LemmasRegression.
Import List ListNotations.
Open Scope R_scope.
Open Scope nat_scope.

(** every real array with at least two (one) dimensions is a stack of matrices (vectors), and the stack's
    entries are those of the function that defines it *)
Theorem C74_mat_entry : forall b n m X i j k, In i (product b) -> j < n -> k < m -> nd_at 0%R (mat_stack b n m X) (i ++ [j; k]) = X i j k.
Proof. exact mat_stack_at. Qed.
Print Assumptions C74_mat_entry.
Theorem C74_vec_entry : forall b n v i j, In i (product b) -> j < n -> nd_at 0%R (vec_stack b n v) (i ++ [j]) = v i j.
Proof. exact vec_stack_at. Qed.
Print Assumptions C74_vec_entry.

Theorem C74_mat_every : forall (a : nd R) b n m, nd_wf a -> shape a = b ++ [n; m] -> a = mat_stack b n m (fun i j k => nd_at 0%R a (i ++ [j; k])).
Proof. exact mat_stack_every. Qed.
Print Assumptions C74_mat_every.
Theorem C74_vec_every : forall (a : nd R) b n, nd_wf a -> shape a = b ++ [n] -> a = vec_stack b n (fun i j => nd_at 0%R a (i ++ [j])).
Proof. exact vec_stack_every. Qed.
Print Assumptions C74_vec_every.

(** C74: the products *)
Theorem C74_mat_mul : forall b s r t X Y, mat_mul_last2dims (mat_stack b s r X) (mat_stack b s t Y) = Ok (mat_stack b r t (fun i p q => rsum s (fun k => X i k p * Y i k q)%R)).
Proof. exact mat_mul_value. Qed.
Print Assumptions C74_mat_mul.
Theorem C74_mat_vec : forall b e s r X y, matvec_mul_last2dims (mat_stack b s r X) (vec_stack (b ++ e) s y) =
  Ok (vec_stack b r (fun i p => total e (fun j => rsum s (fun k => X i k p * y (i ++ j) k)%R))).
Proof. exact mat_vec_value. Qed.
Print Assumptions C74_mat_vec.

(** C74: mismatches *)
Theorem C74_mat_mul_ranks : forall x1 x2, length (shape x1) <> length (shape x2) -> mat_mul_last2dims x1 x2 = Raise AssertionError.
Proof. exact mat_mul_ndim. Qed.
Print Assumptions C74_mat_mul_ranks.
Theorem C74_mat_mul_low : forall x1 x2, length (shape x1) = length (shape x2) -> length (shape x1) < 2 -> mat_mul_last2dims x1 x2 = Raise IndexError.
Proof. exact mat_mul_low. Qed.
Print Assumptions C74_mat_mul_low.
Theorem C74_mat_mul_inner : forall x1 x2 b b' s s' r t, shape x1 = b ++ [s; r] -> shape x2 = b' ++ [s'; t] -> length b = length b' -> s <> s' -> mat_mul_last2dims x1 x2 = Raise AssertionError.
Proof. exact mat_mul_inner. Qed.
Print Assumptions C74_mat_mul_inner.
Theorem C74_mat_mul_batch : forall x1 x2 b b' s r t k, shape x1 = b ++ [s; r] -> shape x2 = b' ++ [s; t] -> length b = length b' -> k < length b ->
  nth k b 0 <> nth k b' 0 -> nth k b 0 <> 1 -> nth k b' 0 <> 1 -> mat_mul_last2dims x1 x2 = Raise ValueError.
Proof. exact mat_mul_batch. Qed.
Print Assumptions C74_mat_mul_batch.
Theorem C74_mat_vec_inner : forall x y b b' s s' r, shape x = b ++ [s; r] -> shape y = b' ++ [s'] -> s <> s' -> matvec_mul_last2dims x y = Raise AssertionError.
Proof. exact mat_vec_inner. Qed.
Print Assumptions C74_mat_vec_inner.
Theorem C74_mat_vec_rank : forall x y b b' s r, shape x = b ++ [s; r] -> shape y = b' ++ [s] -> length b' < length b -> matvec_mul_last2dims x y = Raise AssertionError.
Proof. exact mat_vec_rank. Qed.
Print Assumptions C74_mat_vec_rank.

Example C74_nonvacuous : exists z, mat_mul_last2dims (mat_stack [2] 3 2 (fun i j k => INR (nth 0 i 0 + j + k))) (mat_stack [2] 3 1 (fun _ j _ => INR j)) = Ok z /\ nd_at 0%R z [1; 1; 0] = 11%R.
Proof.
  eexists. split; [apply C74_mat_mul|]. change [1; 1; 0] with ([1] ++ [1; 0]). rewrite C74_mat_entry; [cbn; lra|apply in_product_1; exists 1; split; [reflexivity|lia]|lia|lia].
Qed.
Open Scope R_scope.

(** C75: whenever the returned precision can be inverted, the returned mean solves the normal equations, for all weights and priors, symmetric or not *)
Theorem C75_posterior_normal_equations : forall inv : nd R -> res (nd R), forall b e s r y X info L m P, weights b s info L ->
  inverts_stack inv b r (fun i => transpose (posterior_matrix e s (X i) (L i) (P i))) -> exists mu,
  get_posterior_regression_coefficients inv (vec_stack (b ++ e) s y) (mat_stack b s r X) info (vec_stack b r m) (mat_stack b r r P) =
    Ok (vec_stack b r mu, mat_stack b r r (fun i => transpose (posterior_matrix e s (X i) (L i) (P i)))) /\
  forall i p, index b i -> (p < r)%nat ->
    mat_vec r (posterior_matrix e s (X i) (L i) (P i)) (mu i) p = weighted s (X i) (L i) (fun l => total e (fun j => y (i ++ j)%list l)) p + mat_vec r (P i) (m i) p.
Proof. exact posterior_solves. Qed.
Print Assumptions C75_posterior_normal_equations.


Theorem C75_regression_normal_equations : forall inv : nd R -> res (nd R), forall b e s r y X info L, weights b s info L ->
  inverts_stack inv b r (fun i => transpose (posterior_matrix e s (X i) (L i) (fun _ _ => 0))) -> exists mu,
  get_regression_coefficients inv (vec_stack (b ++ e) s y) (mat_stack b s r X) info = Ok (vec_stack b r mu) /\
  forall i p, index b i -> (p < r)%nat ->
    mat_vec r (fun j k => INR (nprod e) * gram s (X i) (L i) j k) (mu i) p = weighted s (X i) (L i) (fun l => total e (fun j => y (i ++ j)%list l)) p.
Proof. exact regression_solves. Qed.
Print Assumptions C75_regression_normal_equations.

(** C75: with symmetric nonnegative weights and prior precision the mean is the only minimiser of the penalised squared error, and the precision is n X'LX + P *)
Theorem C75_posterior_minimises : forall inv : nd R -> res (nd R), forall b e s r y X info L m P, weights b s info L -> (forall i, index b i -> symmetric s (L i) /\ symmetric r (P i) /\ nonneg_form s (L i) /\ nonneg_form r (P i)) ->
  inverts_stack inv b r (fun i => posterior_matrix e s (X i) (L i) (P i)) -> exists mu,
  get_posterior_regression_coefficients inv (vec_stack (b ++ e) s y) (mat_stack b s r X) info (vec_stack b r m) (mat_stack b r r P) =
    Ok (vec_stack b r mu, mat_stack b r r (fun i => posterior_matrix e s (X i) (L i) (P i))) /\
  forall i, index b i -> let cost := penalised e s r (X i) (L i) (fun j => y (i ++ j)%list) (P i) (m i) in
    forall beta, cost (mu i) <= cost beta /\ (cost beta = cost (mu i) -> forall p, (p < r)%nat -> beta p = mu i p).
Proof. exact posterior_minimises. Qed.
Print Assumptions C75_posterior_minimises.


Theorem C75_regression_minimises : forall inv : nd R -> res (nd R), forall b e s r y X info L, weights b s info L -> (forall i, index b i -> symmetric s (L i) /\ nonneg_form s (L i)) ->
  inverts_stack inv b r (fun i p q => INR (nprod e) * gram s (X i) (L i) p q) -> exists mu,
  get_regression_coefficients inv (vec_stack (b ++ e) s y) (mat_stack b s r X) info = Ok (vec_stack b r mu) /\
  forall i, index b i -> let cost := sq_error e s r (X i) (L i) (fun j => y (i ++ j)%list) in
    forall beta, cost (mu i) <= cost beta /\ (cost beta = cost (mu i) -> forall p, (p < r)%nat -> beta p = mu i p).
Proof. exact regression_minimises. Qed.
Print Assumptions C75_regression_minimises.

(** one coefficient: the inverse of a 1 by 1 stack is the entrywise reciprocal *)
Lemma inv_1 b A : (forall i, index b i -> A i 0%nat 0%nat <> 0) -> inverts_stack (fun a => Ok (nd_map Rinv a)) b 1 A.
Proof.
  intros H. exists (fun i j k => / A i j k). split.
  - unfold mat_stack. rewrite nd_map_mk. reflexivity.
  - intros i Hi p q Hp Hq. assert (p = 0%nat) by lia. assert (q = 0%nat) by lia. subst. cbn. rewrite Rinv_r, Rinv_l by (apply H, Hi). split; lra.
Qed.
(** two designs of two observations, three responses each, one coefficient, prior N(1, 1) *)
Example C75_nonvacuous : exists mu, get_posterior_regression_coefficients (fun a => Ok (nd_map Rinv a)) (vec_stack ([2] ++ [3])%nat 2 (fun i j => INR (nth 1 i 0%nat + j))) (mat_stack [2%nat] 2 1 (fun _ _ _ => 1)) (inl 2)
    (vec_stack [2%nat] 1 (fun _ _ => 1)) (mat_stack [2%nat] 1 1 (fun _ _ _ => 1)) = Ok (vec_stack [2%nat] 1 mu, mat_stack [2%nat] 1 1 (fun _ _ _ => 13)) /\ mu [1%nat] 0%nat = 19 / 13.
Proof.
  destruct (C75_posterior_normal_equations (fun a => Ok (nd_map Rinv a)) [2%nat] [3%nat] 2 1 (fun i j => INR (nth 1 i 0%nat + j)) (fun _ _ _ => 1) (inl 2) (fun _ => scal_mat 2) (fun _ _ => 1) (fun _ _ _ => 1)) as [mu [E N]].
  - left. exists 2. split; reflexivity.
  - apply inv_1. intros i _. unfold transpose, posterior_matrix, gram, scal_mat, delta, nprod. cbn. lra.
  - exists mu. split.
    + etransitivity; [exact E|]. do 2 f_equal. apply mat_stack_ext. intros i j k _ Hj Hk. assert (j = 0%nat) by lia. assert (k = 0%nat) by lia. subst. unfold transpose, posterior_matrix, gram, scal_mat, delta, nprod. cbn. lra.
    + assert (Q : index [2%nat] [1%nat]) by (apply in_product_1; exists 1%nat; split; [reflexivity|lia]). specialize (N [1%nat] 0%nat Q (Nat.lt_0_succ 0)).
      unfold mat_vec, posterior_matrix, gram, weighted, scal_mat, delta, nprod, total in N. cbn in N. lra.
Qed.
