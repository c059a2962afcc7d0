(** Properties C20-C30: packed matrices and positive definite matrix parameters. *)
From Coq Require Import String Reals List Bool Arith Lra Lia.
From Coquelicot Require Import Coquelicot.
From Verif Require Import Res Num Nd RSum ModelAutograd ModelSparse ModelParameters ModelMatrix.
From Verif Require Import SpecParameters SpecMatrix LemmasParameters LemmasCalc LemmasChol LemmasMatrix LemmasPosDef LemmasPosDefStack.
Import List ListNotations.
Open Scope R_scope.
Set Bullet Behavior "Strict Subproofs".

(** C20: symmetric in its arguments; the lower triangle read row by row gets the indices 0, 1, 2, ... in order
    (hence a bijection), spelled out as injectivity and surjectivity as well. *)
Theorem C20_symmetric : forall i j, SymIndex i j = SymIndex j i.
Proof. exact SymIndex_sym. Qed.
Print Assumptions C20_symmetric.
Theorem C20_enumerates : forall n, map (fun p => SymIndex (fst p) (snd p)) (lower_pairs n) = seq 0 (tri n).
Proof. exact SymIndex_enumerates. Qed.
Print Assumptions C20_enumerates.
Theorem C20_bijection : forall n,
  (forall i j, (j <= i)%nat -> (i < n)%nat -> (SymIndex i j < tri n)%nat) /\
  (forall i j i' j', (j <= i)%nat -> (j' <= i')%nat -> SymIndex i j = SymIndex i' j' -> i = i' /\ j = j') /\
  (forall m, (m < tri n)%nat -> exists i j, (j <= i)%nat /\ (i < n)%nat /\ m = SymIndex i j).
Proof.
  intros n. splits.
  - intros i j Hj Hi. apply SymIndex_lt; lia.
  - intros i j i' j' H H' E. rewrite !SymIndex_lower in E by assumption. apply tri_inj_pair; assumption.
  - intros m Hm. destruct (tri_find m n Hm) as [i [j [A [B C]]]]. exists i, j. splits; try assumption.
    rewrite SymIndex_lower by exact A. exact C.
Qed.
Print Assumptions C20_bijection.
Example C20_nonvacuous : map (fun p => SymIndex (fst p) (snd p)) [(0, 0); (1, 0); (1, 1); (2, 0); (2, 1); (2, 2)]%nat = [0; 1; 2; 3; 4; 5]%nat.
Proof. reflexivity. Qed.

(** C21 *)
Theorem C21_rejects_iff : forall l : list num,
  unvectorize_ld_matrix (nd_vec l) = Raise ValueError <-> ~ exists n, length l = tri n.
Proof.
  intros l. split.
  - intros H [n Hn]. rewrite (unvectorize_ok n l Hn) in H. discriminate.
  - intros H. apply unvectorize_bad. intros n Hn. apply H. exists n. rewrite nd_size_vec in Hn. exact Hn.
Qed.
Print Assumptions C21_rejects_iff.
Theorem C21_unvectorize : forall (l : list num) n, length l = tri n ->
  exists M, unvectorize_ld_matrix (nd_vec l) = Ok M /\ shape M = [n; n] /\ nd_wf M /\
    lower_triangular (Fin 0) n (mget NaN M) /\
    (forall i j, (j <= i)%nat -> (i < n)%nat -> mget NaN M i j = nth (SymIndex i j) l NaN) /\
    vectorize_ld_matrix M = Ok (nd_vec l).
Proof. exact unvectorize_spec. Qed.
Print Assumptions C21_unvectorize.
Theorem C21_vectorize_roundtrip : forall M n, shape M = [n; n] -> nd_wf M -> lower_triangular (Fin 0) n (mget NaN M) ->
  exists v, vectorize_ld_matrix M = Ok v /\ shape v = [tri n] /\ unvectorize_ld_matrix v = Ok M.
Proof. exact unvectorize_vectorize. Qed.
Print Assumptions C21_vectorize_roundtrip.
Theorem C21_vectorize_rejects : forall M, (forall n, shape M <> [n; n]) -> vectorize_ld_matrix M = Raise ValueError.
Proof. exact vectorize_rejects. Qed.
Print Assumptions C21_vectorize_rejects.
(** the matrix size the code computes is the floor of the real formula it writes down *)
Theorem C21_size_formula : forall m, INR (ld_mat_size m) <= 0.5 * (sqrt (1 + 8 * INR m) - 1) < INR (ld_mat_size m) + 1.
Proof. exact ld_mat_size_real. Qed.
Print Assumptions C21_size_formula.
Example C21_nonvacuous : length [Fin 1; Fin 2; Fin 3] = tri 2 /\ ~ exists n, length [Fin 1; Fin 2] = tri n.
Proof.
  split; [reflexivity|]. intros [n Hn]. pose proof (tri_twice n) as T. rewrite <- Hn in T. simpl in T.
  destruct n as [|[|[|n]]]; lia.
Qed.

(** C22 *)
Theorem C22_unvectorize_symmetric : forall n (x : list R), length x = tri n ->
  exists A, unvectorize_symmetric_matrix (fvec x) = Ok (fmat n A) /\ symmetric n A /\
    (forall i j, (i < n)%nat -> (j < n)%nat -> A i j = nth (SymIndex i j) x 0) /\
    vectorize_ld_matrix (fmat n A) = Ok (fvec x).
Proof.
  intros n x H. exists (symof x). splits.
  - apply unvectorize_symmetric_fin, H.
  - apply symof_sym.
  - reflexivity.
  - unfold fmat. rewrite vectorize_mk. unfold fvec. rewrite <- (tril_list_map Fin n (symof x)).
    unfold symof. rewrite (tril_list_nth n x 0 H). reflexivity.
Qed.
Print Assumptions C22_unvectorize_symmetric.
Theorem C22_roundtrip : forall n A, symmetric n A ->
  exists v, vectorize_ld_matrix (fmat n A) = Ok v /\ unvectorize_symmetric_matrix v = Ok (fmat n A).
Proof. exact unvectorize_symmetric_roundtrip. Qed.
Print Assumptions C22_roundtrip.
Theorem C22_rejects : forall a, (forall n, nd_size a <> tri n) -> unvectorize_symmetric_matrix a = Raise ValueError.
Proof. intros a H. unfold unvectorize_symmetric_matrix. rewrite unvectorize_bad by exact H. reflexivity. Qed.
Print Assumptions C22_rejects.
Example C22_nonvacuous : symmetric 2 (fun i j => INR (i + j)) /\ length [1; 2; 3] = tri 2.
Proof. split; [|reflexivity]. intros i j _ _. rewrite Nat.add_comm. reflexivity. Qed.

(** C23: the registered gradient rules. G is any cotangent matrix, v any tangent vector. *)
Theorem C23_vjp_is_adjoint : forall n (x : list R) (G : nat -> nat -> R), length x = tri n ->
  exists v U, unvectorize_ld_matrix_vjp (fmat n G) = Ok (fvec v) /\ unvectorize_ld_matrix (fvec x) = Ok (fmat n U) /\
    length v = tri n /\ dot v x = frob n G U.
Proof. exact vjp_adjoint. Qed.
Print Assumptions C23_vjp_is_adjoint.
Theorem C23_jvp_is_derivative : forall n (x v : list R), length x = tri n -> length v = tri n ->
  exists D, unvectorize_ld_matrix_jvp (fvec v) = Ok (fmat n D) /\
    forall U, (forall t, unvectorize_ld_matrix (fvec (map2 (fun a b => a + t * b) x v)) = Ok (fmat n (U t))) ->
      forall i j, (i < n)%nat -> (j < n)%nat -> is_derive (fun t => U t i j) 0 (D i j).
Proof. exact jvp_derivative. Qed.
Print Assumptions C23_jvp_is_derivative.
Example C23_nonvacuous : exists U, forall t, unvectorize_ld_matrix (fvec (map2 (fun a b => a + t * b) [1; 2; 3] [4; 5; 6])) = Ok (fmat 2 (U t)).
Proof.
  exists (fun t i j => if Nat.leb j i then nth (SymIndex i j) (map2 (fun a b => a + t * b) [1; 2; 3] [4; 5; 6]) 0 else 0).
  intros t. apply (unvectorize_fin 2). reflexivity.
Qed.

(** C24 *)
Theorem C24_pack_unpack : forall n lb x, length x = tri n ->
  exists M, unpack_posdef_matrix (fvec x) (Fin lb) = Ok M /\ pack_posdef_matrix M (Fin lb) = Ok (fvec x).
Proof. exact pack_unpack. Qed.
Print Assumptions C24_pack_unpack.
(** what unpack computes: L L' + lb I with L the lower triangle of x, its diagonal exponentiated *)
Theorem C24_unpack_formula : forall n lb x, length x = tri n ->
  exists L A, unpack_posdef_matrix (fvec x) (Fin lb) = Ok (fmat n A) /\
    (forall i k, (k < i)%nat -> (i < n)%nat -> L i k = nth (SymIndex i k) x 0) /\
    (forall i, (i < n)%nat -> L i i = exp (nth (SymIndex i i) x 0)) /\
    (forall i k, (i < k)%nat -> L i k = 0) /\
    (forall i j, (i < n)%nat -> (j < n)%nat -> A i j = rsum n (fun k => L i k * L j k) + (if Nat.eqb i j then lb else 0)).
Proof.
  intros n lb x H. exists (Lof x), (Mof n lb x). splits.
  - apply unpack_fin, H.
  - intros i k Hk Hi. unfold Lof. apply Nat.ltb_lt in Hk. rewrite Hk. reflexivity.
  - intros i Hi. apply Lof_diag.
  - intros i k Hk. apply Lof_upper, Hk.
  - reflexivity.
Qed.
Print Assumptions C24_unpack_formula.
Example C24_nonvacuous : length [1; -2; 3; 0; 5; -6] = tri 3 /\ length (@nil R) = tri 0.
Proof. split; reflexivity. Qed.

(** C25 *)
Theorem C25_unpack_pack : forall n A lb, symmetric n A -> posdef n (shifted A lb) ->
  exists v, pack_posdef_matrix (fmat n A) (Fin lb) = Ok v /\ unpack_posdef_matrix v (Fin lb) = Ok (fmat n A).
Proof. exact unpack_pack. Qed.
Print Assumptions C25_unpack_pack.
Example C25_nonvacuous : symmetric 2 (fun i j => if Nat.eqb i j then 2 else 1) /\ posdef 2 (shifted (fun i j => if Nat.eqb i j then 2 else 1) (1/2)).
Proof.
  split.
  - intros i j _ _. rewrite Nat.eqb_sym. reflexivity.
  - intros x [i [Hi Hx]]. unfold quad, shifted. simpl.
    destruct i as [|[|i]]; [| |lia].
    + assert (0 < x 0%nat * x 0%nat) by nra. nra.
    + assert (0 < x 1%nat * x 1%nat) by nra. nra.
Qed.

(** C26 *)
Theorem C26_set_free_valid : forall p lb x, pd_lb p = Fin lb -> length x = pd_vec_size p ->
  exists p' A, posdef_set_free p (fvec x) = (p', Ok tt) /\ posdef_get p' = fmat (pd_size p) A /\
    symmetric (pd_size p) A /\ posdef (pd_size p) (shifted A lb) /\ (forall i, (i < pd_size p)%nat -> lb < A i i) /\
    posdef_get_free p' = Ok (fvec x).
Proof. exact posdef_set_free_valid. Qed.
Print Assumptions C26_set_free_valid.
Theorem C26_wrong_length : forall p a, nd_size a <> pd_vec_size p ->
  posdef_set_free p a = (p, Raise ValueError) /\ posdef_set_vector p a = (p, Raise ValueError).
Proof. exact posdef_bad_length. Qed.
Print Assumptions C26_wrong_length.
(** set accepts exactly the symmetric finite matrices of the declared size *)
Theorem C26_set : forall p A, let n := pd_size p in
  (symmetric n A -> posdef_set p (fmat n A) = (PosDefP (pd_name p) n (pd_lb p) (fmat n A), Ok tt)) /\
  (~ symmetric n A -> posdef_set p (fmat n A) = (p, Raise ValueError)) /\
  (forall a, shape a <> [n; n] -> posdef_set p a = (p, Raise ValueError)).
Proof.
  intros p A n. splits.
  - apply posdef_set_fin.
  - intros H. unfold posdef_set. fold n. rewrite fmat_shape, Nat.eqb_refl. cbn [negb orb].
    destruct (forallb _ (seq 0 n)) eqn:E; [|reflexivity]. exfalso. apply H. intros i j Hi Hj.
    rewrite forallb_forall in E. specialize (E i). rewrite in_seq in E. specialize (E ltac:(lia)).
    rewrite forallb_forall in E. specialize (E j). rewrite in_seq in E. specialize (E ltac:(lia)).
    rewrite !mget_fmat in E by assumption. cbn in E. apply Reqb_true in E. congruence.
  - intros a H. unfold posdef_set. fold n. destruct (shape a) as [|r [|c [|]]]; try reflexivity.
    destruct (Nat.eqb_spec r n) as [->|]; [|reflexivity]. destruct (Nat.eqb_spec c n) as [->|]; [|reflexivity].
    exfalso; apply H; reflexivity.
Qed.
Print Assumptions C26_set.
Theorem C26_vector_roundtrip : forall p x, length x = pd_vec_size p ->
  exists p' A, posdef_set_vector p (fvec x) = (p', Ok tt) /\ posdef_get_vector p' = Ok (fvec x) /\
    posdef_get p' = fmat (pd_size p) A /\ symmetric (pd_size p) A.
Proof.
  intros p x H. destruct (posdef_set_vector_fin p x H) as [p' [A [B C]]]. exists p', (symof x). splits; try assumption. apply symof_sym.
Qed.
Print Assumptions C26_vector_roundtrip.
(** a fresh parameter holds (diag_lb + 1) I, which is valid *)
Theorem C26_default : forall name n lb, 0 <= lb ->
  exists p A, posdef_init name n (Fin lb) None = Ok p /\ pd_lb p = Fin lb /\ pd_size p = n /\ posdef_get p = fmat n A /\
    symmetric n A /\ posdef n (shifted A lb).
Proof.
  intros name n lb H. unfold posdef_init. cbn [nleb]. apply Rleb_true in H. rewrite H. unfold rassert.
  eexists. exists (fun i j => if Nat.eqb i j then lb + 1 else 0). splits; try reflexivity.
  - cbn [posdef_get pd_val]. apply mk_mat_ext. intros i j _ _. unfold make_diagonal. destruct (Nat.eqb i j); reflexivity.
  - intros i j _ _. rewrite Nat.eqb_sym. reflexivity.
  - apply (posdef_ext n (fun i j => rsum n (fun k => del i k * del j k))).
    + intros i j Hi Hj. unfold shifted. rewrite (rsum_single n i).
      * unfold del. rewrite Nat.eqb_refl, (Nat.eqb_sym j i). destruct (Nat.eqb i j); ring.
      * exact Hi.
      * intros k _ Hk. unfold del. destruct (Nat.eqb_spec i k); [congruence|ring].
    + apply LLt_posdef.
      * intros i k Hk. unfold del. destruct (Nat.eqb_spec i k); [lia|reflexivity].
      * intros k _. unfold del. rewrite Nat.eqb_refl. lra.
Qed.
Print Assumptions C26_default.
Theorem C26_negative_bound : forall name n lb val, lb < 0 -> posdef_init name n (Fin lb) val = Raise AssertionError.
Proof. intros name n lb val H. unfold posdef_init. cbn [nleb]. apply Rleb_false in H. rewrite H. reflexivity. Qed.
Print Assumptions C26_negative_bound.
(** a value given to the constructor goes through the checks of set *)
Theorem C26_given_value : forall name n lb, 0 <= lb ->
  (forall A, symmetric n A -> posdef_init name n (Fin lb) (Some (fmat n A)) = Ok (PosDefP name n (Fin lb) (fmat n A))) /\
  (forall A, ~ symmetric n A -> posdef_init name n (Fin lb) (Some (fmat n A)) = Raise ValueError) /\
  (forall a, shape a <> [n; n] -> posdef_init name n (Fin lb) (Some a) = Raise ValueError).
Proof.
  intros name n lb H. unfold posdef_init. cbn [nleb]. apply Rleb_true in H. rewrite H. unfold rassert. splits.
  - intros A S. pose proof (proj1 (C26_set (PosDefP name n (Fin lb) (fmat n A)) A) S) as E. cbn [pd_size pd_name pd_lb] in E. rewrite E. reflexivity.
  - intros A S. pose proof (proj1 (proj2 (C26_set (PosDefP name n (Fin lb) (fmat n A)) A)) S) as E. cbn [pd_size] in E. rewrite E. reflexivity.
  - intros a S. rewrite (proj2 (proj2 (C26_set (PosDefP name n (Fin lb) a) (fun _ _ => 0))) a S). reflexivity.
Qed.
Print Assumptions C26_given_value.
Example C26_nonvacuous : let p := PosDefP "m"%string 2 (Fin 1) (fmat 2 (fun i j => 0)) in pd_lb p = Fin 1 /\ length [1; 2; 3] = pd_vec_size p.
Proof. split; reflexivity. Qed.

(** C27 *)
Theorem C27_get_free_iff_posdef : forall p lb A, pd_lb p = Fin lb -> posdef_get p = fmat (pd_size p) A -> symmetric (pd_size p) A ->
  (is_ok (posdef_get_free p) = true <-> posdef (pd_size p) (shifted A lb)) /\
  (~ posdef (pd_size p) (shifted A lb) -> posdef_get_free p = Raise LinAlgError).
Proof.
  intros p lb A Hlb HA HS. unfold posdef_get in HA. unfold posdef_get_free. rewrite HA, Hlb.
  destruct (pack_iff (pd_size p) A lb HS) as [[HP [x [E _]]]|[HN E]]; rewrite E; cbn; split.
  - split; auto.
  - intros; contradiction.
  - split; [discriminate|contradiction].
  - reflexivity.
Qed.
Print Assumptions C27_get_free_iff_posdef.
Example C27_nonvacuous : ~ posdef 1 (shifted (fun _ _ => 1) 1).
Proof.
  intros H. specialize (H (fun _ => 1)). unfold quad, shifted in H. simpl in H.
  assert (0 < 0 + (0 + 1 * (1 - 1) * 1)); [|lra]. apply H. exists 0%nat. split; [lia|lra].
Qed.

(** C28: [slice x (tri n * o) (tri n * o + tri n)] is block number o of the flat vector; [ravel obs s] is the
    row-major number of the index tuple obs. *)
Theorem C28_vector_free : forall p lb, pv_lb p = Fin lb -> (0 < pv_length p)%nat -> let n := pv_size p in
  forall x, length x = pv_free_size p ->
  exists p', pv_set_free p (fvec x) = (p', Ok tt) /\ pv_get_free p' = Ok (fvec x) /\
    nd_wf (pv_val p') /\ shape (pv_val p') = [pv_length p; n; n] /\
    forall o, (o < pv_length p)%nat -> exists M, nd_index (pv_val p') [o] = Ok M /\
      unpack_posdef_matrix (fvec (slice x (tri n * o) (tri n * o + tri n))) (Fin lb) = Ok M.
Proof. exact pv_free_roundtrip. Qed.
Print Assumptions C28_vector_free.
Theorem C28_vector_vector : forall p, (0 < pv_length p)%nat -> let n := pv_size p in
  forall x, length x = pv_vector_size p ->
  exists p', pv_set_vector p (fvec x) = (p', Ok tt) /\ pv_get_vector p' = Ok (fvec x) /\
    nd_wf (pv_val p') /\ shape (pv_val p') = [pv_length p; n; n] /\
    forall o, (o < pv_length p)%nat -> exists M, nd_index (pv_val p') [o] = Ok M /\
      unvectorize_symmetric_matrix (fvec (slice x (tri n * o) (tri n * o + tri n))) = Ok M.
Proof. exact pv_vector_roundtrip. Qed.
Print Assumptions C28_vector_vector.
Theorem C28_vector_value_free : forall p lb, pv_lb p = Fin lb -> (0 < pv_length p)%nat -> let n := pv_size p in
  nd_wf (pv_val p) -> shape (pv_val p) = [pv_length p; n; n] ->
  (forall o, (o < pv_length p)%nat -> exists A, nd_index (pv_val p) [o] = Ok (fmat n A) /\ symmetric n A /\ posdef n (shifted A lb)) ->
  exists f, pv_get_free p = Ok f /\ shape f = [pv_free_size p] /\ pv_set_free p f = (p, Ok tt).
Proof. exact pv_value_roundtrip. Qed.
Print Assumptions C28_vector_value_free.
Theorem C28_vector_value_vector : forall p lb, pv_lb p = Fin lb -> (0 < pv_length p)%nat -> let n := pv_size p in
  nd_wf (pv_val p) -> shape (pv_val p) = [pv_length p; n; n] ->
  (forall o, (o < pv_length p)%nat -> exists A, nd_index (pv_val p) [o] = Ok (fmat n A) /\ symmetric n A) ->
  exists v, pv_get_vector p = Ok v /\ shape v = [pv_vector_size p] /\ pv_set_vector p v = (p, Ok tt).
Proof. exact pv_value_vector_roundtrip. Qed.
Print Assumptions C28_vector_value_vector.
Theorem C28_vector_wrong_length : forall p a,
  (nd_size a <> pv_free_size p -> pv_set_free p a = (p, Raise ValueError)) /\
  (forall m r, shape a = m :: r -> m <> pv_vector_size p -> pv_set_vector p a = (p, Raise ValueError)).
Proof. exact pv_bad_length. Qed.
Print Assumptions C28_vector_wrong_length.
(** the excluded case: with length 0 get_free and get_vector always raise *)
Theorem C28_vector_empty : forall p lb, pv_lb p = Fin lb -> pv_length p = 0%nat ->
  exists p', pv_set_free p (fvec []) = (p', Ok tt) /\ pv_get_free p' = Raise ValueError /\ pv_get_vector p' = Raise ValueError.
Proof. exact pv_empty. Qed.
Print Assumptions C28_vector_empty.
Theorem C28_array_free : forall p lb, pa_lb p = Fin lb -> let n := pa_size p in let s := pa_ashape p in (0 < nprod s)%nat ->
  forall x, length x = pa_free_size p ->
  exists p', pa_set_free p (fvec x) = (p', Ok tt) /\ pa_get_free p' = Ok (fvec x) /\
    nd_wf (pa_val p') /\ shape (pa_val p') = s ++ [n; n] /\
    forall obs, In obs (product s) -> exists M, nd_index (pa_val p') obs = Ok M /\
      unpack_posdef_matrix (fvec (slice x (tri n * ravel obs s) (tri n * ravel obs s + tri n))) (Fin lb) = Ok M.
Proof. exact pa_free_roundtrip. Qed.
Print Assumptions C28_array_free.
Theorem C28_array_vector : forall p, let n := pa_size p in let s := pa_ashape p in (0 < nprod s)%nat ->
  forall x, length x = pa_vector_size p ->
  exists p', pa_set_vector p (fvec x) = (p', Ok tt) /\ pa_get_vector p' = Ok (fvec x) /\
    nd_wf (pa_val p') /\ shape (pa_val p') = s ++ [n; n] /\
    forall obs, In obs (product s) -> exists M, nd_index (pa_val p') obs = Ok M /\
      unvectorize_symmetric_matrix (fvec (slice x (tri n * ravel obs s) (tri n * ravel obs s + tri n))) = Ok M.
Proof. exact pa_vector_roundtrip. Qed.
Print Assumptions C28_array_vector.
Theorem C28_array_value_free : forall p lb, pa_lb p = Fin lb -> let n := pa_size p in let s := pa_ashape p in (0 < nprod s)%nat ->
  nd_wf (pa_val p) -> shape (pa_val p) = s ++ [n; n] ->
  (forall obs, In obs (product s) -> exists A, nd_index (pa_val p) obs = Ok (fmat n A) /\ symmetric n A /\ posdef n (shifted A lb)) ->
  exists f, pa_get_free p = Ok f /\ shape f = [pa_free_size p] /\ pa_set_free p f = (p, Ok tt).
Proof. exact pa_value_roundtrip. Qed.
Print Assumptions C28_array_value_free.
Theorem C28_array_value_vector : forall p lb, pa_lb p = Fin lb -> let n := pa_size p in let s := pa_ashape p in (0 < nprod s)%nat ->
  nd_wf (pa_val p) -> shape (pa_val p) = s ++ [n; n] ->
  (forall obs, In obs (product s) -> exists A, nd_index (pa_val p) obs = Ok (fmat n A) /\ symmetric n A) ->
  exists v, pa_get_vector p = Ok v /\ shape v = [pa_vector_size p] /\ pa_set_vector p v = (p, Ok tt).
Proof. exact pa_value_vector_roundtrip. Qed.
Print Assumptions C28_array_value_vector.
Theorem C28_array_wrong_length : forall p a,
  (nd_size a <> pa_free_size p -> pa_set_free p a = (p, Raise ValueError)) /\
  (forall m r, shape a = m :: r -> m <> pa_vector_size p -> pa_set_vector p a = (p, Raise ValueError)).
Proof. exact pa_bad_length. Qed.
Print Assumptions C28_array_wrong_length.
(** the index tuples are numbered 0, 1, 2, ... in row-major order, so the blocks are disjoint and cover the vector *)
Theorem C28_blocks_cover : forall s, map (fun obs => ravel obs s) (product s) = seq 0 (nprod s).
Proof. exact product_ravel. Qed.
Print Assumptions C28_blocks_cover.
Example C28_nonvacuous :
  let p := PosDefV "v"%string 3 2 (Fin 1) (np_full [3; 2; 2]%nat (Fin 0)) in
  let q := PosDefA "a"%string [2; 3]%nat 2 (Fin 0) (np_full [2; 3; 2; 2]%nat (Fin 0)) in
  pv_lb p = Fin 1 /\ (0 < pv_length p)%nat /\ pv_free_size p = 9%nat /\ (0 < nprod (pa_ashape q))%nat /\ pa_free_size q = 18%nat.
Proof. cbn. splits; try reflexivity; try lia. unfold nprod; cbn; lia. Qed.

(** C29: rejected exactly when every dimension differs. *)
Theorem C29_vector_set : forall p a, length (shape a) = 3%nat ->
  ((forall i, (i < 3)%nat -> nth i (shape a) 0%nat <> nth i (pv_shape p) 0%nat) -> pv_set p a = (p, Raise ValueError)) /\
  ((exists i, (i < 3)%nat /\ nth i (shape a) 0%nat = nth i (pv_shape p) 0%nat) ->
     exists p', pv_set p a = (p', Ok tt) /\ pv_val p' = a).
Proof.
  intros p a H. destruct (shape a) as [|s0 [|s1 [|s2 [|]]]] eqn:Es; try discriminate.
  unfold pv_set, shape_ne_all. rewrite Es. unfold pv_shape. cbn [length Nat.eqb combine forallb fst snd]. split.
  - intros N. pose proof (N 0%nat ltac:(lia)) as N0. pose proof (N 1%nat ltac:(lia)) as N1. pose proof (N 2%nat ltac:(lia)) as N2.
    cbn in N0, N1, N2. apply Nat.eqb_neq in N0, N1, N2. rewrite N0, N1, N2. reflexivity.
  - intros [i [Hi E]].
    assert (B : (negb (Nat.eqb s0 (pv_length p)) && (negb (Nat.eqb s1 (pv_size p)) && (negb (Nat.eqb s2 (pv_size p)) && true)))%bool = false).
    { destruct i as [|[|[|i]]]; [| | |lia]; cbn in E; apply Nat.eqb_eq in E; rewrite E; cbn;
        destruct (Nat.eqb s0 (pv_length p)), (Nat.eqb s1 (pv_size p)); reflexivity. }
    rewrite B. eexists. split; reflexivity.
Qed.
Print Assumptions C29_vector_set.
Theorem C29_array_set : forall p a, length (shape a) = length (pa_shape p) ->
  ((forall i, (i < length (pa_shape p))%nat -> nth i (shape a) 0%nat <> nth i (pa_shape p) 0%nat) -> pa_set p a = (p, Raise ValueError)) /\
  ((exists i, (i < length (pa_shape p))%nat /\ nth i (shape a) 0%nat = nth i (pa_shape p) 0%nat) ->
     exists p', pa_set p a = (p', Ok tt) /\ pa_val p' = a).
Proof.
  intros p a H. unfold pa_set, shape_ne_all. rewrite H, Nat.eqb_refl. split.
  - intros N.
    assert (B : forallb (fun ab => negb (Nat.eqb (fst ab) (snd ab))) (combine (shape a) (pa_shape p)) = true).
    { apply forallb_forall. intros [u v] Hin. apply (In_nth _ _ (0, 0)%nat) in Hin as [i [Hi E]].
      rewrite combine_length, H, Nat.min_id in Hi. rewrite combine_nth in E by exact H. inversion E; subst.
      cbn. apply negb_true_iff, Nat.eqb_neq. apply N, Hi. }
    rewrite B. reflexivity.
  - intros [i [Hi E]].
    assert (B : forallb (fun ab => negb (Nat.eqb (fst ab) (snd ab))) (combine (shape a) (pa_shape p)) = false).
    { apply not_true_is_false. intros B. rewrite forallb_forall in B.
      specialize (B (nth i (shape a) 0%nat, nth i (pa_shape p) 0%nat)). rewrite <- combine_nth in B by exact H.
      specialize (B (nth_In _ _ ltac:(rewrite combine_length, H, Nat.min_id; exact Hi))). rewrite combine_nth in B by exact H. cbn in B.
      rewrite E, Nat.eqb_refl in B. discriminate. }
    rewrite B. eexists. split; reflexivity.
Qed.
Print Assumptions C29_array_set.
(** so a stack of the wrong length is accepted, and its extra matrices are then silently dropped *)
Theorem C29_wrong_length_accepted_refuted : exists p a p' x,
  shape a <> pv_shape p /\ pv_set p a = (p', Ok tt) /\ pv_get_vector p' = Ok (fvec x) /\ length (data a) = 2%nat /\ length x = 1%nat.
Proof.
  exists (PosDefV "v"%string 1 1 (Fin 0) (Nd [1; 1; 1]%nat [Fin 1])), (Nd [2; 1; 1]%nat [Fin 1; Fin 2]).
  exists (PosDefV "v"%string 1 1 (Fin 0) (Nd [2; 1; 1]%nat [Fin 1; Fin 2])), [1].
  splits; try reflexivity. discriminate.
Qed.
Print Assumptions C29_wrong_length_accepted_refuted.
(** both cases of both setters arise: every dimension wrong, and all of them right *)
Example C29_nonvacuous :
  (let p := PosDefV "v"%string 2 1 (Fin 0) (Nd [2; 1; 1]%nat [Fin 1; Fin 1]) in
   pv_shape p = [2; 1; 1]%nat /\ (forall i, (i < 3)%nat -> nth i [3; 2; 2]%nat 0%nat <> nth i (pv_shape p) 0%nat) /\
   exists i, (i < 3)%nat /\ nth i [2; 1; 1]%nat 0%nat = nth i (pv_shape p) 0%nat) /\
  (let p := PosDefA "a"%string [1; 2]%nat 1 (Fin 0) (Nd [1; 2; 1; 1]%nat [Fin 1; Fin 1]) in
   pa_shape p = [1; 2; 1; 1]%nat /\ forall i, (i < length (pa_shape p))%nat -> nth i [2; 3; 2; 2]%nat 0%nat <> nth i (pa_shape p) 0%nat).
Proof.
  split; intros p.
  - split; [reflexivity|]. split; [|exists 0%nat; split; [lia|reflexivity]]. intros [|[|[|i]]] Hi; [discriminate..|lia].
  - split; [reflexivity|]. intros [|[|[|[|i]]]] Hi; [discriminate..|cbn in Hi; lia].
Qed.

(** C30 *)
Theorem C30_matrix : forall p lb x, pd_lb p = Fin lb -> length x = pd_vec_size p ->
  jacobian_of (posdef_free_to_vector p) (pd_vec_size p) (pd_vec_size p) x (posdef_free_to_vector_jac p x) /\
  hessians_of (posdef_free_to_vector p) (pd_vec_size p) (pd_vec_size p) x (posdef_free_to_vector_hess p x).
Proof. exact posdef_derivatives. Qed.
Print Assumptions C30_matrix.
Theorem C30_vector : forall p lb x, pv_lb p = Fin lb -> (0 < pv_length p)%nat -> length x = pv_free_size p ->
  jacobian_of (pv_free_to_vector p) (pv_vector_size p) (pv_free_size p) x (pv_free_to_vector_jac p x) /\
  hessians_of (pv_free_to_vector p) (pv_vector_size p) (pv_free_size p) x (pv_free_to_vector_hess p x).
Proof. exact pv_derivatives. Qed.
Print Assumptions C30_vector.
Theorem C30_array : forall p lb x, pa_lb p = Fin lb -> (0 < nprod (pa_ashape p))%nat -> length x = pa_free_size p ->
  jacobian_of (pa_free_to_vector p) (pa_vector_size p) (pa_free_size p) x (pa_free_to_vector_jac p x) /\
  hessians_of (pa_free_to_vector p) (pa_vector_size p) (pa_free_size p) x (pa_free_to_vector_hess p x).
Proof. exact pa_derivatives. Qed.
Print Assumptions C30_array.
Example C30_nonvacuous :
  (let p := PosDefP "m"%string 2 (Fin 1) (fmat 2 (fun i j => 0)) in pd_lb p = Fin 1 /\ length [1; 2; 3] = pd_vec_size p) /\
  (let p := PosDefV "v"%string 2 2 (Fin (1/2)) (np_full [2; 2; 2]%nat (Fin 1)) in
   pv_lb p = Fin (1/2) /\ (0 < pv_length p)%nat /\ length [1; 2; 3; 4; 5; 6] = pv_free_size p) /\
  (let p := PosDefA "a"%string [1; 2]%nat 2 (Fin 0) (np_full [1; 2; 2; 2]%nat (Fin 1)) in
   pa_lb p = Fin 0 /\ (0 < nprod (pa_ashape p))%nat /\ length [1; 2; 3; 4; 5; 6] = pa_free_size p).
Proof. repeat split; try reflexivity; unfold lt; vm_compute; lia. Qed.
