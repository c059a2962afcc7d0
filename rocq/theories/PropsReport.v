(** Properties C95-C99: names(), dictval(), the views of dictionaries, safe_matmul and compress, Timer. *)
From Coq Require Import String Ascii Reals List Bool Arith Lia Lra.
From Verif Require Import Res Num Nd RSum ModelAutograd ModelSparse ModelParameters ModelMatrix ModelSimplex ModelProjection ModelDict ModelObjective ModelReport.
From Verif Require Import SpecParameters SpecMatrix SpecSimplex SpecProjection SpecDict SpecReport.
From Verif Require Import LemmasParameters LemmasLeaf LemmasDict LemmasReport PropsDict.
Import List ListNotations.
Open Scope nat_scope.
Set Bullet Behavior "Strict Subproofs".

(** C95: names() lists the labels of the parameters from left to right; it raises exactly when a dictionary is empty *)
Theorem C95_names : forall p, (populated p -> exists ns, p_names p = Ok ns /\
     length (names_1d ns) = fold_right Nat.add 0 (map label_count (leaves p)) /\
     forall i l k, position label_count (leaves p) i l k -> is_label l k (nth i (names_1d ns) EmptyString)) /\
  (~ populated p -> p_names p = Raise ValueError).
Proof. exact names_spec. Qed.
Print Assumptions C95_names.

(** with one label per entry, name i belongs to entry i of get_vector() *)
Theorem C95_names_match_vector : forall p a, reachable p -> all_leaves one_label_per_entry p -> p_get_vector p = Ok a -> length (shape a) <= 1 ->
  exists ns, p_names p = Ok ns /\ length (names_1d ns) = p_vector_size p /\ length (data a) = p_vector_size p /\
    forall i, i < p_vector_size p -> exists l k, position leaf_vector_size (leaves p) i l k /\
      is_label l k (nth i (names_1d ns) EmptyString) /\ nth_error (data a) i = nth_error (data (leaf_get l)) k.
Proof. exact names_match. Qed.
Print Assumptions C95_names_match_vector.
Theorem C95_names_distinct : forall p ns, p_names p = Ok ns -> NoDup (map leaf_name (leaves p)) ->
  Forall (fun l => no_underscore (leaf_name l)) (leaves p) -> NoDup (names_1d ns).
Proof. exact names_distinct. Qed.
Print Assumptions C95_names_distinct.

(** what C95 cannot promise: names of different parameters can coincide, and an array has one name for all its entries *)
Definition ex_a0 := Leaf (LScalar (ScalarP "a_0" NInf PInf (nd_scalar (Fin 2)))).
Definition ex_a := Leaf (LVector (VectorP "a" 2 NInf PInf (fvec [1; 3]%R))).
Definition ex_clash := fst (push_param (fst (push_param (dict_init "d") ex_a0)) ex_a).
Definition ex_array := Leaf (LArray (ArrayP "r" [2; 3] NInf PInf (Nd [2; 3] (map Fin [0; 1; 2; 3; 4; 5]%R)))).
Lemma ex_clash_reachable : reachable ex_clash.
Proof.
  assert (A : reachable ex_a0).
  { apply reach_leaf. apply (con_scalar "a_0" NInf PInf (Some (nd_scalar (Fin 2)))); [intros a Q; injection Q as <-; reflexivity|].
    unfold scalar_init, scalar_set. cbn. reflexivity. }
  assert (B : reachable ex_a).
  { apply reach_leaf. apply (con_vector "a" 2 NInf PInf (Some (fvec [1; 3]%R))); [intros a Q; injection Q as <-; reflexivity|].
    unfold vector_init, vector_set. cbn. reflexivity. }
  unfold ex_clash. eapply reach_push; [eapply reach_push; [apply reach_dict|exact A|reflexivity|reflexivity]|exact B|reflexivity|reflexivity].
Qed.
Lemma ex_array_reachable : reachable ex_array.
Proof.
  apply reach_leaf. apply (con_array "r" [2; 3] NInf PInf (Some (Nd [2; 3] (map Fin [0; 1; 2; 3; 4; 5]%R)))); [intros a Q; injection Q as <-; reflexivity|].
  unfold array_init, array_set. cbn. reflexivity.
Qed.
Theorem C95_names_ambiguous_refuted : ~ (forall p ns, reachable p -> populated p -> p_names p = Ok ns -> NoDup (names_1d ns)).
Proof.
  intros H. assert (Q := H ex_clash (NameList ["a_0"; "a_0"; "a_1"]%string) ex_clash_reachable).
  assert (P : populated ex_clash) by (cbn; repeat split; discriminate). specialize (Q P eq_refl). cbn in Q. inversion Q as [|? ? N _]. apply N. left. reflexivity.
Qed.
Print Assumptions C95_names_ambiguous_refuted.
Theorem C95_names_length_refuted : ~ (forall p ns, reachable p -> populated p -> p_names p = Ok ns -> length (names_1d ns) = p_vector_size p).
Proof. intros H. assert (Q := H ex_array (NameStr "r") ex_array_reachable I eq_refl). discriminate Q. Qed.
Print Assumptions C95_names_length_refuted.
Example C95_example : p_names ex_dict = Ok (NameList ["s"; "v_0"; "v_1"; "m"]%string) /\ numbered "v" 12 <> [] /\ nth 11 (numbered "v" 12) EmptyString = "v_11"%string.
Proof. repeat split. discriminate. Qed.
Example C95_example_match : all_leaves one_label_per_entry ex_clash /\ p_get_vector ex_clash = Ok (nd_vec (map Fin [2; 1; 3]%R)).
Proof. split; [cbn; auto|reflexivity]. Qed.
Example C95_example_distinct : NoDup (map leaf_name (leaves ex_dict)) /\ Forall (fun l => no_underscore (leaf_name l)) (leaves ex_dict).
Proof.
  split; [repeat constructor; cbn; intuition discriminate|]. repeat constructor; cbn; intros E; discriminate E.
Qed.
Example C95_example_empty : p_names (dict_init "d") = Raise ValueError /\ ~ populated (dict_init "d").
Proof. split; [reflexivity|]. intros [N _]. exact (N eq_refl). Qed.

(** C96: dictval() of a dictionary maps every current name to the report of the last member of that name; a leaf is reported as nested lists *)
Theorem C96_dictval_lookup : forall d, is_dict d = true -> exists kvs, p_dictval d = ODict kvs /\ NoDup (map fst kvs) /\
  (forall k q, last_named (p_entries d) k q -> od_get kvs k = Some (p_dictval q)) /\
  (forall k, ~ In k (map (fun e => p_name (snd e)) (p_entries d)) -> od_get kvs k = None).
Proof. exact dictval_lookup. Qed.
Print Assumptions C96_dictval_lookup.
Theorem C96_dictval_leaf : forall l idx, nd_wf (leaf_get l) ->
  (Forall2 lt idx (shape (leaf_get l)) -> exists x, entry_of (p_dictval (Leaf l)) idx = Some x /\ nth_error (data (leaf_get l)) (ravel idx (shape (leaf_get l))) = Some x) /\
  (~ Forall2 lt idx (shape (leaf_get l)) -> entry_of (p_dictval (Leaf l)) idx = None).
Proof. exact dictval_leaf. Qed.
Print Assumptions C96_dictval_leaf.

(** equal reports mean equal values at every path, as long as no member was renamed *)
Theorem C96_dictval_faithful : forall p p', reachable p -> reachable p' -> names_are_keys p -> names_are_keys p' ->
  all_leaves has_entries p -> all_leaves has_entries p' -> p_dictval p = p_dictval p' ->
  forall path l, p_at p path = Ok (Leaf l) -> exists l', p_at p' path = Ok (Leaf l') /\ leaf_get l' = leaf_get l.
Proof. exact dictval_faithful. Qed.
Print Assumptions C96_dictval_faithful.

(** renaming a member in place can hide another member's values *)
Definition ex_two := fst (push_param (fst (push_param (dict_init "d") ex_a0)) (fst (push_param (dict_init "e") ex_a))).
Definition ex_renamed := d_replace ex_two "e" (fst (set_name (fst (push_param (dict_init "e") ex_a)) "a_0")).
Theorem C96_renamed_refuted : ~ (forall p, reachable p -> populated p -> forall k q, d_getitem p k = Ok q ->
  exists kvs key, p_dictval p = ODict kvs /\ In (key, p_dictval q) kvs).
Proof.
  intros H.
  assert (A : reachable ex_a0) by (apply reach_leaf; apply (con_scalar "a_0" NInf PInf (Some (nd_scalar (Fin 2)))); [intros a Q; injection Q as <-; reflexivity|]; unfold scalar_init, scalar_set; cbn; reflexivity).
  assert (B : reachable ex_a) by (apply reach_leaf; apply (con_vector "a" 2 NInf PInf (Some (fvec [1; 3]%R))); [intros a Q; injection Q as <-; reflexivity|]; unfold vector_init, vector_set; cbn; reflexivity).
  assert (C : reachable (fst (push_param (dict_init "e") ex_a))) by (eapply reach_push; [apply reach_dict|exact B|reflexivity|reflexivity]).
  assert (R : reachable ex_renamed).
  { eapply reach_call; [|unfold ex_renamed; eapply call_member; [reflexivity|apply call_set_name]].
    unfold ex_two. eapply reach_push; [eapply reach_push; [apply reach_dict|exact A|reflexivity|reflexivity]|exact C|reflexivity|reflexivity]. }
  assert (P : populated ex_renamed) by (cbn; repeat split; discriminate).
  destruct (H ex_renamed R P "a_0"%string ex_a0 eq_refl) as (kvs & key & E & I). cbn in E. injection E as <-. destruct I as [I|[]]. discriminate I.
Qed.
Print Assumptions C96_renamed_refuted.
Example C96_example : p_dictval ex_dict = ODict [("s", ONum (Fin 2)); ("inner", ODict [("v", OList [ONum (Fin 1); ONum (Fin 3)]);
  ("m", OList [OList [ONum (Fin 1); ONum (Fin 0)]; OList [ONum (Fin 0); ONum (Fin 1)]])])]%string%R.
Proof. reflexivity. Qed.
Example C96_example_keys : names_are_keys ex_dict /\ all_leaves has_entries ex_dict /\ last_named (p_entries ex_dict) "s" ex_scalar.
Proof.
  split; [cbn; repeat split|]. split.
  - change (all_leaves has_entries ex_dict) with (has_entries (LScalar (ScalarP "s" (Fin 0) PInf (nd_scalar (Fin 2)))) /\
      (has_entries (LVector (VectorP "v" 2 NInf PInf (fvec [1; 3]%R))) /\ has_entries (LPosDef (PosDefP "m" 2 (Fin 0) (fmat 2 (fun i j => if Nat.eqb i j then 1%R else 0%R)))) /\ True) /\ True).
    unfold has_entries, nd_wf, nd_size, nprod. cbn. repeat split; lia.
  - unfold last_named. exists (@nil (string * param)), "s"%string, [("inner"%string, ex_inner)]. split; [reflexivity|]. split; [reflexivity|]. repeat constructor. discriminate.
Qed.

(** C97: reading and writing through d.get()[k1]...[kn] *)
Theorem C97_view_read : forall p path, forall v, view_at (p_get p) path = Ok v <-> exists q, p_at p path = Ok q /\ v = p_get q.
Proof. exact view_read. Qed.
Print Assumptions C97_view_read.
Theorem C97_view_write : forall d path k a, forall d' r, view_set_at d path k a = (d', r) ->
  (forall e, r = Raise e -> d' = d) /\
  (r = Ok tt -> exists l l', p_at d (path ++ [k]) = Ok (Leaf l) /\ leaf_set l a = (l', Ok tt) /\ p_at d' (path ++ [k]) = Ok (Leaf l')) /\
  (forall l l', p_at d (path ++ [k]) = Ok (Leaf l) -> leaf_set l a = (l', Ok tt) -> r = Ok tt) /\
  (forall other, diverge other (path ++ [k]) -> p_at d' other = p_at d other).
Proof. exact view_write. Qed.
Print Assumptions C97_view_write.

(** which exception it is *)
Theorem C97_view_errors : forall d path k a, is_dict d = true ->
  (forall pre k' post q, path ++ [k] = pre ++ k' :: post -> p_at d pre = Ok q -> is_dict q = true -> d_getitem q k' = Raise KeyError ->
     snd (view_set_at d path k a) = Raise KeyError) /\
  (forall pre k' post l, path ++ [k] = pre ++ k' :: post -> p_at d pre = Ok (Leaf l) -> (forall p, l <> LScalar p) ->
     snd (view_set_at d path k a) = Raise IndexError) /\
  (forall l e, p_at d (path ++ [k]) = Ok (Leaf l) -> snd (leaf_set l a) = Raise e -> snd (view_set_at d path k a) = Raise e) /\
  (forall q, p_at d (path ++ [k]) = Ok q -> is_dict q = true -> snd (view_set_at d path k a) = Raise AttributeError).
Proof. exact view_errors. Qed.
Print Assumptions C97_view_errors.
(** the same for reading: a name that is not in the dictionary reached so far, or a name asked of an array *)
Theorem C97_view_read_errors : forall p pre k post,
  (forall d, p_at p pre = Ok d -> is_dict d = true -> d_getitem d k = Raise KeyError -> view_at (p_get p) (pre ++ k :: post) = Raise KeyError) /\
  (forall l, p_at p pre = Ok (Leaf l) -> (forall q, l <> LScalar q) -> view_at (p_get p) (pre ++ k :: post) = Raise IndexError).
Proof. exact view_read_errors. Qed.
Print Assumptions C97_view_read_errors.
Example C97_read_errors_example : view_at (p_get ex_dict) ["inner"; "w"; "x"]%string = Raise KeyError /\ view_at (p_get ex_dict) ["inner"; "v"; "x"]%string = Raise IndexError.
Proof. split; reflexivity. Qed.
Example C97_example : view_at (p_get ex_dict) ["inner"; "v"]%string = Ok (VArr (fvec [1; 3]%R)) /\
  snd (view_set_at ex_dict ["inner"]%string "v" (fvec [7; 8]%R)) = Ok tt /\
  view_at (p_get (fst (view_set_at ex_dict ["inner"]%string "v" (fvec [7; 8]%R)))) ["inner"; "v"]%string = Ok (VArr (fvec [7; 8]%R)) /\
  snd (view_set_at ex_dict ["inner"]%string "v" (fvec [7]%R)) = Raise ValueError /\ diverge ["s"]%string ["inner"; "v"]%string.
Proof. repeat split. left. discriminate. Qed.
Open Scope R_scope.

(** C98: safe_matmul is the matrix product for dense and sparse arguments; compress drops the axes of length 1 *)
Theorem C98_safe_matmul_vector : forall M x, m_ok M ->
  (m_cols M <> length x -> safe_matmul_vec M x = Raise ValueError) /\
  (m_cols M = length x -> exists y, safe_matmul_vec M x = Ok y /\ length y = m_rows M /\
     forall i, (i < m_rows M)%nat -> nth i y 0 = rsum (length x) (fun k => m_entry M i k * nth k x 0)).
Proof. exact safe_matmul_vec_spec. Qed.
Print Assumptions C98_safe_matmul_vector.
Theorem C98_safe_matmul : forall M N, m_ok M -> m_ok N ->
  (m_cols M <> m_rows N -> safe_matmul M N = Raise ValueError) /\
  (m_cols M = m_rows N -> exists P, safe_matmul M N = Ok P /\ m_ok P /\ m_rows P = m_rows M /\ m_cols P = m_cols N /\
     forall i j, (i < m_rows M)%nat -> (j < m_cols N)%nat -> m_entry P i j = rsum (m_cols M) (fun k => m_entry M i k * m_entry N k j)).
Proof. exact safe_matmul_spec. Qed.
Print Assumptions C98_safe_matmul.
Theorem C98_compress : forall M, nd_wf (compress M) /\ shape (compress M) = filter (fun n => negb (Nat.eqb n 1)) [m_rows M; m_cols M] /\
  forall i j, (i < m_rows M)%nat -> (j < m_cols M)%nat -> nth_error (data (compress M)) (i * m_cols M + j) = Some (m_entry M i j).
Proof. exact compress_spec. Qed.
Print Assumptions C98_compress.
Theorem C98_compress_array : forall A (a : nd A), nd_wf a -> nd_wf (compress_array a) /\ data (compress_array a) = data a /\
  shape (compress_array a) = filter (fun n => negb (Nat.eqb n 1)) (shape a) /\ compress_array (compress_array a) = compress_array a.
Proof. exact @compress_array_spec. Qed.
Print Assumptions C98_compress_array.
Example C98_example : m_ok (SparseM (Coo (2, 3)%nat [((0, 1)%nat, 2); ((0, 1)%nat, 3); ((1, 2)%nat, 4)])) /\
  m_entry (SparseM (Coo (2, 3)%nat [((0, 1)%nat, 2); ((0, 1)%nat, 3); ((1, 2)%nat, 4)])) 0 1 = 5 /\
  shape (compress (SparseM (Coo (1, 3)%nat []))) = [3%nat].
Proof.
  split; [|split].
  - intros r c v [E|[E|[E|[]]]]; injection E as <- <- _; cbn; lia.
  - cbn. lra.
  - reflexivity.
Qed.

(** C99: time_dict[name] is the time from the last tic() before the last toc(name) to that toc; toc() raises before the first tic() *)
Theorem C99_timer : forall ops name d, od_get (tm_dict (timer_run ops)) name = Some d <->
  exists before after now t0, ops = before ++ Toc name now :: after /\ (forall now', ~ In (Toc name now') after) /\
    last_tic before = Some t0 /\ d = now - t0.
Proof. exact timer_spec. Qed.
Print Assumptions C99_timer.
Theorem C99_timer_raises : forall ops name now, snd (timer_toc (timer_run ops) name now) = Raise AttributeError <-> last_tic ops = None.
Proof. exact timer_raises. Qed.
Print Assumptions C99_timer_raises.
Example C99_example : od_get (tm_dict (timer_run [Tic 1; Toc "a" 3; Toc "b" 4; Tic 5; Toc "a" 9])) "a" = Some (9 - 5) /\
  od_get (tm_dict (timer_run [Tic 1; Toc "a" 3; Toc "b" 4; Tic 5; Toc "a" 9])) "b" = Some (4 - 1) /\ last_tic [] = None.
Proof. repeat split. Qed.
