(** Properties C89-C94: arrays are references, parameter objects can be shared.
    In ModelHeap.v a parameter object holds a reference to an array, arrays are views of buffers, and callers may write
    to any array they hold.  "shows s p" is the parameter tree (ModelDict.v) that the object graph p currently shows. *)
From Coq Require Import String Reals List Bool Arith Lia Lra.
From Verif Require Import Res Num Nd RSum ModelAutograd ModelSparse ModelParameters ModelMatrix ModelSimplex ModelProjection ModelDict ModelHeap.
From Verif Require Import SpecParameters SpecMatrix SpecSimplex SpecProjection SpecDict SpecHeap.
From Verif Require Import LemmasParameters LemmasLeaf LemmasDict LemmasHeap LemmasAlias PropsDict.
Import List ListNotations.
Open Scope nat_scope.
Set Bullet Behavior "Strict Subproofs".

(** C89: without shared objects the calls do what the value model says, and nothing else changes *)
Theorem C89_set_free_refines : forall s p v s' r, sound_store s -> sound_param s p -> NoDup (objects p) -> exists_in s v -> hp_set_free s p v = (s', r) ->
  p_set_free (shows s p) (rdv (s_heap s) v) = (shows s' p, r) /\ sound_store s' /\ sound_param s' p /\ arrays_kept s s' /\
  (forall q, sound_param s q -> (forall o, In o (objects q) -> ~ In o (objects p)) -> shows s' q = shows s q).
Proof. exact set_free_refines. Qed.
Print Assumptions C89_set_free_refines.
Theorem C89_set_vector_refines : forall s p v s' r, sound_store s -> sound_param s p -> NoDup (objects p) -> exists_in s v -> hp_set_vector s p v = (s', r) ->
  p_set_vector (shows s p) (rdv (s_heap s) v) = (shows s' p, r) /\ sound_store s' /\ sound_param s' p /\ arrays_kept s s' /\
  (forall q, sound_param s q -> (forall o, In o (objects q) -> ~ In o (objects p)) -> shows s' q = shows s q).
Proof. exact set_vector_refines. Qed.
Print Assumptions C89_set_vector_refines.
Theorem C89_get_free_refines : forall s p h r, sound_store s -> sound_param s p -> hp_get_free s p = (h, r) ->
  p_get_free (shows s p) = rmap (rdv h) r /\ arrays_kept s (Store h (s_objs s)) /\ (forall q, sound_param s q -> shows (Store h (s_objs s)) q = shows s q).
Proof. exact get_free_refines. Qed.
Print Assumptions C89_get_free_refines.
Theorem C89_get_vector_refines : forall s p h r, sound_store s -> sound_param s p -> hp_get_vector s p = (h, r) ->
  p_get_vector (shows s p) = rmap (rdv h) r /\ arrays_kept s (Store h (s_objs s)) /\ (forall q, sound_param s q -> shows (Store h (s_objs s)) q = shows s q).
Proof. exact get_vector_refines. Qed.
Print Assumptions C89_get_vector_refines.
Theorem C89_push_param_refines : forall s d p, sound_param s d -> sound_param s p ->
  shows s (h_push_param s d p) = fst (push_param (shows s d) (shows s p)) /\ sound_param s (h_push_param s d p) /\
  (forall o, In o (objects (h_push_param s d p)) -> In o (objects d) \/ In o (objects p)).
Proof. exact push_refines. Qed.
Print Assumptions C89_push_param_refines.

(** C90: set_free keeps no reference; get_free and a dictionary's get_vector give none away *)
Theorem C90_set_free_keeps_nothing : forall s p v x, sound_store s -> sound_param s p -> NoDup (objects p) -> exists_in s v -> reachable (shows s p) -> populated (shows s p) ->
  rdv (s_heap s) v = fvec x -> length x = p_free_size (shows s p) ->
  exists s', hp_set_free s p v = (s', Ok tt) /\ forall ws, writes_to_existing s ws -> p_get_free (shows (written s' ws) p) = Ok (fvec x).
Proof. exact set_free_keeps_nothing. Qed.
Print Assumptions C90_set_free_keeps_nothing.
Theorem C90_set_free_isolated : forall s p v s' ws, sound_store s -> sound_param s p -> exists_in s v -> hp_set_free s p v = (s', Ok tt) ->
  writes_to_existing s ws -> shows (written s' ws) p = shows s' p.
Proof. exact set_free_isolated. Qed.
Print Assumptions C90_set_free_isolated.
Theorem C90_get_free_isolated : forall s p h a ws q, sound_store s -> sound_param s p -> sound_param s q -> hp_get_free s p = (h, Ok (PArr a)) ->
  Forall (fun w => a_buf (w_array w) = a_buf a) ws -> shows (written (Store h (s_objs s)) ws) q = shows s q.
Proof. exact get_free_isolated. Qed.
Print Assumptions C90_get_free_isolated.
Theorem C90_get_vector_isolated : forall s nm es fi vi fs vs h a ws q, sound_store s -> sound_param s (HDict nm es fi vi fs vs) -> sound_param s q ->
  hp_get_vector s (HDict nm es fi vi fs vs) = (h, Ok (PArr a)) ->
  Forall (fun w => a_buf (w_array w) = a_buf a) ws -> shows (written (Store h (s_objs s)) ws) q = shows s q.
Proof. exact get_vector_isolated. Qed.
Print Assumptions C90_get_vector_isolated.

(** C91: after set_vector the entries of the classes that store their values as they are follow the caller's array *)
Theorem C91_set_vector_follows : forall s p b il x, sound_store s -> sound_param s p -> NoDup (objects p) -> b < length (s_heap s) -> reachable (shows s p) -> populated (shows s p) ->
  rd (s_heap s) (ARef b (nd_vec il)) = fvec x -> length x = p_vector_size (shows s p) ->
  exists s', hp_set_vector s p (PArr (ARef b (nd_vec il))) = (s', Ok tt) /\
    forall ws, writes_to_existing s ws ->
      p_get_vector (shows (written s' ws) p) =
        Ok (nd_vec (overlay (live_positions (shows s p)) (data (rd (s_heap (written s' ws)) (ARef b (nd_vec il)))) (map Fin x))).
Proof. exact set_vector_follows. Qed.
Print Assumptions C91_set_vector_follows.

(** C92: a write to the array get returned changes the parameter; so does one to the array get_vector returned, for the classes of hands_out *)
Theorem C92_get_aliases : forall s o a k x, h_get s o = PArr a -> proper_array s a -> k < length (data (a_idx a)) ->
  leaf_get (cur (written s [(a, k, x)]) o) = Nd (shape (leaf_get (cur s o))) (upd (data (leaf_get (cur s o))) k x).
Proof. exact get_aliases. Qed.
Print Assumptions C92_get_aliases.
Theorem C92_get_vector_aliases : forall s o h a g k x, sound_store s -> o < length (s_objs s) -> h_get s o = PArr a -> proper_array s a -> h_get_vector s o = (h, Ok (PArr g)) ->
  k < length (data (a_idx a)) ->
  leaf_get (cur (written (Store h (s_objs s)) [(g, k, x)]) o) =
    if hands_out (cur s o) then Nd (shape (leaf_get (cur s o))) (upd (data (leaf_get (cur s o))) k x) else leaf_get (cur s o).
Proof. exact get_vector_aliases. Qed.
Print Assumptions C92_get_vector_aliases.

(** C93: one object at several places of the tree: the last slice wins, and the round trip holds iff the slices agree *)
Theorem C93_shared_objects : forall s p b il x, sound_store s -> sound_param s p -> b < length (s_heap s) -> reachable (shows s p) -> populated (shows s p) ->
  rd (s_heap s) (ARef b (nd_vec il)) = fvec x -> length x = p_free_size (shows s p) ->
  exists s', hp_set_free s p (PArr (ARef b (nd_vec il))) = (s', Ok tt) /\
    (forall o i, last_slice (occurrences s p 0) o i -> leaf_get_free (cur s' o) = Ok (fvec (slice x i (i + leaf_free_size (cur s o))))) /\
    (p_get_free (shows s' p) = Ok (fvec x) <->
     forall o i j, In (o, i) (occurrences s p 0) -> In (o, j) (occurrences s p 0) ->
       slice x i (i + leaf_free_size (cur s o)) = slice x j (j + leaf_free_size (cur s o))).
Proof. exact shared_objects. Qed.
Print Assumptions C93_shared_objects.

(** C94: a deep copy shows the same and shares nothing; make_index_param leaves the original alone *)
Theorem C94_deepcopy : forall s p s' q, sound_store s -> sound_param s p -> h_deepcopy s p = (s', q) ->
  shows s' q = shows s p /\ sound_store s' /\ sound_param s' q /\ arrays_kept s s' /\ (NoDup (objects p) -> NoDup (objects q)) /\
  (forall r, sound_param s r -> sound_param s' r /\ shows s' r = shows s r /\ forall o, In o (objects r) -> ~ In o (objects q)).
Proof. exact deepcopy_ok. Qed.
Print Assumptions C94_deepcopy.
Theorem C94_make_index_param : forall s p s' q r, sound_store s -> sound_param s p -> NoDup (objects p) -> h_make_index_param s p = (s', q, r) ->
  make_index_param (shows s p) = (shows s' q, r) /\ sound_store s' /\ sound_param s' q /\ arrays_kept s s' /\
  (forall t, sound_param s t -> shows s' t = shows s t /\ forall o, In o (objects t) -> ~ In o (objects q)).
Proof. exact make_index_refines. Qed.
Print Assumptions C94_make_index_param.

(** the dictionary ex_dict of PropsDict.v as an object graph: the scalar holds a number, the vector the array 0, the
    matrix the array 1; the caller has two vectors of length six, the arrays 2 and 3 *)
Definition ex_store : store := Store
  [map Fin [1; 3]%R; map Fin [1; 0; 0; 1]%R; map Fin [2; 7; 5; 1; 0; 4]%R; map Fin [9; 9; 9; 9; 9; 9]%R]
  [Obj (LScalar (ScalarP "s" (Fin 0) PInf (nd_scalar (Fin 2)))) (PNum (Fin 2));
   Obj (LVector (VectorP "v" 2 NInf PInf (fvec [1; 3]%R))) (PArr (ARef 0 (nd_vec [0; 1])));
   Obj (LPosDef (PosDefP "m" 2 (Fin 0) (fmat 2 (fun i j => if Nat.eqb i j then 1%R else 0%R)))) (PArr (ARef 1 (Nd [2; 2] [0; 1; 2; 3])))].
Definition ex_graph : hparam :=
  h_push_param ex_store (h_push_param ex_store (HDict "outer" [] [] [] 0 0) (HLeaf 0))
    (h_push_param ex_store (h_push_param ex_store (HDict "inner" [] [] [] 0 0) (HLeaf 1)) (HLeaf 2)).
Definition ex_caller : aref := ARef 2 (nd_vec [0; 1; 2; 3; 4; 5]).
Definition ex_x : list R := [2; 7; 5; 1; 0; 4]%R.
Example ex_graph_shows : shows ex_store ex_graph = ex_dict.
Proof. reflexivity. Qed.
Example ex_graph_sound : sound_store ex_store /\ sound_param ex_store ex_graph /\ NoDup (objects ex_graph) /\ exists_in ex_store (PArr ex_caller) /\
  reachable (shows ex_store ex_graph) /\ populated (shows ex_store ex_graph) /\
  rd (s_heap ex_store) ex_caller = fvec ex_x /\ length ex_x = p_free_size (shows ex_store ex_graph) /\ length ex_x = p_vector_size (shows ex_store ex_graph).
Proof.
  rewrite ex_graph_shows. splits; try reflexivity.
  - intros o Ho. cbn in Ho. destruct o as [|[|[|o]]]; cbn; try exact I; lia.
  - intros o [<-|[<-|[<-|[]]]]; cbn; lia.
  - repeat constructor; cbn; intuition discriminate.
  - cbn. lia.
  - apply ex_dict_reachable.
  - apply ex_dict_populated.
Qed.
(** C90 and C91 for it: after the call the caller overwrites entries 1 and 4 of the array *)
Definition ex_writes : list write := [(ex_caller, 1, Fin 8); (ex_caller, 4, Fin 6)].
Example ex_set_free : exists s', hp_set_free ex_store ex_graph (PArr ex_caller) = (s', Ok tt) /\
  p_get_free (shows (written s' ex_writes) ex_graph) = Ok (fvec [2; 7; 5; 1; 0; 4]%R).
Proof.
  destruct ex_graph_sound as (A & B & C & D & E & F & G & H & K). destruct (C90_set_free_keeps_nothing ex_store ex_graph (PArr ex_caller) ex_x A B C D E F G H) as [s' [S1 S2]].
  exists s'. split; [exact S1|]. apply S2. repeat constructor.
Qed.
(** the vector sees the write, the matrix does not *)
Example ex_set_vector : exists s', hp_set_vector ex_store ex_graph (PArr ex_caller) = (s', Ok tt) /\
  p_get_vector (shows (written s' ex_writes) ex_graph) = Ok (fvec [2; 8; 5; 1; 0; 4]%R) /\ live_positions (shows ex_store ex_graph) = [true; true; true; false; false; false].
Proof.
  destruct ex_graph_sound as (A & B & C & D & E & F & G & H & K). destruct (C91_set_vector_follows ex_store ex_graph 2 [0; 1; 2; 3; 4; 5] ex_x A B C D E F G K) as [s' [S1 S2]].
  exists s'. splits; [exact S1| |reflexivity]. rewrite S2 by (repeat constructor). rewrite ex_graph_shows.
  assert (KA : arrays_kept ex_store s') by (apply (C89_set_vector_refines ex_store ex_graph (PArr ex_caller) s' (Ok tt) A B C D S1)).
  destruct (KA (PArr ex_caller) D) as [K1 K2]. cbn in K1, K2.
  assert (BU : buffer (after_writes (s_heap s') ex_writes) 2 = map Fin [2; 8; 5; 1; 6; 4]%R).
  { assert (BL : buffer (s_heap s') 2 = buffer (s_heap ex_store) 2).
    { destruct (set_vector_steps ex_graph ex_store (PArr ex_caller) s' (Ok tt) A B D S1) as (EX & _). apply (ext_buffer _ _ 2 EX D). }
    unfold ex_writes, after_writes. cbn [fold_left w_array fst snd]. unfold poke. cbn [ex_caller a_idx a_buf nd_vec data nth_error].
    unfold buffer at 1. rewrite nth_upd_same by (rewrite upd_length; exact K1). unfold buffer at 1. rewrite nth_upd_same by exact K1. rewrite BL. reflexivity. }
  rewrite rd_vec. unfold at_pos. cbn [written s_heap]. rewrite BU. reflexivity.
Qed.
(** C92: the hypotheses, and what it means: the write puts a value outside the bounds into a parameter that has them *)
Definition ex_bounded : store := Store [map Fin [1; 3]%R] [Obj (LVector (VectorP "v" 2 (Fin 0) PInf (fvec [1; 3]%R))) (PArr (ARef 0 (nd_vec [0; 1])))].
Example ex_alias : h_get ex_bounded 0 = PArr (ARef 0 (nd_vec [0; 1])) /\ proper_array ex_bounded (ARef 0 (nd_vec [0; 1])) /\
  leaf_get (cur (written ex_bounded [(ARef 0 (nd_vec [0; 1]), 1, Fin (-5))]) 0) = fvec [1; -5]%R /\
  h_get_vector ex_bounded 0 = (s_heap ex_bounded, Ok (PArr (ARef 0 (nd_vec [0; 1])))) /\ hands_out (cur ex_bounded 0) = true.
Proof.
  splits; try reflexivity. unfold proper_array. splits; [cbn; lia|repeat constructor; cbn; intuition discriminate|repeat constructor].
Qed.
Example ex_no_alias : exists h, h_get_vector ex_store 2 = (h, Ok (PArr (ARef 4 (nd_vec [0; 1; 2])))) /\ h_get ex_store 2 = PArr (ARef 1 (Nd [2; 2] [0; 1; 2; 3])) /\
  hands_out (cur ex_store 2) = false.
Proof. eexists. splits; reflexivity. Qed.
(** C93: the vector in two dictionaries of one parent *)
Definition ex_shared : hparam :=
  h_push_param ex_store (h_push_param ex_store (HDict "both" [] [] [] 0 0) (h_push_param ex_store (HDict "a" [] [] [] 0 0) (HLeaf 1)))
    (h_push_param ex_store (HDict "b" [] [] [] 0 0) (HLeaf 1)).
Example ex_shared_ok : sound_param ex_store ex_shared /\ objects ex_shared = [1; 1] /\ reachable (shows ex_store ex_shared) /\ populated (shows ex_store ex_shared) /\
  p_free_size (shows ex_store ex_shared) = 4 /\ occurrences ex_store ex_shared 0 = [(1, 0); (1, 2)] /\ last_slice (occurrences ex_store ex_shared 0) 1 2 /\
  rd (s_heap ex_store) (ARef 2 (nd_vec [0; 1; 2; 3])) = fvec [2; 7; 5; 1]%R /\ slice [2; 7; 5; 1]%R 0 2 <> slice [2; 7; 5; 1]%R 2 4.
Proof.
  assert (RV : reachable ex_vector).
  { apply reach_leaf. apply (con_vector "v" 2 NInf PInf (Some (fvec [1; 3]%R))).
    - intros a E. injection E as <-. reflexivity.
    - unfold vector_init. reflexivity. }
  assert (RD : forall n, reachable (fst (push_param (dict_init n) ex_vector))).
  { intros n. apply (reach_push (dict_init n) ex_vector); [apply reach_dict|exact RV|reflexivity|reflexivity]. }
  splits; try reflexivity.
  - intros o [<-|[<-|[]]]; cbn; lia.
  - change (shows ex_store ex_shared) with (fst (push_param (fst (push_param (dict_init "both") (fst (push_param (dict_init "a") ex_vector)))) (fst (push_param (dict_init "b") ex_vector)))).
    eapply reach_push; [eapply reach_push; [apply (reach_dict "both")|apply (RD "a"%string)|reflexivity|reflexivity]|apply (RD "b"%string)|reflexivity|reflexivity].
  - cbn. splits; try exact I; discriminate.
  - exists [(1, 0)], []. split; [reflexivity|]. intros [].
  - cbn. intros E. injection E as E _. lra.
Qed.
(** C94 *)
Example ex_copy : objects (snd (h_deepcopy ex_store ex_graph)) = [3; 4; 5] /\ length (s_heap (fst (h_deepcopy ex_store ex_graph))) = 8 /\ NoDup (objects ex_graph).
Proof. splits; try reflexivity. apply ex_graph_sound. Qed.
