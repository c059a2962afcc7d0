(** Heap, views and object graphs (C89-C93). *)
From Coq Require Import String Reals List Bool Arith Lia.
From Verif Require Import Res Num Nd RSum ModelAutograd ModelSparse ModelParameters ModelMatrix ModelSimplex ModelProjection ModelDict ModelHeap.
From Verif Require Import SpecParameters SpecMatrix SpecSimplex SpecProjection SpecDict SpecHeap.
From Verif Require Import LemmasParameters LemmasLeaf LemmasDict.
Import List ListNotations.
Open Scope nat_scope.
Set Bullet Behavior "Strict Subproofs".

(** ---- naturality of views ---- *)
Lemma nd_size_map {A B} (f : A -> B) a : nd_size (nd_map f a) = nd_size a.
Proof. reflexivity. Qed.
Lemma np_slice_map {A B} (f : A -> B) a lo hi : np_slice (nd_map f a) lo hi = rmap (nd_map f) (np_slice a lo hi).
Proof.
  unfold np_slice, nd_map. cbn [shape data]. destruct (shape a) as [|n rest]; [reflexivity|].
  cbn [rmap shape data]. rewrite slice_map. reflexivity.
Qed.
Lemma np_reshape_map {A B} (f : A -> B) a s : np_reshape (nd_map f a) s = rmap (nd_map f) (np_reshape a s).
Proof. unfold np_reshape, nd_map, nd_size. cbn [shape data]. destruct (Nat.eqb _ _); reflexivity. Qed.
Lemma nd_map_map {A B C} (g : B -> C) (f : A -> B) a : nd_map g (nd_map f a) = nd_map (fun x => g (f x)) a.
Proof. unfold nd_map. cbn. rewrite map_map. reflexivity. Qed.

(** ---- updating lists ---- *)
Lemma upd_length {A} (l : list A) i x : length (upd l i x) = length l.
Proof. revert i. induction l as [|y l IH]; intros [|i]; cbn; congruence. Qed.
Lemma nth_upd_same {A} (l : list A) i x d : i < length l -> nth i (upd l i x) d = x.
Proof. revert i. induction l as [|y l IH]; intros [|i] H; cbn in *; try lia; [reflexivity|]. apply IH. lia. Qed.
Lemma nth_upd_other {A} (l : list A) i j x d : i <> j -> nth j (upd l i x) d = nth j l d.
Proof. revert i j. induction l as [|y l IH]; intros [|i] [|j] H; cbn; try reflexivity; try congruence. apply IH. congruence. Qed.

(** ---- heaps that only grow ---- *)
Definition ext (h h' : heap) : Prop := exists e, h' = h ++ e.
Lemma ext_refl h : ext h h. Proof. exists []. rewrite app_nil_r. reflexivity. Qed.
Lemma ext_trans h1 h2 h3 : ext h1 h2 -> ext h2 h3 -> ext h1 h3.
Proof. intros [e ->] [e' ->]. exists (e ++ e'). rewrite app_assoc. reflexivity. Qed.
Lemma ext_alloc h v : ext h (fst (alloc h v)). Proof. exists [data v]. reflexivity. Qed.
Lemma ext_length h h' : ext h h' -> length h <= length h'. Proof. intros [e ->]. rewrite app_length. lia. Qed.
Lemma ext_buffer h h' b : ext h h' -> b < length h -> buffer h' b = buffer h b.
Proof. intros [e ->] H. unfold buffer. apply app_nth1. exact H. Qed.
Definition in_heap (h : heap) (v : pyval) : Prop := match v with PNum _ => True | PArr a => a_buf a < length h end.
Lemma in_heap_ext h h' v : ext h h' -> in_heap h v -> in_heap h' v.
Proof. intros E. destruct v as [x|a]; cbn; [trivial|]. pose proof (ext_length _ _ E). lia. Qed.
Lemma rdv_ext h h' v : ext h h' -> in_heap h v -> rdv h' v = rdv h v.
Proof. intros E. destruct v as [x|a]; cbn; [reflexivity|]. intros H. unfold rd. rewrite (ext_buffer _ _ _ E H). reflexivity. Qed.
Lemma rdv_alloc h v : rdv (fst (alloc h v)) (snd (alloc h v)) = v.
Proof.
  unfold alloc. cbn [fst snd rdv]. unfold rd, nd_map, buffer. cbn [a_buf a_idx shape data].
  rewrite app_nth2, Nat.sub_diag by lia. cbn [nth]. destruct v as [sh d]. cbn [shape data]. f_equal.
  induction d as [|x d IH] using rev_ind; [reflexivity|].
  rewrite app_length, Nat.add_comm. cbn [length Nat.add]. rewrite seq_S, map_app. cbn [map].
  rewrite app_nth2, Nat.sub_diag by lia. cbn [nth]. f_equal.
  etransitivity; [|exact IH]. apply map_ext_in. intros i Hi. apply in_seq in Hi. apply app_nth1. lia.
Qed.
Lemma in_alloc h v : in_heap (fst (alloc h v)) (snd (alloc h v)).
Proof. unfold alloc. cbn. rewrite app_length. cbn. lia. Qed.

(** ---- leaves ---- *)
Lemma put_put l a b : leaf_put (leaf_put l a) b = leaf_put l b. Proof. destruct l; reflexivity. Qed.
Lemma get_put l a : leaf_get (leaf_put l a) = a. Proof. destruct l; reflexivity. Qed.
Lemma put_get l : leaf_put l (leaf_get l) = l. Proof. destruct l as [[]|[]|[]|[]|[]|[]|[]|[]]; reflexivity. Qed.
Lemma put_free_size l a : leaf_free_size (leaf_put l a) = leaf_free_size l. Proof. destruct l; reflexivity. Qed.
Lemma put_vector_size l a : leaf_vector_size (leaf_put l a) = leaf_vector_size l. Proof. destruct l; reflexivity. Qed.
Lemma put_keeps l a : keeps_reference (leaf_put l a) = keeps_reference l. Proof. destruct l; reflexivity. Qed.

(** a setter changes nothing when it raises, and only the value when it does not *)
Definition value_only (l : leaf) (r : leaf * res unit) : Prop :=
  match snd r with Ok _ => fst r = leaf_put l (leaf_get (fst r)) | Raise _ => fst r = l end.
Ltac crush_value :=
  cbn [fst snd]; try reflexivity; repeat match goal with
         | |- context [match ?x with _ => _ end] =>
             lazymatch x with context [match _ with _ => _ end] => fail | _ => destruct x end; cbn [fst snd]
         end; try reflexivity.
Lemma leaf_set_value l a : value_only l (leaf_set l a).
Proof.
  destruct l as [[]|[]|[]|[]|[]|[]|[]|[]]; unfold value_only, leaf_set, lift; cbn [fst snd]; try reflexivity;
    unfold vector_set, array_set, posdef_set, pv_set, pa_set, simplex_set, subspace_set; crush_value.
Qed.
(** the references set keeps: the new value is the given one *)
Lemma leaf_set_ok l a : snd (leaf_set l a) = Ok tt -> fst (leaf_set l a) = leaf_put l a.
Proof.
  destruct l as [[]|[]|[]|[]|[]|[]|[]|[]]; unfold leaf_set, lift; cbn [fst snd]; try reflexivity;
    unfold vector_set, array_set, posdef_set, pv_set, pa_set, simplex_set, subspace_set; crush_value; discriminate.
Qed.
Lemma leaf_set_free_value l a : value_only l (leaf_set_free l a).
Proof.
  destruct l as [[]|[]|[]|[]|[]|[]|[]|[]]; unfold value_only, leaf_set_free, lift; cbn [fst snd];
    unfold scalar_set_free, vector_set_free, array_set_free, posdef_set_free, pv_set_free, pa_set_free, simplex_set_free, subspace_set_free,
      scalar_set, vector_set, array_set, posdef_set, pv_set, pa_set, simplex_set, subspace_set; crush_value.
Qed.
Lemma leaf_set_vector_value l a : value_only l (leaf_set_vector l a).
Proof.
  destruct l as [[]|[]|[]|[]|[]|[]|[]|[]]; unfold value_only, leaf_set_vector, lift; cbn [fst snd];
    unfold scalar_set_vector, vector_set_vector, array_set_vector, posdef_set_vector, pv_set_vector, pa_set_vector, simplex_set_vector, subspace_set_vector,
      scalar_set, vector_set, array_set, posdef_set, pv_set, pa_set, simplex_set, subspace_set; crush_value.
Qed.

(** ---- one object ---- *)
Lemma obj_assign_same s o v : o < length (s_objs s) -> obj_at (assign s o v) o = Obj (o_leaf (obj_at s o)) v.
Proof. intros H. unfold obj_at, assign. cbn [s_objs]. apply nth_upd_same. exact H. Qed.
Lemma obj_assign_other s o v o' : o' <> o -> obj_at (assign s o v) o' = obj_at s o'.
Proof. intros H. unfold obj_at, assign. cbn [s_objs]. apply nth_upd_other. congruence. Qed.
Definition step (s : store) (o : nat) (s' : store) : Prop :=
  ext (s_heap s) (s_heap s') /\ length (s_objs s') = length (s_objs s) /\ (forall o', o' <> o -> obj_at s' o' = obj_at s o') /\
  exists_in s' (o_val (obj_at s' o)).
Definition grown (s : store) (h : heap) : store := Store h (s_objs s).
Lemma cur_grown s h o : sound_store s -> o < length (s_objs s) -> ext (s_heap s) h -> cur (grown s h) o = cur s o.
Proof.
  intros S Ho E. unfold cur, grown, obj_at. cbn [s_heap s_objs]. f_equal. apply rdv_ext; [exact E|]. exact (S o Ho).
Qed.
Lemma sound_grown s h : sound_store s -> ext (s_heap s) h -> sound_store (grown s h).
Proof. intros S E o Ho. apply (in_heap_ext (s_heap s) h); [exact E|]. exact (S o Ho). Qed.
Lemma step_grown s o s' h : ext (s_heap s) h -> step (grown s h) o s' -> step s o s'.
Proof.
  intros E (A & B & C & D). split; [|split; [|split]].
  - apply (ext_trans _ h); [exact E|exact A].
  - exact B.
  - exact C.
  - exact D.
Qed.
Lemma step_refl s o : sound_store s -> o < length (s_objs s) -> step s o s.
Proof. intros S Ho. split; [apply ext_refl|split; [reflexivity|split; [reflexivity|exact (S o Ho)]]]. Qed.
Lemma step_sound s o s' : sound_store s -> step s o s' -> sound_store s'.
Proof.
  intros S (A & B & C & D) o' Ho'. destruct (Nat.eq_dec o' o) as [->|N]; [exact D|].
  rewrite C by exact N. apply (in_heap_ext _ _ _ A). apply (S o'). rewrite <- B. exact Ho'.
Qed.
Lemma step_cur_other s o s' o' : sound_store s -> step s o s' -> o' <> o -> o' < length (s_objs s) -> cur s' o' = cur s o'.
Proof.
  intros S (A & B & C & D) N Ho. unfold cur. rewrite C by exact N. f_equal. apply rdv_ext; [exact A|exact (S o' Ho)].
Qed.
Lemma h_set_step s o v s' r : sound_store s -> o < length (s_objs s) -> exists_in s v -> h_set s o v = (s', r) ->
  step s o s' /\ s_heap s' = s_heap s /\ cur s' o = fst (leaf_set (cur s o) (rdv (s_heap s) v)) /\ r = snd (leaf_set (cur s o) (rdv (s_heap s) v)) /\
  (r = Ok tt -> o_val (obj_at s' o) = v).
Proof.
  intros S Ho V H. unfold h_set in H. pose proof (leaf_set_ok (cur s o) (rdv (s_heap s) v)) as Hok.
  pose proof (leaf_set_value (cur s o) (rdv (s_heap s) v)) as Hv. unfold value_only in Hv.
  destruct (snd (leaf_set (cur s o) (rdv (s_heap s) v))) as [[]|e]; injection H as <- <-.
  - split; [|split; [|split; [|split]]].
    + split; [apply ext_refl|split; [apply upd_length|split]].
      * intros o' N. apply obj_assign_other. exact N.
      * rewrite obj_assign_same by exact Ho. exact V.
    + reflexivity.
    + rewrite Hok by reflexivity. unfold cur at 1. rewrite obj_assign_same by exact Ho. cbn [o_leaf o_val].
      unfold cur. rewrite put_put. reflexivity.
    + reflexivity.
    + intros _. rewrite obj_assign_same by exact Ho. reflexivity.
  - split; [apply step_refl; assumption|]. rewrite Hv. splits; try reflexivity. discriminate.
Qed.
Lemma then_set_step s o h w s' r : sound_store s -> o < length (s_objs s) -> ext (s_heap s) h -> in_heap h w ->
  then_set s o (Ok (h, w)) = (s', r) ->
  step s o s' /\ s_heap s' = h /\ cur s' o = fst (leaf_set (cur s o) (rdv h w)) /\ r = snd (leaf_set (cur s o) (rdv h w)) /\
  (r = Ok tt -> o_val (obj_at s' o) = w).
Proof.
  intros S Ho E V H. cbn [then_set] in H. change (Store h (s_objs s)) with (grown s h) in H.
  apply h_set_step in H; [|apply sound_grown; assumption|exact Ho|exact V].
  destruct H as (A & Hh & B & C & D). rewrite (cur_grown s h o S Ho E) in B, C. splits.
  - apply (step_grown s o s' h E A).
  - exact Hh.
  - exact B.
  - exact C.
  - exact D.
Qed.
Lemma by_value_step s o (q : leaf * res unit) s' r : sound_store s -> o < length (s_objs s) -> value_only (cur s o) q ->
  by_value s o q = (s', r) ->
  step s o s' /\ cur s' o = fst q /\ r = snd q /\ (r = Ok tt -> made_after s (o_val (obj_at s' o))).
Proof.
  intros S Ho V H. unfold by_value in H. unfold value_only in V. destruct (snd q) as [[]|e]; injection H as <- <-.
  - unfold assign_new. set (a := leaf_get (fst q)) in *.
    assert (K : obj_at (assign (Store (fst (alloc (s_heap s) a)) (s_objs s)) o (snd (alloc (s_heap s) a))) o =
                Obj (o_leaf (obj_at s o)) (snd (alloc (s_heap s) a))) by (etransitivity; [apply obj_assign_same; exact Ho|reflexivity]).
    splits.
    + split; [apply ext_alloc|split; [apply upd_length|split]].
      * intros o' N. rewrite obj_assign_other by exact N. reflexivity.
      * rewrite K. apply in_alloc.
    + unfold cur. rewrite K. cbn [o_leaf o_val assign s_heap]. rewrite rdv_alloc.
      rewrite V. unfold cur. rewrite put_put. reflexivity.
    + reflexivity.
    + intros _. rewrite K. cbn. lia.
  - splits; try (apply step_refl; assumption); try reflexivity; try discriminate. symmetry. exact V.
Qed.
(** constrain makes a new array *)
Lemma h_constrain_ok h v lb ub : in_heap h v ->
  match h_constrain h v lb ub with
  | Raise e => constrain (rdv h v) lb ub = Raise e
  | Ok (h', w) => ext h h' /\ in_heap h' w /\ constrain (rdv h v) lb ub = Ok (rdv h' w) /\
      match w with PNum _ => True | PArr a => length h <= a_buf a end
  end.
Proof.
  intros V. unfold h_constrain, constrain. destruct (nleb ub lb); [reflexivity|].
  assert (HM : forall f, match v_map h f v with (h', w) => ext h h' /\ in_heap h' w /\ Ok (nd_map f (rdv h v)) = Ok (rdv h' w) /\
      match w with PNum _ => True | PArr a => length h <= a_buf a end end).
  { intros f. destruct v as [x|a]; cbn [v_map].
    - splits; try exact I; [apply ext_refl|reflexivity].
    - pose proof (ext_alloc h (nd_map f (rd h a))). pose proof (in_alloc h (nd_map f (rd h a))). pose proof (rdv_alloc h (nd_map f (rd h a))).
      destruct (alloc h (nd_map f (rd h a))) as [h' w] eqn:EA. cbn [fst snd] in *. splits; try assumption.
      + cbn [rdv]. congruence.
      + unfold alloc in EA. injection EA as _ <-. cbn. lia. }
  destruct (neqb ub PInf && neqb lb NInf) eqn:EB.
  - apply andb_prop in EB. destruct EB as [E1 E2].
    assert (Q : nd_map (fun x => constrain_entry x lb ub) (rdv h v) = rdv h v).
    { unfold nd_map. destruct (rdv h v) as [sh d]. cbn [shape data]. f_equal. rewrite <- (map_id d) at 2.
      apply map_ext. intros x. unfold constrain_entry. rewrite E1, E2. reflexivity. }
    rewrite Q. specialize (HM (fun x => x)). destruct v as [x|a]; cbn [v_copy].
    + splits; try exact I; [apply ext_refl|reflexivity].
    + cbn [v_map] in HM. assert (Q' : nd_map (fun x => x) (rd h a) = rd h a).
      { unfold nd_map. destruct (rd h a) as [sh d]. cbn [shape data]. rewrite map_id. reflexivity. }
      rewrite Q' in HM. destruct (alloc h (rd h a)) as [h' w]. cbn [rdv] in HM |- *. rewrite Q' in HM. exact HM.
  - specialize (HM (fun x => constrain_entry x lb ub)). destruct (v_map h _ v) as [h' w]. exact HM.
Qed.
Lemma v_reshape_ok h v sh : in_heap h v ->
  match v_reshape h v sh with
  | Raise e => np_reshape (rdv h v) sh = Raise e
  | Ok (h', w) => ext h h' /\ in_heap h' w /\ np_reshape (rdv h v) sh = Ok (rdv h' w) /\
      (forall n, n <= length h -> (match v with PNum _ => True | PArr a => n <= a_buf a end) -> match w with PNum _ => True | PArr a => n <= a_buf a end)
  end.
Proof.
  intros V. destruct v as [x|a]; cbn [v_reshape rdv].
  - destruct (np_reshape (nd_scalar x) sh) as [b|e] eqn:E; cbn [rbind]; [|reflexivity].
    pose proof (ext_alloc h b). pose proof (in_alloc h b). pose proof (rdv_alloc h b).
    destruct (alloc h b) as [h' w] eqn:EA. cbn [fst snd] in *. splits; try assumption; [congruence|].
    intros n Hn _. unfold alloc in EA. injection EA as _ <-. exact Hn.
  - unfold rd. rewrite np_reshape_map. destruct (np_reshape (a_idx a) sh) as [i|e]; cbn [rbind rmap]; [|reflexivity].
    splits; [apply ext_refl|exact V|reflexivity|]. intros n _ Hn. exact Hn.
Qed.
Lemma h_set_free_step s o v s' r : sound_store s -> o < length (s_objs s) -> exists_in s v -> h_set_free s o v = (s', r) ->
  step s o s' /\ cur s' o = fst (leaf_set_free (cur s o) (rdv (s_heap s) v)) /\ r = snd (leaf_set_free (cur s o) (rdv (s_heap s) v)) /\
  (r = Ok tt -> made_after s (o_val (obj_at s' o))).
Proof.
  intros S Ho V H. unfold h_set_free in H. set (x := rdv (s_heap s) v) in *.
  assert (RAISE : forall e, (s, Raise e) = (s', r) -> leaf_set_free (cur s o) x = (cur s o, Raise e) ->
    step s o s' /\ cur s' o = fst (leaf_set_free (cur s o) x) /\ r = snd (leaf_set_free (cur s o) x) /\ (r = Ok tt -> made_after s (o_val (obj_at s' o)))).
  { intros e E ->. injection E as <- <-. cbn [fst snd]. splits; try reflexivity; try discriminate. apply step_refl; assumption. }
  destruct (cur s o) as [p|p|p|p|p|p|p|p] eqn:EC;
    try (rewrite <- EC in H |- *; apply by_value_step in H; [|exact S|exact Ho|apply leaf_set_free_value];
         destruct H as (A & B & C & D); splits; assumption).
  - pose proof (h_constrain_ok (s_heap s) v (sp_lb p) (sp_ub p) V) as K. fold x in K.
    destruct (h_constrain (s_heap s) v (sp_lb p) (sp_ub p)) as [[h w]|e].
    + destruct K as (E & W & K & M). apply then_set_step in H; [|assumption..]. rewrite EC in H.
      cbn [leaf_set_free]. unfold scalar_set_free. rewrite K. destruct H as (A & B & C & D & F). splits; try assumption.
      intros R. rewrite (F R). exact M.
    + apply (RAISE e H). cbn [leaf_set_free]. unfold scalar_set_free. rewrite K. reflexivity.
  - destruct (negb (Nat.eqb (nd_size x) (vp_size p))) eqn:EN.
    { apply (RAISE ValueError H). cbn [leaf_set_free]. unfold vector_set_free. rewrite EN. reflexivity. }
    pose proof (h_constrain_ok (s_heap s) v (vp_lb p) (vp_ub p) V) as K. fold x in K.
    destruct (h_constrain (s_heap s) v (vp_lb p) (vp_ub p)) as [[h w]|e].
    + destruct K as (E & W & K & M). apply then_set_step in H; [|assumption..]. rewrite EC in H.
      cbn [leaf_set_free]. unfold vector_set_free. rewrite EN, K. destruct H as (A & B & C & D & F). splits; try assumption.
      intros R. rewrite (F R). exact M.
    + apply (RAISE e H). cbn [leaf_set_free]. unfold vector_set_free. rewrite EN, K. reflexivity.
  - destruct (negb (Nat.eqb (nd_size x) (array_free_size p))) eqn:EN.
    { apply (RAISE ValueError H). cbn [leaf_set_free]. unfold array_set_free. rewrite EN. reflexivity. }
    pose proof (h_constrain_ok (s_heap s) v (ap_lb p) (ap_ub p) V) as K. fold x in K.
    destruct (h_constrain (s_heap s) v (ap_lb p) (ap_ub p)) as [[h w]|e]; cbn [rbind fst snd] in H.
    + destruct K as (E & W & K & M). pose proof (v_reshape_ok h w (ap_shape p) W) as K2.
      destruct (v_reshape h w (ap_shape p)) as [[h2 w2]|e].
      * destruct K2 as (E2 & W2 & K2 & M2). apply then_set_step in H; [|exact S|exact Ho|apply (ext_trans _ _ _ E E2)|exact W2]. rewrite EC in H.
        cbn [leaf_set_free]. unfold array_set_free. rewrite EN, K. cbn [rbind]. rewrite K2.
        destruct H as (A & B & C & D & F). splits; try assumption.
        intros R. rewrite (F R). apply (M2 (length (s_heap s))); [apply ext_length; exact E|exact M].
      * apply (RAISE e H). cbn [leaf_set_free]. unfold array_set_free. rewrite EN, K. cbn [rbind]. rewrite K2. reflexivity.
    + apply (RAISE e H). cbn [leaf_set_free]. unfold array_set_free. rewrite EN, K. reflexivity.
Qed.
(** set_vector: what the object keeps *)
Definition kept_view (s : store) (v w : pyval) : Prop :=
  match v with
  | PNum _ => True
  | PArr a => exists i, w = PArr (ARef (a_buf a) i) /\ data i = data (a_idx a)
  end.
Lemma h_set_vector_step s o v s' r : sound_store s -> o < length (s_objs s) -> exists_in s v -> h_set_vector s o v = (s', r) ->
  step s o s' /\ cur s' o = fst (leaf_set_vector (cur s o) (rdv (s_heap s) v)) /\ r = snd (leaf_set_vector (cur s o) (rdv (s_heap s) v)) /\
  (r = Ok tt -> if keeps_reference (cur s o) then kept_view s v (o_val (obj_at s' o)) else made_after s (o_val (obj_at s' o))).
Proof.
  intros S Ho V H. unfold h_set_vector in H. set (x := rdv (s_heap s) v) in *.
  assert (RAISE : forall e, (s, Raise e) = (s', r) -> leaf_set_vector (cur s o) x = (cur s o, Raise e) ->
    step s o s' /\ cur s' o = fst (leaf_set_vector (cur s o) x) /\ r = snd (leaf_set_vector (cur s o) x) /\
    (r = Ok tt -> if keeps_reference (cur s o) then kept_view s v (o_val (obj_at s' o)) else made_after s (o_val (obj_at s' o)))).
  { intros e E ->. injection E as <- <-. cbn [fst snd]. splits; try reflexivity; try discriminate. apply step_refl; assumption. }
  assert (SELF : forall w, w = v -> kept_view s v w).
  { intros w ->. destruct v as [y|[b i]]; cbn; [exact I|]. exists i. split; reflexivity. }
  assert (VIEW : forall h w sh, v_reshape (s_heap s) v sh = Ok (h, w) -> kept_view s v w).
  { intros h w sh E. destruct v as [y|a]; cbn; [exact I|]. cbn [v_reshape] in E. unfold np_reshape in E.
    destruct (Nat.eqb (nd_size (a_idx a)) (nprod sh)); cbn [rbind] in E; [|discriminate]. injection E as _ <-. eexists. split; reflexivity. }
  destruct (cur s o) as [p|p|p|p|p|p|p|p] eqn:EC; cbn [keeps_reference];
    try (rewrite <- EC in H |- *; apply by_value_step in H; [|exact S|exact Ho|apply leaf_set_vector_value];
         destruct H as (A & B & C & D); splits; assumption);
    try (apply h_set_step in H; [|exact S|exact Ho|exact V]; rewrite EC in H; destruct H as (A & B & C & D & F); splits; try assumption;
         intros R; apply SELF; apply (F R)).
  - destruct (negb (Nat.eqb (nd_size x) (array_vector_size p))) eqn:EN.
    { apply (RAISE ValueError H). cbn [leaf_set_vector]. unfold array_set_vector. rewrite EN. reflexivity. }
    pose proof (v_reshape_ok (s_heap s) v (ap_shape p) V) as K2. fold x in K2.
    destruct (v_reshape (s_heap s) v (ap_shape p)) as [[h2 w2]|e] eqn:ER.
    + destruct K2 as (E2 & W2 & K2 & M2). apply then_set_step in H; [|assumption..]. rewrite EC in H.
      cbn [leaf_set_vector]. unfold array_set_vector. rewrite EN, K2.
      destruct H as (A & B & C & D & F). splits; try assumption. intros R. rewrite (F R). apply (VIEW _ _ _ ER).
    + apply (RAISE e H). cbn [leaf_set_vector]. unfold array_set_vector. rewrite EN, K2. reflexivity.
  - destruct (np_len x) as [n|e] eqn:EL.
    2:{ apply (RAISE e H). cbn [leaf_set_vector]. unfold simplex_set_vector. rewrite EL. reflexivity. }
    destruct (negb (Nat.eqb n (sx_vector_size p))) eqn:EN.
    { apply (RAISE ValueError H). cbn [leaf_set_vector]. unfold simplex_set_vector. rewrite EL, EN. reflexivity. }
    pose proof (v_reshape_ok (s_heap s) v (sx_shape p) V) as K2. fold x in K2.
    destruct (v_reshape (s_heap s) v (sx_shape p)) as [[h2 w2]|e] eqn:ER.
    + destruct K2 as (E2 & W2 & K2 & M2). apply then_set_step in H; [|assumption..]. rewrite EC in H.
      cbn [leaf_set_vector]. unfold simplex_set_vector. rewrite EL, EN, K2.
      destruct H as (A & B & C & D & F). splits; try assumption. intros R. rewrite (F R). apply (VIEW _ _ _ ER).
    + apply (RAISE e H). cbn [leaf_set_vector]. unfold simplex_set_vector. rewrite EL, EN, K2. reflexivity.
Qed.

(** ---- trees ---- *)
Definition hents := list (string * hparam).
Fixpoint hparam_rect' (P : hparam -> Prop) (HL : forall o, P (HLeaf o))
  (HD : forall nm (es : hents) fi vi fs vs, Forall (fun e => P (snd e)) es -> P (HDict nm es fi vi fs vs)) (p : hparam) : P p :=
  match p with
  | HLeaf o => HL o
  | HDict nm es fi vi fs vs =>
      HD nm es fi vi fs vs
        ((fix go (l : hents) : Forall (fun e => P (snd e)) l :=
            match l with
            | [] => @Forall_nil _ _
            | e :: tl => @Forall_cons _ _ e tl (hparam_rect' P HL HD (snd e)) (go tl)
            end) es)
  end.
Definition hset_go (size : store -> hparam -> nat) (setf : store -> hparam -> pyval -> store * res unit) (v : pyval) :=
  fix go (s : store) (l : hents) (offset : nat) : store * res unit :=
    match l with
    | [] => (s, Ok tt)
    | (_, q) :: tl =>
        match v_slice v offset (offset + size s q) with
        | Raise e => (s, Raise e)
        | Ok w => match setf s q w with
                  | (s', Ok _) => go s' tl (offset + size s' q)
                  | (s', Raise e) => (s', Raise e)
                  end
        end
    end.
Definition steps (s : store) (L : list nat) (s' : store) : Prop :=
  ext (s_heap s) (s_heap s') /\ length (s_objs s') = length (s_objs s) /\ (forall o', ~ In o' L -> obj_at s' o' = obj_at s o') /\ sound_store s'.
Lemma steps_refl s L : sound_store s -> steps s L s.
Proof. intros S. unfold steps; splits; [apply ext_refl|reflexivity|reflexivity|exact S]. Qed.
Lemma steps_app s1 s2 s3 L M : steps s1 L s2 -> steps s2 M s3 -> steps s1 (L ++ M) s3.
Proof.
  intros (A1 & B1 & C1 & D1) (A2 & B2 & C2 & D2). unfold steps; splits.
  - apply (ext_trans _ _ _ A1 A2).
  - congruence.
  - intros o N. rewrite C2, C1; [reflexivity| |]; intros K; apply N; apply in_or_app; tauto.
  - exact D2.
Qed.
Lemma steps_weaken s s' L M : (forall o, In o L -> In o M) -> steps s L s' -> steps s M s'.
Proof. intros I (A & B & C & D). unfold steps; splits; try assumption. intros o N. apply C. auto. Qed.
Lemma step_steps s o s' : sound_store s -> step s o s' -> steps s [o] s'.
Proof.
  intros S T. pose proof (step_sound _ _ _ S T). destruct T as (A & B & C & D). unfold steps; splits; try assumption.
  intros o' N. apply C. intros ->. apply N. left. reflexivity.
Qed.
Lemma steps_cur s L s' o : sound_store s -> steps s L s' -> ~ In o L -> o < length (s_objs s) -> cur s' o = cur s o.
Proof.
  intros S (A & B & C & D) N Ho. unfold cur. rewrite C by exact N. f_equal. apply rdv_ext; [exact A|exact (S o Ho)].
Qed.
Lemma steps_shows s L s' q : sound_store s -> steps s L s' -> sound_param s q -> (forall o, In o (objects q) -> ~ In o L) -> shows s' q = shows s q.
Proof.
  intros S T. induction q as [o|nm es fi vi fs vs IH] using hparam_rect'; intros W N.
  - cbn [shows]. f_equal. apply (steps_cur s L s'); [exact S|exact T| |]; [apply N|apply W]; left; reflexivity.
  - cbn [shows]. f_equal. apply map_ext_in. intros [k q] Hin. cbn [fst snd]. f_equal.
    rewrite Forall_forall in IH. apply (IH (k, q) Hin).
    + intros o Ho. apply W. cbn [objects]. apply in_flat_map. exists (k, q). split; assumption.
    + intros o Ho. apply N. cbn [objects]. apply in_flat_map. exists (k, q). split; assumption.
Qed.
Lemma steps_sound_param s L s' q : steps s L s' -> sound_param s q -> sound_param s' q.
Proof. intros (A & B & C & D) W o Ho. rewrite B. apply W. exact Ho. Qed.
Lemma steps_exists s L s' v : steps s L s' -> exists_in s v -> exists_in s' v.
Proof. intros (A & B & C & D). apply (in_heap_ext _ _ _ A). Qed.
Lemma steps_rdv s L s' v : steps s L s' -> exists_in s v -> rdv (s_heap s') v = rdv (s_heap s) v.
Proof. intros (A & B & C & D). apply (rdv_ext _ _ _ A). Qed.
Lemma steps_kept s L s' : steps s L s' -> arrays_kept s s'.
Proof. intros T v E. split; [apply (steps_exists _ _ _ _ T E)|apply (steps_rdv _ _ _ _ T E)]. Qed.
Lemma made_after_steps s L s' v : steps s L s' -> made_after s' v -> made_after s v.
Proof. intros (A & B & C & D) M. destruct v as [x|a]; [exact I|]. cbn in *. pose proof (ext_length _ _ A). lia. Qed.
Lemma v_slice_ok h v lo hi : match v_slice v lo hi with
  | Raise e => np_slice (rdv h v) lo hi = Raise e
  | Ok w => np_slice (rdv h v) lo hi = Ok (rdv h w) /\ (in_heap h v -> in_heap h w)
  end.
Proof.
  destruct v as [x|a]; cbn [v_slice rdv]; [reflexivity|]. unfold rd. rewrite np_slice_map.
  destruct (np_slice (a_idx a) lo hi) as [i|e]; cbn [rbind rmap]; [|reflexivity]. split; [reflexivity|intros H; exact H].
Qed.

Lemma nodup_app (l m : list nat) : NoDup (l ++ m) -> NoDup l /\ NoDup m /\ (forall o, In o l -> In o m -> False).
Proof.
  induction l as [|a l IH]; cbn; intros H; [splits; [constructor|exact H|intros o []]|]. inversion H as [|? ? N1 N2]; subst.
  destruct (IH N2) as (A & B & C). splits; [constructor; [intros K; apply N1; apply in_or_app; left; exact K|exact A]|exact B|].
  intros o [->|K] M; [apply N1; apply in_or_app; right; exact M|apply (C o K M)].
Qed.
Section Setter.
Variables (hsize : store -> hparam -> nat) (psize : param -> nat).
Variables (hset : store -> hparam -> pyval -> store * res unit) (pset : param -> arr -> param * res unit).
Hypothesis size_shows : forall s p, hsize s p = psize (shows s p).
Hypothesis leaf_step : forall s o v s' r, sound_store s -> o < length (s_objs s) -> exists_in s v -> hset s (HLeaf o) v = (s', r) ->
  step s o s' /\ Leaf (cur s' o) = fst (pset (Leaf (cur s o)) (rdv (s_heap s) v)) /\ r = snd (pset (Leaf (cur s o)) (rdv (s_heap s) v)).
Hypothesis hset_dict : forall s nm es fi vi fs vs v, hset s (HDict nm es fi vi fs vs) v =
  if negb (Nat.eqb (nd_size (rdv (s_heap s) v)) (hsize s (HDict nm es fi vi fs vs))) then (s, Raise ValueError) else hset_go hsize hset v s es 0.
Hypothesis pset_dict : forall nm es fi vi fs vs v, pset (Dict nm es fi vi fs vs) v =
  if negb (Nat.eqb (nd_size v) (psize (Dict nm es fi vi fs vs))) then (Dict nm es fi vi fs vs, Raise ValueError)
  else let r := set_go psize pset v es 0 in (Dict nm (fst r) fi vi fs vs, snd r).

Definition moves (p : hparam) : Prop :=
  forall s v s' r, sound_store s -> sound_param s p -> exists_in s v -> hset s p v = (s', r) -> steps s (objects p) s'.
Lemma hset_go_steps es : Forall (fun e => moves (snd e)) es -> forall off s v s' r, sound_store s ->
  (forall o, In o (flat_map (fun e => objects (snd e)) es) -> o < length (s_objs s)) -> exists_in s v ->
  hset_go hsize hset v s es off = (s', r) -> steps s (flat_map (fun e => objects (snd e)) es) s'.
Proof.
  induction es as [|[k q] es IHes]; intros IH off s v s' r S W V H.
  - cbn in H. injection H as <- _. apply steps_refl. exact S.
  - inversion IH as [|? ? I1 I2]; subst. cbn [snd] in I1. cbn [hset_go] in H.
    pose proof (v_slice_ok (s_heap s) v off (off + hsize s q)) as K.
    destruct (v_slice v off (off + hsize s q)) as [w|e]; [|injection H as <- _; apply steps_refl; exact S].
    destruct K as [_ K]. specialize (K V). destruct (hset s q w) as [s1 r1] eqn:E1. cbn [flat_map snd] in *.
    assert (W1 : sound_param s q) by (intros o Ho; apply W; apply in_or_app; left; exact Ho).
    pose proof (I1 s w s1 r1 S W1 K E1) as T1. destruct r1 as [[]|e].
    + apply (steps_app s s1 s' _ _ T1). apply (IHes I2 (off + hsize s1 q) s1 v s' r).
      * apply T1.
      * intros o Ho. destruct T1 as (_ & -> & _). apply W. apply in_or_app. right. exact Ho.
      * apply (steps_exists _ _ _ _ T1 V).
      * exact H.
    + injection H as <- _. eapply steps_weaken; [|exact T1]. intros o Ho. apply in_or_app. left. exact Ho.
Qed.
Lemma hset_steps p : moves p.
Proof.
  induction p as [o|nm es fi vi fs vs IH] using hparam_rect'; intros s v s' r S W V H.
  - apply step_steps; [exact S|]. apply (leaf_step s o v s' r); try assumption. apply W. left. reflexivity.
  - rewrite hset_dict in H. destruct (negb _); [injection H as <- _; apply steps_refl; exact S|].
    apply (hset_go_steps es IH 0 s v s' r S W V H).
Qed.
Lemma hset_refines p : forall s v s' r, sound_store s -> sound_param s p -> exists_in s v -> NoDup (objects p) -> hset s p v = (s', r) ->
  shows s' p = fst (pset (shows s p) (rdv (s_heap s) v)) /\ r = snd (pset (shows s p) (rdv (s_heap s) v)).
Proof.
  induction p as [o|nm es fi vi fs vs IH] using hparam_rect'; intros s v s' r S W V ND H.
  - apply leaf_step in H; [|exact S|apply W; left; reflexivity|exact V]. destruct H as (A & B & C). cbn [shows]. split; assumption.
  - rewrite hset_dict in H. cbn [shows]. rewrite pset_dict. rewrite size_shows in H. cbn [shows] in H.
    destruct (negb _); [injection H as <- <-; split; reflexivity|]. cbn [fst snd].
    assert (G : forall off s s' r, sound_store s -> (forall o, In o (flat_map (fun e => objects (snd e)) es) -> o < length (s_objs s)) ->
      exists_in s v -> hset_go hsize hset v s es off = (s', r) ->
      map (fun e => (fst e, shows s' (snd e))) es = fst (set_go psize pset (rdv (s_heap s) v) (map (fun e => (fst e, shows s (snd e))) es) off) /\
      r = snd (set_go psize pset (rdv (s_heap s) v) (map (fun e => (fst e, shows s (snd e))) es) off)).
    2:{ destruct (G 0 s s' r S W V H) as [G1 G2]. rewrite G1. split; [reflexivity|exact G2]. }
    clear H W V S s s' r. cbn [objects] in ND. induction es as [|[k q] es IHes]; intros off s s' r S W V H.
    + cbn in H. injection H as <- <-. split; reflexivity.
    + inversion IH as [|? ? I1 I2]; subst. cbn [snd] in I1. cbn [flat_map snd] in ND, W. cbn [hset_go] in H.
      cbn [map fst snd set_go]. rewrite size_shows in H.
      pose proof (v_slice_ok (s_heap s) v off (off + psize (shows s q))) as K.
      destruct (v_slice v off (off + psize (shows s q))) as [w|e].
      2:{ rewrite K. injection H as <- <-. split; reflexivity. }
      destruct K as [K0 K]. specialize (K V). rewrite K0. destruct (hset s q w) as [s1 r1] eqn:E1.
      assert (W1 : sound_param s q) by (intros o Ho; apply W; apply in_or_app; left; exact Ho).
      destruct (nodup_app _ _ ND) as (ND1 & ND2 & DJ).
      pose proof (hset_steps q s w s1 r1 S W1 K E1) as T1. destruct (I1 s w s1 r1 S W1 K ND1 E1) as [R1 R2].
      rewrite <- R2, <- R1.
      assert (TL : map (fun e => (fst e, shows s1 (snd e))) es = map (fun e => (fst e, shows s (snd e))) es).
      { apply map_ext_in. intros [k' q'] Hin. cbn [fst snd]. f_equal. apply (steps_shows s (objects q) s1 q' S T1).
        - intros o Ho. apply W. apply in_or_app. right. apply in_flat_map. exists (k', q'). split; assumption.
        - intros o Ho Hq. apply (DJ o Hq). apply in_flat_map. exists (k', q'). split; assumption. }
      destruct r1 as [[]|e]; cbn [fst snd].
      * assert (W2 : forall o, In o (flat_map (fun e => objects (snd e)) es) -> o < length (s_objs s1)).
        { intros o Ho. destruct T1 as (_ & -> & _). apply W. apply in_or_app. right. exact Ho. }
        destruct (IHes I2 ND2 (off + hsize s1 q) s1 s' r (proj2 (proj2 (proj2 T1))) W2 (steps_exists _ _ _ _ T1 V) H) as [G1 G2].
        rewrite (steps_rdv _ _ _ _ T1 V), TL, size_shows in G1, G2. cbn [fst snd]. split; [|exact G2]. rewrite <- G1. f_equal. f_equal.
        apply (steps_shows s1 (flat_map (fun e => objects (snd e)) es) s' q).
        -- apply T1.
        -- apply (hset_go_steps es) with (off := off + hsize s1 q) (v := v) (r := r).
           ++ apply Forall_forall. intros e _. apply hset_steps.
           ++ apply T1.
           ++ exact W2.
           ++ apply (steps_exists _ _ _ _ T1 V).
           ++ exact H.
        -- apply (steps_sound_param _ _ _ _ T1 W1).
        -- intros o Ho Hq. apply (DJ o Ho Hq).
      * injection H as <- <-. cbn [fst snd]. split; [|reflexivity]. rewrite TL. reflexivity.
Qed.
End Setter.

(** ---- the setters ---- *)
Lemma free_size_shows s p : hp_free_size s p = p_free_size (shows s p). Proof. destruct p; reflexivity. Qed.
Lemma vector_size_shows s p : hp_vector_size s p = p_vector_size (shows s p). Proof. destruct p; reflexivity. Qed.
Lemma hp_set_free_dict s nm es fi vi fs vs v : hp_set_free s (HDict nm es fi vi fs vs) v =
  if negb (Nat.eqb (nd_size (rdv (s_heap s) v)) (hp_free_size s (HDict nm es fi vi fs vs))) then (s, Raise ValueError)
  else hset_go hp_free_size hp_set_free v s es 0.
Proof. reflexivity. Qed.
Lemma hp_set_vector_dict s nm es fi vi fs vs v : hp_set_vector s (HDict nm es fi vi fs vs) v =
  if negb (Nat.eqb (nd_size (rdv (s_heap s) v)) (hp_vector_size s (HDict nm es fi vi fs vs))) then (s, Raise ValueError)
  else hset_go hp_vector_size hp_set_vector v s es 0.
Proof. reflexivity. Qed.
Lemma free_leaf_step s o v s' r : sound_store s -> o < length (s_objs s) -> exists_in s v -> hp_set_free s (HLeaf o) v = (s', r) ->
  step s o s' /\ Leaf (cur s' o) = fst (p_set_free (Leaf (cur s o)) (rdv (s_heap s) v)) /\ r = snd (p_set_free (Leaf (cur s o)) (rdv (s_heap s) v)).
Proof.
  intros S Ho V H. destruct (h_set_free_step s o v s' r S Ho V H) as (A & B & C & _). splits; [exact A| |exact C].
  cbn [p_set_free fst]. rewrite B. reflexivity.
Qed.
Lemma vector_leaf_step s o v s' r : sound_store s -> o < length (s_objs s) -> exists_in s v -> hp_set_vector s (HLeaf o) v = (s', r) ->
  step s o s' /\ Leaf (cur s' o) = fst (p_set_vector (Leaf (cur s o)) (rdv (s_heap s) v)) /\ r = snd (p_set_vector (Leaf (cur s o)) (rdv (s_heap s) v)).
Proof.
  intros S Ho V H. destruct (h_set_vector_step s o v s' r S Ho V H) as (A & B & C & _). splits; [exact A| |exact C].
  cbn [p_set_vector fst]. rewrite B. reflexivity.
Qed.
Lemma set_free_steps p s v s' r : sound_store s -> sound_param s p -> exists_in s v -> hp_set_free s p v = (s', r) -> steps s (objects p) s'.
Proof. apply (hset_steps hp_free_size hp_set_free p_set_free free_leaf_step hp_set_free_dict). Qed.
Lemma set_vector_steps p s v s' r : sound_store s -> sound_param s p -> exists_in s v -> hp_set_vector s p v = (s', r) -> steps s (objects p) s'.
Proof. apply (hset_steps hp_vector_size hp_set_vector p_set_vector vector_leaf_step hp_set_vector_dict). Qed.

(** C89 *)
Lemma set_free_refines s p v s' r : sound_store s -> sound_param s p -> NoDup (objects p) -> exists_in s v -> hp_set_free s p v = (s', r) ->
  p_set_free (shows s p) (rdv (s_heap s) v) = (shows s' p, r) /\ sound_store s' /\ sound_param s' p /\ arrays_kept s s' /\
  (forall q, sound_param s q -> (forall o, In o (objects q) -> ~ In o (objects p)) -> shows s' q = shows s q).
Proof.
  intros S W N V H. pose proof (set_free_steps p s v s' r S W V H) as T. splits.
  - destruct (hset_refines hp_free_size p_free_size hp_set_free p_set_free free_size_shows free_leaf_step hp_set_free_dict p_set_free_dict p s v s' r S W V N H) as [A B].
    rewrite A, B. destruct (p_set_free (shows s p) (rdv (s_heap s) v)); reflexivity.
  - apply T.
  - apply (steps_sound_param _ _ _ _ T W).
  - apply (steps_kept _ _ _ T).
  - intros q Wq D. apply (steps_shows s (objects p) s' q S T Wq D).
Qed.
Lemma set_vector_refines s p v s' r : sound_store s -> sound_param s p -> NoDup (objects p) -> exists_in s v -> hp_set_vector s p v = (s', r) ->
  p_set_vector (shows s p) (rdv (s_heap s) v) = (shows s' p, r) /\ sound_store s' /\ sound_param s' p /\ arrays_kept s s' /\
  (forall q, sound_param s q -> (forall o, In o (objects q) -> ~ In o (objects p)) -> shows s' q = shows s q).
Proof.
  intros S W N V H. pose proof (set_vector_steps p s v s' r S W V H) as T. splits.
  - destruct (hset_refines hp_vector_size p_vector_size hp_set_vector p_set_vector vector_size_shows vector_leaf_step hp_set_vector_dict p_set_vector_dict p s v s' r S W V N H) as [A B].
    rewrite A, B. destruct (p_set_vector (shows s p) (rdv (s_heap s) v)); reflexivity.
  - apply T.
  - apply (steps_sound_param _ _ _ _ T W).
  - apply (steps_kept _ _ _ T).
  - intros q Wq D. apply (steps_shows s (objects p) s' q S T Wq D).
Qed.

(** ---- the getters ---- *)
Lemma shows_grown s h q : sound_store s -> ext (s_heap s) h -> sound_param s q -> shows (grown s h) q = shows s q.
Proof.
  intros S E W. apply (steps_shows s [] (grown s h) q S); [|exact W|intros o _ []].
  unfold steps. splits; [exact E|reflexivity|reflexivity|apply sound_grown; assumption].
Qed.
Lemma new_array_ok h r : ext h (fst (new_array h r)) /\
  match snd (new_array h r) with
  | Ok w => in_heap (fst (new_array h r)) w /\ r = Ok (rdv (fst (new_array h r)) w) /\ (exists a, w = PArr a /\ length h <= a_buf a)
  | Raise e => r = Raise e
  end.
Proof.
  unfold new_array. destruct r as [a|e]; cbn [fst snd].
  - split; [apply ext_alloc|]. rewrite rdv_alloc. splits; [apply in_alloc|reflexivity|]. eexists. split; [reflexivity|]. cbn. lia.
  - split; [apply ext_refl|reflexivity].
Qed.
Definition hget_go (getf : store -> hparam -> heap * res pyval) (objs : list obj) :=
  fix go (h : heap) (l : hents) : heap * res (list pyval) :=
    match l with
    | [] => (h, Ok [])
    | (_, q) :: tl =>
        match getf (Store h objs) q with
        | (h1, Raise e) => (h1, Raise e)
        | (h1, Ok w) => match go h1 tl with (h2, Ok ws) => (h2, Ok (w :: ws)) | (h2, Raise e) => (h2, Raise e) end
        end
    end.
Section Getter.
Variables (hget : store -> hparam -> heap * res pyval) (pget : param -> res arr).
Definition reads (s : store) (p : hparam) (h : heap) (r : res pyval) : Prop :=
  ext (s_heap s) h /\ match r with Ok w => in_heap h w /\ pget (shows s p) = Ok (rdv h w) | Raise e => pget (shows s p) = Raise e end.
Hypothesis leaf_reads : forall s o h r, sound_store s -> o < length (s_objs s) -> hget s (HLeaf o) = (h, r) -> reads s (HLeaf o) h r.
Hypothesis hget_dict : forall s nm es fi vi fs vs, hget s (HDict nm es fi vi fs vs) =
  let r := hget_go hget (s_objs s) (s_heap s) es in new_array (fst r) (do ws <- snd r; np_hstack (map (rdv (fst r)) ws)).
Hypothesis pget_dict : forall nm es fi vi fs vs, pget (Dict nm es fi vi fs vs) = do l <- get_go pget es; np_hstack l.
Definition reader (p : hparam) : Prop := forall s h r, sound_store s -> sound_param s p -> hget s p = (h, r) -> reads s p h r.
Lemma hget_go_reads es s : Forall (fun e => reader (snd e)) es -> sound_store s -> (forall e, In e es -> sound_param s (snd e)) ->
  forall h0, ext (s_heap s) h0 -> let r := hget_go hget (s_objs s) h0 es in ext h0 (fst r) /\
      match snd r with
      | Ok ws => Forall (in_heap (fst r)) ws /\ get_go pget (map (fun e => (fst e, shows s (snd e))) es) = Ok (map (rdv (fst r)) ws)
      | Raise e => get_go pget (map (fun e => (fst e, shows s (snd e))) es) = Raise e end.
Proof.
  intros IH S W'. induction es as [|[k q] es IHes]; intros h0 E0.
  - cbn. split; [apply ext_refl|]. split; [constructor|reflexivity].
  - inversion IH as [|? ? I1 I2]; subst. cbn [snd] in I1. cbn [hget_go map fst snd get_go].
    destruct (hget (Store h0 (s_objs s)) q) as [h1 r1] eqn:E1. change (Store h0 (s_objs s)) with (grown s h0) in E1.
    assert (Wq : sound_param s q) by (apply (W' (k, q)); left; reflexivity).
    destruct (I1 (grown s h0) h1 r1 (sound_grown s h0 S E0) Wq E1) as [X1 X2]. rewrite (shows_grown s h0 q S E0 Wq) in X2.
    destruct r1 as [w|e]; cbn [fst snd].
    + destruct X2 as [Y1 Y2]. specialize (IHes I2 (fun e He => W' e (or_intror He)) h1 (ext_trans _ _ _ E0 X1)). cbn zeta in IHes.
      destruct (hget_go hget (s_objs s) h1 es) as [h2 r2]. cbn [fst snd] in IHes. destruct IHes as [Z1 Z2].
      rewrite Y2. cbn [rbind]. destruct r2 as [ws|e]; cbn [fst snd].
      * destruct Z2 as [Z2 Z3]. split; [apply (ext_trans _ _ _ X1 Z1)|]. split.
        -- constructor; [apply (in_heap_ext _ _ _ Z1 Y1)|exact Z2].
        -- rewrite Z3. cbn [rbind map]. rewrite (rdv_ext _ _ _ Z1 Y1). reflexivity.
      * split; [apply (ext_trans _ _ _ X1 Z1)|]. rewrite Z2. reflexivity.
    + split; [exact X1|]. rewrite X2. reflexivity.
Qed.
Lemma dict_members s nm es fi vi fs vs : sound_param s (HDict nm es fi vi fs vs) -> forall e, In e es -> sound_param s (snd e).
Proof. intros W e He o Ho. apply W. cbn [objects]. apply in_flat_map. exists e. split; assumption. Qed.
Lemma hget_reads p : reader p.
Proof.
  induction p as [o|nm es fi vi fs vs IH] using hparam_rect'; intros s h r S W H.
  - apply leaf_reads; [exact S|apply W; left; reflexivity|exact H].
  - rewrite hget_dict in H. cbn zeta in H.
    pose proof (hget_go_reads es s IH S (dict_members _ _ _ _ _ _ _ W) (s_heap s) (ext_refl _)) as G.
    cbn zeta in G. destruct (hget_go hget (s_objs s) (s_heap s) es) as [h1 r1]. cbn [fst snd] in *.
    destruct G as [G1 G2]. pose proof (new_array_ok h1 (do ws <- r1; np_hstack (map (rdv h1) ws))) as [N1 N2]. rewrite H in N1, N2. cbn [fst snd] in N1, N2.
    split; [apply (ext_trans _ _ _ G1 N1)|]. cbn [shows]. rewrite pget_dict.
    assert (Q : (do l <- get_go pget (map (fun e => (fst e, shows s (snd e))) es); np_hstack l) = do ws <- r1; np_hstack (map (rdv h1) ws)).
    { destruct r1 as [ws|e]; [destruct G2 as [_ ->]|rewrite G2]; reflexivity. }
    rewrite Q. destruct r as [w|e]; [destruct N2 as (A & B & _); split; assumption|exact N2].
Qed.
Lemma hget_dict_new nm es fi vi fs vs s h w : sound_store s -> sound_param s (HDict nm es fi vi fs vs) -> hget s (HDict nm es fi vi fs vs) = (h, Ok w) ->
  exists a, w = PArr a /\ length (s_heap s) <= a_buf a.
Proof.
  intros S W H. rewrite hget_dict in H. cbn zeta in H.
  pose proof (hget_go_reads es s (proj2 (Forall_forall _ _) (fun e _ => hget_reads (snd e))) S (dict_members _ _ _ _ _ _ _ W) (s_heap s) (ext_refl _)) as G.
  cbn zeta in G. destruct (hget_go hget (s_objs s) (s_heap s) es) as [h1 r1]. cbn [fst snd] in *.
  destruct G as [G1 _]. pose proof (new_array_ok h1 (do ws <- r1; np_hstack (map (rdv h1) ws))) as [_ N2]. rewrite H in N2. cbn [fst snd] in N2.
  destruct N2 as (_ & _ & a & -> & L). exists a. split; [reflexivity|]. pose proof (ext_length _ _ G1). lia.
Qed.
End Getter.
Lemma free_leaf_reads s o h r : sound_store s -> o < length (s_objs s) -> hp_get_free s (HLeaf o) = (h, r) -> reads p_get_free s (HLeaf o) h r.
Proof.
  intros S Ho H. cbn [hp_get_free] in H. unfold h_get_free in H. pose proof (new_array_ok (s_heap s) (leaf_get_free (cur s o))) as [A B].
  rewrite H in A, B. cbn [fst snd] in A, B. split; [exact A|]. cbn [shows p_get_free]. destruct r as [w|e]; [destruct B as (B1 & B2 & _); split; assumption|exact B].
Qed.
Lemma vector_leaf_reads s o h r : sound_store s -> o < length (s_objs s) -> hp_get_vector s (HLeaf o) = (h, r) -> reads p_get_vector s (HLeaf o) h r.
Proof.
  intros S Ho H. cbn [hp_get_vector] in H. unfold h_get_vector in H.
  assert (NEW : new_array (s_heap s) (leaf_get_vector (cur s o)) = (h, r) -> reads p_get_vector s (HLeaf o) h r).
  { clear H. intros H. pose proof (new_array_ok (s_heap s) (leaf_get_vector (cur s o))) as [A B].
    rewrite H in A, B. cbn [fst snd] in A, B. split; [exact A|]. cbn [shows p_get_vector]. destruct r as [w|e]; [destruct B as (B1 & B2 & _); split; assumption|exact B]. }
  assert (GV : leaf_get (cur s o) = rdv (s_heap s) (h_get s o)) by (unfold cur; rewrite get_put; reflexivity).
  pose proof (S o Ho) as V. change (exists_in s (o_val (obj_at s o))) with (in_heap (s_heap s) (h_get s o)) in V.
  destruct (cur s o) as [p|p|p|p|p|p|p|p] eqn:EC; try (apply NEW; exact H).
  - pose proof (v_reshape_ok (s_heap s) (h_get s o) [1] V) as K. split.
    + destruct (v_reshape (s_heap s) (h_get s o) [1]) as [[h' w]|e]; injection H as <- <-; [apply K|apply ext_refl].
    + cbn [shows]. rewrite EC. cbn [p_get_vector leaf_get_vector]. unfold scalar_get_vector. cbn [leaf_get] in GV. rewrite GV.
      destruct (v_reshape (s_heap s) (h_get s o) [1]) as [[h' w]|e]; injection H as <- <-; [split; apply K|exact K].
  - injection H as <- <-. split; [apply ext_refl|]. split; [exact V|]. cbn [shows]. rewrite EC. cbn [p_get_vector leaf_get_vector].
    unfold vector_get_vector. cbn [leaf_get] in GV. rewrite GV. reflexivity.
  - injection H as <- <-. split; [apply ext_refl|]. split; [exact V|]. cbn [shows]. rewrite EC. cbn [p_get_vector leaf_get_vector].
    unfold subspace_get_vector. cbn [leaf_get] in GV. rewrite GV. reflexivity.
Qed.
Lemma get_free_reads p s h r : sound_store s -> sound_param s p -> hp_get_free s p = (h, r) -> reads p_get_free s p h r.
Proof. apply (hget_reads hp_get_free p_get_free free_leaf_reads); reflexivity. Qed.
Lemma get_vector_reads p s h r : sound_store s -> sound_param s p -> hp_get_vector s p = (h, r) -> reads p_get_vector s p h r.
Proof. apply (hget_reads hp_get_vector p_get_vector vector_leaf_reads); reflexivity. Qed.

(** ---- writes by the caller ---- *)
Lemma poke_length h a k x : length (poke h a k x) = length h.
Proof. unfold poke. destruct (nth_error _ _); [apply upd_length|reflexivity]. Qed.
Lemma poke_other h a k x b : b <> a_buf a -> buffer (poke h a k x) b = buffer h b.
Proof. intros N. unfold poke. destruct (nth_error _ _); [|reflexivity]. unfold buffer at 1. apply nth_upd_other. congruence. Qed.
Lemma after_writes_length ws : forall h, length (after_writes h ws) = length h.
Proof. induction ws as [|w ws IH]; intros h; [reflexivity|]. cbn. unfold after_writes in IH. rewrite IH. apply poke_length. Qed.
Lemma after_writes_other (P : nat -> Prop) ws : forall h b, Forall (fun w => P (a_buf (w_array w))) ws -> ~ P b -> buffer (after_writes h ws) b = buffer h b.
Proof.
  induction ws as [|w ws IH]; intros h b F N; [reflexivity|]. inversion F; subst.
  change (after_writes h (w :: ws)) with (after_writes (poke h (w_array w) (snd (fst w)) (snd w)) ws).
  rewrite IH by assumption. apply poke_other. intros ->. contradiction.
Qed.
Lemma shows_objs h objs objs' q : (forall o, In o (objects q) -> nth o objs no_obj = nth o objs' no_obj) -> shows (Store h objs) q = shows (Store h objs') q.
Proof.
  induction q as [o|nm es fi vi fs vs IH] using hparam_rect'; intros E.
  - cbn [shows]. unfold cur, obj_at. cbn [s_objs s_heap]. rewrite E by (left; reflexivity). reflexivity.
  - cbn [shows]. f_equal. apply map_ext_in. intros [k q] Hin. cbn [fst snd]. f_equal. rewrite Forall_forall in IH. apply (IH (k, q) Hin).
    intros o Ho. apply E. cbn [objects]. apply in_flat_map. exists (k, q). split; assumption.
Qed.
(** a tree whose values sit in buffers that do not differ shows the same *)
Lemma shows_buffers s h2 q : (forall o a, In o (objects q) -> o_val (obj_at s o) = PArr a -> buffer h2 (a_buf a) = buffer (s_heap s) (a_buf a)) ->
  shows (grown s h2) q = shows s q.
Proof.
  induction q as [o|nm es fi vi fs vs IH] using hparam_rect'; intros E.
  - cbn [shows]. f_equal. unfold cur, grown, obj_at. cbn [s_heap s_objs]. f_equal. specialize (E o).
    change (obj_at s o) with (nth o (s_objs s) no_obj) in E. destruct (o_val (nth o (s_objs s) no_obj)) as [x|a]; [reflexivity|]. cbn [rdv].
    unfold rd. rewrite (E a); [reflexivity|left; reflexivity|reflexivity].
  - cbn [shows]. f_equal. apply map_ext_in. intros [k q] Hin. cbn [fst snd]. f_equal. rewrite Forall_forall in IH. apply (IH (k, q) Hin).
    intros o a Ho. apply E. cbn [objects]. apply in_flat_map. exists (k, q). split; assumption.
Qed.
Lemma set_free_fresh p : forall s v s', sound_store s -> sound_param s p -> exists_in s v -> hp_set_free s p v = (s', Ok tt) ->
  forall o, In o (objects p) -> made_after s (o_val (obj_at s' o)).
Proof.
  induction p as [o|nm es fi vi fs vs IH] using hparam_rect'; intros s v s' S W V H.
  - intros o' [<-|[]]. apply (h_set_free_step s o v s' (Ok tt) S (W o (or_introl eq_refl)) V H). reflexivity.
  - rewrite hp_set_free_dict in H. destruct (negb _); [discriminate|]. cbn [objects].
    assert (W' : forall o, In o (flat_map (fun e => objects (snd e)) es) -> o < length (s_objs s)) by exact W. clear W.
    revert H. generalize 0. revert s S W' V. induction es as [|[k q] es IHes]; intros s S W V off H o Ho; [destruct Ho|].
    inversion IH as [|? ? I1 I2]; subst. cbn [snd flat_map] in I1, W, Ho. cbn [hset_go] in H.
    pose proof (v_slice_ok (s_heap s) v off (off + hp_free_size s q)) as K. destruct (v_slice v off (off + hp_free_size s q)) as [w|e]; [|discriminate].
    destruct K as [_ K]. specialize (K V). destruct (hp_set_free s q w) as [s1 r1] eqn:E1. destruct r1 as [[]|e]; [|discriminate].
    assert (W1 : sound_param s q) by (intros o' Ho'; apply W; apply in_or_app; left; exact Ho').
    pose proof (set_free_steps q s w s1 _ S W1 K E1) as T1.
    assert (W2 : forall o, In o (flat_map (fun e => objects (snd e)) es) -> o < length (s_objs s1)).
    { intros o' Ho'. destruct T1 as (_ & -> & _). apply W. apply in_or_app. right. exact Ho'. }
    assert (V1 : exists_in s1 v) by (apply (steps_exists _ _ _ _ T1 V)).
    destruct (in_dec Nat.eq_dec o (flat_map (fun e => objects (snd e)) es)) as [Hin|Nin].
    + apply (made_after_steps _ _ _ _ T1). apply (IHes I2 s1 (proj2 (proj2 (proj2 T1))) W2 V1 _ H o Hin).
    + assert (T2 : steps s1 (flat_map (fun e => objects (snd e)) es) s').
      { apply (hset_go_steps hp_free_size hp_set_free es) with (off := off + hp_free_size s1 q) (v := v) (r := Ok tt); try assumption; [|apply T1].
        apply Forall_forall. intros e _ s2 v2 s2' r2. apply set_free_steps. }
      destruct T2 as (_ & _ & T2 & _). rewrite T2 by exact Nin. apply in_app_or in Ho. destruct Ho as [Ho|Ho]; [|contradiction].
      apply (I1 s w s1 S W1 K E1 o Ho).
Qed.
Lemma written_grown s ws : written s ws = grown s (after_writes (s_heap s) ws). Proof. reflexivity. Qed.

(** C90 *)
Lemma set_free_isolated s p v s' ws : sound_store s -> sound_param s p -> exists_in s v -> hp_set_free s p v = (s', Ok tt) ->
  writes_to_existing s ws -> shows (written s' ws) p = shows s' p.
Proof.
  intros S W V H F. rewrite written_grown. apply shows_buffers. intros o a Ho E.
  pose proof (set_free_fresh p s v s' S W V H o Ho) as M. rewrite E in M. cbn in M.
  apply (after_writes_other (fun b => b < length (s_heap s))); [exact F|lia].
Qed.
Lemma get_free_new p s h w : sound_store s -> sound_param s p -> hp_get_free s p = (h, Ok w) -> exists a, w = PArr a /\ length (s_heap s) <= a_buf a.
Proof.
  intros S W H. destruct p as [o|nm es fi vi fs vs].
  - cbn [hp_get_free] in H. unfold h_get_free in H. pose proof (new_array_ok (s_heap s) (leaf_get_free (cur s o))) as [_ N]. rewrite H in N. apply N.
  - apply (hget_dict_new hp_get_free p_get_free free_leaf_reads (fun _ _ _ _ _ _ _ => eq_refl) (fun _ _ _ _ _ _ => eq_refl) nm es fi vi fs vs s h w S W H).
Qed.
Lemma get_vector_new nm es fi vi fs vs s h w : sound_store s -> sound_param s (HDict nm es fi vi fs vs) -> hp_get_vector s (HDict nm es fi vi fs vs) = (h, Ok w) ->
  exists a, w = PArr a /\ length (s_heap s) <= a_buf a.
Proof. apply (hget_dict_new hp_get_vector p_get_vector vector_leaf_reads (fun _ _ _ _ _ _ _ => eq_refl) (fun _ _ _ _ _ _ => eq_refl)). Qed.
(** writes to arrays made after s are not seen by what existed in s *)
Lemma late_writes s h ws q : sound_store s -> ext (s_heap s) h -> sound_param s q -> Forall (fun x => made_after s (PArr (w_array x))) ws ->
  shows (written (grown s h) ws) q = shows s q.
Proof.
  intros S E W F. rewrite written_grown. change (grown (grown s h) ?x) with (grown s x). cbn [grown s_heap]. apply shows_buffers. intros o a Ho EV.
  pose proof (S o (W o Ho)) as V. rewrite EV in V. cbn in V.
  rewrite (after_writes_other (fun b => length (s_heap s) <= b)); [|exact F|lia]. apply ext_buffer; assumption.
Qed.

(** ---- push_param ---- *)
Lemma od_set_map {V W} (f : V -> W) (d : list (string * V)) k v :
  map (fun e => (fst e, f (snd e))) (od_set d k v) = od_set (map (fun e => (fst e, f (snd e))) d) k (f v).
Proof. induction d as [|[a w] d IH]; cbn; [reflexivity|]. destruct (String.eqb k a); cbn; [reflexivity|]. rewrite IH. reflexivity. Qed.
Lemma hp_name_shows s p : hp_name s p = p_name (shows s p). Proof. destruct p; reflexivity. Qed.
Lemma hp_free_size_shows s p : hp_free_size s p = p_free_size (shows s p). Proof. destruct p; reflexivity. Qed.
Lemma hp_vector_size_shows s p : hp_vector_size s p = p_vector_size (shows s p). Proof. destruct p; reflexivity. Qed.
Lemma od_set_in {V} (d : list (string * V)) k v e : In e (od_set d k v) -> snd e = v \/ In e d.
Proof.
  induction d as [|[a w] d IH]; cbn; [intros [<-|[]]; left; reflexivity|]. destruct (String.eqb k a); cbn.
  - intros [<-|H]; [left; reflexivity|right; right; exact H].
  - intros [<-|H]; [right; left; reflexivity|]. destruct (IH H); auto.
Qed.
Lemma push_refines s d p : sound_param s d -> sound_param s p ->
  shows s (h_push_param s d p) = fst (push_param (shows s d) (shows s p)) /\ sound_param s (h_push_param s d p) /\
  (forall o, In o (objects (h_push_param s d p)) -> In o (objects d) \/ In o (objects p)).
Proof.
  intros Sd Sp. assert (O : forall o, In o (objects (h_push_param s d p)) -> In o (objects d) \/ In o (objects p)).
  { intros o. destruct d as [x|nm ents fi vi fs vs]; cbn [h_push_param objects]; [auto|]. rewrite !in_flat_map.
    intros (e & E & I). destruct (od_set_in _ _ _ _ E) as [Q|Q]; [right; rewrite <- Q; exact I|left; eauto]. }
  splits; [|intros o I; destruct (O o I) as [J|J]; [apply Sd|apply Sp]; exact J|exact O].
  destruct d as [x|nm ents fi vi fs vs]; [reflexivity|]. cbn [h_push_param shows push_param fst].
  rewrite !hp_name_shows, !hp_free_size_shows, !hp_vector_size_shows, od_set_map. reflexivity.
Qed.
