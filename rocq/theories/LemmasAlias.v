(** set_vector keeps views of the caller's vector; get and get_vector hand out stored arrays; shared objects (C91-C93). *)
From Coq Require Import String Reals List Bool Arith Lia.
From Verif Require Import Res Num Nd RSum ModelAutograd ModelSparse ModelParameters ModelMatrix ModelSimplex ModelProjection ModelDict ModelHeap.
From Verif Require Import SpecParameters SpecMatrix SpecSimplex SpecProjection SpecDict SpecHeap.
From Verif Require Import LemmasParameters LemmasLeaf LemmasDict LemmasHeap.
Import List ListNotations.
Open Scope nat_scope.
Set Bullet Behavior "Strict Subproofs".

Lemma overlay_true n new old : length new = n -> length old = n -> overlay (repeat true n) new old = new.
Proof. revert new old. induction n as [|n IH]; intros [|x new] [|y old] H1 H2; try discriminate; [reflexivity|]. cbn. f_equal. apply IH; cbn in *; lia. Qed.
Lemma overlay_false n new old : length new = n -> length old = n -> overlay (repeat false n) new old = old.
Proof. revert new old. induction n as [|n IH]; intros [|x new] [|y old] H1 H2; try discriminate; [reflexivity|]. cbn. f_equal. apply IH; cbn in *; lia. Qed.
Lemma overlay_app m1 m2 n1 n2 o1 o2 : length n1 = length m1 -> length o1 = length m1 ->
  overlay (m1 ++ m2) (n1 ++ n2) (o1 ++ o2) = overlay m1 n1 o1 ++ overlay m2 n2 o2.
Proof. revert n1 o1. induction m1 as [|b m1 IH]; intros [|x n1] [|y o1] H1 H2; try discriminate; [reflexivity|]. cbn. f_equal. apply IH; cbn in *; lia. Qed.

Definition at_pos (h : heap) (b : nat) (il : list nat) : list num := map (fun i => nth i (buffer h b) NaN) il.
Lemma rd_vec h b il : rd h (ARef b (nd_vec il)) = nd_vec (at_pos h b il).
Proof. unfold rd, nd_map, nd_vec, at_pos. cbn. rewrite map_length. reflexivity. Qed.
Lemma slice_at h b il lo hi : at_pos h b (slice il lo hi) = slice (at_pos h b il) lo hi.
Proof. unfold at_pos. rewrite slice_map. reflexivity. Qed.

Lemma live_length p : p_wf p -> length (live_positions p) = p_vector_size p.
Proof.
  induction p as [l|nm es fi vi fs vs IH] using param_rect'; intros W.
  - cbn. apply repeat_length.
  - inversion W as [|? ? ? ? ? ? _ F _ _ _ Evs]; subst. cbn [live_positions p_vector_size].
    clear W. induction es as [|[k q] es IHes]; [reflexivity|]. inversion IH; subst. inversion F; subst. cbn [flat_map snd total] in *.
    rewrite app_length, IHes by assumption. f_equal. auto.
Qed.
(** a class that keeps the reference reports the entries in it *)
Lemma keeps_get_vector l sh d0 d y0 : keeps_reference l = true -> leaf_get_vector (leaf_put l (Nd sh d0)) = Ok (nd_vec y0) ->
  length y0 = length d0 -> length d = length d0 -> leaf_get_vector (leaf_put l (Nd sh d)) = Ok (nd_vec d).
Proof.
  intros K H L1 L2. destruct l as [p|p|p|p|p|p|p|p]; try discriminate; cbn [leaf_put leaf_get_vector] in *.
  - unfold scalar_get_vector, np_reshape, nd_size in *. cbn [sp_val shape data] in *. destruct (Nat.eqb (nprod sh) (nprod [1])); [|discriminate].
    injection H as H1 H2. unfold nd_vec. rewrite L2, <- L1, <- H1. reflexivity.
  - unfold vector_get_vector in *. cbn [vp_val] in *. injection H as ? ?; subst. unfold nd_vec. rewrite L2; try rewrite L1; congruence.
  - unfold array_get_vector, np_flatten in *. cbn [ap_val shape data] in *. injection H as ? ?; subst. unfold nd_vec. rewrite L2; try rewrite L1; congruence.
  - unfold simplex_get_vector, np_flatten in *. cbn [sx_val shape data] in *. injection H as ? ?; subst. unfold nd_vec. rewrite L2; try rewrite L1; congruence.
  - unfold subspace_get_vector in *. cbn [sv_val] in *. injection H as ? ?; subst. unfold nd_vec. rewrite L2; try rewrite L1; congruence.
Qed.

(** h2: the heap after later writes that only reach buffers which existed in s *)
Definition later (s s' : store) (h2 : heap) : Prop :=
  forall b, length (s_heap s) <= b -> b < length (s_heap s') -> buffer h2 b = buffer (s_heap s') b.
Lemma later_sub s s' s1 s2 L M h2 : steps s L s1 -> steps s2 M s' -> later s s' h2 -> ext (s_heap s1) (s_heap s2) -> later s1 s2 h2.
Proof.
  intros (A & _) (B & _) H E b H1 H2. pose proof (ext_length _ _ A). pose proof (ext_length _ _ B).
  rewrite H by lia. apply ext_buffer; [exact B|exact H2].
Qed.
Lemma follow_leaf s o b il x s' h2 : sound_store s -> o < length (s_objs s) -> b < length (s_heap s) -> leaf_wf (cur s o) ->
  at_pos (s_heap s) b il = map Fin x -> length x = leaf_vector_size (cur s o) ->
  h_set_vector s o (PArr (ARef b (nd_vec il))) = (s', Ok tt) -> later s s' h2 ->
  leaf_get_vector (cur (grown s' h2) o) = Ok (nd_vec (overlay (repeat (keeps_reference (cur s o)) (leaf_vector_size (cur s o))) (at_pos h2 b il) (map Fin x))).
Proof.
  intros S Ho V W X L H LT. destruct (h_set_vector_step s o (PArr (ARef b (nd_vec il))) s' _ S Ho V H) as (T & C & _ & K). specialize (K eq_refl).
  cbn [rdv] in C. rewrite rd_vec, X in C. change (nd_vec (map Fin x)) with (fvec x) in C.
  destruct (leaf_vector_roundtrip _ x W L) as [l' [E1 E2]]. rewrite E1 in C. cbn [fst] in C. subst l'.
  assert (LI : length il = length x) by (rewrite <- (map_length Fin x), <- X; unfold at_pos; rewrite map_length; reflexivity).
  destruct (keeps_reference (cur s o)) eqn:EK.
  - cbn [kept_view a_buf a_idx data] in K. destruct K as [i [K1 K2]]. cbn [nd_vec data] in K2.
    rewrite overlay_true; [|unfold at_pos; rewrite map_length; congruence|rewrite map_length; exact L].
    assert (EC : cur s' o = leaf_put (o_leaf (obj_at s' o)) (Nd (shape i) (at_pos (s_heap s') b il))).
    { unfold cur. rewrite K1. cbn [rdv]. unfold rd, nd_map, at_pos. cbn [a_buf a_idx]. rewrite K2. reflexivity. }
    assert (EC2 : cur (grown s' h2) o = leaf_put (o_leaf (obj_at s' o)) (Nd (shape i) (at_pos h2 b il))).
    { unfold cur. change (obj_at (grown s' h2) o) with (obj_at s' o). rewrite K1. cbn [rdv grown s_heap]. unfold rd, nd_map, at_pos. cbn [a_buf a_idx]. rewrite K2. reflexivity. }
    assert (EK2 : keeps_reference (o_leaf (obj_at s' o)) = true).
    { rewrite <- EK. pose proof (leaf_set_vector_value (cur s o) (fvec x)) as VO. rewrite E1 in VO. unfold value_only in VO. cbn [fst snd] in VO.
      assert (Q : keeps_reference (cur s' o) = keeps_reference (cur s o)) by (rewrite VO at 1; apply put_keeps).
      rewrite <- Q, EC. symmetry. apply put_keeps. }
    rewrite EC in E2. rewrite EC2. apply (keeps_get_vector _ (shape i) (at_pos (s_heap s') b il) _ (map Fin x) EK2 E2); unfold at_pos; rewrite !map_length; congruence.
  - rewrite overlay_false; [|unfold at_pos; rewrite map_length; congruence|rewrite map_length; exact L].
    replace (cur (grown s' h2) o) with (cur s' o); [exact E2|].
    assert (EX : exists_in s' (o_val (obj_at s' o))) by apply T. unfold cur. change (obj_at (grown s' h2) o) with (obj_at s' o). f_equal.
    destruct (o_val (obj_at s' o)) as [y|a]; [reflexivity|]. cbn in K, EX |- *. unfold rd. rewrite LT by assumption. reflexivity.
Qed.
Lemma total_shows s es : total p_vector_size (map (fun e => (fst e, shows s (snd e))) es) = fold_right Nat.add 0 (map (fun e => p_vector_size (shows s (snd e))) es).
Proof. induction es as [|[k q] es IH]; [reflexivity|]. cbn. rewrite IH. reflexivity. Qed.
Lemma skipn_add {A} (l : list A) a c : skipn c (skipn a l) = skipn (a + c) l.
Proof. revert l. induction a as [|a IH]; intros l; [reflexivity|]. destruct l as [|x l]; [rewrite !skipn_nil; reflexivity|]. apply IH. Qed.
Lemma slice_skipn {A} (l : list A) off n m : off + n + m = length l -> skipn off l = slice l off (off + n) ++ skipn (off + n) l.
Proof.
  intros H. unfold slice. replace (off + n - off) with n by lia.
  rewrite <- (firstn_skipn n (skipn off l)) at 1. f_equal. apply skipn_add.
Qed.
Lemma follow p : forall s b il x s' h2, sound_store s -> sound_param s p -> NoDup (objects p) -> b < length (s_heap s) -> p_wf (shows s p) -> populated (shows s p) ->
  at_pos (s_heap s) b il = map Fin x -> length x = p_vector_size (shows s p) ->
  hp_set_vector s p (PArr (ARef b (nd_vec il))) = (s', Ok tt) -> later s s' h2 ->
  p_get_vector (shows (grown s' h2) p) = Ok (nd_vec (overlay (live_positions (shows s p)) (at_pos h2 b il) (map Fin x))).
Proof.
  induction p as [o|nm es fi vi fs vs IH] using hparam_rect'; intros s b il x s' h2 S W ND V Wf Pop X L H LT.
  - cbn [shows p_get_vector live_positions p_vector_size]. apply follow_leaf with (s := s) (s' := s'); try assumption.
    + apply W. left. reflexivity.
    + inversion Wf; assumption.
  - cbn [shows] in Wf, Pop, L |- *. inversion Wf as [|? ? ? ? ? ? _ F _ _ Efs Evs]; subst fi vi fs vs. clear Wf.
    cbn [p_vector_size] in L. rewrite p_get_vector_dict. rewrite hp_set_vector_dict in H. destruct (negb _); [discriminate|].
    cbn [live_positions]. cbn [objects] in ND. destruct Pop as [NE Pop].
    assert (LI : length il = length x) by (rewrite <- (map_length Fin x), <- X; unfold at_pos; rewrite map_length; reflexivity).
    assert (G : forall off s, sound_store s -> (forall o, In o (flat_map (fun e => objects (snd e)) es) -> o < length (s_objs s)) -> b < length (s_heap s) ->
      at_pos (s_heap s) b il = map Fin x ->
      Forall (fun e => p_wf (snd e)) (map (fun e => (fst e, shows s (snd e))) es) -> Forall (fun e => populated (snd e)) (map (fun e => (fst e, shows s (snd e))) es) ->
      off + total p_vector_size (map (fun e => (fst e, shows s (snd e))) es) = length x ->
      hset_go hp_vector_size hp_set_vector (PArr (ARef b (nd_vec il))) s es off = (s', Ok tt) -> later s s' h2 ->
      exists ls, get_go p_get_vector (map (fun e => (fst e, shows (grown s' h2) (snd e))) es) = Ok (map nd_vec ls) /\ length ls = length es /\
        List.concat ls = overlay (flat_map (fun e => live_positions (snd e)) (map (fun e => (fst e, shows s (snd e))) es)) (skipn off (at_pos h2 b il)) (skipn off (map Fin x))).
    2:{ destruct (G 0 s S W V X F) as [ls (G1 & G2 & G3)]; try assumption.
        - clear -Pop. induction es as [|[k q] es IHes]; [constructor|]. destruct Pop as [P1 P2]. constructor; [exact P1|apply IHes; exact P2].
        - lia.
        - rewrite G1. cbn [rbind]. rewrite np_hstack_vecs.
          + rewrite G3. reflexivity.
          + intros ->. destruct es; [cbn in NE; congruence|discriminate]. }
    clear -ND IH LI. revert ND IH. induction es as [|[k q] es IHes]; intros ND IH off s1 S W V X F Pop L H LT.
    + cbn in H |- *. exists []. splits; reflexivity.
    + inversion IH as [|? ? I1 I2]; subst. inversion F as [|? ? F1 F2]; subst. inversion Pop as [|? ? Po1 Po2]; subst.
      cbn [map fst snd total flat_map] in *. cbn [hset_go] in H. rewrite vector_size_shows in H. cbn [v_slice a_idx a_buf] in H.
      set (n := p_vector_size (shows s1 q)) in *. rewrite np_slice_vec in H by lia. cbn [rbind] in H.
      destruct (hp_set_vector s1 q (PArr (ARef b (nd_vec (slice il off (off + n)))))) as [s2 r2] eqn:E2.
      destruct r2 as [[]|e]; [|discriminate].
      assert (W1 : sound_param s1 q) by (intros o Ho; apply W; apply in_or_app; left; exact Ho).
      destruct (nodup_app _ _ ND) as (ND1 & ND2 & DJ).
      pose proof (set_vector_steps q s1 (PArr (ARef b (nd_vec (slice il off (off + n))))) s2 _ S W1 V E2) as T1.
      assert (W2 : forall o, In o (flat_map (fun e => objects (snd e)) es) -> o < length (s_objs s2)).
      { intros o Ho. destruct T1 as (_ & -> & _). apply W. apply in_or_app. right. exact Ho. }
      assert (T2 : steps s2 (flat_map (fun e => objects (snd e)) es) s').
      { apply (hset_go_steps hp_vector_size hp_set_vector es) with (off := off + hp_vector_size s2 q) (v := PArr (ARef b (nd_vec il))) (r := Ok tt).
        - apply Forall_forall. intros e _ s3 v3 s3' r3. apply set_vector_steps.
        - apply T1.
        - exact W2.
        - apply (steps_exists _ _ _ (PArr (ARef b (nd_vec il))) T1 V).
        - exact H. }
      assert (SQ : p_vector_size (shows s2 q) = n).
      { destruct (set_vector_refines s1 q (PArr (ARef b (nd_vec (slice il off (off + n))))) s2 _ S W1 ND1 V E2) as (R & _).
        unfold n. destruct (p_set_vector_sizes (shows s1 q) (rdv (s_heap s1) (PArr (ARef b (nd_vec (slice il off (off + n))))))) as [[_ Z] _].
        rewrite R in Z. exact Z. }
      assert (TL : map (fun e => (fst e, shows s2 (snd e))) es = map (fun e => (fst e, shows s1 (snd e))) es).
      { apply map_ext_in. intros [k' q'] Hin. cbn [fst snd]. f_equal. apply (steps_shows s1 (objects q) s2 q' S T1).
        - intros o Ho. apply W. apply in_or_app. right. apply in_flat_map. exists (k', q'). split; assumption.
        - intros o Ho Hq. apply (DJ o Hq). apply in_flat_map. exists (k', q'). split; assumption. }
      assert (LT1 : later s1 s2 h2).
      { intros b' B1 B2. rewrite LT; [|exact B1|pose proof (ext_length _ _ (proj1 T2)); lia]. apply ext_buffer; [apply T2|exact B2]. }
      assert (LT2 : later s2 s' h2).
      { intros b' B1 B2. apply LT; [pose proof (ext_length _ _ (proj1 T1)); lia|exact B2]. }
      assert (XQ : at_pos (s_heap s1) b (slice il off (off + n)) = map Fin (slice x off (off + n))) by (rewrite slice_at, X, slice_map; reflexivity).
      assert (LQ : length (slice x off (off + n)) = n) by (rewrite slice_length by lia; lia).
      pose proof (I1 s1 b (slice il off (off + n)) (slice x off (off + n)) s2 h2 S W1 ND1 V F1 Po1 XQ LQ E2 LT1) as R1.
      rewrite vector_size_shows, SQ in H.
      destruct (IHes ND2 I2 (off + n) s2) as [ls (G1 & G2 & G3)]; try assumption.
      * apply T1.
      * pose proof (ext_length _ _ (proj1 T1)). lia.
      * rewrite <- X. unfold at_pos. rewrite (ext_buffer _ _ _ (proj1 T1) V). reflexivity.
      * rewrite TL. exact F2.
      * rewrite TL. exact Po2.
      * rewrite TL. lia.
      * cbn [get_go]. replace (shows (grown s' h2) q) with (shows (grown s2 h2) q).
        2:{ unfold grown. apply shows_objs. intros o Ho. symmetry. apply T2. intros Hin. apply (DJ o Ho Hin). }
        rewrite R1. cbn [rbind]. rewrite G1. cbn [rbind]. eexists (_ :: ls). cbn [map length List.concat]. splits; [reflexivity|congruence|].
        rewrite G3, TL. set (new := at_pos h2 b il). set (old := map Fin x).
        assert (LN : length new = length x) by (unfold new, at_pos; rewrite map_length; exact LI).
        assert (LO : length old = length x) by (unfold old; rewrite map_length; reflexivity).
        set (rest := total p_vector_size (map (fun e => (fst e, shows s1 (snd e))) es)) in *.
        rewrite (slice_skipn new off n rest) by lia. rewrite (slice_skipn old off n rest) by lia.
        rewrite overlay_app.
        -- unfold new, old. rewrite slice_at, slice_map. reflexivity.
        -- rewrite live_length by exact F1. rewrite slice_length by lia. unfold n. lia.
        -- rewrite live_length by exact F1. rewrite slice_length by lia. unfold n. lia.
Qed.

(** ---- C91 ---- *)
Lemma set_vector_follows s p b il x : sound_store s -> sound_param s p -> NoDup (objects p) -> b < length (s_heap s) -> reachable (shows s p) -> populated (shows s p) ->
  rd (s_heap s) (ARef b (nd_vec il)) = fvec x -> length x = p_vector_size (shows s p) ->
  exists s', hp_set_vector s p (PArr (ARef b (nd_vec il))) = (s', Ok tt) /\
    forall ws, writes_to_existing s ws ->
      p_get_vector (shows (written s' ws) p) =
        Ok (nd_vec (overlay (live_positions (shows s p)) (data (rd (s_heap (written s' ws)) (ARef b (nd_vec il)))) (map Fin x))).
Proof.
  intros S W ND V R Pop X L. apply reachable_wf in R.
  destruct (hp_set_vector s p (PArr (ARef b (nd_vec il)))) as [s' r] eqn:E. exists s'.
  destruct (set_vector_refines s p (PArr (ARef b (nd_vec il))) s' r S W ND V E) as (Q & _).
  destruct (p_vector_roundtrip _ x R Pop L) as [p' [Q1 _]]. cbn [rdv] in Q. rewrite X, Q1 in Q. injection Q as _ <-.
  split; [reflexivity|]. intros ws F. rewrite written_grown. rewrite rd_vec.
  assert (X' : at_pos (s_heap s) b il = map Fin x) by (rewrite rd_vec in X; apply (f_equal (@data num)) in X; exact X).
  apply (follow p s b il x s'); try assumption.
  intros b' B1 B2. apply (after_writes_other (fun b => b < length (s_heap s))); [exact F|lia].
Qed.

(** ---- C92 ---- *)
Lemma map_nth_upd (il : list nat) (l : list num) k i x : NoDup il -> nth_error il k = Some i -> i < length l ->
  map (fun j => nth j (upd l i x) NaN) il = upd (map (fun j => nth j l NaN) il) k x.
Proof.
  revert k. induction il as [|j il IH]; intros k N E Hi; [destruct k; discriminate|]. inversion N as [|? ? N1 N2]; subst. destruct k as [|k]; cbn in E.
  - injection E as ->. cbn [map upd]. rewrite nth_upd_same by exact Hi. f_equal. apply map_ext_in. intros j Hj. apply nth_upd_other. congruence.
  - cbn [map upd]. rewrite (IH k) by assumption. f_equal. apply nth_upd_other. intros ->. apply N1. eapply nth_error_In. exact E.
Qed.
Lemma get_aliases s o a k x : h_get s o = PArr a -> proper_array s a -> k < length (data (a_idx a)) ->
  leaf_get (cur (written s [(a, k, x)]) o) = Nd (shape (leaf_get (cur s o))) (upd (data (leaf_get (cur s o))) k x).
Proof.
  intros E (V & N & I) K. rewrite Forall_forall in I. unfold h_get in E. unfold cur. change (obj_at (written s _) o) with (obj_at s o). rewrite E. rewrite !get_put. cbn [rdv].
  unfold rd at 1. unfold nd_map. cbn [written s_heap after_writes fold_left w_array fst snd].
  destruct (nth_error (data (a_idx a)) k) as [i|] eqn:Ei; [|apply nth_error_None in Ei; lia].
  unfold poke. rewrite Ei. unfold buffer at 1. rewrite nth_upd_same by exact V. unfold rd, nd_map. cbn [shape data]. f_equal.
  apply map_nth_upd; [exact N|exact Ei|]. apply I. eapply nth_error_In. exact Ei.
Qed.
Lemma shows_cur s s' o : shows s (HLeaf o) = shows s' (HLeaf o) -> cur s o = cur s' o. Proof. intros H. injection H as H. exact H. Qed.
Lemma get_vector_outcome s o h g : sound_store s -> o < length (s_objs s) -> h_get_vector s o = (h, Ok g) ->
  match hands_out (cur s o), h_get s o with
  | true, PArr a => h = s_heap s /\ exists i, g = PArr (ARef (a_buf a) i) /\ data i = data (a_idx a)
  | true, PNum _ => made_after s g
  | false, _ => made_after s g
  end.
Proof.
  intros S Ho H. unfold h_get_vector in H.
  assert (NEW : forall r, new_array (s_heap s) r = (h, Ok g) -> made_after s g).
  { intros r Hr. unfold new_array in Hr. destruct r; [|discriminate]. injection Hr as <- <-. cbn. lia. }
  destruct (cur s o); cbn [hands_out]; try (apply NEW in H; exact H).
  - unfold v_reshape in H. destruct (h_get s o) as [y|a].
    + destruct (np_reshape (nd_scalar y) [1]); cbn in H; [|discriminate]. injection H as <- <-. cbn. lia.
    + unfold np_reshape in H. destruct (Nat.eqb _ _); cbn in H; [|discriminate]. injection H as <- <-. split; [reflexivity|]. eexists. split; reflexivity.
  - injection H as <- <-. destruct (h_get s o) as [y|[b i]]; [exact I|]. split; [reflexivity|]. exists i. split; reflexivity.
  - injection H as <- <-. destruct (h_get s o) as [y|[b i]]; [exact I|]. split; [reflexivity|]. exists i. split; reflexivity.
Qed.
Lemma get_vector_ext s o : ext (s_heap s) (fst (h_get_vector s o)).
Proof.
  assert (N : forall r, ext (s_heap s) (fst (new_array (s_heap s) r))) by (intros r; unfold new_array; destruct r; [apply ext_alloc|apply ext_refl]).
  unfold h_get_vector. destruct (cur s o); try apply N; try apply ext_refl.
  unfold v_reshape. destruct (h_get s o); [destruct (np_reshape (nd_scalar x) [1])|destruct (np_reshape (a_idx a) [1])]; cbn; try apply ext_refl.
  exists [data a]. reflexivity.
Qed.
Lemma get_vector_aliases s o h a g k x : sound_store s -> o < length (s_objs s) -> h_get s o = PArr a -> proper_array s a -> h_get_vector s o = (h, Ok (PArr g)) ->
  k < length (data (a_idx a)) ->
  leaf_get (cur (written (Store h (s_objs s)) [(g, k, x)]) o) =
    if hands_out (cur s o) then Nd (shape (leaf_get (cur s o))) (upd (data (leaf_get (cur s o))) k x) else leaf_get (cur s o).
Proof.
  intros S Ho E P H K. pose proof (get_vector_outcome s o h (PArr g) S Ho H) as Q. rewrite E in Q. destruct (hands_out (cur s o)).
  - destruct Q as [-> [i [Q1 Q2]]]. injection Q1 as ->. rewrite <- (get_aliases s o a k x E P K). f_equal. f_equal. unfold written. cbn [s_heap s_objs]. f_equal.
    unfold after_writes. cbn [fold_left w_array fst snd]. unfold poke. cbn [a_idx a_buf]. rewrite Q2. reflexivity.
  - f_equal. apply shows_cur. apply (late_writes s h); [exact S| |intros o' [<-|[]]; exact Ho|].
    + pose proof (get_vector_ext s o) as X. rewrite H in X. exact X.
    + constructor; [exact Q|constructor].
Qed.

(** ---- C93: the same object several times ---- *)
Ltac same_outcome := repeat (match goal with
  | |- context [match ?x with _ => _ end] =>
      lazymatch x with context [match _ with _ => _ end] => fail | _ => destruct x end
  end; cbn [fst snd]); first [intros HH; discriminate HH | intros HH; exact HH].
Lemma pv_set_free_core p a v l' : lift LPosDefV (pv_set_free p v) = (l', Ok tt) -> lift LPosDefV (pv_set_free (PosDefV (pv_name p) (pv_length p) (pv_size p) (pv_lb p) a) v) = (l', Ok tt).
Proof.
  unfold pv_set_free. change (pv_free_size (PosDefV (pv_name p) (pv_length p) (pv_size p) (pv_lb p) a)) with (pv_free_size p).
  set (r := do ms <- rmapM _ (seq 0 (pv_length p)); _).
  change (do ms <- rmapM _ (seq 0 (pv_length (PosDefV (pv_name p) (pv_length p) (pv_size p) (pv_lb p) a))); _) with r.
  unfold lift. destruct (negb _); cbn [fst snd]; [discriminate|]. destruct r; cbn [fst snd]; [|discriminate]. intros H. exact H.
Qed.
Lemma pa_set_free_core p a v l' : lift LPosDefA (pa_set_free p v) = (l', Ok tt) -> lift LPosDefA (pa_set_free (PosDefA (pa_name p) (pa_ashape p) (pa_size p) (pa_lb p) a) v) = (l', Ok tt).
Proof.
  unfold pa_set_free. change (pa_free_size (PosDefA (pa_name p) (pa_ashape p) (pa_size p) (pa_lb p) a)) with (pa_free_size p).
  set (r := do ms <- rmapM _ (product (pa_ashape p)); _).
  change (do ms <- rmapM _ (product (pa_ashape (PosDefA (pa_name p) (pa_ashape p) (pa_size p) (pa_lb p) a))); _) with r.
  unfold lift. destruct (negb _); cbn [fst snd]; [discriminate|]. destruct r; cbn [fst snd]; [|discriminate]. intros H. exact H.
Qed.
Lemma set_free_ignores_value l a v l' : leaf_set_free l v = (l', Ok tt) -> leaf_set_free (leaf_put l a) v = (l', Ok tt).
Proof.
  destruct l as [p|p|p|p|p|p|p|p]; cbn [leaf_set_free leaf_put]; try apply pv_set_free_core; try apply pa_set_free_core; unfold lift;
  unfold scalar_set_free, vector_set_free, array_set_free, posdef_set_free, simplex_set_free, subspace_set_free,
    scalar_set, vector_set, array_set, posdef_set, simplex_set, subspace_set, array_free_size, pd_vec_size, sx_free_size, sx_free_shape, sx_shape, sv_free_size; cbn [sp_name sp_lb sp_ub vp_name vp_size vp_lb vp_ub ap_name ap_shape ap_lb ap_ub pd_name pd_size pd_lb sx_name sx_rows sx_cols sv_name sv_dim sv_cons sv_basis].
  all: same_outcome.
Qed.
Definition piece (b : nat) (il : list nat) (i n : nat) : pyval := PArr (ARef b (nd_vec (slice il i (i + n)))).
Fixpoint set_each (s : store) (occ : list (nat * nat)) (b : nat) (il : list nat) : store * res unit :=
  match occ with
  | [] => (s, Ok tt)
  | (o, i) :: tl => match h_set_free s o (piece b il i (leaf_free_size (cur s o))) with
                    | (s1, Ok _) => set_each s1 tl b il
                    | (s1, Raise e) => (s1, Raise e)
                    end
  end.
Lemma set_each_app s l1 l2 b il : set_each s (l1 ++ l2) b il =
  match set_each s l1 b il with (s1, Ok _) => set_each s1 l2 b il | (s1, Raise e) => (s1, Raise e) end.
Proof.
  revert s. induction l1 as [|[o i] l1 IH]; intros s; [reflexivity|]. cbn [app set_each].
  destruct (h_set_free s o (piece b il i (leaf_free_size (cur s o)))) as [s1 [[]|e]]; [apply IH|reflexivity].
Qed.
(** the objects' sizes are those of s *)
Definition sized (s s' : store) : Prop := forall o, leaf_free_size (cur s' o) = leaf_free_size (cur s o).
Fixpoint occ_go (s : store) (es : list (string * hparam)) (off : nat) : list (nat * nat) :=
  match es with [] => [] | (_, q) :: tl => occurrences s q off ++ occ_go s tl (off + hp_free_size s q) end.
Lemma occurrences_dict s nm es fi vi fs vs off : occurrences s (HDict nm es fi vi fs vs) off = occ_go s es off.
Proof. cbn [occurrences]. revert off. induction es as [|[k q] es IH]; intros off; [reflexivity|]. cbn [occ_go]. rewrite <- IH. reflexivity. Qed.
Lemma sized_free s s' p : sized s s' -> hp_free_size s' p = hp_free_size s p.
Proof. intros H. destruct p; [apply H|reflexivity]. Qed.
Lemma occurrences_sized s s' p : sized s s' -> forall off, occurrences s' p off = occurrences s p off.
Proof.
  intros Z. induction p as [o|nm es fi vi fs vs IH] using hparam_rect'; intros off; [reflexivity|]. rewrite !occurrences_dict.
  revert off. induction es as [|[k q] es IHes]; intros off; [reflexivity|]. inversion IH; subst. cbn [occ_go snd] in *. rewrite (sized_free s s' q Z). f_equal; auto.
Qed.
Lemma occ_go_sized s s' es : sized s s' -> forall off, occ_go s' es off = occ_go s es off.
Proof.
  intros Z. induction es as [|[k q] es IH]; intros off; [reflexivity|]. cbn [occ_go]. rewrite (occurrences_sized s s' q Z), (sized_free s s' q Z). f_equal. apply IH.
Qed.
Lemma h_set_free_sized s o v s' r : sound_store s -> o < length (s_objs s) -> exists_in s v -> h_set_free s o v = (s', r) -> sized s s'.
Proof.
  intros S Ho V H o'. destruct (h_set_free_step s o v s' r S Ho V H) as (T & C & _). destruct (Nat.eq_dec o' o) as [->|N].
  - rewrite C. apply leaf_set_free_sizes.
  - destruct (Nat.lt_ge_cases o' (length (s_objs s))) as [L|L].
    + rewrite (steps_cur s [o] s' o' S (step_steps _ _ _ S T)); [reflexivity|intros [E|[]]; congruence|exact L].
    + unfold cur. destruct T as (_ & _ & T & _). rewrite T by exact N. unfold obj_at. rewrite nth_overflow by exact L. reflexivity.
Qed.
Lemma slice_slice {A} (l : list A) a n c m : c + m <= n -> slice (slice l a (a + n)) c (c + m) = slice l (a + c) (a + c + m).
Proof.
  intros H. unfold slice. rewrite <- skipn_add. replace (a + c + m - (a + c)) with m by lia. replace (c + m - c) with m by lia. replace (a + n - a) with n by lia.
  generalize (skipn a l) as k. clear l a. revert n H. induction c as [|c IH]; intros n H k; cbn [skipn].
  - cbn [skipn]. rewrite firstn_firstn. f_equal. lia.
  - destruct n as [|n]; [lia|]. destruct k as [|y k]; [cbn; destruct m; reflexivity|]. cbn [firstn skipn]. apply IH. lia.
Qed.
Lemma sized_trans s1 s2 s3 : sized s1 s2 -> sized s2 s3 -> sized s1 s3. Proof. intros A B o. rewrite B. apply A. Qed.
Lemma set_each_sized b il occ : forall s s' r, sound_store s -> (forall o, In o (map fst occ) -> o < length (s_objs s)) -> b < length (s_heap s) ->
  set_each s occ b il = (s', r) -> sized s s' /\ steps s (map fst occ) s'.
Proof.
  induction occ as [|[o i] occ IH]; intros s s' r S W V H.
  - injection H as <- <-. split; [intros o; reflexivity|apply steps_refl; exact S].
  - cbn [set_each] in H. destruct (h_set_free s o (piece b il i (leaf_free_size (cur s o)))) as [s1 r1] eqn:E1. cbn [map fst] in W.
    assert (Ho : o < length (s_objs s)) by (apply W; left; reflexivity).
    pose proof (h_set_free_sized s o (piece b il i (leaf_free_size (cur s o))) s1 r1 S Ho V E1) as Z.
    destruct (h_set_free_step s o (piece b il i (leaf_free_size (cur s o))) s1 r1 S Ho V E1) as (T & _). apply (step_steps _ _ _ S) in T.
    destruct r1 as [[]|e].
    + destruct (IH s1 s' r) as [Z2 T2].
      * apply T.
      * intros o' Ho'. destruct T as (_ & -> & _). apply W. right. exact Ho'.
      * pose proof (ext_length _ _ (proj1 T)). lia.
      * exact H.
      * split; [exact (sized_trans _ _ _ Z Z2)|]. cbn [map fst]. change (o :: map fst occ) with ([o] ++ map fst occ). exact (steps_app _ _ _ _ _ T T2).
    + injection H as <- <-. split; [exact Z|]. eapply steps_weaken; [|exact T]. intros o' [<-|[]]. left. reflexivity.
Qed.
Lemma occ_objects s p : forall off, map fst (occurrences s p off) = objects p.
Proof.
  induction p as [o|nm es fi vi fs vs IH] using hparam_rect'; intros off; [reflexivity|]. rewrite occurrences_dict. cbn [objects].
  revert off. induction es as [|[k q] es IHes]; intros off; [reflexivity|]. inversion IH; subst. cbn [occ_go flat_map snd] in *. rewrite map_app. f_equal; auto.
Qed.
(** the sizes the dictionaries carry are the sums of their members' *)
Definition sizes_of (s : store) (es : list (string * hparam)) : nat := fold_right (fun e n => hp_free_size s (snd e) + n) 0 es.
Inductive fits (s : store) : hparam -> Prop :=
| fits_leaf o : fits s (HLeaf o)
| fits_dict nm es fi vi fs vs : Forall (fun e => fits s (snd e)) es -> fs = sizes_of s es -> fits s (HDict nm es fi vi fs vs).
Lemma sizes_of_sized s s' es : sized s s' -> sizes_of s' es = sizes_of s es.
Proof. intros Z. induction es as [|e es IH]; [reflexivity|]. cbn [sizes_of fold_right]. rewrite (sized_free s s' _ Z). f_equal. exact IH. Qed.
Lemma fits_sized s s' p : sized s s' -> fits s p -> fits s' p.
Proof.
  intros Z. induction p as [o|nm es fi vi fs vs IH] using hparam_rect'; intros F; [constructor|]. inversion F as [|? ? ? ? ? ? F1 F2]; subst. constructor.
  - rewrite Forall_forall in *. intros e He. apply IH; [exact He|]. apply F1. exact He.
  - symmetry. apply sizes_of_sized. exact Z.
Qed.
Lemma wf_fits s p : p_wf (shows s p) -> fits s p.
Proof.
  induction p as [o|nm es fi vi fs vs IH] using hparam_rect'; intros W; [constructor|]. cbn [shows] in W. inversion W as [|? ? ? ? ? ? _ F _ _ Efs _]. subst.
  constructor.
  - rewrite Forall_map in F. rewrite Forall_forall in *. intros e He. apply IH; [exact He|]. apply F. exact He.
  - clear. induction es as [|[k q] es IH]; [reflexivity|]. cbn [map total fst snd sizes_of fold_right]. rewrite free_size_shows. f_equal. exact IH.
Qed.
(** the tree's set_free is the leaves' set_free, one after the other *)
Lemma set_free_each p : forall s b il off, sound_store s -> sound_param s p -> b < length (s_heap s) -> fits s p -> off + hp_free_size s p <= length il ->
  hp_set_free s p (piece b il off (hp_free_size s p)) = set_each s (occurrences s p off) b il.
Proof.
  induction p as [o|nm es fi vi fs vs IH] using hparam_rect'; intros s b il off S W V Wf L.
  - cbn [hp_set_free occurrences set_each hp_free_size]. destruct (h_set_free s o (piece b il off (leaf_free_size (cur s o)))) as [s1 [[]|e]]; reflexivity.
  - rewrite hp_set_free_dict, occurrences_dict. cbn [hp_free_size] in L |- *.
    assert (NS : nd_size (rdv (s_heap s) (piece b il off fs)) = fs).
    { unfold piece. cbn [rdv]. rewrite rd_vec. unfold nd_size, nd_vec, at_pos. cbn. rewrite map_length, slice_length by lia. unfold nprod. cbn [fold_right]. lia. }
    rewrite NS. rewrite Nat.eqb_refl. cbn [negb]. inversion Wf as [|? ? ? ? ? ? F Efs]. subst nm0 es0 fi0 vi0 fs0 vs0. clear Wf NS.
    assert (G : forall es' k s', Forall (fun e => forall s b il off, sound_store s -> sound_param s (snd e) -> b < length (s_heap s) -> fits s (snd e) -> off + hp_free_size s (snd e) <= length il ->
        hp_set_free s (snd e) (piece b il off (hp_free_size s (snd e))) = set_each s (occurrences s (snd e) off) b il) es' ->
        sound_store s' -> (forall o, In o (flat_map (fun e => objects (snd e)) es') -> o < length (s_objs s')) -> b < length (s_heap s') ->
        Forall (fun e => fits s' (snd e)) es' -> k + sizes_of s' es' = fs ->
        hset_go hp_free_size hp_set_free (piece b il off fs) s' es' k = set_each s' (occ_go s' es' (off + k)) b il).
    2:{ replace (occ_go s es off) with (occ_go s es (off + 0)) by (f_equal; lia). apply G; try assumption. symmetry. exact Efs. }
    clear -L. induction es' as [|[k' q] es' IHes]; intros k s' IH S W V F Sz; [reflexivity|].
    inversion IH as [|? ? I1 I2]; subst x l. inversion F as [|? ? F1 F2]; subst x l. cbn [snd sizes_of fold_right] in *. cbn [hset_go occ_go].
    fold (sizes_of s' es') in Sz. set (n := hp_free_size s' q) in *. set (rest := sizes_of s' es') in *.
    unfold piece at 1. cbn [v_slice a_idx a_buf].
    rewrite np_slice_vec by (try rewrite slice_length; lia). cbn [rbind]. rewrite slice_slice by lia.
    assert (W1 : sound_param s' q) by (intros o Ho; apply W; cbn [flat_map snd]; apply in_or_app; left; exact Ho).
    assert (LL : off + k + hp_free_size s' q <= length il) by (fold n; lia).
    rewrite set_each_app. rewrite <- (I1 s' b il (off + k) S W1 V F1 LL).
    change (PArr (ARef b (nd_vec (slice il (off + k) (off + k + n))))) with (piece b il (off + k) n). fold n.
    destruct (hp_set_free s' q (piece b il (off + k) n)) as [s1 r1] eqn:E1. destruct r1 as [[]|e]; [|reflexivity].
    assert (E2 := E1). unfold n in E2. rewrite (I1 s' b il (off + k) S W1 V F1 LL) in E2.
    assert (WO : forall o, In o (map fst (occurrences s' q (off + k))) -> o < length (s_objs s')) by (rewrite occ_objects; exact W1).
    destruct (set_each_sized b il _ s' s1 (Ok tt) S WO V E2) as [Z T].
    rewrite (sized_free s' s1 q Z). fold n. rewrite <- (occ_go_sized s' s1 es' Z). replace (off + k + n) with (off + (k + n)) by lia.
    apply IHes; [exact I2|apply T| | | |].
    + intros o Ho. destruct T as (_ & -> & _). apply W. cbn [flat_map snd]. apply in_or_app. right. exact Ho.
    + pose proof (ext_length _ _ (proj1 T)). lia.
    + eapply Forall_impl; [|exact F2]. intros e. apply fits_sized. exact Z.
    + rewrite (sizes_of_sized s' s1 es' Z). fold rest. lia.
Qed.

(** what the leaves hold after all of it *)
Lemma put_of_value l v l' : leaf_set_free l v = (l', Ok tt) -> exists a, l' = leaf_put l a.
Proof. intros H. pose proof (leaf_set_free_value l v) as V. rewrite H in V. unfold value_only in V. cbn [fst snd] in V. eauto. Qed.
Lemma set_each_holds b il x : forall occ s, sound_store s -> (forall o, In o (map fst occ) -> o < length (s_objs s)) -> b < length (s_heap s) ->
  (forall o, In o (map fst occ) -> leaf_wf (cur s o)) -> at_pos (s_heap s) b il = map Fin x ->
  (forall o i, In (o, i) occ -> i + leaf_free_size (cur s o) <= length x) ->
  exists s', set_each s occ b il = (s', Ok tt) /\
    (forall o i, last_slice occ o i -> leaf_get_free (cur s' o) = Ok (fvec (slice x i (i + leaf_free_size (cur s o))))) /\
    (forall o, ~ In o (map fst occ) -> o < length (s_objs s) -> cur s' o = cur s o).
Proof.
  induction occ as [|[o i] occ IH]; intros s S W V Wf X B.
  - exists s. splits; [reflexivity| |reflexivity]. intros o i (l1 & l2 & E & _). destruct l1; discriminate.
  - cbn [set_each map fst] in *. set (n := leaf_free_size (cur s o)) in *.
    assert (Ho : o < length (s_objs s)) by (apply W; left; reflexivity).
    assert (Bo : i + n <= length x) by (apply B; left; reflexivity).
    destruct (h_set_free s o (piece b il i n)) as [s1 r1] eqn:E1.
    destruct (h_set_free_step s o (piece b il i n) s1 r1 S Ho V E1) as (T & C & R & _). pose proof (h_set_free_sized s o (piece b il i n) s1 r1 S Ho V E1) as Z.
    apply (step_steps _ _ _ S) in T.
    assert (XR : rdv (s_heap s) (piece b il i n) = fvec (slice x i (i + n))).
    { unfold piece. cbn [rdv]. rewrite rd_vec, slice_at, X, slice_map. reflexivity. }
    rewrite XR in C, R. assert (LS : length (slice x i (i + n)) = n) by (rewrite slice_length by exact Bo; lia).
    assert (WO : leaf_wf (cur s o)) by (apply Wf; left; reflexivity).
    destruct (leaf_free_roundtrip (cur s o) _ WO LS) as [l' [v (Q1 & Q2 & _)]].
    rewrite Q1 in C, R. cbn [fst snd] in C, R. subst r1.
    assert (O : forall o', o' <> o -> o' < length (s_objs s) -> cur s1 o' = cur s o').
    { intros o' N L. apply (steps_cur s [o] s1 o' S T); [intros [E|[]]; congruence|exact L]. }
    destruct (IH s1) as [s' (A & K & U)].
    + apply T.
    + intros o' H'. destruct T as (_ & -> & _). apply W. right. exact H'.
    + pose proof (ext_length _ _ (proj1 T)). lia.
    + intros o' H'. destruct (Nat.eq_dec o' o) as [->|N].
      * rewrite C. pose proof (leaf_set_free_wf (cur s o) (map Fin (slice x i (i + n))) WO) as Q. change (nd_vec (map Fin ?y)) with (fvec y) in Q. rewrite Q1 in Q. exact Q.
      * rewrite O; [apply Wf; right; exact H'|exact N|apply W; right; exact H'].
    + rewrite <- X. unfold at_pos. rewrite (ext_buffer _ _ _ (proj1 T) V). reflexivity.
    + intros o' j H'. rewrite Z. apply B. right. exact H'.
    + exists s'. splits; [exact A| |].
      * intros o' j (l1 & l2 & E & N). destruct l1 as [|[o1 i1] l1]; cbn in E.
        -- injection E as <- <- <-. rewrite (U o N); [|destruct T as (_ & -> & _); exact Ho]. rewrite C. exact Q2.
        -- injection E as <- <- E. rewrite <- Z. apply K. exists l1, l2. split; assumption.
      * intros o' N L. rewrite (U o'); [apply O; [intros ->; apply N; left; reflexivity|exact L]|intros H'; apply N; right; exact H'|].
        destruct T as (_ & -> & _). exact L.
Qed.
Lemma last_exists occ o : In o (map fst occ) -> exists i, last_slice occ o i.
Proof.
  induction occ as [|[o' i'] occ IH]; intros H; [destruct H|]. cbn in H. destruct (in_dec Nat.eq_dec o (map fst occ)) as [Hin|N].
  - destruct (IH Hin) as [i (l1 & l2 & -> & N)]. exists i, ((o', i') :: l1), l2. split; [reflexivity|exact N].
  - destruct H as [<-|H]; [|contradiction]. exists i', [], occ. split; [reflexivity|exact N].
Qed.
Lemma last_in occ o i : last_slice occ o i -> In (o, i) occ.
Proof. intros (l1 & l2 & -> & _). apply in_or_app. right. left. reflexivity. Qed.
(** what the tree reports when the leaves report g *)
Lemma get_free_each s g p : (forall o, In o (objects p) -> leaf_get_free (cur s o) = Ok (nd_vec (g o))) -> populated (shows s p) ->
  p_get_free (shows s p) = Ok (nd_vec (List.concat (map g (objects p)))).
Proof.
  induction p as [o|nm es fi vi fs vs IH] using hparam_rect'; intros H Pop.
  - cbn [shows p_get_free objects map List.concat]. rewrite app_nil_r. apply H. left. reflexivity.
  - cbn [shows] in *. apply populated_ents in Pop as [NE Pop]. rewrite p_get_free_dict. cbn [objects] in *.
    rewrite (get_go_vecs p_get_free _ (map (fun e => List.concat (map g (objects (snd e)))) es)).
    + cbn [rbind]. rewrite np_hstack_vecs.
      * f_equal. f_equal. clear. induction es as [|e es IH]; [reflexivity|]. cbn [map List.concat flat_map]. rewrite map_app, concat_app, IH. reflexivity.
      * intros E. apply map_eq_nil in E. subst. apply NE. reflexivity.
    + clear NE. induction es as [|[k q] es IHes]; [constructor|]. cbn [map] in *. inversion IH; subst. inversion Pop; subst. cbn [fst snd flat_map] in *. constructor.
      * cbn [snd]. apply H2; [|assumption]. intros o Ho. apply H. apply in_or_app. left. exact Ho.
      * apply IHes; try assumption. intros o Ho. apply H. apply in_or_app. right. exact Ho.
Qed.
(** the slices are consecutive *)
Lemma occ_bound s p : fits s p -> forall off o i, In (o, i) (occurrences s p off) -> off <= i /\ i + leaf_free_size (cur s o) <= off + hp_free_size s p.
Proof.
  induction p as [o|nm es fi vi fs vs IH] using hparam_rect'; intros F off o' i H.
  - cbn in H. destruct H as [E|[]]. injection E as <- <-. cbn [hp_free_size]. lia.
  - rewrite occurrences_dict in H. inversion F as [|? ? ? ? ? ? F1 F2]. subst. cbn [hp_free_size]. clear F.
    revert off H. induction es as [|[k q] es IHes]; intros off H; [destruct H|]. inversion IH as [|? ? I1 I2]; subst. inversion F1 as [|? ? G1 G2]; subst. cbn [occ_go sizes_of fold_right snd] in *.
    fold (sizes_of s es). apply in_app_or in H. destruct H as [H|H].
    + apply (I1 G1) in H. lia.
    + apply (IHes I2 G2) in H. lia.
Qed.
Lemma occ_concat {A} s p (l : list A) : fits s p -> forall off, off + hp_free_size s p <= length l ->
  List.concat (map (fun oi => slice l (snd oi) (snd oi + leaf_free_size (cur s (fst oi)))) (occurrences s p off)) = slice l off (off + hp_free_size s p).
Proof.
  induction p as [o|nm es fi vi fs vs IH] using hparam_rect'; intros F off L.
  - cbn. apply app_nil_r.
  - rewrite occurrences_dict. inversion F as [|? ? ? ? ? ? F1 F2]. subst. cbn [hp_free_size] in *. clear F.
    revert off L. induction es as [|[k q] es IHes]; intros off L.
    + cbn [occ_go map List.concat sizes_of fold_right]. unfold slice. rewrite Nat.add_0_r, Nat.sub_diag. reflexivity.
    + inversion IH as [|? ? I1 I2]; subst. inversion F1 as [|? ? G1 G2]; subst. cbn [occ_go sizes_of fold_right snd] in *. fold (sizes_of s es) in *.
      rewrite map_app, concat_app, (I1 G1) by lia. rewrite (IHes I2 G2) by lia.
      unfold slice. rewrite <- skipn_add.
      replace (off + (hp_free_size s q + sizes_of s es) - off) with (hp_free_size s q + sizes_of s es) by lia.
      replace (off + hp_free_size s q - off) with (hp_free_size s q) by lia.
      replace (off + hp_free_size s q + sizes_of s es - (off + hp_free_size s q)) with (sizes_of s es) by lia.
      generalize (skipn off l) (hp_free_size s q) (sizes_of s es). clear. intros l n m. revert l. induction n as [|n IH]; intros l; [reflexivity|].
      destruct l as [|y l]; [cbn; rewrite !firstn_nil; reflexivity|]. cbn [firstn skipn app Nat.add]. f_equal. apply IH.
Qed.
Lemma concat_pieces {A B} (f g : B -> list A) (l : list B) : (forall y, In y l -> length (f y) = length (g y)) ->
  List.concat (map f l) = List.concat (map g l) -> forall y, In y l -> f y = g y.
Proof.
  induction l as [|z l IH]; intros L H y Hy; [destruct Hy|]. cbn [map List.concat] in H.
  assert (E : f z = g z /\ List.concat (map f l) = List.concat (map g l)).
  { assert (Lz : length (f z) = length (g z)) by (apply L; left; reflexivity). revert Lz H. generalize (f z) (g z). clear. intros u. induction u as [|a u IH]; intros [|c w] L H; try discriminate.
    - split; [reflexivity|exact H].
    - cbn in H. injection H as -> H. destruct (IH w) as [-> E]; [cbn in L; lia|exact H|]. split; [reflexivity|exact E]. }
  destruct E as [E1 E2]. destruct Hy as [<-|Hy]; [exact E1|]. apply IH; [intros; apply L; right; assumption|exact E2|exact Hy].
Qed.
Lemma map_Fin_inj (u w : list R) : map Fin u = map Fin w -> u = w.
Proof. revert w. induction u as [|a u IH]; intros [|c w] H; try discriminate; [reflexivity|]. cbn in H. injection H as -> H. f_equal. apply IH. exact H. Qed.
Lemma shared_objects s p b il x : sound_store s -> sound_param s p -> b < length (s_heap s) -> reachable (shows s p) -> populated (shows s p) ->
  rd (s_heap s) (ARef b (nd_vec il)) = fvec x -> length x = p_free_size (shows s p) ->
  exists s', hp_set_free s p (PArr (ARef b (nd_vec il))) = (s', Ok tt) /\
    (forall o i, last_slice (occurrences s p 0) o i -> leaf_get_free (cur s' o) = Ok (fvec (slice x i (i + leaf_free_size (cur s o))))) /\
    (p_get_free (shows s' p) = Ok (fvec x) <->
     forall o i j, In (o, i) (occurrences s p 0) -> In (o, j) (occurrences s p 0) ->
       slice x i (i + leaf_free_size (cur s o)) = slice x j (j + leaf_free_size (cur s o))).
Proof.
  intros S W V Re Pop X L. apply reachable_wf in Re. pose proof (wf_fits s p Re) as F.
  assert (X' : at_pos (s_heap s) b il = map Fin x) by (rewrite rd_vec in X; apply (f_equal (@data num)) in X; exact X).
  assert (LI : length il = length x) by (rewrite <- (map_length Fin x), <- X'; unfold at_pos; rewrite map_length; reflexivity).
  rewrite <- free_size_shows in L.
  assert (LW : forall o, In o (objects p) -> leaf_wf (cur s o)).
  { clear -Re. induction p as [o|nm es fi vi fs vs IH] using hparam_rect'; intros o' H.
    - destruct H as [<-|[]]. inversion Re; assumption.
    - cbn [shows] in Re. inversion Re as [|? ? ? ? ? ? _ F _ _ _ _]; subst. rewrite Forall_map in F. cbn [objects] in H. apply in_flat_map in H as [e [H1 H2]].
      rewrite Forall_forall in *. apply (IH e H1); [apply F; exact H1|exact H2]. }
  assert (B : forall o i, In (o, i) (occurrences s p 0) -> i + leaf_free_size (cur s o) <= length x).
  { intros o i H. apply (occ_bound s p F) in H. lia. }
  pose proof (set_free_each p s b il 0 S W V F) as E. unfold piece in E. cbn [Nat.add] in E.
  replace (slice il 0 (hp_free_size s p)) with il in E by (rewrite <- L, <- LI; symmetry; apply slice_all).
  rewrite E by lia. clear E.
  destruct (set_each_holds b il x (occurrences s p 0) s S) as [s' (A & K & _)]; try assumption; try (rewrite occ_objects; assumption).
  assert (Z : sized s s') by (apply (set_each_sized b il (occurrences s p 0) s s' (Ok tt) S); [rewrite occ_objects; exact W|exact V|exact A]).
  exists s'. splits; [exact A|exact K|].
  (** g: what each object reports *)
  set (occ := occurrences s p 0) in *.
  assert (G : exists g : nat -> list R, forall o, In o (objects p) -> exists i, last_slice occ o i /\ g o = slice x i (i + leaf_free_size (cur s o))).
  { exists (fun o => match leaf_get_free (cur s' o) with Ok a => map (fun y => match y with Fin r => r | _ => 0%R end) (data a) | Raise _ => [] end).
    intros o Ho. destruct (last_exists occ o) as [i Hi]; [unfold occ; rewrite occ_objects; exact Ho|]. exists i. split; [exact Hi|].
    rewrite (K o i Hi). cbn [fvec nd_vec data]. rewrite map_map. apply map_id. }
  destruct G as [g G].
  assert (PG : p_get_free (shows s' p) = Ok (fvec (List.concat (map g (objects p))))).
  { rewrite (get_free_each s' (fun o => map Fin (g o)) p).
    - unfold fvec. rewrite concat_map, map_map. reflexivity.
    - intros o Ho. destruct (G o Ho) as [i [Hi ->]]. apply K. exact Hi.
    - clear -Pop. revert Pop. generalize p. clear p. induction p as [o|nm es fi vi fs vs IH] using hparam_rect'; intros Pop; [exact I|].
      cbn [shows] in *. apply populated_ents in Pop as [NE Pop]. apply populated_ents. split; [destruct es; [exact NE|discriminate]|].
      rewrite Forall_map in *. rewrite Forall_forall in *. intros e He. apply IH; [exact He|]. apply Pop. exact He. }
  rewrite PG. pose proof (occ_objects s p 0) as OO. fold occ in OO. rewrite <- OO, map_map in PG |- *. pose proof (occ_concat s p x F 0) as OC. cbn [Nat.add] in OC. fold occ in OC.
  assert (XX : slice x 0 (hp_free_size s p) = x) by (rewrite <- L; apply slice_all). rewrite XX in OC. specialize (OC ltac:(lia)).
  assert (GI : forall o i, In (o, i) occ -> In o (objects p)) by (intros o i H; rewrite <- OO; apply (in_map fst) in H; exact H).
  split.
  - intros H. injection H as _ H. apply map_Fin_inj in H.
    assert (Q : forall oi, In oi occ -> g (fst oi) = slice x (snd oi) (snd oi + leaf_free_size (cur s (fst oi)))).
    { apply (concat_pieces (fun oi => g (fst oi)) (fun oi => slice x (snd oi) (snd oi + leaf_free_size (cur s (fst oi))))); [|congruence].
      intros [o i] Hin. cbn [fst snd]. destruct (G o (GI o i Hin)) as [j [Hj ->]]. pose proof (B o i Hin). pose proof (B o j (last_in _ _ _ Hj)). rewrite !slice_length by lia. lia. }
    intros o i j Hi Hj. pose proof (Q (o, i) Hi) as Q1. pose proof (Q (o, j) Hj) as Q2. cbn [fst snd] in Q1, Q2. congruence.
  - intros H. f_equal. f_equal. etransitivity; [|exact OC]. f_equal. apply map_ext_in. intros [o i] Hin. cbn [fst snd].
    destruct (G o (GI o i Hin)) as [j [Hj ->]]. apply H; [apply last_in; exact Hj|exact Hin].
Qed.

(** ---- the getters (C89) and the corollary of C90 ---- *)
Lemma getter_refines (hget : store -> hparam -> heap * res pyval) (pget : param -> res arr)
  (HR : forall p s h r, sound_store s -> sound_param s p -> hget s p = (h, r) -> reads pget s p h r) s p h r :
  sound_store s -> sound_param s p -> hget s p = (h, r) ->
  pget (shows s p) = rmap (rdv h) r /\ arrays_kept s (Store h (s_objs s)) /\ (forall q, sound_param s q -> shows (Store h (s_objs s)) q = shows s q).
Proof.
  intros S W H. destruct (HR p s h r S W H) as [E K]. splits.
  - destruct r; cbn; [apply K|exact K].
  - intros v V. split; [apply (in_heap_ext (s_heap s) h v E V)|apply (rdv_ext _ _ _ E V)].
  - intros q Wq. apply (shows_grown s h q S E Wq).
Qed.
Lemma get_free_refines s p h r : sound_store s -> sound_param s p -> hp_get_free s p = (h, r) ->
  p_get_free (shows s p) = rmap (rdv h) r /\ arrays_kept s (Store h (s_objs s)) /\ (forall q, sound_param s q -> shows (Store h (s_objs s)) q = shows s q).
Proof. apply (getter_refines hp_get_free p_get_free). intros p0 s0. apply get_free_reads. Qed.
Lemma get_vector_refines s p h r : sound_store s -> sound_param s p -> hp_get_vector s p = (h, r) ->
  p_get_vector (shows s p) = rmap (rdv h) r /\ arrays_kept s (Store h (s_objs s)) /\ (forall q, sound_param s q -> shows (Store h (s_objs s)) q = shows s q).
Proof. apply (getter_refines hp_get_vector p_get_vector). intros p0 s0. apply get_vector_reads. Qed.
Lemma set_free_keeps_nothing s p v x : sound_store s -> sound_param s p -> NoDup (objects p) -> exists_in s v -> reachable (shows s p) -> populated (shows s p) ->
  rdv (s_heap s) v = fvec x -> length x = p_free_size (shows s p) ->
  exists s', hp_set_free s p v = (s', Ok tt) /\ forall ws, writes_to_existing s ws -> p_get_free (shows (written s' ws) p) = Ok (fvec x).
Proof.
  intros S W ND V Re Pop X L. apply reachable_wf in Re. destruct (hp_set_free s p v) as [s' r] eqn:E. exists s'.
  destruct (set_free_refines s p v s' r S W ND V E) as (Q & _). destruct (p_free_roundtrip _ x Re Pop L) as [p' [w (Q1 & Q2 & _)]].
  rewrite X, Q1 in Q. assert (r = Ok tt) as -> by congruence. split; [reflexivity|]. intros ws F.
  rewrite (set_free_isolated s p v s' ws S W V E F). assert (shows s' p = p') as -> by congruence. exact Q2.
Qed.
Lemma get_free_isolated s p h a ws q : sound_store s -> sound_param s p -> sound_param s q -> hp_get_free s p = (h, Ok (PArr a)) ->
  Forall (fun w => a_buf (w_array w) = a_buf a) ws -> shows (written (Store h (s_objs s)) ws) q = shows s q.
Proof.
  intros S W Wq H F. destruct (get_free_reads p s h _ S W H) as [E _]. destruct (get_free_new p s h (PArr a) S W H) as [a' [Ea L]]. injection Ea as <-.
  apply (late_writes s h ws q S E Wq). eapply Forall_impl; [|exact F]. intros w Hw. cbn. rewrite Hw. exact L.
Qed.
Lemma get_vector_isolated s nm es fi vi fs vs h a ws q : sound_store s -> sound_param s (HDict nm es fi vi fs vs) -> sound_param s q ->
  hp_get_vector s (HDict nm es fi vi fs vs) = (h, Ok (PArr a)) ->
  Forall (fun w => a_buf (w_array w) = a_buf a) ws -> shows (written (Store h (s_objs s)) ws) q = shows s q.
Proof.
  intros S W Wq H F. destruct (get_vector_reads _ s h _ S W H) as [E _]. destruct (get_vector_new nm es fi vi fs vs s h (PArr a) S W H) as [a' [Ea L]]. injection Ea as <-.
  apply (late_writes s h ws q S E Wq). eapply Forall_impl; [|exact F]. intros w Hw. cbn. rewrite Hw. exact L.
Qed.

(** ---- deepcopy and make_index_param (C94) ---- *)
Lemma copy_cur s p o : sound_store s -> o < length (s_objs s) -> cur (fst (h_deepcopy s p)) (length (s_objs s) + o) = cur s o.
Proof.
  intros S Ho. unfold cur, obj_at, h_deepcopy. cbn [fst s_objs s_heap]. rewrite app_nth2 by lia. replace (length (s_objs s) + o - length (s_objs s)) with o by lia.
  rewrite (nth_indep _ no_obj (Obj (o_leaf no_obj) (shift_val (length (s_heap s)) (o_val no_obj)))) by (rewrite map_length; exact Ho).
  rewrite (map_nth (fun o => Obj (o_leaf o) (shift_val (length (s_heap s)) (o_val o)))). cbn [o_leaf o_val]. f_equal. specialize (S o Ho). unfold obj_at in S.
  destruct (o_val (nth o (s_objs s) no_obj)) as [y|a]; [reflexivity|]. cbn in S |- *. unfold rd, buffer. cbn [a_buf a_idx]. rewrite app_nth2 by lia.
  replace (length (s_heap s) + a_buf a - length (s_heap s)) with (a_buf a) by lia. reflexivity.
Qed.
Lemma copy_old s p o : sound_store s -> o < length (s_objs s) -> cur (fst (h_deepcopy s p)) o = cur s o.
Proof.
  intros S Ho. unfold cur, obj_at, h_deepcopy. cbn [fst s_objs s_heap]. rewrite app_nth1 by exact Ho. f_equal. specialize (S o Ho). unfold obj_at in S.
  destruct (o_val (nth o (s_objs s) no_obj)) as [y|a]; [reflexivity|]. cbn in S |- *. unfold rd, buffer. rewrite app_nth1 by exact S. reflexivity.
Qed.
Lemma copy_objects n p : objects (shift_param n p) = map (fun o => n + o) (objects p).
Proof.
  induction p as [o|nm es fi vi fs vs IH] using hparam_rect'; [reflexivity|]. cbn [shift_param objects].
  induction es as [|[k q] es IHes]; [reflexivity|]. inversion IH; subst. cbn [map flat_map fst snd] in *. rewrite map_app. f_equal; auto.
Qed.
Lemma copy_shows s p0 p : sound_store s -> sound_param s p -> shows (fst (h_deepcopy s p0)) (shift_param (length (s_objs s)) p) = shows s p.
Proof.
  intros S. induction p as [o|nm es fi vi fs vs IH] using hparam_rect'; intros W.
  - cbn [shift_param shows]. rewrite copy_cur; [reflexivity|exact S|apply W; left; reflexivity].
  - cbn [shift_param shows]. f_equal. rewrite map_map. apply map_ext_in. intros e He. cbn [fst snd]. f_equal. rewrite Forall_forall in IH. apply IH; [exact He|].
    intros o Ho. apply W. cbn [objects]. apply in_flat_map. exists e. split; assumption.
Qed.
Lemma old_shows s p0 p : sound_store s -> sound_param s p -> shows (fst (h_deepcopy s p0)) p = shows s p.
Proof.
  intros S. induction p as [o|nm es fi vi fs vs IH] using hparam_rect'; intros W.
  - cbn [shows]. rewrite copy_old; [reflexivity|exact S|apply W; left; reflexivity].
  - cbn [shows]. f_equal. apply map_ext_in. intros e He. f_equal. rewrite Forall_forall in IH. apply IH; [exact He|].
    intros o Ho. apply W. cbn [objects]. apply in_flat_map. exists e. split; assumption.
Qed.
Lemma copy_sound s p : sound_store s -> sound_store (fst (h_deepcopy s p)).
Proof.
  intros S o Ho. unfold h_deepcopy, obj_at, exists_in in *. cbn [fst s_objs s_heap] in *. rewrite app_length, map_length in Ho. rewrite app_length.
  destruct (Nat.lt_ge_cases o (length (s_objs s))) as [L|L].
  - rewrite app_nth1 by exact L. specialize (S o L). unfold obj_at, exists_in in S. destruct (o_val (nth o (s_objs s) no_obj)); [exact I|lia].
  - rewrite app_nth2 by exact L. set (k := o - length (s_objs s)). assert (K : k < length (s_objs s)) by (unfold k; lia).
    rewrite (nth_indep _ no_obj (Obj (o_leaf no_obj) (shift_val (length (s_heap s)) (o_val no_obj)))) by (rewrite map_length; exact K).
    rewrite (map_nth (fun o => Obj (o_leaf o) (shift_val (length (s_heap s)) (o_val o)))). cbn [o_val]. specialize (S k K). unfold obj_at, exists_in in S.
    destruct (o_val (nth k (s_objs s) no_obj)); [exact I|]. cbn. lia.
Qed.
Lemma copy_kept s p : arrays_kept s (fst (h_deepcopy s p)).
Proof.
  intros [y|a] V; cbn in *; [split; [exact I|reflexivity]|]. rewrite app_length. split; [lia|]. unfold rd, buffer. rewrite app_nth1 by exact V. reflexivity.
Qed.
Lemma deepcopy_ok s p s' q : sound_store s -> sound_param s p -> h_deepcopy s p = (s', q) ->
  shows s' q = shows s p /\ sound_store s' /\ sound_param s' q /\ arrays_kept s s' /\ (NoDup (objects p) -> NoDup (objects q)) /\
  (forall r, sound_param s r -> sound_param s' r /\ shows s' r = shows s r /\ forall o, In o (objects r) -> ~ In o (objects q)).
Proof.
  intros S W H. assert (s' = fst (h_deepcopy s p)) as -> by (rewrite H; reflexivity). assert (q = shift_param (length (s_objs s)) p) as -> by (unfold h_deepcopy in H; congruence). clear H.
  splits.
  - apply copy_shows; assumption.
  - apply copy_sound; assumption.
  - intros o Ho. rewrite copy_objects in Ho. apply in_map_iff in Ho as [o' [<- Ho]]. apply W in Ho. unfold h_deepcopy. cbn [fst s_objs]. rewrite app_length, map_length. lia.
  - apply copy_kept.
  - rewrite copy_objects. intros N. clear -N. induction N as [|o l Hn N IH]; [constructor|]. cbn [map]. constructor; [|exact IH]. intros Hin. apply in_map_iff in Hin as [o' [E Ho]]. assert (o' = o) by lia. subst. contradiction.
  - intros r Wr. splits.
    + intros o Ho. apply Wr in Ho. unfold h_deepcopy. cbn [fst s_objs]. rewrite app_length. lia.
    + apply old_shows; assumption.
    + intros o Ho Hq. rewrite copy_objects in Hq. apply in_map_iff in Hq as [o' [<- _]]. apply Wr in Ho. lia.
Qed.
Lemma kept_trans s1 s2 s3 : arrays_kept s1 s2 -> arrays_kept s2 s3 -> arrays_kept s1 s3.
Proof. intros A B v V. destruct (A v V) as [A1 A2]. destruct (B v A1) as [B1 B2]. split; [exact B1|congruence]. Qed.
Lemma make_index_refines s p s' q r : sound_store s -> sound_param s p -> NoDup (objects p) -> h_make_index_param s p = (s', q, r) ->
  make_index_param (shows s p) = (shows s' q, r) /\ sound_store s' /\ sound_param s' q /\ arrays_kept s s' /\
  (forall t, sound_param s t -> shows s' t = shows s t /\ forall o, In o (objects t) -> ~ In o (objects q)).
Proof.
  intros S W ND H. unfold h_make_index_param in H. destruct (h_deepcopy s p) as [s1 q1] eqn:E1.
  destruct (deepcopy_ok s p s1 q1 S W E1) as (A1 & A2 & A3 & A4 & A5 & A6). specialize (A5 ND).
  set (a := nd_vec (map (fun k => Fin (INR k)) (seq 0 (hp_vector_size s1 q1)))) in H.
  assert (X : ext (s_heap s1) (fst (alloc (s_heap s1) a))) by apply ext_alloc. pose proof (rdv_alloc (s_heap s1) a) as RA.
  assert (VA : exists_in (grown s1 (fst (alloc (s_heap s1) a))) (snd (alloc (s_heap s1) a))) by (cbn; rewrite app_length; cbn; lia).
  destruct (alloc (s_heap s1) a) as [h2 v] eqn:E2. cbn [fst snd] in *.
  change (Store h2 (s_objs s1)) with (grown s1 h2) in H. destruct (hp_set_vector (grown s1 h2) q1 v) as [s2 r2] eqn:E3. injection H as <- <- <-.
  pose proof (sound_grown s1 h2 A2 X) as S2.
  destruct (set_vector_refines (grown s1 h2) q1 v s2 r2 S2 A3 A5 VA E3) as (B1 & B2 & B3 & B4 & B5).
  rewrite (shows_grown s1 h2 q1 A2 X A3), A1 in B1. cbn [grown s_heap] in B1. rewrite RA in B1.
  splits.
  - unfold make_index_param. unfold a in B1. rewrite vector_size_shows, A1 in B1. exact B1.
  - exact B2.
  - exact B3.
  - apply (kept_trans s s1); [exact A4|]. apply (kept_trans s1 (grown s1 h2)); [|exact B4].
    intros w V. split; [apply (in_heap_ext _ _ _ X V)|apply (rdv_ext _ _ _ X V)].
  - intros t Wt. destruct (A6 t Wt) as (C1 & C2 & C3). split; [|exact C3].
    rewrite (B5 t C1 C3). rewrite (shows_grown s1 h2 t A2 X C1). exact C2.
Qed.
