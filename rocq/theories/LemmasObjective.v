(** Proofs for the objective wrappers (C42-C47). *)
From Coq Require Import String Reals List Bool Arith ZArith Lia Lra.
From Coquelicot Require Import Coquelicot.
From Verif Require Import Res Num Nd RSum ModelAutograd ModelSparse ModelParameters ModelMatrix ModelSimplex ModelProjection ModelDict ModelObjective.
From Verif Require Import SpecParameters SpecMatrix SpecSimplex SpecProjection SpecDict SpecObjective.
From Verif Require Import LemmasParameters LemmasLeaf LemmasDict LemmasDictCalc LemmasChain.
Import List ListNotations.
Open Scope R_scope.
Set Bullet Behavior "Strict Subproofs".

(** ---- leaves: the setters overwrite ---- *)
Lemma leaf_set_with l a : exists v, fst (leaf_set l a) = leaf_with l v.
Proof.
  destruct l as [p|p|p|p|p|p|p|p]; cbn [leaf_set lift fst];
  unfold scalar_set, vector_set, array_set, posdef_set, pv_set, pa_set, simplex_set, subspace_set.
  - eexists; reflexivity.
  - destruct (negb _); [exists (vp_val p); destruct p|exists a]; reflexivity.
  - destruct (negb _); [exists (ap_val p); destruct p|exists a]; reflexivity.
  - destruct (shape a) as [|r [|c [|]]]; try (exists (pd_val p); destruct p; reflexivity). destruct (_ || _); [exists (pd_val p); destruct p; reflexivity|].
    destruct (negb _); [exists (pd_val p); destruct p|exists a]; reflexivity.
  - destruct (shape_ne_all _ _) as [[|]|]; [exists (pv_val p); destruct p|exists a|exists (pv_val p); destruct p]; reflexivity.
  - destruct (shape_ne_all _ _) as [[|]|]; [exists (pa_val p); destruct p|exists a|exists (pa_val p); destruct p]; reflexivity.
  - destruct (negb _); [exists (sx_val p); destruct p|exists a]; reflexivity.
  - destruct (negb _); [exists (sv_val p); destruct p|exists a]; reflexivity.
Qed.
Lemma self_with l : exists v, l = leaf_with l v.
Proof. exists (leaf_get l). symmetry. apply leaf_with_self. Qed.
Lemma leaf_set_vector_with l a : exists v, fst (leaf_set_vector l a) = leaf_with l v.
Proof.
  destruct l as [p|p|p|p|p|p|p|p]; cbn [leaf_set_vector lift fst];
  unfold scalar_set_vector, vector_set_vector, array_set_vector, posdef_set_vector, pv_set_vector, pa_set_vector, simplex_set_vector, subspace_set_vector.
  - eexists; reflexivity.
  - apply (leaf_set_with (LVector p)).
  - destruct (negb _); [apply (self_with (LArray p))|]. destruct (np_reshape _ _); [|apply (self_with (LArray p))]. apply (leaf_set_with (LArray p)).
  - destruct (negb _); [apply (self_with (LPosDef p))|]. destruct (unvectorize_symmetric_matrix _); [|apply (self_with (LPosDef p))]. apply (leaf_set_with (LPosDef p)).
  - destruct (np_len a); [|apply (self_with (LPosDefV p))]. destruct (negb _); [apply (self_with (LPosDefV p))|]. destruct (rbind _ _); [eexists; reflexivity|apply (self_with (LPosDefV p))].
  - destruct (np_len a); [|apply (self_with (LPosDefA p))]. destruct (negb _); [apply (self_with (LPosDefA p))|]. destruct (rbind _ _); [eexists; reflexivity|apply (self_with (LPosDefA p))].
  - destruct (np_len a); [|apply (self_with (LSimplex p))]. destruct (negb _); [apply (self_with (LSimplex p))|].
    destruct (np_reshape _ _); [|apply (self_with (LSimplex p))]. apply (leaf_set_with (LSimplex p)).
  - apply (leaf_set_with (LSubspace p)).
Qed.
Definition agree {P} (r r' : P * res unit) : Prop := snd r' = snd r /\ (snd r = Ok tt -> fst r' = fst r).
Lemma leaf_set_overwrites l v a : agree (leaf_set l a) (leaf_set (leaf_with l v) a).
Proof.
  destruct l as [p|p|p|p|p|p|p|p]; destruct p; split; try reflexivity; cbn;
  unfold vector_set, array_set, posdef_set, pv_set, pa_set, simplex_set, subspace_set, pv_shape, pa_shape, sx_shape; cbn;
  repeat (match goal with |- context [match ?x with _ => _ end] => destruct x; cbn end; try reflexivity; try discriminate).
Qed.
Ltac align := match goal with
  | |- agree (lift _ (match ?A with Ok _ => _ | Raise _ => _ end)) (lift _ (match ?B with Ok _ => _ | Raise _ => _ end)) => change B with A; destruct A
  | |- agree (lift _ (if ?A then _ else _)) (lift _ (if ?B then _ else _)) => change B with A; destruct A
  end; try (split; [reflexivity|discriminate]).
Lemma leaf_set_free_overwrites l v a : agree (leaf_set_free l a) (leaf_set_free (leaf_with l v) a).
Proof.
  destruct l as [p|p|p|p|p|p|p|p]; cbn [leaf_with leaf_set_free];
  unfold scalar_set_free, vector_set_free, array_set_free, posdef_set_free, pv_set_free, pa_set_free, simplex_set_free, subspace_set_free.
  - align. split; reflexivity.
  - do 2 align. apply (leaf_set_overwrites (LVector p)).
  - do 2 align. apply (leaf_set_overwrites (LArray p)).
  - do 2 align. apply (leaf_set_overwrites (LPosDef p)).
  - do 2 align. split; reflexivity.
  - do 2 align. split; reflexivity.
  - do 3 align. apply (leaf_set_overwrites (LSimplex p)).
  - do 2 align. apply (leaf_set_overwrites (LSubspace p)).
Qed.
Lemma leaf_set_vector_overwrites l v a : agree (leaf_set_vector l a) (leaf_set_vector (leaf_with l v) a).
Proof.
  destruct l as [p|p|p|p|p|p|p|p]; cbn [leaf_with leaf_set_vector];
  unfold scalar_set_vector, vector_set_vector, array_set_vector, posdef_set_vector, pv_set_vector, pa_set_vector, simplex_set_vector, subspace_set_vector.
  - split; reflexivity.
  - apply (leaf_set_overwrites (LVector p)).
  - do 2 align. apply (leaf_set_overwrites (LArray p)).
  - do 2 align. apply (leaf_set_overwrites (LPosDef p)).
  - do 3 align. split; reflexivity.
  - do 3 align. split; reflexivity.
  - do 3 align. apply (leaf_set_overwrites (LSimplex p)).
  - apply (leaf_set_overwrites (LSubspace p)).
Qed.

(** ---- trees ---- *)
Fixpoint tparam_ind' (P : tparam -> Prop) (HL : forall l b, P (TLeaf l b))
  (HD : forall nm es fi vi fs vs, Forall (fun e => P (snd e)) es -> P (TDict nm es fi vi fs vs)) (t : tparam) : P t :=
  match t with
  | TLeaf l b => HL l b
  | TDict nm es fi vi fs vs => HD nm es fi vi fs vs
      ((fix go (l : list (string * tparam)) : Forall (fun e => P (snd e)) l :=
          match l with [] => Forall_nil _ | e :: tl => Forall_cons e (tparam_ind' P HL HD (snd e)) (go tl) end) es)
  end.
Definition t_go (size : tparam -> nat) (setf : tparam -> targ -> tparam * res unit) (vec : targ) :=
  fix go (l : list (string * tparam)) (offset : nat) : list (string * tparam) * res unit :=
             match l with
             | [] => ([], Ok tt)
             | (k, q) :: tl =>
                 match np_slice (ta_val vec) offset (offset + size q) with
                 | Raise e => (l, Raise e)
                 | Ok s =>
                     let r := setf q (TArg s (ta_box vec)) in
                     match snd r with
                     | Ok _ => let r' := go tl (offset + size (fst r))%nat in ((k, fst r) :: fst r', snd r')
                     | Raise e => ((k, fst r) :: tl, Raise e)
                     end
                 end
             end.
Lemma t_set_free_dict nm es fi vi fs vs vec : t_set_free (TDict nm es fi vi fs vs) vec =
  if negb (Nat.eqb (nd_size (ta_val vec)) fs) then (TDict nm es fi vi fs vs, Raise ValueError)
  else let r := t_go t_free_size t_set_free vec es 0 in (TDict nm (fst r) fi vi fs vs, snd r).
Proof. reflexivity. Qed.
Lemma t_set_vector_dict nm es fi vi fs vs vec : t_set_vector (TDict nm es fi vi fs vs) vec =
  if negb (Nat.eqb (nd_size (ta_val vec)) vs) then (TDict nm es fi vi fs vs, Raise ValueError)
  else let r := t_go t_vector_size t_set_vector vec es 0 in (TDict nm (fst r) fi vi fs vs, snd r).
Proof. reflexivity. Qed.

(** same tree up to the values (and marks) of the leaves *)
Inductive sb : tparam -> tparam -> Prop :=
| sb_leaf l b v b' : sb (TLeaf l b) (TLeaf (leaf_with l v) b')
| sb_dict nm es es' fi vi fs vs : Forall2 (fun e e' => fst e' = fst e /\ sb (snd e) (snd e')) es es' -> sb (TDict nm es fi vi fs vs) (TDict nm es' fi vi fs vs).
Lemma sb_refl t : sb t t.
Proof.
  induction t as [l b|nm es fi vi fs vs IH] using tparam_ind'.
  - destruct (self_with l) as [v E]. rewrite E at 2. constructor.
  - constructor. induction IH; constructor; auto.
Qed.
Lemma leaf_with_with l v w : leaf_with (leaf_with l v) w = leaf_with l w.
Proof. destruct l; reflexivity. Qed.
Lemma sb_trans t1 t2 t3 : sb t1 t2 -> sb t2 t3 -> sb t1 t3.
Proof.
  revert t2 t3. induction t1 as [l b|nm es fi vi fs vs IH] using tparam_ind'; intros t2 t3 H1 H2.
  - inversion H1; subst. inversion H2; subst. rewrite leaf_with_with. constructor.
  - inversion H1 as [|? ? es2 ? ? ? ? F1]; subst. inversion H2 as [|? ? es3 ? ? ? ? F2]; subst. constructor. clear H1 H2. revert es2 es3 F1 F2.
    induction IH as [|e es He IH IHes]; intros es2 es3 F1 F2; inversion F1 as [|? e2 ? es2' [A1 B1] C1]; subst; inversion F2 as [|? e3 ? es3' [A2 B2] C2]; subst; constructor; [|eapply IHes; eassumption].
    split; [congruence|]. eapply He; [exact B1|exact B2].
Qed.
Lemma leaf_with_sizes l v : leaf_free_size (leaf_with l v) = leaf_free_size l /\ leaf_vector_size (leaf_with l v) = leaf_vector_size l.
Proof. destruct l as [p|p|p|p|p|p|p|p]; split; reflexivity. Qed.
Lemma sb_sizes t t' : sb t t' -> t_free_size t' = t_free_size t /\ t_vector_size t' = t_vector_size t.
Proof. intros H. destruct H; [apply leaf_with_sizes|split; reflexivity]. Qed.
Lemma t_leaf_set_sb set l b v : (forall a, exists w, fst (set l a) = leaf_with l w) -> sb (TLeaf l b) (fst (t_leaf_set set l b v)).
Proof. intros H. unfold t_leaf_set. destruct (H (ta_val v)) as [w E]. destruct (set l (ta_val v)) as [l' [u|e]]; cbn [fst] in *; subst; constructor. Qed.
Lemma t_go_sb size setf vec es : Forall (fun e => forall v, sb (snd e) (fst (setf (snd e) v))) es -> forall off,
  Forall2 (fun e e' => fst e' = fst e /\ sb (snd e) (snd e')) es (fst (t_go size setf vec es off)).
Proof.
  intros F. assert (Id : forall es, Forall2 (fun e e' : string * tparam => fst e' = fst e /\ sb (snd e) (snd e')) es es).
  { intros l. induction l; constructor; [split; [reflexivity|apply sb_refl]|assumption]. }
  induction F as [|[k q] es He F IH]; intros off; [constructor|]. cbn [t_go]. destruct (np_slice _ _ _) as [s|e]; [|apply Id].
  cbn [snd] in He. specialize (He (TArg s (ta_box vec))). destruct (setf q _) as [q' [u|e]]; cbn [fst snd] in *.
  - constructor; [split; [reflexivity|exact He]|apply IH].
  - constructor; [split; [reflexivity|exact He]|apply Id].
Qed.
Lemma t_set_free_sb t v : sb t (fst (t_set_free t v)).
Proof.
  revert v. induction t as [l b|nm es fi vi fs vs IH] using tparam_ind'; intros v.
  - apply t_leaf_set_sb. intros a. apply leaf_set_free_with.
  - rewrite t_set_free_dict. destruct (negb _); [apply sb_refl|]. cbn [fst]. constructor. apply t_go_sb, IH.
Qed.
Lemma t_set_vector_sb t v : sb t (fst (t_set_vector t v)).
Proof.
  revert v. induction t as [l b|nm es fi vi fs vs IH] using tparam_ind'; intros v.
  - apply t_leaf_set_sb. intros a. apply leaf_set_vector_with.
  - rewrite t_set_vector_dict. destruct (negb _); [apply sb_refl|]. cbn [fst]. constructor. apply t_go_sb, IH.
Qed.
Lemma operation_sb t t' : operation t t' -> sb t t'.
Proof.
  intros H. induction H as [t v|t v|l b v|nm es1 k q q' es2 fi vi fs vs _ IH].
  - apply t_set_free_sb.
  - apply t_set_vector_sb.
  - apply t_leaf_set_sb. intros a. apply leaf_set_with.
  - assert (Id : forall es, Forall2 (fun e e' : string * tparam => fst e' = fst e /\ sb (snd e) (snd e')) es es).
    { intros l. induction l; constructor; [split; [reflexivity|apply sb_refl]|assumption]. }
    constructor. apply Forall2_app; [apply Id|]. constructor; [split; [reflexivity|exact IH]|apply Id].
Qed.
Lemma history_sb t t' : history t t' -> sb t t'.
Proof. intros H. induction H as [|t' t'' _ IH O]; [apply sb_refl|eapply sb_trans; [exact IH|apply operation_sb, O]]. Qed.

Lemma t_leaf_set_agree set l b v b' w : (forall v a, agree (set l a) (set (leaf_with l v) a)) ->
  agree (t_leaf_set set l b w) (t_leaf_set set (leaf_with l v) b' w).
Proof.
  intros H. specialize (H v (ta_val w)). unfold t_leaf_set, agree in *. destruct (set l _) as [l1 [[]|e]], (set (leaf_with l v) _) as [l2 [[]|e']]; cbn [fst snd] in *; destruct H as [A B]; try discriminate.
  - rewrite B by reflexivity. split; reflexivity.
  - split; [congruence|discriminate].
Qed.
Lemma t_go_agree size setf vec es es' : (forall t t', sb t t' -> size t' = size t) ->
  (forall t v, sb t (fst (setf t v))) ->
  Forall (fun e => forall t' v, sb (snd e) t' -> agree (setf (snd e) v) (setf t' v)) es ->
  Forall2 (fun e e' => fst e' = fst e /\ sb (snd e) (snd e')) es es' -> forall off, agree (t_go size setf vec es off) (t_go size setf vec es' off).
Proof.
  intros Hs Hk F F2. revert F. induction F2 as [|[k q] [k' q'] es es' [E S] F2 IH]; intros F off; [split; reflexivity|]. cbn [fst snd] in *. subst k'.
  inversion F as [|? ? H1 H2]; subst. cbn [snd] in H1. specialize (IH H2). cbn [t_go]. rewrite (Hs _ _ S). destruct (np_slice _ _ _) as [s|e]; [|split; [reflexivity|discriminate]].
  specialize (H1 q' (TArg s (ta_box vec)) S). pose proof (Hk q (TArg s (ta_box vec))) as K. destruct (setf q _) as [r [[]|e]], (setf q' _) as [r' [[]|e']]; destruct H1 as [A B]; cbn [fst snd] in *; try discriminate.
  - rewrite B by reflexivity. destruct (IH (off + size r)%nat) as [C D]. change ((fix go (l : list (string * tparam)) (offset : nat) := _) es) with (t_go size setf vec es).
    change ((fix go (l : list (string * tparam)) (offset : nat) := _) es') with (t_go size setf vec es'). split; [exact C|]. cbn [fst snd]. intros O. rewrite D by exact O. reflexivity.
  - split; [cbn [snd]; congruence|discriminate].
Qed.
Lemma t_set_free_agree t t' v : sb t t' -> agree (t_set_free t v) (t_set_free t' v).
Proof.
  revert t' v. induction t as [l b|nm es fi vi fs vs IH] using tparam_ind'; intros t' v S; inversion S; subst.
  - apply t_leaf_set_agree. intros w a. apply leaf_set_free_overwrites.
  - rewrite !t_set_free_dict. destruct (negb _); [split; [reflexivity|discriminate]|]. cbv zeta.
    destruct (t_go_agree t_free_size t_set_free v es es') with (off := 0%nat) as [A B]; [intros; apply sb_sizes; assumption|apply t_set_free_sb|exact IH|assumption|].
    split; [exact A|]. cbn [fst snd]. intros O. rewrite B by exact O. reflexivity.
Qed.
Lemma t_set_vector_agree t t' v : sb t t' -> agree (t_set_vector t v) (t_set_vector t' v).
Proof.
  revert t' v. induction t as [l b|nm es fi vi fs vs IH] using tparam_ind'; intros t' v S; inversion S; subst.
  - apply t_leaf_set_agree. intros w a. apply leaf_set_vector_overwrites.
  - rewrite !t_set_vector_dict. destruct (negb _); [split; [reflexivity|discriminate]|]. cbv zeta.
    destruct (t_go_agree t_vector_size t_set_vector v es es') with (off := 0%nat) as [A B]; [intros; apply sb_sizes; assumption|apply t_set_vector_sb|exact IH|assumption|].
    split; [exact A|]. cbn [fst snd]. intros O. rewrite B by exact O. reflexivity.
Qed.

(** ---- forgetting the marks ---- *)
Lemma t_leaf_set_erase set l b v : erase (fst (t_leaf_set set l b v)) = Leaf (fst (set l (ta_val v))) /\ snd (t_leaf_set set l b v) = snd (set l (ta_val v)).
Proof. unfold t_leaf_set. destruct (set l (ta_val v)) as [l' [[]|e]]; split; reflexivity. Qed.
Definition erase_ents (es : list (string * tparam)) : ents := map (fun e => (fst e, erase (snd e))) es.
Lemma t_go_erase size setf psize psetf vec es : (forall t, size t = psize (erase t)) ->
  Forall (fun e => forall v, erase (fst (setf (snd e) v)) = fst (psetf (erase (snd e)) (ta_val v)) /\ snd (setf (snd e) v) = snd (psetf (erase (snd e)) (ta_val v))) es ->
  forall off, erase_ents (fst (t_go size setf vec es off)) = fst (set_go psize psetf (ta_val vec) (erase_ents es) off) /\
    snd (t_go size setf vec es off) = snd (set_go psize psetf (ta_val vec) (erase_ents es) off).
Proof.
  intros Hs F. induction F as [|[k q] es He F IH]; intros off; [split; reflexivity|]. cbn [t_go erase_ents map set_go fst snd]. cbn [snd] in He.
  rewrite Hs. destruct (np_slice _ _ _) as [s|e]; [|split; reflexivity]. specialize (He (TArg s (ta_box vec))). cbn [ta_val] in He. destruct He as [A B].
  destruct (setf q _) as [q' [[]|e]], (psetf (erase q) s) as [p' [[]|e']]; cbn [fst snd] in *; try discriminate.
  - rewrite Hs, A. destruct (IH (off + psize p')%nat) as [C D]. split; [|exact D]. cbn [erase_ents map fst snd]. rewrite A. f_equal. exact C.
  - split; [|congruence]. unfold erase_ents. cbn [map fst snd]. rewrite A. reflexivity.
Qed.
Lemma t_set_free_erase t v : erase (fst (t_set_free t v)) = fst (p_set_free (erase t) (ta_val v)) /\ snd (t_set_free t v) = snd (p_set_free (erase t) (ta_val v)).
Proof.
  revert v. induction t as [l b|nm es fi vi fs vs IH] using tparam_ind'; intros v.
  - destruct (t_leaf_set_erase leaf_set_free l b v) as [A B]. split; [exact A|exact B].
  - rewrite t_set_free_dict. cbn [erase]. rewrite p_set_free_dict. destruct (negb _); [split; reflexivity|]. cbn [fst snd erase].
    destruct (t_go_erase t_free_size t_set_free p_free_size p_set_free v es (fun _ => eq_refl) IH 0) as [A B]. split; [|exact B]. f_equal. exact A.
Qed.
Lemma t_set_vector_erase t v : erase (fst (t_set_vector t v)) = fst (p_set_vector (erase t) (ta_val v)) /\ snd (t_set_vector t v) = snd (p_set_vector (erase t) (ta_val v)).
Proof.
  revert v. induction t as [l b|nm es fi vi fs vs IH] using tparam_ind'; intros v.
  - destruct (t_leaf_set_erase leaf_set_vector l b v) as [A B]. split; [exact A|exact B].
  - rewrite t_set_vector_dict. cbn [erase]. rewrite p_set_vector_dict. destruct (negb _); [split; reflexivity|]. cbn [fst snd erase].
    destruct (t_go_erase t_vector_size t_set_vector p_vector_size p_set_vector v es (fun _ => eq_refl) IH 0) as [A B]. split; [|exact B]. f_equal. exact A.
Qed.
(** a successful setter replaces every mark *)
Lemma t_go_marks size setf vec es : Forall (fun e => forall v t', setf (snd e) v = (t', Ok tt) -> any_boxed t' = true -> ta_box v = true) es ->
  forall off r, t_go size setf vec es off = (r, Ok tt) -> existsb (fun e => any_boxed (snd e)) r = true -> ta_box vec = true.
Proof.
  intros F. induction F as [|[k q] es He F IH]; intros off r E X; cbn [t_go] in E.
  - injection E as <-. discriminate.
  - destruct (np_slice _ _ _) as [s|e]; [|discriminate]. cbn [snd] in He. specialize (He (TArg s (ta_box vec))). destruct (setf q _) as [q' [[]|e]]; [|discriminate]. cbn [fst snd] in E.
    change ((fix go (l : list (string * tparam)) (offset : nat) := _) es) with (t_go size setf vec es) in E. destruct (t_go size setf vec es (off + size q')) as [r' [[]|e]] eqn:G; cbn [fst snd] in E; [|discriminate].
    injection E as <-. cbn [existsb snd] in X. apply orb_prop in X as [X|X]; [apply (He q' eq_refl X)|apply (IH _ _ G X)].
Qed.
Lemma t_leaf_set_marks set l b v t' : t_leaf_set set l b v = (t', Ok tt) -> any_boxed t' = true -> ta_box v = true.
Proof. unfold t_leaf_set. destruct (set l (ta_val v)) as [l' [u|e]]; intros E; inversion E; subst. cbn. auto. Qed.
Lemma t_set_free_marks t v t' : t_set_free t v = (t', Ok tt) -> any_boxed t' = true -> ta_box v = true.
Proof.
  revert v t'. induction t as [l b|nm es fi vi fs vs IH] using tparam_ind'; intros v t' E X; [exact (t_leaf_set_marks _ _ _ _ _ E X)|].
  rewrite t_set_free_dict in E. destruct (negb _); [discriminate|]. cbv zeta in E. destruct (t_go _ _ _ _ _) as [r x] eqn:G. cbn [fst snd] in E. inversion E; subst.
  apply (t_go_marks t_free_size t_set_free v es IH _ _ G X).
Qed.
Lemma t_set_vector_marks t v t' : t_set_vector t v = (t', Ok tt) -> any_boxed t' = true -> ta_box v = true.
Proof.
  revert v t'. induction t as [l b|nm es fi vi fs vs IH] using tparam_ind'; intros v t' E X; [exact (t_leaf_set_marks _ _ _ _ _ E X)|].
  rewrite t_set_vector_dict in E. destruct (negb _); [discriminate|]. cbv zeta in E. destruct (t_go _ _ _ _ _) as [r x] eqn:G. cbn [fst snd] in E. inversion E; subst.
  apply (t_go_marks t_vector_size t_set_vector v es IH _ _ G X).
Qed.
Lemma t_set_free_numeric t a t' : t_set_free t (num_arg a) = (t', Ok tt) -> all_numeric t'.
Proof. intros E. unfold all_numeric. destruct (any_boxed t') eqn:X; [|reflexivity]. pose proof (t_set_free_marks _ _ _ E X). discriminate. Qed.
Lemma t_set_vector_numeric t a t' : t_set_vector t (num_arg a) = (t', Ok tt) -> all_numeric t'.
Proof. intros E. unfold all_numeric. destruct (any_boxed t') eqn:X; [|reflexivity]. pose proof (t_set_vector_marks _ _ _ E X). discriminate. Qed.

(** setting a finite value of the right size *)
Lemma t_set_free_finite t x : reachable (erase t) -> populated (erase t) -> length x = t_free_size t ->
  exists t', t_set_free t (fin_arg x) = (t', Ok tt) /\ t_get_free t' = Ok (fin_arg x) /\ all_numeric t'.
Proof.
  intros Rp Pop L. destruct (p_free_roundtrip (erase t) x (reachable_wf _ Rp) Pop L) as [p' [v [A [B _]]]].
  destruct (t_set_free_erase t (fin_arg x)) as [C D]. unfold fin_arg in C, D. cbn [ta_val num_arg] in C, D. change (nd_vec (map Fin x)) with (fvec x) in C, D. rewrite A in C, D. cbn [fst snd] in C, D.
  unfold fin_arg. change (nd_vec (map Fin x)) with (fvec x). destruct (t_set_free t (num_arg (fvec x))) as [t' r] eqn:E. cbn [fst snd] in *. subst r. exists t'.
  pose proof (t_set_free_numeric _ _ _ E) as N. splits; [reflexivity| |exact N]. unfold t_get_free. rewrite C, B. cbn [rbind]. unfold num_arg. rewrite N. reflexivity.
Qed.
Lemma t_set_vector_finite t x : reachable (erase t) -> populated (erase t) -> length x = t_vector_size t ->
  exists t', t_set_vector t (fin_arg x) = (t', Ok tt) /\ t_get_vector t' = Ok (fin_arg x) /\ all_numeric t'.
Proof.
  intros Rp Pop L. destruct (p_vector_roundtrip (erase t) x (reachable_wf _ Rp) Pop L) as [p' [A B]].
  destruct (t_set_vector_erase t (fin_arg x)) as [C D]. unfold fin_arg in C, D. cbn [ta_val num_arg] in C, D. change (nd_vec (map Fin x)) with (fvec x) in C, D. rewrite A in C, D. cbn [fst snd] in C, D.
  unfold fin_arg. change (nd_vec (map Fin x)) with (fvec x). destruct (t_set_vector t (num_arg (fvec x))) as [t' r] eqn:E. cbn [fst snd] in *. subst r. exists t'.
  pose proof (t_set_vector_numeric _ _ _ E) as N. splits; [reflexivity| |exact N]. unfold t_get_vector. rewrite C, B. cbn [rbind]. unfold num_arg. rewrite N. reflexivity.
Qed.

(** ---- C42 ---- *)
Lemma fun_free_history {A Val} (f : tparam -> A -> res Val) t0 t x a : history t0 t ->
  snd (fun_free f t x a) = snd (fun_free f t0 x a) /\
  (forall t', t_set_free t0 x = (t', Ok tt) -> fun_free f t x a = (t', f t' a)) /\
  (forall t' e, t_set_free t0 x = (t', Raise e) -> snd (fun_free f t x a) = Raise e).
Proof.
  intros H. destruct (t_set_free_agree t0 t x (history_sb _ _ H)) as [A1 A2]. unfold fun_free.
  destruct (t_set_free t0 x) as [t1 [[]|e]], (t_set_free t x) as [t2 [[]|e']]; cbn [fst snd] in *; try discriminate.
  - rewrite A2 by reflexivity. splits; [reflexivity| |]; intros; [congruence|discriminate].
  - splits; [congruence| |]; intros; [discriminate|congruence].
Qed.
Lemma fun_vector_history {A Val} (f : tparam -> A -> res Val) t0 t x a : history t0 t ->
  snd (fun_vector f t x a) = snd (fun_vector f t0 x a) /\
  (forall t', t_set_vector t0 x = (t', Ok tt) -> fun_vector f t x a = (t', f t' a)) /\
  (forall t' e, t_set_vector t0 x = (t', Raise e) -> snd (fun_vector f t x a) = Raise e).
Proof.
  intros H. destruct (t_set_vector_agree t0 t x (history_sb _ _ H)) as [A1 A2]. unfold fun_vector.
  destruct (t_set_vector t0 x) as [t1 [[]|e]], (t_set_vector t x) as [t2 [[]|e']]; cbn [fst snd] in *; try discriminate.
  - rewrite A2 by reflexivity. splits; [reflexivity| |]; intros; [congruence|discriminate].
  - splits; [congruence| |]; intros; [discriminate|congruence].
Qed.
Lemma objective_values {A Val} (f : tparam -> A -> res Val) t0 t a : history t0 t ->
  (forall x, snd (fun_free f t x a) = snd (fun_free f t0 x a)) /\ (forall v, snd (fun_vector f t v a) = snd (fun_vector f t0 v a)) /\
  (reachable (erase t0) -> populated (erase t0) ->
    (forall x, length x = t_free_size t0 -> exists t', fun_free f t (fin_arg x) a = (t', f t' a) /\ t_set_free t0 (fin_arg x) = (t', Ok tt) /\ t_get_free t' = Ok (fin_arg x)) /\
    (forall v, length v = t_vector_size t0 -> exists t', fun_vector f t (fin_arg v) a = (t', f t' a) /\ t_set_vector t0 (fin_arg v) = (t', Ok tt) /\ t_get_vector t' = Ok (fin_arg v))).
Proof.
  intros H. splits.
  - intros x. apply (fun_free_history f t0 t x a H).
  - intros v. apply (fun_vector_history f t0 t v a H).
  - intros Rp Pop. split; intros x L.
    + destruct (t_set_free_finite t0 x Rp Pop L) as [t' [E [G _]]]. exists t'. splits; [|exact E|exact G]. apply (fun_free_history f t0 t _ a H), E.
    + destruct (t_set_vector_finite t0 x Rp Pop L) as [t' [E [G _]]]. exists t'. splits; [|exact E|exact G]. apply (fun_vector_history f t0 t _ a H), E.
Qed.

(** ---- C43 ---- *)
Lemma history_trans t1 t2 t3 : history t1 t2 -> history t2 t3 -> history t1 t3.
Proof. intros H1 H2. induction H2 as [|t' t'' _ IH O]; [exact H1|eapply hist_more; eassumption]. Qed.
Lemma traced_history t t' : traced t t' -> history t t'.
Proof. intros H. induction H; [constructor|eapply hist_more; [eassumption|constructor]|eapply hist_more; [eassumption|constructor]]. Qed.
Lemma derivative_restores {A Out} (ag : ag_function A Out) : (forall t x a, traced t (fst (ag t x a))) ->
  forall t0 t x a, history t0 t ->
  (history t0 (fst (cache_free_and_eval ag t x a)) /\ history t0 (fst (cache_vector_and_eval ag t x a))) /\
  (forall t' r, cache_free_and_eval ag t x a = (t', Ok r) -> t_set_free t0 x = (t', Ok tt) /\ snd (ag t x a) = Ok r /\ (ta_box x = false -> all_numeric t')) /\
  (forall t' r, cache_vector_and_eval ag t x a = (t', Ok r) -> t_set_vector t0 x = (t', Ok tt) /\ snd (ag t x a) = Ok r /\ (ta_box x = false -> all_numeric t')).
Proof.
  intros Hag t0 t x a H. pose proof (history_trans _ _ _ H (traced_history _ _ (Hag t x a))) as H1. unfold cache_free_and_eval, cache_vector_and_eval.
  destruct (ag t x a) as [t1 r1]. cbn [fst snd] in *. destruct r1 as [r1|e1]; [|split; [split; exact H1|split; intros; discriminate]].
  destruct (t_set_free_agree t0 t1 x (history_sb _ _ H1)) as [A1 A2]. destruct (t_set_vector_agree t0 t1 x (history_sb _ _ H1)) as [B1 B2].
  pose proof (hist_more _ _ _ H1 (op_set_free t1 x)) as Hf. pose proof (hist_more _ _ _ H1 (op_set_vector t1 x)) as Hv.
  split; [|split].
  - split; [destruct (t_set_free t1 x) as [? [[]|]]; exact Hf|destruct (t_set_vector t1 x) as [? [[]|]]; exact Hv].
  - intros t' r E. destruct (t_set_free t1 x) as [t2 [[]|e2]] eqn:E1; [|discriminate]. inversion E; subst.
    destruct (t_set_free t0 x) as [t3 r3]. cbn [fst snd] in *. subst r3. rewrite A2 by reflexivity. splits; [reflexivity|reflexivity|].
    intros N. apply (t_set_free_numeric t1 (ta_val x)). destruct x as [xv xb]. cbn in N. subst xb. rewrite <- A2 by reflexivity. exact E1.
  - intros t' r E. destruct (t_set_vector t1 x) as [t2 [[]|e2]] eqn:E1; [|discriminate]. inversion E; subst.
    destruct (t_set_vector t0 x) as [t3 r3]. cbn [fst snd] in *. subst r3. rewrite B2 by reflexivity. splits; [reflexivity|reflexivity|].
    intros N. apply (t_set_vector_numeric t1 (ta_val x)). destruct x as [xv xb]. cbn in N. subst xb. rewrite <- B2 by reflexivity. exact E1.
Qed.
