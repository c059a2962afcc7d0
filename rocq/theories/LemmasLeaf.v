(** The eight leaf classes seen through one interface. *)
From Coq Require Import String Reals List Bool Arith Lia Lra.
From Coquelicot Require Import Coquelicot.
From Verif Require Import Res Num Nd RSum ModelAutograd ModelSparse ModelParameters ModelMatrix ModelSimplex ModelProjection ModelDict.
From Verif Require Import SpecParameters SpecMatrix SpecSimplex SpecProjection SpecDict.
From Verif Require Import LemmasParameters LemmasCalc LemmasMatrix LemmasPosDef LemmasPosDefStack LemmasSimplex LemmasProjection.
Import List ListNotations.
Open Scope R_scope.
Set Bullet Behavior "Strict Subproofs".

Definition leaf_wf (l : leaf) : Prop :=
  match l with
  | LScalar p => legal (sp_lb p) (sp_ub p) /\ nd_wf (sp_val p)
  | LVector p => vector_wf p
  | LArray p => array_wf p
  | LPosDef p => (exists lb, pd_lb p = Fin lb) /\ shape (pd_val p) = [pd_size p; pd_size p] /\ nd_wf (pd_val p)
  | LPosDefV p => (exists lb, pv_lb p = Fin lb) /\ shape (pv_val p) = pv_shape p /\ nd_wf (pv_val p) /\ (0 < pv_length p)%nat
  | LPosDefA p => (exists lb, pa_lb p = Fin lb) /\ shape (pa_val p) = pa_shape p /\ nd_wf (pa_val p) /\ (0 < nprod (pa_ashape p))%nat
  | LSimplex p => (0 < sx_cols p)%nat /\ shape (sx_val p) = sx_shape p /\ nd_wf (sx_val p)
  | LSubspace p => (exists m d x, subspace_good m d x p) /\ nd_size (sv_val p) = sv_dim p /\ nd_wf (sv_val p)
  end.

(** ---- sizes and names never change ---- *)
Ltac crunch := repeat (match goal with
  | |- context [match ?x with _ => _ end] => destruct x
  | |- context [if ?x then _ else _] => destruct x
  end; cbn; try reflexivity).
Lemma leaf_set_sizes l a : let l' := fst (leaf_set l a) in
  leaf_free_size l' = leaf_free_size l /\ leaf_vector_size l' = leaf_vector_size l /\ leaf_name l' = leaf_name l.
Proof.
  destruct l as [p|p|p|p|p|p|p|p]; cbn -[pv_with pa_with];
  unfold scalar_set, vector_set, array_set, posdef_set, pv_set, pa_set, simplex_set, subspace_set.
  - splits; reflexivity.
  - destruct (negb _); splits; reflexivity.
  - destruct (negb _); splits; reflexivity.
  - destruct (shape a) as [|r [|c [|]]]; try (splits; reflexivity). destruct (_ || _); [splits; reflexivity|]. destruct (negb _); splits; reflexivity.
  - destruct (shape_ne_all _ _) as [[|]|]; splits; reflexivity.
  - destruct (shape_ne_all _ _) as [[|]|]; splits; reflexivity.
  - destruct (negb _); splits; reflexivity.
  - destruct (negb _); splits; reflexivity.
Qed.
Lemma leaf_set_free_sizes l a : let l' := fst (leaf_set_free l a) in
  leaf_free_size l' = leaf_free_size l /\ leaf_vector_size l' = leaf_vector_size l /\ leaf_name l' = leaf_name l.
Proof.
  destruct l as [p|p|p|p|p|p|p|p]; cbn -[pv_with pa_with constrain np_reshape unpack_posdef_matrix rmapM np_stack np_len constrain_simplex_matrix basis_mul];
  unfold scalar_set_free, vector_set_free, array_set_free, posdef_set_free, pv_set_free, pa_set_free, simplex_set_free, subspace_set_free.
  - destruct (constrain _ _ _); cbn; splits; reflexivity.
  - destruct (negb _); [cbn; splits; reflexivity|]. destruct (constrain _ _ _); [|cbn; splits; reflexivity].
    apply (leaf_set_sizes (LVector p)).
  - destruct (negb _); [cbn; splits; reflexivity|]. destruct (rbind _ _); [|cbn; splits; reflexivity].
    apply (leaf_set_sizes (LArray p)).
  - destruct (negb _); [cbn; splits; reflexivity|]. destruct (unpack_posdef_matrix _ _); [|cbn; splits; reflexivity].
    apply (leaf_set_sizes (LPosDef p)).
  - destruct (negb _); [cbn; splits; reflexivity|]. destruct (rbind _ _); cbn; splits; reflexivity.
  - destruct (negb _); [cbn; splits; reflexivity|]. destruct (rbind _ _); cbn; splits; reflexivity.
  - destruct (np_len a); [|cbn; splits; reflexivity]. destruct (negb _); [cbn; splits; reflexivity|].
    destruct (rbind _ _); [|cbn; splits; reflexivity]. apply (leaf_set_sizes (LSimplex p)).
  - destruct (negb _); [cbn; splits; reflexivity|]. destruct (basis_mul _ _ _); [|cbn; splits; reflexivity].
    apply (leaf_set_sizes (LSubspace p)).
Qed.
Lemma leaf_set_vector_sizes l a : let l' := fst (leaf_set_vector l a) in
  leaf_free_size l' = leaf_free_size l /\ leaf_vector_size l' = leaf_vector_size l /\ leaf_name l' = leaf_name l.
Proof.
  destruct l as [p|p|p|p|p|p|p|p]; cbn -[pv_with pa_with constrain np_reshape unpack_posdef_matrix unvectorize_symmetric_matrix rmapM np_stack np_len constrain_simplex_matrix basis_mul];
  unfold scalar_set_vector, vector_set_vector, array_set_vector, posdef_set_vector, pv_set_vector, pa_set_vector, simplex_set_vector, subspace_set_vector.
  - cbn; splits; reflexivity.
  - apply (leaf_set_sizes (LVector p)).
  - destruct (negb _); [cbn; splits; reflexivity|]. destruct (np_reshape _ _); [|cbn; splits; reflexivity].
    apply (leaf_set_sizes (LArray p)).
  - destruct (negb _); [cbn; splits; reflexivity|]. destruct (unvectorize_symmetric_matrix _); [|cbn; splits; reflexivity].
    apply (leaf_set_sizes (LPosDef p)).
  - destruct (np_len a); [|cbn; splits; reflexivity]. destruct (negb _); [cbn; splits; reflexivity|]. destruct (rbind _ _); cbn; splits; reflexivity.
  - destruct (np_len a); [|cbn; splits; reflexivity]. destruct (negb _); [cbn; splits; reflexivity|]. destruct (rbind _ _); cbn; splits; reflexivity.
  - destruct (np_len a); [|cbn; splits; reflexivity]. destruct (negb _); [cbn; splits; reflexivity|].
    destruct (np_reshape _ _); [|cbn; splits; reflexivity]. apply (leaf_set_sizes (LSimplex p)).
  - apply (leaf_set_sizes (LSubspace p)).
Qed.

(** ---- constructors establish leaf_wf ---- *)
Lemma concat_repeat_length {A} (l : list A) n : length (List.concat (repeat l n)) = (n * length l)%nat.
Proof. induction n; cbn [repeat List.concat Nat.mul]; [reflexivity|]. rewrite app_length, IHn. reflexivity. Qed.
Lemma constructed_wf l : constructed l -> leaf_wf l.
Proof.
  intros C. destruct C as [nm lb ub val p W E|nm n lb ub val p W E|nm sh lb ub val p W E|nm n lb val p W E|nm len n lb val p L W E|nm s n lb val p L W E|nm rows cols val p L W E
    |solve eigh nm m d x Y e V val p HF ES HY EE HS W E]; cbn.
  - split; [pose proof E as E'; apply scalar_init_ok in E' as [H [-> ->]]; exact H|].
    unfold scalar_init in E. destruct (nleb ub lb); [discriminate|]. unfold rassert in E. destruct (nleb _ _); [|discriminate]. destruct (nleb _ _); [|discriminate].
    destruct val as [a|]; [injection E as <-; apply W; reflexivity|]. destruct (get_inbounds_value lb ub); [|discriminate]. injection E as <-. reflexivity.
  - apply (vector_init_ok _ _ _ _ _ _ W E).
  - apply (array_init_ok _ _ _ _ _ _ W E).
  - unfold posdef_init in E. unfold rassert in E. destruct (nleb _ _); [|discriminate]. destruct val as [a|].
    + unfold posdef_set in E. destruct (shape a) as [|r [|c [|]]] eqn:Es; try discriminate. cbn [pd_size] in E.
      destruct (Nat.eqb_spec r n) as [->|]; [|discriminate]. destruct (Nat.eqb_spec c n) as [->|]; [|discriminate]. cbn [negb orb] in E.
      destruct (negb _); [discriminate|]. injection E as <-. cbn. splits; [eexists; reflexivity|exact Es|apply W; reflexivity].
    + injection E as <-. cbn. splits; [eexists; reflexivity|reflexivity|apply mk_mat_wf].
  - unfold pv_init in E. unfold rassert in E. destruct (nleb _ _); [|discriminate]. destruct val as [a|].
    + destruct (W a eq_refl) as [W1 W2]. unfold pv_set in E. destruct (shape_ne_all _ _) as [[|]|]; try discriminate.
      injection E as <-. cbn. splits; [eexists; reflexivity|exact W2|exact W1|exact L].
    + injection E as <-. cbn. splits; [eexists; reflexivity|reflexivity| |exact L]. unfold nd_wf. cbn [data shape]. rewrite concat_repeat_length.
      rewrite nprod_cons, nprod_2. f_equal. rewrite <- nprod_2. apply (mk_mat_wf n n).
  - unfold pa_init in E. unfold rassert in E. destruct (nleb _ _); [|discriminate]. destruct val as [a|].
    + destruct (W a eq_refl) as [W1 W2]. unfold pa_set in E. destruct (shape_ne_all _ _) as [[|]|]; try discriminate.
      injection E as <-. cbn. splits; [eexists; reflexivity|exact W2|exact W1|exact L].
    + destruct (Nat.eqb _ 0); [discriminate|]. injection E as <-. cbn. splits; [eexists; reflexivity|reflexivity| |exact L]. unfold nd_wf. cbn [data shape]. rewrite concat_repeat_length.
      rewrite nprod_app, nprod_2. f_equal. rewrite <- nprod_2. apply (mk_mat_wf n n).
  - unfold simplex_init, simplex_set in E. destruct (match val with Some v => _ | None => _ end) as [v|] eqn:Ev; [|discriminate]. cbn [rbind] in E. destruct (shape_eqb _ _) eqn:Es; [|discriminate]. cbn [negb] in E. injection E as <-. cbn.
    apply shape_eqb_true in Es. splits; [exact L|exact Es|]. destruct val as [a|]; [injection Ev as <-; apply W; reflexivity|]. destruct (Nat.eqb cols 0); [discriminate|]. injection Ev as <-. apply np_full_wf.
  - pose proof (subspace_init_good solve eigh nm m d x val Y e V p HF ES HY EE HS E) as G. splits.
    + exists m, d, x. exact G.
    + unfold subspace_init in E. rewrite Nat.eqb_refl in E. cbn [negb] in E. destruct (Nat.leb d m); [discriminate|].
      destruct (get_perpendicular_subspace _ _ _ _ _) as [B|]; [|discriminate]. cbn [rbind] in E.
      unfold subspace_set in E. cbn [sv_dim sv_name sv_cons sv_basis] in E.
      destruct (Nat.eqb_spec (nd_size match val with Some v => v | None => np_full [d] (Fin 0) end) d) as [Es|]; [|discriminate].
      cbn [negb] in E. injection E as <-. exact Es.
    + unfold subspace_init in E. rewrite Nat.eqb_refl in E. cbn [negb] in E. destruct (Nat.leb d m); [discriminate|].
      destruct (get_perpendicular_subspace _ _ _ _ _) as [B|]; [|discriminate]. cbn [rbind] in E.
      unfold subspace_set in E. cbn [sv_dim sv_name sv_cons sv_basis] in E. destruct (negb _); [discriminate|]. injection E as <-. cbn.
      destruct val as [a|]; [apply W; reflexivity|apply np_full_wf].
Qed.

(** ---- calls keep leaf_wf ---- *)
Lemma rmapM_In {A B} (f : A -> res B) l l' y : rmapM f l = Ok l' -> In y l' -> exists x, In x l /\ f x = Ok y.
Proof.
  revert l'. induction l as [|x xs IH]; cbn [rmapM]; intros l' H Hy.
  - injection H as <-. destruct Hy.
  - destruct (f x) as [b|] eqn:E; [|discriminate]. cbn [rbind] in H. destruct (rmapM f xs) as [bs|]; [|discriminate].
    cbn [rbind] in H. injection H as <-. destruct Hy as [<-|Hy].
    + exists x. split; [left; reflexivity|exact E].
    + destruct (IH bs eq_refl Hy) as [z [Hz Ez]]. exists z. split; [right; exact Hz|exact Ez].
Qed.
Definition square (n : nat) (a : arr) : Prop := shape a = [n; n] /\ nd_wf a.
Lemma concat_squares n l : (forall a, In a l -> square n a) -> length (List.concat (map data l)) = (length l * (n * n))%nat.
Proof.
  intros H. induction l as [|b l IH]; [reflexivity|].
  cbn [map List.concat]. rewrite app_length, IH by (intros; apply H; right; assumption).
  destruct (H b (or_introl eq_refl)) as [Sb Wb]. unfold nd_wf in Wb. rewrite Wb, Sb, nprod_2. cbn [length]. lia.
Qed.
Lemma np_stack_square n ms v : ms <> [] -> (forall a, In a ms -> square n a) -> np_stack ms = Ok v ->
  shape v = [length ms; n; n] /\ nd_wf v.
Proof.
  intros N0 H E. unfold np_stack in E. destruct ms as [|a ms]; [congruence|].
  destruct (forallb _ _); [|discriminate]. injection E as <-. destruct (H a (or_introl eq_refl)) as [Sa _]. rewrite Sa. split; [reflexivity|].
  unfold nd_wf. cbn [data shape]. rewrite nprod_cons, nprod_2. apply (concat_squares n (a :: ms) H).
Qed.
Lemma unpack_square n l lb M : length l = tri n -> unpack_posdef_matrix (nd_vec l) lb = Ok M -> square n M.
Proof.
  intros L E. unfold unpack_posdef_matrix in E. rewrite (unvectorize_ok n l L) in E. cbn [rbind] in E.
  unfold exp_matrix_diagonal, map_matrix_diagonal in E. cbn [shape mk_mat] in E. rewrite Nat.eqb_refl in E. cbn [negb rbind] in E.
  injection E as <-. split; [reflexivity|apply mk_mat_wf].
Qed.
Lemma unvec_sym_square n l M : length l = tri n -> unvectorize_symmetric_matrix (nd_vec l) = Ok M -> square n M.
Proof.
  intros L E. unfold unvectorize_symmetric_matrix in E. rewrite (unvectorize_ok n l L) in E. cbn [rbind] in E.
  injection E as <-. split; [reflexivity|apply mk_mat_wf].
Qed.
Lemma np_slice_vec {A} (l : list A) lo hi : (lo <= hi)%nat -> (hi <= length l)%nat ->
  np_slice (nd_vec l) lo hi = Ok (nd_vec (slice l lo hi)).
Proof.
  intros H1 H2. unfold np_slice, nd_vec. cbn [shape data]. rewrite nprod_nil. rewrite !Nat.min_l by lia. rewrite !Nat.mul_1_r.
  rewrite slice_length by exact H2. reflexivity.
Qed.

Lemma leaf_set_wf l a : leaf_wf l -> sensible_set l a -> leaf_wf (fst (leaf_set l a)).
Proof.
  intros W [Wa Sa]. destruct l as [p|p|p|p|p|p|p|p]; cbn [leaf_set lift fst] in *.
  - exact (conj (proj1 W) Wa).
  - apply (vector_step_wf p (OpSet a) Wa W).
  - apply (array_step_wf p (OpSet a) Wa W).
  - cbn [leaf_wf] in *. unfold posdef_set. destruct (shape a) as [|r [|c [|]]] eqn:Es; try exact W.
    destruct (Nat.eqb_spec r (pd_size p)) as [->|]; [|exact W]. destruct (Nat.eqb_spec c (pd_size p)) as [->|]; [|exact W]. cbn [negb orb].
    destruct (negb _); [exact W|]. cbn. splits; [apply W|exact Es|exact Wa].
  - cbn [leaf_wf] in *. unfold pv_set. destruct (shape_ne_all _ _) as [[|]|]; try exact W. cbn. splits; [apply W|exact Sa|exact Wa|apply W].
  - cbn [leaf_wf] in *. unfold pa_set. destruct (shape_ne_all _ _) as [[|]|]; try exact W. cbn. splits; [apply W|exact Sa|exact Wa|apply W].
  - cbn [leaf_wf] in *. unfold simplex_set. destruct (shape_eqb _ _) eqn:Es; [|exact W]. cbn. apply shape_eqb_true in Es. splits; [apply W|exact Es|exact Wa].
  - cbn [leaf_wf] in *. destruct W as [[m [d [x G]]] [Ws Wd]]. splits.
    + exists m, d, x. apply (subspace_step_good m d x p (SvSet a) G).
    + unfold subspace_set. destruct (Nat.eqb_spec (nd_size a) (sv_dim p)) as [E|]; [exact E|exact Ws].
    + unfold subspace_set. destruct (Nat.eqb_spec (nd_size a) (sv_dim p)) as [E|]; [exact Wa|exact Wd].
Qed.
Lemma free_obs_ok p o : (o < pv_length p)%nat -> free_obs_slice p o = Ok (pv_vec_size p * o, pv_vec_size p * o + pv_vec_size p)%nat.
Proof. intros H. unfold free_obs_slice. destruct (Nat.ltb_spec o (pv_length p)); [|lia]. cbn [rassert]. rewrite mul_S_blk. reflexivity. Qed.
Lemma stacked_obs_ok p obs : In obs (product (pa_ashape p)) ->
  exists lin, stacked_obs_slice p obs = Ok (lin * pa_vec_size p, lin * pa_vec_size p + pa_vec_size p)%nat /\ (lin < pa_length p)%nat.
Proof.
  intros H. exists (ravel obs (pa_ashape p)). destruct (In_product_ravel _ _ H) as [L2 L1]. split.
  - unfold stacked_obs_slice. rewrite L1, Nat.eqb_refl. reflexivity.
  - exact L2.
Qed.
Lemma pv_blocks_square p (g : arr -> res arr) v ms : length v = (pv_vec_size p * pv_length p)%nat ->
  (forall l M, length l = tri (pv_size p) -> g (nd_vec l) = Ok M -> square (pv_size p) M) ->
  rmapM (fun obs => do sl <- free_obs_slice p obs; do s <- np_slice (nd_vec v) (fst sl) (snd sl); g s) (seq 0 (pv_length p)) = Ok ms ->
  length ms = pv_length p /\ forall a, In a ms -> square (pv_size p) a.
Proof.
  intros L Hg E. split; [rewrite (rmapM_length _ _ _ E); apply seq_length|]. intros a Ha.
  destruct (rmapM_In _ _ _ _ E Ha) as [o [Ho Eo]]. apply in_seq in Ho. cbn in Ho.
  rewrite free_obs_ok in Eo by lia. cbn [rbind fst snd] in Eo. rewrite np_slice_vec in Eo by nia. cbn [rbind] in Eo.
  apply (Hg _ _) in Eo; [exact Eo|]. rewrite slice_length by nia. unfold pv_vec_size. change (pv_size p * (pv_size p + 1) / 2)%nat with (tri (pv_size p)). lia.
Qed.
Lemma pa_blocks_square p (g : arr -> res arr) v ms : length v = (pa_vec_size p * pa_length p)%nat ->
  (forall l M, length l = tri (pa_size p) -> g (nd_vec l) = Ok M -> square (pa_size p) M) ->
  rmapM (fun obs => do sl <- stacked_obs_slice p obs; do s <- np_slice (nd_vec v) (fst sl) (snd sl); g s) (product (pa_ashape p)) = Ok ms ->
  length ms = pa_length p /\ forall a, In a ms -> square (pa_size p) a.
Proof.
  intros L Hg E. split; [rewrite (rmapM_length _ _ _ E); apply product_length|]. intros a Ha.
  destruct (rmapM_In _ _ _ _ E Ha) as [o [Ho Eo]]. destruct (stacked_obs_ok p o Ho) as [lin [El Ll]].
  rewrite El in Eo. cbn [rbind fst snd] in Eo. rewrite np_slice_vec in Eo by nia. cbn [rbind] in Eo.
  apply (Hg _ _) in Eo; [exact Eo|]. rewrite slice_length by nia. unfold pa_vec_size. change (pa_size p * (pa_size p + 1) / 2)%nat with (tri (pa_size p)). lia.
Qed.
Lemma leaf_set_free_wf l v : leaf_wf l -> leaf_wf (fst (leaf_set_free l (nd_vec v))).
Proof.
  intros W. destruct l as [p|p|p|p|p|p|p|p]; cbn [leaf_set_free lift fst] in *.
  - unfold scalar_set_free. rewrite constrain_any by apply W. apply (leaf_set_wf (LScalar p)); [exact W|].
    split; [apply nd_map_wf, nd_vec_wf|exact I].
  - apply (vector_step_wf p (OpSetFree (nd_vec v)) (nd_vec_wf v) W).
  - apply (array_step_wf p (OpSetFree (nd_vec v)) (nd_vec_wf v) W).
  - cbn [leaf_wf] in *. unfold posdef_set_free. rewrite nd_size_vec. destruct (Nat.eqb_spec (length v) (pd_vec_size p)) as [L|]; [|exact W]. cbn [negb].
    destruct (unpack_posdef_matrix _ _) as [M|] eqn:E; [|exact W].
    destruct (unpack_square (pd_size p) _ _ _ L E) as [Q1 Q2]. apply (leaf_set_wf (LPosDef p) M); [exact W|]. split; [exact Q2|exact I].
  - cbn [leaf_wf] in *. unfold pv_set_free. rewrite nd_size_vec. destruct (Nat.eqb_spec (length v) (pv_free_size p)) as [L|]; [|exact W]. cbn [negb].
    match goal with |- context [rmapM ?f ?l] => destruct (rmapM f l) as [ms|] eqn:E; [|exact W] end. cbn [rbind].
    destruct (pv_blocks_square p (fun s => unpack_posdef_matrix s (pv_lb p)) v ms L (fun l M Hl => unpack_square _ l _ M Hl) E) as [Lm Hm].
    destruct (np_stack ms) as [st|] eqn:Es; [|exact W]. 
    destruct (np_stack_square (pv_size p) ms st) as [Q1 Q2]; [|exact Hm|exact Es|].
    + intros ->. cbn in Lm. lia.
    + cbn. splits; [apply W|rewrite Q1, Lm; reflexivity|exact Q2|apply W].
  - cbn [leaf_wf] in *. unfold pa_set_free. rewrite nd_size_vec. destruct (Nat.eqb_spec (length v) (pa_free_size p)) as [L|]; [|exact W]. cbn [negb].
    match goal with |- context [rmapM ?f ?l] => destruct (rmapM f l) as [ms|] eqn:E; [|exact W] end. cbn [rbind].
    destruct (pa_blocks_square p (fun s => unpack_posdef_matrix s (pa_lb p)) v ms L (fun l M Hl => unpack_square _ l _ M Hl) E) as [Lm Hm].
    destruct (np_stack ms) as [st|] eqn:Es; [|exact W]. cbn [rbind].
    destruct (np_stack_square (pa_size p) ms st) as [Q1 Q2]; [|exact Hm|exact Es|].
    + intros ->. cbn in Lm. unfold pa_length in Lm. destruct W as [_ [_ [_ W]]]. lia.
    + destruct (np_reshape _ _) as [b|] eqn:Er; [|exact W]. destruct (np_reshape_wf _ _ _ Q2 Er) as [Wb [Wb2 _]]. cbn. splits; [apply W|exact Wb2|exact Wb|apply W].
  - cbn [leaf_wf] in *. unfold simplex_set_free. destruct (np_len _); [|exact W]. destruct (negb _); [exact W|].
    destruct (np_reshape _ _) as [b|]; [|exact W]. cbn [rbind]. unfold constrain_simplex_matrix. destruct (np_hstack _) as [u|]; [|exact W]. cbn [rbind].
    apply (leaf_set_wf (LSimplex p)); [exact W|]. split; [apply mk_mat_wf|exact I].
  - unfold subspace_set_free. destruct (negb _); [exact W|]. unfold basis_mul. destruct (shape_eqb _ _); [|exact W].
    apply (leaf_set_wf (LSubspace p)); [exact W|]. split; [apply nd_vec_wf|exact I].
Qed.
Lemma leaf_set_vector_wf l v : leaf_wf l -> leaf_wf (fst (leaf_set_vector l (nd_vec v))).
Proof.
  intros W. destruct l as [p|p|p|p|p|p|p|p]; cbn [leaf_set_vector lift fst] in *.
  - apply (leaf_set_wf (LScalar p)); [exact W|]. split; [apply nd_vec_wf|exact I].
  - apply (vector_step_wf p (OpSetVector (nd_vec v)) (nd_vec_wf v) W).
  - apply (array_step_wf p (OpSetVector (nd_vec v)) (nd_vec_wf v) W).
  - cbn [leaf_wf] in *. unfold posdef_set_vector. rewrite nd_size_vec. destruct (Nat.eqb_spec (length v) (pd_vec_size p)) as [L|]; [|exact W]. cbn [negb].
    destruct (unvectorize_symmetric_matrix _) as [M|] eqn:E; [|exact W].
    destruct (unvec_sym_square (pd_size p) _ _ L E) as [Q1 Q2]. apply (leaf_set_wf (LPosDef p) M); [exact W|]. split; [exact Q2|exact I].
  - cbn [leaf_wf] in *. unfold pv_set_vector. cbn [np_len nd_vec shape]. destruct (Nat.eqb_spec (length v) (pv_vector_size p)) as [L|]; [|exact W]. cbn [negb].
    match goal with |- context [rmapM ?f ?l] => destruct (rmapM f l) as [ms|] eqn:E; [|exact W] end. cbn [rbind].
    destruct (pv_blocks_square p (fun s => unvectorize_symmetric_matrix s) v ms L (fun l M Hl => unvec_sym_square _ l M Hl) E) as [Lm Hm].
    destruct (np_stack ms) as [st|] eqn:Es; [|exact W]. 
    destruct (np_stack_square (pv_size p) ms st) as [Q1 Q2]; [|exact Hm|exact Es|].
    + intros ->. cbn in Lm. lia.
    + cbn. splits; [apply W|rewrite Q1, Lm; reflexivity|exact Q2|apply W].
  - cbn [leaf_wf] in *. unfold pa_set_vector. cbn [np_len nd_vec shape]. destruct (Nat.eqb_spec (length v) (pa_vector_size p)) as [L|]; [|exact W]. cbn [negb].
    match goal with |- context [rmapM ?f ?l] => destruct (rmapM f l) as [ms|] eqn:E; [|exact W] end. cbn [rbind].
    destruct (pa_blocks_square p (fun s => unvectorize_symmetric_matrix s) v ms L (fun l M Hl => unvec_sym_square _ l M Hl) E) as [Lm Hm].
    destruct (np_stack ms) as [st|] eqn:Es; [|exact W]. cbn [rbind].
    destruct (np_stack_square (pa_size p) ms st) as [Q1 Q2]; [|exact Hm|exact Es|].
    + intros ->. cbn in Lm. unfold pa_length in Lm. destruct W as [_ [_ [_ W]]]. lia.
    + destruct (np_reshape _ _) as [b|] eqn:Er; [|exact W]. destruct (np_reshape_wf _ _ _ Q2 Er) as [Wb [Wb2 _]]. cbn. splits; [apply W|exact Wb2|exact Wb|apply W].
  - cbn [leaf_wf] in *. unfold simplex_set_vector. destruct (np_len _); [|exact W]. destruct (negb _); [exact W|].
    destruct (np_reshape _ _) as [b|] eqn:Er; [|exact W].
    apply (leaf_set_wf (LSimplex p)); [exact W|]. split; [|exact I]. apply (np_reshape_wf _ _ _ (nd_vec_wf v) Er).
  - apply (leaf_set_wf (LSubspace p)); [exact W|]. split; [apply nd_vec_wf|exact I].
Qed.

(** ---- what the getters return ---- *)
Definition sized (n : nat) (a : arr) : Prop := nd_wf a /\ nd_size a = n.
Definition flat (n : nat) (a : arr) : Prop := exists l, a = nd_vec l /\ length l = n.
Lemma flat_sized n a : flat n a -> sized n a.
Proof. intros [l [-> L]]. split; [apply nd_vec_wf|]. rewrite nd_size_vec. exact L. Qed.
Lemma sized_flat n a : sized n a -> shape a = [n] -> flat n a.
Proof.
  intros [W S] E. exists (data a). destruct a as [s l]. cbn in *. subst s. unfold nd_wf in W. cbn in W. rewrite nprod_1 in W.
  split; [unfold nd_vec; rewrite W; reflexivity|exact W].
Qed.
Lemma np_flatten_flat (a : arr) : nd_wf a -> flat (nd_size a) (np_flatten a).
Proof.
  intros W. exists (data a). unfold np_flatten, nd_vec. rewrite W. split; [reflexivity|]. reflexivity.
Qed.
Lemma vectorize_flat n a v : shape a = [n; n] -> vectorize_ld_matrix a = Ok v -> flat (tri n) v.
Proof.
  intros S E. rewrite (vectorize_ok n a S) in E. injection E as <-. exists (tril_list n (mget NaN a)). split; [reflexivity|apply tril_list_length].
Qed.
Lemma pack_flat n a lb v : shape a = [n; n] -> pack_posdef_matrix a lb = Ok v -> flat (tri n) v.
Proof.
  intros S E. unfold pack_posdef_matrix in E. rewrite S in E. rewrite Nat.eqb_refl in E. cbn [negb] in E.
  destruct (np_cholesky _) as [c|] eqn:Ec; [|discriminate]. cbn [rbind] in E.
  unfold np_cholesky in Ec. cbn [shape mk_mat] in Ec. rewrite Nat.eqb_refl in Ec. cbn [negb] in Ec. destruct (_ && _); [|discriminate]. injection Ec as <-.
  unfold log_matrix_diagonal, map_matrix_diagonal in E. cbn [shape mk_mat] in E. rewrite Nat.eqb_refl in E. cbn [rassert rbind] in E.
  revert E. apply vectorize_flat. reflexivity.
Qed.
Lemma np_hstack_vecs {A} (l : list (list A)) : l <> [] -> np_hstack (map nd_vec l) = Ok (nd_vec (List.concat l)).
Proof.
  intros Hl. destruct l as [|v l]; [contradiction|]. unfold np_hstack.
  assert (E : map at_least_1d (map nd_vec (v :: l)) = map nd_vec (v :: l)).
  { rewrite map_map. apply map_ext. reflexivity. }
  rewrite E. cbn [map]. change (shape (nd_vec v)) with [length v]. cbv iota beta.
  assert (B : forallb (fun a : nd A => match shape a with [_] => true | _ => false end) (nd_vec v :: map nd_vec l) = true).
  { apply forallb_forall. intros b Hb. change (In b (map nd_vec (v :: l))) in Hb. apply in_map_iff in Hb as [o [<- _]]. reflexivity. }
  rewrite B. change (nd_size (nd_vec v) :: map nd_size (map nd_vec l)) with (map nd_size (map nd_vec (v :: l))).
  change (data (nd_vec v) :: map data (map nd_vec l)) with (map data (map nd_vec (v :: l))). generalize (v :: l). clear. intros m.
  assert (E1 : fold_right Nat.add 0%nat (map nd_size (map nd_vec m)) = length (List.concat m)).
  { induction m as [|w m IH]; [reflexivity|]. cbn [map fold_right List.concat]. rewrite app_length, <- IH, nd_size_vec. reflexivity. }
  rewrite E1. assert (E2 : map data (map nd_vec m) = m). { rewrite map_map. cbn [data nd_vec]. apply map_id. }
  rewrite E2. reflexivity.
Qed.
Lemma hstack_flats n l v : l <> [] -> (forall a, In a l -> flat n a) -> np_hstack l = Ok v -> flat (length l * n) v.
Proof.
  intros N0 H E.
  assert (X : exists m, l = map nd_vec m /\ forall w, In w m -> length w = n).
  { clear -H. induction l as [|a l IH]; [exists []; split; [reflexivity|intros w []]|].
    destruct (H a (or_introl eq_refl)) as [w [-> Lw]]. destruct IH as [m [-> Hm]]; [intros; apply H; right; assumption|].
    exists (w :: m). split; [reflexivity|]. intros u [<-|Hu]; [exact Lw|apply Hm, Hu]. }
  destruct X as [m [-> Hm]]. rewrite np_hstack_vecs in E by (intros ->; apply N0; reflexivity). injection E as <-.
  exists (List.concat m). split; [reflexivity|]. rewrite map_length. clear -Hm. induction m as [|w m IH]; [reflexivity|].
  cbn [List.concat length]. rewrite app_length, IH by (intros; apply Hm; right; assumption). rewrite (Hm w) by (left; reflexivity). lia.
Qed.
Lemma unconstrain_array_flat a lb ub v : nd_wf a -> unconstrain_array a lb ub = Ok v -> flat (nd_size a) v.
Proof.
  intros W E. unfold unconstrain_array in E. destruct (negb _); [discriminate|]. destruct (negb _); [discriminate|]. unfold unconstrain in E.
  destruct (nleb ub lb); [discriminate|]. cbn [rmap] in E. injection E as <-.
  apply (np_flatten_flat (nd_map (fun v => unconstrain_entry v lb ub) a)). apply nd_map_wf, W.
Qed.
Lemma reshape_flat (a v : arr) : nd_wf a -> np_reshape a [1%nat] = Ok v -> flat 1 v.
Proof. intros W E. destruct (np_reshape_wf a v _ W E) as [W1 [S1 _]]. apply sized_flat; [|exact S1]. split; [exact W1|]. unfold nd_size. rewrite S1. reflexivity. Qed.
Lemma leaf_get_free_flat l a : leaf_wf l -> leaf_get_free l = Ok a -> flat (leaf_free_size l) a.
Proof.
  intros W E. destruct l as [p|p|p|p|p|p|p|p]; cbn [leaf_get_free leaf_free_size leaf_wf] in *.
  - unfold scalar_get_free in E. destruct (unconstrain_scalar _ _ _) as [u|] eqn:Eu; [|discriminate]. cbn [rbind] in E.
    apply (reshape_flat u); [|exact E]. unfold unconstrain_scalar in Eu. destruct (data (sp_val p)) as [|v [|]]; try discriminate.
    destruct (negb _); [discriminate|]. destruct (negb _); [discriminate|]. unfold unconstrain in Eu. destruct (nleb _ _); [discriminate|]. injection Eu as <-.
    apply nd_map_wf, W.
  - destruct W as [_ [W S]]. unfold vector_free_size. rewrite <- S. revert E. apply unconstrain_array_flat, W.
  - destruct W as [_ [W S]]. unfold array_free_size. rewrite <- S. revert E. apply unconstrain_array_flat, W.
  - destruct W as [_ [S W]]. revert E. apply pack_flat, S.
  - destruct W as [_ [S [W L]]]. unfold pv_get_free in E. match type of E with context [rmapM ?f ?l] => destruct (rmapM f l) as [ms|] eqn:Em; [|discriminate] end.
    cbn [rbind] in E. pose proof (rmapM_length _ _ _ Em) as Lm. rewrite seq_length in Lm. unfold pv_free_size. rewrite Nat.mul_comm, <- Lm.
    apply hstack_flats; [destruct ms; [cbn in Lm; lia|discriminate]| |exact E]. intros a' Ha.
    destruct (rmapM_In _ _ _ _ Em Ha) as [o [Ho Eo]]. apply in_seq in Ho. unfold pv_item in Eo. rewrite S in Eo. cbn [length Nat.leb pv_shape] in Eo.
    cbn [nd_index] in Eo. rewrite S in Eo. unfold pv_shape in Eo. destruct (Nat.ltb_spec o (pv_length p)) as [L1|]; [|lia]. cbn [rbind] in Eo.
    revert Eo. apply pack_flat. reflexivity.
  - destruct W as [_ [S [W L]]]. unfold pa_get_free in E. match type of E with context [rmapM ?f ?l] => destruct (rmapM f l) as [ms|] eqn:Em; [|discriminate] end.
    cbn [rbind] in E. pose proof (rmapM_length _ _ _ Em) as Lm. rewrite product_length in Lm. unfold pa_free_size, pa_length. rewrite Nat.mul_comm, <- Lm.
    apply hstack_flats; [destruct ms; [cbn in Lm; lia|discriminate]| |exact E]. intros a' Ha.
    destruct (rmapM_In _ _ _ _ Em Ha) as [o [Ho Eo]]. destruct (pa_val p) as [s d]. cbn in S. subst s. unfold pa_shape in Eo.
    unfold nd_wf in W. cbn [data shape] in W. unfold pa_shape in W. rewrite nprod_app in W.
    rewrite nd_index_product in Eo by assumption. cbn [rbind] in Eo. revert Eo. apply pack_flat. reflexivity.
  - destruct W as [C [Hs W]]. unfold simplex_get_free, unconstrain_simplex_matrix in E. rewrite Hs in E. unfold sx_shape in E. unfold sx_free_size, sx_free_shape.
    destruct (sx_cols p) as [|k]; [lia|]. cbn [rbind] in E. injection E as <-. replace (S k - 1)%nat with k by lia.
    apply (np_flatten_flat (mk_mat (sx_rows p) k _)). apply mk_mat_wf.
  - destruct W as [[m [d [x [G1 [G2 G3]]]]] [S W]]. unfold subspace_get_free, basis_t_mul in E. destruct (shape_eqb _ _); [|discriminate]. injection E as <-.
    eexists. split; [reflexivity|]. rewrite map_length. rewrite (gb_len _ _ _ _ G3). unfold sv_free_size. rewrite G1, G2. reflexivity.
Qed.
Lemma leaf_get_vector_sized l a : leaf_wf l -> leaf_get_vector l = Ok a -> sized (leaf_vector_size l) a.
Proof.
  intros W E. destruct l as [p|p|p|p|p|p|p|p]; cbn [leaf_get_vector leaf_vector_size leaf_wf] in *.
  - apply flat_sized. apply (reshape_flat (sp_val p)); [apply W|exact E].
  - injection E as <-. split; apply W.
  - injection E as <-. destruct W as [_ [W S]]. unfold array_vector_size. rewrite <- S. apply flat_sized, np_flatten_flat, W.
  - destruct W as [_ [S W]]. apply flat_sized. revert E. apply vectorize_flat, S.
  - apply flat_sized. destruct W as [_ [S [W L]]]. unfold pv_get_vector in E. match type of E with context [rmapM ?f ?l] => destruct (rmapM f l) as [ms|] eqn:Em; [|discriminate] end.
    cbn [rbind] in E. pose proof (rmapM_length _ _ _ Em) as Lm. rewrite seq_length in Lm. unfold pv_vector_size. rewrite Nat.mul_comm, <- Lm.
    apply hstack_flats; [destruct ms; [cbn in Lm; lia|discriminate]| |exact E]. intros a' Ha.
    destruct (rmapM_In _ _ _ _ Em Ha) as [o [Ho Eo]]. apply in_seq in Ho. unfold pv_item in Eo. rewrite S in Eo. cbn [length Nat.leb pv_shape] in Eo.
    cbn [nd_index] in Eo. rewrite S in Eo. unfold pv_shape in Eo. destruct (Nat.ltb_spec o (pv_length p)) as [L1|]; [|lia]. cbn [rbind] in Eo.
    revert Eo. apply vectorize_flat. reflexivity.
  - apply flat_sized. destruct W as [_ [S [W L]]]. unfold pa_get_vector in E. match type of E with context [rmapM ?f ?l] => destruct (rmapM f l) as [ms|] eqn:Em; [|discriminate] end.
    cbn [rbind] in E. pose proof (rmapM_length _ _ _ Em) as Lm. rewrite product_length in Lm. unfold pa_vector_size, pa_length. rewrite Nat.mul_comm, <- Lm.
    apply hstack_flats; [destruct ms; [cbn in Lm; lia|discriminate]| |exact E]. intros a' Ha.
    destruct (rmapM_In _ _ _ _ Em Ha) as [o [Ho Eo]]. destruct (pa_val p) as [s d]. cbn in S. subst s. unfold pa_shape in Eo.
    unfold nd_wf in W. cbn [data shape] in W. unfold pa_shape in W. rewrite nprod_app in W.
    rewrite nd_index_product in Eo by assumption. cbn [rbind] in Eo. revert Eo. apply vectorize_flat. reflexivity.
  - injection E as <-. destruct W as [C [S W]]. unfold sx_vector_size. rewrite <- S. apply flat_sized, np_flatten_flat, W.
  - injection E as <-. split; apply W.
Qed.

(** ---- round trips of every class ---- *)
Lemma toR_Fin (l : list R) : map toR (map Fin l) = l.
Proof. rewrite map_map. apply map_id. Qed.
Lemma leaf_free_roundtrip l x : leaf_wf l -> length x = leaf_free_size l ->
  exists l' v, leaf_set_free l (fvec x) = (l', Ok tt) /\ leaf_get_free l' = Ok (fvec x) /\
    leaf_get_vector l' = Ok (fvec v) /\ length v = leaf_vector_size l.
Proof.
  intros W L. destruct l as [p|p|p|p|p|p|p|p]; cbn [leaf_set_free leaf_get_free leaf_get_vector leaf_free_size leaf_vector_size leaf_wf] in *.
  - destruct W as [W _]. destruct x as [|x0 [|]]; try discriminate. destruct (scalar_free_roundtrip p x0 W) as [p' [y [E1 [E2 [E3 _]]]]].
    exists (LScalar p'), [y]. unfold lift. change (fvec [x0]) with (nd_vec [Fin x0]). rewrite E1. splits; [reflexivity|exact E2| |reflexivity].
    unfold scalar_set_free in E1. rewrite constrain_any in E1 by exact W. unfold scalar_set in E1. injection E1 as <-. cbn in *. injection E3 as E3.
    unfold scalar_get_vector. cbn. unfold np_reshape, nd_map, nd_size. cbn. rewrite E3. reflexivity.
  - destruct W as [W _]. destruct (vector_free_roundtrip p x W L) as [p' [E1 [E2 E3]]].
    exists (LVector p'), (map (cval (vp_lb p) (vp_ub p)) x). unfold lift. change (fvec x) with (nd_vec (map Fin x)). rewrite E1. splits; [reflexivity|exact E2| |rewrite map_length; exact L].
    pose proof (vector_set_free_fin p [length (map Fin x)] x W) as F. rewrite map_length, nprod_1 in F. specialize (F L).
    unfold nd_vec in E1. rewrite map_length in E1. rewrite F in E1. injection E1 as <-. cbn [leaf_get_vector]. unfold vector_get_vector. cbn [vp_val]. unfold fvec, nd_vec. rewrite !map_length. reflexivity.
  - destruct W as [W _]. destruct (array_free_roundtrip p x W L) as [p' [E1 [E2 E3]]].
    exists (LArray p'), (map (cval (ap_lb p) (ap_ub p)) x). unfold lift. change (fvec x) with (nd_vec (map Fin x)). rewrite E1. splits; [reflexivity|exact E2| |rewrite map_length; exact L].
    pose proof (array_set_free_fin p [length (map Fin x)] x W) as F. rewrite map_length, nprod_1 in F. specialize (F L).
    unfold nd_vec in E1. rewrite map_length in E1. rewrite F in E1. injection E1 as <-. cbn [leaf_get_vector]. unfold array_get_vector. cbn [ap_val]. unfold np_flatten, fvec, nd_vec. cbn [shape data]. rewrite !map_length. unfold array_free_size in L. rewrite L. reflexivity.
  - destruct W as [[lb Hlb] _]. destruct (posdef_set_free_valid p lb x Hlb L) as [p' [A [E1 [E2 [_ [_ [_ E3]]]]]]].
    exists (LPosDef p'), (tril_list (pd_size p) A). unfold lift. rewrite E1. splits; [reflexivity|exact E3| |apply tril_list_length].
    cbn [leaf_get_vector]. unfold posdef_get_vector. unfold posdef_get in E2. rewrite E2. unfold fmat. rewrite vectorize_mk. unfold fvec. rewrite tril_list_map. reflexivity.
  - destruct W as [[lb Hlb] [_ [_ LN]]]. destruct (pv_free_roundtrip p lb Hlb LN x L) as [p' [E1 [E2 _]]].
    pose proof (pv_set_free_fin p lb Hlb LN x L) as F. rewrite F in E1. injection E1 as <-.
    eexists (LPosDefV _), _. unfold lift. rewrite F. splits; [reflexivity|exact E2|apply pv_get_vector_stack, LN|].
    rewrite (concat_const_length _ _ (tri (pv_size p))); [rewrite seq_length; unfold pv_vector_size, pv_vec_size; change (pv_size p * (pv_size p + 1) / 2)%nat with (tri (pv_size p)); lia|].
    intros; apply tril_list_length.
  - destruct W as [[lb Hlb] [_ [_ LN]]]. destruct (pa_free_roundtrip p lb Hlb LN x L) as [p' [E1 [E2 _]]].
    pose proof (pa_set_free_fin p lb Hlb LN x L) as F. rewrite F in E1. injection E1 as <-.
    eexists (LPosDefA _), _. unfold lift. rewrite F. splits; [reflexivity|exact E2|apply pa_get_vector_stack, LN|].
    rewrite (concat_const_length _ _ (tri (pa_size p))); [rewrite seq_length; unfold pa_vector_size, pa_vec_size, pa_length; change (pa_size p * (pa_size p + 1) / 2)%nat with (tri (pa_size p)); lia|].
    intros; apply tril_list_length.
  - destruct W as [C _]. destruct (simplex_set_free_roundtrip p x C L) as [p' [Z [E1 [E2 [_ [_ E3]]]]]].
    exists (LSimplex p'), (rmat_list (sx_rows p) (sx_cols p) Z). unfold lift. rewrite E1. splits; [reflexivity|exact E3| |].
    + cbn [leaf_get_vector]. unfold simplex_get_vector. unfold simplex_get in E2. rewrite E2. rewrite rmat_flatten. reflexivity.
    + rewrite rmat_list_length, sx_vector_size_eq. reflexivity.
  - destruct W as [[m [d [b G]]] _]. pose proof G as [G1 [G2 G3]]. assert (L' : length x = (d - m)%nat) by (rewrite L; unfold sv_free_size; rewrite G1, G2; reflexivity).
    destruct (subspace_free_roundtrip m d b p x G L') as [p' [v [E1 [E2 [E3 [_ E4]]]]]].
    exists (LSubspace p'), v. unfold lift. rewrite E1. splits; [reflexivity|exact E4| |unfold sv_vector_size; lia].
    cbn [leaf_get_vector]. unfold subspace_get_vector. unfold subspace_get in E2. rewrite E2. reflexivity.
Qed.
Lemma leaf_vector_roundtrip l v : leaf_wf l -> length v = leaf_vector_size l ->
  exists l', leaf_set_vector l (fvec v) = (l', Ok tt) /\ leaf_get_vector l' = Ok (fvec v).
Proof.
  intros W L. destruct l as [p|p|p|p|p|p|p|p]; cbn [leaf_set_vector leaf_get_vector leaf_free_size leaf_vector_size leaf_wf] in *.
  - destruct v as [|x0 [|]]; try discriminate. eexists (LScalar _). split; reflexivity.
  - eexists (LVector _). unfold lift, vector_set_vector, vector_set. rewrite nd_size_fvec, L. unfold vector_vector_size. rewrite Nat.eqb_refl. split; reflexivity.
  - eexists (LArray _). unfold lift, array_set_vector, np_reshape. rewrite nd_size_fvec, L. unfold array_vector_size. rewrite !Nat.eqb_refl. cbn [negb].
    unfold array_set. cbn [shape]. rewrite shape_eqb_refl. cbn [negb fst snd]. split; [reflexivity|]. cbn. unfold array_get_vector, np_flatten, fvec, nd_vec. cbn [ap_val shape data].
    rewrite map_length. unfold array_vector_size in L. rewrite L. reflexivity.
  - destruct (posdef_set_vector_fin p v L) as [p' [E1 [E2 _]]]. exists (LPosDef p'). unfold lift. rewrite E1. split; [reflexivity|exact E2].
  - destruct (pv_vector_roundtrip p) with (x := v) as [p' [E1 [E2 _]]]; [apply W|exact L|]. exists (LPosDefV p'). unfold lift. rewrite E1. split; [reflexivity|exact E2].
  - destruct (pa_vector_roundtrip p) with (x := v) as [p' [E1 [E2 _]]]; [apply W|exact L|]. exists (LPosDefA p'). unfold lift. rewrite E1. split; [reflexivity|exact E2].
  - destruct (simplex_set_vector_any p (map Fin v)) as [p' [E1 [_ E2]]]; [rewrite map_length; exact L|]. exists (LSimplex p'). unfold lift, fvec. rewrite E1. split; [reflexivity|exact E2].
  - destruct (subspace_vector_roundtrip p (fvec v)) as [p' [E1 [_ E2]]]; [rewrite nd_size_fvec; exact L|]. exists (LSubspace p'). unfold lift. rewrite E1. split; [reflexivity|exact E2].
Qed.
Lemma leaf_value_roundtrip l : leaf_wf l -> leaf_interior l ->
  exists f l', leaf_get_free l = Ok (nd_vec f) /\ length f = leaf_free_size l /\
    leaf_set_free l (nd_vec f) = (l', Ok tt) /\ data (leaf_get l') = data (leaf_get l).
Proof.
  intros W I.
  assert (X : exists a l', leaf_get_free l = Ok a /\ leaf_set_free l a = (l', Ok tt) /\ data (leaf_get l') = data (leaf_get l)).
  { destruct l as [p|p|p|p|p|p|p|p]; cbn [leaf_set_free leaf_get_free leaf_wf leaf_interior leaf_get] in *; unfold lift.
    - destruct I as [Wv [x [Ed Ix]]]. destruct (scalar_constrained_roundtrip p x (proj1 W) Ed Wv Ix) as [f [p' [E1 [_ [E2 [E3 _]]]]]].
      exists f, (LScalar p'). rewrite E2. splits; [exact E1|reflexivity|exact E3].
    - destruct (vector_constrained_roundtrip p W I) as [f [p' [E1 [_ [E2 [E3 _]]]]]]. exists f, (LVector p'). rewrite E2. splits; [exact E1|reflexivity|exact E3].
    - destruct (array_constrained_roundtrip p W I) as [f [E1 [_ E2]]]. exists f, (LArray p). rewrite E2. splits; [exact E1|reflexivity|reflexivity].
    - destruct I as [A [lb [Hlb [Ev [SA PA]]]]]. destruct (unpack_pack (pd_size p) A lb SA PA) as [f [E1 E2]].
      exists f, (LPosDef p).
      assert (F : flat (tri (pd_size p)) f) by (apply (pack_flat (pd_size p) (fmat (pd_size p) A) (Fin lb)); [reflexivity|exact E1]).
      unfold posdef_get_free. rewrite Ev, Hlb. splits; [exact E1| |cbn [leaf_get]; rewrite Ev; reflexivity]. unfold posdef_set_free. destruct F as [w [-> Lw]]. rewrite nd_size_vec, Lw.
      unfold pd_vec_size. change (pd_size p * (pd_size p + 1) / 2)%nat with (tri (pd_size p)). rewrite Nat.eqb_refl. cbn [negb]. rewrite Hlb, E2, posdef_set_fin by exact SA.
      cbn [fst snd]. rewrite <- Ev. destruct p; reflexivity.
    - destruct W as [[lb Hlb] [S [Wv LN]]]. destruct I as [lb' [Hlb' I]]. destruct (pv_value_roundtrip p lb' Hlb' LN Wv S I) as [f [E1 [_ E2]]].
      exists f, (LPosDefV p). rewrite E2. splits; [exact E1|reflexivity|reflexivity].
    - destruct W as [[lb Hlb] [S [Wv LN]]]. destruct I as [lb' [Hlb' I]]. destruct (pa_value_roundtrip p lb' Hlb' LN Wv S I) as [f [E1 [_ E2]]].
      exists f, (LPosDefA p). rewrite E2. splits; [exact E1|reflexivity|reflexivity].
    - destruct W as [C _]. destruct I as [Z [EZ IZ]]. destruct (simplex_value_roundtrip p Z C EZ) as [f [p' [E1 [_ [E2 [_ E3]]]]]]; [intros i j Hi Hj; apply (IZ i Hi); exact Hj|].
      exists (fvec f), (LSimplex p'). rewrite E2. splits; [exact E1|reflexivity|]. rewrite E3; [reflexivity|]. intros i Hi. apply (IZ i Hi).
    - destruct W as [[m [d [b G]]] _]. pose proof G as [G1 [G2 G3]]. destruct I as [v [c [Ev [Lv Hc]]]]. rewrite G1 in Lv, Hc.
      destruct (subspace_projection m d b p v G Ev Lv) as [f [p' [w [E1 [_ [E2 [_ [_ [_ [_ E3]]]]]]]]]].
      exists (fvec f), (LSubspace p'). rewrite E2. splits; [exact E1|reflexivity|]. rewrite E3; [reflexivity|].
      intros k Hk. unfold entry.
      transitivity (inner d (b k) (fun i => rsum (length (sv_basis p)) (fun a => c a * nth a (sv_basis p) (fun _ => 0) i))).
      { unfold inner. apply rsum_ext. intros i Hi. rewrite Hc by exact Hi. reflexivity. }
      unfold inner. transitivity (rsum (length (sv_basis p)) (fun a => c a * inner d (b k) (nth a (sv_basis p) (fun _ => 0)))).
      { unfold inner. rewrite (rsum_ext d _ (fun i => rsum (length (sv_basis p)) (fun a => c a * (b k i * nth a (sv_basis p) (fun _ => 0) i)))).
        - rewrite rsum_swap. apply rsum_ext. intros a Ha. rewrite rsum_scal_l. reflexivity.
        - intros i Hi. rewrite <- rsum_scal_l. apply rsum_ext. intros a Ha. ring. }
      apply rsum_zero. intros a Ha. assert (P : perp m d b (nth a (sv_basis p) (fun _ => 0))) by (apply (gb_perp _ _ _ _ G3), nth_In, Ha).
      specialize (P k Hk). rewrite P. ring. }
  destruct X as [a [l' [E1 [E2 E3]]]]. destruct (leaf_get_free_flat l a W E1) as [f [-> Lf]]. exists f, l'. splits; assumption.
Qed.
Lemma leaf_value_vector_roundtrip l : leaf_wf l -> leaf_regular l ->
  exists v l', leaf_get_vector l = Ok (nd_vec v) /\ length v = leaf_vector_size l /\
    leaf_set_vector l (nd_vec v) = (l', Ok tt) /\ data (leaf_get l') = data (leaf_get l).
Proof.
  intros W I.
  assert (X : exists a l', leaf_get_vector l = Ok a /\ (exists n, shape a = [n]) /\ leaf_set_vector l a = (l', Ok tt) /\ data (leaf_get l') = data (leaf_get l)).
  { destruct l as [p|p|p|p|p|p|p|p]; cbn [leaf_set_vector leaf_get_vector leaf_wf leaf_regular leaf_get] in *; unfold lift.
    - destruct I as [Wv [x Ed]]. unfold nd_wf in Wv. rewrite Ed in Wv. cbn in Wv. exists (nd_vec [Fin x]). eexists (LScalar _). unfold scalar_get_vector, np_reshape, nd_size. rewrite <- Wv. rewrite Ed. splits; [reflexivity|eexists; reflexivity|reflexivity|reflexivity].
    - destruct I as [v Ev]. exists (vp_val p). eexists (LVector p). destruct W as [_ [W S]]. splits; [reflexivity|rewrite Ev; eexists; reflexivity| |reflexivity]. unfold vector_set_vector, vector_set.
      rewrite S, Nat.eqb_refl. destruct p; reflexivity.
    - exists (np_flatten (ap_val p)), (LArray p). destruct W as [_ [W S]]. splits; [reflexivity|eexists; reflexivity| |reflexivity]. unfold array_set_vector, array_vector_size, np_reshape. unfold np_flatten, nd_size. cbn [shape data].
      rewrite nprod_1. rewrite S, Nat.eqb_refl. cbn [negb]. unfold array_set. cbn [shape]. rewrite shape_eqb_refl. cbn [negb fst snd]. destruct p as [nm sh lb ub [s d]]; cbn in *; rewrite S; reflexivity.
    - destruct I as [A [Ev SA]]. destruct (unvectorize_symmetric_roundtrip (pd_size p) A SA) as [v [E1 E2]].
      assert (F : flat (tri (pd_size p)) v) by (apply (vectorize_flat (pd_size p) (fmat (pd_size p) A)); [reflexivity|exact E1]).
      exists v, (LPosDef p). unfold posdef_get_vector. rewrite Ev. splits; [exact E1| | |cbn [leaf_get]; rewrite Ev; reflexivity].
      + destruct F as [w [-> _]]. eexists; reflexivity.
      + unfold posdef_set_vector. destruct F as [w [-> Lw]]. rewrite nd_size_vec, Lw.
        unfold pd_vec_size. change (pd_size p * (pd_size p + 1) / 2)%nat with (tri (pd_size p)). rewrite Nat.eqb_refl. cbn [negb]. rewrite E2, posdef_set_fin by exact SA.
        cbn [fst snd]. rewrite <- Ev. destruct p; reflexivity.
    - destruct W as [[lb Hlb] [S [Wv LN]]]. destruct (pv_value_vector_roundtrip p lb Hlb LN Wv S I) as [f [E1 [Es E2]]].
      exists f, (LPosDefV p). rewrite E2. splits; [exact E1|eexists; exact Es|reflexivity|reflexivity].
    - destruct W as [[lb Hlb] [S [Wv LN]]]. destruct (pa_value_vector_roundtrip p lb Hlb LN Wv S I) as [f [E1 [Es E2]]].
      exists f, (LPosDefA p). rewrite E2. splits; [exact E1|eexists; exact Es|reflexivity|reflexivity].
    - destruct W as [C [S Wv]]. destruct (simplex_vector_roundtrip p Wv S) as [v [E1 [Es E2]]]. exists v, (LSimplex p). rewrite E2. splits; [exact E1|eexists; exact Es|reflexivity|reflexivity].
    - destruct W as [_ [S Wv]]. destruct I as [v Ev]. exists (sv_val p), (LSubspace p). splits; [reflexivity|rewrite Ev; eexists; reflexivity| |reflexivity].
      unfold subspace_set_vector, subspace_set. rewrite S, Nat.eqb_refl. destruct p; reflexivity. }
  destruct X as [a [l' [E1 [[n En] [E2 E3]]]]]. destruct (leaf_get_vector_sized l a W E1) as [Wa Sa].
  assert (F : flat (leaf_vector_size l) a). { apply sized_flat; [split; assumption|]. unfold nd_size in Sa. rewrite En, nprod_1 in Sa. congruence. }
  destruct F as [f [-> Lf]]. exists f, l'. splits; assumption.
Qed.

(** ---- derivatives of every class ---- *)
Lemma jacobian_of_ext F G nv nf x J : length x = nf -> (forall y, length y = nf -> F y = G y) -> jacobian_of F nv nf x J -> jacobian_of G nv nf x J.
Proof.
  intros L E [S H]. split; [exact S|]. intros i j Hi Hj. apply (is_partial_ext_len (fun y => nth i (F y) 0)); [|apply H; assumption].
  intros y Hy. rewrite E by congruence. reflexivity.
Qed.
Lemma hessians_of_ext F G nv nf x Hs : length x = nf -> (forall y, length y = nf -> F y = G y) -> hessians_of F nv nf x Hs -> hessians_of G nv nf x Hs.
Proof.
  intros L E [S H]. split; [exact S|]. intros k Hk. destruct (H k Hk) as [M [E1 [E2 E3]]]. exists M. splits; [exact E1|exact E2|]. intros i j Hi Hj.
  apply (is_partial2_ext_len (fun y => nth k (F y) 0)); [|apply E3; assumption].
  intros y Hy. rewrite E by congruence. reflexivity.
Qed.
Lemma leaf_derivatives l x : leaf_wf l -> length x = leaf_free_size l ->
  (exists J, leaf_jac l x = Ok J /\ jacobian_of (p_free_to_vector (Leaf l)) (leaf_vector_size l) (leaf_free_size l) x J) /\
  (exists Hs, leaf_hess l x = Ok Hs /\ hessians_of (p_free_to_vector (Leaf l)) (leaf_vector_size l) (leaf_free_size l) x Hs).
Proof.
  intros W L. destruct l as [p|p|p|p|p|p|p|p]; cbn [leaf_jac leaf_hess leaf_free_size leaf_vector_size leaf_wf] in *.
  - destruct W as [W _]. destruct x as [|x0 [|]]; try discriminate. destruct (scalar_derivatives p x0 W) as [H1 [_ H2]].
    assert (E : forall y, length y = 1%nat -> scalar_free_to_vector p y = p_free_to_vector (Leaf (LScalar p)) y).
    { intros y Hy. unfold scalar_free_to_vector, p_free_to_vector. cbn [p_set_free leaf_set_free]. unfold lift, scalar_set_free. rewrite constrain_any by exact W.
      cbn [scalar_set fst snd p_get_vector leaf_get_vector]. unfold scalar_get_vector, np_reshape, nd_size. cbn [sp_val shape nd_map nd_vec scalar_get]. rewrite map_length, Hy, nprod_1. reflexivity. }
    split; eexists; (split; [reflexivity|]); [apply (jacobian_of_ext (scalar_free_to_vector p))|apply (hessians_of_ext (scalar_free_to_vector p))]; assumption.
  - destruct W as [W _]. destruct (vector_derivatives p x W L) as [[J [E1 [H1 _]]] [Hs [E2 H2]]].
    assert (E : forall y, length y = vp_size p -> vector_free_to_vector p y = p_free_to_vector (Leaf (LVector p)) y).
    { intros y _. unfold vector_free_to_vector, p_free_to_vector. cbn [p_set_free leaf_set_free]. unfold lift. destruct (vector_set_free _ _) as [q [|]]; reflexivity. }
    split; eexists; (split; [eassumption|]); [apply (jacobian_of_ext (vector_free_to_vector p))|apply (hessians_of_ext (vector_free_to_vector p))]; assumption.
  - destruct W as [W _]. destruct (array_derivatives p x W L) as [[J [E1 [H1 _]]] [Hs [E2 H2]]].
    assert (E : forall y, length y = array_free_size p -> array_free_to_vector p y = p_free_to_vector (Leaf (LArray p)) y).
    { intros y _. unfold array_free_to_vector, p_free_to_vector. cbn [p_set_free leaf_set_free]. unfold lift. destruct (array_set_free _ _) as [q [|]]; reflexivity. }
    split; eexists; (split; [eassumption|]); [apply (jacobian_of_ext (array_free_to_vector p))|apply (hessians_of_ext (array_free_to_vector p))]; assumption.
  - destruct W as [[lb Hlb] _]. destruct (posdef_derivatives p lb x Hlb L) as [H1 H2].
    assert (E : forall y, length y = pd_vec_size p -> posdef_free_to_vector p y = p_free_to_vector (Leaf (LPosDef p)) y).
    { intros y _. unfold posdef_free_to_vector, p_free_to_vector. cbn [p_set_free leaf_set_free]. unfold lift. destruct (posdef_set_free _ _) as [q [|]]; reflexivity. }
    split; eexists; (split; [reflexivity|]); [apply (jacobian_of_ext (posdef_free_to_vector p))|apply (hessians_of_ext (posdef_free_to_vector p))]; assumption.
  - destruct W as [[lb Hlb] [_ [_ LN]]]. destruct (pv_derivatives p lb x Hlb LN L) as [H1 H2].
    assert (E : forall y, length y = pv_free_size p -> pv_free_to_vector p y = p_free_to_vector (Leaf (LPosDefV p)) y).
    { intros y _. unfold pv_free_to_vector, p_free_to_vector. cbn [p_set_free leaf_set_free]. unfold lift. destruct (pv_set_free _ _) as [q [|]]; reflexivity. }
    split; eexists; (split; [reflexivity|]); [apply (jacobian_of_ext (pv_free_to_vector p))|apply (hessians_of_ext (pv_free_to_vector p))]; assumption.
  - destruct W as [[lb Hlb] [_ [_ LN]]]. destruct (pa_derivatives p lb x Hlb LN L) as [H1 H2].
    assert (E : forall y, length y = pa_free_size p -> pa_free_to_vector p y = p_free_to_vector (Leaf (LPosDefA p)) y).
    { intros y _. unfold pa_free_to_vector, p_free_to_vector. cbn [p_set_free leaf_set_free]. unfold lift. destruct (pa_set_free _ _) as [q [|]]; reflexivity. }
    split; eexists; (split; [reflexivity|]); [apply (jacobian_of_ext (pa_free_to_vector p))|apply (hessians_of_ext (pa_free_to_vector p))]; assumption.
  - destruct W as [C _]. destruct (simplex_jac p x C L) as [J [E1 H1]]. destruct (simplex_hess p x C L) as [Hs [E2 H2]].
    assert (E : forall y, length y = sx_free_size p -> simplex_free_to_vector p y = p_free_to_vector (Leaf (LSimplex p)) y).
    { intros y _. unfold simplex_free_to_vector, p_free_to_vector. cbn [p_set_free leaf_set_free]. unfold lift. destruct (simplex_set_free _ _) as [q [|]]; reflexivity. }
    split; eexists; (split; [eassumption|]); [apply (jacobian_of_ext (simplex_free_to_vector p))|apply (hessians_of_ext (simplex_free_to_vector p))]; assumption.
  - destruct W as [[m [d [b G]]] _]. pose proof G as [G1 [G2 G3]]. assert (L' : length x = (d - m)%nat) by (rewrite L; unfold sv_free_size; rewrite G1, G2; reflexivity).
    destruct (subspace_derivs m d b p x G L') as [H1 H2].
    assert (E : forall y, length y = sv_free_size p -> subspace_free_to_vector p y = p_free_to_vector (Leaf (LSubspace p)) y).
    { intros y _. unfold subspace_free_to_vector, p_free_to_vector. cbn [p_set_free leaf_set_free]. unfold lift. destruct (subspace_set_free _ _) as [q [|]]; reflexivity. }
    split; eexists; (split; [reflexivity|]); [apply (jacobian_of_ext (subspace_free_to_vector p))|apply (hessians_of_ext (subspace_free_to_vector p))]; assumption.
Qed.
