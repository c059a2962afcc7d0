(** Dictionaries of parameters in double precision: set_vector, then get_vector. *)
From Coq Require Import String Reals List Bool Arith Lia Lra.
From Flocq Require Import Core BinarySingleNaN.
From Verif Require Import Res Nd SpecFloat SpecFloatMatrix SpecFloatStack ModelFloat ModelFloatDict SpecFloatDict ModelMatrix LemmasMatrix LemmasFloat LemmasFloatMatrix LemmasFloatMatrix2 LemmasFloatMatrix3 LemmasFloatMatrix5 LemmasFloatStack LemmasFloatStack2 LemmasFloatDict.
From Verif Require ModelDict ModelFloatParams ModelFloatSimplex ModelFloatMatrix ModelFloatStack.
Import List ListNotations.
Set Bullet Behavior "Strict Subproofs".
Close Scope R_scope.

Lemma same_refl (x : double) : same x x. Proof. left. reflexivity. Qed.
Lemma same_flip (x y : double) : same x y -> same y x.
Proof. intros [->|(s & t & -> & ->)]; [left; reflexivity|right; eauto]. Qed.
Lemma Forall2_nth_same (x w : list double) : length x = length w -> (forall k, k < length x -> same (nth k x dzero) (nth k w dzero)) -> Forall2 same x w.
Proof.
  revert w. induction x as [|a x I]; intros [|b w] L H; try discriminate; [constructor|]. constructor; [exact (H 0 ltac:(cbn; lia))|]. apply I; [cbn in L; lia|]. intros k Hk. exact (H (S k) ltac:(cbn; lia)).
Qed.
Lemma tame_kept (v : double) : tame v -> kept v = v /\ kept_any v = v.
Proof.
  intros [F B]. unfold kept_any. rewrite F. unfold kept. rewrite Rlt_bool_true by exact B. split; reflexivity.
Qed.
Lemma Forall_nth_tame (x : list double) k : Forall tame x -> k < length x -> tame (nth k x dzero).
Proof. intros H Hk. rewrite Forall_forall in H. apply H. apply nth_In. exact Hk. Qed.
Lemma tame_at n (x : list double) i j : Forall tame x -> length x = triangle n -> j <= i -> i < n -> tame (at_ld dzero x i j).
Proof. intros H L Hj Hi. apply Forall_nth_tame; [exact H|]. rewrite L. apply tri_index; assumption. Qed.
Lemma triangle_same n (x w : list double) : length x = triangle n -> length w = triangle n -> (forall i j, j <= i -> i < n -> same (at_ld dzero x i j) (at_ld dzero w i j)) -> Forall2 same x w.
Proof.
  intros Lx Lw H. apply Forall2_nth_same; [congruence|]. intros k Hk. rewrite Lx, triangle_tri in Hk. destruct (tri_find k n Hk) as (i & j & Hj & Hi & ->). apply H; assumption.
Qed.
Lemma kept_same n (x w : list double) : Forall tame x -> length x = triangle n -> length w = triangle n -> kept_vector n x w -> Forall2 same x w.
Proof.
  intros T Lx Lw [A B]. apply (triangle_same n); try assumption. intros i j Hj Hi. apply same_flip. destruct (Nat.eq_dec j i) as [->|N].
  - rewrite <- (proj2 (tame_kept _ (tame_at n x i i T Lx (le_n i) Hi))). apply B. exact Hi.
  - apply A; lia.
Qed.
Lemma blocks_same n N (x w : list double) : length x = triangle n * N -> length w = triangle n * N ->
  (forall o, o < N -> Forall2 same (block n o x) (block n o w)) -> Forall2 same x w.
Proof.
  revert x w. induction N as [|N I]; intros x w Lx Lw H.
  - rewrite Nat.mul_0_r in *. apply length_zero_iff_nil in Lx, Lw. subst. constructor.
  - rewrite <- (firstn_skipn (triangle n) x), <- (firstn_skipn (triangle n) w). apply Forall2_app; [exact (H 0 ltac:(lia))|]. apply I.
    + rewrite skipn_length. nia.
    + rewrite skipn_length. nia.
    + intros o Ho. specialize (H (S o) ltac:(lia)). unfold block in *. rewrite !skipn_skipn_add. replace (triangle n + o * triangle n) with (S o * triangle n) by lia. exact H.
Qed.
Lemma Forall_firstn {A} (P : A -> Prop) k (l : list A) : Forall P l -> Forall P (firstn k l).
Proof. intros H. rewrite Forall_forall in *. intros a Ha. apply H. rewrite <- (firstn_skipn k l). apply in_or_app. left. exact Ha. Qed.
Lemma Forall_skipn {A} (P : A -> Prop) k (l : list A) : Forall P l -> Forall P (skipn k l).
Proof. intros H. rewrite Forall_forall in *. intros a Ha. apply H. rewrite <- (firstn_skipn k l). apply in_or_app. right. exact Ha. Qed.
Lemma block_tame n o (x : list double) : Forall tame x -> Forall tame (block n o x).
Proof. intros H. apply Forall_firstn, Forall_skipn. exact H. Qed.

Lemma concat_reshape rows cols (l : list dbl) : length l = rows * cols -> List.concat (ModelFloatSimplex.reshape_rows rows cols l) = l /\
  length (ModelFloatSimplex.reshape_rows rows cols l) = rows /\ forallb (fun row => Nat.eqb (length row) cols) (ModelFloatSimplex.reshape_rows rows cols l) = true.
Proof.
  revert l. induction rows as [|r I]; intros l L.
  - apply length_zero_iff_nil in L. subst. repeat split; reflexivity.
  - destruct (I (skipn cols l)) as (A & B & C); [rewrite skipn_length; lia|]. cbn [ModelFloatSimplex.reshape_rows List.concat length forallb]. rewrite A, B, C, firstn_skipn, firstn_length.
    rewrite Nat.min_l by lia. rewrite Nat.eqb_refl. repeat split; reflexivity.
Qed.

Lemma posdef_back (p : ModelFloatMatrix.fposdef) y : length y = triangle (ModelFloatMatrix.fp_size p) -> Forall tame y ->
  exists p' w, ModelFloatMatrix.fposdef_set_vector p y = Ok p' /\ ModelFloatMatrix.fposdef_get_vector p' = Ok w /\ length w = triangle (ModelFloatMatrix.fp_size p) /\ Forall2 same y w.
Proof.
  set (n := ModelFloatMatrix.fp_size p). intros L T.
  assert (F : forall i j, j <= i -> i < n -> is_finite (at_ld dzero y i j) = true) by (intros i j Hj Hi; apply (tame_at n y i j T L Hj Hi)).
  assert (D : forall i, i < n -> same (vent y i i) (at_ld dzero y i i)).
  { intros i Hi. rewrite <- (proj1 (tame_kept _ (tame_at n y i i T L (le_n i) Hi))) at 1. rewrite vent_diag. apply twice_minus. apply F; [apply le_n|exact Hi]. }
  assert (A : forall i j, j <= i -> i < n -> same (vent y i j) (at_ld dzero y i j) /\ same (vent y j i) (at_ld dzero y i j)).
  { intros i j Hj Hi. destruct (Nat.eq_dec j i) as [->|N]; [split; apply D; exact Hi|]. apply vent_lower. lia. }
  exists (ModelFloatMatrix.mkFP n (ModelFloatMatrix.fp_lb p) (mk_mat n n (vent y))), (tril_list n (vent y)). split; [|split; [|split]].
  - rewrite (set_vector_unfold n p y eq_refl L), (fposdef_set_spec p _ n eq_refl); [reflexivity|reflexivity|]. intros i j Hi Hj. rewrite !mget_mk_mat by assumption.
    destruct (Nat.le_ge_cases j i) as [H|H].
    + destruct (A i j H Hi) as [B C]. apply feq_same; [eapply same_number; [apply same_flip; exact C|apply finite_number; apply F; assumption]|]. eapply same_trans; [exact C|apply same_flip; exact B].
    + destruct (A j i H Hj) as [B C]. apply feq_same; [eapply same_number; [apply same_flip; exact B|apply finite_number; apply F; assumption]|]. eapply same_trans; [exact B|apply same_flip; exact C].
  - unfold ModelFloatMatrix.fposdef_get_vector, ModelFloatMatrix.f_vectorize_ld_matrix, ModelFloatMatrix.fp_val, mk_mat at 1. cbn [shape]. rewrite Nat.eqb_refl. cbn [negb]. f_equal. apply tril_list_ext. intros i j Hj Hi. apply mget_mk_mat; lia.
  - apply tril_list_length.
  - apply (triangle_same n); [exact L|apply tril_list_length|]. intros i j Hj Hi. rewrite tril_at by lia. apply same_flip. apply A; assumption.
Qed.
Lemma leaf_vector_back l (y : list dbl) : some_matrix l -> length y = fl_vector_size l -> (is_matrix l = true -> Forall tame y) ->
  exists l' w, fl_set_vector l y = Ok l' /\ fl_get_vector l' = Ok w /\ length w = fl_vector_size l /\ vector_back l y w.
Proof.
  intros U L T. destruct l as [p|p|p|p|p|p|p]; cbn [fl_set_vector fl_vector_size some_matrix is_matrix vector_back] in *; unfold lift_res, vector_back; cbn [is_matrix].
  - destruct y as [|a [|b y]]; try discriminate. eexists. exists [a]. split; [reflexivity|]. split; [reflexivity|]. split; reflexivity.
  - unfold fvector_set_vector, fvector_set. rewrite L, Nat.eqb_refl. cbn [rbind]. eexists. exists y. split; [reflexivity|]. split; [reflexivity|]. split; [exact L|reflexivity].
  - unfold ModelFloatParams.farray_set_vector, np_reshape, ModelFloatParams.farray_set, nd_size, nd_vec, ModelFloatParams.farray_size in *. cbn [shape data]. rewrite L. cbn [nprod fold_right]. rewrite ?Nat.mul_1_r.
    match goal with |- context [Nat.eqb ?a ?b] => replace (Nat.eqb a b) with true by (symmetry; apply Nat.eqb_eq; unfold nprod; cbn; lia) end. cbn [rbind shape].
    assert (SE : shape_eqb (ModelFloatParams.fa_shape p) (ModelFloatParams.fa_shape p) = true). { unfold shape_eqb. destruct (list_eq_dec _ _ _); [reflexivity|contradiction]. }
    rewrite SE. cbn [rbind]. eexists. exists y. split; [reflexivity|]. split; [reflexivity|]. split; [exact L|reflexivity].
  - unfold fsimplex_set_vector, ModelFloatSimplex.fsimplex_set. rewrite L, Nat.eqb_refl. cbn [negb]. destruct (concat_reshape _ _ y L) as (A & B & C). rewrite B, C, Nat.eqb_refl. cbn [andb rbind].
    eexists. exists y. split; [reflexivity|]. cbn [fl_get_vector]. unfold fsimplex_get_vector. cbn [ModelFloatSimplex.fs_val]. rewrite A. split; [reflexivity|]. split; [exact L|reflexivity].
  - specialize (T eq_refl). destruct (posdef_back p y L T) as (p' & w & S & G & Lw & K). exists (FPosDef p'), w. rewrite S. split; [reflexivity|]. split; [exact G|]. split; assumption.
  - specialize (T eq_refl). destruct (v_vector p y U L) as (p' & w & S & _ & G & Lw & H). exists (FPosDefV p'), w. rewrite S. split; [reflexivity|]. split; [exact G|]. split; [etransitivity; [exact Lw|exact L]|].
    apply (blocks_same (ModelFloatStack.fv_size p) (ModelFloatStack.fv_length p)); [exact L|etransitivity; [exact Lw|exact L]|]. intros o Ho. destruct (H o Ho) as (m & _ & _ & K).
    apply (kept_same (ModelFloatStack.fv_size p)); [apply block_tame; exact T|eapply block_length; eassumption|eapply block_length; [etransitivity; [exact Lw|exact L]|exact Ho]|exact K].
  - specialize (T eq_refl). destruct (a_vector p y L) as (p' & S & _ & _ & H). destruct (H U) as (w & G & Lw & K). exists (FPosDefA p'), w. rewrite S. split; [reflexivity|]. split; [exact G|]. split; [etransitivity; [exact Lw|exact L]|].
    apply (blocks_same (ModelFloatStack.fa_size p) (how_many (ModelFloatStack.fa_ashape p))); [exact L|etransitivity; [exact Lw|exact L]|]. intros o Ho.
    apply (kept_same (ModelFloatStack.fa_size p)); [apply block_tame; exact T|eapply block_length; [exact L|exact Ho]|eapply block_length; [etransitivity; [exact Lw|exact L]|exact Ho]|exact (K o Ho)].
Qed.

Lemma parts_impl size ms x (P Q : fleaf -> list double -> Prop) : length x = total size ms -> (forall m y, In m ms -> length y = size (snd m) -> P (snd m) y -> Q (snd m) y) -> parts size ms x P -> parts size ms x Q.
Proof.
  revert x. induction ms as [|[k l] tl I]; intros x L H; [intros _; exact Logic.I|]. change (total size ((k, l) :: tl)) with (size l + total size tl) in L. intros [A B]. split.
  - apply (H (k, l)); [left; reflexivity|rewrite firstn_length; cbn [snd]; lia|exact A].
  - apply I; [rewrite skipn_length; lia|intros m y Hm; apply H; right; exact Hm|exact B].
Qed.
Lemma parts_all size ms (x : list double) P : Forall P x -> parts size ms x (fun _ y => Forall P y).
Proof. revert x. induction ms as [|[k l] tl I]; intros x H; [exact Logic.I|]. split; [apply Forall_firstn; exact H|apply I, Forall_skipn; exact H]. Qed.
Lemma parts_true size ms (x : list double) : parts size ms x (fun _ _ => True).
Proof. revert x. induction ms as [|[k l] tl I]; intros x; [exact Logic.I|]. split; [exact Logic.I|apply I]. Qed.
Lemma related_same size ms x w : related size vector_back ms x w -> Forall2 same x w.
Proof.
  revert x w. induction ms as [|[k l] tl I]; intros x w; [intros [-> ->]; constructor|]. intros [A B]. rewrite <- (firstn_skipn (size l) x), <- (firstn_skipn (size l) w). apply Forall2_app; [|apply I; exact B].
  unfold vector_back in A. destruct (is_matrix l); [exact A|]. rewrite A. clear. induction (firstn (size l) x) as [|a t J]; constructor; [apply same_refl|exact J].
Qed.
Lemma related_eq size ms x w : (forall m, In m ms -> is_matrix (snd m) = false) -> related size vector_back ms x w -> w = x.
Proof.
  revert x w. induction ms as [|[k l] tl I]; intros x w H; [intros [-> ->]; reflexivity|]. intros [A B]. rewrite <- (firstn_skipn (size l) x), <- (firstn_skipn (size l) w).
  unfold vector_back in A. assert (M := H (k, l) (or_introl eq_refl)). cbn [snd] in M. rewrite M in A. rewrite A. f_equal. apply I; [intros m Hm; apply H; right; exact Hm|exact B].
Qed.

Section Trees.
Context (fexp flog : dbl -> dbl) (fsum : list dbl -> dbl) (fdot : nat -> nat -> list dbl -> list dbl -> dbl) (fchol : nd dbl -> res (nd dbl)).
Notation set_free := (fd_set_free fexp flog fsum fdot).
Notation lset_free := (fl_set_free fexp flog fsum fdot).
Notation built := (built set_free fd_set_vector).

Lemma t_sizes p : built p -> fd_free_size p = total fl_free_size (members p) /\ fd_vector_size p = total fl_vector_size (members p).
Proof. intros B. apply wf_sizes. exact (built_wf _ _ _ _ p B). Qed.
Lemma t_set_free p x : built p -> length x = fd_free_size p -> let r := set_free p x in
  (members (fst r), snd r) = set_in_order fl_free_size lset_free (members p) x /\ fd_free_size (fst r) = fd_free_size p /\ fd_vector_size (fst r) = fd_vector_size p.
Proof. intros B L. split; [apply set_free_order; [exact (built_wf _ _ _ _ p B)|exact L]|apply set_free_sizes]. Qed.
Lemma t_set_vector p x : built p -> length x = fd_vector_size p -> let r := fd_set_vector p x in
  (members (fst r), snd r) = set_in_order fl_vector_size fl_set_vector (members p) x /\ fd_free_size (fst r) = fd_free_size p /\ fd_vector_size (fst r) = fd_vector_size p.
Proof. intros B L. split; [apply set_vector_order; [exact (built_wf _ _ _ _ p B)|exact L]|apply set_vector_sizes]. Qed.
Lemma t_wrong nm es fs vs x : (length x <> fd_free_size (FDict nm es fs vs) -> set_free (FDict nm es fs vs) x = (FDict nm es fs vs, Raise ValueError)) /\
  (length x <> fd_vector_size (FDict nm es fs vs) -> fd_set_vector (FDict nm es fs vs) x = (FDict nm es fs vs, Raise ValueError)).
Proof.
  cbn [fd_free_size fd_vector_size]. rewrite set_free_dict, set_vector_dict. split; intros H; apply Nat.eqb_neq in H; rewrite H; reflexivity.
Qed.
Lemma t_round_free rel p x : built p -> no_empty p -> length x = fd_free_size p ->
  parts fl_free_size (members p) x (fun l y => exists l' w, lset_free l y = Ok l' /\ fl_get_free flog fchol l' = Ok w /\ length w = fl_free_size l /\ rel l y w) ->
  exists p' w, set_free p x = (p', Ok tt) /\ fd_get_free flog fchol p' = Ok w /\ length w = length x /\ related fl_free_size rel (members p) x w.
Proof.
  intros B N L H. destruct (t_set_free p x B L) as [E _]. rewrite (proj1 (t_sizes p B)) in L. destruct (order_round_trip _ _ _ rel _ _ L H) as (w & S & G & Lw & R). rewrite <- E in S, G. cbn [fst snd] in S, G.
  exists (fst (set_free p x)), w. split; [rewrite (surjective_pairing (set_free p x)) at 1; f_equal; exact S|]. split; [|split; assumption].
  rewrite get_free_order; [exact G|]. apply set_free_no_empty. exact N.
Qed.
Lemma t_round_vector rel p x : built p -> no_empty p -> length x = fd_vector_size p ->
  parts fl_vector_size (members p) x (fun l y => exists l' w, fl_set_vector l y = Ok l' /\ fl_get_vector l' = Ok w /\ length w = fl_vector_size l /\ rel l y w) ->
  exists p' w, fd_set_vector p x = (p', Ok tt) /\ fd_get_vector p' = Ok w /\ length w = length x /\ related fl_vector_size rel (members p) x w.
Proof.
  intros B N L H. destruct (t_set_vector p x B L) as [E _]. rewrite (proj2 (t_sizes p B)) in L. destruct (order_round_trip _ _ _ rel _ _ L H) as (w & S & G & Lw & R). rewrite <- E in S, G. cbn [fst snd] in S, G.
  exists (fst (fd_set_vector p x)), w. split; [rewrite (surjective_pairing (fd_set_vector p x)) at 1; f_equal; exact S|]. split; [|split; assumption].
  rewrite get_vector_order; [exact G|]. apply set_vector_no_empty. exact N.
Qed.
Lemma t_vector_back p x : built p -> no_empty p -> (forall m, In m (members p) -> some_matrix (snd m)) -> length x = fd_vector_size p ->
  parts fl_vector_size (members p) x (fun l y => is_matrix l = true -> Forall tame y) ->
  exists p' w, fd_set_vector p x = (p', Ok tt) /\ fd_get_vector p' = Ok w /\ length w = length x /\ related fl_vector_size vector_back (members p) x w.
Proof.
  intros B N U L H. apply t_round_vector; try assumption. assert (L' := L). rewrite (proj2 (t_sizes p B)) in L'. revert H. apply parts_impl; [exact L'|].
  intros m y Hm Ly T. apply leaf_vector_back; [apply U; exact Hm|exact Ly|exact T].
Qed.
Lemma t_vector_same p x : built p -> no_empty p -> (forall m, In m (members p) -> some_matrix (snd m)) -> length x = fd_vector_size p -> Forall tame x ->
  exists p' w, fd_set_vector p x = (p', Ok tt) /\ fd_get_vector p' = Ok w /\ Forall2 same x w.
Proof.
  intros B N U L T. destruct (t_vector_back p x B N U L) as (p' & w & S & G & _ & R).
  - assert (L' := L). rewrite (proj2 (t_sizes p B)) in L'. generalize (parts_all fl_vector_size (members p) x tame T). apply parts_impl; [exact L'|]. intros m y _ _ Q _. exact Q.
  - exists p', w. split; [exact S|]. split; [exact G|]. eapply related_same. exact R.
Qed.
Lemma t_vector_exact p x : built p -> no_empty p -> (forall m, In m (members p) -> is_matrix (snd m) = false) -> length x = fd_vector_size p ->
  exists p', fd_set_vector p x = (p', Ok tt) /\ fd_get_vector p' = Ok x.
Proof.
  intros B N U L. destruct (t_vector_back p x B N) as (p' & w & S & G & _ & R).
  - intros m Hm. specialize (U m Hm). destruct (snd m); try exact Logic.I; discriminate.
  - exact L.
  - assert (L' := L). rewrite (proj2 (t_sizes p B)) in L'. generalize (parts_true fl_vector_size (members p) x). apply parts_impl; [exact L'|]. intros m y Hm _ _ Q. rewrite (U m Hm) in Q. discriminate.
  - exists p'. split; [exact S|]. rewrite G. f_equal. eapply related_eq; eassumption.
Qed.
Lemma t_free_to_vector p x : built p -> no_empty p -> length x = fd_free_size p ->
  let r := set_in_order fl_free_size lset_free (members p) x in let q := fd_free_to_vector fexp flog fsum fdot p x in
  members (fst q) = fst r /\ snd q = match snd r with Ok _ => get_in_order fl_get_vector (fst r) | Raise e => Raise e end.
Proof.
  intros B N L. destruct (t_set_free p x B L) as [E _]. cbv zeta in E |- *. rewrite <- E. cbn [fst snd]. unfold fd_free_to_vector. assert (N' := set_free_no_empty fexp flog fsum fdot p x N).
  destruct (set_free p x) as [p' [u|e]]; cbn [fst snd] in *; [|split; reflexivity]. split; [reflexivity|]. apply get_vector_order. exact N'.
Qed.
End Trees.
