(** Construction of stacks of positive definite matrices: the default value. *)
From Coq Require Import String Reals List Bool Arith Lra Lia.
From Coquelicot Require Import Coquelicot.
From Verif Require Import Res Num Nd RSum ModelAutograd ModelSparse ModelParameters ModelMatrix.
From Verif Require Import SpecParameters SpecMatrix LemmasParameters LemmasCalc LemmasChol LemmasMatrix LemmasPosDef LemmasPosDefStack.
Import List ListNotations.
Open Scope R_scope.
Set Bullet Behavior "Strict Subproofs".

Definition dflt (lb : R) (i j : nat) : R := if Nat.eqb i j then lb + 1 else 0.

Lemma dflt_sym n lb : symmetric n (dflt lb).
Proof. intros i j _ _. unfold dflt. rewrite Nat.eqb_sym. reflexivity. Qed.
Lemma symof_zero k i j : symof (repeat 0 k) i j = 0.
Proof. unfold symof. destruct (Nat.lt_ge_cases (SymIndex i j) k) as [L|L]; [apply nth_repeat|apply nth_overflow; rewrite repeat_length; exact L]. Qed.
Lemma Lof_zero k i j : Lof (repeat 0 k) i j = if Nat.eqb i j then 1 else 0.
Proof.
  unfold Lof. rewrite !symof_zero, exp_0. rewrite (Nat.eqb_sym i j). destruct (Nat.ltb_spec j i); [|reflexivity]. destruct (Nat.eqb_spec j i); [lia|reflexivity].
Qed.
Lemma Mof_zero n lb k i j : (i < n)%nat -> Mof n lb (repeat 0 k) i j = dflt lb i j.
Proof.
  intros Hi. unfold Mof, dflt. rewrite (rsum_single n i).
  - rewrite !Lof_zero, Nat.eqb_refl, (Nat.eqb_sym j i). destruct (Nat.eqb i j); ring.
  - exact Hi.
  - intros q _ Hq. rewrite (Lof_zero k i q). destruct (Nat.eqb_spec i q); [congruence|ring].
Qed.
Lemma dflt_posdef n lb : posdef n (shifted (dflt lb) lb).
Proof.
  apply (posdef_ext n (shifted (Mof n lb (repeat 0 0)) lb)); [|apply Mof_posdef].
  intros i j Hi _. unfold shifted. rewrite Mof_zero by exact Hi. reflexivity.
Qed.
Lemma fmat_dflt n lb : mk_mat n n (make_diagonal (fun _ => nadd (Fin lb) (Fin 1))) = fmat n (dflt lb).
Proof. apply mk_mat_ext. intros i j _ _. unfold make_diagonal, dflt. destruct (Nat.eqb i j); reflexivity. Qed.
Lemma pack_dflt n lb : pack_posdef_matrix (fmat n (dflt lb)) (Fin lb) = Ok (fvec (repeat 0 (tri n))).
Proof.
  destruct (pack_unpack n lb (repeat 0 (tri n)) (repeat_length _ _)) as [M [E1 E2]].
  rewrite (unpack_fin n lb) in E1 by apply repeat_length. injection E1 as <-.
  rewrite <- E2. f_equal. apply fmat_ext. intros i j Hi _. symmetry. apply Mof_zero, Hi.
Qed.
Lemma repeat_map_seq {A} (x : A) n a : repeat x n = map (fun _ => x) (seq a n).
Proof. revert a. induction n; intros a; cbn; [reflexivity|]. f_equal. apply IHn. Qed.
Lemma concat_repeat_zero k N : List.concat (map (fun _ => repeat 0 k) (seq 0 N)) = repeat 0 (k * N).
Proof.
  rewrite <- repeat_map_seq. induction N; cbn; [rewrite Nat.mul_0_r; reflexivity|]. rewrite IHN, <- repeat_app. f_equal. lia.
Qed.
Lemma default_stack s n lb : Nd (s ++ [n; n]) (List.concat (repeat (data (fmat n (dflt lb))) (nprod s))) = stack_of s n (fun _ => dflt lb).
Proof. unfold stack_of. f_equal. f_equal. apply repeat_map_seq. Qed.

Lemma pv_default nm N n lb : 0 <= lb ->
  exists p, pv_init nm N n (Fin lb) None = Ok p /\ pv_name p = nm /\ pv_length p = N /\ pv_size p = n /\ pv_lb p = Fin lb /\
    nd_wf (pv_val p) /\ shape (pv_val p) = [N; n; n] /\
    (forall o, (o < N)%nat -> nd_index (pv_val p) [o] = Ok (fmat n (dflt lb))) /\
    ((0 < N)%nat -> pv_get_free p = Ok (fvec (repeat 0 (pv_free_size p)))).
Proof.
  intros H. unfold pv_init. cbn [nleb]. apply Rleb_true in H. rewrite H. unfold rassert. rewrite fmat_dflt.
  pose proof (default_stack [N] n lb) as D. rewrite nprod_1 in D. cbn [app] in D. rewrite D.
  eexists. split; [reflexivity|]. cbn [pv_name pv_length pv_size pv_lb pv_val]. splits; try reflexivity.
  - apply stack_wf.
  - intros o Ho. rewrite nd_index_stack; [reflexivity|]. cbn [product]. apply in_flat_map. exists o. split; [apply in_seq; lia|left; reflexivity].
  - intros HN. set (p := PosDefV nm N n (Fin lb) (stack_of [N] n (fun _ => dflt lb))).
    change p with (pv_with p (stack_of [pv_length p] (pv_size p) (fun _ => dflt lb))) at 1.
    rewrite (pv_get_free_stack p lb eq_refl HN _ (fun _ => repeat 0 (tri n))); [|intros; apply pack_dflt].
    rewrite concat_repeat_zero. reflexivity.
Qed.
Lemma pa_default nm s n lb : 0 <= lb -> s <> [] ->
  exists p, pa_init nm (ShapeTuple s) n (Fin lb) None = Ok p /\ pa_name p = nm /\ pa_ashape p = s /\ pa_size p = n /\ pa_lb p = Fin lb /\
    nd_wf (pa_val p) /\ shape (pa_val p) = s ++ [n; n] /\
    (forall obs, In obs (product s) -> nd_index (pa_val p) obs = Ok (fmat n (dflt lb))) /\
    ((0 < nprod s)%nat -> pa_get_free p = Ok (fvec (repeat 0 (pa_free_size p)))).
Proof.
  intros H Hs. unfold pa_init. cbn [nleb]. apply Rleb_true in H. rewrite H. unfold rassert. destruct (Nat.eqb_spec (length s) 0) as [E|_]; [destruct s; [congruence|discriminate]|].
  rewrite fmat_dflt, default_stack.
  eexists. split; [reflexivity|]. cbn [pa_name pa_ashape pa_size pa_lb pa_val]. splits; try reflexivity.
  - apply stack_wf.
  - intros obs Ho. rewrite nd_index_stack by exact Ho. reflexivity.
  - intros HN. set (p := PosDefA nm s n (Fin lb) (stack_of s n (fun _ => dflt lb))).
    change p with (pa_with p (stack_of (pa_ashape p) (pa_size p) (fun _ => dflt lb))) at 1.
    rewrite (pa_get_free_stack p lb eq_refl HN _ (fun _ => repeat 0 (tri n))); [|intros; apply pack_dflt].
    rewrite concat_repeat_zero. reflexivity.
Qed.
(** with a value: as set() *)
Lemma pv_given nm N n lb a : nleb (Fin 0) lb = true ->
  match pv_set (PosDefV nm N n lb a) a with
  | (p, Ok _) => pv_init nm N n lb (Some a) = Ok p /\ pv_val p = a /\ pv_length p = N /\ pv_size p = n /\ pv_lb p = lb
  | (_, Raise e) => pv_init nm N n lb (Some a) = Raise e
  end.
Proof.
  intros H. unfold pv_init, pv_set. rewrite H. unfold rassert, pv_shape. cbn [pv_length pv_size]. destruct (shape_ne_all _ _) as [[|]|]; try reflexivity. splits; reflexivity.
Qed.
Lemma shape_ne_all_dim k vs s : length vs = length s -> (k < length s)%nat -> nth k vs 0%nat = nth k s 0%nat -> shape_ne_all vs s = Ok false.
Proof.
  intros L H E. unfold shape_ne_all. rewrite L, Nat.eqb_refl. f_equal. apply not_true_is_false. intros B. rewrite forallb_forall in B.
  specialize (B (nth k vs 0%nat, nth k s 0%nat)). rewrite <- combine_nth in B by exact L.
  specialize (B (nth_In _ _ ltac:(rewrite combine_length, L, Nat.min_id; exact H))). rewrite combine_nth in B by exact L. cbn in B. rewrite E, Nat.eqb_refl in B. discriminate.
Qed.
Lemma shape_ne_all_none vs s : length vs = length s -> (forall k, (k < length s)%nat -> nth k vs 0%nat <> nth k s 0%nat) -> shape_ne_all vs s = Ok true.
Proof.
  intros L N. unfold shape_ne_all. rewrite L, Nat.eqb_refl. f_equal. apply forallb_forall. intros [u v] Hin. apply (In_nth _ _ (0, 0)%nat) in Hin as [i [Hi E]].
  rewrite combine_length, L, Nat.min_id in Hi. rewrite combine_nth in E by exact L. inversion E; subst. cbn. apply negb_true_iff, Nat.eqb_neq. apply N, Hi.
Qed.
Lemma pv_construct nm N n lb a : nleb (Fin 0) lb = true -> length (shape a) = 3%nat ->
  (pv_init nm N n lb (Some a) = Ok (PosDefV nm N n lb a) <-> exists k, (k < 3)%nat /\ nth k (shape a) 0%nat = nth k [N; n; n] 0%nat) /\
  (pv_init nm N n lb (Some a) = Raise ValueError <-> forall k, (k < 3)%nat -> nth k (shape a) 0%nat <> nth k [N; n; n] 0%nat).
Proof.
  intros H L.
  assert (D : (exists k, (k < 3)%nat /\ nth k (shape a) 0%nat = nth k [N; n; n] 0%nat) \/ (forall k, (k < 3)%nat -> nth k (shape a) 0%nat <> nth k [N; n; n] 0%nat)).
  { destruct (Nat.eq_dec (nth 0 (shape a) 0%nat) (nth 0 [N; n; n] 0%nat)) as [E0|N0]; [left; exists 0%nat; split; [lia|exact E0]|].
    destruct (Nat.eq_dec (nth 1 (shape a) 0%nat) (nth 1 [N; n; n] 0%nat)) as [E1|N1]; [left; exists 1%nat; split; [lia|exact E1]|].
    destruct (Nat.eq_dec (nth 2 (shape a) 0%nat) (nth 2 [N; n; n] 0%nat)) as [E2|N2]; [left; exists 2%nat; split; [lia|exact E2]|].
    right. intros [|[|[|k]]] Hk; try assumption. lia. }
  unfold pv_init, pv_set. rewrite H. unfold rassert. unfold pv_shape. cbn [pv_length pv_size].
  destruct D as [[k [Hk E]]|D].
  - rewrite (shape_ne_all_dim k) by (try assumption; cbn; lia). split; split; intros X; try discriminate; try reflexivity.
    + exists k. split; assumption.
    + exfalso. apply (X k Hk E).
  - rewrite shape_ne_all_none by assumption. split; split; intros X; try discriminate; try reflexivity.
    + destruct X as [k [Hk E]]. exfalso. apply (D k Hk E).
    + exact D.
Qed.
Lemma pa_construct nm s n lb a : nleb (Fin 0) lb = true -> length (shape a) = (length s + 2)%nat ->
  (pa_init nm (ShapeTuple s) n lb (Some a) = Ok (PosDefA nm s n lb a) <-> exists k, (k < length s + 2)%nat /\ nth k (shape a) 0%nat = nth k (s ++ [n; n]) 0%nat) /\
  (pa_init nm (ShapeTuple s) n lb (Some a) = Raise ValueError <-> forall k, (k < length s + 2)%nat -> nth k (shape a) 0%nat <> nth k (s ++ [n; n]) 0%nat).
Proof.
  intros H L.
  assert (LS : length (s ++ [n; n]) = (length s + 2)%nat) by (rewrite app_length; reflexivity).
  assert (D : forall m, (exists k, (k < m)%nat /\ nth k (shape a) 0%nat = nth k (s ++ [n; n]) 0%nat) \/ (forall k, (k < m)%nat -> nth k (shape a) 0%nat <> nth k (s ++ [n; n]) 0%nat)).
  { induction m as [|m [[k [Hk E]]|IH]]; [right; intros; lia|left; exists k; split; [lia|exact E]|].
    destruct (Nat.eq_dec (nth m (shape a) 0%nat) (nth m (s ++ [n; n]) 0%nat)) as [E|E]; [left; exists m; split; [lia|exact E]|].
    right. intros k Hk. destruct (Nat.eq_dec k m) as [->|]; [exact E|apply IH; lia]. }
  unfold pa_init, pa_set. rewrite H. unfold rassert. unfold pa_shape. cbn [pa_ashape pa_size].
  destruct (D (length s + 2)%nat) as [[k [Hk E]]|D'].
  - rewrite (shape_ne_all_dim k) by (try assumption; lia). split; split; intros X; try discriminate; try reflexivity.
    + exists k. split; assumption.
    + exfalso. apply (X k Hk E).
  - rewrite shape_ne_all_none by (try (rewrite LS); assumption). split; split; intros X; try discriminate; try reflexivity.
    + destruct X as [k [Hk E]]. exfalso. apply (D' k Hk E).
    + exact D'.
Qed.
