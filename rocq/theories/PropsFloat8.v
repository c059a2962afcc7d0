(** Properties C129-C131: dictionaries of parameters in IEEE-754 binary64 arithmetic. *)
From Coq Require Import String Reals ZArith List Lra Lia.
From Flocq Require Import Core BinarySingleNaN.
From Verif Require Import Res Nd RSum SpecFloat SpecFloatSimplex SpecFloatAcc SpecFloatMatrix SpecFloatCholesky SpecFloatReach SpecFloatStack ModelFloat ModelFloatDict SpecFloatDict SpecFloatDict2
  LemmasFloat LemmasFloat3 LemmasFloat4 LemmasFloatSimplex4 LemmasFloatMatrix2 LemmasFloatMatrix6 LemmasFloatCholesky2 LemmasFloatCholesky3 LemmasFloatCholesky4 LemmasFloatDict LemmasFloatDict2 LemmasFloatDict3 PropsFloat5 PropsFloat6 PropsFloat7.
From Verif Require ModelFloatParams ModelFloatMatrix ModelFloatStack.
Import List ListNotations.
Open Scope R_scope.
Set Bullet Behavior "Strict Subproofs".

(** ** C129: setting and reading a dictionary *)
(** the sizes of a tree are the sums of the sizes of its parameters *)
Theorem C129_sizes : forall fexp flog fsum fdot p, built (fd_set_free fexp flog fsum fdot) fd_set_vector p ->
  fd_free_size p = total fl_free_size (members p) /\ fd_vector_size p = total fl_vector_size (members p).
Proof. exact t_sizes. Qed.
Print Assumptions C129_sizes.
(** a vector of the right length is handed to the parameters in order; the first exception ends the call, and the parameters before it
    keep their new values *)
Theorem C129_set_free : forall fexp flog fsum fdot p x, built (fd_set_free fexp flog fsum fdot) fd_set_vector p -> length x = fd_free_size p -> let r := fd_set_free fexp flog fsum fdot p x in
  (members (fst r), snd r) = set_in_order fl_free_size (fl_set_free fexp flog fsum fdot) (members p) x /\ fd_free_size (fst r) = fd_free_size p /\ fd_vector_size (fst r) = fd_vector_size p.
Proof. exact t_set_free. Qed.
Print Assumptions C129_set_free.
Theorem C129_set_vector : forall fexp flog fsum fdot p x, built (fd_set_free fexp flog fsum fdot) fd_set_vector p -> length x = fd_vector_size p -> let r := fd_set_vector p x in
  (members (fst r), snd r) = set_in_order fl_vector_size fl_set_vector (members p) x /\ fd_free_size (fst r) = fd_free_size p /\ fd_vector_size (fst r) = fd_vector_size p.
Proof. exact t_set_vector. Qed.
Print Assumptions C129_set_vector.
(** a dictionary changes nothing if the length is wrong *)
Theorem C129_wrong_length : forall fexp flog fsum fdot nm es fs vs x, let d := FDict nm es fs vs in
  (length x <> fd_free_size d -> fd_set_free fexp flog fsum fdot d x = (d, Raise ValueError)) /\ (length x <> fd_vector_size d -> fd_set_vector d x = (d, Raise ValueError)).
Proof. exact t_wrong. Qed.
Print Assumptions C129_wrong_length.
(** get_free and get_vector put the vectors of the parameters one after the other; an empty dictionary cannot be read *)
Theorem C129_get : forall flog fchol p, no_empty p ->
  fd_get_free flog fchol p = get_in_order (fl_get_free flog fchol) (members p) /\ fd_get_vector p = get_in_order fl_get_vector (members p).
Proof. exact (fun flog fchol p H => conj (get_free_order flog fchol p H) (get_vector_order p H)). Qed.
Print Assumptions C129_get.
Theorem C129_get_empty : forall flog fchol nm, fd_get_free flog fchol (fd_init nm) = Raise ValueError /\ fd_get_vector (fd_init nm) = Raise ValueError.
Proof. exact (fun _ _ _ => conj eq_refl eq_refl). Qed.
Print Assumptions C129_get_empty.
(** free_to_vector sets the tree to the free values and returns the vector that it then has *)
Theorem C129_free_to_vector : forall fexp flog fsum fdot p x, built (fd_set_free fexp flog fsum fdot) fd_set_vector p -> no_empty p -> length x = fd_free_size p ->
  let r := set_in_order fl_free_size (fl_set_free fexp flog fsum fdot) (members p) x in let q := fd_free_to_vector fexp flog fsum fdot p x in
  members (fst q) = fst r /\ snd q = match snd r with Ok _ => get_in_order fl_get_vector (fst r) | Raise e => Raise e end.
Proof. exact t_free_to_vector. Qed.
Print Assumptions C129_free_to_vector.

(** ** C130: set_vector, then get_vector *)
(** a tree of scalars, vectors, arrays and simplexes returns exactly the vector it was given, whatever doubles it holds *)
Theorem C130_exact : forall fexp flog fsum fdot p x, built (fd_set_free fexp flog fsum fdot) fd_set_vector p -> no_empty p ->
  (forall m, In m (members p) -> is_matrix (snd m) = false) -> length x = fd_vector_size p ->
  exists p', fd_set_vector p x = (p', Ok tt) /\ fd_get_vector p' = Ok x.
Proof. exact t_vector_exact. Qed.
Print Assumptions C130_exact.
(** with matrices among the parameters: finite doubles below 2^1023 in their parts come back up to the sign of zeros *)
Theorem C130_parts : forall fexp flog fsum fdot p x, built (fd_set_free fexp flog fsum fdot) fd_set_vector p -> no_empty p ->
  (forall m, In m (members p) -> some_matrix (snd m)) -> length x = fd_vector_size p ->
  parts fl_vector_size (members p) x (fun l y => is_matrix l = true -> Forall tame y) ->
  exists p' w, fd_set_vector p x = (p', Ok tt) /\ fd_get_vector p' = Ok w /\ length w = length x /\ related fl_vector_size vector_back (members p) x w.
Proof. exact t_vector_back. Qed.
Print Assumptions C130_parts.
Theorem C130_same : forall fexp flog fsum fdot p x, built (fd_set_free fexp flog fsum fdot) fd_set_vector p -> no_empty p ->
  (forall m, In m (members p) -> some_matrix (snd m)) -> length x = fd_vector_size p -> Forall tame x ->
  exists p' w, fd_set_vector p x = (p', Ok tt) /\ fd_get_vector p' = Ok w /\ Forall2 same x w.
Proof. exact t_vector_same. Qed.
Print Assumptions C130_same.

(** ** C131: set_free, then get_free *)
(** if the part of each parameter is far from overflow and well conditioned, then all free values of the whole tree come back, each part as
    closely as that parameter returns it alone *)
Theorem C131_round_trip : forall fexp flog fsum fdot fchol, exp_good fexp -> log_good flog -> sums fsum -> matmul_good fdot ->
  cholesky_good fchol -> cholesky_close fchol -> cholesky_succeeds fchol ->
  forall p x, built (fd_set_free fexp flog fsum fdot) fd_set_vector p -> no_empty p -> length x = fd_free_size p -> parts fl_free_size (members p) x benign ->
  exists p' w, fd_set_free fexp flog fsum fdot p x = (p', Ok tt) /\ fd_get_free flog fchol p' = Ok w /\ length w = length x /\ related fl_free_size free_back (members p) x w.
Proof. exact t_free_back. Qed.
Print Assumptions C131_round_trip.

(** ** the hypotheses are met *)
(** a dictionary of a scalar without bounds and a dictionary of a 2 by 2 matrix *)
Definition s0 : ModelFloatParams.fscalar := ModelFloatParams.mkFS f_ninf f_inf (nd_scalar (dint 7)).
Definition m0 : ModelFloatMatrix.fposdef := ModelFloatMatrix.mkFP 2 (dint 0) (mk_mat 2 2 (fun i j => if Nat.eqb i j then dint 1 else dzero)).
Definition inner : fparam := FDict "inner" [("m"%string, FLeaf "m" (FPosDef m0))] 3 3.
Definition tree : fparam := FDict "tree" [("s"%string, FLeaf "s" (FScalar s0)); ("inner"%string, inner)] 4 4.
Lemma tree_built fexp flog fsum fdot : built (fd_set_free fexp flog fsum fdot) fd_set_vector tree.
Proof.
  assert (I : built (fd_set_free fexp flog fsum fdot) fd_set_vector inner) by exact (b_push _ _ (fd_init "inner") (FLeaf "m" (FPosDef m0)) inner (b_new _ _ _) (b_leaf _ _ _ _) eq_refl eq_refl).
  assert (D : built (fd_set_free fexp flog fsum fdot) fd_set_vector (FDict "tree" [("s"%string, FLeaf "s" (FScalar s0))] 1 1))
    by exact (b_push _ _ (fd_init "tree") (FLeaf "s" (FScalar s0)) _ (b_new _ _ _) (b_leaf _ _ _ _) eq_refl eq_refl).
  exact (b_push _ _ _ inner tree D I eq_refl eq_refl).
Qed.
Lemma tree_no_empty : no_empty tree. Proof. cbn. repeat split; discriminate. Qed.
Example C129_members : members tree = [(["s"%string], FScalar s0); (["inner"%string; "m"%string], FPosDef m0)].
Proof. reflexivity. Qed.
(** a NaN in the part of the matrix: set_vector raises, and the scalar before it is changed to 5 *)
Example C129_partial_update : snd (fd_set_vector tree [dint 5; B754_nan; dint 0; dint 1]) = Raise ValueError /\
  members (fst (fd_set_vector tree [dint 5; B754_nan; dint 0; dint 1])) = [(["s"%string], FScalar (ModelFloatParams.mkFS f_ninf f_inf (nd_vec [dint 5]))); (["inner"%string; "m"%string], FPosDef m0)].
Proof.
  set (fexp := fun x : dbl => x). set (fdot := fun (_ _ : nat) (_ _ : list dbl) => dzero : dbl). destruct init2 as [q Iq].
  assert (E : ModelFloatMatrix.fposdef_set_vector m0 [B754_nan; dint 0; dint 1] = Raise ValueError).
  { assert (Rq := r_init fexp fdot 2 (dint 0) None q Iq). destruct (reachable_inv fexp fdot 2 (dint 0) q Rq) as (E1 & E2 & _).
    transitivity (ModelFloatMatrix.fposdef_set_vector q [B754_nan; dint 0; dint 1]).
    { unfold ModelFloatMatrix.fposdef_set_vector, ModelFloatMatrix.fposdef_set, ModelFloatMatrix.fp_vec_size. rewrite E1, E2. reflexivity. }
    apply (C125_raises fexp fdot 2 (dint 0) q _ Rq). right. split; [reflexivity|]. exists 0%nat, 0%nat. split; [lia|]. split; [lia|]. left. reflexivity. }
  destruct (C129_set_vector fexp (fun x => x) (fun _ => dzero) fdot tree [dint 5; B754_nan; dint 0; dint 1] (tree_built _ _ _ _) eq_refl) as [H _].
  rewrite C129_members in H. set (x := [dint 5; B754_nan; dint 0; dint 1]) in *.
  assert (F1 : fl_set_vector (FScalar s0) (firstn (fl_vector_size (FScalar s0)) x) = Ok (FScalar (ModelFloatParams.mkFS f_ninf f_inf (nd_vec [dint 5])))) by reflexivity.
  assert (F2 : fl_set_vector (FPosDef m0) (firstn (fl_vector_size (FPosDef m0)) (skipn (fl_vector_size (FScalar s0)) x)) = Raise ValueError) by exact (f_equal (lift_res FPosDef) E).
  cbn [set_in_order] in H. match type of H with context [fl_set_vector (FScalar s0) ?y] => replace (fl_set_vector (FScalar s0) y) with (Ok (FScalar (ModelFloatParams.mkFS f_ninf f_inf (nd_vec [dint 5])))) in H by (symmetry; exact F1) end.
  match type of H with context [fl_set_vector (FPosDef m0) ?y] => replace (fl_set_vector (FPosDef m0) y) with (Raise ValueError : res fleaf) in H by (symmetry; exact F2) end. split; [exact (f_equal snd H)|exact (f_equal fst H)].
Qed.
Example C131_example : exists p' w, fd_set_free ideal_exp ideal_log add_in_order (fun _ _ => seq_dot) tree (dint 7 :: x2) = (p', Ok tt) /\ fd_get_free ideal_log textbook_cholesky p' = Ok w /\ length w = 4%nat.
Proof.
  destruct hyps2 as (H1 & H2 & H3 & H4). destruct (H4 0%nat ltac:(lia)) as (C & R & G). rewrite (block_x22 0 ltac:(lia)) in C, R.
  destruct (C131_round_trip ideal_exp ideal_log add_in_order (fun _ _ => seq_dot) textbook_cholesky ideal_exp_good ideal_log_good add_in_order_sums seq_dot_good textbook_cholesky_good textbook_cholesky_close textbook_cholesky_succeeds
    tree (dint 7 :: x2) (tree_built _ _ _ _) tree_no_empty eq_refl) as (p' & w & S & Q & L & _).
  - split; [|split; [|exact I]].
    + split; [exists None; eexists; reflexivity|]. split; [|split].
      * split; [left; reflexivity|]. split; [left; reflexivity|]. intros [F _]. discriminate F.
      * apply List.Forall_cons; [|apply List.Forall_nil]. split; [reflexivity|]. assert (E : B2R (dint 7) = 7) by (apply dint_B2R; reflexivity). rewrite E. rewrite Rabs_pos_eq; lra.
      * apply List.Forall_cons; [|apply List.Forall_nil]. unfold well_conditioned. change (0 <= bpow radix2 40). apply bpow_ge_0.
    + split; [|split; [split; [exact H1|split; assumption]|exists (40 * eps 2); split; [exact C|split; assumption]]].
      exists None. destruct init2 as [q Iq]. exists q. exact Iq.
  - exists p', w. split; [exact S|]. split; [exact Q|exact L].
Qed.
