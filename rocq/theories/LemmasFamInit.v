(** Construction of the distribution parameters: which lower bounds are accepted and what the members then hold. *)
From Coq Require Import String Reals List Arith Lia Lra Bool.
From Verif Require Import Res Num Nd RSum ModelParameters ModelMatrix ModelDict ModelNumpy ModelExpFam ModelFamilies SpecMatrix SpecExpFam SpecFamilies LemmasPosDef LemmasNumpy LemmasExpFam LemmasFamilies.
Import List ListNotations.
Open Scope R_scope.
Set Bullet Behavior "Strict Subproofs".

Lemma np_full_farr s c : np_full s (Fin c) = farr s (fun _ => c).
Proof.
  unfold np_full, farr, mk_nd. f_equal. rewrite <- (product_length s). induction (product s) as [|x l IH]; [reflexivity|]. cbn. f_equal. exact IH.
Qed.

Lemma scalar_start k b : usable b -> scalar_init k b PInf None = Ok (ScalarP k b PInf (fnum (start_value b))).
Proof. destruct b; cbn; intros H; try contradiction; reflexivity. Qed.
Lemma scalar_pinf k : scalar_init k PInf PInf None = Raise ValueError.
Proof. reflexivity. Qed.
Lemma scalar_nan k : scalar_init k NaN PInf None = Raise AssertionError.
Proof. reflexivity. Qed.
Lemma nd_size_full n (x : num) : nd_size (np_full [n] x) = n.
Proof. unfold nd_size, np_full, nprod. cbn. lia. Qed.
Lemma get_inbounds_start b : usable b -> get_inbounds_value b PInf = Ok (Fin (start_value b)).
Proof. destruct b; cbn; intros H; try contradiction; reflexivity. Qed.
Lemma usable_tests b : usable b -> nleb NInf b = true /\ nleb PInf PInf = true /\ nleb PInf b = false.
Proof. destruct b; cbn; intros H; try contradiction; auto. Qed.

Lemma vector_start k n b : usable b -> vector_init k n b PInf None = Ok (VectorP k n b PInf (farr [n] (fun _ => start_value b))).
Proof.
  intros H. destruct (usable_tests b H) as (A & B & C). unfold vector_init, rassert, vector_set. rewrite A, B, C, (get_inbounds_start b H).
  cbn [rbind vp_size vp_name vp_lb vp_ub]. rewrite nd_size_full, Nat.eqb_refl, np_full_farr. reflexivity.
Qed.
Lemma array_start k s b : usable b -> array_init k s b PInf None = Ok (ArrayP k s b PInf (farr s (fun _ => start_value b))).
Proof.
  intros H. destruct (usable_tests b H) as (A & B & C). unfold array_init, rassert, array_set. rewrite A, B, C, (get_inbounds_start b H).
  cbn [rbind ap_shape ap_name ap_lb ap_ub]. rewrite np_full_farr. cbn [shape farr mk_nd]. rewrite shape_eqb_refl. reflexivity.
Qed.
Lemma posdef_start k n r : 0 <= r -> posdef_init k n (Fin r) None = Ok (PosDefP k n (Fin r) (fmat n (fun i j => (r + 1) * delta i j))).
Proof.
  intros H. unfold posdef_init, rassert. replace (nleb (Fin 0) (Fin r)) with true by (symmetry; apply Rleb_true; exact H).
  f_equal. f_equal. unfold fmat, mk_mat. f_equal. apply flat_map_ext. intros i. apply map_ext. intros j. unfold make_diagonal, delta. cbn.
  destruct (Nat.eqb i j); f_equal; ring.
Qed.

(** the two members of a dictionary with two distinct names *)
Lemma dict_of_2 nm a b : leaf_name a <> leaf_name b ->
  d_getitem (dict_of nm [a; b]) (leaf_name a) = Ok (Leaf a) /\ d_getitem (dict_of nm [a; b]) (leaf_name b) = Ok (Leaf b) /\
  p_vector_size (dict_of nm [a; b]) = (leaf_vector_size a + leaf_vector_size b)%nat.
Proof.
  intros N. unfold dict_of, dict_init, push_param. cbn [fold_left fst p_name od_set d_getitem p_vector_size].
  assert (E : String.eqb (leaf_name a) (leaf_name b) = false) by (apply String.eqb_neq; exact N).
  assert (E' : String.eqb (leaf_name b) (leaf_name a) = false) by (apply String.eqb_neq; auto).
  rewrite ?E, ?E'. cbn [od_get]. rewrite ?String.eqb_refl, ?E, ?E'. rewrite ?String.eqb_refl. repeat split.
Qed.

Lemma start_leaf a x : leaf_get a = x -> forall d k, d_getitem d k = Ok (Leaf a) -> holds d k x.
Proof. intros E d k G. exists a. auto. Qed.

Ltac two := match goal with |- context [dict_of ?nm [?a; ?b]] =>
  let H := fresh in destruct (dict_of_2 nm a b ltac:(discriminate)) as (? & ? & H); rewrite ?H; clear H end.

Ltac fin2 := repeat match goal with |- _ /\ _ => split end; try reflexivity;
  try (eapply start_leaf; [|eassumption]; reflexivity);
  try (cbn [leaf_vector_size]; unfold vector_vector_size, array_vector_size; cbn [vp_size ap_shape]; lia).

Lemma scalar_refused k b : ~ usable b -> scalar_init k b PInf None = Raise (refusal b).
Proof. destruct b; cbn; intros H; try tauto; reflexivity. Qed.
Lemma vector_refused k n b : ~ usable b -> vector_init k n b PInf None = Raise (refusal b).
Proof. destruct b; cbn; intros H; try tauto; reflexivity. Qed.
Lemma array_refused k n b : ~ usable b -> array_init k n b PInf None = Raise (refusal b).
Proof. destruct b; cbn; intros H; try tauto; reflexivity. Qed.

Lemma uvn_construct nm b :
  (usable b -> exists d, uvn_init nm b = Ok d /\ holds d "mean" (fnum 0) /\ holds d "info" (fnum (start_value b)) /\ p_vector_size d = 2%nat) /\
  (b = PInf -> uvn_init nm b = Raise ValueError) /\ (b = NaN -> uvn_init nm b = Raise AssertionError).
Proof.
  split; [|split; intros ->; reflexivity]. intros U. unfold uvn_init. rewrite (scalar_start "mean" NInf I), (scalar_start _ b U). cbn [rbind].
  eexists. split; [reflexivity|]. two. fin2.
Qed.
Lemma uvn_vector_construct nm n b :
  (usable b -> exists d, uvn_vector_init nm n b = Ok d /\ holds d "mean" (farr [n] (fun _ => 0)) /\ holds d "info" (farr [n] (fun _ => start_value b)) /\ p_vector_size d = (2 * n)%nat) /\
  (b = PInf -> uvn_vector_init nm n b = Raise ValueError) /\ (b = NaN -> uvn_vector_init nm n b = Raise AssertionError).
Proof.
  split; [|unfold uvn_vector_init; rewrite (vector_start "mean" n NInf I); split; intros ->; reflexivity].
  intros U. unfold uvn_vector_init. rewrite (vector_start "mean" n NInf I), (vector_start _ n b U). cbn [rbind].
  eexists. split; [reflexivity|]. two. fin2.
Qed.
Lemma uvn_array_construct nm s b :
  (usable b -> exists d, uvn_array_init nm s b = Ok d /\ ua_shape d = s /\ holds (ua_dict d) "mean" (farr s (fun _ => 0)) /\ holds (ua_dict d) "info" (farr s (fun _ => start_value b)) /\ p_vector_size (ua_dict d) = (2 * nprod s)%nat) /\
  (b = PInf -> uvn_array_init nm s b = Raise ValueError) /\ (b = NaN -> uvn_array_init nm s b = Raise AssertionError).
Proof.
  split; [|unfold uvn_array_init; rewrite (array_start "mean" s NInf I); split; intros ->; reflexivity].
  intros U. unfold uvn_array_init. rewrite (array_start "mean" s NInf I), (array_start _ s b U). cbn [rbind].
  eexists. split; [reflexivity|]. cbn [ua_dict ua_shape]. two. fin2.
Qed.
Lemma uvn_moment_construct nm s b :
  (usable b -> exists d, uvn_moment_init nm s b = Ok d /\ um_shape d = s /\ holds (um_dict d) "e" (farr s (fun _ => 0)) /\ holds (um_dict d) "e2" (farr s (fun _ => start_value b)) /\ p_vector_size (um_dict d) = (2 * nprod s)%nat) /\
  (b = PInf -> uvn_moment_init nm s b = Raise ValueError) /\ (b = NaN -> uvn_moment_init nm s b = Raise AssertionError).
Proof.
  split; [|unfold uvn_moment_init; rewrite (array_start "e" s NInf I); split; intros ->; reflexivity].
  intros U. unfold uvn_moment_init. rewrite (array_start "e" s NInf I), (array_start _ s b U). cbn [rbind].
  eexists. split; [reflexivity|]. cbn [um_dict um_shape]. two. fin2.
Qed.
Lemma mvn_array_construct nm s b :
  (forall n t, s = n :: t -> usable b -> exists d, mvn_array_init nm s b = Ok d /\ holds d "mean" (farr s (fun _ => 0)) /\ holds d "info" (farr [n] (fun _ => start_value b)) /\ p_vector_size d = (nprod s + n)%nat) /\
  (s <> [] -> b = PInf -> mvn_array_init nm s b = Raise ValueError) /\ (s <> [] -> b = NaN -> mvn_array_init nm s b = Raise AssertionError) /\
  (s = [] -> mvn_array_init nm s b = Raise IndexError).
Proof.
  unfold mvn_array_init. rewrite (array_start "mean" s NInf I). cbn [rbind]. split; [|split; [|split]].
  - intros n t -> U. rewrite (vector_start _ n b U). cbn [rbind]. eexists. split; [reflexivity|]. two. fin2.
  - intros N ->. destruct s; [congruence|reflexivity].
  - intros N ->. destruct s; [congruence|reflexivity].
  - intros ->. reflexivity.
Qed.
Lemma gamma_construct nm a b :
  (usable a -> usable b -> exists d, gamma_init nm a b = Ok d /\ holds d "shape" (fnum (start_value a)) /\ holds d "rate" (fnum (start_value b)) /\ p_vector_size d = 2%nat) /\
  (~ usable a -> gamma_init nm a b = Raise (refusal a)) /\ (usable a -> ~ usable b -> gamma_init nm a b = Raise (refusal b)).
Proof.
  unfold gamma_init. split; [|split].
  - intros A B. rewrite (scalar_start _ a A), (scalar_start _ b B). cbn [rbind]. eexists. split; [reflexivity|]. two. fin2.
  - intros A. rewrite (scalar_refused _ a A). reflexivity.
  - intros A B. rewrite (scalar_start _ a A), (scalar_refused _ b B). reflexivity.
Qed.
(** matrices: only bounds that are at least 0 *)
Lemma below_zero_test b : below_zero b -> nleb (Fin 0) b = false.
Proof. destruct b as [r| | |]; cbn; intros H; try reflexivity; [apply Rleb_false; exact H|contradiction]. Qed.
Lemma nonneg_test b : ~ below_zero b -> nleb (Fin 0) b = true.
Proof. destruct b as [r| | |]; cbn; intros H; try reflexivity; try tauto. apply Rleb_true. lra. Qed.
Lemma mvn_construct nm n b :
  (forall r, b = Fin r -> 0 <= r -> exists d, mvn_init nm n b = Ok d /\ holds d "mean" (farr [n] (fun _ => 0)) /\ holds d "info" (fmat n (fun i j => (r + 1) * delta i j))) /\
  (below_zero b -> mvn_init nm n b = Raise AssertionError).
Proof.
  unfold mvn_init. rewrite (vector_start "mean" n NInf I). cbn [rbind]. split.
  - intros r -> H. rewrite (posdef_start _ n r H). cbn [rbind]. eexists. split; [reflexivity|]. two. fin2.
  - intros Z. unfold posdef_init, rassert. rewrite (below_zero_test b Z). reflexivity.
Qed.

Lemma dirichlet_construct nm s b v :
  (below_zero b -> dirichlet_init nm s b v = Raise AssertionError) /\
  (b = PInf -> dirichlet_init nm s b v = Raise ValueError) /\
  (~ below_zero b -> b <> PInf -> v = None -> exists d, dirichlet_init nm s b v = Ok d /\ holds d "alpha" (farr s (fun _ => start_value b)) /\ p_vector_size d = nprod s) /\
  (forall a, ~ below_zero b -> b <> PInf -> v = Some a ->
     (shape a = s -> exists d, dirichlet_init nm s b v = Ok d /\ holds d "alpha" a /\ p_vector_size d = nprod s) /\
     (shape a <> s -> dirichlet_init nm s b v = Raise ValueError)).
Proof.
  unfold dirichlet_init. split; [|split; [|split]].
  - intros Z. rewrite (below_zero_test b Z). reflexivity.
  - intros ->. reflexivity.
  - intros Z N ->. assert (U : usable b) by (destruct b; cbn in *; tauto). rewrite (nonneg_test b Z). cbn [rassert]. rewrite (array_start _ s b U). cbn [rbind].
    eexists. split; [reflexivity|]. split; [|reflexivity]. eapply start_leaf; [|reflexivity]. reflexivity.
  - intros a Z N ->. assert (U : usable b) by (destruct b; cbn in *; tauto). destruct (usable_tests b U) as (A & B & C).
    rewrite (nonneg_test b Z). cbn [rassert]. unfold array_init. rewrite A, B, C. cbn [rassert rbind]. unfold array_set. cbn [ap_shape ap_name ap_lb ap_ub]. split.
    + intros E. rewrite E, shape_eqb_refl. cbn [negb rbind]. eexists. split; [reflexivity|]. split; [|reflexivity]. eapply start_leaf; [|reflexivity]. reflexivity.
    + intros E. destruct (shape_eqb (shape a) s) eqn:Q; [apply shape_eqb_true in Q; contradiction|reflexivity].
Qed.
Lemma Reqb_neq x y : x <> y -> Reqb x y = false.
Proof. intros H. destruct (Reqb x y) eqn:E; [apply Reqb_true in E; contradiction|reflexivity]. Qed.
(** the degrees of freedom: 0 counts as not given *)
Lemma wishart_construct nm n b r m : 0 <= r -> b = Fin r ->
  (m = None \/ m = Some (Fin 0) -> exists d p, wishart_init nm n b m = Ok d /\ d_getitem d "df" = Ok (Leaf (LScalar p)) /\ sp_lb p = Fin (INR n - 1) /\
     holds d "df" (fnum (INR n)) /\ holds d "v" (fmat 2 (fun i j => (r + 1) * delta i j))) /\
  (forall x, m = Some (Fin x) -> x <> 0 -> INR n - 1 <= x -> exists d p, wishart_init nm n b m = Ok d /\ d_getitem d "df" = Ok (Leaf (LScalar p)) /\ sp_lb p = Fin x /\
     holds d "df" (fnum (x + 1)) /\ holds d "v" (fmat 2 (fun i j => (r + 1) * delta i j))) /\
  (forall x, m = Some (Fin x) -> x <> 0 -> x < INR n - 1 -> wishart_init nm n b m = Raise AssertionError) /\
  (m = Some PInf -> wishart_init nm n b m = Raise ValueError) /\
  (m = Some NInf \/ m = Some NaN -> wishart_init nm n b m = Raise AssertionError).
Proof.
  intros H ->. unfold wishart_init.
  assert (G : forall x, INR n - 1 <= x -> exists d p, rassert (nleb (Fin (INR n - 1)) (Fin x)) (do df <- scalar_init "df" (Fin x) PInf None; do v <- posdef_init "v" 2 (Fin r) None; Ok (dict_of nm [LScalar df; LPosDef v])) = Ok d
     /\ d_getitem d "df" = Ok (Leaf (LScalar p)) /\ sp_lb p = Fin x /\ holds d "df" (fnum (x + 1)) /\ holds d "v" (fmat 2 (fun i j => (r + 1) * delta i j))).
  { intros x Hx. replace (nleb (Fin (INR n - 1)) (Fin x)) with true by (symmetry; apply Rleb_true; exact Hx). cbn [rassert].
    rewrite (scalar_start "df" (Fin x) I), (posdef_start "v" 2 r H). cbn [rbind]. eexists _, _. split; [reflexivity|].
    match goal with |- context [dict_of ?nm [?a; ?b]] => destruct (dict_of_2 nm a b ltac:(discriminate)) as (K1 & K2 & _) end.
    split; [exact K1|]. split; [reflexivity|]. split; (eapply start_leaf; [|eassumption]; reflexivity). }
  split; [|split; [|split; [|split]]].
  - intros D. destruct (G (INR n - 1) ltac:(lra)) as (d & p & G1 & G2 & G3 & G4 & G5). exists d, p. replace (INR n - 1 + 1) with (INR n) in G4 by ring.
    split; [|auto]. destruct D as [-> | ->]; [exact G1|]. cbn [neqb]. replace (Reqb 0 0) with true by (symmetry; apply Reqb_true; reflexivity). exact G1.
  - intros x -> N L. cbn [neqb]. replace (Reqb x 0) with false by (symmetry; apply Reqb_neq; exact N). exact (G x L).
  - intros x -> N L. cbn [neqb]. replace (Reqb x 0) with false by (symmetry; apply Reqb_neq; exact N).
    replace (nleb (Fin (INR n - 1)) (Fin x)) with false by (symmetry; apply Rleb_false; exact L). reflexivity.
  - intros ->. reflexivity.
  - intros [-> | ->]; reflexivity.
Qed.
Lemma wishart_diag nm n b m : below_zero b -> m <> Some PInf -> wishart_init nm n b m = Raise AssertionError.
Proof.
  intros Z N. unfold wishart_init.
  assert (G : forall x, rassert (nleb (Fin (INR n - 1)) (Fin x)) (do df <- scalar_init "df" (Fin x) PInf None; do v <- posdef_init "v" 2 b None; Ok (dict_of nm [LScalar df; LPosDef v])) = Raise AssertionError).
  { intros x. destruct (nleb (Fin (INR n - 1)) (Fin x)); [|reflexivity]. cbn [rassert]. rewrite (scalar_start "df" (Fin x) I). cbn [rbind].
    unfold posdef_init. rewrite (below_zero_test b Z). reflexivity. }
  destruct m as [[x| | |]|]; try reflexivity; [|congruence|apply G]. cbn [neqb]. destruct (Reqb x 0); apply G.
Qed.
