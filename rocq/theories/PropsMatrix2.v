(** Property C109: construction of stacks of positive definite matrices. *)
From Coq Require Import String Reals List Bool Arith Lra Lia.
From Coquelicot Require Import Coquelicot.
From Verif Require Import Res Num Nd RSum ModelAutograd ModelSparse ModelParameters ModelMatrix.
From Verif Require Import SpecParameters SpecMatrix LemmasParameters LemmasCalc LemmasChol LemmasMatrix LemmasPosDef LemmasPosDefStack LemmasMatrixInit.
Import List ListNotations.
Open Scope R_scope.
Set Bullet Behavior "Strict Subproofs".

(** without a value: every matrix is (diag_lb + 1) I, a valid value, and get_free() is the zero vector *)
Theorem C109_vector_default : forall nm N n lb, 0 <= lb ->
  exists p, pv_init nm N n (Fin lb) None = Ok p /\ pv_name p = nm /\ pv_length p = N /\ pv_size p = n /\ pv_lb p = Fin lb /\
    nd_wf (pv_val p) /\ shape (pv_val p) = [N; n; n] /\
    (forall o, (o < N)%nat -> nd_index (pv_val p) [o] = Ok (fmat n (fun i j => if Nat.eqb i j then lb + 1 else 0))) /\
    ((0 < N)%nat -> pv_get_free p = Ok (fvec (repeat 0 (pv_free_size p)))).
Proof. exact pv_default. Qed.
Print Assumptions C109_vector_default.
Theorem C109_array_default : forall nm s n lb, 0 <= lb -> s <> [] ->
  exists p, pa_init nm (ShapeTuple s) n (Fin lb) None = Ok p /\ pa_name p = nm /\ pa_ashape p = s /\ pa_size p = n /\ pa_lb p = Fin lb /\
    nd_wf (pa_val p) /\ shape (pa_val p) = s ++ [n; n] /\
    (forall obs, In obs (product s) -> nd_index (pa_val p) obs = Ok (fmat n (fun i j => if Nat.eqb i j then lb + 1 else 0))) /\
    ((0 < nprod s)%nat -> pa_get_free p = Ok (fvec (repeat 0 (pa_free_size p)))).
Proof. exact pa_default. Qed.
Print Assumptions C109_array_default.
(** with a value of the right number of dimensions: kept unchanged if any one dimension is right, ValueError only if all are wrong; neither symmetry
    nor positive definiteness is checked *)
Theorem C109_vector_value : forall nm N n lb a, nleb (Fin 0) lb = true -> length (shape a) = 3%nat ->
  (pv_init nm N n lb (Some a) = Ok (PosDefV nm N n lb a) <-> exists k, (k < 3)%nat /\ nth k (shape a) 0%nat = nth k [N; n; n] 0%nat) /\
  (pv_init nm N n lb (Some a) = Raise ValueError <-> forall k, (k < 3)%nat -> nth k (shape a) 0%nat <> nth k [N; n; n] 0%nat).
Proof. exact pv_construct. Qed.
Print Assumptions C109_vector_value.
Theorem C109_array_value : forall nm s n lb a, nleb (Fin 0) lb = true -> length (shape a) = (length s + 2)%nat ->
  (pa_init nm (ShapeTuple s) n lb (Some a) = Ok (PosDefA nm s n lb a) <-> exists k, (k < length s + 2)%nat /\ nth k (shape a) 0%nat = nth k (s ++ [n; n]) 0%nat) /\
  (pa_init nm (ShapeTuple s) n lb (Some a) = Raise ValueError <-> forall k, (k < length s + 2)%nat -> nth k (shape a) 0%nat <> nth k (s ++ [n; n]) 0%nat).
Proof. exact pa_construct. Qed.
Print Assumptions C109_array_value.
(** so an asymmetric value is accepted, although PosDefMatrixParam rejects the same matrix *)
Theorem C109_invalid_value_refuted : exists M, let a := fmat 2 M in ~ symmetric 2 M /\
  (exists p, pv_init "v" 1 2 (Fin 0) (Some (Nd [1; 2; 2]%nat (data a))) = Ok p) /\ posdef_init "m" 2 (Fin 0) (Some a) = Raise ValueError.
Proof.
  exists (fun i j => if Nat.eqb i j then -1 else INR i). cbn zeta. splits.
  - intros H. specialize (H 0%nat 1%nat ltac:(lia) ltac:(lia)). cbn in H. lra.
  - eexists. unfold pv_init. cbn [nleb]. replace (Rleb 0 0) with true by (symmetry; apply Rleb_true; lra). reflexivity.
  - unfold posdef_init. cbn [nleb]. replace (Rleb 0 0) with true by (symmetry; apply Rleb_true; lra). unfold rassert, posdef_set.
    unfold fmat at 1. unfold mk_mat. cbn [shape Nat.eqb negb orb pd_size].
    cbn [seq forallb]. rewrite !mget_fmat by lia. cbn [Nat.eqb INR]. unfold neqb. rewrite Reqb_refl.
    replace (Reqb 1 0) with false; [reflexivity|]. symmetry. apply not_true_is_false. intros B. apply Reqb_true in B. lra.
Qed.
Print Assumptions C109_invalid_value_refuted.
(** a bound that is negative or NaN: AssertionError; an integer as array_shape (the default is the integer 1) or an empty tuple: TypeError *)
Theorem C109_bad_arguments : forall nm N n lb val s,
  (nleb (Fin 0) lb = false -> pv_init nm N n lb val = Raise AssertionError /\ pa_init nm (ShapeTuple s) n lb val = Raise AssertionError) /\
  pa_init nm (ShapeInt N) n lb val = Raise TypeError /\
  (nleb (Fin 0) lb = true -> pa_init nm (ShapeTuple []) n lb None = Raise TypeError).
Proof.
  intros nm N n lb val s. splits.
  - intros H. unfold pv_init, pa_init. rewrite H. split; reflexivity.
  - reflexivity.
  - intros H. unfold pa_init. rewrite H. reflexivity.
Qed.
Print Assumptions C109_bad_arguments.
Example C109_nonvacuous : nleb (Fin 0) (Fin 1) = true /\ nleb (Fin 0) (Fin (-1)) = false /\ nleb (Fin 0) NaN = false /\
  (exists k, (k < 3)%nat /\ nth k [5; 2; 4]%nat 0%nat = nth k [3; 2; 2]%nat 0%nat) /\ pv_free_size (PosDefV "v" 3 2 (Fin 0) (Nd [] [])) = 9%nat.
Proof.
  splits; try reflexivity.
  - apply Rleb_true; lra.
  - apply Rleb_false; lra.
  - exists 1%nat. split; [lia|reflexivity].
Qed.
