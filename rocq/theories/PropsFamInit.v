(** C105: construction of the parameters of distributions. *)
From Coq Require Import String Reals List Arith Lia Lra Bool.
From Verif Require Import Res Num Nd RSum ModelParameters ModelMatrix ModelDict ModelNumpy ModelExpFam ModelFamilies SpecMatrix SpecExpFam SpecFamilies LemmasFamInit.
Import List ListNotations.
Open Scope R_scope.

(** UVNParam *)
Theorem C105_normal : forall nm b, (usable b -> exists d, uvn_init nm b = Ok d /\ holds d "mean" (fnum 0) /\ holds d "info" (fnum (start_value b)) /\ p_vector_size d = 2%nat) /\
  (b = PInf -> uvn_init nm b = Raise ValueError) /\ (b = NaN -> uvn_init nm b = Raise AssertionError).
Proof. exact uvn_construct. Qed.
Print Assumptions C105_normal.

(** UVNParamVector *)
Theorem C105_normal_vector : forall nm n b, (usable b -> exists d, uvn_vector_init nm n b = Ok d /\ holds d "mean" (farr [n] (fun _ => 0)) /\ holds d "info" (farr [n] (fun _ => start_value b)) /\ p_vector_size d = (2 * n)%nat) /\
  (b = PInf -> uvn_vector_init nm n b = Raise ValueError) /\ (b = NaN -> uvn_vector_init nm n b = Raise AssertionError).
Proof. exact uvn_vector_construct. Qed.
Print Assumptions C105_normal_vector.

(** UVNParamArray *)
Theorem C105_normal_array : forall nm s b, (usable b -> exists d, uvn_array_init nm s b = Ok d /\ ua_shape d = s /\ holds (ua_dict d) "mean" (farr s (fun _ => 0)) /\ holds (ua_dict d) "info" (farr s (fun _ => start_value b)) /\ p_vector_size (ua_dict d) = (2 * nprod s)%nat) /\
  (b = PInf -> uvn_array_init nm s b = Raise ValueError) /\ (b = NaN -> uvn_array_init nm s b = Raise AssertionError).
Proof. exact uvn_array_construct. Qed.
Print Assumptions C105_normal_array.

(** UVNMomentParamArray *)
Theorem C105_moment_array : forall nm s b, (usable b -> exists d, uvn_moment_init nm s b = Ok d /\ um_shape d = s /\ holds (um_dict d) "e" (farr s (fun _ => 0)) /\ holds (um_dict d) "e2" (farr s (fun _ => start_value b)) /\ p_vector_size (um_dict d) = (2 * nprod s)%nat) /\
  (b = PInf -> uvn_moment_init nm s b = Raise ValueError) /\ (b = NaN -> uvn_moment_init nm s b = Raise AssertionError).
Proof. exact uvn_moment_construct. Qed.
Print Assumptions C105_moment_array.

(** MVNArray *)
Theorem C105_multivariate_array : forall nm s b, (forall n t, s = n :: t -> usable b -> exists d, mvn_array_init nm s b = Ok d /\ holds d "mean" (farr s (fun _ => 0)) /\ holds d "info" (farr [n] (fun _ => start_value b)) /\ p_vector_size d = (nprod s + n)%nat) /\
  (s <> [] -> b = PInf -> mvn_array_init nm s b = Raise ValueError) /\ (s <> [] -> b = NaN -> mvn_array_init nm s b = Raise AssertionError) /\
  (s = [] -> mvn_array_init nm s b = Raise IndexError).
Proof. exact mvn_array_construct. Qed.
Print Assumptions C105_multivariate_array.

(** MVNParam *)
Theorem C105_multivariate_normal : forall nm n b, (forall r, b = Fin r -> 0 <= r -> exists d, mvn_init nm n b = Ok d /\ holds d "mean" (farr [n] (fun _ => 0)) /\ holds d "info" (fmat n (fun i j => (r + 1) * delta i j))) /\
  (below_zero b -> mvn_init nm n b = Raise AssertionError).
Proof. exact mvn_construct. Qed.
Print Assumptions C105_multivariate_normal.

(** GammaParam *)
Theorem C105_gamma : forall nm a b, (usable a -> usable b -> exists d, gamma_init nm a b = Ok d /\ holds d "shape" (fnum (start_value a)) /\ holds d "rate" (fnum (start_value b)) /\ p_vector_size d = 2%nat) /\
  (~ usable a -> gamma_init nm a b = Raise (refusal a)) /\ (usable a -> ~ usable b -> gamma_init nm a b = Raise (refusal b)).
Proof. exact gamma_construct. Qed.
Print Assumptions C105_gamma.

(** DirichletParamArray *)
Theorem C105_dirichlet : forall nm s b v, (below_zero b -> dirichlet_init nm s b v = Raise AssertionError) /\
  (b = PInf -> dirichlet_init nm s b v = Raise ValueError) /\
  (~ below_zero b -> b <> PInf -> v = None -> exists d, dirichlet_init nm s b v = Ok d /\ holds d "alpha" (farr s (fun _ => start_value b)) /\ p_vector_size d = nprod s) /\
  (forall a, ~ below_zero b -> b <> PInf -> v = Some a ->
     (shape a = s -> exists d, dirichlet_init nm s b v = Ok d /\ holds d "alpha" a /\ p_vector_size d = nprod s) /\
     (shape a <> s -> dirichlet_init nm s b v = Raise ValueError)).
Proof. exact dirichlet_construct. Qed.
Print Assumptions C105_dirichlet.

(** WishartParam; min_df = 0 counts as not given *)
Theorem C105_wishart : forall nm n b r m, 0 <= r -> b = Fin r ->
  (m = None \/ m = Some (Fin 0) -> exists d p, wishart_init nm n b m = Ok d /\ d_getitem d "df" = Ok (Leaf (LScalar p)) /\ sp_lb p = Fin (INR n - 1) /\
     holds d "df" (fnum (INR n)) /\ holds d "v" (fmat 2 (fun i j => (r + 1) * delta i j))) /\
  (forall x, m = Some (Fin x) -> x <> 0 -> INR n - 1 <= x -> exists d p, wishart_init nm n b m = Ok d /\ d_getitem d "df" = Ok (Leaf (LScalar p)) /\ sp_lb p = Fin x /\
     holds d "df" (fnum (x + 1)) /\ holds d "v" (fmat 2 (fun i j => (r + 1) * delta i j))) /\
  (forall x, m = Some (Fin x) -> x <> 0 -> x < INR n - 1 -> wishart_init nm n b m = Raise AssertionError) /\
  (m = Some PInf -> wishart_init nm n b m = Raise ValueError) /\
  (m = Some NInf \/ m = Some NaN -> wishart_init nm n b m = Raise AssertionError).
Proof. exact wishart_construct. Qed.
Print Assumptions C105_wishart.
Theorem C105_wishart_matrix_bound : forall nm n b m, below_zero b -> m <> Some PInf -> wishart_init nm n b m = Raise AssertionError.
Proof. exact wishart_diag. Qed.
Print Assumptions C105_wishart_matrix_bound.
Example C105_example : usable (Fin 3) /\ usable NInf /\ ~ usable PInf /\ below_zero (Fin (-1)) /\ ~ below_zero (Fin 0) /\ start_value (Fin 3) = 4 /\
  (exists d, dirichlet_init "d" [2; 3]%nat (Fin 0) None = Ok d /\ holds d "alpha" (farr [2; 3]%nat (fun _ => 0 + 1))) /\ INR 3 - 1 <= 5 /\ 1 < INR 3 - 1.
Proof.
  repeat match goal with |- _ /\ _ => split end; cbn; try exact I; try lra; try tauto.
  destruct (dirichlet_construct "d" [2; 3]%nat (Fin 0) None) as (_ & _ & H & _). destruct H as (d & A & B & _); [cbn; lra|discriminate|reflexivity|].
  exists d. split; [exact A|exact B].
Qed.
