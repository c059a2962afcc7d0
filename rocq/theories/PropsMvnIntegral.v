(** C116: the multivariate normal formulas of ExponentialFamilies.py and NormalParams.py as integrals against the multivariate normal density
    (SpecIntegral.v: iterated improper Riemann integrals, in whatever order the coordinates are integrated). *)
From Coq Require Import String Reals List Arith Lia Lra.
From Coquelicot Require Import Coquelicot.
From Verif Require Import Res Num Nd RSum ModelParameters ModelMatrix ModelDict ModelNumpy ModelExpFam ModelFamilies SpecMatrix SpecExpFam SpecFamilies SpecIntegral LemmasPosDef LemmasNumpy LemmasExpFam LemmasFamilies LemmasSpace PropsFamilies.
Import List ListNotations.
Open Scope R_scope.

(** C116: the density has total mass one, and an expectation has at most one value *)
Theorem C116_density : forall n m L, symmetric n L -> posdef n L -> nexpects n (mvn_pdf n m L) (fun _ => 1) 1.
Proof. exact mvn_total. Qed.
Print Assumptions C116_density.
Theorem C116_unique : forall n p f v w, nexpects n p f v -> nexpects n p f w -> v = w.
Proof. exact nexpects_unique. Qed.
Print Assumptions C116_unique.

(** C116: MVNParam *)
Theorem C116_class : forall inv slogdet d n m L, slogdet_contract slogdet -> holds d "mean" (fvec_of n m) -> holds d "info" (fmat n L) -> symmetric n L -> posdef n L -> inverts inv n L ->
  exists C E h, mvn_e d = Ok (fvec_of n m) /\ mvn_cov inv d = Ok (fmat n C) /\ mvn_e_outer inv d = Ok (fmat n E) /\ mvn_entropy slogdet d = Ok (fnum h) /\
    (forall i, (i < n)%nat -> nexpects n (mvn_pdf n m L) (fun x => x i) (m i)) /\
    (forall i j, (i < n)%nat -> (j < n)%nat -> nexpects n (mvn_pdf n m L) (fun x => (x i - m i) * (x j - m j)) (C i j) /\ nexpects n (mvn_pdf n m L) (fun x => x i * x j) (E i j)) /\
    nexpects n (mvn_pdf n m L) (fun x => - ln (mvn_pdf n m L x)) h.
Proof. exact mvn_integrals. Qed.
Print Assumptions C116_class.

(** C116: the functions. mvn_prior leaves out the normaliser of the prior *)
Theorem C116_entropy : forall slogdet n L, slogdet_contract slogdet -> symmetric n L -> posdef n L ->
  exists h, multivariate_normal_entropy slogdet (fmat n L) = Ok (fnum h) /\ forall m, nexpects n (mvn_pdf n m L) (fun x => - ln (mvn_pdf n m L x)) h.
Proof. exact mvn_entropy_integral. Qed.
Print Assumptions C116_entropy.
Theorem C116_prior : forall n m0 L0 m L C, symmetric n L0 -> symmetric n L -> posdef n L -> inverse_of n L C ->
  exists r, mvn_prior (fvec_of n m0) (fmat n L0) (fvec_of n m) (fmat n C) = Ok (fnum r) /\ nexpects n (mvn_pdf n m L) (fun x => ln (mvn_pdf n m0 L0 x)) (r - mvn_log_norm n L0).
Proof. exact mvn_prior_integral. Qed.
Print Assumptions C116_prior.

(** the default parameter is a standard normal; a correlated information matrix meets the hypotheses too *)
Example C116_nonvacuous : exists d, mvn_init "m" 2 (Fin 0) = Ok d /\ holds d "mean" (fvec_of 2 (fun _ => 0)) /\ holds d "info" (fmat 2 delta) /\ symmetric 2 delta /\ posdef 2 delta /\ inverts (fun a => Ok a) 2 delta.
Proof.
  destruct C84_nonvacuous as [d [E [H1 [H2 [S I]]]]]. exists d. repeat split; try assumption. intros x [i [Hi N]]. unfold quad, delta. cbn. destruct i as [|[|i]]; [| |lia]; nra.
Qed.
Example C116_correlated : let L := fun i j => if Nat.eqb i j then 2 else 1 in let C := fun i j => if Nat.eqb i j then 2 / 3 else - / 3 in
  symmetric 2 L /\ posdef 2 L /\ inverse_of 2 L C /\ nexpects 2 (mvn_pdf 2 (fun _ => 5) L) (fun x => (x 0%nat - 5) * (x 1%nat - 5)) (- / 3).
Proof.
  intros L C. assert (S : symmetric 2 L) by (intros [|[|i]] [|[|j]] Hi Hj; try lia; reflexivity).
  assert (P : posdef 2 L) by (intros x [i [Hi N]]; unfold quad, L; cbn; replace (0 + (0 + x 0%nat * 2 * x 0%nat + x 0%nat * 1 * x 1%nat) + (0 + x 1%nat * 1 * x 0%nat + x 1%nat * 2 * x 1%nat)) with (x 0%nat * x 0%nat + x 1%nat * x 1%nat + (x 0%nat + x 1%nat) * (x 0%nat + x 1%nat)) by ring; pose proof (Rle_0_sqr (x 0%nat + x 1%nat)); pose proof (Rle_0_sqr (x 0%nat)); pose proof (Rle_0_sqr (x 1%nat)); unfold Rsqr in *; destruct i as [|[|i]]; [pose proof (Rsqr_pos_lt _ N)|pose proof (Rsqr_pos_lt _ N)|lia]; unfold Rsqr in *; lra).
  assert (I : inverse_of 2 L C) by (intros [|[|i]] [|[|j]] Hi Hj; try lia; unfold L, C, delta; cbn; lra).
  split; [exact S|]. split; [exact P|]. split; [exact I|]. exact (mvn_covariance 2 (fun _ => 5) L C 0 1 S P I ltac:(lia) ltac:(lia)).
Qed.
