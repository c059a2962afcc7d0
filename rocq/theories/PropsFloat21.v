(** Property C149: the log expectation of Dirichlet variables in double precision. *)
From Coq Require Import Reals ZArith List Lra Lia Bool String.
From Flocq Require Import Core BinarySingleNaN.
From Verif Require Import Res Nd RSum ModelNumpy ModelFloat ModelFloatDict ModelFloatFamilies ModelFloatDirichlet SpecFloat SpecFloatSimplex SpecFloatAcc SpecFloatMatrix SpecFloatGamma SpecFloatDirichlet
  LemmasNumpy LemmasFloat LemmasFloat2 LemmasFloat3 LemmasFloat4 LemmasFloatSimplex LemmasFloatSimplex2 LemmasFloatSimplex4 LemmasFloatAcc LemmasFloatAcc2 LemmasFloatFam LemmasFloatFam7 LemmasFloatFam6 LemmasFloatDirichlet PropsFloat15 PropsFloat20.
From Verif Require Import SpecFloatFam.
Import List ListNotations.
Set Bullet Behavior "Strict Subproofs".
Open Scope R_scope.

(** get_e_log_dirichlet() and DirichletParamArray.e_log(): an array of the shape of alpha; row i, column j holds psi(alpha_ij) - psi(sum of column j), up to 131 + 8n units *)
Theorem C149_e_log : forall fpsi psi fsum, computes fpsi psi -> steady psi -> sums fsum -> forall n s alpha, proper (n :: s) alpha -> INR n <= bpow radix2 20 -> (forall k, (k < nprod (n :: s))%nat -> fair_alpha (entry alpha k)) ->
  exists e, f_get_e_log_dirichlet fpsi fsum alpha = Ok e /\ (forall d, f_member d "alpha" = Ok alpha -> fdp_e_log fpsi fsum d = Ok e) /\ proper (n :: s) e /\
    forall i j, (i < n)%nat -> (j < nprod s)%nat -> let a r := B2R (entry alpha (r * nprod s + j)) in let total := rsum n a in
      is_finite (entry e (i * nprod s + j)) = true /\
      Rabs (B2R (entry e (i * nprod s + j)) - (psi (a i) - psi total)) <= units (131 + 8 * INR n) * (1 + Rabs (psi (a i)) + Rabs (psi total) + / total).
Proof.
  intros fpsi psi fsum Hp Hc Hs n s a Pa Hn Ha. destruct (e_log_dirichlet_array fpsi fsum n s a Pa) as (e & E & Pe & K). exists e. split; [exact E|]. split; [intros d Ed; unfold fdp_e_log; rewrite Ed; exact E|]. split; [exact Pe|].
  intros i j Hi Hj. cbv zeta. rewrite (K i j Hi Hj), units_u. apply (e_log_dirichlet_entry fpsi psi Hp Hc fsum Hs n (fun r => entry a (r * nprod s + j)) i Hn Hi). intros k Hk. apply Ha. rewrite nprod_cons. apply LemmasFloatFam6.block_lt; assumption.
Qed.
Print Assumptions C149_e_log.

(** ** the hypotheses are met: a library function that computes ln stands for digamma *)
Lemma ln_steady : steady ln.
Proof.
  intros x y g X G H. pose proof (Rinv_0_lt_compat x X) as I. destruct (ln_ratio y x g X ltac:(lra) H) as [_ L]. assert (0 <= g * / x) by (apply Rmult_le_pos; lra). lra.
Qed.
Definition ex_alpha : nd dbl := Nd [2%nat; 3%nat] [dint 3; dint 1000; dint 1; dint 5; dint 24; dint 8].
Lemma ex_alpha_ok k : (k < nprod [2%nat; 3%nat])%nat -> fair_alpha (entry ex_alpha k).
Proof.
  intros Hk. rewrite nprod_cons, nprod_1 in Hk. assert (b0 : bpow radix2 (-99) <= 1) by (change 1 with (bpow radix2 0); apply bpow_le; lia). assert (b1 : 1024 <= bpow radix2 79) by (change 1024 with (bpow radix2 10); apply bpow_le; lia).
  do 6 (destruct k as [|k]; [unfold entry; cbn [nth data ex_alpha]; split; [reflexivity|rewrite dint_B2R by reflexivity; lra]|]). lia.
Qed.
(** row 1, column 1: 24 out of 1000 + 24 *)
Example C149_e_log_example : exists e, f_get_e_log_dirichlet ideal_log add_in_order ex_alpha = Ok e /\ Rabs (B2R (entry e 4) - (ln 24 - ln 1024)) <= units 147 * (1 + Rabs (ln 24) + Rabs (ln 1024) + / 1024).
Proof.
  destruct (C149_e_log ideal_log ln add_in_order (log_computes _ ideal_log_good) ln_steady add_in_order_sums 2 [3%nat] ex_alpha) as (e & E & _ & _ & K); [split; reflexivity|cbn; lra|exact ex_alpha_ok|]. exists e. split; [exact E|].
  destruct (K 1%nat 1%nat) as [_ B]; [lia|rewrite nprod_1; lia|]. cbv zeta in B. rewrite nprod_1 in B. change (1 * 3 + 1)%nat with 4%nat in B.
  replace (rsum 2 (fun r => B2R (entry ex_alpha (r * 3 + 1)))) with 1024 in B by (unfold entry; cbn [rsum nth data ex_alpha Nat.mul Nat.add]; rewrite !dint_B2R by reflexivity; lra).
  replace (B2R (entry ex_alpha 4)) with 24 in B by (unfold entry; cbn [nth data ex_alpha]; rewrite dint_B2R by reflexivity; reflexivity).
  replace (131 + 8 * INR 2) with 147 in B by (cbn; lra). exact B.
Qed.
