(** Property C148: the log expectation and the entropy of gamma variables in double precision. *)
From Coq Require Import Reals ZArith List Lra Lia Bool String.
From Flocq Require Import Core BinarySingleNaN.
From Verif Require Import Res Nd RSum ModelNumpy ModelFloat ModelFloatDict ModelFloatFamilies ModelFloatLogit ModelFloatGamma SpecFloat SpecFloatSimplex SpecFloatAcc SpecFloatMatrix SpecFloatGamma
  LemmasNumpy LemmasFloat LemmasFloat2 LemmasFloat3 LemmasFloat4 LemmasFloatSimplex LemmasFloatSimplex2 LemmasFloatSimplex4 LemmasFloatAcc LemmasFloatAcc2 LemmasFloatFam LemmasFloatFam7 LemmasFloatPrior2 LemmasFloatGamma PropsFloat15.
From Verif Require Import SpecFloatFam.
Import List ListNotations.
Set Bullet Behavior "Strict Subproofs".
Open Scope R_scope.

(** get_e_log_gamma() and GammaParam.e_log(): finite, and close to psi(shape) - ln(rate), where psi is the function that the library's digamma computes *)
Theorem C148_e_log : forall flog fpsi psi, log_good flog -> computes fpsi psi -> forall s shp rate, proper s shp -> proper s rate ->
  (forall k, (k < nprod s)%nat -> fair_arg (entry shp k) /\ is_finite (entry rate k) = true /\ 0 < B2R (entry rate k)) ->
  exists e, f_get_e_log_gamma flog fpsi shp rate = Ok e /\ (forall d, f_member d "shape" = Ok shp -> f_member d "rate" = Ok rate -> fgp_e_log flog fpsi d = Ok e) /\ proper s e /\
    forall k, (k < nprod s)%nat -> let a := B2R (entry shp k) in let b := B2R (entry rate k) in
      is_finite (entry e k) = true /\ Rabs (B2R (entry e k) - (psi a - ln b)) <= units 74 * (1 + Rabs (psi a) + Rabs (ln b)).
Proof.
  intros flog fpsi psi Hl Hp s a b Pa Pb H. destruct (e_log_array flog fpsi s a b Pa Pb) as (e & E & Pe & K). exists e. split; [exact E|]. split; [|split; [exact Pe|]].
  - intros d Ea Eb. unfold fgp_e_log. rewrite Ea. cbn [rbind]. rewrite Eb. exact E.
  - intros k Hk. cbv zeta. destruct (H k Hk) as (A & B & C). rewrite (K k Hk), units_u. exact (e_log_entry flog fpsi psi Hl Hp (entry a k) (entry b k) A B C).
Qed.
Print Assumptions C148_e_log.
(** gamma_entropy() and GammaParam.entropy(): one finite number, the sum of the entropies up to 90 + 3n units of the sizes of their terms *)
Theorem C148_entropy : forall flog fpsi flgam fsum psi lgam, log_good flog -> computes fpsi psi -> computes flgam lgam -> sums fsum -> forall s shp rate, proper s shp -> proper s rate -> INR (nprod s) <= bpow radix2 20 ->
  (forall k, (k < nprod s)%nat -> fair_arg (entry shp k) /\ is_finite (entry rate k) = true /\ 0 < B2R (entry rate k)) ->
  exists h, f_gamma_entropy flog fpsi flgam fsum shp rate = Ok (nd_scalar h) /\ (forall d, f_member d "shape" = Ok shp -> f_member d "rate" = Ok rate -> fgp_entropy flog fpsi flgam fsum d = Ok (nd_scalar h)) /\ is_finite h = true /\
    let n := nprod s in let a k := B2R (entry shp k) in let b k := B2R (entry rate k) in
    Rabs (B2R h - rsum n (fun k => gamma_entropy_of lgam psi (a k) (b k))) <= units (90 + 3 * INR n) * rsum n (fun k => gamma_entropy_size lgam psi (a k) (b k)).
Proof.
  intros flog fpsi flgam fsum psi lgam Hl Hp Hg Hs s a b Pa Pb Hn H. pose proof (entropy_array flog fpsi flgam fsum s a b Pa Pb) as E. eexists. split; [exact E|]. split.
  - intros d Ea Eb. unfold fgp_entropy. rewrite Ea. cbn [rbind]. rewrite Eb. exact E.
  - destruct (entropy_sum flog fpsi flgam psi lgam Hl Hp Hg fsum Hs (nprod s) (entry a) (entry b) Hn H) as [F B]. split; [exact F|]. cbv zeta. rewrite units_u. exact B.
Qed.
Print Assumptions C148_entropy.

(** ** the hypotheses are met: a library function that computes ln stands for digamma and log gamma *)
Lemma log_computes flog : log_good flog -> computes flog ln.
Proof.
  intros Hl x [F [L _]]. assert (P : 0 < B2R x) by (pose proof (bpow_gt_0 radix2 (-100)); lra). destruct (log_value flog Hl x F P) as (Fl & B & E). split; [apply Rle_trans with (bpow radix2 10); [change (bpow radix2 10) with 1024; lra|apply bpow_le; lia]|]. split; [exact Fl|].
  rewrite units_u. pose proof u_pos. pose proof (Rabs_pos (ln (B2R x))). apply Rle_trans with (1 := E). apply Rmult_le_compat_r; lra.
Qed.
Definition ex_shp : nd dbl := Nd [2%nat] [dint 3; dint 1000].
Definition ex_rt : nd dbl := Nd [2%nat] [@B754_finite 53 1024 false 1 (-1074) eq_refl; dint 7].
Lemma ex_gamma_ok k : (k < nprod [2%nat])%nat -> fair_arg (entry ex_shp k) /\ is_finite (entry ex_rt k) = true /\ 0 < B2R (entry ex_rt k).
Proof.
  intros Hk. rewrite nprod_1 in Hk. assert (b0 : bpow radix2 (-100) <= 1) by (change 1 with (bpow radix2 0); apply bpow_le; lia). assert (b1 : 1024 <= bpow radix2 100) by (change 1024 with (bpow radix2 10); apply bpow_le; lia).
  destruct k as [|[|k]]; [| |lia]; unfold entry; cbn [nth data ex_shp ex_rt]; (split; [split; [reflexivity|rewrite dint_B2R by reflexivity; lra]|]); (split; [reflexivity|]).
  - cbn [B2R]. apply F2R_gt_0. reflexivity.
  - rewrite dint_B2R by reflexivity. lra.
Qed.
Example C148_e_log_example : exists e, f_get_e_log_gamma ideal_log ideal_log ex_shp ex_rt = Ok e /\ Rabs (B2R (entry e 1) - (ln 1000 - ln 7)) <= units 74 * (1 + Rabs (ln 1000) + Rabs (ln 7)).
Proof.
  destruct (C148_e_log ideal_log ideal_log ln ideal_log_good (log_computes _ ideal_log_good) [2%nat] ex_shp ex_rt) as (e & E & _ & _ & K); try (split; reflexivity); [exact ex_gamma_ok|]. exists e. split; [exact E|]. destruct (K 1%nat) as [_ B]; [rewrite nprod_1; lia|]. cbv zeta in B. unfold entry in B at 2 3 4 5. cbn [nth data ex_shp ex_rt] in B. rewrite !dint_B2R in B by reflexivity. exact B.
Qed.
Example C148_entropy_example : exists h, f_gamma_entropy ideal_log ideal_log ideal_log add_in_order ex_shp ex_rt = Ok (nd_scalar h) /\ is_finite h = true.
Proof.
  destruct (C148_entropy ideal_log ideal_log ideal_log add_in_order ln ln ideal_log_good (log_computes _ ideal_log_good) (log_computes _ ideal_log_good) add_in_order_sums [2%nat] ex_shp ex_rt) as (h & E & _ & F & _); try (split; reflexivity); [rewrite nprod_1; cbn; lra|exact ex_gamma_ok|]. exists h. split; [exact E|exact F].
Qed.
