(** Properties C132 and C133: setting positive definite matrix parameters to their own free value, in IEEE-754 binary64 arithmetic. *)
From Coq Require Import Reals ZArith List Lra Lia.
From Flocq Require Import Core BinarySingleNaN.
From Verif Require Import Res Nd RSum SpecFloat SpecFloatSimplex SpecFloatAcc SpecFloatMatrix SpecFloatCholesky SpecFloatRefresh SpecFloatStack ModelFloat ModelMatrix ModelFloatMatrix ModelFloatStack SpecFloatReach
  LemmasFloat LemmasFloat3 LemmasFloat4 LemmasFloatSimplex4 LemmasFloatMatrix LemmasFloatMatrix2 LemmasFloatMatrix3 LemmasFloatMatrix6 LemmasFloatCholesky2 LemmasFloatCholesky3 LemmasFloatCholesky4 LemmasFloatStack
  LemmasFloatRefresh2 LemmasFloatRefresh3.
Require Import Verif.PropsFloat6.
Import List ListNotations.
Open Scope R_scope.
Set Bullet Behavior "Strict Subproofs".

(** ** C132: one matrix *)
(** whenever get_free returns free values with diagonal entries of at most 300, set_free accepts them, and the matrix moves little *)
Theorem C132_refresh : forall (fexp flog : dbl -> dbl), exp_good fexp -> log_good flog -> forall fdot, matmul_good fdot ->
  forall fchol, cholesky_good fchol -> cholesky_close fchol ->
  forall n, INR n <= bpow radix2 20 -> forall lb, bounded500 lb -> 0 <= B2R lb -> forall p, reachable fexp fdot n lb p -> tidy n lb (mget dzero (fposdef_get p)) ->
  forall w, fposdef_get_free flog fchol p = Ok w -> (forall i, (i < n)%nat -> Rabs (B2R (at_ld dzero w i i)) <= 300) ->
  exists p', fposdef_set_free fexp fdot p w = Ok p' /\ shape (fposdef_get p') = [n; n] /\
    near n lb (fun i => Rabs (B2R (at_ld dzero w i i))) (mget dzero (fposdef_get p)) (mget dzero (fposdef_get p')).
Proof. exact refresh. Qed.
Print Assumptions C132_refresh.
(** a matrix that is well inside the positive definite ones has free values, and setting them moves it little *)
Theorem C132_inside : forall (fexp flog : dbl -> dbl), exp_good fexp -> log_good flog -> forall fdot, matmul_good fdot ->
  forall fchol, cholesky_good fchol -> cholesky_close fchol ->
  forall n, INR n <= bpow radix2 20 -> forall lb, bounded500 lb -> 0 <= B2R lb -> forall p, reachable fexp fdot n lb p -> tidy n lb (mget dzero (fposdef_get p)) ->
  cholesky_succeeds fchol -> well_inside n lb (mget dzero (fposdef_get p)) ->
  exists w p', fposdef_get_free flog fchol p = Ok w /\ fposdef_set_free fexp fdot p w = Ok p' /\ calm_free n w /\ shape (fposdef_get p') = [n; n] /\
    near n lb (log_size lb (mget dzero (fposdef_get p))) (mget dzero (fposdef_get p)) (mget dzero (fposdef_get p')).
Proof. exact refresh_inside. Qed.
Print Assumptions C132_inside.

(** ** C133: vectors and arrays of matrices *)
Theorem C133_vector : forall (fexp flog : dbl -> dbl), exp_good fexp -> log_good flog -> forall fdot, matmul_good fdot ->
  forall fchol, cholesky_good fchol -> cholesky_close fchol -> cholesky_succeeds fchol ->
  forall p M, INR (fv_size p) <= bpow radix2 20 -> bounded500 (fv_lb p) -> 0 <= B2R (fv_lb p) -> (0 < fv_length p)%nat -> shape (fv_get p) = [fv_length p; fv_size p; fv_size p] ->
  (forall o, (o < fv_length p)%nat -> nd_index (fv_get p) [o] = Ok (M o) /\ shape (M o) = [fv_size p; fv_size p] /\ tidy (fv_size p) (fv_lb p) (mget dzero (M o)) /\ well_inside (fv_size p) (fv_lb p) (mget dzero (M o))) ->
  exists w p', fv_get_free flog fchol p = Ok w /\ fv_set_free fexp fdot p w = Ok p' /\ shape (fv_get p') = [fv_length p; fv_size p; fv_size p] /\
    forall o, (o < fv_length p)%nat -> exists m, nd_index (fv_get p') [o] = Ok m /\ near (fv_size p) (fv_lb p) (log_size (fv_lb p) (mget dzero (M o))) (mget dzero (M o)) (mget dzero m).
Proof. exact v_refresh. Qed.
Print Assumptions C133_vector.
Theorem C133_array : forall (fexp flog : dbl -> dbl), exp_good fexp -> log_good flog -> forall fdot, matmul_good fdot ->
  forall fchol, cholesky_good fchol -> cholesky_close fchol -> cholesky_succeeds fchol ->
  forall p M, INR (fa_size p) <= bpow radix2 20 -> bounded500 (fa_lb p) -> 0 <= B2R (fa_lb p) -> (0 < how_many (fa_ashape p))%nat ->
  (forall obs, valid_index (fa_ashape p) obs -> nd_index (fa_get p) obs = Ok (M (position (fa_ashape p) obs))) ->
  (forall o, (o < how_many (fa_ashape p))%nat -> shape (M o) = [fa_size p; fa_size p] /\ tidy (fa_size p) (fa_lb p) (mget dzero (M o)) /\ well_inside (fa_size p) (fa_lb p) (mget dzero (M o))) ->
  exists w p', fa_get_free flog fchol p = Ok w /\ fa_set_free fexp fdot p w = Ok p' /\ shape (fa_get p') = fa_ashape p ++ [fa_size p; fa_size p] /\
    forall obs, valid_index (fa_ashape p) obs -> exists m, nd_index (fa_get p') obs = Ok m /\
      let o := position (fa_ashape p) obs in near (fa_size p) (fa_lb p) (log_size (fa_lb p) (mget dzero (M o))) (mget dzero (M o)) (mget dzero m).
Proof. exact a_refresh. Qed.
Print Assumptions C133_array.

(** ** the hypotheses are met: the matrix [[2, 1], [1, 2]] with the bound 0 *)
Definition m2 : nd double := mk_mat 2 2 (fun i j => dint (if Nat.eqb i j then 2 else 1)).
Lemma m2_entry i j : (i < 2)%nat -> (j < 2)%nat -> mget dzero m2 i j = dint (if Nat.eqb i j then 2 else 1).
Proof. intros Hi Hj. destruct i as [|[|i]]; [| |lia]; (destruct j as [|[|j]]; [| |lia]); reflexivity. Qed.
Lemma dint0 : B2R (dint 0) = 0. Proof. apply dint_B2R. reflexivity. Qed.
Lemma dint1 : B2R (dint 1) = 1. Proof. apply dint_B2R. reflexivity. Qed.
Lemma dint2 : B2R (dint 2) = 2. Proof. apply dint_B2R. reflexivity. Qed.
Lemma m2_real i j : (i < 2)%nat -> (j < 2)%nat -> B2R (mget dzero m2 i j) = if Nat.eqb i j then 2 else 1.
Proof. intros Hi Hj. rewrite (m2_entry i j Hi Hj). destruct (Nat.eqb i j); [exact dint2|exact dint1]. Qed.
Lemma m2_tidy : tidy 2 (dint 0) (mget dzero m2).
Proof.
  intros i j Hi Hj. split; [|split; [|split]].
  - rewrite (m2_entry i j Hi Hj). destruct (Nat.eqb i j); reflexivity.
  - rewrite (m2_entry i j Hi Hj), (m2_entry j i Hj Hi), Nat.eqb_sym. reflexivity.
  - rewrite (m2_real i j Hi Hj). apply Rle_trans with (bpow radix2 1); [change (bpow radix2 1) with 2|apply bpow_le; lia]. destruct (Nat.eqb i j); rewrite Rabs_pos_eq; lra.
  - rewrite (m2_real i i Hi Hi), Nat.eqb_refl, dint0, Rminus_0_r. change 2 with (bpow radix2 1). apply bpow_le. lia.
Qed.
Lemma m2_root i : (i < 2)%nat -> diag_root (dint 0) (mget dzero m2) i = sqrt 2.
Proof. intros Hi. unfold diag_root. rewrite (m2_real i i Hi Hi), Nat.eqb_refl, dint0, Rminus_0_r. reflexivity. Qed.
Lemma root2 : 1 <= sqrt 2 <= 3 / 2 /\ sqrt 2 * sqrt 2 = 2.
Proof.
  split; [split|apply sqrt_sqrt; lra].
  - rewrite <- sqrt_1 at 1. apply sqrt_le_1_alt. lra.
  - rewrite <- (sqrt_square (3 / 2)) by lra. apply sqrt_le_1_alt. lra.
Qed.
Lemma m2_inside : well_inside 2 (dint 0) (mget dzero m2).
Proof.
  intros y [i [Hi Y]]. cbn [rsum Nat.eqb]. rewrite !m2_root by lia. rewrite !m2_real by lia. cbn [Nat.eqb]. rewrite dint0, eps2. destruct root2 as [_ Q].
  set (a := y 0%nat). set (b := y 1%nat). assert (P : 0 < a * a + b * b).
  { destruct i as [|[|i]]; [| |lia]; fold a in Y; fold b in Y; [assert (0 < a * a) by nra|assert (0 < b * b) by nra]; nra. }
  pose proof (Rabs_pos a). pose proof (Rabs_pos b). assert (A : Rabs a * Rabs a = a * a) by (rewrite <- Rabs_mult; apply Rabs_pos_eq; nra). assert (B : Rabs b * Rabs b = b * b) by (rewrite <- Rabs_mult; apply Rabs_pos_eq; nra).
  replace ((0 + sqrt 2 * Rabs a + sqrt 2 * Rabs b) ^ 2) with (2 * (Rabs a + Rabs b) ^ 2) by (rewrite <- Q at 1; ring).
  assert (X : (Rabs a + Rabs b) ^ 2 <= 2 * (a * a + b * b)) by (pose proof (Rle_0_sqr (Rabs a - Rabs b)) as Z; unfold Rsqr in Z; nra). pose proof (Rle_0_sqr (a + b)) as Z. unfold Rsqr in Z. nra.
Qed.
Lemma m2_moved i j : (i < 2)%nat -> (j < 2)%nat -> moved 2 (B2R (dint 0)) (diag_root (dint 0) (mget dzero m2)) (log_size (dint 0) (mget dzero m2)) i j <= bpow radix2 (-38).
Proof.
  intros Hi Hj. unfold moved, log_size. rewrite !m2_root by assumption. rewrite dint0, eps2, Rmult_0_r. destruct root2 as [Q1 Q2]. set (s := sqrt 2) in *.
  assert (L : Rabs (ln s) <= 1 / 2).
  { assert (0 <= ln s) by (rewrite <- ln_1; destruct (proj1 Q1) as [H|<-]; [left; apply ln_increasing; lra|right; reflexivity]).
    assert (ln s <= s - 1) by (pose proof (exp_ineq1_le (ln s)) as E; rewrite exp_ln in E by lra; lra). rewrite Rabs_pos_eq; lra. }
  set (d := 20 + Rabs (ln s)). assert (D : 20 <= d <= 41 / 2) by (unfold d; pose proof (Rabs_pos (ln s)); lra).
  assert (T : bpow radix2 (-1000) <= / 9007199254740992) by (change (/ 9007199254740992) with (bpow radix2 (-53)); apply bpow_le; lia).
  assert (V : (if Nat.eqb i j then 0 else 0) = 0) by (destruct (Nat.eqb i j); reflexivity). rewrite V. change (bpow radix2 (-38)) with (/ 274877906944).
  assert (S1 : s * d <= 3 / 2 * (41 / 2)) by (apply Rmult_le_compat; lra). assert (S2 : s * s * (2 + d + d + s + s) <= 2 * 46) by (rewrite Q2; lra). assert (S3 : d * d <= 41 / 2 * (41 / 2)) by (apply Rmult_le_compat; lra).
  replace (d * s) with (s * d) by ring. lra.
Qed.
Lemma base2 : INR 2 <= bpow radix2 20 /\ bounded500 (dint 0) /\ 0 <= B2R (dint 0).
Proof. split; [change (INR 2) with (bpow radix2 1); apply bpow_le; lia|]. split; [split; [reflexivity|rewrite dint0, Rabs_R0; apply bpow_ge_0]|rewrite dint0; lra]. Qed.
(** each entry of the matrix moves by at most 2^-38 *)
Example C132_example : exists p w p', fposdef_init 2 (dint 0) (Some m2) = Ok p /\ fposdef_get p = m2 /\ fposdef_get_free ideal_log textbook_cholesky p = Ok w /\ fposdef_set_free ideal_exp (fun _ _ => seq_dot) p w = Ok p' /\
  forall i j, (i < 2)%nat -> (j < 2)%nat -> Rabs (B2R (mget dzero (fposdef_get p') i j) - (if Nat.eqb i j then 2 else 1)) <= bpow radix2 (-38).
Proof.
  destruct base2 as (H1 & H2 & H3). assert (I : fposdef_init 2 (dint 0) (Some m2) = Ok (mkFP 2 (dint 0) m2)).
  { unfold fposdef_init, rassert. rewrite (nonneg_fle (dint 0) (proj1 H2) H3). apply (fposdef_set_spec (mkFP 2 (dint 0) m2) m2 2 eq_refl eq_refl).
    intros i j Hi Hj. destruct (m2_tidy i j Hi Hj) as (F & E & _). replace (mget f_zero m2 j i) with (mget f_zero m2 i j) by exact E. apply feq_self. apply finite_number. exact F. }
  destruct (C132_inside ideal_exp ideal_log ideal_exp_good ideal_log_good _ seq_dot_good _ textbook_cholesky_good textbook_cholesky_close 2 H1 (dint 0) H2 H3 (mkFP 2 (dint 0) m2) (r_init _ _ _ _ _ _ I) m2_tidy textbook_cholesky_succeeds m2_inside) as (w & p' & G & S & _ & _ & N).
  exists (mkFP 2 (dint 0) m2), w, p'. split; [exact I|]. split; [reflexivity|]. split; [exact G|]. split; [exact S|]. intros i j Hi Hj. destruct (N i j Hi Hj) as (_ & _ & K). rewrite <- (m2_real i j Hi Hj).
  eapply Rle_trans; [exact K|exact (m2_moved i j Hi Hj)].
Qed.
(** an array of shape (2, 1) and a vector of length 2 that hold this matrix twice *)
Definition q21 : fposdef_array := mkFA [2%nat; 1%nat] 2 (dint 0) (Nd [2; 1; 2; 2]%nat (data m2 ++ data m2)).
Definition q2 : fposdef_vector := mkFV 2 2 (dint 0) (Nd [2; 2; 2]%nat (data m2 ++ data m2)).
Lemma stack2 o : (o < 2)%nat -> shape m2 = [2%nat; 2%nat] /\ tidy 2 (dint 0) (mget dzero m2) /\ well_inside 2 (dint 0) (mget dzero m2).
Proof. intros _. exact (conj eq_refl (conj m2_tidy m2_inside)). Qed.
Example C133_example_vector : exists w p', fv_get_free ideal_log textbook_cholesky q2 = Ok w /\ fv_set_free ideal_exp (fun _ _ => seq_dot) q2 w = Ok p' /\
  forall o, (o < 2)%nat -> exists m, nd_index (fv_get p') [o] = Ok m /\ near 2 (dint 0) (log_size (dint 0) (mget dzero m2)) (mget dzero m2) (mget dzero m).
Proof.
  destruct base2 as (H1 & H2 & H3).
  destruct (C133_vector ideal_exp ideal_log ideal_exp_good ideal_log_good _ seq_dot_good _ textbook_cholesky_good textbook_cholesky_close textbook_cholesky_succeeds q2 (fun _ => m2) H1 H2 H3 ltac:(cbn; lia) eq_refl) as (w & p' & G & S & _ & N).
  - intros o Ho. split; [destruct o as [|[|o]]; [reflexivity|reflexivity|cbn in Ho; lia]|exact (stack2 o Ho)].
  - exists w, p'. split; [exact G|]. split; [exact S|exact N].
Qed.
Example C133_example : exists w p', fa_get_free ideal_log textbook_cholesky q21 = Ok w /\ fa_set_free ideal_exp (fun _ _ => seq_dot) q21 w = Ok p' /\
  forall o, (o < 2)%nat -> exists m, nd_index (fa_get p') [o; 0%nat] = Ok m /\ near 2 (dint 0) (log_size (dint 0) (mget dzero m2)) (mget dzero m2) (mget dzero m).
Proof.
  destruct base2 as (H1 & H2 & H3).
  destruct (C133_array ideal_exp ideal_log ideal_exp_good ideal_log_good _ seq_dot_good _ textbook_cholesky_good textbook_cholesky_close textbook_cholesky_succeeds q21 (fun _ => m2) H1 H2 H3 ltac:(cbn; lia)) as (w & p' & G & S & _ & N).
  - intros obs V. cbn [fa_ashape q21] in V. inversion V as [|a ? l ? Ha Vl]; subst. inversion Vl as [|b ? l2 ? Hb Vn]; subst. inversion Vn; subst. replace b with 0%nat by lia. destruct a as [|[|a]]; [reflexivity|reflexivity|lia].
  - exact stack2.
  - exists w, p'. split; [exact G|]. split; [exact S|]. intros o Ho. apply (N [o; 0%nat]). apply List.Forall2_cons; [exact Ho|]. apply List.Forall2_cons; [apply Nat.lt_0_1|apply List.Forall2_nil].
Qed.
