(** Property C147: the normal and Dirichlet priors of vectors in double precision. *)
From Coq Require Import Reals ZArith List Lra Lia Bool.
From Flocq Require Import Core BinarySingleNaN.
From Verif Require Import Res Nd RSum ModelNumpy ModelFloat ModelFloatFamilies ModelFloatLogit ModelFloatMatrix ModelFloatPrior ModelFloatPrior2 SpecFloat SpecFloatSimplex SpecFloatAcc SpecFloatMatrix SpecFloatPrior SpecFloatPrior2
  LemmasPosDef LemmasNumpy LemmasFloat LemmasFloat2 LemmasFloat3 LemmasFloat4 LemmasFloatSimplex LemmasFloatSimplex2 LemmasFloatSimplex4 LemmasFloatMatrix6 LemmasFloatAcc LemmasFloatAcc2 LemmasFloatFam LemmasFloatFam7 LemmasFloatPrior LemmasFloatPrior2 PropsFloat15 PropsFloat17.
From Verif Require Import SpecFloatFam.
Import List ListNotations.
Set Bullet Behavior "Strict Subproofs".
Open Scope R_scope.

Lemma tab_ext n f g : (forall k, (k < n)%nat -> f k = g k) -> tab n f = tab n g.
Proof. intros H. apply map_ext_in. intros k Hk. apply in_seq in Hk. apply H. lia. Qed.
Lemma row_tab n (P : nd dbl) i : proper [n; n] P -> f_row n P i = tab n (fun j => entry P (i * n + j)).
Proof. destruct P as [sp dp]. intros [S _]. cbn in S. subst sp. reflexivity. Qed.
Lemma col_tab n (P : nd dbl) j : proper [n; n] P -> f_col n P j = tab n (fun i => entry P (i * n + j)).
Proof. destruct P as [sp dp]. intros [S _]. cbn in S. subst sp. reflexivity. Qed.
Lemma scalars op (x y : dbl) : f_bin op (nd_scalar x) (nd_scalar y) = Ok (nd_scalar (op x y)).
Proof. reflexivity. Qed.
Lemma mvn_array fdot fsum n pm P e C : proper [n] pm -> proper [n] e -> proper [n; n] P -> proper [n; n] C ->
  let d i := fsub (entry e i) (entry pm i) in
  let q := fdot (tab n d) (tab n (fun i => fdot (tab n (fun j => entry P (i * n + j))) (tab n d))) in let t := fsum (tab n (fun i => fdot (tab n (fun j => entry P (i * n + j))) (tab n (fun j => entry C (j * n + i))))) in
  f_mvn_prior fdot fsum pm P e C = Ok (nd_scalar (fmul f_mhalf (fadd q t))).
Proof.
  intros Hm He HP HC d q t. destruct (bin_same fsub [n] e pm He Hm) as (D & ED & PD & KD). rewrite nprod_1 in KD. assert (DT : @data dbl D = tab n d) by (etransitivity; [exact (tab_data n D PD)|apply tab_ext; exact KD]). assert (SD : @shape dbl D = [n]) by exact (proj1 PD).
  unfold f_mvn_prior. etransitivity; [exact (f_equal (fun r => rbind r _) ED)|]. cbn [rbind]. assert (SP : @shape dbl P = [n; n]) by exact (proj1 HP). assert (SC : @shape dbl C = [n; n]) by exact (proj1 HC).
  assert (E1 : f_np_matmul fdot P D = Ok (Nd [n] (tab n (fun i => fdot (tab n (fun j => entry P (i * n + j))) (tab n d))))).
  { unfold f_np_matmul, f_np_dot. rewrite SP, SD, Nat.eqb_refl, DT. do 2 f_equal. apply tab_ext. intros i _. rewrite (row_tab n P i HP). reflexivity. }
  rewrite E1. cbn [rbind]. assert (E2 : f_np_dot fdot D (Nd [n] (tab n (fun i => fdot (tab n (fun j => entry P (i * n + j))) (tab n d)))) = Ok (nd_scalar q)) by (unfold f_np_dot; rewrite SD, DT; cbn [shape data]; rewrite Nat.eqb_refl; reflexivity).
  rewrite E2. cbn [rbind]. assert (E3 : f_np_matmul fdot P C = Ok (mk_mat n n (fun i j => fdot (f_row n P i) (f_col n C j)))) by (unfold f_np_matmul, f_np_dot; rewrite SP, SC, Nat.eqb_refl; reflexivity).
  rewrite E3. cbn [rbind]. assert (E4 : f_np_trace fsum (mk_mat n n (fun i j => fdot (f_row n P i) (f_col n C j))) = Ok (nd_scalar t)).
  { unfold f_np_trace. cbn [shape mk_mat]. rewrite Nat.min_id. apply (f_equal (fun l => Ok (nd_scalar (fsum l)))). apply tab_ext. intros i Hi. etransitivity; [apply mget_mk_mat; exact Hi|]. rewrite (row_tab n P i HP), (col_tab n C i HC). reflexivity. }
  rewrite E4. cbn [rbind]. rewrite (scalars fadd q t). cbn [rbind]. apply scalars.
Qed.

(** mvn_prior(): finite, and within (5n + 4) units of -((e - m)' P (e - m) + tr(P C)) / 2 relative to the same number computed with absolute values *)
Theorem C147_multivariate_normal : forall fdot fsum, dot_good fdot -> sums fsum -> forall n prior_mean prior_info e_obs cov_obs, INR n <= bpow radix2 20 ->
  proper [n] prior_mean -> proper [n; n] prior_info -> proper [n] e_obs -> proper [n; n] cov_obs ->
  (forall i, (i < n)%nat -> sized 100 (entry prior_mean i) /\ sized 100 (entry e_obs i)) -> (forall k, (k < n * n)%nat -> sized 100 (entry prior_info k) /\ sized 100 (entry cov_obs k)) ->
  exists p, f_mvn_prior fdot fsum prior_mean prior_info e_obs cov_obs = Ok (nd_scalar p) /\ is_finite p = true /\
    let d i := B2R (entry e_obs i) - B2R (entry prior_mean i) in let P := cell n prior_info in let C := cell n cov_obs in
    Rabs (B2R p - - / 2 * (quad_form n P d + trace_prod n P C)) <= units (5 * INR n + 4) * prior_size n P C d + (INR n + 1) * bpow radix2 (-900).
Proof.
  intros fdot fsum Hd Hs n pm P e C Hn Pm PP Pe PC Hv HM. eexists. split; [apply (mvn_array fdot fsum n pm P e C Pm Pe PP PC)|]. 
  destruct (mvn_core fdot Hd n Hn fsum Hs (entry pm) (entry e) (fun i j => entry P (i * n + j)) (fun i j => entry C (i * n + j)) Hv) as [F E].
  { intros i j Hi Hj. apply HM. nia. }
  split; [exact F|]. cbv zeta. rewrite units_u. cbv zeta in E. match goal with |- Rabs (?r - - / 2 * ?s) <= _ => replace (r - - / 2 * s) with (r + s / 2) by field end. exact E.
Qed.
Print Assumptions C147_multivariate_normal.
(** an information matrix whose number of columns is not the dimension of the observation, or that cannot be multiplied with the covariance, is refused *)
Theorem C147_multivariate_normal_shapes : forall fdot fsum n r k r' k' prior_mean prior_info e_obs cov_obs, proper [n] prior_mean -> proper [n] e_obs -> shape prior_info = [r; k] -> shape cov_obs = [r'; k'] ->
  k <> n \/ r <> n \/ r' <> n -> f_mvn_prior fdot fsum prior_mean prior_info e_obs cov_obs = Raise ValueError.
Proof.
  intros fdot fsum n r k r' k' pm P e C Hm He SP SC H. destruct (bin_same fsub [n] e pm He Hm) as (D & ED & PD & _). assert (SD : @shape dbl D = [n]) by exact (proj1 PD). change (@shape dbl P = [r; k]) in SP. change (@shape dbl C = [r'; k']) in SC. unfold f_mvn_prior. etransitivity; [exact (f_equal (fun r => rbind r _) ED)|]. cbn [rbind]. unfold f_np_matmul, f_np_dot at 1. rewrite SP, SD.
  destruct (Nat.eqb_spec k n) as [->|N1]; [|reflexivity]. cbn [rbind]. unfold f_np_dot at 1. rewrite SD. cbn [shape]. destruct (Nat.eqb_spec n r) as [->|N2]; [|reflexivity]. cbn [rbind]. rewrite SC. unfold f_np_dot. rewrite SP, SC. destruct (Nat.eqb_spec r r') as [->|N3]; [|reflexivity]. exfalso. lia.
Qed.
Print Assumptions C147_multivariate_normal_shapes.
(** dirichlet_prior() of vectors: finite, and within (4n + 2) units of the exact sum of (alpha - 1) E log, relative to the sum of the absolute values *)
Theorem C147_dirichlet : forall fdot, dot_good fdot -> forall n alpha e_log, INR n <= bpow radix2 20 -> proper [n] alpha -> proper [n] e_log -> (forall k, (k < n)%nat -> sized 400 (entry alpha k) /\ sized 400 (entry e_log k)) ->
  exists p, f_dirichlet_prior fdot alpha e_log = Ok (nd_scalar p) /\ is_finite p = true /\
    let term k := (B2R (entry alpha k) - 1) * B2R (entry e_log k) in
    Rabs (B2R p - rsum n term) <= units (4 * INR n + 2) * rsum n (fun k => Rabs (term k)) + INR n * bpow radix2 (-1070).
Proof.
  intros fdot Hd n a l Hn Pa Pl H. destruct (bin_scalar_r fsub [n] a f_one Pa) as (c & Ec & Pc & Kc). rewrite nprod_1 in Kc.
  set (term := fun k => (B2R (entry a k) - 1) * B2R (entry l k)).
  assert (HT : forall k, (k < n)%nat -> is_finite (entry c k) = true /\ is_finite (entry l k) = true /\ Rabs (B2R (entry c k) * B2R (entry l k) - term k) <= u * Rabs (term k) /\ Rabs (term k) <= bpow radix2 801).
  { intros k Hk. destruct (H k Hk) as [[Fa Ba] [Fl Bl]]. rewrite (Kc k Hk). assert (B1 : Rabs (B2R (entry a k) - 1) <= bpow radix2 401). { unfold Rminus. eapply Rle_trans; [apply Rabs_triang|]. rewrite Rabs_Ropp, (Rabs_pos_eq 1) by lra. replace (bpow radix2 401) with (2 * bpow radix2 400) by (change 2 with (bpow radix2 1); rewrite <- bpow_plus; reflexivity). assert (1 <= bpow radix2 400) by (change 1 with (bpow radix2 0); apply bpow_le; lia). lra. }
    destruct (fsub_rel (entry a k) f_one Fa one_finite) as [F E]; rewrite one_B2R in *; [apply Rle_trans with (1 := B1); apply bpow_le; lia|]. split; [exact F|]. split; [exact Fl|]. unfold term. split; [|apply (b_prod 401 400); [exact B1|exact Bl|lia]].
    replace (B2R (fsub (entry a k) f_one) * B2R (entry l k) - (B2R (entry a k) - 1) * B2R (entry l k)) with ((B2R (fsub (entry a k) f_one) - (B2R (entry a k) - 1)) * B2R (entry l k)) by ring. rewrite !Rabs_mult, <- Rmult_assoc. apply Rmult_le_compat_r; [apply Rabs_pos|exact E]. }
  exists (fdot (tab n (entry c)) (tab n (entry l))). split.
  { unfold f_dirichlet_prior. assert (Sa : @shape dbl a = [n]) by exact (proj1 Pa). assert (Sl : @shape dbl l = [n]) by exact (proj1 Pl). rewrite Sa, Sl. assert (Er : shape_eqb [n] [n] = true) by (apply shape_eqb_true; reflexivity). rewrite Er. cbn [rassert]. etransitivity; [exact (f_equal (fun r => rbind r _) Ec)|]. cbn [rbind]. unfold f_np_dot. assert (Dc : @data dbl c = tab n (entry c)) by exact (tab_data n c Pc). assert (Dl : @data dbl l = tab n (entry l)) by exact (tab_data n l Pl). assert (Sc : @shape dbl c = [n]) by exact (proj1 Pc). rewrite Sc, Sl, Nat.eqb_refl, Dc, Dl. reflexivity. }
  destruct (dot_rel fdot Hd n Hn (entry c) (entry l) term) as [F E].
  - intros k Hk. destruct (HT k Hk) as (F1 & F2 & E & _). split; [exact F1|]. split; [exact F2|exact E].
  - apply Rle_trans with (INR n * bpow radix2 801); [rewrite <- rsum_const; apply rsum_le; intros k Hk; apply (HT k Hk)|]. apply Rle_trans with (bpow radix2 20 * bpow radix2 801); [apply Rmult_le_compat_r; [apply bpow_ge_0|exact Hn]|]. rewrite <- bpow_plus. apply bpow_le. lia.
  - split; [exact F|]. cbv zeta. rewrite units_u. exact E.
Qed.
Print Assumptions C147_dirichlet.
Theorem C147_dirichlet_shapes : forall fdot alpha e_log, shape alpha <> shape e_log -> f_dirichlet_prior fdot alpha e_log = Raise AssertionError.
Proof.
  intros fdot a l H. unfold f_dirichlet_prior. destruct (shape_eqb (shape a) (shape l)) eqn:E; [apply shape_eqb_true in E; contradiction|reflexivity].
Qed.
Print Assumptions C147_dirichlet_shapes.

(** ** the hypotheses are met: the sum from left to right is a good inner product *)
Lemma seq_dot_dot : dot_good seq_dot.
Proof. intros x y L Fx Fy N I. exact (mm_close _ seq_dot_good 0%nat 0%nat x y L Fx Fy N I). Qed.
Definition ex_vec : nd dbl := Nd [2%nat] [dint 3; dint (-5)].
Definition ex_mat : nd dbl := Nd [2%nat; 2%nat] [dint 4; dint 1; dint 1; dint 2].
Lemma vec_sized k : (k < 2)%nat -> sized 100 (entry ex_vec k).
Proof. intros Hk. destruct k as [|[|k]]; [| |lia]; apply int_sized; try reflexivity; lia. Qed.
Lemma mat_sized k : (k < 2 * 2)%nat -> sized 100 (entry ex_mat k).
Proof. intros Hk. destruct k as [|[|[|[|k]]]]; [| | | |lia]; apply int_sized; try reflexivity; lia. Qed.
Example C147_multivariate_normal_example : exists p, f_mvn_prior seq_dot add_in_order ex_vec ex_mat (Nd [2%nat] [dint 4; dint (-5)]) ex_mat = Ok (nd_scalar p) /\ is_finite p = true /\ quad_form 2 (cell 2 ex_mat) (fun i => B2R (entry ex_vec i)) = 56.
Proof.
  destruct (C147_multivariate_normal seq_dot add_in_order seq_dot_dot add_in_order_sums 2 ex_vec ex_mat (Nd [2%nat] [dint 4; dint (-5)]) ex_mat) as (p & E & F & _); try (split; reflexivity).
  - cbn. lra.
  - intros i Hi. split; [exact (vec_sized i Hi)|]. destruct i as [|[|i]]; [| |lia]; apply int_sized; try reflexivity; lia.
  - intros k Hk. split; exact (mat_sized k Hk).
  - exists p. split; [exact E|]. split; [exact F|]. unfold quad_form, cell, entry, ex_mat, ex_vec. cbn [rsum data nth Nat.mul Nat.add]. rewrite !dint_B2R by reflexivity. lra.
Qed.
Example C147_dirichlet_example : exists p, f_dirichlet_prior seq_dot ex_vec ex_vec = Ok (nd_scalar p) /\ is_finite p = true.
Proof.
  destruct (C147_dirichlet seq_dot seq_dot_dot 2 ex_vec ex_vec) as (p & E & F & _); try (split; reflexivity).
  - cbn. lra.
  - intros i Hi. assert (S : sized 400 (entry ex_vec i)) by (destruct (vec_sized i Hi) as [A B]; split; [exact A|apply Rle_trans with (1 := B); apply bpow_le; lia]). split; exact S.
  - exists p. split; [exact E|exact F].
Qed.
