(** Property C150: the multivariate digamma function and the expected log determinant of Wishart matrices in double precision. *)
From Coq Require Import Reals ZArith List Lra Lia Bool String.
From Flocq Require Import Core BinarySingleNaN.
From Verif Require Import Res Nd RSum ModelNumpy ModelFloat ModelFloatSimplex ModelFloatDict ModelFloatFamilies ModelFloatLogit ModelFloatWishart SpecFloat SpecFloatSimplex SpecFloatAcc SpecFloatMatrix SpecFloatGamma SpecFloatDirichlet SpecFloatWishart
  LemmasNumpy LemmasFloat LemmasFloat2 LemmasFloat3 LemmasFloat4 LemmasFloatDefault LemmasFloatSimplex LemmasFloatSimplex2 LemmasFloatSimplex4 LemmasFloatAcc LemmasFloatAcc2 LemmasFloatFam LemmasFloatFam6 LemmasFloatFam7 LemmasFloatPrior2 LemmasFloatWishart PropsFloat15 PropsFloat20 PropsFloat21.
From Verif Require LemmasFloatDefault LemmasFloatGamma.
From Verif Require Import SpecFloatFam.
Import List ListNotations.
Set Bullet Behavior "Strict Subproofs".
Open Scope R_scope.

Lemma terms_in_range n x i : (i < n)%nat -> INR n <= bpow radix2 20 -> (INR n - 1) / 2 + bpow radix2 (-99) <= x <= bpow radix2 79 -> bpow radix2 (-99) <= x - INR i / 2 <= bpow radix2 79.
Proof. intros Hi Hn [L U]. assert (INR i + 1 <= INR n) by (rewrite <- S_INR; apply le_INR; lia). pose proof (pos_INR i). lra. Qed.
(** multivariate_digamma(x, n): one finite number, psi(x) + psi(x - 1/2) + ... + psi(x - (n - 1)/2) up to 69 + 3n units of the sizes of the terms *)
Theorem C150_multivariate_digamma : forall fpsi psi fsum, computes fpsi psi -> steady psi -> sums fsum -> forall n x, INR n <= bpow radix2 20 -> proper [] x \/ proper [1%nat] x -> is_finite (entry x 0) = true ->
  let x0 := B2R (entry x 0) in (INR n - 1) / 2 + bpow radix2 (-99) <= x0 <= bpow radix2 79 ->
  exists m, f_multivariate_digamma fpsi fsum x n = Ok (nd_scalar m) /\ is_finite m = true /\ Rabs (B2R m - mv_digamma psi n x0) <= units (69 + 3 * INR n) * mv_digamma_size psi n x0.
Proof.
  intros fpsi psi fsum Hp Hc Hs n x Hn Px Fx x0 B. destruct (multivariate_digamma_value fpsi fsum n x Hn Px) as (h & E & K). eexists. split; [exact E|].
  destruct (digamma_sum fpsi psi Hp Hc fsum Hs n (entry x 0) h Hn Fx) as (F & _ & _ & D).
  - intros i Hi. destruct (K i Hi) as [A C]. split; [exact A|]. split; [exact C|]. exact (terms_in_range n _ i Hi Hn B).
  - split; [exact F|]. rewrite units_u. exact D.
Qed.
Print Assumptions C150_multivariate_digamma.
(** e_log_det_wishart(df, v) and WishartParam.e_log_det() for an n x n matrix v whose log determinant, per slogdet, is l up to err: one finite number, close to the sum of digammas + n ln 2 + l *)
Theorem C150_e_log_det : forall flog fpsi psi fsum fslogdet, log_good flog -> computes fpsi psi -> steady psi -> sums fsum -> forall n df v sign logdet l err, (1 <= n)%nat -> INR n <= bpow radix2 20 -> proper [] df \/ proper [1%nat] df -> is_finite (entry df 0) = true ->
  let nu := B2R (entry df 0) in INR n - 1 + bpow radix2 (-98) <= nu <= bpow radix2 80 ->
  proper [n; n] v -> fslogdet v = Ok (sign, logdet) -> is_finite sign = true -> 0 < B2R sign -> is_finite logdet = true -> Rabs (B2R logdet - l) <= err -> Rabs l + err <= bpow radix2 900 ->
  exists e, f_e_log_det_wishart flog fpsi fsum fslogdet df v = Ok (nd_scalar e) /\ (forall d, f_member d "df" = Ok df -> f_member d "v" = Ok v -> fwp_e_log_det flog fpsi fsum fslogdet d = Ok (nd_scalar e)) /\ is_finite e = true /\
    Rabs (B2R e - (mv_digamma psi n (nu / 2) + INR n * ln 2 + l)) <= units (92 + 3 * INR n) * (mv_digamma_size psi n (nu / 2) + Rabs l) + 2 * err.
Proof.
  intros flog fpsi psi fsum fsl Hl Hp Hc Hs n df v sg ld l err N1 Hn Pd Fd nu B Pv Es Fs Ps FL EL BL. pose proof (bpow_gt_0 radix2 (-98)) as p98. assert (n1 : 1 <= INR n) by (change 1 with (INR 1); apply le_INR; exact N1). assert (h98 : bpow radix2 (-98) = 2 * bpow radix2 (-99)) by (change 2 with (bpow radix2 1); rewrite <- bpow_plus; reflexivity). assert (h80 : bpow radix2 80 = 2 * bpow radix2 79) by (change 2 with (bpow radix2 1); rewrite <- bpow_plus; reflexivity).
  assert (exists x, f_bin fmul (nd_scalar f_half) df = Ok x /\ (proper [] x \/ proper [1%nat] x) /\ entry x 0 = fmul f_half (entry df 0)) as (x & Ex & Px & Kx).
  { destruct Pd as [P|P]; [destruct (bin_scalar_l fmul [] f_half df P) as (x & A & C & K)|destruct (bin_scalar_l fmul [1%nat] f_half df P) as (x & A & C & K)]; exists x; (split; [exact A|]); (split; [tauto|]); apply K; exact (Nat.lt_0_succ 0). }
  destruct (mul_exact f_half (entry df 0) (nu / 2)) as [Fx Vx]; [reflexivity|exact Fd| | |rewrite LemmasFloatDefault.f_half_B2R; fold nu; field|].
  { replace (nu / 2) with (/ 2 * nu) at 1 by field. apply half_format; [exact (generic_format_B2R 53 1024 (entry df 0))|]. apply Rle_trans with (bpow radix2 (-98)); [apply bpow_le; lia|lra]. }
  { rewrite Rabs_pos_eq by lra. apply Rle_trans with (bpow radix2 79); [lra|apply bpow_le; lia]. }
  rewrite <- Kx in Fx, Vx. destruct (multivariate_digamma_value fpsi fsum n x Hn Px) as (h & Em & K). set (m := fsum (tab n (fun i => fpsi (fsub (entry x 0) (h i))))) in *.
  assert (E : f_e_log_det_wishart flog fpsi fsum fsl df v = Ok (nd_scalar (fadd (fadd m (fmul (f_of_nat n) (flog (f_int 2)))) ld))).
  { assert (S0 : f_shape_at v 0 = Ok n) by (unfold f_shape_at; rewrite (proj1 Pv : @shape dbl v = [n; n]); reflexivity). assert (S1 : f_shape_at v 1 = Ok n) by (unfold f_shape_at; rewrite (proj1 Pv : @shape dbl v = [n; n]); reflexivity). unfold f_e_log_det_wishart. rewrite S0. cbn [rbind]. rewrite S1. cbn [rbind]. rewrite Nat.eqb_refl, Es. cbn [rbind fst snd].
    assert (G : f_positive sg = true) by (unfold f_positive; rewrite Bltb_correct by (reflexivity || exact Fs); apply Rlt_bool_true; exact Ps). rewrite G. etransitivity; [exact (f_equal (fun r => rbind r _) Ex)|]. cbn [rbind]. rewrite Em. reflexivity. }
  eexists. split; [exact E|]. split; [intros d Ed Ev; unfold fwp_e_log_det; rewrite Ed; cbn [rbind]; rewrite Ev; exact E|].
  destruct (digamma_sum fpsi psi Hp Hc fsum Hs n (entry x 0) h Hn Fx) as (F & BZ & BM & D).
  { intros i Hi. destruct (K i Hi) as [A C]. split; [exact A|]. split; [exact C|]. apply (terms_in_range n _ i Hi Hn). rewrite Vx. lra. }
  rewrite Vx in BZ, BM, D. rewrite units_u. exact (log_det_sum flog Hl n m ld _ _ l err N1 Hn F BZ BM D FL EL BL).
Qed.
Print Assumptions C150_e_log_det.
(** a matrix that is not square, or whose determinant is not positive, is refused *)
Theorem C150_refused : forall flog fpsi fsum fslogdet df v, (exists n m, n <> m /\ proper [n; m] v) \/ (exists n sign logdet, proper [n; n] v /\ fslogdet v = Ok (sign, logdet) /\ is_finite sign = true /\ B2R sign <= 0) ->
  f_e_log_det_wishart flog fpsi fsum fslogdet df v = Raise AssertionError.
Proof.
  intros flog fpsi fsum fsl df v [(n & m & N & Pv)|(n & sg & ld & Pv & Es & Fs & Ps)]; unfold f_e_log_det_wishart.
  - assert (S0 : f_shape_at v 0 = Ok n) by (unfold f_shape_at; rewrite (proj1 Pv : @shape dbl v = [n; m]); reflexivity). assert (S1 : f_shape_at v 1 = Ok m) by (unfold f_shape_at; rewrite (proj1 Pv : @shape dbl v = [n; m]); reflexivity). rewrite S0. cbn [rbind]. rewrite S1. cbn [rbind]. apply Nat.eqb_neq in N. rewrite N. reflexivity.
  - assert (S0 : f_shape_at v 0 = Ok n) by (unfold f_shape_at; rewrite (proj1 Pv : @shape dbl v = [n; n]); reflexivity). assert (S1 : f_shape_at v 1 = Ok n) by (unfold f_shape_at; rewrite (proj1 Pv : @shape dbl v = [n; n]); reflexivity). rewrite S0. cbn [rbind]. rewrite S1. cbn [rbind]. rewrite Nat.eqb_refl, Es. cbn [rbind fst snd].
    assert (G : f_positive sg = false) by (unfold f_positive; rewrite Bltb_correct by (reflexivity || exact Fs); apply Rlt_bool_false; exact Ps). rewrite G. reflexivity.
Qed.
Print Assumptions C150_refused.

(** ** the hypotheses are met: 5 degrees of freedom and the matrix diag(2, 3), whose log determinant is ln 6; ln stands for digamma *)
Definition ex_df : nd dbl := Nd [1%nat] [dint 5].
Definition ex_v : nd dbl := Nd [2%nat; 2%nat] [dint 2; dint 0; dint 0; dint 3].
Definition ex_slogdet (_ : nd dbl) : res (dbl * dbl) := Ok (dint 1, ideal_log (dint 6)).
Example C150_e_log_det_example : exists e, f_e_log_det_wishart ideal_log ideal_log add_in_order ex_slogdet ex_df ex_v = Ok (nd_scalar e) /\ is_finite e = true.
Proof.
  destruct (LemmasFloatGamma.log_value ideal_log ideal_log_good (dint 6) eq_refl ltac:(rewrite dint_B2R by reflexivity; lra)) as (F & B & E).
  pose proof (C150_e_log_det ideal_log ideal_log ln add_in_order ex_slogdet ideal_log_good (log_computes _ ideal_log_good) ln_steady add_in_order_sums 2 ex_df ex_v (dint 1) (ideal_log (dint 6)) (ln (B2R (dint 6))) 1000000) as T.
  destruct T as (e & X & _ & G & _); [lia|cbn; lra|right; split; reflexivity|reflexivity| |split; reflexivity|reflexivity|reflexivity|rewrite dint_B2R by reflexivity; lra|exact F| | |exists e; split; assumption].
  - unfold entry. cbn [nth data ex_df]. rewrite dint_B2R by reflexivity. assert (bpow radix2 (-98) <= 1) by (change 1 with (bpow radix2 0); apply bpow_le; lia). assert (1024 <= bpow radix2 80) by (change 1024 with (bpow radix2 10); apply bpow_le; lia). cbn [INR]. lra.
  - apply Rle_trans with (1 := E). pose proof u_pos. assert (u <= 1) by (change 1 with (bpow radix2 0); unfold u; apply bpow_le; lia). apply Rle_trans with (8 * 1 * (1 + 752)); [|lra]. pose proof (Rabs_pos (ln (B2R (dint 6)))). apply Rmult_le_compat; lra.
  - apply Rle_trans with (bpow radix2 20); [change (bpow radix2 20) with 1048576; lra|apply bpow_le; lia].
Qed.
Example C150_multivariate_digamma_example : exists m, f_multivariate_digamma ideal_log add_in_order (Nd [1%nat] [dint 5]) 3 = Ok (nd_scalar m) /\ is_finite m = true /\ Rabs (B2R m - mv_digamma ln 3 5) <= units 78 * mv_digamma_size ln 3 5.
Proof.
  destruct (C150_multivariate_digamma ideal_log ln add_in_order (log_computes _ ideal_log_good) ln_steady add_in_order_sums 3 (Nd [1%nat] [dint 5])) as (m & X & G & D); [cbn; lra|right; split; reflexivity|reflexivity| |].
  - unfold entry. cbn [nth data]. rewrite dint_B2R by reflexivity. assert (bpow radix2 (-99) <= 1) by (change 1 with (bpow radix2 0); apply bpow_le; lia). assert (1024 <= bpow radix2 79) by (change 1024 with (bpow radix2 10); apply bpow_le; lia). cbn [INR]. lra.
  - exists m. split; [exact X|]. split; [exact G|]. unfold entry in D. cbn [nth data] in D. rewrite dint_B2R in D by reflexivity. replace (69 + 3 * INR 3) with 78 in D by (cbn; lra). exact D.
Qed.
Example C150_refused_example : f_e_log_det_wishart ideal_log ideal_log add_in_order ex_slogdet ex_df (Nd [1%nat; 2%nat] [dint 1; dint 2]) = Raise AssertionError.
Proof. apply C150_refused. left. exists 1%nat, 2%nat. split; [lia|split; reflexivity]. Qed.
