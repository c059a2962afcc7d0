(** Proofs about distribution parameters in binary64: a fresh object can be set to its own free value. *)
From Coq Require Import String Reals ZArith List Lra Lia Bool.
From Flocq Require Import Core BinarySingleNaN.
From Verif Require Import Res Nd RSum ModelNumpy SpecFloat SpecFloatSimplex SpecFloatAcc SpecFloatMatrix SpecFloatCholesky SpecFloatReach SpecFloatStack SpecFloatRefresh SpecFloatFam SpecFloatFam2 ModelFloat ModelFloatDict ModelFloatFamilies SpecFloatDict SpecFloatDict2 SpecFloatDict3
  LemmasFloat LemmasFloat5 LemmasFloatSimplex2 LemmasFloatSimplex4 LemmasFloatAcc LemmasFloatParams LemmasFloatRefresh4 LemmasFloatDict4 LemmasFloatFam LemmasFloatFam2.
From Verif Require ModelFloatParams ModelFloatSimplex ModelFloatMatrix ModelFloatStack.
Import List ListNotations.
Set Bullet Behavior "Strict Subproofs".
Open Scope R_scope.

Lemma mild_usable lb : mild lb -> usable lb.
Proof. intros [->|[F _]]; [right; reflexivity|left; exact F]. Qed.
Lemma mild_good lb : mild lb -> good_bounds lb f_inf.
Proof.
  intros H. split; [|split; [left; reflexivity|intros _ [F _]; discriminate F]]. destruct H as [->|[F B]]; [left; reflexivity|right]. split; [exact F|]. eapply Rle_trans; [exact B|]. apply bpow_le. lia.
Qed.
Lemma start_gap (lb v : dbl) : is_finite lb = true -> Rabs (B2R lb) <= bpow radix2 50 -> starts lb v -> 3 / 4 <= B2R v - B2R lb <= 5 / 4.
Proof.
  intros F B (_ & _ & _ & E). specialize (E F). pose proof (rnd64_error (B2R lb + 1)) as R. rewrite <- E in R.
  assert (A : Rabs (B2R lb + 1) <= bpow radix2 50 + 1) by (eapply Rle_trans; [apply Rabs_triang|]; rewrite (Rabs_pos_eq 1) by lra; lra).
  assert (U : u = / 9007199254740992) by reflexivity. change (bpow radix2 50) with 1125899906842624 in *.
  assert (T : bpow radix2 (-1074) <= / 1024) by (change (/ 1024) with (bpow radix2 (-10)); apply bpow_le; lia). rewrite U in R. pose proof (Rabs_pos (B2R lb + 1)).
  apply Rabs_le_inv in R. split; lra.
Qed.
Lemma mild_interior lb : mild lb -> interior lb f_inf (sv lb).
Proof.
  intros H. pose proof (sv_starts lb (mild_usable lb H)) as S. split; [apply S|]. destruct H as [->|[F B]]; [exact I|]. pose proof (start_gap lb _ F B S) as [G1 G2].
  assert (T : bpow radix2 (-400) <= / 2) by (change (/ 2) with (bpow radix2 (-1)); apply bpow_le; lia). assert (T' : 2 <= bpow radix2 400) by (change 2 with (bpow radix2 1); apply bpow_le; lia).
  destruct lb; try discriminate F; cbn [interior]; change (f_inf) with (B754_infinity false : dbl); split; lra.
Qed.
Lemma ninf_mild : mild f_ninf. Proof. left. reflexivity. Qed.
Lemma scalar_settled lb : mild lb -> settled (FScalar (ModelFloatParams.mkFS lb f_inf (nd_scalar (sv lb)))).
Proof.
  intros H. split; [exists None; eexists; exact (scalar_new lb (mild_usable lb H))|]. cbn. split; [exact (mild_good lb H)|]. split; [reflexivity|]. exists (sv lb). split; [reflexivity|exact (mild_interior lb H)].
Qed.
Lemma vector_settled n lb : mild lb -> settled (FVector (mkFV n lb f_inf (repeat (sv lb) n))).
Proof.
  intros H. split; [exists None; eexists; exact (vector_new n lb (mild_usable lb H))|]. cbn. split; [exact (mild_good lb H)|]. split; [apply repeat_length|]. apply Forall_repeat. exact (mild_interior lb H).
Qed.
Lemma array_settled s lb : mild lb -> settled (FArray (ModelFloatParams.mkFA s lb f_inf (np_full s (sv lb)))).
Proof.
  intros H. split; [exists None; eexists; exact (array_new s lb (mild_usable lb H))|]. cbn. split; [exact (mild_good lb H)|]. split; [reflexivity|]. split; [apply repeat_length|]. apply Forall_repeat. exact (mild_interior lb H).
Qed.

(** a diagonal matrix *)
Lemma sum_square n (y : nat -> R) : rsum n (fun i => Rabs (y i)) ^ 2 <= INR n * rsum n (fun i => y i * y i).
Proof.
  induction n as [|n IH]; [cbn; lra|]. cbn [rsum]. rewrite S_INR. set (S := rsum n (fun i => Rabs (y i))) in *. set (Q := rsum n (fun i => y i * y i)) in *.
  assert (A : y n * y n = Rabs (y n) * Rabs (y n)) by (rewrite <- Rabs_mult, Rabs_pos_eq; [reflexivity|nra]). rewrite A. set (a := Rabs (y n)). destruct n as [|n].
  - cbn in *. unfold S, Q. cbn. nra.
  - set (N := INR (Datatypes.S n)) in *. assert (P : 0 < N) by (apply lt_0_INR; lia). assert (B : 2 * S * a <= Q + N * (a * a)).
    { apply Rmult_le_reg_l with N; [exact P|]. pose proof (Rle_0_sqr (S - N * a)) as Z. unfold Rsqr in Z. nra. }
    nra.
Qed.
Lemma diag_inside n lb : INR n <= bpow radix2 20 -> mild_diag lb -> inside n lb (mk_mat n n (ModelFloatMatrix.f_make_diagonal (fun _ => fadd lb f_one))).
Proof.
  intros Hn [F [P B]]. destruct (diag_starts n lb F) as [_ D]. set (m := mk_mat n n _) in *. assert (Rb : Rabs (B2R lb) <= bpow radix2 50) by (rewrite Rabs_pos_eq; assumption).
  assert (E : forall i j, (i < n)%nat -> (j < n)%nat -> mget dzero m i j = if Nat.eqb i j then fadd lb f_one else dzero).
  { intros i j Hi Hj. unfold m. rewrite (mget_mk_mat dzero) by assumption. reflexivity. }
  assert (S : (0 < n)%nat -> starts lb (fadd lb f_one)) by (intros Hn0; specialize (D 0%nat 0%nat Hn0 Hn0); cbn [Nat.eqb] in D; rewrite E in D by assumption; exact D).
  split; [reflexivity|]. split.
  - intros i j Hi Hj. specialize (S ltac:(lia)). pose proof (start_gap lb _ F Rb S) as [G1 G2]. rewrite !E by assumption. rewrite (Nat.eqb_sym j i), Nat.eqb_refl.
    assert (T : bpow radix2 (-800) <= / 2) by (change (/ 2) with (bpow radix2 (-1)); apply bpow_le; lia). assert (T60 : bpow radix2 50 + 2 <= bpow radix2 60) by (change (bpow radix2 60) with 1152921504606846976; change (bpow radix2 50) with 1125899906842624; lra).
    destruct (Nat.eqb i j); (split; [first [exact (proj1 S)|reflexivity]|]); (split; [reflexivity|]); (split; [|lra]); [rewrite Rabs_pos_eq; lra|]. change (B2R dzero) with 0. rewrite Rabs_R0. apply bpow_ge_0.
  - intros y [i0 [Hi0 Y]]. specialize (S ltac:(lia)). pose proof (start_gap lb _ F Rb S) as [G1 G2]. set (c := B2R (fadd lb f_one) - B2R lb) in *.
    assert (Rt : forall i, (i < n)%nat -> diag_root lb (mget dzero m) i = sqrt c) by (intros i Hi; unfold diag_root; rewrite E, Nat.eqb_refl by assumption; reflexivity).
    rewrite (rsum_ext n (fun i => diag_root lb (mget dzero m) i * Rabs (y i)) (fun i => sqrt c * Rabs (y i))) by (intros i Hi; rewrite Rt by exact Hi; reflexivity). rewrite rsum_scal_l.
    assert (RH : rsum n (fun i => rsum n (fun j => y i * (B2R (mget dzero m i j) - (if Nat.eqb i j then B2R lb else 0)) * y j)) = rsum n (fun i => c * (y i * y i))).
    { apply rsum_ext. intros i Hi. transitivity (rsum n (fun j => if Nat.eqb i j then c * (y j * y j) else 0)).
      - apply rsum_ext. intros j Hj. rewrite E by assumption. destruct (Nat.eqb_spec i j) as [->|]; [unfold c; ring|change (B2R dzero) with 0; ring].
      - exact (rsum_delta_r n i (fun j => c * (y j * y j)) Hi). }
    rewrite RH.
    rewrite rsum_scal_l. pose proof (sum_square n y) as CS. set (S1 := rsum n (fun i => Rabs (y i))) in *. set (Q := rsum n (fun i => y i * y i)) in *.
    assert (QP : 0 < Q).
    { unfold Q. destruct (Rle_lt_or_eq_dec 0 (rsum n (fun i => y i * y i))) as [H|H]; [apply rsum_nonneg; intros i Hi; nra|exact H|]. exfalso. apply Y. apply (rsum_sq_zero n y); [symmetry; exact H|exact Hi0]. }
    replace ((sqrt c * S1) ^ 2) with (c * S1 ^ 2) by (rewrite Rpow_mult_distr, <- (Rsqr_pow2 (sqrt c)), Rsqr_sqrt by lra; reflexivity).
    unfold eps. rewrite units_u. assert (U : u = / 9007199254740992) by reflexivity. change (bpow radix2 20) with 1048576 in Hn. pose proof (pos_INR n) as N0.
    assert (K : 4 * ((4 * INR n + 32) * u) * (c * S1 ^ 2) <= 4 * ((4 * INR n + 32) * u) * (c * (INR n * Q))).
    { apply Rmult_le_compat_l; [rewrite U; lra|]. apply Rmult_le_compat_l; [lra|exact CS]. }
    assert (K2 : 4 * ((4 * INR n + 32) * u) * INR n <= / 2). { rewrite U. assert ((4 * INR n + 32) * INR n <= (4 * 1048576 + 32) * 1048576) by (apply Rmult_le_compat; lra). lra. }
    assert (cQ : 0 < c * Q) by nra. replace (4 * ((4 * INR n + 32) * u) * (c * (INR n * Q))) with (4 * ((4 * INR n + 32) * u) * INR n * (c * Q)) in K by ring. nra.
Qed.
Lemma posdef_settled n lb : INR n <= bpow radix2 20 -> mild_diag lb -> ModelFloatMatrix.fposdef_init n lb None = Ok (ModelFloatMatrix.mkFP n lb (mk_mat n n (ModelFloatMatrix.f_make_diagonal (fun _ => fadd lb f_one)))) /\
  settled (FPosDef (ModelFloatMatrix.mkFP n lb (mk_mat n n (ModelFloatMatrix.f_make_diagonal (fun _ => fadd lb f_one))))).
Proof.
  intros Hn M. pose proof (diag_inside n lb Hn M) as I. destruct M as [F [P B]].
  assert (E : ModelFloatMatrix.fposdef_init n lb None = Ok (ModelFloatMatrix.mkFP n lb (mk_mat n n (ModelFloatMatrix.f_make_diagonal (fun _ => fadd lb f_one))))).
  { unfold ModelFloatMatrix.fposdef_init, rassert. change ModelFloatMatrix.f_zero with fz. rewrite (zero_le lb F P). reflexivity. }
  split; [exact E|]. split; [exists None; eexists; exact E|]. cbn. split; [|exact I]. split; [exact Hn|]. split; [|exact P]. split; [exact F|]. rewrite Rabs_pos_eq by exact P. eapply Rle_trans; [exact B|]. apply bpow_le. lia.
Qed.

Section Fresh.
Context (sf sg : fparam -> list dbl -> fparam * res unit).
Lemma two_ready nm a la b lb' fs vs : a <> b -> fs = (fl_free_size la + fl_free_size lb')%nat -> vs = (fl_vector_size la + fl_vector_size lb')%nat -> settled la -> settled lb' ->
  let p := FDict nm [(a, FLeaf a la); (b, FLeaf b lb')] fs vs in built sf sg p /\ no_empty p /\ forall m, In m (members p) -> settled (snd m).
Proof.
  intros N Ef Ev A B p. split; [|split].
  - assert (D1 : built sf sg (FDict nm [(a, FLeaf a la)] (fl_free_size la) (fl_vector_size la))) by (refine (b_push sf sg (fd_init nm) (FLeaf a la) _ (b_new _ _ nm) (b_leaf _ _ a la) _ _); reflexivity).
    refine (b_push sf sg _ (FLeaf b lb') p D1 (b_leaf _ _ b lb') _ _).
    + unfold p. cbn [fd_push fd_name ModelDict.od_set fd_free_size fd_vector_size]. destruct (String.eqb_spec a b) as [X|X]; [contradiction|]. rewrite Ef, Ev. try (destruct (String.eqb_spec b a) as [Y|Y]; [symmetry in Y; contradiction|]). reflexivity.
    + cbn. destruct (String.eqb_spec a b) as [X|X]; [contradiction|]. try (destruct (String.eqb_spec b a) as [Y|Y]; [symmetry in Y; contradiction|]). reflexivity.
  - cbn. repeat split. discriminate.
  - intros m [<-|[<-|[]]]; assumption.
Qed.
Lemma one_ready nm a la : settled la -> let p := FDict nm [(a, FLeaf a la)] (fl_free_size la) (fl_vector_size la) in built sf sg p /\ no_empty p /\ forall m, In m (members p) -> settled (snd m).
Proof.
  intros A p. split; [|split].
  - refine (b_push sf sg (fd_init nm) (FLeaf a la) _ (b_new _ _ nm) (b_leaf _ _ a la) _ _); reflexivity.
  - cbn. repeat split. discriminate.
  - intros m [<-|[]]. exact A.
Qed.
Lemma fresh_ready d : fresh d -> built sf sg d /\ no_empty d /\ forall m, In m (members d) -> settled (snd m).
Proof.
  intros H. destruct H as [nm lb d M E|nm n lb d M E|nm s lb d M E|nm s lb d M E|nm s lb d M E|nm a b d Ma Mb E|nm s lb d M E|nm n lb d Hn M E|nm n lb d Hn M E].
  - unfold fuvn_init in E. rewrite (scalar_new _ ninf_usable), (scalar_new lb (mild_usable lb M)) in E. cbn [rbind] in E. injection E as <-. apply two_ready; try reflexivity; try discriminate; apply scalar_settled; [exact ninf_mild|exact M].
  - unfold fuvn_vector_init in E. rewrite (vector_new n _ ninf_usable), (vector_new n lb (mild_usable lb M)) in E. cbn [rbind] in E. injection E as <-. apply two_ready; try reflexivity; try discriminate; apply vector_settled; [exact ninf_mild|exact M].
  - unfold fuvn_array_init in E. rewrite (array_new s _ ninf_usable), (array_new s lb (mild_usable lb M)) in E. cbn [rbind] in E. injection E as <-. apply two_ready; try reflexivity; try discriminate; apply array_settled; [exact ninf_mild|exact M].
  - unfold fuvn_moment_init in E. rewrite (array_new s _ ninf_usable), (array_new s lb (mild_usable lb M)) in E. cbn [rbind] in E. injection E as <-. apply two_ready; try reflexivity; try discriminate; apply array_settled; [exact ninf_mild|exact M].
  - unfold fmvn_array_init in E. rewrite (array_new s _ ninf_usable) in E. cbn [rbind] in E. destruct s as [|n s]; [discriminate|]. rewrite (vector_new n lb (mild_usable lb M)) in E. cbn [rbind] in E. injection E as <-.
    apply two_ready; try reflexivity; try discriminate; [apply array_settled; exact ninf_mild|apply vector_settled; exact M].
  - unfold fgamma_init in E. rewrite (scalar_new a (mild_usable a Ma)), (scalar_new b (mild_usable b Mb)) in E. cbn [rbind] in E. injection E as <-. apply two_ready; try reflexivity; try discriminate; apply scalar_settled; assumption.
  - unfold fdirichlet_init, rassert in E. destruct (fle fz lb); [|discriminate]. rewrite (array_new s lb (mild_usable lb M)) in E. cbn [rbind] in E. injection E as <-. apply one_ready. apply array_settled. exact M.
  - unfold fmvn_init in E. rewrite (vector_new n _ ninf_usable) in E. cbn [rbind] in E. destruct (posdef_settled n lb Hn M) as [I S]. rewrite I in E. cbn [rbind] in E. injection E as <-.
    apply two_ready; try reflexivity; try discriminate; [apply vector_settled; exact ninf_mild|exact S].
  - unfold fwishart_init in E. cbv zeta in E. assert (Hn' : (n < 2 ^ 52)%nat).
    { apply INR_lt. eapply Rle_lt_trans; [exact Hn|]. rewrite pow_INR. change (INR 2) with 2. change (bpow radix2 20) with 1048576. apply Rlt_le_trans with (2 ^ 21); [lra|]. apply Rle_pow; [lra|lia]. }
    destruct (rank_exact n Hn') as [Fl El]. set (lo := binary_normalize 53 1024 prec53 emax1024 mode_NE (Z.of_nat n - 1) 0 false) in *. unfold rassert in E.
    assert (Ml : mild lo). { right. split; [exact Fl|]. rewrite El. change (bpow radix2 20) with 1048576 in Hn. change (bpow radix2 50) with 1125899906842624. pose proof (pos_INR n). apply Rabs_le. lra. }
    destruct (fle lo lo); [|discriminate]. rewrite (scalar_new lo (or_introl Fl)) in E. cbn [rbind] in E. assert (H2 : INR 2 <= bpow radix2 20) by (change (INR 2) with 2; change (bpow radix2 20) with 1048576; lra). destruct (posdef_settled 2 lb H2 M) as [I S]. rewrite I in E. cbn [rbind] in E. injection E as <-.
    apply two_ready; try reflexivity; try discriminate; [apply scalar_settled; exact Ml|exact S].
Qed.
End Fresh.
Lemma fresh_refresh fexp flog fsum fdot fchol : exp_good fexp -> log_good flog -> sums fsum -> matmul_good fdot -> cholesky_good fchol -> cholesky_close fchol -> cholesky_succeeds fchol ->
  forall d, fresh d -> exists w d', fd_get_free flog fchol d = Ok w /\ length w = fd_free_size d /\ fd_set_free fexp flog fsum fdot d w = (d', Ok tt) /\
    Forall2 (fun m m' => fst m' = fst m /\ moved_little (snd m) (snd m')) (members d) (members d').
Proof.
  intros H1 H2 H3 H4 H5 H6 H7 d Fd. destruct (fresh_ready (fd_set_free fexp flog fsum fdot) fd_set_vector d Fd) as (B & N & S). apply t_refresh; assumption.
Qed.
