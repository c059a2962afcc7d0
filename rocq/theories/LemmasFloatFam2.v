(** Proofs about the construction of distribution parameters in binary64. *)
From Coq Require Import String Reals ZArith List Lra Lia Bool.
From Flocq Require Import Core BinarySingleNaN.
From Verif Require Import Res Nd RSum ModelNumpy SpecFloat SpecFloatAcc SpecFloatMatrix SpecFloatFam ModelFloat ModelFloatDict ModelFloatFamilies
  LemmasFloat LemmasFloat5 LemmasFloatParams LemmasFloatFam.
From Verif Require ModelFloatParams ModelFloatSimplex ModelFloatMatrix ModelFloatStack.
Import List ListNotations.
Set Bullet Behavior "Strict Subproofs".
Open Scope R_scope.

Definition sv (lb : dbl) : dbl := f_get_inbounds_value lb f_inf.
Lemma usable_order lb : usable lb -> fle f_inf lb = false /\ fle f_ninf lb = true.
Proof.
  intros [F| ->]; [|split; reflexivity]. destruct (inf_feq lb F) as (_ & _ & _ & A). split; [exact A|]. rewrite fle_minf. destruct lb; try discriminate F; reflexivity.
Qed.
Lemma sv_starts lb : usable lb -> starts lb (sv lb).
Proof.
  unfold sv, f_get_inbounds_value. change (fle f_inf f_inf) with true. cbn [negb]. intros [F| ->].
  - destruct (inf_feq lb F) as (_ & _ & A & _). rewrite A. cbn [negb]. destruct (fadd_one lb F) as [B C]. split; [exact B|]. split; [|split; [intros ->; discriminate F|intros _; exact C]].
    apply dle_finite; [exact F|exact B|]. rewrite C. exact (proj1 (plus_one_near lb)).
  - split; [reflexivity|]. split; [reflexivity|]. split; [intros _; reflexivity|discriminate].
Qed.
Lemma ninf_usable : usable f_ninf. Proof. right. reflexivity. Qed.
Lemma sv_ninf : sv f_ninf = fz. Proof. reflexivity. Qed.
Lemma scalar_new lb : usable lb -> ModelFloatParams.fscalar_init lb f_inf None = Ok (ModelFloatParams.mkFS lb f_inf (nd_scalar (sv lb))).
Proof. intros H. destruct (usable_order lb H) as [A B]. unfold ModelFloatParams.fscalar_init. rewrite A, B. reflexivity. Qed.
Lemma vector_new n lb : usable lb -> fvector_init n lb f_inf None = Ok (mkFV n lb f_inf (repeat (sv lb) n)).
Proof.
  intros H. destruct (usable_order lb H) as [A B]. unfold fvector_init. rewrite A, B. change (fle f_inf f_inf) with true. cbn [negb]. unfold fvector_set. cbn [fv_size fv_lb fv_ub]. rewrite repeat_length, Nat.eqb_refl. reflexivity.
Qed.
Lemma array_new s lb : usable lb -> ModelFloatParams.farray_init s lb f_inf None = Ok (ModelFloatParams.mkFA s lb f_inf (np_full s (sv lb))).
Proof.
  intros H. destruct (usable_order lb H) as [A B]. unfold ModelFloatParams.farray_init. rewrite A, B. change (fle f_inf f_inf) with true. cbn [negb]. unfold ModelFloatParams.farray_set. cbn [ModelFloatParams.fa_shape ModelFloatParams.fa_lb ModelFloatParams.fa_ub np_full shape]. rewrite shape_eqb_refl. reflexivity.
Qed.
Lemma scalar_refused lb : (lb = f_inf -> ModelFloatParams.fscalar_init lb f_inf None = Raise ValueError) /\ (is_nan lb = true -> ModelFloatParams.fscalar_init lb f_inf None = Raise AssertionError).
Proof. split; [intros ->; reflexivity|]. destruct lb; try discriminate. reflexivity. Qed.
Lemma vector_refused n lb : (lb = f_inf -> fvector_init n lb f_inf None = Raise ValueError) /\ (is_nan lb = true -> fvector_init n lb f_inf None = Raise AssertionError).
Proof. split; [intros ->; reflexivity|]. destruct lb; try discriminate. reflexivity. Qed.
Lemma array_refused s lb v : (lb = f_inf -> ModelFloatParams.farray_init s lb f_inf v = Raise ValueError) /\ (is_nan lb = true -> ModelFloatParams.farray_init s lb f_inf v = Raise AssertionError).
Proof. split; [intros ->; reflexivity|]. destruct lb; try discriminate. reflexivity. Qed.

Lemma shape_eqb_neq s t : s <> t -> shape_eqb s t = false.
Proof. intros H. destruct (shape_eqb s t) eqn:E; [apply shape_eqb_true in E; contradiction|reflexivity]. Qed.
Lemma entry_full s (v : dbl) k : (k < nprod s)%nat -> entry (np_full s v) k = v.
Proof. intros H. unfold entry, np_full. cbn [data]. rewrite (nth_indep _ _ v) by (rewrite repeat_length; exact H). apply nth_repeat. Qed.
Lemma full_returns r s v (P : dbl -> Prop) : r = Ok (np_full s v) -> P v -> returns r s P.
Proof. intros E H. exists (np_full s v). split; [exact E|]. split; [split; [reflexivity|apply repeat_length]|]. intros k K. rewrite entry_full by exact K. exact H. Qed.
Lemma full_vec n (v : dbl) : nd_vec (repeat v n) = np_full [n] v.
Proof. unfold nd_vec, np_full. rewrite repeat_length. f_equal. f_equal. unfold nprod. cbn. lia. Qed.
Lemma full_scalar (v : dbl) : nd_scalar v = np_full [] v. Proof. reflexivity. Qed.

(** UVNParam *)
Lemma uvn_construct nm lb : (usable lb -> exists d, fuvn_init nm lb = Ok d /\ returns (f_member d "mean") [] (fun v => v = dzero) /\ returns (f_member d "info") [] (starts lb) /\ fd_free_size d = 2%nat /\ fd_vector_size d = 2%nat) /\
  (lb = f_inf -> fuvn_init nm lb = Raise ValueError) /\ (is_nan lb = true -> fuvn_init nm lb = Raise AssertionError).
Proof.
  unfold fuvn_init. rewrite (scalar_new f_ninf ninf_usable). cbn [rbind]. split; [|split; intros H].
  - intros H. rewrite (scalar_new lb H). cbn [rbind]. eexists. split; [reflexivity|]. split; [|split; [|split; reflexivity]].
    + apply (full_returns _ _ fz); reflexivity.
    + apply (full_returns _ _ (sv lb)); [reflexivity|exact (sv_starts lb H)].
  - rewrite (proj1 (scalar_refused lb) H). reflexivity.
  - rewrite (proj2 (scalar_refused lb) H). reflexivity.
Qed.
(** UVNParamVector *)
Lemma uvn_vector_construct nm n lb : (usable lb -> exists d, fuvn_vector_init nm n lb = Ok d /\ returns (f_member d "mean") [n] (fun v => v = dzero) /\ returns (f_member d "info") [n] (starts lb) /\ fd_free_size d = (2 * n)%nat /\ fd_vector_size d = (2 * n)%nat) /\
  (lb = f_inf -> fuvn_vector_init nm n lb = Raise ValueError) /\ (is_nan lb = true -> fuvn_vector_init nm n lb = Raise AssertionError).
Proof.
  unfold fuvn_vector_init. rewrite (vector_new n f_ninf ninf_usable). cbn [rbind]. split; [|split; intros H].
  - intros H. rewrite (vector_new n lb H). cbn [rbind]. eexists. split; [reflexivity|]. split; [|split; [|split; cbn; lia]].
    + apply (full_returns _ _ fz); [|reflexivity]. cbn. f_equal. apply full_vec.
    + apply (full_returns _ _ (sv lb)); [|exact (sv_starts lb H)]. cbn. f_equal. apply full_vec.
  - rewrite (proj1 (vector_refused n lb) H). reflexivity.
  - rewrite (proj2 (vector_refused n lb) H). reflexivity.
Qed.
(** UVNParamArray *)
Lemma uvn_array_construct nm s lb : (usable lb -> exists d, fuvn_array_init nm s lb = Ok d /\ fua_shape d = s /\ returns (f_member (fua_dict d) "mean") s (fun v => v = dzero) /\ returns (f_member (fua_dict d) "info") s (starts lb) /\
     fd_free_size (fua_dict d) = (2 * nprod s)%nat /\ fd_vector_size (fua_dict d) = (2 * nprod s)%nat) /\
  (lb = f_inf -> fuvn_array_init nm s lb = Raise ValueError) /\ (is_nan lb = true -> fuvn_array_init nm s lb = Raise AssertionError).
Proof.
  unfold fuvn_array_init. rewrite (array_new s f_ninf ninf_usable). cbn [rbind]. split; [|split; intros H].
  - intros H. rewrite (array_new s lb H). cbn [rbind]. eexists. split; [reflexivity|]. split; [reflexivity|]. split; [|split; [|split; cbn; unfold ModelFloatParams.farray_size; cbn; lia]].
    + apply (full_returns _ _ fz); reflexivity.
    + apply (full_returns _ _ (sv lb)); [reflexivity|exact (sv_starts lb H)].
  - rewrite (proj1 (array_refused s lb None) H). reflexivity.
  - rewrite (proj2 (array_refused s lb None) H). reflexivity.
Qed.
(** UVNMomentParamArray *)
Lemma uvn_moment_construct nm s lb : (usable lb -> exists d, fuvn_moment_init nm s lb = Ok d /\ fum_shape d = s /\ returns (fum_e d) s (fun v => v = dzero) /\ returns (fum_e_outer d) s (starts lb) /\
     fd_free_size (fum_dict d) = (2 * nprod s)%nat /\ fd_vector_size (fum_dict d) = (2 * nprod s)%nat) /\
  (lb = f_inf -> fuvn_moment_init nm s lb = Raise ValueError) /\ (is_nan lb = true -> fuvn_moment_init nm s lb = Raise AssertionError).
Proof.
  unfold fuvn_moment_init. rewrite (array_new s f_ninf ninf_usable). cbn [rbind]. split; [|split; intros H].
  - intros H. rewrite (array_new s lb H). cbn [rbind]. eexists. split; [reflexivity|]. split; [reflexivity|]. split; [|split; [|split; cbn; unfold ModelFloatParams.farray_size; cbn; lia]].
    + apply (full_returns _ _ fz); reflexivity.
    + apply (full_returns _ _ (sv lb)); [reflexivity|exact (sv_starts lb H)].
  - rewrite (proj1 (array_refused s lb None) H). reflexivity.
  - rewrite (proj2 (array_refused s lb None) H). reflexivity.
Qed.
(** MVNArray *)
Lemma mvn_array_construct nm s lb : (forall n t, s = n :: t -> usable lb -> exists d, fmvn_array_init nm s lb = Ok d /\ returns (f_member d "mean") s (fun v => v = dzero) /\ returns (f_member d "info") [n] (starts lb) /\
     fd_free_size d = (nprod s + n)%nat /\ fd_vector_size d = (nprod s + n)%nat) /\
  (s <> [] -> lb = f_inf -> fmvn_array_init nm s lb = Raise ValueError) /\ (s <> [] -> is_nan lb = true -> fmvn_array_init nm s lb = Raise AssertionError) /\
  (s = [] -> fmvn_array_init nm s lb = Raise IndexError).
Proof.
  unfold fmvn_array_init. rewrite (array_new s f_ninf ninf_usable). cbn [rbind]. split; [|split; [|split]].
  - intros n t -> H. rewrite (vector_new n lb H). cbn [rbind]. eexists. split; [reflexivity|]. split; [|split; [|split; cbn; unfold ModelFloatParams.farray_size; cbn; lia]].
    + apply (full_returns _ _ fz); reflexivity.
    + apply (full_returns _ _ (sv lb)); [|exact (sv_starts lb H)]. cbn. f_equal. apply full_vec.
  - intros N H. destruct s as [|n s]; [contradiction|]. rewrite (proj1 (vector_refused n lb) H). reflexivity.
  - intros N H. destruct s as [|n s]; [contradiction|]. rewrite (proj2 (vector_refused n lb) H). reflexivity.
  - intros ->. reflexivity.
Qed.
(** GammaParam *)
Lemma gamma_construct nm a b : (usable a -> usable b -> exists d, fgamma_init nm a b = Ok d /\ returns (f_member d "shape") [] (starts a) /\ returns (f_member d "rate") [] (starts b) /\ fd_free_size d = 2%nat /\ fd_vector_size d = 2%nat) /\
  (a = f_inf \/ (usable a /\ b = f_inf) -> fgamma_init nm a b = Raise ValueError) /\ (is_nan a = true \/ (usable a /\ is_nan b = true) -> fgamma_init nm a b = Raise AssertionError).
Proof.
  unfold fgamma_init. split; [|split].
  - intros A B. rewrite (scalar_new a A), (scalar_new b B). cbn [rbind]. eexists. split; [reflexivity|]. split; [|split; [|split; reflexivity]].
    + apply (full_returns _ _ (sv a)); [reflexivity|exact (sv_starts a A)].
    + apply (full_returns _ _ (sv b)); [reflexivity|exact (sv_starts b B)].
  - intros [H|[A H]]; [rewrite (proj1 (scalar_refused a) H); reflexivity|]. rewrite (scalar_new a A). cbn [rbind]. rewrite (proj1 (scalar_refused b) H). reflexivity.
  - intros [H|[A H]]; [rewrite (proj2 (scalar_refused a) H); reflexivity|]. rewrite (scalar_new a A). cbn [rbind]. rewrite (proj2 (scalar_refused b) H). reflexivity.
Qed.
(** DirichletParamArray *)
Lemma fle_zero_cases lb : fle fz lb = true -> usable lb \/ lb = f_inf.
Proof. destruct lb as [s|s| |s m e B]; intros H; [left; left; reflexivity|destruct s; [discriminate H|right; reflexivity]|discriminate H|left; left; reflexivity]. Qed.
Lemma dirichlet_construct nm s lb v : (~ dle dzero lb -> fdirichlet_init nm s lb v = Raise AssertionError) /\ (lb = f_inf -> fdirichlet_init nm s lb v = Raise ValueError) /\
  (dle dzero lb -> lb <> f_inf ->
     (v = None -> exists d, fdirichlet_init nm s lb v = Ok d /\ returns (f_member d "alpha") s (starts lb) /\ fd_free_size d = nprod s /\ fd_vector_size d = nprod s) /\
     (forall a, v = Some a -> (shape a = s -> exists d, fdirichlet_init nm s lb v = Ok d /\ f_member d "alpha" = Ok a /\ fd_free_size d = nprod s /\ fd_vector_size d = nprod s) /\
        (shape a <> s -> fdirichlet_init nm s lb v = Raise ValueError))).
Proof.
  unfold fdirichlet_init, rassert. split; [|split].
  - intros H. apply fle_false in H. change dzero with fz in H. rewrite H. reflexivity.
  - intros ->. reflexivity.
  - intros H N. apply (proj2 (fle_dle fz lb)) in H. destruct (fle_zero_cases lb H) as [U|U]; [|contradiction]. rewrite H. split.
    + intros ->. rewrite (array_new s lb U). cbn [rbind]. eexists. split; [reflexivity|]. split; [|split; cbn; unfold ModelFloatParams.farray_size; cbn; lia].
      apply (full_returns _ _ (sv lb)); [reflexivity|exact (sv_starts lb U)].
    + intros a ->. destruct (usable_order lb U) as [A B]. unfold ModelFloatParams.farray_init. rewrite A, B. change (fle f_inf f_inf) with true. cbn [negb]. unfold ModelFloatParams.farray_set. cbn [ModelFloatParams.fa_shape ModelFloatParams.fa_lb ModelFloatParams.fa_ub].
      split; [intros E; rewrite E, shape_eqb_refl|intros E; rewrite (shape_eqb_neq _ _ E); reflexivity]. cbn [rbind]. eexists. split; [reflexivity|]. split; [reflexivity|]. split; cbn; unfold ModelFloatParams.farray_size; cbn; lia.
Qed.
(** MVNParam and WishartParam: a positive definite matrix *)
Lemma diag_starts n lb : is_finite lb = true -> starts_diagonal n lb (mk_mat n n (ModelFloatMatrix.f_make_diagonal (fun _ => fadd lb f_one))).
Proof.
  intros F. split; [split; [reflexivity|apply (mk_mat_wf n n)]|]. intros i j Hi Hj. rewrite (mget_mk_mat dzero) by assumption. unfold ModelFloatMatrix.f_make_diagonal. destruct (Nat.eqb_spec i j); [|reflexivity].
  assert (E : fadd lb f_one = sv lb). { unfold sv, f_get_inbounds_value. destruct (inf_feq lb F) as (_ & _ & A & _). rewrite A. reflexivity. } rewrite E. apply sv_starts. left. exact F.
Qed.
Lemma zero_le lb : is_finite lb = true -> 0 <= B2R lb -> fle fz lb = true.
Proof. intros F P. apply fle_dle. apply dle_finite; [reflexivity|exact F|exact P]. Qed.
Lemma mvn_construct nm n lb : (is_finite lb = true -> 0 <= B2R lb -> exists d m, fmvn_init nm n lb = Ok d /\ returns (f_member d "mean") [n] (fun v => v = dzero) /\ f_member d "info" = Ok m /\ starts_diagonal n lb m /\
     fd_free_size d = (n + n * (n + 1) / 2)%nat /\ fd_vector_size d = (n + n * (n + 1) / 2)%nat) /\
  (~ dle dzero lb -> fmvn_init nm n lb = Raise AssertionError).
Proof.
  unfold fmvn_init. rewrite (vector_new n f_ninf ninf_usable). cbn [rbind]. unfold ModelFloatMatrix.fposdef_init, rassert. split.
  - intros F P. change ModelFloatMatrix.f_zero with fz. rewrite (zero_le lb F P). cbn [rbind]. eexists _, _. split; [reflexivity|]. split; [|split; [reflexivity|split; [apply diag_starts; exact F|split; reflexivity]]].
    apply (full_returns _ _ fz); [|reflexivity]. cbn. f_equal. apply full_vec.
  - intros H. apply fle_false in H. change ModelFloatMatrix.f_zero with fz. change dzero with fz in H. rewrite H. reflexivity.
Qed.
(** WishartParam *)
Lemma rank_exact n : (n < 2 ^ 52)%nat -> let lo := binary_normalize 53 1024 prec53 emax1024 mode_NE (Z.of_nat n - 1) 0 false in is_finite lo = true /\ B2R lo = INR n - 1.
Proof.
  intros H lo. assert (Hz : (Z.of_nat n < 2 ^ 52)%Z) by (apply Nat2Z.inj_lt in H; rewrite Nat2Z.inj_pow in H; exact H).
  assert (E : IZR (Z.of_nat n - 1) = INR n - 1) by (rewrite minus_IZR, <- INR_IZR_INZ; reflexivity).
  pose proof (LemmasFloat3.dint_B2R (Z.of_nat n - 1) ltac:(lia)) as B. rewrite E in B. split; [|exact B].
  pose proof (binary_normalize_correct 53 1024 prec53 emax1024 mode_NE (Z.of_nat n - 1) 0 false) as C. cbn zeta in C. rewrite Rlt_bool_true in C; [exact (proj1 (proj2 C))|].
  change (Rabs (rnd64 (F2R (Float radix2 (Z.of_nat n - 1) 0))) < bpow radix2 1024). apply LemmasFloat2.rnd64_fin with 53%Z; [lia|]. unfold F2R. cbn [Fnum Fexp]. change (bpow radix2 0) with 1. rewrite Rmult_1_r, <- abs_IZR. change (bpow radix2 53) with (IZR 9007199254740992). apply IZR_le. lia.
Qed.
Lemma wishart_construct nm n lb : (n < 2 ^ 52)%nat -> is_finite lb = true -> 0 <= B2R lb ->
  (forall o, o = None \/ (exists z, o = Some z /\ is_finite z = true /\ B2R z = 0) -> exists d p m, fwishart_init nm n lb o = Ok d /\ fd_getitem d "df" = Ok (FLeaf "df" (FScalar p)) /\ B2R (ModelFloatParams.fs_lb p) = INR n - 1 /\
     returns (f_member d "df") [] (fun v => is_finite v = true /\ B2R v = INR n) /\ f_member d "v" = Ok m /\ starts_diagonal 2 lb m) /\
  (forall x, is_finite x = true -> B2R x <> 0 -> INR n - 1 <= B2R x -> exists d p m, fwishart_init nm n lb (Some x) = Ok d /\ fd_getitem d "df" = Ok (FLeaf "df" (FScalar p)) /\ ModelFloatParams.fs_lb p = x /\
     returns (f_member d "df") [] (starts x) /\ f_member d "v" = Ok m /\ starts_diagonal 2 lb m) /\
  (forall x, is_finite x = true -> B2R x <> 0 -> B2R x < INR n - 1 -> fwishart_init nm n lb (Some x) = Raise AssertionError) /\
  fwishart_init nm n lb (Some f_inf) = Raise ValueError /\ fwishart_init nm n lb (Some f_ninf) = Raise AssertionError /\ fwishart_init nm n lb (Some B754_nan) = Raise AssertionError.
Proof.
  intros Hn F P. destruct (rank_exact n Hn) as [Fl El]. unfold fwishart_init. cbv zeta. set (lo := binary_normalize 53 1024 prec53 emax1024 mode_NE (Z.of_nat n - 1) 0 false) in *.
  assert (Pd : ModelFloatMatrix.fposdef_init 2 lb None = Ok (ModelFloatMatrix.mkFP 2 lb (mk_mat 2 2 (ModelFloatMatrix.f_make_diagonal (fun _ => fadd lb f_one))))).
  { unfold ModelFloatMatrix.fposdef_init, rassert. change ModelFloatMatrix.f_zero with fz. rewrite (zero_le lb F P). reflexivity. }
  assert (Self : fle lo lo = true) by (apply fle_dle, dle_finite; [exact Fl|exact Fl|lra]).
  assert (Ul : usable lo) by (left; exact Fl).
  assert (Sl : B2R (sv lo) = INR n /\ is_finite (sv lo) = true).
  { destruct (sv_starts lo Ul) as (A & _ & _ & B). specialize (B Fl). rewrite El in B. split; [|exact A]. rewrite B. replace (INR n - 1 + 1) with (INR n) by ring. rewrite INR_IZR_INZ.
    assert (Hz : (Z.of_nat n < 2 ^ 52)%Z) by (apply Nat2Z.inj_lt in Hn; rewrite Nat2Z.inj_pow in Hn; exact Hn). rewrite <- (LemmasFloat3.dint_B2R (Z.of_nat n)) by lia. apply rnd64_id. }
  assert (NZ : forall x, is_finite x = true -> B2R x <> 0 -> feq x fz = false).
  { intros x Fx Nx. unfold feq, Beqb. destruct (SpecFloat.SFeqb _ _) eqn:E; [|reflexivity]. exfalso. apply Nx. pose proof (Beqb_correct 53 1024 x fz Fx eq_refl) as C. unfold Beqb in C. rewrite E in C. symmetry in C. revert C. destruct (Req_bool_spec (B2R x) (B2R fz)) as [Q|]; [intros _; exact Q|discriminate]. }
  repeat match goal with |- _ /\ _ => split end.
  - intros o Ho. destruct Ho as [->|(z & -> & Fz & Z)];
      [|assert (M : feq z fz = true) by (unfold feq; rewrite (Beqb_correct 53 1024 z fz Fz eq_refl); apply Req_bool_true; exact Z); rewrite M];
      unfold rassert; rewrite Self, (scalar_new lo Ul); cbn [rbind]; rewrite Pd; cbn [rbind]; eexists _, _, _; (split; [reflexivity|]); (split; [reflexivity|]); (split; [exact El|]); (split; [|split; [reflexivity|apply diag_starts; exact F]]);
      (apply (full_returns _ _ (sv lo)); [reflexivity|]); split; apply Sl.
  - intros x Fx Nx Gx. assert (Ux : usable x) by (left; exact Fx). rewrite (NZ x Fx Nx). unfold rassert. assert (Le : fle lo x = true) by (apply fle_dle, dle_finite; [exact Fl|exact Fx|lra]). rewrite Le, (scalar_new x Ux). cbn [rbind]. rewrite Pd. cbn [rbind].
    eexists _, _, _. split; [reflexivity|]. split; [reflexivity|]. split; [reflexivity|]. split; [|split; [reflexivity|apply diag_starts; exact F]].
    apply (full_returns _ _ (sv x)); [reflexivity|apply sv_starts; exact Ux].
  - intros x Fx Nx Lx. rewrite (NZ x Fx Nx). unfold rassert. assert (Le : fle lo x = false) by (apply fle_false; rewrite (dle_finite lo x Fl Fx); lra). rewrite Le. reflexivity.
  - change (feq f_inf fz) with false. unfold rassert. rewrite fle_pinf. replace (negb (is_nan lo)) with true by (destruct lo; try discriminate Fl; reflexivity). reflexivity.
  - change (feq f_ninf fz) with false. unfold rassert. destruct (inf_feq lo Fl) as (_ & _ & A & _). rewrite A. reflexivity.
  - change (feq B754_nan fz) with false. unfold rassert. replace (fle lo B754_nan) with false; [reflexivity|]. symmetry. apply fle_false. apply LemmasFloat3.not_dle_nan.
Qed.
Lemma wishart_matrix nm n lb : (n < 2 ^ 52)%nat -> ~ dle dzero lb -> fwishart_init nm n lb None = Raise AssertionError.
Proof.
  intros Hn H. destruct (rank_exact n Hn) as [Fl El]. unfold fwishart_init. cbv zeta. set (lo := binary_normalize 53 1024 prec53 emax1024 mode_NE (Z.of_nat n - 1) 0 false) in *. unfold rassert.
  assert (Self : fle lo lo = true) by (apply fle_dle, dle_finite; [exact Fl|exact Fl|lra]). rewrite Self, (scalar_new lo (or_introl Fl)). cbn [rbind]. unfold ModelFloatMatrix.fposdef_init, rassert.
  apply fle_false in H. change ModelFloatMatrix.f_zero with fz. change dzero with fz in H. rewrite H. reflexivity.
Qed.
