(** Properties C136, C137 and C138: the parameters of distributions in IEEE-754 binary64 arithmetic: construction, and the moments of normal
    distributions. *)
From Coq Require Import String Reals ZArith List Lra Lia.
From Flocq Require Import Core BinarySingleNaN.
From Verif Require Import Res Nd RSum SpecFloat SpecFloatSimplex SpecFloatAcc SpecFloatMatrix SpecFloatCholesky SpecFloatFam SpecFloatFam2 ModelFloat ModelFloatDict ModelFloatFamilies SpecFloatDict SpecFloatDict3
  LemmasFloat LemmasFloat3 LemmasFloat4 LemmasFloatSimplex4 LemmasFloatMatrix2 LemmasFloatMatrix6 LemmasFloatCholesky2 LemmasFloatCholesky3 LemmasFloatCholesky4 LemmasFloatFam LemmasFloatFam2 LemmasFloatFam3 LemmasFloatFam4 LemmasFloatFam5 PropsFloat9 PropsFloat10.
From Verif Require Import SpecFloatFam.
From Verif Require ModelFloatParams ModelFloatSimplex ModelFloatMatrix ModelFloatStack.
Import List ListNotations.
Open Scope R_scope.
Set Bullet Behavior "Strict Subproofs".

(** ** C136: construction *)
(** UVNParam *)
Theorem C136_normal : forall nm lb, (usable lb -> exists d, fuvn_init nm lb = Ok d /\ returns (f_member d "mean") [] (fun v => v = dzero) /\ returns (f_member d "info") [] (starts lb) /\ fd_free_size d = 2%nat /\ fd_vector_size d = 2%nat) /\
  (lb = f_inf -> fuvn_init nm lb = Raise ValueError) /\ (is_nan lb = true -> fuvn_init nm lb = Raise AssertionError).
Proof. exact uvn_construct. Qed.
Print Assumptions C136_normal.
(** UVNParamVector *)
Theorem C136_normal_vector : forall nm n lb, (usable lb -> exists d, fuvn_vector_init nm n lb = Ok d /\ returns (f_member d "mean") [n] (fun v => v = dzero) /\ returns (f_member d "info") [n] (starts lb) /\ fd_free_size d = (2 * n)%nat /\ fd_vector_size d = (2 * n)%nat) /\
  (lb = f_inf -> fuvn_vector_init nm n lb = Raise ValueError) /\ (is_nan lb = true -> fuvn_vector_init nm n lb = Raise AssertionError).
Proof. exact uvn_vector_construct. Qed.
Print Assumptions C136_normal_vector.
(** UVNParamArray *)
Theorem C136_normal_array : forall nm s lb, (usable lb -> exists d, fuvn_array_init nm s lb = Ok d /\ fua_shape d = s /\ returns (f_member (fua_dict d) "mean") s (fun v => v = dzero) /\ returns (f_member (fua_dict d) "info") s (starts lb) /\
     fd_free_size (fua_dict d) = (2 * nprod s)%nat /\ fd_vector_size (fua_dict d) = (2 * nprod s)%nat) /\
  (lb = f_inf -> fuvn_array_init nm s lb = Raise ValueError) /\ (is_nan lb = true -> fuvn_array_init nm s lb = Raise AssertionError).
Proof. exact uvn_array_construct. Qed.
Print Assumptions C136_normal_array.
(** UVNMomentParamArray *)
Theorem C136_moment_array : forall nm s lb, (usable lb -> exists d, fuvn_moment_init nm s lb = Ok d /\ fum_shape d = s /\ returns (fum_e d) s (fun v => v = dzero) /\ returns (fum_e_outer d) s (starts lb) /\
     fd_free_size (fum_dict d) = (2 * nprod s)%nat /\ fd_vector_size (fum_dict d) = (2 * nprod s)%nat) /\
  (lb = f_inf -> fuvn_moment_init nm s lb = Raise ValueError) /\ (is_nan lb = true -> fuvn_moment_init nm s lb = Raise AssertionError).
Proof. exact uvn_moment_construct. Qed.
Print Assumptions C136_moment_array.
(** MVNArray *)
Theorem C136_multivariate_array : forall nm s lb, (forall n t, s = n :: t -> usable lb -> exists d, fmvn_array_init nm s lb = Ok d /\ returns (f_member d "mean") s (fun v => v = dzero) /\ returns (f_member d "info") [n] (starts lb) /\
     fd_free_size d = (nprod s + n)%nat /\ fd_vector_size d = (nprod s + n)%nat) /\
  (s <> [] -> lb = f_inf -> fmvn_array_init nm s lb = Raise ValueError) /\ (s <> [] -> is_nan lb = true -> fmvn_array_init nm s lb = Raise AssertionError) /\
  (s = [] -> fmvn_array_init nm s lb = Raise IndexError).
Proof. exact mvn_array_construct. Qed.
Print Assumptions C136_multivariate_array.
(** GammaParam *)
Theorem C136_gamma : forall nm a b, (usable a -> usable b -> exists d, fgamma_init nm a b = Ok d /\ returns (f_member d "shape") [] (starts a) /\ returns (f_member d "rate") [] (starts b) /\ fd_free_size d = 2%nat /\ fd_vector_size d = 2%nat) /\
  (a = f_inf \/ (usable a /\ b = f_inf) -> fgamma_init nm a b = Raise ValueError) /\ (is_nan a = true \/ (usable a /\ is_nan b = true) -> fgamma_init nm a b = Raise AssertionError).
Proof. exact gamma_construct. Qed.
Print Assumptions C136_gamma.
(** DirichletParamArray *)
Theorem C136_dirichlet : forall nm s lb v, (~ dle dzero lb -> fdirichlet_init nm s lb v = Raise AssertionError) /\ (lb = f_inf -> fdirichlet_init nm s lb v = Raise ValueError) /\
  (dle dzero lb -> lb <> f_inf ->
     (v = None -> exists d, fdirichlet_init nm s lb v = Ok d /\ returns (f_member d "alpha") s (starts lb) /\ fd_free_size d = nprod s /\ fd_vector_size d = nprod s) /\
     (forall a, v = Some a -> (shape a = s -> exists d, fdirichlet_init nm s lb v = Ok d /\ f_member d "alpha" = Ok a /\ fd_free_size d = nprod s /\ fd_vector_size d = nprod s) /\
        (shape a <> s -> fdirichlet_init nm s lb v = Raise ValueError))).
Proof. exact dirichlet_construct. Qed.
Print Assumptions C136_dirichlet.
(** MVNParam *)
Theorem C136_multivariate_normal : forall nm n lb, (is_finite lb = true -> 0 <= B2R lb -> exists d m, fmvn_init nm n lb = Ok d /\ returns (f_member d "mean") [n] (fun v => v = dzero) /\ f_member d "info" = Ok m /\ starts_diagonal n lb m /\
     fd_free_size d = (n + n * (n + 1) / 2)%nat /\ fd_vector_size d = (n + n * (n + 1) / 2)%nat) /\
  (~ dle dzero lb -> fmvn_init nm n lb = Raise AssertionError).
Proof. exact mvn_construct. Qed.
Print Assumptions C136_multivariate_normal.
(** WishartParam; a min_df of 0 counts as not given *)
Theorem C136_wishart : forall nm n lb, (n < 2 ^ 52)%nat -> is_finite lb = true -> 0 <= B2R lb ->
  (forall o, o = None \/ (exists z, o = Some z /\ is_finite z = true /\ B2R z = 0) -> exists d p m, fwishart_init nm n lb o = Ok d /\ fd_getitem d "df" = Ok (FLeaf "df" (FScalar p)) /\ B2R (ModelFloatParams.fs_lb p) = INR n - 1 /\
     returns (f_member d "df") [] (fun v => is_finite v = true /\ B2R v = INR n) /\ f_member d "v" = Ok m /\ starts_diagonal 2 lb m) /\
  (forall x, is_finite x = true -> B2R x <> 0 -> INR n - 1 <= B2R x -> exists d p m, fwishart_init nm n lb (Some x) = Ok d /\ fd_getitem d "df" = Ok (FLeaf "df" (FScalar p)) /\ ModelFloatParams.fs_lb p = x /\
     returns (f_member d "df") [] (starts x) /\ f_member d "v" = Ok m /\ starts_diagonal 2 lb m) /\
  (forall x, is_finite x = true -> B2R x <> 0 -> B2R x < INR n - 1 -> fwishart_init nm n lb (Some x) = Raise AssertionError) /\
  fwishart_init nm n lb (Some f_inf) = Raise ValueError /\ fwishart_init nm n lb (Some f_ninf) = Raise AssertionError /\ fwishart_init nm n lb (Some B754_nan) = Raise AssertionError.
Proof. exact wishart_construct. Qed.
Print Assumptions C136_wishart.
Theorem C136_wishart_matrix_bound : forall nm n lb, (n < 2 ^ 52)%nat -> ~ dle dzero lb -> fwishart_init nm n lb None = Raise AssertionError.
Proof. exact wishart_matrix. Qed.
Print Assumptions C136_wishart_matrix_bound.
(** an object of any of these classes just made can be read as a free vector and set to it, and moves little *)
Theorem C136_fresh : forall fexp flog fsum fdot fchol, exp_good fexp -> log_good flog -> sums fsum -> matmul_good fdot -> cholesky_good fchol -> cholesky_close fchol -> cholesky_succeeds fchol ->
  forall d, fresh d -> exists w d', fd_get_free flog fchol d = Ok w /\ length w = fd_free_size d /\ fd_set_free fexp flog fsum fdot d w = (d', Ok tt) /\
    Forall2 (fun m m' => fst m' = fst m /\ moved_little (snd m) (snd m')) (members d) (members d').
Proof. exact fresh_refresh. Qed.
Print Assumptions C136_fresh.

(** ** C137: e(), var() and e_outer() of UVNParam, UVNParamVector and UVNParamArray *)
(** the variance is the correctly rounded inverse of the information; the second moment is within 4 units of 2^-53 *)
Theorem C137_moments : forall fsq, squares fsq -> forall d s m i, f_member d "mean" = Ok m -> f_member d "info" = Ok i -> proper s m -> proper s i ->
  (forall k, (k < nprod s)%nat -> fair_mean (entry m k) /\ fair_info (entry i k)) ->
  fuvn_e d = Ok m /\ exists v o, fuvn_var d = Ok v /\ fuvn_e_outer fsq d = Ok o /\ proper s v /\ proper s o /\
    forall k, (k < nprod s)%nat -> let M := B2R (entry m k) in let I := B2R (entry i k) in
      is_finite (entry v k) = true /\ B2R (entry v k) = rnd64 (1 / I) /\ 0 < B2R (entry v k) /\ within 1 (entry v k) (1 / I) /\ within 4 (entry o k) (M ^ 2 + 1 / I).
Proof. exact uvn_moments. Qed.
Print Assumptions C137_moments.
(** set_free with calm free values: the means are the free values themselves, the information is never below its bound, and the moments are those *)
Theorem C137_normal_vector : forall fsq, squares fsq -> forall fexp flog fsum fdot, exp_good fexp -> forall nm n lb d x, bounded500 lb -> 0 <= B2R lb -> fuvn_vector_init nm n lb = Ok d -> length x = (2 * n)%nat -> Forall calm x ->
  exists d', fd_set_free fexp flog fsum fdot d x = (d', Ok tt) /\ exists m i v o, fuvn_e d' = Ok m /\ f_member d' "info" = Ok i /\ fuvn_var d' = Ok v /\ fuvn_e_outer fsq d' = Ok o /\ proper [n] m /\ proper [n] i /\ proper [n] v /\ proper [n] o /\
    forall k, (k < nprod [n])%nat -> let M := B2R (entry m k) in let I := B2R (entry i k) in
      entry m k = nth k x dzero /\ dle lb (entry i k) /\ value_close lb f_inf (nth (nprod [n] + k) x dzero) (entry i k) /\
      0 < B2R (entry v k) /\ within 1 (entry v k) (1 / I) /\ within 4 (entry o k) (M ^ 2 + 1 / I).
Proof.
  intros fsq Hq fexp flog fsum fdot He nm n lb d x B P E L C. destruct (uvn_vector_free fexp flog fsum fdot nm n lb d x (or_introl (proj1 B)) E L) as (d' & S & H). exists d'. split; [exact S|].
  apply (free_moments fsq Hq fexp He [n] lb x d' B P); [rewrite nprod_1; exact L|exact C|exact H].
Qed.
Print Assumptions C137_normal_vector.
Theorem C137_normal_array : forall fsq, squares fsq -> forall fexp flog fsum fdot, exp_good fexp -> forall nm s lb d x, bounded500 lb -> 0 <= B2R lb -> fuvn_array_init nm s lb = Ok d -> length x = (2 * nprod s)%nat -> Forall calm x ->
  exists d', fd_set_free fexp flog fsum fdot (fua_dict d) x = (d', Ok tt) /\ exists m i v o, fuvn_e d' = Ok m /\ f_member d' "info" = Ok i /\ fuvn_var d' = Ok v /\ fuvn_e_outer fsq d' = Ok o /\ proper s m /\ proper s i /\ proper s v /\ proper s o /\
    forall k, (k < nprod s)%nat -> let M := B2R (entry m k) in let I := B2R (entry i k) in
      entry m k = nth k x dzero /\ dle lb (entry i k) /\ value_close lb f_inf (nth (nprod s + k) x dzero) (entry i k) /\
      0 < B2R (entry v k) /\ within 1 (entry v k) (1 / I) /\ within 4 (entry o k) (M ^ 2 + 1 / I).
Proof.
  intros fsq Hq fexp flog fsum fdot He nm s lb d x B P E L C. destruct (uvn_array_free fexp flog fsum fdot nm s lb d x (or_introl (proj1 B)) E L) as (d' & S & H). exists d'. split; [exact S|].
  exact (free_moments fsq Hq fexp He s lb x d' B P L C H).
Qed.
Print Assumptions C137_normal_array.
(** a scalar that was set from a free vector has the shape (1,) *)
Theorem C137_normal : forall fsq, squares fsq -> forall fexp flog fsum fdot, exp_good fexp -> forall nm lb d x, bounded500 lb -> 0 <= B2R lb -> fuvn_init nm lb = Ok d -> length x = 2%nat -> Forall calm x ->
  exists d', fd_set_free fexp flog fsum fdot d x = (d', Ok tt) /\ exists m i v o, fuvn_e d' = Ok m /\ f_member d' "info" = Ok i /\ fuvn_var d' = Ok v /\ fuvn_e_outer fsq d' = Ok o /\ proper [1%nat] m /\ proper [1%nat] i /\ proper [1%nat] v /\ proper [1%nat] o /\
    forall k, (k < nprod [1%nat])%nat -> let M := B2R (entry m k) in let I := B2R (entry i k) in
      entry m k = nth k x dzero /\ dle lb (entry i k) /\ value_close lb f_inf (nth (nprod [1%nat] + k) x dzero) (entry i k) /\
      0 < B2R (entry v k) /\ within 1 (entry v k) (1 / I) /\ within 4 (entry o k) (M ^ 2 + 1 / I).
Proof.
  intros fsq Hq fexp flog fsum fdot He nm lb d x B P E L C. destruct (uvn_free fexp flog fsum fdot nm lb d x (or_introl (proj1 B)) E L) as (d' & S & H). exists d'. split; [exact S|].
  exact (free_moments fsq Hq fexp He [1%nat] lb x d' B P L C H).
Qed.
Print Assumptions C137_normal.

(** ** C138: UVNMomentParamArray after any history *)
(** set_from_uvn_param_array: the moments are those of the argument; var() is never negative, close to 1 / info relative to mean^2 + 1 / info
    only, and exactly 0 once mean^2 * info reaches 2^55 *)
Theorem C138_from_normal : forall fsq, squares fsq -> forall fexp flog fsum fdot nm s lb x q m i, history fsq (fd_set_free fexp flog fsum fdot) fd_set_vector nm s lb x ->
  fua_shape q = s -> f_member (fua_dict q) "mean" = Ok m -> f_member (fua_dict q) "info" = Ok i -> proper s m -> proper s i ->
  (forall k, (k < nprod s)%nat -> fair_mean (entry m k) /\ fair_info (entry i k)) ->
  exists x' o w, fum_set_from_uvn fsq x q = (x', Ok tt) /\ fum_e x' = Ok m /\ fum_e_outer x' = Ok o /\ fuvn_e_outer fsq (fua_dict q) = Ok o /\ fum_var fsq x' = Ok w /\ proper s o /\ proper s w /\
    forall k, (k < nprod s)%nat -> let M := B2R (entry m k) in let I := B2R (entry i k) in
      within 4 (entry o k) (M ^ 2 + 1 / I) /\ is_finite (entry w k) = true /\ 0 <= B2R (entry w k) /\ Rabs (B2R (entry w k) - 1 / I) <= units 4 * (M ^ 2 + 1 / I) /\ (bpow radix2 55 <= M ^ 2 * I -> B2R (entry w k) = 0).
Proof. exact set_from_uvn. Qed.
Print Assumptions C138_from_normal.
(** set_from_constant: the variance is exactly 0 *)
Theorem C138_from_constant : forall fsq, squares fsq -> forall fexp flog fsum fdot nm s lb x c, history fsq (fd_set_free fexp flog fsum fdot) fd_set_vector nm s lb x ->
  ModelFloatParams.fa_shape c = s -> proper s (ModelFloatParams.farray_get c) -> (forall k, (k < nprod s)%nat -> fair_mean (entry (ModelFloatParams.farray_get c) k)) ->
  exists x' o w, fum_set_from_constant fsq x c = (x', Ok tt) /\ fum_e x' = Ok (ModelFloatParams.farray_get c) /\ fum_e_outer x' = Ok o /\ fum_var fsq x' = Ok w /\ proper s o /\ proper s w /\
    forall k, (k < nprod s)%nat -> let C := B2R (entry (ModelFloatParams.farray_get c) k) in
      is_finite (entry o k) = true /\ Rabs (B2R (entry o k) - C ^ 2) <= units 2 * C ^ 2 + bpow radix2 (-1074) /\ is_finite (entry w k) = true /\ B2R (entry w k) = 0.
Proof. exact set_from_constant. Qed.
Print Assumptions C138_from_constant.
(** another shape: AssertionError, and nothing has changed *)
Theorem C138_shape : forall fsq fexp flog fsum fdot nm s lb x, history fsq (fd_set_free fexp flog fsum fdot) fd_set_vector nm s lb x ->
  (forall q, fua_shape q <> s -> fum_set_from_uvn fsq x q = (x, Raise AssertionError)) /\ (forall c, ModelFloatParams.fa_shape c <> s -> fum_set_from_constant fsq x c = (x, Raise AssertionError)).
Proof. exact set_mismatch. Qed.
Print Assumptions C138_shape.

(** ** the hypotheses are met *)
Lemma mild3 : mild (dint 3).
Proof. right. split; [reflexivity|]. rewrite dint_B2R by reflexivity. rewrite Rabs_pos_eq by lra. change (bpow radix2 50) with 1125899906842624. lra. Qed.
Example C136_example : usable (dint 3) /\ usable f_ninf /\ starts (dint 3) (dint 4) /\ ~ dle dzero (dint (-1)) /\
  (exists d, fuvn_vector_init "q" 2 (dint 3) = Ok d /\ fresh d) /\ (exists d, fmvn_init "q" 3 (dint 3) = Ok d /\ fresh d) /\ (exists d, fwishart_init "w" 3 (dint 3) None = Ok d /\ fresh d).
Proof.
  assert (E3 : B2R (dint 3) = 3) by (apply dint_B2R; reflexivity). assert (E4 : B2R (dint 4) = 4) by (apply dint_B2R; reflexivity).
  assert (M : mild_diag (dint 3)) by (split; [reflexivity|]; rewrite E3; change (bpow radix2 50) with 1125899906842624; lra). assert (N : INR 3 <= bpow radix2 20) by (change (INR 3) with (1 + 1 + 1); change (bpow radix2 20) with 1048576; lra).
  split; [left; reflexivity|]. split; [right; reflexivity|]. split; [|split; [|split; [|split]]].
  - split; [reflexivity|]. split; [apply dle_finite; [reflexivity|reflexivity|rewrite E3, E4; lra]|]. split; [discriminate|]. intros _. rewrite E3. replace (3 + 1) with (B2R (dint 4)) by (rewrite E4; ring). symmetry. apply rnd64_id.
  - rewrite dle_finite by reflexivity. rewrite dint_B2R by reflexivity. cbn. lra.
  - destruct (proj1 (C136_normal_vector "q" 2 (dint 3)) (or_introl eq_refl)) as (d & E & _). exists d. split; [exact E|]. exact (fr_uvn_vector _ _ _ _ mild3 E).
  - destruct (proj1 (C136_multivariate_normal "q" 3 (dint 3)) eq_refl ltac:(rewrite E3; lra)) as (d & m & E & _). exists d. split; [exact E|]. exact (fr_mvn _ _ _ _ N M E).
  - destruct (proj1 (C136_wishart "w" 3 (dint 3) ltac:(apply (Nat.lt_le_trans _ (2 ^ 2)); [cbn; lia|apply Nat.pow_le_mono_r; lia]) eq_refl ltac:(rewrite E3; lra)) None (or_introl eq_refl)) as (d & p & m & E & _). exists d. split; [exact E|]. exact (fr_wishart _ _ _ _ N M E).
Qed.
(** free values 1 and 2 of one normal distribution with information above 0: mean 1, and the second moment *)
Lemma calm_small z : (Z.abs z <= 8)%Z -> is_finite (dint z) = true -> calm (dint z).
Proof. intros H F. split; [exact F|]. rewrite dint_B2R by lia. rewrite <- abs_IZR. apply IZR_le in H. lra. Qed.
Example C137_example : exists d d', fuvn_vector_init "q" 1 (dint 0) = Ok d /\ fd_set_free ideal_exp ideal_log add_in_order (fun _ _ => seq_dot) d [dint 1; dint 2] = (d', Ok tt) /\
  exists m v o, fuvn_e d' = Ok m /\ fuvn_var d' = Ok v /\ fuvn_e_outer (fun x => fmul x x) d' = Ok o /\ entry m 0 = dint 1 /\ 0 < B2R (entry v 0) /\ is_finite (entry o 0) = true.
Proof.
  destruct base2 as (_ & H2 & H3). destruct (proj1 (C136_normal_vector "q" 1 (dint 0)) (or_introl eq_refl)) as (d & E & _).
  destruct (C137_normal_vector _ fmul_squares ideal_exp ideal_log add_in_order (fun _ _ => seq_dot) ideal_exp_good "q" 1 (dint 0) d [dint 1; dint 2] H2 H3 E eq_refl) as (d' & S & m & i & v & o & Em & _ & Ev & Eo & _ & _ & _ & _ & K).
  { apply Forall_cons; [apply calm_small; [lia|reflexivity]|]. apply Forall_cons; [apply calm_small; [lia|reflexivity]|apply Forall_nil]. }
  exists d, d'. split; [exact E|]. split; [exact S|]. exists m, v, o. split; [exact Em|]. split; [exact Ev|]. split; [exact Eo|]. destruct (K 0%nat ltac:(rewrite nprod_1; lia)) as (K1 & _ & _ & K2 & _ & K3). split; [exact K1|]. split; [exact K2|exact (proj1 K3)].
Qed.
(** mean 2^30 and information 1: the variance should be 1 and is 0 *)
Definition big : fuvn_array := FUvnArray (FDict "q" [("mean"%string, FLeaf "mean" (FArray (ModelFloatParams.mkFA [1%nat] f_ninf f_inf (Nd [1%nat] [dint (2 ^ 30)])))); ("info"%string, FLeaf "info" (FArray (ModelFloatParams.mkFA [1%nat] (dint 0) f_inf (Nd [1%nat] [dint 1]))))] 2 2) [1%nat].
Example C138_example : exists x x' w, fuvn_moment_init "m" [1%nat] (dint 0) = Ok x /\ fum_set_from_uvn (fun x => fmul x x) x big = (x', Ok tt) /\ fum_var (fun x => fmul x x) x' = Ok w /\ B2R (entry w 0) = 0 /\ 1 / B2R (dint 1) = 1.
Proof.
  destruct (proj1 (C136_moment_array "m" [1%nat] (dint 0)) (or_introl eq_refl)) as (x & E & _). assert (E30 : B2R (dint (2 ^ 30)) = 1073741824) by (apply dint_B2R; reflexivity). assert (E1 : B2R (dint 1) = 1) by (apply dint_B2R; reflexivity).
  destruct (C138_from_normal _ fmul_squares ideal_exp ideal_log add_in_order (fun _ _ => seq_dot) "m" [1%nat] (dint 0) x big (Nd [1%nat] [dint (2 ^ 30)]) (Nd [1%nat] [dint 1]) (h_init _ _ _ _ _ _ x E) eq_refl eq_refl eq_refl) as (x' & o & w & S & _ & _ & _ & V & _ & _ & K).
  { split; reflexivity. } { split; reflexivity. }
  { intros k Hk. rewrite nprod_1 in Hk. destruct k; [|lia]. unfold entry. cbn [nth data]. split.
    - split; [reflexivity|]. rewrite E30, Rabs_pos_eq by lra. apply Rle_trans with (bpow radix2 30); [change (bpow radix2 30) with 1073741824; lra|apply bpow_le; lia].
    - split; [reflexivity|]. rewrite E1. split; change 1 with (bpow radix2 0); apply bpow_le; lia. }
  exists x, x', w. split; [exact E|]. split; [exact S|]. split; [exact V|]. split; [|rewrite E1; field]. apply (K 0%nat); [rewrite nprod_1; lia|]. unfold entry. cbn [nth data]. rewrite E30, E1. change (bpow radix2 55) with 36028797018963968. lra.
Qed.
