(** Properties C123-C125: positive definite matrix parameters in IEEE-754 binary64 arithmetic. *)
From Coq Require Import Reals ZArith List Lra Lia.
From Flocq Require Import Core BinarySingleNaN.
From Verif Require Import Res Nd RSum SpecFloat SpecFloatSimplex SpecFloatAcc SpecFloatMatrix ModelFloat ModelFloatMatrix SpecFloatReach
  LemmasFloat LemmasFloat3 LemmasFloat4 LemmasFloatSimplex4 LemmasFloatMatrix LemmasFloatMatrix2 LemmasFloatMatrix3 LemmasFloatMatrix4 LemmasFloatMatrix5 LemmasFloatMatrix6.
Import List ListNotations.
Open Scope R_scope.
Set Bullet Behavior "Strict Subproofs".

(** C123: set_free stores a symmetric matrix of finite numbers, close to the exact one *)
Theorem C123_accuracy : forall (fexp : dbl -> dbl), exp_good fexp -> forall fdot, matmul_good fdot -> forall n, INR n <= bpow radix2 20 ->
  forall lb, bounded500 lb -> 0 <= B2R lb -> forall p x, reachable fexp fdot n lb p -> calm_free n x ->
  exists p', fposdef_set_free fexp fdot p x = Ok p' /\ shape (fposdef_get p') = [n; n] /\
    forall i j, (i < n)%nat -> (j < n)%nat -> mget dzero (fposdef_get p') i j = mget dzero (fposdef_get p') j i /\ is_finite (mget dzero (fposdef_get p') i j) = true /\
      Rabs (B2R (mget dzero (fposdef_get p') i j) - exact_matrix n (B2R lb) (reals x) i j) <= matrix_error n (B2R lb) (reals x) i j.
Proof. intros fexp He fdot Hd n Hn lb Hlb Hlb0 p x R C. exact (set_free_accurate fexp He fdot Hd n x C lb Hlb Hlb0 Hn p R). Qed.
Print Assumptions C123_accuracy.
Theorem C123_never_nan : forall (fexp : dbl -> dbl) fdot n lb p, reachable fexp fdot n lb p -> shape (fposdef_get p) = [n; n] /\
  forall i j, (i < n)%nat -> (j < n)%nat -> number (mget dzero (fposdef_get p) i j) /\ same (mget dzero (fposdef_get p) i j) (mget dzero (fposdef_get p) j i).
Proof. exact reachable_numbers. Qed.
Print Assumptions C123_never_nan.
Theorem C123_raises : forall (fexp : dbl -> dbl), exp_good fexp -> forall fdot, matmul_good fdot -> forall n lb p x, reachable fexp fdot n lb p ->
  length x <> triangle n \/ (length x = triangle n /\ exists i, (i < n)%nat /\ is_finite (at_ld dzero x i i) = false) -> fposdef_set_free fexp fdot p x = Raise ValueError.
Proof.
  intros fexp He fdot Hd n lb p x R [L|(L & i & Hi & F)]; [exact (proj1 (wrong_length fexp fdot n lb p x R L))|exact (diag_raises fexp He fdot Hd n lb p x i R L Hi F)].
Qed.
Print Assumptions C123_raises.
Theorem C123_row_lost : forall (fexp : dbl -> dbl), exp_good fexp -> forall fdot, matmul_good fdot -> forall n lb p x i, reachable fexp fdot n lb p -> calm_free n x ->
  (i < n)%nat -> B2R (at_ld dzero x i i) <= -40 -> (forall k, (k < i)%nat -> B2R (at_ld dzero x i k) = 0) -> forall p', fposdef_set_free fexp fdot p x = Ok p' ->
  forall j, (j < n)%nat -> same (mget dzero (fposdef_get p') i j) (if Nat.eqb i j then lb else dzero) /\ same (mget dzero (fposdef_get p') j i) (if Nat.eqb i j then lb else dzero).
Proof. exact row_lost. Qed.
Print Assumptions C123_row_lost.

(** C124: what get_free returns, and which free values come back *)
Theorem C124_entries : forall (fexp flog : dbl -> dbl), log_good flog -> forall fdot fchol, cholesky_good fchol -> forall n lb p w, reachable fexp fdot n lb p ->
  fposdef_get_free flog fchol p = Ok w -> exists c, fchol (lowered n lb (fposdef_get p)) = Ok c /\ length w = triangle n /\ forall i, (i < n)%nat ->
    (forall j, (j < i)%nat -> same (at_ld dzero w i j) (mget dzero c i j)) /\
    (is_finite (mget dzero c i i) = true -> B2R (mget dzero c i i) <= bpow radix2 900 -> is_finite (at_ld dzero w i i) = true /\
       Rabs (B2R (at_ld dzero w i i) - ln (B2R (mget dzero c i i))) <= units 12 * (1 + Rabs (ln (B2R (mget dzero c i i))) + B2R (mget dzero c i i))) /\
    (is_finite (mget dzero c i i) = true -> bpow radix2 64 <= B2R (mget dzero c i i) -> exists s, at_ld dzero w i i = B754_zero s).
Proof. exact get_free_entries. Qed.
Print Assumptions C124_entries.
Theorem C124_raises : forall (fexp flog : dbl -> dbl) fdot fchol, cholesky_good fchol -> forall n lb p e, reachable fexp fdot n lb p ->
  (fposdef_get_free flog fchol p = Raise e <-> fchol (lowered n lb (fposdef_get p)) = Raise e).
Proof.
  intros fexp flog fdot fchol Hc n lb p e R. split; [|exact (get_free_raises fexp flog fdot fchol Hc n lb p e R)].
  rewrite (get_free_unfold fexp flog fdot fchol Hc n lb p R). destruct (fchol (lowered n lb (fposdef_get p))); congruence.
Qed.
Print Assumptions C124_raises.
Theorem C124_first_back : forall (fexp flog : dbl -> dbl), exp_good fexp -> log_good flog -> forall fdot, matmul_good fdot -> forall fchol, cholesky_good fchol ->
  forall n, INR n <= bpow radix2 20 -> (0 < n)%nat -> forall lb, bounded500 lb -> 0 <= B2R lb -> forall x, calm_free n x ->
  forall p p' w, reachable fexp fdot n lb p -> fposdef_set_free fexp fdot p x = Ok p' -> eps n * first_condition (B2R lb) (B2R (at_ld dzero x 0 0)) <= / 64 ->
  fposdef_get_free flog fchol p' = Ok w ->
  is_finite (at_ld dzero w 0 0) = true /\ Rabs (B2R (at_ld dzero w 0 0) - B2R (at_ld dzero x 0 0)) <= first_error n (B2R lb) (B2R (at_ld dzero x 0 0)).
Proof. exact first_back. Qed.
Print Assumptions C124_first_back.
Theorem C124_one : forall (fexp flog : dbl -> dbl), exp_good fexp -> log_good flog -> forall fdot, matmul_good fdot -> forall fchol, cholesky_good fchol ->
  forall lb, bounded500 lb -> 0 <= B2R lb -> forall p (x : dbl), reachable fexp fdot 1 lb p -> calm x -> eps 1 * first_condition (B2R lb) (B2R x) <= / 64 ->
  exists p' w, fposdef_set_free fexp fdot p [x] = Ok p' /\ fposdef_get_free flog fchol p' = Ok [w] /\ is_finite w = true /\ Rabs (B2R w - B2R x) <= first_error 1 (B2R lb) (B2R x).
Proof. exact one_back. Qed.
Print Assumptions C124_one.
Theorem C124_low_lost : forall (fexp flog : dbl -> dbl), exp_good fexp -> forall fdot, matmul_good fdot -> forall fchol, cholesky_good fchol ->
  forall n lb p x p', reachable fexp fdot n lb p -> length x = triangle n -> (0 < n)%nat -> is_finite lb = true -> is_finite (at_ld dzero x 0 0) = true -> B2R (at_ld dzero x 0 0) <= -40 ->
  fposdef_set_free fexp fdot p x = Ok p' -> fposdef_get_free flog fchol p' = Raise LinAlgError.
Proof.
  intros fexp flog He fdot Hd fchol Hc n lb p x p' R L Hn Fl F B H.
  exact (bound_only_raises fexp flog fdot fchol Hc n lb p' (r_set_free _ _ _ _ _ _ _ R H) Hn Fl (first_row_lost fexp He fdot Hd n lb p x p' R L Hn F B H)).
Qed.
Print Assumptions C124_low_lost.
Theorem C124_high_lost : forall (fexp flog : dbl -> dbl), exp_good fexp -> log_good flog -> forall fdot, matmul_good fdot -> forall fchol, cholesky_good fchol ->
  forall n, INR n <= bpow radix2 20 -> (0 < n)%nat -> forall lb, bounded500 lb -> 0 <= B2R lb -> forall x, calm_free n x ->
  forall p p' w, reachable fexp fdot n lb p -> fposdef_set_free fexp fdot p x = Ok p' -> 45 <= B2R (at_ld dzero x 0 0) -> B2R lb <= exp (2 * B2R (at_ld dzero x 0 0)) ->
  fposdef_get_free flog fchol p' = Ok w -> exists s, at_ld dzero w 0 0 = B754_zero s.
Proof. exact first_high_lost. Qed.
Print Assumptions C124_high_lost.
Theorem C124_default_lost : forall (fexp flog : dbl -> dbl) (fdot : nat -> nat -> list dbl -> list dbl -> dbl) fchol, cholesky_good fchol -> forall n lb p, fposdef_init n lb None = Ok p -> (0 < n)%nat ->
  is_finite lb = true -> bpow radix2 54 <= B2R lb -> fposdef_get_free flog fchol p = Raise LinAlgError.
Proof. exact default_raises. Qed.
Print Assumptions C124_default_lost.

(** C125: the vector interface *)
Theorem C125_vector : forall (fexp : dbl -> dbl) fdot n lb p x, reachable fexp fdot n lb p -> length x = triangle n ->
  (forall i, (i < n)%nat -> is_finite (at_ld dzero x i i) = true) -> (forall i j, (j < i)%nat -> (i < n)%nat -> number (at_ld dzero x i j)) ->
  exists p' w, fposdef_set_vector p x = Ok p' /\ shape (fposdef_get p') = [n; n] /\
    (forall i j, (j < i)%nat -> (i < n)%nat -> same (mget dzero (fposdef_get p') i j) (at_ld dzero x i j) /\ same (mget dzero (fposdef_get p') j i) (at_ld dzero x i j)) /\
    (forall i, (i < n)%nat -> same (mget dzero (fposdef_get p') i i) (kept (at_ld dzero x i i))) /\
    fposdef_get_vector p' = Ok w /\ length w = triangle n /\
    (forall i j, (j < i)%nat -> (i < n)%nat -> same (at_ld dzero w i j) (at_ld dzero x i j)) /\
    (forall i, (i < n)%nat -> same (at_ld dzero w i i) (kept (at_ld dzero x i i))).
Proof. exact vector_ok. Qed.
Print Assumptions C125_vector.
Theorem C125_raises : forall (fexp : dbl -> dbl) fdot n lb p x, reachable fexp fdot n lb p ->
  length x <> triangle n \/ (length x = triangle n /\ exists i j, (j <= i)%nat /\ (i < n)%nat /\ (is_nan (at_ld dzero x i j) = true \/ (i = j /\ is_finite (at_ld dzero x i i) = false))) ->
  fposdef_set_vector p x = Raise ValueError.
Proof.
  intros fexp fdot n lb p x R [L|(L & i & j & Hj & Hi & F)]; [exact (proj2 (wrong_length fexp fdot n lb p x R L))|exact (vector_raises fexp fdot n lb p x i j R L Hj Hi F)].
Qed.
Print Assumptions C125_raises.
Theorem C125_again : forall (fexp : dbl -> dbl) fdot n lb p, reachable fexp fdot n lb p ->
  (forall i, (i < n)%nat -> is_finite (mget dzero (fposdef_get p) i i) = true /\ Rabs (B2R (mget dzero (fposdef_get p) i i)) < bpow radix2 1023) ->
  exists v p', fposdef_get_vector p = Ok v /\ length v = triangle n /\ fposdef_set_vector p v = Ok p' /\
    forall i j, (i < n)%nat -> (j < n)%nat -> same (mget dzero (fposdef_get p') i j) (mget dzero (fposdef_get p) i j).
Proof. exact vector_again. Qed.
Print Assumptions C125_again.

(** ** Instances *)
(** the contracts on A @ A.T and on the Cholesky factorisation are met by the textbook loops *)
Example C123_contracts : matmul_good (fun _ _ => seq_dot) /\ cholesky_good textbook_cholesky /\ exp_good ideal_exp /\ log_good ideal_log.
Proof. exact (conj seq_dot_good (conj textbook_cholesky_good (conj ideal_exp_good ideal_log_good))). Qed.

Lemma calm_two (a b c : Z) : (Z.abs a <= 300)%Z -> (Z.abs b <= 300)%Z -> (Z.abs c <= 300)%Z -> is_finite (dint a) = true -> is_finite (dint b) = true -> is_finite (dint c) = true ->
  calm_free 2 [dint a; dint b; dint c].
Proof.
  intros Ha Hb Hc Fa Fb Fc. assert (K : forall z, (Z.abs z <= 300)%Z -> Rabs (B2R (dint z)) <= 300) by (intros z Hz; rewrite dint_B2R, <- abs_IZR by lia; apply IZR_le; exact Hz).
  split; [reflexivity|]. split.
  - intros [|[|i]] Hi; [split; [exact Fa|apply K; exact Ha]|split; [exact Fc|apply K; exact Hc]|lia].
  - intros [|[|i]] [|j] Hi Hj; try lia. split; [exact Fb|]. eapply Rle_trans; [apply K; exact Hb|]. apply Rle_trans with (bpow radix2 9); [change (bpow radix2 9) with 512; lra|apply bpow_le; lia].
Qed.
Lemma two_small : INR 2 <= bpow radix2 20.
Proof. apply Rle_trans with (bpow radix2 1); [change (INR 2) with (1 + 1); change (bpow radix2 1) with 2; lra|apply bpow_le; lia]. Qed.
Lemma small_bound z : (0 <= z <= 300)%Z -> is_finite (dint z) = true -> bounded500 (dint z) /\ 0 <= B2R (dint z).
Proof.
  intros Hz F. rewrite dint_B2R by lia. split; [split; [exact F|]|apply IZR_le; lia]. rewrite dint_B2R, <- abs_IZR by lia.
  apply Rle_trans with (bpow radix2 9); [change (bpow radix2 9) with (IZR 512); apply IZR_le; lia|apply bpow_le; lia].
Qed.
(** a 2 by 2 parameter with bound 1 and free vector (1, -3, 2): the entry (1, 0) is -3 e up to the error, the entry (0, 0) is e^2 + 1 up to the error *)
Example C123_example : exists p p', fposdef_init 2 (dint 1) None = Ok p /\ fposdef_set_free ideal_exp (fun _ _ => seq_dot) p [dint 1; dint (-3); dint 2] = Ok p' /\
  Rabs (B2R (mget dzero (fposdef_get p') 0 0) - (exp 1 * exp 1 + 1)) <= matrix_error 2 1 [1; -3; 2] 0 0 /\
  Rabs (B2R (mget dzero (fposdef_get p') 1 0) - -3 * exp 1) <= matrix_error 2 1 [1; -3; 2] 1 0.
Proof.
  destruct (small_bound 1 ltac:(lia) eq_refl) as [B1 B2]. pose proof (calm_two 1 (-3) 2 ltac:(lia) ltac:(lia) ltac:(lia) eq_refl eq_refl eq_refl) as C.
  assert (I : exists p, fposdef_init 2 (dint 1) None = Ok p).
  { unfold fposdef_init. assert (L : fle f_zero (dint 1) = true) by (vm_compute; reflexivity). rewrite L. eexists; reflexivity. }
  destruct I as [p I]. destruct (C123_accuracy ideal_exp ideal_exp_good _ seq_dot_good 2 two_small (dint 1) B1 B2 p _ (r_init _ _ _ _ _ _ I) C) as (p' & S & _ & A).
  exists p, p'. split; [exact I|]. split; [exact S|].
  assert (E : reals [dint 1; dint (-3); dint 2] = [1; -3; 2]) by (unfold reals; cbn [map]; rewrite !dint_B2R by reflexivity; reflexivity).
  assert (E1 : B2R (dint 1) = 1) by (apply dint_B2R; reflexivity). rewrite E, E1 in A. split.
  - destruct (A 0%nat 0%nat ltac:(lia) ltac:(lia)) as (_ & _ & H). replace (exact_matrix 2 1 [1; -3; 2] 0 0) with (exp 1 * exp 1 + 1) in H; [exact H|].
    unfold exact_matrix, factor, at_ld. cbn. ring.
  - destruct (A 1%nat 0%nat ltac:(lia) ltac:(lia)) as (_ & _ & H). replace (exact_matrix 2 1 [1; -3; 2] 1 0) with (-3 * exp 1) in H; [exact H|].
    unfold exact_matrix, factor, at_ld. cbn. ring.
Qed.
Lemma init_zero n : exists p, fposdef_init n (dint 0) None = Ok p.
Proof. unfold fposdef_init. assert (L : fle f_zero (dint 0) = true) by (vm_compute; reflexivity). rewrite L. eexists; reflexivity. Qed.
(** the free vector (-50, 7, 2) is accepted, and get_free raises right after it *)
Example C124_low_example : exists p p', fposdef_init 2 (dint 0) None = Ok p /\ fposdef_set_free ideal_exp (fun _ _ => seq_dot) p [dint (-50); dint 7; dint 2] = Ok p' /\
  fposdef_get_free ideal_log textbook_cholesky p' = Raise LinAlgError.
Proof.
  destruct (small_bound 0 ltac:(lia) eq_refl) as [B1 B2]. pose proof (calm_two (-50) 7 2 ltac:(lia) ltac:(lia) ltac:(lia) eq_refl eq_refl eq_refl) as C.
  destruct (init_zero 2) as [p I]. destruct (C123_accuracy ideal_exp ideal_exp_good _ seq_dot_good 2 two_small (dint 0) B1 B2 p _ (r_init _ _ _ _ _ _ I) C) as (p' & S & _ & _).
  exists p, p'. split; [exact I|]. split; [exact S|].
  apply (C124_low_lost ideal_exp ideal_log ideal_exp_good _ seq_dot_good _ textbook_cholesky_good 2 (dint 0) p [dint (-50); dint 7; dint 2] p' (r_init _ _ _ _ _ _ I)); try reflexivity; try exact S; [lia|].
  change (at_ld dzero [dint (-50); dint 7; dint 2] 0 0) with (dint (-50)). rewrite dint_B2R by reflexivity. lra.
Qed.
Lemma calm_dint z : (Z.abs z <= 300)%Z -> is_finite (dint z) = true -> calm (dint z).
Proof. intros Hz F. split; [exact F|]. rewrite dint_B2R, <- abs_IZR by lia. apply IZR_le. exact Hz. Qed.
(** the free value 60 of a 1 by 1 matrix comes back as 0 *)
Example C124_high_example : exists p p' s, fposdef_init 1 (dint 0) None = Ok p /\ fposdef_set_free ideal_exp (fun _ _ => seq_dot) p [dint 60] = Ok p' /\
  fposdef_get_free ideal_log textbook_cholesky p' = Ok [B754_zero s].
Proof.
  destruct (small_bound 0 ltac:(lia) eq_refl) as [B1 B2]. pose proof (calm_dint 60 ltac:(lia) eq_refl) as C. destruct (init_zero 1) as [p I].
  assert (E0 : B2R (dint 0) = 0) by (apply dint_B2R; reflexivity). assert (E6 : B2R (dint 60) = 60) by (apply dint_B2R; reflexivity).
  assert (K : eps 1 * first_condition (B2R (dint 0)) (B2R (dint 60)) <= / 64).
  { rewrite E0, E6. unfold first_condition, eps, units. change (INR 1) with 1. rewrite Rabs_pos_eq by lra. assert (0 < exp (- (60)) <= 1) by (split; [apply exp_pos|rewrite <- exp_0; left; apply exp_increasing; lra]).
    change (bpow radix2 (-53)) with (/ 9007199254740992). rewrite Rmult_0_l. lra. }
  destruct (C124_one ideal_exp ideal_log ideal_exp_good ideal_log_good _ seq_dot_good _ textbook_cholesky_good (dint 0) B1 B2 p (dint 60) (r_init _ _ _ _ _ _ I) C K) as (p' & w & S & G & _ & _).
  assert (N1 : INR 1 <= bpow radix2 20) by (change (INR 1) with (bpow radix2 0); apply bpow_le; lia).
  assert (Cx : calm_free 1 [dint 60]). { split; [reflexivity|]. split; [intros i Hi; replace i with 0%nat by lia; exact C|intros i j Hi Hj; lia]. }
  destruct (C124_high_lost ideal_exp ideal_log ideal_exp_good ideal_log_good _ seq_dot_good _ textbook_cholesky_good 1 N1 ltac:(lia) (dint 0) B1 B2 [dint 60] Cx p p' [w] (r_init _ _ _ _ _ _ I) S) as [s Z].
  - change (at_ld dzero [dint 60] 0 0) with (dint 60). rewrite E6. lra.
  - rewrite E0. left. apply exp_pos.
  - exact G.
  - change (at_ld dzero [w] 0 0) with w in Z. subst w. exists p, p', s. auto.
Qed.
(** the value 1 comes back within 2^-40 *)
Example C124_one_example : exists p p' w, fposdef_init 1 (dint 0) None = Ok p /\ fposdef_set_free ideal_exp (fun _ _ => seq_dot) p [dint 1] = Ok p' /\
  fposdef_get_free ideal_log textbook_cholesky p' = Ok [w] /\ Rabs (B2R w - 1) <= bpow radix2 (-40).
Proof.
  destruct (small_bound 0 ltac:(lia) eq_refl) as [B1 B2]. pose proof (calm_dint 1 ltac:(lia) eq_refl) as C. destruct (init_zero 1) as [p I].
  assert (E0 : B2R (dint 0) = 0) by (apply dint_B2R; reflexivity). assert (E1 : B2R (dint 1) = 1) by (apply dint_B2R; reflexivity).
  assert (F1 : first_condition 0 1 <= 2). { unfold first_condition. rewrite (Rmult_0_l (exp _)). rewrite Rabs_pos_eq by lra. assert (0 < exp (- (1)) <= 1) by (split; [apply exp_pos|pose proof (exp_increasing (- (1)) 0 ltac:(lra)) as K; rewrite exp_0 in K; lra]). lra. }
  assert (F0 : 0 <= first_condition 0 1). { unfold first_condition. rewrite (Rmult_0_l (exp _)). rewrite Rabs_pos_eq by lra. pose proof (exp_pos (- (1))). lra. }
  assert (Ep : eps 1 = 36 / 9007199254740992). { unfold eps, units. change (INR 1) with 1. change (bpow radix2 (-53)) with (/ 9007199254740992). field. }
  assert (K : eps 1 * first_condition (B2R (dint 0)) (B2R (dint 1)) <= / 64). { rewrite E0, E1, Ep. lra. }
  destruct (C124_one ideal_exp ideal_log ideal_exp_good ideal_log_good _ seq_dot_good _ textbook_cholesky_good (dint 0) B1 B2 p (dint 1) (r_init _ _ _ _ _ _ I) C K) as (p' & w & S & G & _ & A).
  exists p, p', w. split; [exact I|]. split; [exact S|]. split; [exact G|]. rewrite E0, E1 in A. eapply Rle_trans; [exact A|]. unfold first_error, units. rewrite Ep, Rabs_pos_eq by lra.
  pose proof exp_le_3. change (bpow radix2 (-53)) with (/ 9007199254740992). change (bpow radix2 (-40)) with (/ 1099511627776). lra.
Qed.
Definition huge : double := @B754_finite 53 1024 false 4503599627370496 971 eq_refl.
(** the diagonal entry 2^1023 of a vector is stored as infinity *)
Example C125_example : exists p p', fposdef_init 1 (dint 0) None = Ok p /\ fposdef_set_vector p [huge] = Ok p' /\
  mget dzero (fposdef_get p') 0 0 = B754_infinity false.
Proof.
  destruct (init_zero 1) as [p I]. set (h := huge).
  destruct (C125_vector ideal_exp (fun _ _ => seq_dot) 1 (dint 0) p [h] (r_init _ _ _ _ _ _ I) eq_refl) as (p' & w & S & _ & _ & D & _).
  - intros [|i] Hi; [reflexivity|lia].
  - intros i j Hj Hi. lia.
  - exists p, p'. split; [exact I|]. split; [exact S|]. specialize (D 0%nat ltac:(lia)). change (at_ld dzero [h] 0 0) with h in D.
    assert (E : B2R h = bpow radix2 1023) by (change (B2R h) with (bpow radix2 52 * bpow radix2 971); rewrite <- bpow_plus; reflexivity). unfold kept in D. rewrite E, Rabs_pos_eq, Rlt_bool_false in D; [|lra|apply bpow_ge_0].
    change (Bsign h) with false in D. destruct D as [D|(s & t & _ & D)]; [exact D|discriminate].
Qed.
(** with the lower bound 2^1023 the constructor succeeds and get_free raises at once *)
Example C124_default_example : exists p, fposdef_init 2 huge None = Ok p /\ fposdef_get_free ideal_log textbook_cholesky p = Raise LinAlgError.
Proof.
  assert (I : exists p, fposdef_init 2 huge None = Ok p) by (unfold fposdef_init; assert (L : fle f_zero huge = true) by (vm_compute; reflexivity); rewrite L; eexists; reflexivity).
  destruct I as [p I]. exists p. split; [exact I|]. apply (C124_default_lost ideal_exp ideal_log (fun _ _ => seq_dot) _ textbook_cholesky_good 2 huge p I); [lia|reflexivity|].
  change (B2R huge) with (bpow radix2 52 * bpow radix2 971). rewrite <- bpow_plus. apply bpow_le. lia.
Qed.
(** a NaN off the diagonal is refused by set_vector *)
Example C125_nan_example : exists p, fposdef_init 2 (dint 0) None = Ok p /\ fposdef_set_vector p [dint 1; B754_nan; dint 2] = Raise ValueError.
Proof.
  destruct (init_zero 2) as [p I]. exists p. split; [exact I|]. apply (C125_raises ideal_exp (fun _ _ => seq_dot) 2 (dint 0) p _ (r_init _ _ _ _ _ _ I)). right. split; [reflexivity|].
  exists 1%nat, 0%nat. repeat split; try lia. left. reflexivity.
Qed.
