(** Proofs about positive definite matrix parameters in binary64: what is lost, and the free vector that comes back. *)
From Coq Require Import Reals ZArith List Lra Lia Psatz Bool.
From Flocq Require Import Core BinarySingleNaN.
From Verif Require Import Res Nd RSum SpecFloat SpecFloatSimplex SpecFloatAcc SpecFloatMatrix SpecMatrix ModelFloat ModelMatrix ModelFloatMatrix SpecFloatReach LemmasMatrix
  LemmasFloat LemmasFloat2 LemmasFloat3 LemmasFloat4 LemmasFloatSimplex LemmasFloatSimplex2 LemmasFloatAcc LemmasFloatMatrix LemmasFloatMatrix2.
Import List ListNotations.
Set Bullet Behavior "Strict Subproofs".
Open Scope R_scope.

Lemma exp_45 : 30000000000000000000 <= exp 45.
Proof.
  change 45 with (IZR 45). rewrite exp_Z by lia. change (Z.to_nat 45) with 45%nat.
  apply Rle_trans with ((27165 / 10000) ^ 45).
  - replace ((27165 / 10000) ^ 45) with (27165 ^ 45 / 10000 ^ 45) by (unfold Rdiv; rewrite <- pow_inv, <- Rpow_mult_distr; reflexivity).
    apply Rmult_le_reg_r with (10000 ^ 45); [apply pow_lt; lra|]. unfold Rdiv. rewrite Rmult_assoc, Rinv_l, Rmult_1_r by (apply pow_nonzero; lra).
    change 10000 with (IZR 10000). change 27165 with (IZR 27165). rewrite !pow_IZR, <- mult_IZR. apply IZR_le. vm_compute. discriminate.
  - apply pow_incr. pose proof exp_1_lower. lra.
Qed.

Section Set_.
Context (fexp : dbl -> dbl) (He : exp_good fexp) (fdot : nat -> nat -> list dbl -> list dbl -> dbl) (Hd : matmul_good fdot) (n : nat) (lb : dbl).

Lemma wrong_length p x : reachable fexp fdot n lb p -> length x <> triangle n -> fposdef_set_free fexp fdot p x = Raise ValueError /\ fposdef_set_vector p x = Raise ValueError.
Proof.
  intros R L. destruct (reachable_inv _ _ _ _ _ R) as (E & _). unfold fposdef_set_free, fposdef_set_vector, fp_vec_size. rewrite E. fold (triangle n).
  destruct (Nat.eqb_spec (length x) (triangle n)); [contradiction|]. split; reflexivity.
Qed.
Lemma diag_raises p x i : reachable fexp fdot n lb p -> length x = triangle n -> (i < n)%nat -> is_finite (at_ld dzero x i i) = false ->
  fposdef_set_free fexp fdot p x = Raise ValueError.
Proof.
  intros R L Hi F. destruct (reachable_inv _ _ _ _ _ R) as (E1 & E2 & _). rewrite (set_free_unfold fexp fdot p x n E1 L).
  apply (fposdef_set_nan p (mk_mat n n (stored fexp x fdot (fp_lb p) n)) n i E1 eq_refl Hi). rewrite mget_mk_mat by assumption. unfold stored.
  assert (N : fent fexp x i i = B754_nan) by (unfold fent; rewrite Nat.eqb_refl; apply (diag_nan fexp He); exact F).
  assert (D : fdot i i (frow fexp x n i) (frow fexp x n i) = B754_nan).
  { apply (mm_nan _ Hd i i _ _ i); [reflexivity|rewrite frow_length; exact Hi| |]; rewrite frow_nth by exact Hi; rewrite N; reflexivity. }
  rewrite D. reflexivity.
Qed.
Lemma zero_add_lb s : same (fadd (B754_zero s) lb) lb. Proof. apply zero_add_same. Qed.
Lemma row_lost p x i : reachable fexp fdot n lb p -> calm_free n x -> (i < n)%nat -> B2R (at_ld dzero x i i) <= -40 ->
  (forall k, (k < i)%nat -> B2R (at_ld dzero x i k) = 0) -> forall p', fposdef_set_free fexp fdot p x = Ok p' ->
  forall j, (j < n)%nat -> same (mget dzero (fposdef_get p') i j) (if Nat.eqb i j then lb else dzero) /\ same (mget dzero (fposdef_get p') j i) (if Nat.eqb i j then lb else dzero).
Proof.
  intros R C Hi B Z p' H j Hj. destruct (reachable_inv _ _ _ _ _ R) as (E1 & E2 & _). rewrite (set_free_unfold fexp fdot p x n E1 (proj1 C)) in H.
  destruct (fposdef_set_inv _ _ _ H) as (_ & -> & _). unfold fposdef_get, fp_val. rewrite !mget_mk_mat by assumption. rewrite E2.
  assert (K : forall k, (k < n)%nat -> B2R (fent fexp x i k) = 0).
  { intros k Hk. destruct C as (L & Cd & Co). unfold fent. destruct (Nat.eqb_spec i k) as [<-|N].
    - destruct (diag_lost fexp He (at_ld dzero x i i) (proj1 (Cd i Hi)) B) as [s E]. change f_zero with dzero. exact (f_equal B2R E).
    - match goal with |- B2R ?a = 0 => assert (E : same a (if Nat.leb k i then at_ld dzero x i k else dzero)) by exact (offdiag_same _); rewrite (same_B2R a _ E) end.
      destruct (Nat.leb_spec k i); [apply Z; lia|reflexivity]. }
  assert (Dz : forall a b, (a < n)%nat -> (b < n)%nat -> (a = i \/ b = i) -> exists s, fdot a b (frow fexp x n a) (frow fexp x n b) = B754_zero s).
  { intros a b Ha Hb O. apply (mm_zero _ Hd); [rewrite !frow_length; reflexivity|apply frow_finite; assumption|apply frow_finite; assumption|].
    intros k Hk. rewrite frow_length in Hk. rewrite !frow_nth by exact Hk. destruct O; subst; rewrite (K k Hk); ring. }
  unfold stored. rewrite (Nat.eqb_sym j i). destruct (Dz i j Hi Hj ltac:(auto)) as [s ->]. destruct (Dz j i Hj Hi ltac:(auto)) as [t ->].
  destruct (Nat.eqb i j); split; apply zero_add_same.
Qed.
(** the first row needs nothing of the others *)
Lemma first_row_lost p x p' : reachable fexp fdot n lb p -> length x = triangle n -> (0 < n)%nat -> is_finite (at_ld dzero x 0 0) = true -> B2R (at_ld dzero x 0 0) <= -40 ->
  fposdef_set_free fexp fdot p x = Ok p' -> same (mget dzero (fposdef_get p') 0 0) lb.
Proof.
  intros R L Hn F B H. destruct (reachable_inv _ _ _ _ _ R) as (E1 & E2 & _). rewrite (set_free_unfold fexp fdot p x n E1 L) in H.
  destruct (fposdef_set_inv _ _ _ H) as (_ & -> & _). unfold fposdef_get, fp_val. rewrite mget_mk_mat by assumption. rewrite E2. unfold stored. rewrite Nat.eqb_refl.
  assert (K : forall k, (k < n)%nat -> is_finite (fent fexp x 0 k) = true /\ B2R (fent fexp x 0 k) = 0).
  { intros k Hk. unfold fent. destruct (Nat.eqb_spec 0 k) as [<-|N].
    - destruct (diag_lost fexp He (at_ld dzero x 0 0) F B) as [s E]. change f_zero with dzero. split; [exact (f_equal is_finite E)|exact (f_equal B2R E)].
    - destruct (Nat.leb_spec k 0); [lia|]. split; reflexivity. }
  assert (Fr : List.Forall (fun v => is_finite v = true) (frow fexp x n 0)).
  { apply List.Forall_forall. intros v Hv. unfold frow in Hv. apply in_map_iff in Hv. destruct Hv as (k & <- & Hk). apply in_seq in Hk. apply K. lia. }
  destruct (mm_zero _ Hd 0 0 (frow fexp x n 0) (frow fexp x n 0) eq_refl Fr Fr) as [s E].
  - intros k Hk. rewrite frow_length in Hk. rewrite !frow_nth by exact Hk. rewrite (proj2 (K k Hk)). ring.
  - rewrite E. apply zero_add_same.
Qed.
End Set_.

(** ** the logarithm on the diagonal *)
Section Log.
Context (flog : dbl -> dbl) (Hl : log_good flog).
Lemma ln_double (s : dbl) : is_finite s = true -> 0 < B2R s -> Rabs (ln (B2R s)) <= 1100.
Proof.
  intros F P. assert (L : bpow radix2 (-1074) <= B2R s).
  { destruct (Rle_or_lt (bpow radix2 (-1074)) (B2R s)) as [H|H]; [exact H|exfalso].
    pose proof (abs_B2R_ge_emin 53 1024 s) as A. destruct s as [t|t| |t m e Hm]; try (cbn in P; lra).
    rewrite Rabs_pos_eq in A by lra. specialize (A eq_refl). change (SpecFloat.emin 53 1024) with (-1074)%Z in A. lra. }
  pose proof (ln_range 1074 (B2R s) ltac:(lia)) as H. assert (U : B2R s <= bpow radix2 1024). { pose proof (abs_B2R_lt s). pose proof (Rle_abs (B2R s)). lra. }
  eapply Rle_trans; [apply H; split; [exact L|]|lra]. eapply Rle_trans; [exact U|]. apply bpow_le. lia.
Qed.
Lemma log_diag_close (s : dbl) : is_finite s = true -> 0 < B2R s <= bpow radix2 900 -> let r := fsub (fadd (flog s) s) s in
  is_finite r = true /\ Rabs (B2R r - ln (B2R s)) <= 12 * u * (1 + Rabs (ln (B2R s)) + B2R s).
Proof.
  intros F [P U] r. pose proof (ln_double s F P) as LB. pose proof (log_finite _ (lg_ok _ Hl) s F P) as Fl. pose proof (lg_close _ Hl s F P) as C. fold eta in C. rewrite eta_u in C.
  set (l := ln (B2R s)) in *. set (v := B2R s) in *. set (g := B2R (flog s)) in *. small_u. pose proof (Rabs_pos l) as l0.
  assert (K : bpow radix2 900 * 8 <= bpow radix2 1000) by (change 8 with (bpow radix2 3); rewrite <- bpow_plus; apply bpow_le; lia).
  assert (K1 : 4000 <= bpow radix2 900) by (apply Rle_trans with (bpow radix2 12); [change (bpow radix2 12) with 4096; lra|apply bpow_le; lia]).
  assert (C1 : 8 * u * (1 + Rabs l) <= / 1000 * (1 + Rabs l)) by (apply Rmult_le_compat_r; lra).
  assert (G : Rabs (g + v) <= Rabs l + v + 8 * u * (1 + Rabs l)).
  { replace (g + v) with (l + v + (g - l)) by ring. eapply Rle_trans; [apply Rabs_triang|]. apply Rplus_le_compat; [|exact C]. eapply Rle_trans; [apply Rabs_triang|]. rewrite (Rabs_pos_eq v) by lra. lra. }
  destruct (fadd_rel (flog s) s Fl F) as [Fs Es]. { fold g v. lra. } fold g v in Es. set (a := fadd (flog s) s) in *.
  assert (G1 : u * Rabs (g + v) <= u * (2 * (1 + Rabs l + v))) by (apply Rmult_le_compat_l; lra).
  assert (D : Rabs (B2R a - v - l) <= 8 * u * (1 + Rabs l) + u * Rabs (g + v)).
  { replace (B2R a - v - l) with ((B2R a - (g + v)) + (g - l)) by ring. eapply Rle_trans; [apply Rabs_triang|]. lra. }
  assert (HS : Rabs (B2R a - v) <= Rabs l + (8 * u * (1 + Rabs l) + u * Rabs (g + v))). { replace (B2R a - v) with (l + (B2R a - v - l)) by ring. eapply Rle_trans; [apply Rabs_triang|]. lra. }
  assert (G2 : u * (2 * (1 + Rabs l + v)) <= / 1000 * (2 * (1 + Rabs l + v))) by (apply Rmult_le_compat_r; lra).
  destruct (fsub_rel a s Fs F) as [Fr Er]. { fold v. lra. } fold v in Er. fold r in Fr, Er. split; [exact Fr|].
  replace (B2R r - l) with ((B2R r - (B2R a - v)) + (B2R a - v - l)) by ring. eapply Rle_trans; [apply Rabs_triang|].
  assert (G3 : u * Rabs (g + v) <= u * (Rabs l + v + / 1000 * (1 + Rabs l))) by (apply Rmult_le_compat_l; lra).
  assert (H2 : u * Rabs (B2R a - v) <= u * (Rabs l + (/ 1000 * (1 + Rabs l) + / 1000 * (2 * (1 + Rabs l + v))))) by (apply Rmult_le_compat_l; lra).
  assert (0 <= u * Rabs l) by nra. assert (0 <= u * v) by nra. lra.
Qed.
Lemma log_diag_lost (s : dbl) : is_finite s = true -> bpow radix2 64 <= B2R s -> exists t, fsub (fadd (flog s) s) s = B754_zero t.
Proof.
  intros F B. assert (P : 0 < B2R s) by (pose proof (bpow_gt_0 radix2 64); lra). pose proof (ln_double s F P) as LB.
  pose proof (log_finite _ (lg_ok _ Hl) s F P) as Fl. pose proof (lg_close _ Hl s F P) as C. fold eta in C. rewrite eta_u in C. small_u.
  assert (N : 0 <= B2R (flog s)).
  { assert (D : dle (B754_zero false) (flog s)). { apply (lg_nonneg _ Hl). apply dle_finite; [reflexivity|exact F|]. rewrite done_B2R. change 1 with (bpow radix2 0). eapply Rle_trans; [|exact B]. apply bpow_le. lia. }
    apply dle_finite in D; [exact D|reflexivity|exact Fl]. }
  rewrite (add_absorb (flog s) s Fl F ltac:(lra)); [apply sub_self_zero; exact F|].
  apply absorb_pos; [exact (generic_format_B2R 53 1024 s)|exact B|]. split; [exact N|].
  apply Rabs_le_inv in C. apply Rabs_le_inv in LB. assert (8 * u * (1 + Rabs (ln (B2R s))) <= 1 * (1 + Rabs (ln (B2R s)))) by (apply Rmult_le_compat_r; [pose proof (Rabs_pos (ln (B2R s))); lra|lra]).
  assert (Rabs (ln (B2R s)) <= 1100) by (apply Rabs_le; lra).
  destruct (Rle_or_lt (B2R (flog s)) 2000) as [|X]; [assumption|]. assert (8 * u * (1 + Rabs (ln (B2R s))) <= / 1000 * (1 + Rabs (ln (B2R s)))) by (apply Rmult_le_compat_r; [pose proof (Rabs_pos (ln (B2R s))); lra|lra]). lra.
Qed.
End Log.

(** ** get_free *)
Section Get.
Context (fexp flog : dbl -> dbl) (Hl : log_good flog) (fdot : nat -> nat -> list dbl -> list dbl -> dbl).
Context (fchol : nd dbl -> res (nd dbl)) (Hc : cholesky_good fchol) (n : nat) (lb : dbl).
Notation lowered := (lowered n lb).
Lemma tril_at {A} (d : A) m (f : nat -> nat -> A) i j : (j <= i)%nat -> (i < m)%nat -> at_ld d (tril_list m f) i j = f i j.
Proof. intros Hj Hi. rewrite <- at_sym by exact Hj. apply nth_tril; assumption. Qed.

Lemma get_free_unfold p : reachable fexp fdot n lb p -> fposdef_get_free flog fchol p =
  match fchol (lowered (fposdef_get p)) with
  | Ok c => Ok (tril_list n (fun i j => fsub (fadd (if Nat.eqb i j then flog (mget dzero c i i) else dzero) (mget dzero c i j)) (if Nat.eqb i j then mget dzero c i i else dzero)))
  | Raise e => Raise e
  end.
Proof.
  intros R. destruct (reachable_inv _ _ _ _ _ R) as (E1 & E2 & _ & S & _). unfold fposdef_get_free, f_pack_posdef_matrix. rewrite S, Nat.eqb_refl, E2. cbn [negb].
  change (mk_mat n n (fun i j => fsub (mget f_zero (fp_val p) i j) (f_make_diagonal (fun _ => lb) i j))) with (lowered (fposdef_get p)).
  destruct (fchol (lowered (fposdef_get p))) as [c|e] eqn:Q; [|reflexivity]. cbn [rbind].
  destruct (ch_shape _ Hc n (lowered (fposdef_get p)) c eq_refl Q) as [Sc _]. unfold f_map_matrix_diagonal. change (@shape dbl c) with (@shape double c). rewrite Sc, Nat.eqb_refl. cbn [rassert rbind].
  unfold f_vectorize_ld_matrix, mk_mat at 1. cbn [shape]. rewrite Nat.eqb_refl. cbn [negb]. f_equal. apply tril_list_ext. intros i j Hj Hi.
  rewrite mget_mk_mat by lia. reflexivity.
Qed.
Lemma get_free_entries p w : reachable fexp fdot n lb p -> fposdef_get_free flog fchol p = Ok w ->
  exists c, fchol (lowered (fposdef_get p)) = Ok c /\ length w = triangle n /\ forall i, (i < n)%nat ->
    (forall j, (j < i)%nat -> same (at_ld dzero w i j) (mget dzero c i j)) /\
    (is_finite (mget dzero c i i) = true -> B2R (mget dzero c i i) <= bpow radix2 900 -> is_finite (at_ld dzero w i i) = true /\
       Rabs (B2R (at_ld dzero w i i) - ln (B2R (mget dzero c i i))) <= units 12 * (1 + Rabs (ln (B2R (mget dzero c i i))) + B2R (mget dzero c i i))) /\
    (is_finite (mget dzero c i i) = true -> bpow radix2 64 <= B2R (mget dzero c i i) -> exists s, at_ld dzero w i i = B754_zero s).
Proof.
  intros R G. rewrite (get_free_unfold p R) in G. destruct (fchol (lowered (fposdef_get p))) as [c|e] eqn:Q; [|discriminate]. injection G as <-.
  exists c. split; [reflexivity|]. split; [apply tril_list_length|]. intros i Hi.
  assert (D : at_ld dzero (tril_list n (fun i j => fsub (fadd (if Nat.eqb i j then flog (mget dzero c i i) else dzero) (mget dzero c i j)) (if Nat.eqb i j then mget dzero c i i else dzero))) i i
      = fsub (fadd (flog (mget dzero c i i)) (mget dzero c i i)) (mget dzero c i i)).
  { rewrite tril_at by lia. rewrite Nat.eqb_refl. reflexivity. }
  split; [|split].
  - intros j Hj. rewrite tril_at by lia. destruct (Nat.eqb_spec i j); [lia|]. apply offdiag_same.
  - intros F B. rewrite D. rewrite units_u. destruct (ch_diag _ Hc n (lowered (fposdef_get p)) c i eq_refl Q Hi) as [E|[_ P]]; [rewrite E in F; discriminate|].
    exact (log_diag_close flog Hl _ F (conj P B)).
  - intros F B. rewrite D. exact (log_diag_lost flog Hl _ F B).
Qed.
Lemma get_free_raises p e : reachable fexp fdot n lb p -> fchol (lowered (fposdef_get p)) = Raise e -> fposdef_get_free flog fchol p = Raise e.
Proof. intros R Q. rewrite (get_free_unfold p R), Q. reflexivity. Qed.
Lemma same_sub_self (v : dbl) : is_finite lb = true -> same v lb -> ~ positive (fsub v lb).
Proof.
  intros F S. assert (Fv : is_finite v = true) by (rewrite (same_finite _ _ S); exact F). pose proof (same_B2R _ _ S) as E. intros [P|[_ P]].
  - destruct (fsub_cases v lb Fv F) as [(_ & _ & G & _)|(A & _)]; [rewrite P in G; discriminate|]. rewrite E, Rminus_eq_0, rnd64_0, Rabs_R0 in A. pose proof (bpow_gt_0 radix2 1024). lra.
  - destruct (fsub_cases v lb Fv F) as [(_ & G & _)|(A & _)].
    + rewrite G, E, Rminus_eq_0, rnd64_0 in P. lra.
    + rewrite E, Rminus_eq_0, rnd64_0, Rabs_R0 in A. pose proof (bpow_gt_0 radix2 1024). lra.
Qed.
Lemma bound_only_raises p : reachable fexp fdot n lb p -> (0 < n)%nat -> is_finite lb = true -> same (mget dzero (fposdef_get p) 0 0) lb ->
  fposdef_get_free flog fchol p = Raise LinAlgError.
Proof.
  intros R Hn F S. apply get_free_raises; [exact R|]. apply (ch_fail _ Hc n); [reflexivity|exact Hn|]. unfold lowered. rewrite mget_mk_mat by assumption. rewrite Nat.eqb_refl.
  apply same_sub_self; assumption.
Qed.
Lemma default_raises p : fposdef_init n lb None = Ok p -> (0 < n)%nat -> is_finite lb = true -> bpow radix2 54 <= B2R lb -> fposdef_get_free flog fchol p = Raise LinAlgError.
Proof.
  intros H Hn F B. apply bound_only_raises; [exact (r_init _ _ _ _ _ _ H)|exact Hn|exact F|]. unfold fposdef_init, rassert in H. destruct (fle f_zero lb); [|discriminate]. injection H as <-.
  unfold fposdef_get, fp_val. rewrite mget_mk_mat by assumption. unfold f_make_diagonal. rewrite Nat.eqb_refl. left.
  assert (K : fadd f_one lb = lb). { apply add_absorb; [reflexivity|exact F|pose proof (bpow_gt_0 radix2 54); lra|]. rewrite one_B2R. apply rnd64_absorb; [exact (generic_format_B2R 53 1024 lb)|exact B|lra]. }
  pose proof (fadd_cases lb f_one F eq_refl) as C1. pose proof (fadd_cases f_one lb eq_refl F) as C2. rewrite K in C2. destruct C2 as [(_ & E2 & _)|(A & _)].
  - destruct C1 as [(_ & E1 & G1 & _)|(A & _)].
    + apply B2R_eq_nonzero; [exact G1|exact F| |pose proof (bpow_gt_0 radix2 54); lra]. rewrite E1, Rplus_comm. symmetry. exact E2.
    + exfalso. rewrite Rplus_comm, <- E2 in A. pose proof (abs_B2R_lt lb). lra.
  - exfalso. rewrite one_B2R in A. rewrite rnd64_absorb in A; [pose proof (abs_B2R_lt lb); lra|exact (generic_format_B2R 53 1024 lb)|exact B|lra].
Qed.
End Get.
