(** Proofs about positive definite matrix parameters in binary64: the factor and the stored matrix. *)
From Coq Require Import Reals ZArith List Lra Lia Psatz Bool.
From Flocq Require Import Core BinarySingleNaN Relative Plus_error.
From Verif Require Import Res Nd RSum SpecFloat SpecFloatSimplex SpecFloatAcc SpecFloatMatrix SpecMatrix ModelFloat ModelMatrix ModelFloatMatrix LemmasMatrix
  LemmasFloat LemmasFloat2 LemmasFloat3 LemmasFloat4 LemmasFloatSimplex LemmasFloatSimplex2 LemmasFloatAcc.
Import List ListNotations.
Set Bullet Behavior "Strict Subproofs".
Open Scope R_scope.
#[local] Existing Instance P53.

(** ** sums that lose the smaller term *)
Lemma absorb_neg (d t : R) : generic_format radix2 (FLT_exp (-1074) 53) d -> d <= -40 -> 0 <= t <= bpow radix2 (-54) -> rnd64 (t + d) = d.
Proof.
  intros F B T. apply Rle_antisym.
  - unfold rnd64. apply round_N_le_midp; auto with typeclass_instances.
    assert (F32 : generic_format radix2 (FLT_exp (-1074) 53) (bpow radix2 5)) by (apply generic_format_FLT_bpow; [exact P53|lia]).
    assert (F' : generic_format radix2 (FLT_exp (-1074) 53) (- d)) by (apply generic_format_opp; exact F).
    assert (P : pred radix2 (FLT_exp (-1074) 53) (- d) + ulp radix2 (FLT_exp (-1074) 53) (pred radix2 (FLT_exp (-1074) 53) (- d)) = - d).
    { apply pred_plus_ulp; auto with typeclass_instances. lra. }
    assert (P' : bpow radix2 5 <= pred radix2 (FLT_exp (-1074) 53) (- d)).
    { apply pred_ge_gt; auto with typeclass_instances. change (bpow radix2 5) with 32. lra. }
    assert (U : bpow radix2 (-47) <= ulp radix2 (FLT_exp (-1074) 53) (pred radix2 (FLT_exp (-1074) 53) (- d))).
    { apply Rle_trans with (ulp radix2 (FLT_exp (-1074) 53) (bpow radix2 5)).
      - rewrite ulp_bpow. right. reflexivity.
      - apply ulp_le_pos; auto with typeclass_instances. apply bpow_ge_0. }
    replace (succ radix2 (FLT_exp (-1074) 53) d) with (- pred radix2 (FLT_exp (-1074) 53) (- d)) by (rewrite pred_opp; ring).
    assert (bpow radix2 (-47) = 128 * bpow radix2 (-54)).
    { replace (bpow radix2 (-47)) with (bpow radix2 7 * bpow radix2 (-54)) by (rewrite <- bpow_plus; reflexivity). reflexivity. }
    pose proof (bpow_gt_0 radix2 (-54)). lra.
  - rewrite <- (rnd64_format d F) at 1. apply rnd64_le. lra.
Qed.
Lemma absorb_pos (e t : R) : generic_format radix2 (FLT_exp (-1074) 53) e -> bpow radix2 64 <= e -> 0 <= t <= 2000 -> rnd64 (t + e) = e.
Proof.
  intros F B T. pose proof (bpow_gt_0 radix2 64) as P. apply Rle_antisym.
  - unfold rnd64. apply round_N_le_midp; auto with typeclass_instances. rewrite succ_eq_pos by lra.
    assert (U : 4096 <= ulp radix2 (FLT_exp (-1074) 53) e).
    { apply Rle_trans with (ulp radix2 (FLT_exp (-1074) 53) (bpow radix2 64)).
      - rewrite ulp_bpow. cbn. lra.
      - apply ulp_le_pos; auto with typeclass_instances. apply bpow_ge_0. }
    lra.
  - rewrite <- (rnd64_format e F) at 1. apply rnd64_le. lra.
Qed.
Lemma add_absorb (t x : dbl) : is_finite t = true -> is_finite x = true -> B2R x <> 0 -> rnd64 (B2R t + B2R x) = B2R x -> fadd t x = x.
Proof.
  intros Ft Fx N E. destruct (fadd_cases t x Ft Fx) as [(_ & E' & G & _)|(A & _)].
  - apply B2R_eq_nonzero; auto. rewrite E'. exact E.
  - exfalso. rewrite E in A. pose proof (abs_B2R_lt x). lra.
Qed.
Lemma sub_self_zero (m : dbl) : is_finite m = true -> exists s, fsub m m = B754_zero s.
Proof. apply LemmasFloatSimplex.fsub_self. Qed.

(** ** same numbers *)
Lemma same_B2R x y : same x y -> B2R x = B2R y.
Proof. intros [->|(s & t & -> & ->)]; reflexivity. Qed.
Lemma same_finite x y : same x y -> is_finite x = is_finite y.
Proof. intros [->|(s & t & -> & ->)]; reflexivity. Qed.
Lemma add_zero_same (x : dbl) s : same (fadd x (B754_zero s)) x.
Proof. destruct x as [t|t| |t m e H]; [right|left; destruct t; reflexivity|left; reflexivity|left; reflexivity]. destruct s, t; do 2 eexists; split; reflexivity. Qed.
Lemma zero_add_same (x : dbl) s : same (fadd (B754_zero s) x) x.
Proof. destruct x as [t|t| |t m e H]; [right|left; destruct t; reflexivity|left; reflexivity|left; reflexivity]. destruct s, t; do 2 eexists; split; reflexivity. Qed.
Lemma sub_zero_same (x : dbl) s : same (fsub x (B754_zero s)) x.
Proof. destruct x as [t|t| |t m e H]; [right|left; destruct t; reflexivity|left; reflexivity|left; reflexivity]. destruct s, t; do 2 eexists; split; reflexivity. Qed.
Lemma same_refl x : same x x. Proof. left; reflexivity. Qed.
Lemma same_sym x y : same x y -> same y x.
Proof. intros [->|(s & t & -> & ->)]; [left; reflexivity|right; eauto]. Qed.
Lemma same_trans x y z : same x y -> same y z -> same x z.
Proof. unfold same. intros [H|(s & t & H1 & H2)] [K|(s' & t' & K1 & K2)]; subst; [left; reflexivity|right; eauto|right; eauto|right; eauto]. Qed.
Lemma offdiag_same (x : dbl) : same (fsub (fadd f_zero x) f_zero) x.
Proof. eapply same_trans; [apply sub_zero_same|apply zero_add_same]. Qed.

(** ** equality of doubles *)
Lemma feq_finite (x y : dbl) : is_finite x = true -> is_finite y = true -> feq x y = true <-> B2R x = B2R y.
Proof.
  intros Fx Fy. unfold feq. rewrite (Beqb_correct 53 1024 x y Fx Fy). destruct (Req_bool_spec (B2R x) (B2R y)); split; intros; try discriminate; auto; contradiction.
Qed.
Lemma feq_number (x y : dbl) : feq x y = true -> number x /\ number y /\ same x y.
Proof.
  destruct x as [t|t| |t m e H], y as [t'|t'| |t' m' e' H']; intros E; try (destruct t; discriminate); try (destruct t, t'; discriminate); try discriminate.
  - split; [reflexivity|]. split; [reflexivity|]. right. eauto.
  - split; [reflexivity|]. split; [reflexivity|]. left. destruct t, t'; [reflexivity|discriminate|discriminate|reflexivity].
  - split; [reflexivity|]. split; [reflexivity|]. left. apply B2R_eq_nonzero; try reflexivity.
    + apply feq_finite; [reflexivity|reflexivity|exact E].
    + destruct t'; cbn; unfold F2R; cbn; apply Rmult_integral_contrapositive_currified; try (apply not_eq_sym, Rlt_not_eq, bpow_gt_0); apply not_eq_sym; [apply Rgt_not_eq|apply Rlt_not_eq]; apply IZR_lt; reflexivity.
Qed.
Lemma feq_self (x : dbl) : number x -> feq x x = true.
Proof.
  destruct x as [t|t| |t m e H]; intros N; try reflexivity; try discriminate.
  - destruct t; reflexivity.
  - apply feq_finite; reflexivity.
Qed.
Lemma feq_same (x y : dbl) : number x -> same x y -> feq x y = true.
Proof. intros N [<-|(s & t & -> & ->)]; [apply feq_self; exact N|reflexivity]. Qed.

(** ** set *)
Lemma fposdef_set_spec (p : fposdef) (val : nd dbl) n : fp_size p = n -> shape val = [n; n] ->
  (forall i j, (i < n)%nat -> (j < n)%nat -> feq (mget f_zero val j i) (mget f_zero val i j) = true) ->
  fposdef_set p val = Ok (mkFP n (fp_lb p) val).
Proof.
  intros <- S H. unfold fposdef_set. rewrite S, Nat.eqb_refl. cbn [negb orb].
  replace (forallb _ _) with true; [reflexivity|]. symmetry. apply forallb_forall. intros i Hi. apply forallb_forall. intros j Hj.
  apply in_seq in Hi, Hj. apply H; lia.
Qed.
Lemma fposdef_set_inv (p p' : fposdef) (val : nd dbl) : fposdef_set p val = Ok p' -> let n := fp_size p in
  shape val = [n; n] /\ p' = mkFP n (fp_lb p) val /\ forall i j, (i < n)%nat -> (j < n)%nat -> feq (mget f_zero val j i) (mget f_zero val i j) = true.
Proof.
  unfold fposdef_set. destruct (shape val) as [|a [|b [|c l]]] eqn:S; try discriminate.
  destruct (Nat.eqb_spec a (fp_size p)); [|discriminate]. destruct (Nat.eqb_spec b (fp_size p)); [|discriminate]. subst a b. cbn [negb orb].
  destruct (forallb _ _) eqn:F; [|discriminate]. cbn [negb]. intros E. injection E as <-. split; [reflexivity|]. split; [reflexivity|].
  intros i j Hi Hj. rewrite forallb_forall in F. specialize (F i ltac:(apply in_seq; lia)). rewrite forallb_forall in F. apply F. apply in_seq. lia.
Qed.
Lemma fposdef_set_nan (p : fposdef) (val : nd dbl) n i : fp_size p = n -> shape val = [n; n] -> (i < n)%nat -> mget f_zero val i i = B754_nan ->
  fposdef_set p val = Raise ValueError.
Proof.
  intros E S Hi N. destruct (fposdef_set p val) as [p'|e] eqn:Q.
  - exfalso. destruct (fposdef_set_inv _ _ _ Q) as (_ & _ & H). specialize (H i i). rewrite E in H. specialize (H Hi Hi). rewrite N in H. discriminate.
  - unfold fposdef_set in Q. rewrite S in Q. rewrite E, Nat.eqb_refl in Q. cbn [negb orb] in Q. destruct (negb _); congruence.
Qed.

(** ** the free vector as a matrix *)
Lemma triangle_tri n : triangle n = tri n. Proof. reflexivity. Qed.
Lemma at_sym {A} (d : A) x i j : (j <= i)%nat -> nth (SymIndex i j) x d = at_ld d x i j.
Proof. intros H. unfold SymIndex, LDInd, at_ld. destruct (Nat.leb_spec j i); [|lia]. f_equal. lia. Qed.
Lemma f_unvectorize_ok n (x : list dbl) : length x = triangle n ->
  f_unvectorize_ld_matrix x = Ok (mk_mat n n (fun i j => if Nat.leb j i then at_ld f_zero x i j else f_zero)).
Proof.
  intros L. unfold f_unvectorize_ld_matrix. rewrite L, triangle_tri, ld_mat_size_tri. rewrite <- tri_twice, Nat.eqb_refl. cbn [negb].
  f_equal. apply mk_mat_ext. intros i j Hi Hj. destruct (Nat.leb_spec j i); [|reflexivity]. apply at_sym. assumption.
Qed.
Lemma tri_index n i j : (j <= i)%nat -> (i < n)%nat -> (i * (i + 1) / 2 + j < triangle n)%nat.
Proof.
  intros Hj Hi. change (i * (i + 1) / 2)%nat with (tri i). change (triangle n) with (tri n).
  pose proof (tri_twice i). pose proof (tri_twice n). nia.
Qed.

Section Factor.
Context (fexp : dbl -> dbl) (x : list dbl).
(** the entries of the computed factor *)
Definition fent (i k : nat) : double :=
  if Nat.eqb i k then fsub (fadd (fexp (at_ld f_zero x i i)) (at_ld f_zero x i i)) (at_ld f_zero x i i)
  else fsub (fadd f_zero (if Nat.leb k i then at_ld f_zero x i k else f_zero)) f_zero.
Lemma factor_ok n : length x = triangle n ->
  (do u <- f_unvectorize_ld_matrix x; f_map_matrix_diagonal fexp u) = Ok (mk_mat n n fent).
Proof.
  intros L. rewrite (f_unvectorize_ok n x L). cbn [rbind]. unfold f_map_matrix_diagonal, mk_mat at 1. cbn [shape]. rewrite Nat.eqb_refl.
  unfold rassert. f_equal. apply mk_mat_ext. intros i j Hi Hj. unfold f_make_diagonal, fent.
  rewrite !mget_mk_mat by assumption. destruct (Nat.eqb_spec i j) as [->|N].
  - rewrite Nat.leb_refl. reflexivity.
  - reflexivity.
Qed.
Definition frow (n i : nat) : list double := map (fent i) (seq 0 n).
Context (fdot : nat -> nat -> list dbl -> list dbl -> dbl) (lb : dbl).
Definition stored (n i j : nat) : dbl := fadd (fdot i j (frow n i) (frow n j)) (if Nat.eqb i j then lb else f_zero).
Lemma unpack_ok n : length x = triangle n -> f_unpack_posdef_matrix fexp fdot x lb = Ok (mk_mat n n (stored n)).
Proof.
  intros L. unfold f_unpack_posdef_matrix. pose proof (factor_ok n L) as F. rewrite (f_unvectorize_ok n x L) in *. cbn [rbind] in *. rewrite F. cbn [rbind].
  change (nrows (mk_mat n n fent)) with n. f_equal. apply mk_mat_ext. intros i j Hi Hj. rewrite mget_mk_mat by assumption.
  unfold stored, f_make_diagonal. f_equal. f_equal; unfold f_row, frow; apply map_ext_in; intros k Hk; apply in_seq in Hk; apply mget_mk_mat; lia.
Qed.
End Factor.
Lemma frow_length fexp x n i : length (frow fexp x n i) = n.
Proof. unfold frow. rewrite map_length, seq_length. reflexivity. Qed.
Lemma frow_nth fexp x n i k d : (k < n)%nat -> nth k (frow fexp x n i) d = fent fexp x i k.
Proof. intros H. unfold frow. rewrite (nth_indep _ d (fent fexp x i 0)) by (rewrite map_length, seq_length; exact H). rewrite map_nth, seq_nth by exact H. reflexivity. Qed.

Lemma set_free_unfold fexp fdot p x n : fp_size p = n -> length x = triangle n ->
  fposdef_set_free fexp fdot p x = fposdef_set p (mk_mat n n (stored fexp x fdot (fp_lb p) n)).
Proof.
  intros E L. unfold fposdef_set_free, fp_vec_size. rewrite E, L. unfold triangle. rewrite Nat.eqb_refl. cbn [negb]. rewrite (unpack_ok fexp x fdot (fp_lb p) n L). reflexivity.
Qed.

(** ** the diagonal of the factor *)
Section Contract.
Context (fexp : dbl -> dbl) (He : exp_good fexp).

Lemma diag_close (d : dbl) : calm d -> let r := fsub (fadd (fexp d) d) d in
  is_finite r = true /\ Rabs (B2R r - exp (B2R d)) <= 12 * u * (exp (B2R d) + Rabs (B2R d)).
Proof.
  intros C r. destruct (exp_tight fexp He d C) as (Fe & _ & [e0 e1] & Ee). destruct C as [Fd Bd].
  pose proof (exp_calm_bounds _ Bd) as [_ EU]. set (E := exp (B2R d)) in *. set (e := B2R (fexp d)) in *. set (v := B2R d) in *. small_u.
  assert (E0 : 0 < E) by apply exp_pos. pose proof (Rabs_pos v) as v0.
  assert (G : Rabs (e + v) <= E + Rabs v + 9 * u * E). { replace (e + v) with (E + v + (e - E)) by ring. eapply Rle_trans; [apply Rabs_triang|]. apply Rplus_le_compat; [|exact Ee]. eapply Rle_trans; [apply Rabs_triang|]. rewrite (Rabs_pos_eq E) by lra. lra. }
  assert (K : E + Rabs v <= bpow radix2 477).
  { change 477%Z with (476 + 1)%Z. rewrite bpow_plus. change (bpow radix2 1) with 2. assert (512 <= bpow radix2 476) by (change 512 with (bpow radix2 9); apply bpow_le; lia). lra. }
  assert (K1 : bpow radix2 477 * 4 <= bpow radix2 1000). { change 4 with (bpow radix2 2). rewrite <- bpow_plus. apply bpow_le. lia. }
  assert (Q : 9 * u * E <= E) by (rewrite <- (Rmult_1_l E) at 2; apply Rmult_le_compat_r; lra).
  destruct (fadd_rel (fexp d) d Fe Fd) as [Fs Es]. { fold e v. lra. } fold e v in Es. set (s := fadd (fexp d) d) in *.
  assert (D : Rabs (B2R s - v - E) <= 9 * u * E + u * Rabs (e + v)).
  { replace (B2R s - v - E) with ((B2R s - (e + v)) + (e - E)) by ring. eapply Rle_trans; [apply Rabs_triang|]. lra. }
  assert (G' : u * Rabs (e + v) <= u * (2 * (E + Rabs v))) by (apply Rmult_le_compat_l; lra).
  assert (HS : Rabs (B2R s - v) <= E + (9 * u * E + u * Rabs (e + v))). { replace (B2R s - v) with (E + (B2R s - v - E)) by ring. eapply Rle_trans; [apply Rabs_triang|]. rewrite (Rabs_pos_eq E) by lra. lra. }
  destruct (fsub_rel s d Fs Fd) as [Fr Er]. { fold v. assert (W : u * (2 * (E + Rabs v)) <= / 2 * (2 * (E + Rabs v))) by (apply Rmult_le_compat_r; lra). lra. } fold v in Er. fold r in Fr, Er. split; [exact Fr|].
  replace (B2R r - E) with ((B2R r - (B2R s - v)) + (B2R s - v - E)) by ring. eapply Rle_trans; [apply Rabs_triang|].
  assert (G2 : u * Rabs (e + v) <= u * (E + Rabs v + 9 * u * E)) by (apply Rmult_le_compat_l; lra).
  assert (H2 : u * Rabs (B2R s - v) <= u * (E + (9 * u * E + u * (2 * (E + Rabs v))))) by (apply Rmult_le_compat_l; lra).
  assert (0 <= u * E) by nra. assert (0 <= u * Rabs v) by nra.
  assert (u * (u * E) <= / 1000 * (u * E)) by (apply Rmult_le_compat_r; lra). assert (u * (u * Rabs v) <= / 1000 * (u * Rabs v)) by (apply Rmult_le_compat_r; lra). lra.
Qed.
Lemma diag_lost (d : dbl) : is_finite d = true -> B2R d <= -40 -> exists s, fsub (fadd (fexp d) d) d = B754_zero s.
Proof.
  intros F B. destruct (exp_small fexp d (eg_ok _ He) F B) as (Fe & _ & T).
  rewrite (add_absorb (fexp d) d Fe F ltac:(lra)); [apply sub_self_zero; exact F|].
  apply absorb_neg; [exact (generic_format_B2R 53 1024 d)|exact B|exact T].
Qed.
Lemma diag_nan (d : dbl) : is_finite d = false -> fsub (fadd (fexp d) d) d = B754_nan.
Proof.
  destruct d as [t|t| |t m e H]; try discriminate; intros _.
  - destruct t.
    + rewrite (exp_minf _ (eg_ok _ He)). reflexivity.
    + rewrite (eg_inf _ He). reflexivity.
  - rewrite (eg_nan _ He). reflexivity.
Qed.
End Contract.
