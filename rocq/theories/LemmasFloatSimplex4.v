(** Proofs about simplex parameters in binary64: whole parameters, and the contracts are satisfiable. *)
From Coq Require Import Reals ZArith List Lra Lia Psatz Bool Permutation.
From Flocq Require Import Core BinarySingleNaN Relative Plus_error.
From Verif Require Import Res RSum SpecFloat ModelFloat LemmasFloat LemmasFloat2 LemmasFloat3 LemmasFloat4 SpecFloatSimplex ModelFloatSimplex
  LemmasFloatSimplex LemmasFloatSimplex2 LemmasFloatSimplex3.
Import List ListNotations.
Set Bullet Behavior "Strict Subproofs".
Open Scope R_scope.

(** ---- the contracts ---- *)
Definition add_in_order (l : list dbl) : dbl := fold_left fadd l (B754_zero false).
Lemma add_in_order_sums : sums add_in_order.
Proof.
  intros l. induction l as [|x l IH] using rev_ind; [constructor|].
  unfold add_in_order. rewrite fold_left_app. cbn [fold_left]. fold (add_in_order l).
  apply (sum_add (l ++ [x]) l [x]); [apply Permutation_refl|exact IH|constructor].
Qed.

#[local] Instance P53 : Prec_gt_0 53 := prec53.
Lemma rnd64_error x : Rabs (rnd64 x - x) <= u * Rabs x + bpow radix2 (-1074).
Proof.
  destruct (error_N_FLT radix2 (-1074) 53 prec53 (fun x => negb (Z.even x)) x) as (e & h & A & B & _ & E).
  unfold rnd64. rewrite E. replace (x * (1 + e) + h - x) with (e * x + h) by ring. apply Rle_trans with (1 := Rabs_triang _ _).
  rewrite Rabs_mult. assert (A' : Rabs e <= u).
  { apply Rle_trans with (1 := A). right. unfold u. change (- (53) + 1)%Z with (1 + -53)%Z. rewrite bpow_plus. change (bpow radix2 1) with 2. field. }
  pose proof (bpow_gt_0 radix2 (-1074)). pose proof (Rabs_pos x). nra.
Qed.
Lemma rnd64_1 : rnd64 1 = 1.
Proof. rewrite <- done_B2R. apply rnd64_id. Qed.
Lemma fin_of x : Rabs x <= bpow radix2 1001 -> B2R (nearest x) = rnd64 x /\ is_finite (nearest x) = true /\ (0 <= x -> Bsign (nearest x) = false).
Proof.
  intros B. destruct (nearest_cases x) as [(_ & E & G & S)|(A & _)]; [splits; auto|]. exfalso.
  pose proof (rnd64_fin x 1001 ltac:(lia) B). lra.
Qed.
Lemma nearest_1 : nearest 1 = done.
Proof.
  destruct (fin_of 1) as (E & G & S).
  - rewrite Rabs_R1. change 1 with (bpow radix2 0). apply bpow_le. lia.
  - apply B2R_Bsign_inj; auto; [rewrite E, rnd64_1, done_B2R; reflexivity|]. rewrite S by lra. reflexivity.
Qed.
Lemma ideal_exp_good : exp_good ideal_exp.
Proof.
  constructor.
  - exact ideal_exp_ok.
  - intros x L. eapply dle_trans; [apply ideal_exp_monotone; exact L|]. rewrite ideal_exp_finite by reflexivity. cbn [B2R].
    rewrite exp_0, nearest_1. apply dle_refl. reflexivity.
  - reflexivity.
  - intros s. rewrite ideal_exp_finite by reflexivity. cbn [B2R]. rewrite exp_0. apply nearest_1.
  - reflexivity.
  - intros x F B. rewrite ideal_exp_finite by exact F. pose proof (exp_pos (B2R x)) as P.
    destruct (fin_of (exp (B2R x))) as (-> & _ & _).
    + rewrite Rabs_pos_eq by lra. apply Rle_trans with (1 := B). apply bpow_le. lia.
    + pose proof (rnd64_error (exp (B2R x))) as E. rewrite (Rabs_pos_eq (exp (B2R x))) in E by lra.
      assert (u <= bpow radix2 (-50)) by (apply bpow_le; lia).
      assert (bpow radix2 (-1074) <= bpow radix2 (-1070)) by (apply bpow_le; lia). nra.
  - intros x F B. rewrite ideal_exp_finite by exact F. pose proof (exp_pos (B2R x)) as P.
    destruct (fin_of (exp (B2R x))) as (E & G & S).
    + rewrite Rabs_pos_eq by lra. apply Rle_trans with (1 := B). apply bpow_le. lia.
    + specialize (S ltac:(lra)). pose proof (rnd64_le_double (exp (B2R x)) ltac:(lra)) as U.
      destruct (nearest (exp (B2R x))) as [s|s| |s k e Bd] eqn:EN; try discriminate; [cbn in S; rewrite S; reflexivity|].
      exfalso. pose proof (abs_B2R_ge_emin 53 1024 (B754_finite s k e Bd) eq_refl) as L. rewrite E in L.
      rewrite Rabs_pos_eq in L by (apply rnd64_nonneg; lra).
      assert (2 * bpow radix2 (-1080) < bpow radix2 (-1074)).
      { change 2 with (bpow radix2 1). rewrite <- bpow_plus. apply bpow_lt. lia. }
      change (SpecFloat.emin 53 1024) with (-1074)%Z in L. lra.
Qed.
Lemma ideal_log_good : log_good ideal_log.
Proof.
  constructor.
  - exact ideal_log_ok.
  - intros x L. assert (Z : dle (B754_zero false) done) by (apply dle_finite; [reflexivity|reflexivity|rewrite done_B2R; cbn; lra]).
    destruct (nonneg_cases x (dle_trans _ _ _ Z L)) as [->|[F _]]; [exact I|].
    apply (dle_finite done x) in L; [|reflexivity|exact F]. rewrite done_B2R in L.
    destruct x as [s|s| |[] m e B]; try discriminate; [cbn in L; lra| |].
    + exfalso. assert (H : F2R (beta := radix2) {| Fnum := Z.neg m; Fexp := e |} < 0) by (apply F2R_lt_0; cbn; lia). cbn in H, L. lra.
    + set (x := B754_finite false m e B : double) in *. change (ideal_log x) with (nearest (ln (B2R x))).
      assert (P : 0 <= ln (B2R x)). { rewrite <- ln_1. destruct L as [L|<-]; [left; apply ln_increasing; lra|lra]. }
      apply sign_nonneg; [apply nearest_number|apply nearest_sign; exact P].
  - reflexivity.
  - intros x F P. destruct x as [[]|[]| |[] m e B]; try discriminate; try (cbn in P; lra).
    + exfalso. assert (H : F2R (beta := radix2) {| Fnum := Z.neg m; Fexp := e |} < 0) by (apply F2R_lt_0; cbn; lia). cbn in H, P. lra.
    + set (x := B754_finite false m e B : double) in *. pose proof (log_finite _ ideal_log_ok x F P) as G.
      change (ideal_log x) with (nearest (ln (B2R x))) in *.
      assert (E : B2R (nearest (ln (B2R x))) = rnd64 (ln (B2R x))).
      { destruct (nearest_cases (ln (B2R x))) as [(_ & E & _)|(_ & E)]; [exact E|]. rewrite E in G. discriminate. }
      rewrite E. pose proof (rnd64_error (ln (B2R x))) as Q.
      assert (u <= bpow radix2 (-50)) by (apply bpow_le; lia).
      assert (bpow radix2 (-1074) <= bpow radix2 (-50)) by (apply bpow_le; lia). pose proof (Rabs_pos (ln (B2R x))). nra.
Qed.

(** ---- parameters ---- *)
Lemma reshape_concat (free : list (list dbl)) n : List.Forall (fun row => length row = n) free -> reshape_rows (length free) n (concat free) = free.
Proof.
  induction 1 as [|row free L _ IH]; [reflexivity|]. cbn [length reshape_rows concat].
  rewrite firstn_app, skipn_app, L, Nat.sub_diag, firstn_O, app_nil_r. rewrite <- L at 1. rewrite firstn_all, <- L, skipn_all. cbn [skipn app].
  rewrite L, IH. reflexivity.
Qed.
Lemma concat_length (free : list (list dbl)) n : List.Forall (fun row => length row = n) free -> length (concat free) = (length free * n)%nat.
Proof. induction 1 as [|row free L _ IH]; [reflexivity|]. cbn [concat length]. rewrite app_length, IH, L. reflexivity. Qed.
Lemma init_fields R K v0 p : fsimplex_init R K v0 = Ok p -> fs_rows p = R /\ fs_cols p = K.
Proof.
  unfold fsimplex_init, fsimplex_set. cbn [fs_rows fs_cols]. destruct v0 as [v|]; [|destruct (Nat.eqb K 0); [discriminate|]];
    (destruct (andb _ _); [|discriminate]); intros H; inversion H; split; reflexivity.
Qed.

Section Param.
Variables (fexp flog : dbl -> dbl) (fsum : list dbl -> dbl).
Lemma set_free_rows R K v0 p (free : list (list dbl)) : fsimplex_init R K v0 = Ok p -> (1 <= K)%nat -> length free = R ->
  List.Forall (fun row => length row = (K - 1)%nat) free ->
  fsimplex_set_free fexp flog fsum p (concat free) = Ok (mkFS R K (map (f_constrain_simplex_row fexp flog fsum) free)).
Proof.
  intros H KP L F. destruct (init_fields _ _ _ _ H) as [E1 E2]. unfold fsimplex_set_free. rewrite E1, E2, (concat_length free _ F), L, Nat.eqb_refl.
  rewrite <- L at 1. rewrite (reshape_concat free _ F). unfold fsimplex_set. rewrite E1, E2, map_length, L, Nat.eqb_refl.
  assert (Q : forallb (fun row => Nat.eqb (length row) K) (map (f_constrain_simplex_row fexp flog fsum) free) = true).
  { apply forallb_forall. intros r Ir. apply in_map_iff in Ir. destruct Ir as (row & <- & Irow). apply Nat.eqb_eq.
    rewrite Forall_forall in F. specialize (F row Irow). rewrite constrain_row, map_length. unfold aug. cbn [length]. lia. }
  rewrite Q. reflexivity.
Qed.
Lemma set_free_length R K v0 p x : fsimplex_init R K v0 = Ok p -> length x <> (R * (K - 1))%nat -> fsimplex_set_free fexp flog fsum p x = Raise ValueError.
Proof. intros H N. destruct (init_fields _ _ _ _ H) as [E1 E2]. unfold fsimplex_set_free. rewrite E1, E2. apply Nat.eqb_neq in N. rewrite N. reflexivity. Qed.

Hypothesis He : exp_good fexp.
Hypothesis Hl : log_good flog.
Hypothesis Hs : sums fsum.

Lemma simplex_range R K v0 p (free : list (list dbl)) : fsimplex_init R K v0 = Ok p -> (1 <= K)%nat -> length free = R ->
  List.Forall (fun row => length row = (K - 1)%nat) free -> List.Forall (List.Forall not_up) free ->
  exists p', fsimplex_set_free fexp flog fsum p (concat free) = Ok p' /\ length (fsimplex_get p') = R /\
    List.Forall (fun row => length row = K /\ List.Forall unit_interval row) (fsimplex_get p').
Proof.
  intros H KP L F N. rewrite (set_free_rows R K v0 p free H KP L F). eexists. split; [reflexivity|]. cbn [fsimplex_get fs_val].
  split; [rewrite map_length; exact L|]. apply Forall_forall. intros r Ir. apply in_map_iff in Ir. destruct Ir as (row & <- & Irow).
  rewrite Forall_forall in F, N. specialize (F row Irow). split.
  - rewrite constrain_row, map_length. unfold aug. cbn [length]. lia.
  - apply row_range; auto.
Qed.

Lemma simplex_accuracy R K v0 p (free : list (list dbl)) M : fsimplex_init R K v0 = Ok p -> (1 <= K)%nat -> length free = R ->
  List.Forall (fun row => length row = (K - 1)%nat) free ->
  List.Forall (List.Forall (fun v : dbl => is_finite v = true /\ Rabs (B2R v) <= M)) free ->
  0 <= M <= bpow radix2 20 -> INR K <= bpow radix2 20 ->
  exists p', fsimplex_set_free fexp flog fsum p (concat free) = Ok p' /\
    forall r row, nth_error free r = Some row -> exists probs, nth_error (fsimplex_get p') r = Some probs /\ length probs = K /\
      (forall k, (k < K)%nat -> exists q, nth_error probs k = Some q /\ is_finite q = true /\
         Rabs (B2R q - softmax (map (fun v : dbl => B2R v) row) k)
           <= (M + INR K + 32) * bpow radix2 (-48) * softmax (map (fun v : dbl => B2R v) row) k + bpow radix2 (-1070)) /\
      Rabs (lsum (map (fun q : dbl => B2R q) probs) - 1) <= (M + INR K + 32) * bpow radix2 (-47).
Proof.
  intros H KP L F N HM HK. rewrite (set_free_rows R K v0 p free H KP L F). eexists. split; [reflexivity|]. cbn [fsimplex_get fs_val].
  intros r row E. exists (f_constrain_simplex_row fexp flog fsum row). rewrite nth_error_map, E. split; [reflexivity|].
  rewrite Forall_forall in F, N. pose proof (nth_error_In _ _ E) as Ir. specialize (F row Ir). specialize (N row Ir).
  assert (LA : length (aug row) = K) by (unfold aug; cbn [length]; lia).
  split; [rewrite constrain_row, map_length; exact LA|]. split.
  - intros k Hk. pose proof (row_accuracy fexp flog fsum He Hl Hs row M N HM ltac:(rewrite LA; exact HK) k ltac:(rewrite LA; exact Hk)) as A.
    rewrite LA in A. exact A.
  - pose proof (row_total fexp flog fsum He Hl Hs row M N HM ltac:(rewrite LA; exact HK)) as A. rewrite LA in A. exact A.
Qed.

Lemma simplex_infinite R K v0 p (free : list (list dbl)) r row : fsimplex_init R K v0 = Ok p -> (1 <= K)%nat -> length free = R ->
  List.Forall (fun row => length row = (K - 1)%nat) free -> nth_error free r = Some row ->
  List.Forall number row -> In (B754_infinity false) row ->
  exists p' probs, fsimplex_set_free fexp flog fsum p (concat free) = Ok p' /\ nth_error (fsimplex_get p') r = Some probs /\ length probs = K /\
    nth_error probs 0 = Some (B754_zero false) /\
    forall k v, nth_error row k = Some v ->
      (v = B754_infinity false -> nth_error probs (S k) = Some B754_nan) /\ (v <> B754_infinity false -> nth_error probs (S k) = Some (B754_zero false)).
Proof.
  intros H KP L F E N I. rewrite (set_free_rows R K v0 p free H KP L F). eexists _, _. split; [reflexivity|]. cbn [fsimplex_get fs_val].
  rewrite nth_error_map, E. split; [reflexivity|]. pose proof (nth_error_In _ _ E) as Ir. rewrite Forall_forall in F. specialize (F row Ir).
  split; [rewrite constrain_row, map_length; unfold aug; cbn [length]; lia|].
  split; [apply (row_infinite fexp flog fsum He Hl Hs row 0 (B754_zero false) N I eq_refl)|].
  intros k v Ek. pose proof (row_infinite fexp flog fsum He Hl Hs row (S k) v N I Ek) as Q. rewrite Q.
  assert (Nv : number v) by (rewrite Forall_forall in N; apply N; eapply nth_error_In; eauto).
  split; intros D.
  - subst v. reflexivity.
  - destruct v as [[]|[]| |[] ? ? ?]; try reflexivity; [congruence|discriminate].
Qed.

Lemma unconstrain_length K row : length row = K -> length (f_unconstrain_simplex_row flog row) = (K - 1)%nat.
Proof. intros <-. destruct row as [|p0 ps]; cbn [f_unconstrain_simplex_row length]; [reflexivity|]. rewrite map_length. lia. Qed.
Lemma concat_nth (l : list (list dbl)) n r k row : List.Forall (fun row => length row = n) l -> nth_error l r = Some row -> (k < n)%nat ->
  nth_error (concat l) (r * n + k) = nth_error row k.
Proof.
  intros F. revert r. induction F as [|x l Lx F IH]; intros r E Hk; [destruct r; discriminate|].
  destruct r as [|r]; cbn [nth_error] in E; cbn [concat].
  - injection E as ->. rewrite nth_error_app1 by (cbn; lia). reflexivity.
  - rewrite nth_error_app2 by (cbn; lia). replace (S r * n + k - length x)%nat with (r * n + k)%nat by (cbn; lia). apply IH; auto.
Qed.

Lemma get_free_entry rows K (val : list (list dbl)) r k probs : List.Forall (fun row => length row = K) val -> nth_error val r = Some probs -> (k < K - 1)%nat ->
  nth_error (fsimplex_get_free flog (mkFS rows K val)) (r * (K - 1) + k) = nth_error (f_unconstrain_simplex_row flog probs) k.
Proof.
  intros F E Hk. unfold fsimplex_get_free. cbn [fs_val]. apply concat_nth with (n := (K - 1)%nat); auto.
  - apply Forall_forall. intros w Iw. apply in_map_iff in Iw. destruct Iw as (row & <- & Irow). apply unconstrain_length. rewrite Forall_forall in F. auto.
  - rewrite nth_error_map, E. reflexivity.
Qed.
Lemma fsimplex_set_ok p val q : fsimplex_set p val = Ok q -> q = mkFS (fs_rows p) (fs_cols p) val /\ length val = fs_rows p /\
  List.Forall (fun row => length row = fs_cols p) val.
Proof.
  unfold fsimplex_set. destruct (andb _ _) eqn:E; [|discriminate]. intros H. inversion H. apply andb_true_iff in E. destruct E as [E1 E2].
  apply Nat.eqb_eq in E1. rewrite forallb_forall in E2. splits; auto. apply Forall_forall. intros x I. apply Nat.eqb_eq. auto.
Qed.

Lemma simplex_get_free R K v0 p (val : list (list dbl)) q : fsimplex_init R K v0 = Ok p -> fsimplex_set p val = Ok q ->
  List.Forall (List.Forall unit_interval) val ->
  length (fsimplex_get_free flog q) = (R * (K - 1))%nat /\
  forall r k p0 ps pk, nth_error val r = Some (p0 :: ps) -> nth_error ps k = Some pk -> exists w,
    nth_error (fsimplex_get_free flog q) (r * (K - 1) + k) = Some w /\
    (w = B754_nan <-> B2R pk = 0 /\ B2R p0 = 0) /\
    (w = B754_infinity false <-> B2R pk <> 0 /\ B2R p0 = 0) /\
    (w = B754_infinity true <-> B2R pk = 0 /\ B2R p0 <> 0) /\
    (is_finite w = true <-> B2R pk <> 0 /\ B2R p0 <> 0).
Proof.
  intros H Q U. destruct (init_fields _ _ _ _ H) as [E1 E2]. destruct (fsimplex_set_ok _ _ _ Q) as (-> & L & F). rewrite E1, E2 in *. split.
  - unfold fsimplex_get_free. cbn [fs_val]. rewrite (concat_length _ (K - 1)); [rewrite map_length, L; reflexivity|].
    apply Forall_forall. intros w Iw. apply in_map_iff in Iw. destruct Iw as (row & <- & Irow). apply unconstrain_length. rewrite Forall_forall in F. auto.
  - intros r k p0 ps pk Er Ek. pose proof (nth_error_In _ _ Er) as Ir. rewrite Forall_forall in U. specialize (U _ Ir). inversion U as [|? ? U0 Us]; subst.
    pose proof F as F'. rewrite Forall_forall in F'. specialize (F' _ Ir). cbn [length] in F'.
    assert (Hk : (k < length ps)%nat) by (apply nth_error_Some; congruence).
    exists (fsub (flog pk) (flog p0)). rewrite (get_free_entry _ _ _ r k _ F Er) by lia. cbn [f_unconstrain_simplex_row]. rewrite nth_error_map, Ek.
    split; [reflexivity|]. apply unconstrain_entry; auto. rewrite Forall_forall in Us. apply Us. eapply nth_error_In; eauto.
Qed.

Lemma simplex_lost R K v0 p (free : list (list dbl)) r row i v : fsimplex_init R K v0 = Ok p -> (1 <= K)%nat -> length free = R ->
  List.Forall (fun row => length row = (K - 1)%nat) free -> nth_error free r = Some row -> List.Forall not_up row ->
  nth_error row i = Some v -> is_finite v = true -> 750 <= B2R v ->
  exists p', fsimplex_set_free fexp flog fsum p (concat free) = Ok p' /\ forall j w, nth_error row j = Some w ->
    exists o, nth_error (fsimplex_get_free flog p') (r * (K - 1) + j) = Some o /\ (o = B754_nan \/ o = B754_infinity false) /\
      (is_finite w = true -> B2R w <= B2R v - 750 -> o = B754_nan).
Proof.
  intros H KP L F E N Ei Fv Bv. rewrite (set_free_rows R K v0 p free H KP L F). eexists. split; [reflexivity|]. intros j w Ej.
  pose proof F as F'. rewrite Forall_forall in F'. specialize (F' row (nth_error_In _ _ E)).
  assert (Hj : (j < length row)%nat) by (apply nth_error_Some; congruence).
  destruct (row_lost fexp flog fsum He Hl Hs row i v j w N Ei Fv Bv Ej) as (o & Eo & A & B & _). exists o. splits; auto.
  rewrite (get_free_entry R K _ r j (f_constrain_simplex_row fexp flog fsum row)); auto; [|rewrite nth_error_map, E; reflexivity|lia].
  apply Forall_forall. intros x Ix. apply in_map_iff in Ix. destruct Ix as (y & <- & Iy). rewrite Forall_forall in F. specialize (F y Iy).
  rewrite constrain_row, map_length. unfold aug. cbn [length]. lia.
Qed.

Lemma simplex_round_trip R K v0 p (free : list (list dbl)) : fsimplex_init R K v0 = Ok p -> (1 <= K)%nat -> length free = R ->
  List.Forall (fun row => length row = (K - 1)%nat) free ->
  List.Forall (List.Forall (fun v : dbl => is_finite v = true /\ Rabs (B2R v) <= 300)) free -> INR K <= bpow radix2 20 ->
  exists p', fsimplex_set_free fexp flog fsum p (concat free) = Ok p' /\ length (fsimplex_get_free flog p') = length (concat free) /\
    forall i v, nth_error (concat free) i = Some v -> exists w, nth_error (fsimplex_get_free flog p') i = Some w /\ is_finite w = true /\
      Rabs (B2R w - B2R v) <= (INR K + 512) * bpow radix2 (-46).
Proof.
  intros H KP L F N HK. rewrite (set_free_rows R K v0 p free H KP L F). eexists. split; [reflexivity|].
  unfold fsimplex_get_free. cbn [fs_val]. rewrite map_map. clear H v0 p L.
  induction free as [|row free IH]; [split; [reflexivity|intros i v E; destruct i; discriminate]|].
  inversion F as [|? ? F1 F2]; subst. inversion N as [|? ? N1 N2]; subst. destruct (IH F2 N2) as [IL IE]. cbn [map concat].
  assert (LA : length (aug row) = K) by (unfold aug; cbn [length]; lia).
  assert (LU : length (f_unconstrain_simplex_row flog (f_constrain_simplex_row fexp flog fsum row)) = length row).
  { rewrite (unconstrain_length K); [lia|]. rewrite constrain_row, map_length. exact LA. }
  split; [rewrite !app_length, LU, IL; reflexivity|]. intros i v E.
  destruct (Nat.lt_ge_cases i (length row)) as [Hi|Hi].
  - rewrite nth_error_app1 in E by exact Hi. rewrite nth_error_app1 by (rewrite LU; exact Hi).
    pose proof (row_round_trip fexp flog fsum He Hl Hs row N1 ltac:(rewrite LA; exact HK) i v E) as Q. rewrite LA in Q. exact Q.
  - rewrite nth_error_app2 in E by exact Hi. rewrite nth_error_app2 by (rewrite LU; exact Hi). rewrite LU. apply IE. exact E.
Qed.

(** the default value *)
Lemma f_of_nat_B2R K : INR K <= bpow radix2 20 -> is_finite (f_of_nat K) = true /\ B2R (f_of_nat K) = INR K.
Proof.
  intros H. rewrite bpow20, INR_IZR_INZ in H. apply le_IZR in H. change (f_of_nat K) with (dint (Z.of_nat K)).
  assert (Q : B2R (dint (Z.of_nat K)) = INR K) by (rewrite INR_IZR_INZ; apply dint_B2R; lia).
  split; [|exact Q]. destruct (dint (Z.of_nat K)) as [s|s| |s k e B] eqn:E; try reflexivity; exfalso.
  all: pose proof (@binary_normalize_correct 53 1024 prec53 emax1024 mode_NE (Z.of_nat K) 0 false) as C; cbv zeta in C; fold (dint (Z.of_nat K)) in C.
  all: assert (X : F2R (beta := radix2) {| Fnum := Z.of_nat K; Fexp := 0 |} = IZR (Z.of_nat K)) by (unfold F2R; cbn; ring).
  all: rewrite X in C; change (round radix2 (SpecFloat.fexp 53 1024) (round_mode mode_NE) (IZR (Z.of_nat K))) with (rnd64 (IZR (Z.of_nat K))) in C.
  all: rewrite Rlt_bool_true in C; [destruct C as (_ & C & _); rewrite E in C; discriminate|].
  all: apply (rnd64_fin _ 20); [lia|]; rewrite bpow20, Rabs_pos_eq by (apply IZR_le; lia); apply IZR_le; exact H.
Qed.
Lemma simplex_default R K : (1 <= K)%nat -> INR K <= bpow radix2 20 ->
  exists p d, fsimplex_init R K None = Ok p /\ fsimplex_get p = repeat (repeat d K) R /\ unit_interval d /\ B2R d = rnd64 (1 / INR K) /\
    Rabs (INR K * B2R d - 1) <= bpow radix2 (-53) /\
    length (fsimplex_get_free flog p) = (R * (K - 1))%nat /\ List.Forall (fun w : dbl => is_finite w = true /\ B2R w = 0) (fsimplex_get_free flog p).
Proof.
  intros KP HK. destruct (f_of_nat_B2R K HK) as [Fk Ek]. set (d := fdiv f_one (f_of_nat K)).
  assert (K1 : 1 <= INR K) by (change 1 with (INR 1); apply le_INR; exact KP). rewrite bpow20 in HK.
  assert (I1 : 0 < / INR K <= 1). { split; [apply Rinv_0_lt_compat; lra|]. rewrite <- Rinv_1. apply Rinv_le; lra. }
  assert (DD : is_finite d = true /\ B2R d = rnd64 (1 / INR K)).
  { unfold d. destruct (fdiv_cases f_one (f_of_nat K) eq_refl ltac:(lra)) as [(_ & E & G & _)|(A & _)].
    - split; auto. rewrite E, Ek, one_B2R. reflexivity.
    - exfalso. rewrite Ek, one_B2R in A. pose proof (rnd64_fin (1 / INR K) 0 ltac:(lia)) as Q. change (bpow radix2 0) with 1 in Q.
      unfold Rdiv in Q, A. rewrite Rmult_1_l in Q, A. specialize (Q ltac:(rewrite Rabs_pos_eq; lra)). lra. }
  destruct DD as [Fd Ed].
  assert (Q : bpow radix2 (-1022) <= 1 / INR K).
  { unfold Rdiv. rewrite Rmult_1_l. apply Rle_trans with (/ bpow radix2 20); [rewrite <- bpow_opp; apply bpow_le; lia|].
    rewrite bpow20. apply Rinv_le; lra. }
  assert (E1 : Rabs (rnd64 (1 / INR K) - 1 / INR K) <= u * (1 / INR K)).
  { pose proof (relative_error_N_FLT radix2 (-1074) 53 prec53 (fun x => negb (Z.even x)) (1 / INR K)) as R1.
    change (-1074 + 53 - 1)%Z with (-1022)%Z in R1. rewrite (Rabs_pos_eq (1 / INR K)) in R1 by (unfold Rdiv; lra). specialize (R1 Q).
    replace (/ 2 * bpow radix2 (- (53) + 1)) with u in R1; [exact R1|].
    unfold u. change (- (53) + 1)%Z with (1 + -53)%Z. rewrite bpow_plus. change (bpow radix2 1) with 2. field. }
  assert (UD : unit_interval d).
  { split; auto. rewrite Ed. split; [apply rnd64_nonneg; unfold Rdiv; lra|]. apply Rle_trans with (rnd64 1); [apply rnd64_le; unfold Rdiv; lra|rewrite rnd64_1; lra]. }
  assert (ND : B2R d <> 0).
  { rewrite Ed. pose proof (rnd64_rel_lower _ Q) as RL. fold u in RL. pose proof (bpow_gt_0 radix2 (-1022)). rewrite u_val in RL. lra. }
  exists (mkFS R K (repeat (repeat d K) R)), d. splits.
  - unfold fsimplex_init. destruct K as [|K']; [lia|]. cbn [Nat.eqb]. fold d. unfold fsimplex_set. cbn [fs_rows fs_cols].
    rewrite repeat_length, Nat.eqb_refl.
    assert (X : forallb (fun row => Nat.eqb (length row) (S K')) (repeat (repeat d (S K')) R) = true).
    { apply forallb_forall. intros row Ir. apply repeat_spec in Ir. subst row. rewrite repeat_length. apply Nat.eqb_refl. }
    rewrite X. reflexivity.
  - reflexivity.
  - exact UD.
  - exact Ed.
  - rewrite Ed. fold u. replace (INR K * rnd64 (1 / INR K) - 1) with (INR K * (rnd64 (1 / INR K) - 1 / INR K)) by (field; lra).
    rewrite Rabs_mult, (Rabs_pos_eq (INR K)) by lra. apply Rle_trans with (INR K * (u * (1 / INR K))); [apply Rmult_le_compat_l; lra|].
    right. field. lra.
  - unfold fsimplex_get_free. cbn [fs_val]. rewrite (concat_length _ (K - 1)); [rewrite map_length, repeat_length; reflexivity|].
    apply Forall_forall. intros w Iw. apply in_map_iff in Iw. destruct Iw as (row & <- & Irow). apply repeat_spec in Irow. subst row.
    apply unconstrain_length. apply repeat_length.
  - unfold fsimplex_get_free. cbn [fs_val]. apply Forall_forall. intros w Iw. apply in_concat in Iw. destruct Iw as (ws & I1' & I2).
    apply in_map_iff in I1'. destruct I1' as (row & <- & Irow). apply repeat_spec in Irow. subst row.
    destruct K as [|K']; [lia|]. cbn [repeat f_unconstrain_simplex_row] in I2. apply in_map_iff in I2. destruct I2 as (x & <- & Ix).
    apply repeat_spec in Ix. subst x. pose proof (log_pos flog Hl d UD ND) as FL. destruct (fsub_self _ FL) as [s ->]. split; reflexivity.
Qed.
End Param.
