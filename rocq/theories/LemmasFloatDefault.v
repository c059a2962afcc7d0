(** The default value between two finite bounds in double precision: lemmas behind C106. *)
From Coq Require Import Reals ZArith List Lra Lia Bool.
From Flocq Require Import Core BinarySingleNaN Mult_error.
From Verif Require Import Res SpecFloat ModelFloat LemmasFloat LemmasFloat2 LemmasFloat3 LemmasFloat4 LemmasFloat5.
Import List ListNotations.
Open Scope R_scope.
Set Bullet Behavior "Strict Subproofs".

Lemma f_half_B2R : B2R f_half = / 2.
Proof. unfold f_half. cbn. unfold F2R. cbn. lra. Qed.
Lemma f_half_finite : is_finite f_half = true.
Proof. reflexivity. Qed.

Lemma half_format x : generic_format radix2 (FLT_exp (-1074) 53) x -> bpow radix2 (-1000) <= x -> rnd64 (/ 2 * x) = x / 2.
Proof.
  intros F H. rewrite rnd64_format; [field|]. replace (/ 2 * x) with (x * bpow radix2 (-1)) by (change (bpow radix2 (-1)) with (/ 2); ring).
  apply mult_bpow_exact_FLT; [exact F|]. assert (N : (-1000 + 1 <= mag radix2 x)%Z); [|lia].
  apply mag_ge_bpow. rewrite Rabs_pos_eq; [|pose proof (bpow_gt_0 radix2 (-1000)); lra]. replace (-1000 + 1 - 1)%Z with (-1000)%Z by lia. exact H.
Qed.

Section Both.
Context (flog : dbl -> dbl) (HL : log_ok flog) (lb ub : dbl) (Hl : bounded500 lb) (Hu : bounded500 ub) (W : bpow radix2 (-1000) <= B2R ub - B2R lb).

Let L : B2R lb < B2R ub.
Proof. pose proof (bpow_gt_0 radix2 (-1000)). lra. Qed.

Lemma width_rounded : bpow radix2 (-1000) <= rnd64 (B2R ub - B2R lb) <= bpow radix2 501.
Proof using Hl Hu W.
  destruct Hl as [_ A], Hu as [_ B]. apply Rabs_le_inv in A, B.
  assert (E : 2 * bpow radix2 500 = bpow radix2 501) by (change 2 with (bpow radix2 1) at 1; rewrite <- bpow_plus; reflexivity).
  split; [rewrite <- (rnd64_bpow (-1000)) by lia|rewrite <- (rnd64_bpow 501) by lia]; apply rnd64_le; lra.
Qed.

Lemma both_default : let v := f_get_inbounds_value lb ub in is_finite v = true /\ B2R v = rnd64 (B2R ub - B2R lb) / 2.
Proof using Hl Hu W.
  cbv zeta. destruct (inf_feq lb (proj1 Hl)) as (_ & _ & Q3 & _). destruct (inf_feq ub (proj1 Hu)) as (_ & _ & _ & Q4). unfold f_get_inbounds_value. rewrite Q3, Q4. cbn [negb].
  pose proof width_rounded as [A B]. assert (P : bpow radix2 501 < bpow radix2 1024) by (apply bpow_lt; lia). pose proof (bpow_gt_0 radix2 (-1000)) as Z.
  destruct (fsub_cases ub lb (proj1 Hu) (proj1 Hl)) as [(_ & E & F & _)|(C & _)]; [|rewrite Rabs_pos_eq in C by lra; lra].
  assert (G : rnd64 (/ 2 * rnd64 (B2R ub - B2R lb)) = rnd64 (B2R ub - B2R lb) / 2).
  { apply half_format; [|exact A]. unfold rnd64. apply generic_format_round; [exact (@FLT_exp_valid (-1074) 53 prec53)|apply valid_rnd_N]. }
  destruct (fmul_cases f_half (fsub ub lb) f_half_finite F) as [(_ & E' & F' & _)|(C & _)]; rewrite f_half_B2R, E, G in *.
  - auto.
  - rewrite Rabs_pos_eq in C by lra. lra.
Qed.

Lemma double_format (x : dbl) : Rabs (B2R x) <= bpow radix2 500 -> rnd64 (2 * B2R x) = 2 * B2R x.
Proof using.
  intros _. apply rnd64_format. replace (2 * B2R x) with (B2R x * bpow radix2 1) by (change (bpow radix2 1) with 2; ring).
  apply mult_bpow_pos_exact_FLT; [|lia]. exact (generic_format_B2R 53 1024 x).
Qed.

Lemma default_both n : exists p, fvector_init n lb ub None = Ok p /\ length (fvector_get p) = n
  /\ Forall (fun v => is_finite v = true /\ B2R v = rnd64 (B2R ub - B2R lb) / 2) (fvector_get p)
  /\ (B2R lb <= (B2R ub - B2R lb) / 2 <= B2R ub -> exists w, fvector_get_free flog p = Ok w /\ length w = n /\ Forall number w)
  /\ ((0 < n)%nat -> fvector_get_free flog p = Raise ValueError <-> rnd64 (B2R ub - B2R lb) / 2 < B2R lb \/ B2R ub < rnd64 (B2R ub - B2R lb) / 2)
  /\ (B2R lb = - B2R ub -> fvector_get p = repeat ub n /\ fvector_get_free flog p = Ok (repeat (B754_infinity false) n)).
Proof using HL Hl Hu W.
  destruct both_default as [Fv Ev]. set (v := f_get_inbounds_value lb ub) in *. pose proof (proj1 Hl) as Fl. pose proof (proj1 Hu) as Fu.
  assert (C : fle ub lb = false). { apply not_true_is_false. intros T. apply (fle_finite ub lb Fu Fl) in T. lra. }
  assert (I : fvector_init n lb ub None = Ok (mkFV n lb ub (repeat v n))).
  { unfold fvector_init. rewrite fle_minf, fle_pinf, C. replace (is_nan lb) with false by (destruct lb; try discriminate; reflexivity). replace (is_nan ub) with false by (destruct ub; try discriminate; reflexivity).
    cbn [negb]. unfold fvector_set. cbn [fv_size fv_lb fv_ub]. fold v. rewrite repeat_length, Nat.eqb_refl. reflexivity. }
  exists (mkFV n lb ub (repeat v n)). split; [exact I|]. cbn [fvector_get fv_val]. split; [apply repeat_length|]. split; [apply Forall_repeat; auto|].
  assert (In : B2R lb <= B2R v <= B2R ub -> fvector_get_free flog (mkFV n lb ub (repeat v n)) = Ok (repeat (f_unconstrain_entry flog v lb ub) n)).
  { intros [A B]. rewrite get_free_ok; cbn [fvector_get fv_val fv_lb fv_ub]; [rewrite map_repeat_; reflexivity|exact C|]. apply Forall_repeat. split; apply dle_finite; assumption. }
  assert (Num : B2R lb <= B2R v <= B2R ub -> number (f_unconstrain_entry flog v lb ub)) by (intros A; apply (both_free_number flog HL lb ub Hl Hu L); assumption).
  assert (H : B2R lb <= (B2R ub - B2R lb) / 2 <= B2R ub -> B2R lb <= B2R v <= B2R ub).
  { intros [A B]. rewrite Ev. split.
    - assert (2 * B2R lb <= rnd64 (B2R ub - B2R lb)); [|lra]. rewrite <- (double_format lb (proj2 Hl)). apply rnd64_le. lra.
    - assert (rnd64 (B2R ub - B2R lb) <= 2 * B2R ub); [|lra]. rewrite <- (double_format ub (proj2 Hu)). apply rnd64_le. lra. }
  split; [|split].
  - intros A. specialize (H A). eexists. split; [exact (In H)|]. split; [apply repeat_length|]. apply Forall_repeat. exact (Num H).
  - intros Hn. destruct (get_free_iff flog (mkFV n lb ub (repeat v n)) C) as [_ R]. cbn [fvector_get fv_val fv_lb fv_ub] in R. rewrite R. rewrite <- Ev. split.
    + intros K. destruct (Rlt_or_le (B2R v) (B2R lb)) as [A|A]; [left; exact A|]. destruct (Rlt_or_le (B2R ub) (B2R v)) as [B|B]; [right; exact B|].
      exfalso. apply K. apply Forall_repeat. split; apply dle_finite; assumption.
    + intros K G. destruct n as [|n]; [lia|]. inversion G as [|? ? [A B] _]. apply dle_finite in A, B; try assumption. lra.
  - intros S. assert (U : 0 < B2R ub) by lra.
    assert (E : B2R v = B2R ub). { rewrite Ev, S. replace (B2R ub - - B2R ub) with (2 * B2R ub) by ring. rewrite (double_format ub (proj2 Hu)). field. }
    assert (V : v = ub) by (apply (B2R_eq_nonzero v ub Fv Fu E); lra). split; [rewrite V; reflexivity|]. rewrite In by lra. f_equal. f_equal.
    rewrite V, unconstrain_both by assumption. destruct (fsub_self ub ub Fu Fu eq_refl) as [s ->]. rewrite (log_zero _ HL).
    destruct (fsub_zero_iff ub lb Fu Fl L) as [A B].
    + rewrite Rabs_pos_eq by lra. destruct Hl as [_ A], Hu as [_ B]. apply Rabs_le_inv in A, B.
      assert (E' : 2 * bpow radix2 500 = bpow radix2 501) by (change 2 with (bpow radix2 1) at 1; rewrite <- bpow_plus; reflexivity). lra.
    + pose proof (log_finite _ HL _ A B) as F. destruct (flog (fsub ub lb)) as [[]|[]| |[] m x q]; try discriminate; reflexivity.
Qed.
End Both.
