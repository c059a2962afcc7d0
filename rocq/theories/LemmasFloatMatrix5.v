(** Proofs about positive definite matrix parameters in binary64: the vector interface. *)
From Coq Require Import Reals ZArith List Lra Lia Psatz Bool.
From Flocq Require Import Core BinarySingleNaN Mult_error.
From Verif Require Import Res Nd RSum SpecFloat SpecFloatSimplex SpecFloatAcc SpecFloatMatrix SpecMatrix ModelFloat ModelMatrix ModelFloatMatrix SpecFloatReach LemmasMatrix
  LemmasFloat LemmasFloat2 LemmasFloat3 LemmasFloat4 LemmasFloatSimplex LemmasFloatSimplex2 LemmasFloatAcc LemmasFloatMatrix LemmasFloatMatrix2 LemmasFloatMatrix3.
Import List ListNotations.
Set Bullet Behavior "Strict Subproofs".
Open Scope R_scope.
#[local] Existing Instance P53.

Lemma double_exact (d : dbl) : rnd64 (B2R d + B2R d) = B2R d + B2R d.
Proof.
  apply rnd64_format. replace (B2R d + B2R d) with (B2R d * bpow radix2 1) by (change (bpow radix2 1) with 2; ring).
  apply mult_bpow_pos_exact_FLT; [exact (generic_format_B2R 53 1024 d)|lia].
Qed.
Lemma twice_minus (d : dbl) : is_finite d = true -> same (fsub (fadd d d) d) (if Rlt_bool (Rabs (B2R d)) (bpow radix2 1023) then d else B754_infinity (Bsign d)).
Proof.
  intros F. pose proof (fadd_cases d d F F) as C. rewrite double_exact in C.
  assert (T : Rabs (B2R d + B2R d) = 2 * Rabs (B2R d)). { replace (B2R d + B2R d) with (2 * B2R d) by ring. rewrite Rabs_mult, (Rabs_pos_eq 2) by lra. reflexivity. }
  assert (T2 : bpow radix2 1024 = 2 * bpow radix2 1023) by (change 1024%Z with (1 + 1023)%Z; rewrite bpow_plus; reflexivity).
  destruct (Rlt_bool_spec (Rabs (B2R d)) (bpow radix2 1023)) as [H|H].
  - destruct C as [(_ & E & G & _)|(A & _)]; [|exfalso; lra]. destruct (fsub_cases (fadd d d) d G F) as [(_ & E' & G' & _)|(A & _)].
    + rewrite E in E'. replace (B2R d + B2R d - B2R d) with (B2R d) in E' by ring. rewrite rnd64_id in E'.
      destruct (Req_dec (B2R d) 0) as [Z|N].
      * right. destruct (zero_of _ F Z) as [s Hs]. destruct (zero_of _ G' ltac:(rewrite E'; exact Z)) as [t Ht]. exists t, s. split; assumption.
      * left. apply B2R_eq_nonzero; assumption.
    + exfalso. rewrite E in A. replace (B2R d + B2R d - B2R d) with (B2R d) in A by ring. rewrite rnd64_id in A. pose proof (abs_B2R_lt d). lra.
  - destruct C as [(L & _)|(_ & E & _)]; [exfalso; lra|]. rewrite E. left. destruct d as [s|s| |s m e Hm]; try discriminate; try reflexivity.
Qed.
Lemma twice_minus_nan (d : dbl) : is_finite d = false -> fsub (fadd d d) d = B754_nan.
Proof. destruct d as [s|s| |s m e Hm]; intros F; try discriminate; [destruct s; reflexivity|reflexivity]. Qed.

Section Vector.
Context (fexp : dbl -> dbl) (fdot : nat -> nat -> list dbl -> list dbl -> dbl) (n : nat) (lb : dbl).
Definition vent (x : list dbl) (i j : nat) : dbl :=
  let a i j := if Nat.leb j i then at_ld f_zero x i j else f_zero in
  fsub (fadd (a i j) (a j i)) (if Nat.eqb i j then a i i else f_zero).
Lemma set_vector_unfold p x : fp_size p = n -> length x = triangle n -> fposdef_set_vector p x = fposdef_set p (mk_mat n n (vent x)).
Proof.
  intros E L. unfold fposdef_set_vector, fp_vec_size, f_unvectorize_symmetric_matrix. rewrite E. fold (triangle n). rewrite L, Nat.eqb_refl. cbn [negb].
  rewrite (f_unvectorize_ok n x L). cbn [rbind]. unfold nrows at 1 2, mk_mat at 1 2. cbn [shape]. f_equal. apply mk_mat_ext. intros i j Hi Hj.
  unfold vent, f_make_diagonal. rewrite !mget_mk_mat by assumption. reflexivity.
Qed.
Lemma vent_lower x i j : (j < i)%nat -> same (vent x i j) (at_ld dzero x i j) /\ same (vent x j i) (at_ld dzero x i j).
Proof.
  intros H. unfold vent. destruct (Nat.eqb_spec i j); [lia|]. destruct (Nat.eqb_spec j i); [lia|]. destruct (Nat.leb_spec j i); [|lia]. destruct (Nat.leb_spec i j); [lia|]. split.
  - eapply same_trans; [apply sub_zero_same|apply add_zero_same].
  - eapply same_trans; [apply sub_zero_same|apply zero_add_same].
Qed.
Lemma vent_diag x i : vent x i i = fsub (fadd (at_ld dzero x i i) (at_ld dzero x i i)) (at_ld dzero x i i).
Proof. unfold vent. rewrite Nat.eqb_refl, Nat.leb_refl. reflexivity. Qed.
Lemma same_number x y : same x y -> number x -> number y.
Proof. intros [<-|(s & t & -> & ->)]; auto. Qed.
Lemma kept_number d : is_finite d = true -> number (kept d).
Proof. intros F. unfold kept. destruct (Rlt_bool _ _); [apply finite_number; exact F|reflexivity]. Qed.

Lemma vector_ok p x : reachable fexp fdot n lb p -> length x = triangle n ->
  (forall i, (i < n)%nat -> is_finite (at_ld dzero x i i) = true) -> (forall i j, (j < i)%nat -> (i < n)%nat -> number (at_ld dzero x i j)) ->
  exists p' w, fposdef_set_vector p x = Ok p' /\ shape (fposdef_get p') = [n; n] /\
    (forall i j, (j < i)%nat -> (i < n)%nat -> same (mget dzero (fposdef_get p') i j) (at_ld dzero x i j) /\ same (mget dzero (fposdef_get p') j i) (at_ld dzero x i j)) /\
    (forall i, (i < n)%nat -> same (mget dzero (fposdef_get p') i i) (kept (at_ld dzero x i i))) /\
    fposdef_get_vector p' = Ok w /\ length w = triangle n /\
    (forall i j, (j < i)%nat -> (i < n)%nat -> same (at_ld dzero w i j) (at_ld dzero x i j)) /\
    (forall i, (i < n)%nat -> same (at_ld dzero w i i) (kept (at_ld dzero x i i))).
Proof.
  intros R L Hdg Ho. destruct (reachable_inv _ _ _ _ _ R) as (E1 & E2 & _).
  assert (D : forall i, (i < n)%nat -> same (vent x i i) (kept (at_ld dzero x i i))). { intros i Hi. rewrite vent_diag. apply twice_minus. apply Hdg. exact Hi. }
  exists (mkFP n lb (mk_mat n n (vent x))), (tril_list n (vent x)). split; [|split; [reflexivity|split; [|split; [|split; [|split; [|split]]]]]].
  - rewrite (set_vector_unfold p x E1 L), (fposdef_set_spec p _ n E1); [rewrite E2; reflexivity|reflexivity|].
    intros i j Hi Hj. rewrite !mget_mk_mat by assumption. destruct (Nat.lt_trichotomy i j) as [H|[->|H]].
    + destruct (vent_lower x j i H) as [A B]. apply feq_same; [eapply same_number; [apply same_sym; exact A|apply Ho; assumption]|]. eapply same_trans; [exact A|apply same_sym; exact B].
    + apply feq_self. eapply same_number; [apply same_sym; apply D; exact Hj|]. apply kept_number. apply Hdg. exact Hj.
    + destruct (vent_lower x i j H) as [A B]. apply feq_same; [eapply same_number; [apply same_sym; exact B|apply Ho; assumption]|]. eapply same_trans; [exact B|apply same_sym; exact A].
  - intros i j H Hi. unfold fposdef_get, fp_val. rewrite !mget_mk_mat by lia. apply vent_lower. exact H.
  - intros i Hi. unfold fposdef_get, fp_val. rewrite !mget_mk_mat by lia. apply D. exact Hi.
  - unfold fposdef_get_vector, f_vectorize_ld_matrix, fp_val, mk_mat at 1. cbn [shape]. rewrite Nat.eqb_refl. cbn [negb]. f_equal. apply tril_list_ext. intros i j Hj Hi. apply mget_mk_mat; lia.
  - apply tril_list_length.
  - intros i j H Hi. rewrite tril_at by lia. apply vent_lower. exact H.
  - intros i Hi. rewrite tril_at by lia. apply D. exact Hi.
Qed.
Lemma set_same_raises p val i j : fp_size p = n -> shape val = [n; n] -> (i < n)%nat -> (j < n)%nat -> mget f_zero val i j = B754_nan -> fposdef_set p val = Raise ValueError.
Proof.
  intros E S Hi Hj N. destruct (fposdef_set p val) as [p'|e] eqn:Q.
  - exfalso. destruct (fposdef_set_inv _ _ _ Q) as (_ & _ & H). rewrite E in H. specialize (H i j Hi Hj). rewrite N in H. destruct (mget f_zero val j i) as [[]|[]| |[] m e Hm]; discriminate.
  - unfold fposdef_set in Q. rewrite S in Q. rewrite E, Nat.eqb_refl in Q. cbn [negb orb] in Q. destruct (negb _); congruence.
Qed.
Lemma vector_raises p x i j : reachable fexp fdot n lb p -> length x = triangle n -> (j <= i)%nat -> (i < n)%nat ->
  is_nan (at_ld dzero x i j) = true \/ (i = j /\ is_finite (at_ld dzero x i i) = false) -> fposdef_set_vector p x = Raise ValueError.
Proof.
  intros R L Hj Hi H. destruct (reachable_inv _ _ _ _ _ R) as (E1 & E2 & _). rewrite (set_vector_unfold p x E1 L).
  apply (set_same_raises p (mk_mat n n (vent x)) i j E1 eq_refl Hi ltac:(lia)). rewrite mget_mk_mat by lia. destruct (Nat.eq_dec i j) as [<-|N].
  - rewrite vent_diag. apply twice_minus_nan. destruct H as [H|[_ H]]; [|exact H]. destruct (at_ld dzero x i i); try discriminate; reflexivity.
  - destruct H as [H|[-> _]]; [|lia]. destruct (vent_lower x i j ltac:(lia)) as [[E|(s & t & _ & E)] _]; [|rewrite E in H; discriminate].
    rewrite E. destruct (at_ld dzero x i j); try discriminate; reflexivity.
Qed.
(** writing the vector back changes nothing *)
Lemma vector_again p : reachable fexp fdot n lb p -> (forall i, (i < n)%nat -> is_finite (mget dzero (fposdef_get p) i i) = true /\ Rabs (B2R (mget dzero (fposdef_get p) i i)) < bpow radix2 1023) ->
  exists v p', fposdef_get_vector p = Ok v /\ length v = triangle n /\ fposdef_set_vector p v = Ok p' /\
    forall i j, (i < n)%nat -> (j < n)%nat -> same (mget dzero (fposdef_get p') i j) (mget dzero (fposdef_get p) i j).
Proof.
  intros R Hdg. destruct (reachable_inv _ _ _ _ _ R) as (E1 & E2 & _ & S & K). destruct (reachable_numbers _ _ _ _ _ R) as [_ Nb].
  set (v := tril_list n (mget dzero (fposdef_get p))). assert (G : fposdef_get_vector p = Ok v).
  { unfold fposdef_get_vector, f_vectorize_ld_matrix. rewrite S, Nat.eqb_refl. reflexivity. }
  assert (A : forall i j, (j <= i)%nat -> (i < n)%nat -> at_ld dzero v i j = mget dzero (fposdef_get p) i j) by (intros; apply tril_at; assumption).
  destruct (vector_ok p v R) as (p' & w & HS & _ & H1 & H2 & _).
  - apply tril_list_length.
  - intros i Hi. rewrite A by lia. apply Hdg. exact Hi.
  - intros i j Hj Hi. rewrite A by lia. apply Nb; lia.
  - exists v, p'. split; [exact G|]. split; [apply tril_list_length|]. split; [exact HS|]. intros i j Hi Hj. destruct (Nat.lt_trichotomy i j) as [H|[->|H]].
    + destruct (H1 j i H Hj) as [_ B]. eapply same_trans; [exact B|]. rewrite A by lia. apply Nb; assumption.
    + eapply same_trans; [apply H2; exact Hj|]. rewrite A by lia. unfold kept. destruct (Rlt_bool_spec (Rabs (B2R (mget dzero (fposdef_get p) j j))) (bpow radix2 1023)) as [_|Q]; [apply same_refl|].
      exfalso. destruct (Hdg j Hj). lra.
    + destruct (H1 i j H Hi) as [B _]. eapply same_trans; [exact B|]. rewrite A by lia. apply same_refl.
Qed.
End Vector.
