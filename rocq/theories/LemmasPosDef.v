(** Positive definite matrix parameters: round trips, validity, derivatives. *)
From Coq Require Import String Reals List Bool Arith Lia Lra.
From Coquelicot Require Import Coquelicot.
From Verif Require Import Res Num Nd RSum ModelAutograd ModelSparse ModelParameters ModelMatrix.
From Verif Require Import SpecParameters SpecMatrix LemmasParameters LemmasCalc LemmasChol LemmasMatrix.
Import List ListNotations.
Open Scope R_scope.
Set Bullet Behavior "Strict Subproofs".

Lemma fmat_shape n A : shape (fmat n A) = [n; n]. Proof. reflexivity. Qed.
Lemma fmat_wf n A : nd_wf (fmat n A). Proof. apply mk_mat_wf. Qed.
Lemma fmat_ext n A B : (forall i j, (i < n)%nat -> (j < n)%nat -> A i j = B i j) -> fmat n A = fmat n B.
Proof. intros H. apply mk_mat_ext. intros i j Hi Hj. rewrite H by assumption. reflexivity. Qed.
Lemma mget_fmat n A i j : (i < n)%nat -> (j < n)%nat -> mget NaN (fmat n A) i j = Fin (A i j).
Proof. intros. unfold fmat. rewrite mget_mk_mat by assumption. reflexivity. Qed.
Lemma fmat_eta n a : shape a = [n; n] -> nd_wf a -> Forall (fun v => is_fin v = true) (data a) ->
  a = fmat n (fun i j => toR (mget NaN a i j)).
Proof.
  intros Hs Hw HF. rewrite (mk_mat_eta NaN n n a Hs Hw) at 1. apply mk_mat_ext. intros i j Hi Hj.
  apply is_fin_eq. rewrite Forall_forall in HF. apply HF. unfold mget. apply nth_In.
  unfold nd_wf in Hw. rewrite Hw, Hs, nprod_2. unfold ncols. rewrite Hs. nia.
Qed.

Lemma nsum_seq n f : nsum (map (fun k => Fin (f k)) (seq 0 n)) = Fin (rsum n f).
Proof. rewrite <- (map_map f Fin). rewrite nsum_Fin. f_equal. apply lsum_map_seq. Qed.
Lemma map_diag_fin f fR n A : (forall i, (i < n)%nat -> f (Fin (A i i)) = Fin (fR (A i i))) ->
  map_matrix_diagonal f (fmat n A) = Ok (fmat n (fun i j => if Nat.eqb i j then fR (A i i) else A i j)).
Proof.
  intros H. unfold map_matrix_diagonal. rewrite fmat_shape. rewrite Nat.eqb_refl. unfold rassert. f_equal.
  apply mk_mat_ext. intros i j Hi Hj. unfold make_diagonal. destruct (Nat.eqb_spec i j) as [<-|Hne].
  - rewrite mget_fmat by assumption. rewrite H by assumption. cbn. f_equal. ring.
  - rewrite mget_fmat by assumption. cbn. f_equal. ring.
Qed.

(** ---- unpack ---- *)
Definition Lof (x : list R) (i k : nat) : R :=
  if Nat.ltb k i then symof x i k else if Nat.eqb k i then exp (symof x i i) else 0.
Definition Mof (n : nat) (lb : R) (x : list R) (i j : nat) : R :=
  rsum n (fun k => Lof x i k * Lof x j k) + (if Nat.eqb i j then lb else 0).
Lemma unpack_fin n lb x : length x = tri n -> unpack_posdef_matrix (fvec x) (Fin lb) = Ok (fmat n (Mof n lb x)).
Proof.
  intros H. unfold unpack_posdef_matrix. rewrite (unvectorize_fin n x H). cbn [rbind].
  unfold exp_matrix_diagonal. rewrite (map_diag_fin nexp exp) by reflexivity. cbn [rbind].
  unfold nrows. rewrite fmat_shape. f_equal. apply mk_mat_ext. intros i j Hi Hj.
  unfold matmul_t. rewrite mget_mk_mat by assumption.
  rewrite (map_ext_in _ (fun k => Fin (Lof x i k * Lof x j k))).
  - rewrite nsum_seq. unfold make_diagonal, Mof. destruct (Nat.eqb i j); reflexivity.
  - intros k Hk. apply in_seq in Hk. rewrite !mget_fmat by lia. cbn. f_equal. unfold Lof.
    f_equal.
    + rewrite (Nat.eqb_sym k i). destruct (Nat.eqb_spec i k) as [<-|]; [rewrite Nat.leb_refl, Nat.ltb_irrefl; reflexivity|].
      destruct (Nat.leb_spec k i), (Nat.ltb_spec k i); try lia; reflexivity.
    + rewrite (Nat.eqb_sym k j). destruct (Nat.eqb_spec j k) as [<-|]; [rewrite Nat.leb_refl, Nat.ltb_irrefl; reflexivity|].
      destruct (Nat.leb_spec k j), (Nat.ltb_spec k j); try lia; reflexivity.
Qed.
Lemma Lof_upper x i k : (i < k)%nat -> Lof x i k = 0.
Proof. intros H. unfold Lof. destruct (Nat.ltb_spec k i); [lia|]. destruct (Nat.eqb_spec k i); [lia|]. reflexivity. Qed.
Lemma Lof_diag x k : Lof x k k = exp (symof x k k).
Proof. unfold Lof. rewrite Nat.ltb_irrefl, Nat.eqb_refl. reflexivity. Qed.
Lemma Mof_sym n lb x : symmetric n (Mof n lb x).
Proof.
  intros i j _ _. unfold Mof. rewrite (Nat.eqb_sym i j). f_equal. apply rsum_ext; intros; ring.
Qed.
Lemma Mof_shifted n lb x i j : shifted (Mof n lb x) lb i j = rsum n (fun k => Lof x i k * Lof x j k).
Proof. unfold shifted, Mof. ring. Qed.
Lemma Mof_posdef n lb x : posdef n (shifted (Mof n lb x) lb).
Proof.
  apply (posdef_ext n (fun i j => rsum n (fun k => Lof x i k * Lof x j k))).
  - intros i j _ _. symmetry. apply Mof_shifted.
  - apply LLt_posdef; [intros; apply Lof_upper; assumption|]. intros k _. rewrite Lof_diag. apply Rgt_not_eq, exp_pos.
Qed.
Lemma posdef_diag n A i : posdef n A -> (i < n)%nat -> 0 < A i i.
Proof.
  intros H Hi. specialize (H (fun k => if Nat.eqb k i then 1 else 0)).
  unfold quad in H. rewrite (rsum_single n i) in H.
  - rewrite (rsum_single n i) in H.
    + rewrite Nat.eqb_refl in H. replace (A i i) with (1 * A i i * 1) by ring. apply H. exists i. rewrite Nat.eqb_refl. split; [exact Hi|lra].
    + exact Hi.
    + intros k _ Hk. apply Nat.eqb_neq in Hk. rewrite Hk. ring.
  - exact Hi.
  - intros k _ Hk. apply rsum_zero. intros q _. apply Nat.eqb_neq in Hk. rewrite Hk. ring.
Qed.

(** ---- cholesky and pack ---- *)
Lemma chol_entries n A : forall i j, (j <= i)%nat -> (i < n)%nat -> toR (mget NaN (fmat n A) i j) = A i j.
Proof. intros i j Hj Hi. rewrite mget_fmat by lia. reflexivity. Qed.
Lemma cholesky_fin n A : forallb is_fin (tril_list n (mget NaN (fmat n A))) = true.
Proof.
  apply forallb_forall. intros v Hv. apply In_tril in Hv as [i [j [Hj [Hi ->]]]]. rewrite mget_fmat by lia. reflexivity.
Qed.
Lemma cholesky_ok n A : (forall j, (j < n)%nat -> 0 < chol_pivot A j) -> np_cholesky (fmat n A) = Ok (fmat n (ccol A)).
Proof.
  intros H. unfold np_cholesky. rewrite fmat_shape, Nat.eqb_refl. cbn [negb]. rewrite cholesky_fin. cbn [andb].
  assert (E : forallb (fun c => Rltb 0 (chol_pivot (fun i j => toR (mget NaN (fmat n A) i j)) c)) (seq 0 n) = true).
  { apply forallb_forall. intros c Hc. apply in_seq in Hc. apply Rltb_true.
    destruct (ccol_ext n _ A (chol_entries n A) c c) as [_ ->]; try lia. apply H. lia. }
  rewrite E. f_equal. apply mk_mat_ext. intros i k Hi Hk. f_equal.
  rewrite cholL_col by exact Hk. apply (ccol_ext n _ A (chol_entries n A) k i); assumption.
Qed.
Lemma cholesky_bad n A : (exists j, (j < n)%nat /\ chol_pivot A j <= 0) -> np_cholesky (fmat n A) = Raise LinAlgError.
Proof.
  intros [j [Hj Hp]]. unfold np_cholesky. rewrite fmat_shape, Nat.eqb_refl. cbn [negb]. rewrite cholesky_fin. cbn [andb].
  assert (E : forallb (fun c => Rltb 0 (chol_pivot (fun i j => toR (mget NaN (fmat n A) i j)) c)) (seq 0 n) = false).
  { apply not_true_is_false. intros E. rewrite forallb_forall in E.
    specialize (E j). rewrite in_seq in E. specialize (E ltac:(lia)). apply Rltb_true in E.
    destruct (ccol_ext n _ A (chol_entries n A) j j) as [_ E']; try lia. rewrite E' in E. lra. }
  rewrite E. reflexivity.
Qed.
Definition pack_real (n : nat) (A : nat -> nat -> R) : list R :=
  tril_list n (fun i k => if Nat.eqb i k then ln (ccol A i i) else ccol A i k).
Lemma pack_shift n A lb :
  pack_posdef_matrix (fmat n A) (Fin lb) =
  (do c <- np_cholesky (fmat n (shifted A lb)); do l <- log_matrix_diagonal c; vectorize_ld_matrix l).
Proof.
  unfold pack_posdef_matrix. rewrite fmat_shape, Nat.eqb_refl. cbn [negb].
  replace (mk_mat n n _) with (fmat n (shifted A lb)); [reflexivity|].
  apply mk_mat_ext. intros i j Hi Hj. rewrite mget_fmat by assumption. unfold make_diagonal, shifted.
  destruct (Nat.eqb i j); cbn; f_equal; ring.
Qed.
Lemma pack_ok n A lb : (forall j, (j < n)%nat -> 0 < chol_pivot (shifted A lb) j) ->
  pack_posdef_matrix (fmat n A) (Fin lb) = Ok (fvec (pack_real n (shifted A lb))).
Proof.
  intros H. rewrite pack_shift, cholesky_ok by exact H. cbn [rbind]. unfold log_matrix_diagonal.
  rewrite (map_diag_fin nlog ln).
  - cbn [rbind]. unfold fmat. rewrite vectorize_mk. unfold fvec, pack_real. rewrite tril_list_map. reflexivity.
  - intros i Hi. apply nlog_pos. rewrite ccol_diag. apply sqrt_lt_R0, H, Hi.
Qed.
Lemma pack_bad n A lb : (exists j, (j < n)%nat /\ chol_pivot (shifted A lb) j <= 0) ->
  pack_posdef_matrix (fmat n A) (Fin lb) = Raise LinAlgError.
Proof. intros H. rewrite pack_shift, cholesky_bad by exact H. reflexivity. Qed.
Lemma pivots_dec n A : (forall j, (j < n)%nat -> 0 < chol_pivot A j) \/ (exists j, (j < n)%nat /\ chol_pivot A j <= 0).
Proof.
  induction n as [|n [IH|[j [Hj Hp]]]].
  - left; intros; lia.
  - destruct (Rlt_le_dec 0 (chol_pivot A n)) as [P|P].
    + left. intros j Hj. destruct (Nat.eq_dec j n) as [->|]; [exact P|apply IH; lia].
    + right. exists n. split; [lia|exact P].
  - right. exists j. split; [lia|exact Hp].
Qed.
Lemma shifted_sym n A lb : symmetric n A -> symmetric n (shifted A lb).
Proof. intros H i j Hi Hj. unfold shifted. rewrite (Nat.eqb_sym i j). rewrite H by assumption. reflexivity. Qed.
Lemma pack_iff n A lb : symmetric n A ->
  (posdef n (shifted A lb) /\ exists x, pack_posdef_matrix (fmat n A) (Fin lb) = Ok (fvec x) /\ length x = tri n) \/
  (~ posdef n (shifted A lb) /\ pack_posdef_matrix (fmat n A) (Fin lb) = Raise LinAlgError).
Proof.
  intros HS. destruct (pivots_dec n (shifted A lb)) as [H|H].
  - left. split; [apply pivot_posdef; [apply shifted_sym, HS|exact H]|].
    eexists. split; [apply pack_ok; exact H|]. apply tril_list_length.
  - right. split; [|apply pack_bad; exact H]. intros HP. destruct H as [j [Hj Hp]].
    pose proof (posdef_pivot n _ (shifted_sym n A lb HS) HP j Hj). lra.
Qed.

(** ---- round trips ---- *)
Lemma pack_unpack n lb x : length x = tri n ->
  exists M, unpack_posdef_matrix (fvec x) (Fin lb) = Ok M /\ pack_posdef_matrix M (Fin lb) = Ok (fvec x).
Proof.
  intros H. eexists. split; [apply unpack_fin; exact H|].
  assert (U : forall k, (k < n)%nat -> chol_pivot (shifted (Mof n lb x) lb) k = Lof x k k * Lof x k k /\
              forall i, (i < n)%nat -> ccol (shifted (Mof n lb x) lb) i k = Lof x i k).
  { apply chol_unique.
    - intros; apply Lof_upper; assumption.
    - intros k _. rewrite Lof_diag. apply exp_pos.
    - intros i j _ _. apply Mof_shifted. }
  rewrite pack_ok.
  - f_equal. unfold fvec. f_equal. f_equal. unfold pack_real.
    transitivity (tril_list n (symof x)); [|apply tril_list_nth, H].
    apply tril_list_ext. intros i k Hk Hi. destruct (Nat.eqb_spec i k) as [<-|Hne].
    + rewrite (proj2 (U i Hi)) by exact Hi. rewrite Lof_diag. apply ln_exp.
    + rewrite (proj2 (U k ltac:(lia))) by exact Hi. unfold Lof. destruct (Nat.ltb_spec k i); [reflexivity|lia].
  - intros j Hj. rewrite (proj1 (U j Hj)). rewrite Lof_diag. pose proof (exp_pos (symof x j j)). nra.
Qed.
Lemma pack_real_Lof n A : (forall j, (j < n)%nat -> 0 < chol_pivot A j) ->
  forall i k, (i < n)%nat -> (k < n)%nat -> Lof (pack_real n A) i k = ccol A i k.
Proof.
  intros H i k Hi Hk. unfold Lof, symof, pack_real. destruct (Nat.ltb_spec k i).
  - rewrite nth_tril by lia. destruct (Nat.eqb_spec i k); [lia|reflexivity].
  - destruct (Nat.eqb_spec k i) as [->|].
    + rewrite nth_tril by lia. rewrite Nat.eqb_refl. apply exp_ln. rewrite ccol_diag. apply sqrt_lt_R0, H, Hi.
    + symmetry. apply ccol_upper. lia.
Qed.
Lemma unpack_pack n A lb : symmetric n A -> posdef n (shifted A lb) ->
  exists v, pack_posdef_matrix (fmat n A) (Fin lb) = Ok v /\ unpack_posdef_matrix v (Fin lb) = Ok (fmat n A).
Proof.
  intros HS HP. assert (H : forall j, (j < n)%nat -> 0 < chol_pivot (shifted A lb) j).
  { intros j Hj. apply (posdef_pivot n); [apply shifted_sym, HS|exact HP|exact Hj]. }
  eexists. split; [apply pack_ok; exact H|]. rewrite (unpack_fin n) by apply tril_list_length.
  f_equal. apply fmat_ext. intros i j Hi Hj. unfold Mof.
  rewrite (rsum_ext n _ (fun k => ccol (shifted A lb) i k * ccol (shifted A lb) j k)).
  2:{ intros k Hk. rewrite !pack_real_Lof by assumption. reflexivity. }
  assert (E : rsum n (fun k => ccol (shifted A lb) i k * ccol (shifted A lb) j k) = shifted A lb i j).
  { destruct (Nat.le_gt_cases j i).
    - apply chol_recon; try lia. apply H, Hj.
    - rewrite (rsum_ext n _ (fun k => ccol (shifted A lb) j k * ccol (shifted A lb) i k)) by (intros; ring).
      rewrite chol_recon by (try apply H; lia). apply (shifted_sym n A lb HS); assumption. }
  rewrite E. unfold shifted. ring.
Qed.

(** ---- PosDefMatrixParam ---- *)
Lemma posdef_set_fin p A : symmetric (pd_size p) A ->
  posdef_set p (fmat (pd_size p) A) = (PosDefP (pd_name p) (pd_size p) (pd_lb p) (fmat (pd_size p) A), Ok tt).
Proof.
  intros HS. unfold posdef_set. rewrite fmat_shape, Nat.eqb_refl. cbn [negb orb].
  assert (E : forallb (fun i => forallb (fun j => neqb (mget NaN (fmat (pd_size p) A) j i) (mget NaN (fmat (pd_size p) A) i j))
      (seq 0 (pd_size p))) (seq 0 (pd_size p)) = true).
  { apply forallb_forall. intros i Hi. apply forallb_forall. intros j Hj. apply in_seq in Hi, Hj.
    rewrite !mget_fmat by lia. cbn. apply Reqb_true. apply HS; lia. }
  rewrite E. reflexivity.
Qed.
Lemma pd_vec_size_tri p : pd_vec_size p = tri (pd_size p).
Proof. reflexivity. Qed.
Lemma fvec_size x : nd_size (fvec x) = length x.
Proof. unfold fvec. rewrite nd_size_vec, map_length. reflexivity. Qed.
Lemma posdef_set_free_fin p lb x : pd_lb p = Fin lb -> length x = pd_vec_size p ->
  posdef_set_free p (fvec x) =
  (PosDefP (pd_name p) (pd_size p) (pd_lb p) (fmat (pd_size p) (Mof (pd_size p) lb x)), Ok tt).
Proof.
  intros Hlb H. unfold posdef_set_free. rewrite fvec_size, H, Nat.eqb_refl. cbn [negb].
  rewrite Hlb. rewrite (unpack_fin (pd_size p)) by exact H. rewrite posdef_set_fin by apply Mof_sym. rewrite Hlb. reflexivity.
Qed.
Lemma posdef_set_free_valid p lb x : pd_lb p = Fin lb -> length x = pd_vec_size p ->
  exists p' A, posdef_set_free p (fvec x) = (p', Ok tt) /\ posdef_get p' = fmat (pd_size p) A /\
    symmetric (pd_size p) A /\ posdef (pd_size p) (shifted A lb) /\ (forall i, (i < pd_size p)%nat -> lb < A i i) /\
    posdef_get_free p' = Ok (fvec x).
Proof.
  intros Hlb H. eexists. exists (Mof (pd_size p) lb x). split; [apply posdef_set_free_fin; eassumption|]. splits.
  - reflexivity.
  - apply Mof_sym.
  - apply Mof_posdef.
  - intros i Hi. pose proof (posdef_diag _ _ i (Mof_posdef (pd_size p) lb x) Hi) as D. unfold shifted in D.
    rewrite Nat.eqb_refl in D. lra.
  - unfold posdef_get_free. cbn [pd_val pd_lb]. rewrite Hlb. destruct (pack_unpack (pd_size p) lb x H) as [M [E1 E2]].
    rewrite (unpack_fin _ _ _ H) in E1. congruence.
Qed.
Lemma posdef_bad_length p a : nd_size a <> pd_vec_size p ->
  posdef_set_free p a = (p, Raise ValueError) /\ posdef_set_vector p a = (p, Raise ValueError).
Proof. intros H. apply Nat.eqb_neq in H. unfold posdef_set_free, posdef_set_vector. rewrite H. auto. Qed.
Lemma posdef_set_vector_fin p x : length x = pd_vec_size p ->
  exists p', posdef_set_vector p (fvec x) = (p', Ok tt) /\ posdef_get_vector p' = Ok (fvec x) /\
    posdef_get p' = fmat (pd_size p) (symof x).
Proof.
  intros H. eexists. unfold posdef_set_vector. rewrite fvec_size, H, Nat.eqb_refl. cbn [negb].
  rewrite (unvectorize_symmetric_fin (pd_size p)) by exact H. rewrite posdef_set_fin by (apply symof_sym).
  split; [reflexivity|]. split; [|reflexivity]. unfold posdef_get_vector; cbn [pd_val]. unfold fmat.
  rewrite vectorize_mk. f_equal. unfold fvec. f_equal.
  rewrite <- (tril_list_map Fin (pd_size p) (symof x)). f_equal. apply tril_list_nth. exact H.
Qed.

(** ---- derivatives of one matrix ---- *)
Definition dLof (i k b : nat) (y : list R) : R :=
  if Nat.ltb k i then del (SymIndex i k) b
  else if Nat.eqb k i then exp (symof y i i) * del (SymIndex i i) b else 0.
Definition hLof (i k a b : nat) (y : list R) : R :=
  if Nat.ltb k i then 0
  else if Nat.eqb k i then exp (symof y i i) * del (SymIndex i i) a * del (SymIndex i i) b + exp (symof y i i) * 0 else 0.
Lemma Lof_twice N i k : twice_diff (fun y => Lof y i k) N (dLof i k) (hLof i k).
Proof.
  unfold Lof, dLof, hLof, symof. destruct (Nat.ltb k i).
  - apply twice_diff_nth.
  - destruct (Nat.eqb k i).
    + apply twice_diff_exp, twice_diff_nth.
    + apply twice_diff_const.
Qed.
Definition dMof (n i j b : nat) (y : list R) : R :=
  rsum n (fun k => dLof i k b y * Lof y j k + Lof y i k * dLof j k b y) + 0.
Definition hMof (n i j a b : nat) (y : list R) : R :=
  rsum n (fun k => (hLof i k a b y * Lof y j k + dLof i k b y * dLof j k a y)
                   + (dLof i k a y * dLof j k b y + Lof y i k * hLof j k a b y)) + 0.
Lemma Mof_twice n lb N i j : twice_diff (fun y => Mof n lb y i j) N (dMof n i j) (hMof n i j).
Proof.
  unfold Mof, dMof, hMof.
  apply (twice_diff_plus (fun y => rsum n (fun k => Lof y i k * Lof y j k)) (fun _ => if Nat.eqb i j then lb else 0) N
           (fun b y => rsum n (fun k => dLof i k b y * Lof y j k + Lof y i k * dLof j k b y)) _ (fun _ _ => 0) (fun _ _ _ => 0)).
  - apply (twice_diff_rsum n (fun k y => Lof y i k * Lof y j k) N
             (fun k b y => dLof i k b y * Lof y j k + Lof y i k * dLof j k b y)
             (fun k a b y => (hLof i k a b y * Lof y j k + dLof i k b y * dLof j k a y)
                   + (dLof i k a y * dLof j k b y + Lof y i k * hLof j k a b y))).
    intros k Hk. apply (twice_diff_mult (fun y => Lof y i k) (fun y => Lof y j k)); apply Lof_twice.
  - apply twice_diff_const.
Qed.
(** row and column of a position in the packed triangle *)
Fixpoint tri_row (n m : nat) : nat :=
  match n with O => O | S n' => if Nat.leb (tri n') m then n' else tri_row n' m end.
Definition tri_col (n m : nat) : nat := (m - tri (tri_row n m))%nat.
Lemma tri_row_spec n m : (m < tri n)%nat -> (tri_col n m <= tri_row n m)%nat /\ (tri_row n m < n)%nat /\
  m = SymIndex (tri_row n m) (tri_col n m).
Proof.
  unfold tri_col. induction n as [|n IH]; intros H; [rewrite tri_0 in H; lia|]. cbn [tri_row].
  destruct (Nat.leb_spec (tri n) m) as [L|L].
  - rewrite tri_S in H. rewrite SymIndex_lower by lia. lia.
  - specialize (IH L). lia.
Qed.
(** F packs M_lb entrywise *)
Definition packs (F : list R -> list R) (n : nat) (lb : R) : Prop :=
  forall y, length y = tri n -> F y = tril_list n (Mof n lb y).
Lemma packs_twice F n lb m : packs F n lb -> (m < tri n)%nat ->
  twice_diff (fun y => nth m (F y) 0) (tri n) (dMof n (tri_row n m) (tri_col n m)) (hMof n (tri_row n m) (tri_col n m)).
Proof.
  intros HF Hm. destruct (tri_row_spec n m Hm) as [A [B C]].
  apply (twice_diff_ext (fun y => Mof n lb y (tri_row n m) (tri_col n m))); [|apply Mof_twice].
  intros y Hy. rewrite HF by exact Hy. rewrite C at 3. rewrite nth_tril by assumption. reflexivity.
Qed.
Lemma posdef_packs p lb : pd_lb p = Fin lb -> packs (posdef_free_to_vector p) (pd_size p) lb.
Proof.
  intros Hlb y Hy. unfold posdef_free_to_vector. change (nd_vec (map Fin y)) with (fvec y).
  rewrite (posdef_set_free_fin p lb) by assumption. unfold posdef_get_vector; cbn [pd_val]. unfold fmat.
  rewrite vectorize_mk. cbn [data nd_vec]. rewrite tril_list_map. reflexivity.
Qed.
Lemma posdef_derivatives p lb x : pd_lb p = Fin lb -> length x = pd_vec_size p ->
  jacobian_of (posdef_free_to_vector p) (pd_vec_size p) (pd_vec_size p) x (posdef_free_to_vector_jac p x) /\
  hessians_of (posdef_free_to_vector p) (pd_vec_size p) (pd_vec_size p) x (posdef_free_to_vector_hess p x).
Proof.
  intros Hlb Hx. unfold posdef_free_to_vector_jac, posdef_free_to_vector_hess. rewrite Hx.
  apply (twice_diff_jac (posdef_free_to_vector p) (pd_vec_size p) (pd_vec_size p) x
           (fun m => dMof (pd_size p) (tri_row (pd_size p) m) (tri_col (pd_size p) m))
           (fun m => hMof (pd_size p) (tri_row (pd_size p) m) (tri_col (pd_size p) m)) Hx).
  intros k Hk. apply (packs_twice _ _ lb); [apply posdef_packs; exact Hlb|exact Hk].
Qed.
Lemma pdm_packs lb n : packs (pdm_real (Fin lb)) n lb.
Proof.
  intros y Hy. unfold pdm_real, pos_def_matrix_free_to_vector. change (nd_vec (map Fin y)) with (fvec y).
  rewrite (unpack_fin n) by exact Hy. cbn [rbind]. unfold fmat. rewrite vectorize_mk. cbn [data nd_vec]. rewrite tril_list_map. reflexivity.
Qed.

(** ---- stacks of matrices ---- *)
Definition stack_of (s : list nat) (n : nat) (A : nat -> nat -> nat -> R) : arr :=
  Nd (s ++ [n; n]) (List.concat (map (fun o => data (fmat n (A o))) (seq 0 (nprod s)))).
Definition blk (vs o : nat) (x : list R) : list R := slice x (vs * o) (vs * o + vs).
Lemma fmat_data_length n A : length (data (fmat n A)) = (n * n)%nat.
Proof. pose proof (fmat_wf n A) as W. unfold nd_wf in W. rewrite fmat_shape, nprod_2 in W. exact W. Qed.
Lemma concat_const_length {A B} (f : A -> list B) l m : (forall a, In a l -> length (f a) = m) ->
  length (List.concat (map f l)) = (length l * m)%nat.
Proof. intros H. rewrite <- flat_map_concat_map. apply length_flat_map_const. exact H. Qed.
Lemma slice_concat {A} (f : nat -> list A) m N o : (forall k, (k < N)%nat -> length (f k) = m) -> (o < N)%nat ->
  slice (List.concat (map f (seq 0 N))) (o * m) (o * m + m) = f o.
Proof.
  intros H Ho. replace N with (o + (1 + (N - o - 1)))%nat by lia.
  rewrite seq_app, map_app, concat_app. rewrite Nat.add_0_l.
  assert (L : length (List.concat (map f (seq 0 o))) = (o * m)%nat).
  { rewrite (concat_const_length f _ m); [rewrite seq_length; reflexivity|]. intros k Hk. apply in_seq in Hk. apply H. lia. }
  rewrite slice_app_skip by lia. rewrite L. replace (o * m - o * m)%nat with 0%nat by lia.
  replace (o * m + m - o * m)%nat with m by lia.
  cbn [Nat.add seq map List.concat]. rewrite <- (H o Ho). apply slice_app1.
Qed.
Lemma stack_wf s n A : nd_wf (stack_of s n A).
Proof.
  unfold nd_wf, stack_of; cbn [data shape]. rewrite (concat_const_length _ _ (n * n)%nat).
  - rewrite seq_length, nprod_app, nprod_2. reflexivity.
  - intros; apply fmat_data_length.
Qed.
Lemma skipn_skipn' {A} (l : list A) a b : skipn b (skipn a l) = skipn (a + b) l.
Proof. revert l. induction a as [|a IH]; intros l; [reflexivity|]. destruct l as [|y l]; [rewrite !skipn_nil; reflexivity|]. cbn. apply IH. Qed.
Lemma slice_slice {A} (l : list A) a b c d : (b + d <= c)%nat ->
  slice (slice l a (a + c)) b (b + d) = slice l (a + b) (a + b + d).
Proof.
  intros H. unfold slice. replace (a + c - a)%nat with c by lia. replace (b + d - b)%nat with d by lia.
  replace (a + b + d - (a + b))%nat with d by lia.
  rewrite skipn_firstn_comm, firstn_firstn, skipn_skipn'. f_equal; lia.
Qed.
Lemma product_ravel s : map (fun obs => ravel obs s) (product s) = seq 0 (nprod s).
Proof.
  induction s as [|n s IH]; [reflexivity|]. rewrite nprod_cons. cbn [product].
  assert (G : forall k m, map (fun obs => ravel obs (n :: s)) (flat_map (fun i => map (cons i) (product s)) (seq k m))
            = seq (k * nprod s) (m * nprod s)).
  { intros k m; revert k; induction m as [|m IHm]; intros k; [reflexivity|].
    cbn [seq flat_map]. rewrite map_app, IHm, map_map. cbn [Nat.mul]. rewrite seq_app. f_equal.
    - cbn [ravel]. rewrite <- (map_map (fun obs => ravel obs s) (fun r => k * nprod s + r)%nat). rewrite IH.
      clear. generalize (k * nprod s)%nat as c. generalize (nprod s) as N. intros N c.
      induction N as [|N IHN]; [reflexivity|]. rewrite seq_S, map_app, IHN, (seq_S N c). reflexivity.
    - f_equal. lia. }
  rewrite G. reflexivity.
Qed.
Lemma map_product {B} s (G : nat -> B) : map (fun obs => G (ravel obs s)) (product s) = map G (seq 0 (nprod s)).
Proof. rewrite <- product_ravel, map_map. reflexivity. Qed.
Lemma product_length s : length (product s) = nprod s.
Proof. rewrite <- (map_length (fun obs => ravel obs s)), product_ravel, seq_length. reflexivity. Qed.
Lemma In_product_ravel s obs : In obs (product s) -> (ravel obs s < nprod s)%nat /\ length obs = length s.
Proof.
  intros H. split.
  - apply (in_map (fun o => ravel o s)) in H. rewrite product_ravel in H. apply in_seq in H. lia.
  - revert obs H. induction s as [|n s IH]; intros obs H; cbn [product] in H.
    + destruct H as [<-|[]]. reflexivity.
    + apply in_flat_map in H as [i [_ H]]. apply in_map_iff in H as [o [<- H]]. cbn. rewrite (IH o H). reflexivity.
Qed.
Lemma nd_index_product {A} s r (d : list A) obs : length d = (nprod s * nprod r)%nat -> In obs (product s) ->
  nd_index (Nd (s ++ r) d) obs = Ok (Nd r (slice d (ravel obs s * nprod r) (ravel obs s * nprod r + nprod r))).
Proof.
  revert d obs. induction s as [|n s IH]; intros d obs Hd H; cbn [product] in H.
  - destruct H as [<-|[]]. cbn [nd_index app ravel]. f_equal. f_equal. rewrite nprod_nil in Hd.
    replace (0 * nprod r)%nat with 0%nat by lia. cbn [Nat.add]. replace (nprod r) with (length d) by lia. rewrite slice_all. reflexivity.
  - apply in_flat_map in H as [i [Hi H]]. apply in_map_iff in H as [o [<- H]]. apply in_seq in Hi.
    cbn [nd_index app shape data]. destruct (Nat.ltb_spec i n) as [L|L]; [|lia].
    rewrite nprod_app. rewrite nprod_cons in Hd.
    assert (B : (i * (nprod s * nprod r) + nprod s * nprod r <= length d)%nat) by (rewrite Hd; nia).
    rewrite IH; [|rewrite slice_length by exact B; lia|exact H].
    f_equal. f_equal. cbn [ravel]. destruct (In_product_ravel s o H) as [R _].
    rewrite slice_slice by nia. f_equal; nia.
Qed.
Lemma nd_index_stack s n A obs : In obs (product s) -> nd_index (stack_of s n A) obs = Ok (fmat n (A (ravel obs s))).
Proof.
  intros H. unfold stack_of. rewrite nd_index_product.
  - rewrite nprod_2. rewrite slice_concat.
    + reflexivity.
    + intros; apply fmat_data_length.
    + apply In_product_ravel, H.
  - rewrite (concat_const_length _ _ (n * n)%nat) by (intros; apply fmat_data_length). rewrite seq_length, nprod_2. reflexivity.
  - exact H.
Qed.
(** every finite stack has this form *)
Lemma stack_eta s n a (P : nat -> (nat -> nat -> R) -> Prop) : shape a = s ++ [n; n] -> nd_wf a ->
  (forall obs, In obs (product s) -> exists A, nd_index a obs = Ok (fmat n A) /\ P (ravel obs s) A) ->
  exists A, a = stack_of s n A /\ forall o, (o < nprod s)%nat -> exists B, fmat n (A o) = fmat n B /\ P o B.
Proof.
  intros Hs Hw H. destruct a as [sh d]; cbn [shape] in Hs; subst sh. unfold nd_wf in Hw; cbn [data shape] in Hw.
  rewrite nprod_app, nprod_2 in Hw.
  set (A := fun o i j => toR (mget NaN (Nd [n; n] (slice d (o * (n * n)) (o * (n * n) + n * n))) i j)).
  assert (G : forall o, (o < nprod s)%nat -> Nd [n; n] (slice d (o * (n * n)) (o * (n * n) + n * n)) = fmat n (A o) /\
              exists B, fmat n (A o) = fmat n B /\ P o B).
  { intros o Ho. assert (In o (map (fun obs => ravel obs s) (product s))) as Hin by (rewrite product_ravel; apply in_seq; lia).
    apply in_map_iff in Hin as [obs [Eo Hobs]]. destruct (H obs Hobs) as [B [EB PB]].
    rewrite nd_index_product in EB by (rewrite ?nprod_2; assumption). rewrite Eo, nprod_2 in EB. inversion EB as [E]. 
    assert (E' : Nd [n; n] (slice d (o * (n * n)) (o * (n * n) + n * n)) = fmat n B) by (unfold fmat, mk_mat; rewrite E; reflexivity).
    assert (EA : fmat n (A o) = fmat n B).
    { unfold A. rewrite E'. apply fmat_ext. intros i j Hi Hj. rewrite mget_fmat by assumption. reflexivity. }
    split; [rewrite E', EA; reflexivity|]. exists B. rewrite <- Eo at 2. rewrite Eo. rewrite Eo in PB. split; assumption. }
  exists A. split; [|intros o Ho; apply G; exact Ho].
  unfold stack_of. f_equal.
  apply (nd_eq_nth _ _ NaN).
  - rewrite (concat_const_length _ _ (n * n)%nat) by (intros; apply fmat_data_length). rewrite seq_length. lia.
  - intros m Hm. rewrite Hw in Hm. assert (Hnn : (n * n <> 0)%nat) by nia.
    pose proof (Nat.div_mod m (n * n) Hnn) as E. pose proof (Nat.mod_upper_bound m (n * n) Hnn) as U.
    set (o := (m / (n * n))%nat) in *. set (r := (m mod (n * n))%nat) in *.
    assert (Ho : (o < nprod s)%nat) by nia.
    assert (X : forall l : list num, nth m l NaN = nth r (slice l (o * (n * n)) (o * (n * n) + n * n)) NaN).
    { intros l. rewrite nth_slice by lia. f_equal. lia. }
    rewrite (X d), X. rewrite slice_concat; [|intros; apply fmat_data_length|exact Ho].
    rewrite <- (proj1 (G o Ho)). reflexivity.
Qed.
Lemma np_stack_fmat N n (A : nat -> nat -> nat -> R) : (0 < N)%nat ->
  np_stack (map (fun o => fmat n (A o)) (seq 0 N)) = Ok (stack_of [N] n A).
Proof.
  intros HN. destruct N as [|N]; [lia|]. unfold np_stack. cbn [seq map].
  change (fmat n (A 0%nat) :: map (fun o => fmat n (A o)) (seq 1 N)) with (map (fun o => fmat n (A o)) (seq 0 (S N))).
  assert (E : forallb (fun b => shape_eqb (shape b) (shape (fmat n (A 0%nat)))) (map (fun o => fmat n (A o)) (seq 0 (S N))) = true).
  { apply forallb_forall. intros b Hb. apply in_map_iff in Hb as [o [<- _]]. apply shape_eqb_refl. }
  rewrite E. unfold stack_of. rewrite map_length, seq_length, nprod_1, map_map. reflexivity.
Qed.
Lemma sizes_fvecs l : fold_right Nat.add 0%nat (map nd_size (map fvec l)) = length (List.concat l).
Proof.
  induction l as [|w l' IH]; [reflexivity|].
  cbn [map fold_right List.concat]. rewrite app_length, <- IH, fvec_size. reflexivity.
Qed.
Lemma np_hstack_fvecs (l : list (list R)) : l <> [] -> np_hstack (map fvec l) = Ok (fvec (List.concat l)).
Proof.
  intros Hl. destruct l as [|v l]; [contradiction|]. unfold np_hstack.
  assert (E : map at_least_1d (map fvec (v :: l)) = map fvec (v :: l)).
  { rewrite map_map. apply map_ext. reflexivity. }
  rewrite E. cbn [map]. change (shape (fvec v)) with [length (map Fin v)]. cbv iota beta.
  assert (B : forallb (fun a : arr => match shape a with [_] => true | _ => false end) (fvec v :: map fvec l) = true).
  { apply forallb_forall. intros b Hb. change (In b (map fvec (v :: l))) in Hb. apply in_map_iff in Hb as [o [<- _]]. reflexivity. }
  rewrite B. f_equal. unfold fvec at 5, nd_vec. rewrite map_length.
  change (fvec v :: map fvec l) with (map fvec (v :: l)). f_equal.
  - f_equal. apply (sizes_fvecs (v :: l)).
  - rewrite map_map, concat_map. f_equal.
Qed.
Lemma np_hstack_fvec (v : nat -> list R) N : (0 < N)%nat ->
  np_hstack (map (fun o => fvec (v o)) (seq 0 N)) = Ok (fvec (List.concat (map v (seq 0 N)))).
Proof.
  intros HN. rewrite <- (map_map v fvec). apply np_hstack_fvecs. destruct N; [lia|]. discriminate.
Qed.
Lemma concat_blk vs N x : length x = (vs * N)%nat -> List.concat (map (fun o => blk vs o x) (seq 0 N)) = x.
Proof.
  revert x. induction N as [|N IH]; intros x H.
  - rewrite Nat.mul_0_r in H. destruct x; [reflexivity|discriminate].
  - rewrite seq_S, map_app, concat_app. cbn [map List.concat]. rewrite app_nil_r, Nat.add_0_l.
    rewrite (map_ext_in _ (fun o => blk vs o (firstn (vs * N) x))).
    + rewrite IH by (rewrite firstn_length; lia). unfold blk, slice.
      replace (vs * N + vs - vs * N)%nat with vs by lia.
      rewrite (firstn_all2 (skipn (vs * N) x)) by (rewrite skipn_length; lia). apply firstn_skipn.
    + intros o Ho. apply in_seq in Ho. unfold blk, slice. rewrite skipn_firstn_comm, firstn_firstn.
      f_equal. nia.
Qed.
Lemma blk_length vs N o x : length x = (vs * N)%nat -> (o < N)%nat -> length (blk vs o x) = vs.
Proof. intros H Ho. unfold blk. rewrite slice_length; nia. Qed.
Lemma np_slice_fvec x lo hi : (lo <= hi)%nat -> (hi <= length x)%nat -> np_slice (fvec x) lo hi = Ok (fvec (slice x lo hi)).
Proof.
  intros H1 H2. unfold np_slice, fvec, nd_vec; cbn [shape data]. rewrite map_length. rewrite nprod_nil.
  rewrite !Nat.min_l by lia. rewrite !Nat.mul_1_r. rewrite slice_map. rewrite map_length, slice_length by lia. reflexivity.
Qed.
