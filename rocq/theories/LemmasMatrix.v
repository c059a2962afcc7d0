(** Packing of triangular, symmetric and positive definite matrices. *)
From Coq Require Import String Reals List Bool Arith Lia Lra.
From Coquelicot Require Import Coquelicot.
From Verif Require Import Res Num Nd RSum ModelAutograd ModelSparse ModelParameters ModelMatrix.
From Verif Require Import SpecParameters SpecMatrix LemmasParameters LemmasChol.
Import List ListNotations.
Open Scope R_scope.
Set Bullet Behavior "Strict Subproofs".

(** ---- triangular numbers and SymIndex ---- *)
Lemma tri_S n : tri (S n) = (tri n + S n)%nat.
Proof.
  unfold tri. replace (S n * (S n + 1))%nat with (n * (n + 1) + S n * 2)%nat by lia.
  rewrite Nat.div_add by lia. reflexivity.
Qed.
Lemma tri_0 : tri 0 = 0%nat. Proof. reflexivity. Qed.
Lemma tri_twice n : (2 * tri n = n * (n + 1))%nat.
Proof. induction n as [|n IH]; [reflexivity|]. rewrite tri_S. lia. Qed.
Lemma tri_mono n m : (n <= m)%nat -> (tri n <= tri m)%nat.
Proof. induction 1; [lia|]. rewrite tri_S. lia. Qed.
Lemma tri_pos n : (0 < n)%nat -> (0 < tri n)%nat.
Proof. destruct n; [lia|]. rewrite tri_S. lia. Qed.
Lemma LDInd_tri i j : LDInd i j = (tri i + j)%nat.
Proof. unfold LDInd, tri. lia. Qed.
Lemma SymIndex_lower i j : (j <= i)%nat -> SymIndex i j = (tri i + j)%nat.
Proof. intros H. unfold SymIndex. apply Nat.leb_le in H. rewrite H. apply LDInd_tri. Qed.
Lemma SymIndex_sym i j : SymIndex i j = SymIndex j i.
Proof.
  unfold SymIndex. destruct (Nat.leb_spec j i); destruct (Nat.leb_spec i j); try lia; try reflexivity.
  assert (i = j) by lia. subst. reflexivity.
Qed.
Lemma SymIndex_lt n i j : (i < n)%nat -> (j < n)%nat -> (SymIndex i j < tri n)%nat.
Proof.
  assert (G : forall i j, (j <= i)%nat -> (i < n)%nat -> (SymIndex i j < tri n)%nat).
  { clear. intros i j Hij Hi. rewrite SymIndex_lower by exact Hij.
    pose proof (tri_mono (S i) n Hi). rewrite tri_S in H. lia. }
  intros Hi Hj. destruct (Nat.le_gt_cases j i); [apply G; lia|]. rewrite SymIndex_sym. apply G; lia.
Qed.
Lemma tri_find m n : (m < tri n)%nat -> exists i j, (j <= i)%nat /\ (i < n)%nat /\ m = (tri i + j)%nat.
Proof.
  induction n as [|n IH]; intros H; [rewrite tri_0 in H; lia|].
  destruct (Nat.lt_ge_cases m (tri n)) as [Hm|Hm].
  - destruct (IH Hm) as [i [j [A [B C]]]]. exists i, j. lia.
  - rewrite tri_S in H. exists n, (m - tri n)%nat. lia.
Qed.
Lemma tri_inj_pair i j i' j' : (j <= i)%nat -> (j' <= i')%nat -> (tri i + j = tri i' + j')%nat -> i = i' /\ j = j'.
Proof.
  intros H H' E.
  assert (i = i').
  { destruct (Nat.lt_trichotomy i i') as [L|[L|L]]; [|exact L|].
    - pose proof (tri_mono (S i) i' L). rewrite tri_S in H0. lia.
    - pose proof (tri_mono (S i') i L). rewrite tri_S in H0. lia. }
  subst. split; [reflexivity|lia].
Qed.

Lemma tril_list_S {A} n (f : nat -> nat -> A) : tril_list (S n) f = tril_list n f ++ map (f n) (seq 0 (S n)).
Proof. unfold tril_list. rewrite (seq_S n 0), flat_map_app. cbn [flat_map]. rewrite app_nil_r, !Nat.add_0_l, (seq_S n 0), ?Nat.add_0_l. reflexivity. Qed.
Lemma tril_list_pairs {A} n (f : nat -> nat -> A) : tril_list n f = map (fun p => f (fst p) (snd p)) (lower_pairs n).
Proof.
  unfold lower_pairs, tril_list. induction (seq 0 n) as [|i l IH]; [reflexivity|].
  cbn [flat_map]. rewrite map_app, map_map, IH. reflexivity.
Qed.
Lemma tril_list_length {A} n (f : nat -> nat -> A) : length (tril_list n f) = tri n.
Proof.
  induction n as [|n IH]; [reflexivity|].
  rewrite tril_list_S, app_length, IH, map_length, seq_length, tri_S. reflexivity.
Qed.
Lemma nth_tril {A} n (f : nat -> nat -> A) i j d : (j <= i)%nat -> (i < n)%nat ->
  nth (SymIndex i j) (tril_list n f) d = f i j.
Proof.
  intros Hj Hi. rewrite SymIndex_lower by exact Hj. induction n as [|n IH]; [lia|].
  rewrite tril_list_S. destruct (Nat.eq_dec i n) as [->|Hne].
  - rewrite app_nth2; rewrite tril_list_length; [|lia].
    replace (tri n + j - tri n)%nat with j by lia.
    rewrite (nth_indep _ d (f n 0%nat)) by (rewrite map_length, seq_length; lia).
    rewrite (map_nth (f n)), seq_nth by lia. reflexivity.
  - rewrite app_nth1; [apply IH; lia|]. rewrite tril_list_length.
    pose proof (tri_mono (S i) n ltac:(lia)) as M. rewrite tri_S in M. lia.
Qed.
Lemma tril_list_ext {A} n (f g : nat -> nat -> A) :
  (forall i j, (j <= i)%nat -> (i < n)%nat -> f i j = g i j) -> tril_list n f = tril_list n g.
Proof.
  intros H. induction n as [|n IH]; [reflexivity|]. rewrite !tril_list_S. f_equal.
  - apply IH. intros; apply H; lia.
  - apply map_ext_in. intros j Hj. apply in_seq in Hj. apply H; lia.
Qed.
Lemma tril_list_map {A B} (g : A -> B) n f : map g (tril_list n f) = tril_list n (fun i j => g (f i j)).
Proof. rewrite !tril_list_pairs, map_map. reflexivity. Qed.
Lemma tril_list_nth {A} n (x : list A) d : length x = tri n -> tril_list n (fun i j => nth (SymIndex i j) x d) = x.
Proof.
  intros H. apply (nd_eq_nth _ _ d); rewrite tril_list_length; [lia|].
  intros m Hm. destruct (tri_find m n Hm) as [i [j [Hj [Hi ->]]]].
  rewrite <- SymIndex_lower by exact Hj. exact (nth_tril n (fun i j => nth (SymIndex i j) x d) i j d Hj Hi).
Qed.
Lemma tril_list_inj {A} n (f g : nat -> nat -> A) : tril_list n f = tril_list n g ->
  forall i j, (j <= i)%nat -> (i < n)%nat -> f i j = g i j.
Proof.
  intros H i j Hj Hi. rewrite <- (nth_tril n f i j (f i j)) by assumption. rewrite H. apply nth_tril; assumption.
Qed.
Lemma In_tril {A} n (f : nat -> nat -> A) v : In v (tril_list n f) <-> exists i j, (j <= i)%nat /\ (i < n)%nat /\ v = f i j.
Proof.
  unfold tril_list. rewrite in_flat_map. split.
  - intros [i [Hi Hv]]. apply in_map_iff in Hv as [j [<- Hj]]. apply in_seq in Hi, Hj. exists i, j. repeat split; lia.
  - intros [i [j [Hj [Hi ->]]]]. exists i. split; [apply in_seq; lia|]. apply in_map, in_seq. lia.
Qed.
Lemma SymIndex_enumerates n : map (fun p => SymIndex (fst p) (snd p)) (lower_pairs n) = seq 0 (tri n).
Proof.
  rewrite <- (tril_list_pairs n SymIndex). induction n as [|n IH]; [reflexivity|].
  rewrite tril_list_S, IH, tri_S, seq_app. f_equal. rewrite Nat.add_0_l.
  rewrite (map_ext_in _ (fun j => tri n + j)%nat).
  - rewrite <- (seq_length (S n) (tri n)) at 1. clear.
    generalize (S n) as m. intros m. rewrite seq_length. generalize (tri n) as k. induction m as [|m IH]; intros k; [reflexivity|].
    rewrite seq_S, map_app, IH. rewrite (seq_S m k). reflexivity.
  - intros j Hj. apply in_seq in Hj. apply SymIndex_lower. lia.
Qed.

(** ---- the size formula ---- *)
Lemma ld_mat_size_tri n : ld_mat_size (tri n) = n.
Proof.
  unfold ld_mat_size. replace (1 + 8 * tri n)%nat with ((2 * n + 1) * (2 * n + 1))%nat.
  - rewrite Nat.sqrt_square. replace (2 * n + 1 - 1)%nat with (n * 2)%nat by lia. apply Nat.div_mul; lia.
  - pose proof (tri_twice n). nia.
Qed.
Lemma ld_size_check m : (ld_mat_size m * (ld_mat_size m + 1) = 2 * m)%nat <-> exists n, m = tri n.
Proof.
  split.
  - intros H. exists (ld_mat_size m). pose proof (tri_twice (ld_mat_size m)). lia.
  - intros [n ->]. rewrite ld_mat_size_tri. rewrite <- tri_twice. reflexivity.
Qed.
Lemma tri_injective n m : tri n = tri m -> n = m.
Proof. intros H. rewrite <- (ld_mat_size_tri n), H. apply ld_mat_size_tri. Qed.
(** the integer formula is int(0.5 * (sqrt(1 + 8 m) - 1)) *)
Lemma ld_mat_size_real m :
  INR (ld_mat_size m) <= 0.5 * (sqrt (1 + 8 * INR m) - 1) < INR (ld_mat_size m) + 1.
Proof.
  unfold ld_mat_size. set (s := Nat.sqrt (1 + 8 * m)).
  destruct (Nat.sqrt_spec (1 + 8 * m) ltac:(lia)) as [L U]. fold s in L, U.
  assert (Hs : (1 <= s)%nat) by nia.
  pose proof (Nat.div_mod (s - 1) 2 ltac:(lia)) as E.
  pose proof (Nat.mod_upper_bound (s - 1) 2 ltac:(lia)) as M.
  set (q := ((s - 1) / 2)%nat) in *.
  assert (V : 1 + 8 * INR m = INR (1 + 8 * m)).
  { rewrite plus_INR, mult_INR. simpl. ring. }
  rewrite V.
  assert (L' : INR s <= sqrt (INR (1 + 8 * m))).
  { rewrite <- (sqrt_square (INR s)) by apply pos_INR. apply sqrt_le_1_alt. rewrite <- mult_INR. apply le_INR. exact L. }
  assert (U' : sqrt (INR (1 + 8 * m)) < INR (S s)).
  { rewrite <- (sqrt_square (INR (S s))) by apply pos_INR. apply sqrt_lt_1_alt.
    split; [apply pos_INR|]. rewrite <- mult_INR. apply lt_INR. exact U. }
  assert (A : INR (2 * q + 1) <= INR s) by (apply le_INR; lia).
  assert (B : INR (S s) <= INR (2 * q + 3)) by (apply le_INR; lia).
  rewrite plus_INR, mult_INR in A, B. rewrite S_INR in B. rewrite (S_INR s) in U'.
  replace (INR 2) with 2 in A, B by (simpl; ring). replace (INR 3) with 3 in B by (simpl; ring).
  replace (INR 1) with 1 in A by reflexivity. split; lra.
Qed.

(** ---- vectorize / unvectorize ---- *)
Lemma mk_mat_0 {A} (f g : nat -> nat -> A) : mk_mat 0 0 f = mk_mat 0 0 g.
Proof. reflexivity. Qed.
Lemma nd_size_vec {A} (l : list A) : nd_size (nd_vec l) = length l.
Proof. unfold nd_size, nd_vec; cbn [shape]. apply nprod_1. Qed.

Lemma vectorize_mk n (f : nat -> nat -> num) : vectorize_ld_matrix (mk_mat n n f) = Ok (nd_vec (tril_list n f)).
Proof.
  unfold vectorize_ld_matrix, mk_mat at 1; cbn [shape]. rewrite Nat.eqb_refl. cbn [negb].
  f_equal. f_equal. apply tril_list_ext. intros i j Hj Hi. apply mget_mk_mat; lia.
Qed.
Lemma vectorize_ok n a : shape a = [n; n] -> vectorize_ld_matrix a = Ok (nd_vec (tril_list n (mget NaN a))).
Proof. intros H. unfold vectorize_ld_matrix. rewrite H, Nat.eqb_refl. reflexivity. Qed.
Lemma vectorize_rejects a : (forall n, shape a <> [n; n]) -> vectorize_ld_matrix a = Raise ValueError.
Proof.
  intros H. unfold vectorize_ld_matrix. destruct (shape a) as [|n [|m [|]]]; try reflexivity.
  destruct (Nat.eqb_spec n m) as [->|]; [exfalso; apply (H m); reflexivity|reflexivity].
Qed.
Lemma unvectorize_ok n (l : list num) : length l = tri n ->
  unvectorize_ld_matrix (nd_vec l) = Ok (mk_mat n n (fun i j => if Nat.leb j i then nth (SymIndex i j) l NaN else Fin 0)).
Proof.
  intros H. unfold unvectorize_ld_matrix. rewrite nd_size_vec, H.
  rewrite ld_mat_size_tri. rewrite <- tri_twice, Nat.eqb_refl. cbn [negb].
  destruct (Nat.eqb_spec n 0) as [->|Hn]; [reflexivity|].
  unfold nd_vec at 1; cbn [shape]. rewrite nprod_nil, Nat.eqb_refl. cbn [negb data nd_vec]. reflexivity.
Qed.
Lemma unvectorize_bad a : (forall n, nd_size a <> tri n) -> unvectorize_ld_matrix a = Raise ValueError.
Proof.
  intros H. unfold unvectorize_ld_matrix.
  destruct (Nat.eqb_spec (ld_mat_size (nd_size a) * (ld_mat_size (nd_size a) + 1)) (2 * nd_size a)) as [E|E]; [|reflexivity].
  apply ld_size_check in E as [n En]. exfalso. exact (H n En).
Qed.
Lemma unvectorize_spec (l : list num) n : length l = tri n ->
  exists M, unvectorize_ld_matrix (nd_vec l) = Ok M /\ shape M = [n; n] /\ nd_wf M /\
    lower_triangular (Fin 0) n (mget NaN M) /\ (forall i j, (j <= i)%nat -> (i < n)%nat -> mget NaN M i j = nth (SymIndex i j) l NaN) /\
    vectorize_ld_matrix M = Ok (nd_vec l).
Proof.
  intros H. eexists. split; [apply unvectorize_ok; exact H|]. splits.
  - reflexivity.
  - apply mk_mat_wf.
  - intros i j Hij Hj. rewrite mget_mk_mat by lia. destruct (Nat.leb_spec j i); [lia|reflexivity].
  - intros i j Hij Hi. rewrite mget_mk_mat by lia. destruct (Nat.leb_spec j i); [reflexivity|lia].
  - rewrite vectorize_mk. f_equal. f_equal.
    rewrite (tril_list_ext n _ (fun i j => nth (SymIndex i j) l NaN)); [apply tril_list_nth; exact H|].
    intros i j Hij Hi. destruct (Nat.leb_spec j i); [reflexivity|lia].
Qed.
Lemma unvectorize_vectorize M n : shape M = [n; n] -> nd_wf M -> lower_triangular (Fin 0) n (mget NaN M) ->
  exists v, vectorize_ld_matrix M = Ok v /\ shape v = [tri n] /\ unvectorize_ld_matrix v = Ok M.
Proof.
  intros Hs Hw HL. eexists. split; [apply vectorize_ok; exact Hs|]. split.
  - unfold nd_vec; cbn [shape]. rewrite tril_list_length. reflexivity.
  - rewrite (unvectorize_ok n) by apply tril_list_length. f_equal.
    rewrite (mk_mat_eta NaN n n M) by assumption. apply mk_mat_ext. intros i j Hi Hj.
    rewrite <- (mk_mat_eta NaN n n M) by assumption.
    destruct (Nat.leb_spec j i); [apply nth_tril; assumption|]. symmetry; apply HL; assumption.
Qed.

(** ---- symmetric packing ---- *)
Lemma nth_Fin (x : list R) k d : (k < length x)%nat -> nth k (map Fin x) d = Fin (nth k x 0).
Proof.
  intros H. rewrite (nth_indep _ d (Fin 0)) by (rewrite map_length; exact H). apply map_nth.
Qed.
Definition symof (x : list R) (i j : nat) : R := nth (SymIndex i j) x 0.
Lemma unvectorize_symmetric_fin n (x : list R) : length x = tri n ->
  unvectorize_symmetric_matrix (fvec x) = Ok (fmat n (symof x)).
Proof.
  intros H. unfold unvectorize_symmetric_matrix, fvec. rewrite (unvectorize_ok n) by (rewrite map_length; exact H).
  cbn [rbind]. f_equal. unfold nrows, mk_mat at 1; cbn [shape]. apply mk_mat_ext. intros i j Hi Hj.
  assert (G : forall i j, (i < n)%nat -> (j < n)%nat ->
     (if Nat.leb j i then nth (SymIndex i j) (map Fin x) NaN else Fin 0)
     = Fin (if Nat.leb j i then symof x i j else 0)).
  { intros a b Ha Hb. destruct (Nat.leb b a); [|reflexivity]. apply nth_Fin. rewrite H. apply SymIndex_lt; assumption. }
  unfold make_diagonal. rewrite !mget_mk_mat by assumption. rewrite !G by assumption.
  destruct (Nat.eqb_spec i j) as [->|Hne].
  - rewrite Nat.leb_refl. cbn. f_equal. ring.
  - destruct (Nat.leb_spec j i); destruct (Nat.leb_spec i j); try lia; cbn; f_equal.
    + ring.
    + unfold symof. rewrite (SymIndex_sym j i). ring.
Qed.
Lemma symof_sym n x : symmetric n (symof x).
Proof. intros i j _ _. unfold symof. rewrite SymIndex_sym. reflexivity. Qed.
Lemma unvectorize_symmetric_roundtrip n A : symmetric n A ->
  exists v, vectorize_ld_matrix (fmat n A) = Ok v /\ unvectorize_symmetric_matrix v = Ok (fmat n A).
Proof.
  intros HS. exists (fvec (tril_list n A)). split.
  - unfold fmat. rewrite vectorize_mk. unfold fvec. rewrite tril_list_map. reflexivity.
  - rewrite (unvectorize_symmetric_fin n) by apply tril_list_length. f_equal. apply mk_mat_ext.
    intros i j Hi Hj. f_equal. unfold symof. destruct (Nat.le_gt_cases j i).
    + apply nth_tril; assumption.
    + rewrite SymIndex_sym, nth_tril by lia. apply HS; assumption.
Qed.

(** ---- the hand-written derivative rules ---- *)
Lemma unvectorize_fin n (x : list R) : length x = tri n ->
  unvectorize_ld_matrix (fvec x) = Ok (fmat n (fun i j => if Nat.leb j i then symof x i j else 0)).
Proof.
  intros H. unfold fvec. rewrite (unvectorize_ok n) by (rewrite map_length; exact H). f_equal.
  apply mk_mat_ext. intros i j Hi Hj. destruct (Nat.leb j i); [|reflexivity].
  apply nth_Fin. rewrite H. apply SymIndex_lt; assumption.
Qed.
Lemma lsum_pairs_tril n (f : nat -> nat -> R) :
  lsum (tril_list n f) = rsum n (fun i => rsum n (fun j => if Nat.leb j i then f i j else 0)).
Proof.
  unfold tril_list. rewrite lsum_flat_map, lsum_map_seq. apply rsum_ext. intros i Hi.
  rewrite lsum_map_seq. replace n with (S i + (n - S i))%nat by lia. rewrite rsum_split.
  rewrite (rsum_zero (n - S i)). 2:{ intros q Hq. destruct (Nat.leb_spec (S i + q) i); [lia|reflexivity]. }
  rewrite Rplus_0_r. apply rsum_ext. intros q Hq. destruct (Nat.leb_spec q i); [reflexivity|lia].
Qed.
Lemma lsum_map2_nth {A B} (h : A -> B -> R) (x : list A) (y : list B) : length x = length y -> forall da db,
  lsum (map2 h x y) = rsum (length x) (fun i => h (nth i x da) (nth i y db)).
Proof.
  revert y. induction x as [|a x IH]; intros [|b y] H da db; try discriminate; [reflexivity|].
  change (length (a :: x)) with (S (length x)). rewrite rsum_S_l. cbn [map2]. unfold lsum in *. cbn [fold_right].
  rewrite (IH y) with (da := da) (db := db) by (simpl in H; lia). reflexivity.
Qed.
Lemma map2_tril n (f g : nat -> nat -> R) : map2 Rmult (tril_list n f) (tril_list n g) = tril_list n (fun i j => f i j * g i j).
Proof.
  rewrite !tril_list_pairs. induction (lower_pairs n) as [|p ps IH]; [reflexivity|]. cbn. rewrite IH. reflexivity.
Qed.
Lemma vjp_adjoint n (x : list R) (G : nat -> nat -> R) : length x = tri n ->
  exists v U, unvectorize_ld_matrix_vjp (fmat n G) = Ok (fvec v) /\ unvectorize_ld_matrix (fvec x) = Ok (fmat n U) /\
    length v = tri n /\ dot v x = frob n G U.
Proof.
  intros H. exists (tril_list n G), (fun i j => if Nat.leb j i then symof x i j else 0). splits.
  - unfold unvectorize_ld_matrix_vjp. change (shape (fmat n G)) with [n; n]. cbv iota. rewrite Nat.eqb_refl. unfold rassert, fmat.
    rewrite vectorize_mk. unfold fvec. rewrite tril_list_map. reflexivity.
  - apply unvectorize_fin, H.
  - apply tril_list_length.
  - unfold dot, frob. rewrite <- (tril_list_nth n x 0 H) at 1. rewrite map2_tril, lsum_pairs_tril.
    apply rsum_ext; intros i Hi. apply rsum_ext; intros j Hj. destruct (Nat.leb j i); [reflexivity|ring].
Qed.
Lemma nth_map2 {A B C} (h : A -> B -> C) x y i da db dc : (i < length x)%nat -> (i < length y)%nat ->
  nth i (map2 h x y) dc = h (nth i x da) (nth i y db).
Proof.
  revert y i. induction x as [|a x IH]; intros [|b y] i Hx Hy; simpl in Hx, Hy; try lia.
  destruct i as [|i]; [reflexivity|]. cbn. apply IH; lia.
Qed.
Lemma map2_length {A B C} (h : A -> B -> C) x y : length x = length y -> length (map2 h x y) = length x.
Proof. revert y; induction x as [|a x IH]; intros [|b y] H; simpl in *; try lia. rewrite IH; lia. Qed.
Lemma fmat_inj n A B : fmat n A = fmat n B -> forall i j, (i < n)%nat -> (j < n)%nat -> A i j = B i j.
Proof.
  intros H i j Hi Hj. assert (E : mget NaN (fmat n A) i j = mget NaN (fmat n B) i j) by (rewrite H; reflexivity).
  unfold fmat in E. rewrite !mget_mk_mat in E by assumption. congruence.
Qed.
Lemma jvp_derivative n (x v : list R) : length x = tri n -> length v = tri n ->
  exists D, unvectorize_ld_matrix_jvp (fvec v) = Ok (fmat n D) /\
    forall U, (forall t, unvectorize_ld_matrix (fvec (map2 (fun a b => a + t * b) x v)) = Ok (fmat n (U t))) ->
      forall i j, (i < n)%nat -> (j < n)%nat -> is_derive (fun t => U t i j) 0 (D i j).
Proof.
  intros Hx Hv. eexists. split; [apply unvectorize_fin; exact Hv|].
  intros U HU i j Hi Hj.
  assert (E : forall t, U t i j = if Nat.leb j i then symof x i j + t * symof v i j else 0).
  { intros t. specialize (HU t). rewrite (unvectorize_fin n) in HU by (rewrite map2_length; lia).
    assert (E : fmat n (fun i j => if Nat.leb j i then symof (map2 (fun a b => a + t * b) x v) i j else 0) = fmat n (U t)) by congruence.
    rewrite <- (fmat_inj n _ _ E i j Hi Hj).
    destruct (Nat.leb j i); [|reflexivity]. unfold symof.
    pose proof (SymIndex_lt n i j Hi Hj). rewrite (nth_map2 _ x v _ 0 0 0) by lia. reflexivity. }
  apply (is_derive_ext (fun t => if Nat.leb j i then symof x i j + t * symof v i j else 0)).
  { intros t; symmetry; apply E. }
  destruct (Nat.leb j i).
  - auto_derive; [exact I|]. ring.
  - auto_derive; [exact I|ring].
Qed.
