(** Simplex parameters: values, round trips, derivatives. *)
From Coq Require Import String Reals List Bool Arith Lia Lra.
From Coquelicot Require Import Coquelicot.
From Verif Require Import Res Num Nd RSum ModelAutograd ModelSparse ModelParameters ModelSimplex.
From Verif Require Import SpecParameters SpecMatrix SpecSimplex LemmasParameters LemmasCalc LemmasMatrix LemmasPosDef LemmasPosDefStack.
Import List ListNotations.
Open Scope R_scope.
Set Bullet Behavior "Strict Subproofs".

(** ---- logsumexp ---- *)
Lemma nmax_fin l : l <> [] -> exists M, fold_right nmax NInf (map Fin l) = Fin M.
Proof.
  induction l as [|x [|y l] IH]; intros H; [contradiction| |].
  - exists x. reflexivity.
  - destruct IH as [M E]; [discriminate|]. change (map Fin (x :: y :: l)) with (Fin x :: map Fin (y :: l)).
    cbn [fold_right]. cbn [fold_right] in E. rewrite E. unfold nmax. destruct (nleb (Fin x) (Fin M)); eauto.
Qed.
Lemma lsum_pos l : l <> [] -> (forall x, In x l -> 0 < x) -> 0 < lsum l.
Proof.
  intros N H. destruct l as [|a l]; [contradiction|]. cbn.
  assert (0 <= lsum l).
  { assert (forall x, In x l -> 0 < x) by (intros; apply H; right; assumption). clear - H0. induction l as [|b l IH]; cbn; [lra|].
    assert (0 < b) by (apply H0; left; reflexivity). assert (0 <= lsum l) by (apply IH; intros; apply H0; right; assumption). unfold lsum in *. lra. }
  assert (0 < a) by (apply H; left; reflexivity). unfold lsum in *. lra.
Qed.
Lemma logsumexp_fin l : l <> [] -> logsumexp (map Fin l) = Fin (ln (lsum (map exp l))).
Proof.
  intros H. unfold logsumexp. destruct (nmax_fin l H) as [M ->]. cbn [is_fin].
  rewrite map_map. cbn [nsub nopp nadd nexp].
  rewrite <- (map_map (fun a => exp (a + - M)) Fin). rewrite nsum_Fin.
  change (fold_right Rplus 0) with lsum.
  assert (P : 0 < lsum (map (fun a => exp (a + - M)) l)).
  { apply lsum_pos; [destruct l; [contradiction|discriminate]|]. intros x Hx. apply in_map_iff in Hx as [a [<- _]]. apply exp_pos. }
  rewrite nlog_pos by exact P. cbn [nadd]. f_equal.
  transitivity (ln (lsum (map (fun a => exp (a + - M)) l)) + ln (exp M)); [rewrite ln_exp; reflexivity|]. rewrite <- ln_mult; [|exact P|apply exp_pos]. f_equal.
  rewrite Rmult_comm, <- lsum_map_scal. apply lsum_map_ext. intros a _. rewrite <- exp_plus. f_equal. ring.
Qed.

(** ---- 2-d hstack ---- *)
Lemma mk_mat_row {A} n m (f : nat -> nat -> A) i : (i < n)%nat ->
  slice (data (mk_mat n m f)) (i * m) (i * m + m) = map (f i) (seq 0 m).
Proof.
  intros Hi. unfold mk_mat; cbn [data]. rewrite flat_map_concat_map.
  apply (slice_concat (fun i => map (f i) (seq 0 m))); [|exact Hi]. intros; rewrite map_length, seq_length; reflexivity.
Qed.
Lemma np_hstack_mats {A} n a b (f g : nat -> nat -> A) :
  np_hstack [mk_mat n a f; mk_mat n b g] = Ok (mk_mat n (a + b) (fun i j => if Nat.ltb j a then f i j else g i (j - a)%nat)).
Proof.
  unfold np_hstack. cbn [map at_least_1d shape mk_mat].
  change (Nd [n; a] _) with (mk_mat n a f). change (Nd [n; b] _) with (mk_mat n b g).
  cbn [forallb shape mk_mat]. rewrite Nat.eqb_refl. rewrite shape_eqb_refl. cbn [andb map fold_right nprod].
  rewrite Nat.add_0_r.
  match goal with |- _ = Ok ?M => change M with (Nd [n; (a + b)%nat] (flat_map (fun i => map (fun j => if Nat.ltb j a then f i j else g i (j - a)%nat) (seq 0 (a + b))) (seq 0 n))) end.
  f_equal. f_equal. rewrite !flat_map_concat_map. f_equal. apply map_ext_in. intros i Hi. apply in_seq in Hi.
  cbn [flat_map]. change (shape (mk_mat n a f)) with [n; a]. change (shape (mk_mat n b g)) with [n; b]. cbv iota.
  rewrite app_nil_r. rewrite nprod_nil, !Nat.mul_1_r.
  rewrite !mk_mat_row by lia. rewrite seq_app, map_app. f_equal.
  - apply map_ext_in. intros j Hj. apply in_seq in Hj. destruct (Nat.ltb_spec j a); [reflexivity|lia].
  - apply (nd_eq_nth _ _ (g i 0%nat)); [rewrite !map_length, !seq_length; reflexivity|].
    intros j Hj. rewrite map_length, seq_length in Hj. rewrite (map_nth (g i)).
    rewrite (nth_indep _ _ ((fun j0 => if Nat.ltb j0 a then f i j0 else g i (j0 - a)%nat) 0%nat)) by (rewrite map_length, seq_length; exact Hj).
    rewrite (map_nth (fun j0 => if Nat.ltb j0 a then f i j0 else g i (j0 - a)%nat)). rewrite !seq_nth by exact Hj.
    destruct (Nat.ltb_spec (0 + a + j) a); [lia|]. f_equal. lia.
Qed.
Lemma np_full_mat {A} n m (v : A) : np_full [n; m] v = mk_mat n m (fun _ _ => v).
Proof.
  unfold np_full, mk_mat. f_equal. apply (nd_eq_nth _ _ v).
  - rewrite repeat_length, nprod_2. symmetry. rewrite (length_flat_map_const _ _ m); [rewrite seq_length; reflexivity|].
    intros; rewrite map_length, seq_length; reflexivity.
  - intros i Hi. rewrite repeat_length, nprod_2 in Hi. rewrite nth_repeat.
    assert (m <> 0%nat) by nia. rewrite (Nat.div_mod i m) by assumption. rewrite (Nat.mul_comm m).
    rewrite nth_flat_map_seq; [reflexivity| |apply Nat.mod_upper_bound; assumption].
    apply Nat.div_lt_upper_bound; [assumption|lia].
Qed.

(** ---- constrain ---- *)
Definition smS (K : nat) (g : nat -> R) : R := 1 + rsum K (fun k => exp (g k)).
Lemma smS_pos K g : 0 < smS K g.
Proof.
  unfold smS. assert (0 <= rsum K (fun k => exp (g k))) by (apply rsum_nonneg; intros; left; apply exp_pos). lra.
Qed.
Lemma smS_logits K g : rsum (S K) (fun j => exp (logits g j)) = smS K g.
Proof. rewrite rsum_S_l. cbn [logits]. rewrite exp_0. reflexivity. Qed.
Lemma softmax_pos K g j : 0 < softmax K g j.
Proof. unfold softmax. apply Rdiv_lt_0_compat; [apply exp_pos|apply smS_pos]. Qed.
Lemma softmax_sum K g : rsum (S K) (softmax K g) = 1.
Proof.
  unfold softmax. unfold Rdiv. rewrite rsum_scal_r. rewrite smS_logits. fold (smS K g). pose proof (smS_pos K g). field. lra.
Qed.
Lemma softmax_le1 K g j : (j < S K)%nat -> softmax K g j <= 1.
Proof.
  intros H. rewrite <- (softmax_sum K g). apply rsum_term_le; [exact H|]. intros; left; apply softmax_pos.
Qed.
Lemma softmax_ext K g h j : (forall k, (k < K)%nat -> g k = h k) -> (j < S K)%nat -> softmax K g j = softmax K h j.
Proof.
  intros E Hj. unfold softmax. f_equal.
  - f_equal. destruct j; [reflexivity|]. cbn. apply E. lia.
  - f_equal. apply rsum_ext. intros k Hk. rewrite E by exact Hk. reflexivity.
Qed.
Lemma rmat_ext n m A B : (forall i j, (i < n)%nat -> (j < m)%nat -> A i j = B i j) -> rmat n m A = rmat n m B.
Proof. intros H. apply mk_mat_ext. intros i j Hi Hj. rewrite H by assumption. reflexivity. Qed.
Lemma mget_rmat n m A i j : (i < n)%nat -> (j < m)%nat -> mget NaN (rmat n m A) i j = Fin (A i j).
Proof. intros. unfold rmat. rewrite mget_mk_mat by assumption. reflexivity. Qed.
Lemma mrow_rmat n m A i : (i < n)%nat -> mrow (rmat n m A) i = map Fin (map (A i) (seq 0 m)).
Proof.
  intros Hi. unfold mrow. change (ncols (rmat n m A)) with m. rewrite map_map. apply map_ext_in. intros j Hj. apply in_seq in Hj.
  apply mget_rmat; lia.
Qed.
Lemma constrain_simplex_rmat n K A :
  constrain_simplex_matrix (rmat n K A) = Ok (rmat n (S K) (fun i => softmax K (A i))).
Proof.
  unfold constrain_simplex_matrix. change (hd 0%nat (shape (rmat n K A))) with n. rewrite np_full_mat. unfold rmat at 1.
  rewrite np_hstack_mats. cbn [rbind]. 
  assert (E : mk_mat n (1 + K) (fun i j => if Nat.ltb j 1 then Fin 0 else Fin (A i (j - 1)%nat)) = rmat n (S K) (fun i => logits (A i))).
  { apply mk_mat_ext. intros i j Hi Hj. destruct j as [|j]; [reflexivity|]. cbn [Nat.ltb Nat.leb logits].
    replace (S j - 1)%nat with j by lia. reflexivity. }
  rewrite E. change (nrows (rmat n (S K) _)) with n. change (ncols (rmat n (S K) _)) with (S K). f_equal.
  apply mk_mat_ext. intros i j Hi Hj. rewrite mget_rmat by assumption. rewrite mrow_rmat by exact Hi.
  rewrite logsumexp_fin by discriminate. cbn [nsub nopp nadd nexp]. f_equal.
  rewrite map_map, lsum_map_seq, smS_logits. unfold softmax. fold (smS K (A i)).
  rewrite exp_plus, exp_Ropp, exp_ln by apply smS_pos. reflexivity.
Qed.

(** ---- unconstrain ---- *)
Lemma unconstrain_simplex_rmat n K A : (forall i j, (i < n)%nat -> (j < S K)%nat -> 0 < A i j) ->
  unconstrain_simplex_matrix (rmat n (S K) A) = Ok (rmat n K (fun i j => ln (A i (S j)) - ln (A i 0%nat))).
Proof.
  intros H. unfold unconstrain_simplex_matrix. change (shape (rmat n (S K) A)) with [n; S K]. cbn [shape]. f_equal.
  apply mk_mat_ext. intros i j Hi Hj. rewrite !mget_rmat by lia. rewrite !nlog_pos by (apply H; lia).
  cbn [nsub nopp nadd]. f_equal. replace (j + 1)%nat with (S j) by lia. ring.
Qed.
Lemma ln_softmax K g j : ln (softmax K g j) = logits g j - ln (smS K g).
Proof.
  unfold softmax. fold (smS K g). unfold Rdiv. rewrite ln_mult; [|apply exp_pos|apply Rinv_0_lt_compat, smS_pos].
  rewrite ln_Rinv by apply smS_pos. rewrite ln_exp. ring.
Qed.
Lemma unconstrain_constrain n K A :
  exists Z, constrain_simplex_matrix (rmat n K A) = Ok (rmat n (S K) Z) /\
    (forall i, (i < n)%nat -> interior_simplex (S K) (Z i)) /\
    (forall i j, (i < n)%nat -> (j < S K)%nat -> Z i j = softmax K (A i) j) /\
    unconstrain_simplex_matrix (rmat n (S K) Z) = Ok (rmat n K A).
Proof.
  exists (fun i => softmax K (A i)). splits.
  - apply constrain_simplex_rmat.
  - intros i Hi. split; [intros; apply softmax_pos|apply softmax_sum].
  - reflexivity.
  - rewrite unconstrain_simplex_rmat by (intros; apply softmax_pos). f_equal. apply rmat_ext. intros i j Hi Hj.
    rewrite !ln_softmax. cbn [logits]. ring.
Qed.
Lemma constrain_unconstrain n K Z : (forall i j, (i < n)%nat -> (j < S K)%nat -> 0 < Z i j) ->
  exists A, unconstrain_simplex_matrix (rmat n (S K) Z) = Ok (rmat n K A) /\
    constrain_simplex_matrix (rmat n K A) = Ok (rmat n (S K) (fun i j => Z i j / rsum (S K) (Z i))).
Proof.
  intros H. eexists. split; [apply unconstrain_simplex_rmat; exact H|].
  rewrite constrain_simplex_rmat. f_equal. apply rmat_ext. intros i j Hi Hj.
  assert (P0 : 0 < Z i 0%nat) by (apply H; lia).
  assert (E : forall k, (k < S K)%nat -> exp (logits (fun j => ln (Z i (S j)) - ln (Z i 0%nat)) k) = Z i k / Z i 0%nat).
  { intros [|k] Hk; cbn [logits].
    - rewrite exp_0. field. lra.
    - unfold Rminus. rewrite exp_plus, exp_Ropp, !exp_ln by (apply H; lia). reflexivity. }
  assert (PS : 0 < rsum (S K) (Z i)) by (apply rsum_pos; [lia|]; intros; apply H; lia).
  unfold softmax. rewrite E by exact Hj. fold (smS K (fun k => ln (Z i (S k)) - ln (Z i 0%nat))).
  rewrite <- smS_logits. rewrite (rsum_ext (S K) _ (fun k => Z i k * / Z i 0%nat)) by (intros k Hk; rewrite E by exact Hk; reflexivity).
  rewrite rsum_scal_r. field. split; lra.
Qed.

(** ---- the in-place loops ---- *)
Lemma fold_add2 (r c : nat -> nat) (v : nat -> R) l : forall M a b,
  fold_left (fun M k => add2 M (r k) (c k) (v k)) l M a b
  = M a b + lsum (map (fun k => if (Nat.eqb a (r k) && Nat.eqb b (c k))%bool then v k else 0) l).
Proof.
  induction l as [|k l IH]; intros M a b; [cbn; ring|].
  cbn [fold_left map]. rewrite IH. unfold add2. unfold lsum; cbn [fold_right].
  destruct (Nat.eqb a (r k) && Nat.eqb b (c k))%bool; ring.
Qed.
Lemma lsum_seq1 (f : nat -> R) K : lsum (map f (seq 1 K)) = rsum K (fun k => f (S k)).
Proof. rewrite <- seq_shift, map_map. apply lsum_map_seq. Qed.
Lemma grad_from_moment z K i j : length z = S K -> (j < K)%nat ->
  constrain_grad_from_moment z i j = nth i z 0 * (del i (S j) - nth (S j) z 0).
Proof.
  intros Hz Hj. unfold constrain_grad_from_moment. rewrite Hz. replace (S K - 1)%nat with K by lia.
  rewrite (fold_add2 (fun k => k) (fun k => (k - 1)%nat) (fun k => nth k z 0)). rewrite lsum_seq1.
  replace (nth j (tl z) 0) with (nth (S j) z 0) by (destruct z; [discriminate|reflexivity]).
  rewrite (rsum_single K j); [|exact Hj|].
  - replace (S j - 1)%nat with j by lia. rewrite Nat.eqb_refl, andb_true_r. unfold del.
    destruct (Nat.eqb_spec i (S j)) as [->|]; ring.
  - intros k Hk Hkj. replace (S k - 1)%nat with k by lia. destruct (Nat.eqb_spec j k); [congruence|]. rewrite andb_false_r. reflexivity.
Qed.
Lemma fold_slabs (step : (nat -> nat -> nat -> R) -> nat -> (nat -> nat -> nat -> R)) (U : nat -> (nat -> nat -> R) -> (nat -> nat -> R)) :
  (forall h k a, step h k a = if Nat.eqb a k then U k (h a) else h a) ->
  forall l T a, NoDup l -> fold_left step l T a = if existsb (Nat.eqb a) l then U a (T a) else T a.
Proof.
  intros E. induction l as [|k l IH]; intros T a ND; [reflexivity|].
  inversion ND; subst. cbn [fold_left existsb]. rewrite IH by assumption. rewrite E.
  destruct (Nat.eqb_spec a k) as [->|]; [|reflexivity]. cbn [orb].
  destruct (existsb (Nat.eqb k) l) eqn:X; [|reflexivity].
  apply existsb_exists in X as [y [Hy Ey]]. apply Nat.eqb_eq in Ey. subst. contradiction.
Qed.
Lemma fold_on_slab k0 (u : nat -> (nat -> nat -> R) -> (nat -> nat -> R)) l : forall h a,
  fold_left (fun h j => on_slab h k0 (u j)) l h a = if Nat.eqb a k0 then fold_left (fun M j => u j M) l (h a) else h a.
Proof.
  induction l as [|j l IH]; intros h a; cbn [fold_left].
  - destruct (Nat.eqb a k0); reflexivity.
  - rewrite IH. unfold on_slab. destruct (Nat.eqb a k0); reflexivity.
Qed.
Lemma fold_left_ext_in {A B} (f g : A -> B -> A) l a : (forall a b, In b l -> f a b = g a b) -> fold_left f l a = fold_left g l a.
Proof.
  revert a; induction l as [|b l IH]; intros a H; [reflexivity|]. cbn. rewrite H by (left; reflexivity).
  apply IH. intros; apply H; right; assumption.
Qed.
Lemma diag_fold K (v : nat -> R) M a b : (a < K)%nat ->
  fold_left (fun M j => add2 M (j - 1) (j - 1) (v j)) (seq 1 K) M a b = M a b + del a b * v (S a).
Proof.
  intros Ha. rewrite (fold_add2 (fun j => (j - 1)%nat) (fun j => (j - 1)%nat) v). rewrite lsum_seq1. f_equal.
  rewrite (rsum_single K a); [|exact Ha|].
  - replace (S a - 1)%nat with a by lia. rewrite Nat.eqb_refl. unfold del. rewrite (Nat.eqb_sym b a). destruct (Nat.eqb a b); cbn [andb]; ring.
  - intros k Hk Hka. replace (S k - 1)%nat with k by lia. destruct (Nat.eqb_spec a k); [congruence|]. reflexivity.
Qed.
Lemma hess_from_moment z K i a b : length z = S K -> (i < S K)%nat -> (a < K)%nat -> (b < K)%nat ->
  constrain_hess_from_moment z i a b =
  nth i z 0 * ((del i (S a) - nth (S a) z 0) * (del i (S b) - nth (S b) z 0) - nth (S b) z 0 * (del a b - nth (S a) z 0)).
Proof.
  intros Hz Hi Ha Hb. unfold constrain_hess_from_moment. rewrite Hz. replace (S K - 1)%nat with K by lia.
  assert (TL : forall j, nth j (tl z) 0 = nth (S j) z 0) by (intros j; destruct z; [discriminate|reflexivity]).
  rewrite (fold_slabs _ (fun k M => fun x y =>
     (fold_left (fun M j => add2 M (j - 1) (j - 1) (if Nat.eqb j k then 1 - nth j z 0 else - nth j z 0)) (seq 1 K)
       (add_col (add_row M (k - 1) (fun b => - nth b (tl z) 0)) (k - 1) (fun a => - nth a (tl z) 0))) x y * nth k z 0)).
  2:{ intros h k x. unfold scale_slab.
      rewrite (fold_left_ext_in _ (fun h j => on_slab h k (fun M => add2 M (j - 1) (j - 1) (if Nat.eqb j k then 1 - nth j z 0 else - nth j z 0))))
        by (intros h' j _; destruct (Nat.eqb j k); reflexivity).
      rewrite (fold_on_slab k (fun j M => add2 M (j - 1) (j - 1) (if Nat.eqb j k then 1 - nth j z 0 else - nth j z 0))).
      unfold on_slab. destruct (Nat.eqb x k); reflexivity. }
  2: apply seq_NoDup.
  assert (Ex : existsb (Nat.eqb i) (seq 1 K) = negb (Nat.eqb i 0)).
  { destruct i as [|i].
    - apply not_true_is_false. intros X. apply existsb_exists in X as [y [Hy Ey]]. apply Nat.eqb_eq in Ey. subst. apply in_seq in Hy. lia.
    - apply existsb_exists. exists (S i). split; [apply in_seq; lia|apply Nat.eqb_refl]. }
  rewrite Ex. destruct i as [|i]; cbn [Nat.eqb negb].
  - unfold scale_slab. cbn [Nat.eqb]. rewrite (fold_on_slab 0 (fun k M => add2 M (k - 1) (k - 1) (- nth k z 0))). cbn [Nat.eqb].
    rewrite diag_fold by exact Ha. rewrite !TL. unfold del. cbn [Nat.eqb]. destruct (Nat.eqb_spec a b) as [<-|]; ring.
  - rewrite diag_fold by exact Ha. unfold scale_slab. cbn [Nat.eqb].
    rewrite (fold_on_slab 0 (fun k M => add2 M (k - 1) (k - 1) (- nth k z 0))). cbn [Nat.eqb].
    unfold add_col, add_row. replace (S i - 1)%nat with i by lia. rewrite !TL. unfold del. cbn [Nat.eqb].
    rewrite (Nat.eqb_sym i a), (Nat.eqb_sym i b).
    destruct (Nat.eqb_spec a i) as [->|]; destruct (Nat.eqb_spec b i) as [->|]; try (rewrite !Nat.eqb_refl); try ring.
    + destruct (Nat.eqb_spec i b); [congruence|]. ring.
    + destruct (Nat.eqb_spec a i); [congruence|]. ring.
    + destruct (Nat.eqb_spec a b) as [<-|]; ring.
Qed.

(** ---- the derivatives of the softmax ---- *)
Definition sm (K j : nat) (y : list R) : R := softmax K (fun k => nth k y 0) j.
Definition dsm (K j b : nat) (y : list R) : R := sm K j y * (del j (S b) - sm K (S b) y).
Definition hsm (K j a b : nat) (y : list R) : R :=
  sm K j y * ((del j (S a) - sm K (S a) y) * (del j (S b) - sm K (S b) y) - sm K (S b) y * (del a b - sm K (S a) y)).
Lemma sm_partial K j b y : (b < K)%nat -> length y = K -> is_partial (sm K j) b y (dsm K j b y).
Proof.
  intros Hb Hy. unfold sm, softmax. fold (smS K (fun k => nth k y 0)).
  eapply is_partial_value.
  - apply (is_partial_div (fun y => exp (logits (fun k => nth k y 0) j)) (fun y => 1 + rsum K (fun k => exp (nth k y 0)))).
    + fold (smS K (fun k => nth k y 0)). apply Rgt_not_eq, smS_pos.
    + apply is_partial_exp. instantiate (1 := del j (S b)). destruct j as [|j]; cbn [logits].
      * apply is_partial_const.
      * unfold del. cbn [Nat.eqb]. apply is_partial_nth. lia.
    + apply is_partial_plus; [apply is_partial_const|].
      apply (is_partial_rsum K (fun k y => exp (nth k y 0)) b y (fun k => exp (nth k y 0) * del k b)).
      intros k Hk. apply is_partial_exp. apply is_partial_nth. lia.
  - rewrite (rsum_single K b (fun k => exp (nth k y 0) * del k b)).
    + unfold dsm, sm, softmax. fold (smS K (fun k => nth k y 0)). cbn [logits].
      replace (del b b) with 1 by (unfold del; rewrite Nat.eqb_refl; reflexivity). pose proof (smS_pos K (fun k => nth k y 0)).
      unfold smS in *. field. lra.
    + exact Hb.
    + intros k _ Hk. unfold del. apply Nat.eqb_neq in Hk. rewrite Hk. ring.
Qed.
Lemma sm_twice K j : twice_diff (sm K j) K (dsm K j) (hsm K j).
Proof.
  split.
  - intros b y Hb Hy. apply sm_partial; assumption.
  - intros a b y Ha Hb Hy. unfold dsm at 1. eapply is_partial_value.
    + apply (is_partial_mult (sm K j) (fun y => del j (S b) - sm K (S b) y)); [apply sm_partial; assumption|].
      apply (is_partial_minus (fun _ => del j (S b)) (sm K (S b))); [apply is_partial_const|apply sm_partial; assumption].
    + unfold dsm, hsm. replace (del (S b) (S a)) with (del a b) by (unfold del; cbn [Nat.eqb]; rewrite Nat.eqb_sym; reflexivity).
      destruct (Nat.eqb_spec a b) as [<-|Hne]; [ring|].
      replace (del a b) with 0 by (unfold del; apply Nat.eqb_neq in Hne; rewrite Hne; reflexivity). ring.
Qed.

(** ---- the parameter class ---- *)
Definition rmat_list (n m : nat) (A : nat -> nat -> R) : list R := flat_map (fun i => map (A i) (seq 0 m)) (seq 0 n).
Lemma rmat_data n m A : data (rmat n m A) = map Fin (rmat_list n m A).
Proof.
  unfold rmat, mk_mat, rmat_list; cbn [data]. rewrite !flat_map_concat_map. rewrite concat_map, map_map. f_equal.
  apply map_ext. intros i. rewrite map_map. reflexivity.
Qed.
Lemma rmat_list_length n m A : length (rmat_list n m A) = (n * m)%nat.
Proof. unfold rmat_list. rewrite (length_flat_map_const _ _ m); [rewrite seq_length; reflexivity|]. intros; rewrite map_length, seq_length; reflexivity. Qed.
Lemma rmat_flatten n m A : np_flatten (rmat n m A) = fvec (rmat_list n m A).
Proof.
  unfold np_flatten. change (shape (rmat n m A)) with [n; m]. rewrite rmat_data, nprod_2. unfold fvec, nd_vec.
  rewrite map_length, rmat_list_length. reflexivity.
Qed.
Lemma vec_rmat n K x : length x = (n * K)%nat -> Nd [n; K] (map Fin x) = rmat n K (fun i j => nth (i * K + j) x 0).
Proof.
  intros H. rewrite (mk_mat_eta NaN n K (Nd [n; K] (map Fin x))); [|reflexivity|].
  - apply mk_mat_ext. intros i j Hi Hj. unfold mget; cbn [data]. change (ncols (Nd [n; K] (map Fin x))) with K.
    apply nth_Fin. rewrite H. nia.
  - unfold nd_wf; cbn [data shape]. rewrite map_length, nprod_2. exact H.
Qed.
Lemma rmat_list_nth n K x : length x = (n * K)%nat -> rmat_list n K (fun i j => nth (i * K + j) x 0) = x.
Proof.
  intros H. pose proof (vec_rmat n K x H) as E. apply (f_equal (fun a => map toR (data a))) in E.
  rewrite rmat_data in E. cbn [data] in E. rewrite !toR_Fin_map in E. symmetry. exact E.
Qed.
Lemma nth_rmat_list n m A i j : (i < n)%nat -> (j < m)%nat -> nth (i * m + j) (rmat_list n m A) 0 = A i j.
Proof. intros. unfold rmat_list. apply nth_flat_map_seq; assumption. Qed.
Definition sxK (p : simplex_param) : nat := (sx_cols p - 1)%nat.
Definition sx_with (p : simplex_param) (v : arr) : simplex_param := SimplexP (sx_name p) (sx_rows p) (sx_cols p) v.
Lemma sx_free_size_eq p : sx_free_size p = (sx_rows p * sxK p)%nat.
Proof. unfold sx_free_size, sx_free_shape. rewrite nprod_2. reflexivity. Qed.
Lemma sx_vector_size_eq p : sx_vector_size p = (sx_rows p * sx_cols p)%nat.
Proof. unfold sx_vector_size, sx_shape. rewrite nprod_2. reflexivity. Qed.
Lemma simplex_set_ok p v : shape v = sx_shape p -> simplex_set p v = (sx_with p v, Ok tt).
Proof. intros H. unfold simplex_set. rewrite H, shape_eqb_refl. reflexivity. Qed.
Lemma np_len_fvec x : np_len (fvec x) = Ok (length x).
Proof. unfold np_len, fvec, nd_vec; cbn [shape]. rewrite map_length. reflexivity. Qed.
Lemma simplex_set_free_fin p x : (0 < sx_cols p)%nat -> length x = sx_free_size p ->
  simplex_set_free p (fvec x) =
    (sx_with p (rmat (sx_rows p) (sx_cols p) (fun i => softmax (sxK p) (fun k => nth (i * sxK p + k) x 0))), Ok tt).
Proof.
  intros Hc Hx. unfold simplex_set_free. rewrite np_len_fvec, Hx, Nat.eqb_refl. cbn [negb].
  unfold np_reshape. rewrite fvec_size, Hx. unfold sx_free_size at 1. rewrite Nat.eqb_refl. cbn [rbind].
  unfold fvec, nd_vec; cbn [data]. unfold sx_free_shape. fold (sxK p). rewrite vec_rmat by (rewrite Hx; apply sx_free_size_eq).
  rewrite constrain_simplex_rmat. rewrite simplex_set_ok.
  - f_equal. f_equal. unfold sxK. replace (S (sx_cols p - 1)) with (sx_cols p) by lia. reflexivity.
  - cbn. unfold sx_shape, sxK. replace (S (sx_cols p - 1)) with (sx_cols p) by lia. reflexivity.
Qed.
Lemma simplex_set_free_roundtrip p x : (0 < sx_cols p)%nat -> length x = sx_free_size p ->
  exists p' Z, simplex_set_free p (fvec x) = (p', Ok tt) /\ simplex_get p' = rmat (sx_rows p) (sx_cols p) Z /\
    (forall i, (i < sx_rows p)%nat -> interior_simplex (sx_cols p) (Z i)) /\
    (forall i j, (i < sx_rows p)%nat -> (j < sx_cols p)%nat -> Z i j <= 1 /\ Z i j = softmax (sx_cols p - 1) (fun k => nth (i * (sx_cols p - 1) + k) x 0) j) /\
    simplex_get_free p' = Ok (fvec x).
Proof.
  intros Hc Hx. rewrite simplex_set_free_fin by assumption.
  assert (E : sx_cols p = S (sxK p)) by (unfold sxK; lia).
  eexists. eexists. split; [reflexivity|]. split; [reflexivity|]. split; [|split].
  - intros i Hi. rewrite E. split; [intros; apply softmax_pos|apply softmax_sum].
  - intros i j Hi Hj. split; [apply softmax_le1; lia|]. reflexivity.
  - unfold simplex_get_free, sx_with; cbn [sx_val]. rewrite E.
    destruct (unconstrain_constrain (sx_rows p) (sxK p) (fun i j => nth (i * sxK p + j) x 0)) as [Z [C [_ [EZ U]]]].
    rewrite (rmat_ext _ _ _ Z).
    + rewrite U. cbn [rbind]. f_equal. rewrite rmat_flatten. rewrite rmat_list_nth; [reflexivity|]. rewrite Hx. apply sx_free_size_eq.
    + intros i j Hi Hj. rewrite EZ by assumption. reflexivity.
Qed.
Lemma simplex_value_roundtrip p Z : (0 < sx_cols p)%nat -> simplex_get p = rmat (sx_rows p) (sx_cols p) Z ->
  (forall i j, (i < sx_rows p)%nat -> (j < sx_cols p)%nat -> 0 < Z i j) ->
  exists f p', simplex_get_free p = Ok (fvec f) /\ length f = sx_free_size p /\ simplex_set_free p (fvec f) = (p', Ok tt) /\
    simplex_get p' = rmat (sx_rows p) (sx_cols p) (fun i j => Z i j / rsum (sx_cols p) (Z i)) /\
    ((forall i, (i < sx_rows p)%nat -> rsum (sx_cols p) (Z i) = 1) -> p' = p).
Proof.
  intros Hc HZ HP. assert (E : sx_cols p = S (sxK p)) by (unfold sxK; lia).
  destruct (constrain_unconstrain (sx_rows p) (sxK p) Z) as [A [U C]]; [rewrite <- E; exact HP|].
  exists (rmat_list (sx_rows p) (sxK p) A). eexists. split; [|split; [|split; [|split]]].
  - unfold simplex_get_free. unfold simplex_get in HZ. rewrite HZ, E, U. cbn [rbind]. rewrite rmat_flatten. reflexivity.
  - rewrite rmat_list_length. symmetry. apply sx_free_size_eq.
  - apply simplex_set_free_fin; [exact Hc|]. rewrite rmat_list_length. symmetry. apply sx_free_size_eq.
  - cbn [simplex_get sx_with sx_val]. 
    rewrite constrain_simplex_rmat in C. apply (f_equal (fun r => match r with Ok a => a | Raise _ => Nd [] [] end)) in C. rewrite <- E in C.
    rewrite <- C. apply rmat_ext. intros i j Hi Hj. apply softmax_ext; [|lia].
    intros k Hk. apply nth_rmat_list; assumption.
  - intros HS. rewrite constrain_simplex_rmat in C. apply (f_equal (fun r => match r with Ok a => a | Raise _ => Nd [] [] end)) in C. rewrite <- E in C.
    destruct p as [nm r c v]. unfold sx_with. cbn [sx_name sx_rows sx_cols] in *. f_equal.
    cbn in HZ. rewrite HZ. transitivity (rmat r c (fun i j => Z i j / rsum c (Z i))).
    + rewrite <- C. apply rmat_ext. intros i j Hi Hj. apply softmax_ext; [|lia]. intros k Hk. apply nth_rmat_list; assumption.
    + apply rmat_ext. intros i j Hi Hj. rewrite HS by exact Hi. field.
Qed.
Lemma simplex_bad_length p a :
  (forall m r, shape a = m :: r -> m <> sx_free_size p -> simplex_set_free p a = (p, Raise ValueError)) /\
  (forall m r, shape a = m :: r -> m <> sx_vector_size p -> simplex_set_vector p a = (p, Raise ValueError)).
Proof.
  split; intros m r Hs Hm; unfold simplex_set_free, simplex_set_vector, np_len; rewrite Hs; apply Nat.eqb_neq in Hm; rewrite Hm; reflexivity.
Qed.
Lemma simplex_set_vector_any p (l : list num) : length l = sx_vector_size p ->
  exists p', simplex_set_vector p (nd_vec l) = (p', Ok tt) /\ simplex_get p' = Nd (sx_shape p) l /\ simplex_get_vector p' = Ok (nd_vec l).
Proof.
  intros H. unfold simplex_set_vector, np_len; cbn [shape nd_vec]. rewrite H, Nat.eqb_refl. cbn [negb].
  unfold np_reshape. rewrite nd_size_vec, H. unfold sx_vector_size at 1. rewrite Nat.eqb_refl. rewrite simplex_set_ok by reflexivity.
  eexists. split; [reflexivity|]. split; [reflexivity|]. unfold simplex_get_vector, sx_with; cbn [sx_val].
  unfold np_flatten; cbn [shape data]. fold (sx_vector_size p). rewrite <- H. reflexivity.
Qed.
Lemma simplex_vector_roundtrip p : nd_wf (sx_val p) -> shape (sx_val p) = sx_shape p ->
  exists v, simplex_get_vector p = Ok v /\ shape v = [sx_vector_size p] /\ simplex_set_vector p v = (p, Ok tt).
Proof.
  intros Hw Hs. eexists. split; [reflexivity|]. unfold np_flatten. rewrite Hs. fold (sx_vector_size p). split; [reflexivity|].
  unfold simplex_set_vector, np_len; cbn [shape]. rewrite Nat.eqb_refl. cbn [negb]. unfold np_reshape, nd_size; cbn [shape data].
  rewrite nprod_1. unfold sx_vector_size. rewrite Nat.eqb_refl. rewrite simplex_set_ok by reflexivity. f_equal.
  rewrite <- Hs. destruct p as [nm r c [s d]]. reflexivity.
Qed.

(** ---- layout of the derivatives ---- *)
Lemma ravel2 r c n m : ravel [r; c] [n; m] = (r * m + c)%nat.
Proof. cbn [ravel]. rewrite nprod_1, nprod_nil. lia. Qed.
Lemma nth_ravel2 row k n m K : (k < K)%nat -> nth k (map (fun c => ravel [row; c] [n; m]) (seq 0 K)) 0%nat = (row * m + k)%nat.
Proof.
  intros H. rewrite (nth_indep _ _ (ravel [row; 0%nat] [n; m])) by (rewrite map_length, seq_length; exact H).
  rewrite (map_nth (fun c => ravel [row; c] [n; m])). rewrite seq_nth by exact H. apply ravel2.
Qed.
Lemma block_eqb m o a o' b : (a < m)%nat -> (b < m)%nat -> Nat.eqb (o * m + a) (o' * m + b) = (Nat.eqb o o' && Nat.eqb a b)%bool.
Proof.
  intros Ha Hb. destruct (Nat.eqb_spec o o') as [<-|Hne]; cbn [andb].
  - destruct (Nat.eqb_spec a b) as [<-|]; [apply Nat.eqb_refl|apply Nat.eqb_neq; lia].
  - apply Nat.eqb_neq. destruct (Nat.lt_trichotomy o o') as [L|[L|L]]; [nia|contradiction|nia].
Qed.
Lemma rect_block_get sh nr C (V : nat -> nat -> R) n1 n2 o1 o2 o o' a b :
  (a < nr)%nat -> (b < C)%nat ->
  coo_get (Coo sh (flat_map (fun r => map (fun c =>
      ((nth r (map (fun c => ravel [o1; c] [n1; nr]) (seq 0 nr)) 0%nat, nth c (map (fun c => ravel [o2; c] [n2; C]) (seq 0 C)) 0%nat), V r c)) (seq 0 C)) (seq 0 nr)))
    (o * nr + a) (o' * C + b) = if (Nat.eqb o1 o && Nat.eqb o2 o')%bool then V a b else 0.
Proof.
  intros Ha Hb. rewrite coo_get_flat_map, lsum_map_seq.
  rewrite (rsum_ext nr _ (fun r => rsum C (fun c => if ((Nat.eqb o1 o && Nat.eqb r a) && (Nat.eqb o2 o' && Nat.eqb c b))%bool then V r c else 0))).
  2:{ intros r Hr. rewrite coo_get_map, lsum_map_seq. apply rsum_ext. intros c Hc. rewrite !nth_ravel2 by assumption.
      rewrite !block_eqb by assumption. reflexivity. }
  rewrite (rsum_single nr a).
  - rewrite (rsum_single C b).
    + rewrite !Nat.eqb_refl, !andb_true_r. reflexivity.
    + exact Hb.
    + intros c _ Hc. apply Nat.eqb_neq in Hc. rewrite Hc, !andb_false_r. reflexivity.
  - exact Ha.
  - intros r _ Hr. apply rsum_zero. intros c _. apply Nat.eqb_neq in Hr. rewrite Hr, andb_false_r. reflexivity.
Qed.
Lemma simplex_row_moment_fin p x row : (0 < sx_cols p)%nat -> length x = sx_free_size p -> (row < sx_rows p)%nat ->
  simplex_row_moment p x row =
  Ok (map (fun j => sm (sxK p) j (slice x (row * sxK p) (row * sxK p + sxK p))) (seq 0 (sx_cols p))).
Proof.
  intros Hc Hx Hr. rewrite sx_free_size_eq in Hx. unfold simplex_row_moment, sx_free_inds.
  assert (E : sx_cols p = S (sxK p)) by (unfold sxK; lia).
  rewrite (rmapM_ok _ (fun i => nth i x 0)).
  2:{ intros i Hi. apply in_map_iff in Hi as [c [<- Hc']]. apply in_seq in Hc'. unfold sx_free_shape. fold (sxK p). rewrite ravel2.
      unfold getitem. rewrite (nth_error_nth' x 0); [reflexivity|]. fold (sxK p) in Hc'. nia. }
  cbn [rbind]. fold (sxK p). unfold sx_free_shape. fold (sxK p).
  rewrite (map_map (fun c => ravel [row; c] [sx_rows p; sxK p]) (fun i => nth i x 0)).
  rewrite (map_ext_in _ (fun k => nth k (slice x (row * sxK p) (row * sxK p + sxK p)) 0)).
  2:{ intros k Hk. apply in_seq in Hk. rewrite ravel2, nth_slice by lia. reflexivity. }
  assert (L : length (slice x (row * sxK p) (row * sxK p + sxK p)) = sxK p) by (rewrite slice_length; nia).
  assert (M : map (fun k => nth k (slice x (row * sxK p) (row * sxK p + sxK p)) 0) (seq 0 (sxK p)) = slice x (row * sxK p) (row * sxK p + sxK p)).
  { apply (nd_eq_nth _ _ 0); [rewrite map_length, seq_length; symmetry; exact L|].
    intros i Hi. rewrite map_length, seq_length in Hi.
    rewrite (nth_indep _ 0 (nth 0 (slice x (row * sxK p) (row * sxK p + sxK p)) 0)) by (rewrite map_length, seq_length; exact Hi).
    rewrite (map_nth (fun k => nth k (slice x (row * sxK p) (row * sxK p + sxK p)) 0)). rewrite seq_nth by exact Hi. reflexivity. }
  rewrite M. unfold constrain_simplex_vector. cbn [nd_vec shape data]. rewrite map_length, L.
  rewrite vec_rmat by lia. rewrite constrain_simplex_rmat. cbn [rbind]. rewrite rmat_flatten. unfold fvec, nd_vec; cbn [data].
  rewrite toR_Fin_map. unfold rmat_list. cbn [seq flat_map]. rewrite app_nil_r. rewrite E. reflexivity.
Qed.
Lemma simplex_f2v p y : (0 < sx_cols p)%nat -> length y = sx_free_size p ->
  simplex_free_to_vector p y = rmat_list (sx_rows p) (sx_cols p) (fun i => softmax (sxK p) (fun k => nth (i * sxK p + k) y 0)).
Proof.
  intros Hc Hy. unfold simplex_free_to_vector. change (nd_vec (map Fin y)) with (fvec y). rewrite simplex_set_free_fin by assumption.
  unfold simplex_get_vector, sx_with; cbn [sx_val]. rewrite rmat_flatten. unfold fvec, nd_vec; cbn [data]. apply toR_Fin_map.
Qed.
Lemma simplex_f2v_nth p y i j : length y = sx_free_size p -> (i < sx_rows p)%nat -> (j < sx_cols p)%nat ->
  nth (i * sx_cols p + j) (simplex_free_to_vector p y) 0 = sm (sxK p) j (slice y (i * sxK p) (i * sxK p + sxK p)).
Proof.
  intros Hy Hi Hj. rewrite simplex_f2v by (try assumption; lia). rewrite nth_rmat_list by assumption.
  apply softmax_ext; [|unfold sxK; lia]. intros k Hk. rewrite nth_slice by lia. reflexivity.
Qed.
Lemma simplex_twice p i j : (i < sx_rows p)%nat -> (j < sx_cols p)%nat ->
  twice_diff (fun y => nth (i * sx_cols p + j) (simplex_free_to_vector p y) 0) (sx_free_size p)
    (fun b y => if inrange (i * sxK p) (sxK p) b then dsm (sxK p) j (b - i * sxK p) (slice y (i * sxK p) (i * sxK p + sxK p)) else 0)
    (fun a b y => if (inrange (i * sxK p) (sxK p) a && inrange (i * sxK p) (sxK p) b)%bool
        then hsm (sxK p) j (a - i * sxK p) (b - i * sxK p) (slice y (i * sxK p) (i * sxK p + sxK p)) else 0).
Proof.
  intros Hi Hj. apply (twice_diff_ext (fun y => sm (sxK p) j (slice y (i * sxK p) (i * sxK p + sxK p)))).
  - intros y Hy. symmetry. apply simplex_f2v_nth; assumption.
  - apply (twice_diff_slice (sm (sxK p) j)); [rewrite sx_free_size_eq; nia|]. apply sm_twice.
Qed.
Lemma split_index' m n k : (k < n * m)%nat -> exists o a, k = (o * m + a)%nat /\ (o < n)%nat /\ (a < m)%nat.
Proof. intros H. destruct (split_index m n k) as [o [a [E [A B]]]]; [lia|]. exists o, a. splits; try assumption. lia. Qed.
Lemma inrange_block' vs o o' a : (a < vs)%nat -> inrange (o * vs) vs (o' * vs + a) = Nat.eqb o o'.
Proof. intros H. rewrite (Nat.mul_comm o), (Nat.mul_comm o'). apply inrange_block, H. Qed.
Lemma nth_sm_list K m y j : (j < m)%nat -> nth j (map (fun j => sm K j y) (seq 0 m)) 0 = sm K j y.
Proof.
  intros H. rewrite (nth_indep _ _ (sm K 0 y)) by (rewrite map_length, seq_length; exact H).
  rewrite (map_nth (fun j => sm K j y)). rewrite seq_nth by exact H. reflexivity.
Qed.
Lemma simplex_jac p x : (0 < sx_cols p)%nat -> length x = sx_free_size p ->
  exists J, simplex_free_to_vector_jac p x = Ok J /\
    jacobian_of (simplex_free_to_vector p) (sx_vector_size p) (sx_free_size p) x J.
Proof.
  intros Hc Hx. assert (E : sx_cols p = S (sxK p)) by (unfold sxK; lia).
  unfold simplex_free_to_vector_jac.
  rewrite (rmapM_ok _ (fun row => flat_map (fun vec_col => map (fun free_col =>
      ((nth vec_col (map (fun c => ravel [row; c] [sx_rows p; sx_cols p]) (seq 0 (sx_cols p))) 0%nat,
        nth free_col (map (fun c => ravel [row; c] [sx_rows p; sxK p]) (seq 0 (sxK p))) 0%nat),
       constrain_grad_from_moment (map (fun j => sm (sxK p) j (slice x (row * sxK p) (row * sxK p + sxK p))) (seq 0 (sx_cols p))) vec_col free_col))
     (seq 0 (sxK p))) (seq 0 (sx_cols p)))).
  2:{ intros row Hr. apply in_seq in Hr. rewrite simplex_row_moment_fin by (try assumption; lia). reflexivity. }
  cbn [rbind]. eexists. split; [reflexivity|]. split; [reflexivity|]. intros v f Hv Hf.
  rewrite sx_vector_size_eq in Hv. pose proof Hf as Hf'. rewrite sx_free_size_eq in Hf'.
  destruct (split_index' (sx_cols p) (sx_rows p) v Hv) as [i [j [-> [Hi Hj]]]].
  destruct (split_index' (sxK p) (sx_rows p) f Hf') as [i' [b [-> [Hi' Hb]]]].
  eapply is_partial_value; [apply (proj1 (simplex_twice p i j Hi Hj)); assumption|]. cbv beta.
  rewrite inrange_block' by exact Hb. rewrite <- flat_map_concat_map, coo_get_flat_map, lsum_map_seq.
  symmetry. etransitivity.
  { apply rsum_ext. intros row Hrow.
    apply (rect_block_get _ (sx_cols p) (sxK p) (constrain_grad_from_moment (map (fun j => sm (sxK p) j (slice x (row * sxK p) (row * sxK p + sxK p))) (seq 0 (sx_cols p))))
        (sx_rows p) (sx_rows p) row row i i' j b Hj Hb). }
  rewrite (rsum_single (sx_rows p) i).
  - rewrite Nat.eqb_refl. cbn [andb]. destruct (Nat.eqb_spec i i') as [<-|]; [|reflexivity].
    rewrite (grad_from_moment _ (sxK p)) by (try assumption; rewrite map_length, seq_length; exact E).
    rewrite !nth_sm_list by lia. unfold dsm. replace (i * sxK p + b - i * sxK p)%nat with b by lia. reflexivity.
  - exact Hi.
  - intros r _ Hr. apply Nat.eqb_neq in Hr. rewrite Hr. reflexivity.
Qed.
Lemma simplex_hess p x : (0 < sx_cols p)%nat -> length x = sx_free_size p ->
  exists Hs, simplex_free_to_vector_hess p x = Ok Hs /\
    hessians_of (simplex_free_to_vector p) (sx_vector_size p) (sx_free_size p) x Hs.
Proof.
  intros Hc Hx. assert (E : sx_cols p = S (sxK p)) by (unfold sxK; lia).
  unfold simplex_free_to_vector_hess.
  set (HM := fun row vec_col => Coo (sx_free_size p, sx_free_size p)
              (flat_map (fun free_col1 => map (fun free_col2 =>
                 ((nth free_col1 (map (fun c => ravel [row; c] [sx_rows p; sxK p]) (seq 0 (sxK p))) 0%nat,
                   nth free_col2 (map (fun c => ravel [row; c] [sx_rows p; sxK p]) (seq 0 (sxK p))) 0%nat),
                  constrain_hess_from_moment (map (fun j => sm (sxK p) j (slice x (row * sxK p) (row * sxK p + sxK p))) (seq 0 (sx_cols p))) vec_col free_col1 free_col2))
                 (seq 0 (sxK p))) (seq 0 (sxK p)))).
  rewrite (rmapM_ok _ (fun row => map (HM row) (seq 0 (sx_cols p)))).
  2:{ intros row Hr. apply in_seq in Hr. rewrite simplex_row_moment_fin by (try assumption; lia). reflexivity. }
  cbn [rbind]. eexists. split; [reflexivity|]. rewrite <- flat_map_concat_map. split.
  - rewrite (length_flat_map_const _ _ (sx_cols p)); [rewrite seq_length; symmetry; apply sx_vector_size_eq|].
    intros; rewrite map_length, seq_length; reflexivity.
  - intros v Hv. rewrite sx_vector_size_eq in Hv. destruct (split_index' (sx_cols p) (sx_rows p) v Hv) as [i [j [-> [Hi Hj]]]].
    exists (HM i j). splits.
    + rewrite (nth_error_nth' _ (HM 0%nat 0%nat)).
      * f_equal. apply (nth_flat_map_seq HM); assumption.
      * rewrite (length_flat_map_const _ _ (sx_cols p)); [rewrite seq_length; exact Hv|]. intros; rewrite map_length, seq_length; reflexivity.
    + reflexivity.
    + intros fa fb Hfa Hfb. pose proof Hfa as Hfa'. pose proof Hfb as Hfb'. rewrite sx_free_size_eq in Hfa', Hfb'.
      destruct (split_index' (sxK p) (sx_rows p) fa Hfa') as [ia [a [-> [Hia Ha]]]].
      destruct (split_index' (sxK p) (sx_rows p) fb Hfb') as [ib [b [-> [Hib Hb]]]].
      eapply is_partial2_value; [apply (twice_diff_partial2 _ _ _ _ _ _ _ (simplex_twice p i j Hi Hj)); assumption|]. cbv beta.
      rewrite !inrange_block' by assumption. unfold HM.
      rewrite (rect_block_get _ (sxK p) (sxK p) (fun free_col1 free_col2 => constrain_hess_from_moment (map (fun j => sm (sxK p) j (slice x (i * sxK p) (i * sxK p + sxK p))) (seq 0 (sx_cols p))) j free_col1 free_col2)) by assumption.
      destruct (Nat.eqb_spec i ia) as [<-|]; [|reflexivity]. destruct (Nat.eqb_spec i ib) as [<-|]; [|reflexivity]. cbn [andb].
      rewrite (hess_from_moment _ (sxK p)) by (try assumption; try (rewrite map_length, seq_length; exact E); lia).
      rewrite !nth_sm_list by lia. unfold hsm.
      replace (i * sxK p + a - i * sxK p)%nat with a by lia. replace (i * sxK p + b - i * sxK p)%nat with b by lia. reflexivity.
Qed.

(** ---- the free-standing functions ---- *)
Lemma simplex_vector_fin x : constrain_simplex_vector (fvec x) = Ok (fvec (map (fun j => sm (length x) j x) (seq 0 (S (length x))))).
Proof.
  unfold constrain_simplex_vector, fvec, nd_vec; cbn [shape data]. rewrite map_length. rewrite vec_rmat by lia.
  rewrite constrain_simplex_rmat. cbn [rbind]. rewrite rmat_flatten. unfold fvec, nd_vec. unfold rmat_list. cbn [seq flat_map].
  rewrite app_nil_r. reflexivity.
Qed.
Lemma simplex_vector_derivs (F : list R -> list R) x z :
  (forall y, length y = length x -> constrain_simplex_vector (fvec y) = Ok (fvec (F y))) ->
  constrain_simplex_vector (fvec x) = Ok (fvec z) ->
  (forall i j, (i < S (length x))%nat -> (j < length x)%nat -> is_partial (fun y => nth i (F y) 0) j x (constrain_grad_from_moment z i j)) /\
  (forall k i j, (k < S (length x))%nat -> (i < length x)%nat -> (j < length x)%nat ->
     is_partial2 (fun y => nth k (F y) 0) i j x (constrain_hess_from_moment z k i j)).
Proof.
  intros HF Hz. set (K := length x).
  assert (EF : forall y, length y = K -> F y = map (fun j => sm K j y) (seq 0 (S K))).
  { intros y Hy. pose proof (HF y Hy) as E. rewrite simplex_vector_fin in E. rewrite Hy in E.
    apply (f_equal (fun r => match r with Ok a => map toR (data a) | Raise _ => [] end)) in E.
    unfold fvec, nd_vec in E; cbn [data] in E. rewrite !toR_Fin_map in E. symmetry. exact E. }
  assert (Ez : z = map (fun j => sm K j x) (seq 0 (S K))).
  { rewrite simplex_vector_fin in Hz. fold K in Hz.
    apply (f_equal (fun r => match r with Ok a => map toR (data a) | Raise _ => [] end)) in Hz.
    unfold fvec, nd_vec in Hz; cbn [data] in Hz. rewrite !toR_Fin_map in Hz. symmetry. exact Hz. }
  assert (T : forall k, (k < S K)%nat -> twice_diff (fun y => nth k (F y) 0) K (dsm K k) (hsm K k)).
  { intros k Hk. apply (twice_diff_ext (sm K k)); [|apply sm_twice]. intros y Hy. rewrite EF by exact Hy. symmetry. apply nth_sm_list, Hk. }
  assert (Lz : length z = S K) by (rewrite Ez, map_length, seq_length; reflexivity).
  split.
  - intros i j Hi Hj. eapply is_partial_value; [apply (proj1 (T i Hi)); [exact Hj|reflexivity]|].
    rewrite (grad_from_moment z K) by assumption. rewrite Ez. rewrite !nth_sm_list by (fold K in Hj; lia). reflexivity.
  - intros k i j Hk Hi Hj. eapply is_partial2_value; [apply (twice_diff_partial2 _ _ _ _ _ _ _ (T k Hk)); [reflexivity|exact Hi|exact Hj]|].
    rewrite (hess_from_moment z K) by assumption. rewrite Ez. rewrite !nth_sm_list by (fold K in Hj, Hi; lia). reflexivity.
Qed.
