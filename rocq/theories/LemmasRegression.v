(** Proofs for regression_utils.py. *)
From Coq Require Import Reals List Arith Lia Lra Bool.
From Verif Require Import Res Nd RSum ModelNumpy ModelRegression SpecMatrix SpecExpFam SpecRegression LemmasPosDef LemmasNumpy LemmasExpFam.
Import List ListNotations.
Set Bullet Behavior "Strict Subproofs".
Open Scope nat_scope.

(** ---- labels of einsum ---- *)
Lemma lab_dim_app l l1 l2 s1 s2 : length l1 = length s1 ->
  lab_dim l (l1 ++ l2) (s1 ++ s2) = match lab_dim l l1 s1 with Some x => Some x | None => lab_dim l l2 s2 end.
Proof.
  unfold lab_dim. revert s1. induction l1 as [|a l1 IH]; intros [|x s1] E; try discriminate E; [reflexivity|].
  cbn [app combine find fst]. destruct (a =? l); [reflexivity|]. apply IH. cbn in E; lia.
Qed.
Lemma lab_dim_one l a x : lab_dim l [a] [x] = if a =? l then Some x else None.
Proof. unfold lab_dim. cbn. destruct (a =? l); reflexivity. Qed.
Lemma lab_dim_seq_in s : forall a k, k < length s -> lab_dim (a + k) (seq a (length s)) s = Some (nth k s 0).
Proof.
  induction s as [|x s IH]; intros a k H; [cbn in H; lia|]. unfold lab_dim in *. cbn [length seq combine find fst]. destruct k as [|k].
  - replace (a + 0) with a by lia. rewrite Nat.eqb_refl. reflexivity.
  - replace (a =? a + S k) with false by (symmetry; apply Nat.eqb_neq; lia). replace (a + S k) with (S a + k) by lia. rewrite IH by (cbn in H; lia). reflexivity.
Qed.
Lemma lab_dim_seq_out s : forall a l, l < a \/ a + length s <= l -> lab_dim l (seq a (length s)) s = None.
Proof.
  induction s as [|x s IH]; intros a l H; [reflexivity|]. unfold lab_dim in *. cbn [length seq combine find fst].
  replace (a =? l) with false by (symmetry; apply Nat.eqb_neq; cbn in H; lia). apply IH. cbn in H; lia.
Qed.
Lemma lab_val_dim ls idx l : lab_val ls idx l = match lab_dim l ls idx with Some v => v | None => 0 end.
Proof. unfold lab_val, lab_dim. destruct (find _ _); reflexivity. Qed.
Lemma opt_seq_app {A} (l m : list (option A)) r q : opt_seq l = Some r -> opt_seq m = Some q -> opt_seq (l ++ m) = Some (r ++ q).
Proof.
  revert r. induction l as [|[x|] l IH]; intros r E1 E2; cbn in *; try discriminate; [injection E1 as <-; exact E2|].
  destruct (opt_seq l) as [r'|]; [|discriminate]. cbn in E1. injection E1 as <-. rewrite (IH r' eq_refl E2). reflexivity.
Qed.
Lemma opt_seq_seq (f : nat -> option nat) r : forall a, (forall k, k < length r -> f (a + k) = Some (nth k r 0)) -> opt_seq (map f (seq a (length r))) = Some r.
Proof.
  induction r as [|x r IH]; intros a H; [reflexivity|]. cbn [length seq map opt_seq].
  assert (H0 := H 0 ltac:(cbn; lia)). replace (a + 0) with a in H0 by lia. rewrite H0. cbn [nth].
  rewrite IH; [reflexivity|]. intros k Hk. replace (S a + k) with (a + S k) by lia. rewrite H by (cbn; lia). reflexivity.
Qed.
Lemma map_seq_list (f : nat -> nat) r : forall a, (forall k, k < length r -> f (a + k) = nth k r 0) -> map f (seq a (length r)) = r.
Proof.
  induction r as [|x r IH]; intros a H; [reflexivity|]. cbn [length seq map].
  assert (H0 := H 0 ltac:(cbn; lia)). replace (a + 0) with a in H0 by lia. rewrite H0. cbn [nth]. f_equal.
  apply IH. intros k Hk. replace (S a + k) with (a + S k) by lia. rewrite H by (cbn; lia). reflexivity.
Qed.
Lemma clampi_index s i : In i (product s) -> clampi s i = i.
Proof.
  revert i. induction s as [|n s IH]; intros i H; [destruct H as [<-|[]]; reflexivity|].
  apply in_product_cons_inv in H as [k [r [-> [Hk Hr]]]]. unfold clampi in *. cbn [map2]. rewrite IH by exact Hr. f_equal. destruct (n =? 1) eqn:E; [apply Nat.eqb_eq in E; lia|reflexivity].
Qed.
Lemma existsb_eqb_In l out : existsb (Nat.eqb l) out = true <-> In l out.
Proof. rewrite existsb_exists. split; [intros [x [H E]]; apply Nat.eqb_eq in E; subst; exact H|intros H; exists l; split; [exact H|apply Nat.eqb_refl]]. Qed.
Lemma existsb_eqb_not l out : ~ In l out -> existsb (Nat.eqb l) out = false.
Proof. intros H. destruct (existsb (Nat.eqb l) out) eqn:E; [|reflexivity]. apply existsb_eqb_In in E. contradiction. Qed.
Lemma filter_none {A} (f : A -> bool) l : (forall x, In x l -> f x = false) -> filter f l = [].
Proof. induction l as [|x l IH]; intros H; [reflexivity|]. cbn. rewrite H by (left; reflexivity). apply IH. intros; apply H; right; assumption. Qed.
Lemma filter_all {A} (f : A -> bool) l : (forall x, In x l -> f x = true) -> filter f l = l.
Proof. induction l as [|x l IH]; intros H; [reflexivity|]. cbn. rewrite H by (left; reflexivity). f_equal. apply IH. intros; apply H; right; assumption. Qed.
Lemma nodup_app (l m : list nat) : NoDup m -> nodup Nat.eq_dec (l ++ m) = filter (fun x => negb (existsb (Nat.eqb x) m)) (nodup Nat.eq_dec l) ++ m.
Proof.
  intros N. induction l as [|x l IH]; [cbn; apply nodup_fixed_point; exact N|]. cbn [app nodup].
  destruct (in_dec Nat.eq_dec x (l ++ m)) as [H|H]; destruct (in_dec Nat.eq_dec x l) as [H'|H'].
  - exact IH.
  - apply in_app_iff in H as [H|H]; [contradiction|]. cbn [filter]. rewrite (proj2 (existsb_eqb_In x m) H). cbn [negb]. exact IH.
  - exfalso. apply H. apply in_app_iff. left; exact H'.
  - cbn [filter]. rewrite existsb_eqb_not by (intros C; apply H, in_app_iff; right; exact C). cbn [negb app]. f_equal. exact IH.
Qed.
Lemma dupfree_true l : NoDup l -> (length (nodup Nat.eq_dec l) =? length l) = true.
Proof. intros N. rewrite nodup_fixed_point by exact N. apply Nat.eqb_refl. Qed.
Lemma NoDup_app2 (l m : list nat) : NoDup l -> NoDup m -> (forall x, In x l -> ~ In x m) -> NoDup (l ++ m).
Proof.
  intros Hl Hm H. induction Hl as [|x l Nx Hl IH]; [exact Hm|]. cbn. constructor.
  - rewrite in_app_iff. intros [C|C]; [contradiction|]. apply (H x); [left; reflexivity|exact C].
  - apply IH. intros y Hy. apply H. right; exact Hy.
Qed.
(** einsum when every index range is known *)
Lemma einsum_value x lx y ly out rest so sr : length lx = length (shape x) -> length ly = length (shape y) -> NoDup lx -> NoDup ly -> NoDup out ->
  (forall l, In l out -> In l lx \/ In l ly) ->
  filter (fun l => negb (existsb (Nat.eqb l) out)) (nodup Nat.eq_dec (lx ++ ly)) = rest ->
  opt_seq (map (fun l => lab_dims l lx (shape x) ly (shape y)) out) = Some so ->
  opt_seq (map (fun l => lab_dims l lx (shape x) ly (shape y)) rest) = Some sr ->
  einsum x lx y ly out = Ok (mk_nd so (fun idx => lsum (map (fun jdx =>
     let env := lab_val (out ++ rest) (idx ++ jdx) in
     (nd_at 0%R x (clampi (shape x) (map env lx)) * nd_at 0%R y (clampi (shape y) (map env ly)))%R) (product sr)))).
Proof.
  intros L1 L2 N1 N2 N3 S R E1 E2. unfold einsum, np_einsum. rewrite !dupfree_true by assumption. rewrite L1, L2, !Nat.eqb_refl. cbn [andb].
  replace (forallb (fun l => existsb (Nat.eqb l) (nodup Nat.eq_dec (lx ++ ly))) out) with true.
  - rewrite R, E1, E2. reflexivity.
  - symmetry. apply forallb_forall. intros l Hl. apply existsb_eqb_In. apply nodup_In. apply in_app_iff. apply S, Hl.
Qed.
Lemma lab_head b l ls s : l < length b -> lab_dim l (seq 0 (length b) ++ ls) (b ++ s) = Some (nth l b 0).
Proof. intros H. rewrite lab_dim_app by apply seq_length. change l with (0 + l) at 1. rewrite lab_dim_seq_in by exact H. reflexivity. Qed.
Lemma lab_tail b l ls s : length b <= l -> lab_dim l (seq 0 (length b) ++ ls) (b ++ s) = lab_dim l ls s.
Proof. intros H. rewrite lab_dim_app by apply seq_length. rewrite lab_dim_seq_out by (right; lia). reflexivity. Qed.
Lemma shape_neg_at {A} (a : nd A) b s : shape a = b ++ s -> forall k, 0 < k <= length s -> shape_neg a k = Ok (nth (length s - k) s 0).
Proof.
  intros E k H. unfold shape_neg. rewrite E, app_length. rewrite nth_error_app2 by lia. replace (length b + length s - k - length b) with (length s - k) by lia.
  rewrite (nth_error_nth' s 0) by lia. replace (k <=? length b + length s) with true by (symmetry; apply Nat.leb_le; lia). reflexivity.
Qed.
Lemma shape_neg_short {A} (a : nd A) k : length (shape a) < k -> shape_neg a k = Raise IndexError.
Proof. intros H. unfold shape_neg. destruct (nth_error _ _); [|reflexivity]. replace (k <=? length (shape a)) with false by (symmetry; apply Nat.leb_gt; lia). reflexivity. Qed.
Lemma firstn_app_eq {A} (l m : list A) n : length l = n -> firstn n (l ++ m) = l.
Proof. intros <-. rewrite firstn_app, Nat.sub_diag, firstn_all. cbn. apply app_nil_r. Qed.
Lemma nth_app_at {A} (l m : list A) n k d : length l = n -> nth (n + k) (l ++ m) d = nth k m d.
Proof. intros <-. rewrite app_nth2 by lia. f_equal. lia. Qed.
Lemma in_stack2 b n m i j k : In i (product b) -> j < n -> k < m -> In (i ++ [j; k]) (product (b ++ [n; m])).
Proof. intros Hi Hj Hk. apply in_product_app. exists i, [j; k]. split; [reflexivity|]. split; [exact Hi|]. apply in_product_2. auto. Qed.
Lemma in_stack2_inv b n m idx : In idx (product (b ++ [n; m])) -> exists i j k, idx = i ++ [j; k] /\ In i (product b) /\ j < n /\ k < m.
Proof. intros H. apply in_product_app in H as [i [q [-> [Hi Hq]]]]. apply in_product_2_inv in Hq as [j [k [-> [Hj Hk]]]]. exists i, j, k. auto. Qed.
Lemma mat_stack_at b n m X i j k : In i (product b) -> j < n -> k < m -> nd_at 0%R (mat_stack b n m X) (i ++ [j; k]) = X i j k.
Proof.
  intros Hi Hj Hk. unfold mat_stack. rewrite nd_at_mk by (apply in_stack2; assumption). assert (L := in_product_len _ _ Hi).
  rewrite firstn_app_eq by exact L. replace (nth (length b) (i ++ [j; k]) 0) with j by (rewrite <- (Nat.add_0_r (length b)), nth_app_at by exact L; reflexivity).
  replace (nth (S (length b)) (i ++ [j; k]) 0) with k by (rewrite <- Nat.add_1_r, nth_app_at by exact L; reflexivity). reflexivity.
Qed.
Lemma vec_stack_at b n v i j : In i (product b) -> j < n -> nd_at 0%R (vec_stack b n v) (i ++ [j]) = v i j.
Proof.
  intros Hi Hj. unfold vec_stack. rewrite nd_at_mk by (apply in_product_snoc; assumption). assert (L := in_product_len _ _ Hi).
  rewrite firstn_app_eq by exact L. replace (nth (length b) (i ++ [j]) 0) with j by (rewrite <- (Nat.add_0_r (length b)), nth_app_at by exact L; reflexivity). reflexivity.
Qed.
(** an array is the stack as soon as the entries agree *)
Lemma to_mat_stack b n m f X : (forall i j k, In i (product b) -> j < n -> k < m -> f (i ++ [j; k]) = X i j k) -> mk_nd (b ++ [n; m]) f = mat_stack b n m X.
Proof.
  intros H. unfold mat_stack. apply mk_nd_ext. intros idx Hi. apply in_stack2_inv in Hi as [i [j [k [-> [Hi [Hj Hk]]]]]]. rewrite H by assumption. assert (L := in_product_len _ _ Hi).
  rewrite firstn_app_eq by exact L. replace (nth (length b) (i ++ [j; k]) 0) with j by (rewrite <- (Nat.add_0_r (length b)), nth_app_at by exact L; reflexivity).
  replace (nth (S (length b)) (i ++ [j; k]) 0) with k by (rewrite <- Nat.add_1_r, nth_app_at by exact L; reflexivity). reflexivity.
Qed.
Lemma to_vec_stack b n f v : (forall i j, In i (product b) -> j < n -> f (i ++ [j]) = v i j) -> mk_nd (b ++ [n]) f = vec_stack b n v.
Proof.
  intros H. unfold vec_stack. apply mk_nd_ext. intros idx Hi. apply in_product_snoc_inv in Hi as [i [j [-> [Hi Hj]]]]. rewrite H by assumption. assert (L := in_product_len _ _ Hi).
  rewrite firstn_app_eq by exact L. replace (nth (length b) (i ++ [j]) 0) with j by (rewrite <- (Nat.add_0_r (length b)), nth_app_at by exact L; reflexivity). reflexivity.
Qed.
Lemma lsum_product_1 n f : lsum (map f (product [n])) = rsum n (fun k => f [k]).
Proof. rewrite product_1, map_map, lsum_map_seq. reflexivity. Qed.
Ltac eqb_dec := repeat match goal with
  | |- context [?a =? ?b] => first [rewrite (proj2 (Nat.eqb_eq a b)) by lia | rewrite (proj2 (Nat.eqb_neq a b)) by lia] end.
Lemma lab_dim_two l a a' x x' : lab_dim l [a; a'] [x; x'] = if a =? l then Some x else if a' =? l then Some x' else None.
Proof. unfold lab_dim. cbn. destruct (a =? l); [reflexivity|]. destruct (a' =? l); reflexivity. Qed.
Lemma lab_dim_three l a a' a'' x x' x'' : lab_dim l [a; a'; a''] [x; x'; x''] = if a =? l then Some x else if a' =? l then Some x' else if a'' =? l then Some x'' else None.
Proof. unfold lab_dim. cbn. destruct (a =? l); [reflexivity|]. destruct (a' =? l); [reflexivity|]. destruct (a'' =? l); reflexivity. Qed.
Lemma lab_dims_head b l ls s ls' s' : l < length b -> lab_dims l (seq 0 (length b) ++ ls) (b ++ s) (seq 0 (length b) ++ ls') (b ++ s') = Some (nth l b 0).
Proof. intros H. unfold lab_dims. rewrite !lab_head by exact H. rewrite Nat.eqb_refl. reflexivity. Qed.
Lemma lab_dims_tail b l ls s ls' s' : length b <= l -> lab_dims l (seq 0 (length b) ++ ls) (b ++ s) (seq 0 (length b) ++ ls') (b ++ s') = lab_dims l ls s ls' s'.
Proof. intros H. unfold lab_dims. rewrite !lab_tail by exact H. reflexivity. Qed.
Ltac nodup_tac := repeat first [apply NoDup_app2 | apply seq_NoDup | apply NoDup_cons | apply NoDup_nil | intros ? ?
  | match goal with H : In _ (seq _ _) |- _ => apply in_seq in H | |- ~ _ => intro | H : In _ (_ :: _) |- _ => cbn [In] in H end; try lia].

(** x1' x2 for every matrix of the stacks *)
Lemma mat_mul_value b s r t X Y : mat_mul_last2dims (mat_stack b s r X) (mat_stack b s t Y) = Ok (mat_stack b r t (fun i p q => rsum s (fun k => X i k p * Y i k q)%R)).
Proof.
  unfold mat_mul_last2dims. change (shape (mat_stack b s r X)) with (b ++ [s; r]). change (shape (mat_stack b s t Y)) with (b ++ [s; t]).
  rewrite !app_length. cbn [length]. rewrite Nat.eqb_refl. cbn [rassert].
  rewrite (shape_neg_at (mat_stack b s t Y) b [s; t] eq_refl) by (cbn; lia). rewrite (shape_neg_at (mat_stack b s r X) b [s; r] eq_refl) by (cbn; lia).
  cbn [length Nat.sub nth rbind]. rewrite Nat.eqb_refl. cbn [rassert].
  set (nb := length b). replace (nb + 2 - 2) with nb by lia. replace (nb + 2 - 1) with (nb + 1) by lia.
  replace (seq 0 (nb + 2)) with (seq 0 nb ++ [nb; nb + 1]) by (rewrite seq_app; cbn; do 3 f_equal; lia).
  replace (seq 0 (nb + 1) ++ [nb + 2]) with (seq 0 nb ++ [nb; nb + 2]) by (rewrite seq_app, <- app_assoc; reflexivity).
  replace ((seq 0 nb ++ [nb + 1]) ++ [nb + 2]) with (seq 0 nb ++ [nb + 1; nb + 2]) by (rewrite <- app_assoc; reflexivity).
  assert (N1 : forall a c, nb <= a -> nb <= c -> a <> c -> NoDup (seq 0 nb ++ [a; c])).
  { intros a c Ha Hc Hac. apply NoDup_app2; [apply seq_NoDup| |].
    - constructor; [cbn; lia|]. constructor; [cbn; tauto|constructor].
    - intros x Hx Hc'. apply in_seq in Hx. cbn in Hc'. lia. }
  rewrite (einsum_value _ _ _ _ _ [nb] (b ++ [r; t]) [s]).
  - f_equal. apply to_mat_stack. intros i p q Hi Hp Hq. rewrite lsum_product_1. apply rsum_ext. intros k Hk.
    assert (L := in_product_len _ _ Hi). cbn zeta. unfold nb in *. rewrite <- !app_assoc. cbn [app].
    assert (V : forall l, l < length b -> lab_val (seq 0 (length b) ++ [length b + 1; length b + 2; length b]) (i ++ [p; q; k]) l = nth l i 0).
    { intros l Hl. rewrite lab_val_dim, <- L, lab_head by lia. reflexivity. }
    assert (T : forall l, length b <= l -> lab_val (seq 0 (length b) ++ [length b + 1; length b + 2; length b]) (i ++ [p; q; k]) l = if length b + 1 =? l then p else if length b + 2 =? l then q else if length b =? l then k else 0).
    { intros l Hl. rewrite lab_val_dim. rewrite <- L at 1. rewrite lab_tail by lia. rewrite lab_dim_three. destruct (length b + 1 =? l); [reflexivity|]. destruct (length b + 2 =? l); [reflexivity|]. destruct (length b =? l); reflexivity. }
    assert (H : forall a c, length b <= a -> length b <= c -> map (lab_val (seq 0 (length b) ++ [length b + 1; length b + 2; length b]) (i ++ [p; q; k])) (seq 0 (length b) ++ [a; c]) =
      i ++ [if length b + 1 =? a then p else if length b + 2 =? a then q else if length b =? a then k else 0; if length b + 1 =? c then p else if length b + 2 =? c then q else if length b =? c then k else 0]).
    { intros a c Ha Hc. rewrite map_app. f_equal; [|cbn [map]; rewrite !T by lia; reflexivity]. pose proof (map_seq_list (lab_val (seq 0 (length b) ++ [length b + 1; length b + 2; length b]) (i ++ [p; q; k])) i 0) as M. rewrite L in M. apply M. intros l Hl. cbn [plus]. apply V; lia. }
    rewrite !H by lia. eqb_dec. change (shape (mat_stack b s r X)) with (b ++ [s; r]). change (shape (mat_stack b s t Y)) with (b ++ [s; t]).
    rewrite !clampi_index by (apply in_stack2; assumption). rewrite !mat_stack_at by assumption. reflexivity.
  - unfold mat_stack. cbn [shape mk_nd]. rewrite !app_length, seq_length. reflexivity.
  - unfold mat_stack. cbn [shape mk_nd]. rewrite !app_length, seq_length. reflexivity.
  - apply N1; lia.
  - apply N1; lia.
  - apply N1; lia.
  - intros l Hl. rewrite !in_app_iff in *. cbn in *. tauto.
  - rewrite nodup_app by (apply N1; lia). rewrite nodup_fixed_point by (apply N1; lia). rewrite filter_app.
    rewrite (filter_none _ (filter _ _)).
    + cbn [app]. rewrite filter_app. rewrite (filter_none _ (seq 0 nb)).
      * cbn [app filter]. rewrite existsb_eqb_not by (rewrite in_app_iff, in_seq; cbn; lia). cbn [negb].
        rewrite (proj2 (existsb_eqb_In (nb + 2) _)) by (rewrite in_app_iff; cbn; tauto). reflexivity.
      * intros x Hx. rewrite (proj2 (existsb_eqb_In x _)); [reflexivity|]. rewrite in_app_iff. tauto.
    + intros x Hx. apply filter_In in Hx as [Hx Hn]. apply negb_true_iff in Hn. rewrite in_app_iff in Hx. cbn in Hx. destruct (Nat.eq_dec x (nb + 1)) as [->|Ne].
      * rewrite (proj2 (existsb_eqb_In _ _)); [reflexivity|]. rewrite in_app_iff. cbn. tauto.
      * exfalso. rewrite (proj2 (existsb_eqb_In x _)) in Hn; [discriminate|]. rewrite in_app_iff. cbn. destruct Hx as [Hx|[Hx|[Hx|[]]]]; [tauto|tauto|exfalso; apply Ne; auto].
  - unfold mat_stack. cbn [shape mk_nd]. rewrite map_app. apply opt_seq_app.
    + apply opt_seq_seq. intros k Hk. cbn [plus]. apply lab_dims_head. exact Hk.
    + cbn [map]. unfold nb. rewrite !lab_dims_tail by lia. unfold lab_dims. rewrite !lab_dim_two. eqb_dec. reflexivity.
  - unfold mat_stack. cbn [shape mk_nd map]. unfold nb. rewrite !lab_dims_tail by lia. unfold lab_dims. rewrite !lab_dim_two. eqb_dec. reflexivity.
Qed.
Lemma total_app e f0 f : total (e ++ f0) f = total e (fun j => total f0 (fun k => f (j ++ k))).
Proof.
  unfold total. rewrite product_app. induction (product e) as [|x l IH]; [reflexivity|]. cbn [flat_map map]. rewrite map_app, lsum_app, IH, map_map. reflexivity.
Qed.
Lemma total_snoc e s f : total (e ++ [s]) f = total e (fun j => rsum s (fun k => f (j ++ [k]))).
Proof. rewrite total_app. unfold total. apply lsum_map_ext. intros j _. apply lsum_product_1. Qed.
Lemma total_ext e f g : (forall j, index e j -> f j = g j) -> total e f = total e g.
Proof. intros H. apply lsum_map_ext. exact H. Qed.
Lemma lab_dim_cons l a ls x s : lab_dim l (a :: ls) (x :: s) = if a =? l then Some x else lab_dim l ls s.
Proof. unfold lab_dim. cbn. destruct (a =? l); reflexivity. Qed.
Lemma mat_vec_value b e s r X y : matvec_mul_last2dims (mat_stack b s r X) (vec_stack (b ++ e) s y) =
  Ok (vec_stack b r (fun i p => total e (fun j => rsum s (fun k => X i k p * y (i ++ j) k)%R))).
Proof.
  unfold matvec_mul_last2dims.
  rewrite (shape_neg_at (mat_stack b s r X) b [s; r] eq_refl) by (cbn; lia). rewrite (shape_neg_at (vec_stack (b ++ e) s y) (b ++ e) [s] eq_refl) by (cbn; lia).
  cbn [length Nat.sub nth rbind]. rewrite Nat.eqb_refl. cbn [rassert].
  change (shape (mat_stack b s r X)) with (b ++ [s; r]). change (shape (vec_stack (b ++ e) s y)) with ((b ++ e) ++ [s]). rewrite !app_length. cbn [length].
  set (nb := length b). set (ne := length e). replace (nb + 2 - 2) with nb by lia. replace (nb + ne + 1 - 1) with (nb + ne) by lia.
  replace (nb <=? nb + ne) with true by (symmetry; apply Nat.leb_le; lia). cbn [rassert].
  replace ((seq 0 nb ++ [nb + ne]) ++ [nb + ne + 1]) with (seq 0 nb ++ [nb + ne; nb + ne + 1]) by (rewrite <- app_assoc; reflexivity).
  replace (seq 0 (nb + ne + 1)) with (seq 0 nb ++ seq nb (ne + 1)) by (change (seq nb (ne + 1)) with (seq (0 + nb) (ne + 1)); rewrite <- seq_app; f_equal; lia).
  assert (Nx : NoDup (seq 0 nb ++ [nb + ne; nb + ne + 1])).
  { apply NoDup_app2; [apply seq_NoDup| |].
    - constructor; [cbn; lia|]. constructor; [cbn; tauto|constructor].
    - intros x Hx Hc'. apply in_seq in Hx. cbn in Hc'. lia. }
  assert (Ny : NoDup (seq 0 nb ++ seq nb (ne + 1))) by (change (seq nb (ne + 1)) with (seq (0 + nb) (ne + 1)); rewrite <- seq_app; apply seq_NoDup).
  assert (No : NoDup (seq 0 nb ++ [nb + ne + 1])).
  { apply NoDup_app2; [apply seq_NoDup|repeat constructor; cbn; tauto|]. intros x Hx Hc'. apply in_seq in Hx. cbn in Hc'. lia. }
  rewrite (einsum_value _ _ _ _ _ (seq nb (ne + 1)) (b ++ [r]) (e ++ [s])).
  - f_equal. apply to_vec_stack. intros i p Hi Hp. match goal with |- lsum (map ?f (product (e ++ [s]))) = _ => change (lsum (map f (product (e ++ [s])))) with (total (e ++ [s]) f) end.
    rewrite total_snoc. apply total_ext. intros j Hj. apply rsum_ext. intros k Hk. cbn beta zeta. assert (Li := in_product_len _ _ Hi). assert (Lj := in_product_len _ _ Hj).
    unfold nb, ne in *. rewrite <- !app_assoc. cbn [app]. set (env := lab_val (seq 0 (length b) ++ length b + length e + 1 :: seq (length b) (length e + 1)) (i ++ p :: j ++ [k])).
    assert (V : forall l, l < length b -> env l = nth l i 0).
    { intros l Hl. unfold env. rewrite lab_val_dim, <- Li, lab_head by lia. reflexivity. }
    assert (P : env (length b + length e + 1) = p).
    { unfold env. rewrite lab_val_dim. rewrite <- Li. rewrite lab_tail by lia. rewrite lab_dim_cons, Nat.eqb_refl. reflexivity. }
    assert (W : forall l, l < length e + 1 -> env (length b + l) = nth l (j ++ [k]) 0).
    { intros l Hl. unfold env. rewrite lab_val_dim. rewrite <- Li. rewrite lab_tail by lia. rewrite lab_dim_cons. eqb_dec.
      replace (length e + 1) with (length (j ++ [k])) by (rewrite app_length; cbn; lia). rewrite lab_dim_seq_in by (rewrite app_length; cbn; lia). reflexivity. }
    assert (E1 : map env (seq 0 (length b)) = i).
    { rewrite <- Li. apply map_seq_list. intros l Hl. cbn [plus]. apply V; lia. }
    assert (E2 : map env (seq (length b) (length e + 1)) = j ++ [k]).
    { replace (length e + 1) with (length (j ++ [k])) by (rewrite app_length; cbn; lia). apply map_seq_list. intros l Hl. apply W. rewrite app_length in Hl. cbn in Hl. lia. }
    rewrite !map_app, E1, E2. cbn [map]. rewrite P, (W (length e)) by lia. replace (nth (length e) (j ++ [k]) 0) with k by (rewrite <- (Nat.add_0_r (length e)), nth_app_at by exact Lj; reflexivity).
    change (shape (mat_stack b s r X)) with (b ++ [s; r]). change (shape (vec_stack (b ++ e) s y)) with ((b ++ e) ++ [s]).
    assert (Hij : In (i ++ j) (product (b ++ e))) by (apply in_product_app; exists i, j; auto).
    rewrite (app_assoc i j). rewrite (clampi_index (b ++ [s; r])) by (apply in_stack2; assumption). rewrite (clampi_index ((b ++ e) ++ [s])) by (apply in_product_snoc; assumption).
    rewrite mat_stack_at, vec_stack_at by assumption. reflexivity.
  - unfold mat_stack. cbn [shape mk_nd]. rewrite !app_length, seq_length. reflexivity.
  - unfold vec_stack. cbn [shape mk_nd]. rewrite !app_length, !seq_length. cbn [length]. unfold nb, ne. lia.
  - exact Nx.
  - exact Ny.
  - exact No.
  - intros l Hl. rewrite !in_app_iff in *. cbn in *. tauto.
  - rewrite nodup_app by exact Ny. rewrite nodup_fixed_point by exact Nx. rewrite filter_app. rewrite (filter_none _ (filter _ _)).
    + cbn [app]. rewrite filter_app. rewrite (filter_none _ (seq 0 nb)).
      * cbn [app]. apply filter_all. intros x Hx. apply in_seq in Hx. rewrite existsb_eqb_not; [reflexivity|]. rewrite in_app_iff, in_seq. cbn. lia.
      * intros x Hx. rewrite (proj2 (existsb_eqb_In x _)); [reflexivity|]. rewrite in_app_iff. tauto.
    + intros x Hx. apply filter_In in Hx as [Hx Hn]. apply negb_true_iff in Hn. rewrite in_app_iff in Hx. cbn in Hx. destruct (Nat.eq_dec x (nb + ne + 1)) as [->|Ne].
      * rewrite (proj2 (existsb_eqb_In _ _)); [reflexivity|]. rewrite in_app_iff. cbn. tauto.
      * exfalso. rewrite (proj2 (existsb_eqb_In x _)) in Hn; [discriminate|]. rewrite in_app_iff, (in_seq (ne + 1)). destruct Hx as [Hx|[Hx|[Hx|[]]]]; [tauto|lia|lia].
  - unfold mat_stack, vec_stack. cbn [shape mk_nd]. rewrite <- app_assoc. rewrite map_app. apply opt_seq_app.
    + apply opt_seq_seq. intros k Hk. cbn [plus]. apply lab_dims_head. exact Hk.
    + cbn [map]. unfold nb. rewrite !lab_dims_tail by lia. unfold lab_dims. rewrite !lab_dim_two. eqb_dec.
      replace (ne + 1) with (length (e ++ [s])) by (rewrite app_length; reflexivity). rewrite lab_dim_seq_out by (right; rewrite app_length; cbn; unfold ne; lia). reflexivity.
  - unfold mat_stack, vec_stack. cbn [shape mk_nd]. rewrite <- app_assoc. replace (ne + 1) with (length (e ++ [s])) by (rewrite app_length; reflexivity).
    apply opt_seq_seq. intros k Hk. unfold nb. rewrite lab_dims_tail by lia. unfold lab_dims. rewrite lab_dim_seq_in by exact Hk. rewrite lab_dim_two.
    rewrite app_length in Hk. cbn in Hk. destruct (Nat.eq_dec k ne) as [->|Ne].
    + rewrite Nat.eqb_refl. replace (nth ne (e ++ [s]) 0) with s by (rewrite <- (Nat.add_0_r ne); unfold ne; rewrite nth_app_at by reflexivity; reflexivity). rewrite Nat.eqb_refl. reflexivity.
    + unfold ne in *. eqb_dec. reflexivity.
Qed.

(** ---- errors ---- *)
Lemma mat_mul_ndim x1 x2 : length (shape x1) <> length (shape x2) -> mat_mul_last2dims x1 x2 = Raise AssertionError.
Proof. intros H. unfold mat_mul_last2dims. rewrite (proj2 (Nat.eqb_neq _ _) H). reflexivity. Qed.
Lemma mat_mul_low x1 x2 : length (shape x1) = length (shape x2) -> length (shape x1) < 2 -> mat_mul_last2dims x1 x2 = Raise IndexError.
Proof. intros E H. unfold mat_mul_last2dims. rewrite E, Nat.eqb_refl. cbn [rassert]. rewrite shape_neg_short by lia. reflexivity. Qed.
Lemma mat_mul_inner x1 x2 b b' s s' r t : shape x1 = b ++ [s; r] -> shape x2 = b' ++ [s'; t] -> length b = length b' -> s <> s' -> mat_mul_last2dims x1 x2 = Raise AssertionError.
Proof.
  intros E1 E2 L N. unfold mat_mul_last2dims. rewrite (shape_neg_at x1 b [s; r] E1), (shape_neg_at x2 b' [s'; t] E2) by (cbn; lia). rewrite E1, E2, !app_length, L. cbn [length Nat.sub nth rbind]. rewrite Nat.eqb_refl. cbn [rassert].
  rewrite (proj2 (Nat.eqb_neq s' s)) by congruence. reflexivity.
Qed.
Lemma opt_seq_none {A} (l : list (option A)) : In None l -> opt_seq l = None.
Proof. induction l as [|[x|] l IH]; intros H; cbn in *; [destruct H| |reflexivity]. destruct H as [H|H]; [discriminate|]. rewrite IH by exact H. reflexivity. Qed.
Lemma mat_mul_batch x1 x2 b b' s r t k : shape x1 = b ++ [s; r] -> shape x2 = b' ++ [s; t] -> length b = length b' -> k < length b ->
  nth k b 0 <> nth k b' 0 -> nth k b 0 <> 1 -> nth k b' 0 <> 1 -> mat_mul_last2dims x1 x2 = Raise ValueError.
Proof.
  intros E1 E2 L K N1 N2 N3. unfold mat_mul_last2dims. rewrite (shape_neg_at x1 b [s; r] E1), (shape_neg_at x2 b' [s; t] E2) by (cbn; lia). rewrite E1, E2, !app_length, L. cbn [length Nat.sub nth rbind]. rewrite !Nat.eqb_refl. cbn [rassert].
  unfold einsum, np_einsum. destruct (_ && _); [|reflexivity]. rewrite E1, E2, opt_seq_none; [reflexivity|]. apply in_map_iff. exists k. split.
  - replace (seq 0 (length b' + 2)) with (seq 0 (length b) ++ [length b; length b + 1]) by (rewrite <- L, seq_app; cbn; do 3 f_equal; lia).
    replace (seq 0 (length b' + 2 - 1) ++ [length b' + 2]) with (seq 0 (length b') ++ [length b'; length b' + 2]) by (replace (length b' + 2 - 1) with (length b' + 1) by lia; rewrite seq_app, <- app_assoc; reflexivity).
    unfold lab_dims. rewrite !lab_head by lia. eqb_dec. reflexivity.
  - apply in_app_iff. left. apply in_app_iff. left. apply in_seq. lia.
Qed.
Lemma mat_vec_inner x y b b' s s' r : shape x = b ++ [s; r] -> shape y = b' ++ [s'] -> s <> s' -> matvec_mul_last2dims x y = Raise AssertionError.
Proof.
  intros E1 E2 N. unfold matvec_mul_last2dims. rewrite (shape_neg_at x b [s; r] E1), (shape_neg_at y b' [s'] E2) by (cbn; lia). cbn [length Nat.sub nth rbind]. rewrite (proj2 (Nat.eqb_neq s s')) by exact N. reflexivity.
Qed.
Lemma mat_vec_rank x y b b' s r : shape x = b ++ [s; r] -> shape y = b' ++ [s] -> length b' < length b -> matvec_mul_last2dims x y = Raise AssertionError.
Proof.
  intros E1 E2 N. unfold matvec_mul_last2dims. rewrite (shape_neg_at x b [s; r] E1), (shape_neg_at y b' [s] E2) by (cbn; lia). cbn [length Nat.sub nth rbind]. rewrite Nat.eqb_refl. cbn [rassert].
  rewrite E1, E2, !app_length. cbn [length]. rewrite (proj2 (Nat.leb_gt _ _)) by lia. reflexivity.
Qed.

(** ---- natural parameters ---- *)
Lemma mat_stack_ext b n m X Y : (forall i j k, In i (product b) -> j < n -> k < m -> X i j k = Y i j k) -> mat_stack b n m X = mat_stack b n m Y.
Proof.
  intros H. unfold mat_stack at 1. apply to_mat_stack. intros i j k Hi Hj Hk. assert (L := in_product_len _ _ Hi).
  rewrite firstn_app_eq by exact L. replace (nth (length b) (i ++ [j; k]) 0) with j by (rewrite <- (Nat.add_0_r (length b)), nth_app_at by exact L; reflexivity).
  replace (nth (S (length b)) (i ++ [j; k]) 0) with k by (rewrite <- Nat.add_1_r, nth_app_at by exact L; reflexivity). apply H; assumption.
Qed.
Lemma vec_stack_ext b n v w : (forall i j, In i (product b) -> j < n -> v i j = w i j) -> vec_stack b n v = vec_stack b n w.
Proof.
  intros H. unfold vec_stack at 1. apply to_vec_stack. intros i j Hi Hj. assert (L := in_product_len _ _ Hi).
  rewrite firstn_app_eq by exact L. replace (nth (length b) (i ++ [j]) 0) with j by (rewrite <- (Nat.add_0_r (length b)), nth_app_at by exact L; reflexivity). apply H; assumption.
Qed.
Lemma rscale_stack c b n m X : rscale c (mat_stack b n m X) = mat_stack b n m (fun i j k => c * X i j k)%R.
Proof. unfold rscale, mat_stack. rewrite nd_map_mk. reflexivity. Qed.
Lemma radd_mat b n m X Y : radd (mat_stack b n m X) (mat_stack b n m Y) = Ok (mat_stack b n m (fun i j k => X i j k + Y i j k)%R).
Proof. unfold radd, mat_stack. rewrite np_bin_same. reflexivity. Qed.
Lemma radd_vec b n v w : radd (vec_stack b n v) (vec_stack b n w) = Ok (vec_stack b n (fun i j => v i j + w i j)%R).
Proof. unfold radd, vec_stack. rewrite np_bin_same. reflexivity. Qed.
Open Scope R_scope.
Lemma total_rsum e n f : total e (fun j => rsum n (fun k => f j k)) = rsum n (fun k => total e (fun j => f j k)).
Proof.
  unfold total. induction (product e) as [|x l IH]; cbn [map lsum fold_right]; [rewrite rsum_zero; reflexivity|]. unfold lsum in IH. rewrite IH, <- rsum_plus. reflexivity.
Qed.
Lemma total_scal e c f : total e (fun j => c * f j) = c * total e f.
Proof. apply lsum_map_scal. Qed.
Lemma total_plus e f g : total e (fun j => f j + g j) = total e f + total e g.
Proof. apply lsum_map_plus. Qed.
Lemma total_const e c : total e (fun _ => c) = INR (nprod e) * c.
Proof.
  unfold total. rewrite <- (product_length e). induction (product e) as [|x l IH]; cbn [map length]; [cbn; ring|]. rewrite S_INR. unfold lsum in *. cbn [fold_right]. rewrite IH. ring.
Qed.
Lemma weighted_total e s X L y p : total e (fun j => weighted s X L (y j) p) = weighted s X L (fun l => total e (fun j => y j l)) p.
Proof.
  unfold weighted. rewrite total_rsum. apply rsum_ext. intros k Hk. rewrite total_rsum. apply rsum_ext. intros l Hl. rewrite total_scal. reflexivity.
Qed.
Lemma likelihood_value b e s r y X info L : weights b s info L ->
  get_nat_params_from_likelihood (vec_stack (b ++ e) s y) (mat_stack b s r X) info =
  Ok (vec_stack b r (fun i => weighted s (X i) (L i) (fun l => total e (fun j => y (i ++ j)%list l))),
      mat_stack b r r (fun i p q => - / 2 * (INR (nprod e) * gram s (X i) (L i) q p))).
Proof.
  intros W. unfold get_nat_params_from_likelihood.
  rewrite (shape_neg_at (mat_stack b s r X) b [s; r] eq_refl) by (cbn; lia). rewrite (shape_neg_at (vec_stack (b ++ e) s y) (b ++ e) [s] eq_refl) by (cbn; lia).
  cbn [length Nat.sub nth rbind]. rewrite Nat.eqb_refl. cbn [rassert].
  change (shape (mat_stack b s r X)) with (b ++ [s; r])%list. change (shape (vec_stack (b ++ e) s y)) with ((b ++ e) ++ [s])%list. rewrite !app_length. cbn [length].
  replace (length b + 2 - 2)%nat with (length b) by lia. replace (length b + length e + 1 - 1)%nat with (length b + length e)%nat by lia.
  rewrite (proj2 (Nat.leb_le _ _)) by lia. cbn [rassert].
  replace (slice ((b ++ e) ++ [s]) (length b) (length b + length e)) with e.
  2:{ unfold slice. rewrite <- app_assoc, skipn_app, skipn_all, Nat.sub_diag. cbn [skipn app]. replace (length b + length e - length b)%nat with (length e) by lia. symmetry. apply firstn_app_eq. reflexivity. }
  assert (E : match info with
    | inl c => Ok (rscale c (mat_stack b s r X))
    | inr a => do i1 <- shape_neg a 1; do i2 <- shape_neg a 2; rassert (Nat.eqb i1 i2) (rassert (Nat.eqb i1 s) (rassert (Nat.eqb (length (shape a)) (length b + 2)) (mat_mul_last2dims a (mat_stack b s r X))))
    end = Ok (mat_stack b s r (fun i k p => rsum s (fun m => L i m k * X i m p)))).
  { destruct W as [[c [-> HL]]| ->].
    - rewrite rscale_stack. f_equal. apply mat_stack_ext. intros i j k Hi Hj Hk. rewrite HL. unfold scal_mat, delta. symmetry. rewrite (rsum_single s j); [rewrite Nat.eqb_refl; ring|exact Hj|].
      intros m Hm Nm. rewrite (proj2 (Nat.eqb_neq m j)) by exact Nm. ring.
    - rewrite (shape_neg_at (mat_stack b s s L) b [s; s] eq_refl 1%nat) by (cbn; lia). rewrite (shape_neg_at (mat_stack b s s L) b [s; s] eq_refl 2%nat) by (cbn; lia).
      cbn [length Nat.sub nth rbind]. rewrite !Nat.eqb_refl. cbn [rassert]. change (shape (mat_stack b s s L)) with (b ++ [s; s])%list. rewrite app_length, Nat.eqb_refl. cbn [rassert]. apply mat_mul_value. }
  match goal with |- rbind ?M _ = _ => replace M with (Ok (mat_stack b s r (fun i k p => rsum s (fun m => L i m k * X i m p)))) by (symmetry; exact E) end.
  cbn [rbind]. rewrite mat_vec_value. cbn [rbind]. rewrite mat_mul_value. cbn [rbind]. rewrite !rscale_stack. do 2 f_equal.
  - apply vec_stack_ext. intros i p Hi Hp. rewrite <- weighted_total. apply total_ext. intros j Hj. unfold weighted. rewrite (rsum_swap s s (fun k l => X i k p * L i k l * y (i ++ j)%list l)).
    apply rsum_ext. intros k Hk. rewrite <- rsum_scal_r. apply rsum_ext. intros m Hm. ring.
  - apply mat_stack_ext. intros i p q Hi Hp Hq. rewrite <- Rmult_assoc, (Rmult_comm (INR _)), Rmult_assoc. do 2 f_equal. unfold gram. rewrite (rsum_swap s s (fun k l => X i k q * L i k l * X i l p)).
    apply rsum_ext. intros k Hk. rewrite <- rsum_scal_l. apply rsum_ext. intros m Hm. ring.
Qed.
Open Scope nat_scope.
Lemma tile_shape b r : map2 Nat.mul (b ++ [1; 1]) (repeat 1 (length b) ++ [r; r]) = b ++ [r; r].
Proof. induction b as [|n b IH]; cbn [app map2 length repeat]; [cbn; repeat f_equal; lia|]. rewrite IH, Nat.mul_1_r. reflexivity. Qed.
Lemma tile_eye b r : np_tile 0%R (np_eye r) (b ++ [1; 1]) = mat_stack b r r (fun _ => delta).
Proof.
  unfold np_tile. change (shape (np_eye r)) with [r; r]. rewrite app_length. cbn [length]. replace (length b + 2 - 2) with (length b) by lia. rewrite tile_shape.
  apply to_mat_stack. intros i j k Hi Hj Hk. assert (L := in_product_len _ _ Hi). rewrite <- L, skipn_app, skipn_all, Nat.sub_diag. cbn [skipn app map2].
  rewrite !Nat.mod_small by assumption. unfold np_eye. rewrite nd_at_mk by (apply in_product_2; auto). reflexivity.
Qed.
Open Scope R_scope.
Lemma gram_eye r P p q : (p < r)%nat -> (q < r)%nat -> gram r delta P p q = P p q.
Proof.
  intros Hp Hq. unfold gram. rewrite (rsum_single r p); [|exact Hp|].
  - rewrite (rsum_single r q); [|exact Hq|].
    + unfold delta. rewrite !Nat.eqb_refl. ring.
    + intros l Hl N. unfold delta at 2. rewrite (proj2 (Nat.eqb_neq l q)) by exact N. ring.
  - intros k Hk N. apply rsum_zero. intros l Hl. unfold delta at 1. rewrite (proj2 (Nat.eqb_neq k p)) by exact N. ring.
Qed.
Lemma weighted_eye r P m p : (p < r)%nat -> weighted r delta P m p = mat_vec r P m p.
Proof.
  intros Hp. unfold weighted, mat_vec. rewrite (rsum_single r p); [|exact Hp|].
  - apply rsum_ext. intros l Hl. unfold delta. rewrite Nat.eqb_refl. ring.
  - intros k Hk N. apply rsum_zero. intros l Hl. unfold delta. rewrite (proj2 (Nat.eqb_neq k p)) by exact N. ring.
Qed.
Lemma prior_value b r m P : get_nat_params_from_prior (vec_stack b r m) (mat_stack b r r P) =
  Ok (vec_stack b r (fun i => mat_vec r (P i) (m i)), mat_stack b r r (fun i p q => - / 2 * P i q p)).
Proof.
  unfold get_nat_params_from_prior. rewrite (shape_neg_at (vec_stack b r m) b [r] eq_refl) by (cbn; lia).
  rewrite (shape_neg_at (mat_stack b r r P) b [r; r] eq_refl 1%nat) by (cbn; lia). rewrite (shape_neg_at (mat_stack b r r P) b [r; r] eq_refl 2%nat) by (cbn; lia).
  cbn [length Nat.sub nth rbind]. rewrite !Nat.eqb_refl. cbn [rassert rbind]. change (shape (vec_stack b r m)) with (b ++ [r])%list. change (shape (mat_stack b r r P)) with (b ++ [r; r])%list.
  rewrite !app_length. cbn [length]. replace (length b + 2 - 1)%nat with (length b + 1)%nat by lia. rewrite Nat.eqb_refl. cbn [rassert].
  rewrite removelast_last, tile_eye. pose proof (likelihood_value b [] r r m (fun _ => delta) (inr (mat_stack b r r P)) P (or_intror eq_refl)) as LV. rewrite app_nil_r in LV. unfold rarr in *. rewrite LV.
  do 2 f_equal.
  - apply vec_stack_ext. intros i p Hi Hp. rewrite weighted_eye by exact Hp. apply rsum_ext. intros l Hl. unfold total. cbn [product map lsum fold_right]. rewrite app_nil_r. ring.
  - apply mat_stack_ext. intros i p q Hi Hp Hq. rewrite gram_eye by assumption. change (INR (nprod [])) with 1. ring.
Qed.
Section Posterior.
Variable inv : nd R -> res (nd R).
Lemma mvn_value b r n1 A : inverts_stack inv b r A -> exists mu,
  get_mvn_from_nat_params inv (vec_stack b r n1) (mat_stack b r r (fun i p q => - / 2 * A i p q)) = Ok (vec_stack b r mu, mat_stack b r r A) /\
  forall i p, index b i -> (p < r)%nat -> mat_vec r (transpose (A i)) (mu i) p = n1 i p.
Proof.
  intros [B [E I]]. exists (fun i p => rsum r (fun k => B i k p * n1 i k)). unfold get_mvn_from_nat_params. rewrite rscale_stack.
  rewrite (mat_stack_ext b r r _ A) by (intros; field). unfold rarr in *. rewrite E. cbn [rbind]. pose proof (mat_vec_value b [] r r B n1) as MV. rewrite app_nil_r in MV. rewrite MV. cbn [rbind]. split.
  - do 2 f_equal. apply vec_stack_ext. intros i p Hi Hp. unfold total. cbn [product map lsum fold_right]. rewrite app_nil_r. ring.
  - intros i p Hi Hp. unfold mat_vec, transpose. transitivity (rsum r (fun k => n1 i k * rsum r (fun j => B i k j * A i j p))).
    + rewrite (rsum_ext r (fun j => A i j p * rsum r (fun k => B i k j * n1 i k)) (fun j => rsum r (fun k => n1 i k * (B i k j * A i j p)))) by (intros j Hj; rewrite <- rsum_scal_l; apply rsum_ext; intros; ring).
      rewrite (rsum_swap r r (fun j k => n1 i k * (B i k j * A i j p))). apply rsum_ext. intros k Hk. apply rsum_scal_l.
    + rewrite (rsum_single r p); [|exact Hp|].
      * rewrite (proj2 (I i Hi p p Hp Hp)). unfold delta. rewrite Nat.eqb_refl. ring.
      * intros k Hk N. rewrite (proj2 (I i Hi k p Hk Hp)). unfold delta. rewrite (proj2 (Nat.eqb_neq k p)) by exact N. ring.
Qed.
(** the normal equations, whether or not L and P are symmetric *)
Lemma posterior_solves b e s r y X info L m P : weights b s info L ->
  inverts_stack inv b r (fun i => transpose (posterior_matrix e s (X i) (L i) (P i))) -> exists mu,
  get_posterior_regression_coefficients inv (vec_stack (b ++ e) s y) (mat_stack b s r X) info (vec_stack b r m) (mat_stack b r r P) =
    Ok (vec_stack b r mu, mat_stack b r r (fun i => transpose (posterior_matrix e s (X i) (L i) (P i)))) /\
  forall i p, index b i -> (p < r)%nat ->
    mat_vec r (posterior_matrix e s (X i) (L i) (P i)) (mu i) p = weighted s (X i) (L i) (fun l => total e (fun j => y (i ++ j)%list l)) p + mat_vec r (P i) (m i) p.
Proof.
  intros W I. unfold get_posterior_regression_coefficients. rewrite (likelihood_value b e s r y X info L W), prior_value. cbn [rbind fst snd]. rewrite radd_vec, radd_mat. cbn [rbind].
  destruct (mvn_value b r (fun i j => weighted s (X i) (L i) (fun l => total e (fun j0 => y (i ++ j0)%list l)) j + mat_vec r (P i) (m i) j) _ I) as [mu [E H]]. exists mu. split.
  - rewrite <- E. f_equal. apply mat_stack_ext. intros i p q Hi Hp Hq. unfold transpose, posterior_matrix. ring.
  - exact H.
Qed.
Lemma regression_solves b e s r y X info L : weights b s info L ->
  inverts_stack inv b r (fun i => transpose (posterior_matrix e s (X i) (L i) (fun _ _ => 0))) -> exists mu,
  get_regression_coefficients inv (vec_stack (b ++ e) s y) (mat_stack b s r X) info = Ok (vec_stack b r mu) /\
  forall i p, index b i -> (p < r)%nat ->
    mat_vec r (fun j k => INR (nprod e) * gram s (X i) (L i) j k) (mu i) p = weighted s (X i) (L i) (fun l => total e (fun j => y (i ++ j)%list l)) p.
Proof.
  intros W I. unfold get_regression_coefficients. rewrite (likelihood_value b e s r y X info L W). cbn [rbind fst snd].
  destruct (mvn_value b r (fun i => weighted s (X i) (L i) (fun l => total e (fun j => y (i ++ j)%list l))) _ I) as [mu [E H]]. exists mu. split.
  - rewrite (mat_stack_ext b r r _ (fun i p q => - / 2 * transpose (posterior_matrix e s (X i) (L i) (fun _ _ => 0)) p q)).
    + rewrite E. reflexivity.
    + intros i p q Hi Hp Hq. unfold transpose, posterior_matrix. ring.
  - intros i p Hi Hp. rewrite <- (H i p Hi Hp). apply rsum_ext. intros j Hj. unfold transpose, posterior_matrix. ring.
Qed.
End Posterior.

(** ---- least squares ---- *)
Definition bil (n : nat) (A : nat -> nat -> R) (u v : nat -> R) : R := rsum n (fun i => rsum n (fun j => u i * A i j * v j)).
Lemma bil_quad n A u : quad n A u = bil n A u u.
Proof. reflexivity. Qed.
Lemma bil_ext n A B u u' v v' : (forall i j, (i < n)%nat -> (j < n)%nat -> A i j = B i j) -> (forall i, (i < n)%nat -> u i = u' i) -> (forall i, (i < n)%nat -> v i = v' i) -> bil n A u v = bil n B u' v'.
Proof. intros HA Hu Hv. apply rsum_ext. intros i Hi. apply rsum_ext. intros j Hj. rewrite HA, Hu, Hv by assumption. reflexivity. Qed.
Lemma bil_sym n A u v : symmetric n A -> bil n A u v = bil n A v u.
Proof. intros S. unfold bil. rewrite rsum_swap. apply rsum_ext. intros i Hi. apply rsum_ext. intros j Hj. rewrite (S j i) by assumption. ring. Qed.
Lemma bil_minus_l n A u u' v : bil n A (fun i => u i - u' i) v = bil n A u v - bil n A u' v.
Proof. unfold bil. rewrite <- rsum_minus. apply rsum_ext. intros i _. rewrite <- rsum_minus. apply rsum_ext. intros; ring. Qed.
Lemma bil_minus_r n A u v v' : bil n A u (fun i => v i - v' i) = bil n A u v - bil n A u v'.
Proof. unfold bil. rewrite <- rsum_minus. apply rsum_ext. intros i _. rewrite <- rsum_minus. apply rsum_ext. intros; ring. Qed.
Lemma bil_plus_l n A u u' v : bil n A (fun i => u i + u' i) v = bil n A u v + bil n A u' v.
Proof. unfold bil. rewrite <- rsum_plus. apply rsum_ext. intros i _. rewrite <- rsum_plus. apply rsum_ext. intros; ring. Qed.
Lemma bil_plus_r n A u v v' : bil n A u (fun i => v i + v' i) = bil n A u v + bil n A u v'.
Proof. unfold bil. rewrite <- rsum_plus. apply rsum_ext. intros i _. rewrite <- rsum_plus. apply rsum_ext. intros; ring. Qed.
Lemma bil_mat_vec n A u v : bil n A u v = rsum n (fun i => u i * mat_vec n A v i).
Proof. apply rsum_ext. intros i _. unfold mat_vec. rewrite <- rsum_scal_l. apply rsum_ext. intros; ring. Qed.
(** (X d)' L v = d' (X' L v) *)
Lemma bil_design s r X L d v : bil s L (mat_vec r X d) v = rsum r (fun p => d p * weighted s X L v p).
Proof.
  unfold bil, weighted. transitivity (rsum s (fun k => rsum r (fun p => d p * rsum s (fun l => X k p * L k l * v l)))).
  - apply rsum_ext. intros k _. unfold mat_vec.
    rewrite (rsum_ext r (fun p => d p * rsum s (fun l => X k p * L k l * v l)) (fun p => rsum s (fun l => d p * (X k p * L k l * v l)))) by (intros p _; rewrite rsum_scal_l; reflexivity).
    rewrite (rsum_swap r s (fun p l => d p * (X k p * L k l * v l))). apply rsum_ext. intros l _.
    rewrite Rmult_assoc, <- rsum_scal_r. apply rsum_ext. intros; ring.
  - rewrite rsum_swap. apply rsum_ext. intros p _. apply rsum_scal_l.
Qed.
Lemma weighted_design s r X L d p : weighted s X L (mat_vec r X d) p = mat_vec r (gram s X L) d p.
Proof.
  unfold weighted, mat_vec, gram. transitivity (rsum s (fun k => rsum r (fun q => rsum s (fun l => X k p * L k l * X l q) * d q))).
  - apply rsum_ext. intros k _.
    rewrite (rsum_ext s (fun l => X k p * L k l * rsum r (fun j => X l j * d j)) (fun l => rsum r (fun q => X k p * L k l * X l q * d q))) by (intros l _; rewrite <- rsum_scal_l; apply rsum_ext; intros; ring).
    rewrite (rsum_swap s r (fun l q => X k p * L k l * X l q * d q)). apply rsum_ext. intros q _. apply rsum_scal_r.
  - rewrite rsum_swap. apply rsum_ext. intros q _. rewrite <- rsum_scal_r. reflexivity.
Qed.
Lemma weighted_minus s X L u v p : weighted s X L (fun l => u l - v l) p = weighted s X L u p - weighted s X L v p.
Proof. unfold weighted. rewrite <- rsum_minus. apply rsum_ext. intros k _. rewrite <- rsum_minus. apply rsum_ext. intros; ring. Qed.
Lemma total_minus e f g : total e (fun j => f j - g j) = total e f - total e g.
Proof. rewrite (total_ext e _ (fun j => f j + -1 * g j)) by (intros; ring). rewrite total_plus, total_scal. ring. Qed.
Lemma mat_vec_minus n A u v i : mat_vec n A (fun k => u k - v k) i = mat_vec n A u i - mat_vec n A v i.
Proof. unfold mat_vec. rewrite <- rsum_minus. apply rsum_ext. intros; ring. Qed.
(** completing the square *)
Lemma complete_square e s r X L y P m mu beta : symmetric s L -> symmetric r P ->
  (forall p, (p < r)%nat -> mat_vec r (posterior_matrix e s X L P) mu p = weighted s X L (fun l => total e (fun j => y j l)) p + mat_vec r P m p) ->
  penalised e s r X L y P m beta = penalised e s r X L y P m mu + quad r (posterior_matrix e s X L P) (fun p => beta p - mu p).
Proof.
  intros SL SP H. set (d := fun p => beta p - mu p). unfold penalised, sq_error.
  assert (Q1 : total e (fun k => quad s L (fun i => y k i - mat_vec r X beta i)) =
     total e (fun k => quad s L (fun i => y k i - mat_vec r X mu i)) - 2 * (rsum r (fun p => d p * weighted s X L (fun l => total e (fun j => y j l)) p) - INR (nprod e) * rsum r (fun p => d p * mat_vec r (gram s X L) mu p)) + INR (nprod e) * rsum r (fun p => d p * mat_vec r (gram s X L) d p)).
  { transitivity (total e (fun k => quad s L (fun i => y k i - mat_vec r X mu i) - 2 * (rsum r (fun p => d p * weighted s X L (y k) p) - rsum r (fun p => d p * mat_vec r (gram s X L) mu p)) + rsum r (fun p => d p * mat_vec r (gram s X L) d p))).
    - apply total_ext. intros k Hk. rewrite !bil_quad. rewrite (bil_ext s L L _ (fun i => (y k i - mat_vec r X mu i) - mat_vec r X d i) _ (fun i => (y k i - mat_vec r X mu i) - mat_vec r X d i)); [|reflexivity| |].
      2,3: intros i _; unfold d; rewrite mat_vec_minus; ring.
      rewrite bil_minus_l, !(bil_minus_r s L _ (fun i => y k i - mat_vec r X mu i) (mat_vec r X d)). rewrite (bil_sym s L (fun i => y k i - mat_vec r X mu i) (mat_vec r X d) SL).
      rewrite !bil_design. rewrite (rsum_ext r (fun p => d p * weighted s X L (fun i => y k i - mat_vec r X mu i) p) (fun p => d p * weighted s X L (y k) p - d p * mat_vec r (gram s X L) mu p)).
      + rewrite rsum_minus. rewrite (rsum_ext r (fun p => d p * weighted s X L (mat_vec r X d) p) (fun p => d p * mat_vec r (gram s X L) d p)) by (intros; rewrite weighted_design; reflexivity). ring.
      + intros p _. rewrite weighted_minus, weighted_design. ring.
    - rewrite total_plus, total_minus, total_scal, total_minus, !total_const. rewrite total_rsum. do 4 f_equal. apply rsum_ext. intros p _. rewrite total_scal, weighted_total. reflexivity. }
  assert (Q2 : quad r P (fun i => beta i - m i) = quad r P (fun i => mu i - m i) + 2 * (rsum r (fun p => d p * mat_vec r P mu p) - rsum r (fun p => d p * mat_vec r P m p)) + rsum r (fun p => d p * mat_vec r P d p)).
  { rewrite !bil_quad. rewrite (bil_ext r P P _ (fun i => (mu i - m i) + d i) _ (fun i => (mu i - m i) + d i)); [|reflexivity| |].
    2,3: intros i _; unfold d; ring.
    rewrite bil_plus_l, !(bil_plus_r r P _ (fun i => mu i - m i) d). rewrite (bil_sym r P (fun i => mu i - m i) d SP). rewrite (bil_minus_r r P d mu m). rewrite !(bil_mat_vec r P d). ring. }
  assert (Q3 : quad r (posterior_matrix e s X L P) d = INR (nprod e) * rsum r (fun p => d p * mat_vec r (gram s X L) d p) + rsum r (fun p => d p * mat_vec r P d p)).
  { rewrite bil_quad, bil_mat_vec. rewrite <- rsum_scal_l, <- rsum_plus. apply rsum_ext. intros p _. unfold mat_vec, posterior_matrix. rewrite !(Rmult_comm (INR _)), Rmult_assoc.
    replace (rsum r (fun j => gram s X L p j * d j) * INR (nprod e)) with (rsum r (fun j => INR (nprod e) * gram s X L p j * d j)).
    - rewrite <- Rmult_plus_distr_l. f_equal. rewrite <- rsum_plus. apply rsum_ext. intros; ring.
    - rewrite <- rsum_scal_r. apply rsum_ext. intros; ring. }
  assert (Z : INR (nprod e) * rsum r (fun p => d p * mat_vec r (gram s X L) mu p) + rsum r (fun p => d p * mat_vec r P mu p) = rsum r (fun p => d p * weighted s X L (fun l => total e (fun j => y j l)) p) + rsum r (fun p => d p * mat_vec r P m p)).
  { rewrite <- rsum_scal_l, <- !rsum_plus. apply rsum_ext. intros p Hp. rewrite <- !Rmult_plus_distr_l. rewrite <- (H p Hp). rewrite <- Rmult_assoc, (Rmult_comm (INR _)), Rmult_assoc, <- Rmult_plus_distr_l. f_equal.
    unfold mat_vec, posterior_matrix. rewrite <- rsum_scal_l, <- rsum_plus. apply rsum_ext. intros; ring. }
  rewrite Q1, Q2, Q3. lra.
Qed.
Lemma psd_kernel n A d : symmetric n A -> nonneg_form n A -> quad n A d = 0 -> forall p, (p < n)%nat -> mat_vec n A d p = 0.
Proof.
  intros S N Z. set (w := mat_vec n A d). set (c := rsum n (fun i => w i * w i)). set (q := quad n A w). assert (Q : 0 <= q) by apply N.
  assert (F : forall t, 0 <= 2 * t * c + t * t * q).
  { intros t. replace (2 * t * c + t * t * q) with (quad n A (fun i => d i + t * w i)); [apply N|]. rewrite bil_quad, bil_plus_l, !(bil_plus_r n A _ d (fun i => t * w i)). rewrite <- bil_quad, Z.
    rewrite (bil_sym n A d _ S). assert (E : forall v, bil n A (fun i => t * w i) v = t * bil n A w v) by (intros v; unfold bil; rewrite <- rsum_scal_l; apply rsum_ext; intros i _; rewrite <- rsum_scal_l; apply rsum_ext; intros; ring).
    rewrite !E. rewrite (bil_sym n A w (fun i => t * w i) S), E, <- bil_quad. fold q. rewrite (bil_mat_vec n A w d). fold w. fold c. ring. }
  assert (C : 0 <= c) by (apply rsum_nonneg; intros; nra). assert (C0 : c = 0).
  { specialize (F (- c / (q + 1))). assert (E : 2 * (- c / (q + 1)) * c + - c / (q + 1) * (- c / (q + 1)) * q = - (c * c * (q + 2)) * (/ (q + 1) * / (q + 1))) by (field; lra). rewrite E in F.
    assert (P : 0 < / (q + 1) * / (q + 1)) by (apply Rmult_lt_0_compat; apply Rinv_0_lt_compat; lra). assert (0 <= - (c * c * (q + 2))) by (apply (Rmult_le_reg_r (/ (q + 1) * / (q + 1))); [exact P|]; lra). nra. }
  intros p Hp. exact (rsum_sq_zero n w C0 p Hp).
Qed.
Lemma inverse_kernel n A B d : inverse_of n A B -> (forall p, (p < n)%nat -> mat_vec n A d p = 0) -> forall p, (p < n)%nat -> d p = 0.
Proof.
  intros I Z p Hp. transitivity (rsum n (fun k => B p k * mat_vec n A d k)); [|apply rsum_zero; intros k Hk; rewrite Z by exact Hk; ring].
  unfold mat_vec. transitivity (rsum n (fun j => rsum n (fun k => B p k * A k j) * d j)).
  - rewrite (rsum_single n p); [|exact Hp|].
    + rewrite (proj2 (I p p Hp Hp)). unfold delta. rewrite Nat.eqb_refl. ring.
    + intros j Hj N. rewrite (proj2 (I p j Hp Hj)). unfold delta. rewrite (proj2 (Nat.eqb_neq p j)) by congruence. ring.
  - rewrite (rsum_ext n _ (fun j => rsum n (fun k => B p k * A k j * d j))) by (intros j Hj; rewrite rsum_scal_r; reflexivity). rewrite (rsum_swap n n (fun j k => B p k * A k j * d j)).
    apply rsum_ext. intros k Hk. rewrite <- rsum_scal_l. apply rsum_ext. intros; ring.
Qed.
Lemma gram_symmetric s n X L : symmetric s L -> symmetric n (gram s X L).
Proof. intros S p q Hp Hq. unfold gram. rewrite rsum_swap. apply rsum_ext. intros k Hk. apply rsum_ext. intros l Hl. rewrite (S l k) by assumption. ring. Qed.
Lemma gram_nonneg s r X L : nonneg_form s L -> nonneg_form r (gram s X L).
Proof.
  intros N v. replace (quad r (gram s X L) v) with (quad s L (mat_vec r X v)); [apply N|]. rewrite !bil_quad, bil_design, bil_mat_vec. apply rsum_ext. intros p _. rewrite weighted_design. reflexivity.
Qed.
Lemma posterior_symmetric e s r X L P : symmetric s L -> symmetric r P -> symmetric r (posterior_matrix e s X L P).
Proof. intros S1 S2 p q Hp Hq. unfold posterior_matrix. rewrite (gram_symmetric s r X L S1 p q Hp Hq), (S2 p q Hp Hq). reflexivity. Qed.
Lemma posterior_nonneg e s r X L P : nonneg_form s L -> nonneg_form r P -> nonneg_form r (posterior_matrix e s X L P).
Proof.
  intros N1 N2 v. replace (quad r (posterior_matrix e s X L P) v) with (INR (nprod e) * quad r (gram s X L) v + quad r P v).
  - assert (0 <= quad r (gram s X L) v) by (apply gram_nonneg; exact N1). assert (0 <= quad r P v) by apply N2. assert (0 <= INR (nprod e)) by apply pos_INR. nra.
  - unfold quad. rewrite <- rsum_scal_l, <- rsum_plus. apply rsum_ext. intros i _. rewrite <- rsum_scal_l, <- rsum_plus. apply rsum_ext. intros j _. unfold posterior_matrix. ring.
Qed.
Lemma transposed_stack inv b r A : (forall i, index b i -> symmetric r (A i)) -> inverts_stack inv b r A -> inverts_stack inv b r (fun i => transpose (A i)) /\ mat_stack b r r (fun i => transpose (A i)) = mat_stack b r r A.
Proof.
  intros S [B [E I]]. assert (M : mat_stack b r r (fun i => transpose (A i)) = mat_stack b r r A) by (apply mat_stack_ext; intros i p q Hi Hp Hq; unfold transpose; apply S; assumption).
  split; [|exact M]. exists B. rewrite M. split; [exact E|]. intros i Hi p q Hp Hq. destruct (I i Hi p q Hp Hq) as [I1 I2]. split.
  - rewrite <- I1. apply rsum_ext. intros k Hk. unfold transpose. rewrite (S i Hi k p) by assumption. reflexivity.
  - rewrite <- I2. apply rsum_ext. intros k Hk. unfold transpose. rewrite (S i Hi q k) by assumption. reflexivity.
Qed.
Lemma minimiser e s r X L y P m mu B : symmetric s L -> symmetric r P -> nonneg_form s L -> nonneg_form r P -> inverse_of r (posterior_matrix e s X L P) B ->
  (forall p, (p < r)%nat -> mat_vec r (posterior_matrix e s X L P) mu p = weighted s X L (fun l => total e (fun j => y j l)) p + mat_vec r P m p) ->
  forall beta, penalised e s r X L y P m mu <= penalised e s r X L y P m beta /\
    (penalised e s r X L y P m beta = penalised e s r X L y P m mu -> forall p, (p < r)%nat -> beta p = mu p).
Proof.
  intros SL SP NL NP I H beta. rewrite (complete_square e s r X L y P m mu beta SL SP H). assert (Q := posterior_nonneg e s r X L P NL NP (fun p => beta p - mu p)). split; [lra|].
  intros E p Hp. assert (Z : quad r (posterior_matrix e s X L P) (fun p => beta p - mu p) = 0) by lra.
  assert (K := psd_kernel r _ _ (posterior_symmetric e s r X L P SL SP) (posterior_nonneg e s r X L P NL NP) Z). assert (D := inverse_kernel r _ B _ I K p Hp). cbn beta in D. lra.
Qed.
Section Minimise.
Variable inv : nd R -> res (nd R).
Lemma posterior_minimises b e s r y X info L m P : weights b s info L -> (forall i, index b i -> symmetric s (L i) /\ symmetric r (P i) /\ nonneg_form s (L i) /\ nonneg_form r (P i)) ->
  inverts_stack inv b r (fun i => posterior_matrix e s (X i) (L i) (P i)) -> exists mu,
  get_posterior_regression_coefficients inv (vec_stack (b ++ e) s y) (mat_stack b s r X) info (vec_stack b r m) (mat_stack b r r P) =
    Ok (vec_stack b r mu, mat_stack b r r (fun i => posterior_matrix e s (X i) (L i) (P i))) /\
  forall i, index b i -> let cost := penalised e s r (X i) (L i) (fun j => y (i ++ j)%list) (P i) (m i) in
    forall beta, cost (mu i) <= cost beta /\ (cost beta = cost (mu i) -> forall p, (p < r)%nat -> beta p = mu i p).
Proof.
  intros W H I. destruct (transposed_stack inv b r _ (fun i Hi => posterior_symmetric e s r (X i) (L i) (P i) (proj1 (H i Hi)) (proj1 (proj2 (H i Hi)))) I) as [I' M].
  destruct (posterior_solves inv b e s r y X info L m P W I') as [mu [E N]]. exists mu. split; [rewrite E, M; reflexivity|]. intros i Hi cost beta. destruct (H i Hi) as [SL [SP [NL NP]]]. destruct I as [B [_ IB]].
  exact (minimiser e s r (X i) (L i) (fun j => y (i ++ j)%list) (P i) (m i) (mu i) (B i) SL SP NL NP (IB i Hi) (fun p Hp => N i p Hi Hp) beta).
Qed.
Lemma regression_minimises b e s r y X info L : weights b s info L -> (forall i, index b i -> symmetric s (L i) /\ nonneg_form s (L i)) ->
  inverts_stack inv b r (fun i p q => INR (nprod e) * gram s (X i) (L i) p q) -> exists mu,
  get_regression_coefficients inv (vec_stack (b ++ e) s y) (mat_stack b s r X) info = Ok (vec_stack b r mu) /\
  forall i, index b i -> let cost := sq_error e s r (X i) (L i) (fun j => y (i ++ j)%list) in
    forall beta, cost (mu i) <= cost beta /\ (cost beta = cost (mu i) -> forall p, (p < r)%nat -> beta p = mu i p).
Proof.
  intros W H I. set (Z := fun _ _ : nat => 0). assert (SZ : symmetric r Z) by (intros p q _ _; reflexivity).
  assert (NZ : nonneg_form r Z) by (intros v; unfold quad; rewrite rsum_zero; [lra|]; intros j _; apply rsum_zero; intros; unfold Z; ring).
  assert (I0 : inverts_stack inv b r (fun i => posterior_matrix e s (X i) (L i) Z)).
  { destruct I as [B [E IB]]. exists B. split.
    - rewrite <- E. f_equal. apply mat_stack_ext. intros i p q _ _ _. unfold posterior_matrix, Z. ring.
    - intros i Hi p q Hp Hq. destruct (IB i Hi p q Hp Hq) as [A1 A2]. rewrite <- A1 at 1. rewrite <- A2. split; apply rsum_ext; intros k Hk; unfold posterior_matrix, Z; ring. }
  destruct (transposed_stack inv b r _ (fun i Hi => posterior_symmetric e s r (X i) (L i) Z (proj1 (H i Hi)) SZ) I0) as [I' M].
  destruct (regression_solves inv b e s r y X info L W I') as [mu [E N]]. exists mu. split; [exact E|]. intros i Hi cost beta. destruct (H i Hi) as [SL NL]. destruct I0 as [B [_ IB]].
  assert (G : forall p, (p < r)%nat -> mat_vec r (posterior_matrix e s (X i) (L i) Z) (mu i) p = weighted s (X i) (L i) (fun l => total e (fun j => y (i ++ j)%list l)) p + mat_vec r Z (fun _ => 0) p).
  { intros p Hp. rewrite <- (N i p Hi Hp). replace (mat_vec r Z (fun _ => 0) p) with 0 by (symmetry; apply rsum_zero; intros; ring). rewrite Rplus_0_r. apply rsum_ext. intros k Hk. unfold posterior_matrix, Z. ring. }
  destruct (minimiser e s r (X i) (L i) (fun j => y (i ++ j)%list) Z (fun _ => 0) (mu i) (B i) SL SZ NL NZ (IB i Hi) G beta) as [D1 D2].
  assert (P0 : forall t, penalised e s r (X i) (L i) (fun j => y (i ++ j)%list) Z (fun _ => 0) t = cost t).
  { intros t. unfold penalised, cost, quad. rewrite (rsum_zero r); [ring|]. intros j _. apply rsum_zero. intros k _. unfold Z. ring. }
  rewrite !P0 in D1, D2. split; assumption.
Qed.
End Minimise.
Lemma mat_stack_every (a : nd R) b n m : nd_wf a -> shape a = (b ++ [n; m])%list -> a = mat_stack b n m (fun i j k => nd_at 0 a (i ++ [j; k])%list).
Proof. intros W S. rewrite (mk_nd_eta 0 a W) at 1. rewrite S. apply to_mat_stack. reflexivity. Qed.
Lemma vec_stack_every (a : nd R) b n : nd_wf a -> shape a = (b ++ [n])%list -> a = vec_stack b n (fun i j => nd_at 0 a (i ++ [j])%list).
Proof. intros W S. rewrite (mk_nd_eta 0 a W) at 1. rewrite S. apply to_vec_stack. reflexivity. Qed.
