(** numpy arrays: a shape and the entries in row-major order. *)
From Coq Require Import List Arith Lia Bool.
From Verif Require Import Res.
Import ListNotations.

Record nd (A : Type) := Nd { shape : list nat; data : list A }.
Arguments Nd {A} shape data.
Arguments shape {A} n.
Arguments data {A} n.

Definition nprod (s : list nat) : nat := fold_right Nat.mul 1 s.
(** arr.size *)
Definition nd_size {A} (a : nd A) : nat := nprod (shape a).
(** every array the code can hold satisfies this *)
Definition nd_wf {A} (a : nd A) : Prop := length (data a) = nprod (shape a).

Definition shape_eqb (s t : list nat) : bool := if list_eq_dec Nat.eq_dec s t then true else false.

Definition nd_map {A B} (f : A -> B) (a : nd A) : nd B := Nd (shape a) (map f (data a)).
(** elementwise f(a, b) of two arrays of the same shape *)
Fixpoint map2 {A B C} (f : A -> B -> C) (l : list A) (m : list B) : list C :=
  match l, m with x :: xs, y :: ys => f x y :: map2 f xs ys | _, _ => [] end.

(** a 0-d array (also used for Python floats), and a 1-d array *)
Definition nd_scalar {A} (x : A) : nd A := Nd [] [x].
Definition nd_vec {A} (l : list A) : nd A := Nd [length l] l.

(** np.full(shape, v) *)
Definition np_full {A} (s : list nat) (v : A) : nd A := Nd s (repeat v (nprod s)).
(** np.reshape / arr.reshape (ValueError when the number of entries differs) *)
Definition np_reshape {A} (a : nd A) (s : list nat) : res (nd A) :=
  if Nat.eqb (nd_size a) (nprod s) then Ok (Nd s (data a)) else Raise ValueError.
(** arr.flatten() *)
Definition np_flatten {A} (a : nd A) : nd A := Nd [nprod (shape a)] (data a).
(** len(arr): TypeError for 0-d *)
Definition np_len {A} (a : nd A) : res nat :=
  match shape a with [] => Raise TypeError | n :: _ => Ok n end.

(** l[lo:hi] on a Python list / rows *)
Definition slice {A} (l : list A) (lo hi : nat) : list A := firstn (hi - lo) (skipn lo l).
(** arr[lo:hi] (slicing the first axis, out of range bounds are clipped) *)
Definition np_slice {A} (a : nd A) (lo hi : nat) : res (nd A) :=
  match shape a with
  | [] => Raise IndexError
  | n :: rest =>
      let lo' := Nat.min lo n in
      let hi' := Nat.min hi n in
      let st := nprod rest in
      Ok (Nd ((hi' - lo') :: rest) (slice (data a) (lo' * st) (hi' * st)))
  end.

(** np.atleast_1d *)
Definition at_least_1d {A} (a : nd A) : nd A :=
  match shape a with [] => Nd [1] (data a) | _ => a end.
(** np.hstack (numpy: atleast_1d on each, axis 0 if the first is 1-d, else axis 1). *)
Definition np_hstack {A} (l : list (nd A)) : res (nd A) :=
  match map at_least_1d l with
  | [] => Raise ValueError
  | a0 :: rest =>
      let arrs := a0 :: rest in
      match shape a0 with
      | [] => Raise ValueError
      | [_] =>
          if forallb (fun a => match shape a with [_] => true | _ => false end) arrs
          then Ok (Nd [fold_right Nat.add 0 (map nd_size arrs)] (concat (map data arrs)))
          else Raise ValueError
      | r :: _ :: tl =>
          if forallb (fun a => match shape a with
                               | r' :: _ :: tl' => Nat.eqb r r' && shape_eqb tl tl'
                               | _ => false end) arrs
          then
            let width a := match shape a with _ :: c :: _ => c | _ => 0 end in
            Ok (Nd (r :: fold_right Nat.add 0 (map width arrs) :: tl)
                   (flat_map (fun i => flat_map (fun a =>
                        let w := width a * nprod tl in slice (data a) (i * w) (i * w + w)) arrs)
                      (seq 0 r)))
          else Raise ValueError
      end
  end.

(** np.ravel_multi_index(idx, shape) for one in-range index tuple (row-major) *)
Fixpoint ravel (idx s : list nat) : nat :=
  match idx, s with
  | i :: is, _ :: ss => i * nprod ss + ravel is ss
  | _, _ => 0
  end.
(** itertools.product(range(0,s0), range(0,s1), ...): last index fastest *)
Fixpoint product (s : list nat) : list (list nat) :=
  match s with
  | [] => [[]]
  | n :: ss => flat_map (fun i => map (cons i) (product ss)) (seq 0 n)
  end.

(** ---- 2-d arrays ---- *)
Definition mk_mat {A} (n m : nat) (f : nat -> nat -> A) : nd A :=
  Nd [n; m] (flat_map (fun i => map (f i) (seq 0 m)) (seq 0 n)).
Definition ncols {A} (a : nd A) : nat := match shape a with [_; m] => m | _ => 0 end.
Definition nrows {A} (a : nd A) : nat := match shape a with [n; _] => n | _ => 0 end.
Definition mget {A} (d : A) (a : nd A) (i j : nat) : A := nth (i * ncols a + j) (data a) d.

(** ---- basic lemmas ---- *)
Lemma nprod_app s t : nprod (s ++ t) = nprod s * nprod t.
Proof. unfold nprod. induction s as [|x xs IH]; simpl; [lia|]. rewrite IH. lia. Qed.

Lemma slice_length {A} (l : list A) lo hi : hi <= length l -> length (slice l lo hi) = hi - lo.
Proof. intros H. unfold slice. rewrite firstn_length, skipn_length. lia. Qed.
Lemma slice_app1 {A} (l m : list A) : slice (l ++ m) 0 (length l) = l.
Proof. unfold slice. rewrite Nat.sub_0_r. simpl. rewrite firstn_app, Nat.sub_diag, firstn_all. simpl. apply app_nil_r. Qed.
Lemma slice_app_skip {A} (l m : list A) lo hi :
  length l <= lo -> slice (l ++ m) lo hi = slice m (lo - length l) (hi - length l).
Proof.
  intros H. unfold slice. rewrite skipn_app. rewrite skipn_all2 by lia. simpl.
  f_equal. lia.
Qed.
Lemma slice_all {A} (l : list A) : slice l 0 (length l) = l.
Proof. unfold slice. rewrite Nat.sub_0_r. simpl. apply firstn_all. Qed.
Lemma slice_map {A B} (f : A -> B) l lo hi : slice (map f l) lo hi = map f (slice l lo hi).
Proof. unfold slice. rewrite skipn_map, firstn_map. reflexivity. Qed.
Lemma nth_skipn' {A} (l : list A) k i d : nth i (skipn k l) d = nth (k + i) l d.
Proof.
  revert k; induction l as [|x xs IH]; intros k.
  - rewrite skipn_nil. destruct i, k; reflexivity.
  - destruct k as [|k]; [reflexivity|]. simpl. apply IH.
Qed.
Lemma nth_firstn' {A} (l : list A) k i d : i < k -> nth i (firstn k l) d = nth i l d.
Proof.
  revert k i; induction l as [|x xs IH]; intros k i H.
  - rewrite firstn_nil. reflexivity.
  - destruct k as [|k]; [lia|]. destruct i as [|i]; [reflexivity|]. simpl. apply IH. lia.
Qed.
Lemma nth_slice {A} (l : list A) lo hi i d : i < hi - lo -> nth i (slice l lo hi) d = nth (lo + i) l d.
Proof. intros H. unfold slice. rewrite nth_firstn' by exact H. apply nth_skipn'. Qed.

Lemma nth_flat_map_seq {A} (f : nat -> nat -> A) n m i j d :
  i < n -> j < m ->
  nth (i * m + j) (flat_map (fun i => map (f i) (seq 0 m)) (seq 0 n)) d = f i j.
Proof.
  assert (G : forall n s i, i < n ->
      j < m -> nth (i * m + j) (flat_map (fun i => map (f i) (seq 0 m)) (seq s n)) d = f (s + i) j).
  { clear n i. induction n as [|n IH]; intros s i Hi Hj; [lia|]. simpl.
    destruct i as [|i].
    - simpl. rewrite app_nth1 by (rewrite map_length, seq_length; exact Hj).
      rewrite (nth_indep _ d (f s 0)) by (rewrite map_length, seq_length; exact Hj).
      rewrite (map_nth (f s)). rewrite seq_nth by exact Hj. rewrite Nat.add_0_r. reflexivity.
    - rewrite app_nth2; rewrite map_length, seq_length; [|simpl; lia].
      replace (S i * m + j - m) with (i * m + j) by (simpl; lia).
      rewrite IH by lia. f_equal. lia. }
  intros Hi Hj. rewrite G by assumption. reflexivity.
Qed.
Lemma length_flat_map_const {A B} (f : A -> list B) l m :
  (forall x, In x l -> length (f x) = m) -> length (flat_map f l) = length l * m.
Proof.
  induction l as [|x xs IH]; simpl; intros H; [reflexivity|].
  rewrite app_length, H by (left; reflexivity). rewrite IH; [lia|]. intros; apply H; right; assumption.
Qed.
Lemma mget_mk_mat {A} (d : A) n m f i j : i < n -> j < m -> mget d (mk_mat n m f) i j = f i j.
Proof. intros Hi Hj. unfold mget, mk_mat, ncols. simpl. apply nth_flat_map_seq; assumption. Qed.
Lemma mk_mat_wf {A} n m (f : nat -> nat -> A) : nd_wf (mk_mat n m f).
Proof.
  unfold nd_wf, mk_mat; simpl. rewrite (length_flat_map_const _ _ m).
  - rewrite seq_length. lia.
  - intros; rewrite map_length, seq_length; reflexivity.
Qed.
Lemma mk_mat_ext {A} n m (f g : nat -> nat -> A) :
  (forall i j, i < n -> j < m -> f i j = g i j) -> mk_mat n m f = mk_mat n m g.
Proof.
  intros H. unfold mk_mat. f_equal.
  assert (G : forall l, (forall i, In i l -> i < n) ->
     flat_map (fun i => map (f i) (seq 0 m)) l = flat_map (fun i => map (g i) (seq 0 m)) l).
  { induction l as [|x xs IH]; simpl; intros Hl; [reflexivity|].
    rewrite IH by (intros; apply Hl; right; assumption). f_equal.
    apply map_ext_in. intros j Hj. apply in_seq in Hj. apply H; [apply Hl; left; reflexivity|lia]. }
  apply G. intros i Hi. apply in_seq in Hi. lia.
Qed.
Lemma nd_eq_nth {A} (a b : list A) d : length a = length b -> (forall i, i < length a -> nth i a d = nth i b d) -> a = b.
Proof. intros; eapply nth_ext; eauto. Qed.
Lemma mk_mat_eta {A} (d : A) n m (a : nd A) : shape a = [n; m] -> nd_wf a -> a = mk_mat n m (mget d a).
Proof.
  intros Hs Hw. destruct a as [s l]; simpl in *. subst s. unfold nd_wf in Hw; simpl in Hw.
  unfold mk_mat. f_equal. apply (nd_eq_nth _ _ d).
  - generalize (mk_mat_wf n m (mget d (Nd [n; m] l))). unfold nd_wf; simpl. intros ->. lia.
  - intros i Hi. assert (Hm : m <> 0) by (intros ->; lia).
    pose proof (Nat.div_mod i m Hm) as E. pose proof (Nat.mod_upper_bound i m Hm) as Hr.
    assert (Hq : i / m < n) by (apply Nat.div_lt_upper_bound; lia).
    rewrite E. rewrite (Nat.mul_comm m). rewrite nth_flat_map_seq by assumption.
    unfold mget, ncols; simpl. reflexivity.
Qed.
Lemma nd_map_wf {A B} (f : A -> B) a : nd_wf a -> nd_wf (nd_map f a).
Proof. unfold nd_wf; simpl. rewrite map_length. auto. Qed.
Lemma np_full_wf {A} s (v : A) : nd_wf (np_full s v).
Proof. unfold nd_wf; simpl. apply repeat_length. Qed.
Lemma nd_vec_wf {A} (l : list A) : nd_wf (nd_vec l).
Proof. unfold nd_wf, nd_vec; simpl. lia. Qed.
Lemma shape_eqb_true s t : shape_eqb s t = true <-> s = t.
Proof. unfold shape_eqb. destruct (list_eq_dec Nat.eq_dec s t); split; intros; try easy. Qed.
Lemma shape_eqb_refl s : shape_eqb s s = true.
Proof. apply shape_eqb_true; reflexivity. Qed.
Lemma nprod_nil : nprod [] = 1.
Proof. reflexivity. Qed.
Lemma nprod_cons n s : nprod (n :: s) = n * nprod s.
Proof. reflexivity. Qed.
Lemma nprod_1 n : nprod [n] = n.
Proof. unfold nprod; simpl; lia. Qed.
Lemma nprod_2 n m : nprod [n; m] = n * m.
Proof. unfold nprod; simpl; lia. Qed.
#[global] Arguments nprod s : simpl never.
