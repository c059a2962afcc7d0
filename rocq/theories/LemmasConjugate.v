(** Proofs about masks and masked solves. *)
From Coq Require Import Reals List Bool Arith ZArith Lia Lra.
From Verif Require Import Res RSum Nd ModelAutograd ModelObjective SpecObjective ModelConjugate SpecConjugate LemmasParameters LemmasMatrix LemmasDict LemmasPrecond SpecSensitivity LemmasSmooth.
Import List ListNotations.
Open Scope R_scope.
Set Bullet Behavior "Strict Subproofs".

Lemma count_trues m : count m = trues m.
Proof. unfold count, trues. induction m as [|[|] m IH]; cbn; [reflexivity| |]; [destruct (bool_dec true true); [|congruence]|]; cbn; rewrite ?IH; reflexivity. Qed.
Lemma on_nth m i : on m i <-> nth i m false = true.
Proof.
  unfold on. split; [intros H; apply (nth_error_nth m i false H)|]. intros H. destruct (nth_error m i) as [b|] eqn:E; [rewrite (nth_error_nth m i false E) in H; congruence|].
  apply nth_error_None in E. rewrite nth_overflow in H by exact E. discriminate.
Qed.
Lemma set_true_length idx : forall m, length (set_true m idx) = length m.
Proof. induction idx as [|i idx IH]; intros m; cbn; [reflexivity|]. rewrite IH. apply upd_length. Qed.
Lemma nth_set_true idx : forall m, (forall i, In i idx -> (i < length m)%nat) -> forall i, nth i (set_true m idx) false = true <-> nth i m false = true \/ In i idx.
Proof.
  induction idx as [|j idx IH]; intros m Hm i; cbn; [tauto|]. rewrite IH.
  - rewrite nth_upd by (apply Hm; now left). destruct (Nat.eqb_spec i j) as [->|N]; [intuition|]. split; [intuition|]. intros [H|[H|H]]; [now left|congruence|now right].
  - intros k Hk. rewrite upd_length. apply Hm. now right.
Qed.
Lemma in_argwhere m i : In i (argwhere m) <-> nth i m false = true.
Proof.
  unfold argwhere. rewrite filter_In, in_seq. split; [tauto|]. intros H. split; [|exact H]. split; [lia|]. destruct (Nat.ltb_spec i (length m)); [lia|]. rewrite nth_overflow in H by lia. discriminate.
Qed.
Lemma argwhere_nil : argwhere [] = []. Proof. reflexivity. Qed.
Lemma filter_map_S P l : filter P (map S l) = map S (filter (fun i => P (S i)) l).
Proof. induction l as [|k l IH]; [reflexivity|]. cbn [map filter]. rewrite IH. destruct (P (S k)); reflexivity. Qed.
Lemma argwhere_cons b m : argwhere (b :: m) = (if b then [0%nat] else []) ++ map S (argwhere m).
Proof.
  unfold argwhere. change (length (b :: m)) with (S (length m)). cbn [seq]. rewrite <- seq_shift. cbn [filter]. rewrite filter_map_S. cbn [nth]. destruct b; reflexivity.
Qed.
Lemma argwhere_length m : length (argwhere m) = trues m.
Proof.
  unfold trues. induction m as [|b m IH]; [reflexivity|]. rewrite argwhere_cons, app_length, map_length, IH. destruct b; cbn; [destruct (bool_dec true true); [|congruence]|]; reflexivity.
Qed.
(** position of an index in argwhere is its rank *)
Lemma argwhere_rank m : forall i, nth i m false = true -> nth_error (argwhere m) (rank m i) = Some i.
Proof.
  induction m as [|b m IH]; intros i H; [destruct i; discriminate|]. rewrite argwhere_cons. destruct i as [|i].
  - cbn in H. subst b. reflexivity.
  - cbn [nth] in H. specialize (IH i H). assert (R : rank (b :: m) (S i) = ((if b then 1 else 0) + rank m i)%nat).
    { unfold rank. cbn [firstn count_occ]. destruct b; [destruct (bool_dec true true); [reflexivity|congruence]|]. destruct (bool_dec false true); [discriminate|reflexivity]. }
    rewrite R. destruct b; cbn [app Nat.add nth_error]; apply (map_nth_error S) in IH; exact IH.
Qed.
Lemma argwhere_NoDup m : NoDup (argwhere m).
Proof. apply NoDup_filter, seq_NoDup. Qed.
Lemma in_firstn_rank m k i : In i (firstn k (argwhere m)) <-> nth i m false = true /\ (rank m i < k)%nat.
Proof.
  split.
  - intros H. assert (Hi : nth i m false = true) by (apply in_argwhere; rewrite <- (firstn_skipn k (argwhere m)); apply in_or_app; now left). split; [exact Hi|].
    apply In_nth_error in H. destruct H as [j Hj]. assert (Lj : (j < k)%nat). { assert (j < length (firstn k (argwhere m)))%nat by (apply nth_error_Some; congruence). pose proof (firstn_le_length k (argwhere m)). rewrite firstn_length in H. lia. }
    assert (Hj' : nth_error (argwhere m) j = Some i). { rewrite <- (firstn_skipn k (argwhere m)), nth_error_app1; [exact Hj|]. apply nth_error_Some. congruence. }
    pose proof (argwhere_rank m i Hi) as Hr. assert (j = rank m i); [|lia]. apply (proj1 (NoDup_nth_error _) (argwhere_NoDup m)); [apply nth_error_Some; congruence|congruence].
  - intros [Hi Hr]. pose proof (argwhere_rank m i Hi) as E. rewrite <- (firstn_skipn k (argwhere m)) in E.
    assert (L : (rank m i < length (firstn k (argwhere m)))%nat). { rewrite firstn_length. apply Nat.min_glb_lt; [exact Hr|]. apply nth_error_Some. rewrite (argwhere_rank m i Hi). discriminate. }
    rewrite nth_error_app1 in E by exact L. apply nth_error_In in E. exact E.
Qed.
Lemma in_skipn_rank m k i : In i (skipn k (argwhere m)) <-> nth i m false = true /\ (k <= rank m i)%nat.
Proof.
  assert (D : forall i, In i (skipn k (argwhere m)) -> ~ In i (firstn k (argwhere m))).
  { intros j Hs Hf. pose proof (argwhere_NoDup m) as N. rewrite <- (firstn_skipn k (argwhere m)) in N. clear -N Hs Hf.
    induction (firstn k (argwhere m)) as [|x l IH]; [destruct Hf|]. cbn in N. inversion N; subst. destruct Hf as [->|Hf]; [apply H1, in_or_app; now right|]. apply IH; assumption. }
  split.
  - intros H. assert (Hi : nth i m false = true) by (apply in_argwhere; rewrite <- (firstn_skipn k (argwhere m)); apply in_or_app; now right). split; [exact Hi|].
    destruct (Nat.le_gt_cases k (rank m i)); [assumption|]. exfalso. apply (D i H). apply in_firstn_rank. tauto.
  - intros [Hi Hr]. assert (I : In i (argwhere m)) by (apply in_argwhere; exact Hi). rewrite <- (firstn_skipn k (argwhere m)) in I. apply in_app_or in I. destruct I as [I|I]; [|exact I].
    apply in_firstn_rank in I. lia.
Qed.
Lemma nth_repeat_false n i : nth i (repeat false n) false = false.
Proof. revert i. induction n as [|n IH]; intros [|i]; cbn; auto. Qed.
Lemma split_vector_spec vec : let '(m1, m2) := split_vector vec in
  length m1 = length vec /\ length m2 = length vec /\
  (forall i, on m1 i <-> on vec i /\ (rank vec i < trues vec / 2)%nat) /\ (forall i, on m2 i <-> on vec i /\ (trues vec / 2 <= rank vec i)%nat).
Proof.
  unfold split_vector. rewrite argwhere_length. set (n := trues vec). pose proof (Nat.div_le_upper_bound n 2 n ltac:(lia) ltac:(lia)) as Hn.
  assert (B : forall l, (forall i, In i l -> In i (argwhere vec)) -> forall i, In i l -> (i < length (repeat false (length vec)))%nat).
  { intros l Hl i Hi. rewrite repeat_length. apply Hl, in_argwhere in Hi. destruct (Nat.ltb_spec i (length vec)); [assumption|]. rewrite nth_overflow in Hi by assumption. discriminate. }
  assert (B1 := B (firstn (n / 2) (argwhere vec)) (fun i H => proj2 (in_argwhere vec i) (proj1 (proj1 (in_firstn_rank vec _ i) H)))).
  assert (S2 : firstn (n - n / 2) (skipn (n / 2) (argwhere vec)) = skipn (n / 2) (argwhere vec)) by (apply firstn_all2; rewrite skipn_length, argwhere_length; fold n; lia).
  rewrite S2. assert (B2 := B (skipn (n / 2) (argwhere vec)) (fun i H => proj2 (in_argwhere vec i) (proj1 (proj1 (in_skipn_rank vec _ i) H)))).
  split; [|split; [|split]].
  - destruct (Nat.ltb 0 (n / 2)); rewrite ?set_true_length; apply repeat_length.
  - destruct (Nat.ltb 0 (n - n / 2)); rewrite ?set_true_length; apply repeat_length.
  - intros i. rewrite !on_nth. destruct (Nat.ltb_spec 0 (n / 2)) as [L|L].
    + rewrite (nth_set_true _ _ B1), nth_repeat_false, in_firstn_rank. intuition discriminate.
    + rewrite nth_repeat_false. split; [discriminate|]. lia.
  - intros i. rewrite !on_nth. destruct (Nat.ltb_spec 0 (n - n / 2)) as [L|L].
    + rewrite (nth_set_true _ _ B2), nth_repeat_false, in_skipn_rank. intuition discriminate.
    + rewrite nth_repeat_false. split; [discriminate|]. intros [H1 H2]. assert (n = 0%nat) by (destruct n as [|[|n]]; [reflexivity|cbn in L; lia|]; pose proof (Nat.div_lt (S (S n)) 2); lia).
      apply in_argwhere in H1. destruct (argwhere vec) eqn:E; [destruct H1|]. pose proof (argwhere_length vec) as Q. rewrite E in Q. fold n in Q. cbn in Q. lia.
Qed.
(** the number of true entries of a mask that selects by rank *)
Lemma trues_by_rank vec : forall m (P : nat -> bool) k, length m = length vec -> (forall i, on m i <-> on vec i /\ P (k + rank vec i)%nat = true) ->
  trues m = length (filter P (seq k (trues vec))).
Proof.
  induction vec as [|b vec IH]; intros [|c m] P k L H; try discriminate; [reflexivity|].
  assert (Hm : forall i, on m i <-> on vec i /\ P ((k + (if b then 1 else 0)) + rank vec i)%nat = true).
  { intros i. specialize (H (S i)). unfold on in *. cbn [nth_error] in H. rewrite H. assert (R : rank (b :: vec) (S i) = ((if b then 1 else 0) + rank vec i)%nat).
    { unfold rank. cbn [firstn count_occ]. destruct b; [destruct (bool_dec true true); [reflexivity|congruence]|]. destruct (bool_dec false true); [discriminate|reflexivity]. }
    rewrite R, Nat.add_assoc. tauto. }
  specialize (IH m P _ ltac:(cbn in L; lia) Hm). assert (H0 := H 0%nat). unfold on in H0. cbn [nth_error] in H0. unfold rank in H0. cbn [firstn count_occ] in H0. rewrite Nat.add_0_r in H0.
  assert (Tc : forall x l, trues (x :: l) = ((if x then 1 else 0) + trues l)%nat).
  { intros x l. unfold trues. cbn [count_occ]. destruct x; [destruct (bool_dec true true); [reflexivity|congruence]|]. destruct (bool_dec false true); [discriminate|reflexivity]. }
  rewrite !Tc, IH. destruct b.
  - cbn [Nat.add seq filter]. rewrite Nat.add_1_r. destruct c, (P k) eqn:E; cbn [length]; try reflexivity; exfalso; destruct H0 as [A B]; [destruct (A eq_refl); discriminate|]. specialize (B ltac:(auto)). discriminate.
  - destruct c; [destruct H0 as [A _]; destruct (A eq_refl); discriminate|]. rewrite Nat.add_0_r. reflexivity.
Qed.
Lemma filter_lt k a n : (a <= n)%nat -> length (filter (fun i => Nat.ltb i (k + a)) (seq k n)) = a.
Proof.
  revert k a. induction n as [|n IH]; intros k a H; [assert (a = 0%nat) by lia; subst; reflexivity|]. cbn [seq filter]. destruct a as [|a].
  - rewrite Nat.add_0_r. rewrite Nat.ltb_irrefl. specialize (IH (S k) 0%nat ltac:(lia)). clear -IH.
    assert (G : forall l, (forall i, In i l -> (k < i)%nat) -> filter (fun i => Nat.ltb i k) l = []). { induction l as [|x l IHl]; intros Hl; [reflexivity|]. cbn [filter]. destruct (Nat.ltb_spec x k); [specialize (Hl x (or_introl eq_refl)); lia|]. apply IHl. intros i Hi. apply Hl. now right. }
    rewrite G; [reflexivity|]. intros i Hi. apply in_seq in Hi. lia.
  - destruct (Nat.ltb_spec k (k + S a)); [|lia]. cbn [length]. f_equal. etransitivity; [|exact (IH (S k) a ltac:(lia))]. f_equal. apply filter_ext. intros i. f_equal. lia.
Qed.
Lemma filter_compl {A} (P : A -> bool) l : (length (filter P l) + length (filter (fun x => negb (P x)) l) = length l)%nat.
Proof. induction l as [|x l IH]; cbn; [reflexivity|]. destruct (P x); cbn; lia. Qed.
Lemma split_vector_sizes vec : trues (fst (split_vector vec)) = (trues vec / 2)%nat /\ trues (snd (split_vector vec)) = (trues vec - trues vec / 2)%nat.
Proof.
  pose proof (split_vector_spec vec) as S0. destruct (split_vector vec) as [m1 m2]. destruct S0 as [L1 [L2 [H1 H2]]]. cbn [fst snd]. set (n := trues vec) in *.
  pose proof (Nat.div_le_upper_bound n 2 n ltac:(lia) ltac:(lia)) as Hn.
  assert (E1 : trues m1 = length (filter (fun i => Nat.ltb i (0 + n / 2)) (seq 0 n))).
  { apply (trues_by_rank vec m1 (fun i => Nat.ltb i (0 + n / 2)) 0 L1). intros i. rewrite H1. cbn [Nat.add]. rewrite Nat.ltb_lt. tauto. }
  assert (E2 : trues m2 = length (filter (fun i => negb (Nat.ltb i (0 + n / 2))) (seq 0 n))).
  { apply (trues_by_rank vec m2 (fun i => negb (Nat.ltb i (0 + n / 2))) 0 L2). intros i. rewrite H2. cbn [Nat.add]. rewrite negb_true_iff, Nat.ltb_ge. tauto. }
  pose proof (filter_compl (fun i => Nat.ltb i (0 + n / 2)) (seq 0 n)) as C. rewrite seq_length in C. rewrite filter_lt in E1, C by lia. lia.
Qed.

(** ---- recursive_split ---- *)
Lemma hits_app a b i : hits (a ++ b) i = (hits a i + hits b i)%nat.
Proof. unfold hits. rewrite filter_app, app_length. reflexivity. Qed.
Lemma hits_one m i : hits [m] i = if nth i m false then 1%nat else 0%nat.
Proof.
  unfold hits. cbn [filter]. destruct (nth_error m i) as [b|] eqn:E; [rewrite (nth_error_nth m i false E); destruct b; reflexivity|]. apply nth_error_None in E. rewrite nth_overflow by exact E. reflexivity.
Qed.
Lemma split_partition vec ms1 ms2 : partitions (fst (split_vector vec)) ms1 -> partitions (snd (split_vector vec)) ms2 -> partitions vec (ms1 ++ ms2).
Proof.
  pose proof (split_vector_spec vec) as S0. destruct (split_vector vec) as [m1 m2]. destruct S0 as [L1 [L2 [H1 H2]]]. cbn [fst snd]. intros [A1 A2] [B1 B2]. rewrite L1 in *. rewrite L2 in *. split.
  - apply Forall_app. split; assumption.
  - intros i Hi. rewrite hits_app, A2, B2 by exact Hi. specialize (H1 i). specialize (H2 i). rewrite !on_nth in H1, H2.
    destruct (nth i m1 false) eqn:E1; destruct (nth i m2 false) eqn:E2; destruct (nth i vec false) eqn:E; intuition (try discriminate; try lia).
Qed.
Lemma recursive_split_ok T depth : (1 <= T)%Z -> forall m results, (trues m <= 2 ^ depth)%nat ->
  exists ms, recursive_split (S depth) m results T = (results ++ ms, Ok tt) /\ partitions m ms /\
    List.Forall (fun m' => (Z.min (Z.of_nat (trues m)) ((T + 1) / 2) <= Z.of_nat (trues m') <= T)%Z) ms.
Proof.
  intros HT. induction depth as [|d IH]; intros m results Hc.
  - cbn [recursive_split]. rewrite count_trues. change (2 ^ 0)%nat with 1%nat in Hc. destruct (Z.ltb_spec T (Z.of_nat (trues m))) as [L|L]; [lia|]. exists [m]. split; [reflexivity|]. split.
    + split; [repeat constructor|]. intros i Hi. apply hits_one.
    + constructor; [|constructor]. lia.
  - remember (S d) as e. cbn [recursive_split]. rewrite count_trues. destruct (Z.ltb_spec T (Z.of_nat (trues m))) as [L|L].
    + pose proof (split_vector_sizes m) as [Z1 Z2]. pose proof (split_partition m) as SP. destruct (split_vector m) as [m1 m2] eqn:Es. cbn [fst snd] in *. set (n := trues m) in *. subst e.
      pose proof (Nat.div_mod n 2 ltac:(lia)) as DM. pose proof (Nat.mod_upper_bound n 2 ltac:(lia)) as MB. change (2 ^ S d)%nat with (2 * 2 ^ d)%nat in Hc.
      destruct (IH m1 results ltac:(lia)) as [ms1 [E1 [P1 F1]]]. rewrite E1.
      destruct (IH m2 (results ++ ms1) ltac:(lia)) as [ms2 [E2 [P2 F2]]]. rewrite E2. exists (ms1 ++ ms2). rewrite app_assoc. split; [reflexivity|]. split; [apply SP; assumption|].
      assert (Q : ((T + 1) / 2 <= Z.of_nat (n / 2))%Z) by (pose proof (Z.div_mod (T + 1) 2 ltac:(lia)); pose proof (Z.mod_pos_bound (T + 1) 2 ltac:(lia)); lia).
      apply Forall_app. split; [eapply Forall_impl; [|exact F1]|eapply Forall_impl; [|exact F2]]; intros m' [A B]; cbn beta; split; lia.
    + exists [m]. split; [reflexivity|]. split.
      * split; [repeat constructor|]. intros i Hi. apply hits_one.
      * constructor; [|constructor]. lia.
Qed.
Lemma recursive_split_appends T depth : forall m results, exists ms r, recursive_split depth m results T = (results ++ ms, r) /\ (r = Ok tt \/ r = Raise RecursionError).
Proof.
  induction depth as [|d IH]; intros m results.
  - exists [], (Raise RecursionError). cbn. rewrite app_nil_r. split; [reflexivity|now right].
  - cbn [recursive_split]. destruct (Z.ltb T (Z.of_nat (count m))).
    + destruct (split_vector m) as [m1 m2]. destruct (IH m1 results) as [ms1 [r1 [E1 [->| ->]]]]; rewrite E1.
      * destruct (IH m2 (results ++ ms1)) as [ms2 [r2 [E2 H2]]]. exists (ms1 ++ ms2), r2. rewrite E2, app_assoc. split; [reflexivity|exact H2].
      * exists ms1, (Raise RecursionError). split; [reflexivity|now right].
    + exists [m], (Ok tt). split; [reflexivity|now left].
Qed.
Lemma recursive_split_diverges T depth : (T <= 0)%Z -> forall m results, (0 < trues m)%nat \/ (T < 0)%Z -> exists ms, recursive_split depth m results T = (results ++ ms, Raise RecursionError).
Proof.
  intros HT. induction depth as [|d IH]; intros m results H.
  - exists []. cbn. rewrite app_nil_r. reflexivity.
  - cbn [recursive_split]. rewrite count_trues. destruct (Z.ltb_spec T (Z.of_nat (trues m))) as [L|L]; [|lia]. pose proof (split_vector_sizes m) as [Z1 Z2]. destruct (split_vector m) as [m1 m2]. cbn [fst snd] in *.
    pose proof (Nat.div_mod (trues m) 2 ltac:(lia)) as DM. pose proof (Nat.mod_upper_bound (trues m) 2 ltac:(lia)) as MB.
    assert (H2 : (0 < trues m2)%nat \/ (T < 0)%Z) by lia.
    destruct (recursive_split_appends T d m1 results) as [ms1 [r1 [E1 [->| ->]]]]; rewrite E1.
    + destruct (IH m2 (results ++ ms1) H2) as [ms2 E2]. rewrite E2. exists (ms1 ++ ms2). rewrite app_assoc. reflexivity.
    + exists ms1. reflexivity.
Qed.

(** ---- get_masks ---- *)
Lemma range_mask_length n a b : length (range_mask n a b) = n.
Proof. unfold range_mask. rewrite map_length, seq_length. reflexivity. Qed.
Lemma range_mask_on n a b i : on (range_mask n a b) i <-> (i < n)%nat /\ (a <= Z.of_nat i < b)%Z.
Proof.
  unfold on, range_mask. destruct (Nat.ltb_spec i n) as [L|L].
  - rewrite nth_error_map, (nth_error_nth' _ 0%nat) by (rewrite seq_length; exact L). rewrite seq_nth by exact L. cbn [option_map Nat.add].
    split; [intros H; injection H as H; apply andb_prop in H; rewrite Z.leb_le, Z.ltb_lt in H; tauto|]. intros [_ [H1 H2]]. f_equal. apply andb_true_intro. rewrite Z.leb_le, Z.ltb_lt. tauto.
  - rewrite (proj2 (nth_error_None _ _)) by (rewrite map_length, seq_length; exact L). split; [discriminate|lia].
Qed.
Lemma masks_loop_nth n m fuel : (0 < m)%Z -> forall ind k, (n <= ind + Z.of_nat fuel)%Z ->
  nth_error (masks_loop fuel n m ind) k = if Z.ltb (ind + Z.of_nat k * m) n then Some (range_mask (Z.to_nat n) (ind + Z.of_nat k * m) (Z.min (ind + Z.of_nat k * m + m) n)) else None.
Proof.
  intros Hm. induction fuel as [|f IH]; intros ind k Hf.
  - cbn [masks_loop]. destruct (Z.ltb_spec (ind + Z.of_nat k * m) n); [nia|]. destruct k; reflexivity.
  - cbn [masks_loop]. destruct (Z.ltb_spec ind n) as [L|L].
    + destruct k as [|k].
      * cbn [nth_error]. replace (ind + Z.of_nat 0 * m)%Z with ind by lia. destruct (Z.ltb_spec ind n); [reflexivity|lia].
      * cbn [nth_error]. rewrite IH by lia. replace (ind + m + Z.of_nat k * m)%Z with (ind + Z.of_nat (S k) * m)%Z by lia. reflexivity.
    + destruct (Z.ltb_spec (ind + Z.of_nat k * m) n); [nia|]. destruct k; reflexivity.
Qed.
Lemma nth_error_len {A} (l : list A) n : (forall k, (nth_error l k <> None) <-> (k < n)%nat) -> length l = n.
Proof.
  intros H. destruct (Nat.lt_trichotomy (length l) n) as [L|[L|L]]; [|exact L|].
  - apply H in L. exfalso. apply L. apply nth_error_None. lia.
  - assert (N : nth_error l n <> None) by (apply nth_error_Some; exact L). apply H in N. lia.
Qed.
Lemma get_masks_spec n m : (0 < m < n)%Z -> exists ms, get_masks n m = Ok ms /\ Z.of_nat (length ms) = ((n + m - 1) / m)%Z /\
  forall k mk, nth_error ms k = Some mk -> Z.of_nat (length mk) = n /\ forall i, (i < length mk)%nat -> (on mk i <-> Z.of_nat k = (Z.of_nat i / m)%Z).
Proof.
  intros H. unfold get_masks. rewrite !(proj2 (Z.ltb_lt _ _)) by lia. cbn [rassert]. eexists. split; [reflexivity|].
  assert (N := fun k => masks_loop_nth n m (Z.to_nat n) ltac:(lia) 0 k ltac:(lia)). split.
  - pose proof (Z.div_mod (n + m - 1) m ltac:(lia)) as DM. pose proof (Z.mod_pos_bound (n + m - 1) m ltac:(lia)) as MB. set (q := ((n + m - 1) / m)%Z) in *.
    assert (0 <= q)%Z by nia. rewrite (nth_error_len _ (Z.to_nat q)); [lia|]. intros k. rewrite N. destruct (Z.ltb_spec (0 + Z.of_nat k * m) n) as [L|L].
    + split; [intros _; nia|discriminate].
    + split; [congruence|]. intros Hk. nia.
  - intros k mk. rewrite N. destruct (Z.ltb_spec (0 + Z.of_nat k * m) n) as [L|L]; [|discriminate]. intros E. injection E as <-. rewrite range_mask_length. split; [lia|]. intros i Hi. rewrite range_mask_on.
    pose proof (Z.div_mod (Z.of_nat i) m ltac:(lia)) as DM. pose proof (Z.mod_pos_bound (Z.of_nat i) m ltac:(lia)) as MB. set (q := (Z.of_nat i / m)%Z) in *. split.
    + intros [_ [A B]]. nia.
    + intros E. split; [exact Hi|]. nia.
Qed.
Lemma get_masks_rejects n m : ~ (0 < m < n)%Z -> get_masks n m = Raise AssertionError.
Proof. intros H. unfold get_masks. destruct (Z.ltb_spec 0 m); [|reflexivity]. destruct (Z.ltb_spec m n); [lia|reflexivity]. Qed.
Lemma filter_none {A} (P : A -> bool) l : (forall x, In x l -> P x = false) -> filter P l = [].
Proof. induction l as [|x l IH]; intros H; [reflexivity|]. cbn [filter]. rewrite (H x (or_introl eq_refl)). apply IH. intros y Hy. apply H. now right. Qed.
Lemma filter_all {A} (P : A -> bool) l : (forall x, In x l -> P x = true) -> filter P l = l.
Proof. induction l as [|x l IH]; intros H; [reflexivity|]. cbn [filter]. rewrite (H x (or_introl eq_refl)). f_equal. apply IH. intros y Hy. apply H. now right. Qed.
Lemma filter_unique {A} (P : A -> bool) l : forall k0, (k0 < length l)%nat -> (forall k x, nth_error l k = Some x -> P x = Nat.eqb k k0) -> length (filter P l) = 1%nat.
Proof.
  induction l as [|x l IH]; intros k0 L H; [cbn in L; lia|]. cbn [filter]. pose proof (H 0%nat x eq_refl) as H0. destruct k0 as [|k0].
  - cbn in H0. rewrite H0. rewrite filter_none; [reflexivity|]. intros y Hy. apply In_nth_error in Hy. destruct Hy as [k Hk]. exact (H (S k) y Hk).
  - cbn in H0. rewrite H0. apply (IH k0); [cbn in L; lia|]. intros k y Hk. exact (H (S k) y Hk).
Qed.
Lemma trues_map {A} (f : A -> bool) l : trues (map f l) = length (filter f l).
Proof. rewrite <- count_trues. unfold count. induction l as [|x l IH]; [reflexivity|]. cbn [map filter]. destruct (f x); cbn [length]; rewrite IH; reflexivity. Qed.
Lemma range_mask_trues n a b : (0 <= a <= b)%Z -> (b <= Z.of_nat n)%Z -> Z.of_nat (trues (range_mask n a b)) = (b - a)%Z.
Proof.
  intros H1 H2. unfold range_mask. rewrite trues_map. replace n with (Z.to_nat a + (Z.to_nat (b - a) + (n - Z.to_nat b)))%nat by lia. rewrite !seq_app, !filter_app, !app_length.
  rewrite (filter_none _ (seq 0 (Z.to_nat a))), (filter_all _ (seq (0 + Z.to_nat a) (Z.to_nat (b - a)))), (filter_none _ (seq (0 + Z.to_nat a + Z.to_nat (b - a)) (n - Z.to_nat b))).
  - rewrite seq_length. cbn [length]. lia.
  - intros x Hx. apply in_seq in Hx. apply andb_false_iff. right. apply Z.ltb_ge. lia.
  - intros x Hx. apply in_seq in Hx. apply andb_true_iff. rewrite Z.leb_le, Z.ltb_lt. lia.
  - intros x Hx. apply in_seq in Hx. apply andb_false_iff. left. apply Z.leb_gt. lia.
Qed.
Lemma get_masks_partition n m ms : get_masks n m = Ok ms -> List.Forall (fun mk => length mk = Z.to_nat n) ms /\ (forall i, (i < Z.to_nat n)%nat -> hits ms i = 1%nat) /\
  forall k mk, nth_error ms k = Some mk -> Z.of_nat (trues mk) = Z.min m (n - Z.of_nat k * m).
Proof.
  intros E. destruct (Z.ltb_spec 0 m) as [L1|L1]; [|rewrite get_masks_rejects in E by lia; discriminate]. destruct (Z.ltb_spec m n) as [L2|L2]; [|rewrite get_masks_rejects in E by lia; discriminate].
  destruct (get_masks_spec n m ltac:(lia)) as [ms' [E' [Len H]]]. rewrite E in E'. apply Ok_inj in E'. subst ms'. split; [|split].
  - apply Forall_forall. intros mk Hmk. apply In_nth_error in Hmk. destruct Hmk as [k Hk]. destruct (H k mk Hk) as [A _]. lia.
  - intros i Hi. unfold hits. pose proof (Z.div_mod (Z.of_nat i) m ltac:(lia)) as DM. pose proof (Z.mod_pos_bound (Z.of_nat i) m ltac:(lia)) as MB.
    apply (filter_unique _ ms (Z.to_nat (Z.of_nat i / m))).
    + pose proof (Z.div_mod (n + m - 1) m ltac:(lia)) as DM2. pose proof (Z.mod_pos_bound (n + m - 1) m ltac:(lia)) as MB2. assert (Z.of_nat i / m < (n + m - 1) / m)%Z by nia. assert (0 <= Z.of_nat i / m)%Z by nia. lia.
    + intros k mk Hk. destruct (H k mk Hk) as [A B]. specialize (B i ltac:(lia)). unfold on in B. assert (0 <= Z.of_nat i / m)%Z by nia. destruct (Nat.eqb_spec k (Z.to_nat (Z.of_nat i / m))) as [->|N].
      * rewrite (proj2 B) by lia. reflexivity.
      * destruct (nth_error mk i) as [[|]|]; [|reflexivity|reflexivity]. exfalso. apply N. rewrite <- (proj1 B eq_refl). lia.
  - intros k mk Hk. unfold get_masks in E. rewrite !(proj2 (Z.ltb_lt _ _)) in E by lia. cbn [rassert] in E. apply Ok_inj in E. subst ms. rewrite masks_loop_nth in Hk by lia.
    destruct (Z.ltb_spec (0 + Z.of_nat k * m) n) as [L|L]; [|discriminate]. injection Hk as <-. rewrite range_mask_trues; lia.
Qed.

(** ---- masked solves ---- *)
Section Subsets.
Variable cg : (list R -> list R) -> list R -> option (list R) -> R -> option rmat2 -> list R * Z.
Variable elapsed : nat -> R.
Definition masked_vec (vec : list R) (m : mask) : list R := map2 (fun (b : bool) x => if b then x else 0) m vec.
Lemma subsets_loop_ok vec masks : forall num ind s verbose pe, length vec = sv_dim s -> List.Forall (fun m => length m = length vec) masks ->
  exists s', subsets_loop cg elapsed num ind s vec masks verbose pe = (s', Ok tt) /\
    sv_dim s' = sv_dim s /\ sv_op s' = sv_op s /\ sv_x0 s' = sv_x0 s /\ sv_pre s' = sv_pre s /\ sv_tol s' = sv_tol s /\
    sv_masks s' = sv_masks s ++ masks /\ sv_vecs s' = sv_vecs s ++ map (masked_vec vec) masks /\
    sv_hinv_vecs s' = sv_hinv_vecs s ++ map (fun m => fst (cg (sv_op s) (masked_vec vec m) None (sv_tol s) (sv_pre s))) masks /\
    sv_infos s' = sv_infos s ++ map (fun m => snd (cg (sv_op s) (masked_vec vec m) None (sv_tol s) (sv_pre s))) masks /\
    sv_times s' = sv_times s ++ map elapsed (seq (S ind) (length masks)) /\
    sv_printed s' = sv_printed s ++ map (fun i => (i, num)) (filter (fun i => verbose && Z.eqb (pe mod Z.of_nat i) 0) (seq (S ind) (length masks))).
Proof.
  induction masks as [|m masks IH]; intros num ind s verbose pe Lv F.
  - exists s. cbn. rewrite !app_nil_r. splits; reflexivity.
  - inversion F as [|? ? Lm F']; subst. cbn [subsets_loop]. unfold masked. rewrite Lm, Nat.eqb_refl. cbn [rbind]. unfold get_hinv_vec.
    assert (Ld : length (masked_vec vec m) = length vec) by (unfold masked_vec; rewrite map2_length; lia). unfold masked_vec in Ld.
    set (s1 := if verbose && _ then _ else s). assert (D : sv_dim s1 = sv_dim s /\ sv_op s1 = sv_op s /\ sv_x0 s1 = sv_x0 s /\ sv_pre s1 = sv_pre s /\ sv_tol s1 = sv_tol s /\ sv_vecs s1 = sv_vecs s /\ sv_hinv_vecs s1 = sv_hinv_vecs s /\ sv_masks s1 = sv_masks s /\ sv_times s1 = sv_times s /\ sv_infos s1 = sv_infos s /\
       sv_printed s1 = sv_printed s ++ map (fun i => (i, num)) (filter (fun i => verbose && Z.eqb (pe mod Z.of_nat i) 0) [S ind])).
    { unfold s1. cbn [filter]. destruct (verbose && (pe mod Z.of_nat (S ind) =? 0)%Z); cbn; rewrite ?app_nil_r; splits; reflexivity. }
    clearbody s1. destruct D as [D1 [D2 [D3 [D4 [D5 [D6 [D7 [D8 [D9 [D10 D11]]]]]]]]]]. rewrite Ld, D1, Lv, Nat.eqb_refl. cbn [rbind]. rewrite D2, D4, D5.
    destruct (cg (sv_op s) (map2 (fun (b : bool) x => if b then x else 0) m vec) None (sv_tol s) (sv_pre s)) as [h info] eqn:Ecg.
    match goal with |- context [subsets_loop _ _ _ _ ?st _ _ _ _] => destruct (IH num (S ind) st verbose pe) as [s' [E H]]; [exact Lv|exact F'|] end.
    exists s'. rewrite E. cbn [sv_dim sv_op sv_x0 sv_pre sv_tol sv_vecs sv_hinv_vecs sv_masks sv_times sv_infos sv_printed] in H. destruct H as [H1 [H2 [H3 [H4 [H5 [H6 [H7 [H8 [H9 [H10 H11]]]]]]]]]].
    split; [reflexivity|]. splits; try congruence.
    + rewrite H6, D8, <- app_assoc. reflexivity.
    + rewrite H7, D6, <- app_assoc. reflexivity.
    + rewrite H8, D7, <- app_assoc. cbn [map app]. unfold masked_vec at 2. rewrite Ecg. reflexivity.
    + rewrite H9, D10, <- app_assoc. cbn [map app]. unfold masked_vec at 2. rewrite Ecg. reflexivity.
    + rewrite H10, D9, <- app_assoc. reflexivity.
    + rewrite H11, D11, <- app_assoc, <- map_app, <- filter_app. reflexivity.
Qed.
End Subsets.
Lemma masked_vec_length vec m : length m = length vec -> length (masked_vec vec m) = length vec.
Proof. intros H. unfold masked_vec. rewrite map2_length by exact H. exact H. Qed.
Lemma nth_masked vec m i : length m = length vec -> nth i (masked_vec vec m) 0 = if nth i m false then nth i vec 0 else 0.
Proof.
  revert vec i. induction m as [|b m IH]; intros [|x vec] i L; try discriminate; [destruct i; reflexivity|]. destruct i as [|i]; [reflexivity|]. cbn in *. apply IH. lia.
Qed.
Lemma nth_repeat_true i n : (i < n)%nat -> nth i (repeat true n) false = true.
Proof. revert i. induction n; intros i H; [lia|]. destruct i; [reflexivity|]. cbn. apply IHn. lia. Qed.
Lemma sum_masked vec masks i : partitions (repeat true (length vec)) masks -> (i < length vec)%nat -> sum_entry (map (masked_vec vec) masks) i = nth i vec 0.
Proof.
  intros [F H] Hi. rewrite repeat_length in *. specialize (H i Hi). rewrite nth_repeat_true in H by exact Hi. 
  assert (G : sum_entry (map (masked_vec vec) masks) i = INR (hits masks i) * nth i vec 0); [|rewrite G, H; cbn; ring].
  clear H. unfold sum_entry, hits. induction masks as [|m masks IH]; cbn [map lsum fold_right filter length]; [cbn; ring|]. inversion F; subst. cbn [lsum fold_right map] in *. unfold lsum in *. rewrite IH by assumption. rewrite nth_masked by assumption.
  destruct (nth_error m i) as [b|] eqn:E; [rewrite (nth_error_nth m i false E); destruct b; cbn [length]; rewrite ?S_INR; ring|]. apply nth_error_None in E. lia.
Qed.
(** the records of one run over masks of the right length *)
Lemma subsets_records cg elapsed s vec masks verbose pe : length vec = sv_dim s -> List.Forall (fun m => length m = length vec) masks ->
  exists s', get_hinv_vec_subsets cg elapsed s vec masks verbose pe = (s', Ok tt) /\
    (sv_dim s' = sv_dim s /\ sv_op s' = sv_op s /\ sv_x0 s' = sv_x0 s /\ sv_pre s' = sv_pre s /\ sv_tol s' = sv_tol s) /\
    exists vs hs ts is,
      sv_masks s' = sv_masks s ++ masks /\ sv_vecs s' = sv_vecs s ++ vs /\ sv_hinv_vecs s' = sv_hinv_vecs s ++ hs /\ sv_infos s' = sv_infos s ++ is /\ sv_times s' = sv_times s ++ ts /\
      length vs = length masks /\ length hs = length masks /\ length ts = length masks /\ length is = length masks /\
      forall k m, nth_error masks k = Some m -> exists v, nth_error vs k = Some v /\ length v = length vec /\
        (forall i, (i < length vec)%nat -> (on m i -> nth i v 0 = nth i vec 0) /\ (~ on m i -> nth i v 0 = 0)) /\
        nth_error hs k = Some (fst (cg (sv_op s) v None (sv_tol s) (sv_pre s))) /\ nth_error is k = Some (snd (cg (sv_op s) v None (sv_tol s) (sv_pre s))).
Proof.
  intros L F. destruct (subsets_loop_ok cg elapsed vec masks (length masks) 0 s verbose pe L F) as [s' [E [H1 [H2 [H3 [H4 [H5 [H6 [H7 [H8 [H9 [H10 _]]]]]]]]]]]].
  exists s'. split; [exact E|]. split; [splits; assumption|]. eexists _, _, _, _. split; [exact H6|]. split; [exact H7|]. split; [exact H8|]. split; [exact H9|]. split; [exact H10|]. rewrite !map_length, seq_length. splits; try reflexivity.
  intros k m Hm. exists (masked_vec vec m). assert (Lm : length m = length vec) by (rewrite Forall_forall in F; apply F; apply nth_error_In in Hm; exact Hm).
  splits; [apply map_nth_error; exact Hm|apply masked_vec_length; exact Lm| |exact (map_nth_error _ _ _ Hm)|exact (map_nth_error _ _ _ Hm)].
  intros i Hi. rewrite nth_masked by exact Lm. rewrite on_nth. destruct (nth i m false); split; intros N; congruence.
Qed.
Lemma sum_entry_cons v vs i : sum_entry (v :: vs) i = nth i v 0 + sum_entry vs i.
Proof. reflexivity. Qed.
Lemma sum_vec_length n vs : length (sum_vec n vs) = n.
Proof. unfold sum_vec. rewrite map_length, seq_length. reflexivity. Qed.
Lemma sum_vec_nth n vs i : (i < n)%nat -> nth i (sum_vec n vs) 0 = sum_entry vs i.
Proof. intros H. unfold sum_vec. rewrite (nth_indep _ 0 (sum_entry vs 0%nat)) by (rewrite map_length, seq_length; exact H). rewrite map_nth, seq_nth by exact H. reflexivity. Qed.
Lemma apply_sum A hs i : (i < rm_rows A)%nat -> List.Forall (fun h => length h = rm_cols A) hs ->
  nth i (apply_mat A (sum_vec (rm_cols A) hs)) 0 = sum_entry (map (apply_mat A) hs) i.
Proof.
  intros Hi F. rewrite apply_mat_get by exact Hi. rewrite (rsum_ext _ _ (fun k => rm_get A i k * sum_entry hs k)) by (intros k Hk; rewrite sum_vec_nth by exact Hk; reflexivity).
  induction hs as [|h hs IH].
  - unfold sum_entry, lsum. cbn [map fold_right]. apply rsum_zero. intros; ring.
  - inversion F; subst. cbn [map]. rewrite sum_entry_cons, <- IH by assumption. rewrite apply_mat_get by exact Hi. rewrite <- rsum_plus. apply rsum_ext. intros k Hk. rewrite sum_entry_cons. ring.
Qed.
Lemma residual_sum A n vs (h : list R -> list R) eps i : rm_rows A = n -> rm_cols A = n -> (i < n)%nat -> List.Forall (fun v => length v = n) vs ->
  (forall b, length b = n -> length (h b) = n /\ forall i, (i < n)%nat -> Rabs (nth i (apply_mat A (h b)) 0 - nth i b 0) <= eps) ->
  Rabs (nth i (apply_mat A (sum_vec n (map h vs))) 0 - sum_entry vs i) <= INR (length vs) * eps.
Proof.
  intros Rn Cn Hi F C. assert (F2 : List.Forall (fun h => length h = rm_cols A) (map h vs)).
  { rewrite Forall_forall in *. intros x Hx. apply in_map_iff in Hx. destruct Hx as [v [<- Hv]]. rewrite Cn. apply C. apply F. exact Hv. }
  rewrite <- Cn at 1. rewrite apply_sum; [|lia|exact F2]. clear F2. induction vs as [|v vs IH].
  - unfold sum_entry, lsum. cbn. rewrite Rminus_0_r, Rabs_R0. lra.
  - inversion F as [|? ? Lv F']; subst x l. cbn [map length]. rewrite !sum_entry_cons, S_INR. destruct (C v Lv) as [_ C2]. specialize (C2 i Hi). specialize (IH F').
    match goal with |- Rabs (?a + ?b - (?c + ?d)) <= _ => replace (a + b - (c + d)) with ((a - c) + (b - d)) by ring; pose proof (Rabs_triang (a - c) (b - d)) end. lra.
Qed.
(** masked solves add up, up to the accumulated residuals *)
Lemma subsets_sum cg elapsed A s vec masks verbose pe n eps : sv_dim s = n -> length vec = n -> partitions (repeat true n) masks ->
  sv_op s = apply_mat A -> rm_rows A = n -> rm_cols A = n ->
  (forall b, length b = n -> length (fst (cg (sv_op s) b None (sv_tol s) (sv_pre s))) = n /\
     forall i, (i < n)%nat -> Rabs (nth i (apply_mat A (fst (cg (sv_op s) b None (sv_tol s) (sv_pre s)))) 0 - nth i b 0) <= eps) ->
  exists s' vs hs, get_hinv_vec_subsets cg elapsed s vec masks verbose pe = (s', Ok tt) /\ sv_vecs s' = sv_vecs s ++ vs /\ sv_hinv_vecs s' = sv_hinv_vecs s ++ hs /\
    sum_vec n vs = vec /\ forall i, (i < n)%nat -> Rabs (nth i (apply_mat A (sum_vec n hs)) 0 - nth i vec 0) <= INR (length masks) * eps.
Proof.
  intros D L [F P] Op Rn Cn C. rewrite repeat_length in *. subst n. rewrite <- L in F. destruct (subsets_loop_ok cg elapsed vec masks (length masks) 0 s verbose pe L F) as [s' [E [H1 [H2 [H3 [H4 [H5 [H6 [H7 [H8 _]]]]]]]]]].
  exists s'. eexists _, _. split; [exact E|]. split; [exact H7|]. split; [exact H8|].
  assert (S1 : forall i, (i < length vec)%nat -> sum_entry (map (masked_vec vec) masks) i = nth i vec 0).
  { intros i Hi. apply sum_masked; [|exact Hi]. split; rewrite repeat_length; [exact F|]. rewrite L. exact P. }
  split.
  - apply list_eq_nth; rewrite sum_vec_length; [symmetry; exact L|]. intros i Hi. rewrite sum_vec_nth by exact Hi. apply S1. lia.
  - intros i Hi. rewrite <- S1 by lia. 
    change (map (fun m => fst (cg (sv_op s) (masked_vec vec m) None (sv_tol s) (sv_pre s))) masks) with (map (fun m => (fun b => fst (cg (sv_op s) b None (sv_tol s) (sv_pre s))) (masked_vec vec m)) masks). rewrite <- (map_map (masked_vec vec) (fun b => fst (cg (sv_op s) b None (sv_tol s) (sv_pre s)))).
    replace (length masks) with (length (map (masked_vec vec) masks)) by apply map_length. apply residual_sum; [exact Rn|exact Cn|exact Hi| |exact C].
    rewrite Forall_forall in *. intros x Hx. apply in_map_iff in Hx. destruct Hx as [m [<- Hm]]. rewrite masked_vec_length by (apply F; exact Hm). exact L.
Qed.
Lemma subsets_exact cg elapsed A s vec masks verbose pe n x : sv_dim s = n -> length vec = n -> partitions (repeat true n) masks ->
  sv_op s = apply_mat A -> nonsingular n A ->
  (forall b, length b = n -> length (fst (cg (sv_op s) b None (sv_tol s) (sv_pre s))) = n /\ apply_mat A (fst (cg (sv_op s) b None (sv_tol s) (sv_pre s))) = b) ->
  length x = n -> apply_mat A x = vec ->
  exists s' hs, get_hinv_vec_subsets cg elapsed s vec masks verbose pe = (s', Ok tt) /\ sv_hinv_vecs s' = sv_hinv_vecs s ++ hs /\ sum_vec n hs = x.
Proof.
  intros D L P Op [Rn [Cn NS]] C Lx Ex. destruct (subsets_sum cg elapsed A s vec masks verbose pe n 0 D L P Op Rn Cn) as [s' [vs [hs [E [V [H [_ S1]]]]]]].
  { intros b Lb. destruct (C b Lb) as [C1 C2]. split; [exact C1|]. intros i Hi. rewrite C2, Rminus_eq_0, Rabs_R0. lra. }
  exists s', hs. split; [exact E|]. split; [exact H|]. apply list_eq_nth; rewrite sum_vec_length; [symmetry; exact Lx|]. intros i Hi.
  assert (Z0 : nth i (map2 Rminus (sum_vec n hs) x) 0 = 0).
  { apply NS; [rewrite map2_length; rewrite sum_vec_length; lia| |exact Hi]. intros j Hj. rewrite (rsum_ext _ _ (fun k => rm_get A j k * nth k (sum_vec n hs) 0 - rm_get A j k * nth k x 0)).
    - rewrite rsum_minus. specialize (S1 j Hj). rewrite <- Ex in S1. rewrite !apply_mat_get in S1 by lia. rewrite Cn in S1. rewrite Rmult_0_r in S1. pose proof (Rabs_pos (rsum n (fun k => rm_get A j k * nth k (sum_vec n hs) 0) - rsum n (fun k => rm_get A j k * nth k x 0))) as G.
      destruct (Req_dec (rsum n (fun k => rm_get A j k * nth k (sum_vec n hs) 0) - rsum n (fun k => rm_get A j k * nth k x 0)) 0) as [N|N]; [exact N|]. apply Rabs_pos_lt in N. lra.
    - intros k Hk. rewrite (nth_map2 Rminus _ _ _ 0 0 0) by (rewrite ?sum_vec_length; lia). ring. }
  rewrite (nth_map2 Rminus _ _ _ 0 0 0) in Z0 by (rewrite ?sum_vec_length; lia). lra.
Qed.
(** the masks of get_masks qualify *)
Lemma get_masks_partitions n m ms : get_masks n m = Ok ms -> partitions (repeat true (Z.to_nat n)) ms.
Proof.
  intros E. destruct (get_masks_partition n m ms E) as [F [H _]]. split; rewrite repeat_length; [exact F|]. intros i Hi. rewrite nth_repeat_true by exact Hi. apply H. exact Hi.
Qed.
Lemma recursive_split_partitions n T depth : (1 <= T)%Z -> (n <= 2 ^ depth)%nat -> exists ms, recursive_split (S depth) (repeat true n) [] T = (ms, Ok tt) /\ partitions (repeat true n) ms.
Proof.
  intros HT Hd. destruct (recursive_split_ok T depth HT (repeat true n) []) as [ms [E [P _]]]; [|exists ms; split; [exact E|exact P]].
  unfold trues. rewrite count_occ_repeat_eq by reflexivity. exact Hd.
Qed.
(** errors keep what was recorded before *)
Lemma subsets_bad_mask cg elapsed s vec (good : list mask) (bad : mask) (rest : list mask) verbose pe : length vec = sv_dim s -> List.Forall (fun m => length m = length vec) good -> length bad <> length vec ->
  exists s', get_hinv_vec_subsets cg elapsed s vec (good ++ bad :: rest) verbose pe = (s', Raise IndexError) /\ sv_masks s' = sv_masks s ++ good /\
    length (sv_vecs s') = (length (sv_vecs s) + length good)%nat /\ length (sv_hinv_vecs s') = (length (sv_hinv_vecs s) + length good)%nat /\
    length (sv_infos s') = (length (sv_infos s) + length good)%nat /\ length (sv_times s') = (length (sv_times s) + length good)%nat.
Proof.
  intros L F B. unfold get_hinv_vec_subsets.
  assert (G : forall num ind, exists s1, subsets_loop cg elapsed num ind s vec good verbose pe = (s1, Ok tt) /\ subsets_loop cg elapsed num ind s vec (good ++ bad :: rest) verbose pe = subsets_loop cg elapsed num (ind + length good) s1 vec (bad :: rest) verbose pe).
  { clear B. generalize (bad :: rest) as tail. intros tail num. revert s L. induction good as [|m good IH]; intros s L ind; [exists s; rewrite Nat.add_0_r; split; reflexivity|]. inversion F as [|? ? Lm F']; subst.
    cbn [app subsets_loop length]. set (s1 := if verbose && _ then _ else s). assert (D : sv_dim s1 = sv_dim s) by (unfold s1; destruct (_ && _); reflexivity). clearbody s1.
    unfold masked. rewrite Lm, Nat.eqb_refl. cbn [rbind]. unfold get_hinv_vec. rewrite map2_length, Lm, L, D, Nat.eqb_refl by exact Lm. cbn [rbind]. destruct (cg _ _ _ _ _) as [h info].
    rewrite Nat.add_succ_r. change (S (ind + length good)) with (S ind + length good)%nat. apply (IH F'). cbn [sv_dim]. congruence. }
  destruct (G (length (good ++ bad :: rest)) 0%nat) as [s1 [E1 E2]]. rewrite E2. destruct (subsets_loop_ok cg elapsed vec good (length (good ++ bad :: rest)) 0 s verbose pe L F) as [s1' [E1' [_ [_ [_ [_ [_ [H6 [H7 [H8 [H9 [H10 _]]]]]]]]]]]].
  rewrite E1 in E1'. apply (f_equal fst) in E1'. cbn in E1'. subst s1'. cbn [subsets_loop]. unfold masked. rewrite (proj2 (Nat.eqb_neq _ _) B). cbn [rbind]. eexists. split; [reflexivity|].
  destruct (verbose && _); cbn; rewrite H6, H7, H8, H9, H10; rewrite !app_length, !map_length, seq_length; splits; reflexivity.
Qed.
Lemma subsets_bad_vec cg elapsed s vec m rest verbose pe : length vec <> sv_dim s -> length m = length vec ->
  exists s', get_hinv_vec_subsets cg elapsed s vec (m :: rest) verbose pe = (s', Raise ValueError) /\
    sv_masks s' = sv_masks s /\ sv_vecs s' = sv_vecs s /\ sv_hinv_vecs s' = sv_hinv_vecs s /\ sv_infos s' = sv_infos s /\ sv_times s' = sv_times s.
Proof.
  intros N Lm. unfold get_hinv_vec_subsets. cbn [subsets_loop]. set (s1 := if verbose && _ then _ else s). assert (D : sv_dim s1 = sv_dim s) by (unfold s1; destruct (_ && _); reflexivity).
  unfold masked. rewrite Lm, Nat.eqb_refl. cbn [rbind]. unfold get_hinv_vec. rewrite map2_length, Lm, D, (proj2 (Nat.eqb_neq _ _) N) by exact Lm. cbn [rbind]. eexists. split; [reflexivity|].
  unfold s1. destruct (_ && _); splits; reflexivity.
Qed.
Lemma subsets_printed cg elapsed s vec (masks : list mask) verbose pe : length vec = sv_dim s -> List.Forall (fun m => length m = length vec) masks ->
  exists out, sv_printed (fst (get_hinv_vec_subsets cg elapsed s vec masks verbose pe)) = sv_printed s ++ out /\ NoDup out /\
    forall p, In p out <-> verbose = true /\ (1 <= fst p <= length masks)%nat /\ snd p = length masks /\ (Z.of_nat (fst p) | pe)%Z.
Proof.
  intros L F. destruct (subsets_loop_ok cg elapsed vec masks (length masks) 0 s verbose pe L F) as [s' [E [_ [_ [_ [_ [_ [_ [_ [_ [_ [_ H]]]]]]]]]]]].
  unfold get_hinv_vec_subsets. rewrite E. cbn [fst]. eexists. split; [exact H|]. split.
  - apply FinFun.Injective_map_NoDup; [intros a b Eq; congruence|]. apply NoDup_filter, seq_NoDup.
  - intros [i n]. cbn [fst snd]. rewrite in_map_iff. split.
    + intros [j [Ej Hj]]. injection Ej as -> <-. apply filter_In in Hj. destruct Hj as [Hj Hb]. apply in_seq in Hj. apply andb_true_iff in Hb. destruct Hb as [Hb1 Hb2]. apply Z.eqb_eq in Hb2. split; [exact Hb1|]. split; [exact (conj (proj1 Hj) (le_S_n _ _ (proj2 Hj)))|]. split; [reflexivity|]. apply Z.mod_divide; [lia|exact Hb2].
    + intros [Hv [Hi [-> Hd]]]. exists i. split; [reflexivity|]. apply filter_In. split; [apply in_seq; exact (conj (proj1 Hi) (le_n_S _ _ (proj2 Hi)))|]. rewrite Hv. cbn [andb]. apply Z.eqb_eq. apply Z.mod_divide; [lia|exact Hd].
Qed.
