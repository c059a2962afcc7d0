(** Facts about arrays given by a function of the multi-index, broadcasting and axis sums. *)
From Coq Require Import Reals List Arith Lia Bool.
From Verif Require Import Res Num Nd ModelParameters ModelNumpy ModelExpFam LemmasPosDef.
Import ListNotations.
Open Scope nat_scope.
Set Bullet Behavior "Strict Subproofs".

Lemma nth_flat_map_blocks {A} (f : nat -> list A) m n i j d : (forall k, length (f k) = m) -> i < n -> j < m ->
  nth (i * m + j) (flat_map f (seq 0 n)) d = nth j (f i) d.
Proof.
  intros L. assert (G : forall n k i, i < n -> j < m -> nth (i * m + j) (flat_map f (seq k n)) d = nth j (f (k + i)) d).
  { clear n i. induction n as [|n IH]; intros k i Hi Hj; [lia|]. cbn [seq flat_map]. destruct i as [|i].
    - rewrite Nat.add_0_r. cbn [Nat.mul Nat.add]. apply app_nth1. rewrite L. exact Hj.
    - rewrite app_nth2; rewrite L; [|cbn; lia]. replace (S i * m + j - m) with (i * m + j) by (cbn; lia).
      rewrite IH by lia. f_equal. f_equal. lia. }
  intros Hi Hj. rewrite G by assumption. reflexivity.
Qed.
Lemma in_product_cons n s i idx : In (i :: idx) (product (n :: s)) <-> i < n /\ In idx (product s).
Proof.
  cbn [product]. rewrite in_flat_map. split.
  - intros [k [Hk H]]. apply in_map_iff in H as [x [E Hx]]. injection E as -> ->. apply in_seq in Hk. split; [lia|assumption].
  - intros [Hi H]. exists i. split; [apply in_seq; lia|apply in_map; exact H].
Qed.
Lemma in_product_cons_inv n s idx : In idx (product (n :: s)) -> exists i r, idx = i :: r /\ i < n /\ In r (product s).
Proof.
  intros H. destruct idx as [|i r].
  - cbn [product] in H. apply in_flat_map in H as [k [_ H]]. apply in_map_iff in H as [x [E _]]. discriminate.
  - exists i, r. split; [reflexivity|]. apply in_product_cons. exact H.
Qed.
Lemma in_product_len s idx : In idx (product s) -> length idx = length s.
Proof. apply In_product_ravel. Qed.
Lemma nth_ravel_product s idx : In idx (product s) -> nth (ravel idx s) (product s) [] = idx.
Proof.
  revert idx. induction s as [|n s IH]; intros idx H.
  - cbn in H. destruct H as [<-|[]]. reflexivity.
  - apply in_product_cons_inv in H as [i [r [-> [Hi Hr]]]]. cbn [ravel product].
    rewrite nth_flat_map_blocks.
    + destruct (In_product_ravel s r Hr) as [B _].
      rewrite (nth_indep _ [] (cons i [])) by (rewrite map_length, product_length; exact B).
      rewrite (map_nth (cons i)), IH by exact Hr. reflexivity.
    + intros k. rewrite map_length, product_length. reflexivity.
    + exact Hi.
    + apply In_product_ravel, Hr.
Qed.
Lemma nd_at_mk {A} (d : A) s f idx : In idx (product s) -> nd_at d (mk_nd s f) idx = f idx.
Proof.
  intros H. unfold nd_at, mk_nd. cbn [shape data]. destruct (In_product_ravel s idx H) as [B _].
  rewrite (nth_indep _ d (f [])) by (rewrite map_length, product_length; exact B).
  rewrite (map_nth f), nth_ravel_product by exact H. reflexivity.
Qed.
Lemma mk_nd_ext {A} s (f g : list nat -> A) : (forall idx, In idx (product s) -> f idx = g idx) -> mk_nd s f = mk_nd s g.
Proof. intros H. unfold mk_nd. f_equal. apply map_ext_in. exact H. Qed.
Lemma mk_nd_shape {A} s (f : list nat -> A) : shape (mk_nd s f) = s.
Proof. reflexivity. Qed.
Lemma mk_nd_wf {A} s (f : list nat -> A) : nd_wf (mk_nd s f).
Proof. unfold nd_wf, mk_nd. cbn [shape data]. rewrite map_length. apply product_length. Qed.
Lemma mk_nd_eta {A} (d : A) a : nd_wf a -> a = mk_nd (shape a) (nd_at d a).
Proof.
  intros W. destruct a as [s l]. unfold nd_wf in W. cbn [shape data] in *. unfold mk_nd. f_equal. unfold nd_at. cbn [shape data].
  rewrite (map_product s (fun k => nth k l d)). rewrite <- W. clear. symmetry.
  apply (nth_ext _ _ d d).
  - rewrite map_length, seq_length. reflexivity.
  - intros n Hn. rewrite (nth_indep _ d (nth 0 l d)) by exact Hn. rewrite map_length, seq_length in Hn.
    rewrite (map_nth (fun k => nth k l d)), seq_nth by exact Hn. reflexivity.
Qed.
Lemma mk_nd_inj {A} s (f g : list nat -> A) : mk_nd s f = mk_nd s g -> forall idx, In idx (product s) -> f idx = g idx.
Proof.
  intros E idx H. assert (E' : nd_at (f idx) (mk_nd s f) idx = nd_at (f idx) (mk_nd s g) idx) by (rewrite E; reflexivity).
  rewrite !nd_at_mk in E' by exact H. exact E'.
Qed.
Lemma nd_map_mk {A B} (h : A -> B) s f : nd_map h (mk_nd s f) = mk_nd s (fun idx => h (f idx)).
Proof. unfold nd_map, mk_nd. cbn [shape data]. rewrite map_map. reflexivity. Qed.
Lemma nd_scalar_mk {A} (x : A) : nd_scalar x = mk_nd [] (fun _ => x).
Proof. reflexivity. Qed.
Lemma product_1 n : product [n] = map (fun i => [i]) (seq 0 n).
Proof. cbn [product]. induction (seq 0 n) as [|x xs IH]; [reflexivity|]. cbn [flat_map map app] in *. congruence. Qed.
Lemma nd_vec_mk {A} (f : nat -> A) n : nd_vec (map f (seq 0 n)) = mk_nd [n] (fun idx => f (nth 0 idx 0)).
Proof. unfold nd_vec, mk_nd. rewrite product_1, map_map, map_length, seq_length. reflexivity. Qed.
Lemma product_app s t : product (s ++ t) = flat_map (fun i => map (app i) (product t)) (product s).
Proof.
  induction s as [|n s IH]; cbn [product app flat_map].
  - rewrite app_nil_r. symmetry. apply map_id.
  - rewrite IH. induction (seq 0 n) as [|k ks IHk]; [reflexivity|]. cbn [flat_map]. rewrite flat_map_app, IHk. f_equal.
    clear. induction (product s) as [|x xs IHx]; [reflexivity|]. cbn [flat_map map]. rewrite map_app, IHx. f_equal.
    rewrite map_map. reflexivity.
Qed.
Lemma in_product_app s t idx : In idx (product (s ++ t)) <-> exists i j, idx = i ++ j /\ In i (product s) /\ In j (product t).
Proof.
  rewrite product_app, in_flat_map. split.
  - intros [i [Hi H]]. apply in_map_iff in H as [j [<- Hj]]. exists i, j. auto.
  - intros [i [j [-> [Hi Hj]]]]. exists i. split; [exact Hi|apply in_map; exact Hj].
Qed.
Lemma in_product_1 n idx : In idx (product [n]) <-> exists i, idx = [i] /\ i < n.
Proof.
  rewrite product_1, in_map_iff. split.
  - intros [i [<- H]]. apply in_seq in H. exists i. split; [reflexivity|lia].
  - intros [i [-> H]]. exists i. split; [reflexivity|]. apply in_seq; lia.
Qed.
Lemma in_product_snoc s m i k : In i (product s) -> k < m -> In (i ++ [k]) (product (s ++ [m])).
Proof. intros Hi Hk. apply in_product_app. exists i, [k]. split; [reflexivity|]. split; [exact Hi|]. apply in_product_1. exists k. auto. Qed.
Lemma in_product_snoc_inv s m idx : In idx (product (s ++ [m])) -> exists i k, idx = i ++ [k] /\ In i (product s) /\ k < m.
Proof. intros H. apply in_product_app in H as [i [j [-> [Hi Hj]]]]. apply in_product_1 in Hj as [k [-> Hk]]. exists i, k. auto. Qed.

(** ---- broadcasting ---- *)
Lemma bc_rev_nil_r s : bc_rev s [] = Some s.
Proof. destruct s; reflexivity. Qed.
Lemma bc_rev_refl s : bc_rev s s = Some s.
Proof. induction s as [|n s IH]; [reflexivity|]. cbn [bc_rev]. rewrite IH, Nat.eqb_refl. reflexivity. Qed.
Lemma bc_rev_app s t u v r q : length s = length t -> bc_rev s t = Some r -> bc_rev u v = Some q -> bc_rev (s ++ u) (t ++ v) = Some (r ++ q).
Proof.
  revert t r. induction s as [|a s IH]; intros [|b t] r L E1 E2; try discriminate L.
  - cbn in E1. injection E1 as <-. exact E2.
  - cbn [bc_rev app] in *. destruct (bc_rev s t) as [r0|] eqn:E; [|discriminate].
    rewrite (IH t r0) by (try exact E; try exact E2; cbn in L; lia).
    destruct (a =? b); [injection E1 as <-; reflexivity|].
    destruct (a =? 1); [injection E1 as <-; reflexivity|].
    destruct (b =? 1); [injection E1 as <-; reflexivity|]. discriminate.
Qed.
Lemma bshape_refl s : bshape s s = Some s.
Proof. unfold bshape. rewrite bc_rev_refl. cbn. rewrite rev_involutive. reflexivity. Qed.
Lemma bshape_nil_l s : bshape [] s = Some s.
Proof. unfold bshape. cbn. rewrite rev_involutive. reflexivity. Qed.
Lemma bshape_nil_r s : bshape s [] = Some s.
Proof. unfold bshape. cbn [rev]. rewrite bc_rev_nil_r. cbn. rewrite rev_involutive. reflexivity. Qed.
Lemma bshape_app s1 s2 t1 t2 r1 r2 : length s2 = length t2 -> bshape s1 t1 = Some r1 -> bshape s2 t2 = Some r2 ->
  bshape (s1 ++ s2) (t1 ++ t2) = Some (r1 ++ r2).
Proof.
  intros L E1 E2. unfold bshape in *. rewrite !rev_app_distr.
  destruct (bc_rev (rev s1) (rev t1)) as [q1|] eqn:Q1; [|discriminate].
  destruct (bc_rev (rev s2) (rev t2)) as [q2|] eqn:Q2; [|discriminate].
  cbn in E1, E2. injection E1 as <-. injection E2 as <-.
  rewrite (bc_rev_app _ _ _ _ q2 q1) by (try assumption; rewrite !rev_length; exact L). cbn. rewrite rev_app_distr. reflexivity.
Qed.
Lemma bshape_11 n : bshape [n] [1] = Some [n].
Proof. unfold bshape. cbn. destruct (n =? 1) eqn:E; reflexivity. Qed.
Lemma bshape_11' n : bshape [1] [n] = Some [n].
Proof. unfold bshape. cbn [rev app bc_rev option_map]. destruct (1 =? n) eqn:E; [apply Nat.eqb_eq in E; subst; reflexivity|reflexivity]. Qed.

Lemma bidx_self s idx : In idx (product s) -> bidx s idx = idx.
Proof.
  intros H. unfold bidx. rewrite (in_product_len _ _ H), Nat.sub_diag. cbn [skipn].
  revert idx H. induction s as [|n s IH]; intros idx H.
  - cbn in H. destruct H as [<-|[]]. reflexivity.
  - apply in_product_cons_inv in H as [i [r [-> [Hi Hr]]]]. cbn [map2]. rewrite IH by exact Hr.
    destruct (n =? 1) eqn:E; [|reflexivity]. apply Nat.eqb_eq in E. f_equal. lia.
Qed.
Lemma bidx_nil idx : bidx [] idx = [].
Proof. reflexivity. Qed.
Lemma bidx_skip s p idx : length idx = length s -> bidx s (p ++ idx) = bidx s idx.
Proof.
  intros L. unfold bidx. rewrite app_length. replace (length p + length idx - length s) with (length p + 0) by lia.
  replace (length idx - length s) with 0 by lia. rewrite skipn_app. rewrite skipn_all2 by lia. replace (length p + 0 - length p) with 0 by lia. reflexivity.
Qed.
Lemma map2_app {A B C} (f : A -> B -> C) l1 l2 m1 m2 : length l1 = length m1 -> map2 f (l1 ++ l2) (m1 ++ m2) = map2 f l1 m1 ++ map2 f l2 m2.
Proof. revert m1. induction l1 as [|x l1 IH]; intros [|y m1] L; try discriminate; cbn [app map2]; [reflexivity|]. f_equal. apply IH. cbn in L; lia. Qed.
Lemma bidx_app s1 s2 i1 i2 : length i1 = length s1 -> length i2 = length s2 -> bidx (s1 ++ s2) (i1 ++ i2) = bidx s1 i1 ++ bidx s2 i2.
Proof.
  intros L1 L2. unfold bidx. rewrite !app_length, L1, L2. replace (length s1 + length s2 - (length s1 + length s2)) with 0 by lia.
  rewrite !Nat.sub_diag. cbn [skipn]. apply map2_app. symmetry. exact L1.
Qed.
Lemma bidx_one k : bidx [1] [k] = [0].
Proof. reflexivity. Qed.

Section Bin.
Context {A B C : Type} (da : A) (db : B) (f : A -> B -> C).
Lemma np_bin_same s g h : np_bin da db f (mk_nd s g) (mk_nd s h) = Ok (mk_nd s (fun i => f (g i) (h i))).
Proof.
  unfold np_bin. rewrite !mk_nd_shape, bshape_refl. f_equal. apply mk_nd_ext. intros idx H.
  rewrite bidx_self, !nd_at_mk by exact H. reflexivity.
Qed.
Lemma np_bin_sl s g h : np_bin da db f (mk_nd [] g) (mk_nd s h) = Ok (mk_nd s (fun i => f (g []) (h i))).
Proof.
  unfold np_bin. rewrite !mk_nd_shape, bshape_nil_l. f_equal. apply mk_nd_ext. intros idx H.
  rewrite bidx_nil, bidx_self by exact H. rewrite (nd_at_mk db) by exact H. rewrite nd_at_mk by (left; reflexivity). reflexivity.
Qed.
Lemma np_bin_sr s g h : np_bin da db f (mk_nd s g) (mk_nd [] h) = Ok (mk_nd s (fun i => f (g i) (h []))).
Proof.
  unfold np_bin. rewrite !mk_nd_shape, bshape_nil_r. f_equal. apply mk_nd_ext. intros idx H.
  rewrite bidx_nil, bidx_self by exact H. rewrite (nd_at_mk da) by exact H. rewrite nd_at_mk by (left; reflexivity). reflexivity.
Qed.
(** columns against the kept axis 0 *)
Lemma np_bin_lead n s g h : np_bin da db f (mk_nd (n :: s) g) (mk_nd (1 :: s) h) = Ok (mk_nd (n :: s) (fun i => f (g i) (h (0 :: tl i)))).
Proof.
  unfold np_bin. rewrite !mk_nd_shape. change (n :: s) with ([n] ++ s). change (1 :: s) with ([1] ++ s).
  rewrite (bshape_app _ _ _ _ [n] s) by (first [reflexivity|apply bshape_11|apply bshape_refl]).
  f_equal. apply mk_nd_ext. intros idx H. rewrite bidx_self by exact H. rewrite (nd_at_mk da) by exact H.
  apply in_product_cons_inv in H as [i [r [-> [Hi Hr]]]]. cbn [tl]. change (i :: r) with ([i] ++ r) at 2.
  rewrite bidx_app by (try reflexivity; apply in_product_len; exact Hr). rewrite bidx_one, bidx_self by exact Hr.
  cbn [app]. rewrite nd_at_mk; [reflexivity|]. apply in_product_cons. split; [lia|exact Hr].
Qed.
(** a kept axis 0 against the summed-out array *)
Lemma np_bin_keep s g h : np_bin da db f (mk_nd (1 :: s) g) (mk_nd s h) = Ok (mk_nd (1 :: s) (fun i => f (g i) (h (tl i)))).
Proof.
  unfold np_bin. rewrite !mk_nd_shape. change (1 :: s) with ([1] ++ s). change (bshape ([1] ++ s) s) with (bshape ([1] ++ s) ([] ++ s)).
  rewrite (bshape_app _ _ _ _ [1] s) by (try reflexivity; apply bshape_refl).
  f_equal. apply mk_nd_ext. intros idx H. rewrite bidx_self by exact H. rewrite (nd_at_mk da) by exact H.
  apply in_product_cons_inv in H as [i [r [-> [Hi Hr]]]]. cbn [tl]. change (i :: r) with ([i] ++ r) at 2.
  rewrite bidx_skip by (apply in_product_len; exact Hr). rewrite bidx_self, nd_at_mk by exact Hr. reflexivity.
Qed.
(** an expanded array against a vector along the last axis, and the other way round *)
Lemma np_bin_last s m g h : np_bin da db f (mk_nd (s ++ [1]) g) (mk_nd [m] h) = Ok (mk_nd (s ++ [m]) (fun i => f (g (removelast i ++ [0])) (h [last i 0]))).
Proof.
  unfold np_bin. rewrite !mk_nd_shape. change (bshape (s ++ [1]) [m]) with (bshape (s ++ [1]) ([] ++ [m])).
  rewrite (bshape_app _ _ _ _ s [m]) by (first [reflexivity|apply bshape_nil_r|apply bshape_11']).
  f_equal. apply mk_nd_ext. intros idx H. apply in_product_snoc_inv in H as [i [k [-> [Hi Hk]]]].
  rewrite removelast_last, last_last. rewrite bidx_app by (try reflexivity; apply in_product_len; exact Hi). rewrite bidx_one, (bidx_self s) by exact Hi.
  rewrite nd_at_mk by (apply in_product_snoc; [exact Hi|lia]). rewrite bidx_skip by reflexivity.
  rewrite (bidx_self [m]) by (apply in_product_1; exists k; auto). rewrite nd_at_mk by (apply in_product_1; exists k; auto). reflexivity.
Qed.
Lemma np_bin_last_r s m g h : np_bin da db f (mk_nd [m] g) (mk_nd (s ++ [1]) h) = Ok (mk_nd (s ++ [m]) (fun i => f (g [last i 0]) (h (removelast i ++ [0])))).
Proof.
  unfold np_bin. rewrite !mk_nd_shape. change (bshape [m] (s ++ [1])) with (bshape ([] ++ [m]) (s ++ [1])).
  rewrite (bshape_app _ _ _ _ s [m]) by (first [reflexivity|apply bshape_nil_l|apply bshape_11]).
  f_equal. apply mk_nd_ext. intros idx H. apply in_product_snoc_inv in H as [i [k [-> [Hi Hk]]]].
  rewrite removelast_last, last_last. rewrite bidx_app by (try reflexivity; apply in_product_len; exact Hi). rewrite bidx_one, (bidx_self s) by exact Hi.
  rewrite (nd_at_mk db) by (apply in_product_snoc; [exact Hi|lia]). rewrite bidx_skip by reflexivity.
  rewrite (bidx_self [m]) by (apply in_product_1; exists k; auto). rewrite nd_at_mk by (apply in_product_1; exists k; auto). reflexivity.
Qed.
Lemma np_bin_last_full s m g h : np_bin da db f (mk_nd (s ++ [m]) g) (mk_nd (s ++ [1]) h) = Ok (mk_nd (s ++ [m]) (fun i => f (g i) (h (removelast i ++ [0])))).
Proof.
  unfold np_bin. rewrite !mk_nd_shape.
  rewrite (bshape_app _ _ _ _ s [m]) by (first [reflexivity|apply bshape_refl|apply bshape_11]).
  f_equal. apply mk_nd_ext. intros idx H. rewrite (bidx_self (s ++ [m])) by exact H. rewrite (nd_at_mk da) by exact H.
  apply in_product_snoc_inv in H as [i [k [-> [Hi Hk]]]].
  rewrite removelast_last. rewrite bidx_app by (try reflexivity; apply in_product_len; exact Hi). rewrite bidx_one, (bidx_self s) by exact Hi.
  rewrite (nd_at_mk db) by (apply in_product_snoc; [exact Hi|lia]). reflexivity.
Qed.
Lemma np_bin_vec_full s m g h : np_bin da db f (mk_nd [m] g) (mk_nd (s ++ [m]) h) = Ok (mk_nd (s ++ [m]) (fun i => f (g [last i 0]) (h i))).
Proof.
  unfold np_bin. rewrite !mk_nd_shape. change (bshape [m] (s ++ [m])) with (bshape ([] ++ [m]) (s ++ [m])).
  rewrite (bshape_app _ _ _ _ s [m]) by (first [reflexivity|apply bshape_nil_l|apply bshape_refl]).
  f_equal. apply mk_nd_ext. intros idx H. rewrite (bidx_self (s ++ [m])) by exact H. rewrite (nd_at_mk db) by exact H.
  apply in_product_snoc_inv in H as [i [k [-> [Hi Hk]]]]. rewrite last_last. rewrite bidx_skip by reflexivity.
  rewrite (bidx_self [m]) by (apply in_product_1; exists k; auto). rewrite nd_at_mk by (apply in_product_1; exists k; auto). reflexivity.
Qed.
End Bin.

(** ---- sums, axes ---- *)
Section Sums.
Context {A : Type} (d : A) (sum : list A -> A).
Lemma np_sum_keep0 n s g : np_sum_keep d sum 0 (mk_nd (n :: s) g) = Ok (mk_nd (1 :: s) (fun idx => sum (map (fun i => g (i :: tl idx)) (seq 0 n)))).
Proof.
  unfold np_sum_keep. rewrite mk_nd_shape. cbn [length Nat.ltb Nat.leb firstn skipn app nth]. f_equal. apply mk_nd_ext. intros idx H.
  apply in_product_cons_inv in H as [i [r [-> [Hi Hr]]]]. cbn [tl]. f_equal. apply map_ext_in. intros k Hk. apply in_seq in Hk.
  apply nd_at_mk. apply in_product_cons. split; [lia|exact Hr].
Qed.
Lemma np_sum_axis0 n s g : np_sum_axis d sum 0 (mk_nd (n :: s) g) = Ok (mk_nd s (fun idx => sum (map (fun i => g (i :: idx)) (seq 0 n)))).
Proof.
  unfold np_sum_axis. rewrite mk_nd_shape. cbn [length Nat.ltb Nat.leb firstn skipn app nth]. f_equal. apply mk_nd_ext. intros idx H.
  f_equal. apply map_ext_in. intros k Hk. apply in_seq in Hk. apply nd_at_mk. apply in_product_cons. split; [lia|exact H].
Qed.
Lemma np_sum_last s m g : np_sum_axis d sum (length s) (mk_nd (s ++ [m]) g) = Ok (mk_nd s (fun idx => sum (map (fun i => g (idx ++ [i])) (seq 0 m)))).
Proof.
  unfold np_sum_axis. rewrite mk_nd_shape, app_length. cbn [length].
  replace (length s <? length s + 1) with true by (symmetry; apply Nat.ltb_lt; lia).
  rewrite firstn_app, Nat.sub_diag, firstn_all. cbn [firstn]. rewrite app_nil_r.
  rewrite skipn_all2 by (rewrite app_length; cbn; lia). rewrite app_nil_r. rewrite app_nth2, Nat.sub_diag by lia. cbn [nth].
  f_equal. apply mk_nd_ext. intros idx H. f_equal. apply map_ext_in. intros k Hk. apply in_seq in Hk.
  rewrite <- (in_product_len _ _ H). rewrite firstn_all, skipn_all. apply nd_at_mk. apply in_product_snoc; [exact H|lia].
Qed.
Lemma np_sum_mk s g : np_sum sum (mk_nd s g) = mk_nd [] (fun _ => sum (map g (product s))).
Proof. reflexivity. Qed.
End Sums.
Lemma product_snoc_1 s : product (s ++ [1]) = map (fun i => i ++ [0]) (product s).
Proof. rewrite product_app. induction (product s) as [|x xs IH]; [reflexivity|]. cbn [flat_map map app]. rewrite IH. reflexivity. Qed.
Lemma np_expand_last {A} s (g : list nat -> A) : np_expand_dims (length s) (mk_nd s g) = Ok (mk_nd (s ++ [1]) (fun idx => g (removelast idx))).
Proof.
  unfold np_expand_dims. rewrite mk_nd_shape, Nat.leb_refl, firstn_all, skipn_all. unfold mk_nd. cbn [data]. rewrite product_snoc_1, map_map.
  f_equal. f_equal. apply map_ext. intros a. rewrite removelast_last. reflexivity.
Qed.
Lemma product_1s s : product (1 :: s) = map (cons 0) (product s).
Proof. cbn [product seq flat_map]. apply app_nil_r. Qed.
Lemma np_squeeze0 {A} s (g : list nat -> A) : np_squeeze 0 (mk_nd (1 :: s) g) = Ok (mk_nd s (fun idx => g (0 :: idx))).
Proof. unfold np_squeeze. rewrite mk_nd_shape. cbn [nth_error firstn skipn app]. unfold mk_nd. cbn [data]. rewrite product_1s, map_map. reflexivity. Qed.

(** ---- the same for results of expressions ---- *)
Section N.
Variable f : num -> num -> num.
Lemma nbin_same s g h : nbin f (Ok (mk_nd s g)) (Ok (mk_nd s h)) = Ok (mk_nd s (fun i => f (g i) (h i))).
Proof. apply np_bin_same. Qed.
Lemma nbin_sl s g h : nbin f (Ok (mk_nd [] g)) (Ok (mk_nd s h)) = Ok (mk_nd s (fun i => f (g []) (h i))).
Proof. apply np_bin_sl. Qed.
Lemma nbin_sr s g h : nbin f (Ok (mk_nd s g)) (Ok (mk_nd [] h)) = Ok (mk_nd s (fun i => f (g i) (h []))).
Proof. apply np_bin_sr. Qed.
Lemma nbin_lead n s g h : nbin f (Ok (mk_nd (n :: s) g)) (Ok (mk_nd (1 :: s) h)) = Ok (mk_nd (n :: s) (fun i => f (g i) (h (0 :: tl i)))).
Proof. apply np_bin_lead. Qed.
Lemma nbin_keep s g h : nbin f (Ok (mk_nd (1 :: s) g)) (Ok (mk_nd s h)) = Ok (mk_nd (1 :: s) (fun i => f (g i) (h (tl i)))).
Proof. apply np_bin_keep. Qed.
Lemma nbin_last s m g h : nbin f (Ok (mk_nd (s ++ [1]) g)) (Ok (mk_nd [m] h)) = Ok (mk_nd (s ++ [m]) (fun i => f (g (removelast i ++ [0])) (h [last i 0]))).
Proof. apply np_bin_last. Qed.
Lemma nbin_last_r s m g h : nbin f (Ok (mk_nd [m] g)) (Ok (mk_nd (s ++ [1]) h)) = Ok (mk_nd (s ++ [m]) (fun i => f (g [last i 0]) (h (removelast i ++ [0])))).
Proof. apply np_bin_last_r. Qed.
Lemma nbin_last_full s m g h : nbin f (Ok (mk_nd (s ++ [m]) g)) (Ok (mk_nd (s ++ [1]) h)) = Ok (mk_nd (s ++ [m]) (fun i => f (g i) (h (removelast i ++ [0])))).
Proof. apply np_bin_last_full. Qed.
Lemma nbin_vec_full s m g h : nbin f (Ok (mk_nd [m] g)) (Ok (mk_nd (s ++ [m]) h)) = Ok (mk_nd (s ++ [m]) (fun i => f (g [last i 0]) (h i))).
Proof. apply np_bin_vec_full. Qed.
End N.
Lemma nun_mk f s g : nun f (Ok (mk_nd s g)) = Ok (mk_nd s (fun i => f (g i))).
Proof. unfold nun, rbind. rewrite nd_map_mk. reflexivity. Qed.
Lemma lit_mk r : lit r = Ok (mk_nd [] (fun _ => Fin r)).
Proof. reflexivity. Qed.
Lemma litn_mk k : litn k = Ok (mk_nd [] (fun _ => Fin (INR k))).
Proof. reflexivity. Qed.
Lemma sc_mk x : sc x = Ok (mk_nd [] (fun _ => x)).
Proof. reflexivity. Qed.
Lemma sum_all_mk s g : sum_all (Ok (mk_nd s g)) = Ok (mk_nd [] (fun _ => nsum (map g (product s)))).
Proof. reflexivity. Qed.
Lemma sum_keep0_mk n s g : sum_keep 0 (Ok (mk_nd (n :: s) g)) = Ok (mk_nd (1 :: s) (fun idx => nsum (map (fun i => g (i :: tl idx)) (seq 0 n)))).
Proof. apply np_sum_keep0. Qed.
Lemma sum_axis0_mk n s g : sum_axis 0 (Ok (mk_nd (n :: s) g)) = Ok (mk_nd s (fun idx => nsum (map (fun i => g (i :: idx)) (seq 0 n)))).
Proof. apply np_sum_axis0. Qed.
Lemma sum_last_mk s m g : sum_axis (length s) (Ok (mk_nd (s ++ [m]) g)) = Ok (mk_nd s (fun idx => nsum (map (fun i => g (idx ++ [i])) (seq 0 m)))).
Proof. apply np_sum_last. Qed.
Lemma expand_mk s g : expand (length s) (Ok (mk_nd s g)) = Ok (mk_nd (s ++ [1]) (fun idx => g (removelast idx))).
Proof. apply np_expand_last. Qed.
Lemma np_linspace_mk a b n : np_linspace a b n = mk_nd [n] (fun idx => let i := nth 0 idx 0 in
   Fin (if Nat.ltb 1 n && Nat.eqb (S i) n then b else INR i * ((b - a) / INR (n - 1)) + a)%R).
Proof. unfold np_linspace. rewrite nd_vec_mk. reflexivity. Qed.

(** evaluate a numpy expression whose operands are arrays given by functions of the multi-index *)
Ltac py1 := first
  [ rewrite nbin_same | rewrite nbin_sl | rewrite nbin_sr | rewrite nun_mk
  | rewrite sum_keep0_mk | rewrite sum_axis0_mk | rewrite sum_last_mk | rewrite expand_mk
  | rewrite nbin_lead | rewrite nbin_keep | rewrite nbin_last_full | rewrite nbin_last | rewrite nbin_last_r | rewrite nbin_vec_full
  | rewrite sum_all_mk ].
Ltac py := unfold np_log, np_exp, np_sqrt, np_pow2, np_neg; rewrite ?lit_mk, ?litn_mk, ?sc_mk; repeat py1.
