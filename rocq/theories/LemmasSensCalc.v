(** Derivative terms compute the derivatives of g along a curve. *)
From Coq Require Import String Reals List Bool Arith ZArith Lia Lra Permutation.
From Coquelicot Require Import Coquelicot.
From Verif Require Import Res Num Nd RSum ModelAutograd ModelSparse ModelParameters ModelMatrix ModelSimplex ModelProjection ModelDict ModelObjective ModelSensitivity.
From Verif Require Import SpecParameters LemmasParameters LemmasPrecond SpecSmooth LemmasSmooth LemmasDirDeriv LemmasTerms LemmasTermsNat.
Import List ListNotations.
Open Scope R_scope.
Set Bullet Behavior "Strict Subproofs".

(** ---- lists of labels ---- *)
Fixpoint lrepls (L : list nat) : list (list nat) := match L with [] => [] | i :: tl => (S i :: tl) :: map (cons i) (lrepls tl) end.
Lemma lrepls_sum (L : list nat) : forall F : list nat -> R, (forall X X', length X = length L -> Permutation X X' -> F X = F X') ->
  lsum (map F (lrepls L)) = lsum (map (fun i => F (S i :: list_remove L i)) L).
Proof.
  induction L as [|i L IH]; intros F HF; [reflexivity|]. cbn [lrepls map lsum fold_right]. fold (lsum (map F (map (cons i) (lrepls L)))).
  fold (lsum (map (fun j => F (S j :: list_remove (i :: L) j)) L)). rewrite map_map. rewrite (IH (fun X => F (i :: X))).
  - f_equal; [cbn [list_remove]; rewrite Nat.eqb_refl; reflexivity|]. apply lsum_map_ext. intros j Hj. apply HF.
    + cbn [length]. pose proof (Permutation_length (list_remove_perm L j Hj)) as E. cbn in E. rewrite E. reflexivity.
    + cbn [list_remove]. destruct (Nat.eqb_spec i j) as [->|N].
      * rewrite perm_swap. apply perm_skip. symmetry. apply list_remove_perm, Hj.
      * apply perm_swap.
  - intros X X' HX P. apply HF; [cbn; rewrite HX; reflexivity|apply perm_skip, P].
Qed.
Lemma count_expand ks : forall s x, count_occ Nat.eq_dec (expand s ks) x = if Nat.leb s x then nth (x - s) ks 0%nat else 0%nat.
Proof.
  induction ks as [|k ks IH]; intros s x; cbn [expand].
  - cbn. destruct (Nat.leb s x); [destruct (x - s)%nat; reflexivity|reflexivity].
  - rewrite count_occ_app, IH. destruct (Nat.eq_dec x s) as [->|N].
    + rewrite count_occ_repeat_eq by reflexivity. rewrite Nat.leb_refl, Nat.sub_diag. destruct (Nat.leb_spec (S s) s); [lia|]. cbn [nth]. lia.
    + rewrite count_occ_repeat_neq by (intros E; apply N; auto). destruct (Nat.leb_spec (S s) x); destruct (Nat.leb_spec s x); try lia. replace (x - s)%nat with (S (x - S s)) by lia. reflexivity.
Qed.
Lemma count_expand0 ks x : count_occ Nat.eq_dec (expand 0 ks) x = nth x ks 0%nat.
Proof. rewrite count_expand. cbn [Nat.leb]. rewrite Nat.sub_0_r. reflexivity. Qed.
Lemma count_remove L i x : count_occ Nat.eq_dec (list_remove L i) x = (count_occ Nat.eq_dec L x - (if Nat.eqb i x then 1 else 0))%nat.
Proof.
  induction L as [|y L IH]; [reflexivity|]. cbn [list_remove]. destruct (Nat.eqb_spec y i) as [->|N].
  - cbn [count_occ]. destruct (Nat.eq_dec i x) as [->|N2]; [rewrite Nat.eqb_refl; lia|]. destruct (Nat.eqb_spec i x); [congruence|lia].
  - cbn [count_occ]. rewrite IH. destruct (Nat.eq_dec y x) as [->|N2]; [|reflexivity]. destruct (Nat.eqb_spec i x); [congruence|lia].
Qed.
Lemma nth_nshift l i x : (S i < length l)%nat -> nth x (nshift l i) 0%nat = if Nat.eqb x (S i) then (nth (S i) l 0 + 1)%nat else if Nat.eqb x i then (nth i l 0 - 1)%nat else nth x l 0%nat.
Proof.
  intros H. unfold nshift. rewrite nth_upd_nat by (rewrite upd_length; lia). rewrite !nth_upd_nat by lia.
  destruct (Nat.eqb_spec x (S i)) as [->|N]; [|reflexivity]. destruct (Nat.eqb_spec (S i) i); [lia|reflexivity].
Qed.
Lemma nth_app0 ks x : nth x (ks ++ [0%nat]) 0%nat = nth x ks 0%nat.
Proof.
  destruct (lt_dec x (length ks)); [rewrite app_nth1 by lia; reflexivity|]. rewrite app_nth2 by lia. rewrite (nth_overflow ks) by lia. destruct (x - length ks)%nat as [|[|]]; reflexivity.
Qed.
Lemma expand_app0 ks : Permutation (expand 0 (ks ++ [0%nat])) (expand 0 ks).
Proof. apply (Permutation_count_occ Nat.eq_dec). intros x. rewrite !count_expand0. apply nth_app0. Qed.
Lemma expand_nshift ks i : (i < length ks)%nat -> (0 < nth i ks 0)%nat -> Permutation (expand 0 (nshift (ks ++ [0%nat]) i)) (S i :: list_remove (expand 0 ks) i).
Proof.
  intros Hi Hp. apply (Permutation_count_occ Nat.eq_dec). intros x. rewrite count_expand0. rewrite nth_nshift by (rewrite app_length; cbn; lia). cbn [count_occ]. rewrite count_remove, count_expand0.
  rewrite !nth_app0. destruct (Nat.eqb_spec x (S i)) as [->|N].
  - destruct (Nat.eq_dec (S i) (S i)); [|lia]. destruct (Nat.eqb_spec i (S i)); lia.
  - destruct (Nat.eq_dec (S i) x); [lia|]. destruct (Nat.eqb_spec x i) as [->|N2]; [rewrite Nat.eqb_refl; lia|]. destruct (Nat.eqb_spec i x); lia.
Qed.
Lemma expand_nbump0 ks : Permutation (expand 0 (nbump0 (ks ++ [0%nat]))) (0%nat :: expand 0 ks).
Proof.
  apply (Permutation_count_occ Nat.eq_dec). intros x. rewrite count_expand0. unfold nbump0. rewrite nth_upd_nat by (rewrite app_length; cbn; lia). cbn [count_occ]. rewrite count_expand0, !nth_app0.
  destruct (Nat.eqb_spec x 0) as [E|N]; destruct (Nat.eq_dec 0 x); try subst; try lia.
Qed.
Lemma expand_sum (H : nat -> R) ks : forall s, lsum (map H (expand s ks)) = lsum (map (fun i => INR (nth i ks 0%nat) * H (s + i)%nat) (seq 0 (length ks))).
Proof.
  induction ks as [|k ks IH]; intros s; [reflexivity|]. cbn [expand length seq map]. rewrite map_app, lsum_app, IH. cbn [lsum fold_right nth]. 
  fold (lsum (map (fun i => INR (nth i (k :: ks) 0%nat) * H (s + i)%nat) (seq 1 (length ks)))). rewrite <- seq_shift, map_map. rewrite Nat.add_0_r. f_equal.
  - clear. induction k as [|k IHk]; [cbn; ring|]. cbn [repeat map lsum fold_right]. fold (lsum (map H (repeat s k))). rewrite IHk, S_INR. ring.
  - apply lsum_map_ext. intros i _. cbn [nth]. rewrite Nat.add_succ_r. reflexivity.
Qed.

Lemma repls_app (F : list (list R) -> R) A : forall G, (forall X, F X = G X) -> forall B,
  lsum (map F (repls (A ++ B))) = lsum (map (fun X => G (X ++ map fst B)) (repls A)) + lsum (map (fun Y => G (map fst A ++ Y)) (repls B)).
Proof.
  intros G E B. rewrite (map_ext F G E). clear E F. revert G. induction A as [|[v v'] A IH]; intros G; cbn [app repls map fst].
  - change (lsum []) with 0. rewrite Rplus_0_l. reflexivity.
  - change (G (v' :: map fst (A ++ B)) + lsum (map G (map (cons v) (repls (A ++ B)))) = (G ((v' :: map fst A) ++ map fst B) + lsum (map (fun X => G (X ++ map fst B)) (map (cons v) (repls A)))) + lsum (map (fun Y => G ((v :: map fst A) ++ Y)) (repls B))).
    rewrite !map_map. rewrite (IH (fun X => G (v :: X))). rewrite map_app. cbn [app]. ring.
Qed.
Lemma Dd_has_zero n ds : forall f z d, In d ds -> (forall i, (i < n)%nat -> nth i d 0 = 0) -> Dd n ds f z = 0.
Proof.
  induction ds as [|a ds IH]; intros f z d Hin Hz; [destruct Hin|]. destruct Hin as [->|Hin]; [apply Dd_zero, Hz|]. cbn [Dd]. apply rsum_zero. intros i Hi. rewrite (IH _ _ d Hin Hz). ring.
Qed.
Lemma repls_zero (w z : list R) e Y : In Y (repls (repeat (w, z) e)) -> In z Y.
Proof.
  revert Y. induction e as [|e IH]; intros Y H; [destruct H|]. cbn [repeat repls] in H. destruct H as [<-|H]; [left; reflexivity|]. apply in_map_iff in H. destruct H as [Y' [<- H]]. right. apply IH, H.
Qed.
Lemma repls_labels (e : nat -> list R) L : repls (map (fun i => (e i, e (S i))) L) = map (map e) (lrepls L).
Proof.
  induction L as [|i L IH]; [reflexivity|]. cbn [map repls lrepls]. rewrite IH. f_equal.
  - f_equal. rewrite map_map. reflexivity.
  - rewrite !map_map. reflexivity.
Qed.
Lemma lsum_zero {A} (f : A -> R) l : (forall x, In x l -> f x = 0) -> lsum (map f l) = 0.
Proof. intros H. rewrite (lsum_map_ext f (fun _ => 0 * 0)) by (intros x Hx; rewrite H by exact Hx; ring). rewrite lsum_map_scal. ring. Qed.

Section Two.
Variables n p : nat.
Definition emb1 (v : list R) : list R := v ++ repeat 0 p.
Definition emb2 (w : list R) : list R := repeat 0 n ++ w.
Lemma nth_repeat0 m i : nth i (repeat 0 m) 0 = 0.
Proof. revert i. induction m; intros [|i]; cbn; auto. Qed.
Lemma emb1_nth v i : length v = n -> nth i (emb1 v) 0 = if Nat.ltb i n then nth i v 0 else 0.
Proof. intros L. unfold emb1. destruct (Nat.ltb_spec i n); [rewrite app_nth1 by lia; reflexivity|rewrite app_nth2 by lia; apply nth_repeat0]. Qed.
Lemma emb2_nth w i : nth i (emb2 w) 0 = if Nat.ltb i n then 0 else nth (i - n) w 0.
Proof. unfold emb2. destruct (Nat.ltb_spec i n); [rewrite app_nth1 by (rewrite repeat_length; lia); apply nth_repeat0|rewrite app_nth2 by (rewrite repeat_length; lia); rewrite repeat_length; reflexivity]. Qed.
Lemma app_nth_n (x y : list R) i : length x = n -> nth i (x ++ y) 0 = if Nat.ltb i n then nth i x 0 else nth (i - n) y 0.
Proof. intros L. destruct (Nat.ltb_spec i n); [apply app_nth1; lia|rewrite app_nth2 by lia; rewrite L; reflexivity]. Qed.

Variable U : list R -> Prop.
Hypothesis O : open_in (n + p) U.
Variables (g : pyfun) (q : nat) (G : nat -> list R -> R).
(** g is a Python function of two vectors whose components are the functions G c *)
Hypothesis Hg : forall x1 x2, length x1 = n -> length x2 = p -> U (x1 ++ x2) -> exists w, g [x1; x2] = Ok w /\ length w = q /\ forall c, (c < q)%nat -> nth c w 0 = G c (x1 ++ x2).

Definition represents (f : pyfun) (vs ds : list (list R)) : Prop :=
  forall x1 x2, length x1 = n -> length x2 = p -> U (x1 ++ x2) ->
  exists w, f (x1 :: x2 :: vs) = Ok w /\ length w = q /\ forall c, (c < q)%nat -> nth c w 0 = Dd (n + p) ds (G c) (x1 ++ x2).
Lemma represents_g : represents g [] [].
Proof. intros x1 x2 L1 L2 Ux. apply Hg; assumption. Qed.

Lemma move_near z d : U z -> locally 0 (fun t => U (move z d t)).
Proof.
  intros Uz. destruct (O z Uz) as [L [e [Pe He]]]. set (B := rsum (n + p) (fun i => Rabs (nth i d 0))).
  assert (B0 : 0 <= B) by (apply rsum_nonneg; intros; apply Rabs_pos). assert (Pq : 0 < e / (B + 1)) by (apply Rdiv_lt_0_compat; lra).
  exists (mkposreal _ Pq). intros t Ht. unfold ball in Ht. cbn in Ht. unfold AbsRing_ball in Ht. cbn in Ht. unfold minus, plus, opp in Ht. cbn in Ht. change (Rabs (t + - 0) < e / (B + 1)) in Ht. rewrite Ropp_0, Rplus_0_r in Ht.
  apply He. split; [rewrite move_length; exact L|]. intros i Hi. rewrite move_nth by lia. replace (nth i z 0 + t * nth i d 0 - nth i z 0) with (t * nth i d 0) by ring. rewrite Rabs_mult.
  assert (Bi : Rabs (nth i d 0) <= B) by (apply (rsum_term_le (n + p) (fun i => Rabs (nth i d 0))); [exact Hi|intros; apply Rabs_pos]).
  pose proof (Rabs_pos t). pose proof (Rabs_pos (nth i d 0)). apply Rle_lt_trans with (Rabs t * (B + 1)); [apply Rmult_le_compat_l; lra|].
  apply (Rmult_lt_compat_r (B + 1)) in Ht; [|lra]. replace (e / (B + 1) * (B + 1)) with e in Ht by (field; lra). exact Ht.
Qed.
Lemma jvp_derive f vs ds (a : nat) (d : list R) (P : R -> list vec) x1 x2 : represents f vs ds -> length x1 = n -> length x2 = p -> U (x1 ++ x2) ->
  (forall c, (c < q)%nat -> Ck (S (length ds)) (n + p) U (G c)) ->
  (forall t, exists y1 y2, P t = y1 :: y2 :: vs /\ length y1 = n /\ length y2 = p /\ y1 ++ y2 = move (x1 ++ x2) d t) ->
  forall c, (c < q)%nat -> is_derive (fun t => match f (P t) with Ok w => nth c w 0 | Raise _ => 0 end) 0 (Dd (n + p) (d :: ds) (G c) (x1 ++ x2)).
Proof.
  intros Hf L1 L2 Ux HC HP c Hc. apply (is_derive_ext_loc (fun t => Dd (n + p) ds (G c) (move (x1 ++ x2) d t))).
  - generalize (move_near (x1 ++ x2) d Ux). apply filter_imp. intros t Ut. destruct (HP t) as [y1 [y2 [-> [M1 [M2 E]]]]]. rewrite <- E in *. destruct (Hf y1 y2 M1 M2 Ut) as [w [-> [_ Hw]]]. symmetry. apply Hw, Hc.
  - apply (Dd_move (n + p) U O); [exact Ux|apply HC, Hc].
Qed.
Lemma vadd_move x d t : length d = length x -> vadd x (vscale t d) = move x d t.
Proof.
  intros L. apply list_eq_nth; [rewrite vadd_length by (rewrite vscale_length; lia); rewrite move_length; reflexivity|]. intros i Hi. rewrite vadd_length in Hi by (rewrite vscale_length; lia).
  rewrite vadd_nth by (rewrite vscale_length; lia). rewrite vscale_nth, move_nth by exact Hi. reflexivity.
Qed.
Lemma move_emb1 x1 x2 v t : length x1 = n -> length x2 = p -> length v = n -> move x1 v t ++ x2 = move (x1 ++ x2) (emb1 v) t.
Proof.
  intros L1 L2 Lv. apply list_eq_nth; [rewrite app_length, !move_length, app_length; reflexivity|]. intros i Hi. rewrite app_length, move_length in Hi. rewrite move_nth by (rewrite app_length; lia).
  rewrite !app_nth_n by (try rewrite move_length; lia). rewrite emb1_nth by exact Lv. destruct (Nat.ltb_spec i n); [apply move_nth; lia|ring].
Qed.
Lemma move_emb2 x1 x2 w t : length x1 = n -> length x2 = p -> x1 ++ move x2 w t = move (x1 ++ x2) (emb2 w) t.
Proof.
  intros L1 L2. apply list_eq_nth; [rewrite app_length, !move_length, app_length; reflexivity|]. intros i Hi. rewrite app_length, move_length in Hi. rewrite move_nth by (rewrite app_length; lia).
  rewrite !app_nth_n by lia. rewrite emb2_nth. destruct (Nat.ltb_spec i n); [ring|apply move_nth; lia].
Qed.
Lemma wrap_args f a x1 x2 vs v : wrap f a (x1 :: x2 :: vs ++ [v]) = make_jvp f a (x1 :: x2 :: vs) v.
Proof. unfold wrap. cbn [skipn firstn]. rewrite rev_app_distr. cbn [rev app]. rewrite rev_involutive. reflexivity. Qed.
Lemma represents_1 f vs ds v : represents f vs ds -> length v = n -> (forall c, (c < q)%nat -> Ck (S (length ds)) (n + p) U (G c)) ->
  represents (wrap f 0) (vs ++ [v]) (emb1 v :: ds).
Proof.
  intros Hf Lv HC x1 x2 L1 L2 Ux. rewrite wrap_args. unfold make_jvp. destruct (Hf x1 x2 L1 L2 Ux) as [w [E [Lw _]]]. unfold vec in *. rewrite E. cbn [rbind]. rewrite Lw. eexists. split; [reflexivity|].
  split; [rewrite map_length, seq_length; reflexivity|]. intros c Hc. rewrite nth_map_seq by exact Hc. cbn [upd nth]. apply is_derive_unique.
  apply (jvp_derive f vs ds 0 (emb1 v) (fun t => vadd x1 (vscale t v) :: x2 :: vs)); try assumption. intros t. exists (vadd x1 (vscale t v)), x2. rewrite vadd_move by lia.
  split; [reflexivity|]. rewrite move_length. split; [exact L1|]. split; [exact L2|]. apply move_emb1; assumption.
Qed.
Lemma represents_2 f vs ds v : represents f vs ds -> length v = p -> (forall c, (c < q)%nat -> Ck (S (length ds)) (n + p) U (G c)) ->
  represents (wrap f 1) (vs ++ [v]) (emb2 v :: ds).
Proof.
  intros Hf Lv HC x1 x2 L1 L2 Ux. rewrite wrap_args. unfold make_jvp. destruct (Hf x1 x2 L1 L2 Ux) as [w [E [Lw _]]]. unfold vec in *. rewrite E. cbn [rbind]. rewrite Lw. eexists. split; [reflexivity|].
  split; [rewrite map_length, seq_length; reflexivity|]. intros c Hc. rewrite nth_map_seq by exact Hc. cbn [upd nth]. apply is_derive_unique.
  apply (jvp_derive f vs ds 0 (emb2 v) (fun t => x1 :: vadd x2 (vscale t v) :: vs)); try assumption. intros t. exists x1, (vadd x2 (vscale t v)). rewrite vadd_move by lia.
  split; [reflexivity|]. rewrite move_length. split; [exact L1|]. split; [exact L2|]. apply move_emb2; assumption.
Qed.
Lemma represents_J1 vs : (forall v, In v vs -> length v = n) -> (forall c, (c < q)%nat -> Ck (length vs) (n + p) U (G c)) ->
  represents (Jx1 g (length vs)) vs (rev (map emb1 vs)).
Proof.
  induction vs as [|v vs IH] using rev_ind; intros Lv HC; [apply represents_g|]. rewrite app_length. cbn [length]. rewrite Nat.add_1_r. cbn [Jx1]. rewrite map_app, rev_app_distr. cbn [map rev app].
  rewrite app_length in HC. cbn [length] in HC. rewrite Nat.add_1_r in HC.
  apply represents_1; [apply IH|apply Lv, in_or_app; right; left; reflexivity|].
  - intros u Hu. apply Lv, in_or_app. now left.
  - intros c Hc. apply Ck_pred, HC, Hc.
  - intros c Hc. rewrite rev_length, map_length. apply HC, Hc.
Qed.
Lemma represents_J vs ws : (forall v, In v vs -> length v = n) -> (forall w, In w ws -> length w = p) -> (forall c, (c < q)%nat -> Ck (length vs + length ws) (n + p) U (G c)) ->
  represents (J g (length vs) (length ws)) (vs ++ ws) (rev (map emb1 vs ++ map emb2 ws)).
Proof.
  intros Lv. induction ws as [|w ws IH] using rev_ind; intros Lw HC.
  - unfold J. cbn [length Jx2 map]. rewrite !app_nil_r. apply represents_J1; [exact Lv|]. cbn [length] in HC. rewrite Nat.add_0_r in HC. exact HC.
  - unfold J. rewrite app_length in *. cbn [length] in *. rewrite Nat.add_1_r in *. cbn [Jx2]. rewrite map_app. cbn [map]. rewrite !app_assoc. rewrite (rev_app_distr _ [emb2 w]). cbn [rev app].
    rewrite Nat.add_succ_r in HC. apply represents_2; [apply IH|apply Lw, in_or_app; right; left; reflexivity|].
    + intros u Hu. apply Lw, in_or_app. now left.
    + intros c Hc. apply Ck_pred, HC, Hc.
    + intros c Hc. rewrite rev_length, app_length, !map_length. apply HC, Hc.
Qed.

(** ---- along a curve ---- *)
Section Curve.
Variables (K : nat) (delta : R) (E : nat -> R -> list R) (eps0 deps : list R).
Hypothesis Leps : length eps0 = p.
Hypothesis Ldeps : length deps = p.
Hypothesis HE : forall k t, length (E k t) = n.
Hypothesis HD : forall k t c, (k < K)%nat -> Rabs t < delta -> (c < n)%nat -> is_derive (fun s => nth c (E k s) 0) t (nth c (E (S k) t) 0).
Definition zcurve (t : R) : list R := E 0 t ++ move eps0 deps t.
Hypothesis HU : forall t, Rabs t < delta -> U (zcurve t).
Hypothesis HC : forall c, (c < q)%nat -> Ck K (n + p) U (G c).

Definition dirs (e : nat) (ks : list nat) (t : R) : list (list R) := map (fun i => emb1 (E (S i) t)) (expand 0 ks) ++ repeat (emb2 deps) e.
Definition phi (c : nat) (s : nat * list nat) (t : R) : R := Dd (n + p) (dirs (fst s) (snd s) t) (G c) (zcurve t).

Lemma phi_perm c ds ds' t : (c < q)%nat -> Rabs t < delta -> (length ds <= K)%nat -> Permutation ds ds' -> Dd (n + p) ds (G c) (zcurve t) = Dd (n + p) ds' (G c) (zcurve t).
Proof. intros Hc Ht L P. apply (Dd_perm (n + p) U O _ _ P); [apply HU, Ht|]. apply (Ck_le (length ds) K); [exact L|apply HC, Hc]. Qed.
Lemma dirs_length e ks t : length (dirs e ks t) = (nsum ks + e)%nat.
Proof. unfold dirs. rewrite app_length, map_length, repeat_length, expand_length. reflexivity. Qed.
Lemma expand_in ks i : In i (expand 0 ks) -> (i < length ks)%nat.
Proof. intros H. apply (count_occ_In Nat.eq_dec) in H. rewrite count_expand0 in H. destruct (lt_dec i (length ks)); [assumption|]. rewrite nth_overflow in H by lia. lia. Qed.

Lemma phi_deriv k c e ks r t : a_ok k (e, ks, r) -> (k < K)%nat -> (c < q)%nat -> Rabs t < delta ->
  is_derive (phi c (e, ks)) t (phi c (S e, ks ++ [0%nat]) t + phi c (e, nbump0 (ks ++ [0%nat])) t +
    lsum (map (fun i => INR (nth i ks 0%nat) * phi c (e, nshift (ks ++ [0%nat]) i) t) (seq 0 (length ks)))).
Proof.
  intros [Lk W] HK Hc Ht. pose proof (nsum_weight ks 1 ltac:(lia)) as Hs.
  set (Z := map (fun _ : nat => 0) (seq 0 (n + p))). assert (Z0 : forall i, nth i Z 0 = 0) by (intros i; unfold Z; apply (map_nth (fun _ : nat => 0) (seq 0 (n + p)) 0%nat i)).
  set (A := map (fun i => (fun s => emb1 (E (S i) s), emb1 (E (S (S i)) t))) (expand 0 ks)). set (B := repeat ((fun _ : R => emb2 deps), Z) e).
  pose proof (Dd_curve (n + p) U O zcurve (E 1 t ++ deps) t (A ++ B) (HU t Ht)) as D.
  assert (D1 : forall s, length (zcurve s) = (n + p)%nat) by (intros; unfold zcurve; rewrite app_length, HE, move_length, Leps; reflexivity). specialize (D D1).
  assert (D2 : forall i, (i < n + p)%nat -> is_derive (fun s => nth i (zcurve s) 0) t (nth i (E 1 t ++ deps) 0)).
  { intros i Hi. rewrite app_nth_n by apply HE. destruct (Nat.ltb_spec i n) as [H|H].
    - apply (is_derive_ext (fun s => nth i (E 0 s) 0)); [intros; unfold zcurve; rewrite app_nth1 by (rewrite HE; lia); reflexivity|]. apply HD; [lia|exact Ht|exact H].
    - apply (is_derive_ext (fun s => nth (i - n) eps0 0 + s * nth (i - n) deps 0)).
      + intros s. unfold zcurve. rewrite app_nth2 by (rewrite HE; lia). rewrite HE. rewrite move_nth by lia. reflexivity.
      + auto_derive; [exact I|ring]. }
  specialize (D D2).
  assert (D3 : forall v v', In (v, v') (A ++ B) -> forall i, (i < n + p)%nat -> is_derive (fun s => nth i (v s) 0) t (nth i v' 0)).
  { intros v v' Hin i Hi. apply in_app_or in Hin. destruct Hin as [Hin|Hin].
    - unfold A in Hin. apply in_map_iff in Hin. destruct Hin as [j [Ej Hj]]. apply expand_in in Hj. assert (E1 : v = fun s => emb1 (E (S j) s)) by (apply (f_equal fst) in Ej; symmetry; exact Ej). assert (E2 : v' = emb1 (E (S (S j)) t)) by (apply (f_equal snd) in Ej; symmetry; exact Ej). subst v v'.
      rewrite emb1_nth by apply HE. apply (is_derive_ext (fun s => if Nat.ltb i n then nth i (E (S j) s) 0 else 0)); [intros; symmetry; apply emb1_nth, HE|].
      destruct (Nat.ltb_spec i n); [apply HD; [lia|exact Ht|exact H]|apply @is_derive_const].
    - apply repeat_spec in Hin. assert (E1 : v = fun _ => emb2 deps) by (apply (f_equal fst) in Hin; exact Hin). assert (E2 : v' = Z) by (apply (f_equal snd) in Hin; exact Hin). subst v v'. rewrite Z0. apply @is_derive_const. }
  assert (LAB : length (A ++ B) = (nsum ks + e)%nat) by (unfold A, B; rewrite app_length, map_length, repeat_length, expand_length; reflexivity).
  specialize (D D3 (G c)). rewrite LAB in D. specialize (D (Ck_le (S (nsum ks + e)) K _ _ _ ltac:(lia) (HC c Hc))). cbv zeta in D.
  set (e1 := fun i => emb1 (E (S i) t)) in *.
  assert (Fs : forall s, map (fun p0 => fst p0 s) (A ++ B) = dirs e ks s).
  { intros s. unfold A, B, dirs. rewrite map_app, map_map. cbn [fst]. f_equal. clear. induction e; cbn; [reflexivity|]. f_equal. exact IHe. }
  set (pA := map (fun i => (e1 i, e1 (S i))) (expand 0 ks)). set (pB := repeat (emb2 deps, Z) e).
  assert (Ps : map (fun p0 => (fst p0 t, snd p0)) (A ++ B) = pA ++ pB).
  { unfold A, B, pA, pB. rewrite map_app, map_map. cbn [fst snd]. f_equal. clear. induction e; cbn; [reflexivity|]. f_equal. exact IHe. }
  rewrite Ps in D. apply (is_derive_ext _ (phi c (e, ks)) t) in D; [|intros s; cbv beta; rewrite Fs; reflexivity].
  assert (Mf : map fst (pA ++ pB) = dirs e ks t).
  { unfold pA, pB, dirs. rewrite map_app, map_map. cbn [fst]. f_equal. clear. induction e; cbn; [reflexivity|]. f_equal. exact IHe. }
  assert (MB : map fst pB = repeat (emb2 deps) e) by (unfold pB; clear; induction e; cbn; [reflexivity|f_equal; exact IHe]).
  rewrite Mf in D. match type of D with is_derive _ _ ?X => match goal with |- is_derive _ _ ?Y => replace Y with X; [exact D|] end end.
  rewrite (Dd_add (n + p) (emb1 (E 1 t)) (emb2 deps)).
  2:{ intros i Hi. rewrite app_nth_n by apply HE. rewrite emb1_nth by apply HE. rewrite emb2_nth. destruct (Nat.ltb i n); ring. }
  assert (Pe : Dd (n + p) (emb2 deps :: dirs e ks t) (G c) (zcurve t) = phi c (S e, ks ++ [0%nat]) t).
  { unfold phi. cbn [fst snd]. apply phi_perm; [exact Hc|exact Ht|cbn [length]; rewrite dirs_length; lia|]. unfold dirs. cbn [repeat].
    rewrite (Permutation_map (fun i => emb1 (E (S i) t)) (expand_app0 ks)). apply Permutation_middle. }
  assert (Pb : Dd (n + p) (emb1 (E 1 t) :: dirs e ks t) (G c) (zcurve t) = phi c (e, nbump0 (ks ++ [0%nat])) t).
  { unfold phi. cbn [fst snd]. apply phi_perm; [exact Hc|exact Ht|cbn [length]; rewrite dirs_length; lia|]. unfold dirs.
    rewrite (Permutation_map (fun i => emb1 (E (S i) t)) (expand_nbump0 ks)). reflexivity. }
  rewrite Pe, Pb.
  rewrite (repls_app (fun ds => Dd (n + p) ds (G c) (zcurve t)) pA _ (fun X => eq_refl)). rewrite (lsum_zero (fun Y => Dd (n + p) (map fst pA ++ Y) (G c) (zcurve t)) (repls pB)).
  2:{ intros Y HY. apply (Dd_has_zero _ _ _ _ Z); [apply in_or_app; right; apply (repls_zero (emb2 deps) Z e), HY|intros; apply Z0]. }
  unfold pA. rewrite repls_labels, map_map.
  rewrite (lrepls_sum (expand 0 ks) (fun X => Dd (n + p) (map e1 X ++ map fst pB) (G c) (zcurve t))).
  2:{ intros X X' HX P. apply phi_perm; [exact Hc|exact Ht| |apply Permutation_app_tail, Permutation_map, P]. rewrite app_length, map_length, HX, expand_length, MB, repeat_length. lia. }
  rewrite expand_sum. cbn [Nat.add].
  rewrite (lsum_map_ext (fun i => INR (nth i ks 0%nat) * Dd (n + p) (map e1 (S i :: list_remove (expand 0 ks) i) ++ map fst pB) (G c) (zcurve t)) (fun i => INR (nth i ks 0%nat) * phi c (e, nshift (ks ++ [0%nat]) i) t)).
  - ring.
  - intros i Hi. apply in_seq in Hi. destruct (Nat.eq_dec (nth i ks 0%nat) 0) as [Ez|Nz]; [rewrite Ez; cbn [INR]; ring|]. f_equal. unfold phi. cbn [fst snd]. symmetry. apply phi_perm; [exact Hc|exact Ht| |].
    + rewrite dirs_length. assert (Wn : nweight 1 (nshift (ks ++ [0%nat]) i) = (nweight 1 ks + 1)%nat) by (rewrite nshift_weight; [rewrite nweight_app; cbn [nweight]; lia|rewrite app_length; cbn; lia|rewrite nth_app0; lia]).
      pose proof (nsum_weight (nshift (ks ++ [0%nat]) i) 1 ltac:(lia)). lia.
    + unfold dirs. rewrite MB. apply Permutation_app_tail, Permutation_map. apply expand_nshift; lia.
Qed.

(** the value of a list of terms along the curve *)
Definition Tval (c : nat) (l : list aterm) (t : R) : R := lsum (map (fun a => snd a * phi c (fst a) t) l).
Lemma is_derive_lsum {A} (f : A -> R -> R) (d : A -> R) l t : (forall a, In a l -> is_derive (f a) t (d a)) -> is_derive (fun s => lsum (map (fun a => f a s) l)) t (lsum (map d l)).
Proof.
  induction l as [|a l IH]; intros H; [exact (is_derive_const (V := R_NormedModule) 0 t)|]. apply (is_derive_plus (f a) (fun s => lsum (map (fun a => f a s) l))); [apply H; now left|apply IH; intros; apply H; now right].
Qed.
Lemma Tval_adiff c a t : Tval c (adiff a) t = snd a * (let '(e, ks) := fst a in phi c (S e, ks ++ [0%nat]) t + phi c (e, nbump0 (ks ++ [0%nat])) t +
    lsum (map (fun i => INR (nth i ks 0%nat) * phi c (e, nshift (ks ++ [0%nat]) i) t) (seq 0 (length ks)))).
Proof.
  destruct a as [[e ks] r]. unfold Tval. cbn [adiff map fst snd lsum fold_right]. match goal with |- _ + (_ + fold_right Rplus 0 ?X) = _ => change (fold_right Rplus 0 X) with (lsum X) end.
  rewrite !Rmult_plus_distr_l. rewrite Rplus_assoc. f_equal. f_equal. rewrite <- lsum_map_scal. generalize (seq 0 (length ks)). intros l. induction l as [|i l IH]; [reflexivity|].
  cbn [flat_map]. rewrite map_app, lsum_app. cbn [map]. rewrite IH. cbn [lsum fold_right]. f_equal. destruct (Nat.ltb_spec 0 (nth i ks 0%nat)).
  - cbn. ring.
  - assert (Z : nth i ks 0%nat = 0%nat) by lia. rewrite Z. cbn. ring.
Qed.
Lemma Tval_flat c l t : Tval c (flat_map adiff l) t = lsum (map (fun a => Tval c (adiff a) t) l).
Proof. unfold Tval. induction l as [|a l IH]; [reflexivity|]. cbn [flat_map]. rewrite map_app, lsum_app. etransitivity; [apply f_equal; exact IH|]. reflexivity. Qed.
Lemma Tval_deriv k c l t : Forall (a_ok k) l -> (k < K)%nat -> (c < q)%nat -> Rabs t < delta -> is_derive (Tval c l) t (Tval c (flat_map adiff l) t).
Proof.
  intros F HK Hc Ht. rewrite Tval_flat. apply (is_derive_lsum (fun a s => snd a * phi c (fst a) s) (fun a => Tval c (adiff a) t)). intros a Ha. rewrite Forall_forall in F. specialize (F a Ha).
  rewrite Tval_adiff. destruct a as [[e ks] r]. cbn [fst snd]. apply (is_derive_scal (phi c (e, ks))). apply (phi_deriv k c e ks r); assumption.
Qed.
End Curve.
End Two.

(** ---- the lists of terms of the expansion ---- *)
Definition same_weight (l l' : list aterm) : Prop := forall f : nat * list nat -> R, lsum (map (fun a => snd a * f (fst a)) l) = lsum (map (fun a => snd a * f (fst a)) l').
Inductive level : nat -> list aterm -> Prop :=
| level_base : level 1 [(1%nat, [0%nat], 1); (0%nat, [1%nat], 1)]
| level_next k l l' : level k l -> Forall (a_ok (S k)) l' -> (forall s, In s (map fst l') <-> In s (map fst (flat_map adiff l))) -> same_weight l' (flat_map adiff l) -> level (S k) l'.
Lemma level_pos k l : level k l -> (1 <= k)%nat. Proof. destruct 1; lia. Qed.
Lemma level_ok k l : level k l -> Forall (a_ok k) l.
Proof. destruct 1; [|assumption]. repeat constructor. Qed.
Lemma level_pure k l : level k l -> In (k, repeat 0%nat k) (map fst l).
Proof.
  induction 1; [left; reflexivity|]. apply H1. apply in_map_iff in IHlevel. destruct IHlevel as [[[e ks] c] [E Hin]]. cbn [fst] in E. injection E as -> ->. apply in_map_iff. exists (S k, repeat 0%nat k ++ [0%nat], c).
  split.
  - cbn [fst]. f_equal. replace (repeat 0%nat (S k)) with (repeat 0%nat (k + 1)) by (f_equal; lia). rewrite repeat_app. reflexivity.
  - apply in_flat_map. exists (k, repeat 0%nat k, c). split; [exact Hin|]. left. reflexivity.
Qed.
Lemma last_app0 ks x : last (ks ++ [x]) 0%nat = x.
Proof. apply last_last. Qed.
Lemma last_nth (l : list nat) : last l 0%nat = nth (length l - 1) l 0%nat.
Proof. induction l as [|a l IH] using rev_ind; [reflexivity|]. rewrite last_last, app_length. cbn [length]. rewrite app_nth2 by lia. replace (length l + 1 - 1 - length l)%nat with 0%nat by lia. reflexivity. Qed.
Lemma nweight_ge l : forall s i, (nth i l 0 * (s + i) <= nweight s l)%nat.
Proof. induction l as [|k l IH]; intros s i; [destruct i; cbn; lia|]. destruct i as [|i]; cbn [nth nweight]; [nia|]. specialize (IH (S s) i). nia. Qed.
Lemma nweight_zero l : forall s, (1 <= s)%nat -> nweight s l = 0%nat -> l = repeat 0%nat (length l).
Proof. induction l as [|k l IH]; intros s Hs H; [reflexivity|]. cbn [nweight] in H. cbn [length repeat]. assert (k = 0%nat) by nia. subst. f_equal. apply (IH (S s)); lia. Qed.
(** a term containing the highest derivative is that derivative alone *)
Lemma highest_shape k e ks r : a_ok k (e, ks, r) -> highest ks = true -> e = 0%nat /\ ks = repeat 0%nat (k - 1) ++ [1%nat].
Proof.
  intros [L W] H. unfold highest in H. destruct (Nat.eqb_spec (last ks 0%nat) 0) as [|N]; [discriminate|]. destruct ks as [|k0 ks0] using rev_ind; [cbn in N; lia|]. clear IHks0. rewrite last_app0 in N.
  rewrite app_length in L. cbn [length] in L. rewrite nweight_app in W. cbn [nweight] in W. assert (L0 : length ks0 = (k - 1)%nat) by lia. rewrite L0 in W.
  assert (k0 = 1%nat) by nia. subst k0. split; [nia|]. f_equal. rewrite <- L0. apply (nweight_zero ks0 1); [lia|nia].
Qed.
Lemma last_nshift ks i : (i < length ks)%nat -> last (nshift (ks ++ [0%nat]) i) 0%nat = if Nat.eqb (S i) (length ks) then 1%nat else 0%nat.
Proof.
  intros Hi. rewrite last_nth, nshift_length, app_length. cbn [length]. replace (length ks + 1 - 1)%nat with (length ks) by lia. rewrite nth_nshift by (rewrite app_length; cbn; lia). rewrite !nth_app0.
  destruct (Nat.eqb_spec (length ks) (S i)) as [E|E]; destruct (Nat.eqb_spec (S i) (length ks)) as [E'|E']; try lia.
  - rewrite nth_overflow by lia. reflexivity.
  - destruct (Nat.eqb_spec (length ks) i); [lia|]. apply nth_overflow. lia.
Qed.
Definition Wt (l : list aterm) : R := lsum (map (fun a => snd a * (if highest (snd (fst a)) then 1 else 0)) l).
Lemma Wt_adiff k a : (1 <= k)%nat -> a_ok k a -> Wt (adiff a) = snd a * (if highest (snd (fst a)) then 1 else 0).
Proof.
  intros Hk Ha. pose proof Ha as Ha0. destruct a as [[e ks] r]. destruct Ha as [L W]. unfold Wt. cbn [adiff map fst snd lsum fold_right].
  match goal with |- _ + (_ + fold_right Rplus 0 ?X) = _ => change (fold_right Rplus 0 X) with (lsum X) end.
  assert (H1 : highest (ks ++ [0%nat]) = false) by (unfold highest; rewrite last_app0; reflexivity).
  assert (H2 : highest (nbump0 (ks ++ [0%nat])) = false).
  { unfold highest. rewrite last_nth. unfold nbump0. rewrite upd_length, app_length. cbn [length]. rewrite nth_upd_nat by (rewrite app_length; cbn; lia). destruct (Nat.eqb_spec (length ks + 1 - 1) 0); [lia|]. rewrite nth_app0, nth_overflow by lia. reflexivity. }
  rewrite H1, H2.
  assert (E : lsum (map (fun a : aterm => snd a * (if highest (snd (fst a)) then 1 else 0)) (flat_map (fun i => if Nat.ltb 0 (nth i ks 0%nat) then [(e, nshift (ks ++ [0%nat]) i, r * INR (nth i ks 0%nat))] else []) (seq 0 (length ks)))) =
    lsum (map (fun i => if Nat.eqb i (length ks - 1) then r * INR (nth i ks 0%nat) else 0) (seq 0 (length ks)))).
  { assert (Q : forall l, (forall i, In i l -> (i < length ks)%nat) -> lsum (map (fun a : aterm => snd a * (if highest (snd (fst a)) then 1 else 0)) (flat_map (fun i => if Nat.ltb 0 (nth i ks 0%nat) then [(e, nshift (ks ++ [0%nat]) i, r * INR (nth i ks 0%nat))] else []) l)) =
      lsum (map (fun i => if Nat.eqb i (length ks - 1) then r * INR (nth i ks 0%nat) else 0) l)).
    { induction l as [|i l IH]; intros Hl; [reflexivity|]. cbn [flat_map]. rewrite map_app, lsum_app, IH by (intros; apply Hl; now right). cbn [map]. cbn [lsum fold_right]. f_equal. assert (Hi : (i < length ks)%nat) by (apply Hl; now left).
      destruct (Nat.ltb_spec 0 (nth i ks 0%nat)) as [Hp|Hp].
      - cbn [map lsum fold_right fst snd]. unfold highest. rewrite last_nshift by exact Hi. destruct (Nat.eqb_spec (S i) (length ks)); destruct (Nat.eqb_spec i (length ks - 1)); try lia; cbn [Nat.eqb negb]; ring.
      - assert (Z : nth i ks 0%nat = 0%nat) by lia. rewrite Z. cbn. destruct (Nat.eqb i (length ks - 1)); ring. }
    apply Q. intros i Hi. apply in_seq in Hi. lia. }
  rewrite E. rewrite lsum_map_seq. rewrite (rsum_single _ (length ks - 1)); [|lia|intros i Hi Ni; destruct (Nat.eqb_spec i (length ks - 1)); [lia|reflexivity]]. rewrite Nat.eqb_refl. rewrite <- last_nth.
  unfold highest. destruct (Nat.eqb_spec (last ks 0%nat) 0) as [Z|N]; cbn [negb]; [rewrite Z; cbn; ring|].
  destruct (highest_shape k e ks r Ha0) as [_ S2]; [unfold highest; destruct (Nat.eqb_spec (last ks 0%nat) 0); [lia|reflexivity]|]. rewrite S2, last_app0. cbn. ring.
Qed.
Lemma level_weight k l : level k l -> Wt l = 1.
Proof.
  induction 1; [unfold Wt; cbn; ring|]. unfold Wt. rewrite (H2 (fun s => if highest (snd s) then 1 else 0)). transitivity (Wt l); [|exact IHlevel]. pose proof (level_pos _ _ H) as Hk. pose proof (level_ok _ _ H) as F.
  clear -Hk F. induction F as [|a l Ha F IH]; [reflexivity|]. cbn [flat_map]. rewrite map_app, lsum_app, IH. change (lsum (map (fun a0 : aterm => snd a0 * (if highest (snd (fst a0)) then 1 else 0)) (adiff a))) with (Wt (adiff a)).
  rewrite (Wt_adiff k) by assumption. reflexivity.
Qed.
Lemma lsum_filter_split {A} (b : A -> bool) (f : A -> R) l : lsum (map f l) = lsum (map f (filter b l)) + lsum (map f (filter (fun x => negb (b x)) l)).
Proof.
  induction l as [|a l IH]; [cbn; ring|]. cbn [map filter]. change (lsum (f a :: map f l)) with (f a + lsum (map f l)). rewrite IH. destruct (b a); cbn [negb map].
  - change (lsum (f a :: map f (filter b l))) with (f a + lsum (map f (filter b l))). ring.
  - change (lsum (f a :: map f (filter (fun x => negb (b x)) l))) with (f a + lsum (map f (filter (fun x => negb (b x)) l))). ring.
Qed.
Lemma lsum_filter_ind {A} (b : A -> bool) (f : A -> R) l : lsum (map f (filter b l)) = lsum (map (fun a => if b a then f a else 0) l).
Proof.
  induction l as [|a l IH]; [reflexivity|]. cbn [filter map].
  change (lsum ((if b a then f a else 0) :: map (fun a => if b a then f a else 0) l)) with ((if b a then f a else 0) + lsum (map (fun a => if b a then f a else 0) l)). rewrite <- IH. destruct (b a); [reflexivity|ring].
Qed.
