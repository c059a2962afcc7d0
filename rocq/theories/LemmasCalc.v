(** Rules of calculus for partial derivatives of functions of a list of reals, and sparse bookkeeping. *)
From Coq Require Import Reals List Bool Arith Lia Lra.
From Coquelicot Require Import Coquelicot.
From Verif Require Import Res Num Nd RSum ModelAutograd ModelSparse ModelParameters SpecParameters LemmasParameters.
Import List ListNotations.
Open Scope R_scope.
Set Bullet Behavior "Strict Subproofs".

Lemma is_partial_const c j x : is_partial (fun _ => c) j x 0.
Proof. unfold is_partial. apply @is_derive_const. Qed.
Lemma is_partial_value f j x d d' : is_partial f j x d -> d = d' -> is_partial f j x d'.
Proof. intros H <-. exact H. Qed.
Lemma is_partial_plus f g j x d e : is_partial f j x d -> is_partial g j x e -> is_partial (fun y => f y + g y) j x (d + e).
Proof. unfold is_partial. intros H K. apply (is_derive_plus (fun t => f (upd x j t)) (fun t => g (upd x j t))); assumption. Qed.
Lemma is_partial_minus f g j x d e : is_partial f j x d -> is_partial g j x e -> is_partial (fun y => f y - g y) j x (d - e).
Proof. unfold is_partial. intros H K. apply (is_derive_minus (fun t => f (upd x j t)) (fun t => g (upd x j t))); assumption. Qed.
Lemma is_partial_opp f j x d : is_partial f j x d -> is_partial (fun y => - f y) j x (- d).
Proof. unfold is_partial. intros H. apply (is_derive_opp (fun t => f (upd x j t))); assumption. Qed.
Lemma is_partial_mult f g j x d e : is_partial f j x d -> is_partial g j x e ->
  is_partial (fun y => f y * g y) j x (d * g x + f x * e).
Proof.
  unfold is_partial. intros H K.
  pose proof (is_derive_mult (fun t => f (upd x j t)) (fun t => g (upd x j t)) (nth j x 0) d e H K (fun a b => Rmult_comm a b)) as G.
  cbv beta in G. rewrite !upd_same in G. exact G.
Qed.
Lemma is_partial_scal c f j x d : is_partial f j x d -> is_partial (fun y => c * f y) j x (c * d).
Proof.
  intros H. apply (is_partial_value _ _ _ (0 * f x + c * d)); [|ring].
  apply (is_partial_mult (fun _ => c)); [apply is_partial_const|exact H].
Qed.
Lemma is_partial_comp (h : R -> R) f j x d e : is_derive h (f x) e -> is_partial f j x d ->
  is_partial (fun y => h (f y)) j x (e * d).
Proof.
  unfold is_partial. intros H K.
  apply (is_partial_value (fun y => h (f y)) j x (d * e)); [|ring].
  unfold is_partial. apply (is_derive_comp h (fun t => f (upd x j t))); [|exact K].
  rewrite upd_same. exact H.
Qed.
Lemma is_partial_rsum n (f : nat -> list R -> R) j x d :
  (forall k, (k < n)%nat -> is_partial (f k) j x (d k)) -> is_partial (fun y => rsum n (fun k => f k y)) j x (rsum n d).
Proof.
  intros H. induction n as [|n IH]; cbn [rsum].
  - apply is_partial_const.
  - apply is_partial_plus; [apply IH; intros; apply H; lia|apply H; lia].
Qed.
Lemma is_partial_nth i j x : (j < length x)%nat -> is_partial (fun y => nth i y 0) j x (if Nat.eqb i j then 1 else 0).
Proof.
  intros Hj. apply (is_partial_coord (fun t => t) 1 i j x Hj). apply @is_derive_id.
Qed.
Lemma is_derive_exp_R x : is_derive exp x (exp x).
Proof. auto_derive; [exact I|ring]. Qed.
Lemma is_partial_exp f j x d : is_partial f j x d -> is_partial (fun y => exp (f y)) j x (exp (f x) * d).
Proof. intros H. apply (is_partial_comp exp f j x d (exp (f x))); [apply is_derive_exp_R|exact H]. Qed.
Lemma is_partial_inv f j x d : f x <> 0 -> is_partial f j x d -> is_partial (fun y => / f y) j x (- d / (f x * f x)).
Proof.
  intros Hf H. apply (is_partial_value _ _ _ (- / (f x * f x) * d)); [|field; exact Hf].
  apply (is_partial_comp Rinv f); [|exact H].
  auto_derive; [exact Hf|]. field; exact Hf.
Qed.
Lemma is_partial_div f g j x d e : g x <> 0 -> is_partial f j x d -> is_partial g j x e ->
  is_partial (fun y => f y / g y) j x ((d * g x - f x * e) / (g x * g x)).
Proof.
  intros Hg H K. apply (is_partial_value _ _ _ (d * / g x + f x * (- e / (g x * g x)))); [|field; exact Hg].
  apply (is_partial_mult f (fun y => / g y)); [exact H|]. apply is_partial_inv; assumption.
Qed.

Lemma is_partial2_intro f i j x (g : list R -> R) h :
  (forall y, length y = length x -> is_partial f j y (g y)) -> is_partial g i x h -> is_partial2 f i j x h.
Proof. intros A B. exists g. split; assumption. Qed.
Lemma is_partial2_value f i j x h h' : is_partial2 f i j x h -> h = h' -> is_partial2 f i j x h'.
Proof. intros H <-. exact H. Qed.
Lemma is_partial2_ext_len f g i j x h : (forall y, length y = length x -> f y = g y) -> is_partial2 f i j x h -> is_partial2 g i j x h.
Proof.
  intros E [d [A B]]. exists d. split; [|exact B]. intros y Hy.
  apply (is_partial_ext_len f); [|apply A; exact Hy]. intros z Hz. apply E. congruence.
Qed.
Lemma is_partial2_const c i j x : is_partial2 (fun _ => c) i j x 0.
Proof. exists (fun _ => 0). split; intros; apply is_partial_const. Qed.

(** autograd's derivative tables are the partial derivatives when these exist *)
Lemma ad_jac_true F nv nf x D : length x = nf ->
  (forall i j, (i < nv)%nat -> (j < nf)%nat -> is_partial (fun z => nth i (F z) 0) j x (D i j)) ->
  jacobian_of F nv nf x (coo_of_dense nv nf (ad_jac F x)).
Proof.
  intros Hx H. split; [reflexivity|]. intros i j Hi Hj. rewrite coo_get_of_dense by assumption.
  unfold ad_jac. rewrite (is_partial_unique _ _ _ _ (H i j Hi Hj)). apply H; assumption.
Qed.
Lemma ad_partial2 f i j x h : is_partial2 f i j x h -> ad_partial (fun y => ad_partial f j y) i x = h.
Proof.
  intros [g [G1 G2]]. rewrite (ad_partial_ext _ g) by (intros y Hy; apply is_partial_unique, G1, Hy).
  apply is_partial_unique. exact G2.
Qed.
Lemma ad_hess_true F nv nf x H : length x = nf ->
  (forall k i j, (k < nv)%nat -> (i < nf)%nat -> (j < nf)%nat -> is_partial2 (fun z => nth k (F z) 0) i j x (H k i j)) ->
  hessians_of F nv nf x (map (fun k => coo_of_dense nf nf (ad_hess F x k)) (seq 0 nv)).
Proof.
  intros Hx HH. split; [rewrite map_length, seq_length; reflexivity|].
  intros k Hk. eexists. split.
  - rewrite nth_error_map. rewrite (nth_error_nth' _ 0%nat) by (rewrite seq_length; exact Hk). rewrite seq_nth by exact Hk. reflexivity.
  - split; [reflexivity|]. intros i j Hi Hj. cbn [Nat.add]. rewrite coo_get_of_dense by assumption.
    unfold ad_hess. rewrite (ad_partial2 _ i j x _ (HH k i j Hk Hi Hj)). apply HH; assumption.
Qed.

(** functions of a slice *)
Lemma slice_upd_in {A} (y : list A) off n j t : (off + n <= length y)%nat -> (off <= j)%nat -> (j < off + n)%nat ->
  slice (upd y j t) off (off + n) = upd (slice y off (off + n)) (j - off) t.
Proof.
  intros Hl H1 H2. destruct y as [|d0 y'] eqn:Ey; [simpl in Hl; lia|]. rewrite <- Ey in *. clear Ey.
  apply (nd_eq_nth _ _ d0).
  - rewrite upd_length, !slice_length by (rewrite ?upd_length; lia). reflexivity.
  - intros i Hi. rewrite slice_length in Hi by (rewrite upd_length; lia).
    rewrite nth_slice by lia. rewrite !nth_upd by (rewrite ?slice_length; lia).
    rewrite nth_slice by lia.
    destruct (Nat.eqb_spec (off + i) j), (Nat.eqb_spec i (j - off)); try lia; reflexivity.
Qed.
Lemma slice_upd_out {A} (y : list A) off n j t : (off + n <= length y)%nat -> (j < off \/ off + n <= j)%nat ->
  slice (upd y j t) off (off + n) = slice y off (off + n).
Proof.
  intros Hl H. destruct y as [|d0 y'] eqn:Ey; [reflexivity|]. rewrite <- Ey in *. clear Ey.
  apply (nd_eq_nth _ _ d0).
  - rewrite !slice_length by (rewrite ?upd_length; lia). reflexivity.
  - intros i Hi. rewrite slice_length in Hi by (rewrite upd_length; lia).
    rewrite !nth_slice by lia. destruct (Nat.lt_ge_cases j (length y)) as [Hj|Hj].
    + rewrite nth_upd by lia. destruct (Nat.eqb_spec (off + i) j); [lia|reflexivity].
    + f_equal. clear -Hj. revert j Hj. induction y as [|a y IH]; intros [|j] Hj; cbn in *; try lia; try reflexivity.
      f_equal. apply IH. lia.
Qed.
Lemma is_partial_slice_in g off n j x d : (off + n <= length x)%nat -> (off <= j)%nat -> (j < off + n)%nat ->
  is_partial g (j - off) (slice x off (off + n)) d -> is_partial (fun y => g (slice y off (off + n))) j x d.
Proof.
  intros Hl H1 H2 H. unfold is_partial in *. rewrite nth_slice in H by lia.
  replace (off + (j - off))%nat with j in H by lia.
  eapply is_derive_ext; [|exact H]. intros t. cbv beta. rewrite slice_upd_in by assumption. reflexivity.
Qed.
Lemma is_partial_slice_out g off n j x : (off + n <= length x)%nat -> (j < off \/ off + n <= j)%nat ->
  is_partial (fun y => g (slice y off (off + n))) j x 0.
Proof.
  intros Hl H. unfold is_partial.
  apply (is_derive_ext (fun _ => g (slice x off (off + n)))); [|apply @is_derive_const].
  intros t. rewrite slice_upd_out by assumption. reflexivity.
Qed.
(** the partial derivatives of a function of a slice *)
Definition inrange (off n j : nat) : bool := (Nat.leb off j && Nat.ltb j (off + n))%bool.
Lemma inrange_spec off n j : inrange off n j = true <-> (off <= j < off + n)%nat.
Proof. unfold inrange. rewrite andb_true_iff, Nat.leb_le, Nat.ltb_lt. lia. Qed.
Lemma inrange_false off n j : inrange off n j = false <-> (j < off \/ off + n <= j)%nat.
Proof. unfold inrange. rewrite andb_false_iff, Nat.leb_gt, Nat.ltb_ge. lia. Qed.
Lemma is_partial_slice g off n j x d : (off + n <= length x)%nat ->
  (inrange off n j = true -> is_partial g (j - off) (slice x off (off + n)) d) ->
  is_partial (fun y => g (slice y off (off + n))) j x (if inrange off n j then d else 0).
Proof.
  intros Hl H. destruct (inrange off n j) eqn:E.
  - apply inrange_spec in E as E'. apply is_partial_slice_in; try lia. apply H. reflexivity.
  - apply inrange_false in E. apply is_partial_slice_out; assumption.
Qed.
(** d and h hold all first and second partials of g at every point of length n *)
Definition twice_diff (g : list R -> R) (n : nat) (d : nat -> list R -> R) (h : nat -> nat -> list R -> R) : Prop :=
  (forall b y, (b < n)%nat -> length y = n -> is_partial g b y (d b y)) /\
  (forall a b y, (a < n)%nat -> (b < n)%nat -> length y = n -> is_partial (d b) a y (h a b y)).
Lemma twice_diff_partial2 g n d h i j x : twice_diff g n d h -> length x = n -> (i < n)%nat -> (j < n)%nat ->
  is_partial2 g i j x (h i j x).
Proof.
  intros [A B] Hx Hi Hj. exists (d j). split; [|apply B; assumption].
  intros y Hy. apply A; [exact Hj|lia].
Qed.
Lemma twice_diff_slice g n d h off N : (off + n <= N)%nat -> twice_diff g n d h ->
  twice_diff (fun y => g (slice y off (off + n))) N
    (fun b y => if inrange off n b then d (b - off)%nat (slice y off (off + n)) else 0)
    (fun a b y => if (inrange off n a && inrange off n b)%bool then h (a - off)%nat (b - off)%nat (slice y off (off + n)) else 0).
Proof.
  intros HN [A B]. split.
  - intros b y Hb Hy. apply is_partial_slice; [lia|]. intros E. apply inrange_spec in E.
    apply A; [lia|]. rewrite slice_length; lia.
  - intros a b y Ha Hb Hy. destruct (inrange off n b) eqn:Eb.
    + rewrite andb_true_r. apply (is_partial_slice (d (b - off)%nat)); [lia|]. intros Ea. apply inrange_spec in Ea, Eb.
      apply B; try lia. rewrite slice_length; lia.
    + rewrite andb_false_r. apply is_partial_const.
Qed.
Lemma twice_diff_ext g g' n d h : (forall y, length y = n -> g y = g' y) -> twice_diff g n d h -> twice_diff g' n d h.
Proof.
  intros E [A B]. split; [|exact B]. intros b y Hb Hy. apply (is_partial_ext_len g); [|apply A; assumption].
  intros z Hz. apply E. congruence.
Qed.
Lemma twice_diff_jac F n nv x D H : length x = n ->
  (forall k, (k < nv)%nat -> twice_diff (fun y => nth k (F y) 0) n (D k) (H k)) ->
  jacobian_of F nv n x (coo_of_dense nv n (ad_jac F x)) /\
  hessians_of F nv n x (map (fun k => coo_of_dense n n (ad_hess F x k)) (seq 0 nv)).
Proof.
  intros Hx T. split.
  - apply (ad_jac_true F nv n x (fun i j => D i j x) Hx). intros i j Hi Hj. apply (proj1 (T i Hi)); assumption.
  - apply (ad_hess_true F nv n x (fun k i j => H k i j x) Hx). intros k i j Hk Hi Hj.
    eapply twice_diff_partial2; eauto.
Qed.
(** sums over sparse entries *)
Lemma coo_get_flat_map {A} sh (f : A -> list (nat * nat * R)) l i j :
  coo_get (Coo sh (flat_map f l)) i j = lsum (map (fun a => coo_get (Coo sh (f a)) i j) l).
Proof.
  unfold coo_get; cbn [coo_ent]. induction l as [|a l IH]; [reflexivity|].
  cbn [flat_map map]. rewrite map_app, lsum_app, IH. reflexivity.
Qed.
Lemma coo_get_app sh l1 l2 i j : coo_get (Coo sh (l1 ++ l2)) i j = coo_get (Coo sh l1) i j + coo_get (Coo sh l2) i j.
Proof. unfold coo_get; cbn [coo_ent]. rewrite map_app, lsum_app. reflexivity. Qed.
Lemma coo_get_map {A} sh (r c : A -> nat) (v : A -> R) l i j :
  coo_get (Coo sh (map (fun a => ((r a, c a), v a)) l)) i j
  = lsum (map (fun a => if (Nat.eqb (r a) i && Nat.eqb (c a) j)%bool then v a else 0) l).
Proof. unfold coo_get; cbn [coo_ent]. rewrite map_map. reflexivity. Qed.

(** closure of [twice_diff] under arithmetic *)
Lemma twice_diff_const c n : twice_diff (fun _ => c) n (fun _ _ => 0) (fun _ _ _ => 0).
Proof. split; intros; apply is_partial_const. Qed.
Lemma twice_diff_plus f g n df hf dg hg : twice_diff f n df hf -> twice_diff g n dg hg ->
  twice_diff (fun y => f y + g y) n (fun b y => df b y + dg b y) (fun a b y => hf a b y + hg a b y).
Proof.
  intros [A B] [A' B']. split; intros.
  - apply is_partial_plus; [apply A|apply A']; assumption.
  - apply is_partial_plus; [apply B|apply B']; assumption.
Qed.
Lemma twice_diff_mult f g n df hf dg hg : twice_diff f n df hf -> twice_diff g n dg hg ->
  twice_diff (fun y => f y * g y) n (fun b y => df b y * g y + f y * dg b y)
    (fun a b y => (hf a b y * g y + df b y * dg a y) + (df a y * dg b y + f y * hg a b y)).
Proof.
  intros [A B] [A' B']. split; intros.
  - apply is_partial_mult; [apply A|apply A']; assumption.
  - apply is_partial_plus; apply is_partial_mult; auto.
Qed.
Lemma twice_diff_rsum m (f : nat -> list R -> R) n df hf : (forall k, (k < m)%nat -> twice_diff (f k) n (df k) (hf k)) ->
  twice_diff (fun y => rsum m (fun k => f k y)) n (fun b y => rsum m (fun k => df k b y)) (fun a b y => rsum m (fun k => hf k a b y)).
Proof.
  intros H. split.
  - intros b y Hb Hy. apply (is_partial_rsum m f b y (fun k => df k b y)). intros k Hk. apply (proj1 (H k Hk)); assumption.
  - intros a b y Ha Hb Hy. apply (is_partial_rsum m (fun k => df k b) a y (fun k => hf k a b y)).
    intros k Hk. apply (proj2 (H k Hk)); assumption.
Qed.
Definition del (i j : nat) : R := if Nat.eqb i j then 1 else 0.
Lemma twice_diff_nth i n : twice_diff (fun y => nth i y 0) n (fun b _ => del i b) (fun _ _ _ => 0).
Proof.
  split; intros.
  - apply is_partial_nth. lia.
  - apply is_partial_const.
Qed.
Lemma twice_diff_exp f n df hf : twice_diff f n df hf ->
  twice_diff (fun y => exp (f y)) n (fun b y => exp (f y) * df b y)
     (fun a b y => exp (f y) * df a y * df b y + exp (f y) * hf a b y).
Proof.
  intros [A B]. split; intros.
  - apply is_partial_exp. apply A; assumption.
  - apply (is_partial_mult (fun y => exp (f y)) (df b)); [apply is_partial_exp; apply A; assumption|apply B; assumption].
Qed.
