(** Derivatives of dictionaries (C36, C37) and the change of variables for Hessians (C38). *)
From Coq Require Import String Reals List Bool Arith Lia Lra.
From Coquelicot Require Import Coquelicot.
From Verif Require Import Res Num Nd RSum ModelAutograd ModelSparse ModelParameters ModelMatrix ModelSimplex ModelProjection ModelDict.
From Verif Require Import SpecParameters SpecMatrix SpecSimplex SpecProjection SpecDict.
From Verif Require Import LemmasParameters LemmasCalc LemmasMatrix LemmasPosDef LemmasPosDefStack LemmasSimplex LemmasProjection LemmasLeaf LemmasDict.
Import List ListNotations.
Open Scope R_scope.
Set Bullet Behavior "Strict Subproofs".

(** ---- sparse matrices: entries inside the shape, symmetry ---- *)
Definition coo_ok (M : coo) : Prop := forall r c v, In ((r, c), v) (coo_ent M) -> (r < fst (coo_shape M))%nat /\ (c < snd (coo_shape M))%nat.
Definition coo_sym (M : coo) : Prop := forall i j, coo_get M i j = coo_get M j i.
Lemma lsum_zero (l : list R) : (forall x, In x l -> x = 0) -> lsum l = 0.
Proof. induction l as [|x l IH]; intros H; [reflexivity|]. change (x + lsum l = 0). rewrite (H x) by (left; reflexivity). rewrite IH; [ring|]. intros y Hy. apply H. right. exact Hy. Qed.
Lemma coo_get_none M i j : (forall r c v, In ((r, c), v) (coo_ent M) -> r <> i \/ c <> j) -> coo_get M i j = 0.
Proof.
  intros H. unfold coo_get. apply lsum_zero. intros x Hx. apply in_map_iff in Hx as [[[r c] v] [<- Hx]].
  destruct (Nat.eqb_spec r i), (Nat.eqb_spec c j); cbn; try reflexivity. destruct (H r c v Hx); contradiction.
Qed.
Lemma coo_ok_out M i j : coo_ok M -> (fst (coo_shape M) <= i \/ snd (coo_shape M) <= j)%nat -> coo_get M i j = 0.
Proof. intros H O. apply coo_get_none. intros r c v Hr. destruct (H r c v Hr). lia. Qed.
Lemma coo_of_dense_ok n m f : coo_ok (coo_of_dense n m f).
Proof.
  intros r c v H. cbn in *. apply in_flat_map in H as [i [Hi H]]. apply in_flat_map in H as [j [Hj H]]. apply in_seq in Hi, Hj.
  destruct (Req_EM_T _ _); [destruct H|]. destruct H as [H|[]]. injection H as <- <- <-. lia.
Qed.
Lemma diag_jac_ok n lb ub x J : diag_jac n lb ub x = Ok J -> coo_ok J.
Proof.
  unfold diag_jac. destruct (rmapM _ _) as [g|]; [|discriminate]. cbn [rbind]. intros E. injection E as <-. intros r c v H. cbn [coo_ent coo_shape fst snd] in *.
  apply in_combine_l in H. pose proof (in_combine_l _ _ _ _ H) as H1. apply in_combine_r in H. apply in_seq in H, H1. lia.
Qed.
Lemma diag_hess_facts n lb ub x Hs : diag_hess n lb ub x = Ok Hs -> forall M, In M Hs -> coo_ok M /\ coo_sym M.
Proof.
  unfold diag_hess. intros E M HM. destruct (rmapM_In _ _ _ _ E HM) as [i [Hi F]]. destruct (getitem x i) as [r|]; [|discriminate]. cbn in F. injection F as <-. apply in_seq in Hi. split.
  - intros a b v [H|[]]. injection H as <- <- <-. cbn. lia.
  - intros a b. unfold coo_get. cbn. rewrite andb_comm. reflexivity.
Qed.
Lemma scatter_sym sh (I : nat -> nat) (h : nat -> nat -> R) n : (forall r c, (r < n)%nat -> (c < n)%nat -> h r c = h c r) ->
  coo_sym (Coo sh (flat_map (fun r => map (fun c => ((I r, I c), h r c)) (seq 0 n)) (seq 0 n))).
Proof.
  intros H.
  assert (E : forall i j, coo_get (Coo sh (flat_map (fun r => map (fun c => ((I r, I c), h r c)) (seq 0 n)) (seq 0 n))) i j =
     rsum n (fun r => rsum n (fun c => if (Nat.eqb (I r) i && Nat.eqb (I c) j)%bool then h r c else 0))).
  { intros i j. rewrite coo_get_flat_map, lsum_map_seq. apply rsum_ext. intros r Hr.
    rewrite (coo_get_map sh (fun _ => I r) I (h r)), lsum_map_seq. reflexivity. }
  intros i j. rewrite !E. rewrite (rsum_swap n n (fun r c => if (Nat.eqb (I r) j && Nat.eqb (I c) i)%bool then h r c else 0)).
  apply rsum_ext. intros r Hr. apply rsum_ext. intros c Hc. rewrite andb_comm, (H r c Hr Hc). reflexivity.
Qed.
Lemma scatter_ok sh (I J : nat -> nat) (h : nat -> nat -> R) n m : (forall r, (r < n)%nat -> (I r < fst sh)%nat) -> (forall r, (r < m)%nat -> (J r < snd sh)%nat) ->
  coo_ok (Coo sh (flat_map (fun r => map (fun c => ((I r, J c), h r c)) (seq 0 m)) (seq 0 n))).
Proof.
  intros H K r c v Hr. cbn in *. apply in_flat_map in Hr as [a [Ha Hr]]. apply in_map_iff in Hr as [b [E Hb]]. injection E as <- <- <-. apply in_seq in Ha, Hb. split; [apply H|apply K]; lia.
Qed.
Lemma hLof_sym i k a b y : hLof i k a b y = hLof i k b a y.
Proof. unfold hLof. destruct (Nat.ltb k i); [reflexivity|]. destruct (Nat.eqb k i); [ring|reflexivity]. Qed.
Lemma hMof_sym n i j a b y : hMof n i j a b y = hMof n i j b a y.
Proof. unfold hMof. f_equal. apply rsum_ext. intros k Hk. rewrite (hLof_sym i k a b), (hLof_sym j k a b). ring. Qed.
Lemma pdm_hess_sym n k x a b : length x = tri n -> (k < tri n)%nat -> (a < tri n)%nat -> (b < tri n)%nat ->
  pos_def_matrix_free_to_vector_hess x k a b = pos_def_matrix_free_to_vector_hess x k b a.
Proof.
  intros Lx Hk Ha Hb. unfold pos_def_matrix_free_to_vector_hess, ad_hess.
  pose proof (packs_twice _ n 0 k (pdm_packs 0 n) Hk) as T.
  rewrite (ad_partial2 _ a b x _ (twice_diff_partial2 _ _ _ _ a b x T Lx Ha Hb)), (ad_partial2 _ b a x _ (twice_diff_partial2 _ _ _ _ b a x T Lx Hb Ha)). apply hMof_sym.
Qed.
Lemma block_facts n N x : length x = (tri n * N)%nat ->
  coo_ok (block_jac (std_blocks (tri n) N) (tri n) (tri n * N) x) /\
  forall M, In M (block_hess (std_blocks (tri n) N) (tri n) (tri n * N) x) -> coo_ok M /\ coo_sym M.
Proof.
  intros Lx. assert (NB : forall o r, (o < N)%nat -> (r < tri n)%nat -> (nth r (seq (tri n * o) (tri n)) 0 < tri n * N)%nat).
  { intros o r Ho Hr. rewrite seq_nth by exact Hr. nia. }
  split.
  - intros r c v H. unfold block_jac in H. cbn [coo_ent] in H. apply in_flat_map in H as [bl [Hb H]]. unfold std_blocks in Hb. apply in_map_iff in Hb as [o [<- Ho]]. apply in_seq in Ho.
    apply in_flat_map in H as [a [Ha H]]. apply in_map_iff in H as [b [E Hb]]. apply in_seq in Ha, Hb. injection E as <- <- _. split; apply NB; lia.
  - intros M HM. unfold block_hess in HM. apply in_flat_map in HM as [bl [Hb HM]]. unfold std_blocks in Hb. apply in_map_iff in Hb as [o [<- Ho]]. apply in_seq in Ho.
    apply in_map_iff in HM as [k [<- Hk]]. apply in_seq in Hk. split.
    + apply (scatter_ok (tri n * N, tri n * N)%nat (fun r => nth r (seq (tri n * o) (tri n)) 0%nat) (fun r => nth r (seq (tri n * o) (tri n)) 0%nat)
        (pos_def_matrix_free_to_vector_hess (gather x (seq (tri n * o) (tri n))) k)); intros r Hr; apply NB; lia.
    + apply (scatter_sym (tri n * N, tri n * N)%nat (fun r => nth r (seq (tri n * o) (tri n)) 0%nat)
        (pos_def_matrix_free_to_vector_hess (gather x (seq (tri n * o) (tri n))) k)).
      intros r c Hr Hc. apply (pdm_hess_sym n); try lia. unfold gather. rewrite map_length, seq_length. reflexivity.
Qed.
Lemma constrain_hess_sym z K i a b : length z = S K -> (i < S K)%nat -> (a < K)%nat -> (b < K)%nat ->
  constrain_hess_from_moment z i a b = constrain_hess_from_moment z i b a.
Proof.
  intros L Hi Ha Hb. rewrite !(hess_from_moment z K) by assumption. unfold del. rewrite (Nat.eqb_sym b a).
  destruct (Nat.eqb_spec a b) as [->|]; ring.
Qed.
Lemma nth_map_ravel row m n c : (c < m)%nat -> nth c (map (fun c => ravel [row; c] [n; m]) (seq 0 m)) 0%nat = (row * m + c)%nat.
Proof.
  intros H. rewrite (nth_indep _ 0%nat (ravel [row; 0%nat] [n; m])) by (rewrite map_length, seq_length; exact H).
  rewrite (map_nth (fun c => ravel [row; c] [n; m])), seq_nth by exact H. cbn [ravel]. rewrite nprod_1, nprod_nil. lia.
Qed.
Lemma simplex_facts p x : (0 < sx_cols p)%nat -> length x = sx_free_size p ->
  (forall J, simplex_free_to_vector_jac p x = Ok J -> coo_ok J) /\
  (forall Hs, simplex_free_to_vector_hess p x = Ok Hs -> forall M, In M Hs -> coo_ok M /\ coo_sym M).
Proof.
  intros Hc Lx. pose proof (sx_free_size_eq p) as Ef. pose proof (sx_vector_size_eq p) as Ev. split.
  - intros J E. unfold simplex_free_to_vector_jac in E. destruct (rmapM _ _) as [es|] eqn:Er; [|discriminate]. cbn [rbind] in E. injection E as <-.
    intros r c v H. cbn [coo_ent coo_shape fst snd] in *. apply in_concat in H as [l [Hl H]]. destruct (rmapM_In _ _ _ _ Er Hl) as [row [Hr F]]. apply in_seq in Hr.
    destruct (simplex_row_moment p x row) as [z|]; [|discriminate]. cbn [rbind] in F. apply Ok_inj in F. subst l.
    apply in_flat_map in H as [a [Ha H]]. apply in_map_iff in H as [b [E Hb]]. apply in_seq in Ha, Hb.
    pose proof (f_equal (fun t => fst (fst t)) E) as E1. pose proof (f_equal (fun t => snd (fst t)) E) as E2. cbv beta in E1, E2. cbn [fst snd] in E1, E2. clear E Hl Er.
    unfold sx_free_inds, sx_shape, sx_free_shape in *. rewrite nth_map_ravel in E1, E2 by lia. subst r c. rewrite Ef, Ev. unfold sxK. clear Ef Ev. split; [nia|]. set (K := (sx_cols p - 1)%nat) in *. clearbody K. nia.
  - intros Hs E M HM. unfold simplex_free_to_vector_hess in E. destruct (rmapM _ _) as [es|] eqn:Er; [|discriminate]. cbn [rbind] in E. injection E as <-.
    apply in_concat in HM as [l [Hl H]]. destruct (rmapM_In _ _ _ _ Er Hl) as [row [Hr F]]. apply in_seq in Hr.
    rewrite simplex_row_moment_fin in F by (try assumption; lia). cbn [rbind] in F. apply Ok_inj in F. subst l.
    apply in_map_iff in H as [k [<- Hk]]. apply in_seq in Hk.
    set (z := map (fun j => sm (sxK p) j (slice x (row * sxK p) (row * sxK p + sxK p))) (seq 0 (sx_cols p))).
    assert (Lz : length z = S (sx_cols p - 1)) by (unfold z; rewrite map_length, seq_length; lia). clearbody z. split.
    + apply (scatter_ok (sx_free_size p, sx_free_size p) (fun r => nth r (sx_free_inds p row) 0%nat) (fun r => nth r (sx_free_inds p row) 0%nat) (constrain_hess_from_moment z k));
      intros r Hr'; unfold sx_free_inds, sx_free_shape; rewrite nth_map_ravel by lia; cbn [fst snd]; rewrite Ef; unfold sxK; clear - Hr Hr'; set (K := (sx_cols p - 1)%nat) in *; clearbody K; nia.
    + apply (scatter_sym (sx_free_size p, sx_free_size p) (fun r => nth r (sx_free_inds p row) 0%nat) (constrain_hess_from_moment z k)).
      intros a b Ha Hb. apply (constrain_hess_sym z (sx_cols p - 1)); lia.
Qed.
Lemma coo_ok_sym M n : coo_ok M -> coo_shape M = (n, n) -> (forall i j, (i < n)%nat -> (j < n)%nat -> coo_get M i j = coo_get M j i) -> coo_sym M.
Proof.
  intros Ok_ Sh H i j. destruct (Nat.lt_ge_cases i n) as [Hi|Hi].
  - destruct (Nat.lt_ge_cases j n) as [Hj|Hj]; [apply H; assumption|]. rewrite !coo_ok_out; try assumption; try reflexivity; rewrite Sh; cbn; lia.
  - rewrite !coo_ok_out; try assumption; try reflexivity; rewrite Sh; cbn; lia.
Qed.
Lemma leaf_facts l x : leaf_wf l -> length x = leaf_free_size l ->
  (forall J, leaf_jac l x = Ok J -> coo_ok J) /\ (forall Hs, leaf_hess l x = Ok Hs -> forall M, In M Hs -> coo_ok M /\ coo_sym M).
Proof.
  intros W L. destruct l as [p|p|p|p|p|p|p|p]; cbn [leaf_jac leaf_hess leaf_free_size leaf_wf] in *.
  - split; [intros J E; injection E as <-; apply coo_of_dense_ok|]. intros Hs E M HM. injection E as <-. apply in_map_iff in HM as [k [<- Hk]].
    split; [apply coo_of_dense_ok|]. apply (coo_ok_sym _ (length x)); [apply coo_of_dense_ok|reflexivity|]. rewrite L. intros i j Hi Hj.
    assert (i = 0%nat) by (unfold scalar_free_size in *; lia). assert (j = 0%nat) by (unfold scalar_free_size in *; lia). subst. reflexivity.
  - split; [intros J; apply diag_jac_ok|intros Hs; apply diag_hess_facts].
  - split; [intros J; apply diag_jac_ok|intros Hs; apply diag_hess_facts].
  - destruct W as [[lb Hlb] _]. split; [intros J E; injection E as <-; apply coo_of_dense_ok|]. intros Hs E M HM. injection E as <-. apply in_map_iff in HM as [k [<- Hk]]. apply in_seq in Hk.
    split; [apply coo_of_dense_ok|]. apply (coo_ok_sym _ (length x)); [apply coo_of_dense_ok|reflexivity|]. intros i j Hi Hj. rewrite !coo_get_of_dense by assumption.
    unfold ad_hess. change (pd_vec_size p) with (tri (pd_size p)) in *.
    pose proof (packs_twice _ (pd_size p) lb k (posdef_packs p lb Hlb) (proj2 Hk)) as T. rewrite L in *.
    rewrite (ad_partial2 _ i j x _ (twice_diff_partial2 _ _ _ _ i j x T L Hi Hj)), (ad_partial2 _ j i x _ (twice_diff_partial2 _ _ _ _ j i x T L Hj Hi)). apply hMof_sym.
  - unfold pv_free_to_vector_jac, pv_free_to_vector_hess. rewrite pv_blocks_std. destruct (block_facts (pv_size p) (pv_length p) x L) as [A B].
    split; [intros J E; injection E as <-; exact A|intros Hs E; injection E as <-; exact B].
  - unfold pa_free_to_vector_jac, pa_free_to_vector_hess. rewrite pa_blocks_std. destruct (block_facts (pa_size p) (pa_length p) x L) as [A B].
    split; [intros J E; injection E as <-; exact A|intros Hs E; injection E as <-; exact B].
  - destruct W as [C _]. apply simplex_facts; assumption.
  - split; [intros J E; injection E as <-; apply coo_of_dense_ok|]. intros Hs E M HM. injection E as <-. apply in_map_iff in HM as [k [<- Hk]]. split.
    + intros r c v [].
    + intros i j. reflexivity.
Qed.

(** ---- offset_sparse_matrix and block_diag ---- *)
Lemma offset_get M ro co sh i j : coo_ok M ->
  coo_get (offset_sparse_matrix M (ro, co) sh) i j =
    if (inrange ro (fst (coo_shape M)) i && inrange co (snd (coo_shape M)) j)%bool then coo_get M (i - ro) (j - co) else 0.
Proof.
  intros HM. destruct (inrange ro (fst (coo_shape M)) i && inrange co (snd (coo_shape M)) j)%bool eqn:E.
  - apply andb_prop in E as [E1 E2]. apply inrange_spec in E1, E2. unfold coo_get, offset_sparse_matrix. cbn [coo_ent fst snd]. rewrite map_map.
    apply lsum_map_ext. intros [[r c] v] _. destruct (Nat.eqb_spec (r + ro) i), (Nat.eqb_spec r (i - ro)); try lia; destruct (Nat.eqb_spec (c + co) j), (Nat.eqb_spec c (j - co)); try lia; reflexivity.
  - apply coo_get_none. intros r c v H. unfold offset_sparse_matrix in H. cbn [coo_ent fst snd] in H. apply in_map_iff in H as [[[r' c'] v'] [E' H]]. injection E' as <- <- <-.
    destruct (HM _ _ _ H). apply andb_false_iff in E as [E|E]; apply inrange_false in E; lia.
Qed.
Lemma offset_moves M ro co sh : coo_shape (offset_sparse_matrix M (ro, co) sh) = sh /\
  (forall i j, coo_get (offset_sparse_matrix M (ro, co) sh) (ro + i) (co + j) = coo_get M i j) /\
  (forall i j, (i < ro \/ j < co)%nat -> coo_get (offset_sparse_matrix M (ro, co) sh) i j = 0).
Proof.
  split; [reflexivity|]. split.
  - intros i j. unfold coo_get, offset_sparse_matrix. cbn [coo_ent fst snd]. rewrite map_map. apply lsum_map_ext. intros [[r c] v] _.
    destruct (Nat.eqb_spec (r + ro) (ro + i)), (Nat.eqb_spec r i); try lia; destruct (Nat.eqb_spec (c + co) (co + j)), (Nat.eqb_spec c j); try lia; reflexivity.
  - intros i j O. apply coo_get_none. intros r c v H. unfold offset_sparse_matrix in H. cbn [coo_ent fst snd] in H. apply in_map_iff in H as [[[r' c'] v'] [E' H]]. injection E' as <- <- <-. lia.
Qed.
Lemma offset_ok M ro co sh : coo_ok M -> (ro + fst (coo_shape M) <= fst sh)%nat -> (co + snd (coo_shape M) <= snd sh)%nat -> coo_ok (offset_sparse_matrix M (ro, co) sh).
Proof.
  intros HM H1 H2 r c v H. unfold offset_sparse_matrix in *. cbn [coo_ent coo_shape fst snd] in *. apply in_map_iff in H as [[[r' c'] v'] [E' H]]. injection E' as <- <- <-.
  destruct (HM _ _ _ H). lia.
Qed.
Lemma offset_sym M o sh : coo_ok M -> fst (coo_shape M) = snd (coo_shape M) -> coo_sym M -> coo_sym (offset_sparse_matrix M (o, o) sh).
Proof.
  intros HM E HS i j. rewrite !offset_get by exact HM. rewrite E, andb_comm. destruct (_ && _)%bool; [apply HS|reflexivity].
Qed.
Definition rows_of (js : list coo) : nat := fold_right Nat.add 0%nat (map (fun m => fst (coo_shape m)) js).
Definition cols_of (js : list coo) : nat := fold_right Nat.add 0%nat (map (fun m => snd (coo_shape m)) js).
Lemma block_entries_range js ro co r c v : (forall j, In j js -> coo_ok j) -> In ((r, c), v) (block_entries js ro co) ->
  (ro <= r < ro + rows_of js)%nat /\ (co <= c < co + cols_of js)%nat.
Proof.
  revert ro co. induction js as [|m js IH]; intros ro co H; cbn [block_entries]; [intros []|]. intros Hi. apply in_app_or in Hi as [Hi|Hi].
  - unfold offset_sparse_matrix in Hi. cbn [coo_ent fst snd] in Hi. apply in_map_iff in Hi as [[[r' c'] v'] [E' Hi]]. injection E' as <- <- <-.
    destruct (H m (or_introl eq_refl) _ _ _ Hi). unfold rows_of, cols_of. cbn. lia.
  - specialize (IH _ _ (fun j Hj => H j (or_intror Hj)) Hi). unfold rows_of, cols_of in *. cbn. lia.
Qed.
Lemma block_entries_get sh j1 j j2 ro co a c : (forall m, In m (j1 ++ j :: j2) -> coo_ok m) -> (a < fst (coo_shape j))%nat ->
  coo_get (Coo sh (block_entries (j1 ++ j :: j2) ro co)) (ro + rows_of j1 + a) c =
    if inrange (co + cols_of j1) (snd (coo_shape j)) c then coo_get j a (c - (co + cols_of j1)) else 0.
Proof.
  revert ro co. induction j1 as [|m j1 IH]; intros ro co H Ha; cbn [app block_entries]; rewrite coo_get_app.
  - rewrite (coo_get_none (Coo sh (block_entries j2 _ _))).
    2:{ intros r c' v Hr. cbn [coo_ent] in Hr. apply block_entries_range in Hr; [|intros; apply H; right; assumption]. left. unfold rows_of. cbn. lia. }
    pose proof (offset_get j ro co (0, 0)%nat (ro + rows_of [] + a) c (H j (or_introl eq_refl))) as G. unfold rows_of, cols_of in *. cbn [map fold_right] in *. rewrite !Nat.add_0_r in *.
    assert (E : inrange ro (fst (coo_shape j)) (ro + a) = true) by (apply inrange_spec; lia). rewrite E in G. cbn [andb] in G.
    replace (ro + a - ro)%nat with a in G by lia. rewrite Rplus_0_r. exact G.
  - rewrite (coo_get_none (Coo sh (coo_ent (offset_sparse_matrix m _ _)))).
    2:{ intros r c' v Hr. cbn [coo_ent] in Hr. unfold offset_sparse_matrix in Hr. cbn [coo_ent fst snd] in Hr. apply in_map_iff in Hr as [[[r' c''] v'] [E' Hi]]. injection E' as <- <- <-.
        destruct (H m (or_introl eq_refl) _ _ _ Hi). left. unfold rows_of. cbn. lia. }
    specialize (IH (ro + fst (coo_shape m))%nat (co + snd (coo_shape m))%nat (fun m' Hm => H m' (or_intror Hm)) Ha). unfold rows_of, cols_of in *. cbn [map fold_right] in *.
    rewrite Rplus_0_l. rewrite !Nat.add_assoc. exact IH.
Qed.

(** ---- the loops of the derivative methods, named ---- *)
Definition jac_go (x : list R) := fix go (l : ents) (free_offset : nat) : res (list coo) :=
  match l with
  | [] => Ok []
  | (_, q) :: tl =>
      do j <- p_jac q (slice x free_offset (free_offset + p_free_size q));
      do js <- go tl (free_offset + p_free_size q)%nat;
      Ok (j :: js)
  end.
Definition hess_go (fs : nat) (x : list R) := fix go (l : ents) (free_offset : nat) : res (list coo) :=
  match l with
  | [] => Ok []
  | (_, q) :: tl =>
      do h <- p_hess q (slice x free_offset (free_offset + p_free_size q));
      do hs <- go tl (free_offset + p_free_size q)%nat;
      Ok (map (fun m => offset_sparse_matrix m (free_offset, free_offset) (fs, fs)) h ++ hs)
  end.
Lemma p_jac_dict nm es fi vi fs vs x : p_jac (Dict nm es fi vi fs vs) x = do js <- jac_go x es 0; block_diag js.
Proof. reflexivity. Qed.
Lemma p_hess_dict nm es fi vi fs vs x : p_hess (Dict nm es fi vi fs vs) x = hess_go fs x es 0.
Proof. reflexivity. Qed.
(** what each member contributes *)
Definition jac_good (q : param) (x : list R) (J : coo) : Prop :=
  p_jac q x = Ok J /\ coo_ok J /\ jacobian_of (p_free_to_vector q) (p_vector_size q) (p_free_size q) x J.
Definition hess_good (q : param) (x : list R) (Hs : list coo) : Prop :=
  p_hess q x = Ok Hs /\ (forall M, In M Hs -> coo_ok M /\ coo_sym M) /\ hessians_of (p_free_to_vector q) (p_vector_size q) (p_free_size q) x Hs.
Inductive members_good (x : list R) : nat -> ents -> list coo -> list (list coo) -> Prop :=
| mg_nil off : members_good x off [] [] []
| mg_cons off k q es J js Hs hss : jac_good q (slice x off (off + p_free_size q)) J -> hess_good q (slice x off (off + p_free_size q)) Hs ->
    members_good x (off + p_free_size q) es js hss -> members_good x off ((k, q) :: es) (J :: js) (Hs :: hss).
Lemma members_jac x off es js hss : members_good x off es js hss -> jac_go x es off = Ok js.
Proof.
  intros H. induction H as [|off k q es J js Hs hss [E _] _ _ IH]; [reflexivity|]. cbn [jac_go]. rewrite E. cbn [rbind].
  change ((fix go (l : ents) (free_offset : nat) {struct l} : res (list coo) := _) es) with (jac_go x es). rewrite IH. reflexivity.
Qed.
Fixpoint placed_hess (fs off : nat) (es : ents) (hss : list (list coo)) : list coo :=
  match es, hss with
  | (_, q) :: es', Hs :: hss' => map (fun m => offset_sparse_matrix m (off, off) (fs, fs)) Hs ++ placed_hess fs (off + p_free_size q) es' hss'
  | _, _ => []
  end.
Lemma members_hess fs x off es js hss : members_good x off es js hss -> hess_go fs x es off = Ok (placed_hess fs off es hss).
Proof.
  intros H. induction H as [|off k q es J js Hs hss _ [E _] _ IH]; [reflexivity|]. cbn [hess_go placed_hess]. rewrite E. cbn [rbind].
  change ((fix go (l : ents) (free_offset : nat) {struct l} : res (list coo) := _) es) with (hess_go fs x es). rewrite IH. reflexivity.
Qed.
Lemma members_shapes x off es js hss : members_good x off es js hss ->
  (forall j, In j js -> coo_ok j) /\ rows_of js = total p_vector_size es /\ cols_of js = total p_free_size es /\ (es <> [] -> js <> []).
Proof.
  intros H. induction H as [|off k q es J js Hs hss [_ [Ok_ [Sh _]]] _ _ [A [B [C D]]]]; [splits; try reflexivity; [intros j []|congruence]|].
  splits; [intros j [<-|Hj]; auto| | |discriminate]; unfold rows_of, cols_of in *; cbn [map fold_right total]; rewrite Sh, ?B, ?C; reflexivity.
Qed.
(** the k-th member of a list of good members *)
Lemma members_split x off e1 k q e2 js hss : members_good x off (e1 ++ (k, q) :: e2) js hss ->
  exists j1 J j2 h1 Hs h2, js = j1 ++ J :: j2 /\ hss = h1 ++ Hs :: h2 /\ rows_of j1 = total p_vector_size e1 /\ cols_of j1 = total p_free_size e1 /\
    jac_good q (slice x (off + total p_free_size e1) (off + total p_free_size e1 + p_free_size q)) J /\
    hess_good q (slice x (off + total p_free_size e1) (off + total p_free_size e1 + p_free_size q)) Hs /\
    length h1 = length e1 /\ (forall fs, length (placed_hess fs off e1 h1) = total p_vector_size e1) /\
    forall fs, placed_hess fs off (e1 ++ (k, q) :: e2) hss = placed_hess fs off e1 h1 ++
       map (fun m => offset_sparse_matrix m (off + total p_free_size e1, off + total p_free_size e1)%nat (fs, fs)) Hs ++
       placed_hess fs (off + total p_free_size e1 + p_free_size q) e2 h2.
Proof.
  revert off js hss. induction e1 as [|[k1 q1] e1 IH]; intros off js hss H; cbn [app] in H; inversion H as [|? ? ? ? J0 js0 Hs0 hss0 GJ GH GM]; subst.
  - exists [], J0, js0, [], Hs0, hss0. cbn [total]. rewrite Nat.add_0_r. splits; try reflexivity; assumption.
  - destruct (IH _ _ _ GM) as [j1 [J [j2 [h1 [Hs [h2 [-> [-> [A [B [C [D [E [F G]]]]]]]]]]]]]]. exists (J0 :: j1), J, j2, (Hs0 :: h1), Hs, h2.
    destruct GJ as [_ [_ [Sh _]]]. destruct GH as [_ [_ [Lh _]]]. cbn [total]. rewrite Nat.add_assoc.
    splits; try reflexivity; try assumption.
    + unfold rows_of in *. cbn [map fold_right]. rewrite Sh, A. reflexivity.
    + unfold cols_of in *. cbn [map fold_right]. rewrite Sh, B. reflexivity.
    + cbn. rewrite E. reflexivity.
    + intros fs. cbn [placed_hess]. rewrite app_length, map_length, Lh, F. reflexivity.
    + intros fs. cbn [app placed_hess]. rewrite G. apply app_assoc.
Qed.
Lemma locate (size : param -> nat) (es : ents) r : (r < total size es)%nat ->
  exists e1 k q e2 a, es = e1 ++ (k, q) :: e2 /\ r = (total size e1 + a)%nat /\ (a < size q)%nat.
Proof.
  revert r. induction es as [|[k q] es IH]; intros r H; cbn [total] in H; [lia|]. destruct (Nat.lt_ge_cases r (size q)) as [L|L].
  - exists [], k, q, es, r. splits; [reflexivity|reflexivity|exact L].
  - destruct (IH (r - size q)%nat) as [e1 [k' [q' [e2 [a [-> [E Ha]]]]]]]; [lia|]. exists ((k, q) :: e1), k', q', e2, a. cbn [app total]. splits; [reflexivity|lia|exact Ha].
Qed.
Lemma p_ftv_value p x : p_wf p -> populated p -> length x = p_free_size p ->
  length (p_free_to_vector p x) = p_vector_size p /\ match p with Leaf _ => True | Dict _ es _ _ _ _ => p_free_to_vector p x = ftv_ents es 0 x end.
Proof.
  intros W Pop L. destruct (p_free_roundtrip p x W Pop L) as [p' [v [A [B [C [D E]]]]]].
  assert (X : p_free_to_vector p x = v). { unfold p_free_to_vector. change (nd_vec (map Fin x)) with (fvec x). rewrite A, C. cbn. apply toR_Fin. }
  rewrite X. split; [exact D|]. destruct p; [exact I|exact E].
Qed.
Lemma nth_ftv_ents e1 k q e2 a y off : Forall (fun e => p_wf (snd e)) (e1 ++ (k, q) :: e2) -> Forall (fun e => populated (snd e)) (e1 ++ (k, q) :: e2) ->
  (off + total p_free_size (e1 ++ (k, q) :: e2) <= length y)%nat -> (a < p_vector_size q)%nat ->
  nth (total p_vector_size e1 + a) (ftv_ents (e1 ++ (k, q) :: e2) off y) 0 =
  nth a (p_free_to_vector q (slice y (off + total p_free_size e1) (off + total p_free_size e1 + p_free_size q))) 0.
Proof.
  revert off. induction e1 as [|[k1 q1] e1 IH]; intros off F P L Ha; cbn [app ftv_ents total] in *; inversion F as [|? ? F1 F2]; inversion P as [|? ? P1 P2]; subst; cbn [snd] in *.
  - rewrite Nat.add_0_r. cbn [Nat.add]. rewrite app_nth1; [reflexivity|]. rewrite (proj1 (p_ftv_value q (slice y off (off + p_free_size q)) F1 P1 ltac:(rewrite slice_length by lia; lia))). exact Ha.
  - rewrite app_nth2; rewrite (proj1 (p_ftv_value q1 (slice y off (off + p_free_size q1)) F1 P1 ltac:(rewrite slice_length by lia; lia))); [|lia].
    replace (p_vector_size q1 + total p_vector_size e1 + a - p_vector_size q1)%nat with (total p_vector_size e1 + a)%nat by lia.
    rewrite IH by (try assumption; lia). rewrite !Nat.add_assoc. reflexivity.
Qed.
Lemma is_partial2_slice f off n N x (h : nat -> nat -> R) i j : (off + n <= N)%nat -> length x = N ->
  (forall a b, (a < n)%nat -> (b < n)%nat -> is_partial2 f a b (slice x off (off + n)) (h a b)) ->
  is_partial2 (fun y => f (slice y off (off + n))) i j x (if (inrange off n i && inrange off n j)%bool then h (i - off)%nat (j - off)%nat else 0).
Proof.
  intros HN Lx H. destruct (inrange off n j) eqn:Ej.
  - pose proof Ej as Ej'. apply inrange_spec in Ej'. rewrite andb_true_r.
    destruct (inrange off n i) eqn:Ei.
    + pose proof Ei as Ei'. apply inrange_spec in Ei'. destruct (H (i - off)%nat (j - off)%nat ltac:(lia) ltac:(lia)) as [g [G1 G2]].
      exists (fun y => g (slice y off (off + n))). split.
      * intros y Ly. apply is_partial_slice_in; try lia. apply G1. rewrite !slice_length by lia. lia.
      * apply is_partial_slice_in; try lia. exact G2.
    + apply inrange_false in Ei. destruct (H (j - off)%nat (j - off)%nat ltac:(lia) ltac:(lia)) as [g [G1 G2]].
      exists (fun y => g (slice y off (off + n))). split.
      * intros y Ly. apply is_partial_slice_in; try lia. apply G1. rewrite !slice_length by lia. lia.
      * apply is_partial_slice_out; lia.
  - rewrite andb_false_r. apply inrange_false in Ej. exists (fun _ => 0). split.
    + intros y Ly. apply is_partial_slice_out; lia.
    + apply is_partial_const.
Qed.
(** ---- C37 ---- *)
Lemma p_derivatives p : p_wf p -> populated p -> forall x, length x = p_free_size p -> (exists J, jac_good p x J) /\ (exists Hs, hess_good p x Hs).
Proof.
  induction p as [l|nm es fi vi fs vs IH] using param_rect'; intros W Pop x L.
  - inversion W as [? Wl|]; subst. destruct (leaf_derivatives l x Wl L) as [[J [E1 H1]] [Hs [E2 H2]]]. destruct (leaf_facts l x Wl L) as [F1 F2].
    split; [exists J|exists Hs]; (split; [assumption|]); (split; [|assumption]); [apply F1, E1|apply (F2 Hs E2)].
  - inversion W as [|? ? ? ? ? ? ND F Efi Evi Efs Evs]; subst. pose proof Pop as Pop0. apply populated_ents in Pop as [Ne Pop]. cbn [p_free_size] in L.
    assert (MG : exists js hss, members_good x 0 es js hss).
    { assert (G : forall es', Forall (fun e => p_wf (snd e)) es' -> Forall (fun e => populated (snd e)) es' ->
        Forall (fun e => p_wf (snd e) -> populated (snd e) -> forall x, length x = p_free_size (snd e) -> (exists J, jac_good (snd e) x J) /\ (exists Hs, hess_good (snd e) x Hs)) es' ->
        forall off, (off + total p_free_size es' <= length x)%nat -> exists js hss, members_good x off es' js hss).
      { induction es' as [|[k q] es' IHe]; intros F' P' I' off Lo; [exists [], []; constructor|]. inversion F'; inversion P'; inversion I'; subst. cbn [snd total] in *.
        destruct (IHe ltac:(assumption) ltac:(assumption) ltac:(assumption) (off + p_free_size q)%nat) as [js [hss GM]]; [lia|].
        match goal with HH : p_wf q -> _ |- _ => destruct (HH ltac:(assumption) ltac:(assumption) (slice x off (off + p_free_size q))) as [[J GJ] [Hs GH]]; [rewrite slice_length; lia|] end.
        exists (J :: js), (Hs :: hss). constructor; assumption. }
      apply (G es F Pop IH 0%nat). lia. }
    destruct MG as [js [hss MG]]. destruct (members_shapes _ _ _ _ _ MG) as [Oks [Rs [Cs Nj]]].
    assert (Ftv : forall y, length y = length x -> p_free_to_vector (Dict nm es (offsets p_free_size 0 es) (offsets p_vector_size 0 es) (total p_free_size es) (total p_vector_size es)) y = ftv_ents es 0 y).
    { intros y Ly. apply (proj2 (p_ftv_value _ y W Pop0 ltac:(cbn; lia))). }
    split.
    + assert (Ej : p_jac (Dict nm es (offsets p_free_size 0 es) (offsets p_vector_size 0 es) (total p_free_size es) (total p_vector_size es)) x =
         Ok (Coo (total p_vector_size es, total p_free_size es) (block_entries js 0 0))).
      { rewrite p_jac_dict, (members_jac _ _ _ _ _ MG). cbn [rbind]. unfold block_diag. destruct js as [|j0 js0]; [exfalso; apply (Nj Ne); reflexivity|].
        unfold rows_of, cols_of in Rs, Cs. rewrite Rs, Cs. reflexivity. }
      exists (Coo (total p_vector_size es, total p_free_size es) (block_entries js 0 0)). split; [exact Ej|]. split.
      * intros r c v H. cbn [coo_ent coo_shape fst snd] in *. apply block_entries_range in H; [|exact Oks]. lia.
      * split; [reflexivity|]. cbn [p_vector_size p_free_size]. intros i c Hi Hc.
        destruct (locate p_vector_size es i Hi) as [e1 [k [q [e2 [a [-> [-> Ha]]]]]]].
        destruct (members_split _ _ _ _ _ _ _ _ MG) as [j1 [J [j2 [h1 [Hs [h2 [-> [-> [R1 [C1 [[_ [OkJ [ShJ DJ]]] _]]]]]]]]]]].
        rewrite <- R1. pose proof (block_entries_get (total p_vector_size (e1 ++ (k, q) :: e2), total p_free_size (e1 ++ (k, q) :: e2)) j1 J j2 0 0 a c Oks) as G.
        rewrite ShJ in G. cbn [fst snd Nat.add] in G. rewrite G by exact Ha. rewrite C1, R1.
        apply (is_partial_ext_len (fun y => nth a (p_free_to_vector q (slice y (total p_free_size e1) (total p_free_size e1 + p_free_size q))) 0)).
        -- intros y Ly. rewrite Ftv by exact Ly. symmetry. apply (nth_ftv_ents e1 k q e2 a y 0); try assumption. lia.
        -- rewrite total_app in *. cbn [total] in *. apply (is_partial_slice (fun z => nth a (p_free_to_vector q z) 0)); [lia|]. intros Er. apply inrange_spec in Er. apply DJ; [exact Ha|lia].
    + exists (placed_hess (total p_free_size es) 0 es hss). split; [rewrite p_hess_dict; apply (members_hess _ _ _ _ js), MG|]. split.
      * assert (G : forall off es' js' hss', members_good x off es' js' hss' -> (off + total p_free_size es' <= total p_free_size es)%nat ->
           forall M, In M (placed_hess (total p_free_size es) off es' hss') -> coo_ok M /\ coo_sym M).
        { clear. intros off es' js' hss' H. induction H as [|off k q es' J js' Hs hss' _ [_ [OkH [Lh DH]]] _ IHm]; cbn [placed_hess total]; intros Lo M HM; [destruct HM|].
          apply in_app_or in HM as [HM|HM]; [|apply IHm; [lia|exact HM]]. apply in_map_iff in HM as [M0 [<- HM]]. destruct (OkH M0 HM) as [O1 S1].
          apply In_nth_error in HM as [n Hn]. assert (Hlt : (n < length Hs)%nat) by (apply nth_error_Some; congruence). destruct (DH n) as [M1 [E1 [Sh _]]]; [rewrite <- Lh; exact Hlt|].
          rewrite Hn in E1. injection E1 as <-. split.
          - apply offset_ok; [exact O1| |]; rewrite Sh; cbn [fst snd]; lia.
          - apply offset_sym; [exact O1|rewrite Sh; reflexivity|exact S1]. }
        apply (G 0%nat es js hss MG). lia.
      * cbn [p_vector_size p_free_size].
        assert (Lall : forall off es' js' hss', members_good x off es' js' hss' -> length (placed_hess (total p_free_size es) off es' hss') = total p_vector_size es').
        { clear. intros off es' js' hss' H. induction H as [|off k q es' J js' Hs hss' _ [_ [_ [Lh _]]] _ IHm]; [reflexivity|]. cbn [placed_hess total]. rewrite app_length, map_length, Lh, IHm. reflexivity. }
        split; [apply (Lall 0%nat es js hss MG)|]. intros v Hv. destruct (locate p_vector_size es v Hv) as [e1 [k [q [e2 [a [-> [-> Ha]]]]]]].
        destruct (members_split _ _ _ _ _ _ _ _ MG) as [j1 [J [j2 [h1 [Hs [h2 [-> [-> [R1 [C1 [_ [[_ [OkH [Lh DH]]] [_ [Lp Ep]]]]]]]]]]]]]].
        destruct (DH a Ha) as [M0 [E0 [Sh D0]]]. cbn [Nat.add] in *. set (fs := total p_free_size (e1 ++ (k, q) :: e2)) in *.
        exists (offset_sparse_matrix M0 (total p_free_size e1, total p_free_size e1) (fs, fs)). rewrite Ep. splits.
        -- rewrite nth_error_app2 by (rewrite Lp; lia). rewrite Lp. replace (total p_vector_size e1 + a - total p_vector_size e1)%nat with a by lia.
           rewrite nth_error_app1 by (rewrite map_length, Lh; exact Ha). rewrite nth_error_map, E0. reflexivity.
        -- reflexivity.
        -- intros i j Hi Hj. assert (OM : coo_ok M0) by (apply OkH; apply nth_error_In in E0; exact E0). rewrite offset_get by exact OM. rewrite Sh. cbn [fst snd].
           apply (is_partial2_ext_len (fun y => nth a (p_free_to_vector q (slice y (total p_free_size e1) (total p_free_size e1 + p_free_size q))) 0)).
           ++ intros y Ly. rewrite Ftv by exact Ly. symmetry. apply (nth_ftv_ents e1 k q e2 a y 0); try assumption. unfold fs in *. lia.
           ++ apply (is_partial2_slice (fun z => nth a (p_free_to_vector q z) 0) (total p_free_size e1) (p_free_size q) fs x (coo_get M0)).
              ** unfold fs. rewrite total_app. cbn [total]. lia.
              ** exact L.
              ** intros a' b' Ha' Hb'. apply D0; assumption.
Qed.

(** ---- C36: layout ---- *)
Lemma members_exist es x : Forall (fun e => p_wf (snd e)) es -> Forall (fun e => populated (snd e)) es ->
  forall off, (off + total p_free_size es <= length x)%nat -> exists js hss, members_good x off es js hss.
Proof.
  induction es as [|[k q] es IHe]; intros F' P' off Lo; [exists [], []; constructor|]. inversion F'; inversion P'; subst. cbn [snd total] in *.
  destruct (IHe ltac:(assumption) ltac:(assumption) (off + p_free_size q)%nat) as [js [hss GM]]; [lia|].
  destruct (p_derivatives q ltac:(assumption) ltac:(assumption) (slice x off (off + p_free_size q))) as [[J GJ] [Hs GH]]; [rewrite slice_length; lia|].
  exists (J :: js), (Hs :: hss). constructor; assumption.
Qed.
Lemma dict_layout d x : reachable d -> populated d -> is_dict d = true -> length x = p_free_size d ->
  exists J Hs, p_jac d x = Ok J /\ p_hess d x = Ok Hs /\ coo_shape J = (p_vector_size d, p_free_size d) /\ length Hs = p_vector_size d /\
  forall k q, d_getitem d k = Ok q -> exists fl vl Jq Hq,
    od_get (p_free_indices d) k = Some (fl, (fl + p_free_size q)%nat) /\ od_get (p_vector_indices d) k = Some (vl, (vl + p_vector_size q)%nat) /\
    p_jac q (slice x fl (fl + p_free_size q)) = Ok Jq /\ p_hess q (slice x fl (fl + p_free_size q)) = Ok Hq /\
    forall a, (a < p_vector_size q)%nat ->
      (forall b, (b < p_free_size q)%nat -> coo_get J (vl + a) (fl + b) = coo_get Jq a b) /\
      (forall c, (c < fl \/ fl + p_free_size q <= c)%nat -> coo_get J (vl + a) c = 0) /\
      exists M Mq, nth_error Hs (vl + a) = Some M /\ nth_error Hq a = Some Mq /\ coo_shape M = (p_free_size d, p_free_size d) /\
        (forall i j, (i < p_free_size q)%nat -> (j < p_free_size q)%nat -> coo_get M (fl + i) (fl + j) = coo_get Mq i j) /\
        (forall i j, ((i < fl \/ fl + p_free_size q <= i) \/ (j < fl \/ fl + p_free_size q <= j))%nat -> coo_get M i j = 0).
Proof.
  intros Rd Pop D L. apply reachable_wf in Rd. destruct d as [|nm es fi vi fs vs]; [discriminate|].
  inversion Rd as [|? ? ? ? ? ? ND F Efi Evi Efs Evs]; subst. apply populated_ents in Pop as [Ne Pop]. cbn [p_free_size] in L.
  destruct (members_exist es x F Pop 0%nat) as [js [hss MG]]; [lia|]. destruct (members_shapes _ _ _ _ _ MG) as [Oks [Rs [Cs Nj]]].
  exists (Coo (total p_vector_size es, total p_free_size es) (block_entries js 0 0)), (placed_hess (total p_free_size es) 0 es hss). splits.
  - rewrite p_jac_dict, (members_jac _ _ _ _ _ MG). cbn [rbind]. unfold block_diag. destruct js as [|j0 js0]; [exfalso; apply (Nj Ne); reflexivity|].
    unfold rows_of, cols_of in Rs, Cs. rewrite Rs, Cs. reflexivity.
  - rewrite p_hess_dict. apply (members_hess _ _ _ _ js), MG.
  - reflexivity.
  - cbn [p_vector_size]. generalize (total p_free_size es) at 1. intros fs. clear -MG. induction MG as [|off k q es J js Hs hss _ [_ [_ [Lh _]]] _ IHm]; [reflexivity|].
    cbn [placed_hess total]. rewrite app_length, map_length, Lh, IHm. reflexivity.
  - intros k q G. cbn [d_getitem] in G. destruct (od_get es k) as [q0|] eqn:Eo; [|discriminate]. injection G as ->.
    destruct (od_get_split es k q Eo) as [e1 [e2 [-> N1]]].
    destruct (members_split _ _ _ _ _ _ _ _ MG) as [j1 [J [j2 [h1 [Hs [h2 [-> [-> [R1 [C1 [[EJ [OkJ [ShJ _]]] [[EH [OkH [Lh DH]]] [_ [Lp Ep]]]]]]]]]]]]]].
    exists (total p_free_size e1), (total p_vector_size e1), J, Hs. cbn [p_free_indices p_vector_indices p_free_size Nat.add] in *. splits.
    + rewrite offsets_app. cbn [offsets]. rewrite Nat.add_0_l. apply od_get_app. rewrite offsets_keys. exact N1.
    + rewrite offsets_app. cbn [offsets]. rewrite Nat.add_0_l. apply od_get_app. rewrite offsets_keys. exact N1.
    + exact EJ.
    + exact EH.
    + intros a Ha. set (fs := total p_free_size (e1 ++ (k, q) :: e2)) in *.
      assert (GJ : forall c, coo_get (Coo (total p_vector_size (e1 ++ (k, q) :: e2), fs) (block_entries (j1 ++ J :: j2) 0 0)) (total p_vector_size e1 + a) c =
         if inrange (total p_free_size e1) (p_free_size q) c then coo_get J a (c - total p_free_size e1) else 0).
      { intros c. rewrite <- R1, <- C1. pose proof (block_entries_get (total p_vector_size (e1 ++ (k, q) :: e2), fs) j1 J j2 0 0 a c Oks) as X.
        rewrite ShJ in X. apply X. exact Ha. }
      splits.
      * intros b Hb. rewrite GJ. assert (E : inrange (total p_free_size e1) (p_free_size q) (total p_free_size e1 + b) = true) by (apply inrange_spec; lia).
        rewrite E. f_equal. lia.
      * intros c Hc. rewrite GJ. apply inrange_false in Hc. rewrite Hc. reflexivity.
      * destruct (DH a Ha) as [M0 [E0 [Sh _]]]. assert (OM : coo_ok M0) by (apply OkH; apply nth_error_In in E0; exact E0).
        exists (offset_sparse_matrix M0 (total p_free_size e1, total p_free_size e1) (fs, fs)), M0. rewrite Ep. splits.
        -- rewrite nth_error_app2 by (rewrite Lp; lia). rewrite Lp. replace (total p_vector_size e1 + a - total p_vector_size e1)%nat with a by lia.
           rewrite nth_error_app1 by (rewrite map_length, Lh; exact Ha). rewrite nth_error_map, E0. reflexivity.
        -- exact E0.
        -- reflexivity.
        -- intros i j Hi Hj. apply (proj1 (proj2 (offset_moves M0 (total p_free_size e1) (total p_free_size e1) (fs, fs)))).
        -- intros i j Ho. rewrite offset_get by exact OM. rewrite Sh. cbn [fst snd]. destruct (inrange _ _ i) eqn:Ei; [|reflexivity]. destruct (inrange _ _ j) eqn:Ej; [|reflexivity].
           apply inrange_spec in Ei, Ej. lia.
Qed.

(** ---- the derivative methods do not depend on the current value ---- *)
Definition leaf_with (l : leaf) (v : arr) : leaf :=
  match l with
  | LScalar p => LScalar (ScalarP (sp_name p) (sp_lb p) (sp_ub p) v)
  | LVector p => LVector (VectorP (vp_name p) (vp_size p) (vp_lb p) (vp_ub p) v)
  | LArray p => LArray (ArrayP (ap_name p) (ap_shape p) (ap_lb p) (ap_ub p) v)
  | LPosDef p => LPosDef (PosDefP (pd_name p) (pd_size p) (pd_lb p) v)
  | LPosDefV p => LPosDefV (pv_with p v)
  | LPosDefA p => LPosDefA (pa_with p v)
  | LSimplex p => LSimplex (SimplexP (sx_name p) (sx_rows p) (sx_cols p) v)
  | LSubspace p => LSubspace (SubspaceP (sv_name p) (sv_dim p) (sv_cons p) (sv_basis p) v)
  end.
Lemma leaf_with_self l : leaf_with l (leaf_get l) = l.
Proof. destruct l as [p|p|p|p|p|p|p|p]; destruct p; reflexivity. Qed.
Ltac crush_with :=
  repeat match goal with
  | |- context [match ?e with _ => _ end] => destruct e eqn:?
  | |- context [if ?e then _ else _] => destruct e eqn:?
  end.
Ltac find_with := first
  [ eexists; reflexivity
  | match goal with |- exists w, ?l = _ => exists (leaf_get l); symmetry; apply leaf_with_self end ].
Lemma leaf_set_free_with l a : exists v, fst (leaf_set_free l a) = leaf_with l v.
Proof.
  destruct l as [p|p|p|p|p|p|p|p]; destruct p; cbn [leaf_set_free lift fst];
    unfold scalar_set_free, scalar_set, vector_set_free, vector_set, array_set_free, array_set, posdef_set_free, posdef_set, pv_set_free, pa_set_free,
      simplex_set_free, simplex_set, subspace_set_free, subspace_set, lift; crush_with; cbn [fst]; find_with.
Qed.

Lemma ad_jac_ext F G x : (forall y, F y = G y) -> ad_jac F x = ad_jac G x.
Proof. intros E. f_equal. apply FunctionalExtensionality.functional_extensionality. exact E. Qed.
Lemma scalar_ftv_with p v y : scalar_free_to_vector (ScalarP (sp_name p) (sp_lb p) (sp_ub p) v) y = scalar_free_to_vector p y.
Proof.
  unfold scalar_free_to_vector, scalar_set_free. change (sp_lb (ScalarP (sp_name p) (sp_lb p) (sp_ub p) v)) with (sp_lb p).
  change (sp_ub (ScalarP (sp_name p) (sp_lb p) (sp_ub p) v)) with (sp_ub p). destruct (constrain _ _ _); reflexivity.
Qed.
Lemma posdef_ftv_with p v y : posdef_free_to_vector (PosDefP (pd_name p) (pd_size p) (pd_lb p) v) y = posdef_free_to_vector p y.
Proof.
  unfold posdef_free_to_vector, posdef_set_free. change (pd_vec_size (PosDefP (pd_name p) (pd_size p) (pd_lb p) v)) with (pd_vec_size p).
  change (pd_lb (PosDefP (pd_name p) (pd_size p) (pd_lb p) v)) with (pd_lb p).
  destruct (negb _); [reflexivity|]. destruct (unpack_posdef_matrix _ _) as [m|e]; [|reflexivity].
  unfold posdef_set. cbn [pd_size pd_name pd_lb]. 
  destruct (shape m) as [|n0 [|n1 [|n2 sh]]]; try reflexivity. destruct (_ || _)%bool; [reflexivity|]. destruct (negb _); reflexivity.
Qed.
Lemma leaf_with_jac l v x : leaf_jac (leaf_with l v) x = leaf_jac l x.
Proof.
  destruct l as [p|p|p|p|p|p|p|p]; cbn [leaf_with leaf_jac]; try reflexivity.
  - unfold scalar_free_to_vector_jac. rewrite (ad_jac_ext _ (scalar_free_to_vector p)); [reflexivity|]. intros y. apply scalar_ftv_with.
  - unfold posdef_free_to_vector_jac. rewrite (ad_jac_ext _ (posdef_free_to_vector p)); [reflexivity|]. intros y. apply posdef_ftv_with.
Qed.
Lemma leaf_with_hess l v x : leaf_hess (leaf_with l v) x = leaf_hess l x.
Proof.
  destruct l as [p|p|p|p|p|p|p|p]; cbn [leaf_with leaf_hess]; try reflexivity.
  - unfold scalar_free_to_vector_hess. replace (scalar_free_to_vector (ScalarP (sp_name p) (sp_lb p) (sp_ub p) v)) with (scalar_free_to_vector p); [reflexivity|].
    apply FunctionalExtensionality.functional_extensionality. intros y. symmetry. apply scalar_ftv_with.
  - unfold posdef_free_to_vector_hess. replace (posdef_free_to_vector (PosDefP (pd_name p) (pd_size p) (pd_lb p) v)) with (posdef_free_to_vector p); [reflexivity|].
    apply FunctionalExtensionality.functional_extensionality. intros y. symmetry. apply posdef_ftv_with.
Qed.
Lemma set_free_derivatives p : forall a x, p_jac (fst (p_set_free p a)) x = p_jac p x /\ p_hess (fst (p_set_free p a)) x = p_hess p x.
Proof.
  induction p as [l|nm es fi vi fs vs IH] using param_rect'; intros a x.
  - cbn [p_set_free fst p_jac p_hess]. destruct (leaf_set_free_with l a) as [v ->]. split; [apply leaf_with_jac|apply leaf_with_hess].
  - rewrite p_set_free_dict. destruct (negb _); [split; reflexivity|]. cbv zeta. cbn [fst]. rewrite !p_jac_dict, !p_hess_dict.
    assert (X : forall off o2, jac_go x (fst (set_go p_free_size p_set_free a es o2)) off = jac_go x es off /\
                          hess_go fs x (fst (set_go p_free_size p_set_free a es o2)) off = hess_go fs x es off).
    { induction IH as [|[k q] es Hq HF IHf]; intros off o2; [split; reflexivity|]. cbn [set_go]. destruct (np_slice a o2 _) as [s|e]; [|split; reflexivity].
      cbn [snd] in Hq. pose proof (fun y => proj1 (Hq s y)) as J1. pose proof (fun y => proj2 (Hq s y)) as H1. destruct (p_set_free_sizes q s) as [[Sz _] _].
      destruct (p_set_free q s) as [q' r]. cbn [fst snd] in *. destruct r as [u|e]; cbn [fst jac_go hess_go]; rewrite ?Sz, ?J1, ?H1.
      - destruct (IHf (off + p_free_size q)%nat (o2 + p_free_size q)%nat) as [A B]. rewrite A, B. split; reflexivity.
      - split; reflexivity. }
    destruct (X 0%nat 0%nat) as [A B]. rewrite A, B. split; reflexivity.
Qed.
