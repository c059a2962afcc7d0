(** The Taylor expansion computes the derivatives of the solution curve. *)
From Coq Require Import String Reals List Bool Arith ZArith Lia Lra Permutation.
From Coquelicot Require Import Coquelicot.
From Verif Require Import Res Num Nd RSum ModelAutograd ModelSparse ModelParameters ModelMatrix ModelSimplex ModelProjection ModelDict ModelObjective ModelSensitivity.
From Verif Require Import SpecParameters LemmasParameters LemmasPrecond SpecSmooth SpecSensitivity LemmasSmooth LemmasDirDeriv LemmasTerms LemmasTermsNat LemmasSensCalc.
Import List ListNotations.
Open Scope R_scope.
Set Bullet Behavior "Strict Subproofs".

(** ---- iterated directional derivatives ---- *)
Lemma Dd_is_dir_deriv N U ds : open_in N U -> forall f z, U z -> Ck (length ds) N U f -> is_dir_deriv U f ds z (Dd N ds f z).
Proof.
  intros O. induction ds as [|d ds IH]; intros f z Uz C; [reflexivity|]. cbn [is_dir_deriv]. exists (Dd N ds f). split.
  - intros y Uy. apply IH; [exact Uy|]. apply Ck_pred, C.
  - apply (Dd_move N U O); [exact Uz|exact C].
Qed.

(** ---- C48 ---- *)
Lemma derivative_array n p q U g G order : (0 < order)%nat -> open_in (n + p) U -> two_arg_fun n p q U g G ->
  exists arr, generate_two_term_derivative_array g (Z.of_nat order) = Ok arr /\ length arr = order /\
  forall i, (i < order)%nat -> exists row, nth_error arr i = Some row /\ length row = S order /\
  forall j, (j <= order)%nat -> exists f, nth_error row j = Some f /\
  forall x1 x2 vs ws, length x1 = n -> length x2 = p -> U (x1 ++ x2) -> length vs = i -> length ws = j ->
    Forall (fun v => length v = n) vs -> Forall (fun w => length w = p) ws -> smooth_components (i + j) n p q U G ->
  exists r, f (x1 :: x2 :: vs ++ ws) = Ok r /\ length r = q /\
  forall c ds, (c < q)%nat -> Permutation ds (map (first_dir p) vs ++ map (second_dir n) ws) ->
    is_dir_deriv U (G c) ds (x1 ++ x2) (nth c r 0).
Proof.
  intros Ho O Hg. exists (jarray g order). split; [apply gen_array, Ho|]. split; [apply jarray_length|]. intros i Hi.
  exists (jrow g order i). destruct (jarray_get g order i 0 Hi ltac:(lia)) as [row [E1 [_ E3]]].
  assert (Er : row = jrow g order i).
  { unfold jarray in E1. rewrite nth_error_map, (nth_error_nth' (seq 0 order) 0%nat), seq_nth in E1 by (try rewrite seq_length; lia). cbn [option_map] in E1. injection E1 as <-. reflexivity. }
  rewrite Er in E1, E3. split; [exact E1|]. split; [exact E3|]. intros j Hj. exists (J g i j). split.
  { unfold jrow. rewrite nth_error_map, (nth_error_nth' (seq 0 (S order)) 0%nat), seq_nth by (try rewrite seq_length; lia). reflexivity. }
  intros x1 x2 vs ws L1 L2 Ux Lv Lw Fv Fw HC. rewrite Forall_forall in Fv, Fw. subst i j.
  destruct (represents_J n p U O g q G Hg vs ws Fv Fw HC x1 x2 L1 L2 Ux) as [r [Er2 [Lr Hr]]]. exists r. split; [exact Er2|]. split; [exact Lr|]. intros c ds Hc P.
  rewrite Hr by exact Hc. assert (P2 : Permutation (rev (map (emb1 p) vs ++ map (emb2 n) ws)) ds) by (rewrite <- Permutation_rev; symmetry; exact P).
  assert (Ld : length ds = (length vs + length ws)%nat) by (rewrite (Permutation_length P), app_length, !map_length; reflexivity).
  rewrite (Dd_perm (n + p) U O _ _ P2); [|exact Ux|rewrite (Permutation_length P2), Ld; apply HC, Hc]. apply Dd_is_dir_deriv; [exact O|exact Ux|rewrite Ld; apply HC, Hc].
Qed.
(** is_dir_deriv determines the value *)
Lemma is_dir_deriv_unique U n f ds : open_in n U -> forall z a b, U z -> is_dir_deriv U f ds z a -> is_dir_deriv U f ds z b -> a = b.
Proof.
  intros O. induction ds as [|d ds IH]; intros z a b Uz Ha Hb; [cbn in *; congruence|]. cbn [is_dir_deriv] in Ha, Hb. destruct Ha as [h [Hh Da]], Hb as [k [Hk Db]].
  rewrite <- (is_derive_unique _ _ _ Da), <- (is_derive_unique _ _ _ Db). apply Derive_ext_loc. 
  assert (Q : locally 0 (fun t => U (move z d t))).
  { destruct (O z Uz) as [L [e [Pe He]]]. set (B := rsum n (fun i => Rabs (nth i d 0))).
    assert (B0 : 0 <= B) by (apply rsum_nonneg; intros; apply Rabs_pos). assert (Pq : 0 < e / (B + 1)) by (apply Rdiv_lt_0_compat; lra).
    exists (mkposreal _ Pq). intros t Ht. change (Rabs (t + - 0) < e / (B + 1)) in Ht. rewrite Ropp_0, Rplus_0_r in Ht.
    apply He. split; [rewrite move_length; exact L|]. intros i Hi. rewrite move_nth by lia. replace (nth i z 0 + t * nth i d 0 - nth i z 0) with (t * nth i d 0) by ring. rewrite Rabs_mult.
    assert (Bi : Rabs (nth i d 0) <= B) by (apply (rsum_term_le n (fun i => Rabs (nth i d 0))); [exact Hi|intros; apply Rabs_pos]).
    pose proof (Rabs_pos t). pose proof (Rabs_pos (nth i d 0)). apply Rle_lt_trans with (Rabs t * (B + 1)); [apply Rmult_le_compat_l; lra|].
    apply (Rmult_lt_compat_r (B + 1)) in Ht; [|lra]. replace (e / (B + 1) * (B + 1)) with e in Ht by (field; lra). exact Ht. }
  generalize Q. apply filter_imp. intros t Ut. apply (IH (move z d t)); [exact Ut|apply Hh, Ut|apply Hk, Ut].
Qed.

(** ---- C52: building the expansion ---- *)
Section Build.
Variable solve : rmat2 -> vec -> res vec.
Variables (g : pyfun) (M : nat) (in0 hy0 : vec) (hess0 : rmat2).
Definition with_default (fs : list (option R -> etafun)) : list etafun := map (fun h => h default_tol) fs.
Definition loop_inv (k : nat) (terms : list (list dterm)) (fs : list (option R -> etafun)) : Prop :=
  length terms = S k /\ length fs = k /\
  forall j, (j <= k)%nat -> exists l, level (S j) l /\ nth_error terms j = Some (map (conc g M (with_default (firstn j fs))) l) /\
    ((j < k)%nat -> nth_error fs j = Some (dkinput_dhyperk solve in0 hy0 hess0 (map (conc g M (with_default (firstn j fs))) l))).
Lemma order_loop_ok m : forall k terms fs, loop_inv k terms fs -> (S k + m < M)%nat ->
  exists terms' fs', order_loop solve in0 hy0 hess0 m k terms fs = Ok (terms', fs') /\ loop_inv (k + m) terms' fs'.
Proof.
  induction m as [|m IH]; intros k terms fs Inv HM; [exists terms, fs; rewrite Nat.add_0_r; split; [reflexivity|exact Inv]|].
  destruct Inv as [Lt [Lf Inv]]. cbn [order_loop]. rewrite py_index_nat. destruct (Inv k (le_n k)) as [l [Hl [Et _]]]. rewrite Et. cbn [rbind].
  rewrite firstn_all2 in * by lia. set (cur := map (conc g M (with_default fs)) l) in *. set (next := dkinput_dhyperk solve in0 hy0 hess0 cur).
  destruct (differentiate_list g M (S k) (with_default fs) l (next default_tol) (level_ok _ _ Hl)) as [r [Er [Fr [Ir Wr]]]]; [lia|unfold with_default; rewrite map_length; lia|lia|].
  fold cur in Er. rewrite Er. cbn [rbind]. rewrite Nat.add_succ_r. change (S (k + m)) with (S k + m)%nat. apply IH; [|lia]. split; [rewrite app_length; cbn [length]; lia|]. split; [rewrite app_length; cbn [length]; lia|].
  intros j Hj. destruct (Nat.eq_dec j (S k)) as [->|Nj].
  - exists r. split; [apply (level_next _ l); assumption|]. split; [|intros; lia]. rewrite nth_error_app2 by lia. replace (S k - length terms)%nat with 0%nat by lia. cbn [nth_error]. rewrite firstn_all2 by (rewrite app_length; cbn [length]; lia).
    unfold with_default. rewrite map_app. reflexivity.
  - destruct (Inv j ltac:(lia)) as [l' [Hl' [Et' Ef']]]. exists l'. assert (Fj : firstn j (fs ++ [next]) = firstn j fs) by (rewrite firstn_app; replace (j - length fs)%nat with 0%nat by lia; rewrite app_nil_r; reflexivity).
    rewrite Fj. split; [exact Hl'|]. split; [rewrite nth_error_app1 by lia; exact Et'|]. intros _. destruct (Nat.eq_dec j k) as [->|Nk].
    + rewrite nth_error_app2 by lia. replace (k - length fs)%nat with 0%nat by lia. cbn [nth_error]. unfold next, cur. f_equal. f_equal. rewrite Et in Et'. rewrite firstn_all2 in * by lia. injection Et' as Et'. exact Et'.
    + rewrite nth_error_app1 by lia. apply Ef'. lia.
Qed.
End Build.

Lemma build_order_ok solve g in0 hy0 hess0 order : (0 < order)%nat ->
  exists terms fs, build_order solve g in0 hy0 hess0 (Z.of_nat order) = Ok (terms, fs) /\ length terms = order /\ length fs = order /\
  forall j, (j < order)%nat -> exists l, level (S j) l /\ nth_error terms j = Some (map (conc g (S order) (with_default (firstn j fs))) l) /\
    nth_error fs j = Some (dkinput_dhyperk solve in0 hy0 hess0 (map (conc g (S order) (with_default (firstn j fs))) l)).
Proof.
  intros Ho. unfold build_order. replace (Z.of_nat order + 1)%Z with (Z.of_nat (S order)) by lia. rewrite gen_array by lia. cbn [rbind]. rewrite base_ok by lia. cbn [rbind].
  replace (Z.to_nat (Z.of_nat order - 1)) with (order - 1)%nat by lia.
  destruct (order_loop_ok solve g (S order) in0 hy0 hess0 (order - 1) 0 [map (conc g (S order) []) [(1%nat, [0%nat], 1); (0%nat, [1%nat], 1)]] []) as [terms [fs [E [Lt [Lf Inv]]]]].
  { split; [reflexivity|]. split; [reflexivity|]. intros j Hj. assert (j = 0%nat) by lia. subst j. eexists. split; [apply level_base|]. split; [reflexivity|lia]. }
  { lia. }
  rewrite E. cbn [rbind fst snd Nat.add] in *. replace (Z.of_nat order - 1)%Z with (Z.of_nat (order - 1)) by lia. rewrite py_index_nat.
  destruct (Inv (order - 1)%nat ltac:(lia)) as [l [Hl [El _]]]. rewrite El. cbn [rbind]. eexists. eexists. split; [reflexivity|]. split; [lia|]. split; [rewrite app_length; cbn [length]; lia|].
  intros j Hj. destruct (Inv j ltac:(lia)) as [l' [Hl' [El' Ef']]]. exists l'.
  assert (Fj : firstn j (fs ++ [dkinput_dhyperk solve in0 hy0 hess0 (map (conc g (S order) (with_default (firstn (order - 1) fs))) l)]) = firstn j fs) by (rewrite firstn_app; replace (j - length fs)%nat with 0%nat by lia; rewrite app_nil_r; reflexivity).
  rewrite Fj. split; [exact Hl'|]. split; [exact El'|]. destruct (Nat.eq_dec j (order - 1)) as [->|N].
  - rewrite nth_error_app2 by lia. replace (order - 1 - length fs)%nat with 0%nat by lia. cbn [nth_error]. f_equal. f_equal. rewrite El in El'. injection El' as El'. exact El'.
  - rewrite nth_error_app1 by lia. apply Ef'. lia.
Qed.
Lemma build_order_zero solve g in0 hy0 hess0 : build_order solve g in0 hy0 hess0 0 = Raise AssertionError.
Proof.
  unfold build_order. change (0 + 1)%Z with (Z.of_nat 1). rewrite gen_array by lia. reflexivity.
Qed.
Lemma build_order_negative solve g in0 hy0 hess0 order : (order < 0)%Z -> build_order solve g in0 hy0 hess0 order = Raise IndexError.
Proof.
  intros H. unfold build_order, generate_two_term_derivative_array. replace (Z.to_nat (order + 1)) with 0%nat by lia. reflexivity.
Qed.
