(** The prefactors of the terms of the expansion: Faa di Bruno's formula. *)
From Coq Require Import String Reals List Bool Arith ZArith Lia Lra Permutation.
From Coquelicot Require Import Coquelicot.
From Verif Require Import Res Num Nd RSum ModelAutograd ModelSparse ModelParameters ModelMatrix ModelSimplex ModelProjection ModelDict ModelObjective ModelSensitivity ModelPrint.
From Verif Require Import SpecPrint.
From Verif Require Import LemmasParameters LemmasTerms LemmasTermsNat LemmasSensCalc LemmasSens.
Import List ListNotations.
Open Scope R_scope.
Set Bullet Behavior "Strict Subproofs".

Lemma total_order_nweight m : forall s, total_order s m = nweight s m.
Proof. induction m as [|x m IH]; intros s; cbn [total_order nweight]; [reflexivity|]. rewrite IH. lia. Qed.
Lemma fact_pos n : 0 < INR (fact n).
Proof. apply lt_0_INR, lt_O_fact. Qed.
Lemma block_pos m : forall s, 0 < block_symmetries s m.
Proof. induction m as [|x m IH]; intros s; cbn [block_symmetries]; [lra|]. apply Rmult_lt_0_compat; [apply Rmult_lt_0_compat|apply IH]; [apply pow_lt|]; apply fact_pos. Qed.
Lemma faa_pos k e m : 0 < faa_di_bruno k e m.
Proof. unfold faa_di_bruno. apply Rdiv_lt_0_compat; [apply fact_pos|]. apply Rmult_lt_0_compat; [apply fact_pos|apply block_pos]. Qed.
Lemma block_app m m' : forall s, block_symmetries s (m ++ m') = block_symmetries s m * block_symmetries (s + length m) m'.
Proof.
  induction m as [|x m IH]; intros s; cbn [block_symmetries app length]; [rewrite Nat.add_0_r; ring|]. rewrite IH. replace (S s + length m)%nat with (s + S (length m))%nat by lia. ring.
Qed.
Lemma block_upd m : forall s i v, (i < length m)%nat ->
  block_symmetries s (upd m i v) * (INR (fact (s + i)) ^ nth i m 0%nat * INR (fact (nth i m 0%nat))) = block_symmetries s m * (INR (fact (s + i)) ^ v * INR (fact v)).
Proof.
  induction m as [|x m IH]; intros s i v Hi; [cbn in Hi; lia|]. destruct i as [|i]; cbn [upd block_symmetries nth].
  - rewrite Nat.add_0_r. ring.
  - cbn in Hi. specialize (IH (S s) i v ltac:(lia)). replace (S s + i)%nat with (s + S i)%nat in IH by lia. 
    transitivity (INR (fact s) ^ x * INR (fact x) * (block_symmetries (S s) (upd m i v) * (INR (fact (s + S i)) ^ nth i m 0%nat * INR (fact (nth i m 0%nat))))); [ring|]. rewrite IH. ring.
Qed.
Lemma block_zero_last m s : m <> [] -> last m 0%nat = 0%nat -> block_symmetries s (removelast m) = block_symmetries s m.
Proof.
  intros N L. rewrite (app_removelast_last 0%nat N) at 2. rewrite L, block_app. cbn [block_symmetries fact pow INR]. ring.
Qed.
(** ---- the terms that a term comes from ---- *)
Lemma removelast_length {A} (l : list A) k : length l = S k -> length (removelast l) = k.
Proof. intros H. rewrite removelast_firstn_len, firstn_length. lia. Qed.
Lemma light_last x k : length x = S k -> (nweight 1 x <= k)%nat -> last x 0%nat = 0%nat.
Proof. intros L W. rewrite last_nth, L. cbn [Nat.sub]. rewrite Nat.sub_0_r. pose proof (nweight_ge x 1 k). destruct (nth k x 0%nat); [reflexivity|]. nia. Qed.
Lemma light_eq x k : length x = S k -> (nweight 1 x <= k)%nat -> removelast x ++ [0%nat] = x.
Proof. intros L W. symmetry. rewrite (app_removelast_last 0%nat) at 1 by (intros ->; cbn in L; lia). rewrite (light_last x k L W). reflexivity. Qed.
Lemma light_weight x k : length x = S k -> (nweight 1 x <= k)%nat -> nweight 1 (removelast x) = nweight 1 x.
Proof. intros L W. rewrite <- (light_eq x k L W) at 2. rewrite nweight_app. cbn [nweight]. lia. Qed.
Lemma light_iff x k ks : length x = S k -> (nweight 1 x <= k)%nat -> (ks ++ [0%nat] = x <-> ks = removelast x).
Proof. intros L W. split; [intros <-; rewrite removelast_last; reflexivity|intros ->; apply (light_eq x k L W)]. Qed.
Lemma light_block x k s : length x = S k -> (nweight 1 x <= k)%nat -> block_symmetries s (removelast x) = block_symmetries s x.
Proof. intros L W. apply block_zero_last; [intros ->; cbn in L; lia|apply (light_last x k L W)]. Qed.

Definition unbump (m : list nat) : list nat := upd m 0 (nth 0 m 0 - 1)%nat.
Definition unshift (m : list nat) (i : nat) : list nat := upd (upd m (S i) (nth (S i) m 0 - 1)%nat) i (nth i m 0 + 1)%nat.
Ltac nths := repeat (rewrite nth_upd_nat by (rewrite ?upd_length; lia)); rewrite ?upd_length.
Ltac eqbs := repeat match goal with |- context [Nat.eqb ?a ?b] => destruct (Nat.eqb_spec a b) end; subst; try lia.
Lemma unbump_nbump0 l : (0 < length l)%nat -> unbump (nbump0 l) = l.
Proof.
  intros H. unfold unbump, nbump0. apply (nth_ext _ _ 0%nat 0%nat); [rewrite !upd_length; reflexivity|]. intros j Hj. rewrite !upd_length in Hj. nths. eqbs.
Qed.
Lemma nbump0_unbump m : (0 < length m)%nat -> (0 < nth 0 m 0)%nat -> nbump0 (unbump m) = m.
Proof.
  intros H P. unfold unbump, nbump0. apply (nth_ext _ _ 0%nat 0%nat); [rewrite !upd_length; reflexivity|]. intros j Hj. rewrite !upd_length in Hj. nths. eqbs.
Qed.
Lemma unshift_nshift l i : (S i < length l)%nat -> (0 < nth i l 0)%nat -> unshift (nshift l i) i = l.
Proof.
  intros H P. unfold unshift, nshift. apply (nth_ext _ _ 0%nat 0%nat); [rewrite !upd_length; reflexivity|]. intros j Hj. rewrite !upd_length in Hj. nths. eqbs.
Qed.
Lemma nshift_unshift m i : (S i < length m)%nat -> (0 < nth (S i) m 0)%nat -> nshift (unshift m i) i = m.
Proof.
  intros H P. unfold unshift, nshift. apply (nth_ext _ _ 0%nat 0%nat); [rewrite !upd_length; reflexivity|]. intros j Hj. rewrite !upd_length in Hj. nths. eqbs.
Qed.
Lemma unbump_weight m : (0 < length m)%nat -> (0 < nth 0 m 0)%nat -> (nweight 1 (unbump m) + 1 = nweight 1 m)%nat.
Proof. intros H P. rewrite <- (nbump0_unbump m H P) at 2. rewrite nbump0_weight; [lia|]. unfold unbump. rewrite upd_length. exact H. Qed.
Lemma unshift_nth m i : (S i < length m)%nat -> nth i (unshift m i) 0%nat = (nth i m 0 + 1)%nat.
Proof. intros H. unfold unshift. nths. rewrite Nat.eqb_refl. reflexivity. Qed.
Lemma unshift_weight m i : (S i < length m)%nat -> (0 < nth (S i) m 0)%nat -> (nweight 1 (unshift m i) + 1 = nweight 1 m)%nat.
Proof.
  intros H P. rewrite <- (nshift_unshift m i H P) at 2. rewrite nshift_weight; [lia|unfold unshift; rewrite !upd_length; exact H|rewrite unshift_nth by exact H; lia].
Qed.
Lemma unshift_length m i : length (unshift m i) = length m.
Proof. unfold unshift. rewrite !upd_length. reflexivity. Qed.

Section Step.
Variables (k e : nat) (m : list nat).
Hypothesis Hk : (1 <= k)%nat.
Hypothesis Lm : length m = S k.
Hypothesis Wm : (e + nweight 1 m = S k)%nat.
Lemma from_eps e' ks : (S e', ks ++ [0%nat]) = (e, m) <-> (1 <= e)%nat /\ (e', ks) = ((e - 1)%nat, removelast m).
Proof.
  split.
  - intros E. injection E as E1 E2. subst e. split; [lia|]. f_equal; [lia|]. apply (light_iff m k); [exact Lm|lia|exact E2].
  - intros [He E]. injection E as -> ->. f_equal; [lia|]. apply (light_eq m k Lm). lia.
Qed.
Lemma from_bump e' ks : length ks = k -> (e', nbump0 (ks ++ [0%nat])) = (e, m) <-> (1 <= nth 0 m 0)%nat /\ (e', ks) = (e, removelast (unbump m)).
Proof.
  intros Lk. assert (Lo : (0 < length (ks ++ [0%nat]))%nat) by (rewrite app_length; cbn; lia). split.
  - intros E. injection E as -> E2. assert (P : (1 <= nth 0 m 0)%nat) by (rewrite <- E2; unfold nbump0; nths; cbn [Nat.eqb]; lia). split; [exact P|]. f_equal.
    pose proof (unbump_weight m ltac:(lia) ltac:(lia)). apply (light_iff (unbump m) k); [unfold unbump; rewrite upd_length; exact Lm|lia|]. rewrite <- E2. symmetry. apply unbump_nbump0, Lo.
  - intros [P E]. injection E as -> ->. f_equal. pose proof (unbump_weight m ltac:(lia) ltac:(lia)). rewrite (light_eq (unbump m) k); [apply nbump0_unbump; lia|unfold unbump; rewrite upd_length; exact Lm|lia].
Qed.
Lemma from_shift e' ks i : length ks = k -> (i < k)%nat ->
  (0 < nth i ks 0)%nat /\ (e', nshift (ks ++ [0%nat]) i) = (e, m) <-> (1 <= nth (S i) m 0)%nat /\ (e', ks) = (e, removelast (unshift m i)).
Proof.
  intros Lk Hi. assert (Lo : length (ks ++ [0%nat]) = S k) by (rewrite app_length; cbn; lia). assert (No : nth i (ks ++ [0%nat]) 0%nat = nth i ks 0%nat) by (rewrite app_nth1 by lia; reflexivity). split.
  - intros [Pk E]. injection E as -> E2. assert (P : (1 <= nth (S i) m 0)%nat).
    { rewrite <- E2. unfold nshift. nths. rewrite Nat.eqb_refl. lia. }
    split; [exact P|]. f_equal. pose proof (unshift_weight m i ltac:(lia) ltac:(lia)). apply (light_iff (unshift m i) k); [rewrite unshift_length; exact Lm|lia|]. rewrite <- E2. symmetry. apply unshift_nshift; [lia|rewrite No; exact Pk].
  - intros [P E]. injection E as -> Ek. pose proof (unshift_weight m i ltac:(lia) ltac:(lia)).
    assert (Eo : ks ++ [0%nat] = unshift m i) by (rewrite Ek; apply (light_eq (unshift m i) k); [rewrite unshift_length; exact Lm|lia]).
    split; [rewrite <- No, Eo, unshift_nth by lia; lia|]. f_equal. rewrite Eo. apply nshift_unshift; lia.
Qed.
Lemma from_shift_nth ks i : (i < k)%nat -> length ks = k -> (1 <= nth (S i) m 0)%nat -> ks = removelast (unshift m i) -> nth i ks 0%nat = (nth i m 0 + 1)%nat.
Proof.
  intros Hi Lk P Ek. pose proof (unshift_weight m i ltac:(lia) ltac:(lia)). rewrite <- (unshift_nth m i) by lia. rewrite <- (light_eq (unshift m i) k); [|rewrite unshift_length; exact Lm|lia]. rewrite <- Ek, app_nth1 by lia. reflexivity.
Qed.
End Step.
(** ---- total prefactor of a signature ---- *)
Definition nsig_dec (x y : nat * list nat) : {x = y} + {x <> y}.
Proof. decide equality; [apply list_eq_dec, Nat.eq_dec|apply Nat.eq_dec]. Defined.
Definition ind (x y : nat * list nat) : R := if nsig_dec x y then 1 else 0.
Definition W (s : nat * list nat) (l : list aterm) : R := lsum (map (fun a => snd a * ind (fst a) s) l).
Definition guard (b : bool) (x : R) : R := if b then x else 0.
Lemma ind_iff x y x' y' (b : bool) : (x = y <-> b = true /\ x' = y') -> ind x y = guard b (ind x' y').
Proof.
  intros H. unfold ind, guard. destruct (nsig_dec x y) as [E|N]; destruct b; destruct (nsig_dec x' y') as [E'|N']; try reflexivity; exfalso; try (apply N, H; split; [reflexivity|assumption]); apply H in E; destruct E; try discriminate; contradiction.
Qed.
Lemma W_adiff k e m a : (1 <= k)%nat -> length m = S k -> (e + nweight 1 m = S k)%nat -> a_ok k a ->
  W (e, m) (adiff a) = snd a * (guard (1 <=? e)%nat (ind (fst a) ((e - 1)%nat, removelast m)) + guard (1 <=? nth 0 m 0)%nat (ind (fst a) (e, removelast (unbump m)))
    + rsum k (fun i => guard (1 <=? nth (S i) m 0)%nat (INR (nth i m 0%nat + 1) * ind (fst a) (e, removelast (unshift m i))))).
Proof.
  intros Hk Lm Wm. destruct a as [[e' ks] c]. intros [Lk Wk]. unfold W, adiff. cbn [map fst snd]. cbn [lsum fold_right].
  match goal with |- context [fold_right Rplus 0 ?l] => change (fold_right Rplus 0 l) with (lsum l) end.
  rewrite (ind_iff (S e', ks ++ [0%nat]) (e, m) (e', ks) ((e - 1)%nat, removelast m) (1 <=? e)%nat) by (rewrite Nat.leb_le; apply (from_eps k e m Hk Lm Wm)).
  rewrite (ind_iff (e', nbump0 (ks ++ [0%nat])) (e, m) (e', ks) (e, removelast (unbump m)) (1 <=? nth 0 m 0)%nat) by (rewrite Nat.leb_le; apply (from_bump k e m Hk Lm Wm e' ks Lk)).
  replace (lsum _) with (c * rsum k (fun i => guard (1 <=? nth (S i) m 0)%nat (INR (nth i m 0%nat + 1) * ind (e', ks) (e, removelast (unshift m i))))); [ring|].
  rewrite <- rsum_scal_l, <- lsum_map_seq, Lk. rewrite flat_map_concat_map, concat_map, map_map, <- flat_map_concat_map, lsum_flat_map.
  apply lsum_map_ext. intros i Hi. apply in_seq in Hi. pose proof (from_shift k e m Hk Lm Wm e' ks i Lk ltac:(lia)) as Q.
  destruct (Nat.ltb_spec 0 (nth i ks 0%nat)) as [P|P]; cbn [map lsum fold_right fst snd].
  - rewrite (ind_iff (e', nshift (ks ++ [0%nat]) i) (e, m) (e', ks) (e, removelast (unshift m i)) (1 <=? nth (S i) m 0)%nat) by (rewrite Nat.leb_le; rewrite <- Q; tauto).
    unfold guard, ind. destruct (Nat.leb_spec 1 (nth (S i) m 0%nat)); [|ring]. destruct (nsig_dec _ _) as [E|N]; [|ring]. injection E as E1 E2. rewrite (from_shift_nth k e m Hk Lm Wm ks i ltac:(lia) Lk ltac:(lia) E2). ring.
  - unfold guard, ind. destruct (Nat.leb_spec 1 (nth (S i) m 0%nat)); [|ring]. destruct (nsig_dec _ _) as [E|N]; [|ring]. exfalso. apply proj2 in Q. specialize (Q ltac:(split; [lia|exact E])). lia.
Qed.
Lemma W_flat k e m l : (1 <= k)%nat -> length m = S k -> (e + nweight 1 m = S k)%nat -> List.Forall (a_ok k) l ->
  W (e, m) (flat_map adiff l) = guard (1 <=? e)%nat (W ((e - 1)%nat, removelast m) l) + guard (1 <=? nth 0 m 0)%nat (W (e, removelast (unbump m)) l)
    + rsum k (fun i => guard (1 <=? nth (S i) m 0)%nat (INR (nth i m 0%nat + 1) * W (e, removelast (unshift m i)) l)).
Proof.
  intros Hk Lm Wm F. induction F as [|a l Ha F IH].
  - cbn [flat_map]. unfold W at 1 2 3. cbn [map lsum fold_right]. rewrite rsum_zero; [unfold guard; destruct (1 <=? e)%nat, (1 <=? nth 0 m 0)%nat; ring|].
    intros i Hi. unfold guard. destruct (_ <=? _)%nat; [|reflexivity]. unfold W. cbn [map lsum fold_right]. ring.
  - cbn [flat_map]. unfold W at 1. rewrite map_app, lsum_app. fold (W (e, m) (adiff a)). fold (W (e, m) (flat_map adiff l)). rewrite IH, (W_adiff k) by assumption.
    assert (C : forall s, W s (a :: l) = snd a * ind (fst a) s + W s l) by reflexivity. rewrite !C.
    replace (rsum k (fun i => guard (1 <=? nth (S i) m 0)%nat (INR (nth i m 0%nat + 1) * W (e, removelast (unshift m i)) (a :: l)))) with
      (snd a * rsum k (fun i => guard (1 <=? nth (S i) m 0)%nat (INR (nth i m 0%nat + 1) * ind (fst a) (e, removelast (unshift m i)))) + rsum k (fun i => guard (1 <=? nth (S i) m 0)%nat (INR (nth i m 0%nat + 1) * W (e, removelast (unshift m i)) l))).
    + unfold guard. destruct (1 <=? e)%nat, (1 <=? nth 0 m 0)%nat; ring.
    + rewrite <- rsum_scal_l, <- rsum_plus. apply rsum_ext. intros i Hi. cbv beta. rewrite C. unfold guard. destruct (1 <=? nth (S i) m 0)%nat; ring.
Qed.
(** the recursion of the coefficients *)
Lemma faa_eps k e m : length m = S k -> (e + nweight 1 m = S k)%nat -> (1 <= e)%nat -> faa_di_bruno k (e - 1) (removelast m) = faa_di_bruno (S k) e m * (INR e / INR (S k)).
Proof.
  intros Lm Wm He. unfold faa_di_bruno. rewrite (light_block m k 1 Lm) by lia. destruct e as [|e]; [lia|]. cbn [Nat.sub]. rewrite Nat.sub_0_r. rewrite !fact_simpl, !mult_INR.
  pose proof (fact_pos e). pose proof (fact_pos k). pose proof (block_pos m 1). pose proof (lt_0_INR (S k) ltac:(lia)). pose proof (lt_0_INR (S e) ltac:(lia)). field. repeat split; lra.
Qed.
Lemma faa_bump k e m : (1 <= k)%nat -> length m = S k -> (e + nweight 1 m = S k)%nat -> (1 <= nth 0 m 0)%nat -> faa_di_bruno k e (removelast (unbump m)) = faa_di_bruno (S k) e m * (INR (nth 0 m 0%nat) / INR (S k)).
Proof.
  intros Hk Lm Wm P. pose proof (unbump_weight m ltac:(lia) ltac:(lia)) as Wu. unfold faa_di_bruno. rewrite (light_block (unbump m) k 1); [|unfold unbump; rewrite upd_length; exact Lm|lia].
  pose proof (block_upd m 1 0 (nth 0 m 0 - 1)%nat ltac:(lia)) as B. fold (unbump m) in B. cbn [Nat.add fact Nat.mul] in B. change (INR 1) with 1 in B. rewrite !pow1, !Rmult_1_l in B.
  destruct (nth 0 m 0%nat) as [|x]; [lia|]. cbn [Nat.sub] in B. rewrite Nat.sub_0_r in B. rewrite (fact_simpl x), mult_INR in B. rewrite (fact_simpl k), mult_INR.
  pose proof (fact_pos e). pose proof (fact_pos x). pose proof (fact_pos k). pose proof (block_pos m 1). pose proof (block_pos (unbump m) 1). pose proof (lt_0_INR (S k) ltac:(lia)). pose proof (lt_0_INR (S x) ltac:(lia)).
  assert (B' : block_symmetries 1 m = block_symmetries 1 (unbump m) * INR (S x)) by (apply (Rmult_eq_reg_r (INR (fact x))); [rewrite <- B; ring|lra]). rewrite B'. field. repeat split; lra.
Qed.
Lemma faa_shift k e m i : (1 <= k)%nat -> length m = S k -> (e + nweight 1 m = S k)%nat -> (i < k)%nat -> (1 <= nth (S i) m 0)%nat ->
  INR (nth i m 0%nat + 1) * faa_di_bruno k e (removelast (unshift m i)) = faa_di_bruno (S k) e m * (INR ((S i + 1) * nth (S i) m 0%nat) / INR (S k)).
Proof.
  intros Hk Lm Wm Hi P. pose proof (unshift_weight m i ltac:(lia) ltac:(lia)) as Wu. unfold faa_di_bruno. rewrite (light_block (unshift m i) k 1); [|rewrite unshift_length; exact Lm|lia].
  set (m1 := upd m (S i) (nth (S i) m 0 - 1)%nat). assert (L1 : length m1 = S k) by (unfold m1; rewrite upd_length; exact Lm).
  pose proof (block_upd m 1 (S i) (nth (S i) m 0 - 1)%nat ltac:(lia)) as B1. fold m1 in B1.
  pose proof (block_upd m1 1 i (nth i m 0 + 1)%nat ltac:(lia)) as B2. replace (nth i m1 0%nat) with (nth i m 0%nat) in B2 by (unfold m1; nths; eqbs). change (upd m1 i (nth i m 0 + 1)%nat) with (unshift m i) in B2.
  destruct (nth (S i) m 0%nat) as [|x]; [lia|]. cbn [Nat.sub] in B1. rewrite Nat.sub_0_r in B1. cbn [Nat.add] in B1, B2. rewrite ?Nat.add_1_r in *. set (y := nth i m 0%nat) in *.
  rewrite (fact_simpl x), (fact_simpl (S i)), mult_INR in B1. rewrite mult_INR in B1. rewrite (fact_simpl y), mult_INR in B2. rewrite (fact_simpl k), !mult_INR. set (f := INR (fact (S i))) in *. cbn [pow] in B1, B2.
  pose proof (fact_pos (S i)) as Pf. fold f in Pf. pose proof (fact_pos x). pose proof (fact_pos y). pose proof (fact_pos k). pose proof (fact_pos e). pose proof (block_pos m 1). pose proof (block_pos m1 1). pose proof (block_pos (unshift m i) 1).
  pose proof (lt_0_INR (S k) ltac:(lia)). pose proof (lt_0_INR (S x) ltac:(lia)). pose proof (lt_0_INR (S y) ltac:(lia)). pose proof (lt_0_INR (S (S i)) ltac:(lia)).
  assert (P1 : 0 < (INR (S (S i)) * f) ^ x) by (apply pow_lt, Rmult_lt_0_compat; assumption). assert (P2 : 0 < f ^ y) by (apply pow_lt, Pf).
  assert (C1 : block_symmetries 1 m = block_symmetries 1 m1 * (INR (S (S i)) * f * INR (S x))).
  { apply (Rmult_eq_reg_r ((INR (S (S i)) * f) ^ x * INR (fact x))); [rewrite <- B1; ring|]. apply Rgt_not_eq, Rmult_lt_0_compat; assumption. }
  assert (C2 : block_symmetries 1 (unshift m i) = block_symmetries 1 m1 * (f * INR (S y))).
  { apply (Rmult_eq_reg_r (f ^ y * INR (fact y))); [rewrite B2; ring|]. apply Rgt_not_eq, Rmult_lt_0_compat; assumption. }
  rewrite C1, C2. field. repeat split; lra.
Qed.
Lemma nweight_rsum m : forall s, INR (nweight s m) = rsum (length m) (fun i => INR ((s + i) * nth i m 0%nat)).
Proof.
  induction m as [|x m IH]; intros s; [reflexivity|]. cbn [nweight length]. rewrite rsum_S_l, plus_INR, IH. cbn [nth]. rewrite Nat.add_0_r, (Nat.mul_comm x). f_equal. apply rsum_ext. intros i Hi. f_equal. rewrite Nat.add_succ_r. reflexivity.
Qed.
Lemma level_faa k l : level k l -> forall e m, length m = k -> (e + nweight 1 m = k)%nat -> W (e, m) l = faa_di_bruno k e m.
Proof.
  induction 1 as [|k l l' Hl IH F _ Sw]; intros e m Lm Wm.
  - destruct m as [|x [|]]; try discriminate Lm. cbn [nweight] in Wm. unfold W, ind, faa_di_bruno. cbn [map fst snd lsum fold_right block_symmetries].
    destruct (nsig_dec (1%nat, [0%nat]) (e, [x])) as [E1|N1]; destruct (nsig_dec (0%nat, [1%nat]) (e, [x])) as [E2|N2].
    + exfalso. congruence.
    + injection E1 as <- <-. cbn. field.
    + injection E2 as <- <-. cbn. field.
    + exfalso. destruct e as [|[|e]]; [apply N2|apply N1|]; try lia; repeat f_equal; lia.
  - pose proof (level_pos _ _ Hl) as Hk. pose proof (level_ok _ _ Hl) as Fl. unfold W. rewrite (Sw (fun x => ind x (e, m))). fold (W (e, m) (flat_map adiff l)). rewrite (W_flat k) by assumption.
    pose proof (lt_0_INR (S k) ltac:(lia)).
    assert (A0 : guard (1 <=? e)%nat (W ((e - 1)%nat, removelast m) l) = faa_di_bruno (S k) e m * (INR e / INR (S k))).
    { unfold guard. destruct (Nat.leb_spec 1 e) as [He|He]; [|replace e with 0%nat by lia; change (INR 0) with 0; field; lra]. rewrite <- (faa_eps k e m) by assumption. apply IH; [apply removelast_length, Lm|]. rewrite (light_weight m k) by lia. lia. }
    assert (A1 : guard (1 <=? nth 0 m 0)%nat (W (e, removelast (unbump m)) l) = faa_di_bruno (S k) e m * (INR (nth 0 m 0%nat) / INR (S k))).
    { unfold guard. destruct (Nat.leb_spec 1 (nth 0 m 0%nat)) as [P|P]; [|replace (nth 0 m 0%nat) with 0%nat by lia; change (INR 0) with 0; field; lra]. rewrite <- (faa_bump k e m) by assumption.
      pose proof (unbump_weight m ltac:(lia) ltac:(lia)). assert (L : length (unbump m) = S k) by (unfold unbump; rewrite upd_length; exact Lm). apply IH; [apply removelast_length, L|]. rewrite (light_weight _ k L) by lia. lia. }
    assert (A2 : rsum k (fun i => guard (1 <=? nth (S i) m 0)%nat (INR (nth i m 0%nat + 1) * W (e, removelast (unshift m i)) l)) = faa_di_bruno (S k) e m * (rsum k (fun i => INR ((1 + S i) * nth (S i) m 0%nat)) / INR (S k))).
    { unfold Rdiv. rewrite Rmult_comm, Rmult_assoc, <- rsum_scal_r. apply rsum_ext. intros i Hi. unfold guard. destruct (Nat.leb_spec 1 (nth (S i) m 0%nat)) as [P|P].
      - rewrite IH; [rewrite (faa_shift k) by assumption; rewrite (Nat.add_comm (S i) 1); unfold Rdiv; ring|apply removelast_length; rewrite unshift_length; exact Lm|].
        pose proof (unshift_weight m i ltac:(lia) ltac:(lia)). rewrite (light_weight _ k); [lia|rewrite unshift_length; exact Lm|lia].
      - replace (nth (S i) m 0%nat) with 0%nat by lia. rewrite Nat.mul_0_r. change (INR 0) with 0. ring. }
    rewrite A0, A1, A2. pose proof (nweight_rsum m 1) as Nw. rewrite Lm, rsum_S_l in Nw. replace ((1 + 0) * nth 0 m 0)%nat with (nth 0 m 0%nat) in Nw by lia.
    assert (T : INR e + INR (nweight 1 m) = INR (S k)) by (rewrite <- plus_INR, Wm; reflexivity). rewrite Nw in T. rewrite <- !Rmult_plus_distr_l. unfold Rdiv. rewrite <- !Rmult_plus_distr_r, Rplus_assoc, T. field. lra.
Qed.

(** ---- what is printed ---- *)
Definition page (terms : list (list dterm)) (order : nat) : list line := Heading (Z.of_nat (S order)) :: map term_str (nth order terms []).
Lemma py_index_nth {A} (l : list A) i d : (i < length l)%nat -> py_index l (Z.of_nat i) = Ok (nth i l d).
Proof. intros H. rewrite py_index_nat, (nth_error_nth' l d H). reflexivity. Qed.
Lemma print_loop_all terms n : forall o, (o + n <= length terms)%nat -> print_loop terms None n o = (flat_map (page terms) (seq o n), Ok tt).
Proof.
  induction n as [|n IH]; intros o H; [reflexivity|]. cbn [print_loop seq flat_map]. rewrite (py_index_nth terms o []) by lia. rewrite IH by lia. unfold page. replace (Z.of_nat o + 1)%Z with (Z.of_nat (S o)) by lia. reflexivity.
Qed.
Lemma print_loop_none terms k n : forall o, ~ (Z.of_nat o + 1 <= k <= Z.of_nat (o + n))%Z -> print_loop terms (Some k) n o = ([], Ok tt).
Proof.
  induction n as [|n IH]; intros o H; [reflexivity|]. cbn [print_loop]. destruct (Z.eqb_spec (Z.of_nat o) (k - 1)) as [E|_]; [exfalso; apply H; lia|]. apply IH. intros [A B]. apply H. lia.
Qed.
Lemma print_loop_one terms k n : forall o, (o < k <= o + n)%nat -> (o + n <= length terms)%nat -> print_loop terms (Some (Z.of_nat k)) n o = (page terms (k - 1), Ok tt).
Proof.
  induction n as [|n IH]; intros o H L; [lia|]. cbn [print_loop]. destruct (Z.eqb_spec (Z.of_nat o) (Z.of_nat k - 1)) as [E|N].
  - rewrite (py_index_nth terms o []) by lia. rewrite print_loop_none by lia. rewrite app_nil_r. unfold page. replace (k - 1)%nat with o by lia. replace (Z.of_nat o + 1)%Z with (Z.of_nat (S o)) by lia. reflexivity.
  - apply IH; lia.
Qed.
Lemma zs_inj a : forall b, zs a = zs b -> a = b.
Proof. induction a as [|x a IH]; intros [|y b] H; try discriminate H; [reflexivity|]. cbn [zs map] in H. injection H as E H. f_equal; [lia|apply IH, H]. Qed.
Lemma printed_W g M funs e m l : lsum (printed_prefactors e m (map term_str (map (conc g M funs) l))) = W (e, m) l.
Proof.
  unfold printed_prefactors, W. induction l as [|[[e' ks] c] l IH]; [reflexivity|]. cbn [map flat_map term_str conc dt_order dt_pref dt_eta dt_eps]. rewrite lsum_app, IH. clear IH.
  cbn [lsum fold_right fst snd]. f_equal. unfold ind. destruct (Z.eqb_spec (Z.of_nat e') (Z.of_nat e)) as [E|N].
  - destruct (list_eq_dec Z.eq_dec (zs ks) (map Z.of_nat m)) as [E'|N'].
    + apply zs_inj in E'. apply Nat2Z.inj in E. subst. destruct (nsig_dec (e, m) (e, m)); [cbn; ring|congruence].
    + destruct (nsig_dec (e', ks) (e, m)) as [E2|]; [|cbn; ring]. injection E2 as -> ->. contradiction N'. reflexivity.
  - destruct (nsig_dec (e', ks) (e, m)) as [E2|]; [|cbn; ring]. injection E2 as -> ->. contradiction N. reflexivity.
Qed.
Section Printed.
Variables (solve : rmat2 -> vec -> res vec) (g : pyfun) (in0 hy0 : vec) (hess0 : rmat2) (order : nat) (terms : list (list dterm)) (fs : list (option R -> etafun)).
Hypothesis Ho : (0 < order)%nat.
Hypothesis HB : build_order solve g in0 hy0 hess0 (Z.of_nat order) = Ok (terms, fs).
Lemma built_levels : length terms = order /\ forall j, (j < order)%nat -> exists l, level (S j) l /\ nth j terms [] = map (conc g (S order) (with_default (firstn j fs))) l.
Proof.
  destruct (build_order_ok solve g in0 hy0 hess0 order Ho) as [terms' [fs' [E [L [_ H]]]]]. rewrite HB in E. apply (f_equal (fun r => match r with Ok a => a | Raise _ => (terms, fs) end)) in E. injection E as <- <-.
  split; [exact L|]. intros j Hj. destruct (H j Hj) as [l [A [B _]]]. exists l. split; [exact A|]. apply nth_error_nth. exact B.
Qed.
Lemma print_pages : print_terms (Z.of_nat order) terms None = (flat_map (page terms) (seq 0 order), Ok tt) /\
  (forall k, (1 <= k <= order)%nat -> print_terms (Z.of_nat order) terms (Some (Z.of_nat k)) = (page terms (k - 1), Ok tt)) /\
  (forall k, (Z.of_nat order < k)%Z -> print_terms (Z.of_nat order) terms (Some k) = ([], Raise ValueError)) /\
  (forall k, (k <= 0)%Z -> print_terms (Z.of_nat order) terms (Some k) = ([], Ok tt)).
Proof.
  destruct built_levels as [L _]. unfold print_terms. rewrite Nat2Z.id. split; [apply print_loop_all; lia|]. split; [|split].
  - intros k Hk. destruct (Z.ltb_spec (Z.of_nat order) (Z.of_nat k)); [lia|]. apply print_loop_one; lia.
  - intros k Hk. destruct (Z.ltb_spec (Z.of_nat order) k); [reflexivity|lia].
  - intros k Hk. destruct (Z.ltb_spec (Z.of_nat order) k); [lia|]. apply print_loop_none. lia.
Qed.
Lemma print_order k out : (1 <= k <= order)%nat -> print_terms (Z.of_nat order) terms (Some (Z.of_nat k)) = (out, Ok tt) ->
  (exists rest, out = Heading (Z.of_nat k) :: rest /\ forall l, In l rest -> exists c e m, l = TermLine (Z.of_nat k) c (map Z.of_nat m) (Z.of_nat e) /\ of_order k e m) /\
  forall e m, of_order k e m -> printed_prefactors e m out <> [] /\ lsum (printed_prefactors e m out) = faa_di_bruno k e m.
Proof.
  intros Hk E. destruct print_pages as [_ [P _]]. rewrite (P k Hk) in E. injection E as <-. destruct built_levels as [_ B]. destruct (B (k - 1)%nat ltac:(lia)) as [l [Hl El]]. unfold page. rewrite El. replace (S (k - 1)) with k in * by lia.
  pose proof (level_ok _ _ Hl) as F. split.
  - eexists. split; [reflexivity|]. intros x Hx. apply in_map_iff in Hx. destruct Hx as [t [<- Ht]]. apply in_map_iff in Ht. destruct Ht as [[[e ks] c] [<- Ha]]. destruct (proj1 (Forall_forall _ _) F _ Ha) as [Lk Wk].
    exists c, e, ks. split; [|split; [exact Lk|rewrite total_order_nweight; exact Wk]]. cbn [term_str conc dt_order dt_pref dt_eta dt_eps]. rewrite Lk. reflexivity.
  - intros e m [Lm Wm]. rewrite total_order_nweight in Wm. change (printed_prefactors e m (Heading (Z.of_nat k) :: map term_str (map (conc g (S order) (with_default (firstn (k - 1) fs))) l))) with (printed_prefactors e m (map term_str (map (conc g (S order) (with_default (firstn (k - 1) fs))) l))).
    assert (Q : lsum (printed_prefactors e m (map term_str (map (conc g (S order) (with_default (firstn (k - 1) fs))) l))) = faa_di_bruno k e m) by (rewrite printed_W; apply level_faa; assumption).
    split; [|exact Q]. intros N. rewrite N in Q. cbn in Q. pose proof (faa_pos k e m). lra.
Qed.
End Printed.
