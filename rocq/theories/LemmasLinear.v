(** First order sensitivity: the implicit derivative. *)
From Coq Require Import String Reals List Bool Arith ZArith Lia Lra Permutation.
From Coquelicot Require Import Coquelicot.
From Verif Require Import Res Num Nd RSum ModelAutograd ModelSparse ModelParameters ModelMatrix ModelSimplex ModelProjection ModelDict ModelObjective ModelSensitivity.
From Verif Require Import SpecParameters SpecDict SpecObjective LemmasParameters LemmasDict LemmasMatrix LemmasObjective LemmasPrecond LemmasTwoParam SpecSmooth SpecSensitivity LemmasSmooth LemmasDirDeriv LemmasTerms LemmasTermsNat LemmasSensCalc LemmasSens LemmasSensMain LemmasSensClass.
Import List ListNotations.
Open Scope R_scope.
Set Bullet Behavior "Strict Subproofs".

(** ---- calculus ---- *)
Lemma stationary_curve n p U F (c c' : R -> list R) d i : open_in (n + p) U -> Ck 2 (n + p) U F -> U (c 0) -> (forall s, length (c s) = (n + p)%nat) -> 0 < d ->
  (forall k, (k < n + p)%nat -> is_derive (fun s => nth k (c s) 0) 0 (nth k (c' 0) 0)) -> (i < n)%nat ->
  (forall t, Rabs t < d -> ad_partial F i (c t) = 0) ->
  rsum (n + p) (fun k => nth k (c' 0) 0 * ad_partial (ad_partial F i) k (c 0)) = 0.
Proof.
  intros O C U0 L Hd D Hi Z0. destruct (Ck_partial 1 (n + p) U F i O C) as [_ C1]; [lia|]. pose proof (curve_rule_C1 (n + p) U (ad_partial F i) c c' 0 O C1 U0 L D) as R1.
  apply is_derive_unique in R1. etransitivity; [symmetry; exact R1|]. apply is_derive_unique. apply (is_derive_ext_loc (fun _ => 0)).
  - exists (mkposreal d Hd). intros t Ht. symmetry. apply Z0. change (Rabs (t - 0) < d) in Ht. replace t with (t - 0) by ring. exact Ht.
  - exact (is_derive_const (V := R_NormedModule) 0 0).
Qed.
(** curves *)
Lemma implicit_curve n p U F delta E hy0 deps K i : open_in (n + p) U -> Ck 2 (n + p) U F -> curve_with_derivatives n K delta E -> (0 < K)%nat -> 0 < delta ->
  U (E 0%nat 0 ++ hy0) -> length hy0 = p -> length deps = p -> optimum_curve n F delta E hy0 deps -> (i < n)%nat ->
  rsum n (fun j => ad_partial (ad_partial F i) j (E 0%nat 0 ++ hy0) * nth j (E 1%nat 0) 0) +
  rsum p (fun l => ad_partial (ad_partial F i) (n + l) (E 0%nat 0 ++ hy0) * nth l deps 0) = 0.
Proof.
  intros O C [LE DE] HK Hd U0 Lh Ld St Hi.
  assert (B : along E hy0 deps 0 = E 0%nat 0 ++ hy0) by (unfold along; rewrite move_0; reflexivity).
  pose proof (stationary_curve n p U F (along E hy0 deps) (fun t => E 1%nat t ++ deps) delta i O C) as S. cbv beta in S. rewrite B in S. unfold vec in *.
  etransitivity; [|apply S; try assumption].
  - rewrite rsum_split. f_equal; apply rsum_ext; intros k Hk.
    + rewrite app_nth1 by (rewrite LE; exact Hk). ring.
    + rewrite app_nth2 by (rewrite LE; lia). rewrite LE. replace (n + k - n)%nat with k by lia. ring.
  - intros s. unfold along. rewrite app_length, LE, move_length, Lh. reflexivity.
  - intros k Hk. destruct (Nat.lt_ge_cases k n) as [Hkn|Hkn].
    + rewrite app_nth1 by (rewrite LE; exact Hkn). apply (is_derive_ext (fun s => nth k (E 0%nat s) 0)).
      * intros t. unfold along. rewrite app_nth1 by (rewrite LE; exact Hkn). reflexivity.
      * apply DE; [exact HK|rewrite Rabs_R0; exact Hd|exact Hkn].
    + rewrite app_nth2 by (rewrite LE; lia). rewrite LE. apply (is_derive_ext (fun s => nth (k - n) hy0 0 + s * nth (k - n) deps 0)).
      * intros t. unfold along. rewrite app_nth2 by (rewrite LE; lia). rewrite LE. rewrite move_nth by (rewrite Lh; lia). reflexivity.
      * auto_derive; [exact I|ring].
  - intros t Ht. apply ad_partial_eq, St; assumption.
Qed.
(** maps *)
Definition unitv (p l : nat) : list R := map (fun k => if Nat.eqb k l then 1 else 0) (seq 0 p).
Lemma move_unit p hy0 l t : length hy0 = p -> (l < p)%nat -> move hy0 (unitv p l) t = upd hy0 l (nth l hy0 0 + t).
Proof.
  intros L Hl. apply list_eq_nth; [rewrite move_length, upd_length; reflexivity|]. rewrite move_length. intros k Hk. rewrite move_nth by exact Hk. rewrite nth_upd by lia. unfold unitv. rewrite nth_map_seq by lia. rewrite Nat.eqb_sym.
  destruct (Nat.eqb_spec l k) as [->|N]; ring.
Qed.
Lemma implicit_map n p U F hy0 opt J i l : open_in (n + p) U -> Ck 2 (n + p) U F -> U (opt hy0 ++ hy0) -> length hy0 = p ->
  optimum_map n p F hy0 opt -> is_jacobian n p opt hy0 J -> (i < n)%nat -> (l < p)%nat ->
  rsum n (fun j => ad_partial (ad_partial F i) j (opt hy0 ++ hy0) * J j l) + ad_partial (ad_partial F i) (n + l) (opt hy0 ++ hy0) = 0.
Proof.
  intros O C U0 Lh [Lo [d [Hd St]]] HJ Hi Hl. set (c := fun t => opt (move hy0 (unitv p l) t) ++ move hy0 (unitv p l) t).
  assert (B : c 0 = opt hy0 ++ hy0) by (unfold c; rewrite move_0; reflexivity).
  pose proof (stationary_curve n p U F c (fun t => map (fun j => J j l) (seq 0 n) ++ unitv p l) d i O C) as S. cbv beta in S. rewrite B in S. unfold vec in *.
  assert (Lu : length (unitv p l) = p) by (unfold unitv; rewrite map_length, seq_length; reflexivity).
  assert (Lm : length (map (fun j => J j l) (seq 0 n)) = n) by (rewrite map_length, seq_length; reflexivity).
  etransitivity; [|apply S; try assumption].
  - rewrite rsum_split. f_equal.
    + apply rsum_ext. intros k Hk. rewrite app_nth1 by (rewrite Lm; exact Hk). rewrite nth_map_seq by exact Hk. ring.
    + rewrite (rsum_ext p _ (fun k => if Nat.eqb k l then ad_partial (ad_partial F i) (n + k) (opt hy0 ++ hy0) else 0)).
      * symmetry. etransitivity; [apply (rsum_single p l (fun k => if Nat.eqb k l then ad_partial (ad_partial F i) (n + k) (opt hy0 ++ hy0) else 0)); [exact Hl|]|].
        -- intros k _ Nk. destruct (Nat.eqb_spec k l); [contradiction|reflexivity].
        -- cbv beta. rewrite Nat.eqb_refl. reflexivity.
      * intros k Hk. rewrite app_nth2 by (rewrite Lm; lia). rewrite Lm. replace (n + k - n)%nat with k by lia. unfold unitv. rewrite nth_map_seq by exact Hk. destruct (Nat.eqb k l); ring.
  - intros s. unfold c. rewrite app_length, Lo, move_length, Lh. reflexivity.
  - intros k Hk. destruct (Nat.lt_ge_cases k n) as [Hkn|Hkn].
    + rewrite app_nth1 by (rewrite Lm; exact Hkn). rewrite nth_map_seq by exact Hkn. pose proof (HJ k l Hkn Hl) as D. unfold is_partial in D.
      apply (is_derive_ext (fun s => nth k (opt (upd hy0 l (nth l hy0 0 + s))) 0)).
      * intros t. unfold c. rewrite app_nth1 by (rewrite Lo; exact Hkn). rewrite move_unit by assumption. reflexivity.
      * replace (J k l) with (1 * J k l) by ring. apply (is_derive_comp (fun u => nth k (opt (upd hy0 l u)) 0) (fun s => nth l hy0 0 + s)).
        -- rewrite Rplus_0_r. exact D.
        -- auto_derive; [exact I|ring].
    + rewrite app_nth2 by (rewrite Lm; lia). rewrite Lm. apply (is_derive_ext (fun s => nth (k - n) hy0 0 + s * nth (k - n) (unitv p l) 0)).
      * intros t. unfold c. rewrite app_nth2 by (rewrite Lo; lia). rewrite Lo. rewrite move_nth by (rewrite Lh; lia). reflexivity.
      * auto_derive; [exact I|ring].
  - intros t Ht. apply ad_partial_eq. unfold c. apply St; [|exact Hi]. split; [rewrite move_length; exact Lh|]. intros k Hk. rewrite move_nth by (rewrite Lh; exact Hk).
    replace (nth k hy0 0 + t * nth k (unitv p l) 0 - nth k hy0 0) with (t * nth k (unitv p l) 0) by ring. unfold unitv. rewrite nth_map_seq by exact Hk.
    destruct (Nat.eqb k l); [rewrite Rmult_1_r; exact Ht|rewrite Rmult_0_r, Rabs_R0; exact Hd].
Qed.
(** the part of the objective that depends on the hyperparameter has the same mixed derivatives *)
Lemma firstn_upd n (z : list R) i t : (n <= i)%nat -> firstn n (upd z i t) = firstn n z.
Proof. revert z i. induction n as [|n IH]; intros z i Hi; [reflexivity|]. destruct z as [|a z], i; cbn [upd firstn]; try lia; try reflexivity. rewrite IH by lia. reflexivity. Qed.
Lemma split_cross n p U F h i l z : open_in (n + p) U -> Ck 2 (n + p) U F -> Ck 2 (n + p) U h -> split_off n U F h -> (i < n)%nat -> (l < p)%nat -> U z ->
  ad_partial (ad_partial F i) (n + l) z = ad_partial (ad_partial h i) (n + l) z.
Proof.
  intros O CF Ch [a Ha] Hi Hl Uz. destruct (Ck_partial 1 _ U F i O CF) as [DF CF1]; [lia|]. destruct (Ck_partial 1 _ U h i O Ch) as [Dh Ch1]; [lia|].
  set (D := fun y => Derive (fun t => a (firstn n (upd y i t))) (nth i y 0)).
  assert (HD : forall y, U y -> ad_partial F i y = D y + ad_partial h i y).
  { intros y Uy. pose proof (DF y Uy) as D1. pose proof (Dh y Uy) as D2. unfold is_partial in D1, D2.
    assert (D3 : is_derive (fun t => a (firstn n (upd y i t))) (nth i y 0) (ad_partial F i y - ad_partial h i y)).
    { apply (is_derive_ext_loc (fun t => F (upd y i t) - h (upd y i t))).
      - destruct (open_locally_upd (n + p) U y i O Uy) as [d [Hd Hy]]. exists (mkposreal d Hd). intros t Ht. change (F (upd y i t) - h (upd y i t) = a (firstn n (upd y i t))). rewrite (Ha _ (Hy t Ht)). ring.
      - apply @is_derive_minus; assumption. }
    assert (Q : D y = ad_partial F i y - ad_partial h i y) by (unfold D; apply is_derive_unique; exact D3). rewrite Q. ring. }
  destruct (Ck_partial 0 _ U (ad_partial F i) (n + l) O CF1) as [DF2 _]; [lia|]. destruct (Ck_partial 0 _ U (ad_partial h i) (n + l) O Ch1) as [Dh2 _]; [lia|].
  apply ad_partial_eq. pose proof (Dh2 z Uz) as D2. unfold is_partial in *. apply (is_derive_ext_loc (fun t => D z + ad_partial h i (upd z (n + l) t))).
  - destruct (open_locally_upd (n + p) U z (n + l) O Uz) as [d [Hd Hy]]. exists (mkposreal d Hd). intros t Ht. rewrite (HD _ (Hy t Ht)). f_equal. unfold D.
    assert (Q : nth i (upd z (n + l) (t : R)) 0 = nth i z 0) by (rewrite nth_upd by (destruct (O z Uz); lia); destruct (Nat.eqb_spec i (n + l)); [lia|reflexivity]).
    etransitivity; [|apply (f_equal (fun w => Derive (fun t0 : R => a (firstn n (upd (upd z (n + l) (t : R)) i t0))) w)); symmetry; exact Q].
    apply Derive_ext. intros s. rewrite (upd_comm z (n + l) i) by lia. rewrite (firstn_upd n (upd z i s) (n + l)) by lia. reflexivity.
  - replace (ad_partial (ad_partial h i) (n + l) z) with (0 + ad_partial (ad_partial h i) (n + l) z) by ring. apply @is_derive_plus; [apply @is_derive_const|exact D2].
Qed.

(** ---- the class ---- *)
Lemma joint_partial12 f st b1 b2 n x1 x2 i j : length x1 = n -> (i < n)%nat ->
  ad_partial (ad_partial (joint f st b1 b2 n) i) (n + j) (x1 ++ x2) = ad_partial (fun z => ad_partial (fun y => real2 f st b1 b2 tt y z) i x1) j x2.
Proof.
  intros L Hi. unfold ad_partial at 1 3. rewrite app_nth2 by lia. replace (n + j - length x1)%nat with j by lia. apply Derive_ext. intros t. rewrite <- L at 2. rewrite upd_app2. apply joint_partial1; assumption.
Qed.
(** two solutions of the same linear system *)
Lemma same_solution n H (x y : nat -> R) (b : nat -> R) : nonsingular n H -> (forall i, (i < n)%nat -> rsum n (fun k => rm_get H i k * x k) + b i = 0) ->
  (forall i, (i < n)%nat -> rsum n (fun k => rm_get H i k * y k) + b i = 0) -> forall i, (i < n)%nat -> x i = y i.
Proof.
  intros [_ [_ I]] HX HJ i Hi. specialize (I (map (fun k => x k - y k) (seq 0 n))). rewrite map_length, seq_length in I. specialize (I eq_refl).
  assert (Z0 : forall i, (i < n)%nat -> nth i (map (fun k => x k - y k) (seq 0 n)) 0 = 0).
  { apply I. intros a Ha. transitivity (rsum n (fun k => rm_get H a k * x k) - rsum n (fun k => rm_get H a k * y k)).
    - rewrite <- rsum_minus. apply rsum_ext. intros k Hk. rewrite nth_map_seq by exact Hk. ring.
    - specialize (HX a Ha). specialize (HJ a Ha). lra. }
  specialize (Z0 i Hi). rewrite nth_map_seq in Z0 by exact Hi. lra.
Qed.
Section Linear.
Variables (obj_f hyp_f : pair_state -> unit -> res R) (Chol : Type) (cho_factor : rmat2 -> res Chol) (cho_solve : Chol -> rmat2 -> res rmat2)
  (trace : tparam -> list R -> tparam) (trace_two : pair_state -> list R -> list R -> pair_state).
Hypothesis Hcho : cho_solves cho_factor cho_solve.
Hypothesis Htrace : forall t y, traced t (trace t y).
Hypothesis Htrace_two : forall s x y, two_traced true false s (trace_two s x y).
Variables (st0 : pair_state) (n p : nat) (U : list R -> Prop) (in0 hy0 : list R) (H : rmat2).
Hypothesis O : open_in (n + p) U.
Hypothesis HC : Ck 2 (n + p) U (joint obj_f st0 true false n).
Hypothesis Hh : Ck 2 (n + p) U (joint hyp_f st0 true false n).
Hypothesis Hsplit : split_off n U (joint obj_f st0 true false n) (joint hyp_f st0 true false n).
Hypothesis Ln : length in0 = n.
Hypothesis Lp : length hy0 = p.
Hypothesis U0 : U (in0 ++ hy0).
Hypothesis HH : is_hessian n U (joint obj_f st0 true false n) (in0 ++ hy0) H.
Hypothesis Hns : nonsingular n H.

(** the constructor and set_base_values, for a Hessian that is the true one *)
Lemma linear_made hess0 st2 l : (match hess0 with None => True | Some h => rm_rows h = n /\ rm_cols h = n /\ forall i j, (i < n)%nat -> (j < n)%nat -> rm_get h i j = rm_get H i j end) ->
  linear_set_base_values obj_f hyp_f Chol cho_factor trace true false cho_solve trace_two st0 in0 hy0 hess0 = (st2, Ok l) ->
  set_both st0 (fin_arg in0) (fin_arg hy0) true false = (st2, Ok tt) /\ li_in0 l = in0 /\ li_hy0 l = hy0 /\ rm_rows (li_sens l) = n /\ rm_cols (li_sens l) = p /\
  forall i c, (i < n)%nat -> (c < p)%nat -> rsum n (fun j => ad_partial (ad_partial (joint obj_f st0 true false n) i) j (in0 ++ hy0) * rm_get (li_sens l) j c) +
    ad_partial (ad_partial (joint obj_f st0 true false n) i) (n + c) (in0 ++ hy0) = 0.
Proof.
  intros Hh0 Hi. unfold linear_set_base_values in Hi.
  destruct (set_base_values obj_f Chol cho_factor trace true false st0 in0 hy0 hess0) as [s [[h ch]|e]] eqn:B; [|discriminate].
  assert (B' : set_both st0 (fin_arg in0) (fin_arg hy0) true false = (s, Ok tt) /\ history2 st0 s /\ cho_factor h = Ok ch /\ rm_rows h = n /\ rm_cols h = n /\
    forall i j, (i < n)%nat -> (j < n)%nat -> rm_get h i j = rm_get H i j).
  { destruct hess0 as [h0|].
    - unfold set_base_values, to_base in B. destruct (set_both st0 (fin_arg in0) (fin_arg hy0) true false) as [s1 [[]|e]] eqn:B1; [|discriminate]. cbn [rbind] in B.
      destruct (cho_factor h0) as [c0|] eqn:Ec; cbn [rbind] in B; [|discriminate].
      assert (Es : s1 = s) by (apply (f_equal fst) in B; cbn [fst] in B; destruct s1; exact B). subst s1. apply (f_equal snd) in B. cbn [snd] in B.
      assert (Eh : h0 = h) by (apply (f_equal (fun r => match r with Ok (a, _) => a | Raise _ => h end)) in B; exact B).
      assert (Ech : c0 = ch) by (apply (f_equal (fun r => match r with Ok (_, b) => b | Raise _ => ch end)) in B; exact B). subst h0 c0.
      split; [reflexivity|]. split; [|split; [exact Ec|exact Hh0]]. pose proof (set_both_history st0 (fin_arg in0) (fin_arg hy0) true false) as Hs. rewrite B1 in Hs. exact Hs.
    - apply (set_base_ok obj_f Chol cho_factor trace false Htrace) in B. destruct B as [B1 [B2 [B3 [B4 [B5 B6]]]]]. rewrite Ln in *. repeat (split; [assumption|]).
      intros i j Hi2 Hj. rewrite B6 by assumption. symmetry. apply (hessian_entries n p U _ _ _ O U0 HH); assumption. }
  clear B. destruct B' as [B1 [B2 [B3 [B4 [B5 B6]]]]].
  destruct (two_method_real hyp_f trace_two HessianFree1Vector2 s in0 hy0 tt) as [s2 [cross|e]] eqn:TM; [|discriminate].
  destruct (cho_solve ch cross) as [X|] eqn:EX; cbn [rbind] in Hi; [|discriminate].
  assert (Es : s2 = st2) by (apply (f_equal fst) in Hi; exact Hi). subst s2. apply (f_equal snd) in Hi. cbn [snd] in Hi. apply Ok_inj in Hi. subst l. cbn [li_in0 li_hy0 li_sens mscale rm_rows rm_cols rm_get].
  pose proof (two_results _ _ _ _ _ _ _ _ _ TM) as Ecr. cbn [kind first_is_free second_is_free] in Ecr. rewrite (real2_fun hyp_f st0 s true false tt B2) in Ecr.
  assert (NS : nonsingular n h) by (apply (nonsingular_ext n H); assumption).
  assert (Sy : symmetric n h).
  { intros i j Hi Hj. rewrite !B6 by assumption. rewrite !(hessian_entries n p U _ _ _ O U0 HH) by assumption. apply (mixed_partials (n + p) U); try assumption; lia. }
  assert (Rc : rm_rows cross = n) by (rewrite Ecr; cbn [ag_two rm_rows]; exact Ln). assert (Cc : rm_cols cross = p) by (rewrite Ecr; cbn [ag_two rm_cols]; exact Lp).
  destruct (Hcho n h ch cross B3 NS Sy Rc) as [X' [E1 [E2 [E3 E4]]]]. rewrite EX in E1. apply Ok_inj in E1. subst X'. rewrite Cc in *.
  split; [|split; [reflexivity|split; [reflexivity|split; [exact E2|split; [exact E3|]]]]].
  - unfold two_method_real, two_call, method_spec, cache_and_eval in TM. destruct (set_both (trace_two s in0 hy0) (fin_arg in0) (fin_arg hy0) true false) as [s3 [[]|e]] eqn:B7; [|discriminate].
    assert (s3 = st2) by (apply (f_equal fst) in TM; exact TM). subst s3.
    pose proof (set_both_idem st0 _ _ _ _ _ B1 (trace_two s in0 hy0)) as Q. rewrite B7 in Q. rewrite B1. symmetry. apply Q.
    eapply history2_trans; [exact B2|apply two_traced_history with (f1 := true) (f2 := false), Htrace_two].
  - intros i c Hi Hc. rewrite (split_cross n p U _ _ i c (in0 ++ hy0) O HC Hh Hsplit Hi Hc U0). rewrite joint_partial12 by assumption.
    pose proof (E4 i c Hi Hc) as Q. rewrite Ecr in Q. cbn [ag_two rm_get] in Q. rewrite <- Q.
    rewrite (rsum_ext n _ (fun j => -1 * (rm_get h i j * rm_get X j c))).
    + rewrite rsum_scal_l. ring.
    + intros j Hj. rewrite B6 by assumption. rewrite (hessian_entries n p U _ _ _ O U0 HH) by assumption. rewrite (mixed_partials (n + p) U _ i j) by (try assumption; lia). ring.
Qed.
Lemma hessian_symmetric i j : (i < n)%nat -> (j < n)%nat -> rm_get H i j = ad_partial (ad_partial (joint obj_f st0 true false n) i) j (in0 ++ hy0).
Proof. intros Hi Hj. rewrite (hessian_entries n p U _ _ _ O U0 HH) by assumption. apply (mixed_partials (n + p) U); try assumption; lia. Qed.

Variables (hess0 : option rmat2) (st2 : pair_state) (l : linear).
Hypothesis Hhess : match hess0 with None => True | Some h => rm_rows h = n /\ rm_cols h = n /\ forall i j, (i < n)%nat -> (j < n)%nat -> rm_get h i j = rm_get H i j end.
Hypothesis Hmade : linear_set_base_values obj_f hyp_f Chol cho_factor trace true false cho_solve trace_two st0 in0 hy0 hess0 = (st2, Ok l).

Lemma linear_jacobian opt J : opt hy0 = in0 -> optimum_map n p (joint obj_f st0 true false n) hy0 opt -> is_jacobian n p opt hy0 J ->
  set_both st0 (fin_arg in0) (fin_arg hy0) true false = (st2, Ok tt) /\
  rm_rows (get_dinput_dhyper l) = n /\ rm_cols (get_dinput_dhyper l) = p /\ (forall i c, (i < n)%nat -> (c < p)%nat -> rm_get (get_dinput_dhyper l) i c = J i c) /\
  forall new_hyper, length new_hyper = p -> exists r, linear_predict l new_hyper = Ok r /\ length r = n /\
    forall i, (i < n)%nat -> nth i r 0 = nth i in0 0 + rsum p (fun c => J i c * (nth c new_hyper 0 - nth c hy0 0)).
Proof.
  intros Eo Om HJ. destruct (linear_made hess0 st2 l Hhess Hmade) as [A1 [A2 [A3 [A4 [A5 A6]]]]]. unfold get_dinput_dhyper.
  assert (EJ : forall i c, (i < n)%nat -> (c < p)%nat -> rm_get (li_sens l) i c = J i c).
  { intros i c Hi Hc. apply (same_solution n H (fun k => rm_get (li_sens l) k c) (fun k => J k c) (fun i => ad_partial (ad_partial (joint obj_f st0 true false n) i) (n + c) (in0 ++ hy0)) Hns); [| |exact Hi].
    - intros a Ha. etransitivity; [|exact (A6 a c Ha Hc)]. f_equal. apply rsum_ext. intros k Hk. rewrite hessian_symmetric by assumption. reflexivity.
    - intros a Ha. pose proof (implicit_map n p U (joint obj_f st0 true false n) hy0 opt J a c O HC) as Q. rewrite Eo in Q. etransitivity; [|exact (Q U0 Lp Om HJ Ha Hc)]. f_equal. apply rsum_ext. intros k Hk. rewrite hessian_symmetric by assumption. reflexivity. }
  split; [exact A1|]. split; [exact A4|]. split; [exact A5|]. split; [exact EJ|]. intros new_hyper Lnew. unfold linear_predict, predict_input. rewrite A2, A3, Lp, Lnew, Nat.eqb_refl. cbn [negb].
  rewrite mat_vec_ok by (rewrite map2_length; lia). cbn [rbind]. rewrite apply_mat_length, A4, Ln, Nat.eqb_refl. eexists. split; [reflexivity|].
  split; [rewrite vadd_length by (rewrite apply_mat_length; lia); exact Ln|]. intros i Hi. rewrite vadd_nth by (rewrite apply_mat_length; lia). f_equal. rewrite apply_mat_get by (rewrite A4; exact Hi). rewrite A5.
  apply rsum_ext. intros c Hc. rewrite EJ by assumption. f_equal. apply (nth_map2 Rminus); lia.
Qed.
Lemma linear_curve K delta E deps : E 0%nat 0 = in0 -> curve_with_derivatives n K delta E -> (0 < K)%nat -> 0 < delta -> length deps = p -> optimum_curve n (joint obj_f st0 true false n) delta E hy0 deps ->
  mat_vec (get_dinput_dhyper l) deps = Ok (E 1%nat 0) /\ linear_predict l (move hy0 deps 1) = Ok (vadd in0 (E 1%nat 0)).
Proof.
  intros Eo Cv HK Hd Ld St. destruct (linear_made hess0 st2 l Hhess Hmade) as [A1 [A2 [A3 [A4 [A5 A6]]]]]. unfold get_dinput_dhyper. destruct Cv as [LE DE].
  assert (M : apply_mat (li_sens l) deps = E 1%nat 0).
  { apply list_eq_nth; [rewrite apply_mat_length, A4, LE; reflexivity|]. rewrite apply_mat_length, A4. intros i Hi. rewrite apply_mat_get by (rewrite A4; exact Hi). rewrite A5.
    apply (same_solution n H (fun k => rsum p (fun c => rm_get (li_sens l) k c * nth c deps 0)) (fun k => nth k (E 1%nat 0) 0)
      (fun i => rsum p (fun c => ad_partial (ad_partial (joint obj_f st0 true false n) i) (n + c) (in0 ++ hy0) * nth c deps 0)) Hns); [| |exact Hi].
    - intros a Ha. transitivity (rsum p (fun c => (rsum n (fun k => rm_get H a k * rm_get (li_sens l) k c) + ad_partial (ad_partial (joint obj_f st0 true false n) a) (n + c) (in0 ++ hy0)) * nth c deps 0)).
      + rewrite (rsum_ext p (fun c => (rsum n (fun k => rm_get H a k * rm_get (li_sens l) k c) + ad_partial (ad_partial (joint obj_f st0 true false n) a) (n + c) (in0 ++ hy0)) * nth c deps 0)
          (fun c => rsum n (fun k => rm_get H a k * rm_get (li_sens l) k c * nth c deps 0) + ad_partial (ad_partial (joint obj_f st0 true false n) a) (n + c) (in0 ++ hy0) * nth c deps 0)) by (intros c Hc; rewrite rsum_scal_r; ring).
        rewrite rsum_plus. f_equal. rewrite (rsum_swap p n (fun c k => rm_get H a k * rm_get (li_sens l) k c * nth c deps 0)). apply rsum_ext. intros k Hk. rewrite <- rsum_scal_l. apply rsum_ext. intros c Hc. ring.
      + apply rsum_zero. intros c Hc. rewrite (rsum_ext n _ (fun j => ad_partial (ad_partial (joint obj_f st0 true false n) a) j (in0 ++ hy0) * rm_get (li_sens l) j c)) by (intros k Hk; rewrite hessian_symmetric by assumption; reflexivity).
        rewrite (A6 a c Ha Hc). ring.
    - intros a Ha. pose proof (implicit_curve n p U (joint obj_f st0 true false n) delta E hy0 deps K a O HC (conj LE DE) HK Hd) as Q. rewrite Eo in Q. etransitivity; [|exact (Q U0 Lp Ld St Ha)]. f_equal. apply rsum_ext. intros k Hk. rewrite hessian_symmetric by assumption. reflexivity. }
  split; [rewrite mat_vec_ok by lia; rewrite M; reflexivity|]. unfold linear_predict, predict_input. rewrite A2, A3, move_length, Nat.eqb_refl. cbn [negb].
  assert (Ed : map2 Rminus (move hy0 deps 1) hy0 = deps).
  { apply list_eq_nth; [rewrite map2_length; rewrite move_length; lia|]. rewrite map2_length by (rewrite move_length; lia). rewrite move_length. intros c Hc. etransitivity; [apply (nth_map2 Rminus) with (da := 0) (db := 0); rewrite ?move_length; lia|]. rewrite move_nth by exact Hc. ring. }
  rewrite Ed, mat_vec_ok by lia. cbn [rbind]. rewrite M, LE, Ln, Nat.eqb_refl. reflexivity.
Qed.
End Linear.
