(** The algebra of derivative terms: the derivative array, construction, differentiation, consolidation and evaluation. *)
From Coq Require Import String Reals List Bool Arith ZArith Lia Lra Permutation.
From Coquelicot Require Import Coquelicot.
From Verif Require Import Res Num Nd RSum ModelAutograd ModelSparse ModelParameters ModelMatrix ModelSimplex ModelProjection ModelDict ModelObjective ModelSensitivity.
Import List ListNotations.
Open Scope R_scope.
Set Bullet Behavior "Strict Subproofs".

Lemma py_index_nat {A} (l : list A) i : py_index l (Z.of_nat i) = match nth_error l i with Some a => Ok a | None => Raise IndexError end.
Proof. unfold py_index. destruct (Z.ltb_spec (Z.of_nat i) 0); [lia|]. destruct (Z.ltb_spec (Z.of_nat i) 0); [lia|]. rewrite Nat2Z.id. reflexivity. Qed.

(** ---- the derivative array ---- *)
Definition wrap (f : pyfun) (argnum : nat) : pyfun := fun argv =>
  match rev (skipn 2 argv) with
  | [] => Raise TypeError
  | v :: old => make_jvp f argnum (firstn 2 argv ++ rev old) v
  end.
Lemma append_jvp_2 f a : (a < 2)%nat -> append_jvp f 2 a = Ok (wrap f a).
Proof. intros H. unfold append_jvp, rassert. destruct (Nat.ltb_spec a 2); [reflexivity|lia]. Qed.
Fixpoint Jx1 (f : pyfun) (i : nat) : pyfun := match i with O => f | S i' => wrap (Jx1 f i') 0 end.
Fixpoint Jx2 (f : pyfun) (j : nat) : pyfun := match j with O => f | S j' => wrap (Jx2 f j') 1 end.
Definition J (f : pyfun) (i j : nat) : pyfun := Jx2 (Jx1 f i) j.
Definition jrow (f : pyfun) (order i : nat) : list pyfun := map (J f i) (seq 0 (S order)).
Definition jarray (f : pyfun) (order : nat) : list (list pyfun) := map (jrow f order) (seq 0 order).

Lemma gen_x2_ok f n m : gen_x2 n (map (Jx2 f) (seq 0 (S m))) m = Ok (map (Jx2 f) (seq 0 (S (m + n)))).
Proof.
  revert m. induction n as [|n IH]; intros m; [rewrite Nat.add_0_r; reflexivity|]. cbn [gen_x2]. rewrite py_index_nat.
  rewrite (nth_error_nth' (map (Jx2 f) (seq 0 (S m))) f) by (rewrite map_length, seq_length; lia). cbn [rbind].
  rewrite append_jvp_2 by lia. cbn [rbind].
  replace (nth m (map (Jx2 f) (seq 0 (S m))) f) with (Jx2 f m).
  2:{ change f with (Jx2 f 0%nat) at 3. rewrite (map_nth (Jx2 f)). rewrite seq_nth by lia. reflexivity. }
  change (wrap (Jx2 f m) 1) with (Jx2 f (S m)).
  replace (map (Jx2 f) (seq 0 (S m)) ++ [Jx2 f (S m)]) with (map (Jx2 f) (seq 0 (S (S m)))) by (rewrite (seq_S (S m) 0), map_app; reflexivity).
  rewrite IH. f_equal. f_equal. f_equal. lia.
Qed.
Lemma upd_app_last {A} (l : list A) a b : upd (l ++ [a]) (length l) b = l ++ [b].
Proof. induction l as [|c l IH]; [reflexivity|]. cbn. rewrite IH. reflexivity. Qed.
Lemma gen_x1_ok f order n m : (0 < m)%nat ->
  gen_x1 n order (map (jrow f order) (seq 0 m)) m = Ok (map (jrow f order) (seq 0 (m + n))).
Proof.
  revert m. induction n as [|n IH]; intros m Hm; [rewrite Nat.add_0_r; reflexivity|]. cbn [gen_x1]. destruct (Nat.ltb_spec 0 m); [|lia].
  replace (Z.of_nat m - 1)%Z with (Z.of_nat (m - 1)) by lia. rewrite py_index_nat.
  assert (E : nth_error (map (jrow f order) (seq 0 m)) (m - 1) = Some (jrow f order (m - 1))).
  { rewrite nth_error_map. rewrite (nth_error_nth' (seq 0 m) 0%nat) by (rewrite seq_length; lia). rewrite seq_nth by lia. reflexivity. }
  rewrite E. cbn [rbind]. assert (E0 : py_index (jrow f order (m - 1)) 0 = Ok (Jx1 f (m - 1))) by (unfold jrow; reflexivity).
  rewrite E0. cbn [rbind]. rewrite append_jvp_2 by lia. cbn [rbind]. change (wrap (Jx1 f (m - 1)) 0) with (Jx1 f (S (m - 1))). replace (S (m - 1)) with m by lia.
  rewrite py_index_nat. assert (L : length (map (jrow f order) (seq 0 m)) = m) by (rewrite map_length, seq_length; reflexivity).
  rewrite nth_error_app2 by lia. rewrite L, Nat.sub_diag. cbn [nth_error rbind].
  change [Jx1 f m] with (map (Jx2 (Jx1 f m)) (seq 0 1)). rewrite gen_x2_ok. cbn [rbind Nat.add].
  rewrite <- L at 3. rewrite upd_app_last.
  change (map (Jx2 (Jx1 f m)) (seq 0 (S order))) with (jrow f order m).
  replace (map (jrow f order) (seq 0 m) ++ [jrow f order m]) with (map (jrow f order) (seq 0 (S m))) by (rewrite (seq_S m 0), map_app; reflexivity).
  rewrite IH by lia. f_equal. f_equal. f_equal. lia.
Qed.
Lemma gen_array f order : (0 < order)%nat -> generate_two_term_derivative_array f (Z.of_nat order) = Ok (jarray f order).
Proof.
  intros H. unfold generate_two_term_derivative_array. rewrite Nat2Z.id. destruct order as [|o]; [lia|]. cbn [gen_x1 Nat.ltb Nat.leb rbind].
  change (Z.of_nat 0) with 0%Z. cbn [py_index Z.ltb Z.compare Z.to_nat nth_error rbind].
  change [f] with (map (Jx2 (Jx1 f 0)) (seq 0 1)). unfold py_index. cbn [Z.ltb Z.compare Z.to_nat nth_error rbind]. rewrite gen_x2_ok. cbn [rbind upd Nat.add].
  change (map (Jx2 (Jx1 f 0)) (seq 0 (S (S o)))) with (jrow f (S o) 0). change [jrow f (S o) 0] with (map (jrow f (S o)) (seq 0 1)).
  rewrite gen_x1_ok by lia. reflexivity.
Qed.
Lemma jarray_get f order i j : (i < order)%nat -> (j <= order)%nat ->
  exists row, nth_error (jarray f order) i = Some row /\ nth_error row j = Some (J f i j) /\ length row = S order.
Proof.
  intros Hi Hj. exists (jrow f order i). unfold jarray, jrow. rewrite !nth_error_map. rewrite (nth_error_nth' (seq 0 order) 0%nat) by (rewrite seq_length; lia).
  rewrite (nth_error_nth' (seq 0 (S order)) 0%nat) by (rewrite seq_length; lia). rewrite !seq_nth by lia. rewrite map_length, seq_length. repeat split.
Qed.
Lemma jarray_length f order : length (jarray f order) = order.
Proof. unfold jarray. rewrite map_length, seq_length. reflexivity. Qed.

(** ---- valid terms: what the constructor makes, for given functions ---- *)
Definition valid (funs : list etafun) (gders : list (list pyfun)) (t : dterm) : Prop :=
  make_term (dt_eps t) (dt_eta t) (dt_pref t) funs gders = Ok t.
Definition sig (t : dterm) : Z * list Z := (dt_eps t, dt_eta t).

Lemma make_term_inv eps eta pref funs gders t : make_term eps eta pref funs gders = Ok t ->
  exists row gf, py_index gders (zsum eta) = Ok row /\ py_index row eps = Ok gf /\
    t = DTerm eps eta pref funs gders (eps + weighted 1 eta) gf /\ Z.of_nat (length eta) = (eps + weighted 1 eta)%Z /\ (0 <= eps)%Z /\ Forall (fun k => (0 <= k)%Z) eta.
Proof.
  unfold make_term. intros H. destruct (py_index gders (zsum eta)) as [row|] eqn:E1; [|discriminate]. cbn [rbind] in H. destruct (py_index row eps) as [gf|] eqn:E2; [|discriminate]. cbn [rbind] in H.
  unfold rassert in H. destruct (Z.eqb_spec (Z.of_nat (length eta)) (eps + weighted 1 eta)); [|discriminate]. destruct (Z.leb_spec 0 eps); [|discriminate].
  destruct (forallb (fun k => (0 <=? k)%Z) eta) eqn:F; [|discriminate]. destruct (_ <=? _)%Z; [|discriminate]. destruct (_ <? _)%nat; [|discriminate]. destruct (forallb _ gders); [|discriminate].
  exists row, gf. apply (f_equal (fun r => match r with Ok a => a | Raise _ => t end)) in H. subst t. splits; try assumption; try reflexivity.
  apply Forall_forall. intros k Hk. rewrite forallb_forall in F. apply Z.leb_le, F, Hk.
Qed.
Lemma make_term_pref eps eta pref pref' funs gders t : make_term eps eta pref funs gders = Ok t ->
  make_term eps eta pref' funs gders = Ok (DTerm eps eta pref' funs gders (dt_order t) (dt_gfun t)).
Proof.
  intros H. destruct (make_term_inv _ _ _ _ _ _ H) as [row [gf [E1 [E2 [Et _]]]]]. unfold make_term in *. rewrite E1 in *. cbn [rbind] in *. rewrite E2 in *. cbn [rbind] in *.
  unfold rassert in *. repeat (destruct (_ : bool); [|discriminate H]). subst t. reflexivity.
Qed.
Lemma make_term_valid eps eta pref funs gders t : make_term eps eta pref funs gders = Ok t -> valid funs gders t /\ sig t = (eps, eta) /\ dt_pref t = pref.
Proof. intros H. destruct (make_term_inv _ _ _ _ _ _ H) as [row [gf [_ [_ [-> _]]]]]. split; [exact H|split; reflexivity]. Qed.
Lemma valid_sig_eps funs gders s t : valid funs gders s -> valid funs gders t -> dt_eta s = dt_eta t -> dt_eps s = dt_eps t.
Proof.
  intros Hs Ht E. destruct (make_term_inv _ _ _ _ _ _ Hs) as [? [? [_ [_ [_ [Es _]]]]]]. destruct (make_term_inv _ _ _ _ _ _ Ht) as [? [? [_ [_ [_ [Et _]]]]]]. rewrite E in Es. lia.
Qed.
Lemma valid_gfun funs gders s t : valid funs gders s -> valid funs gders t -> sig s = sig t -> dt_gfun s = dt_gfun t.
Proof.
  intros Hs Ht E. destruct (make_term_inv _ _ _ _ _ _ Hs) as [r1 [g1 [A1 [B1 [C1 _]]]]]. destruct (make_term_inv _ _ _ _ _ _ Ht) as [r2 [g2 [A2 [B2 [C2 _]]]]].
  unfold sig in E. injection E as E1 E2. rewrite E2 in A1. rewrite A1 in A2. apply (f_equal (fun r => match r with Ok a => a | Raise _ => r1 end)) in A2. subst r2.
  rewrite E1 in B1. rewrite B1 in B2. apply (f_equal (fun r => match r with Ok a => a | Raise _ => g1 end)) in B2. subst g2. rewrite C1, C2. reflexivity.
Qed.
Lemma zlist_eqb_spec a b : zlist_eqb a b = true <-> a = b.
Proof. unfold zlist_eqb. destruct (list_eq_dec Z.eq_dec a b); split; intros; congruence. Qed.
Lemma combine_valid funs gders s t : valid funs gders s -> valid funs gders t -> dt_eta s = dt_eta t ->
  exists m, combine_with s t = Ok m /\ valid funs gders m /\ sig m = sig s /\ sig s = sig t /\ dt_pref m = dt_pref s + dt_pref t.
Proof.
  intros Hs Ht E. pose proof (valid_sig_eps _ _ _ _ Hs Ht E) as Ee. unfold combine_with, rassert, check_similarity. rewrite Ee, Z.eqb_refl. rewrite (proj2 (zlist_eqb_spec _ _) E). cbn [andb].
  destruct (make_term_inv _ _ _ _ _ _ Hs) as [? [? [_ [_ [C _]]]]]. assert (F1 : dt_etafuns s = funs) by (rewrite C; reflexivity). assert (F2 : dt_gders s = gders) by (rewrite C; reflexivity). rewrite F1, F2, <- Ee.
  pose proof (make_term_pref _ _ _ (dt_pref s + dt_pref t) _ _ _ Hs) as K. rewrite K. eexists. split; [reflexivity|]. apply make_term_valid in K. destruct K as [K1 [K2 K3]].
  split; [exact K1|]. split; [exact K2|]. split; [unfold sig; rewrite Ee, E; reflexivity|exact K3].
Qed.

(** ---- consolidation ---- *)
Definition wsum (phi : Z * list Z -> R) (l : list dterm) : R := lsum (map (fun t => dt_pref t * phi (sig t)) l).
Definition wsum_at (phi : Z * list Z -> R) (dterms : list dterm) (idx : list nat) : R :=
  lsum (map (fun i => match nth_error dterms i with Some t => dt_pref t * phi (sig t) | None => 0 end) idx).
Definition sigs_at (dterms : list dterm) (idx : list nat) : list (option (Z * list Z)) := map (fun i => option_map sig (nth_error dterms i)) idx.

Lemma list_remove_in l x y : In y (list_remove l x) -> In y l.
Proof. induction l as [|z l IH]; cbn; [easy|]. destruct (Nat.eqb z x); [now right|]. intros [->|H]; [now left|right; apply IH, H]. Qed.
Lemma list_remove_perm l x : In x l -> Permutation l (x :: list_remove l x).
Proof.
  induction l as [|z l IH]; cbn; [easy|]. intros [->|H]; [rewrite Nat.eqb_refl; reflexivity|]. destruct (Nat.eqb_spec z x) as [->|N]; [reflexivity|].
  rewrite (IH H) at 1. apply perm_swap.
Qed.
Lemma lsum_perm l l' : Permutation l l' -> lsum l = lsum l'.
Proof. induction 1; cbn [lsum fold_right]; try reflexivity; [unfold lsum in IHPermutation; rewrite IHPermutation; reflexivity|ring|congruence]. Qed.

Section Consolidate.
Variables (funs : list etafun) (gders : list (list pyfun)) (dterms : list dterm).
Hypothesis V : Forall (valid funs gders) dterms.

Lemma match_loop_ok fuel : forall pos l m, valid funs gders m -> (forall i, In i l -> (i < length dterms)%nat) ->
  exists m' l', match_loop dterms fuel pos l m = Ok (m', l') /\ valid funs gders m' /\ sig m' = sig m /\ (length l' <= length l)%nat /\
    (forall i, In i l' -> In i l) /\ (forall i, In i l -> In i l' \/ (exists t, nth_error dterms i = Some t /\ sig t = sig m)) /\
    (forall phi, dt_pref m' * phi (sig m') + wsum_at phi dterms l' = dt_pref m * phi (sig m) + wsum_at phi dterms l).
Proof.
  induction fuel as [|fuel IH]; intros pos l m Hm Hl; cbn [match_loop].
  - exists m, l. splits; auto.
  - destruct (nth_error l pos) as [ind|] eqn:Ei; [|exists m, l; splits; auto].
    pose proof (nth_error_In _ _ Ei) as Hin. pose proof (Hl _ Hin) as Hlt. rewrite py_index_nat.
    destruct (nth_error dterms ind) as [t|] eqn:Et; [|apply nth_error_None in Et; lia]. cbn [rbind].
    assert (Ht : valid funs gders t) by (rewrite Forall_forall in V; apply V; eapply nth_error_In; exact Et).
    destruct (zlist_eqb (dt_eta m) (dt_eta t)) eqn:Z.
    + apply zlist_eqb_spec in Z. destruct (combine_valid _ _ _ _ Hm Ht Z) as [m1 [C [V1 [S1 [S2 P1]]]]]. rewrite C. cbn [rbind].
      pose proof (list_remove_perm l ind Hin) as Pm.
      destruct (IH (S pos) (list_remove l ind) m1 V1) as [m' [l' [E [V' [S' [L' [I1 [I2 W]]]]]]]].
      { intros i Hi. apply Hl. eapply list_remove_in, Hi. }
      exists m', l'. splits; auto.
      * congruence.
      * apply Permutation_length in Pm. cbn in Pm. lia.
      * intros i Hi. eapply list_remove_in, I1, Hi.
      * intros i Hi. apply (Permutation_in i Pm) in Hi. destruct Hi as [<-|Hi]; [right; exists t; split; [exact Et|congruence]|]. destruct (I2 i Hi) as [H|[t' [H1 H2]]]; [left; exact H|right; exists t'; split; [exact H1|congruence]].
      * intros phi. rewrite W, P1. unfold wsum_at at 2. rewrite (lsum_perm _ _ (Permutation_map _ Pm)). cbn [map lsum fold_right]. rewrite Et.
        fold (lsum (map (fun i => match nth_error dterms i with Some t0 => dt_pref t0 * phi (sig t0) | None => 0 end) (list_remove l ind))). fold (wsum_at phi dterms (list_remove l ind)).
        rewrite S1. rewrite S2. ring.
    + apply IH; assumption.
Qed.

Lemma consolidate_loop_ok fuel : forall l, (length l <= fuel)%nat -> (forall i, In i l -> (i < length dterms)%nat) ->
  exists r, consolidate_loop dterms fuel l = Ok r /\ Forall (valid funs gders) r /\
    (forall s, In s (map sig r) <-> In (Some s) (sigs_at dterms l)) /\ (forall phi, wsum phi r = wsum_at phi dterms l).
Proof.
  induction fuel as [|fuel IH]; intros l Hf Hl.
  - destruct l; [|cbn in Hf; lia]. exists []. splits; [reflexivity|constructor|reflexivity|reflexivity].
  - destruct l as [|first rest]; cbn [consolidate_loop]; [exists []; splits; [reflexivity|constructor|reflexivity|reflexivity]|].
    rewrite py_index_nat. pose proof (Hl first (or_introl eq_refl)) as H1. destruct (nth_error dterms first) as [t|] eqn:Et; [|apply nth_error_None in Et; lia]. cbn [rbind].
    assert (Ht : valid funs gders t) by (rewrite Forall_forall in V; apply V; eapply nth_error_In; exact Et).
    destruct (match_loop_ok (length rest) 0 rest t Ht) as [m [l' [E [V' [S' [L' [I1 [I2 W]]]]]]]]; [intros; apply Hl; now right|].
    rewrite E. cbn [rbind fst snd]. destruct (IH l') as [r [Er [Vr [Ir Wr]]]]; [cbn in Hf; lia|intros i Hi; apply Hl; right; apply I1, Hi|].
    rewrite Er. cbn [rbind]. exists (m :: r). splits; [reflexivity|constructor; assumption| |].
    + intros s. cbn [map In sigs_at]. fold (sigs_at dterms rest). rewrite Et. cbn [option_map]. rewrite Ir, S'. unfold sigs_at. rewrite !in_map_iff. split.
      * intros [<-|[i [Hi Hin]]]; [left; reflexivity|right; exists i; split; [exact Hi|apply I1, Hin]].
      * intros [H|[i [Hi Hin]]]; [left; congruence|]. destruct (I2 i Hin) as [Hl'|[t' [T1 T2]]]; [right; exists i; split; [exact Hi|exact Hl']|]. left. rewrite T1 in Hi. cbn in Hi. congruence.
    + intros phi. unfold wsum at 1. cbn [map lsum fold_right]. fold (lsum (map (fun t0 => dt_pref t0 * phi (sig t0)) r)). fold (wsum phi r). rewrite Wr. rewrite W.
      unfold wsum_at at 2. cbn [map lsum fold_right]. rewrite Et. reflexivity.
Qed.

Lemma wsum_at_all phi : wsum_at phi dterms (seq 0 (length dterms)) = wsum phi dterms.
Proof.
  unfold wsum_at, wsum. f_equal. clear V. induction dterms as [|t l IH]; [reflexivity|]. cbn [length seq map nth_error]. f_equal. rewrite <- seq_shift, map_map. exact IH.
Qed.
Lemma sigs_at_all : sigs_at dterms (seq 0 (length dterms)) = map Some (map sig dterms).
Proof. unfold sigs_at. clear V. induction dterms as [|t l IH]; [reflexivity|]. cbn [length seq map nth_error option_map]. f_equal. rewrite <- seq_shift, map_map. exact IH. Qed.

Lemma consolidate_ok : exists r, consolidate_terms dterms = Ok r /\ Forall (valid funs gders) r /\
  (forall s, In s (map sig r) <-> In s (map sig dterms)) /\ (forall phi, wsum phi r = wsum phi dterms).
Proof.
  destruct (consolidate_loop_ok (length dterms) (seq 0 (length dterms))) as [r [E [Vr [Ir Wr]]]]; [rewrite seq_length; lia|intros i Hi; apply in_seq in Hi; lia|].
  exists r. splits; [exact E|exact Vr| |].
  - intros s. rewrite Ir, sigs_at_all, in_map_iff. split; [intros [s' [H1 H2]]; injection H1 as <-; exact H2|intros H; exists s; split; [reflexivity|exact H]].
  - intros phi. rewrite Wr. apply wsum_at_all.
Qed.
End Consolidate.
