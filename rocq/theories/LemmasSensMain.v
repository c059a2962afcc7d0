(** Values of lists of derivative terms along curves, and the derivatives of solution curves. *)
From Coq Require Import String Reals List Bool Arith ZArith Lia Lra Permutation.
From Coquelicot Require Import Coquelicot.
From Verif Require Import Res Num Nd RSum ModelAutograd ModelSparse ModelParameters ModelMatrix ModelSimplex ModelProjection ModelDict ModelObjective ModelSensitivity.
From Verif Require Import SpecParameters LemmasParameters LemmasPrecond SpecSmooth SpecSensitivity LemmasSmooth LemmasDirDeriv LemmasTerms LemmasTermsNat LemmasSensCalc LemmasSens.
Import List ListNotations.
Open Scope R_scope.
Set Bullet Behavior "Strict Subproofs".

Lemma filter_map_comp {A B} (f : A -> B) (b : B -> bool) l : filter b (map f l) = map f (filter (fun a => b (f a)) l).
Proof. induction l as [|a l IH]; [reflexivity|]. cbn [map filter]. destruct (b (f a)); cbn [map]; rewrite IH; reflexivity. Qed.
Lemma map_repeat' {A B} (f : A -> B) x m : map f (repeat x m) = repeat (f x) m.
Proof. induction m; cbn; [reflexivity|]. rewrite IHm. reflexivity. Qed.

Lemma near_abs (delta t : R) : Rabs t < delta -> locally t (fun s : R => Rabs s < delta).
Proof.
  intros Ht. assert (Pd : 0 < delta - Rabs t) by lra. exists (mkposreal _ Pd). intros s Hs. change (Rabs (s + - t) < delta - Rabs t) in Hs.
  pose proof (Rabs_triang (s + - t) t) as H. replace (s + - t + t) with s in H by lra. lra.
Qed.

Lemma expand_single m : forall s, expand s (repeat 0%nat m ++ [1%nat]) = [(s + m)%nat].
Proof. induction m as [|m IH]; intros s; cbn [repeat app expand]; [cbn; f_equal; lia|]. rewrite IH. f_equal. lia. Qed.

Lemma max_abs_diff_self v : (0 < length v)%nat -> max_abs_diff v v = Ok 0.
Proof.
  intros H. unfold max_abs_diff. rewrite Nat.eqb_refl. destruct v as [|x v]; [cbn in H; lia|]. cbn [map2 map]. f_equal. replace (Rabs (x - x)) with 0 by (rewrite Rminus_diag_eq, Rabs_R0; reflexivity).
  clear. induction v as [|y v IH]; [reflexivity|]. cbn [map2 map fold_left]. replace (Rabs (y - y)) with 0 by (rewrite Rminus_diag_eq, Rabs_R0; reflexivity). rewrite Rmax_left by lra. exact IH.
Qed.
Section Main.
Variables n p q : nat.
Variable U : list R -> Prop.
Variables (g : pyfun) (G : nat -> list R -> R).
Variables (K : nat) (delta : R) (E : nat -> R -> list R) (eps0 deps : list R).
Hypothesis O : open_in (n + p) U.
Hypothesis Hg : two_arg_fun n p q U g G.
Hypothesis HC : smooth_components K n p q U G.
Hypothesis HcE : curve_with_derivatives n K delta E.
Hypothesis HU : forall t, Rabs t < delta -> U (along E eps0 deps t).
Hypothesis Leps : length eps0 = p.
Hypothesis Ldeps : length deps = p.
Local Notation PHI := (phi n p G E eps0 deps).
Local Notation TV := (Tval n p G E eps0 deps).

Lemma term_value M k funs m e ks r t : a_ok k (e, ks, r) -> (k <= K)%nat -> Rabs t < delta ->
  (forall i, (i < m)%nat -> exists h : etafun, nth_error funs i = Some h /\ h (E 0%nat t) (move eps0 deps t) deps = Ok (E (S i) t)) ->
  (forall i, (0 < nth i ks 0)%nat -> (i < m)%nat) ->
  exists v, term_evaluate (conc g M funs (e, ks, r)) (E 0%nat t) (move eps0 deps t) deps = Ok v /\ length v = q /\ forall c, (c < q)%nat -> nth c v 0 = r * PHI c (e, ks) t.
Proof.
  intros [Lk W] HK Ht Hf Hm. destruct HcE as [LE _]. pose proof (nsum_weight ks 1 ltac:(lia)) as Hs. set (vs := map (fun i => E (S i) t) (expand 0 ks)). set (ws := repeat deps e).
  assert (Lv : length vs = nsum ks) by (unfold vs; rewrite map_length; apply expand_length). assert (Lw : length ws = e) by apply repeat_length.
  destruct (represents_J n p U O g q G Hg vs ws) with (x1 := E 0%nat t) (x2 := move eps0 deps t) as [y [Ey [Ly Hy]]].
  - intros v Hv. apply in_map_iff in Hv. destruct Hv as [i [<- _]]. apply LE.
  - intros w Hw. apply repeat_spec in Hw. subst w. exact Ldeps.
  - intros c Hc. apply (Ck_le _ K); [lia|apply HC, Hc].
  - apply LE.
  - rewrite move_length. exact Leps.
  - apply HU, Ht.
  - rewrite Lv, Lw in Ey. exists (vscale r y). split; [|split; [rewrite vscale_length; exact Ly|]].
    + apply (evaluate_ok g M funs (fun i => E (S i) t)); [|exact Ey]. intros j Hj Hp. apply Hf, Hm, Hp.
    + intros c Hc. rewrite vscale_nth, Hy by exact Hc. f_equal. unfold phi. cbn [fst snd]. apply (Dd_perm (n + p) U O).
      * rewrite <- Permutation_rev. unfold dirs, vs, ws. rewrite map_map, map_repeat'. reflexivity.
      * apply HU, Ht.
      * apply (Ck_le _ K); [|apply HC, Hc]. rewrite rev_length, app_length, !map_length, Lv, Lw. lia.
Qed.
Definition used (incl : bool) (l : list aterm) : list aterm := filter (fun a => incl || negb (highest (snd (fst a))))%bool l.
Lemma terms_value M k funs m (incl : bool) l t : Forall (a_ok k) l -> (1 <= k <= K)%nat -> Rabs t < delta ->
  (forall i, (i < m)%nat -> exists h : etafun, nth_error funs i = Some h /\ h (E 0%nat t) (move eps0 deps t) deps = Ok (E (S i) t)) ->
  (if incl then (k <= m)%nat else (k <= S m)%nat) ->
  exists r, evaluate_terms (map (conc g M funs) l) (E 0%nat t) (move eps0 deps t) deps incl = Ok r /\
    match r with
    | Some v => length v = q /\ forall c, (c < q)%nat -> nth c v 0 = TV c (used incl l) t
    | None => used incl l = []
    end.
Proof.
  intros F Hk Ht Hf Hm. unfold evaluate_terms.
  set (val := fun d : dterm => match term_evaluate d (E 0%nat t) (move eps0 deps t) deps with Ok v => v | Raise _ => [] end).
  assert (HL : forall e ks r, last (zs ks) 0%Z = 0%Z -> a_ok k (e, ks, r) -> highest ks = false).
  { intros e ks r Z _. rewrite last_zs in Z. unfold highest. destruct (Nat.eqb_spec (last ks 0%nat) 0); [reflexivity|lia]. }
  assert (HV : forall a, In a l -> (incl || negb (highest (snd (fst a))) = true)%bool -> term_evaluate (conc g M funs a) (E 0%nat t) (move eps0 deps t) deps = Ok (val (conc g M funs a)) /\
     length (val (conc g M funs a)) = q /\ forall c, (c < q)%nat -> nth c (val (conc g M funs a)) 0 = snd a * PHI c (fst a) t).
  { intros [[e ks] r] Ha Hu. rewrite Forall_forall in F. pose proof (F _ Ha) as A. destruct (term_value M k funs m e ks r t A ltac:(lia) Ht Hf) as [v [Ev [Lv Hv]]].
    - intros i Hi. destruct A as [Lk _]. assert (i < k)%nat by (destruct (lt_dec i k); [assumption|rewrite nth_overflow in Hi by lia; lia]). destruct incl; [lia|]. cbn [orb fst snd] in Hu. unfold highest in Hu. rewrite negb_involutive in Hu. apply Nat.eqb_eq in Hu. rewrite last_nth, Lk in Hu.
      destruct (Nat.eq_dec i (k - 1)) as [->|]; lia.
    - unfold val. rewrite Ev. split; [reflexivity|]. split; [exact Lv|exact Hv]. }
  assert (SW : forall a, In a l -> (incl || Z.eqb (last (dt_eta (conc g M funs a)) 0%Z) 0)%bool = (incl || negb (highest (snd (fst a))))%bool).
  { intros [[e ks] r] _. f_equal. cbn [conc dt_eta fst snd]. rewrite last_zs. unfold highest. rewrite negb_involutive. destruct (Nat.eqb_spec (last ks 0%nat) 0) as [->|N]; [reflexivity|]. apply Z.eqb_neq. lia. }
  destruct (evaluate_from_ok q (E 0%nat t) (move eps0 deps t) deps incl val (map (conc g M funs) l) None) as [r [Er Hr]].
  - intros d Hd. apply in_map_iff in Hd. destruct Hd as [a [<- Ha]]. split.
    + destruct a as [[e ks] r]. cbn [conc dt_eta]. rewrite Forall_forall in F. destruct (F _ Ha) as [Lk _]. intros Z0. apply (f_equal (@length _)) in Z0. rewrite zs_length in Z0. cbn in Z0. lia.
    + intros Hd. destruct (HV a Ha) as [V1 [V2 _]]; [|split; assumption]. rewrite <- SW by exact Ha. destruct Hd as [->|Hd]; [reflexivity|]. rewrite Hd. apply orb_true_r.
  - exact I.
  - exists r. split; [exact Er|]. rewrite filter_map_comp in Hr. rewrite (filter_ext_in _ (fun a => incl || negb (highest (snd (fst a))))%bool) in Hr by (intros; apply SW; assumption). fold (used incl l) in Hr.
    destruct r as [v|].
    + destruct Hr as [Lv Hv]. split; [exact Lv|]. intros c Hc. rewrite Hv by exact Hc. rewrite Rplus_0_l, map_map. unfold Tval. apply lsum_map_ext. intros a Ha. unfold used in Ha. apply filter_In in Ha. destruct Ha as [Ha Hb]. apply (HV a Ha Hb), Hc.
    + destruct Hr as [_ Hr]. destruct (used incl l); [reflexivity|discriminate].
Qed.

(** the lists of the expansion are the derivatives of g along the curve *)
Lemma level_derive k l : level k l -> (k <= K)%nat -> forall t c, Rabs t < delta -> (c < q)%nat -> is_derive_n (fun s => G c (along E eps0 deps s)) k t (TV c l t).
Proof.
  destruct HcE as [LE HD].
  assert (NB := near_abs delta).
  induction 1 as [|k l l' Hl IH F Is Ws]; intros HK t c Ht Hc.
  - cbn [is_derive_n Derive_n]. assert (T0 : is_derive (TV c [(0%nat, [], 1)]) t (TV c [(1%nat, [0%nat], 1); (0%nat, [1%nat], 1)] t)).
    { pose proof (Tval_deriv n p U O q G K delta E eps0 deps Leps Ldeps LE HD HU HC 0 c [(0%nat, [], 1)] t) as D.
      replace [(1%nat, [0%nat], 1); (0%nat, [1%nat], 1)] with (flat_map adiff [(0%nat, [], 1)]) by reflexivity. apply D; [|lia|exact Hc|exact Ht]. repeat constructor. }
    apply (is_derive_ext (TV c [(0%nat, [], 1)])); [|exact T0]. intros s. unfold Tval, phi, dirs. cbn. unfold along, zcurve. ring.
  - cbn [is_derive_n]. apply (is_derive_ext_loc (TV c l)).
    + generalize (NB t Ht). apply filter_imp. intros s Hs. symmetry. apply is_derive_n_unique. apply IH; [lia|exact Hs|exact Hc].
    + replace (TV c l' t) with (TV c (flat_map adiff l) t) by (unfold Tval; symmetry; apply (Ws (fun s => PHI c s t))).
      apply (Tval_deriv n p U O q G K delta E eps0 deps Leps Ldeps LE HD HU HC k c l t); [apply level_ok, Hl|lia|exact Hc|exact Ht].
Qed.
(** splitting off the highest derivative *)
Lemma level_split k l : level k l -> (k <= K)%nat -> forall t c, Rabs t < delta -> (c < q)%nat ->
  TV c l t = rsum n (fun j => ad_partial (G c) j (along E eps0 deps t) * nth j (E k t) 0) + TV c (used false l) t.
Proof.
  intros Hl HK t c Ht Hc. pose proof (level_pos _ _ Hl) as Hk. pose proof (level_ok _ _ Hl) as F. destruct HcE as [LE _]. unfold Tval at 1. rewrite (lsum_filter_split (fun a => highest (snd (fst a)))). f_equal.
  rewrite lsum_filter_ind. set (X := rsum n (fun j => ad_partial (G c) j (along E eps0 deps t) * nth j (E k t) 0)).
  rewrite (lsum_map_ext _ (fun a => X * (snd a * (if highest (snd (fst a)) then 1 else 0)))).
  - rewrite lsum_map_scal. change (X * Wt l = X). rewrite (level_weight k l Hl). ring.
  - intros [[e ks] r] Ha. cbn [fst snd]. destruct (highest ks) eqn:Hh; [|ring]. rewrite Forall_forall in F. destruct (highest_shape k e ks r (F _ Ha) Hh) as [-> Eks].
    assert (EX : expand 0 ks = [(k - 1)%nat]).
    { rewrite Eks. apply (expand_single (k - 1) 0). }
    unfold phi. cbn [fst snd]. unfold dirs. rewrite EX. cbn [map repeat app Dd]. replace (S (k - 1)) with k by lia.
    replace (rsum (n + p) (fun i => nth i (emb1 p (E k t)) 0 * ad_partial (G c) i (zcurve E eps0 deps t))) with X; [ring|].
    unfold X. rewrite rsum_split. rewrite (rsum_zero p).
    + rewrite Rplus_0_r. apply rsum_ext. intros i Hi. rewrite (emb1_nth n p) by apply LE. destruct (Nat.ltb_spec i n); [|lia]. unfold along, zcurve. ring.
    + intros i Hi. rewrite (emb1_nth n p) by apply LE. destruct (Nat.ltb_spec (n + i) n); [lia|]. ring.
Qed.
Lemma level_used k l : level k l -> used false l <> [].
Proof.
  intros Hl Z. pose proof (level_pure k l Hl) as P. apply in_map_iff in P. destruct P as [[[e ks] r] [Eq Hin]]. cbn [fst] in Eq. injection Eq as -> ->.
  assert (In (k, repeat 0%nat k, r) (used false l)) as H. { apply filter_In. split; [exact Hin|]. cbn [orb fst snd]. unfold highest. rewrite negb_involutive. apply Nat.eqb_eq. rewrite last_nth. generalize (length (repeat 0%nat k) - 1)%nat. clear. induction k; intros [|i]; cbn; auto. }
  rewrite Z in H. destruct H.
Qed.
End Main.

(** [hess0] need not be the Jacobian of the gradient in its first argument *)
Section General.
Variable solve : rmat2 -> vec -> res vec.
Hypothesis Hsolve : solves_systems solve.
Variables n p : nat.
Variable U : list R -> Prop.
Variables (g : pyfun) (G : nat -> list R -> R).
Variables (order : nat) (delta : R) (E : nat -> R -> list R) (hy0 deps : list R) (hess0 : rmat2).
Hypothesis O : open_in (n + p) U.
Hypothesis Hg : two_arg_fun n p n U g G.
Hypothesis HC : smooth_components order n p n U G.
Hypothesis HcE : curve_with_derivatives n order delta E.
Hypothesis HU : forall t, Rabs t < delta -> U (along E hy0 deps t).
Hypothesis Leps : length hy0 = p.
Hypothesis Ldeps : length deps = p.
Hypothesis Hdelta : 0 < delta.
Hypothesis Hn : (0 < n)%nat.
Hypothesis Hp : (0 < p)%nat.
Local Notation DD c j := (rm_get hess0 c j - ad_partial (G c) j (along E hy0 deps 0)).
Hypothesis Hstat : forall t c, Rabs t < delta -> (c < n)%nat ->
  G c (along E hy0 deps t) + rsum n (fun j => DD c j * (nth j (E 0%nat t) 0 - nth j (E 0%nat 0) 0)) = G c (along E hy0 deps 0).
Hypothesis Hns : nonsingular n hess0.
Hypothesis Hord : (0 < order)%nat.

Lemma derive_n_general c k t : (c < n)%nat -> (0 < k <= order)%nat -> Rabs t < delta -> Derive_n (fun s => G c (along E hy0 deps s)) k t = - rsum n (fun j => DD c j * nth j (E k t) 0).
Proof.
  intros Hc Hk Ht. destruct HcE as [LE HD].
  rewrite (Derive_n_ext_loc _ (fun s => G c (along E hy0 deps 0) - rsum n (fun j => DD c j * (nth j (E 0%nat s) 0 - nth j (E 0%nat 0) 0)))).
  - apply is_derive_n_unique. revert t Ht. destruct k as [|k]; [lia|]. destruct Hk as [_ Hk]. induction k as [|k IH]; intros t Ht.
    + cbn [is_derive_n Derive_n]. replace (- rsum n (fun j => DD c j * nth j (E 1%nat t) 0)) with (0 - rsum n (fun j => DD c j * (nth j (E 1%nat t) 0 - 0))) by (rewrite (rsum_ext n (fun j => DD c j * (nth j (E 1%nat t) 0 - 0)) (fun j => DD c j * nth j (E 1%nat t) 0)) by (intros; ring); ring).
      apply (is_derive_minus (fun _ : R => G c (along E hy0 deps 0)) (fun s : R => rsum n (fun j => DD c j * (nth j (E 0%nat s) 0 - nth j (E 0%nat 0) 0)))); [exact (is_derive_const (V := R_NormedModule) _ t)|].
      apply is_derive_rsum. intros i Hi. apply (is_derive_scal (fun s : R => nth i (E 0%nat s) 0 - nth i (E 0%nat 0) 0)). apply (is_derive_minus (fun s : R => nth i (E 0%nat s) 0) (fun _ : R => nth i (E 0%nat 0) 0)); [apply HD; [lia|exact Ht|exact Hi]|exact (is_derive_const (V := R_NormedModule) _ t)].
    + change (is_derive (Derive_n (fun s => G c (along E hy0 deps 0) - rsum n (fun j => DD c j * (nth j (E 0%nat s) 0 - nth j (E 0%nat 0) 0))) (S k)) t (- rsum n (fun j => DD c j * nth j (E (S (S k)) t) 0))).
      apply (is_derive_ext_loc (fun s => - rsum n (fun j => DD c j * nth j (E (S k) s) 0))).
      * generalize (near_abs delta t Ht). apply filter_imp. intros s Hs. symmetry. apply is_derive_n_unique. apply IH; [lia|exact Hs].
      * apply (is_derive_opp (fun s : R => rsum n (fun j => DD c j * nth j (E (S k) s) 0))). apply is_derive_rsum. intros i Hi. apply (is_derive_scal (fun s : R => nth i (E (S k) s) 0)). apply HD; [lia|exact Ht|exact Hi].
  - generalize (near_abs delta t Ht). apply filter_imp. intros s Hs. pose proof (Hstat s c Hs Hc). lra.
Qed.

Lemma solution_general terms fs : build_order solve g (E 0%nat 0) hy0 hess0 (Z.of_nat order) = Ok (terms, fs) ->
  forall j, (j < order)%nat -> exists h, nth_error fs j = Some h /\ forall tol, tol_ok tol -> h tol (E 0%nat 0) hy0 deps = Ok (E (S j) 0).
Proof.
  intros Eb. destruct (build_order_ok solve g (E 0%nat 0) hy0 hess0 order Hord) as [terms' [fs' [Eb' [Lt [Lf Inv]]]]]. rewrite Eb in Eb'. injection Eb' as <- <-.
  pose proof HcE as [LE HD]. assert (R0 : Rabs 0 < delta) by (rewrite Rabs_R0; exact Hdelta).
  induction j as [j IH] using lt_wf_ind. intros Hj. destruct (Inv j Hj) as [l [Hl [El Ef]]]. eexists. split; [exact Ef|]. intros tol Htol. unfold dkinput_dhyperk.
  assert (Etol : match tol with None => Ok true | Some tol0 => do a <- max_abs_diff (E 0%nat 0) (E 0%nat 0); rassert (Rleb a tol0) (do b <- max_abs_diff hy0 hy0; rassert (Rleb b tol0) (Ok true)) end = Ok true).
  { destruct tol as [e|]; [|reflexivity]. cbn in Htol. rewrite !max_abs_diff_self by (try rewrite LE; lia). cbn [rbind]. unfold rassert. unfold Rleb. destruct (Rle_dec 0 e); [reflexivity|lra]. }
  rewrite Etol. cbn [rbind]. unfold evaluate_dketa_depsk.
  destruct (terms_value n p n U g G order delta E hy0 deps O Hg HC HcE HU Leps Ldeps (S order) (S j) (with_default (firstn j fs)) j false l 0 (level_ok _ _ Hl)) as [r [Er Hr]]; [lia|exact R0| |lia|].
  - intros i Hi. destruct (IH i Hi ltac:(lia)) as [h [Eh Hh]]. exists (h default_tol). split.
    + unfold with_default. rewrite nth_error_map. assert (Q : nth_error (firstn j fs) i = Some h) by (rewrite <- Eh; clear -Hi; revert j fs Hi; induction i; intros [|j] [|f fs] Hi; cbn; try lia; try reflexivity; apply IHi; lia). rewrite Q. reflexivity.
    + rewrite move_0. apply Hh. change (0 <= / 10 ^ 8). apply Rlt_le, Rinv_0_lt_compat, pow_lt. lra.
  - rewrite move_0 in Er. rewrite Er. cbn [rbind]. destruct r as [v|]; [|exfalso; apply (level_used _ _ Hl); exact Hr]. destruct Hr as [Lv Hv].
    destruct (Hsolve n hess0 v Hns Lv) as [x [Ex [Lx Hx]]]. rewrite Ex. cbn [rbind]. f_equal. apply list_eq_nth; [rewrite vscale_length, LE; exact Lx|]. intros i Hi. rewrite vscale_length, Lx in Hi. rewrite vscale_nth.
    destruct Hns as [_ [_ Inj]]. pose proof (Inj (map (fun k => -1 * nth k x 0 - nth k (E (S j) 0) 0) (seq 0 n)) ltac:(rewrite map_length, seq_length; reflexivity)) as Q.
    assert (Z : nth i (map (fun k => -1 * nth k x 0 - nth k (E (S j) 0) 0) (seq 0 n)) 0 = 0).
    { apply Q; [|exact Hi]. intros c Hc. rewrite (rsum_ext n _ (fun k => -1 * (rm_get hess0 c k * nth k x 0) - (ad_partial (G c) k (along E hy0 deps 0) * nth k (E (S j) 0) 0 + DD c k * nth k (E (S j) 0) 0))) by (intros k Hk; rewrite nth_map_seq by exact Hk; ring).
      rewrite rsum_minus, rsum_plus, rsum_scal_l, Hx by exact Hc. rewrite Hv by exact Hc.
      pose proof (level_split n p n G order delta E hy0 deps HcE Leps Ldeps (S j) l Hl ltac:(lia) 0 c R0 Hc) as SP.
      pose proof (level_derive n p n U G order delta E hy0 deps O HC HcE HU Leps Ldeps (S j) l Hl ltac:(lia) 0 c R0 Hc) as DV. apply is_derive_n_unique in DV. rewrite derive_n_general in DV by (first [exact Hc|exact R0|lia]). rewrite <- DV in SP. lra. }
    rewrite nth_map_seq in Z by exact Hi. lra.
Qed.
End General.

Section Solution.
Variable solve : rmat2 -> vec -> res vec.
Hypothesis Hsolve : solves_systems solve.
Variables n p : nat.
Variable U : list R -> Prop.
Variables (g : pyfun) (G : nat -> list R -> R).
Variables (order : nat) (delta : R) (E : nat -> R -> list R) (hy0 deps : list R) (hess0 : rmat2).
Hypothesis O : open_in (n + p) U.
Hypothesis Hg : two_arg_fun n p n U g G.
Hypothesis HC : smooth_components order n p n U G.
Hypothesis HcE : curve_with_derivatives n order delta E.
Hypothesis HU : forall t, Rabs t < delta -> U (along E hy0 deps t).
Hypothesis Leps : length hy0 = p.
Hypothesis Ldeps : length deps = p.
Hypothesis Hdelta : 0 < delta.
Hypothesis Hn : (0 < n)%nat.
Hypothesis Hp : (0 < p)%nat.
Hypothesis Hstat : forall t c, Rabs t < delta -> (c < n)%nat -> G c (along E hy0 deps t) = 0.
Hypothesis Hns : nonsingular n hess0.
Hypothesis Hhess : forall c j, (c < n)%nat -> (j < n)%nat -> rm_get hess0 c j = ad_partial (G c) j (along E hy0 deps 0).
Hypothesis Hord : (0 < order)%nat.

Lemma solution_derivatives terms fs : build_order solve g (E 0%nat 0) hy0 hess0 (Z.of_nat order) = Ok (terms, fs) ->
  forall j, (j < order)%nat -> exists h, nth_error fs j = Some h /\ forall tol, tol_ok tol -> h tol (E 0%nat 0) hy0 deps = Ok (E (S j) 0).
Proof.
  apply (solution_general solve Hsolve n p U g G order delta E hy0 deps hess0); try assumption.
  intros t c Ht Hc. rewrite !Hstat by (try assumption; rewrite Rabs_R0; exact Hdelta). rewrite rsum_zero; [ring|]. intros j Hj. rewrite Hhess by assumption. ring.
Qed.
End Solution.
