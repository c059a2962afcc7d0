(** consolidate_terms: the value of the list is kept; duplicates are merged when they come in pairs. *)
From Coq Require Import String Reals List Bool Arith ZArith Lia Lra Permutation.
From Coquelicot Require Import Coquelicot.
From Verif Require Import Res Num Nd RSum ModelAutograd ModelSparse ModelParameters ModelMatrix ModelSimplex ModelProjection ModelDict ModelObjective ModelSensitivity.
From Verif Require Import LemmasParameters LemmasTerms LemmasTermsNat LemmasSmooth.
Import List ListNotations.
Open Scope R_scope.
Set Bullet Behavior "Strict Subproofs".

Lemma Ok_inj {A} (x y : A) : Ok x = Ok y -> x = y.
Proof. intros E. apply (f_equal (fun r => match r with Ok a => a | Raise _ => x end)) in E. exact E. Qed.
Definition sig_dec : forall a b : Z * list Z, {a = b} + {a <> b}.
Proof. decide equality; [apply list_eq_dec, Z.eq_dec|apply Z.eq_dec]. Defined.
Definition osig_dec : forall a b : option (Z * list Z), {a = b} + {a <> b}.
Proof. decide equality. apply sig_dec. Defined.

Section Pairs.
Variables (funs : list etafun) (gders : list (list pyfun)) (dterms : list dterm).
Hypothesis V : Forall (valid funs gders) dterms.
Definition cnt (s : Z * list Z) (l : list nat) : nat := count_occ osig_dec (sigs_at dterms l) (Some s).
Lemma cnt_perm s l l' : Permutation l l' -> cnt s l = cnt s l'.
Proof. intros P. unfold cnt. apply (Permutation_count_occ osig_dec). unfold sigs_at. apply Permutation_map, P. Qed.
Lemma cnt_cons s i l : cnt s (i :: l) = ((if osig_dec (option_map sig (nth_error dterms i)) (Some s) then 1 else 0) + cnt s l)%nat.
Proof. unfold cnt. cbn [sigs_at map count_occ]. destruct (osig_dec (option_map sig (nth_error dterms i)) (Some s)); reflexivity. Qed.
Lemma cnt_app s l m : cnt s (l ++ m) = (cnt s l + cnt s m)%nat.
Proof. unfold cnt, sigs_at. rewrite map_app. apply count_occ_app. Qed.
Lemma match_loop_zero fuel : forall pos l m, valid funs gders m -> (forall i, In i l -> (i < length dterms)%nat) -> cnt (sig m) l = 0%nat -> match_loop dterms fuel pos l m = Ok (m, l).
Proof.
  induction fuel as [|fuel IH]; intros pos l m Hm Hl C; cbn [match_loop]; [reflexivity|]. destruct (nth_error l pos) as [ind|] eqn:Ei; [|reflexivity].
  pose proof (nth_error_In _ _ Ei) as Hin. pose proof (Hl _ Hin) as Hlt. rewrite py_index_nat. destruct (nth_error dterms ind) as [t|] eqn:Et; [|apply nth_error_None in Et; lia]. cbn [rbind].
  assert (Ht : valid funs gders t) by (rewrite Forall_forall in V; apply V; eapply nth_error_In; exact Et).
  destruct (zlist_eqb (dt_eta m) (dt_eta t)) eqn:Z; [|apply IH; assumption]. exfalso. apply zlist_eqb_spec in Z. pose proof (valid_sig_eps _ _ _ _ Hm Ht Z) as Ze.
  pose proof (list_remove_perm l ind Hin) as Pm. rewrite (cnt_perm _ _ _ Pm), cnt_cons, Et in C. cbn [option_map] in C. destruct (osig_dec (Some (sig t)) (Some (sig m))) as [|N]; [lia|]. apply N. unfold sig. rewrite Z, Ze. reflexivity.
Qed.
Lemma match_loop_one fuel : forall pos l m, valid funs gders m -> (forall i, In i l -> (i < length dterms)%nat) -> (length l <= pos + fuel)%nat -> cnt (sig m) (firstn pos l) = 0%nat -> (cnt (sig m) l <= 1)%nat ->
  exists m' l', match_loop dterms fuel pos l m = Ok (m', l') /\ cnt (sig m) l' = 0%nat.
Proof.
  induction fuel as [|fuel IH]; intros pos l m Hm Hl Hf Cp C; cbn [match_loop].
  - exists m, l. split; [reflexivity|]. rewrite firstn_all2 in Cp by lia. exact Cp.
  - destruct (nth_error l pos) as [ind|] eqn:Ei.
    2:{ exists m, l. split; [reflexivity|]. apply nth_error_None in Ei. rewrite firstn_all2 in Cp by lia. exact Cp. }
    pose proof (nth_error_In _ _ Ei) as Hin. pose proof (Hl _ Hin) as Hlt. rewrite py_index_nat. destruct (nth_error dterms ind) as [t|] eqn:Et; [|apply nth_error_None in Et; lia]. cbn [rbind].
    assert (Ht : valid funs gders t) by (rewrite Forall_forall in V; apply V; eapply nth_error_In; exact Et).
    destruct (zlist_eqb (dt_eta m) (dt_eta t)) eqn:Z.
    + apply zlist_eqb_spec in Z. pose proof (valid_sig_eps _ _ _ _ Hm Ht Z) as Ze. assert (Es : sig t = sig m) by (unfold sig; rewrite Z, Ze; reflexivity).
      destruct (combine_valid _ _ _ _ Hm Ht Z) as [m1 [Cm [V1 [S1 _]]]]. rewrite Cm. cbn [rbind].
      assert (C0 : cnt (sig m) (list_remove l ind) = 0%nat).
      { pose proof (list_remove_perm l ind Hin) as Pm. rewrite (cnt_perm _ _ _ Pm), cnt_cons, Et in C. cbn [option_map] in C. rewrite Es in C. destruct (osig_dec (Some (sig m)) (Some (sig m))); [lia|congruence]. }
      exists m1, (list_remove l ind). split; [|exact C0]. apply match_loop_zero; [exact V1| |rewrite S1; exact C0]. intros i Hi. apply Hl. eapply list_remove_in, Hi.
    + apply IH; try assumption; [lia|]. destruct (nth_error_split _ _ Ei) as [l1 [l2 [El Lp]]]. subst pos. rewrite El in Cp |- *.
      replace (firstn (S (length l1)) (l1 ++ ind :: l2)) with (l1 ++ [ind]) by (rewrite firstn_app; rewrite firstn_all2 by lia; replace (S (length l1) - length l1)%nat with 1%nat by lia; reflexivity).
      rewrite firstn_app, Nat.sub_diag, firstn_all2 in Cp by lia. cbn [firstn] in Cp. rewrite app_nil_r in Cp. rewrite cnt_app, Cp, cnt_cons, Et. cbn [option_map]. destruct (osig_dec (Some (sig t)) (Some (sig m))) as [H|H]; [|reflexivity].
      exfalso. injection H as H1 H2. rewrite H2 in Z. assert (zlist_eqb (dt_eta m) (dt_eta m) = true) by (apply zlist_eqb_spec; reflexivity). congruence.
Qed.
Lemma match_loop_cnt fuel : forall pos l m m' l' s, match_loop dterms fuel pos l m = Ok (m', l') -> (cnt s l' <= cnt s l)%nat.
Proof.
  induction fuel as [|fuel IH]; intros pos l m m' l' s; cbn [match_loop]; [intros E; apply Ok_inj in E; injection E as _ <-; lia|].
  destruct (nth_error l pos) as [ind|] eqn:Ei; [|intros E; apply Ok_inj in E; injection E as _ <-; lia]. rewrite py_index_nat. destruct (nth_error dterms ind) as [t|]; [|discriminate]. cbn [rbind].
  destruct (zlist_eqb (dt_eta m) (dt_eta t)); [|apply IH]. destruct (combine_with m t) as [m1|]; [|discriminate]. cbn [rbind]. intros E. apply IH with (s := s) in E.
  rewrite (cnt_perm s _ _ (list_remove_perm l ind (nth_error_In _ _ Ei))), cnt_cons. lia.
Qed.
Lemma consolidate_loop_pairs fuel : forall l r, (length l <= fuel)%nat -> (forall i, In i l -> (i < length dterms)%nat) -> (forall s, (cnt s l <= 2)%nat) -> consolidate_loop dterms fuel l = Ok r -> NoDup (map sig r).
Proof.
  induction fuel as [|fuel IH]; intros l r Hf Hl C E.
  - destruct l; [|cbn in Hf; lia]. cbn in E. apply Ok_inj in E. subst r. constructor.
  - destruct l as [|first rest]; cbn [consolidate_loop] in E; [apply Ok_inj in E; subst r; constructor|].
    rewrite py_index_nat in E. pose proof (Hl first (or_introl eq_refl)) as H1. destruct (nth_error dterms first) as [t|] eqn:Et; [|apply nth_error_None in Et; lia]. cbn [rbind] in E.
    assert (Ht : valid funs gders t) by (rewrite Forall_forall in V; apply V; eapply nth_error_In; exact Et). assert (Hl' : forall i, In i rest -> (i < length dterms)%nat) by (intros; apply Hl; now right).
    destruct (match_loop_ok funs gders dterms V (length rest) 0 rest t Ht Hl') as [m [l' [Em [_ [Sm [L' [I1 _]]]]]]].
    destruct (match_loop_one (length rest) 0 rest t Ht Hl') as [m2 [l2 [Em2 C0]]]; [lia|reflexivity| |].
    { specialize (C (sig t)). rewrite cnt_cons, Et in C. cbn [option_map] in C. destruct (osig_dec (Some (sig t)) (Some (sig t))); [lia|congruence]. }
    rewrite Em in Em2. apply Ok_inj in Em2. injection Em2 as <- <-. rewrite Em in E. cbn [rbind fst snd] in E.
    destruct (consolidate_loop_ok funs gders dterms V fuel l') as [r' [Er [_ [Ir _]]]]; [cbn in Hf; lia|intros; apply Hl', I1; assumption|]. rewrite Er in E. cbn [rbind] in E. apply Ok_inj in E. subst r. cbn [map]. constructor.
    + rewrite Ir, Sm. apply (count_occ_not_In osig_dec). exact C0.
    + apply (IH l' r'); [cbn in Hf; lia|intros; apply Hl', I1; assumption| |exact Er]. intros s. pose proof (match_loop_cnt _ _ _ _ _ _ s Em). specialize (C s). rewrite cnt_cons in C. lia.
Qed.
Lemma consolidate_pairs r : (forall s, (count_occ sig_dec (map sig dterms) s <= 2)%nat) -> consolidate_terms dterms = Ok r -> NoDup (map sig r).
Proof.
  intros C E. apply (consolidate_loop_pairs (length dterms) (seq 0 (length dterms)) r); [rewrite seq_length; lia|intros i Hi; apply in_seq in Hi; lia| |exact E].
  intros s. unfold cnt. rewrite sigs_at_all. rewrite <- (count_occ_map Some sig_dec osig_dec); [apply C|]. intros a b H. injection H as <-. reflexivity.
Qed.
End Pairs.

(** ---- the value of the list is kept (C50) ---- *)
Definition raw_value (t : dterm) (eta0 eps0 deps : vec) : res vec :=
  do etas <- eta_args (dt_etafuns t) 0 (dt_eta t) eta0 eps0 deps; dt_gfun t (eta0 :: eps0 :: etas ++ repeat deps (Z.to_nat (dt_eps t))).
Lemma term_evaluate_raw t eta0 eps0 deps : term_evaluate t eta0 eps0 deps = do y <- raw_value t eta0 eps0 deps; Ok (vscale (dt_pref t) y).
Proof. unfold term_evaluate, raw_value. destruct (eta_args _ _ _ _ _ _); reflexivity. Qed.
Lemma raw_value_sig funs gders s t eta0 eps0 deps : valid funs gders s -> valid funs gders t -> sig s = sig t -> raw_value s eta0 eps0 deps = raw_value t eta0 eps0 deps.
Proof.
  intros Hs Ht E. unfold raw_value. pose proof (valid_gfun _ _ _ _ Hs Ht E) as Eg.
  assert (F : forall u, valid funs gders u -> dt_etafuns u = funs) by (intros u Hu; destruct (make_term_inv _ _ _ _ _ _ Hu) as [? [? [_ [_ [-> _]]]]]; reflexivity).
  rewrite (F s Hs), (F t Ht), Eg. unfold sig in E. injection E as E1 E2. rewrite E1, E2. reflexivity.
Qed.
Lemma filter_sum_ext {A B} (P : A -> bool) (Q : B -> bool) (f : A -> R) (h : B -> R) l m :
  lsum (map (fun a => if P a then f a else 0) l) = lsum (map (fun b => if Q b then h b else 0) m) -> lsum (map f (filter P l)) = lsum (map h (filter Q m)).
Proof.
  assert (X : forall C (P : C -> bool) (f : C -> R) l, lsum (map f (filter P l)) = lsum (map (fun a => if P a then f a else 0) l)).
  { intros C P' f' l'. induction l' as [|a l' IH]; [reflexivity|]. cbn [filter map].
    change (lsum ((if P' a then f' a else 0) :: map (fun a => if P' a then f' a else 0) l')) with ((if P' a then f' a else 0) + lsum (map (fun a => if P' a then f' a else 0) l')). rewrite <- IH. destruct (P' a); [reflexivity|ring]. }
  intros H. rewrite !X. exact H.
Qed.
Lemma evaluate_none eta0 eps0 deps (incl : bool) l : forall acc o, filter (fun t => incl || Z.eqb (last (dt_eta t) 0%Z) 0)%bool l = [] ->
  (forall t, In t l -> dt_eta t <> []) -> evaluate_from acc l eta0 eps0 deps incl = Ok o -> o = acc.
Proof.
  induction l as [|t l IH]; intros acc o F NE E; [apply Ok_inj in E; congruence|]. cbn [filter] in F. destruct (incl || Z.eqb (last (dt_eta t) 0%Z) 0)%bool eqn:B; [discriminate|].
  cbn [evaluate_from] in E. destruct incl; [discriminate|]. cbn [orb] in B. rewrite py_index_last in E by (apply NE; now left). cbn [rbind] in E. rewrite B in E. apply (IH acc o F); [intros; apply NE; now right|exact E].
Qed.
Lemma consolidate_value funs gders dterms q eta0 eps0 deps (incl : bool) :
  Forall (fun t => exists eps eta pref, eta <> [] /\ make_term eps eta pref funs gders = Ok t) dterms ->
  (forall t, In t dterms -> (incl = true \/ last (dt_eta t) 0%Z = 0%Z) -> exists v, term_evaluate t eta0 eps0 deps = Ok v /\ length v = q) ->
  exists r o, consolidate_terms dterms = Ok r /\ evaluate_terms dterms eta0 eps0 deps incl = Ok o /\ evaluate_terms r eta0 eps0 deps incl = Ok o.
Proof.
  intros F Hv. assert (V : Forall (valid funs gders) dterms).
  { eapply Forall_impl; [|exact F]. intros t [e [eta [pr [_ H]]]]. exact (proj1 (make_term_valid _ _ _ _ _ _ H)). }
  assert (NE : forall t, In t dterms -> dt_eta t <> []).
  { intros t Ht. rewrite Forall_forall in F. destruct (F t Ht) as [e [eta [pr [N H]]]]. destruct (make_term_valid _ _ _ _ _ _ H) as [_ [S1 _]]. unfold sig in S1. injection S1 as _ ->. exact N. }
  destruct (consolidate_ok _ _ _ V) as [r [Er [Vr [Ir Wr]]]].
  assert (SR : forall t', In t' r -> exists t, In t dterms /\ sig t = sig t').
  { intros t' H. assert (In (sig t') (map sig dterms)) as H2 by (apply Ir, in_map, H). apply in_map_iff in H2. destruct H2 as [t [E H2]]. exists t. split; assumption. }
  set (rawv := fun t => match raw_value t eta0 eps0 deps with Ok v => v | Raise _ => [] end).
  set (val := fun t => vscale (dt_pref t) (rawv t)).
  assert (HV : forall t, In t dterms -> (incl = true \/ last (dt_eta t) 0%Z = 0%Z) -> raw_value t eta0 eps0 deps = Ok (rawv t) /\ length (rawv t) = q).
  { intros t Ht U. destruct (Hv t Ht U) as [v [E L]]. rewrite term_evaluate_raw in E. unfold rawv. destruct (raw_value t eta0 eps0 deps) as [y|]; [|discriminate]. split; [reflexivity|]. cbn [rbind] in E. apply Ok_inj in E. subst v. rewrite vscale_length in L. exact L. }
  destruct (evaluate_from_ok q eta0 eps0 deps incl val dterms None) as [o [Eo Ho]].
  { intros t Ht. split; [apply NE, Ht|]. intros U. destruct (HV t Ht U) as [A B]. rewrite term_evaluate_raw, A. split; [reflexivity|]. unfold val. rewrite vscale_length. exact B. }
  { exact I. }
  destruct (evaluate_from_ok q eta0 eps0 deps incl val r None) as [o' [Eo' Ho']].
  { intros t' Ht'. destruct (SR t' Ht') as [t [Ht Es]]. pose proof Es as Es0. unfold sig in Es0. injection Es0 as _ Ee. split; [rewrite <- Ee; apply NE, Ht|]. rewrite <- Ee. intros U. destruct (HV t Ht U) as [A B].
    rewrite Forall_forall in V, Vr. rewrite (raw_value_sig funs gders t t') in A by auto. rewrite term_evaluate_raw, A. cbn [rbind].
    assert (rawv t = rawv t') as Ew by (unfold rawv; rewrite (raw_value_sig funs gders t t') by auto; reflexivity). unfold val. rewrite <- Ew, vscale_length. split; [reflexivity|exact B]. }
  { exact I. }
  exists r, o. split; [exact Er|]. split; [exact Eo|]. etransitivity; [exact Eo'|]. f_equal.
  set (P := fun t => (incl || Z.eqb (last (dt_eta t) 0%Z) 0)%bool) in *.
  assert (EM : filter P dterms = [] <-> filter P r = []).
  { assert (Q : forall A B, (forall s, In s (map sig A) -> In s (map sig B)) -> filter P B = [] -> filter P A = []).
    { intros A B H FB. destruct (filter P A) as [|a l] eqn:FA; [reflexivity|]. exfalso. assert (Ha : In a (filter P A)) by (rewrite FA; now left). apply filter_In in Ha. destruct Ha as [Ha Pa].
      specialize (H (sig a) (in_map _ _ _ Ha)). apply in_map_iff in H. destruct H as [b [Eb Hb]]. assert (In b (filter P B)) as X. { apply filter_In. split; [exact Hb|]. unfold P in *. unfold sig in Eb. injection Eb as _ ->. exact Pa. } rewrite FB in X. destruct X. }
    split; apply Q; intros s H; apply Ir, H. }
  destruct o as [v|], o' as [v'|].
  - destruct Ho as [Lv Hvv], Ho' as [Lv' Hvv']. f_equal. apply list_eq_nth; [congruence|]. intros c Hc. rewrite Lv' in Hc. rewrite Hvv, Hvv' by exact Hc. f_equal. apply filter_sum_ext.
    set (psi := fun s : Z * list Z => if (incl || Z.eqb (last (snd s) 0%Z) 0)%bool then match find (fun t => if sig_dec (sig t) s then true else false) dterms with Some t => nth c (rawv t) 0 | None => 0 end else 0).
    assert (X : forall l, (forall t, In t l -> valid funs gders t /\ exists t0, In t0 dterms /\ sig t0 = sig t) -> lsum (map (fun a => if P a then nth c (val a) 0 else 0) l) = wsum psi l).
    { intros l Hl. unfold wsum. apply lsum_map_ext. intros t Ht. destruct (Hl t Ht) as [Vt [t0 [H0 E0]]]. unfold psi. change (snd (sig t)) with (dt_eta t). fold (P t). destruct (P t); [|ring]. unfold val. rewrite vscale_nth. f_equal.
      destruct (find (fun t1 => if sig_dec (sig t1) (sig t) then true else false) dterms) as [t1|] eqn:Ef.
      - apply find_some in Ef. destruct Ef as [H1 H2]. destruct (sig_dec (sig t1) (sig t)) as [E1|]; [|discriminate]. unfold rawv. rewrite Forall_forall in V. rewrite (raw_value_sig funs gders t t1) by auto. reflexivity.
      - exfalso. pose proof (find_none _ _ Ef t0 H0) as N. cbn beta in N. destruct (sig_dec (sig t0) (sig t)); [discriminate N|contradiction]. }
    rewrite Forall_forall in V, Vr. rewrite (X r), (X dterms); [apply Wr| |]; intros t Ht; split; auto; exists t; auto.
  - exfalso. destruct Ho' as [_ Ho']. destruct Ho as [_ _]. apply EM in Ho'. apply evaluate_none in Eo; [discriminate Eo|exact Ho'|exact NE].
  - exfalso. destruct Ho as [_ Ho]. apply EM in Ho. apply evaluate_none in Eo'; [discriminate Eo'|exact Ho|]. intros t' Ht'. destruct (SR t' Ht') as [t [Ht Es]]. unfold sig in Es. injection Es as _ <-. apply NE, Ht.
  - reflexivity.
Qed.
