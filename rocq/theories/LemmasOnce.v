(** In the expansions that the code builds, consolidation is complete: every derivative occurs once. *)
From Coq Require Import String Reals List Bool Arith ZArith Lia Lra Permutation Sorted FinFun.
From Coquelicot Require Import Coquelicot.
From Verif Require Import Res Num Nd RSum ModelAutograd ModelSparse ModelParameters ModelMatrix ModelSimplex ModelProjection ModelDict ModelObjective ModelSensitivity ModelPrint.
From Verif Require Import SpecPrint.
From Verif Require Import LemmasParameters LemmasTerms LemmasTermsNat LemmasSensCalc LemmasSens LemmasConsolidate LemmasFaa.
Import List ListNotations.
Open Scope nat_scope.
Set Bullet Behavior "Strict Subproofs".

(** ---- consolidation of a list of keys: what the loop that deletes from its own list does ---- *)
Section Keys.
Context {A : Type} (dec : forall x y : A, {x = y} + {x <> y}).
Fixpoint skipdel (s : A) (l : list A) : list A :=
  match l with
  | [] => []
  | x :: tl => if dec x s then match tl with [] => [] | y :: tl' => y :: skipdel s tl' end else x :: skipdel s tl
  end.
Fixpoint scons (fuel : nat) (l : list A) : list A :=
  match fuel, l with S f, x :: tl => x :: scons f (skipdel x tl) | _, _ => [] end.
Fixpoint firsts (seen l : list A) : list A :=
  match l with [] => [] | x :: tl => if in_dec dec x seen then firsts seen tl else x :: firsts (x :: seen) tl end.
Definition unseen (seen : list A) (l : list A) : list A := filter (fun y => if in_dec dec y seen then false else true) l.
Definition no_adjacent (x : A) (l : list A) : Prop := forall a b, l <> a ++ x :: x :: b.
Lemma no_adjacent_tl x y l : no_adjacent x (y :: l) -> no_adjacent x l.
Proof. intros H a b E. apply (H (y :: a) b). rewrite E. reflexivity. Qed.
Lemma skipdel_filter n : forall x l, length l <= n -> no_adjacent x l -> skipdel x l = filter (fun y => if dec y x then false else true) l.
Proof.
  induction n as [|n IH]; intros x l Hn H; [destruct l; [reflexivity|cbn in Hn; lia]|]. destruct l as [|y l]; [reflexivity|]. cbn [length] in Hn. cbn [skipdel filter]. destruct (dec y x) as [->|N].
  - destruct l as [|z l]; [reflexivity|]. cbn [filter]. destruct (dec z x) as [->|Nz]; [exfalso; apply (H [] l); reflexivity|]. cbn [length] in Hn. rewrite IH; [reflexivity|lia|]. apply no_adjacent_tl in H. apply no_adjacent_tl in H. exact H.
  - rewrite IH; [reflexivity|lia|]. apply no_adjacent_tl in H. exact H.
Qed.
Lemma filter_length_le {B} (f : B -> bool) l : length (filter f l) <= length l.
Proof. induction l as [|x l IH]; [reflexivity|]. cbn [filter]. destruct (f x); cbn [length]; lia. Qed.
Lemma scons_firsts : forall S pre seen fuel R, R = pre ++ S -> (forall y, In y seen <-> In y pre) ->
  (forall r1 x s, R = r1 ++ x :: s -> ~ In x r1 -> no_adjacent x (unseen r1 s)) -> length (unseen seen S) <= fuel -> scons fuel (unseen seen S) = firsts seen S.
Proof.
  induction S as [|x S IH]; intros pre seen fuel R ER Hs HN Hf; [destruct fuel; reflexivity|].
  assert (ER' : R = (pre ++ [x]) ++ S) by (rewrite <- app_assoc; exact ER). unfold unseen in *. cbn [filter firsts] in *. destruct (in_dec dec x seen) as [I|N].
  - apply (IH (pre ++ [x]) seen fuel R ER'); [|exact HN|exact Hf]. intros y. rewrite in_app_iff, Hs. cbn [In]. apply Hs in I. split; [tauto|]. intros [H|[<-|[]]]; assumption.
  - cbn [length] in Hf. destruct fuel as [|fuel]; [lia|]. cbn [scons]. f_equal.
    assert (Eu : filter (fun y => if in_dec dec y seen then false else true) S = filter (fun y => if in_dec dec y pre then false else true) S).
    { apply filter_ext. intros y. destruct (in_dec dec y seen) as [a|a], (in_dec dec y pre) as [b|b]; try reflexivity; exfalso; apply Hs in a || (apply a, Hs, b); contradiction. }
    assert (Na : no_adjacent x (filter (fun y => if in_dec dec y seen then false else true) S)) by (rewrite Eu; apply (HN pre x S ER); intros I; apply N, Hs, I).
    rewrite (skipdel_filter _ _ _ (le_n _) Na).
    assert (Ef : filter (fun y => if dec y x then false else true) (filter (fun y => if in_dec dec y seen then false else true) S) = filter (fun y => if in_dec dec y (x :: seen) then false else true) S).
    { clear. induction S as [|z S IH]; [reflexivity|]. cbn [filter]. destruct (in_dec dec z seen) as [a|a]; destruct (in_dec dec z (x :: seen)) as [b|b]; cbn [filter].
      - exact IH.
      - exfalso. apply b. now right.
      - destruct (dec z x) as [E|E]; [exact IH|]. exfalso. destruct b as [b|b]; [apply E; symmetry; exact b|contradiction].
      - destruct (dec z x) as [E|E]; [exfalso; apply b; left; symmetry; exact E|]. rewrite IH. reflexivity. }
    rewrite Ef. apply (IH (pre ++ [x]) (x :: seen) fuel R ER'); [|exact HN|].
    + intros y. rewrite in_app_iff. cbn [In]. rewrite Hs. intuition.
    + rewrite <- Ef. pose proof (filter_length_le (fun y => if dec y x then false else true) (filter (fun y => if in_dec dec y seen then false else true) S)). lia.
Qed.
Lemma firsts_in : forall l seen x, In x (firsts seen l) <-> In x l /\ ~ In x seen.
Proof.
  induction l as [|y l IH]; intros seen x; cbn [firsts]; [cbn; tauto|]. destruct (in_dec dec y seen) as [I|N].
  - rewrite IH. cbn [In]. split; [tauto|]. intros [[->|H] H2]; [contradiction|tauto].
  - cbn [In]. rewrite IH. cbn [In]. split; [intros [<-|[H1 H2]]; [tauto|tauto]|]. intros [[->|H] H2]; [now left|]. destruct (dec y x) as [->|Ne]; [now left|]. right. tauto.
Qed.
Lemma firsts_nodup : forall l seen, NoDup (firsts seen l).
Proof.
  induction l as [|y l IH]; intros seen; cbn [firsts]; [constructor|]. destruct (in_dec dec y seen); [apply IH|]. constructor; [|apply IH]. rewrite firsts_in. cbn [In]. tauto.
Qed.
Lemma firsts_app : forall l seen r, exists c, firsts seen (l ++ r) = firsts seen l ++ c.
Proof.
  induction l as [|y l IH]; intros seen r; cbn [app firsts]; [eexists; reflexivity|]. destruct (in_dec dec y seen); [apply IH|]. destruct (IH (y :: seen) r) as [c E]. exists c. rewrite E. reflexivity.
Qed.
(** u occurs before v: some prefix has u and not v *)
Definition before (u v : A) (l : list A) : Prop := exists a b, l = a ++ b /\ In u a /\ ~ In v a.
Lemma before_firsts u v l : before u v l -> before u v (firsts [] l).
Proof.
  intros [a [b [-> [Hu Hv]]]]. destruct (firsts_app a [] b) as [c E]. exists (firsts [] a), c. split; [exact E|]. rewrite !firsts_in. cbn [In]. tauto.
Qed.
Lemma prefix_cases : forall (a b c d : list A), a ++ b = c ++ d -> (exists e, c = a ++ e) \/ (exists e, a = c ++ e).
Proof.
  induction a as [|x a IH]; intros b c d E; [left; exists c; reflexivity|]. destruct c as [|y c]; [right; exists (x :: a); reflexivity|]. cbn in E. injection E as <- E. destruct (IH b c d E) as [[e ->]|[e ->]]; [left|right]; exists e; reflexivity.
Qed.
(** a prefix without u has nothing that comes after u *)
Lemma before_prefix u v l a b : before u v l -> l = a ++ b -> ~ In u a -> ~ In v a.
Proof.
  intros [c [d [E [Hu Hv]]]] E' Nu Iv. rewrite E in E'. destruct (prefix_cases _ _ _ _ E') as [[e ->]|[e ->]]; [apply Nu, in_or_app; left; exact Hu|apply Hv, in_or_app; left; exact Iv].
Qed.
End Keys.
Lemma flat_map_split {A B} (f : A -> list B) l : forall X x Y, flat_map f l = X ++ x :: Y -> exists l1 p l2 c1 c2, l = l1 ++ p :: l2 /\ f p = c1 ++ x :: c2 /\ X = flat_map f l1 ++ c1 /\ Y = c2 ++ flat_map f l2.
Proof.
  induction l as [|a l IH]; intros X x Y E; cbn [flat_map] in E; [destruct X; discriminate E|]. destruct (prefix_cases _ _ _ _ E) as [[e EX]|[e Ef]].
  - rewrite EX, <- app_assoc in E. apply app_inv_head in E. destruct (IH e x Y E) as [l1 [p [l2 [c1 [c2 [-> [E2 [-> ->]]]]]]]]. exists (a :: l1), p, l2, c1, c2. split; [reflexivity|]. split; [exact E2|]. split; [|reflexivity]. rewrite EX. cbn [flat_map]. rewrite app_assoc. reflexivity.
  - rewrite Ef, <- app_assoc in E. apply app_inv_head in E. destruct e as [|z e].
    + cbn in E. destruct (IH [] x Y E) as [l1 [p [l2 [c1 [c2 [-> [E2 [E3 ->]]]]]]]]. exists (a :: l1), p, l2, c1, c2. split; [reflexivity|]. split; [exact E2|]. split; [|reflexivity]. cbn [flat_map]. rewrite <- app_assoc, <- E3, app_nil_r, Ef, app_nil_r. reflexivity.
    + cbn in E. injection E as -> E. exists [], a, l, X, e. split; [reflexivity|]. split; [exact Ef|]. split; [reflexivity|symmetry; exact E].
Qed.
(** if the last child of every element is a child of no earlier one, equal children are never adjacent among the unseen *)
Lemma unseen_split {A} (dec : forall x y : A, {x = y} + {x <> y}) seen : forall l a x b, unseen dec seen l = a ++ x :: b -> exists l1 l2, l = l1 ++ x :: l2 /\ a = unseen dec seen l1 /\ b = unseen dec seen l2.
Proof.
  induction l as [|y l IH]; intros a x b E; [destruct a; discriminate E|]. unfold unseen in E. cbn [filter] in E. destruct (in_dec dec y seen) as [I|N].
  - destruct (IH a x b E) as [l1 [l2 [-> [-> ->]]]]. exists (y :: l1), l2. split; [reflexivity|]. split; [|reflexivity]. unfold unseen. cbn [filter]. destruct (in_dec dec y seen); [reflexivity|contradiction].
  - destruct a as [|z a]; cbn in E.
    + injection E as -> E. exists [], l. split; [reflexivity|]. split; [reflexivity|symmetry; exact E].
    + injection E as -> E. destruct (IH a x b E) as [l1 [l2 [-> [-> ->]]]]. exists (z :: l1), l2. split; [reflexivity|]. split; [|reflexivity]. unfold unseen. cbn [filter]. destruct (in_dec dec z seen); [contradiction|reflexivity].
Qed.
Lemma unseen_nil {A} (dec : forall x y : A, {x = y} + {x <> y}) seen l : unseen dec seen l = [] -> forall y, In y l -> In y seen.
Proof.
  induction l as [|z l IH]; intros E y Hy; [destruct Hy|]. unfold unseen in E. cbn [filter] in E. destruct (in_dec dec z seen) as [I|N]; [|discriminate E]. destruct Hy as [<-|Hy]; [exact I|apply IH; assumption].
Qed.
Lemma no_adjacent_children {A} (dec : forall x y : A, {x = y} + {x <> y}) (C : A -> list A) L :
  (forall p, In p L -> NoDup (C p)) -> (forall l1 p l2, L = l1 ++ p :: l2 -> exists c y, C p = c ++ [y] /\ ~ In y (flat_map C l1)) ->
  forall r1 x s, flat_map C L = r1 ++ x :: s -> ~ In x r1 -> no_adjacent x (unseen dec r1 s).
Proof.
  intros HD HP r1 x s E _ a b EA. destruct (unseen_split dec r1 s a x (x :: b) EA) as [s1 [s2 [-> [_ E2]]]]. symmetry in E2. destruct (unseen_split dec r1 s2 [] x b E2) as [M [s3 [-> [EM _]]]]. symmetry in EM.
  pose proof (unseen_nil dec r1 M EM) as HM.
  assert (ER : flat_map C L = (r1 ++ x :: s1) ++ x :: (M ++ x :: s3)) by (rewrite E; rewrite <- app_assoc; reflexivity).
  destruct (flat_map_split C L _ _ _ ER) as [l1 [p [l2 [c1 [c2 [EL [Ec [EX EY]]]]]]]]. pose proof (HD p ltac:(rewrite EL; apply in_or_app; right; left; reflexivity)) as ND. rewrite Ec in ND.
  apply NoDup_remove in ND. destruct ND as [ND Nx]. destruct (HP l1 p l2 EL) as [c [y [Ey Ny]]].
  assert (c2 = [] \/ exists c2', c2 = c2' ++ [y]) as [->|[c2' ->]].
  { destruct c2 as [|z c2] using rev_ind; [left; reflexivity|right]. rewrite Ec in Ey. exists c2. f_equal. rewrite app_comm_cons, app_assoc in Ey. apply app_inj_tail in Ey. f_equal. apply Ey. }
  - (* x is the last child *)
    rewrite Ec in Ey. apply app_inj_tail in Ey. destruct Ey as [_ ->]. assert (Hx : In y (flat_map C l1 ++ c1)) by (rewrite <- EX; apply in_or_app; right; left; reflexivity).
    apply in_app_or in Hx. destruct Hx as [Hx|Hx]; [contradiction|]. apply Nx. rewrite app_nil_r. exact Hx.
  - assert (HyM : In y M).
    { destruct (prefix_cases M (x :: s3) (c2' ++ [y]) (flat_map C l2) EY) as [[e Ee]|[e ->]]; [|apply in_or_app; left; apply in_or_app; right; left; reflexivity].
      destruct e as [|z e]; [rewrite app_nil_r in Ee; rewrite <- Ee; apply in_or_app; right; left; reflexivity|]. exfalso. rewrite Ee, <- app_assoc in EY. apply app_inv_head in EY. cbn in EY. injection EY as -> _. apply Nx. rewrite Ee. apply in_or_app. right. apply in_or_app. right. left. reflexivity. }
    pose proof (HM y HyM) as Hr. assert (Hx : In y (flat_map C l1 ++ c1)) by (rewrite <- EX; apply in_or_app; left; exact Hr).
    apply in_app_or in Hx. destruct Hx as [Hx|Hx]; [contradiction|]. rewrite app_assoc in ND. apply NoDup_remove in ND. destruct ND as [_ ND]. apply ND. rewrite app_nil_r. apply in_or_app. left. exact Hx.
Qed.

(** ---- signatures, their parents and their children ---- *)
Notation nsig := (nat * list nat)%type.
Definition val (x : nsig) (i : nat) : nat := match i with O => fst x | S i => nth i (snd x) 0 end.
Definition ok (k : nat) (x : nsig) : Prop := length (snd x) = k /\ fst x + nweight 1 (snd x) = k.
Definition up (j : nat) (x : nsig) : nsig :=
  match j with
  | 0 => (fst x - 1, removelast (snd x))
  | 1 => (fst x, removelast (unbump (snd x)))
  | S (S i) => (fst x, removelast (unshift (snd x) i))
  end.
Definition ops (p : nsig) : list nat := 0 :: 1 :: flat_map (fun i => if Nat.ltb 0 (nth i (snd p) 0) then [S (S i)] else []) (seq 0 (length (snd p))).
Definition child (p : nsig) (j : nat) : nsig :=
  match j with
  | 0 => (S (fst p), snd p ++ [0])
  | 1 => (fst p, nbump0 (snd p ++ [0]))
  | S (S i) => (fst p, nshift (snd p ++ [0]) i)
  end.
Definition children (p : nsig) : list nsig := map (child p) (ops p).
Lemma children_adiff a : map fst (adiff a) = children (fst a).
Proof.
  destruct a as [[e ks] c]. unfold children, ops, adiff. cbn [fst snd map child]. do 2 f_equal. generalize (seq 0 (length ks)). intros l. induction l as [|i l IH]; [reflexivity|]. cbn [flat_map]. rewrite !map_app, IH. f_equal. destruct (Nat.ltb 0 (nth i ks 0)); reflexivity.
Qed.
Lemma val_bound k x j : ok k x -> 0 < val x j -> j <= k.
Proof.
  intros [L W] H. destruct j as [|i]; [lia|]. cbn [val] in H. destruct (Nat.lt_ge_cases i (length (snd x))) as [Q|Q]; [lia|]. rewrite nth_overflow in H by exact Q. lia.
Qed.
Lemma ok_ext k x y : ok k x -> ok k y -> (forall i, val x i = val y i) -> x = y.
Proof.
  intros [L W] [L' W'] H. destruct x as [e m], y as [e' m']. cbn [fst snd] in *. f_equal; [exact (H 0)|]. apply (nth_ext _ _ 0 0); [congruence|]. intros i _. exact (H (S i)).
Qed.
Lemma nth_light m k i : length m = S k -> nweight 1 m <= k -> nth i (removelast m) 0 = nth i m 0.
Proof.
  intros L W. rewrite <- (light_eq m k L W) at 2. destruct (Nat.lt_ge_cases i (length (removelast m))) as [Q|Q]; [rewrite app_nth1 by exact Q; reflexivity|]. rewrite (nth_overflow (removelast m)) by exact Q. rewrite app_nth2 by exact Q. destruct (i - length (removelast m)) as [|[|]]; reflexivity.
Qed.
Section Level.
Variable k : nat.
Hypothesis Hk : 1 <= k.
Lemma up_facts j x : ok (S k) x -> 0 < val x j -> ok k (up j x) /\
  forall i, val (up j x) i = val x i - (if Nat.eqb i j then 1 else 0) + (if andb (Nat.leb 2 j) (Nat.eqb (S i) j) then 1 else 0).
Proof.
  intros Hx Hj. pose proof (val_bound _ _ _ Hx Hj) as Bj. destruct Hx as [L W]. destruct x as [e m]. cbn [fst snd] in *. destruct j as [|[|j]]; cbn [val fst snd] in Hj; cbn [up fst snd].
  - split; [split; cbn [fst snd]; [apply removelast_length, L|rewrite (light_weight m k) by lia; lia]|]. intros [|i]; cbn [val fst snd Nat.leb andb Nat.eqb]; [lia|]. rewrite (nth_light m k) by lia. lia.
  - pose proof (unbump_weight m ltac:(lia) ltac:(lia)) as Wu. assert (Lu : length (unbump m) = S k) by (unfold unbump; rewrite upd_length; exact L).
    split; [split; cbn [fst snd]; [apply removelast_length, Lu|rewrite (light_weight (unbump m) k) by lia; lia]|]. intros [|i]; cbn [val fst snd Nat.leb andb Nat.eqb]; [lia|]. rewrite (nth_light (unbump m) k) by lia. unfold unbump. rewrite nth_upd_nat by lia. destruct (Nat.eqb_spec i 0) as [->|N]; lia.
  - pose proof (unshift_weight m j ltac:(lia) ltac:(lia)) as Wu. assert (Lu : length (unshift m j) = S k) by (rewrite unshift_length; exact L).
    split; [split; cbn [fst snd]; [apply removelast_length, Lu|rewrite (light_weight (unshift m j) k) by lia; lia]|]. intros [|i]; cbn [val fst snd Nat.leb andb Nat.eqb]; [lia|]. rewrite (nth_light (unshift m j) k) by lia. unfold unshift. nths.
    destruct (Nat.eqb_spec i j) as [->|N].
    + destruct (Nat.eqb_spec j (S j)); lia.
    + destruct (Nat.eqb_spec i (S j)); subst; lia.
Qed.
Lemma child_iff j p x : ok k p -> ok (S k) x -> In j (ops p) /\ child p j = x <-> 0 < val x j /\ p = up j x.
Proof.
  intros [Lp Wp] [Lx Wx]. destruct p as [e' ks], x as [e m]. cbn [fst snd] in *. unfold ops. cbn [In]. destruct j as [|[|i]]; cbn [val child up fst snd].
  - pose proof (from_eps k e m Hk Lx Wx e' ks) as Q. rewrite Q. split; [intros [_ H]; exact H|intros H; split; [now left|exact H]].
  - pose proof (from_bump k e m Hk Lx Wx e' ks Lp) as Q. rewrite Q. split; [intros [_ H]; exact H|intros H; split; [right; now left|exact H]].
  - assert (Q0 : (0 = S (S i) \/ 1 = S (S i) \/ In (S (S i)) (flat_map (fun i => if Nat.ltb 0 (nth i ks 0) then [S (S i)] else []) (seq 0 (length ks)))) <-> i < k /\ 0 < nth i ks 0).
    { split.
      - intros [H|[H|H]]; try discriminate H. apply in_flat_map in H. destruct H as [i' [H1 H2]]. apply in_seq in H1. destruct (Nat.ltb_spec 0 (nth i' ks 0)); [|destruct H2]. destruct H2 as [H2|[]]. injection H2 as ->. lia.
      - intros [H1 H2]. right. right. apply in_flat_map. exists i. split; [apply in_seq; lia|]. destruct (Nat.ltb_spec 0 (nth i ks 0)); [left; reflexivity|lia]. }
    rewrite Q0. split.
    + intros [[H1 H2] H3]. pose proof (from_shift k e m Hk Lx Wx e' ks i Lp H1) as Q. apply Q. split; assumption.
    + intros [H1 H2]. assert (Hi : i < k) by (destruct (Nat.lt_ge_cases (S i) (length m)) as [A|A]; [lia|rewrite nth_overflow in H1 by exact A; lia]).
      pose proof (proj2 (from_shift k e m Hk Lx Wx e' ks i Lp Hi) ltac:(split; [lia|exact H2])) as [Q1 Q2]. tauto.
Qed.
Lemma in_children p x : ok k p -> ok (S k) x -> In x (children p) <-> exists j, 0 < val x j /\ p = up j x.
Proof.
  intros Hp Hx. unfold children. rewrite in_map_iff. split; intros [j H]; exists j.
  - apply child_iff; tauto.
  - apply (child_iff j p x Hp Hx) in H. tauto.
Qed.
Lemma up_inj j j' x : ok (S k) x -> 0 < val x j -> 0 < val x j' -> up j x = up j' x -> j = j'.
Proof.
  intros Hx H H' E. destruct (up_facts j x Hx H) as [_ F]. destruct (up_facts j' x Hx H') as [_ F']. assert (Q : forall a b, a < b -> (forall i, val (up a x) i = val x i - (if Nat.eqb i a then 1 else 0) + (if andb (Nat.leb 2 a) (Nat.eqb (S i) a) then 1 else 0)) ->
    (forall i, val (up b x) i = val x i - (if Nat.eqb i b then 1 else 0) + (if andb (Nat.leb 2 b) (Nat.eqb (S i) b) then 1 else 0)) -> 0 < val x b -> up a x = up b x -> False).
  { intros a b Lt Fa Fb Hb Eq. specialize (Fa b). specialize (Fb b). rewrite <- Eq, Fa in Fb. rewrite Nat.eqb_refl in Fb. destruct (Nat.eqb_spec b a); [lia|]. destruct (Nat.eqb_spec (S b) a); [lia|]. destruct (Nat.eqb_spec (S b) b); [lia|]. rewrite !andb_false_r in Fb. lia. }
  destruct (Nat.lt_trichotomy j j') as [Lt|[Eq|Lt]]; [exfalso; apply (Q j j'); assumption|exact Eq|exfalso; apply (Q j' j); auto].
Qed.
Lemma child_ok p j : ok k p -> In j (ops p) -> ok (S k) (child p j).
Proof.
  intros [L W] Hj. assert (Hc : In (child p j) (children p)) by (apply in_map, Hj). destruct p as [e ks]. change (e, ks) with (fst ((e, ks), 0%R)) in Hc. rewrite <- children_adiff in Hc. apply in_map_iff in Hc. destruct Hc as [[[e' m] c] [E Hin]].
  pose proof (adiff_ok k (e, ks, 0%R) (conj L W)) as F. rewrite Forall_forall in F. specialize (F _ Hin). cbn [fst] in E. rewrite <- E. exact F.
Qed.
Lemma child_up p j : ok k p -> In j (ops p) -> 0 < val (child p j) j /\ p = up j (child p j).
Proof. intros Hp Hj. apply (child_iff j p (child p j) Hp (child_ok p j Hp Hj)). split; [exact Hj|reflexivity]. Qed.
Lemma ops_sorted p : StronglySorted lt (ops p).
Proof.
  unfold ops. assert (Q : forall n s, StronglySorted lt (flat_map (fun i => if Nat.ltb 0 (nth i (snd p) 0) then [S (S i)] else []) (seq s n)) /\ forall j, In j (flat_map (fun i => if Nat.ltb 0 (nth i (snd p) 0) then [S (S i)] else []) (seq s n)) -> S s < j).
  { induction n as [|n IH]; intros s; cbn [seq flat_map]; [split; [constructor|intros j []]|]. destruct (IH (S s)) as [A B]. destruct (Nat.ltb 0 (nth s (snd p) 0)); cbn [app].
    - split; [constructor; [exact A|apply Forall_forall; intros j Hj; apply B in Hj; lia]|]. intros j [<-|Hj]; [lia|apply B in Hj; lia].
    - split; [exact A|]. intros j Hj. apply B in Hj. lia. }
  destruct (Q (length (snd p)) 0) as [A B]. constructor; [constructor; [exact A|]|]; apply Forall_forall; intros j Hj; [apply B in Hj; lia|]. destruct Hj as [<-|Hj]; [lia|apply B in Hj; lia].
Qed.
Lemma sorted_last l z : StronglySorted lt (l ++ [z]) -> forall y, In y l -> y < z.
Proof.
  induction l as [|a l IH]; intros S y Hy; [destruct Hy|]. cbn in S. apply StronglySorted_inv in S. destruct S as [S F]. destruct Hy as [<-|Hy]; [|apply IH; assumption]. rewrite Forall_forall in F. apply F. apply in_or_app. right. left. reflexivity.
Qed.
Lemma sorted_nodup l : StronglySorted lt l -> NoDup l.
Proof. induction 1 as [|a l S IH F]; constructor; [|exact IH]. intros H. rewrite Forall_forall in F. specialize (F a H). lia. Qed.
Lemma children_nodup p : ok k p -> NoDup (children p).
Proof.
  intros Hp. unfold children. pose proof (sorted_nodup _ (ops_sorted p)) as N. assert (Q : forall l, incl l (ops p) -> NoDup l -> NoDup (map (child p) l)); [|apply Q; [apply incl_refl|exact N]].
  intros l I. induction 1 as [|j l Nj Nl IH]; cbn [map]; constructor; [|apply IH; intros y Hy; apply I; now right]. intros H. apply in_map_iff in H. destruct H as [j' [E Hj']]. apply Nj.
  pose proof (I j (or_introl eq_refl)) as Ij. pose proof (I j' (or_intror Hj')) as Ij'. destruct (child_up p j Hp Ij) as [A B]. destruct (child_up p j' Hp Ij') as [A' B']. rewrite E in A', B'.
  assert (j = j') as -> by (apply (up_inj j j' (child p j) (child_ok p j Hp Ij) A A'); congruence). exact Hj'.
Qed.
Definition is_top (x : nsig) (t : nat) : Prop := 0 < val x t /\ forall i, t < i -> val x i = 0.
Lemma top_exists x : ok (S k) x -> exists t, is_top x t.
Proof.
  intros Hx. assert (Q : forall n, (forall i, n < i -> val x i = 0) -> (exists t, is_top x t) \/ forall i, val x i = 0).
  { induction n as [|n IH]; intros H; [destruct (val x 0) as [|v] eqn:E; [right; intros [|i]; [exact E|apply H; lia]|left; exists 0; split; [lia|exact H]]|].
    destruct (val x (S n)) as [|v] eqn:E; [|left; exists (S n); split; [lia|exact H]]. apply IH. intros i Hi. destruct (Nat.eq_dec i (S n)) as [->|N]; [exact E|apply H; lia]. }
  destruct (Q (S k)) as [H|H]; [|exact H|].
  - intros i Hi. destruct (val x i) as [|v] eqn:E; [reflexivity|]. pose proof (val_bound _ x i Hx ltac:(lia)). lia.
  - exfalso. destruct Hx as [L W]. destruct x as [e m]. cbn [fst snd] in *. pose proof (H 0) as He. cbn in He. subst e.
    assert (Z : forall s l, (forall i, nth i l 0 = 0) -> nweight s l = 0). { intros s l. revert s. induction l as [|y l IH]; intros s Hl; [reflexivity|]. cbn [nweight]. rewrite IH by (intros i; exact (Hl (S i))). specialize (Hl 0). cbn in Hl. subst. lia. }
    rewrite Z in W by (intros i; exact (H (S i))). lia.
Qed.
Lemma last_child p : ok k p -> exists c y t, children p = c ++ [y] /\ ok (S k) y /\ is_top y t /\ p = up t y.
Proof.
  intros Hp. pose proof (ops_sorted p) as S. unfold children. destruct (exists_last (l := ops p) ltac:(discriminate)) as [o [z E]]. assert (Hz : In z (ops p)) by (rewrite E; apply in_or_app; right; left; reflexivity).
  destruct (child_up p z Hp Hz) as [A B]. exists (map (child p) o), (child p z), z. rewrite E, map_app. split; [reflexivity|]. pose proof (child_ok p z Hp Hz) as Oy. split; [exact Oy|]. split; [|exact B]. split; [exact A|].
  intros i Hi. destruct (val (child p z) i) as [|v] eqn:Ev; [reflexivity|exfalso]. destruct (up_facts z (child p z) Oy A) as [_ F]. specialize (F i). rewrite <- B in F. rewrite Ev in F.
  destruct (Nat.eqb_spec i z); [lia|]. assert (0 < val p i) as Pi by lia. destruct i as [|i]; [lia|]. cbn [val] in Pi. assert (Hs : In (Datatypes.S (Datatypes.S i)) (ops p)).
  { unfold ops. right. right. apply in_flat_map. exists i. split; [apply in_seq|destruct (Nat.ltb_spec 0 (nth i (snd p) 0)); [left; reflexivity|lia]]. destruct (Nat.lt_ge_cases i (length (snd p))); [lia|rewrite nth_overflow in Pi by assumption; lia]. }
  rewrite E in Hs, S. apply in_app_or in Hs. destruct Hs as [Hs|[Hs|[]]]; [|lia]. apply (sorted_last o z S) in Hs. lia.
Qed.
(** the order of the parents: the one that undoes the highest change comes first *)
Definition parents_ordered (L : list nsig) : Prop :=
  forall x t j, ok (S k) x -> is_top x t -> 0 < val x j -> j < t -> before (up t x) (up j x) L.
Variable L : list nsig.
Hypothesis HL : forall p, In p L <-> ok k p.
Hypothesis HF : parents_ordered L.
Lemma parents_after v t a b : ok (S k) v -> is_top v t -> L = a ++ b -> ~ In (up t v) a -> ~ In v (flat_map children a).
Proof.
  intros Hv Tv E N I. apply in_flat_map in I. destruct I as [p [Hp Hc]]. assert (Op : ok k p) by (apply HL; rewrite E; apply in_or_app; left; exact Hp). apply (in_children p v Op Hv) in Hc. destruct Hc as [j [Hj ->]].
  destruct (Nat.lt_trichotomy j t) as [Lt|[->|Lt]]; [|contradiction|rewrite (proj2 Tv j Lt) in Hj; lia]. apply (before_prefix _ _ _ a b (HF v t j Hv Tv Hj Lt) E N). exact Hp.
Qed.
Lemma before_children u v tu tv : ok (S k) u -> ok (S k) v -> is_top u tu -> is_top v tv ->
  before (up tu u) (up tv v) L \/ (up tu u = up tv v /\ tu < tv) -> before u v (flat_map children L).
Proof.
  intros Hu Hv Tu Tv H. destruct H as [[a [b [E [Iu Nv]]]]|[Eu Lt]].
  - exists (flat_map children a), (flat_map children b). split; [rewrite E; apply flat_map_app|]. split; [|apply (parents_after v tv a b); assumption].
    apply in_flat_map. exists (up tu u). split; [exact Iu|]. apply in_children; [apply up_facts; [exact Hu|apply Tu]|exact Hu|]. exists tu. split; [apply Tu|reflexivity].
  - set (p := up tu u) in *. assert (Op : ok k p) by (apply up_facts; [exact Hu|apply Tu]). assert (Ip : In p L) by (apply HL, Op).
    assert (exists a b, L = a ++ p :: b /\ ~ In p a) as [a [b [E Na]]].
    { clear -Ip. induction L as [|q l IH]; [destruct Ip|]. destruct (nsig_dec q p) as [->|N]; [exists [], l; split; [reflexivity|intros []]|]. destruct Ip as [Ip|Ip]; [contradiction|]. destruct (IH Ip) as [a [b [-> Na]]]. exists (q :: a), b. split; [reflexivity|]. intros [H|H]; contradiction. }
    destruct (proj2 (child_iff tu p u Op Hu) ltac:(split; [apply Tu|reflexivity])) as [Ou Cu]. destruct (proj2 (child_iff tv p v Op Hv) ltac:(split; [apply Tv|exact Eu])) as [Ov Cv].
    apply in_split in Ou. destruct Ou as [o1 [o2 Eo]]. exists (flat_map children a ++ map (child p) (o1 ++ [tu])), (map (child p) o2 ++ flat_map children b). split; [|split].
    + rewrite E, flat_map_app. cbn [flat_map]. unfold children at 2. rewrite Eo, !map_app, <- !app_assoc. reflexivity.
    + apply in_or_app. right. rewrite map_app. apply in_or_app. right. left. exact Cu.
    + intros I. apply in_app_or in I. destruct I as [I|I]; [revert I; apply (parents_after v tv a (p :: b) Hv Tv E); rewrite <- Eu; exact Na|].
      apply in_map_iff in I. destruct I as [j [Ej Ij]]. assert (Oj : In j (ops p)) by (rewrite Eo; apply in_app_or in Ij; apply in_or_app; destruct Ij as [Ij|[->|[]]]; [left; exact Ij|right; now left]).
      assert (Hj : 0 < val v j /\ p = up j v) by (apply (child_iff j p v Op Hv); split; assumption). assert (j = tv) as -> by (apply (up_inj j tv v Hv); [apply Hj|apply Tv|rewrite <- (proj2 Hj); exact Eu]).
      pose proof (ops_sorted p) as S. rewrite Eo in S. apply in_app_or in Ij. destruct Ij as [Ij|[->|[]]]; [|lia].
      change (tu :: o2) with ([tu] ++ o2) in S. rewrite app_assoc in S. assert (S' : StronglySorted lt (o1 ++ [tu])).
      { clear -S. revert S. generalize (o1 ++ [tu]) as l. intros l. induction l as [|y l IH]; intros S; [constructor|]. cbn in S. apply StronglySorted_inv in S. destruct S as [S F]. constructor; [apply IH, S|]. rewrite Forall_forall in F |- *. intros z Hz. apply F, in_or_app. left. exact Hz. }
      apply (sorted_last o1 tu S') in Ij. lia.
Qed.
Lemma consolidated : NoDup L -> scons nsig_dec (length (flat_map children L)) (flat_map children L) = firsts nsig_dec [] (flat_map children L).
Proof.
  intros ND. assert (Eu : unseen nsig_dec [] (flat_map children L) = flat_map children L).
  { unfold unseen. generalize (flat_map children L). intros l. induction l as [|y l IH]; [reflexivity|]. cbn [filter]. destruct (in_dec nsig_dec y []) as [[]|]. rewrite IH. reflexivity. }
  rewrite <- Eu at 2. apply (scons_firsts nsig_dec (flat_map children L) [] [] _ (flat_map children L)); [reflexivity|reflexivity| |rewrite Eu; reflexivity].
  apply no_adjacent_children; [intros p Hp; apply children_nodup, HL, Hp|]. intros l1 p l2 E. assert (Op : ok k p) by (apply HL; rewrite E; apply in_or_app; right; left; reflexivity).
  destruct (last_child p Op) as [c [y [t [Ec [Oy [Ty Ep]]]]]]. exists c, y. split; [exact Ec|]. apply (parents_after y t l1 (p :: l2) Oy Ty E). rewrite <- Ep. rewrite E in ND. apply NoDup_remove in ND. intros H. apply (proj2 ND), in_or_app. left. exact H.
Qed.
Lemma next_members x : In x (firsts nsig_dec [] (flat_map children L)) <-> ok (S k) x.
Proof.
  rewrite firsts_in. cbn [In]. split.
  - intros [H _]. apply in_flat_map in H. destruct H as [p [Hp Hc]]. apply HL in Hp. unfold children in Hc. apply in_map_iff in Hc. destruct Hc as [j [<- Hj]]. apply child_ok; assumption.
  - intros Hx. split; [|tauto]. destruct (top_exists x Hx) as [t Ht]. apply in_flat_map. exists (up t x). pose proof (proj1 (up_facts t x Hx (proj1 Ht))) as Op. split; [apply HL, Op|]. apply in_children; [exact Op|exact Hx|]. exists t. split; [apply Ht|reflexivity].
Qed.
End Level.
Lemma next_ordered k L : 1 <= k -> (forall p, In p L <-> ok k p) -> parents_ordered k L -> parents_ordered (S k) (firsts nsig_dec [] (flat_map children L)).
Proof.
  intros Hk HL HF x t j Hx [Ht Top] Hj Lt. apply before_firsts.
  destruct (up_facts (S k) ltac:(lia) t x Hx Ht) as [Oq Fq]. destruct (up_facts (S k) ltac:(lia) j x Hx Hj) as [Oq' Fq']. set (q := up t x) in *. set (q' := up j x) in *.
  assert (T' : is_top q' t).
  { split.
    - rewrite Fq'. destruct (Nat.eqb_spec t j); lia.
    - intros i Hi. rewrite Fq', (Top i Hi). destruct (Nat.eqb_spec (S i) j); [lia|]. rewrite andb_false_r. lia. }
  destruct (up_facts k Hk t q' Oq' (proj1 T')) as [Or' Fr'].
  assert (Jq : 0 < val q j) by (rewrite Fq; destruct (Nat.eqb_spec j t); lia). destruct (up_facts k Hk j q Oq Jq) as [Oz Fz].
  assert (Comm : up j q = up t q').
  { apply (ok_ext k); [exact Oz|exact Or'|]. intros i. rewrite Fz, Fr', Fq, Fq'. assert (Vi : i = t -> 0 < val x i) by (intros ->; exact Ht). assert (Vj : i = j -> 0 < val x i) by (intros ->; exact Hj).
    destruct (Nat.eqb_spec i j), (Nat.eqb_spec i t); try lia; destruct (Nat.leb 2 t), (Nat.leb 2 j); cbn [andb]; destruct (Nat.eqb_spec (S i) t), (Nat.eqb_spec (S i) j); lia. }
  assert (Nt : val q t = val x t - 1). { rewrite Fq, Nat.eqb_refl. destruct (Nat.eqb_spec (S t) t); [lia|]. rewrite andb_false_r. lia. }
  assert (Nu : forall i, t < i -> val q i = 0). { intros i Hi. rewrite Fq, (Top i Hi). destruct (Nat.eqb_spec (S i) t); [lia|]. rewrite andb_false_r. lia. }
  destruct (Nat.eq_dec (val x t) 1) as [E1|N1].
  - assert (Tq : is_top q (t - 1)).
    { split.
      - rewrite Fq. destruct (Nat.eqb_spec (t - 1) t); [lia|]. destruct t as [|[|t]]; [lia| |].
        + cbn [Nat.sub]. assert (j = 0) as -> by lia. lia.
        + destruct (Nat.eqb_spec (S (S (S t) - 1)) (S (S t))); [cbn [Nat.leb andb]; lia|lia].
      - intros i Hi. destruct (Nat.eq_dec i t) as [->|N]; [rewrite Nt, E1; reflexivity|apply Nu; lia]. }
    apply (before_children k Hk L HL HF q q' (t - 1) t Oq Oq' Tq T'). destruct (Nat.eq_dec j (t - 1)) as [->|N].
    + right. split; [exact Comm|lia].
    + left. rewrite <- Comm. apply HF; try assumption. lia.
  - assert (Tq : is_top q t) by (split; [rewrite Nt; lia|exact Nu]). apply (before_children k Hk L HL HF q q' t t Oq Oq' Tq T'). left. rewrite <- Comm. apply HF; assumption.
Qed.

(** ---- the loop of consolidate_terms on the signatures ---- *)
Section Loop.
Variables (funs : list etafun) (gders : list (list pyfun)) (dterms : list dterm).
Hypothesis V : List.Forall (valid funs gders) dterms.
Definition keys (l : list nat) : list (option (Z * list Z)) := sigs_at dterms l.
Lemma list_remove_mid pre i l : ~ In i pre -> list_remove (pre ++ i :: l) i = pre ++ l.
Proof.
  induction pre as [|x pre IH]; intros N; cbn [app list_remove]; [rewrite Nat.eqb_refl; reflexivity|]. destruct (Nat.eqb_spec x i) as [->|Ne]; [exfalso; apply N; now left|]. rewrite IH; [reflexivity|]. intros H. apply N. now right.
Qed.
Lemma match_loop_skip n : forall fuel pre l m, length l <= n -> length l <= fuel -> valid funs gders m -> (forall i, In i (pre ++ l) -> i < length dterms) -> NoDup (pre ++ l) ->
  exists m' l', match_loop dterms fuel (length pre) (pre ++ l) m = Ok (m', pre ++ l') /\ sig m' = sig m /\ keys l' = skipdel osig_dec (Some (sig m)) (keys l) /\ incl l' l /\ NoDup (pre ++ l').
Proof.
  induction n as [|n IH]; intros fuel pre l m Hn Hf Hm Hl ND.
  { destruct l as [|i l]; [|cbn in Hn; lia]. exists m, []. split; [|split; [reflexivity|split; [reflexivity|split; [apply incl_refl|exact ND]]]]. destruct fuel; cbn [match_loop]; [reflexivity|]. rewrite nth_error_app2, Nat.sub_diag by lia. reflexivity. }
  destruct l as [|i l].
  { exists m, []. split; [|split; [reflexivity|split; [reflexivity|split; [apply incl_refl|exact ND]]]]. destruct fuel; cbn [match_loop]; [reflexivity|]. rewrite nth_error_app2, Nat.sub_diag by lia. reflexivity. }
  cbn [length] in Hn, Hf. destruct fuel as [|fuel]; [lia|]. cbn [match_loop]. rewrite nth_error_app2, Nat.sub_diag by lia. cbn [nth_error]. rewrite py_index_nat.
  assert (Hi : i < length dterms) by (apply Hl, in_or_app; right; now left). destruct (nth_error dterms i) as [t|] eqn:Et; [|apply nth_error_None in Et; lia]. cbn [rbind].
  assert (Ht : valid funs gders t) by (rewrite Forall_forall in V; apply V; eapply nth_error_In; exact Et).
  pose proof (NoDup_remove _ _ _ ND) as [ND' Ni]. unfold keys in *. cbn [sigs_at map skipdel]. rewrite Et. cbn [option_map]. fold (sigs_at dterms l).
  destruct (zlist_eqb (dt_eta m) (dt_eta t)) eqn:Z.
  - apply zlist_eqb_spec in Z. destruct (combine_valid _ _ _ _ Hm Ht Z) as [m1 [C [V1 [S1 [S2 _]]]]]. rewrite C. cbn [rbind]. rewrite list_remove_mid by (intros H; apply Ni, in_or_app; left; exact H).
    destruct (osig_dec (Some (sig t)) (Some (sig m))) as [_|N]; [|exfalso; apply N; congruence]. destruct l as [|j l].
    + exists m1, []. split; [|split; [exact S1|split; [reflexivity|split; [intros x []|exact ND']]]]. destruct fuel; cbn [match_loop]; [reflexivity|]. rewrite app_nil_r. destruct (nth_error pre (S (length pre))) eqn:En; [|reflexivity]. assert (nth_error pre (S (length pre)) <> None) by congruence. apply nth_error_Some in H. lia.
    + cbn [length] in Hn, Hf. cbn [sigs_at map]. fold (sigs_at dterms l). destruct (IH fuel (pre ++ [j]) l m1) as [m' [l' [E [Sm [Kl [I N]]]]]]; [lia|lia|exact V1| |rewrite <- app_assoc; exact ND'|].
      { intros x Hx. apply Hl. rewrite <- app_assoc in Hx. apply in_app_or in Hx. apply in_or_app. destruct Hx as [Hx|Hx]; [left; exact Hx|right; right; exact Hx]. }
      rewrite app_length in E. cbn [length] in E. rewrite Nat.add_1_r, <- !app_assoc in E. cbn [app] in E. exists m', (j :: l'). split; [exact E|]. split; [congruence|]. split; [cbn [sigs_at map]; fold (sigs_at dterms l'); rewrite Kl, S1; reflexivity|]. split; [intros x [<-|Hx]; [right; now left|right; right; apply I, Hx]|]. rewrite <- app_assoc in N. exact N.
  - destruct (osig_dec (Some (sig t)) (Some (sig m))) as [E|_]. { exfalso. injection E as _ E. rewrite E in Z. assert (zlist_eqb (dt_eta m) (dt_eta m) = true) by (apply zlist_eqb_spec; reflexivity). congruence. }
    destruct (IH fuel (pre ++ [i]) l m) as [m' [l' [E [Sm [Kl [I N]]]]]]; [lia|lia|exact Hm|intros x Hx; apply Hl; rewrite <- app_assoc in Hx; exact Hx|rewrite <- app_assoc; exact ND|].
    rewrite app_length in E. cbn [length] in E. rewrite Nat.add_1_r, <- !app_assoc in E. cbn [app] in E. exists m', (i :: l'). split; [exact E|]. split; [exact Sm|]. split; [cbn [sigs_at map]; fold (sigs_at dterms l'); rewrite Et, Kl; reflexivity|]. split; [intros x [<-|Hx]; [now left|right; apply I, Hx]|]. rewrite <- app_assoc in N. exact N.
Qed.
Lemma consolidate_loop_scons fuel : forall l r, length l <= fuel -> (forall i, In i l -> i < length dterms) -> NoDup l -> consolidate_loop dterms fuel l = Ok r -> map Some (map sig r) = scons osig_dec fuel (keys l).
Proof.
  induction fuel as [|fuel IH]; intros l r Hf Hl ND E.
  - cbn in E. apply Ok_inj in E. subst r. reflexivity.
  - destruct l as [|first rest]; cbn [consolidate_loop] in E; [apply Ok_inj in E; subst r; reflexivity|]. rewrite py_index_nat in E. pose proof (Hl first (or_introl eq_refl)) as H1. destruct (nth_error dterms first) as [t|] eqn:Et; [|apply nth_error_None in Et; lia]. cbn [rbind] in E.
    assert (Ht : valid funs gders t) by (rewrite Forall_forall in V; apply V; eapply nth_error_In; exact Et). apply NoDup_cons_iff in ND. destruct ND as [N1 ND].
    destruct (match_loop_skip (length rest) (length rest) [] rest t) as [m [l' [Em [Sm [Kl [I N]]]]]]; [lia|lia|exact Ht|intros i Hi; apply Hl; now right|exact ND|]. cbn [app length] in Em, N. rewrite Em in E. cbn [rbind fst snd] in E.
    destruct (consolidate_loop dterms fuel l') as [r'|] eqn:Er; [|discriminate E]. cbn [rbind] in E. apply Ok_inj in E. subst r. cbn [map]. unfold keys at 1. cbn [sigs_at map scons]. rewrite Et. cbn [option_map]. fold (sigs_at dterms rest). fold (keys rest). rewrite <- Kl, Sm. f_equal.
    apply (IH l' r'); [|intros i Hi; apply Hl; right; apply I, Hi|exact N|exact Er]. cbn [length] in Hf. pose proof (NoDup_incl_length N I). lia.
Qed.
End Loop.
Lemma skipdel_map {A B} (da : forall x y : A, {x = y} + {x <> y}) (db : forall x y : B, {x = y} + {x <> y}) (f : A -> B) : (forall x y, f x = f y -> x = y) ->
  forall n s l, length l <= n -> skipdel db (f s) (map f l) = map f (skipdel da s l).
Proof.
  intros Inj. induction n as [|n IH]; intros s l Hn; [destruct l; [reflexivity|cbn in Hn; lia]|]. destruct l as [|x l]; [reflexivity|]. cbn [length] in Hn. cbn [map skipdel]. destruct (db (f x) (f s)) as [E|N], (da x s) as [E'|N'].
  - destruct l as [|y l]; [reflexivity|]. cbn [length] in Hn. cbn [map]. rewrite IH by lia. reflexivity.
  - exfalso. apply N', Inj, E.
  - exfalso. apply N. congruence.
  - rewrite IH by lia. reflexivity.
Qed.
Lemma scons_map {A B} (da : forall x y : A, {x = y} + {x <> y}) (db : forall x y : B, {x = y} + {x <> y}) (f : A -> B) : (forall x y, f x = f y -> x = y) ->
  forall fuel l, scons db fuel (map f l) = map f (scons da fuel l).
Proof.
  intros Inj. induction fuel as [|fuel IH]; intros l; [reflexivity|]. destruct l as [|x l]; [reflexivity|]. cbn [map scons]. rewrite (skipdel_map da db f Inj (length l)) by lia. rewrite IH. reflexivity.
Qed.
Definition zsig (x : nsig) : option (Z * list Z) := Some (Z.of_nat (fst x), zs (snd x)).
Lemma zsig_inj x y : zsig x = zsig y -> x = y.
Proof. destruct x as [e m], y as [e' m']. unfold zsig. cbn [fst snd]. intros E. injection E as E1 E2. apply Nat2Z.inj in E1. apply zs_inj in E2. subst. reflexivity. Qed.
Lemma keys_conc g M funs l : map Some (map sig (map (conc g M funs) l)) = map zsig (map fst l).
Proof. rewrite !map_map. apply map_ext. intros [[e ks] c]. reflexivity. Qed.
Lemma zsig_map_inj u : forall v, map zsig u = map zsig v -> u = v.
Proof. induction u as [|x u IH]; intros [|y v] Q; try discriminate Q; [reflexivity|]. cbn [map] in Q. injection Q as Q1 Q2 Q3. f_equal; [apply zsig_inj; unfold zsig; congruence|apply IH, Q3]. Qed.
Lemma consolidate_once k g M funs l r : 1 <= k -> S k < M -> k <= length funs -> (forall p, In p (map fst l) <-> ok k p) -> NoDup (map fst l) -> parents_ordered k (map fst l) ->
  consolidate_terms (map (conc g M funs) (flat_map adiff l)) = Ok r -> map Some (map sig r) = map zsig (firsts nsig_dec [] (flat_map children (map fst l))).
Proof.
  intros Hk HM Hf HL ND HF E. set (big := flat_map adiff l) in *. assert (FL : List.Forall (a_ok (S k)) big).
  { apply Forall_forall. intros x Hx. apply in_flat_map in Hx. destruct Hx as [a [Ha Hx]]. assert (Oa : a_ok k a) by (destruct a as [[e ks] c]; apply (HL (e, ks)), in_map_iff; exists (e, ks, c); split; [reflexivity|exact Ha]). pose proof (adiff_ok k a Oa) as Q. rewrite Forall_forall in Q. apply Q, Hx. }
  assert (VL : List.Forall (valid funs (jarray g M)) (map (conc g M funs) big)).
  { apply Forall_forall. intros t Ht. apply in_map_iff in Ht. destruct Ht as [a [<- Ha]]. rewrite Forall_forall in FL. apply (conc_valid g M (S k)); [apply FL, Ha|lia|lia]. }
  unfold consolidate_terms in E. 
  assert (Q := consolidate_loop_scons funs (jarray g M) _ VL (length (map (conc g M funs) big)) (seq 0 (length (map (conc g M funs) big))) r).
  specialize (Q ltac:(rewrite seq_length; apply le_n)). specialize (Q ltac:(intros i Hi; apply in_seq in Hi; lia) (seq_NoDup _ _) E).
  unfold keys in Q. rewrite sigs_at_all, !keys_conc in Q. rewrite (scons_map nsig_dec osig_dec zsig zsig_inj) in Q. 
  assert (Eb : map fst big = flat_map children (map fst l)).
  { unfold big. clear. induction l as [|a l IH]; [reflexivity|]. cbn [flat_map map]. rewrite map_app, children_adiff, IH. reflexivity. }
  rewrite Eb in Q. assert (El : length (map (conc g M funs) big) = length (flat_map children (map fst l))) by (rewrite <- Eb, !map_length; reflexivity). rewrite El in Q. rewrite (consolidated k Hk (map fst l) HL HF ND) in Q.
  exact Q.
Qed.

(** ---- the expansion ---- *)
Lemma order_loop_chain solve in0 hy0 hess0 n : forall k terms fs terms' fs', order_loop solve in0 hy0 hess0 n k terms fs = Ok (terms', fs') -> length terms = S k ->
  (exists more, terms' = terms ++ more) /\ forall j, k <= j < k + n -> exists c c' next, nth_error terms' j = Some c /\ nth_error terms' (S j) = Some c' /\ differentiate_terms c next = Ok c'.
Proof.
  induction n as [|n IH]; intros k terms fs terms' fs' E L; cbn [order_loop] in E.
  - apply Ok_inj in E. injection E as <- <-. split; [exists []; rewrite app_nil_r; reflexivity|intros; lia].
  - rewrite py_index_nat in E. destruct (nth_error terms k) as [cur|] eqn:Ec; [|discriminate E]. cbn [rbind] in E. set (next := dkinput_dhyperk solve in0 hy0 hess0 cur) in *.
    destruct (differentiate_terms cur (next default_tol)) as [nt|] eqn:Ed; [|discriminate E]. cbn [rbind] in E. destruct (IH (S k) (terms ++ [nt]) (fs ++ [next]) terms' fs' E ltac:(rewrite app_length; cbn; lia)) as [[more Em] H].
    split; [exists ([nt] ++ more); rewrite Em, app_assoc; reflexivity|]. intros j Hj. destruct (Nat.eq_dec j k) as [->|N]; [|apply H; lia]. exists cur, nt, (next default_tol). split; [|split; [|exact Ed]].
    + rewrite Em, <- app_assoc, nth_error_app1 by lia. exact Ec.
    + rewrite Em, <- app_assoc, nth_error_app2 by lia. replace (S k - length terms) with 0 by lia. reflexivity.
Qed.
Lemma differentiate_raw k g M funs l next r : List.Forall (a_ok k) l -> S k < M -> k <= S (length funs) -> 1 <= k -> differentiate_terms (map (conc g M funs) l) next = Ok r ->
  consolidate_terms (map (conc g M (funs ++ [next])) (flat_map adiff l)) = Ok r.
Proof.
  intros Fl HM Hf Hk. unfold differentiate_terms.
  assert (E : rmapM (fun t => term_differentiate t next) (map (conc g M funs) l) = Ok (map (fun a => map (conc g M (funs ++ [next])) (adiff a)) l)).
  { clear -Fl HM Hf Hk. induction l as [|a l IH]; [reflexivity|]. inversion Fl; subst. cbn [map rmapM]. rewrite (differentiate_ok g M k) by assumption. cbn [rbind]. rewrite IH by assumption. reflexivity. }
  rewrite E. cbn [rbind]. rewrite <- (map_map adiff (map (conc g M (funs ++ [next])))), <- concat_map, <- flat_map_concat_map. exact (fun H => H).
Qed.
Definition ordered_level (k : nat) (L : list nsig) : Prop := (forall p, In p L <-> ok k p) /\ NoDup L /\ parents_ordered k L.
Lemma ordered_base : ordered_level 1 [(1, [0]); (0, [1])].
Proof.
  split; [|split].
  - intros [e m]. cbn [In]. split.
    + intros [E|[E|[]]]; injection E as <- <-; split; reflexivity.
    + intros [L W]. cbn [fst snd] in *. destruct m as [|x [|]]; try discriminate L. cbn [nweight] in W. destruct x as [|[|x]]; [left|right; left|lia]; f_equal; lia.
  - constructor; [intros [E|[]]; discriminate E|]. constructor; [intros []|constructor].
  - intros [e m] t j [L W] [Ht Top] Hj Lt. cbn [fst snd] in *. destruct m as [|x [|y [|]]]; try discriminate L. cbn [nweight] in W.
    assert (t <= 2) by (destruct t as [|[|[|t]]]; try lia; cbn [val snd nth] in Ht; destruct t; cbn in Ht; lia).
    destruct t as [|[|[|t]]]; try lia.
    + assert (j = 0) as -> by lia. cbn [val fst snd nth] in Ht, Hj. assert (x = 1 /\ y = 0 /\ e = 1) as [-> [-> ->]] by lia. exists [(1, [0])], [(0, [1])]. split; [reflexivity|]. split; [left; reflexivity|]. intros [E|[]]. discriminate E.
    + cbn [val fst snd nth] in Ht. assert (y = 1 /\ x = 0 /\ e = 0) as [-> [-> ->]] by lia. destruct j as [|[|j]]; cbn [val fst snd nth] in Hj; lia.
Qed.
Lemma ordered_next k L : 1 <= k -> ordered_level k L -> ordered_level (S k) (firsts nsig_dec [] (flat_map children L)).
Proof.
  intros Hk [HL [ND HF]]. split; [|split; [apply firsts_nodup|apply next_ordered; assumption]]. intros p. apply next_members; assumption.
Qed.
Lemma built_once solve g in0 hy0 hess0 order terms fs : 0 < order -> build_order solve g in0 hy0 hess0 (Z.of_nat order) = Ok (terms, fs) ->
  forall j, j < order -> exists l, level (S j) l /\ nth j terms [] = map (conc g (S order) (with_default (firstn j fs))) l /\ ordered_level (S j) (map fst l).
Proof.
  intros Ho HB. pose proof (built_levels solve g in0 hy0 hess0 order terms fs Ho HB) as [Lt BL].
  destruct (build_order_ok solve g in0 hy0 hess0 order Ho) as [terms' [fs' [E [_ [Lf _]]]]]. rewrite HB in E. apply Ok_inj in E. injection E as <- <-.
  unfold build_order in HB. replace (Z.of_nat order + 1)%Z with (Z.of_nat (S order)) in HB by lia. rewrite gen_array in HB by lia. cbn [rbind] in HB. rewrite base_ok in HB by lia. cbn [rbind] in HB.
  replace (Z.to_nat (Z.of_nat order - 1)) with (order - 1) in HB by lia. destruct (order_loop solve in0 hy0 hess0 (order - 1) 0 _ []) as [[tt ff]|] eqn:EL; [|discriminate HB]. cbn [rbind fst snd] in HB.
  destruct (py_index tt (Z.of_nat order - 1)) as [la|]; [|discriminate HB]. cbn [rbind] in HB. apply Ok_inj in HB. injection HB as <- _.
  destruct (order_loop_chain _ _ _ _ _ _ _ _ _ _ EL eq_refl) as [[more Em] Chain].
  induction j as [|j IH]; intros Hj.
  - destruct (BL 0 Ho) as [l [Hl El]]. exists l. split; [exact Hl|]. split; [exact El|]. rewrite Em in El. cbn [app nth firstn] in El. assert (Ek : map zsig (map fst l) = map zsig [(1, [0]); (0, [1])]).
    { rewrite <- (keys_conc g (S order) (with_default []) l). rewrite <- El. reflexivity. }
    apply zsig_map_inj in Ek. rewrite Ek. apply ordered_base.
  - destruct (IH ltac:(lia)) as [l [Hl [El Ol]]]. destruct (BL (S j) Hj) as [l' [Hl' El']]. exists l'. split; [exact Hl'|]. split; [exact El'|].
    destruct (Chain j ltac:(lia)) as [c [c' [next [E1 [E2 Ed]]]]]. apply nth_error_nth with (d := []) in E1. apply nth_error_nth with (d := []) in E2. rewrite El in E1. rewrite El' in E2. subst c c'.
    set (funs := with_default (firstn j fs)) in *. assert (Lfu : length funs = j) by (unfold funs, with_default; rewrite map_length, firstn_length; lia).
    apply (differentiate_raw (S j) g (S order) funs l next) in Ed; [|apply level_ok, Hl|lia|lia|lia]. destruct Ol as [HL [ND HF]].
    apply (consolidate_once (S j) g (S order) (funs ++ [next]) l) in Ed; [|lia|lia|rewrite app_length; cbn [length]; lia|exact HL|exact ND|exact HF]. rewrite keys_conc in Ed. apply zsig_map_inj in Ed. rewrite Ed. apply ordered_next; [lia|split; [exact HL|split; assumption]].
Qed.
Open Scope R_scope.
Lemma printed_single e m g M funs (l : list aterm) : NoDup (map fst l) -> In (e, m) (map fst l) -> printed_prefactors e m (map term_str (map (conc g M funs) l)) = [W (e, m) l].
Proof.
  assert (Z : forall l : list aterm, ~ In (e, m) (map fst l) -> printed_prefactors e m (map term_str (map (conc g M funs) l)) = [] /\ W (e, m) l = 0).
  { clear l. induction l as [|[[e' ks] c] l IH]; intros N; [split; reflexivity|]. cbn [map In] in N. destruct (IH ltac:(tauto)) as [A B]. assert (Ne : (e', ks) <> (e, m)) by (cbn [fst] in N; tauto). split.
    - unfold printed_prefactors. cbn [map flat_map term_str conc dt_order dt_pref dt_eta dt_eps]. fold (printed_prefactors e m (map term_str (map (conc g M funs) l))). rewrite A, app_nil_r. destruct (Z.eqb_spec (Z.of_nat e') (Z.of_nat e)) as [E|]; [|reflexivity]. destruct (list_eq_dec Z.eq_dec (zs ks) (map Z.of_nat m)) as [E'|]; [|reflexivity]. exfalso. apply Ne. apply Nat2Z.inj in E. apply zs_inj in E'. congruence.
    - unfold W. cbn [map lsum fold_right fst snd]. fold (lsum (map (fun a : aterm => snd a * ind (fst a) (e, m)) l)). fold (W (e, m) l). rewrite B. unfold ind. destruct (nsig_dec (e', ks) (e, m)); [contradiction|ring]. }
  induction l as [|[[e' ks] c] l IH]; intros ND I; [destruct I|]. cbn [map In fst] in ND, I. apply NoDup_cons_iff in ND. destruct ND as [N ND]. 
  unfold printed_prefactors. cbn [map flat_map term_str conc dt_order dt_pref dt_eta dt_eps]. fold (printed_prefactors e m (map term_str (map (conc g M funs) l))).
  unfold W. cbn [map lsum fold_right fst snd]. fold (lsum (map (fun a : aterm => snd a * ind (fst a) (e, m)) l)). fold (W (e, m) l). unfold ind. destruct (nsig_dec (e', ks) (e, m)) as [E|Ne].
  - injection E as -> ->. destruct (Z l N) as [A B]. rewrite A, B, Z.eqb_refl. destruct (list_eq_dec Z.eq_dec (zs m) (map Z.of_nat m)) as [_|Q]; [cbn; f_equal; ring|contradiction Q; reflexivity].
  - destruct I as [I|I]; [contradiction|]. rewrite (IH ND I). destruct (Z.eqb_spec (Z.of_nat e') (Z.of_nat e)) as [E|]; [|cbn; f_equal; ring]. destruct (list_eq_dec Z.eq_dec (zs ks) (map Z.of_nat m)) as [E'|]; [|cbn; f_equal; ring]. exfalso. apply Ne. apply Nat2Z.inj in E. apply zs_inj in E'. congruence.
Qed.
Lemma print_once solve g in0 hy0 hess0 order terms fs : (0 < order)%nat -> build_order solve g in0 hy0 hess0 (Z.of_nat order) = Ok (terms, fs) ->
  forall k out, (1 <= k <= order)%nat -> print_terms (Z.of_nat order) terms (Some (Z.of_nat k)) = (out, Ok tt) ->
  (exists rest, out = Heading (Z.of_nat k) :: rest /\ forall l, In l rest -> exists c e m, l = TermLine (Z.of_nat k) c (map Z.of_nat m) (Z.of_nat e) /\ of_order k e m) /\
  forall e m, of_order k e m -> printed_prefactors e m out = [faa_di_bruno k e m].
Proof.
  intros Ho HB k out Hk E. destruct (print_order solve g in0 hy0 hess0 order terms fs Ho HB k out Hk E) as [A _]. split; [exact A|]. intros e m [Lm Wm]. rewrite total_order_nweight in Wm.
  destruct (print_pages solve g in0 hy0 hess0 order terms fs Ho HB) as [_ [P _]]. rewrite (P k Hk) in E. injection E as <-.
  destruct (built_once solve g in0 hy0 hess0 order terms fs Ho HB (k - 1)%nat ltac:(lia)) as [l [Hl [El [HL [ND _]]]]]. replace (S (k - 1)) with k in * by lia. unfold page. rewrite El.
  change (printed_prefactors e m (Heading (Z.of_nat (S (k - 1))) :: map term_str (map (conc g (S order) (with_default (firstn (k - 1) fs))) l))) with (printed_prefactors e m (map term_str (map (conc g (S order) (with_default (firstn (k - 1) fs))) l))).
  rewrite printed_single; [rewrite (level_faa k l Hl) by assumption; reflexivity|exact ND|apply HL; split; assumption].
Qed.
Lemma built_nodup solve g in0 hy0 hess0 order terms fs : (0 < order)%nat -> build_order solve g in0 hy0 hess0 (Z.of_nat order) = Ok (terms, fs) -> forall ts, In ts terms -> NoDup (map sig ts).
Proof.
  intros Ho HB ts Hts. destruct (built_levels solve g in0 hy0 hess0 order terms fs Ho HB) as [Lt _]. apply (In_nth _ _ []) in Hts. destruct Hts as [j [Hj <-]]. destruct (built_once solve g in0 hy0 hess0 order terms fs Ho HB j ltac:(lia)) as [l [_ [El [_ [ND _]]]]]. rewrite El.
  apply (NoDup_map_inv Some). rewrite keys_conc. apply FinFun.Injective_map_NoDup; [intros x y; apply zsig_inj|exact ND].
Qed.
