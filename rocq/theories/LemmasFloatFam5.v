(** Proofs about the moment parameterisation of normal distributions in binary64. *)
From Coq Require Import String Reals ZArith List Lra Lia Bool.
From Flocq Require Import Core BinarySingleNaN.
From Verif Require Import Res Nd RSum ModelNumpy SpecFloat SpecFloatSimplex SpecFloatAcc SpecFloatMatrix SpecFloatFam SpecFloatFam2 ModelFloat ModelFloatDict ModelFloatFamilies
  LemmasFloat LemmasFloat3 LemmasFloat5 LemmasFloatAcc LemmasFloatParams LemmasFloatFam LemmasFloatFam2 LemmasFloatFam4.
From Verif Require ModelFloatParams ModelFloatSimplex ModelFloatMatrix ModelFloatStack.
Import List ListNotations.
Set Bullet Behavior "Strict Subproofs".
Open Scope R_scope.

Definition two_arrays (s : list nat) (x : fuvn_moment) : Prop := exists nm p q fs vs,
  x = FUvnMoment (FDict nm [("e"%string, FLeaf "e" (FArray p)); ("e2"%string, FLeaf "e2" (FArray q))] fs vs) s /\ ModelFloatParams.fa_shape p = s /\ ModelFloatParams.fa_shape q = s.
Lemma init_two nm s lb x : fuvn_moment_init nm s lb = Ok x -> two_arrays s x.
Proof.
  unfold fuvn_moment_init. rewrite (array_new s f_ninf ninf_usable). cbn [rbind]. destruct (ModelFloatParams.farray_init s lb f_inf None) as [q|] eqn:E; [|discriminate]. cbn [rbind]. intros H. injection H as <-.
  destruct (farray_init_fields _ _ _ _ _ E) as (S & _). do 5 eexists. split; [reflexivity|]. split; [reflexivity|exact S].
Qed.
Lemma array_set_shape p a p' : ModelFloatParams.farray_set p a = Ok p' -> ModelFloatParams.fa_shape p' = ModelFloatParams.fa_shape p.
Proof. unfold ModelFloatParams.farray_set. destruct (shape_eqb _ _); [|discriminate]. intros H. injection H as <-. reflexivity. Qed.
Lemma set_e s x (r : res (nd dbl)) : two_arrays s x -> two_arrays s (FUvnMoment (fst (f_set_array (fum_dict x) "e" r)) s).
Proof.
  intros (nm & p & q & fs & vs & -> & P & Q). unfold f_set_array. cbn. destruct r as [a|e]; [|do 5 eexists; split; [reflexivity|split; assumption]].
  destruct (ModelFloatParams.farray_set p a) as [p'|e] eqn:E; cbn; do 5 eexists; (split; [reflexivity|]); split; try assumption. rewrite (array_set_shape _ _ _ E). exact P.
Qed.
Lemma set_e2 s x (r : res (nd dbl)) : two_arrays s x -> two_arrays s (FUvnMoment (fst (f_set_array (fum_dict x) "e2" r)) s).
Proof.
  intros (nm & p & q & fs & vs & -> & P & Q). unfold f_set_array. cbn. destruct r as [a|e]; [|do 5 eexists; split; [reflexivity|split; assumption]].
  destruct (ModelFloatParams.farray_set q a) as [q'|e] eqn:E; cbn; do 5 eexists; (split; [reflexivity|]); split; try assumption. rewrite (array_set_shape _ _ _ E). exact Q.
Qed.
Lemma two_shape s x : two_arrays s x -> fum_shape x = s. Proof. intros (nm & p & q & fs & vs & -> & _). reflexivity. Qed.

Section Hist.
Context (fsq : dbl -> dbl) (fexp flog : dbl -> dbl) (fsum : list dbl -> dbl) (fdot : nat -> nat -> list dbl -> list dbl -> dbl).
Lemma uvn_two s x q : two_arrays s x -> two_arrays s (fst (fum_set_from_uvn fsq x q)).
Proof.
  intros T. unfold fum_set_from_uvn. rewrite (two_shape s x T). destruct (negb _); [exact T|]. pose proof (set_e s x (fuvn_e (fua_dict q)) T) as T1. destruct (f_set_array (fum_dict x) "e" (fuvn_e (fua_dict q))) as [d1 [u|e]]; cbn [fst] in *; [|exact T1].
  exact (set_e2 s (FUvnMoment d1 s) (fuvn_e_outer fsq (fua_dict q)) T1).
Qed.
Lemma constant_two s x c : two_arrays s x -> two_arrays s (fst (fum_set_from_constant fsq x c)).
Proof.
  intros T. unfold fum_set_from_constant. rewrite (two_shape s x T). destruct (negb _); [exact T|]. set (a := ModelFloatParams.farray_get c). pose proof (set_e s x (Ok a) T) as T1. destruct (f_set_array (fum_dict x) "e" (Ok a)) as [d1 [u|e]]; cbn [fst] in *; [|exact T1].
  exact (set_e2 s (FUvnMoment d1 s) (Ok (nd_map fsq a)) T1).
Qed.
Lemma array_free_shape p v p' : ModelFloatParams.farray_set_free fexp p v = Ok p' -> ModelFloatParams.fa_shape p' = ModelFloatParams.fa_shape p.
Proof.
  unfold ModelFloatParams.farray_set_free. intros H. repeat match type of H with context [if ?b then _ else _] => destruct b; try discriminate H | rbind ?r _ = _ => destruct r; [|discriminate H]; cbn [rbind] in H end. exact (array_set_shape _ _ _ H).
Qed.
Lemma array_vector_shape p v p' : ModelFloatParams.farray_set_vector p v = Ok p' -> ModelFloatParams.fa_shape p' = ModelFloatParams.fa_shape p.
Proof.
  unfold ModelFloatParams.farray_set_vector. intros H. repeat match type of H with context [if ?b then _ else _] => destruct b; try discriminate H | rbind ?r _ = _ => destruct r; [|discriminate H]; cbn [rbind] in H end. exact (array_set_shape _ _ _ H).
Qed.
Lemma free_two s x v : two_arrays s x -> two_arrays s (FUvnMoment (fst (fd_set_free fexp flog fsum fdot (fum_dict x) v)) (fum_shape x)).
Proof.
  intros (nm & p & q & fs & vs & -> & P & Q). cbn [fum_dict fum_shape fd_set_free]. destruct (negb _); [do 5 eexists; split; [reflexivity|split; assumption]|]. cbn [fl_set_free].
  destruct (ModelFloatParams.farray_set_free fexp p _) as [p'|e] eqn:E1; cbn [lift_res rbind fst snd]; [|do 5 eexists; split; [reflexivity|split; assumption]].
  destruct (ModelFloatParams.farray_set_free fexp q _) as [q'|e] eqn:E2; cbn [lift_res rbind fst snd]; do 5 eexists; (split; [reflexivity|]); split; try assumption; try (rewrite (array_free_shape _ _ _ E1); exact P). rewrite (array_free_shape _ _ _ E2). exact Q.
Qed.
Lemma vector_two s x v : two_arrays s x -> two_arrays s (FUvnMoment (fst (fd_set_vector (fum_dict x) v)) (fum_shape x)).
Proof.
  intros (nm & p & q & fs & vs & -> & P & Q). cbn [fum_dict fum_shape fd_set_vector]. destruct (negb _); [do 5 eexists; split; [reflexivity|split; assumption]|]. cbn [fl_set_vector].
  destruct (ModelFloatParams.farray_set_vector p _) as [p'|e] eqn:E1; cbn [lift_res rbind fst snd]; [|do 5 eexists; split; [reflexivity|split; assumption]].
  destruct (ModelFloatParams.farray_set_vector q _) as [q'|e] eqn:E2; cbn [lift_res rbind fst snd]; do 5 eexists; (split; [reflexivity|]); split; try assumption; try (rewrite (array_vector_shape _ _ _ E1); exact P). rewrite (array_vector_shape _ _ _ E2). exact Q.
Qed.
Lemma history_two nm s lb x : history fsq (fd_set_free fexp flog fsum fdot) fd_set_vector nm s lb x -> two_arrays s x.
Proof.
  induction 1 as [x E|x q H IH|x c H IH|x v H IH|x v H IH]; [exact (init_two _ _ _ _ E)|exact (uvn_two s x q IH)|exact (constant_two s x c IH)|exact (free_two s x v IH)|exact (vector_two s x v IH)].
Qed.
(** both members set *)
Lemma set_both s x a b : two_arrays s x -> shape a = s -> shape b = s ->
  exists d1, f_set_array (fum_dict x) "e" (Ok a) = (d1, Ok tt) /\ exists d2, f_set_array d1 "e2" (Ok b) = (d2, Ok tt) /\ f_member d2 "e" = Ok a /\ f_member d2 "e2" = Ok b.
Proof.
  intros (nm & p & q & fs & vs & -> & P & Q) A B. unfold f_set_array at 1. cbn [fum_dict fd_getitem ModelDict.od_get String.eqb Ascii.eqb Bool.eqb]. unfold ModelFloatParams.farray_set at 1. rewrite A, P, shape_eqb_refl. eexists. split; [reflexivity|].
  unfold f_set_array. cbn [fd_replace ModelDict.od_replace fd_getitem ModelDict.od_get String.eqb Ascii.eqb Bool.eqb]. unfold ModelFloatParams.farray_set. rewrite B, Q, shape_eqb_refl. eexists. split; [reflexivity|]. split; reflexivity.
Qed.
End Hist.

Section Setting.
Context (fsq : dbl -> dbl) (Hq : squares fsq) (fexp flog : dbl -> dbl) (fsum : list dbl -> dbl) (fdot : nat -> nat -> list dbl -> list dbl -> dbl).
Let hist := history fsq (fd_set_free fexp flog fsum fdot) fd_set_vector.
Lemma set_from_uvn nm s lb x q m i : hist nm s lb x -> fua_shape q = s -> f_member (fua_dict q) "mean" = Ok m -> f_member (fua_dict q) "info" = Ok i -> proper s m -> proper s i ->
  (forall k, (k < nprod s)%nat -> fair_mean (entry m k) /\ fair_info (entry i k)) ->
  exists x' o w, fum_set_from_uvn fsq x q = (x', Ok tt) /\ fum_e x' = Ok m /\ fum_e_outer x' = Ok o /\ fuvn_e_outer fsq (fua_dict q) = Ok o /\ fum_var fsq x' = Ok w /\ proper s o /\ proper s w /\
    forall k, (k < nprod s)%nat -> let M := B2R (entry m k) in let I := B2R (entry i k) in
      within 4 (entry o k) (M ^ 2 + 1 / I) /\ is_finite (entry w k) = true /\ 0 <= B2R (entry w k) /\ Rabs (B2R (entry w k) - 1 / I) <= units 4 * (M ^ 2 + 1 / I) /\ (bpow radix2 55 <= M ^ 2 * I -> B2R (entry w k) = 0).
Proof using Hq.
  intros H S Em Ei Pm Pi Fr. apply history_two in H. destruct (bin_scalar_l fdiv s f_one i Pi) as (v & Ev & Pv & Kv). destruct (map_entry fsq s m Pm) as [Pq Kq]. destruct (bin_same fadd s (nd_map fsq m) v Pq Pv) as (o & Eo & Po & Ko).
  destruct (bin_same fsub s o (nd_map fsq m) Po Pq) as (w & Ew & Pw & Kw).
  assert (EO : fuvn_e_outer fsq (fua_dict q) = Ok o) by (unfold fuvn_e_outer, fuvn_var; rewrite Em, Ei; cbn [rbind]; rewrite Ev; exact Eo).
  destruct (set_both s x m o H (proj1 Pm) (proj1 Po)) as (d1 & S1 & d2 & S2 & G1 & G2).
  exists (FUvnMoment d2 s), o, w. split; [unfold fum_set_from_uvn; rewrite S, (two_shape s x H), shape_eqb_refl; cbn [negb]; unfold fuvn_e; rewrite Em, S1, EO, S2; reflexivity|].
  split; [exact G1|]. split; [exact G2|]. split; [exact EO|]. split; [unfold fum_var; cbn [fum_dict]; rewrite G2, G1; exact Ew|]. split; [exact Po|]. split; [exact Pw|].
  intros k Hk M I. destruct (Fr k Hk) as [Fm Fi]. pose proof (Kv k Hk) as Kv'. pose proof (Kq k Hk) as Kq'. assert (Ko' : entry o k = fadd (fsq (entry m k)) (fdiv f_one (entry i k))) by (etransitivity; [exact (Ko k Hk)|]; f_equal; [exact Kq'|exact Kv']).
  assert (Kw' : entry w k = fsub (fadd (fsq (entry m k)) (fdiv f_one (entry i k))) (fsq (entry m k))) by (etransitivity; [exact (Kw k Hk)|]; f_equal; [exact Ko'|exact Kq']).
  rewrite Ko', Kw'. destruct (outer_entry fsq Hq _ _ Fm Fi) as [O _]. split; [exact O|]. exact (moment_entry fsq Hq _ _ Fm Fi).
Qed.
Lemma set_from_constant nm s lb x c : hist nm s lb x -> ModelFloatParams.fa_shape c = s -> proper s (ModelFloatParams.farray_get c) -> (forall k, (k < nprod s)%nat -> fair_mean (entry (ModelFloatParams.farray_get c) k)) ->
  exists x' o w, fum_set_from_constant fsq x c = (x', Ok tt) /\ fum_e x' = Ok (ModelFloatParams.farray_get c) /\ fum_e_outer x' = Ok o /\ fum_var fsq x' = Ok w /\ proper s o /\ proper s w /\
    forall k, (k < nprod s)%nat -> let C := B2R (entry (ModelFloatParams.farray_get c) k) in
      is_finite (entry o k) = true /\ Rabs (B2R (entry o k) - C ^ 2) <= units 2 * C ^ 2 + bpow radix2 (-1074) /\ is_finite (entry w k) = true /\ B2R (entry w k) = 0.
Proof using Hq.
  intros H S Pm Fr. apply history_two in H. set (m := ModelFloatParams.farray_get c) in *. destruct (map_entry fsq s m Pm) as [Pq Kq]. destruct (bin_same fsub s (nd_map fsq m) (nd_map fsq m) Pq Pq) as (w & Ew & Pw & Kw).
  destruct (set_both s x m (nd_map fsq m) H (proj1 Pm) (proj1 Pq)) as (d1 & S1 & d2 & S2 & G1 & G2).
  exists (FUvnMoment d2 s), (nd_map fsq m), w. split; [unfold fum_set_from_constant; rewrite S, (two_shape s x H), shape_eqb_refl; cbn [negb]; fold m; rewrite S1, S2; reflexivity|].
  split; [exact G1|]. split; [exact G2|]. split; [unfold fum_var; cbn [fum_dict]; rewrite G2, G1; exact Ew|]. split; [exact Pq|]. split; [exact Pw|].
  intros k Hk C. pose proof (Kq k Hk) as Kq'. destruct (Fr k Hk) as [Fm Bm]. destruct (Hq _ Fm Bm) as (Q1 & _ & Q3).
  assert (Kw' : entry w k = fsub (fsq (entry m k)) (fsq (entry m k))) by (etransitivity; [exact (Kw k Hk)|]; f_equal; exact Kq').
  rewrite Kw'. split; [etransitivity; [exact (f_equal is_finite Kq')|exact Q1]|]. split; [eapply Rle_trans; [|exact Q3]; right; exact (f_equal (fun t => Rabs (B2R t - C ^ 2)) Kq')|].
  destruct (fsub_same _ _ Q1 Q1 eq_refl) as [b Eb]. rewrite Eb. split; reflexivity.
Qed.
Lemma set_mismatch nm s lb x : hist nm s lb x -> (forall q, fua_shape q <> s -> fum_set_from_uvn fsq x q = (x, Raise AssertionError)) /\ (forall c, ModelFloatParams.fa_shape c <> s -> fum_set_from_constant fsq x c = (x, Raise AssertionError)).
Proof using.
  intros H. apply history_two in H. split; intros c N; [unfold fum_set_from_uvn|unfold fum_set_from_constant]; rewrite (two_shape s x H), (shape_eqb_neq _ _ N); reflexivity.
Qed.
End Setting.
