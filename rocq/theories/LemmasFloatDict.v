(** Dictionaries of parameters in double precision: setting and reading a tree is setting and reading its parameters in order. *)
From Coq Require Import String List Bool Arith Lia.
From Verif Require Import Res Nd SpecFloat ModelFloat ModelFloatDict SpecFloatDict.
From Verif Require ModelDict LemmasDict ModelFloatParams ModelFloatSimplex ModelFloatMatrix ModelFloatStack.
Import List ListNotations.
Set Bullet Behavior "Strict Subproofs".

Notation ents := (list (string * fparam)).
Lemma fparam_rec (P : fparam -> Prop) : (forall nm l, P (FLeaf nm l)) -> (forall nm es fs vs, Forall (fun e => P (snd e)) es -> P (FDict nm es fs vs)) -> forall p, P p.
Proof.
  intros HL HD. fix IH 1. intros [nm l|nm es fs vs]; [apply HL|]. apply HD. induction es as [|[k q] tl I]; constructor; [apply IH|exact I].
Qed.

(** the members of the entries of a dictionary *)
Fixpoint emembers (es : ents) : list (list string * fleaf) :=
  match es with
  | [] => []
  | (k, q) :: tl => map (fun m => (k :: fst m, snd m)) (members q) ++ emembers tl
  end.
Lemma members_dict nm es fs vs : members (FDict nm es fs vs) = emembers es.
Proof. reflexivity. Qed.
Lemma no_empty_dict nm es fs vs : no_empty (FDict nm es fs vs) <-> es <> [] /\ Forall (fun e => no_empty (snd e)) es.
Proof.
  change (no_empty (FDict nm es fs vs)) with (es <> [] /\ (fix go (l : ents) : Prop := match l with [] => True | (_, q) :: tl => no_empty q /\ go tl end) es).
  apply and_iff_compat_l. induction es as [|[k q] tl I]; [split; constructor|]. rewrite Forall_cons_iff. cbn [snd]. rewrite <- I. reflexivity.
Qed.

Lemma total_app s a b : total s (a ++ b) = total s a + total s b.
Proof. unfold total. rewrite map_app, list_sum_app. reflexivity. Qed.
Lemma total_map s f (a : list (list string * fleaf)) : total s (map (fun m => (f (fst m), snd m)) a) = total s a.
Proof. unfold total. rewrite map_map. reflexivity. Qed.

(** ---- set_in_order ---- *)
Section Order.
Context (size : fleaf -> nat) (set : fleaf -> list double -> res fleaf).
Lemma sio_map f ms x : set_in_order size set (map (fun m => (f (fst m), snd m)) ms) x =
  (map (fun m => (f (fst m), snd m)) (fst (set_in_order size set ms x)), snd (set_in_order size set ms x)).
Proof.
  revert x. induction ms as [|[k l] tl I]; intros x; [reflexivity|]. cbn [map set_in_order fst snd]. destruct (set l _); [|reflexivity]. rewrite I. reflexivity.
Qed.
Lemma firstn_firstn_le {A} (l : list A) a b : a <= b -> firstn a (firstn b l) = firstn a l.
Proof. intros H. rewrite firstn_firstn. f_equal. lia. Qed.
Lemma skipn_skipn_add {A} (l : list A) a b : skipn a (skipn b l) = skipn (b + a) l.
Proof. revert l. induction b as [|b I]; intros [|h l]; cbn [skipn Nat.add]; try reflexivity; [destruct a; reflexivity|apply I]. Qed.
Lemma skipn_firstn_sub {A} (l : list A) a b : skipn a (firstn b l) = firstn (b - a) (skipn a l).
Proof. apply skipn_firstn_comm. Qed.
Lemma sio_app a b x : set_in_order size set (a ++ b) x =
  let r := set_in_order size set a (firstn (total size a) x) in
  match snd r with
  | Ok _ => let r' := set_in_order size set b (skipn (total size a) x) in (fst r ++ fst r', snd r')
  | Raise e => (fst r ++ b, Raise e)
  end.
Proof.
  revert x. induction a as [|[k l] tl I]; intros x.
  - cbn [app set_in_order fst snd]. change (skipn (total size []) x) with x. destruct (set_in_order size set b x); reflexivity.
  - cbn [app set_in_order]. change (total size ((k, l) :: tl)) with (size l + total size tl). rewrite firstn_firstn_le by lia. destruct (set l (firstn (size l) x)) as [l'|e]; [|reflexivity].
    rewrite I. cbn [fst snd]. rewrite skipn_firstn_sub. replace (size l + total size tl - size l) with (total size tl) by lia. rewrite skipn_skipn_add.
    destruct (snd (set_in_order size set tl (firstn (total size tl) (skipn (size l) x)))); reflexivity.
Qed.
End Order.
Lemma gio_app get a b : get_in_order get (a ++ b) = do u <- get_in_order get a; do v <- get_in_order get b; Ok (u ++ v).
Proof.
  induction a as [|[k l] tl I]; cbn [app get_in_order rbind].
  - destruct (get_in_order get b); reflexivity.
  - rewrite I. destruct (get l); cbn [rbind]; [|reflexivity]. destruct (get_in_order get tl); cbn [rbind]; [|reflexivity]. destruct (get_in_order get b); cbn [rbind]; [|reflexivity]. rewrite app_assoc. reflexivity.
Qed.
Lemma gio_map get f ms : get_in_order get (map (fun m => (f (fst m), snd m)) ms) = get_in_order get ms.
Proof. induction ms as [|[k l] tl I]; [reflexivity|]. cbn [map get_in_order fst snd]. rewrite I. reflexivity. Qed.

(** ---- the loop of set_free and set_vector ---- *)
Section Loop.
Context (psize : fparam -> nat) (setf : fparam -> list double -> fparam * res unit) (vec : list double).
Fixpoint set_go (l : ents) (offset : nat) : ents * res unit :=
  match l with
  | [] => ([], Ok tt)
  | (k, q) :: tl =>
      let r := setf q (slice vec offset (offset + psize q)) in
      match snd r with
      | Ok _ => let r' := set_go tl (offset + psize (fst r))%nat in ((k, fst r) :: fst r', snd r')
      | Raise e => ((k, fst r) :: tl, Raise e)
      end
  end.
Definition esize (es : ents) : nat := list_sum (map (fun e => psize (snd e)) es).
Lemma set_go_Forall (P : fparam -> Prop) es off : Forall (fun e => P (snd e)) es -> (forall q x, P q -> P (fst (setf q x))) -> Forall (fun e => P (snd e)) (fst (set_go es off)).
Proof.
  intros H Hs. revert off. induction es as [|[k q] tl I]; intros off; [constructor|]. apply Forall_cons_iff in H. destruct H as [Hq Ht]. cbn [set_go]. cbn [snd] in Hq.
  assert (Hq' := Hs q (slice vec off (off + psize q)) Hq). destruct (snd (setf q (slice vec off (off + psize q)))); cbn [fst]; constructor; try exact Hq'; [apply I|]; exact Ht.
Qed.
Lemma set_go_map {B} (f : string * fparam -> B) es off : Forall (fun e => forall x, f (fst e, fst (setf (snd e) x)) = f e) es -> map f (fst (set_go es off)) = map f es.
Proof.
  intros H. revert off. induction es as [|[k q] tl I]; intros off; [reflexivity|]. apply Forall_cons_iff in H. destruct H as [Hq Ht]. cbn [set_go]. cbn [fst snd] in Hq.
  destruct (snd (setf q (slice vec off (off + psize q)))); cbn [fst map]; rewrite Hq; [rewrite (I Ht)|]; reflexivity.
Qed.
Context (lsize : fleaf -> nat) (lset : fleaf -> list double -> res fleaf).
Lemma set_go_members es off :
  Forall (fun e => psize (snd e) = total lsize (members (snd e)) /\ (forall x, psize (fst (setf (snd e) x)) = psize (snd e)) /\
    forall x, length x = psize (snd e) -> (members (fst (setf (snd e) x)), snd (setf (snd e) x)) = set_in_order lsize lset (members (snd e)) x) es ->
  length vec = off + esize es -> (emembers (fst (set_go es off)), snd (set_go es off)) = set_in_order lsize lset (emembers es) (skipn off vec).
Proof.
  intros H. revert off. induction es as [|[k q] tl I]; intros off L; [reflexivity|]. apply Forall_cons_iff in H. destruct H as [(Hs & Hk & Hm) Ht]. cbn [snd] in Hs, Hk, Hm.
  change (esize ((k, q) :: tl)) with (psize q + esize tl) in L. cbn [set_go emembers]. rewrite sio_app, total_map, sio_map. cbn [fst snd]. rewrite <- Hs.
  assert (SL : slice vec off (off + psize q) = firstn (psize q) (skipn off vec)) by (unfold slice; f_equal; lia). rewrite SL.
  assert (LQ : length (firstn (psize q) (skipn off vec)) = psize q) by (rewrite firstn_length, skipn_length; lia).
  specialize (Hm _ LQ). rewrite <- Hm. cbn [fst snd]. rewrite skipn_skipn_add. rewrite Hk.
  destruct (snd (setf q (firstn (psize q) (skipn off vec)))); cbn [fst snd emembers]; [|reflexivity].
  rewrite <- (I Ht (off + psize q)) by lia. reflexivity.
Qed.
End Loop.
Lemma esize_emembers psize lsize es : Forall (fun e => psize (snd e) = total lsize (members (snd e))) es -> esize psize es = total lsize (emembers es).
Proof.
  induction 1 as [|[k q] tl Hq _ I]; [reflexivity|]. cbn [snd] in Hq. change (esize psize ((k, q) :: tl)) with (psize q + esize psize tl). cbn [emembers]. rewrite total_app, total_map, I, Hq. reflexivity.
Qed.

(** ---- the trees a program can build ---- *)
Fixpoint dict_wf (p : fparam) : Prop :=
  match p with
  | FLeaf _ _ => True
  | FDict _ es fs vs => fs = esize fd_free_size es /\ vs = esize fd_vector_size es /\ NoDup (map fst es) /\
      (fix go (l : ents) : Prop := match l with [] => True | (_, q) :: tl => dict_wf q /\ go tl end) es
  end.
Lemma dict_wf_dict nm es fs vs : dict_wf (FDict nm es fs vs) <->
  fs = esize fd_free_size es /\ vs = esize fd_vector_size es /\ NoDup (map fst es) /\ Forall (fun e => dict_wf (snd e)) es.
Proof.
  change (dict_wf (FDict nm es fs vs)) with (fs = esize fd_free_size es /\ vs = esize fd_vector_size es /\ NoDup (map fst es) /\
    (fix go (l : ents) : Prop := match l with [] => True | (_, q) :: tl => dict_wf q /\ go tl end) es).
  do 3 apply and_iff_compat_l. induction es as [|[k q] tl I]; [split; constructor|]. rewrite Forall_cons_iff. cbn [snd]. rewrite <- I. reflexivity.
Qed.
Lemma wf_sizes p : dict_wf p -> fd_free_size p = total fl_free_size (members p) /\ fd_vector_size p = total fl_vector_size (members p).
Proof.
  induction p as [nm l|nm es fs vs IH] using fparam_rec; intros W.
  - cbn [members fd_free_size fd_vector_size]. unfold total. cbn. lia.
  - apply dict_wf_dict in W. destruct W as (-> & -> & _ & W). rewrite members_dict. cbn [fd_free_size fd_vector_size].
    assert (H : Forall (fun e => fd_free_size (snd e) = total fl_free_size (members (snd e)) /\ fd_vector_size (snd e) = total fl_vector_size (members (snd e))) es).
    { rewrite Forall_forall in *. intros e He. apply IH; [exact He|apply W; exact He]. }
    split; apply esize_emembers; eapply Forall_impl; [|exact H| |exact H]; intros e He; apply He.
Qed.

Section WithLibraries.
Context (fexp flog : dbl -> dbl) (fsum : list dbl -> dbl) (fdot : nat -> nat -> list dbl -> list dbl -> dbl) (fchol : nd dbl -> res (nd dbl)).
Notation set_free := (fd_set_free fexp flog fsum fdot).
Notation set_vector := fd_set_vector.
Notation lset_free := (fl_set_free fexp flog fsum fdot).
Notation lset_vector := fl_set_vector.
Notation get_free := (fd_get_free flog fchol).
Notation get_vector := fd_get_vector.

Lemma set_free_dict nm es fs vs x : set_free (FDict nm es fs vs) x =
  if negb (Nat.eqb (length x) fs) then (FDict nm es fs vs, Raise ValueError)
  else (FDict nm (fst (set_go fd_free_size set_free x es 0)) fs vs, snd (set_go fd_free_size set_free x es 0)).
Proof. reflexivity. Qed.
Lemma set_vector_dict nm es fs vs x : set_vector (FDict nm es fs vs) x =
  if negb (Nat.eqb (length x) vs) then (FDict nm es fs vs, Raise ValueError)
  else (FDict nm (fst (set_go fd_vector_size set_vector x es 0)) fs vs, snd (set_go fd_vector_size set_vector x es 0)).
Proof. reflexivity. Qed.

(** a setter keeps the sizes of a parameter *)
Ltac inv_res H := repeat match type of H with
  | Raise _ = Ok _ => discriminate H
  | context [match shape ?n with _ => _ end] => destruct (shape n) as [|? [|? [|? ?]]]
  | context [if ?b then _ else _] => destruct b; cbn [negb] in H
  | context [rbind ?m _] => destruct m; cbn [rbind] in H
  end.
Lemma lset_free_sizes l x l' : lset_free l x = Ok l' -> fl_free_size l' = fl_free_size l /\ fl_vector_size l' = fl_vector_size l.
Proof.
  destruct l; cbn [fl_set_free]; unfold lift_res.
  - destruct (ModelFloatParams.fscalar_set_free _ _ _) as [q|]; intros H; [|discriminate H]. injection H as <-. split; reflexivity.
  - destruct (fvector_set_free _ _ _) as [q|] eqn:E; intros H; [|discriminate H]. injection H as <-. unfold fvector_set_free, fvector_set in E. inv_res E. injection E as <-. split; reflexivity.
  - destruct (ModelFloatParams.farray_set_free _ _ _) as [q|] eqn:E; intros H; [|discriminate H]. injection H as <-. unfold ModelFloatParams.farray_set_free, ModelFloatParams.farray_set in E. inv_res E. injection E as <-. split; reflexivity.
  - destruct (ModelFloatSimplex.fsimplex_set_free _ _ _ _ _) as [q|] eqn:E; intros H; [|discriminate H]. injection H as <-. unfold ModelFloatSimplex.fsimplex_set_free, ModelFloatSimplex.fsimplex_set in E. inv_res E. injection E as <-. split; reflexivity.
  - destruct (ModelFloatMatrix.fposdef_set_free _ _ _ _) as [q|] eqn:E; intros H; [|discriminate H]. injection H as <-. unfold ModelFloatMatrix.fposdef_set_free, ModelFloatMatrix.fposdef_set in E. inv_res E. injection E as <-. split; reflexivity.
  - destruct (ModelFloatStack.fv_set_free _ _ _ _) as [q|] eqn:E; intros H; [|discriminate H]. injection H as <-. unfold ModelFloatStack.fv_set_free in E. inv_res E. injection E as <-. split; reflexivity.
  - destruct (ModelFloatStack.fa_set_free _ _ _ _) as [q|] eqn:E; intros H; [|discriminate H]. injection H as <-. unfold ModelFloatStack.fa_set_free in E. inv_res E. injection E as <-. split; reflexivity.
Qed.
Lemma lset_vector_sizes l x l' : lset_vector l x = Ok l' -> fl_free_size l' = fl_free_size l /\ fl_vector_size l' = fl_vector_size l.
Proof.
  destruct l; cbn [fl_set_vector]; unfold lift_res.
  - destruct (fscalar_set_vector _ _) as [q|]; intros H; [|discriminate H]. injection H as <-. split; reflexivity.
  - destruct (fvector_set_vector _ _) as [q|] eqn:E; intros H; [|discriminate H]. injection H as <-. unfold fvector_set_vector, fvector_set in E. inv_res E. injection E as <-. split; reflexivity.
  - destruct (ModelFloatParams.farray_set_vector _ _) as [q|] eqn:E; intros H; [|discriminate H]. injection H as <-. unfold ModelFloatParams.farray_set_vector, ModelFloatParams.farray_set in E. inv_res E. injection E as <-. split; reflexivity.
  - destruct (fsimplex_set_vector _ _) as [q|] eqn:E; intros H; [|discriminate H]. injection H as <-. unfold fsimplex_set_vector, ModelFloatSimplex.fsimplex_set in E. inv_res E. injection E as <-. split; reflexivity.
  - destruct (ModelFloatMatrix.fposdef_set_vector _ _) as [q|] eqn:E; intros H; [|discriminate H]. injection H as <-. unfold ModelFloatMatrix.fposdef_set_vector, ModelFloatMatrix.fposdef_set in E. inv_res E. injection E as <-. split; reflexivity.
  - destruct (ModelFloatStack.fv_set_vector _ _) as [q|] eqn:E; intros H; [|discriminate H]. injection H as <-. unfold ModelFloatStack.fv_set_vector in E. inv_res E. injection E as <-. split; reflexivity.
  - destruct (ModelFloatStack.fa_set_vector _ _) as [q|] eqn:E; intros H; [|discriminate H]. injection H as <-. unfold ModelFloatStack.fa_set_vector in E. inv_res E. injection E as <-. split; reflexivity.
Qed.
Lemma set_free_sizes p x : fd_free_size (fst (set_free p x)) = fd_free_size p /\ fd_vector_size (fst (set_free p x)) = fd_vector_size p.
Proof.
  destruct p as [nm l|nm es fs vs].
  - cbn [fd_set_free]. destruct (lset_free l x) as [l'|e] eqn:E; [exact (lset_free_sizes _ _ _ E)|split; reflexivity].
  - rewrite set_free_dict. destruct (negb _); split; reflexivity.
Qed.
Lemma set_vector_sizes p x : fd_free_size (fst (set_vector p x)) = fd_free_size p /\ fd_vector_size (fst (set_vector p x)) = fd_vector_size p.
Proof.
  destruct p as [nm l|nm es fs vs].
  - cbn [fd_set_vector]. destruct (lset_vector l x) as [l'|e] eqn:E; [exact (lset_vector_sizes _ _ _ E)|split; reflexivity].
  - rewrite set_vector_dict. destruct (negb _); split; reflexivity.
Qed.
Lemma esize_map psize es es' : map (fun e : string * fparam => psize (snd e)) es' = map (fun e => psize (snd e)) es -> esize psize es' = esize psize es.
Proof. intros H. unfold esize. rewrite H. reflexivity. Qed.
Lemma set_go_wf psize setf x es : (forall q y, fd_free_size (fst (setf q y)) = fd_free_size q /\ fd_vector_size (fst (setf q y)) = fd_vector_size q) ->
  Forall (fun e => dict_wf (snd e) -> forall y, dict_wf (fst (setf (snd e) y))) es -> Forall (fun e => dict_wf (snd e)) es -> NoDup (map fst es) ->
  let es' := fst (set_go psize setf x es 0) in
  esize fd_free_size es' = esize fd_free_size es /\ esize fd_vector_size es' = esize fd_vector_size es /\ NoDup (map fst es') /\ Forall (fun e => dict_wf (snd e)) es'.
Proof.
  intros Hs Hw W N. cbv zeta. split; [|split; [|split]].
  - apply esize_map. apply (set_go_map psize setf x (fun e => fd_free_size (snd e))). apply Forall_forall. intros [k q] _ y. apply Hs.
  - apply esize_map. apply (set_go_map psize setf x (fun e => fd_vector_size (snd e))). apply Forall_forall. intros [k q] _ y. apply Hs.
  - rewrite (set_go_map psize setf x fst); [exact N|]. apply Forall_forall. intros [k q] _ y. reflexivity.
  - clear N. generalize 0 as off. induction es as [|[k q] tl I]; intros off; [constructor|]. apply Forall_cons_iff in Hw, W. destruct Hw as [Hq Ht], W as [Wq Wt]. cbn [snd] in Hq, Wq.
    cbn [set_go]. destruct (snd (setf q (slice x off (off + psize q)))); cbn [fst]; constructor; [apply Hq; exact Wq|apply I; assumption|apply Hq; exact Wq|exact Wt].
Qed.
Lemma set_free_wf p x : dict_wf p -> dict_wf (fst (set_free p x)).
Proof.
  revert x. induction p as [nm l|nm es fs vs IH] using fparam_rec; intros x W.
  - cbn [fd_set_free]. destruct (lset_free l x); exact I.
  - rewrite set_free_dict. destruct (negb _); [exact W|]. cbn [fst]. apply dict_wf_dict in W. destruct W as (-> & -> & N & W). apply dict_wf_dict.
    destruct (set_go_wf fd_free_size set_free x es set_free_sizes) as (A & B & C & D); [|exact W|exact N|].
    + eapply Forall_impl; [|exact IH]. intros e He We y. apply He. exact We.
    + repeat split; try assumption; symmetry; assumption.
Qed.
Lemma set_vector_wf p x : dict_wf p -> dict_wf (fst (set_vector p x)).
Proof.
  revert x. induction p as [nm l|nm es fs vs IH] using fparam_rec; intros x W.
  - cbn [fd_set_vector]. destruct (lset_vector l x); exact I.
  - rewrite set_vector_dict. destruct (negb _); [exact W|]. cbn [fst]. apply dict_wf_dict in W. destruct W as (-> & -> & N & W). apply dict_wf_dict.
    destruct (set_go_wf fd_vector_size set_vector x es set_vector_sizes) as (A & B & C & D); [|exact W|exact N|].
    + eapply Forall_impl; [|exact IH]. intros e He We y. apply He. exact We.
    + repeat split; try assumption; symmetry; assumption.
Qed.
Lemma replace_sum {V} (f : V -> nat) (d : list (string * V)) k q v : ModelDict.od_get d k = Some q -> f v = f q ->
  map (fun e => f (snd e)) (ModelDict.od_replace d k v) = map (fun e => f (snd e)) d.
Proof.
  induction d as [|[k' q'] tl I]; cbn [ModelDict.od_get ModelDict.od_replace]; [discriminate|]. destruct (String.eqb k k').
  - intros E H. injection E as <-. cbn [map snd]. rewrite H. reflexivity.
  - intros E H. cbn [map snd]. rewrite (I E H). reflexivity.
Qed.
Lemma replace_keys {V} (d : list (string * V)) k v : map fst (ModelDict.od_replace d k v) = map fst d.
Proof. induction d as [|[k' q'] tl I]; [reflexivity|]. cbn [ModelDict.od_replace]. destruct (String.eqb k k'); [reflexivity|]. cbn [map fst]. rewrite I. reflexivity. Qed.

Lemma NoDup_snoc (l : list string) k : NoDup l -> ~ In k l -> NoDup (l ++ [k]).
Proof.
  intros N. induction N as [|h t Hh Ht I]; intros K; [constructor; [exact K|constructor]|]. cbn [app]. constructor.
  - rewrite in_app_iff. intros [H|[H|[]]]; [exact (Hh H)|]. apply K. left. symmetry. exact H.
  - apply I. intros H. apply K. right. exact H.
Qed.
Lemma built_wf p : built set_free set_vector p -> dict_wf p.
Proof.
  induction 1 as [nm l|nm|d q d' Bd Wd Bq Wq E F|p x B W|p x B W|d k q q' Bd Wd G B' W' H1 H2].
  - exact I.
  - repeat split; constructor.
  - destruct d as [|nm es fs vs]; [discriminate|]. cbn [fd_push] in E. injection E as <-. apply dict_wf_dict in Wd. destruct Wd as (-> & -> & N & W).
    cbn [fd_getitem] in F. destruct (ModelDict.od_get es (fd_name q)) eqn:G; [discriminate|]. apply LemmasDict.od_get_none in G. rewrite (LemmasDict.od_set_fresh _ _ _ G). apply dict_wf_dict.
    unfold esize. rewrite !map_app, !list_sum_app. cbn [map list_sum fold_right snd fst]. rewrite !Nat.add_0_r. split; [reflexivity|]. split; [reflexivity|]. split; [apply NoDup_snoc; assumption|].
    apply Forall_app. split; [exact W|]. constructor; [exact Wq|constructor].
  - apply set_free_wf. exact W.
  - apply set_vector_wf. exact W.
  - destruct d as [|nm es fs vs]; [exact I|]. cbn [fd_getitem] in G. destruct (ModelDict.od_get es k) as [q0|] eqn:E; [|discriminate]. injection G as ->. cbn [fd_replace].
    apply dict_wf_dict in Wd. destruct Wd as (-> & -> & N & W). apply dict_wf_dict. unfold esize. rewrite (replace_sum fd_free_size es k q q' E H1), (replace_sum fd_vector_size es k q q' E H2), replace_keys.
    split; [reflexivity|]. split; [reflexivity|]. split; [exact N|]. apply LemmasDict.od_replace_Forall; assumption.
Qed.

(** ---- setting a tree ---- *)
Lemma set_free_order p x : dict_wf p -> length x = fd_free_size p -> (members (fst (set_free p x)), snd (set_free p x)) = set_in_order fl_free_size lset_free (members p) x.
Proof.
  revert x. induction p as [nm l|nm es fs vs IH] using fparam_rec; intros x W L.
  - cbn [members set_in_order fd_set_free fd_free_size] in *. rewrite <- L, firstn_all. destruct (lset_free l x); reflexivity.
  - rewrite set_free_dict. apply dict_wf_dict in W. destruct W as (-> & -> & _ & W). cbn [fd_free_size] in L. rewrite L, Nat.eqb_refl. cbn [negb fst snd]. rewrite !members_dict.
    rewrite (set_go_members fd_free_size set_free x fl_free_size lset_free es 0); [reflexivity| |exact L].
    rewrite Forall_forall in *. intros e He. split; [apply wf_sizes; apply W; exact He|]. split; [intros y; apply set_free_sizes|]. intros y Ly. apply IH; [exact He|apply W; exact He|exact Ly].
Qed.
Lemma set_vector_order p x : dict_wf p -> length x = fd_vector_size p -> (members (fst (set_vector p x)), snd (set_vector p x)) = set_in_order fl_vector_size lset_vector (members p) x.
Proof.
  revert x. induction p as [nm l|nm es fs vs IH] using fparam_rec; intros x W L.
  - cbn [members set_in_order fd_set_vector fd_vector_size] in *. rewrite <- L, firstn_all. destruct (lset_vector l x); reflexivity.
  - rewrite set_vector_dict. apply dict_wf_dict in W. destruct W as (-> & -> & _ & W). cbn [fd_vector_size] in L. rewrite L, Nat.eqb_refl. cbn [negb fst snd]. rewrite !members_dict.
    rewrite (set_go_members fd_vector_size set_vector x fl_vector_size lset_vector es 0); [reflexivity| |exact L].
    rewrite Forall_forall in *. intros e He. split; [apply wf_sizes; apply W; exact He|]. split; [intros y; apply set_vector_sizes|]. intros y Ly. apply IH; [exact He|apply W; exact He|exact Ly].
Qed.

(** ---- reading a tree ---- *)
Definition get_go (getf : fparam -> res (list double)) : ents -> res (list (list double)) :=
  fix go (l : ents) := match l with
  | [] => Ok []
  | (_, q) :: tl => do a <- getf q; do r <- go tl; Ok (a :: r)
  end.
Lemma get_go_cons getf k q tl : get_go getf ((k, q) :: tl) = do a <- getf q; do r <- get_go getf tl; Ok (a :: r).
Proof. reflexivity. Qed.
Lemma get_free_dict nm es fs vs : get_free (FDict nm es fs vs) = do l <- get_go get_free es; fd_hstack l.
Proof. reflexivity. Qed.
Lemma get_vector_dict nm es fs vs : get_vector (FDict nm es fs vs) = do l <- get_go get_vector es; fd_hstack l.
Proof. reflexivity. Qed.
Lemma get_go_members getf lget es : es <> [] -> Forall (fun e => getf (snd e) = get_in_order lget (members (snd e))) es ->
  (do l <- get_go getf es; fd_hstack l) = get_in_order lget (emembers es).
Proof.
  intros NE H. assert (G : (do l <- get_go getf es; Ok (List.concat l)) = get_in_order lget (emembers es)).
  { clear NE. induction H as [|[k q] tl Hq _ I]; [reflexivity|]. cbn [snd] in Hq. cbn [emembers]. rewrite get_go_cons, gio_app, gio_map, <- Hq, <- I.
    destruct (getf q); cbn [rbind]; [|reflexivity]. destruct (get_go getf tl); reflexivity. }
  rewrite <- G. destruct es as [|[k q] tl]; [contradiction|]. rewrite get_go_cons. destruct (getf q); cbn [rbind]; [|reflexivity]. destruct (get_go getf tl); reflexivity.
Qed.
Lemma gio_leaf get (l : fleaf) : get_in_order get [([], l)] = get l.
Proof. cbn [get_in_order]. destruct (get l); cbn [rbind]; [|reflexivity]. rewrite app_nil_r. reflexivity. Qed.
Lemma get_free_order p : no_empty p -> get_free p = get_in_order (fl_get_free flog fchol) (members p).
Proof.
  induction p as [nm l|nm es fs vs IH] using fparam_rec; intros N; [symmetry; apply gio_leaf|]. apply no_empty_dict in N. destruct N as [NE N]. rewrite get_free_dict, members_dict. apply get_go_members; [exact NE|].
  rewrite Forall_forall in *. intros e He. apply IH; [exact He|apply N; exact He].
Qed.
Lemma get_vector_order p : no_empty p -> get_vector p = get_in_order fl_get_vector (members p).
Proof.
  induction p as [nm l|nm es fs vs IH] using fparam_rec; intros N; [symmetry; apply gio_leaf|]. apply no_empty_dict in N. destruct N as [NE N]. rewrite get_vector_dict, members_dict. apply get_go_members; [exact NE|].
  rewrite Forall_forall in *. intros e He. apply IH; [exact He|apply N; exact He].
Qed.
Lemma set_go_keys_ne psize setf x es : es <> [] -> fst (set_go psize setf x es 0) <> [].
Proof. intros H E. apply H. destruct es as [|[k q] tl]; [reflexivity|]. cbn [set_go] in E. destruct (snd _); discriminate. Qed.
Lemma set_go_no_empty psize setf x es : Forall (fun e => no_empty (snd e) -> forall y, no_empty (fst (setf (snd e) y))) es -> Forall (fun e => no_empty (snd e)) es ->
  forall off, Forall (fun e => no_empty (snd e)) (fst (set_go psize setf x es off)).
Proof.
  intros Hw W. induction es as [|[k q] tl I]; intros off; [constructor|]. apply Forall_cons_iff in Hw, W. destruct Hw as [Hq Ht], W as [Wq Wt]. cbn [snd] in Hq, Wq.
  cbn [set_go]. destruct (snd (setf q (slice x off (off + psize q)))); cbn [fst]; constructor; [apply Hq; exact Wq|apply I; assumption|apply Hq; exact Wq|exact Wt].
Qed.
Lemma set_free_no_empty p x : no_empty p -> no_empty (fst (set_free p x)).
Proof.
  revert x. induction p as [nm l|nm es fs vs IH] using fparam_rec; intros x W.
  - cbn [fd_set_free]. destruct (lset_free l x); exact I.
  - rewrite set_free_dict. destruct (negb _); [exact W|]. cbn [fst]. apply no_empty_dict in W. destruct W as (NE & W). apply no_empty_dict. split; [apply set_go_keys_ne; exact NE|].
    apply set_go_no_empty; [|exact W]. eapply Forall_impl; [|exact IH]. intros e He We y. apply He. exact We.
Qed.
Lemma set_vector_no_empty p x : no_empty p -> no_empty (fst (set_vector p x)).
Proof.
  revert x. induction p as [nm l|nm es fs vs IH] using fparam_rec; intros x W.
  - cbn [fd_set_vector]. destruct (lset_vector l x); exact I.
  - rewrite set_vector_dict. destruct (negb _); [exact W|]. cbn [fst]. apply no_empty_dict in W. destruct W as (NE & W). apply no_empty_dict. split; [apply set_go_keys_ne; exact NE|].
    apply set_go_no_empty; [|exact W]. eapply Forall_impl; [|exact IH]. intros e He We y. apply He. exact We.
Qed.

(** ---- round trips ---- *)
Section RoundTrip.
Context (size : fleaf -> nat) (set : fleaf -> list double -> res fleaf) (get : fleaf -> res (list double)) (rel : fleaf -> list double -> list double -> Prop).
Lemma order_round_trip ms x : length x = total size ms ->
  parts size ms x (fun l y => exists l' w, set l y = Ok l' /\ get l' = Ok w /\ length w = size l /\ rel l y w) ->
  exists w, snd (set_in_order size set ms x) = Ok tt /\ get_in_order get (fst (set_in_order size set ms x)) = Ok w /\ length w = length x /\ related size rel ms x w.
Proof.
  revert x. induction ms as [|[k l] tl I]; intros x L H.
  - exists []. apply length_zero_iff_nil in L. subst x. repeat split; reflexivity.
  - destruct H as [(l' & w & S & G & Lw & R) H]. change (total size ((k, l) :: tl)) with (size l + total size tl) in L.
    destruct (I (skipn (size l) x)) as (v & A & B & Lv & Rv); [rewrite skipn_length; lia|exact H|]. exists (w ++ v). cbn [set_in_order]. rewrite S. cbn [fst snd]. split; [exact A|].
    cbn [get_in_order]. rewrite G, B. cbn [rbind]. split; [reflexivity|]. rewrite skipn_length in Lv. split; [rewrite app_length; lia|]. cbn [related]. rewrite <- Lw.
    rewrite firstn_app, Nat.sub_diag, firstn_all, skipn_app, Nat.sub_diag, skipn_all. cbn [firstn skipn]. rewrite app_nil_r, Lw. split; assumption.
Qed.
End RoundTrip.
End WithLibraries.
