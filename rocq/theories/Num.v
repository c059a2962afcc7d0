(** Numbers as the Python code sees them: finite reals and the IEEE special values.
    SIMPLIFICATION: finite arithmetic is exact (no rounding, overflow or underflow) and there is a
    single, positive zero. *)
From Coq Require Import Reals Lra List Bool.
Import ListNotations.
Open Scope R_scope.

Inductive num := Fin (r : R) | PInf | NInf | NaN.

Definition Rleb (x y : R) : bool := if Rle_dec x y then true else false.
Definition Rltb (x y : R) : bool := if Rlt_dec x y then true else false.
Definition Reqb (x y : R) : bool := if Req_EM_T x y then true else false.

Definition is_fin (x : num) : bool := match x with Fin _ => true | _ => false end.
Definition toR (x : num) : R := match x with Fin r => r | _ => 0 end.

(** IEEE comparisons: anything involving NaN is false. *)
Definition nleb (x y : num) : bool :=
  match x, y with
  | NaN, _ | _, NaN => false
  | NInf, _ => true
  | _, PInf => true
  | Fin a, Fin b => Rleb a b
  | _, NInf => false
  | PInf, _ => false
  end.
Definition nltb (x y : num) : bool :=
  match x, y with
  | NaN, _ | _, NaN => false
  | NInf, NInf => false
  | NInf, _ => true
  | PInf, _ => false
  | _, PInf => true
  | Fin a, Fin b => Rltb a b
  | Fin _, NInf => false
  end.
Definition neqb (x y : num) : bool :=
  match x, y with
  | Fin a, Fin b => Reqb a b
  | PInf, PInf => true
  | NInf, NInf => true
  | _, _ => false
  end.

Definition nopp (x : num) : num :=
  match x with Fin a => Fin (- a) | PInf => NInf | NInf => PInf | NaN => NaN end.
Definition nadd (x y : num) : num :=
  match x, y with
  | NaN, _ | _, NaN => NaN
  | Fin a, Fin b => Fin (a + b)
  | PInf, NInf | NInf, PInf => NaN
  | PInf, _ | _, PInf => PInf
  | NInf, _ | _, NInf => NInf
  end.
Definition nsub (x y : num) : num := nadd x (nopp y).
(** the infinity (or NaN for a zero factor) obtained by scaling [inf] with a finite [a] *)
Definition nscale_inf (a : R) (inf : num) : num :=
  if Rlt_dec 0 a then inf else if Rlt_dec a 0 then nopp inf else NaN.
Definition nmul (x y : num) : num :=
  match x, y with
  | NaN, _ | _, NaN => NaN
  | Fin a, Fin b => Fin (a * b)
  | Fin a, i => nscale_inf a i
  | i, Fin a => nscale_inf a i
  | PInf, PInf | NInf, NInf => PInf
  | PInf, NInf | NInf, PInf => NInf
  end.
Definition ndiv (x y : num) : num :=
  match x, y with
  | NaN, _ | _, NaN => NaN
  | Fin a, Fin b =>
      if Req_EM_T b 0
      then if Rlt_dec 0 a then PInf else if Rlt_dec a 0 then NInf else NaN
      else Fin (a / b)
  | Fin _, _ => Fin 0
  | i, Fin b => if Rlt_dec b 0 then nopp i else i
  | _, _ => NaN
  end.
(** np.exp *)
Definition nexp (x : num) : num :=
  match x with Fin a => Fin (exp a) | PInf => PInf | NInf => Fin 0 | NaN => NaN end.
(** np.log: -inf at zero, NaN on negative numbers *)
Definition nlog (x : num) : num :=
  match x with
  | Fin a => if Rlt_dec 0 a then Fin (ln a) else if Req_EM_T a 0 then NInf else NaN
  | PInf => PInf
  | NInf => NaN
  | NaN => NaN
  end.

(** np.sum of a list (left to right) *)
Definition nsum (l : list num) : num := fold_left nadd l (Fin 0).

(** ---- elementary facts ---- *)
Lemma Rleb_true x y : Rleb x y = true <-> x <= y.
Proof. unfold Rleb; destruct (Rle_dec x y); split; intros; try easy. Qed.
Lemma Rleb_false x y : Rleb x y = false <-> y < x.
Proof. unfold Rleb; destruct (Rle_dec x y); split; intros; try easy; lra. Qed.
Lemma Rltb_true x y : Rltb x y = true <-> x < y.
Proof. unfold Rltb; destruct (Rlt_dec x y); split; intros; try easy. Qed.
Lemma Rltb_false x y : Rltb x y = false <-> y <= x.
Proof. unfold Rltb; destruct (Rlt_dec x y); split; intros; try easy; lra. Qed.
Lemma Reqb_true x y : Reqb x y = true <-> x = y.
Proof. unfold Reqb; destruct (Req_EM_T x y); split; intros; try easy. Qed.
Lemma Reqb_refl x : Reqb x x = true.
Proof. apply Reqb_true; reflexivity. Qed.

Lemma is_fin_eq x : is_fin x = true -> x = Fin (toR x).
Proof. destruct x; simpl; congruence. Qed.
Lemma toR_Fin_map (l : list R) : map toR (map Fin l) = l.
Proof. rewrite map_map. simpl. apply map_id. Qed.
Lemma Fin_toR_map (l : list num) : forallb is_fin l = true -> map Fin (map toR l) = l.
Proof.
  induction l as [|x xs IH]; simpl; intros H; [reflexivity|].
  apply andb_true_iff in H as [Hx Hxs]. rewrite IH by exact Hxs. rewrite <- is_fin_eq by exact Hx. reflexivity.
Qed.
Lemma forallb_is_fin_map (l : list R) : forallb is_fin (map Fin l) = true.
Proof. induction l; simpl; auto. Qed.

Lemma nlog_pos a : 0 < a -> nlog (Fin a) = Fin (ln a).
Proof. intros H; simpl. destruct (Rlt_dec 0 a); [reflexivity|lra]. Qed.
Lemma nlog_exp a : nlog (Fin (exp a)) = Fin a.
Proof. rewrite nlog_pos by apply exp_pos. rewrite ln_exp. reflexivity. Qed.
Lemma nexp_log a : 0 < a -> nexp (nlog (Fin a)) = Fin a.
Proof. intros H; rewrite nlog_pos by exact H; simpl. rewrite exp_ln by exact H. reflexivity. Qed.
Lemma ndiv_fin a b : b <> 0 -> ndiv (Fin a) (Fin b) = Fin (a / b).
Proof. intros H; simpl. destruct (Req_EM_T b 0); [contradiction|reflexivity]. Qed.
Lemma neqb_Fin_inf a : neqb (Fin a) PInf = false /\ neqb (Fin a) NInf = false.
Proof. split; reflexivity. Qed.
Lemma nsum_Fin_acc l a : fold_left nadd (map Fin l) (Fin a) = Fin (a + fold_right Rplus 0 l).
Proof.
  revert a; induction l as [|x xs IH]; intros a; simpl; [f_equal; lra|].
  rewrite IH. f_equal; lra.
Qed.
Lemma nsum_Fin l : nsum (map Fin l) = Fin (fold_right Rplus 0 l).
Proof. unfold nsum. rewrite nsum_Fin_acc. f_equal; lra. Qed.
