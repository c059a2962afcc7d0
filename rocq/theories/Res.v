(** Python outcomes: a value or a raised exception. *)
From Coq Require Import List Arith.
Import ListNotations.

(** The exception classes the modelled code can raise. *)
Inductive exc :=
| ValueError | AssertionError | IndexError | KeyError | AttributeError
| TypeError | LinAlgError | UnboundLocalError | DeprecationWarningExc | ZeroDivisionError | RecursionError | NotImplementedError
| NameError.

Inductive res (A : Type) := Ok (a : A) | Raise (e : exc).
Arguments Ok {A} a.
Arguments Raise {A} e.

Definition rbind {A B} (m : res A) (f : A -> res B) : res B :=
  match m with Ok a => f a | Raise e => Raise e end.
Definition rmap {A B} (f : A -> B) (m : res A) : res B :=
  match m with Ok a => Ok (f a) | Raise e => Raise e end.
Definition is_ok {A} (m : res A) : bool := match m with Ok _ => true | Raise _ => false end.

(** A list comprehension whose body may raise: evaluated left to right, the first exception wins. *)
Fixpoint rmapM {A B} (f : A -> res B) (l : list A) : res (list B) :=
  match l with
  | [] => Ok []
  | x :: xs => rbind (f x) (fun y => rbind (rmapM f xs) (fun ys => Ok (y :: ys)))
  end.

(** [assert c] *)
Definition rassert {A} (c : bool) (k : res A) : res A := if c then k else Raise AssertionError.

Notation "'do' x <- m ; k" := (rbind m (fun x => k)) (at level 200, x pattern, m at level 100, k at level 200).

Lemma rmapM_length {A B} (f : A -> res B) l l' : rmapM f l = Ok l' -> length l' = length l.
Proof.
  revert l'; induction l as [|x xs IH]; simpl; intros l' H.
  - inversion H; reflexivity.
  - destruct (f x) as [y|e]; simpl in H; [|discriminate].
    destruct (rmapM f xs) as [ys|e]; simpl in H; [|discriminate].
    inversion H; subst; simpl; f_equal; apply IH; reflexivity.
Qed.

Lemma rmapM_ok {A B} (f : A -> res B) (g : A -> B) l :
  (forall x, In x l -> f x = Ok (g x)) -> rmapM f l = Ok (map g l).
Proof.
  induction l as [|x xs IH]; simpl; intros H; [reflexivity|].
  rewrite H by (left; reflexivity). simpl. rewrite IH by (intros y Hy; apply H; right; exact Hy).
  reflexivity.
Qed.

Lemma rmapM_nth {A B} (f : A -> res B) l l' i a b :
  rmapM f l = Ok l' -> i < length l -> f (nth i l a) = Ok (nth i l' b).
Proof.
  revert l' i; induction l as [|x xs IH]; simpl; intros l' i H Hi; [inversion Hi|].
  destruct (f x) as [y|e] eqn:Ex; simpl in H; [|discriminate].
  destruct (rmapM f xs) as [ys|e] eqn:Exs; simpl in H; [|discriminate].
  inversion H; subst. destruct i as [|i]; simpl; [exact Ex|].
  apply IH; [reflexivity|]. apply Nat.succ_lt_mono; exact Hi.
Qed.

(** tactic: split conjunctions only *)
Ltac splits := repeat match goal with |- _ /\ _ => split end.
