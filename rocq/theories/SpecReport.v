(** Vocabulary for what parameters report about themselves. *)
From Coq Require Import String Ascii Reals List Bool Arith.
From Verif Require Import Res Num Nd RSum ModelAutograd ModelSparse ModelParameters ModelMatrix ModelSimplex ModelProjection ModelDict ModelObjective.
From Verif Require Import ModelReport.
Import List ListNotations.
Open Scope nat_scope.

(** the parameters of a tree that are not dictionaries, from left to right *)
Fixpoint leaves (p : param) : list leaf :=
  match p with
  | Leaf l => [l]
  | Dict _ ents _ _ _ _ => flat_map (fun e => leaves (snd e)) ents
  end.

(** s is a number in decimal: digits only, no superfluous zero in front, and its value is k *)
Definition digit (c : ascii) : option nat :=
  let n := nat_of_ascii c in if (48 <=? n)%nat && (n <=? 57)%nat then Some (n - 48) else None.
Fixpoint digits_value (s : string) (acc : nat) : option nat :=
  match s with
  | EmptyString => Some acc
  | String c tl => match digit c with Some d => digits_value tl (10 * acc + d) | None => None end
  end.
Definition decimal (s : string) (k : nat) : Prop :=
  s <> EmptyString /\ digits_value s 0 = Some k /\ (forall tl, s = String "0" tl -> tl = EmptyString).

(** the classes that number their entries, and the label of entry k: name_k, or the bare name *)
Definition numbers_entries (l : leaf) : bool := match l with LVector _ | LSubspace _ => true | _ => false end.
Definition is_label (l : leaf) (k : nat) (s : string) : Prop :=
  if numbers_entries l then exists d, decimal d k /\ s = (leaf_name l ++ "_" ++ d)%string else s = leaf_name l.
(** how many labels a parameter contributes *)
Definition label_count (l : leaf) : nat := if numbers_entries l then leaf_vector_size l else 1.
(** the classes with one label per entry of the vector *)
Definition one_label_per_entry (l : leaf) : Prop := match l with LScalar _ | LVector _ | LSubspace _ => True | _ => False end.
(** where position i lies when every parameter of ls takes up (size l) positions *)
Definition position (size : leaf -> nat) (ls : list leaf) (i : nat) (l : leaf) (k : nat) : Prop :=
  exists l1 l2, ls = l1 ++ l :: l2 /\ k < size l /\ i = fold_right Nat.add 0 (map size l1) + k.
(** the string has no underscore *)
Fixpoint no_underscore (s : string) : Prop :=
  match s with EmptyString => True | String c tl => c <> "_"%char /\ no_underscore tl end.

(** every member is still stored under its own name *)
Fixpoint names_are_keys (p : param) : Prop :=
  match p with
  | Leaf _ => True
  | Dict _ ents _ _ _ _ =>
      (fix all (l : list (string * param)) : Prop := match l with [] => True | (k, q) :: tl => p_name q = k /\ names_are_keys q /\ all tl end) ents
  end.
(** the value has an entry (no dimension is 0) *)
Definition has_entries (l : leaf) : Prop := nd_wf (leaf_get l) /\ 0 < nd_size (leaf_get l).
(** the value the nested lists o hold at an index tuple *)
Fixpoint entry_of (o : pyobj) (idx : list nat) : option num :=
  match o, idx with
  | ONum x, [] => Some x
  | OList l, i :: tl => match nth_error l i with Some q => entry_of q tl | None => None end
  | _, _ => None
  end.
(** member e is the last one named k *)
Definition last_named (ents : list (string * param)) (k : string) (q : param) : Prop :=
  exists e1 key e2, ents = e1 ++ (key, q) :: e2 /\ p_name q = k /\ Forall (fun e => p_name (snd e) <> k) e2.
(** the paths start differently at some point *)
Fixpoint diverge (p q : list string) : Prop :=
  match p, q with x :: p', y :: q' => x <> y \/ diverge p' q' | _, _ => False end.

(** ---- matrices ---- *)
Open Scope R_scope.
Definition m_rows (M : matrix) : nat := match M with DenseM A => rm_rows A | SparseM A => fst (coo_shape A) end.
Definition m_cols (M : matrix) : nat := match M with DenseM A => rm_cols A | SparseM A => snd (coo_shape A) end.
Definition m_entry (M : matrix) (i j : nat) : R := match M with DenseM A => rm_get A i j | SparseM A => coo_get A i j end.
(** the stored entries of a sparse matrix lie within its shape (scipy checks this at construction) *)
Definition m_ok (M : matrix) : Prop :=
  match M with
  | DenseM _ => True
  | SparseM A => forall r c v, In ((r, c), v) (coo_ent A) -> (r < fst (coo_shape A))%nat /\ (c < snd (coo_shape A))%nat
  end.

(** ---- timers ---- *)
(** the clock of the last tic() in a history *)
Fixpoint last_tic (ops : list timer_op) : option R :=
  match ops with
  | [] => None
  | o :: tl => match last_tic tl with Some t => Some t | None => match o with Tic t => Some t | Toc _ _ => None end end
  end.
