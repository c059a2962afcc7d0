(** Vocabulary for the heap properties: what an object graph shows, which arrays exist, what a caller may do to them. *)
From Coq Require Import String Reals List Bool Arith.
From Verif Require Import Res Num Nd ModelAutograd ModelParameters ModelMatrix ModelSimplex ModelProjection ModelDict ModelHeap.
Import List ListNotations.
Open Scope R_scope.

(** the parameter tree the object graph currently shows *)
Fixpoint shows (s : store) (p : hparam) : param :=
  match p with
  | HLeaf o => Leaf (cur s o)
  | HDict nm ents fi vi fs vs => Dict nm (map (fun e => (fst e, shows s (snd e))) ents) fi vi fs vs
  end.
(** the parameter objects of a tree, from left to right, with repetitions *)
Fixpoint objects (p : hparam) : list nat :=
  match p with
  | HLeaf o => [o]
  | HDict _ ents _ _ _ _ => flat_map (fun e => objects (snd e)) ents
  end.
(** the array (or number) exists *)
Definition exists_in (s : store) (v : pyval) : Prop := match v with PNum _ => True | PArr a => (a_buf a < length (s_heap s))%nat end.
(** no dangling references: the values of the objects exist, the objects of the tree exist *)
Definition sound_store (s : store) : Prop := forall o, (o < length (s_objs s))%nat -> exists_in s (o_val (obj_at s o)).
Definition sound_param (s : store) (p : hparam) : Prop := forall o, In o (objects p) -> (o < length (s_objs s))%nat.
(** any number of writes a.flat[k] = x, to any arrays *)
Definition write := (aref * nat * num)%type.
Definition w_array (w : write) : aref := fst (fst w).
Definition after_writes (h : heap) (ws : list write) : heap := fold_left (fun h w => poke h (w_array w) (snd (fst w)) (snd w)) ws h.
Definition written (s : store) (ws : list write) : store := Store (after_writes (s_heap s) ws) (s_objs s).
(** all of them to arrays that exist in s *)
Definition writes_to_existing (s : store) (ws : list write) : Prop := Forall (fun w => exists_in s (PArr (w_array w))) ws.
(** no array that exists in s shows anything else in s' *)
Definition arrays_kept (s s' : store) : Prop := forall v, exists_in s v -> exists_in s' v /\ rdv (s_heap s') v = rdv (s_heap s) v.
(** an array made after s *)
Definition made_after (s : store) (v : pyval) : Prop := match v with PNum _ => True | PArr a => (length (s_heap s) <= a_buf a)%nat end.
(** the positions of the flat vector that a class stores as they are (C91): not those of the matrix classes *)
Definition keeps_reference (l : leaf) : bool := match l with LPosDef _ | LPosDefV _ | LPosDefA _ => false | _ => true end.
Fixpoint live_positions (p : param) : list bool :=
  match p with
  | Leaf l => repeat (keeps_reference l) (leaf_vector_size l)
  | Dict _ ents _ _ _ _ => flat_map (fun e => live_positions (snd e)) ents
  end.
(** where the slices of the objects begin in the flat free vector *)
Fixpoint occurrences (s : store) (p : hparam) (off : nat) : list (nat * nat) :=
  match p with
  | HLeaf o => [(o, off)]
  | HDict _ ents _ _ _ _ =>
      (fix go (l : list (string * hparam)) (off : nat) : list (nat * nat) :=
         match l with
         | [] => []
         | (_, q) :: tl => occurrences s q off ++ go tl (off + hp_free_size s q)%nat
         end) ents off
  end.
(** entry by entry: the new one where the mask is true, else the old one *)
Fixpoint overlay (mask : list bool) (new old : list num) : list num :=
  match mask, new, old with
  | b :: m, x :: n, y :: o => (if b then x else y) :: overlay m n o
  | _, _, _ => []
  end.
(** the slice of the object that comes last *)
Definition last_slice (occ : list (nat * nat)) (o i : nat) : Prop :=
  exists before after, occ = before ++ (o, i) :: after /\ ~ In o (map fst after).
(** the classes whose get_vector hands out the stored array *)
Definition hands_out (l : leaf) : bool := match l with LScalar _ | LVector _ | LSubspace _ => true | _ => false end.
(** an array whose entries are different cells of an existing buffer, as every numpy array made by allocation or slicing is *)
Definition proper_array (s : store) (a : aref) : Prop :=
  exists_in s (PArr a) /\ NoDup (data (a_idx a)) /\ Forall (fun i => (i < length (buffer (s_heap s) (a_buf a)))%nat) (data (a_idx a)).
