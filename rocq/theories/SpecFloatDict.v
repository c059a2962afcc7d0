(** Vocabulary for dictionaries of parameters in double precision: the parameters of a tree in order, and what it means to set and to read
    them one after the other. *)
From Coq Require Import String List Arith Reals.
From Flocq Require Import Core BinarySingleNaN.
From Verif Require Import Res SpecFloat SpecFloatMatrix SpecFloatStack ModelFloatDict.
From Verif Require ModelFloatStack.
Import ListNotations.

(** the parameters of a tree with the keys that lead to them, in the order in which they were pushed *)
Fixpoint members (p : fparam) : list (list string * fleaf) :=
  match p with
  | FLeaf _ l => [([], l)]
  | FDict _ ents _ _ =>
      (fix go (l : list (string * fparam)) : list (list string * fleaf) :=
         match l with
         | [] => []
         | (k, q) :: tl => map (fun m => (k :: fst m, snd m)) (members q) ++ go tl
         end) ents
  end.
Definition total (size : fleaf -> nat) (ms : list (list string * fleaf)) : nat := list_sum (map (fun m => size (snd m)) ms).

(** each parameter takes its part from the front of x; the first that raises ends it, and it and those after it stay as they are *)
Fixpoint set_in_order (size : fleaf -> nat) (set : fleaf -> list double -> res fleaf) (ms : list (list string * fleaf)) (x : list double) :
  list (list string * fleaf) * res unit :=
  match ms with
  | [] => ([], Ok tt)
  | (k, l) :: tl =>
      match set l (firstn (size l) x) with
      | Ok l' => let r := set_in_order size set tl (skipn (size l) x) in ((k, l') :: fst r, snd r)
      | Raise e => ((k, l) :: tl, Raise e)
      end
  end.
(** what the parameters return, one after the other; the first that raises decides what is raised *)
Fixpoint get_in_order (get : fleaf -> res (list double)) (ms : list (list string * fleaf)) : res (list double) :=
  match ms with
  | [] => Ok []
  | (_, l) :: tl => do a <- get l; do r <- get_in_order get tl; Ok (a ++ r)
  end.
(** P holds of each parameter and its part of x *)
Fixpoint parts (size : fleaf -> nat) (ms : list (list string * fleaf)) (x : list double) (P : fleaf -> list double -> Prop) : Prop :=
  match ms with
  | [] => True
  | (_, l) :: tl => P l (firstn (size l) x) /\ parts size tl (skipn (size l) x) P
  end.
(** two vectors of the same number of entries whose parts are related, parameter by parameter *)
Fixpoint related (size : fleaf -> nat) (rel : fleaf -> list double -> list double -> Prop) (ms : list (list string * fleaf)) (x w : list double) : Prop :=
  match ms with
  | [] => x = [] /\ w = []
  | (_, l) :: tl => rel l (firstn (size l) x) (firstn (size l) w) /\ related size rel tl (skipn (size l) x) (skipn (size l) w)
  end.

(** no dictionary in the tree is empty *)
Fixpoint no_empty (p : fparam) : Prop :=
  match p with
  | FLeaf _ _ => True
  | FDict _ ents _ _ => ents <> [] /\
      (fix go (l : list (string * fparam)) : Prop := match l with [] => True | (_, q) :: tl => no_empty q /\ go tl end) ents
  end.

(** one of the three classes of positive definite matrices *)
Definition is_matrix (l : fleaf) : bool := match l with FPosDef _ | FPosDefV _ | FPosDefA _ => true | _ => false end.
(** not a vector or array of no matrices at all (np.stack and np.hstack raise for those) *)
Definition some_matrix (l : fleaf) : Prop :=
  match l with
  | FPosDefV p => (0 < ModelFloatStack.fv_length p)%nat
  | FPosDefA p => (0 < how_many (ModelFloatStack.fa_ashape p))%nat
  | _ => True
  end.
(** a finite double whose double does not overflow *)
Definition tame (v : double) : Prop := is_finite v = true /\ (Rabs (B2R v) < bpow radix2 1023)%R.
(** what comes back from the vector y of a parameter: y itself; for matrices up to the sign of zeros *)
Definition vector_back (l : fleaf) (y w : list double) : Prop := if is_matrix l then Forall2 same y w else w = y.

Section Built.
Context (set_free set_vector : fparam -> list double -> fparam * res unit).
(** the trees a program can build: parameters, new dictionaries, push_param under a new name, set_free and set_vector (successful or not),
    and a change of a member that keeps its sizes *)
Inductive built : fparam -> Prop :=
| b_leaf nm l : built (FLeaf nm l)
| b_new nm : built (fd_init nm)
| b_push d q d' : built d -> built q -> fd_push d q = Ok d' -> fd_getitem d (fd_name q) = Raise KeyError -> built d'
| b_set_free p x : built p -> built (fst (set_free p x))
| b_set_vector p x : built p -> built (fst (set_vector p x))
| b_change d k q q' : built d -> fd_getitem d k = Ok q -> built q' -> fd_free_size q' = fd_free_size q -> fd_vector_size q' = fd_vector_size q ->
    built (fd_replace d k q').
End Built.
