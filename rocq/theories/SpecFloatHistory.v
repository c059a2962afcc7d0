(** Vocabulary for histories of scalar, vector and array parameters in double precision: the calls a user can make, what each
    answers, and how the calls on a scalar or an array correspond to calls on a vector with the same entries. *)
From Coq Require Import ZArith List.
From Flocq Require Import Core BinarySingleNaN.
From Verif Require Import Res Nd ModelFloat ModelFloatParams.
Import ListNotations.

(** the calls: set(a), set_vector(a), set_free(a), get(), get_vector(), get_free() *)
Inductive call (A : Type) := CSet (a : A) | CSetVector (a : A) | CSetFree (a : A) | CGet | CGetVector | CGetFree.
Arguments CSet {A}. Arguments CSetVector {A}. Arguments CSetFree {A}. Arguments CGet {A}. Arguments CGetVector {A}. Arguments CGetFree {A}.

(** the call on a vector with the entries of the array *)
Definition flat (c : call (nd dbl)) : call (list dbl) :=
  match c with
  | CSet a => CSet (data a) | CSetVector a => CSetVector (data a) | CSetFree a => CSetFree (data a)
  | CGet => CGet | CGetVector => CGetVector | CGetFree => CGetFree
  end.

(** a call that raises leaves the parameter as it was; one that succeeds answers nothing *)
Definition keep {P} (p : P) (r : res P) : P * res (list dbl) :=
  match r with Ok p' => (p', Ok []) | Raise e => (p, Raise e) end.
(** the entries of an array that was returned *)
Definition entries (r : res (nd dbl)) : res (list dbl) := match r with Ok a => Ok (data a) | Raise e => Raise e end.

Section Steps.
Context (fexp flog : dbl -> dbl).
Definition vector_step (p : fvector) (c : call (list dbl)) : fvector * res (list dbl) :=
  match c with
  | CSet v | CSetVector v => keep p (fvector_set p v)
  | CSetFree x => keep p (fvector_set_free fexp p x)
  | CGet | CGetVector => (p, Ok (fvector_get p))
  | CGetFree => (p, fvector_get_free flog p)
  end.
(** ScalarParam.set_vector is set *)
Definition scalar_step (p : fscalar) (c : call (nd dbl)) : fscalar * res (list dbl) :=
  match c with
  | CSet a | CSetVector a => keep p (fscalar_set p a)
  | CSetFree x => keep p (fscalar_set_free fexp p x)
  | CGet => (p, Ok (data (fscalar_get p)))
  | CGetVector => (p, entries (fscalar_get_vector p))
  | CGetFree => (p, entries (fscalar_get_free flog p))
  end.
Definition array_step (p : farray) (c : call (nd dbl)) : farray * res (list dbl) :=
  match c with
  | CSet a => keep p (farray_set p a)
  | CSetVector a => keep p (farray_set_vector p a)
  | CSetFree x => keep p (farray_set_free fexp p x)
  | CGet => (p, Ok (data (farray_get p)))
  | CGetVector => (p, Ok (data (farray_get_vector p)))
  | CGetFree => (p, entries (farray_get_free flog p))
  end.
End Steps.

(** the answers to a sequence of calls, and the parameter after it *)
Fixpoint answers {P C} (step : P -> C -> P * res (list dbl)) (p : P) (cs : list C) : list (res (list dbl)) :=
  match cs with [] => [] | c :: cs' => snd (step p c) :: answers step (fst (step p c)) cs' end.
Fixpoint after {P C} (step : P -> C -> P * res (list dbl)) (p : P) (cs : list C) : P :=
  match cs with [] => p | c :: cs' => after step (fst (step p c)) cs' end.

(** a number: an array with one entry (of any number of dimensions) *)
Definition one_entry (a : nd dbl) : Prop := nd_wf a /\ nd_size a = 1%nat.
Definition scalar_call (c : call (nd dbl)) : Prop :=
  match c with CSet a | CSetVector a | CSetFree a => one_entry a | _ => True end.
(** for an array of shape sh: real arrays only, and set with an array of the right shape or of the wrong number of entries *)
Definition array_value (sh : list nat) (a : nd dbl) : Prop := nd_wf a /\ (shape a = sh \/ nd_size a <> nprod sh).
Definition array_call (sh : list nat) (c : call (nd dbl)) : Prop :=
  match c with CSet a => array_value sh a | CSetVector a | CSetFree a => nd_wf a | _ => True end.
