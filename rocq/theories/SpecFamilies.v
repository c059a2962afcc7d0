(** Vocabulary for the parameter classes with moments: what an object's members hold. *)
From Coq Require Import String Reals List Arith.
From Verif Require Import Res Num Nd ModelParameters ModelDict ModelFamilies SpecMatrix SpecExpFam.
Import List ListNotations.
Open Scope R_scope.

(** d[k].get() is a *)
Definition holds (d : param) (k : string) (a : arr) : Prop := exists l, d_getitem d k = Ok (Leaf l) /\ leaf_get l = a.
(** d[k] is an ArrayParam of shape s, whatever its value and bounds *)
Definition array_member (d : param) (k : string) (s : list nat) : Prop := exists p, d_getitem d k = Ok (Leaf (LArray p)) /\ ap_shape p = s.
(** a UVNMomentParamArray of shape s, in any state *)
Definition moment_array (x : uvn_moment) (s : list nat) : Prop :=
  um_shape x = s /\ array_member (um_dict x) "e" s /\ array_member (um_dict x) "e2" s.
(** numbers are stored as 0-d arrays, or as arrays of shape (1,) after set_free or set_vector *)
Definition number_shape (s : list nat) : Prop := s = [] \/ s = [1%nat].

(** lower bounds a member without upper bound can have, and the value it starts with: lb + 1, or 0 without a bound *)
Definition usable (b : num) : Prop := match b with Fin _ | NInf => True | _ => False end.
Definition start_value (b : num) : R := match b with Fin r => r + 1 | _ => 0 end.
(** not (b >= 0) *)
Definition below_zero (b : num) : Prop := match b with Fin r => r < 0 | PInf => False | NInf | NaN => True end.
(** the exception for a lower bound that is not usable: ValueError for +inf, AssertionError for NaN *)
Definition refusal (b : num) : exc := match b with NaN => AssertionError | _ => ValueError end.
