(** print_terms of ParametricSensitivityTaylorExpansion. Definitions only.
    SIMPLIFICATION: what is written to standard output is a list of the values that are formatted, one per print call; the decimal
    digits of the numbers and the punctuation of the format strings are not modelled. *)
From Coq Require Import String Reals List Bool Arith ZArith.
From Verif Require Import Res ModelSparse ModelObjective ModelSensitivity.
Import List ListNotations.
Open Scope R_scope.

(** ModelSensitivity.py:513 ('Terms for order {}') and ModelSensitivity.py:121-123 (order, prefactor, eta_orders, eps_order) *)
Inductive line := Heading (order : Z) | TermLine (order : Z) (prefactor : R) (eta_orders : list Z) (eps_order : Z).
(** ModelSensitivity.py:121-123: DerivativeTerm.__str__ *)
Definition term_str (t : dterm) : line := TermLine (dt_order t) (dt_pref t) (dt_eta t) (dt_eps t).
(** ModelSensitivity.py:511-515: for order in range(self.order), with [n] orders left, from [order] on *)
Fixpoint print_loop (terms : list (list dterm)) (k : option Z) (n order : nat) : list line * res unit :=
  match n with
  | O => ([], Ok tt)
  | S n' =>
      if match k with None => true | Some k => Z.eqb (Z.of_nat order) (k - 1) end then
        match py_index terms (Z.of_nat order) with
        | Raise e => ([Heading (Z.of_nat order + 1)], Raise e)
        | Ok ts => let '(out, r) := print_loop terms k n' (S order) in (Heading (Z.of_nat order + 1) :: map term_str ts ++ out, r)
        end
      else print_loop terms k n' (S order)
  end.
(** ModelSensitivity.py:507-515; [order] is self.order and [terms] is self.taylor_terms_list *)
Definition print_terms (order : Z) (terms : list (list dterm)) (k : option Z) : list line * res unit :=
  if match k with None => false | Some k => (order <? k)%Z end then ([], Raise ValueError)
  else print_loop terms k (Z.to_nat order) 0.
