(** Independent vocabulary for the terms of a derivative of g(eta(t), eps(t)) with eps linear in t. *)
From Coq Require Import Reals List Bool Arith ZArith.
From Verif Require Import RSum ModelPrint.
Import List ListNotations.
Open Scope R_scope.

(** m_1 * s + m_2 * (s + 1) + ... for the list m_1, m_2, ... *)
Fixpoint total_order (s : nat) (m : list nat) : nat := match m with [] => 0%nat | x :: tl => (s * x + total_order (S s) tl)%nat end.
(** the derivatives of order k: e factors deps, m_i factors that are the i-th derivative of eta *)
Definition of_order (k e : nat) (m : list nat) : Prop := length m = k /\ (e + total_order 1 m)%nat = k.
(** (s!)^(m_1) m_1! ((s+1)!)^(m_2) m_2! ... *)
Fixpoint block_symmetries (s : nat) (m : list nat) : R :=
  match m with [] => 1 | x :: tl => INR (fact s) ^ x * INR (fact x) * block_symmetries (S s) tl end.
(** the coefficient in Faa di Bruno's formula: k! / (e! (1!)^(m_1) m_1! (2!)^(m_2) m_2! ...) *)
Definition faa_di_bruno (k e : nat) (m : list nat) : R := INR (fact k) / (INR (fact e) * block_symmetries 1 m).

(** the prefactors printed for the derivative with e factors deps and the eta orders m *)
Definition printed_prefactors (e : nat) (m : list nat) (out : list line) : list R :=
  flat_map (fun l => match l with
                     | Heading _ => []
                     | TermLine _ c eta eps => if Z.eqb eps (Z.of_nat e) then (if list_eq_dec Z.eq_dec eta (map Z.of_nat m) then [c] else []) else []
                     end) out.
