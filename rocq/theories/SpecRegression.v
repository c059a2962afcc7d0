(** Vocabulary for regression_utils.py: stacks of real matrices and vectors, and weighted least squares. *)
From Coq Require Import Reals List Arith.
From Verif Require Import Res Nd RSum SpecMatrix SpecExpFam ModelNumpy.
Import List ListNotations.
Open Scope R_scope.

(** the real array of shape b + [n; m] whose matrix at the batch index i is X i *)
Definition mat_stack (b : list nat) (n m : nat) (X : list nat -> nat -> nat -> R) : nd R :=
  mk_nd (b ++ [n; m]) (fun idx => X (firstn (length b) idx) (nth (length b) idx 0%nat) (nth (S (length b)) idx 0%nat)).
(** the real array of shape b + [n] whose vector at the batch index i is v i *)
Definition vec_stack (b : list nat) (n : nat) (v : list nat -> nat -> R) : nd R :=
  mk_nd (b ++ [n]) (fun idx => v (firstn (length b) idx) (nth (length b) idx 0%nat)).
(** the sum over all index tuples of the shape e *)
Definition total (e : list nat) (f : list nat -> R) : R := lsum (map f (product e)).
(** (A v)_i *)
Definition mat_vec (n : nat) (A : nat -> nat -> R) (v : nat -> R) (i : nat) : R := rsum n (fun j => A i j * v j).
Definition scal_mat (c : R) (i j : nat) : R := c * delta i j.
Definition nonneg_form (n : nat) (A : nat -> nat -> R) : Prop := forall v, 0 <= quad n A v.
(** np.linalg.inv inverts every matrix of this stack *)
Definition inverts_stack (inv : nd R -> res (nd R)) (b : list nat) (n : nat) (A : list nat -> nat -> nat -> R) : Prop :=
  exists B, inv (mat_stack b n n A) = Ok (mat_stack b n n B) /\ forall i, index b i -> inverse_of n (A i) (B i).
(** X' L X *)
Definition gram (s : nat) (X L : nat -> nat -> R) (i j : nat) : R := rsum s (fun k => rsum s (fun l => X k i * L k l * X l j)).
(** X' L v *)
Definition weighted (s : nat) (X L : nat -> nat -> R) (v : nat -> R) (i : nat) : R := rsum s (fun k => rsum s (fun l => X k i * L k l * v l)).
(** the weighted squared error of the coefficients beta, over all responses sharing the design *)
Definition sq_error (e : list nat) (s r : nat) (X L : nat -> nat -> R) (y : list nat -> nat -> R) (beta : nat -> R) : R :=
  total e (fun k => quad s L (fun i => y k i - mat_vec r X beta i)).
(** plus the prior's quadratic penalty *)
Definition penalised (e : list nat) (s r : nat) (X L : nat -> nat -> R) (y : list nat -> nat -> R) (P : nat -> nat -> R) (m beta : nat -> R) : R :=
  sq_error e s r X L y beta + quad r P (fun i => beta i - m i).
(** the weights of the observations are a number c, or a stack of matrices *)
Definition weights (b : list nat) (s : nat) (info : R + nd R) (L : list nat -> nat -> nat -> R) : Prop :=
  (exists c, info = inl c /\ forall i, L i = scal_mat c) \/ info = inr (mat_stack b s s L).
(** n X'LX + P, n the number of responses per design *)
Definition posterior_matrix (e : list nat) (s : nat) (X L P : nat -> nat -> R) (i j : nat) : R := INR (nprod e) * gram s X L i j + P i j.
Definition transpose (A : nat -> nat -> R) (i j : nat) : R := A j i.
