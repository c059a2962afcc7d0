(** Vocabulary for the Wishart distribution in double precision. *)
From Coq Require Import Reals.
From Verif Require Import RSum.
Open Scope R_scope.

(** the multivariate digamma function, given digamma: psi(x) + psi(x - 1/2) + ... + psi(x - (n - 1)/2), and the sizes of its terms *)
Definition mv_digamma (psi : R -> R) (n : nat) (x : R) : R := rsum n (fun i => psi (x - INR i / 2)).
Definition mv_digamma_size (psi : R -> R) (n : nat) (x : R) : R := rsum n (fun i => 1 + Rabs (psi (x - INR i / 2)) + / (x - INR i / 2)).
