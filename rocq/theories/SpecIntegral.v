(** Expectations under densities on the line and on the half line, as improper Riemann integrals (Coquelicot's is_RInt_gen). *)
From Coq Require Import Reals List Arith.
From Coquelicot Require Import Coquelicot.
From Verif Require Import RSum SpecMatrix SpecExpFam.
Open Scope R_scope.

(** the integral of f over the whole line exists and is v *)
Definition line (f : R -> R) (v : R) : Prop := is_RInt_gen f (Rbar_locally m_infty) (Rbar_locally p_infty) v.
(** the integral of f over the positive reals exists and is v *)
Definition half_line (f : R -> R) (v : R) : Prop := is_RInt_gen f (at_right 0) (Rbar_locally p_infty) v.
(** f has the expectation v under the distribution with density p on the line, or on the positive reals *)
Definition expects (p f : R -> R) (v : R) : Prop := line (fun x => f x * p x) v.
Definition expects_pos (p f : R -> R) (v : R) : Prop := half_line (fun x => f x * p x) v.
(** the quadrature rule integrates g(t) exp(-t^2) exactly *)
Definition exact_for (m : nat) (w x : nat -> R) (g : R -> R) : Prop := line (fun t => g t * exp (- (t * t))) (rule m w x g).
(** the polynomial with the coefficients c 0, ..., c d *)
Definition poly_of (d : nat) (c : nat -> R) (t : R) : R := rsum (S d) (fun k => c k * t ^ k).
(** LG is the logarithm of the gamma function, Gamma(a) = integral of x^(a-1) exp(-x) over the positive reals, and PSI is its derivative *)
Definition log_gamma (LG : R -> R) : Prop := forall a, 0 < a -> half_line (fun x => Rpower x (a - 1) * exp (- x)) (exp (LG a)).
Definition digamma_of (LG PSI : R -> R) : Prop := forall a, 0 < a -> is_derive LG a (PSI a).
(** the density of the gamma distribution with shape a and rate b: b^a / Gamma(a) x^(a-1) exp(-b x) *)
Definition gamma_pdf (LG : R -> R) (a b x : R) : R := Rpower b a / exp (LG a) * (Rpower x (a - 1) * exp (- (b * x))).
(** the iterated integral of f over n coordinates, the last coordinate outermost, exists and is v; f reads the coordinates 0, ..., n-1 *)
Fixpoint space (n : nat) (f : (nat -> R) -> R) (v : R) : Prop :=
  match n with
  | O => f (fun _ => 0) = v
  | S k => exists g, (forall t, space k (fun x => f (fun i => if Nat.eqb i k then t else x i)) (g t)) /\ line g v
  end.
(** f has the expectation v under the distribution with density p on R^n, in whatever order the coordinates are integrated *)
Definition relabels (n : nat) (s t : nat -> nat) : Prop := forall i, (i < n)%nat -> ((s i < n)%nat /\ t (s i) = i) /\ ((t i < n)%nat /\ s (t i) = i).
Definition nexpects (n : nat) (p f : (nat -> R) -> R) (v : R) : Prop := forall s t, relabels n s t -> space n (fun x => f (fun i => x (s i)) * p (fun i => x (s i))) v.
(** the density of the multivariate normal distribution with information matrix L: sqrt(det L / (2 pi)^n) exp(-(x - m)' L (x - m) / 2) *)
Definition mvn_pdf (n : nat) (m : nat -> R) (L : nat -> nat -> R) (x : nat -> R) : R := exp (- mvn_log_norm n L) * mvn_kernel n m L x.
(** the integral of f over (0, r) exists and is v *)
Definition interval (r : R) (f : R -> R) (v : R) : Prop := is_RInt_gen f (at_right 0) (at_left r) v.
(** the iterated integral of f over the points x 0, ..., x k with positive coordinates that add up to r exists and is v: the coordinates k, ..., 1 are integrated, the first of these outermost,
    and the coordinate 0 is what the others leave of r *)
Fixpoint simplex (k : nat) (r : R) (f : (nat -> R) -> R) (v : R) : Prop :=
  match k with
  | O => f (fun _ => r) = v
  | S j => exists g, (forall t, 0 < t < r -> simplex j (r - t) (fun x => f (fun i => if Nat.eqb i (S j) then t else x i)) (g t)) /\ interval r g v
  end.
(** f has the expectation v under the distribution with density p on the probability vectors of length n, whichever coordinate is left out and in whatever order the others are integrated *)
Definition dexpects (n : nat) (p f : (nat -> R) -> R) (v : R) : Prop :=
  match n with O => False | S k => forall s t, relabels n s t -> simplex k 1 (fun x => f (fun i => x (s i)) * p (fun i => x (s i))) v end.
(** the density of the Dirichlet distribution: Gamma(a_1 + ... + a_n) / (Gamma(a_1) ... Gamma(a_n)) x_1^(a_1-1) ... x_n^(a_n-1) *)
Definition dirichlet_pdf (LG : R -> R) (n : nat) (a x : nat -> R) : R := exp (- dirichlet_log_norm LG n a) * dirichlet_kernel n a x.
(** the density of the beta distribution on (0, 1), and expectations under a density on (0, 1) *)
Definition beta_pdf (LG : R -> R) (a b x : R) : R := exp (LG (a + b)) / (exp (LG a) * exp (LG b)) * (Rpower x (a - 1) * Rpower (1 - x) (b - 1)).
Definition expects_unit (p f : R -> R) (v : R) : Prop := interval 1 (fun x => f x * p x) v.
(** the k by k matrix X with the column x, the row x and the diagonal entry t added *)
Definition border (k : nat) (X : nat -> nat -> R) (x : nat -> R) (t : R) (i j : nat) : R :=
  if Nat.eqb i k then (if Nat.eqb j k then t else x j) else if Nat.eqb j k then x i else X i j.
(** the integral of f over the symmetric positive definite matrices that extend X by one row and column exists and is v:
    the diagonal entry is integrated over those values that make the matrix positive definite, a half line, and then the other entries are integrated *)
Definition extensions (k : nat) (X : nat -> nat -> R) (f : (nat -> nat -> R) -> R) (v : R) : Prop :=
  exists h, (forall x, exists b, (forall t, posdef (S k) (border k X x t) <-> b < t) /\ is_RInt_gen (fun t => f (border k X x t)) (at_right b) (Rbar_locally p_infty) (h x)) /\ space k h v.
(** the iterated integral of f over the symmetric positive definite n by n matrices exists and is v: the last row innermost *)
Fixpoint cone (n : nat) (f : (nat -> nat -> R) -> R) (v : R) : Prop :=
  match n with
  | O => f (fun _ _ => 0) = v
  | S k => exists g, (forall X, symmetric k X -> posdef k X -> extensions k X f (g X)) /\ cone k g v
  end.
(** the rows and columns in another order; the expectation of f under the distribution with density p, with the rows integrated in the order given by s, and in every order *)
Definition reorder (s : nat -> nat) (X : nat -> nat -> R) (i j : nat) : R := X (s i) (s j).
Definition wexpects_in (s : nat -> nat) (n : nat) (p f : (nat -> nat -> R) -> R) (v : R) : Prop := cone n (fun X => f (reorder s X) * p (reorder s X)) v.
Definition wexpects (n : nat) (p f : (nat -> nat -> R) -> R) (v : R) : Prop := forall s t, relabels n s t -> wexpects_in s n p f v.
(** the same in every order in which row r is integrated first *)
Definition wexpects_first (r n : nat) (p f : (nat -> nat -> R) -> R) (v : R) : Prop := forall s t, relabels n s t -> S (s r) = n -> wexpects_in s n p f v.
(** the density of the Wishart distribution with df degrees of freedom and scale matrix V *)
Definition wishart_pdf (LG : R -> R) (n : nat) (df : R) (V Vinv X : nat -> nat -> R) : R := exp (- wishart_log_norm LG n df V) * wishart_kernel n df Vinv X.
