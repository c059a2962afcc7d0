(** Independent vocabulary for the exponential-family formulas: finite arrays, finitely supported
    distributions, textbook densities, determinants and the contracts of the library routines. *)
From Coq Require Import Reals List Arith.
From Verif Require Import Res Num Nd RSum SpecMatrix ModelParameters ModelNumpy.
Import List ListNotations.
Open Scope R_scope.

(** the array of the given shape whose entry at the index tuple idx is the finite number f idx *)
Definition farr (s : list nat) (f : list nat -> R) : arr := mk_nd s (fun idx => Fin (f idx)).
(** a finite number as a 0-d array *)
Definition fnum (r : R) : arr := nd_scalar (Fin r).
(** idx is an index tuple of the shape *)
Definition index (s idx : list nat) : Prop := In idx (product s).
(** a finite vector and a finite n by m matrix *)
Definition fvec_of (n : nat) (x : nat -> R) : arr := farr [n] (fun idx => x (nth 0 idx 0%nat)).
Definition fmat_of (n m : nat) (A : nat -> nat -> R) : arr := farr [n; m] (fun idx => A (nth 0 idx 0%nat) (nth 1 idx 0%nat)).

(** library special functions: finite on positive finite arguments, with values G (an arbitrary function) *)
Definition special (g : num -> num) (G : R -> R) : Prop := forall x, 0 < x -> g (Fin x) = Fin (G x).

(** ---- finitely supported distributions: weights and points ---- *)
Definition dist (X : Type) := list (R * X).
Definition is_dist {X} (d : dist X) : Prop := Forall (fun p => 0 <= fst p) d /\ lsum (map fst d) = 1.
Definition expect {X} (d : dist X) (f : X -> R) : R := lsum (map (fun p => fst p * f (snd p)) d).
(** the event has probability one *)
Definition surely {X} (d : dist X) (P : X -> Prop) : Prop := Forall (fun p => P (snd p)) d.
Definition mean (d : dist R) : R := expect d (fun x => x).
Definition variance (d : dist R) : R := expect d (fun x => (x - mean d) * (x - mean d)).
Definition vmean (d : dist (nat -> R)) (i : nat) : R := expect d (fun x => x i).
Definition vcov (d : dist (nat -> R)) (i j : nat) : R := expect d (fun x => (x i - vmean d i) * (x j - vmean d j)).

(** ---- products and determinants ---- *)
Fixpoint rprod (n : nat) (f : nat -> R) : R := match n with O => 1 | S k => rprod k f * f k end.
(** the matrix without row 0 and column j *)
Definition minor (A : nat -> nat -> R) (j : nat) (i k : nat) : R := A (S i) (if Nat.ltb k j then k else S k).
Fixpoint det (n : nat) (A : nat -> nat -> R) : R :=
  match n with
  | O => 1
  | S m => rsum (S m) (fun j => (-1) ^ j * A 0%nat j * det m (minor A j))
  end.
Definition delta (i j : nat) : R := if Nat.eqb i j then 1 else 0.
(** B is the inverse of A *)
Definition inverse_of (n : nat) (A B : nat -> nat -> R) : Prop :=
  forall i j, (i < n)%nat -> (j < n)%nat ->
    rsum n (fun k => A i k * B k j) = delta i j /\ rsum n (fun k => B i k * A k j) = delta i j.
(** np.linalg.slogdet: sign and log absolute value of the determinant *)
Definition slogdet_contract (slogdet : arr -> res (num * num)) : Prop :=
  forall n A,
    (0 < det n A -> slogdet (fmat n A) = Ok (Fin 1, Fin (ln (det n A)))) /\
    (det n A < 0 -> slogdet (fmat n A) = Ok (Fin (-1), Fin (ln (- det n A)))) /\
    (det n A = 0 -> slogdet (fmat n A) = Ok (Fin 0, NInf)).
(** np.linalg.inv returns an inverse of this matrix *)
Definition inverts (inv : arr -> res arr) (n : nat) (A : nat -> nat -> R) : Prop := exists B, inv (fmat n A) = Ok (fmat n B) /\ inverse_of n A B.

(** ---- textbook densities ---- *)
Definition normal_pdf (m info x : R) : R := sqrt (info / (2 * PI)) * exp (- (info / 2) * ((x - m) * (x - m))).
(** densities up to the normalising constant *)
Definition gamma_kernel (a b x : R) : R := Rpower x (a - 1) * exp (- (b * x)).
Definition exponential_pdf (l x : R) : R := l * exp (- (l * x)).
Definition dirichlet_kernel (n : nat) (alpha x : nat -> R) : R := rprod n (fun k => Rpower (x k) (alpha k - 1)).
Definition mvn_kernel (n : nat) (m : nat -> R) (L : nat -> nat -> R) (x : nat -> R) : R := exp (- / 2 * quad n L (fun i => x i - m i)).
Definition wishart_kernel (n : nat) (df : R) (Vinv X : nat -> nat -> R) : R :=
  Rpower (det n X) ((df - INR n - 1) / 2) * exp (- / 2 * rsum n (fun i => rsum n (fun j => Vinv i j * X j i))).
(** the correlations of a covariance matrix; the LKJ density is proportional to det(R)^(eta - 1) *)
Definition correlation (Y : nat -> nat -> R) (i j : nat) : R := Y i j / sqrt (Y i i * Y j j).
(** log normalisers in terms of a log-gamma function LG *)
Definition gamma_log_norm (LG : R -> R) (a b : R) : R := LG a - a * ln b.
Definition dirichlet_log_norm (LG : R -> R) (n : nat) (alpha : nat -> R) : R := rsum n (fun k => LG (alpha k)) - LG (rsum n alpha).
Definition mvn_log_norm (n : nat) (L : nat -> nat -> R) : R := INR n / 2 * ln (2 * PI) - / 2 * ln (det n L).
(** log of the multivariate gamma function: pi^(n(n-1)/4) prod_i Gamma(x - i/2), i < n *)
Definition log_multigamma (LG : R -> R) (n : nat) (x : R) : R := INR n * (INR n - 1) / 4 * ln PI + rsum n (fun i => LG (x - INR i / 2)).
Definition wishart_log_norm (LG : R -> R) (n : nat) (df : R) (V : nat -> nat -> R) : R :=
  df * INR n / 2 * ln 2 + df / 2 * ln (det n V) + log_multigamma LG n (df / 2).

(** ---- quadrature ---- *)
(** a Gauss-Hermite rule sums w_k f(x_k); it should integrate f(x) exp(-x^2) over the line *)
Definition rule (m : nat) (w x : nat -> R) (f : R -> R) : R := rsum m (fun k => w k * f (x k)).
(** exact on constants, linear and quadratic polynomials *)
Definition exact2 (m : nat) (w x : nat -> R) : Prop :=
  rule m w x (fun _ => 1) = sqrt PI /\ rule m w x (fun t => t) = 0 /\ rule m w x (fun t => t * t) = sqrt PI / 2.
(** the rule's approximation of E f(X), X normal with the mean and information *)
Definition gh_expect (m : nat) (w x : nat -> R) (mu info : R) (f : R -> R) : R :=
  / sqrt PI * rule m w x (fun t => f (sqrt 2 * t / sqrt info + mu)).
Definition expit (x : R) : R := / (1 + exp (- x)).
(** the function handed to get_e_fun_normal acts on every entry by f *)
Definition componentwise (fn : arr -> res arr) (f : R -> R) : Prop :=
  forall s g, fn (farr s g) = Ok (farr s (fun i => f (g i))).
