(** Independent vocabulary for preconditioners, optimisers and repeated optimisation. *)
From Coq Require Import Reals List Bool Arith ZArith.
From Coquelicot Require Import Coquelicot.
From Verif Require Import Res Num Nd RSum ModelAutograd ModelParameters ModelDict ModelObjective ModelOptimize SpecParameters SpecObjective.
Import List ListNotations.
Open Scope R_scope.

Definition delta (i j : nat) : R := if Nat.eqb i j then 1 else 0.
Definition square (n : nat) (A : rmat2) : Prop := rm_rows A = n /\ rm_cols A = n.
Definition symmetric (n : nat) (A : rmat2) : Prop := forall i j, (i < n)%nat -> (j < n)%nat -> rm_get A i j = rm_get A j i.
Definition same_entries (n : nat) (A : rmat2) (f : nat -> nat -> R) : Prop := forall i j, (i < n)%nat -> (j < n)%nat -> rm_get A i j = f i j.
(** x' A x and x' x *)
Definition quad (n : nat) (A : nat -> nat -> R) (x : nat -> R) : R := rsum n (fun i => rsum n (fun j => x i * A i j * x j)).
Definition norm2 (n : nat) (x : nat -> R) : R := rsum n (fun i => x i * x i).
Definition product (n : nat) (A B : nat -> nat -> R) (i j : nat) : R := rsum n (fun k => A i k * B k j).
(** A = V diag(ev) V' with V orthogonal *)
Definition eigen_decomposition (n : nat) (A : rmat2) (ev : list R) (V : rmat2) : Prop :=
  length ev = n /\ square n V /\
  (forall k l, (k < n)%nat -> (l < n)%nat -> rsum n (fun i => rm_get V i k * rm_get V i l) = delta k l) /\
  (forall i j, (i < n)%nat -> (j < n)%nat -> rsum n (fun k => rm_get V i k * rm_get V j k) = delta i j) /\
  (forall i j, (i < n)%nat -> (j < n)%nat -> rm_get A i j = rsum n (fun k => rm_get V i k * nth k ev 0 * rm_get V j k)).
(** the value moved into the interval; an upper bound below the lower one wins *)
Definition clip (lo hi : option R) (e : R) : R :=
  let e1 := match lo with None => e | Some l => Rmax l e end in match hi with None => e1 | Some h => Rmin h e1 end.
(** lo |x|^2 <= x'Ax <= hi |x|^2 for the bounds given *)
Definition spectrum_within (n : nat) (A : nat -> nat -> R) (lo hi : option R) : Prop :=
  forall x, (forall l, lo = Some l -> l * norm2 n x <= quad n A x) /\ (forall h, hi = Some h -> quad n A x <= h * norm2 n x).
Definition positive_definite (n : nat) (A : nat -> nat -> R) : Prop := forall x, (exists i, (i < n)%nat /\ x i <> 0) -> 0 < quad n A x.

(** ---- an optimiser playing against given functions ---- *)
Inductive kind := Value | Gradient | Product (v : list R).
(** the points asked for, in order, and the outcome *)
Fixpoint play {Info} (F : list R -> R) (G : list R -> list R) (HV : list R -> list R -> list R) (st : strategy Info) : list (kind * list R) * (list R * Info) :=
  match st with
  | Stop x info => ([], (x, info))
  | AskF x k => let r := play F G HV (k (F x)) in ((Value, x) :: fst r, snd r)
  | AskG x k => let r := play F G HV (k (G x)) in ((Gradient, x) :: fst r, snd r)
  | AskH x p k => let r := play F G HV (k (HV x p)) in ((Product p, x) :: fst r, snd r)
  end.
(** all points and solutions have length n; no Hessian-vector product is asked for unless available *)
Fixpoint sized {Info} (n : nat) (hessp : bool) (st : strategy Info) : Prop :=
  match st with
  | Stop x _ => length x = n
  | AskF x k => length x = n /\ forall v, sized n hessp (k v)
  | AskG x k => length x = n /\ forall g, sized n hessp (k g)
  | AskH x p k => hessp = true /\ length x = n /\ length p = n /\ forall h, sized n hessp (k h)
  end.
(** the points at which function values were asked for *)
Definition value_points (q : list (kind * list R)) : list (list R) :=
  map snd (filter (fun e => match fst e with Value => true | _ => false end) q).
(** gradient and Hessian-vector product of a function of n numbers *)
Definition gradient_of (n : nat) (F : list R -> R) (G : list R -> list R) : Prop :=
  forall z, length z = n -> length (G z) = n /\ forall i, (i < n)%nat -> is_partial F i z (nth i (G z) 0).
Definition hvp_of (n : nat) (F : list R -> R) (HV : list R -> list R -> list R) : Prop :=
  forall z, length z = n -> exists K, (forall i j, (i < n)%nat -> (j < n)%nat -> is_partial2 F i j z (K i j)) /\
    forall v, length v = n -> length (HV z v) = n /\ forall i, (i < n)%nat -> nth i (HV z v) 0 = rsum n (fun j => K i j * nth j v 0).

(** ---- repeated optimisation ---- *)
(** an optimisation function started at x from state s runs again and again, each time from the previous result; after each run the
    parameter is set to the new point *)
Inductive passes {Opt} (opt : opt_function Opt) (t0 : tparam) : objective -> list R -> list (list R * Opt) -> objective -> Prop :=
| no_pass s x : passes opt t0 s x [] s
| one_pass s x s1 x' o t1 rest s' : opt s x = (s1, Ok (x', o)) -> t_set_free t0 (fin_arg x') = (t1, Ok tt) -> passes opt t0 (with_par s1 t1) x' rest s' ->
    passes opt t0 s x ((x', o) :: rest) s'.
(** consecutive points *)
Definition moves {Opt} (x : list R) (runs : list (list R * Opt)) : list (list R * list R) := combine (x :: map fst runs) (map fst runs).
(** the convergence criteria for a move from a to b *)
Definition x_close (n : nat) (xtol : R) (a b : list R) : Prop := rsum n (fun i => Rabs (nth i b 0 - nth i a 0)) < xtol.
Definition f_close (F : list R -> R) (ftol : R) (a b : list R) : Prop := Rabs (F b - F a) < ftol.
Definition flat (n : nat) (G : list R -> list R) (gtol : R) (b : list R) : Prop := rsum n (fun i => Rabs (nth i (G b) 0)) < gtol.
(** the function leaves the objective's parameter usable and returns points of length n *)
Definition behaves {Opt} (t0 : tparam) (n : nat) (opt : opt_function Opt) : Prop :=
  forall s x, history t0 (ob_par s) -> length x = n ->
  match opt s x with (s', Ok (x', _)) => history t0 (ob_par s') /\ length x' = n | (_, Raise _) => True end.
Definition never_raises {Opt} (opt : opt_function Opt) : Prop := forall s x, exists s' r, opt s x = (s', Ok r).
(** the runs start from init_x, or from the result of the initial optimisation *)
Definition starts {Opt} (init : option (opt_function Opt)) (s : objective) (init_x : list R) (s1 : objective) (x : list R) (first : list Opt) : Prop :=
  match init with
  | None => s1 = s /\ x = init_x /\ first = []
  | Some g => exists o, g s init_x = (s1, Ok (x, o)) /\ first = [o]
  end.
