(** Independent vocabulary for the sensitivity classes. *)
From Coq Require Import String Reals List Bool Arith ZArith.
From Coquelicot Require Import Coquelicot.
From Verif Require Import Res RSum ModelAutograd ModelObjective ModelSensitivity SpecParameters SpecSmooth.
Import List ListNotations.
Open Scope R_scope.

(** directions of R^(n+p) that change only the first n, or only the last p, coordinates *)
Definition first_dir (p : nat) (v : list R) : list R := v ++ repeat 0 p.
Definition second_dir (n : nat) (w : list R) : list R := repeat 0 n ++ w.
(** g is a Python function of a vector of length n and one of length p, defined at least for the pairs of U, whose q result
    components are the functions G 0, ..., G (q-1) of the concatenated vector *)
Definition two_arg_fun (n p q : nat) (U : list R -> Prop) (g : pyfun) (G : nat -> list R -> R) : Prop :=
  forall x1 x2, length x1 = n -> length x2 = p -> U (x1 ++ x2) ->
  exists w, g [x1; x2] = Ok w /\ length w = q /\ forall c, (c < q)%nat -> nth c w 0 = G c (x1 ++ x2).
Definition smooth_components (K n p q : nat) (U : list R -> Prop) (G : nat -> list R -> R) : Prop :=
  forall c, (c < q)%nat -> Ck K (n + p) U (G c).
(** E 0 is a curve in R^n, and E 1, ..., E K are its first K derivatives for |t| < delta *)
Definition curve_with_derivatives (n K : nat) (delta : R) (E : nat -> R -> list R) : Prop :=
  (forall k t, length (E k t) = n) /\
  forall k t c, (k < K)%nat -> Rabs t < delta -> (c < n)%nat -> is_derive (fun s => nth c (E k s) 0) t (nth c (E (S k) t) 0).
(** the point (eta(t), eps0 + t deps) *)
Definition along (E : nat -> R -> list R) (eps0 deps : list R) (t : R) : list R := E 0%nat t ++ move eps0 deps t.

(** square matrices, linear systems *)
Definition nonsingular (n : nat) (H : rmat2) : Prop :=
  rm_rows H = n /\ rm_cols H = n /\
  forall x, length x = n -> (forall i, (i < n)%nat -> rsum n (fun j => rm_get H i j * nth j x 0) = 0) -> forall i, (i < n)%nat -> nth i x 0 = 0.
(** contract of np.linalg.solve: it solves nonsingular systems *)
Definition solves_systems (solve : rmat2 -> list R -> res (list R)) : Prop :=
  forall n H v, nonsingular n H -> length v = n ->
  exists x, solve H v = Ok x /\ length x = n /\ forall i, (i < n)%nat -> rsum n (fun j => rm_get H i j * nth j x 0) = nth i v 0.
(** a tolerance that accepts the base values themselves *)
Definition tol_ok (tol : option R) : Prop := match tol with None => True | Some e => 0 <= e end.

(** the objective as a function of the concatenated input and hyperparameter values *)
Definition joint (f : pair_state -> unit -> res R) (st : pair_state) (input_is_free hyper_is_free : bool) (n : nat) (z : list R) : R :=
  real2 f st input_is_free hyper_is_free tt (firstn n z) (skipn n z).
(** the objective can be evaluated at all pairs of U *)
Definition evaluates_on (f : pair_state -> unit -> res R) (st : pair_state) (input_is_free hyper_is_free : bool) (n p : nat) (U : list R -> Prop) : Prop :=
  forall x1 x2, length x1 = n -> length x2 = p -> U (x1 ++ x2) -> exists v, snd (eval_fun f st (fin_arg x1) (fin_arg x2) input_is_free hyper_is_free tt) = Ok v.
(** E 0 is a curve of stationary points of F in its first n coordinates while the others move along deps *)
Definition optimum_curve (n : nat) (F : list R -> R) (delta : R) (E : nat -> R -> list R) (hy0 deps : list R) : Prop :=
  forall t i, Rabs t < delta -> (i < n)%nat -> is_partial F i (along E hy0 deps t) 0.
(** H is the matrix of second derivatives of F in its first n coordinates at z *)
Definition is_hessian (n : nat) (U : list R -> Prop) (F : list R -> R) (z : list R) (H : rmat2) : Prop :=
  rm_rows H = n /\ rm_cols H = n /\
  exists g, (forall j y, (j < n)%nat -> U y -> is_partial F j y (g j y)) /\
            forall i j, (i < n)%nat -> (j < n)%nat -> is_partial (g j) i z (rm_get H i j).
Definition symmetric (n : nat) (H : rmat2) : Prop := forall i j, (i < n)%nat -> (j < n)%nat -> rm_get H i j = rm_get H j i.
(** contract of scipy.linalg.cho_factor and cho_solve: a factored nonsingular symmetric matrix is solved for every right hand side *)
Definition cho_solves {Chol} (cho_factor : rmat2 -> res Chol) (cho_solve : Chol -> rmat2 -> res rmat2) : Prop :=
  forall n H c B, cho_factor H = Ok c -> nonsingular n H -> symmetric n H -> rm_rows B = n ->
  exists X, cho_solve c B = Ok X /\ rm_rows X = n /\ rm_cols X = rm_cols B /\
    forall i j, (i < n)%nat -> (j < rm_cols B)%nat -> rsum n (fun k => rm_get H i k * rm_get X k j) = rm_get B i j.
(** opt gives, for hyperparameters near hy0, stationary points of F in its first n coordinates *)
Definition optimum_map (n p : nat) (F : list R -> R) (hy0 : list R) (opt : list R -> list R) : Prop :=
  (forall y, length (opt y) = n) /\
  exists d, 0 < d /\ forall y i, close p hy0 y d -> (i < n)%nat -> is_partial F i (opt y ++ y) 0.
(** entry (i, l) of J is the derivative of entry i of opt by the l-th hyperparameter *)
Definition is_jacobian (n p : nat) (opt : list R -> list R) (x : list R) (J : nat -> nat -> R) : Prop :=
  forall i l, (i < n)%nat -> (l < p)%nat -> is_partial (fun y => nth i (opt y) 0) l x (J i l).
(** F is the sum of a function of its first n coordinates and of h *)
Definition split_off (n : nat) (U : list R -> Prop) (F h : list R -> R) : Prop := exists a, forall z, U z -> F z = a (firstn n z) + h z.
(** the curve that the expansion follows when the derivatives in the hyperparameter are those of h and the Hessian is that of another
    function: the gradient of h, with its Hessian at the base point replaced by H, stays constant along it *)
Definition corrected_curve (n : nat) (U : list R -> Prop) (h : list R -> R) (H : rmat2) (delta : R) (E : nat -> R -> list R) (hy0 deps : list R) : Prop :=
  exists g Hh, (forall j y, (j < n)%nat -> U y -> is_partial h j y (g j y)) /\ is_hessian n U h (along E hy0 deps 0) Hh /\
  forall t c, Rabs t < delta -> (c < n)%nat ->
    g c (along E hy0 deps t) + rsum n (fun j => (rm_get H c j - rm_get Hh c j) * (nth j (E 0%nat t) 0 - nth j (E 0%nat 0) 0)) = g c (along E hy0 deps 0).
(** F is quadratic in its first n coordinates, and linear in the products of these with the last p coordinates *)
Definition quadratic (n p : nat) (F : list R -> R) : Prop :=
  exists (Q B : nat -> nat -> R) (b : nat -> R) (r : list R -> R), (forall i j, Q i j = Q j i) /\
  forall x e, length x = n -> length e = p ->
    F (x ++ e) = / 2 * rsum n (fun i => rsum n (fun j => Q i j * nth i x 0 * nth j x 0)) + rsum n (fun i => rsum p (fun l => B i l * nth i x 0 * nth l e 0)) +
                 rsum n (fun i => b i * nth i x 0) + r e.
(** the input vectors at which F is stationary for the hyperparameter value e *)
Definition stationary (n : nat) (F : list R -> R) (x e : list R) : Prop := length x = n /\ forall i, (i < n)%nat -> is_partial F i (x ++ e) 0.
(** E 0 is a curve, K times differentiable, of stationary points of the C^(K+1) function F in its first n coordinates, while the last p
    coordinates move from hy0 in the direction deps; H is the Hessian at the start of the curve, and it is nonsingular *)
Definition smooth_optimum (n p K : nat) (U : list R -> Prop) (F : list R -> R) (delta : R) (E : nat -> R -> list R) (hy0 deps : list R) (H : rmat2) : Prop :=
  (0 < n)%nat /\ (0 < p)%nat /\ 0 < delta /\ length hy0 = p /\ length deps = p /\ open_in (n + p) U /\ Ck (S K) (n + p) U F /\
  curve_with_derivatives n K delta E /\ (forall t, Rabs t < delta -> U (along E hy0 deps t)) /\ optimum_curve n F delta E hy0 deps /\
  is_hessian n U F (E 0%nat 0 ++ hy0) H /\ nonsingular n H.
(** H is the nonsingular Hessian of the C^2 function F in its first n coordinates at (in0, hy0); F is the sum of a function of its first n
    coordinates and of the C^2 function h *)
Definition regular_point (n p : nat) (U : list R -> Prop) (F h : list R -> R) (in0 hy0 : list R) (H : rmat2) : Prop :=
  open_in (n + p) U /\ Ck 2 (n + p) U F /\ Ck 2 (n + p) U h /\ split_off n U F h /\ length in0 = n /\ length hy0 = p /\ U (in0 ++ hy0) /\
  is_hessian n U F (in0 ++ hy0) H /\ nonsingular n H.
(** a Hessian supplied by the caller is the matrix H *)
Definition supplied (n : nat) (H : rmat2) (hess0 : option rmat2) : Prop :=
  match hess0 with None => True | Some h => rm_rows h = n /\ rm_cols h = n /\ forall i j, (i < n)%nat -> (j < n)%nat -> rm_get h i j = rm_get H i j end.
(** the derivative signature of a term *)
Definition signature (t : dterm) : Z * list Z := (dt_eps t, dt_eta t).
(** the term has been made by the constructor from these functions and this derivative array, with at least one eta order *)
Definition constructed (funs : list etafun) (gders : list (list pyfun)) (t : dterm) : Prop :=
  exists eps eta pref, eta <> [] /\ make_term eps eta pref funs gders = Ok t.
(** the terms that the functions of the module give for the (k+1)-st derivative: the base terms, differentiated k times *)
Fixpoint expansion_terms (solve : rmat2 -> list R -> res (list R)) (hess0 : rmat2) (gders : list (list pyfun)) (k : nat) : res (list dterm) :=
  match k with
  | O => get_taylor_base_terms gders
  | S k' => do ts <- expansion_terms solve hess0 gders k'; differentiate_terms_module solve hess0 ts
  end.
(** E 0 is a curve, K times differentiable, of solutions of G = 0 for the n components of a C^K function G, while the second argument moves
    from eps0 in the direction deps; the matrix of derivatives of G in its first argument at the start of the curve is H, nonsingular *)
Definition smooth_root (n p K : nat) (U : list R -> Prop) (G : nat -> list R -> R) (delta : R) (E : nat -> R -> list R) (eps0 deps : list R) (H : rmat2) : Prop :=
  (0 < n)%nat /\ (0 < p)%nat /\ 0 < delta /\ length eps0 = p /\ length deps = p /\ open_in (n + p) U /\ smooth_components K n p n U G /\
  curve_with_derivatives n K delta E /\ (forall t, Rabs t < delta -> U (along E eps0 deps t)) /\
  (forall t c, Rabs t < delta -> (c < n)%nat -> G c (along E eps0 deps t) = 0) /\
  nonsingular n H /\ forall c j, (c < n)%nat -> (j < n)%nat -> is_partial (G c) j (E 0%nat 0 ++ eps0) (rm_get H c j).
