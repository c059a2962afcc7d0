(** Model of LinearResponseVariationalBayes/ProjectionParams.py.
    SIMPLIFICATIONS: constraint matrices hold finite numbers and are represented by their dimensions and a function
    of the indices; np.linalg.solve and np.linalg.eigh are arguments (their behaviour is constrained only by the
    hypotheses of the theorems). *)
From Coq Require Import String Reals List Bool Arith.
From Coquelicot Require Import Coquelicot.
From Verif Require Import Res Num Nd RSum ModelAutograd ModelSparse ModelParameters.
Import ListNotations.
Open Scope R_scope.

Definition rmatrix := nat -> nat -> R.
Definition np_eye (i j : nat) : R := if Nat.eqb i j then 1 else 0.
(** x : m by d, ProjectionParams.py:14 *)
Definition gram (d : nat) (x : rmatrix) : rmatrix := fun i j => rsum d (fun k => x i k * x j k).
(** ProjectionParams.py:15-16: np.eye(d) - x.T @ Y where Y = solve(xx, x) *)
Definition proj_perp (m : nat) (x Y : rmatrix) : rmatrix := fun i j => np_eye i j - rsum m (fun k => x k i * Y k j).

Section Oracles.
(** np.linalg.solve(A, b), A : m by m, b : m by d *)
Variable solve : nat -> nat -> rmatrix -> rmatrix -> res rmatrix.
(** np.linalg.eigh(P), P : d by d: eigenvalues and the matrix whose columns are the eigenvectors *)
Variable eigh : nat -> rmatrix -> res ((nat -> R) * rmatrix).

(** ProjectionParams.py:13-26; the basis is returned as the list of its columns *)
Definition get_perpendicular_subspace (m d : nat) (x : rmatrix) : res (list (nat -> R)) :=
  do Y <- solve m d (gram d x) x;
  do ev <- eigh d (proj_perp m x Y);
  let '(evals, evec) := ev in
  let keep_cols := filter (fun k => Rltb (1 / 100000000) (Rabs (evals k))) (seq 0 d) in
  rassert (Nat.leb m d && Nat.eqb (length keep_cols) (d - m))
    (Ok (map (fun k i => evec i k) keep_cols)).

(** ---- SubspaceVectorParam, ProjectionParams.py:30-100 ---- *)
(** sv_basis holds the columns of proj_basis; sv_cons is the number of rows of perp_subspace *)
Record subspace_param := SubspaceP
  { sv_name : string; sv_dim : nat; sv_cons : nat; sv_basis : list (nat -> R); sv_val : arr }.
(** ProjectionParams.py:49, 97-100 *)
Definition sv_free_size (p : subspace_param) : nat := (sv_dim p - sv_cons p)%nat.
Definition sv_vector_size (p : subspace_param) : nat := sv_dim p.
(** ProjectionParams.py:66-69 *)
Definition subspace_set (p : subspace_param) (val : arr) : subspace_param * res unit :=
  if negb (Nat.eqb (nd_size val) (sv_dim p)) then (p, Raise ValueError)
  else (SubspaceP (sv_name p) (sv_dim p) (sv_cons p) (sv_basis p) val, Ok tt).
(** ProjectionParams.py:31-54; perp_subspace is given by its number of rows and columns and its entries *)
Definition subspace_init (name : string) (dim : nat) (val : option arr) (perp : option (nat * nat * rmatrix)) : res subspace_param :=
  let '(rows, cols, x) := match perp with Some t => t | None => (1%nat, dim, fun _ _ => 1) end in
  if negb (Nat.eqb cols dim) then Raise ValueError
  else if Nat.leb dim rows then Raise ValueError
  else
    do B <- get_perpendicular_subspace rows dim x;
    let v := match val with Some v => v | None => np_full [dim] (Fin 0) end in
    match subspace_set (SubspaceP name dim rows B v) v with
    | (p, Ok _) => Ok p
    | (_, Raise e) => Raise e
    end.
End Oracles.

(** ProjectionParams.py:70-71 *)
Definition subspace_get (p : subspace_param) : arr := sv_val p.
(** np.matmul(B, f) with B given by its columns and f 1-d.
    SIMPLIFICATION: arguments that are not 1-d raise ValueError (numpy would also accept matrices). *)
Definition basis_mul (d : nat) (B : list (nat -> R)) (f : arr) : res arr :=
  if shape_eqb (shape f) [length B]
  then Ok (nd_vec (map (fun i => nsum (map2 (fun c v => nmul (Fin (c i)) v) B (data f))) (seq 0 d)))
  else Raise ValueError.
(** np.matmul(B.T, v) *)
Definition basis_t_mul (d : nat) (B : list (nat -> R)) (v : arr) : res arr :=
  if shape_eqb (shape v) [d]
  then Ok (nd_vec (map (fun c => nsum (map2 (fun i w => nmul (Fin (c i)) w) (seq 0 d) (data v))) B))
  else Raise ValueError.
(** ProjectionParams.py:73-76 *)
Definition subspace_set_free (p : subspace_param) (free_val : arr) : subspace_param * res unit :=
  if negb (Nat.eqb (nd_size free_val) (sv_free_size p)) then (p, Raise ValueError)
  else match basis_mul (sv_dim p) (sv_basis p) free_val with
       | Ok v => subspace_set p v
       | Raise e => (p, Raise e)
       end.
(** ProjectionParams.py:77-78 *)
Definition subspace_get_free (p : subspace_param) : res arr := basis_t_mul (sv_dim p) (sv_basis p) (sv_val p).
(** ProjectionParams.py:90-93 *)
Definition subspace_set_vector (p : subspace_param) (val : arr) : subspace_param * res unit := subspace_set p val.
Definition subspace_get_vector (p : subspace_param) : res arr := Ok (sv_val p).
(** ProjectionParams.py:80-82 on finite 1-d input *)
Definition subspace_free_to_vector (p : subspace_param) (x : list R) : list R :=
  match subspace_set_free p (nd_vec (map Fin x)) with
  | (p', Ok _) => match subspace_get_vector p' with Ok v => map toR (data v) | Raise _ => [] end
  | (_, Raise _) => []
  end.
(** ProjectionParams.py:83-84 *)
Definition subspace_free_to_vector_jac (p : subspace_param) (x : list R) : coo :=
  coo_of_dense (sv_dim p) (length (sv_basis p)) (fun i k => nth k (sv_basis p) (fun _ => 0) i).
(** ProjectionParams.py:85-87 *)
Definition subspace_free_to_vector_hess (p : subspace_param) (x : list R) : list coo :=
  map (fun _ => Coo (sv_free_size p, sv_free_size p) []) (seq 0 (sv_vector_size p)).

(** a history of calls on one object *)
Inductive subspace_op := SvSet (a : arr) | SvSetFree (a : arr) | SvSetVector (a : arr).
Definition subspace_step (p : subspace_param) (o : subspace_op) : subspace_param :=
  fst (match o with
       | SvSet a => subspace_set p a
       | SvSetFree a => subspace_set_free p a
       | SvSetVector a => subspace_set_vector p a
       end).
