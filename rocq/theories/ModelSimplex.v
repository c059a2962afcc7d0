(** Model of LinearResponseVariationalBayes/SimplexParams.py. *)
From Coq Require Import String Reals List Bool Arith.
From Coquelicot Require Import Coquelicot.
From Verif Require Import Res Num Nd RSum ModelAutograd ModelSparse ModelParameters.
Import ListNotations.
Open Scope R_scope.

(** scipy's logsumexp of one row: subtract the maximum (replaced by 0 when it is not finite) before
    exponentiating. *)
Definition nmax (x y : num) : num := if nleb x y then y else x.
Definition logsumexp (l : list num) : num :=
  let a_max := fold_right nmax NInf l in
  let a_max := if is_fin a_max then a_max else Fin 0 in
  nadd (nlog (nsum (map (fun a => nexp (nsub a a_max)) l))) a_max.

(** row i of a 2-d array *)
Definition mrow (a : arr) (i : nat) : list num := map (mget NaN a i) (seq 0 (ncols a)).

(** SimplexParams.py:11-18 *)
Definition constrain_simplex_matrix (free_mat : arr) : res arr :=
  do aug <- np_hstack [np_full [hd 0%nat (shape free_mat); 1%nat] (Fin 0); free_mat];
  Ok (mk_mat (nrows aug) (ncols aug) (fun i j => nexp (nsub (mget NaN aug i j) (logsumexp (mrow aug i))))).

(** SimplexParams.py:21-23, for a 2-d array with at least one column *)
Definition unconstrain_simplex_matrix (m : arr) : res arr :=
  match shape m with
  | [n; S k] => Ok (mk_mat n k (fun i j => nsub (nlog (mget NaN m i (j + 1)%nat)) (nlog (mget NaN m i 0%nat))))
  | _ => Raise IndexError
  end.

(** SimplexParams.py:26-27 *)
Definition constrain_simplex_vector (free_vec : arr) : res arr :=
  do m <- constrain_simplex_matrix (Nd (1%nat :: shape free_vec) (data free_vec)); Ok (np_flatten m).

(** In-place array updates.  SIMPLIFICATION: the arrays hold finite numbers and are represented by functions of
    their indices; only indices inside the array are ever written. *)
(** M[i, j] += v *)
Definition add2 (M : nat -> nat -> R) (i j : nat) (v : R) : nat -> nat -> R :=
  fun a b => if (Nat.eqb a i && Nat.eqb b j)%bool then M a b + v else M a b.
(** T[k] *= v *)
Definition scale_slab (T : nat -> nat -> nat -> R) (k : nat) (v : R) : nat -> nat -> nat -> R :=
  fun a b c => if Nat.eqb a k then T a b c * v else T a b c.
(** T[k] = (update of T[k]) *)
Definition on_slab (T : nat -> nat -> nat -> R) (k : nat) (u : (nat -> nat -> R) -> (nat -> nat -> R)) : nat -> nat -> nat -> R :=
  fun a => if Nat.eqb a k then u (T a) else T a.
(** M[i, :] += w   and   M[:, j] += w *)
Definition add_row (M : nat -> nat -> R) (i : nat) (w : nat -> R) : nat -> nat -> R :=
  fun a b => if Nat.eqb a i then M a b + w b else M a b.
Definition add_col (M : nat -> nat -> R) (j : nat) (w : nat -> R) : nat -> nat -> R :=
  fun a b => if Nat.eqb b j then M a b + w a else M a b.

(** SimplexParams.py:33-38 *)
Definition constrain_grad_from_moment (z : list R) : nat -> nat -> R :=
  let z_last := tl z in
  let z_jac := fun i j => -1 * (nth i z 0 * nth j z_last 0) in
  fold_left (fun z_jac k => add2 z_jac k (k - 1) (nth k z 0)) (seq 1 (length z - 1)) z_jac.

(** SimplexParams.py:42-63 *)
Definition constrain_hess_from_moment (z : list R) : nat -> nat -> nat -> R :=
  let z_last := tl z in
  let z_hess := fun (_ i j : nat) => 2 * (nth i z_last 0 * nth j z_last 0) in
  let z_hess := fold_left (fun h k => on_slab h 0 (fun M => add2 M (k - 1) (k - 1) (- nth k z 0))) (seq 1 (length z - 1)) z_hess in
  let z_hess := scale_slab z_hess 0 (nth 0 z 0) in
  fold_left (fun h k =>
      let h := on_slab h k (fun M => add_row M (k - 1) (fun b => - nth b z_last 0)) in
      let h := on_slab h k (fun M => add_col M (k - 1) (fun a => - nth a z_last 0)) in
      let h := fold_left (fun h j =>
                 if Nat.eqb j k then on_slab h k (fun M => add2 M (j - 1) (j - 1) (1 - nth j z 0))
                 else on_slab h k (fun M => add2 M (j - 1) (j - 1) (- nth j z 0))) (seq 1 (length z - 1)) h in
      scale_slab h k (nth k z 0)) (seq 1 (length z - 1)) z_hess.

(** ---- SimplexParam, SimplexParams.py:69-175 ----
    SIMPLIFICATION: the shape is a pair of naturals and has at least one column (with no column the constructor
    fails on 1. / shape[1] and free_shape would be negative). *)
Record simplex_param := SimplexP { sx_name : string; sx_rows : nat; sx_cols : nat; sx_val : arr }.
Definition sx_shape (p : simplex_param) : list nat := [sx_rows p; sx_cols p].
(** SimplexParams.py:73 *)
Definition sx_free_shape (p : simplex_param) : list nat := [sx_rows p; (sx_cols p - 1)%nat].
(** SimplexParams.py:172-175 *)
Definition sx_free_size (p : simplex_param) : nat := nprod (sx_free_shape p).
Definition sx_vector_size (p : simplex_param) : nat := nprod (sx_shape p).
(** SimplexParams.py:86-89 *)
Definition simplex_set (p : simplex_param) (val : arr) : simplex_param * res unit :=
  if negb (shape_eqb (shape val) (sx_shape p)) then (p, Raise ValueError)
  else (SimplexP (sx_name p) (sx_rows p) (sx_cols p) val, Ok tt).
(** SimplexParams.py:70-77; 1. / shape[1] raises for Python's integer zero *)
Definition simplex_init (name : string) (rows cols : nat) (val : option arr) : res simplex_param :=
  do v <- match val with
          | Some v => Ok v
          | None => if Nat.eqb cols 0 then Raise ZeroDivisionError else Ok (np_full [rows; cols] (ndiv (Fin 1) (Fin (INR cols))))
          end;
  match simplex_set (SimplexP name rows cols v) v with
  | (p, Ok _) => Ok p
  | (_, Raise e) => Raise e
  end.
(** SimplexParams.py:90-91 *)
Definition simplex_get (p : simplex_param) : arr := sx_val p.
(** SimplexParams.py:93-97 *)
Definition simplex_set_free (p : simplex_param) (free_val : arr) : simplex_param * res unit :=
  match np_len free_val with
  | Raise e => (p, Raise e)
  | Ok n =>
    if negb (Nat.eqb n (sx_free_size p)) then (p, Raise ValueError)
    else match (do free_mat <- np_reshape free_val (sx_free_shape p); constrain_simplex_matrix free_mat) with
         | Ok v => simplex_set p v
         | Raise e => (p, Raise e)
         end
  end.
(** SimplexParams.py:98-99 *)
Definition simplex_get_free (p : simplex_param) : res arr :=
  do m <- unconstrain_simplex_matrix (sx_val p); Ok (np_flatten m).
(** SimplexParams.py:157-160 *)
Definition simplex_set_vector (p : simplex_param) (vec_val : arr) : simplex_param * res unit :=
  match np_len vec_val with
  | Raise e => (p, Raise e)
  | Ok n =>
    if negb (Nat.eqb n (sx_vector_size p)) then (p, Raise ValueError)
    else match np_reshape vec_val (sx_shape p) with
         | Ok v => simplex_set p v
         | Raise e => (p, Raise e)
         end
  end.
(** SimplexParams.py:161-162 *)
Definition simplex_get_vector (p : simplex_param) : res arr := Ok (np_flatten (sx_val p)).
(** SimplexParams.py:101-103 on finite 1-d input, as a real map *)
Definition simplex_free_to_vector (p : simplex_param) (x : list R) : list R :=
  match simplex_set_free p (nd_vec (map Fin x)) with
  | (p', Ok _) => match simplex_get_vector p' with Ok v => map toR (data v) | Raise _ => [] end
  | (_, Raise _) => []
  end.

(** SimplexParams.py:163-166; ravel_multi_index rejects an index out of range.
    SIMPLIFICATION: at least one column (numpy rejects an empty index list); the row is not negative. *)
Definition get_vector_indices (p : simplex_param) (row : nat) : res (list nat) :=
  if Nat.ltb row (sx_rows p) then Ok (map (fun c => ravel [row; c] (sx_shape p)) (seq 0 (sx_cols p))) else Raise ValueError.
Definition sx_free_inds (p : simplex_param) (row : nat) : list nat :=
  map (fun c => ravel [row; c] (sx_free_shape p)) (seq 0 (sx_cols p - 1)).
(** constrain_simplex_vector(free_val[free_inds]) on a finite free value *)
Definition simplex_row_moment (p : simplex_param) (x : list R) (row : nat) : res (list R) :=
  do f <- rmapM (getitem x) (sx_free_inds p row);
  do z <- constrain_simplex_vector (nd_vec (map Fin f));
  Ok (map toR (data z)).
(** SimplexParams.py:106-126.  SIMPLIFICATION: at least two columns (numpy rejects the empty index list that
    a one-column simplex would produce). *)
Definition simplex_free_to_vector_jac (p : simplex_param) (x : list R) : res coo :=
  do ents <- rmapM (fun row =>
      let free_inds := sx_free_inds p row in
      let vec_inds := map (fun c => ravel [row; c] (sx_shape p)) (seq 0 (sx_cols p)) in
      do z <- simplex_row_moment p x row;
      let row_jac := constrain_grad_from_moment z in
      Ok (flat_map (fun vec_col => map (fun free_col =>
            ((nth vec_col vec_inds 0%nat, nth free_col free_inds 0%nat), row_jac vec_col free_col))
            (seq 0 (sx_cols p - 1))) (seq 0 (sx_cols p)))) (seq 0 (sx_rows p));
  Ok (Coo (sx_vector_size p, sx_free_size p) (concat ents)).
(** SimplexParams.py:129-155 *)
Definition simplex_free_to_vector_hess (p : simplex_param) (x : list R) : res (list coo) :=
  do hs <- rmapM (fun row =>
      let free_inds := sx_free_inds p row in
      do z <- simplex_row_moment p x row;
      let row_hess := constrain_hess_from_moment z in
      Ok (map (fun vec_col =>
            Coo (sx_free_size p, sx_free_size p)
              (flat_map (fun free_col1 => map (fun free_col2 =>
                 ((nth free_col1 free_inds 0%nat, nth free_col2 free_inds 0%nat), row_hess vec_col free_col1 free_col2))
                 (seq 0 (sx_cols p - 1))) (seq 0 (sx_cols p - 1)))) (seq 0 (sx_cols p)))) (seq 0 (sx_rows p));
  Ok (concat hs).
