(** Model of LinearResponseVariationalBayes/Parameters.py, lines 15-322:
    the constrain/unconstrain maps and ScalarParam, VectorParam, ArrayParam.
    Mutating methods return the new object together with the outcome of the call, so that the state left
    behind by a raising call is visible. *)
From Coq Require Import String Reals List Bool Arith.
From Coquelicot Require Import Coquelicot.
From Verif Require Import Res Num Nd ModelAutograd ModelSparse.
Import ListNotations.
Open Scope R_scope.

Notation arr := (nd num).

(** Parameters.py:34-44, the formula applied to each entry (numpy broadcasts the scalar bounds). *)
Definition unconstrain_entry (v lb ub : num) : num :=
  if neqb ub PInf then
    if neqb lb NInf then v
    else nlog (nsub v lb)
  else
    if neqb lb NInf then nmul (Fin (-1)) (nlog (nsub ub v))
    else nsub (nlog (nsub v lb)) (nlog (nsub ub v)).

(** Parameters.py:31-44 *)
Definition unconstrain (vec : arr) (lb ub : num) : res arr :=
  if nleb ub lb then Raise ValueError
  else Ok (nd_map (fun v => unconstrain_entry v lb ub) vec).

(** Parameters.py:50-61, the formula applied to each entry. *)
Definition constrain_entry (v lb ub : num) : num :=
  if neqb ub PInf then
    if neqb lb NInf then v
    else nadd (nexp v) lb
  else
    if neqb lb NInf then nsub ub (nexp (nmul (Fin (-1)) v))
    else let e := nexp v in
         nadd (ndiv (nmul (nsub ub lb) e) (nadd (Fin 1) e)) lb.

(** Parameters.py:47-61 *)
Definition constrain (free_vec : arr) (lb ub : num) : res arr :=
  if nleb ub lb then Raise ValueError
  else Ok (nd_map (fun v => constrain_entry v lb ub) free_vec).

(** Parameters.py:15-20 *)
Definition unconstrain_array (vec : arr) (lb ub : num) : res arr :=
  if negb (forallb (fun v => nleb v ub) (data vec)) then Raise ValueError
  else if negb (forallb (fun v => nleb lb v) (data vec)) then Raise ValueError
  else rmap np_flatten (unconstrain vec lb ub).

(** Parameters.py:23-28. [not val <= ub] takes the truth value of an array: numpy raises ValueError for
    more than one entry; for no entry the comparison is falsy, so the function raises ValueError itself. *)
Definition unconstrain_scalar (val : arr) (lb ub : num) : res arr :=
  match data val with
  | [v] => if negb (nleb v ub) then Raise ValueError
           else if negb (nleb lb v) then Raise ValueError
           else unconstrain val lb ub
  | _ => Raise ValueError
  end.

(** Parameters.py:63-64: autograd.jacobian / hessian of constrain at a float, exact derivatives. *)
Definition constrain_real (lb ub : num) (x : R) : R := toR (constrain_entry (Fin x) lb ub).
Definition constrain_scalar_jac (x : R) (lb ub : num) : R := Derive (constrain_real lb ub) x.
Definition constrain_scalar_hess (x : R) (lb ub : num) : R := Derive (Derive (constrain_real lb ub)) x.

(** Parameters.py:66-79 *)
Definition get_inbounds_value (lb ub : num) : res num :=
  rassert (nltb lb ub)
    (if nltb NInf lb && nltb ub PInf then Ok (nmul (Fin (/ 2)) (nsub ub lb))
     else if nltb NInf lb then Ok (nadd lb (Fin 1))
     else if nltb ub PInf then Ok (nsub ub (Fin 1))
     else Ok (Fin 0)).

(** ---- ScalarParam, Parameters.py:82-150 ----
    SIMPLIFICATION: a Python float and a 0-d numpy array are both an array of shape []. *)
Record scalar_param := ScalarP { sp_name : string; sp_lb : num; sp_ub : num; sp_val : arr }.

(** Parameters.py:110-118 *)
Definition scalar_set (p : scalar_param) (val : arr) : scalar_param * res unit :=
  (ScalarP (sp_name p) (sp_lb p) (sp_ub p) val, Ok tt).
(** Parameters.py:83-94 *)
Definition scalar_init (name : string) (lb ub : num) (val : option arr) : res scalar_param :=
  if nleb ub lb then Raise ValueError
  else rassert (nleb NInf lb) (rassert (nleb ub PInf)
    match val with
    | Some v => Ok (ScalarP name lb ub v)
    | None => do v <- get_inbounds_value lb ub; Ok (ScalarP name lb ub (nd_scalar v))
    end).
(** Parameters.py:119-120 *)
Definition scalar_get (p : scalar_param) : arr := sp_val p.
(** Parameters.py:122-123 *)
Definition scalar_set_free (p : scalar_param) (free_val : arr) : scalar_param * res unit :=
  match constrain free_val (sp_lb p) (sp_ub p) with
  | Ok v => scalar_set p v
  | Raise e => (p, Raise e)
  end.
(** Parameters.py:124-125 *)
Definition scalar_get_free (p : scalar_param) : res arr :=
  do u <- unconstrain_scalar (sp_val p) (sp_lb p) (sp_ub p); np_reshape u [1%nat].
(** Parameters.py:140-141 *)
Definition scalar_set_vector (p : scalar_param) (val : arr) : scalar_param * res unit := scalar_set p val.
(** Parameters.py:142-143 *)
Definition scalar_get_vector (p : scalar_param) : res arr := np_reshape (sp_val p) [1%nat].
(** Parameters.py:145-150 *)
Definition scalar_free_size (p : scalar_param) : nat := 1.
Definition scalar_vector_size (p : scalar_param) : nat := 1.
(** Parameters.py:127-129, on finite 1-d input, as the real function autograd differentiates *)
Definition scalar_free_to_vector (p : scalar_param) (x : list R) : list R :=
  match scalar_set_free p (nd_vec (map Fin x)) with
  | (p', Ok _) => map toR (data (scalar_get p'))
  | (_, Raise _) => []
  end.
(** Parameters.py:130-131 with 96 *)
Definition scalar_free_to_vector_jac (p : scalar_param) (x : list R) : coo :=
  coo_of_dense (length x) (length x) (ad_jac (scalar_free_to_vector p) x).
(** Parameters.py:132-138 with 97 *)
Definition scalar_free_to_vector_hess (p : scalar_param) (x : list R) : list coo :=
  map (fun k => coo_of_dense (length x) (length x) (ad_hess (scalar_free_to_vector p) x k)) (seq 0 (length x)).

(** ---- VectorParam, Parameters.py:154-231 ---- *)
Record vector_param := VectorP { vp_name : string; vp_size : nat; vp_lb : num; vp_ub : num; vp_val : arr }.

(** Parameters.py:178-187 *)
Definition vector_set (p : vector_param) (val : arr) : vector_param * res unit :=
  if negb (Nat.eqb (nd_size val) (vp_size p)) then (p, Raise ValueError)
  else (VectorP (vp_name p) (vp_size p) (vp_lb p) (vp_ub p) val, Ok tt).
(** Parameters.py:155-169 *)
Definition vector_init (name : string) (size : nat) (lb ub : num) (val : option arr) : res vector_param :=
  rassert (nleb NInf lb) (rassert (nleb ub PInf)
    (if nleb ub lb then Raise ValueError
     else
       do v <- match val with
               | Some v => Ok v
               | None => do b <- get_inbounds_value lb ub; Ok (np_full [size] b)
               end;
       match vector_set (VectorP name size lb ub v) v with
       | (p, Ok _) => Ok p
       | (_, Raise e) => Raise e
       end)).
(** Parameters.py:188-189 *)
Definition vector_get (p : vector_param) : arr := vp_val p.
(** Parameters.py:191-194 *)
Definition vector_set_free (p : vector_param) (free_val : arr) : vector_param * res unit :=
  if negb (Nat.eqb (nd_size free_val) (vp_size p)) then (p, Raise ValueError)
  else match constrain free_val (vp_lb p) (vp_ub p) with
       | Ok v => vector_set p v
       | Raise e => (p, Raise e)
       end.
(** Parameters.py:195-196 *)
Definition vector_get_free (p : vector_param) : res arr := unconstrain_array (vp_val p) (vp_lb p) (vp_ub p).
(** Parameters.py:221-224 *)
Definition vector_set_vector (p : vector_param) (val : arr) : vector_param * res unit := vector_set p val.
Definition vector_get_vector (p : vector_param) : res arr := Ok (vp_val p).
(** Parameters.py:226-231 *)
Definition vector_free_size (p : vector_param) : nat := vp_size p.
Definition vector_vector_size (p : vector_param) : nat := vp_size p.
(** free_val[i] on a 1-d array *)
Definition getitem (x : list R) (i : nat) : res R :=
  match nth_error x i with Some r => Ok r | None => Raise IndexError end.
(** Parameters.py:200-206 (and 283-293): the diagonal coo_matrix of scalar derivatives.
    SIMPLIFICATION: the free value is a finite 1-d array. *)
Definition diag_jac (n : nat) (lb ub : num) (x : list R) : res coo :=
  do grads <- rmapM (fun i => rmap (fun r => constrain_scalar_jac r lb ub) (getitem x i)) (seq 0 n);
  Ok (Coo (n, n) (combine (combine (seq 0 n) (seq 0 n)) grads)).
(** Parameters.py:207-218 (and 294-305) *)
Definition diag_hess (n : nat) (lb ub : num) (x : list R) : res (list coo) :=
  rmapM (fun i => rmap (fun r => Coo (n, n) [((i, i), constrain_scalar_hess r lb ub)]) (getitem x i)) (seq 0 n).
Definition vector_free_to_vector_jac (p : vector_param) (x : list R) : res coo :=
  diag_jac (vp_size p) (vp_lb p) (vp_ub p) x.
Definition vector_free_to_vector_hess (p : vector_param) (x : list R) : res (list coo) :=
  diag_hess (vp_size p) (vp_lb p) (vp_ub p) x.

(** ---- ArrayParam, Parameters.py:234-322 ---- *)
Record array_param := ArrayP { ap_name : string; ap_shape : list nat; ap_lb : num; ap_ub : num; ap_val : arr }.

(** Parameters.py:258-267 *)
Definition array_set (p : array_param) (val : arr) : array_param * res unit :=
  if negb (shape_eqb (shape val) (ap_shape p)) then (p, Raise ValueError)
  else (ArrayP (ap_name p) (ap_shape p) (ap_lb p) (ap_ub p) val, Ok tt).
(** Parameters.py:235-249 *)
Definition array_init (name : string) (sh : list nat) (lb ub : num) (val : option arr) : res array_param :=
  rassert (nleb NInf lb) (rassert (nleb ub PInf)
    (if nleb ub lb then Raise ValueError
     else
       do v <- match val with
               | Some v => Ok v
               | None => do b <- get_inbounds_value lb ub; Ok (np_full sh b)
               end;
       match array_set (ArrayP name sh lb ub v) v with
       | (p, Ok _) => Ok p
       | (_, Raise e) => Raise e
       end)).
Definition array_get (p : array_param) : arr := ap_val p.
(** Parameters.py:319-322 *)
Definition array_free_size (p : array_param) : nat := nprod (ap_shape p).
Definition array_vector_size (p : array_param) : nat := nprod (ap_shape p).
(** Parameters.py:271-277 *)
Definition array_set_free (p : array_param) (free_val : arr) : array_param * res unit :=
  if negb (Nat.eqb (nd_size free_val) (array_free_size p)) then (p, Raise ValueError)
  else match (do c <- constrain free_val (ap_lb p) (ap_ub p); np_reshape c (ap_shape p)) with
       | Ok v => array_set p v
       | Raise e => (p, Raise e)
       end.
(** Parameters.py:278-279 *)
Definition array_get_free (p : array_param) : res arr := unconstrain_array (ap_val p) (ap_lb p) (ap_ub p).
(** Parameters.py:307-313 *)
Definition array_set_vector (p : array_param) (val : arr) : array_param * res unit :=
  if negb (Nat.eqb (nd_size val) (array_vector_size p)) then (p, Raise ValueError)
  else match np_reshape val (ap_shape p) with
       | Ok v => array_set p v
       | Raise e => (p, Raise e)
       end.
(** Parameters.py:314-315 *)
Definition array_get_vector (p : array_param) : res arr := Ok (np_flatten (ap_val p)).
Definition array_free_to_vector_jac (p : array_param) (x : list R) : res coo :=
  diag_jac (array_vector_size p) (ap_lb p) (ap_ub p) x.
Definition array_free_to_vector_hess (p : array_param) (x : list R) : res (list coo) :=
  diag_hess (array_vector_size p) (ap_lb p) (ap_ub p) x.

(** Parameters.py:127-129, 197-199, 280-282 restricted to finite 1-d input, as a map on real vectors:
    set_free(x) then get_vector(). *)
Definition vector_free_to_vector (p : vector_param) (x : list R) : list R :=
  match vector_set_free p (nd_vec (map Fin x)) with
  | (p', Ok _) => match vector_get_vector p' with Ok v => map toR (data v) | Raise _ => [] end
  | (_, Raise _) => []
  end.
Definition array_free_to_vector (p : array_param) (x : list R) : list R :=
  match array_set_free p (nd_vec (map Fin x)) with
  | (p', Ok _) => match array_get_vector p' with Ok v => map toR (data v) | Raise _ => [] end
  | (_, Raise _) => []
  end.

(** Call histories on one parameter. *)
Inductive leaf_op := OpSet (a : arr) | OpSetFree (a : arr) | OpSetVector (a : arr).
Definition scalar_step (p : scalar_param) (o : leaf_op) : scalar_param :=
  match o with OpSet a => fst (scalar_set p a) | OpSetFree a => fst (scalar_set_free p a)
             | OpSetVector a => fst (scalar_set_vector p a) end.
Definition vector_step (p : vector_param) (o : leaf_op) : vector_param :=
  match o with OpSet a => fst (vector_set p a) | OpSetFree a => fst (vector_set_free p a)
             | OpSetVector a => fst (vector_set_vector p a) end.
Definition array_step (p : array_param) (o : leaf_op) : array_param :=
  match o with OpSet a => fst (array_set p a) | OpSetFree a => fst (array_set_free p a)
             | OpSetVector a => fst (array_set_vector p a) end.
