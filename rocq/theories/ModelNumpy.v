(** The numpy array operations the exponential-family, regression and modelling code is written with:
    elementwise operations with broadcasting, sums along an axis, axis insertion and removal, tile, and
    einsum with explicit index lists.  These are library functions, not code of /repo: the definitions
    follow numpy's documented behaviour.
    SIMPLIFICATION: entries are taken in the order of their multi-index; strides, views and dtypes are
    not modelled. *)
From Coq Require Import List Arith Bool.
From Verif Require Import Res Nd.
Import ListNotations.

(** the array of the given shape whose entry at the index tuple idx is [f idx] *)
Definition mk_nd {A} (s : list nat) (f : list nat -> A) : nd A := Nd s (map f (product s)).
(** a[idx] for a full index tuple in range ([d] is returned for nothing that exists) *)
Definition nd_at {A} (d : A) (a : nd A) (idx : list nat) : A := nth (ravel idx (shape a)) (data a) d.

(** ---- broadcasting ---- *)
(** numpy's broadcasting rule on reversed shapes: equal sizes agree, size 1 stretches *)
Fixpoint bc_rev (s t : list nat) : option (list nat) :=
  match s, t with
  | [], t => Some t
  | s, [] => Some s
  | a :: s', b :: t' =>
      match bc_rev s' t' with
      | None => None
      | Some r =>
          if Nat.eqb a b then Some (a :: r)
          else if Nat.eqb a 1 then Some (b :: r)
          else if Nat.eqb b 1 then Some (a :: r)
          else None
      end
  end.
Definition bshape (s t : list nat) : option (list nat) := option_map (@rev nat) (bc_rev (rev s) (rev t)).
(** the entry of an operand of shape [s] that is used for the output index [idx] *)
Definition bidx (s idx : list nat) : list nat :=
  map2 (fun n i => if Nat.eqb n 1 then 0 else i) s (skipn (length idx - length s) idx).
(** a (op) b, ValueError when the shapes do not broadcast *)
Definition np_bin {A B C} (da : A) (db : B) (f : A -> B -> C) (a : nd A) (b : nd B) : res (nd C) :=
  match bshape (shape a) (shape b) with
  | None => Raise ValueError
  | Some s => Ok (mk_nd s (fun idx => f (nd_at da a (bidx (shape a) idx)) (nd_at db b (bidx (shape b) idx))))
  end.

(** ---- sums ---- *)
(** np.sum(a, axis=k) (numpy's AxisError is a ValueError) *)
Definition np_sum_axis {A} (d : A) (sum : list A -> A) (k : nat) (a : nd A) : res (nd A) :=
  if Nat.ltb k (length (shape a))
  then Ok (mk_nd (firstn k (shape a) ++ skipn (S k) (shape a))
             (fun idx => sum (map (fun i => nd_at d a (firstn k idx ++ i :: skipn k idx)) (seq 0 (nth k (shape a) 0)))))
  else Raise ValueError.
(** np.sum(a, axis=k, keepdims=True) *)
Definition np_sum_keep {A} (d : A) (sum : list A -> A) (k : nat) (a : nd A) : res (nd A) :=
  if Nat.ltb k (length (shape a))
  then Ok (mk_nd (firstn k (shape a) ++ 1 :: skipn (S k) (shape a))
             (fun idx => sum (map (fun i => nd_at d a (firstn k idx ++ i :: skipn (S k) idx)) (seq 0 (nth k (shape a) 0)))))
  else Raise ValueError.
(** np.sum(a) *)
Definition np_sum {A} (sum : list A -> A) (a : nd A) : nd A := nd_scalar (sum (data a)).

(** ---- shapes ---- *)
(** np.expand_dims(a, axis=k) *)
Definition np_expand_dims {A} (k : nat) (a : nd A) : res (nd A) :=
  if Nat.leb k (length (shape a)) then Ok (Nd (firstn k (shape a) ++ 1 :: skipn k (shape a)) (data a)) else Raise ValueError.
(** np.squeeze(a, axis=k) *)
Definition np_squeeze {A} (k : nat) (a : nd A) : res (nd A) :=
  match nth_error (shape a) k with
  | Some 1 => Ok (Nd (firstn k (shape a) ++ skipn (S k) (shape a)) (data a))
  | _ => Raise ValueError
  end.
(** np.tile(m, reps) where reps has at least as many entries as m has axes: m is promoted to that many
    axes and repeated.  SIMPLIFICATION: the callers never pass fewer. *)
Definition np_tile {A} (d : A) (m : nd A) (reps : list nat) : nd A :=
  let s := repeat 1 (length reps - length (shape m)) ++ shape m in
  mk_nd (map2 Nat.mul reps s)
        (fun idx => nd_at d m (map2 Nat.modulo (skipn (length reps - length (shape m)) idx) (shape m))).

(** ---- einsum(x, lx, y, ly, out) ---- *)
Definition lab_dim (l : nat) (ls s : list nat) : option nat :=
  option_map snd (find (fun p => Nat.eqb (fst p) l) (combine ls s)).
(** the size of an index that may occur in both operands (size 1 stretches) *)
Definition lab_dims (l : nat) (lx sx ly sy : list nat) : option nat :=
  match lab_dim l lx sx, lab_dim l ly sy with
  | Some a, Some b => if Nat.eqb a b then Some a else if Nat.eqb a 1 then Some b else if Nat.eqb b 1 then Some a else None
  | Some a, None => Some a
  | None, Some b => Some b
  | None, None => None
  end.
Fixpoint opt_seq {A} (l : list (option A)) : option (list A) :=
  match l with
  | [] => Some []
  | Some x :: r => option_map (cons x) (opt_seq r)
  | None :: _ => None
  end.
(** the value an index tuple [idx] for the labels [ls] gives to the label [l] *)
Definition lab_val (ls idx : list nat) (l : nat) : nat :=
  match find (fun p => Nat.eqb (fst p) l) (combine ls idx) with Some p => snd p | None => 0 end.
Definition clampi (s idx : list nat) : list nat := map2 (fun n i => if Nat.eqb n 1 then 0 else i) s idx.
(** SIMPLIFICATION: an index repeated within one operand (a diagonal) is not modelled: ValueError. *)
Definition np_einsum {A} (d : A) (sum : list A -> A) (mul : A -> A -> A)
    (x : nd A) (lx : list nat) (y : nd A) (ly out : list nat) : res (nd A) :=
  let dupfree l := Nat.eqb (length (nodup Nat.eq_dec l)) (length l) in
  let all := nodup Nat.eq_dec (lx ++ ly) in
  let rest := filter (fun l => negb (existsb (Nat.eqb l) out)) all in
  if Nat.eqb (length lx) (length (shape x)) && Nat.eqb (length ly) (length (shape y))
     && dupfree lx && dupfree ly && dupfree out && forallb (fun l => existsb (Nat.eqb l) all) out
  then
    match opt_seq (map (fun l => lab_dims l lx (shape x) ly (shape y)) out),
          opt_seq (map (fun l => lab_dims l lx (shape x) ly (shape y)) rest) with
    | Some so, Some sr =>
        Ok (mk_nd so (fun idx =>
              sum (map (fun jdx =>
                     let env := lab_val (out ++ rest) (idx ++ jdx) in
                     mul (nd_at d x (clampi (shape x) (map env lx)))
                         (nd_at d y (clampi (shape y) (map env ly))))
                   (product sr))))
    | _, _ => Raise ValueError
    end
  else Raise ValueError.
