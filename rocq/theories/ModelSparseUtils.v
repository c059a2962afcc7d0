(** Model of LinearResponseVariationalBayes/SparseObjectives.py, lines 587-657: sparse sub-matrices and
    packing of CSR matrices.  SIMPLIFICATION: matrix entries are finite numbers. *)
From Coq Require Import String Reals List Bool Arith ZArith.
From Verif Require Import Res RSum Num ModelSparse.
Import List ListNotations.
Open Scope R_scope.

(** scipy.sparse.csr_matrix *)
Record csr := Csr { csr_shape : nat * nat; csr_data : list R; csr_indices : list nat; csr_indptr : list nat }.
(** the dense matrix it denotes (csr_matrix.toarray()): row i holds the stored positions indptr[i] .. indptr[i+1]-1 *)
Definition csr_get (m : csr) (i j : nat) : R :=
  let lo := nth i (csr_indptr m) 0%nat in
  let hi := nth (S i) (csr_indptr m) 0%nat in
  lsum (map (fun k => if Nat.eqb (nth k (csr_indices m) 0%nat) j then nth k (csr_data m) 0 else 0) (seq lo (hi - lo))).

(** csr_matrix((data, indices, indptr), shape): scipy's check_format *)
Definition csr_of_parts (data : list R) (indices indptr : list nat) (shape : nat * nat) : res csr :=
  if negb (Nat.eqb (length indptr) (fst shape + 1)) then Raise ValueError
  else if negb (Nat.eqb (hd 1%nat indptr) 0) then Raise ValueError
  else if negb (Nat.eqb (length indices) (length data)) then Raise ValueError
  else if Nat.ltb (length indices) (last indptr 0%nat) then Raise ValueError
  else Ok (Csr shape data indices indptr).

(** coo_matrix.tocsr(): the columns of each row are sorted and duplicates are summed; explicit zeros stay *)
Definition row_cols (m : coo) (r : nat) : list nat :=
  filter (fun c => existsb (fun e => let '(r', c', _) := e in Nat.eqb r' r && Nat.eqb c' c) (coo_ent m)) (seq 0 (snd (coo_shape m))).
Fixpoint csr_rows (m : coo) (r n : nat) (start : nat) : list R * list nat * list nat :=
  match n with
  | O => ([], [], [start])
  | S n' =>
      let cols := row_cols m r in
      let '(d, ix, ptr) := csr_rows m (S r) n' (start + length cols) in
      (map (coo_get m r) cols ++ d, cols ++ ix, start :: ptr)
  end.
Definition coo_tocsr (m : coo) : csr :=
  let '(d, ix, ptr) := csr_rows m 0 (fst (coo_shape m)) 0 in Csr (coo_shape m) d ix ptr.
(** csr_matrix((vals, (rows, cols)), shape): ValueError when an index does not fit *)
Definition csr_of_triplets (ents : list (Z * Z * R)) (shape : nat * nat) : res csr :=
  if forallb (fun e => let '(r, c, _) := e in
        (0 <=? r)%Z && (r <? Z.of_nat (fst shape))%Z && (0 <=? c)%Z && (c <? Z.of_nat (snd shape))%Z) ents
  then Ok (coo_tocsr (Coo shape (map (fun e => let '(r, c, v) := e in (Z.to_nat r, Z.to_nat c, v)) ents)))
  else Raise ValueError.

(** SparseObjectives.py:604-619; the dense matrix is given by its shape and entries *)
Definition get_sparse_sub_matrix (nrow ncol : nat) (sub_matrix : nat -> nat -> R) (row_indices col_indices : list Z)
  (row_dim col_dim : nat) : res csr :=
  do ents <- rmapM (fun row => rmapM (fun col =>
       if Reqb (sub_matrix row col) 0 then Ok []
       else match nth_error row_indices row, nth_error col_indices col with
            | Some r, Some c => Ok [(r, c, sub_matrix row col)]
            | _, _ => Raise IndexError
            end) (seq 0 ncol)) (seq 0 nrow);
  csr_of_triplets (List.concat (List.concat ents)) (row_dim, col_dim).
(** SparseObjectives.py:591-597 *)
Definition get_sparse_sub_hessian (n m : nat) (sub_hessian : nat -> nat -> R) (full_indices : list Z) (full_hess_dim : nat) : res csr :=
  get_sparse_sub_matrix n m sub_hessian full_indices full_indices full_hess_dim full_hess_dim.

(** a sparse matrix object; its class matters to json_pack_csr_matrix *)
Inductive spmatrix := IsCsr (m : csr) | IsCoo (m : coo).
Definition to_csr (m : spmatrix) : csr := match m with IsCsr m => m | IsCoo m => coo_tocsr m end.
(** SparseObjectives.py:624-629: the dictionary with keys data, indices, indptr, shape *)
Definition pack_csr_matrix (sp_mat : spmatrix) : list R * list nat * list nat * (nat * nat) :=
  let m := to_csr sp_mat in (csr_data m, csr_indices m, csr_indptr m, csr_shape m).
(** SparseObjectives.py:631-634 *)
Definition unpack_csr_matrix (d : list R * list nat * list nat * (nat * nat)) : res csr :=
  let '(data, indices, indptr, shape) := d in csr_of_parts data indices indptr shape.

Section Json.
(** json_tricks.dumps and loads on float and integer arrays *)
Context {J : Type}.
Variables (dumps_f : list R -> J) (loads_f : J -> res (list R)) (dumps_i : list nat -> J) (loads_i : J -> res (list nat)).
(** the dictionary; a missing key is None *)
Record json_dict := JsonDict { jd_data : option J; jd_indices : option J; jd_indptr : option J; jd_shape : option (nat * nat); jd_type : option string }.
Definition key {A} (o : option A) : res A := match o with Some a => Ok a | None => Raise KeyError end.
(** SparseObjectives.py:640-647 *)
Definition json_pack_csr_matrix (sp_mat : spmatrix) : res json_dict :=
  rassert (match sp_mat with IsCsr _ => true | IsCoo _ => false end)
    (let m := to_csr sp_mat in
     Ok (JsonDict (Some (dumps_f (csr_data m))) (Some (dumps_i (csr_indices m))) (Some (dumps_i (csr_indptr m))) (Some (csr_shape m)) (Some "csr_matrix"%string))).
(** SparseObjectives.py:651-657 *)
Definition json_unpack_csr_matrix (d : json_dict) : res csr :=
  do ty <- key (jd_type d);
  rassert (String.eqb ty "csr_matrix")
    (do data <- rbind (key (jd_data d)) loads_f;
     do indices <- rbind (key (jd_indices d)) loads_i;
     do indptr <- rbind (key (jd_indptr d)) loads_i;
     do shape <- key (jd_shape d);
     csr_of_parts data indices indptr shape).
End Json.
