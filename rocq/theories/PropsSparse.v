(** Properties C39 and C40: sparse sub-matrices and CSR packing. *)
From Coq Require Import String Reals List Bool Arith ZArith Lia Lra.
From Verif Require Import Res RSum Num ModelSparse ModelSparseUtils SpecSparse LemmasSparse.
Import List ListNotations.
Open Scope R_scope.
Set Bullet Behavior "Strict Subproofs".

(** C39: [scattered] (SpecSparse.v) is the sum over the entries whose indices map to (r, c) *)
Theorem C39_sub_matrix : forall nrow ncol A ri ci rd cd, indices_ok nrow ri rd -> indices_ok ncol ci cd ->
  exists m, get_sparse_sub_matrix nrow ncol A ri ci rd cd = Ok m /\ csr_valid m /\ csr_shape m = (rd, cd) /\
    forall r c, (r < rd)%nat -> csr_get m r c = scattered nrow ncol A ri ci r c.
Proof. exact sub_matrix_get. Qed.
Print Assumptions C39_sub_matrix.
Theorem C39_injective : forall nrow ncol A ri ci rd cd, indices_ok nrow ri rd -> indices_ok ncol ci cd -> NoDup ri -> NoDup ci ->
  (forall i j r c, (i < nrow)%nat -> (j < ncol)%nat -> nth i ri (-1)%Z = Z.of_nat r -> nth j ci (-1)%Z = Z.of_nat c -> scattered nrow ncol A ri ci r c = A i j) /\
  (forall r c, (~ In (Z.of_nat r) ri \/ ~ In (Z.of_nat c) ci) -> scattered nrow ncol A ri ci r c = 0).
Proof. exact scattered_injective. Qed.
Print Assumptions C39_injective.
Theorem C39_rejects : forall nrow ncol A ri ci rd cd i j, (i < nrow)%nat -> (j < ncol)%nat -> A i j <> 0 -> length ri = nrow -> length ci = ncol ->
  ~ ((0 <= nth i ri (-1) < Z.of_nat rd)%Z /\ (0 <= nth j ci (-1) < Z.of_nat cd)%Z) -> get_sparse_sub_matrix nrow ncol A ri ci rd cd = Raise ValueError.
Proof. exact sub_matrix_rejects. Qed.
Print Assumptions C39_rejects.
Theorem C39_sub_hessian : forall n A ix dim, indices_ok n ix dim -> exists m, get_sparse_sub_hessian n n A ix dim = Ok m /\ csr_valid m /\ csr_shape m = (dim, dim) /\
  (forall r c, (r < dim)%nat -> csr_get m r c = scattered n n A ix ix r c) /\
  ((forall i j, (i < n)%nat -> (j < n)%nat -> A i j = A j i) -> forall r c, (r < dim)%nat -> (c < dim)%nat -> csr_get m r c = csr_get m c r).
Proof. exact sub_hessian. Qed.
Print Assumptions C39_sub_hessian.
Example C39_nonvacuous : indices_ok 2 [3; 1]%Z 4 /\ NoDup [3; 1]%Z /\ scattered 2 2 (fun i j => INR (i + 2 * j)) [3; 1]%Z [3; 1]%Z 1 3 = 1.
Proof.
  split; [|split].
  - split; [reflexivity|]. intros [|[|i]] Hi; cbn; lia.
  - repeat constructor; cbn; intuition lia.
  - unfold scattered. cbn. lra.
Qed.

(** C40 *)
Theorem C40_csr : forall m, csr_valid m -> unpack_csr_matrix (pack_csr_matrix (IsCsr m)) = Ok m.
Proof. exact pack_unpack_csr. Qed.
Print Assumptions C40_csr.
Theorem C40_coo : forall m, coo_in_range m -> exists m', unpack_csr_matrix (pack_csr_matrix (IsCoo m)) = Ok m' /\ csr_valid m' /\ csr_shape m' = coo_shape m /\
  forall i j, (i < fst (coo_shape m))%nat -> csr_get m' i j = coo_get m i j.
Proof. exact pack_unpack_coo. Qed.
Print Assumptions C40_coo.
Theorem C40_json : forall J dumps_f loads_f dumps_i loads_i m, (forall l, loads_f (dumps_f l) = Ok l) -> (forall l, loads_i (dumps_i l) = Ok l) -> csr_valid m ->
  exists d, @json_pack_csr_matrix J dumps_f dumps_i (IsCsr m) = Ok d /\ @json_unpack_csr_matrix J loads_f loads_i d = Ok m.
Proof. exact @json_pack_unpack. Qed.
Print Assumptions C40_json.
Theorem C40_json_rejects : forall J dumps_f loads_f dumps_i loads_i, (forall m, @json_pack_csr_matrix J dumps_f dumps_i (IsCoo m) = Raise AssertionError) /\
  (forall d ty, jd_type d = Some ty -> ty <> "csr_matrix"%string -> @json_unpack_csr_matrix J loads_f loads_i d = Raise AssertionError) /\
  (forall d, jd_type d = None -> @json_unpack_csr_matrix J loads_f loads_i d = Raise KeyError).
Proof. exact @json_rejects. Qed.
Print Assumptions C40_json_rejects.
Example C40_nonvacuous : csr_valid (Csr (2, 3)%nat [1; 2] [0; 2]%nat [0; 1; 2]%nat) /\
  csr_get (Csr (2, 3)%nat [1; 2] [0; 2]%nat [0; 1; 2]%nat) 1 2 = 2 /\ coo_in_range (Coo (2, 3)%nat [((0, 2)%nat, 1); ((0, 2)%nat, 4)]) /\
  csr_get (coo_tocsr (Coo (2, 3)%nat [((0, 2)%nat, 1); ((0, 2)%nat, 4)])) 0 2 = 5.
Proof.
  split; [|split; [|split]].
  - repeat split; cbn; lia.
  - unfold csr_get. cbn. lra.
  - intros r c v [E|[E|[]]]; injection E as <- <- <-; cbn; lia.
  - unfold csr_get, coo_get. cbn. lra.
Qed.
