(** C110: construction of simplex parameters; rows in the vector form. *)
From Coq Require Import String Reals List Bool Arith Lra Lia.
From Verif Require Import Res Num Nd RSum ModelParameters ModelSimplex SpecMatrix SpecSimplex LemmasSimplex LemmasSimplexInit.
Import List ListNotations.
Open Scope R_scope.
Set Bullet Behavior "Strict Subproofs".

Theorem C110_default : forall nm n K, exists p, simplex_init nm n (S K) None = Ok p /\ sx_rows p = n /\ sx_cols p = S K /\ simplex_get p = rmat n (S K) (fun _ _ => / INR (S K)) /\ interior_simplex (S K) (fun _ => / INR (S K)) /\
  simplex_get_free p = Ok (nd_vec (repeat (Fin 0) (sx_free_size p))).
Proof. exact simplex_default. Qed.
Print Assumptions C110_default.
Theorem C110_no_columns : forall nm n, simplex_init nm n 0 None = Raise ZeroDivisionError.
Proof. reflexivity. Qed.
Print Assumptions C110_no_columns.
Theorem C110_value : forall nm n m a, (forall p, simplex_init nm n m (Some a) = Ok p <-> shape a = [n; m] /\ p = SimplexP nm n m a) /\ (shape a <> [n; m] -> simplex_init nm n m (Some a) = Raise ValueError).
Proof. exact simplex_construct. Qed.
Print Assumptions C110_value.
(** the rows need not lie on the simplex: every matrix of the right shape is accepted *)
Theorem C110_invalid_value_refuted : forall nm n m Z, (0 < n)%nat -> (forall i, ~ interior_simplex m (Z i)) -> exists p, simplex_init nm n m (Some (rmat n m Z)) = Ok p /\ simplex_get p = rmat n m Z.
Proof. intros nm n m Z _ _. exists (SimplexP nm n m (rmat n m Z)). split; [apply simplex_construct; split; reflexivity|reflexivity]. Qed.
Print Assumptions C110_invalid_value_refuted.
Theorem C110_row_positions : forall p, nd_wf (sx_val p) -> shape (sx_val p) = sx_shape p ->
  exists v, simplex_get_vector p = Ok v /\
    (forall row, (row < sx_rows p)%nat -> exists l, get_vector_indices p row = Ok l /\ length l = sx_cols p /\
       forall c, (c < sx_cols p)%nat -> nth_error (data v) (nth c l 0%nat) = Some (mget NaN (simplex_get p) row c)) /\
    (forall k, (k < sx_vector_size p)%nat -> exists row l, (row < sx_rows p)%nat /\ get_vector_indices p row = Ok l /\ In k l) /\
    (forall r1 r2 l1 l2 k, get_vector_indices p r1 = Ok l1 -> get_vector_indices p r2 = Ok l2 -> In k l1 -> In k l2 -> r1 = r2) /\
    (forall row, (sx_rows p <= row)%nat -> get_vector_indices p row = Raise ValueError).
Proof. exact vector_indices. Qed.
Print Assumptions C110_row_positions.
Example C110_nonvacuous : exists p, simplex_init "s" 2 3 None = Ok p /\ nd_wf (sx_val p) /\ shape (sx_val p) = sx_shape p /\ get_vector_indices p 1 = Ok [3; 4; 5]%nat /\
  ~ interior_simplex 2 (fun _ => 1) /\ ~ interior_simplex 2 (fun j => match j with O => 2 | _ => -1 end).
Proof.
  destruct (C110_default "s" 2 2) as [p [E [H1 [H2 [H3 _]]]]]. exists p. split; [exact E|]. unfold simplex_get in H3. rewrite H3. split; [reflexivity|]. unfold sx_shape, get_vector_indices, sx_shape. rewrite H1, H2. split; [reflexivity|].
  split; [reflexivity|]. split; intros [P S]; [cbn in S; lra|]. specialize (P 1%nat ltac:(lia)). cbn in P. lra.
Qed.
