(** Property C35: subspace parameters.
    The linear solver and the symmetric eigensolver are arbitrary functions; the hypotheses say that on the input the
    code hands them they return an exact answer. x is the m by d constraint matrix. *)
From Coq Require Import String Reals List Bool Arith Lia Lra.
From Coquelicot Require Import Coquelicot.
From Verif Require Import Res Num Nd RSum ModelAutograd ModelSparse ModelParameters ModelProjection.
From Verif Require Import SpecParameters SpecMatrix SpecProjection LemmasProjection.
Import List ListNotations.
Open Scope R_scope.
Set Bullet Behavior "Strict Subproofs".

(** get_perpendicular_subspace: its assertion never fails and the columns are an orthonormal basis *)
Theorem C35_basis : forall solve eigh m d x Y e V, full_rank m d x ->
  solve m d (gram d x) x = Ok Y -> solves m d (gram d x) x Y ->
  eigh d (proj_perp m x Y) = Ok (e, V) -> spectral d (proj_perp m x Y) e V ->
  exists B, get_perpendicular_subspace solve eigh m d x = Ok B /\ (m <= d)%nat /\ length B = (d - m)%nat /\ orthonormal d B /\
    (forall b, In b B -> perp m d x b) /\
    (forall v, perp m d x v -> exists c, forall i, (i < d)%nat -> v i = rsum (length B) (fun k => c k * nth k B (fun _ => 0) i)).
Proof. exact perp_basis. Qed.
Print Assumptions C35_basis.

(** constructor: rejects constraint matrices of the wrong shape, accepts the others exactly when the value has the right size *)
Theorem C35_init_rejects : forall solve eigh name m d cols x val, (cols <> d \/ d <= m)%nat ->
  subspace_init solve eigh name d val (Some (m, cols, x)) = Raise ValueError.
Proof. exact subspace_init_rejects. Qed.
Print Assumptions C35_init_rejects.
Theorem C35_init_accepts : forall solve eigh name m d x Y e V val, full_rank m d x -> (m < d)%nat ->
  solve m d (gram d x) x = Ok Y -> solves m d (gram d x) x Y ->
  eigh d (proj_perp m x Y) = Ok (e, V) -> spectral d (proj_perp m x Y) e V ->
  let v := match val with Some v => v | None => fvec (repeat 0 d) end in
  if Nat.eqb (nd_size v) d
  then exists p, subspace_init solve eigh name d val (Some (m, d, x)) = Ok p /\ subspace_get p = v
  else subspace_init solve eigh name d val (Some (m, d, x)) = Raise ValueError.
Proof. exact subspace_init_ok. Qed.
Print Assumptions C35_init_accepts.

(** the remaining theorems hold for an object after any history of calls *)
Theorem C35_set_free : forall solve eigh name m d x Y e V val p0 ops p f, full_rank m d x ->
  solve m d (gram d x) x = Ok Y -> solves m d (gram d x) x Y ->
  eigh d (proj_perp m x Y) = Ok (e, V) -> spectral d (proj_perp m x Y) e V ->
  subspace_init solve eigh name d val (Some (m, d, x)) = Ok p0 -> p = fold_left subspace_step ops p0 -> length f = (d - m)%nat ->
  exists p' v, subspace_set_free p (fvec f) = (p', Ok tt) /\ subspace_get p' = fvec v /\ length v = d /\
    perp m d x (entry v) /\ subspace_get_free p' = Ok (fvec f).
Proof.
  intros solve eigh name m d x Y e V val p0 ops p f HF ES HY EE HS HI -> Hf. apply subspace_free_roundtrip; [|exact Hf].
  apply subspace_history. eapply subspace_init_good; eassumption.
Qed.
Print Assumptions C35_set_free.
Theorem C35_projection : forall solve eigh name m d x Y e V val p0 ops p v, full_rank m d x ->
  solve m d (gram d x) x = Ok Y -> solves m d (gram d x) x Y ->
  eigh d (proj_perp m x Y) = Ok (e, V) -> spectral d (proj_perp m x Y) e V ->
  subspace_init solve eigh name d val (Some (m, d, x)) = Ok p0 -> p = fold_left subspace_step ops p0 ->
  subspace_get p = fvec v -> length v = d ->
  exists f p' w, subspace_get_free p = Ok (fvec f) /\ length f = (d - m)%nat /\ subspace_set_free p (fvec f) = (p', Ok tt) /\
    subspace_get p' = fvec w /\ length w = d /\ perp m d x (entry w) /\ in_row_space m d x (fun i => entry v i - entry w i) /\
    (perp m d x (entry v) -> p' = p).
Proof.
  intros solve eigh name m d x Y e V val p0 ops p v HF ES HY EE HS HI -> Hv Hl. apply subspace_projection; [|exact Hv|exact Hl].
  apply subspace_history. eapply subspace_init_good; eassumption.
Qed.
Print Assumptions C35_projection.
Theorem C35_derivatives : forall solve eigh name m d x Y e V val p0 ops p f, full_rank m d x ->
  solve m d (gram d x) x = Ok Y -> solves m d (gram d x) x Y ->
  eigh d (proj_perp m x Y) = Ok (e, V) -> spectral d (proj_perp m x Y) e V ->
  subspace_init solve eigh name d val (Some (m, d, x)) = Ok p0 -> p = fold_left subspace_step ops p0 -> length f = (d - m)%nat ->
  jacobian_of (subspace_free_to_vector p) (sv_vector_size p) (sv_free_size p) f (subspace_free_to_vector_jac p f) /\
  hessians_of (subspace_free_to_vector p) (sv_vector_size p) (sv_free_size p) f (subspace_free_to_vector_hess p f).
Proof.
  intros solve eigh name m d x Y e V val p0 ops p f HF ES HY EE HS HI -> Hf. apply (subspace_derivs m d x); [|exact Hf].
  apply subspace_history. eapply subspace_init_good; eassumption.
Qed.
Print Assumptions C35_derivatives.
Theorem C35_wrong_size : forall p a,
  (nd_size a <> sv_free_size p -> subspace_set_free p a = (p, Raise ValueError)) /\
  (nd_size a <> sv_vector_size p -> subspace_set p a = (p, Raise ValueError) /\ subspace_set_vector p a = (p, Raise ValueError)).
Proof. exact subspace_bad_size. Qed.
Print Assumptions C35_wrong_size.
Theorem C35_set_vector : forall p a, nd_size a = sv_vector_size p ->
  exists p', subspace_set_vector p a = (p', Ok tt) /\ subspace_get p' = a /\ subspace_get_vector p' = Ok a.
Proof. exact subspace_vector_roundtrip. Qed.
Print Assumptions C35_set_vector.

(** without a constraint matrix the entries of the value add up to zero; the dimension must be at least two *)
Theorem C35_default : forall solve eigh name d val, let x := fun _ _ : nat => 1 in
  ((d <= 1)%nat -> subspace_init solve eigh name d val None = Raise ValueError) /\
  forall Y e V, (2 <= d)%nat -> solve 1%nat d (gram d x) x = Ok Y -> solves 1 d (gram d x) x Y -> eigh d (proj_perp 1 x Y) = Ok (e, V) -> spectral d (proj_perp 1 x Y) e V ->
    (let v := match val with Some v => v | None => fvec (repeat 0 d) end in
     if Nat.eqb (nd_size v) d then exists p, subspace_init solve eigh name d val None = Ok p /\ subspace_get p = v else subspace_init solve eigh name d val None = Raise ValueError) /\
    forall p0 ops f, subspace_init solve eigh name d val None = Ok p0 -> length f = (d - 1)%nat ->
      exists p' v, subspace_set_free (fold_left subspace_step ops p0) (fvec f) = (p', Ok tt) /\ subspace_get p' = fvec v /\ length v = d /\ lsum v = 0 /\ subspace_get_free p' = Ok (fvec f).
Proof.
  intros solve eigh name d val x. split; [intros Hd; apply (C35_init_rejects solve eigh name 1 d d x val); right; lia|]. intros Y e V Hd ES HY EE HS.
  assert (FR : full_rank 1 d x) by (intros c H i Hi; specialize (H O ltac:(lia)); cbn in H; destruct i; [unfold x in H; lra|lia]). split; [apply (C35_init_accepts solve eigh name 1 d x Y e V val FR ltac:(lia) ES HY EE HS)|].
  intros p0 ops f HI Hf. destruct (C35_set_free solve eigh name 1%nat d x Y e V val p0 ops _ f FR ES HY EE HS HI eq_refl Hf) as [p' [v [A [B [C [D E]]]]]]. exists p', v. splits; try assumption.
  specialize (D O ltac:(lia)). unfold inner in D. rewrite lsum_nth, C. etransitivity; [|exact D]. apply rsum_ext. intros i Hi. unfold x, entry. ring.
Qed.
Print Assumptions C35_default.

(** the hypotheses are met: one constraint (3/5, 4/5) in the plane; the eigenvectors are (4/5,-3/5) and (3/5,4/5) *)
Example C35_nonvacuous : let x := fun _ j : nat => match j with O => 3 / 5 | _ => 4 / 5 end in
  let Y := x in let e := fun k : nat => match k with O => 1 | _ => 0 end in
  let V := fun i k : nat => match k, i with O, O => 4 / 5 | O, _ => - (3 / 5) | _, O => 3 / 5 | _, _ => 4 / 5 end in
  full_rank 1 2 x /\ solves 1 2 (gram 2 x) x Y /\ spectral 2 (proj_perp 1 x Y) e V /\
  exists p, subspace_init (fun _ _ _ _ => Ok Y) (fun _ _ => Ok (e, V)) "v"%string 2 None (Some (1%nat, 2%nat, x)) = Ok p /\
    subspace_get p = fvec [0; 0].
Proof.
  intros x Y e V.
  assert (A : full_rank 1 2 x).
  { intros c H i Hi. specialize (H O ltac:(lia)). cbn in H. destruct i; [|lia]. lra. }
  assert (B : solves 1 2 (gram 2 x) x Y).
  { intros i j Hi Hj. unfold gram, Y, x. cbn. destruct j; lra. }
  assert (C : spectral 2 (proj_perp 1 x Y) e V).
  { split; intros i j Hi Hj; destruct i as [|[|?]]; destruct j as [|[|?]]; try lia; unfold proj_perp, np_eye, V, e, Y, x; cbn; lra. }
  splits; try assumption.
  apply (C35_init_accepts (fun _ _ _ _ => Ok Y) (fun _ _ => Ok (e, V)) "v"%string 1 2 x Y e V None A ltac:(lia) eq_refl B eq_refl C).
Qed.
(** the default constraint in the plane *)
Example C35_default_nonvacuous : let x := fun _ _ : nat => 1 in let Y := fun _ _ : nat => / 2 in let e := fun k : nat => match k with O => 1 | _ => 0 end in
  let V := fun i k : nat => match k, i with O, O => / sqrt 2 | O, _ => - / sqrt 2 | _, _ => / sqrt 2 end in
  solves 1 2 (gram 2 x) x Y /\ spectral 2 (proj_perp 1 x Y) e V.
Proof.
  intros x Y e V. assert (Q : / sqrt 2 * / sqrt 2 = / 2). { pose proof (sqrt_lt_R0 2 ltac:(lra)). apply (Rmult_eq_reg_r (sqrt 2 * sqrt 2)); [|nra]. transitivity 1; [field; lra|]. rewrite sqrt_sqrt by lra. field. }
  split; [intros i j Hi Hj; unfold gram, Y, x; cbn; lra|]. split; intros i j Hi Hj; destruct i as [|[|?]]; destruct j as [|[|?]]; try lia; unfold proj_perp, np_eye, V, e, Y, x; cbn; nra.
Qed.
