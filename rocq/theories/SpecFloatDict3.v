(** Vocabulary for dictionaries of parameters in double precision: values that survive being read as free values and set again. *)
From Coq Require Import Reals List Arith.
From Flocq Require Import Core BinarySingleNaN.
From Verif Require Import Res Nd SpecFloat SpecFloatAcc SpecFloatMatrix SpecFloatRefresh SpecFloatRefresh2 SpecFloatStack ModelFloat ModelFloatDict SpecFloatDict2.
From Verif Require ModelMatrix ModelFloatParams ModelFloatSimplex ModelFloatMatrix ModelFloatStack.
Import ListNotations.
Open Scope R_scope.

(** one n by n matrix that is finite, symmetric and well inside the positive definite ones *)
Definition inside (n : nat) (lb : double) (m : nd double) : Prop := shape m = [n; n] /\ tidy n lb (mget dzero m) /\ well_inside n lb (mget dzero m).
(** the matrix m was replaced by m' *)
Definition moved_matrix (n : nat) (lb : double) (m m' : nd double) : Prop := near n lb (log_size lb (mget dzero m)) (mget dzero m) (mget dzero m').

(** the parameter holds a value of the right shape that is not too close to the boundary of what it may hold *)
Definition settled (l : fleaf) : Prop := constructed l /\
  match l with
  | FScalar p => let a := ModelFloatParams.fscalar_get p in
      good_bounds (ModelFloatParams.fs_lb p) (ModelFloatParams.fs_ub p) /\ nd_size a = 1%nat /\ exists v, data a = [v] /\ interior (ModelFloatParams.fs_lb p) (ModelFloatParams.fs_ub p) v
  | FVector p => good_bounds (fv_lb p) (fv_ub p) /\ length (fvector_get p) = fv_size p /\ List.Forall (interior (fv_lb p) (fv_ub p)) (fvector_get p)
  | FArray p => let a := ModelFloatParams.farray_get p in
      good_bounds (ModelFloatParams.fa_lb p) (ModelFloatParams.fa_ub p) /\ shape a = ModelFloatParams.fa_shape p /\ length (data a) = nprod (shape a) /\
      List.Forall (interior (ModelFloatParams.fa_lb p) (ModelFloatParams.fa_ub p)) (data a)
  | FSimplex p => let a := ModelFloatSimplex.fsimplex_get p in
      (1 <= ModelFloatSimplex.fs_cols p)%nat /\ INR (ModelFloatSimplex.fs_cols p) <= bpow radix2 20 /\ length a = ModelFloatSimplex.fs_rows p /\
      List.Forall (fun row => length row = ModelFloatSimplex.fs_cols p /\ List.Forall positive_unit row) a
  | FPosDef p => let n := ModelFloatMatrix.fp_size p in let lb := ModelFloatMatrix.fp_lb p in good_matrices n lb /\ inside n lb (ModelFloatMatrix.fposdef_get p)
  | FPosDefV p => let n := ModelFloatStack.fv_size p in let lb := ModelFloatStack.fv_lb p in
      good_matrices n lb /\ (0 < ModelFloatStack.fv_length p)%nat /\ shape (ModelFloatStack.fv_get p) = [ModelFloatStack.fv_length p; n; n] /\
      forall o, (o < ModelFloatStack.fv_length p)%nat -> exists m, ModelMatrix.nd_index (ModelFloatStack.fv_get p) [o] = Ok m /\ inside n lb m
  | FPosDefA p => let n := ModelFloatStack.fa_size p in let lb := ModelFloatStack.fa_lb p in let s := ModelFloatStack.fa_ashape p in
      good_matrices n lb /\ (0 < how_many s)%nat /\
      forall obs, valid_index s obs -> exists m, ModelMatrix.nd_index (ModelFloatStack.fa_get p) obs = Ok m /\ inside n lb m
  end.
(** the value of l was replaced by that of l', which is of the same class and close to it (a row of a simplex is normalised) *)
Definition moved_little (l l' : fleaf) : Prop :=
  match l, l' with
  | FScalar p, FScalar p' => Forall2 (refresh_close (ModelFloatParams.fs_lb p) (ModelFloatParams.fs_ub p)) (data (ModelFloatParams.fscalar_get p)) (data (ModelFloatParams.fscalar_get p'))
  | FVector p, FVector p' => Forall2 (refresh_close (fv_lb p) (fv_ub p)) (fvector_get p) (fvector_get p')
  | FArray p, FArray p' => shape (ModelFloatParams.farray_get p') = shape (ModelFloatParams.farray_get p) /\
      Forall2 (refresh_close (ModelFloatParams.fa_lb p) (ModelFloatParams.fa_ub p)) (data (ModelFloatParams.farray_get p)) (data (ModelFloatParams.farray_get p'))
  | FSimplex p, FSimplex p' => Forall2 normalised (ModelFloatSimplex.fsimplex_get p) (ModelFloatSimplex.fsimplex_get p')
  | FPosDef p, FPosDef p' => let n := ModelFloatMatrix.fp_size p in
      shape (ModelFloatMatrix.fposdef_get p') = [n; n] /\ moved_matrix n (ModelFloatMatrix.fp_lb p) (ModelFloatMatrix.fposdef_get p) (ModelFloatMatrix.fposdef_get p')
  | FPosDefV p, FPosDefV p' => let n := ModelFloatStack.fv_size p in
      shape (ModelFloatStack.fv_get p') = [ModelFloatStack.fv_length p; n; n] /\
      forall o m, (o < ModelFloatStack.fv_length p)%nat -> ModelMatrix.nd_index (ModelFloatStack.fv_get p) [o] = Ok m ->
        exists m', ModelMatrix.nd_index (ModelFloatStack.fv_get p') [o] = Ok m' /\ moved_matrix n (ModelFloatStack.fv_lb p) m m'
  | FPosDefA p, FPosDefA p' => let n := ModelFloatStack.fa_size p in let s := ModelFloatStack.fa_ashape p in
      shape (ModelFloatStack.fa_get p') = s ++ [n; n] /\
      forall obs m, valid_index s obs -> ModelMatrix.nd_index (ModelFloatStack.fa_get p) obs = Ok m ->
        exists m', ModelMatrix.nd_index (ModelFloatStack.fa_get p') obs = Ok m' /\ moved_matrix n (ModelFloatStack.fa_lb p) m m'
  | _, _ => False
  end.
