(** Vocabulary for dictionaries of parameters in double precision: when the free values of a parameter come back, and how closely. *)
From Coq Require Import Reals List Arith.
From Flocq Require Import Core BinarySingleNaN.
From Verif Require Import Res Nd SpecFloat SpecFloatAcc SpecFloatMatrix SpecFloatCholesky SpecFloatStack ModelFloat ModelFloatDict.
From Verif Require ModelFloatParams ModelFloatSimplex ModelFloatMatrix ModelFloatStack.
Import ListNotations.
Open Scope R_scope.

(** the constructor accepts the sizes and bounds of the parameter *)
Definition constructed (l : fleaf) : Prop :=
  match l with
  | FScalar p => exists v0 p0, ModelFloatParams.fscalar_init (ModelFloatParams.fs_lb p) (ModelFloatParams.fs_ub p) v0 = Ok p0
  | FVector p => exists v0 p0, fvector_init (fv_size p) (fv_lb p) (fv_ub p) v0 = Ok p0
  | FArray p => exists v0 p0, ModelFloatParams.farray_init (ModelFloatParams.fa_shape p) (ModelFloatParams.fa_lb p) (ModelFloatParams.fa_ub p) v0 = Ok p0
  | FSimplex p => exists v0 p0, ModelFloatSimplex.fsimplex_init (ModelFloatSimplex.fs_rows p) (ModelFloatSimplex.fs_cols p) v0 = Ok p0
  | FPosDef p => exists v0 p0, ModelFloatMatrix.fposdef_init (ModelFloatMatrix.fp_size p) (ModelFloatMatrix.fp_lb p) v0 = Ok p0
  | FPosDefV p => exists v0 p0, ModelFloatStack.fv_init (ModelFloatStack.fv_length p) (ModelFloatStack.fv_size p) (ModelFloatStack.fv_lb p) v0 = Ok p0
  | FPosDefA p => exists v0 p0, ModelFloatStack.fa_init (ModelMatrix.ShapeTuple (ModelFloatStack.fa_ashape p)) (ModelFloatStack.fa_size p) (ModelFloatStack.fa_lb p) v0 = Ok p0
  end.

(** a scalar, vector or array with these bounds and the free values y: far from overflow, and the bounds not too large *)
Definition calm_between (lb ub : double) (y : list double) : Prop := good_bounds lb ub /\ List.Forall calm y /\ List.Forall (well_conditioned lb ub) y.
(** one n by n matrix with the free values y: far from overflow, and the error of the matrix is small relative to its factor *)
Definition good_matrix (n : nat) (lb : double) (y : list double) (g : R) : Prop :=
  calm_free n y /\ relative_error n (B2R lb) (reals y) g /\ INR n * g <= / 16.
Definition good_matrices (n : nat) (lb : double) : Prop := INR n <= bpow radix2 20 /\ bounded500 lb /\ 0 <= B2R lb.

(** the free values y of a parameter can be expected back *)
Definition benign (l : fleaf) (y : list double) : Prop := constructed l /\
  match l with
  | FScalar p => calm_between (ModelFloatParams.fs_lb p) (ModelFloatParams.fs_ub p) y
  | FVector p => calm_between (fv_lb p) (fv_ub p) y
  | FArray p => calm_between (ModelFloatParams.fa_lb p) (ModelFloatParams.fa_ub p) y
  | FSimplex p => (1 <= ModelFloatSimplex.fs_cols p)%nat /\ INR (ModelFloatSimplex.fs_cols p) <= bpow radix2 20 /\ List.Forall calm y
  | FPosDef p => let n := ModelFloatMatrix.fp_size p in let lb := ModelFloatMatrix.fp_lb p in good_matrices n lb /\ exists g, good_matrix n lb y g
  | FPosDefV p => let n := ModelFloatStack.fv_size p in let lb := ModelFloatStack.fv_lb p in good_matrices n lb /\ (0 < ModelFloatStack.fv_length p)%nat /\
      exists g, forall o, (o < ModelFloatStack.fv_length p)%nat -> good_matrix n lb (block n o y) (g o)
  | FPosDefA p => let n := ModelFloatStack.fa_size p in let lb := ModelFloatStack.fa_lb p in good_matrices n lb /\ (0 < how_many (ModelFloatStack.fa_ashape p))%nat /\
      exists g, forall o, (o < how_many (ModelFloatStack.fa_ashape p))%nat -> good_matrix n lb (block n o y) (g o)
  end.
(** w came back for y: the bounds for one parameter alone *)
Definition free_back (l : fleaf) (y w : list double) : Prop :=
  match l with
  | FScalar p => Forall2 (free_close (ModelFloatParams.fs_lb p) (ModelFloatParams.fs_ub p)) y w
  | FVector p => Forall2 (free_close (fv_lb p) (fv_ub p)) y w
  | FArray p => Forall2 (free_close (ModelFloatParams.fa_lb p) (ModelFloatParams.fa_ub p)) y w
  | FSimplex p => Forall2 (fun v w => is_finite w = true /\ Rabs (B2R w - B2R v) <= (INR (ModelFloatSimplex.fs_cols p) + 512) * bpow radix2 (-46)) y w
  | FPosDef p => let n := ModelFloatMatrix.fp_size p in exists g, good_matrix n (ModelFloatMatrix.fp_lb p) y g /\ close_free n g y w
  | FPosDefV p => let n := ModelFloatStack.fv_size p in exists g, forall o, (o < ModelFloatStack.fv_length p)%nat ->
      good_matrix n (ModelFloatStack.fv_lb p) (block n o y) (g o) /\ close_free n (g o) (block n o y) (block n o w)
  | FPosDefA p => let n := ModelFloatStack.fa_size p in exists g, forall o, (o < how_many (ModelFloatStack.fa_ashape p))%nat ->
      good_matrix n (ModelFloatStack.fa_lb p) (block n o y) (g o) /\ close_free n (g o) (block n o y) (block n o w)
  end.
