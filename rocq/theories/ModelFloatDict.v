(** ModelParamsDict over IEEE-754 binary64 numbers: ParameterDictionary.py with the parameter classes of ModelFloat*.v as members.
    SIMPLIFICATION: as in ModelDict.v objects are trees (no parameter object is held by two dictionaries), and a change made to a member
    through another reference is [fd_replace] on the tree. SubVectorParam (ProjectionParams.py) is not among the members, and
    free_indices_dict and vector_indices_dict are left out (ModelDict.v has them). Vectors are lists of doubles (1-d arrays). *)
From Coq Require Import String ZArith List Bool Arith.
From Verif Require Import Res Nd ModelFloat.
From Verif Require ModelDict ModelFloatParams ModelFloatSimplex ModelFloatMatrix ModelFloatStack.
Import List ListNotations.

(** ---- the classes behind one interface (Python method dispatch) ---- *)
Inductive fleaf :=
| FScalar (p : ModelFloatParams.fscalar) | FVector (p : fvector) | FArray (p : ModelFloatParams.farray)
| FSimplex (p : ModelFloatSimplex.fsimplex) | FPosDef (p : ModelFloatMatrix.fposdef)
| FPosDefV (p : ModelFloatStack.fposdef_vector) | FPosDefA (p : ModelFloatStack.fposdef_array).

(** Parameters.py:145-150, 228-231, 319-322; SimplexParams.py:172-175; MatrixParameters.py:195-198, 315-318, 476-479 *)
Definition fl_free_size (l : fleaf) : nat :=
  match l with
  | FScalar _ => 1 | FVector p => fv_size p | FArray p => ModelFloatParams.farray_size p
  | FSimplex p => ModelFloatSimplex.fs_rows p * (ModelFloatSimplex.fs_cols p - 1)
  | FPosDef p => ModelFloatMatrix.fp_vec_size p | FPosDefV p => ModelFloatStack.fv_free_size p | FPosDefA p => ModelFloatStack.fa_free_size p
  end.
Definition fl_vector_size (l : fleaf) : nat :=
  match l with
  | FScalar _ => 1 | FVector p => fv_size p | FArray p => ModelFloatParams.farray_size p
  | FSimplex p => ModelFloatSimplex.fs_rows p * ModelFloatSimplex.fs_cols p
  | FPosDef p => ModelFloatMatrix.fp_vec_size p | FPosDefV p => ModelFloatStack.fv_vector_size p | FPosDefA p => ModelFloatStack.fa_vector_size p
  end.
(** Parameters.py:221-222 *)
Definition fvector_set_vector (p : fvector) (val : list dbl) : res fvector := fvector_set p val.
(** Parameters.py:223-224 *)
Definition fvector_get_vector (p : fvector) : list dbl := fv_val p.
(** SimplexParams.py:157-160 *)
Definition fsimplex_set_vector (p : ModelFloatSimplex.fsimplex) (vec_val : list dbl) : res ModelFloatSimplex.fsimplex :=
  if negb (Nat.eqb (length vec_val) (ModelFloatSimplex.fs_rows p * ModelFloatSimplex.fs_cols p)) then Raise ValueError
  else ModelFloatSimplex.fsimplex_set p (ModelFloatSimplex.reshape_rows (ModelFloatSimplex.fs_rows p) (ModelFloatSimplex.fs_cols p) vec_val).
(** SimplexParams.py:161-162 *)
Definition fsimplex_get_vector (p : ModelFloatSimplex.fsimplex) : list dbl := List.concat (ModelFloatSimplex.fs_val p).
(** Parameters.py:140-141 *)
Definition fscalar_set_vector (p : ModelFloatParams.fscalar) (val : nd dbl) : res ModelFloatParams.fscalar := ModelFloatParams.fscalar_set p val.

Definition lift_res {P} (c : P -> fleaf) (r : res P) : res fleaf := do p <- r; Ok (c p).

(** ---- ModelParamsDict: ParameterDictionary.py:19-30; param_dict, __free_size and __vector_size ---- *)
Inductive fparam :=
| FLeaf (name : string) (l : fleaf)
| FDict (name : string) (ents : list (string * fparam)) (fsize vsize : nat).
(** ParameterDictionary.py:20-28 *)
Definition fd_init (name : string) : fparam := FDict name [] 0 0.
Definition fd_name (p : fparam) : string := match p with FLeaf nm _ => nm | FDict nm _ _ _ => nm end.
(** ParameterDictionary.py:104-107 *)
Definition fd_free_size (p : fparam) : nat := match p with FLeaf _ l => fl_free_size l | FDict _ _ fs _ => fs end.
Definition fd_vector_size (p : fparam) : nat := match p with FLeaf _ l => fl_vector_size l | FDict _ _ _ vs => vs end.
(** ParameterDictionary.py:39-46 *)
Definition fd_push (d p : fparam) : res fparam :=
  match d with
  | FLeaf _ _ => Raise AttributeError
  | FDict nm ents fs vs => Ok (FDict nm (ModelDict.od_set ents (fd_name p) p) (fs + fd_free_size p) (vs + fd_vector_size p))
  end.
(** ParameterDictionary.py:36-37 *)
Definition fd_getitem (d : fparam) (k : string) : res fparam :=
  match d with
  | FLeaf _ _ => Raise TypeError
  | FDict _ ents _ _ => match ModelDict.od_get ents k with Some q => Ok q | None => Raise KeyError end
  end.
(** the state of d after the object d[k] was changed to q in place *)
Definition fd_replace (d : fparam) (k : string) (q : fparam) : fparam :=
  match d with
  | FLeaf _ _ => d
  | FDict nm ents fs vs => FDict nm (ModelDict.od_replace ents k q) fs vs
  end.
(** np.hstack of a list of 1-d arrays: ValueError for none *)
Definition fd_hstack (l : list (list dbl)) : res (list dbl) :=
  match l with
  | [] => Raise ValueError
  | _ => Ok (List.concat l)
  end.

Section WithLibraries.
Context (fexp flog : dbl -> dbl) (fsum : list dbl -> dbl) (fdot : nat -> nat -> list dbl -> list dbl -> dbl) (fchol : nd dbl -> res (nd dbl)).

Definition fl_set_free (l : fleaf) (x : list dbl) : res fleaf :=
  match l with
  | FScalar p => lift_res FScalar (ModelFloatParams.fscalar_set_free fexp p (nd_vec x))
  | FVector p => lift_res FVector (fvector_set_free fexp p x)
  | FArray p => lift_res FArray (ModelFloatParams.farray_set_free fexp p (nd_vec x))
  | FSimplex p => lift_res FSimplex (ModelFloatSimplex.fsimplex_set_free fexp flog fsum p x)
  | FPosDef p => lift_res FPosDef (ModelFloatMatrix.fposdef_set_free fexp fdot p x)
  | FPosDefV p => lift_res FPosDefV (ModelFloatStack.fv_set_free fexp fdot p x)
  | FPosDefA p => lift_res FPosDefA (ModelFloatStack.fa_set_free fexp fdot p x)
  end.
Definition fl_get_free (l : fleaf) : res (list dbl) :=
  match l with
  | FScalar p => do a <- ModelFloatParams.fscalar_get_free flog p; Ok (data a)
  | FVector p => fvector_get_free flog p
  | FArray p => do a <- ModelFloatParams.farray_get_free flog p; Ok (data a)
  | FSimplex p => Ok (ModelFloatSimplex.fsimplex_get_free flog p)
  | FPosDef p => ModelFloatMatrix.fposdef_get_free flog fchol p
  | FPosDefV p => ModelFloatStack.fv_get_free flog fchol p
  | FPosDefA p => ModelFloatStack.fa_get_free flog fchol p
  end.
Definition fl_set_vector (l : fleaf) (x : list dbl) : res fleaf :=
  match l with
  | FScalar p => lift_res FScalar (fscalar_set_vector p (nd_vec x))
  | FVector p => lift_res FVector (fvector_set_vector p x)
  | FArray p => lift_res FArray (ModelFloatParams.farray_set_vector p (nd_vec x))
  | FSimplex p => lift_res FSimplex (fsimplex_set_vector p x)
  | FPosDef p => lift_res FPosDef (ModelFloatMatrix.fposdef_set_vector p x)
  | FPosDefV p => lift_res FPosDefV (ModelFloatStack.fv_set_vector p x)
  | FPosDefA p => lift_res FPosDefA (ModelFloatStack.fa_set_vector p x)
  end.
Definition fl_get_vector (l : fleaf) : res (list dbl) :=
  match l with
  | FScalar p => do a <- ModelFloatParams.fscalar_get_vector p; Ok (data a)
  | FVector p => Ok (fvector_get_vector p)
  | FArray p => Ok (data (ModelFloatParams.farray_get_vector p))
  | FSimplex p => Ok (fsimplex_get_vector p)
  | FPosDef p => ModelFloatMatrix.fposdef_get_vector p
  | FPosDefV p => ModelFloatStack.fv_get_vector p
  | FPosDefA p => ModelFloatStack.fa_get_vector p
  end.

(** ParameterDictionary.py:55-63 with Parameters.py:326-328; the loop stops at the first exception, members already visited keep
    their new values *)
Fixpoint fd_set_free (p : fparam) (vec : list dbl) {struct p} : fparam * res unit :=
  match p with
  | FLeaf nm l => match fl_set_free l vec with Ok l' => (FLeaf nm l', Ok tt) | Raise e => (p, Raise e) end
  | FDict nm ents fs vs =>
      if negb (Nat.eqb (length vec) fs) then (p, Raise ValueError)
      else
        let r := (fix go (l : list (string * fparam)) (offset : nat) : list (string * fparam) * res unit :=
             match l with
             | [] => ([], Ok tt)
             | (k, q) :: tl =>
                 let r := fd_set_free q (slice vec offset (offset + fd_free_size q)) in
                 match snd r with
                 | Ok _ => let r' := go tl (offset + fd_free_size (fst r))%nat in ((k, fst r) :: fst r', snd r')
                 | Raise e => ((k, fst r) :: tl, Raise e)
                 end
             end) ents 0%nat in
        (FDict nm (fst r) fs vs, snd r)
  end.
(** ParameterDictionary.py:88-96 with Parameters.py:339-341 *)
Fixpoint fd_set_vector (p : fparam) (vec : list dbl) {struct p} : fparam * res unit :=
  match p with
  | FLeaf nm l => match fl_set_vector l vec with Ok l' => (FLeaf nm l', Ok tt) | Raise e => (p, Raise e) end
  | FDict nm ents fs vs =>
      if negb (Nat.eqb (length vec) vs) then (p, Raise ValueError)
      else
        let r := (fix go (l : list (string * fparam)) (offset : nat) : list (string * fparam) * res unit :=
             match l with
             | [] => ([], Ok tt)
             | (k, q) :: tl =>
                 let r := fd_set_vector q (slice vec offset (offset + fd_vector_size q)) in
                 match snd r with
                 | Ok _ => let r' := go tl (offset + fd_vector_size (fst r))%nat in ((k, fst r) :: fst r', snd r')
                 | Raise e => ((k, fst r) :: tl, Raise e)
                 end
             end) ents 0%nat in
        (FDict nm (fst r) fs vs, snd r)
  end.
(** ParameterDictionary.py:64-65 *)
Fixpoint fd_get_free (p : fparam) : res (list dbl) :=
  match p with
  | FLeaf _ l => fl_get_free l
  | FDict _ ents _ _ =>
      do l <- (fix go (l : list (string * fparam)) : res (list (list dbl)) :=
           match l with
           | [] => Ok []
           | (_, q) :: tl => do a <- fd_get_free q; do r <- go tl; Ok (a :: r)
           end) ents;
      fd_hstack l
  end.
(** ParameterDictionary.py:97-99 *)
Fixpoint fd_get_vector (p : fparam) : res (list dbl) :=
  match p with
  | FLeaf _ l => fl_get_vector l
  | FDict _ ents _ _ =>
      do l <- (fix go (l : list (string * fparam)) : res (list (list dbl)) :=
           match l with
           | [] => Ok []
           | (_, q) :: tl => do a <- fd_get_vector q; do r <- go tl; Ok (a :: r)
           end) ents;
      fd_hstack l
  end.
(** ParameterDictionary.py:67-69 *)
Definition fd_free_to_vector (p : fparam) (free_val : list dbl) : fparam * res (list dbl) :=
  match fd_set_free p free_val with
  | (p', Ok _) => (p', fd_get_vector p')
  | (p', Raise e) => (p', Raise e)
  end.
End WithLibraries.
