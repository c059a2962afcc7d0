(** NormalParams.py, GammaParams.py, DirichletParams.py and WishartParams.py over IEEE-754 binary64 numbers: the constructors and the moments
    that need neither special functions nor a matrix inverse. ModelFamilies.v has the same lines over exact reals.
    SIMPLIFICATION: x ** 2 is the argument [fsq] (numpy computes x * x or calls pow, depending on the type), and the order of summation is
    the argument [fsum]; the theorems quantify over all that meet a stated contract.
    SIMPLIFICATION: as in ModelFamilies.v the private __shape is kept beside the dictionary where a method reads it. *)
From Coq Require Import String ZArith List Bool Arith.
From Flocq Require Import Core BinarySingleNaN.
From Verif Require Import Res Nd ModelNumpy ModelFloat ModelFloatDict.
From Verif Require ModelFloatParams ModelFloatSimplex ModelFloatMatrix ModelFloatStack.
Import List ListNotations.

Definition fz : dbl := B754_zero false.
(** get() of the classes: Parameters.py:119-120, 188-189, 268-269; SimplexParams.py:90-91; MatrixParameters.py:167-168, 229-230, 356-357 *)
Definition fl_get (l : fleaf) : nd dbl :=
  match l with
  | FScalar p => ModelFloatParams.fscalar_get p | FVector p => nd_vec (fvector_get p) | FArray p => ModelFloatParams.farray_get p
  | FSimplex p => Nd [ModelFloatSimplex.fs_rows p; ModelFloatSimplex.fs_cols p] (List.concat (ModelFloatSimplex.fsimplex_get p))
  | FPosDef p => ModelFloatMatrix.fposdef_get p | FPosDefV p => ModelFloatStack.fv_get p | FPosDefA p => ModelFloatStack.fa_get p
  end.
(** self[k].get(). SIMPLIFICATION: no member of these classes is itself a dictionary (get() of one is a view, ModelReport.v) *)
Definition f_member (d : fparam) (k : string) : res (nd dbl) :=
  do q <- fd_getitem d k; match q with FLeaf _ l => Ok (fl_get l) | FDict _ _ _ _ => Raise AttributeError end.
(** super().__init__(name=name), then push_param of each member in turn *)
Definition f_dict_of (name : string) (members : list (string * fleaf)) : res fparam :=
  fold_left (fun r m => do d <- r; fd_push d (FLeaf (fst m) (snd m))) members (Ok (fd_init name)).

(** NormalParams.py:7-11 *)
Definition fmvn_init (name : string) (dim : nat) (min_info : dbl) : res fparam :=
  do mean <- fvector_init dim f_ninf f_inf None;
  do info <- ModelFloatMatrix.fposdef_init dim min_info None;
  f_dict_of name [("mean"%string, FVector mean); ("info"%string, FPosDef info)].
(** NormalParams.py:27-30 *)
Definition fuvn_init (name : string) (min_info : dbl) : res fparam :=
  do mean <- ModelFloatParams.fscalar_init f_ninf f_inf None;
  do info <- ModelFloatParams.fscalar_init min_info f_inf None;
  f_dict_of name [("mean"%string, FScalar mean); ("info"%string, FScalar info)].
(** NormalParams.py:52-56 *)
Definition fuvn_vector_init (name : string) (len : nat) (min_info : dbl) : res fparam :=
  do mean <- fvector_init len f_ninf f_inf None;
  do info <- fvector_init len min_info f_inf None;
  f_dict_of name [("mean"%string, FVector mean); ("info"%string, FVector info)].
(** NormalParams.py:80-84, 103-104: the dictionary and self.__shape *)
Record fuvn_array := FUvnArray { fua_dict : fparam; fua_shape : list nat }.
Definition fuvn_array_init (name : string) (shp : list nat) (min_info : dbl) : res fuvn_array :=
  do mean <- ModelFloatParams.farray_init shp f_ninf f_inf None;
  do info <- ModelFloatParams.farray_init shp min_info f_inf None;
  do d <- f_dict_of name [("mean"%string, FArray mean); ("info"%string, FArray info)];
  Ok (FUvnArray d shp).
(** NormalParams.py:109-113, 131-132 *)
Record fuvn_moment := FUvnMoment { fum_dict : fparam; fum_shape : list nat }.
Definition fuvn_moment_init (name : string) (shp : list nat) (min_info : dbl) : res fuvn_moment :=
  do e <- ModelFloatParams.farray_init shp f_ninf f_inf None;
  do e2 <- ModelFloatParams.farray_init shp min_info f_inf None;
  do d <- f_dict_of name [("e"%string, FArray e); ("e2"%string, FArray e2)];
  Ok (FUvnMoment d shp).
(** NormalParams.py:151-156; shape[0] of () raises IndexError *)
Definition fmvn_array_init (name : string) (shp : list nat) (min_info : dbl) : res fparam :=
  do mean <- ModelFloatParams.farray_init shp f_ninf f_inf None;
  match shp with
  | [] => Raise IndexError
  | n :: _ => do info <- fvector_init n min_info f_inf None; f_dict_of name [("mean"%string, FArray mean); ("info"%string, FVector info)]
  end.
(** GammaParams.py:5-8 *)
Definition fgamma_init (name : string) (min_shape min_rate : dbl) : res fparam :=
  do shp <- ModelFloatParams.fscalar_init min_shape f_inf None;
  do rate <- ModelFloatParams.fscalar_init min_rate f_inf None;
  f_dict_of name [("shape"%string, FScalar shp); ("rate"%string, FScalar rate)].
(** DirichletParams.py:12-17 *)
Definition fdirichlet_init (name : string) (shp : list nat) (min_alpha : dbl) (val : option (nd dbl)) : res fparam :=
  rassert (fle fz min_alpha)
    (do alpha <- ModelFloatParams.farray_init shp min_alpha f_inf val; f_dict_of name [("alpha"%string, FArray alpha)]).
(** WishartParams.py:7-15; [not min_df] holds of None and of 0. The matrix v gets the default size 2 (MatrixParameters.py:138).
    SIMPLIFICATION: size is a non-negative whole number, and size - 1 is converted to a double at once. *)
Definition fwishart_init (name : string) (size : nat) (diag_lb : dbl) (min_df : option dbl) : res fparam :=
  let lo := binary_normalize 53 1024 prec53 emax1024 mode_NE (Z.of_nat size - 1) 0 false in
  let m := match min_df with None => lo | Some x => if feq x fz then lo else x end in
  rassert (fle lo m)
    (do df <- ModelFloatParams.fscalar_init m f_inf None;
     do v <- ModelFloatMatrix.fposdef_init 2 diag_lb None;
     f_dict_of name [("df"%string, FScalar df); ("v"%string, FPosDef v)]).

(** the operators on arrays, with broadcasting *)
Definition f_bin (op : dbl -> dbl -> dbl) (a b : nd dbl) : res (nd dbl) := np_bin fz fz op a b.

Section WithLibraries.
Context (fsq : dbl -> dbl) (fsum : list dbl -> dbl).

(** UVNParam, UVNParamVector and UVNParamArray have the same bodies: NormalParams.py:32-37, 58-63, 86-91 *)
Definition fuvn_e (d : fparam) : res (nd dbl) := f_member d "mean".
Definition fuvn_var (d : fparam) : res (nd dbl) := do i <- f_member d "info"; f_bin fdiv (nd_scalar f_one) i.
Definition fuvn_e_outer (d : fparam) : res (nd dbl) :=
  do m <- f_member d "mean"; do v <- fuvn_var d; f_bin fadd (nd_map fsq m) v.

(** UVNMomentParamArray: NormalParams.py:115-120 *)
Definition fum_e (x : fuvn_moment) : res (nd dbl) := f_member (fum_dict x) "e".
Definition fum_e_outer (x : fuvn_moment) : res (nd dbl) := f_member (fum_dict x) "e2".
Definition fum_var (x : fuvn_moment) : res (nd dbl) :=
  do e2 <- f_member (fum_dict x) "e2"; do e <- f_member (fum_dict x) "e"; f_bin fsub e2 (nd_map fsq e).
(** self[k].set(r) of an ArrayParam member, where r may have raised *)
Definition f_set_array (d : fparam) (k : string) (r : res (nd dbl)) : fparam * res unit :=
  match fd_getitem d k, r with
  | Raise e, _ => (d, Raise e)
  | _, Raise e => (d, Raise e)
  | Ok (FLeaf nm (FArray p)), Ok a =>
      match ModelFloatParams.farray_set p a with Ok q => (fd_replace d k (FLeaf nm (FArray q)), Ok tt) | Raise e => (d, Raise e) end
  | Ok _, Ok _ => (d, Raise AttributeError)
  end.
(** NormalParams.py:134-137 *)
Definition fum_set_from_uvn (x : fuvn_moment) (q : fuvn_array) : fuvn_moment * res unit :=
  if negb (shape_eqb (fua_shape q) (fum_shape x)) then (x, Raise AssertionError)
  else
    match f_set_array (fum_dict x) "e" (fuvn_e (fua_dict q)) with
    | (d1, Raise e) => (FUvnMoment d1 (fum_shape x), Raise e)
    | (d1, Ok _) => let r := f_set_array d1 "e2" (fuvn_e_outer (fua_dict q)) in (FUvnMoment (fst r) (fum_shape x), snd r)
    end.
(** NormalParams.py:140-143; the argument is an ArrayParam *)
Definition fum_set_from_constant (x : fuvn_moment) (c : ModelFloatParams.farray) : fuvn_moment * res unit :=
  if negb (shape_eqb (ModelFloatParams.fa_shape c) (fum_shape x)) then (x, Raise AssertionError)
  else
    match f_set_array (fum_dict x) "e" (Ok (ModelFloatParams.farray_get c)) with
    | (d1, Raise e) => (FUvnMoment d1 (fum_shape x), Raise e)
    | (d1, Ok _) => let r := f_set_array d1 "e2" (Ok (nd_map fsq (ModelFloatParams.farray_get c))) in (FUvnMoment (fst r) (fum_shape x), snd r)
    end.

(** MVNArray: NormalParams.py:158-162 *)
Definition fmvn_array_e2 (d : fparam) : res (nd dbl) :=
  do var <- fuvn_var d;
  do m <- f_member d "mean";
  do v <- np_expand_dims 1 var;
  f_bin fadd (nd_map fsq m) v.

(** GammaParam: GammaParams.py:9-10 *)
Definition fgp_e (d : fparam) : res (nd dbl) := do s <- f_member d "shape"; do r <- f_member d "rate"; f_bin fdiv s r.
(** DirichletParamArray: DirichletParams.py:19-20 with ExponentialFamilies.py:114-116 *)
Definition fdp_e (d : fparam) : res (nd dbl) :=
  do alpha <- f_member d "alpha";
  do denom <- np_sum_keep fz fsum 0 alpha;
  f_bin fdiv alpha denom.
(** WishartParam: WishartParams.py:17-18 *)
Definition fwp_e (d : fparam) : res (nd dbl) := do df <- f_member d "df"; do v <- f_member d "v"; f_bin fmul df v.
End WithLibraries.
