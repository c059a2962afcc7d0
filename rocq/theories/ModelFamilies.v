(** NormalParams.py, GammaParams.py, DirichletParams.py and WishartParams.py: parameter dictionaries with moments.
    An object of these classes is the ModelParamsDict tree of ModelDict.v; the private __shape of the array classes
    is kept beside it.  The private sizes that no method reads (MVNParam.__dim, UVNParamVector.__size,
    DirichletParamArray.__shape, MVNArray.__shape, WishartParam.__size) are dropped. *)
From Coq Require Import String Reals List Bool Arith.
From Verif Require Import Res Num Nd ModelParameters ModelMatrix ModelDict ModelNumpy ModelExpFam.
Import List ListNotations.
Open Scope R_scope.

(** self[k].get(). SIMPLIFICATION: no member of these classes is itself a dictionary (get() of one is a view, ModelReport.v) *)
Definition p_get (p : param) : res arr := match p with Leaf l => Ok (leaf_get l) | Dict _ _ _ _ _ _ => Raise AttributeError end.
Definition member (d : param) (k : string) : res arr := do q <- d_getitem d k; p_get q.
(** super().__init__(name=name), then push_param of each member in turn *)
Definition dict_of (name : string) (members : list leaf) : param :=
  fold_left (fun d l => fst (push_param d (Leaf l))) members (dict_init name).
(** np.outer flattens its arguments *)
Definition np_outer (a b : arr) : arr :=
  mk_nd [nd_size a; nd_size b] (fun idx => nmul (nth (nth 0 idx 0%nat) (data a) NaN) (nth (nth 1 idx 0%nat) (data b) NaN)).
(** a.transpose() *)
Definition np_transpose (a : arr) : arr := mk_nd (rev (shape a)) (fun idx => nd_at NaN a (rev idx)).

(** NormalParams.py:7-11 *)
Definition mvn_init (name : string) (dim : nat) (min_info : num) : res param :=
  do mean <- vector_init "mean" dim NInf PInf None;
  do info <- posdef_init "info" dim min_info None;
  Ok (dict_of name [LVector mean; LPosDef info]).
(** NormalParams.py:27-30 *)
Definition uvn_init (name : string) (min_info : num) : res param :=
  do mean <- scalar_init "mean" NInf PInf None;
  do info <- scalar_init "info" min_info PInf None;
  Ok (dict_of name [LScalar mean; LScalar info]).
(** NormalParams.py:52-56 *)
Definition uvn_vector_init (name : string) (len : nat) (min_info : num) : res param :=
  do mean <- vector_init "mean" len NInf PInf None;
  do info <- vector_init "info" len min_info PInf None;
  Ok (dict_of name [LVector mean; LVector info]).
(** NormalParams.py:80-84, 103-104: the dictionary and self.__shape *)
Record uvn_array := UvnArray { ua_dict : param; ua_shape : list nat }.
Definition uvn_array_init (name : string) (shp : list nat) (min_info : num) : res uvn_array :=
  do mean <- array_init "mean" shp NInf PInf None;
  do info <- array_init "info" shp min_info PInf None;
  Ok (UvnArray (dict_of name [LArray mean; LArray info]) shp).
(** NormalParams.py:109-113, 131-132 *)
Record uvn_moment := UvnMoment { um_dict : param; um_shape : list nat }.
Definition uvn_moment_init (name : string) (shp : list nat) (min_info : num) : res uvn_moment :=
  do e <- array_init "e" shp NInf PInf None;
  do e2 <- array_init "e2" shp min_info PInf None;
  Ok (UvnMoment (dict_of name [LArray e; LArray e2]) shp).
(** NormalParams.py:151-156; shape[0] of () raises IndexError *)
Definition mvn_array_init (name : string) (shp : list nat) (min_info : num) : res param :=
  do mean <- array_init "mean" shp NInf PInf None;
  match shp with
  | [] => Raise IndexError
  | n :: _ => do info <- vector_init "info" n min_info PInf None; Ok (dict_of name [LArray mean; LVector info])
  end.
(** GammaParams.py:5-8 *)
Definition gamma_init (name : string) (min_shape min_rate : num) : res param :=
  do shp <- scalar_init "shape" min_shape PInf None;
  do rate <- scalar_init "rate" min_rate PInf None;
  Ok (dict_of name [LScalar shp; LScalar rate]).
(** DirichletParams.py:12-17 *)
Definition dirichlet_init (name : string) (shp : list nat) (min_alpha : num) (val : option arr) : res param :=
  rassert (nleb (Fin 0) min_alpha)
    (do alpha <- array_init "alpha" shp min_alpha PInf val; Ok (dict_of name [LArray alpha])).
(** WishartParams.py:7-15; [not min_df] holds of None and of 0.  The matrix v is created without its size, so it
    gets the default size 2 of PosDefMatrixParam (MatrixParameters.py:138).
    SIMPLIFICATION: size is a non-negative whole number. *)
Definition wishart_init (name : string) (size : nat) (diag_lb : num) (min_df : option num) : res param :=
  let lo := Fin (INR size - 1) in
  let m := match min_df with None => lo | Some x => if neqb x (Fin 0) then lo else x end in
  rassert (nleb lo m)
    (do df <- scalar_init "df" m PInf None;
     do v <- posdef_init "v" 2 diag_lb None;
     Ok (dict_of name [LScalar df; LPosDef v])).

Section Special.
Variable gammaln digamma : num -> num.
Variable slogdet : arr -> res (num * num).
Variable inv : arr -> res arr.
Open Scope py_scope.

(** ---- MVNParam, NormalParams.py:13-23 ---- *)
Definition mvn_e (d : param) : res arr := member d "mean".
Definition mvn_cov (d : param) : res arr := do i <- member d "info"; inv i.
Definition mvn_e_outer (d : param) : res arr :=
  do mean <- member d "mean";
  do e_outer <- Ok (np_outer mean mean) + mvn_cov d;
  lit (/ 2)%R * (Ok e_outer + Ok (np_transpose e_outer)).
Definition mvn_entropy (d : param) : res arr := do i <- member d "info"; multivariate_normal_entropy slogdet i.

(** ---- UVNParam, UVNParamVector and UVNParamArray have the same bodies: NormalParams.py:32-47, 58-73, 86-101 ---- *)
Definition uvn_e (d : param) : res arr := member d "mean".
Definition uvn_e_outer (d : param) : res arr := np_pow2 (member d "mean") + lit 1 / member d "info".
Definition uvn_var (d : param) : res arr := lit 1 / member d "info".
Definition uvn_e_exp (d : param) : res arr := do m <- member d "mean"; do v <- lit 1 / member d "info"; get_e_lognormal m v.
Definition uvn_var_exp (d : param) : res arr := do m <- member d "mean"; do v <- lit 1 / member d "info"; get_var_lognormal m v.
Definition uvn_e2_exp (d : param) : res arr := np_pow2 (uvn_e_exp d) + uvn_var_exp d.
(** NormalParams.py:46-47 *)
Definition uvn_entropy (d : param) : res arr := do i <- member d "info"; univariate_normal_entropy i.
(** NormalParams.py:72-73, 100-101: np.sum of the number again *)
Definition uvn_array_entropy (d : param) : res arr := sum_all (do i <- member d "info"; univariate_normal_entropy i).

(** ---- UVNMomentParamArray, NormalParams.py:115-129 ---- *)
Definition um_e (d : param) : res arr := member d "e".
Definition um_e_outer (d : param) : res arr := member d "e2".
Definition um_var (d : param) : res arr := member d "e2" - np_pow2 (member d "e").
Definition um_e_exp (d : param) : res arr := do e <- member d "e"; do v <- um_var d; get_e_lognormal e v.
Definition um_var_exp (d : param) : res arr := do e <- member d "e"; do v <- um_var d; get_e_lognormal e v.
Definition um_e2_exp (d : param) : res arr := np_pow2 (um_e_exp d) + um_var_exp d.
Definition um_entropy (d : param) : res arr := sum_all (do i <- lit 1 / um_var d; univariate_normal_entropy i).
(** self[k].set(r), where r may have raised *)
Definition set_member (d : param) (k : string) (r : res arr) : param * res unit :=
  match r with Raise e => (d, Raise e) | Ok a => values_setitem d k a end.
(** NormalParams.py:134-137 *)
Definition um_set_from_uvn (x : uvn_moment) (q : uvn_array) : uvn_moment * res unit :=
  if negb (shape_eqb (ua_shape q) (um_shape x)) then (x, Raise AssertionError)
  else
    match set_member (um_dict x) "e" (uvn_e (ua_dict q)) with
    | (d1, Raise e) => (UvnMoment d1 (um_shape x), Raise e)
    | (d1, Ok _) => let r := set_member d1 "e2" (uvn_e_outer (ua_dict q)) in (UvnMoment (fst r) (um_shape x), snd r)
    end.
(** NormalParams.py:140-143; the argument is an ArrayParam *)
Definition um_set_from_constant (x : uvn_moment) (c : array_param) : uvn_moment * res unit :=
  if negb (shape_eqb (ap_shape c) (um_shape x)) then (x, Raise AssertionError)
  else
    match set_member (um_dict x) "e" (Ok (array_get c)) with
    | (d1, Raise e) => (UvnMoment d1 (um_shape x), Raise e)
    | (d1, Ok _) => let r := set_member d1 "e2" (np_pow2 (Ok (array_get c))) in (UvnMoment (fst r) (um_shape x), snd r)
    end.

(** ---- MVNArray, NormalParams.py:158-162 ---- *)
Definition mvn_array_e (d : param) : res arr := member d "mean".
Definition mvn_array_e2 (d : param) : res arr :=
  do var <- lit 1 / member d "info";
  np_pow2 (member d "mean") + expand 1 (Ok var).

(** ---- GammaParam, GammaParams.py:9-16 ---- *)
Definition gp_e (d : param) : res arr := member d "shape" / member d "rate".
Definition gp_e_log (d : param) : res arr := do s <- member d "shape"; do r <- member d "rate"; get_e_log_gamma digamma s r.
Definition gp_entropy (d : param) : res arr := do s <- member d "shape"; do r <- member d "rate"; gamma_entropy gammaln digamma s r.

(** ---- DirichletParamArray, DirichletParams.py:19-26 ---- *)
Definition dp_e (d : param) : res arr := do a <- member d "alpha"; get_e_dirichlet a.
Definition dp_e_log (d : param) : res arr := do a <- member d "alpha"; get_e_log_dirichlet digamma a.
Definition dp_entropy (d : param) : res arr := do a <- member d "alpha"; dirichlet_entropy gammaln digamma a.

(** ---- WishartParam, WishartParams.py:17-35 ---- *)
Definition wp_e (d : param) : res arr := member d "df" * member d "v".
Definition wp_e_log_det (d : param) : res arr := do df <- member d "df"; do v <- member d "v"; e_log_det_wishart digamma slogdet df v.
Definition wp_e_inv (d : param) : res arr := member d "df" * (do v <- member d "v"; inv v).
Definition wp_entropy (d : param) : res arr := do df <- member d "df"; do v <- member d "v"; wishart_entropy gammaln digamma slogdet df v.
Definition wp_e_log_lkj_inv_prior (lkj_param : R) (d : param) : res arr :=
  do df <- member d "df"; do v <- member d "v"; expected_ljk_prior digamma slogdet inv lkj_param df v.
End Special.
