(** regression_utils.py: batched matrix products and normal-linear regression.
    SIMPLIFICATION: entries are real numbers.  The functions only add and multiply (so no infinities or
    NaNs appear unless put in), except for np.linalg.inv, which is the argument [inv]. *)
From Coq Require Import Reals List Arith Bool.
From Verif Require Import Res Nd RSum ModelNumpy.
Import List ListNotations.
Open Scope R_scope.
Open Scope nat_scope.

Definition rarr := nd R.
(** np.shape(a)[-k] *)
Definition shape_neg {A} (a : nd A) (k : nat) : res nat :=
  match nth_error (shape a) (length (shape a) - k) with Some n => if Nat.leb k (length (shape a)) then Ok n else Raise IndexError | None => Raise IndexError end.
(** np.einsum on real arrays *)
Definition einsum (x : rarr) (lx : list nat) (y : rarr) (ly out : list nat) : res rarr := np_einsum 0%R lsum Rmult x lx y ly out.

(** regression_utils.py:8-32 *)
Definition mat_mul_last2dims (x1 x2 : rarr) : res rarr :=
  rassert (Nat.eqb (length (shape x1)) (length (shape x2)))
  (do s2 <- shape_neg x2 2;
   do s1 <- shape_neg x1 2;
   rassert (Nat.eqb s2 s1)
   (let d := length (shape x1) in
    let einsum_indx2 := seq 0 (d - 1) ++ [d] in
    let einsum_indx_out := (seq 0 (d - 2) ++ [d - 1]) ++ [d] in
    einsum x1 (seq 0 d) x2 einsum_indx2 einsum_indx_out)).
(** regression_utils.py:34-57 *)
Definition matvec_mul_last2dims (x y : rarr) : res rarr :=
  do sx <- shape_neg x 2;
  do sy <- shape_neg y 1;
  rassert (Nat.eqb sx sy)
  (let d1 := length (shape y) - 1 in
   let d2 := length (shape x) - 2 in
   rassert (Nat.leb d2 d1)
   (let einsum_indx1 := (seq 0 d2 ++ [d1]) ++ [d1 + 1] in
    let einsum_indx2 := seq 0 (d1 + 1) in
    let einsum_indx_out := seq 0 d2 ++ [d1 + 1] in
    einsum x einsum_indx1 y einsum_indx2 einsum_indx_out)).
(** a * c for a Python number c *)
Definition rscale (c : R) (a : rarr) : rarr := nd_map (Rmult c) a.
(** a + b *)
Definition radd (a b : rarr) : res rarr := np_bin 0%R 0%R Rplus a b.
(** regression_utils.py:59-88.  np.isscalar(info) is the case [inl]. *)
Definition get_nat_params_from_likelihood (y x : rarr) (info : R + rarr) : res (rarr * rarr) :=
  do sy <- shape_neg y 1;
  do sx <- shape_neg x 2;
  rassert (Nat.eqb sy sx)
  (let d1 := length (shape y) - 1 in
   let d2 := length (shape x) - 2 in
   rassert (Nat.leb d2 d1)
   (let n_per_dim := nprod (slice (shape y) d2 d1) in
    do info_x <- match info with
                 | inl c => Ok (rscale c x)
                 | inr a =>
                     do i1 <- shape_neg a 1;
                     do i2 <- shape_neg a 2;
                     rassert (Nat.eqb i1 i2)
                     (rassert (Nat.eqb i1 sx)
                     (rassert (Nat.eqb (length (shape a)) (length (shape x)))
                       (mat_mul_last2dims a x)))
                 end;
    do nat_param1 <- matvec_mul_last2dims info_x y;
    do m <- mat_mul_last2dims x info_x;
    let nat_param2 := rscale (INR n_per_dim) (rscale (- / 2)%R m) in
    Ok (nat_param1, nat_param2))).
(** np.eye(r) *)
Definition np_eye (r : nat) : rarr := mk_nd [r; r] (fun idx => if Nat.eqb (nth 0 idx 0) (nth 1 idx 0) then 1%R else 0%R).
(** regression_utils.py:91-107 *)
Definition get_nat_params_from_prior (prior_means prior_infos : rarr) : res (rarr * rarr) :=
  do r <- shape_neg prior_means 1;
  do i1 <- shape_neg prior_infos 1;
  rassert (Nat.eqb r i1)
  (do i2 <- shape_neg prior_infos 2;
   rassert (Nat.eqb i2 i1)
   (rassert (Nat.eqb (length (shape prior_means)) (length (shape prior_infos) - 1))
    (let x_shape := removelast (shape prior_means) ++ [1; 1] in
     let x := np_tile 0%R (np_eye r) x_shape in
     get_nat_params_from_likelihood prior_means x (inr prior_infos)))).
Section Inv.
Variable inv : rarr -> res rarr.
(** regression_utils.py:110-116 *)
Definition get_mvn_from_nat_params (nat_param1 nat_param2 : rarr) : res (rarr * rarr) :=
  let info := rscale (- 2)%R nat_param2 in
  do i <- inv info;
  do mean <- matvec_mul_last2dims i nat_param1;
  Ok (mean, info).
(** regression_utils.py:118-122 *)
Definition get_regression_coefficients (y x : rarr) (info : R + rarr) : res rarr :=
  do np <- get_nat_params_from_likelihood y x info;
  do mi <- get_mvn_from_nat_params (fst np) (snd np);
  Ok (fst mi).
(** regression_utils.py:124-134 *)
Definition get_posterior_regression_coefficients (y x : rarr) (info : R + rarr) (prior_means prior_infos : rarr) : res (rarr * rarr) :=
  do np <- get_nat_params_from_likelihood y x info;
  do pp <- get_nat_params_from_prior prior_means prior_infos;
  do n1 <- radd (fst np) (fst pp);
  do n2 <- radd (snd np) (snd pp);
  get_mvn_from_nat_params n1 n2.
End Inv.
