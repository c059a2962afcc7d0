(** Vocabulary for distribution parameters in double precision: objects just made, and what happens to the moment parameters. *)
From Coq Require Import String Reals ZArith List.
From Flocq Require Import Core BinarySingleNaN.
From Verif Require Import Res Nd SpecFloat SpecFloatAcc SpecFloatMatrix SpecFloatFam ModelFloatDict ModelFloatFamilies.
From Verif Require ModelFloatParams.
Open Scope R_scope.

(** a lower bound that is -inf or at most 2^50 in absolute value; one between 0 and 2^50 *)
Definition mild (lb : double) : Prop := lb = B754_infinity true \/ (is_finite lb = true /\ Rabs (B2R lb) <= bpow radix2 50).
Definition mild_diag (lb : double) : Prop := is_finite lb = true /\ 0 <= B2R lb <= bpow radix2 50.
(** the dictionary of a distribution parameter just after its constructor returned *)
Inductive fresh : fparam -> Prop :=
| fr_uvn nm lb d : mild lb -> fuvn_init nm lb = Ok d -> fresh d
| fr_uvn_vector nm n lb d : mild lb -> fuvn_vector_init nm n lb = Ok d -> fresh d
| fr_uvn_array nm s lb d : mild lb -> fuvn_array_init nm s lb = Ok d -> fresh (fua_dict d)
| fr_uvn_moment nm s lb d : mild lb -> fuvn_moment_init nm s lb = Ok d -> fresh (fum_dict d)
| fr_mvn_array nm s lb d : mild lb -> fmvn_array_init nm s lb = Ok d -> fresh d
| fr_gamma nm a b d : mild a -> mild b -> fgamma_init nm a b = Ok d -> fresh d
| fr_dirichlet nm s lb d : mild lb -> fdirichlet_init nm s lb None = Ok d -> fresh d
| fr_mvn nm n lb d : INR n <= bpow radix2 20 -> mild_diag lb -> fmvn_init nm n lb = Ok d -> fresh d
| fr_wishart nm n lb d : INR n <= bpow radix2 20 -> mild_diag lb -> fwishart_init nm n lb None = Ok d -> fresh d.

(** the histories of a UVNMomentParamArray: made, then set from UVNParamArrays and ArrayParams, or as a dictionary; whether that raised or not *)
Section Histories.
Context (fsq : double -> double) (set_free set_vector : fparam -> list double -> fparam * res unit).
Inductive history (nm : string) (s : list nat) (lb : double) : fuvn_moment -> Prop :=
| h_init x : fuvn_moment_init nm s lb = Ok x -> history nm s lb x
| h_uvn x q : history nm s lb x -> history nm s lb (fst (fum_set_from_uvn fsq x q))
| h_constant x c : history nm s lb x -> history nm s lb (fst (fum_set_from_constant fsq x c))
| h_free x v : history nm s lb x -> history nm s lb (FUvnMoment (fst (set_free (fum_dict x) v)) (fum_shape x))
| h_vector x v : history nm s lb x -> history nm s lb (FUvnMoment (fst (set_vector (fum_dict x) v)) (fum_shape x)).
End Histories.
