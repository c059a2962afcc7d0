(** Dictionaries of parameters in double precision: the free values come back. *)
From Coq Require Import String Reals List Bool Arith Lia Lra.
From Flocq Require Import Core BinarySingleNaN.
From Verif Require Import Res Nd SpecFloat SpecFloatSimplex SpecFloatAcc SpecFloatMatrix SpecFloatCholesky SpecFloatStack SpecFloatReach ModelFloat ModelFloatDict SpecFloatDict SpecFloatDict2
  LemmasFloatParams LemmasFloatSimplex4 LemmasFloatMatrix LemmasFloatMatrix2 LemmasFloatCholesky4 LemmasFloatStack LemmasFloatStack2 LemmasFloatDict LemmasFloatDict2.
From Verif Require ModelDict ModelFloatParams ModelFloatSimplex ModelFloatMatrix ModelFloatStack PropsFloat3 PropsFloat4 PropsFloat6.
Import List ListNotations.
Set Bullet Behavior "Strict Subproofs".
Close Scope R_scope.

Section Leaf.
Context (fexp flog : dbl -> dbl) (fsum : list dbl -> dbl) (fdot : nat -> nat -> list dbl -> list dbl -> dbl) (fchol : nd dbl -> res (nd dbl)).
Context (Hexp : exp_good fexp) (Hlog : log_good flog) (Hsum : sums fsum) (Hdot : matmul_good fdot) (Hch : cholesky_good fchol) (Hcl : cholesky_close fchol) (Hcs : cholesky_succeeds fchol).

Lemma Forall2_len {A B} (R : A -> B -> Prop) x y : Forall2 R x y -> length y = length x.
Proof. induction 1; cbn; congruence. Qed.
Lemma scalar_free_back p (y : list dbl) : benign (FScalar p) y -> length y = 1 ->
  exists l' w, fl_set_free fexp flog fsum fdot (FScalar p) y = Ok l' /\ fl_get_free flog fchol l' = Ok w /\ length w = 1 /\ free_back (FScalar p) y w.
Proof.
  intros [(v0 & p0 & I) (G & C & W)] L. destruct y as [|a [|b y]]; try discriminate. apply List.Forall_cons_iff in C, W.
  destruct (PropsFloat4.C120_scalar fexp flog Hexp Hlog _ _ G v0 p0 (nd_vec [a]) a I eq_refl eq_refl (proj1 C) (proj1 W)) as (p' & w & S & Q & K).
  exists (FScalar p'), [w]. cbn [fl_set_free fl_get_free]. assert (E : ModelFloatParams.fscalar_set_free fexp p (nd_vec [a]) = ModelFloatParams.fscalar_set_free fexp p0 (nd_vec [a])).
  { unfold ModelFloatParams.fscalar_init, ModelFloatParams.fscalar_set in I. unfold ModelFloatParams.fscalar_set_free, ModelFloatParams.fscalar_set.
    destruct (fle _ _); [discriminate|]. destruct (negb _); [discriminate|]. destruct (negb _); [discriminate|]. destruct v0; injection I as <-; reflexivity. }
  rewrite E, S, Q. split; [reflexivity|]. split; [reflexivity|]. split; [reflexivity|]. constructor; [exact K|constructor].
Qed.
Lemma vector_free_back p (y : list dbl) : benign (FVector p) y -> length y = fv_size p ->
  exists l' w, fl_set_free fexp flog fsum fdot (FVector p) y = Ok l' /\ fl_get_free flog fchol l' = Ok w /\ length w = fv_size p /\ free_back (FVector p) y w.
Proof.
  intros [(v0 & p0 & I) (G & C & W)] L. destruct (PropsFloat4.C120_vector fexp flog Hexp Hlog _ _ G _ v0 p0 y I L C W) as (p' & w & S & Q & K).
  exists (FVector p'), w. cbn [fl_set_free fl_get_free]. assert (E : fvector_set_free fexp p y = fvector_set_free fexp p0 y).
  { unfold fvector_init, fvector_set in I. unfold fvector_set_free, fvector_set. destruct (negb _); [discriminate|]. destruct (negb _); [discriminate|]. destruct (fle _ _); [discriminate|].
    destruct v0; cbn [fv_size fv_lb fv_ub] in I; (destruct (Nat.eqb _ _); [|discriminate]); injection I as <-; reflexivity. }
  rewrite E, S. split; [reflexivity|]. split; [exact Q|]. split; [rewrite <- L; exact (Forall2_len _ _ _ K)|exact K].
Qed.
Lemma array_free_back p (y : list dbl) : benign (FArray p) y -> length y = ModelFloatParams.farray_size p ->
  exists l' w, fl_set_free fexp flog fsum fdot (FArray p) y = Ok l' /\ fl_get_free flog fchol l' = Ok w /\ length w = ModelFloatParams.farray_size p /\ free_back (FArray p) y w.
Proof.
  intros [(v0 & p0 & I) (G & C & W)] L. assert (L' : nd_size (nd_vec y) = nprod (ModelFloatParams.fa_shape p)). { unfold nd_size, nd_vec. cbn [shape]. unfold ModelFloatParams.farray_size in L. rewrite <- L. unfold nprod. cbn. lia. }
  destruct (PropsFloat4.C120_array fexp flog Hexp Hlog _ _ G _ v0 p0 (nd_vec y) I L' C W) as (p' & w & S & Q & _ & K).
  exists (FArray p'), (data w). cbn [fl_set_free fl_get_free]. assert (E : ModelFloatParams.farray_set_free fexp p (nd_vec y) = ModelFloatParams.farray_set_free fexp p0 (nd_vec y)).
  { unfold ModelFloatParams.farray_init, ModelFloatParams.farray_set in I. unfold ModelFloatParams.farray_set_free, ModelFloatParams.farray_set, ModelFloatParams.farray_size.
    destruct (negb _); [discriminate|]. destruct (negb _); [discriminate|]. destruct (fle _ _); [discriminate|].
    destruct v0; cbn [ModelFloatParams.fa_shape ModelFloatParams.fa_lb ModelFloatParams.fa_ub] in I; (destruct (shape_eqb _ _); [|discriminate]); injection I as <-; reflexivity. }
  rewrite E, S, Q. split; [reflexivity|]. split; [reflexivity|]. split; [|exact K]. etransitivity; [exact (Forall2_len _ _ _ K)|exact L].
Qed.
Lemma reshape_Forall (P : dbl -> Prop) rows n l : List.Forall P l -> List.Forall (List.Forall P) (ModelFloatSimplex.reshape_rows rows n l).
Proof. revert l. induction rows as [|r I]; intros l H; constructor; [apply Forall_firstn; exact H|apply I, Forall_skipn; exact H]. Qed.
Lemma Forall2_nth_error {A B} (R : A -> B -> Prop) x y : length y = length x -> (forall i v, nth_error x i = Some v -> exists w, nth_error y i = Some w /\ R v w) -> Forall2 R x y.
Proof.
  revert y. induction x as [|a x I]; intros [|b y] L H; try discriminate; [constructor|]. constructor.
  - destruct (H 0 a eq_refl) as (w & E & K). injection E as <-. exact K.
  - apply I; [cbn in L; lia|]. intros i v E. exact (H (S i) v E).
Qed.
Lemma simplex_free_back p (y : list dbl) : benign (FSimplex p) y -> length y = fl_free_size (FSimplex p) ->
  exists l' w, fl_set_free fexp flog fsum fdot (FSimplex p) y = Ok l' /\ fl_get_free flog fchol l' = Ok w /\ length w = fl_free_size (FSimplex p) /\ free_back (FSimplex p) y w.
Proof.
  intros [(v0 & p0 & I) (C1 & C2 & C)] L. cbn [fl_free_size] in *. destruct (concat_reshape _ _ y L) as (A & B & D).
  set (free := ModelFloatSimplex.reshape_rows (ModelFloatSimplex.fs_rows p) (ModelFloatSimplex.fs_cols p - 1) y) in *.
  destruct (PropsFloat3.C113_round_trip fexp flog fsum Hexp Hlog Hsum _ _ v0 p0 free I C1 B) as (p' & S & Lw & K).
  - apply List.Forall_forall. intros row Hr. rewrite forallb_forall in D. apply Nat.eqb_eq. apply D. exact Hr.
  - unfold free. apply reshape_Forall. exact C.
  - exact C2.
  - exists (FSimplex p'), (ModelFloatSimplex.fsimplex_get_free flog p'). cbn [fl_set_free fl_get_free]. assert (E : ModelFloatSimplex.fsimplex_set_free fexp flog fsum p y = ModelFloatSimplex.fsimplex_set_free fexp flog fsum p0 y).
    { unfold ModelFloatSimplex.fsimplex_init, ModelFloatSimplex.fsimplex_set in I. unfold ModelFloatSimplex.fsimplex_set_free, ModelFloatSimplex.fsimplex_set.
      destruct v0; cbn [ModelFloatSimplex.fs_rows ModelFloatSimplex.fs_cols] in I; [|destruct (Nat.eqb (ModelFloatSimplex.fs_cols p) 0); [discriminate|]]; (destruct (_ && _); [|discriminate]); injection I as <-; reflexivity. }
    assert (A' : concat free = y) by exact A. rewrite E. rewrite A' in S, Lw, K. rewrite S. split; [reflexivity|]. split; [reflexivity|]. split; [rewrite <- L; exact Lw|].
    apply Forall2_nth_error; [exact Lw|]. intros i v Hv. exact (K i v Hv).
Qed.
Lemma posdef_free_back p (y : list dbl) : benign (FPosDef p) y -> length y = fl_free_size (FPosDef p) ->
  exists l' w, fl_set_free fexp flog fsum fdot (FPosDef p) y = Ok l' /\ fl_get_free flog fchol l' = Ok w /\ length w = fl_free_size (FPosDef p) /\ free_back (FPosDef p) y w.
Proof.
  intros [(v0 & p0 & I) ((N & B & Z) & g & C & R & Hg)] L. destruct (PropsFloat6.C126_round_trip fexp flog Hexp Hlog fdot Hdot fchol Hch Hcl Hcs _ N _ B Z y C p0 g (r_init _ _ _ _ _ _ I) R Hg) as (p' & w & S & Q & Lw & K).
  exists (FPosDef p'), w. cbn [fl_set_free fl_get_free]. assert (E : ModelFloatMatrix.fposdef_set_free fexp fdot p y = ModelFloatMatrix.fposdef_set_free fexp fdot p0 y).
  { destruct (reachable_inv fexp fdot _ _ _ (r_init _ _ _ _ _ _ I)) as (E1 & E2 & _). unfold ModelFloatMatrix.fposdef_set_free, ModelFloatMatrix.fposdef_set, ModelFloatMatrix.fp_vec_size. rewrite E1, E2. reflexivity. }
  rewrite E, S. split; [reflexivity|]. split; [exact Q|]. split; [exact Lw|]. exists g. split; [split; [exact C|split; assumption]|exact K].
Qed.
Lemma stack_free_back p (y : list dbl) : benign (FPosDefV p) y -> length y = fl_free_size (FPosDefV p) ->
  exists l' w, fl_set_free fexp flog fsum fdot (FPosDefV p) y = Ok l' /\ fl_get_free flog fchol l' = Ok w /\ length w = fl_free_size (FPosDefV p) /\ free_back (FPosDefV p) y w.
Proof.
  intros [_ ((N & B & Z) & P & g & H)] L. destruct (v_round_trip fexp flog Hexp Hlog fdot Hdot fchol Hch Hcl Hcs p y g N B Z P L H) as (p' & w & S & Q & Lw & K).
  exists (FPosDefV p'), w. cbn [fl_set_free fl_get_free]. rewrite S. split; [reflexivity|]. split; [exact Q|]. split; [etransitivity; [exact Lw|exact L]|]. exists g. intros o Ho. split; [apply H; exact Ho|apply K; exact Ho].
Qed.
Lemma astack_free_back p (y : list dbl) : benign (FPosDefA p) y -> length y = fl_free_size (FPosDefA p) ->
  exists l' w, fl_set_free fexp flog fsum fdot (FPosDefA p) y = Ok l' /\ fl_get_free flog fchol l' = Ok w /\ length w = fl_free_size (FPosDefA p) /\ free_back (FPosDefA p) y w.
Proof.
  intros [_ ((N & B & Z) & P & g & H)] L. destruct (a_round_trip fexp flog Hexp Hlog fdot Hdot fchol Hch Hcl Hcs p y g N B Z P L H) as (p' & w & S & Q & Lw & K).
  exists (FPosDefA p'), w. cbn [fl_set_free fl_get_free]. rewrite S. split; [reflexivity|]. split; [exact Q|]. split; [etransitivity; [exact Lw|exact L]|]. exists g. intros o Ho. split; [apply H; exact Ho|apply K; exact Ho].
Qed.
Lemma leaf_free_back l (y : list dbl) : benign l y -> length y = fl_free_size l ->
  exists l' w, fl_set_free fexp flog fsum fdot l y = Ok l' /\ fl_get_free flog fchol l' = Ok w /\ length w = fl_free_size l /\ free_back l y w.
Proof.
  destruct l; [apply scalar_free_back|apply vector_free_back|apply array_free_back|apply simplex_free_back|apply posdef_free_back|apply stack_free_back|apply astack_free_back].
Qed.
Lemma t_free_back p x : built (fd_set_free fexp flog fsum fdot) fd_set_vector p -> no_empty p -> length x = fd_free_size p -> parts fl_free_size (members p) x benign ->
  exists p' w, fd_set_free fexp flog fsum fdot p x = (p', Ok tt) /\ fd_get_free flog fchol p' = Ok w /\ length w = length x /\ related fl_free_size free_back (members p) x w.
Proof.
  intros B N L H. apply t_round_free; try assumption. assert (L' := L). rewrite (proj1 (t_sizes _ _ _ _ p B)) in L'. revert H. apply parts_impl; [exact L'|].
  intros m y Hm Ly T. apply leaf_free_back; assumption.
Qed.
End Leaf.
