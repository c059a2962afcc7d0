(** Properties C134 and C135: setting simplex parameters and dictionaries to their own free value, in IEEE-754 binary64 arithmetic. *)
From Coq Require Import String Reals ZArith List Lra Lia.
From Flocq Require Import Core BinarySingleNaN.
From Verif Require Import Res Nd RSum SpecFloat SpecFloatSimplex SpecFloatAcc SpecFloatMatrix SpecFloatCholesky SpecFloatReach SpecFloatStack SpecFloatRefresh SpecFloatRefresh2 ModelFloat ModelFloatDict SpecFloatDict SpecFloatDict2 SpecFloatDict3
  LemmasFloat LemmasFloat3 LemmasFloat4 LemmasFloatSimplex4 LemmasFloatMatrix2 LemmasFloatMatrix6 LemmasFloatCholesky2 LemmasFloatCholesky3 LemmasFloatCholesky4 LemmasFloatDict4 LemmasFloatRefresh4 PropsFloat9.
From Verif Require ModelFloatParams ModelFloatSimplex ModelFloatMatrix ModelFloatStack PropsFloat6.
Import List ListNotations.
Open Scope R_scope.
Set Bullet Behavior "Strict Subproofs".

(** ** C134: simplexes *)
(** get_free, then set_free: each row of positive entries is replaced by the shares of its entries in the total of the row *)
Theorem C134_refresh : forall (fexp flog : dbl -> dbl) (fsum : list dbl -> dbl), exp_good fexp -> log_good flog -> sums fsum ->
  forall rows cols v0 p (val : list (list dbl)) q, ModelFloatSimplex.fsimplex_init rows cols v0 = Ok p -> (1 <= cols)%nat -> INR cols <= bpow radix2 20 -> ModelFloatSimplex.fsimplex_set p val = Ok q ->
  List.Forall (List.Forall positive_unit) val ->
  exists q', ModelFloatSimplex.fsimplex_set_free fexp flog fsum q (ModelFloatSimplex.fsimplex_get_free flog q) = Ok q' /\ length (ModelFloatSimplex.fsimplex_get q') = rows /\
    forall r row, nth_error val r = Some row -> exists probs, nth_error (ModelFloatSimplex.fsimplex_get q') r = Some probs /\ length row = cols /\ normalised row probs.
Proof. exact simplex_refresh. Qed.
Print Assumptions C134_refresh.
(** so a row that adds up to 1 up to d moves by a relative error of 2 (d + (cols + 4096) 2^-48) *)
Theorem C134_close : forall row probs d, List.Forall positive_unit row -> normalised row probs -> Rabs (lsum (map (fun q : double => B2R q) row) - 1) <= d -> d <= / 2 ->
  forall k v q, nth_error row k = Some v -> nth_error probs k = Some q ->
  Rabs (B2R q - B2R v) <= 2 * (d + (INR (length row) + 4096) * bpow radix2 (-48)) * B2R v + bpow radix2 (-1070).
Proof. exact normalised_close. Qed.
Print Assumptions C134_close.

(** ** C135: dictionaries *)
(** if every parameter of a tree holds a value well inside what it may hold, get_free and then set_free succeed, and every parameter moves
    as little as it would alone *)
Theorem C135_refresh : forall fexp flog fsum fdot fchol, exp_good fexp -> log_good flog -> sums fsum -> matmul_good fdot ->
  cholesky_good fchol -> cholesky_close fchol -> cholesky_succeeds fchol ->
  forall p, built (fd_set_free fexp flog fsum fdot) fd_set_vector p -> no_empty p -> (forall m, In m (members p) -> settled (snd m)) ->
  exists w p', fd_get_free flog fchol p = Ok w /\ length w = fd_free_size p /\ fd_set_free fexp flog fsum fdot p w = (p', Ok tt) /\
    Forall2 (fun m m' => fst m' = fst m /\ moved_little (snd m) (snd m')) (members p) (members p').
Proof. exact t_refresh. Qed.
Print Assumptions C135_refresh.

(** ** the hypotheses are met *)
(** a row of ones is normalised to halves *)
Definition one2 : ModelFloatSimplex.fsimplex := ModelFloatSimplex.mkFS 1 2 [[dint 1; dint 1]].
Lemma one_positive : positive_unit (dint 1).
Proof. unfold positive_unit, unit_interval. rewrite dint1. split; [split; [reflexivity|lra]|lra]. Qed.
Lemma ones_positive : List.Forall (List.Forall positive_unit) [[dint 1; dint 1]].
Proof. apply List.Forall_cons; [|apply List.Forall_nil]. apply List.Forall_cons; [exact one_positive|]. apply List.Forall_cons; [exact one_positive|apply List.Forall_nil]. Qed.
Lemma one2_init : ModelFloatSimplex.fsimplex_init 1 2 (Some [[dint 1; dint 1]]) = Ok one2. Proof. reflexivity. Qed.
Lemma two20 : INR 2 <= bpow radix2 20. Proof. exact (proj1 base2). Qed.
Example C134_example : exists q' a b, ModelFloatSimplex.fsimplex_set_free ideal_exp ideal_log add_in_order one2 (ModelFloatSimplex.fsimplex_get_free ideal_log one2) = Ok q' /\
  ModelFloatSimplex.fsimplex_get q' = [[a; b]] /\ Rabs (B2R a - / 2) <= bpow radix2 (-35) /\ Rabs (B2R b - / 2) <= bpow radix2 (-35).
Proof.
  destruct (C134_refresh ideal_exp ideal_log add_in_order ideal_exp_good ideal_log_good add_in_order_sums 1 2 _ one2 [[dint 1; dint 1]] one2 one2_init ltac:(lia) two20 eq_refl ones_positive) as (q' & S & L & K).
  destruct (K 0%nat _ eq_refl) as (probs & E & _ & Lp & N). cbn [length] in Lp. destruct probs as [|a [|b [|c probs]]]; try discriminate.
  assert (E2 : ModelFloatSimplex.fsimplex_get q' = [[a; b]]) by (destruct (ModelFloatSimplex.fsimplex_get q') as [|r0 [|r1 rs]]; try discriminate; injection E as E; rewrite E; reflexivity).
  assert (Sh : share [dint 1; dint 1] (dint 1) = / 2) by (unfold share, lsum; cbn [map fold_right]; rewrite dint1; field).
  assert (T : bpow radix2 (-1070) <= / 281474976710656) by (change (/ 281474976710656) with (bpow radix2 (-48)); apply bpow_le; lia).
  exists q', a, b. split; [exact S|]. split; [exact E2|]. change (bpow radix2 (-35)) with (/ 34359738368).
  destruct (N 0%nat _ eq_refl) as (a' & Ea & _ & A). destruct (N 1%nat _ eq_refl) as (b' & Eb & _ & B). injection Ea as <-. injection Eb as <-. rewrite Sh in A, B. cbn [length] in A, B. change (INR 2) with 2 in A, B. change (bpow radix2 (-48)) with (/ 281474976710656) in A, B. split; lra.
Qed.
(** a dictionary of the scalar 7 without bounds and a dictionary of this simplex and the matrix [[2, 1], [1, 2]] *)
Definition sc7 : ModelFloatParams.fscalar := ModelFloatParams.mkFS f_ninf f_inf (nd_scalar (dint 7)).
Definition mx2 : ModelFloatMatrix.fposdef := ModelFloatMatrix.mkFP 2 (dint 0) m2.
Definition deep : fparam := FDict "deep" [("x"%string, FLeaf "x" (FSimplex one2)); ("m"%string, FLeaf "m" (FPosDef mx2))] 4 5.
Definition whole : fparam := FDict "whole" [("s"%string, FLeaf "s" (FScalar sc7)); ("deep"%string, deep)] 5 6.
Lemma whole_built fexp flog fsum fdot : built (fd_set_free fexp flog fsum fdot) fd_set_vector whole.
Proof.
  assert (I1 : built (fd_set_free fexp flog fsum fdot) fd_set_vector (FDict "deep" [("x"%string, FLeaf "x" (FSimplex one2))] 1 2)) by exact (b_push _ _ (fd_init "deep") (FLeaf "x" (FSimplex one2)) _ (b_new _ _ _) (b_leaf _ _ _ _) eq_refl eq_refl).
  assert (I2 : built (fd_set_free fexp flog fsum fdot) fd_set_vector deep) by exact (b_push _ _ _ (FLeaf "m" (FPosDef mx2)) deep I1 (b_leaf _ _ _ _) eq_refl eq_refl).
  assert (D : built (fd_set_free fexp flog fsum fdot) fd_set_vector (FDict "whole" [("s"%string, FLeaf "s" (FScalar sc7))] 1 1))
    by exact (b_push _ _ (fd_init "whole") (FLeaf "s" (FScalar sc7)) _ (b_new _ _ _) (b_leaf _ _ _ _) eq_refl eq_refl).
  exact (b_push _ _ _ deep whole D I2 eq_refl eq_refl).
Qed.
Lemma whole_settled m : In m (members whole) -> settled (snd m).
Proof.
  destruct base2 as (H1 & H2 & H3). intros [<-|[<-|[<-|[]]]]; cbn [snd fst].
  - split; [exists None; eexists; reflexivity|]. split; [|split; [reflexivity|]].
    + split; [left; reflexivity|]. split; [left; reflexivity|]. intros [F _]. discriminate F.
    + exists (dint 7). split; [reflexivity|]. split; [reflexivity|exact I].
  - split; [exists (Some [[dint 1; dint 1]]); eexists; reflexivity|]. split; [cbn; lia|]. split; [exact H1|]. split; [reflexivity|].
    apply List.Forall_cons; [|apply List.Forall_nil]. split; [reflexivity|]. apply List.Forall_cons; [exact one_positive|]. apply List.Forall_cons; [exact one_positive|apply List.Forall_nil].
  - split; [destruct PropsFloat6.init2 as [q Iq]; exists None, q; exact Iq|]. split; [split; [exact H1|split; assumption]|]. split; [reflexivity|]. split; [exact m2_tidy|exact m2_inside].
Qed.
Example C135_example : exists w p', fd_get_free ideal_log textbook_cholesky whole = Ok w /\ length w = 5%nat /\ fd_set_free ideal_exp ideal_log add_in_order (fun _ _ => seq_dot) whole w = (p', Ok tt) /\
  Forall2 (fun m m' => fst m' = fst m /\ moved_little (snd m) (snd m')) (members whole) (members p').
Proof.
  exact (C135_refresh ideal_exp ideal_log add_in_order (fun _ _ => seq_dot) textbook_cholesky ideal_exp_good ideal_log_good add_in_order_sums seq_dot_good textbook_cholesky_good textbook_cholesky_close textbook_cholesky_succeeds
    whole (whole_built _ _ _ _) ltac:(cbn; repeat split; discriminate) whole_settled).
Qed.
