(** Properties C127 and C128: vectors and arrays of positive definite matrices in IEEE-754 binary64 arithmetic. *)
From Coq Require Import Reals ZArith List Lra Lia.
From Flocq Require Import Core BinarySingleNaN.
From Verif Require Import Res Nd RSum SpecFloat SpecFloatSimplex SpecFloatAcc SpecFloatMatrix SpecFloatCholesky SpecFloatStack ModelFloat ModelMatrix ModelFloatMatrix ModelFloatStack
  LemmasFloat LemmasFloat3 LemmasFloat4 LemmasFloatSimplex4 LemmasFloatMatrix LemmasFloatMatrix2 LemmasFloatMatrix3 LemmasFloatMatrix6 LemmasFloatCholesky2 LemmasFloatCholesky3 LemmasFloatCholesky4 LemmasFloatStack LemmasFloatStack2 PropsFloat6.
Import List ListNotations.
Open Scope R_scope.
Set Bullet Behavior "Strict Subproofs".

(** ** C127: free values *)
(** set_free of any doubles of the right number succeeds; matrix number o is the one that a single matrix parameter q computes from its
    part of the vector - but q checks it for symmetry (fposdef_set), and the vector of matrices does not *)
Theorem C127_vector_set_free : forall fexp fdot p x, (0 < fv_length p)%nat -> length x = (triangle (fv_size p) * fv_length p)%nat ->
  exists p', fv_set_free fexp fdot p x = Ok p' /\ fv_length p' = fv_length p /\ fv_size p' = fv_size p /\ fv_lb p' = fv_lb p /\
    shape (fv_get p') = [fv_length p; fv_size p; fv_size p] /\
    forall o, (o < fv_length p)%nat -> exists m, nd_index (fv_get p') [o] = Ok m /\ shape m = [fv_size p; fv_size p] /\
      forall q, fp_size q = fv_size p -> fp_lb q = fv_lb p -> fposdef_set_free fexp fdot q (block (fv_size p) o x) = fposdef_set q m.
Proof. exact v_set_free. Qed.
Print Assumptions C127_vector_set_free.
Theorem C127_array_set_free : forall fexp fdot p x, length x = (triangle (fa_size p) * how_many (fa_ashape p))%nat ->
  exists p', fa_set_free fexp fdot p x = Ok p' /\ fa_ashape p' = fa_ashape p /\ fa_size p' = fa_size p /\ fa_lb p' = fa_lb p /\
    shape (fa_get p') = fa_ashape p ++ [fa_size p; fa_size p] /\
    forall obs, valid_index (fa_ashape p) obs -> exists m, nd_index (fa_get p') obs = Ok m /\ shape m = [fa_size p; fa_size p] /\
      forall q, fp_size q = fa_size p -> fp_lb q = fa_lb p -> fposdef_set_free fexp fdot q (block (fa_size p) (position (fa_ashape p) obs) x) = fposdef_set q m.
Proof. exact a_set_free. Qed.
Print Assumptions C127_array_set_free.
(** a matrix whose part of the vector is far from overflow is exactly symmetric, finite and accurate, whatever the other parts are *)
Theorem C127_vector_accurate : forall fexp, exp_good fexp -> forall fdot, matmul_good fdot -> forall p x p', INR (fv_size p) <= bpow radix2 20 -> bounded500 (fv_lb p) -> 0 <= B2R (fv_lb p) ->
  (0 < fv_length p)%nat -> length x = (triangle (fv_size p) * fv_length p)%nat -> fv_set_free fexp fdot p x = Ok p' ->
  forall o, (o < fv_length p)%nat -> calm_free (fv_size p) (block (fv_size p) o x) ->
  exists m, nd_index (fv_get p') [o] = Ok m /\ forall i j, (i < fv_size p)%nat -> (j < fv_size p)%nat -> mget dzero m i j = mget dzero m j i /\ is_finite (mget dzero m i j) = true /\
    Rabs (B2R (mget dzero m i j) - exact_matrix (fv_size p) (B2R (fv_lb p)) (reals (block (fv_size p) o x)) i j) <= matrix_error (fv_size p) (B2R (fv_lb p)) (reals (block (fv_size p) o x)) i j.
Proof. exact v_accurate. Qed.
Print Assumptions C127_vector_accurate.
Theorem C127_array_accurate : forall fexp, exp_good fexp -> forall fdot, matmul_good fdot -> forall p x p', INR (fa_size p) <= bpow radix2 20 -> bounded500 (fa_lb p) -> 0 <= B2R (fa_lb p) ->
  length x = (triangle (fa_size p) * how_many (fa_ashape p))%nat -> fa_set_free fexp fdot p x = Ok p' ->
  forall obs, valid_index (fa_ashape p) obs -> let b := block (fa_size p) (position (fa_ashape p) obs) x in calm_free (fa_size p) b ->
  exists m, nd_index (fa_get p') obs = Ok m /\ forall i j, (i < fa_size p)%nat -> (j < fa_size p)%nat -> mget dzero m i j = mget dzero m j i /\ is_finite (mget dzero m i j) = true /\
    Rabs (B2R (mget dzero m i j) - exact_matrix (fa_size p) (B2R (fa_lb p)) (reals b) i j) <= matrix_error (fa_size p) (B2R (fa_lb p)) (reals b) i j.
Proof. exact a_accurate. Qed.
Print Assumptions C127_array_accurate.
(** a NaN or an infinity on a diagonal is stored as NaN and nothing is raised (a single matrix parameter raises ValueError, C123) *)
Theorem C127_vector_unchecked : forall fexp, exp_good fexp -> forall fdot, matmul_good fdot -> forall p x o i, (0 < fv_length p)%nat -> length x = (triangle (fv_size p) * fv_length p)%nat ->
  (o < fv_length p)%nat -> (i < fv_size p)%nat -> is_finite (at_ld dzero (block (fv_size p) o x) i i) = false ->
  exists p' m, fv_set_free fexp fdot p x = Ok p' /\ nd_index (fv_get p') [o] = Ok m /\ mget dzero m i i = B754_nan.
Proof. exact v_unchecked. Qed.
Print Assumptions C127_vector_unchecked.
Theorem C127_array_unchecked : forall fexp, exp_good fexp -> forall fdot, matmul_good fdot -> forall p x obs i, length x = (triangle (fa_size p) * how_many (fa_ashape p))%nat ->
  valid_index (fa_ashape p) obs -> (i < fa_size p)%nat -> is_finite (at_ld dzero (block (fa_size p) (position (fa_ashape p) obs) x) i i) = false ->
  exists p' m, fa_set_free fexp fdot p x = Ok p' /\ nd_index (fa_get p') obs = Ok m /\ mget dzero m i i = B754_nan.
Proof. exact a_unchecked. Qed.
Print Assumptions C127_array_unchecked.
(** get_free puts the free vectors of the single matrices one after the other; the first matrix that has none decides what is raised *)
Theorem C127_vector_get_free : forall flog fchol p M, shape (fv_get p) = [fv_length p; fv_size p; fv_size p] -> (0 < fv_length p)%nat ->
  (forall o, (o < fv_length p)%nat -> nd_index (fv_get p) [o] = Ok (M o)) -> let alone o := fposdef_get_free flog fchol (mkFP (fv_size p) (fv_lb p) (M o)) in
  (forall w, (forall o, (o < fv_length p)%nat -> alone o = Ok (w o)) -> fv_get_free flog fchol p = Ok (List.concat (map w (seq 0 (fv_length p))))) /\
  (forall o e, (o < fv_length p)%nat -> (forall k, (k < o)%nat -> exists w, alone k = Ok w) -> alone o = Raise e -> fv_get_free flog fchol p = Raise e).
Proof. exact v_get_free. Qed.
Print Assumptions C127_vector_get_free.
Theorem C127_array_get_free : forall flog fchol p M, (0 < how_many (fa_ashape p))%nat ->
  (forall obs, valid_index (fa_ashape p) obs -> nd_index (fa_get p) obs = Ok (M (position (fa_ashape p) obs))) -> let alone o := fposdef_get_free flog fchol (mkFP (fa_size p) (fa_lb p) (M o)) in
  (forall w, (forall o, (o < how_many (fa_ashape p))%nat -> alone o = Ok (w o)) -> fa_get_free flog fchol p = Ok (List.concat (map w (seq 0 (how_many (fa_ashape p)))))) /\
  (forall o e, (o < how_many (fa_ashape p))%nat -> (forall k, (k < o)%nat -> exists w, alone k = Ok w) -> alone o = Raise e -> fa_get_free flog fchol p = Raise e).
Proof. exact a_get_free. Qed.
Print Assumptions C127_array_get_free.
(** set_free, then get_free: all free values of all matrices come back *)
Theorem C127_vector_round_trip : forall (fexp flog : dbl -> dbl), exp_good fexp -> log_good flog -> forall fdot, matmul_good fdot ->
  forall fchol, cholesky_good fchol -> cholesky_close fchol -> cholesky_succeeds fchol ->
  forall p x g, INR (fv_size p) <= bpow radix2 20 -> bounded500 (fv_lb p) -> 0 <= B2R (fv_lb p) -> (0 < fv_length p)%nat -> length x = (triangle (fv_size p) * fv_length p)%nat ->
  (forall o, (o < fv_length p)%nat -> calm_free (fv_size p) (block (fv_size p) o x) /\ relative_error (fv_size p) (B2R (fv_lb p)) (reals (block (fv_size p) o x)) (g o) /\ INR (fv_size p) * g o <= / 16) ->
  exists p' w, fv_set_free fexp fdot p x = Ok p' /\ fv_get_free flog fchol p' = Ok w /\ length w = length x /\
    forall o, (o < fv_length p)%nat -> close_free (fv_size p) (g o) (block (fv_size p) o x) (block (fv_size p) o w).
Proof. exact v_round_trip. Qed.
Print Assumptions C127_vector_round_trip.
Theorem C127_array_round_trip : forall (fexp flog : dbl -> dbl), exp_good fexp -> log_good flog -> forall fdot, matmul_good fdot ->
  forall fchol, cholesky_good fchol -> cholesky_close fchol -> cholesky_succeeds fchol ->
  forall p x g, INR (fa_size p) <= bpow radix2 20 -> bounded500 (fa_lb p) -> 0 <= B2R (fa_lb p) -> (0 < how_many (fa_ashape p))%nat -> length x = (triangle (fa_size p) * how_many (fa_ashape p))%nat ->
  (forall o, (o < how_many (fa_ashape p))%nat -> calm_free (fa_size p) (block (fa_size p) o x) /\ relative_error (fa_size p) (B2R (fa_lb p)) (reals (block (fa_size p) o x)) (g o) /\ INR (fa_size p) * g o <= / 16) ->
  exists p' w, fa_set_free fexp fdot p x = Ok p' /\ fa_get_free flog fchol p' = Ok w /\ length w = length x /\
    forall o, (o < how_many (fa_ashape p))%nat -> close_free (fa_size p) (g o) (block (fa_size p) o x) (block (fa_size p) o w).
Proof. exact a_round_trip. Qed.
Print Assumptions C127_array_round_trip.
(** a new parameter holds the default value of a single matrix parameter at each place (or raises as that does) *)
Theorem C127_vector_default : forall N n lb, match fposdef_init n lb None with
  | Ok q => exists p, fv_init N n lb None = Ok p /\ shape (fv_get p) = [N; n; n] /\ forall o, (o < N)%nat -> nd_index (fv_get p) [o] = Ok (fposdef_get q)
  | Raise e => fv_init N n lb None = Raise e
  end.
Proof. exact v_default. Qed.
Print Assumptions C127_vector_default.
Theorem C127_array_default : forall s n lb, s <> [] -> match fposdef_init n lb None with
  | Ok q => exists p, fa_init (ShapeTuple s) n lb None = Ok p /\ shape (fa_get p) = s ++ [n; n] /\ forall obs, valid_index s obs -> nd_index (fa_get p) obs = Ok (fposdef_get q)
  | Raise e => fa_init (ShapeTuple s) n lb None = Raise e
  end.
Proof. exact a_default. Qed.
Print Assumptions C127_array_default.
Theorem C127_wrong_length : forall fexp fdot x,
  (forall p, length x <> (triangle (fv_size p) * fv_length p)%nat -> fv_set_free fexp fdot p x = Raise ValueError /\ fv_set_vector p x = Raise ValueError) /\
  (forall p, length x <> (triangle (fa_size p) * how_many (fa_ashape p))%nat -> fa_set_free fexp fdot p x = Raise ValueError /\ fa_set_vector p x = Raise ValueError).
Proof. exact (fun fexp fdot x => conj (fun p => v_wrong fexp fdot p x) (fun p => a_wrong fexp fdot p x)). Qed.
Print Assumptions C127_wrong_length.

(** ** C128: the vector interface, and set *)
(** any doubles of the right number are accepted and come back, except for what is not kept of the diagonals: an entry with |d| >= 2^1023 becomes an
    infinity, and an infinity or a NaN becomes NaN *)
Theorem C128_vector : forall p x, (0 < fv_length p)%nat -> length x = (triangle (fv_size p) * fv_length p)%nat ->
  exists p' w, fv_set_vector p x = Ok p' /\ shape (fv_get p') = [fv_length p; fv_size p; fv_size p] /\ fv_get_vector p' = Ok w /\ length w = length x /\
    forall o, (o < fv_length p)%nat -> exists m, nd_index (fv_get p') [o] = Ok m /\ holds (fv_size p) (block (fv_size p) o x) m /\ kept_vector (fv_size p) (block (fv_size p) o x) (block (fv_size p) o w).
Proof. exact v_vector. Qed.
Print Assumptions C128_vector.
Theorem C128_array : forall p x, length x = (triangle (fa_size p) * how_many (fa_ashape p))%nat ->
  exists p', fa_set_vector p x = Ok p' /\ shape (fa_get p') = fa_ashape p ++ [fa_size p; fa_size p] /\
    (forall obs, valid_index (fa_ashape p) obs -> exists m, nd_index (fa_get p') obs = Ok m /\ holds (fa_size p) (block (fa_size p) (position (fa_ashape p) obs) x) m) /\
    ((0 < how_many (fa_ashape p))%nat -> exists w, fa_get_vector p' = Ok w /\ length w = length x /\
       forall o, (o < how_many (fa_ashape p))%nat -> kept_vector (fa_size p) (block (fa_size p) o x) (block (fa_size p) o w)).
Proof. exact a_vector. Qed.
Print Assumptions C128_array.
(** set stores any array of the right shape, also one that is not symmetric or holds NaN; it raises if every axis is wrong *)
Theorem C128_set : forall v,
  (forall p, shape v = [fv_length p; fv_size p; fv_size p] -> exists p', fv_set p v = Ok p' /\ fv_get p' = v) /\
  (forall p, shape v = fa_ashape p ++ [fa_size p; fa_size p] -> exists p', fa_set p v = Ok p' /\ fa_get p' = v) /\
  (forall p, Forall2 (fun a b : nat => a <> b) (shape v) [fv_length p; fv_size p; fv_size p] -> fv_set p v = Raise ValueError) /\
  (forall p, Forall2 (fun a b : nat => a <> b) (shape v) (fa_ashape p ++ [fa_size p; fa_size p]) -> fa_set p v = Raise ValueError).
Proof. exact (fun v => conj (fun p => v_set p v) (conj (fun p => a_set p v) (conj (fun p => v_set_shape p v) (fun p => a_set_shape p v)))). Qed.
Print Assumptions C128_set.

(** the constructor with a value: stored if the shape is right, ValueError if every axis is wrong, the error of a single matrix parameter for a bad bound *)
Theorem C128_vector_init : forall N n lb v, match fposdef_init n lb None with
  | Ok _ => (shape v = [N; n; n] -> exists p, fv_init N n lb (Some v) = Ok p /\ fv_get p = v /\ fv_length p = N /\ fv_size p = n /\ fv_lb p = lb) /\
            (Forall2 (fun a b : nat => a <> b) (shape v) [N; n; n] -> fv_init N n lb (Some v) = Raise ValueError)
  | Raise e => fv_init N n lb (Some v) = Raise e
  end.
Proof. exact v_init. Qed.
Print Assumptions C128_vector_init.
Theorem C128_array_init : forall s n lb v, match fposdef_init n lb None with
  | Ok _ => (shape v = s ++ [n; n] -> exists p, fa_init (ShapeTuple s) n lb (Some v) = Ok p /\ fa_get p = v /\ fa_ashape p = s /\ fa_size p = n /\ fa_lb p = lb) /\
            (Forall2 (fun a b : nat => a <> b) (shape v) (s ++ [n; n]) -> fa_init (ShapeTuple s) n lb (Some v) = Raise ValueError)
  | Raise e => fa_init (ShapeTuple s) n lb (Some v) = Raise e
  end.
Proof. exact a_init. Qed.
Print Assumptions C128_array_init.

(** ** the hypotheses are met *)
(** an array of shape (2, 1) of 2 by 2 matrices: both matrices of [0; 1; 0] come back *)
Definition x22 : list double := x2 ++ x2.
Definition p21 : fposdef_array := mkFA [2%nat; 1%nat] 2 (dint 0) (mk_mat 0 0 (fun _ _ => dzero)).
Definition p2 : fposdef_vector := mkFV 2 2 (dint 0) (mk_mat 0 0 (fun _ _ => dzero)).
Lemma block_x22 o : (o < 2)%nat -> block 2 o x22 = x2.
Proof. intros H. destruct o as [|[|o]]; [reflexivity|reflexivity|lia]. Qed.
Lemma E0 : B2R (dint 0) = 0. Proof. apply dint_B2R. reflexivity. Qed.
Lemma calm_x2 : calm_free 2 x2.
Proof.
  assert (E1 : B2R (dint 1) = 1) by (apply dint_B2R; reflexivity).
  assert (C : calm (dint 0)) by (split; [reflexivity|rewrite E0, Rabs_R0; lra]).
  assert (D : at_ld dzero x2 0 0 = dint 0 /\ at_ld dzero x2 1 0 = dint 1 /\ at_ld dzero x2 1 1 = dint 0) by (repeat split; reflexivity). destruct D as (D1 & D2 & D3).
  split; [reflexivity|]. split.
  - intros [|[|i]] Hi; [rewrite D1|rewrite D3|lia]; exact C.
  - intros [|[|i]] j Hi Hj; [lia| |lia]. replace j with 0%nat by lia. rewrite D2. split; [reflexivity|]. rewrite E1, Rabs_R1. change 1 with (bpow radix2 0). apply bpow_le. lia.
Qed.
Lemma hyps2 : INR 2 <= bpow radix2 20 /\ bounded500 (dint 0) /\ 0 <= B2R (dint 0) /\
  forall o, (o < 2)%nat -> calm_free 2 (block 2 o x22) /\ relative_error 2 (B2R (dint 0)) (reals (block 2 o x22)) (40 * eps 2) /\ INR 2 * (40 * eps 2) <= / 16.
Proof.
  split; [change (INR 2) with (bpow radix2 1); apply bpow_le; lia|]. split; [split; [reflexivity|rewrite E0, Rabs_R0; apply bpow_ge_0]|]. split; [rewrite E0; lra|].
  intros o Ho. rewrite (block_x22 o Ho). split; [exact calm_x2|]. split; [rewrite E0; exact relative_x2|]. rewrite eps2. change (INR 2) with 2. lra.
Qed.
Example C127_example : exists p' w, fa_set_free ideal_exp (fun _ _ => seq_dot) p21 x22 = Ok p' /\ fa_get_free ideal_log textbook_cholesky p' = Ok w /\ length w = 6%nat /\
  forall o, (o < 2)%nat -> close_free 2 (40 * eps 2) x2 (block 2 o w).
Proof.
  destruct hyps2 as (H1 & H2 & H3 & H4).
  destruct (C127_array_round_trip ideal_exp ideal_log ideal_exp_good ideal_log_good _ seq_dot_good _ textbook_cholesky_good textbook_cholesky_close textbook_cholesky_succeeds
    p21 x22 (fun _ => 40 * eps 2) H1 H2 H3 ltac:(cbn; lia) eq_refl H4) as (p' & w & S & G & L & W).
  exists p', w. split; [exact S|]. split; [exact G|]. split; [exact L|]. intros o Ho. rewrite <- (block_x22 o Ho) at 1. exact (W o Ho).
Qed.
Example C127_example_vector : exists p' w, fv_set_free ideal_exp (fun _ _ => seq_dot) p2 x22 = Ok p' /\ fv_get_free ideal_log textbook_cholesky p' = Ok w /\ length w = 6%nat /\
  forall o, (o < 2)%nat -> close_free 2 (40 * eps 2) x2 (block 2 o w).
Proof.
  destruct hyps2 as (H1 & H2 & H3 & H4).
  destruct (C127_vector_round_trip ideal_exp ideal_log ideal_exp_good ideal_log_good _ seq_dot_good _ textbook_cholesky_good textbook_cholesky_close textbook_cholesky_succeeds
    p2 x22 (fun _ => 40 * eps 2) H1 H2 H3 ltac:(cbn; lia) eq_refl H4) as (p' & w & S & G & L & W).
  exists p', w. split; [exact S|]. split; [exact G|]. split; [exact L|]. intros o Ho. rewrite <- (block_x22 o Ho) at 1. exact (W o Ho).
Qed.
(** the index (1, 0) is number 1 of the shape (2, 1), and a NaN at its diagonal is stored *)
Example C127_index : valid_index [2%nat; 1%nat] [1%nat; 0%nat] /\ position [2%nat; 1%nat] [1%nat; 0%nat] = 1%nat /\
  block 2 1 (x2 ++ [B754_nan; dint 1; dint 0]) = [B754_nan; dint 1; dint 0].
Proof. split; [repeat constructor|split; reflexivity]. Qed.
Example C128_nan : exists p' m, fv_set_vector p2 (x2 ++ [dint 1; B754_nan; dint 1]) = Ok p' /\ nd_index (fv_get p') [1%nat] = Ok m /\ mget dzero m 0 1 = B754_nan.
Proof.
  destruct (C128_vector p2 (x2 ++ [dint 1; B754_nan; dint 1]) ltac:(cbn; lia) eq_refl) as (p' & w & S & _ & _ & _ & H). destruct (H 1%nat ltac:(cbn; lia)) as (m & I & (_ & B & _) & _).
  exists p', m. split; [exact S|]. split; [exact I|]. destruct (B 1%nat 0%nat ltac:(lia) ltac:(cbn; lia)) as [_ [E|(s & t & _ & E)]]; [exact E|discriminate].
Qed.
