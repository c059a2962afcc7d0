(** Vectors and arrays of positive definite matrices in double precision: the statements of C127 and C128. *)
From Coq Require Import Reals ZArith List Lra Lia.
From Flocq Require Import Core BinarySingleNaN.
From Verif Require Import Res Nd RSum SpecFloat SpecFloatSimplex SpecFloatAcc SpecFloatMatrix SpecFloatCholesky SpecFloatStack ModelFloat ModelMatrix ModelFloatMatrix ModelFloatStack SpecFloatReach
  LemmasFloat LemmasFloat3 LemmasFloat4 LemmasFloatSimplex4 LemmasMatrix LemmasPosDef LemmasFloatMatrix LemmasFloatMatrix2 LemmasFloatMatrix3 LemmasFloatMatrix5 LemmasFloatCholesky5 LemmasFloatStack.
Import List ListNotations.
Set Bullet Behavior "Strict Subproofs".
Open Scope R_scope.

Lemma mat_shape n (g : nat -> nat -> dbl) : shape (mk_mat n n g) = [n; n]. Proof. reflexivity. Qed.

(** ---- choice over the items ---- *)
Lemma choose_items {B} N (P : nat -> B -> Prop) (d : B) : (forall o, (o < N)%nat -> exists w, P o w) -> exists f, forall o, (o < N)%nat -> P o (f o).
Proof.
  induction N as [|N IH]; intros H.
  - exists (fun _ => d). intros o Ho. lia.
  - destruct IH as [f F]; [intros o Ho; apply H; lia|]. destruct (H N) as [w W]; [lia|]. exists (fun o => if Nat.eqb o N then w else f o). intros o Ho.
    destruct (Nat.eqb_spec o N) as [->|Ne]; [exact W|]. apply F. lia.
Qed.

(** ---- set_free ---- *)
Lemma v_set_free fexp fdot p x : (0 < fv_length p)%nat -> length x = (triangle (fv_size p) * fv_length p)%nat ->
  exists p', fv_set_free fexp fdot p x = Ok p' /\ fv_length p' = fv_length p /\ fv_size p' = fv_size p /\ fv_lb p' = fv_lb p /\
    shape (fv_get p') = [fv_length p; fv_size p; fv_size p] /\
    forall o, (o < fv_length p)%nat -> exists m, nd_index (fv_get p') [o] = Ok m /\ shape m = [fv_size p; fv_size p] /\
      forall q, fp_size q = fv_size p -> fp_lb q = fv_lb p -> fposdef_set_free fexp fdot q (block (fv_size p) o x) = fposdef_set q m.
Proof.
  intros HN L. eexists. split; [apply fv_set_free_stack; assumption|]. do 4 (split; [reflexivity|]). intros o Ho. eexists. split; [apply fv_index; exact Ho|]. split; [reflexivity|].
  intros q E1 E2. rewrite (set_free_unfold fexp fdot q _ (fv_size p) E1); [rewrite E2; reflexivity|]. apply (block_length _ _ (fv_length p)); assumption.
Qed.
Lemma a_set_free fexp fdot p x : length x = (triangle (fa_size p) * how_many (fa_ashape p))%nat ->
  exists p', fa_set_free fexp fdot p x = Ok p' /\ fa_ashape p' = fa_ashape p /\ fa_size p' = fa_size p /\ fa_lb p' = fa_lb p /\
    shape (fa_get p') = fa_ashape p ++ [fa_size p; fa_size p] /\
    forall obs, valid_index (fa_ashape p) obs -> exists m, nd_index (fa_get p') obs = Ok m /\ shape m = [fa_size p; fa_size p] /\
      forall q, fp_size q = fa_size p -> fp_lb q = fa_lb p -> fposdef_set_free fexp fdot q (block (fa_size p) (position (fa_ashape p) obs) x) = fposdef_set q m.
Proof.
  intros L. eexists. split; [apply fa_set_free_stack; exact L|]. do 4 (split; [reflexivity|]). intros obs Ho. eexists. split; [apply fa_index; exact Ho|]. split; [reflexivity|].
  intros q E1 E2. rewrite (set_free_unfold fexp fdot q _ (fa_size p) E1); [rewrite E2; reflexivity|]. apply (block_length _ _ (nprod (fa_ashape p))); [exact L|].
  rewrite position_ravel. apply In_product_ravel, valid_product, Ho.
Qed.
Lemma v_accurate fexp : exp_good fexp -> forall fdot, matmul_good fdot -> forall p x p', INR (fv_size p) <= bpow radix2 20 -> bounded500 (fv_lb p) -> 0 <= B2R (fv_lb p) ->
  (0 < fv_length p)%nat -> length x = (triangle (fv_size p) * fv_length p)%nat -> fv_set_free fexp fdot p x = Ok p' ->
  forall o, (o < fv_length p)%nat -> calm_free (fv_size p) (block (fv_size p) o x) ->
  exists m, nd_index (fv_get p') [o] = Ok m /\ forall i j, (i < fv_size p)%nat -> (j < fv_size p)%nat -> mget dzero m i j = mget dzero m j i /\ is_finite (mget dzero m i j) = true /\
    Rabs (B2R (mget dzero m i j) - exact_matrix (fv_size p) (B2R (fv_lb p)) (reals (block (fv_size p) o x)) i j) <= matrix_error (fv_size p) (B2R (fv_lb p)) (reals (block (fv_size p) o x)) i j.
Proof.
  intros He fdot Hd p x p' Hn Hlb Hlb0 HN L S o Ho C. rewrite (fv_set_free_stack fexp fdot p x HN L) in S. injection S as <-. eexists. split; [apply fv_index; exact Ho|].
  intros i j Hi Hj. rewrite !mget_mk_mat by assumption. split; [eapply stored_sym; eassumption|]. eapply stored_close; eassumption.
Qed.
Lemma a_accurate fexp : exp_good fexp -> forall fdot, matmul_good fdot -> forall p x p', INR (fa_size p) <= bpow radix2 20 -> bounded500 (fa_lb p) -> 0 <= B2R (fa_lb p) ->
  length x = (triangle (fa_size p) * how_many (fa_ashape p))%nat -> fa_set_free fexp fdot p x = Ok p' ->
  forall obs, valid_index (fa_ashape p) obs -> let b := block (fa_size p) (position (fa_ashape p) obs) x in calm_free (fa_size p) b ->
  exists m, nd_index (fa_get p') obs = Ok m /\ forall i j, (i < fa_size p)%nat -> (j < fa_size p)%nat -> mget dzero m i j = mget dzero m j i /\ is_finite (mget dzero m i j) = true /\
    Rabs (B2R (mget dzero m i j) - exact_matrix (fa_size p) (B2R (fa_lb p)) (reals b) i j) <= matrix_error (fa_size p) (B2R (fa_lb p)) (reals b) i j.
Proof.
  intros He fdot Hd p x p' Hn Hlb Hlb0 L S obs Ho b C. rewrite (fa_set_free_stack fexp fdot p x L) in S. injection S as <-. eexists. split; [apply fa_index; exact Ho|]. fold b.
  intros i j Hi Hj. rewrite !mget_mk_mat by assumption. split; [eapply stored_sym; eassumption|]. eapply stored_close; eassumption.
Qed.
Lemma v_unchecked fexp : exp_good fexp -> forall fdot, matmul_good fdot -> forall p x o i, (0 < fv_length p)%nat -> length x = (triangle (fv_size p) * fv_length p)%nat ->
  (o < fv_length p)%nat -> (i < fv_size p)%nat -> is_finite (at_ld dzero (block (fv_size p) o x) i i) = false ->
  exists p' m, fv_set_free fexp fdot p x = Ok p' /\ nd_index (fv_get p') [o] = Ok m /\ mget dzero m i i = B754_nan.
Proof.
  intros He fdot Hd p x o i HN L Ho Hi F. eexists. eexists. split; [apply fv_set_free_stack; assumption|]. split; [apply fv_index; exact Ho|]. rewrite mget_mk_mat by assumption. apply stored_nan; assumption.
Qed.
Lemma a_unchecked fexp : exp_good fexp -> forall fdot, matmul_good fdot -> forall p x obs i, length x = (triangle (fa_size p) * how_many (fa_ashape p))%nat ->
  valid_index (fa_ashape p) obs -> (i < fa_size p)%nat -> is_finite (at_ld dzero (block (fa_size p) (position (fa_ashape p) obs) x) i i) = false ->
  exists p' m, fa_set_free fexp fdot p x = Ok p' /\ nd_index (fa_get p') obs = Ok m /\ mget dzero m i i = B754_nan.
Proof.
  intros He fdot Hd p x obs i L Ho Hi F. eexists. eexists. split; [apply fa_set_free_stack; exact L|]. split; [apply fa_index; exact Ho|]. rewrite mget_mk_mat by assumption. apply stored_nan; assumption.
Qed.

(** ---- get_free ---- *)
Lemma v_get_free flog fchol p M : shape (fv_get p) = [fv_length p; fv_size p; fv_size p] -> (0 < fv_length p)%nat ->
  (forall o, (o < fv_length p)%nat -> nd_index (fv_get p) [o] = Ok (M o)) -> let alone o := fposdef_get_free flog fchol (mkFP (fv_size p) (fv_lb p) (M o)) in
  (forall w, (forall o, (o < fv_length p)%nat -> alone o = Ok (w o)) -> fv_get_free flog fchol p = Ok (List.concat (map w (seq 0 (fv_length p))))) /\
  (forall o e, (o < fv_length p)%nat -> (forall k, (k < o)%nat -> exists w, alone k = Ok w) -> alone o = Raise e -> fv_get_free flog fchol p = Raise e).
Proof.
  intros S HN HM alone. split.
  - intros w W. exact (fv_get_free_items flog fchol p M w S HN HM W).
  - intros o e Ho W E. exact (fv_get_free_fails flog fchol p M o e S Ho HM W E).
Qed.
Lemma a_get_free flog fchol p M : (0 < how_many (fa_ashape p))%nat ->
  (forall obs, valid_index (fa_ashape p) obs -> nd_index (fa_get p) obs = Ok (M (position (fa_ashape p) obs))) -> let alone o := fposdef_get_free flog fchol (mkFP (fa_size p) (fa_lb p) (M o)) in
  (forall w, (forall o, (o < how_many (fa_ashape p))%nat -> alone o = Ok (w o)) -> fa_get_free flog fchol p = Ok (List.concat (map w (seq 0 (how_many (fa_ashape p)))))) /\
  (forall o e, (o < how_many (fa_ashape p))%nat -> (forall k, (k < o)%nat -> exists w, alone k = Ok w) -> alone o = Raise e -> fa_get_free flog fchol p = Raise e).
Proof.
  intros HN HM alone. split.
  - intros w W. exact (fa_get_free_items flog fchol p M w HN HM W).
  - intros o e Ho W E. exact (fa_get_free_fails flog fchol p M o e Ho HM W E).
Qed.

(** ---- there and back ---- *)
Section Back.
Context (fexp flog : dbl -> dbl) (He : exp_good fexp) (Hl : log_good flog) (fdot : nat -> nat -> list dbl -> list dbl -> dbl) (Hd : matmul_good fdot)
  (fchol : nd dbl -> res (nd dbl)) (Hc : cholesky_good fchol) (Hcc : cholesky_close fchol) (Hcs : cholesky_succeeds fchol).
Lemma back_items n lb N x (g : nat -> R) : INR n <= bpow radix2 20 -> bounded500 lb -> 0 <= B2R lb ->
  (forall o, (o < N)%nat -> calm_free n (block n o x) /\ relative_error n (B2R lb) (reals (block n o x)) (g o) /\ INR n * g o <= / 16) ->
  exists w, forall o, (o < N)%nat -> f_pack_posdef_matrix flog fchol (mk_mat n n (stored fexp (block n o x) fdot lb n)) lb = Ok (w o) /\ length (w o) = triangle n /\ close_free n (g o) (block n o x) (w o).
Proof.
  intros Hn Hlb Hlb0 H. apply (choose_items N (fun o w => f_pack_posdef_matrix flog fchol (mk_mat n n (stored fexp (block n o x) fdot lb n)) lb = Ok w /\ length w = triangle n /\ close_free n (g o) (block n o x) w) []).
  intros o Ho. destruct (H o Ho) as (C & E & G). exact (stored_back fexp flog He Hl fdot Hd fchol Hc Hcc Hcs n Hn lb Hlb Hlb0 (block n o x) C (g o) E G).
Qed.
Lemma v_round_trip p x g : INR (fv_size p) <= bpow radix2 20 -> bounded500 (fv_lb p) -> 0 <= B2R (fv_lb p) -> (0 < fv_length p)%nat -> length x = (triangle (fv_size p) * fv_length p)%nat ->
  (forall o, (o < fv_length p)%nat -> calm_free (fv_size p) (block (fv_size p) o x) /\ relative_error (fv_size p) (B2R (fv_lb p)) (reals (block (fv_size p) o x)) (g o) /\ INR (fv_size p) * g o <= / 16) ->
  exists p' w, fv_set_free fexp fdot p x = Ok p' /\ fv_get_free flog fchol p' = Ok w /\ length w = length x /\
    forall o, (o < fv_length p)%nat -> close_free (fv_size p) (g o) (block (fv_size p) o x) (block (fv_size p) o w).
Proof.
  intros Hn Hlb Hlb0 HN L H. destruct (back_items _ _ _ x g Hn Hlb Hlb0 H) as [w W].
  destruct (concat_blocks (fv_size p) (fv_length p) w) as [Lw Bw]; [intros o Ho; apply (W o Ho)|].
  eexists. exists (List.concat (map w (seq 0 (fv_length p)))). split; [apply fv_set_free_stack; assumption|]. split; [|split].
  - apply (fv_get_free_items flog fchol (fv_with p _) (fun o => mk_mat (fv_size p) (fv_size p) (stored fexp (block (fv_size p) o x) fdot (fv_lb p) (fv_size p))) w).
    + reflexivity.
    + exact HN.
    + intros o Ho. exact (fv_index p (fun o => stored fexp (block (fv_size p) o x) fdot (fv_lb p) (fv_size p)) o Ho).
    + intros o Ho. apply (W o Ho).
  - etransitivity; [exact Lw|]. rewrite L. reflexivity.
  - intros o Ho. match goal with |- close_free ?n ?g ?x ?w => assert (E : w = _) by exact (Bw o Ho); rewrite E end. apply (W o Ho).
Qed.
Lemma a_round_trip p x g : INR (fa_size p) <= bpow radix2 20 -> bounded500 (fa_lb p) -> 0 <= B2R (fa_lb p) -> (0 < how_many (fa_ashape p))%nat -> length x = (triangle (fa_size p) * how_many (fa_ashape p))%nat ->
  (forall o, (o < how_many (fa_ashape p))%nat -> calm_free (fa_size p) (block (fa_size p) o x) /\ relative_error (fa_size p) (B2R (fa_lb p)) (reals (block (fa_size p) o x)) (g o) /\ INR (fa_size p) * g o <= / 16) ->
  exists p' w, fa_set_free fexp fdot p x = Ok p' /\ fa_get_free flog fchol p' = Ok w /\ length w = length x /\
    forall o, (o < how_many (fa_ashape p))%nat -> close_free (fa_size p) (g o) (block (fa_size p) o x) (block (fa_size p) o w).
Proof.
  intros Hn Hlb Hlb0 HN L H. destruct (back_items _ _ _ x g Hn Hlb Hlb0 H) as [w W].
  destruct (concat_blocks (fa_size p) (how_many (fa_ashape p)) w) as [Lw Bw]; [intros o Ho; apply (W o Ho)|].
  eexists. exists (List.concat (map w (seq 0 (how_many (fa_ashape p))))). split; [apply fa_set_free_stack; assumption|]. split; [|split].
  - apply (fa_get_free_items flog fchol (fa_with p _) (fun o => mk_mat (fa_size p) (fa_size p) (stored fexp (block (fa_size p) o x) fdot (fa_lb p) (fa_size p))) w).
    + exact HN.
    + intros obs Ho. apply (fa_index p (fun o => stored fexp (block (fa_size p) o x) fdot (fa_lb p) (fa_size p))). exact Ho.
    + intros o Ho. apply (W o Ho).
  - etransitivity; [exact Lw|]. rewrite L. reflexivity.
  - intros o Ho. match goal with |- close_free ?n ?g ?x ?w => assert (E : w = _) by exact (Bw o Ho); rewrite E end. apply (W o Ho).
Qed.
End Back.

(** ---- the value a new parameter has, and set ---- *)
Lemma default_stack s n lb : f_default_stack s n lb = fstack s n (fun _ => f_make_diagonal (fun _ => fadd lb f_one)).
Proof.
  unfold f_default_stack, fstack. f_equal. f_equal. generalize (data (mk_mat n n (f_make_diagonal (fun _ => fadd lb f_one)))) as d. intros d. generalize 0%nat as k. induction (nprod s) as [|N IH]; intros k; [reflexivity|].
  cbn [repeat seq map]. rewrite <- IH. reflexivity.
Qed.
Lemma v_default N n lb : match fposdef_init n lb None with
  | Ok q => exists p, fv_init N n lb None = Ok p /\ shape (fv_get p) = [N; n; n] /\ forall o, (o < N)%nat -> nd_index (fv_get p) [o] = Ok (fposdef_get q)
  | Raise e => fv_init N n lb None = Raise e
  end.
Proof.
  unfold fposdef_init, fv_init, rassert. destruct (fle f_zero lb); [|reflexivity]. eexists. split; [reflexivity|]. split; [reflexivity|]. intros o Ho.
  rewrite default_stack. exact (fv_index (mkFV N n lb (mk_mat 0 0 (fun _ _ => f_zero))) (fun _ => f_make_diagonal (fun _ => fadd lb f_one)) o Ho).
Qed.
Lemma a_default s n lb : s <> [] -> match fposdef_init n lb None with
  | Ok q => exists p, fa_init (ShapeTuple s) n lb None = Ok p /\ shape (fa_get p) = s ++ [n; n] /\ forall obs, valid_index s obs -> nd_index (fa_get p) obs = Ok (fposdef_get q)
  | Raise e => fa_init (ShapeTuple s) n lb None = Raise e
  end.
Proof.
  intros Hs. unfold fposdef_init, fa_init, rassert. destruct (fle f_zero lb); [|reflexivity]. destruct s as [|k s]; [contradiction|]. cbn [length Nat.eqb]. eexists. split; [reflexivity|]. split; [reflexivity|]. intros o Ho.
  rewrite default_stack. exact (fa_index (mkFA (k :: s) n lb (mk_mat 0 0 (fun _ _ => f_zero))) (fun _ => f_make_diagonal (fun _ => fadd lb f_one)) o Ho).
Qed.
Lemma shape_same s : s <> [] -> shape_ne_all s s = Ok false.
Proof. intros H. unfold shape_ne_all. rewrite Nat.eqb_refl. f_equal. destruct s as [|k s]; [contradiction|]. cbn. rewrite Nat.eqb_refl. reflexivity. Qed.
Lemma v_set p v : shape v = [fv_length p; fv_size p; fv_size p] -> exists p', fv_set p v = Ok p' /\ fv_get p' = v.
Proof. intros S. eexists. unfold fv_set. rewrite S, shape_same by discriminate. cbn [rbind]. split; reflexivity. Qed.
Lemma a_set p v : shape v = fa_ashape p ++ [fa_size p; fa_size p] -> exists p', fa_set p v = Ok p' /\ fa_get p' = v.
Proof. intros S. eexists. unfold fa_set, fa_shape. rewrite S, shape_same by (destruct (fa_ashape p); discriminate). cbn [rbind]. split; reflexivity. Qed.

Lemma shape_other s t : Forall2 (fun a b : nat => a <> b) s t -> shape_ne_all s t = Ok true.
Proof.
  intros H. unfold shape_ne_all. assert (L : length s = length t) by (induction H; cbn; congruence). rewrite L, Nat.eqb_refl. f_equal. clear L. induction H as [|a b s t N H IH]; [reflexivity|]. cbn. destruct (Nat.eqb_spec a b); [contradiction|]. exact IH.
Qed.
Lemma v_set_shape p v : Forall2 (fun a b : nat => a <> b) (shape v) [fv_length p; fv_size p; fv_size p] -> fv_set p v = Raise ValueError.
Proof. intros S. unfold fv_set. rewrite (shape_other _ _ S). reflexivity. Qed.
Lemma a_set_shape p v : Forall2 (fun a b : nat => a <> b) (shape v) (fa_ashape p ++ [fa_size p; fa_size p]) -> fa_set p v = Raise ValueError.
Proof. intros S. unfold fa_set, fa_shape. rewrite (shape_other _ _ S). reflexivity. Qed.
Lemma v_init N n lb v : match fposdef_init n lb None with
  | Ok _ => (shape v = [N; n; n] -> exists p, fv_init N n lb (Some v) = Ok p /\ fv_get p = v /\ fv_length p = N /\ fv_size p = n /\ fv_lb p = lb) /\
            (Forall2 (fun a b : nat => a <> b) (shape v) [N; n; n] -> fv_init N n lb (Some v) = Raise ValueError)
  | Raise e => fv_init N n lb (Some v) = Raise e
  end.
Proof.
  unfold fposdef_init, fv_init, rassert. destruct (fle f_zero lb); [|reflexivity]. split.
  - intros S. eexists. unfold fv_set. cbn [fv_length fv_size]. rewrite S, shape_same by discriminate. cbn [rbind]. repeat split; reflexivity.
  - intros S. apply v_set_shape. exact S.
Qed.
Lemma a_init s n lb v : match fposdef_init n lb None with
  | Ok _ => (shape v = s ++ [n; n] -> exists p, fa_init (ShapeTuple s) n lb (Some v) = Ok p /\ fa_get p = v /\ fa_ashape p = s /\ fa_size p = n /\ fa_lb p = lb) /\
            (Forall2 (fun a b : nat => a <> b) (shape v) (s ++ [n; n]) -> fa_init (ShapeTuple s) n lb (Some v) = Raise ValueError)
  | Raise e => fa_init (ShapeTuple s) n lb (Some v) = Raise e
  end.
Proof.
  unfold fposdef_init, fa_init, rassert. destruct (fle f_zero lb); [|reflexivity]. split.
  - intros S. eexists. unfold fa_set, fa_shape. cbn [fa_ashape fa_size]. rewrite S, shape_same by (destruct s; discriminate). cbn [rbind]. repeat split; reflexivity.
  - intros S. apply a_set_shape. exact S.
Qed.

(** ---- wrong lengths ---- *)
Lemma v_wrong fexp fdot p x : length x <> (triangle (fv_size p) * fv_length p)%nat -> fv_set_free fexp fdot p x = Raise ValueError /\ fv_set_vector p x = Raise ValueError.
Proof.
  intros H. unfold fv_set_free, fv_set_vector, fv_free_size, fv_vector_size, fv_vec_size. fold (triangle (fv_size p)). destruct (Nat.eqb_spec (length x) (triangle (fv_size p) * fv_length p)); [contradiction|]. split; reflexivity.
Qed.
Lemma a_wrong fexp fdot p x : length x <> (triangle (fa_size p) * how_many (fa_ashape p))%nat -> fa_set_free fexp fdot p x = Raise ValueError /\ fa_set_vector p x = Raise ValueError.
Proof.
  intros H. unfold fa_set_free, fa_set_vector, fa_free_size, fa_vector_size, fa_vec_size. fold (triangle (fa_size p)). change (nprod (fa_ashape p)) with (how_many (fa_ashape p)). destruct (Nat.eqb_spec (length x) (triangle (fa_size p) * how_many (fa_ashape p))); [contradiction|]. split; reflexivity.
Qed.

(** ---- the vector interface ---- *)
Lemma vent_holds n x : holds n x (mk_mat n n (vent x)).
Proof.
  split; [reflexivity|]. split.
  - intros i j H Hi. rewrite !mget_mk_mat by lia. apply vent_lower. exact H.
  - intros i Hi. rewrite !mget_mk_mat by lia. apply vent_any.
Qed.
Lemma vent_kept n x : kept_vector n x (tril_list n (vent x)).
Proof.
  split.
  - intros i j H Hi. rewrite tril_at by lia. apply vent_lower. exact H.
  - intros i Hi. rewrite tril_at by lia. apply vent_any.
Qed.
Lemma v_vector p x : (0 < fv_length p)%nat -> length x = (triangle (fv_size p) * fv_length p)%nat ->
  exists p' w, fv_set_vector p x = Ok p' /\ shape (fv_get p') = [fv_length p; fv_size p; fv_size p] /\ fv_get_vector p' = Ok w /\ length w = length x /\
    forall o, (o < fv_length p)%nat -> exists m, nd_index (fv_get p') [o] = Ok m /\ holds (fv_size p) (block (fv_size p) o x) m /\ kept_vector (fv_size p) (block (fv_size p) o x) (block (fv_size p) o w).
Proof.
  intros HN L. destruct (concat_blocks (fv_size p) (fv_length p) (fun o => tril_list (fv_size p) (vent (block (fv_size p) o x)))) as [Lw Bw]; [intros o Ho; apply tril_list_length|].
  eexists. eexists. split; [apply fv_set_vector_stack; assumption|]. split; [reflexivity|]. split; [|split].
  - apply (fv_get_vector_items (fv_with p _) (fun o => mk_mat (fv_size p) (fv_size p) (vent (block (fv_size p) o x))) (fun o => tril_list (fv_size p) (vent (block (fv_size p) o x)))).
    + reflexivity.
    + exact HN.
    + intros o Ho. exact (fv_index p (fun o => vent (block (fv_size p) o x)) o Ho).
    + intros o Ho. apply vectorize_mat.
  - etransitivity; [exact Lw|]. rewrite L. reflexivity.
  - intros o Ho. eexists. split; [apply fv_index; exact Ho|]. split; [apply vent_holds|].
    match goal with |- kept_vector ?n ?x ?w => assert (E : w = _) by exact (Bw o Ho); rewrite E end. apply vent_kept.
Qed.
Lemma a_vector p x : length x = (triangle (fa_size p) * how_many (fa_ashape p))%nat ->
  exists p', fa_set_vector p x = Ok p' /\ shape (fa_get p') = fa_ashape p ++ [fa_size p; fa_size p] /\
    (forall obs, valid_index (fa_ashape p) obs -> exists m, nd_index (fa_get p') obs = Ok m /\ holds (fa_size p) (block (fa_size p) (position (fa_ashape p) obs) x) m) /\
    ((0 < how_many (fa_ashape p))%nat -> exists w, fa_get_vector p' = Ok w /\ length w = length x /\
       forall o, (o < how_many (fa_ashape p))%nat -> kept_vector (fa_size p) (block (fa_size p) o x) (block (fa_size p) o w)).
Proof.
  intros L. destruct (concat_blocks (fa_size p) (how_many (fa_ashape p)) (fun o => tril_list (fa_size p) (vent (block (fa_size p) o x)))) as [Lw Bw]; [intros o Ho; apply tril_list_length|].
  eexists. split; [apply fa_set_vector_stack; exact L|]. split; [reflexivity|]. split.
  - intros obs Ho. eexists. split; [apply fa_index; exact Ho|]. apply vent_holds.
  - intros HN. eexists. split; [|split].
    + apply (fa_get_vector_items (fa_with p _) (fun o => mk_mat (fa_size p) (fa_size p) (vent (block (fa_size p) o x))) (fun o => tril_list (fa_size p) (vent (block (fa_size p) o x)))).
      * exact HN.
      * intros obs Ho. apply (fa_index p (fun o => vent (block (fa_size p) o x))). exact Ho.
      * intros o Ho. apply vectorize_mat.
    + etransitivity; [exact Lw|]. rewrite L. reflexivity.
    + intros o Ho. match goal with |- kept_vector ?n ?x ?w => assert (E : w = _) by exact (Bw o Ho); rewrite E end. apply vent_kept.
Qed.
