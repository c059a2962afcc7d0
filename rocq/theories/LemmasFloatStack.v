(** Vectors and arrays of positive definite matrices in double precision: one matrix at a time. *)
From Coq Require Import Reals ZArith List Lra Lia.
From Flocq Require Import Core BinarySingleNaN.
From Verif Require Import Res Nd RSum SpecFloat SpecFloatSimplex SpecFloatAcc SpecFloatMatrix SpecFloatCholesky SpecFloatStack ModelFloat ModelMatrix ModelFloatMatrix ModelFloatStack SpecFloatReach
  LemmasFloat LemmasFloat3 LemmasFloat4 LemmasFloatSimplex4 LemmasMatrix LemmasPosDef LemmasFloatMatrix LemmasFloatMatrix2 LemmasFloatMatrix3 LemmasFloatMatrix5 LemmasFloatCholesky5.
Import List ListNotations.
Set Bullet Behavior "Strict Subproofs".

(** ---- indices ---- *)
Lemma position_ravel s : forall obs, position s obs = ravel obs s.
Proof. induction s as [|n s IH]; intros [|i obs]; try reflexivity. cbn [position ravel]. rewrite IH. reflexivity. Qed.
Lemma valid_product s : forall obs, valid_index s obs <-> In obs (product s).
Proof.
  unfold valid_index. induction s as [|n s IH]; intros obs; cbn [product].
  - split; [intros H; inversion H; left; reflexivity|intros [<-|[]]; constructor].
  - rewrite in_flat_map. split.
    + intros H. inversion H as [|i ? o ? Hi Ho]; subst. exists i. split; [apply in_seq; lia|]. apply in_map. apply IH. exact Ho.
    + intros (i & Hi & H). apply in_map_iff in H as (o & <- & H). apply in_seq in Hi. constructor; [lia|]. apply IH. exact H.
Qed.
Lemma block_slice n o (x : list double) : block n o x = slice x (o * triangle n) (o * triangle n + triangle n).
Proof. unfold block, slice. f_equal. lia. Qed.
Lemma block_length n o N (x : list double) : length x = (triangle n * N)%nat -> (o < N)%nat -> length (block n o x) = triangle n.
Proof. intros L H. rewrite block_slice, slice_length; [lia|]. rewrite L. nia. Qed.

(** ---- stacks ---- *)
Definition fstack (s : list nat) (n : nat) (G : nat -> nat -> nat -> dbl) : nd dbl :=
  Nd (s ++ [n; n]) (List.concat (map (fun o => data (mk_mat n n (G o))) (seq 0 (nprod s)))).
Lemma mk_mat_data n (g : nat -> nat -> dbl) : length (data (mk_mat n n g)) = (n * n)%nat.
Proof. unfold mk_mat. cbn [data]. rewrite (length_flat_map_const _ _ n), seq_length; [reflexivity|]. intros; rewrite map_length, seq_length; reflexivity. Qed.
Lemma fstack_index s n G obs : In obs (product s) -> nd_index (fstack s n G) obs = Ok (mk_mat n n (G (ravel obs s))).
Proof.
  intros H. unfold fstack. rewrite nd_index_product.
  - rewrite nprod_2. rewrite slice_concat.
    + reflexivity.
    + intros; apply mk_mat_data.
    + apply In_product_ravel, H.
  - rewrite (concat_const_length _ _ (n * n)%nat) by (intros; apply mk_mat_data). rewrite seq_length, nprod_2. reflexivity.
  - exact H.
Qed.
Lemma stack_mats (l : list nat) n (G : nat -> nat -> nat -> dbl) : l <> [] ->
  np_stack (map (fun o => mk_mat n n (G o)) l) = Ok (Nd [length l; n; n] (List.concat (map (fun o => data (mk_mat n n (G o))) l))).
Proof.
  intros H. destruct l as [|a l]; [contradiction|]. unfold np_stack. cbn [map].
  change (mk_mat n n (G a) :: map (fun o => mk_mat n n (G o)) l) with (map (fun o => mk_mat n n (G o)) (a :: l)).
  assert (E : forallb (fun b => shape_eqb (shape b) (shape (mk_mat n n (G a)))) (map (fun o => mk_mat n n (G o)) (a :: l)) = true).
  { apply forallb_forall. intros b Hb. apply in_map_iff in Hb as [o [<- _]]. apply shape_eqb_refl. }
  rewrite E, map_length, map_map. reflexivity.
Qed.
Lemma vec_build N n G : (0 < N)%nat -> np_stack (map (fun o => mk_mat n n (G o)) (seq 0 N)) = Ok (fstack [N] n G).
Proof. intros H. rewrite stack_mats; [|destruct N; [lia|discriminate]]. unfold fstack. rewrite seq_length, nprod_1. reflexivity. Qed.
Lemma arr_build s n G : (do st <- np_stack (map (fun obs => mk_mat n n (G (ravel obs s))) (product s)); np_reshape st (s ++ [n; n])) = Ok (fstack s n G).
Proof.
  rewrite (map_product s (fun o => mk_mat n n (G o))). destruct (Nat.eq_dec (nprod s) 0) as [Z|Z].
  - unfold fstack. rewrite Z. cbn [seq map np_stack rbind]. unfold np_reshape, nd_size. cbn [shape data]. rewrite nprod_app, Z. reflexivity.
  - rewrite stack_mats; [|destruct (nprod s); [lia|discriminate]]. cbn [rbind]. unfold np_reshape, nd_size. cbn [shape data]. rewrite seq_length, nprod_cons, nprod_app, Nat.eqb_refl. reflexivity.
Qed.
Lemma rmapM_raise {A B} (f : A -> res B) l1 a l2 e : (forall x, In x l1 -> exists y, f x = Ok y) -> f a = Raise e -> rmapM f (l1 ++ a :: l2) = Raise e.
Proof.
  induction l1 as [|b l1 IH]; intros H E; cbn [app rmapM].
  - rewrite E. reflexivity.
  - destruct (H b (or_introl eq_refl)) as [y ->]. cbn [rbind]. rewrite IH; [reflexivity|intros x Hx; apply H; right; exact Hx|exact E].
Qed.
Lemma hstack_ok l : l <> [] -> f_hstack l = Ok (List.concat l).
Proof. destruct l; [contradiction|reflexivity]. Qed.

Lemma app_eq_len {A} (a b c d : list A) : length a = length c -> a ++ b = c ++ d -> a = c /\ b = d.
Proof. revert c. induction a as [|x a IH]; intros [|y c] L E; try discriminate; [auto|]. cbn in E. injection E as -> E. injection L as L. destruct (IH c L E) as [-> ->]. auto. Qed.
(** ---- one matrix ---- *)
Lemma unvectorize_sym_ok n (x : list dbl) : length x = triangle n -> f_unvectorize_symmetric_matrix x = Ok (mk_mat n n (vent x)).
Proof.
  intros L. unfold f_unvectorize_symmetric_matrix. rewrite (f_unvectorize_ok n x L). cbn [rbind]. unfold nrows at 1 2, mk_mat at 1 2. cbn [shape]. f_equal. apply mk_mat_ext. intros i j Hi Hj.
  unfold vent, f_make_diagonal. rewrite !mget_mk_mat by assumption. reflexivity.
Qed.
Lemma vectorize_mat n (g : nat -> nat -> dbl) : f_vectorize_ld_matrix (mk_mat n n g) = Ok (tril_list n g).
Proof.
  unfold f_vectorize_ld_matrix, mk_mat at 1. cbn [shape]. rewrite Nat.eqb_refl. cbn [negb]. f_equal. apply tril_list_ext. intros i j Hj Hi. apply mget_mk_mat; lia.
Qed.
Lemma stored_nan fexp fdot lb n x i : exp_good fexp -> matmul_good fdot -> (i < n)%nat -> is_finite (at_ld dzero x i i) = false -> stored fexp x fdot lb n i i = B754_nan.
Proof.
  intros He Hd Hi F. unfold stored.
  assert (N : fent fexp x i i = B754_nan) by (unfold fent; rewrite Nat.eqb_refl; apply (diag_nan fexp He); exact F).
  assert (D : fdot i i (frow fexp x n i) (frow fexp x n i) = B754_nan).
  { apply (mm_nan _ Hd i i _ _ i); [reflexivity|rewrite frow_length; exact Hi| |]; rewrite frow_nth by exact Hi; rewrite N; reflexivity. }
  rewrite D. reflexivity.
Qed.
Lemma vent_any x i : same (vent x i i) (kept_any (at_ld dzero x i i)).
Proof.
  rewrite vent_diag. unfold kept_any. destruct (is_finite (at_ld dzero x i i)) eqn:F.
  - apply twice_minus. exact F.
  - left. apply twice_minus_nan. exact F.
Qed.
Lemma nonneg_fle (lb : dbl) : is_finite lb = true -> (0 <= B2R lb)%R -> fle f_zero lb = true.
Proof.
  intros F H. unfold fle. rewrite (Bleb_correct _ _ f_zero lb eq_refl F). apply Rle_bool_true. exact H.
Qed.
Lemma stored_back (fexp flog : dbl -> dbl) : exp_good fexp -> log_good flog -> forall fdot, matmul_good fdot -> forall fchol, cholesky_good fchol -> cholesky_close fchol -> cholesky_succeeds fchol ->
  forall n, (INR n <= bpow radix2 20)%R -> forall lb, bounded500 lb -> (0 <= B2R lb)%R -> forall x, calm_free n x ->
  forall g, relative_error n (B2R lb) (reals x) g -> (INR n * g <= / 16)%R ->
  exists w, f_pack_posdef_matrix flog fchol (mk_mat n n (stored fexp x fdot lb n)) lb = Ok w /\ length w = triangle n /\ forall i, (i < n)%nat ->
    (is_finite (at_ld dzero w i i) = true /\ (Rabs (B2R (at_ld dzero w i i) - B2R (at_ld dzero x i i)) <= 4 * g + units 32 * (1 + Rabs (B2R (at_ld dzero x i i)) + exp (B2R (at_ld dzero x i i))))%R) /\
    (forall j, (j < i)%nat -> is_finite (at_ld dzero w i j) = true /\ (Rabs (B2R (at_ld dzero w i j) - B2R (at_ld dzero x i j)) <= 2 * g * rsum n (fun k => Rabs (factor (reals x) i k)))%R).
Proof.
  intros He Hl fdot Hd fchol Hc Hcc Hcs n Hn lb Hlb Hlb0 x Hx g E ng.
  assert (I : fposdef_init n lb None = Ok (mkFP n lb (mk_mat n n (f_make_diagonal (fun _ => fadd lb f_one))))).
  { unfold fposdef_init. rewrite (nonneg_fle lb (proj1 Hlb) Hlb0). reflexivity. }
  destruct (round_trip fexp flog He Hl fdot Hd fchol Hc Hcc Hcs n Hn lb Hlb Hlb0 x Hx _ g (r_init fexp fdot n lb None _ I) E ng) as (p' & w & S & G & W).
  rewrite (set_free_unfold fexp fdot (mkFP n lb (mk_mat n n (f_make_diagonal (fun _ => fadd lb f_one)))) x n eq_refl (proj1 Hx)) in S. destruct (fposdef_set_inv _ _ _ S) as (_ & -> & _). exists w. split; [exact G|exact W].
Qed.

(** ---- the methods, for vectors ---- *)
Lemma fv_set_free_stack fexp fdot p x : (0 < fv_length p)%nat -> length x = (triangle (fv_size p) * fv_length p)%nat ->
  fv_set_free fexp fdot p x = Ok (fv_with p (fstack [fv_length p] (fv_size p) (fun o => stored fexp (block (fv_size p) o x) fdot (fv_lb p) (fv_size p)))).
Proof.
  intros HN L. unfold fv_set_free, fv_free_size, fv_vec_size. fold (triangle (fv_size p)). rewrite L, Nat.eqb_refl. cbn [negb].
  rewrite (rmapM_ok _ (fun o => mk_mat (fv_size p) (fv_size p) (stored fexp (block (fv_size p) o x) fdot (fv_lb p) (fv_size p)))).
  - cbn [rbind]. rewrite vec_build by exact HN. reflexivity.
  - intros o Ho. apply in_seq in Ho. unfold fv_obs_slice. destruct (Nat.ltb_spec o (fv_length p)); [|lia]. cbn [rassert rbind fst snd].
    unfold fv_vec_size. fold (triangle (fv_size p)).
    replace (slice x (triangle (fv_size p) * o) (triangle (fv_size p) * (o + 1))) with (block (fv_size p) o x) by (rewrite block_slice; f_equal; lia).
    apply unpack_ok. apply (block_length _ _ (fv_length p)); [exact L|lia].
Qed.
Lemma fv_set_vector_stack p x : (0 < fv_length p)%nat -> length x = (triangle (fv_size p) * fv_length p)%nat ->
  fv_set_vector p x = Ok (fv_with p (fstack [fv_length p] (fv_size p) (fun o => vent (block (fv_size p) o x)))).
Proof.
  intros HN L. unfold fv_set_vector, fv_vector_size, fv_vec_size. fold (triangle (fv_size p)). rewrite L, Nat.eqb_refl. cbn [negb].
  rewrite (rmapM_ok _ (fun o => mk_mat (fv_size p) (fv_size p) (vent (block (fv_size p) o x)))).
  - cbn [rbind]. rewrite vec_build by exact HN. reflexivity.
  - intros o Ho. apply in_seq in Ho. unfold fv_obs_slice. destruct (Nat.ltb_spec o (fv_length p)); [|lia]. cbn [rassert rbind fst snd].
    unfold fv_vec_size. fold (triangle (fv_size p)).
    replace (slice x (triangle (fv_size p) * o) (triangle (fv_size p) * (o + 1))) with (block (fv_size p) o x) by (rewrite block_slice; f_equal; lia).
    apply unvectorize_sym_ok. apply (block_length _ _ (fv_length p)); [exact L|lia].
Qed.

Lemma fv_index p G o : (o < fv_length p)%nat -> nd_index (fv_get (fv_with p (fstack [fv_length p] (fv_size p) G))) [o] = Ok (mk_mat (fv_size p) (fv_size p) (G o)).
Proof.
  intros H. unfold fv_get, fv_with, fv_val. rewrite fstack_index.
  - cbn [ravel]. rewrite nprod_nil, Nat.mul_1_r, Nat.add_0_r. reflexivity.
  - apply valid_product. constructor; [exact H|constructor].
Qed.
Lemma fv_get_free_items flog fchol p M w : shape (fv_get p) = [fv_length p; fv_size p; fv_size p] -> (0 < fv_length p)%nat ->
  (forall o, (o < fv_length p)%nat -> nd_index (fv_get p) [o] = Ok (M o)) ->
  (forall o, (o < fv_length p)%nat -> f_pack_posdef_matrix flog fchol (M o) (fv_lb p) = Ok (w o)) -> fv_get_free flog fchol p = Ok (List.concat (map w (seq 0 (fv_length p)))).
Proof.
  intros S HN HM Hw. unfold fv_get_free. rewrite (rmapM_ok _ w).
  - cbn [rbind]. apply hstack_ok. destruct (fv_length p); [lia|discriminate].
  - intros o Ho. apply in_seq in Ho. unfold fv_item. change (fv_val p) with (fv_get p). rewrite S. cbn [length Nat.leb]. rewrite (HM o) by lia. cbn [rbind]. apply Hw. lia.
Qed.
Lemma seq_cut N o : (o < N)%nat -> seq 0 N = seq 0 o ++ o :: seq (S o) (N - S o).
Proof. intros H. replace N with (o + S (N - S o))%nat at 1 by lia. rewrite seq_app. reflexivity. Qed.
Lemma fv_get_free_fails flog fchol p M o e : shape (fv_get p) = [fv_length p; fv_size p; fv_size p] -> (o < fv_length p)%nat ->
  (forall o, (o < fv_length p)%nat -> nd_index (fv_get p) [o] = Ok (M o)) ->
  (forall k, (k < o)%nat -> exists w, f_pack_posdef_matrix flog fchol (M k) (fv_lb p) = Ok w) -> f_pack_posdef_matrix flog fchol (M o) (fv_lb p) = Raise e ->
  fv_get_free flog fchol p = Raise e.
Proof.
  intros S HN HM Hw He. unfold fv_get_free. rewrite (seq_cut _ o HN).
  rewrite (rmapM_raise _ (seq 0 o) o _ e); [reflexivity| |].
  - intros k Hk. apply in_seq in Hk. destruct (Hw k) as [w W]; [lia|]. exists w. unfold fv_item. change (fv_val p) with (fv_get p). rewrite S. cbn [length Nat.leb]. rewrite (HM k) by lia. exact W.
  - unfold fv_item. change (fv_val p) with (fv_get p). rewrite S. cbn [length Nat.leb]. rewrite (HM o) by lia. exact He.
Qed.
Lemma fv_get_vector_items p M w : shape (fv_get p) = [fv_length p; fv_size p; fv_size p] -> (0 < fv_length p)%nat ->
  (forall o, (o < fv_length p)%nat -> nd_index (fv_get p) [o] = Ok (M o)) ->
  (forall o, (o < fv_length p)%nat -> f_vectorize_ld_matrix (M o) = Ok (w o)) -> fv_get_vector p = Ok (List.concat (map w (seq 0 (fv_length p)))).
Proof.
  intros S HN HM Hw. unfold fv_get_vector. rewrite (rmapM_ok _ w).
  - cbn [rbind]. apply hstack_ok. destruct (fv_length p); [lia|discriminate].
  - intros o Ho. apply in_seq in Ho. unfold fv_item. change (fv_val p) with (fv_get p). rewrite S. cbn [length Nat.leb]. rewrite (HM o) by lia. cbn [rbind]. apply Hw. lia.
Qed.
Lemma concat_blocks n N (w : nat -> list double) : (forall o, (o < N)%nat -> length (w o) = triangle n) ->
  length (List.concat (map w (seq 0 N))) = (triangle n * N)%nat /\ forall o, (o < N)%nat -> block n o (List.concat (map w (seq 0 N))) = w o.
Proof.
  intros H. split.
  - rewrite (concat_const_length w _ (triangle n)); [rewrite seq_length; lia|]. intros o Ho. apply in_seq in Ho. apply H. lia.
  - intros o Ho. rewrite block_slice. apply (slice_concat w); assumption.
Qed.

(** ---- the methods, for arrays ---- *)
Lemma fa_set_free_stack fexp fdot p x : length x = (triangle (fa_size p) * nprod (fa_ashape p))%nat ->
  fa_set_free fexp fdot p x = Ok (fa_with p (fstack (fa_ashape p) (fa_size p) (fun o => stored fexp (block (fa_size p) o x) fdot (fa_lb p) (fa_size p)))).
Proof.
  intros L. unfold fa_set_free, fa_free_size, fa_vec_size. fold (triangle (fa_size p)). rewrite L, Nat.eqb_refl. cbn [negb].
  rewrite (rmapM_ok _ (fun obs => mk_mat (fa_size p) (fa_size p) (stored fexp (block (fa_size p) (ravel obs (fa_ashape p)) x) fdot (fa_lb p) (fa_size p)))).
  - cbn [rbind]. pose proof (arr_build (fa_ashape p) (fa_size p) (fun o => stored fexp (block (fa_size p) o x) fdot (fa_lb p) (fa_size p))) as B.
    destruct (np_stack _) as [st|]; [|discriminate]. cbn [rbind] in *. unfold fa_shape. rewrite B. reflexivity.
  - intros obs Ho. destruct (In_product_ravel _ _ Ho) as [R E]. unfold fa_obs_slice. rewrite E, Nat.eqb_refl. cbn [rassert rbind fst snd].
    unfold fa_vec_size. fold (triangle (fa_size p)). rewrite <- block_slice.
    apply unpack_ok. apply (block_length _ _ (nprod (fa_ashape p))); [exact L|exact R].
Qed.
Lemma fa_set_vector_stack p x : length x = (triangle (fa_size p) * nprod (fa_ashape p))%nat ->
  fa_set_vector p x = Ok (fa_with p (fstack (fa_ashape p) (fa_size p) (fun o => vent (block (fa_size p) o x)))).
Proof.
  intros L. unfold fa_set_vector, fa_vector_size, fa_vec_size. fold (triangle (fa_size p)). rewrite L, Nat.eqb_refl. cbn [negb].
  rewrite (rmapM_ok _ (fun obs => mk_mat (fa_size p) (fa_size p) (vent (block (fa_size p) (ravel obs (fa_ashape p)) x)))).
  - cbn [rbind]. pose proof (arr_build (fa_ashape p) (fa_size p) (fun o => vent (block (fa_size p) o x))) as B.
    destruct (np_stack _) as [st|]; [|discriminate]. cbn [rbind] in *. unfold fa_shape. rewrite B. reflexivity.
  - intros obs Ho. destruct (In_product_ravel _ _ Ho) as [R E]. unfold fa_obs_slice. rewrite E, Nat.eqb_refl. cbn [rassert rbind fst snd].
    unfold fa_vec_size. fold (triangle (fa_size p)). rewrite <- block_slice.
    apply unvectorize_sym_ok. apply (block_length _ _ (nprod (fa_ashape p))); [exact L|exact R].
Qed.
Lemma fa_index p G obs : valid_index (fa_ashape p) obs ->
  nd_index (fa_get (fa_with p (fstack (fa_ashape p) (fa_size p) G))) obs = Ok (mk_mat (fa_size p) (fa_size p) (G (position (fa_ashape p) obs))).
Proof. intros H. unfold fa_get, fa_with, fa_val. rewrite fstack_index by (apply valid_product; exact H). rewrite position_ravel. reflexivity. Qed.
Lemma product_nonempty s : (0 < nprod s)%nat -> product s <> [].
Proof. intros H E. pose proof (product_length s) as L. rewrite E in L. cbn in L. lia. Qed.
Lemma fa_get_free_items flog fchol p M w : (0 < nprod (fa_ashape p))%nat ->
  (forall obs, valid_index (fa_ashape p) obs -> nd_index (fa_get p) obs = Ok (M (position (fa_ashape p) obs))) ->
  (forall o, (o < nprod (fa_ashape p))%nat -> f_pack_posdef_matrix flog fchol (M o) (fa_lb p) = Ok (w o)) -> fa_get_free flog fchol p = Ok (List.concat (map w (seq 0 (nprod (fa_ashape p))))).
Proof.
  intros HN HM Hw. unfold fa_get_free. rewrite (rmapM_ok _ (fun obs => w (ravel obs (fa_ashape p)))).
  - cbn [rbind]. rewrite (map_product (fa_ashape p) w). apply hstack_ok. destruct (nprod (fa_ashape p)); [lia|discriminate].
  - intros obs Ho. change (fa_val p) with (fa_get p). rewrite (HM obs) by (apply valid_product; exact Ho). cbn [rbind]. rewrite position_ravel. apply Hw. apply In_product_ravel. exact Ho.
Qed.
Lemma fa_get_vector_items p M w : (0 < nprod (fa_ashape p))%nat ->
  (forall obs, valid_index (fa_ashape p) obs -> nd_index (fa_get p) obs = Ok (M (position (fa_ashape p) obs))) ->
  (forall o, (o < nprod (fa_ashape p))%nat -> f_vectorize_ld_matrix (M o) = Ok (w o)) -> fa_get_vector p = Ok (List.concat (map w (seq 0 (nprod (fa_ashape p))))).
Proof.
  intros HN HM Hw. unfold fa_get_vector. rewrite (rmapM_ok _ (fun obs => w (ravel obs (fa_ashape p)))).
  - cbn [rbind]. rewrite (map_product (fa_ashape p) w). apply hstack_ok. destruct (nprod (fa_ashape p)); [lia|discriminate].
  - intros obs Ho. change (fa_val p) with (fa_get p). rewrite (HM obs) by (apply valid_product; exact Ho). cbn [rbind]. rewrite position_ravel. apply Hw. apply In_product_ravel. exact Ho.
Qed.
Lemma product_cut s o : (o < nprod s)%nat -> exists l1 obs l2, product s = l1 ++ obs :: l2 /\ ravel obs s = o /\ forall a, In a l1 -> (ravel a s < o)%nat.
Proof.
  intros H. pose proof (product_ravel s) as P. set (l := product s) in *.
  destruct (nth_split l [] (n := o)) as (l1 & l2 & E & L); [unfold l; rewrite product_length; exact H|].
  exists l1, (nth o l []), l2. split; [exact E|]. rewrite E in P. rewrite map_app in P. cbn [map] in P. rewrite (seq_cut _ o H) in P.
  apply app_eq_len in P as [P1 P2]; [|rewrite map_length, seq_length; exact L]. injection P2 as P2 _. split.
  - exact P2.
  - intros a Ha. apply (in_map (fun x => ravel x s)) in Ha. rewrite P1 in Ha. apply in_seq in Ha. lia.
Qed.
Lemma fa_get_free_fails flog fchol p M o e : (o < nprod (fa_ashape p))%nat ->
  (forall obs, valid_index (fa_ashape p) obs -> nd_index (fa_get p) obs = Ok (M (position (fa_ashape p) obs))) ->
  (forall k, (k < o)%nat -> exists w, f_pack_posdef_matrix flog fchol (M k) (fa_lb p) = Ok w) -> f_pack_posdef_matrix flog fchol (M o) (fa_lb p) = Raise e ->
  fa_get_free flog fchol p = Raise e.
Proof.
  intros HN HM Hw He. unfold fa_get_free. destruct (product_cut _ o HN) as (l1 & obs & l2 & E & R & B). 
  assert (V : forall a, In a (l1 ++ obs :: l2) -> nd_index (fa_val p) a = Ok (M (ravel a (fa_ashape p)))).
  { intros a Ha. rewrite <- E in Ha. change (fa_val p) with (fa_get p). rewrite (HM a) by (apply valid_product; exact Ha). rewrite position_ravel. reflexivity. }
  rewrite E. rewrite (rmapM_raise _ l1 obs l2 e); [reflexivity| |].
  - intros k Hk. rewrite (V k) by (apply in_or_app; left; exact Hk). apply Hw. apply B. exact Hk.
  - rewrite (V obs) by (apply in_or_app; right; left; reflexivity). cbn [rbind]. rewrite R. exact He.
Qed.
