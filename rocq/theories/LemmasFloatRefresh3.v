(** Proofs about setting a vector or an array of positive definite matrices to its own free value in binary64. *)
From Coq Require Import Reals ZArith List Lra Lia Bool.
From Flocq Require Import Core BinarySingleNaN.
From Verif Require Import Res Nd RSum SpecFloat SpecFloatSimplex SpecFloatAcc SpecFloatMatrix SpecFloatCholesky SpecFloatRefresh SpecFloatStack ModelFloat ModelMatrix ModelFloatMatrix ModelFloatStack SpecFloatReach
  LemmasFloat LemmasFloat2 LemmasFloatMatrix LemmasFloatMatrix2 LemmasFloatStack LemmasFloatStack2 LemmasFloatRefresh2.
Import List ListNotations.
Set Bullet Behavior "Strict Subproofs".
Open Scope R_scope.

(** a tidy matrix can be the value of a parameter *)
Lemma tidy_reachable fexp fdot n lb (m : nd dbl) : bounded500 lb -> 0 <= B2R lb -> shape m = [n; n] -> tidy n lb (mget dzero m) -> reachable fexp fdot n lb (mkFP n lb m).
Proof.
  intros [Fl _] L0 S T. apply (r_init _ _ _ _ (Some m)). unfold fposdef_init, rassert. rewrite (nonneg_fle lb Fl L0). apply (fposdef_set_spec (mkFP n lb m) m n eq_refl S).
  intros i j Hi Hj. destruct (T i j Hi Hj) as (F & E & _). replace (mget f_zero m j i) with (mget f_zero m i j) by exact E. apply feq_self. apply finite_number. exact F.
Qed.

Lemma position_bound s : forall obs, valid_index s obs -> (position s obs < how_many s)%nat.
Proof.
  induction s as [|k s IH]; intros obs H; inversion H; subst; [cbn; lia|]. cbn [position how_many fold_right]. fold (how_many s). pose proof (IH _ H4). nia.
Qed.

Section Stacks.
Context (fexp flog : dbl -> dbl) (He : exp_good fexp) (Hl : log_good flog) (fdot : nat -> nat -> list dbl -> list dbl -> dbl) (Hd : matmul_good fdot).
Context (fchol : nd dbl -> res (nd dbl)) (Hc : cholesky_good fchol) (Hcc : cholesky_close fchol) (Hcs : cholesky_succeeds fchol).
(** the free values of one matrix of the stack; setting a single parameter to them moves it little *)
Lemma item n lb (m : nd dbl) : INR n <= bpow radix2 20 -> bounded500 lb -> 0 <= B2R lb -> shape m = [n; n] -> tidy n lb (mget dzero m) -> well_inside n lb (mget dzero m) ->
  exists w, fposdef_get_free flog fchol (mkFP n lb m) = Ok w /\ length w = triangle n /\
    exists q', fposdef_set_free fexp fdot (mkFP n lb m) w = Ok q' /\ near n lb (log_size lb (mget dzero m)) (mget dzero m) (mget dzero (fposdef_get q')).
Proof.
  intros Hn Hlb L0 S T W. pose proof (tidy_reachable fexp fdot n lb m Hlb L0 S T) as R.
  destruct (refresh_inside fexp flog He Hl fdot Hd fchol Hc Hcc n Hn lb Hlb L0 (mkFP n lb m) R T Hcs W) as (w & p' & G & Se & C & _ & N). exists w. split; [exact G|]. split; [exact (proj1 C)|]. exists p'. split; [exact Se|exact N].
Qed.
Lemma set_same q m q' : fposdef_set q m = Ok q' -> fposdef_get q' = m.
Proof.
  unfold fposdef_set. destruct (shape m) as [|a [|b [|? ?]]]; try discriminate. destruct (negb _ || negb _); [discriminate|]. destruct (negb _); [discriminate|]. intros H. injection H as <-. reflexivity.
Qed.
Lemma items n lb N (M : nat -> nd dbl) : INR n <= bpow radix2 20 -> bounded500 lb -> 0 <= B2R lb ->
  (forall o, (o < N)%nat -> shape (M o) = [n; n] /\ tidy n lb (mget dzero (M o)) /\ well_inside n lb (mget dzero (M o))) ->
  exists w : nat -> list dbl, forall o, (o < N)%nat -> fposdef_get_free flog fchol (mkFP n lb (M o)) = Ok (w o) /\ length (w o) = triangle n /\
    exists q', fposdef_set_free fexp fdot (mkFP n lb (M o)) (w o) = Ok q' /\ near n lb (log_size lb (mget dzero (M o))) (mget dzero (M o)) (mget dzero (fposdef_get q')).
Proof.
  intros Hn Hlb L0 H. apply (choose_items N (fun o w => fposdef_get_free flog fchol (mkFP n lb (M o)) = Ok w /\ length w = triangle n /\
    exists q', fposdef_set_free fexp fdot (mkFP n lb (M o)) w = Ok q' /\ near n lb (log_size lb (mget dzero (M o))) (mget dzero (M o)) (mget dzero (fposdef_get q'))) []). intros o Ho. destruct (H o Ho) as (S & T & W). exact (item n lb (M o) Hn Hlb L0 S T W).
Qed.
Lemma v_refresh p M : INR (fv_size p) <= bpow radix2 20 -> bounded500 (fv_lb p) -> 0 <= B2R (fv_lb p) -> (0 < fv_length p)%nat -> shape (fv_get p) = [fv_length p; fv_size p; fv_size p] ->
  (forall o, (o < fv_length p)%nat -> nd_index (fv_get p) [o] = Ok (M o) /\ shape (M o) = [fv_size p; fv_size p] /\ tidy (fv_size p) (fv_lb p) (mget dzero (M o)) /\ well_inside (fv_size p) (fv_lb p) (mget dzero (M o))) ->
  exists w p', fv_get_free flog fchol p = Ok w /\ fv_set_free fexp fdot p w = Ok p' /\ shape (fv_get p') = [fv_length p; fv_size p; fv_size p] /\
    forall o, (o < fv_length p)%nat -> exists m, nd_index (fv_get p') [o] = Ok m /\ near (fv_size p) (fv_lb p) (log_size (fv_lb p) (mget dzero (M o))) (mget dzero (M o)) (mget dzero m).
Proof.
  intros Hn Hlb L0 HN S H. destruct (items (fv_size p) (fv_lb p) (fv_length p) M Hn Hlb L0) as [w W]; [intros o Ho; apply (H o Ho)|].
  destruct (v_get_free flog fchol p M S HN) as [G _]; [intros o Ho; apply (H o Ho)|]. specialize (G w (fun o Ho => proj1 (W o Ho))).
  destruct (concat_blocks (fv_size p) (fv_length p) w) as [Lw Bw]; [intros o Ho; apply (W o Ho)|].
  destruct (v_set_free fexp fdot p (List.concat (map w (seq 0 (fv_length p)))) HN) as (p' & Sp & _ & _ & _ & Sh & K); [etransitivity; [exact Lw|lia]|].
  exists (List.concat (map w (seq 0 (fv_length p)))), p'. split; [exact G|]. split; [exact Sp|]. split; [exact Sh|]. intros o Ho. destruct (K o Ho) as (m & E & _ & Q). exists m. split; [exact E|].
  destruct (W o Ho) as (_ & _ & q' & Sq & Nq). specialize (Q (mkFP (fv_size p) (fv_lb p) (M o)) eq_refl eq_refl).
  assert (B : block (fv_size p) o (List.concat (map w (seq 0 (fv_length p)))) = w o) by exact (Bw o Ho). assert (Q2 : fposdef_set (mkFP (fv_size p) (fv_lb p) (M o)) m = Ok q') by (rewrite <- Q; etransitivity; [|exact Sq]; f_equal; exact B).
  rewrite <- (set_same _ _ _ Q2). exact Nq.
Qed.
Lemma a_refresh p M : INR (fa_size p) <= bpow radix2 20 -> bounded500 (fa_lb p) -> 0 <= B2R (fa_lb p) -> (0 < how_many (fa_ashape p))%nat ->
  (forall obs, valid_index (fa_ashape p) obs -> nd_index (fa_get p) obs = Ok (M (position (fa_ashape p) obs))) ->
  (forall o, (o < how_many (fa_ashape p))%nat -> shape (M o) = [fa_size p; fa_size p] /\ tidy (fa_size p) (fa_lb p) (mget dzero (M o)) /\ well_inside (fa_size p) (fa_lb p) (mget dzero (M o))) ->
  exists w p', fa_get_free flog fchol p = Ok w /\ fa_set_free fexp fdot p w = Ok p' /\ shape (fa_get p') = fa_ashape p ++ [fa_size p; fa_size p] /\
    forall obs, valid_index (fa_ashape p) obs -> exists m, nd_index (fa_get p') obs = Ok m /\ let o := position (fa_ashape p) obs in near (fa_size p) (fa_lb p) (log_size (fa_lb p) (mget dzero (M o))) (mget dzero (M o)) (mget dzero m).
Proof.
  intros Hn Hlb L0 HN I H. destruct (items (fa_size p) (fa_lb p) (how_many (fa_ashape p)) M Hn Hlb L0 H) as [w W].
  destruct (a_get_free flog fchol p M HN I) as [G _]. specialize (G w (fun o Ho => proj1 (W o Ho))).
  destruct (concat_blocks (fa_size p) (how_many (fa_ashape p)) w) as [Lw Bw]; [intros o Ho; apply (W o Ho)|].
  destruct (a_set_free fexp fdot p (List.concat (map w (seq 0 (how_many (fa_ashape p)))))) as (p' & Sp & _ & _ & _ & Sh & K); [etransitivity; [exact Lw|lia]|].
  exists (List.concat (map w (seq 0 (how_many (fa_ashape p))))), p'. split; [exact G|]. split; [exact Sp|]. split; [exact Sh|]. intros obs Hobs. destruct (K obs Hobs) as (m & E & _ & Q). exists m. split; [exact E|]. cbv zeta.
  assert (Ho : (position (fa_ashape p) obs < how_many (fa_ashape p))%nat) by exact (position_bound _ _ Hobs). set (o := position (fa_ashape p) obs) in *.
  destruct (W o Ho) as (_ & _ & q' & Sq & Nq). specialize (Q (mkFP (fa_size p) (fa_lb p) (M o)) eq_refl eq_refl).
  assert (B : block (fa_size p) o (List.concat (map w (seq 0 (how_many (fa_ashape p))))) = w o) by exact (Bw o Ho). assert (Q2 : fposdef_set (mkFP (fa_size p) (fa_lb p) (M o)) m = Ok q') by (rewrite <- Q; etransitivity; [|exact Sq]; f_equal; exact B).
  rewrite <- (set_same _ _ _ Q2). exact Nq.
Qed.
End Stacks.
