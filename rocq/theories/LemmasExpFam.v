(** Exponential families: priors, natural parameters, lognormal and Dirichlet moments. *)
From Coq Require Import Reals List Arith Lia Lra Bool.
From Verif Require Import Res Num Nd RSum ModelParameters ModelNumpy ModelExpFam LemmasPosDef LemmasNumpy SpecMatrix SpecExpFam.
Import List ListNotations.
Open Scope R_scope.
Set Bullet Behavior "Strict Subproofs".

(** pointwise: reduce arithmetic on finite numbers *)
Ltac fin := cbn [nadd nsub nopp nmul nexp nsq]; unfold nsub, nsq; cbn [nadd nopp nmul nexp].
Lemma farr_ext s f g : (forall idx, index s idx -> f idx = g idx) -> farr s f = farr s g.
Proof. intros H. apply mk_nd_ext. intros idx Hi. rewrite H by exact Hi. reflexivity. Qed.
Lemma Ok_eq {A} (a b : A) : a = b -> Ok a = Ok b.
Proof. congruence. Qed.
Ltac pyfin := unfold farr; py; apply Ok_eq; apply mk_nd_ext; intros idx Hidx; fin.

Lemma nsum_seq (f : nat -> R) n : nsum (map (fun i => Fin (f i)) (seq 0 n)) = Fin (rsum n f).
Proof. rewrite <- (map_map f Fin), nsum_Fin. f_equal. rewrite <- lsum_map_seq. reflexivity. Qed.
Lemma nsum_map {X} (f : X -> R) l : nsum (map (fun i => Fin (f i)) l) = Fin (lsum (map f l)).
Proof. rewrite <- (map_map f Fin), nsum_Fin. reflexivity. Qed.
Lemma nsum_map_fin {X} (g : X -> num) (f : X -> R) l : (forall x, In x l -> g x = Fin (f x)) -> nsum (map g l) = Fin (lsum (map f l)).
Proof. intros H. rewrite (map_ext_in _ _ _ H). apply nsum_map. Qed.
Lemma nsum_seq_fin (g : nat -> num) (f : nat -> R) n : (forall i, (i < n)%nat -> g i = Fin (f i)) -> nsum (map g (seq 0 n)) = Fin (rsum n f).
Proof. intros H. rewrite (nsum_map_fin g f) by (intros x Hx; apply H; apply in_seq in Hx; lia). rewrite lsum_map_seq. reflexivity. Qed.

(** ---- expectations under finite distributions ---- *)
Section Expect.
Context {X : Type}.
Implicit Type d : dist X.
Lemma expect_ext d f g : (forall x, f x = g x) -> expect d f = expect d g.
Proof. intros H. apply lsum_map_ext. intros p _. rewrite H. reflexivity. Qed.
Lemma expect_ext_surely d P f g : surely d P -> (forall x, P x -> f x = g x) -> expect d f = expect d g.
Proof. intros S H. apply lsum_map_ext. intros p Hp. rewrite H; [reflexivity|]. unfold surely in S. rewrite Forall_forall in S. apply S, Hp. Qed.
Lemma expect_plus d f g : expect d (fun x => f x + g x) = expect d f + expect d g.
Proof. unfold expect. rewrite <- lsum_map_plus. apply lsum_map_ext. intros; ring. Qed.
Lemma expect_scal d c f : expect d (fun x => c * f x) = c * expect d f.
Proof. unfold expect. rewrite <- lsum_map_scal. apply lsum_map_ext. intros; ring. Qed.
Lemma expect_minus d f g : expect d (fun x => f x - g x) = expect d f - expect d g.
Proof. rewrite (expect_ext d _ (fun x => f x + -1 * g x)) by (intros; ring). rewrite expect_plus, expect_scal. ring. Qed.
Lemma expect_const d c : is_dist d -> expect d (fun _ => c) = c.
Proof. intros [_ S]. unfold expect. rewrite (lsum_map_ext _ (fun p => c * fst p)) by (intros; ring). rewrite lsum_map_scal, S. ring. Qed.
Lemma expect_rsum d n f : expect d (fun x => rsum n (fun i => f i x)) = rsum n (fun i => expect d (f i)).
Proof.
  induction n as [|n IH]; cbn [rsum].
  - unfold expect. rewrite (lsum_map_ext _ (fun p => 0 * fst p)) by (intros; ring). rewrite lsum_map_scal. ring.
  - rewrite expect_plus, IH. reflexivity.
Qed.
End Expect.
Lemma expect_centered (d : dist R) c : is_dist d -> expect d (fun x => (x - c) * (x - c)) = (mean d - c) * (mean d - c) + variance d.
Proof.
  intros D. unfold variance. set (m := mean d).
  rewrite (expect_ext d (fun x => (x - c) * (x - c)) (fun x => (x - m) * (x - m) + (2 * (m - c) * x + ((m - c) * (m - c) - 2 * (m - c) * m)))) by (intros; ring).
  rewrite expect_plus, expect_plus, expect_scal, expect_const by exact D. fold (mean d). fold m. ring.
Qed.
Lemma expect_vcentered (d : dist (nat -> R)) c e i j : is_dist d ->
  expect d (fun x => (x i - c) * (x j - e)) = (vmean d i - c) * (vmean d j - e) + vcov d i j.
Proof.
  intros D. unfold vcov. set (a := vmean d i). set (b := vmean d j).
  rewrite (expect_ext d (fun x => (x i - c) * (x j - e)) (fun x => (x i - a) * (x j - b) + ((b - e) * x i + ((a - c) * x j + ((a - c) * (b - e) - (b - e) * a - (a - c) * b))))) by (intros; ring).
  rewrite !expect_plus, !expect_scal, expect_const by exact D. fold (vmean d i). fold (vmean d j). fold a. fold b. ring.
Qed.

(** ---- priors ---- *)
Lemma uvn_prior_entries s m L e v : uvn_prior (farr s m) (farr s L) (farr s e) (farr s v) =
  Ok (farr s (fun i => - / 2 * (L i * ((e i - m i) * (e i - m i) + v i)))).
Proof. unfold uvn_prior. pyfin. f_equal. Qed.
Lemma ln_normal_pdf m info x : 0 < info -> ln (normal_pdf m info x) = ln (sqrt (info / (2 * PI))) - info / 2 * ((x - m) * (x - m)).
Proof.
  intros H. unfold normal_pdf. rewrite ln_mult; [|apply sqrt_lt_R0; apply Rdiv_lt_0_compat; [exact H|pose proof PI_RGT_0; lra]|apply exp_pos].
  rewrite ln_exp. ring.
Qed.
Lemma uvn_prior_expect s m L (D : list nat -> dist R) :
  (forall i, index s i -> is_dist (D i) /\ 0 < L i) ->
  exists r, uvn_prior (farr s m) (farr s L) (farr s (fun i => mean (D i))) (farr s (fun i => variance (D i))) = Ok (farr s r) /\
    forall i, index s i -> expect (D i) (fun x => ln (normal_pdf (m i) (L i) x)) = r i + ln (sqrt (L i / (2 * PI))).
Proof.
  intros H. eexists. split; [apply uvn_prior_entries|]. intros i Hi. destruct (H i Hi) as [Di Li]. cbn beta.
  rewrite (expect_ext _ _ (fun x => (- (L i) / 2) * ((x - m i) * (x - m i)) + ln (sqrt (L i / (2 * PI))))) by (intros x; rewrite ln_normal_pdf by exact Li; field).
  rewrite expect_plus, expect_scal, expect_const, expect_centered by exact Di. field.
Qed.
Lemma gamma_prior_entries s a b e l : gamma_prior (farr s a) (farr s b) (farr s e) (farr s l) =
  Ok (farr s (fun i => (a i - 1) * l i - b i * e i)).
Proof. unfold gamma_prior. pyfin. f_equal; ring. Qed.
Lemma ln_gamma_kernel a b x : ln (gamma_kernel a b x) = (a - 1) * ln x - b * x.
Proof. unfold gamma_kernel, Rpower. rewrite ln_mult by apply exp_pos. rewrite !ln_exp. ring. Qed.
Lemma gamma_prior_expect s a b (D : list nat -> dist R) :
  (forall i, index s i -> is_dist (D i) /\ surely (D i) (fun x => 0 < x)) ->
  exists r, gamma_prior (farr s a) (farr s b) (farr s (fun i => mean (D i))) (farr s (fun i => expect (D i) ln)) = Ok (farr s r) /\
    forall i, index s i -> expect (D i) (fun x => ln (gamma_kernel (a i) (b i) x)) = r i.
Proof.
  intros H. eexists. split; [apply gamma_prior_entries|]. intros i Hi. cbn beta.
  rewrite (expect_ext _ _ (fun x => (a i - 1) * ln x - b i * x)) by (intros; apply ln_gamma_kernel).
  rewrite expect_minus, !expect_scal. reflexivity.
Qed.
Lemma exponential_prior_entries s l e : exponential_prior (farr s l) (farr s e) = Ok (farr s (fun i => - l i * e i)).
Proof. unfold exponential_prior. pyfin. f_equal; ring. Qed.
Lemma exponential_prior_expect s l (D : list nat -> dist R) :
  (forall i, index s i -> is_dist (D i) /\ 0 < l i) ->
  exists r, exponential_prior (farr s l) (farr s (fun i => mean (D i))) = Ok (farr s r) /\
    forall i, index s i -> expect (D i) (fun x => ln (exponential_pdf (l i) x)) = r i + ln (l i).
Proof.
  intros H. eexists. split; [apply exponential_prior_entries|]. intros i Hi. destruct (H i Hi) as [Di Li]. cbn beta.
  rewrite (expect_ext _ _ (fun x => - l i * x + ln (l i))) by (intros x; unfold exponential_pdf; rewrite ln_mult by (exact Li || apply exp_pos); rewrite ln_exp; ring).
  rewrite expect_plus, expect_scal, expect_const by exact Di. reflexivity.
Qed.
Lemma map2_map_seq {A B C D} (f : A -> B -> C) (g : D -> A) (h : D -> B) l : map2 f (map g l) (map h l) = map (fun x => f (g x) (h x)) l.
Proof. induction l as [|x l IH]; cbn [map map2]; [reflexivity|]. rewrite IH. reflexivity. Qed.
Lemma np_dot_vec n x y : np_dot (fvec_of n x) (fvec_of n y) = Ok (fnum (rsum n (fun k => x k * y k))).
Proof.
  unfold fvec_of, farr, np_dot. cbn [shape mk_nd]. rewrite Nat.eqb_refl. apply Ok_eq. unfold fnum, mk_nd. f_equal. cbn [data].
  rewrite product_1, map2_map_seq, map_map. cbn [nth nmul]. apply nsum_seq.
Qed.
Lemma dirichlet_prior_entries n a l : dirichlet_prior (fvec_of n a) (fvec_of n l) = Ok (fnum (rsum n (fun k => (a k - 1) * l k))).
Proof.
  unfold dirichlet_prior. replace (shape_eqb (shape (fvec_of n a)) (shape (fvec_of n l))) with true by (symmetry; apply shape_eqb_refl).
  unfold rassert. replace (nbin nsub (Ok (fvec_of n a)) (lit 1)) with (Ok (fvec_of n (fun k => a k - 1)) : res arr).
  - cbn [rbind]. apply np_dot_vec.
  - symmetry. unfold fvec_of. pyfin. reflexivity.
Qed.
Lemma rprod_pos n f : (forall k, (k < n)%nat -> 0 < f k) -> 0 < rprod n f.
Proof. induction n as [|n IH]; intros H; cbn [rprod]; [lra|]. apply Rmult_lt_0_compat; [apply IH; intros; apply H; lia|apply H; lia]. Qed.
Lemma ln_rprod n f : (forall k, (k < n)%nat -> 0 < f k) -> ln (rprod n f) = rsum n (fun k => ln (f k)).
Proof.
  induction n as [|n IH]; intros H; cbn [rprod rsum]; [apply ln_1|].
  rewrite ln_mult; [rewrite IH; [reflexivity|]|apply rprod_pos|apply H; lia]; intros; apply H; lia.
Qed.
Lemma ln_dirichlet_kernel n a x : ln (dirichlet_kernel n a x) = rsum n (fun k => (a k - 1) * ln (x k)).
Proof. unfold dirichlet_kernel. rewrite ln_rprod by (intros; apply exp_pos). apply rsum_ext. intros. apply ln_exp. Qed.
Lemma dirichlet_prior_expect n a (d : dist (nat -> R)) :
  is_dist d -> surely d (fun x => forall k, (k < n)%nat -> 0 < x k) ->
  dirichlet_prior (fvec_of n a) (fvec_of n (fun k => expect d (fun x => ln (x k)))) =
  Ok (fnum (expect d (fun x => ln (dirichlet_kernel n a x)))).
Proof.
  intros D P. rewrite dirichlet_prior_entries. do 2 f_equal. rewrite (expect_ext d _ (fun x => rsum n (fun k => (a k - 1) * ln (x k)))) by (intros; apply ln_dirichlet_kernel).
  rewrite expect_rsum. apply rsum_ext. intros. rewrite expect_scal. reflexivity.
Qed.
Lemma dirichlet_prior_mismatch a l : shape a <> shape l -> dirichlet_prior a l = Raise AssertionError.
Proof. intros H. unfold dirichlet_prior, rassert. destruct (shape_eqb (shape a) (shape l)) eqn:E; [|reflexivity]. apply shape_eqb_true in E. contradiction. Qed.
Lemma product_2 n m : product [n; m] = flat_map (fun i => map (fun j => [i; j]) (seq 0 m)) (seq 0 n).
Proof.
  cbn [product]. change (flat_map (fun i => map (cons i) [[]]) (seq 0 m)) with (product [m]). rewrite product_1.
  induction (seq 0 n) as [|k ks IH]; [reflexivity|]. cbn [flat_map]. rewrite IH, map_map. reflexivity.
Qed.
Lemma mk_mat_mk {A} n m (f : nat -> nat -> A) : mk_mat n m f = mk_nd [n; m] (fun idx => f (nth 0 idx 0%nat) (nth 1 idx 0%nat)).
Proof.
  unfold mk_mat, mk_nd. f_equal. rewrite product_2. induction (seq 0 n) as [|k ks IH]; [reflexivity|]. cbn [flat_map].
  rewrite map_app, IH, map_map. reflexivity.
Qed.
Lemma fmat_fmat_of n A : fmat n A = fmat_of n n A.
Proof. unfold fmat, fmat_of, farr. apply mk_mat_mk. Qed.
Lemma in_product_2 n m i j : In [i; j] (product [n; m]) <-> (i < n)%nat /\ (j < m)%nat.
Proof. rewrite in_product_cons, in_product_1. split; [intros [H [k [E H']]]; injection E as ->; auto|intros [H1 H2]; split; [exact H1|exists j; auto]]. Qed.
Lemma in_product_2_inv n m idx : In idx (product [n; m]) -> exists i j, idx = [i; j] /\ (i < n)%nat /\ (j < m)%nat.
Proof. intros H. apply in_product_cons_inv in H as [i [r [-> [Hi Hr]]]]. apply in_product_1 in Hr as [j [-> Hj]]. exists i, j. auto. Qed.
Lemma np_dot_matvec n m A x : np_dot (fmat_of n m A) (fvec_of m x) = Ok (fvec_of n (fun i => rsum m (fun j => A i j * x j))).
Proof.
  unfold np_dot. unfold fmat_of, fvec_of, farr. rewrite !mk_nd_shape, Nat.eqb_refl. apply Ok_eq. apply mk_nd_ext. intros idx H.
  apply in_product_1 in H as [i [-> Hi]]. cbn [nth]. apply nsum_seq_fin. intros j Hj.
  rewrite (nd_at_mk _ [n; m]) by (apply in_product_2; auto). rewrite (nd_at_mk _ [m]) by (apply in_product_1; exists j; auto). reflexivity.
Qed.
Lemma np_dot_matmat n m p A B : np_dot (fmat_of n m A) (fmat_of m p B) = Ok (fmat_of n p (fun i j => rsum m (fun k => A i k * B k j))).
Proof.
  unfold np_dot. unfold fmat_of, farr. rewrite !mk_nd_shape, Nat.eqb_refl. apply Ok_eq. apply mk_nd_ext. intros idx H.
  apply in_product_2_inv in H as [i [j [-> [Hi Hj]]]]. cbn [nth]. apply nsum_seq_fin. intros k Hk.
  rewrite (nd_at_mk _ [n; m]) by (apply in_product_2; auto). rewrite (nd_at_mk _ [m; p]) by (apply in_product_2; auto). reflexivity.
Qed.
Lemma np_matmul_matvec n m A x : np_matmul (fmat_of n m A) (fvec_of m x) = Ok (fvec_of n (fun i => rsum m (fun j => A i j * x j))).
Proof. unfold np_matmul. rewrite <- np_dot_matvec. reflexivity. Qed.
Lemma np_matmul_matmat n m p A B : np_matmul (fmat_of n m A) (fmat_of m p B) = Ok (fmat_of n p (fun i j => rsum m (fun k => A i k * B k j))).
Proof. unfold np_matmul. rewrite <- np_dot_matmat. reflexivity. Qed.
Lemma np_trace_fmat n A : np_trace (fmat_of n n A) = Ok (fnum (rsum n (fun i => A i i))).
Proof.
  unfold np_trace, fmat_of, farr. rewrite mk_nd_shape, Nat.min_id. apply Ok_eq. unfold fnum. f_equal. apply nsum_seq_fin. intros i Hi.
  rewrite nd_at_mk by (apply in_product_2; auto). reflexivity.
Qed.
Lemma fnum_mk r : fnum r = mk_nd [] (fun _ => Fin r).
Proof. reflexivity. Qed.
Lemma mvn_prior_entries n m L e C :
  mvn_prior (fvec_of n m) (fmat n L) (fvec_of n e) (fmat n C) =
  Ok (fnum (- / 2 * (rsum n (fun i => (e i - m i) * rsum n (fun j => L i j * (e j - m j))) + rsum n (fun i => rsum n (fun k => L i k * C k i))))).
Proof.
  unfold mvn_prior. rewrite !fmat_fmat_of.
  replace (nbin nsub (Ok (fvec_of n e)) (Ok (fvec_of n m))) with (Ok (fvec_of n (fun i => e i - m i)) : res arr).
  - cbn [rbind]. rewrite np_matmul_matvec. cbn [rbind]. rewrite np_dot_vec, np_matmul_matmat. cbn [rbind]. rewrite np_trace_fmat.
    rewrite !fnum_mk. py. reflexivity.
  - symmetry. unfold fvec_of. pyfin. reflexivity.
Qed.
Lemma quad_prod n L x : quad n L x = rsum n (fun i => x i * rsum n (fun j => L i j * x j)).
Proof. unfold quad. apply rsum_ext. intros i _. rewrite <- rsum_scal_l. apply rsum_ext. intros; ring. Qed.
Lemma vcov_sym d i j : vcov d i j = vcov d j i.
Proof. unfold vcov. apply expect_ext. intros; ring. Qed.
Lemma mvn_prior_expect n m L (d : dist (nat -> R)) : is_dist d ->
  mvn_prior (fvec_of n m) (fmat n L) (fvec_of n (vmean d)) (fmat n (vcov d)) = Ok (fnum (expect d (fun x => ln (mvn_kernel n m L x)))).
Proof.
  intros D. rewrite mvn_prior_entries. do 2 f_equal.
  rewrite (expect_ext d _ (fun x => - / 2 * rsum n (fun i => rsum n (fun j => L i j * ((x i - m i) * (x j - m j)))))).
  2:{ intros x. unfold mvn_kernel. rewrite ln_exp. f_equal. unfold quad. apply rsum_ext; intros i _; apply rsum_ext; intros j _. ring. }
  rewrite expect_scal, expect_rsum. f_equal. rewrite <- rsum_plus. apply rsum_ext. intros i Hi. rewrite expect_rsum, <- rsum_scal_l, <- rsum_plus. apply rsum_ext.
  intros j Hj. rewrite expect_scal, expect_vcentered by exact D. rewrite (vcov_sym d j i). ring.
Qed.

(** ---- natural parameters ---- *)
Lemma natural_entries s e e2 : (forall i, index s i -> e2 i <> 0) ->
  get_uvn_from_natural_parameters (farr s e) (farr s e2) = Ok (farr s (fun i => e i / (-2 * e2 i)), farr s (fun i => -2 * e2 i)).
Proof.
  intros H. unfold get_uvn_from_natural_parameters. unfold farr. py. cbn [rbind]. py. cbn [rbind]. apply Ok_eq. f_equal.
  apply mk_nd_ext. intros i Hi. cbn [nmul]. apply ndiv_fin. specialize (H i Hi). lra.
Qed.
Lemma natural_square s e e2 : (forall i, index s i -> e2 i <> 0) ->
  exists m L, get_uvn_from_natural_parameters (farr s e) (farr s e2) = Ok (farr s m, farr s L) /\
    forall i, index s i -> exists c, forall x, e i * x + e2 i * (x * x) = - (L i / 2) * ((x - m i) * (x - m i)) + c.
Proof.
  intros H. eexists _, _. split; [apply natural_entries; exact H|]. intros i Hi. specialize (H i Hi). cbn beta.
  exists (- (e i * e i) / (4 * e2 i)). intros x. field. exact H.
Qed.
Lemma natural_inverse s m L : (forall i, index s i -> L i <> 0) ->
  get_uvn_from_natural_parameters (farr s (fun i => L i * m i)) (farr s (fun i => - (L i / 2))) = Ok (farr s m, farr s L).
Proof.
  intros H. rewrite natural_entries by (intros i Hi; specialize (H i Hi); lra). apply Ok_eq. f_equal; apply farr_ext; intros i Hi; specialize (H i Hi); field; exact H.
Qed.

(** ---- lognormal ---- *)
Lemma lognormal_mean_entries s mu v : get_e_lognormal (farr s mu) (farr s v) = Ok (farr s (fun i => exp (mu i + v i / 2))).
Proof. unfold get_e_lognormal. pyfin. f_equal. f_equal. field. Qed.
Lemma lognormal_var_entries s mu v : get_var_lognormal (farr s mu) (farr s v) =
  Ok (farr s (fun i => (exp (v i) - 1) * (exp (mu i + v i / 2) * exp (mu i + v i / 2)))).
Proof. unfold get_var_lognormal. rewrite lognormal_mean_entries. cbn [rbind]. pyfin. f_equal. Qed.
Lemma lognormal_moments s mu v :
  exists e w e2, get_e_lognormal (farr s mu) (farr s v) = Ok (farr s e) /\ get_var_lognormal (farr s mu) (farr s v) = Ok (farr s w) /\
    get_e_lognormal (farr s (fun i => 2 * mu i)) (farr s (fun i => 4 * v i)) = Ok (farr s e2) /\
    forall i, index s i -> 0 < e i /\ e2 i = e i * e i + w i /\ (0 <= v i -> 0 <= w i) /\ (0 < v i -> 0 < w i) /\ (v i = 0 -> w i = 0 /\ e i = exp (mu i)).
Proof.
  eexists _, _, _. split; [apply lognormal_mean_entries|]. split; [apply lognormal_var_entries|]. split; [apply lognormal_mean_entries|].
  intros i Hi. cbn beta. set (z := exp (mu i + v i / 2)). assert (Z : 0 < z) by apply exp_pos. split; [exact Z|]. split.
  - unfold z. rewrite <- exp_plus. replace (2 * mu i + 4 * v i / 2) with (v i + (mu i + v i / 2 + (mu i + v i / 2))) by field. rewrite exp_plus. ring.
  - split; [|split].
    + intros H. assert (1 <= exp (v i)) by (rewrite <- exp_0; destruct H as [H| <-]; [left; apply exp_increasing; exact H|right; reflexivity]). apply Rmult_le_pos; [lra|nra].
    + intros H. assert (1 < exp (v i)) by (rewrite <- exp_0; apply exp_increasing; exact H). apply Rmult_lt_0_compat; [lra|nra].
    + intros H. rewrite H, exp_0. split; [ring|]. unfold z. f_equal. rewrite H. field.
Qed.

(** ---- Dirichlet means ---- *)
Lemma column_sum_pos n s alpha idx : (0 < n)%nat -> (forall i, index (n :: s) i -> 0 < alpha i) -> index s idx -> 0 < rsum n (fun k => alpha (k :: idx)).
Proof. intros N P Hi. apply rsum_pos; [exact N|]. intros k Hk. apply P. apply in_product_cons. auto. Qed.
Lemma dirichlet_mean_entries n s alpha : (forall i, index (n :: s) i -> 0 < alpha i) ->
  get_e_dirichlet (farr (n :: s) alpha) = Ok (farr (n :: s) (fun i => alpha i / rsum n (fun k => alpha (k :: tl i)))).
Proof.
  intros P. unfold get_e_dirichlet, farr. py. cbn [rbind]. py. apply Ok_eq. apply mk_nd_ext. intros idx Hi. rewrite nsum_seq. cbn [tl].
  apply ndiv_fin. apply in_product_cons_inv in Hi as [k [r [-> [Hk Hr]]]]. cbn [tl].
  apply Rgt_not_eq. apply (column_sum_pos n s); [lia|exact P|exact Hr].
Qed.
Lemma dirichlet_mean_simplex n s alpha : (forall i, index (n :: s) i -> 0 < alpha i) ->
  exists p, get_e_dirichlet (farr (n :: s) alpha) = Ok (farr (n :: s) p) /\
    (forall i, index (n :: s) i -> 0 < p i <= 1) /\
    (forall j, index s j -> (0 < n)%nat -> rsum n (fun k => p (k :: j)) = 1) /\
    (forall k l j, index s j -> (k < n)%nat -> (l < n)%nat -> p (k :: j) * alpha (l :: j) = p (l :: j) * alpha (k :: j)).
Proof.
  intros P. eexists. split; [apply dirichlet_mean_entries; exact P|]. cbn beta. split; [|split].
  - intros i Hi. pose proof (P i Hi) as Pi. apply in_product_cons_inv in Hi as [k [r [-> [Hk Hr]]]]. cbn [tl].
    assert (0 < rsum n (fun k => alpha (k :: r))) by (apply (column_sum_pos n s); [lia|exact P|exact Hr]).
    split; [apply Rdiv_lt_0_compat; assumption|]. apply (Rmult_le_reg_r (rsum n (fun k => alpha (k :: r)))); [assumption|].
    unfold Rdiv. rewrite Rmult_assoc, Rinv_l, Rmult_1_r, Rmult_1_l by lra. apply (rsum_term_le n (fun k => alpha (k :: r))); [exact Hk|].
    intros j Hj. left. apply P. apply in_product_cons. auto.
  - intros j Hj N. cbn [tl]. assert (0 < rsum n (fun k => alpha (k :: j))) by (apply (column_sum_pos n s); [lia|exact P|exact Hj]).
    unfold Rdiv. rewrite rsum_scal_r. apply Rinv_r. lra.
  - intros k l j Hj Hk Hl. cbn [tl]. field. apply Rgt_not_eq. apply (column_sum_pos n s); [lia|exact P|exact Hj].
Qed.
Lemma dirichlet_mean_rescale n s alpha (c : list nat -> R) : (forall i, index (n :: s) i -> 0 < alpha i) -> (forall j, index s j -> 0 < c j) ->
  get_e_dirichlet (farr (n :: s) (fun i => c (tl i) * alpha i)) = get_e_dirichlet (farr (n :: s) alpha).
Proof.
  intros P C. rewrite !dirichlet_mean_entries; [|exact P|].
  - apply Ok_eq. apply farr_ext. intros i Hi. apply in_product_cons_inv in Hi as [k [r [-> [Hk Hr]]]]. cbn [tl].
    assert (0 < rsum n (fun k => alpha (k :: r))) by (apply (column_sum_pos n s); [lia|exact P|exact Hr]). specialize (C r Hr).
    rewrite rsum_scal_l. field. lra.
  - intros i Hi. pose proof (P i Hi). apply in_product_cons_inv in Hi as [k [r [-> [Hk Hr]]]]. cbn [tl]. apply Rmult_lt_0_compat; [apply C, Hr|assumption].
Qed.
