(** Property C139: the means of Gamma, Dirichlet and Wishart parameters and the second moments of MVNArray in double precision. *)
From Coq Require Import String Reals ZArith List Lra Lia Bool.
From Flocq Require Import Core BinarySingleNaN.
From Verif Require Import Res Nd RSum ModelFloat ModelFloatDict ModelFloatFamilies SpecFloat SpecFloatSimplex SpecFloatAcc SpecFloatMatrix SpecFloatFam SpecFloatFam2
  LemmasFloat LemmasFloat3 LemmasFloat4 LemmasFloatSimplex4 LemmasFloatAcc LemmasFloatFam LemmasFloatFam6 LemmasFloatMatrix6 PropsFloat9 PropsFloat11.
From Verif Require Import SpecFloatFam.
From Verif Require ModelFloatParams ModelFloatMatrix.
Import List ListNotations.
Set Bullet Behavior "Strict Subproofs".
Open Scope R_scope.

(** GammaParam.e(): the correctly rounded quotient of the two parameters, never 0 *)
Theorem C139_gamma : forall d s a b, f_member d "shape" = Ok a -> f_member d "rate" = Ok b -> proper s a -> proper s b -> (forall k, (k < nprod s)%nat -> fair_info (entry a k) /\ fair_info (entry b k)) ->
  exists e, fgp_e d = Ok e /\ proper s e /\ forall k, (k < nprod s)%nat -> let A := B2R (entry a k) in let B := B2R (entry b k) in
    is_finite (entry e k) = true /\ B2R (entry e k) = rnd64 (A / B) /\ 0 < B2R (entry e k) /\ within 1 (entry e k) (A / B).
Proof. exact gamma_mean. Qed.
Print Assumptions C139_gamma.
(** the same for a GammaParam that was just set from two calm free values *)
Theorem C139_gamma_free : forall fexp flog fsum fdot, exp_good fexp -> forall nm la lb d x, bounded500 la -> 0 <= B2R la -> bounded500 lb -> 0 <= B2R lb -> fgamma_init nm la lb = Ok d -> length x = 2%nat -> Forall calm x ->
  exists d' a b e, fd_set_free fexp flog fsum fdot d x = (d', Ok tt) /\ f_member d' "shape" = Ok a /\ f_member d' "rate" = Ok b /\ fgp_e d' = Ok e /\ proper [1%nat] a /\ proper [1%nat] b /\ proper [1%nat] e /\
    dle la (entry a 0) /\ value_close la f_inf (nth 0 x dzero) (entry a 0) /\ dle lb (entry b 0) /\ value_close lb f_inf (nth 1 x dzero) (entry b 0) /\
    0 < B2R (entry e 0) /\ within 1 (entry e 0) (B2R (entry a 0) / B2R (entry b 0)).
Proof.
  intros fexp flog fsum fdot He nm la lb d x Ba Pa Bb Pb E L C. destruct (gamma_free fexp flog fsum fdot He nm la lb d x Ba Pa Bb Pb E L C) as (d' & a & b & S & Ea & Eb & Qa & Qb & Fa & La & Va & Fb & Lb & Vb).
  destruct (gamma_mean d' [1%nat] a b Ea Eb Qa Qb) as (e & Ee & Qe & K); [intros k Hk; rewrite nprod_1 in Hk; replace k with 0%nat by lia; split; assumption|]. destruct (K 0%nat ltac:(rewrite nprod_1; lia)) as (_ & _ & K1 & K2).
  exists d', a, b, e. split; [exact S|]. split; [exact Ea|]. split; [exact Eb|]. split; [exact Ee|]. split; [exact Qa|]. split; [exact Qb|]. split; [exact Qe|]. split; [exact La|]. split; [exact Va|]. split; [exact Lb|]. split; [exact Vb|]. split; [exact K1|exact K2].
Qed.
Print Assumptions C139_gamma_free.

(** DirichletParamArray.e() for n categories along the first axis, in whatever order the sum is taken: every entry is positive, at most 1 and
    close to its share; the entries of one distribution add up to 1 up to 3 n + 1 units *)
Theorem C139_dirichlet : forall fsum, sums fsum -> forall d n s a, f_member d "alpha" = Ok a -> proper (n :: s) a -> INR n <= bpow radix2 20 -> (forall k, (k < nprod (n :: s))%nat -> fair_info (entry a k)) ->
  exists e, fdp_e fsum d = Ok e /\ proper (n :: s) e /\
    (forall i j, (i < n)%nat -> (j < nprod s)%nat -> let T := rsum n (fun r => B2R (entry a (r * nprod s + j))) in
       within (3 * INR n + 1) (entry e (i * nprod s + j)) (B2R (entry a (i * nprod s + j)) / T) /\ 0 < B2R (entry e (i * nprod s + j)) <= 1) /\
    (forall j, (0 < n)%nat -> (j < nprod s)%nat -> Rabs (rsum n (fun i => B2R (entry e (i * nprod s + j))) - 1) <= units (3 * INR n + 1)).
Proof. exact dirichlet_mean. Qed.
Print Assumptions C139_dirichlet.
Theorem C139_dirichlet_free : forall fexp flog fsum fdot, exp_good fexp -> sums fsum -> forall nm n s lb val d x, bounded500 lb -> 0 <= B2R lb -> INR n <= bpow radix2 20 -> fdirichlet_init nm (n :: s) lb val = Ok d -> length x = nprod (n :: s) -> Forall calm x ->
  exists d' a e, fd_set_free fexp flog fsum fdot d x = (d', Ok tt) /\ f_member d' "alpha" = Ok a /\ fdp_e fsum d' = Ok e /\ proper (n :: s) a /\ proper (n :: s) e /\
    (forall k, (k < nprod (n :: s))%nat -> dle lb (entry a k) /\ value_close lb f_inf (nth k x dzero) (entry a k)) /\
    (forall i j, (i < n)%nat -> (j < nprod s)%nat -> let T := rsum n (fun r => B2R (entry a (r * nprod s + j))) in
       within (3 * INR n + 1) (entry e (i * nprod s + j)) (B2R (entry a (i * nprod s + j)) / T) /\ 0 < B2R (entry e (i * nprod s + j)) <= 1).
Proof.
  intros fexp flog fsum fdot He Hs nm n s lb val d x B P Hn E L C. destruct (dirichlet_free fexp flog fsum fdot He nm (n :: s) lb val d x B P E L C) as (d' & a & S & Ea & Pa & K).
  destruct (dirichlet_mean fsum Hs d' n s a Ea Pa Hn (fun k Hk => proj1 (K k Hk))) as (e & Ee & Pe & Q & _). exists d', a, e. split; [exact S|]. split; [exact Ea|]. split; [exact Ee|]. split; [exact Pa|]. split; [exact Pe|]. split; [intros k Hk; exact (proj2 (K k Hk))|exact Q].
Qed.
Print Assumptions C139_dirichlet_free.

(** MVNArray.e2(): n vectors of length m, the information of vector r being number r *)
Theorem C139_multivariate_array : forall fsq, squares fsq -> forall d n m a i, f_member d "mean" = Ok a -> f_member d "info" = Ok i -> proper [n; m] a -> proper [n] i ->
  (forall k, (k < n * m)%nat -> fair_mean (entry a k)) -> (forall k, (k < n)%nat -> fair_info (entry i k)) ->
  exists o, fmvn_array_e2 fsq d = Ok o /\ proper [n; m] o /\ forall r c, (r < n)%nat -> (c < m)%nat -> within 4 (entry o (r * m + c)) (B2R (entry a (r * m + c)) ^ 2 + 1 / B2R (entry i r)).
Proof. exact mvn_array_moments. Qed.
Print Assumptions C139_multivariate_array.

(** WishartParam.e(): df (a number, or an array of shape (1,) after set_free) times v, each entry rounded once; symmetric exactly if v is *)
Theorem C139_wishart : forall d n f v, f_member d "df" = Ok f -> f_member d "v" = Ok v -> proper [] f \/ proper [1%nat] f -> proper [n; n] v -> is_finite (entry f 0) = true ->
  (forall i j, (i < n)%nat -> (j < n)%nat -> is_finite (mget dzero v i j) = true /\ Rabs (B2R (entry f 0) * B2R (mget dzero v i j)) <= bpow radix2 1000) ->
  exists e, fwp_e d = Ok e /\ proper [n; n] e /\
    (forall i j, (i < n)%nat -> (j < n)%nat -> is_finite (mget dzero e i j) = true /\ B2R (mget dzero e i j) = rnd64 (B2R (entry f 0) * B2R (mget dzero v i j))) /\
    ((forall i j, (i < n)%nat -> (j < n)%nat -> B2R (mget dzero v i j) = B2R (mget dzero v j i)) -> forall i j, (i < n)%nat -> (j < n)%nat -> B2R (mget dzero e i j) = B2R (mget dzero e j i)).
Proof. exact wishart_mean. Qed.
Print Assumptions C139_wishart.

(** ** the hypotheses are met *)
Lemma fair_dint z : (1 <= z <= 100)%Z -> is_finite (dint z) = true -> fair_info (dint z) /\ fair_mean (dint z).
Proof.
  intros H F. assert (E : B2R (dint z) = IZR z) by (apply dint_B2R; lia). assert (Z : 1 <= IZR z <= 100) by (split; apply IZR_le; lia). assert (B : 100 <= bpow radix2 7) by (change (bpow radix2 7) with 128; lra).
  split; split; try exact F; rewrite E; [split|rewrite Rabs_pos_eq by lra].
  - apply Rle_trans with (bpow radix2 0); [apply bpow_le; lia|change (bpow radix2 0) with 1; lra].
  - apply Rle_trans with (bpow radix2 7); [lra|apply bpow_le; lia].
  - apply Rle_trans with (bpow radix2 7); [lra|apply bpow_le; lia].
Qed.
(** two Dirichlet distributions with three categories *)
Definition ex_alpha : fparam := FDict "d" [("alpha"%string, FLeaf "alpha" (FArray (ModelFloatParams.mkFA [3%nat; 2%nat] (dint 0) f_inf (Nd [3%nat; 2%nat] [dint 1; dint 2; dint 3; dint 4; dint 5; dint 6]))))] 6 6.
Example C139_dirichlet_example : exists e, fdp_e add_in_order ex_alpha = Ok e /\ within 10 (entry e 2) (3 / 9).
Proof.
  assert (E : forall z, (Z.abs z <= 8)%Z -> B2R (dint z) = IZR z) by (intros z Hz; apply dint_B2R; lia).
  destruct (C139_dirichlet add_in_order add_in_order_sums ex_alpha 3 [2%nat] (Nd [3%nat; 2%nat] [dint 1; dint 2; dint 3; dint 4; dint 5; dint 6]) eq_refl) as (e & Ee & _ & K & _).
  - split; reflexivity.
  - change (INR 3) with (1 + 1 + 1). change (bpow radix2 20) with 1048576. lra.
  - intros k Hk. change (nprod [3%nat; 2%nat]) with 6%nat in Hk. do 6 (destruct k as [|k]; [apply fair_dint; [lia|reflexivity]|]). lia.
  - exists e. split; [exact Ee|]. destruct (K 1%nat 0%nat ltac:(lia) ltac:(rewrite nprod_1; lia)) as [W _]. rewrite !nprod_1 in W. cbn [rsum Nat.mul Nat.add] in W. unfold entry in W at 2 3 4 5. cbn [nth data] in W. rewrite !E in W by (cbn; lia).
    replace 10 with (3 * INR 3 + 1) by (change (INR 3) with (1 + 1 + 1); ring). replace (3 / 9) with (3 / (0 + 1 + 3 + 5)) by field. exact W.
Qed.
(** shape 3 and rate 2 *)
Definition ex_gamma : fparam := FDict "g" [("shape"%string, FLeaf "shape" (FScalar (ModelFloatParams.mkFS (dint 0) f_inf (nd_scalar (dint 3))))); ("rate"%string, FLeaf "rate" (FScalar (ModelFloatParams.mkFS (dint 0) f_inf (nd_scalar (dint 2)))))] 2 2.
Example C139_gamma_example : exists e, fgp_e ex_gamma = Ok e /\ within 1 (entry e 0) (3 / 2).
Proof.
  destruct (C139_gamma ex_gamma [] (nd_scalar (dint 3)) (nd_scalar (dint 2)) eq_refl eq_refl) as (e & Ee & _ & K); [split; reflexivity|split; reflexivity| |].
  - intros k Hk. change (nprod []) with 1%nat in Hk. destruct k; [|lia]. split; apply fair_dint; try lia; reflexivity.
  - exists e. split; [exact Ee|]. destruct (K 0%nat (le_n 1)) as (_ & _ & _ & W). unfold entry in W at 2 3. cbn [nth data nd_scalar] in W. rewrite !dint_B2R in W by reflexivity. exact W.
Qed.
(** two vectors of length 2 *)
Definition ex_rows : fparam := FDict "m" [("mean"%string, FLeaf "mean" (FArray (ModelFloatParams.mkFA [2%nat; 2%nat] f_ninf f_inf (Nd [2%nat; 2%nat] [dint 1; dint 2; dint 3; dint 4])))); ("info"%string, FLeaf "info" (FVector (mkFV 2 (dint 0) f_inf [dint 1; dint 5])))] 6 6.
Example C139_multivariate_example : exists o, fmvn_array_e2 (fun x => fmul x x) ex_rows = Ok o /\ within 4 (entry o 3) (4 ^ 2 + 1 / 5).
Proof.
  destruct (C139_multivariate_array _ fmul_squares ex_rows 2 2 (Nd [2%nat; 2%nat] [dint 1; dint 2; dint 3; dint 4]) (Nd [2%nat] [dint 1; dint 5]) eq_refl eq_refl) as (o & Eo & _ & K); [split; reflexivity|split; reflexivity| | |].
  - intros k Hk. change (2 * 2)%nat with 4%nat in Hk. do 4 (destruct k as [|k]; [apply fair_dint; [lia|reflexivity]|]). lia.
  - intros k Hk. do 2 (destruct k as [|k]; [apply fair_dint; [lia|reflexivity]|]). lia.
  - exists o. split; [exact Eo|]. pose proof (K 1%nat 1%nat ltac:(lia) ltac:(lia)) as W. unfold entry in W at 2 3. cbn [nth data Nat.mul Nat.add] in W. rewrite !dint_B2R in W by reflexivity. exact W.
Qed.
(** three degrees of freedom *)
Definition ex_wishart : fparam := FDict "w" [("df"%string, FLeaf "df" (FScalar (ModelFloatParams.mkFS (dint 1) f_inf (nd_scalar (dint 3))))); ("v"%string, FLeaf "v" (FPosDef (ModelFloatMatrix.mkFP 2 (dint 0) (Nd [2%nat; 2%nat] [dint 2; dint 1; dint 1; dint 2]))))] 4 4.
Example C139_wishart_example : exists e, fwp_e ex_wishart = Ok e /\ B2R (mget dzero e 0 1) = B2R (mget dzero e 1 0).
Proof.
  destruct (C139_wishart ex_wishart 2 (nd_scalar (dint 3)) (Nd [2%nat; 2%nat] [dint 2; dint 1; dint 1; dint 2]) eq_refl eq_refl) as (e & Ee & _ & _ & K); [left; split; reflexivity|split; reflexivity|reflexivity| |].
  - intros i j Hi Hj. assert (B : forall z, (0 <= z <= 2)%Z -> Rabs (B2R (entry (nd_scalar (dint 3)) 0) * B2R (dint z)) <= bpow radix2 1000).
    { intros z Hz. change (entry (nd_scalar (dint 3)) 0) with (dint 3). rewrite !dint_B2R by lia. assert (0 <= IZR z <= 2) by (split; apply IZR_le; lia). rewrite Rabs_pos_eq by lra. apply Rle_trans with (bpow radix2 3); [change (bpow radix2 3) with 8; lra|apply bpow_le; lia]. }
    destruct i as [|[|i]]; [| |lia]; (destruct j as [|[|j]]; [| |lia]); (split; [reflexivity|]); [exact (B 2%Z ltac:(lia))|exact (B 1%Z ltac:(lia))|exact (B 1%Z ltac:(lia))|exact (B 2%Z ltac:(lia))].
  - exists e. split; [exact Ee|]. apply K; [|lia|lia]. intros i j Hi Hj. destruct i as [|[|i]]; [| |lia]; (destruct j as [|[|j]]; [| |lia]); reflexivity.
Qed.
(** after set_free *)
Lemma calm_of_dint z : (Z.abs z <= 8)%Z -> is_finite (dint z) = true -> calm (dint z).
Proof. intros H F. split; [exact F|]. rewrite dint_B2R by lia. rewrite <- abs_IZR. apply IZR_le in H. lra. Qed.
Example C139_gamma_free_example : exists d d' e, fgamma_init "g" (dint 0) (dint 0) = Ok d /\ fd_set_free ideal_exp ideal_log add_in_order (fun _ _ => seq_dot) d [dint 1; dint 2] = (d', Ok tt) /\ fgp_e d' = Ok e /\ 0 < B2R (entry e 0).
Proof.
  destruct base2 as (_ & H2 & H3). destruct (proj1 (C136_gamma "g" (dint 0) (dint 0)) (or_introl eq_refl) (or_introl eq_refl)) as (d & E & _).
  destruct (C139_gamma_free ideal_exp ideal_log add_in_order (fun _ _ => seq_dot) ideal_exp_good "g" (dint 0) (dint 0) d [dint 1; dint 2] H2 H3 H2 H3 E eq_refl) as (d' & a & b & e & S & _ & _ & Ee & _ & _ & _ & _ & _ & _ & _ & P & _).
  { apply Forall_cons; [apply calm_of_dint; [lia|reflexivity]|]. apply Forall_cons; [apply calm_of_dint; [lia|reflexivity]|apply Forall_nil]. }
  exists d, d', e. split; [exact E|]. split; [exact S|]. split; [exact Ee|exact P].
Qed.
Example C139_dirichlet_free_example : exists d d' e, fdirichlet_init "d" [2%nat; 1%nat] (dint 0) None = Ok d /\ fd_set_free ideal_exp ideal_log add_in_order (fun _ _ => seq_dot) d [dint 1; dint 2] = (d', Ok tt) /\ fdp_e add_in_order d' = Ok e /\ 0 < B2R (entry e 1) <= 1.
Proof.
  destruct base2 as (H1 & H2 & H3). destruct (proj2 (proj2 (C136_dirichlet "d" [2%nat; 1%nat] (dint 0) None))) as [E0 _]; [vm_compute; intuition congruence|discriminate|]. destruct (E0 eq_refl) as (d & E & _).
  destruct (C139_dirichlet_free ideal_exp ideal_log add_in_order (fun _ _ => seq_dot) ideal_exp_good add_in_order_sums "d" 2 [1%nat] (dint 0) None d [dint 1; dint 2] H2 H3 H1 E eq_refl) as (d' & a & e & S & _ & Ee & _ & _ & _ & P).
  { apply Forall_cons; [apply calm_of_dint; [lia|reflexivity]|]. apply Forall_cons; [apply calm_of_dint; [lia|reflexivity]|apply Forall_nil]. }
  exists d, d', e. split; [exact E|]. split; [exact S|]. split; [exact Ee|]. pose proof (proj2 (P 1%nat 0%nat ltac:(lia) ltac:(rewrite nprod_1; lia))) as Q. rewrite nprod_1 in Q. exact Q.
Qed.
