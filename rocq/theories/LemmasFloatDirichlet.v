(** Proofs about the log expectation of Dirichlet variables in binary64. *)
From Coq Require Import Reals ZArith List Lra Lia Bool String.
From Flocq Require Import Core BinarySingleNaN Relative.
From Verif Require Import Res Nd RSum ModelNumpy SpecFloat SpecFloatSimplex SpecFloatAcc SpecFloatMatrix SpecFloatFam SpecFloatGamma SpecFloatDirichlet ModelFloat ModelFloatDict ModelFloatFamilies ModelFloatDirichlet
  LemmasPosDef LemmasNumpy LemmasFloat LemmasFloat2 LemmasFloat3 LemmasFloat4 LemmasFloat5 LemmasFloatDefault LemmasFloatSimplex LemmasFloatSimplex2 LemmasFloatSimplex4 LemmasFloatAcc LemmasFloatAcc2 LemmasFloatFam LemmasFloatFam6 LemmasFloatFam7 LemmasFloatLogit LemmasFloatPrior LemmasFloatPrior2.
Import List ListNotations.
Set Bullet Behavior "Strict Subproofs".
Open Scope R_scope.

Lemma nd_map_mk {A B} (f : A -> B) s g : nd_map f (mk_nd s g) = mk_nd s (fun idx => f (g idx)).
Proof. unfold nd_map, mk_nd. cbn [shape data]. rewrite map_map. reflexivity. Qed.
Section Dirichlet.
Context (fpsi : dbl -> dbl) (psi : R -> R) (Hp : computes fpsi psi) (Hc : steady psi) (fsum : list dbl -> dbl) (Hs : sums fsum).
Lemma e_log_dirichlet_array n s (a : nd dbl) : proper (n :: s) a -> exists e, f_get_e_log_dirichlet fpsi fsum a = Ok e /\ proper (n :: s) e /\
  forall i j, (i < n)%nat -> (j < nprod s)%nat -> entry e (i * nprod s + j) = fsub (fpsi (entry a (i * nprod s + j))) (fpsi (fsum (tab n (fun r => entry a (r * nprod s + j))))).
Proof using.
  destruct a as [sa da]. intros [Sa La]. cbn [shape data] in Sa, La. subst sa. unfold f_get_e_log_dirichlet. pose proof (mk_nd_eta fz (Nd (n :: s) da) La) as Ma. cbn [shape] in Ma. set (a := Nd (n :: s) da) in *.
  assert (K : np_sum_keep fz fsum 0 a = Ok (mk_nd (1%nat :: s) (fun idx => fsum (map (fun i => nd_at fz a (i :: tl idx)) (seq 0 n))))) by (etransitivity; [exact (f_equal (np_sum_keep fz fsum 0) Ma)|apply np_sum_keep0]).
  rewrite K. cbn [rbind]. set (g := fun idx : list nat => fsum (map (fun i => nd_at fz a (i :: tl idx)) (seq 0 n))). rewrite (nd_map_mk fpsi (1%nat :: s) g). assert (Mp : nd_map fpsi a = mk_nd (n :: s) (fun idx => fpsi (nd_at fz a idx))) by (etransitivity; [exact (f_equal (nd_map fpsi) Ma)|apply nd_map_mk]).
  eexists. split; [unfold f_bin; etransitivity; [exact (f_equal (fun t => np_bin fz fz fsub t (mk_nd (1%nat :: s) (fun idx => fpsi (g idx)))) Mp)|apply np_bin_lead]|]. unfold g. clear g. split.
  - split; [reflexivity|]. unfold mk_nd. cbn [data]. rewrite map_length. apply LemmasPosDef.product_length.
  - intros i j Hi Hj. rewrite entry_mk by (rewrite nprod_cons; apply block_lt; assumption). rewrite product_nth_cons by assumption. cbn [tl]. assert (AE : forall r, nd_at fz a (r :: nth j (product s) []) = entry a (r * nprod s + j)).
    { intros r. unfold nd_at, entry, a. cbn [ravel shape data]. rewrite (ravel_nth s j Hj). reflexivity. }
    rewrite AE. f_equal. f_equal. f_equal. apply map_ext. exact AE.
Qed.
Lemma e_log_dirichlet_entry n (a : nat -> dbl) i : INR n <= bpow radix2 20 -> (i < n)%nat -> (forall k, (k < n)%nat -> fair_alpha (a k)) -> let T := rsum n (fun k => B2R (a k)) in let e := fsub (fpsi (a i)) (fpsi (fsum (tab n a))) in
  is_finite e = true /\ Rabs (B2R e - (psi (B2R (a i)) - psi T)) <= (131 + 8 * INR n) * u * (1 + Rabs (psi (B2R (a i))) + Rabs (psi T) + / T).
Proof using Hp Hc Hs.
  intros Hn Hi Ha T e. small_u. pose proof (n_u n Hn) as [N0 N1]. pose proof (bpow_gt_0 radix2 (-99)) as p99. pose proof (bpow_gt_0 radix2 79) as p79.
  assert (Pos : forall k, (k < n)%nat -> Rabs (B2R (a k)) = B2R (a k)) by (intros k Hk; destruct (Ha k Hk) as [_ [L _]]; apply Rabs_pos_eq; lra). assert (EA : rsum n (fun k => Rabs (B2R (a k))) = T) by (apply rsum_ext; exact Pos). assert (E0 : rsum n (fun _ => 0) = 0) by (rewrite rsum_const; ring).
  assert (TL : bpow radix2 (-99) <= T) by (apply Rle_trans with (B2R (a i)); [apply (Ha i Hi)|]; apply (rsum_term_le n (fun k => B2R (a k)) i Hi); intros k Hk; destruct (Ha k Hk) as [_ [L _]]; lra).
  assert (TU : T <= bpow radix2 99). { apply Rle_trans with (INR n * bpow radix2 79); [unfold T; rewrite <- rsum_const; apply rsum_le; intros k Hk; apply (Ha k Hk)|]. change (bpow radix2 99) with (bpow radix2 (20 + 79)). rewrite bpow_plus. apply Rmult_le_compat_r; [lra|exact Hn]. }
  assert (T0 : 0 < T) by lra. assert (iT : 0 < / T) by (apply Rinv_0_lt_compat; exact T0).
  destruct (sum_about n Hn fsum Hs a (fun k => B2R (a k)) (fun _ => 0)) as [FS ES].
  { intros k Hk. split; [apply (Ha k Hk)|]. replace (B2R (a k) - B2R (a k)) with 0 by ring. rewrite Rabs_R0. apply Rle_refl. }
  { rewrite EA, E0, Rplus_0_r. apply Rle_trans with (1 := TU). apply bpow_le. lia. }
  rewrite EA, E0, !Rplus_0_r in ES. fold T in ES. set (S := fsum (tab n a)) in *. set (g := 2 * INR n * u) in *. assert (g0 : 0 <= g <= / 100000000) by (unfold g; lra). assert (gT : g * T <= / 100000000 * T) by (apply Rmult_le_compat_r; lra).
  assert (SB : bpow radix2 (-100) <= B2R S <= bpow radix2 100). { apply Rabs_le_inv in ES. replace (bpow radix2 100) with (2 * bpow radix2 99) by (change 2 with (bpow radix2 1); rewrite <- bpow_plus; reflexivity). assert (2 * bpow radix2 (-100) = bpow radix2 (-99)) by (change 2 with (bpow radix2 1); rewrite <- bpow_plus; reflexivity). lra. }
  pose proof (Hc T (B2R S) g T0 ltac:(lra) ES) as EC. destruct (Hp S (conj FS SB)) as (Bs & Fs & Ep). destruct (Ha i Hi) as [Fa [La Ua]].
  assert (fa : fair_arg (a i)) by (split; [exact Fa|split; [apply Rle_trans with (2 := La); apply bpow_le; lia|apply Rle_trans with (1 := Ua); apply bpow_le; lia]]). destruct (Hp (a i) fa) as (Ba & Fa' & Ea). rewrite units_u in Ep, Ea.
  set (p := psi (B2R (a i))) in *. set (q := psi T) in *. set (q' := psi (B2R S)) in *. set (P := B2R (fpsi (a i))) in *. set (Q := B2R (fpsi S)) in *. pose proof (Rabs_pos p) as p0. pose proof (Rabs_pos q) as q0.
  set (M := 1 + Rabs p + Rabs q + / T). set (W := 1 + / T). assert (gW : 0 <= g * W <= / 100000000 * W) by (split; [apply Rmult_le_pos; unfold W; lra|apply Rmult_le_compat_r; unfold W; lra]). replace (4 * g * (1 + / T)) with (4 * (g * W)) in EC by (unfold W; ring).
  assert (q'B : Rabs q' <= Rabs q + 4 * (g * W)) by (replace q' with ((q' - q) + q) by ring; eapply Rle_trans; [apply Rabs_triang|]; lra).
  assert (up : 0 <= u * Rabs p <= / 100000000 * Rabs p) by (split; [apply Rmult_le_pos; lra|apply Rmult_le_compat_r; lra]). assert (uq : 0 <= u * Rabs q <= / 100000000 * Rabs q) by (split; [apply Rmult_le_pos; lra|apply Rmult_le_compat_r; lra]). assert (uW : 0 <= u * W <= / 100000000 * W) by (split; [apply Rmult_le_pos; unfold W; lra|apply Rmult_le_compat_r; unfold W; lra]).
  assert (uq' : u * Rabs q' <= u * (Rabs q + 4 * (g * W))) by (apply Rmult_le_compat_l; lra). assert (ugW : g * (u * W) <= / 100000000 * (u * W)) by (apply Rmult_le_compat_r; lra). replace (u * (Rabs q + 4 * (g * W))) with (u * Rabs q + 4 * (g * (u * W))) in uq' by ring.
  replace (64 * u * (1 + Rabs p)) with (64 * u + 64 * (u * Rabs p)) in Ea by ring. replace (64 * u * (1 + Rabs q')) with (64 * u + 64 * (u * Rabs q')) in Ep by ring.
  assert (DQ : Rabs (Q - q) <= 64 * u + 64 * (u * Rabs q) + / 1000 * (u * W) + 4 * (g * W)) by (replace (Q - q) with ((Q - q') + (q' - q)) by ring; eapply Rle_trans; [apply Rabs_triang|]; lra).
  assert (BG : Rabs (P - Q) <= 1001 / 1000 * M). { replace (P - Q) with ((P - p) + (- (Q - q) + (p + - q))) by ring. eapply Rle_trans; [apply Rabs_triang|]. pose proof (Rabs_triang (- (Q - q)) (p + - q)) as T1. pose proof (Rabs_triang p (- q)) as T2. rewrite Rabs_Ropp in T1, T2. unfold M, W in *. lra. }
  assert (iTb : / T <= bpow radix2 99). { replace (bpow radix2 99) with (/ bpow radix2 (-99)) by (rewrite <- bpow_opp; reflexivity). apply Rinv_le; [exact p99|exact TL]. }
  assert (qB : Rabs q <= bpow radix2 200 + 4 * (g * W)) by (replace q with (- (q' - q) + q') by ring; eapply Rle_trans; [apply Rabs_triang|]; rewrite Rabs_Ropp; lra). assert (c1 : bpow radix2 99 <= bpow radix2 200) by (apply bpow_le; lia). assert (c2 : 1 <= bpow radix2 200) by (change 1 with (bpow radix2 0); apply bpow_le; lia). assert (c3 : 16 * bpow radix2 200 <= bpow radix2 1000) by (change 16 with (bpow radix2 4); rewrite <- bpow_plus; apply bpow_le; lia).
  destruct (fsub_rel (fpsi (a i)) (fpsi S) Fa' Fs) as [F E]; [fold P Q; apply Rle_trans with (1 := BG); unfold M, W in *; lra|]. fold P Q e in F, E. split; [exact F|]. assert (uG : u * Rabs (P - Q) <= u * (1001 / 1000 * M)) by (apply Rmult_le_compat_l; lra).
  assert (EM : u * (1001 / 1000 * M) = 1001 / 1000 * (u * Rabs p + u * Rabs q + u * W)) by (unfold M, W; field; lra). rewrite EM in uG. assert (uW1 : u <= u * W) by (rewrite <- (Rmult_1_r u) at 1; apply Rmult_le_compat_l; unfold W; lra).
  assert (nup : 0 <= INR n * (u * Rabs p)) by (apply Rmult_le_pos; [apply pos_INR|lra]). assert (nuq : 0 <= INR n * (u * Rabs q)) by (apply Rmult_le_pos; [apply pos_INR|lra]).
  assert (ER : (131 + 8 * INR n) * u * M = 131 * (u * Rabs p) + 131 * (u * Rabs q) + 131 * (u * W) + 8 * (INR n * (u * Rabs p)) + 8 * (INR n * (u * Rabs q)) + 4 * (g * W)) by (unfold M, W, g; field; lra). fold M. rewrite ER.
  replace (B2R e - (p - q)) with ((B2R e - (P - Q)) + ((P - p) + - (Q - q))) by ring. eapply Rle_trans; [apply Rabs_triang|]. pose proof (Rabs_triang (P - p) (- (Q - q))) as Tr. rewrite Rabs_Ropp in Tr. lra.
Qed.
End Dirichlet.
