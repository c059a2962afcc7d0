(** Property C142: the entropy of a multinoulli distribution in double precision. *)
From Coq Require Import String Reals ZArith List Lra Lia Bool.
From Flocq Require Import Core BinarySingleNaN.
From Verif Require Import Res Nd RSum ModelNumpy ModelFloat ModelFloatSimplex ModelFloatFamilies ModelFloatEntropy SpecFloat SpecFloatSimplex SpecFloatAcc SpecFloatMatrix SpecFloatEntropy
  LemmasFloat LemmasFloat3 LemmasFloat4 LemmasFloatSimplex LemmasFloatSimplex2 LemmasFloatSimplex4 LemmasFloatDefault LemmasFloatFam LemmasFloatFam7 LemmasFloatEntropy PropsFloat3.
From Verif Require Import SpecFloatFam.
Import List ListNotations.
Set Bullet Behavior "Strict Subproofs".
Open Scope R_scope.

(** every entropy is finite, not negative, and close to the entropy of the row *)
Theorem C142_entropy : forall flog fsum, log_good flog -> log_below flog -> sums fsum -> forall min_prob p N n, negligible min_prob -> proper [N; n] p -> INR n <= bpow radix2 20 -> (forall k, (k < N * n)%nat -> probability (entry p k)) ->
  exists h, f_multinoulli_entropy flog fsum p min_prob = Ok h /\ proper [N] h /\ forall r, (r < N)%nat -> let q j := B2R (entry p (r * n + j)) in
    is_finite (entry h r) = true /\ 0 <= B2R (entry h r) /\ Rabs (B2R (entry h r) - shannon n q) <= units (600 + 128 * INR n) * rsum n q + units (2 * INR n).
Proof.
  intros flog fsum Hl Hb Hs mp p N n M P B Q. destruct (entropy_rows flog fsum Hl Hb Hs mp p N n M P B Q) as (h & E & Ph & K). exists h. split; [exact E|]. split; [exact Ph|]. intros r Hr. destruct (K r Hr) as (A1 & A2 & A3 & _). split; [exact A1|]. split; [exact A2|exact A3].
Qed.
Print Assumptions C142_entropy.
(** a row of zeros and ones has entropy 0 exactly *)
Theorem C142_certain : forall flog fsum, log_good flog -> log_below flog -> sums fsum -> forall min_prob p N n, negligible min_prob -> proper [N; n] p -> INR n <= bpow radix2 20 -> (forall k, (k < N * n)%nat -> probability (entry p k)) ->
  exists h, f_multinoulli_entropy flog fsum p min_prob = Ok h /\ forall r, (r < N)%nat -> (forall j, (j < n)%nat -> B2R (entry p (r * n + j)) = 0 \/ B2R (entry p (r * n + j)) = 1) -> B2R (entry h r) = 0.
Proof.
  intros flog fsum Hl Hb Hs mp p N n M P B Q. destruct (entropy_rows flog fsum Hl Hb Hs mp p N n M P B Q) as (h & E & Ph & K). exists h. split; [exact E|]. intros r Hr C. destruct (K r Hr) as (_ & _ & _ & A). exact (A C).
Qed.
Print Assumptions C142_certain.
(** the entropy of a SimplexParam after set_free(), whatever the free values (finite or -inf) *)
Theorem C142_simplex : forall fexp flog fsum, exp_good fexp -> log_good flog -> log_below flog -> sums fsum ->
  forall min_prob rows cols v0 p (free : list (list dbl)), negligible min_prob -> fsimplex_init rows cols v0 = Ok p -> (1 <= cols)%nat -> INR cols <= bpow radix2 20 -> length free = rows ->
  List.Forall (fun row => length row = (cols - 1)%nat) free -> List.Forall (List.Forall not_up) free ->
  exists p' h, fsimplex_set_free fexp flog fsum p (concat free) = Ok p' /\ f_multinoulli_entropy flog fsum (Nd [rows; cols] (concat (fsimplex_get p'))) min_prob = Ok h /\ proper [rows] h /\
    forall r, (r < rows)%nat -> is_finite (entry h r) = true /\ 0 <= B2R (entry h r).
Proof.
  intros fexp flog fsum He Hl Hb Hs mp rows cols v0 p free M I C1 C2 L F1 F2.
  destruct (C112_range fexp flog fsum He Hl Hs rows cols v0 p free I C1 L F1 F2) as (p' & E & L' & F').
  assert (LC : length (concat (fsimplex_get p')) = (rows * cols)%nat).
  { rewrite <- L'. clear - F'. induction F' as [|row l (H & _) F IH]; [reflexivity|]. cbn [concat length]. etransitivity; [apply app_length|]. etransitivity; [exact (f_equal2 Nat.add H IH)|]. lia. }
  destruct (C142_entropy flog fsum Hl Hb Hs mp (Nd [rows; cols] (concat (fsimplex_get p'))) rows cols M) as (h & Eh & Ph & K); [| exact C2 | |].
  - split; [reflexivity|]. cbn [data]. etransitivity; [exact LC|]. rewrite nprod_cons, nprod_1. reflexivity.
  - intros k Hk. unfold entry. cbn [data]. assert (Hi : In (nth k (concat (fsimplex_get p')) dzero) (concat (fsimplex_get p'))) by (apply nth_In; apply (Nat.lt_le_trans _ _ _ Hk); apply Nat.eq_le_incl; symmetry; exact LC).
    apply in_concat in Hi. destruct Hi as (row & R1 & R2). rewrite List.Forall_forall in F'. destruct (F' row R1) as (_ & U). rewrite List.Forall_forall in U. exact (U _ R2).
  - exists p', h. split; [exact E|]. split; [exact Eh|]. split; [exact Ph|]. intros r Hr. destruct (K r Hr) as (A & B & _). split; assumption.
Qed.
Print Assumptions C142_simplex.

(** ** the hypotheses are met *)
Lemma ideal_log_below : log_below ideal_log.
Proof.
  intros x F (P & Q). destruct x as [sx|sx| |sx mx ex bx]; cbn [B2R] in P; try lra. destruct sx; [cbn; lra|]. cbn [ideal_log].
  assert (Z : ln (B2R (B754_finite false mx ex bx : double)) <= 0) by (rewrite <- ln_1; destruct Q as [Q|Q]; [left; apply ln_increasing; assumption|right; f_equal; exact Q]).
  destruct (nearest_cases (ln (B2R (B754_finite false mx ex bx : double)))) as [(_ & -> & _)|(_ & ->)]; [|cbn; lra].
  rewrite <- rnd64_0. apply rnd64_le. exact Z.
Qed.
(** the default min_prob=1e-16 *)
Example default_min_prob_negligible : negligible default_min_prob.
Proof.
  assert (E : B2R default_min_prob = 8112963841460668 * bpow radix2 (-106)) by (unfold default_min_prob; cbn; unfold F2R; cbn; lra).
  split; [reflexivity|]. rewrite E. replace (bpow radix2 (-60)) with (bpow radix2 46 * bpow radix2 (-106)) by (rewrite <- bpow_plus; reflexivity). replace (bpow radix2 (-53)) with (bpow radix2 53 * bpow radix2 (-106)) by (rewrite <- bpow_plus; reflexivity).
  pose proof (bpow_gt_0 radix2 (-106)). split; [apply Rmult_le_compat_r|apply Rmult_lt_compat_r]; try assumption; cbn; lra.
Qed.
(** the default min_prob is 1e-16 up to one unit, and it is one of those that C142_entropy covers *)
Theorem C142_default : negligible default_min_prob /\ Rabs (B2R default_min_prob - 1 / 10 ^ 16) <= bpow radix2 (-53) * (1 / 10 ^ 16).
Proof.
  split; [exact default_min_prob_negligible|]. assert (E : B2R default_min_prob = 8112963841460668 * bpow radix2 (-106)) by (unfold default_min_prob; cbn; unfold F2R; cbn; lra). rewrite E.
  change (bpow radix2 (-106)) with (/ 81129638414606681695789005144064). change (bpow radix2 (-53)) with (/ 9007199254740992). apply Rabs_le. lra.
Qed.
Print Assumptions C142_default.
(** one certain and one even row: the entropies are 0 and ln 2 up to 2^-40 *)
Definition ex_p : nd dbl := Nd [2%nat; 2%nat] [dint 1; dint 0; f_half; f_half].
Lemma ex_prob : forall k, (k < 2 * 2)%nat -> probability (entry ex_p k).
Proof.
  intros k Hk. unfold entry. destruct k as [|[|[|[|k]]]]; [| | | |lia]; cbn [nth data ex_p]; (split; [reflexivity|]); rewrite ?dint_B2R by reflexivity; rewrite ?f_half_B2R; lra.
Qed.
Example C142_example : exists h, f_multinoulli_entropy ideal_log add_in_order ex_p default_min_prob = Ok h /\ B2R (entry h 0) = 0 /\ Rabs (B2R (entry h 1) - ln 2) <= bpow radix2 (-40).
Proof.
  assert (B : INR 2 <= bpow radix2 20) by (cbn; lra).
  destruct (C142_entropy _ _ ideal_log_good ideal_log_below add_in_order_sums default_min_prob ex_p 2 2 default_min_prob_negligible ltac:(split; reflexivity) B ex_prob) as (h & E & _ & K).
  destruct (C142_certain _ _ ideal_log_good ideal_log_below add_in_order_sums default_min_prob ex_p 2 2 default_min_prob_negligible ltac:(split; reflexivity) B ex_prob) as (h' & E' & Z). rewrite E in E'. injection E' as <-.
  exists h. split; [exact E|]. split.
  - apply Z; [lia|]. intros j Hj. destruct j as [|[|j]]; [| |lia]; cbn [Nat.mul Nat.add]; unfold entry; cbn [nth data ex_p]; rewrite dint_B2R by reflexivity; lra.
  - destruct (K 1%nat ltac:(lia)) as (_ & _ & A). cbv zeta in A. unfold shannon in A. cbn [rsum Nat.mul Nat.add] in A. unfold entry in A at 2 3 4 5. cbn [nth data ex_p] in A. rewrite !f_half_B2R in A.
    unfold surprise in A. destruct (Req_EM_T (/ 2) 0) as [X|X]; [lra|]. 
    rewrite !ln_Rinv in A by lra.
    cbn [INR] in A. unfold units in A. 
    match type of A with Rabs ?a <= ?b => replace a with (B2R (entry h 1) - ln 2) in A by lra; apply Rle_trans with b; [exact A|] end.
    replace (bpow radix2 (-40)) with (8192 * bpow radix2 (-53)) by (change 8192 with (bpow radix2 13); rewrite <- bpow_plus; reflexivity). pose proof (bpow_gt_0 radix2 (-53)). lra.
Qed.
Example C142_simplex_example : exists p p' h, fsimplex_init 2 3 None = Ok p /\ fsimplex_set_free ideal_exp ideal_log add_in_order p (concat [[dint 100; dint (-3)]; [dint 800; dint 0]]) = Ok p' /\
  f_multinoulli_entropy ideal_log add_in_order (Nd [2%nat; 3%nat] (concat (fsimplex_get p'))) default_min_prob = Ok h /\ 0 <= B2R (entry h 1).
Proof.
  destruct C112_C113_example as ((p & I) & L & F1 & F2 & _).
  destruct (C142_simplex _ _ _ ideal_exp_good ideal_log_good ideal_log_below add_in_order_sums default_min_prob 2 3 None p _ default_min_prob_negligible I ltac:(lia) ltac:(cbn; lra) L F1 F2) as (p' & h & E & Eh & _ & K).
  exists p, p', h. split; [exact I|]. split; [exact E|]. split; [exact Eh|]. apply K. lia.
Qed.
