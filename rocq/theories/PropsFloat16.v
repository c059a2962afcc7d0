(** Property C144: the entropies of univariate normal variables in double precision. *)
From Coq Require Import String Reals ZArith List Lra Lia Bool.
From Flocq Require Import Core BinarySingleNaN.
From Verif Require Import Res Nd RSum ModelNumpy ModelFloat ModelFloatDict ModelFloatFamilies ModelFloatLogit ModelFloatEntropy2 SpecFloat SpecFloatSimplex SpecFloatAcc SpecFloatMatrix SpecFloatEntropy2
  LemmasFloat LemmasFloat3 LemmasFloat4 LemmasFloatSimplex2 LemmasFloatSimplex4 LemmasFloatFam LemmasFloatFam4 LemmasFloatEntropy2.
From Verif Require Import SpecFloatFam.
Import List ListNotations.
Set Bullet Behavior "Strict Subproofs".
Open Scope R_scope.

(** univariate_normal_entropy of positive finite informations, the smallest and the largest doubles included: one finite number, close to the entropy of the independent variables *)
Theorem C144_entropy : forall flog fsum, log_good flog -> sums fsum -> forall s info, proper s info -> INR (nprod s) <= bpow radix2 20 -> (forall k, (k < nprod s)%nat -> is_finite (entry info k) = true /\ 0 < B2R (entry info k)) ->
  exists h, f_univariate_normal_entropy flog fsum info = Ok h /\ proper [] h /\ is_finite (entry h 0) = true /\ let L k := B2R (entry info k) in
    Rabs (B2R (entry h 0) - normal_entropy (nprod s) L) <= units (40 + 6 * INR (nprod s)) * log_sizes (nprod s) L.
Proof.
  intros flog fsum Hl Hs s i Pi Hn HL. destruct (entropy_array flog fsum s i Pi) as (h & E & Ph & K). exists h. split; [exact E|]. split; [exact Ph|].
  destruct (entropy_sum flog Hl fsum Hs (nprod s) (entry i) Hn HL) as (F & _ & A). rewrite K. split; [exact F|exact A].
Qed.
Print Assumptions C144_entropy.
(** without variables the entropy is 0 exactly *)
Theorem C144_empty : forall flog fsum, log_good flog -> sums fsum -> forall s info, proper s info -> nprod s = 0%nat -> exists h, f_univariate_normal_entropy flog fsum info = Ok h /\ B2R (entry h 0) = 0.
Proof.
  intros flog fsum Hl Hs s i Pi Z. destruct (C144_entropy flog fsum Hl Hs s i Pi) as (h & E & _ & _ & A); rewrite Z in *; [cbn; lra|intros k Hk; lia|]. exists h. split; [exact E|].
  unfold normal_entropy, log_sizes in A. cbn [rsum] in A. rewrite Rmult_0_r, Rminus_0_r in A. apply Rabs_le_inv in A. lra.
Qed.
Print Assumptions C144_empty.
(** a variable without information has infinite entropy, and so has every array that contains one *)
Theorem C144_no_information : forall flog fsum, log_good flog -> sums fsum -> forall s info, proper s info -> INR (nprod s) <= bpow radix2 20 -> (forall k, (k < nprod s)%nat -> is_finite (entry info k) = true /\ 0 <= B2R (entry info k)) ->
  (exists k, (k < nprod s)%nat /\ B2R (entry info k) = 0) -> exists h, f_univariate_normal_entropy flog fsum info = Ok h /\ entry h 0 = B754_infinity false.
Proof.
  intros flog fsum Hl Hs s i Pi Hn HL Z. destruct (entropy_array flog fsum s i Pi) as (h & E & Ph & K). exists h. split; [exact E|]. etransitivity; [exact K|]. exact (entropy_zero flog Hl fsum Hs (nprod s) (entry i) Hn HL Z).
Qed.
Print Assumptions C144_no_information.
(** entropy() of UVNParam, UVNParamVector and UVNParamArray is that of the informations, whatever the means *)
Theorem C144_entropy_of : forall flog fsum, log_good flog -> sums fsum -> forall s d info, f_member d "info" = Ok info -> proper s info -> INR (nprod s) <= bpow radix2 20 -> (forall k, (k < nprod s)%nat -> is_finite (entry info k) = true /\ 0 < B2R (entry info k)) ->
  exists h h', fuvn_entropy flog fsum d = Ok h /\ fuvn_array_entropy flog fsum d = Ok h' /\ proper [] h /\ proper [] h' /\ is_finite (entry h 0) = true /\ is_finite (entry h' 0) = true /\ B2R (entry h' 0) = B2R (entry h 0) /\ let L k := B2R (entry info k) in
    Rabs (B2R (entry h 0) - normal_entropy (nprod s) L) <= units (40 + 6 * INR (nprod s)) * log_sizes (nprod s) L.
Proof.
  intros flog fsum Hl Hs s d i M Pi Hn HL. destruct (entropy_array flog fsum s i Pi) as (h & E & Ph & K). destruct (entropy_sum flog Hl fsum Hs (nprod s) (entry i) Hn HL) as (F & B & A). rewrite <- K in F, B, A.
  exists h, (nd_scalar (fsum (data h))). split; [unfold fuvn_entropy; rewrite M; exact E|]. split; [unfold fuvn_array_entropy; rewrite M; cbn [rbind]; rewrite E; reflexivity|]. split; [exact Ph|]. split; [split; reflexivity|]. split; [exact F|].
  assert (D : data h = [entry h 0]). { destruct h as [sh dh]. destruct Ph as [_ Lh]. cbn in Lh. destruct dh as [|y [|z dh]]; try discriminate. reflexivity. }
  destruct (sum_one_value fsum Hs (entry h 0) F) as [F1 E1]; [apply Rle_trans with (1 := B); apply bpow_le; lia|]. unfold entry at 2 3. cbn [nd_scalar data nth]. rewrite D. split; [exact F1|]. split; [exact E1|exact A].
Qed.
Print Assumptions C144_entropy_of.
(** set_free() with calm free values leaves positive informations, so the entropy is that of the informations *)
Lemma free_entropy fexp flog fsum : exp_good fexp -> log_good flog -> sums fsum -> forall s lb x d, bounded500 lb -> 0 <= B2R lb -> length x = (2 * nprod s)%nat -> Forall calm x -> INR (nprod s) <= bpow radix2 20 -> holds_free fexp s lb x d ->
  exists i h h', f_member d "info" = Ok i /\ fuvn_entropy flog fsum d = Ok h /\ fuvn_array_entropy flog fsum d = Ok h' /\ is_finite (entry h 0) = true /\ is_finite (entry h' 0) = true /\ B2R (entry h' 0) = B2R (entry h 0) /\ let L k := B2R (entry i k) in
    (forall k, (k < nprod s)%nat -> value_close lb f_inf (nth (nprod s + k) x dzero) (entry i k) /\ 0 < L k) /\ Rabs (B2R (entry h 0) - normal_entropy (nprod s) L) <= units (40 + 6 * INR (nprod s)) * log_sizes (nprod s) L.
Proof.
  intros He Hl Hs s lb x d B P L C Hn (m & i & Em & Ei & Pm & Pi & K).
  assert (Cx : forall k, (k < 2 * nprod s)%nat -> calm (nth k x dzero)) by (intros k Hk; exact (proj1 (Forall_nth calm x) C k dzero ltac:(lia))).
  assert (Q : forall k, (k < nprod s)%nat -> value_close lb f_inf (nth (nprod s + k) x dzero) (entry i k) /\ is_finite (entry i k) = true /\ 0 < B2R (entry i k)).
  { intros k Hk. destruct (K k Hk) as [_ K2]. destruct (calm_info fexp He lb _ B P (Cx (nprod s + k)%nat ltac:(lia))) as ((F & V1 & _) & _ & V). pose proof (bpow_gt_0 radix2 (-490)) as Z. rewrite K2. split; [exact V|]. split; [exact F|exact (Rlt_le_trans _ _ _ Z V1)]. }
  destruct (C144_entropy_of flog fsum Hl Hs s d i Ei Pi Hn (fun k Hk => proj2 (Q k Hk))) as (h & h' & E & E' & _ & _ & F & F' & EE & A).
  exists i, h, h'. split; [exact Ei|]. split; [exact E|]. split; [exact E'|]. split; [exact F|]. split; [exact F'|]. split; [exact EE|]. split; [|exact A]. intros k Hk. destruct (Q k Hk) as (V & _ & W). split; assumption.
Qed.
Theorem C144_normal_vector : forall fexp flog fsum fdot, exp_good fexp -> log_good flog -> sums fsum -> forall nm n lb d x, bounded500 lb -> 0 <= B2R lb -> fuvn_vector_init nm n lb = Ok d -> length x = (2 * n)%nat -> Forall calm x -> INR n <= bpow radix2 20 ->
  exists d' i h, fd_set_free fexp flog fsum fdot d x = (d', Ok tt) /\ f_member d' "info" = Ok i /\ fuvn_array_entropy flog fsum d' = Ok h /\ is_finite (entry h 0) = true /\ let L k := B2R (entry i k) in
    (forall k, (k < n)%nat -> value_close lb f_inf (nth (n + k) x dzero) (entry i k) /\ 0 < L k) /\ Rabs (B2R (entry h 0) - normal_entropy n L) <= units (40 + 6 * INR n) * log_sizes n L.
Proof.
  intros fexp flog fsum fdot He Hl Hs nm n lb d x B P I L C Hn. destruct (uvn_vector_free fexp flog fsum fdot nm n lb d x (or_introl (proj1 B)) I L) as (d' & S & H). rewrite <- (nprod_1 n) in L, Hn.
  destruct (free_entropy fexp flog fsum He Hl Hs [n] lb x d' B P L C Hn H) as (i & h & h' & Ei & _ & E & _ & F & EE & Q & A). rewrite <- EE in A. rewrite nprod_1 in Q, A. exists d', i, h'. split; [exact S|]. split; [exact Ei|]. split; [exact E|]. split; [exact F|]. split; [exact Q|exact A].
Qed.
Print Assumptions C144_normal_vector.
Theorem C144_normal_array : forall fexp flog fsum fdot, exp_good fexp -> log_good flog -> sums fsum -> forall nm s lb d x, bounded500 lb -> 0 <= B2R lb -> fuvn_array_init nm s lb = Ok d -> length x = (2 * nprod s)%nat -> Forall calm x -> INR (nprod s) <= bpow radix2 20 ->
  exists d' i h, fd_set_free fexp flog fsum fdot (fua_dict d) x = (d', Ok tt) /\ f_member d' "info" = Ok i /\ fuvn_array_entropy flog fsum d' = Ok h /\ is_finite (entry h 0) = true /\ let L k := B2R (entry i k) in
    (forall k, (k < nprod s)%nat -> value_close lb f_inf (nth (nprod s + k) x dzero) (entry i k) /\ 0 < L k) /\ Rabs (B2R (entry h 0) - normal_entropy (nprod s) L) <= units (40 + 6 * INR (nprod s)) * log_sizes (nprod s) L.
Proof.
  intros fexp flog fsum fdot He Hl Hs nm s lb d x B P I L C Hn. destruct (uvn_array_free fexp flog fsum fdot nm s lb d x (or_introl (proj1 B)) I L) as (d' & S & H).
  destruct (free_entropy fexp flog fsum He Hl Hs s lb x d' B P L C Hn H) as (i & h & h' & Ei & _ & E & _ & F & EE & Q & A). rewrite <- EE in A. exists d', i, h'. split; [exact S|]. split; [exact Ei|]. split; [exact E|]. split; [exact F|]. split; [exact Q|exact A].
Qed.
Print Assumptions C144_normal_array.
Theorem C144_normal : forall fexp flog fsum fdot, exp_good fexp -> log_good flog -> sums fsum -> forall nm lb d x, bounded500 lb -> 0 <= B2R lb -> fuvn_init nm lb = Ok d -> length x = 2%nat -> Forall calm x ->
  exists d' i h, fd_set_free fexp flog fsum fdot d x = (d', Ok tt) /\ f_member d' "info" = Ok i /\ fuvn_entropy flog fsum d' = Ok h /\ is_finite (entry h 0) = true /\ let L := B2R (entry i 0) in
    value_close lb f_inf (nth 1 x dzero) (entry i 0) /\ 0 < L /\ Rabs (B2R (entry h 0) - (1 + ln (2 * PI / L)) / 2) <= units 46 * (1 + Rabs (ln L)).
Proof.
  intros fexp flog fsum fdot He Hl Hs nm lb d x B P I L C. destruct (uvn_free fexp flog fsum fdot nm lb d x (or_introl (proj1 B)) I L) as (d' & S & H).
  destruct (free_entropy fexp flog fsum He Hl Hs [1%nat] lb x d' B P) as (i & h & h' & Ei & E & _ & F & _ & EE & Q & A); [exact L|exact C|rewrite nprod_1; cbn; lra|exact H|]. rewrite nprod_1 in Q, A. destruct (Q 0%nat ltac:(lia)) as [Q1 Q2].
  exists d', i, h. split; [exact S|]. split; [exact Ei|]. split; [exact E|]. split; [exact F|]. split; [exact Q1|]. split; [exact Q2|]. unfold normal_entropy, log_sizes in A. cbn [rsum INR] in A. rewrite !Rplus_0_l in A. replace (40 + 6 * 1) with 46 in A by ring. exact A.
Qed.
Print Assumptions C144_normal.

(** ** the hypotheses are met: the smallest double, 1 and a large number *)
Definition ex_infos3 : nd dbl := Nd [3%nat] [@B754_finite 53 1024 false 1 (-1074) eq_refl; f_one; dint 1000000].
Lemma ex_infos3_positive k : (k < nprod [3%nat])%nat -> is_finite (entry ex_infos3 k) = true /\ 0 < B2R (entry ex_infos3 k).
Proof.
  intros Hk. rewrite nprod_1 in Hk. destruct k as [|[|[|k]]]; [| | |lia]; unfold entry; cbn [nth data ex_infos3]; (split; [reflexivity|]).
  - cbn [B2R cond_Zopp]. apply F2R_gt_0. cbn. lia.
  - rewrite one_B2R. lra.
  - rewrite dint_B2R by reflexivity. lra.
Qed.
Example C144_example : exists h, f_univariate_normal_entropy ideal_log add_in_order ex_infos3 = Ok h /\ is_finite (entry h 0) = true /\ Rabs (B2R (entry h 0) - normal_entropy 3 (fun k => B2R (entry ex_infos3 k))) <= units 58 * log_sizes 3 (fun k => B2R (entry ex_infos3 k)).
Proof.
  destruct (C144_entropy _ _ ideal_log_good add_in_order_sums [3%nat] ex_infos3 ltac:(split; reflexivity) ltac:(rewrite nprod_1; cbn; lra) ex_infos3_positive) as (h & E & _ & F & A). exists h. split; [exact E|]. split; [exact F|]. cbv zeta in A. rewrite nprod_1 in A. replace (40 + 6 * INR 3) with 58 in A by (cbn; ring). exact A.
Qed.
(** a standard normal variable *)
Example C144_standard_example : exists h, f_univariate_normal_entropy ideal_log add_in_order (nd_scalar f_one) = Ok h /\ Rabs (B2R (entry h 0) - (1 + ln (2 * PI)) / 2) <= units 46.
Proof.
  destruct (C144_entropy _ _ ideal_log_good add_in_order_sums [] (nd_scalar f_one) ltac:(split; reflexivity) ltac:(change (nprod []) with 1%nat; cbn; lra)) as (h & E & _ & F & A).
  - intros k Hk. destruct k as [|k]; [|change (nprod []) with 1%nat in Hk; lia]. unfold entry. cbn [nd_scalar data nth]. split; [reflexivity|]. rewrite one_B2R. lra.
  - exists h. split; [exact E|]. change (nprod []) with 1%nat in A. unfold normal_entropy, log_sizes in A. cbn [rsum INR] in A. unfold entry at 2 3 in A. cbn [nd_scalar data nth] in A. rewrite one_B2R, ln_1, Rabs_R0 in A. rewrite !Rplus_0_l, Rplus_0_r, Rmult_1_r in A. replace (2 * PI / 1) with (2 * PI) in A by field. replace (40 + 6 * 1) with 46 in A by ring. exact A.
Qed.
Example C144_no_information_example : exists h, f_univariate_normal_entropy ideal_log add_in_order (Nd [2%nat] [f_one; B754_zero true]) = Ok h /\ entry h 0 = B754_infinity false.
Proof.
  apply (C144_no_information _ _ ideal_log_good add_in_order_sums [2%nat]); [split; reflexivity|rewrite nprod_1; cbn; lra| |].
  - intros k Hk. rewrite nprod_1 in Hk. destruct k as [|[|k]]; [| |lia]; unfold entry; cbn [nth data]; (split; [reflexivity|]); [rewrite one_B2R; lra|cbn; lra].
  - exists 1%nat. split; [rewrite nprod_1; lia|reflexivity].
Qed.
