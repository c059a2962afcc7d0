(** Property C143: the logit-normal expectations in double precision. *)
From Coq Require Import String Reals ZArith List Lra Lia Bool.
From Flocq Require Import Core BinarySingleNaN.
From Verif Require Import Res Nd RSum ModelNumpy ModelFloat ModelFloatFamilies ModelFloatLogit SpecFloat SpecFloatSimplex SpecFloatAcc SpecFloatMatrix SpecFloatLogit
  LemmasFloat LemmasFloat3 LemmasFloat4 LemmasFloatSimplex2 LemmasFloatSimplex4 LemmasFloatFam LemmasFloatLogit LemmasFloatQuad.
From Verif Require Import SpecFloatFam.
Import List ListNotations.
Set Bullet Behavior "Strict Subproofs".
Open Scope R_scope.

(** the integrand: for every finite double x a finite number that is not positive and close to log(expit(x)), and x itself up to -100 *)
Theorem C143_log_expit : forall fexp flog, exp_good fexp -> log_good flog -> forall x, is_finite x = true ->
  let v := f_log_v fexp flog x in is_finite v = true /\ B2R v <= 0 /\ Rabs (B2R v - log_expit (B2R x)) <= units 64 * (1 + Rabs (log_expit (B2R x))) /\ (B2R x <= -100 -> B2R v = B2R x).
Proof. exact log_v_finite. Qed.
Print Assumptions C143_log_expit.
(** at the ends: -inf at -inf, but NaN (not 0) at +inf *)
Theorem C143_ends : forall fexp flog, exp_good fexp -> log_good flog ->
  f_log_v fexp flog (B754_infinity true) = B754_infinity true /\ f_log_v fexp flog (B754_infinity false) = B754_nan /\ f_log_v fexp flog B754_nan = B754_nan.
Proof. intros fexp flog He Hl. split; [exact (log_v_minf fexp flog He Hl)|]. split; [exact (log_v_pinf fexp flog)|exact (log_v_nan fexp flog)]. Qed.
Print Assumptions C143_ends.
(** get_e_log_logitnormal(): E log(X) is finite, not positive and close to the exact value of the quadrature; E log(1 - X) is its rounded difference with the mean *)
Theorem C143_expectations : forall fexp flog fsum, exp_good fexp -> log_good flog -> sums fsum -> forall s n means infos loc weights,
  proper s means -> proper s infos -> proper [n] loc -> proper [n] weights -> INR n <= bpow radix2 20 ->
  (forall k, (k < nprod s)%nat -> fair_center (entry means k) /\ fair_scale (entry infos k)) -> (forall j, (j < n)%nat -> fair_node (entry loc j) /\ fair_weight (entry weights j)) ->
  exists e e', f_get_e_log_logitnormal fexp flog fsum means infos loc weights = Ok (e, e') /\ proper s e /\ proper s e' /\ forall k, (k < nprod s)%nat ->
    let mu := B2R (entry means k) in let L := B2R (entry infos k) in let x j := B2R (entry loc j) in let w j := B2R (entry weights j) in
    is_finite (entry e k) = true /\ B2R (entry e k) <= 0 /\
    Rabs (B2R (entry e k) - quadrature n x w log_expit mu L) <= units (100 + 2 * INR n) * spread n x w mu L + INR n * bpow radix2 (-600) /\
    is_finite (entry e' k) = true /\ B2R (entry e' k) = rnd64 (B2R (entry e k) - mu).
Proof.
  intros fexp flog fsum He Hl Hs s n means infos loc wts Pm Pi Pl Pw Hn Hk Hj.
  destruct (quad_array fsum s n means infos loc wts (f_log_v fexp flog) Pm Pi Pl Pw) as (e & Ee & Pe & Ke). destruct (map_entry (fun x => Bopp x) s means Pm) as [Po Ko]. destruct (bin_same fadd s _ e Po Pe) as (e' & Ee' & Pe' & Ke').
  exists e, e'. split; [unfold f_get_e_log_logitnormal; rewrite Ee; cbn [rbind]; etransitivity; [exact (f_equal (fun r => rbind r (fun e1 => Ok (e, e1))) Ee')|reflexivity]|]. split; [exact Pe|]. split; [exact Pe'|]. intros k Hi. cbv zeta. destruct (Hk k Hi) as [Hm HL].
  destruct (quad_sum fexp flog fsum He Hl Hs n (fun j => entry loc j) (fun j => entry wts j) (entry means k) (entry infos k) Hn Hj Hm HL) as (A & B & C & D). rewrite <- (Ke k Hi) in A, B, C, D.
  split; [exact A|]. split; [exact B|]. split; [exact C|]. rewrite (Ke' k Hi), (Ko k Hi). destruct Hm as [Fm Bm].
  assert (Fo : is_finite (Bopp (entry means k)) = true) by (rewrite is_finite_Bopp; exact Fm). assert (Bo : B2R (Bopp (entry means k)) = - B2R (entry means k)) by apply B2R_Bopp.
  destruct (fadd_rel (Bopp (entry means k)) (entry e k) Fo A) as [F _].
  { rewrite Bo. eapply Rle_trans; [apply Rabs_triang|]. rewrite Rabs_Ropp. apply Rle_trans with (bpow radix2 600 + bpow radix2 600); [assert (bpow radix2 390 <= bpow radix2 600) by (apply bpow_le; lia); lra|]. replace (bpow radix2 600 + bpow radix2 600) with (bpow radix2 601); [apply bpow_le; lia|]. change 601%Z with (1 + 600)%Z. rewrite bpow_plus. change (bpow radix2 1) with 2. ring. }
  split; [exact F|]. destruct (fadd_cases (Bopp (entry means k)) (entry e k) Fo A) as [(_ & E & _)|(_ & E & _)]; [|rewrite E in F; discriminate]. rewrite E, Bo. f_equal. ring.
Qed.
Print Assumptions C143_expectations.
(** an information that has underflowed to 0 gives NaN as soon as one point of the rule is positive *)
Theorem C143_zero_information : forall fexp flog fsum, sums fsum -> forall s n means infos loc weights,
  proper s means -> proper s infos -> proper [n] loc -> proper [n] weights -> forall j, (j < n)%nat -> is_finite (entry loc j) = true -> 0 < B2R (entry loc j) ->
  exists e e', f_get_e_log_logitnormal fexp flog fsum means infos loc weights = Ok (e, e') /\ forall k, (k < nprod s)%nat -> is_finite (entry means k) = true -> entry infos k = B754_zero false -> entry e k = B754_nan /\ entry e' k = B754_nan.
Proof.
  intros fexp flog fsum Hs s n means infos loc wts Pm Pi Pl Pw j Hj Fx Px.
  destruct (quad_array fsum s n means infos loc wts (f_log_v fexp flog) Pm Pi Pl Pw) as (e & Ee & Pe & Ke). destruct (map_entry (fun x => Bopp x) s means Pm) as [Po Ko]. destruct (bin_same fadd s _ e Po Pe) as (e' & Ee' & Pe' & Ke').
  exists e, e'. split; [unfold f_get_e_log_logitnormal; rewrite Ee; cbn [rbind]; etransitivity; [exact (f_equal (fun r => rbind r (fun e1 => Ok (e, e1))) Ee')|reflexivity]|]. intros k Hk Fm Z.
  assert (N : entry e k = B754_nan).
  { rewrite (Ke k Hk). apply (sum_nan _ _ (Hs _)). apply in_map_iff. exists j. split; [|apply in_seq; lia]. assert (Q : f_point (entry loc j) (entry means k) (entry infos k) = B754_infinity false) by (rewrite Z; exact (zero_scale _ _ Fx Px Fm)). rewrite Q.
    etransitivity; [exact (f_equal (fmul _) (log_v_pinf fexp flog))|]. match goal with |- fmul ?a _ = _ => destruct a; reflexivity end. }
  split; [exact N|]. rewrite (Ke' k Hk). apply nan_add. right. exact N.
Qed.
Print Assumptions C143_zero_information.
(** means and informations of different shapes are refused *)
Theorem C143_shapes : forall fexp flog fsum means infos loc weights, shape means <> shape infos -> f_get_e_log_logitnormal fexp flog fsum means infos loc weights = Raise AssertionError.
Proof.
  intros fexp flog fsum means infos loc wts H. unfold f_get_e_log_logitnormal, f_get_e_fun_normal. destruct (shape_eqb (shape means) (shape infos)) eqn:E; [apply shape_eqb_true in E; contradiction|reflexivity].
Qed.
Print Assumptions C143_shapes.

(** ** the hypotheses are met: two normal variables and the rule with the points -1 and 1 *)
Definition ex_means : nd dbl := Nd [2%nat] [dint 3; dint (-200)].
Definition ex_infos : nd dbl := Nd [2%nat] [dint 2; dint 5].
Definition ex_loc : nd dbl := Nd [2%nat] [dint (-1); dint 1].
Definition ex_wts : nd dbl := Nd [2%nat] [f_one; f_one].
Lemma small_int z k : is_finite (dint z) = true -> (Z.abs z < 2 ^ 53)%Z -> (53 <= k)%Z -> is_finite (dint z) = true /\ Rabs (B2R (dint z)) <= bpow radix2 k.
Proof.
  intros F H Hk. split; [|rewrite dint_B2R by exact H; apply Rle_trans with (bpow radix2 53); [|apply bpow_le; exact Hk]; rewrite <- abs_IZR; change (bpow radix2 53) with (IZR (2 ^ 53)); apply IZR_le; lia]. exact F.
Qed.
Example C143_example : exists e e', f_get_e_log_logitnormal ideal_exp ideal_log add_in_order ex_means ex_infos ex_loc ex_wts = Ok (e, e') /\ B2R (entry e 1) <= 0 /\ is_finite (entry e' 1) = true.
Proof.
  destruct (C143_expectations _ _ _ ideal_exp_good ideal_log_good add_in_order_sums [2%nat] 2 ex_means ex_infos ex_loc ex_wts) as (e & e' & E & _ & _ & K); try (split; reflexivity).
  - cbn. lra.
  - intros k Hk. rewrite nprod_1 in Hk. destruct k as [|[|k]]; [| |lia]; unfold entry; cbn [nth data ex_means ex_infos]; (split; [apply small_int; [reflexivity|reflexivity|lia]|]); (split; [reflexivity|]); rewrite dint_B2R by reflexivity; (split; [apply Rle_trans with (bpow radix2 0); [apply bpow_le; lia|change (bpow radix2 0) with 1; lra]|apply Rle_trans with (bpow radix2 3); [change (bpow radix2 3) with 8; lra|apply bpow_le; lia]]).
  - intros j Hj. destruct j as [|[|j]]; [| |lia]; unfold entry; cbn [nth data ex_loc ex_wts]; (split; [apply small_int; [reflexivity|reflexivity|lia]|]); (split; [reflexivity|]); rewrite one_B2R; (split; [lra|]); change 1 with (bpow radix2 0); apply bpow_le; lia.
  - exists e, e'. split; [exact E|]. destruct (K 1%nat ltac:(rewrite nprod_1; lia)) as (_ & B & _ & D & _). split; assumption.
Qed.
(** far to the left the guard matters: log(1 + exp(1000)) overflows, and the integrand is still -1000 *)
Example C143_guard_example : B2R (f_log_v ideal_exp ideal_log (dint (-1000))) = -1000.
Proof.
  destruct (C143_log_expit _ _ ideal_exp_good ideal_log_good (dint (-1000)) eq_refl) as (_ & _ & _ & D). rewrite dint_B2R in D by reflexivity. apply D. lra.
Qed.
Example C143_zero_example : exists e e', f_get_e_log_logitnormal ideal_exp ideal_log add_in_order ex_means (Nd [2%nat] [dint 2; B754_zero false]) ex_loc ex_wts = Ok (e, e') /\ entry e 1 = B754_nan.
Proof.
  destruct (C143_zero_information ideal_exp ideal_log _ add_in_order_sums [2%nat] 2 ex_means (Nd [2%nat] [dint 2; B754_zero false]) ex_loc ex_wts ltac:(split; reflexivity) ltac:(split; reflexivity) ltac:(split; reflexivity) ltac:(split; reflexivity) 1%nat ltac:(lia) eq_refl) as (e & e' & E & K).
  - unfold entry. cbn [nth data ex_loc]. rewrite dint_B2R by reflexivity. lra.
  - exists e, e'. split; [exact E|]. apply K; [rewrite nprod_1; lia|reflexivity|reflexivity].
Qed.
