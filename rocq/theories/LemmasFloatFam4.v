(** Proofs about the moments of distribution parameters in binary64. *)
From Coq Require Import String Reals ZArith List Lra Lia Bool.
From Flocq Require Import Core BinarySingleNaN.
From Verif Require Import Res Nd RSum ModelNumpy SpecFloat SpecFloatSimplex SpecFloatAcc SpecFloatMatrix SpecFloatFam SpecFloatFam2 ModelFloat ModelFloatDict ModelFloatFamilies
  LemmasFloat LemmasFloat3 LemmasFloat5 LemmasFloatSimplex2 LemmasFloatAcc LemmasFloatParams LemmasFloatFam LemmasFloatFam2.
From Verif Require ModelFloatParams ModelFloatSimplex ModelFloatMatrix ModelFloatStack.
Import List ListNotations.
Set Bullet Behavior "Strict Subproofs".
Open Scope R_scope.

(** ** the normal distributions *)
Lemma var_rounded i : fair_info i -> B2R (fdiv f_one i) = rnd64 (1 / B2R i).
Proof.
  intros F. destruct (var_entry i F) as [[V _] P]. pose proof (info_inverse i F) as [A B]. destruct F as [_ [C _]]. pose proof (bpow_gt_0 radix2 (-490)).
  destruct (fdiv_cases f_one i one_finite) as [(_ & E & _)|(_ & E)]; [lra|rewrite one_B2R in E; exact E|]. rewrite E in V. discriminate.
Qed.
Section Moments.
Context (fsq : dbl -> dbl) (Hq : squares fsq).
Lemma uvn_moments d s m i : f_member d "mean" = Ok m -> f_member d "info" = Ok i -> proper s m -> proper s i ->
  (forall k, (k < nprod s)%nat -> fair_mean (entry m k) /\ fair_info (entry i k)) ->
  fuvn_e d = Ok m /\ exists v o, fuvn_var d = Ok v /\ fuvn_e_outer fsq d = Ok o /\ proper s v /\ proper s o /\
    forall k, (k < nprod s)%nat -> let M := B2R (entry m k) in let I := B2R (entry i k) in
      is_finite (entry v k) = true /\ B2R (entry v k) = rnd64 (1 / I) /\ 0 < B2R (entry v k) /\ within 1 (entry v k) (1 / I) /\ within 4 (entry o k) (M ^ 2 + 1 / I).
Proof using Hq.
  intros Em Ei Pm Pi Fr. split; [exact Em|]. destruct (bin_scalar_l fdiv s f_one i Pi) as (v & Ev & Pv & Kv). destruct (map_entry fsq s m Pm) as [Pq Kq]. destruct (bin_same fadd s (nd_map fsq m) v Pq Pv) as (o & Eo & Po & Ko).
  exists v, o. assert (V : fuvn_var d = Ok v) by (unfold fuvn_var; rewrite Ei; exact Ev). split; [exact V|]. split; [unfold fuvn_e_outer; rewrite Em, V; exact Eo|]. split; [exact Pv|]. split; [exact Po|].
  intros k Hk M I. destruct (Fr k Hk) as [Fm Fi]. pose proof (Kv k Hk) as Kv'. assert (Ko' : entry o k = fadd (fsq (entry m k)) (fdiv f_one (entry i k))) by (etransitivity; [exact (Ko k Hk)|]; f_equal; [exact (Kq k Hk)|exact Kv']). rewrite Ko', Kv'. destruct (var_entry _ Fi) as [W P]. destruct (outer_entry fsq Hq _ _ Fm Fi) as [O _].
  split; [exact (proj1 W)|]. split; [exact (var_rounded _ Fi)|]. split; [exact P|]. split; [exact W|exact O].
Qed.

(** ** after set_free *)
Context (fexp flog : dbl -> dbl) (fsum : list dbl -> dbl) (fdot : nat -> nat -> list dbl -> list dbl -> dbl) (He : exp_good fexp).
Lemma calm_mean x : calm x -> fair_mean x.
Proof using. intros [F B]. split; [exact F|]. eapply Rle_trans; [exact B|]. apply Rle_trans with (bpow radix2 9); [change (bpow radix2 9) with 512; lra|apply bpow_le; lia]. Qed.
Lemma calm_info lb x : bounded500 lb -> 0 <= B2R lb -> calm x -> let r := f_constrain_entry fexp x lb f_inf in fair_info r /\ dle lb r /\ value_close lb f_inf x r.
Proof using He.
  intros B P C r. assert (G : good_bounds lb f_inf) by (split; [right; exact B|split; [left; reflexivity|intros _ [F _]; discriminate F]]).
  assert (N : fle f_inf lb = false) by (destruct (inf_feq lb (proj1 B)) as (_ & _ & _ & N); exact N).
  pose proof (value_entry fexp He lb f_inf G N x C) as V. destruct (lower_value fexp He x lb C B) as [Fr A]. fold r in V, Fr, A. rewrite !units_u in A. pose proof (exp_calm_bounds _ (proj2 C)) as [E0 E1]. pose proof (exp_pos (B2R x)) as EP. destruct B as [Fl B]. rewrite (Rabs_pos_eq (B2R lb)) in B by exact P.
  rewrite (Rabs_pos_eq (exp (B2R x) + B2R lb)) in A by lra. small_u. apply Rabs_le_inv in A.
  assert (T : bpow radix2 (-490) <= / 2 * bpow radix2 (-476)) by (change (/ 2) with (bpow radix2 (-1)); rewrite <- bpow_plus; apply bpow_le; lia).
  assert (T1 : bpow radix2 476 <= / 8 * bpow radix2 500) by (change (/ 8) with (bpow radix2 (-3)); rewrite <- bpow_plus; apply bpow_le; lia).
  assert (T2 : bpow radix2 501 = 2 * bpow radix2 500) by (change 501%Z with (1 + 500)%Z; rewrite bpow_plus; reflexivity).
  split; [|split; [|exact V]].
  - split; [exact Fr|]. set (e := exp (B2R x)) in *. set (l := B2R lb) in *. assert (0 <= u * e <= / 100 * e) by (split; nra). assert (0 <= u * l <= / 100 * l) by (split; nra). split; lra.
  - destruct C as [Fx _]. apply (lower_entry fexp (eg_ok _ He) x lb); [apply finite_number; exact Fx|exact Fl].
Qed.
Lemma slice_first {A} (x : list A) n : slice x 0 n = firstn n x. Proof using. unfold slice. cbn [skipn]. rewrite Nat.sub_0_r. reflexivity. Qed.
Lemma entry_vec (l : list dbl) k : entry (nd_vec l) k = nth k l dzero. Proof using. reflexivity. Qed.
Lemma nth_map_in {A B} (f : A -> B) l k a b : (k < length l)%nat -> nth k (map f l) b = f (nth k l a).
Proof using. intros H. rewrite (nth_indep _ b (f a)) by (rewrite map_length; exact H). apply map_nth. Qed.

(** what the dictionary holds after set_free, for the three classes *)
Definition holds_free (s : list nat) (lb : dbl) (x : list dbl) (d : fparam) : Prop :=
  exists m i, f_member d "mean" = Ok m /\ f_member d "info" = Ok i /\ proper s m /\ proper s i /\
    forall k, (k < nprod s)%nat -> entry m k = nth k x dzero /\ entry i k = f_constrain_entry fexp (nth (nprod s + k) x dzero) lb f_inf.
Lemma half_first {A} n (x : list A) : length x = (2 * n)%nat -> length (slice x 0 n) = n /\ forall k (a : A), (k < n)%nat -> nth k (slice x 0 n) a = nth k x a.
Proof using. intros H. rewrite slice_first. split; [rewrite firstn_length; lia|]. intros k a Hk. rewrite <- (firstn_skipn n x) at 2. rewrite app_nth1; [reflexivity|rewrite firstn_length; lia]. Qed.
Lemma half_second {A} n (x : list A) : length x = (2 * n)%nat -> length (slice x n (n + n)) = n /\ forall k (a : A), (k < n)%nat -> nth k (slice x n (n + n)) a = nth (n + k) x a.
Proof using.
  intros H. unfold slice. replace (n + n - n)%nat with n by lia. split; [rewrite firstn_length, skipn_length; lia|]. intros k a Hk. rewrite firstn_all2 by (rewrite skipn_length; lia).
  rewrite <- (firstn_skipn n x) at 2. rewrite app_nth2 by (rewrite firstn_length; lia). f_equal. rewrite firstn_length. lia.
Qed.
Lemma id_entry v : f_constrain_entry fexp v f_ninf f_inf = v. Proof using. reflexivity. Qed.
Lemma uvn_free nm lb d x : usable lb -> fuvn_init nm lb = Ok d -> length x = 2%nat -> exists d', fd_set_free fexp flog fsum fdot d x = (d', Ok tt) /\ holds_free [1%nat] lb x d'.
Proof using.
  intros U E L. unfold fuvn_init in E. rewrite (scalar_new _ ninf_usable), (scalar_new lb U) in E. cbn [rbind] in E. injection E as <-. destruct x as [|a [|b [|c x]]]; try discriminate. destruct (usable_order lb U) as [O _].
  cbn. unfold ModelFloatParams.fscalar_set_free, ModelFloatParams.nd_f_constrain. cbn. rewrite O. cbn. eexists. split; [reflexivity|]. do 2 eexists. split; [reflexivity|]. split; [reflexivity|]. split; [split; reflexivity|]. split; [split; reflexivity|].
  intros k Hk. destruct k as [|k]; [split; reflexivity|rewrite nprod_1 in Hk; lia].
Qed.
Lemma uvn_vector_free nm n lb d x : usable lb -> fuvn_vector_init nm n lb = Ok d -> length x = (2 * n)%nat -> exists d', fd_set_free fexp flog fsum fdot d x = (d', Ok tt) /\ holds_free [n] lb x d'.
Proof using.
  intros U E L. unfold fuvn_vector_init in E. rewrite (vector_new n _ ninf_usable), (vector_new n lb U) in E. cbn [rbind] in E. injection E as <-. destruct (usable_order lb U) as [O _].
  destruct (half_first n x L) as [L1 N1]. destruct (half_second n x L) as [L2 N2]. cbn [fd_set_free f_dict_of]. cbn [fl_free_size fv_size fd_free_size]. replace (Nat.eqb (length x) (n + n)) with true by (symmetry; apply Nat.eqb_eq; lia). cbn [negb].
  assert (A : fl_set_free fexp flog fsum fdot (FVector (mkFV n f_ninf f_inf (repeat (sv f_ninf) n))) (slice x 0 (0 + n)) = Ok (FVector (mkFV n f_ninf f_inf (slice x 0 n)))).
  { cbn [fl_set_free plus]. unfold fvector_set_free, f_constrain, fvector_set. cbn [fv_size fv_lb fv_ub]. rewrite L1, Nat.eqb_refl. change (fle f_inf f_ninf) with false. cbn [rbind]. rewrite map_length, L1, Nat.eqb_refl. cbn [lift_res rbind]. do 3 f_equal. rewrite (map_ext _ (fun v => v)) by (intros v; apply id_entry). apply map_id. }
  assert (B : fl_set_free fexp flog fsum fdot (FVector (mkFV n lb f_inf (repeat (sv lb) n))) (slice x n (n + n)) = Ok (FVector (mkFV n lb f_inf (map (fun v => f_constrain_entry fexp v lb f_inf) (slice x n (n + n)))))).
  { cbn [fl_set_free plus]. unfold fvector_set_free, f_constrain, fvector_set. cbn [fv_size fv_lb fv_ub]. rewrite L2, Nat.eqb_refl, O. cbn [rbind]. rewrite map_length, L2, Nat.eqb_refl. reflexivity. }
  rewrite A. cbn [fst snd fd_free_size fl_free_size fv_size plus]. rewrite B. cbn [fst snd]. eexists. split; [reflexivity|]. do 2 eexists. split; [reflexivity|]. split; [reflexivity|]. cbn [fl_get fvector_get fv_val]. rewrite nprod_1.
  split; [split; [cbn [nd_vec shape]; rewrite L1; reflexivity|cbn [nd_vec data]; rewrite nprod_1; exact L1]|]. split; [split; [cbn [nd_vec shape]; rewrite map_length, L2; reflexivity|cbn [nd_vec data]; rewrite nprod_1, map_length; exact L2]|].
  intros k Hk. rewrite !entry_vec. split; [exact (N1 k dzero Hk)|]. etransitivity; [apply (nth_map_in (fun v => f_constrain_entry fexp v lb f_inf) (slice x n (n + n)) k dzero); exact (eq_ind_r (fun t => (k < t)%nat) Hk L2)|]. exact (f_equal (fun v => f_constrain_entry fexp v lb f_inf) (N2 k dzero Hk)).
Qed.
Lemma uvn_array_free nm s lb d x : usable lb -> fuvn_array_init nm s lb = Ok d -> length x = (2 * nprod s)%nat -> exists d', fd_set_free fexp flog fsum fdot (fua_dict d) x = (d', Ok tt) /\ holds_free s lb x d'.
Proof using.
  intros U E L. unfold fuvn_array_init in E. pose proof (array_new s _ ninf_usable) as I1. pose proof (array_new s lb U) as I2. rewrite I1, I2 in E. cbn [rbind] in E. injection E as <-. cbn [fua_dict].
  set (n := nprod s) in *. destruct (half_first n x L) as [L1 N1]. destruct (half_second n x L) as [L2 N2]. cbn [fd_set_free f_dict_of]. cbn [fl_free_size fd_free_size]. unfold ModelFloatParams.farray_size at 1 2. cbn [ModelFloatParams.fa_shape]. fold n. replace (Nat.eqb (length x) (n + n)) with true by (symmetry; apply Nat.eqb_eq; lia). cbn [negb].
  unfold ModelFloatParams.farray_size. cbn [ModelFloatParams.fa_shape]. fold n.
  assert (A : fl_set_free fexp flog fsum fdot (FArray (ModelFloatParams.mkFA s f_ninf f_inf (np_full s (sv f_ninf)))) (slice x 0 (0 + n)) = Ok (FArray (ModelFloatParams.mkFA s f_ninf f_inf (Nd s (slice x 0 n))))).
  { cbn [fl_set_free plus]. rewrite (array_set_free_ok fexp f_ninf f_inf s None _ (nd_vec (slice x 0 n)) I1) by (unfold nd_size; cbn; rewrite nprod_1; exact L1). cbn [lift_res rbind data nd_vec]. do 4 f_equal. rewrite (map_ext _ (fun v => v)) by (intros v; apply id_entry). apply map_id. }
  assert (B : fl_set_free fexp flog fsum fdot (FArray (ModelFloatParams.mkFA s lb f_inf (np_full s (sv lb)))) (slice x n (n + n)) = Ok (FArray (ModelFloatParams.mkFA s lb f_inf (Nd s (map (fun v => f_constrain_entry fexp v lb f_inf) (slice x n (n + n))))))).
  { cbn [fl_set_free plus]. rewrite (array_set_free_ok fexp lb f_inf s None _ (nd_vec (slice x n (n + n))) I2) by (unfold nd_size; cbn; rewrite nprod_1; exact L2). reflexivity. }
  rewrite A. cbn [fst snd fd_free_size fl_free_size plus]. unfold ModelFloatParams.farray_size. cbn [ModelFloatParams.fa_shape]. fold n. rewrite B. cbn [fst snd]. eexists. split; [reflexivity|]. do 2 eexists. split; [reflexivity|]. split; [reflexivity|]. cbn [fl_get ModelFloatParams.farray_get ModelFloatParams.fa_val]. fold n.
  split; [split; [reflexivity|exact L1]|]. split; [split; [reflexivity|cbn [data]; rewrite map_length; exact L2]|].
  intros k Hk. unfold entry. cbn [data]. split; [exact (N1 k dzero Hk)|]. etransitivity; [apply (nth_map_in (fun v => f_constrain_entry fexp v lb f_inf) (slice x n (n + n)) k dzero); exact (eq_ind_r (fun t => (k < t)%nat) Hk L2)|]. exact (f_equal (fun v => f_constrain_entry fexp v lb f_inf) (N2 k dzero Hk)).
Qed.
(** the moments then *)
Lemma free_moments s lb x d : bounded500 lb -> 0 <= B2R lb -> length x = (2 * nprod s)%nat -> List.Forall calm x -> holds_free s lb x d ->
  exists m i v o, fuvn_e d = Ok m /\ f_member d "info" = Ok i /\ fuvn_var d = Ok v /\ fuvn_e_outer fsq d = Ok o /\ proper s m /\ proper s i /\ proper s v /\ proper s o /\
    forall k, (k < nprod s)%nat -> let M := B2R (entry m k) in let I := B2R (entry i k) in
      entry m k = nth k x dzero /\ dle lb (entry i k) /\ value_close lb f_inf (nth (nprod s + k) x dzero) (entry i k) /\
      0 < B2R (entry v k) /\ within 1 (entry v k) (1 / I) /\ within 4 (entry o k) (M ^ 2 + 1 / I).
Proof using Hq He.
  intros B P L C (m & i & Em & Ei & Pm & Pi & K).
  assert (Cx : forall k, (k < 2 * nprod s)%nat -> calm (nth k x dzero)) by (intros k Hk; exact (proj1 (Forall_nth calm x) C k dzero ltac:(lia))).
  destruct (uvn_moments d s m i Em Ei Pm Pi) as (E & v & o & Ev & Eo & Pv & Po & Q).
  { intros k Hk. destruct (K k Hk) as [K1 K2]. rewrite K1, K2. split; [apply calm_mean, Cx; lia|]. apply (calm_info lb _ B P). apply Cx. lia. }
  exists m, i, v, o. repeat (split; [assumption|]). intros k Hk. destruct (K k Hk) as [K1 K2]. destruct (Q k Hk) as (_ & _ & Q1 & Q2 & Q3). destruct (calm_info lb _ B P (Cx (nprod s + k)%nat ltac:(lia))) as (_ & D & V). cbv zeta. split; [exact K1|]. split; [rewrite K2; exact D|]. split; [rewrite K2; exact V|]. auto.
Qed.
End Moments.
