(** Differentiating lists of terms along a curve; three equal terms; first order with a partial objective; constructors. *)
From Coq Require Import String Reals List Bool Arith ZArith Lia Lra Permutation.
From Coquelicot Require Import Coquelicot.
From Verif Require Import Res Num Nd RSum ModelAutograd ModelSparse ModelParameters ModelMatrix ModelSimplex ModelProjection ModelDict ModelObjective ModelSensitivity.
From Verif Require Import SpecParameters SpecDict SpecObjective LemmasParameters LemmasDict LemmasMatrix LemmasObjective LemmasPrecond LemmasTwoParam SpecSmooth SpecSensitivity LemmasSmooth LemmasDirDeriv LemmasTerms LemmasTermsNat LemmasSensCalc LemmasSens LemmasSensMain LemmasConsolidate LemmasSensClass LemmasLinear.
Import List ListNotations.
Open Scope R_scope.
Set Bullet Behavior "Strict Subproofs".

(** ---- C49 ---- *)
Definition made (funs : list etafun) (arr : list (list pyfun)) (k : nat) (t : dterm) : Prop :=
  exists eps eta pref, make_term eps eta pref funs arr = Ok t /\ length eta = k.
Lemma zs_of l : Forall (fun k => (0 <= k)%Z) l -> l = zs (map Z.to_nat l).
Proof. induction 1 as [|x l Hx Hl IH]; [reflexivity|]. cbn [map zs] in *. unfold zs in *. cbn [map]. rewrite <- IH. rewrite Z2Nat.id by exact Hx. reflexivity. Qed.
Lemma made_conc g M funs k t : (k < M)%nat -> (k <= S (length funs))%nat -> made funs (jarray g M) k t -> exists a, a_ok k a /\ t = conc g M funs a.
Proof.
  intros HM Hf [eps [eta [pref [Hm Lk]]]]. destruct (make_term_inv _ _ _ _ _ _ Hm) as [row [gf [_ [_ [_ [W [He Hk]]]]]]].
  rewrite (zs_of eta Hk) in *. set (ks := map Z.to_nat eta) in *. replace eps with (Z.of_nat (Z.to_nat eps)) in * by (apply Z2Nat.id; exact He). set (e := Z.to_nat eps) in *.
  rewrite zs_length in *. change 1%Z with (Z.of_nat 1) in W. rewrite weighted_zs in W. assert (A : a_ok k (e, ks, pref)) by (split; lia).
  exists (e, ks, pref). split; [exact A|]. rewrite (make_conc g M k) in Hm by assumption. apply Ok_inj in Hm. symmetry. exact Hm.
Qed.
Lemma mades_conc g M funs k ts : (k < M)%nat -> (k <= S (length funs))%nat -> Forall (made funs (jarray g M) k) ts -> exists l, Forall (a_ok k) l /\ ts = map (conc g M funs) l.
Proof.
  intros HM Hf. induction 1 as [|t ts Ht _ [l [F E]]]; [exists []; split; [constructor|reflexivity]|]. destruct (made_conc g M funs k t HM Hf Ht) as [a [A B]]. exists (a :: l). split; [constructor; assumption|]. cbn [map]. rewrite B, E. reflexivity.
Qed.
Lemma adiff_nonempty a : adiff a <> []. Proof. destruct a as [[e ks] c]. discriminate. Qed.

Lemma differentiate_step n p q U g G K delta E eps0 deps M arr k funs next ts : open_in (n + p) U -> two_arg_fun n p q U g G -> smooth_components K n p q U G -> curve_with_derivatives n K delta E ->
  (forall t, Rabs t < delta -> U (along E eps0 deps t)) -> length eps0 = p -> length deps = p ->
  generate_two_term_derivative_array g (Z.of_nat M) = Ok arr -> (1 <= k)%nat -> (S k < M)%nat -> (S k <= K)%nat -> (k <= length funs)%nat -> ts <> [] -> Forall (made funs arr k) ts ->
  (forall t i, Rabs t < delta -> (i <= k)%nat -> exists h, nth_error (funs ++ [next]) i = Some h /\ h (E 0%nat t) (move eps0 deps t) deps = Ok (E (S i) t)) ->
  exists ts' V V', differentiate_terms ts next = Ok ts' /\
    forall t, Rabs t < delta -> evaluate_terms ts (E 0%nat t) (move eps0 deps t) deps true = Ok (Some (V t)) /\ evaluate_terms ts' (E 0%nat t) (move eps0 deps t) deps true = Ok (Some (V' t)) /\
      length (V t) = q /\ length (V' t) = q /\ forall c, (c < q)%nat -> is_derive (fun s => nth c (V s) 0) t (nth c (V' t) 0).
Proof.
  intros O Hg HC HcE HU Leps Ldeps Harr Hk HM HK Hf Hne Hts Hfuns. rewrite gen_array in Harr by lia. apply Ok_inj in Harr. subst arr.
  destruct (mades_conc g M funs k ts ltac:(lia) ltac:(lia) Hts) as [l [Fl El]]. subst ts.
  destruct (differentiate_list g M k funs l next Fl HM ltac:(lia) Hk) as [r [Er [Fr [Ir Wr]]]]. exists (map (conc g M (funs ++ [next])) r).
  set (TV := Tval n p G E eps0 deps). exists (fun t => map (fun c => TV c l t) (seq 0 q)), (fun t => map (fun c => TV c r t) (seq 0 q)). split; [exact Er|]. intros t Ht.
  assert (UT : forall x, used true x = x) by (intros x; unfold used; induction x as [|a x IH]; [reflexivity|]; cbn [filter orb]; f_equal; exact IH).
  assert (Hr0 : r <> []).
  { destruct l as [|a l]; [exfalso; apply Hne; reflexivity|]. intros ->. destruct a as [[e ks] c]. destruct (Ir (S e, ks ++ [0%nat])) as [_ Q]. apply Q. left. reflexivity. }
  assert (VAL : forall x fs k', Forall (a_ok k') x -> (1 <= k' <= K)%nat -> x <> [] -> (forall i, (i < k')%nat -> exists h : etafun, nth_error fs i = Some h /\ h (E 0%nat t) (move eps0 deps t) deps = Ok (E (S i) t)) ->
    evaluate_terms (map (conc g M fs) x) (E 0%nat t) (move eps0 deps t) deps true = Ok (Some (map (fun c => TV c x t) (seq 0 q)))).
  { intros x fs k' Fx Hk' Nx Hfs. destruct (terms_value n p q U g G K delta E eps0 deps O Hg HC HcE HU Leps Ldeps M k' fs k' true x t Fx Hk' Ht Hfs (le_n k')) as [o [Eo Ho]]. rewrite Eo. f_equal. rewrite UT in Ho.
    destruct o as [v|]; [|contradiction]. destruct Ho as [Lv Hv]. f_equal. apply list_eq_nth; [rewrite map_length, seq_length; exact Lv|]. intros c Hc. rewrite Lv in Hc. rewrite nth_map_seq by exact Hc. apply Hv, Hc. }
  split; [|split; [|split; [|split]]].
  - apply (VAL l funs k); [exact Fl|lia|intros ->; apply Hne; reflexivity|]. intros i Hi. destruct (Hfuns t i Ht ltac:(lia)) as [h [Eh Hh]]. exists h. split; [|exact Hh]. rewrite nth_error_app1 in Eh by lia. exact Eh.
  - apply (VAL r (funs ++ [next]) (S k)); [exact Fr|lia|exact Hr0|]. intros i Hi. apply (Hfuns t i Ht). lia.
  - rewrite map_length, seq_length. reflexivity.
  - rewrite map_length, seq_length. reflexivity.
  - intros c Hc. rewrite nth_map_seq by exact Hc. destruct HcE as [LE HD]. apply (is_derive_ext (TV c l)); [intros s; rewrite nth_map_seq by exact Hc; reflexivity|].
    pose proof (Tval_deriv n p U O q G K delta E eps0 deps Leps Ldeps LE HD HU HC k c l t Fl ltac:(lia) Hc Ht) as D. replace (TV c r t) with (Tval n p G E eps0 deps c (flat_map adiff l) t); [exact D|]. symmetry. exact (Wr (fun a => phi n p G E eps0 deps c a t)).
Qed.
(** the base terms *)
Lemma base_step n p q U g G K delta E eps0 deps M arr funs t1 t2 : open_in (n + p) U -> two_arg_fun n p q U g G -> smooth_components K n p q U G -> curve_with_derivatives n K delta E ->
  (forall t, Rabs t < delta -> U (along E eps0 deps t)) -> length eps0 = p -> length deps = p -> (0 < K)%nat ->
  generate_two_term_derivative_array g (Z.of_nat M) = Ok arr -> (1 < M)%nat -> make_term 1 [0%Z] 1 funs arr = Ok t1 -> make_term 0 [1%Z] 1 funs arr = Ok t2 ->
  forall t, Rabs t < delta -> (exists h, nth_error funs 0 = Some h /\ h (E 0%nat t) (move eps0 deps t) deps = Ok (E 1%nat t)) ->
  exists v, evaluate_terms [t1; t2] (E 0%nat t) (move eps0 deps t) deps true = Ok (Some v) /\ length v = q /\ forall c, (c < q)%nat -> is_derive (fun s => G c (along E eps0 deps s)) t (nth c v 0).
Proof.
  intros O Hg HC HcE HU Leps Ldeps HK Harr HM H1 H2 t Ht Hf. rewrite gen_array in Harr by lia. apply Ok_inj in Harr. subst arr.
  change 1%Z with (Z.of_nat 1) in H1 at 1. change [0%Z] with (zs [0%nat]) in H1. change 0%Z with (Z.of_nat 0) in H2 at 1. change [1%Z] with (zs [1%nat]) in H2.
  rewrite (make_conc g M 1) in H1 by (first [split; reflexivity|lia]). rewrite (make_conc g M 1) in H2 by (first [split; reflexivity|lia]). apply Ok_inj in H1. apply Ok_inj in H2. subst t1 t2.
  set (l := [(1%nat, [0%nat], 1); (0%nat, [1%nat], 1)]). change [conc g M funs (1%nat, [0%nat], 1); conc g M funs (0%nat, [1%nat], 1)] with (map (conc g M funs) l).
  destruct (terms_value n p q U g G K delta E eps0 deps O Hg HC HcE HU Leps Ldeps M 1 funs 1 true l t (level_ok 1 l level_base) ltac:(lia) Ht) as [o [Eo Ho]]; [|lia|].
  - intros i Hi. assert (i = 0%nat) by lia. subst i. exact Hf.
  - destruct o as [v|]; [|discriminate Ho]. destruct Ho as [Lv Hv]. exists v. split; [exact Eo|]. split; [exact Lv|]. intros c Hc. rewrite Hv by exact Hc.
    exact (level_derive n p q U G K delta E eps0 deps O HC HcE HU Leps Ldeps 1 l level_base ltac:(lia) t c Ht Hc).
Qed.

(** ---- C51 ---- *)
Lemma consolidate_three funs gders t : valid funs gders t -> exists t', consolidate_terms [t; t; t] = Ok [t'; t] /\ sig t' = sig t /\ dt_pref t' = 2 * dt_pref t.
Proof.
  intros V. destruct (combine_valid funs gders t t V V eq_refl) as [t' [E1 [E2 [E3 [_ E4]]]]].
  assert (Ee : zlist_eqb (dt_eta t) (dt_eta t) = true) by (apply zlist_eqb_spec; reflexivity).
  exists t'. split; [|split; [exact E3|rewrite E4; ring]]. unfold consolidate_terms. cbn [length seq consolidate_loop]. rewrite py_index_nat. cbn [nth_error rbind length match_loop]. rewrite py_index_nat. cbn [nth_error rbind]. rewrite Ee, E1. cbn [rbind list_remove Nat.eqb nth_error match_loop snd consolidate_loop].
  rewrite py_index_nat. cbn [nth_error rbind length match_loop snd fst consolidate_loop]. reflexivity.
Qed.

(** ---- first order: the function for k = 1 ---- *)
Lemma first_function solve g in0 hy0 hess0 order terms fs : (0 < order)%nat -> build_order solve g in0 hy0 hess0 (Z.of_nat order) = Ok (terms, fs) ->
  nth_error fs 0 = Some (dkinput_dhyperk solve in0 hy0 hess0 (map (conc g (S order) []) [(1%nat, [0%nat], 1); (0%nat, [1%nat], 1)])).
Proof.
  intros Ho Eb. destruct (build_order_ok solve g in0 hy0 hess0 order Ho) as [terms' [fs' [Eb' [Lt [Lf Inv]]]]]. rewrite Eb in Eb'. injection Eb' as <- <-.
  destruct (Inv 0%nat Ho) as [l [Hl [_ Ef]]]. rewrite Ef. cbn [firstn with_default map]. inversion Hl; subst.
  - reflexivity.
  - match goal with [ H : level 0 _ |- _ ] => apply level_pos in H; lia end.
Qed.
Lemma Dd_single N d f z : Dd N [d] f z = rsum N (fun i => nth i d 0 * ad_partial f i z).
Proof. reflexivity. Qed.
(** it solves the first order system of any gradient g *)
Lemma first_order solve n p U g G in0 hy0 deps H tol K : open_in (n + p) U -> two_arg_fun n p n U g G -> smooth_components K n p n U G -> (0 < K)%nat -> U (in0 ++ hy0) -> length in0 = n -> length hy0 = p -> length deps = p ->
  solves_systems solve -> nonsingular n H -> (0 < n)%nat -> (0 < p)%nat -> tol_ok tol ->
  forall order terms fs, (0 < order)%nat -> build_order solve g in0 hy0 H (Z.of_nat order) = Ok (terms, fs) ->
  exists h x, nth_error fs 0 = Some h /\ h tol in0 hy0 deps = Ok x /\ length x = n /\
    forall c, (c < n)%nat -> rsum n (fun j => rm_get H c j * nth j x 0) + rsum p (fun l => ad_partial (G c) (n + l) (in0 ++ hy0) * nth l deps 0) = 0.
Proof.
  intros O Hg HC HK U0 Ln Lp Ld Hs Hns Hn Hp Htol order terms fs Ho Eb. rewrite (first_function _ _ _ _ _ _ _ _ Ho Eb).
  destruct (O _ U0) as [_ [d [Hd Hball]]].
  set (b := 1 + rsum p (fun i => Rabs (nth i deps 0))).
  assert (Sp : 0 <= rsum p (fun i => Rabs (nth i deps 0))) by (apply rsum_nonneg; intros; apply Rabs_pos).
  assert (Hb : 0 < b) by (unfold b; lra).
  set (E := fun (k : nat) (t : R) => match k with 0%nat => in0 | _ => repeat 0 n end).
  assert (Cv : curve_with_derivatives n K (d / b) E).
  { split; [intros [|k] t; [exact Ln|apply repeat_length]|]. intros k t c _ _ _. cbn [E]. rewrite nth_repeat0. destruct k; [exact (is_derive_const (V := R_NormedModule) (nth c in0 0) t)|exact (is_derive_const (V := R_NormedModule) (nth c (repeat 0 n) 0) t)]. }
  assert (HU : forall t, Rabs t < d / b -> U (along E hy0 deps t)).
  { intros t Ht. apply Hball. unfold along. cbn [E]. split; [rewrite app_length, move_length; lia|]. intros i Hi. destruct (Nat.lt_ge_cases i n) as [Hin|Hin].
    - rewrite !app_nth1 by lia. rewrite Rminus_diag_eq, Rabs_R0 by reflexivity. exact Hd.
    - rewrite !app_nth2 by lia. rewrite move_nth by lia. replace (nth (i - length in0) hy0 0 + t * nth (i - length in0) deps 0 - nth (i - length in0) hy0 0) with (t * nth (i - length in0) deps 0) by ring.
      rewrite Rabs_mult. assert (Q : Rabs (nth (i - length in0) deps 0) <= rsum p (fun i => Rabs (nth i deps 0))) by (apply (rsum_term_le p (fun i => Rabs (nth i deps 0))); [lia|intros; apply Rabs_pos]).
      apply Rle_lt_trans with (Rabs t * b); [apply Rmult_le_compat_l; [apply Rabs_pos|unfold b; lra]|]. apply Rlt_le_trans with (d / b * b); [apply Rmult_lt_compat_r; assumption|]. right. field. lra. }
  assert (R0 : Rabs 0 < d / b) by (rewrite Rabs_R0; apply Rdiv_lt_0_compat; assumption).
  set (l := [(1%nat, [0%nat], 1); (0%nat, [1%nat], 1)]).
  destruct (terms_value n p n U g G K (d / b) E hy0 deps O Hg HC Cv HU Lp Ld (S order) 1 [] 0 false l 0 (level_ok 1 l level_base) ltac:(lia) R0) as [o [Eo Ho2]]; [intros; lia|lia|].
  destruct o as [v|]; [|discriminate Ho2]. destruct Ho2 as [Lv Hv]. rewrite move_0 in Eo. cbn [E] in Eo.
  destruct (Hs n H v Hns Lv) as [x [Ex [Lx Hx]]]. eexists. exists (vscale (-1) x). split; [reflexivity|]. split; [|split; [rewrite vscale_length; exact Lx|]].
  - unfold dkinput_dhyperk.
    assert (Etol : match tol with None => Ok true | Some tol0 => do a <- max_abs_diff in0 in0; rassert (Rleb a tol0) (do b <- max_abs_diff hy0 hy0; rassert (Rleb b tol0) (Ok true)) end = Ok true).
    { destruct tol as [e|]; [|reflexivity]. cbn in Htol. rewrite !max_abs_diff_self by lia. cbn [rbind]. unfold rassert. unfold Rleb. destruct (Rle_dec 0 e); [reflexivity|lra]. }
    rewrite Etol. cbn [rbind]. unfold evaluate_dketa_depsk. fold l. rewrite Eo. cbn [rbind]. rewrite Ex. reflexivity.
  - intros c Hc. rewrite (rsum_ext n _ (fun j => -1 * (rm_get H c j * nth j x 0))) by (intros; rewrite vscale_nth; ring). rewrite rsum_scal_l, Hx by exact Hc. rewrite Hv by exact Hc.
    assert (Q : Tval n p G E hy0 deps c (used false l) 0 = rsum p (fun l0 => ad_partial (G c) (n + l0) (in0 ++ hy0) * nth l0 deps 0)).
    { cbn [used l filter orb negb highest snd fst last Nat.eqb]. unfold Tval. cbn [map fst snd lsum fold_right]. unfold phi, dirs. cbn [fst snd expand repeat map app]. rewrite Dd_single. unfold zcurve. rewrite move_0. cbn [E].
      rewrite rsum_split. rewrite (rsum_zero n) by (intros i Hi; rewrite emb2_nth; destruct (Nat.ltb_spec i n); [ring|lia]).
      rewrite (rsum_ext p _ (fun l0 => ad_partial (G c) (n + l0) (in0 ++ hy0) * nth l0 deps 0)); [ring|]. intros i Hi. rewrite emb2_nth. destruct (Nat.ltb_spec (n + i) n); [lia|]. replace (n + i - n)%nat with i by lia. ring. }
    rewrite Q. ring.
Qed.

Section Partial.
Variable solve : rmat2 -> vec -> res vec.
Variable (Chol : Type) (cho_factor : rmat2 -> res Chol) (trace : tparam -> list R -> tparam) (trace2 : pair_state -> pair_state) (hf : bool).
Hypothesis Hsolve : solves_systems solve.
Hypothesis Htrace : forall t y, traced t (trace t y).
Hypothesis Htrace2 : forall s, two_traced true hf s (trace2 s).
Variables (f h : pair_state -> unit -> res R) (st0 : pair_state) (n p : nat) (U : list R -> Prop) (order K : nat) (delta : R)
  (E : nat -> R -> list R) (hy0 deps : list R) (H : rmat2).
Hypothesis O : open_in (n + p) U.
Hypothesis Hev : evaluates_on h st0 true hf n p U.
Hypothesis HC : Ck 2 (n + p) U (joint f st0 true hf n).
Hypothesis HCh : Ck 2 (n + p) U (joint h st0 true hf n).
Hypothesis Hsplit : split_off n U (joint f st0 true hf n) (joint h st0 true hf n).
Hypothesis HcE : curve_with_derivatives n K delta E.
Hypothesis HU : forall t, Rabs t < delta -> U (along E hy0 deps t).
Hypothesis Leps : length hy0 = p.
Hypothesis Ldeps : length deps = p.
Hypothesis Hdelta : 0 < delta.
Hypothesis Hn : (0 < n)%nat.
Hypothesis Hp : (0 < p)%nat.
Hypothesis Hord : (0 < order)%nat.
Hypothesis HK : (0 < K)%nat.
Hypothesis Hstat : optimum_curve n (joint f st0 true hf n) delta E hy0 deps.
Hypothesis HH : is_hessian n U (joint f st0 true hf n) (E 0%nat 0 ++ hy0) H.
Hypothesis Hns : nonsingular n H.
Variables (hess_arg : option rmat2) (st1 : pair_state) (ty : taylor).
Hypothesis Hinit : taylor_init solve f h Chol cho_factor trace true hf st0 (E 0%nat 0) hy0 (Z.of_nat order) hess_arg = (st1, Ok ty).

Lemma taylor_first_order st tol : history2 st1 st -> tol_ok tol -> evaluate_dkinput_dhyperk solve h trace2 true hf (with_st ty st) deps 1 tol = (ty, Ok (E 1%nat 0)).
Proof.
  intros Hst Htol.
  destruct (taylor_made solve Chol cho_factor trace Htrace hf f h st0 n p U order K delta E hy0 deps H O HC HcE HU Hdelta HH Hns hess_arg st1 ty Hinit) as [T1 [T2 [T3 [T4 [T5 [T6 [T7 T8]]]]]]].
  unfold evaluate_dkinput_dhyperk. unfold with_st at 1 2. cbn [ty_order]. rewrite T6. cbn [Z.leb Z.compare]. destruct (Z.ltb_spec (Z.of_nat order) 1); [lia|]. unfold with_st. cbn [ty_st ty_in0 ty_hy0 ty_hess ty_order]. rewrite T4, T5, T6.
  assert (Hh0 : history2 st0 st) by (eapply history2_trans; eassumption). pose proof HcE as [LE DE].
  assert (U0 : U (E 0%nat 0 ++ hy0)) by (apply (base_in_U U delta E hy0 deps HU Hdelta)).
  destruct (build_order_ok solve (objective_gradient h true hf st) (E 0%nat 0) hy0 (ty_hess ty) order Hord) as [terms [fs [EB _]]]. rewrite EB. cbn [rbind snd].
  destruct (first_order solve n p U (objective_gradient h true hf st) (fun c => ad_partial (joint h st0 true hf n) c) (E 0%nat 0) hy0 deps (ty_hess ty) tol 1 O
    (gradient_two_arg h st0 st true hf n p U Hh0 Hev) (gradient_smooth 1 _ n p U O HCh) ltac:(lia) U0 (LE 0%nat 0) Leps Ldeps Hsolve T7 Hn Hp Htol order terms fs Hord EB) as [g [x [Eg [Ex [Lx Hx]]]]].
  change (1 - 1)%Z with (Z.of_nat 0). rewrite py_index_nat, Eg. cbn [rbind]. rewrite Ex.
  assert (EX : x = E 1%nat 0).
  { apply list_eq_nth; [rewrite LE; exact Lx|]. rewrite Lx. intros i Hi.
    apply (same_solution n (ty_hess ty) (fun k => nth k x 0) (fun k => nth k (E 1%nat 0) 0) (fun c => rsum p (fun l => ad_partial (ad_partial (joint h st0 true hf n) c) (n + l) (E 0%nat 0 ++ hy0) * nth l deps 0)) T7); [exact Hx| |exact Hi].
    intros c Hc. etransitivity; [|exact (implicit_curve n p U (joint f st0 true hf n) delta E hy0 deps K c O HC HcE HK Hdelta U0 Leps Ldeps Hstat Hc)]. f_equal; apply rsum_ext.
    - intros j Hj. rewrite T8 by assumption. unfold along. rewrite move_0. reflexivity.
    - intros l Hl. rewrite (split_cross n p U _ _ c l (E 0%nat 0 ++ hy0) O HC HCh Hsplit Hc Hl U0). reflexivity. }
  subst x. unfold to_base. rewrite (set_both_idem st0 _ _ _ _ _ T1 (trace2 st)) by (eapply history2_trans; [exact Hh0|apply two_traced_history with (f1 := true) (f2 := hf), Htrace2]).
  f_equal. rewrite <- T4, <- T5, <- T6, <- T3. destruct ty. reflexivity.
Qed.
End Partial.

(** the constructors succeed *)
Lemma set_base_hessian_ok obj_f Chol (cho_factor : rmat2 -> res Chol) trace hf st0 in0 hy0 st1 n p U : (forall t y, traced t (trace t y)) -> length in0 = n -> length hy0 = p -> open_in (n + p) U -> U (in0 ++ hy0) ->
  Ck 2 (n + p) U (joint obj_f st0 true hf n) -> set_both st0 (fin_arg in0) (fin_arg hy0) true hf = (st1, Ok tt) ->
  (forall h, is_hessian n U (joint obj_f st0 true hf n) (in0 ++ hy0) h -> exists c, cho_factor h = Ok c) ->
  exists h c, set_base_values obj_f Chol cho_factor trace true hf st0 in0 hy0 None = (st1, Ok (h, c)).
Proof.
  intros Htrace Ln Lp O U0 HC B Hc. unfold set_base_values, to_base. rewrite B. destruct st1 as [s1 s2]. cbn [fst snd].
  pose proof (set_both_history st0 (fin_arg in0) (fin_arg hy0) true hf) as Hs. rewrite B in Hs. cbn [fst] in Hs.
  unfold fun_free_hessian, after_cache, cache_free_and_eval. pose proof (traced_history _ _ (Htrace s1 in0)) as Ht.
  pose proof B as B0. apply set_both_ok in B0 as [B1 B2]. cbn [set_par] in B1.
  assert (S1 : t_set_free (trace s1 in0) (fin_arg in0) = (s1, Ok tt)).
  { apply (agree_ok' (t_set_free (fst st0) (fin_arg in0))); [|exact B1]. apply t_set_free_agree, history_sb. eapply history_trans; [apply (proj1 Hs)|exact Ht]. }
  rewrite S1. cbn [rbind]. destruct (Hc (ag_hessian (fun t a => obj_f (t, s2) a) s1 in0 tt)) as [c Ec].
  - cbn [ag_hessian rm_rows rm_cols rm_get]. split; [exact Ln|]. split; [exact Ln|]. exists (fun j => ad_partial (joint obj_f st0 true hf n) j). split.
    + intros j y Hj Uy. apply (Ck_partial 1 (n + p) U _ j O HC); [lia|exact Uy].
    + intros i j Hi Hj.
      assert (FR : forall y, free_real (fun t a => obj_f (t, s2) a) s1 tt y = real2 obj_f st0 true hf tt y hy0).
      { intros y. unfold free_real, real2, fun_free, eval_fun, set_both. cbn [set_par]. rewrite B2. pose proof (t_set_free_agree _ _ (fin_arg y) (history_sb _ _ (proj1 Hs))) as [A1 A2]. cbn [fst snd] in A1, A2.
        destruct (t_set_free (fst st0) (fin_arg y)) as [p1 [[]|e1]], (t_set_free s1 (fin_arg y)) as [p2 [[]|e2]]; cbn [fst snd] in *; try discriminate; [|reflexivity]. rewrite A2 by reflexivity. reflexivity. }
      assert (Q : ad_partial (ad_partial (joint obj_f st0 true hf n) j) i (in0 ++ hy0) = ad_partial (fun y => ad_partial (free_real (fun t a => obj_f (t, s2) a) s1 tt) j y) i in0).
      { unfold ad_partial at 1 3. rewrite app_nth1 by lia. apply Derive_ext. intros t. rewrite upd_app1 by lia. rewrite joint_partial1 by (rewrite ?upd_length; auto). unfold ad_partial. apply Derive_ext. intros u. symmetry. apply FR. }
      match goal with |- is_partial _ _ _ ?v => replace v with (ad_partial (ad_partial (joint obj_f st0 true hf n) j) i (in0 ++ hy0)) by (exact Q) end. destruct (Ck_partial 1 (n + p) U (joint obj_f st0 true hf n) j O HC) as [_ C1]; [lia|]. apply (Ck_partial 0 (n + p) U _ i O C1); [lia|exact U0].
  - rewrite Ec. eexists. eexists. reflexivity.
Qed.
Lemma taylor_init_ok solve f h Chol (cho_factor : rmat2 -> res Chol) trace hf st0 in0 hy0 st1 n p U order hess_arg : (forall t y, traced t (trace t y)) -> length in0 = n -> length hy0 = p -> open_in (n + p) U -> U (in0 ++ hy0) ->
  Ck 2 (n + p) U (joint f st0 true hf n) -> set_both st0 (fin_arg in0) (fin_arg hy0) true hf = (st1, Ok tt) ->
  (forall m, is_hessian n U (joint f st0 true hf n) (in0 ++ hy0) m -> exists c, cho_factor m = Ok c) ->
  ((0 < order)%Z -> exists ty, taylor_init solve f h Chol cho_factor trace true hf st0 in0 hy0 order hess_arg = (st1, Ok ty)) /\
  (order = 0%Z -> taylor_init solve f h Chol cho_factor trace true hf st0 in0 hy0 order hess_arg = (st1, Raise AssertionError)) /\
  ((order < 0)%Z -> taylor_init solve f h Chol cho_factor trace true hf st0 in0 hy0 order hess_arg = (st1, Raise IndexError)).
Proof.
  intros Htrace Ln Lp O U0 HC B Hc. destruct (set_base_hessian_ok f Chol cho_factor trace hf st0 in0 hy0 st1 n p U Htrace Ln Lp O U0 HC B Hc) as [m [c Eb]].
  unfold taylor_init. rewrite Eb. unfold set_order. cbn [ty_st ty_in0 ty_hy0 ty_hess]. splits.
  - intros Ho. destruct (build_order_ok solve (objective_gradient h true hf st1) in0 hy0 m (Z.to_nat order) ltac:(lia)) as [terms [fs [EB _]]]. rewrite Z2Nat.id in EB by lia. rewrite EB. eexists. reflexivity.
  - intros ->. rewrite build_order_zero. reflexivity.
  - intros Ho. rewrite build_order_negative by exact Ho. reflexivity.
Qed.

(** ---- C54: the error of the Taylor polynomial ---- *)
Lemma lagrange n m delta E c : curve_with_derivatives n (S m) delta E -> 1 < delta -> (c < n)%nat ->
  exists z, 0 < z < 1 /\ nth c (E 0%nat 1) 0 = nth c (E 0%nat 0) 0 + rsum m (fun k => nth c (E (S k) 0) 0 / INR (fact (S k))) + nth c (E (S m) z) 0 / INR (fact (S m)).
Proof.
  intros [LE DE] Hd Hc. set (f := fun t => nth c (E 0%nat t) 0).
  assert (DN : forall k t, (k <= S m)%nat -> Rabs t < delta -> is_derive_n f k t (nth c (E k t) 0)).
  { induction k as [|k IH]; intros t Hk Ht; [reflexivity|]. cbn [is_derive_n]. apply (is_derive_ext_loc (fun s => nth c (E k s) 0)).
    - generalize (near_abs delta t Ht). apply filter_imp. intros s Hs. symmetry. apply is_derive_n_unique, IH; [lia|exact Hs].
    - apply DE; [lia|exact Ht|exact Hc]. }
  destruct (Taylor_Lagrange f m 0 1) as [z [Hz Ez]]; [lra| |].
  - intros t Ht k Hk. assert (At : Rabs t < delta) by (rewrite Rabs_right; lra). destruct k; [exact I|]. exists (nth c (E (S k) t) 0). exact (DN (S k) t Hk At).
  - exists z. split; [exact Hz|]. unfold f in Ez at 1. rewrite Ez. replace (1 - 0) with 1 by ring. f_equal.
    + assert (Q : forall N, (N <= m)%nat -> sum_f_R0 (fun k => 1 ^ k / INR (fact k) * Derive_n f k 0) N = nth c (E 0%nat 0) 0 + rsum N (fun k => nth c (E (S k) 0) 0 / INR (fact (S k)))).
      { induction N as [|N IHN]; intros HN.
        - cbn [sum_f_R0 pow fact INR rsum]. unfold f. cbn [Derive_n]. field.
        - rewrite tech5, IHN by lia. rewrite (is_derive_n_unique _ _ _ _ (DN (S N) 0 ltac:(lia) ltac:(rewrite Rabs_R0; lra))). rewrite pow1. cbn [rsum]. unfold Rdiv. ring. }
      exact (Q m (le_n m)).
    + rewrite (is_derive_n_unique _ _ _ _ (DN (S m) z (le_n _) ltac:(rewrite Rabs_right; lra))). rewrite pow1. unfold Rdiv. ring.
Qed.
