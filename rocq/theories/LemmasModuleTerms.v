(** The module's own functions: differentiating the base terms again and again gives the derivatives of an implicitly defined curve. *)
From Coq Require Import String Reals List Bool Arith ZArith Lia Lra Permutation.
From Coquelicot Require Import Coquelicot.
From Verif Require Import Res Num Nd RSum ModelAutograd ModelSparse ModelParameters ModelMatrix ModelSimplex ModelProjection ModelDict ModelObjective ModelSensitivity.
From Verif Require Import SpecParameters LemmasParameters LemmasPrecond SpecSmooth SpecSensitivity LemmasSmooth LemmasDirDeriv LemmasTerms LemmasTermsNat LemmasSensCalc LemmasSens LemmasSensMain.
Import List ListNotations.
Open Scope R_scope.
Set Bullet Behavior "Strict Subproofs".

Section Root.
Variable solve : rmat2 -> vec -> res vec.
Hypothesis Hsolve : solves_systems solve.
Variables (n p K : nat) (U : list R -> Prop) (g : pyfun) (G : nat -> list R -> R) (delta : R) (E : nat -> R -> list R) (eps0 deps : list R) (H : rmat2).
Hypothesis Hg : two_arg_fun n p n U g G.
Hypothesis HS : smooth_root n p K U G delta E eps0 deps H.

Lemma root_derive_n c k t : (c < n)%nat -> (0 < k)%nat -> Rabs t < delta -> Derive_n (fun s => G c (along E eps0 deps s)) k t = 0.
Proof.
  intros Hc Hk Ht. destruct HS as [_ [_ [_ [_ [_ [_ [_ [_ [_ [HR _]]]]]]]]]].
  rewrite (Derive_n_ext_loc _ (fun _ => 0)).
  - destruct k; [lia|]. apply Derive_n_const.
  - generalize (near_abs delta t Ht). apply filter_imp. intros s Hs. apply HR; assumption.
Qed.

Lemma level_solution M j l funs : level (S j) l -> (S j <= K)%nat ->
  (forall i, (i < j)%nat -> exists h : etafun, nth_error funs i = Some h /\ h (E 0%nat 0) eps0 deps = Ok (E (S i) 0)) ->
  evaluate_dketa_depsk solve H (map (conc g M funs) l) (E 0%nat 0) eps0 deps = Ok (E (S j) 0).
Proof.
  intros Hl HK Hf. destruct HS as [Hn [Hp [Hd [Leps [Ldeps [O [HC [HcE [HU [HR [Hns HH]]]]]]]]]]].
  pose proof HcE as [LE _]. assert (R0 : Rabs 0 < delta) by (rewrite Rabs_R0; exact Hd). unfold evaluate_dketa_depsk.
  destruct (terms_value n p n U g G K delta E eps0 deps O Hg HC HcE HU Leps Ldeps M (S j) funs j false l 0 (level_ok _ _ Hl)) as [r [Er Hr]]; [lia|exact R0| |lia|].
  - intros i Hi. rewrite move_0. apply Hf, Hi.
  - rewrite move_0 in Er. rewrite Er. cbn [rbind]. destruct r as [v|]; [|exfalso; apply (level_used _ _ Hl); exact Hr]. destruct Hr as [Lv Hv].
    destruct (Hsolve n H v Hns Lv) as [x [Ex [Lx Hx]]]. rewrite Ex. cbn [rbind]. f_equal. apply list_eq_nth; [rewrite vscale_length, LE; exact Lx|]. intros i Hi. rewrite vscale_length, Lx in Hi. rewrite vscale_nth.
    destruct Hns as [_ [_ Inj]]. pose proof (Inj (map (fun k => -1 * nth k x 0 - nth k (E (S j) 0) 0) (seq 0 n)) ltac:(rewrite map_length, seq_length; reflexivity)) as Q.
    assert (Z : nth i (map (fun k => -1 * nth k x 0 - nth k (E (S j) 0) 0) (seq 0 n)) 0 = 0).
    { apply Q; [|exact Hi]. intros c Hc. rewrite (rsum_ext n _ (fun k => -1 * (rm_get H c k * nth k x 0) - ad_partial (G c) k (along E eps0 deps 0) * nth k (E (S j) 0) 0)).
      - rewrite rsum_minus, rsum_scal_l, Hx by exact Hc. rewrite Hv by exact Hc.
        pose proof (level_split n p n G K delta E eps0 deps HcE Leps Ldeps (S j) l Hl ltac:(lia) 0 c R0 Hc) as SP.
        pose proof (level_derive n p n U G K delta E eps0 deps O HC HcE HU Leps Ldeps (S j) l Hl ltac:(lia) 0 c R0 Hc) as DV. apply is_derive_n_unique in DV. rewrite root_derive_n in DV by (first [exact Hc|exact R0|lia]). rewrite <- DV in SP. lra.
      - intros k Hk. rewrite nth_map_seq by exact Hk. pose proof (HH c k Hc Hk) as P. unfold along. rewrite move_0. rewrite (ad_partial_eq _ _ _ _ P). ring. }
    rewrite nth_map_seq in Z by exact Hi. lra.
Qed.

Lemma expansion_invariant M arr : generate_two_term_derivative_array g (Z.of_nat M) = Ok arr -> (K < M)%nat -> forall k, (k < K)%nat ->
  exists funs l, expansion_terms solve H arr k = Ok (map (conc g M funs) l) /\ level (S k) l /\ length funs = k /\
    forall i, (i < k)%nat -> exists h : etafun, nth_error funs i = Some h /\ h (E 0%nat 0) eps0 deps = Ok (E (S i) 0).
Proof.
  intros Ha HM. rewrite gen_array in Ha by lia. injection Ha as <-. induction k as [|k IH]; intros Hk.
  - exists [], [(1%nat, [0%nat], 1); (0%nat, [1%nat], 1)]. split; [apply base_ok; lia|]. split; [apply level_base|]. split; [reflexivity|]. intros; lia.
  - destruct (IH ltac:(lia)) as [funs [l [Et [Hl [Lf Hf]]]]]. cbn [expansion_terms]. rewrite Et. cbn [rbind]. unfold differentiate_terms_module.
    set (next := fun eta eps d => evaluate_dketa_depsk solve H (map (conc g M funs) l) eta eps d).
    destruct (differentiate_list g M (S k) funs l next (level_ok _ _ Hl)) as [r [Er [Fr [Ir Wr]]]]; [lia|lia|lia|].
    exists (funs ++ [next]), r. split; [exact Er|]. split; [apply (level_next _ l); assumption|]. split; [rewrite app_length; cbn [length]; lia|].
    intros i Hi. destruct (Nat.eq_dec i k) as [->|Ni].
    + exists next. split; [rewrite nth_error_app2 by lia; rewrite Lf, Nat.sub_diag; reflexivity|]. unfold next. apply level_solution; [exact Hl|lia|exact Hf].
    + destruct (Hf i ltac:(lia)) as [h [Eh Hh]]. exists h. split; [rewrite nth_error_app1 by lia; exact Eh|exact Hh].
Qed.
Lemma module_derivatives M arr : generate_two_term_derivative_array g (Z.of_nat M) = Ok arr -> (K < M)%nat -> forall k, (k < K)%nat ->
  exists ts, expansion_terms solve H arr k = Ok ts /\ evaluate_dketa_depsk solve H ts (E 0%nat 0) eps0 deps = Ok (E (S k) 0).
Proof.
  intros Ha HM k Hk. destruct (expansion_invariant M arr Ha HM k Hk) as [funs [l [Et [Hl [_ Hf]]]]]. exists (map (conc g M funs) l). split; [exact Et|]. apply level_solution; [exact Hl|lia|exact Hf].
Qed.
End Root.
