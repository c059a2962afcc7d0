(** Property C111: the terms that print_terms shows. *)
From Coq Require Import String Reals List Bool Arith ZArith Lia Lra.
From Verif Require Import Res RSum ModelSparse ModelObjective ModelSensitivity ModelPrint SpecPrint SpecSensitivity LemmasFaa LemmasOnce LemmasSensFuns PropsSensitivity.
Import List ListNotations.
Open Scope R_scope.
Set Bullet Behavior "Strict Subproofs".

(** C111: which orders are printed; [terms] is the list of terms of the expansion of the given order *)
Theorem C111_which_orders : forall solve g in0 hy0 hess0 order terms fs, (0 < order)%nat -> build_order solve g in0 hy0 hess0 (Z.of_nat order) = Ok (terms, fs) ->
  print_terms (Z.of_nat order) terms None = (flat_map (fun j => Heading (Z.of_nat (S j)) :: map term_str (nth j terms [])) (seq 0 order), Ok tt) /\
  (forall k, (1 <= k <= order)%nat -> print_terms (Z.of_nat order) terms (Some (Z.of_nat k)) = (Heading (Z.of_nat k) :: map term_str (nth (k - 1) terms []), Ok tt)) /\
  (forall k, (Z.of_nat order < k)%Z -> print_terms (Z.of_nat order) terms (Some k) = ([], Raise ValueError)) /\
  (forall k, (k <= 0)%Z -> print_terms (Z.of_nat order) terms (Some k) = ([], Ok tt)).
Proof.
  intros solve g in0 hy0 hess0 order terms fs Ho HB. destruct (print_pages solve g in0 hy0 hess0 order terms fs Ho HB) as [A [B [C D]]]. split; [exact A|]. split; [|split; assumption].
  intros k Hk. rewrite (B k Hk). unfold page. replace (S (k - 1)) with k by lia. reflexivity.
Qed.
Print Assumptions C111_which_orders.
(** every printed term has the announced order, and every derivative of that order is printed exactly once, with the coefficient of Faa
    di Bruno's formula *)
Theorem C111_faa_di_bruno : forall solve g in0 hy0 hess0 order terms fs, (0 < order)%nat -> build_order solve g in0 hy0 hess0 (Z.of_nat order) = Ok (terms, fs) ->
  forall k out, (1 <= k <= order)%nat -> print_terms (Z.of_nat order) terms (Some (Z.of_nat k)) = (out, Ok tt) ->
  (exists rest, out = Heading (Z.of_nat k) :: rest /\ forall l, In l rest -> exists c e m, l = TermLine (Z.of_nat k) c (map Z.of_nat m) (Z.of_nat e) /\ of_order k e m) /\
  forall e m, of_order k e m -> printed_prefactors e m out = [faa_di_bruno k e m].
Proof. exact print_once. Qed.
Print Assumptions C111_faa_di_bruno.
(** C51: in the expansions themselves the early removals do no harm *)
Theorem C51_expansions_consolidated : forall solve g in0 hy0 hess0 order terms fs, (0 < order)%nat -> build_order solve g in0 hy0 hess0 (Z.of_nat order) = Ok (terms, fs) ->
  forall ts, In ts terms -> NoDup (map (fun t => (dt_eps t, dt_eta t)) ts).
Proof. exact built_nodup. Qed.
Print Assumptions C51_expansions_consolidated.
(** C53: the functions the expansion stores. Called anywhere within the tolerance they return the derivative at the base point, whatever
    the arguments; outside it they raise AssertionError. Without a tolerance the two points are not looked at *)
Theorem C53_functions : forall solve g in0 hy0 hess0 order terms fs, (0 < order)%nat -> build_order solve g in0 hy0 hess0 (Z.of_nat order) = Ok (terms, fs) -> in0 <> [] -> hy0 <> [] ->
  forall f, In f fs -> forall x y d, length x = length in0 -> length y = length hy0 ->
  f None x y d = f None in0 hy0 d /\
  forall tol,
  ((forall i, (i < length in0)%nat -> Rabs (nth i x 0 - nth i in0 0) <= tol) -> (forall i, (i < length hy0)%nat -> Rabs (nth i y 0 - nth i hy0 0) <= tol) ->
   f (Some tol) x y d = f None in0 hy0 d) /\
  ((exists i, (i < length in0)%nat /\ tol < Rabs (nth i x 0 - nth i in0 0)) \/ (exists i, (i < length hy0)%nat /\ tol < Rabs (nth i y 0 - nth i hy0 0)) ->
   f (Some tol) x y d = Raise AssertionError).
Proof. exact stored_functions. Qed.
Print Assumptions C53_functions.
(** C53, C54: set_order on an existing approximation gives the approximation that the constructor gives for that order, whatever the
    parameters hold at the time; with an order that is not positive it raises, and every evaluation afterwards raises ValueError *)
Theorem C53_C54_set_order : forall solve f h Chol (cho_factor : rmat2 -> res Chol) trace trace2 inf hf st0 in0 hy0 order hess_arg st1 ty,
  taylor_init solve f h Chol cho_factor trace inf hf st0 in0 hy0 order hess_arg = (st1, Ok ty) ->
  (forall order', (0 < order')%Z -> exists ty', taylor_init solve f h Chol cho_factor trace inf hf st0 in0 hy0 order' hess_arg = (st1, Ok ty') /\
     forall st, set_order solve h inf hf (with_st ty st) order' = (with_st ty' st, Ok tt)) /\
  (forall order' st ty' r, (order' <= 0)%Z -> set_order solve h inf hf (with_st ty st) order' = (ty', r) ->
     r = Raise (if (order' =? 0)%Z then AssertionError else IndexError) /\
     (forall d k tol, evaluate_dkinput_dhyperk solve h trace2 inf hf ty' d k tol = (ty', Raise ValueError)) /\
     (forall d off m tol, evaluate_taylor_series solve h trace2 inf hf ty' d off m tol = (ty', Raise ValueError))).
Proof. exact set_order_again. Qed.
Print Assumptions C53_C54_set_order.
(** the expansion exists for every order; a derivative of order 4 and its coefficient; the printed page of order 2 *)
Example C111_nonvacuous : forall solve g in0 hy0 hess0, (exists terms fs, build_order solve g in0 hy0 hess0 4 = Ok (terms, fs)) /\
  of_order 4 1 [1; 1; 0; 0]%nat /\ faa_di_bruno 4 1 [1; 1; 0; 0]%nat = 12 /\
  exists terms fs out, build_order solve g in0 hy0 hess0 2 = Ok (terms, fs) /\ print_terms 2 terms (Some 2%Z) = (out, Ok tt) /\
    printed_prefactors 2 [0; 0]%nat out = [1] /\ printed_prefactors 1 [1; 0]%nat out = [1 + 1] /\ printed_prefactors 0 [2; 0]%nat out = [1] /\ printed_prefactors 0 [0; 1]%nat out = [1 * 1].
Proof.
  intros. destruct (C52_order_ok solve g in0 hy0 hess0 4 ltac:(lia)) as [t4 [f4 [E4 _]]]. split; [exists t4, f4; exact E4|]. split; [split; reflexivity|].
  split; [unfold faa_di_bruno; cbn; field|]. do 3 eexists. split; [reflexivity|]. split; [reflexivity|]. cbn. repeat split.
Qed.
