(** Model of LinearResponseVariationalBayes/SparseObjectives.py, lines 48-449: Logger, Objective, ParameterConverter,
    TwoParameterObjective.
    During differentiation autograd calls the Python functions with tracing objects (ArrayBox) in place of numbers; the
    parameters then hold tracing objects. A traced parameter is a parameter tree whose leaves carry a mark telling
    whether the stored value is a tracing object.
    SIMPLIFICATIONS: the user's function reads the parameter and its other arguments and nothing else; extra arguments
    are one value of an arbitrary type; keyword arguments are not passed on to the logger during differentiation. *)
From Coq Require Import String Reals List Bool Arith ZArith.
From Verif Require Import Res Num Nd RSum ModelAutograd ModelSparse ModelParameters ModelMatrix ModelSimplex ModelProjection ModelDict.
Import List ListNotations.
Open Scope R_scope.

(** ---- Logger, SparseObjectives.py:48-87 ---- *)
Section Logger.
Context {V X : Type}.
(** whether np.max(np.abs(x - last_x)) evaluates without raising *)
Variable diff_ok : X -> X -> bool.
Record logger := LoggerS
  { lg_every : Z; lg_iter : nat; lg_last_x : option X; lg_x : option X; lg_value : option V; lg_last_value : option V;
    lg_x_array : list X; lg_val_array : list V;
    lg_events : list (nat * option V) (** the messages printed (or callbacks made): iter and value at that time *) }.
(** SparseObjectives.py:49-62 *)
Definition logger_initialize (print_every : Z) (events : list (nat * option V)) : logger :=
  LoggerS print_every 0 None None None None [] [] events.
Definition logger_init (print_every : Z) : logger := logger_initialize print_every [].
(** SparseObjectives.py:67-87; Python's % is floor division's remainder *)
Definition logger_log (l : logger) (value : V) (x : X) : logger * res unit :=
  let l1 := LoggerS (lg_every l) (lg_iter l) (lg_last_x l) (Some x) (Some value) (lg_last_value l) (lg_x_array l ++ [x]) (lg_val_array l ++ [value]) (lg_events l) in
  if negb (match lg_last_x l with None => true | Some y => diff_ok x y end) then (l1, Raise ValueError)
  else
    let l2 := LoggerS (lg_every l) (lg_iter l) (Some x) (Some x) (Some value) (Some value) (lg_x_array l1) (lg_val_array l1) (lg_events l) in
    if Z.eqb (lg_every l) 0 then (l2, Raise ZeroDivisionError)
    else
      let ev := if Z.eqb (Z.of_nat (lg_iter l) mod lg_every l) 0 then lg_events l ++ [(lg_iter l, Some value)] else lg_events l in
      (LoggerS (lg_every l) (S (lg_iter l)) (Some x) (Some x) (Some value) (Some value) (lg_x_array l1) (lg_val_array l1) ev, Ok tt).
Fixpoint log_all (l : logger) (calls : list (V * X)) : logger * res unit :=
  match calls with
  | [] => (l, Ok tt)
  | (v, x) :: tl => match logger_log l v x with
                    | (l', Ok _) => log_all l' tl
                    | (l', Raise e) => (l', Raise e)
                    end
  end.
End Logger.
Arguments logger V X : clear implicits.

(** ---- traced parameters ---- *)
Inductive tparam :=
| TLeaf (l : leaf) (boxed : bool)
| TDict (name : string) (ents : list (string * tparam)) (fidx vidx : list (string * (nat * nat))) (fsize vsize : nat).
(** an array argument, possibly a tracing object *)
Record targ := TArg { ta_val : arr; ta_box : bool }.
Definition num_arg (a : arr) : targ := TArg a false.

Fixpoint erase (t : tparam) : param :=
  match t with
  | TLeaf l _ => Leaf l
  | TDict nm ents fi vi fs vs => Dict nm (map (fun e => (fst e, erase (snd e))) ents) fi vi fs vs
  end.
(** some leaf holds a tracing object *)
Fixpoint any_boxed (t : tparam) : bool :=
  match t with
  | TLeaf _ b => b
  | TDict _ ents _ _ _ _ => existsb (fun e => any_boxed (snd e)) ents
  end.
Definition t_free_size (t : tparam) : nat := p_free_size (erase t).
Definition t_vector_size (t : tparam) : nat := p_vector_size (erase t).
(** a parameter all of whose values are numbers *)
Fixpoint numeric (p : param) : tparam :=
  match p with
  | Leaf l => TLeaf l false
  | Dict nm ents fi vi fs vs => TDict nm (map (fun e => (fst e, numeric (snd e))) ents) fi vi fs vs
  end.

(** the setters of ModelDict.v with marks: a leaf whose setter succeeds holds a tracing object iff the argument is one *)
Definition t_leaf_set (set : leaf -> arr -> leaf * res unit) (l : leaf) (b : bool) (v : targ) : tparam * res unit :=
  match set l (ta_val v) with
  | (l', Ok _) => (TLeaf l' (ta_box v), Ok tt)
  | (l', Raise e) => (TLeaf l' b, Raise e)
  end.
Fixpoint t_set_free (t : tparam) (vec : targ) {struct t} : tparam * res unit :=
  match t with
  | TLeaf l b => t_leaf_set leaf_set_free l b vec
  | TDict nm ents fi vi fs vs =>
      if negb (Nat.eqb (nd_size (ta_val vec)) fs) then (t, Raise ValueError)
      else
        let r := (fix go (l : list (string * tparam)) (offset : nat) : list (string * tparam) * res unit :=
             match l with
             | [] => ([], Ok tt)
             | (k, q) :: tl =>
                 match np_slice (ta_val vec) offset (offset + t_free_size q) with
                 | Raise e => (l, Raise e)
                 | Ok s =>
                     let r := t_set_free q (TArg s (ta_box vec)) in
                     match snd r with
                     | Ok _ => let r' := go tl (offset + t_free_size (fst r))%nat in ((k, fst r) :: fst r', snd r')
                     | Raise e => ((k, fst r) :: tl, Raise e)
                     end
                 end
             end) ents 0%nat in
        (TDict nm (fst r) fi vi fs vs, snd r)
  end.
Fixpoint t_set_vector (t : tparam) (vec : targ) {struct t} : tparam * res unit :=
  match t with
  | TLeaf l b => t_leaf_set leaf_set_vector l b vec
  | TDict nm ents fi vi fs vs =>
      if negb (Nat.eqb (nd_size (ta_val vec)) vs) then (t, Raise ValueError)
      else
        let r := (fix go (l : list (string * tparam)) (offset : nat) : list (string * tparam) * res unit :=
             match l with
             | [] => ([], Ok tt)
             | (k, q) :: tl =>
                 match np_slice (ta_val vec) offset (offset + t_vector_size q) with
                 | Raise e => (l, Raise e)
                 | Ok s =>
                     let r := t_set_vector q (TArg s (ta_box vec)) in
                     match snd r with
                     | Ok _ => let r' := go tl (offset + t_vector_size (fst r))%nat in ((k, fst r) :: fst r', snd r')
                     | Raise e => ((k, fst r) :: tl, Raise e)
                     end
                 end
             end) ents 0%nat in
        (TDict nm (fst r) fi vi fs vs, snd r)
  end.
Definition t_get_vector (t : tparam) : res targ := do a <- p_get_vector (erase t); Ok (TArg a (any_boxed t)).
Definition t_get_free (t : tparam) : res targ := do a <- p_get_free (erase t); Ok (TArg a (any_boxed t)).
(** SparseObjectives.py:312-316 *)
Definition set_par (t : tparam) (v : targ) (is_free : bool) : tparam * res unit :=
  if is_free then t_set_free t v else t_set_vector t v.

(** ---- Objective, SparseObjectives.py:95-193 ---- *)
Section Objective.
Context {A Val : Type}.
(** the function bound to the parameter *)
Variable user_fun : tparam -> A -> res Val.
(** SparseObjectives.py:120-129; without verbose *)
Definition fun_free (t : tparam) (x : targ) (a : A) : tparam * res Val :=
  match t_set_free t x with
  | (t', Ok _) => (t', user_fun t' a)
  | (t', Raise e) => (t', Raise e)
  end.
Definition fun_vector (t : tparam) (x : targ) (a : A) : tparam * res Val :=
  match t_set_vector t x with
  | (t', Ok _) => (t', user_fun t' a)
  | (t', Raise e) => (t', Raise e)
  end.
(** SparseObjectives.py:120-125 with verbose=True *)
Definition fun_free_verbose {X} (diff_ok : X -> X -> bool) (to_x : targ -> X) (t : tparam) (lg : logger Val X) (x : targ) (a : A)
  : tparam * logger Val X * res Val :=
  match fun_free t x a with
  | (t', Raise e) => (t', lg, Raise e)
  | (t', Ok v) => match logger_log diff_ok lg v (to_x x) with
                  | (lg', Ok _) => (t', lg', Ok v)
                  | (lg', Raise e) => (t', lg', Raise e)
                  end
  end.
End Objective.
(** What an autograd derivative of a function does to the parameter: any number of evaluations of the function, each of which
    calls one of the setters with some argument (and may raise). *)
Inductive traced : tparam -> tparam -> Prop :=
| tr_refl t : traced t t
| tr_free t t' v : traced t t' -> traced t (fst (t_set_free t' v))
| tr_vector t t' v : traced t t' -> traced t (fst (t_set_vector t' v)).
(** an autograd derivative function applied to the parameter's current state, the argument and the extra arguments *)
Definition ag_function (A Out : Type) := tparam -> targ -> A -> tparam * res Out.
(** SparseObjectives.py:142-145 (fun_free_grad, fun_free_hessian, fun_free_jacobian: 152-162; fun_free_hvp, where the
    vector is among the extra arguments: 183-187) *)
Definition cache_free_and_eval {A Out} (autograd_fun : ag_function A Out) (t : tparam) (free_val : targ) (a : A) : tparam * res Out :=
  match autograd_fun t free_val a with
  | (t1, Raise e) => (t1, Raise e)
  | (t1, Ok result) => match t_set_free t1 free_val with
                       | (t2, Ok _) => (t2, Ok result)
                       | (t2, Raise e) => (t2, Raise e)
                       end
  end.
(** SparseObjectives.py:147-150, 164-174, 189-193 *)
Definition cache_vector_and_eval {A Out} (autograd_fun : ag_function A Out) (t : tparam) (vec_val : targ) (a : A) : tparam * res Out :=
  match autograd_fun t vec_val a with
  | (t1, Raise e) => (t1, Raise e)
  | (t1, Ok result) => match t_set_vector t1 vec_val with
                       | (t2, Ok _) => (t2, Ok result)
                       | (t2, Raise e) => (t2, Raise e)
                       end
  end.

(** ---- preconditioning, SparseObjectives.py:202-240 ---- *)
(** a matrix of finite numbers *)
Record rmat2 := RMat { rm_rows : nat; rm_cols : nat; rm_get : nat -> nat -> R }.
Definition rm_T (M : rmat2) : rmat2 := RMat (rm_cols M) (rm_rows M) (fun i j => rm_get M j i).
(** safe_matmul(M, x) for a vector and for a matrix *)
Definition mat_vec (M : rmat2) (x : list R) : res (list R) :=
  if negb (Nat.eqb (rm_cols M) (length x)) then Raise ValueError
  else Ok (map (fun i => rsum (rm_cols M) (fun k => rm_get M i k * nth k x 0)) (seq 0 (rm_rows M))).
Definition mat_mat (M N : rmat2) : res rmat2 :=
  if negb (Nat.eqb (rm_cols M) (rm_rows N)) then Raise ValueError
  else Ok (RMat (rm_rows M) (rm_cols N) (fun i j => rsum (rm_cols M) (fun k => rm_get M i k * rm_get N k j))).
Definition fin_arg (x : list R) : targ := num_arg (nd_vec (map Fin x)).

Section Precond.
Context {A : Type}.
Variable user_fun : tparam -> A -> res R.
(** the objective as a real function of the free value, as autograd differentiates it *)
Definition free_real (t : tparam) (a : A) (x : list R) : R :=
  match snd (fun_free user_fun t (fin_arg x) a) with Ok v => v | Raise _ => 0 end.
(** the parameter's state after autograd has traced the function *)
Variable trace : tparam -> list R -> tparam.
(** autograd.grad / hessian / hessian_vector_product: exact derivatives of free_real *)
Definition ag_grad (t : tparam) (x : list R) (a : A) : list R := map (fun j => ad_partial (free_real t a) j x) (seq 0 (length x)).
Definition ag_hessian (t : tparam) (x : list R) (a : A) : rmat2 :=
  RMat (length x) (length x) (fun i j => ad_partial (fun y => ad_partial (free_real t a) j y) i x).
Definition ag_hvp (t : tparam) (x : list R) (a : A) (v : list R) : list R :=
  map (fun i => ad_partial (fun y => rsum (length y) (fun j => ad_partial (free_real t a) j y * nth j v 0)) i x) (seq 0 (length x)).
Definition after_cache {Out} (t : tparam) (x : list R) (a : A) (out : res Out) : tparam * res Out :=
  cache_free_and_eval (fun t _ _ => (trace t x, out)) t (fin_arg x) a.
Definition fun_free_grad (t : tparam) (x : list R) (a : A) : tparam * res (list R) := after_cache t x a (Ok (ag_grad t x a)).
Definition fun_free_hessian (t : tparam) (x : list R) (a : A) : tparam * res rmat2 := after_cache t x a (Ok (ag_hessian t x a)).
(** tensordot of the gradient with a vector of another length raises ValueError *)
Definition fun_free_hvp (t : tparam) (x : list R) (a : A) (v : list R) : tparam * res (list R) :=
  after_cache t x a (if Nat.eqb (length v) (length x) then Ok (ag_hvp t x a v) else Raise ValueError).

Definition need {B} (pre : option rmat2) (t : tparam) (k : rmat2 -> tparam * res B) : tparam * res B :=
  match pre with Some M => k M | None => (t, Raise AssertionError) end.
Definition lift_res {B C} (r : tparam * res B) (k : B -> res C) : tparam * res C := (fst r, do b <- snd r; k b).
(** SparseObjectives.py:207-210 *)
Definition fun_free_cond (pre : option rmat2) (t : tparam) (x : list R) (a : A) : tparam * res R :=
  need pre t (fun M => match mat_vec M x with
                       | Raise e => (t, Raise e)
                       | Ok y => fun_free user_fun t (fin_arg y) a
                       end).
(** SparseObjectives.py:212-216 *)
Definition fun_free_grad_cond (pre : option rmat2) (t : tparam) (x : list R) (a : A) : tparam * res (list R) :=
  need pre t (fun M => match mat_vec M x with
                       | Raise e => (t, Raise e)
                       | Ok y => lift_res (fun_free_grad t y a) (fun grad => mat_vec (rm_T M) grad)
                       end).
(** SparseObjectives.py:218-223 *)
Definition fun_free_hessian_cond (pre : option rmat2) (t : tparam) (x : list R) (a : A) : tparam * res rmat2 :=
  need pre t (fun M => match mat_vec M x with
                       | Raise e => (t, Raise e)
                       | Ok y => lift_res (fun_free_hessian t y a) (fun hess => do hm <- mat_mat hess M; mat_mat (rm_T M) hm)
                       end).
(** SparseObjectives.py:226-235 *)
Definition fun_free_hvp_cond (pre : option rmat2) (t : tparam) (x : list R) (a : A) (v : list R) : tparam * res (list R) :=
  need pre t (fun M => match mat_vec M x with
                       | Raise e => (t, Raise e)
                       | Ok y => match mat_vec M v with
                                 | Raise e => (t, Raise e)
                                 | Ok mv => lift_res (fun_free_hvp t y a mv) (fun h => mat_vec (rm_T M) h)
                                 end
                       end).
End Precond.
(** SparseObjectives.py:239-240; without a preconditioner numpy's matmul of None raises ValueError *)
Definition uncondition_x (pre : option rmat2) (x : list R) : res (list R) :=
  match pre with Some M => mat_vec M x | None => Raise ValueError end.

(** ---- ParameterConverter, SparseObjectives.py:245-308 ---- *)
Section Converter.
(** the two parameters and what the converter does to them (it may raise) *)
Definition pair_state : Type := tparam * tparam.
Variable converter : pair_state -> pair_state * res unit.
(** SparseObjectives.py:260-278 *)
Definition converter_eval (in_free out_free : bool) (st : pair_state) (v : targ) : pair_state * res targ :=
  match set_par (fst st) v in_free with
  | (pin, Raise e) => ((pin, snd st), Raise e)
  | (pin, Ok _) => match converter (pin, snd st) with
                   | (st', Raise e) => (st', Raise e)
                   | (st', Ok _) => (st', if out_free then t_get_free (snd st') else t_get_vector (snd st'))
                   end
  end.
(** what an autograd Jacobian of one of these functions does to the two parameters *)
Inductive conv_traced (in_free out_free : bool) : pair_state -> pair_state -> Prop :=
| ct_refl st : conv_traced in_free out_free st st
| ct_eval st st' v : conv_traced in_free out_free st st' -> conv_traced in_free out_free st (fst (converter_eval in_free out_free st' v)).
(** SparseObjectives.py:280-292, with 294-308 *)
Definition converter_jacobian {Out} (in_free : bool) (autograd_fun : pair_state -> targ -> pair_state * res Out) (st : pair_state) (v : targ)
  : pair_state * res Out :=
  match t_get_vector (snd st) with
  | Raise e => (st, Raise e)
  | Ok vec_val_out =>
      match autograd_fun st v with
      | (st1, Raise e) => (st1, Raise e)
      | (st1, Ok result) =>
          match set_par (fst st1) v in_free with
          | (pin, Raise e) => ((pin, snd st1), Raise e)
          | (pin, Ok _) => match t_set_vector (snd st1) vec_val_out with
                           | (pout, Raise e) => ((pin, pout), Raise e)
                           | (pout, Ok _) => ((pin, pout), Ok result)
                           end
          end
      end
  end.
End Converter.

(** ---- TwoParameterObjective, SparseObjectives.py:321-449 ---- *)
(** SparseObjectives.py:348-349 and 357-358: both parameters are set, in this order *)
Definition set_both (st : pair_state) (v1 v2 : targ) (free1 free2 : bool) : pair_state * res unit :=
  match set_par (fst st) v1 free1 with
  | (p1, Raise e) => ((p1, snd st), Raise e)
  | (p1, Ok _) => match set_par (snd st) v2 free2 with
                  | (p2, Raise e) => ((p1, p2), Raise e)
                  | (p2, Ok _) => ((p1, p2), Ok tt)
                  end
  end.
Section TwoParameter.
Context {A Val : Type}.
Variable user_fun2 : pair_state -> A -> res Val.
(** SparseObjectives.py:353-359 *)
Definition eval_fun (st : pair_state) (v1 v2 : targ) (free1 free2 : bool) (a : A) : pair_state * res Val :=
  match set_both st v1 v2 free1 free2 with
  | (st', Raise e) => (st', Raise e)
  | (st', Ok _) => (st', user_fun2 st' a)
  end.
(** SparseObjectives.py:361-371 *)
Definition two_fun_free (st : pair_state) (v1 v2 : targ) (a : A) := eval_fun st v1 v2 true true a.
Definition two_fun_vector (st : pair_state) (v1 v2 : targ) (a : A) := eval_fun st v1 v2 false false a.
End TwoParameter.
(** what an autograd derivative of eval_fun does to the two parameters *)
Inductive two_traced (free1 free2 : bool) : pair_state -> pair_state -> Prop :=
| tt_refl st : two_traced free1 free2 st st
| tt_eval st st' v1 v2 : two_traced free1 free2 st st' -> two_traced free1 free2 st (fst (set_both st' v1 v2 free1 free2)).
Definition ag_function2 (A Out : Type) := pair_state -> targ -> targ -> bool -> bool -> A -> pair_state * res Out.
(** SparseObjectives.py:341-351 *)
Definition cache_and_eval {A Out} (autograd_fun : ag_function2 A Out) (st : pair_state) (v1 v2 : targ) (free1 free2 : bool) (a : A) : pair_state * res Out :=
  match autograd_fun st v1 v2 free1 free2 a with
  | (st1, Raise e) => (st1, Raise e)
  | (st1, Ok result) => match set_both st1 v1 v2 free1 free2 with
                        | (st2, Raise e) => (st2, Raise e)
                        | (st2, Ok _) => (st2, Ok result)
                        end
  end.
(** the derivative methods, SparseObjectives.py:373-449: which autograd function is called and in which form the values are set *)
Inductive which_fun := Grad1 | Grad2 | Hessian12 | Hessian21.
Inductive two_method :=
| FunGrad1 (free1 free2 : bool) | FunGrad2 (free1 free2 : bool) | FreeHessian12 | FreeHessian21
| VectorHessian12 | VectorHessian21 | HessianFree1Vector2 | HessianVector1Free2.
Definition method_spec (m : two_method) : which_fun * bool * bool :=
  match m with
  | FunGrad1 f1 f2 => (Grad1, f1, f2)
  | FunGrad2 f1 f2 => (Grad2, f1, f2)
  | FreeHessian12 => (Hessian12, true, true)
  | FreeHessian21 => (Hessian21, true, true)
  | VectorHessian12 => (Hessian12, false, false)
  | VectorHessian21 => (Hessian21, false, false)
  | HessianFree1Vector2 => (Hessian12, true, false)
  | HessianVector1Free2 => (Hessian12, false, true)
  end.
Definition two_call {A Out} (ag : which_fun -> ag_function2 A Out) (m : two_method) (st : pair_state) (v1 v2 : targ) (a : A) : pair_state * res Out :=
  let '(w, f1, f2) := method_spec m in cache_and_eval (ag w) st v1 v2 f1 f2 a.
(** the objective as a real function of the two values, and autograd's derivatives of it (SparseObjectives.py:333-339):
    grad1 along the first value, grad2 along the second; hessian12[i][j] differentiates grad1[i] by the j-th entry of the second value *)
Section TwoReal.
Context {A : Type}.
Variable user_fun2 : pair_state -> A -> res R.
Definition real2 (st : pair_state) (free1 free2 : bool) (a : A) (x1 x2 : list R) : R :=
  match snd (eval_fun user_fun2 st (fin_arg x1) (fin_arg x2) free1 free2 a) with Ok v => v | Raise _ => 0 end.
Definition ag_two (w : which_fun) (F : list R -> list R -> R) (x1 x2 : list R) : rmat2 :=
  match w with
  | Grad1 => RMat 1 (length x1) (fun _ i => ad_partial (fun y => F y x2) i x1)
  | Grad2 => RMat 1 (length x2) (fun _ j => ad_partial (fun y => F x1 y) j x2)
  | Hessian12 => RMat (length x1) (length x2) (fun i j => ad_partial (fun z => ad_partial (fun y => F y z) i x1) j x2)
  | Hessian21 => RMat (length x2) (length x1) (fun j i => ad_partial (fun z => ad_partial (fun y => F z y) j x2) i x1)
  end.
Variable trace2 : pair_state -> list R -> list R -> pair_state.
Definition two_method_real (m : two_method) (st : pair_state) (x1 x2 : list R) (a : A) : pair_state * res rmat2 :=
  two_call (fun w st _ _ f1 f2 a => (trace2 st x1 x2, Ok (ag_two w (real2 st f1 f2 a) x1 x2))) m st (fin_arg x1) (fin_arg x2) a.
End TwoReal.
