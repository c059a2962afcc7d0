(** Model of LinearResponseVariationalBayes/ModelSensitivity.py, and of the deprecated ParametricSensitivity class,
    SparseObjectives.py:487-577.
    TRUSTED: autograd.make_jvp is the exact directional derivative; np.linalg.solve, scipy's cho_factor and cho_solve are
    parameters (their contracts are hypotheses of the theorems).
    SIMPLIFICATION: one-dimensional arrays are lists of finite numbers. The closures of the Python code refer to the parameter
    objects; here they are rebuilt from the objects' current state whenever they are called. *)
From Coq Require Import String Reals List Bool Arith ZArith.
From Coquelicot Require Import Coquelicot.
From Verif Require Import Res Num Nd RSum ModelAutograd ModelSparse ModelParameters ModelMatrix ModelSimplex ModelProjection ModelDict ModelObjective.
Import List ListNotations.
Open Scope R_scope.

Definition vec := list R.
(** a Python function called with positional vector arguments *)
Definition pyfun := list vec -> res vec.
Definition vscale (c : R) (v : vec) : vec := map (fun y => c * y) v.
Definition vadd (u v : vec) : vec := map2 Rplus u v.

(** l[i] on a Python list: negative indices count from the end *)
Definition py_index {A} (l : list A) (i : Z) : res A :=
  let j := if Z.ltb i 0 then (i + Z.of_nat (length l))%Z else i in
  if Z.ltb j 0 then Raise IndexError
  else match nth_error l (Z.to_nat j) with Some a => Ok a | None => Raise IndexError end.

(** autograd.make_jvp(fun, argnum)(args...)(v)[1] *)
Definition make_jvp (f : pyfun) (argnum : nat) (args : list vec) (v : vec) : res vec :=
  do y <- f args;
  Ok (map (fun c => Derive (fun t => match f (upd args argnum (vadd (nth argnum args []) (vscale t v))) with Ok w => nth c w 0 | Raise _ => 0 end) 0)
          (seq 0 (length y))).

(** ModelSensitivity.py:38-62 *)
Definition append_jvp (f : pyfun) (num_base_args argnum : nat) : res pyfun :=
  rassert (Nat.ltb argnum num_base_args)
    (Ok (fun argv =>
      let base_args := firstn num_base_args argv in
      let vec_args := skipn num_base_args argv in
      match rev vec_args with
      | [] => Raise TypeError
      | v :: old => make_jvp f argnum (base_args ++ rev old) v
      end)).

(** ModelSensitivity.py:221-234 *)
Fixpoint gen_x2 (n : nat) (row : list pyfun) (x2_ind : nat) : res (list pyfun) :=
  match n with
  | O => Ok row
  | S n' => do f <- py_index row (Z.of_nat x2_ind);
            do next_deriv <- append_jvp f 2 1;
            gen_x2 n' (row ++ [next_deriv]) (S x2_ind)
  end.
Fixpoint gen_x1 (n : nat) (order : nat) (arr : list (list pyfun)) (x1_ind : nat) : res (list (list pyfun)) :=
  match n with
  | O => Ok arr
  | S n' =>
      do arr1 <- (if Nat.ltb 0 x1_ind
                  then do row <- py_index arr (Z.of_nat x1_ind - 1);
                       do f <- py_index row 0;
                       do next_deriv <- append_jvp f 2 0;
                       Ok (arr ++ [[next_deriv]])
                  else Ok arr);
      do row <- py_index arr1 (Z.of_nat x1_ind);
      do row' <- gen_x2 order row 0;
      gen_x1 n' order (upd arr1 x1_ind row') (S x1_ind)
  end.
Definition generate_two_term_derivative_array (f : pyfun) (order : Z) : res (list (list pyfun)) :=
  gen_x1 (Z.to_nat order) (Z.to_nat order) [[f]] 0.

(** eta derivative functions: called with (eta0, eps0, deps) *)
Definition etafun := vec -> vec -> vec -> res vec.
(** ModelSensitivity.py:83-119; isinstance(., int) holds by typing *)
Record dterm := DTerm
  { dt_eps : Z; dt_eta : list Z; dt_pref : R; dt_etafuns : list etafun; dt_gders : list (list pyfun);
    dt_order : Z; dt_gfun : pyfun }.
Definition zsum (l : list Z) : Z := fold_right Z.add 0%Z l.
Fixpoint weighted (i : Z) (l : list Z) : Z := match l with [] => 0%Z | k :: tl => (k * i + weighted (i + 1) tl)%Z end.
Definition make_term (eps : Z) (eta : list Z) (pref : R) (etafuns : list etafun) (gders : list (list pyfun)) : res dterm :=
  let order := (eps + weighted 1 eta)%Z in
  do row <- py_index gders (zsum eta);
  do gfun <- py_index row eps;
  rassert (Z.eqb (Z.of_nat (length eta)) order)
  (rassert (Z.leb 0 eps)
  (rassert (forallb (fun k => Z.leb 0 k) eta)
  (rassert (Z.leb (order - 1) (Z.of_nat (length etafuns)))
  (rassert (Nat.ltb (length eta) (length gders))
  (rassert (forallb (fun r : list pyfun => Z.ltb eps (Z.of_nat (length r))) gders)
  (Ok (DTerm eps eta pref etafuns gders order gfun))))))).

(** ModelSensitivity.py:125-139 *)
Fixpoint eta_args (etafuns : list etafun) (i : nat) (l : list Z) (eta0 eps0 deps : vec) : res (list vec) :=
  match l with
  | [] => Ok []
  | k :: tl =>
      do here <- (if Z.ltb 0 k
                  then do h <- py_index etafuns (Z.of_nat i); do v <- h eta0 eps0 deps; Ok (repeat v (Z.to_nat k))
                  else Ok []);
      do rest <- eta_args etafuns (S i) tl eta0 eps0 deps;
      Ok (here ++ rest)
  end.
Definition term_evaluate (t : dterm) (eta0 eps0 deps : vec) : res vec :=
  do etas <- eta_args (dt_etafuns t) 0 (dt_eta t) eta0 eps0 deps;
  let vec_args := etas ++ repeat deps (Z.to_nat (dt_eps t)) in
  do y <- dt_gfun t (eta0 :: eps0 :: vec_args);
  Ok (vscale (dt_pref t) y).

(** ModelSensitivity.py:141-187 *)
Definition zbump (l : list Z) (i : nat) (d : Z) : list Z := upd l i (nth i l 0 + d)%Z.
Fixpoint shift_terms (t : dterm) (funs : list etafun) (old : list Z) (i : nat) (l : list Z) : res (list dterm) :=
  match l with
  | [] => Ok []
  | k :: tl =>
      do here <- (if Z.ltb 0 k
                  then do s <- make_term (dt_eps t) (zbump (zbump old i (-1)) (S i) 1) (dt_pref t * IZR k) funs (dt_gders t); Ok [s]
                  else Ok []);
      do rest <- shift_terms t funs old (S i) tl;
      Ok (here ++ rest)
  end.
Definition term_differentiate (t : dterm) (next : etafun) : res (list dterm) :=
  let funs := dt_etafuns t ++ [next] in
  let old := dt_eta t ++ [0%Z] in
  do t1 <- make_term (dt_eps t + 1) old (dt_pref t) funs (dt_gders t);
  do t2 <- make_term (dt_eps t) (zbump old 0 1) (dt_pref t) funs (dt_gders t);
  do ts <- shift_terms t funs old 0 (dt_eta t);
  Ok (t1 :: t2 :: ts).

Definition zlist_eqb (a b : list Z) : bool := if list_eq_dec Z.eq_dec a b then true else false.
(** ModelSensitivity.py:190-204 *)
Definition check_similarity (s t : dterm) : bool := Z.eqb (dt_eps s) (dt_eps t) && zlist_eqb (dt_eta s) (dt_eta t).
Definition combine_with (s t : dterm) : res dterm :=
  rassert (check_similarity s t) (make_term (dt_eps s) (dt_eta s) (dt_pref s + dt_pref t) (dt_etafuns s) (dt_gders s)).

(** ModelSensitivity.py:246-257. list.remove(x) removes the first occurrence. The for loop runs over the positions of a list
    that shrinks while it runs: position [pos] is looked up in the current list. *)
Fixpoint list_remove (l : list nat) (x : nat) : list nat :=
  match l with [] => [] | y :: tl => if Nat.eqb y x then tl else y :: list_remove tl x end.
Fixpoint match_loop (dterms : list dterm) (fuel pos : nat) (l : list nat) (match_term : dterm) : res (dterm * list nat) :=
  match fuel with
  | O => Ok (match_term, l)
  | S fuel' =>
      match nth_error l pos with
      | None => Ok (match_term, l)
      | Some ind =>
          do t <- py_index dterms (Z.of_nat ind);
          if zlist_eqb (dt_eta match_term) (dt_eta t)
          then do m <- combine_with match_term t; match_loop dterms fuel' (S pos) (list_remove l ind) m
          else match_loop dterms fuel' (S pos) l match_term
      end
  end.
Fixpoint consolidate_loop (dterms : list dterm) (fuel : nat) (unmatched : list nat) : res (list dterm) :=
  match fuel with
  | O => Ok []
  | S fuel' =>
      match unmatched with
      | [] => Ok []
      | first :: rest =>
          do t <- py_index dterms (Z.of_nat first);
          do r <- match_loop dterms (length rest) 0 rest t;
          do others <- consolidate_loop dterms fuel' (snd r);
          Ok (fst r :: others)
      end
  end.
Definition consolidate_terms (dterms : list dterm) : res (list dterm) :=
  consolidate_loop dterms (length dterms) (seq 0 (length dterms)).

(** ModelSensitivity.py:274-282; None is returned when no term is used *)
Fixpoint evaluate_from (acc : option vec) (dterms : list dterm) (eta0 eps0 deps : vec) (include_highest : bool) : res (option vec) :=
  match dterms with
  | [] => Ok acc
  | t :: tl =>
      do use <- (if include_highest then Ok true else do k <- py_index (dt_eta t) (-1); Ok (Z.eqb k 0));
      if use
      then do v <- term_evaluate t eta0 eps0 deps;
           evaluate_from (Some (match acc with None => v | Some a => vadd a v end)) tl eta0 eps0 deps include_highest
      else evaluate_from acc tl eta0 eps0 deps include_highest
  end.
Definition evaluate_terms (dterms : list dterm) (eta0 eps0 deps : vec) (include_highest : bool) : res (option vec) :=
  evaluate_from None dterms eta0 eps0 deps include_highest.

(** ModelSensitivity.py:286-300 *)
Definition get_taylor_base_terms (gders : list (list pyfun)) : res (list dterm) :=
  do t1 <- make_term 1 [0%Z] 1 [] gders;
  do t2 <- make_term 0 [1%Z] 1 [] gders;
  Ok [t1; t2].

Section Solve.
(** np.linalg.solve *)
Variable solve : rmat2 -> vec -> res vec.
(** ModelSensitivity.py:312-316 *)
Definition evaluate_dketa_depsk (hess0 : rmat2) (dterms : list dterm) (eta0 eps0 deps : vec) : res vec :=
  do o <- evaluate_terms dterms eta0 eps0 deps false;
  match o with
  | None => Raise AssertionError
  | Some v => do x <- solve hess0 v; Ok (vscale (-1) x)
  end.
(** ModelSensitivity.py:327-334 and 446-450 *)
Definition differentiate_terms (dterms : list dterm) (next : etafun) : res (list dterm) :=
  do ll <- rmapM (fun t => term_differentiate t next) dterms;
  consolidate_terms (concat ll).
(** ModelSensitivity.py:327-334, the module's function *)
Definition differentiate_terms_module (hess0 : rmat2) (dterms : list dterm) : res (list dterm) :=
  differentiate_terms dterms (fun eta eps deps => evaluate_dketa_depsk hess0 dterms eta eps deps).

(** np.max(np.abs(a - b)): ValueError for no entries or different lengths *)
Definition max_abs_diff (a b : vec) : res R :=
  if Nat.eqb (length a) (length b)
  then match map (fun d => Rabs d) (map2 Rminus a b) with
       | [] => Raise ValueError
       | d :: ds => Ok (fold_left Rmax ds d)
       end
  else Raise ValueError.
(** ModelSensitivity.py:436-444 *)
Definition dkinput_dhyperk (in0 hy0 : vec) (hess0 : rmat2) (dterms : list dterm) (tolerance : option R) : etafun :=
  fun input_val hyper_val dhyper =>
    do ok <- match tolerance with
             | None => Ok true
             | Some tol => do a <- max_abs_diff input_val in0;
                           rassert (Rleb a tol)
                             (do b <- max_abs_diff hyper_val hy0; rassert (Rleb b tol) (Ok true))
             end;
    evaluate_dketa_depsk hess0 dterms in0 hy0 dhyper.
(** the default tolerance *)
Definition default_tol : option R := Some (/ 10 ^ 8).

(** ModelSensitivity.py:452-473: taylor_terms_list and dkinput_dhyperk_list *)
Fixpoint order_loop (in0 hy0 : vec) (hess0 : rmat2) (n k : nat) (terms : list (list dterm)) (funs : list (option R -> etafun))
  : res (list (list dterm) * list (option R -> etafun)) :=
  match n with
  | O => Ok (terms, funs)
  | S n' =>
      do cur <- py_index terms (Z.of_nat k);
      let next := dkinput_dhyperk in0 hy0 hess0 cur in
      do next_terms <- differentiate_terms cur (next default_tol);
      order_loop in0 hy0 hess0 n' (S k) (terms ++ [next_terms]) (funs ++ [next])
  end.
Definition build_order (g : pyfun) (in0 hy0 : vec) (hess0 : rmat2) (order : Z) : res (list (list dterm) * list (option R -> etafun)) :=
  do gders <- generate_two_term_derivative_array g (order + 1);
  do base <- get_taylor_base_terms gders;
  do r <- order_loop in0 hy0 hess0 (Z.to_nat (order - 1)) 0 [base] [];
  do last <- py_index (fst r) (order - 1);
  Ok (fst r, snd r ++ [dkinput_dhyperk in0 hy0 hess0 last]).

(** ---- ParametricSensitivityTaylorExpansion, ModelSensitivity.py:382-505 ---- *)
Section Taylor.
(** objective_functor and hyper_par_objective_functor (the former when none is given): functors of the two parameters *)
Variables obj_f hyp_f : pair_state -> unit -> res R.
Variable Chol : Type.
Variable cho_factor : rmat2 -> res Chol.
Variable trace : tparam -> list R -> tparam.
Variable trace2 : pair_state -> pair_state.
Variables input_is_free hyper_is_free : bool.

Record taylor := Taylor { ty_st : pair_state; ty_in0 : vec; ty_hy0 : vec; ty_hess : rmat2; ty_order : Z }.

(** ModelSensitivity.py:408-410 and 581-583 *)
Definition to_base (st : pair_state) (in0 hy0 : vec) : pair_state * res unit :=
  set_both st (fin_arg in0) (fin_arg hy0) input_is_free hyper_is_free.
(** ModelSensitivity.py:417-426 and 585-594 *)
Definition set_base_values (st : pair_state) (in0 hy0 : vec) (hess0 : option rmat2) : pair_state * res (rmat2 * Chol) :=
  match to_base st in0 hy0 with
  | (st1, Raise e) => (st1, Raise e)
  | (st1, Ok _) =>
      let '(p, r) := match hess0 with
                     | None => fun_free_hessian (fun t a => obj_f (t, snd st1) a) trace (fst st1) in0 tt
                     | Some h => (fst st1, Ok h)
                     end in
      ((p, snd st1), do h <- r; do c <- cho_factor h; Ok (h, c))
  end.
(** ModelSensitivity.py:430-433: fun_grad1 of the joint objective *)
Definition objective_gradient (st : pair_state) : pyfun := fun argv =>
  match argv with
  | [x1; x2] => do _ <- snd (eval_fun hyp_f st (fin_arg x1) (fin_arg x2) input_is_free hyper_is_free tt);
                Ok (map (fun i => ad_partial (fun y => real2 hyp_f st input_is_free hyper_is_free tt y x2) i x1) (seq 0 (length x1)))
  | _ => Raise TypeError
  end.
(** ModelSensitivity.py:452-473 *)
Definition set_order (ty : taylor) (order : Z) : taylor * res unit :=
  (Taylor (ty_st ty) (ty_in0 ty) (ty_hy0 ty) (ty_hess ty) order,
   do _ <- build_order (objective_gradient (ty_st ty)) (ty_in0 ty) (ty_hy0 ty) (ty_hess ty) order; Ok tt).
(** ModelSensitivity.py:383-406; hess0 is not passed on *)
Definition taylor_init (st : pair_state) (in0 hy0 : vec) (order : Z) (hess0 : option rmat2) : pair_state * res taylor :=
  match set_base_values st in0 hy0 None with
  | (st1, Raise e) => (st1, Raise e)
  | (st1, Ok (h, _)) =>
      let '(ty, r) := set_order (Taylor st1 in0 hy0 h order) order in
      (ty_st ty, do _ <- r; Ok ty)
  end.
Definition with_st (ty : taylor) (st : pair_state) : taylor := Taylor st (ty_in0 ty) (ty_hy0 ty) (ty_hess ty) (ty_order ty).
(** ModelSensitivity.py:412-415 and 475-484; the tolerance is the optional last argument *)
Definition evaluate_dkinput_dhyperk (ty : taylor) (dhyper : vec) (k : Z) (tolerance : option R) : taylor * res vec :=
  if Z.leb k 0 then (ty, Raise ValueError)
  else if Z.ltb (ty_order ty) k then (ty, Raise ValueError)
  else
    match (do r <- build_order (objective_gradient (ty_st ty)) (ty_in0 ty) (ty_hy0 ty) (ty_hess ty) (ty_order ty);
           do deriv_fun <- py_index (snd r) (k - 1);
           deriv_fun tolerance (ty_in0 ty) (ty_hy0 ty) dhyper) with
    | Raise e => (with_st ty (trace2 (ty_st ty)), Raise e)
    | Ok result =>
        match to_base (trace2 (ty_st ty)) (ty_in0 ty) (ty_hy0 ty) with
        | (st, Raise e) => (with_st ty st, Raise e)
        | (st, Ok _) => (with_st ty st, Ok result)
        end
    end.
(** ModelSensitivity.py:486-505 *)
Fixpoint taylor_sum (ty : taylor) (dhyper : vec) (n k : nat) (dinput : vec) : taylor * res vec :=
  match n with
  | O => (ty, Ok dinput)
  | S n' => match evaluate_dkinput_dhyperk ty dhyper (Z.of_nat k) default_tol with
            | (ty', Raise e) => (ty', Raise e)
            | (ty', Ok d) => taylor_sum ty' dhyper n' (S k) (vadd dinput (map (fun y => y / INR (fact k)) d))
            end
  end.
Definition evaluate_taylor_series (ty : taylor) (dhyper : vec) (add_offset : bool) (max_order : option Z) (tolerance : option R) : taylor * res vec :=
  let m := match max_order with None => ty_order ty | Some m => m end in
  if Z.leb m 0 then (ty, Raise ValueError)
  else if Z.ltb (ty_order ty) m then (ty, Raise ValueError)
  else
    match evaluate_dkinput_dhyperk ty dhyper 1 tolerance with
    | (ty', Raise e) => (ty', Raise e)
    | (ty', Ok d1) =>
        match taylor_sum ty' dhyper (Z.to_nat (m - 1)) 2 d1 with
        | (ty'', Raise e) => (ty'', Raise e)
        | (ty'', Ok d) => (ty'', Ok (if add_offset then vadd d (ty_in0 ty) else d))
        end
    end.

(** ---- ParametricSensitivityLinearApproximation, ModelSensitivity.py:555-612 ---- *)
(** scipy.linalg.cho_solve for a matrix right hand side *)
Variable cho_solve : Chol -> rmat2 -> res rmat2.
Variable trace_two : pair_state -> list R -> list R -> pair_state.
Definition mscale (c : R) (M : rmat2) : rmat2 := RMat (rm_rows M) (rm_cols M) (fun i j => c * rm_get M i j).
Record linear := Linear { li_st : pair_state; li_in0 : vec; li_hy0 : vec; li_hess : rmat2; li_cross : rmat2; li_sens : rmat2 }.
(** ModelSensitivity.py:585-602 *)
Definition linear_set_base_values (st : pair_state) (in0 hy0 : vec) (hess0 : option rmat2) : pair_state * res linear :=
  match set_base_values st in0 hy0 hess0 with
  | (st1, Raise e) => (st1, Raise e)
  | (st1, Ok (h, c)) =>
      match two_method_real hyp_f trace_two HessianFree1Vector2 st1 in0 hy0 tt with
      | (st2, Raise e) => (st2, Raise e)
      | (st2, Ok cross) => (st2, do s <- cho_solve c cross; Ok (Linear st2 in0 hy0 h cross (mscale (-1) s)))
      end
  end.
(** ModelSensitivity.py:556-579; hess0 is not passed on *)
Definition linear_init (st : pair_state) (in0 hy0 : vec) (hess0 : option rmat2) : pair_state * res linear :=
  linear_set_base_values st in0 hy0 None.
(** ModelSensitivity.py:605-606 *)
Definition get_dinput_dhyper (l : linear) : rmat2 := li_sens l.
(** ModelSensitivity.py:608-612; ValueError when the lengths differ *)
Definition predict_input (in0 hy0 : vec) (sens : rmat2) (new_hyper : vec) : res vec :=
  if negb (Nat.eqb (length new_hyper) (length hy0)) then Raise ValueError
  else do d <- mat_vec sens (map2 Rminus new_hyper hy0);
       if Nat.eqb (length in0) (length d) then Ok (vadd in0 d) else Raise ValueError.
Definition linear_predict (l : linear) (new_hyper : vec) : res vec := predict_input (li_in0 l) (li_hy0 l) (li_sens l) new_hyper.
End Taylor.
End Solve.

(** ---- ParametricSensitivity (deprecated), SparseObjectives.py:487-577 ---- *)
Section Deprecated.
(** objective_fun and hyper_par_objective_fun (the former when none is given) read the input and the hyperparameter;
    the converter reads and writes the input and the output. SIMPLIFICATION: the objectives do not read the output parameter,
    and the converter does not touch the hyperparameter. *)
Variables obj_f hyp_f : pair_state -> unit -> res R.
Variable conv : pair_state -> pair_state * res unit.
Variable Chol : Type.
Variable cho_factor : rmat2 -> res Chol.
Variable cho_solve : Chol -> rmat2 -> res rmat2.
(** what autograd leaves in the parameters while it differentiates the objective, the converter and the joint objective *)
Variable trace : tparam -> list R -> tparam.
Variable trace_conv : pair_state -> pair_state.
Variable trace_two : pair_state -> list R -> list R -> pair_state.
(** the input, output and hyperparameter objects *)
Record trio := Trio { tr_in : tparam; tr_out : tparam; tr_hyp : tparam }.
Record old_sens := OldSens { os_in : vec; os_hess : rmat2; os_dout_din : rmat2; os_hyp : vec; os_cross : rmat2; os_out : vec; os_sens : rmat2 }.
(** the numbers of a one-dimensional array. SIMPLIFICATION: infinite and undefined entries become 0 *)
Definition numbers (v : targ) : vec := map toR (data (ta_val v)).
(** SparseObjectives.py:260-263: the output vector as a function of the free input *)
Definition conv_vec (st : pair_state) (x : vec) : vec :=
  match snd (converter_eval conv true false st (fin_arg x)) with Ok v => numbers v | Raise _ => [] end.
(** SparseObjectives.py:298-300. TRUSTED: autograd.jacobian is the exact Jacobian *)
Definition free_to_vec_jacobian (st : pair_state) (x : vec) : pair_state * res rmat2 :=
  converter_jacobian true
    (fun st _ => (trace_conv st, do v <- snd (converter_eval conv true false st (fin_arg x));
        Ok (RMat (length (numbers v)) (length x) (fun i j => ad_partial (fun y => nth i (conv_vec st y) 0) j x)))) st (fin_arg x).
(** SparseObjectives.py:524-552 *)
Definition set_optimal_input_par (s : trio) (opt_in : option vec) (hess : option rmat2) : trio * res old_sens :=
  match (match opt_in with None => do v <- t_get_free (tr_in s); Ok (numbers v) | Some x => Ok x end) with
  | Raise e => (s, Raise e)
  | Ok x =>
      let '(p1, rh) := match hess with
                       | None => fun_free_hessian (fun t a => obj_f (t, tr_hyp s) a) trace (tr_in s) x tt
                       | Some h => (tr_in s, Ok h)
                       end in
      match (do h <- rh; do c <- cho_factor h; Ok (h, c)) with
      | Raise e => (Trio p1 (tr_out s) (tr_hyp s), Raise e)
      | Ok (h, c) =>
          match free_to_vec_jacobian (p1, tr_out s) x with
          | ((p2, o2), Raise e) => (Trio p2 o2 (tr_hyp s), Raise e)
          | ((p2, o2), Ok dout) =>
              match t_get_vector (tr_hyp s) with
              | Raise e => (Trio p2 o2 (tr_hyp s), Raise e)
              | Ok hv =>
                  match two_method_real hyp_f trace_two HessianFree1Vector2 (p2, tr_hyp s) x (numbers hv) tt with
                  | ((p3, h3), Raise e) => (Trio p3 o2 h3, Raise e)
                  | ((p3, h3), Ok cross) =>
                      (Trio p3 o2 h3,
                       do ov <- t_get_vector o2;
                       do sol <- cho_solve c cross;
                       Ok (OldSens x h dout (numbers hv) cross (numbers ov) (mscale (-1) sol)))
                  end
              end
          end
      end
  end.
(** SparseObjectives.py:488-522; the constructor only warns *)
Definition old_init := set_optimal_input_par.
(** SparseObjectives.py:554-558 *)
Definition old_dinput_dhyper (o : old_sens) : rmat2 := os_sens o.
Definition old_doutput_dhyper (o : old_sens) : res rmat2 := mat_mat (os_dout_din o) (os_sens o).
(** SparseObjectives.py:560-563 *)
Definition old_predict_input (o : old_sens) (new_hyper : vec) : res vec := predict_input (os_in o) (os_hyp o) (os_sens o) new_hyper.
(** SparseObjectives.py:565-574 *)
Definition old_predict_output (s : trio) (o : old_sens) (new_hyper : vec) (linear : bool) : trio * res vec :=
  if linear then
    (s, if negb (Nat.eqb (length new_hyper) (length (os_hyp o))) then Raise ValueError
        else do m <- mat_mat (os_dout_din o) (os_sens o); do d <- mat_vec m (map2 Rminus new_hyper (os_hyp o));
             if Nat.eqb (length (os_out o)) (length d) then Ok (vadd (os_out o) d) else Raise ValueError)
  else
    match old_predict_input o new_hyper with
    | Raise e => (s, Raise e)
    | Ok x => let '((p, q), r) := converter_eval conv true false (tr_in s, tr_out s) (fin_arg x) in
              (Trio p q (tr_hyp s), do v <- r; Ok (numbers v))
    end.
End Deprecated.
