(** Model of LinearResponseVariationalBayes/OptimizationUtils.py.
    SIMPLIFICATION: numbers are reals; for a non-positive eigenvalue numpy's 1/sqrt gives inf or nan, here it is an
    unspecified real (the theorems about the inverse square root assume positive clipped eigenvalues). *)
From Coq Require Import Reals List Bool Arith ZArith.
From Verif Require Import Res Num Nd RSum ModelAutograd ModelSparse ModelParameters ModelMatrix ModelSimplex ModelProjection ModelDict ModelObjective.
Import List ListNotations.
Open Scope R_scope.

(** ---- get_sym_matrix_inv_sqrt, OptimizationUtils.py:6-20 ---- *)
(** 0.5 * (hessian + hessian.T), with numpy's broadcasting of a 1 x n or n x 1 matrix *)
Definition sym_part (H : rmat2) : res rmat2 :=
  if Nat.eqb (rm_rows H) (rm_cols H) then Ok (RMat (rm_rows H) (rm_cols H) (fun i j => / 2 * (rm_get H i j + rm_get H j i)))
  else if Nat.eqb (rm_rows H) 1 then Ok (RMat (rm_cols H) (rm_cols H) (fun i j => / 2 * (rm_get H 0 j + rm_get H 0 i)))
  else if Nat.eqb (rm_cols H) 1 then Ok (RMat (rm_rows H) (rm_rows H) (fun i j => / 2 * (rm_get H i 0 + rm_get H j 0)))
  else Raise ValueError.
(** np.diag of a vector *)
Definition rm_diag (d : list R) : rmat2 := RMat (length d) (length d) (fun i j => if Nat.eqb i j then nth i d 0 else 0).
(** eig_val[eig_val <= ev_min] = ev_min *)
Definition clip_below (ev_min : option R) (ev : list R) : list R :=
  match ev_min with None => ev | Some lo => map (fun e => if Rle_dec e lo then lo else e) ev end.
(** eig_val[eig_val >= ev_max] = ev_max *)
Definition clip_above (ev_max : option R) (ev : list R) : list R :=
  match ev_max with None => ev | Some hi => map (fun e => if Rge_dec e hi then hi else e) ev end.

(** ---- the objective object, SparseObjectives.py:95-118, with the attributes the optimisation functions use ---- *)
Record objective := Obj
  { ob_par : tparam; ob_log : logger R (list R); ob_preconditioning : option bool; ob_pre : option rmat2 }.
Definition with_par (s : objective) (t : tparam) : objective := Obj t (ob_log s) (ob_preconditioning s) (ob_pre s).
Definition with_pre (s : objective) (M : rmat2) : objective := Obj (ob_par s) (ob_log s) (ob_preconditioning s) (Some M).
Definition on_par {B} (s : objective) (r : tparam * res B) : objective * res B := (with_par s (fst r), snd r).
(** the numbers of an argument, as the logger stores them *)
Definition arg_values (v : targ) : list R := map toR (data (ta_val v)).

Section Optimize.
Variable user_fun : tparam -> unit -> res R.
Variable trace : tparam -> list R -> tparam.
(** np.linalg.eigh, np.linalg.solve *)
Variable eigh : rmat2 -> res (list R * rmat2).
Variable solve : rmat2 -> list R -> res (list R).
(** whether two logged points can be subtracted *)
Variable diff_ok : list R -> list R -> bool.

Definition get_sym_matrix_inv_sqrt (H : rmat2) (ev_min ev_max : option R) : res (rmat2 * rmat2) :=
  do hessian_sym <- sym_part H;
  do e <- eigh hessian_sym;
  let V := snd e in
  let ev := clip_above ev_max (clip_below ev_min (fst e)) in
  do dv <- mat_mat (rm_diag ev) (rm_T V);
  do corrected <- mat_mat V dv;
  do dv' <- mat_mat (rm_diag (map (fun x => 1 / sqrt x) ev)) (rm_T V);
  do inv_sqrt <- mat_mat V dv';
  Ok (inv_sqrt, corrected).

(** OptimizationUtils.py:25-41 *)
Definition set_objective_preconditioner (s : objective) (free_par : option (list R)) (hessian : option rmat2) (ev_min ev_max : option R)
  : objective * res (rmat2 * rmat2 * rmat2) :=
  let finish (s : objective) (H : rmat2) :=
    match get_sym_matrix_inv_sqrt H ev_min ev_max with
    | Raise e => (s, Raise e)
    | Ok (inv_sqrt, corrected) => (with_pre s inv_sqrt, Ok (H, inv_sqrt, corrected))
    end in
  match hessian, free_par with
  | None, None => (s, Raise ValueError)
  | Some H, _ => finish s H
  | None, Some x => match on_par s (fun_free_hessian user_fun trace (ob_par s) x tt) with
                    | (s1, Raise e) => (s1, Raise e)
                    | (s1, Ok H) => finish s1 H
                    end
  end.

(** ---- what is handed to scipy.optimize.minimize ---- *)
(** lambda par: objective.fun_free(par, verbose=disp) *)
Definition ask_fun_free (disp : bool) (s : objective) (x : list R) : objective * res R :=
  if disp then
    let '(t', lg, r) := fun_free_verbose user_fun diff_ok arg_values (ob_par s) (ob_log s) (fin_arg x) tt in
    (Obj t' lg (ob_preconditioning s) (ob_pre s), r)
  else on_par s (fun_free user_fun (ob_par s) (fin_arg x) tt).
(** lambda par: objective.fun_free_cond(par, verbose=disp) *)
Definition ask_fun_free_cond (disp : bool) (s : objective) (x : list R) : objective * res R :=
  match ob_pre s with
  | None => (s, Raise AssertionError)
  | Some M => match mat_vec M x with
              | Raise e => (s, Raise e)
              | Ok y => ask_fun_free disp s y
              end
  end.
Definition ask_grad (cond : bool) (s : objective) (x : list R) : objective * res (list R) :=
  on_par s (if cond then fun_free_grad_cond user_fun trace (ob_pre s) (ob_par s) x tt else fun_free_grad user_fun trace (ob_par s) x tt).
Definition ask_hvp (cond : bool) (s : objective) (x p : list R) : objective * res (list R) :=
  on_par s (if cond then fun_free_hvp_cond user_fun trace (ob_pre s) (ob_par s) x tt p else fun_free_hvp user_fun trace (ob_par s) x tt p).

Context {Info : Type}.
(** an optimiser: it asks for function values, gradients and Hessian-vector products at points of its choice, depending on the
    earlier answers, until it returns its solution (obj_opt.x) with the rest of its result object *)
Inductive strategy :=
| Stop (x : list R) (info : Info)
| AskF (x : list R) (k : R -> strategy)
| AskG (x : list R) (k : list R -> strategy)
| AskH (x p : list R) (k : list R -> strategy).
(** the optimiser running on the objective; an exception of the objective ends the run. hessp is None for BFGS. *)
Fixpoint run (disp cond hessp : bool) (st : strategy) (s : objective) : objective * res (list R * Info) :=
  match st with
  | Stop x info => (s, Ok (x, info))
  | AskF x k => match (if cond then ask_fun_free_cond disp s x else ask_fun_free disp s x) with
                | (s', Ok v) => run disp cond hessp (k v) s'
                | (s', Raise e) => (s', Raise e)
                end
  | AskG x k => match ask_grad cond s x with
                | (s', Ok g) => run disp cond hessp (k g) s'
                | (s', Raise e) => (s', Raise e)
                end
  | AskH x p k => if hessp then match ask_hvp cond s x p with
                                | (s', Ok h) => run disp cond hessp (k h) s'
                                | (s', Raise e) => (s', Raise e)
                                end
                  else (s, Raise TypeError)
  end.

(** OptimizationUtils.py:44-75 (hessp = true: minimize_objective_trust_ncg) and 78-108 (hessp = false: minimize_objective_bfgs);
    [optimizer] is the method with its options, applied to the starting point *)
Definition minimize_objective (hessp : bool) (optimizer : list R -> strategy) (s : objective) (init_x : list R) (precondition disp : bool)
  (print_every : option Z) (init_logger : bool) : objective * res (list R * (list R * Info)) :=
  let lg1 := if init_logger then logger_initialize (lg_every (ob_log s)) (lg_events (ob_log s)) else ob_log s in
  let lg2 := match print_every with
             | None => lg1
             | Some n => LoggerS n (lg_iter lg1) (lg_last_x lg1) (lg_x lg1) (lg_value lg1) (lg_last_value lg1) (lg_x_array lg1) (lg_val_array lg1) (lg_events lg1)
             end in
  let s1 := Obj (ob_par s) lg2 (Some precondition) (ob_pre s) in
  if precondition then
    match ob_pre s1 with
    | None => (s1, Raise AssertionError)
    | Some M =>
        match solve M init_x with
        | Raise e => (s1, Raise e)
        | Ok init_x_cond =>
            match run disp true hessp (optimizer init_x_cond) s1 with
            | (s2, Raise e) => (s2, Raise e)
            | (s2, Ok obj_opt) => match uncondition_x (ob_pre s2) (fst obj_opt) with
                                  | Raise e => (s2, Raise e)
                                  | Ok opt_x => (s2, Ok (opt_x, obj_opt))
                                  end
            end
        end
    end
  else
    match run disp false hessp (optimizer init_x) s1 with
    | (s2, Raise e) => (s2, Raise e)
    | (s2, Ok obj_opt) => (s2, Ok (fst obj_opt, obj_opt))
    end.

(** ---- repeatedly_optimize, OptimizationUtils.py:114-162 ---- *)
Definition l1_norm (x : list R) : R := lsum (map Rabs x).
Definition lt_bool (a b : R) : bool := if Rlt_dec a b then true else false.
Context {Opt : Type}.
(** an optimisation function takes the starting point; it uses the objective and returns the optimum and a result *)
Definition opt_function := objective -> list R -> objective * res (list R * Opt).
Record last_run := LastRun { lr_x : list R; lr_converged : bool; lr_x_conv : bool; lr_f_conv : bool; lr_grad_conv : bool; lr_opt : Opt }.
Definition eval_plain (s : objective) (x : list R) : objective * res R := on_par s (fun_free user_fun (ob_par s) (fin_arg x) tt).
Definition eval_grad (s : objective) (x : list R) : objective * res (list R) := on_par s (fun_free_grad user_fun trace (ob_par s) x tt).
(** new_x - x raises ValueError for different lengths (SIMPLIFICATION: length-one vectors would be broadcast) *)
Definition vec_minus (a b : list R) : res (list R) := if Nat.eqb (length a) (length b) then Ok (map2 Rminus a b) else Raise ValueError.
Section Loop.
Variable optimization_fun : opt_function.
Variables gtol ftol xtol : R.
Variable keep : bool.
(** the loop; [left] is max_iter - i, [last] the variables bound by an earlier pass *)
Fixpoint optimize_loop (left : nat) (s : objective) (x : list R) (f_val : R) (results : list Opt) (last : option last_run)
  : objective * res (list Opt * option last_run) :=
  match left with
  | O => (s, Ok (results, last))
  | S left' =>
      match optimization_fun s x with
      | (s1, Raise e) => (s1, Raise e)
      | (s1, Ok (new_x, obj_opt)) =>
          let results' := if keep then results ++ [obj_opt] else results in
          match eval_plain s1 new_x with
          | (s2, Raise e) => (s2, Raise e)
          | (s2, Ok new_f_val) =>
              match eval_grad s2 new_x with
              | (s3, Raise e) => (s3, Raise e)
              | (s3, Ok grad_val) =>
                  match vec_minus new_x x with
                  | Raise e => (s3, Raise e)
                  | Ok d =>
                      let x_conv := lt_bool (l1_norm d) xtol in
                      let f_conv := lt_bool (Rabs (new_f_val - f_val)) ftol in
                      let grad_conv := lt_bool (l1_norm grad_val) gtol in
                      let converged := x_conv || f_conv || grad_conv in
                      let last' := Some (LastRun new_x converged x_conv f_conv grad_conv obj_opt) in
                      if converged then (s3, Ok (results', last'))
                      else optimize_loop left' s3 new_x new_f_val results' last'
                  end
              end
          end
      end
  end.
End Loop.
(** the returned tuple: new_x, converged, x_conv, f_conv, grad_conv, obj_opt, opt_results *)
Definition repeatedly_optimize (optimization_fun : opt_function) (s : objective) (init_x : list R) (initial_optimization_fun : option opt_function)
  (max_iter : Z) (gtol ftol xtol : R) (keep : bool) : objective * res (list R * bool * bool * bool * bool * Opt * list Opt) :=
  let start (s : objective) (init_x : list R) (results : list Opt) :=
    match eval_plain s init_x with
    | (s1, Raise e) => (s1, Raise e)
    | (s1, Ok f_val) =>
        match optimize_loop optimization_fun gtol ftol xtol keep (Z.to_nat max_iter) s1 init_x f_val results None with
        | (s2, Raise e) => (s2, Raise e)
        | (s2, Ok (_, None)) => (s2, Raise UnboundLocalError)
        | (s2, Ok (results', Some l)) =>
            (s2, Ok (lr_x l, lr_converged l, lr_x_conv l, lr_f_conv l, lr_grad_conv l, lr_opt l, results'))
        end
    end in
  match initial_optimization_fun with
  | None => start s init_x []
  | Some init_fun => match init_fun s init_x with
                     | (s1, Raise e) => (s1, Raise e)
                     | (s1, Ok (x, o)) => start s1 x (if keep then [o] else [])
                     end
  end.
End Optimize.
Arguments strategy Info : clear implicits.
Arguments opt_function Opt : clear implicits.
Arguments last_run Opt : clear implicits.
