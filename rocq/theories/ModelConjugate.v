(** Model of LinearResponseVariationalBayes/ConjugateGradient.py. *)
From Coq Require Import Reals List Bool Arith ZArith.
From Verif Require Import Res RSum Nd ModelAutograd ModelObjective.
Import List ListNotations.
Open Scope R_scope.

Definition mask := list bool.
(** np.sum of a boolean vector *)
Definition count (m : mask) : nat := length (filter (fun b => b) m).
(** np.argwhere of a boolean vector, as a list of indices *)
Definition argwhere (m : mask) : list nat := filter (fun i => nth i m false) (seq 0 (length m)).
(** m[idx] = True *)
Fixpoint set_true (m : mask) (idx : list nat) : mask :=
  match idx with [] => m | i :: tl => set_true (upd m i true) tl end.
(** ConjugateGradient.py:19-30; int(num_true / 2) is the integer quotient.
    SIMPLIFICATION: the float division is exact below 2^53 *)
Definition split_vector (vec : mask) : mask * mask :=
  let split1 := repeat false (length vec) in
  let split2 := repeat false (length vec) in
  let true_inds := argwhere vec in
  let num_true := length true_inds in
  let len1 := Nat.div num_true 2 in
  let len2 := (num_true - len1)%nat in
  ((if Nat.ltb 0 len1 then set_true split1 (firstn len1 true_inds) else split1),
   (if Nat.ltb 0 len2 then set_true split2 (firstn len2 (skipn len1 true_inds)) else split2)).

(** ConjugateGradient.py:36-43: the calls append to [results]. [depth] is the number of nested calls that the interpreter still
    allows. *)
Fixpoint recursive_split (depth : nat) (m : mask) (results : list mask) (terminate_len : Z) : list mask * res unit :=
  match depth with
  | O => (results, Raise RecursionError)
  | S d =>
      if Z.ltb terminate_len (Z.of_nat (count m)) then
        let '(m1, m2) := split_vector m in
        match recursive_split d m1 results terminate_len with
        | (r1, Raise e) => (r1, Raise e)
        | (r1, Ok _) => recursive_split d m2 r1 terminate_len
        end
      else (results ++ [m], Ok tt)
  end.

(** ConjugateGradient.py:46-57. mask[ind:ind_end] = True. The loop runs at most full_len times, as min_mask_len >= 1. *)
Definition range_mask (n : nat) (a b : Z) : mask := map (fun i => Z.leb a (Z.of_nat i) && Z.ltb (Z.of_nat i) b) (seq 0 n).
Fixpoint masks_loop (fuel : nat) (full_len min_mask_len ind : Z) : list mask :=
  match fuel with
  | O => []
  | S f => if Z.ltb ind full_len
           then range_mask (Z.to_nat full_len) ind (Z.min (ind + min_mask_len) full_len) :: masks_loop f full_len min_mask_len (ind + min_mask_len)
           else []
  end.
Definition get_masks (full_len min_mask_len : Z) : res (list mask) :=
  rassert (Z.ltb 0 min_mask_len) (rassert (Z.ltb min_mask_len full_len) (Ok (masks_loop (Z.to_nat full_len) full_len min_mask_len 0))).

(** ---- ConjugateGradientSolver, ConjugateGradient.py:63-107 ---- *)
Section Solver.
(** scipy.sparse.linalg.cg(operator, vec, x0, tol, M): the solution and a status *)
Variable cg : (list R -> list R) -> list R -> option (list R) -> R -> option rmat2 -> list R * Z.
(** the clock *)
Variable elapsed : nat -> R.
Record solver := Solver
  { sv_dim : nat; sv_op : list R -> list R; sv_x0 : list R; sv_pre : option rmat2; sv_tol : R;
    sv_vecs : list (list R); sv_hinv_vecs : list (list R); sv_masks : list mask; sv_times : list R; sv_infos : list Z;
    sv_printed : list (nat * nat) (** the progress messages *) }.
(** ConjugateGradient.py:64-80 *)
Definition solver_init (hvp : list R -> list R -> list R) (x0 : list R) : solver :=
  Solver (length x0) (hvp x0) x0 None (/ 100000000) [] [] [] [] [] [].
Definition initialize (s : solver) : solver :=
  Solver (sv_dim s) (sv_op s) (sv_x0 s) (sv_pre s) (sv_tol s) [] [] [] [] [] (sv_printed s).
(** ConjugateGradient.py:81-85; a vector of the wrong length is rejected by scipy *)
Definition get_hinv_vec (s : solver) (vec : list R) (x0 : option (list R)) : res (list R * Z) :=
  if Nat.eqb (length vec) (sv_dim s) then Ok (cg (sv_op s) vec x0 (sv_tol s) (sv_pre s)) else Raise ValueError.
(** vec_masked = zeros; vec_masked[mask] = vec[mask]; numpy rejects a mask of another length *)
Definition masked (vec : list R) (m : mask) : res (list R) :=
  if Nat.eqb (length m) (length vec) then Ok (map2 (fun (b : bool) x => if b then x else 0) m vec) else Raise IndexError.
(** ConjugateGradient.py:89-105; [ind] is the number of masks already handled *)
Fixpoint subsets_loop (num_masks ind : nat) (s : solver) (vec : list R) (masks : list mask) (verbose : bool) (print_every : Z) : solver * res unit :=
  match masks with
  | [] => (s, Ok tt)
  | m :: tl =>
      let ind' := S ind in
      let s1 := if verbose && Z.eqb (print_every mod Z.of_nat ind') 0
                then Solver (sv_dim s) (sv_op s) (sv_x0 s) (sv_pre s) (sv_tol s) (sv_vecs s) (sv_hinv_vecs s) (sv_masks s) (sv_times s) (sv_infos s) (sv_printed s ++ [(ind', num_masks)])
                else s in
      match (do v <- masked vec m; do r <- get_hinv_vec s1 v None; Ok (v, r)) with
      | Raise e => (s1, Raise e)
      | Ok (v, (h, info)) =>
          subsets_loop num_masks ind'
            (Solver (sv_dim s1) (sv_op s1) (sv_x0 s1) (sv_pre s1) (sv_tol s1) (sv_vecs s1 ++ [v]) (sv_hinv_vecs s1 ++ [h]) (sv_masks s1 ++ [m])
               (sv_times s1 ++ [elapsed ind']) (sv_infos s1 ++ [info]) (sv_printed s1)) vec tl verbose print_every
      end
  end.
Definition get_hinv_vec_subsets (s : solver) (vec : list R) (masks : list mask) (verbose : bool) (print_every : Z) : solver * res unit :=
  subsets_loop (length masks) 0 s vec masks verbose print_every.
End Solver.
