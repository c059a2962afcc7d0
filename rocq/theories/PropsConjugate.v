(** C62-C65, C78: splitting masks and masked conjugate-gradient solves (ConjugateGradient.py). *)
From Coq Require Import Reals List Bool Arith ZArith Lia Lra.
From Verif Require Import Res RSum Nd ModelAutograd ModelObjective SpecObjective ModelConjugate SpecConjugate SpecSensitivity LemmasParameters LemmasMatrix LemmasDict LemmasPrecond LemmasSmooth LemmasConjugate.
Import List ListNotations.
Open Scope R_scope.

(** C62: the two halves have the length of the input; position i is in the first half exactly when it is true in the input and its rank among the true positions is below floor(n/2), otherwise in the second. *)
Theorem C62_split : forall vec, let '(m1, m2) := split_vector vec in
  length m1 = length vec /\ length m2 = length vec /\
  (forall i, on m1 i <-> on vec i /\ (rank vec i < trues vec / 2)%nat) /\ (forall i, on m2 i <-> on vec i /\ (trues vec / 2 <= rank vec i)%nat).
Proof. exact split_vector_spec. Qed.
Print Assumptions C62_split.
Theorem C62_sizes : forall vec, trues (fst (split_vector vec)) = (trues vec / 2)%nat /\ trues (snd (split_vector vec)) = (trues vec - trues vec / 2)%nat.
Proof. exact split_vector_sizes. Qed.
Print Assumptions C62_sizes.
Theorem C62_partition : forall vec, partitions vec [fst (split_vector vec); snd (split_vector vec)].
Proof. intros vec. apply (split_partition vec [_] [_]); (split; [repeat constructor|intros i Hi; apply hits_one]). Qed.
Print Assumptions C62_partition.
Example C62_nonvacuous : split_vector [true; false; true; true; false] = ([true; false; false; false; false], [false; false; true; true; false]).
Proof. reflexivity. Qed.

(** C63: with terminate_len >= 1 the recursion ends at depth at most 1 + log2 of the number of true entries. *)
Theorem C63_partition : forall T depth, (1 <= T)%Z -> forall m results, (trues m <= 2 ^ depth)%nat ->
  exists ms, recursive_split (S depth) m results T = (results ++ ms, Ok tt) /\ partitions m ms /\
    List.Forall (fun m' => (Z.min (Z.of_nat (trues m)) ((T + 1) / 2) <= Z.of_nat (trues m') <= T)%Z) ms.
Proof. exact recursive_split_ok. Qed.
Print Assumptions C63_partition.
Theorem C63_keeps_results : forall T depth, forall m results, exists ms r, recursive_split depth m results T = (results ++ ms, r) /\ (r = Ok tt \/ r = Raise RecursionError).
Proof. exact recursive_split_appends. Qed.
Print Assumptions C63_keeps_results.
Theorem C63_nonterminating : forall T depth, (T <= 0)%Z -> forall m results, (0 < trues m)%nat \/ (T < 0)%Z -> exists ms, recursive_split depth m results T = (results ++ ms, Raise RecursionError).
Proof. exact recursive_split_diverges. Qed.
Print Assumptions C63_nonterminating.
Example C63_nonvacuous : recursive_split 3 [true; true; false; true] [[true]] 1 = ([[true]; [true; false; false; false]; [false; true; false; false]; [false; false; false; true]], Ok tt).
Proof. reflexivity. Qed.

(** C64 *)
Theorem C64_masks : forall n m, (0 < m < n)%Z -> exists ms, get_masks n m = Ok ms /\ Z.of_nat (length ms) = ((n + m - 1) / m)%Z /\
  forall k mk, nth_error ms k = Some mk -> Z.of_nat (length mk) = n /\ forall i, (i < length mk)%nat -> (on mk i <-> Z.of_nat k = (Z.of_nat i / m)%Z).
Proof. exact get_masks_spec. Qed.
Print Assumptions C64_masks.
Theorem C64_partition : forall n m ms, get_masks n m = Ok ms -> List.Forall (fun mk => length mk = Z.to_nat n) ms /\ (forall i, (i < Z.to_nat n)%nat -> hits ms i = 1%nat) /\
  forall k mk, nth_error ms k = Some mk -> Z.of_nat (trues mk) = Z.min m (n - Z.of_nat k * m).
Proof. exact get_masks_partition. Qed.
Print Assumptions C64_partition.
Theorem C64_rejects : forall n m, ~ (0 < m < n)%Z -> get_masks n m = Raise AssertionError.
Proof. exact get_masks_rejects. Qed.
Print Assumptions C64_rejects.
Example C64_nonvacuous : get_masks 5 2 = Ok [[true; true; false; false; false]; [false; false; true; true; false]; [false; false; false; false; true]] /\ get_masks 5 5 = Raise AssertionError.
Proof. split; reflexivity. Qed.

(** C65: what one run over the masks records. The operator, clock and solver are arbitrary; s is any earlier state. *)
Theorem C65_records : forall cg elapsed s vec masks verbose pe, length vec = sv_dim s -> List.Forall (fun m => length m = length vec) masks ->
  exists s', get_hinv_vec_subsets cg elapsed s vec masks verbose pe = (s', Ok tt) /\
    (sv_dim s' = sv_dim s /\ sv_op s' = sv_op s /\ sv_x0 s' = sv_x0 s /\ sv_pre s' = sv_pre s /\ sv_tol s' = sv_tol s) /\
    exists vs hs ts is,
      sv_masks s' = sv_masks s ++ masks /\ sv_vecs s' = sv_vecs s ++ vs /\ sv_hinv_vecs s' = sv_hinv_vecs s ++ hs /\ sv_infos s' = sv_infos s ++ is /\ sv_times s' = sv_times s ++ ts /\
      length vs = length masks /\ length hs = length masks /\ length ts = length masks /\ length is = length masks /\
      forall k m, nth_error masks k = Some m -> exists v, nth_error vs k = Some v /\ length v = length vec /\
        (forall i, (i < length vec)%nat -> (on m i -> nth i v 0 = nth i vec 0) /\ (~ on m i -> nth i v 0 = 0)) /\
        nth_error hs k = Some (fst (cg (sv_op s) v None (sv_tol s) (sv_pre s))) /\ nth_error is k = Some (snd (cg (sv_op s) v None (sv_tol s) (sv_pre s))).
Proof. exact subsets_records. Qed.
Print Assumptions C65_records.

(** C65: if every masked solve has residual at most eps in each coordinate, the sum of the solutions has residual at most (number of masks) * eps. *)
Theorem C65_residual : forall cg elapsed A s vec masks verbose pe n eps, sv_dim s = n -> length vec = n -> partitions (repeat true n) masks ->
  sv_op s = apply_mat A -> rm_rows A = n -> rm_cols A = n ->
  (forall b, length b = n -> length (fst (cg (sv_op s) b None (sv_tol s) (sv_pre s))) = n /\
     forall i, (i < n)%nat -> Rabs (nth i (apply_mat A (fst (cg (sv_op s) b None (sv_tol s) (sv_pre s)))) 0 - nth i b 0) <= eps) ->
  exists s' vs hs, get_hinv_vec_subsets cg elapsed s vec masks verbose pe = (s', Ok tt) /\ sv_vecs s' = sv_vecs s ++ vs /\ sv_hinv_vecs s' = sv_hinv_vecs s ++ hs /\
    sum_vec n vs = vec /\ forall i, (i < n)%nat -> Rabs (nth i (apply_mat A (sum_vec n hs)) 0 - nth i vec 0) <= INR (length masks) * eps.
Proof. exact subsets_sum. Qed.
Print Assumptions C65_residual.
Theorem C65_exact : forall cg elapsed A s vec masks verbose pe n x, sv_dim s = n -> length vec = n -> partitions (repeat true n) masks ->
  sv_op s = apply_mat A -> nonsingular n A ->
  (forall b, length b = n -> length (fst (cg (sv_op s) b None (sv_tol s) (sv_pre s))) = n /\ apply_mat A (fst (cg (sv_op s) b None (sv_tol s) (sv_pre s))) = b) ->
  length x = n -> apply_mat A x = vec ->
  exists s' hs, get_hinv_vec_subsets cg elapsed s vec masks verbose pe = (s', Ok tt) /\ sv_hinv_vecs s' = sv_hinv_vecs s ++ hs /\ sum_vec n hs = x.
Proof. exact subsets_exact. Qed.
Print Assumptions C65_exact.
Theorem C65_masks_of_get_masks : forall n m ms, get_masks n m = Ok ms -> partitions (repeat true (Z.to_nat n)) ms.
Proof. exact get_masks_partitions. Qed.
Print Assumptions C65_masks_of_get_masks.
Theorem C65_masks_of_recursive_split : forall n T depth, (1 <= T)%Z -> (n <= 2 ^ depth)%nat -> exists ms, recursive_split (S depth) (repeat true n) [] T = (ms, Ok tt) /\ partitions (repeat true n) ms.
Proof. exact recursive_split_partitions. Qed.
Print Assumptions C65_masks_of_recursive_split.
Theorem C65_bad_mask : forall cg elapsed s vec (good : list mask) (bad : mask) (rest : list mask) verbose pe, length vec = sv_dim s -> List.Forall (fun m => length m = length vec) good -> length bad <> length vec ->
  exists s', get_hinv_vec_subsets cg elapsed s vec (good ++ bad :: rest) verbose pe = (s', Raise IndexError) /\ sv_masks s' = sv_masks s ++ good /\
    length (sv_vecs s') = (length (sv_vecs s) + length good)%nat /\ length (sv_hinv_vecs s') = (length (sv_hinv_vecs s) + length good)%nat /\
    length (sv_infos s') = (length (sv_infos s) + length good)%nat /\ length (sv_times s') = (length (sv_times s) + length good)%nat.
Proof. exact subsets_bad_mask. Qed.
Print Assumptions C65_bad_mask.
Theorem C65_bad_vector : forall cg elapsed s vec m rest verbose pe, length vec <> sv_dim s -> length m = length vec ->
  exists s', get_hinv_vec_subsets cg elapsed s vec (m :: rest) verbose pe = (s', Raise ValueError) /\
    sv_masks s' = sv_masks s /\ sv_vecs s' = sv_vecs s /\ sv_hinv_vecs s' = sv_hinv_vecs s /\ sv_infos s' = sv_infos s /\ sv_times s' = sv_times s.
Proof. exact subsets_bad_vec. Qed.
Print Assumptions C65_bad_vector.
Theorem C65_initialize : forall s, let s' := initialize s in sv_masks s' = [] /\ sv_vecs s' = [] /\ sv_hinv_vecs s' = [] /\ sv_infos s' = [] /\ sv_times s' = [] /\
  sv_dim s' = sv_dim s /\ sv_op s' = sv_op s /\ sv_tol s' = sv_tol s /\ sv_pre s' = sv_pre s.
Proof. intros s s'. splits; reflexivity. Qed.
Print Assumptions C65_initialize.
(** a new solver works with the Hessian at the x0 it was given (whatever the Hessian is elsewhere), the tolerance 1e-8 and no preconditioner, and has recorded nothing:
    the first run over the masks records exactly these masks and solutions that sum to H(x0)^-1 vec *)
Theorem C65_new_solver : forall cg elapsed (hvp : list R -> list R -> list R) x0 A vec masks verbose pe x, let n := length x0 in length vec = n -> partitions (repeat true n) masks ->
  hvp x0 = apply_mat A -> nonsingular n A ->
  (forall b, length b = n -> length (fst (cg (hvp x0) b None (/ 10 ^ 8) None)) = n /\ apply_mat A (fst (cg (hvp x0) b None (/ 10 ^ 8) None)) = b) ->
  length x = n -> apply_mat A x = vec ->
  get_hinv_vec cg (solver_init hvp x0) vec None = Ok (cg (hvp x0) vec None (/ 10 ^ 8) None) /\
  exists s', get_hinv_vec_subsets cg elapsed (solver_init hvp x0) vec masks verbose pe = (s', Ok tt) /\ sv_masks s' = masks /\ sv_x0 s' = x0 /\ length (sv_vecs s') = length masks /\ length (sv_hinv_vecs s') = length masks /\ sum_vec n (sv_hinv_vecs s') = x.
Proof.
  intros cg elapsed hvp x0 A vec masks verbose pe x n Lv Pm EH NS K Lx Ex. replace (10 ^ 8) with 100000000 in * by ring. split; [unfold get_hinv_vec; cbn [sv_dim solver_init]; fold n; rewrite Lv, Nat.eqb_refl; reflexivity|].
  assert (FM : List.Forall (fun m => length m = length vec) masks) by (rewrite Lv, <- (repeat_length true n); exact (proj1 Pm)).
  destruct (C65_records cg elapsed (solver_init hvp x0) vec masks verbose pe Lv FM) as (s1 & E1 & (_ & _ & X & _) & vs & hs & ts & is & Em & Ev & Eh & _ & _ & L1 & L2 & _).
  destruct (C65_exact cg elapsed A (solver_init hvp x0) vec masks verbose pe n x eq_refl Lv Pm EH NS K Lx Ex) as (s2 & hs2 & E2 & Eh2 & S). rewrite E1 in E2. injection E2 as <-. exists s1. cbn [solver_init sv_masks sv_vecs sv_hinv_vecs sv_x0 app] in *. rewrite Em, Ev, Eh2. rewrite Eh2 in Eh. subst hs2. splits; assumption || reflexivity.
Qed.
Print Assumptions C65_new_solver.
(** an exact solver for the operator 2x *)
Definition halve : (list R -> list R) -> list R -> option (list R) -> R -> option rmat2 -> list R * Z := fun _ b _ _ _ => (map (fun x => x / 2) b, 0%Z).
Definition two_eye : rmat2 := RMat 3 3 (fun i j => if Nat.eqb i j then 2 else 0).
Example C65_nonvacuous : let s := solver_init (fun _ => apply_mat two_eye) [0; 0; 0] in
  sv_dim s = 3%nat /\ (exists ms, get_masks 3 2 = Ok ms /\ partitions (repeat true 3) ms) /\ nonsingular 3 two_eye /\
  (forall b, length b = 3%nat -> length (fst (halve (sv_op s) b None (sv_tol s) (sv_pre s))) = 3%nat /\ apply_mat two_eye (fst (halve (sv_op s) b None (sv_tol s) (sv_pre s))) = b) /\
  apply_mat two_eye [1; 2; 3] = [2; 4; 6] /\
  sv_hinv_vecs (fst (get_hinv_vec_subsets halve (fun _ => 0) s [2; 4; 6] [[true; true; false]; [false; false; true]] true 10)) = [[2/2; 4/2; 0/2]; [0/2; 0/2; 6/2]].
Proof.
  cbn zeta. splits.
  - reflexivity.
  - eexists. split; [reflexivity|]. apply (get_masks_partitions 3 2). reflexivity.
  - split; [reflexivity|]. split; [reflexivity|]. intros [|a [|b [|c [|]]]] L H; try discriminate. pose proof (H 0%nat ltac:(lia)) as Ha. pose proof (H 1%nat ltac:(lia)) as Hb. pose proof (H 2%nat ltac:(lia)) as Hc. cbn in Ha, Hb, Hc.
    intros [|[|[|i]]] Hi; cbn; lra || lia.
  - intros [|a [|b [|c [|]]]] L; try discriminate. split; [reflexivity|]. cbn. repeat (apply f_equal2; [lra|]). reflexivity.
  - cbn. repeat (apply f_equal2; [lra|]). reflexivity.
  - reflexivity.
Qed.
(** a Hessian that depends on the point: 2x at (1, 0, 0) and zero at other points *)
Example C65_new_solver_example : exists s', get_hinv_vec_subsets halve (fun _ => 0) (solver_init (fun x => if Req_EM_T (nth 0 x 0) 1 then apply_mat two_eye else fun v => map (fun _ => 0) v) [1; 0; 0]) [2; 4; 6] [[true; true; false]; [false; false; true]] false 10 = (s', Ok tt) /\ sum_vec 3 (sv_hinv_vecs s') = [1; 2; 3].
Proof.
  destruct C65_nonvacuous as (_ & (ms & M & P) & NS & K & E & _). injection M as <-.
  destruct (C65_new_solver halve (fun _ => 0) (fun x => if Req_EM_T (nth 0 x 0) 1 then apply_mat two_eye else fun v => map (fun _ => 0) v) [1; 0; 0] two_eye [2; 4; 6] [[true; true; false]; [false; false; true]] false 10%Z [1; 2; 3] eq_refl P) as (_ & s' & X & _ & _ & _ & _ & S); [cbn [nth]; destruct (Req_EM_T 1 1); [reflexivity|lra]|exact NS|exact K|reflexivity|exact E|exists s'; split; assumption].
Qed.

(** C78: with verbose, a message "i of n" is printed exactly for the i that divide print_every. *)
Theorem C78_progress_messages : forall cg elapsed s vec (masks : list mask) verbose pe, length vec = sv_dim s -> List.Forall (fun m => length m = length vec) masks ->
  exists out, sv_printed (fst (get_hinv_vec_subsets cg elapsed s vec masks verbose pe)) = sv_printed s ++ out /\ NoDup out /\
    forall p, In p out <-> verbose = true /\ (1 <= fst p <= length masks)%nat /\ snd p = length masks /\ (Z.of_nat (fst p) | pe)%Z.
Proof. exact subsets_printed. Qed.
Print Assumptions C78_progress_messages.
(** with print_every = 10 and 20 masks there is no message after the tenth mask *)
Example C78_nonvacuous : let s := solver_init (fun _ => apply_mat two_eye) [0; 0; 0] in
  sv_printed (fst (get_hinv_vec_subsets halve (fun _ => 0) s [2; 4; 6] (repeat [true; false; false] 20) true 10)) = [(1, 20); (2, 20); (5, 20); (10, 20)]%nat.
Proof. reflexivity. Qed.
