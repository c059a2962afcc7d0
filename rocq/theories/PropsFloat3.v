(** Properties C112-C113: simplex parameters computed in IEEE-754 binary64 arithmetic. *)
From Coq Require Import Reals ZArith List Lra Lia.
From Flocq Require Import Core BinarySingleNaN.
From Verif Require Import Res RSum SpecFloat ModelFloat LemmasFloat LemmasFloat3 LemmasFloat4 SpecFloatSimplex ModelFloatSimplex
  LemmasFloatSimplex2 LemmasFloatSimplex4.
Import List ListNotations.
Open Scope R_scope.
Set Bullet Behavior "Strict Subproofs".

(** exp and log rounded to the nearest double and addition from left to right meet the contracts assumed below *)
Example simplex_contracts_met : exp_good ideal_exp /\ log_good ideal_log /\ sums (fun l => fold_left fadd l (B754_zero false)).
Proof. split; [exact ideal_exp_good|]. split; [exact ideal_log_good|exact add_in_order_sums]. Qed.

(** C112: free values that are finite or -inf give finite numbers between 0 and 1 *)
Theorem C112_range : forall (fexp flog : dbl -> dbl) (fsum : list dbl -> dbl), exp_good fexp -> log_good flog -> sums fsum ->
  forall rows cols v0 p (free : list (list dbl)), fsimplex_init rows cols v0 = Ok p -> (1 <= cols)%nat -> length free = rows ->
  List.Forall (fun row => length row = (cols - 1)%nat) free -> List.Forall (List.Forall not_up) free ->
  exists p', fsimplex_set_free fexp flog fsum p (concat free) = Ok p' /\ length (fsimplex_get p') = rows /\
    List.Forall (fun row => length row = cols /\ List.Forall unit_interval row) (fsimplex_get p').
Proof. exact simplex_range. Qed.
Print Assumptions C112_range.
(** each is the exact probability up to a relative error of (M + cols + 32) 2^-48, and each row adds up to 1 up to
    (M + cols + 32) 2^-47, for free values of size at most M *)
Theorem C112_accuracy : forall (fexp flog : dbl -> dbl) (fsum : list dbl -> dbl), exp_good fexp -> log_good flog -> sums fsum ->
  forall rows cols v0 p (free : list (list dbl)) M, fsimplex_init rows cols v0 = Ok p -> (1 <= cols)%nat -> length free = rows ->
  List.Forall (fun row => length row = (cols - 1)%nat) free ->
  List.Forall (List.Forall (fun v : dbl => is_finite v = true /\ Rabs (B2R v) <= M)) free ->
  0 <= M <= bpow radix2 20 -> INR cols <= bpow radix2 20 ->
  exists p', fsimplex_set_free fexp flog fsum p (concat free) = Ok p' /\
    forall r row, nth_error free r = Some row -> exists probs, nth_error (fsimplex_get p') r = Some probs /\ length probs = cols /\
      (forall k, (k < cols)%nat -> exists q, nth_error probs k = Some q /\ is_finite q = true /\
         Rabs (B2R q - softmax (map (fun v : dbl => B2R v) row) k)
           <= (M + INR cols + 32) * bpow radix2 (-48) * softmax (map (fun v : dbl => B2R v) row) k + bpow radix2 (-1070)) /\
      Rabs (lsum (map (fun q : dbl => B2R q) probs) - 1) <= (M + INR cols + 32) * bpow radix2 (-47).
Proof. exact simplex_accuracy. Qed.
Print Assumptions C112_accuracy.
(** a free value +inf becomes NaN and the rest of its row becomes 0; a vector of the wrong length raises *)
Theorem C112_infinite : forall (fexp flog : dbl -> dbl) (fsum : list dbl -> dbl), exp_good fexp -> log_good flog -> sums fsum ->
  forall rows cols v0 p (free : list (list dbl)) r row, fsimplex_init rows cols v0 = Ok p -> (1 <= cols)%nat -> length free = rows ->
  List.Forall (fun row => length row = (cols - 1)%nat) free -> nth_error free r = Some row ->
  List.Forall number row -> In (B754_infinity false) row ->
  exists p' probs, fsimplex_set_free fexp flog fsum p (concat free) = Ok p' /\ nth_error (fsimplex_get p') r = Some probs /\ length probs = cols /\
    nth_error probs 0 = Some (B754_zero false) /\
    forall k v, nth_error row k = Some v ->
      (v = B754_infinity false -> nth_error probs (S k) = Some B754_nan) /\ (v <> B754_infinity false -> nth_error probs (S k) = Some (B754_zero false)).
Proof. exact simplex_infinite. Qed.
Print Assumptions C112_infinite.
Theorem C112_length : forall (fexp flog : dbl -> dbl) (fsum : list dbl -> dbl) rows cols v0 p x, fsimplex_init rows cols v0 = Ok p ->
  length x <> (rows * (cols - 1))%nat -> fsimplex_set_free fexp flog fsum p x = Raise ValueError.
Proof. exact set_free_length. Qed.
Print Assumptions C112_length.

(** C113: get_free of stored probabilities: finite unless the entry or the reference entry is 0 *)
Theorem C113_get_free : forall (flog : dbl -> dbl), log_good flog ->
  forall rows cols v0 p (val : list (list dbl)) q, fsimplex_init rows cols v0 = Ok p -> fsimplex_set p val = Ok q ->
  List.Forall (List.Forall unit_interval) val ->
  length (fsimplex_get_free flog q) = (rows * (cols - 1))%nat /\
  forall r k p0 ps pk, nth_error val r = Some (p0 :: ps) -> nth_error ps k = Some pk -> exists w,
    nth_error (fsimplex_get_free flog q) (r * (cols - 1) + k) = Some w /\
    (w = B754_nan <-> B2R pk = 0 /\ B2R p0 = 0) /\
    (w = B754_infinity false <-> B2R pk <> 0 /\ B2R p0 = 0) /\
    (w = B754_infinity true <-> B2R pk = 0 /\ B2R p0 <> 0) /\
    (is_finite w = true <-> B2R pk <> 0 /\ B2R p0 <> 0).
Proof. exact simplex_get_free. Qed.
Print Assumptions C113_get_free.
(** free values of at most 300 come back up to (cols + 512) 2^-46 *)
Theorem C113_round_trip : forall (fexp flog : dbl -> dbl) (fsum : list dbl -> dbl), exp_good fexp -> log_good flog -> sums fsum ->
  forall rows cols v0 p (free : list (list dbl)), fsimplex_init rows cols v0 = Ok p -> (1 <= cols)%nat -> length free = rows ->
  List.Forall (fun row => length row = (cols - 1)%nat) free ->
  List.Forall (List.Forall (fun v : dbl => is_finite v = true /\ Rabs (B2R v) <= 300)) free -> INR cols <= bpow radix2 20 ->
  exists p', fsimplex_set_free fexp flog fsum p (concat free) = Ok p' /\ length (fsimplex_get_free flog p') = length (concat free) /\
    forall i v, nth_error (concat free) i = Some v -> exists w, nth_error (fsimplex_get_free flog p') i = Some w /\ is_finite w = true /\
      Rabs (B2R w - B2R v) <= (INR cols + 512) * bpow radix2 (-46).
Proof. exact simplex_round_trip. Qed.
Print Assumptions C113_round_trip.
(** if one free value of a row is 750 or more, nothing of that row comes back *)
Theorem C113_lost : forall (fexp flog : dbl -> dbl) (fsum : list dbl -> dbl), exp_good fexp -> log_good flog -> sums fsum ->
  forall rows cols v0 p (free : list (list dbl)) r row i v, fsimplex_init rows cols v0 = Ok p -> (1 <= cols)%nat -> length free = rows ->
  List.Forall (fun row => length row = (cols - 1)%nat) free -> nth_error free r = Some row -> List.Forall not_up row ->
  nth_error row i = Some v -> is_finite v = true -> 750 <= B2R v ->
  exists p', fsimplex_set_free fexp flog fsum p (concat free) = Ok p' /\ forall j w, nth_error row j = Some w ->
    exists o, nth_error (fsimplex_get_free flog p') (r * (cols - 1) + j) = Some o /\ (o = B754_nan \/ o = B754_infinity false) /\
      (is_finite w = true -> B2R w <= B2R v - 750 -> o = B754_nan).
Proof. exact simplex_lost. Qed.
Print Assumptions C113_lost.
(** the default value: equal entries, the double nearest to 1 / cols; its free value is exactly zero *)
Theorem C113_default : forall (flog : dbl -> dbl), log_good flog -> forall rows cols, (1 <= cols)%nat -> INR cols <= bpow radix2 20 ->
  exists p d, fsimplex_init rows cols None = Ok p /\ fsimplex_get p = repeat (repeat d cols) rows /\ unit_interval d /\ B2R d = rnd64 (1 / INR cols) /\
    Rabs (INR cols * B2R d - 1) <= bpow radix2 (-53) /\
    length (fsimplex_get_free flog p) = (rows * (cols - 1))%nat /\
    List.Forall (fun w : dbl => is_finite w = true /\ B2R w = 0) (fsimplex_get_free flog p).
Proof. exact simplex_default. Qed.
Print Assumptions C113_default.

(** two rows of three categories: moderate and extreme free values *)
Example C112_C113_example : let free := [[dint 100; dint (-3)]; [dint 800; dint 0]] in
  (exists p, fsimplex_init 2 3 None = Ok p) /\ length free = 2%nat /\ List.Forall (fun row => length row = (3 - 1)%nat) free /\
  List.Forall (List.Forall not_up) free /\
  List.Forall (List.Forall (fun v : dbl => is_finite v = true /\ Rabs (B2R v) <= 800)) free /\
  List.Forall (fun v : dbl => is_finite v = true /\ Rabs (B2R v) <= 300) [dint 100; dint (-3)] /\
  0 <= 800 <= bpow radix2 20 /\ INR 3 <= bpow radix2 20 /\ 750 <= B2R (dint 800) /\ B2R (dint 0) <= B2R (dint 800) - 750 /\
  List.Forall (List.Forall unit_interval) [[dint 0; dint 1; dint 0]].
Proof.
  cbv zeta. rewrite bpow20. splits; try reflexivity; try (rewrite ?(dint_B2R 800), ?(dint_B2R 0) by reflexivity; lra).
  - destruct (simplex_default ideal_log ideal_log_good 2 3) as (p & d & E & _); [lia|rewrite bpow20; cbn; lra|]. exists p. exact E.
  - repeat constructor.
  - repeat constructor; discriminate.
  - repeat constructor; rewrite dint_B2R by reflexivity; (rewrite Rabs_pos_eq; lra) || (rewrite Rabs_left; lra).
  - repeat constructor; rewrite dint_B2R by reflexivity; (rewrite Rabs_pos_eq; lra) || (rewrite Rabs_left; lra).
  - cbn. lra.
  - repeat constructor; rewrite dint_B2R by reflexivity; lra.
Qed.
