(** Properties C01-C10: scalar, vector and array parameters. *)
From Coq Require Import String Reals List Bool Arith Lra Lia.
From Coquelicot Require Import Coquelicot.
From Verif Require Import Res Num Nd ModelAutograd ModelSparse ModelParameters SpecParameters LemmasParameters.
Import List ListNotations.
Open Scope R_scope.
Set Bullet Behavior "Strict Subproofs".

(** C01: a value strictly inside the bounds survives get_free / set_free. *)
Theorem C01_scalar : forall p x,
  legal (sp_lb p) (sp_ub p) -> data (sp_val p) = [Fin x] -> nd_wf (sp_val p) -> inside (sp_lb p) (sp_ub p) x ->
  exists f p', scalar_get_free p = Ok f /\ shape f = [1%nat] /\ scalar_set_free p f = (p', Ok tt) /\
     data (scalar_get p') = data (scalar_get p) /\ scalar_get_vector p' = scalar_get_vector p.
Proof. exact scalar_constrained_roundtrip. Qed.
Print Assumptions C01_scalar.
Theorem C01_vector : forall p,
  vector_wf p -> all_inside (vp_lb p) (vp_ub p) (data (vp_val p)) ->
  exists f p', vector_get_free p = Ok f /\ shape f = [vp_size p] /\ vector_set_free p f = (p', Ok tt) /\
     data (vector_get p') = data (vector_get p) /\ (shape (vp_val p) = [vp_size p] -> p' = p).
Proof. exact vector_constrained_roundtrip. Qed.
Print Assumptions C01_vector.
Theorem C01_array : forall p,
  array_wf p -> all_inside (ap_lb p) (ap_ub p) (data (ap_val p)) ->
  exists f, array_get_free p = Ok f /\ shape f = [array_free_size p] /\ array_set_free p f = (p, Ok tt).
Proof. exact array_constrained_roundtrip. Qed.
Print Assumptions C01_array.
Example C01_nonvacuous :
  let p := VectorP "v"%string 2 (Fin 1) (Fin 4) (nd_vec [Fin 2; Fin 3]) in
  vector_wf p /\ all_inside (vp_lb p) (vp_ub p) (data (vp_val p)).
Proof.
  cbn. split.
  - split; [cbn; lra|split; reflexivity].
  - intros v [<-|[<-|[]]]; eexists; (split; [reflexivity|split; cbn; lra]).
Qed.
Example C01_nonvacuous_array :
  let p := ArrayP "a"%string [2%nat; 1%nat] (Fin 0) PInf (Nd [2%nat; 1%nat] [Fin 2; Fin 3]) in
  array_wf p /\ all_inside (ap_lb p) (ap_ub p) (data (ap_val p)).
Proof.
  cbn. split.
  - split; [exact I|split; reflexivity].
  - intros v [<-|[<-|[]]]; eexists; (split; [reflexivity|split; cbn; try lra; auto]).
Qed.

(** C02 and C03: set_free of a finite vector succeeds, get_free returns it, and what is stored is finite and
    strictly inside the bounds. *)
Theorem C02_C03_scalar : forall p x, legal (sp_lb p) (sp_ub p) ->
  exists p' y, scalar_set_free p (nd_vec [Fin x]) = (p', Ok tt) /\
    scalar_get_free p' = Ok (nd_vec [Fin x]) /\
    data (scalar_get p') = [Fin y] /\ inside (sp_lb p) (sp_ub p) y.
Proof. exact scalar_free_roundtrip. Qed.
Print Assumptions C02_C03_scalar.
Theorem C02_C03_vector : forall p x, legal (vp_lb p) (vp_ub p) -> length x = vp_size p ->
  exists p', vector_set_free p (nd_vec (map Fin x)) = (p', Ok tt) /\
    vector_get_free p' = Ok (nd_vec (map Fin x)) /\
    all_inside (vp_lb p) (vp_ub p) (data (vector_get p')).
Proof. exact vector_free_roundtrip. Qed.
Print Assumptions C02_C03_vector.
Theorem C02_C03_array : forall p x, legal (ap_lb p) (ap_ub p) -> length x = array_free_size p ->
  exists p', array_set_free p (nd_vec (map Fin x)) = (p', Ok tt) /\
    array_get_free p' = Ok (nd_vec (map Fin x)) /\
    all_inside (ap_lb p) (ap_ub p) (data (array_get p')) /\ shape (array_get p') = ap_shape p.
Proof. exact array_free_roundtrip. Qed.
Print Assumptions C02_C03_array.
Example C02_nonvacuous : legal (Fin (-1)) (Fin 1) /\ legal NInf (Fin 0) /\ legal (Fin 3) PInf /\ legal NInf PInf.
Proof. cbn. splits; auto; lra. Qed.

(** C04: get_free raises ValueError exactly when some entry is NaN or outside the closed bounds. *)
Theorem C04_scalar : forall p v, legal (sp_lb p) (sp_ub p) -> nd_wf (sp_val p) -> data (sp_val p) = [v] ->
  (scalar_get_free p = Raise ValueError <-> ~ within (sp_lb p) (sp_ub p) v) /\
  (within (sp_lb p) (sp_ub p) v -> exists f, scalar_get_free p = Ok f).
Proof. exact scalar_get_free_rejects. Qed.
Print Assumptions C04_scalar.
Theorem C04_vector : forall p, legal (vp_lb p) (vp_ub p) ->
  (vector_get_free p = Raise ValueError <-> exists v, In v (data (vp_val p)) /\ ~ within (vp_lb p) (vp_ub p) v) /\
  ((forall v, In v (data (vp_val p)) -> within (vp_lb p) (vp_ub p) v) -> exists f, vector_get_free p = Ok f).
Proof. exact vector_get_free_rejects. Qed.
Print Assumptions C04_vector.
Theorem C04_array : forall p, legal (ap_lb p) (ap_ub p) ->
  (array_get_free p = Raise ValueError <-> exists v, In v (data (ap_val p)) /\ ~ within (ap_lb p) (ap_ub p) v) /\
  ((forall v, In v (data (ap_val p)) -> within (ap_lb p) (ap_ub p) v) -> exists f, array_get_free p = Ok f).
Proof. exact array_get_free_rejects. Qed.
Print Assumptions C04_array.
Example C04_nonvacuous :
  let p := VectorP "v"%string 2 (Fin 0) PInf (nd_vec [Fin 0; Fin (-1)]) in
  legal (vp_lb p) (vp_ub p) /\ within (vp_lb p) (vp_ub p) (Fin 0) /\ ~ within (vp_lb p) (vp_ub p) (Fin (-1))
  /\ ~ within (vp_lb p) (vp_ub p) NaN.
Proof. cbn. splits; auto; try lra. Qed.

(** C05: on the closed range every entry survives the free round trip except a value equal to the upper bound of
    a parameter with two finite bounds, which becomes NaN. *)
Theorem C05_vector : forall p, vector_wf p ->
  (forall v, In v (data (vp_val p)) -> within (vp_lb p) (vp_ub p) v) ->
  exists f p', vector_get_free p = Ok f /\ vector_set_free p f = (p', Ok tt) /\
    length (data (vector_get p')) = length (data (vector_get p)) /\
    forall i, (i < length (data (vector_get p)))%nat ->
      (lossy (vp_lb p) (vp_ub p) (nth i (data (vector_get p)) NaN) ->
          nth i (data f) NaN = PInf /\ nth i (data (vector_get p')) NaN = NaN) /\
      (~ lossy (vp_lb p) (vp_ub p) (nth i (data (vector_get p)) NaN) ->
          nth i (data (vector_get p')) NaN = nth i (data (vector_get p)) NaN).
Proof. exact vector_closed_roundtrip. Qed.
Print Assumptions C05_vector.
Theorem C05_scalar : forall p v, legal (sp_lb p) (sp_ub p) -> sp_val p = nd_scalar v ->
  within (sp_lb p) (sp_ub p) v ->
  exists f p', scalar_get_free p = Ok f /\ scalar_set_free p f = (p', Ok tt) /\
    (lossy (sp_lb p) (sp_ub p) v -> f = nd_vec [PInf] /\ scalar_get p' = nd_vec [NaN]) /\
    (~ lossy (sp_lb p) (sp_ub p) v -> scalar_get p' = nd_vec [v]).
Proof. exact scalar_closed_roundtrip. Qed.
Print Assumptions C05_scalar.
Theorem C05_array : forall p, array_wf p ->
  (forall v, In v (data (ap_val p)) -> within (ap_lb p) (ap_ub p) v) ->
  exists f p', array_get_free p = Ok f /\ array_set_free p f = (p', Ok tt) /\
    shape (array_get p') = shape (array_get p) /\
    forall i, (i < length (data (array_get p)))%nat ->
      (lossy (ap_lb p) (ap_ub p) (nth i (data (array_get p)) NaN) ->
          nth i (data f) NaN = PInf /\ nth i (data (array_get p')) NaN = NaN) /\
      (~ lossy (ap_lb p) (ap_ub p) (nth i (data (array_get p)) NaN) ->
          nth i (data (array_get p')) NaN = nth i (data (array_get p)) NaN).
Proof. exact array_closed_roundtrip. Qed.
Print Assumptions C05_array.
Example C05_nonvacuous :
  let p := VectorP "v"%string 2 (Fin 0) (Fin 1) (nd_vec [Fin 1; Fin 0]) in
  vector_wf p /\ (forall v, In v (data (vp_val p)) -> within (vp_lb p) (vp_ub p) v) /\
  lossy (vp_lb p) (vp_ub p) (Fin 1) /\ ~ lossy (vp_lb p) (vp_ub p) (Fin 0).
Proof.
  cbn. splits.
  - split; [cbn; lra|split; reflexivity].
  - intros v [<-|[<-|[]]]; cbn; lra.
  - exists 0, 1; auto.
  - intros [l [u [E1 [E2 E3]]]]. inversion E1; inversion E2; inversion E3. lra.
Qed.

(** C06: the default value; it is inside the closed bounds (equivalently get_free works on the fresh parameter)
    exactly under [default_ok]. *)
Theorem C06_scalar : forall name lb ub, legal lb ub ->
  exists p, scalar_init name lb ub None = Ok p /\ scalar_get p = nd_scalar (Fin (default_spec lb ub)) /\
  ((exists f, scalar_get_free p = Ok f) <-> default_ok lb ub) /\
  (within lb ub (Fin (default_spec lb ub)) <-> default_ok lb ub).
Proof. exact scalar_default_full. Qed.
Print Assumptions C06_scalar.
Theorem C06_vector : forall name n lb ub, legal lb ub -> (0 < n)%nat ->
  exists p, vector_init name n lb ub None = Ok p /\ vector_get p = np_full [n] (Fin (default_spec lb ub)) /\
  ((exists f, vector_get_free p = Ok f) <-> default_ok lb ub) /\
  ((forall v, In v (data (vector_get p)) -> within lb ub v) <-> default_ok lb ub).
Proof. exact vector_default_full. Qed.
Print Assumptions C06_vector.
Theorem C06_array : forall name sh lb ub, legal lb ub -> (0 < nprod sh)%nat ->
  exists p, array_init name sh lb ub None = Ok p /\ array_get p = np_full sh (Fin (default_spec lb ub)) /\
  ((exists f, array_get_free p = Ok f) <-> default_ok lb ub) /\
  ((forall v, In v (data (array_get p)) -> within lb ub v) <-> default_ok lb ub).
Proof. exact array_default_full. Qed.
Print Assumptions C06_array.
(** the promise that a default value is always in bounds is false *)
Theorem C06_default_in_bounds_refuted :
  exists name n lb ub p, legal lb ub /\ vector_init name n lb ub None = Ok p /\ vector_get_free p = Raise ValueError.
Proof. exact default_refuted. Qed.
Print Assumptions C06_default_in_bounds_refuted.
Example C06_nonvacuous : default_ok (Fin (-1)) (Fin 3) /\ ~ default_ok (Fin 1) (Fin 2) /\ ~ default_ok (Fin (-3)) (Fin 2)
  /\ default_ok (Fin 7) PInf.
Proof. cbn. splits; try tauto; lra. Qed.

(** C07: strictly increasing entry by entry, and onto the interior. *)
Theorem C07_vector_increasing : forall p x y i, legal (vp_lb p) (vp_ub p) ->
  length x = vp_size p -> length y = vp_size p -> (i < vp_size p)%nat -> nth i x 0 < nth i y 0 ->
  exists px py a b, vector_set_free p (nd_vec (map Fin x)) = (px, Ok tt) /\
    vector_set_free p (nd_vec (map Fin y)) = (py, Ok tt) /\
    nth i (data (vector_get px)) NaN = Fin a /\ nth i (data (vector_get py)) NaN = Fin b /\ a < b.
Proof. exact vector_set_free_increasing. Qed.
Print Assumptions C07_vector_increasing.
Theorem C07_vector_onto : forall p y, legal (vp_lb p) (vp_ub p) ->
  length y = vp_size p -> (forall v, In v y -> inside (vp_lb p) (vp_ub p) v) ->
  exists x px, length x = vp_size p /\ vector_set_free p (nd_vec (map Fin x)) = (px, Ok tt) /\ vector_get px = nd_vec (map Fin y).
Proof. exact vector_set_free_surjective. Qed.
Print Assumptions C07_vector_onto.
Theorem C07_array_increasing : forall p x y i, legal (ap_lb p) (ap_ub p) ->
  length x = array_free_size p -> length y = array_free_size p -> (i < array_free_size p)%nat -> nth i x 0 < nth i y 0 ->
  exists px py a b, array_set_free p (nd_vec (map Fin x)) = (px, Ok tt) /\
    array_set_free p (nd_vec (map Fin y)) = (py, Ok tt) /\
    nth i (data (array_get px)) NaN = Fin a /\ nth i (data (array_get py)) NaN = Fin b /\ a < b.
Proof. exact array_set_free_increasing. Qed.
Print Assumptions C07_array_increasing.
Theorem C07_array_onto : forall p y, legal (ap_lb p) (ap_ub p) ->
  length y = array_free_size p -> (forall v, In v y -> inside (ap_lb p) (ap_ub p) v) ->
  exists x px, length x = array_free_size p /\ array_set_free p (nd_vec (map Fin x)) = (px, Ok tt) /\
    array_get px = Nd (ap_shape p) (map Fin y).
Proof. exact array_set_free_surjective. Qed.
Print Assumptions C07_array_onto.
Theorem C07_scalar_increasing : forall p x y, legal (sp_lb p) (sp_ub p) -> x < y ->
  exists px py a b, scalar_set_free p (nd_vec [Fin x]) = (px, Ok tt) /\ scalar_set_free p (nd_vec [Fin y]) = (py, Ok tt) /\
    scalar_get px = nd_vec [Fin a] /\ scalar_get py = nd_vec [Fin b] /\ a < b.
Proof. exact scalar_set_free_increasing. Qed.
Print Assumptions C07_scalar_increasing.
Theorem C07_scalar_onto : forall p y, legal (sp_lb p) (sp_ub p) -> inside (sp_lb p) (sp_ub p) y ->
  exists x px, scalar_set_free p (nd_vec [Fin x]) = (px, Ok tt) /\ scalar_get px = nd_vec [Fin y].
Proof. exact scalar_set_free_surjective. Qed.
Print Assumptions C07_scalar_onto.
Example C07_nonvacuous :
  let p := VectorP "v"%string 1 (Fin 0) (Fin 1) (nd_vec [Fin (/2)]) in
  legal (vp_lb p) (vp_ub p) /\ inside (vp_lb p) (vp_ub p) (/3) /\ nth 0 [1] 0 < nth 0 [2] 0.
Proof. cbn. splits; try lra. split; cbn; lra. Qed.

(** C08: the sparse Jacobian and Hessians hold the true first and second partial derivatives of
    x |-> (set_free(x); get_vector()), and the Jacobian diagonal is positive. *)
Theorem C08_vector : forall p x, legal (vp_lb p) (vp_ub p) -> length x = vp_size p ->
  (exists J, vector_free_to_vector_jac p x = Ok J /\ true_jacobian (vector_free_to_vector p) (vp_size p) x J /\
     forall i, (i < vp_size p)%nat -> 0 < coo_get J i i) /\
  (exists Hs, vector_free_to_vector_hess p x = Ok Hs /\ true_hessians (vector_free_to_vector p) (vp_size p) x Hs).
Proof. exact vector_derivatives. Qed.
Print Assumptions C08_vector.
Theorem C08_array : forall p x, legal (ap_lb p) (ap_ub p) -> length x = array_free_size p ->
  (exists J, array_free_to_vector_jac p x = Ok J /\ true_jacobian (array_free_to_vector p) (array_free_size p) x J /\
     forall i, (i < array_free_size p)%nat -> 0 < coo_get J i i) /\
  (exists Hs, array_free_to_vector_hess p x = Ok Hs /\ true_hessians (array_free_to_vector p) (array_free_size p) x Hs).
Proof. exact array_derivatives. Qed.
Print Assumptions C08_array.
Theorem C08_scalar : forall p x0, legal (sp_lb p) (sp_ub p) ->
  true_jacobian (scalar_free_to_vector p) 1 [x0] (scalar_free_to_vector_jac p [x0]) /\
  0 < coo_get (scalar_free_to_vector_jac p [x0]) 0 0 /\
  true_hessians (scalar_free_to_vector p) 1 [x0] (scalar_free_to_vector_hess p [x0]).
Proof. exact scalar_derivatives. Qed.
Print Assumptions C08_scalar.
(** the map being differentiated is set_free followed by get_vector *)
Theorem C08_map_is_set_get : forall p x, legal (vp_lb p) (vp_ub p) -> length x = vp_size p ->
  exists p', vector_set_free p (nd_vec (map Fin x)) = (p', Ok tt) /\
    vector_get_vector p' = Ok (nd_vec (map Fin (vector_free_to_vector p x))).
Proof. exact vector_free_to_vector_meaning. Qed.
Print Assumptions C08_map_is_set_get.
Example C08_nonvacuous :
  let p := VectorP "v"%string 2 (Fin 0) (Fin 1) (nd_vec [Fin (/2); Fin (/2)]) in
  legal (vp_lb p) (vp_ub p) /\ length [1; 2] = vp_size p.
Proof. cbn. split; [lra|reflexivity]. Qed.

(** C09 *)
Theorem C09_vector : forall p a, nd_size a <> vp_size p ->
  vector_set p a = (p, Raise ValueError) /\ vector_set_free p a = (p, Raise ValueError) /\
  vector_set_vector p a = (p, Raise ValueError).
Proof. exact vector_size_check. Qed.
Print Assumptions C09_vector.
Theorem C09_array : forall p a,
  (shape a <> ap_shape p -> array_set p a = (p, Raise ValueError)) /\
  (nd_size a <> array_free_size p -> array_set_free p a = (p, Raise ValueError) /\ array_set_vector p a = (p, Raise ValueError)).
Proof. exact array_size_check. Qed.
Print Assumptions C09_array.
Theorem C09_scalar_no_check : forall p a, legal (sp_lb p) (sp_ub p) -> nd_wf a -> nd_size a <> 1%nat ->
  (exists p', scalar_set_vector p a = (p', Ok tt) /\ scalar_get_vector p' = Raise ValueError) /\
  (exists p', scalar_set_free p a = (p', Ok tt) /\ scalar_get_vector p' = Raise ValueError /\ scalar_get_free p' = Raise ValueError).
Proof. exact scalar_no_size_check. Qed.
Print Assumptions C09_scalar_no_check.
Example C09_nonvacuous : nd_size (nd_vec [Fin 1; Fin 2]) <> 1%nat /\ nd_wf (nd_vec [Fin 1; Fin 2]).
Proof. split; [cbv; discriminate|reflexivity]. Qed.

(** C10: constructors accept exactly the legal bounds (given a value of the right size), and no history of calls
    changes bounds, size or shape, or stores a value of the wrong size. *)
Theorem C10_vector : forall name n lb ub val p ops, (forall a, val = Some a -> nd_wf a) ->
  vector_init name n lb ub val = Ok p -> (forall o, In o ops -> nd_wf (op_arg o)) ->
  let q := fold_left vector_step ops p in
  legal lb ub /\ vp_lb q = lb /\ vp_ub q = ub /\ vp_size q = n /\ vector_free_size q = n /\ vector_vector_size q = n /\
  nd_size (vector_get q) = n /\ vector_wf q.
Proof. exact vector_lifetime. Qed.
Print Assumptions C10_vector.
Theorem C10_array : forall name sh lb ub val p ops, (forall a, val = Some a -> nd_wf a) ->
  array_init name sh lb ub val = Ok p -> (forall o, In o ops -> nd_wf (op_arg o)) ->
  let q := fold_left array_step ops p in
  legal lb ub /\ ap_lb q = lb /\ ap_ub q = ub /\ ap_shape q = sh /\ array_free_size q = nprod sh /\
  array_vector_size q = nprod sh /\ shape (array_get q) = sh /\ array_wf q.
Proof. exact array_lifetime. Qed.
Print Assumptions C10_array.
Theorem C10_scalar : forall name lb ub val p ops, scalar_init name lb ub val = Ok p ->
  let q := fold_left scalar_step ops p in legal lb ub /\ sp_lb q = lb /\ sp_ub q = ub.
Proof. exact scalar_lifetime. Qed.
Print Assumptions C10_scalar.
Theorem C10_accepts : forall name n sh lb ub, legal lb ub ->
  (forall a, nd_size a = n -> is_ok (vector_init name n lb ub (Some a)) = true) /\
  (forall a, shape a = sh -> is_ok (array_init name sh lb ub (Some a)) = true) /\
  (forall a, is_ok (scalar_init name lb ub (Some a)) = true).
Proof. exact init_accepts. Qed.
Print Assumptions C10_accepts.
Example C10_nonvacuous :
  exists p, vector_init "v" 2 (Fin 0) PInf (Some (nd_vec [Fin 1; NaN])) = Ok p /\
    fold_left vector_step [OpSet (nd_vec [Fin 1]); OpSetFree (nd_vec [Fin 1; Fin 0])] p <> p.
Proof.
  eexists. split; [reflexivity|]. intros E. apply (f_equal (fun q => nth 1 (data (vp_val q)) NaN)) in E. cbn in E. discriminate.
Qed.
