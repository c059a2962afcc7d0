(** Proofs for sparse sub-matrices and CSR packing (C39, C40). *)
From Coq Require Import String Reals List Bool Arith ZArith Lia Lra.
From Verif Require Import Res RSum Num ModelSparse ModelSparseUtils SpecSparse.
Import List ListNotations.
Open Scope R_scope.
Set Bullet Behavior "Strict Subproofs".

Lemma csr_rows_facts m : forall n r start d ix ptr, csr_rows m r n start = (d, ix, ptr) ->
  length ptr = S n /\ nth 0 ptr 0%nat = start /\ hd 1%nat ptr = start /\ length d = length ix /\ last ptr 0%nat = (start + length ix)%nat /\ nth n ptr 0%nat = (start + length ix)%nat /\
  forall i, (i < n)%nat -> exists l1 l2 d1 d2, ix = l1 ++ row_cols m (r + i) ++ l2 /\ d = d1 ++ map (coo_get m (r + i)) (row_cols m (r + i)) ++ d2 /\
    length d1 = length l1 /\ nth i ptr 0%nat = (start + length l1)%nat /\ nth (S i) ptr 0%nat = (start + length l1 + length (row_cols m (r + i)))%nat.
Proof.
  induction n as [|n IH]; intros r start d ix ptr E; cbn [csr_rows] in E.
  - injection E as <- <- <-. repeat split; cbn; try lia. 
  - destruct (csr_rows m (S r) n (start + length (row_cols m r))) as [[d0 ix0] ptr0] eqn:E0.
    assert (E1 := f_equal (fun t => fst (fst t)) E). assert (E2 := f_equal (fun t => snd (fst t)) E). assert (E3 := f_equal snd E). cbn [fst snd] in E1, E2, E3.
    subst d ix ptr. clear E. destruct (IH _ _ _ _ _ E0) as [L [N0 [Hd [Ld [La [Ln F]]]]]].
    split; [cbn [length]; lia|]. split; [reflexivity|]. split; [reflexivity|]. split; [rewrite !app_length, map_length; lia|].
    split; [|split].
    + destruct ptr0 as [|p0 ptr0]; [discriminate|]. change (last (start :: p0 :: ptr0) 0%nat) with (last (p0 :: ptr0) 0%nat). rewrite La, app_length. lia.
    + cbn [nth]. rewrite Ln, app_length. lia.
    + intros i Hi. destruct i as [|i].
      * rewrite Nat.add_0_r. exists [], ix0, [], d0. cbn [nth app length]. repeat split; try lia.
      * destruct (F i) as [l1 [l2 [d1 [d2 [A [B [C [D G]]]]]]]]; [lia|]. replace (r + S i)%nat with (S r + i)%nat by lia.
        exists (row_cols m r ++ l1), l2, (map (coo_get m r) (row_cols m r) ++ d1), d2. rewrite A, B, <- !app_assoc, !app_length, map_length.
        cbn [nth]. repeat split; try lia.
Qed.
Lemma lsum_select (l : list nat) (f : nat -> R) j : NoDup l ->
  lsum (map (fun c => if Nat.eqb c j then f c else 0) l) = if in_dec Nat.eq_dec j l then f j else 0.
Proof.
  induction l as [|c l IH]; intros ND; [reflexivity|]. inversion ND; subst. cbn [map]. change (lsum (?a :: ?b)) with (a + lsum b). rewrite IH by assumption.
  destruct (Nat.eqb c j) eqn:E.
  - apply Nat.eqb_eq in E. subst c. destruct (in_dec Nat.eq_dec j l); [contradiction|]. destruct (in_dec Nat.eq_dec j (j :: l)) as [|N]; [lra|]. exfalso; apply N; left; reflexivity.
  - apply Nat.eqb_neq in E. destruct (in_dec Nat.eq_dec j l) as [i|i]; destruct (in_dec Nat.eq_dec j (c :: l)) as [N|N]; try lra.
    + exfalso; apply N; right; exact i.
    + destruct N as [N|N]; [congruence|contradiction].
Qed.
Lemma nth_middle {A} (l1 l l2 : list A) k d : (k < length l)%nat -> nth (length l1 + k) (l1 ++ l ++ l2) d = nth k l d.
Proof. intros H. rewrite app_nth2 by lia. replace (length l1 + k - length l1)%nat with k by lia. apply app_nth1. exact H. Qed.
Lemma lsum_seq_list (l : list nat) (f : nat -> R) : lsum (map (fun k => f (nth k l 0%nat)) (seq 0 (length l))) = lsum (map f l).
Proof.
  induction l as [|c l IH]; [reflexivity|]. cbn [length seq map]. change (lsum (?a :: ?b)) with (a + lsum b). f_equal. rewrite <- seq_shift, map_map. exact IH.
Qed.
Lemma lsum_zero_all (l : list R) : (forall x, In x l -> x = 0) -> lsum l = 0.
Proof. induction l as [|a l IH]; intros H; [reflexivity|]. change (lsum (a :: l)) with (a + lsum l). rewrite (H a) by (left; reflexivity). rewrite IH by (intros; apply H; right; assumption). lra. Qed.
Lemma tocsr_get m i j : coo_in_range m -> (i < fst (coo_shape m))%nat -> csr_get (coo_tocsr m) i j = coo_get m i j.
Proof.
  intros Ok Hi. unfold coo_tocsr. destruct (csr_rows m 0 (fst (coo_shape m)) 0) as [[d ix] ptr] eqn:E.
  destruct (csr_rows_facts m _ _ _ _ _ _ E) as [_ [_ [_ [_ [_ [_ F]]]]]]. destruct (F i Hi) as [l1 [l2 [d1 [d2 [A [B [C [D G]]]]]]]]. cbn [Nat.add] in *.
  unfold csr_get. cbn [csr_indptr csr_indices csr_data]. rewrite D, G. replace (length l1 + length (row_cols m i) - length l1)%nat with (length (row_cols m i)) by lia.
  replace (seq (length l1) (length (row_cols m i))) with (map (fun k => (length l1 + k)%nat) (seq 0 (length (row_cols m i)))).
  2:{ clear. generalize (length (row_cols m i)) as n. generalize (length l1) as a. intros a n. revert a. induction n as [|n IH]; intros a; [reflexivity|].
      cbn [seq map]. f_equal; [lia|]. rewrite <- (IH (S a)), <- seq_shift, map_map. apply map_ext. intros; lia. }
  rewrite map_map.
  rewrite (lsum_map_ext _ (fun k => if Nat.eqb (nth k (row_cols m i) 0%nat) j then coo_get m i (nth k (row_cols m i) 0%nat) else 0)).
  2:{ intros k Hk. apply in_seq in Hk. rewrite A, nth_middle by lia. rewrite B, <- C, nth_middle by (rewrite map_length; lia).
      rewrite (nth_indep (map _ _) 0 (coo_get m i 0%nat)) by (rewrite map_length; lia). rewrite map_nth. reflexivity. }
  rewrite (lsum_seq_list (row_cols m i) (fun c => if Nat.eqb c j then coo_get m i c else 0)).
  rewrite lsum_select by (apply NoDup_filter, seq_NoDup). destruct (in_dec Nat.eq_dec j (row_cols m i)) as [_|N]; [reflexivity|].
  symmetry. unfold coo_get. apply lsum_zero_all. intros x Hx. apply in_map_iff in Hx as [[[r c] v] [<- He]].
  destruct (Nat.eqb r i && Nat.eqb c j)%bool eqn:Eq; [|reflexivity]. exfalso. apply N. apply filter_In. split.
  - apply andb_prop in Eq as [Er Ec]. apply Nat.eqb_eq in Ec. subst c. destruct (Ok _ _ _ He) as [_ Hc]. apply in_seq. lia.
  - apply existsb_exists. exists (r, c, v). split; assumption.
Qed.
Lemma tocsr_valid m : csr_valid (coo_tocsr m) /\ csr_shape (coo_tocsr m) = coo_shape m.
Proof.
  unfold coo_tocsr. destruct (csr_rows m 0 (fst (coo_shape m)) 0) as [[d ix] ptr] eqn:E. destruct (csr_rows_facts m _ _ _ _ _ _ E) as [L [N [_ [Ld [La [Ln _]]]]]].
  split; [|reflexivity]. unfold csr_valid. cbn [csr_indptr csr_shape csr_indices csr_data]. rewrite L. repeat split.
  - lia.
  - destruct ptr; [discriminate|exact N].
  - congruence.
  - rewrite Ln, Ld. lia.
Qed.
Lemma last_nth {A} (l : list A) d : last l d = nth (length l - 1) l d.
Proof.
  induction l as [|a l IH]; [reflexivity|]. destruct l as [|b l]; [reflexivity|]. change (last (a :: b :: l) d) with (last (b :: l) d). rewrite IH.
  cbn [length]. replace (S (S (length l)) - 1)%nat with (S (S (length l) - 1)) by lia. reflexivity.
Qed.
Lemma parts_valid m : csr_valid m -> csr_of_parts (csr_data m) (csr_indices m) (csr_indptr m) (csr_shape m) = Ok m.
Proof.
  intros [A [B [C D]]]. unfold csr_of_parts. rewrite A, Nat.eqb_refl. cbn [negb].
  assert (Hd : hd 1%nat (csr_indptr m) = 0%nat) by (destruct (csr_indptr m); [discriminate|exact B]). rewrite Hd.
  rewrite C, !Nat.eqb_refl. cbn [negb]. rewrite last_nth, A. replace (fst (csr_shape m) + 1 - 1)%nat with (fst (csr_shape m)) by lia.
  destruct (Nat.ltb _ _) eqn:E; [apply Nat.ltb_lt in E; lia|]. destruct m; reflexivity.
Qed.
Lemma parts_ok_valid d ix ptr sh m : csr_of_parts d ix ptr sh = Ok m -> csr_valid m.
Proof.
  unfold csr_of_parts. destruct (Nat.eqb (length ptr) (fst sh + 1)) eqn:E1; [|discriminate]. destruct (Nat.eqb (hd 1%nat ptr) 0) eqn:E2; [|discriminate].
  destruct (Nat.eqb (length ix) (length d)) eqn:E3; [|discriminate]. cbn [negb]. destruct (Nat.ltb _ _) eqn:E4; [discriminate|]. intros E. injection E as <-.
  apply Nat.eqb_eq in E1, E2, E3. apply Nat.ltb_ge in E4. rewrite last_nth, E1 in E4. replace (fst sh + 1 - 1)%nat with (fst sh) in E4 by lia.
  repeat split; cbn [csr_indptr csr_shape csr_indices csr_data]; try lia. destruct ptr; [discriminate|exact E2].
Qed.

(** ---- C40 ---- *)
Lemma pack_unpack_csr m : csr_valid m -> unpack_csr_matrix (pack_csr_matrix (IsCsr m)) = Ok m.
Proof. apply parts_valid. Qed.
Lemma pack_unpack_coo m : coo_in_range m -> exists m', unpack_csr_matrix (pack_csr_matrix (IsCoo m)) = Ok m' /\ csr_valid m' /\ csr_shape m' = coo_shape m /\
  forall i j, (i < fst (coo_shape m))%nat -> csr_get m' i j = coo_get m i j.
Proof.
  intros H. exists (coo_tocsr m). destruct (tocsr_valid m) as [V S']. split; [apply (parts_valid (coo_tocsr m) V)|]. split; [exact V|]. split; [exact S'|].
  intros i j Hi. apply tocsr_get; assumption.
Qed.
Lemma json_pack_unpack {J} dumps_f loads_f dumps_i loads_i m : (forall l, loads_f (dumps_f l) = Ok l) -> (forall l, loads_i (dumps_i l) = Ok l) -> csr_valid m ->
  exists d, @json_pack_csr_matrix J dumps_f dumps_i (IsCsr m) = Ok d /\ @json_unpack_csr_matrix J loads_f loads_i d = Ok m.
Proof.
  intros Hf Hi V. eexists. split; [reflexivity|]. unfold json_unpack_csr_matrix. cbn [jd_type key rbind jd_data jd_indices jd_indptr jd_shape to_csr].
  change (String.eqb "csr_matrix" "csr_matrix") with true. cbn [rassert]. rewrite Hf, !Hi. cbn [rbind]. apply parts_valid, V.
Qed.
Lemma json_rejects {J} dumps_f loads_f dumps_i loads_i : (forall m, @json_pack_csr_matrix J dumps_f dumps_i (IsCoo m) = Raise AssertionError) /\
  (forall d ty, jd_type d = Some ty -> ty <> "csr_matrix"%string -> @json_unpack_csr_matrix J loads_f loads_i d = Raise AssertionError) /\
  (forall d, jd_type d = None -> @json_unpack_csr_matrix J loads_f loads_i d = Raise KeyError).
Proof.
  split; [reflexivity|]. split; intros d; [intros ty E N|intros E]; unfold json_unpack_csr_matrix; rewrite E; cbn [key rbind]; [|reflexivity].
  apply String.eqb_neq in N. rewrite N. reflexivity.
Qed.

(** ---- C39 ---- *)
Definition sub_ents (nrow ncol : nat) (A : nat -> nat -> R) (ri ci : list Z) : list (list (list (Z * Z * R))) :=
  map (fun row => map (fun col => if Reqb (A row col) 0 then [] else [(nth row ri (-1)%Z, nth col ci (-1)%Z, A row col)]) (seq 0 ncol)) (seq 0 nrow).
Lemma sub_collect nrow ncol A ri ci : (nrow <= length ri)%nat -> (ncol <= length ci)%nat ->
  rmapM (fun row => rmapM (fun col =>
       if Reqb (A row col) 0 then Ok []
       else match nth_error ri row, nth_error ci col with
            | Some r, Some c => Ok [(r, c, A row col)]
            | _, _ => Raise IndexError
            end) (seq 0 ncol)) (seq 0 nrow) = Ok (sub_ents nrow ncol A ri ci).
Proof.
  intros Hr Hc. apply rmapM_ok. intros row Hrow. apply in_seq in Hrow. apply rmapM_ok. intros col Hcol. apply in_seq in Hcol.
  destruct (Reqb _ _); [reflexivity|]. rewrite (nth_error_nth' ri (-1)%Z) by lia. rewrite (nth_error_nth' ci (-1)%Z) by lia. reflexivity.
Qed.
Lemma in_sub_ents nrow ncol A ri ci e : In e (List.concat (List.concat (sub_ents nrow ncol A ri ci))) <->
  exists row col, (row < nrow)%nat /\ (col < ncol)%nat /\ A row col <> 0 /\ e = (nth row ri (-1)%Z, nth col ci (-1)%Z, A row col).
Proof.
  unfold sub_ents. rewrite in_concat. split.
  - intros [l [Hl He]]. apply in_concat in Hl as [ll [Hll Hl]]. apply in_map_iff in Hll as [row [<- Hrow]]. apply in_map_iff in Hl as [col [<- Hcol]].
    apply in_seq in Hrow, Hcol. destruct (Reqb (A row col) 0) eqn:E; [destruct He|]. destruct He as [<-|[]]. exists row, col. repeat split; try lia.
    intros Z0. rewrite Z0, Reqb_refl in E. discriminate.
  - intros [row [col [Hr [Hc [Nz ->]]]]]. exists [(nth row ri (-1)%Z, nth col ci (-1)%Z, A row col)]. split; [|left; reflexivity].
    apply in_concat. exists (map (fun col => if Reqb (A row col) 0 then [] else [(nth row ri (-1)%Z, nth col ci (-1)%Z, A row col)]) (seq 0 ncol)). split.
    + apply (in_map (fun row => map (fun col => if Reqb (A row col) 0 then [] else [(nth row ri (-1)%Z, nth col ci (-1)%Z, A row col)]) (seq 0 ncol))). apply in_seq. lia.
    + apply in_map_iff. exists col. split; [|apply in_seq; lia]. destruct (Reqb (A row col) 0) eqn:E; [apply Reqb_true in E; contradiction|reflexivity].
Qed.
Definition fits (rd cd : nat) (e : Z * Z * R) : bool :=
  let '(r, c, _) := e in ((0 <=? r)%Z && (r <? Z.of_nat rd)%Z && (0 <=? c)%Z && (c <? Z.of_nat cd)%Z)%bool.
Lemma fits_true rd cd r c v : fits rd cd (r, c, v) = true <-> (0 <= r < Z.of_nat rd)%Z /\ (0 <= c < Z.of_nat cd)%Z.
Proof. unfold fits. rewrite !andb_true_iff, !Z.leb_le, !Z.ltb_lt. tauto. Qed.
Lemma lsum_concat {X} (f : X -> R) (ll : list (list X)) : lsum (map f (List.concat ll)) = lsum (map (fun l => lsum (map f l)) ll).
Proof. induction ll as [|l ll IH]; [reflexivity|]. cbn [List.concat map]. rewrite map_app, lsum_app, IH. reflexivity. Qed.
Lemma sub_matrix_get nrow ncol A ri ci rd cd : indices_ok nrow ri rd -> indices_ok ncol ci cd ->
  exists m, get_sparse_sub_matrix nrow ncol A ri ci rd cd = Ok m /\ csr_valid m /\ csr_shape m = (rd, cd) /\
    forall r c, (r < rd)%nat -> csr_get m r c = scattered nrow ncol A ri ci r c.
Proof.
  intros [Lr Hr] [Lc Hc]. unfold get_sparse_sub_matrix. rewrite sub_collect by lia. cbn [rbind]. unfold csr_of_triplets. cbn [fst snd].
  set (es := List.concat (List.concat (sub_ents nrow ncol A ri ci))).
  change (forallb _ es) with (forallb (fits rd cd) es).
  assert (F : forallb (fits rd cd) es = true).
  { apply forallb_forall. intros e He. apply in_sub_ents in He as [row [col [H1 [H2 [_ ->]]]]]. apply fits_true. split; [apply Hr, H1|apply Hc, H2]. }
  rewrite F. eexists. split; [reflexivity|]. set (m := Coo (rd, cd) _). destruct (tocsr_valid m) as [V Sh]. split; [exact V|]. split; [exact Sh|].
  assert (Ok0 : coo_in_range m).
  { intros r c v Hin. apply in_map_iff in Hin as [[[zr zc] zv] [E He]]. injection E as <- <- <-. apply (proj1 (forallb_forall _ _) F) in He. apply fits_true in He. cbn [coo_shape m fst snd]. lia. }
  intros r c Hrd. rewrite tocsr_get by assumption. unfold coo_get, m. cbn [coo_ent]. rewrite map_map. unfold es. rewrite !lsum_concat. unfold sub_ents. rewrite map_map.
  unfold scattered. rewrite lsum_map_seq. apply rsum_ext. intros i Hi. rewrite map_map, lsum_map_seq. apply rsum_ext. intros j Hj.
  specialize (Hr i Hi). specialize (Hc j Hj). set (zr := nth i ri (-1)%Z) in *. set (zc := nth j ci (-1)%Z) in *.
  assert (Er : Nat.eqb (Z.to_nat zr) r = Z.eqb zr (Z.of_nat r)) by (destruct (Z.eqb_spec zr (Z.of_nat r)); [apply Nat.eqb_eq; lia|apply Nat.eqb_neq; lia]).
  assert (Ec : Nat.eqb (Z.to_nat zc) c = Z.eqb zc (Z.of_nat c)) by (destruct (Z.eqb_spec zc (Z.of_nat c)); [apply Nat.eqb_eq; lia|apply Nat.eqb_neq; lia]).
  rewrite <- Er, <- Ec. destruct (Reqb (A i j) 0) eqn:E.
  - apply Reqb_true in E. rewrite E. destruct (_ && _)%bool; reflexivity.
  - cbn [map lsum fold_right]. change (fold_right Rplus 0 [?x]) with (x + 0). destruct (_ && _)%bool; lra.
Qed.
Lemma scattered_injective nrow ncol A ri ci rd cd : indices_ok nrow ri rd -> indices_ok ncol ci cd -> NoDup ri -> NoDup ci ->
  (forall i j r c, (i < nrow)%nat -> (j < ncol)%nat -> nth i ri (-1)%Z = Z.of_nat r -> nth j ci (-1)%Z = Z.of_nat c -> scattered nrow ncol A ri ci r c = A i j) /\
  (forall r c, (~ In (Z.of_nat r) ri \/ ~ In (Z.of_nat c) ci) -> scattered nrow ncol A ri ci r c = 0).
Proof.
  intros [Lr Hr] [Lc Hc] Nr Nc. split.
  - intros i j r c Hi Hj Er Ec. unfold scattered. rewrite (rsum_single nrow i).
    + rewrite (rsum_single ncol j).
      * rewrite Er, Ec, !Z.eqb_refl. reflexivity.
      * exact Hj.
      * intros k Hk Nk. destruct (Z.eqb_spec (nth k ci (-1)%Z) (Z.of_nat c)) as [E|_]; [|rewrite andb_false_r; reflexivity].
        exfalso. apply Nk. apply (proj1 (NoDup_nth ci (-1)%Z) Nc); [lia|lia|congruence].
    + exact Hi.
    + intros k Hk Nk. apply rsum_zero. intros q Hq. destruct (Z.eqb_spec (nth k ri (-1)%Z) (Z.of_nat r)) as [E|_]; [|reflexivity].
      exfalso. apply Nk. apply (proj1 (NoDup_nth ri (-1)%Z) Nr); [lia|lia|congruence].
  - intros r c H. unfold scattered. apply rsum_zero. intros i Hi. apply rsum_zero. intros j Hj.
    destruct (Z.eqb_spec (nth i ri (-1)%Z) (Z.of_nat r)) as [E|_]; [|reflexivity]. destruct (Z.eqb_spec (nth j ci (-1)%Z) (Z.of_nat c)) as [E'|_]; [|reflexivity].
    exfalso. destruct H as [H|H]; apply H; [rewrite <- E|rewrite <- E']; apply nth_In; lia.
Qed.
Lemma sub_matrix_rejects nrow ncol A ri ci rd cd i j : (i < nrow)%nat -> (j < ncol)%nat -> A i j <> 0 -> length ri = nrow -> length ci = ncol ->
  ~ ((0 <= nth i ri (-1) < Z.of_nat rd)%Z /\ (0 <= nth j ci (-1) < Z.of_nat cd)%Z) -> get_sparse_sub_matrix nrow ncol A ri ci rd cd = Raise ValueError.
Proof.
  intros Hi Hj Nz Lr Lc N. unfold get_sparse_sub_matrix. rewrite sub_collect by lia. cbn [rbind]. unfold csr_of_triplets. cbn [fst snd].
  set (es := List.concat (List.concat (sub_ents nrow ncol A ri ci))). change (forallb _ es) with (forallb (fits rd cd) es).
  destruct (forallb (fits rd cd) es) eqn:F; [|reflexivity]. exfalso. apply N.
  assert (He : In (nth i ri (-1)%Z, nth j ci (-1)%Z, A i j) es) by (apply in_sub_ents; exists i, j; repeat split; assumption).
  apply (proj1 (forallb_forall _ _) F) in He. apply fits_true in He. exact He.
Qed.
Lemma sub_hessian n A ix dim : indices_ok n ix dim -> exists m, get_sparse_sub_hessian n n A ix dim = Ok m /\ csr_valid m /\ csr_shape m = (dim, dim) /\
  (forall r c, (r < dim)%nat -> csr_get m r c = scattered n n A ix ix r c) /\
  ((forall i j, (i < n)%nat -> (j < n)%nat -> A i j = A j i) -> forall r c, (r < dim)%nat -> (c < dim)%nat -> csr_get m r c = csr_get m c r).
Proof.
  intros H. destruct (sub_matrix_get n n A ix ix dim dim H H) as [m [E [V [Sh G]]]]. exists m. repeat split; try assumption; try apply V.
  intros Sy r c Hr Hc. rewrite !G by assumption. unfold scattered. rewrite rsum_swap. apply rsum_ext. intros i Hi. apply rsum_ext. intros j Hj. rewrite (Sy j i) by assumption.
  rewrite andb_comm. reflexivity.
Qed.
