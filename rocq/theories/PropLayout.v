(** Transfer variables; how a problem lays out its variables. *)
From Coq Require Import Reals Lra.
From Flocq Require Import Core.
From Verif Require Import Prelude Fl FlArith MCore MValid MSpace SpecCore SpecRun PLogic FlInt PSpace Demo PropSpace PropCodec.

(** * C30 *)
Lemma zero_feq lb : fisfin lb = true -> feq (fmul lb (fZ 0)) (fZ 0) = true.
Proof. intros F. destruct (fmul_0 lb F) as [F' R]. apply feq_FR; [apply fin_notnan; exact F'|reflexivity|]. rewrite R, fZ_0. reflexivity. Qed.
Theorem C30_correct_bits : forall E tp n tf lb ub az x,
  exists bits, v_correct E tp (TransferBinaryVar n tf lb ub az) x = map fZ bits /\ List.length bits = n /\
    Forall (fun z => z = 0 \/ z = 1)%Z bits /\ (az = false -> 0 < n -> In 1%Z bits).
Proof.
  intros. unfold v_correct. set (c := clipv _ _ x).
  assert (Lc : List.length c = n) by (unfold c; rewrite clipv_length; cbn [v_lb]; unfold times_zeros; apply repeat_length).
  eexists. split; [reflexivity|]. split; [rewrite get_correct_x_length, transfer_bits_length; exact Lc|].
  split; [apply get_correct_x_01, transfer_bits_01|]. intros -> Hn.
  assert (L := transfer_bits_length E tf tp c). assert (H01 := transfer_bits_01 E tf tp c).
  unfold get_correct_x. destruct (forallb (Z.eqb 0) _) eqn:Q.
  - set (b := transfer_bits E tf tp c) in *. assert (0 < List.length b) by lia.
    assert (Hm : tp_i tp 0 mod List.length b < List.length b) by (apply Nat.mod_upper_bound; lia).
    eapply nth_error_In. apply upd_nth_eq. exact Hm.
  - assert (F : exists z, In z (transfer_bits E tf tp c) /\ (0 =? z)%Z = false).
    { clear -Q. induction (transfer_bits E tf tp c) as [|z l IH]; cbn [forallb] in Q; [discriminate|].
      destruct (0 =? z)%Z eqn:Z0; [|exists z; split; [left; reflexivity|exact Z0]]. destruct (IH Q) as (y & Hy & H). exists y. split; [right; exact Hy|exact H]. }
    destruct F as (z & Hz & Hne). rewrite Forall_forall in H01. destruct (H01 z Hz) as [->| ->]; [discriminate|exact Hz].
Qed.
Theorem C30_correct_bool : forall E tp n tf lb ub x,
  exists bits, v_correct E tp (TransferBoolVar n tf lb ub) x = map fZ bits /\ List.length bits = n /\
    Forall (fun z => z = 0 \/ z = 1)%Z bits.
Proof.
  intros. unfold v_correct. eexists. split; [reflexivity|]. split; [|apply transfer_bits_01].
  rewrite transfer_bits_length, clipv_length. cbn [v_lb]. unfold times_zeros. apply repeat_length.
Qed.
(** Decoding and generating give 0/1 (or booleans) too, and respect all_zeros=False. *)
Theorem C30_decode : forall E tp n tf lb ub az x,
  exists bits, v_decode E tp (TransferBinaryVar n tf lb ub az) x = Ok (map DInt bits) /\ List.length bits = n /\
    Forall (fun z => z = 0 \/ z = 1)%Z bits /\ (az = false -> 0 < n -> In 1%Z bits).
Proof.
  intros. destruct (C30_correct_bits E tp n tf lb ub az x) as (bits & Q & L & H01 & H). exists bits. split; [|auto].
  unfold v_decode. rewrite Q, map_map. f_equal. apply map_ext_in. intros z Hz. rewrite Forall_forall in H01.
  destruct (H01 z Hz) as [->| ->]; reflexivity.
Qed.
Theorem C30_generate : forall PE tp n tf lb ub az,
  exists bits, v_generate PE tp (TransferBinaryVar n tf lb ub az) = Ok (map DInt bits) /\ List.length bits = n /\
    Forall (fun z => z = 0 \/ z = 1)%Z bits /\ (az = false -> 0 < n -> In 1%Z bits).
Proof.
  intros. unfold v_generate. eexists. split; [reflexivity|].
  set (b := map (fun i => Z.of_nat (tp_i tp i mod 2)) (seq 0 n)).
  assert (L : List.length b = n) by (unfold b; rewrite map_length, seq_length; reflexivity).
  assert (H01 : Forall (fun z => z = 0 \/ z = 1)%Z b).
  { apply Forall_forall. intros z Hz. apply in_map_iff in Hz. destruct Hz as (i & <- & _).
    assert (tp_i tp i mod 2 < 2) by (apply Nat.mod_upper_bound; lia). lia. }
  split; [rewrite get_correct_x_length; exact L|]. split; [apply get_correct_x_01; exact H01|]. intros -> Hn.
  unfold get_correct_x. destruct (forallb (Z.eqb 0) b) eqn:Q.
  - set (k := tp_i _ 0 mod List.length b). assert (Hk : k < List.length b) by (apply Nat.mod_upper_bound; lia).
    eapply nth_error_In. apply upd_nth_eq. exact Hk.
  - clear -Q H01. induction b as [|z b IH]; simpl in Q; [discriminate|]. inversion H01 as [|? ? [->| ->] ?]; subst; [|left; reflexivity].
    right. apply IH; assumption.
Qed.
(** The effective lower bound is 0 whatever was declared. *)
Theorem C30_lower_bound_ignored : forall v n tf lb ub az i, (v = TransferBinaryVar n tf lb ub az \/ v = TransferBoolVar n tf lb ub) ->
  fisfin lb = true -> i < n -> feq (nth i (v_lb v) fnan) (fZ 0) = true.
Proof.
  intros v n tf lb ub az i [->| ->] F Hi; cbn [v_lb]; unfold times_zeros; rewrite nth_repeat_lt by exact Hi; apply zero_feq; exact F.
Qed.
(** Decoding samples again: a corrected vector need not decode to itself. *)
Definition tp_const (u : f64) : tape := mkTape (fun _ => u) (fun _ => 0).
Definition tf_half : env := mkEnv argsort_ins (fun _ => fZ 0) (fun _ => fZ 0) (fun _ => 0) (fun _ _ => chalf) (fun _ => fZ 0) (fun _ => []).
Theorem C30_decode_resamples_refuted : exists v x tp1 tp2 y,
  y = v_correct tf_half tp1 v x /\ map cast64 y = [1%Z] /\ v_decode tf_half tp2 v y = Ok [DInt 0].
Proof.
  exists (TransferBinaryVar 1 "vstf_01" (fZ (-8)) (fZ 8) true), [fZ 1], (tp_const (fZ 0)), (tp_const (fZ 1)), [fZ 1].
  split; [reflexivity|]. split; [vm_compute; reflexivity|reflexivity].
Qed.
Example C30_example : exists v, v = TransferBinaryVar 3 "vstf_02" (fZ (-8)) (fZ 8) false /\
  map cast64 (v_correct tf_half (tp_const (fZ 1)) v [fZ 0; fZ 0; fZ 0]) = [1; 0; 0]%Z.
Proof. eexists. split; reflexivity. Qed.

(** * C32 *)
(** Where variable number j starts. *)
Definition offset (bs : list nvar) (j : nat) : nat := list_sum (map (fun b => n_vars (snd b)) (firstn j bs)).
Definition part (bs : list nvar) (j : nat) (x : vec) : vec :=
  match nth_error bs j with Some b => slice (offset bs j) (offset bs j + n_vars (snd b)) x | None => [] end.

Lemma slice_app_l {T} (l1 l2 : list T) n : List.length l1 = n -> slice 0 n (l1 ++ l2) = l1.
Proof. intros <-. unfold slice. rewrite Nat.sub_0_r. simpl. rewrite firstn_app, firstn_all, Nat.sub_diag. simpl. apply app_nil_r. Qed.
Lemma slice_app_r {T} (l1 l2 : list T) n a b : List.length l1 = n -> slice (n + a) (n + b) (l1 ++ l2) = slice a b l2.
Proof.
  intros <-. unfold slice. rewrite skipn_app, skipn_all2 by lia. simpl. f_equal; [lia|]. f_equal. lia.
Qed.
Lemma slice_slice {T} a b i j (l : list T) : a + j <= b -> slice i j (slice a b l) = slice (a + i) (a + j) l.
Proof.
  intros H. unfold slice. rewrite skipn_firstn_comm, skipn_skipn_add, firstn_firstn. f_equal. lia.
Qed.
Theorem C32_bounds : forall bs, Forall (fun b : nvar => wf_var (snd b)) bs ->
  vars_dim bs = list_sum (map (fun b => n_vars (snd b)) bs) /\ List.length (vars_ub bs) = vars_dim bs /\
  forall j b, nth_error bs j = Some b -> part bs j (vars_lb bs) = v_lb (snd b) /\ part bs j (vars_ub bs) = v_ub (snd b).
Proof.
  intros bs W. split; [apply dims_sum; exact W|]. split; [apply vars_ub_length; exact W|].
  unfold vars_lb, vars_ub. induction W as [|b bs Wb W IH]; intros j c Hj; [destruct j; discriminate|].
  destruct j as [|j]; unfold part; rewrite Hj.
  - assert (b = c) by (simpl in Hj; congruence). subst c. unfold offset. simpl.
    rewrite !slice_app_l by (try apply v_lb_length; try apply v_ub_length; exact Wb). auto.
  - simpl in Hj. destruct (IH j c Hj) as [H1 H2]. unfold part in H1, H2. rewrite Hj in H1, H2.
    replace (offset (b :: bs) (S j)) with (n_vars (snd b) + offset bs j) by reflexivity.
    rewrite <- Nat.add_assoc. cbn [map List.concat].
    rewrite !slice_app_r by (try apply v_lb_length; try apply v_ub_length; exact Wb). auto.
Qed.
Lemma v_correct_length E tp v x : argsort_ok (e_argsort E) -> wf_var v -> List.length x = n_vars v ->
  List.length (v_correct E tp v x) = n_vars v.
Proof. intros HA W L. destruct (v_correct_boxed E HA tp v x W L) as [H _]. rewrite H. apply v_lb_length. exact W. Qed.
Lemma correct_parts E tps : argsort_ok (e_argsort E) -> forall bs, Forall (fun b : nvar => wf_var (snd b)) bs ->
  forall i n (x : vec), n + list_sum (map (fun b => n_vars (snd b)) bs) <= List.length x ->
  let y := correct_with_bounds E tps i n bs x in
  List.length y = list_sum (map (fun b => n_vars (snd b)) bs) /\
  forall j b, nth_error bs j = Some b ->
    slice (offset bs j) (offset bs j + n_vars (snd b)) y
      = v_correct E (tps (i + j)) (snd b) (slice (n + offset bs j) (n + offset bs j + n_vars (snd b)) x).
Proof.
  intros HA bs W. induction W as [|b bs Wb W IH]; intros i n x L; cbv zeta; [split; [reflexivity|intros [|j] c H; discriminate]|].
  cbn [correct_with_bounds map]. cbn [map list_sum] in L. simpl in L.
  set (y1 := v_correct E (tps i) (snd b) (slice n (n + n_vars (snd b)) x)).
  assert (L1 : List.length y1 = n_vars (snd b)).
  { apply v_correct_length; [exact HA|exact Wb|]. rewrite slice_length by (unfold vec in *; lia). lia. }
  destruct (IH (S i) (n + n_vars (snd b)) x) as [L2 H2]; [unfold vec in *; lia|].
  split; [rewrite app_length, L1, L2; reflexivity|]. intros [|j] c Hj.
  - assert (b = c) by (simpl in Hj; congruence). subst c. unfold offset. simpl. rewrite slice_app_l by exact L1.
    rewrite !Nat.add_0_r. reflexivity.
  - simpl in Hj. replace (offset (b :: bs) (S j)) with (n_vars (snd b) + offset bs j) by reflexivity.
    rewrite <- Nat.add_assoc. rewrite slice_app_r by exact L1. rewrite (H2 j c Hj). f_equal; [f_equal; lia|f_equal; lia].
Qed.
(** correct_solution hands every variable its own slice and keeps the length. *)
Theorem C32_correct_slices : forall E bs tps (x : vec), argsort_ok (e_argsort E) -> Forall (fun b : nvar => wf_var (snd b)) bs ->
  List.length x = vars_dim bs ->
  let y := correct_with_bounds E tps 0 0 bs x in
  List.length y = vars_dim bs /\
  forall j b, nth_error bs j = Some b -> part bs j y = v_correct E (tps j) (snd b) (part bs j x).
Proof.
  intros E bs tps x HA W L y. rewrite (dims_sum bs W) in *. destruct (correct_parts E tps HA bs W 0 0 x) as [L' H].
  { rewrite <- L. simpl. apply Nat.le_refl. }
  split; [exact L'|]. intros j b Hj. unfold part. rewrite Hj. exact (H j b Hj).
Qed.
(** The dict decode_solution builds, one assignment after the other. *)
Definition entry (v : var) (t : list dval) : option decoded :=
  if n_vars v =? 1 then match t with z :: _ => Some (One z) | [] => None end else Some (Several t).
Fixpoint lookup (d : list (string * decoded)) (k : string) : option decoded :=
  match d with [] => None | p :: r => if String.eqb (fst p) k then Some (snd p) else lookup r k end.
Lemma dict_set_keys d k v : map fst (dict_set d k v) = if existsb (fun p => String.eqb (fst p) k) d then map fst d else map fst d ++ [k].
Proof.
  unfold dict_set. destruct (existsb _ d); [|apply map_app]. rewrite map_map. apply map_ext. intros p.
  destruct (String.eqb (fst p) k) eqn:Q; [apply String.eqb_eq in Q; simpl; auto|reflexivity].
Qed.
Lemma existsb_keys d k : existsb (fun p : string * decoded => String.eqb (fst p) k) d = true <-> In k (map fst d).
Proof.
  rewrite existsb_exists, in_map_iff. split; intros (p & H1 & H2); exists p.
  - apply String.eqb_eq in H2. auto.
  - rewrite H1, String.eqb_refl. auto.
Qed.
Lemma dict_set_nodup d k v : NoDup (map fst d) -> NoDup (map fst (dict_set d k v)).
Proof.
  intros N. rewrite dict_set_keys. destruct (existsb _ d) eqn:Q; [exact N|].
  assert (~ In k (map fst d)) by (rewrite <- existsb_keys; congruence).
  apply (Permutation_NoDup (l := k :: map fst d)); [apply Permutation_cons_append|constructor; assumption].
Qed.
Lemma dict_set_in d k v k' : In k' (map fst (dict_set d k v)) <-> In k' (map fst d) \/ k' = k.
Proof.
  rewrite dict_set_keys. destruct (existsb _ d) eqn:Q.
  - apply existsb_keys in Q. split; [auto|]. intros [H| ->]; assumption.
  - rewrite in_app_iff. simpl. intuition.
Qed.
Lemma lookup_app_none d1 d2 k : ~ In k (map fst d1) -> lookup (d1 ++ d2) k = lookup d2 k.
Proof.
  induction d1 as [|p d1 IH]; simpl; [reflexivity|]. intros H. destruct (String.eqb (fst p) k) eqn:Q.
  - apply String.eqb_eq in Q. tauto.
  - apply IH. tauto.
Qed.
Lemma lookup_set d k v k' : lookup (dict_set d k v) k' = if String.eqb k k' then Some v else lookup d k'.
Proof.
  unfold dict_set. destruct (existsb _ d) eqn:Q.
  - destruct (String.eqb k k') eqn:Qk.
    + apply String.eqb_eq in Qk. subst k'. revert Q. induction d as [|p d IH]; simpl; [discriminate|].
      destruct (String.eqb (fst p) k) eqn:Qp; simpl; [rewrite String.eqb_refl; reflexivity|]. rewrite Qp. exact IH.
    + clear Q. induction d as [|p d IH]; simpl; [reflexivity|]. destruct (String.eqb (fst p) k) eqn:Qp; simpl.
      * rewrite Qk. apply String.eqb_eq in Qp. rewrite Qp, Qk. exact IH.
      * destruct (String.eqb (fst p) k'); [reflexivity|exact IH].
  - assert (N : ~ In k (map fst d)) by (rewrite <- existsb_keys; congruence).
    destruct (String.eqb k k') eqn:Qk.
    + apply String.eqb_eq in Qk. subst k'. rewrite lookup_app_none by exact N. simpl. rewrite String.eqb_refl. reflexivity.
    + clear Q N. induction d as [|p d IH]; simpl; [rewrite Qk; reflexivity|]. destruct (String.eqb (fst p) k'); [reflexivity|exact IH].
Qed.
Lemma decode_parts E tps bs : forall i n (x : vec) acc d, decode_with_bounds E tps i n bs x acc = Ok d ->
  NoDup (map fst acc) ->
  NoDup (map fst d) /\ (forall k, In k (map fst d) <-> In k (map fst acc) \/ In k (map fst bs)) /\
  (forall k, ~ In k (map fst bs) -> lookup d k = lookup acc k) /\
  forall j b, nth_error bs j = Some b -> ~ In (fst b) (map fst (skipn (S j) bs)) ->
    exists t, v_decode E (tps (i + j)) (snd b) (slice (n + offset bs j) (n + offset bs j + n_vars (snd b)) x) = Ok t /\
      exists e, entry (snd b) t = Some e /\ lookup d (fst b) = Some e.
Proof.
  induction bs as [|b bs IH]; intros i n x acc d H N; simpl in H.
  - assert (acc = d) by congruence. subst d. split; [exact N|]. split; [simpl; tauto|]. split; [reflexivity|]. intros [|j] c Hj; discriminate.
  - destruct (v_decode E (tps i) (snd b) (slice n (n + n_vars (snd b)) x)) as [t|e] eqn:Ht; [|discriminate]. simpl in H.
    assert (He : exists e, entry (snd b) t = Some e /\ decode_with_bounds E tps (S i) (n + n_vars (snd b)) bs x (dict_set acc (fst b) e) = Ok d).
    { unfold entry. destruct (n_vars (snd b) =? 1); [destruct t as [|z t]; [discriminate|]|]; eexists; (split; [reflexivity|exact H]). }
    destruct He as (e & He & Hd). destruct (IH _ _ _ _ _ Hd (dict_set_nodup _ _ _ N)) as (N' & K & Old & New).
    split; [exact N'|]. split; [intros k; rewrite K, dict_set_in; simpl; intuition|]. split.
    + intros k Hk. rewrite Old by (simpl in Hk; tauto). rewrite lookup_set. destruct (String.eqb (fst b) k) eqn:Q; [|reflexivity].
      apply String.eqb_eq in Q. simpl in Hk. tauto.
    + intros [|j] c Hj Hlast.
      * assert (b = c) by (simpl in Hj; congruence). subst c. exists t. unfold offset. simpl. rewrite !Nat.add_0_r. split; [exact Ht|].
        exists e. split; [exact He|]. simpl in Hlast. rewrite Old by exact Hlast. rewrite lookup_set, String.eqb_refl. reflexivity.
      * simpl in Hj, Hlast. destruct (New j c Hj Hlast) as (t' & T1 & T2). exists t'. split; [|exact T2].
        replace (offset (b :: bs) (S j)) with (n_vars (snd b) + offset bs j) by reflexivity.
        replace (i + S j) with (S i + j) by lia. rewrite Nat.add_assoc. exact T1.
Qed.
(** decode_solution: the keys are the variables' names; the last variable of a name determines its value, decoded
    from that variable's slice; there is one entry per variable exactly when the names are distinct. *)
Theorem C32_decode : forall E bs tps (x : vec) d, decode_with_bounds E tps 0 0 bs x [] = Ok d ->
  (forall k, In k (map fst d) <-> In k (map fst bs)) /\ NoDup (map fst d) /\
  (forall j b, nth_error bs j = Some b -> ~ In (fst b) (map fst (skipn (S j) bs)) ->
    exists t e, v_decode E (tps j) (snd b) (part bs j x) = Ok t /\ entry (snd b) t = Some e /\ lookup d (fst b) = Some e) /\
  (List.length d = List.length bs <-> NoDup (map fst bs)).
Proof.
  intros E bs tps x d H. destruct (decode_parts E tps bs 0 0 x [] d H) as (N & K & _ & New); [constructor|].
  assert (K' : forall k, In k (map fst d) <-> In k (map fst bs)) by (intros k; rewrite K; simpl; tauto).
  split; [exact K'|]. split; [exact N|]. split.
  - intros j b Hj Hl. destruct (New j b Hj Hl) as (t & T1 & e & T2 & T3). exists t, e. unfold part. rewrite Hj. auto.
  - split; intros HL.
    + assert (incl (map fst d) (map fst bs)) by (intros k; apply K').
      assert (L : List.length (map fst bs) <= List.length (map fst d)) by (rewrite !map_length; unfold nvar in *; lia).
      exact (NoDup_incl_NoDup N L H0).
    + pose proof (Permutation_length (NoDup_Permutation N HL K')) as L. rewrite !map_length in L. exact L.
Qed.
(** encode_solution: the concatenation of the variables' encodings. *)
Theorem C32_encode : forall x bs e, encode_with_bounds x bs = Ok e ->
  exists parts, List.length parts = List.length bs /\ e = List.concat parts /\
    forall j b, nth_error bs j = Some b -> exists d p, nth_error x j = Some d /\ nth_error parts j = Some p /\ v_encode (snd b) d = Ok p.
Proof.
  intros x bs e H. unfold encode_with_bounds in H. destruct (map_res _ _) as [parts|] eqn:Q; [|discriminate].
  assert (e = List.concat parts) by (simpl in H; congruence). subst e. exists parts.
  assert (L := map_res_ok_length _ _ _ Q). rewrite seq_length in L. split; [exact L|]. split; [reflexivity|].
  intros j b Hj. assert (Hlt : j < List.length bs) by (apply nth_error_Some; congruence).
  apply map_res_Forall2 in Q. assert (F : forall k a, nth_error (seq 0 (List.length bs)) k = Some a -> exists p, nth_error parts k = Some p /\
     (match nth_error bs a, nth_error x a with Some b0, Some d => v_encode (snd b0) d | _, _ => Err IndexError end) = Ok p).
  { clear -Q. induction Q as [|a p l ps Hap _ IH]; intros [|k] c Hc; try discriminate; simpl in *; [|apply IH; exact Hc].
    assert (a = c) by congruence. subst c. eauto. }
  destruct (F j j) as (p & P1 & P2).
  { rewrite (nth_error_nth' _ 0) by (rewrite seq_length; exact Hlt). rewrite seq_nth by exact Hlt. reflexivity. }
  rewrite Hj in P2. destruct (nth_error x j) as [d|]; [|discriminate]. exists d, p. auto.
Qed.
Example C32_example : exists d,
  decode_with_bounds tf_one (fun _ => no_draws) 0 0 mixed (map fZ [7; -3; 9; 1; 1; 0; 0; 0]%Z) [] = Ok d /\
  map fst d = ["f"; "c"; "p"; "b"]%string /\ lookup d "c" = Some (Several [DLab (LStr "b"); DLab (LStr "b")]) /\
  lookup d "p" = Some (Several [DLab (LStr "b"); DLab (LStr "a")]).
Proof. eexists. split; [reflexivity|]. split; [reflexivity|]. split; reflexivity. Qed.
(** Two variables with the same name: only the later one survives. *)
Theorem C32_same_name_refuted : exists bs d, Forall (fun b : nvar => wf_var (snd b)) bs /\
  decode_with_bounds tf_one (fun _ => no_draws) 0 0 bs [fZ 1; fZ 0] [] = Ok d /\ List.length bs = 2 /\ List.length d = 1.
Proof.
  exists [("x", BinaryVar 1); ("x", BoolVar 1)]%string, [("x"%string, One (DBool false))].
  split; [constructor; [exact I|constructor; [exact I|constructor]]|]. split; [reflexivity|]. split; reflexivity.
Qed.

Print Assumptions C30_correct_bits.
Print Assumptions C30_correct_bool.
Print Assumptions C30_decode.
Print Assumptions C30_generate.
Print Assumptions C30_lower_bound_ignored.
Print Assumptions C30_decode_resamples_refuted.
Print Assumptions C32_bounds.
Print Assumptions C32_correct_slices.
Print Assumptions C32_decode.
Print Assumptions C32_encode.
Print Assumptions C32_same_name_refuted.
