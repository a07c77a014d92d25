(** Facts about variables: bounds, correction. *)
From Coq Require Import Reals Lra.
From Verif Require Import Prelude Fl FlArith MCore MValid MSpace SpecCore FlInt.

(** Sensible variables: ordered bounds, a non-empty choice, an upper transfer bound of at least 1. *)
Definition ordered (lb ub : vec) : Prop :=
  List.length lb = List.length ub /\ forall i, i < List.length lb -> fle (nth i lb fnan) (nth i ub fnan) = true.
Definition small (n : nat) : Prop := 1 <= n /\ (Z.of_nat n <= 2 ^ 31)%Z.
Definition wf_var (v : var) : Prop :=
  match v with
  | FloatVar lb ub | IntegerVar lb ub => ordered lb ub
  | LabelVar _ sets les ub => Forall (fun s => small (List.length s)) sets /\ List.length les = List.length sets /\
                              ub = map (fun s => set_ub (List.length s)) sets
  | SequenceVar sets => small (List.length sets)
  | PermutationVar set _ => small (List.length set)
  | BinaryVar _ | BoolVar _ => True
  | TransferBinaryVar _ _ lb ub _ | TransferBoolVar _ _ lb ub => fisfin lb = true /\ fle (fZ 1) ub = true
  end.
(** The components that are truncated when corrected. *)
Definition truncates (v : var) : bool := match v with LabelVar _ _ _ _ | SequenceVar _ => true | _ => false end.

(** One corrected component [y] of the input [x]. *)
Definition comp_ok (l u x y : f64) : Prop :=
  (fle l y = true /\ fle y u = true) \/ (fisnan x = true /\ (fisnan y = true \/ y = fZ int_min)).
Definition boxed (lb ub x y : vec) : Prop :=
  List.length y = List.length lb /\
  forall i, i < List.length lb -> comp_ok (nth i lb fnan) (nth i ub fnan) (nth i x fnan) (nth i y fnan).

Lemma nth_repeat_lt {T} (a d : T) n i : i < n -> nth i (repeat a n) d = a.
Proof. revert i; induction n; intros [|i] H; simpl; try lia; auto. apply IHn; lia. Qed.
Lemma nth_map_lt {T U} (f : T -> U) l d d' i : i < List.length l -> nth i (map f l) d' = f (nth i l d).
Proof. intros H. rewrite (nth_indep _ d' (f d)) by (rewrite map_length; exact H). apply map_nth. Qed.
Lemma clipv_length lb ub x : List.length (clipv lb ub x) = List.length lb.
Proof. unfold clipv. rewrite map_length, seq_length. reflexivity. Qed.
Lemma clipv_nth lb ub x i : i < List.length lb ->
  nth i (clipv lb ub x) fnan = fclip (nth i x fnan) (nth i lb fnan) (nth i ub fnan).
Proof.
  intros H. unfold clipv. rewrite (nth_map_lt _ _ 0) by (rewrite seq_length; exact H). rewrite seq_nth by exact H. reflexivity.
Qed.
Lemma fle_refl_lb l u : fle l u = true -> fisnan l = false /\ fisnan u = false. Proof. apply fle_true_nan. Qed.

(** Lower and upper bounds have one entry per component, and are ordered. *)
Lemma fmul_0 x : fisfin x = true -> fisfin (fmul x (fZ 0)) = true /\ FR (fmul x (fZ 0)) = 0%R.
Proof.
  intros F. destruct (fmul_fin x (fZ 0) F eq_refl) as [N R]. rewrite fZ_0, Rmult_0_r, crnd_0 in R.
  split; [|exact R]. apply FR_fin_iff; [exact N|]. rewrite R. pose proof B_pos. lra.
Qed.
Lemma fmul_1r x : fisnan x = false -> FR (fmul x (fZ 1)) = FR x /\ fisnan (fmul x (fZ 1)) = false.
Proof.
  intros N. destruct (fZ_FR 1) as [F1 R1]; [vm_compute; discriminate|].
  destruct (fisfin x) eqn:F.
  - destruct (fmul_fin x (fZ 1) F F1) as [N' R]. rewrite R1, Rmult_1_r, (crnd_FR x N) in R. auto.
  - destruct x as [s|s| |s m e H]; try discriminate. destruct s; split; reflexivity.
Qed.
Lemma bin_ub_FR : fisfin bin_ub = true /\ (1 <= FR bin_ub <= 2 - / 16384)%R.
Proof. destruct (set_ub_FR 2) as (F & H1 & H2); [lia|vm_compute; discriminate|]. split; [exact F|]. split; [exact H1|exact H2]. Qed.

Lemma v_lb_length v : wf_var v -> List.length (v_lb v) = n_vars v.
Proof. destruct v; simpl; intros; unfold zeros, times_zeros; rewrite ?repeat_length; reflexivity. Qed.
Lemma v_ub_length v : wf_var v -> List.length (v_ub v) = n_vars v.
Proof.
  destruct v; simpl; intros H; unfold times_ones; rewrite ?repeat_length; try reflexivity.
  - destruct H; congruence.
  - destruct H; congruence.
  - destruct H as (_ & _ & ->). apply map_length.
Qed.
Lemma v_ordered v : wf_var v -> ordered (v_lb v) (v_ub v).
Proof.
  intros W. split; [rewrite v_lb_length, v_ub_length by exact W; reflexivity|]. intros i Hi.
  assert (Z0 : forall u, fisnan u = false -> (0 <= FR u)%R -> fle (fZ 0) u = true).
  { intros u N H. apply fle_FR; auto. }
  destruct v; cbn [v_lb v_ub n_vars wf_var] in *; unfold zeros, times_zeros, times_ones in *; rewrite ?repeat_length in Hi.
  - apply W; exact Hi.
  - apply W; exact Hi.
  - destruct W as (Ws & _ & ->). rewrite nth_repeat_lt by exact Hi. rewrite (nth_map_lt _ _ []) by exact Hi.
    rewrite Forall_forall in Ws. destruct (Ws (nth i sets []) (nth_In _ _ Hi)) as [S1 S2].
    destruct (set_ub_FR _ S1 S2) as (F & H1 & _). apply Z0; [apply fin_notnan; exact F|].
    apply Rle_trans with (2 := H1). apply IZR_le. lia.
  - cbn [List.length] in Hi; assert (i = 0) by lia. subst i. cbn [nth]. destruct W as [S1 S2]. destruct (set_ub_FR _ S1 S2) as (F & H1 & _).
    apply Z0; [apply fin_notnan; exact F|]. apply Rle_trans with (2 := H1). apply IZR_le. lia.
  - rewrite !nth_repeat_lt by exact Hi. destruct W as [S1 S2]. destruct (set_ub_FR _ S1 S2) as (F & H1 & _).
    destruct (fmul_1r _ (fin_notnan _ F)) as [R N]. apply Z0; [exact N|]. rewrite R. apply Rle_trans with (2 := H1). apply IZR_le. lia.
  - rewrite !nth_repeat_lt by exact Hi. destruct bin_ub_FR as [F H]. destruct (fmul_1r _ (fin_notnan _ F)) as [R N].
    apply Z0; [exact N|]. rewrite R. lra.
  - rewrite !nth_repeat_lt by exact Hi. destruct W as [Fl Hu]. destruct (fmul_0 _ Fl) as [F0 R0].
    destruct (fle_true_nan _ _ Hu) as [N1 Nu]. destruct (fmul_1r _ Nu) as [R N].
    apply fle_FR; [apply fin_notnan; exact F0|exact N|]. rewrite R0, R. apply fle_FR in Hu; auto.
    destruct (fZ_FR 1) as [_ R1]; [vm_compute; discriminate|]. rewrite R1 in Hu. lra.
  - rewrite !nth_repeat_lt by exact Hi. destruct bin_ub_FR as [F H]. destruct (fmul_1r _ (fin_notnan _ F)) as [R N].
    apply Z0; [exact N|]. rewrite R. lra.
  - rewrite !nth_repeat_lt by exact Hi. destruct W as [Fl Hu]. destruct (fmul_0 _ Fl) as [F0 R0].
    destruct (fle_true_nan _ _ Hu) as [N1 Nu]. destruct (fmul_1r _ Nu) as [R N].
    apply fle_FR; [apply fin_notnan; exact F0|exact N|]. rewrite R0, R. apply fle_FR in Hu; auto.
    destruct (fZ_FR 1) as [_ R1]; [vm_compute; discriminate|]. rewrite R1 in Hu. lra.
Qed.

Lemma clipv_boxed lb ub x : ordered lb ub -> boxed lb ub x (clipv lb ub x).
Proof.
  intros [L H]. split; [apply clipv_length|]. intros i Hi. rewrite clipv_nth by exact Hi. specialize (H i Hi).
  destruct (fisnan (nth i x fnan)) eqn:N.
  - right. split; [exact N|]. left. rewrite fclip_nan by exact N. exact N.
  - left. apply fclip_bounds; assumption.
Qed.

(** A choice component: clipping to [0, n - 1e-4] and truncating stays inside, except for NaN. *)
Lemma choice_comp n x : small n ->
  let y := fZ (cast64 (fclip x (fZ 0) (set_ub n))) in
  comp_ok (fZ 0) (set_ub n) x y /\ (fisnan x = false -> exists z, y = fZ z /\ (0 <= z < Z.of_nat n)%Z /\ cast64 y = z).
Proof.
  intros [S1 S2] y. destruct (set_ub_FR n S1 S2) as (F & H1 & H2).
  assert (N0 : fisnan (set_ub n) = false) by (apply fin_notnan; exact F).
  assert (O : fle (fZ 0) (set_ub n) = true).
  { apply fle_FR; auto. rewrite fZ_0. apply Rle_trans with (2 := H1). apply IZR_le; lia. }
  destruct (fisnan x) eqn:N.
  - split; [|discriminate]. right. split; [exact N|]. right. unfold y. rewrite fclip_nan by exact N.
    destruct x; try discriminate N. reflexivity.
  - destruct (fclip_bounds x (fZ 0) (set_ub n) N O) as [C1 C2].
    assert (Nc : fisnan (fclip x (fZ 0) (set_ub n)) = false) by (apply fle_true_nan in C1; apply C1).
    apply fle_FR in C1; auto. apply fle_FR in C2; auto. rewrite fZ_0 in C1.
    pose proof (cast64_range _ n Nc S2 ltac:(lra)) as R.
    set (z := cast64 (fclip x (fZ 0) (set_ub n))) in *.
    assert (Hz : (Z.abs z <= 2 ^ 53)%Z) by lia.
    split.
    + left. split; [apply fZ_le; lia|]. apply fle_FR; [apply fZ_notnan; exact Hz|exact N0|].
      unfold y. rewrite (proj2 (fZ_FR z Hz)). apply Rle_trans with (2 := H1). apply IZR_le. lia.
    + intros _. exists z. split; [reflexivity|]. split; [exact R|]. unfold y. apply cast64_Z. exact Hz.
Qed.

Lemma index_in_box n j : small n -> j < n -> fle (fZ 0) (fZ (Z.of_nat j)) = true /\ fle (fZ (Z.of_nat j)) (set_ub n) = true.
Proof.
  intros [S1 S2] Hj. destruct (set_ub_FR n S1 S2) as (F & H1 & H2). split; [apply fZ_le; lia|].
  apply fle_FR; [apply fZ_notnan; lia|apply fin_notnan; exact F|]. rewrite (proj2 (fZ_FR (Z.of_nat j) ltac:(lia))).
  apply Rle_trans with (2 := H1). apply IZR_le. lia.
Qed.

Section Correct.
Variable E : env.
Hypothesis Hargsort : argsort_ok (e_argsort E).

Lemma argsort_length l : List.length (e_argsort E l) = List.length l.
Proof. destruct (Hargsort l) as [P _]. rewrite (Permutation_length P), seq_length. reflexivity. Qed.
Lemma argsort_lt l i : i < List.length l -> nth i (e_argsort E l) 0 < List.length l.
Proof.
  intros Hi. destruct (Hargsort l) as [P _]. assert (I : In (nth i (e_argsort E l) 0) (e_argsort E l)).
  { apply nth_In. rewrite argsort_length. exact Hi. }
  apply (Permutation_in _ P) in I. apply in_seq in I. lia.
Qed.

Lemma transfer_bits_length tf tp x : List.length (transfer_bits E tf tp x) = List.length x.
Proof. unfold transfer_bits. rewrite map_length, seq_length. reflexivity. Qed.
Lemma transfer_bits_01 tf tp x : Forall (fun z => z = 0 \/ z = 1)%Z (transfer_bits E tf tp x).
Proof. apply Forall_forall. intros z H. apply in_map_iff in H. destruct H as (i & <- & _). destruct (flt _ _); auto. Qed.
Lemma get_correct_x_length az tp x : List.length (get_correct_x az tp x) = List.length x.
Proof. unfold get_correct_x. destruct az; [reflexivity|]. destruct (forallb _ x); [apply upd_length|reflexivity]. Qed.
Lemma get_correct_x_01 az tp x : Forall (fun z => z = 0 \/ z = 1)%Z x -> Forall (fun z => z = 0 \/ z = 1)%Z (get_correct_x az tp x).
Proof. intros H. unfold get_correct_x. destruct az; [exact H|]. destruct (forallb _ x); [apply upd_Forall; auto|exact H]. Qed.

Lemma bits_boxed n lb ub x (b : list Z) : fisfin lb = true -> fle (fZ 1) ub = true -> List.length b = n ->
  Forall (fun z => z = 0 \/ z = 1)%Z b -> boxed (times_zeros lb n) (times_ones ub n) x (map fZ b).
Proof.
  intros Fl Hu Hb H01. split; [rewrite map_length; unfold times_zeros; rewrite repeat_length; exact Hb|].
  unfold times_zeros, times_ones. rewrite repeat_length. intros i Hi. rewrite !nth_repeat_lt by exact Hi.
  rewrite (nth_map_lt _ _ 0%Z) by lia. rewrite Forall_forall in H01. assert (Hib : i < List.length b) by lia. pose proof (H01 (nth i b 0%Z) (nth_In _ _ Hib)) as H.
  left. destruct (fmul_0 _ Fl) as [F0 R0]. destruct (fle_true_nan _ _ Hu) as [N1 Nu]. destruct (fmul_1r _ Nu) as [R N].
  apply fle_FR in Hu; auto. destruct (fZ_FR 1) as [F1 R1]; [vm_compute; discriminate|]. rewrite R1 in Hu.
  assert (Q : forall z, (z = 0 \/ z = 1)%Z -> fisnan (fZ z) = false /\ (0 <= FR (fZ z) <= 1)%R).
  { intros z [Hz|Hz]; rewrite Hz; [split; [reflexivity|rewrite fZ_0; split; lra]|split; [apply fin_notnan; exact F1|rewrite R1; split; lra]]. }
  destruct (Q _ H) as [Nz Rz]. split; apply fle_FR; auto; rewrite ?R0, ?R; try lra. apply fin_notnan; exact F0.
Qed.

(** Correcting one variable. *)
Lemma v_correct_boxed tp v x : wf_var v -> List.length x = n_vars v -> boxed (v_lb v) (v_ub v) x (v_correct E tp v x).
Proof.
  intros W Hx. pose proof (v_ordered v W) as O. pose proof (clipv_boxed _ _ x O) as C.
  destruct v; try exact C; simpl v_correct.
  - (* LabelVar *) destruct W as (Ws & _ & ->). simpl v_lb in *. simpl v_ub in *. split; [rewrite map_length, clipv_length; reflexivity|].
    intros i Hi. rewrite (nth_map_lt _ _ fnan) by (rewrite clipv_length; exact Hi). rewrite clipv_nth by exact Hi.
    unfold zeros in *. rewrite repeat_length in Hi. rewrite nth_repeat_lt by exact Hi. rewrite (nth_map_lt _ _ []) by exact Hi.
    rewrite Forall_forall in Ws. apply (choice_comp _ _ (Ws _ (nth_In _ _ Hi))).
  - (* SequenceVar *) cbn [v_lb v_ub n_vars wf_var] in *. split; [reflexivity|]. cbn [List.length]. intros i Hi. assert (i = 0) by lia. subst i. cbn [nth clipv map seq List.length]. apply (choice_comp _ _ W).
  - (* PermutationVar *) cbn [v_lb v_ub n_vars wf_var] in *. unfold zeros, times_ones. split; [rewrite map_length, argsort_length, repeat_length; exact Hx|].
    rewrite repeat_length. intros i Hi. rewrite !nth_repeat_lt by exact Hi. rewrite (nth_map_lt _ _ 0) by (rewrite argsort_length; lia).
    left. destruct (index_in_box (List.length set) (nth i (e_argsort E x) 0) W) as [Q1 Q2].
    { rewrite <- Hx. apply argsort_lt. lia. }
    split; [exact Q1|]. destruct (fle_true_nan _ _ Q2) as [N1 N2]. destruct (fmul_1r _ N2) as [R N].
    apply fle_FR; auto. rewrite R. apply fle_FR; auto.
  - destruct W as [W1 W2]. apply bits_boxed; auto.
    + rewrite get_correct_x_length, transfer_bits_length, clipv_length. apply repeat_length.
    + apply get_correct_x_01, transfer_bits_01.
  - destruct W as [W1 W2]. apply bits_boxed; auto.
    + rewrite transfer_bits_length, clipv_length. apply repeat_length.
    + apply transfer_bits_01.
Qed.

Lemma boxed_app lb1 ub1 x1 y1 lb2 ub2 x2 y2 : List.length lb1 = List.length ub1 -> List.length x1 = List.length lb1 ->
  boxed lb1 ub1 x1 y1 -> boxed lb2 ub2 x2 y2 -> boxed (lb1 ++ lb2) (ub1 ++ ub2) (x1 ++ x2) (y1 ++ y2).
Proof.
  intros H1 H2 [L1 B1] [L2 B2]. split; [rewrite !app_length; lia|]. rewrite app_length. intros i Hi.
  destruct (Nat.lt_ge_cases i (List.length lb1)) as [Q|Q].
  - rewrite !app_nth1 by lia. apply B1; exact Q.
  - rewrite !app_nth2 by lia. rewrite <- H1, H2, L1. apply B2. lia.
Qed.
Lemma slice_length {T} i j (l : list T) : i <= j -> j <= List.length l -> List.length (slice i j l) = j - i.
Proof. intros H1 H2. unfold slice. rewrite firstn_length, skipn_length. lia. Qed.
Lemma skipn_skipn_add {T} i j (l : list T) : skipn i (skipn j l) = skipn (j + i) l.
Proof. revert l; induction j; intros l; simpl; [reflexivity|]. destruct l; [destruct i; reflexivity|apply IHj]. Qed.
Lemma slice_skip {T} i j (l : list T) : i <= j -> slice i j l ++ skipn j l = skipn i l.
Proof.
  intros H. unfold slice. rewrite <- (firstn_skipn (j - i) (skipn i l)) at 2. f_equal.
  rewrite skipn_skipn_add. f_equal. lia.
Qed.
Lemma dims_sum bs : Forall (fun b : nvar => wf_var (snd b)) bs -> vars_dim bs = list_sum (map (fun b => n_vars (snd b)) bs).
Proof.
  unfold vars_dim, vars_lb. induction 1 as [|b bs W _ IH]; simpl; [reflexivity|]. rewrite app_length, IH, v_lb_length by exact W. reflexivity.
Qed.
Lemma vars_ub_length bs : Forall (fun b : nvar => wf_var (snd b)) bs -> List.length (vars_ub bs) = vars_dim bs.
Proof.
  unfold vars_dim, vars_lb, vars_ub. induction 1 as [|b bs W _ IH]; simpl; [reflexivity|].
  rewrite !app_length, IH, v_lb_length, v_ub_length by exact W. reflexivity.
Qed.

Lemma correct_with_bounds_boxed tps : forall bs j n x, Forall (fun b : nvar => wf_var (snd b)) bs ->
  List.length x = n + vars_dim bs ->
  boxed (vars_lb bs) (vars_ub bs) (skipn n x) (correct_with_bounds E tps j n bs x).
Proof.
  induction bs as [|b bs IH]; intros j n x W Hx.
  - split; [reflexivity|]. simpl. intros; lia.
  - inversion W as [|? ? Wb Ws]; subst. rewrite dims_sum in Hx by exact W. simpl in Hx. rewrite <- (dims_sum bs Ws) in Hx.
    unfold vars_lb, vars_ub in *. simpl. fold (vars_lb bs). fold (vars_ub bs).
    rewrite <- (slice_skip n (n + n_vars (snd b)) x) by lia.
    apply boxed_app.
    + rewrite v_lb_length, v_ub_length by exact Wb. reflexivity.
    + rewrite slice_length, v_lb_length by (auto; lia). lia.
    + apply v_correct_boxed; [exact Wb|]. rewrite slice_length by lia. lia.
    + apply IH; [exact Ws|]. lia.
Qed.
End Correct.
