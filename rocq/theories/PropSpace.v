(** Decision variables and problems: correction, encoding, decoding, generation. *)
From Coq Require Import Reals Lra.
From Flocq Require Import Core.
From Verif Require Import Prelude Fl FlArith MCore MValid MSpace SpecCore SpecRun PLogic FlInt PSpace Demo.

(** * C22 *)
(** Without NaN in the input every corrected component is inside its bounds. *)
Theorem C22_correct_in_box : forall E (bs : list nvar) tps (x : vec), argsort_ok (e_argsort E) ->
  Forall (fun b : nvar => wf_var (snd b)) bs -> List.length x = vars_dim bs -> Forall num x ->
  in_box (vars_lb bs) (vars_ub bs) (correct_with_bounds E tps 0 0 bs x).
Proof.
  intros E bs tps x HA W Hx Hn. destruct (correct_with_bounds_boxed E HA tps bs 0 0 x W Hx) as [L H]. simpl in H.
  split; [exact L|]. intros i Hi. destruct (H i Hi) as [Q|[Q _]]; [exact Q|].
  rewrite Forall_forall in Hn. rewrite Hn in Q; [discriminate|]. apply nth_In. unfold vec, vars_dim in *. lia.
Qed.
(** A NaN component stays NaN, or becomes the smallest int64 for variables that truncate; nothing else leaves the box. *)
Theorem C22_correct_nan : forall E (bs : list nvar) tps (x : vec), argsort_ok (e_argsort E) ->
  Forall (fun b : nvar => wf_var (snd b)) bs -> List.length x = vars_dim bs ->
  let y := correct_with_bounds E tps 0 0 bs x in
  List.length y = vars_dim bs /\
  forall i, i < vars_dim bs ->
    (fle (nth i (vars_lb bs) fnan) (nth i y fnan) = true /\ fle (nth i y fnan) (nth i (vars_ub bs) fnan) = true) \/
    (fisnan (nth i x fnan) = true /\ (fisnan (nth i y fnan) = true \/ nth i y fnan = fZ int_min)).
Proof. intros E bs tps x HA W Hx y. exact (correct_with_bounds_boxed E HA tps bs 0 0 x W Hx). Qed.

(** A vector the optimizer may hand to the objective: in the box, or with NaN / smallest-int64 entries. *)
Definition usable (bs : list nvar) (y : vec) : Prop :=
  List.length y = vars_dim bs /\
  forall i, i < vars_dim bs ->
    (fle (nth i (vars_lb bs) fnan) (nth i y fnan) = true /\ fle (nth i y fnan) (nth i (vars_ub bs) fnan) = true) \/
    fisnan (nth i y fnan) = true \/ nth i y fnan = fZ int_min.

Lemma vars_ordered bs : Forall (fun b : nvar => wf_var (snd b)) bs -> ordered (vars_lb bs) (vars_ub bs).
Proof.
  unfold vars_lb, vars_ub. induction 1 as [|b bs W _ [L H]]; simpl; [split; [reflexivity|simpl; intros; lia]|].
  destruct (v_ordered _ W) as [L0 H0]. split; [rewrite !app_length; unfold vec in *; lia|]. rewrite app_length. intros i Hi.
  destruct (Nat.lt_ge_cases i (List.length (v_lb (snd b)))) as [Q|Q].
  - rewrite !app_nth1 by (unfold vec in *; lia). apply H0; exact Q.
  - rewrite !app_nth2 by (unfold vec in *; lia). rewrite <- L0. apply H. unfold vec in *; lia.
Qed.

(** Optimizer.correct_solution as called by every algorithm: clip to the bounds, then correct per variable. *)
Theorem C22_correct_solution : forall {A X} PE E (bs : list nvar) mm obj wts save tps (x : vec) (s : st A X) y s',
  argsort_ok (e_argsort E) -> Forall (fun b : nvar => wf_var (snd b)) bs ->
  correct_solution (vars_problem PE E bs mm obj wts save tps) x s = Ok (y, s') ->
  usable bs y /\ (Forall num x -> List.length x = vars_dim bs -> in_box (vars_lb bs) (vars_ub bs) y).
Proof.
  intros A X PE E bs mm obj wts save tps x s y s' HA W H.
  unfold correct_solution, correct_solution_with, amend_clip, bindM, ret, tick in H. inversion H; subst; clear H.
  set (P := vars_problem PE E bs mm obj wts save tps) in *.
  set (z := vtab P (fun i => fclip (vget x i) (vget (p_lb P) i) (vget (p_ub P) i))).
  assert (Lz : List.length z = vars_dim bs) by (unfold z, vtab; rewrite map_length, seq_length; reflexivity).
  split.
  - destruct (C22_correct_nan E bs (tps (s_ctr s)) z HA W Lz) as [L H]. split; [exact L|].
    intros i Hi. destruct (H i Hi) as [Q|[_ Q]]; [left; exact Q|right; exact Q].
  - intros Hn Lx. apply C22_correct_in_box; auto. destruct (vars_ordered bs W) as [_ O].
    apply Forall_forall. intros v Hv. apply in_map_iff in Hv. destruct Hv as (i & <- & Hi). apply in_seq in Hi.
    change (n_dims P) with (vars_dim bs) in Hi. unfold vget, num. specialize (O i ltac:(unfold vars_dim in Hi; lia)).
    rewrite Forall_forall in Hn. change (p_lb P) with (vars_lb bs). change (p_ub P) with (vars_ub bs).
    destruct (fle_true_nan _ _ O). apply fclip_notnan; auto. apply Hn. apply nth_In. unfold vec in *; lia.
Qed.

Definition no_draws : tape := mkTape (fun _ => fZ 0) (fun _ => 0).
Definition ab : list label := [LStr "a"; LStr "b"].
(** NaN in a choice variable does leave the box. *)
Theorem C22_nan_choice_refuted : exists v x, wf_var v /\ List.length x = n_vars v /\
  fle (nth 0 (v_lb v) fnan) (nth 0 (v_correct demo_env no_draws v x) fnan) = false /\
  fisnan (nth 0 (v_correct demo_env no_draws v x) fnan) = false.
Proof.
  exists (LabelVar false [ab] [ab] [set_ub 2]), [fnan]. split; [|split; [reflexivity|split; vm_compute; reflexivity]].
  split; [|split; reflexivity]. constructor; [|constructor]. split; [simpl; lia|vm_compute; discriminate].
Qed.
(** A transfer variable with an upper bound below one does too. *)
Definition tf_one : env := mkEnv argsort_ins (fun _ => fZ 0) (fun _ => fZ 0) (fun _ => 0) (fun _ _ => fZ 1) (fun _ => fZ 0) (fun _ => []).
Theorem C22_transfer_refuted : exists v x, List.length x = n_vars v /\
  fle (nth 0 (v_lb v) fnan) (nth 0 (v_ub v) fnan) = true /\
  fle (nth 0 (v_correct tf_one no_draws v x) fnan) (nth 0 (v_ub v) fnan) = false.
Proof. exists (TransferBinaryVar 1 "vstf_01" (fZ (-8)) chalf true), [fZ 0]. repeat split; vm_compute; reflexivity. Qed.

(** A problem with several kinds of variables meets the hypotheses. *)
Definition mixed : list nvar :=
  [("f", FloatVar [fZ (-1); fZ 0] [fZ 1; fZ 5]); ("c", LabelVar true [ab; ab] [ab; ab] [set_ub 2; set_ub 2]);
   ("p", PermutationVar ab ab); ("b", TransferBinaryVar 2 "vstf_01" (fZ (-8)) (fZ 8) false)]%string.
Example C22_example : Forall (fun b : nvar => wf_var (snd b)) mixed /\ vars_dim mixed = 8 /\
  argsort_ok (e_argsort tf_one) /\
  map cast64 (correct_with_bounds tf_one (fun _ => no_draws) 0 0 mixed (map fZ [7; -3; 9; 1; 4; 2; 0; 0]%Z))
    = [1; 0; 1; 1; 1; 0; 1; 1]%Z.
Proof.
  split; [|split; [reflexivity|split; [apply argsort_ins_ok|vm_compute; reflexivity]]].
  assert (S : small 2) by (split; [lia|vm_compute; discriminate]).
  unfold mixed. constructor; [|constructor; [|constructor; [|constructor; [|constructor]]]]; cbn [snd wf_var].
  - split; [reflexivity|]. intros [|[|i]] H; [vm_compute; reflexivity|vm_compute; reflexivity|cbn in H; lia].
  - split; [|split; reflexivity]. constructor; [exact S|constructor; [exact S|constructor]].
  - exact S.
  - split; vm_compute; reflexivity.
Qed.

(** * C23 *)
Definition plain_var (v : var) : Prop :=
  match v with PermutationVar _ _ | TransferBinaryVar _ _ _ _ _ | TransferBoolVar _ _ _ _ => False | _ => True end.
Lemma choice_idem n x : small n -> fisnan x = false ->
  fZ (cast64 (fclip (fZ (cast64 (fclip x (fZ 0) (set_ub n)))) (fZ 0) (set_ub n))) = fZ (cast64 (fclip x (fZ 0) (set_ub n))).
Proof.
  intros S N. destruct (choice_comp n x S) as [[[C1 C2]|[C _]] Hz]; [|congruence]. destruct (Hz N) as (z & Ez & Rz & Cz).
  set (y := fZ (cast64 (fclip x (fZ 0) (set_ub n)))) in *.
  pose proof (fclip_inside y (fZ 0) (set_ub n) C1 C2) as R.
  destruct S as [S1 S2]. assert (Hz' : (Z.abs z <= 2 ^ 53)%Z) by lia. destruct (fZ_FR z Hz') as [Fz Rz'].
  assert (Fy : fisfin y = true) by (rewrite Ez; exact Fz).
  assert (Ny : fisnan y = false) by (apply fin_notnan; exact Fy).
  assert (Nc : fisnan (fclip y (fZ 0) (set_ub n)) = false).
  { apply fclip_notnan; auto. apply fle_true_nan in C2. apply C2. }
  assert (Fc : fisfin (fclip y (fZ 0) (set_ub n)) = true).
  { apply FR_fin_iff; [exact Nc|]. rewrite R. apply FR_fin_iff; assumption. }
  assert (Q : cast64 (fclip y (fZ 0) (set_ub n)) = z).
  { rewrite <- (cast64_Z z Hz'). unfold cast64. rewrite Fc, Fz, !ftrunc_spec by assumption.
    rewrite R. rewrite Ez. reflexivity. }
  rewrite Q. symmetry. exact Ez.
Qed.
Theorem C23_idempotent : forall E tp tp' v x, wf_var v -> plain_var v -> List.length x = n_vars v ->
  (truncates v = true -> Forall num x) ->
  v_correct E tp' v (v_correct E tp v x) = v_correct E tp v x.
Proof.
  intros E tp tp' v x W Pv Lx Hn.
  assert (CI : forall lb ub, ordered lb ub -> clipv lb ub (clipv lb ub x) = clipv lb ub x).
  { intros lb ub [L O]. apply nth_ext with (d := fnan) (d' := fnan); [rewrite !clipv_length; reflexivity|].
    rewrite clipv_length. intros i Hi. rewrite !clipv_nth by exact Hi. apply fclip_idem. apply O; exact Hi. }
  pose proof (v_ordered v W) as O.
  destruct v; try contradiction; try (apply CI; exact O); specialize (Hn eq_refl); rewrite Forall_forall in Hn.
  - destruct W as (Ws & _ & ->). unfold v_correct. cbn [v_lb v_ub n_vars] in *.
    apply nth_ext with (d := fnan) (d' := fnan); [rewrite !map_length, !clipv_length; reflexivity|].
    rewrite map_length, clipv_length. unfold zeros at 1. rewrite repeat_length. intros i Hi.
    assert (Hi' : i < List.length (zeros (List.length sets))) by (unfold zeros; rewrite repeat_length; exact Hi).
    rewrite !(nth_map_lt _ _ fnan) by (rewrite clipv_length; exact Hi'). rewrite !clipv_nth by exact Hi'.
    rewrite !(nth_map_lt _ _ fnan) by (rewrite clipv_length; exact Hi'). rewrite !clipv_nth by exact Hi'.
    unfold zeros. rewrite nth_repeat_lt by exact Hi. rewrite (nth_map_lt _ _ []) by exact Hi.
    rewrite Forall_forall in Ws. apply choice_idem; [apply Ws, nth_In; exact Hi|].
    apply Hn. apply nth_In. unfold vec in *; lia.
  - cbn [n_vars] in Lx. destruct x as [|x0 [|? ?]]; try (cbn in Lx; lia).
    unfold v_correct. cbn [v_lb v_ub clipv map seq List.length nth]. rewrite choice_idem; [reflexivity|exact W|].
    apply Hn. left; reflexivity.
Qed.

(** Sorting a permutation gives its inverse. *)
Lemma sorted_perm_unique (l1 l2 : list nat) : StronglySorted le l1 -> StronglySorted le l2 -> Permutation l1 l2 -> l1 = l2.
Proof.
  revert l2. induction l1 as [|a l1 IH]; intros l2 S1 S2 P.
  - apply Permutation_nil in P. auto.
  - destruct l2 as [|b l2]; [symmetry in P; apply Permutation_nil in P; discriminate|].
    inversion S1 as [|? ? S1' F1]; inversion S2 as [|? ? S2' F2]; subst. rewrite Forall_forall in F1, F2.
    assert (a = b).
    { assert (Ha : In a (b :: l2)) by (apply (Permutation_in _ P); left; reflexivity).
      assert (Hb : In b (a :: l1)) by (apply (Permutation_in _ (Permutation_sym P)); left; reflexivity).
      destruct Ha as [Ha|Ha]; [auto|]. destruct Hb as [Hb|Hb]; [auto|]. specialize (F1 _ Hb). specialize (F2 _ Ha). lia. }
    subst b. f_equal. apply IH; auto. eapply Permutation_cons_inv; exact P.
Qed.
Lemma seq_sorted a n : StronglySorted le (seq a n).
Proof.
  revert a; induction n; intros a; simpl; constructor; auto. apply Forall_forall. intros x Hx. apply in_seq in Hx. lia.
Qed.
Definition code (i : nat) : f64 := fZ (Z.of_nat i).
Lemma map_nth_seq {T} (l : list T) d : map (fun i => nth i l d) (seq 0 (List.length l)) = l.
Proof.
  apply nth_ext with (d := d) (d' := d); rewrite map_length, seq_length; [reflexivity|]. intros i Hi.
  rewrite (nth_map_lt _ _ 0) by (rewrite seq_length; exact Hi). rewrite seq_nth by exact Hi. reflexivity.
Qed.
Section Perm.
Variable E : env.
Hypothesis HA : argsort_ok (e_argsort E).
Lemma argsort_inverse (p : list nat) n : Permutation p (seq 0 n) -> (Z.of_nat n <= 2 ^ 31)%Z ->
  let q := e_argsort E (map code p) in
  Permutation q (seq 0 n) /\ (forall i, i < n -> nth (nth i q 0) p 0 = i) /\ (forall i, i < n -> nth (nth i p 0) q 0 = i).
Proof.
  intros P Hn q. assert (Lp : List.length p = n) by (rewrite (Permutation_length P), seq_length; reflexivity).
  destruct (HA (map code p)) as [Q S]. fold q in Q, S. rewrite map_length, Lp in Q.
  assert (Lq : List.length q = n) by (rewrite (Permutation_length Q), seq_length; reflexivity).
  assert (Qlt : forall i, In i q -> i < n) by (intros i Hi; apply (Permutation_in _ Q), in_seq in Hi; lia).
  assert (Plt : forall i, In i p -> i < n) by (intros i Hi; apply (Permutation_in _ P), in_seq in Hi; lia).
  set (r := map (fun i => nth i p 0) q).
  assert (Pr : Permutation r (seq 0 n)).
  { transitivity p; [|exact P]. eapply Permutation_trans; [exact (Permutation_map (fun i => nth i p 0) Q)|].
    replace (map (fun i => nth i p 0) (seq 0 n)) with p; [apply Permutation_refl|]. rewrite <- Lp. symmetry. apply map_nth_seq. }
  assert (Sr : StronglySorted le r).
  { unfold r. clear Q Lq Pr. revert S Qlt. generalize q. induction q0 as [|i q0 IH]; intros S Qlt; [constructor|].
    simpl in S. inversion S as [|? ? S' F]; subst. simpl. constructor; [apply IH; auto; intros; apply Qlt; right; assumption|].
    rewrite Forall_forall in *. intros x Hx. apply in_map_iff in Hx. destruct Hx as (j & <- & Hj).
    assert (Hi : i < List.length p) by (rewrite (Permutation_length P), seq_length; apply Qlt; left; reflexivity).
    assert (Hj' : j < List.length p) by (rewrite (Permutation_length P), seq_length; apply Qlt; right; exact Hj).
    specialize (F (nth j (map code p) fnan) (in_map _ _ _ Hj)).
    rewrite !(nth_map_lt code _ 0) in F by assumption. unfold np_le, code in F.
    assert (In (nth i p 0) p) by (apply nth_In; exact Hi). assert (In (nth j p 0) p) by (apply nth_In; exact Hj').
    pose proof (Plt _ H). pose proof (Plt _ H0). destruct F as [F|F].
    - rewrite fZ_notnan in F by lia. discriminate.
    - apply fZ_le in F; lia. }
  assert (Er : r = seq 0 n) by (apply sorted_perm_unique; auto; apply seq_sorted).
  assert (I1 : forall i, i < n -> nth (nth i q 0) p 0 = i).
  { intros i Hi. pose proof (nth_map_lt (fun k => nth k p 0) q 0 0 i ltac:(lia)) as Hm. cbv beta in Hm.
    rewrite <- Hm. fold r. rewrite Er, seq_nth by exact Hi. reflexivity. }
  split; [exact Q|]. split; [exact I1|]. intros i Hi.
  assert (NDp : NoDup p) by (apply (Permutation_NoDup (Permutation_sym P)); apply seq_NoDup).
  assert (Hp : nth i p 0 < n) by (apply Plt, nth_In; lia).
  apply (proj1 (NoDup_nth p 0) NDp); [| |].
  - rewrite Lp. apply Qlt, nth_In. lia.
  - lia.
  - rewrite I1 by exact Hp. reflexivity.
Qed.
Lemma perm_eq_nth (p q : list nat) n : List.length p = n -> List.length q = n -> (forall i, i < n -> nth i p 0 = nth i q 0) -> p = q.
Proof. intros Hp Hq H. apply nth_ext with (d := 0) (d' := 0); [lia|]. intros i Hi. apply H. lia. Qed.
End Perm.
(** Permutation variables: correction is not idempotent, but the third correction equals the first. *)
Theorem C23_permutation_period_two : forall E tp set le x, argsort_ok (e_argsort E) -> small (List.length set) ->
  List.length x = List.length set ->
  let c := v_correct E tp (PermutationVar set le) in c (c (c x)) = c x.
Proof.
  intros E tp set le x HA [_ Hn] Lx c. unfold c, v_correct. change (fun i => fZ (Z.of_nat i)) with code. f_equal.
  set (n := List.length set) in *. set (p := e_argsort E x).
  assert (P : Permutation p (seq 0 n)) by (destruct (HA x) as [P _]; rewrite Lx in P; exact P).
  destruct (argsort_inverse E HA p n P Hn) as (Q & I1 & I2). set (q := e_argsort E (map code p)) in *.
  destruct (argsort_inverse E HA q n Q Hn) as (R & J1 & J2). set (r := e_argsort E (map code q)) in *.
  assert (Lp : List.length p = n) by (rewrite (Permutation_length P), seq_length; reflexivity).
  assert (Lq : List.length q = n) by (rewrite (Permutation_length Q), seq_length; reflexivity).
  assert (Lr : List.length r = n) by (rewrite (Permutation_length R), seq_length; reflexivity).
  apply (perm_eq_nth r p n); auto. intros i Hi.
  assert (NDq : NoDup q) by (apply (Permutation_NoDup (Permutation_sym Q)); apply seq_NoDup).
  assert (In (nth i r 0) (seq 0 n)) by (apply (Permutation_in _ R), nth_In; lia).
  assert (In (nth i p 0) (seq 0 n)) by (apply (Permutation_in _ P), nth_In; lia).
  apply in_seq in H, H0. apply (proj1 (NoDup_nth q 0) NDq); [lia|lia|]. rewrite J1, I2 by exact Hi. reflexivity.
Qed.
Theorem C23_permutation_refuted : exists x, let c := v_correct demo_env no_draws (PermutationVar [LStr "a"; LStr "b"; LStr "c"]%string []) in
  List.length x = 3 /\ map cast64 (c (c x)) <> map cast64 (c x).
Proof. exists (map fZ [1; 2; 0]%Z). split; [reflexivity|]. vm_compute. discriminate. Qed.

Print Assumptions C22_correct_in_box.
Print Assumptions C22_correct_nan.
Print Assumptions C22_correct_solution.
Print Assumptions C22_nan_choice_refuted.
Print Assumptions C22_transfer_refuted.
Print Assumptions C23_idempotent.
Print Assumptions C23_permutation_period_two.
Print Assumptions C23_permutation_refuted.
