(** Label encoder, encode/decode round trips, integer decoding, transfer variables, problem layout. *)
From Coq Require Import Reals Lra.
From Flocq Require Import Core.
From Verif Require Import Prelude Fl FlArith MCore MValid MSpace SpecCore SpecRun PLogic FlInt PSpace Demo PropSpace.

(** What Python guarantees about iterating a set: every element once, in some order. *)
Definition pset_ok (PE : penv) : Prop :=
  forall l, NoDup (pe_set PE l) /\ (forall x, In x (pe_set PE l) <-> In x l).

(** * C29 *)
Lemma linsert_perm x l : Permutation (linsert x l) (x :: l).
Proof.
  induction l as [|y l IH]; simpl; [apply Permutation_refl|]. destruct (key_le x y); [apply Permutation_refl|].
  eapply Permutation_trans; [apply perm_skip; exact IH|apply perm_swap].
Qed.
Lemma lsort_perm l : Permutation (lsort l) l.
Proof.
  induction l as [|x l IH]; simpl; [constructor|]. eapply Permutation_trans; [apply linsert_perm|apply perm_skip; exact IH].
Qed.
Lemma le_fit_spec PE y : pset_ok PE -> NoDup (le_fit PE y) /\ (forall x, In x (le_fit PE y) <-> In x y).
Proof.
  intros H. destruct (H y) as [N M]. pose proof (lsort_perm (pe_set PE y)) as Q. unfold le_fit. split.
  - apply (Permutation_NoDup (Permutation_sym Q) N).
  - intros x. rewrite <- M. split; apply Permutation_in; [exact Q|apply Permutation_sym; exact Q].
Qed.
Lemma index_of_some x l i : index_of x l = Some i -> i < List.length l /\ forall d, nth i l d = x.
Proof.
  revert i. induction l as [|y l IH]; simpl; intros i H; [discriminate|]. destruct (label_dec x y) as [->|_].
  - inversion H; subst. split; [lia|reflexivity].
  - destruct (index_of x l) as [j|]; [|discriminate]. inversion H; subst. destruct (IH j eq_refl). split; [lia|exact H1].
Qed.
Lemma index_of_in x l : In x l -> exists i, index_of x l = Some i.
Proof.
  induction l as [|y l IH]; simpl; [tauto|]. intros H. destruct (label_dec x y); [eauto|].
  destruct H as [->|H]; [congruence|]. destruct (IH H) as [i ->]. eauto.
Qed.
Lemma index_of_none x l : ~ In x l -> index_of x l = None.
Proof.
  intros H. destruct (index_of x l) as [i|] eqn:Q; [|reflexivity]. destruct (index_of_some _ _ _ Q) as [L N].
  destruct H. rewrite <- (N LNone). apply nth_In. exact L.
Qed.
Lemma index_of_nth l i d : NoDup l -> i < List.length l -> index_of (nth i l d) l = Some i.
Proof.
  intros N L. destruct (index_of_in (nth i l d) l (nth_In _ _ L)) as [j Q]. destruct (index_of_some _ _ _ Q) as [L' N'].
  rewrite Q. f_equal. apply (proj1 (NoDup_nth l d) N); auto.
Qed.
Lemma le_inverse1_nat le i : i < List.length le -> le_inverse1 le (Z.of_nat i) = nth i le unknown.
Proof.
  intros H. unfold le_inverse1. replace (0 <=? Z.of_nat i)%Z with true by (symmetry; apply Z.leb_le; lia).
  replace (Z.of_nat i <? Z.of_nat (List.length le))%Z with true by (symmetry; apply Z.ltb_lt; lia).
  rewrite Nat2Z.id. reflexivity.
Qed.

Theorem C29_round_trip : forall PE y ls, pset_ok PE -> (forall x, In x ls -> In x y) ->
  exists codes, le_transform (le_fit PE y) ls = Ok codes /\
    le_inverse (le_fit PE y) (map Z.of_nat codes) = ls.
Proof.
  intros PE y ls H. destruct (le_fit_spec PE y H) as [N M]. induction ls as [|a ls IH]; intros Hin.
  - exists []. split; reflexivity.
  - destruct IH as (codes & E1 & E2); [intros; apply Hin; right; assumption|].
    destruct (index_of_in a (le_fit PE y)) as [i Q]; [apply M, Hin; left; reflexivity|].
    destruct (index_of_some _ _ _ Q) as [L N']. exists (i :: codes). unfold le_transform in *. simpl.
    unfold le_transform1 at 1. rewrite Q. simpl. rewrite E1. split; [reflexivity|].
    unfold le_inverse in *. simpl. rewrite le_inverse1_nat by exact L. rewrite N', E2. reflexivity.
Qed.
Theorem C29_bijection : forall PE y, pset_ok PE ->
  let t := le_transform1 (le_fit PE y) in let k := List.length (le_fit PE y) in
  (forall x, In x y -> exists i, t x = Ok i /\ i < k) /\
  (forall a b i, t a = Ok i -> t b = Ok i -> a = b) /\
  (forall i, i < k -> exists x, In x y /\ t x = Ok i) /\
  (forall x, ~ In x y -> t x = Err KeyError).
Proof.
  intros PE y H t k. destruct (le_fit_spec PE y H) as [N M]. unfold t, le_transform1. repeat split.
  - intros x Hx. destruct (index_of_in x (le_fit PE y)) as [i Q]; [apply M; exact Hx|]. rewrite Q.
    exists i. split; [reflexivity|]. apply (index_of_some _ _ _ Q).
  - intros a b i Ha Hb. destruct (index_of a _) as [j|] eqn:Qa; [|discriminate]. destruct (index_of b _) as [j'|] eqn:Qb; [|discriminate].
    assert (j = i) by congruence. assert (j' = i) by congruence. subst.
    destruct (index_of_some _ _ _ Qa) as [_ Na]. destruct (index_of_some _ _ _ Qb) as [_ Nb].
    rewrite <- (Na LNone), <- (Nb LNone). reflexivity.
  - intros i Hi. exists (nth i (le_fit PE y) LNone). split; [apply M, nth_In; exact Hi|].
    rewrite index_of_nth by assumption. reflexivity.
  - intros x Hx. rewrite index_of_none; [reflexivity|]. rewrite M. exact Hx.
Qed.
Theorem C29_out_of_range : forall le i, (i < 0 \/ Z.of_nat (List.length le) <= i)%Z -> le_inverse1 le i = LStr "unknown".
Proof.
  intros le i H. unfold le_inverse1. destruct (0 <=? i)%Z eqn:Q1; [|reflexivity]. destruct (i <? _)%Z eqn:Q2; [|reflexivity].
  apply Z.leb_le in Q1. apply Z.ltb_lt in Q2. lia.
Qed.
(** Two choices of the same kind keep their order: None before numbers before strings before other objects. *)
Lemma str_total a b : label_str_le a b = false -> label_str_le b a = true.
Proof.
  unfold label_str_le. rewrite (String.compare_antisym a b). destruct (String.compare b a); simpl; congruence.
Qed.
Lemma key_total a b : key_le a b = false -> key_le b a = true.
Proof.
  destruct a, b; simpl; try congruence; try apply str_total.
  unfold xfin_cmp. intros H. rewrite Z.compare_antisym. rewrite (Z.min_comm e0 e).
  destruct (Z.compare _ _); simpl; congruence.
Qed.
Lemma linsert_sorted x l : Sorted (fun a b => key_le a b = true) l -> Sorted (fun a b => key_le a b = true) (linsert x l).
Proof.
  induction 1 as [|y l S IH Hd]; simpl; [constructor; constructor|]. destruct (key_le x y) eqn:Q.
  - constructor; [constructor; assumption|constructor; exact Q].
  - constructor; [exact IH|]. destruct l as [|z l]; simpl; [constructor; apply key_total; exact Q|].
    destruct (key_le x z); constructor; [apply key_total; exact Q|]. inversion Hd; assumption.
Qed.
Theorem C29_sorted : forall PE y, Sorted (fun a b => key_le a b = true) (le_fit PE y).
Proof. intros. unfold le_fit, lsort. induction (pe_set PE y); simpl; [constructor|apply linsert_sorted; assumption]. Qed.

(** Python's set on labels, first occurrence first: one admissible order. *)
Definition demo_penv : penv := mkPenv (fun l => nodup label_dec l) (fun _ => "x"%string).
Lemma demo_penv_ok : pset_ok demo_penv.
Proof. intros l. split; [apply NoDup_nodup|]. intros x. apply nodup_In. Qed.
(** With a choice listed twice, a vector inside the variable's bounds decodes to 'unknown'. *)
Theorem C29_duplicates_refuted : exists l v x, label_var demo_penv true (SFlat l) = Ok v /\ ~ In unknown l /\
  fle (nth 0 (v_lb v) fnan) (nth 0 x fnan) = true /\ fle (nth 0 x fnan) (nth 0 (v_ub v) fnan) = true /\
  v_decode demo_env no_draws v x = Ok [DLab unknown].
Proof.
  exists [LStr "a"; LStr "a"], (LabelVar true [[LStr "a"; LStr "a"]] [[LStr "a"]] [set_ub 2]), [fZ 1].
  split; [reflexivity|]. split; [|split; [vm_compute; reflexivity|split; [vm_compute; reflexivity|reflexivity]]].
  intros [H|[H|[]]]; discriminate.
Qed.
Example C29_example : le_fit demo_penv [LStr "b"; LNum 3 0; LStr "a"; LNone; LNum 1 (-1); LStr "b"]
  = [LNone; LNum 1 (-1); LNum 3 0; LStr "a"; LStr "b"].
Proof. reflexivity. Qed.

(** * C26 *)
Local Open Scope R_scope.
(** The bounds IntegerVar keeps for the integers a and b. *)
Definition int_bounds (a b : Z) (l u : f64) : Prop :=
  fisfin l = true /\ FR l = IZR a - / 2 /\ fisfin u = true /\ IZR b + / 2 - / 8192 <= FR u <= IZR b + / 2 - / 16384.
Definition int_ok (a b : Z) : Prop := (a <= b)%Z /\ (Z.abs a <= 2 ^ 38)%Z /\ (Z.abs b <= 2 ^ 38)%Z.
Lemma crnd_half z : (Z.abs z <= 2 ^ 50)%Z -> crnd (IZR z + / 2) = IZR z + / 2 /\ crnd (IZR z - / 2) = IZR z - / 2.
Proof.
  intros H. pose proof (crnd_dyadic (2 * z + 1) (-1)) as H1. pose proof (crnd_dyadic (2 * z - 1) (-1)) as H2.
  replace (IZR (2 * z + 1) * bpow radix2 (-1)) with (IZR z + / 2) in H1 by (rewrite plus_IZR, mult_IZR; simpl; lra).
  replace (IZR (2 * z - 1) * bpow radix2 (-1)) with (IZR z - / 2) in H2 by (rewrite minus_IZR, mult_IZR; simpl; lra).
  split; [apply H1|apply H2]; lia.
Qed.
Lemma crnd_m14 z k : (Z.abs z <= 2 ^ 38)%Z -> (Z.abs k < 2 ^ 15)%Z -> crnd (IZR z + IZR k * / 16384) = IZR z + IZR k * / 16384.
Proof.
  intros Hz Hk. pose proof (crnd_dyadic (16384 * z + k) (-14)) as H. rewrite bpow_m14 in H.
  replace (IZR (16384 * z + k) * / 16384) with (IZR z + IZR k * / 16384) in H by (rewrite plus_IZR, mult_IZR; field).
  apply H; lia.
Qed.
Lemma IZR_le_abs z m : (Z.abs z <= m)%Z -> - IZR m <= IZR z <= IZR m.
Proof. intros. rewrite <- opp_IZR. split; apply IZR_le; lia. Qed.
Lemma int_bounds_scalar a b : int_ok a b -> int_bounds a b (fsub (fZ a) chalf) (fsub (fadd (fZ b) chalf) ceps).
Proof.
  intros (Hab & Ha & Hb). destruct (fZ_FR a) as [Fa Ra]; [lia|]. destruct (fZ_FR b) as [Fb Rb]; [lia|].
  destruct chalf_FR as [Fh Rh]. destruct ceps_FR as [Fc _]. pose proof ceps_bounds as Bc. pose proof B_big as BB.
  assert (Ba := IZR_le_abs a _ Ha). assert (Bb := IZR_le_abs b _ Hb). assert (P38 : IZR (2 ^ 38) + 2 <= IZR (2 ^ 100)) by (rewrite <- plus_IZR; apply IZR_le; lia).
  destruct (fsub_fin _ _ Fa Fh) as [N1 E1]. rewrite Ra, Rh in E1. rewrite (proj2 (crnd_half a ltac:(lia))) in E1.
  destruct (fadd_fin _ _ Fb Fh) as [N2 E2]. rewrite Rb, Rh in E2. rewrite (proj1 (crnd_half b ltac:(lia))) in E2.
  assert (F1 : fisfin (fsub (fZ a) chalf) = true) by (apply FR_fin_iff; [exact N1|rewrite E1; lra]).
  assert (F2 : fisfin (fadd (fZ b) chalf) = true) by (apply FR_fin_iff; [exact N2|rewrite E2; lra]).
  destruct (fsub_fin _ _ F2 Fc) as [N3 E3]. rewrite E2 in E3.
  assert (R3 : IZR b + / 2 - / 8192 <= FR (fsub (fadd (fZ b) chalf) ceps) <= IZR b + / 2 - / 16384).
  { rewrite E3. pose proof (crnd_m14 b 8190 Hb ltac:(lia)) as L. pose proof (crnd_m14 b 8191 Hb ltac:(lia)) as U. split.
    - replace (IZR b + / 2 - / 8192) with (IZR b + 8190 * / 16384) by lra. rewrite <- L. apply crnd_mono. lra.
    - replace (IZR b + / 2 - / 16384) with (IZR b + 8191 * / 16384) by lra. rewrite <- U. apply crnd_mono. lra. }
  split; [exact F1|]. split; [exact E1|]. split; [|exact R3]. apply FR_fin_iff; [exact N3|lra].
Qed.
Lemma int_bounds_array a b : int_ok a b -> int_bounds a b (fsub (fZ a) chalf) (fadd (fZ b) (fsub chalf ceps)).
Proof.
  intros H. pose proof (int_bounds_scalar a b H) as (F1 & E1 & _). destruct H as (Hab & Ha & Hb).
  split; [exact F1|]. split; [exact E1|].
  destruct (fZ_FR b) as [Fb Rb]; [lia|]. destruct chalf_FR as [Fh Rh]. destruct ceps_FR as [Fc _].
  pose proof ceps_bounds as Bc. pose proof B_big as BB. assert (Bb := IZR_le_abs b _ Hb).
  assert (P38 : IZR (2 ^ 38) + 2 <= IZR (2 ^ 100)) by (rewrite <- plus_IZR; apply IZR_le; lia).
  destruct (fsub_fin _ _ Fh Fc) as [N2 E2]. rewrite Rh in E2.
  assert (R2 : 8190 * / 16384 <= FR (fsub chalf ceps) <= 8191 * / 16384).
  { rewrite E2. pose proof (crnd_m14 0 8190 ltac:(lia) ltac:(lia)) as L. pose proof (crnd_m14 0 8191 ltac:(lia) ltac:(lia)) as U.
    rewrite !Rplus_0_l in *. split; [rewrite <- L|rewrite <- U]; apply crnd_mono; lra. }
  assert (F2 : fisfin (fsub chalf ceps) = true) by (apply FR_fin_iff; [exact N2|]; assert (1 <= IZR (2 ^ 100)) by (apply IZR_le; lia); lra).
  destruct (fadd_fin _ _ Fb F2) as [N3 E3]. rewrite Rb in E3.
  assert (R3 : IZR b + / 2 - / 8192 <= FR (fadd (fZ b) (fsub chalf ceps)) <= IZR b + / 2 - / 16384).
  { rewrite E3. pose proof (crnd_m14 b 8190 Hb ltac:(lia)) as L. pose proof (crnd_m14 b 8191 Hb ltac:(lia)) as U. split.
    - replace (IZR b + / 2 - / 8192) with (IZR b + 8190 * / 16384) by lra. rewrite <- L. apply crnd_mono. lra.
    - replace (IZR b + / 2 - / 16384) with (IZR b + 8191 * / 16384) by lra. rewrite <- U. apply crnd_mono. lra. }
  split; [|exact R3]. apply FR_fin_iff; [exact N3|lra].
Qed.
Lemma int_bounds_le a b l u : int_ok a b -> int_bounds a b l u -> fle l u = true.
Proof.
  intros (Hab & _ & _) (F1 & E1 & F2 & E2). apply fle_FR; [apply fin_notnan; exact F1|apply fin_notnan; exact F2|].
  rewrite E1. apply IZR_le in Hab. lra.
Qed.
(** Rounding a value of the clipped range gives one of the declared integers. *)
Lemma var_round_range a b y : int_ok a b -> fisfin y = true -> IZR a - / 2 <= FR y <= IZR b + / 2 - / 16384 ->
  (a <= cast64 (var_round y) <= b)%Z.
Proof.
  intros (Hab & Ha & Hb) Fy [R1 R2]. assert (Ba := IZR_le_abs a _ Ha). assert (Bb := IZR_le_abs b _ Hb). pose proof B_big as BB.
  destruct (ffloor_spec y Fy) as [Ff Ef]. destruct (fceil_spec y Fy) as [Fc Ec]. destruct (fsub_fin y (ffloor y) Fy Ff) as [Nr Er].
  rewrite Ef in Er. set (f := Zfloor (FR y)) in *. set (c := Zceil (FR y)) in *.
  assert (Hf : IZR f <= FR y < IZR f + 1) by (split; [apply Zfloor_lb|apply Zfloor_ub]).
  assert (Hc : IZR c - 1 < FR y <= IZR c) by (split; [|apply Zceil_ub]; unfold c, Zceil; pose proof (Zfloor_ub (- FR y)); rewrite opp_IZR; lra).
  assert (Cast : forall z, fisfin z = true -> forall k, (Z.abs k <= 2 ^ 39)%Z -> FR z = IZR k -> cast64 z = k).
  { intros z Fz k Hk Ek. unfold cast64. rewrite Fz, (ftrunc_spec z Fz), Ek, Ztrunc_IZR.
    replace (- 2 ^ 63 <=? k)%Z with true by (symmetry; apply Z.leb_le; lia).
    replace (k <? 2 ^ 63)%Z with true by (symmetry; apply Z.ltb_lt; lia). reflexivity. }
  destruct chalf_FR as [Fh Rh].
  assert (f_lo : (a - 1 <= f)%Z) by (apply Z.lt_succ_r, lt_IZR; rewrite succ_IZR, minus_IZR; lra).
  assert (f_hi : (f <= b)%Z) by (apply Z.lt_succ_r, lt_IZR; rewrite succ_IZR; lra).
  assert (c_lo : (a <= c)%Z) by (apply Z.lt_succ_r, lt_IZR; rewrite succ_IZR; lra).
  assert (c_hi : (c <= b + 1)%Z) by (apply Z.lt_succ_r, lt_IZR; rewrite succ_IZR, plus_IZR; lra).
  unfold var_round. destruct (flt (fsub y (ffloor y)) chalf) eqn:Q.
  - rewrite (Cast _ Ff f) by (assumption || lia). split; [|exact f_hi].
    destruct (Z.eq_dec f (a - 1)) as [Ea|]; [|lia]. exfalso.
    apply flt_FR in Q; [|exact Nr|apply fin_notnan; exact Fh]. rewrite Er, Rh in Q.
    assert (/ 2 <= crnd (FR y - IZR f)).
    { pose proof (proj1 (crnd_half 0 ltac:(lia))) as H0. rewrite Rplus_0_l in H0. rewrite <- H0. apply crnd_mono.
      rewrite Ea, minus_IZR. lra. }
    lra.
  - rewrite (Cast _ Fc c) by (assumption || lia). split; [exact c_lo|].
    destruct (Z.eq_dec c (b + 1)) as [Ea|]; [|lia]. exfalso.
    apply flt_false_FR in Q; [|exact Nr|apply fin_notnan; exact Fh]. rewrite Er, Rh in Q.
    assert (f = b).
    { apply Z.le_antisymm; [exact f_hi|]. apply Z.lt_succ_r, lt_IZR. rewrite succ_IZR.
      rewrite Ea, plus_IZR in Hc. lra. }
    assert (crnd (FR y - IZR f) <= 8191 * / 16384).
    { pose proof (crnd_m14 0 8191 ltac:(lia) ltac:(lia)) as H0. rewrite Rplus_0_l in H0. rewrite <- H0. apply crnd_mono.
      subst f. rewrite H. lra. }
    lra.
Qed.
Lemma clip_range a b l u x : int_ok a b -> int_bounds a b l u -> fisnan x = false ->
  fisfin (fclip x l u) = true /\ IZR a - / 2 <= FR (fclip x l u) <= IZR b + / 2 - / 16384.
Proof.
  intros H Hb N. pose proof (int_bounds_le a b l u H Hb) as O. destruct Hb as (F1 & E1 & F2 & E2).
  destruct (fclip_bounds x l u N O) as [C1 C2]. pose proof (proj2 (fle_true_nan _ _ C1)) as Nc.
  apply fle_FR in C1; [|apply fin_notnan; exact F1|exact Nc]. apply fle_FR in C2; [|exact Nc|apply fin_notnan; exact F2].
  assert (R : IZR a - / 2 <= FR (fclip x l u) <= IZR b + / 2 - / 16384) by lra. split; [|exact R].
  destruct H as (_ & Ha & Hb). assert (Ba := IZR_le_abs a _ Ha). assert (Bb := IZR_le_abs b _ Hb). pose proof B_big as BB.
  assert (P38 : IZR (2 ^ 38) + 2 <= IZR (2 ^ 100)) by (rewrite <- plus_IZR; apply IZR_le; lia).
  apply FR_fin_iff; [exact Nc|]. lra.
Qed.

Local Close Scope R_scope.
(** The integer variables a user can declare, scalar or array bounds, within 2^38. *)
Definition int_var (la lb : list Z) (v : var) : Prop :=
  Forall2 int_ok la lb /\
  ((exists a b, la = [a] /\ lb = [b] /\ integer_var (BNum (VInt a)) (BNum (VInt b)) = Ok v) \/
   integer_var (BArr (map fZ la)) (BArr (map fZ lb)) = Ok v).
Lemma int_var_bounds la lb v : int_var la lb v -> exists l u, v = IntegerVar l u /\
  List.length l = List.length la /\ List.length u = List.length la /\ List.length lb = List.length la /\
  forall i, i < List.length la -> int_ok (nth i la 0%Z) (nth i lb 0%Z) /\
     int_bounds (nth i la 0%Z) (nth i lb 0%Z) (nth i l fnan) (nth i u fnan).
Proof.
  intros [H [(a & b & -> & -> & Q)|Q]].
  - inversion H as [|? ? ? ? Hab _]; subst. cbn [integer_var int_of as_number py_int bind] in Q.
    exists [fsub (fZ a) chalf], [fsub (fadd (fZ b) chalf) ceps].
    split; [|split; [reflexivity|split; [reflexivity|split; [reflexivity|]]]].
    + change (0 <=? 0)%Z with true in Q. cbv iota in Q. rewrite !Z.pow_0_r, !Z.mul_1_r in Q. congruence.
    + intros [|i] Hi; [|cbn in Hi; lia]. cbn [nth]. split; [exact Hab|apply int_bounds_scalar; exact Hab].
  - unfold integer_var in Q. rewrite !map_length in Q.
    assert (L : List.length la = List.length lb) by (clear Q; induction H; simpl; lia).
    rewrite L, Nat.eqb_refl in Q. assert (Qv : v = IntegerVar (map (fun x => fsub x chalf) (map fZ la)) (map (fun x => fadd x (fsub chalf ceps)) (map fZ lb))) by congruence.
    subst v. do 2 eexists. split; [reflexivity|]. rewrite !map_length. split; [reflexivity|]. split; [symmetry; exact L|]. split; [symmetry; exact L|].
    intros i Hi. assert (Hi' : i < List.length lb) by lia.
    assert (Hab : int_ok (nth i la 0%Z) (nth i lb 0%Z)).
    { clear Q L. revert i Hi Hi'. induction H as [|a b la lb Hab H IH]; intros [|i] Hi Hi'; simpl in *; try lia; [exact Hab|apply IH; lia]. }
    split; [exact Hab|]. rewrite (nth_map_lt _ _ fnan) by (rewrite map_length; exact Hi).
    rewrite (nth_map_lt _ (map fZ lb) fnan) by (rewrite map_length; exact Hi').
    rewrite (nth_map_lt fZ la 0%Z) by exact Hi. rewrite (nth_map_lt fZ lb 0%Z) by exact Hi'.
    apply int_bounds_array. exact Hab.
Qed.
Lemma decode_int E tp l u x i : i < List.length l ->
  nth i (map (fun z => DInt (cast64 (var_round z))) (v_correct E tp (IntegerVar l u) x)) (DInt 0)
    = DInt (cast64 (var_round (fclip (nth i x fnan) (nth i l fnan) (nth i u fnan)))).
Proof.
  intros Hi. unfold v_correct. cbn [v_lb v_ub]. rewrite (nth_map_lt _ _ fnan) by (rewrite clipv_length; exact Hi).
  rewrite clipv_nth by exact Hi. reflexivity.
Qed.
Theorem C26_decode_in_range : forall E tp la lb v x, int_var la lb v -> List.length x = List.length la -> Forall num x ->
  exists ds, v_decode E tp v x = Ok ds /\ List.length ds = List.length la /\
    forall i, i < List.length la -> exists z, nth i ds (DInt 0) = DInt z /\ (nth i la 0 <= z <= nth i lb 0)%Z.
Proof.
  intros E tp la lb v x H Lx Hn. destruct (int_var_bounds la lb v H) as (l & u & -> & Ll & Lu & Lb & Hi).
  eexists. split; [reflexivity|]. split; [rewrite map_length; unfold v_correct; rewrite clipv_length; exact Ll|].
  intros i Hlt. rewrite decode_int by lia. eexists. split; [reflexivity|]. destruct (Hi i Hlt) as [Hab Hbb].
  destruct (clip_range _ _ _ _ (nth i x fnan) Hab Hbb) as [F R].
  { rewrite Forall_forall in Hn. apply Hn, nth_In. unfold vec in *; lia. }
  apply var_round_range; assumption.
Qed.
(** For ub = 2^40 the float bound is exactly ub + 0.5 and the vector (ub + 0.5) decodes to ub + 1. *)
Theorem C26_large_refuted : exists v x, integer_var (BNum (VInt 0)) (BNum (VInt (2 ^ 40))) = Ok v /\
  fisfin (nth 0 x fnan) = true /\ v_decode demo_env no_draws v x = Ok [DInt (2 ^ 40 + 1)].
Proof.
  exists (IntegerVar [fsub (fZ 0) chalf] [fsub (fadd (fZ (2 ^ 40)) chalf) ceps]), [fZ (2 ^ 41)].
  split; [reflexivity|]. split; [vm_compute; reflexivity|].
  unfold v_decode, v_correct. cbn [v_lb v_ub clipv seq List.length map nth]. reflexivity.
Qed.
Theorem C26_nan_refuted : exists v, integer_var (BNum (VInt 0)) (BNum (VInt 9)) = Ok v /\
  v_decode demo_env no_draws v [fnan] = Ok [DInt int_min].
Proof. eexists. split; [reflexivity|]. reflexivity. Qed.
Example C26_example : exists v, int_var [-3; 0]%Z [7; 0]%Z v /\
  v_decode demo_env no_draws v [fninf; finf] = Ok [DInt (-3); DInt 0].
Proof.
  eexists. split; [split; [|right; reflexivity]|reflexivity]. constructor; [|constructor; [|constructor]]; split; (lia || split; vm_compute; discriminate).
Qed.

(** * C24 *)
(** Equality of decoded values; floats as Python's == sees them (so 0.0 = -0.0). *)
Definition same (a b : dval) : Prop := match a, b with DFlt x, DFlt y => feq x y = true | _, _ => a = b end.
Definition round_trip E tp v ds : Prop :=
  exists e ds', v_encode v ds = Ok e /\ v_decode E tp v e = Ok ds' /\ Forall2 same ds ds'.

Lemma Forall2_nth {T U} (R : T -> U -> Prop) l1 l2 d1 d2 : List.length l1 = List.length l2 ->
  (forall i, i < List.length l1 -> R (nth i l1 d1) (nth i l2 d2)) -> Forall2 R l1 l2.
Proof.
  revert l2. induction l1 as [|a l1 IH]; intros [|b l2] L H; simpl in *; try lia; constructor.
  - apply (H 0). lia.
  - apply IH; [lia|]. intros i Hi. apply (H (S i)). lia.
Qed.
Lemma map_res_map {T U V} (f : T -> res U) (g : V -> T) (h : V -> U) (l : list V) :
  (forall x, In x l -> f (g x) = Ok (h x)) -> map_res f (map g l) = Ok (map h l).
Proof.
  induction l as [|a l IH]; intros H; [reflexivity|]. simpl. rewrite H by (left; reflexivity). simpl.
  rewrite IH by (intros; apply H; right; assumption). reflexivity.
Qed.
Theorem C24_float : forall E tp lb ub x, ordered lb ub -> in_box lb ub x ->
  round_trip E tp (FloatVar lb ub) (map DFlt x).
Proof.
  intros E tp lb ub x [Lo O] [Lx H]. exists x, (map DFlt (clipv lb ub x)). split; [|split; [reflexivity|]].
  - unfold v_encode. rewrite (map_res_map to_float DFlt (fun y => y)) by reflexivity. rewrite map_id. reflexivity.
  - apply Forall2_nth with (d1 := DFlt fnan) (d2 := DFlt fnan); [rewrite !map_length, clipv_length; exact Lx|].
    intros i Hi. rewrite map_length in Hi. rewrite !map_nth. rewrite clipv_nth by (unfold vec in *; lia).
    destruct (H i) as [H1 H2]; [unfold vec in *; lia|]. unfold same.
    pose proof (fclip_inside _ _ _ H1 H2) as R. destruct (fle_true_nan _ _ H1) as [N1 N2]. destruct (fle_true_nan _ _ H2) as [_ N3].
    apply feq_FR; [exact N2|apply fclip_notnan; assumption|symmetry; exact R].
Qed.

Local Open Scope R_scope.
Lemma var_round_int y z : fisfin y = true -> FR y = IZR z -> (Z.abs z <= 2 ^ 53)%Z -> cast64 (var_round y) = z.
Proof.
  intros F R Hz. destruct (ffloor_spec y F) as [Ff Ef]. rewrite R, Zfloor_IZR in Ef.
  destruct (fsub_fin y (ffloor y) F Ff) as [Nr Er]. rewrite R, Ef in Er. replace (IZR z - IZR z) with 0 in Er by lra.
  rewrite crnd_0 in Er. destruct chalf_FR as [Fh Rh]. unfold var_round.
  assert (Q : flt (fsub y (ffloor y)) chalf = true) by (apply flt_FR; [exact Nr|apply fin_notnan; exact Fh|rewrite Er, Rh; lra]).
  rewrite Q. unfold cast64. rewrite Ff, (ftrunc_spec _ Ff), Ef, Ztrunc_IZR.
  replace (- 2 ^ 63 <=? z)%Z with true by (symmetry; apply Z.leb_le; lia).
  replace (z <? 2 ^ 63)%Z with true by (symmetry; apply Z.ltb_lt; lia). reflexivity.
Qed.
(** Clipping an integer that lies between two real bounds keeps its value. *)
Lemma clip_Z z l u : (Z.abs z <= 2 ^ 53)%Z -> fisnan l = false -> fisnan u = false -> FR l <= IZR z <= FR u ->
  fisfin (fclip (fZ z) l u) = true /\ FR (fclip (fZ z) l u) = IZR z.
Proof.
  intros Hz Nl Nu H. destruct (fZ_FR z Hz) as [Fz Rz]. assert (Nz := fin_notnan _ Fz).
  assert (H1 : fle l (fZ z) = true) by (apply fle_FR; auto; rewrite Rz; lra).
  assert (H2 : fle (fZ z) u = true) by (apply fle_FR; auto; rewrite Rz; lra).
  pose proof (fclip_inside _ _ _ H1 H2) as R. rewrite Rz in R. split; [|exact R].
  apply FR_fin_iff; [apply fclip_notnan; assumption|]. rewrite R, <- Rz. apply FR_fin_iff; assumption.
Qed.
Local Close Scope R_scope.

Theorem C24_integer : forall E tp la lb v zs, int_var la lb v -> List.length zs = List.length la ->
  (forall i, i < List.length la -> (nth i la 0 <= nth i zs 0 <= nth i lb 0)%Z) ->
  round_trip E tp v (map DInt zs).
Proof.
  intros E tp la lb v zs H Lz Hz. destruct (int_var_bounds la lb v H) as (l & u & -> & Ll & Lu & Lb & Hi).
  exists (map fZ zs). eexists. split; [|split; [reflexivity|]].
  - unfold v_encode. apply (map_res_map to_float DInt fZ). reflexivity.
  - apply Forall2_nth with (d1 := DInt 0) (d2 := DInt 0); [rewrite !map_length; unfold v_correct; rewrite clipv_length; cbn [v_lb]; lia|].
    intros i Hlt. rewrite map_length in Hlt. rewrite decode_int by lia. rewrite map_nth. unfold same. f_equal.
    rewrite (nth_map_lt fZ zs 0%Z) by exact Hlt. destruct (Hi i ltac:(lia)) as [(Hab & Ha & Hb) (F1 & E1 & F2 & E2)].
    specialize (Hz i ltac:(lia)). set (z := nth i zs 0%Z) in *.
    assert (Z1 : (Z.abs z <= 2 ^ 38)%Z) by lia.
    destruct (clip_Z z (nth i l fnan) (nth i u fnan)) as [F R]; [lia|apply fin_notnan; exact F1|apply fin_notnan; exact F2| |].
    { rewrite E1. destruct Hz as [Hz1 Hz2]. apply IZR_le in Hz1, Hz2. lra. }
    symmetry. apply var_round_int; [exact F|exact R|lia].
Qed.
Lemma code_round n i : small n -> i < n -> cast64 (fZ (cast64 (fclip (code i) (fZ 0) (set_ub n)))) = Z.of_nat i.
Proof.
  intros [S1 S2] Hi. destruct (set_ub_FR n S1 S2) as (F & H1 & H2).
  destruct (clip_Z (Z.of_nat i) (fZ 0) (set_ub n)) as [Fc Rc]; [lia|reflexivity|apply fin_notnan; exact F| |].
  { rewrite fZ_0. split; [apply IZR_le; lia|]. eapply Rle_trans; [|exact H1]. apply IZR_le. lia. }
  assert (Q : cast64 (fclip (code i) (fZ 0) (set_ub n)) = Z.of_nat i).
  { unfold cast64. unfold code. rewrite Fc, (ftrunc_spec _ Fc), Rc, Ztrunc_IZR.
    replace (- 2 ^ 63 <=? Z.of_nat i)%Z with true by (symmetry; apply Z.leb_le; lia).
    replace (Z.of_nat i <? 2 ^ 63)%Z with true by (symmetry; apply Z.ltb_lt; lia). reflexivity. }
  rewrite Q. apply cast64_Z. lia.
Qed.

(** The sets of choices a label variable is declared with. *)
Definition sets_of (a : sarg) : list (list label) := match a with SFlat l => [l] | SNested l => l | SOther => [] end.
Lemma label_var_inv PE cat a v : label_var PE cat a = Ok v ->
  v = LabelVar cat (sets_of a) (map (le_fit PE) (sets_of a)) (map (fun s => set_ub (List.length s)) (sets_of a)).
Proof.
  unfold label_var. destruct a as [[|l0 l]|l|]; try discriminate; [|destruct (forallb _ l); [|discriminate]]; intros H; inversion H; reflexivity.
Qed.
Lemma map_res_nth {T U} (f : T -> res U) (h : nat -> U) (l : list T) d :
  (forall i, i < List.length l -> f (nth i l d) = Ok (h i)) -> map_res f l = Ok (map h (seq 0 (List.length l))).
Proof.
  intros H. rewrite <- (map_nth_seq l d) at 1. apply (map_res_map f (fun i => nth i l d) h).
  intros i Hi. apply in_seq in Hi. apply H. lia.
Qed.
Theorem C24_labels : forall PE E tp cat a v ls, pset_ok PE -> label_var PE cat a = Ok v ->
  Forall (fun s => small (List.length s)) (sets_of a) -> Forall2 (fun l s => In l s) ls (sets_of a) ->
  round_trip E tp v (map DLab ls).
Proof.
  intros PE E tp cat a v ls HP HV HS HI. apply label_var_inv in HV. subst v. set (sets := sets_of a) in *.
  assert (L : List.length ls = List.length sets) by (clear HS; induction HI; simpl; lia).
  assert (HI' : forall i, i < List.length sets -> In (nth i ls LNone) (nth i sets [])).
  { clear HS L. induction HI as [|x s ls' ss Hx H IH]; intros [|i] Hi; simpl in *; try lia; [exact Hx|apply IH; lia]. }
  rewrite Forall_forall in HS.
  set (pos := fun i => match index_of (nth i ls LNone) (le_fit PE (nth i sets [])) with Some k => k | None => 0 end).
  assert (Hpos : forall i, i < List.length sets -> index_of (nth i ls LNone) (le_fit PE (nth i sets [])) = Some (pos i) /\
     pos i < List.length (le_fit PE (nth i sets [])) /\ pos i < List.length (nth i sets []) /\
     nth (pos i) (le_fit PE (nth i sets [])) unknown = nth i ls LNone).
  { intros i Hi. destruct (le_fit_spec PE (nth i sets []) HP) as [N M].
    destruct (index_of_in (nth i ls LNone) (le_fit PE (nth i sets []))) as [k Q]; [apply M, HI'; exact Hi|].
    unfold pos. rewrite Q. destruct (index_of_some _ _ _ Q) as [L1 L2]. split; [reflexivity|]. split; [exact L1|]. split; [|apply L2].
    eapply Nat.lt_le_trans; [exact L1|]. apply NoDup_incl_length; [exact N|]. intros y. apply M. }
  set (C := combine (map (le_fit PE) sets) (map DLab ls)).
  assert (LC : List.length C = List.length sets) by (unfold C; rewrite combine_length, !map_length; lia).
  exists (map (fun i => code (pos i)) (seq 0 (List.length sets))). eexists. split; [|split; [reflexivity|]].
  - unfold v_encode. fold C. rewrite <- LC. apply map_res_nth with (d := ([], DLab LNone)). intros i Hi. rewrite LC in Hi.
    unfold C. rewrite combine_nth by (rewrite !map_length; lia). cbn [fst snd].
    rewrite (nth_map_lt (le_fit PE) sets []) by exact Hi. rewrite (nth_map_lt DLab ls LNone) by lia. cbv iota beta.
    unfold le_transform1. rewrite (proj1 (Hpos i Hi)). reflexivity.
  - set (x := map (fun i => code (pos i)) (seq 0 (List.length sets))).
    set (y := v_correct E tp _ x). assert (Ly : List.length y = List.length sets).
    { unfold y, v_correct. rewrite map_length, clipv_length. cbn [v_lb]. unfold zeros. apply repeat_length. }
    apply Forall2_nth with (d1 := DLab unknown) (d2 := DLab (le_inverse1 [] (cast64 fnan))).
    + rewrite !map_length, combine_length, map_length. unfold vec in *; lia.
    + intros i Hi. rewrite map_length in Hi. assert (Hi' : i < List.length sets) by lia.
      rewrite (nth_map_lt DLab ls LNone) by exact Hi.
      rewrite (nth_map_lt _ _ ([], fnan)) by (rewrite combine_length, map_length; unfold vec in *; lia).
      rewrite combine_nth by (rewrite map_length; unfold vec in *; lia). cbn [fst snd].
      rewrite (nth_map_lt (le_fit PE) sets []) by exact Hi'. unfold same. f_equal.
      unfold y, v_correct. cbn [v_lb v_ub].
      assert (Hz : i < List.length (zeros (List.length sets))) by (unfold zeros; rewrite repeat_length; exact Hi').
      rewrite (nth_map_lt _ _ fnan) by (rewrite clipv_length; exact Hz). rewrite clipv_nth by exact Hz.
      unfold zeros. rewrite nth_repeat_lt by exact Hi'. rewrite (nth_map_lt _ sets []) by exact Hi'.
      unfold x. rewrite (nth_map_lt _ _ 0) by (rewrite seq_length; exact Hi'). rewrite seq_nth by exact Hi'. rewrite Nat.add_0_l.
      destruct (Hpos i Hi') as (P1 & P2 & P3 & P4).
      rewrite code_round by (try apply HS, nth_In; assumption). rewrite le_inverse1_nat by exact P2. symmetry. exact P4.
Qed.
Lemma last_index_spec x l : forall i acc, (In x l \/ exists j, acc = Some j) ->
  exists k, last_index x l i acc = Some k /\ ((i <= k < i + List.length l /\ nth (k - i) l [] = x) \/ acc = Some k).
Proof.
  induction l as [|y l IH]; intros i acc H; simpl.
  - destruct H as [[]|[j ->]]. exists j. split; [reflexivity|right; reflexivity].
  - destruct (IH (S i) (if list_eq_dec label_dec x y then Some i else acc)) as (k & Q & D).
    { destruct H as [[->|H]|[j ->]].
      - right. destruct (list_eq_dec label_dec x x); [eauto|congruence].
      - left; exact H.
      - right. destruct (list_eq_dec label_dec x y); eauto. }
    exists k. split; [exact Q|]. destruct D as [[D1 D2]|D].
    + left. split; [lia|]. destruct (k - i) as [|m] eqn:Em; [lia|]. replace (k - S i) with m in D2 by lia. exact D2.
    + destruct (list_eq_dec label_dec x y) as [->|]; [|right; exact D]. left. inversion D; subst. split; [lia|].
      rewrite Nat.sub_diag. reflexivity.
Qed.
Theorem C24_sequence : forall E tp sets l, small (List.length sets) -> In l sets ->
  round_trip E tp (sequence_var sets) [DSeq l].
Proof.
  intros E tp sets l S Hl. destruct (last_index_spec l sets 0 None (or_introl Hl)) as (k & Q & [[K1 K2]|K]); [|discriminate].
  rewrite Nat.sub_0_r in K2. exists [code k], [DSeq l]. split; [|split; [|constructor; [reflexivity|constructor]]].
  - unfold v_encode, sequence_var. rewrite Q. reflexivity.
  - unfold v_decode, sequence_var, v_correct. cbn [v_lb v_ub clipv seq List.length map nth]. rewrite code_round by (assumption || lia).
    replace (0 <=? Z.of_nat k)%Z with true by (symmetry; apply Z.leb_le; lia).
    replace (Z.of_nat k <? Z.of_nat (List.length sets))%Z with true by (symmetry; apply Z.ltb_lt; lia).
    simpl. rewrite Nat2Z.id, K2. reflexivity.
Qed.
Lemma bit_round b : b < 2 -> cast64 (fclip (code b) (fZ 0) (fmul bin_ub (fZ 1))) = Z.of_nat b.
Proof. intros H. destruct b as [|[|b]]; [vm_compute; reflexivity|vm_compute; reflexivity|lia]. Qed.
Lemma bits_decode E tp v n bits x : (v = BinaryVar n \/ v = BoolVar n) -> List.length bits = n -> Forall (fun b => b < 2) bits ->
  x = map code bits -> map cast64 (v_correct E tp v x) = map Z.of_nat bits.
Proof.
  intros Hv L H ->. apply nth_ext with (d := cast64 fnan) (d' := Z.of_nat 0).
  - rewrite !map_length. destruct Hv; subst v; unfold v_correct; rewrite clipv_length; cbn [v_lb]; unfold zeros; rewrite repeat_length; symmetry; exact L.
  - rewrite map_length. intros i Hi. rewrite !map_nth.
    assert (Hn : i < n).
    { destruct Hv; subst v; unfold v_correct in Hi; rewrite clipv_length in Hi; cbn [v_lb] in Hi; unfold zeros in Hi; rewrite repeat_length in Hi; exact Hi. }
    assert (Q : nth i (v_correct E tp v (map code bits)) fnan = fclip (code (nth i bits 0)) (fZ 0) (fmul bin_ub (fZ 1))).
    { destruct Hv; subst v; unfold v_correct; cbn [v_lb v_ub];
        (rewrite clipv_nth by (unfold zeros; rewrite repeat_length; exact Hn));
        unfold zeros, times_ones; rewrite !nth_repeat_lt by exact Hn; rewrite (nth_map_lt code bits 0) by lia; reflexivity. }
    rewrite Q. apply bit_round. rewrite Forall_forall in H. apply H, nth_In. lia.
Qed.
Theorem C24_binary : forall E tp bits, Forall (fun b => b < 2) bits ->
  round_trip E tp (BinaryVar (List.length bits)) (map (fun b => DInt (Z.of_nat b)) bits).
Proof.
  intros E tp bits H. exists (map code bits), (map (fun b => DInt (Z.of_nat b)) bits). split; [|split].
  - unfold v_encode. apply (map_res_map to_float (fun b => DInt (Z.of_nat b)) code). reflexivity.
  - unfold v_decode. f_equal. rewrite <- (map_map cast64 DInt), (bits_decode E tp _ (List.length bits) bits _ (or_introl eq_refl) eq_refl H eq_refl).
    rewrite map_map. reflexivity.
  - clear H. induction bits; constructor; [reflexivity|exact IHbits].
Qed.
Theorem C24_bool : forall E tp bs, round_trip E tp (BoolVar (List.length bs)) (map DBool bs).
Proof.
  intros E tp bs. set (bits := map (fun b : bool => if b then 1 else 0) bs).
  assert (H : Forall (fun b => b < 2) bits) by (apply Forall_forall; intros b Hb; apply in_map_iff in Hb; destruct Hb as ([|] & <- & _); lia).
  assert (L : List.length bits = List.length bs) by (unfold bits; apply map_length).
  exists (map code bits), (map DBool bs). split; [|split].
  - unfold v_encode, bits. rewrite map_map. apply (map_res_map to_float DBool (fun b : bool => code (if b then 1 else 0))).
    intros [|] _; reflexivity.
  - unfold v_decode. f_equal. rewrite <- (map_map cast64 (fun z => DBool (z =? 1)%Z)).
    rewrite (bits_decode E tp _ (List.length bs) bits _ (or_intror eq_refl) L H eq_refl). unfold bits. rewrite !map_map.
    apply map_ext. intros [|]; reflexivity.
  - clear. induction bs; constructor; [reflexivity|exact IHbs].
Qed.
Example C24_example : exists v, label_var demo_penv true (SNested [[LNone; LNum 1 0]; [LStr "b"; LStr "a"; LStr "b"]]) = Ok v /\
  v_encode v [DLab (LNum 1 0); DLab (LStr "b")] = Ok [fZ 1; fZ 1] /\
  v_decode demo_env no_draws v [fZ 1; fZ 1] = Ok [DLab (LNum 1 0); DLab (LStr "b")].
Proof. eexists. repeat split. Qed.

(** * C25 *)
Lemma perm_decode E tp set le x : argsort_ok (e_argsort E) -> List.length x = List.length set -> small (List.length set) ->
  v_decode E tp (PermutationVar set le) x = Ok (map (fun i => DLab (le_inverse1 le (Z.of_nat i))) (e_argsort E x)).
Proof.
  intros HA L [_ S]. unfold v_decode, v_correct. f_equal. rewrite map_map. apply map_ext_in. intros i Hi.
  destruct (HA x) as [Q _]. apply (Permutation_in _ Q), in_seq in Hi. rewrite cast64_Z by lia. reflexivity.
Qed.
Lemma le_fit_perm PE set : pset_ok PE -> NoDup set -> Permutation (le_fit PE set) set.
Proof. intros H N. destruct (le_fit_spec PE set H) as [N' M]. apply NoDup_Permutation; assumption. Qed.
Theorem C25_decode_permutation : forall PE E tp set v x, pset_ok PE -> argsort_ok (e_argsort E) ->
  permutation_var PE set = Ok v -> NoDup set -> small (List.length set) -> List.length x = List.length set ->
  exists ls, v_decode E tp v x = Ok (map DLab ls) /\ Permutation ls set.
Proof.
  intros PE E tp set v x HP HA HV ND S L. unfold permutation_var in HV. destruct (1 <? List.length set); [|discriminate].
  inversion HV; subst v. pose proof (le_fit_perm PE set HP ND) as Q. assert (Ll := Permutation_length Q).
  rewrite perm_decode by assumption. exists (map (fun i => nth i (le_fit PE set) unknown) (e_argsort E x)). rewrite map_map.
  destruct (HA x) as [PA _]. split.
  - f_equal. apply map_ext_in. intros i Hi. apply (Permutation_in _ PA), in_seq in Hi. rewrite le_inverse1_nat by lia. reflexivity.
  - eapply Permutation_trans; [apply Permutation_map; exact PA|]. rewrite L, <- Ll, map_nth_seq. exact Q.
Qed.
(** [out] arranges the sorted labels the way inverse to [ls]. *)
Definition inverse_arrangement (sorted ls out : list label) : Prop :=
  forall i j d, i < List.length sorted -> j < List.length sorted -> nth i ls d = nth j sorted d -> nth j out d = nth i sorted d.
Theorem C25_round_trip_is_inverse : forall PE E tp set v ls, pset_ok PE -> argsort_ok (e_argsort E) ->
  permutation_var PE set = Ok v -> NoDup set -> small (List.length set) -> Permutation ls set ->
  exists e out, v_encode v (map DLab ls) = Ok e /\ v_decode E tp v e = Ok (map DLab out) /\
    Permutation out set /\ inverse_arrangement (le_fit PE set) ls out /\
    (out = ls <-> inverse_arrangement (le_fit PE set) ls ls).
Proof.
  intros PE E tp set v ls HP HA HV ND S PL.
  assert (HV' := HV). unfold permutation_var in HV. destruct (1 <? List.length set) eqn:Big; [|discriminate].
  inversion HV; subst v. clear HV. pose proof (le_fit_perm PE set HP ND) as Q. assert (Ll := Permutation_length Q). set (le := le_fit PE set) in *.
  set (n := List.length set) in *. assert (Lls : List.length ls = n) by (apply Permutation_length in PL; exact PL).
  assert (NDle : NoDup le) by (apply (Permutation_NoDup (Permutation_sym Q)); exact ND).
  assert (NDls : NoDup ls) by (apply (Permutation_NoDup (Permutation_sym PL)); exact ND).
  set (pos := fun l => match index_of l le with Some k => k | None => 0 end).
  assert (Hpos : forall l, In l ls -> index_of l le = Some (pos l) /\ pos l < n /\ forall d, nth (pos l) le d = l).
  { intros l Hl. destruct (index_of_in l le) as [k K]; [apply (Permutation_in _ (Permutation_sym Q)), (Permutation_in _ PL); exact Hl|].
    unfold pos. rewrite K. destruct (index_of_some _ _ _ K) as [K1 K2]. split; [reflexivity|]. split; [lia|exact K2]. }
  set (p := map pos ls).
  assert (Pp : Permutation p (seq 0 n)).
  { apply NoDup_Permutation_bis.
    - unfold p. clear PL Lls. induction NDls as [|a l Ha _ IH]; [constructor|]. simpl. constructor.
      + intros Hin. apply in_map_iff in Hin. destruct Hin as (b & Eb & Hb). apply Ha.
        destruct (Hpos a (or_introl eq_refl)) as (_ & _ & A). destruct (Hpos b (or_intror Hb)) as (_ & _ & B).
        rewrite <- (A LNone), <- Eb, (B LNone). exact Hb.
      + apply IH. intros l' Hl'. apply Hpos. right; exact Hl'.
    - rewrite seq_length. unfold p. rewrite map_length. lia.
    - intros k Hk. apply in_map_iff in Hk. destruct Hk as (l & <- & Hl). apply in_seq. destruct (Hpos l Hl) as (_ & B & _). lia. }
  destruct (argsort_inverse E HA p n Pp (proj2 S)) as (Pq & I1 & I2). set (q := e_argsort E (map code p)) in *.
  assert (Lq : List.length q = n) by (rewrite (Permutation_length Pq), seq_length; reflexivity).
  set (out := map (fun i => nth i le unknown) q).
  assert (Lo : List.length out = n) by (unfold out; rewrite map_length; exact Lq).
  assert (Enc : v_encode (PermutationVar set le) (map DLab ls) = Ok (map code p)).
  { unfold v_encode, p. rewrite map_map. apply (map_res_map _ DLab (fun l => code (pos l))). intros l Hl. unfold le_transform1.
    rewrite (proj1 (Hpos l Hl)). reflexivity. }
  assert (Inv : inverse_arrangement le ls out).
  { intros i j d Hi Hj Hij. rewrite Ll in Hi, Hj.
    assert (Hin : In (nth i ls d) ls) by (apply nth_In; lia). destruct (Hpos _ Hin) as (X1 & X2 & X3).
    assert (Ej : nth i p 0 = j).
    { unfold p. rewrite (nth_map_lt pos ls d) by lia. apply (proj1 (NoDup_nth le d) NDle); [lia|lia|]. rewrite X3. exact Hij. }
    unfold out. rewrite (nth_map_lt _ q 0) by lia. rewrite <- Ej, I2 by exact Hi. apply nth_indep. lia. }
  exists (map code p), out. split; [exact Enc|]. split; [|split; [|split; [exact Inv|]]].
  - rewrite perm_decode; [|exact HA|rewrite map_length; unfold p; rewrite map_length; exact Lls|exact S]. f_equal. unfold out. rewrite map_map. fold q.
    apply map_ext_in. intros i Hi. apply (Permutation_in _ Pq), in_seq in Hi. rewrite le_inverse1_nat by lia. reflexivity.
  - eapply Permutation_trans; [apply Permutation_map; exact Pq|]. rewrite <- Ll, map_nth_seq. exact Q.
  - split; [intros Eo; rewrite Eo in Inv; exact Inv|]. intros Self. apply nth_ext with (d := LNone) (d' := LNone); [lia|].
    intros j Hj. rewrite Lo in Hj.
    assert (Hk : nth j q 0 < n) by (assert (In (nth j q 0) (seq 0 n)) by (apply (Permutation_in _ Pq), nth_In; lia); apply in_seq in H; lia).
    assert (Hjk : nth (nth j q 0) ls LNone = nth j le LNone).
    { assert (Hin : In (nth (nth j q 0) ls LNone) ls) by (apply nth_In; lia). destruct (Hpos _ Hin) as (_ & _ & X3).
      rewrite <- (X3 LNone). f_equal. rewrite <- (nth_map_lt pos ls LNone 0) by lia. fold p. apply I1. exact Hj. }
    rewrite (Inv (nth j q 0) j LNone), (Self (nth j q 0) j LNone) by (rewrite ?Ll; assumption). reflexivity.
Qed.
(** The cyclic arrangement b c a decodes to c a b. *)
Theorem C25_round_trip_refuted : exists set v ls e out, permutation_var demo_penv set = Ok v /\ Permutation ls set /\
  v_encode v (map DLab ls) = Ok e /\ v_decode demo_env no_draws v e = Ok (map DLab out) /\ out <> ls.
Proof.
  exists [LStr "a"; LStr "b"; LStr "c"], (PermutationVar [LStr "a"; LStr "b"; LStr "c"] [LStr "a"; LStr "b"; LStr "c"]), [LStr "b"; LStr "c"; LStr "a"],
    [fZ 1; fZ 2; fZ 0], [LStr "c"; LStr "a"; LStr "b"].
  split; [reflexivity|]. split; [|split; [reflexivity|split; [reflexivity|discriminate]]].
  eapply Permutation_trans; [apply perm_skip, perm_swap|]. apply perm_swap.
Qed.
Example C25_example : NoDup [LStr "a"; LStr "b"] /\ v_decode demo_env no_draws (PermutationVar ab ab) (map fZ [1; 0]%Z) = Ok [DLab (LStr "b"); DLab (LStr "a")].
Proof. split; [|reflexivity]. constructor; [|constructor; [|constructor]]; intros H; simpl in H; intuition discriminate. Qed.

Print Assumptions C29_round_trip.
Print Assumptions C29_bijection.
Print Assumptions C29_out_of_range.
Print Assumptions C29_sorted.
Print Assumptions C29_duplicates_refuted.
Print Assumptions C26_decode_in_range.
Print Assumptions C26_large_refuted.
Print Assumptions C26_nan_refuted.
Print Assumptions C24_float.
Print Assumptions C24_integer.
Print Assumptions C24_labels.
Print Assumptions C24_sequence.
Print Assumptions C24_binary.
Print Assumptions C24_bool.
Print Assumptions C25_decode_permutation.
Print Assumptions C25_round_trip_is_inverse.
Print Assumptions C25_round_trip_refuted.
