(** Generated values and solutions; problems built from variables meet the hypotheses of the run theorems. *)
From Coq Require Import Reals Lra.
From Flocq Require Import Core.
From Verif Require Import Prelude Fl FlArith MCore MValid MSpace SpecCore SpecRun PLogic PSolve PRun FlInt PSpace PGen Demo PropSpace PropCodec PropLayout.

(** * C27 *)
Local Open Scope R_scope.
(** The float ends from which IntegerVar.generate draws. *)
Definition int_ends (a b : Z) (low high : f64) : Prop :=
  fisfin low = true /\ FR low = IZR a /\ fisfin high = true /\ IZR b + 1 - / 8192 <= FR high <= IZR b + 1 + / 8192 /\
  ((0 <= b)%Z -> IZR b + 1 <= FR high).
Lemma int_ends_of a b l u : int_ok a b -> int_bounds a b l u ->
  ((0 <= b)%Z -> IZR b + 1 <= FR (fadd (fadd u chalf) ceps)) ->
  int_ends a b (fadd l chalf) (fadd (fadd u chalf) ceps).
Proof.
  intros (Hab & Ha & Hb) (Fl & Rl & Fu & Ru) Hge. destruct chalf_FR as [Fh Rh]. destruct ceps_FR as [Fc _]. pose proof ceps_bounds as Bc.
  pose proof B_big as BB. assert (Ba := IZR_le_abs a _ Ha). assert (Bb := IZR_le_abs b _ Hb).
  assert (P38 : IZR (2 ^ 38) + 4 <= IZR (2 ^ 100)) by (rewrite <- plus_IZR; apply IZR_le; lia).
  destruct (fadd_fin _ _ Fl Fh) as [N1 E1]. rewrite Rl, Rh in E1. replace (IZR a - / 2 + / 2) with (IZR a) in E1 by lra.
  destruct (fZ_FR a) as [Fa Ra]; [lia|]. rewrite <- Ra, (crnd_FR _ (fin_notnan _ Fa)), Ra in E1.
  destruct (fadd_fin _ _ Fu Fh) as [N2 E2]. rewrite Rh in E2.
  assert (R2 : IZR b + 1 - / 8192 <= FR (fadd u chalf) <= IZR b + 1 - / 16384).
  { rewrite E2. pose proof (crnd_m14 b 16382 Hb ltac:(lia)) as L. pose proof (crnd_m14 b 16383 Hb ltac:(lia)) as U. split.
    - replace (IZR b + 1 - / 8192) with (IZR b + 16382 * / 16384) by lra. rewrite <- L. apply crnd_mono. lra.
    - replace (IZR b + 1 - / 16384) with (IZR b + 16383 * / 16384) by lra. rewrite <- U. apply crnd_mono. lra. }
  assert (F2 : fisfin (fadd u chalf) = true) by (apply FR_fin_iff; [exact N2|lra]).
  destruct (fadd_fin _ _ F2 Fc) as [N3 E3].
  assert (R3 : IZR b + 1 - / 8192 <= FR (fadd (fadd u chalf) ceps) <= IZR b + 1 + / 8192).
  { rewrite E3. pose proof (crnd_m14 b 16382 Hb ltac:(lia)) as L. pose proof (crnd_m14 b 16386 Hb ltac:(lia)) as U. split.
    - replace (IZR b + 1 - / 8192) with (IZR b + 16382 * / 16384) by lra. rewrite <- L. apply crnd_mono. lra.
    - replace (IZR b + 1 + / 8192) with (IZR b + 16386 * / 16384) by lra. rewrite <- U. apply crnd_mono. lra. }
  split; [apply FR_fin_iff; [exact N1|rewrite E1; lra]|]. split; [exact E1|]. split; [apply FR_fin_iff; [exact N3|lra]|]. split; [exact R3|exact Hge].
Qed.
Lemma int_var_ends la lb v : int_var la lb v -> exists l u, v = IntegerVar l u /\
  List.length l = List.length la /\ List.length lb = List.length la /\
  forall i, (i < List.length la)%nat -> int_ok (nth i la 0%Z) (nth i lb 0%Z) /\
     int_bounds (nth i la 0%Z) (nth i lb 0%Z) (nth i l fnan) (nth i u fnan) /\
     int_ends (nth i la 0%Z) (nth i lb 0%Z) (fadd (nth i l fnan) chalf) (fadd (fadd (nth i u fnan) chalf) ceps).
Proof.
  intros H. destruct (int_var_bounds la lb v H) as (l & u & Ev & Ll & Lu & Lb & Hi). exists l, u.
  split; [exact Ev|]. split; [exact Ll|]. split; [exact Lb|]. intros i Hlt. destruct (Hi i Hlt) as [Hab Hbb].
  split; [exact Hab|]. split; [exact Hbb|]. apply int_ends_of; [exact Hab|exact Hbb|]. intros Hb0.
  assert (Fu : fisfin (nth i u fnan) = true) by apply Hbb. destruct Hab as (Hab & Ha & Hb).
  destruct H as [_ [(a & b & -> & -> & Q)|Q]].
  - destruct i as [|i]; [|cbn in Hlt; lia]. cbn [nth] in *.
    assert (Eu : u = [fsub (fadd (fZ b) chalf) ceps]).
    { rewrite Ev in Q. cbn [integer_var int_of as_number py_int bind] in Q. change (0 <=? 0)%Z with true in Q. cbv iota in Q.
      rewrite !Z.pow_0_r, !Z.mul_1_r in Q. congruence. }
    subst u. cbn [nth] in *. apply scalar_high_ge; [lia|exact Fu].
  - unfold integer_var in Q. rewrite !map_length, Lb, Nat.eqb_refl in Q.
    assert (Eu : u = map (fun x => fadd x (fsub chalf ceps)) (map fZ lb)) by (rewrite Ev in Q; congruence).
    assert (Hi' : (i < List.length lb)%nat) by lia.
    assert (En : nth i u fnan = fadd (fZ (nth i lb 0%Z)) (fsub chalf ceps)).
    { rewrite Eu. rewrite (nth_map_lt _ (map fZ lb) fnan) by (rewrite map_length; exact Hi').
      rewrite (nth_map_lt fZ lb 0%Z) by exact Hi'. reflexivity. }
    rewrite En in *. apply array_high_ge; [lia|exact Fu].
Qed.
Lemma ends_trunc a b low high : int_ok a b -> int_ends a b low high ->
  fisfin low && fisfin high = true /\ ftrunc low = a /\
  (ftrunc high = b + 1 \/ (b < -1 /\ ftrunc high = b + 2))%Z.
Proof.
  intros (Hab & Ha & Hb) (F1 & R1 & F2 & R2 & Hge). rewrite F1, F2. split; [reflexivity|]. rewrite !ftrunc_spec, R1, Ztrunc_IZR by assumption.
  split; [reflexivity|]. set (r := FR high) in *. destruct (Z.le_gt_cases 0 b) as [P|P].
  - left. specialize (Hge P). pose proof (Ztrunc_range r (b + 1) (b + 2) ltac:(lia)) as T. rewrite !plus_IZR in T. specialize (T ltac:(lra)). lia.
  - destruct (Z.eq_dec b (-1)) as [E1|N1].
    + left. subst b. assert (Tz : Ztrunc r = 0%Z); [|lia].
      destruct (Rle_or_lt 0 r) as [H|H].
      * pose proof (Ztrunc_range r 0 1 ltac:(lia)). simpl in H0. assert (0 <= Ztrunc r < 1)%Z by (apply H0; simpl in R2; lra). lia.
      * rewrite Ztrunc_ceil by lra. apply Zceil_imp. simpl in *. lra.
    + assert (H : r <= 0) by (assert (IZR b <= -2) by (apply IZR_le; lia); lra). rewrite Ztrunc_ceil by exact H.
      destruct (Rle_or_lt r (IZR b + 1)) as [Q|Q]; [left|right; split; [lia|]]; apply Zceil_imp.
      * rewrite minus_IZR, plus_IZR. lra.
      * rewrite minus_IZR, plus_IZR. lra.
Qed.
Local Close Scope R_scope.
Lemma gen_integer_ends a b low high k : int_ok a b -> int_ends a b low high ->
  exists z, gen_integer k low high = Ok z /\ (a <= z <= b \/ (b < -1 /\ z = b + 1))%Z.
Proof.
  intros Hab He. destruct (ends_trunc a b low high Hab He) as (F & Tl & Th). unfold gen_integer. rewrite F, Tl. destruct Hab as (Hab & _).
  set (h := ftrunc high) in *. assert (Hlt : (a <? h)%Z = true) by (apply Z.ltb_lt; lia). rewrite Hlt. simpl.
  eexists. split; [reflexivity|]. pose proof (Z.mod_pos_bound (Z.of_nat k) (h - a) ltac:(lia)). lia.
Qed.
Lemma gen_integer_reach a b low high z : int_ok a b -> int_ends a b low high -> (a <= z <= b)%Z ->
  gen_integer (Z.to_nat (z - a)) low high = Ok z.
Proof.
  intros Hab He Hz. destruct (ends_trunc a b low high Hab He) as (F & Tl & Th). unfold gen_integer. rewrite F, Tl.
  set (h := ftrunc high) in *. assert (Hlt : (a <? h)%Z = true) by (apply Z.ltb_lt; lia). rewrite Hlt. simpl. f_equal.
  rewrite Z2Nat.id by lia. rewrite Z.mod_small by lia. lia.
Qed.
Definition int_in (a b : Z) (d : dval) : Prop := exists z, d = DInt z /\ (a <= z <= b)%Z.
(** What is generated lies in the declared range when no upper bound is below -1. *)
Theorem C27_generate_in_range : forall PE tp la lb v, int_var la lb v -> Forall (fun b => -1 <= b)%Z lb ->
  exists ds, v_generate PE tp v = Ok ds /\ List.length ds = List.length la /\
    forall i, i < List.length la -> int_in (nth i la 0%Z) (nth i lb 0%Z) (nth i ds (DInt 0)).
Proof.
  intros PE tp la lb v H Hb. destruct (int_var_ends la lb v H) as (l & u & -> & Ll & Lb & Hi). unfold v_generate.
  set (g := fun i => match gen_integer (tp_i tp i) (fadd (nth i l fnan) chalf) (fadd (fadd (nth i u fnan) chalf) ceps) with Ok z => DInt z | Err _ => DInt 0 end).
  exists (map g (seq 0 (List.length l))). split; [|split; [rewrite map_length, seq_length; exact Ll|]].
  - apply map_res_all_ok. intros i Hin. apply in_seq in Hin. destruct (Hi i ltac:(lia)) as (A & _ & C).
    unfold g. destruct (gen_integer_ends _ _ _ _ (tp_i tp i) A C) as (z & -> & _). reflexivity.
  - intros i Hlt. rewrite (nth_map_lt g _ 0) by (rewrite seq_length; lia). rewrite seq_nth by lia. simpl. unfold g.
    destruct (Hi i Hlt) as (A & _ & C). destruct (gen_integer_ends _ _ _ _ (tp_i tp i) A C) as (z & -> & Hz). exists z. split; [reflexivity|].
    rewrite Forall_forall in Hb. assert (In (nth i lb 0%Z) lb) by (apply nth_In; lia). specialize (Hb _ H0). lia.
Qed.
(** Whatever the bounds, nothing above ub + 1 or below lb is generated, and generation never raises. *)
Theorem C27_generate_at_most_one_above : forall PE tp la lb v, int_var la lb v ->
  exists ds, v_generate PE tp v = Ok ds /\ List.length ds = List.length la /\
    forall i, i < List.length la -> int_in (nth i la 0%Z) (nth i lb 0 + 1)%Z (nth i ds (DInt 0)).
Proof.
  intros PE tp la lb v H. destruct (int_var_ends la lb v H) as (l & u & -> & Ll & Lb & Hi). unfold v_generate.
  set (g := fun i => match gen_integer (tp_i tp i) (fadd (nth i l fnan) chalf) (fadd (fadd (nth i u fnan) chalf) ceps) with Ok z => DInt z | Err _ => DInt 0 end).
  exists (map g (seq 0 (List.length l))). split; [|split; [rewrite map_length, seq_length; exact Ll|]].
  - apply map_res_all_ok. intros i Hin. apply in_seq in Hin. destruct (Hi i ltac:(lia)) as (A & _ & C).
    unfold g. destruct (gen_integer_ends _ _ _ _ (tp_i tp i) A C) as (z & -> & _). reflexivity.
  - intros i Hlt. rewrite (nth_map_lt g _ 0) by (rewrite seq_length; lia). rewrite seq_nth by lia. simpl. unfold g.
    destruct (Hi i Hlt) as (A & _ & C). destruct (gen_integer_ends _ _ _ _ (tp_i tp i) A C) as (z & -> & Hz). exists z. split; [reflexivity|].
    destruct A as (A & _). lia.
Qed.
(** Every vector of admissible integers can be generated. *)
Theorem C27_every_value : forall PE la lb v zs, int_var la lb v -> List.length zs = List.length la ->
  (forall i, i < List.length la -> (nth i la 0 <= nth i zs 0 <= nth i lb 0)%Z) ->
  exists tp, v_generate PE tp v = Ok (map DInt zs).
Proof.
  intros PE la lb v zs H Lz Hz. destruct (int_var_ends la lb v H) as (l & u & -> & Ll & Lb & Hi).
  exists (mkTape (fun _ => fZ 0) (fun i => Z.to_nat (nth i zs 0 - nth i la 0)%Z)). unfold v_generate. cbn [tp_i].
  rewrite (map_res_all_ok _ (fun i => DInt (nth i zs 0%Z))).
  - f_equal. rewrite Ll, <- Lz. rewrite <- (map_nth_seq zs 0%Z) at 2. rewrite map_map. reflexivity.
  - intros i Hin. apply in_seq in Hin. destruct (Hi i ltac:(lia)) as (A & _ & C).
    rewrite (gen_integer_reach _ _ _ _ (nth i zs 0%Z) A C) by (apply Hz; lia). reflexivity.
Qed.
(** IntegerVar(-10, -5) can generate -4. *)
Theorem C27_negative_refuted : exists v tp, integer_var (BNum (VInt (-10))) (BNum (VInt (-5))) = Ok v /\
  v_generate demo_penv tp v = Ok [DInt (-4)].
Proof.
  eexists. exists (mkTape (fun _ => fZ 0) (fun _ => 6)). split; [reflexivity|]. unfold v_generate. cbn [List.length seq map_res tp_i nth].
  assert (Q : gen_integer 6 (fadd (fsub (fZ (-10)) chalf) chalf) (fadd (fadd (fsub (fadd (fZ (-5)) chalf) ceps) chalf) ceps) = Ok (-4)%Z) by (vm_compute; reflexivity).
  match goal with |- context [gen_integer ?k ?l ?h] => change (gen_integer k l h) with (gen_integer 6 (fadd (fsub (fZ (-10)) chalf) chalf) (fadd (fadd (fsub (fadd (fZ (-5)) chalf) ceps) chalf) ceps)) end.
  rewrite Q. reflexivity.
Qed.
Example C27_example : exists v, int_var [-3]%Z [7]%Z v /\ v_generate demo_penv (mkTape (fun _ => fZ 0) (fun _ => 10)) v = Ok [DInt 7].
Proof.
  eexists. split; [split; [constructor; [split; [lia|split; vm_compute; discriminate]|constructor]|left; exists (-3)%Z, 7%Z; repeat split]|]. reflexivity.
Qed.

(** * C28 *)
Definition unit_tape (tp : tape) : Prop := forall i, unit_draw (tp_u tp i).
(** Bounds FloatVar.generate can use: lb <= ub, finite, with a finite difference. *)
Definition finite_range (lb ub : vec) : Prop :=
  List.length lb = List.length ub /\ forall i, i < List.length lb ->
    fle (nth i lb fnan) (nth i ub fnan) = true /\ fisfin (nth i lb fnan) = true /\ fisfin (nth i ub fnan) = true /\
    fisfin (fsub (nth i ub fnan) (nth i lb fnan)) = true.
Theorem C28_generate_in_range : forall PE tp lb ub, unit_tape tp -> finite_range lb ub ->
  exists x, v_generate PE tp (FloatVar lb ub) = Ok (map DFlt x) /\ in_box lb ub x.
Proof.
  intros PE tp lb ub HT [L H]. unfold v_generate, gen_uniform.
  set (g := fun i => fadd (nth i lb fnan) (fmul (fsub (nth i ub fnan) (nth i lb fnan)) (tp_u tp i))).
  exists (map g (seq 0 (List.length lb))). split.
  - rewrite (map_res_all_ok _ g); [reflexivity|]. intros i Hi. apply in_seq in Hi. destruct (H i ltac:(lia)) as (_ & _ & _ & F). rewrite F. reflexivity.
  - split; [rewrite map_length, seq_length; reflexivity|]. intros i Hi. destruct (H i Hi) as (O & F1 & F2 & F).
    rewrite (nth_map_lt g _ 0) by (rewrite seq_length; exact Hi). rewrite seq_nth by exact Hi. simpl.
    apply uniform_in_range; auto.
Qed.
(** A range that overflows makes generation raise. *)
Theorem C28_overflow_refuted : exists lb ub, fle lb ub = true /\ fisfin lb = true /\ fisfin ub = true /\
  v_generate demo_penv no_draws (FloatVar [lb] [ub]) = Err OverflowError.
Proof. exists (fpow (-1) 1023), (fpow 1 1023). repeat split; vm_compute; reflexivity. Qed.
Example C28_example : finite_range [fZ (-10)] [fZ 10] /\ unit_tape (tp_const chalf).
Proof.
  split; [split; [reflexivity|]; intros [|i] Hi; [repeat split; vm_compute; reflexivity|cbn in Hi; lia]|].
  intros i. simpl. destruct chalf_FR as [F R]. split; [exact F|]. rewrite R.
  assert (bpow radix2 (-53) <= bpow radix2 (-1))%R by (apply bpow_le; lia). change (bpow radix2 (-1)) with (/ 2)%R in H. pose proof (bpow_gt_0 radix2 (-53)). lra.
Qed.

(** * Problems built from variables *)
(** Variables whose generated values can be encoded and lie inside the bounds. *)
Definition gen_wf (PE : penv) (v : var) : Prop :=
  match v with
  | FloatVar lb ub => finite_range lb ub
  | IntegerVar _ _ => exists la lb, int_var la lb v /\ Forall (fun b => -1 <= b)%Z lb
  | LabelVar cat sets les ub => Forall (fun s => small (List.length s) /\ (cat = true \/ Forall (fun l => is_str l = true) s)) sets /\
       les = map (le_fit PE) sets /\ ub = map (fun s => set_ub (List.length s)) sets
  | SequenceVar sets => small (List.length sets)
  | PermutationVar set le => small (List.length set) /\ np_labels PE set = set /\ le = le_fit PE set
  | BinaryVar _ | BoolVar _ => True
  | TransferBinaryVar _ _ lb ub _ | TransferBoolVar _ _ lb ub => fisfin lb = true /\ fle (fZ 1) ub = true
  end.
Lemma gen_wf_wf PE v : gen_wf PE v -> wf_var v.
Proof.
  destruct v; simpl; auto.
  - intros [L H]. split; [exact L|]. intros i Hi. apply H; exact Hi.
  - intros (la & lb' & H & _). destruct (int_var_ends la lb' _ H) as (l & u & Ev & Ll & Lb & Hi).
    destruct (int_var_bounds la lb' _ H) as (l' & u' & Ev' & Ll' & Lu' & _). inversion Ev; inversion Ev'; subst l u l' u'.
    split; [lia|]. intros i Hlt. destruct (Hi i ltac:(lia)) as (A & Bd & _). eapply int_bounds_le; eassumption.
  - intros (H & -> & ->). split; [|split; [rewrite map_length; reflexivity|reflexivity]]. eapply Forall_impl; [|exact H]. intros s [Hs _]. exact Hs.
  - intros (H & _). exact H.
Qed.
Lemma map_res_to_float_ok {T} (f : T -> dval) (g : T -> f64) l : (forall x, In x l -> to_float (f x) = Ok (g x)) -> map_res to_float (map f l) = Ok (map g l).
Proof. apply map_res_map. Qed.
Lemma in_box_intro lb ub (x : vec) : List.length x = List.length lb ->
  (forall i, i < List.length lb -> fle (nth i lb fnan) (nth i x fnan) = true /\ fle (nth i x fnan) (nth i ub fnan) = true) -> in_box lb ub x.
Proof. intros L H. split; [exact L|exact H]. Qed.
Lemma bit_in_box b : b < 2 -> fle (fZ 0) (code b) = true /\ fle (code b) (fmul bin_ub (fZ 1)) = true.
Proof. intros H. destruct b as [|[|b]]; [split; vm_compute; reflexivity|split; vm_compute; reflexivity|lia]. Qed.
Lemma bits_in_box n bits : List.length bits = n -> Forall (fun b => b < 2) bits -> in_box (zeros n) (times_ones bin_ub n) (map code bits).
Proof.
  intros L H. unfold zeros, times_ones. apply in_box_intro; [rewrite map_length, repeat_length; exact L|].
  rewrite repeat_length. intros i Hi. rewrite !nth_repeat_lt by exact Hi. rewrite (nth_map_lt code bits 0) by lia.
  apply bit_in_box. rewrite Forall_forall in H. apply H, nth_In. lia.
Qed.
Lemma permute_length tp n l : n <= List.length l -> List.length (permute tp n l) = n.
Proof.
  revert tp l. induction n as [|n IH]; intros tp l H; simpl; [reflexivity|]. destruct l as [|d l]; [simpl in H; lia|].
  cbn [List.length]. f_equal. apply IH. set (i := tp 0 mod S (List.length l)).
  assert (Hi : i < List.length (d :: l)) by (apply Nat.mod_upper_bound; discriminate). pose proof (remove_at_length i (d :: l) Hi). simpl in *. lia.
Qed.
Lemma permute_in tp n l x : In x (permute tp n l) -> In x l.
Proof.
  revert tp l. induction n as [|n IH]; intros tp l H; simpl in H; [contradiction|]. destruct l as [|d l]; [contradiction|].
  destruct H as [<-|H].
  - apply nth_In. apply Nat.mod_upper_bound. discriminate.
  - apply IH in H. eapply Permutation_in; [apply (remove_at_perm (tp 0 mod List.length (d :: l)) (d :: l) d)|right; exact H].
    apply Nat.mod_upper_bound. discriminate.
Qed.
Lemma transfer_in_box n lb ub (bits : list Z) : fisfin lb = true -> fle (fZ 1) ub = true -> List.length bits = n ->
  Forall (fun z => z = 0 \/ z = 1)%Z bits -> in_box (times_zeros lb n) (times_ones ub n) (map fZ bits).
Proof.
  intros F U L H. destruct (bits_boxed n lb ub (map fZ bits) bits F U L H) as [L' B]. split; [exact L'|]. intros i Hi.
  destruct (B i Hi) as [Q|[Q _]]; [exact Q|]. exfalso. unfold times_zeros in Hi. rewrite repeat_length in Hi.
  rewrite (nth_map_lt fZ bits 0%Z) in Q by lia. rewrite Forall_forall in H. destruct (H (nth i bits 0%Z)) as [E|E]; [apply nth_In; lia| |]; rewrite E in Q; vm_compute in Q; discriminate.
Qed.
Theorem C28_variable_in_box : forall PE tp v, pset_ok PE -> unit_tape tp -> gen_wf PE v ->
  exists ds e, v_generate PE tp v = Ok ds /\ v_encode v ds = Ok e /\ in_box (v_lb v) (v_ub v) e.
Proof.
  intros PE tp v HP HT W. destruct v as [lb ub|lb ub|cat sets les ub|sets|set le|n|n tf lb ub az|n|n tf lb ub].
  - destruct (C28_generate_in_range PE tp lb ub HT W) as (x & G & Bx). exists (map DFlt x), x. split; [exact G|]. split; [|exact Bx].
    unfold v_encode. rewrite (map_res_map to_float DFlt (fun y => y)) by reflexivity. rewrite map_id. reflexivity.
  - destruct W as (la & lb' & H & Hb). destruct (C27_generate_in_range PE tp la lb' _ H Hb) as (ds & G & Ld & Hd).
    destruct (int_var_ends la lb' _ H) as (l & u & Ev & Ll & Lb & Hi). inversion Ev; subst l u. clear Ev.
    set (z := fun i => match nth i ds (DInt 0) with DInt k => k | _ => 0%Z end).
    assert (Ez : forall i, i < List.length la -> nth i ds (DInt 0) = DInt (z i) /\ (nth i la 0 <= z i <= nth i lb' 0)%Z).
    { intros i Hlt. destruct (Hd i Hlt) as (k & Ek & Hk). unfold z. rewrite Ek. auto. }
    exists ds, (map (fun i => fZ (z i)) (seq 0 (List.length ds))). split; [exact G|]. split.
    + unfold v_encode. apply map_res_nth with (d := DInt 0). intros i Hlt. rewrite (proj1 (Ez i ltac:(lia))). reflexivity.
    + cbn [v_lb v_ub]. apply in_box_intro; [rewrite map_length, seq_length; unfold vec in *; lia|].
      intros i Hlt. rewrite (nth_map_lt _ _ 0) by (rewrite seq_length; unfold vec in *; lia). rewrite seq_nth by (unfold vec in *; lia). rewrite Nat.add_0_l.
      destruct (Hi i ltac:(unfold vec in *; lia)) as ((A & A1 & A2) & (F1 & E1 & F2 & E2) & _). destruct (Ez i ltac:(unfold vec in *; lia)) as [_ [Z1 Z2]].
      destruct (fZ_FR (z i)) as [Fz Rz]; [lia|]. apply IZR_le in Z1, Z2.
      split; (apply fle_FR; [apply fin_notnan; assumption|apply fin_notnan; assumption|]); rewrite ?Rz, ?E1; lra.
  - destruct W as (Ws & -> & ->). rewrite Forall_forall in Ws.
    set (pk := fun i => pick (tp_i tp i) (nth i sets []) LNone).
    assert (Hpk : forall i, i < List.length sets -> In (pk i) (nth i sets [])).
    { intros i Hi. unfold pk, pick. apply nth_In. destruct (Ws _ (nth_In sets [] Hi)) as [[S1 _] _]. apply Nat.mod_upper_bound. lia. }
    set (ls := map pk (seq 0 (List.length sets))).
    assert (F2 : Forall2 (fun l s => In l s) ls sets).
    { apply Forall2_nth with (d1 := LNone) (d2 := []); [unfold ls; rewrite map_length, seq_length; reflexivity|].
      unfold ls. rewrite map_length, seq_length. intros i Hi. rewrite (nth_map_lt _ _ 0) by (rewrite seq_length; exact Hi). rewrite seq_nth by exact Hi. apply Hpk. exact Hi. }
    assert (Gen : v_generate PE tp (LabelVar cat sets (map (le_fit PE) sets) (map (fun s => set_ub (List.length s)) sets)) = Ok (map DLab ls)).
    { unfold v_generate. set (C := combine (seq 0 (List.length sets)) sets).
      assert (LC : List.length C = List.length sets) by (unfold C; rewrite combine_length, seq_length; lia).
      unfold ls. rewrite map_map. rewrite <- LC. apply map_res_nth with (d := (0, [])). intros i Hi. rewrite LC in Hi.
      unfold C. rewrite combine_nth by (rewrite seq_length; reflexivity). cbn [fst snd]. rewrite seq_nth by exact Hi. rewrite Nat.add_0_l.
      destruct (Ws _ (nth_In sets [] Hi)) as [[S1 _] Sc]. pose proof (Hpk i Hi) as Hin. fold (pk i).
      destruct (nth i sets []) as [|s0 s] eqn:Es; [simpl in S1; lia|]. unfold pk in *. rewrite Es in *. f_equal. f_equal.
      destruct cat; [reflexivity|]. destruct Sc as [Sc|Sc]; [discriminate|]. rewrite Forall_forall in Sc. specialize (Sc _ Hin).
      unfold to_str. destruct (pick _ _ _); try discriminate Sc. reflexivity. }
    (* encoding *)
    set (pos := fun i => match index_of (pk i) (le_fit PE (nth i sets [])) with Some k => k | None => 0 end).
    assert (Hpos : forall i, i < List.length sets -> index_of (pk i) (le_fit PE (nth i sets [])) = Some (pos i) /\ pos i < List.length (nth i sets [])).
    { intros i Hi. destruct (le_fit_spec PE (nth i sets []) HP) as [N M].
      destruct (index_of_in (pk i) (le_fit PE (nth i sets []))) as [k Q]; [apply M, Hpk; exact Hi|].
      unfold pos. rewrite Q. destruct (index_of_some _ _ _ Q) as [L1 _]. split; [reflexivity|].
      eapply Nat.lt_le_trans; [exact L1|]. apply NoDup_incl_length; [exact N|]. intros y. apply M. }
    exists (map DLab ls), (map (fun i => code (pos i)) (seq 0 (List.length sets))). split; [exact Gen|]. split.
    + unfold v_encode. set (C := combine (map (le_fit PE) sets) (map DLab ls)).
      assert (Lls : List.length ls = List.length sets) by (unfold ls; rewrite map_length, seq_length; reflexivity).
      assert (LC : List.length C = List.length sets) by (unfold C; rewrite combine_length, !map_length; lia).
      rewrite <- LC. apply map_res_nth with (d := ([], DLab LNone)). intros i Hi. rewrite LC in Hi.
      unfold C. rewrite combine_nth by (rewrite !map_length; lia). cbn [fst snd].
      rewrite (nth_map_lt (le_fit PE) sets []) by exact Hi. rewrite (nth_map_lt DLab ls LNone) by lia. cbv iota beta.
      assert (El : nth i ls LNone = pk i) by (unfold ls; rewrite (nth_map_lt _ _ 0) by (rewrite seq_length; exact Hi); rewrite seq_nth by exact Hi; reflexivity).
      unfold le_transform1. rewrite El, (proj1 (Hpos i Hi)). reflexivity.
    + cbn [v_lb v_ub]. unfold zeros. apply in_box_intro; [rewrite map_length, seq_length, repeat_length; reflexivity|]. rewrite repeat_length.
      intros i Hi. rewrite nth_repeat_lt by exact Hi. rewrite (nth_map_lt _ _ 0) by (rewrite seq_length; exact Hi). rewrite seq_nth by exact Hi. rewrite Nat.add_0_l.
      rewrite (nth_map_lt _ sets []) by exact Hi. apply index_in_box; [apply Ws, nth_In; exact Hi|apply Hpos; exact Hi].
  - set (l := pick (tp_i tp 0) sets []). assert (Hl : In l sets).
    { unfold l, pick. apply nth_In. destruct W as [W1 _]. apply Nat.mod_upper_bound. lia. }
    destruct (last_index_spec l sets 0 None (or_introl Hl)) as (k & Q & [[K1 K2]|K]); [|discriminate].
    exists [DSeq l], [code k]. split; [|split].
    + unfold v_generate. destruct sets as [|s0 s]; [contradiction|]. reflexivity.
    + unfold v_encode. rewrite Q. reflexivity.
    + cbn [v_lb v_ub]. apply in_box_intro; [reflexivity|]. intros [|i] Hi; [|simpl in Hi; lia]. cbn [nth]. apply index_in_box; [exact W|lia].
  - destruct W as (S & Np & ->). set (ls := permute (tp_i tp) (List.length set) set).
    assert (Ll : List.length ls = List.length set) by (apply permute_length; lia).
    assert (Hin : forall l, In l ls -> In l set) by (intros l; apply permute_in).
    set (pos := fun l => match index_of l (le_fit PE set) with Some k => k | None => 0 end).
    assert (Hpos : forall l, In l ls -> index_of l (le_fit PE set) = Some (pos l) /\ pos l < List.length set).
    { intros l Hl. destruct (le_fit_spec PE set HP) as [N M]. destruct (index_of_in l (le_fit PE set)) as [k Q]; [apply M, Hin; exact Hl|].
      unfold pos. rewrite Q. destruct (index_of_some _ _ _ Q) as [L1 _]. split; [reflexivity|].
      eapply Nat.lt_le_trans; [exact L1|]. apply NoDup_incl_length; [exact N|]. intros y. apply M. }
    exists (map DLab ls), (map (fun l => code (pos l)) ls). split; [unfold v_generate; rewrite Np; reflexivity|]. split.
    + unfold v_encode. apply (map_res_map _ DLab (fun l => code (pos l))). intros l Hl. unfold le_transform1. rewrite (proj1 (Hpos l Hl)). reflexivity.
    + cbn [v_lb v_ub]. unfold zeros, times_ones. apply in_box_intro; [rewrite map_length, repeat_length; exact Ll|]. rewrite repeat_length.
      intros i Hi. rewrite !nth_repeat_lt by exact Hi. rewrite (nth_map_lt _ ls LNone) by lia.
      assert (Hl : In (nth i ls LNone) ls) by (apply nth_In; lia). destruct (Hpos _ Hl) as [_ Hlt].
      destruct (index_in_box (List.length set) (pos (nth i ls LNone)) S Hlt) as [B1 B2]. split; [exact B1|].
      destruct (fle_true_nan _ _ B2) as [N1 N2]. destruct (fmul_1r (set_ub (List.length set)) N2) as [R1 N3].
      apply fle_FR; [exact N1|exact N3|]. rewrite R1. apply fle_FR in B2; assumption.
  - set (bits := map (fun i => tp_i tp i mod 2) (seq 0 n)).
    exists (map (fun b => DInt (Z.of_nat b)) bits), (map code bits). split; [unfold v_generate, bits; rewrite map_map; reflexivity|]. split.
    + unfold v_encode. apply (map_res_map to_float (fun b => DInt (Z.of_nat b)) code). reflexivity.
    + cbn [v_lb v_ub]. apply bits_in_box; [unfold bits; rewrite map_length, seq_length; reflexivity|].
      apply Forall_forall. intros b Hb. apply in_map_iff in Hb. destruct Hb as (i & <- & _). apply Nat.mod_upper_bound. discriminate.
  - destruct W as [F U]. destruct (C30_generate PE tp n tf lb ub az) as (bits & G & L & H01 & _).
    exists (map DInt bits), (map fZ bits). split; [exact G|]. split; [unfold v_encode; apply (map_res_map to_float DInt fZ); reflexivity|].
    cbn [v_lb v_ub]. apply transfer_in_box; assumption.
  - set (bs := map (fun i => tp_i tp i mod 2 =? 0) (seq 0 n)). set (bits := map (fun b : bool => if b then 1 else 0) bs).
    exists (map DBool bs), (map code bits). split; [unfold v_generate, bs; rewrite map_map; reflexivity|]. split.
    + unfold v_encode, bits. rewrite map_map. apply (map_res_map to_float DBool (fun b : bool => code (if b then 1 else 0))). intros [|] _; reflexivity.
    + cbn [v_lb v_ub]. apply bits_in_box; [unfold bits, bs; rewrite !map_length, seq_length; reflexivity|].
      apply Forall_forall. intros b Hb. apply in_map_iff in Hb. destruct Hb as ([|] & <- & _); lia.
  - destruct W as [F U]. set (bs := map (fun i => tp_i tp i mod 2 =? 0) (seq 0 n)). set (bits := map (fun b : bool => if b then 1%Z else 0%Z) bs).
    exists (map DBool bs), (map fZ bits). split; [unfold v_generate, bs; rewrite map_map; reflexivity|]. split.
    + unfold v_encode, bits. rewrite map_map. apply (map_res_map to_float DBool (fun b : bool => fZ (if b then 1 else 0)%Z)). intros [|] _; reflexivity.
    + cbn [v_lb v_ub]. apply transfer_in_box; auto; [unfold bits, bs; rewrite !map_length, seq_length; reflexivity|].
      apply Forall_forall. intros b Hb. apply in_map_iff in Hb. destruct Hb as ([|] & <- & _); auto.
Qed.

Lemma in_box_app lb1 ub1 x1 lb2 ub2 x2 : List.length lb1 = List.length ub1 -> in_box lb1 ub1 x1 -> in_box lb2 ub2 x2 ->
  in_box (lb1 ++ lb2) (ub1 ++ ub2) (x1 ++ x2).
Proof.
  intros L [L1 B1] [L2 B2]. split; [rewrite !app_length; unfold vec in *; lia|]. intros i Hi. rewrite app_length in Hi.
  destruct (Nat.lt_ge_cases i (List.length lb1)) as [Q|Q].
  - rewrite !app_nth1 by (unfold vec in *; lia). apply B1; exact Q.
  - rewrite !app_nth2 by (unfold vec in *; lia). rewrite L1, <- L. apply B2. unfold vec in *; lia.
Qed.
(** Problem.generate_solution: never raises and stays inside the bounds. *)
Theorem C28_solution_in_box : forall PE tps (bs : list nvar), pset_ok PE -> (forall j, unit_tape (tps j)) ->
  Forall (fun b : nvar => gen_wf PE (snd b)) bs ->
  exists x, generate_with_bounds PE tps bs = Ok x /\ in_box (vars_lb bs) (vars_ub bs) x.
Proof.
  intros PE tps bs HP HT W.
  assert (Hex : forall i, i < List.length bs -> exists ds e, (match nth_error bs i with Some b => v_generate PE (tps i) (snd b) | None => Err IndexError end) = Ok ds /\
     (match nth_error bs i with Some b => v_encode (snd b) ds | None => Err IndexError end) = Ok e /\
     (match nth_error bs i with Some b => in_box (v_lb (snd b)) (v_ub (snd b)) e | None => False end)).
  { intros i Hi. destruct (nth_error bs i) as [b|] eqn:Q; [|apply nth_error_None in Q; lia].
    rewrite Forall_forall in W. apply nth_error_In in Q. apply C28_variable_in_box; auto. }
  set (dsf := fun i => match (match nth_error bs i with Some b => v_generate PE (tps i) (snd b) | None => Err IndexError end) with Ok d => d | Err _ => [] end).
  set (ef := fun i => match (match nth_error bs i with Some b => v_encode (snd b) (dsf i) | None => Err IndexError end) with Ok d => d | Err _ => [] end).
  assert (Gen : map_res (fun i => match nth_error bs i with Some b => v_generate PE (tps i) (snd b) | None => Err IndexError end) (seq 0 (List.length bs)) = Ok (map dsf (seq 0 (List.length bs)))).
  { apply map_res_all_ok. intros i Hi. apply in_seq in Hi. destruct (Hex i ltac:(lia)) as (ds & e & Q & _). unfold dsf. rewrite Q. reflexivity. }
  assert (Enc : encode_with_bounds (map dsf (seq 0 (List.length bs))) bs = Ok (List.concat (map ef (seq 0 (List.length bs))))).
  { unfold encode_with_bounds. rewrite (map_res_all_ok _ ef); [reflexivity|]. intros i Hi. apply in_seq in Hi.
    destruct (Hex i ltac:(lia)) as (ds & e & Q1 & Q2 & _). assert (Ed : dsf i = ds) by (unfold dsf; rewrite Q1; reflexivity).
    unfold ef. rewrite Ed.
    assert (Hn : nth_error (map dsf (seq 0 (List.length bs))) i = Some ds).
    { rewrite (nth_error_nth' _ []) by (rewrite map_length, seq_length; lia). rewrite (nth_map_lt dsf _ 0) by (rewrite seq_length; lia).
      rewrite seq_nth by lia. unfold dsf. simpl. rewrite Q1. reflexivity. }
    rewrite Hn. destruct (nth_error bs i) as [b|]; [|discriminate Q2]. rewrite Q2. reflexivity. }
  exists (List.concat (map ef (seq 0 (List.length bs)))). split.
  - unfold generate_with_bounds. rewrite Gen. exact Enc.
  - assert (Box : forall i b, nth_error bs i = Some b -> in_box (v_lb (snd b)) (v_ub (snd b)) (ef i)).
    { intros i b Hb. assert (Hi : i < List.length bs) by (apply nth_error_Some; congruence).
      destruct (Hex i Hi) as (ds & e & Q1 & Q2 & Q3). unfold ef, dsf. rewrite Q1. rewrite Hb in *. rewrite Q2. exact Q3. }
    clearbody ef. clear -Box W. unfold vars_lb, vars_ub.
    assert (Gn : forall bs k, Forall (fun b : nvar => gen_wf PE (snd b)) bs -> (forall i b, nth_error bs i = Some b -> in_box (v_lb (snd b)) (v_ub (snd b)) (ef (k + i))) ->
       in_box (List.concat (map (fun b : nvar => v_lb (snd b)) bs)) (List.concat (map (fun b : nvar => v_ub (snd b)) bs)) (List.concat (map ef (seq k (List.length bs))))).
    { clear. intros bs. induction bs as [|b bs IH]; intros k W Box; simpl; [split; [reflexivity|simpl; intros; lia]|].
      inversion W as [|? ? Wb Wr]; subst. apply in_box_app.
      - rewrite v_lb_length, v_ub_length by (eapply gen_wf_wf; exact Wb). reflexivity.
      - specialize (Box 0 b eq_refl). rewrite Nat.add_0_r in Box. exact Box.
      - apply IH; [exact Wr|]. intros i c Hc. specialize (Box (S i) c Hc). replace (k + S i) with (S k + i) in Box by lia. exact Box. }
    apply (Gn bs 0 W). exact Box.
Qed.
(** The run theorems apply to every problem built from such variables. *)
Theorem C22_problem_ok : forall PE E (bs : list nvar) mm obj wts save tps, pset_ok PE -> argsort_ok (e_argsort E) ->
  (forall k j, unit_tape (tps k j)) -> Forall (fun b : nvar => gen_wf PE (snd b)) bs ->
  problem_ok (vars_problem PE E bs mm obj wts save tps) (usable bs).
Proof.
  intros PE E bs mm obj wts save tps HP HA HT W.
  assert (W' : Forall (fun b : nvar => wf_var (snd b)) bs) by (eapply Forall_impl; [|exact W]; intros b; apply gen_wf_wf).
  split.
  - intros k x Lx. change (List.length x = vars_dim bs) in Lx. simpl.
    destruct (C22_correct_nan E bs (tps k) x HA W' Lx) as [L H]. split; [exact L|].
    intros i Hi. destruct (H i Hi) as [Q|[_ Q]]; [left; exact Q|right; exact Q].
  - intros k. simpl. destruct (C28_solution_in_box PE (tps k) bs HP (HT k) W) as (x & -> & L & H). split; [exact L|]. intros i Hi. left. apply H. exact Hi.
Qed.
Example C22_problem_example : Forall (fun b : nvar => gen_wf demo_penv (snd b)) mixed.
Proof.
  assert (S : small 2) by (split; [lia|vm_compute; discriminate]).
  unfold mixed. constructor; [|constructor; [|constructor; [|constructor; [|constructor]]]]; cbn [snd gen_wf].
  - split; [reflexivity|]. intros [|[|i]] H; [repeat split; vm_compute; reflexivity|repeat split; vm_compute; reflexivity|cbn in H; lia].
  - split; [|split; reflexivity]. constructor; [split; [exact S|left; reflexivity]|constructor; [split; [exact S|left; reflexivity]|constructor]].
  - split; [exact S|]. split; reflexivity.
  - split; vm_compute; reflexivity.
Qed.

(** * C61 *)
(** Problem.set_seed gives all variables generators in the same state: with a seed, the draws do not depend on the variable. *)
Theorem C61_equal_variables_draw_equal_values : forall PE tp v (x : vec),
  generate_with_bounds PE (fun _ => tp) [("x", v); ("y", v)]%string = Ok x ->
  exists e, x = e ++ e.
Proof.
  intros PE tp v x H. unfold generate_with_bounds in H. cbn [List.length seq map_res nth_error snd] in H.
  destruct (v_generate PE tp v) as [ds|]; [|discriminate]. cbn [bind] in H. unfold encode_with_bounds in H. cbn [List.length seq map_res nth_error snd] in H.
  destruct (v_encode v ds) as [e|]; [|discriminate]. cbn [bind] in H. exists e. simpl in H. rewrite app_nil_r in H. congruence.
Qed.
Example C61_example : match generate_with_bounds demo_penv (fun _ => tp_const chalf) [("x", FloatVar [fZ 0] [fZ 9]); ("y", FloatVar [fZ 0] [fZ 9])]%string with
  | Ok [a; b] => feq a b && flt (fZ 0) a | _ => false end = true.
Proof. vm_compute. reflexivity. Qed.

Print Assumptions C27_generate_in_range.
Print Assumptions C27_generate_at_most_one_above.
Print Assumptions C27_every_value.
Print Assumptions C27_negative_refuted.
Print Assumptions C28_generate_in_range.
Print Assumptions C28_overflow_refuted.
Print Assumptions C28_variable_in_box.
Print Assumptions C28_solution_in_box.
Print Assumptions C22_problem_ok.
Print Assumptions C61_equal_variables_draw_equal_values.
