(** Theorems about the classes of MClass13 and the Fick's law class of MClass12. *)
From Coq Require Import Permutation.
From Verif Require Import Prelude Fl FlArith FlInt FlRound MCore MHelp MAlg MAlg2 MAlg3 MAlg4 MAlg5 MAlg6 MAlg7 SpecCore SpecRun PSpace PSelect PLogic PSolve PRun PPart Demo PropSelect PropHelp PropOpp SpecAlg SpecWhen PAlg PFree PClass PAlg2 PAlg3 PAlg4 PAlg5 PAlg6 PAlg7 PAlg8 PAlg9 PRef PFail PElse PAlg10 PAlg11 MClass12 MClass13.

(** ** FLA *)
Section FLA.
Variables (E : env) (P : problem) (md : MCore.mode) (feas : vec -> Prop) (IX : list vec -> unit -> Prop) (cov : Prop) (nd n0 n : nat).
Variable s0 : st unit unit.
Hypothesis HP : params E P feas (@anyatt unit) cov.
Notation R := (R P feas (@anyatt unit) (eq n) IX cov nd n0 n s0).
Notation qt := (qt P feas (@anyatt unit) (eq n) IX cov nd n0 n s0).
Notation blk := (blk P feas (@anyatt unit) (eq n) IX cov nd n0 n s0).
Notation fresh := (fresh_agent feas (@anyatt unit)).
Lemma q_unit : unit_draws E -> qt (uniform E) unit_num.
Proof.
  intros HU W l s HR. unfold uniform. apply wp_bind, wp_tick. intros k. apply wp_ret. split.
  - destruct (HU k) as [H1 H2]. split; [exact H1|apply flt_le; exact H2].
  - eapply near_bump; exact HR.
Qed.
Lemma q_fla_group (is : list Z) (cand : Z -> M unit unit vec) :
  (forall i, In i is -> qt (cand i) (fun _ => True)) -> qt (fla_group P is cand) (fun l => List.length l = List.length is /\ Forall fresh l).
Proof.
  intros Hc. unfold fla_group.
  assert (T : forall js acc, incl js is -> Forall fresh acc ->
    qt (for_list js acc (fun i acc => x <- cand i ;; a <- propose (correct_solution P) (generate_empty_agent P tt) x ;; ret (acc ++ [a])%list))
       (fun l => List.length l = List.length acc + List.length js /\ Forall fresh l)).
  { induction js as [|j js IH]; intros acc Hi Ha; cbn [for_list].
    - apply q_ret. cbn. split; [lia|exact Ha].
    - eapply q_bind with (Φ := fun l => List.length l = List.length acc + 1 /\ Forall fresh l).
      + eapply q_bind; [apply Hc, Hi; left; reflexivity|]. intros x _. eapply q_bind; [eapply q_propose with (feas := feas) (attok := @anyatt unit); [qcorrect HP|qgea]|].
        intros a Fa. apply q_ret. rewrite app_length. split; [reflexivity|]. apply Forall_app. split; [exact Ha|]. constructor; auto.
      + intros b [Lb Fb]. eapply q_mono; [apply IH; [intros z Hz; apply Hi; right; exact Hz|exact Fb]|].
        intros r [Lr Fr]. split; [cbn; lia|exact Fr]. }
  apply (T is []); [apply incl_refl|constructor].
Qed.
Lemma slice_in {T} i j (l : list T) x : In x (slice i j l) -> In x l.
Proof.
  unfold slice. intros H. rewrite <- (firstn_skipn i l). apply in_or_app. right.
  rewrite <- (firstn_skipn (j - i) (skipn i l)). apply in_or_app. left. exact H.
Qed.
Lemma zrange_length lo hi : List.length (zrange lo hi) = Z.to_nat (hi - lo).
Proof. unfold zrange. rewrite map_length, seq_length. reflexivity. Qed.
Lemma zrange_in lo hi i : In i (zrange lo hi) -> (lo <= i < hi)%Z.
Proof. unfold zrange. intros H. apply in_map_iff in H as (j & <- & H). apply in_seq in H. lia. Qed.
Lemma q_getitemZ {T} (l : list T) (i : Z) (Φ : T -> Prop) : (0 <= i < Z.of_nat (List.length l))%Z -> Forall Φ l -> qt (lift (getitemZ l i)) Φ.
Proof.
  intros H F. unfold getitemZ. rewrite (proj2 (Z.leb_le 0 i)) by lia.
  eapply q_mono; [apply q_getitem; lia|]. intros x Hx. rewrite Forall_forall in F. auto.
Qed.
Lemma q_fla_transfer lo hi dd q b b' mn mn' m m' : unit_draws E -> unit_num lo -> unit_num hi -> (Z.of_nat m <= 2 ^ 31)%Z ->
  List.length q = m ->
  qt (fla_transfer E P lo hi dd q b b' mn mn' m m') (fun l => List.length l = m + m' /\ Forall fresh l).
Proof.
  intros HU H1 H2 Hm Lq. unfold fla_transfer. eapply q_bind; [apply q_unit; exact HU|]. intros u Hu. cbv zeta.
  pose proof (mixed_count lo hi u m H1 H2 Hu Hm) as Hc. change (ftrunc _) with (fla_count lo hi m u) in Hc. set (nt := fla_count lo hi m u) in *. clearbody nt.
  assert (G : forall i, (0 <= i < Z.of_nat m)%Z -> qt (lift (getitemZ q i)) (fun _ => True)).
  { intros i Hi. apply q_getitemZ; [lia|]. apply Forall_forall. trivial. }
  eapply q_bind; [apply q_fla_group|].
  { intros i Hi. apply zrange_in in Hi. eapply q_bind; [apply G; lia|]. intros x _. quiet HP. }
  intros l1 [L1 F1]. eapply q_bind; [apply q_fla_group|].
  { intros i Hi. apply zrange_in in Hi. eapply q_bind; [apply G; lia|]. intros x _. quiet HP. }
  intros l2 [L2 F2]. eapply q_bind; [apply q_fla_group|].
  { intros i Hi. quiet HP. }
  intros l3 [L3 F3]. apply q_ret. rewrite zrange_length in *. rewrite !app_length. split; [lia|]. repeat (apply Forall_app; split); assumption.
Qed.
Lemma b_fla c1 c3 c4 dd epochs ep : unit_draws E -> unit_num c3 -> unit_num c4 -> 4 <= n -> (Z.of_nat n <= 2 ^ 31)%Z ->
  blk n n (fla_evolve E P md c1 c3 c4 dd n epochs ep) (fun _ => True).
Proof.
  intros HU H3 H4 Hn Hn'. unfold fla_evolve. cbv zeta.
  pose proof (half_count n Hn') as Hh. change (ftrunc _) with (ftrunc (fround (fdiv (fnat n) (fZ 2)))) in Hh.
  set (z := ftrunc (fround (fdiv (fnat n) (fZ 2)))) in *. clearbody z.
  assert (D : (0 < Z.of_nat n / 2 /\ Z.of_nat n / 2 + 1 < Z.of_nat n)%Z).
  { pose proof (Z.div_mod (Z.of_nat n) 2 ltac:(lia)). pose proof (Z.mod_pos_bound (Z.of_nat n) 2 ltac:(lia)). lia. }
  eapply b_qbind; [eapply q_get_pop|]. cbv beta. intros p [Lp Fp].
  set (n1 := Z.to_nat z). assert (B1 : 0 < n1 /\ n1 < n) by lia. clearbody n1. clear Hh D z.
  assert (F1 : Forall (fun a => proper a /\ feas (sol a)) (slice 0 n1 p)) by (eapply incl_Forall; [|exact Fp]; intros a Ha; eapply slice_in; exact Ha).
  assert (F2 : Forall (fun a => proper a /\ feas (sol a)) (slice n1 (List.length p) p)) by (eapply incl_Forall; [|exact Fp]; intros a Ha; eapply slice_in; exact Ha).
  assert (L1 : List.length (slice 0 n1 p) = n1) by (rewrite slice_length by lia; lia).
  assert (L2 : List.length (slice n1 (List.length p) p) = n - n1) by (rewrite slice_length by lia; lia).
  set (p1 := slice 0 n1 p) in *. set (p2 := slice n1 (List.length p) p) in *. clearbody p1 p2.
  eapply b_qbind; [apply (q_best _ _ _ _ _ _ _ _ _ _ _ HP); [exact F1|lia]|]. intros [b1 i1] [B11 _].
  eapply b_qbind; [apply (q_best _ _ _ _ _ _ _ _ _ _ _ HP); [exact F2|lia]|]. intros [b2 i2] [B22 _].
  destruct B11 as [B11 B12]; destruct B22 as [B22 B23]; cbn [fst] in *.
  eapply b_qbind; [solve [quiet HP]|]. intros f1 _. eapply b_qbind; [solve [quiet HP]|]. intros f2 _. eapply b_qbind; [solve [quiet HP]|]. intros g _. cbv zeta.
  eapply b_qbind with (Φ := fun l => List.length l = n /\ Forall fresh l).
  { destruct (flt _ _).
    - eapply q_bind; [quiet HP|]. intros t _. destruct t.
      + eapply q_mono; [apply q_fla_transfer; auto; [lia|rewrite map_length; exact L1]|]. intros l [Ll Fl]. split; [lia|exact Fl].
      + eapply q_mono; [apply q_fla_transfer; auto; [split; reflexivity|split; reflexivity|lia|rewrite map_length; exact L2]|]. intros l [Ll Fl]. split; [lia|exact Fl].
    - eapply q_bind; [apply q_fla_group|].
      { intros i Hi. apply zrange_in in Hi. eapply q_bind; [apply q_getitemZ; [lia|exact F1]|]. cbv beta. intros a [Ha Ha2]. quiet HP. }
      intros l1 [A1 A2]. eapply q_bind; [apply q_fla_group|].
      { intros i Hi. apply zrange_in in Hi. eapply q_bind; [apply q_getitemZ; [lia|exact F2]|]. cbv beta. intros a [Ha Ha2]. quiet HP. }
      intros l2 [A3 A4]. apply q_ret. rewrite zrange_length in *. rewrite app_length. split; [lia|]. apply Forall_app. split; assumption. }
  intros ts [Lt Ft] W l s HR. apply wp_bind.
  assert (T : wp (if is_avail md then update_target_for_population P md ts else collect n (fun i => a <- lift (getitem ts i) ;; evaluate P a))
     (fun new s' => List.length new = n /\ R (W ++ new) (l + n) s') s).
  { destruct (is_avail md) eqn:Hav.
    - eapply wp_update_target_avail; [exact Hav|]. intros new ->.
      destruct (R_batch E P feas (@anyatt unit) (eq n) IX cov nd n0 n s0 HP _ _ _ ts HR Ft) as [RB GB]. rewrite map_length. split; [exact Lt|]. replace (l + n) with (l + List.length ts) by lia. exact RB.
    - unfold collect. apply wp_for_acc with (I := fun k acc s' => List.length acc = k /\ R (W ++ acc) (l + k) s').
      + split; [reflexivity|]. rewrite app_nil_r, Nat.add_0_r. exact HR.
      + intros k acc s1 Hk [La R1]. apply wp_bind. apply wp_bind. destruct (getitem_lt ts k) as (a & Ea & _ & Ia); [lia|]. eapply wp_lift; [exact Ea|].
        rewrite Forall_forall in Ft. eapply wp_evaluate; [exact HP|exact R1|apply Ft; exact Ia|]. intros a' s2 Ga R2 _ _ _ _. apply wp_ret.
        rewrite app_length, La. split; [cbn; lia|]. rewrite app_assoc. replace (l + S k) with (l + k + 1) by lia. exact R2.
      + intros acc s1 [La R1]. split; [exact La|exact R1]. }
  eapply wp_mono; [exact T|]. intros new s1 [Ln R1]. cbv beta.
  assert (Es : slice 0 n new = new) by (unfold slice; rewrite Nat.sub_0_r; cbn [skipn]; apply firstn_all2; lia). rewrite Es.
  eapply wp_accept_each; [exact HP|exact R1|lia|intros; quiet HP|]. intros s2 R2. split; [exact I|]. exists n. split; [lia|exact R2].
Qed.
End FLA.
Theorem C64_OriginalFLA E P md c1 c3 c4 dd n epochs : unit_draws E -> unit_num c3 -> unit_num c4 -> 10 <= n -> (Z.of_nat n <= 10000)%Z -> 0 < epochs ->
  sound_run E P md (original_fla E P md c1 c3 c4 dd n epochs) (fun _ => True) true n n.
Proof. intros HU H3 H4 Hn Hn' He. plain. eapply b0_blk. apply b_fla; auto; lia. Qed.
(** The class's default parameters C3 = 0.1 and C4 = 0.2 (FLA.py:70-71). *)
Example FLA_case : unit_draws demo_env /\ unit_num (dec 1 10) /\ unit_num (dec 2 10).
Proof. split; [exact (proj1 C69_case)|]. split; split; vm_compute; reflexivity. Qed.

(** ** Plain classes *)
Theorem C64_OriginalSLO E P md n epochs : 5 <= n -> 0 < epochs -> sound_run E P md (original_slo E P md n epochs) (fun _ => True) true n n.
Proof. plain. counts HP. Qed.
Theorem C64_OriginalFDO E P wf n epochs : 5 <= n -> 0 < epochs ->
  sound_run E P Single (original_fdo E P wf n epochs) (fun _ => True) true n (3 * n).
Proof. plain. counts HP. Qed.

(** ** MShOA *)
Theorem C64_OriginalMShOA E P md n epochs : 5 <= n -> 0 < epochs -> sound_run E P md (original_mshoa E P md n epochs) (fun _ => True) true n n.
Proof.
  intros. apply gen_plain. state_elite (fun x : vec => List.length x = n).
  - rewrite map_length. intros. assumption.
  - counts HP.
Qed.
Theorem C64_DevMShOA E P md kv n epochs : 5 <= n -> 0 < epochs -> sound_run E P md (dev_mshoa E P md kv n epochs) (fun _ => True) true n n.
Proof.
  intros Hn He. apply gen_plain. eapply (state_elite _ _ _ _ _ _ _ _ _ _ _ _ (fun _ _ _ => True) (fun _ _ _ => True)); [lia|lia|..].
  - intros feas Hp. apply vars_none; auto.
  - intros feas nd n0 s HP HH HI. eapply main_set; [exact HP|exact HI|intros; quiet HP|]. intros x _. exists []. split; [intros ? []|exact I].
  - intros feas nd n0 ep s0 HP HH Hep. counts HP.
Qed.
(** ** GRSA *)
Theorem C65_OriginalGRSA E P md pars n epochs : 5 <= n -> 0 < epochs -> md <> Process ->
  sound_run E P md (original_grsa E P md pars n epochs) (fun _ => True) false n (2 * n).
Proof.
  intros Hn He Hmd. apply gen_plain. eapply (state_free _ _ _ _ _ _ _ _ _ _ _ _ (fun _ _ _ => True) (fun _ _ _ => True)); [lia|lia|..].
  - intros feas Hp. apply vars_none; auto.
  - intros feas nd n0 s HP HH HI. eapply main_set; [exact HP|exact HI|intros; quiet HP|]. intros x _. exists []. split; [intros ? []|exact I].
  - intros feas nd n0 ep s0 w HP HH Hep. gcounts HP.
Qed.

(** ** ILA *)
(** Every agent belongs to exactly one group. *)
Lemma flat_map_cons_length {T} (f : nat -> nat) (F G : nat -> list T) ks : (forall g, List.length (F g) = f g + List.length (G g)) ->
  List.length (flat_map F ks) = fold_right Nat.add 0 (map f ks) + List.length (flat_map G ks).
Proof. intros H. induction ks as [|g ks IH]; cbn [flat_map map fold_right]; [reflexivity|]. rewrite !app_length, IH, H. lia. Qed.
Lemma sum_one c lo k : fold_right Nat.add 0 (map (fun g => if c =? g then 1 else 0) (seq lo k)) = (if (lo <=? c) && (c <? lo + k) then 1 else 0).
Proof.
  revert lo. induction k as [|k IH]; intros lo; cbn [seq map fold_right].
  - destruct (Nat.leb_spec lo c); destruct (Nat.ltb_spec c (lo + 0)); cbn; lia.
  - rewrite IH. destruct (Nat.eqb_spec c lo); destruct (Nat.leb_spec (S lo) c); destruct (Nat.leb_spec lo c);
      destruct (Nat.ltb_spec c (S lo + k)); destruct (Nat.ltb_spec c (lo + S k)); cbn; lia.
Qed.
Lemma groups_length (f : nat -> nat) k l : (forall i, In i l -> f i < k) ->
  List.length (flat_map (fun g => filter (fun i => f i =? g) l) (seq 0 k)) = List.length l.
Proof.
  induction l as [|i l IH]; intros H.
  - induction (seq 0 k); cbn; auto.
  - rewrite (flat_map_cons_length (fun g => if f i =? g then 1 else 0) _ (fun g => filter (fun i => f i =? g) l)).
    + rewrite sum_one, IH; [|intros j Hj; apply H; right; exact Hj]. pose proof (H i (or_introl eq_refl)).
      destruct (Nat.leb_spec 0 (f i)); destruct (Nat.ltb_spec (f i) (0 + k)); cbn; lia.
    + intros g. cbn [filter]. destruct (f i =? g); cbn; lia.
Qed.
Lemma ila_groups_length cl n k : List.length cl = n -> Forall (fun c => c < k) cl -> List.length (flat_map (ila_group cl n) (seq 0 k)) = n.
Proof.
  intros Lc Fc. unfold ila_group. rewrite (groups_length (fun i => nth i cl 0)); [apply seq_length|].
  intros i Hi. apply in_seq in Hi. rewrite Forall_forall in Fc. apply Fc, nth_In. lia.
Qed.
Section ILA.
Variables (E : env) (P : problem) (feas : vec -> Prop) (cov : Prop) (nd n0 n : nat).
Notation X := (nat * list nat * list vec * vec)%type.
Definition ila_x (x : X) : Prop := List.length (snd (fst (fst x))) = n /\ Forall (fun c => c < fst (fst (fst x))) (snd (fst (fst x))).
Notation IX := (fun (_ : list vec) (x : X) => ila_x x).
Variable s0 : st unit X.
Hypothesis HP : params E P feas (@anyatt unit) cov.
Notation R := (R P feas (@anyatt unit) (eq n) IX cov nd n0 n s0).
Notation qt := (qt P feas (@anyatt unit) (eq n) IX cov nd n0 n s0).
Notation blk := (blk P feas (@anyatt unit) (eq n) IX cov nd n0 n s0).
Lemma b_ila_try i z1 z2 : i < n -> blk 2 2 (ila_try P i z1 z2) (fun _ => True).
Proof.
  intros Hi. unfold ila_try. eapply b_qbind; [quiet HP|]. intros y1 Hy1. eapply b_qbind; [quiet HP|]. intros y2 Hy2. cbv beta in *.
  intros W l s HR. apply wp_bind. eapply wp_gen_at; [exact HP|qgea|exact HR|exact Hy1|]. intros a1 s1 G1 R1 _.
  apply wp_bind. eapply wp_gen_at; [exact HP|qgea|exact R1|exact Hy2|]. intros a2 s2 G2 R2 _. rewrite <- app_assoc in R2. cbn [app] in R2.
  destruct (compare_ok E P feas (@anyatt unit) cov HP (s_log s2) a1 a2) as (c & Ec); [eapply held_good; [exact R2|left; reflexivity]|exact G2|].
  apply wp_bind. eapply wp_lift; [exact Ec|]. pose proof (R_better E P feas _ _ _ _ _ _ _ _ HP _ _ _ _ _ _ R2 Ec) as R3.
  eapply wp_compete; [exact HP|exact R3|exact Hi|]. intros old c' Eo Go Gb HT HF. replace (l + 1 + 1) with (l + 2) in * by lia.
  apply wp_when; intros ->.
  - pose proof R2 as (_ & Hn2 & _). apply wp_bind, wp_pop_set; [lia|]. specialize (HT eq_refl _ Gb eq_refl).
    match goal with |- wp ?m _ _ => assert (Q : qt m (fun _ => True)) end.
    { eapply q_bind; [apply q_get_x|]. intros [[[k cl] prev] cb] (L & Hx). apply q_set_x. exact Hx. }
    eapply wp_mono; [exact (Q _ _ _ HT)|]. intros [] s3 [_ N]. split; [exact I|]. exists 2. split; [lia|]. eapply R_near; [exact HT|exact N].
  - split; [exact I|]. exists 2. split; [lia|]. apply HF; reflexivity.
Qed.
Lemma b_ila_stage name v : blk (n * 2) (n * 2) (ila_stage E P name n v) (fun _ => True).
Proof.
  unfold ila_stage. eapply b_qbind; [apply q_get_x|]. intros [[[k cl] prev] cb] _. apply b_for. intros i Hi.
  eapply b_qbind; [quiet HP|]. intros z1 _. eapply b_qbind; [quiet HP|]. intros z2 _. apply b_ila_try; exact Hi.
Qed.
Lemma b_ila_stage1 tm ep v : 0 < n -> blk (n * 2) (n * 2) (ila_stage1 E P tm n ep v) (fun _ => True).
Proof.
  intros Hn. unfold ila_stage1. eapply b_qbind with (Φ := fun _ => True).
  { destruct (_ =? 0); cbn [when]; [|apply q_ret; exact I]. eapply q_bind; [apply q_integers; lia|]. intros k Hk. cbv beta in Hk.
    eapply q_bind; [apply q_repeat; apply q_integers; lia|]. intros cl [Lc Fc]. eapply q_bind; [apply q_get_x|].
    intros [[[k0 cl0] prev] cb] _. apply q_set_x. split; [exact Lc|]. eapply Forall_impl; [|exact Fc]. cbn. intros c; lia. }
  intros _ _. eapply b_qbind; [apply q_get_x|]. intros [[[k cl] prev] cb] (L & Lc & Fc). cbn [fst snd] in Lc, Fc.
  pose proof (ila_groups_length cl n k Lc Fc) as Lg.
  set (gs := flat_map (ila_group cl n) (seq 0 k)) in *. assert (Hg : forall i, In i gs -> i < n).
  { intros i H. apply in_flat_map in H. destruct H as (g & _ & H). apply filter_In in H. destruct H as [H _]. apply in_seq in H. lia. }
  clearbody gs. eapply b_mono with (a := List.length gs * 2) (b := List.length gs * 2); [apply b_for_list|lia|lia|auto]. intros i Hi.
  eapply b_qbind; [quiet HP|]. intros z1 _. eapply b_qbind; [quiet HP|]. intros z2 _. apply b_ila_try; auto.
Qed.
End ILA.
Theorem C64_OriginalILA E P md nm p1 p2 bmin bmax n epochs : 5 <= n -> 0 < epochs ->
  sound_run E P md (original_ila E P md nm p1 p2 bmin bmax n epochs) (fun _ => True) true (2 * n) (2 * n).
Proof.
  intros Hn He. apply gen_plain. eapply (state_elite _ _ _ _ _ _ _ _ _ _ _ _ (fun _ _ _ => True) (fun _ _ x => ila_x n x)); [lia|lia|..].
  - intros feas Hp. apply vars_none; auto.
  - intros feas nd n0 s HP HH HI. eapply main_set with (Φ := ila_x n); [exact HP|exact HI| |].
    + intros. eapply q_bind; [quiet HP|]. intros xs _. eapply q_bind; [quiet HP|]. intros g _. apply q_ret. split; cbn [fst snd].
      * apply repeat_length.
      * apply Forall_forall. intros c Hc. apply repeat_spec in Hc. lia.
    + intros x Hx. exists []. split; [intros ? []|exact Hx].
  - intros feas nd n0 ep s0 HP HH Hep. apply b0_blk. unfold ila_evolve. cbv zeta. eapply b_qbind; [quiet HP|]. intros v _.
    eapply b_mono with (a := n * 2 + 0) (b := n * 2 + 0); [|lia|lia|intros y T; exact T]. eapply b_bind with (Φ := fun _ => True).
    + destruct (ep <? _); [apply b_ila_stage1; auto; lia|]. destruct (ep <? _); apply b_ila_stage; auto.
    + intros _ _. apply b_quiet. eapply q_bind; [quiet HP|]. intros p [Lp Fp]. eapply q_bind; [eapply q_best; [exact HP|eapply Forall_impl; [|exact Fp]; intros a Ha; apply Ha|lia]|].
      intros [b i] _. eapply q_bind; [apply q_get_x|]. intros [[[k cl] prev] cb] (L & Hx). apply q_set_x. exact Hx.
Qed.

(** ** BWOA *)
Lemma firstn_in {T} k (l : list T) x : In x (firstn k l) -> In x l.
Proof. intros H. rewrite <- (firstn_skipn k l). apply in_or_app; auto. Qed.
Section BWOA.
Variables (E : env) (P : problem) (md : MCore.mode) (feas : vec -> Prop) (IX : list vec -> unit -> Prop) (cov : Prop) (nd n0 n : nat).
Variable s0 : st unit unit.
Hypothesis HP : params E P feas (@anyatt unit) cov.
Notation R := (R P feas (@anyatt unit) (eq n) IX cov nd n0 n s0).
Notation qt := (qt P feas (@anyatt unit) (eq n) IX cov nd n0 n s0).
Notation blk0 := (blk0 P feas (@anyatt unit) (eq n) IX cov nd n0 n s0).
Notation fresh := (fresh_agent feas (@anyatt unit)).
Notation good := (good P feas (@anyatt unit)).
Lemma q_bwoa_brood np pop1 : 2 <= np -> List.length pop1 = np -> Forall (fun a => proper a /\ feas (sol a)) pop1 ->
  qt (bwoa_brood E P np pop1) (fun r => In (fst r) pop1 /\ List.length (snd r) = 2 /\ Forall fresh (snd r)).
Proof.
  intros Hn Lp Fp. unfold bwoa_brood. eapply q_bind; [apply choose2_ok; rewrite seq_length; lia|]. intros [i j] [Hi Hj]. cbn [fst snd] in *.
  apply in_seq in Hi. apply in_seq in Hj.
  destruct (getitem_lt pop1 i) as (p1 & E1 & _ & I1); [lia|]. destruct (getitem_lt pop1 j) as (p2 & E2 & _ & I2); [lia|].
  eapply q_bind; [eapply q_lift with (Φ := eq p1); eauto|]. intros ? <-. eapply q_bind; [eapply q_lift with (Φ := eq p2); eauto|]. intros ? <-.
  rewrite Forall_forall in Fp. pose proof (Fp _ I1) as [F1 _]. pose proof (Fp _ I2) as [F2 _].
  destruct (get_better_agent_wf p1 p2 (p_mm P) false F1 F2 (pr_mm _ _ _ _ _ HP)) as (r & Er & Hr).
  eapply q_bind; [eapply q_lift with (Φ := eq r); eauto|]. intros ? <-.
  eapply q_bind; [quiet HP|]. intros z1 _. eapply q_bind; [quiet HP|]. intros z2 _.
  eapply q_bind; [quiet HP|]. intros c1 Hc1. eapply q_bind; [quiet HP|]. intros c2 Hc2. cbv beta in *. apply q_ret. cbn [fst snd].
  split; [destruct Hr; subst; assumption|]. split; [reflexivity|]. auto.
Qed.
Lemma q_bwoa_mutant np pop1 : 0 < np -> List.length pop1 = np -> qt (bwoa_mutant E P np pop1) fresh.
Proof. intros Hn Lp. unfold bwoa_mutant. quiet HP. Qed.
Lemma b0_bwoa pp pm ep : 2 <= n ->
  blk0 (bwoa_parents pp n * 2 + bwoa_mutants pm n) (bwoa_parents pp n * 2 + bwoa_mutants pm n) (bwoa_evolve E P md pp pm n ep) (fun _ => True).
Proof.
  intros Hn. unfold bwoa_evolve. set (np := bwoa_parents pp n). assert (Hnp : 2 <= np <= n) by (unfold np, bwoa_parents; lia).
  clearbody np. set (nm := bwoa_mutants pm n). clearbody nm. cbv zeta.
  intros W l s HR HO. pose proof HR as (V & Ln & _). apply wp_bind, wp_get_pop.
  pose proof (R_pop_all _ _ _ _ _ _ _ _ _ _ _ _ _ HR) as G.
  edestruct (sorted_cov E P feas (@anyatt unit)) as (ps & ix & Es & Hp & Gs); [exact HP|exact G|].
  apply wp_bind. eapply wp_lift; [exact Es|]. cbv beta iota. assert (Ls : List.length ps = n) by (rewrite (Permutation_length Hp); exact Ln).
  set (pop1 := firstn np ps) in |- *. assert (L1 : List.length pop1 = np) by (unfold pop1; rewrite firstn_length; lia).
  assert (I1 : incl pop1 (s_pop s)) by (intros a Ha; eapply Permutation_in; [exact Hp|]; eapply firstn_in; exact Ha).
  assert (F1 : Forall (fun a => proper a /\ feas (sol a)) pop1).
  { rewrite Forall_forall in G. apply Forall_forall. intros a Ha. apply I1 in Ha. split; [eapply good_wf, G, Ha|apply (g_feas _ _ _ _ _ (G a Ha))]. }
  clearbody pop1.
  apply wp_bind. apply wp_for_acc with (I := fun k acc s' => R (W ++ acc) (l + k * 2) s' /\ s_pop s' = s_pop s).
  { split; [|reflexivity]. rewrite app_nil_r, Nat.add_0_r. exact HR. }
  { intros k acc s1 Hk [R1 Ep1]. apply wp_bind. eapply wp_mono; [exact (q_bwoa_brood np pop1 (proj1 Hnp) L1 F1 _ _ _ R1)|].
    intros [female brood] s2 [(Hf & Lb & Fb) N2]. cbn [fst snd] in *. pose proof (R_near _ _ _ _ _ _ _ _ _ _ _ _ _ _ R1 N2) as R2.
    apply wp_bind. eapply wp_evaluate_all; [exact HP|exact R2|exact Fb|]. intros new s3 Lnew R3 Ep3. rewrite Lb in *.
    apply wp_bind. eapply wp_mono; [eapply q_integers; [|exact R3]; lia|]. intros kk s4 [_ N4]. pose proof (R_near _ _ _ _ _ _ _ _ _ _ _ _ _ _ R3 N4) as R4.
    pose proof (R_held_good _ _ _ _ _ _ _ _ _ _ _ _ _ _ R4) as G4.
    edestruct (good_best E P feas (@anyatt unit)) as (cs & ix' & Ec & Hpc & HB); [exact HP|exact G4|].
    apply wp_bind. eapply wp_lift; [exact Ec|]. apply wp_ret. split.
    - replace (l + S k * 2) with (l + k * 2 + 2) by lia. rewrite <- app_assoc in R4.
      pose proof (R_pop_all _ _ _ _ _ _ _ _ _ _ _ _ _ R4) as GP4. pose proof (R_held_good _ _ _ _ _ _ _ _ _ _ _ _ _ _ R4) as GA. apply Forall_app in GA. destruct GA as [GA _].
      assert (Ep4 : s_pop s4 = s_pop s). { rewrite (near_pop _ _ _ N4), Ep3, (near_pop _ _ _ N2). exact Ep1. }
      assert (Gc : Forall (good (s_log s4)) cs). { rewrite Forall_forall in *. intros a Ha. apply G4. eapply Permutation_in; eauto. }
      eapply R_swap; [exact HP|exact R4| |].
      + apply Forall_app. split; [exact GA|]. apply Forall_cons.
        * rewrite Forall_forall in GP4. apply GP4. rewrite Ep4. apply I1, Hf.
        * rewrite Forall_forall in *. intros a Ha. apply Gc. eapply firstn_in; exact Ha.
      + intros C a Ha. apply in_app_or in Ha. destruct Ha as [Ha|Ha].
        * exists a. split; [apply in_or_app; auto|]. rewrite Forall_forall in GA. eapply same_covers; [exact HP|exact C|apply GA; exact Ha].
        * destruct cs as [|b cs]; [apply Permutation_nil in Hpc; subst new; destruct Ha|]. exists b. split.
          { apply in_or_app. right. right. destruct (Nat.max 1 kk) eqn:Em; [lia|]. left; reflexivity. }
          apply (HB C b a); [reflexivity|exact Ha].
    - rewrite (near_pop _ _ _ N4), Ep3, (near_pop _ _ _ N2). exact Ep1. }
  intros pop2 s1 [R1 Ep1]. rewrite Nat.add_0_l in R1. apply wp_bind.
  eapply wp_mono; [eapply q_collect; [|exact R1]; intros i Hi; apply q_bwoa_mutant; [lia|exact L1]|].
  intros ts s2 [[Lt Ft] N2]. pose proof (R_near _ _ _ _ _ _ _ _ _ _ _ _ _ _ R1 N2) as R2.
  apply wp_bind. eapply wp_evaluate_all; [exact HP|exact R2|exact Ft|]. intros pop3 s3 L3 R3 Ep3. rewrite Lt in *. rewrite <- app_assoc in R3.
  set (new := pop2 ++ pop3) in *. pose proof (R_held_good _ _ _ _ _ _ _ _ _ _ _ _ _ _ R3) as G3.
  assert (Ep : s_pop s3 = s_pop s). { rewrite Ep3, (near_pop _ _ _ N2). exact Ep1. }
  pose proof (R_pop_all _ _ _ _ _ _ _ _ _ _ _ _ _ R3) as GP3. rewrite Ep in GP3.
  set (fill := firstn (n - List.length new) ps). assert (Gf : Forall (good (s_log s3)) (new ++ fill)).
  { apply Forall_app. split; [exact G3|]. rewrite Forall_forall in *. intros a Ha. apply GP3. eapply Permutation_in; [exact Hp|]. eapply firstn_in; exact Ha. }
  edestruct (trimmed_cov E P feas (@anyatt unit) cov HP (s_log s3) (new ++ fill) n Gf) as (q & Eq & Lq & Gq & Cq).
  { rewrite app_length. unfold fill. rewrite firstn_length. lia. }
  apply wp_bind. eapply wp_lift; [exact Eq|]. unfold wp, set_pop. split; [exact I|]. exists (np * 2 + nm). split; [lia|].
  rewrite Nat.add_assoc. eapply R_replace_cov; [exact HP|exact R3| |exact Lq|exact Gq|].
  - unfold Old. rewrite Ep. exact HO.
  - eapply covers_trans; [exact Cq|]. eapply covers_incl; [exact HP|exact G3|]. intros a Ha. apply in_or_app; auto.
Qed.
End BWOA.
Theorem C64_OriginalBWOA E P md pp pm n epochs : 5 <= n -> 0 < epochs ->
  sound_run E P md (original_bwoa E P md pp pm n epochs) (fun _ => True) true
    (bwoa_parents pp n * 2 + bwoa_mutants pm n) (bwoa_parents pp n * 2 + bwoa_mutants pm n).
Proof. plain. apply b0_bwoa; auto. lia. Qed.

(** ** CCO: the best agent is kept when the problem is a minimization. *)
Lemma b_cco_try E P feas (IX : list vec -> vec -> Prop) (cov : Prop) nd n0 n s0 (HP : params E P feas (@anyatt unit) cov) i q z :
  p_mm P = Min -> i < n -> blk P feas (@anyatt unit) (eq n) IX cov nd n0 n s0 1 1 (cco_try E P i q z) (fun _ => True).
Proof.
  intros Hmm Hi W l s HR. unfold cco_try. apply wp_bind. eapply wp_gen_agent; [exact HP|qcorrect HP|qgea|exact HR|]. intros a s1 Ga R1 _.
  rewrite <- Hmm. eapply wp_compete; [exact HP|exact R1|exact Hi|]. intros old c Eo Go _ HT HF. apply wp_when; intros ->.
  2:{ split; [exact I|]. exists 1. split; [lia|]. apply HF; reflexivity. }
  pose proof R1 as (_ & Hn & _). specialize (HT eq_refl a Ga eq_refl). apply wp_bind, wp_pop_set; [lia|].
  apply wp_when; intros ->; [|split; [exact I|]; exists 1; split; [lia|exact HT]].
  apply wp_bind, wp_get_pop. set (p := s_pop (with_pop s1 (upd (s_pop s1) i a))) in *.
  assert (Ia : In a p). { apply nth_error_In with (n := i). unfold p. cbn [s_pop with_pop]. apply upd_nth_eq. lia. }
  pose proof (R_pop_all _ _ _ _ _ _ _ _ _ _ _ _ _ HT) as G. fold p in G.
  destruct (C12_worst_agent (e_argsort E) (pr_argsort _ _ _ _ _ HP) p (p_mm P) (pr_mm _ _ _ _ _ HP)) as (w & j & Ew & Ej & Hw).
  { eapply Forall_impl; [|exact G]. intros b. apply good_wf. }
  { intros E0. rewrite E0 in Ia. destruct Ia. }
  apply wp_bind. eapply wp_lift; [exact Ew|]. cbv beta iota. pose proof HT as (_ & Hn2 & _). change (s_pop _) with p in Hn2.
  assert (Hj : j < n). { rewrite <- Hn2. apply nth_error_Some. congruence. }
  apply wp_pop_set; [exact (eq_ind_r (fun k => j < k) Hj Hn2)|]. split; [exact I|]. exists 1. split; [lia|].
  eapply R_same; [exact HP|exact HT|exact Hj|exact Ga|]. intros C b Eb. assert (Eb' : Some w = Some b) by (rewrite <- Ej; exact Eb). injection Eb' as <-.
  specialize (Hw a Ia). pose proof (good_num _ _ _ _ _ (pr_cov _ _ _ _ _ HP C) Ga) as Na.
  rewrite Forall_forall in G. pose proof (good_num _ _ _ _ _ (pr_cov _ _ _ _ _ HP C) (G _ (nth_error_In _ _ Ej))) as Nw.
  destruct Hw as [Hw _]. specialize (Hw Na Nw). rewrite Hmm in *. exact Hw.
Qed.
Theorem C65_OriginalCCO E P pars n epochs : 10 <= n -> 0 < epochs -> sound_run E P Single (original_cco E P pars n epochs) (fun _ => True) false n n.
Proof.
  intros Hn He. apply gen_plain. eapply (state_free _ _ _ _ _ _ _ _ _ _ _ _ (fun _ _ _ => True) (fun _ _ _ => True)); [lia|lia|..].
  - intros feas Hp. apply vars_none; auto.
  - intros feas nd n0 s HP HH HI. eapply main_set; [exact HP|exact HI|intros; quiet HP|]. intros x _. exists []. split; [intros ? []|exact I].
  - intros feas nd n0 ep s0 w HP HH Hep. unfold cco_evolve, cco_try. gcounts HP.
Qed.
Theorem C64_OriginalCCO_minimization E P pars n epochs : p_mm P = Min -> 10 <= n -> 0 < epochs ->
  sound_run E P Single (original_cco E P pars n epochs) (fun _ => True) true n n.
Proof.
  intros Hm Hn He. apply gen_plain. eapply (state_elite _ _ _ _ _ _ _ _ _ _ _ _ (fun _ _ _ => True) (fun _ _ x => True)); [lia|lia|..].
  - intros feas Hp. apply vars_none; auto.
  - intros feas nd n0 s HP HH HI. eapply main_set; [exact HP|exact HI|intros; quiet HP|]. intros x _. exists []. split; [intros ? []|exact I].
  - intros feas nd n0 ep s0 HP HH Hep. apply b0_blk. unfold cco_evolve.
    eapply b_mono with (a := n * (1 + 0)) (b := n * (1 + 0)); [|lia|lia|intros y T; exact T]. eapply b_for. intros i Hi.
    eapply b_qbind; [eapply q_get_pop|]. cbv beta. intros p [Lp Fp]. eapply b_qbind; [eapply q_specials; [exact HP|exact Fp]|].
    intros r (sp & b & w & -> & Ls & Fs & Lb & Fb & Lw & Fw).
    destruct (getitem_lt b 0) as (b0 & Eb & _ & _); [lia|]. destruct (getitem_lt w 0) as (w0 & Ew & _ & _); [lia|].
    eapply b_qbind; [eapply q_lift with (Φ := eq b0); eauto|]. intros ? <-. eapply b_qbind; [eapply q_lift with (Φ := eq w0); eauto|]. intros ? <-.
    eapply b_qbind; [quiet HP|]. intros g _. eapply b_qbind; [quiet HP|]. intros v _. eapply b_qbind; [quiet HP|]. intros x _.
    cbv zeta. eapply b_qbind; [quiet HP|]. intros q _. eapply b_qbind; [quiet HP|]. intros z _.
    eapply b_bind; [apply b_cco_try; [exact HP|exact Hm|exact Hi]|]. intros _ _. apply b_quiet. quiet HP.
Qed.

Print Assumptions C64_OriginalFLA.
Print Assumptions C64_OriginalSLO.
Print Assumptions C64_OriginalFDO.
Print Assumptions C64_OriginalMShOA.
Print Assumptions C64_DevMShOA.
Print Assumptions C65_OriginalGRSA.
Print Assumptions C64_OriginalILA.
Print Assumptions C64_OriginalBWOA.
Print Assumptions C65_OriginalCCO.
Print Assumptions C64_OriginalCCO_minimization.
