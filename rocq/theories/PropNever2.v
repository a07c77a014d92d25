(** C68, continued: more settings with which solve never returns. *)
From Verif Require Import Prelude Fl MCore MHelp MAlg MAlg2 MAlg3 MAlg4 MAlg5 MAlg6 MAlg7 MClass16 MClass17 MClass18 MClass19 PLogic PPart PropGA PropNever.

(** ** The fruit-fly classes with a negative upper bound, which they use as the scale of a normal distribution (FOA.py:77, 142) *)
Lemma st_normal_bounds E P : existsb bad_scale (p_ub P) = true -> stops (normal_bounds E P).
Proof. intros H. unfold normal_bounds. rewrite H. apply st_raise. Qed.
Lemma st_foa_batch E P md n cand : 0 < n -> stops (cand 0) -> stops (foa_batch E P md n cand).
Proof. intros Hn H. unfold foa_batch. apply st_first, st_for_acc; [exact Hn|]. intros b. apply st_first, H. Qed.
Theorem C68_OriginalFOA E P md n epochs term start s : existsb bad_scale (p_ub P) = true -> 0 < n -> 0 < epochs ->
  never (solve E P md (original_foa E P md n epochs) term start s).
Proof.
  intros Hb Hn He. apply st_solve. right. split; [exact He|]. intros ep. cbn [al_evolve original_foa agent_algo].
  unfold foa_evolve. apply st_foa_batch; [exact Hn|]. apply st_bind; intros x. apply st_bind; intros r. apply st_first, st_normal_bounds, Hb.
Qed.
Theorem C68_DevFOA E P md n epochs term start s : existsb bad_scale (p_ub P) = true -> 0 < n -> 0 < epochs ->
  never (solve E P md (dev_foa E P md n epochs) term start s).
Proof.
  intros Hb Hn He. apply st_solve. right. split; [exact He|]. intros ep. cbn [al_evolve dev_foa agent_algo].
  unfold dev_foa_evolve. apply st_foa_batch; [exact Hn|]. apply st_bind; intros x. apply st_first, st_normal_bounds, Hb.
Qed.
Example C68_FOA_example : existsb bad_scale [fZ 3; fZ (-1)] = true /\ existsb bad_scale [fZ 3; fZ 1] = false.
Proof. split; vm_compute; reflexivity. Qed.

(** ** The electromagnetic field classes when one of the three ranges of indexes is empty (EFO.py:90-92, 191-193) *)
Theorem C68_DevEFO E P md rr ps pf nf n epochs term start s : 0 < n -> 0 < epochs ->
  efo_top n pf = 0 \/ n <= efo_bottom n nf \/ efo_bottom n nf <= efo_middle n pf ->
  never (solve E P md (dev_efo E P md rr ps pf nf n epochs) term start s).
Proof.
  intros Hn He Hb. apply st_solve. right. split; [exact He|]. intros ep. cbn [al_evolve dev_efo plain_algo].
  unfold dev_efo_evolve, greedy_each, greedy_loop. apply st_first, st_for_acc; [exact Hn|]. intros b. do 2 apply st_first.
  destruct Hb as [Hb|[Hb|Hb]].
  - apply st_first, st_integers. lia.
  - apply st_bind; intros i1. apply st_first, st_integers. exact Hb.
  - apply st_bind; intros i1. apply st_bind; intros i2. apply st_first, st_integers. exact Hb.
Qed.
Theorem C68_OriginalEFO E P md rr ps pf nf n epochs term start s : 0 < n_dims P -> 0 < epochs ->
  efo_top n pf = 0 \/ n <= efo_bottom n nf \/ efo_bottom n nf <= efo_middle n pf ->
  never (solve E P md (original_efo E P md rr ps pf nf n epochs) term start s).
Proof.
  intros Hn He Hb. apply st_solve. right. split; [exact He|]. intros ep. cbn [al_evolve original_efo plain_algo].
  unfold efo_evolve, dims. apply st_bind; intros r. apply st_first, st_for_acc; [exact Hn|]. intros b. apply st_first.
  destruct Hb as [Hb|[Hb|Hb]].
  - apply st_first, st_integers. lia.
  - apply st_bind; intros i1. apply st_first, st_integers. exact Hb.
  - apply st_bind; intros i1. apply st_bind; intros i2. apply st_first, st_integers. exact Hb.
Qed.
(** The default p_field is 0.1, so that nine agents are too few and ten are enough. *)
Example C68_EFO_default : efo_top 9 (dec 1 10) = 0 /\ efo_top 10 (dec 1 10) = 1 /\
  efo_middle 10 (dec 1 10) < efo_bottom 10 (dec 45 100) /\ efo_bottom 10 (dec 45 100) < 10.
Proof.
  assert (T1 : efo_top 9 (dec 1 10) = 0) by (vm_compute; reflexivity). assert (T2 : efo_top 10 (dec 1 10) = 1) by (vm_compute; reflexivity).
  assert (T3 : efo_middle 10 (dec 1 10) = 2) by (vm_compute; reflexivity). assert (T4 : efo_bottom 10 (dec 45 100) = 5) by (vm_compute; reflexivity).
  rewrite T1, T2, T3, T4. lia.
Qed.

(** ** OriginalCOA with packs of two coyotes: two distinct others of one are drawn (COA.py:101) *)
Theorem C68_OriginalCOA E P md n epochs term start s : 2 <= n -> 0 < epochs ->
  never (solve E P md (original_coa E P md 2 n epochs) term start s).
Proof.
  intros Hn He. apply st_solve. right. split; [exact He|]. intros ep. cbn [al_evolve original_coa agent_algo].
  unfold coa_evolve, coa_next. apply st_first. apply st_bind; intros p. apply st_first, st_for_acc; [apply Nat.div_le_lower_bound; lia|].
  intros b. apply st_first. unfold coa_pack. apply st_bind; intros [g ix]. apply st_first. unfold made_agents. apply st_first, st_for_acc; [lia|].
  intros b'. do 2 apply st_first. unfold choose2. apply st_first, st_choice. cbn. lia.
Qed.

(** ** OriginalSFO without a termination condition, when the attack power of the last epoch asks for more variables than there are (SFO.py:107-117) *)
Lemma pc_repeat_M {A X T} (m : M A X T) (Q : T -> Prop) k s : (forall s, pc m (fun y _ => Q y) s) -> pc (repeat_M k m) (fun l _ => List.length l = k /\ Forall Q l) s.
Proof.
  intros H. unfold repeat_M. enough (HT : forall i (l : list T) s, Forall Q l ->
    pc (for_acc k i l (fun _ acc => a <- m ;; ret (acc ++ [a]))) (fun r _ => List.length r = List.length l + k /\ Forall Q r) s) by (apply (HT 0 [] s); constructor).
  clear s. induction k as [|k IH]; intros i l s Hl; cbn [for_acc]; [apply pc_ret; split; [lia|exact Hl]|].
  apply pc_bind. apply pc_bind. eapply pc_mono; [apply H|]. intros y s2 Hy. apply pc_ret.
  eapply pc_mono; [apply IH; apply Forall_app; auto|]. intros r s3 [Hr Fr]. rewrite app_length in Hr. cbn [List.length] in Hr. split; [lia|exact Fr].
Qed.
Theorem C68_OriginalSFO E P md ap eps k n epochs starting s : 0 < epochs ->
  flt (sfo_power ap eps epochs) (dec 1 2) = true -> 0 < part k (fabs (sfo_power ap eps epochs)) ->
  n_dims P < part (n_dims P) (fabs (sfo_power ap eps epochs)) ->
  never (solve E P md (original_sfo E P md ap eps k n epochs) None starting s).
Proof.
  intros He H1 H2 H3. apply st_solve_last; [exact He|]. cbn [original_sfo with_init agent_algo al_evolve al_epoch]. unfold sfo_evolve, sfo_phases.
  apply st_bind; intros _. apply st_first. unfold sfo_sardines. apply st_bind; intros sb. apply st_bind; intros sp. rewrite H1.
  intros s1. apply pc_bind. eapply pc_mono; [apply pc_repeat_M; intros s2; apply pc_integers|]. intros l s2 [Hl Hf]. cbv beta in *.
  destruct l as [|j l]; [cbn [List.length] in Hl; lia|]. inversion Hf; subst.
  match goal with |- pc ?m _ _ => assert (T : stops m) end; [|apply T]. apply st_for_reach with (j := j); [|lia]. intros b.
  cbn [existsb]. rewrite Nat.eqb_refl. cbn [orb]. apply st_bind; intros a. apply st_first. apply st_choice. rewrite seq_length. exact H3.
Qed.
(** The default settings (10000 epochs, AP 4, epsilon 0.0001), on thirty variables with the 1000 sardines of a population of 100. *)
Example C68_OriginalSFO_default : let p := sfo_power (fZ 4) (dec 1 10000) 10000 in
  flt p (dec 1 2) = true /\ 0 < part 1000 (fabs p) /\ 30 < part 30 (fabs p).
Proof.
  cbv zeta. assert (T : (flt (sfo_power (fZ 4) (dec 1 10000) 10000) (dec 1 2) && (0 <? part 1000 (fabs (sfo_power (fZ 4) (dec 1 10000) 10000))) &&
    (30 <? part 30 (fabs (sfo_power (fZ 4) (dec 1 10000) 10000))))%bool = true) by (vm_compute; reflexivity).
  apply andb_prop in T. destruct T as [T T3]. apply andb_prop in T. destruct T as [T1 T2]. apply Nat.ltb_lt in T2. apply Nat.ltb_lt in T3. auto.
Qed.

(** ** OriginalMA with an odd number of agents: the last one reads the slot after the end of the list of parents (MA.py:179) *)
Lemma pc_collect_length {A X T} (c : nat -> M A X T) k s : pc (collect k c) (fun l _ => List.length l = k) s.
Proof.
  unfold collect. enough (HT : forall i (l : list T) s,
    pc (for_acc k i l (fun idx acc => x <- c idx ;; ret (acc ++ [x]))) (fun r _ => List.length r = List.length l + k) s) by apply (HT 0 []).
  clear s. induction k as [|k IH]; intros i l s; cbn [for_acc]; [apply pc_ret; lia|].
  apply pc_bind. apply pc_skip. intros y s2. apply pc_ret.
  eapply pc_mono; [apply IH|]. intros r s3 Hr. cbv beta in Hr. rewrite app_length in Hr. cbn [List.length] in Hr. lia.
Qed.
Theorem C68_OriginalMA E P md pc p_local bits gens n epochs term start s : Nat.odd n = true -> 0 < epochs ->
  never (solve E P md (original_ma E P md pc p_local bits gens n epochs) term start s).
Proof.
  intros Ho He. apply st_solve. right. split; [exact He|]. intros ep. cbn [al_evolve original_ma agent_algo].
  unfold ma_evolve, replace_made, made_agents. intros s1. apply pc_bind. eapply pc_mono; [apply pc_collect_length|].
  intros ch s2 Lc. cbv beta in Lc. revert s2. do 3 apply st_first.
  assert (Hn : 0 < n) by (destruct n; [discriminate|lia]).
  assert (Hv : Nat.even (n - 1) = true) by (destruct n as [|m]; [lia|]; rewrite Nat.odd_succ in Ho; cbn [Nat.sub]; rewrite Nat.sub_0_r; exact Ho).
  apply st_for_reach with (j := n - 1); [|lia]. intros b. apply st_first. apply st_bind; intros dad. apply st_first.
  unfold ma_other. rewrite Hv. apply st_first, st_lift. exists IndexError. unfold getitem. rewrite (proj2 (nth_error_None _ _)); [reflexivity|lia].
Qed.

(** ** OriginalEHO when the clans do not have the same number of agents: the groups are then too few (EHO.py:91-99) *)
Theorem C68_OriginalEHO E P md alpha beta k n epochs term start s : 0 < k <= n -> k * (n / k) <> n -> 0 < epochs ->
  never (solve E P md (original_eho E P md alpha beta k n epochs) term start s).
Proof.
  intros Hk Hd He. apply st_solve. right. split; [exact He|]. intros ep. cbn [al_evolve original_eho plain_algo].
  pose proof (Nat.mul_div_le n k ltac:(lia)) as H1. assert (H2 : 0 < n / k) by (apply Nat.div_str_pos; lia).
  unfold eho_evolve. apply st_bind; intros p. apply st_first. unfold greedy_each, greedy_loop. apply st_first, st_for_reach with (j := k * (n / k)); [|lia].
  intros b. do 3 apply st_first. apply st_lift. exists IndexError. unfold eho_groups, getitem.
  rewrite Nat.div_mul by lia. rewrite (proj2 (nth_error_None _ _)); [reflexivity|]. rewrite map_length, seq_length. lia.
Qed.
Example C68_OriginalEHO_example : 5 * (32 / 5) <> 32 /\ 5 * (30 / 5) = 30 /\ 2 <= 30 / 5.
Proof. vm_compute. repeat split; try discriminate; repeat constructor. Qed.

Print Assumptions C68_OriginalFOA.
Print Assumptions C68_DevFOA.
Print Assumptions C68_DevEFO.
Print Assumptions C68_OriginalEFO.
Print Assumptions C68_OriginalCOA.
Print Assumptions C68_OriginalSFO.
Print Assumptions C68_OriginalMA.
Print Assumptions C68_OriginalEHO.
