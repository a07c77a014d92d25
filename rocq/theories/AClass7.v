(** C64, C65 for the classes of MClass7.v. *)
From Verif Require Import Prelude Fl MCore MHelp MAlg MAlg2 MAlg3 MAlg4 MClass7 SpecCore SpecRun PSelect PLogic PSolve PRun SpecAlg PAlg PFree PClass PAlg2 PAlg3 PAlg4 PAlg5 Demo.

Theorem C64_OriginalBBO E P md p_m n_elites n epochs : 5 <= n -> 0 < epochs ->
  sound_run E P md (original_bbo E P md p_m n_elites n epochs) (fun _ => True) true n n.
Proof. plain. counts HP. Qed.
Theorem C64_DevBBO E P md p_m n_elites n epochs : 5 <= n -> 0 < epochs ->
  sound_run_gen E P md (dev_bbo E P md p_m n_elites n epochs) (fun _ => True) (wheel_ok E P n) (fun _ => True) (eq n) true n n n n.
Proof. intros. state_elite (fun _ : unit => True). counts HP. Qed.
Theorem C64_DevJA E P md n epochs : 5 <= n -> 0 < epochs ->
  sound_run E P md (dev_ja E P md n epochs) (fun _ => True) true n n.
Proof. plain. counts HP. Qed.
Theorem C64_OriginalJA E P md n epochs : 5 <= n -> 0 < epochs ->
  sound_run E P md (original_ja E P md n epochs) (fun _ => True) true n n.
Proof. plain. counts HP. Qed.
Theorem C64_LevyJA E P md n epochs : 5 <= n -> 0 < epochs ->
  sound_run E P md (levy_ja E P md n epochs) (fun _ => True) true n n.
Proof. plain. counts HP. Qed.
(** Not elitist: of the two dives the second one, when better, is dropped if the first improves the hawk. *)
Theorem C65_OriginalHHO E P md n epochs : 5 <= n -> 0 < epochs ->
  sound_run E P md (original_hho E P md n epochs) (fun _ => True) false n (3 * n).
Proof.
  plainfree. unfold hho_evolve.
  eapply g_mono with (a := n * 0 + (n + 0)) (b := n * 2 + (n + 0)); [|lia|lia|trivial].
  eapply g_bind.
  - eapply g_collect_pend. intros i w' Hi Hk. unfold hho_hawk. gmove Hi.
    eapply g_mono with (Φ := pend feas anyatt); [free HP|cbn; lia|cbn; lia|intros; assumption].
    all: eapply ok_pend; [exact HP|eassumption].
  - gintros HP. free HP.
Qed.
Theorem C64_OriginalEVO E P md n epochs : 5 <= n -> 0 < epochs ->
  sound_run E P md (original_evo E P md n epochs) (fun _ => True) true n (2 * n).
Proof.
  plain. eapply b0_mono; [|shelve|shelve|intros y T; exact T]. eapply b0_blk. unfold evo_evolve.
  eapply b_trim_many with (lo := 1) (hi := 2); [exact HP|lia|lia|]. intros i Hi. quiet HP.
  all: split; [cbn; lia|repeat (apply Forall_cons; [assumption|]); apply Forall_nil].
  Unshelve. all: lia.
Qed.
Theorem C64_DevMVO E P md wep_min wep_max n epochs : 5 <= n -> 0 < epochs ->
  sound_run_gen E P md (dev_mvo E P md wep_min wep_max n epochs) (fun _ => True) (wheel_ok E P n) (fun _ => True) (eq n) true n n n n.
Proof. intros. state_elite (fun _ : unit => True). counts HP. Qed.
Theorem C64_OriginalMVO E P md wep_min wep_max n epochs : 5 <= n -> 0 < epochs ->
  sound_run E P md (original_mvo E P md wep_min wep_max n epochs) (fun _ => True) true n n.
Proof. plain. counts HP. Qed.
Lemma g_eo_pool E P feas IL IX C nd n0 n s0 w : params E P feas (@anyatt unit) (false = true /\ C) -> 5 <= n ->
  gt P feas anyatt IL IX (false = true /\ C) nd n0 n s0 w 1 1 (eo_pool E P) (fun w' r => List.length r = 5 /\ Forall (ok P feas anyatt w') r).
Proof.
  intros HP Hn. unfold eo_pool. eapply g_qbind; [gquiet HP|]. intros p H. cbv beta in H. qfacts.
  eapply g_qbind; [gquiet HP|]. intros y H1. cbv beta in H1. qfacts. subst y. cbv beta iota.
  change 1 with (1 + 0). eapply g_bind; [free HP|]. gintros HP. apply g_ret.
  split; [rewrite app_length; simpl; lia|gside HP].
Qed.
Ltac eo_start ev := unfold ev; eapply g_bind; [eapply g_eo_pool; [match goal with H : params _ _ _ _ _ |- _ => exact H end|lia]|];
  match goal with HP : params _ _ _ _ _ |- _ => gintros HP end.
(** Not elitist: the mean of the equilibrium pool is evaluated and forgotten. *)
Theorem C65_OriginalEO E P md n epochs : 5 <= n -> 0 < epochs ->
  sound_run E P md (original_eo E P md n epochs) (fun _ => True) false (1 + n) (1 + n).
Proof. plainfree. eo_start eo_evolve. gcounts HP. Qed.
Theorem C65_AdaptiveEO E P md n epochs : 5 <= n -> 0 < epochs ->
  sound_run E P md (adaptive_eo E P md n epochs) (fun _ => True) false (1 + n) (1 + n).
Proof. plainfree. eo_start adaptive_eo_evolve. gcounts HP. Qed.
Theorem C65_ModifiedEO E P md n epochs : 5 <= n -> 0 < epochs ->
  sound_run E P md (modified_eo E P md n epochs) (fun _ => True) false (1 + (n + 2 * (n / 3))) (1 + (n + 2 * (n / 3))).
Proof.
  plainfree. assert (Hk : 3 * (n / 3) <= n < 3 * (n / 3) + 3) by (pose proof (Nat.div_mod n 3); pose proof (Nat.mod_upper_bound n 3); lia).
  eo_start modified_eo_evolve. set (k := n / 3) in *. clearbody k. gcounts HP.
  - destruct H16. split; [congruence|assumption].
  - assert (Forall (ok P feas anyatt w3) y7) by (eapply incl_Forall; eassumption).
    eapply gq_set_pop; [noc|rewrite app_length, H24, H21; rewrite !app_length in *; lia|gside HP].
Qed.
Theorem C64_OriginalAEO E P md n epochs : 5 <= n -> 0 < epochs ->
  sound_run E P md (original_aeo E P md n epochs) (fun _ => True) true (2 * n) (2 * n).
Proof. plain. unfold aeo_evolve, aeo_step. counts HP. Qed.
Theorem C64_ImprovedAEO E P md n epochs : 5 <= n -> 0 < epochs ->
  sound_run E P md (improved_aeo E P md n epochs) (fun _ => True) true (2 * n) (2 * n).
Proof. plain. unfold improved_aeo_evolve, aeo_step. counts HP. Qed.
Theorem C64_EnhancedAEO E P md n epochs : 5 <= n -> 0 < epochs ->
  sound_run E P md (enhanced_aeo E P md n epochs) (fun _ => True) true (2 * n) (2 * n).
Proof. plain. unfold enhanced_aeo_evolve, aeo_step. counts HP. Qed.
Theorem C64_ModifiedAEO E P md n epochs : 5 <= n -> 0 < epochs ->
  sound_run E P md (modified_aeo E P md n epochs) (fun _ => True) true (2 * n) (2 * n).
Proof. plain. unfold modified_aeo_evolve, aeo_step. counts HP. Qed.
Theorem C64_AugmentedAEO E P md n epochs : 5 <= n -> 0 < epochs ->
  sound_run E P md (augmented_aeo E P md n epochs) (fun _ => True) true (2 * n) (2 * n).
Proof. plain. unfold augmented_aeo_evolve, aeo_step. counts HP. Qed.
Theorem C64_DevSMA E P md p_t n epochs : 5 <= n -> 0 < epochs ->
  sound_run E P md (dev_sma E P md p_t n epochs) (fun _ => True) true n n.
Proof.
  intros. apply gen_plain. state_elite (fun x : list vec => List.length x = n).
  - apply repeat_length.
  - unfold dev_sma_evolve, sma_weights. counts HP.
Qed.
Theorem C64_OriginalSMA E P md p_t n epochs : 5 <= n -> 0 < epochs ->
  sound_run E P md (original_sma E P md p_t n epochs) (fun _ => True) true n n.
Proof.
  intros. apply gen_plain. state_elite (fun x : list vec => List.length x = n).
  - apply repeat_length.
  - unfold sma_evolve, sma_weights. counts HP.
Qed.

Print Assumptions C64_OriginalBBO.
Print Assumptions C64_DevBBO.
Print Assumptions C64_DevJA.
Print Assumptions C64_OriginalJA.
Print Assumptions C64_LevyJA.
Print Assumptions C65_OriginalHHO.
Print Assumptions C64_OriginalEVO.
Print Assumptions C64_DevMVO.
Print Assumptions C64_OriginalMVO.
Print Assumptions C65_OriginalEO.
Print Assumptions C65_AdaptiveEO.
Print Assumptions C65_ModifiedEO.
Print Assumptions C64_OriginalAEO.
Print Assumptions C64_ImprovedAEO.
Print Assumptions C64_EnhancedAEO.
Print Assumptions C64_ModifiedAEO.
Print Assumptions C64_AugmentedAEO.
Print Assumptions C64_DevSMA.
Print Assumptions C64_OriginalSMA.
