(** Runs of the classes of MClass3. *)
From Verif Require Import Prelude Fl MCore MHelp MAlg MClass3 SpecCore SpecRun PSelect PLogic PSolve PRun SpecAlg PAlg PFree PClass PAlg2 PAlg3 Demo.

Theorem C64_OriginalZOA E P md n epochs : 5 <= n -> 0 < epochs ->
  sound_run E P md (original_zoa E P md n epochs) (fun _ => True) true (2 * n) (2 * n).
Proof. plain. counts HP. Qed.
Theorem C64_OriginalCDO E P md n epochs : 5 <= n -> 0 < epochs ->
  sound_run E P md (original_cdo E P md n epochs) (fun _ => True) true n n.
Proof. plain. counts HP. Qed.
Theorem C64_OriginalKLA E P md n epochs : 5 <= n -> 0 < epochs ->
  sound_run E P md (original_kla E P md n epochs) (fun _ => True) true n n.
Proof. plain. counts HP. Qed.
Theorem C64_OriginalRSA E P md alpha beta n epochs : 5 <= n -> 0 < epochs ->
  sound_run E P md (original_rsa E P md alpha beta n epochs) (fun _ => True) true n n.
Proof. plain. counts HP. Qed.
Theorem C64_OriginalFHO E P md n epochs : 5 <= n -> 0 < epochs ->
  sound_run E P md (original_fho E P md n epochs) (fun _ => True) true n n.
Proof.
  plain. assert (1 <= n / 5) by (apply Nat.div_le_lower_bound; lia). unfold fho_evolve. set (h := n / 5) in *; clearbody h. counts HP.
Qed.
Theorem C64_OriginalSOS E P n epochs : 5 <= n -> 0 < epochs -> 0 < n_dims P ->
  sound_run E P Single (original_sos E P n epochs) (fun _ => True) true (4 * n) (4 * n).
Proof. plain. counts HP. Qed.
Theorem C64_OriginalChOA E P md n epochs : 5 <= n -> 0 < epochs ->
  sound_run E P md (original_choa E P md n epochs) (fun _ => True) true n n.
Proof. plain. counts HP. Qed.
Theorem C64_OriginalMSA E P md n_best m1 max_step n epochs : 5 <= n -> 2 * n_best <= n -> 0 < epochs ->
  sound_run E P md (original_msa E P md n_best m1 max_step n epochs) (fun _ => True) true n n.
Proof. plain. counts HP. Qed.
Theorem C64_OriginalTDO E P n epochs : 5 <= n -> 0 < epochs ->
  sound_run E P Single (original_tdo E P n epochs) (fun _ => True) true (2 * n) (2 * n).
Proof. plain. counts HP. Qed.
Theorem C64_OriginalHBA E P md n epochs : 5 <= n -> 0 < epochs ->
  sound_run E P md (original_hba E P md n epochs) (fun _ => True) true n n.
Proof. plain. counts HP. Qed.
Theorem C65_OriginalSHO E P md h_factor n_trials n epochs : 5 <= n -> n_trials < n -> 0 < epochs ->
  sound_run E P md (original_sho E P md h_factor n_trials n epochs) (fun _ => True) false n (n * (n_trials + 1)).
Proof.
  plainfree. unfold sho_evolve. cbv zeta. eapply g_mono with (a := n * 0 + n) (b := n * n_trials + n); [|lia|nia|trivial].
  eapply g_greedy_each_ev; [exact HP|noc|qcorrect HP|qgea|reflexivity|]. intros w' i Hi Hk.
  eapply g_mono with (a := Nat.min 0 0) (b := Nat.max 0 n_trials); [|lia|lia|trivial].
  eapply g_qbind; [gquiet HP|]. intros k _. eapply g_qbind; [gquiet HP|]. intros u _. apply g_ifm; intros Hu.
  - free HP.
  - eapply g_mono with (a := n_trials * 0 + 0 + 0) (b := n_trials * 1 + 0 + 0); [|lia|lia|intros w2 y _ T; exact T].
    eapply g_bind with (Φ := fun _ N => N <= n).
    + unfold sho_trials. eapply g_bind.
      * eapply g_for_acc with (J := fun k _ p => fst p <= S k); [simpl; lia|]. intros j w2 [N stop] Hi2 Hj HN. simpl in HN.
        eapply g_mono with (a := Nat.min 0 1) (b := Nat.max 0 1); [|simpl; lia|simpl; lia|intros w3 y _ T; exact T].
        apply g_ifm; intros Hs; [apply g_ret; simpl; lia|].
        eapply g_qbind; [gquiet HP|]. intros g Hg. cbv beta in Hg. eapply g_qbind; [gquiet HP|]. intros pos _.
        change 1 with (1 + 0). eapply g_bind; [eapply g_gen_agent; gprem HP|]. gintros HP. apply g_quiet. eapply gq_bind; [gquiet HP|]. intros c _. apply gq_ret. simpl. lia.
      * intros [N stop] w2 Hi2 HN. simpl in HN. apply g_ret. lia.
    + gintros HP. apply g_quiet. gquiet HP.
Qed.
Theorem C64_OriginalBBOA E P md n epochs : 5 <= n -> 0 < epochs ->
  sound_run E P md (original_bboa E P md n epochs) (fun _ => True) true (2 * n) (2 * n).
Proof. plain. counts HP. Qed.
Theorem C64_OriginalRFO E P md phi_0 theta k n epochs : 5 <= n -> 1 <= k < n -> 0 < epochs ->
  sound_run E P md (original_rfo E P md phi_0 theta k n epochs) (fun _ => True) true (n + k) (2 * n + k).
Proof. plain. counts HP. Qed.
Theorem C64_OriginalCrayfishOA E P md n epochs : 5 <= n -> 0 < epochs ->
  sound_run E P md (original_crayfish E P md n epochs) (fun _ => True) true n n.
Proof. intros. apply gen_plain. state_elite (fun _ : vec => True). counts HP. Qed.
Theorem C64_OriginalCDDO E P md psize creat n epochs : 5 <= n -> 1 <= psize <= n -> 0 < epochs -> 0 < n_dims P ->
  sound_run E P md (original_cddo E P md psize creat n epochs) (fun _ => True) true n n.
Proof.
  intros. apply gen_plain.
  eapply (state_elite _ _ _ _ _ _ _ _ _ _ _ _ (fun _ _ _ => True) (fun feas _ x => (List.length (snd (fst x)) = n /\ Forall (fun a => wf_agent a /\ feas (sol a)) (snd (fst x))) /\ List.length (snd x) = n)); [lia|lia|..].
  - intros. apply vars_none. auto.
  - intros feas nd n0 s HP HH HI. eapply main_set with (Φ := fun x => (List.length (snd (fst x)) = n /\ Forall (fun a => wf_agent a /\ feas (sol a)) (snd (fst x))) /\ List.length (snd x) = n);
      [exact HP|exact HI|intros; quiet HP|].
    intros x Hx. exists []. split; [intros ? []|exact Hx].
  - intros feas nd n0 ep s0 HP HH Hep. counts HP.
Qed.

Theorem C64_OriginalSSDO E P md n epochs : 5 <= n -> 0 < epochs ->
  sound_run E P md (original_ssdo E P md n epochs) (fun _ => True) true n n.
Proof. intros. apply gen_plain. att_elite (fun _ : unit => True). unfold ssdo_evolve. destruct (is_avail md); cbn [when]; counts HP. Qed.

Print Assumptions C64_OriginalZOA.
Print Assumptions C64_OriginalCDO.
Print Assumptions C64_OriginalKLA.
Print Assumptions C64_OriginalRSA.
Print Assumptions C64_OriginalFHO.
Print Assumptions C64_OriginalSOS.
Print Assumptions C64_OriginalChOA.
Print Assumptions C64_OriginalMSA.
Print Assumptions C64_OriginalTDO.
Print Assumptions C64_OriginalHBA.
Print Assumptions C65_OriginalSHO.
Print Assumptions C64_OriginalBBOA.
Print Assumptions C64_OriginalRFO.
Print Assumptions C64_OriginalCrayfishOA.
Print Assumptions C64_OriginalCDDO.
Print Assumptions C64_OriginalSSDO.
