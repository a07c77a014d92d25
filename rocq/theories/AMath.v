(** Runs of the algorithms of mealpy/math_based. *)
From Verif Require Import Prelude Fl MCore MHelp MAlg MMath SpecCore SpecRun PSelect PLogic PSolve PRun SpecAlg PAlg Demo.

Theorem C64_OriginalAOA E P md alpha miu moa_min moa_max n epochs : 0 < n -> 0 < epochs ->
  sound_run E P md (original_aoa E P md alpha miu moa_min moa_max n epochs) (fun _ => True) true n n.
Proof. plain. counts HP. Qed.
Theorem C64_OriginalCGO E P n epochs : 3 <= n -> 0 < epochs -> 0 < n_dims P ->
  sound_run E P Single (original_cgo E P n epochs) (fun _ => True) true (4 * n) (4 * n).
Proof.
  plain. counts HP. Qed.
Theorem C64_OriginalCircleSA E P md c_factor n epochs : 0 < n -> 0 < epochs ->
  sound_run E P md (original_circle_sa E P md c_factor n epochs) (fun _ => True) true n n.
Proof. plain. counts HP. Qed.
Theorem C64_OriginalGBO E P md pr beta_min beta_max n epochs : 5 <= n -> 0 < epochs ->
  sound_run E P md (original_gbo E P md pr beta_min beta_max n epochs) (fun _ => True) true n n.
Proof. plain. counts HP. Qed.
Theorem C64_OriginalHC E P md k n epochs : 0 < k -> 0 < n -> 0 < epochs ->
  sound_run_len E P md (original_hc E P md k n epochs) (fun _ => True) (fun m => m = n \/ m = k) true k k.
Proof.
  intros Hk Hn He. apply (sound_len_of E P md tt n epochs false (ret tt) (hc_evolve E P md k epochs) _ (fun _ => True) (fun _ => True)); auto.
  - intros m [->| ->]; assumption.
  - intros s Hs. apply wp_ret. exists (s_x s), (s_ctr s). split; [destruct s; reflexivity|auto].
  - intros feas nd n0 HP ep s Hep HI. unfold hc_evolve.
    assert (HR : R P feas anyatt (fun m => m = n \/ m = k) (fun _ _ => True) (true = true /\ obj_num P feas) nd n0 (List.length (s_pop s)) s [] (List.length (s_log s)) s).
    { split; [apply Ev_init; exact HI|]. split; reflexivity. }
    assert (HO : Old s s).
    { unfold Old. eapply Forall_impl; [|apply (i_good _ _ _ _ _ _ _ _ _ HI)]. intros a G. apply G. }
    eapply wp_mono; [eapply replace_len; bprem HP; try eassumption|].
    intros [] s' (V & Hl & Hg). split; [exact V|]. split; [right; exact Hl|lia].
Qed.
Theorem C64_SwarmHC E P md k n epochs : 0 < k -> 0 < n -> 0 < epochs ->
  sound_run E P md (swarm_hc E P md k n epochs) (fun _ => True) true (n * k) (n * k).
Proof.
  plain. apply b0_blk. unfold swarm_hc_evolve. intros W l s HR. apply wp_bind.
  set (RR := R P feas anyatt (eq n) (fun _ _ => True) (true = true /\ obj_num P feas) nd n0 n s0).
  apply wp_for_acc with (I := fun i acc s' => List.length acc = i /\ if is_avail md then RR (W ++ acc) (l + i * k) s' else RR W (l + i * k) s').
  - split; [reflexivity|]. rewrite app_nil_r, Nat.add_0_r. destruct (is_avail md); exact HR.
  - intros i acc s' Hi [Hl HI].
    apply wp_bind. destruct (is_avail md) eqn:Hav; cbn [negb when].
    + eapply wp_best_new; [exact HP|intros; eapply q_correct; exact HP|qgea|exact HI|exact H|intros; quiet HP|].
      intros b j s2 Gb R2 _. apply wp_bind, wp_ret, wp_ret. cbn [fst]. split; [rewrite app_length; simpl; lia|].
      rewrite app_assoc. replace (l + S i * k) with (l + i * k + k) by lia. exact R2.
    + eapply wp_best_new; [exact HP|intros; eapply q_correct; exact HP|qgea|exact HI|exact H|intros; quiet HP|].
      intros b j s2 Gb R2 _. apply wp_bind. eapply wp_keep_better; [exact HP|exact R2|exact Gb|lia|]. intros s3 R3. apply wp_ret.
      cbn [fst]. split; [rewrite app_length; simpl; lia|]. replace (l + S i * k) with (l + i * k + k) by lia. exact R3.
  - intros acc s' [Hl HI]. simpl in Hl. apply wp_when; intros Hav; rewrite Hav in HI.
    + eapply wp_greedy_select; [exact HP|exact HI|exact Hl|]. intros s2 R2. split; [exact I|]. exists (n * k). split; [lia|exact R2].
    + split; [exact I|]. exists (n * k). split; [lia|exact HI].
Qed.
Theorem C64_OriginalINFO E P md n epochs : 6 <= n -> 0 < epochs ->
  sound_run E P md (original_info E P md n epochs) (fun _ => True) true n n.
Proof. plain. counts HP. Qed.
Lemma arg3_lt f x y z : arg3 f x y z < 3.
Proof. unfold arg3. repeat match goal with |- context [if ?b then _ else _] => destruct b end; simpl; lia. Qed.
Theorem C64_OriginalRUN E P n epochs : 4 <= n -> 0 < epochs -> 0 < n_dims P ->
  sound_run E P Single (original_run E P n epochs) (fun _ => True) true n (3 * n).
Proof. plain.
  assert (HA : forall fa fb fc, match p_mm P with Min => arg3 flt fa fb fc | _ => arg3 (fun x y => flt y x) fa fb fc end < n).
  { intros. destruct (p_mm P); eapply Nat.lt_le_trans; try apply arg3_lt; lia. } counts HP. Qed.
Theorem C64_OriginalSHIO E P md n epochs : 3 <= n -> 0 < epochs ->
  sound_run E P md (original_shio E P md n epochs) (fun _ => True) true n n.
Proof. plain. counts HP. Qed.
Theorem C64_DevSCA E P md n epochs : 0 < n -> 0 < epochs ->
  sound_run E P md (dev_sca E P md n epochs) (fun _ => True) true n n.
Proof. plain. counts HP. Qed.
Theorem C64_OriginalSCA E P md n epochs : 0 < n -> 0 < epochs ->
  sound_run E P md (original_sca E P md n epochs) (fun _ => True) true n n.
Proof. plain. counts HP. Qed.

Theorem C64_OriginalCEM E P md alpha n_best n epochs : 0 < n -> 0 < epochs ->
  sound_run E P md (original_cem E P md alpha n_best n epochs) (fun _ => True) true n n.
Proof.
  intros. eapply sound_vars with (IX := fun _ => True); auto.
  - intros s _. unfold cem_vars, uniform_box. apply wp_bind, wp_bind. apply wp_uniform_vec. intros v k _. apply wp_ret.
    unfold wp, set_x. eexists _, k. split; [reflexivity|exact I].
  - intros feas nd n0 ep s0 HP Hep _. counts HP.
Qed.

(** The hypotheses of these theorems hold of a concrete problem; the theorem then gives the run. *)
Lemma demo_problem_ok mm obj save : problem_ok (demo_prob mm obj save) (fun x => List.length x = 2).
Proof. split; [intros k x _|intros k]; reflexivity. Qed.
Lemma demo_obj_num mm save : obj_num (demo_prob mm l0norm save) (fun x => List.length x = 2).
Proof.
  intros x _. unfold num, fitx, prob_target, l0norm. cbn [p_obj demo_prob]. destruct (feq (nth 0 x fnan) (fZ 0)); vm_compute; reflexivity.
Qed.
Example C64_example : exists g s',
  solve demo_env (demo_prob Max l0norm true) Thread
    (original_gbo demo_env (demo_prob Max l0norm true) Thread (dec 1 2) (dec 1 5) (dec 6 5) 5 3) None None (st0 tt) = Ok (g, s')
  /\ List.length (s_log s') = 20 /\ (forall x, In x (s_log s') -> no_worse Max (fit g) (fitx (demo_prob Max l0norm true) x)).
Proof.
  destruct (C64_OriginalGBO demo_env (demo_prob Max l0norm true) Thread (dec 1 2) (dec 1 5) (dec 6 5) 5 3 ltac:(lia) ltac:(lia)
    (fun x => List.length x = 2) None None (st0 tt)) as (g & s' & E1 & E2).
  - exact argsort_ins_ok.
  - right; reflexivity.
  - apply demo_problem_ok.
  - exact I.
  - exact I.
  - exists g, s'. split; [exact E1|]. destruct (rs_chain _ _ _ _ _ _ _ _ _ _ E2) as (b0 & w0 & _ & _ & _ & _ & [H|(t & r & Ht & _)] & _); [|discriminate].
    pose proof (rs_count _ _ _ _ _ _ _ _ _ _ E2) as C. rewrite H in C. cbn [c_init_min c_init_max c_min c_max al_epoch al_pop_size original_gbo plain_algo] in C.
    split; [lia|]. apply (rs_elite _ _ _ _ _ _ _ _ _ _ E2). split; [reflexivity|apply demo_obj_num].
Qed.

Print Assumptions C64_OriginalAOA.
Print Assumptions C64_OriginalCGO.
Print Assumptions C64_OriginalCircleSA.
Print Assumptions C64_OriginalGBO.
Print Assumptions C64_OriginalHC.
Print Assumptions C64_SwarmHC.
Print Assumptions C64_OriginalINFO.
Print Assumptions C64_OriginalRUN.
Print Assumptions C64_OriginalSHIO.
Print Assumptions C64_DevSCA.
Print Assumptions C64_OriginalSCA.
Print Assumptions C64_OriginalCEM.
