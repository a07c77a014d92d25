(** C70: runs of the classes of MClass15, which update the best solution inside an epoch. *)
From Verif Require Import Prelude Fl MCore MHelp MAlg MAlg2 MAlg3 MAlg4 MAlg5 MAlg6 MAlg7 MAlg8 MClass15.
From Verif Require Import SpecCore SpecRun SpecAlg SpecSave PSelect PLogic PSolve PRun PAlg PFree PClass PAlg2 PAlg3 PAlg4 PAlg5 PAlg6 PAlg7 PAlg8 PAlg9 PSave PAlg12 Demo AMath.

Ltac segment HP := eapply seg_block; [exact HP|]; intros s0 HI; counts HP.

Theorem C70_OriginalAGTO E P md p1 p2 beta n epochs : 5 <= n -> 0 < epochs ->
  sound_save E P md (original_agto E P md p1 p2 beta n epochs) (fun _ => True) (fun _ => True) true (n + n) (n + n).
Proof.
  segs. unfold agto_evolve.
  eapply seg_qbind with (Φ := fun _ => True); [intros; quiet HP|]. intros [a c] _.
  eapply seg_then; [exact HP|lia|segment HP|segment HP].
Qed.

Theorem C70_MGTO E P md pp n epochs : 5 <= n -> 0 < epochs ->
  sound_save E P md (mgto E P md pp n epochs) (fun _ => True) (fun _ => True) true (n + (n + n)) (n + (n + n)).
Proof.
  segs. unfold mgto_evolve.
  eapply seg_qbind with (Φ := fun _ => True); [intros; quiet HP|]. intros [c l] _.
  eapply seg_then; [exact HP|lia|segment HP|]. eapply seg_then; [exact HP|lia|segment HP|segment HP].
Qed.

Theorem C70_OriginalGTO E P md a h n epochs : 5 <= n -> 0 < epochs ->
  sound_save E P md (original_gto E P md a h n epochs) (fun _ => True) (fun _ => True) true (n + (n + n)) (n + (n + n)).
Proof.
  segs. unfold gto_evolve.
  eapply seg_then; [exact HP|lia|segment HP|]. eapply seg_then; [exact HP|lia|segment HP|segment HP].
Qed.

Theorem C70_Matlab102GTO E P md n epochs : 5 <= n -> 0 < epochs ->
  sound_save E P md (matlab102_gto E P md n epochs) (fun _ => True) (fun _ => True) true (n + (n + n)) (n + (n + n)).
Proof.
  segs. unfold gto102_evolve.
  eapply seg_then; [exact HP|lia|segment HP|]. eapply seg_then; [exact HP|lia|segment HP|segment HP].
Qed.

Theorem C70_OriginalMRFO E P md range n epochs : 5 <= n -> 0 < epochs ->
  sound_save E P md (original_mrfo E P md range n epochs) (fun _ => True) (fun _ => True) true (n + n) (n + n).
Proof.
  segs. unfold mrfo_evolve. eapply seg_then; [exact HP|lia|segment HP|segment HP].
Qed.

Lemma wmqi_next_lt n idx : 2 <= n -> idx < n -> fst (wmqi_next n idx) < n /\ snd (wmqi_next n idx) < n.
Proof.
  intros Hn Hi. unfold wmqi_next. destruct (idx =? n - 1) eqn:E1; [cbn [fst snd]; lia|]. apply Nat.eqb_neq in E1.
  destruct (idx =? n - 2) eqn:E2; cbn [fst snd]; [apply Nat.eqb_eq in E2|apply Nat.eqb_neq in E2]; lia.
Qed.
Theorem C70_WMQIMRFO E P md range pm n epochs : 5 <= n -> 0 < epochs ->
  sound_save E P md (wmqi_mrfo E P md range pm n epochs) (fun _ => True) (fun _ => True) true (n + (n + n)) (n + (n + n)).
Proof.
  segs. unfold wmqi_evolve.
  assert (H2 : forall idx, idx < n -> fst (wmqi_next n idx) < n) by (intros idx Hi; apply wmqi_next_lt; lia).
  assert (H3 : forall idx, idx < n -> snd (wmqi_next n idx) < n) by (intros idx Hi; apply wmqi_next_lt; lia).
  eapply seg_then; [exact HP|lia|segment HP|]. eapply seg_then; [exact HP|lia|segment HP|segment HP].
Qed.

(** The best of some new agents and an old one. *)
Lemma b_best_join E P md feas IL IX cov nd n0 n (s0 : st unit unit) (HP : params E P feas (@anyatt unit) cov) m idx cand :
  idx < n -> (forall i, i < m -> qt P feas (@anyatt unit) IL IX cov nd n0 n s0 (cand i) (fun _ => True)) ->
  blk P feas (@anyatt unit) IL IX cov nd n0 n s0 m m (best_join E P md m idx cand) (fun _ => True).
Proof.
  intros Hi Hc W l s HR. unfold best_join. apply wp_bind.
  eapply wp_new_agents; [exact HP|qcorrect HP|qgea|exact HR|exact Hc|]. intros new s1 Ln Gn R1 Ep.
  pose proof R1 as (V1 & Hn1 & Hl1). apply wp_bind. apply wp_pop_at; [lia|]. intros old Ho Hin.
  assert (Go : good P feas (@anyatt unit) (s_log s1) old) by (eapply Ev_pop_good; eauto).
  assert (GA : Forall (good P feas (@anyatt unit) (s_log s1)) (new ++ [old])) by (apply Forall_app; auto).
  destruct (best_agent_ok E P feas (@anyatt unit) cov HP _ (new ++ [old]) GA) as (b & j & Eb & Hb & Gb & _ & HB); [destruct new; discriminate|].
  apply wp_bind. eapply wp_lift; [exact Eb|]. apply wp_pop_set; [lia|]. split; [exact I|]. exists m. split; [lia|].
  split; [|split; [simpl; rewrite upd_length; exact Hn1|simpl; lia]].
  cbn [fst]. apply Ev_pop_set with (W := W ++ new); [apply HP|apply HP|exact V1|lia|exact Gb|apply incl_appl, incl_refl|].
  intros C g c Hg' [Hc'|Hc'].
  - right; left. apply (HB C). apply in_or_app. right; left. congruence.
  - apply in_app_or in Hc'. destruct Hc' as [Hc'|Hc']; [auto|]. right; left. apply (HB C). apply in_or_app. left; exact Hc'.
Qed.
Theorem C70_Matlab101GTO E P md n epochs : 5 <= n -> 0 < epochs ->
  sound_save E P md (matlab101_gto E P md n epochs) (fun _ => True) (fun _ => True) true
    (n * (n - 1) + (n + n * (n - 1))) (n * (n - 1) + (n + n * (n - 1))).
Proof.
  segs. unfold gto101_evolve.
  eapply seg_then; [exact HP|lia| |eapply seg_then; [exact HP|lia|segment HP|]].
  - eapply seg_block; [exact HP|]. intros s0 HI. eapply b0_blk. unfold gto101_search. eapply b_for.
    intros idx Hi. eapply b_best_join; [exact HP|exact Hi|]. intros i Hi'. quiet HP.
  - eapply seg_block; [exact HP|]. intros s0 HI. eapply b0_blk. unfold gto101_attack. eapply b_qbind; [quiet HP|]. cbv beta. intros u _.
    eapply b_for. intros idx Hi. eapply b_best_join; [exact HP|exact Hi|]. intros i Hi'. quiet HP.
Qed.

(** ** The recorded fitness values are not those of the recorded agents *)
Lemma differs_at (l : list (agent unit)) (v : list f64) : existsb (fun p => negb (feq (fit (fst p)) (snd p))) (combine l v) = true ->
  exists j a f, nth_error l j = Some a /\ nth_error v j = Some f /\ feq (fit a) f = false.
Proof.
  revert v. induction l as [|a l IH]; intros [|f v] H; try discriminate. cbn [combine existsb fst snd] in H.
  destruct (feq (fit a) f) eqn:F; [|exists 0, a, f; auto].
  destruct (IH v H) as (j & a' & f' & H1 & H2 & H3). exists (S j), a', f'. auto.
Qed.
(** The list of best fitness values holds the value at the end of an epoch, the list of best agents is improved later by the
    first half of the next epoch (optimizer.py:633-644). *)
Theorem C70_OriginalGTO_refuted : exists g s',
  solve demo_env (demo_prob Min sphere false) Single (original_gto demo_env (demo_prob Min sphere false) Single (dec 4 10) (fZ 2) 5 4) None None (st0 tt) = Ok (g, s') /\
  exists j a f, nth_error (h_gb (s_hist s')) j = Some a /\ nth_error (h_gbf (s_hist s')) j = Some f /\ feq (fit a) f = false.
Proof.
  assert (T : match solve demo_env (demo_prob Min sphere false) Single (original_gto demo_env (demo_prob Min sphere false) Single (dec 4 10) (fZ 2) 5 4) None None (st0 tt) with
              | Ok (_, s') => existsb (fun p => negb (feq (fit (fst p)) (snd p))) (combine (h_gb (s_hist s')) (h_gbf (s_hist s'))) | _ => false end = true) by (vm_compute; reflexivity).
  destruct (solve _ _ _ _ _ _ _) as [[g s']|]; [|discriminate]. exists g, s'. split; [reflexivity|]. apply differs_at, T.
Qed.
Theorem C70_OriginalMRFO_refuted : exists g s',
  solve demo_env (demo_prob Min sphere false) Single (original_mrfo demo_env (demo_prob Min sphere false) Single (fZ 2) 5 4) None None (st0 tt) = Ok (g, s') /\
  exists j a f, nth_error (h_gb (s_hist s')) j = Some a /\ nth_error (h_gbf (s_hist s')) j = Some f /\ feq (fit a) f = false.
Proof.
  assert (T : match solve demo_env (demo_prob Min sphere false) Single (original_mrfo demo_env (demo_prob Min sphere false) Single (fZ 2) 5 4) None None (st0 tt) with
              | Ok (_, s') => existsb (fun p => negb (feq (fit (fst p)) (snd p))) (combine (h_gb (s_hist s')) (h_gbf (s_hist s'))) | _ => false end = true) by (vm_compute; reflexivity).
  destruct (solve _ _ _ _ _ _ _) as [[g s']|]; [|discriminate]. exists g, s'. split; [reflexivity|]. apply differs_at, T.
Qed.
(** The hypotheses of the theorems above are met. *)
Example C70_example : exists g s',
  solve demo_env (demo_prob Max l0norm true) Thread (original_mrfo demo_env (demo_prob Max l0norm true) Thread (fZ 2) 5 3) None None (st0 tt) = Ok (g, s')
  /\ (forall x, In x (s_log s') -> no_worse Max (fit g) (fitx (demo_prob Max l0norm true) x)).
Proof.
  destruct (C70_OriginalMRFO demo_env (demo_prob Max l0norm true) Thread (fZ 2) 5 3 ltac:(lia) ltac:(lia)
    (fun x => List.length x = 2) None None (st0 tt)) as (g & s' & E1 & E2).
  - exact argsort_ins_ok.
  - right; reflexivity.
  - apply demo_problem_ok.
  - exact I.
  - exact I.
  - exact I.
  - exists g, s'. split; [exact E1|]. apply (ss_elite _ _ _ _ _ _ _ _ _ _ E2). split; [reflexivity|apply demo_obj_num].
Qed.

Print Assumptions C70_OriginalAGTO.
Print Assumptions C70_MGTO.
Print Assumptions C70_OriginalGTO.
Print Assumptions C70_Matlab102GTO.
Print Assumptions C70_OriginalMRFO.
Print Assumptions C70_WMQIMRFO.
Print Assumptions C70_Matlab101GTO.
Print Assumptions C70_OriginalGTO_refuted.
Print Assumptions C70_OriginalMRFO_refuted.
