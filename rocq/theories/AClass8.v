(** C64 and C65 for the classes of MClass8. *)
From Verif Require Import Prelude Fl MCore MHelp MAlg MAlg2 MAlg3 MAlg4 MAlg5 MClass8 SpecCore SpecRun PSelect PLogic PSolve PRun SpecAlg PAlg PFree PClass PAlg2 PAlg3 PAlg4 PAlg5 PAlg6 Demo.

(** ** Plain classes *)
Theorem C64_MPA E P md n epochs : 5 <= n -> 0 < epochs -> sound_run E P md (original_mpa E P md n epochs) (fun _ => True) true n n.
Proof. plain. counts HP. Qed.
Theorem C64_DevSOA E P md fc n epochs : 5 <= n -> 0 < epochs -> sound_run E P md (dev_soa E P md fc n epochs) (fun _ => True) true n n.
Proof. plain. counts HP. Qed.
Theorem C64_OriginalSOA E P md fc n epochs : 5 <= n -> 0 < epochs -> sound_run E P md (original_soa E P md fc n epochs) (fun _ => True) true n n.
Proof. plain. counts HP. Qed.
Theorem C64_MGO E P md n epochs : 5 <= n -> 0 < epochs -> sound_run E P md (original_mgo E P md n epochs) (fun _ => True) true (4 * n) (4 * n).
Proof.
  plain. unfold mgo_evolve.
  assert (K : (n + 2) / 3 < n) by (apply Nat.div_lt_upper_bound; lia).
  set (h := (n + 2) / 3) in *. clearbody h.
  eapply b0_mono; [|shelve|shelve|intros y T; exact T]. eapply b0_blk.
  eapply b_trim_many with (lo := 4) (hi := 4); [exact HP|lia|lia|]. intros i Hi. quiet HP.
  all: split; [cbn; lia|repeat (apply Forall_cons; [assumption|]); apply Forall_nil].
  Unshelve. all: lia.
Qed.
Theorem C64_SBOA E P md n epochs : 5 <= n -> 0 < epochs -> sound_run E P md (original_sboa E P md n epochs) (fun _ => True) true (2 * n) (2 * n).
Proof. plain. counts HP. Qed.
Theorem C64_AVOA E P md p1 p2 p3 gama n epochs : 5 <= n -> 0 < epochs ->
  sound_run E P md (original_avoa E P md p1 p2 p3 gama n epochs) (fun _ => True) true n n.
Proof. plain. counts HP. Qed.
Theorem C64_TSO E P md n epochs : 5 <= n -> 0 < epochs -> sound_run E P md (original_tso E P md n epochs) (fun _ => True) true n n.
Proof. plain. counts HP. Qed.
Theorem C64_ARO E P md n epochs : 5 <= n -> 0 < epochs -> sound_run E P md (original_aro E P md n epochs) (fun _ => True) true n n.
Proof. plain. counts HP. Qed.
Theorem C64_LARO E P md n epochs : 5 <= n -> 0 < epochs -> sound_run E P md (laro E P md n epochs) (fun _ => True) true n (2 * n).
Proof. plain. counts HP. Qed.
Theorem C64_IARO E P md n epochs : 5 <= n -> 0 < epochs -> sound_run E P md (iaro E P md n epochs) (fun _ => True) true n n.
Proof. plain. counts HP. Qed.
Theorem C64_OriginalLCO E P md r1 n epochs : 5 <= n -> 0 < epochs -> sound_run E P md (original_lco E P md r1 n epochs) (fun _ => True) true n n.
Proof. plain. counts HP. Qed.
Theorem C64_DevLCO E P md r1 n epochs : 5 <= n -> 0 < epochs -> sound_run E P md (dev_lco E P md r1 n epochs) (fun _ => True) true n n.
Proof. plain. counts HP. Qed.
Theorem C64_DevSBO E P md alpha p_m psw n epochs : 5 <= n -> 0 < epochs ->
  sound_run_gen E P md (dev_sbo E P md alpha p_m psw n epochs) (fun _ => True) (wheel_ok E P n) (fun _ => True) (eq n) true n n n n.
Proof. intros. state_elite (fun _ : unit => True). counts HP. Qed.
Theorem C64_DevGCO E P md cr wf n epochs : 5 <= n -> 0 < epochs -> sound_run E P md (dev_gco E P md cr wf n epochs) (fun _ => True) true n n.
Proof. intros. apply gen_plain. state_elite (fun _ : cells => True). - exact I. - counts HP. Qed.
Theorem C64_OriginalGCO E P cr wf n epochs : 5 <= n -> 0 < epochs -> sound_run E P Single (original_gco E P cr wf n epochs) (fun _ => True) true n n.
Proof. intros. apply gen_plain. state_elite (fun _ : cells => True). - exact I. - counts HP. Qed.

(** ** Bats *)
Lemma ok_any {A} P feas w (a : agent A) b : ok P feas (@anyatt A) w a -> ok P feas (@anyatt A) w (mkAgent (sol a) (tgt a) b).
Proof. intros [G1 G2 G3 G4]. constructor; simpl; auto. Qed.
Theorem C65_OriginalBA E P md loudness pulse_rate pf_min pf_max n epochs : 5 <= n -> 0 < epochs ->
  sound_run E P md (original_ba E P md loudness pulse_rate pf_min pf_max n epochs) (fun _ => True) false n n.
Proof. intros. apply gen_plain. att_free (fun _ : unit => True). unfold ba_evolve, accept_lucky. pose proof (@ok_any (vec * f64) P feas) as HO. gcounts HP. Qed.
Theorem C65_AdaptiveBA E P md l_min l_max pr_min pr_max pf_min pf_max n epochs : 5 <= n -> 0 < epochs ->
  sound_run E P md (adaptive_ba E P md l_min l_max pr_min pr_max pf_min pf_max n epochs) (fun _ => True) false n n.
Proof. intros. apply gen_plain. att_free (fun _ : unit => True). unfold aba_evolve, accept_lucky. pose proof (@ok_any bat P feas) as HO. gcounts HP. Qed.

Print Assumptions C64_MPA.
Print Assumptions C64_DevSOA.
Print Assumptions C64_OriginalSOA.
Print Assumptions C64_MGO.
Print Assumptions C64_SBOA.
Print Assumptions C64_AVOA.
Print Assumptions C64_TSO.
Print Assumptions C64_ARO.
Print Assumptions C64_LARO.
Print Assumptions C64_IARO.
Print Assumptions C64_OriginalLCO.
Print Assumptions C64_DevLCO.
Print Assumptions C64_DevSBO.
Print Assumptions C64_DevGCO.
Print Assumptions C64_OriginalGCO.
Print Assumptions C65_OriginalBA.
Print Assumptions C65_AdaptiveBA.
