(** OriginalPSS with the sampling method MC, and QleSCA when all agents coincide: no run returns. *)
From Verif Require Import Prelude Fl MCore MHelp MAlg MAlg2 SpecCore SpecRun PLogic PSolve PRun SpecAlg PAlg PFree PClass PAlg2 PRef PFail PPart Demo MClass25 AClass11 AClass26 PropGA PropNever PropNever3.

(** OriginalPSS with sampling_method="MC" (PSS.py:78). *)
Theorem C68_OriginalPSS_MC E P md n epochs tm starting s : never (solve E P md (original_pss E P md MC n epochs) tm starting s).
Proof. apply st_solve_init. cbn [original_pss al_init]. unfold pss_init. apply st_first. apply st_raise. Qed.

(** Problems that admit only one solution (up to the sign of zero): every population has identical agents. *)
Definition one_solution (feas : vec -> Prop) : Prop := forall x y, feas x -> feas y -> same_tuple x y = true.
Lemma q_state_nan d : q_state fnan d = Err StopIteration.
Proof. reflexivity. Qed.
Theorem C68_QleSCA E P alpha gama n epochs tm starting s (feas : vec -> Prop) :
  argsort_ok (e_argsort E) -> valid_mm (p_mm P) -> 5 <= n -> 0 < epochs ->
  problem_ok P feas -> one_solution feas -> starting_ok P feas n starting ->
  never (solve E P Single (qle_sca E P alpha gama n epochs) tm starting s).
Proof.
  intros Ha Hm Hn He Hp H1 Hs. apply fails_solve; [exact He|].
  set (ev := q_evolve E P (q_plan E P) (q_learn alpha gama) n).
  change (with_evolve _ _) with (agent_algo E Single (q_gea P) (ga_of P (q_gea P)) n epochs false (ret tt) (ret tt) (fun ep => flip (ev ep))).
  assert (T : sound_run_gen E P Single (agent_algo E Single (q_gea P) (ga_of P (q_gea P)) n epochs false (ret tt) (ret tt) (fun ep => flip (ev ep)))
    (fun _ => True) one_solution (fun _ => True) (eq n) false n n 0 0).
  { apply (sound_agents_st E P Single _ _ n epochs false _ _ _ _ _ _ (fun _ => @anyatt qtable) (fun _ _ _ => True) (fun _ _ _ => True)); auto; try lia.
    - intros f rows _ _ Hf. eapply gea_with_ok; [exact Hf|]. intros x. apply dr_ret. exact I.
    - intros f Hf. apply ga_of_ok. eapply gea_with_ok; [exact Hf|]. intros x. apply dr_ret. exact I.
    - intros f Hf. apply vars_none; auto.
    - intros f nd n0 s1 HP _ HI. eapply main_none. exact HI.
    - intros f nd n0 HP H2. apply (bad_evolve E); [exact HP|]. intros ep s0. unfold ev, q_evolve, for_.
      apply bad_for_acc; [lia|]. apply bad_first. unfold q_plan. eapply bad_qbind; [apply q_all_sols|]. intros xs [Lx Fx].
      assert (Hd : q_density  E xs = ret fnan).
      { destruct xs as [|x xs]; [cbn in Lx; lia|]. cbn [q_density]. inversion Fx as [|? ? Fx1 Fx2]; subst.
        replace (forallb (same_tuple x) xs) with true; [reflexivity|]. symmetry. apply forallb_forall. intros y Hy. rewrite Forall_forall in Fx2. apply H2; auto. }
      rewrite Hd. eapply bad_qbind; [apply q_ret with (Φ := eq fnan); reflexivity|]. intros d <-.
      eapply bad_qbind; [apply q_gb_sol|]. intros g _. eapply bad_qbind; [apply q_rnum|]. intros dis _.
      eapply bad_qbind; [apply q_pop_at; lia|]. intros a _. apply bad_first. rewrite q_state_nan. apply bad_raise. }
  destruct (T feas tm starting s Ha Hm Hp H1 Hs I I) as (g & s' & Es & _). exists (g, s'). exact Es.
Qed.
(** Such a problem: one variable in [1, 1]. *)
Definition point_prob : problem := mkProblem [fZ 1] [fZ 1] Min (fun x => [sphere x]) None (fun _ _ => [fZ 1]) (fun _ => [fZ 1]) false.
Example C68_QleSCA_example : problem_ok point_prob (fun x => x = [fZ 1]) /\ one_solution (fun x => x = [fZ 1]) /\ argsort_ok (e_argsort demo_env) /\ starting_ok point_prob (fun x => x = [fZ 1]) 5 None.
Proof.
  split; [split; intros; reflexivity|]. split; [intros x y -> ->; vm_compute; reflexivity|]. split; [exact argsort_ins_ok|exact I].
Qed.

Print Assumptions C68_OriginalPSS_MC.
Print Assumptions C68_QleSCA.
