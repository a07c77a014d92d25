(** C64, C65 for the classes of MClass4.v. *)
From Verif Require Import Prelude Fl MCore MHelp MAlg MAlg2 MClass4 SpecCore SpecRun PSelect PLogic PSolve PRun SpecAlg PAlg PFree PClass PAlg2 PAlg3 Demo.

(** ** PSO *)
(** Every particle of a population has a local target. *)
Definition particle_ok (L : list vec) (a : particle) : Prop := exists t, loc_t a = Some t.
Lemma pso_ga_ok {X} E P (feas : vec -> Prop) : problem_ok P feas -> ga_ok (X := X) P feas particle_ok (pso_ga E P).
Proof.
  intros Hp s o Ho. unfold pso_ga. apply wp_bind.
  eapply wp_mono; [apply (gea_with_ok P feas (fun x => v <- rform E P "PSO:84" [] ;; ret (mkParticle v x None))); [exact Hp|intros; draws; exact I|exact Ho]|].
  intros a s' ((k & ->) & Ha & _). apply wp_bind, wp_get_target, wp_ret. simpl. split; [exists k; reflexivity|].
  split; [exact Ha|]. split; [reflexivity|]. intros L _. eexists; reflexivity.
Qed.
Lemma pso_elite {X} E P n epochs srt iv ev (XP : X -> Prop) (IX : list vec -> X -> Prop) kmin kmax : 0 < n -> 0 < epochs ->
  vars_contract XP IX iv ->
  (forall feas nd n0 ep s0, params E P feas particle_ok (true = true /\ obj_num P feas) -> 1 <= ep ->
     blk0 P feas particle_ok (eq n) IX (true = true /\ obj_num P feas) nd n0 n s0 kmin kmax (ev ep) (fun _ => True)) ->
  sound_run E P Single (agent_algo E Single (pso_gea E P) (pso_ga E P) n epochs srt iv (ret tt) ev) XP true kmin kmax.
Proof.
  intros Hn He Hv H. apply gen_plain.
  apply (sound_agents_st E P Single (pso_gea E P) (pso_ga E P) n epochs srt iv (ret tt) ev XP (fun _ => True) (fun _ => True)
           (fun _ => particle_ok) (fun _ => IX) (fun _ => IX)); auto.
  - intros feas rows Hav. discriminate Hav.
  - intros feas Hp. apply pso_ga_ok, Hp.
  - intros feas nd n0 s HP HH HI. eapply main_none; exact HI.
  - intros feas nd n0 HP HH. eapply contract_of; [exact HP|]. intros ep s0 Hep _. apply H; auto.
Qed.
Lemma pso_local_ok {X} E P (feas : vec -> Prop) IL (IX : list vec -> X -> Prop) cov nd n0 n s0 v y t old c L L' :
  params E P feas particle_ok cov -> good P feas particle_ok L old ->
  qt P feas particle_ok IL IX cov nd n0 n s0 (pso_local P v y t old c) (particle_ok L').
Proof.
  intros HP G. destruct (g_att _ _ _ _ _ G) as [t' Et]. unfold pso_local. rewrite Et. simpl.
  eapply q_bind; [apply q_lift with (Φ := fun _ => True); eexists; split; [reflexivity|exact I]|]. intros b _. apply q_ret. destruct b; eexists; reflexivity.
Qed.
Ltac pso := eapply pso_local_ok; eassumption.

Theorem C64_OriginalPSO E P c1 c2 w n epochs : 5 <= n -> 0 < epochs ->
  sound_run E P Single (original_pso E P c1 c2 w n epochs) (fun _ => True) true n n.
Proof.
  intros. apply (pso_elite _ _ _ _ _ _ _ _ (fun _ _ => True)); [lia|lia|apply vars_none; auto|]. intros feas nd n0 ep s0 HP Hep. counts HP.
  all: pso.
Qed.
Theorem C64_AIW_PSO E P c1 c2 alpha n epochs : 5 <= n -> 0 < epochs ->
  sound_run E P Single (aiw_pso E P c1 c2 alpha n epochs) (fun _ => True) true n n.
Proof.
  intros. apply (pso_elite _ _ _ _ _ _ _ _ (fun _ _ => True)); [lia|lia|apply vars_none; auto|]. intros feas nd n0 ep s0 HP Hep. counts HP.
  all: pso.
Qed.
Theorem C64_LDW_PSO E P c1 c2 w_min w_max n epochs : 5 <= n -> 0 < epochs ->
  sound_run E P Single (ldw_pso E P c1 c2 w_min w_max n epochs) (fun _ => True) true n n.
Proof.
  intros. apply (pso_elite _ _ _ _ _ _ _ _ (fun _ _ => True)); [lia|lia|apply vars_none; auto|]. intros feas nd n0 ep s0 HP Hep. counts HP.
  all: pso.
Qed.
Theorem C64_P_PSO E P n epochs : 5 <= n -> 0 < epochs ->
  sound_run E P Single (p_pso E P n epochs) (fun _ => True) true n n.
Proof.
  intros. apply (pso_elite _ _ _ _ _ _ _ _ (fun _ x => List.length (snd x) = n)); [lia|lia|apply vars_set; draws; auto|].
  intros feas nd n0 ep s0 HP Hep. counts HP.
  all: pso.
Qed.
Theorem C64_HPSO_TVAC E P ci cf n epochs : 5 <= n -> 0 < epochs ->
  sound_run E P Single (hpso_tvac E P ci cf n epochs) (fun _ => True) true n n.
Proof.
  intros. apply (pso_elite _ _ _ _ _ _ _ _ (fun _ x => List.length (snd x) = n)); [lia|lia|apply vars_set; draws; auto|].
  intros feas nd n0 ep s0 HP Hep. counts HP.
  all: pso.
Qed.
Theorem C64_CL_PSO_single E P c_local w_min w_max n epochs : 5 <= n -> 0 < epochs ->
  sound_run E P Single (cl_pso E P Single c_local w_min w_max n epochs) (fun _ => True) true n n.
Proof.
  intros. apply (pso_elite _ _ _ _ _ _ _ _ (fun _ _ => True)); [lia|lia|apply vars_none; auto|]. intros feas nd n0 ep s0 HP Hep.
  apply b0_blk. unfold cl_pso_evolve. cbv zeta. cbn [is_avail when].
  eapply b_mono with (a := n * 1 + 0) (b := n * 1 + 0); [|lia|lia|intros z T; exact T].
  eapply b_bind; [apply b_for_acc with (Φ := fun _ => True); [exact I|]|intros; apply b_ret; exact I].
  intros k acc Hk _.
  eapply b_qbind; [apply q_pop_seen; exact Hk|]. intros a (Ha & Hf & _).
  eapply b_qbind; [apply q_dims; intros j; quiet HP|]. intros d Hd.
  eapply b_qbind; [quiet HP|]. intros y0 Hy0. eapply b_qbind; [quiet HP|]. intros y Hy.
  eapply b_qbind with (Φ := fun _ => True).
  { unfold pso_gea, gea_with. quiet HP. }
  intros b _. eapply b_eval_keep; [exact HP|exact Hk|exact Hy|intros; eexists; reflexivity|].
  eapply b_qbind; [apply q_pop_seen; exact Hk|]. intros cur (Hc & Hcf & L & (t' & Et)). rewrite Et.
  eapply b_qbind; [apply q_lift with (Φ := fun _ => True); eexists; split; [reflexivity|exact I]|]. intros c _.
  eapply b_mono with (a := 0 + 0) (b := 0 + 0); [|lia|lia|intros z T; exact T].
  eapply b_bind; [eapply b_whenm|intros; apply b_ret; exact I].
  intros _. apply b_set_att with (E := E); [exact HP|exact Hk|intros; eexists; reflexivity].
Qed.
Lemma pso_free {X} E P n epochs srt iv ev (XP : X -> Prop) (IX : list vec -> X -> Prop) kmin kmax : 0 < n -> 0 < epochs ->
  vars_contract XP IX iv ->
  (forall feas nd n0 ep s0 w, params E P feas particle_ok (false = true /\ obj_num P feas) -> ga_ok P feas particle_ok (pso_ga (X := X) E P) -> 1 <= ep ->
     gt P feas particle_ok (eq n) IX (false = true /\ obj_num P feas) nd n0 n s0 w kmin kmax (ev ep) (fun _ _ => True)) ->
  sound_run E P Single (agent_algo E Single (pso_gea E P) (pso_ga E P) n epochs srt iv (ret tt) ev) XP false kmin kmax.
Proof.
  intros Hn He Hv H. apply gen_plain.
  apply (sound_agents_st E P Single (pso_gea E P) (pso_ga E P) n epochs srt iv (ret tt) ev XP (fun _ => True) (fun _ => True)
           (fun _ => particle_ok) (fun _ => IX) (fun _ => IX)); auto.
  - intros feas rows Hav. discriminate Hav.
  - intros feas Hp. apply pso_ga_ok, Hp.
  - intros feas nd n0 s HP HH HI. eapply main_none; exact HI.
  - intros feas nd n0 HP HH. apply contract_free. intros ep s0 w Hep _. apply H; auto. apply pso_ga_ok, HP.
Qed.
Theorem C65_C_PSO E P c1 c2 w_min w_max n epochs : 5 <= n -> 0 < epochs ->
  sound_run E P Single (c_pso E P c1 c2 w_min w_max n epochs) (fun _ => True) false (n + 1 + (n - n / 5)) (n + 1 + (n - n / 5)).
Proof.
  intros. apply (pso_free _ _ _ _ _ _ _ _ (fun _ _ => True)); [lia|lia|apply vars_set; draws; auto|]. intros feas nd n0 ep s0 w HP Hga Hep.
  unfold c_pso_evolve. set (h := n / 5) in *. clearbody h. unfold pso_move.
  eapply g_mono with (a := n * 1 + (1 + ((n - h) + 0))) (b := n * 1 + (1 + ((n - h) + 0))); [|lia|lia|trivial].
  eapply g_qbind; [gquiet HP|]. intros fits _. eapply g_qbind; [gquiet HP|]. intros [lo hi] _.
  eapply g_bind; [free HP|gintros HP].
  { intros. eapply gq_qt; [exact HP|noc|pso]. }
  eapply g_qbind; [gquiet HP|]. intros b Hb. eapply g_qbind; [gquiet HP|]. intros y0 Hy0.
  eapply g_bind; [eapply g_get_target; [exact HP|noc|exact Hy0]|]. gintros HP. subst.
  eapply g_qbind with (Φ := fun _ => True).
  { eapply gq_lift; [exact HP|noc|]. rewrite (g_tgt _ _ _ _ _ Hb). eexists; split; [reflexivity|exact I]. }
  intros c _. eapply g_qbind; [gquiet HP|]. intros r _. eapply g_qbind; [gquiet HP|]. intros u _.
  eapply g_bind; [eapply g_population; [exact HP|noc|exact Hga]|]. gintros HP. free HP.
Qed.

Print Assumptions C64_OriginalPSO.
Print Assumptions C64_AIW_PSO.
Print Assumptions C64_LDW_PSO.
Print Assumptions C64_P_PSO.
Print Assumptions C64_HPSO_TVAC.
Print Assumptions C64_CL_PSO_single.
Print Assumptions C65_C_PSO.
