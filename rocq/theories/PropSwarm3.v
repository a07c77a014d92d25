(** C71: what a particle of CL_PSO remembers. *)
From Verif Require Import Prelude Fl MCore MHelp MAlg MAlg2 MAlg4 MClass4 SpecCore SpecRun PSelect PLogic PSolve PRun Demo AClass4 PropLost PropSwarm.

Section CL.
Variable E : env.
Variable P : problem.
(** The memory is the present state, and copying the target does not change it. *)
Definition settled (a : agent particle) : Prop := present a /\ exists t, tgt a = Some t /\ target_copy t = t.
Notation kq := (kq (X := unit) (Forall settled)).
Lemma fresh_copy x : target_copy (prob_target P x) = prob_target P x.
Proof. reflexivity. Qed.
Lemma ga_settled o : kq (pso_ga E P o) settled.
Proof.
  unfold pso_ga. eapply kq_bind with (Φ := fun a => loc (att a) = sol a).
  - unfold pso_gea, gea_with. eapply kq_bind with (Φ := fun _ => True); [destruct o; ks|]. intros x _.
    eapply kq_bind with (Φ := fun b => loc b = x); [|intros b Hb; apply kq_ret; exact Hb].
    eapply kq_bind with (Φ := fun _ => True); [ks|]. intros v _. apply kq_ret. reflexivity.
  - intros a Ha. eapply kq_bind; [apply kq_get_target|]. intros t ->. apply kq_ret. split; [split; [exact Ha|reflexivity]|].
    exists (prob_target P (sol a)). split; [reflexivity|apply fresh_copy].
Qed.
(** Writing an agent and reading it again. *)
Lemma kq_write_read {Y} idx b (f : agent particle -> M particle unit Y) Φ : settled b -> kq (f b) Φ ->
  kq (bindM (pop_set idx b) (fun _ => bindM (pop_at idx) f)) Φ.
Proof.
  intros Hb Hf s y s' H HK. unfold bindM at 1 in H. destruct (pop_set idx b s) as [[u s1]|e] eqn:E1; [|discriminate].
  destruct (kq_pop_set settled idx b Hb s u s1 E1 HK) as [HK1 _].
  assert (Hr : pop_at idx s1 = Ok (b, s1)).
  { cbv beta iota zeta delta [pop_set bindM get_pop lift setitem set_pop] in E1. destruct (idx <? List.length (s_pop s)) eqn:El; [|discriminate E1].
    injection E1 as _ <-. unfold pop_at, bindM, get_pop, lift, getitem. cbn. rewrite upd_nth_eq by (apply Nat.ltb_lt, El). reflexivity. }
  unfold bindM in H. rewrite Hr in H. apply (Hf s1 y s' H HK1).
Qed.
Lemma bind_assoc {A B C} (m : M particle unit A) (f : A -> M particle unit B) (g : B -> M particle unit C) s :
  bindM (bindM m f) g s = bindM m (fun x => bindM (f x) g) s.
Proof. unfold bindM. destruct (m s) as [[x s1]|e]; reflexivity. Qed.
Lemma kq_ext {Y} (m m' : M particle unit Y) Φ : (forall s, m s = m' s) -> kq m' Φ -> kq m Φ.
Proof. intros H Hk s y s' Hs. apply Hk. rewrite <- H. exact Hs. Qed.

Hypothesis Hmin : p_mm P = Min.
Lemma round_settled idx y v r : kq (
      t <- get_target P y ;;
      keep_better P false idx (mkAgent y (Some t) (mkParticle v y (Some t))) ;;;
      cur <- pop_at idx ;;
      c <- lift (compare_opt (Some t) (loc_t (att cur)) (p_mm P)) ;;
      when c (set_att idx (mkParticle (vel (att cur)) y (Some t))) ;;;
      ret r) (fun _ : list (agent particle) => True).
Proof.
  eapply kq_bind; [apply kq_get_target|]. intros t Ht. assert (Hc : target_copy t = t) by (rewrite Ht; apply fresh_copy). clear Ht.
  set (a := mkAgent y (Some t) (mkParticle v y (Some t))).
  assert (Ha : settled a) by (split; [split; reflexivity|exists t; split; [reflexivity|exact Hc]]).
  eapply kq_ext; [intros s; unfold keep_better; apply bind_assoc|].
  eapply kq_bind; [apply kq_pop_each|]. intros old Ho.
  eapply kq_ext; [intros s; apply bind_assoc|].
  eapply kq_bind with (Φ := fun b => settled b /\ exists t', tgt b = Some t' /\ flt (t_fit t) (t_fit t') = false).
  - apply kq_lift. intros b. rewrite Hmin. unfold get_better_agent, fitness, agent_copy. cbn.
    destruct Ho as [Ho (to & Et & Ec)]. rewrite Et. cbn. destruct (flt (t_fit to) (t_fit t)) eqn:El; intros [= <-].
    + rewrite Ec, <- Et. split; [|exists to; split; [exact Et|apply flt_asym, El]]. destruct old. split; [exact Ho|exists to; split; assumption].
    + rewrite Hc. split; [exact Ha|]. exists t. split; [reflexivity|apply flt_irrefl].
  - intros b [Hb (t' & Et & El)]. apply kq_write_read; [exact Hb|].
    eapply kq_bind with (Φ := fun c => c = false); [|intros c ->; ks].
    apply kq_lift. intros c. destruct Hb as [[_ ->] _]. rewrite Et, Hmin. cbn. rewrite El. intros [= <-]. reflexivity.
Qed.
(** Whenever a run of CL_PSO on a minimisation problem ends in the single mode, the remembered best position and target of
    every particle are its present position and target. *)
Theorem C71_CL_PSO_memory c_local w_min w_max n epochs tm starting s g s' :
  solve E P Single (cl_pso E P Single c_local w_min w_max n epochs) tm starting s = Ok (g, s') -> Forall present (s_pop s').
Proof.
  intros H. assert (HJ : Forall settled (s_pop s')); [|eapply Forall_impl; [|exact HJ]; intros a [Ha _]; exact Ha].
  revert H. apply kept; [apply ga_settled|ks|]. intros ep. unfold cl_pso_evolve. cbv zeta. cbn [is_avail].
  eapply kq_bind with (Φ := fun _ => True); [|intros l _; ks].
  apply kq_for_acc; [exact I|]. intros k b _.
  eapply kq_bind with (Φ := fun _ => True); [ks|intros a _].
  eapply kq_bind with (Φ := fun _ => True); [|intros d _]; [unfold dims; ks; unfold choose2; ks; unfold choice_noreplace; ks|].
  eapply kq_bind with (Φ := fun _ => True); [ks|intros y0 _].
  eapply kq_bind with (Φ := fun _ => True); [ks|intros y _].
  eapply kq_bind with (Φ := fun x => loc (att x) = y).
  - unfold pso_gea, gea_with. eapply kq_bind with (Φ := fun x => x = y); [apply kq_ret; reflexivity|]. intros x ->.
    eapply kq_bind with (Φ := fun b => loc b = y); [|intros z Hz; apply kq_ret; exact Hz].
    eapply kq_bind with (Φ := fun _ => True); [ks|]. intros v _. apply kq_ret. reflexivity.
  - intros x Hx. rewrite Hx. apply round_settled.
Qed.
End CL.

(** In a maximisation problem this fails: a new position that is only as good as the present one is remembered, but not taken. *)
Definition strays (r : res (agent particle * st particle unit)) : bool :=
  match r with Ok (_, s') => existsb (fun a => existsb (fun p => negb (feq (fst p) (snd p))) (combine (loc (att a)) (sol a))) (s_pop s') | Err _ => false end.
Definition flat_prob (mm : minmax) : problem := demo_prob mm (fun _ => fZ 1) true.
Theorem C71_CL_PSO_memory_refuted : exists E P c_local w_min w_max n epochs s g s',
  p_mm P = Max /\ solve E P Single (cl_pso E P Single c_local w_min w_max n epochs) None None s = Ok (g, s') /\
  exists a p, In a (s_pop s') /\ In p (combine (loc (att a)) (sol a)) /\ feq (fst p) (snd p) = false.
Proof.
  assert (T : strays (solve (mix_env 1) (flat_prob Max) Single (cl_pso (mix_env 1) (flat_prob Max) Single (fZ 2) (dec 4 10) (dec 9 10) 5 3) None None (st0 tt)) = true) by (vm_compute; reflexivity).
  exists (mix_env 1), (flat_prob Max), (fZ 2), (dec 4 10), (dec 9 10), 5, 3, (st0 tt). unfold strays in T.
  destruct (solve _ _ _ _ _ _ _) as [[g s']|e]; [|discriminate]. exists g, s'. split; [reflexivity|]. split; [reflexivity|].
  apply existsb_exists in T. destruct T as (a & Ha & T). apply existsb_exists in T. destruct T as (p & Hp & T).
  exists a, p. split; [exact Ha|]. split; [exact Hp|]. apply negb_true_iff, T.
Qed.
(** The same settings on the minimisation problem give a run that returns. *)
Example C71_CL_PSO_memory_case : exists g s',
  solve (mix_env 1) (far_prob 3 4) Single (cl_pso (mix_env 1) (far_prob 3 4) Single (fZ 2) (dec 4 10) (dec 9 10) 5 3) None None (st0 tt) = Ok (g, s')
  /\ Forall present (s_pop s') /\ s_pop s' <> [].
Proof.
  assert (T : match solve (mix_env 1) (far_prob 3 4) Single (cl_pso (mix_env 1) (far_prob 3 4) Single (fZ 2) (dec 4 10) (dec 9 10) 5 3) None None (st0 tt) with Ok (_, s') => 5 =? List.length (s_pop s') | Err _ => false end = true) by (vm_compute; reflexivity).
  destruct (solve _ _ _ _ _ _ _) as [[g s']|e] eqn:Es; [|discriminate]. exists g, s'. split; [reflexivity|].
  split; [|intros H; rewrite H in T; discriminate]. revert Es. apply C71_CL_PSO_memory. reflexivity.
Qed.

Print Assumptions C71_CL_PSO_memory.
Print Assumptions C71_CL_PSO_memory_refuted.
