(** C64, C68: CL_PSO in the parallel modes. *)
From Verif Require Import Prelude Fl MCore MHelp MAlg MAlg2 MAlg4 MClass4 SpecCore SpecRun PSelect PLogic PSolve PRun SpecAlg PAlg PFree PClass PAlg2 PAlg3 PAlg4 PAny PPart PElse PRef PFail PHeap Demo AClass4 PropLost PropSwarm PropGA PropNever MClass10 MClass14.

(** ** Two classes that agree while all agents satisfy [J], in any mode *)
Section Runs.
Context {A X : Type}.
Variable J : agent A -> Prop.
Variable E : env.
Variable P : problem.
Variable md : mode.
Notation M := (M A X).
Notation kq := (kq (X := X) (Forall J)).
Notation sm := (sm (X := X) J).
Lemma kq_child {Y} (m : M Y) (Φ : Y -> Prop) : kq m Φ -> kq (in_child m) Φ.
Proof.
  intros H s y s'. unfold in_child. destruct (m s) as [[z s1]|] eqn:Em; [|discriminate]. intros [= <- <-] Hs. cbn [s_pop]. split; [exact Hs|].
  exact (proj2 (H _ _ _ Em Hs)).
Qed.
Lemma kq_init_md ga n : (forall o, kq (ga o) J) -> kq (default_initialization E md ga n) (fun _ => True).
Proof.
  intros H. unfold default_initialization. eapply kq_bind; [apply kq_get_pop|]. intros p Hp. destruct p; [|ks].
  eapply kq_bind with (Φ := Forall J); [|intros l Hl; apply kq_set_pop, Hl].
  unfold generate_population_with. destruct md; try (apply kq_repeat, H).
  all: eapply kq_bind with (Φ := fun _ => True); [ks|intros k _]; eapply kq_bind; [apply kq_repeat; try apply kq_child; apply H|]; intros l Hl; apply kq_ret, reorder_Forall, Hl.
Qed.
Variable gea ga : option vec -> M (agent A).
Variable n epochs : nat.
Variable iv : M unit.
Hypothesis Hga : forall o, kq (ga o) J.
Hypothesis Hiv : kq iv (fun _ => True).
Notation al ev := (agent_algo E md gea ga n epochs false iv (ret tt) ev).
Lemma same_par ev ev' tm s : (forall ep, kq (ev ep) (fun _ => True)) -> (forall ep, sm (ev ep) (ev' ep)) ->
  solve E P md (al ev) tm None s = solve E P md (al ev') tm None s.
Proof.
  intros H1 H2. unfold solve. cbn [agent_algo al_init_vars al_init al_sort al_before_main al_epoch].
  unfold bindM at 1. symmetry. unfold bindM at 1. symmetry. destruct (check_problem s) as [[u s0]|] eqn:E0; [|reflexivity]. apply (kq_check J) in E0.
  match goal with |- ?m s0 = ?m' s0 => assert (K : sm m m'); [|exact (K s0 E0)] end.
  eapply sm_bind with (Φ := fun _ => True); [apply sm_refl|unfold check_termination_start; ks|intros tm' _].
  eapply sm_bind with (Φ := fun _ => True); [apply sm_refl|exact Hiv|intros _ _].
  eapply sm_bind with (Φ := fun _ => True); [apply sm_refl|cbn [before_initialization]; ks|intros _ _].
  eapply sm_bind with (Φ := fun _ => True); [apply sm_refl|apply kq_init_md; exact Hga|intros _ _].
  eapply sm_bind with (Φ := fun _ => True); [apply sm_refl|apply kq_after|intros _ _].
  eapply sm_bind with (Φ := fun _ => True); [apply sm_refl|ks|intros _ _].
  assert (S : forall tm ep, kq (epoch_step E P (al ev) tm ep) (fun _ => True)).
  { intros tm0 ep. unfold epoch_step. cbn [agent_algo al_evolve al_sort]. unfold update_global_best_agent, track_optimize_step, check_termination_end. ks. apply H1. }
  assert (Lk : forall m i, kq (main_loop E P (al ev) tm' m i) (fun _ => True)).
  { induction m as [|m IH]; intros i; cbn [main_loop]; [ks|]. ks; [apply S|apply IH]. }
  eapply sm_bind with (Φ := fun _ => True); [|apply Lk|intros _ _; apply sm_refl].
  assert (L : forall m i, sm (main_loop E P (al ev) tm' m i) (main_loop E P (al ev') tm' m i)); [|apply L].
  induction m as [|m IH]; intros i; cbn [main_loop]; [apply sm_refl|].
  eapply sm_bind with (Φ := fun _ => True); [|apply S|intros [r|] _; [apply sm_refl|apply IH]].
  unfold epoch_step. eapply sm_bind with (Φ := fun _ => True); [apply sm_refl|ks|intros k _].
  eapply sm_bind with (Φ := fun _ => True); [apply H2|apply H1|intros _ _; apply sm_refl].
Qed.
End Runs.

Lemma kq_for_len {A X B} (K : list (agent A) -> Prop) k : forall i (b : list B) (f : nat -> list B -> M A X (list B)),
  (forall j b, kq K (f j b) (fun r => List.length r = S (List.length b))) -> kq K (for_acc k i b f) (fun r => List.length r = k + List.length b).
Proof.
  induction k as [|k IH]; intros i b f H; cbn [for_acc]; [apply kq_ret; reflexivity|]. eapply kq_bind; [apply H|]. intros r Hr.
  eapply kq_mono; [apply IH, H|]. cbv beta in *. intros y Hy. lia.
Qed.
(** ** CL_PSO *)
Section Swarm.
Variable E : env.
Variable P : problem.
Variable md : mode.
Hypothesis Hmd : is_avail md = true.
(** A particle whose remembered target does not beat its present one. *)
Definition modest (a : agent particle) : Prop := exists t t', tgt a = Some t /\ loc_t (att a) = Some t' /\
  match p_mm P with Min => t' = t | _ => flt (t_fit t) (t_fit t') = false end.
Notation kq := (kq (X := unit) (Forall modest)).
Notation sm := (sm (X := unit) modest).
Definition beats (m o : agent particle) : bool := match tgt m, loc_t (att o) with Some t, Some t' => compare_target t t' (p_mm P) | _, _ => false end.
Definition recall (m q : agent particle) : agent particle := with_att q (mkParticle (vel (att q)) (sol m) (tgt m)).
Definition mark (m : agent particle) : agent particle := with_att m (mkParticle (vel (att m)) (loc (att m)) (tgt m)).
(** One particle after an epoch: [o] before, [m] the evaluated candidate. *)
Definition after (om : agent particle * agent particle) : agent particle :=
  let (o, m) := om in let q := greedy_pick (p_mm P) o (mark m) in if beats m o then recall m q else q.
Lemma after_pick o m : modest o -> has_target m -> (if beats m o then recall m (greedy_pick (p_mm P) o m) else greedy_pick (p_mm P) o m) = after (o, m) /\ modest (after (o, m)).
Proof.
  intros (t & t' & H1 & H2 & H3) Hm. unfold has_target in Hm. destruct (tgt m) as [tm|] eqn:Em; [|congruence]. unfold after, beats, compare_target. rewrite Em, H2.
  unfold greedy_pick, mark, recall, fit. cbn [with_att tgt]. rewrite Em, H1. unfold modest. destruct (p_mm P) eqn:Emm.
  - subst t'. destruct (flt (t_fit tm) (t_fit t)); split; try reflexivity; cbn.
    + exists tm, tm. rewrite Em. auto.
    + exists t, t. auto.
  - destruct (flt (t_fit t) (t_fit tm)) eqn:F1; destruct (flt (t_fit tm) (t_fit t')) eqn:F2; cbn [negb].
    + rewrite (flt_trans _ _ _ F1 F2) in H3. discriminate.
    + split; [reflexivity|]. cbn. exists tm, tm. rewrite Em, flt_irrefl. auto.
    + split; [reflexivity|]. exists t, t'. auto.
    + split; [reflexivity|]. cbn. exists t, tm. auto.
  - destruct (flt (t_fit t) (t_fit tm)) eqn:F1; destruct (flt (t_fit tm) (t_fit t')) eqn:F2; cbn [negb].
    + rewrite (flt_trans _ _ _ F1 F2) in H3. discriminate.
    + split; [reflexivity|]. cbn. exists tm, tm. rewrite Em, flt_irrefl. auto.
    + split; [reflexivity|]. exists t, t'. auto.
    + split; [reflexivity|]. cbn. exists t, tm. auto.
Qed.
(** The candidates of an epoch (PSO.py:763-784), and what is done with them (794-808). *)
Variables (c_local w_min w_max : f64) (n epochs : nat).
Definition cl_make (ep : nat) : M particle unit (list (agent particle)) :=
  let wk := (w_max * (fnat ep / fnat epochs) * (w_max - w_min))%F in
  for_acc n 0 [] (fun idx pop_new =>
    a <- pop_at idx ;;
    d <- dims P (fun j =>
      u <- rtest E "PSO:767" [[fnat idx]] ;;
      if u : bool then rnum E "PSO:768-769" [sol a; loc (att a); vel (att a); [fnat j; wk; c_local]]
      else
        '(i1, i2) <- choose2 E (others n [idx]) ;;
        b1 <- pop_at i1 ;;
        b2 <- pop_at i2 ;;
        c <- lift (compare_agents b1 b2 (p_mm P)) ;;
        rnum E "PSO:773-777" [sol a; (if c : bool then loc (att b1) else loc (att b2)); vel (att a); [fnat j; wk; c_local]]) ;;
    y0 <- correct_solution P (vform E P "PSO:779-780" [sol a; d]) ;;
    y <- correct_solution P y0 ;;
    b <- pso_gea E P (Some y) ;;
    ret (pop_new ++ [b])).
Definition cl_fix (p l q : list (agent particle)) : M particle unit (list (agent particle)) :=
  for_acc n 0 q (fun idx q =>
       a <- lift (getitem l idx) ;;
       old <- lift (getitem p idx) ;;
       c <- lift (compare_opt (tgt a) (loc_t (att old)) (p_mm P)) ;;
       b <- lift (getitem q idx) ;;
       ret (if c : bool then upd q idx (with_att b (mkParticle (vel (att b)) (sol a) (tgt a))) else q)).
Lemma cl_eq ep : cl_pso_evolve E P md c_local w_min w_max n epochs ep =
  (pop_new <- cl_make ep ;; l <- update_target_for_population P md pop_new ;; p <- get_pop ;; q <- lift (greedy_selection_population p l (p_mm P)) ;; q' <- cl_fix p l q ;; set_pop q').
Proof. unfold cl_pso_evolve. rewrite Hmd. reflexivity. Qed.
(** The same epoch in one step. *)
Definition cl_step (ep : nat) : M particle unit unit :=
  pop_new <- cl_make ep ;; l <- update_target_for_population P md pop_new ;; p <- get_pop ;; 
  if List.length p =? List.length l then set_pop (map after (combine p l)) else raise ValueError.

Lemma make_kq ep : kq (cl_make ep) (fun l => List.length l = n).
Proof.
  unfold cl_make. cbv zeta. eapply kq_mono; [apply kq_for_len|cbn; intros; lia]. intros j b.
  eapply kq_bind with (Φ := fun _ => True); [ks|intros a _].
  eapply kq_bind with (Φ := fun _ => True); [|intros d _]; [unfold dims; ks; unfold choose2; ks; unfold choice_noreplace; ks|].
  eapply kq_bind with (Φ := fun _ => True); [ks|intros y0 _].
  eapply kq_bind with (Φ := fun _ => True); [ks|intros y _].
  eapply kq_bind with (Φ := fun _ => True); [unfold pso_gea, gea_with; ks|intros x _].
  apply kq_ret. rewrite app_length. cbn. lia.
Qed.
Lemma update_kq l : kq (update_target_for_population P md l) (fun r => r = map (fun a => with_tgt a (prob_target P (sol a))) l).
Proof.
  intros s y s' Es Hs. assert (W : wp (update_target_for_population P md l) (fun r s1 => r = map (fun a => with_tgt a (prob_target P (sol a))) l /\ s_pop s1 = s_pop s) s)
    by (apply wp_update_target_avail; auto). unfold wp in W. rewrite Es in W. destruct W as [-> ->]. auto.
Qed.
Lemma tgt_has (l : list (agent particle)) : Forall has_target (map (fun a => with_tgt a (prob_target P (sol a))) l).
Proof. apply Forall_map, Forall_forall. intros a _. discriminate. Qed.
Lemma fix_loop : forall (p l : list (agent particle)) q0 p0 l0 (s : st particle unit), Forall modest p -> Forall has_target l -> List.length p = List.length l ->
  List.length p0 = List.length q0 -> List.length l0 = List.length q0 ->
  for_acc (List.length p) (List.length q0) (q0 ++ map (fun om => greedy_pick (p_mm P) (fst om) (snd om)) (combine p l)) (fun idx q =>
       a <- lift (getitem (l0 ++ l) idx) ;;
       old <- lift (getitem (p0 ++ p) idx) ;;
       c <- lift (compare_opt (tgt a) (loc_t (att old)) (p_mm P)) ;;
       b <- lift (getitem q idx) ;;
       ret (if c : bool then upd q idx (with_att b (mkParticle (vel (att b)) (sol a) (tgt a))) else q)) s = Ok (q0 ++ map after (combine p l), s).
Proof.
  induction p as [|o p IH]; intros [|m l] q0 p0 l0 s Fp Fl Hl Hp0 Hl0; try discriminate; [reflexivity|].
  inversion Fp as [|? ? Ho Fp']; subst. inversion Fl as [|? ? Hm Fl']; subst. cbn [List.length for_acc combine map fst snd].
  assert (G : forall (u v : list (agent particle)) x k, List.length u = k -> getitem (u ++ x :: v) k = Ok x).
  { intros u v x k <-. unfold getitem. rewrite nth_error_app2, Nat.sub_diag by lia. reflexivity. }
  assert (U : forall (u v : list (agent particle)) x y, upd (u ++ x :: v) (List.length u) y = u ++ y :: v).
  { intros u v x y. induction u as [|z u IHu]; cbn; [reflexivity|]. rewrite IHu. reflexivity. }
  unfold bindM at 1. unfold bindM at 1. rewrite (G l0 l m _ Hl0). cbn [lift]. unfold bindM at 1. rewrite (G p0 p o _ Hp0). cbn [lift].
  pose proof Ho as (t & t' & H1 & H2 & _). pose proof Hm as Hm'. unfold has_target in Hm'. destruct (tgt m) as [tm|] eqn:Em; [|congruence].
  unfold bindM at 1. rewrite H2. cbn [compare_opt lift]. unfold bindM at 1. rewrite G by reflexivity. cbn [lift ret].
  replace (compare_target tm t' (p_mm P)) with (beats m o) by (unfold beats; rewrite Em, H2; reflexivity).
  destruct (after_pick o m Ho Hm) as [Ea _].
  replace (if beats m o then _ else _) with ((q0 ++ [after (o, m)]) ++ map (fun om => greedy_pick (p_mm P) (fst om) (snd om)) (combine p l)).
  2: { rewrite <- app_assoc. cbn [app]. rewrite <- Ea. destruct (beats m o); [|reflexivity]. rewrite U. unfold recall. rewrite Em. reflexivity. }
  specialize (IH l (q0 ++ [after (o, m)]) (p0 ++ [o]) (l0 ++ [m]) s Fp' Fl').
  rewrite !app_length in IH. cbn [List.length] in *. rewrite !Nat.add_1_r in IH. rewrite <- !app_assoc in IH. cbn [app] in IH. rewrite <- !app_assoc. cbn [app]. apply IH; lia.
Qed.
Lemma step_sm ep : sm (cl_pso_evolve E P md c_local w_min w_max n epochs ep) (cl_step ep).
Proof.
  rewrite cl_eq. unfold cl_step. eapply sm_bind; [apply sm_refl|apply make_kq|]. intros new Hnew.
  eapply sm_bind; [apply sm_refl|apply update_kq|]. intros l ->. eapply sm_bind; [apply sm_refl|apply kq_get_pop|]. intros p Hp s Hs.
  set (l := map _ new). assert (Ht : Forall has_target l) by apply tgt_has.
  destruct (List.length p =? List.length l) eqn:El.
  - apply Nat.eqb_eq in El. assert (Hpt : Forall has_target p). { eapply Forall_impl; [|exact Hp]. intros a (t & ? & H & _). unfold has_target. congruence. }
    unfold bindM at 1. rewrite greedy_ok by assumption. cbn [lift]. unfold bindM at 1. unfold cl_fix.
    pose proof (fix_loop p l [] [] [] s Hp Ht El eq_refl eq_refl) as F. cbn [app List.length] in F.
    assert (Hpn : List.length p = n) by (rewrite El; unfold l; rewrite map_length; exact Hnew). rewrite Hpn in F. rewrite F. reflexivity.
  - unfold bindM at 1. unfold greedy_selection_population. rewrite El. reflexivity.
Qed.
Lemma step_kq ep : kq (cl_step ep) (fun _ => True).
Proof.
  unfold cl_step. eapply kq_bind; [apply make_kq|]. intros new Hnew. eapply kq_bind; [apply update_kq|]. intros l ->. eapply kq_bind; [apply kq_get_pop|]. intros p Hp.
  set (l := map _ new). assert (Ht : Forall has_target l) by apply tgt_has. destruct (_ =? _); [|apply kq_raise]. apply kq_set_pop, Forall_map, Forall_forall. intros [o m] Hi.
  apply after_pick; [rewrite Forall_forall in Hp; apply Hp; eapply in_combine_l; exact Hi|rewrite Forall_forall in Ht; apply Ht; eapply in_combine_r; exact Hi].
Qed.
Lemma evolve_kq ep : kq (cl_pso_evolve E P md c_local w_min w_max n epochs ep) (fun _ => True).
Proof. intros s y s' Es Hs. rewrite (step_sm ep s Hs) in Es. exact (step_kq ep _ _ _ Es Hs). Qed.
Lemma ga_kq o : kq (pso_ga E P o) modest.
Proof.
  unfold pso_ga. eapply kq_bind with (Φ := fun _ => True); [unfold pso_gea, gea_with; ks|intros a _]. eapply kq_bind; [apply kq_get_target|]. intros t _.
  apply kq_ret. exists t, t. cbn. repeat split. destruct (p_mm P); [reflexivity|apply flt_irrefl..].
Qed.
Lemma cl_same tm s : solve E P md (cl_pso E P md c_local w_min w_max n epochs) tm None s =
  solve E P md (agent_algo E md (pso_gea E P) (pso_ga E P) n epochs false (ret tt) (ret tt) cl_step) tm None s.
Proof. apply (same_par modest); [apply ga_kq|ks|apply evolve_kq|apply step_sm]. Qed.
End Swarm.
Section Sound.
Variables (E : env) (P : problem) (md : mode) (feas : vec -> Prop) (IX : list vec -> unit -> Prop) (cov : Prop) (nd n0 n : nat) (s0 : st particle unit).
Hypothesis HP : params E P feas particle_ok cov.
Hypothesis Hmd : is_avail md = true.
Hypothesis Hn : 5 <= n.
Notation qt := (qt P feas particle_ok (eq n) IX cov nd n0 n s0).
Notation R := (R P feas particle_ok (eq n) IX cov nd n0 n s0).
Lemma q_make c_local w_min w_max epochs ep : qt (cl_make E P c_local w_min w_max n epochs ep) (fun l => List.length l = n /\ Forall (fun a => feas (sol a)) l).
Proof.
  unfold cl_make. cbv zeta. eapply q_mono; [eapply q_for_acc with (I := fun k l => List.length l = k /\ Forall (fun a => feas (sol a)) l)|].
  - split; [reflexivity|constructor].
  - intros k l Hk (Hl & Fl). eapply q_bind; [apply q_pop_seen; lia|]. intros a (Ha & Hf & _).
    eapply q_bind; [apply q_dims; intros j; quiet HP|]. intros d Hd. eapply q_bind; [quiet HP|]. intros y0 Hy0. eapply q_bind; [quiet HP|]. intros y Hy.
    eapply q_bind with (Φ := fun b => feas (sol b)); [|intros b Hb; apply q_ret].
    { unfold pso_gea, gea_with. eapply q_bind with (Φ := eq y); [apply q_ret; reflexivity|]. intros ? <-. eapply q_bind with (Φ := fun _ => True); [quiet HP|]. intros ? _. apply q_ret. exact Hy. }
    split; [rewrite app_length; cbn; lia|apply Forall_app; auto].
  - intros l Hl. exact Hl.
Qed.
Lemma b_step c_local w_min w_max epochs ep : blk P feas particle_ok (eq n) IX cov nd n0 n s0 n n (cl_step E P md c_local w_min w_max n epochs ep) (fun _ => True).
Proof.
  unfold cl_step. intros W l s HR. apply wp_bind. eapply wp_mono; [eapply q_make; exact HR|]. cbv beta. intros new s1 ((Ln & Fn) & N1).
  pose proof (R_near _ _ _ _ _ _ _ _ _ _ _ _ _ _ HR N1) as R1.
  apply wp_bind, wp_update_target_avail; [exact Hmd|]. intros l1 ->.
  set (pre := map (fun a => with_att a (mkParticle (vel (att a)) (loc (att a)) (Some (prob_target P (sol a))))) new).
  assert (Es : map sol new = map sol pre) by (unfold pre; rewrite map_map; reflexivity).
  assert (Fp : Forall (PAlg.fresh_agent feas particle_ok) pre).
  { unfold pre. apply Forall_map. eapply Forall_impl; [|exact Fn]. intros a Ha. split; [exact Ha|]. intros L _. eexists. reflexivity. }
  destruct (PAlg.R_batch E P feas particle_ok (eq n) IX cov nd n0 n s0 HP W l s1 pre R1 Fp) as [R2 G2]. rewrite <- Es in *.
  assert (El : map (fun a => with_tgt a (prob_target P (sol a))) pre = map mark (map (fun a => with_tgt a (prob_target P (sol a))) new)).
  { unfold pre. rewrite !map_map. reflexivity. }
  rewrite El in *. set (l1 := map (fun a => with_tgt a (prob_target P (sol a))) new) in *. set (s2 := evald s1 (map sol new)) in *. apply wp_bind, wp_get_pop.
  assert (L1 : List.length l1 = n) by (unfold l1; rewrite map_length; exact Ln). clear El. replace (List.length pre) with n in R2 by (unfold pre; rewrite map_length; lia). change (s_log s1 ++ map sol new) with (s_log s2) in G2. clearbody l1 s2.
  pose proof R2 as (V2 & Hp2 & Hl2). rewrite Hp2, L1, Nat.eqb_refl. unfold wp, set_pop. split; [exact I|]. exists n. split; [lia|].
  pose proof (v_good _ _ _ _ _ _ _ _ _ _ _ V2) as Gp. pose proof (v_W _ _ _ _ _ _ _ _ _ _ _ V2) as GW. apply Forall_app in GW. destruct GW as [GW _].
  destruct (greedy_covers E P feas particle_ok cov HP (s_log s2) (s_pop s2) (map mark l1)) as (r & Er & Lr & Gr & Cr); [exact Gp|exact G2|rewrite map_length; lia|].
  rewrite greedy_ok in Er; [|eapply Forall_good_target; exact Gp|eapply Forall_good_target; exact G2|rewrite map_length; lia]. injection Er as <-.
  assert (Hs : forall om, In om (combine (s_pop s2) l1) -> In (greedy_pick (p_mm P) (fst om) (mark (snd om))) (map (fun on => greedy_pick (p_mm P) (fst on) (snd on)) (combine (s_pop s2) (map mark l1)))).
  { intros [o m] Hi. apply in_map_iff. exists (o, mark m). split; [reflexivity|]. clear -Hi. revert l1 Hi. induction (s_pop s2) as [|a p IH]; intros [|b l1] Hi; cbn in *; auto.
    destruct Hi as [H|H]; [injection H as <- <-; left; reflexivity|right; apply IH, H]. }
  assert (Hb : forall om, fit (after P om) = fit (greedy_pick (p_mm P) (fst om) (mark (snd om)))). { intros [o m]. cbn [after fst snd]. destruct (beats P m o); reflexivity. }
  split; [|split; [cbn [s_pop with_pop]; rewrite map_length, combine_length; lia|cbn [s_log with_pop]; lia]].
  apply Ev_set with (W := W ++ map mark l1); [exact V2| | |].
  - intros a Ha. apply in_map_iff in Ha. destruct Ha as ([o m] & <- & Hi). rewrite Forall_forall in Gr. pose proof (Gr _ (Hs _ Hi)) as G. cbn [fst snd] in G. cbn [after].
    destruct (beats P m o) eqn:Eb; [|exact G]. destruct G as [g1 g2 g3 g4]. constructor; auto. unfold beats in Eb. destruct (tgt m) as [t|] eqn:Em; [|discriminate]. exists t. exact Em.
  - rewrite Forall_forall in GW. exact GW.
  - intros C g a Hg Ha. right.
    assert (K : forall x, In x (s_pop s2 ++ map mark l1) -> exists b, In b (map (after P) (combine (s_pop s2) l1)) /\ no_worse (p_mm P) (fit b) (fit x)).
    { intros x Hx. destruct (Cr C x Hx) as (b & Hbi & Hnw). apply in_map_iff in Hbi. destruct Hbi as ([o m'] & <- & Hi).
      assert (Hm : exists m, m' = mark m /\ In (o, m) (combine (s_pop s2) l1)).
      { clear -Hi. revert l1 Hi. induction (s_pop s2) as [|a p IH]; intros [|b l1] Hi; cbn in *; try contradiction.
        destruct Hi as [H|H]; [injection H as <- <-; exists b; auto|]. destruct (IH _ H) as (m & ? & ?). exists m. auto. }
      destruct Hm as (m & -> & Hi'). exists (after P (o, m)). split; [apply in_map, Hi'|]. rewrite Hb. exact Hnw. }
    apply in_app_or in Ha. destruct Ha as [Ha|Ha]; [destruct (K a) as (b & ? & ?); [apply in_or_app; auto|exists b; split; [apply in_or_app; auto|assumption]]|].
    apply in_app_or in Ha. destruct Ha as [Ha|Ha].
    + exists a. split; [apply in_or_app; auto|]. apply no_worse_refl; [exact (pr_mm _ _ _ _ _ HP)|]. eapply good_num; [exact (pr_cov _ _ _ _ _ HP C)|]. rewrite Forall_forall in GW. apply GW, Ha.
    + destruct (K a) as (b & ? & ?); [apply in_or_app; auto|]. exists b. split; [apply in_or_app; auto|assumption].
Qed.
End Sound.
(** Every mode; in a parallel mode without starting solutions. *)
Theorem C64_CL_PSO E P md c_local w_min w_max n epochs : 5 <= n -> 0 < epochs ->
  sound_run_gen E P md (cl_pso E P md c_local w_min w_max n epochs) (fun _ => True) (fun _ => True)
    (fun starting => is_avail md = true -> starting = None) (eq n) true n n n n.
Proof.
  intros Hn He. destruct (is_avail md) eqn:Em.
  - assert (T : sound_run_gen E P md (agent_algo E md (pso_gea E P) (pso_ga E P) n epochs false (ret tt) (ret tt) (cl_step E P md c_local w_min w_max n epochs)) (fun _ => True) (fun _ => True)
      (fun starting => true = true -> starting = None) (eq n) true n n n n).
    { apply (sound_agents_st E P md (pso_gea E P) (pso_ga E P) n epochs false (ret tt) (ret tt) (cl_step E P md c_local w_min w_max n epochs) (fun _ => True) (fun _ => True)
           (fun starting => true = true -> starting = None) (fun _ => particle_ok) (fun _ _ _ => True) (fun _ _ _ => True)); try lia.
      - intros feas L L' a _ T; exact T.
      - intros feas rows Hav Hst. discriminate (Hst eq_refl).
      - intros feas Hp. apply pso_ga_ok, Hp.
      - intros feas Hp. apply vars_none; auto.
      - intros feas nd n0 s HP HH HI. eapply main_none; exact HI.
      - intros feas nd n0 HP HH. eapply contract_of; [exact HP|]. intros ep s0 Hep _. apply b0_blk, b_step; auto. }
    intros feas tm starting s H1 H2 H3 H4 H5 H6 H7. rewrite (H6 eq_refl) in *. rewrite cl_same by exact Em. apply (T feas tm None s); auto.
  - assert (Hs : md = Single) by (destruct md; try discriminate Em; reflexivity). subst md.
    intros feas tm starting s H1 H2 H3 H4 H5 _ H7. exact (C64_CL_PSO_single E P c_local w_min w_max n epochs Hn He feas tm starting s H1 H2 H3 H5 H7).
Qed.
(** ** Starting solutions in a parallel mode *)
Lemma stage {A X Y Z} (m : M A X Y) (f : Y -> M A X Z) (Q : st A X -> Prop) s z s' : bindM m f s = Ok (z, s') -> (forall y s1, m s = Ok (y, s1) -> Q s1) ->
  exists y s1, f y s1 = Ok (z, s') /\ Q s1.
Proof. unfold bindM. destruct (m s) as [[y s1]|]; [|discriminate]. eauto. Qed.
(** The agents are made by generate_empty_agent; if these make the first epoch raise, no run returns. *)
Section Start.
Context {A X : Type}.
Variable J : agent A -> Prop.
Variable K : list (agent A) -> Prop.
Variable E : env.
Variable P : problem.
Variable md : mode.
Variable gea ga : option vec -> M A X (agent A).
Variable n epochs : nat.
Variable srt : bool.
Variable iv bm : M A X unit.
Variable ev : nat -> M A X unit.
Hypothesis Hmd : is_avail md = true.
Hypothesis He : 0 < epochs.
Hypothesis HJ : forall a t, J a -> J (with_tgt a t).
Hypothesis HK : forall p, p <> [] -> Forall J p -> K p.
Hypothesis Hgea : forall r, kq (Forall J) (gea (Some r)) J.
Hypothesis Hiv : kq (Forall J) iv (fun _ => True).
Hypothesis Haf : kq (X := X) K (after_initialization E P srt) (fun _ => True).
Hypothesis Hbm : kq K bm (fun _ => True).
Hypothesis Hev : kq K (ev 1) (fun _ => False).
Notation al := (agent_algo E md gea ga n epochs srt iv bm ev).
Lemma before_start rows s u s' : before_initialization P md al (Some rows) s = Ok (u, s') -> Forall J (s_pop s) -> s_pop s' <> [] /\ K (s_pop s').
Proof.
  unfold before_initialization. destruct (_ =? _); [|discriminate]. destruct rows as [|r0 rows]; [discriminate|]. destruct (_ =? _); [|discriminate]. rewrite Hmd.
  intros Es Hs.
  assert (L : kq (Forall J) (for_list (r0 :: rows) [] (fun r acc => a <- al_gea al (Some r) ;; ret (acc ++ [a]))) (fun l => l <> [] /\ Forall J l)).
  { cbn [for_list]. eapply kq_bind with (Φ := fun l => l <> [] /\ Forall J l).
    - eapply kq_bind; [apply Hgea|]. intros a Ha. apply kq_ret. split; [discriminate|repeat constructor; exact Ha].
    - intros l Hl. apply (kq_for_list _ (fun l => l <> [] /\ Forall J l)); [exact Hl|]. intros r acc (H1 & H2). eapply kq_bind; [apply Hgea|]. intros a Ha. apply kq_ret.
      split; [destruct acc; discriminate|apply Forall_app; auto]. }
  unfold bindM at 1 in Es. destruct (for_list _ _ _ s) as [[l s1]|] eqn:E1; [|discriminate]. destruct (L _ _ _ E1 Hs) as (_ & Hl & Fl). clear L E1.
  unfold bindM at 1 in Es. cbn [set_pop] in Es. unfold bindM at 1 in Es. 
  match type of Es with match ?m with _ => _ end = _ => destruct m as [[l' s2]|] eqn:E2; [|discriminate] end.
  match type of E2 with update_target_for_population _ _ _ ?s = _ =>
    assert (W : wp (update_target_for_population P md l) (fun r s1 => r = map (fun a => with_tgt a (prob_target P (sol a))) l) s) by (apply wp_update_target_avail; auto) end.
  unfold wp in W. rewrite E2 in W. subst l'. injection Es as _ <-. cbn [s_pop].
  assert (N : map (fun a => with_tgt a (prob_target P (sol a))) l <> []) by (destruct l; [congruence|discriminate]). split; [exact N|].
  apply HK; [exact N|]. apply Forall_map. eapply Forall_impl; [|exact Fl]. intros a Ha. apply HJ, Ha.
Qed.
Lemma never_start tm rows s : never (solve E P md al tm (Some rows) s).
Proof.
  unfold never. destruct (solve _ _ _ _ _ _ _) as [[g sf]|e] eqn:Es; [exfalso|eauto]. unfold solve in Es.
  pose (Q := fun s : st A X => Forall J (s_pop s)). pose (Q' := fun s : st A X => K (s_pop s)).
  apply (stage _ _ Q) in Es; [|intros ? ? [= _ <-]; constructor]. destruct Es as (u1 & s1 & Es & H1).
  apply (stage _ _ Q) in Es; [|intros ? ? E1; assert (L : kq (X := X) (Forall J) (check_termination_start E tm) (fun _ => True)) by (unfold check_termination_start; ks); exact (proj1 (L _ _ _ E1 H1))].
  destruct Es as (tm' & s2 & Es & H2).
  apply (stage _ _ Q) in Es; [|intros ? ? E1; exact (proj1 (Hiv _ _ _ E1 H2))]. destruct Es as (u3 & s3 & Es & H3).
  apply (stage _ _ (fun s => s_pop s <> [] /\ Q' s)) in Es; [|intros ? ? E1; eapply before_start; [exact E1|exact H3]]. destruct Es as (u4 & s4 & Es & N4 & H4).
  apply (stage _ _ Q') in Es.
  2: { intros y s5. cbn [agent_algo al_init]. unfold default_initialization, bindM. cbn [get_pop]. destruct (s_pop s4) eqn:Ep; [congruence|]. intros [= _ <-]. exact H4. }
  destruct Es as (u5 & s5 & Es & H5).
  apply (stage _ _ Q') in Es; [|intros ? ? E1; exact (proj1 (Haf _ _ _ E1 H5))]. destruct Es as (u6 & s6 & Es & H6).
  apply (stage _ _ Q') in Es; [|intros ? ? E1; exact (proj1 (Hbm _ _ _ E1 H6))]. destruct Es as (u7 & s7 & Es & H7).
  unfold bindM at 1 in Es. destruct (main_loop _ _ _ _ _ _ s7) as [[u8 s8]|] eqn:E8; [|discriminate]. clear Es. cbn [agent_algo al_epoch] in E8.
  assert (L : kq K (main_loop E P al tm' epochs 1) (fun _ => False)); [|exact (proj2 (L _ _ _ E8 H7))].
  destruct epochs as [|m]; [lia|]. cbn [main_loop]. eapply kq_bind with (Φ := fun _ => False); [|intros ? []].
  unfold epoch_step. eapply kq_bind with (Φ := fun _ => True); [ks|intros k _]. eapply kq_bind; [apply Hev|intros ? []].
Qed.
End Start.
(** With starting solutions in a parallel mode no run returns: the agents made from them have no local target. *)
Definition blank (a : agent particle) : Prop := loc_t (att a) = None.
Section Blank.
Variable E : env.
Variable P : problem.
Variable md : mode.
Hypothesis Hmd : is_avail md = true.
Variables (c_local w_min w_max : f64) (n epochs : nat).
Hypothesis Hn : 0 < n.
Notation kq := (kq (X := unit) (Forall blank)).
Lemma gea_blank o : kq (pso_gea E P o) blank.
Proof.
  unfold pso_gea, gea_with. eapply kq_bind with (Φ := fun _ => True); [destruct o; ks|intros x _].
  eapply kq_bind with (Φ := fun b => loc_t b = None); [eapply kq_bind with (Φ := fun _ => True); [ks|intros v _]; apply kq_ret; reflexivity|].
  intros b Hb. apply kq_ret. exact Hb.
Qed.
Lemma fix_blank p l q : Forall blank p -> kq (cl_fix P n p l q) (fun _ => False).
Proof.
  intros Hp. unfold cl_fix. destruct n as [|m]; [lia|]. cbn [for_acc]. eapply kq_bind with (Φ := fun _ => False); [|intros ? []].
  eapply kq_bind with (Φ := fun _ => True); [ks|intros a _]. eapply kq_bind with (Φ := blank).
  { apply kq_lift. intros o Ho. apply getitem_In in Ho. rewrite Forall_forall in Hp. auto. }
  intros o Ho. red in Ho. rewrite Ho. eapply kq_bind with (Φ := fun _ => False); [|intros ? []]. apply kq_lift. destruct (tgt a); discriminate.
Qed.
Lemma update_blank l : Forall blank l -> kq (update_target_for_population P md l) (Forall blank).
Proof.
  intros Hl s y s' Es Hs. assert (W : wp (update_target_for_population P md l) (fun r s1 => r = map (fun a => with_tgt a (prob_target P (sol a))) l /\ s_pop s1 = s_pop s) s)
    by (apply wp_update_target_avail; auto). unfold wp in W. rewrite Es in W. destruct W as [-> ->]. split; [exact Hs|]. apply Forall_map. exact Hl.
Qed.
Lemma make_blank ep : kq (cl_make E P c_local w_min w_max n epochs ep) (fun _ => True).
Proof.
  unfold cl_make. cbv zeta. ks. unfold dims; ks. unfold choose2; ks. unfold choice_noreplace; ks. unfold pso_gea, gea_with; ks.
Qed.
Lemma evolve_blank ep : kq (cl_pso_evolve E P md c_local w_min w_max n epochs ep) (fun _ => False).
Proof.
  rewrite cl_eq by exact Hmd. eapply kq_bind; [apply make_blank|]. intros new _. 
  eapply kq_bind with (Φ := fun _ => True); [|intros l _].
  { intros s y s' Es Hs. assert (W : wp (update_target_for_population P md new) (fun r s1 => s_pop s1 = s_pop s) s)
    by (apply wp_update_target_avail; auto). unfold wp in W. rewrite Es in W. rewrite W. auto. }
  eapply kq_bind; [apply kq_get_pop|]. intros p Hp. eapply kq_bind with (Φ := fun _ => True); [ks|intros q _].
  eapply kq_bind; [apply fix_blank, Hp|intros ? []].
Qed.
End Blank.
Theorem C68_CL_PSO_starting E P md c_local w_min w_max n epochs tm rows s : is_avail md = true -> 0 < n -> 0 < epochs ->
  never (solve E P md (cl_pso E P md c_local w_min w_max n epochs) tm (Some rows) s).
Proof.
  intros Hmd Hn He. apply (never_start blank (Forall blank)); auto; try solve [ks].
  - intros r. apply gea_blank.
  - apply kq_after.
  - apply evolve_blank; assumption.
Qed.
(** Such a mode. *)
Example C68_starting_example : is_avail Thread = true /\ is_avail Process = true /\ is_avail Swarm = true /\ is_avail Single = false.
Proof. repeat split. Qed.

(** OriginalBSA: the first epoch reads the local target of every bird. *)
Definition bird_blank (a : agent bird) : Prop := b_tgt (att a) = None.
Theorem C68_OriginalBSA E P md ff c1 c2 a1 a2 pff fc n epochs tm rows s : is_avail md = true -> 0 < epochs ->
  never (solve E P md (original_bsa E P md ff c1 c2 a1 a2 pff fc n epochs) tm (Some rows) s).
Proof.
  intros Hmd He. apply (never_start bird_blank (fun p => p <> [] /\ Forall bird_blank p)); auto; try solve [ks].
  - intros r. unfold bsa_gea, gea_with. eapply kq_bind with (Φ := fun _ => True); [ks|intros x _]. eapply kq_bind with (Φ := fun b => b_tgt b = None); [apply kq_ret; reflexivity|].
    intros b Hb. apply kq_ret. exact Hb.
  - unfold after_initialization. ks.
  - unfold bsa_evolve. eapply kq_bind; [apply kq_get_pop|]. intros p (Np & Fp). eapply kq_bind with (Φ := fun _ => False); [|intros ? []]. apply kq_lift. intros y.
    destruct p as [|a p]; [congruence|]. inversion Fp as [|? ? Ha _]; subst. red in Ha. unfold bsa_fits. cbn [map_res]. rewrite Ha. discriminate.
Qed.
(** OriginalSRSR: every epoch reads the attribute target_new of every robot. *)
Definition robot_blank (a : agent (option target)) : Prop := att a = None.
Theorem C68_OriginalSRSR E P md n epochs tm rows s : is_avail md = true -> 0 < n -> 0 < epochs ->
  never (solve E P md (original_srsr E P md n epochs) tm (Some rows) s).
Proof.
  intros Hmd Hn He. apply (never_start robot_blank (Forall robot_blank)); auto; try solve [ks].
  - intros r. unfold srsr_gea, gea_with. eapply kq_bind with (Φ := fun _ => True); [ks|intros x _]. eapply kq_bind with (Φ := fun b => b = None); [apply kq_ret; reflexivity|].
    intros b Hb. apply kq_ret. exact Hb.
  - unfold srsr_vars. ks.
  - unfold after_initialization. eapply kq_bind; [apply kq_get_pop|]. intros p Hp. eapply kq_bind with (Φ := fun y => Forall robot_blank (fst (fst y))).
    { apply kq_lift. intros y. unfold get_special_agents. destruct (get_sorted_population _ _ _) as [[sp ix]|] eqn:Es; cbn [bind]; [|discriminate].
      destruct (map_res agent_copy (firstn 1 sp)); cbn [bind]; [|discriminate]. destruct (map_res agent_copy _); cbn [bind]; [|discriminate]. intros [= <-]. eapply sorted_Forall; eauto. }
    intros [[sp b] w] Hsp. cbn [fst] in Hsp. ks. apply kq_set_pop, Hsp.
  - unfold srsr_phases. eapply kq_bind with (Φ := fun _ => False); [|intros ? []]. unfold accept_batch. eapply kq_bind with (Φ := fun l => List.length l = n).
    + unfold made_agents. rewrite Hmd. eapply kq_bind with (Φ := fun l => List.length l = n).
      * eapply kq_mono; [apply kq_for_len|cbn; intros; lia]. intros j b. eapply kq_bind with (Φ := fun _ => True); [|intros a _; apply kq_ret; rewrite app_length; cbn; lia].
        unfold srsr_copy, srsr_scale, pop_sol. ks.
      * intros l Hl s1 y s2 Es Hs. assert (W : wp (update_target_for_population P md l) (fun r s3 => r = map (fun a => with_tgt a (prob_target P (sol a))) l /\ s_pop s3 = s_pop s1) s1)
          by (apply wp_update_target_avail; auto). unfold wp in W. rewrite Es in W. destruct W as [-> ->]. rewrite map_length. auto.
    + intros l Hl. unfold accept_each, for_. destruct l as [|a l]; [cbn in Hl; lia|]. cbn [List.length for_acc]. eapply kq_bind with (Φ := fun _ => False); [|intros ? []].
      eapply kq_bind with (Φ := fun _ => True); [ks|intros a0 _]. eapply kq_bind; [apply kq_pop_each|]. intros old Ho. eapply kq_bind with (Φ := fun _ => True); [ks|intros c _].
      red in Ho. unfold srsr_after, srsr_new. rewrite Ho. intros s1 y s2 Es _. exfalso. unfold bindM at 1 in Es. destruct (when _ _ s1) as [[? ?]|]; discriminate.
Qed.

Print Assumptions C64_CL_PSO.
Print Assumptions C68_CL_PSO_starting.
Print Assumptions C68_OriginalBSA.
Print Assumptions C68_OriginalSRSR.
