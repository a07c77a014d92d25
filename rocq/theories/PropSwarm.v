(** C71: the personal memory of the particle swarm classes. *)
From Verif Require Import Prelude Fl FlArith FlInt FlRound MCore MHelp MAlg MAlg2 MAlg4 MClass4 MClass10 SpecCore SpecRun PLogic PSolve PRun PAny PPart PElse PHeap Demo PropLost.
From Flocq Require Import Core BinarySingleNaN.
From Coq Require Import Reals Lra.

(** ** The population satisfies [K] *)
Section Keep.
Context {A X : Type}.
Variable K : list (agent A) -> Prop.
Notation M := (M A X).
Definition kq {Y} (m : M Y) (Φ : Y -> Prop) : Prop := forall s y s', m s = Ok (y, s') -> K (s_pop s) -> K (s_pop s') /\ Φ y.
Lemma kq_ret {Y} (y : Y) (Φ : Y -> Prop) : Φ y -> kq (ret y) Φ.
Proof. intros H s z s' E F. injection E as <- <-. auto. Qed.
Lemma kq_raise {Y} e (Φ : Y -> Prop) : kq (raise e) Φ.
Proof. intros s z s' E. discriminate. Qed.
Lemma kq_bind {Y Z} (m : M Y) (f : Y -> M Z) Φ Ψ : kq m Φ -> (forall y, Φ y -> kq (f y) Ψ) -> kq (bindM m f) Ψ.
Proof.
  intros H1 H2 s z s'. unfold bindM. destruct (m s) as [[y s1]|] eqn:E1; [|discriminate]. intros E2 F.
  destruct (H1 _ _ _ E1 F) as [F1 Hy]. exact (H2 y Hy _ _ _ E2 F1).
Qed.
Lemma kq_mono {Y} (m : M Y) (Φ Ψ : Y -> Prop) : kq m Φ -> (forall y, Φ y -> Ψ y) -> kq m Ψ.
Proof. intros H I s y s' E F. destruct (H _ _ _ E F). auto. Qed.
Lemma kq_lift {Y} (r : res Y) (Φ : Y -> Prop) : (forall y, r = Ok y -> Φ y) -> kq (lift r) Φ.
Proof. intros H s y s'. unfold lift. destruct r; [|discriminate]. intros E F. injection E as <- <-. auto. Qed.
Lemma kq_get_pop : kq get_pop K.
Proof. intros s y s' E F. injection E as <- <-. auto. Qed.
Lemma kq_set_pop p : K p -> kq (set_pop p) (fun _ => True).
Proof. intros H s y s' E F. injection E as <- <-. auto. Qed.
(** Statements that leave the population alone. *)
Lemma kq_still {Y} (m : M Y) : (forall s y s', m s = Ok (y, s') -> s_pop s' = s_pop s) -> kq m (fun _ => True).
Proof. intros H s y s' E F. rewrite (H _ _ _ E). auto. Qed.
Lemma kq_when b (m : M unit) : kq m (fun _ => True) -> kq (when b m) (fun _ => True).
Proof. destruct b; [auto|]. intros _. apply kq_ret, I. Qed.
Lemma kq_for_acc {B} (I : B -> Prop) n : forall i (b : B) f, I b -> (forall k b, I b -> kq (f k b) I) -> kq (for_acc n i b f) I.
Proof.
  induction n as [|n IH]; intros i b f Hb Hf; cbn [for_acc]; [apply kq_ret, Hb|]. eapply kq_bind; [apply Hf, Hb|]. intros y Hy. apply IH; auto.
Qed.
Lemma kq_for n f : (forall k, kq (f k) (fun _ => True)) -> kq (for_ n f) (fun _ => True).
Proof. intros H. apply kq_for_acc; auto. Qed.
Lemma kq_for_list {B T} (I : B -> Prop) (l : list T) : forall (b : B) f, I b -> (forall x b, I b -> kq (f x b) I) -> kq (for_list l b f) I.
Proof.
  induction l as [|x l IH]; intros b f Hb Hf; cbn [for_list]; [apply kq_ret, Hb|]. eapply kq_bind; [apply Hf, Hb|]. intros y Hy. apply IH; auto.
Qed.
Lemma kq_for_to {B} (I : nat -> B -> Prop) n : forall i (b : B) f, I i b -> (forall k b, I k b -> kq (f k b) (I (S k))) -> kq (for_acc n i b f) (I (i + n)).
Proof.
  induction n as [|n IH]; intros i b f Hb Hf; cbn [for_acc]; [rewrite Nat.add_0_r; apply kq_ret, Hb|]. eapply kq_bind; [apply Hf, Hb|].
  intros y Hy. rewrite <- Nat.add_succ_comm. apply IH; auto.
Qed.
(** The optimizer's own code. *)
Variable E : env.
Variable P : problem.
Ltac still := apply kq_still; let H := fresh in intros ? ? ? H; injection H as _ <-; reflexivity.
Lemma kq_tick : kq tick (fun _ => True).
Proof. still. Qed.
Lemma kq_get : kq get (fun _ => True).
Proof. still. Qed.
Lemma kq_get_gb : kq get_gb (fun _ => True).
Proof. apply kq_still. intros s y s' H. unfold get_gb, bindM, get, lift in H. destruct (s_gb s); [injection H as _ <-; reflexivity|discriminate]. Qed.
Lemma kq_set_gb g : kq (set_gb g) (fun _ => True).
Proof. still. Qed.
Lemma kq_set_gw g : kq (set_gw g) (fun _ => True).
Proof. still. Qed.
Lemma kq_set_hist h : kq (set_hist h) (fun _ => True).
Proof. still. Qed.
Lemma kq_set_nfe k : kq (set_nfe k) (fun _ => True).
Proof. still. Qed.
Lemma kq_get_x : kq get_x (fun _ => True).
Proof. still. Qed.
Lemma kq_set_x x : kq (set_x x) (fun _ => True).
Proof. still. Qed.
Lemma kq_get_target x : kq (get_target P x) (fun t => t = prob_target P x).
Proof. intros s y s' H F. injection H as <- <-. auto. Qed.
Lemma kq_pop_at i : kq (pop_at i) (fun a => exists p, K p /\ getitem p i = Ok a).
Proof. eapply kq_bind; [apply kq_get_pop|]. intros p Hp. apply kq_lift. eauto. Qed.
Lemma kq_true {Y} (m : M Y) Φ : kq m Φ -> kq m (fun _ => True).
Proof. intros H. eapply kq_mono; eauto. Qed.
End Keep.
(** Every agent of the population satisfies [J]. *)
Section Each.
Context {A X : Type}.
Variable J : agent A -> Prop.
Notation M := (M A X).
Notation kq := (kq (X := X) (Forall J)).
Lemma kq_repeat n (m : M (agent A)) : kq m J -> kq (repeat_M n m) (Forall J).
Proof.
  intros H. unfold repeat_M. apply kq_for_acc; [constructor|]. intros k l Hl. eapply kq_bind; [exact H|]. intros a Ha.
  apply kq_ret. apply Forall_app. auto.
Qed.
Lemma kq_pop_each i : kq (pop_at i) J.
Proof.
  eapply kq_bind; [apply kq_get_pop|]. intros p Hp. apply kq_lift. intros a Ha. apply getitem_In in Ha. rewrite Forall_forall in Hp. auto.
Qed.
Lemma upd_Forall (l : list (agent A)) i a : Forall J l -> J a -> Forall J (upd l i a).
Proof.
  revert i. induction l as [|b l IH]; intros [|i] Hl Ha; cbn [upd]; auto; inversion Hl; subst; constructor; auto.
Qed.
Lemma kq_pop_set i a : J a -> kq (pop_set i a) (fun _ => True).
Proof.
  intros Ha. eapply kq_bind; [apply kq_get_pop|]. intros p Hp. eapply kq_bind; [apply (kq_lift _ _ (Forall J))|intros q Hq; apply kq_set_pop, Hq].
  intros q. unfold setitem. destruct (i <? _); [|discriminate]. intros [= <-]. apply upd_Forall; assumption.
Qed.
Lemma sorted_Forall argsort (p sp : list (agent A)) ix mm : get_sorted_population argsort p mm = Ok (sp, ix) -> Forall J p -> Forall J sp.
Proof.
  unfold get_sorted_population. destruct (map_res fitness p) as [fits|]; cbn [bind]; [|discriminate].
  destruct (map_res (getitem p) _) as [q|] eqn:E; cbn [bind]; [|discriminate]. intros [= <- _] H. rewrite Forall_forall in *.
  intros a Ha. destruct (map_res_In _ _ _ E a Ha) as (i & _ & Hi). apply getitem_In in Hi. auto.
Qed.
Lemma kq_trimmed argsort p n mm : Forall J p -> kq (lift (get_sorted_and_trimmed_population argsort p n mm)) (Forall J).
Proof.
  intros H. apply kq_lift. intros q. unfold get_sorted_and_trimmed_population.
  destruct (get_sorted_population argsort p mm) as [[sp ix]|] eqn:E; cbn [bind]; [|discriminate]. intros [= <-].
  pose proof (sorted_Forall _ _ _ _ _ E H) as S. rewrite Forall_forall in *. intros a Ha. apply S. rewrite <- (firstn_skipn n sp). apply in_or_app; auto.
Qed.

End Each.

Ltac kstep := lazymatch goal with
  | |- kq _ (ret _) _ => apply kq_ret; exact I
  | |- kq _ (raise _) _ => apply kq_raise
  | |- kq _ tick _ => apply kq_tick
  | |- kq _ get _ => apply kq_get
  | |- kq _ get_pop _ => eapply kq_true, kq_get_pop
  | |- kq _ get_gb _ => apply kq_get_gb
  | |- kq _ (set_gb _) _ => apply kq_set_gb
  | |- kq _ (set_gw _) _ => apply kq_set_gw
  | |- kq _ (set_hist _) _ => apply kq_set_hist
  | |- kq _ (set_nfe _) _ => apply kq_set_nfe
  | |- kq _ get_x _ => apply kq_get_x
  | |- kq _ (set_x _) _ => apply kq_set_x
  | |- kq _ (get_target _ _) _ => eapply kq_true, kq_get_target
  | |- kq _ (pop_at _) _ => eapply kq_true, kq_pop_at
  | |- kq _ (lift _) _ => apply kq_lift; intros; exact I
  | |- kq _ (rform _ _ _ _) _ => unfold rform
  | |- kq _ (rnum _ _ _) _ => unfold rnum
  | |- kq _ (rlist _ _ _ _) _ => unfold rlist
  | |- kq _ (rtest _ _ _) _ => unfold rtest
  | |- kq _ (uniform _) _ => unfold uniform
  | |- kq _ (integers _ _ _) _ => unfold integers
  | |- kq _ (uvec _ _) _ => unfold uvec, uniform_vec
  | |- kq _ gb_sol _ => unfold gb_sol
  | |- kq _ (pop_fit _) _ => unfold pop_fit
  | |- kq _ all_fits _ => unfold all_fits
  | |- kq _ (uniform_box _ _) _ => unfold uniform_box
  | |- kq _ (amend_random _ _ _) _ => unfold amend_random
  | |- kq _ (amend_clip _ _) _ => unfold amend_clip
  | |- kq _ (correct_solution _ _) _ => unfold correct_solution
  | |- kq _ (correct_solution_with _ _ _) _ => unfold correct_solution_with
  | |- kq _ (when false _) _ => cbn [when]
  | |- kq _ (when _ _) _ => apply kq_when
  | |- kq _ (for_ _ _) _ => apply kq_for; intros
  | |- kq _ (for_acc _ _ _ _) (fun _ => True) => apply (kq_for_acc _ (fun _ => True)); [exact I|intros]
  | |- kq _ (bindM _ _) _ => eapply kq_bind with (Φ := fun _ => True); [|intros ? _]
  | |- kq _ (match ?x with _ => _ end) _ => destruct x
  | |- kq _ (let _ := _ in _) _ => cbv zeta
  end.
Ltac ks := repeat kstep.

Section Runs.
Context {A X : Type}.
Variable J : agent A -> Prop.
Variable E : env.
Variable P : problem.
Notation M := (M A X).
Notation kq := (kq (X := X) (Forall J)).
Lemma kq_before (al : @algo A X) starting : (forall o, kq (al_ga al o) J) -> kq (before_initialization P Single al starting) (fun _ => True).
Proof.
  intros H. unfold before_initialization. destruct starting as [rows|]; [|ks]. destruct (_ =? _); [|ks]. destruct rows as [|r0 rows]; [ks|].
  destruct (_ =? _); [|ks]. change (is_avail Single) with false. cbv iota.
  eapply kq_bind; [apply (kq_for_list _ (Forall J)); [constructor|]|intros l Hl; apply kq_set_pop, Hl].
  intros x l Hl. eapply kq_bind; [apply H|]. intros a Ha. apply kq_ret, Forall_app. auto.
Qed.
Lemma kq_init ga n : (forall o, kq (ga o) J) -> kq (default_initialization E Single ga n) (fun _ => True).
Proof.
  intros H. unfold default_initialization. eapply kq_bind; [apply kq_get_pop|]. intros p Hp. destruct p; [|ks].
  cbn [generate_population_with]. eapply kq_bind; [apply kq_repeat, H|]. intros l Hl. apply kq_set_pop, Hl.
Qed.
Lemma kq_after : kq (after_initialization E P false) (fun _ => True).
Proof. unfold after_initialization. ks. Qed.
Variable gea ga : option vec -> M (agent A).
Variable n epochs : nat.
Variable iv : M unit.
Hypothesis Hga : forall o, kq (ga o) J.
Hypothesis Hiv : kq iv (fun _ => True).
Notation al ev := (agent_algo E Single gea ga n epochs false iv (ret tt) ev).
Lemma kq_step ev tm ep : kq (ev ep) (fun _ => True) -> kq (epoch_step E P (al ev) tm ep) (fun _ => True).
Proof.
  intros H. unfold epoch_step. cbn [agent_algo al_evolve al_sort]. unfold update_global_best_agent, track_optimize_step, check_termination_end. ks. exact H.
Qed.
Lemma kq_loop ev tm m : (forall ep, kq (ev ep) (fun _ => True)) -> forall i, kq (main_loop E P (al ev) tm m i) (fun _ => True).
Proof.
  intros H. induction m as [|m IH]; intros i; cbn [main_loop]; [ks|]. ks; [apply kq_step, H|apply IH].
Qed.
Lemma kq_check (s s' : st A X) u : check_problem s = Ok (u, s') -> Forall J (s_pop s').
Proof. intros [= _ <-]. constructor. Qed.
(** In every run each agent of the last population satisfies [J]. *)
Lemma kept ev tm starting s g s' : (forall ep, kq (ev ep) (fun _ => True)) ->
  solve E P Single (al ev) tm starting s = Ok (g, s') -> Forall J (s_pop s').
Proof.
  intros H. unfold solve. cbn [agent_algo al_init_vars al_init al_sort al_before_main al_epoch].
  unfold bindM at 1. destruct (check_problem s) as [[u s0]|] eqn:E0; [|discriminate]. intros E1. apply kq_check in E0.
  match type of E1 with ?m _ = _ => assert (K : kq m (fun _ => True)) end.
  { unfold check_termination_start. ks; try (apply kq_before; exact Hga); try (apply kq_init; exact Hga); try apply kq_after; try exact Hiv; try (apply kq_loop; exact H).
    all: unfold track_optimize_process; ks. }
  exact (proj1 (K _ _ _ E1 E0)).
Qed.
(** Two classes that differ in evolve only, and not while all agents satisfy [J]: the same runs. *)
Definition sm {Y} (m m' : M Y) : Prop := forall s, Forall J (s_pop s) -> m s = m' s.
Lemma sm_refl {Y} (m : M Y) : sm m m.
Proof. intros s _. reflexivity. Qed.
Lemma sm_bind {Y Z} (m m' : M Y) (f f' : Y -> M Z) Φ : sm m m' -> kq m Φ -> (forall y, Φ y -> sm (f y) (f' y)) -> sm (bindM m f) (bindM m' f').
Proof.
  intros H1 H2 H3 s Hs. unfold bindM. rewrite <- (H1 s Hs). destruct (m s) as [[y s1]|] eqn:Em; [|reflexivity].
  destruct (H2 _ _ _ Em Hs) as [G Hy]. exact (H3 y Hy s1 G).
Qed.
Lemma sm_for_acc {B} m : forall i (b : B) f f', (forall k b, kq (f k b) (fun _ => True)) -> (forall k b, sm (f k b) (f' k b)) ->
  sm (for_acc m i b f) (for_acc m i b f').
Proof.
  induction m as [|m IH]; intros i b f f' H1 H2; cbn [for_acc]; [apply sm_refl|]. eapply sm_bind; [apply H2|apply H1|]. intros y _. apply IH; assumption.
Qed.
Lemma same_run ev ev' tm starting s : (forall ep, kq (ev ep) (fun _ => True)) -> (forall ep, sm (ev ep) (ev' ep)) ->
  solve E P Single (al ev) tm starting s = solve E P Single (al ev') tm starting s.
Proof.
  intros H1 H2. unfold solve. cbn [agent_algo al_init_vars al_init al_sort al_before_main al_epoch].
  unfold bindM at 1. symmetry. unfold bindM at 1. symmetry. destruct (check_problem s) as [[u s0]|] eqn:E0; [|reflexivity]. apply kq_check in E0.
  match goal with |- ?m s0 = ?m' s0 => assert (K : sm m m'); [|exact (K s0 E0)] end.
  eapply sm_bind with (Φ := fun _ => True); [apply sm_refl|unfold check_termination_start; ks|intros tm' _].
  eapply sm_bind with (Φ := fun _ => True); [apply sm_refl|exact Hiv|intros _ _].
  eapply sm_bind with (Φ := fun _ => True); [apply sm_refl|apply kq_before; exact Hga|intros _ _].
  eapply sm_bind with (Φ := fun _ => True); [apply sm_refl|apply kq_init; exact Hga|intros _ _].
  eapply sm_bind with (Φ := fun _ => True); [apply sm_refl|apply kq_after|intros _ _].
  eapply sm_bind with (Φ := fun _ => True); [apply sm_refl|ks|intros _ _].
  eapply sm_bind with (Φ := fun _ => True); [|apply kq_loop; exact H1|intros _ _; apply sm_refl].
  assert (L : forall m i, sm (main_loop E P (al ev) tm' m i) (main_loop E P (al ev') tm' m i)); [|apply L].
  induction m as [|m IH]; intros i; cbn [main_loop]; [apply sm_refl|].
  eapply sm_bind with (Φ := fun _ => True); [|apply kq_step, H1|intros [r|] _; [apply sm_refl|apply IH]].
  unfold epoch_step. eapply sm_bind with (Φ := fun _ => True); [apply sm_refl|ks|intros k _].
  eapply sm_bind with (Φ := fun _ => True); [apply H2|apply H1|intros _ _; apply sm_refl].
Qed.
End Runs.

(** ** The particle swarm classes *)
(** The remembered best position and target of a particle are its present position and target. *)
Definition present (a : agent particle) : Prop := loc (att a) = sol a /\ loc_t (att a) = tgt a.
Section Swarm.
Context {X : Type}.
Variable E : env.
Variable P : problem.
Notation kq := (kq (X := X) (Forall present)).
Lemma pso_gea_fresh o : kq (pso_gea E P o) (fun a => loc (att a) = sol a).
Proof.
  unfold pso_gea, gea_with. eapply kq_bind with (Φ := fun _ => True); [destruct o; ks|]. intros x _.
  eapply kq_bind with (Φ := fun b => loc b = x); [|intros b Hb; apply kq_ret; exact Hb].
  eapply kq_bind with (Φ := fun _ => True); [ks|]. intros v _. apply kq_ret. reflexivity.
Qed.
Lemma pso_ga_present o : kq (pso_ga E P o) present.
Proof.
  unfold pso_ga. eapply kq_bind; [apply pso_gea_fresh|]. intros a Ha. eapply kq_bind; [apply kq_get_target|]. intros t _.
  apply kq_ret. split; [exact Ha|reflexivity].
Qed.
Lemma pso_move_present correct idx v x : (forall x, kq (correct x) (fun _ => True)) -> kq (pso_move P correct idx v x) (fun _ => True).
Proof.
  intros Hc. unfold pso_move, merge. eapply kq_bind; [apply Hc|]. intros y _. eapply kq_bind; [apply kq_get_target|]. intros t _.
  eapply kq_bind; [apply kq_pop_each|]. intros old [Ho1 Ho2].
  eapply kq_bind with (Φ := fun c => compare_opt (Some t) (tgt old) (p_mm P) = Ok c); [apply kq_lift; auto|]. intros c Hcmp.
  eapply kq_bind with (Φ := fun b => b = if c then mkParticle v y (Some t) else mkParticle v (loc (att old)) (loc_t (att old))).
  - unfold pso_local. eapply kq_bind with (Φ := fun c' => c' = c); [|intros c' ->; apply kq_ret; reflexivity].
    apply kq_lift. intros c'. rewrite Ho2, Hcmp. intros [= <-]. reflexivity.
  - intros b ->. apply kq_pop_set. destruct c; split; cbn; auto.
Qed.
End Swarm.

Section Classes.
Variable E : env.
Variable P : problem.
(** Whenever a run of one of these classes ends, the remembered best position and target of every particle are its present
    position and target. *)
Theorem C71_OriginalPSO_memory c1 c2 w n epochs tm starting s g s' :
  solve E P Single (original_pso E P c1 c2 w n epochs) tm starting s = Ok (g, s') -> Forall present (s_pop s').
Proof. apply kept; [apply pso_ga_present|ks|]. intros ep. unfold pso_evolve. ks. apply pso_move_present. intros; ks. Qed.
Theorem C71_AIW_PSO_memory c1 c2 alpha n epochs tm starting s g s' :
  solve E P Single (aiw_pso E P c1 c2 alpha n epochs) tm starting s = Ok (g, s') -> Forall present (s_pop s').
Proof. apply kept; [apply pso_ga_present|ks|]. intros ep. unfold aiw_pso_evolve. ks. apply pso_move_present. intros; ks. Qed.
Theorem C71_LDW_PSO_memory c1 c2 w_min w_max n epochs tm starting s g s' :
  solve E P Single (ldw_pso E P c1 c2 w_min w_max n epochs) tm starting s = Ok (g, s') -> Forall present (s_pop s').
Proof. apply kept; [apply pso_ga_present|ks|]. intros ep. unfold ldw_pso_evolve. ks. apply pso_move_present. intros; ks. Qed.
Theorem C71_P_PSO_memory n epochs tm starting s g s' :
  solve E P Single (p_pso E P n epochs) tm starting s = Ok (g, s') -> Forall present (s_pop s').
Proof. apply kept; [apply pso_ga_present|unfold p_pso_vars; ks|]. intros ep. unfold p_pso_evolve. ks. apply pso_move_present. intros; ks. Qed.
Theorem C71_HPSO_TVAC_memory ci cf n epochs tm starting s g s' :
  solve E P Single (hpso_tvac E P ci cf n epochs) tm starting s = Ok (g, s') -> Forall present (s_pop s').
Proof. apply kept; [apply pso_ga_present|unfold p_pso_vars; ks|]. intros ep. unfold hpso_evolve. ks. apply pso_move_present. intros; ks. Qed.
Theorem C71_C_PSO_memory c1 c2 w_min w_max n epochs tm starting s g s' :
  solve E P Single (c_pso E P c1 c2 w_min w_max n epochs) tm starting s = Ok (g, s') -> Forall present (s_pop s').
Proof.
  apply kept; [apply pso_ga_present|unfold c_pso_vars; ks|]. intros ep. unfold c_pso_evolve.
  do 2 (eapply kq_bind with (Φ := fun _ => True); [ks|intros ? _]). destruct y0 as [lo hi].
  eapply kq_bind with (Φ := fun _ => True); [ks; apply pso_move_present; intros; ks|intros ? _].
  do 6 (eapply kq_bind with (Φ := fun _ => True); [ks|intros ? _]; cbv zeta).
  eapply kq_bind; [apply kq_repeat, pso_ga_present|]. intros child Hc. eapply kq_bind; [apply kq_get_pop|]. intros p Hp.
  eapply kq_bind; [apply kq_trimmed, Forall_app; split; assumption|]. intros q Hq. apply kq_set_pop, Hq.
Qed.
End Classes.

(** ** The cognitive coefficient of OriginalPSO *)
Section Cognitive.
Local Open Scope R_scope.
(** The coefficient is in the documented range (0, 5.0]. *)
Definition coef_ok (c : f64) : Prop := flt (fZ 0) c = true /\ fle c (fZ 5) = true.
Lemma sub_self (x : f64) : fsub x x = B754_zero false \/ fsub x x = B754_nan.
Proof.
  destruct (fisfin x) eqn:F.
  - left. pose proof (Bminus_correct prec emax Hprec Hmax mode_NE x x F F) as H. rewrite Rminus_diag_eq in H by reflexivity.
    rewrite round_0 in H by apply valid_rnd_round_mode. rewrite Rabs_R0 in H.
    rewrite Rlt_bool_true in H by apply bpow_gt_0. destruct H as (H1 & H2 & H3). rewrite Rcompare_Eq in H3 by reflexivity.
    unfold fsub. destruct (Bminus mode_NE x x) as [b| | |b m e He]; try discriminate H2.
    + f_equal. cbn [Bsign] in H3. rewrite H3. destruct (Bsign x); reflexivity.
    + exfalso. cbn [B2R] in H1. apply (f_equal (fun r => r)) in H1. apply Float_prop.eq_0_F2R in H1. destruct b; discriminate H1.
  - destruct x as [b|[]| |b m e He]; try discriminate F; right; reflexivity.
Qed.
Lemma coef_pos c : coef_ok c -> fisfin c = true /\ 0 < FR c <= 5 /\ Bsign c = false.
Proof.
  intros [H1 H2]. destruct (flt_true_nan _ _ H1) as [_ N]. apply flt_FR in H1; [|reflexivity|exact N]. apply fle_FR in H2; [|exact N|reflexivity].
  rewrite fZ_0 in H1. rewrite (proj2 (fZ_FR 5 ltac:(lia))) in H2.
  assert (F : fisfin c = true). { apply small_fin; [exact N|]. apply Rabs_le. split; [|apply Rle_trans with (1 := H2); apply IZR_le; discriminate].
    assert (0 <= IZR (2 ^ 33)) by (apply IZR_le; discriminate). lra. }
  split; [exact F|split; [split; assumption|]]. destruct (Bsign c) eqn:S; [|reflexivity]. pose proof (Bsign_neg c F S). lra.
Qed.
Lemma cog_zero c u x : coef_ok c -> unit_num u -> fmul (fmul c u) (fsub x x) = match fsub x x with B754_zero _ => B754_zero (Bsign u) | _ => B754_nan end.
Proof.
  intros Hc Hu. destruct (coef_pos c Hc) as (Fc & [Hc1 Hc2] & Sc). destruct (unit_FR u Hu) as [Fu Bu].
  assert (K : fisfin (fmul c u) = true /\ Bsign (fmul c u) = Bsign u).
  { pose proof (Bmult_correct prec emax Hprec Hmax mode_NE c u) as H. fold (fmul c u) in H. rewrite (B2R_FR c Fc), (B2R_FR u Fu) in H.
    assert (L : 0 <= FR c * FR u <= 5) by nra.
    assert (L2 : 0 <= rnd (FR c * FR u) <= 5).
    { destruct (fZ_FR 5 ltac:(lia)) as [F5 E5]. split; [rewrite <- rnd_0; apply rnd_mono; lra|].
      apply Rle_trans with (rnd (FR (fZ 5))); [apply rnd_mono; lra|]. rewrite rnd_FR by (apply fin_notnan, F5). lra. }
    rewrite Rlt_bool_true in H.
    - destruct H as (_ & H2 & H3). assert (F : fisfin (fmul c u) = true). { unfold fisfin. rewrite H2. unfold fisfin in Fc, Fu. rewrite Fc, Fu. reflexivity. }
      split; [exact F|]. rewrite H3; [rewrite Sc; apply xorb_false_l|]. exact (fin_notnan _ F).
    - fold (rnd (FR c * FR u)). rewrite Rabs_pos_eq by lra. apply Rle_lt_trans with (1 := proj2 L2). apply Rlt_trans with (2 := B_big). apply IZR_lt. reflexivity. }
  destruct K as [F S]. destruct (sub_self x) as [-> | ->].
  - rewrite <- S. destruct (fmul c u) as [b| | |b m e He]; try discriminate F; cbn; rewrite xorb_false_r; reflexivity.
  - destruct (fmul c u); reflexivity.
Qed.
End Cognitive.

Lemma cog_same c c' u x : coef_ok c -> coef_ok c' -> unit_num u \/ u = fnan -> fmul (fmul c u) (fsub x x) = fmul (fmul c' u) (fsub x x).
Proof.
  intros H H' [U| ->]; [rewrite !cog_zero by assumption; reflexivity|]. assert (N : forall c, fmul c fnan = fnan) by (intros []; reflexivity). rewrite !N. reflexivity.
Qed.
(** The draws of the generator are numbers between 0 and 1. *)
Lemma uvec_units {X} E P : (forall k, unit_num (e_u E k)) -> kq (X := X) (Forall present) (uvec E P) (Forall unit_num).
Proof.
  intros H. unfold uvec, uniform_vec. apply kq_for_acc; [constructor|]. intros k l Hl. unfold uniform.
  eapply kq_bind with (Φ := unit_num).
  - eapply kq_bind with (Φ := fun _ => True); [ks|]. intros j _. apply kq_ret, H.
  - intros u Hu. apply kq_ret. apply Forall_app. auto.
Qed.
Lemma vget_unit (r : vec) j : Forall unit_num r -> unit_num (vget r j) \/ vget r j = fnan.
Proof.
  intros H. unfold vget. destruct (Nat.lt_ge_cases j (List.length r)) as [L|L]; [left|right; apply nth_overflow, L].
  rewrite Forall_forall in H. apply H, nth_In, L.
Qed.
(** Two runs of OriginalPSO that differ only in the coefficient c1 are the same: the same agent is returned, with the same
    history, evaluations and final population. *)
Theorem C71_OriginalPSO E P c1 c1' c2 w n epochs tm starting s : (forall k, unit_num (e_u E k)) -> coef_ok c1 -> coef_ok c1' ->
  solve E P Single (original_pso E P c1 c2 w n epochs) tm starting s = solve E P Single (original_pso E P c1' c2 w n epochs) tm starting s.
Proof.
  intros HE H H'. apply (same_run present); [apply pso_ga_present|ks| |].
  - intros ep. unfold pso_evolve. ks. apply pso_move_present. intros; ks.
  - intros ep. unfold pso_evolve, for_. apply sm_for_acc; [intros; ks; apply pso_move_present; intros; ks|]. intros idx _.
    eapply sm_bind; [apply sm_refl|apply kq_pop_each|]. intros a [Ha _]. cbv zeta.
    eapply sm_bind; [apply sm_refl|apply uvec_units, HE|]. intros r1 Hr.
    eapply sm_bind with (Φ := fun _ => True); [apply sm_refl|ks|]. intros g _.
    eapply sm_bind with (Φ := fun _ => True); [apply sm_refl|ks|]. intros r2 _. rewrite Ha.
    match goal with |- sm _ (pso_move _ _ _ ?v _) (pso_move _ _ _ ?v' _) => assert (K : v = v'); [|rewrite K; apply sm_refl] end.
    unfold vtab. apply map_ext. intros j. rewrite (cog_same c1 c1' (vget r1 j) (vget (sol a) j) H H' (vget_unit r1 j Hr)). reflexivity.
Qed.
(** The hypotheses are met: a draw that is always one half, and the coefficients 1 and 2. *)
Example C71_OriginalPSO_example : (forall k, unit_num (e_u (mkEnv argsort_ins (fun _ => fdiv (fZ 1) (fZ 2)) (e_g demo_env) (e_i demo_env) (e_fun demo_env) (e_time demo_env) (e_order demo_env)) k))
  /\ coef_ok (fZ 1) /\ coef_ok (fZ 2).
Proof. repeat split; reflexivity. Qed.
(** The coefficient c2, unlike c1, does change runs. *)
Definition position_differs {A X} (r r' : res (agent A * st A X)) : bool :=
  match r, r' with Ok (g, _), Ok (g', _) => negb (forallb (fun p => feq (fst p) (snd p)) (combine (sol g) (sol g'))) | _, _ => false end.
Example C71_OriginalPSO_social : position_differs
  (solve (mix_env 1) (demo_prob Min sphere false) Single (original_pso (mix_env 1) (demo_prob Min sphere false) (fZ 2) (fZ 2) (fdiv (fZ 1) (fZ 2)) 5 3) None None (st0 tt))
  (solve (mix_env 1) (demo_prob Min sphere false) Single (original_pso (mix_env 1) (demo_prob Min sphere false) (fZ 2) (fZ 1) (fdiv (fZ 1) (fZ 2)) 5 3) None None (st0 tt)) = true.
Proof. vm_compute. reflexivity. Qed.

(** ** OriginalBSA: what a bird remembers *)
Section Birds.
Variable E : env.
Variable P : problem.
Variable md : MCore.mode.
(** The remembered positions and targets of the birds, in the order of the population. *)
Definition memory (p : list (agent bird)) : list bird := map att p.
Section Fixed.
Variable L : list bird.
Notation kq := (kq (X := unit) (fun p => memory p = L)).
Lemma kq_bird i : kq (pop_at i) (fun a => nth_error L i = Some (att a)).
Proof.
  eapply kq_mono; [apply kq_pop_at|]. intros a (p & <- & H). unfold getitem in H. destruct (nth_error p i) as [b|] eqn:Eb; [|discriminate].
  injection H as <-. apply map_nth_error, Eb.
Qed.
Lemma memory_upd (l : list (agent bird)) i a : memory l = L -> nth_error L i = Some (att a) -> memory (upd l i a) = L.
Proof.
  intros <-. unfold memory. revert i. induction l as [|b l IH]; intros [|i] H; cbn in *; try discriminate; [injection H as ->; reflexivity|].
  f_equal. apply IH, H.
Qed.
Lemma kq_bird_set i a : nth_error L i = Some (att a) -> kq (pop_set i a) (fun _ => True).
Proof.
  intros Ha. eapply kq_bind; [apply kq_get_pop|]. intros p Hp. eapply kq_bind with (Φ := fun q => memory q = L); [apply kq_lift|intros q Hq; apply kq_set_pop, Hq].
  intros q. unfold setitem. destruct (i <? _); [|discriminate]. intros [= <-]. apply memory_upd; assumption.
Qed.
Lemma bsa_copy_kq i x : kq (bsa_copy P i x) (fun a => nth_error L i = Some (att a)).
Proof.
  unfold bsa_copy. eapply kq_bind; [apply kq_bird|]. intros a Ha. eapply kq_bind with (Φ := fun _ => True); [ks|]. intros y _. apply kq_ret. exact Ha.
Qed.
Lemma bsa_upd_kq i x l : memory l = L -> kq (bsa_upd P i x l) (fun l => memory l = L).
Proof. intros H. unfold bsa_upd. eapply kq_bind; [apply bsa_copy_kq|]. intros a Ha. apply kq_ret, memory_upd; assumption. Qed.
Lemma bsa_producer_kq i l : memory l = L -> kq (bsa_producer E P i l) (fun l => memory l = L).
Proof.
  intros H. unfold bsa_producer, pop_sol. do 2 (eapply kq_bind with (Φ := fun _ => True); [ks|intros ? _]). apply bsa_upd_kq, H.
Qed.
Lemma bsa_scrounger_kq fc lo hi i l : memory l = L -> kq (bsa_scrounger E P fc lo hi i l) (fun l => memory l = L).
Proof.
  intros H. unfold bsa_scrounger, pop_sol. do 4 (eapply kq_bind with (Φ := fun _ => True); [ks|intros ? _]). apply bsa_upd_kq, H.
Qed.
Lemma bsa_groups_kq fc n fits : kq (bsa_groups E P fc n fits) (fun l => memory l = L).
Proof.
  unfold bsa_groups. eapply kq_bind; [apply kq_get_pop|]. intros p Hp. do 2 (eapply kq_bind with (Φ := fun _ => True); [ks|intros ? _]). cbv zeta.
  destruct (_ <? 3).
  - eapply kq_bind; [apply (kq_for_list _ (fun l => memory l = L)); [exact Hp|intros; apply bsa_producer_kq; assumption]|]. intros l1 H1.
    eapply kq_bind with (Φ := fun l => memory l = L); [destruct (_ =? 1); [apply bsa_producer_kq, H1|apply kq_ret, H1]|]. intros l2 H2.
    apply kq_for_list; [exact H2|]. intros i l Hl. destruct (_ || _)%bool; [apply bsa_scrounger_kq, Hl|apply kq_ret, Hl].
  - eapply kq_bind; [apply (kq_for_list _ (fun l => memory l = L)); [exact Hp|intros; apply bsa_producer_kq; assumption]|]. intros l1 H1.
    eapply kq_bind with (Φ := fun _ => True).
    { unfold pop_sol. ks. eapply kq_true, bsa_copy_kq. }
    intros _ _. apply kq_for_list; [exact H1|]. intros i l Hl. destruct (_ || _)%bool; [apply bsa_scrounger_kq, Hl|apply kq_ret, Hl].
Qed.
Lemma evaluate_kq a : kq (evaluate P a) (fun b => att b = att a).
Proof. unfold evaluate. eapply kq_bind; [apply kq_get_target|]. intros t _. apply kq_ret. reflexivity. Qed.
Lemma update_kq l : kq (update_target_for_population P md l) (fun r => memory r = memory l).
Proof.
  unfold update_target_for_population. destruct (is_avail md); [|apply kq_ret; reflexivity].
  eapply kq_bind with (Φ := fun r => memory r = memory l).
  - enough (G : forall acc, kq (for_list l acc (fun a acc => t <- get_target_uncounted P (sol a);; ret (acc ++ [with_tgt a t]))) (fun r => memory r = memory acc ++ memory l)) by apply (G []).
    induction l as [|a l IH]; intros acc; cbn [for_list]; [apply kq_ret; rewrite app_nil_r; reflexivity|].
    eapply kq_bind with (Φ := fun b => memory b = memory acc ++ [att a]).
    + intros s y s' H F. injection H as <- <-. split; [exact F|]. unfold memory. rewrite map_app. reflexivity.
    + intros b Hb. eapply kq_mono; [apply IH|]. cbv beta. intros r ->. rewrite Hb, <- app_assoc. reflexivity.
  - intros r Hr. intros s y s' H F. injection H as <- <-. split; [exact F|exact Hr].
Qed.
Lemma evaluate_all_kq l : kq (evaluate_all P md l) (fun r => memory r = memory l).
Proof.
  unfold evaluate_all. destruct (is_avail md); [apply update_kq|].
  enough (G : forall acc, kq (for_list l acc (fun a acc => b <- evaluate P a;; ret (acc ++ [b]))) (fun r => memory r = memory acc ++ memory l)) by apply (G []).
  induction l as [|a l IH]; intros acc; cbn [for_list]; [apply kq_ret; rewrite app_nil_r; reflexivity|].
  eapply kq_bind with (Φ := fun b => memory b = memory acc ++ [att a]).
  - eapply kq_bind; [apply evaluate_kq|]. intros b Hb. apply kq_ret. unfold memory. rewrite map_app. cbn. rewrite Hb. reflexivity.
  - intros b Hb. eapply kq_mono; [apply IH|]. cbv beta. intros r ->. rewrite Hb, <- app_assoc. reflexivity.
Qed.
Lemma greedy_memory mm (p l q : list (agent bird)) : greedy_selection_population p l mm = Ok q -> memory l = memory p -> memory q = memory p.
Proof.
  unfold greedy_selection_population. destruct (negb _); [discriminate|]. revert l q.
  induction p as [|o p IH]; intros [|a l] q H Hl; try discriminate Hl; cbn [combine map_res] in H; [injection H as <-; reflexivity|].
  destruct (fitness a) as [fa|]; cbn [bind] in H; [|discriminate]. destruct (fitness o) as [fo|]; cbn [bind] in H; [|discriminate].
  cbn in Hl. injection Hl as H0 Hl.
  destruct mm; cbn [bind] in H; (destruct (map_res _ _) as [r|] eqn:Er; cbn [bind] in H; [|discriminate]); injection H as <-; cbn [memory map];
    (f_equal; [match goal with |- context [if ?c then _ else _] => destruct c end; auto|exact (IH _ _ Er Hl)]).
Qed.
Lemma bsa_greedy_kq l : (List.length l = List.length L -> memory l = L) -> kq (p <- get_pop ;; q <- lift (greedy_selection_population p l (p_mm P)) ;; set_pop q) (fun _ => True).
Proof.
  intros Hl. eapply kq_bind; [apply kq_get_pop|]. intros p Hp. eapply kq_bind with (Φ := fun q => memory q = L).
  - apply kq_lift. intros q Hq. rewrite <- Hp. apply (greedy_memory _ _ _ _ Hq). rewrite Hp. apply Hl. rewrite <- Hp. unfold memory. rewrite map_length.
    unfold greedy_selection_population in Hq. destruct (Nat.eqb_spec (List.length p) (List.length l)) as [Q|]; [auto|discriminate].
  - intros q Hq. apply kq_set_pop, Hq.
Qed.
Lemma bsa_fly_kq c1 c2 a1 a2 pff n p fits : kq (bsa_fly E P md c1 c2 a1 a2 pff n p fits) (fun _ => True).
Proof.
  unfold bsa_fly, greedy_agents. eapply kq_bind.
  - apply (kq_for_to _ (fun k acc => memory acc = firstn k L)); [reflexivity|]. intros k acc Ha.
    eapply kq_bind with (Φ := fun r => fst r = k /\ nth_error L k = Some (att (snd r))).
    + do 3 (eapply kq_bind with (Φ := fun _ => True); [ks|intros ? _]). eapply kq_bind with (Φ := fun _ => True).
      * unfold choice1. ks.
      * intros x _. eapply kq_bind; [apply bsa_copy_kq|]. intros b Hb. apply kq_ret. auto.
    + intros [i b]. cbn [fst snd]. intros [-> Hb].
      assert (Hs : forall c, att c = att b -> memory (acc ++ [c]) = firstn (S k) L).
      { intros c Hc. unfold memory in *. rewrite map_app, Ha. cbn [map]. rewrite Hc. clear - Hb. revert L Hb. induction k as [|k IH]; intros [|x l] H; try discriminate.
        - injection H as ->. reflexivity.
        - cbn [firstn app]. f_equal. apply IH, H. }
      destruct (is_avail md); [apply kq_ret, Hs; reflexivity|].
      eapply kq_bind; [apply evaluate_kq|]. intros c Hc. eapply kq_bind with (Φ := fun _ => True).
      * unfold keep_better. eapply kq_bind; [apply kq_bird|]. intros o Ho. eapply kq_bind with (Φ := fun r => att r = att b).
        -- apply kq_lift. intros r Hr. assert (Eo : att o = att b) by congruence. cbv iota in Hr. unfold get_better_agent in Hr.
           assert (C : forall x : agent bird, agent_copy x = Ok r -> att r = att x).
           { intros x. unfold agent_copy. destruct (tgt x); [|discriminate]. intros [= <-]. reflexivity. }
           destruct (p_mm P); cbn [bind xorb] in Hr; try discriminate;
             (destruct (fitness c) as [fc|]; cbn [bind] in Hr; [|discriminate]); (destruct (fitness o) as [fo|]; cbn [bind] in Hr; [|discriminate]);
             destruct (flt fc fo); apply C in Hr; congruence.
        -- intros r Hr. apply kq_bird_set. rewrite Hr. exact Hb.
      * intros _ _. apply kq_ret, Hs, Hc.
  - cbn [Nat.add]. intros l Hl. apply kq_when. eapply kq_bind; [apply update_kq|]. cbv beta. intros r Hr.
    apply bsa_greedy_kq. intros Hlen. rewrite Hr, Hl. apply firstn_all2.
    assert (Q : List.length (memory r) = List.length (firstn n L)) by (rewrite Hr, Hl; reflexivity). unfold memory in Q. rewrite map_length, firstn_length in Q. lia.
Qed.
Lemma bsa_evolve_kq ff c1 c2 a1 a2 pff fc n ep : kq (bsa_evolve E P md ff c1 c2 a1 a2 pff fc n ep) (fun _ => True).
Proof.
  unfold bsa_evolve. do 2 (eapply kq_bind with (Φ := fun _ => True); [ks|intros ? _]). destruct (negb _); [apply bsa_fly_kq|].
  eapply kq_bind; [apply bsa_groups_kq|]. intros l Hl. eapply kq_bind; [apply evaluate_all_kq|]. cbv beta. intros r Hr. apply bsa_greedy_kq. congruence.
Qed.
Lemma bsa_loop_kq ff c1 c2 a1 a2 pff fc n epochs tm m : forall i, kq (main_loop E P (original_bsa E P md ff c1 c2 a1 a2 pff fc n epochs) tm m i) (fun _ => True).
Proof.
  induction m as [|m IH]; intros i; cbn [main_loop]; [ks|]. ks; [|apply IH]. unfold epoch_step. cbn [original_bsa agent_algo al_evolve al_sort].
  unfold update_global_best_agent, track_optimize_step, check_termination_end. ks. apply bsa_evolve_kq.
Qed.
End Fixed.
(** From the start of the main loop to its end, over any number of epochs, no bird of OriginalBSA changes what it remembers: the best
    position and target of a bird stay those of its start. *)
Theorem C71_OriginalBSA_memory ff c1 c2 a1 a2 pff fc n epochs tm m i s u s' :
  main_loop E P (original_bsa E P md ff c1 c2 a1 a2 pff fc n epochs) tm m i s = Ok (u, s') -> memory (s_pop s') = memory (s_pop s).
Proof. intros H. exact (proj1 (bsa_loop_kq (memory (s_pop s)) ff c1 c2 a1 a2 pff fc n epochs tm m i s u s' H eq_refl)). Qed.
End Birds.

Print Assumptions C71_OriginalPSO_memory.
Print Assumptions C71_AIW_PSO_memory.
Print Assumptions C71_LDW_PSO_memory.
Print Assumptions C71_P_PSO_memory.
Print Assumptions C71_HPSO_TVAC_memory.
Print Assumptions C71_C_PSO_memory.
Print Assumptions C71_OriginalPSO.
Print Assumptions C71_OriginalBSA_memory.
