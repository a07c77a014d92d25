(** Initializations that evaluate agents and change the population: a logic on [Start] states (as PFree, before the main loop). *)
From Coq Require Import Permutation.
From Verif Require Import Prelude Fl MCore MHelp MAlg MAlg2 MAlg3 MAlg4 SpecCore SpecRun SpecAlg SpecWhen PSelect PLogic PSolve PRun PAlg PFree PClass PAlg2 PAlg3 PAlg4 PAlg6 PRef.

Section Starting.
Context {A X : Type}.
Variables (E : env) (P : problem) (md : MCore.mode) (feas : vec -> Prop) (attok : list vec -> A -> Prop) (IL : nat -> Prop) (IX : list vec -> X -> Prop) (cov : Prop) (nd n0 : nat).
Hypothesis HP : params E P feas attok cov.
Hypothesis Hno : ~ cov.
Notation good := (good P feas attok).
Notation fresh_agent := (fresh_agent feas attok).
Notation Start := (Start P feas attok IL IX cov nd n0).
Definition sp {Y} (w : list vec) (a b : nat) (m : M A X Y) (Φ : list vec -> Y -> Prop) : Prop :=
  forall s, Start s -> incl w (s_log s) ->
    wp m (fun y s' => Start s' /\ incl (s_log s) (s_log s') /\ List.length (s_log s) + a <= List.length (s_log s') <= List.length (s_log s) + b /\ Φ (s_log s') y) s.
Lemma begin_bump s k : Start s -> Start (bump s k).
Proof. intros []. constructor; auto. Qed.
Lemma begin_evald s xs : Start s -> Forall feas xs -> Start (evald s xs).
Proof.
  intros [] Hx. assert (Hi : incl (s_log s) (s_log s ++ xs)) by (apply incl_appl, incl_refl). constructor; cbn; auto.
  - eapply Forall_impl; [|exact st_good]. intros a. apply good_mono; [apply HP|exact Hi].
  - apply Forall_app; split; [assumption|exact Hx].
  - rewrite app_length; lia.
  - intros C. contradiction (Hno C).
  - eapply xok_mono; [exact Hi|assumption].
Qed.
Lemma begin_pop s p : Start s -> IL (List.length p) -> Forall (good (s_log s)) p -> Start (with_pop s p).
Proof. intros [] Hl Hg. constructor; auto. intros C. contradiction (Hno C). Qed.
Lemma sp_mono {Y} w a b a' b' (m : M A X Y) (Φ Ψ : list vec -> Y -> Prop) : sp w a b m Φ -> a' <= a -> b <= b' -> (forall w' y, incl w w' -> Φ w' y -> Ψ w' y) -> sp w a' b' m Ψ.
Proof.
  intros H Ha Hb HΨ s S0 Hi. eapply wp_mono; [apply (H s S0 Hi)|]. intros y s' (S1 & I1 & L1 & F1). split; [exact S1|]. split; [exact I1|]. split; [lia|].
  apply HΨ; [exact (incl_tran Hi I1)|exact F1].
Qed.
Lemma sp_ret {Y} w (y : Y) (Φ : list vec -> Y -> Prop) : (forall w', incl w w' -> Φ w' y) -> sp w 0 0 (ret y) Φ.
Proof. intros H s S0 Hi. apply wp_ret. split; [exact S0|]. split; [apply incl_refl|]. split; [lia|]. apply H, Hi. Qed.
Lemma sp_bind {Y Z} w a b c d (m : M A X Y) (f : Y -> M A X Z) (Φ : list vec -> Y -> Prop) (Ψ : list vec -> Z -> Prop) : sp w a b m Φ -> (forall y w', incl w w' -> Φ w' y -> sp w' c d (f y) Ψ) -> sp w (a + c) (b + d) (y <- m ;; f y) Ψ.
Proof.
  intros H1 H2 s S0 Hi. apply wp_bind. eapply wp_mono; [apply (H1 s S0 Hi)|]. intros y s1 (S1 & I1 & L1 & F1).
  eapply wp_mono; [apply (H2 y (s_log s1) (incl_tran Hi I1) F1 s1 S1), incl_refl|]. intros z s2 (S2 & I2 & L2 & F2).
  split; [exact S2|]. split; [exact (incl_tran I1 I2)|]. split; [lia|exact F2].
Qed.
Lemma sp_qbind {Y Z} w c d (m : M A X Y) (f : Y -> M A X Z) (Φ : list vec -> Y -> Prop) (Ψ : list vec -> Z -> Prop) : sp w 0 0 m Φ -> (forall y w', incl w w' -> Φ w' y -> sp w' c d (f y) Ψ) -> sp w c d (y <- m ;; f y) Ψ.
Proof. apply (sp_bind w 0 0 c d). Qed.
Lemma sp_dr {Y} w (m : M A X Y) (Φ : Y -> Prop) : dr m Φ -> sp w 0 0 m (fun _ => Φ).
Proof. intros H s S0 Hi. eapply wp_mono; [apply H|]. intros y s' [[k ->] F]. split; [apply begin_bump, S0|]. split; [apply incl_refl|]. split; [cbn; lia|exact F]. Qed.
Lemma sp_lift {Y} w (r : res Y) (Φ : list vec -> Y -> Prop) y : r = Ok y -> (forall w', incl w w' -> Φ w' y) -> sp w 0 0 (lift r) Φ.
Proof. intros -> H s S0 Hi. unfold lift, wp. split; [exact S0|]. split; [apply incl_refl|]. split; [lia|]. apply H, Hi. Qed.
Lemma sp_get_pop w : sp w 0 0 get_pop (fun w' p => IL (List.length p) /\ Forall (good w') p).
Proof. intros s S0 Hi. apply wp_get_pop. split; [exact S0|]. split; [apply incl_refl|]. split; [lia|]. destruct S0. auto. Qed.
Lemma sp_set_pop w p : IL (List.length p) -> Forall (good w) p -> sp w 0 0 (set_pop p) (fun _ _ => True).
Proof.
  intros Hl Hg s S0 Hi. unfold set_pop, wp. fold (with_pop s p). split; [|split; [apply incl_refl|split; [cbn; lia|exact I]]].
  apply begin_pop; [exact S0|exact Hl|]. eapply Forall_impl; [|exact Hg]. intros a. apply good_mono; [apply HP|exact Hi].
Qed.
Lemma sp_pop_at w i : (forall m, IL m -> i < m) -> sp w 0 0 (pop_at i) good.
Proof.
  intros Hi s S0 Hw. pose proof S0 as []. unfold pop_at. apply wp_bind, wp_get_pop.
  destruct (getitem_lt (s_pop s) i (Hi _ st_len)) as (a & Ea & _ & Ia). eapply wp_lift; [exact Ea|]. split; [exact S0|]. split; [apply incl_refl|]. split; [lia|].
  rewrite Forall_forall in st_good. apply st_good, Ia.
Qed.
Lemma sp_pop_sol w i : (forall m, IL m -> i < m) -> sp w 0 0 (pop_sol i) (fun _ _ => True).
Proof. intros Hi. unfold pop_sol. eapply sp_qbind; [apply sp_pop_at, Hi|]. intros. apply sp_ret. auto. Qed.
Lemma sp_fitness w a : good w a -> sp w 0 0 (lift (fitness a)) (fun _ f => f = fit a).
Proof. intros G. eapply sp_lift; [unfold fitness; rewrite (g_tgt _ _ _ _ _ G); reflexivity|]. intros. unfold fit. rewrite (g_tgt _ _ _ _ _ G). reflexivity. Qed.
Lemma sp_pop_set w i a : (forall m, IL m -> i < m) -> good w a -> sp w 0 0 (pop_set i a) (fun _ _ => True).
Proof.
  intros Hi G s S0 Hw. pose proof S0 as []. pose proof (Hi _ st_len) as Hl. apply wp_pop_set; [exact Hl|].
  split; [|split; [apply incl_refl|split; [cbn; lia|exact I]]].
  apply (begin_pop s (upd (s_pop s) i a)); [exact S0|rewrite upd_length; exact st_len|]. apply upd_Forall; [exact st_good|].
  eapply good_mono; [apply HP|exact Hw|exact G].
Qed.
Lemma sp_evaluate w a : fresh_agent a -> sp w 1 1 (evaluate P a) good.
Proof.
  intros [F1 F2] s S0 Hw. unfold evaluate. apply wp_bind, wp_get_target, wp_ret. split; [apply begin_evald; auto|]. cbn.
  split; [apply incl_appl, incl_refl|]. rewrite app_length. cbn. split; [lia|].
  assert (In (sol a) (s_log s ++ [sol a])) by (apply in_or_app; right; left; reflexivity). constructor; cbn; auto.
Qed.
Lemma sp_update_target w l : is_avail md = true -> Forall fresh_agent l ->
  sp w (List.length l) (List.length l) (update_target_for_population P md l) (fun w' r => List.length r = List.length l /\ Forall (good w') r).
Proof.
  intros Hav HF s S0 Hw. eapply wp_update_target_avail; [exact Hav|]. intros q ->. split.
  - apply begin_evald; [exact S0|]. rewrite Forall_map. eapply Forall_impl; [|exact HF]. intros a [F _]. exact F.
  - cbn. split; [apply incl_appl, incl_refl|]. rewrite app_length, map_length. split; [lia|]. rewrite map_length. split; [reflexivity|].
    rewrite Forall_map. rewrite Forall_forall in *. intros a Ha. destruct (HF a Ha) as [F1 F2].
    assert (In (sol a) (s_log s ++ map sol l)) by (apply in_or_app; right; apply in_map; exact Ha). constructor; cbn; auto.
Qed.
Lemma sp_for_acc {B} w a b n : forall i (x : B) (f : nat -> B -> M A X B) (J : nat -> list vec -> B -> Prop), J i w x -> (forall j w' w'' y, incl w' w'' -> J j w' y -> J j w'' y) ->
  (forall j y w', i <= j < i + n -> incl w w' -> J j w' y -> sp w' a b (f j y) (J (S j))) -> sp w (n * a) (n * b) (for_acc n i x f) (J (i + n)).
Proof.
  induction n as [|n IH] in w |- *; intros i x f J H0 Hm Hf; cbn [for_acc].
  - rewrite Nat.add_0_r. apply sp_ret. intros w' Hi. eapply Hm; eassumption.
  - replace (i + S n) with (S i + n) by lia. cbn [Nat.mul]. eapply sp_bind; [apply Hf; [lia|apply incl_refl|exact H0]|]. intros y w1 Hw HJ.
    apply (IH w1 (S i) y f J HJ Hm). intros j z w2 Hj Hw2 HJ2. apply Hf; [lia|exact (incl_tran Hw Hw2)|exact HJ2].
Qed.
Lemma sp_for w a b n f : (forall j w', j < n -> incl w w' -> sp w' a b (f j) (fun _ _ => True)) -> sp w (n * a) (n * b) (for_ n f) (fun _ _ => True).
Proof.
  intros Hf. unfold for_. eapply sp_mono; [apply (sp_for_acc w a b n 0 tt (fun i _ => f i) (fun _ _ _ => True)); auto|lia|lia|auto].
  intros j y w' Hj Hw _. apply Hf; [lia|exact Hw].
Qed.
Lemma sp_when w a b (c : bool) m : sp w a b m (fun _ _ => True) -> sp w 0 b (when c m) (fun _ _ => True).
Proof. intros H. unfold when. destruct c; [eapply sp_mono; [exact H|lia|lia|auto]|eapply sp_mono with (Φ := fun _ _ => True); [apply sp_ret; auto|lia|lia|auto]]. Qed.
(** Proposals of corrected positions. *)
Variable correct : vec -> M A X vec.
Variable gea : option vec -> M A X (agent A).
Hypothesis Hcor : forall x, dr (correct x) feas.
Hypothesis Hgea : gea_ok feas attok gea.
Lemma sp_propose w x : sp w 0 0 (propose correct gea x) (fun _ => fresh_agent).
Proof.
  unfold propose. eapply sp_qbind; [apply sp_dr, Hcor|]. intros y w' _ Hy. apply sp_dr. intros s. eapply wp_mono; [apply (Hgea s (Some y)); exact Hy|].
  intros a s' (K & Es & Ea). split; [exact K|]. split; [rewrite Es; exact Hy|exact Ea].
Qed.
Lemma sp_gen_agent w x : sp w 1 1 (gen_agent P correct gea x) good.
Proof. unfold gen_agent. eapply sp_qbind; [apply sp_propose|]. intros a w' _ F. apply sp_evaluate, F. Qed.
Lemma sp_random_agent w : sp w 1 1 (random_agent P gea) good.
Proof.
  unfold random_agent. eapply sp_qbind with (Φ := fun _ => fresh_agent); [|intros a w' _ F; apply sp_evaluate, F]. apply sp_dr. intros s.
  eapply wp_mono; [apply (Hgea s None); exact I|]. intros a s' (K & Es & Ea). split; [exact K|]. split; assumption.
Qed.
Lemma goods_mono L L' l : incl L L' -> Forall (good L) l -> Forall (good L') l.
Proof. intros Hi. apply Forall_impl. intros a. apply good_mono; [apply HP|exact Hi]. Qed.
Lemma sp_new_agents w m cand : (forall i w', i < m -> incl w w' -> sp w' 0 0 (cand i) (fun _ _ => True)) ->
  sp w m m (new_agents P md correct gea m cand) (fun w' l => List.length l = m /\ Forall (good w') l).
Proof.
  intros Hc. unfold new_agents. destruct (is_avail md) eqn:Hav.
  - eapply sp_mono with (a := m * 0 + m) (b := m * 0 + m); [|lia|lia|intros w' y _ T; exact T].
    eapply sp_bind.
    + apply (sp_for_acc w 0 0 m 0 [] _ (fun j _ l => List.length l = j /\ Forall fresh_agent l)); [split; [reflexivity|constructor]|auto|].
      intros j l w' Hj Hw [L1 F1]. eapply sp_qbind; [apply Hc; [lia|exact Hw]|]. intros x w1 _ _. eapply sp_qbind; [apply sp_propose|]. intros a w2 _ F.
      apply sp_ret. intros w3 _. rewrite app_length. cbn. split; [lia|]. apply Forall_app. auto.
    + intros l w1 Hw [L1 F1]. cbn [Nat.add] in L1. rewrite <- L1. apply sp_update_target; assumption.
  - eapply sp_mono with (a := m * 1 + 0) (b := m * 1 + 0); [|lia|lia|intros w' y _ T; exact T].
    eapply sp_bind.
    + apply (sp_for_acc w 1 1 m 0 [] _ (fun j w' l => List.length l = j /\ Forall (good w') l)).
      * split; [reflexivity|constructor].
      * intros j w' w'' l Hi [L1 F1]. split; [exact L1|eapply goods_mono; eassumption].
      * intros j l w' Hj Hw [L1 F1]. eapply sp_qbind; [apply Hc; [lia|exact Hw]|]. intros x w1 Hw1 _. eapply sp_qbind; [apply sp_propose|]. intros a w2 Hw2 F.
        change 1 with (1 + 0). eapply sp_bind; [apply sp_evaluate, F|]. intros a' w3 Hw3 G. apply sp_ret. intros w4 Hw4. rewrite app_length. cbn. split; [lia|].
        apply Forall_app. split; [eapply goods_mono; [|exact F1]; eauto using incl_tran|constructor; [eapply good_mono; [apply HP|exact Hw4|exact G]|constructor]].
    + intros l w1 Hw [L1 F1]. apply sp_ret. intros w2 Hw2. split; [exact L1|eapply goods_mono; eassumption].
Qed.
Lemma sp_better w a b : good w a -> good w b -> sp w 0 0 (lift (get_better_agent a b (p_mm P) false)) good.
Proof.
  intros Ga Gb. destruct (good_get_better P feas attok (pr_mm _ _ _ _ _ HP) w a b false Ga Gb) as (r & Er & _ & Gr & _). eapply sp_lift; [exact Er|].
  intros w' Hi. eapply good_mono; [apply HP|exact Hi|exact Gr].
Qed.
End Starting.
(** Greedy selection with new agents, as [greedy_each]. *)
Section Greedy.
Context {A X : Type}.
Variables (E : env) (P : problem) (md : MCore.mode) (feas : vec -> Prop) (attok : list vec -> A -> Prop) (IX : list vec -> X -> Prop) (cov : Prop) (nd n0 n : nat).
Hypothesis HP : params E P feas attok cov.
Hypothesis Hno : ~ cov.
Variable correct : vec -> M A X vec.
Variable gea : option vec -> M A X (agent A).
Hypothesis Hcor : forall x, dr (correct x) feas.
Hypothesis Hgea : gea_ok feas attok gea.
Notation good := (good P feas attok).
Notation fresh_agent := (fresh_agent feas attok).
Notation sp := (sp P feas attok (eq n) IX cov nd n0).
Lemma sp_greedy_each w nf cand : (forall i w', i < n -> incl w w' -> sp w' 0 0 (cand i) (fun _ _ => True)) ->
  sp w n n (greedy_each P md correct gea n nf cand) (fun _ _ => True).
Proof.
  intros Hc. assert (IX0 : forall i, i < n -> forall m, n = m -> i < m) by (intros; lia). unfold greedy_each, greedy_loop. destruct (is_avail md) eqn:Hav.
  - eapply sp_mono with (a := n * 0 + (n + 0)) (b := n * 0 + (n + 0)); [|lia|lia|intros w' y _ T; exact T]. eapply sp_bind.
    + apply (sp_for_acc P feas attok (eq n) IX cov nd n0 w 0 0 n 0 [] _ (fun j _ l => List.length l = j /\ Forall fresh_agent l)); [split; [reflexivity|constructor]|auto|].
      intros j l w' Hj Hw [L1 F1]. eapply sp_qbind with (Φ := fun _ _ => True).
      { eapply sp_qbind; [apply Hc; [lia|exact Hw]|]. intros. apply sp_ret. auto. }
      intros x w1 _ _. eapply sp_qbind; [eapply sp_propose; eassumption|]. intros a w2 _ F.
      apply sp_ret. intros w3 _. rewrite app_length. cbn. split; [lia|]. apply Forall_app. auto.
    + intros l w1 Hw [L1 F1]. cbn [Nat.add] in L1. cbn [when].
      eapply sp_mono with (a := List.length l + 0) (b := List.length l + 0) (Φ := fun _ _ => True); [|lia|lia|auto].
      eapply sp_bind; [eapply sp_update_target; eassumption|].
      intros q w2 Hw2 [Lq Gq]. eapply sp_qbind; [apply sp_get_pop|]. intros p w3 Hw3 [Lp Gp].
      assert (Gq3 : Forall (good w3) q) by (eapply goods_mono; eassumption).
      destruct (greedy_covers E P feas attok cov HP w3 p q Gp Gq3) as (r & Er & Lr & Gr & _); [lia|].
      eapply sp_qbind with (Φ := fun w' y => List.length y = n /\ Forall (good w') y).
      { eapply sp_lift; [exact Er|]. intros w4 Hw4. split; [lia|eapply goods_mono; eassumption]. }
      intros y w4 Hw4 [L4 G4]. eapply sp_set_pop; [exact HP|exact Hno|auto|exact G4].
  - eapply sp_mono with (a := n * 1 + 0) (b := n * 1 + 0); [|lia|lia|intros w' y _ T; exact T]. eapply sp_bind.
    + apply (sp_for_acc P feas attok (eq n) IX cov nd n0 w 1 1 n 0 [] _ (fun _ _ _ => True)); auto.
      intros j l w' Hj Hw _. eapply sp_qbind with (Φ := fun _ x => fst x = j).
      { eapply sp_qbind; [apply Hc; [lia|exact Hw]|]. intros. apply sp_ret. auto. }
      intros x w1 _ Hx. eapply sp_qbind; [eapply sp_propose; eassumption|]. intros a w2 _ F. change 1 with (1 + 0).
      eapply sp_bind; [eapply sp_evaluate; eassumption|]. intros a' w3 Hw3 G. unfold keep_better.
      eapply sp_qbind with (Φ := fun _ _ => True); [|intros; apply sp_ret; auto].
      eapply sp_qbind; [apply sp_pop_at; apply IX0; rewrite Hx; lia|]. intros old w4 Hw4 Go.
      assert (G4 : good w4 a') by (eapply good_mono; [apply HP|exact Hw4|exact G]).
      eapply sp_qbind; [destruct nf; eapply sp_better; try exact HP; assumption|]. intros b w5 Hw5 Gb. eapply sp_pop_set; [exact HP|exact Hno|apply IX0; rewrite Hx; lia|exact Gb].
    + intros. apply sp_ret. auto.
Qed.
End Greedy.
(** Runs that return, when the initialization may raise. *)
Section Refines.
Context {A X : Type}.
Variables (E : env) (P : problem) (md : MCore.mode).
Definition with_start (al : @algo A X) (i : M A X unit) (ev : nat -> M A X unit) : @algo A X :=
  mkAlgo (al_pop_size al) (al_epoch al) (al_sort al) (al_gea al) (al_ga al) (al_init_vars al) i (al_before_main al) ev.
Lemma ref_begin_loop al init ev tm n : forall i, (forall ep, refines (al_evolve al ep) (ev ep)) ->
  refines (main_loop E P al tm n i) (main_loop E P (with_start al init ev) tm n i).
Proof.
  induction n as [|n IH]; intros i H; [apply ref_refl|]. cbn [main_loop]. apply ref_bind.
  - unfold epoch_step. apply ref_bind; [apply ref_refl|]. intros k. apply ref_bind; [apply H|]. intros []. apply ref_refl.
  - intros [r|]; [apply ref_refl|apply IH, H].
Qed.
Lemma ref_begin al i ev tm starting : refines (al_init al) i -> (forall ep, refines (al_evolve al ep) (ev ep)) ->
  refines (solve E P md al tm starting) (solve E P md (with_start al i ev) tm starting).
Proof.
  intros Hi H. unfold solve. do 4 (apply ref_bind; [apply ref_refl|intros ?]). apply ref_bind; [exact Hi|intros ?]. do 2 (apply ref_bind; [apply ref_refl|intros ?]).
  apply ref_bind; [apply ref_begin_loop, H|]. intros. apply ref_refl.
Qed.
Lemma begins_of al i ev XP H ST IL elite imin imax kmin kmax : refines (al_init al) i -> (forall ep, refines (al_evolve al ep) (ev ep)) ->
  sound_run_gen E P md (with_start al i ev) XP H ST IL elite imin imax kmin kmax -> sound_when E P md al XP H ST IL elite imin imax kmin kmax.
Proof.
  intros Hi Hr HS feas tm starting s H1 H2 H3 H4 H5 H6 H7 g s' Hs. destruct (HS feas tm starting s H1 H2 H3 H4 H5 H6 H7) as (g1 & s1 & E1 & R1).
  apply (ref_begin al i ev tm starting Hi Hr) in Hs. rewrite Hs in E1. injection E1 as -> ->. exact R1.
Qed.
End Refines.

(** [generate_population] inside evolve: the new agents are held. *)
Section Held.
Context {A X : Type}.
Variables (E : env) (P : problem) (md : MCore.mode) (feas : vec -> Prop) (attok : list vec -> A -> Prop) (IL : nat -> Prop) (IX : list vec -> X -> Prop) (cov : Prop) (nd n0 n : nat) (s0 : st A X).
Hypothesis HP : params E P feas attok cov.
Notation R := (R P feas attok IL IX cov nd n0 n s0).
Lemma wp_population_with W l s m (ga : M A X (agent A)) (Q : list (agent A) -> st A X -> Prop) : R W l s -> md <> Process -> ga_contract P feas attok ga ->
  (forall new s', List.length new = m -> R (W ++ new) (l + m) s' -> s_pop s' = s_pop s -> Q new s') ->
  wp (generate_population_with E md ga m) Q s.
Proof.
  intros (V & Hn & Hl) Hmd Hga HQ. eapply wp_mono; [apply generate_population_ok with (P := P) (feas := feas) (attok := attok); [apply HP|exact Hga]|].
  intros new s' (Ln & Gn & Ep & Eg & Eg' & Eh & Ex & (L & El & Pl & LL) & Nf). apply HQ; [exact Ln| |exact Ep].
  assert (Lo : lost md m = 0) by (unfold lost; destruct md; congruence).
  assert (Hi : incl (s_log s) (s_log s')) by (rewrite El; apply incl_appl, incl_refl).
  destruct V. split; [|split; [rewrite Ep; exact Hn|rewrite El, app_length; lia]]. constructor.
  - exact v_inv0.
  - rewrite Eh. exact v_hist.
  - rewrite Ep. eapply Forall_impl; [|exact v_good]. intros a. apply good_mono; [apply HP|exact Hi].
  - apply Forall_app. split; [|exact Gn]. eapply Forall_impl; [|exact v_W]. intros a. apply good_mono; [apply HP|exact Hi].
  - destruct v_gb as (g & G1 & G2). exists g. rewrite Eg. split; [exact G1|]. eapply good_mono; [apply HP|exact Hi|exact G2].
  - destruct v_gw as (g & G1 & G2). exists g. rewrite Eg'. split; [exact G1|]. eapply good_mono; [apply HP|exact Hi|exact G2].
  - exact (incl_tran v_ext Hi).
  - rewrite El. apply Forall_app. split; [exact v_log|]. apply Forall_forall. intros x Hx. eapply Permutation_in in Hx; [|exact Pl].
    apply in_map_iff in Hx. destruct Hx as (a & <- & Ha). rewrite Forall_forall in Gn. apply (Gn a Ha).
  - rewrite El, app_length. lia.
  - intros C g x Hg Hx. rewrite El in Hx. apply in_app_or in Hx. destruct Hx as [Hx|Hx].
    + destruct (v_cov C g x Hg Hx) as [T|(b & Hb & T)]; [left; exact T|right]. exists b. split; [|exact T]. rewrite Ep, !in_app_iff in *. tauto.
    + right. eapply Permutation_in in Hx; [|exact Pl]. apply in_map_iff in Hx. destruct Hx as (a & <- & Ha). exists a.
      split; [rewrite !in_app_iff; tauto|]. rewrite Forall_forall in Gn. pose proof (Gn a Ha) as Ga. rewrite <- (good_fit _ _ _ _ _ Ga).
      apply no_worse_refl; [apply HP|]. eapply good_num; [apply HP; exact C|exact Ga].
  - rewrite Ex. eapply xok_mono; [exact Hi|exact v_x].
Qed.
End Held.
