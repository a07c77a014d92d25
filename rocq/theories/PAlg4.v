(** More rules: generate_population inside evolve, populations of varying size, initialization that does more than the default. *)
From Verif Require Import Prelude Fl MCore MHelp MAlg MAlg2 MAlg3 SpecCore SpecRun PSelect PLogic PSolve PRun PPart SpecAlg PAlg PFree PClass PAlg2 PAlg3.

Section Free4.
Context {A X : Type}.
Variable E : env.
Variable P : problem.
Variable md : mode.
Variable feas : vec -> Prop.
Variable attok : list vec -> A -> Prop.
Variable IL : nat -> Prop.
Variable IX : list vec -> X -> Prop.
Variable cov : Prop.
Variables nd n0 n : nat.
Variable s0 : st A X.
Hypothesis HP : params E P feas attok cov.
Hypothesis Hno : ~ cov.
Notation ok := (ok P feas attok).
Notation pend := (pend feas attok).
Notation gq := (gq P feas attok IL IX cov nd n0 n s0).
Notation gt := (gt P feas attok IL IX cov nd n0 n s0).
Lemma g_population_with w ga m : md <> Process -> ga_ok P feas attok ga ->
  gt w m m (generate_population_with E md (ga None) m) (fun w' l => List.length l = m /\ Forall (ok w') l).
Proof.
  intros Hmd Hga. unfold generate_population_with. pose proof (g_population E P feas attok IL IX cov nd n0 n s0 HP Hno w ga m Hga) as S0.
  destruct md; try exact S0; [|congruence].
  eapply g_qbind; [eapply gq_qt; [exact HP|exact Hno|apply q_tick]|]. intros k _.
  eapply g_mono with (a := m + 0) (b := m + 0); [|lia|lia|intros w2 y _ T; exact T].
  eapply g_bind; [exact S0|]. intros l w' Hi [Hl Hg]. apply g_ret.
  pose proof (reorder_perm (e_order E k) l) as Hp. split; [rewrite (Permutation_length Hp); exact Hl|].
  rewrite Forall_forall in *. intros a Ha. apply Hg. eapply Permutation_in; eauto.
Qed.
End Free4.

(** Populations of varying size: the step ends by setting the new population. *)
Lemma contract_free_len {A X} (P : problem) (feas : vec -> Prop) (attok : list vec -> A -> Prop) (IL : nat -> Prop) (IX : list vec -> X -> Prop)
    (cov : Prop) (nd n0 kmin kmax : nat) (pre : nat -> M A X (list (agent A))) :
  ~ cov ->
  (forall ep s0 w, 1 <= ep -> Inv P feas attok IL IX cov nd n0 s0 ->
     gt P feas attok IL IX cov nd n0 (List.length (s_pop s0)) s0 w kmin kmax (pre ep)
       (fun w' q => Forall (ok P feas attok w') q /\ IL (List.length q))) ->
  evolve_contract P feas attok IL IX cov nd n0 kmin kmax (fun ep => q <- pre ep ;; set_pop q).
Proof.
  intros Hno H ep s Hep HI. apply wp_bind.
  eapply wp_mono; [apply (H ep s (s_log s) Hep HI s eq_refl); split; [apply Ev_init; exact HI|reflexivity]|].
  intros q s' (_ & [Hq HL] & C & V & Hn). unfold wp, set_pop. simpl.
  split; [|split; [exact HL|lia]].
  rewrite Forall_forall in Hq.
  apply (Ev_set P feas attok IL IX cov nd n0 s [] s' q []); auto.
  - intros a [].
  - intros c; contradiction (Hno c).
Qed.

(** Holding agents outside the population. *)
Section Hold.
Context {A X : Type}.
Variable E : env.
Variable P : problem.
Variable md : mode.
Variable feas : vec -> Prop.
Variable attok : list vec -> A -> Prop.
Variable IL : nat -> Prop.
Variable IX : list vec -> X -> Prop.
Variable cov : Prop.
Variables nd n0 n : nat.
Variable s0 : st A X.
Hypothesis HP : params E P feas attok cov.
Notation good := (good P feas attok).
Notation R := (R P feas attok IL IX cov nd n0 n s0).
Notation qt := (qt P feas attok IL IX cov nd n0 n s0).
Lemma R_exchange W V V' l s : R (W ++ V) l s -> Forall (good (s_log s)) V' ->
  (cov -> forall a, In a V -> exists b, In b (s_pop s ++ V') /\ no_worse (p_mm P) (fit b) (fit a)) -> R (W ++ V') l s.
Proof.
  intros HR GV HC. assert (HR2 : R ((W ++ V) ++ V') l s) by (eapply R_hold; eauto).
  destruct HR2 as (V2 & Hn & Hl). split; [|split; assumption].
  eapply Ev_drop; [apply HP|apply HP|exact V2| |].
  - intros a Ha. rewrite !in_app_iff in *. tauto.
  - intros C g a _ Ha. right. assert (G : good (s_log s) a) by (eapply Ev_W_good; eauto).
    assert (K : no_worse (p_mm P) (fit a) (fit a)) by (apply no_worse_refl; [apply HP|eapply good_num; [apply HP; exact C|exact G]]).
    rewrite !in_app_iff in Ha. destruct Ha as [[Ha|Ha]|Ha].
    + exists a. rewrite !in_app_iff. auto.
    + destruct (HC C a Ha) as (b & Hb & Hw). exists b. rewrite !in_app_iff in *. tauto.
    + exists a. rewrite !in_app_iff. auto.
Qed.
Lemma R_incl W V V' l s : R (W ++ V) l s -> incl V V' -> incl V' (s_pop s ++ V) -> R (W ++ V') l s.
Proof.
  intros HR H1 H2. assert (G : Forall (good (s_log s)) V').
  { apply Forall_forall. intros a Ha. specialize (H2 a Ha). apply in_app_or in H2. destruct HR as (V0 & _). destruct H2 as [H2|H2].
    - eapply Ev_pop_good; eauto. - eapply Ev_W_good; [exact V0|apply in_or_app; auto]. }
  eapply R_exchange; [exact HR|exact G|]. intros C a Ha. exists a. split; [apply in_or_app; auto|].
  apply no_worse_refl; [apply HP|]. rewrite Forall_forall in G. eapply good_num; [apply HP; exact C|apply G, H1, Ha].
Qed.
(** A list of agents made and evaluated one after another. *)
Lemma wp_evals {T} W l s (ts : list T) (mk : T -> M A X (agent A)) (Q : list (agent A) -> st A X -> Prop) : R W l s ->
  (forall t, In t ts -> forall W1 l1 s1 (K : agent A -> st A X -> Prop), R W1 l1 s1 ->
     (forall a s', good (s_log s') a -> R (W1 ++ [a]) (l1 + 1) s' -> s_pop s' = s_pop s1 -> K a s') -> wp (mk t) K s1) ->
  (forall new s', List.length new = List.length ts -> R (W ++ new) (l + List.length ts) s' -> s_pop s' = s_pop s -> Q new s') ->
  wp (for_list ts [] (fun t r => b <- mk t ;; ret (r ++ [b]))) Q s.
Proof.
  intros HR Hm HQ.
  apply wp_for_list with (I := fun pre acc s' => List.length acc = List.length pre /\ R (W ++ acc) (l + List.length pre) s' /\ s_pop s' = s_pop s).
  - simpl. rewrite app_nil_r, Nat.add_0_r. auto.
  - intros pre t suf acc s' Et (Hl & HR' & Hp). apply wp_bind. eapply Hm; [rewrite Et; apply in_or_app; right; left; reflexivity|exact HR'|].
    intros a s'' Ga HR'' Hp''. apply wp_ret. rewrite !app_length. simpl. split; [lia|]. split; [|congruence].
    rewrite app_assoc. replace (l + (List.length pre + 1)) with (l + List.length pre + 1) by lia. exact HR''.
  - intros acc s' (Hl & HR' & Hp). apply HQ; auto.
Qed.
Lemma combine_nth {T U} (p : list T) (q : list U) i x y : nth_error p i = Some x -> nth_error q i = Some y -> In (x, y) (combine p q).
Proof.
  revert p q. induction i as [|i IH]; intros [|x0 p] [|y0 q] H1 H2; simpl in *; try discriminate; [left; congruence|right; auto].
Qed.
(** Greedy selection keeps an agent no worse than each of the two it chooses from. *)
Lemma greedy_covers L p q : Forall (good L) p -> Forall (good L) q -> List.length p = List.length q ->
  exists r, greedy_selection_population p q (p_mm P) = Ok r /\ List.length r = List.length p /\ Forall (good L) r /\
    (cov -> forall a, In a (p ++ q) -> exists b, In b r /\ no_worse (p_mm P) (fit b) (fit a)).
Proof.
  intros Gp Gq Hl. eexists. split; [apply greedy_ok; [eapply Forall_good_target; exact Gp|eapply Forall_good_target; exact Gq|exact Hl]|].
  split; [rewrite map_length, combine_length; lia|]. rewrite Forall_forall in *. split.
  - intros z Hz. apply in_map_iff in Hz. destruct Hz as ([o m] & <- & Hcm). cbn [fst snd].
    destruct (greedy_pick_cases (p_mm P) o m) as [->| ->]; [apply Gp; eapply in_combine_l; eauto|apply Gq; eapply in_combine_r; eauto].
  - intros C a Ha. pose proof (pr_cov _ _ _ _ _ HP C) as N.
    assert (K : exists o m, In (o, m) (combine p q) /\ (a = o \/ a = m)).
    { apply in_app_or in Ha. destruct Ha as [Ha|Ha]; destruct (In_nth_error _ _ Ha) as [i Hi].
      - destruct (nth_error q i) as [m|] eqn:Em; [|apply nth_error_None in Em; assert (i < List.length p) by (apply nth_error_Some; congruence); lia].
        exists a, m. split; [eapply combine_nth; eauto|auto].
      - destruct (nth_error p i) as [o|] eqn:Em; [|apply nth_error_None in Em; assert (i < List.length q) by (apply nth_error_Some; congruence); lia].
        exists o, a. split; [eapply combine_nth; eauto|auto]. }
    destruct K as (o & m & Hc & Hd). exists (greedy_pick (p_mm P) o m).
    split; [apply in_map_iff; exists (o, m); split; [reflexivity|exact Hc]|].
    destruct (greedy_pick_no_worse (p_mm P) o m (pr_mm _ _ _ _ _ HP)) as [H1 H2].
    + eapply good_num; [exact N|]. apply Gp. eapply in_combine_l; eauto.
    + destruct Hd as [->| ->]; [exact H1|]. apply H2. eapply good_num; [exact N|]. apply Gq. eapply in_combine_r; eauto.
Qed.
Lemma wp_special L p nb nw (Q : list (agent A) * list (agent A) * list (agent A) -> st A X -> Prop) (s : st A X) : Forall (good L) p ->
  (forall sp b w, List.length b = Nat.min nb (List.length p) -> Forall (good L) b -> Forall (good L) sp -> Q (sp, b, w) s) ->
  wp (special E P p nb nw) Q s.
Proof.
  intros G HQ. unfold special.
  destruct (sorted_population_spec _ (pr_argsort _ _ _ _ _ HP) p (p_mm P) (Forall_good_target _ _ _ _ _ G)) as (sp & ix & Es & Hix & _ & Hp & _).
  assert (Gs : Forall (good L) sp) by (rewrite Forall_forall in *; intros a Ha; apply G; eapply Permutation_in; eauto).
  assert (Gb : Forall (good L) (firstn nb sp)).
  { rewrite Forall_forall in *. intros a Ha. apply Gs. rewrite <- (firstn_skipn nb sp). apply in_or_app; auto. }
  assert (WF : forall q, incl q sp -> Forall (fun a => wf_agent a /\ feas (sol a)) q).
  { intros q Hq. apply Forall_forall. intros a Ha. rewrite Forall_forall in Gs. specialize (Gs a (Hq a Ha)). split; [eapply good_wf; exact Gs|apply Gs]. }
  assert (Hf : incl (firstn nb sp) sp) by (intros a Ha; rewrite <- (firstn_skipn nb sp); apply in_or_app; auto).
  apply wp_bind. eapply wp_lift.
  { unfold get_special_agents. rewrite Es. cbn [bind]. rewrite (copies_ok feas _ (WF _ Hf)).
    cbn [bind]. rewrite (copies_ok feas (firstn nw (rev sp))); [reflexivity|]. apply WF. intros a Ha. apply in_rev.
    rewrite <- (firstn_skipn nw (rev sp)). apply in_or_app; auto. }
  apply wp_ret. apply HQ; [|exact Gb|exact Gs]. rewrite firstn_length, (Permutation_length Hp). reflexivity.
Qed.
End Hold.

(** ** Initialization *)
Section Begin.
Context {A X : Type}.
Variable E : env.
Variable P : problem.
Variable md : mode.
Variable feas : vec -> Prop.
Variable attok : list vec -> A -> Prop.
Variable IX : list vec -> X -> Prop.
Variable cov : Prop.
Variables nd n0 n : nat.
Hypothesis HP : params E P feas attok cov.
Notation good := (good P feas attok).
(** [n] agents in the population, [W] at hand; [l] evaluations so far, none of which is better than all of these. *)
Record B (W : list (agent A)) (l : nat) (s : st A X) : Prop := mkB {
  b_len : List.length (s_pop s) = n;
  b_good : Forall (good (s_log s)) (s_pop s);
  b_W : Forall (good (s_log s)) W;
  b_log : Forall feas (s_log s);
  b_nfe : s_nfe s + nd = n0 + List.length (s_log s);
  b_cov : cov -> forall x, In x (s_log s) -> exists b, In b (s_pop s ++ W) /\ no_worse (p_mm P) (fit b) (fitx P x);
  b_hist : s_hist s = hist_new;
  b_x : xok IX (s_log s) (s_x s);
  b_l : List.length (s_log s) = l }.
Lemma B_start s : Start P feas attok (eq n) IX cov nd n0 s -> B [] (List.length (s_log s)) s.
Proof.
  intros []. constructor; auto. intros C x Hx. destruct (st_cov C x Hx) as (b & Hb & Hw). exists b. split; [apply in_or_app; auto|exact Hw].
Qed.
Lemma start_B l s : B [] l s -> Start P feas attok (eq n) IX cov nd n0 s /\ List.length (s_log s) = l.
Proof.
  intros []. split; [|assumption]. constructor; auto. intros C x Hx. destruct (b_cov0 C x Hx) as (b & Hb & Hw). rewrite app_nil_r in Hb. eauto.
Qed.
Lemma B_bump W l s k : B W l s -> B W l (bump s k).
Proof. intros []. constructor; auto. Qed.
Lemma B_x W l s x : B W l s -> xok IX (s_log s) x -> B W l (with_x s x).
Proof. intros [] H. constructor; auto. Qed.
Lemma B_dr {Y} W l s (m : M A X Y) Φ (Q : Y -> st A X -> Prop) : B W l s -> dr m Φ ->
  (forall y s', Φ y -> B W l s' -> s_pop s' = s_pop s -> s_log s' = s_log s -> Q y s') -> wp m Q s.
Proof. intros HB Hm HQ. eapply wp_mono; [apply Hm|]. intros y s' [[k ->] Hy]. apply HQ; auto. apply B_bump; exact HB. Qed.
Lemma B_good_any W l s a : B W l s -> In a (s_pop s ++ W) -> good (s_log s) a.
Proof.
  intros HB Ha. pose proof (b_good _ _ _ HB) as G1. pose proof (b_W _ _ _ HB) as G2. rewrite Forall_forall in *.
  apply in_app_or in Ha. destruct Ha; auto.
Qed.
Lemma B_evals W l s new : B W l s -> Forall (fresh_agent feas attok) new ->
  let new' := map (fun a => with_tgt a (prob_target P (sol a))) new in
  B (W ++ new') (l + List.length new) (evald s (map sol new)) /\ Forall (good (s_log s ++ map sol new)) new'.
Proof.
  intros HB Hf new'. pose proof HB as [].
  assert (Hinc : incl (s_log s) (s_log s ++ map sol new)) by (apply incl_appl, incl_refl).
  assert (Hm : forall q, Forall (good (s_log s)) q -> Forall (good (s_log s ++ map sol new)) q).
  { intros q. apply Forall_impl. intros a. apply good_mono; [apply HP|exact Hinc]. }
  assert (G : Forall (good (s_log s ++ map sol new)) new').
  { unfold new'. rewrite Forall_map. rewrite Forall_forall in *. intros a Ha. destruct (Hf a Ha) as [H1 H2].
    assert (Hi : In (sol a) (s_log s ++ map sol new)) by (apply in_or_app; right; apply in_map; exact Ha).
    constructor; simpl; auto. }
  split; [|exact G]. constructor; simpl; auto.
  - apply Forall_app; auto.
  - apply Forall_app; split; [assumption|]. rewrite Forall_map. eapply Forall_impl; [|exact Hf]. intros a Ha; apply Ha.
  - rewrite app_length, map_length. lia.
  - intros C x Hx. apply in_app_or in Hx. destruct Hx as [Hx|Hx].
    + destruct (b_cov0 C x Hx) as (b & Hb & Hw). exists b. split; [rewrite !in_app_iff in *; tauto|exact Hw].
    + apply in_map_iff in Hx. destruct Hx as (a & <- & Ha). exists (with_tgt a (prob_target P (sol a))).
      assert (Hi : In (with_tgt a (prob_target P (sol a))) new') by (unfold new'; apply in_map_iff; eauto).
      split; [rewrite !in_app_iff; auto|]. rewrite Forall_forall in G. rewrite (good_fit _ _ _ _ _ (G _ Hi)).
      apply no_worse_refl; [apply HP|]. apply (pr_cov _ _ _ _ _ HP C). apply (G _ Hi).
  - eapply xok_mono; [exact Hinc|assumption].
  - rewrite app_length, map_length. lia.
Qed.
Lemma B_evaluate W l s a (Q : agent A -> st A X -> Prop) : B W l s -> fresh_agent feas attok a ->
  (forall a' s', good (s_log s') a' -> B (W ++ [a']) (l + 1) s' -> s_pop s' = s_pop s -> incl (s_log s) (s_log s') -> sol a' = sol a -> att a' = att a -> Q a' s') ->
  wp (evaluate P a) Q s.
Proof.
  intros HB Ha HQ. unfold evaluate. apply wp_bind, wp_get_target, wp_ret.
  destruct (B_evals W l s [a] HB) as [H1 H2]; [constructor; auto|]. inversion H2; subst.
  apply HQ; auto. apply incl_appl, incl_refl.
Qed.
(** The population becomes [q]; the agents at hand become [W']. *)
Lemma B_set W W' l s q : B W l s -> List.length q = n -> Forall (good (s_log s)) q -> Forall (good (s_log s)) W' ->
  (cov -> forall a, In a (s_pop s ++ W) -> exists b, In b (q ++ W') /\ no_worse (p_mm P) (fit b) (fit a)) -> B W' l (with_pop s q).
Proof.
  intros HB Hq Gq GW HC. pose proof HB as []. constructor; simpl; auto. intros C x Hx.
  destruct (b_cov0 C x Hx) as (a & Ha & Hw). destruct (HC C a Ha) as (b & Hb & Hw'). exists b. split; [exact Hb|].
  eapply no_worse_trans; [exact Hw'|exact Hw].
Qed.
Lemma B_trim W l s new m (Q : unit -> st A X -> Prop) : B (W ++ new) l s -> m = n -> 0 < n ->
  (forall s', B W l s' -> s_log s' = s_log s -> Q tt s') ->
  wp (p <- get_pop ;; q <- lift (get_sorted_and_trimmed_population (e_argsort E) (p ++ new) m (p_mm P)) ;; set_pop q) Q s.
Proof.
  intros HB -> Hpos HQ. pose proof HB as []. apply wp_bind, wp_get_pop. apply wp_bind. apply Forall_app in b_W0. destruct b_W0 as [GW Gn].
  assert (GA : Forall (good (s_log s)) (s_pop s ++ new)) by (apply Forall_app; auto).
  destruct (sorted_population_spec (e_argsort E) (pr_argsort _ _ _ _ _ HP) (s_pop s ++ new) (p_mm P) (Forall_good_target _ _ _ _ _ GA))
    as (sp & ix & Es & _ & _ & Hp & Hs).
  eapply wp_lift; [unfold get_sorted_and_trimmed_population; rewrite Es; reflexivity|].
  assert (Ls : List.length sp = n + List.length new) by (rewrite (Permutation_length Hp), app_length; lia).
  unfold wp, set_pop. apply HQ; [|reflexivity].
  assert (Hin : forall a, In a (firstn n sp) -> In a (s_pop s ++ new)).
  { intros a Ha. eapply Permutation_in; [exact Hp|]. rewrite <- (firstn_skipn n sp). apply in_or_app; auto. }
  eapply B_set; [exact HB|rewrite firstn_length; lia| |exact GW|].
  - rewrite Forall_forall in *. intros a Ha. apply GA, Hin, Ha.
  - intros C a Ha. assert (D : In a (s_pop s ++ new) \/ In a W) by (rewrite !in_app_iff in *; tauto).
    destruct D as [D|D].
    + destruct sp as [|b sp']; [simpl in Ls; lia|]. exists b. split; [apply in_or_app; left; destruct n; [lia|left; reflexivity]|].
      eapply (sorted_head_best E P feas attok cov HP (s_log s) (s_pop s ++ new) (b :: sp')); eauto.
    + exists a. split; [apply in_or_app; auto|]. apply no_worse_refl; [apply HP|]. eapply good_num; [apply HP; exact C|]. rewrite Forall_forall in GW; auto.
Qed.
End Begin.

(** Default initialization, then more. *)
Lemma init_more {A X} (P : problem) (md : mode) (feas : vec -> Prop) (attok : list vec -> A -> Prop) (IL IL' : nat -> Prop) (XP : X -> Prop)
    (IX0 IX1 : list vec -> X -> Prop) (cov : Prop) (al : @algo A X) more starting nd a b imin imax :
  init_contract P md feas attok IL XP IX0 cov al starting nd imin imax ->
  (forall n0 s, Start P feas attok IL IX0 cov nd n0 s ->
     wp more (fun _ s' => Start P feas attok IL' IX1 cov nd n0 s' /\ List.length (s_log s) + a <= List.length (s_log s') <= List.length (s_log s) + b) s) ->
  init_contract P md feas attok IL' XP IX1 cov (with_init al more) starting nd (imin + a) (imax + b).
Proof.
  intros H Hm s Hf HX. specialize (H s Hf HX). 
  assert (EQ : forall s1, (al_init_vars al ;;; before_initialization P md (with_init al more) starting ;;; al_init al ;;; more) s1 =
               ((al_init_vars al ;;; before_initialization P md al starting ;;; al_init al) ;;; more) s1).
  { intros s1. unfold bindM. destruct (al_init_vars al s1) as [[? s2]|]; [|reflexivity].
    change (before_initialization P md (with_init al more) starting) with (before_initialization P md al starting).
    destruct (before_initialization P md al starting s2) as [[? s3]|]; [|reflexivity]. reflexivity. }
  enough (T : wp ((al_init_vars al ;;; before_initialization P md al starting ;;; al_init al) ;;; more)
    (fun _ s' => Start P feas attok IL' IX1 cov nd (s_nfe s) s' /\ imin + a <= List.length (s_log s') <= imax + b) s).
  { unfold wp in *. change (al_init_vars (with_init al more)) with (al_init_vars al). change (al_init (with_init al more)) with (al_init al ;;; more).
    rewrite EQ. exact T. }
  apply wp_bind. eapply wp_mono; [exact H|]. intros [] s1 [S1 C1]. eapply wp_mono; [apply (Hm _ _ S1)|].
  intros [] s2 [S2 C2]. split; [exact S2|lia].
Qed.

(** A class with agent attributes whose initialization does [more] after the default one. *)
Lemma sound_more {A X} (E : env) (P : problem) (md : mode) (gea ga : option vec -> M A X (agent A)) (n epochs : nat) (srt : bool)
    (iv more bm : M A X unit) (ev : nat -> M A X unit) (XP : X -> Prop) (H : (vec -> Prop) -> Prop) (ST : option (list vec) -> Prop)
    (attok : (vec -> Prop) -> list vec -> A -> Prop) (IX0 IX1 IX : (vec -> Prop) -> list vec -> X -> Prop) (eb : bool) (a b kmin kmax : nat) :
  0 < n -> 0 < epochs ->
  (forall feas L L' a, incl L L' -> attok feas L a -> attok feas L' a) ->
  (forall feas rows, is_avail md = true -> ST (Some rows) -> problem_ok P feas -> gea_ok feas (attok feas) gea) ->
  (forall feas, problem_ok P feas -> ga_ok P feas (attok feas) ga) ->
  (forall feas, problem_ok P feas -> vars_contract XP (IX0 feas) iv) ->
  (forall feas nd n0 s, params E P feas (attok feas) (eb = true /\ obj_num P feas) -> H feas ->
     Start P feas (attok feas) (eq n) (IX0 feas) (eb = true /\ obj_num P feas) nd n0 s ->
     wp more (fun _ s' => Start P feas (attok feas) (eq n) (IX1 feas) (eb = true /\ obj_num P feas) nd n0 s' /\
        List.length (s_log s) + a <= List.length (s_log s') <= List.length (s_log s) + b) s) ->
  (forall feas nd n0 s, params E P feas (attok feas) (eb = true /\ obj_num P feas) -> H feas ->
     Inv P feas (attok feas) (eq n) (IX1 feas) (eb = true /\ obj_num P feas) nd n0 s ->
     wp bm (fun _ s' => exists k x, s' = with_x (bump s k) x /\ xok (IX feas) (s_log s) x) s) ->
  (forall feas nd n0, params E P feas (attok feas) (eb = true /\ obj_num P feas) -> H feas ->
     evolve_contract P feas (attok feas) (eq n) (IX feas) (eb = true /\ obj_num P feas) nd n0 kmin kmax ev) ->
  sound_run_gen E P md (with_init (agent_algo E md gea ga n epochs srt iv bm ev) more) XP H ST (eq n) eb (n + a) (n + b) kmin kmax.
Proof.
  intros Hn He Hm Hg Hga Hv Hmo Hb Hev. rewrite <- (Nat.add_0_r (n + a)), <- (Nat.add_0_r (n + b)).
  apply (sound_gen E P md (with_init (agent_algo E md gea ga n epochs srt iv bm ev) more) XP H ST attok IX1 IX (eq n) eb (n + a) (n + b) 0 0 kmin kmax); auto.
  - intros m <-; exact Hn.
  - intros feas starting HP HH Hst HST. eapply init_more; [|intros n0 s HS; eapply Hmo; eauto].
    apply agents_init; auto; try (intros Hav Hne; destruct starting as [rows|]; [eapply Hg; eauto; apply HP|congruence]); try (apply Hga, HP); try (apply Hv, HP). intros m <-; exact Hn.
  - intros feas nd HP HH. apply quiet_before_main. intros s n0 HI. eapply Hb; eauto.
Qed.

Ltac qfacts ::= repeat match goal with
  | H : _ /\ _ |- _ => destruct H
  | H : exists _, _ |- _ => destruct H
  | H : xok _ _ _ |- _ => unfold xok in H
  | H : (?a, ?b) = (?c, ?d) |- _ => let H1 := fresh H in let H2 := fresh H in
      pose proof (f_equal fst H) as H1; pose proof (f_equal snd H) as H2; cbn [fst snd] in H1, H2; clear H;
      try (is_var a; subst a); try (is_var b; subst b)
  | H : Some _ = Some _ |- _ => let H1 := fresh H in injection H as H1; try (match type of H1 with ?a = _ => is_var a; subst a end)
  | H : In ?i (others _ _) |- _ => apply others_in in H; destruct H
  | H : In ?i (seq _ _) |- _ => apply in_seq in H
  | HF : Forall _ ?l, HI : In ?x ?l |- _ => apply (proj1 (Forall_forall _ _) HF) in HI; cbv beta in HI
  | H : Nat.eqb _ _ = true |- _ => apply Nat.eqb_eq in H
  | H : Nat.eqb _ _ = false |- _ => apply Nat.eqb_neq in H
  | H : Nat.ltb _ _ = true |- _ => apply Nat.ltb_lt in H
  | H : Nat.ltb _ _ = false |- _ => apply Nat.ltb_ge in H
  | H : Nat.leb _ _ = true |- _ => apply Nat.leb_le in H
  | H : Nat.leb _ _ = false |- _ => apply Nat.leb_gt in H
  | HP : Permutation (?l ++ _) ?y, HF : Forall ?Q ?y |- _ =>
      lazymatch goal with H : Forall Q l |- _ => fail | _ => pose proof (perm_front _ _ _ _ HP HF) end
  | HP : Permutation (?l ++ _) (seq 0 ?m) |- _ =>
      lazymatch goal with H : Forall (fun i => i < m) l |- _ => fail | _ => pose proof (perm_bound _ _ _ _ HP (Nat.le_refl m)) end
  end.
Ltac qside ::= cbn [fst snd] in *; try assumption; try exact I;
  lazymatch goal with
  | |- _ /\ _ => split; qside
  | |- others _ _ <> [] => apply others_ne; cbn [List.length]; lia
  | |- _ <= List.length (others ?m ?e) =>
      let T := fresh in pose proof (others_length m e) as T; cbn [List.length] in T; lia
  | |- seq 0 _ <> [] => let T := fresh in intros T; apply (f_equal (@List.length nat)) in T; rewrite seq_length in T; cbn in T; lia
  | |- _ <= List.length (seq _ _) => rewrite seq_length, ?app_length; unfold vec in *; lia
  | |- List.length (upd _ _ _) = _ => rewrite upd_length; qside
  | |- fresh_agent _ _ _ => split; [cbn [sol with_att]; solve [assumption | match goal with H : fresh_agent _ _ ?a |- _ (sol ?a) => apply H end] | intros; first [exact I | solve [auto]]]
  | |- Forall (fun i => i < List.length ?l) _ => solve [assumption | eauto | match goal with H : List.length l = _ |- _ => rewrite H; assumption end
       | eapply perm_bound; [eassumption|unfold vec in *; lia]
       | eapply Forall_impl; [|eassumption]; cbv beta; intros; lia]
  | |- Forall _ _ => solve [assumption | eauto]
  | |- _ < List.length _ => solve [rewrite ?upd_length, ?firstn_length, ?seq_length, ?app_length in *; unfold vec in *; cbn [List.length]; lia]
  | |- List.length _ = _ => solve [auto | lia | congruence | simpl; rewrite ?repeat_length, ?upd_length, ?app_length, ?map_length; unfold vec in *; simpl; first [assumption | lia]]
  | |- _ => solve [auto | lia | congruence | (try split; try split; auto; lia) | eauto]
  end.
Ltac hasevmore m ::= match m with
  | context [greedy_each] => idtac | context [greedy_agents] => idtac | context [made_agents] => idtac | context [replace_made] => idtac
  | context [greedy_made] => idtac | context [trim_made] => idtac | context [replace_made_each] => idtac | context [keep_agent] => idtac
  | context [accept_agent] => idtac | context [merge] => idtac | context [accept_batch] => idtac | context [generate_population_with] => idtac
  end.
Ltac fmore HP m ::= lazymatch m with
  | greedy_agents _ _ _ _ _ => eapply g_greedy_agents; gprem HP
  | made_agents _ _ _ _ => eapply g_made_agents; gprem HP
  | replace_made _ _ _ _ => eapply g_replace_made; gprem HP
  | greedy_made _ _ _ _ => eapply g_greedy_made; gprem HP
  | replace_made_each _ _ _ _ => eapply g_replace_made_each; gprem HP
  | keep_agent _ _ _ _ => eapply g_keep_agent; gprem HP
  | merge _ _ _ _ => eapply g_merge; [exact HP|noc|solve [gside HP]|solve [gside HP]|intros; cbv beta in *]
  | accept_agent _ _ _ => eapply g_accept_agent; gprem HP
  | generate_population_with _ _ (ga_of _ (generate_empty_agent _ _) None) _ =>
      eapply g_population_with; [exact HP|noc|assumption|apply ga_of_ok, plain_gea_ok, HP]
  | ga_of _ (generate_empty_agent _ _) None => eapply g_ga with (o := None); [exact HP|noc|apply ga_of_ok, plain_gea_ok, HP|exact I]
  end.
Ltac free HP ::= cbv beta;
  lazymatch goal with
  | |- gt _ _ _ _ _ _ _ _ _ _ _ _ _ ?m _ =>
    lazymatch m with
    | bindM ?m1 _ =>
      tryif hasev m1
      then (eapply g_bind; [free HP | gintros HP; free HP])
      else (eapply g_qbind; [gquiet HP | let y := fresh "y" in let H := fresh "H" in intros y H; cbv beta in H; qfacts; free HP])
    | (if ?b then _ else _) => eapply g_ifm; [let Hb := fresh "Hb" in intros Hb; qfacts; free HP | let Hb := fresh "Hb" in intros Hb; qfacts; free HP]
    | (match ?p with (_, _) => _ end) => destruct p; cbn [fst snd] in *; qfacts; free HP
    | (match ?l with [] => _ | _ :: _ => _ end) => destruct l; cbn [List.length] in *; try (exfalso; lia); qfacts; free HP
    | (match ?o with Some _ => _ | None => _ end) => destruct o; try discriminate; qfacts; free HP
    | (let x := _ in _) => cbv zeta; free HP
    | when _ _ => eapply g_whenm; let Hb := fresh "Hb" in intros Hb; qfacts; free HP
    | collect _ _ => eapply g_collect; [exact HP|]; let i := fresh "i" in let w := fresh "w" in let Hw := fresh "Hw" in let Hi := fresh "Hi" in intros i w Hw Hi; gmove Hw; free HP
    | for_ _ _ => eapply g_for; let i := fresh "i" in let w := fresh "w" in let Hw := fresh "Hw" in let Hi := fresh "Hi" in intros i w Hw Hi; gmove Hw; free HP
    | try_improve _ _ _ _ _ => eapply g_try_improve; gprem HP
    | try_improve_b _ _ _ _ _ => eapply g_try_improve_b; gprem HP
    | gen_keep _ _ _ _ _ _ => eapply g_gen_keep; gprem HP
    | gen_agent _ _ _ _ => eapply g_gen_agent; gprem HP
    | gen_at _ _ _ => eapply g_gen_at; gprem HP
    | random_agent _ _ => eapply g_random_agent; gprem HP
    | evaluate _ _ => eapply g_eval1; gprem HP
    | new_agents _ _ _ _ _ _ => eapply g_new_agents; gprem HP
    | best_new _ _ _ _ _ _ _ => eapply g_best_new; gprem HP
    | greedy_each _ _ _ _ _ _ _ => eapply g_greedy_each; gprem HP
    | greedy_loop _ _ _ _ _ _ _ => eapply g_greedy_loop; gprem HP
    | greedy_batch _ _ _ _ _ _ => eapply g_greedy_batch; gprem HP
    | replace_all _ _ _ _ _ _ => eapply g_replace_all; gprem HP
    | replace_each _ _ _ _ _ _ => eapply g_replace_each; gprem HP
    | trim_batch _ _ _ _ _ _ _ _ => eapply g_trim_batch; gprem HP
    | ret _ => eapply g_ret; try exact I; first [evtrue | try solve [gside HP]]
    | _ => first [fmore HP m | tryif hasev m then (tryif openc m then free HP else idtac) else (eapply g_quiet; gquiet HP)]
    end
  | _ => idtac
  end.
