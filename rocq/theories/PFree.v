(** Rules for evolve steps that may drop evaluated agents: every agent at hand is a properly evaluated one, nothing is
    said about the best.  Also: agents with attributes, before_main_loop, and the general soundness lemmas. *)
From Verif Require Import Prelude Fl MCore MHelp MAlg SpecCore SpecRun PSelect PLogic PSolve PRun SpecAlg PAlg.

Section Free.
Context {A X : Type}.
Variable E : env.
Variable P : problem.
Variable md : mode.
Variable feas : vec -> Prop.
Variable attok : list vec -> A -> Prop.
Variable IL : nat -> Prop.
Variable IX : list vec -> X -> Prop.
Variable cov : Prop.
Variables nd n0 n : nat.
Variable s0 : st A X.
Hypothesis HP : params E P feas attok cov.
Hypothesis Hno : ~ cov.

Notation Ev := (Ev P feas attok IL IX cov nd n0).
Notation R := (R P feas attok IL IX cov nd n0 n s0).
Notation qt := (qt P feas attok IL IX cov nd n0 n s0).
Notation blk := (blk P feas attok IL IX cov nd n0 n s0).
Notation blk0 := (blk0 P feas attok IL IX cov nd n0 n s0).

(** An evaluated agent, given the evaluated solutions [w]. *)
Definition ok (w : list vec) (a : agent A) : Prop := good P feas attok w a.
(** An agent still to be evaluated. *)
Definition pend (w : list vec) (a : agent A) : Prop := feas (sol a) /\ forall L, incl w L -> In (sol a) L -> attok L (att a).
Definition G (s : st A X) : Prop := Ev s0 [] s /\ List.length (s_pop s) = n.
Definition gq {Y} (w : list vec) (m : M A X Y) (Φ : Y -> Prop) : Prop :=
  forall s, s_log s = w -> G s -> wp m (fun y s' => Φ y /\ s_log s' = w /\ G s') s.
Definition gt {Y} (w : list vec) (a b : nat) (m : M A X Y) (Φ : list vec -> Y -> Prop) : Prop :=
  forall s, s_log s = w -> G s ->
    wp m (fun y s' => incl w (s_log s') /\ Φ (s_log s') y /\ List.length w + a <= List.length (s_log s') <= List.length w + b /\ G s') s.

Lemma ok_mono w w' a : incl w w' -> ok w a -> ok w' a.
Proof. apply good_mono. apply HP. Qed.
Lemma oks_mono w w' l : incl w w' -> Forall (ok w) l -> Forall (ok w') l.
Proof. intros H. apply Forall_impl. intros a. apply ok_mono; exact H. Qed.
Lemma pend_mono w w' a : incl w w' -> pend w a -> pend w' a.
Proof. intros H [H1 H2]. split; [exact H1|]. intros L HL. apply H2. eapply incl_tran; eauto. Qed.
Lemma pends_mono w w' l : incl w w' -> Forall (pend w) l -> Forall (pend w') l.
Proof. intros H. apply Forall_impl. intros a. apply pend_mono; exact H. Qed.
Lemma fresh_pend w a : fresh_agent feas attok a -> pend w a.
Proof. intros [H1 H2]. split; auto. Qed.
Lemma ok_wf w a : ok w a -> wf_agent a /\ feas (sol a).
Proof. intros H. split; [eapply good_wf; eauto|apply H]. Qed.
Lemma oks_wf w l : Forall (ok w) l -> Forall (fun a => wf_agent a /\ feas (sol a)) l.
Proof. apply Forall_impl. intros a; apply ok_wf. Qed.
Lemma G_R s : G s -> R [] (List.length (s_log s)) s.
Proof. intros [V H]. split; [exact V|]. split; [exact H|reflexivity]. Qed.
Lemma R_G W l s : R W l s -> G s.
Proof.
  intros (V & H & _). split; [|exact H]. eapply Ev_drop; [apply HP|apply HP|exact V|apply incl_nil_l|]. intros C; contradiction (Hno C).
Qed.

(** ** Quiet *)
Lemma gq_qt {Y} w (m : M A X Y) Φ : qt m Φ -> gq w m Φ.
Proof.
  intros H s Hw HG. eapply wp_mono; [eapply H; apply G_R; exact HG|]. intros y s' [Hy Hn]. split; [exact Hy|].
  split; [rewrite (near_log _ _ _ Hn); exact Hw|]. eapply R_G. eapply R_near; [apply G_R; exact HG|exact Hn].
Qed.
Lemma gq_ret {Y} w (y : Y) (Φ : Y -> Prop) : Φ y -> gq w (ret y) Φ.
Proof. intros H s Hw HG. apply wp_ret. auto. Qed.
Lemma gq_mono {Y} w (m : M A X Y) (Φ Ψ : Y -> Prop) : gq w m Φ -> (forall y, Φ y -> Ψ y) -> gq w m Ψ.
Proof. intros H HI s Hw HG. eapply wp_mono; [eapply H; eauto|]. intros y s' (? & ? & ?); auto. Qed.
Lemma gq_bind {Y Z} w (m : M A X Y) (f : Y -> M A X Z) (Φ : Y -> Prop) (Ψ : Z -> Prop) :
  gq w m Φ -> (forall y, Φ y -> gq w (f y) Ψ) -> gq w (bindM m f) Ψ.
Proof.
  intros H1 H2 s Hw HG. apply wp_bind. eapply wp_mono; [eapply H1; eauto|]. intros y s' (Hy & Hw' & HG'). apply (H2 y Hy s' Hw' HG').
Qed.
Lemma gq_when w (b : bool) (m : M A X unit) : (b = true -> gq w m (fun _ => True)) -> gq w (when b m) (fun _ => True).
Proof. intros H. destruct b; simpl; [auto|apply gq_ret; exact I]. Qed.
Lemma gq_lift {Y} w (r : res Y) (Φ : Y -> Prop) : (exists y, r = Ok y /\ Φ y) -> gq w (lift r) Φ.
Proof. intros H. apply gq_qt, q_lift, H. Qed.
Lemma gq_res {Y} w (r : res Y) : (exists y, r = Ok y) -> gq w (lift r) (fun _ => True).
Proof. intros H. apply gq_qt, q_res, H. Qed.
Lemma gq_get_x w : gq w get_x (xok IX w).
Proof. intros s Hw [V Hn]. apply wp_get_x. rewrite <- Hw. split; [apply (v_x _ _ _ _ _ _ _ _ _ _ _ V)|]. split; [reflexivity|split; assumption]. Qed.
Lemma gq_set_x w x : IX w x -> gq w (set_x x) (fun _ => True).
Proof.
  intros Hx s Hw [V Hn]. unfold wp, set_x. split; [exact I|]. split; [exact Hw|]. split; [|exact Hn].
  apply (Ev_x _ _ _ _ _ _ _ _ _ _ s x V). exists w. split; [rewrite Hw; apply incl_refl|exact Hx].
Qed.
Lemma gq_pop_at w i : i < n -> gq w (pop_at i) (ok w).
Proof.
  intros Hi s Hw HG. destruct HG as [V Hn]. apply wp_pop_at; [lia|]. intros a _ Ha. split; [|split; [exact Hw|split; assumption]].
  rewrite <- Hw. eapply Ev_pop_good; eauto.
Qed.
Lemma gq_get_pop w : gq w get_pop (fun p => List.length p = n /\ Forall (ok w) p).
Proof.
  intros s Hw [V Hn]. apply wp_get_pop. split; [|split; [exact Hw|split; assumption]]. split; [exact Hn|].
  rewrite <- Hw. apply (v_good _ _ _ _ _ _ _ _ _ _ _ V).
Qed.
Lemma gq_get_gb w : gq w get_gb (ok w).
Proof.
  intros s Hw [V Hn]. destruct (Ev_gb _ _ _ _ _ _ _ _ _ _ _ V) as (g & Eg & Gg). eapply wp_get_gb; [exact Eg|].
  split; [rewrite <- Hw; exact Gg|]. split; [exact Hw|split; assumption].
Qed.
Lemma gq_get_gw w : gq w get_gw (ok w).
Proof.
  intros s Hw [V Hn]. destruct (Ev_gw _ _ _ _ _ _ _ _ _ _ _ V) as (g & Eg & Gg). unfold wp, get_gw. rewrite Eg.
  split; [rewrite <- Hw; exact Gg|]. split; [exact Hw|split; assumption].
Qed.
Lemma gq_pop_set w i a : i < n -> ok w a -> gq w (pop_set i a) (fun _ => True).
Proof.
  intros Hi Ha s Hw [V Hn]. apply wp_pop_set; [lia|]. split; [exact I|]. split; [exact Hw|]. split; [|simpl; rewrite upd_length; exact Hn].
  change (G (with_pop s (upd (s_pop s) i a))) || idtac.
  eapply Ev_pop_set; [apply HP|apply HP|exact V|lia|rewrite Hw; exact Ha|apply incl_refl|]. intros C; contradiction (Hno C).
Qed.
Lemma gq_set_pop w p : List.length p = n -> Forall (ok w) p -> gq w (set_pop p) (fun _ => True).
Proof.
  intros Hl Hp s Hw [V Hn]. unfold wp, set_pop. split; [exact I|]. split; [exact Hw|]. split; [|exact Hl].
  rewrite Forall_forall in Hp.
  apply (Ev_set P feas attok IL IX cov nd n0 s0 [] s p []); auto.
  - intros a Ha. rewrite Hw. apply Hp; exact Ha.
  - intros a [].
  - intros C; contradiction (Hno C).
Qed.
Lemma gq_set_gb w a : ok w a -> gq w (set_gb (Some a)) (fun _ => True).
Proof.
  intros Ha s Hw [V Hn]. unfold wp, set_gb. split; [exact I|]. split; [exact Hw|]. split; [|exact Hn].
  destruct V. constructor; simpl; auto; try (intros C; contradiction (Hno C)). exists a. split; [reflexivity|]. rewrite Hw; exact Ha.
Qed.
Lemma gq_set_gw w a : ok w a -> gq w (set_gw (Some a)) (fun _ => True).
Proof.
  intros Ha s Hw [V Hn]. unfold wp, set_gw. split; [exact I|]. split; [exact Hw|]. split; [|exact Hn].
  destruct V. constructor; simpl; auto; try (intros C; contradiction (Hno C)). exists a. split; [reflexivity|]. rewrite Hw; exact Ha.
Qed.
Lemma gq_for_acc {B} w m i (b : B) body (I : nat -> B -> Prop) :
  I i b -> (forall k b', i <= k < i + m -> I k b' -> gq w (body k b') (I (S k))) -> gq w (for_acc m i b body) (I (i + m)).
Proof.
  intros H0 Hb s Hw HG. apply wp_for_acc with (I := fun k b' s' => I k b' /\ s_log s' = w /\ G s'); auto.
  intros k b' s' Hk (HI & Hw' & HG'). apply (Hb k b' Hk HI s' Hw' HG').
Qed.
Lemma gq_for_list {B T} w (ls : list T) (b : B) body (I : B -> Prop) :
  I b -> (forall x b', In x ls -> I b' -> gq w (body x b') I) -> gq w (for_list ls b body) I.
Proof.
  intros H0 Hb s Hw HG. apply wp_for_list with (I := fun _ b' s' => I b' /\ s_log s' = w /\ G s'); auto.
  intros pre x suf b' s' Hk (HI & Hw' & HG'). apply (Hb x b'); auto. rewrite Hk. apply in_or_app; right; left; reflexivity.
Qed.
Lemma gq_collect {T} w m (c : nat -> M A X T) (Φ : T -> Prop) : (forall i, i < m -> gq w (c i) Φ) -> gq w (collect m c) (fun r => List.length r = m /\ Forall Φ r).
Proof.
  intros H. unfold collect.
  apply (gq_for_acc w m 0 [] _ (fun k acc => List.length acc = k /\ Forall Φ acc)); [split; [reflexivity|constructor]|].
  intros k b Hk [Hl Hf]. eapply gq_bind; [apply H; lia|]. intros y Hy. apply gq_ret.
  split; [rewrite app_length; simpl; lia|]. apply Forall_app; split; [exact Hf|constructor; auto].
Qed.
Lemma gq_for w m body : (forall k, k < m -> gq w (body k) (fun _ => True)) -> gq w (for_ m body) (fun _ => True).
Proof.
  intros H. unfold for_. eapply gq_mono; [apply (gq_for_acc w m 0 tt _ (fun _ _ => True)); [exact I|]|trivial].
  intros k [] Hk _. apply H. lia.
Qed.
(** Sorting and choosing, with all agents evaluated. *)
Lemma gq_sorted w (p : list (agent A)) : Forall (ok w) p ->
  gq w (lift (get_sorted_population (e_argsort E) p (p_mm P)))
     (fun r => List.length (fst r) = List.length p /\ Forall (ok w) (fst r) /\
               List.length (snd r) = List.length p /\ Forall (fun i => i < List.length p) (snd r)).
Proof.
  intros H. apply gq_lift.
  destruct (sorted_population_spec _ (pr_argsort _ _ _ _ _ HP) p (p_mm P) (Forall_good_target _ _ _ _ _ H)) as (sp & ix & Es & Hix & _ & Hp & _).
  exists (sp, ix). split; [exact Es|]. simpl. split; [apply Permutation_length; exact Hp|]. split.
  - rewrite Forall_forall in *. intros a Ha. apply H. eapply Permutation_in; eauto.
  - split; [rewrite (Permutation_length Hix), seq_length; reflexivity|]. apply Forall_forall. intros i Hi.
    apply (Permutation_in _ Hix) in Hi. apply in_seq in Hi. lia.
Qed.
Lemma gq_trimmed w (p : list (agent A)) m : Forall (ok w) p ->
  gq w (lift (get_sorted_and_trimmed_population (e_argsort E) p m (p_mm P)))
     (fun r => List.length r = Nat.min m (List.length p) /\ Forall (ok w) r).
Proof.
  intros H. apply gq_lift.
  destruct (sorted_population_spec _ (pr_argsort _ _ _ _ _ HP) p (p_mm P) (Forall_good_target _ _ _ _ _ H)) as (sp & ix & Es & Hix & _ & Hp & _).
  eexists. split; [unfold get_sorted_and_trimmed_population; rewrite Es; reflexivity|].
  rewrite firstn_length, (Permutation_length Hp). split; [reflexivity|]. rewrite Forall_forall in *. intros a Ha. apply H.
  eapply Permutation_in; [exact Hp|]. rewrite <- (firstn_skipn m sp). apply in_or_app; auto.
Qed.
Lemma gq_special w (p : list (agent A)) nb nw : Forall (ok w) p ->
  gq w (lift (get_special_agents (e_argsort E) p (Some nb) (Some nw) (p_mm P)))
     (fun r => exists sp b c, r = (sp, Some b, Some c) /\
        List.length sp = List.length p /\ Forall (ok w) sp /\
        List.length b = Nat.min nb (List.length p) /\ Forall (ok w) b /\
        List.length c = Nat.min nw (List.length p) /\ Forall (ok w) c).
Proof.
  intros H. apply gq_lift.
  destruct (sorted_population_spec _ (pr_argsort _ _ _ _ _ HP) p (p_mm P) (Forall_good_target _ _ _ _ _ H)) as (sp & ix & Es & Hix & _ & Hp & _).
  assert (Hsp : Forall (ok w) sp).
  { rewrite Forall_forall in *. intros a Ha. apply H. eapply Permutation_in; eauto. }
  assert (Hb : Forall (ok w) (firstn nb sp)).
  { rewrite Forall_forall in *. intros a Ha. apply Hsp. rewrite <- (firstn_skipn nb sp). apply in_or_app; auto. }
  assert (Hw : Forall (ok w) (firstn nw (rev sp))).
  { rewrite Forall_forall in *. intros a Ha. apply Hsp. apply in_rev. rewrite <- (firstn_skipn nw (rev sp)). apply in_or_app; auto. }
  exists (sp, Some (firstn nb sp), Some (firstn nw (rev sp))). split.
  - unfold get_special_agents. rewrite Es. cbn [bind]. rewrite (copies_ok feas _ (oks_wf _ _ Hb)), (copies_ok feas _ (oks_wf _ _ Hw)). reflexivity.
  - exists sp, (firstn nb sp), (firstn nw (rev sp)).
    rewrite !firstn_length, rev_length, (Permutation_length Hp). repeat split; auto.
Qed.
Lemma gq_specials w (p : list (agent A)) nb nw : Forall (ok w) p ->
  gq w (special E P p nb nw)
     (fun r => exists sp b c, r = (sp, b, c) /\
        List.length sp = List.length p /\ Forall (ok w) sp /\
        List.length b = Nat.min nb (List.length p) /\ Forall (ok w) b /\
        List.length c = Nat.min nw (List.length p) /\ Forall (ok w) c).
Proof.
  intros H. unfold special. eapply gq_bind; [apply gq_special; exact H|]. intros r (sp & b & c & -> & Hr). apply gq_ret. exists sp, b, c. auto.
Qed.
Lemma gq_best w (p : list (agent A)) : Forall (ok w) p -> 0 < List.length p ->
  gq w (lift (get_best_agent (e_argsort E) p (p_mm P))) (fun r => ok w (fst r) /\ snd r < List.length p).
Proof.
  intros H Hl. apply gq_lift. assert (Hne : p <> []) by (intros ->; simpl in Hl; lia).
  destruct (best_agent_ok E P feas attok cov HP w p H Hne) as (b & i & Eb & _ & Gb & Hi & _). exists (b, i). auto.
Qed.
Lemma gq_worst w (p : list (agent A)) : Forall (ok w) p -> 0 < List.length p ->
  gq w (lift (get_worst_agent (e_argsort E) p (p_mm P))) (fun r => ok w (fst r) /\ snd r < List.length p).
Proof.
  intros H Hl. apply gq_lift.
  destruct (sorted_population_spec _ (pr_argsort _ _ _ _ _ HP) p (p_mm P) (Forall_good_target _ _ _ _ _ H)) as (sp & ix & Es & Hix & _ & Hp & _).
  assert (Hsp : Forall (ok w) sp).
  { rewrite Forall_forall in *. intros a Ha. apply H. eapply Permutation_in; eauto. }
  pose proof (Permutation_length Hp) as L1. pose proof (Permutation_length Hix) as L2. rewrite seq_length in L2.
  destruct (last_item_nonempty sp) as (a & l' & Ea & El); [intros ->; simpl in L1; lia|].
  destruct (last_item_nonempty ix) as (i & m' & Ei & Em); [intros ->; simpl in L2; lia|].
  assert (Ha : ok w a).
  { rewrite Forall_forall in Hsp. apply Hsp. rewrite Ea. apply in_or_app; right; left; reflexivity. }
  exists (a, i). unfold get_worst_agent. rewrite Es. cbn [bind]. rewrite El, Em. cbn [bind].
  rewrite (agent_copy_wf a) by (eapply good_wf; exact Ha). cbn [bind]. split; [reflexivity|]. simpl. split; [exact Ha|].
  assert (HI : In i (seq 0 (List.length p))).
  { eapply Permutation_in; [exact Hix|]. rewrite Ei. apply in_or_app; right; left; reflexivity. } apply in_seq in HI; lia.
Qed.
Lemma gq_greedy w (p q : list (agent A)) : Forall (ok w) p -> Forall (ok w) q -> List.length p = List.length q ->
  gq w (lift (greedy_selection_population p q (p_mm P))) (fun r => List.length r = List.length p /\ Forall (ok w) r).
Proof.
  intros H1 H2 Hl. apply gq_lift. eexists. split; [apply greedy_ok; [eapply Forall_good_target; eauto|eapply Forall_good_target; eauto|exact Hl]|].
  split; [rewrite map_length, combine_length; lia|]. rewrite Forall_forall in *. intros a Ha. apply in_map_iff in Ha.
  destruct Ha as ([o m] & <- & Hc). simpl. destruct (greedy_pick_cases (p_mm P) o m) as [->| ->];
    [apply H1; eapply in_combine_l; eauto|apply H2; eapply in_combine_r; eauto].
Qed.
Lemma gq_better w a b : ok w a -> ok w b -> gq w (lift (get_better_agent a b (p_mm P) false)) (ok w).
Proof.
  intros Ha Hb. apply gq_lift. destruct (good_get_better P feas attok (pr_mm _ _ _ _ _ HP) _ a b false Ha Hb) as (r & Er & _ & Gr & _). eauto.
Qed.
Lemma gq_better_rev w a b : ok w a -> ok w b -> gq w (lift (get_better_agent a b (p_mm P) true)) (ok w).
Proof.
  intros Ha Hb. apply gq_lift. destruct (good_get_better P feas attok (pr_mm _ _ _ _ _ HP) _ a b true Ha Hb) as (r & Er & _ & Gr & _). eauto.
Qed.
Lemma gq_compare w a b mm : ok w a -> ok w b -> gq w (lift (compare_agents a b mm)) (fun _ => True).
Proof.
  intros Ha Hb. apply gq_lift. unfold compare_agents. rewrite (g_tgt _ _ _ _ _ Ha), (g_tgt _ _ _ _ _ Hb). eauto.
Qed.
Lemma gq_fitness w a : ok w a -> gq w (lift (fitness a)) (fun _ => True).
Proof. intros H. apply gq_qt, q_fitness. eapply good_wf; eauto. Qed.
Lemma gq_fits w p : Forall (ok w) p -> gq w (lift (map_res fitness p)) (fun l => List.length l = List.length p).
Proof. intros H. eapply gq_qt, q_fits. eapply oks_wf; eauto. Qed.
Lemma gq_getitem w (l : list (agent A)) i : i < List.length l -> Forall (ok w) l -> gq w (lift (getitem l i)) (ok w).
Proof.
  intros H HF. apply gq_lift. destruct (getitem_lt l i H) as (x & E1 & _ & E3). exists x. split; [exact E1|].
  rewrite Forall_forall in HF; auto.
Qed.
Lemma gq_choice1 w (l : list (agent A)) : l <> [] -> Forall (ok w) l -> gq w (choice1 E l) (ok w).
Proof.
  intros H HF. eapply gq_mono; [apply gq_qt, q_choice1; exact H|]. intros x Hx. rewrite Forall_forall in HF; auto.
Qed.

(** ** Steps that evaluate *)
Lemma g_quiet {Y} w (m : M A X Y) (Φ : list vec -> Y -> Prop) : gq w m (Φ w) -> gt w 0 0 m Φ.
Proof.
  intros H s Hw HG. eapply wp_mono; [apply (H s Hw HG)|]. intros y s' (Hy & Hw' & HG'). rewrite Hw'.
  split; [apply incl_refl|]. split; [exact Hy|]. split; [lia|exact HG'].
Qed.
Lemma g_ret {Y} w (y : Y) (Φ : list vec -> Y -> Prop) : Φ w y -> gt w 0 0 (ret y) Φ.
Proof. intros H s Hw HG. apply wp_ret. rewrite Hw. split; [apply incl_refl|]. split; [exact H|]. split; [lia|exact HG]. Qed.
Lemma g_mono {Y} w a b a' b' (m : M A X Y) (Φ Ψ : list vec -> Y -> Prop) :
  gt w a b m Φ -> a' <= a -> b <= b' -> (forall w' y, incl w w' -> Φ w' y -> Ψ w' y) -> gt w a' b' m Ψ.
Proof.
  intros H Ha Hb HI s Hw HG. eapply wp_mono; [apply (H s Hw HG)|]. intros y s' (H1 & H2 & H3 & H4).
  split; [exact H1|]. split; [auto|]. split; [lia|exact H4].
Qed.
Lemma g_bind {Y Z} w a b c d (m : M A X Y) (f : Y -> M A X Z) (Φ : list vec -> Y -> Prop) (Ψ : list vec -> Z -> Prop) :
  gt w a b m Φ -> (forall y w', incl w w' -> Φ w' y -> gt w' c d (f y) Ψ) -> gt w (a + c) (b + d) (bindM m f) Ψ.
Proof.
  intros H1 H2 s Hw HG. apply wp_bind. eapply wp_mono; [apply (H1 s Hw HG)|]. intros y s' (I1 & Hy & C1 & G1).
  eapply wp_mono; [apply (H2 y (s_log s') I1 Hy s' eq_refl G1)|]. intros z s'' (I2 & Hz & C2 & G2).
  split; [eapply incl_tran; eauto|]. split; [exact Hz|]. split; [lia|exact G2].
Qed.
Lemma g_qbind {Y Z} w c d (m : M A X Y) (f : Y -> M A X Z) (Φ : Y -> Prop) (Ψ : list vec -> Z -> Prop) :
  gq w m Φ -> (forall y, Φ y -> gt w c d (f y) Ψ) -> gt w c d (bindM m f) Ψ.
Proof.
  intros H1 H2 s Hw HG. apply wp_bind. eapply wp_mono; [apply (H1 s Hw HG)|]. intros y s' (Hy & Hw' & G1).
  apply (H2 y Hy s' Hw' G1).
Qed.
Lemma g_ifm {Y} w a b c d (t : bool) (m1 m2 : M A X Y) Φ : (t = true -> gt w a b m1 Φ) -> (t = false -> gt w c d m2 Φ) ->
  gt w (Nat.min a c) (Nat.max b d) (if t then m1 else m2) Φ.
Proof.
  intros H1 H2. destruct t; [eapply g_mono; [apply H1; reflexivity| | |]|eapply g_mono; [apply H2; reflexivity| | |]]; auto; lia.
Qed.
Lemma g_whenm w a b (t : bool) m : (t = true -> gt w a b m (fun _ _ => True)) -> gt w 0 b (when t m) (fun _ _ => True).
Proof.
  intros H. destruct t; simpl.
  - eapply g_mono; [apply H; reflexivity| | |]; [lia|lia|trivial].
  - eapply g_mono; [apply (g_ret w tt (fun _ _ => True)); exact I| | |]; [lia|lia|trivial].
Qed.
Lemma g_for_acc {B} w a b m i (x : B) body (J : nat -> list vec -> B -> Prop) :
  J i w x ->
  (forall k w' x', incl w w' -> i <= k < i + m -> J k w' x' -> gt w' a b (body k x') (J (S k))) ->
  gt w (m * a) (m * b) (for_acc m i x body) (J (i + m)).
Proof.
  intros H0 Hb s Hw HG.
  apply wp_for_acc with (I := fun k x' s' => incl w (s_log s') /\ J k (s_log s') x' /\
     List.length w + (k - i) * a <= List.length (s_log s') <= List.length w + (k - i) * b /\ G s').
  - rewrite Hw, Nat.sub_diag. split; [apply incl_refl|]. split; [exact H0|]. split; [lia|exact HG].
  - intros k x' s' Hk (I1 & J1 & C1 & G1). eapply wp_mono; [apply (Hb k (s_log s') x' I1 Hk J1 s' eq_refl G1)|].
    intros x'' s'' (I2 & J2 & C2 & G2). split; [eapply incl_tran; eauto|]. split; [exact J2|]. split; [|exact G2].
    replace (S k - i) with (S (k - i)) by lia. lia.
  - intros x' s' (I1 & J1 & C1 & G1). replace (i + m - i) with m in C1 by lia. split; [exact I1|]. split; [exact J1|]. split; [lia|exact G1].
Qed.
Lemma g_collect w a b m (c : nat -> M A X (agent A)) : (forall i w', incl w w' -> i < m -> gt w' a b (c i) ok) ->
  gt w (m * a) (m * b) (collect m c) (fun w' r => List.length r = m /\ Forall (ok w') r).
Proof.
  intros H. unfold collect.
  apply (g_for_acc w a b m 0 [] _ (fun k w' acc => List.length acc = k /\ Forall (ok w') acc)); [split; [reflexivity|constructor]|].
  intros k w' acc Hi Hk [Hl Hf]. apply (g_mono w' (a + 0) (b + 0) a b _ (fun w2 acc2 => List.length acc2 = S k /\ Forall (ok w2) acc2)); [|lia|lia|auto].
  apply (g_bind w' a b 0 0 _ _ ok); [apply H; [exact Hi|lia]|].
  intros y w2 Hi2 Hy. apply g_ret. split; [rewrite app_length; simpl; lia|]. apply Forall_app; split; [eapply oks_mono; eauto|constructor; auto].
Qed.
Lemma g_for w a b m body : (forall k w', incl w w' -> k < m -> gt w' a b (body k) (fun _ _ => True)) ->
  gt w (m * a) (m * b) (for_ m body) (fun _ _ => True).
Proof.
  intros H. unfold for_. apply (g_for_acc w a b m 0 tt _ (fun _ _ _ => True)); [exact I|]. intros k w' [] Hi Hk _. apply H; [exact Hi|lia].
Qed.
Lemma g_for_list {B T} w a b (ls : list T) (x : B) body (J : list vec -> B -> Prop) :
  J w x ->
  (forall t w' x', incl w w' -> In t ls -> J w' x' -> gt w' a b (body t x') J) ->
  gt w (List.length ls * a) (List.length ls * b) (for_list ls x body) J.
Proof.
  intros H0 Hb s Hw HG.
  apply wp_for_list with (I := fun pre x' s' => incl w (s_log s') /\ J (s_log s') x' /\
     List.length w + List.length pre * a <= List.length (s_log s') <= List.length w + List.length pre * b /\ G s').
  - rewrite Hw. split; [apply incl_refl|]. split; [exact H0|]. split; [simpl; lia|exact HG].
  - intros pre t suf x' s' Hk (I1 & J1 & C1 & G1).
    eapply wp_mono; [apply (Hb t (s_log s') x' I1) with (s := s'); auto; rewrite Hk; apply in_or_app; right; left; reflexivity|].
    intros x'' s'' (I2 & J2 & C2 & G2). split; [eapply incl_tran; eauto|]. split; [exact J2|]. split; [|exact G2].
    rewrite app_length. simpl. lia.
  - intros x' s' (I1 & J1 & C1 & G1). auto.
Qed.
Lemma G_eval s l : G s -> Forall (pend (s_log s)) l ->
  G (evald s (map sol l)) /\ Forall (ok (s_log s ++ map sol l)) (map (fun a => with_tgt a (prob_target P (sol a))) l).
Proof.
  intros [V Hn] Hf. set (new := map (fun a => with_tgt a (prob_target P (sol a))) l).
  assert (Es : map sol l = map sol new) by (unfold new; rewrite map_map; reflexivity).
  assert (F : Forall (fun a => tgt a = Some (prob_target P (sol a)) /\ feas (sol a) /\ attok (s_log s ++ map sol new) (att a)) new).
  { unfold new. rewrite Forall_map. rewrite Forall_forall in *. intros a Ha. destruct (Hf a Ha) as [H1 H2].
    simpl. split; [reflexivity|]. split; [exact H1|]. apply H2; [apply incl_appl, incl_refl|].
    apply in_or_app; right. fold new. rewrite <- Es. apply in_map; exact Ha. }
  split.
  - eapply (R_G ([] ++ new) (List.length (s_log s ++ map sol l))). split; [|split; [exact Hn|reflexivity]]. rewrite Es.
    apply Ev_eval; [apply HP|apply HP|apply HP|exact V|exact F].
  - rewrite Es. rewrite Forall_forall in *. intros a Ha. destruct (F a Ha) as (H1 & H2 & H3). constructor; auto.
    apply in_or_app; right. apply in_map; exact Ha.
Qed.
Lemma g_evaluate w a : pend w a -> gt w 1 1 (evaluate P a) (fun w' a' => ok w' a' /\ sol a' = sol a /\ att a' = att a).
Proof.
  intros Ha s Hw HG. unfold evaluate. apply wp_bind, wp_get_target, wp_ret.
  destruct (G_eval s [a] HG) as [G1 F1]; [constructor; [rewrite Hw; exact Ha|constructor]|].
  inversion F1 as [|? ? F2 _]; subst. simpl in *. split; [apply incl_appl, incl_refl|].
  split; [auto|]. rewrite app_length. simpl. split; [lia|exact G1].
Qed.
Lemma g_get_target w x : feas x -> gt w 1 1 (get_target P x) (fun w' t => In x w' /\ t = prob_target P x).
Proof.
  intros Hx s Hw [V Hn]. apply wp_get_target. subst w. simpl. split; [apply incl_appl, incl_refl|].
  split; [split; [apply in_or_app; right; left; reflexivity|reflexivity]|]. rewrite app_length. simpl. split; [lia|].
  split; [|exact Hn]. destruct V as [V1 V2 V3 V4 V5 V6 V7 V8 V9 V10 V11].
  assert (Hinc : incl (s_log s) (s_log s ++ [x])) by (apply incl_appl, incl_refl).
  pose proof (pr_mono _ _ _ _ _ HP) as HM.
  constructor; simpl; auto.
  - eapply Forall_good_mono; eauto.
  - destruct V5 as (g & E1 & E2). exists g. split; [exact E1|eapply good_mono; eauto].
  - destruct V6 as (g & E1 & E2). exists g. split; [exact E1|eapply good_mono; eauto].
  - eapply incl_tran; eauto.
  - apply Forall_app; split; [exact V8|constructor; auto].
  - rewrite app_length. simpl. lia.
  - intros C; contradiction (Hno C).
  - eapply xok_mono; [exact Hinc|exact V11].
Qed.
Lemma g_update_target w l : is_avail md = true -> Forall (pend w) l ->
  gt w (List.length l) (List.length l) (update_target_for_population P md l) (fun w' l' => Forall (ok w') l' /\ List.length l' = List.length l).
Proof.
  intros Hav Hl s Hw HG. eapply wp_update_target_avail; [exact Hav|]. intros l' ->. rewrite <- Hw in Hl.
  destruct (G_eval s l HG Hl) as [G1 F1]. rewrite <- Hw. simpl. split; [apply incl_appl, incl_refl|].
  split; [rewrite map_length; auto|]. rewrite app_length, map_length. split; [lia|exact G1].
Qed.

Variable correct : vec -> M A X vec.
Variable gea : option vec -> M A X (agent A).
Hypothesis Hcorrect : forall x, qt (correct x) feas.
Hypothesis Hgea : forall x, feas x -> qt (gea (Some x)) (fresh_agent feas attok).

Lemma gq_propose w x : gq w (propose correct gea x) (pend w).
Proof. eapply gq_mono; [apply gq_qt; eapply q_propose; eassumption|]. intros a; apply fresh_pend. Qed.
Lemma gq_gea w x : feas x -> gq w (gea (Some x)) (pend w).
Proof. intros H. eapply gq_mono; [apply gq_qt, Hgea, H|]. intros a; apply fresh_pend. Qed.
Lemma g_eval1 w a : pend w a -> gt w 1 1 (evaluate P a) ok.
Proof. intros H. eapply g_mono; [apply g_evaluate; exact H|lia|lia|]. intros w' y _ T; apply T. Qed.
Lemma g_gen_agent w x : gt w 1 1 (gen_agent P correct gea x) ok.
Proof. unfold gen_agent. eapply g_qbind; [apply gq_propose|]. intros a Ha. apply g_eval1; exact Ha. Qed.
Lemma g_gen_at w y : feas y -> gt w 1 1 (gen_at P gea y) ok.
Proof. intros Hy. unfold gen_at. eapply g_qbind; [apply gq_gea; exact Hy|]. intros a Ha. apply g_eval1; exact Ha. Qed.
Lemma g_random_agent w : qt (gea None) (fresh_agent feas attok) -> gt w 1 1 (random_agent P gea) ok.
Proof.
  intros H. unfold random_agent. apply (g_qbind w 1 1 (gea None) (evaluate P) (pend w) ok).
  - eapply gq_mono; [apply gq_qt, H|]. intros a Ha. apply fresh_pend; exact Ha.
  - intros a Ha. apply g_eval1; exact Ha.
Qed.
Lemma g_gen_list w ys : Forall feas ys ->
  gt w (List.length ys) (List.length ys) (gen_list P gea ys) (fun w' l => List.length l = List.length ys /\ Forall (ok w') l).
Proof.
  intros Hy s Hw HG. unfold gen_list.
  apply wp_for_list with (I := fun pre acc s' => incl w (s_log s') /\ (List.length acc = List.length pre /\ Forall (ok (s_log s')) acc) /\
     List.length w + List.length pre <= List.length (s_log s') <= List.length w + List.length pre /\ G s').
  - rewrite Hw. split; [apply incl_refl|]. split; [split; [reflexivity|constructor]|]. split; [simpl; lia|exact HG].
  - intros pre t suf acc s' Hk (I1 & [J1 J2] & C1 & G1). apply wp_bind.
    assert (Ht : feas t) by (rewrite Forall_forall in Hy; apply Hy; rewrite Hk; apply in_or_app; right; left; reflexivity).
    eapply wp_mono; [apply (g_gen_at _ t Ht s' eq_refl G1)|]. intros a s'' (I2 & Ha & C2 & G2). apply wp_ret.
    split; [eapply incl_tran; eauto|]. split; [|split; [rewrite app_length; simpl; lia|exact G2]].
    split; [rewrite !app_length; simpl; lia|]. apply Forall_app; split; [eapply oks_mono; eauto|constructor; auto].
  - intros acc s' (I1 & J1 & C1 & G1). auto.
Qed.
Lemma g_new_agents w m (cand : nat -> M A X vec) : (forall w' i, incl w w' -> i < m -> gq w' (cand i) (fun _ => True)) ->
  gt w m m (new_agents P md correct gea m cand) (fun w' l => List.length l = m /\ Forall (ok w') l).
Proof.
  intros Hc. unfold new_agents. destruct (is_avail md) eqn:Hav.
  - apply (g_mono w (m * 0 + m) (m * 0 + m) m m _ (fun w' l => List.length l = m /\ Forall (ok w') l)); [|lia|lia|auto].
    eapply g_bind with (a := m * 0) (b := m * 0) (c := m) (d := m).
    + eapply g_mono with (a := m * 0) (b := m * 0); [|lia|lia|].
      * apply (g_for_acc w 0 0 m 0 [] _ (fun k w' acc => List.length acc = k /\ Forall (pend w') acc)); [split; [reflexivity|constructor]|].
        intros k w' acc Hi Hk [Hl Hp]. apply g_quiet.
        eapply gq_bind; [apply Hc; [exact Hi|lia]|]. intros x _. eapply gq_bind; [apply gq_propose|]. intros a Ha. apply gq_ret.
        split; [rewrite app_length; simpl; lia|]. apply Forall_app; split; [exact Hp|constructor; auto].
      * intros w' y _ H; exact H.
    + intros l w' Hi [Hl Hp]. simpl in Hl. cbv beta. eapply g_mono; [apply g_update_target; assumption| | |]; [lia|lia|].
      intros w'' y _ [H1 H2]. split; [lia|exact H1].
  - apply (g_mono w (m + 0) (m + 0) m m _ (fun w' l => List.length l = m /\ Forall (ok w') l)); [|lia|lia|auto].
    eapply g_bind with (a := m) (b := m) (c := 0) (d := 0).
    + eapply g_mono with (a := m * 1) (b := m * 1); [|lia|lia|].
      * apply (g_for_acc w 1 1 m 0 [] _ (fun k w' acc => List.length acc = k /\ Forall (ok w') acc)); [split; [reflexivity|constructor]|].
        intros k w' acc Hi Hk [Hl Hp]. eapply g_qbind; [apply Hc; [exact Hi|lia]|]. intros x _.
        eapply g_qbind; [apply gq_propose|]. intros a Ha.
        eapply (g_bind w' 1 1 0 0); [apply g_eval1; exact Ha|]. intros a' w'' Hi' Ha'. apply g_ret.
        split; [rewrite app_length; simpl; lia|]. apply Forall_app; split; [eapply oks_mono; eauto|constructor; auto].
      * intros w' y _ H; exact H.
    + intros l w' Hi [Hl Hp]. apply g_ret. auto.
Qed.

Lemma g_best_new w m (cand : nat -> M A X vec) : 0 < m -> (forall w' i, incl w w' -> i < m -> gq w' (cand i) (fun _ => True)) ->
  gt w m m (best_new E P md correct gea m cand) (fun w' r => ok w' (fst r)).
Proof.
  intros Hm Hc. unfold best_new. apply (g_mono w (m + 0) (m + 0) m m _ (fun w' r => ok w' (fst r))); [|lia|lia|auto].
  eapply g_bind; [apply g_new_agents; exact Hc|]. intros l w' Hi [Hl Hg]. apply g_quiet.
  eapply gq_mono; [apply gq_best; [exact Hg|lia]|]. intros r H; apply H.
Qed.
Lemma gq_keep_better w nf i a : i < n -> ok w a -> gq w (keep_better P nf i a) (fun _ => True).
Proof.
  intros Hi Ha. unfold keep_better. eapply gq_bind; [apply gq_pop_at; exact Hi|]. intros o Ho.
  eapply gq_bind; [destruct nf; apply gq_better; assumption|]. intros b Hb. apply gq_pop_set; assumption.
Qed.
Lemma gq_accept w i a : i < n -> ok w a -> gq w (accept P i a) (fun _ => True).
Proof.
  intros Hi Ha. unfold accept. eapply gq_bind; [apply gq_pop_at; exact Hi|]. intros o Ho.
  eapply gq_bind; [apply gq_compare; assumption|]. intros c _. apply gq_when. intros _. apply gq_pop_set; assumption.
Qed.
Lemma g_try_improve w i x : i < n -> gt w 1 1 (try_improve P correct gea i x) (fun _ _ => True).
Proof.
  intros Hi. unfold try_improve. apply (g_bind w 1 1 0 0 _ _ ok); [apply g_gen_agent|]. intros a w' _ Ha.
  apply g_quiet. apply gq_accept; assumption.
Qed.
Lemma g_try_improve_b w i x : i < n -> gt w 1 1 (try_improve_b P correct gea i x) (fun _ r => feas (snd r)).
Proof.
  intros Hi. unfold try_improve_b. apply (g_bind w 1 1 0 0 _ _ ok); [apply g_gen_agent|]. intros a w' _ Ha.
  apply g_quiet. eapply gq_bind; [apply gq_pop_at; exact Hi|]. intros o Ho.
  eapply gq_bind; [apply gq_compare; assumption|]. intros c _.
  eapply gq_bind; [apply gq_when; intros _; apply gq_pop_set; assumption|]. intros u _. apply gq_ret. apply Ha.
Qed.
Lemma g_gen_keep w nf i x : i < n -> gt w 1 1 (gen_keep P correct gea nf i x) (fun _ _ => True).
Proof.
  intros Hi. unfold gen_keep. apply (g_bind w 1 1 0 0 _ _ ok); [apply g_gen_agent|]. intros a w' _ Ha.
  apply g_quiet. apply gq_keep_better; assumption.
Qed.
Lemma g_replace_all w m (cand : nat -> M A X vec) : m = n -> (forall w' i, incl w w' -> i < m -> gq w' (cand i) (fun _ => True)) ->
  gt w m m (replace_all P md correct gea m cand) (fun _ _ => True).
Proof.
  intros Hm Hc. unfold replace_all. apply (g_mono w (m + 0) (m + 0) m m _ (fun _ _ => True)); [|lia|lia|auto].
  eapply g_bind; [apply g_new_agents; exact Hc|]. intros l w' Hi [Hl Hg]. apply g_quiet.
  apply gq_set_pop; [lia|exact Hg].
Qed.
Lemma g_greedy_batch w m (cand : nat -> M A X vec) : m = n -> (forall w' i, incl w w' -> i < m -> gq w' (cand i) (fun _ => True)) ->
  gt w m m (greedy_batch P md correct gea m cand) (fun _ _ => True).
Proof.
  intros Hm Hc. unfold greedy_batch. apply (g_mono w (m + 0) (m + 0) m m _ (fun _ _ => True)); [|lia|lia|auto].
  eapply g_bind; [apply g_new_agents; exact Hc|]. intros l w' Hi [Hl Hg]. apply g_quiet.
  eapply gq_bind; [apply gq_get_pop|]. intros p [Lp Gp]. eapply gq_bind; [apply gq_greedy; [exact Gp|exact Hg|lia]|].
  intros q [Lq Gq]. apply gq_set_pop; [lia|exact Gq].
Qed.
Lemma g_trim_batch w k m (cand : nat -> M A X vec) : m = n -> (forall w' i, incl w w' -> i < k -> gq w' (cand i) (fun _ => True)) ->
  gt w k k (trim_batch E P md correct gea k m cand) (fun _ _ => True).
Proof.
  intros Hm Hc. unfold trim_batch. apply (g_mono w (k + 0) (k + 0) k k _ (fun _ _ => True)); [|lia|lia|auto].
  eapply g_bind; [apply g_new_agents; exact Hc|]. intros l w' Hi [Hl Hg]. apply g_quiet.
  eapply gq_bind; [apply gq_get_pop|]. intros p [Lp Gp]. eapply gq_bind; [apply gq_trimmed; apply Forall_app; split; [exact Gp|exact Hg]|].
  intros q [Lq Gq]. apply gq_set_pop; [rewrite app_length in Lq; lia|exact Gq].
Qed.
(** A loop that builds agents: evaluated at once and used by [use] in single mode, later otherwise. *)
Lemma g_build w m (cand : nat -> M A X (nat * vec)) (use : nat -> agent A -> M A X unit) :
  (forall w' i, incl w w' -> i < m -> gq w' (cand i) (fun p => fst p < n)) ->
  (forall w' i a, i < n -> ok w' a -> gq w' (use i a) (fun _ => True)) ->
  gt w 0 m (for_acc m 0 [] (fun idx pop_new =>
      p <- cand idx ;; a <- propose correct gea (snd p) ;;
      if is_avail md then ret (pop_new ++ [a]) else a' <- evaluate P a ;; use (fst p) a' ;;; ret (pop_new ++ [a'])))
    (fun w' l => List.length l = m /\ (if is_avail md then Forall (pend w') l /\ List.length w' = List.length w
                                        else Forall (ok w') l /\ List.length w' = List.length w + m)).
Proof.
  intros Hc Hu. destruct (is_avail md) eqn:Hav.
  - eapply g_mono with (a := m * 0) (b := m * 0); [|lia|lia|].
    + apply (g_for_acc w 0 0 m 0 [] _ (fun k w' acc => List.length acc = k /\ Forall (pend w') acc /\ List.length w' = List.length w)); [auto|].
      intros k w' acc Hi Hk (Hl & Hp & Hq). apply g_quiet.
      eapply gq_bind; [apply Hc; [exact Hi|lia]|]. intros x _. eapply gq_bind; [apply gq_propose|]. intros a Ha. apply gq_ret.
      split; [rewrite app_length; simpl; lia|]. split; [|exact Hq]. apply Forall_app; split; [exact Hp|constructor; auto].
    + intros w' y _ H; exact H.
  - intros s Hw HG.
    eapply wp_mono; [apply (g_for_acc w 1 1 m 0 [] _ (fun k w' acc => List.length acc = k /\ Forall (ok w') acc)); [auto| |exact Hw|exact HG]|].
    + intros k w' acc Hi Hk (Hl & Hp). eapply g_qbind; [apply Hc; [exact Hi|lia]|]. intros x Hx.
      eapply g_qbind; [apply gq_propose|]. intros a Ha.
      eapply (g_bind w' 1 1 0 0); [apply g_eval1; exact Ha|]. intros a' w'' Hi' Ha'.
      apply g_quiet.
      eapply gq_bind; [apply Hu; assumption|]. intros u _. apply gq_ret.
      split; [rewrite app_length; simpl; lia|]. apply Forall_app; split; [eapply oks_mono; eauto|constructor; auto].
    + intros l s' (I1 & [J1 J2] & C1 & G1). split; [exact I1|]. split; [|split; [lia|exact G1]]. split; [exact J1|]. split; [exact J2|]. lia.
Qed.
Lemma g_after w m (build : M A X (list (agent A))) (fin : list (agent A) -> M A X unit) :
  gt w 0 m build (fun w' l => List.length l = m /\ (if is_avail md then Forall (pend w') l /\ List.length w' = List.length w
                                        else Forall (ok w') l /\ List.length w' = List.length w + m)) ->
  (forall w' l, is_avail md = true -> List.length l = m -> Forall (ok w') l -> gq w' (fin l) (fun _ => True)) ->
  gt w m m (pop_new <- build ;; when (is_avail md) (l <- update_target_for_population P md pop_new ;; fin l)) (fun _ _ => True).
Proof.
  intros H Hf s Hw HG. apply wp_bind. eapply wp_mono; [apply (H s Hw HG)|]. intros l s' (I1 & [Hl HJ] & C1 & G1).
  apply wp_when; intros Hav; rewrite Hav in HJ; destruct HJ as [HJ Hn].
  - apply wp_bind. eapply wp_mono; [apply (g_update_target _ l Hav HJ s' eq_refl G1)|]. intros l' s'' (I2 & [Hl' Hn'] & C2 & G2).
    eapply wp_mono; [apply (Hf (s_log s'') l'); [exact Hav|lia|exact Hl'|reflexivity|exact G2]|]. intros u s3 (_ & E3 & G3). rewrite E3.
    split; [eapply incl_tran; eauto|]. split; [exact I|]. split; [lia|exact G3].
  - split; [exact I1|]. split; [exact I|]. split; [lia|exact G1].
Qed.
Lemma g_greedy_loop w m nf (cand : nat -> M A X (nat * vec)) : (is_avail md = true -> m = n) ->
  (forall w' i, incl w w' -> i < m -> gq w' (cand i) (fun p => fst p < n)) ->
  gt w m m (greedy_loop P md correct gea m nf cand) (fun _ _ => True).
Proof.
  intros Hm Hc. unfold greedy_loop. apply g_after.
  - apply (g_build w m cand (keep_better P nf)); [exact Hc|]. intros; apply gq_keep_better; assumption.
  - intros w' l Hav Hl Hg. eapply gq_bind; [apply gq_get_pop|]. intros p [Lp Gp].
    eapply gq_bind; [apply gq_greedy; [exact Gp|exact Hg|rewrite Lp, Hl; symmetry; apply Hm, Hav]|]. intros q [Lq Gq]. apply gq_set_pop; [lia|exact Gq].
Qed.
Lemma g_greedy_each w m nf (cand : nat -> M A X vec) : m = n ->
  (forall w' i, incl w w' -> i < m -> gq w' (cand i) (fun _ => True)) ->
  gt w m m (greedy_each P md correct gea m nf cand) (fun _ _ => True).
Proof.
  intros Hm Hc. apply g_greedy_loop; [auto|]. intros w' i Hi Hk. eapply gq_bind; [apply Hc; assumption|].
  intros x _. apply gq_ret. simpl. lia.
Qed.
Lemma g_replace_each w m (cand : nat -> M A X vec) : m = n ->
  (forall w' i, incl w w' -> i < m -> gq w' (cand i) (fun _ => True)) ->
  gt w m m (replace_each P md correct gea m cand) (fun _ _ => True).
Proof.
  intros Hm Hc. unfold replace_each. apply (g_after w m); [|intros w' l _ Hl Hg; apply gq_set_pop; [lia|exact Hg]].
  pose proof (g_build w m (fun idx => x <- cand idx ;; ret (idx, x)) pop_set) as T.
  intros s Hw HG. eapply wp_mono.
  - assert (ET : forall (f g : nat -> list (agent A) -> M A X (list (agent A))) k i b s1, (forall i b s2, f i b s2 = g i b s2) -> for_acc k i b f s1 = for_acc k i b g s1).
    { intros f g k. induction k as [|k IH]; intros i b s1 HE; simpl; [reflexivity|]. unfold bindM. rewrite HE. destruct (g i b s1) as [[b' s2]|e]; [apply IH; exact HE|reflexivity]. }
    unfold wp. erewrite ET; [apply T; [|intros; apply gq_pop_set; assumption|exact Hw|exact HG]|].
    + intros w' i Hi Hk. eapply gq_bind; [apply Hc; assumption|]. intros x _. apply gq_ret. simpl. lia.
    + intros i b s2. unfold bindM at 1. unfold bindM at 4. unfold bindM at 4. destruct (cand i s2) as [[x s3]|e]; reflexivity.
  - intros l s' H. exact H.
Qed.
Lemma gq_reset w : 0 < n -> gq w (reset_best_worst E P) (fun _ => True).
Proof.
  intros Hpos. unfold reset_best_worst. eapply gq_bind; [apply gq_get_pop|]. intros p [Lp Gp].
  eapply gq_bind; [apply gq_special; exact Gp|]. intros r (sp & b & c & -> & _ & _ & Lb & Gb & Lc & Gc). cbv beta iota.
  eapply gq_bind; [apply gq_getitem; [rewrite Lb, Lp; lia|exact Gb]|]. intros x Hx.
  eapply gq_bind; [apply gq_getitem; [rewrite Lc, Lp; lia|exact Gc]|]. intros y Hy.
  eapply gq_bind; [apply gq_set_gb; exact Hx|]. intros _ _. apply gq_set_gw; exact Hy.
Qed.
Lemma gq_correct w x : gq w (correct x) feas.
Proof. apply gq_qt, Hcorrect. Qed.
End Free.

(** From free steps to the evolve contract. *)
Lemma contract_free {A X} (P : problem) (feas : vec -> Prop) (attok : list vec -> A -> Prop) (IX : list vec -> X -> Prop)
    (cov : Prop) (nd n0 n kmin kmax : nat) (ev : nat -> M A X unit) :
  (forall ep s0 w, 1 <= ep -> Inv P feas attok (eq n) IX cov nd n0 s0 ->
     gt P feas attok (eq n) IX cov nd n0 n s0 w kmin kmax (ev ep) (fun _ _ => True)) ->
  evolve_contract P feas attok (eq n) IX cov nd n0 kmin kmax ev.
Proof.
  intros H ep s Hep HI.
  eapply wp_mono; [apply (H ep s (s_log s) Hep HI s eq_refl); split; [apply Ev_init; exact HI|symmetry; apply (i_len _ _ _ _ _ _ _ _ _ HI)]|].
  intros [] s' (_ & _ & C & V & Hn). split; [exact V|]. split; [symmetry; exact Hn|]. lia.
Qed.

(** Contracts of the overridable parts, all of which may depend on the admissible solutions. *)
Lemma sound_gen {A X} (E : env) (P : problem) (md : mode) (al : @algo A X) (XP : X -> Prop) (H : (vec -> Prop) -> Prop)
    (ST : option (list vec) -> Prop) (attok : (vec -> Prop) -> list vec -> A -> Prop)
    (IX0 IX : (vec -> Prop) -> list vec -> X -> Prop) (IL : nat -> Prop) (eb : bool) (imin imax bmin bmax kmin kmax : nat) :
  (forall m, IL m -> 0 < m) -> 0 < al_epoch al ->
  (forall feas L L' a, incl L L' -> attok feas L a -> attok feas L' a) ->
  (forall feas starting, params E P feas (attok feas) (eb = true /\ obj_num P feas) -> H feas ->
     starting_ok P feas (al_pop_size al) starting -> ST starting ->
     init_contract P md feas (attok feas) IL XP (IX0 feas) (eb = true /\ obj_num P feas) al starting (missed md (al_pop_size al) starting) imin imax) ->
  (forall feas nd, params E P feas (attok feas) (eb = true /\ obj_num P feas) -> H feas ->
     before_main_contract P feas (attok feas) IL (IX0 feas) (IX feas) (eb = true /\ obj_num P feas) al nd bmin bmax) ->
  (forall feas nd n0, params E P feas (attok feas) (eb = true /\ obj_num P feas) -> H feas ->
     evolve_contract P feas (attok feas) IL (IX feas) (eb = true /\ obj_num P feas) nd n0 kmin kmax (al_evolve al)) ->
  sound_run_gen E P md al XP H ST IL eb (imin + bmin) (imax + bmax) kmin kmax.
Proof.
  intros Hpos He Hmono HI HB HV feas tm starting s Has Hmm Hpr HH Hst HST HX.
  assert (HP : params E P feas (attok feas) (eb = true /\ obj_num P feas)) by (constructor; auto; try tauto; apply Hmono).
  apply (solve_run E P md feas (attok feas) IL XP (IX0 feas) (IX feas) (eb = true /\ obj_num P feas) (Hmono feas) Hpos Hmm Has (fun c => proj2 c)); auto.
  intros n0. apply HV; assumption.
Qed.

(** generate_empty_agent of a class with agent attributes. *)
Definition gea_ok {A X} (feas : vec -> Prop) (attok : list vec -> A -> Prop) (gea : option vec -> M A X (agent A)) : Prop :=
  forall s o, match o with Some x => feas x | None => True end ->
    wp (gea o) (fun a s' => (exists k, s' = bump s k) /\ match o with Some x => sol a = x | None => feas (sol a) end /\
                            forall L, In (sol a) L -> attok L (att a)) s.
Lemma gea_quiet {A X} P (feas : vec -> Prop) (attok : list vec -> A -> Prop) IL (IX : list vec -> X -> Prop) cov nd n0 n s0 gea :
  gea_ok feas attok gea -> forall x, feas x -> qt P feas attok IL IX cov nd n0 n s0 (gea (Some x)) (fresh_agent feas attok).
Proof.
  intros H x Hx W l s HR. eapply wp_mono; [apply (H s (Some x) Hx)|]. intros a s' ((k & ->) & Ha & Hb).
  split; [|eapply near_bump; eauto]. split; [rewrite Ha; exact Hx|exact Hb].
Qed.
Lemma gea_quiet_none {A X} P (feas : vec -> Prop) (attok : list vec -> A -> Prop) IL (IX : list vec -> X -> Prop) cov nd n0 n s0 gea :
  gea_ok feas attok gea -> qt P feas attok IL IX cov nd n0 n s0 (gea None) (fresh_agent feas attok).
Proof.
  intros H W l s HR. eapply wp_mono; [apply (H s None I)|]. intros a s' ((k & ->) & Ha & Hb).
  split; [|eapply near_bump; eauto]. split; [exact Ha|exact Hb].
Qed.
Lemma gea_plain_none {A X} E P (feas : vec -> Prop) (attok : list vec -> A -> Prop) IL (IX : list vec -> X -> Prop) cov nd n0 n s0 (dflt : A) :
  params E P feas attok cov -> (forall L, attok L dflt) ->
  qt P feas attok IL IX cov nd n0 n s0 (generate_empty_agent P dflt None) (fresh_agent feas attok).
Proof.
  intros HP Hd. unfold generate_empty_agent. eapply q_bind; [apply q_tick|]. intros k _. apply q_ret. split; simpl; auto.
  apply (pr_prob _ _ _ _ _ HP).
Qed.
Lemma gea_ok_contract {A X} (feas : vec -> Prop) (attok : list vec -> A -> Prop) (gea : option vec -> M A X (agent A)) :
  gea_ok feas attok gea -> gea_contract feas attok gea.
Proof.
  intros H s x Hx. eapply wp_mono; [apply (H s (Some x) Hx)|]. intros a s' (Hk & Ha & Hb).
  split; [exact Hk|]. split; [exact Ha|]. apply Hb. left; symmetry; exact Ha.
Qed.
(** generate_agent: what an overriding one must do. *)
Definition ga_ok {A X} (P : problem) (feas : vec -> Prop) (attok : list vec -> A -> Prop) (ga : option vec -> M A X (agent A)) : Prop :=
  forall s o, match o with Some x => feas x | None => True end ->
    wp (ga o) (fun a s' => (exists k, s' = bump (evald s [sol a]) k) /\ match o with Some x => sol a = x | None => feas (sol a) end /\
                           tgt a = Some (prob_target P (sol a)) /\ forall L, In (sol a) L -> attok L (att a)) s.
Lemma ga_of_ok {A X} (P : problem) (feas : vec -> Prop) (attok : list vec -> A -> Prop) (gea : option vec -> M A X (agent A)) :
  gea_ok feas attok gea -> ga_ok P feas attok (ga_of P gea).
Proof.
  intros H s o Ho. unfold ga_of, generate_agent_with. apply wp_bind. eapply wp_mono; [apply (H s o Ho)|].
  intros a s' ((k & ->) & Ha & Hb). apply wp_bind, wp_get_target, wp_ret. simpl. split; [exists k; reflexivity|]. auto.
Qed.
Lemma agents_init {A X} (E : env) (P : problem) (md : mode) (feas : vec -> Prop) (attok : list vec -> A -> Prop)
    (gea ga : option vec -> M A X (agent A)) (IL : nat -> Prop) (XP : X -> Prop) (IX0 : list vec -> X -> Prop) (cov : Prop)
    n epochs srt iv bm ev starting :
  params E P feas attok cov -> (is_avail md = true -> starting <> None -> gea_ok feas attok gea) -> ga_ok P feas attok ga -> (forall m, IL m -> 0 < m) -> IL n -> vars_contract XP IX0 iv ->
  starting_ok P feas n starting ->
  init_contract P md feas attok IL XP IX0 cov (agent_algo E md gea ga n epochs srt iv bm ev) starting (missed md n starting) n n.
Proof.
  intros HP Hgea Hga Hpos Hn HV Hst.
  apply (default_init_contract E P md feas attok IL XP IX0 cov); try (apply HP); auto.
  - intros s. cbn [al_ga agent_algo]. eapply wp_mono; [apply (Hga s None I)|]. intros a s' (H1 & H2 & H3 & H4).
    split; [exact H1|]. split; [exact H3|]. split; [exact H2|]. apply H4; left; reflexivity.
  - intros x Hx s. cbn [al_ga agent_algo]. eapply wp_mono; [apply (Hga s (Some x) Hx)|]. intros a s' (H1 & H2 & H3 & H4).
    split; [exact H1|]. split; [exact H3|]. split; [rewrite H2; exact Hx|]. apply H4; left; reflexivity.
  - intros x Hx s. cbn [al_ga agent_algo]. eapply wp_mono; [apply (Hga s (Some x) Hx)|]. intros a s' (H1 & H2 & H3 & H4). exact H2.
  - intros H1 H2. apply gea_ok_contract; auto.
Qed.
(** before_main_loop that only sets attributes. *)
Lemma quiet_before_main {A X} (P : problem) (feas : vec -> Prop) (attok : list vec -> A -> Prop) (IL : nat -> Prop)
    (IX0 IX : list vec -> X -> Prop) (cov : Prop) (al : @algo A X) nd :
  (forall s n0, Inv P feas attok IL IX0 cov nd n0 s -> wp (al_before_main al) (fun _ s' => exists k x, s' = with_x (bump s k) x /\ xok IX (s_log s) x) s) ->
  before_main_contract P feas attok IL IX0 IX cov al nd 0 0.
Proof.
  intros H s n0 HI. eapply wp_mono; [apply (H s n0 HI)|]. intros u s' (k & x & -> & Hx).
  split; [|split; [reflexivity|split; [apply incl_refl|simpl; lia]]]. destruct HI. constructor; simpl; auto.
Qed.
(** A class with agent attributes, default initialization, quiet before_main_loop, population of fixed size. *)
Lemma sound_agents_st {A X} (E : env) (P : problem) (md : mode) (gea ga : option vec -> M A X (agent A)) (n epochs : nat) (srt : bool)
    (iv bm : M A X unit) (ev : nat -> M A X unit) (XP : X -> Prop) (H : (vec -> Prop) -> Prop) (ST : option (list vec) -> Prop)
    (attok : (vec -> Prop) -> list vec -> A -> Prop) (IX0 IX : (vec -> Prop) -> list vec -> X -> Prop) (eb : bool) (kmin kmax : nat) :
  0 < n -> 0 < epochs ->
  (forall feas L L' a, incl L L' -> attok feas L a -> attok feas L' a) ->
  (forall feas rows, is_avail md = true -> ST (Some rows) -> problem_ok P feas -> gea_ok feas (attok feas) gea) ->
  (forall feas, problem_ok P feas -> ga_ok P feas (attok feas) ga) ->
  (forall feas, problem_ok P feas -> vars_contract XP (IX0 feas) iv) ->
  (forall feas nd n0 s, params E P feas (attok feas) (eb = true /\ obj_num P feas) -> H feas ->
     Inv P feas (attok feas) (eq n) (IX0 feas) (eb = true /\ obj_num P feas) nd n0 s ->
     wp bm (fun _ s' => exists k x, s' = with_x (bump s k) x /\ xok (IX feas) (s_log s) x) s) ->
  (forall feas nd n0, params E P feas (attok feas) (eb = true /\ obj_num P feas) -> H feas ->
     evolve_contract P feas (attok feas) (eq n) (IX feas) (eb = true /\ obj_num P feas) nd n0 kmin kmax ev) ->
  sound_run_gen E P md (agent_algo E md gea ga n epochs srt iv bm ev) XP H ST (eq n) eb n n kmin kmax.
Proof.
  intros Hn He Hm Hg Hga Hv Hb Hev. rewrite <- (Nat.add_0_r n) at 3 4.
  apply (sound_gen E P md (agent_algo E md gea ga n epochs srt iv bm ev) XP H ST attok IX0 IX (eq n) eb n n 0 0 kmin kmax); auto.
  - intros m <-; exact Hn.
  - intros feas starting HP HH Hst HST. apply agents_init; auto; try (intros Hav Hne; destruct starting as [rows|]; [eapply Hg; eauto; apply HP|congruence]); try (apply Hga, HP); try (apply Hv, HP). intros m <-; exact Hn.
  - intros feas nd HP HH. apply quiet_before_main. intros s n0 HI. eapply Hb; eauto.
Qed.
Lemma sound_agents {A X} (E : env) (P : problem) (md : mode) (gea ga : option vec -> M A X (agent A)) (n epochs : nat) (srt : bool)
    (iv bm : M A X unit) (ev : nat -> M A X unit) (XP : X -> Prop) (H : (vec -> Prop) -> Prop)
    (attok : (vec -> Prop) -> list vec -> A -> Prop) (IX0 IX : (vec -> Prop) -> list vec -> X -> Prop) (eb : bool) (kmin kmax : nat) :
  0 < n -> 0 < epochs ->
  (forall feas L L' a, incl L L' -> attok feas L a -> attok feas L' a) ->
  (forall feas, problem_ok P feas -> gea_ok feas (attok feas) gea) ->
  (forall feas, problem_ok P feas -> ga_ok P feas (attok feas) ga) ->
  (forall feas, problem_ok P feas -> vars_contract XP (IX0 feas) iv) ->
  (forall feas nd n0 s, params E P feas (attok feas) (eb = true /\ obj_num P feas) -> H feas ->
     Inv P feas (attok feas) (eq n) (IX0 feas) (eb = true /\ obj_num P feas) nd n0 s ->
     wp bm (fun _ s' => exists k x, s' = with_x (bump s k) x /\ xok (IX feas) (s_log s) x) s) ->
  (forall feas nd n0, params E P feas (attok feas) (eb = true /\ obj_num P feas) -> H feas ->
     evolve_contract P feas (attok feas) (eq n) (IX feas) (eb = true /\ obj_num P feas) nd n0 kmin kmax ev) ->
  sound_run_gen E P md (agent_algo E md gea ga n epochs srt iv bm ev) XP H (fun _ => True) (eq n) eb n n kmin kmax.
Proof. intros. apply (sound_agents_st E P md gea ga n epochs srt iv bm ev XP H (fun _ => True) attok IX0 IX); auto. Qed.
Lemma gen_plain {A X} E P md (al : @algo A X) XP eb kmin kmax :
  sound_run_gen E P md al XP (fun _ => True) (fun _ => True) (eq (al_pop_size al)) eb (al_pop_size al) (al_pop_size al) kmin kmax ->
  sound_run E P md al XP eb kmin kmax.
Proof. intros H feas tm starting s H1 H2 H3 H4 H5. apply (H feas tm starting s); auto. Qed.
(** Plain agents, free steps. *)
Lemma sound_free {A X} (E : env) (P : problem) (md : mode) (dflt : A) (n epoch : nat) (srt : bool)
    (iv : M A X unit) (ev : nat -> M A X unit) (XP : X -> Prop) (IX : X -> Prop) (kmin kmax : nat) :
  0 < n -> 0 < epoch -> vars_contract XP (fun _ => IX) iv ->
  (forall feas nd n0 ep s0 w, params E P feas (@anyatt A) (false = true /\ obj_num P feas) -> 1 <= ep ->
     Inv P feas (@anyatt A) (eq n) (fun _ => IX) (false = true /\ obj_num P feas) nd n0 s0 ->
     gt P feas (@anyatt A) (eq n) (fun _ => IX) (false = true /\ obj_num P feas) nd n0 n s0 w kmin kmax (ev ep) (fun _ _ => True)) ->
  sound_run E P md (vars_algo E P md dflt n epoch srt iv ev) XP false kmin kmax.
Proof.
  intros Hn He HV H. eapply sound_len_of; eauto.
  - intros m <-; exact Hn.
  - intros feas nd n0 HP. apply contract_free. intros ep s0 w Hep HI. apply H; auto.
Qed.

Lemma sound_plain_free {A X} (E : env) (P : problem) (md : mode) (dflt : A) (n epoch : nat) (srt : bool)
    (ev : nat -> M A X unit) (IX : X -> Prop) (kmin kmax : nat) :
  0 < n -> 0 < epoch ->
  (forall feas nd n0 ep s0 w, params E P feas (@anyatt A) (false = true /\ obj_num P feas) -> 1 <= ep ->
     Inv P feas (@anyatt A) (eq n) (fun _ => IX) (false = true /\ obj_num P feas) nd n0 s0 ->
     gt P feas (@anyatt A) (eq n) (fun _ => IX) (false = true /\ obj_num P feas) nd n0 n s0 w kmin kmax (ev ep) (fun _ _ => True)) ->
  sound_run E P md (plain_algo E P md dflt n epoch srt ev) IX false kmin kmax.
Proof.
  intros Hn He H. apply (sound_free E P md dflt n epoch srt (ret tt) ev IX IX); auto.
  intros s Hs. apply wp_ret. exists (s_x s), (s_ctr s). split; [destruct s; reflexivity|auto].
Qed.

(** ** Automation *)
Ltac noc := let H := fresh in intros [H _]; discriminate H.
Ltac gmove Hi := repeat match goal with
  | H : ok _ _ _ ?w _ |- _ => match type of Hi with incl w _ => eapply ok_mono in H; [|eassumption|exact Hi] end
  | H : Forall (ok _ _ _ ?w) _ |- _ => match type of Hi with incl w _ => eapply oks_mono in H; [|eassumption|exact Hi] end
  | H : pend _ _ ?w _ |- _ => match type of Hi with incl w _ => eapply pend_mono in H; [|exact Hi] end
  | H : Forall (pend _ _ ?w) _ |- _ => match type of Hi with incl w _ => eapply pends_mono in H; [|exact Hi] end
  end.
Ltac gside HP := cbv beta;
  lazymatch goal with
  | |- _ /\ _ => split; gside HP
  | |- params _ _ _ _ _ => exact HP
  | |- ~ _ => noc
  | |- forall x, qt _ _ _ _ _ _ _ _ _ _ _ _ => qcorrect HP
  | |- forall x, _ x -> qt _ _ _ _ _ _ _ _ _ _ _ (fresh_agent _ _) => first [qgea | apply gea_quiet; assumption]
  | |- qt _ _ _ _ _ _ _ _ _ _ _ (fresh_agent _ _) => first [eapply gea_plain_none; [exact HP|intros; exact I] | apply gea_quiet_none; assumption]
  | |- is_avail _ = true -> _ => intros; lia
  | |- wf_agent _ => eapply ok_wf; eassumption
  | |- Forall (fun a => wf_agent a /\ _) _ => eapply oks_wf; eassumption
  | |- Forall _ (_ ++ _) => apply Forall_app; split; gside HP
  | |- Forall _ [] => constructor
  | |- Forall _ [_] => constructor; [gside HP|constructor]
  | |- Forall _ (_ :: _) => constructor; gside HP
  | |- Forall _ _ => solve [assumption | eauto]
  | |- List.length _ = _ => solve [rewrite ?upd_length, ?app_length, ?map_length in *; unfold vec in *; cbn [List.length] in *; lia]
  | |- _ => solve [assumption | qside]
  end.
Ltac gprim HP := 
  lazymatch goal with
  | |- gq _ _ _ _ _ _ _ _ _ _ _ ?m _ =>
    lazymatch m with
    | pop_at _ => eapply gq_pop_at; gside HP
    | get_pop => eapply gq_get_pop | get_gb => eapply gq_get_gb | get_gw => eapply gq_get_gw
    | get_x => eapply gq_get_x | set_x _ => eapply gq_set_x; gside HP
    | pop_set _ _ => eapply gq_pop_set; gside HP | set_pop _ => eapply gq_set_pop; gside HP
    | set_gb (Some _) => eapply gq_set_gb; gside HP | set_gw (Some _) => eapply gq_set_gw; gside HP
    | lift (get_sorted_population _ _ _) => eapply gq_sorted; gside HP
    | lift (get_sorted_and_trimmed_population _ _ _ _) => eapply gq_trimmed; gside HP
    | lift (get_special_agents _ _ _ _ _) => eapply gq_special; gside HP
    | special _ _ _ _ _ => eapply gq_specials; gside HP
    | lift (get_best_agent _ _ _) => eapply gq_best; gside HP
    | lift (get_worst_agent _ _ _) => eapply gq_worst; gside HP
    | lift (greedy_selection_population _ _ _) => eapply gq_greedy; gside HP
    | lift (get_better_agent _ _ _ false) => eapply gq_better; gside HP
    | lift (get_better_agent _ _ _ true) => eapply gq_better_rev; gside HP
    | lift (compare_agents _ _ _) => eapply gq_compare; gside HP
    | lift (fitness _) => eapply gq_fitness; gside HP
    | lift (map_res fitness _) => eapply gq_fits; gside HP
    | lift (@getitem (agent _) _ _) => eapply gq_getitem; gside HP
    | @choice1 _ _ _ (agent _) _ => eapply gq_choice1; gside HP
    | keep_better _ _ _ _ => eapply gq_keep_better; gside HP
    | accept _ _ _ => eapply gq_accept; gside HP
    | reset_best_worst _ _ => eapply gq_reset; gside HP
    | propose _ _ _ => eapply gq_propose; gside HP
    | _ => eapply gq_qt; [exact HP|noc|qprim HP]
    end
  end.
Ltac gquiet HP := cbv beta;
  lazymatch goal with
  | |- gq _ _ _ _ _ _ _ _ _ _ _ ?m _ =>
    lazymatch m with
    | bindM _ _ => eapply gq_bind; [gquiet HP | let y := fresh "y" in let H := fresh "H" in intros y H; cbv beta in H; qfacts; gquiet HP]
    | ret _ => apply gq_ret; try exact I; first [evtrue | try solve [gside HP]]
    | collect _ _ => first [eapply gq_collect; intros; gquiet HP | eapply gq_mono; [eapply gq_collect; intros; gquiet HP | intros; cbv beta in *; try solve [gside HP]] ]
    | repeat_M _ _ => eapply gq_qt; [exact HP|noc|]; first [eapply q_repeat; quiet HP | eapply q_mono; [eapply q_repeat; quiet HP | intros; cbv beta in *; try solve [qside]] ]
    | dims _ _ => eapply gq_qt; [exact HP|noc|]; first [apply q_dims; intros; quiet HP | eapply q_mono; [apply q_dims; intros; quiet HP | intros; cbv beta in *; try solve [qside]] ]
    | (if ?b then _ else _) => let Hb := fresh "Hb" in destruct b eqn:Hb; qfacts; gquiet HP
    | (match ?p with (_, _) => _ end) => destruct p; cbn [fst snd] in *; qfacts; gquiet HP
    | (match ?l with [] => _ | _ :: _ => _ end) => destruct l; cbn [List.length] in *; try (exfalso; lia); qfacts; gquiet HP
    | (match ?o with Some _ => _ | None => _ end) => destruct o; try discriminate; qfacts; gquiet HP
    | (let x := _ in _) => cbv zeta; gquiet HP
    | when _ _ => eapply gq_mono; [apply gq_when; intros; gquiet HP|intros; cbv beta in *; try solve [gside HP]]
    | for_ _ _ => eapply gq_mono; [apply gq_for; intros; gquiet HP|intros; cbv beta in *; try solve [gside HP]]
    | _ => tryif (first [ gprim HP | eapply gq_mono; [gprim HP | let y := fresh "y" in let H := fresh "H" in intros y H; cbv beta in *; qfacts; try exact I; try solve [gside HP]] ])
           then idtac else (tryif openc m then gquiet HP else idtac)
    end
  | _ => idtac
  end.
Ltac hasev1 m :=
  match m with
  | context [random_agent] => idtac | context [best_with_old] => idtac
  | context [try_improve] => idtac | context [try_improve_b] => idtac | context [gen_keep] => idtac
  | context [best_keep] => idtac | context [greedy_loop] => idtac | context [greedy_each] => idtac
  | context [greedy_batch] => idtac | context [trim_batch] => idtac | context [renew] => idtac | context [replace_all] => idtac
  | context [replace_each] => idtac | context [gen_agent] => idtac | context [new_agents] => idtac | context [best_new] => idtac
  | context [evaluate] => idtac | context [gen_at] => idtac | context [gen_list] => idtac | context [get_target] => idtac
  | context [generate_agent_with] => idtac | context [update_target_for_population] => idtac | context [ga_of] => idtac
  end.
(** Hooks for more steps, set in PAlg2. *)
Ltac hasevmore m := fail.
Ltac fmore HP m := fail.
Ltac hasev m := first [hasev1 m | hasevmore m | let h := headc m in let m' := eval unfold h in m in first [hasev1 m' | hasevmore m']].
Ltac gintros HP := let y := fresh "y" in let w := fresh "w" in let Hi := fresh "Hi" in let H := fresh "H" in
  intros y w Hi H; cbv beta in H; gmove Hi; qfacts.
Ltac gprem HP :=
  lazymatch goal with
  | |- forall w i, incl _ _ -> _ < _ -> gq _ _ _ _ _ _ _ _ _ _ _ _ _ =>
      let w := fresh "w" in let i := fresh "i" in let Hw := fresh "Hw" in let Hi := fresh "Hi" in intros w i Hw Hi; gmove Hw; gquiet HP
  | |- _ => gside HP
  end.
Ltac free HP := cbv beta;
  lazymatch goal with
  | |- gt _ _ _ _ _ _ _ _ _ _ _ _ _ ?m _ =>
    lazymatch m with
    | bindM ?m1 _ =>
      tryif hasev m1
      then (eapply g_bind; [free HP | gintros HP; free HP])
      else (eapply g_qbind; [gquiet HP | let y := fresh "y" in let H := fresh "H" in intros y H; cbv beta in H; qfacts; free HP])
    | (if ?b then _ else _) => eapply g_ifm; [let Hb := fresh "Hb" in intros Hb; qfacts; free HP | let Hb := fresh "Hb" in intros Hb; qfacts; free HP]
    | (match ?p with (_, _) => _ end) => destruct p; cbn [fst snd] in *; qfacts; free HP
    | (match ?l with [] => _ | _ :: _ => _ end) => destruct l; cbn [List.length] in *; try (exfalso; lia); qfacts; free HP
    | (match ?o with Some _ => _ | None => _ end) => destruct o; try discriminate; qfacts; free HP
    | (let x := _ in _) => cbv zeta; free HP
    | when _ _ => eapply g_whenm; let Hb := fresh "Hb" in intros Hb; qfacts; free HP
    | collect _ _ => eapply g_collect; let i := fresh "i" in let w := fresh "w" in let Hw := fresh "Hw" in let Hi := fresh "Hi" in intros i w Hw Hi; gmove Hw; free HP
    | for_ _ _ => eapply g_for; let i := fresh "i" in let w := fresh "w" in let Hw := fresh "Hw" in let Hi := fresh "Hi" in intros i w Hw Hi; gmove Hw; free HP
    | try_improve _ _ _ _ _ => eapply g_try_improve; gprem HP
    | try_improve_b _ _ _ _ _ => eapply g_try_improve_b; gprem HP
    | gen_keep _ _ _ _ _ _ => eapply g_gen_keep; gprem HP
    | gen_agent _ _ _ _ => eapply g_gen_agent; gprem HP
    | gen_at _ _ _ => eapply g_gen_at; gprem HP
    | random_agent _ _ => eapply g_random_agent; gprem HP
    | evaluate _ _ => eapply g_eval1; gprem HP
    | new_agents _ _ _ _ _ _ => eapply g_new_agents; gprem HP
    | best_new _ _ _ _ _ _ _ => eapply g_best_new; gprem HP
    | greedy_each _ _ _ _ _ _ _ => eapply g_greedy_each; gprem HP
    | greedy_loop _ _ _ _ _ _ _ => eapply g_greedy_loop; gprem HP
    | greedy_batch _ _ _ _ _ _ => eapply g_greedy_batch; gprem HP
    | replace_all _ _ _ _ _ _ => eapply g_replace_all; gprem HP
    | replace_each _ _ _ _ _ _ => eapply g_replace_each; gprem HP
    | trim_batch _ _ _ _ _ _ _ _ => eapply g_trim_batch; gprem HP
    | ret _ => eapply g_ret; try exact I; first [evtrue | try solve [gside HP]]
    | _ => first [fmore HP m | tryif hasev m then (tryif openc m then free HP else idtac) else (eapply g_quiet; gquiet HP)]
    end
  | _ => idtac
  end.
Ltac gcounts HP := eapply g_mono; [free HP | cbn; lia | cbn; lia | trivial].
Ltac plainfree := intros; apply sound_plain_free; [auto; try lia|auto; try lia|]; [..|let HP := fresh "HP" in intros feas nd n0 ep s0 w HP Hep _].
