(** Blocks for the fragments of MAlg2. *)
From Verif Require Import Prelude Fl MCore MHelp MAlg MAlg2 SpecCore SpecRun PSelect PLogic PSolve PRun SpecAlg PAlg PFree PClass PAlg2.

Section Blocks3.
Context {A X : Type}.
Variable E : env.
Variable P : problem.
Variable md : mode.
Variable feas : vec -> Prop.
Variable attok : list vec -> A -> Prop.
Variable IL : nat -> Prop.
Variable IX : list vec -> X -> Prop.
Variable cov : Prop.
Variables nd n0 n : nat.
Variable s0 : st A X.
Hypothesis HP : params E P feas attok cov.
Notation Ev := (Ev P feas attok IL IX cov nd n0).
Notation good := (good P feas attok).
Notation R := (R P feas attok IL IX cov nd n0 n s0).
Notation qt := (qt P feas attok IL IX cov nd n0 n s0).
Notation blk := (blk P feas attok IL IX cov nd n0 n s0).
Notation blk0 := (blk0 P feas attok IL IX cov nd n0 n s0).
Notation fresh_agent := (fresh_agent feas attok).

(** What is known of an agent read from the population. *)
Notation seen := (fun a : agent A => wf_agent a /\ feas (sol a) /\ exists L, attok L (att a)).
Lemma good_seen L a : good L a -> seen a.
Proof. intros G. split; [eapply good_wf; eauto|]. split; [apply G|]. exists L. apply G. Qed.
Lemma q_gb_seen : qt get_gb seen.
Proof.
  intros W l s HR. pose proof HR as (V & _). destruct (Ev_gb _ _ _ _ _ _ _ _ _ _ _ V) as (g & Eg & Gg).
  unfold wp, get_gb. rewrite Eg. split; [eapply good_seen; eauto|eapply near_refl; eauto].
Qed.
Lemma q_pops_seen : qt get_pop (fun p => List.length p = n /\ Forall seen p).
Proof.
  intros W l s HR. pose proof HR as (V & Hn & _). apply wp_get_pop. split; [split; [exact Hn|]|eapply near_refl; eauto].
  pose proof (v_good _ _ _ _ _ _ _ _ _ _ _ V) as G. rewrite Forall_forall in *. intros a Ha. eapply good_seen; eauto.
Qed.

Lemma R_perm W W' l s : R W l s -> Permutation W W' -> R W' l s.
Proof.
  intros (V & Hn & Hl) Hp. split; [|split; assumption]. destruct V. constructor; auto.
  - rewrite Forall_forall in *. intros a Ha. apply v_W. eapply Permutation_in; [symmetry; exact Hp|exact Ha].
  - intros C g x Hg Hx. destruct (v_cov C g x Hg Hx) as [H|(b & Hb & Hw)]; [left; exact H|right; exists b; split; [|exact Hw]].
    rewrite in_app_iff in *. destruct Hb; [auto|right; eapply Permutation_in; eauto].
Qed.
Lemma held_good W l s V a : R (W ++ V) l s -> In a V -> good (s_log s) a.
Proof.
  intros (V0 & _) Ha. pose proof (v_W _ _ _ _ _ _ _ _ _ _ _ V0) as G. rewrite Forall_forall in G. apply G, in_or_app; auto.
Qed.

Lemma b_greedy_agents m nf (cand : nat -> M A X (nat * agent A)) :
  (is_avail md = true -> m = n) ->
  (forall i, i < m -> qt (cand i) (fun p => fst p < n /\ fresh_agent (snd p))) ->
  blk m m (greedy_agents P md m nf cand) (fun _ => True).
Proof.
  intros Hm Hc W l s HR. unfold greedy_agents. apply wp_bind.
  apply wp_for_acc with (I := fun k acc s' => List.length acc = k /\
     if is_avail md then R W l s' /\ Forall fresh_agent acc else R W (l + k) s').
  - split; [reflexivity|]. destruct (is_avail md); [split; [exact HR|constructor]|rewrite Nat.add_0_r; exact HR].
  - intros k acc s' Hk [Hlen HI]. assert (HR' : R W (if is_avail md then l else l + k) s') by (destruct (is_avail md); tauto).
    apply wp_bind. eapply wp_mono; [eapply (Hc k); [lia|exact HR']|]. intros [j a] s1 [[Hp Ha] Hn1]. cbn [fst snd] in *.
    assert (R1 : R W (if is_avail md then l else l + k) s1) by (eapply R_near; eauto).
    destruct (is_avail md).
    + apply wp_ret. split; [rewrite app_length; simpl; lia|]. split; [exact R1|]. apply Forall_app; split; [apply HI|constructor; auto].
    + apply wp_bind. eapply wp_evaluate; [exact HP|exact R1|exact Ha|]. intros a' s3 Ga R3 _ _ _ _.
      apply wp_bind. eapply wp_keep_better; [exact HP|exact R3|exact Ga|exact Hp|]. intros s4 R4. apply wp_ret.
      split; [rewrite app_length; simpl; lia|]. replace (l + S k) with (l + k + 1) by lia. exact R4.
  - intros acc s' [Hlen HI]. apply wp_when; intros Hav; rewrite Hav in HI.
    + destruct HI as [HR' Hf]. apply wp_bind. eapply wp_update_target_avail; [exact Hav|]. intros new ->.
      destruct (R_batch E P feas attok IL IX cov nd n0 n s0 HP _ _ _ acc HR' Hf) as [RB GB].
      eapply wp_greedy_select; [exact HP|exact RB|rewrite map_length, Hlen; simpl; apply Hm; exact Hav|].
      intros s'' R''. split; [exact I|]. exists m. split; [lia|]. replace (List.length acc) with m in R'' by (simpl in Hlen; lia). exact R''.
    + split; [exact I|]. exists m. split; [lia|exact HI].
Qed.

Lemma wp_made_agents W l s m (cand : nat -> M A X (agent A)) (Q : list (agent A) -> st A X -> Prop) : R W l s ->
  (forall i, i < m -> qt (cand i) fresh_agent) ->
  (forall new s', List.length new = m -> Forall (good (s_log s')) new -> R (W ++ new) (l + m) s' -> s_pop s' = s_pop s -> Q new s') ->
  wp (made_agents P md m cand) Q s.
Proof.
  intros HR Hc HQ. unfold made_agents. apply wp_bind.
  apply wp_for_acc with (I := fun k acc s' => List.length acc = k /\ s_pop s' = s_pop s /\
     if is_avail md then R W l s' /\ Forall fresh_agent acc else R (W ++ acc) (l + k) s' /\ Forall (good (s_log s')) acc).
  - split; [reflexivity|]. split; [reflexivity|]. destruct (is_avail md); (split; [|constructor]); [exact HR|].
    rewrite Nat.add_0_r, app_nil_r; exact HR.
  - intros k acc s' Hk (Hlen & Hpop & HI).
    set (W' := if is_avail md then W else W ++ acc).
    assert (HR' : R W' (if is_avail md then l else l + k) s') by (unfold W'; destruct (is_avail md); tauto).
    apply wp_bind. eapply wp_mono; [eapply (Hc k); [lia|exact HR']|]. intros a s2 [Ha Hn2].
    assert (R2 : R W' (if is_avail md then l else l + k) s2) by (eapply R_near; eauto).
    assert (Ep : s_pop s2 = s_pop s) by (rewrite (near_pop _ _ _ Hn2); exact Hpop).
    unfold W' in *. destruct (is_avail md).
    + apply wp_ret. split; [rewrite app_length; simpl; lia|]. split; [exact Ep|]. split; [exact R2|].
      apply Forall_app; split; [apply HI|constructor; auto].
    + apply wp_bind. eapply wp_evaluate; [exact HP|exact R2|exact Ha|]. intros a' s3 Ga R3 Ep3 _ _ _. apply wp_ret.
      split; [rewrite app_length; simpl; lia|]. split; [congruence|]. rewrite app_assoc. replace (l + S k) with (l + k + 1) by lia.
      split; [exact R3|]. apply Forall_app; split; [|constructor; auto].
      destruct R3 as (V & _). pose proof (v_W _ _ _ _ _ _ _ _ _ _ _ V) as GW. rewrite !Forall_app in GW. tauto.
  - intros acc s' (Hlen & Hpop & HI). simpl in Hlen. destruct (is_avail md) eqn:Hav.
    + destruct HI as [HR' Hf]. eapply wp_update_target_avail; [exact Hav|]. intros new ->.
      destruct (R_batch E P feas attok IL IX cov nd n0 n s0 HP _ _ _ acc HR' Hf) as [RB GB]. apply HQ; [rewrite map_length; exact Hlen|exact GB| |exact Hpop].
      rewrite Hlen in RB; exact RB.
    + apply wp_ret. apply HQ; [exact Hlen|apply HI| |exact Hpop]. apply HI.
Qed.
Lemma b_replace_made m (cand : nat -> M A X (agent A)) : m = n ->
  (forall i, i < m -> qt (cand i) fresh_agent) -> blk0 m m (replace_made P md m cand) (fun _ => True).
Proof.
  intros Hm Hc W l s HR HO. unfold replace_made. apply wp_bind. eapply wp_made_agents; [exact HR|exact Hc|].
  intros new s' Hlen Gn HR' Ep. unfold wp, set_pop. split; [exact I|]. exists m. split; [lia|].
  eapply R_replace; [exact HP|exact HR'|unfold Old; rewrite Ep; exact HO|lia].
Qed.
Lemma b_greedy_made m (cand : nat -> M A X (agent A)) : m = n ->
  (forall i, i < m -> qt (cand i) fresh_agent) -> blk m m (greedy_made P md m cand) (fun _ => True).
Proof.
  intros Hm Hc W l s HR. unfold greedy_made. apply wp_bind. eapply wp_made_agents; [exact HR|exact Hc|].
  intros new s' Hlen Gn HR' _. eapply wp_greedy_select; [exact HP|exact HR'|lia|]. intros s'' R''.
  split; [exact I|]. exists m. split; [lia|exact R''].
Qed.
Lemma b_trim_made k m (cand : nat -> M A X (agent A)) : m = n -> 0 < n ->
  (forall i, i < k -> qt (cand i) fresh_agent) -> blk k k (trim_made E P md k m cand) (fun _ => True).
Proof.
  intros Hm Hpos Hc W l s HR. unfold trim_made. apply wp_bind. eapply wp_made_agents; [exact HR|exact Hc|].
  intros new s' Hlen Gn HR' _. eapply wp_trim; [exact HP|exact HR'|lia|exact Hm|]. intros s'' R''.
  split; [exact I|]. exists k. split; [lia|exact R''].
Qed.
Lemma b_replace_made_each m (cand : nat -> M A X (agent A)) : m = n ->
  (forall i, i < m -> qt (cand i) fresh_agent) -> blk0 m m (replace_made_each P md m cand) (fun _ => True).
Proof.
  intros Hm Hc W l s HR HO. unfold replace_made_each. apply wp_bind.
  apply wp_for_acc with (I := fun k acc s' => List.length acc = k /\
     (forall i a, k <= i -> nth_error (s_pop s') i = Some a -> In (sol a) (s_log s0)) /\
     if is_avail md then R W l s' /\ Forall fresh_agent acc /\ s_pop s' = s_pop s else R W (l + k) s').
  - split; [reflexivity|]. split.
    + intros i a _ Hi. unfold Old in HO. rewrite Forall_forall in HO. apply HO. eapply nth_error_In; eauto.
    + destruct (is_avail md); [split; [exact HR|split; [constructor|reflexivity]]|rewrite Nat.add_0_r; exact HR].
  - intros k acc s' Hk (Hlen & Hold & HI). assert (HR' : R W (if is_avail md then l else l + k) s') by (destruct (is_avail md); tauto).
    apply wp_bind. eapply wp_mono; [eapply (Hc k); [lia|exact HR']|]. intros a s2 [Ha Hn2].
    assert (R2 : R W (if is_avail md then l else l + k) s2) by (eapply R_near; eauto).
    assert (Ep : s_pop s2 = s_pop s') by (rewrite (near_pop _ _ _ Hn2); reflexivity).
    destruct (is_avail md).
    + apply wp_ret. split; [rewrite app_length; simpl; lia|]. split; [rewrite Ep; intros i b Hi; apply Hold; lia|].
      destruct HI as (_ & HI & Ep'). split; [exact R2|]. split; [|congruence]. apply Forall_app; split; [exact HI|constructor; auto].
    + apply wp_bind. eapply wp_evaluate; [exact HP|exact R2|exact Ha|]. intros a' s3 Ga R3 Ep3 _ _ _.
      pose proof R3 as (V3 & Hn3 & Hl3). apply wp_bind. apply wp_pop_set; [lia|]. apply wp_ret.
      split; [rewrite app_length; simpl; lia|]. split.
      * simpl. intros i b Hi Hb. apply (Hold i b); [lia|]. rewrite upd_nth_neq in Hb by lia. congruence.
      * replace (l + S k) with (l + k + 1) by lia.
        split; [|split; [simpl; rewrite upd_length; exact Hn3|exact Hl3]].
        apply Ev_pop_set with (W := W ++ [a']); [apply HP|apply HP|exact V3|lia|exact Ga|apply incl_appl, incl_refl|].
        intros C g b Hg [Hb|Hb].
        { left. eapply Ev_old; [exact V3|exact C|exact Hg| |].
          - eapply Ev_pop_good; [exact V3|]. eapply nth_error_In; eauto.
          - apply (Hold k b); [lia|]. congruence. }
        apply in_app_or in Hb. destruct Hb as [Hb|[<-|[]]]; [auto|]. right; left. apply no_worse_refl; [apply HP|].
        eapply good_num; [apply HP; exact C|exact Ga].
  - intros acc s' (Hlen & Hold & HI). simpl in Hlen. apply wp_when; intros Hav; rewrite Hav in HI.
    + destruct HI as (HR' & Hf & Ep'). apply wp_bind. eapply wp_update_target_avail; [exact Hav|]. intros new ->.
      destruct (R_batch E P feas attok IL IX cov nd n0 n s0 HP _ _ _ acc HR' Hf) as [RB GB]. unfold wp, set_pop. split; [exact I|]. exists m. split; [lia|].
      rewrite Hlen in RB. eapply R_replace; [exact HP|exact RB|unfold Old; simpl; rewrite Ep'; exact HO|rewrite map_length; lia].
    + split; [exact I|]. exists m. split; [lia|exact HI].
Qed.
Lemma b_keep_agent nf i a : i < n -> fresh_agent a -> blk 1 1 (keep_agent P nf i a) (fun _ => True).
Proof.
  intros Hi Ha W l s HR. unfold keep_agent. apply wp_bind. eapply wp_evaluate; [exact HP|exact HR|exact Ha|].
  intros a' s' Ga R' _ _ _ _. eapply wp_keep_better; [exact HP|exact R'|exact Ga|exact Hi|]. intros s'' R''.
  split; [exact I|]. exists 1. split; [lia|exact R''].
Qed.
Lemma b_accept_agent i a : i < n -> fresh_agent a -> blk 1 1 (accept_agent P i a) (fun _ => True).
Proof.
  intros Hi Ha W l s HR. unfold accept_agent. apply wp_bind. eapply wp_evaluate; [exact HP|exact HR|exact Ha|].
  intros a' s' Ga R' _ _ _ _. eapply wp_accept; [exact HP|exact R'|exact Ga|exact Hi|]. intros s'' R''.
  split; [exact I|]. exists 1. split; [lia|exact R''].
Qed.

Lemma fit_att (a : agent A) b : fit (with_att a b) = fit a.
Proof. reflexivity. Qed.
Lemma good_att L a b : good L a -> attok L b -> good L (with_att a b).
Proof. intros G H. constructor; simpl; try apply G; exact H. Qed.
(** Slot [i] gets an agent as good as the one there. *)
Lemma R_same W l s i r : R W l s -> i < n -> good (s_log s) r ->
  (cov -> forall b, nth_error (s_pop s) i = Some b -> no_worse (p_mm P) (fit r) (fit b)) -> R W l (with_pop s (upd (s_pop s) i r)).
Proof.
  intros (V & Hn & Hl) Hi Gr H1. split; [|split; [simpl; rewrite upd_length; exact Hn|exact Hl]].
  apply Ev_pop_set with (W := W); [apply HP|apply HP|exact V|lia|exact Gr|apply incl_refl|].
  intros C g b Hg [Hb|Hb]; auto.
Qed.
Lemma b_set_att i b : i < n -> (forall L, attok L b) -> blk 0 0 (set_att i b) (fun _ => True).
Proof.
  intros Hi Hb W l s HR. unfold set_att. pose proof HR as (V & Hn & _). apply wp_bind, wp_pop_at; [lia|].
  intros old Eo Hin. pose proof (Ev_pop_good _ _ _ _ _ _ _ _ _ _ _ _ V Hin) as Go. apply wp_pop_set; [lia|].
  split; [exact I|]. exists 0. split; [lia|]. rewrite Nat.add_0_r. apply R_same; [exact HR|exact Hi|apply good_att; auto|].
  intros C c Ec. rewrite Eo in Ec. injection Ec as <-. rewrite fit_att. apply no_worse_refl; [apply HP|].
  eapply good_num; [apply HP; exact C|exact Go].
Qed.
Lemma b_merge i y (b : target -> agent A -> bool -> M A X A) : i < n -> feas y ->
  (forall L old c, good L old -> In y L -> qt (b (prob_target P y) old c) (attok L)) ->
  blk 1 1 (merge P i y b) (fun _ => True).
Proof.
  intros Hi Hy Hb W l s HR. unfold merge. apply wp_bind, wp_get_target. pose proof HR as (V & Hn & Hl).
  apply wp_bind. apply (wp_pop_at i); [simpl; lia|]. intros old Eo Hin.
  pose proof (Ev_pop_good _ _ _ _ _ _ _ _ _ _ _ _ V Hin) as Go0.
  set (a' := mkAgent y (Some (prob_target P y)) (att old)). set (s1 := evald s [y]).
  assert (Go : good (s_log s1) old) by (eapply good_mono; [apply (pr_mono _ _ _ _ _ HP)|apply incl_appl, incl_refl|exact Go0]).
  assert (Hyl : In y (s_log s1)) by (apply in_or_app; right; left; reflexivity).
  assert (Ga : good (s_log s1) a') by (constructor; simpl; auto; apply Go).
  assert (R1 : R (W ++ [a']) (l + 1) s1).
  { split; [|split; [exact Hn|simpl; rewrite app_length; simpl; lia]].
    change s1 with (evald s (map sol [a'])). apply Ev_eval; [apply HP|apply HP|apply HP|exact V|].
    constructor; [|constructor]. split; [reflexivity|]. split; [exact Hy|]. apply Ga. }
  apply wp_bind. destruct (compare_agents_ok E P feas attok cov HP _ a' old Ga Go) as (c & Ec & Hc).
  eapply wp_lift; [exact Ec|].
  apply wp_bind. eapply wp_mono; [eapply (Hb (s_log s1) old c Go Hyl); exact R1|].
  intros x s2 [Hx Hn2]. assert (R2 := R_near _ _ _ _ _ _ _ _ _ _ _ _ _ _ R1 Hn2).
  pose proof (near_pop _ _ _ Hn2) as Ep. pose proof (near_log _ _ _ Hn2) as El. pose proof R2 as (V2 & Hn2' & _).
  apply wp_pop_set; [lia|]. split; [exact I|]. exists 1. split; [lia|].
  assert (N : cov -> num (fit a') /\ num (fit old)) by (intros C; split; (eapply good_num; [apply HP; exact C|eassumption])).
  assert (Ew : (if c then mkAgent y (Some (prob_target P y)) x else with_att old x) = with_att (if c then a' else old) x) by (destruct c; reflexivity).
  rewrite Ew. eapply R_pop_set; [exact HP|exact R2|exact Hi| | |].
  - rewrite El. apply good_att; [destruct c; assumption|apply Hx].
  - rewrite Ep. intros C d Ed. simpl in Ed, Eo. rewrite Eo in Ed. injection Ed as <-.
    rewrite fit_att. destruct (N C). destruct c; [apply Hc; assumption|]. apply no_worse_refl; [apply HP|assumption].
  - intros C. rewrite fit_att. destruct (N C). destruct c; [apply no_worse_refl; [apply HP|assumption]|apply Hc; assumption].
Qed.

Lemma wp_accept_each W l s new after (Q : unit -> st A X -> Prop) : R (W ++ new) l s -> List.length new <= n ->
  (forall i old a c, i < List.length new -> seen old -> seen a -> qt (after i old a c) (fun _ => True)) ->
  (forall s', R W l s' -> Q tt s') -> wp (accept_each P new after) Q s.
Proof.
  intros HR Hl Ha HQ. unfold accept_each, for_.
  apply wp_for_acc with (I := fun k _ s' => R (W ++ skipn k new) l s').
  - exact HR.
  - intros k [] s1 Hk R1. apply wp_bind. destruct (nth_error new k) as [a|] eqn:Ek; [|apply nth_error_None in Ek; lia].
    eapply wp_lift with (y := a); [unfold getitem; rewrite Ek; reflexivity|].
    assert (Esk : skipn k new = a :: skipn (S k) new).
    { clear - Ek. revert new Ek. induction k as [|k IH]; intros [|c q] H; simpl in *; try discriminate; [congruence|]. rewrite (IH q H). reflexivity. }
    rewrite Esk in R1. assert (Ga : good (s_log s1) a) by (eapply held_good; [exact R1|left; reflexivity]).
    assert (R2 : R ((W ++ skipn (S k) new) ++ [a]) l s1).
    { eapply R_perm; [exact R1|]. rewrite <- app_assoc. apply Permutation_app_head. change (a :: skipn (S k) new) with ([a] ++ skipn (S k) new). apply Permutation_app_comm. }
    pose proof R1 as (V1 & Hn1 & _). apply wp_bind, wp_pop_at; [lia|]. intros old Eo Hin.
    pose proof (Ev_pop_good _ _ _ _ _ _ _ _ _ _ _ _ V1 Hin) as Go. apply wp_bind.
    destruct (compare_agents_ok E P feas attok cov HP _ a old Ga Go) as (c & Ec & Hc). eapply wp_lift; [exact Ec|].
    assert (N : cov -> num (fit a) /\ num (fit old)) by (intros C; split; (eapply good_num; [apply HP; exact C|eassumption])).
    assert (D : forall s2, R (W ++ skipn (S k) new) l s2 -> wp (after k old a c) (fun _ s' => R (W ++ skipn (S k) new) l s') s2).
    { intros s2 R3. eapply wp_mono; [eapply (Ha k old a c); [lia|eapply good_seen; eauto|eapply good_seen; eauto|exact R3]|].
      intros [] s3 [_ Hn3]. eapply R_near; eauto. }
    apply wp_bind. apply wp_when; intros ->.
    + apply wp_pop_set; [lia|]. apply D. eapply R_pop_set; [exact HP|exact R2|lia|exact Ga| |].
      * intros C b Eb. rewrite Eo in Eb. injection Eb as <-. apply Hc; apply N; exact C.
      * intros C. apply no_worse_refl; [apply HP|apply N; exact C].
    + apply D. eapply R_forget; [exact HP|exact R2|]. intros C. exists old. split; [exact Hin|]. apply Hc; apply N; exact C.
  - intros [] s1 R1. rewrite Nat.add_0_l, skipn_all, app_nil_r in R1. apply HQ; exact R1.
Qed.
Lemma b_accept_batch m (cand : nat -> M A X (agent A)) after : m <= n ->
  (forall i, i < m -> qt (cand i) fresh_agent) ->
  (forall i old a c, i < m -> seen old -> seen a -> qt (after i old a c) (fun _ => True)) ->
  blk m m (accept_batch P md m cand after) (fun _ => True).
Proof.
  intros Hm Hc Ha W l s HR. unfold accept_batch. apply wp_bind. eapply wp_made_agents; [exact HR|exact Hc|].
  intros new s' Hlen Gn HR' _. eapply wp_accept_each; [exact HR'|lia|rewrite Hlen; exact Ha|]. intros s'' R''.
  split; [exact I|]. exists m. split; [lia|exact R''].
Qed.
Lemma b_for_acc {B} a b m (x : B) body (Φ : B -> Prop) : Φ x ->
  (forall k y, k < m -> Φ y -> blk a b (body k y) Φ) -> blk (m * a) (m * b) (for_acc m 0 x body) Φ.
Proof.
  intros Hx Hb W l s HR.
  apply wp_for_acc with (I := fun k y s' => Φ y /\ exists j, k * a <= j <= k * b /\ R W (l + j) s').
  - split; [exact Hx|]. exists 0. split; [lia|]. rewrite Nat.add_0_r. exact HR.
  - intros k y s' Hk (Hy & j & Hj & R'). eapply wp_mono; [apply (Hb k y); [lia|exact Hy|exact R']|].
    intros z s'' (Hz & j' & Hj' & R''). split; [exact Hz|]. exists (j + j'). split; [nia|]. rewrite Nat.add_assoc. exact R''.
  - intros y s' (Hy & j & Hj & R'). split; [exact Hy|]. exists j. split; [simpl in Hj; lia|exact R'].
Qed.
(** A position evaluated, and the agent made from it kept if better. *)
Lemma b_eval_keep {Y} nf i y (mk : target -> A) (rest : target -> M A X Y) (Φ : Y -> Prop) : i < n -> feas y ->
  (forall L t, attok L (mk t)) -> blk 0 0 (rest (prob_target P y)) Φ ->
  blk 1 1 (t <- get_target P y ;; keep_better P nf i (mkAgent y (Some t) (mk t)) ;;; rest t) Φ.
Proof.
  intros Hi Hy Hm Hr W l s HR. apply wp_bind, wp_get_target. pose proof HR as (V & Hn & Hl).
  set (a' := mkAgent y (Some (prob_target P y)) (mk (prob_target P y))). set (s1 := evald s [y]).
  assert (Hyl : In y (s_log s1)) by (apply in_or_app; right; left; reflexivity).
  assert (Ga : good (s_log s1) a') by (constructor; simpl; auto).
  assert (R1 : R (W ++ [a']) (l + 1) s1).
  { split; [|split; [exact Hn|simpl; rewrite app_length; simpl; lia]].
    change s1 with (evald s (map sol [a'])). apply Ev_eval; [apply HP|apply HP|apply HP|exact V|].
    constructor; [|constructor]. split; [reflexivity|]. split; [exact Hy|]. apply Ga. }
  apply wp_bind. eapply wp_keep_better; [exact HP|exact R1|exact Ga|exact Hi|]. intros s2 R2.
  eapply wp_mono; [apply (Hr _ _ _ R2)|]. intros z s3 (Hz & j & Hj & R3). split; [exact Hz|]. exists 1. split; [lia|].
  replace j with 0 in R3 by lia. rewrite Nat.add_0_r in R3. exact R3.
Qed.
End Blocks3.

(** The same blocks in the logic without elitism. *)
Section Free3.
Context {A X : Type}.
Variable E : env.
Variable P : problem.
Variable md : mode.
Variable feas : vec -> Prop.
Variable attok : list vec -> A -> Prop.
Variable IL : nat -> Prop.
Variable IX : list vec -> X -> Prop.
Variable cov : Prop.
Variables nd n0 n : nat.
Variable s0 : st A X.
Hypothesis HP : params E P feas attok cov.
Hypothesis Hno : ~ cov.
Notation ok := (ok P feas attok).
Notation pend := (pend feas attok).
Notation gq := (gq P feas attok IL IX cov nd n0 n s0).
Notation gt := (gt P feas attok IL IX cov nd n0 n s0).
Lemma g_build_made w m (cand : nat -> M A X (nat * agent A)) (use : nat -> agent A -> M A X unit) fin :
  (forall w' i, incl w w' -> i < m -> gq w' (cand i) (fun p => fst p < n /\ pend w' (snd p))) ->
  (forall w' i a, i < n -> ok w' a -> gq w' (use i a) (fun _ => True)) ->
  (forall w' l, List.length l = m -> Forall (ok w') l -> is_avail md = true -> gq w' (fin l) (fun _ => True)) ->
  gt w m m (pop_new <- for_acc m 0 [] (fun idx pop_new =>
      p <- cand idx ;;
      if is_avail md then ret (pop_new ++ [snd p])
      else a' <- evaluate P (snd p) ;; use (fst p) a' ;;; ret (pop_new ++ [a'])) ;;
    when (is_avail md) (l <- update_target_for_population P md pop_new ;; fin l)) (fun _ _ => True).
Proof.
  intros Hc Hu Hf. destruct (is_avail md) eqn:Hav.
  - eapply g_mono with (a := m * 0 + m) (b := m * 0 + m); [|lia|lia|intros w2 y _ T; exact T].
    eapply g_bind with (Φ := fun w' l => List.length l = m /\ Forall (pend w') l).
    + eapply g_for_acc with (J := fun k w' l => List.length l = k /\ Forall (pend w') l); [split; [reflexivity|constructor]|].
      intros k w' l Hi Hk [Hl Hg]. apply g_quiet. eapply gq_bind; [apply Hc; [exact Hi|lia]|]. intros [j a] [Hj Ha]. cbn [fst snd] in *. apply gq_ret.
      split; [rewrite app_length; simpl; lia|]. apply Forall_app; split; [exact Hg|constructor; auto].
    + intros l w' Hi [Hl Hg]. simpl. eapply g_mono with (a := m + 0) (b := m + 0); [|lia|lia|intros w2 y _ T; exact T].
      eapply g_bind; [rewrite <- Hl; eapply g_update_target; eassumption|]. intros l' w2 Hi2 [Hf2 Hl2]. apply g_quiet.
      apply Hf; [lia|exact Hf2|reflexivity].
  - eapply g_mono with (a := m * 1 + 0) (b := m * 1 + 0); [|lia|lia|intros w2 y _ T; exact T].
    eapply g_bind with (Φ := fun _ _ => True).
    + eapply g_for_acc with (J := fun _ _ _ => True); [exact I|].
      intros k w' l Hi Hk _. eapply g_qbind; [apply Hc; [exact Hi|lia]|]. intros [j a] [Hj Ha]. cbn [fst snd] in *.
      replace 1 with (1 + 0) by lia; eapply g_bind; [eapply g_eval1; eassumption|]. intros ag' w3 Hi3 Ha'.
      apply g_quiet. eapply gq_bind; [apply Hu; assumption|]. intros _ _. apply gq_ret. exact I.
    + intros l w' Hi _. simpl. apply g_ret. exact I.
Qed.
Lemma g_greedy_agents w m nf (cand : nat -> M A X (nat * agent A)) : (is_avail md = true -> m = n) ->
  (forall w' i, incl w w' -> i < m -> gq w' (cand i) (fun p => fst p < n /\ pend w' (snd p))) ->
  gt w m m (greedy_agents P md m nf cand) (fun _ _ => True).
Proof.
  intros Hm Hc. apply (g_build_made w m cand (keep_better P nf)); [exact Hc|intros; eapply gq_keep_better; eassumption|].
  intros w' l Hl Hg Hav. eapply gq_bind; [eapply gq_get_pop|]. intros p [Lp Gp].
  eapply gq_bind; [eapply gq_greedy; [exact HP|exact Hno|exact Gp|exact Hg|rewrite Lp, Hl; symmetry; auto]|]. intros q [Lq Gq].
  eapply gq_set_pop; try eassumption. lia.
Qed.
Lemma g_made_agents w m (cand : nat -> M A X (agent A)) :
  (forall w' i, incl w w' -> i < m -> gq w' (cand i) (pend w')) ->
  gt w m m (made_agents P md m cand) (fun w' l => List.length l = m /\ Forall (ok w') l).
Proof.
  intros Hc. unfold made_agents. destruct (is_avail md) eqn:Hav.
  - eapply g_mono with (a := m * 0 + m) (b := m * 0 + m); [|lia|lia|intros w2 y _ T; exact T].
    eapply g_bind with (Φ := fun w' l => List.length l = m /\ Forall (pend w') l).
    + eapply g_for_acc with (J := fun k w' l => List.length l = k /\ Forall (pend w') l); [split; [reflexivity|constructor]|].
      intros k w' l Hi Hk [Hl Hg]. apply g_quiet. eapply gq_bind; [apply Hc; [exact Hi|lia]|]. intros a Ha. apply gq_ret.
      split; [rewrite app_length; simpl; lia|]. apply Forall_app; split; [exact Hg|constructor; auto].
    + intros l w' Hi [Hl Hg]. eapply g_mono; [eapply g_update_target; eassumption|lia|lia|]. intros w2 y Hi2 [H1 H2]. split; [lia|exact H1].
  - eapply g_mono with (a := m * 1 + 0) (b := m * 1 + 0); [|lia|lia|intros w2 y _ T; exact T].
    eapply g_bind with (Φ := fun w' l => List.length l = m /\ Forall (ok w') l).
    + eapply g_for_acc with (J := fun k w' l => List.length l = k /\ Forall (ok w') l); [split; [reflexivity|constructor]|].
      intros k w' l Hi Hk [Hl Hg]. eapply g_qbind; [apply Hc; [exact Hi|lia]|]. intros a Ha.
      replace 1 with (1 + 0) by lia; eapply g_bind; [eapply g_eval1; eassumption|]. intros ag' w3 Hi3 Ha'. apply g_ret.
      split; [rewrite app_length; simpl; lia|]. apply Forall_app; split; [eapply oks_mono; eauto|constructor; auto].
    + intros l w' Hi T. apply g_ret. exact T.
Qed.
Lemma g_replace_made w m (cand : nat -> M A X (agent A)) : m = n ->
  (forall w' i, incl w w' -> i < m -> gq w' (cand i) (pend w')) -> gt w m m (replace_made P md m cand) (fun _ _ => True).
Proof.
  intros Hm Hc. unfold replace_made. eapply g_mono with (a := m + 0) (b := m + 0); [|lia|lia|intros w2 y _ T; exact T].
  eapply g_bind; [apply g_made_agents; exact Hc|]. intros l w' _ [Hl Hg]. apply g_quiet. eapply gq_set_pop; try eassumption. lia.
Qed.
Lemma g_greedy_made w m (cand : nat -> M A X (agent A)) : m = n ->
  (forall w' i, incl w w' -> i < m -> gq w' (cand i) (pend w')) -> gt w m m (greedy_made P md m cand) (fun _ _ => True).
Proof.
  intros Hm Hc. unfold greedy_made. eapply g_mono with (a := m + 0) (b := m + 0); [|lia|lia|intros w2 y _ T; exact T].
  eapply g_bind; [apply g_made_agents; exact Hc|]. intros l w' _ [Hl Hg]. apply g_quiet.
  eapply gq_bind; [eapply gq_get_pop|]. intros p [Lp Gp].
  eapply gq_bind; [eapply gq_greedy; [exact HP|exact Hno|exact Gp|exact Hg|lia]|]. intros q [Lq Gq].
  eapply gq_set_pop; try eassumption. lia.
Qed.
Lemma g_replace_made_each w m (cand : nat -> M A X (agent A)) : m = n ->
  (forall w' i, incl w w' -> i < m -> gq w' (cand i) (pend w')) -> gt w m m (replace_made_each P md m cand) (fun _ _ => True).
Proof.
  intros Hm Hc. unfold replace_made_each. destruct (is_avail md) eqn:Hav.
  - eapply g_mono with (a := m * 0 + m) (b := m * 0 + m); [|lia|lia|intros w2 y _ T; exact T].
    eapply g_bind with (Φ := fun w' l => List.length l = m /\ Forall (pend w') l).
    + eapply g_for_acc with (J := fun k w' l => List.length l = k /\ Forall (pend w') l); [split; [reflexivity|constructor]|].
      intros k w' l Hi Hk [Hl Hg]. apply g_quiet. eapply gq_bind; [apply Hc; [exact Hi|lia]|]. intros a Ha. apply gq_ret.
      split; [rewrite app_length; simpl; lia|]. apply Forall_app; split; [exact Hg|constructor; auto].
    + intros l w' Hi [Hl Hg]. simpl. eapply g_mono with (a := m + 0) (b := m + 0); [|lia|lia|intros w2 y _ T; exact T].
      eapply g_bind; [rewrite <- Hl; eapply g_update_target; eassumption|]. intros l' w2 Hi2 [Hf2 Hl2]. apply g_quiet.
      eapply gq_set_pop; try eassumption. lia.
  - eapply g_mono with (a := m * 1 + 0) (b := m * 1 + 0); [|lia|lia|intros w2 y _ T; exact T].
    eapply g_bind with (Φ := fun _ _ => True).
    + eapply g_for_acc with (J := fun _ _ _ => True); [exact I|].
      intros k w' l Hi Hk _. eapply g_qbind; [apply Hc; [exact Hi|lia]|]. intros a Ha.
      replace 1 with (1 + 0) by lia; eapply g_bind; [eapply g_eval1; eassumption|]. intros ag' w3 Hi3 Ha'.
      apply g_quiet. eapply gq_bind; [eapply gq_pop_set; try eassumption; lia|]. intros _ _. apply gq_ret. exact I.
    + intros l w' Hi _. simpl. apply g_ret. exact I.
Qed.
Lemma gq_set_att w i b : i < n -> (forall L, attok L b) -> gq w (set_att i b) (fun _ => True).
Proof.
  intros Hi Hb. unfold set_att. eapply gq_bind; [eapply gq_pop_at; eassumption|]. intros old Go. eapply gq_pop_set; try eassumption.
  apply good_att; [exact Go|apply Hb].
Qed.
Lemma g_keep_agent w nf i a : i < n -> pend w a -> gt w 1 1 (keep_agent P nf i a) (fun _ _ => True).
Proof.
  intros Hi Ha. unfold keep_agent. replace 1 with (1 + 0) by lia. eapply g_bind; [eapply g_eval1; eassumption|].
  intros a' w' _ Ga. apply g_quiet. eapply gq_keep_better; eassumption.
Qed.
Lemma g_merge w i y (b : target -> agent A -> bool -> M A X A) : i < n -> feas y ->
  (forall w' old c, incl w w' -> ok w' old -> In y w' -> gq w' (b (prob_target P y) old c) (attok w')) ->
  gt w 1 1 (merge P i y b) (fun _ _ => True).
Proof.
  intros Hi Hy Hb. unfold merge. replace 1 with (1 + 0) by lia.
  eapply g_bind; [eapply g_get_target; eassumption|].
  intros t w' Hw [Hyw ->]. apply g_quiet. eapply gq_bind; [eapply gq_pop_at; eassumption|]. intros old Go.
    destruct (compare_agents_ok E P feas attok cov HP w' (mkAgent y (Some (prob_target P y)) (att old)) old) as (c & Ec & _); [constructor; simpl; auto; apply Go|exact Go|].
    unfold compare_agents in Ec. simpl in Ec.
    eapply gq_bind with (Φ := fun z => z = c).
    { intros s Hs HG. eapply wp_lift; [exact Ec|]. auto. }
    intros ? ->. eapply gq_bind; [apply Hb; eassumption|]. intros x Hx. eapply gq_pop_set; try eassumption.
    destruct c; [constructor; simpl; auto|apply good_att; assumption].
Qed.
Lemma g_accept_agent w i a : i < n -> pend w a -> gt w 1 1 (accept_agent P i a) (fun _ _ => True).
Proof.
  intros Hi Ha. unfold accept_agent. replace 1 with (1 + 0) by lia. eapply g_bind; [eapply g_eval1; eassumption|].
  intros a' w' _ Ga. apply g_quiet. eapply gq_accept; eassumption.
Qed.
(** generate_agent of a class with its own, once and several times (generate_population). *)
Lemma g_ga w ga o : ga_ok P feas attok ga -> match o with Some x => feas x | None => True end -> gt w 1 1 (ga o) (fun w' a => ok w' a /\ match o with Some x => sol a = x | None => True end).
Proof.
  intros Hga Ho s Hw HG. eapply wp_mono; [apply (Hga s o Ho)|]. intros a s' ((k & ->) & H1 & H2 & H3).
  assert (Hf : feas (sol a)) by (destruct o; congruence).
  destruct (G_eval E P feas attok IL IX cov nd n0 n s0 HP Hno s [a] HG) as [[V1 N1] O1].
  { constructor; [|constructor]. split; [exact Hf|]. intros L _ HL. apply H3, HL. }
  simpl. rewrite <- Hw. split; [apply incl_appl, incl_refl|]. split.
  { split; [|destruct o; auto]. constructor; auto; [|apply H3]; apply in_or_app; right; left; reflexivity. }
  rewrite app_length. simpl. split; [lia|]. split; [|exact N1]. destruct V1. constructor; auto.
Qed.
Lemma g_population w ga m : ga_ok P feas attok ga -> gt w m m (repeat_M m (ga None)) (fun w' l => List.length l = m /\ Forall (ok w') l).
Proof.
  intros Hga. unfold repeat_M. eapply g_mono with (a := m * 1) (b := m * 1); [|lia|lia|intros w2 y _ T; exact T].
  eapply g_for_acc with (J := fun k w' l => List.length l = k /\ Forall (ok w') l); [split; [reflexivity|constructor]|].
  intros k w' l Hi Hk [Hl Hg]. replace 1 with (1 + 0) by lia. eapply g_bind; [apply g_ga; [exact Hga|exact I]|].
  intros a w2 Hi2 [Ha _]. apply g_ret. split; [rewrite app_length; simpl; lia|]. apply Forall_app; split; [eapply oks_mono; eauto|constructor; auto].
Qed.
End Free3.

(** ** Automation *)
Ltac qmore HP m ::= lazymatch m with
  | propose _ _ _ => eapply q_propose; bprem HP
  end.
Ltac hasmore m ::= match m with
  | context [sort_pop] => idtac | context [sort_retire] => idtac | context [try_pair] => idtac | context [with_elites] => idtac
  | context [greedy_agents] => idtac | context [made_agents] => idtac | context [replace_made] => idtac | context [greedy_made] => idtac
  | context [trim_made] => idtac | context [replace_made_each] => idtac | context [keep_agent] => idtac | context [accept_agent] => idtac
  | context [set_att] => idtac | context [merge] => idtac | context [accept_batch] => idtac
  end.
Ltac bmore HP m ::= lazymatch m with
  | sort_pop _ _ => eapply b_sort; bprem HP
  | sort_retire _ _ _ _ _ _ _ _ => eapply b_sort_retire; try (exact HP); [bprem HP|bprem HP|lia|lia|quiet HP|intros; cbv beta in *; qfacts; quiet HP]
  | try_pair _ _ _ _ _ _ _ => eapply b_try_pair; bprem HP
  | with_elites _ _ _ _ _ => eapply b_with_elites; [exact HP|lia|lia|block HP]
  | greedy_agents _ _ _ _ _ => eapply b_greedy_agents; bprem HP
  | greedy_made _ _ _ _ => eapply b_greedy_made; bprem HP
  | trim_made _ _ _ _ _ _ => eapply b_trim_made; bprem HP
  | keep_agent _ _ _ _ => eapply b_keep_agent; [exact HP|solve [qside]|solve [qside]]
  | accept_agent _ _ _ => eapply b_accept_agent; [exact HP|solve [qside]|solve [qside]]
  | set_att _ _ => eapply b_set_att; [exact HP|solve [qside]|intros; first [exact I|solve [auto]]]
  | merge _ _ _ _ => eapply b_merge; [exact HP|solve [qside]|solve [qside]|intros; cbv beta in *]
  | accept_batch _ _ _ _ _ => eapply b_accept_batch; [exact HP|lia|bprem HP|intros; cbv beta in *; qfacts; quiet HP]
  end.
(** Blocks that replace the population. *)
Ltac bmore0 HP m ::= lazymatch m with
  | replace_made _ _ _ _ => eapply b_replace_made; bprem HP
  | replace_made_each _ _ _ _ => eapply b_replace_made_each; bprem HP
  end.
Ltac hasevmore m ::= match m with
  | context [greedy_each] => idtac | context [greedy_agents] => idtac | context [made_agents] => idtac | context [replace_made] => idtac
  | context [greedy_made] => idtac | context [trim_made] => idtac | context [replace_made_each] => idtac | context [keep_agent] => idtac
  | context [accept_agent] => idtac | context [merge] => idtac | context [accept_batch] => idtac
  end.
Ltac fmore HP m ::= lazymatch m with
  | greedy_agents _ _ _ _ _ => eapply g_greedy_agents; gprem HP
  | made_agents _ _ _ _ => eapply g_made_agents; gprem HP
  | replace_made _ _ _ _ => eapply g_replace_made; gprem HP
  | greedy_made _ _ _ _ => eapply g_greedy_made; gprem HP
  | replace_made_each _ _ _ _ => eapply g_replace_made_each; gprem HP
  | keep_agent _ _ _ _ => eapply g_keep_agent; gprem HP
  | merge _ _ _ _ => eapply g_merge; [exact HP|noc|solve [gside HP]|solve [gside HP]|intros; cbv beta in *]
  | accept_agent _ _ _ => eapply g_accept_agent; gprem HP
  end.
