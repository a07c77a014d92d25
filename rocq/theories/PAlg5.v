(** Rules for the fragments of MAlg4. *)
From Verif Require Import Prelude Fl MCore MHelp MAlg MAlg2 MAlg3 MAlg4 SpecCore SpecRun PSelect PLogic PSolve PRun PPart SpecAlg PAlg PFree PClass PAlg2 PAlg3 PAlg4.

Section Elite5.
Context {A X : Type}.
Variable E : env.
Variable P : problem.
Variable md : mode.
Variable feas : vec -> Prop.
Variable attok : list vec -> A -> Prop.
Variable IL : nat -> Prop.
Variable IX : list vec -> X -> Prop.
Variable cov : Prop.
Variables nd n0 n : nat.
Variable s0 : st A X.
Hypothesis HP : params E P feas attok cov.
Notation good := (good P feas attok).
Notation fresh_agent := (fresh_agent feas attok).
Notation R := (R P feas attok IL IX cov nd n0 n s0).
Notation qt := (qt P feas attok IL IX cov nd n0 n s0).
Notation blk := (blk P feas attok IL IX cov nd n0 n s0).
Notation blk0 := (blk0 P feas attok IL IX cov nd n0 n s0).
Variable correct : vec -> M A X vec.
Variable gea : option vec -> M A X (agent A).
Hypothesis Hcorrect : forall x, qt (correct x) feas.
Hypothesis Hgea : forall x, feas x -> qt (gea (Some x)) fresh_agent.

Lemma wp_trim_with W l s new m (Q : unit -> st A X -> Prop) : R (W ++ new) l s -> 0 < n -> m = n ->
  (forall s', R W l s' -> Q tt s') -> wp (trim_with E P m new) Q s.
Proof. intros HR Hn Hm HQ. unfold trim_with. eapply wp_trim; [exact HP|exact HR|lia|exact Hm|exact HQ]. Qed.
Lemma b_with_best k m a b body : 0 < n -> m = n -> blk a b body (fun _ => True) -> blk a b (with_best E P k m body) (fun _ => True).
Proof.
  intros Hn Hm Hb W l s HR. pose proof HR as (V & Hl & _). unfold with_best. apply wp_bind, wp_get_pop. apply wp_bind.
  eapply wp_special; [exact HP|apply (v_good _ _ _ _ _ _ _ _ _ _ _ V)|]. intros sp best w Lb Gb _. cbv beta iota zeta.
  apply wp_bind. eapply wp_mono; [apply Hb; eapply R_hold; [exact HR|exact Gb]|]. intros y s1 (_ & j & Hj & R1).
  eapply wp_trim_with; [exact R1|exact Hn|exact Hm|]. intros s2 R2. split; [exact I|]. exists j. auto.
Qed.
Lemma b0_with_best k m a b body : 0 < n -> m = n -> blk0 a b body (fun _ => True) -> blk0 a b (with_best E P k m body) (fun _ => True).
Proof.
  intros Hn Hm Hb W l s HR HO. pose proof HR as (V & Hl & _). unfold with_best. apply wp_bind, wp_get_pop. apply wp_bind.
  eapply wp_special; [exact HP|apply (v_good _ _ _ _ _ _ _ _ _ _ _ V)|]. intros sp best w Lb Gb _. cbv beta iota zeta.
  apply wp_bind. eapply wp_mono; [apply Hb; [eapply R_hold; [exact HR|exact Gb]|exact HO]|]. intros y s1 (_ & j & Hj & R1).
  eapply wp_trim_with; [exact R1|exact Hn|exact Hm|]. intros s2 R2. split; [exact I|]. exists j. auto.
Qed.
Lemma wp_evaluate_all W l s (ts : list (agent A)) (Q : list (agent A) -> st A X -> Prop) : R W l s -> Forall fresh_agent ts ->
  (forall new s', List.length new = List.length ts -> R (W ++ new) (l + List.length ts) s' -> s_pop s' = s_pop s -> Q new s') ->
  wp (evaluate_all P md ts) Q s.
Proof.
  intros HR Hf HQ. unfold evaluate_all. destruct (is_avail md) eqn:Hav.
  - eapply wp_update_target_avail; [exact Hav|]. intros new ->.
    destruct (R_batch E P feas attok IL IX cov nd n0 n s0 HP _ _ _ ts HR Hf) as [RB GB]. apply HQ; [rewrite map_length; reflexivity|exact RB|reflexivity].
  - eapply wp_evals; [exact HR| |exact HQ]. intros t Ht W1 l1 s1 K R1 HK. rewrite Forall_forall in Hf.
    eapply wp_evaluate; [exact HP|exact R1|apply Hf; exact Ht|]. intros a' s' Ga R' Ep _ _ _. apply HK; auto.
Qed.
Lemma q_collect_many {Y} m lo hi (cand : nat -> M A X (list Y)) (Φ : Y -> Prop) :
  (forall i, i < m -> qt (cand i) (fun c => lo <= List.length c <= hi /\ Forall Φ c)) ->
  qt (collect_many m cand) (fun l => m * lo <= List.length l <= m * hi /\ Forall Φ l).
Proof.
  intros Hc. unfold collect_many. eapply q_mono.
  - eapply q_for_acc with (I := fun k (l : list Y) => k * lo <= List.length l <= k * hi /\ Forall Φ l); [simpl; split; [lia|constructor]|].
    intros k acc Hk [Hl Hf]. eapply q_bind; [apply Hc; lia|]. intros c [Lc Fc]. apply q_ret. rewrite app_length.
    split; [nia|apply Forall_app; auto].
  - intros l H. exact H.
Qed.
Lemma b_trim_many k m lo hi (cand : nat -> M A X (list (agent A))) : m = n -> 0 < n ->
  (forall i, i < k -> qt (cand i) (fun c => lo <= List.length c <= hi /\ Forall fresh_agent c)) ->
  blk (k * lo) (k * hi) (trim_many E P md k m cand) (fun _ => True).
Proof.
  intros Hm Hn Hc W l s HR. unfold trim_many. apply wp_bind. eapply wp_mono; [eapply q_collect_many; [exact Hc|exact HR]|].
  intros ts s1 [[Lt Ft] N1]. apply wp_bind. eapply wp_evaluate_all; [eapply R_near; [exact HR|exact N1]|exact Ft|].
  intros new s2 Ln R2 _. eapply wp_trim_with; [exact R2|exact Hn|exact Hm|]. intros s3 R3. split; [exact I|]. eexists. split; [|exact R3]. lia.
Qed.
(** Overwriting an agent of the previous epoch loses nothing: the best agent of the history covers it. *)
Lemma b0_gen_set idx x : idx < n -> blk0 1 1 (gen_set P correct gea idx x) (fun _ => True).
Proof.
  intros Hi W l s HR HO. unfold gen_set. apply wp_bind. eapply wp_gen_agent; [exact HP|exact Hcorrect|exact Hgea|exact HR|].
  intros a s1 Ga R1 Ep. pose proof R1 as (V & Hn & Hl). assert (Hlt : idx < List.length (s_pop s1)) by lia.
  apply wp_pop_set; [exact Hlt|]. split; [exact I|]. exists 1. split; [lia|].
  change (R W (l + 1) (with_pop s1 (upd (s_pop s1) idx a))).
  split; [|split; [simpl; rewrite upd_length; exact Hn|exact Hl]].
  eapply Ev_pop_set with (W := W ++ [a]); [apply HP|apply HP|exact V|exact Hlt|exact Ga|apply incl_appl, incl_refl|].
  intros C g b Hg [Hb|Hb].
  - left. assert (Hbi : In b (s_pop s1)) by (eapply nth_error_In; exact Hb). eapply Ev_old; eauto.
    + eapply Ev_pop_good; [exact V|exact Hbi].
    + rewrite Ep in Hbi. unfold Old in HO. rewrite Forall_forall in HO. apply HO; exact Hbi.
  - apply in_app_or in Hb. destruct Hb as [Hb|[<-|[]]]; [right; right; exact Hb|right; left]. apply no_worse_refl; [apply HP|].
    eapply good_num; [apply HP; exact C|exact Ga].
Qed.
Lemma wp_greedy_front W l s new m (Q : unit -> st A X -> Prop) : R (W ++ new) l s -> List.length new = m -> m <= n ->
  (forall s', R W l s' -> Q tt s') ->
  wp (p <- get_pop ;; q <- lift (greedy_selection_population (firstn m p) new (p_mm P)) ;; set_pop (q ++ skipn m p)) Q s.
Proof.
  intros HR Hl Hm HQ. pose proof HR as (V & Hn & Hlog). apply wp_bind, wp_get_pop. apply wp_bind.
  pose proof (v_good _ _ _ _ _ _ _ _ _ _ _ V) as Gp. pose proof (v_W _ _ _ _ _ _ _ _ _ _ _ V) as GW.
  apply Forall_app in GW. destruct GW as [GW Gn]. assert (Gp' := Gp). rewrite <- (firstn_skipn m (s_pop s)) in Gp'. apply Forall_app in Gp'. destruct Gp' as [G1 G2].
  destruct (greedy_covers E P feas attok cov HP (s_log s) (firstn m (s_pop s)) new G1 Gn) as (r & Er & Lr & Gr & Cr); [rewrite firstn_length; lia|].
  eapply wp_lift; [exact Er|]. unfold wp, set_pop. apply HQ.
  eapply R_set_pop; [exact HP|exact HR|rewrite app_length, Lr, <- app_length, firstn_skipn; exact Hn|apply Forall_app; auto|].
  intros C a Ha. apply in_app_or in Ha.
  assert (D : In a (firstn m (s_pop s) ++ new) \/ In a (skipn m (s_pop s))).
  { destruct Ha as [Ha|Ha]; [rewrite <- (firstn_skipn m (s_pop s)) in Ha; apply in_app_or in Ha|]; rewrite in_app_iff; tauto. }
  destruct D as [D|D].
  - destruct (Cr C a D) as (b & Hb & Hw). exists b. split; [apply in_or_app; auto|exact Hw].
  - exists a. split; [apply in_or_app; auto|]. apply no_worse_refl; [apply HP|]. rewrite Forall_forall in G2. eapply good_num; [apply HP; exact C|apply G2; exact D].
Qed.
Lemma b_greedy_front m nf (cand : nat -> M A X vec) : m <= n -> (forall i, i < m -> qt (cand i) (fun _ => True)) ->
  blk m m (greedy_front P md correct gea m nf cand) (fun _ => True).
Proof.
  intros Hm Hc W l s HR. unfold greedy_front. apply wp_bind.
  apply wp_for_acc with (I := fun k acc s' => List.length acc = k /\
     if is_avail md then R W l s' /\ Forall fresh_agent acc else R W (l + k) s').
  - split; [reflexivity|]. destruct (is_avail md); [split; [exact HR|constructor]|rewrite Nat.add_0_r; exact HR].
  - intros k acc s' Hk [Hlen HI]. assert (HR' : R W (if is_avail md then l else l + k) s') by (destruct (is_avail md); tauto).
    apply wp_bind. eapply wp_mono; [eapply (Hc k); [lia|exact HR']|]. intros x s1 [_ Hn1].
    assert (R1 : R W (if is_avail md then l else l + k) s1) by (eapply R_near; eauto).
    apply wp_bind. eapply wp_mono; [eapply q_propose; [exact Hcorrect|exact Hgea|exact R1]|]. intros a s2 [Ha Hn2].
    assert (R2 : R W (if is_avail md then l else l + k) s2) by (eapply R_near; eauto).
    destruct (is_avail md).
    + apply wp_ret. split; [rewrite app_length; simpl; lia|]. split; [exact R2|]. apply Forall_app; split; [apply HI|constructor; auto].
    + apply wp_bind. eapply wp_evaluate; [exact HP|exact R2|exact Ha|]. intros a' s3 Ga R3 Ep3 _ _ _. apply wp_bind.
      eapply wp_keep_better; [exact HP|exact R3|exact Ga|lia|]. intros s4 R4. apply wp_ret. split; [rewrite app_length; simpl; lia|].
      replace (l + S k) with (l + k + 1) by lia. exact R4.
  - intros acc s' [Hlen HI]. destruct (is_avail md) eqn:Hav; cbn [when].
    + destruct HI as [HR' Hf]. apply wp_bind. eapply wp_update_target_avail; [exact Hav|]. intros new ->.
      destruct (R_batch E P feas attok IL IX cov nd n0 n s0 HP _ _ _ acc HR' Hf) as [RB GB]. simpl in Hlen.
      eapply wp_greedy_front; [exact RB|rewrite map_length; exact Hlen|exact Hm|].
      intros s'' R''. split; [exact I|]. exists m. split; [lia|]. rewrite Hlen in R''. exact R''.
    + apply wp_ret. split; [exact I|]. exists m. split; [lia|exact HI].
Qed.
End Elite5.

Section Free5.
Context {A X : Type}.
Variable E : env.
Variable P : problem.
Variable md : mode.
Variable feas : vec -> Prop.
Variable attok : list vec -> A -> Prop.
Variable IL : nat -> Prop.
Variable IX : list vec -> X -> Prop.
Variable cov : Prop.
Variables nd n0 n : nat.
Variable s0 : st A X.
Hypothesis HP : params E P feas attok cov.
Hypothesis Hno : ~ cov.
Notation ok := (ok P feas attok).
Notation pend := (pend feas attok).
Notation gq := (gq P feas attok IL IX cov nd n0 n s0).
Notation gt := (gt P feas attok IL IX cov nd n0 n s0).
Lemma gq_trim_with w l m : Forall (ok w) l -> 0 < n -> m = n -> gq w (trim_with E P m l) (fun _ => True).
Proof.
  intros Hl Hn Hm. unfold trim_with. eapply gq_bind; [eapply gq_get_pop|]. intros p [Lp Gp].
  eapply gq_bind; [eapply gq_trimmed; [exact HP|exact Hno|apply Forall_app; split; [exact Gp|exact Hl]]|]. intros q [Lq Gq].
  eapply gq_set_pop; try eassumption. rewrite Lq, app_length. lia.
Qed.
Lemma g_evals w l acc : Forall (pend w) l -> Forall (ok w) acc ->
  gt w (List.length l) (List.length l) (for_list l acc (fun a r => b <- evaluate P a ;; ret (r ++ [b])))
    (fun w' r => List.length r = List.length acc + List.length l /\ Forall (ok w') r).
Proof.
  revert w acc. induction l as [|a l IH]; intros w acc Hl Ha.
  - apply g_ret. simpl. split; [lia|exact Ha].
  - inversion Hl; subst. cbn [for_list].
    change (List.length (a :: l)) with (1 + List.length l).
    eapply g_bind with (Φ := fun w' r => List.length r = List.length acc + 1 /\ Forall (ok w') r).
    + replace 1 with (1 + 0) at 1 2 by lia. eapply g_bind; [eapply g_eval1; eassumption|]. intros b w2 Hi Hb. apply g_ret.
      rewrite app_length. split; [reflexivity|]. apply Forall_app; split; [eapply oks_mono; eauto|constructor; auto].
    + intros r w2 Hi [Lr Hr]. eapply g_mono; [apply IH; [eapply pends_mono; eauto|exact Hr]|lia|lia|].
      intros w3 y _ [H4 H5]. split; [lia|exact H5].
Qed.
Lemma g_evaluate_all w l m : List.length l = m -> Forall (pend w) l ->
  gt w m m (evaluate_all P md l) (fun w' r => List.length r = m /\ Forall (ok w') r).
Proof.
  intros Hl Hf. unfold evaluate_all. destruct (is_avail md) eqn:Hav.
  - eapply g_mono; [eapply g_update_target; eassumption|lia|lia|]. intros w2 y Hi2 [H1 H2]. split; [lia|exact H1].
  - subst m. eapply g_mono; [apply g_evals; [exact Hf|constructor]|lia|lia|]. intros w2 y _ [H1 H2]. simpl in H1. split; [exact H1|exact H2].
Qed.
Lemma gq_collect_many {Y} w m lo hi (cand : nat -> M A X (list Y)) (Φ : Y -> Prop) :
  (forall i, i < m -> gq w (cand i) (fun c => lo <= List.length c <= hi /\ Forall Φ c)) ->
  gq w (collect_many m cand) (fun l => m * lo <= List.length l <= m * hi /\ Forall Φ l).
Proof.
  intros Hc. unfold collect_many. eapply gq_mono.
  - eapply gq_for_acc with (I := fun k (l : list Y) => k * lo <= List.length l <= k * hi /\ Forall Φ l); [simpl; split; [lia|constructor]|].
    intros k acc Hk [Hl Hf]. eapply gq_bind; [apply Hc; lia|]. intros c [Lc Fc]. apply gq_ret. rewrite app_length.
    split; [nia|apply Forall_app; auto].
  - intros l H. exact H.
Qed.
Lemma ok_pend w a : ok w a -> pend w a.
Proof. intros H. split; [apply H|]. intros L HL. eapply ok_mono in H; [|exact HP|exact HL]. intros _. exact (g_att _ _ _ _ _ H). Qed.
Lemma g_collect_pend w a b m (c : nat -> M A X (agent A)) : (forall i w', incl w w' -> i < m -> gt w' a b (c i) pend) ->
  gt w (m * a) (m * b) (collect m c) (fun w' r => List.length r = m /\ Forall (pend w') r).
Proof.
  intros H. unfold collect.
  apply g_for_acc with (J := fun k w' acc => List.length acc = k /\ Forall (pend w') acc); [split; [reflexivity|constructor]|].
  intros k w' acc Hi Hk [Hl Hf]. eapply g_mono with (a := a + 0) (b := b + 0); [|lia|lia|intros w3 y _ T; exact T].
  eapply g_bind with (Φ := pend); [apply H; [exact Hi|lia]|].
  intros y w2 Hi2 Hy. apply g_ret. split; [rewrite app_length; simpl; lia|]. apply Forall_app; split; [eapply pends_mono; eauto|constructor; auto].
Qed.
End Free5.


(** ** Automation *)
Ltac hasmore m ::= match m with
  | context [sort_pop] => idtac | context [sort_retire] => idtac | context [try_pair] => idtac | context [with_elites] => idtac
  | context [greedy_agents] => idtac | context [made_agents] => idtac | context [replace_made] => idtac | context [greedy_made] => idtac
  | context [trim_made] => idtac | context [replace_made_each] => idtac | context [keep_agent] => idtac | context [accept_agent] => idtac
  | context [set_att] => idtac | context [merge] => idtac | context [accept_batch] => idtac
  | context [with_best] => idtac | context [trim_many] => idtac | context [gen_set] => idtac | context [greedy_front] => idtac
  end.
Ltac bmore HP m ::= lazymatch m with
  | sort_pop _ _ => eapply b_sort; bprem HP
  | sort_retire _ _ _ _ _ _ _ _ => eapply b_sort_retire; try (exact HP); [bprem HP|bprem HP|lia|lia|quiet HP|intros; cbv beta in *; qfacts; quiet HP]
  | try_pair _ _ _ _ _ _ _ => eapply b_try_pair; bprem HP
  | with_elites _ _ _ _ _ => eapply b_with_elites; [exact HP|lia|lia|block HP]
  | greedy_agents _ _ _ _ _ => eapply b_greedy_agents; bprem HP
  | greedy_made _ _ _ _ => eapply b_greedy_made; bprem HP
  | trim_made _ _ _ _ _ _ => eapply b_trim_made; bprem HP
  | keep_agent _ _ _ _ => eapply b_keep_agent; [exact HP|solve [qside]|solve [qside]]
  | accept_agent _ _ _ => eapply b_accept_agent; [exact HP|solve [qside]|solve [qside]]
  | set_att _ _ => eapply b_set_att; [exact HP|solve [qside]|intros; first [exact I|solve [auto]]]
  | merge _ _ _ _ => eapply b_merge; [exact HP|solve [qside]|solve [qside]|intros; cbv beta in *]
  | accept_batch _ _ _ _ _ => eapply b_accept_batch; [exact HP|lia|bprem HP|intros; cbv beta in *; qfacts; quiet HP]
  | with_best _ _ _ _ _ => eapply b_with_best; [exact HP|lia|lia|block HP]
  | trim_many _ _ _ _ _ _ => eapply b_trim_many; [exact HP|lia|lia|let i := fresh "i" in let Hi := fresh "Hi" in intros i Hi]
  | greedy_front _ _ _ _ _ _ _ => eapply b_greedy_front; bprem HP
  end.
Ltac bmore0 HP m ::= lazymatch m with
  | replace_made _ _ _ _ => eapply b_replace_made; bprem HP
  | replace_made_each _ _ _ _ => eapply b_replace_made_each; bprem HP
  | with_best _ _ _ _ _ => eapply b0_with_best; [exact HP|lia|lia|block0 HP]
  | gen_set _ _ _ _ _ => eapply b0_gen_set; bprem HP
  end.
Ltac hasevmore m ::= match m with
  | context [greedy_each] => idtac | context [greedy_agents] => idtac | context [made_agents] => idtac | context [replace_made] => idtac
  | context [greedy_made] => idtac | context [trim_made] => idtac | context [replace_made_each] => idtac | context [keep_agent] => idtac
  | context [accept_agent] => idtac | context [merge] => idtac | context [accept_batch] => idtac | context [generate_population_with] => idtac
  | context [evaluate_all] => idtac | context [gen_set] => idtac
  end.
Ltac fmore HP m ::= lazymatch m with
  | greedy_agents _ _ _ _ _ => eapply g_greedy_agents; gprem HP
  | made_agents _ _ _ _ => eapply g_made_agents; gprem HP
  | replace_made _ _ _ _ => eapply g_replace_made; gprem HP
  | greedy_made _ _ _ _ => eapply g_greedy_made; gprem HP
  | replace_made_each _ _ _ _ => eapply g_replace_made_each; gprem HP
  | keep_agent _ _ _ _ => eapply g_keep_agent; gprem HP
  | merge _ _ _ _ => eapply g_merge; [exact HP|noc|solve [gside HP]|solve [gside HP]|intros; cbv beta in *]
  | accept_agent _ _ _ => eapply g_accept_agent; gprem HP
  | evaluate_all _ _ _ => eapply g_evaluate_all; gprem HP
  | generate_population_with _ _ (ga_of _ (generate_empty_agent _ _) None) _ =>
      eapply g_population_with; [exact HP|noc|assumption|apply ga_of_ok, plain_gea_ok, HP]
  | ga_of _ (generate_empty_agent _ _) None => eapply g_ga with (o := None); [exact HP|noc|apply ga_of_ok, plain_gea_ok, HP|exact I]
  end.
