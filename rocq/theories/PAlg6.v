(** Rules for the fragments of MAlg5. *)
From Verif Require Import Prelude Fl MCore MHelp MAlg MAlg2 MAlg3 MAlg4 MAlg5 SpecCore SpecRun PSelect PLogic PSolve PRun PPart SpecAlg PAlg PFree PClass PAlg2 PAlg3 PAlg4 PAlg5.

Section Elite6.
Context {A X : Type}.
Variable E : env.
Variable P : problem.
Variable md : mode.
Variable feas : vec -> Prop.
Variable attok : list vec -> A -> Prop.
Variable IL : nat -> Prop.
Variable IX : list vec -> X -> Prop.
Variable cov : Prop.
Variables nd n0 n : nat.
Variable s0 : st A X.
Hypothesis HP : params E P feas attok cov.
Notation good := (good P feas attok).
Notation fresh_agent := (fresh_agent feas attok).
Notation R := (R P feas attok IL IX cov nd n0 n s0).
Notation Old := (Old s0).
Notation qt := (qt P feas attok IL IX cov nd n0 n s0).
Notation blk := (blk P feas attok IL IX cov nd n0 n s0).
Notation blk0 := (blk0 P feas attok IL IX cov nd n0 n s0).
Variable correct : vec -> M A X vec.
Variable gea : option vec -> M A X (agent A).
Hypothesis Hcorrect : forall x, qt (correct x) feas.
Hypothesis Hgea : forall x, feas x -> qt (gea (Some x)) fresh_agent.

(** [q] is at least as good as [p] everywhere. *)
Definition covers (q p : list (agent A)) : Prop := cov -> forall a, In a p -> exists b, In b q /\ no_worse (p_mm P) (fit b) (fit a).
Lemma num_good L a : cov -> good L a -> num (fit a).
Proof. intros C G. eapply good_num; [apply HP; exact C|exact G]. Qed.
Lemma covers_refl L p : Forall (good L) p -> covers p p.
Proof. intros G C a Ha. exists a. split; [exact Ha|]. rewrite Forall_forall in G. apply no_worse_refl; [apply HP|]. eapply num_good; eauto. Qed.
Lemma covers_incl L q p : Forall (good L) p -> incl p q -> covers q p.
Proof. intros G Hi C a Ha. exists a. split; [apply Hi; exact Ha|]. rewrite Forall_forall in G. apply no_worse_refl; [apply HP|]. eapply num_good; eauto. Qed.
Lemma covers_trans r q p : covers r q -> covers q p -> covers r p.
Proof. intros H1 H2 C a Ha. destruct (H2 C a Ha) as (b & Hb & N). destruct (H1 C b Hb) as (c & Hc & N'). exists c. split; [exact Hc|]. eapply no_worse_trans; eauto. Qed.
Lemma R_held_good W l s V : R (W ++ V) l s -> Forall (good (s_log s)) V.
Proof. intros (V0 & _). pose proof (v_W _ _ _ _ _ _ _ _ _ _ _ V0) as G. apply Forall_app in G. tauto. Qed.
Lemma R_pop_all W l s : R W l s -> Forall (good (s_log s)) (s_pop s).
Proof. intros (V0 & _). apply (v_good _ _ _ _ _ _ _ _ _ _ _ V0). Qed.
Lemma R_swap W V V' l s : R (W ++ V) l s -> Forall (good (s_log s)) V' -> covers V' V -> R (W ++ V') l s.
Proof.
  intros HR G HC. eapply R_exchange; [exact HP|exact HR|exact G|]. intros C a Ha. destruct (HC C a Ha) as (b & Hb & N).
  exists b. split; [apply in_or_app; auto|exact N].
Qed.
(** The population of the previous epoch gives way to agents that cover the ones at hand. *)
Lemma R_replace_cov W V l s q : R (W ++ V) l s -> Old s -> List.length q = n -> Forall (good (s_log s)) q -> covers q V -> R W l (with_pop s q).
Proof. intros HR HO Hq Gq HC. eapply R_replace; [exact HP|eapply R_swap; eauto|exact HO|exact Hq]. Qed.
(** The population gives way to agents that cover it and the ones at hand. *)
Lemma R_set_cov W V l s q : R (W ++ V) l s -> List.length q = n -> Forall (good (s_log s)) q -> covers q (s_pop s) -> covers q V -> R W l (with_pop s q).
Proof.
  intros HR Hq Gq H1 H2. eapply R_set_pop; [exact HP|exact HR|exact Hq|exact Gq|]. intros C a Ha. apply in_app_or in Ha.
  destruct Ha as [Ha|Ha]; [apply H1|apply H2]; assumption.
Qed.
Lemma better_of_ok L nf a b : good L a -> good L b ->
  exists r, better_of P nf a b = Ok r /\ good L r /\ (cov -> no_worse (p_mm P) (fit r) (fit a) /\ no_worse (p_mm P) (fit r) (fit b)).
Proof.
  intros Ga Gb. unfold better_of. destruct nf.
  - destruct (good_get_better P feas attok (pr_mm _ _ _ _ _ HP) _ b a false Gb Ga) as (r & Er & _ & Gr & Hr). exists r. split; [exact Er|]. split; [exact Gr|].
    intros C. destruct (Hr (num_good _ _ C Gb) (num_good _ _ C Ga)). auto.
  - destruct (good_get_better P feas attok (pr_mm _ _ _ _ _ HP) _ a b false Ga Gb) as (r & Er & _ & Gr & Hr). exists r. split; [exact Er|]. split; [exact Gr|].
    intros C. destruct (Hr (num_good _ _ C Ga) (num_good _ _ C Gb)). auto.
Qed.
Lemma upd_covers L l i a x b : Forall (good L) l -> nth_error l i = Some a -> (cov -> no_worse (p_mm P) (fit b) (fit a) /\ no_worse (p_mm P) (fit b) (fit x)) ->
  covers (upd l i b) (l ++ [x]).
Proof.
  intros G Ei Hb C c Hc. assert (Hi : i < List.length l) by (apply nth_error_Some; congruence). rewrite Forall_forall in G.
  assert (Hbi : In b (upd l i b)) by (eapply nth_error_In with (n := i); apply upd_nth_eq; exact Hi).
  apply in_app_or in Hc. destruct Hc as [Hc|[<-|[]]].
  - destruct (In_nth_error _ _ Hc) as (j & Ej). destruct (Nat.eq_dec j i) as [->|Hj].
    + rewrite Ei in Ej. injection Ej as <-. exists b. split; [exact Hbi|apply Hb; exact C].
    + exists c. split; [eapply nth_error_In with (n := j); rewrite upd_nth_neq by congruence; exact Ej|].
      apply no_worse_refl; [apply HP|]. eapply num_good; [exact C|apply G; exact Hc].
  - exists b. split; [exact Hbi|apply Hb; exact C].
Qed.

Lemma wp_keep_each nf : forall l W k s new (Q : unit -> st A X -> Prop), R (W ++ new) k s -> map snd l = new -> Forall (fun ia => fst ia < n) l ->
  (forall s', R W k s' -> Q tt s') -> wp (keep_each P nf l) Q s.
Proof.
  unfold keep_each. induction l as [|[i a] l IH]; intros W k s new Q HR Hn Hi HQ; simpl in Hn; subst new.
  - cbn [for_list]. apply wp_ret, HQ. rewrite app_nil_r in HR. exact HR.
  - cbn [for_list]. apply wp_bind. inversion Hi as [|? ? Hi1 Hi2]; subst. cbn [fst snd] in *.
    assert (Ga : good (s_log s) a) by (apply R_held_good in HR; inversion HR; assumption).
    eapply wp_keep_better with (W := W ++ map snd l); [exact HP| |exact Ga|exact Hi1|].
    + eapply R_perm; [exact HR|]. rewrite <- app_assoc. apply Permutation_app_head. change (a :: map snd l) with ([a] ++ map snd l). apply Permutation_app_comm.
    + intros s' R'. eapply IH; [exact R'|reflexivity|exact Hi2|exact HQ].
Qed.
Lemma b_batch_keep k nf lo hi cand :
  (forall i, i < k -> qt (cand i) (fun c => lo <= List.length c <= hi /\ Forall (fun ia => fst ia < n /\ fresh_agent (snd ia)) c)) ->
  blk (k * lo) (k * hi) (batch_keep P md k nf cand) (fun _ => True).
Proof.
  intros Hc W l s HR. unfold batch_keep. apply wp_bind. eapply wp_mono; [eapply q_collect_many; [exact Hc|exact HR]|].
  intros ts s1 [[Lt Ft] N1]. apply wp_bind. rewrite Forall_forall in Ft. eapply wp_evaluate_all; [exact HP|eapply R_near; [exact HR|exact N1]| |].
  { apply Forall_forall. intros a Ha. apply in_map_iff in Ha. destruct Ha as (ia & <- & Hia). apply Ft; exact Hia. }
  intros new s2 Ln R2 _. rewrite map_length in Ln, R2. eapply wp_keep_each; [exact R2| | |].
  - clear - Ln. revert new Ln. induction ts as [|t ts IH]; intros [|a new] H; simpl in *; try discriminate; [reflexivity|]. f_equal. apply IH. lia.
  - apply Forall_forall. intros [i a] Hia. apply in_combine_l in Hia. apply in_map_iff in Hia. destruct Hia as (t & <- & Ht). cbn [fst]. apply Ft; exact Ht.
  - intros s3 R3. split; [exact I|]. exists (List.length ts). split; [lia|exact R3].
Qed.

(** A local list improved greedily stays at hand and covers what it was. *)
Lemma wp_local_greedy W k s m nf ls cand (Q : list (agent A) -> st A X -> Prop) : R (W ++ ls) k s -> m <= List.length ls ->
  (is_avail md = true -> m = List.length ls) ->
  (forall cur i, i < m -> List.length cur = List.length ls -> Forall (fun a => wf_agent a /\ feas (sol a)) cur -> qt (cand cur i) (fun _ => True)) ->
  (forall ls' s', List.length ls' = List.length ls -> R (W ++ ls') (k + m) s' -> covers ls' ls -> s_pop s' = s_pop s -> Q ls' s') ->
  wp (local_greedy P md correct gea m nf ls cand) Q s.
Proof.
  intros HR Hm Hav Hc HQ. unfold local_greedy. apply wp_bind.
  assert (Seen : forall L cur, Forall (good L) cur -> Forall (fun a => wf_agent a /\ feas (sol a)) cur).
  { intros L cur G. eapply Forall_impl; [|exact G]. intros a Ga. split; [eapply good_wf; exact Ga|apply (g_feas _ _ _ _ _ Ga)]. }
  apply wp_for_acc with (I := fun j cn s' => List.length (fst cn) = List.length ls /\ s_pop s' = s_pop s /\ R (W ++ fst cn) (if is_avail md then k else k + j) s' /\
     if is_avail md then fst cn = ls /\ List.length (snd cn) = j /\ Forall fresh_agent (snd cn) else covers (fst cn) ls).
  - cbn [fst snd]. split; [reflexivity|]. split; [reflexivity|]. rewrite Nat.add_0_r. split; [destruct (is_avail md); exact HR|].
    destruct (is_avail md); [repeat split; constructor|]. eapply covers_refl. eapply R_held_good; exact HR.
  - intros j [cur new] s' Hj (Lc & Ep & HR' & HI). cbn [fst snd] in *. apply wp_bind.
    eapply wp_mono; [eapply (Hc cur j); [lia|exact Lc|eapply Seen, R_held_good; exact HR'|exact HR']|]. intros x s1 [_ N1].
    assert (R1 : R (W ++ cur) (if is_avail md then k else k + j) s1) by (eapply R_near; [exact HR'|exact N1]). apply wp_bind. eapply wp_mono; [eapply q_propose; eauto|]. intros a s2 [Ha N2].
    assert (R2 : R (W ++ cur) (if is_avail md then k else k + j) s2) by (eapply R_near; [exact R1|exact N2]).
    assert (Ep2 : s_pop s2 = s_pop s) by (rewrite <- Ep; transitivity (s_pop s1); [eapply near_pop; exact N2|eapply near_pop; exact N1]).
    destruct (is_avail md).
    + apply wp_ret. cbn [fst snd]. destruct HI as (E1 & E2 & E3). split; [exact Lc|]. split; [exact Ep2|]. split; [exact R2|].
      split; [exact E1|]. split; [rewrite app_length; simpl; lia|apply Forall_app; auto].
    + apply wp_bind. eapply wp_evaluate; [exact HP|exact R2|exact Ha|]. intros a' s3 Ga R3 Ep3 _ _ _. apply wp_bind.
      destruct (nth_error cur j) as [old|] eqn:Eo; [|apply nth_error_None in Eo; lia].
      eapply wp_lift with (y := old); [unfold getitem; rewrite Eo; reflexivity|].
      assert (Gc : Forall (good (s_log s3)) cur).
      { rewrite <- app_assoc in R3. pose proof (R_held_good _ _ _ _ R3) as G. apply Forall_app in G. tauto. }
      assert (Go : good (s_log s3) old) by (rewrite Forall_forall in Gc; apply Gc; eapply nth_error_In; exact Eo).
      destruct (better_of_ok _ nf old a' Go Ga) as (r & Er & Gr & Hr). apply wp_bind. eapply wp_lift; [exact Er|]. apply wp_ret. cbn [fst snd].
      pose proof (upd_covers _ cur j old a' r Gc Eo Hr) as HU.
      split; [rewrite upd_length; exact Lc|]. split; [congruence|]. split.
      * replace (k + S j) with (k + j + 1) by lia. rewrite <- app_assoc in R3. eapply R_swap; [exact R3|apply upd_Forall; assumption|exact HU].
      * eapply covers_trans; [|exact HI]. intros C b Hb. apply HU; [exact C|apply in_or_app; auto].
  - intros [cur new] s' (Lc & Ep & HR' & HI). cbn [fst snd] in *. simpl in HI. destruct (is_avail md) eqn:Em.
    + destruct HI as (-> & E2 & E3). apply wp_bind. eapply wp_update_target_avail; [exact Em|]. intros nw ->.
      destruct (R_batch E P feas attok IL IX cov nd n0 n s0 HP _ _ _ new HR' E3) as [RB GB].
      assert (Gl : Forall (good (s_log (evald s' (map sol new)))) ls).
      { rewrite <- app_assoc in RB. pose proof (R_held_good _ _ _ _ RB) as G. apply Forall_app in G. tauto. }
      destruct (greedy_covers E P feas attok cov HP _ ls _ Gl GB) as (r & Er & Lr & Gr & Cr); [rewrite map_length; rewrite (Hav eq_refl) in E2; congruence|].
      eapply wp_lift; [exact Er|]. rewrite E2 in RB. rewrite <- app_assoc in RB. apply HQ; [exact Lr| | |exact Ep].
      * eapply R_swap; [exact RB|exact Gr|exact Cr].
      * intros C a Ha. apply Cr; [exact C|apply in_or_app; auto].
    + apply wp_ret. apply HQ; assumption.
Qed.
(** Sorting and trimming. *)
Lemma sorted_cov L p : Forall (good L) p -> exists sp ix, get_sorted_population (e_argsort E) p (p_mm P) = Ok (sp, ix) /\ Permutation sp p /\ Forall (good L) sp.
Proof.
  intros G. destruct (good_best E P feas attok cov HP L p G) as (sp & ix & Es & Hp & _). exists sp, ix. split; [exact Es|]. split; [exact Hp|].
  rewrite Forall_forall in *. intros a Ha. apply G. eapply Permutation_in; eauto.
Qed.
Lemma trimmed_cov L p m : Forall (good L) p -> 0 < m <= List.length p -> exists q, get_sorted_and_trimmed_population (e_argsort E) p m (p_mm P) = Ok q /\
  List.length q = m /\ Forall (good L) q /\ covers q p.
Proof.
  intros G Hm. destruct (good_best E P feas attok cov HP L p G) as (sp & ix & Es & Hp & HB). exists (firstn m sp).
  split; [unfold get_sorted_and_trimmed_population; rewrite Es; reflexivity|].
  assert (Ls : List.length sp = List.length p) by (apply Permutation_length; exact Hp).
  split; [rewrite firstn_length; lia|]. split.
  - rewrite Forall_forall in *. intros a Ha. apply G. eapply Permutation_in; [exact Hp|]. rewrite <- (firstn_skipn m sp). apply in_or_app; auto.
  - intros C a Ha. destruct sp as [|b sp]; [simpl in Ls; lia|]. destruct m as [|m]; [lia|]. exists b. split; [left; reflexivity|]. apply HB; auto.
Qed.
Lemma wp_special_perm L p nb nw (Q : list (agent A) * list (agent A) * list (agent A) -> st A X -> Prop) (s : st A X) : Forall (good L) p ->
  (forall sp b w, Permutation sp p -> Forall (good L) sp -> List.length b = Nat.min nb (List.length p) -> Forall (good L) b ->
     List.length w = Nat.min nw (List.length p) -> Forall (good L) w -> Q (sp, b, w) s) ->
  wp (special E P p nb nw) Q s.
Proof.
  intros G HQ. unfold special. destruct (sorted_cov _ _ G) as (sp & ix & Es & Hp & Gs).
  assert (Hf : incl (firstn nb sp) sp) by (intros a Ha; rewrite <- (firstn_skipn nb sp); apply in_or_app; auto).
  assert (Hr : incl (firstn nw (rev sp)) sp) by (intros a Ha; apply in_rev; rewrite <- (firstn_skipn nw (rev sp)); apply in_or_app; auto).
  assert (WF : forall q, incl q sp -> Forall (fun a => wf_agent a /\ feas (sol a)) q).
  { intros q Hq. apply Forall_forall. intros a Ha. rewrite Forall_forall in Gs. specialize (Gs a (Hq a Ha)). split; [eapply good_wf; exact Gs|apply Gs]. }
  apply wp_bind. eapply wp_lift.
  { unfold get_special_agents. rewrite Es. cbn [bind]. rewrite (copies_ok feas _ (WF _ Hf)).
    cbn [bind]. rewrite (copies_ok feas _ (WF _ Hr)). reflexivity. }
  apply wp_ret. apply HQ; [exact Hp|exact Gs| | | |].
  - rewrite firstn_length, (Permutation_length Hp). reflexivity.
  - rewrite Forall_forall in *. intros a Ha. apply Gs, Hf, Ha.
  - rewrite firstn_length, rev_length, (Permutation_length Hp). reflexivity.
  - rewrite Forall_forall in *. intros a Ha. apply Gs, Hr, Ha.
Qed.
(** A population of agents of the previous epoch and of agents at hand. *)
Definition Mixed (V : list (agent A)) (s : st A X) : Prop := Forall (fun a => In (sol a) (s_log s0) \/ In a V) (s_pop s).
Lemma Old_mixed V s : Old s -> Mixed V s.
Proof. intros H. eapply Forall_impl; [|exact H]. intros a Ha. left; exact Ha. Qed.
Lemma Mixed_near V s s' : Mixed V s -> near IX s s' -> Mixed V s'.
Proof. intros H N. unfold Mixed. rewrite (near_pop _ _ _ N). exact H. Qed.
Lemma Mixed_incl V V' s : Mixed V s -> incl V V' -> Mixed V' s.
Proof. intros H Hi. eapply Forall_impl; [|exact H]. intros a [Ha|Ha]; [left; exact Ha|right; apply Hi; exact Ha]. Qed.
Lemma R_replace_mixed W V l s q : R (W ++ V) l s -> Mixed V s -> List.length q = n -> Forall (good (s_log s)) q -> covers q V -> R W l (with_pop s q).
Proof.
  intros (V0 & Hn & Hl) HM Hq Gq HC. split; [|split; [exact Hq|exact Hl]].
  pose proof (v_W _ _ _ _ _ _ _ _ _ _ _ V0) as GW. apply Forall_app in GW. destruct GW as [GW _]. unfold Mixed in HM. rewrite Forall_forall in GW, Gq, HM.
  apply Ev_set with (W := W ++ V); [exact V0|exact Gq|exact GW|].
  intros C g a Hg Ha. rewrite !in_app_iff in Ha. assert (D : In a V -> exists b, In b (q ++ W) /\ no_worse (p_mm P) (fit b) (fit a)).
  { intros Hv. destruct (HC C a Hv) as (b & Hb & N). exists b. split; [apply in_or_app; auto|exact N]. }
  destruct Ha as [Ha|[Ha|Ha]]; [|right|right; apply D; exact Ha].
  - destruct (HM a Ha) as [Ho|Hv]; [left|right; apply D; exact Hv]. eapply Ev_old; eauto. eapply Ev_pop_good; eauto.
  - exists a. split; [apply in_or_app; auto|]. apply no_worse_refl; [apply HP|]. eapply good_num; [apply HP; exact C|apply GW; exact Ha].
Qed.
Lemma R_put_mixed W V l s i a : R (W ++ V) l s -> Mixed V s -> i < n -> In a V -> R (W ++ V) l (with_pop s (upd (s_pop s) i a)) /\ Mixed V (with_pop s (upd (s_pop s) i a)).
Proof.
  intros HR HM Hi Ha. pose proof (R_held_good _ _ _ _ HR) as GV. destruct HR as (V0 & Hn & Hl). split.
  - split; [|split; [simpl; rewrite upd_length; exact Hn|exact Hl]].
    apply Ev_pop_set with (W := W ++ V); [apply HP|apply HP|exact V0|lia|rewrite Forall_forall in GV; apply GV; exact Ha|apply incl_refl|].
    intros C g b Hg [Hb|Hb]; [|right; right; exact Hb]. apply nth_error_In in Hb. unfold Mixed in HM. rewrite Forall_forall in HM.
    destruct (HM b Hb) as [Ho|Hv]; [left|right; right; apply in_or_app; auto]. eapply Ev_old; eauto. eapply Ev_pop_good; eauto.
  - unfold Mixed in *. simpl. apply upd_Forall; [exact HM|right; exact Ha].
Qed.
End Elite6.
