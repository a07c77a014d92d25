(** Proof rules for the fragments of MAlg7. *)
From Verif Require Import Prelude Fl MCore MHelp MAlg MAlg2 MAlg3 MAlg4 MAlg5 MAlg6 MAlg7 SpecCore SpecRun PSelect PLogic PSolve PRun SpecAlg PAlg PFree PClass PAlg2 PAlg3 PAlg4 PAlg5 PAlg6 PAlg7 PAlg8.

Section Elite9.
Context {A X : Type}.
Variable E : env.
Variable P : problem.
Variable md : mode.
Variable feas : vec -> Prop.
Variable attok : list vec -> A -> Prop.
Variable IL : nat -> Prop.
Variable IX : list vec -> X -> Prop.
Variable cov : Prop.
Variables nd n0 n : nat.
Variable s0 : st A X.
Hypothesis HP : params E P feas attok cov.
Notation good := (good P feas attok).
Notation fresh_agent := (fresh_agent feas attok).
Notation R := (R P feas attok IL IX cov nd n0 n s0).
Notation Old := (Old s0).
Notation qt := (qt P feas attok IL IX cov nd n0 n s0).
Notation blk := (blk P feas attok IL IX cov nd n0 n s0).
Notation blk0 := (blk0 P feas attok IL IX cov nd n0 n s0).

(** A draw is one of the environment's numbers. *)
Lemma q_draw : qt (uniform E) (fun u => exists k, u = e_u E k).
Proof.
  intros W l s HR. unfold wp, uniform, bindM, tick. cbn. split; [eauto|]. exists (S (s_ctr s)), (s_x s). split; [reflexivity|]. destruct HR as (V & _). apply (v_x _ _ _ _ _ _ _ _ _ _ _ V).
Qed.
Lemma q_get_nfe : qt get_nfe (fun _ => True).
Proof. intros W l s HR. unfold wp, get_nfe. split; [exact I|]. eapply near_refl; exact HR. Qed.

Section Made.
Variable correct : vec -> M A X vec.
Variable gea : option vec -> M A X (agent A).
Section Back.
Hypothesis Hcorrect : forall x, qt (correct x) feas.
Hypothesis Hgea : forall x, feas x -> qt (gea (Some x)) fresh_agent.
Lemma b_greedy_back m nf (cand : nat -> M A X vec) : m = n -> (forall i, i < m -> qt (cand i) (fun _ => True)) ->
  blk m m (greedy_back P md correct gea m nf cand) (fun _ => True).
Proof.
  intros Hm Hc W l s HR. unfold greedy_back. apply wp_bind.
  apply wp_for_acc with (I := fun k acc s' => List.length acc = k /\
     if is_avail md then R W l s' /\ Forall fresh_agent acc else R W (l + k) s').
  - split; [reflexivity|]. destruct (is_avail md); [split; [exact HR|constructor]|rewrite Nat.add_0_r; exact HR].
  - intros k acc s' Hk [Hlen HI]. assert (HR' : R W (if is_avail md then l else l + k) s') by (destruct (is_avail md); tauto).
    apply wp_bind. eapply wp_mono; [eapply (Hc k); [lia|exact HR']|]. intros p s1 [Hp Hn1].
    assert (R1 : R W (if is_avail md then l else l + k) s1) by (eapply R_near; [exact HR'|exact Hn1]).
    apply wp_bind. eapply wp_mono; [eapply q_propose; [exact Hcorrect|exact Hgea|exact R1]|]. intros a s2 [Ha Hn2].
    assert (R2 : R W (if is_avail md then l else l + k) s2) by (eapply R_near; [exact R1|exact Hn2]).
    destruct (is_avail md).
    + apply wp_ret. split; [rewrite app_length; simpl; lia|]. split; [exact R2|]. apply Forall_app; split; [apply HI|constructor; auto].
    + apply wp_bind. eapply wp_evaluate; [exact HP|exact R2|exact Ha|]. intros a' s3 Ga R3 _ _ _ _.
      apply wp_bind. eapply wp_keep_better; [exact HP|exact R3|exact Ga|lia|]. intros s4 R4. apply wp_ret.
      split; [rewrite app_length; simpl; lia|]. replace (l + S k) with (l + k + 1) by lia. exact R4.
  - intros acc s' [Hlen HI]. simpl in Hlen. apply wp_when; intros Hav; rewrite Hav in HI.
    + destruct HI as [HR' Hf]. apply wp_bind. eapply wp_update_target_avail; [exact Hav|]. intros new ->.
      destruct (R_batch E P feas attok IL IX cov nd n0 n s0 HP W l s' acc HR' Hf) as [RB GB].
      apply wp_bind, wp_get_pop. apply wp_bind. pose proof RB as (_ & Ln & _).
      destruct (greedy_covers E P feas attok cov HP _ _ _ GB (R_pop_all _ _ _ _ _ _ _ _ _ _ _ _ _ RB)) as (r & Er & Lr & Gr & Cr).
      { rewrite map_length, Ln, Hlen. exact Hm. }
      eapply wp_lift; [exact Er|]. unfold wp, set_pop. split; [exact I|]. exists m. split; [lia|]. rewrite Hlen in RB.
      eapply R_set_cov; [exact HP|exact RB|rewrite Lr, map_length, Hlen; exact Hm|exact Gr| |].
      * intros C a Ha. apply Cr; [exact C|apply in_or_app; right; exact Ha].
      * intros C a Ha. apply Cr; [exact C|apply in_or_app; left; exact Ha].
    + split; [exact I|]. exists m. split; [lia|exact HI].
Qed.
End Back.

Lemma wp_gen_each {T} (ls : list T) (cand : T -> M A X vec) W l s (Q : list (agent A) -> st A X -> Prop)
  (Hcorrect : forall x, qt (correct x) feas) (Hgea : forall x, feas x -> qt (gea (Some x)) fresh_agent) : R W l s ->
  (forall i, In i ls -> qt (cand i) (fun _ => True)) ->
  (forall new s', List.length new = List.length ls -> Forall (good (s_log s')) new -> R (W ++ new) (l + List.length ls) s' -> s_pop s' = s_pop s -> Q new s') ->
  wp (gen_each P correct gea ls cand) Q s.
Proof.
  intros HR Hc HQ. unfold gen_each.
  apply wp_for_list with (I := fun done acc s' => List.length acc = List.length done /\ Forall (good (s_log s')) acc /\
     R (W ++ acc) (l + List.length done) s' /\ s_pop s' = s_pop s).
  - split; [reflexivity|]. split; [constructor|]. cbn [List.length]. rewrite Nat.add_0_r, app_nil_r. auto.
  - intros done i rest acc s' El (L1 & G1 & R1 & P1). apply wp_bind. eapply wp_mono; [eapply (Hc i); [rewrite El; apply in_or_app; right; left; reflexivity|exact R1]|].
    intros x s1 [_ N1]. assert (R2 : R (W ++ acc) (l + List.length done) s1) by (eapply R_near; [exact R1|exact N1]).
    apply wp_bind. unfold gen_agent. apply wp_bind. eapply wp_mono; [eapply q_propose; [exact Hcorrect|exact Hgea|exact R2]|]. intros a s2 [Ha N2].
    assert (R3 : R (W ++ acc) (l + List.length done) s2) by (eapply R_near; [exact R2|exact N2]).
    unfold evaluate. apply wp_bind, wp_get_target, wp_ret, wp_ret.
    assert (R4 : R ((W ++ acc) ++ [with_tgt a (prob_target P (sol a))]) (l + List.length done + 1) (evald s2 [sol a])) by (eapply R_eval; [exact HP|exact R3|exact Ha]).
    rewrite !app_length. cbn [List.length]. split; [lia|]. split; [|split].
    + apply Forall_app. split.
      * eapply Forall_impl; [|exact G1]. intros b. apply good_mono; [apply HP|]. simpl. rewrite (near_log _ _ _ N2), (near_log _ _ _ N1). apply incl_appl, incl_refl.
      * constructor; [|constructor]. apply fresh_eval; [exact Ha|]. simpl. apply in_or_app. right. left. reflexivity.
    + rewrite app_assoc, Nat.add_assoc. exact R4.
    + simpl. rewrite (near_pop _ _ _ N2), (near_pop _ _ _ N1). exact P1.
  - intros acc s' (L1 & G1 & R1 & P1). apply HQ; auto.
Qed.
(** Generated one by one, then sorted and trimmed together with the population. *)
Lemma b_gen_trim {T} (m : M A X (list T)) (cand : T -> M A X vec) lo hi
  (Hcorrect : forall x, qt (correct x) feas) (Hgea : forall x, feas x -> qt (gea (Some x)) fresh_agent) : 0 < n ->
  qt m (fun ls => lo <= List.length ls <= hi /\ forall i, In i ls -> qt (cand i) (fun _ => True)) ->
  blk lo hi (ls <- m ;; l <- gen_each P correct gea ls cand ;; trim_with E P n l) (fun _ => True).
Proof.
  intros Hn Hm W l s HR. apply wp_bind. eapply wp_mono; [exact (Hm _ _ _ HR)|]. intros ls s1 [[Hl Hc] N1].
  apply wp_bind. eapply wp_gen_each; [exact Hcorrect|exact Hgea|eapply R_near; [exact HR|exact N1]|exact Hc|].
  intros new s2 Ln Gn R2 E2. unfold trim_with. apply wp_bind, wp_get_pop. pose proof R2 as (_ & Lp & _).
  destruct (trimmed_cov E P feas attok cov HP (s_log s2) (s_pop s2 ++ new) n) as (q & Eq & Lq & Gq & Cq).
  { apply Forall_app. split; [apply (R_pop_all _ _ _ _ _ _ _ _ _ _ _ _ _ R2)|exact Gn]. }
  { rewrite app_length. lia. }
  apply wp_bind. eapply wp_lift; [exact Eq|]. unfold wp, set_pop. split; [exact I|]. exists (List.length ls). split; [exact Hl|].
  eapply R_set_cov; [exact HP|exact R2|exact Lq|exact Gq| |].
  - intros C a Ha. apply Cq; [exact C|apply in_or_app; auto].
  - intros C a Ha. apply Cq; [exact C|apply in_or_app; auto].
Qed.

End Made.

(** Reads. *)
Lemma q_extreme_fits : 0 < n -> qt (extreme_fits E P) (fun _ => True).
Proof.
  intros Hn W l s HR. unfold extreme_fits. apply wp_bind, wp_get_pop. apply wp_bind. pose proof HR as (_ & Lp & _).
  pose proof (R_pop_all _ _ _ _ _ _ _ _ _ _ _ _ _ HR) as G.
  destruct (good_best E P feas attok cov HP (s_log s) (s_pop s) G) as (sp & ix & Es & Hp & _).
  assert (Ls : List.length sp = n) by (rewrite (Permutation_length Hp); exact Lp).
  assert (Gs : Forall (good (s_log s)) sp) by (rewrite Forall_forall in *; intros a Ha; apply G; eapply Permutation_in; eauto).
  assert (T : exists r, get_special_fitness (e_argsort E) (s_pop s) (p_mm P) = Ok r).
  { unfold get_special_fitness.
    assert (F : forall (q : list (agent A)), Forall (good (s_log s)) q -> exists fs, map_res fitness q = Ok fs).
    { induction q as [|a q IH]; intros Gq; [exists []; reflexivity|]. inversion Gq as [|a' q' Ga Gq']; subst.
      destruct (IH Gq') as (fs & Ef). cbn [map_res]. unfold fitness at 1. rewrite (g_tgt _ _ _ _ _ Ga). cbn [bind]. rewrite Ef. eexists; reflexivity. }
    destruct (F _ G) as (fs & ->). cbn [bind]. rewrite Es. cbn [bind].
    destruct sp as [|a sp]; [cbn in Ls; lia|]. cbn [getitem nth_error bind].
    inversion Gs as [|a' q' Ga Gq']; subst. unfold fitness at 1. rewrite (g_tgt _ _ _ _ _ Ga). cbn [bind].
    destruct (last_item_nonempty (a :: sp)) as (b & l' & _ & El); [congruence|]. rewrite El.
    cbn [bind]. pose proof (last_item_In _ _ El) as Hin. rewrite Forall_forall in Gs. specialize (Gs b Hin).
    unfold fitness. rewrite (g_tgt _ _ _ _ _ Gs). eexists; reflexivity. }
  destruct T as ([[t b] w] & T). eapply wp_lift; [exact T|]. apply wp_ret. split; [exact I|eapply near_refl; exact HR].
Qed.
Lemma q_rank_at fits idx : idx < List.length fits -> qt (rank_at E fits idx) (fun i => i < List.length fits).
Proof.
  intros Hi W l s HR. unfold rank_at. destruct (pr_argsort _ _ _ _ _ HP fits) as [Hp _].
  assert (La : List.length (e_argsort E fits) = List.length fits) by (rewrite (Permutation_length Hp); apply seq_length).
  destruct (getitem_lt (e_argsort E fits) idx) as (i & Ei & _ & Hin); [lia|]. eapply wp_lift; [exact Ei|].
  split; [|eapply near_refl; exact HR]. eapply Permutation_in in Hin; [|exact Hp]. apply in_seq in Hin. lia.
Qed.

(** Agents that come evaluated. *)
Definition ready lo hi (c : M A X (agent A)) : Prop := forall W l s, R W l s ->
  wp c (fun a s' => good (s_log s') a /\ s_pop s' = s_pop s /\ exists k, lo <= k <= hi /\ R (W ++ [a]) (l + k) s') s.
Lemma b_greedy_ready m nf lo hi (cand : nat -> M A X (agent A)) : m = n -> (forall i, i < m -> ready lo hi (cand i)) ->
  blk (m * lo) (m * hi) (greedy_ready P md m nf cand) (fun _ => True).
Proof.
  intros Hm Hc W l s HR. unfold greedy_ready. apply wp_bind.
  apply wp_for_acc with (I := fun k acc s' => List.length acc = k /\ exists j, k * lo <= j <= k * hi /\
     R (if is_avail md then W ++ acc else W) (l + j) s').
  - split; [reflexivity|]. exists 0. split; [lia|]. rewrite Nat.add_0_r, app_nil_r. destruct (is_avail md); exact HR.
  - intros k acc s' Hk (Hlen & j & Hj & HR'). apply wp_bind. eapply wp_mono; [eapply (Hc k); [lia|exact HR']|].
    intros a s1 (Ga & _ & i & Hi & R1). apply wp_bind. destruct (is_avail md); cbn [negb].
    + cbn [when]. apply wp_ret, wp_ret. split; [rewrite app_length; simpl; lia|]. exists (j + i). split; [simpl; lia|].
      rewrite app_assoc, Nat.add_assoc. exact R1.
    + cbn [when]. eapply wp_keep_better; [exact HP|exact R1|exact Ga|lia|]. intros s2 R2. apply wp_ret.
      split; [rewrite app_length; simpl; lia|]. exists (j + i). split; [simpl; lia|]. rewrite Nat.add_assoc. exact R2.
  - intros acc s' (Hlen & j & Hj & HR'). simpl in Hlen. apply wp_when; intros Hav; rewrite Hav in HR'.
    + eapply wp_greedy_select; [exact HP|exact HR'|lia|]. intros s2 R2. split; [exact I|]. exists j. split; [exact Hj|exact R2].
    + split; [exact I|]. exists j. split; [exact Hj|exact HR'].
Qed.
Lemma ready_best correct gea m (cand : nat -> M A X vec) : (forall x, qt (correct x) feas) -> (forall x, feas x -> qt (gea (Some x)) fresh_agent) ->
  0 < m -> (forall i, i < m -> qt (cand i) (fun _ => True)) -> ready m m (r <- best_new E P md correct gea m cand ;; ret (fst r)).
Proof.
  intros H1 H2 Hm Hc W l s HR. apply wp_bind. eapply wp_best_new; [exact HP|exact H1|exact H2|exact HR|exact Hm|exact Hc|].
  intros b i s' Gb HR' Ep. apply wp_ret. cbn [fst]. split; [exact Gb|]. split; [exact Ep|]. exists m. split; [lia|exact HR'].
Qed.
Lemma ready_random gea : qt (gea None) fresh_agent -> ready 1 1 (random_agent P gea).
Proof.
  intros H W l s HR. unfold random_agent. apply wp_bind. eapply wp_mono; [exact (H _ _ _ HR)|]. intros a s1 [Ha N1].
  eapply wp_evaluate; [exact HP|eapply R_near; [exact HR|exact N1]|exact Ha|]. intros a' s2 Ga R2 Ep _ _ _.
  split; [exact Ga|]. split; [rewrite Ep; eapply near_pop; exact N1|]. exists 1. split; [lia|exact R2].
Qed.
Lemma ready_mono lo hi lo' hi' c : ready lo hi c -> lo' <= lo -> hi <= hi' -> ready lo' hi' c.
Proof. intros H H1 H2 W l s HR. eapply wp_mono; [apply H; exact HR|]. intros a s' (G & Ep & k & Hk & HR'). split; [exact G|]. split; [exact Ep|]. exists k. split; [lia|exact HR']. Qed.
Lemma ready_qbind {Y} lo hi (m : M A X Y) c Φ : qt m Φ -> (forall y, Φ y -> ready lo hi (c y)) -> ready lo hi (y <- m ;; c y).
Proof.
  intros H1 H2 W l s HR. apply wp_bind. eapply wp_mono; [exact (H1 _ _ _ HR)|]. intros y s1 [Hy N1].
  eapply wp_mono; [apply H2; [exact Hy|eapply R_near; [exact HR|exact N1]]|]. intros a s2 (G & Ep & Hk). split; [exact G|]. split; [rewrite Ep; eapply near_pop; exact N1|exact Hk].
Qed.

(** Greedy selection; the population then consists of agents of the previous epoch and of the new ones. *)
Lemma wp_greedy_list m nf (cand : nat -> M A X (agent A)) W l s (Q : list (agent A) -> st A X -> Prop) : m = n -> R W l s -> Old s ->
  (forall i, i < m -> qt (cand i) fresh_agent) ->
  (forall new s', List.length new = m -> Forall (good (s_log s')) new -> R W (l + m) s' -> Mixed s0 new s' -> Q new s') ->
  wp (greedy_list P md m nf cand) Q s.
Proof.
  intros Hm HR HO Hc HQ. unfold greedy_list. apply wp_bind.
  apply wp_for_acc with (I := fun k acc s' => List.length acc = k /\
     if is_avail md then R W l s' /\ Forall fresh_agent acc /\ Old s' else R W (l + k) s' /\ Forall (good (s_log s')) acc /\ Mixed s0 acc s').
  - split; [reflexivity|]. rewrite Nat.add_0_r. destruct (is_avail md); (split; [exact HR|split; [constructor|]]); [exact HO|apply Old_mixed; exact HO].
  - intros k acc s' Hk [Hlen HI]. assert (HR' : R W (if is_avail md then l else l + k) s') by (destruct (is_avail md); tauto).
    apply wp_bind. eapply wp_mono; [eapply (Hc k); [lia|exact HR']|]. intros a s1 [Ha Hn1].
    assert (R1 : R W (if is_avail md then l else l + k) s1) by (eapply R_near; [exact HR'|exact Hn1]).
    assert (E1 : s_pop s1 = s_pop s') by (eapply near_pop; exact Hn1).
    destruct (is_avail md).
    + apply wp_ret. split; [rewrite app_length; simpl; lia|]. destruct HI as (_ & HF & HOs). split; [exact R1|]. split; [apply Forall_app; auto|].
      unfold PAlg.Old. rewrite E1. exact HOs.
    + destruct HI as (_ & GA & HM). apply wp_bind. unfold evaluate. apply wp_bind, wp_get_target, wp_ret.
      assert (R3 : R (W ++ [with_tgt a (prob_target P (sol a))]) (l + k + 1) (evald s1 [sol a])) by (eapply R_eval; [exact HP|exact R1|exact Ha]).
      assert (Ga : good (s_log s1 ++ [sol a]) (with_tgt a (prob_target P (sol a)))) by (apply fresh_eval; [exact Ha|apply in_or_app; right; left; reflexivity]).
      set (s3 := evald s1 [sol a]) in *. set (a' := with_tgt a _) in *. change (s_log s1 ++ [sol a]) with (s_log s3) in Ga.
      assert (GA' : Forall (good (s_log s3)) (acc ++ [a'])).
      { apply Forall_app. split; [|constructor; [exact Ga|constructor]]. eapply Forall_impl; [|exact GA]. intros b. apply good_mono; [apply HP|].
        pose proof (near_log _ _ _ Hn1) as EL. unfold s3. simpl. rewrite EL. apply incl_appl, incl_refl. }
      unfold keep_better. apply wp_bind. apply wp_bind. pose proof R3 as (V & Hn & Hl). apply wp_pop_at; [unfold s3 in *; simpl in *; lia|].
      intros old Eo Hin. pose proof (Ev_pop_good _ _ _ _ _ _ _ _ _ _ _ _ V Hin) as Go. apply wp_bind.
      assert (B : exists r, (if nf then get_better_agent a' old (p_mm P) false else get_better_agent old a' (p_mm P) false) = Ok r /\ (r = a' \/ r = old) /\
         (num (fit a') -> num (fit old) -> no_worse (p_mm P) (fit r) (fit a') /\ no_worse (p_mm P) (fit r) (fit old))).
      { destruct nf.
        - destruct (good_get_better P feas attok (pr_mm _ _ _ _ _ HP) _ a' old false Ga Go) as (r & Er & Dr & _ & Hr). exists r. auto.
        - destruct (good_get_better P feas attok (pr_mm _ _ _ _ _ HP) _ old a' false Go Ga) as (r & Er & Dr & _ & Hr). exists r. split; [exact Er|]. split; [tauto|].
          intros N1 N2. destruct (Hr N2 N1); auto. }
      destruct B as (r & Er & Dr & Hr). eapply wp_lift; [exact Er|]. apply wp_pop_set; [unfold s3 in *; simpl in *; lia|]. apply wp_ret.
      assert (Gr : good (s_log s3) r) by (destruct Dr; subst r; assumption).
      split; [rewrite app_length; simpl; lia|]. split; [|split; [exact GA'|]].
      * replace (l + S k) with (l + k + 1) by lia. split; [|split; [simpl; rewrite upd_length; exact Hn|exact Hl]].
        apply Ev_pop_set with (W := W ++ [a']); [apply HP|apply HP|exact V|unfold s3 in *; simpl in *; lia|exact Gr|apply incl_appl, incl_refl|].
        intros C g b Hg [Hb|Hb].
        -- right; left. rewrite Eo in Hb. injection Hb as <-. apply Hr; (eapply good_num; [apply HP; exact C|eassumption]).
        -- apply in_app_or in Hb. destruct Hb as [Hb|[<-|[]]]; [right; right; exact Hb|]. right; left. apply Hr; (eapply good_num; [apply HP; exact C|eassumption]).
      * unfold Mixed in *. simpl. rewrite E1. apply upd_Forall.
        -- eapply Forall_impl; [|exact HM]. intros b [Hb|Hb]; [left; exact Hb|right; apply in_or_app; auto].
        -- destruct Dr as [->| ->]; [right; apply in_or_app; right; left; reflexivity|].
           unfold s3 in Hin. simpl in Hin. rewrite E1 in Hin. rewrite Forall_forall in HM. destruct (HM _ Hin); [left; assumption|right; apply in_or_app; auto].
  - intros acc s' [Hlen HI]. simpl in Hlen. destruct (is_avail md) eqn:Hav.
    + destruct HI as (HR' & Hf & HOs). apply wp_bind. eapply wp_update_target_avail; [exact Hav|]. intros new ->.
      destruct (R_batch E P feas attok IL IX cov nd n0 n s0 HP W l s' acc HR' Hf) as [RB GB]. rewrite Hlen in RB.
      set (new := map _ acc) in *. assert (Ln : List.length new = m) by (unfold new; rewrite map_length; exact Hlen).
      set (s1 := evald s' (map sol acc)) in *.
      apply wp_bind, wp_get_pop. apply wp_bind. pose proof RB as (V & Lp & _).
      pose proof (R_pop_all _ _ _ _ _ _ _ _ _ _ _ _ _ RB) as Gp.
      destruct (greedy_covers E P feas attok cov HP _ _ _ Gp GB) as (r & Er & Lr & Gr & Cr); [lia|].
      assert (Eq : Ok r = Ok (map (fun c => greedy_pick (p_mm P) (fst c) (snd c)) (combine (s_pop s1) new))).
      { rewrite <- Er. apply greedy_ok; [eapply Forall_good_target; exact Gp|eapply Forall_good_target; exact GB|lia]. }
      injection Eq as Eq. eapply wp_lift; [exact Er|]. apply wp_bind. unfold wp at 1, set_pop. apply wp_ret. apply HQ.
      * exact Ln.
      * exact GB.
      * change (R W (l + m) (with_pop s1 r)). eapply R_set_cov; [exact HP|exact RB|lia|exact Gr| |].
        -- intros C a Ha. apply Cr; [exact C|apply in_or_app; left; exact Ha].
        -- intros C a Ha. apply Cr; [exact C|apply in_or_app; right; exact Ha].
      * unfold Mixed. cbn [s_pop]. rewrite Eq. apply Forall_forall. intros z Hz. apply in_map_iff in Hz. destruct Hz as ([o b] & <- & Hcm). cbn [fst snd].
        destruct (greedy_pick_cases (p_mm P) o b) as [->| ->].
        -- left. apply in_combine_l in Hcm. unfold s1 in Hcm. simpl in Hcm. unfold PAlg.Old in HOs. rewrite Forall_forall in HOs. apply HOs. exact Hcm.
        -- right. eapply in_combine_r; exact Hcm.
    + apply wp_ret. destruct HI as (HR' & GA & HM). apply HQ; [exact Hlen|exact GA|exact HR'|exact HM].
Qed.
(** An agent no worse than all the new ones overwrites a slot. *)
Lemma R_put_over W l s i g new : R W l s -> Mixed s0 new s -> good (s_log s) g -> i < n ->
  (cov -> forall b, In b new -> no_worse (p_mm P) (fit g) (fit b)) -> R W l (with_pop s (upd (s_pop s) i g)).
Proof.
  intros (V & Hn & Hl) HM Gg Hi Hc. split; [|split; [simpl; rewrite upd_length; exact Hn|exact Hl]].
  apply Ev_pop_set with (W := W); [apply HP|apply HP|exact V|lia|exact Gg|apply incl_refl|].
  intros C g' b Hg [Hb|Hb]; [|right; right; exact Hb]. apply nth_error_In in Hb. unfold Mixed in HM. rewrite Forall_forall in HM.
  destruct (HM b Hb) as [Ho|Hv]; [left|right; left; apply Hc; assumption]. eapply Ev_old; eauto. eapply Ev_pop_good; eauto.
Qed.
End Elite9.

(** ** Automation *)
Ltac hasmore m ::= match m with
  | context [sort_pop] => idtac | context [sort_retire] => idtac | context [try_pair] => idtac | context [with_elites] => idtac
  | context [greedy_agents] => idtac | context [made_agents] => idtac | context [replace_made] => idtac | context [greedy_made] => idtac
  | context [trim_made] => idtac | context [replace_made_each] => idtac | context [keep_agent] => idtac | context [accept_agent] => idtac
  | context [set_att] => idtac | context [merge] => idtac | context [accept_batch] => idtac
  | context [with_best] => idtac | context [trim_many] => idtac | context [gen_set] => idtac | context [greedy_front] => idtac
  | context [greedy_twice] => idtac | context [batch_keep] => idtac | context [replace_list] => idtac
  | context [greedy_back] => idtac | context [greedy_list] => idtac | context [greedy_ready] => idtac
  end.
Ltac bmore HP m ::= lazymatch m with
  | sort_pop _ _ => eapply b_sort; bprem HP
  | sort_retire _ _ _ _ _ _ _ _ => eapply b_sort_retire; try (exact HP); [bprem HP|bprem HP|lia|lia|quiet HP|intros; cbv beta in *; qfacts; quiet HP]
  | try_pair _ _ _ _ _ _ _ => eapply b_try_pair; bprem HP
  | with_elites _ _ _ _ _ => eapply b_with_elites; [exact HP|lia|lia|block HP]
  | greedy_agents _ _ _ _ _ => eapply b_greedy_agents; bprem HP
  | greedy_made _ _ _ _ => eapply b_greedy_made; bprem HP
  | trim_made _ _ _ _ _ _ => eapply b_trim_made; bprem HP
  | keep_agent _ _ _ _ => eapply b_keep_agent; [exact HP|solve [qside]|solve [qside]]
  | accept_agent _ _ _ => eapply b_accept_agent; [exact HP|solve [qside]|solve [qside]]
  | set_att _ _ => eapply b_set_att; [exact HP|solve [qside]|intros; first [exact I|solve [auto]]]
  | merge _ _ _ _ => eapply b_merge; [exact HP|solve [qside]|solve [qside]|intros; cbv beta in *]
  | accept_batch _ _ _ _ _ =>
      first [ eapply b_accept_batch; [exact HP|lia|bprem HP|intros; cbv beta in *; qfacts; solve [quiet HP]]
            | eapply b_accept_then; [exact HP|lia|bprem HP|intros; cbv beta in *; qfacts; block HP] ]
  | with_best _ _ _ _ _ => eapply b_with_best; [exact HP|lia|lia|block HP]
  | trim_many _ _ _ _ _ _ => eapply b_trim_many; [exact HP|lia|lia|let i := fresh "i" in let Hi := fresh "Hi" in intros i Hi]
  | greedy_front _ _ _ _ _ _ _ => eapply b_greedy_front; bprem HP
  | greedy_twice _ _ _ _ _ _ _ => eapply b_greedy_twice; bprem HP
  | greedy_back _ _ _ _ _ _ _ => eapply b_greedy_back; bprem HP
  end.
Ltac qmore HP m ::= lazymatch m with
  | propose _ _ _ => eapply q_propose; bprem HP
  | raw _ _ => apply q_raw; assumption
  | get_nfe => apply q_get_nfe
  | extreme_fits _ _ => apply q_extreme_fits; [exact HP|lia]
  | rank_at _ _ _ => eapply q_rank_at; [exact HP|solve [qside]]
  end.
