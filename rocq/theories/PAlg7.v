(** Proof rules for the fragments of MAlg6, for batches followed by further evaluations, and for bare evaluations. *)
From Verif Require Import Prelude Fl MCore MHelp MAlg MAlg2 MAlg3 MAlg4 MAlg5 MAlg6 SpecCore SpecRun PSelect PLogic PSolve PRun SpecAlg PAlg PFree PClass PAlg2 PAlg3 PAlg4 PAlg5 PAlg6.

Section Elite7.
Context {A X : Type}.
Variable E : env.
Variable P : problem.
Variable md : mode.
Variable feas : vec -> Prop.
Variable attok : list vec -> A -> Prop.
Variable IL : nat -> Prop.
Variable IX : list vec -> X -> Prop.
Variable cov : Prop.
Variables nd n0 n : nat.
Variable s0 : st A X.
Hypothesis HP : params E P feas attok cov.
Notation good := (good P feas attok).
Notation fresh_agent := (fresh_agent feas attok).
Notation R := (R P feas attok IL IX cov nd n0 n s0).
Notation seen := (fun a : agent A => wf_agent a /\ feas (sol a) /\ exists L, attok L (att a)).
Notation Old := (Old s0).
Notation qt := (qt P feas attok IL IX cov nd n0 n s0).
Notation blk := (blk P feas attok IL IX cov nd n0 n s0).
Notation blk0 := (blk0 P feas attok IL IX cov nd n0 n s0).
Variable correct : vec -> M A X vec.
Variable gea : option vec -> M A X (agent A).
Hypothesis Hcorrect : forall x, qt (correct x) feas.
Hypothesis Hgea : forall x, feas x -> qt (gea (Some x)) fresh_agent.

Lemma wp_gen_fresh W l s x (Q : agent A -> st A X -> Prop) : R W l s ->
  (forall a s', fresh_agent a -> tgt a = Some (prob_target P (sol a)) -> good (s_log s') a -> R (W ++ [a]) (l + 1) s' -> Q a s') ->
  wp (gen_agent P correct gea x) Q s.
Proof.
  intros HR HQ. unfold gen_agent. apply wp_bind. eapply wp_mono; [eapply q_propose; try eassumption|].
  intros a s' [Ha Hn]. eapply wp_evaluate; [exact HP|eapply R_near; eauto|exact Ha|]. intros a' s'' G HR' Ep _ Es Et.
  apply HQ; auto; [|apply G]. destruct Ha as [H1 H2]. split; rewrite ?Es, ?Et; assumption.
Qed.
Lemma retarget (a : agent A) : tgt a = Some (prob_target P (sol a)) -> with_tgt a (prob_target P (sol a)) = a.
Proof. destruct a as [x t b]. cbn. intros ->. reflexivity. Qed.

Lemma b_greedy_twice nf (cand : nat -> M A X vec) :
  (forall i, i < n -> qt (cand i) (fun _ => True)) ->
  blk (2 * n) (2 * n) (greedy_twice P md correct gea n nf cand) (fun _ => True).
Proof.
  intros Hc W l s HR. unfold greedy_twice. apply wp_bind.
  apply wp_for_acc with (I := fun k acc s' => List.length acc = k /\
     if is_avail md then R (W ++ acc) (l + k) s' /\ Forall fresh_agent acc /\ Forall (fun a => tgt a = Some (prob_target P (sol a))) acc else R W (l + 2 * k) s').
  - split; [reflexivity|]. rewrite app_nil_r, !Nat.add_0_r. destruct (is_avail md); auto.
  - intros k acc s' Hk [Hlen HI].
    set (W' := if is_avail md then W ++ acc else W). set (l' := if is_avail md then l + k else l + 2 * k).
    assert (HR' : R W' l' s') by (unfold W', l'; destruct (is_avail md); tauto).
    apply wp_bind. eapply wp_mono; [eapply (Hc k); [lia|exact HR']|]. intros x s1 [_ Hn1].
    assert (R1 : R W' l' s1) by (eapply R_near; eauto).
    apply wp_bind. eapply wp_gen_fresh; [exact R1|]. intros a s2 Fa Ta Ga R2.
    unfold W', l' in *. destruct (is_avail md).
    + destruct HI as (_ & HF & HT). apply wp_ret. split; [rewrite app_length; cbn; lia|]. rewrite app_assoc, Nat.add_succ_r, <- Nat.add_1_r.
      split; [exact R2|]. split; apply Forall_app; split; auto.
    + apply wp_bind. eapply wp_evaluate; [exact HP|exact R2|exact Fa|]. intros a' s3 Ga' R3 _ _ Es Et.
      assert (a' = a) as ->.
      { pose proof (g_tgt _ _ _ _ _ Ga') as Ht. destruct a as [x1 t1 b1], a' as [x2 t2 b2]. cbn in *. subst. congruence. }
      assert (R4 : R (W ++ [a]) (l + 2 * k + 1 + 1) s3).
      { rewrite <- app_assoc in R3. eapply R_swap with (V := [a] ++ [a]); [exact HP|exact R3|constructor; [exact Ga'|constructor]|].
        eapply covers_incl with (L := s_log s3); [exact HP| |]; [apply Forall_cons; [exact Ga'|apply Forall_cons; [exact Ga'|apply Forall_nil]]|].
        intros b Hb. cbn in *. tauto. }
      apply wp_bind. eapply wp_keep_better; [exact HP|exact R4|exact Ga'|lia|]. intros s4 R5. apply wp_ret.
      split; [rewrite app_length; cbn; lia|]. replace (l + 2 * S k) with (l + 2 * k + 1 + 1) by lia. exact R5.
  - intros acc s' [Hlen HI]. apply wp_when; intros Hav; rewrite Hav in HI.
    + destruct HI as (HR' & Hf & HT). apply wp_bind. eapply wp_update_target_avail; [exact Hav|]. intros new ->.
      destruct (R_batch E P feas attok IL IX cov nd n0 n s0 HP _ _ _ acc HR' Hf) as [RB GB].
      assert (Em : map (fun a => with_tgt a (prob_target P (sol a))) acc = acc).
      { clear - HT. induction acc as [|a acc IH]; [reflexivity|]. inversion HT; subst. cbn [map]. rewrite IH by assumption. rewrite retarget by assumption. reflexivity. }
      rewrite Em in *. rewrite <- app_assoc in RB.
      eapply wp_greedy_select; [exact HP| |exact Hlen|].
      * eapply R_swap; [exact HP|exact RB|exact GB|]. eapply covers_incl with (L := s_log s' ++ map sol acc); [exact HP|apply Forall_app; split; exact GB|].
        intros b Hb. apply in_app_or in Hb. tauto.
      * intros s'' R''. split; [exact I|]. exists (2 * n). split; [lia|]. replace (l + 2 * n) with (l + n + List.length acc) by (cbn in Hlen; lia). exact R''.
    + split; [exact I|]. exists (2 * n). split; [lia|exact HI].
Qed.

(** Each new agent competes for its slot, and then something else is tried. *)
Lemma wp_accept_each_then W l s new after lo hi (Q : unit -> st A X -> Prop) : R (W ++ new) l s -> List.length new <= n ->
  (forall i old a c, i < List.length new -> seen old -> seen a -> blk lo hi (after i old a c) (fun _ => True)) ->
  (forall k s', List.length new * lo <= k <= List.length new * hi -> R W (l + k) s' -> Q tt s') -> wp (accept_each P new after) Q s.
Proof.
  intros HR Hl Ha HQ. unfold accept_each, for_.
  apply wp_for_acc with (I := fun k _ s' => exists j, k * lo <= j <= k * hi /\ R (W ++ skipn k new) (l + j) s').
  - exists 0. split; [lia|]. rewrite Nat.add_0_r. exact HR.
  - intros k [] s1 Hk (j & Hj & R1). apply wp_bind. destruct (nth_error new k) as [a|] eqn:Ek; [|apply nth_error_None in Ek; lia].
    eapply wp_lift with (y := a); [unfold getitem; rewrite Ek; reflexivity|].
    assert (Esk : skipn k new = a :: skipn (S k) new).
    { clear - Ek. revert new Ek. induction k as [|k IH]; intros [|c q] H; simpl in *; try discriminate; [congruence|]. rewrite (IH q H). reflexivity. }
    rewrite Esk in R1. assert (Ga : good (s_log s1) a) by (eapply held_good; [exact R1|left; reflexivity]).
    assert (R2 : R ((W ++ skipn (S k) new) ++ [a]) (l + j) s1).
    { eapply R_perm; [exact R1|]. rewrite <- app_assoc. apply Permutation_app_head. change (a :: skipn (S k) new) with ([a] ++ skipn (S k) new). apply Permutation_app_comm. }
    pose proof R1 as (V1 & Hn1 & _). apply wp_bind, wp_pop_at; [lia|]. intros old Eo Hin.
    pose proof (Ev_pop_good _ _ _ _ _ _ _ _ _ _ _ _ V1 Hin) as Go. apply wp_bind.
    destruct (compare_agents_ok E P feas attok cov HP _ a old Ga Go) as (c & Ec & Hc). eapply wp_lift; [exact Ec|].
    assert (N : cov -> num (fit a) /\ num (fit old)) by (intros C; split; (eapply good_num; [apply HP; exact C|eassumption])).
    assert (D : forall s2, R (W ++ skipn (S k) new) (l + j) s2 -> wp (after k old a c) (fun _ s' => exists j, S k * lo <= j <= S k * hi /\ R (W ++ skipn (S k) new) (l + j) s') s2).
    { intros s2 R3. eapply wp_mono; [eapply (Ha k old a c); [lia|eapply good_seen; eauto|eapply good_seen; eauto|exact R3]|].
      intros [] s3 (_ & j' & Hj' & R4). exists (j + j'). split; [nia|]. rewrite Nat.add_assoc. exact R4. }
    apply wp_bind. apply wp_when; intros ->.
    + apply wp_pop_set; [lia|]. apply D. eapply R_pop_set; [exact HP|exact R2|lia|exact Ga| |].
      * intros C b Eb. rewrite Eo in Eb. injection Eb as <-. apply Hc; apply N; exact C.
      * intros C. apply no_worse_refl; [apply HP|apply N; exact C].
    + apply D. eapply R_forget; [exact HP|exact R2|]. intros C. exists old. split; [exact Hin|]. apply Hc; apply N; exact C.
  - intros [] s1 (j & Hj & R1). rewrite Nat.add_0_l in *. rewrite skipn_all, app_nil_r in R1. eapply HQ; [exact Hj|exact R1].
Qed.
Lemma b_accept_then m (cand : nat -> M A X (agent A)) after lo hi : m <= n ->
  (forall i, i < m -> qt (cand i) fresh_agent) ->
  (forall i old a c, i < m -> seen old -> seen a -> blk lo hi (after i old a c) (fun _ => True)) ->
  blk (m + m * lo) (m + m * hi) (accept_batch P md m cand after) (fun _ => True).
Proof.
  intros Hm Hc Ha W l s HR. unfold accept_batch. apply wp_bind. eapply wp_made_agents; [exact HP|exact HR|exact Hc|].
  intros new s' Hlen Gn HR' _. eapply wp_accept_each_then; [exact HR'|lia|rewrite Hlen; exact Ha|]. intros k s'' Hk R''.
  rewrite Hlen in Hk. split; [exact I|]. exists (m + k). split; [lia|]. rewrite Nat.add_assoc. exact R''.
Qed.
(** A list built without evaluations becomes the population. *)
Lemma b0_replace_list (m : M A X (list (agent A))) : qt m (fun l => List.length l = n /\ Forall fresh_agent l) ->
  blk0 n n (replace_list P md m) (fun _ => True).
Proof.
  intros Hm W l s HR HO. unfold replace_list. apply wp_bind. eapply wp_mono; [eapply Hm; exact HR|].
  intros ts s1 [[Lt Ft] N1]. apply wp_bind. eapply wp_evaluate_all; [exact HP|eapply R_near; [exact HR|exact N1]|exact Ft|].
  intros new s2 Ln R2 Ep. unfold wp, set_pop. split; [exact I|]. exists n. split; [lia|]. rewrite Lt in R2.
  eapply R_replace; [exact HP|exact R2| |lia]. unfold Old. rewrite Ep. eapply Old_near; eauto.
Qed.
Lemma any_fresh (a : agent A) : (forall L b, attok L b) -> feas (sol a) -> fresh_agent a.
Proof. intros H Ha. split; [exact Ha|]. intros; apply H. Qed.
End Elite7.

(** ** Automation *)
Ltac hasmore m ::= match m with
  | context [sort_pop] => idtac | context [sort_retire] => idtac | context [try_pair] => idtac | context [with_elites] => idtac
  | context [greedy_agents] => idtac | context [made_agents] => idtac | context [replace_made] => idtac | context [greedy_made] => idtac
  | context [trim_made] => idtac | context [replace_made_each] => idtac | context [keep_agent] => idtac | context [accept_agent] => idtac
  | context [set_att] => idtac | context [merge] => idtac | context [accept_batch] => idtac
  | context [with_best] => idtac | context [trim_many] => idtac | context [gen_set] => idtac | context [greedy_front] => idtac
  | context [greedy_twice] => idtac | context [batch_keep] => idtac | context [replace_list] => idtac
  end.
Ltac bmore HP m ::= lazymatch m with
  | sort_pop _ _ => eapply b_sort; bprem HP
  | sort_retire _ _ _ _ _ _ _ _ => eapply b_sort_retire; try (exact HP); [bprem HP|bprem HP|lia|lia|quiet HP|intros; cbv beta in *; qfacts; quiet HP]
  | try_pair _ _ _ _ _ _ _ => eapply b_try_pair; bprem HP
  | with_elites _ _ _ _ _ => eapply b_with_elites; [exact HP|lia|lia|block HP]
  | greedy_agents _ _ _ _ _ => eapply b_greedy_agents; bprem HP
  | greedy_made _ _ _ _ => eapply b_greedy_made; bprem HP
  | trim_made _ _ _ _ _ _ => eapply b_trim_made; bprem HP
  | keep_agent _ _ _ _ => eapply b_keep_agent; [exact HP|solve [qside]|solve [qside]]
  | accept_agent _ _ _ => eapply b_accept_agent; [exact HP|solve [qside]|solve [qside]]
  | set_att _ _ => eapply b_set_att; [exact HP|solve [qside]|intros; first [exact I|solve [auto]]]
  | merge _ _ _ _ => eapply b_merge; [exact HP|solve [qside]|solve [qside]|intros; cbv beta in *]
  | accept_batch _ _ _ _ _ =>
      first [ eapply b_accept_batch; [exact HP|lia|bprem HP|intros; cbv beta in *; qfacts; solve [quiet HP]]
            | eapply b_accept_then; [exact HP|lia|bprem HP|intros; cbv beta in *; qfacts; block HP] ]
  | with_best _ _ _ _ _ => eapply b_with_best; [exact HP|lia|lia|block HP]
  | trim_many _ _ _ _ _ _ => eapply b_trim_many; [exact HP|lia|lia|let i := fresh "i" in let Hi := fresh "Hi" in intros i Hi]
  | greedy_front _ _ _ _ _ _ _ => eapply b_greedy_front; bprem HP
  | greedy_twice _ _ _ _ _ _ _ => eapply b_greedy_twice; bprem HP
  end.
Ltac bmore0 HP m ::= lazymatch m with
  | replace_made _ _ _ _ => eapply b_replace_made; bprem HP
  | replace_made_each _ _ _ _ => eapply b_replace_made_each; bprem HP
  | with_best _ _ _ _ _ => eapply b0_with_best; [exact HP|lia|lia|block0 HP]
  | gen_set _ _ _ _ _ => eapply b0_gen_set; bprem HP
  | replace_list _ _ _ => eapply b0_replace_list; [exact HP|]
  end.
