(** C64, C65: the remaining grey-wolf and whale classes of MClass5. *)
From Verif Require Import Prelude Fl MCore MHelp MAlg MAlg2 MAlg3 MClass5 SpecCore SpecRun PSelect PLogic PSolve PRun SpecAlg PAlg PFree PClass PAlg2 PAlg3 PAlg4 PSpace Demo.

(** New agents may be generated by worker processes, whose evaluations the counter misses: the statement leaves
    process mode out. *)
Theorem C65_HI_WOA E P md feedback_max n epochs : 5 <= n -> 0 < epochs -> md <> Process ->
  sound_run E P md (hi_woa E P md feedback_max n epochs) (fun _ => True) false n (n + n / 2).
Proof.
  intros. apply gen_plain. assert (Hh : n / 2 <= n) by (apply Nat.div_le_upper_bound; lia).
  state_free (fun x : nat => True).
  - exact I.
  - unfold hi_woa_evolve. set (h := n / 2) in *; clearbody h. gcounts HP.
Qed.
Theorem C65_CG_GWO E P n epochs : 5 <= n -> 0 < epochs ->
  sound_run E P Single (cg_gwo E P n epochs) (fun _ => True) false (n + 3) (2 * n + 3).
Proof. plainfree. unfold cg_gwo_evolve, cg_mutation, explore. gcounts HP. Qed.
(** The opposite of an admissible solution is admissible: OGWO and IOBL_GWO evaluate opposite positions as they are. *)
Definition opposite_ok (P : problem) (feas : vec -> Prop) : Prop := forall x, feas x -> feas (opposite P x).
Theorem C65_IOBL_GWO E P n epochs : 5 <= n -> 0 < epochs ->
  sound_run_gen E P Single (iobl_gwo E P n epochs) (fun _ => True) (opposite_ok P) (fun _ => True) (eq n) false n n (n + 3) (2 * n + 3).
Proof.
  intros. state_free (fun _ : unit => True).
  assert (HO : forall w a, ok P feas (@anyatt unit) w a -> feas (opposite P (sol a))) by (intros w1 a Ha; apply HH, Ha).
  unfold iobl_gwo_evolve, explore. gcounts HP.
Qed.

(** OGWO. *)
Section OGWO.
Variable E : env.
Variable P : problem.
Variable feas : vec -> Prop.
Variable IX : list vec -> unit -> Prop.
Variable cov : Prop.
Variables nd n0 n : nat.
Hypothesis HP : params E P feas (@anyatt unit) cov.
Hypothesis HO : opposite_ok P feas.
Hypothesis Hn : 0 < n.
Lemma b_oppose s0 : blk P feas (@anyatt unit) (eq n) IX cov nd n0 n s0 n n (oppose E P n) (fun _ => True).
Proof.
  intros W l s HR. pose proof HR as (V & Hl & _). unfold oppose. apply wp_bind, wp_get_pop. apply wp_bind.
  eapply wp_evals; [exact HR| |].
  - intros a Ha W1 l1 s1 K R1 HK. eapply wp_gen_at; [exact HP|qgea|exact R1| |exact HK].
    apply HO. pose proof (Ev_pop_good _ _ _ _ _ _ _ _ _ _ _ _ V Ha) as G. apply G.
  - intros new s' Ln R' Hp. eapply wp_trim; [exact HP|exact R'|lia|reflexivity|]. intros s'' R''.
    split; [exact I|]. exists n. split; [lia|]. rewrite Hl in R''. exact R''.
Qed.
Lemma start_oppose s : Start P feas (@anyatt unit) (eq n) IX cov nd n0 s ->
  wp (oppose E P n) (fun _ s' => Start P feas (@anyatt unit) (eq n) IX cov nd n0 s' /\
     List.length (s_log s) + n <= List.length (s_log s') <= List.length (s_log s) + n) s.
Proof.
  intros HS. pose proof (B_start _ _ _ _ _ _ _ _ _ HS) as HB. unfold oppose. apply wp_bind, wp_get_pop. apply wp_bind.
  apply wp_for_list with (I := fun pre acc s' => B P feas (@anyatt unit) IX cov nd n0 n acc (List.length (s_log s) + List.length pre) s').
  - simpl. rewrite Nat.add_0_r. exact HB.
  - intros pre a suf acc s' Ea B1. apply wp_bind. unfold gen_at, generate_empty_agent. apply wp_bind, wp_ret.
    eapply B_evaluate; [exact HP|exact B1| |].
    + split; [|intros; exact I]. simpl. apply HO. pose proof (b_good _ _ _ _ _ _ _ _ _ _ _ HB) as G. rewrite Forall_forall in G.
      apply (G a). rewrite Ea. apply in_or_app; right; left; reflexivity.
    + intros a' s'' _ B2 _ _ _ _. apply wp_ret. rewrite app_length. simpl. rewrite Nat.add_assoc. exact B2.
  - intros acc s' B1. rewrite (b_len _ _ _ _ _ _ _ _ _ _ _ HB) in B1.
    eapply B_trim with (W := []); [exact HP|exact B1|reflexivity|exact Hn|]. intros s'' B2 _. apply start_B in B2. destruct B2 as [S2 L2]. split; [exact S2|lia].
Qed.
End OGWO.
Theorem C64_OGWO E P md miu jumping n epochs : 5 <= n -> 0 < epochs ->
  sound_run_gen E P md (ogwo E P md miu jumping n epochs) (fun _ => True) (opposite_ok P) (fun _ => True) (eq n) true (n + n) (n + n) n (n + n).
Proof.
  intros Hn He. apply (sound_more E P md _ _ n epochs false (ret tt) (oppose E P n) (ret tt) (ogwo_evolve E P md miu jumping n epochs)
    (fun _ => True) (opposite_ok P) (fun _ => True) (fun _ => @anyatt unit) (fun _ _ _ => True) (fun _ _ _ => True) (fun _ _ _ => True)); auto; try lia.
  - intros feas rows _ _ Hp. apply plain_gea_ok, Hp.
  - intros feas Hp. apply ga_of_ok, plain_gea_ok, Hp.
  - intros feas Hp. apply vars_none; auto.
  - intros feas nd n0 s HP HO HS. apply start_oppose; auto; lia.
  - intros feas nd n0 s HP HO HI. eapply main_none. exact HI.
  - intros feas nd n0 HP HO. eapply contract_of; [exact HP|]. intros ep s0 Hep _.
    unfold ogwo_evolve. cbv zeta. eapply b0_mono; [|shelve|shelve|intros y T; exact T].
    eapply b0_blk. eapply b_qbind; [quiet HP|]. intros b _. eapply b_bind; [block HP|]. intros _ _.
    eapply b_qbind; [quiet HP|]. intros u _. eapply b_whenm. intros _. apply b_oppose; [exact HP|exact HO|lia].
    Unshelve. all: lia.
Qed.

(** RW_GWO: the moved leaders are held outside the population until the final selection. *)
Section RW.
Variable E : env.
Variable P : problem.
Variable md : mode.
Variable feas : vec -> Prop.
Variable cov : Prop.
Variables nd n0 n : nat.
Variable s0 : st unit unit.
Hypothesis HP : params E P feas (@anyatt unit) cov.
Notation R := (R P feas (@anyatt unit) (eq n) (fun _ _ => True) cov nd n0 n s0).
Notation qt := (qt P feas (@anyatt unit) (eq n) (fun _ _ => True) cov nd n0 n s0).
Notation good := (good P feas (@anyatt unit)).
Lemma wp_improve_list W l s best cand (Q : list (agent unit) -> st unit unit -> Prop) : R W l s -> Forall (good (s_log s)) best ->
  (forall i b, wf_agent b -> feas (sol b) -> qt (cand i b) (fun _ => True)) ->
  (forall r s', List.length r = List.length best -> R (W ++ r) (l + List.length best) s' -> s_pop s' = s_pop s -> Q r s') ->
  wp (improve_list P md best cand) Q s.
Proof.
  intros HR Gb Hc HQ. unfold improve_list. apply wp_bind.
  apply wp_for_acc with (I := fun k r s' => List.length (fst r) = List.length best /\ List.length (snd r) = k /\ s_pop s' = s_pop s /\
     if is_avail md then fst r = best /\ R W l s' /\ Forall (fresh_agent feas (@anyatt unit)) (snd r) /\ Forall (good (s_log s')) best
     else R (W ++ fst r) (l + k) s').
  - cbn [fst snd]. split; [reflexivity|]. split; [reflexivity|]. split; [reflexivity|]. destruct (is_avail md).
    + split; [reflexivity|]. split; [exact HR|]. split; [constructor|exact Gb].
    + rewrite Nat.add_0_r. eapply R_hold; [exact HR|exact Gb].
  - intros k [q new] s1 Hk (L1 & L2 & Ep & HI). cbn [fst snd] in *.
    destruct (getitem_lt q k) as (b & Eb & Enb & Hb); [lia|]. apply wp_bind. eapply wp_lift; [exact Eb|].
    assert (Gbb : good (s_log s1) b).
    { destruct (is_avail md).
      - destruct HI as (-> & _ & _ & G). rewrite Forall_forall in G; auto.
      - destruct HI as (V & _). eapply Ev_W_good; [exact V|apply in_or_app; auto]. }
    assert (HR1 : exists W1 l1, R W1 l1 s1) by (destruct (is_avail md); [destruct HI as (_ & H & _); eauto|eauto]).
    destruct HR1 as (W1 & l1 & HR1).
    apply wp_bind. eapply wp_mono; [eapply (Hc k b); [eapply good_wf; exact Gbb|apply Gbb|exact HR1]|]. intros x s2 [_ N2].
    apply wp_bind. eapply wp_mono; [eapply q_propose with (feas := feas) (attok := @anyatt unit); [qcorrect HP|qgea|eapply R_near; [exact HR1|exact N2]]|].
    intros a s3 [Ha N3]. pose proof (near_trans _ _ _ _ N2 N3) as N.
    destruct (is_avail md).
    + apply wp_ret. cbn [fst snd]. destruct HI as (-> & H1 & H2 & H3). split; [reflexivity|]. split; [rewrite app_length; simpl; lia|].
      split; [rewrite (near_pop _ _ _ N); exact Ep|]. split; [reflexivity|]. split; [eapply R_near; eauto|].
      split; [apply Forall_app; auto|]. rewrite (near_log _ _ _ N). exact H3.
    + apply wp_bind. eapply wp_evaluate; [exact HP|eapply R_near; [exact HI|exact N]|exact Ha|].
      intros a' s4 Ga R4 Ep4 _ _ _. apply wp_bind.
      assert (Gb4 : good (s_log s4) b) by (destruct R4 as (V & _); eapply Ev_W_good; [exact V|apply in_or_app; left; apply in_or_app; auto]).
      destruct (good_get_better P feas (@anyatt unit) (pr_mm _ _ _ _ _ HP) _ a' b false Ga Gb4) as (c & Ec & _ & Gc & Hbest).
      eapply wp_lift; [exact Ec|]. apply wp_ret. cbn [fst snd]. split; [rewrite upd_length; exact L1|]. split; [rewrite app_length; simpl; lia|].
      split; [rewrite Ep4, (near_pop _ _ _ N); exact Ep|].
      assert (N4 : cov -> num (fit a') /\ num (fit b)) by (intros C; split; (eapply good_num; [apply HP; exact C|eassumption])).
      rewrite <- app_assoc in R4. replace (l + S k) with (l + k + 1) by lia. eapply R_exchange; [exact HP|exact R4| |].
      * apply upd_Forall; [|exact Gc]. apply Forall_forall. intros z Hz. destruct R4 as (V & _). eapply Ev_W_good; [exact V|]. rewrite !in_app_iff; auto.
      * intros C z Hz. destruct (N4 C) as [Na Nb]. destruct (Hbest Na Nb) as [B1 B2].
        assert (Hcin : In c (s_pop s4 ++ upd q k c)).
        { apply in_or_app; right. eapply nth_error_In. apply upd_nth_eq. lia. }
        apply in_app_or in Hz. destruct Hz as [Hz|[<-|[]]]; [|exists c; split; assumption].
        destruct (In_nth_error _ _ Hz) as (j & Hj). destruct (Nat.eq_dec j k) as [->|Hne].
        -- assert (z = b) by congruence. subst z. exists c. split; assumption.
        -- exists z. split; [apply in_or_app; right; eapply nth_error_In with (n := j); rewrite upd_nth_neq by auto; exact Hj|].
           apply no_worse_refl; [apply HP|]. eapply good_num; [apply HP; exact C|]. destruct R4 as (V & _). eapply Ev_W_good; [exact V|]. rewrite !in_app_iff; eauto.
  - intros [q new] s1 (L1 & L2 & Ep & HI). cbn [fst snd] in *. destruct (is_avail md) eqn:Hav.
    + destruct HI as (-> & HR1 & Hf & Gb1). apply wp_bind. apply wp_update_target_avail; [exact Hav|]. intros new' ->.
      destruct (R_batch E P feas (@anyatt unit) (eq n) (fun _ _ => True) cov nd n0 n s0 HP W l s1 new HR1 Hf) as [R2 G2].
      set (nn := map (fun a => with_tgt a (prob_target P (sol a))) new) in *.
      assert (Ln : List.length nn = List.length best) by (unfold nn; rewrite map_length; lia).
      assert (Gb2 : Forall (good (s_log (evald s1 (map sol new)))) best).
      { eapply Forall_impl; [|exact Gb1]. intros z. apply good_mono; [apply HP|]. apply incl_appl, incl_refl. }
      destruct (greedy_covers E P feas (@anyatt unit) cov HP _ best nn Gb2 G2) as (r & Er & Lr & Gr & Cr); [lia|].
      eapply wp_lift; [exact Er|]. apply HQ; [exact Lr| |simpl; exact Ep].
      assert (R3 : R (W ++ nn ++ best) (l + List.length new) (evald s1 (map sol new))) by (rewrite app_assoc; eapply R_hold; [exact R2|exact Gb2]).
      replace (List.length best) with (List.length new) by lia.
      eapply R_exchange; [exact HP|exact R3|exact Gr|].
      intros C z Hz. destruct (Cr C z) as (b & Hb & Hw); [rewrite in_app_iff in *; tauto|]. exists b. split; [apply in_or_app; auto|exact Hw].
    + apply wp_ret. apply HQ; [exact L1| |exact Ep]. exact HI.
Qed.
Lemma b_rw_gwo epochs ep : 5 <= n ->
  PAlg.blk P feas (@anyatt unit) (eq n) (fun _ _ => True) cov nd n0 n s0 (n + 3) (n + 3) (rw_gwo_evolve E P md n epochs ep) (fun _ => True).
Proof.
  intros Hn W l s HR. pose proof HR as (V & Hl & _). unfold rw_gwo_evolve. cbv zeta. apply wp_bind, wp_get_pop. apply wp_bind.
  eapply wp_special; [exact HP|apply (v_good _ _ _ _ _ _ _ _ _ _ _ V)|]. intros sp best w Lb Gb _. cbv beta iota zeta.
  replace (Nat.min 3 (List.length (s_pop s))) with 3 in Lb by lia.
  apply wp_bind. eapply wp_improve_list; [exact HR|exact Gb|intros i b Wb Fb; quiet HP|]. intros r s1 Lr R1 Ep. rewrite Lb in *.
  destruct (getitem_lt r 0) as (b1 & E1 & _ & _); [lia|]. destruct (getitem_lt r 1) as (b2 & E2 & _ & _); [lia|].
  destruct (getitem_lt r 2) as (b3 & E3 & _ & _); [lia|].
  apply wp_bind. eapply wp_lift; [exact E1|]. apply wp_bind. eapply wp_lift; [exact E2|]. apply wp_bind. eapply wp_lift; [exact E3|].
  apply wp_bind. eapply wp_mono.
  { eapply b_greedy_each; [exact HP|qcorrect HP|qgea|reflexivity| |exact R1]. intros i Hi. quiet HP. }
  intros y s2 (_ & k & Hk & R2). eapply wp_trim; [exact HP|exact R2|lia|reflexivity|]. intros s3 R3.
  split; [exact I|]. exists (3 + k). split; [lia|]. rewrite Nat.add_assoc. exact R3.
Qed.
End RW.
Theorem C64_RW_GWO E P md n epochs : 5 <= n -> 0 < epochs ->
  sound_run E P md (rw_gwo E P md n epochs) (fun _ => True) true (n + 3) (n + 3).
Proof.
  intros Hn He. plain. eapply b0_blk. apply b_rw_gwo; auto.
Qed.
Theorem C64_DS_GWO E P md n_groups n epochs : 5 <= n -> 0 < epochs -> 0 < n_groups <= n ->
  sound_run E P md (ds_gwo E P md n_groups n epochs) (fun _ => True) true 0 0.
Proof.
  intros Hn He Hg. apply gen_plain.
  eapply (state_elite _ _ _ _ _ _ _ _ _ _ _ _ (fun _ _ _ => True) (fun _ _ _ => True)); [lia|lia|..].
  - intros feas Hp. apply vars_none; auto.
  - intros feas nd n0 s HP _ HI.
    assert (Q : forall s0, qt P feas (@anyatt unit) (eq n) (fun _ _ => True) (true = true /\ obj_num P feas) nd n0 n s0 (ds_gwo_groups E P n n_groups) (fun _ => True)).
    { intros s0. unfold ds_gwo_groups. cbv zeta.
      assert (Hm : 0 < n / n_groups) by (apply Nat.div_str_pos; lia). assert (Hm2 : n_groups * (n / n_groups) <= n) by (apply Nat.mul_div_le; lia).
      set (m := n / n_groups) in *; clearbody m.
      eapply q_bind.
      - eapply q_for_acc with (I := fun k (l : list (agent unit)) => List.length l = k /\ Forall (fun a => wf_agent a /\ feas (sol a)) l); [split; [reflexivity|constructor]|].
        intros k l Hk (Lk & Gk). eapply q_bind; [apply q_get_pop|]. intros p (Lp & Gp). cbv beta.
        set (hi := if k =? n_groups - 1 then n else (k + 1) * m).
        assert (Hhi : k * m < hi <= n) by (unfold hi; destruct (Nat.eqb_spec k (n_groups - 1)); nia).
        assert (Gs : Forall (fun a => wf_agent a /\ feas (sol a)) (slice (k * m) hi p)).
        { apply Forall_forall. intros a Ha. rewrite Forall_forall in Gp. apply Gp. unfold slice in Ha.
          rewrite <- (firstn_skipn (k * m) p). apply in_or_app; right. rewrite <- (firstn_skipn (hi - k * m) (skipn (k * m) p)). apply in_or_app; auto. }
        eapply q_bind; [eapply q_sorted; [exact HP|exact Gs]|]. intros [g ix] (Lg & Gg & _). cbn [fst] in *.
        rewrite slice_length in Lg by lia. eapply q_bind; [eapply q_lift with (Φ := fun a => wf_agent a /\ feas (sol a))|].
        { destruct (getitem_lt g 0) as (b & Eb & _ & Hb); [lia|]. exists b. split; [exact Eb|]. rewrite Forall_forall in Gg; auto. }
        intros b Gb. apply q_ret. split; [rewrite app_length; simpl; lia|apply Forall_app; split; [exact Gk|constructor; [exact Gb|constructor]]].
      - intros cand (Lc & Gc). quiet HP; [apply q_argmax; rewrite map_length; lia|].
        cbv beta in *. rewrite map_length in *. eapply q_lift with (Φ := fun _ => True). destruct (getitem_lt cand y0) as (b & Eb & _); [lia|]. exists b. split; [exact Eb|exact I]. }
    assert (HR : R P feas (@anyatt unit) (eq n) (fun _ _ => True) (true = true /\ obj_num P feas) nd n0 n s [] (List.length (s_log s)) s).
    { split; [apply Ev_init; exact HI|]. split; [symmetry; apply (i_len _ _ _ _ _ _ _ _ _ HI)|reflexivity]. }
    eapply wp_mono; [apply (Q s _ _ s HR)|]. intros y s' (_ & N). exact N.
  - intros feas nd n0 ep s0 HP _ Hep. counts HP.
Qed.

Print Assumptions C65_HI_WOA.
Print Assumptions C65_CG_GWO.
Print Assumptions C65_IOBL_GWO.
Print Assumptions C64_OGWO.
Print Assumptions C64_RW_GWO.
Print Assumptions C64_DS_GWO.
