(** Facts about [solve] for an arbitrary [evolve] (partial correctness: whenever solve returns). *)
From Verif Require Import Prelude Fl MCore SpecCore SpecRun PSelect PLogic PSolve PRun.

Lemma bindM_ok {A X Y Z} (m : M A X Y) (f : Y -> M A X Z) s r :
  bindM m f s = Ok r -> exists y s1, m s = Ok (y, s1) /\ f y s1 = Ok r.
Proof. unfold bindM. destruct (m s) as [[y s1]|e]; intros H; [eauto|discriminate]. Qed.
Lemma lift_ok {A X Y} (r : res Y) (s : st A X) y s' : lift r s = Ok (y, s') -> r = Ok y /\ s' = s.
Proof. unfold lift. destruct r; intros H; inversion H; auto. Qed.
Lemma tick_ok {A X} (s : st A X) k s' : tick s = Ok (k, s') -> k = s_ctr s /\ s' = bump s (S (s_ctr s)).
Proof. unfold tick; intros H; inversion H; auto. Qed.

Ltac minv H :=
  repeat match type of H with
  | bindM _ _ _ = Ok _ =>
      let y := fresh "y" in let s1 := fresh "s" in let H1 := fresh "H" in let H2 := fresh "H" in
      apply bindM_ok in H; destruct H as (y & s1 & H1 & H2); minv H1; rename H2 into H
  end.

Section Any.
Context {A X : Type}.
Variable E : env.
Variable P : problem.
Variable md : mode.

(** ** The loop as a sequence of epochs *)
Lemma main_loop_trace (al : @algo A X) tm n i s s' :
  main_loop E P al tm n i s = Ok (tt, s') <->
  exists e (tr : nat -> st A X) (rs : nat -> option reason),
    e <= n /\ tr 0 = s /\ tr e = s' /\
    (forall j, j < e -> epoch_step E P al tm (i + j) (tr j) = Ok (rs j, tr (S j))) /\
    (forall j, S j < e -> rs j = None) /\
    (e = n \/ exists r, 0 < e /\ rs (e - 1) = Some r).
Proof.
  revert i s. induction n as [|n IH]; intros i s; cbn [main_loop].
  - split.
    + intros H; inversion H; subst. exists 0, (fun _ => s'), (fun _ => None).
      split; [lia|]. split; [reflexivity|]. split; [reflexivity|]. split; [intros; lia|]. split; [intros; lia|left; reflexivity].
    + intros (e & tr & rs & He & H0 & H1 & _). assert (e = 0) by lia. subst e. rewrite H0 in H1. subst. reflexivity.
  - split.
    + intros H. apply bindM_ok in H. destruct H as (r & s1 & H1 & H2). destruct r as [r|].
      * inversion H2; subst. exists 1, (fun j => match j with 0 => s | _ => s' end), (fun _ => Some r).
        split; [lia|]. split; [reflexivity|]. split; [reflexivity|]. split; [|split; [intros; lia|right]].
        -- intros j Hj. assert (j = 0) by lia. subst. rewrite Nat.add_0_r. exact H1.
        -- exists r. split; [lia|reflexivity].
      * apply IH in H2. destruct H2 as (e & tr & rs & He & T0 & Te & Ts & Tn & Tl).
        exists (S e), (fun j => match j with 0 => s | S k => tr k end), (fun j => match j with 0 => None | S k => rs k end).
        split; [lia|]. split; [reflexivity|]. split; [exact Te|]. split; [|split].
        -- intros [|j] Hj; [rewrite Nat.add_0_r, T0; exact H1|]. rewrite <- Nat.add_succ_comm. apply Ts; lia.
        -- intros [|j] Hj; [reflexivity|apply Tn; lia].
        -- destruct Tl as [->|(r & Hr & Er)]; [left; reflexivity|]. right. exists r. split; [lia|].
           destruct e; [lia|]. simpl in *. rewrite Nat.sub_0_r in Er. exact Er.
    + intros (e & tr & rs & He & T0 & Te & Ts & Tn & Tl). destruct e as [|e].
      { destruct Tl as [Tl|(r & Hr & _)]; [discriminate|lia]. }
      unfold bindM. rewrite <- T0. pose proof (Ts 0 ltac:(lia)) as S0. rewrite Nat.add_0_r in S0. rewrite S0.
      destruct (rs 0) as [r0|] eqn:Er0.
      * destruct e as [|e]; [rewrite Te; reflexivity|]. rewrite (Tn 0) in Er0 by lia. discriminate.
      * apply IH. exists e, (fun j => tr (S j)), (fun j => rs (S j)).
        split; [lia|]. split; [reflexivity|]. split; [exact Te|]. split; [|split].
        -- intros j Hj. replace (S i + j) with (i + S j) by lia. apply Ts; lia.
        -- intros j Hj. apply Tn; lia.
        -- destruct Tl as [Tl|(r & _ & Er)]; [left; lia|].
           destruct e as [|e]; [simpl in Er; congruence|]. right. exists r. split; [lia|]. simpl in *. rewrite Nat.sub_0_r. exact Er.
Qed.

Lemma last_item_ok_fit (l : list (agent A)) x : last_item l = Ok x -> exists l', l = l' ++ [x].
Proof.
  intros H. destruct l as [|a l]; [discriminate|].
  destruct (last_item_nonempty (a :: l)) as (y & l' & Ey & El); [congruence|].
  rewrite El in H. inversion H; subst. eauto.
Qed.

(** What the loop asks after each epoch: the stopping rule on the counters at that moment. *)
Lemma epoch_step_verdict (al : @algo A X) tm ep s r s' :
  epoch_step E P al tm ep s = Ok (r, s') ->
  match tm with
  | None => r = None
  | Some t => exists fits k, map_res fitness (h_gb (s_hist s')) = Ok fits /\
      r = should_terminate t (Z.of_nat ep) (Z.of_nat (s_nfe s')) (e_time E k)
                           (Z.of_nat (repeated_times (tm_eps t) fits))
  end.
Proof.
  intros H. unfold epoch_step in H.
  apply bindM_ok in H; destruct H as (? & ? & _ & H).
  apply bindM_ok in H; destruct H as (? & ? & _ & H).
  apply bindM_ok in H; destruct H as (? & ? & _ & H).
  apply bindM_ok in H; destruct H as ([? ?] & ? & _ & H).
  apply bindM_ok in H; destruct H as (? & ? & _ & H).
  apply bindM_ok in H; destruct H as (? & ? & _ & H).
  apply bindM_ok in H; destruct H as (? & ? & _ & H).
  apply bindM_ok in H; destruct H as (? & ? & _ & H).
  apply bindM_ok in H; destruct H as (? & s9 & _ & H).
  unfold check_termination_end in H. destruct tm as [t|].
  - apply bindM_ok in H; destruct H as (sx & s10 & Hg & H). inversion Hg; subst sx s10; clear Hg.
    apply bindM_ok in H; destruct H as (es & s11 & He & H). apply lift_ok in He. destruct He as [He ->].
    apply bindM_ok in H; destruct H as (k & s12 & Hk & H). apply tick_ok in Hk. destruct Hk as [-> ->].
    inversion H; subst; clear H. simpl.
    unfold get_global_repeated_times in He. destruct (map_res fitness (h_gb (s_hist s9))) as [fits|] eqn:Ef; [|discriminate].
    simpl in He. inversion He; subst. exists fits, (s_ctr s9). auto.
  - inversion H; reflexivity.
Qed.

Definition all_wf (pop : list (agent A)) : Prop := Forall wf_agent pop.

Hypothesis Vmm : valid_mm (p_mm P).
Hypothesis Hargsort : argsort_ok (e_argsort E).

Record step_facts (s s' : st A X) (g c w v : agent A) : Prop := mkSF {
  sf_gb : h_gb (s_hist s') = h_gb (s_hist s) ++ [g];
  sf_cb : h_cb (s_hist s') = h_cb (s_hist s) ++ [c];
  sf_gw : h_gw (s_hist s') = h_gw (s_hist s) ++ [w];
  sf_cw : h_cw (s_hist s') = h_cw (s_hist s) ++ [v];
  sf_gbf : h_gbf (s_hist s') = h_gbf (s_hist s) ++ [fit g];
  sf_cbf : h_cbf (s_hist s') = h_cbf (s_hist s) ++ [fit c];
  sf_time : List.length (h_time (s_hist s')) = S (List.length (h_time (s_hist s)));
  sf_div : List.length (h_div (s_hist s')) = S (List.length (h_div (s_hist s)));
  sf_pop : h_pop (s_hist s') = h_pop (s_hist s) ++ (if p_save_pop P then [s_pop s'] else []);
  sf_g : s_gb s' = Some g;
  sf_wf : all_wf (s_pop s') /\ wf_agent g /\ wf_agent c /\ wf_agent w /\ wf_agent v;
  sf_best : In c (s_pop s') /\ forall a, In a (s_pop s') -> npord (p_mm P) (fit c) (fit a);
  sf_worst : In v (s_pop s') /\ forall a, In a (s_pop s') -> npord (p_mm P) (fit a) (fit v);
  sf_chain : exists g0, last_item (h_gb (s_hist s)) = Ok g0 /\ (g = c \/ g = g0) /\
     (num (fit c) -> num (fit g0) -> no_worse (p_mm P) (fit g) (fit c) /\ no_worse (p_mm P) (fit g) (fit g0)) /\
     (p_mm P = Min -> num (fit g0) -> no_worse Min (fit g) (fit g0));
  sf_chainw : exists w0, last_item (h_gw (s_hist s)) = Ok w0 /\ (w = v \/ w = w0) /\
     (num (fit v) -> num (fit w0) -> no_worse (p_mm P) (fit v) (fit w) /\ no_worse (p_mm P) (fit w0) (fit w)) }.

Lemma epoch_step_any (al : @algo A X) starting tm ep s r s' : tame P md al starting ->
  all_wf (s_pop s) -> all_wf (h_gb (s_hist s)) -> all_wf (h_gw (s_hist s)) ->
  epoch_step E P al tm ep s = Ok (r, s') -> exists g c w v, step_facts s s' g c w v.
Proof.
  intros HT W1 W2 W3 H. unfold epoch_step in H.
  apply bindM_ok in H; destruct H as (k0 & s1 & Hk & H). apply tick_ok in Hk. destruct Hk as [-> ->].
  apply bindM_ok in H; destruct H as ([] & s2 & Hev & H).
  destruct (ta_evolve _ _ _ _ HT _ (bump s (S (s_ctr s))) _ _ W1 Hev) as [Eh Wp]. simpl in Eh.
  apply bindM_ok in H; destruct H as (p & s3 & Hp & H). inversion Hp; subst p s3; clear Hp.
  apply bindM_ok in H; destruct H as ([sp gb] & s4 & Hu & H).
  unfold update_global_best_agent in Hu.
  apply bindM_ok in Hu; destruct Hu as ([sp' ix] & s5 & Hs & Hu). apply lift_ok in Hs. destruct Hs as [Hs ->].
  apply bindM_ok in Hu; destruct Hu as (c & s5 & Hc & Hu). apply lift_ok in Hc. destruct Hc as [Hc ->].
  apply bindM_ok in Hu; destruct Hu as (v & s5 & Hv & Hu). apply lift_ok in Hv. destruct Hv as [Hv ->].
  apply bindM_ok in Hu; destruct Hu as (sx & s5 & Hx & Hu). inversion Hx; subst sx s5; clear Hx. cbv zeta in Hu.
  apply bindM_ok in Hu; destruct Hu as (g0 & s5 & Hg0 & Hu). apply lift_ok in Hg0. destruct Hg0 as [Hg0 ->].
  apply bindM_ok in Hu; destruct Hu as (g & s5 & Hg & Hu). apply lift_ok in Hg. destruct Hg as [Hg ->].
  apply bindM_ok in Hu; destruct Hu as (w0 & s5 & Hw0 & Hu). apply lift_ok in Hw0. destruct Hw0 as [Hw0 ->].
  apply bindM_ok in Hu; destruct Hu as (w & s5 & Hw & Hu). apply lift_ok in Hw. destruct Hw as [Hw ->].
  apply bindM_ok in Hu; destruct Hu as (u & s5 & Hset & Hu). inversion Hset; subst u s5; clear Hset.
  inversion Hu; subst sp' gb s4; clear Hu.
  (* sorting facts *)
  assert (TG : Forall has_target (s_pop s2)) by (eapply Forall_impl; [|exact Wp]; intros a; apply wf_has_target).
  assert (NE : s_pop s2 <> []).
  { intros C. rewrite C in Hs. unfold get_sorted_population in Hs. simpl in Hs.
    destruct (Hargsort []) as [HP _]. simpl in HP. apply Permutation_sym, Permutation_nil in HP. rewrite HP in Hs.
    destruct (p_mm P); simpl in Hs; inversion Hs; subst; discriminate Hc. }
  destruct (sorted_best_worst (e_argsort E) Hargsort (s_pop s2) (p_mm P) TG NE)
    as (sp0 & ix0 & b0 & v0 & E1 & HP & E2 & E3 & Hb & Hvv & Bb & Bw).
  rewrite Hs in E1. inversion E1; subst sp0 ix0. rewrite Hc in E2; inversion E2; subst b0.
  rewrite Hv in E3; inversion E3; subst v0. clear E1 E2 E3.
  assert (Wc : wf_agent c) by (unfold all_wf in Wp; rewrite Forall_forall in Wp; apply Wp; exact Hb).
  assert (Wv : wf_agent v) by (unfold all_wf in Wp; rewrite Forall_forall in Wp; apply Wp; exact Hvv).
  rewrite Eh in Hg0, Hw0.
  assert (Wg0 : wf_agent g0).
  { unfold all_wf in W2; rewrite Forall_forall in W2. apply W2. apply last_item_In in Hg0; exact Hg0. }
  assert (Ww0 : wf_agent w0).
  { unfold all_wf in W3; rewrite Forall_forall in W3. apply W3. apply last_item_In in Hw0; exact Hw0. }
  destruct (get_better_agent_spec c g0 (p_mm P) Wc Wg0 Vmm) as (r1 & R1 & R2 & R3 & _).
  rewrite Hg in R1; inversion R1; subst r1; clear R1.
  destruct (get_better_agent_rev_spec v w0 (p_mm P) Wv Ww0 Vmm) as (r1 & R1 & Q2 & Q3).
  rewrite Hw in R1; inversion R1; subst r1; clear R1.
  apply bindM_ok in H; destruct H as (u & s4 & Hset & H). inversion Hset; subst u s4; clear Hset.
  apply bindM_ok in H; destruct H as (u & s4 & Hsort & H).
  match type of Hsort with when _ _ ?st0 = _ => set (s3 := st0) in * end.
  assert (exists p2, s4 = with_pop s3 p2 /\ Permutation p2 (s_pop s2)).
  { unfold when in Hsort. destruct (al_sort al); inversion Hsort.
    - exists sp. split; [reflexivity|exact HP].
    - exists (s_pop s2). split; reflexivity. }
  destruct H0 as (p2 & -> & HP2). clear Hsort.
  apply bindM_ok in H; destruct H as (k1 & s4 & Hk & H). apply tick_ok in Hk. destruct Hk as [-> ->].
  apply bindM_ok in H; destruct H as (p' & s4 & Hp & H). inversion Hp; subst p' s4; clear Hp. simpl in H.
  apply bindM_ok in H; destruct H as (u' & s4 & Htr & H).
  assert (W2p : all_wf p2).
  { unfold all_wf in *. rewrite Forall_forall in *. intros a Ha. apply Wp. eapply Permutation_in; eauto. }
  unfold track_optimize_step in Htr.
  apply bindM_ok in Htr; destruct Htr as (sx & s5 & Hx & Htr). inversion Hx; subst sx s5; clear Hx. cbv zeta in Htr.
  apply bindM_ok in Htr; destruct Htr as (dup & s5 & Hd & Htr). apply lift_ok in Hd. destruct Hd as [Hd ->].
  apply bindM_ok in Htr; destruct Htr as (gl & s5 & Hgl & Htr). apply lift_ok in Hgl. destruct Hgl as [Hgl ->].
  apply bindM_ok in Htr; destruct Htr as (gf & s5 & Hgf & Htr). apply lift_ok in Hgf. destruct Hgf as [Hgf ->].
  apply bindM_ok in Htr; destruct Htr as (cl & s5 & Hcl & Htr). apply lift_ok in Hcl. destruct Hcl as [Hcl ->].
  apply bindM_ok in Htr; destruct Htr as (cf & s5 & Hcf & Htr). apply lift_ok in Hcf. destruct Hcf as [Hcf ->].
  simpl in Hgl, Hcl. rewrite last_item_app in Hgl, Hcl. inversion Hgl; subst gl. inversion Hcl; subst cl.
  assert (Wg : wf_agent g) by (destruct R2; subst; assumption).
  assert (Ww : wf_agent w) by (destruct Q2; subst; assumption).
  rewrite (fitness_fit _ (wf_has_target _ Wg)) in Hgf. inversion Hgf; subst gf.
  rewrite (fitness_fit _ (wf_has_target _ Wc)) in Hcf. inversion Hcf; subst cf.
  assert (Hdup : dup = if p_save_pop P then [p2] else []).
  { destruct (p_save_pop P); [|inversion Hd; reflexivity]. unfold duplicate_pop in Hd.
    rewrite (map_res_all_ok _ (fun a => a)) in Hd; [rewrite map_id in Hd; inversion Hd; reflexivity|].
    intros a Ha. apply agent_copy_wf. unfold all_wf in W2p. rewrite Forall_forall in W2p; auto. }
  subst dup.
  inversion Htr; subst u' s4; clear Htr.
  assert (Hend : exists k, s' = bump (mkSt p2 (Some g) (s_gw s2)
     (mkHist (h_gb (s_hist s) ++ [g]) (h_cb (s_hist s) ++ [c]) (h_gw (s_hist s) ++ [w]) (h_cw (s_hist s) ++ [v])
        (h_gbf (s_hist s) ++ [fit g]) (h_cbf (s_hist s) ++ [fit c])
        (h_time (s_hist s) ++ [fsub (e_time E (s_ctr (with_pop s3 p2))) (e_time E (s_ctr s))])
        (h_div (s_hist s) ++ [diversity P (map sol p2)])
        (h_pop (s_hist s) ++ (if p_save_pop P then [p2] else []))
        (h_expl (s_hist s)) (h_expt (s_hist s)) (h_epoch (s_hist s)))
      (s_nfe s2) 0 (s_log s2) (s_x s2)) k).
  { unfold check_termination_end in H. destruct tm as [t|].
    - apply bindM_ok in H; destruct H as (sx & s10 & Hgt & H). inversion Hgt; subst sx s10; clear Hgt.
      apply bindM_ok in H; destruct H as (es & s11 & He & H). apply lift_ok in He. destruct He as [He ->].
      apply bindM_ok in H; destruct H as (k & s12 & Hk & H). apply tick_ok in Hk. destruct Hk as [-> ->].
      inversion H; subst. eexists. simpl. unfold bump. simpl. rewrite Eh. reflexivity.
    - inversion H; subst. eexists. simpl. unfold bump. simpl. rewrite Eh. reflexivity. }
  destruct Hend as (k & ->). clear H.
  exists g, c, w, v. constructor; simpl; auto.
  - rewrite app_length; simpl; lia.
  - rewrite app_length; simpl; lia.
  - split; [eapply Permutation_in; [symmetry; exact HP2|exact Hb]|].
    intros a Ha. apply Bb. eapply Permutation_in; eauto.
  - split; [eapply Permutation_in; [symmetry; exact HP2|exact Hvv]|].
    intros a Ha. apply Bw. eapply Permutation_in; eauto.
  - exists g0. split; [exact Hg0|]. split; [exact R2|]. split; [exact R3|].
    intros Em Ng. unfold get_better_agent in Hg. rewrite Em in Hg. simpl in Hg.
    rewrite (fitness_fit _ (wf_has_target _ Wc)), (fitness_fit _ (wf_has_target _ Wg0)) in Hg. simpl in Hg.
    destruct (flt (fit c) (fit g0)) eqn:Ef; rewrite agent_copy_wf in Hg by assumption; inversion Hg; subst g.
    + simpl. apply flt_le; exact Ef.
    + simpl. apply fle_refl; exact Ng.
  - exists w0. auto.
Qed.

Lemma after_initialization_any sort (s : st A X) u s' : all_wf (s_pop s) -> s_hist s = hist_new ->
  after_initialization E P sort s = Ok (u, s') ->
  exists b w, s_gb s' = Some b /\ s_gw s' = Some w /\ all_wf (s_pop s') /\ Permutation (s_pop s') (s_pop s) /\
    s_hist s' = mkHist [b] [b] [w] [w] [] [] [] [] [] [] [] None /\
    In b (s_pop s') /\ In w (s_pop s') /\ s_nfe s' = s_nfe s /\
    (forall a, In a (s_pop s') -> npord (p_mm P) (fit b) (fit a) /\ npord (p_mm P) (fit a) (fit w)).
Proof.
  intros W Hh H. unfold after_initialization in H.
  apply bindM_ok in H; destruct H as (p & s1 & Hp & H). inversion Hp; subst p s1; clear Hp.
  apply bindM_ok in H; destruct H as ([[sp best] worst] & s1 & Hs & H). apply lift_ok in Hs. destruct Hs as [Hs ->].
  assert (TG : Forall has_target (s_pop s)) by (eapply Forall_impl; [|exact W]; intros a; apply wf_has_target).
  assert (NE : s_pop s <> []).
  { intros C. rewrite C in Hs. unfold get_special_agents, get_sorted_population in Hs. simpl in Hs.
    destruct (Hargsort []) as [HP _]. simpl in HP. apply Permutation_sym, Permutation_nil in HP. rewrite HP in Hs.
    destruct (p_mm P); simpl in Hs; inversion Hs; subst; simpl in H;
      apply bindM_ok in H; destruct H as (b & s1 & Hb & H); discriminate Hb. }
  destruct (sorted_best_worst (e_argsort E) Hargsort (s_pop s) (p_mm P) TG NE)
    as (sp0 & ix0 & b & w & E1 & HP & E2 & E3 & Hb & Hw & Bb & Bw).
  assert (Wb : wf_agent b) by (unfold all_wf in W; rewrite Forall_forall in W; apply W; exact Hb).
  assert (Ww : wf_agent w) by (unfold all_wf in W; rewrite Forall_forall in W; apply W; exact Hw).
  assert (ES : get_special_agents (e_argsort E) (s_pop s) (Some 1) (Some 1) (p_mm P) = Ok (sp0, Some [b], Some [w])).
  { unfold get_special_agents. rewrite E1. simpl.
    destruct sp0 as [|b' sp']; [discriminate|]. simpl in E2. inversion E2; subst b'.
    simpl. rewrite (agent_copy_wf b Wb). simpl.
    apply getitem_rev_last in E3. simpl in E3.
    destruct (rev sp' ++ [b]) as [|w' r] eqn:Er; [discriminate|]. simpl in E3. inversion E3; subst w'.
    simpl. rewrite (agent_copy_wf w Ww). reflexivity. }
  rewrite ES in Hs. inversion Hs; subst sp best worst; clear Hs.
  apply bindM_ok in H; destruct H as (b1 & s1 & Hx & H). apply lift_ok in Hx. destruct Hx as [Hx ->]. inversion Hx; subst b1.
  apply bindM_ok in H; destruct H as (w1 & s1 & Hy & H). apply lift_ok in Hy. destruct Hy as [Hy ->]. inversion Hy; subst w1.
  apply bindM_ok in H; destruct H as (u1 & s1 & Hz & H). inversion Hz; subst u1 s1; clear Hz.
  apply bindM_ok in H; destruct H as (u1 & s1 & Hz & H). inversion Hz; subst u1 s1; clear Hz.
  apply bindM_ok in H; destruct H as (u1 & s1 & Hsort & H).
  match type of Hsort with when _ _ ?st0 = _ => set (s3 := st0) in * end.
  assert (exists p2, s1 = with_pop s3 p2 /\ Permutation p2 (s_pop s)).
  { unfold when in Hsort. destruct sort; inversion Hsort.
    - exists sp0. split; [reflexivity|exact HP].
    - exists (s_pop s). split; reflexivity. }
  destruct H0 as (p2 & -> & HP2). clear Hsort.
  apply bindM_ok in H; destruct H as (sx & s1 & Hz & H). inversion Hz; subst sx s1; clear Hz.
  apply bindM_ok in H; destruct H as (h & s1 & Hz & H). apply lift_ok in Hz. destruct Hz as [Hz ->].
  unfold store_initial in Hz. rewrite (agent_copy_wf b Wb), (agent_copy_wf w Ww) in Hz. simpl in Hz.
  inversion Hz; subst h; clear Hz. rewrite Hh in H. inversion H; subst u s'; clear H. simpl.
  exists b, w. split; [reflexivity|]. split; [reflexivity|]. split; [|split; [exact HP2|]].
  - unfold all_wf in *. rewrite Forall_forall in *. intros a Ha. apply W. eapply Permutation_in; eauto.
  - split; [reflexivity|].
    split; [eapply Permutation_in; [symmetry; exact HP2|exact Hb]|].
    split; [eapply Permutation_in; [symmetry; exact HP2|exact Hw]|]. split; [reflexivity|].
    intros a Ha. split; [apply Bb|apply Bw]; eapply Permutation_in; eauto.
Qed.

(** ** Chains over a trace of epochs *)
Record chain (s0 : st A X) (tr : nat -> st A X) (e : nat) : Prop := mkChain {
  ch_len : forall j, j <= e ->
     List.length (h_gb (s_hist (tr j))) = S j /\ List.length (h_cb (s_hist (tr j))) = S j /\
     List.length (h_gw (s_hist (tr j))) = S j /\ List.length (h_cw (s_hist (tr j))) = S j /\
     List.length (h_time (s_hist (tr j))) = j /\ List.length (h_div (s_hist (tr j))) = j;
  ch_wf : all_wf (s_pop (tr e)) /\ all_wf (h_gb (s_hist (tr e))) /\ all_wf (h_gw (s_hist (tr e)));
  ch_gbf : h_gbf (s_hist (tr e)) = map fit (tl (h_gb (s_hist (tr e))));
  ch_cbf : h_cbf (s_hist (tr e)) = map fit (tl (h_cb (s_hist (tr e))));
  ch_pop : h_pop (s_hist (tr e)) = if p_save_pop P then map (fun j => s_pop (tr j)) (seq 1 e) else [];
  ch_min : p_mm P = Min -> (exists a, In a (s_pop (tr 0)) /\ num (fit a)) ->
     forall i j gi gj, i <= j -> j <= e -> nth_error (h_gb (s_hist (tr e))) i = Some gi ->
       nth_error (h_gb (s_hist (tr e))) j = Some gj -> no_worse Min (fit gj) (fit gi);
  ch_gb : forall j, j <= e -> exists g c w v,
      nth_error (h_gb (s_hist (tr e))) j = Some g /\ nth_error (h_cb (s_hist (tr e))) j = Some c /\
      nth_error (h_gw (s_hist (tr e))) j = Some w /\ nth_error (h_cw (s_hist (tr e))) j = Some v /\
      s_gb (tr j) = Some g /\
      In c (s_pop (tr j)) /\ In v (s_pop (tr j)) /\
      (forall a, In a (s_pop (tr j)) -> npord (p_mm P) (fit c) (fit a) /\ npord (p_mm P) (fit a) (fit v)) /\
      (exists i, i <= j /\ nth_error (h_cb (s_hist (tr e))) i = Some g) /\
      (exists i, i <= j /\ nth_error (h_cw (s_hist (tr e))) i = Some w) /\
      ((forall i a, i <= j -> In a (s_pop (tr i)) -> num (fit a)) ->
         forall i a, i <= j -> In a (s_pop (tr i)) -> no_worse (p_mm P) (fit g) (fit a) /\ no_worse (p_mm P) (fit a) (fit w)) }.

Lemma nth_error_snoc_lt {T} (l : list T) x j y : nth_error l j = Some y -> nth_error (l ++ [x]) j = Some y.
Proof. intros H. rewrite nth_error_app1; [exact H|]. apply nth_error_Some. congruence. Qed.
Lemma nth_error_snoc_eq {T} (l : list T) x : nth_error (l ++ [x]) (List.length l) = Some x.
Proof. rewrite nth_error_app2, Nat.sub_diag by lia. reflexivity. Qed.

Lemma chain_step_any al starting tm s0 tr e r : tame P md al starting -> chain s0 tr e ->
  epoch_step E P al tm (S e) (tr e) = Ok (r, tr (S e)) -> chain s0 tr (S e).
Proof.
  intros HT C HE. destruct (ch_wf _ _ _ C) as (W1 & W2 & W3).
  destruct (epoch_step_any al starting tm (S e) (tr e) r (tr (S e)) HT W1 W2 W3 HE) as (g & c & w & v & F).
  destruct (ch_len _ _ _ C e (le_n _)) as (L1 & L2 & L3 & L4 & L5 & L6).
  destruct (sf_wf _ _ _ _ _ _ F) as (F1 & F2 & F3 & F4 & F5).
  constructor.
  - intros j Hj. destruct (Nat.eq_dec j (S e)) as [->|Hne]; [|apply (ch_len _ _ _ C); lia].
    rewrite (sf_gb _ _ _ _ _ _ F), (sf_cb _ _ _ _ _ _ F), (sf_gw _ _ _ _ _ _ F), (sf_cw _ _ _ _ _ _ F),
      (sf_time _ _ _ _ _ _ F), (sf_div _ _ _ _ _ _ F), !app_length. simpl. lia.
  - split; [exact F1|]. split.
    + rewrite (sf_gb _ _ _ _ _ _ F). apply Forall_app; split; [exact W2|constructor; [exact F2|constructor]].
    + rewrite (sf_gw _ _ _ _ _ _ F). apply Forall_app; split; [exact W3|constructor; [exact F4|constructor]].
  - rewrite (sf_gbf _ _ _ _ _ _ F), (sf_gb _ _ _ _ _ _ F), (ch_gbf _ _ _ C), tl_app, map_app; [reflexivity|].
    intros Q; rewrite Q in L1; discriminate.
  - rewrite (sf_cbf _ _ _ _ _ _ F), (sf_cb _ _ _ _ _ _ F), (ch_cbf _ _ _ C), tl_app, map_app; [reflexivity|].
    intros Q; rewrite Q in L2; discriminate.
  - rewrite (sf_pop _ _ _ _ _ _ F), (ch_pop _ _ _ C). destruct (p_save_pop P); [|reflexivity].
    rewrite seq_S, map_app. simpl. reflexivity.
  - intros Em Ha i j gi gj Hij Hj Hgi Hgj. rewrite (sf_gb _ _ _ _ _ _ F) in Hgi, Hgj.
    pose proof (ch_min _ _ _ C Em Ha) as CM.
    apply nth_error_app_last in Hgj. destruct Hgj as [[Hjl Hgj]|[-> ->]].
    + apply nth_error_app_last in Hgi. destruct Hgi as [[Hil Hgi]|[-> ->]]; [|lia].
      apply (CM i j gi gj); auto. rewrite L1 in Hjl. lia.
    + destruct (sf_chain _ _ _ _ _ _ F) as (g0 & G1 & G2 & _ & G3).
      assert (Hg0 : nth_error (h_gb (s_hist (tr e))) e = Some g0).
      { destruct (last_item_ok_fit _ _ G1) as (l' & El). rewrite El in L1 |- *. rewrite app_length in L1; simpl in L1.
        rewrite nth_error_app2 by lia. replace (e - List.length l') with 0 by lia. reflexivity. }
      assert (N0 : num (fit g0)).
      { pose proof (CM e e g0 g0 (le_n _) (le_n _) Hg0 Hg0) as Q. apply no_worse_num in Q. apply Q. }
      specialize (G3 Em N0).
      apply nth_error_app_last in Hgi. destruct Hgi as [[Hil Hgi]|[-> ->]].
      * eapply no_worse_trans; [exact G3|]. apply (CM i e gi g0); auto. rewrite L1 in Hil; lia.
      * apply no_worse_refl; [left; reflexivity|]. apply no_worse_num in G3. apply G3.
  - destruct (sf_chain _ _ _ _ _ _ F) as (g0 & G1 & G2 & G3 & _).
    destruct (sf_chainw _ _ _ _ _ _ F) as (w0 & G1' & G2' & G3').
    destruct (sf_best _ _ _ _ _ _ F) as (B1 & B2). destruct (sf_worst _ _ _ _ _ _ F) as (B3 & B4).
    assert (N : forall j (x : agent A) l y, nth_error l j = Some x -> nth_error (l ++ [y]) j = Some x) by (intros; apply nth_error_snoc_lt; assumption).
    intros j Hj. destruct (Nat.eq_dec j (S e)) as [->|Hne].
    + exists g, c, w, v.
      rewrite (sf_gb _ _ _ _ _ _ F), (sf_cb _ _ _ _ _ _ F), (sf_gw _ _ _ _ _ _ F), (sf_cw _ _ _ _ _ _ F).
      pose proof (nth_error_snoc_eq (h_gb (s_hist (tr e))) g) as N1. rewrite L1 in N1.
      pose proof (nth_error_snoc_eq (h_cb (s_hist (tr e))) c) as N2. rewrite L2 in N2.
      pose proof (nth_error_snoc_eq (h_gw (s_hist (tr e))) w) as N3. rewrite L3 in N3.
      pose proof (nth_error_snoc_eq (h_cw (s_hist (tr e))) v) as N4. rewrite L4 in N4.
      destruct (ch_gb _ _ _ C e (le_n _)) as (ge & ce & we & ve & Q1 & Q2 & Q3 & Q4 & Q5 & Q6 & Q7 & Q8 & Q9 & Q10 & Q11).
      assert (g0 = ge).
      { destruct (last_item_ok_fit _ _ G1) as (l' & El). rewrite El in Q1, L1. rewrite app_length in L1; simpl in L1.
        rewrite nth_error_app2 in Q1 by lia. replace (e - List.length l') with 0 in Q1 by lia. simpl in Q1. congruence. }
      assert (w0 = we).
      { destruct (last_item_ok_fit _ _ G1') as (l' & El). rewrite El in Q3, L3. rewrite app_length in L3; simpl in L3.
        rewrite nth_error_app2 in Q3 by lia. replace (e - List.length l') with 0 in Q3 by lia. simpl in Q3. congruence. }
      subst g0 w0.
      repeat (split; [first [assumption|apply F]|]).
      split; [intros a Ha; split; [apply B2|apply B4]; exact Ha|].
      split; [|split].
      * destruct G2 as [->| ->]; [exists (S e); split; [lia|exact N2]|].
        destruct Q9 as (i & Hi & Ei). exists i. split; [lia|apply N; exact Ei].
      * destruct G2' as [->| ->]; [exists (S e); split; [lia|exact N4]|].
        destruct Q10 as (i & Hi & Ei). exists i. split; [lia|apply N; exact Ei].
      * intros HN i a Hi Ha.
        assert (Nc : num (fit c)) by (apply (HN (S e)); [lia|exact B1]).
        assert (Nv : num (fit v)) by (apply (HN (S e)); [lia|exact B3]).
        assert (Prev : forall i a, i <= e -> In a (s_pop (tr i)) -> no_worse (p_mm P) (fit ge) (fit a) /\ no_worse (p_mm P) (fit a) (fit we)).
        { apply Q11. intros i' a' Hi' Ha'. apply (HN i' a'); [lia|exact Ha']. }
        destruct (Prev e ce (le_n _) Q6) as [PA PB].
        pose proof (proj1 (no_worse_num _ _ _ PA)) as Nge. pose proof (proj2 (no_worse_num _ _ _ PB)) as Nwe.
        destruct (G3 Nc Nge) as [K1 K2]. destruct (G3' Nv Nwe) as [K3 K4].
        destruct (Nat.eq_dec i (S e)) as [->|Hie].
        -- assert (Na : num (fit a)) by (apply (HN (S e)); [lia|exact Ha]).
           split; [eapply no_worse_trans; [exact K1|]|eapply no_worse_trans; [|exact K3]]; apply npord_no_worse; auto.
        -- destruct (Prev i a ltac:(lia) Ha) as [P1 P2].
           split; eapply no_worse_trans; eauto.
    + destruct (ch_gb _ _ _ C j ltac:(lia)) as (gj & cj & wj & vj & Q1 & Q2 & Q3 & Q4 & Q5 & Q6 & Q7 & Q8 & (i1 & I1 & I2) & (i2 & I3 & I4) & Q11).
      exists gj, cj, wj, vj.
      rewrite (sf_gb _ _ _ _ _ _ F), (sf_cb _ _ _ _ _ _ F), (sf_gw _ _ _ _ _ _ F), (sf_cw _ _ _ _ _ _ F).
      repeat (split; [first [assumption|apply N; assumption]|]).
      split; [exists i1; split; [exact I1|apply N; exact I2]|].
      split; [exists i2; split; [exact I3|apply N; exact I4]|]. exact Q11.
Qed.

(** The complete picture of a successful run. *)
Theorem solve_any al tm starting s g s' :
  tame P md al starting ->
  solve E P md al tm starting s = Ok (g, s') ->
  exists e tr rs s0 tm',
    1 <= e <= al_epoch al /\ chain s0 tr e /\
    tm' = match tm with None => None
          | Some t => Some (mkTerm (tm_epoch t) (tm_fe t) (tm_time t) (tm_es t) (tm_eps t) (e_time E 0)) end /\
    run_trace E P md al tm starting s e tr rs /\
    (forall j, j < e -> epoch_step E P al tm' (S j) (tr j) = Ok (rs j, tr (S j))) /\
    (forall j, S j < e -> rs j = None) /\
    (e = al_epoch al \/ exists r, rs (e - 1) = Some r) /\
    s_gb (tr e) = Some g /\ s_gb s' = Some g /\ s_pop s' = s_pop (tr e) /\ s_nfe s' = s_nfe (tr e) /\ s_log s' = s_log (tr e) /\
    (let h := s_hist (tr e) in
     let expl := map (fun d => fmul (fZ 100) (fdiv d (fmaxl (h_div h)))) (h_div h) in
     s_hist s' = mkHist (tl (h_gb h)) (tl (h_cb h)) (tl (h_gw h)) (tl (h_cw h)) (h_gbf h) (h_cbf h)
                        (h_time h) (h_div h) (h_pop h) expl (map (fun x => fsub (fZ 100) x) expl)
                        (Some (List.length (h_div h)))).
Proof.
  intros HT H.
  pose proof (ta_init _ _ _ _ HT) as HI. pose proof (ta_before _ _ _ _ HT) as HB. unfold solve in H.
  apply bindM_ok in H; destruct H as (u & s1 & Hc & H). inversion Hc; subst u s1; clear Hc.
  apply bindM_ok in H; destruct H as (tm' & s1 & Ht & H).
  assert (Hf : fresh s1 /\ tm' = match tm with None => None
          | Some t => Some (mkTerm (tm_epoch t) (tm_fe t) (tm_time t) (tm_es t) (tm_eps t) (e_time E 0)) end).
  { unfold check_termination_start in Ht. destruct tm as [t|]; inversion Ht; subst; repeat split. }
  destruct Hf as [Hf Etm]. pose proof Ht as Ht0. clear Ht.
  apply bindM_ok in H; destruct H as (u1 & s2 & H1 & H).
  apply bindM_ok in H; destruct H as (u2 & s3 & H2 & H).
  apply bindM_ok in H; destruct H as (u3 & s4 & H3 & H).
  assert (Hini : (al_init_vars al ;;; before_initialization P md al starting ;;; al_init al) s1 = Ok (u3, s4)).
  { unfold bindM. rewrite H1, H2. exact H3. }
  destruct (HI _ _ _ Hf Hini) as [Hh4 W4]. pose proof (conj H1 (conj H2 H3)) as H123. clear H1 H2 H3 Hini.
  apply bindM_ok in H; destruct H as (u4 & s5 & H5 & H).
  destruct (after_initialization_any _ _ _ _ W4 Hh4 H5) as (b & w & G1 & G2 & W5 & HP5 & Hh5 & Hb & Hw & Hn5 & Hbw).
  apply bindM_ok in H; destruct H as (u5 & s6 & H6 & H). destruct (HB _ _ _ H6) as (Hh6 & Hp6 & Hg6).
  apply bindM_ok in H; destruct H as ([] & s7 & H7 & H).
  apply main_loop_trace in H7. destruct H7 as (e & tr & rs & He & T0 & Te & Ts & Tn & Tl).
  apply bindM_ok in H; destruct H as (u7 & s8 & H8 & H).
  assert (Wb : wf_agent b) by (unfold all_wf in W5; rewrite Forall_forall in W5; apply W5; exact Hb).
  assert (Ww : wf_agent w) by (unfold all_wf in W5; rewrite Forall_forall in W5; apply W5; exact Hw).
  assert (C0 : chain s6 tr 0).
  { constructor; rewrite ?T0, ?Hh6, ?Hh5; simpl; auto.
    - intros j Hj. assert (j = 0) by lia. subst j. rewrite T0, Hh6, Hh5. simpl. repeat split.
    - rewrite Hp6. split; [exact W5|]. split; repeat constructor; assumption.
    - destruct (p_save_pop P); reflexivity.
    - intros Em (a & Ha & Na) i j gi gj Hij Hj Hgi Hgj. assert (j = 0) by lia. subst j. assert (i = 0) by lia. subst i.
      simpl in Hgi, Hgj. inversion Hgi; subst gi. inversion Hgj; subst gj.
      rewrite Hp6 in Ha. destruct (Hbw a Ha) as [Q _]. rewrite Em in Q. simpl in Q. apply np_le_num in Q; [|exact Na].
      simpl. apply fle_refl. apply fle_true_nan in Q. apply Q.
    - intros j Hj. assert (j = 0) by lia. subst j. rewrite T0, Hp6, Hg6. exists b, b, w, w.
      simpl. repeat (split; [first [reflexivity|assumption]|]).
      split; [exists 0; split; [lia|reflexivity]|]. split; [exists 0; split; [lia|reflexivity]|].
      intros HN i a Hi Ha. assert (i = 0) by lia. subst i. rewrite T0, Hp6 in Ha.
      assert (HN' : forall a, In a (s_pop s5) -> num (fit a)).
      { intros a0 Ha0. apply (HN 0); [lia|]. rewrite T0, Hp6. exact Ha0. }
      destruct (Hbw a Ha). split; apply npord_no_worse; auto. }
  assert (Ce : chain s6 tr e).
  { clear H8 Te Tl Tn. assert (G : forall k, k <= e -> chain s6 tr k).
    { induction k as [|k IHk]; intros Hk; [exact C0|].
      apply (chain_step_any al starting tm' s6 tr k (rs k) HT); [apply IHk; lia|].
      apply (Ts k). lia. }
    apply G; lia. }
  (* e > 0: otherwise track_optimize_process fails *)
  subst s7. unfold track_optimize_process in H8.
  apply bindM_ok in H8; destruct H8 as (sx & s9 & Hx & H8). inversion Hx; subst sx s9; clear Hx. cbv zeta in H8.
  destruct (ch_len _ _ _ Ce e (le_n _)) as (_ & _ & _ & _ & _ & Ld).
  assert (Hpos : 1 <= e).
  { destruct e; [|lia]. destruct (h_div (s_hist (tr 0))); [discriminate|discriminate]. }
  assert (H8' : set_hist (A := A) (X := X) (let h := s_hist (tr e) in
     let expl := map (fun d => fmul (fZ 100) (fdiv d (fmaxl (h_div h)))) (h_div h) in
     mkHist (tl (h_gb h)) (tl (h_cb h)) (tl (h_gw h)) (tl (h_cw h)) (h_gbf h) (h_cbf h)
                        (h_time h) (h_div h) (h_pop h) expl (map (fun x => fsub (fZ 100) x) expl)
                        (Some (List.length (h_div h)))) (tr e) = Ok (u7, s8)).
  { destruct (h_div (s_hist (tr e))) as [|d r] eqn:Ed; [discriminate|]. cbv zeta. rewrite Ed. exact H8. }
  clear H8. inversion H8'; subst u7 s8; clear H8'.
  unfold get_gb in H. simpl in H. destruct (s_gb (tr e)) as [ge|] eqn:Ege; [|discriminate].
  inversion H; subst ge s'; clear H.
  exists e, tr, rs, s6, tm'. split; [lia|]. split; [exact Ce|]. split; [exact Etm|]. split; [|split; [exact Ts|]].
  { exists tm'. split; [|exact Ts]. destruct H123 as (H1 & H2 & H3). unfold prepare.
    unfold bindM at 1. unfold check_problem. unfold bindM at 1. rewrite Ht0. unfold bindM. rewrite H1, H2, H3, H5, H6, T0. reflexivity. }
  split; [exact Tn|]. split; [destruct Tl as [Tl|(r & _ & Er)]; eauto|]. split; [exact Ege|]. simpl.
  repeat split; auto.
Qed.

End Any.
