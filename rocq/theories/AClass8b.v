(** C64 (continued): every returned answer is the best ever evaluated, for the classes of MClass8 whose epochs need a
    block of their own. *)
From Verif Require Import Prelude Fl MCore MHelp MAlg MAlg2 MAlg3 MAlg4 MAlg5 MClass8 SpecCore SpecRun PSelect PLogic PSolve PRun SpecAlg PAlg PFree PClass PAlg2 PAlg3 PAlg4 PAlg5 PAlg6 Demo.

Theorem C64_BWO E P md n epochs : 5 <= n -> 0 < epochs -> sound_run E P md (original_bwo E P md n epochs) (fun _ => True) true n (2 * n).
Proof.
  plain. unfold bwo_evolve, bwo_fall. eapply b0_mono; [|shelve|shelve|intros y T; exact T]. eapply b0_blk.
  eapply b_bind with (c := 0) (d := n); [block HP|]. intros _ _. destruct (is_avail md).
  - eapply b_mono with (a := n * 0) (b := n * 1); [|lia|lia|intros y T; exact T].
    eapply b_batch_keep; [exact HP|]. intros i Hi. quiet HP. all: split; [cbn; lia|]; repeat constructor; try assumption; lia.
  - eapply b_mono with (a := n * 0) (b := n * 1); [|lia|lia|intros y T; exact T]. block HP.
  Unshelve. all: lia.
Qed.
Theorem C64_SeaHO E P md n epochs : 5 <= n -> 0 < epochs ->
  sound_run E P md (original_seaho E P md n epochs) (fun _ => True) true (n + n / 2) (n + n / 2).
Proof.
  plain. unfold seaho_evolve. assert (Hh : 0 < n / 2 /\ n / 2 <= n - n / 2).
  { pose proof (Nat.div_mod n 2). pose proof (Nat.mod_upper_bound n 2). lia. }
  set (h := n / 2) in *. clearbody h. eapply b0_qbind; [quiet HP|]. intros xs [Lx Fx]. intros W l s HR HO.
  apply wp_bind. eapply wp_new_agents; [exact HP|qcorrect HP|qgea|exact HR|intros i Hi; quiet HP|].
  intros new s1 L1 G1 R1 E1. apply wp_bind.
  edestruct (sorted_cov E P feas (@anyatt unit)) as (sp & ix & Es & Hp & Gs); [exact HP|exact G1|].
  eapply wp_lift; [exact Es|]. assert (Ls : Datatypes.length sp = n) by (rewrite (Permutation_length Hp); exact L1).
  apply wp_bind. eapply wp_new_agents; [exact HP|qcorrect HP|qgea|exact R1| |].
  { intros k Hk. assert (S1 : Forall (fun a => wf_agent a /\ feas (sol a)) sp).
    { eapply Forall_impl; [|exact Gs]. intros a Ga. split; [eapply good_wf; exact Ga|apply (g_feas _ _ _ _ _ Ga)]. }
    assert (Lf : Datatypes.length (firstn h sp) = h) by (rewrite firstn_length; lia).
    assert (Lk : Datatypes.length (skipn h sp) = n - h) by (rewrite skipn_length; lia).
    quiet HP. }
  intros off s2 L2 G2 R2 E2. apply wp_bind.
  assert (Gs2 : Forall (good P feas (@anyatt unit) (s_log s2)) (sp ++ off)).
  { apply Forall_app. split; [|exact G2]. rewrite <- app_assoc in R2. pose proof (R_held_good _ _ _ _ _ _ _ _ _ _ _ _ _ _ R2) as G.
    apply Forall_app in G. destruct G as [G _]. rewrite Forall_forall in *. intros a Ha. apply G. eapply Permutation_in; [exact Hp|exact Ha]. }
  edestruct (trimmed_cov E P feas (@anyatt unit)) with (p := sp ++ off) (m := n) as (q & Eq & Lq & Gq & Cq); [exact HP|exact Gs2|rewrite app_length; lia|].
  eapply wp_lift; [exact Eq|]. unfold wp, set_pop. split; [exact I|]. exists (n + h). split; [lia|].
  rewrite <- app_assoc in R2. replace (l + (n + h)) with (l + n + h) by lia. eapply R_replace_cov; [exact HP|exact R2| |exact Lq|exact Gq|].
  - unfold Old. rewrite E2, E1. exact HO.
  - eapply covers_trans; [exact Cq|]. eapply covers_incl with (L := s_log s2); [exact HP| |].
    + apply Forall_app. split; [|exact G2]. apply Forall_app in Gs2. destruct Gs2 as [Gs2 _]. rewrite Forall_forall in *. intros a Ha. apply Gs2.
      eapply Permutation_in; [symmetry; exact Hp|exact Ha].
    + intros a Ha. apply in_app_or in Ha. apply in_or_app. destruct Ha as [Ha|Ha]; [left; eapply Permutation_in; [symmetry; exact Hp|exact Ha]|right; exact Ha].
Qed.
Lemma good_seen {A} P feas (attok : list vec -> A -> Prop) L p : Forall (good P feas attok L) p -> Forall (fun a => wf_agent a /\ feas (sol a)) p.
Proof. intros G. eapply Forall_impl; [|exact G]. intros a Ga. split; [eapply good_wf; exact Ga|apply (g_feas _ _ _ _ _ Ga)]. Qed.
Lemma b_ssa E P md feas nd n0 n s0 C name ST n1 n2 ep : params E P feas (@anyatt unit) C -> 0 < n ->
  blk P feas (@anyatt unit) (eq n) (fun _ _ => True) C nd n0 n s0 (n + (n - n2)) (n + (n - n2)) (ssa_evolve E P md name ST n1 n2 n ep) (fun _ => True).
Proof.
  intros HP Hn. unfold ssa_evolve, ssa_correct. eapply b_qbind; [quiet HP|]. intros r2 _. eapply b_bind; [block HP|]. intros _ _ W l s HR.
  apply wp_bind, wp_get_pop. apply wp_bind. pose proof (R_pop_all _ _ _ _ _ _ _ _ _ _ _ _ _ HR) as Gp.
  assert (Lp : Datatypes.length (s_pop s) = n) by apply HR.
  eapply wp_special_perm; [exact HP|exact Gp|]. intros sp b w Hp Gs Lb Gb Lw Gw. rewrite Lp in Lb, Lw.
  assert (Ls : Datatypes.length sp = n) by (rewrite (Permutation_length Hp); exact Lp).
  apply wp_bind. unfold wp at 1, set_pop.
  assert (R1 : R P feas (@anyatt unit) (eq n) (fun _ _ => True) C nd n0 n s0 W l (with_pop s sp)).
  { eapply R_set_cov with (V := []); [exact HP|rewrite app_nil_r; exact HR|exact Ls|exact Gs| |intros c a []].
    eapply covers_incl; [exact HP|exact Gp|]. intros a Ha. eapply Permutation_in; [symmetry; exact Hp|exact Ha]. }
  destruct b as [|b0 b]; [cbn [Datatypes.length] in Lb; lia|]. destruct w as [|w0 w]; [cbn [Datatypes.length] in Lw; lia|]. apply Forall_inv in Gb. apply Forall_inv in Gw.
  apply wp_bind. eapply wp_lift with (y := b0); [reflexivity|]. apply wp_bind. eapply wp_lift with (y := w0); [reflexivity|].
  assert (Gk : Forall (good P feas (@anyatt unit) (s_log s)) (skipn n2 sp)).
  { rewrite Forall_forall in *. intros a Ha. apply Gs. rewrite <- (firstn_skipn n2 sp). apply in_or_app; auto. }
  assert (Lk : Datatypes.length (skipn n2 sp) = n - n2) by (rewrite skipn_length; lia).
  assert (R2 : R P feas (@anyatt unit) (eq n) (fun _ _ => True) C nd n0 n s0 (W ++ skipn n2 sp) l (with_pop s sp)) by (eapply R_hold; [exact R1|exact Gk]).
  apply wp_bind. rewrite Lk in *. eapply wp_local_greedy; [exact HP|qcorrect HP|qgea|exact R2|lia|intros; lia| |].
  - intros cur i Hi Lc Fc. assert (S1 : wf_agent b0 /\ feas (sol b0)) by (split; [eapply good_wf; exact Gb|apply (g_feas _ _ _ _ _ Gb)]).
    assert (S2 : wf_agent w0 /\ feas (sol w0)) by (split; [eapply good_wf; exact Gw|apply (g_feas _ _ _ _ _ Gw)]). destruct S1, S2. quiet HP.
  - intros ls' s' Ll R3 Cv Ep. apply wp_bind, wp_get_pop. rewrite Ep. cbn [s_pop with_pop]. unfold wp, set_pop. split; [exact I|]. exists (n - n2). split; [lia|].
    eapply R_set_cov; [exact HP|exact R3|rewrite app_length, firstn_length; lia| | |].
    + apply Forall_app. split.
      * pose proof (R_pop_all _ _ _ _ _ _ _ _ _ _ _ _ _ R3) as G3. rewrite Ep in G3. cbn [s_pop with_pop] in G3. rewrite Forall_forall in *. intros a Ha. apply G3. rewrite <- (firstn_skipn n2 sp). apply in_or_app; auto.
      * eapply R_held_good; exact R3.
    + rewrite Ep. cbn [s_pop with_pop]. intros c a Ha. rewrite <- (firstn_skipn n2 sp) in Ha. apply in_app_or in Ha. destruct Ha as [Ha|Ha].
      * exists a. split; [apply in_or_app; auto|]. apply no_worse_refl; [apply HP|]. eapply good_num; [apply HP; exact c|].
        rewrite Forall_forall in Gs. apply Gs. rewrite <- (firstn_skipn n2 sp). apply in_or_app; left; exact Ha.
      * destruct (Cv c a Ha) as (x & Hx & N). exists x. split; [apply in_or_app; auto|exact N].
    + intros c a Ha. exists a. split; [apply in_or_app; auto|]. apply no_worse_refl; [apply HP|]. eapply good_num; [apply HP; exact c|].
      pose proof (R_held_good _ _ _ _ _ _ _ _ _ _ _ _ _ _ R3) as G3. rewrite Forall_forall in G3. apply G3; exact Ha.
Qed.
Theorem C64_DevSSA E P md ST PD SD n epochs : 5 <= n -> 0 < epochs ->
  sound_run E P md (dev_ssa E P md ST PD SD n epochs) (fun _ => True) true (n + (n - ssa_count SD n)) (n + (n - ssa_count SD n)).
Proof. plain. eapply b0_blk. apply b_ssa; [exact HP|lia]. Qed.
Theorem C64_OriginalSSA E P md ST PD SD n epochs : 5 <= n -> 0 < epochs ->
  sound_run E P md (original_ssa E P md ST PD SD n epochs) (fun _ => True) true (n + (n - ssa_count SD n)) (n + (n - ssa_count SD n)).
Proof. plain. eapply b0_blk. apply b_ssa; [exact HP|lia]. Qed.
Lemma b_ilco E P md feas nd n0 n s0 C epochs ep : params E P feas (@anyatt unit) C -> 5 <= n ->
  blk P feas (@anyatt unit) (eq n) (fun _ _ => True) C nd n0 n s0 (if is_avail md then 2 * n else n + 2 * (n / 2)) (if is_avail md then 2 * n else n + 2 * (n / 2))
    (ilco_evolve E P md n epochs ep) (fun _ => True).
Proof.
  intros HP Hn. unfold ilco_evolve, lco_cand. assert (Hh : 0 < n / 2 /\ n / 2 <= n - n / 2).
  { pose proof (Nat.div_mod n 2). pose proof (Nat.mod_upper_bound n 2). lia. }
  set (h := n / 2) in *. clearbody h.
  eapply b_mono with (a := n + (if is_avail md then n else 2 * h)) (b := n + (if is_avail md then n else 2 * h)); [|destruct (is_avail md); lia|destruct (is_avail md); lia|intros y T; exact T].
  eapply b_bind; [block HP|]. intros _ _ W l s HR.
  apply wp_bind, wp_get_pop. pose proof (R_pop_all _ _ _ _ _ _ _ _ _ _ _ _ _ HR) as Gp.
  assert (Lp : Datatypes.length (s_pop s) = n) by apply HR.
  edestruct (sorted_cov E P feas (@anyatt unit)) as (sp & ix & Es & Hp & Gs); [exact HP|exact Gp|].
  apply wp_bind. eapply wp_lift; [exact Es|]. assert (Ls : Datatypes.length sp = n) by (rewrite (Permutation_length Hp); exact Lp).
  apply wp_bind. destruct (nth_error sp 0) as [b|] eqn:Eb; [|apply nth_error_None in Eb; lia].
  eapply wp_lift with (y := b); [unfold getitem; rewrite Eb; reflexivity|].
  assert (Gb : good P feas (@anyatt unit) (s_log s) b) by (rewrite Forall_forall in Gs; apply Gs; eapply nth_error_In; exact Eb).
  assert (Gf : Forall (good P feas (@anyatt unit) (s_log s)) (skipn h sp ++ firstn h sp)).
  { apply Forall_app. split; rewrite Forall_forall in *; intros a Ha; apply Gs; rewrite <- (firstn_skipn h sp); apply in_or_app; auto. }
  assert (R1 : R P feas (@anyatt unit) (eq n) (fun _ _ => True) C nd n0 n s0 ((W ++ skipn h sp) ++ firstn h sp) l s).
  { rewrite <- app_assoc. eapply R_hold; [exact HR|exact Gf]. }
  assert (Lf : Datatypes.length (firstn h sp) = h) by (rewrite firstn_length; lia).
  assert (Lk : Datatypes.length (skipn h sp) = n - h) by (rewrite skipn_length; lia).
  apply wp_bind. eapply wp_local_greedy; [exact HP|qcorrect HP|qgea|exact R1|lia|intros; lia| |].
  { intros cur i Hi Lc Fc. quiet HP. }
  intros s1 st1 L1 Rs1 C1 E1.
  assert (Fin : forall s2 st2, Datatypes.length s2 = n - h -> s_pop st2 = s_pop s -> covers P C s2 (skipn h sp) ->
    R P feas (@anyatt unit) (eq n) (fun _ _ => True) C nd n0 n s0 ((W ++ s1) ++ s2) (l + (if is_avail md then n else 2 * h)) st2 ->
    wp (set_pop (s1 ++ s2)) (fun _ s' => True /\ exists k, (if is_avail md then n else 2 * h) <= k <= (if is_avail md then n else 2 * h) /\
       R P feas (@anyatt unit) (eq n) (fun _ _ => True) C nd n0 n s0 W (l + k) s') st2).
  { intros s2 st2 L2 E2 C2 R2. unfold wp, set_pop. split; [exact I|]. exists (if is_avail md then n else 2 * h). split; [lia|].
    rewrite <- app_assoc in R2. pose proof (R_held_good _ _ _ _ _ _ _ _ _ _ _ _ _ _ R2) as G2.
    eapply R_set_cov; [exact HP|exact R2|rewrite app_length; lia|exact G2| |].
    - rewrite E2. intros c a Ha. assert (Ha' : In a (firstn h sp ++ skipn h sp)) by (rewrite firstn_skipn; eapply Permutation_in; [symmetry; exact Hp|exact Ha]).
      apply in_app_or in Ha'. destruct Ha' as [Ha'|Ha']; [destruct (C1 c a Ha') as (x & Hx & N)|destruct (C2 c a Ha') as (x & Hx & N)]; exists x; (split; [apply in_or_app; auto|exact N]).
    - eapply covers_refl; [exact HP|exact G2]. }
  assert (R2 : R P feas (@anyatt unit) (eq n) (fun _ _ => True) C nd n0 n s0 ((W ++ s1) ++ skipn h sp) (l + h) st1).
  { eapply R_perm; [exact Rs1|]. rewrite <- !app_assoc. apply Permutation_app_head, Permutation_app_comm. }
  apply wp_bind. destruct (is_avail md) eqn:Em.
  - apply wp_bind. eapply wp_update_target_avail; [exact Em|]. intros nw ->.
    assert (Fr : Forall (fresh_agent feas (@anyatt unit)) (skipn h sp)).
    { apply Forall_app in Gf. destruct Gf as [Gf _]. eapply Forall_impl; [|exact Gf]. intros a Ga. split; [apply (g_feas _ _ _ _ _ Ga)|intros; exact I]. }
    destruct (R_batch E P feas (@anyatt unit) (eq n) (fun _ _ => True) C nd n0 n s0 HP _ _ _ _ R2 Fr) as [RB GB].
    assert (Gl : Forall (good P feas (@anyatt unit) (s_log (evald st1 (map sol (skipn h sp))))) (skipn h sp)).
    { rewrite <- app_assoc in RB. pose proof (R_held_good _ _ _ _ _ _ _ _ _ _ _ _ _ _ RB) as G. apply Forall_app in G. tauto. }
    destruct (greedy_covers E P feas (@anyatt unit) C HP _ _ _ Gl GB) as (r & Er & Lr & Gr & Cr); [rewrite map_length; reflexivity|].
    eapply wp_lift; [exact Er|]. apply Fin; [lia|exact E1| |].
    + intros c a Ha. apply Cr; [exact c|apply in_or_app; auto].
    + replace (l + n) with (l + h + (n - h)) by lia. rewrite Lk in RB. rewrite <- app_assoc in RB. eapply R_swap; [exact HP|exact RB|exact Gr|exact Cr].
  - eapply wp_local_greedy; [exact HP|qcorrect HP|qgea|exact R2|lia|intros; congruence| |].
    + intros cur i Hi Lc Fc. quiet HP.
    + intros s2 st2 L2 Rs2 C2 E2. apply Fin; [lia|congruence|exact C2|]. replace (l + 2 * h) with (l + h + h) by lia. exact Rs2.
Qed.
Theorem C64_ImprovedLCO E P md n epochs : 5 <= n -> 0 < epochs ->
  sound_run E P md (improved_lco E P md n epochs) (fun _ => True) true (if is_avail md then 2 * n else n + 2 * (n / 2)) (if is_avail md then 2 * n else n + 2 * (n / 2)).
Proof. plain. eapply b0_blk. apply b_ilco; [exact HP|lia]. Qed.
(** OriginalSOO in single mode. *)
Lemma b_soo_phase E P feas nd n0 n s0 C l0 cand : params E P feas (@anyatt unit) C ->
  (forall i, i < n -> qt P feas (@anyatt unit) (eq n) (fun _ _ => True) C nd n0 n s0 (cand i) (fun _ => True)) ->
  blk P feas (@anyatt unit) (eq n) (fun _ _ => True) C nd n0 n s0 n n (soo_phase P Single n l0 cand) (fun _ => True).
Proof.
  intros HP Hc. unfold soo_phase. change (is_avail Single) with false. cbv iota. eapply b_mono with (a := n * 1 + 0) (b := n * 1 + 0); [|lia|lia|intros y T; exact T].
  eapply b_bind with (Φ := fun _ => True); [|intros y _; apply b_ret; exact I].
  eapply b_for_acc; [exact I|]. intros k acc Hk _. eapply b_qbind; [apply Hc; exact Hk|]. intros x _.
  eapply b_qbind; [eapply q_propose with (feas := feas) (attok := @anyatt unit); [qcorrect HP|qgea]|]. intros a Ha. intros W l s HR.
  apply wp_bind. eapply wp_evaluate; [exact HP|exact HR|exact Ha|]. intros a' s1 Ga R1 E1 _ _ _. apply wp_bind.
  eapply wp_keep_better; [exact HP|exact R1|exact Ga|exact Hk|]. intros s2 R2. apply wp_ret. split; [exact I|]. exists 1. split; [lia|exact R2].
Qed.
Theorem C64_SOO E P n epochs : 5 <= n -> 0 < epochs -> sound_run E P Single (original_soo E P Single n epochs) (fun _ => True) true (2 * n) (2 * n).
Proof.
  plain. unfold soo_evolve. eapply b0_mono with (a := n + (n + 0)) (b := n + (n + 0)); [|lia|lia|intros y T; exact T]. eapply b0_blk.
  eapply b_bind; [eapply b_soo_phase; [exact HP|intros i Hi; quiet HP]|]. intros l1 _.
  eapply b_qbind; [eapply q_get_pop|]. cbv beta. intros p Hp. eapply b_qbind; [eapply q_specials; [exact HP|apply Hp]|]. intros r (sp & b & w & -> & Hb).
  eapply b_bind; [eapply b_soo_phase; [exact HP|intros i Hi; quiet HP]|]. intros l2 _. apply b_ret. exact I.
Qed.
(** GSKA: the three groups have at least two members each. *)
Definition gska_ok (pb : f64) (n : nat) : Prop := 2 <= gska_id1 pb n /\ gska_id1 pb n + 2 <= gska_id2 pb n /\ gska_id2 pb n + 2 <= n.
Lemma q_gska E P feas nd n0 n s0 C pb idx : params E P feas (@anyatt unit) C -> gska_ok pb n ->
  qt P feas (@anyatt unit) (eq n) (fun _ _ => True) C nd n0 n s0 (gska_groups E pb n idx) (fun r => let '(b, w, m) := r in b < n /\ w < n /\ m < n).
Proof.
  intros HP (H1 & H2 & H3). unfold gska_groups. cbv zeta. set (id1 := gska_id1 pb n) in *. set (id2 := gska_id2 pb n) in *.
  eapply q_bind; [apply q_choice1; apply others_ne; cbn; lia|]. intros b Hb. apply others_in in Hb.
  eapply q_bind; [apply q_choice1; apply others_ne; cbn [Datatypes.length]; rewrite seq_length; lia|]. intros w Hw. apply others_in in Hw.
  eapply q_bind; [apply q_choice1; apply others_ne; cbn [Datatypes.length]; rewrite seq_length; lia|]. intros m Hm. apply others_in in Hm.
  apply q_ret. lia.
Qed.
Lemma gska_near_in n idx : 5 <= n -> idx < n -> fst (gska_near n idx) < n /\ snd (gska_near n idx) < n.
Proof.
  intros Hn Hi. unfold gska_near. destruct (idx =? 0)%nat eqn:E0; [cbn; lia|]. apply Nat.eqb_neq in E0.
  destruct (idx =? n - 1)%nat eqn:E1; [apply Nat.eqb_eq in E1|apply Nat.eqb_neq in E1]; cbn; lia.
Qed.
Ltac qmore HP m ::= lazymatch m with
  | propose _ _ _ => eapply q_propose; bprem HP
  | gska_groups _ _ _ _ => eapply q_gska; [exact HP|assumption]
  end.
Ltac gska HP K := intros i Hi; pose proof (gska_near_in _ _ ltac:(eassumption) Hi) as Hne; destruct (gska_near _ i) as [previ nexti]; cbn [fst snd] in Hne; destruct Hne; quiet HP.
Theorem C64_DevGSKA E P md pb kr n epochs : 5 <= n -> 0 < epochs -> gska_ok pb n ->
  sound_run E P md (dev_gska E P md pb kr n epochs) (fun _ => True) true n n.
Proof.
  intros Hn He Hg. plain. unfold dev_gska_evolve. eapply b0_blk. eapply b_greedy_each; [exact HP|qcorrect HP|qgea|reflexivity|].
  gska HP K.
Qed.
Theorem C64_OriginalGSKA E P md pb kf kr kg n epochs : 5 <= n -> 0 < epochs -> gska_ok pb n ->
  sound_run E P md (original_gska E P md pb kf kr kg n epochs) (fun _ => True) true n n.
Proof.
  intros Hn He Hg. plain. unfold gska_evolve. eapply b0_blk. eapply b_greedy_each; [exact HP|qcorrect HP|qgea|reflexivity|].
  gska HP K.
Qed.
(** DevBA. *)
Lemma b0_dev_ba E P md feas nd n0 n s0 C pulse_rate pf_min pf_max ep : params E P feas (@anyatt unit) C -> 5 <= n ->
  blk0 P feas (@anyatt unit) (eq n) (fun _ (_ : list vec) => True) C nd n0 n s0 n (2 * n) (dev_ba_evolve E P md pulse_rate pf_min pf_max n ep) (fun _ => True).
Proof.
  intros HP Hn. unfold dev_ba_evolve. cbv zeta. intros W l s HR HO.
  apply wp_bind. eapply wp_new_agents; [exact HP|qcorrect HP|qgea|exact HR|intros i Hi; quiet HP|].
  intros new s1 L1 G1 R1 E1. assert (M1 : Mixed s0 new s1) by (apply Old_mixed; unfold Old; rewrite E1; exact HO).
  apply wp_bind. unfold collect_many.
  apply wp_for_acc with (I := fun k acc s' => R P feas (@anyatt unit) (eq n) (fun _ (_ : list vec) => True) C nd n0 n s0 (W ++ new) (l + n) s' /\ Mixed s0 new s' /\
     Datatypes.length acc <= k /\ Forall (fun ik : nat * agent unit => fst ik < n /\ fresh_agent feas (@anyatt unit) (snd ik)) acc).
  - split; [exact R1|]. split; [exact M1|]. split; [cbn; lia|constructor].
  - intros k acc s' Hk (R' & M' & La & Fa). pose proof (R_held_good _ _ _ _ _ _ _ _ _ _ _ _ _ _ R') as G'. apply wp_bind.
    destruct (nth_error new k) as [a|] eqn:Ea; [|apply nth_error_None in Ea; lia]. pose proof (nth_error_In _ _ Ea) as Ia.
    assert (Ga : good P feas (@anyatt unit) (s_log s') a) by (rewrite Forall_forall in G'; apply G'; exact Ia).
    apply wp_bind. eapply wp_lift with (y := a); [unfold getitem; rewrite Ea; reflexivity|].
    apply wp_bind. apply wp_pop_at; [rewrite (proj1 (proj2 R')); lia|]. intros old Eo Io.
    assert (Go : good P feas (@anyatt unit) (s_log s') old).
    { pose proof (R_pop_all _ _ _ _ _ _ _ _ _ _ _ _ _ R') as G. rewrite Forall_forall in G. apply G; exact Io. }
    destruct (compare_agents_ok E P feas (@anyatt unit) C HP _ a old Ga Go) as (c & Ec & _). apply wp_bind. eapply wp_lift; [exact Ec|].
    destruct c.
    + apply wp_bind. apply wp_pop_set; [rewrite (proj1 (proj2 R')); lia|]. apply wp_ret. apply wp_ret. rewrite app_nil_r.
      destruct (R_put_mixed E P feas (@anyatt unit) (eq n) (fun _ _ => True) C nd n0 n s0 HP W new (l + n) s' k a R' M' ltac:(lia) Ia) as [R2 M2].
      split; [exact R2|]. split; [exact M2|]. split; [lia|exact Fa].
    + assert (Q : qt P feas (@anyatt unit) (eq n) (fun _ (_ : list vec) => True) C nd n0 n s0
        (u <- uniform E ;;
         if (pulse_rate < u)%F then
           g <- gb_sol ;;
           r <- uniform_box E P ;;
           k0 <- propose (correct_solution P) (generate_empty_agent P tt) (vtab P (fun j => (g.[j] + dec 1 100 * r.[j])%F)) ;;
           ret [(k, k0)]
         else ret []) (fun r => Datatypes.length r <= 1 /\ Forall (fun ik : nat * agent unit => fst ik < n /\ fresh_agent feas (@anyatt unit) (snd ik)) r)).
      { quiet HP. all: split; [cbn; lia|]. all: repeat (apply Forall_cons; [split; [cbn; lia|assumption]|]); apply Forall_nil. }
      eapply wp_mono; [eapply Q; exact R'|]. intros r s2 [[Lr Fr] N]. apply wp_ret. split; [eapply R_near; [exact R'|exact N]|].
      split; [eapply Mixed_near; [exact M'|exact N]|]. split; [rewrite app_length; lia|apply Forall_app; auto].
  - intros kids s2 (R2 & M2 & Lk & Fk). cbn [plus] in Lk. apply wp_bind. rewrite Forall_forall in Fk.
    eapply wp_evaluate_all; [exact HP|exact R2| |].
    { apply Forall_forall. intros a Ha. apply in_map_iff in Ha. destruct Ha as (ia & <- & Hia). apply Fk; exact Hia. }
    intros ch s3 Lc R3 E3. rewrite map_length in Lc, R3. rewrite <- app_assoc in R3.
    pose proof (R_held_good _ _ _ _ _ _ _ _ _ _ _ _ _ _ R3) as G3. apply wp_bind.
    apply wp_for_list with (I := fun pre q s' => s' = s3 /\ Datatypes.length q = n /\ Forall (good P feas (@anyatt unit) (s_log s3)) q /\ covers P C q (new ++ map snd pre)).
    + split; [reflexivity|]. split; [exact L1|]. apply Forall_app in G3. split; [tauto|]. cbn [map]. rewrite app_nil_r. eapply covers_refl; [exact HP|apply G3].
    + intros pre [i c] suf q s' El (-> & Lq & Gq & Cq). cbn [fst snd].
      assert (Iic : In (i, c) (combine (map fst kids) ch)) by (rewrite El; apply in_or_app; right; left; reflexivity).
      assert (Hi : i < n). { apply in_combine_l in Iic. apply in_map_iff in Iic. destruct Iic as (t & <- & Ht). apply Fk; exact Ht. }
      assert (Gc : good P feas (@anyatt unit) (s_log s3) c). { apply in_combine_r in Iic. rewrite Forall_forall in G3. apply G3. apply in_or_app; auto. }
      destruct (nth_error q i) as [o|] eqn:Eo; [|apply nth_error_None in Eo; lia].
      apply wp_bind. eapply wp_lift with (y := o); [unfold getitem; rewrite Eo; reflexivity|].
      assert (Go : good P feas (@anyatt unit) (s_log s3) o) by (rewrite Forall_forall in Gq; apply Gq; eapply nth_error_In; exact Eo).
      destruct (compare_agents_ok E P feas (@anyatt unit) C HP _ c o Gc Go) as (b & Eb & Hb). apply wp_bind. eapply wp_lift; [exact Eb|]. apply wp_ret.
      assert (No : C -> no_worse (p_mm P) (fit o) (fit o)) by (intros CC; apply no_worse_refl; [apply HP|eapply good_num; [apply HP; exact CC|exact Go]]).
      assert (Nc : C -> no_worse (p_mm P) (fit c) (fit c)) by (intros CC; apply no_worse_refl; [apply HP|eapply good_num; [apply HP; exact CC|exact Gc]]).
      assert (Nb : C -> if b then no_worse (p_mm P) (fit c) (fit o) else no_worse (p_mm P) (fit o) (fit c)).
      { intros CC. apply Hb; (eapply good_num; [apply HP; exact CC|eassumption]). }
      split; [reflexivity|]. rewrite map_app. cbn [map snd]. rewrite app_assoc. destruct b.
      * split; [rewrite upd_length; exact Lq|]. split; [apply upd_Forall; assumption|].
        assert (K : covers P C (upd q i c) (q ++ [c])) by (eapply upd_covers; [exact HP|exact Gq|exact Eo|intros CC; split; [apply Nb; exact CC|apply Nc; exact CC]]).
        intros CC x Hx. apply in_app_or in Hx. destruct Hx as [Hx|[<-|[]]].
        -- destruct (Cq CC x Hx) as (y & Hy & Ny). destruct (K CC y) as (z & Hz & Nz); [apply in_or_app; auto|]. exists z. split; [exact Hz|eapply no_worse_trans; eauto].
        -- apply K; [exact CC|apply in_or_app; right; left; reflexivity].
      * split; [exact Lq|]. split; [exact Gq|]. intros CC x Hx. apply in_app_or in Hx. destruct Hx as [Hx|[<-|[]]]; [apply Cq; assumption|].
        exists o. split; [eapply nth_error_In; exact Eo|apply Nb; exact CC].
    + intros q s' (-> & Lq & Gq & Cq). unfold wp, set_pop. split; [exact I|]. exists (n + Datatypes.length kids). split; [lia|].
      replace (l + (n + Datatypes.length kids)) with (l + n + Datatypes.length kids) by lia.
      assert (Es : map snd (combine (map fst kids) ch) = ch).
      { clear - Lc. revert ch Lc. induction kids as [|t ts IH]; intros [|a new] H; simpl in *; try discriminate; [reflexivity|]. f_equal. apply IH. lia. }
      rewrite Es in Cq. eapply R_replace_mixed; [exact HP|exact R3| |exact Lq|exact Gq|exact Cq].
      eapply Mixed_incl with (V := new); [|intros a Ha; apply in_or_app; auto]. unfold Mixed. rewrite E3. exact M2.
Qed.
Theorem C64_DevBA E P md pulse_rate pf_min pf_max n epochs : 5 <= n -> 0 < epochs ->
  sound_run E P md (dev_ba E P md pulse_rate pf_min pf_max n epochs) (fun _ => True) true n (2 * n).
Proof. intros. apply gen_plain. state_elite (fun _ : list vec => True). - exact I. - apply b0_dev_ba; [exact HP|lia]. Qed.

Print Assumptions C64_BWO.
Print Assumptions C64_SeaHO.
Print Assumptions C64_DevSSA.
Print Assumptions C64_OriginalSSA.
Print Assumptions C64_ImprovedLCO.
Print Assumptions C64_SOO.
Print Assumptions C64_DevGSKA.
Print Assumptions C64_OriginalGSKA.
Print Assumptions C64_DevBA.
