(** Theorems about the classes of MClass21. *)
From Coq Require Import Permutation Lia.
From Verif Require Import Prelude Fl MCore MHelp MAlg MAlg2 MAlg3 MAlg4 MAlg5 MAlg6 MAlg7 SpecCore SpecRun SpecAlg SpecWhen
  PSelect PLogic PSolve PRun PAlg PFree PClass PAlg2 PAlg3 PAlg4 PAlg5 PAlg6 PAlg7 PAlg8 PAlg9 PRef PElse PAlg10 PAlg11 PAlg13 Demo AClass17 AClass20 AClass21 MClass21.

(** The best of each group. *)
Section Groups.
Context {X : Type}.
Variables (E : env) (P : problem) (feas : vec -> Prop) (cov : Prop) (k : nat).
Hypothesis HP : params E P feas (@anyatt unit) cov.
Hypothesis Hk : 0 < k.
Notation good := (good P feas (@anyatt unit)).
Lemma concat_group (x : list (list (agent unit))) g a : In g x -> In a g -> In a (List.concat x).
Proof. intros Hg Ha. apply in_concat. exists g. auto. Qed.
Lemma group_bests L (s : st unit X) (x : list (list (agent unit))) m (Q : list (agent unit) -> st unit X -> Prop) : m <= List.length x -> Forall (fun g => List.length g = k) x -> Forall (good L) (List.concat x) ->
  (forall q, List.length q = m -> Forall (good L) q -> (forall i g, i < m -> nth_error x i = Some g -> covers P cov q g) -> Q q s) ->
  wp (collect m (fun i => leafs <- lift (getitem x i) ;; '(b, _) <- lift (get_best_agent (e_argsort E) leafs (p_mm P)) ;; ret b)) Q s.
Proof.
  intros Hm Fx Gx HQ. unfold collect.
  apply wp_for_acc with (I := fun j q s' => s' = s /\ List.length q = j /\ Forall (good L) q /\ forall i g, i < j -> nth_error x i = Some g -> covers P cov q g).
  - split; [reflexivity|]. split; [reflexivity|]. split; [constructor|]. intros; lia.
  - intros j q s' Hj (-> & Lq & Fq & Cq). apply wp_bind.
    destruct (getitem_lt x j ltac:(lia)) as (g & Eg & Eg' & Ig).
    assert (Gg : Forall (good L) g) by (rewrite Forall_forall in *; intros a Ha; apply Gx; eapply concat_group; eauto).
    assert (Lg : List.length g = k) by (rewrite Forall_forall in Fx; auto).
    apply wp_bind. eapply wp_lift; [exact Eg|]. apply wp_bind.
    destruct (best_agent_ok E P feas (@anyatt unit) cov HP L g Gg) as (b & i & Eb & _ & Gb & _ & Hb); [intros ->; cbn in Lg; lia|].
    eapply wp_lift; [exact Eb|]. cbv beta iota. apply wp_ret, wp_ret. split; [reflexivity|]. split; [rewrite app_length; cbn; lia|].
    split; [apply Forall_app; split; [exact Fq|constructor; [exact Gb|constructor]]|]. intros i' g' Hi' Eg2 C a Ha.
    destruct (Nat.eq_dec i' j) as [->|Hne].
    + rewrite Eg' in Eg2. injection Eg2 as <-. exists b. split; [apply in_or_app; right; left; reflexivity|apply Hb; assumption].
    + destruct (Cq i' g' ltac:(lia) Eg2 C a Ha) as (b' & Hb' & Hw). exists b'. split; [apply in_or_app; auto|exact Hw].
  - intros q s' (-> & Lq & Fq & Cq). apply HQ; auto.
Qed.
End Groups.

(** ** DevTPO *)
Section TPO.
Notation X := (list (list (agent unit))).
Variables (E : env) (P : problem) (md : MCore.mode) (feas : vec -> Prop) (cov : Prop) (nd n0 n k : nat).
Notation shape := (fun x : X => List.length x = n /\ Forall (fun g => List.length g = k) x).
Notation IX := (fun L (x : X) => (List.length x = n /\ Forall (fun g => List.length g = k) x) /\ Forall (good P feas (@anyatt unit) L) (List.concat x)).
Hypothesis HP : params E P feas (@anyatt unit) cov.
Hypothesis Hk : 0 < k.
Notation good := (good P feas (@anyatt unit)).
Section Epoch.
Variable s0 : st unit X.
Notation R := (R P feas (@anyatt unit) (eq n) IX cov nd n0 n s0).
Notation qt := (qt P feas (@anyatt unit) (eq n) IX cov nd n0 n s0).
(** The leafs are at hand. *)
Definition Leafs (l : nat) (s : st unit X) : Prop := shape (s_x s) /\ R (List.concat (s_x s)) l s /\ Old s0 s.
Lemma leafs_x l s x : R (List.concat x) l s -> Old s0 s -> shape x -> Leafs l (with_x s x).
Proof.
  intros (V & H1 & H2) HO Hx. split; [exact Hx|]. split; [|exact HO]. split; [|split; [exact H1|exact H2]].
  apply Ev_x; [exact V|]. exists (s_log s). split; [apply incl_refl|]. split; [exact Hx|apply (v_W _ _ _ _ _ _ _ _ _ _ _ V)].
Qed.
Lemma wp_branch l s idx (Q : unit -> st unit X -> Prop) : Leafs l s -> idx < n -> (forall s', Leafs (l + k) s' -> Q tt s') -> wp (tpo_branch E P md k idx) Q s.
Proof.
  intros (Sx & HR & HO) Hi HQ. unfold tpo_branch. apply wp_bind, wp_get_x. set (x := s_x s) in *. clearbody x.
  destruct (getitem_lt x idx ltac:(lia)) as (team & Et & _). apply wp_bind. eapply wp_lift; [exact Et|].
  destruct (getitem_split _ _ _ Et) as (g1 & g2 & Eg & Lg).
  assert (Lt : List.length team = k). { destruct Sx as (_ & F). rewrite Eg in F. apply Forall_app in F. destruct F as [_ F]. inversion F; assumption. }
  assert (R1 : R ((List.concat g1 ++ List.concat g2) ++ team) l s).
  { eapply R_perm; [exact HR|]. rewrite Eg, concat_app. cbn [List.concat]. rewrite <- !app_assoc. apply Permutation_app_head. apply Permutation_app_comm. }
  apply wp_bind. eapply wp_mono; [eapply q_gb_sol; exact R1|]. intros g s1 [_ N1]. pose proof (R_near _ _ _ _ _ _ _ _ _ _ _ _ _ _ R1 N1) as R2. pose proof (Old_near _ _ _ _ HO N1) as O1.
  cbv zeta. assert (Fin : forall team' s', List.length team' = k -> R ((List.concat g1 ++ List.concat g2) ++ team') (l + k) s' -> Old s0 s' -> wp (set_x (upd x idx team')) Q s').
  { intros team' s' Lt' R3 O3. unfold set_x, wp. apply HQ. rewrite <- Lg, Eg, upd_split. apply leafs_x.
    - eapply R_perm; [exact R3|]. rewrite concat_app. cbn [List.concat]. rewrite <- !app_assoc. apply Permutation_app_head. apply Permutation_app_comm.
    - exact O3.
    - destruct Sx as (S2 & S3). rewrite Eg in S2, S3. split; [rewrite app_length in *; cbn in *; exact S2|].
      apply Forall_app in S3. destruct S3 as [F1 F2]. apply Forall_app. split; [exact F1|]. inversion F2; subst. constructor; [congruence|assumption]. }
  apply wp_bind. destruct (is_avail md) eqn:Em.
  - apply wp_bind. eapply wp_new_agents; [exact HP|qcorrect HP|qgea|exact R2| |].
    + intros i Hj. eapply q_mono; [apply q_rform|auto].
    + intros new s2 Ln Gn R3 Ep.
      assert (GW : Forall (good (s_log s2)) team).
      { rewrite <- app_assoc in R3. pose proof (R_held_good _ _ _ _ _ _ _ _ _ _ _ _ _ _ R3) as G. apply Forall_app in G. apply G. }
      destruct (greedy_covers E P feas (@anyatt unit) cov HP _ new team Gn GW) as (r & Er & Lr & Gr & Cr); [congruence|].
      eapply wp_lift; [exact Er|]. apply Fin; [congruence| |].
      * rewrite <- app_assoc in R3. eapply R_swap; [exact HP|exact R3|exact Gr|]. intros C a Ha. apply Cr; [exact C|]. apply in_app_or in Ha. apply in_or_app. tauto.
      * unfold Old. rewrite Ep. exact O1.
  - eapply wp_local_greedy; [exact HP|qcorrect HP|qgea|exact R2|lia|intros _; congruence| |].
    + intros cur j Hj _ _. eapply q_mono; [apply q_rform|auto].
    + intros team' s' Lt' R3 _ Ep. apply Fin; [congruence|exact R3|]. unfold Old. rewrite Ep. exact O1.
Qed.
End Epoch.
Lemma tpo_contract : 0 < n -> evolve_contract P feas (@anyatt unit) (eq n) IX cov nd n0 (n * k) (n * k) (tpo_evolve E P md n k).
Proof.
  intros Hn ep s Hep HI.
  pose proof (i_len _ _ _ _ _ _ _ _ _ HI) as Ln.
  assert (HR : R P feas anyatt (eq n) IX cov nd n0 n s [] (List.length (s_log s)) s). { split; [apply Ev_init; exact HI|]. split; [symmetry; exact Ln|reflexivity]. }
  assert (HO : Old s s). { unfold Old. eapply Forall_impl; [|apply (i_good _ _ _ _ _ _ _ _ _ HI)]. intros a G. apply G. }
  destruct (i_x _ _ _ _ _ _ _ _ _ HI) as (L & HL & Sx & Gx). cbv beta in Gx.
  assert (Gx0 : Forall (good (s_log s)) (List.concat (s_x s))).
  { eapply Forall_impl; [|exact Gx]. intros a. apply good_mono; [apply HP|exact HL]. }
  assert (H0 : Leafs s (List.length (s_log s)) s).
  { split; [exact Sx|]. split; [|exact HO]. pose proof (R_hold _ _ _ _ _ _ _ _ _ _ _ _ _ _ HR Gx0) as T. exact T. }
  unfold tpo_evolve. apply wp_bind. apply wp_for with (I := fun i s' => Leafs s (List.length (s_log s) + i * k) s').
  - cbn. rewrite Nat.add_0_r. exact H0.
  - intros i s' Hi H1. eapply wp_branch; [exact H1|exact Hi|]. intros s'' H2. replace (List.length (s_log s) + S i * k) with (List.length (s_log s) + i * k + k) by lia. exact H2.
  - intros s1 ((S1 & S2) & HR1 & O1). apply wp_bind, wp_get_x. apply wp_bind.
    pose proof HR1 as (V & Lp & Ll). pose proof (v_W _ _ _ _ _ _ _ _ _ _ _ V) as GW.
    eapply (group_bests E P feas cov k HP Hk (s_log s1)); [lia|exact S2|exact GW|]. intros q Lq Gq Cq.
    assert (R2 : R P feas anyatt (eq n) IX cov nd n0 n s [] (List.length (s_log s) + n * k) (with_pop s1 q)).
    { eapply R_replace_cov with (V := List.concat (s_x s1)); [exact HP|exact HR1|exact O1|exact Lq|exact Gq|]. intros C a Ha.
      apply in_concat in Ha. destruct Ha as (g & Hg & Ha). destruct (In_nth_error _ _ Hg) as (i & Ei).
      apply (Cq i g); auto. assert (Hi : i < List.length (s_x s1)) by (apply nth_error_Some; congruence). lia. }
    unfold set_pop, wp. destruct R2 as (V2 & L2 & Ll2). split; [exact V2|]. split; [symmetry; exact L2|]. cbn [with_pop s_log] in *. lia.
Qed.
Lemma start_tpo s : 0 < n -> md <> Process -> fresh s ->
  wp (tpo_init E P md n k) (fun _ s' => Start P feas (@anyatt unit) (eq n) IX cov 0 (s_nfe s) s' /\ n * k <= List.length (s_log s') <= n * k) s.
Proof.
  intros Hn Hmd (F1 & F2 & F3 & F4 & F5). unfold tpo_init.
  assert (Hga : ga_contract P feas (@anyatt unit) (ga_of (X := X) P (generate_empty_agent P tt) None)) by (apply ga_ok_contract, ga_of_ok, plain_gea_ok, HP).
  apply wp_bind. apply wp_for_acc with (I := fun j acc s' => s_hist s' = s_hist s /\ s_nfe s' = s_nfe s + List.length (s_log s') /\ List.length (s_log s') = j * k /\ Forall feas (s_log s') /\
    List.length (fst acc) = j /\ List.length (snd acc) = j /\ Forall (fun g => List.length g = k) (snd acc) /\ Forall (good (s_log s')) (fst acc) /\ Forall (good (s_log s')) (List.concat (snd acc)) /\
    (cov -> forall x, In x (s_log s') -> exists b, In b (fst acc) /\ no_worse (p_mm P) (fit b) (fitx P x))).
  - cbn [fst snd List.length List.concat]. assert (El : s_log s = []) by assumption. rewrite El. cbn. repeat (split; [first [reflexivity|constructor|lia]|]). intros _ x [].
  - intros j [bs all] s1 Hj (H1 & H2 & H3 & H4 & H5 & H6 & H7 & H8 & H9 & H10). cbn [fst snd] in *. apply wp_bind.
    eapply wp_mono; [apply (generate_population_ok E P md feas (@anyatt unit)); [apply HP|exact Hga]|].
    intros l s2 (L1 & L2 & L3 & _ & _ & L6 & _ & (L & L8 & L8' & L8'') & L9).
    assert (Hl : lost md k = 0) by (unfold lost; destruct md; congruence). rewrite Hl in L9.
    assert (Hi : incl (s_log s1) (s_log s2)) by (rewrite L8; apply incl_appl, incl_refl).
    assert (HL : List.length (s_log s2) = List.length (s_log s1) + k) by (rewrite L8, app_length; lia).
    assert (GM : forall q, Forall (good (s_log s1)) q -> Forall (good (s_log s2)) q) by (intros q G; eapply Forall_impl; [|exact G]; intros a; apply good_mono; [apply HP|exact Hi]).
    destruct (best_agent_ok E P feas (@anyatt unit) cov HP _ l L2) as (b & i & Eb & _ & Gb & _ & Hb); [intros ->; cbn in L1; lia|].
    apply wp_bind. eapply wp_lift; [exact Eb|]. cbv beta iota. apply wp_ret. cbn [fst snd].
    split; [congruence|]. split; [lia|]. split; [lia|]. split.
    { rewrite L8. apply Forall_app; split; [assumption|]. rewrite Forall_forall in *. intros x Hx.
      pose proof (Permutation_in x L8' Hx) as Hx'. apply in_map_iff in Hx'. destruct Hx' as (a & <- & Ha). apply (L2 a Ha). }
    rewrite !app_length. cbn [List.length]. split; [lia|]. split; [lia|]. split; [apply Forall_app; auto|]. split; [apply Forall_app; auto|].
    split; [rewrite concat_app; cbn; rewrite app_nil_r; apply Forall_app; auto|].
    intros C x Hx. rewrite L8 in Hx. apply in_app_or in Hx. destruct Hx as [Hx|Hx].
    + destruct (H10 C x Hx) as (b' & Hb' & Hw). exists b'. split; [apply in_or_app; auto|exact Hw].
    + pose proof (Permutation_in x L8' Hx) as Hx'. apply in_map_iff in Hx'. destruct Hx' as (a & <- & Ha).
      exists b. split; [apply in_or_app; right; left; reflexivity|]. specialize (Hb C a Ha). rewrite Forall_forall in L2. rewrite <- (good_fit _ _ _ _ _ (L2 a Ha)). exact Hb.
  - intros [bs all] s1 (H1 & H2 & H3 & H4 & H5 & H6 & H7 & H8 & H9 & H10). cbn [fst snd] in *. cbv beta iota.
    unfold set_pop, set_x, bindM, wp. split; [|cbn; lia]. constructor; cbn [with_pop with_x s_pop s_log s_nfe s_hist s_x]; auto.
    + lia.
    + congruence.
    + exists (s_log s1). split; [apply incl_refl|]. split; [split; assumption|exact H9].
Qed.
End TPO.
(** For pop_size branches of [k] leafs.  Without starting solutions: those are evaluated, then dropped. *)
Theorem C64_DevTPO E P md n epochs : 5 <= n -> 0 < epochs -> md <> Process ->
  let k := S (Nat.sqrt n) in
  sound_run_gen E P md (dev_tpo E P md n epochs) (fun _ => True) (fun _ => True) (fun start => start = None) (eq n) true (n * k) (n * k) (n * k) (n * k).
Proof.
  intros Hn He Hmd k.
  assert (T : sound_run_gen E P md (dev_tpo E P md n epochs) (fun _ => True) (fun _ => True) (fun start => start = None) (eq n) true (n * k + 0) (n * k + 0) (n * k) (n * k)).
  2:{ rewrite !Nat.add_0_r in T. exact T. }
  apply (sound_gen E P md _ (fun _ => True) (fun _ => True) (fun start => start = None) (fun _ => @anyatt unit)
    (fun feas L x => (List.length x = n /\ Forall (fun g => List.length g = k) x) /\ Forall (good P feas (@anyatt unit) L) (List.concat x))
    (fun feas L x => (List.length x = n /\ Forall (fun g => List.length g = k) x) /\ Forall (good P feas (@anyatt unit) L) (List.concat x)) (eq n) true (n * k) (n * k) 0 0 (n * k) (n * k)); auto.
  - intros m <-. lia.
  - intros feas starting HP _ Hst -> s Hf _. cbn [al_init_vars al_init al_pop_size dev_tpo] in *. unfold tpo_vars. apply wp_bind, wp_bind, wp_bind.
    eapply wp_mono; [apply dr_uniform_vec|]. intros r s1 [[c ->] _]. apply wp_ret. unfold set_x, wp at 1. cbv beta iota.
    set (s1 := with_x (bump s c) []). assert (F1 : fresh s1) by exact Hf.
    change (wp (before_initialization P md (dev_tpo E P md n epochs) None ;;; tpo_init E P md n (tpo_leafs n))
      (fun _ s' => Start P feas (@anyatt unit) (eq n) (fun L x => (List.length x = n /\ Forall (fun g => List.length g = k) x) /\ Forall (good P feas (@anyatt unit) L) (List.concat x)) (true = true /\ obj_num P feas) (missed md n None) (s_nfe s1) s' /\
        n * k <= List.length (s_log s') <= n * k) s1). clearbody s1.
    apply wp_bind, wp_ret. replace (missed md n None) with 0 by (unfold missed, lost; destruct md; congruence).
    apply start_tpo; [exact HP|unfold k; lia|lia|exact Hmd|exact F1].
  - intros feas nd HP _. apply skip_before_main; auto.
  - intros feas nd n0 HP _. apply tpo_contract; [exact HP|unfold tpo_leafs; lia|lia].
Qed.
(** With starting solutions the run may return an agent worse than a position it evaluated. *)
Theorem C64_DevTPO_refuted : exists rows g s' x,
  solve demo_env (demo_prob Min sphere true) Single (dev_tpo demo_env (demo_prob Min sphere true) Single 5 1) None (Some rows) (st0 []) = Ok (g, s') /\
  In x (s_log s') /\ flt (sphere x) (fit g) = true.
Proof.
  exists (repeat [fZ 0; fZ 0] 5).
  assert (T : match solve demo_env (demo_prob Min sphere true) Single (dev_tpo demo_env (demo_prob Min sphere true) Single 5 1) None (Some (repeat [fZ 0; fZ 0] 5)) (st0 []) with
              | Ok (g, s') => existsb (fun x => flt (sphere x) (fit g)) (s_log s') | _ => false end = true) by (vm_compute; reflexivity).
  destruct (solve _ _ _ _ _ _ _) as [[g s']|]; [|discriminate]. apply existsb_exists in T. destruct T as (x & Hx & Hf). exists g, s', x. auto.
Qed.

(** ** BSO *)
Section BSO.
Notation X := (list (list (agent unit)) * list (agent unit))%type.
Variables (E : env) (P : problem) (md : MCore.mode) (feas : vec -> Prop) (C : Prop) (nd n0 m k : nat) (s0 : st unit X).
Notation n := (m * k).
Notation IX := (fun L (x : X) => (List.length (fst x) = m /\ Forall (fun g => List.length g = k /\ Forall (good P feas (@anyatt unit) L) g) (fst x)) /\
  List.length (snd x) = m /\ Forall (good P feas (@anyatt unit) L) (snd x)).
Hypothesis HP : params E P feas (@anyatt unit) (false = true /\ C).
Hypothesis Hm : 2 <= m.
Hypothesis Hk : 0 < k.
Notation gt := (gt P feas (@anyatt unit) (eq n) IX (false = true /\ C) nd n0 n s0).
Notation gq := (gq P feas (@anyatt unit) (eq n) IX (false = true /\ C) nd n0 n s0).
Notation ok := (good P feas (@anyatt unit)).
Notation pend := (pend feas (@anyatt unit)).
Notation groups Q gs := (List.length gs = m /\ Forall (fun g => List.length g = k /\ Forall Q g) gs).
Lemma groups_mono (Q Q' : agent unit -> Prop) gs : (forall a, Q a -> Q' a) -> groups Q gs -> groups Q' gs.
Proof. intros H [L F]. split; [exact L|]. eapply Forall_impl; [|exact F]. intros g [H1 H2]. split; [exact H1|]. eapply Forall_impl; [|exact H2]. exact H. Qed.
Lemma gq_group w (Q : agent unit -> Prop) gs c : groups Q gs -> c < m -> gq w (lift (getitem gs c)) (fun g => List.length g = k /\ Forall Q g).
Proof.
  intros [L F] Hc. eapply gq_lift; [exact HP|noc|]. destruct (getitem_lt gs c ltac:(lia)) as (g & Eg & _ & Ig). exists g. split; [exact Eg|].
  rewrite Forall_forall in F. apply F, Ig.
Qed.
Lemma gq_bso_at w (Q : agent unit -> Prop) gs c l : groups Q gs -> c < m -> l < k -> gq w (bso_at gs c l) (fun _ => True).
Proof.
  intros G Hc Hl. unfold bso_at. eapply gq_bind; [eapply gq_group; eassumption|]. intros g [Lg Fg].
  eapply gq_bind with (Φ := fun _ => True); [|intros; apply gq_ret; exact I].
  eapply gq_lift; [exact HP|noc|]. destruct (getitem_lt g l ltac:(lia)) as (a & Ea & _). eauto.
Qed.
Lemma gq_bso_center w (cs : list (agent unit)) c : List.length cs = m -> c < m -> gq w (bso_center cs c) (fun _ => True).
Proof.
  intros Hl Hc. unfold bso_center. eapply gq_bind with (Φ := fun _ => True); [|intros; apply gq_ret; exact I].
  eapply gq_lift; [exact HP|noc|]. destruct (getitem_lt cs c ltac:(lia)) as (a & Ea & _). eauto.
Qed.
Lemma bso_put_ok (Q : agent unit -> Prop) gs c l a : groups Q gs -> c < m -> l < k -> Q a -> exists gs', bso_put gs c l a = Ok gs' /\ groups Q gs'.
Proof.
  intros [L F] Hc Hl Ha. unfold bso_put. destruct (getitem_lt gs c ltac:(lia)) as (g & Eg & _ & Ig). rewrite Eg. cbn [bind].
  rewrite Forall_forall in F. destruct (F g Ig) as [Lg Fg]. unfold setitem.
  replace (l <? List.length g) with true by (symmetry; apply Nat.ltb_lt; lia). cbn [bind].
  replace (c <? List.length gs) with true by (symmetry; apply Nat.ltb_lt; lia). eexists. split; [reflexivity|].
  split; [rewrite upd_length; exact L|]. apply upd_Forall; [apply Forall_forall; exact F|]. split; [rewrite upd_length; exact Lg|apply upd_Forall; assumption].
Qed.
Lemma upd_over {T} (l : list T) i x y : upd (upd l i x) i y = upd l i y.
Proof. revert i. induction l as [|z l IH]; intros [|i]; cbn; auto. f_equal. apply IH. Qed.
Lemma bso_put_over (gs gs' : list (list (agent unit))) c l a b : bso_put gs c l a = Ok gs' -> bso_put gs' c l b = bso_put gs c l b.
Proof.
  unfold bso_put, setitem, getitem. destruct (nth_error gs c) as [g|] eqn:Eg; cbn [bind]; [|discriminate].
  destruct (l <? List.length g) eqn:El; cbn [bind]; [|discriminate]. destruct (c <? List.length gs) eqn:Ec; [|discriminate]. intros H. injection H as <-.
  apply Nat.ltb_lt in Ec as Ec'. rewrite upd_nth_eq by exact Ec'. cbn [bind]. rewrite !upd_length, El. cbn [bind]. rewrite Ec, !upd_over. reflexivity.
Qed.
Lemma g_bso_slot w correct gs c l x : (forall x, qt P feas (@anyatt unit) (eq n) IX (false = true /\ C) nd n0 n s0 (correct x) feas) ->
  groups (if is_avail md then pend w else ok w) gs -> c < m -> l < k ->
  gt w (if is_avail md then 0 else 1) (if is_avail md then 0 else 1) (bso_slot P md correct gs c l x) (fun w' gs' => groups (if is_avail md then pend w' else ok w') gs').
Proof.
  intros Hcor G Hc Hl. unfold bso_slot. eapply g_qbind; [eapply gq_propose; [exact HP|noc|exact Hcor|qgea]|]. intros a Ha.
  destruct (is_avail md).
  - destruct (bso_put_ok (pend w) gs c l a G Hc Hl Ha) as (gs' & Eg & G').
    eapply g_qbind with (Φ := fun r => groups (pend w) r); [eapply gq_lift; [exact HP|noc|]; eauto|]. intros r Hr. apply g_ret. exact Hr.
  - destruct (bso_put_ok (pend w) gs c l a) as (gs' & Eg & G'); auto.
    { eapply groups_mono; [|exact G]. intros b Hb. eapply ok_pend; [exact HP|exact Hb]. }
    eapply g_qbind with (Φ := eq gs'); [eapply gq_lift; [exact HP|noc|]; eauto|]. intros ? <-.
    eapply g_mono with (a := 1 + 0) (b := 1 + 0); [|lia|lia|intros w2 y _ T; exact T].
    eapply g_bind; [eapply g_evaluate; [exact HP|noc|exact Ha]|]. intros a' w' Hw (Ha' & _ & _).
    destruct (better_of_ok E P feas (@anyatt unit) _ HP w' true a' a' Ha' Ha') as (b & Eb & Gb & _).
    eapply g_qbind with (Φ := eq b); [eapply gq_lift; [exact HP|noc|]; eauto|]. intros ? <-.
    destruct (bso_put_ok (ok w') gs c l b) as (gs2 & Eg2 & G2); auto.
    { eapply groups_mono; [|exact G]. intros x0 Hx0. eapply good_mono; [apply HP|exact Hw|exact Hx0]. }
    eapply g_quiet. eapply gq_lift; [exact HP|noc|]. exists gs2. rewrite (bso_put_over _ _ _ _ _ _ Eg). auto.
Qed.
Lemma gq_bso_centers w gs : groups (ok w) gs -> gq w (bso_centers E P m gs) (fun cs => List.length cs = m /\ Forall (ok w) cs).
Proof.
  intros G. unfold bso_centers. unfold collect. eapply gq_for_acc with (I := fun i r => List.length r = i /\ Forall (ok w) r); [split; [reflexivity|constructor]|].
  intros i r Hi [Lr Fr]. eapply gq_bind with (Φ := ok w).
  - eapply gq_bind; [eapply gq_group; [exact G|lia]|]. intros g [Lg Fg].
    eapply gq_bind; [eapply gq_best; [exact HP|noc|exact Fg|lia]|]. intros [b j] Hb. apply gq_ret. apply Hb.
  - intros b Hb. apply gq_ret. split; [rewrite app_length; cbn; lia|apply Forall_app; auto].
Qed.
Lemma g_bso_renew w p1 cs : List.length cs = m -> Forall (ok w) cs -> gt w 0 1 (bso_renew E P p1 m cs) (fun w' cs' => List.length cs' = m /\ Forall (ok w') cs').
Proof.
  intros Lc Fc. unfold bso_renew. eapply g_qbind; [gquiet HP|]. intros u _. destruct (flt u p1).
  - eapply g_qbind; [eapply gq_qt; [exact HP|noc|apply q_integers; lia]|]. intros i Hi. cbv beta in Hi.
    eapply g_mono with (a := 1 + 0) (b := 1 + 0); [|lia|lia|intros w2 y _ T; exact T].
    eapply g_bind; [eapply g_random_agent; gprem HP|]. intros a w' Hw Ha.
    eapply g_quiet. eapply gq_lift; [exact HP|noc|]. unfold setitem. replace (i <? List.length cs) with true by (symmetry; apply Nat.ltb_lt; lia).
    eexists. split; [reflexivity|]. split; [rewrite upd_length; exact Lc|]. apply upd_Forall; [eapply oks_mono; [exact HP|exact Hw|exact Fc]|exact Ha].
  - eapply g_mono; [apply g_ret with (Φ := fun w' cs' => List.length cs' = m /\ Forall (ok w') cs'); auto|lia|lia|intros w2 y _ T; exact T].
Qed.
Lemma gq_bso_mix w (Q : agent unit -> Prop) name p4 ep gs cs : groups Q gs -> List.length cs = m -> gq w (bso_mix E P name p4 m k ep gs cs) (fun _ => True).
Proof.
  intros G Lc. unfold bso_mix. eapply gq_bind; [eapply gq_qt; [exact HP|noc|]; apply choose2_ok; rewrite seq_length; lia|].
  intros [c1 c2] [K1 K2]. cbn [fst snd] in K1, K2. apply in_seq in K1. apply in_seq in K2. cbv beta iota.
  eapply gq_bind with (Φ := fun _ => True); [gquiet HP|]. intros u _. destruct (flt u p4).
  - eapply gq_bind; [apply gq_bso_center; [exact Lc|lia]|]. intros x _. eapply gq_bind; [apply gq_bso_center; [exact Lc|lia]|]. intros y _. gquiet HP.
  - eapply gq_bind; [eapply gq_qt; [exact HP|noc|apply q_integers; lia]|]. intros r1 H1. cbv beta in H1.
    eapply gq_bind; [eapply gq_qt; [exact HP|noc|apply q_integers; lia]|]. intros r2 H2. cbv beta in H2.
    eapply gq_bind; [eapply gq_bso_at; [exact G|lia|lia]|]. intros x _. eapply gq_bind; [eapply gq_bso_at; [exact G|lia|lia]|]. intros y _. gquiet HP.
Qed.
Lemma g_bso_finish w gs : groups (if is_avail md then pend w else ok w) gs ->
  gt w (if is_avail md then n else 0) (if is_avail md then n else 0) (bso_finish E P md m gs) (fun _ _ => True).
Proof.
  intros G. unfold bso_finish.
  assert (Rest : forall w' gs', groups (ok w') gs' -> gq w' (cs <- bso_centers E P m gs' ;; set_x (gs', cs) ;;; set_pop (List.concat (firstn m gs'))) (fun _ => True)).
  { intros w' gs' G'. eapply gq_bind; [apply gq_bso_centers; exact G'|]. intros cs [Lc Fc].
    eapply gq_bind with (Φ := fun _ => True); [eapply gq_mono; [apply gq_set_x; split; [exact G'|split; assumption]|auto]|]. intros _ _.
    destruct G' as [Lg Fg]. rewrite firstn_all2 by lia. eapply gq_mono; [eapply gq_set_pop; [noc| |]|auto].
    - rewrite (concat_len k); [rewrite Lg; reflexivity|]. eapply Forall_impl; [|exact Fg]. intros g [H _]. exact H.
    - apply Forall_concat. eapply Forall_impl; [|exact Fg]. intros g [_ H]. exact H. }
  destruct (is_avail md) eqn:Em.
  - eapply g_mono with (a := n + 0) (b := n + 0); [|lia|lia|intros w2 y _ T; exact T].
    eapply g_bind with (Φ := fun w' gs' => groups (ok w') gs'); [|intros gs' w' Hw G'; apply g_quiet, Rest, G'].
    unfold collect. eapply g_for_acc with (a := k) (b := k) (J := fun i w' r => List.length r = i /\ Forall (fun g => List.length g = k /\ Forall (ok w') g) r); [split; [reflexivity|constructor]|].
    intros i w' r Hw Hi [Lr Fr].
    eapply g_mono with (a := k + 0) (b := k + 0) (Φ := fun w2 r2 => List.length r2 = S i /\ Forall (fun g => List.length g = k /\ Forall (ok w2) g) r2); [|lia|lia|intros w2 y _ T; exact T].
    eapply g_bind with (Φ := fun w2 g => List.length g = k /\ Forall (ok w2) g).
    + eapply g_qbind; [eapply gq_group; [exact G|lia]|]. intros g [Lg Fg].
      eapply g_mono with (a := List.length g + 0) (b := List.length g + 0) (Φ := fun w2 g => List.length g = k /\ Forall (ok w2) g); [|lia|lia|intros w2 y _ T; exact T].
      eapply g_bind; [eapply g_update_target; [exact HP|noc|exact Em|]|].
      { eapply Forall_impl; [|exact Fg]. intros a Ha. eapply pend_mono; [exact Hw|exact Ha]. }
      intros l w2 Hw2 [Fl Ll]. apply g_quiet. eapply gq_mono; [eapply gq_greedy; [exact HP|noc|exact Fl|exact Fl|reflexivity]|].
      intros q Hq. cbv beta in Hq. destruct Hq as [H1 H2]. split; [lia|exact H2].
    + intros g w2 Hw2 [Lg Fg]. apply g_ret. split; [rewrite app_length; cbn; lia|]. apply Forall_app. split; [|constructor; [split; assumption|constructor]].
      eapply Forall_impl; [|exact Fr]. intros g' [H1 H2]. split; [exact H1|]. eapply oks_mono; [exact HP|exact Hw2|exact H2].
  - eapply g_mono with (a := 0 + 0) (b := 0 + 0); [|lia|lia|intros w2 y _ T; exact T].
    eapply g_bind with (Φ := fun w' gs' => groups (ok w') gs'); [apply g_ret; exact G|intros gs' w' Hw G'; apply g_quiet, Rest, G'].
Qed.
Notation held w := (if is_avail md then pend w else ok w).
Lemma held_le w w' a : incl w w' -> held w a -> held w' a.
Proof. intros Hw. destruct (is_avail md); [intros H; eapply pend_mono; [exact Hw|exact H]|apply good_mono; [apply HP|exact Hw]]. Qed.
Lemma slot_place idx : idx < n -> idx / k < m /\ idx mod k < k.
Proof. intros H. split; [apply Nat.div_lt_upper_bound; lia|apply Nat.mod_upper_bound; lia]. Qed.
(** The loop and what follows it. *)
Lemma g_bso_loop w gs (body : nat -> list (list (agent unit)) -> M unit X (list (list (agent unit)))) : groups (ok w) gs ->
  (forall idx w' gs', incl w w' -> idx < n -> groups (held w') gs' ->
     gt w' (if is_avail md then 0 else 1) (if is_avail md then 0 else 1) (body idx gs') (fun w2 gs2 => groups (held w2) gs2)) ->
  gt w n n (gs' <- for_acc n 0 gs body ;; bso_finish E P md m gs') (fun _ _ => True).
Proof.
  intros G Hb. eapply g_mono with (a := n * (if is_avail md then 0 else 1) + (if is_avail md then n else 0)) (b := n * (if is_avail md then 0 else 1) + (if is_avail md then n else 0));
    [|destruct (is_avail md); lia|destruct (is_avail md); lia|intros w2 y _ T; exact T].
  eapply g_bind; [eapply g_for_acc with (J := fun _ w' gs' => groups (held w') gs')|].
  - eapply groups_mono; [|exact G]. intros a Ha. destruct (is_avail md); [eapply ok_pend; [exact HP|exact Ha]|exact Ha].
  - intros idx w' gs' Hw Hi G'. apply Hb; [exact Hw|lia|exact G'].
  - intros gs' w' Hw G'. apply g_bso_finish. exact G'.
Qed.
Lemma g_ibso w p1 p2 p3 p4 ep : gt w n (n + 1) (ibso_evolve E P md p1 p2 p3 p4 m k n ep) (fun _ _ => True).
Proof.
  unfold ibso_evolve. eapply g_qbind; [apply gq_get_x|]. intros x (L & HL & (Lg & Fg) & Lc & Fc).
  eapply g_mono with (a := 0 + n) (b := 1 + n); [|lia|lia|intros w2 y _ T; exact T].
  eapply g_bind; [apply g_bso_renew; [exact Lc|eapply oks_mono; [exact HP|exact HL|exact Fc]]|]. intros cs w1 Hw1 [Lcs Fcs].
  apply g_bso_loop.
  { eapply groups_mono with (Q := ok L); [intros a; apply good_mono; [apply HP|exact (incl_tran HL Hw1)]|]. split; assumption. }
  intros idx w' gs Hw Hi G. destruct (slot_place idx Hi) as [P1 P2]. cbv zeta.
  eapply g_qbind with (Φ := fun _ => True); [gquiet HP|]. intros u _.
  eapply g_qbind with (Φ := fun _ => True).
  - destruct (flt u p2).
    + eapply gq_bind with (Φ := fun _ => True); [gquiet HP|]. intros u2 _. destruct (flt u2 p3).
      * eapply gq_bind; [apply gq_bso_center; [exact Lcs|exact P1]|]. intros y _. gquiet HP.
      * eapply gq_bind; [eapply gq_bso_at; [exact G|exact P1|exact P2]|]. intros y _. gquiet HP.
    + eapply gq_bso_mix; [exact G|exact Lcs].
  - intros v _. apply g_bso_slot; [intros; qcorrect HP|exact G|exact P1|exact P2].
Qed.
Lemma g_obso w p1 p2 p3 p4 ep : gt w n (n + 1) (obso_evolve E P md p1 p2 p3 p4 m k n ep) (fun _ _ => True).
Proof.
  unfold obso_evolve. eapply g_qbind with (Φ := fun _ => True); [gquiet HP|]. intros e _. eapply g_qbind; [apply gq_get_x|]. intros x (L & HL & (Lg & Fg) & Lc & Fc).
  eapply g_mono with (a := 0 + n) (b := 1 + n); [|lia|lia|intros w2 y _ T; exact T].
  eapply g_bind; [apply g_bso_renew; [exact Lc|eapply oks_mono; [exact HP|exact HL|exact Fc]]|]. intros cs w1 Hw1 [Lcs Fcs].
  apply g_bso_loop.
  { eapply groups_mono with (Q := ok L); [intros a; apply good_mono; [apply HP|exact (incl_tran HL Hw1)]|]. split; assumption. }
  intros idx w' gs Hw Hi G. destruct (slot_place idx Hi) as [P1 P2]. cbv zeta.
  eapply g_qbind with (Φ := fun _ => True); [gquiet HP|]. intros u _.
  eapply g_qbind with (Φ := fun r => fst r < m).
  - destruct (flt u p2).
    + eapply gq_bind with (Φ := fun _ => True); [gquiet HP|]. intros u2 _.
      eapply gq_bind with (Φ := fun c => c < m).
      { destruct (flt u2 p3); [|apply gq_ret; exact P1]. eapply gq_qt; [exact HP|noc|]. eapply q_mono; [apply q_integers; lia|]. intros i Hi'. cbv beta in Hi'. lia. }
      intros c Hc. eapply gq_bind with (Φ := fun _ => True); [gquiet HP|]. intros u3 _. eapply gq_bind with (Φ := fun _ => True).
      * destruct (flt u3 p3).
        -- eapply gq_bind; [apply gq_bso_center; [exact Lcs|exact Hc]|]. intros y _. gquiet HP.
        -- eapply gq_bind; [eapply gq_qt; [exact HP|noc|apply q_integers; lia]|]. intros r1 H1. cbv beta in H1.
           eapply gq_bind; [eapply gq_bso_at; [exact G|exact Hc|lia]|]. intros y _. gquiet HP.
      * intros v _. apply gq_ret. exact Hc.
    + eapply gq_bind; [eapply gq_bso_mix; [exact G|exact Lcs]|]. intros v _. apply gq_ret. exact P1.
  - intros r Hr. apply g_bso_slot; [intros; qcorrect HP|exact G|exact Hr|exact P2].
Qed.
End BSO.
Lemma start_bso E P feas cov nd n0 m k (s : st unit (list (list (agent unit)) * list (agent unit))) : params E P feas (@anyatt unit) cov -> 0 < k ->
  Start P feas (@anyatt unit) (eq (m * k)) (fun _ _ => True) cov nd n0 s ->
  wp (bso_more E P m k) (fun _ s' => Start P feas (@anyatt unit) (eq (m * k)) (fun L x => (List.length (fst x) = m /\ Forall (fun g => List.length g = k /\ Forall (good P feas (@anyatt unit) L) g) (fst x)) /\
    List.length (snd x) = m /\ Forall (good P feas (@anyatt unit) L) (snd x)) cov nd n0 s' /\ List.length (s_log s) + 0 <= List.length (s_log s') <= List.length (s_log s) + 0) s.
Proof.
  intros HP Hk HS. pose proof (st_len _ _ _ _ _ _ _ _ _ HS) as Ln. pose proof (st_good _ _ _ _ _ _ _ _ _ HS) as Gd.
  unfold bso_more. apply wp_bind, wp_get_pop. cbv zeta. set (gs := map _ _).
  assert (Lg : List.length gs = m) by (unfold gs; rewrite map_length, seq_length; reflexivity).
  assert (Fg : Forall (fun g => List.length g = k /\ Forall (good P feas (@anyatt unit) (s_log s)) g) gs).
  { unfold gs. apply Forall_forall. intros g Hg. apply in_map_iff in Hg. destruct Hg as (i & <- & Hi). apply in_seq in Hi. split.
    - rewrite Nat.add_1_r. apply (slice_part m); lia.
    - apply slice_Forall. exact Gd. }
  apply wp_bind. unfold bso_centers. eapply (group_bests E P feas cov k HP Hk (s_log s)); [lia| | |].
  - eapply Forall_impl; [|exact Fg]. intros g [H _]. exact H.
  - apply Forall_concat. eapply Forall_impl; [|exact Fg]. intros g [_ H]. exact H.
  - intros q Lq Gq _. unfold set_x, wp. split; [|cbn [with_x s_log]; lia]. destruct HS. constructor; auto.
    exists (s_log s). split; [apply incl_refl|]. cbn [with_x s_x fst snd]. split; [split|split]; assumption.
Qed.
Lemma bso_sound E P md m k epochs ev : 2 <= m -> 0 < k -> 0 < epochs ->
  (forall feas nd n0 ep s0 w, params E P feas (@anyatt unit) (false = true /\ obj_num P feas) ->
    gt P feas (@anyatt unit) (eq (m * k)) (fun L x => (List.length (fst x) = m /\ Forall (fun g => List.length g = k /\ Forall (good P feas (@anyatt unit) L) g) (fst x)) /\
      List.length (snd x) = m /\ Forall (good P feas (@anyatt unit) L) (snd x)) (false = true /\ obj_num P feas) nd n0 (m * k) s0 w (m * k) (m * k + 1) (ev ep) (fun _ _ => True)) ->
  sound_run E P md (with_init (agent_algo E md (generate_empty_agent P tt) (ga_of P (generate_empty_agent P tt)) (m * k) epochs false (ret tt) (ret tt) ev) (bso_more E P m k)) (fun _ => True) false (m * k) (m * k + 1).
Proof.
  intros Hm Hk He Hev. apply gen_plain.
  assert (T : sound_run_gen E P md (with_init (agent_algo E md (generate_empty_agent P tt) (ga_of P (generate_empty_agent P tt)) (m * k) epochs false (ret tt) (ret tt) ev) (bso_more E P m k)) (fun _ => True) (fun _ => True) (fun _ => True) (eq (m * k)) false (m * k + 0) (m * k + 0) (m * k) (m * k + 1)).
  2:{ rewrite !Nat.add_0_r in T. exact T. }
  apply (sound_more E P md _ _ (m * k) epochs false (ret tt) _ (ret tt) _ (fun _ => True) (fun _ => True) (fun _ => True) (fun _ => @anyatt unit)
    (fun _ _ _ => True) (fun feas L x => (List.length (fst x) = m /\ Forall (fun g => List.length g = k /\ Forall (good P feas (@anyatt unit) L) g) (fst x)) /\
      List.length (snd x) = m /\ Forall (good P feas (@anyatt unit) L) (snd x))
    (fun feas L x => (List.length (fst x) = m /\ Forall (fun g => List.length g = k /\ Forall (good P feas (@anyatt unit) L) g) (fst x)) /\
      List.length (snd x) = m /\ Forall (good P feas (@anyatt unit) L) (snd x))); auto; try lia.
  - intros feas rows _ _ Hp. apply plain_gea_ok, Hp.
  - intros feas Hp. apply ga_of_ok, plain_gea_ok, Hp.
  - intros feas Hp. apply vars_none; auto.
  - intros feas nd n0 s HP _ HS. eapply start_bso; [exact HP|exact Hk|exact HS].
  - intros feas nd n0 s HP _ HI. eapply main_none. exact HI.
  - intros feas nd n0 HP _. apply contract_free. intros ep s0 w Hep _. apply Hev. exact HP.
Qed.
(** For populations of [m] groups of [k] agents each. *)
Theorem C65_ImprovedBSO E P md p1 p2 p3 p4 m k epochs : 2 <= m -> 0 < k -> 0 < epochs ->
  sound_run E P md (improved_bso E P md p1 p2 p3 p4 m (m * k) epochs) (fun _ => True) false (m * k) (m * k + 1).
Proof.
  intros Hm Hk He. unfold improved_bso. replace (m * k / m) with k by (rewrite Nat.mul_comm, Nat.div_mul; lia). apply bso_sound; try lia.
  intros feas nd n0 ep s0 w HP. apply g_ibso; [exact HP|lia|lia].
Qed.
Theorem C65_OriginalBSO E P md p1 p2 p3 p4 m k epochs : 2 <= m -> 0 < k -> 0 < epochs ->
  sound_run E P md (original_bso E P md p1 p2 p3 p4 m (m * k) epochs) (fun _ => True) false (m * k) (m * k + 1).
Proof.
  intros Hm Hk He. unfold original_bso. replace (m * k / m) with k by (rewrite Nat.mul_comm, Nat.div_mul; lia). apply bso_sound; try lia.
  intros feas nd n0 ep s0 w HP. apply g_obso; [exact HP|lia|lia].
Qed.

(** ** DevWOAmM *)
Lemma NoDup_skipn {T} (l : list T) j : NoDup l -> NoDup (skipn j l).
Proof. revert l. induction j as [|j IH]; intros [|a l] H; cbn; auto. inversion H; auto. Qed.
Section WOAmM.
Notation X := (nat * option f64)%type.
Variables (E : env) (P : problem) (feas : vec -> Prop) (cov : Prop) (nd n0 n : nat) (s0 : st unit X).
Hypothesis HP : params E P feas (@anyatt unit) cov.
Hypothesis Hn : 5 <= n.
Notation IX := (fun (_ : list vec) (_ : X) => True).
Notation R := (R P feas (@anyatt unit) (eq n) IX cov nd n0 n s0).
Notation qt := (qt P feas (@anyatt unit) (eq n) IX cov nd n0 n s0).
Notation blk := (blk P feas (@anyatt unit) (eq n) IX cov nd n0 n s0).
Notation good := (good P feas (@anyatt unit)).
Notation gea := (generate_empty_agent (A := unit) (X := X) P tt).
Lemma q_woamm bd x : qt (correct_solution_with P (woamm_amend E P bd) x) feas.
Proof using HP.
  eapply q_correct_with; [exact HP|]. intros y. destruct bd; cbn [woamm_amend].
  - apply q_ret, vtab_length.
  - apply q_amend_random.
  - apply q_amend_form.
Qed.
Lemma others_lt i m : In m (others n [i]) -> m < n.
Proof. intros H. unfold others in H. apply filter_In in H. destruct H as [H _]. apply in_seq in H. lia. Qed.
Lemma b_woamm_mutual bd : blk (n * 2) (n * 2) (woamm_mutual E P bd n) (fun _ => True).
Proof.
  unfold woamm_mutual. eapply b_qbind; [quiet HP|]. intros p [Lp Fp]. apply b_for. intros idx Hi.
  eapply b_qbind; [quiet HP|]. intros [m k] [Hm Hk]. cbn [fst snd] in *.
  apply others_lt in Hm. apply others_lt in Hk.
  eapply b_qbind; [apply q_getitem; lia|]. intros a Ha. eapply b_qbind; [apply q_getitem; lia|]. intros b Hb. eapply b_qbind; [apply q_getitem; lia|]. intros c Hc.
  rewrite Forall_forall in Fp. destruct (Fp _ Ha) as [Wa _]. destruct (Fp _ Hb) as [Wb _]. destruct (Fp _ Hc) as [Wc _].
  eapply b_qbind; [apply q_fitness; exact Wa|]. intros fa _. eapply b_qbind; [apply q_fitness; exact Wb|]. intros fb _. eapply b_qbind; [apply q_fitness; exact Wc|]. intros fc _.
  eapply b_qbind; [apply PAlg.q_compare; assumption|]. intros t _. eapply b_qbind; [quiet HP|]. intros x _. eapply b_qbind; [quiet HP|]. intros y _.
  eapply b_try_pair; [exact HP|intros; apply q_woamm|qgea|lia|destruct t; lia].
Qed.
Lemma b_woamm_refresh : blk 0 0 (woamm_refresh E P) (fun _ => True).
Proof.
  intros W l s HR. pose proof HR as (V & Ln & Hl). unfold woamm_refresh. apply wp_bind, wp_get_pop. apply wp_bind.
  pose proof (v_good _ _ _ _ _ _ _ _ _ _ _ V) as Gp.
  destruct (best_agent_ok E P feas (@anyatt unit) cov HP (s_log s) (s_pop s) Gp) as (b & i & Eb & _ & Gb & _ & _); [intros E1; rewrite E1 in Ln; cbn in Ln; lia|].
  eapply wp_lift; [exact Eb|]. cbv beta iota. apply wp_bind. destruct (Ev_gb _ _ _ _ _ _ _ _ _ _ _ V) as (g & Eg & G).
  eapply wp_get_gb; [exact Eg|]. apply wp_bind.
  destruct (good_get_better P feas _ (pr_mm _ _ _ _ _ HP) _ b g false Gb G) as (r & Er & _ & Gr & _). eapply wp_lift; [exact Er|].
  unfold wp, set_gb. split; [exact I|]. exists 0. split; [lia|]. rewrite Nat.add_0_r. split; [|split; assumption]. destruct V. constructor; simpl; eauto.
Qed.
Lemma b_woamm_restart k : k < n -> blk k k (woamm_restart E P k n) (fun _ => True).
Proof.
  intros Hk W l s HR. pose proof HR as (V & Ln & Hl). unfold woamm_restart. apply wp_bind, wp_get_pop. apply wp_bind.
  pose proof (v_good _ _ _ _ _ _ _ _ _ _ _ V) as Gp.
  destruct (sorted_population_spec _ (pr_argsort _ _ _ _ _ HP) (s_pop s) (p_mm P) (Forall_good_target _ _ _ _ _ Gp)) as (sp & ix & Es & Hix & Hmap & Hp & Hs).
  eapply wp_lift; [exact Es|]. cbv beta iota. apply wp_bind.
  pose proof (Permutation_length Hix) as Lix. rewrite seq_length, Ln in Lix.
  assert (ND : NoDup ix) by (eapply Permutation_NoDup; [apply Permutation_sym; exact Hix|apply seq_NoDup]).
  assert (Hr : forall j, In j ix -> j < n). { intros j Hj. apply (Permutation_in _ Hix) in Hj. apply in_seq in Hj. lia. }
  unfold collect. apply wp_for_acc with (I := fun i acc s' => List.length acc = i /\ R (W ++ acc) (l + i) s' /\ s_pop s' = s_pop s).
  { split; [reflexivity|]. rewrite app_nil_r, Nat.add_0_r. split; [exact HR|reflexivity]. }
  { intros i acc s1 Hi (La & R1 & E1). apply wp_bind. eapply wp_mono; [eapply ready_random; [exact HP| |exact R1]|].
    - eapply gea_plain_none; [exact HP|intros; exact I].
    - intros a s2 (_ & E2 & k' & Hk' & R2). apply wp_ret. split; [rewrite app_length; cbn; lia|]. rewrite app_assoc. replace (l + S i) with (l + i + k') by lia. split; [exact R2|congruence]. }
  intros new s1 (Lw & R1 & E1).
  assert (Gn : Forall (good (s_log s1)) new) by (eapply R_held_good; exact R1).
  pose proof (R_pop_all _ _ _ _ _ _ _ _ _ _ _ _ _ R1) as Gp1.
  destruct ix as [|i0 ix]; [cbn in Lix; lia|]. destruct sp as [|b sp]; [discriminate|]. injection Hmap as Hb0 _.
  set (ws := skipn (n - k) (i0 :: ix)).
  assert (Lws : List.length ws = k) by (unfold ws; rewrite skipn_length; cbn [List.length] in *; lia).
  assert (Iws : incl ws ix). { unfold ws. destruct (n - k) as [|d] eqn:Ed; [lia|]. cbn [skipn]. intros j Hj. rewrite <- (firstn_skipn d ix). apply in_or_app; auto. }
  assert (NDw : NoDup ws) by (apply NoDup_skipn; exact ND).
  assert (N0 : ~ In i0 ws). { apply NoDup_cons_iff in ND. destruct ND as [N _]. intros Hc. apply Iws in Hc. contradiction. }
  clearbody ws.
  apply wp_for with (I := fun j s' => exists q, s' = with_pop s1 q /\ List.length q = n /\ Forall (good (s_log s1)) q /\ nth_error q i0 = Some b /\
      forall i w, i < j -> nth_error ws i = Some w -> nth_error q w = nth_error new i).
  - exists (s_pop s1). split; [destruct s1; reflexivity|]. rewrite E1. split; [exact Ln|]. split; [rewrite <- E1; exact Gp1|]. split; [exact Hb0|]. intros; lia.
  - intros j s' Hj (q & -> & Lq & Gq & Hq0 & Hq). apply wp_bind. destruct (getitem_lt ws j ltac:(lia)) as (w & Ew & Ew' & Iw). eapply wp_lift; [exact Ew|].
    apply wp_bind. destruct (getitem_lt new j ltac:(lia)) as (a & Ea & Ea' & Ia). eapply wp_lift; [exact Ea|].
    assert (Hw : w < n) by (apply Hr; right; apply Iws; exact Iw).
    apply wp_pop_set; [cbn; lia|]. exists (upd q w a). split; [reflexivity|]. split; [rewrite upd_length; exact Lq|].
    split; [apply upd_Forall; [exact Gq|rewrite Forall_forall in Gn; auto]|].
    split; [rewrite upd_nth_neq; [exact Hq0|intros ->; contradiction]|]. intros i w' Hi' Ew2. destruct (Nat.eq_dec i j) as [->|Hne].
    + assert (w' = w) by congruence. subst. rewrite upd_nth_eq; [congruence|lia].
    + rewrite upd_nth_neq; [apply Hq; [lia|exact Ew2]|]. intros ->. apply Hne. eapply NoDup_nth_error; [exact NDw| |congruence]. rewrite Lws. lia.
  - intros s' (q & -> & Lq & Gq & Hq0 & Hq). split; [exact I|]. exists k. split; [lia|].
    eapply R_set_pop; [exact HP|exact R1|exact Lq|exact Gq|]. intros C a Ha. apply in_app_or in Ha. destruct Ha as [Ha|Ha].
    + exists b. split; [eapply nth_error_In; exact Hq0|]. eapply (sorted_head_best E P feas (@anyatt unit) cov HP (s_log s1) (s_pop s1) (b :: sp)); [exact Gp1|rewrite E1; exact Hp|exact Hs|exact C|reflexivity|exact Ha].
    + exists a. split.
      * destruct (In_nth_error _ _ Ha) as (i & Hi). assert (Hik : i < List.length new) by (apply nth_error_Some; congruence). rewrite Lw in Hik. cbn [Nat.add] in Hik.
        destruct (nth_error ws i) as [w|] eqn:Ew; [|apply nth_error_None in Ew; lia]. eapply nth_error_In. rewrite (Hq i w Hik Ew). exact Hi.
      * apply no_worse_refl; [apply HP|]. rewrite Forall_forall in Gn. eapply good_num; [apply HP; exact C|apply Gn; exact Ha].
Qed.
Lemma q_woamm_best : qt (woamm_best E P) (fun _ => True).
Proof. unfold woamm_best. quiet HP. Qed.
Lemma b_woamm_stagnation pt k : k < n -> blk 0 k (woamm_stagnation E P pt k n) (fun _ => True).
Proof.
  intros Hk. unfold woamm_stagnation. destruct (pt =? 0). { eapply b_mono with (Φ := fun _ => True); [apply b_quiet, q_ret; exact I|lia|lia|auto]. }
  eapply b_qbind; [apply q_woamm_best|]. intros f _. eapply b_qbind; [quiet HP|]. intros x _. cbv zeta.
  destruct (match snd x with None => _ | _ => _ end); [eapply b_mono with (Φ := fun _ => True); [apply b_quiet; quiet HP|lia|lia|auto]|].
  destruct (pt <=? S (fst x)); [|eapply b_mono with (Φ := fun _ => True); [apply b_quiet; quiet HP|lia|lia|auto]].
  eapply b_qbind; [quiet HP|]. intros _ _. eapply b_mono with (a := k + 0) (b := k + 0) (Φ := fun _ => True); [|lia|lia|auto].
  eapply b_bind; [apply b_woamm_restart; exact Hk|]. intros _ _. eapply b_qbind; [apply q_woamm_best|]. intros f' _. apply b_quiet. quiet HP.
Qed.
Lemma b_dev_woamm bd pt k ep : k < n -> blk (3 * n) (3 * n + k) (dev_woamm_evolve E P bd pt k n ep) (fun _ => True).
Proof.
  intros Hk. unfold dev_woamm_evolve. eapply b_mono with (a := n * 2 + (0 + (n + 0))) (b := n * 2 + (0 + (n + k))) (Φ := fun _ => True); [|lia|lia|auto].
  eapply b_bind; [apply b_woamm_mutual|]. intros _ _. eapply b_bind; [apply b_woamm_refresh|]. intros _ _.
  eapply b_bind; [|intros _ _; apply b_woamm_stagnation; exact Hk].
  eapply b_greedy_each; [exact HP|intros; apply q_woamm|qgea|reflexivity|]. intros i Hi. unfold woamm_whale. quiet HP.
Qed.
End WOAmM.
Lemma main_woamm E P feas (attok := @anyatt unit) cov nd n0 n (s : st unit (nat * option f64)) : params E P feas attok cov ->
  Inv P feas attok (eq n) (fun _ _ => True) cov nd n0 s ->
  wp (woamm_start) (fun _ s' => exists k x, s' = with_x (bump s k) x /\ xok (fun _ _ => True) (s_log s) x) s.
Proof.
  intros HP HI. destruct (i_gb _ _ _ _ _ _ _ _ _ HI) as (g & Eg & Gg & _). unfold woamm_start, gb_fit. apply wp_bind, wp_bind. eapply wp_get_gb; [exact Eg|].
  eapply wp_lift; [apply fitness_fit, wf_has_target; eapply good_wf; exact Gg|]. apply wp_bind, wp_get_x. unfold set_x, wp.
  exists (s_ctr s), (fst (s_x s), Some (fit g)). split; [destruct s; reflexivity|].
  exists []. split; [intros ? []|exact I].
Qed.
Theorem C64_DevWOAmM E P bd patience k n epochs : 5 <= n -> k < n -> 0 < epochs ->
  sound_run E P Single (dev_woamm E P bd patience k n epochs) (fun _ => True) true (3 * n) (3 * n + k).
Proof.
  intros Hn Hk He. apply gen_plain. eapply (state_elite _ _ _ _ _ _ _ _ _ _ _ _ (fun _ _ _ => True) (fun _ _ _ => True)); [lia|lia|..].
  - intros feas Hp. unfold woamm_vars. apply vars_set. draws. auto.
  - intros feas nd n0 s HP HH HI. eapply main_woamm; [exact HP|exact HI].
  - intros feas nd n0 ep s0 HP HH Hep. apply b0_blk, b_dev_woamm; auto.
Qed.
(** ** OriginalWOAmM *)
Section WOAmMFree.
Notation X := (nat * option f64)%type.
Variables (E : env) (P : problem) (feas : vec -> Prop) (C : Prop) (nd n0 n : nat) (s0 : st unit X).
Hypothesis HP : params E P feas (@anyatt unit) (false = true /\ C).
Hypothesis Hn : 5 <= n.
Notation IX := (fun (_ : list vec) (_ : X) => True).
Notation gt := (gt P feas (@anyatt unit) (eq n) IX (false = true /\ C) nd n0 n s0).
Notation gq := (gq P feas (@anyatt unit) (eq n) IX (false = true /\ C) nd n0 n s0).
Notation ok := (good P feas (@anyatt unit)).
Notation pend := (pend feas (@anyatt unit)).
Notation gea := (generate_empty_agent (A := unit) (X := X) P tt).
Lemma g_try_pair w bd i j x y : i < n -> j < n -> gt w 2 2 (try_pair P (correct_solution_with P (woamm_amend E P bd)) gea i j x y) (fun _ _ => True).
Proof using HP.
  intros Hi Hj. unfold try_pair.
  eapply g_qbind; [eapply gq_qt; [exact HP|noc|]; apply q_woamm; exact HP|]. intros x' Hx.
  eapply g_qbind; [eapply gq_qt; [exact HP|noc|]; apply q_woamm; exact HP|]. intros y' Hy.
  change 2 with (1 + (1 + 0)). eapply g_bind; [eapply g_gen_at; [exact HP|noc|qgea|exact Hx]|]. intros a w1 Hw1 Ha.
  eapply g_bind; [eapply g_gen_at; [exact HP|noc|qgea|exact Hy]|]. intros b w2 Hw2 Hb.
  apply g_quiet. eapply gq_bind; [eapply gq_accept; [exact HP|noc|exact Hi|]|].
  - eapply good_mono; [apply HP|exact Hw2|exact Ha].
  - intros _ _. eapply gq_accept; [exact HP|noc|exact Hj|exact Hb].
Qed.
Lemma g_woamm_mutual w bd : gt w (n * 2) (n * 2) (woamm_mutual E P bd n) (fun _ _ => True).
Proof.
  unfold woamm_mutual. eapply g_qbind; [apply gq_get_pop|]. intros p [Lp Fp0]. eapply g_for. intros idx w1 Hw1 Hi.
  assert (Fp : Forall (ok w1) p) by (eapply oks_mono; [exact HP|exact Hw1|exact Fp0]).
  eapply g_qbind; [eapply gq_qt; [exact HP|noc|]; quiet HP|]. intros [m k] [Hm Hk]. cbn [fst snd] in *. apply (others_lt n Hn) in Hm. apply (others_lt n Hn) in Hk.
  eapply g_qbind; [eapply gq_getitem; [exact HP|noc|lia|exact Fp]|]. intros a Ha. eapply g_qbind; [eapply gq_getitem; [exact HP|noc|lia|exact Fp]|]. intros b Hb.
  eapply g_qbind; [eapply gq_getitem; [exact HP|noc|lia|exact Fp]|]. intros c Hc.
  eapply g_qbind; [eapply gq_fitness; [exact HP|noc|exact Ha]|]. intros fa _. eapply g_qbind; [eapply gq_fitness; [exact HP|noc|exact Hb]|]. intros fb _.
  eapply g_qbind; [eapply gq_fitness; [exact HP|noc|exact Hc]|]. intros fc _. eapply g_qbind; [eapply gq_compare; [exact HP|noc|exact Hb|exact Hc]|]. intros t _.
  eapply g_qbind; [gquiet HP|]. intros x _. eapply g_qbind; [gquiet HP|]. intros y _. apply g_try_pair; [lia|destruct t; lia].
Qed.
Lemma gq_woamm_refresh w : gq w (woamm_refresh E P) (fun _ => True).
Proof.
  unfold woamm_refresh. eapply gq_bind; [apply gq_get_pop|]. intros p [Lp Fp]. eapply gq_bind; [eapply gq_best; [exact HP|noc|exact Fp|lia]|]. intros [b i] [Hb _].
  eapply gq_bind; [apply gq_get_gb|]. intros g Hg. eapply gq_bind; [eapply gq_better; [exact HP|noc|exact Hb|exact Hg]|]. intros r Hr. eapply gq_set_gb; first [noc|exact Hr].
Qed.
Lemma g_woamm_restart w k : k < n -> gt w k k (woamm_restart E P k n) (fun _ _ => True).
Proof.
  intros Hk. unfold woamm_restart. eapply g_qbind; [apply gq_get_pop|]. intros p [Lp Fp].
  eapply g_qbind; [eapply gq_sorted; [exact HP|noc|exact Fp]|]. intros [sp ix] (_ & _ & Li & Fi). cbn [fst snd] in *.
  eapply g_mono with (a := k * 1 + 0) (b := k * 1 + 0) (Φ := fun _ _ => True); [|lia|lia|auto].
  eapply g_bind; [eapply g_collect; [exact HP|]; intros i w' _ _; eapply g_random_agent; gprem HP|]. intros new w' Hw [Lw Fw].
  apply g_quiet. eapply gq_for. intros i Hi.
  assert (Ls : List.length (skipn (n - k) ix) = k) by (rewrite skipn_length; lia).
  eapply gq_bind with (Φ := fun j => j < n).
  - eapply gq_lift; [exact HP|noc|]. destruct (getitem_lt (skipn (n - k) ix) i ltac:(lia)) as (j & Ej & _ & Ij). exists j. split; [exact Ej|].
    rewrite Forall_forall in Fi. rewrite <- Lp. apply Fi. rewrite <- (firstn_skipn (n - k) ix). apply in_or_app; auto.
  - intros j Hj. eapply gq_bind; [eapply gq_getitem; [exact HP|noc|lia|exact Fw]|]. intros a Ha. eapply gq_pop_set; [exact HP|noc|exact Hj|exact Ha].
Qed.
Lemma gq_woamm_best w : gq w (woamm_best E P) (fun _ => True).
Proof. eapply gq_qt; [exact HP|noc|]. apply q_woamm_best; auto. Qed.
Lemma g_woamm_stagnation w pt k : k < n -> gt w 0 k (woamm_stagnation E P pt k n) (fun _ _ => True).
Proof.
  intros Hk. unfold woamm_stagnation. destruct (pt =? 0). { eapply g_mono with (Φ := fun _ _ => True); [apply g_quiet, gq_ret; exact I|lia|lia|auto]. }
  eapply g_qbind; [apply gq_woamm_best|]. intros f _. eapply g_qbind; [apply gq_get_x|]. intros x _. cbv zeta.
  assert (Sx : forall w' z, gq w' (set_x z) (fun _ => True)) by (intros w' z; eapply gq_mono; [apply gq_set_x; exact I|auto]).
  destruct (match snd x with None => _ | _ => _ end); [eapply g_mono with (Φ := fun _ _ => True); [apply g_quiet, Sx|lia|lia|auto]|].
  destruct (pt <=? S (fst x)); [|eapply g_mono with (Φ := fun _ _ => True); [apply g_quiet, Sx|lia|lia|auto]].
  eapply g_qbind; [apply Sx|]. intros _ _. eapply g_mono with (a := k + 0) (b := k + 0) (Φ := fun _ _ => True); [|lia|lia|auto].
  eapply g_bind; [apply g_woamm_restart; exact Hk|]. intros _ w' _ _. apply g_quiet. eapply gq_bind; [apply gq_woamm_best|]. intros f' _. apply Sx.
Qed.
Lemma g_woamm w bd pt k ep : k < n -> gt w (3 * n) (3 * n + k) (woamm_evolve E P bd pt k n ep) (fun _ _ => True).
Proof.
  intros Hk. unfold woamm_evolve. eapply g_mono with (a := n * 2 + (n + 0)) (b := n * 2 + (n + k)) (Φ := fun _ _ => True); [|lia|lia|auto].
  eapply g_bind; [apply g_woamm_mutual|]. intros _ w1 _ _. eapply g_qbind; [apply gq_woamm_refresh|]. intros _ _.
  eapply g_bind; [|intros _ w2 _ _; apply g_woamm_stagnation; exact Hk].
  eapply g_replace_each; [exact HP|noc|intros; apply q_woamm; exact HP|qgea|reflexivity|]. intros w2 i _ Hi. eapply gq_qt; [exact HP|noc|]. unfold woamm_whale. quiet HP.
Qed.
End WOAmMFree.
Theorem C65_OriginalWOAmM E P bd patience k n epochs : 5 <= n -> k < n -> 0 < epochs ->
  sound_run E P Single (original_woamm E P bd patience k n epochs) (fun _ => True) false (3 * n) (3 * n + k).
Proof.
  intros Hn Hk He. apply gen_plain. eapply (state_free _ _ _ _ _ _ _ _ _ _ _ _ (fun _ _ _ => True) (fun _ _ _ => True)); [lia|lia|..].
  - intros feas Hp. unfold woamm_vars. apply vars_set. draws. auto.
  - intros feas nd n0 s HP HH HI. eapply main_woamm; [exact HP|exact HI].
  - intros feas nd n0 ep s0 w HP HH Hep. apply g_woamm; auto.
Qed.
(** A position found by the mutualism phase is lost when the whale phase overwrites it: update_global_best_agent compares with the last
    entry of the history, not with the g_best set in the middle of the epoch. *)
Definition woamm_env : env := mkEnv argsort_ins (e_u demo_env) (e_g demo_env) (e_i demo_env)
  (fun name l => if String.eqb name "WOA:438-462" then fZ 0 else fZ 3) (e_time demo_env) (e_order demo_env).
Theorem C65_OriginalWOAmM_refuted : exists g s' x,
  solve woamm_env (demo_prob Min sphere true) Single (original_woamm woamm_env (demo_prob Min sphere true) Clip 0 1 5 2) None None (st0 (0, None)) = Ok (g, s') /\
  In x (s_log s') /\ flt (sphere x) (fit g) = true.
Proof.
  assert (T : match solve woamm_env (demo_prob Min sphere true) Single (original_woamm woamm_env (demo_prob Min sphere true) Clip 0 1 5 2) None None (st0 (0, None)) with
              | Ok (g, s') => existsb (fun x => flt (sphere x) (fit g)) (s_log s') | _ => false end = true) by (vm_compute; reflexivity).
  destruct (solve _ _ _ _ _ _ _) as [[g s']|]; [|discriminate]. apply existsb_exists in T. destruct T as (x & Hx & Hf). exists g, s', x. auto.
Qed.

Print Assumptions C64_DevTPO.
Print Assumptions C64_DevTPO_refuted.
Print Assumptions C65_ImprovedBSO.
Print Assumptions C65_OriginalBSO.
Print Assumptions C64_DevWOAmM.
Print Assumptions C65_OriginalWOAmM.
Print Assumptions C65_OriginalWOAmM_refuted.
