(** What the algorithm classes modelled in MClass26 guarantee. *)
From Coq Require Import Permutation.
From Verif Require Import Prelude Fl MCore MHelp MAlg MAlg2 MAlg3 MAlg4 MAlg5 MAlg6 MAlg7 MAlg8 SpecCore SpecRun SpecAlg SpecWhen Demo
  PSelect PLogic PSolve PRun PAlg PFree PClass PAlg2 PAlg3 PAlg4 PAlg5 PAlg6 PAlg7 PAlg8 PAlg9 PRef PElse PAlg10 PAlg11 PAlg13 PAlg14 AClass14 AClass18 AClass19 AClass20 AClass21 AClass24 AClass25
  AClass26 MClass20 MClass26.

(** ** SAP_DE *)
Lemma qp_choice_in {A X T} E P feas attok IL IX cov nd n0 n (s0 : st A X) m : forall l : list T,
  qp P feas attok IL IX cov nd n0 n s0 (choice_noreplace E l m) (fun r => List.length r = m /\ incl r l).
Proof.
  intros l. destruct (le_lt_dec m (List.length l)) as [Hl|Hl].
  - apply qp_qt. eapply q_mono; [apply q_choice_noreplace; exact Hl|]. intros r [Hr [rest Hp]]. split; [exact Hr|].
    intros x Hx. eapply Permutation_in; [exact Hp|]. apply in_or_app. left. exact Hx.
  - intros W k s y s' HR Em. exfalso. destruct (choice_short E m l s Hl) as [e Ee]. rewrite Ee in Em. discriminate.
Qed.
Section SAP.
Variables (E : env) (P : problem) (md : MCore.mode) (feas : vec -> Prop) (IL : nat -> Prop) (C : Prop) (nd n0 n m : nat).
Notation A := (f64 * f64 * f64)%type.
Variable s0 : st (f64 * f64 * f64) unit.
Hypothesis HP : params E P feas (@anyatt (f64 * f64 * f64)) (false = true /\ C).
Hypothesis Hm : 0 < m.
Notation gq := (gq P feas (@anyatt (f64 * f64 * f64)) IL (fun _ _ => True) (false = true /\ C) nd n0 m s0).
Notation gt := (gt P feas (@anyatt (f64 * f64 * f64)) IL (fun _ _ => True) (false = true /\ C) nd n0 m s0).
Notation qp := (qp P feas (@anyatt (f64 * f64 * f64)) IL (fun _ _ => True) (false = true /\ C) nd n0 m s0).
Notation qt := (qt P feas (@anyatt (f64 * f64 * f64)) IL (fun _ _ => True) (false = true /\ C) nd n0 m s0).
Notation ok := (ok P feas (@anyatt (f64 * f64 * f64))).
Notation pend := (pend feas (@anyatt (f64 * f64 * f64))).
Lemma sap_gea_ok : gea_ok feas (@anyatt (f64 * f64 * f64)) (sap_gea E P).
Proof.
  eapply gea_with_ok; [apply HP|]. intros x. unfold uniform, rnum. eapply dr_bind; [apply dr_uniform|]. intros c _. eapply dr_bind; [apply dr_uniform|]. intros r _.
  eapply dr_bind; [apply dr_rnum|]. intros p _. apply dr_ret. exact I.
Qed.
Definition sap_fine (w : list vec) (a : agent A) : Prop := if is_avail md then pend w a else ok w a.
Lemma fine_ok w a : ok w a -> sap_fine w a.
Proof. intros H. unfold sap_fine. destruct (is_avail md); [eapply ok_pend; [exact HP|exact H]|exact H]. Qed.
Lemma fine_mono w w' a : incl w w' -> sap_fine w a -> sap_fine w' a.
Proof. intros Hi. unfold sap_fine. destruct (is_avail md); [apply pend_mono; exact Hi|]. intros H. eapply good_mono; [apply HP|exact Hi|exact H]. Qed.
Definition sap_cost : nat := if is_avail md then 0 else 1.
Lemma g_sap_new w z c r x : gt w sap_cost sap_cost (sap_new E P md z c r x) sap_fine.
Proof.
  unfold sap_new, sap_cost, sap_fine. eapply g_qbind; [eapply gq_correct; [exact HP|noc|qcorrect HP]|]. intros y Hy.
  eapply g_qbind; [eapply gq_gea; [exact HP|noc|apply gea_quiet, sap_gea_ok|exact Hy]|]. intros b Hb. destruct (is_avail md); [apply g_ret; exact Hb|].
  eapply g_mono with (a := 1 + 0) (b := 1 + 0) (Φ := ok); [|lia|lia|auto]. eapply g_bind; [eapply g_get_target; [exact HP|noc|exact Hy]|].
  intros t w1 Hw1 [Hin ->]. eapply g_qbind; [gquiet HP|]. intros p _. apply g_ret. constructor; cbn; auto. exact I.
Qed.
Lemma qp_sap_edit fuel : forall v, qp (sap_edit E fuel v) (fun _ => True).
Proof.
  induction fuel as [|k IH]; intros v; cbn [sap_edit]; destruct ((v <= _) || (_ <= v))%F; try apply qp_raise; try (apply qp_qt, q_ret; exact I).
  eapply qp_qbind with (Φ := fun _ => True); [destruct (v <= _)%F; quiet HP|]. intros v1 _.
  eapply qp_qbind with (Φ := fun _ => True); [destruct (_ <= v1)%F; quiet HP|]. intros v2 _. apply IH.
Qed.
Lemma q_sap_pick idx : qt (orelse (sap_pick E m idx) (ret (0, 0, 0))) (fun t => fst (fst t) < m /\ snd (fst t) < m /\ snd t < m).
Proof.
  apply q_orelse; [|apply q_ret; cbn; lia]. unfold sap_pick, choose3. eapply qp_bind; [apply qp_choice_in|]. intros r [Lr Hr].
  destruct r as [|a [|b [|c [|]]]]; try discriminate. apply qp_qt, q_ret. cbn.
  assert (T : forall i, In i [a; b; c] -> i < m) by (intros i Hi; apply Hr, others_in in Hi; apply Hi). repeat split; apply T; cbn; auto.
Qed.
Lemma g_sap_one w pick edit idx : (forall w', gq w' (pick m idx) (fun t => fst (fst t) < m /\ snd (fst t) < m /\ snd t < m)) ->
  (forall w' v, gq w' (edit v) (fun _ => True)) -> idx < m ->
  gt w 0 (2 * sap_cost) (sap_one E P md pick edit m idx) (fun w' r => 1 <= List.length r <= 2 /\ Forall (sap_fine w') r).
Proof.
  intros Hp He Hi. unfold sap_one. eapply g_qbind; [apply Hp|]. intros [[i0 i1] i2] (H0 & H1 & H2). cbn [fst snd] in *.
  eapply g_qbind; [gquiet HP|]. intros j _. eapply g_qbind; [gquiet HP|]. intros f _. eapply g_qbind; [gquiet HP|]. intros u _.
  eapply g_qbind; [apply gq_pop_at; exact Hi|]. intros a Ha. eapply g_qbind; [apply gq_pop_at; exact H0|]. intros a0 Ha0.
  eapply g_qbind; [apply gq_pop_at; exact H1|]. intros a1 Ha1. eapply g_qbind; [apply gq_pop_at; exact H2|]. intros a2 Ha2.
  eapply g_mono with (a := 0 + (0 + 0)) (b := sap_cost + (sap_cost + 0)) (Φ := fun w' r => 1 <= List.length r <= 2 /\ Forall (sap_fine w') r); [|lia|lia|auto].
  eapply g_bind with (Φ := sap_fine).
  { destruct ((u < _) || _)%F.
    - eapply g_mono with (b := sap_cost) (Φ := sap_fine); [|lia|apply le_n|auto].
      eapply g_qbind; [gquiet HP|]. intros z _. eapply g_qbind; [apply He|]. intros c _. eapply g_qbind; [apply He|]. intros r _. apply g_sap_new.
    - eapply g_mono with (a := 0) (b := 0) (Φ := sap_fine); [apply g_ret, fine_ok, Ha|lia|lia|auto]. }
  intros c1 w1 Hw1 H1c. eapply g_qbind; [gquiet HP|]. intros u2 _.
  eapply g_bind with (Φ := fun w' r => List.length r <= 1 /\ Forall (sap_fine w') r).
  { destruct (u2 < _)%F.
    - eapply g_mono with (a := sap_cost + 0) (b := sap_cost + 0) (Φ := fun w' r => List.length r <= 1 /\ Forall (sap_fine w') r); [|lia|lia|auto].
      eapply g_qbind; [gquiet HP|]. intros z _. eapply g_qbind; [gquiet HP|]. intros c _. eapply g_qbind; [gquiet HP|]. intros r _.
      eapply g_bind; [apply g_sap_new|]. intros b w2 Hw2 Hb. apply g_ret. split; [cbn; lia|constructor; [exact Hb|constructor]].
    - eapply g_mono with (a := 0) (b := 0) (Φ := fun w' r => List.length r <= 1 /\ Forall (sap_fine w') r); [apply g_ret; split; [cbn; lia|constructor]|lia|lia|auto]. }
  intros c2 w2 Hw2 [L2 F2]. apply g_ret. split; [cbn [List.length]; lia|]. constructor; [eapply fine_mono; [exact Hw2|exact H1c]|exact F2].
Qed.
Lemma q_sap_size (total : M A unit Z) w : 5 <= n -> gq w total (fun _ => True) -> gq w (sap_size E total n) (fun k => 2 <= k <= 4 * n).
Proof.
  intros Hn Ht. unfold sap_size. eapply gq_bind; [exact Ht|]. intros z _. eapply gq_bind with (Φ := fun k => k < 4).
  { eapply gq_mono; [eapply gq_qt; [exact HP|noc|]; apply q_integers; lia|]. intros k Hk. cbv beta in Hk. lia. }
  intros k Hk. apply gq_ret. destruct (z <=? 4)%Z eqn:E1; [lia|]. apply Z.leb_gt in E1. destruct (_ <? z)%Z eqn:E2; [lia|]. apply Z.ltb_ge in E2. lia.
Qed.
Lemma g_sap_batch w pick edit : (forall w' idx, gq w' (pick m idx) (fun t => fst (fst t) < m /\ snd (fst t) < m /\ snd t < m)) ->
  (forall w' v, gq w' (edit v) (fun _ => True)) ->
  gt w (m * 0) (m * (2 * sap_cost)) (for_acc m 0 [] (fun idx acc => r <- sap_one E P md pick edit m idx ;; ret (acc ++ r)))
    (fun w' l => m <= List.length l <= 2 * m /\ Forall (sap_fine w') l).
Proof.
  intros Hp He. eapply g_mono; [apply (g_for_acc P feas (@anyatt A) IL (fun _ _ => True) (false = true /\ C) nd n0 m s0 w 0 (2 * sap_cost) m 0 [] _
    (fun i w' l => i <= List.length l <= 2 * i /\ Forall (sap_fine w') l))|lia|lia|].
  - split; [cbn; lia|constructor].
  - intros i w1 l Hw1 Hi [Ll Fl]. eapply g_mono with (a := 0 + 0) (b := 2 * sap_cost + 0) (Φ := fun w' l => S i <= List.length l <= 2 * S i /\ Forall (sap_fine w') l); [|lia|lia|auto].
    eapply g_bind; [apply g_sap_one; [intros; apply Hp|exact He|lia]|]. intros r w2 Hw2 [Lr Fr]. apply g_ret. split; [rewrite app_length; lia|].
    apply Forall_app. split; [|exact Fr]. eapply Forall_impl; [|exact Fl]. intros a. apply fine_mono, Hw2.
  - intros w' l _ H. exact H.
Qed.
Lemma g_sap_next w pick edit total ep : 5 <= n -> (forall w' idx, gq w' (pick m idx) (fun t => fst (fst t) < m /\ snd (fst t) < m /\ snd t < m)) ->
  (forall w' v, gq w' (edit v) (fun _ => True)) -> (forall w' l, gq w' (total l) (fun _ => True)) ->
  gt w 0 (2 * m) (sap_next E P md pick edit total n ep) (fun w' q => Forall (ok w') q /\ 2 <= List.length q < 8 * n).
Proof.
  intros Hn Hp He Ht. unfold sap_next. eapply g_qbind; [apply gq_get_pop|]. intros p [Lp Fp]. rewrite Lp. cbv zeta.
  assert (T : forall w l, gt w 0 (2 * m - m * (2 * sap_cost)) (update_target_for_population P md l) (fun w' l' => Forall (ok w') l' /\ List.length l' = List.length l) ->
    m <= List.length l <= 2 * m ->
    gt w 0 (2 * m - m * (2 * sap_cost)) (new <- update_target_for_population P md l ;;
     k <- sap_size E (total new) n ;;
     (if k <=? m then ret (firstn k new)
      else ' (ps, _) <- lift (get_sorted_population (e_argsort E) new (p_mm P)) ;; ret (new ++ firstn (k - m) ps))) (fun w' q => Forall (ok w') q /\ 2 <= List.length q < 8 * n)).
  { clear Fp. intros w9 l HT Ll. eapply g_mono with (a := 0 + 0) (b := (2 * m - m * (2 * sap_cost)) + 0) (Φ := fun w' q => Forall (ok w') q /\ 2 <= List.length q < 8 * n); [|lia|lia|auto].
    eapply g_bind; [exact HT|]. intros new w2 Hw2 [Fn Ln]. eapply g_qbind; [apply q_sap_size; [exact Hn|apply Ht]|]. intros k Hk. cbv beta in Hk.
    destruct (k <=? m) eqn:Ek.
    - apply Nat.leb_le in Ek. apply g_ret. split; [|rewrite firstn_length; lia]. apply first_Forall, Fn.
    - apply Nat.leb_gt in Ek. eapply g_qbind; [eapply gq_sorted; [exact HP|noc|exact Fn]|]. intros [ps ix] (L1 & F1 & _). cbn [fst] in *.
      apply g_ret. split; [|rewrite app_length, firstn_length; lia]. apply Forall_app. split; [exact Fn|]. apply first_Forall, F1. }
  assert (Hc : m * (2 * sap_cost) <= 2 * m) by (unfold sap_cost; destruct (is_avail md); lia).
  eapply g_mono with (a := m * 0 + 0) (b := m * (2 * sap_cost) + (2 * m - m * (2 * sap_cost))) (Φ := fun w' q => Forall (ok w') q /\ 2 <= List.length q < 8 * n); [|lia|lia|auto].
  eapply g_bind; [apply g_sap_batch; [exact Hp|exact He]|]. intros l w1 Hw1 [Ll Fl]. apply T; [|exact Ll].
  unfold sap_fine in Fl. unfold sap_cost. destruct (is_avail md) eqn:Hav.
  - eapply g_mono; [eapply g_update_target; [exact HP|noc|exact Hav|exact Fl]|lia|lia|auto].
  - unfold update_target_for_population. destruct md; try discriminate. eapply g_mono with (a := 0) (b := 0) (Φ := fun w' l' => Forall (ok w') l' /\ List.length l' = List.length l); [apply g_ret; auto|lia|lia|auto].
Qed.
End SAP.
(** SAP_DE (DE.py:441-573), whenever it returns.  The population may grow to almost eight times the initial size; the best solution found can be cut off. *)
Theorem C65_SAP_DE_returning E P md fuel n epochs : 5 <= n -> 0 < epochs ->
  sound_when E P md (sap_de E P md fuel n epochs) (fun _ => True) (fun _ => True) (fun _ => True) (fun m => 2 <= m < 8 * n) false n n 0 (16 * n).
Proof.
  intros Hn He. pose (pick := fun k i => orelse (sap_pick E k i) (ret (0, 0, 0))). pose (edit := fun v => orelse (sap_edit E fuel v) (ret v)).
  pose (total := fun l => orelse (sap_total E l) (ret 0%Z)).
  eapply (returns_of _ _ _ _ (sap_evolve E P md pick edit total n)).
  - intros ep. cbn [al_evolve sap_de agent_algo]. unfold sap_evolve, sap_next, sap_one, sap_size, pick, edit, total. refi.
  - change (with_evolve _ _) with (agent_algo E md (sap_gea E P) (ga_of P (sap_gea E P)) n epochs false (ret tt) (ret tt) (sap_evolve E P md pick edit total n)).
    assert (T : sound_run_gen E P md (agent_algo E md (sap_gea E P) (ga_of P (sap_gea E P)) n epochs false (ret tt) (ret tt) (sap_evolve E P md pick edit total n))
      (fun _ => True) (fun _ => True) (fun _ => True) (fun m => 2 <= m < 8 * n) false (n + 0) (n + 0) 0 (16 * n)).
    2:{ rewrite !Nat.add_0_r in T. exact T. }
    apply (sound_gen E P md _ (fun _ => True) (fun _ => True) (fun _ => True) (fun _ => @anyatt (f64 * f64 * f64))
      (fun _ _ _ => True) (fun _ _ _ => True) (fun m => 2 <= m < 8 * n) false n n 0 0 0 (16 * n)); auto.
    + intros m Hm. lia.
    + intros feas starting HP _ Hst _. apply agents_init; auto; try lia.
      * intros _ _. eapply sap_gea_ok. exact HP.
      * apply ga_of_ok. eapply sap_gea_ok. exact HP.
      * apply vars_none; auto.
    + intros feas nd HP _. apply skip_before_main; auto.
    + intros feas nd n0 HP _. apply contract_free_len; [noc|]. intros ep s0 w Hep HI.
      pose proof (i_len _ _ _ _ _ _ _ _ _ HI) as Hm. cbv beta in Hm. set (m := List.length (s_pop s0)) in *.
      eapply g_mono with (a := 0) (b := 2 * m); [apply g_sap_next; [exact HP|lia|exact Hn|..]|lia|lia|auto].
      * intros w' idx. eapply gq_qt; [exact HP|noc|]. apply q_sap_pick. lia.
      * intros w' v. eapply gq_qt; [exact HP|noc|]. apply q_orelse; [apply qp_sap_edit; exact HP|apply q_ret; exact I].
      * intros w' l. eapply gq_qt; [exact HP|noc|]. apply q_orelse; [|apply q_ret; exact I]. unfold sap_total. eapply qp_qbind; [apply q_rnum|]. intros t _. apply qp_lift. auto.
Qed.

Print Assumptions C65_SAP_DE_returning.
