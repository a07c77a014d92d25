(** What the algorithm classes modelled in MClass22 guarantee. *)
From Coq Require Import Permutation.
From Verif Require Import Prelude Fl MCore MHelp MAlg MAlg2 MAlg3 MAlg4 MAlg5 MAlg6 MAlg7 MAlg8 SpecCore SpecRun SpecAlg SpecWhen Demo
  PSelect PLogic PSolve PRun PAlg PFree PClass PAlg2 PAlg3 PAlg4 PAlg5 PAlg6 PAlg7 PAlg8 PAlg9 PRef PElse PAlg10 PAlg11 PAlg13 AMath AClass14 MClass12 MClass22.

(** ** Agents generated with several evaluations *)
Section Several.
Context {A X : Type}.
Variables (E : env) (P : problem) (md : MCore.mode) (feas : vec -> Prop) (attok : list vec -> A -> Prop) (IL : nat -> Prop) (IX : list vec -> X -> Prop) (cov : Prop) (nd n0 : nat).
Hypothesis HP : params E P feas attok cov.
Hypothesis Hno : ~ cov.
Notation good := (good P feas attok).
Notation Start := (Start P feas attok IL IX cov nd n0).
Lemma start_bump s k : Start s -> Start (bump s k).
Proof. intros []. constructor; auto. Qed.
Lemma start_evald s x : Start s -> feas x -> Start (evald s [x]).
Proof.
  intros [] Hx. assert (Hi : incl (s_log s) (s_log s ++ [x])) by (apply incl_appl, incl_refl). constructor; cbn; auto.
  - eapply Forall_impl; [|exact st_good]. intros a. apply good_mono; [apply HP|exact Hi].
  - apply Forall_app; split; [assumption|constructor; auto].
  - rewrite app_length; cbn; lia.
  - intros C. contradiction (Hno C).
  - eapply xok_mono; [exact Hi|assumption].
Qed.
(** Every agent takes [k] evaluations. *)
Definition makes (k : nat) (g : M A X (agent A)) : Prop := forall s, Start s ->
  wp g (fun a s' => good (s_log s') a /\ Start s' /\ incl (s_log s) (s_log s') /\ List.length (s_log s') = List.length (s_log s) + k) s.
Definition Made (l0 : list vec) (n k : nat) (l : list (agent A)) (s' : st A X) : Prop :=
  List.length l = n /\ Forall (good (s_log s')) l /\ Start s' /\ incl l0 (s_log s') /\ List.length (s_log s') = List.length l0 + n * k.
Lemma Made_next l0 n k l s g : makes k g -> Made l0 n k l s -> wp (a <- g ;; ret (l ++ [a])) (Made l0 (S n) k) s.
Proof.
  intros Hg (H1 & H2 & H3 & H4 & H5). apply wp_bind. eapply wp_mono; [apply Hg, H3|]. intros a s' (G1 & S1 & I1 & L1). apply wp_ret.
  split; [rewrite app_length; cbn; lia|]. split; [|split; [exact S1|split; [exact (incl_tran H4 I1)|lia]]].
  apply Forall_app; split; [|constructor; auto]. eapply Forall_impl; [|exact H2]. intros b. apply good_mono; [apply HP|exact I1].
Qed.
Lemma makes_repeat k g m s : makes k g -> Start s -> wp (repeat_M m g) (Made (s_log s) m k) s.
Proof.
  intros Hg S0. unfold repeat_M. eapply wp_for_acc with (I := fun i l s' => Made (s_log s) i k l s').
  - split; [reflexivity|]. split; [constructor|]. split; [exact S0|]. split; [apply incl_refl|lia].
  - intros i l s' Hi HM. apply Made_next; assumption.
  - intros l s' HM. exact HM.
Qed.
Lemma makes_population k g m s : md <> Process -> makes k g -> Start s -> wp (generate_population_with E md g m) (Made (s_log s) m k) s.
Proof.
  intros Hmd Hg S0. unfold generate_population_with. destruct md; try (apply makes_repeat; assumption); [|congruence].
  apply wp_bind, wp_tick. intros c. apply wp_bind.
  eapply wp_mono; [apply makes_repeat; [exact Hg|apply start_bump, S0]|]. intros l s' (H1 & H2 & H3 & H4 & H5). apply wp_ret.
  pose proof (reorder_perm (e_order E c) l) as Hp. split; [rewrite (Permutation_length Hp); exact H1|]. split; [|split; [exact H3|split; [exact H4|exact H5]]].
  rewrite Forall_forall in *. intros a Ha. apply H2. eapply Permutation_in; eauto.
Qed.
Lemma makes_rows k (ga : option vec -> M A X (agent A)) rows s : (forall x, feas x -> makes k (ga (Some x))) -> Forall feas rows -> Start s ->
  wp (for_list rows [] (fun r acc => a <- ga (Some r) ;; ret (acc ++ [a]))) (Made (s_log s) (List.length rows) k) s.
Proof.
  intros Hg Hr S0. eapply wp_for_list with (I := fun pre l s' => Made (s_log s) (List.length pre) k l s').
  - split; [reflexivity|]. split; [constructor|]. split; [exact S0|]. split; [apply incl_refl|cbn; lia].
  - intros pre x suf l s' Ex HM. rewrite app_length. cbn [List.length]. replace (List.length pre + 1) with (S (List.length pre)) by lia.
    apply Made_next; [|exact HM]. apply Hg. rewrite Forall_forall in Hr. apply Hr. rewrite Ex. apply in_or_app; right; left; reflexivity.
  - intros l s' HM. exact HM.
Qed.
End Several.
Section Init.
Context {A X : Type}.
Variables (E : env) (P : problem) (md : MCore.mode) (feas : vec -> Prop) (attok : list vec -> A -> Prop) (IX : list vec -> X -> Prop) (cov : Prop) (n k : nat).
Hypothesis HP : params E P feas attok cov.
Hypothesis Hno : ~ cov.
Hypothesis Hn : 0 < n.
Hypothesis Hmd : md <> Process.
(** Without starting solutions, or in a mode that generates each agent from its row. *)
Lemma several_init al starting s (ga : option vec -> M A X (agent A)) :
  al_pop_size al = n -> al_ga al = ga -> (starting = None \/ is_avail md = false) ->
  (forall n0 o, match o with Some x => feas x | None => True end -> makes P feas attok (fun _ => True) IX cov 0 n0 k (ga o)) ->
  starting_ok P feas n starting -> fresh s -> IX [] (s_x s) ->
  wp (before_initialization P md al starting ;;; default_initialization E md ga n)
    (fun _ s' => Start P feas attok (eq n) IX cov (missed md n starting) (s_nfe s) s' /\ List.length (s_log s') = n * k) s.
Proof.
  intros Ea Eg HS Hg Hst Hf HX. pose proof (start_fresh P feas attok IX cov s Hf HX) as S0. pose proof (proj1 Hf) as F1.
  assert (F2 : s_log s = []) by (destruct Hf as (_ & F & _); exact F).
  assert (DONE : forall l s', Made P feas attok (fun _ => True) IX cov 0 (s_nfe s) (s_log s) n k l s' ->
    Start P feas attok (eq n) IX cov 0 (s_nfe s) (with_pop s' l) /\ List.length (s_log (with_pop s' l)) = n * k).
  { intros l s' (H1 & H2 & H3 & H4 & H5). split; [|cbn; rewrite H5, F2; reflexivity]. eapply start_set; [exact Hno|exact H3|auto|exact H2]. }
  apply wp_bind. destruct starting as [rows|].
  - destruct HS as [HS|HS]; [discriminate|]. destruct Hst as (R1 & R2 & R3). unfold before_initialization. rewrite Ea, R1, Nat.eqb_refl.
    destruct rows as [|r0 rows'] eqn:Er; [contradiction|]. rewrite <- Er in *. rewrite R3, Nat.eqb_refl, HS. apply wp_bind. rewrite Eg.
    eapply wp_mono; [eapply (makes_rows E P feas attok (fun _ => True) IX cov 0 (s_nfe s) HP k ga rows s); auto|].
    intros l s' HM. rewrite R1 in HM. unfold set_pop, wp at 1. cbv beta iota. fold (with_pop s' l). destruct (DONE l s' HM) as [D1 D2].
    unfold default_initialization. apply wp_bind, wp_get_pop. destruct (s_pop (with_pop s' l)) as [|a p] eqn:Ep.
    + destruct HM as [HM _]. cbn in Ep. subst l. cbn in HM. lia.
    + apply wp_ret. auto.
  - apply wp_ret. unfold default_initialization. apply wp_bind, wp_get_pop. rewrite F1. apply wp_bind.
    eapply wp_mono; [eapply (makes_population E P md feas attok (fun _ => True) IX cov 0 (s_nfe s) HP k (ga None)); auto|].
    intros l s' HM. replace (missed md n None) with 0 by (unfold missed, lost; destruct md; congruence).
    unfold set_pop, wp. apply (DONE l s' HM).
Qed.
End Init.
(** Batches whose candidates are evaluated on the way. *)
Section Batch.
Context {A X : Type}.
Variables (E : env) (P : problem) (md : MCore.mode) (feas : vec -> Prop) (attok : list vec -> A -> Prop) (IL : nat -> Prop) (IX : list vec -> X -> Prop) (C : Prop) (nd n0 n : nat) (s0 : st A X).
Hypothesis HP : params E P feas attok (false = true /\ C).
Notation gt := (gt P feas attok IL IX (false = true /\ C) nd n0 n s0).
Notation gq := (gq P feas attok IL IX (false = true /\ C) nd n0 n s0).
Notation ok := (ok P feas attok).
Notation pend := (pend feas attok).
Lemma g_made_agents_more w a b m (cand : nat -> M A X (agent A)) :
  (forall w' i, incl w w' -> i < m -> gt w' a b (cand i) pend) ->
  gt w (m * S a) (m * S b) (made_agents P md m cand) (fun w' l => List.length l = m /\ Forall (ok w') l).
Proof.
  intros Hc. unfold made_agents. destruct (is_avail md) eqn:Hav.
  - eapply g_mono with (a := m * (a + 0) + m) (b := m * (b + 0) + m); [|nia|nia|intros w2 y _ T; exact T].
    eapply g_bind with (Φ := fun w' l => List.length l = m /\ Forall (pend w') l).
    + eapply g_for_acc with (J := fun k w' l => List.length l = k /\ Forall (pend w') l); [split; [reflexivity|constructor]|].
      intros k w' l Hi Hk [Hl Hg]. eapply g_bind; [apply Hc; [exact Hi|lia]|]. intros x w2 Hi2 Ha. apply g_ret.
      split; [rewrite app_length; simpl; lia|]. apply Forall_app; split; [eapply pends_mono; eassumption|constructor; auto].
    + intros l w' Hi [Hl Hg]. eapply g_mono; [eapply g_update_target; [exact HP|noc|exact Hav|exact Hg]|lia|lia|]. intros w2 y Hi2 [H1 H2]. split; [lia|exact H1].
  - eapply g_mono with (a := m * (a + (1 + 0)) + 0) (b := m * (b + (1 + 0)) + 0); [|nia|nia|intros w2 y _ T; exact T].
    eapply g_bind with (Φ := fun w' l => List.length l = m /\ Forall (ok w') l).
    + eapply g_for_acc with (J := fun k w' l => List.length l = k /\ Forall (ok w') l); [split; [reflexivity|constructor]|].
      intros k w' l Hi Hk [Hl Hg]. eapply g_bind; [apply Hc; [exact Hi|lia]|]. intros x w2 Hi2 Ha.
      eapply g_bind; [eapply g_evaluate; [exact HP|noc|exact Ha]|]. intros x' w3 Hi3 (Ha' & _). apply g_ret.
      split; [rewrite app_length; simpl; lia|]. apply Forall_app; split; [eapply oks_mono; [exact HP|exact (incl_tran Hi2 Hi3)|exact Hg]|constructor; auto].
    + intros l w' Hi T. apply g_ret. exact T.
Qed.
Lemma g_accept_batch_more w a b m (cand : nat -> M A X (agent A)) after : m <= n ->
  (forall w' i, incl w w' -> i < m -> gt w' a b (cand i) pend) ->
  (forall w' i old x c, incl w w' -> i < m -> ok w' old -> ok w' x -> gq w' (after i old x c) (fun _ => True)) ->
  gt w (m * S a) (m * S b) (accept_batch P md m cand after) (fun _ _ => True).
Proof.
  intros Hm Hc Ha. unfold accept_batch. eapply g_mono with (a := m * S a + 0) (b := m * S b + 0); [|lia|lia|auto].
  eapply g_bind; [eapply g_made_agents_more; exact Hc|]. cbv beta. intros l w1 Hi [Ll Fl].
  apply g_quiet. unfold accept_each. apply gq_for. intros k Hk. rewrite Ll in Hk.
  eapply gq_bind; [eapply gq_getitem; [exact HP|noc|lia|exact Fl]|]. intros x Gx.
  eapply gq_bind; [eapply gq_pop_at; lia|]. intros old Go. eapply gq_bind; [eapply gq_compare; [exact HP|noc|exact Gx|exact Go]|]. intros c _.
  eapply gq_bind with (Φ := fun _ => True); [apply gq_when; intros _; eapply gq_pop_set; [exact HP|noc|lia|exact Gx]|]. intros _ _. apply Ha; auto.
Qed.
End Batch.

(** ** ModifiedSLO and ImprovedSLO *)
Notation local := (vec * option target)%type.
Notation local_ok := (fun (_ : list vec) (b : vec * option target) => snd b <> None).
Lemma slo_makes E P feas cov n0 o (HP : params E P feas local_ok cov) : ~ cov -> match o with Some x => feas x | None => True end ->
  makes (X := unit) P feas local_ok (fun _ => True) (fun _ _ => True) cov 0 n0 2 (slo_ga P o).
Proof.
  intros Hno Ho s S0. unfold slo_ga, slo_gea, gea_with. apply wp_bind, wp_bind.
  assert (CONT : forall x (s1 : st local unit), feas x -> Start P feas local_ok (fun _ => True) (fun _ _ => True) cov 0 n0 s1 -> s_log s1 = s_log s ->
    wp (b <- (y <- correct_solution P (vtab P (fun j => fsub (fadd (vget (p_lb P) j) (vget (p_ub P) j)) (vget x j))) ;; ret (y, @None target)) ;; ret (mkAgent x None b))
      (fun a s2 => wp (t <- get_target P (sol a) ;; lt <- get_target P (fst (att a)) ;;
        (if compare_target t lt (p_mm P) then ret (mkAgent (fst (att a)) (Some lt) (sol a, Some t)) else ret (mkAgent (sol a) (Some t) (fst (att a), Some lt))))
        (fun a' s' => good P feas local_ok (s_log s') a' /\ Start P feas local_ok (fun _ => True) (fun _ _ => True) cov 0 n0 s' /\ incl (s_log s) (s_log s') /\
          List.length (s_log s') = List.length (s_log s) + 2) s2) s1).
  { intros x s1 Hx S1 El. apply wp_bind, wp_bind. eapply wp_correct_solution with (feas := feas); [apply HP|]. intros y k Hy. apply wp_ret, wp_ret.
    apply wp_bind, wp_get_target, wp_bind, wp_get_target. cbn [sol att fst].
    set (s2 := evald (evald (bump s1 k) [x]) [y]).
    assert (S2 : Start P feas local_ok (fun _ => True) (fun _ _ => True) cov 0 n0 s2).
    { apply start_evald with (E := E); auto. apply start_evald with (E := E); auto. apply start_bump, S1. }
    assert (L2 : s_log s2 = s_log s ++ [x; y]) by (unfold s2; cbn; rewrite El, <- app_assoc; reflexivity).
    assert (I1 : In x (s_log s2)) by (rewrite L2; apply in_or_app; right; left; reflexivity).
    assert (I2 : In y (s_log s2)) by (rewrite L2; apply in_or_app; right; right; left; reflexivity).
    assert (I3 : incl (s_log s) (s_log s2)) by (rewrite L2; apply incl_appl, incl_refl).
    assert (L3 : List.length (s_log s2) = List.length (s_log s) + 2) by (rewrite L2, app_length; reflexivity).
    clearbody s2. destruct (compare_target _ _ _); apply wp_ret; (split; [constructor; cbn; auto; discriminate|auto]). }
  destruct o as [x|].
  - apply wp_ret, CONT; auto.
  - apply wp_bind, wp_tick. intros k. apply wp_ret, CONT; [apply HP|apply start_bump, S0|reflexivity].
Qed.
Section SLO.
Variables (E : env) (P : problem) (md : MCore.mode) (feas : vec -> Prop) (C : Prop) (nd n0 n : nat) (s0 : st local unit).
Hypothesis HP : params E P feas local_ok (false = true /\ C).
Notation gt := (gt P feas local_ok (eq n) (fun _ _ => True) (false = true /\ C) nd n0 n s0).
Notation gq := (gq P feas local_ok (eq n) (fun _ _ => True) (false = true /\ C) nd n0 n s0).
Notation ok := (ok P feas local_ok).
Notation pend := (pend feas local_ok).
Lemma gq_slo_after w i old a c : i < n -> ok w a -> gq w (slo_after P i old a c) (fun _ => True).
Proof.
  intros Hi Ga. unfold slo_after. apply gq_when. intros _. eapply gq_bind with (Φ := fun _ => True).
  - eapply gq_lift; [exact HP|noc|]. pose proof (g_tgt _ _ _ _ _ Ga) as Ht. pose proof (g_att _ _ _ _ _ Ga) as Hl. cbv beta in Hl. rewrite Ht.
    destruct (snd (att a)); [|congruence]. cbn [compare_opt]. eauto.
  - intros b _. apply gq_when. intros _. pose proof (g_tgt _ _ _ _ _ Ga) as Ht. eapply gq_set_att; [exact HP|noc|exact Hi|]. intros _. cbn. rewrite Ht. discriminate.
Qed.
Lemma gq_slo_move w i z : i < n -> gq w (slo_move P i z) (pend w).
Proof.
  intros Hi. unfold slo_move. eapply gq_bind; [eapply gq_pop_at; exact Hi|]. intros a Ga.
  eapply gq_bind with (Φ := feas); [eapply gq_qt; [exact HP|noc|]; qcorrect HP|]. intros y Hy. apply gq_ret. split; [exact Hy|]. intros L _ _. apply (g_att _ _ _ _ _ Ga).
Qed.
Lemma g_modified_slo w epochs ep : gt w n n (slo_modified_evolve E P md n epochs ep) (fun _ _ => True).
Proof.
  unfold slo_modified_evolve. eapply g_qbind; [gquiet HP|]. intros sp _. eapply g_accept_batch; [exact HP|lia| |].
  - intros w1 i Hi Hin. eapply gq_bind with (Φ := fun _ => True); [gquiet HP|]. intros z _. apply gq_slo_move, Hin.
  - intros w1 i old a c _ Hin _ Ga. apply gq_slo_after; auto.
Qed.
Lemma g_improved_slo w c1 c2 epochs ep : gt w n (3 * n) (slo_improved_evolve E P md c1 c2 n epochs ep) (fun _ _ => True).
Proof.
  unfold slo_improved_evolve. eapply g_qbind; [gquiet HP|]. intros near _.
  eapply g_mono with (a := n * 1) (b := n * 3); [|lia|lia|auto]. eapply g_accept_batch_more; [exact HP|lia| |].
  - intros w1 i Hi Hin. eapply g_mono with (a := 0 + 0) (b := 2 + 0); [|lia|lia|intros w2 y _ T; exact T].
    eapply g_bind with (Φ := fun _ _ => True).
    + destruct near; [destruct (flt _ _)|].
      * eapply g_mono with (a := 0) (b := 0); [apply g_quiet; gquiet HP|lia|lia|auto].
      * eapply g_mono with (a := 1 + (1 + 0)) (b := 1 + (1 + 0)) (Φ := fun _ _ => True); [|lia|lia|auto].
        do 3 (eapply g_qbind; [gquiet HP|intros]).
        eapply g_qbind with (Φ := feas); [eapply gq_qt; [exact HP|noc|]; qcorrect HP|]. intros v Hv.
        eapply g_bind; [eapply g_get_target; [exact HP|noc|exact Hv]|]. intros t w2 Hi2 _.
        eapply g_qbind; [gquiet HP|intros].
        eapply g_qbind with (Φ := feas); [eapply gq_qt; [exact HP|noc|]; qcorrect HP|]. intros v' Hv'.
        eapply g_bind; [eapply g_get_target; [exact HP|noc|exact Hv']|]. intros t' w3 Hi3 _. apply g_ret. exact I.
      * eapply g_mono with (a := 0) (b := 0); [apply g_quiet; gquiet HP|lia|lia|auto].
    + intros z w2 _ _. apply g_quiet, gq_slo_move, Hin.
  - intros w1 i old a c _ Hin _ Ga. apply gq_slo_after; auto.
Qed.
End SLO.
(** Without starting solutions, or with them in the mode that evaluates one agent at a time. *)
Lemma slo_sound E P md n epochs evolve kmin kmax : 5 <= n -> 0 < epochs -> md <> Process ->
  (forall feas C nd n0 (s0 : st local unit) w ep, params E P feas local_ok (false = true /\ C) ->
     gt P feas local_ok (eq n) (fun _ _ => True) (false = true /\ C) nd n0 n s0 w kmin kmax (evolve ep) (fun _ _ => True)) ->
  sound_run_gen E P md (agent_algo E md (slo_gea P) (slo_ga P) n epochs false (ret tt) (ret tt) evolve) (fun _ => True) (fun _ => True)
    (fun start => start = None \/ is_avail md = false) (eq n) false (2 * n) (2 * n) kmin kmax.
Proof.
  intros Hn He Hmd HE. set (al := agent_algo _ _ _ _ _ _ _ _ _ _).
  assert (T : sound_run_gen E P md al (fun _ => True) (fun _ => True) (fun start => start = None \/ is_avail md = false) (eq n) false (2 * n + 0) (2 * n + 0) kmin kmax).
  2:{ rewrite !Nat.add_0_r in T. exact T. }
  apply (sound_gen E P md al (fun _ => True) (fun _ => True) (fun start => start = None \/ is_avail md = false) (fun _ => local_ok)
    (fun _ _ _ => True) (fun _ _ _ => True) (eq n) false (2 * n) (2 * n) 0 0 kmin kmax); auto.
  - intros m <-. lia.
  - intros feas starting HP _ Hst HST s Hf _. cbn [al_init_vars al_init al_pop_size al agent_algo] in *. apply wp_bind, wp_ret.
    eapply wp_mono; [eapply (several_init E P md feas local_ok (fun _ _ => True) (false = true /\ obj_num P feas) n 2 HP) with (ga := slo_ga P); auto; try lia|].
    + intros n0 o Ho. eapply slo_makes; [exact HP|noc|exact Ho].
    + intros [] s' [HS HL]. cbv beta. split; [exact HS|lia].
  - intros feas nd HP _. apply skip_before_main; auto.
  - intros feas nd n0 HP _. apply contract_free. intros ep s0 w Hep _. apply HE. exact HP.
Qed.
Theorem C65_ModifiedSLO E P md n epochs : 5 <= n -> 0 < epochs -> md <> Process ->
  sound_run_gen E P md (modified_slo E P md n epochs) (fun _ => True) (fun _ => True) (fun start => start = None \/ is_avail md = false) (eq n) false (2 * n) (2 * n) n n.
Proof. intros. apply slo_sound; auto. intros. apply g_modified_slo. assumption. Qed.
Theorem C65_ImprovedSLO E P md c1 c2 n epochs : 5 <= n -> 0 < epochs -> md <> Process ->
  sound_run_gen E P md (improved_slo E P md c1 c2 n epochs) (fun _ => True) (fun _ => True) (fun start => start = None \/ is_avail md = false) (eq n) false (2 * n) (2 * n) n (3 * n).
Proof. intros. apply slo_sound; auto. intros. apply g_improved_slo. assumption. Qed.
Definition first_var (x : vec) : f64 := nth 0 x fnan.
(** Of the two positions of a new agent the worse one is kept, so the best position evaluated may be lost. *)
Theorem C65_ModifiedSLO_refuted : exists g s' x,
  solve demo_env (demo_prob Min first_var true) Single (modified_slo demo_env (demo_prob Min first_var true) Single 5 1) None None (st0 tt) = Ok (g, s') /\
  In x (s_log s') /\ flt (first_var x) (fit g) = true.
Proof.
  assert (T : match solve demo_env (demo_prob Min first_var true) Single (modified_slo demo_env (demo_prob Min first_var true) Single 5 1) None None (st0 tt) with
              | Ok (g, s') => existsb (fun x => flt (first_var x) (fit g)) (s_log s') | _ => false end = true) by (vm_compute; reflexivity).
  destruct (solve _ _ _ _ _ _ _) as [[g s']|]; [|discriminate]. apply existsb_exists in T. destruct T as (x & Hx & Hf). exists g, s', x. auto.
Qed.
Theorem C65_ImprovedSLO_refuted : exists g s' x,
  solve demo_env (demo_prob Min first_var true) Single (improved_slo demo_env (demo_prob Min first_var true) Single (fZ 1) (fZ 1) 5 1) None None (st0 tt) = Ok (g, s') /\
  In x (s_log s') /\ flt (first_var x) (fit g) = true.
Proof.
  assert (T : match solve demo_env (demo_prob Min first_var true) Single (improved_slo demo_env (demo_prob Min first_var true) Single (fZ 1) (fZ 1) 5 1) None None (st0 tt) with
              | Ok (g, s') => existsb (fun x => flt (first_var x) (fit g)) (s_log s') | _ => false end = true) by (vm_compute; reflexivity).
  destruct (solve _ _ _ _ _ _ _) as [[g s']|]; [|discriminate]. apply existsb_exists in T. destruct T as (x & Hx & Hf). exists g, s', x. auto.
Qed.
(** With starting solutions in a parallel mode the agents have no attribute local_target (SLO.py:203). *)
Theorem C68_ModifiedSLO_starting :
  solve demo_env (demo_prob Min first_var true) Swarm (modified_slo demo_env (demo_prob Min first_var true) Swarm 5 3) None (Some (repeat [fZ 1; fZ 2] 5)) (st0 tt) = Err AttributeError.
Proof.
  assert (T : match solve demo_env (demo_prob Min first_var true) Swarm (modified_slo demo_env (demo_prob Min first_var true) Swarm 5 3) None (Some (repeat [fZ 1; fZ 2] 5)) (st0 tt) with Err AttributeError => true | _ => false end = true) by (vm_compute; reflexivity).
  destruct (solve _ _ _ _ _ _ _) as [|e]; [discriminate|]. destruct e; try discriminate. reflexivity.
Qed.

Print Assumptions C65_ModifiedSLO.
Print Assumptions C65_ImprovedSLO.
Print Assumptions C65_ModifiedSLO_refuted.
Print Assumptions C65_ImprovedSLO_refuted.
Print Assumptions C68_ModifiedSLO_starting.
