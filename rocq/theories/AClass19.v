(** Theorems about the classes of MClass19. *)
From Coq Require Import Permutation String.
From Verif Require Import Prelude Fl FlArith FlInt FlRound FlShare MCore MHelp MAlg MAlg2 MAlg3 MAlg4 MAlg5 MAlg6 MAlg7 SpecCore SpecRun PSpace PSelect PLogic PSolve PRun PPart Demo PropHelp SpecAlg SpecWhen PAlg PFree PClass PAlg2 PAlg3 PAlg4 PAlg5 PAlg6 PAlg7 PAlg8 PAlg9 PRef PFail PElse PAlg10 PAlg11 PAlg13 MClass14 AClass14 MClass17 AClass17 AClass18 MClass19.

(** Exact counts from facts about the log. *)
Section Exact.
Context {A X : Type}.
Variables (P : problem) (feas : vec -> Prop) (attok : list vec -> A -> Prop) (IL : nat -> Prop) (IX : list vec -> X -> Prop) (cov : Prop) (nd n0 n : nat).
Variable s0 : st A X.
Notation gt := (gt P feas attok IL IX cov nd n0 n s0).
Lemma g_len {Y} (w : list vec) a b (m : M A X Y) Φ : gt w a b m Φ -> gt w a b m (fun w' y => Φ w' y /\ List.length w + a <= List.length w' <= List.length w + b).
Proof. intros H s Hs HG. eapply wp_mono; [exact (H s Hs HG)|]. intros y s' (H1 & H2 & H3 & H4). auto. Qed.
Lemma g_exact {Y} (w : list vec) a b k (m : M A X Y) Φ : gt w a b m (fun w' y => Φ w' y /\ List.length w' = List.length w + k) -> gt w k k m Φ.
Proof. intros H s Hs HG. eapply wp_mono; [exact (H s Hs HG)|]. intros y s' (H1 & (H2 & H3) & _ & H4). cbv beta in H3. split; [exact H1|split; [exact H2|split; [|exact H4]]]. rewrite H3. lia. Qed.
Lemma g_for_listi {B T} a b (body : T -> B -> M A X B) (J : nat -> list vec -> B -> Prop) (ls : list T) : forall (w : list vec) k x,
  J k w x -> (forall t k' w' x', incl w w' -> In t ls -> J k' w' x' -> gt w' a b (body t x') (J (S k'))) ->
  gt w (List.length ls * a) (List.length ls * b) (for_list ls x body) (J (k + List.length ls)).
Proof.
  induction ls as [|t ls IH]; intros w k x H0 Hb; cbn [for_list List.length].
  - eapply g_mono; [apply g_ret with (Φ := J k); exact H0|lia|lia|]. intros w2 y _ T1. rewrite Nat.add_0_r. exact T1.
  - cbn [Nat.mul]. eapply g_bind; [apply Hb; [apply incl_refl|left; reflexivity|exact H0]|].
    intros y w' Hw Hy. cbv beta in Hy. eapply g_mono; [apply (IH w' (S k) y); [exact Hy|]|lia|lia|].
    + intros t' k' w2 x' H2 Ht H3. apply Hb; [eapply incl_tran; eassumption|right; exact Ht|exact H3].
    + intros w2 z _ T1. replace (k + S (List.length ls)) with (S k + List.length ls) by lia. exact T1.
Qed.
End Exact.

(** Agents evaluated at once, or together at the end. *)
Section Maybe.
Context {A X : Type}.
Variables (E : env) (P : problem) (md : mode) (feas : vec -> Prop) (attok : list vec -> A -> Prop) (IL : nat -> Prop) (IX : list vec -> X -> Prop) (cov : Prop) (nd n0 n : nat).
Variable s0 : st A X.
Hypothesis HP : params E P feas attok cov.
Hypothesis Hno : ~ cov.
Notation gt := (gt P feas attok IL IX cov nd n0 n s0).
Notation ok := (ok P feas attok).
Notation pend := (pend feas attok).
Lemma g_maybe w (a : agent A) : pend w a ->
  gt w (if is_avail md then 0 else 1) (if is_avail md then 0 else 1) (if is_avail md then ret a else evaluate P a) (fun w' b => if is_avail md then pend w' b else ok w' b).
Proof.
  intros Ha. destruct (is_avail md); [apply g_ret; exact Ha|].
  eapply g_mono; [eapply g_evaluate; [exact HP|exact Hno|exact Ha]|lia|lia|intros w2 y _ T; apply T].
Qed.
Lemma held_mono w w' (l : list (agent A)) : incl w w' -> (if is_avail md then Forall (pend w) l else Forall (ok w) l) -> if is_avail md then Forall (pend w') l else Forall (ok w') l.
Proof. intros H. destruct (is_avail md); intros T; [eapply pends_mono; eassumption|eapply oks_mono; [exact HP|exact H|exact T]]. Qed.
Lemma g_update w l m : List.length l = m -> (if is_avail md then Forall (pend w) l else Forall (ok w) l) ->
  gt w (if is_avail md then m else 0) (if is_avail md then m else 0) (update_target_for_population P md l) (fun w' l' => List.length l' = m /\ Forall (ok w') l').
Proof.
  intros <- Fl. destruct (is_avail md) eqn:Hav.
  - eapply g_mono; [eapply g_update_target; [exact HP|exact Hno|exact Hav|exact Fl]|lia|lia|]. intros w2 y _ [T1 T2]; auto.
  - unfold update_target_for_population. rewrite Hav. apply g_ret. auto.
Qed.
End Maybe.

(** ** DO *)
Section DO.
Variables (E : env) (P : problem) (md : mode) (feas : vec -> Prop) (IL : nat -> Prop) (C : Prop) (nd n0 n : nat).
Variable s0 : st unit (list (agent unit)).
Notation IX := (fun L (x : list (agent unit)) => List.length x = n /\ Forall (good P feas (@anyatt unit) L) x).
Hypothesis HP : params E P feas (@anyatt unit) (false = true /\ C).
Hypothesis Hn : 0 < n.
Notation gq := (gq P feas (@anyatt unit) IL IX (false = true /\ C) nd n0 n s0).
Notation gt := (gt P feas (@anyatt unit) IL IX (false = true /\ C) nd n0 n s0).
Notation ok := (ok P feas (@anyatt unit)).
Notation pend := (pend feas (@anyatt unit)).
Lemma gq_delta w : gq w get_x (fun d => List.length d = n /\ Forall (ok w) d).
Proof.
  eapply gq_mono; [apply gq_get_x|]. intros d (L & HL & Ld & Fd). split; [exact Ld|]. eapply oks_mono; [exact HP|exact HL|exact Fd].
Qed.
Lemma gq_do_pair w epochs ep i : i < n -> gq w (do_pair E P epochs ep i) (fun r => pend w (fst r) /\ pend w (snd r)).
Proof.
  intros Hi. unfold do_pair. do 2 (eapply gq_bind with (Φ := fun _ => True); [gquiet HP|intros ? _]).
  eapply gq_bind; [apply gq_delta|]. intros d [Ld Fd]. eapply gq_bind; [eapply gq_getitem; [exact HP|noc|lia|exact Fd]|]. intros di Hdi.
  do 2 (eapply gq_bind with (Φ := fun _ => True); [gquiet HP|intros ? _]). cbv zeta.
  do 2 (eapply gq_bind with (Φ := fun v => List.length v = n_dims P); [gquiet HP|intros ? ?]).
  eapply gq_bind; [eapply gq_propose; [exact HP|noc|qcorrect HP|qgea]|]. intros a Ha.
  eapply gq_bind; [eapply gq_propose; [exact HP|noc|qcorrect HP|qgea]|]. intros b Hb. apply gq_ret. auto.
Qed.
Lemma g_eval_ok w a : pend w a -> gt w 1 1 (evaluate P a) ok.
Proof. intros Ha. eapply g_mono; [eapply g_evaluate; [exact HP|noc|exact Ha]|lia|lia|intros w2 y _ T; apply T]. Qed.
Lemma g_do w epochs ep : gt w (2 * n) (2 * n) (do_evolve E P md n epochs ep) (fun _ _ => True).
Proof.
  unfold do_evolve. eapply g_qbind; [eapply gq_reset; [exact HP|noc|exact Hn]|]. intros _ _. destruct (is_avail md) eqn:Hav.
  - eapply g_qbind with (Φ := fun l => List.length l = n /\ Forall (fun r => pend w (fst r) /\ pend w (snd r)) l).
    { unfold collect. eapply gq_mono; [eapply gq_for_acc with (I := fun i l => List.length l = i /\ Forall (fun r => pend w (fst r) /\ pend w (snd r)) l)|].
      - split; [reflexivity|constructor].
      - intros i l Hi [Ll Fl]. eapply gq_bind; [apply gq_do_pair; lia|]. intros r Hr. apply gq_ret. split; [rewrite app_length; cbn; lia|].
        apply Forall_app. split; [exact Fl|]. constructor; [exact Hr|constructor].
      - intros l H. exact H. }
    intros l [Ll Fl]. eapply g_mono with (a := n + (n + 0)) (b := n + (n + 0)); [|lia|lia|intros w2 y _ T; exact T].
    eapply g_bind; [eapply g_evaluate_all; [exact HP|noc|rewrite map_length; exact Ll|]|].
    { rewrite Forall_map. eapply Forall_impl; [|exact Fl]. intros r Hr; apply Hr. }
    intros l1 w1 Hw1 [L1 F1]. cbv beta in *.
    eapply g_bind; [eapply g_evaluate_all; [exact HP|noc|rewrite map_length; exact Ll|]|].
    { rewrite Forall_map. eapply Forall_impl; [|exact Fl]. intros r [_ Hr]. eapply pend_mono; [exact Hw1|exact Hr]. }
    intros l2 w2 Hw2 [L2 F2]. cbv beta in *. apply g_quiet.
    eapply gq_bind; [apply gq_get_pop|]. intros p [Lp Fp].
    eapply gq_bind; [eapply gq_greedy; [exact HP|noc|exact Fp|eapply oks_mono; [exact HP|exact Hw2|exact F1]|lia]|]. intros q [Lq Fq].
    eapply gq_bind; [eapply gq_set_pop; [noc|lia|exact Fq]|]. intros _ _.
    eapply gq_bind; [apply gq_delta|]. intros d [Ld Fd].
    eapply gq_bind; [eapply gq_greedy; [exact HP|noc|exact Fd|exact F2|lia]|]. intros d' [Ld' Fd'].
    eapply gq_set_x. split; [lia|exact Fd'].
  - eapply g_mono with (a := n * 2) (b := n * 2); [|lia|lia|intros w2 y _ T; exact T].
    apply g_for. intros i w1 _ Hi. eapply g_qbind; [apply gq_do_pair; exact Hi|]. intros [a b] [Ha Hb]. cbn [fst snd] in *.
    eapply g_mono with (a := 1 + (1 + 0)) (b := 1 + (1 + 0)); [|lia|lia|intros w2 y _ T; exact T].
    eapply g_bind; [apply g_eval_ok; exact Ha|]. intros a' w2 Hw2 Ha'. cbv beta in *.
    eapply g_bind; [apply g_eval_ok; eapply pend_mono; [exact Hw2|exact Hb]|]. intros b' w3 Hw3 Hb'. cbv beta in *. apply g_quiet.
    assert (Ha3 : ok w3 a') by (eapply ok_mono; [exact HP|exact Hw3|exact Ha']).
    eapply gq_bind with (Φ := fun _ => True).
    { unfold keep_better. eapply gq_bind; [apply gq_pop_at; exact Hi|]. intros old Ho.
      eapply gq_bind; [eapply gq_better; [exact HP|noc|exact Ha3|exact Ho]|]. intros c Hc. eapply gq_pop_set; [exact HP|noc|lia|exact Hc]. }
    intros _ _. eapply gq_bind; [apply gq_delta|]. intros d [Ld Fd]. eapply gq_bind; [eapply gq_getitem; [exact HP|noc|lia|exact Fd]|]. intros old Ho.
    eapply gq_bind; [eapply gq_better; [exact HP|noc|exact Hb'|exact Ho]|]. intros c Hc.
    eapply gq_set_x. rewrite upd_length. split; [exact Ld|]. apply upd_Forall; assumption.
Qed.
End DO.
Theorem C65_OriginalDO E P md n epochs : 5 <= n -> 0 < epochs -> md <> Process ->
  sound_run_gen E P md (original_do E P md n epochs) (fun _ => True) (fun _ => True) (fun _ => True) (eq n) false (n + n) (n + n) (2 * n) (2 * n).
Proof.
  intros Hn He Hmd.
  apply (sound_more E P md _ _ n epochs false (ret tt) _ (ret tt) _ (fun _ => True) (fun _ => True) (fun _ => True) (fun _ => @anyatt unit) (fun _ _ _ => True)
    (fun feas L x => List.length x = n /\ Forall (good P feas (@anyatt unit) L) x) (fun feas L x => List.length x = n /\ Forall (good P feas (@anyatt unit) L) x)); auto; try lia.
  - intros feas rows _ _ Hp. apply plain_gea_ok, Hp.
  - intros feas Hp. apply ga_of_ok, plain_gea_ok, Hp.
  - intros feas Hp. apply vars_none; auto.
  - intros feas nd n0 s HP _ HS. unfold do_more. apply wp_bind.
    eapply wp_mono; [eapply (start_population E P md); [exact HP|noc|exact Hmd|apply ga_of_ok, plain_gea_ok, HP|exact HS]|].
    intros l s' (H1 & H2 & H3 & H4 & H5 & H6 & H7). unfold set_x, wp. split; [|simpl; lia].
    destruct H5. constructor; auto. exists (s_log s'). split; [apply incl_refl|]. cbn. auto.
  - intros feas nd n0 s HP _ HI. eapply main_none. exact HI.
  - intros feas nd n0 HP _. apply contract_free. intros ep s0 w Hep _. apply g_do; auto; lia.
Qed.

(** ** CSO *)
Section CSO.
Variables (E : env) (P : problem) (md : mode) (feas : vec -> Prop) (IL : nat -> Prop) (C : Prop) (nd n0 n : nat).
Variable s0 : st (vec * bool) unit.
Notation IX := (fun (_ : list vec) (_ : unit) => True).
Notation A := (vec * bool)%type.
Hypothesis HP : params E P feas (@anyatt A) (false = true /\ C).
Hypothesis Hmd : md <> Process.
Notation gq := (gq P feas (@anyatt A) IL IX (false = true /\ C) nd n0 n s0).
Notation gt := (gt P feas (@anyatt A) IL IX (false = true /\ C) nd n0 n s0).
Notation ok := (ok P feas (@anyatt A)).
Notation pend := (pend feas (@anyatt A)).
Variables (mixture srd : f64) (dims : M A unit (list nat)) (pick : list (agent A) -> M A unit (agent A)) (smp : nat).
Hypothesis Hsmp : 2 <= smp.
Hypothesis Hdims : forall w, gq w dims (fun _ => True).
Hypothesis Hpick : forall w l, List.length l = smp -> Forall (ok w) l -> gq w (pick l) (fun a => feas (sol a)).
Lemma cso_gea_ok : gea_ok feas (@anyatt A) (cso_gea E P mixture).
Proof. apply gea_with_ok; [apply HP|]. intros. draws. auto. Qed.
Lemma g_cso_seek w spc cat : ok w cat ->
  gt w 0 (2 * smp) (cso_seek E P md mixture srd dims pick smp spc cat) (fun _ => feas).
Proof.
  intros Hc. unfold cso_seek.
  eapply g_mono with (a := smp + ((if spc then smp - 1 else smp) * (if is_avail md then 0 else 1) + ((if is_avail md then smp else 0) + 0)))
    (b := smp + ((if spc then smp - 1 else smp) * (if is_avail md then 0 else 1) + ((if is_avail md then smp else 0) + 0)));
    [|lia|destruct spc, (is_avail md); lia|intros w2 y _ T; exact T].
  eapply g_bind; [eapply g_population_with; [exact HP|noc|exact Hmd|apply ga_of_ok, cso_gea_ok]|].
  intros l w1 Hw1 (Ll & Fl). cbv beta in *. cbv zeta.
  assert (Hc1 : ok w1 cat) by (eapply ok_mono; [exact HP|exact Hw1|exact Hc]).
  assert (F1 : Forall (ok w1) (if spc then repeat cat (smp - 1) else l)).
  { destruct spc; [|exact Fl]. apply Forall_forall. intros x Hx. apply repeat_spec in Hx. subst x. exact Hc1. }
  assert (L1 : List.length (if spc then repeat cat (smp - 1) else l) = (if spc then smp - 1 else smp)) by (destruct spc; [apply repeat_length|exact Ll]).
  assert (N0 : (if spc then smp - 1 else smp) + List.length (if spc then [cat] else []) = smp) by (destruct spc; cbn; lia).
  assert (H0 : if is_avail md then Forall (pend w1) (if spc then [cat] else []) else Forall (ok w1) (if spc then [cat] else [])).
  { destruct spc; [|destruct (is_avail md); constructor]. destruct (is_avail md); (constructor; [|constructor]); [eapply ok_pend; [exact HP|exact Hc1]|exact Hc1]. }
  set (cl := if spc then repeat cat (smp - 1) else l) in *. set (k := if spc then smp - 1 else smp) in *. set (i0 := if spc then [cat] else []) in *. clearbody cl k i0.
  eapply g_bind with (Φ := fun w' l' => List.length l' = smp /\ (if is_avail md then Forall (pend w') l' else Forall (ok w') l')).
  - eapply g_mono; [eapply g_for_listi with (k := 0) (a := (if is_avail md then 0 else 1) + 0) (b := (if is_avail md then 0 else 1) + 0) (J := fun i w' l' => List.length l' = List.length i0 + i /\ (if is_avail md then Forall (pend w') l' else Forall (ok w') l'))|..].
    + split; [lia|exact H0].
    + intros c i w2 l2 Hw2 Hin [L2 F2]. cbv beta.
      eapply g_qbind; [apply Hdims|]. intros ix _. eapply g_qbind; [gquiet HP|]. intros u _.
      eapply g_qbind; [eapply gq_propose; [exact HP|noc|qcorrect HP|apply gea_quiet, cso_gea_ok]|]. intros a Ha. cbv zeta.
      eapply g_bind; [eapply g_maybe; [exact HP|noc|]|].
      { destruct Ha as [H1 H2]. split; [exact H1|]. intros; exact I. }
      intros b w3 Hw3 Hb. cbv beta in Hb. apply g_ret. split; [rewrite app_length; cbn; lia|]. pose proof (held_mono E P md _ _ _ HP _ _ _ Hw3 F2) as F3.
      destruct (is_avail md); (apply Forall_app; split; [exact F3|constructor; [exact Hb|constructor]]).
    + rewrite L1. lia.
    + rewrite L1. lia.
    + intros w2 y _ [T1 T2]. split; [lia|exact T2].
  - intros l2 w2 Hw2 [L2 F2]. cbv beta in *. eapply g_bind; [eapply g_update; [exact HP|noc|exact L2|exact F2]|].
    intros l3 w3 Hw3 [L3 F3]. cbv beta in *. apply g_quiet. eapply gq_bind; [apply Hpick; [exact L3|exact F3]|]. intros a Ha. apply gq_ret. exact Ha.
Qed.
Lemma g_cso w c1 wmin wmax spc epochs ep :
  gt w n (n * (2 * smp + 1)) (cso_phases E P md mixture c1 wmin wmax srd dims pick smp spc n epochs ep) (fun _ _ => True).
Proof.
  unfold cso_phases. cbv zeta.
  eapply g_mono with (a := n * (0 + (if is_avail md then 0 else 1)) + ((if is_avail md then n else 0) + 0))
    (b := n * (2 * smp + (if is_avail md then 0 else 1)) + ((if is_avail md then n else 0) + 0));
    [|destruct (is_avail md); lia|destruct (is_avail md); nia|intros w2 y _ T; exact T].
  eapply g_bind with (Φ := fun w' l' => List.length l' = n /\ (if is_avail md then Forall (pend w') l' else Forall (ok w') l')).
  - eapply g_for_acc with (J := fun i w' l' => List.length l' = i /\ (if is_avail md then Forall (pend w') l' else Forall (ok w') l')).
    + split; [reflexivity|]. destruct (is_avail md); constructor.
    + intros i w2 l2 Hw2 Hi [L2 F2]. eapply g_qbind; [apply gq_pop_at; lia|]. intros a Ha. cbv beta in Ha.
      eapply g_bind with (Φ := fun _ => feas).
      { destruct (snd (att a)).
        - eapply g_mono with (a := 0) (b := 0); [|lia|lia|intros w3 y _ T; exact T]. apply g_quiet. gquiet HP.
        - apply g_cso_seek. exact Ha. }
      intros y w3 Hw3 Hy. cbv beta in Hy. eapply g_qbind; [gquiet HP|]. intros u _.
      eapply g_mono with (a := (if is_avail md then 0 else 1) + 0) (b := (if is_avail md then 0 else 1) + 0); [|lia|lia|intros w4 z _ T; exact T].
      eapply g_bind; [eapply g_maybe; [exact HP|noc|]|].
      { split; [exact Hy|]. intros; exact I. }
      intros b w4 Hw4 Hb. cbv beta in Hb. apply g_ret. split; [rewrite app_length; cbn; lia|]. pose proof (held_mono E P md _ _ _ HP _ _ _ (incl_tran Hw3 Hw4) F2) as F3.
      destruct (is_avail md); (apply Forall_app; split; [exact F3|constructor; [exact Hb|constructor]]).
  - intros l2 w2 Hw2 [L2 F2]. cbv beta in *. eapply g_bind; [eapply g_update; [exact HP|noc|exact L2|exact F2]|].
    intros l3 w3 Hw3 [L3 F3]. cbv beta in *. apply g_quiet. eapply gq_set_pop; [noc|exact L3|exact F3].
Qed.
End CSO.
Section CSOPick.
Variables (E : env) (P : problem) (feas : vec -> Prop) (IL : nat -> Prop) (IX : list vec -> unit -> Prop) (cov : Prop) (nd n0 n : nat).
Variable s0 : st (vec * bool) unit.
Notation A := (vec * bool)%type.
Hypothesis HP : params E P feas (@anyatt A) cov.
Notation qt := (qt P feas (@anyatt A) IL IX cov nd n0 n s0).
Notation qp := (qp P feas (@anyatt A) IL IX cov nd n0 n s0).
Notation fine := (fun a : agent A => wf_agent a /\ feas (sol a)).
Lemma q_cso_pick strategy smp l : strategy <> 2 -> (strategy = 1 -> 4 <= smp) -> 0 < smp -> List.length l = smp -> Forall fine l ->
  qt (cso_pick E P strategy smp l) (fun a => feas (sol a)).
Proof.
  intros H2 H1 Hs Hl Fl. destruct strategy as [|[|[|k]]]; [| |lia|]; cbn [cso_pick].
  - eapply q_bind; [eapply q_best; [exact HP|exact Fl|lia]|]. intros [b i] [[_ Hb] _]. apply q_ret. exact Hb.
  - specialize (H1 eq_refl). eapply q_bind; [apply q_choice_noreplace; rewrite seq_length; exact H1|]. intros ix (Lx & rest & Hp).
    eapply q_bind; [apply (q_pick P feas (@anyatt A) IL IX cov nd n0 n s0 l ix)|].
    { apply Forall_forall. intros i Hi. assert (T : In i (seq 0 smp)) by (eapply Permutation_in; [exact Hp|apply in_or_app; left; exact Hi]). apply in_seq in T. lia. }
    intros l4 [L4 I4]. rewrite Lx in L4. eapply q_bind; [eapply q_best; [exact HP|eapply incl_Forall; eassumption|rewrite L4; lia]|]. intros [b i] [[_ Hb] _]. apply q_ret. exact Hb.
  - eapply q_bind; [apply q_integers; lia|]. intros i Hi. cbv beta in Hi. eapply q_mono; [apply q_getitem; apply Hi|]. intros a Ha. rewrite Forall_forall in Fl. apply Fl, Ha.
Qed.
Lemma qp_choice_length {T} m : forall l : list T, qp (choice_noreplace E l m) (fun r => List.length r = m).
Proof.
  induction m as [|m IH]; intros l; cbn [choice_noreplace]; [apply qp_qt, q_ret; reflexivity|].
  destruct l as [|d l]; [apply qp_raise|]. eapply qp_qbind; [apply q_tick|]. intros k _. cbv zeta. eapply qp_bind; [apply IH|]. intros r Hr.
  cbv beta in Hr. apply qp_qt, q_ret. cbn [List.length]. rewrite Hr. reflexivity.
Qed.
Lemma qp_cso_pick strategy smp l : 0 < smp -> List.length l = smp -> Forall fine l -> qp (cso_pick E P strategy smp l) (fun a => feas (sol a)).
Proof.
  intros Hs Hl Fl. destruct strategy as [|[|[|k]]].
  - apply qp_qt, q_cso_pick; auto; discriminate.
  - cbn [cso_pick]. eapply qp_bind; [apply qp_choice_length|]. intros ix Lx.
    eapply qp_bind with (Φ := fun r => List.length r = 4 /\ Forall fine r).
    { apply qp_lift. intros r Hr. rewrite <- Lx. clear Lx. revert r Hr. induction ix as [|i ix IH]; intros r Hr; cbn [map_res] in Hr.
      - injection Hr as <-. auto.
      - destruct (getitem l i) as [a|] eqn:Ea; cbn [bind] in Hr; [|discriminate]. destruct (map_res (getitem l) ix) as [r'|]; cbn [bind] in Hr; [|discriminate].
        injection Hr as <-. destruct (IH _ eq_refl) as [L F]. split; [cbn [List.length]; lia|]. constructor; [|exact F].
        rewrite Forall_forall in Fl. apply Fl. eapply getitem_In; exact Ea. }
    intros l4 [L4 F4]. apply qp_qt. eapply q_bind; [eapply q_best; [exact HP|exact F4|lia]|]. intros [b i] [[_ Hb] _]. apply q_ret. exact Hb.
  - cbn [cso_pick]. eapply qp_qbind; [eapply q_fits; exact Fl|]. intros f _. eapply qp_bind; [apply qp_roulette|]. intros i _.
    eapply qp_mono; [apply qp_getitem|]. intros a Ha. rewrite Forall_forall in Fl. apply Fl, Ha.
  - apply qp_qt, q_cso_pick; auto; try discriminate.
Qed.
End CSOPick.
Lemma oks_fine {A} P feas attok w (l : list (agent A)) : Forall (PFree.ok P feas attok w) l -> Forall (fun a => wf_agent a /\ feas (sol a)) l.
Proof. apply Forall_impl. intros a Ha. split; [eapply good_wf; exact Ha|eapply g_feas; exact Ha]. Qed.
Theorem C65_OriginalCSO_returning E P md mixture c1 wmin wmax srd cdc strategy smp spc n epochs : 5 <= n -> 0 < epochs -> 2 <= smp -> md <> Process ->
  sound_when E P md (original_cso E P md mixture c1 wmin wmax srd cdc strategy smp spc n epochs) (fun _ => True) (fun _ => True) (fun _ => True) (eq n) false
    n n n (n * (2 * smp + 1)).
Proof.
  intros Hn He Hs Hmd. pose (dims := orelse (A := vec * bool) (X := unit) (choice_noreplace E (seq 0 (n_dims P)) (cso_part P cdc)) (ret [])).
  pose (pick := fun l => orelse (cso_pick E P strategy smp l) (lift (getitem l 0))).
  eapply (returns_of _ _ _ _ (cso_phases E P md mixture c1 wmin wmax srd dims pick smp spc n epochs)).
  - intros ep. cbn [al_evolve original_cso agent_algo]. unfold cso_evolve, cso_phases, cso_seek, dims, pick. refi.
  - change (with_evolve _ _) with (agent_algo E md (cso_gea E P mixture) (ga_of P (cso_gea E P mixture)) n epochs false (ret tt) (ret tt) (cso_phases E P md mixture c1 wmin wmax srd dims pick smp spc n epochs)).
    att_free (fun _ : unit => True). apply g_cso; [exact HP|exact Hmd|exact Hs|..].
    + intros w1. eapply gq_qt; [exact HP|noc|]. apply q_orelse; [eapply qp_mono; [apply qp_choice_length|auto]|apply q_ret; exact I].
    + intros w1 l Ll Fl. eapply gq_qt; [exact HP|noc|]. apply oks_fine in Fl. apply q_orelse; [eapply qp_cso_pick; [exact HP|lia|exact Ll|exact Fl]|].
      eapply q_mono; [apply q_getitem; lia|]. intros a Ha. rewrite Forall_forall in Fl. apply Fl, Ha.
Qed.
Theorem C65_OriginalCSO E P md mixture c1 wmin wmax srd cdc strategy smp spc n epochs : 5 <= n -> 0 < epochs -> 2 <= smp -> md <> Process ->
  strategy <> 2 -> (strategy = 1 -> 4 <= smp) -> unit_num cdc -> (Z.of_nat (n_dims P) <= 2 ^ 31)%Z ->
  sound_run E P md (original_cso E P md mixture c1 wmin wmax srd cdc strategy smp spc n epochs) (fun _ => True) false n (n * (2 * smp + 1)).
Proof.
  intros Hn He Hs Hmd H2 H1 Hc Hd. apply gen_plain. att_free (fun _ : unit => True). unfold cso_evolve. apply g_cso; [exact HP|exact Hmd|exact Hs|..].
  - intros w1. eapply gq_qt; [exact HP|noc|]. eapply q_mono; [apply q_choice_noreplace; rewrite seq_length|auto].
    unfold cso_part. apply share_nat; assumption.
  - intros w1 l Ll Fl. eapply gq_qt; [exact HP|noc|]. apply oks_fine in Fl. eapply q_cso_pick; [exact HP|exact H2|exact H1|lia|exact Ll|exact Fl].
Qed.

(** ** OriginalFFA *)
Section FFA.
Variables (E : env) (P : problem) (feas : vec -> Prop) (IL : nat -> Prop) (C : Prop) (nd n0 n m : nat).
Variable s0 : st unit f64.
Notation IX := (fun (_ : list vec) (_ : f64) => True).
Hypothesis HP : params E P feas (@anyatt unit) (false = true /\ C).
Hypothesis Hn : 0 < n <= m.
Notation gq := (gq P feas (@anyatt unit) IL IX (false = true /\ C) nd n0 m s0).
Notation gt := (gt P feas (@anyatt unit) IL IX (false = true /\ C) nd n0 m s0).
Notation ok := (ok P feas (@anyatt unit)).
Lemma g_ffa_moves (w : list vec) idx : idx < n -> gt w 0 n (ffa_moves E P n idx)
  (fun w' r => ok w' (fst r) /\ Forall (ok w') (snd r) /\ List.length (snd r) <= n - S idx /\ List.length w' = List.length w + List.length (snd r)).
Proof.
  intros Hi. unfold ffa_moves. eapply g_qbind; [apply gq_pop_at; lia|]. intros a Ha. cbv beta in Ha.
  eapply g_mono; [eapply g_for_acc with (a := 0) (b := 1) (J := fun j w' r => ok w' (fst r) /\ Forall (ok w') (snd r) /\ List.length (snd r) <= j - S idx
    /\ List.length w' = List.length w + List.length (snd r))|lia|lia|].
  - cbn [fst snd List.length]. split; [exact Ha|]. split; [constructor|]. lia.
  - intros j w1 [b l] Hw1 Hj (Hb & Fl & Ll & Lw). cbn [fst snd] in *.
    eapply g_qbind; [apply gq_pop_at; lia|]. intros c Hc. cbv beta in Hc.
    eapply g_qbind; [eapply gq_compare; [exact HP|noc|exact Hc|exact Hb]|]. intros t _. destruct t.
    + eapply g_qbind; [apply gq_get_x|]. intros al _. eapply g_qbind; [gquiet HP|]. intros x _.
      eapply g_mono with (a := 1 + 0) (b := 1 + 0); [|lia|lia|intros w2 y _ T; exact T].
      eapply g_bind; [eapply g_len; eapply g_gen_agent; [exact HP|noc|qcorrect HP|qgea]|].
      intros d w2 Hw2 [Hd Ld]. apply g_ret. cbn [fst snd]. rewrite app_length. cbn [List.length].
      split; [exact Hd|]. split; [|split; unfold vec in *; lia]. apply Forall_app. split; [eapply oks_mono; [exact HP|exact Hw2|exact Fl]|]. constructor; [exact Hd|constructor].
    + eapply g_mono; [eapply g_ret with (Φ := fun w' r => ok w' (fst r) /\ Forall (ok w') (snd r) /\ List.length (snd r) <= j - S idx
        /\ List.length w' = List.length w + List.length (snd r))|lia|lia|].
      * cbn [fst snd]. auto.
      * intros w2 y _ (T1 & T2 & T3 & T4). split; [exact T1|]. split; [exact T2|]. split; [lia|exact T4].
  - intros w2 y _ (T1 & T2 & T3 & T4). split; [exact T1|]. split; [exact T2|]. split; [lia|exact T4].
Qed.
Lemma g_ffa_step (w : list vec) idx : idx < n -> gt w n n (ffa_step E P n idx) (fun _ _ => True).
Proof.
  intros Hi. eapply g_exact with (a := 0 + (0 + 0)) (b := n + (n + 0)). unfold ffa_step.
  eapply g_bind; [apply g_ffa_moves; exact Hi|]. intros [a l] w1 Hw1 (Ha & Fl & Ll & Lw). cbn [fst snd] in *.
  eapply g_bind.
  - eapply g_mono; [eapply g_len; eapply g_population_with; [exact HP|noc|discriminate|apply ga_of_ok, plain_gea_ok, HP]|lia|lia|]. intros w2 y _ T. exact T.
  - intros more w2 Hw2 [[Lm Fm] Lw2]. cbv beta in *. apply g_quiet.
    eapply gq_bind.
    + eapply gq_best; [exact HP|noc| |rewrite app_length; unfold vec in *; lia]. apply Forall_app. split; [eapply oks_mono; [exact HP|exact Hw2|exact Fl]|exact Fm].
    + intros [b i] [Hb _]. cbn [fst] in Hb.
      eapply gq_bind; [eapply gq_compare; [exact HP|noc|exact Hb|eapply ok_mono; [exact HP|exact Hw2|exact Ha]]|]. intros c _.
      eapply gq_mono; [apply gq_when; intros _; eapply gq_pop_set; [exact HP|noc|lia|exact Hb]|]. intros _ _. split; [exact I|]. unfold vec in *. lia.
Qed.
Lemma g_ffa (w : list vec) alpha damp ep : gt w (n * n) (n * n) (ffa_next E P alpha damp n ep) (fun w' q => Forall (ok w') q /\ List.length q = S m).
Proof.
  unfold ffa_next. eapply g_mono with (a := n * n + 0) (b := n * n + 0); [|lia|lia|intros w2 y _ T; exact T].
  eapply g_bind; [apply g_for; intros i w1 _ Hi; apply g_ffa_step; exact Hi|]. intros _ w1 Hw1 _. apply g_quiet.
  eapply gq_bind; [apply gq_get_gb|]. intros g Hg. eapply gq_bind; [apply gq_get_pop|]. intros p [Lp Fp].
  eapply gq_bind; [apply gq_set_x; exact I|]. intros _ _. apply gq_ret. split; [|rewrite app_length; cbn; lia].
  apply Forall_app. split; [exact Fp|]. constructor; [exact Hg|constructor].
Qed.
End FFA.
Theorem C65_OriginalFFA E P alpha damp n epochs : 5 <= n -> 0 < epochs ->
  sound_run_len E P Single (original_ffa E P alpha damp n epochs) (fun _ => True) (fun m => n <= m) false (n * n) (n * n).
Proof.
  intros Hn He.
  apply (sound_len_of E P Single tt n epochs false (ffa_vars alpha) (ffa_evolve E P alpha damp n) _ (fun _ => True) (fun _ => True)); auto; try lia.
  - unfold ffa_vars. apply vars_set. draws. exact I.
  - intros feas nd n0 HP. apply contract_free_len; [noc|]. intros ep s0 w Hep HI.
    eapply g_mono; [apply g_ffa; auto|lia|lia|].
    + pose proof (i_len _ _ _ _ _ _ _ _ _ HI). cbv beta in *. lia.
    + intros w' q _ [Fq Lq]. split; [exact Fq|]. pose proof (i_len _ _ _ _ _ _ _ _ _ HI). cbv beta in *. lia.
Qed.

(** ** MLFA_GD *)
Section MLFA.
Variables (E : env) (P : problem) (md : mode) (feas : vec -> Prop) (IL : nat -> Prop) (C : Prop) (nd n0 n : nat).
Variable s0 : st unit unit.
Notation IX := (fun (_ : list vec) (_ : unit) => True).
Hypothesis HP : params E P feas (@anyatt unit) (false = true /\ C).
Hypothesis Hn : 2 <= n.
Notation gq := (gq P feas (@anyatt unit) IL IX (false = true /\ C) nd n0 n s0).
Notation gt := (gt P feas (@anyatt unit) IL IX (false = true /\ C) nd n0 n s0).
Notation ok := (ok P feas (@anyatt unit)).
Notation pend := (pend feas (@anyatt unit)).
Lemma mlfa_half : 0 < n / 2 /\ n / 2 + n / 2 <= n.
Proof. pose proof (Nat.div_str_pos n 2 ltac:(lia)). pose proof (Nat.mul_div_le n 2 ltac:(lia)). lia. Qed.
Lemma g_mlfa_males (w : list vec) females : females <= n / 2 ->
  gt w (n / 2) (n / 2) (mlfa_males E P md females n) (fun w' l => List.length l = n / 2 /\ Forall (ok w') l).
Proof.
  intros Hf. pose proof mlfa_half as [H0 H1]. unfold mlfa_males. set (h := n / 2) in *. clearbody h.
  eapply g_qbind; [apply gq_get_pop|]. intros p [Lp Fp].
  eapply g_mono with (a := h + 0) (b := h + 0); [|lia|lia|intros w2 y _ T; exact T].
  eapply g_bind; [eapply g_made_agents; [exact HP|noc|]|].
  - intros w1 i Hw1 Hi. assert (Fp1 : Forall (ok w1) p) by (eapply oks_mono; [exact HP|exact Hw1|exact Fp]).
    eapply gq_bind; [eapply gq_qt; [exact HP|noc|apply q_choice_noreplace; rewrite seq_length; exact Hf]|]. intros ix (Lx & rest & Hp).
    eapply gq_bind; [eapply gq_getitem; [exact HP|noc|lia|exact Fp1]|]. intros a Ha.
    eapply gq_bind with (Φ := fun r => Forall (ok w1) r).
    { eapply gq_lift; [exact HP|noc|]. assert (Fx : Forall (fun j => j < h) ix).
      { apply Forall_forall. intros j Hj. assert (T : In j (seq 0 h)) by (eapply Permutation_in; [exact Hp|apply in_or_app; left; exact Hj]). apply in_seq in T. lia. }
      clear Lx Hp. induction Fx as [|j ix Hj _ IH]; [exists []; split; [reflexivity|constructor]|].
      destruct IH as (r & Er & Fr). destruct (getitem_lt p (h + j) ltac:(lia)) as (b & Eb & _ & Ib). exists (b :: r). cbn [map_res]. rewrite Eb. cbn [bind]. rewrite Er.
      split; [reflexivity|]. constructor; [|exact Fr]. rewrite Forall_forall in Fp1. apply Fp1, Ib. }
    intros fs Ffs. eapply gq_bind; [eapply gq_fits; [exact HP|noc|constructor; [exact Ha|exact Ffs]]|]. intros fits _.
    eapply gq_bind; [gquiet HP|]. intros x _. eapply gq_propose; [exact HP|noc|qcorrect HP|qgea].
  - intros l w1 Hw1 [Ll Fl]. cbv beta in *. apply g_quiet. eapply gq_mono; [eapply gq_greedy; [exact HP|noc|exact Fl|exact Fl|reflexivity]|].
    intros y [L1 F1]. split; [lia|exact F1].
Qed.
Lemma g_mlfa_females (w : list vec) males : List.length males = n / 2 -> Forall (ok w) males ->
  gt w (n / 2 + 1) (n - n / 2 + 1) (mlfa_females E P md n males) (fun w' l => List.length l = n - n / 2 /\ Forall (ok w') l).
Proof.
  intros Lm Fm. pose proof mlfa_half as [H0 H1]. unfold mlfa_females. set (h := n / 2) in *. clearbody h.
  eapply g_qbind; [eapply gq_qt; [exact HP|noc|apply q_integers; lia]|]. intros r Hr. cbv beta in Hr.
  eapply g_qbind; [eapply gq_getitem; [exact HP|noc|rewrite Lm; apply Hr|exact Fm]|]. intros m _.
  eapply g_qbind; [gquiet HP|]. intros yg _.
  eapply g_mono with (a := 1 + (h * (if is_avail md then 0 else 1) + (if is_avail md then n - h else 0)))
    (b := 1 + (h * (if is_avail md then 0 else 1) + (if is_avail md then n - h else 0))); [|destruct (is_avail md); lia|destruct (is_avail md); lia|intros w2 y _ T; exact T].
  eapply g_bind; [eapply g_gen_agent; [exact HP|noc|qcorrect HP|qgea]|]. intros t w1 Hw1 Ht. cbv beta in Ht.
  eapply g_qbind; [apply gq_get_pop|]. intros p [Lp Fp]. cbv zeta.
  pose proof (rest_Forall _ h p Fp) as Ff. assert (Lf : List.length (skipn h p) = n - h) by (rewrite skipn_length; lia).
  set (fem := skipn h p) in *. clearbody fem.
  eapply g_bind with (Φ := fun w' l => List.length l = n - h /\ (if is_avail md then Forall (pend w') l else Forall (ok w') l)).
  - eapply g_mono; [eapply g_for_acc with (a := if is_avail md then 0 else 1) (b := if is_avail md then 0 else 1)
      (J := fun i w' l => List.length l = n - h /\ (if is_avail md then Forall (pend w') l else Forall (ok w') l))|lia|lia|intros w2 y _ T; exact T].
    + split; [exact Lf|]. destruct (is_avail md); [|exact Ff]. eapply Forall_impl; [|exact Ff]. intros a. eapply ok_pend. exact HP.
    + intros i w2 l Hw2 Hi [Ll Fl]. assert (Ff2 : Forall (ok w2) fem) by (eapply oks_mono; [exact HP|exact Hw2|exact Ff]).
      eapply g_qbind; [eapply gq_getitem; [exact HP|noc|rewrite Lf; lia|exact Ff2]|]. intros a Ha.
      eapply g_qbind; [eapply gq_compare; [exact HP|noc|eapply ok_mono; [exact HP|exact Hw2|exact Ht]|exact Ha]|]. intros c _.
      eapply g_qbind with (Φ := fun _ => True); [gquiet HP|]. intros g _. eapply g_qbind; [gquiet HP|]. intros x _.
      eapply g_qbind; [eapply gq_propose; [exact HP|noc|qcorrect HP|qgea]|]. intros b Hb. cbv beta in Hb.
      eapply g_mono with (a := (if is_avail md then 0 else 1) + 0) (b := (if is_avail md then 0 else 1) + 0); [|lia|lia|intros w4 z _ T; exact T].
      eapply g_bind; [eapply g_maybe; [exact HP|noc|exact Hb]|]. intros d w3 Hw3 Hd. cbv beta in Hd. apply g_ret.
      split; [rewrite upd_length; exact Ll|]. pose proof (held_mono E P md _ _ _ HP _ _ _ Hw3 Fl) as F3.
      destruct (is_avail md); apply upd_Forall; assumption.
  - intros l w2 Hw2 [Ll Fl]. cbv beta in *. eapply g_update; [exact HP|noc|exact Ll|exact Fl].
Qed.
Lemma g_mlfa_walk (w : list vec) k epochs ep : gt w k k (mlfa_walk E P k epochs ep) (fun _ _ => True).
Proof.
  unfold mlfa_walk. eapply g_mono with (a := k * 1) (b := k * 1); [|lia|lia|intros w2 y _ T; exact T].
  apply g_for. intros i w1 _ Hi. eapply g_qbind; [apply gq_get_gb|]. intros g Hg. cbv beta in Hg.
  eapply g_qbind; [gquiet HP|]. intros x _.
  eapply g_mono with (a := 1 + 0) (b := 1 + 0); [|lia|lia|intros w2 y _ T; exact T].
  eapply g_bind; [eapply g_gen_agent; [exact HP|noc|qcorrect HP|qgea]|]. intros a w2 Hw2 Ha. cbv beta in Ha. apply g_quiet.
  eapply gq_bind; [eapply gq_compare; [exact HP|noc|exact Ha|eapply ok_mono; [exact HP|exact Hw2|exact Hg]]|]. intros c _.
  apply gq_when. intros _. apply gq_set_gb; exact Ha.
Qed.
Lemma g_mlfa (w : list vec) females k epochs ep : females <= n / 2 ->
  gt w (2 * (n / 2) + 1 + k) (n + 1 + k) (mlfa_evolve E P md females k n epochs ep) (fun _ _ => True).
Proof.
  intros Hf. pose proof mlfa_half as [H0 H1]. unfold mlfa_evolve.
  eapply g_mono with (a := n / 2 + (n / 2 + 1 + k)) (b := n / 2 + (n - n / 2 + 1 + k)); [|lia|lia|intros w2 y _ T; exact T].
  eapply g_bind; [apply g_mlfa_males; exact Hf|]. intros males w1 Hw1 [Lm Fm]. cbv beta in *.
  eapply g_bind; [apply g_mlfa_females; [exact Lm|exact Fm]|]. intros fem w2 Hw2 [Lf Ff]. cbv beta in *.
  assert (Fa : Forall (ok w2) (males ++ fem)) by (apply Forall_app; split; [eapply oks_mono; [exact HP|exact Hw2|exact Fm]|exact Ff]).
  eapply g_qbind; [eapply gq_set_pop; [noc|rewrite app_length; lia|exact Fa]|]. intros _ _.
  eapply g_qbind; [apply gq_get_gb|]. intros g Hg. cbv beta in Hg.
  eapply g_qbind; [eapply gq_best; [exact HP|noc|apply Forall_app; split; [exact Fa|constructor; [exact Hg|constructor]]|rewrite app_length; cbn; lia]|].
  intros [b i] [Hb _]. cbn [fst] in Hb. eapply g_qbind; [apply gq_set_gb; exact Hb|]. intros _ _. apply g_mlfa_walk.
Qed.
End MLFA.
Theorem C65_MLFA_GD E P md females k_rw n epochs : 5 <= n -> females <= n / 2 -> 0 < epochs ->
  sound_run E P md (mlfa_gd E P md females k_rw n epochs) (fun _ => True) false (2 * (n / 2) + 1 + k_rw) (n + 1 + k_rw).
Proof. intros Hn Hf He. plainfree. apply g_mlfa; [exact HP|lia|exact Hf]. Qed.

(** ** OriginalSA and GaussianSA *)
Section SA.
Variables (E : env) (P : problem) (md : mode) (feas : vec -> Prop) (cov : Prop) (nd n0 n : nat).
Notation IX := (fun L (x : agent unit * f64) => good P feas (@anyatt unit) L (fst x)).
Notation IL := (fun m => m = n \/ m = 2).
Hypothesis HP : params E P feas (@anyatt unit) cov.
Hypothesis HF : any_array P feas.
Notation good := (good P feas (@anyatt unit)).
Lemma sa_contract step cool : evolve_contract P feas (@anyatt unit) IL IX cov nd n0 1 1 (sa_evolve E P step cool).
Proof.
  intros ep s Hep HI. set (m := List.length (s_pop s)).
  assert (HR : R P feas anyatt IL IX cov nd n0 m s [] (List.length (s_log s)) s). { split; [apply Ev_init; exact HI|]. split; reflexivity. }
  assert (HO : Old s s). { unfold Old. eapply Forall_impl; [|apply (i_good _ _ _ _ _ _ _ _ _ HI)]. intros a G. apply G. }
  destruct (i_x _ _ _ _ _ _ _ _ _ HI) as (L & HL & Gc). cbv beta in Gc. assert (Gc0 : good (s_log s) (fst (s_x s))) by (eapply good_mono; [apply HP|exact HL|exact Gc]).
  set (x := s_x s) in *. set (c := fst x) in *.
  unfold sa_evolve, sa_next. apply wp_bind, wp_bind. unfold sa_move. apply wp_bind, wp_get_x. fold x. fold c.
  apply wp_bind. eapply wp_mono; [eapply q_rform; exact HR|]. intros y s1 (Ly & N1).
  pose proof (R_near _ _ _ _ _ _ _ _ _ _ _ _ _ _ HR N1) as R1. pose proof (Old_near _ _ _ _ HO N1) as O1.
  apply wp_bind. eapply wp_mono; [eapply q_raw; [exact HF|exact R1]|]. intros y' s2 (Hy & N2).
  pose proof (R_near _ _ _ _ _ _ _ _ _ _ _ _ _ _ R1 N2) as R2. pose proof (Old_near _ _ _ _ O1 N2) as O2.
  apply wp_bind. eapply wp_gen_at; [exact HP|qgea|exact R2|exact Hy|]. intros a s3 Ga R3 E3.
  assert (HL3 : incl (s_log s) (s_log s3)) by apply R3.
  assert (Gc3 : good (s_log s3) c) by (eapply good_mono; [apply HP|exact HL3|exact Gc0]).
  destruct (compare_agents_ok E P feas _ _ HP _ a c Ga Gc3) as (b & Eb & Hb).
  apply wp_bind. eapply wp_lift; [exact Eb|].
  (* The rest of the step, once the current agent is known. *)
  assert (K : forall d s4, near IX s3 s4 -> good (s_log s3) d -> (cov -> no_worse (p_mm P) (fit d) (fit a) \/ no_worse (p_mm P) (fit c) (fit a)) ->
    wp (x <- get_x ;; set_x (d, (snd x * cool)%F) ;;; g <- get_gb ;; ret [g; d])
      (fun q s5 => wp (set_pop q) (fun _ s' => Ev P feas anyatt IL IX cov nd n0 s [] s' /\ IL (List.length (s_pop s')) /\
         List.length (s_log s) + 1 <= List.length (s_log s') <= List.length (s_log s) + 1) s5) s4).
  { intros d s4 N4 Gd Hd. pose proof (R_near _ _ _ _ _ _ _ _ _ _ _ _ _ _ R3 N4) as R4.
    assert (O4 : Old s s4). { eapply Old_near; [|exact N4]. unfold Old. rewrite E3. exact O2. }
    destruct N4 as (k & x4 & -> & _). destruct R4 as (V & Hl & Hlog).
    apply wp_bind, wp_get_x. apply wp_bind. set (z := (d, (snd _ * cool)%F)). set (s4 := with_x (bump s3 k) x4) in *.
    assert (V5 : Ev P feas anyatt IL IX cov nd n0 s ([] ++ [a]) (with_x s4 z)).
    { apply Ev_x; [exact V|]. exists (s_log s3). split; [apply incl_refl|exact Gd]. }
    change (wp (g <- get_gb ;; ret [g; d])
      (fun q s5 => wp (set_pop q) (fun _ s' => Ev P feas anyatt IL IX cov nd n0 s [] s' /\ IL (List.length (s_pop s')) /\
         List.length (s_log s) + 1 <= List.length (s_log s') <= List.length (s_log s) + 1) s5) (with_x s4 z)).
    assert (O5 : Old s (with_x s4 z)) by exact O4. assert (Hlog5 : List.length (s_log (with_x s4 z)) = List.length (s_log s) + 1) by exact Hlog.
    assert (G5 : s_log (with_x s4 z) = s_log s3) by reflexivity. set (s5 := with_x s4 z) in *. clearbody s5.
    destruct (v_gb _ _ _ _ _ _ _ _ _ _ _ V5) as (g & Eg & Gg). apply wp_bind. eapply wp_get_gb; [exact Eg|]. apply wp_ret. unfold wp, set_pop.
    split; [|split; [right; reflexivity|cbn [with_pop s_log]; lia]].
    eapply Ev_set; [exact V5| | |].
    - intros e [<-|[<-|[]]]; [exact Gg|]. rewrite G5. exact Gd.
    - intros e [].
    - intros C0 g0 e Hg0 He. apply in_app_or in He. destruct He as [He|[<-|[]]].
      + left. unfold Old in O5. rewrite Forall_forall in O5. eapply Ev_old; [exact V5|exact C0|exact Hg0|eapply Ev_pop_good; eassumption|apply O5, He].
      + destruct (Hd C0) as [H1|H1]; [right; exists d; split; [right; left; reflexivity|exact H1]|].
        left. eapply no_worse_trans; [|exact H1]. eapply Ev_old; [exact V5|exact C0|exact Hg0|rewrite G5; exact Gc3|apply Gc0]. }
  assert (N3 : near IX s3 s3) by (eapply near_refl; exact R3).
  assert (Ra : cov -> no_worse (p_mm P) (fit a) (fit a)) by (intros C0; apply no_worse_refl; [apply HP|eapply num_good; eassumption]).
  destruct b.
  - apply wp_ret. apply K; auto.
  - assert (Hc : cov -> no_worse (p_mm P) (fit c) (fit a)) by (intros C0; apply Hb; eapply num_good; eassumption).
    apply wp_bind. eapply wp_lift; [apply fitness_fit, wf_has_target; eapply good_wf; exact Gc3|].
    apply wp_bind. eapply wp_lift; [apply fitness_fit, wf_has_target; eapply good_wf; exact Ga|].
    apply wp_bind. eapply wp_mono; [eapply q_rtest; exact R3|]. intros b s4 (_ & N4). apply wp_ret. apply K; [exact N4| |auto].
    destruct b; assumption.
Qed.
End SA.
Lemma sa_sound E P md temp step cool n epochs : 2 <= n -> 0 < epochs ->
  sound_run_gen E P md (agent_algo E md (generate_empty_agent P tt) (ga_of P (generate_empty_agent P tt)) n epochs false (ret tt) (sa_before temp) (sa_evolve E P step cool))
    (fun _ => True) (any_array P) (fun _ => True) (fun m => m = n \/ m = 2) true n n 1 1.
Proof.
  intros Hn He. set (al := agent_algo _ _ _ _ _ _ _ _ _ _).
  assert (T : sound_run_gen E P md al (fun _ => True) (any_array P) (fun _ => True) (fun m => m = n \/ m = 2) true (n + 0) (n + 0) 1 1).
  2:{ rewrite !Nat.add_0_r in T. exact T. }
  apply (sound_gen E P md al (fun _ => True) (any_array P) (fun _ => True) (fun _ => @anyatt unit)
    (fun _ _ _ => True) (fun feas L x => good P feas (@anyatt unit) L (fst x)) (fun m => m = n \/ m = 2) true n n 0 0 1 1); auto.
  - intros m [->| ->]; lia.
  - intros feas starting HP _ Hst _. apply agents_init; auto.
    + intros. apply plain_gea_ok, HP.
    + apply ga_of_ok, plain_gea_ok, HP.
    + intros m [->| ->]; lia.
    + apply vars_none; auto.
  - intros feas nd HP _. apply quiet_before_main. intros s n0 HI. cbn [al al_before_main agent_algo]. unfold sa_before.
    destruct (i_gb _ _ _ _ _ _ _ _ _ HI) as (g & Eg & Gg & _). apply wp_bind. eapply wp_get_gb; [exact Eg|]. unfold set_x, wp.
    exists (s_ctr s), (g, temp). split; [destruct s; reflexivity|]. exists (s_log s). split; [apply incl_refl|exact Gg].
  - intros feas nd n0 HP HF. apply sa_contract; assumption.
Qed.
Theorem C64_OriginalSA E P md temp step n epochs : 2 <= n -> 0 < epochs ->
  sound_run_gen E P md (original_sa E P md temp step n epochs) (fun _ => True) (any_array P) (fun _ => True) (fun m => m = n \/ m = 2) true n n 1 1.
Proof. apply sa_sound. Qed.
Theorem C64_GaussianSA E P md temp cool scale n epochs : 2 <= n -> 0 < epochs ->
  sound_run_gen E P md (gaussian_sa E P md temp cool scale n epochs) (fun _ => True) (any_array P) (fun _ => True) (fun m => m = n \/ m = 2) true n n 1 1.
Proof. apply sa_sound. Qed.

(** ** SwarmSA *)
Section SwarmSA.
Variables (E : env) (P : problem) (md : mode) (feas : vec -> Prop) (IL : nat -> Prop) (C : Prop) (nd n0 n : nat).
Variable s0 : st unit (f64 * f64).
Notation IX := (fun (_ : list vec) (_ : f64 * f64) => True).
Hypothesis HP : params E P feas (@anyatt unit) (false = true /\ C).
Hypothesis Hn : 0 < n.
Hypothesis Hd : 0 < n_dims P.
Notation gq := (gq P feas (@anyatt unit) IL IX (false = true /\ C) nd n0 n s0).
Notation gt := (gt P feas (@anyatt unit) IL IX (false = true /\ C) nd n0 n s0).
Notation ok := (ok P feas (@anyatt unit)).
Lemma g_swarm_sa_round (w : list vec) rate moves : 0 < moves -> gt w (n * moves) (n * moves) (swarm_sa_round E P md rate moves n) (fun _ _ => True).
Proof.
  intros Hm. unfold swarm_sa_round. eapply g_mono with (a := n * moves + 0) (b := n * moves + 0); [|lia|lia|intros w2 y _ T; exact T].
  eapply g_bind; [eapply g_new_agents; [exact HP|noc|qcorrect HP|qgea|]|].
  - intros w1 i Hw1 Hi. assert (Hq : i / moves < n) by (apply Nat.div_lt_upper_bound; [lia|rewrite Nat.mul_comm; exact Hi]).
    unfold swarm_sa_mutate. set (q := i / moves) in *. clearbody q. gquiet HP.
  - intros l w1 Hw1 [Ll Fl]. cbv beta in *. apply g_quiet. eapply gq_bind; [eapply gq_trimmed; [exact HP|noc|exact Fl]|]. intros q [Lq Fq].
    apply gq_for. intros i Hi. eapply gq_bind; [eapply gq_getitem; [exact HP|noc|rewrite Lq; nia|exact Fq]|]. intros a Ha.
    eapply gq_bind; [apply gq_pop_at; exact Hi|]. intros old Ho.
    eapply gq_bind; [eapply gq_compare; [exact HP|noc|exact Ha|exact Ho]|]. intros c _. destruct c.
    + eapply gq_pop_set; [exact HP|noc|exact Hi|exact Ha].
    + eapply gq_bind; [apply gq_get_x|]. intros x _. eapply gq_bind; [eapply gq_fitness; [exact HP|noc|exact Ha]|]. intros f _.
      eapply gq_bind; [eapply gq_fitness; [exact HP|noc|exact Ho]|]. intros f' _. eapply gq_bind; [gquiet HP|]. intros b _.
      apply gq_when. intros _. eapply gq_pop_set; [exact HP|noc|exact Hi|exact Ha].
Qed.
End SwarmSA.
Theorem C65_SwarmSA E P md t0 sigma rate tdamp sdamp rounds moves n epochs : 5 <= n -> 0 < moves -> 0 < n_dims P -> 0 < epochs ->
  sound_run E P md (swarm_sa E P md t0 sigma rate tdamp sdamp rounds moves n epochs) (fun _ => True) false (rounds * (n * moves)) (rounds * (n * moves)).
Proof.
  intros Hn Hm Hd He. apply gen_plain. state_free (fun _ : f64 * f64 => True).
  - exact I.
  - unfold swarm_sa_evolve. eapply g_mono with (a := rounds * (n * moves) + 0) (b := rounds * (n * moves) + 0); [|lia|lia|intros w2 y _ T; exact T].
    eapply g_bind; [apply g_for; intros i w1 _ Hi; apply g_swarm_sa_round; [exact HP|lia|exact Hd|exact Hm]|]. intros _ w1 _ _. apply g_quiet. gquiet HP.
Qed.

(** ** EHO *)
Lemma firstn_plus {T} a b (l : list T) : firstn (a + b) l = firstn a l ++ firstn b (skipn a l).
Proof. revert l. induction a as [|a IH]; intros l; [reflexivity|]. destruct l as [|x l]; cbn; [rewrite firstn_nil; reflexivity|]. f_equal. apply IH. Qed.
Section EHO.
Variables (E : env) (P : problem) (md : mode) (feas : vec -> Prop) (cov : Prop) (nd n0 n : nat).
Variable s0 : st unit unit.
Notation IX := (fun (_ : list vec) (_ : unit) => True).
Hypothesis HP : params E P feas (@anyatt unit) cov.
Notation R := (R P feas (@anyatt unit) (eq n) IX cov nd n0 n s0).
Notation good := (good P feas (@anyatt unit)).
Notation covers := (covers P cov).
Lemma wp_eho_separate W l s k m (Q : unit -> st unit unit -> Prop) : R W l s -> k * m = n -> 2 <= m ->
  (forall s', R W (l + k) s' -> Q tt s') -> wp (eho_separate E P k m) Q s.
Proof.
  intros HR Hk Hm HQ. unfold eho_separate. apply wp_bind, wp_get_pop. pose proof HR as (V & Hl & Hlog). set (p := s_pop s) in *.
  apply wp_bind. apply wp_for_acc with (I := fun i acc s1 => exists V1, R (W ++ V1) (l + i) s1 /\ s_pop s1 = p /\ List.length acc = i * m /\ Forall (good (s_log s1)) acc /\
      covers acc (firstn (i * m) p) /\ covers acc V1).
  - exists []. rewrite app_nil_r, Nat.add_0_r. split; [exact HR|]. split; [reflexivity|]. split; [reflexivity|]. split; [constructor|]. split; intros C a Ha; destruct Ha.
  - intros i acc s1 Hi (V1 & R1 & E1 & L1 & G1 & C1 & C2).
    assert (Gp : Forall (good (s_log s1)) p). { rewrite <- E1. apply R1. }
    set (gr := slice (i * m) (S i * m) p). assert (Him : S i * m <= n) by nia.
    assert (Eg : firstn (S i * m) p = firstn (i * m) p ++ gr).
    { unfold gr, slice. replace (S i * m) with (i * m + m) by lia. rewrite firstn_plus. f_equal. f_equal. lia. }
    assert (Lg : List.length gr = m). { apply (f_equal (@List.length _)) in Eg. rewrite app_length, !firstn_length in Eg. lia. }
    assert (Gg : Forall (good (s_log s1)) gr). { apply (first_Forall _ (S i * m)) in Gp. rewrite Eg in Gp. apply Forall_app in Gp. apply Gp. }
    clearbody gr.
    destruct (good_best E P feas _ cov HP _ gr Gg) as (sp & ix & Es & Hp & Hs). apply wp_bind. eapply wp_lift; [exact Es|]. cbv beta iota.
    assert (Ls : List.length sp = m) by (rewrite (Permutation_length Hp); exact Lg).
    assert (Gs : Forall (good (s_log s1)) sp). { rewrite Forall_forall in *. intros a Ha. apply Gg. eapply Permutation_in; eauto. }
    destruct (@exists_last _ sp) as (front & z & Ez). { intros ->. cbn in Ls. lia. }
    apply wp_bind. unfold random_agent. apply wp_bind. eapply wp_mono; [eapply gea_plain_none; [exact HP|intros; exact I|exact R1]|]. intros a s2 [Ha N2].
    pose proof (R_near _ _ _ _ _ _ _ _ _ _ _ _ _ _ R1 N2) as R2. unfold evaluate. apply wp_bind, wp_get_target, wp_ret.
    assert (HL : incl (s_log s1) (s_log (evald s2 [sol a]))). { destruct N2 as (k2 & x2 & -> & _). cbn. apply incl_appl, incl_refl. }
    assert (R3 : R ((W ++ V1) ++ [with_tgt a (prob_target P (sol a))]) (l + i + 1) (evald s2 [sol a])) by (eapply R_eval; [exact HP|exact R2|exact Ha]).
    assert (E3 : s_pop (evald s2 [sol a]) = s_pop s2) by reflexivity. set (s3 := evald s2 [sol a]) in *. set (a' := with_tgt a (prob_target P (sol a))) in *.
    assert (Ga : good (s_log s3) a'). { apply R_held_good in R3. inversion R3; assumption. }
    change (evald s2 [sol a]) with s3. clearbody s3 a'.
    apply wp_bind. eapply wp_lift; [rewrite Ez; apply set_last_app|]. apply wp_ret.
    exists (V1 ++ [a']). rewrite app_assoc. replace (l + S i) with (l + i + 1) by lia. split; [exact R3|]. split; [rewrite E3, (near_pop _ _ _ N2); exact E1|].
    rewrite Ez, app_length in Ls. cbn [List.length] in Ls.
    split; [rewrite !app_length; cbn [List.length]; lia|].
    split. { apply Forall_app. split; [eapply Forall_impl; [|exact G1]; intros b; apply good_mono; [apply HP|exact HL]|].
      apply Forall_app. rewrite Ez in Gs. apply Forall_app in Gs. destruct Gs as [Gs _]. split; [eapply Forall_impl; [|exact Gs]; intros b; apply good_mono; [apply HP|exact HL]|].
      constructor; [exact Ga|constructor]. }
    split.
    + rewrite Eg. intros C x Hx. apply in_app_or in Hx. destruct Hx as [Hx|Hx].
      * destruct (C1 C x Hx) as (b & Hb & Hbx). exists b. split; [apply in_or_app; left; exact Hb|exact Hbx].
      * destruct front as [|b front]; [cbn in Ls; lia|]. exists b. split; [apply in_or_app; right; left; reflexivity|]. apply (Hs C); [rewrite Ez; reflexivity|exact Hx].
    + intros C x Hx. apply in_app_or in Hx. destruct Hx as [Hx|[<-|[]]].
      * destruct (C2 C x Hx) as (b & Hb & Hbx). exists b. split; [apply in_or_app; left; exact Hb|exact Hbx].
      * exists a'. split; [apply in_or_app; right; apply in_or_app; right; left; reflexivity|]. apply no_worse_refl; [apply HP|eapply num_good; eassumption].
  - intros q s1 (V1 & R1 & E1 & L1 & G1 & C1 & C2). cbn [Nat.add] in *. rewrite Hk in L1. rewrite firstn_all2 in C1 by lia.
    unfold set_pop, wp. apply HQ. eapply R_set_cov; [exact HP|exact R1|exact L1|exact G1|rewrite E1; exact C1|exact C2].
Qed.
Lemma b_eho alpha beta k m ep : k * m = n -> 2 <= m -> blk P feas (@anyatt unit) (eq n) IX cov nd n0 n s0 (n + k) (n + k) (eho_evolve E P md alpha beta k m n ep) (fun _ => True).
Proof.
  intros Hk Hm. unfold eho_evolve. eapply b_qbind; [quiet HP|]. intros p (Lp & Fp). cbv zeta.
  eapply b_bind; [eapply b_greedy_each; [exact HP|qcorrect HP|qgea|reflexivity|]|].
  - intros i Hi. assert (Hq : i / m < k) by (apply Nat.div_lt_upper_bound; nia). assert (Hr : i mod m < m) by (apply Nat.mod_upper_bound; lia).
    eapply q_bind with (Φ := fun g => List.length g = m /\ Forall (fun a => proper a /\ feas (sol a)) g).
    + apply q_lift. unfold eho_groups. exists (slice (i / m * m) (S (i / m) * m) p). split.
      * unfold getitem. rewrite nth_error_map. rewrite (nth_error_nth' _ 0) by (rewrite seq_length; exact Hq). rewrite seq_nth by exact Hq. reflexivity.
      * split; [rewrite slice_length; nia|]. apply slice_Forall. exact Fp.
    + intros g [Lg Fg]. destruct (_ =? 0)%nat; [apply q_ret; exact I|]. 
      eapply q_bind; [apply q_getitem; lia|]. intros a Ha. eapply q_bind; [apply q_getitem; lia|]. intros b Hb. eapply q_bind; [quiet HP|]. intros u _. apply q_ret. exact I.
  - intros _ _. intros W l s HR. eapply wp_eho_separate; [exact HR|exact Hk|exact Hm|]. intros s' R'. split; [exact I|]. exists k. split; [lia|exact R'].
Qed.
End EHO.
Theorem C64_OriginalEHO E P md alpha beta k n epochs : 5 <= n -> 0 < epochs -> k * (n / k) = n -> 2 <= n / k ->
  sound_run E P md (original_eho E P md alpha beta k n epochs) (fun _ => True) true (n + k) (n + k).
Proof. intros Hn He Hk Hm. plain. eapply b0_blk. apply b_eho; assumption. Qed.

Print Assumptions C65_OriginalDO.
Print Assumptions C65_OriginalCSO_returning.
Print Assumptions C65_OriginalCSO.
Print Assumptions C65_OriginalFFA.
Print Assumptions C65_MLFA_GD.
Print Assumptions C64_OriginalSA.
Print Assumptions C64_GaussianSA.
Print Assumptions C65_SwarmSA.
Print Assumptions C64_OriginalEHO.
