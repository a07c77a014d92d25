(** Theorems about the classes of MClass18. *)
From Coq Require Import Permutation String.
From Verif Require Import Prelude Fl FlArith FlInt FlRound FlShare MCore MHelp MAlg MAlg2 MAlg3 MAlg4 MAlg5 MAlg6 MAlg7 SpecCore SpecRun PSpace PSelect PLogic PSolve PRun PPart Demo PropHelp SpecAlg SpecWhen PAlg PFree PClass PAlg2 PAlg3 PAlg4 PAlg5 PAlg6 PAlg7 PAlg8 PAlg9 PRef PFail PElse PAlg10 PAlg11 PAlg13 MClass14 AClass14 AClass17 MClass18.

(** ** EP *)
Lemma win_insert_perm a l : Permutation (win_insert a l) (a :: l).
Proof.
  induction l as [|b l IH]; [apply Permutation_refl|]. cbn [win_insert]. destruct (_ <? _); [|apply Permutation_refl].
  eapply Permutation_trans; [apply perm_skip, IH|apply perm_swap].
Qed.
Lemma win_sort_perm l : Permutation (win_sort l) l.
Proof. induction l as [|a l IH]; [constructor|]. cbn [win_sort fold_right]. eapply Permutation_trans; [apply win_insert_perm|apply perm_skip, IH]. Qed.
Lemma first_Forall {T} (Q : T -> Prop) k l : Forall Q l -> Forall Q (firstn k l).
Proof. rewrite !Forall_forall. intros H x Hx. apply H. rewrite <- (firstn_skipn k l). apply in_or_app; auto. Qed.
Lemma rest_Forall {T} (Q : T -> Prop) k l : Forall Q l -> Forall Q (skipn k l).
Proof. rewrite !Forall_forall. intros H x Hx. apply H. rewrite <- (firstn_skipn k l). apply in_or_app; auto. Qed.
Section EP.
Notation A := (vec * nat)%type.
Variables (E : env) (P : problem) (md : mode) (feas : vec -> Prop) (IL : nat -> Prop) (IX : list vec -> unit -> Prop) (C : Prop) (nd n0 n : nat).
Variable s0 : st A unit.
Hypothesis HP : params E P feas (@anyatt A) (false = true /\ C).
Hypothesis Hn : 0 < n.
Notation gq := (gq P feas (@anyatt A) IL IX (false = true /\ C) nd n0 n s0).
Notation gt := (gt P feas (@anyatt A) IL IX (false = true /\ C) nd n0 n s0).
Notation ok := (ok P feas (@anyatt A)).
Notation pend := (pend feas (@anyatt A)).
Lemma ep_gea_ok : gea_ok (X := unit) feas (@anyatt A) (ep_gea E P).
Proof. apply gea_with_ok; [apply HP|intros; draws; exact I]. Qed.
Lemma ok_wins w (a : agent A) z : ok w a -> ok w (with_att a z).
Proof. intros []. constructor; auto; exact I. Qed.
Lemma gq_ep_tournaments w bouts p : Forall (ok w) p -> gq w (ep_tournaments E P bouts p) (fun q => List.length q = List.length p /\ Forall (ok w) q).
Proof.
  intros HF. unfold ep_tournaments. set (INV := fun (_ : nat) (q : list (agent A)) => List.length q = List.length p /\ Forall (ok w) q).
  eapply gq_mono; [eapply gq_for_acc with (I := INV)|intros y T; exact T]; [split; auto|].
  intros i l Hi Hl. eapply gq_mono; [eapply gq_for_acc with (I := INV); [exact Hl|]|intros y T; exact T].
  intros j q Hj [Lq Fq]. eapply gq_bind; [eapply gq_qt; [exact HP|noc|]; apply q_integers; lia|]. cbv beta. intros r Hr.
  eapply gq_bind; [eapply gq_getitem; [exact HP|noc|lia|exact Fq]|]. intros a Ha.
  eapply gq_bind; [eapply gq_getitem; [exact HP|noc|lia|exact Fq]|]. intros b Hb.
  eapply gq_bind; [eapply gq_compare; [exact HP|noc|exact Ha|exact Hb]|]. intros c _. unfold ep_win.
  eapply gq_bind; [eapply gq_getitem; [exact HP|noc|destruct c; lia|exact Fq]|]. intros d Hd. apply gq_ret.
  split; [rewrite upd_length; exact Lq|]. apply upd_Forall; [exact Fq|apply ok_wins, Hd].
Qed.
Lemma g_ep_ranked w bouts : gt w n n (ep_ranked E P md bouts n) (fun w' q => List.length q = n + n /\ Forall (ok w') q).
Proof.
  unfold ep_ranked. pose proof ep_gea_ok as HG.
  eapply g_mono with (a := n + 0) (b := n + 0); [|lia|lia|intros w2 y _ T; exact T].
  eapply g_bind with (Φ := fun w' l => List.length l = n /\ Forall (ok w') l).
  { eapply g_made_agents; [exact HP|noc|]. intros w' i Hw Hi. unfold ep_child.
    eapply gq_bind; [apply gq_pop_at; exact Hi|]. intros old Hold.
    eapply gq_bind with (Φ := fun _ => True); [gquiet HP|]. intros x _.
    eapply gq_bind; [eapply gq_propose; [exact HP|noc|qcorrect HP|apply gea_quiet; exact HG]|]. intros a [Ha _].
    eapply gq_bind with (Φ := fun _ => True); [gquiet HP|]. intros v _. apply gq_ret. split; [exact Ha|intros; exact I]. }
  intros child w1 Hw1 [Lc Fc]. apply g_quiet.
  eapply gq_bind; [eapply gq_sorted; [exact HP|noc|exact Fc]|]. intros [ch ix] (Lh & Fh & _). cbn [fst] in Lh, Fh.
  eapply gq_bind; [eapply gq_get_pop|]. intros p [Lp Fp].
  eapply gq_bind; [eapply gq_ep_tournaments; apply Forall_app; split; assumption|]. intros q [Lq Fq]. apply gq_ret.
  pose proof (win_sort_perm q) as Hp. split; [rewrite (Permutation_length Hp), Lq, app_length; lia|].
  eapply perm_Forall; [apply Permutation_sym; exact Hp|exact Fq].
Qed.
Lemma g_ep_evolve w bouts ep : gt w n n (ep_evolve E P md bouts n ep) (fun _ _ => True).
Proof.
  unfold ep_evolve. eapply g_mono with (a := n + 0) (b := n + 0); [|lia|lia|intros w2 y _ T; exact T].
  eapply g_bind; [apply g_ep_ranked|]. intros q w1 Hw1 [Lq Fq]. apply g_quiet. eapply gq_set_pop; [noc|rewrite firstn_length; lia|].
  apply first_Forall. exact Fq.
Qed.
Lemma g_levy_ep w bouts ep : (Z.of_nat n <= 2 ^ 31)%Z ->
  gt w (n + ep_half n) (n + ep_half n) (levy_ep_evolve E P md bouts n ep) (fun _ _ => True).
Proof.
  intros Hz. unfold levy_ep_evolve. pose proof ep_gea_ok as HG. eapply g_bind; [apply g_ep_ranked|]. intros q w1 Hw1 [Lq Fq]. cbv zeta.
  assert (Ll : List.length (skipn n q) = n) by (rewrite skipn_length; lia). set (left := skipn n q) in *.
  assert (Fl : Forall (ok w1) left) by (apply rest_Forall; exact Fq).
  assert (Hh : ep_half (List.length left) = ep_half n) by (rewrite Ll; reflexivity). rewrite Ll. clear Hh.
  assert (Hh : ep_half n <= n) by (apply share_nat; [apply unit_half|exact Hz]).
  eapply g_qbind; [eapply gq_qt; [exact HP|noc|]; apply q_choice_noreplace; rewrite seq_length; exact Hh|]. intros ids (Li & rest & Hp).
  assert (Hi : forall i, In i ids -> i < n).
  { intros i Hi. assert (T : In i (seq 0 n)) by (eapply Permutation_in; [exact Hp|apply in_or_app; auto]). apply in_seq in T. lia. }
  eapply g_mono with (a := ep_half n + 0) (b := ep_half n + 0); [|lia|lia|intros w2 y _ T; exact T].
  eapply g_bind with (Φ := fun w' l => List.length l = ep_half n /\ Forall (ok w') l).
  { rewrite <- Li. eapply g_made_agents; [exact HP|noc|]. intros w' k Hw Hk.
    assert (Fl' : Forall (ok w') left) by (eapply oks_mono; [exact HP|exact Hw|exact Fl]).
    destruct (getitem_lt ids k Hk) as (i & Ei & _ & Ii).
    eapply gq_bind with (Φ := eq i); [eapply gq_lift; [exact HP|noc|]; eauto|]. intros ? <-.
    eapply gq_bind; [eapply gq_getitem; [exact HP|noc|rewrite Ll; apply Hi; exact Ii|exact Fl']|]. intros old Hold.
    eapply gq_bind with (Φ := fun _ => True); [gquiet HP|]. intros x _.
    eapply gq_bind; [eapply gq_propose; [exact HP|noc|qcorrect HP|apply gea_quiet; exact HG]|]. intros a [Ha _]. apply gq_ret. split; [exact Ha|intros; exact I]. }
  intros back w2 Hw2 [Lb Fb]. apply g_quiet.
  assert (F1 : Forall (ok w2) (firstn n q ++ back)).
  { apply Forall_app. split; [|exact Fb]. apply first_Forall. eapply oks_mono; [exact HP|exact Hw2|exact Fq]. }
  eapply gq_bind; [eapply gq_trimmed; [exact HP|noc|exact F1]|]. intros r [Lr Fr].
  eapply gq_set_pop; [noc| |exact Fr]. rewrite Lr, app_length, firstn_length. lia.
Qed.
End EP.
Theorem C65_OriginalEP E P md bout n epochs : 5 <= n -> 0 < epochs ->
  sound_run E P md (original_ep E P md bout n epochs) (fun _ => True) false n n.
Proof. intros Hn He. apply gen_plain. att_free (fun _ : unit => True). apply g_ep_evolve; [exact HP|lia]. Qed.
Theorem C65_LevyEP E P md bout n epochs : 5 <= n -> (Z.of_nat n <= 2 ^ 31)%Z -> 0 < epochs ->
  sound_run E P md (levy_ep E P md bout n epochs) (fun _ => True) false (n + ep_half n) (n + ep_half n).
Proof. intros Hn Hz He. apply gen_plain. att_free (fun _ : unit => True). apply g_levy_ep; [exact HP|lia|exact Hz]. Qed.

(** ** ES *)
Section ES.
Context {X : Type}.
Variables (E : env) (P : problem) (md : mode) (feas : vec -> Prop) (IX : list vec -> X -> Prop) (cov : Prop) (nd n0 n : nat).
Notation A := vec.
Variable s0 : st A X.
Hypothesis HP : params E P feas (@anyatt A) cov.
Hypothesis Hn : 0 < n.
Notation R := (R P feas (@anyatt A) (eq n) IX cov nd n0 n s0).
(** The best of the agents at hand and the population, in any order of the two. *)
Lemma wp_trim_all W V l s all (Q : unit -> st A X -> Prop) : R (W ++ V) l s -> incl V all -> incl (s_pop s) all -> incl all (s_pop s ++ V) -> n <= List.length all ->
  (forall s', R W l s' -> Q tt s') ->
  wp (q <- lift (get_sorted_and_trimmed_population (e_argsort E) all n (p_mm P)) ;; set_pop q) Q s.
Proof.
  intros HR H1 H2 H3 Ha HQ.
  assert (G : Forall (good P feas (@anyatt A) (s_log s)) all).
  { pose proof (R_pop_all _ _ _ _ _ _ _ _ _ _ _ _ _ HR) as Gp. pose proof (R_held_good _ _ _ _ _ _ _ _ _ _ _ _ _ _ HR) as GV.
    eapply incl_Forall; [exact H3|]. apply Forall_app; split; assumption. }
  destruct (trimmed_cov E P feas (@anyatt A) cov HP (s_log s) all n G ltac:(lia)) as (q & Eq & Lq & Gq & Cq).
  apply wp_bind. eapply wp_lift; [exact Eq|]. unfold wp, set_pop. apply HQ.
  eapply R_set_cov; [exact HP|exact HR|exact Lq|exact Gq| |].
  - intros c a Hin. apply (Cq c), H2, Hin.
  - intros c a Hin. apply (Cq c), H1, Hin.
Qed.
End ES.
Section ES2.
Variables (E : env) (P : problem) (md : mode) (feas : vec -> Prop) (IX : list vec -> unit -> Prop) (cov : Prop) (nd n0 n : nat).
Notation A := vec.
Variable s0 : st A unit.
Hypothesis HP : params E P feas (@anyatt A) cov.
Hypothesis Hn : 0 < n.
Notation qt := (qt P feas (@anyatt A) (eq n) IX cov nd n0 n s0).
Notation blk := (blk P feas (@anyatt A) (eq n) IX cov nd n0 n s0).
Lemma es_gea_ok : gea_ok (X := unit) feas (@anyatt A) (es_gea E P).
Proof. apply gea_with_ok; [apply HP|intros; draws; auto]. Qed.
Lemma q_es_child i : i < n -> qt (es_child E P i) (fresh_agent feas (@anyatt A)).
Proof.
  intros Hi. pose proof es_gea_ok as HG. unfold es_child. eapply q_bind; [apply q_pop_seen; exact Hi|]. intros old _.
  eapply q_bind with (Φ := fun _ => True); [quiet HP|]. intros x _.
  eapply q_bind; [eapply q_propose; [qcorrect HP|apply gea_quiet; exact HG]|]. intros a [Ha _].
  eapply q_bind with (Φ := fun _ => True); [quiet HP|]. intros v _. apply q_ret. split; [exact Ha|intros; exact I].
Qed.
Lemma q_es_levy i : i < n -> qt (es_levy_child E P i) (fresh_agent feas (@anyatt A)).
Proof.
  intros Hi. pose proof es_gea_ok as HG. unfold es_levy_child. eapply q_bind; [apply q_pop_seen; exact Hi|]. intros old _.
  eapply q_bind with (Φ := fun _ => True); [quiet HP|]. intros x _.
  eapply q_bind; [eapply q_propose; [qcorrect HP|apply gea_quiet; exact HG]|]. intros a [Ha _].
  eapply q_bind with (Φ := fun _ => True); [quiet HP|]. intros v _. apply q_ret. split; [exact Ha|intros; exact I].
Qed.
Lemma b_es k ep : k <= n -> blk k k (es_evolve E P md k n ep) (fun _ => True).
Proof.
  intros Hk W l s HR. unfold es_evolve. apply wp_bind.
  eapply wp_made_agents; [exact HP|exact HR|intros i Hi; apply q_es_child; lia|]. intros new s1 L1 _ R1 E1.
  apply wp_bind, wp_get_pop. pose proof R1 as (_ & Lp & _). eapply wp_trim_all; [exact HP|exact Hn|exact R1|..].
  - apply incl_appl, incl_refl.
  - apply incl_appr, incl_refl.
  - intros a Ha. apply in_app_or in Ha. apply in_or_app. tauto.
  - rewrite app_length. lia.
  - intros s2 R2. split; [exact I|]. exists k. split; [lia|exact R2].
Qed.
Lemma b_levy_es k ep : k <= n -> blk (k + k) (k + k) (levy_es_evolve E P md k n ep) (fun _ => True).
Proof.
  intros Hk W l s HR. unfold levy_es_evolve. apply wp_bind.
  eapply wp_made_agents; [exact HP|exact HR|intros i Hi; apply q_es_child; lia|]. intros new s1 L1 _ R1 E1. apply wp_bind.
  eapply wp_made_agents; [exact HP|exact R1|intros i Hi; apply q_es_levy; lia|]. intros new2 s2 L2 _ R2 E2. rewrite <- app_assoc in R2.
  apply wp_bind, wp_get_pop. pose proof R2 as (_ & Lp & _). eapply wp_trim_all; [exact HP|exact Hn|exact R2|..].
  - intros a Ha. apply in_app_or in Ha. rewrite !in_app_iff. tauto.
  - intros a Ha. rewrite !in_app_iff. tauto.
  - intros a Ha. rewrite !in_app_iff in *. tauto.
  - rewrite !app_length. lia.
  - intros s3 R3. split; [exact I|]. exists (k + k). split; [lia|]. replace (l + (k + k)) with (l + k + k) by lia. exact R3.
Qed.
End ES2.
Theorem C64_OriginalES E P md lamda n epochs : 5 <= n -> (Z.of_nat n <= 2 ^ 31)%Z -> unit_num lamda -> 0 < epochs ->
  sound_run E P md (original_es E P md lamda n epochs) (fun _ => True) true (es_children lamda n) (es_children lamda n).
Proof.
  intros Hn Hz Hl He. assert (Hk : es_children lamda n <= n) by (apply share_nat; assumption). unfold original_es.
  set (k := es_children lamda n) in *. clearbody k. apply gen_plain. att_elite (fun _ : unit => True). apply b0_blk, b_es; [exact HP|lia|exact Hk].
Qed.
Theorem C64_LevyES E P md lamda n epochs : 5 <= n -> (Z.of_nat n <= 2 ^ 31)%Z -> unit_num lamda -> 0 < epochs ->
  sound_run E P md (levy_es E P md lamda n epochs) (fun _ => True) true (es_children lamda n + es_children lamda n) (es_children lamda n + es_children lamda n).
Proof.
  intros Hn Hz Hl He. assert (Hk : es_children lamda n <= n) by (apply share_nat; assumption). unfold levy_es.
  set (k := es_children lamda n) in *. clearbody k. apply gen_plain. att_elite (fun _ : unit => True). apply b0_blk, b_levy_es; [exact HP|lia|exact Hk].
Qed.
(** The default lamda = 0.75 with eight agents makes six children. *)
Example C64_ES_default : unit_num (dec 75 100) /\ es_children (dec 75 100) 8 = 6.
Proof. split; [split; vm_compute; reflexivity|vm_compute; reflexivity]. Qed.

(** ** CMA_ES *)
Section CMA.
Variables (E : env) (P : problem) (md : mode) (feas : vec -> Prop) (IX : list vec -> cma -> Prop) (cov : Prop) (nd n0 n : nat).
Notation A := vec.
Variable s0 : st A cma.
Hypothesis HP : params E P feas (@anyatt A) cov.
Hypothesis Hn : 0 < n.
Hypothesis HX : forall L x, IX L x.
Notation qt := (qt P feas (@anyatt A) (eq n) IX cov nd n0 n s0).
Notation blk0 := (blk0 P feas (@anyatt A) (eq n) IX cov nd n0 n s0).
Notation la := (fun name reads => orelse (linalg (A := vec) (X := cma) E name reads) (ret tt)).
Lemma q_la name reads : qt (la name reads) (fun _ => True).
Proof.
  apply q_orelse; [|apply q_ret; exact I]. unfold linalg. eapply qp_qbind; [quiet HP|]. intros [] _; [apply qp_raise|apply qp_qt, q_ret; exact I].
Qed.
Lemma cma_gea_ok : gea_ok (X := cma) feas (@anyatt A) (cma_gea E P).
Proof. apply gea_with_ok; [apply HP|intros; draws; auto]. Qed.
Lemma restep L (sp : list (agent A)) (vs : list vec) : List.length vs = List.length sp -> Forall (good P feas (@anyatt A) L) sp ->
  let q := map (fun p => with_att (fst p) (snd p)) (combine sp vs) in
  List.length q = List.length sp /\ Forall (good P feas (@anyatt A) L) q /\ covers P cov q sp.
Proof.
  intros Lv G. assert (Lq : List.length (map (fun p => with_att (fst p) (snd p)) (combine sp vs)) = List.length sp) by (rewrite map_length, combine_length; lia).
  split; [exact Lq|]. split.
  - rewrite Forall_map. apply Forall_forall. intros [a v] Hin. apply in_combine_l in Hin. rewrite Forall_forall in G. destruct (G a Hin). constructor; auto; exact I.
  - intros c a Ha. destruct (In_nth_error _ _ Ha) as (i & Ei). assert (Hi : i < List.length vs) by (rewrite Lv; apply nth_error_Some; congruence).
    destruct (nth_error vs i) as [v|] eqn:Ev; [|apply nth_error_None in Ev; lia].
    exists (with_att a v). split.
    + apply in_map_iff. exists (a, v). split; [reflexivity|]. clear - Ei Ev. revert sp vs Ei Ev. induction i as [|i IH]; intros [|b sp] [|u vs] Ei Ev; try discriminate; cbn in *.
      * injection Ei as ->. injection Ev as ->. left; reflexivity.
      * right. eapply IH; eauto.
    + change (fit (with_att a v)) with (fit a). apply no_worse_refl; [apply HP|]. rewrite Forall_forall in G. eapply num_good; [exact HP|exact c|apply G; exact Ha].
Qed.
Lemma b_cma ep : blk0 n n (cma_phases E P md la n ep) (fun _ => True).
Proof.
  intros W l s HR HO. unfold cma_phases. pose proof cma_gea_ok as HG. apply wp_bind.
  eapply wp_made_agents; [exact HP|exact HR| |].
  { intros i Hi. eapply q_bind; [apply q_pop_seen; exact Hi|]. intros old _. eapply q_bind; [apply q_get_x|]. intros x _.
    eapply q_bind with (Φ := fun _ => True); [quiet HP|]. intros y _. eapply q_propose; [qcorrect HP|apply gea_quiet; exact HG]. }
  intros new s1 L1 G1 R1 E1. destruct (sorted_cov E P feas (@anyatt A) cov HP _ new G1) as (sp & ix & Es & Hp & Gs).
  apply wp_bind. eapply wp_lift; [exact Es|]. cbv beta iota.
  assert (Q1 : qt get_x (fun _ => True)) by (eapply q_mono; [apply q_get_x|auto]).
  apply wp_bind. eapply wp_mono; [exact (Q1 _ _ _ R1)|]. intros x s2 [_ N2].
  assert (R2 : R P feas (@anyatt A) (eq n) IX cov nd n0 n s0 (W ++ new) (l + n) s2) by (eapply R_near; [exact R1|exact N2]).
  assert (Q2 : qt (collect n (fun _ => la "ES:276"%string [c_cov x] ;;; rform E P "ES:276" [c_cov x])) (fun r => List.length r = n /\ Forall (fun _ => True) r)).
  { apply q_collect. intros i Hi. eapply q_bind; [apply q_la|]. intros _ _. eapply q_mono with (Φ := fun _ => True); [quiet HP|auto]. }
  apply wp_bind. eapply wp_mono; [exact (Q2 _ _ _ R2)|]. intros vs s3 [[Lv _] N3].
  assert (R3 : R P feas (@anyatt A) (eq n) IX cov nd n0 n s0 (W ++ new) (l + n) s3) by (eapply R_near; [exact R2|exact N3]).
  assert (E3 : s_pop s3 = s_pop s) by (rewrite (near_pop _ _ _ N3), (near_pop _ _ _ N2); exact E1).
  pose proof (Permutation_length Hp) as Lp. 
  assert (G3 : Forall (good P feas (@anyatt A) (s_log s3)) sp).
  { eapply perm_Forall; [apply Permutation_sym; exact Hp|]. eapply R_held_good. exact R3. }
  destruct (restep _ sp vs ltac:(lia) G3) as (Lq & Gq & Cq). set (q := map _ _) in *. clearbody q. cbv zeta.
  apply wp_bind. unfold wp at 1, set_pop.
  assert (R4 : R P feas (@anyatt A) (eq n) IX cov nd n0 n s0 W (l + n) (with_pop s3 q)).
  { eapply R_replace_cov; [exact HP|exact R3|unfold Old; rewrite E3; exact HO|lia|exact Gq|].
    intros c a Ha. apply (Cq c). eapply Permutation_in; [apply Permutation_sym; exact Hp|exact Ha]. }
  match goal with |- wp ?m _ _ => assert (Q4 : qt m (fun _ => True)) end.
  { eapply q_bind with (Φ := fun _ => True); [quiet HP|]. intros st _. eapply q_bind with (Φ := fun _ => True); [quiet HP|]. intros mean _.
    eapply q_bind; [apply q_la|]. intros _ _. do 4 (eapply q_bind with (Φ := fun _ => True); [quiet HP|]; intros ? _).
    eapply q_bind; [apply q_la|]. intros _ _. eapply q_bind with (Φ := fun _ => True); [quiet HP|]. intros cv _. apply q_set_x. apply HX. }
  eapply wp_mono; [exact (Q4 _ _ _ R4)|]. intros [] s5 [_ N5]. split; [exact I|]. exists n. split; [lia|]. eapply R_near; [exact R4|exact N5].
Qed.
End CMA.
(** The runs that return: no matrix at which NumPy's linear algebra fails. *)
Theorem C64_CMA_ES_returning E P md n epochs : 5 <= n -> 0 < epochs ->
  sound_when E P md (cma_es E P md n epochs) (fun _ => True) (fun _ => True) (fun _ => True) (eq n) true n n n n.
Proof.
  intros Hn He. pose (la := fun name reads => orelse (linalg (A := vec) (X := cma) E name reads) (ret tt)).
  eapply (returns_of _ _ _ _ (cma_phases E P md la n)).
  - intros ep. cbn [al_evolve cma_es agent_algo]. unfold cma_phases, la. refi.
  - change (with_evolve _ _) with (agent_algo E md (cma_gea E P) (ga_of P (cma_gea E P)) n epochs true (ret tt) (cma_start E P n) (cma_phases E P md la n)).
    eapply (att_elite _ _ _ _ _ _ _ _ _ _ _ _ (fun _ _ _ => True) (fun _ _ _ => True)); [lia|lia|..].
    + intros feas Hpr. apply gea_with_ok; [exact Hpr|intros; draws; trivial].
    + intros feas Hpr. apply vars_none; auto.
    + intros feas nd n0 s HP HH HI. unfold cma_start. eapply main_set with (Φ := fun _ => True); [exact HP|exact HI| |].
      * intros s0. eapply q_bind; [apply q_get_pop|]. intros p _. do 2 (eapply q_bind with (Φ := fun _ => True); [quiet HP|]; intros ? _). apply q_ret; exact I.
      * intros x _. exists []. split; [intros ? []|exact I].
    + intros feas nd n0 ep s0 HP HH Hg Hep. apply b_cma; [exact HP|lia|auto].
Qed.
Theorem C64_Simple_CMA_ES_returning E P md n epochs : 5 <= n -> 0 < epochs ->
  sound_when E P md (simple_cma_es E P md n epochs) (fun _ => True) (fun _ => True) (fun _ => True) (eq n) true n n n n.
Proof.
  intros Hn He. pose (la := fun name reads => orelse (linalg (A := unit) (X := unit) E name reads) (ret tt)).
  eapply (returns_of _ _ _ _ (simple_cma_phases E P md la n)).
  - intros ep. cbn [al_evolve simple_cma_es plain_algo]. unfold simple_cma_phases, la. refi.
  - change (with_evolve _ _) with (plain_algo (X := unit) E P md tt n epochs false (simple_cma_phases E P md la n)).
    state_elite (fun _ : unit => True). unfold simple_cma_phases.
    assert (Q : forall name reads, qt P feas (@anyatt unit) (eq n) (fun _ _ => True) (true = true /\ obj_num P feas) nd n0 n s0 (la name reads) (fun _ => True)).
    { intros name reads. apply q_orelse; [|apply q_ret; exact I]. unfold linalg. eapply qp_qbind; [quiet HP|]. intros [] _; [apply qp_raise|apply qp_qt, q_ret; exact I]. }
    apply b0_blk. eapply b_qbind; [apply q_get_pop|]. cbv beta. intros p [Lp Fp].
    eapply b_qbind with (Φ := fun _ => True); [quiet HP|]. intros [sp ix] _. cbv zeta. eapply b_qbind; [apply Q|]. intros _ _.
    eapply b_qbind; [apply q_collect with (Φ := fun _ => True); intros i Hi; eapply q_mono with (Φ := fun _ => True); [quiet HP|auto]|]. intros xs [Lx _].
    eapply b_greedy_each; [exact HP|qcorrect HP|qgea|reflexivity|]. intros i Hi. quiet HP.
Qed.

(** ** MA *)
Lemma kinsert_perm {T} (key : T -> f64) d x l : Permutation (kinsert key d x l) (x :: l).
Proof.
  induction l as [|y l IH]; [apply Permutation_refl|]. cbn [kinsert]. destruct (key_before _ _ _ _); [|apply Permutation_refl].
  eapply Permutation_trans; [apply perm_skip, IH|apply perm_swap].
Qed.
Lemma ksorted_perm {T} (key : T -> f64) d l : Permutation (ksort key d l) l.
Proof. induction l as [|a l IH]; [constructor|]. cbn [ksort fold_right]. eapply Permutation_trans; [apply kinsert_perm|apply perm_skip, IH]. Qed.
Definition bits_ok (tot : nat) (_ : list vec) (b : list bool) : Prop := List.length b = tot.
Section MA.
Variables (E : env) (P : problem) (md : mode) (feas : vec -> Prop) (IX : list vec -> unit -> Prop) (cov : Prop) (nd n0 n bits : nat).
Notation A := (list bool).
Notation tot := (n_dims P * bits).
Variable s0 : st A unit.
Lemma dr_ma_bits k : dr (A := A) (X := unit) (ma_bits E k) (fun r => List.length r = k).
Proof.
  unfold ma_bits, collect. intros s.
  apply wp_for_acc with (I := fun i (b : list bool) s' => List.length b = i /\ exists c, s' = bump s c).
  - split; [reflexivity|apply bump_self].
  - intros i b s' Hi [Lb (c & ->)]. apply wp_bind. eapply wp_mono with (Q := fun _ s' => exists c', s' = bump s c').
    + apply wp_bind. eapply wp_mono; [apply dr_uniform|]. intros u s1 [(c1 & ->) _]. apply wp_ret. exists c1. reflexivity.
    + intros v s1 (c1 & ->). apply wp_ret. split; [rewrite app_length; cbn; lia|exists c1; reflexivity].
  - intros b s' [Lb Hs]. split; [exact Hs|lia].
Qed.
Lemma ma_gea_ok : problem_ok P feas -> gea_ok (X := unit) feas (bits_ok tot) (ma_gea E P bits).
Proof.
  intros Hp s o Ho. unfold ma_gea, gea_with. apply wp_bind. destruct o as [x|]; simpl.
  - apply wp_ret. apply wp_bind. eapply wp_mono; [apply dr_ma_bits|]. intros b s' [[k ->] Lb]. apply wp_ret.
    split; [eexists; reflexivity|]. split; [reflexivity|]. intros; exact Lb.
  - apply wp_bind. unfold wp at 1, tick. apply wp_ret. apply wp_bind. eapply wp_mono; [apply dr_ma_bits|]. intros b s' [[k ->] Lb]. apply wp_ret.
    split; [eexists; reflexivity|]. split; [apply Hp|]. intros; exact Lb.
Qed.
Hypothesis HP : params E P feas (bits_ok tot) cov.
Hypothesis Hn : 5 <= n.
Notation qt := (qt P feas (bits_ok tot) (eq n) IX cov nd n0 n s0).
Notation blk := (blk P feas (bits_ok tot) (eq n) IX cov nd n0 n s0).
Notation R := (R P feas (bits_ok tot) (eq n) IX cov nd n0 n s0).
Lemma q_ma_cross pc a b : List.length a = tot -> List.length b = tot -> qt (ma_cross E pc tot a b) (fun r => List.length r = tot).
Proof.
  intros Ha Hb. unfold ma_cross. eapply q_bind with (Φ := fun _ => True); [quiet HP|]. intros u _. destruct (_ <= _)%F; [apply q_ret; exact Ha|].
  eapply q_mono; [apply q_collect with (Φ := fun _ => True)|intros r [T _]; exact T]. intros i Hi.
  eapply q_bind with (Φ := fun _ => True); [quiet HP|]. intros v _. destruct (v < _)%F; apply q_lift.
  - destruct (getitem_lt a i) as (x & Ex & _); [lia|]. eauto.
  - destruct (getitem_lt b i) as (x & Ex & _); [lia|]. eauto.
Qed.
Lemma q_ma_mutate pc b : qt (ma_mutate E pc b) (fun r => List.length r = List.length b).
Proof.
  unfold ma_mutate. intros W l s HR. 
  assert (T : forall ls acc, qt (for_list ls acc (fun (bit : bool) acc => u <- uniform E ;; ret (acc ++ [if (u < pc)%F then negb bit else bit])%list))
    (fun r => List.length r = List.length acc + List.length ls)).
  { induction ls as [|x ls IH]; intros acc; cbn [for_list].
    - apply q_ret. cbn. lia.
    - eapply q_bind with (Φ := fun r => List.length r = S (List.length acc)).
      + eapply q_bind with (Φ := fun _ => True); [quiet HP|]. intros u _. apply q_ret. rewrite app_length. cbn. lia.
      + intros acc' H. eapply q_mono; [apply IH|]. intros r Hr. cbv beta in *. cbn [List.length]. lia. }
  exact (T b [] W l s HR).
Qed.
Lemma q_ma_agent b : List.length b = tot -> qt (ma_agent E P bits b) (fresh_agent feas (bits_ok tot)).
Proof.
  intros Hb. pose proof (ma_gea_ok (pr_prob _ _ _ _ _ HP)) as HG. unfold ma_agent. eapply q_bind; [eapply q_propose; [qcorrect HP|apply gea_quiet; exact HG]|]. intros a [Ha _].
  apply q_ret. split; [exact Ha|]. intros L _. exact Hb.
Qed.
Lemma q_ma_select : qt (ma_select E P) (fun a => List.length (att a) = tot).
Proof.
  unfold ma_select. eapply q_bind; [apply q_get_pop|]. cbv beta. intros p [Lp Fp].
  eapply q_bind with (Φ := fun ids => exists i, ids = [i] /\ i < n).
  - unfold kway_tournament. cbn [kway_size]. eapply q_bind with (Φ := eq 2); [apply q_lift; eauto|]. intros ? <-.
    eapply q_bind; [apply q_choice_noreplace; rewrite seq_length; lia|]. intros ids (Li & rest & Hp).
    assert (Hi : forall i, In i ids -> i < n).
    { intros i Hi. assert (T : In i (seq 0 (List.length p))) by (eapply Permutation_in; [exact Hp|apply in_or_app; auto]). apply in_seq in T. lia. }
    eapply q_bind with (Φ := fun ps => List.length ps = 2 /\ Forall (fun q => fst q < n) ps).
    { apply q_lift. clear Hp rest. revert Li. generalize 2 as k. induction ids as [|i ids IH]; intros k Li.
      - exists []. split; [reflexivity|]. split; [exact Li|constructor].
      - destruct (IH ltac:(intros; apply Hi; right; assumption) (List.length ids) eq_refl) as (r & Er & Lr & Fr).
        destruct (getitem_lt p i) as (a & Ea & _ & Ia); [rewrite Lp; apply Hi; left; reflexivity|].
        cbn [map_res]. rewrite Ea. cbn [bind]. rewrite Forall_forall in Fp. destruct (Fp a Ia) as [Ta _]. rewrite (fitness_fit a) by (apply wf_has_target, Ta). cbn [bind].
        rewrite Er. cbn [bind]. eexists. split; [reflexivity|]. split; [cbn [List.length] in *; lia|]. constructor; [cbn; apply Hi; left; reflexivity|exact Fr]. }
    intros ps [Ls Fs]. apply q_ret. cbv zeta.
    set (so := match p_mm P with Min => _ | _ => _ end).
    assert (PS : Permutation so ps) by (unfold so; destruct (p_mm P); apply ksorted_perm).
    pose proof (Permutation_length PS) as Lso. pose proof (perm_Forall _ _ _ (Permutation_sym PS) Fs) as Fso.
    destruct so as [|[i f] r]; [cbn in Lso; lia|]. exists i. split; [reflexivity|]. inversion Fso; assumption.
  - intros ids (i & -> & Hi). eapply q_bind with (Φ := eq i); [apply q_lift; eexists; split; reflexivity|]. intros ? <-.
    eapply q_mono; [apply q_pop_seen; exact Hi|]. intros a (_ & _ & L & T). exact T.
Qed.
Lemma b_ma_climb pc gens i : 0 < gens -> i < n -> blk gens gens (ma_climb E P md pc bits gens i) (fun _ => True).
Proof.
  intros Hg Hi W l s HR. unfold ma_climb. pose proof HR as (_ & Lp & _). apply wp_bind. apply wp_pop_at; [lia|]. intros c Ec Ic.
  pose proof (R_pop_all _ _ _ _ _ _ _ _ _ _ _ _ _ HR) as Gp. rewrite Forall_forall in Gp. pose proof (Gp c Ic) as Gc.
  apply wp_bind. eapply wp_made_agents; [exact HP|exact HR| |].
  { intros k Hk. eapply q_bind; [apply q_ma_mutate|]. cbv beta. intros b Hb. apply q_ma_agent. rewrite Hb. apply (g_att _ _ _ _ _ Gc). }
  intros new s1 L1 G1 R1 E1.
  assert (Gc1 : good P feas (bits_ok tot) (s_log s1) c).
  { pose proof (R_pop_all _ _ _ _ _ _ _ _ _ _ _ _ _ R1) as G. rewrite E1, Forall_forall in G. apply G, Ic. }
  assert (Ga : Forall (good P feas (bits_ok tot) (s_log s1)) (new ++ [c])) by (apply Forall_app; split; [exact G1|constructor; [exact Gc1|constructor]]).
  destruct (best_agent_ok E P feas (bits_ok tot) cov HP _ (new ++ [c]) Ga) as (b & j & Eb & Hb & Gb & _ & HB); [destruct new; discriminate|].
  apply wp_bind. eapply wp_lift; [exact Eb|]. cbv beta iota. pose proof R1 as (_ & Lp1 & _).
  apply wp_pop_set; [lia|]. split; [exact I|]. exists gens. split; [lia|].
  assert (Ec1 : nth_error (s_pop s1) i = Some c) by (rewrite E1; exact Ec).
  assert (Hbi : In b (upd (s_pop s1) i b)) by (eapply nth_error_In with (n := i); apply upd_nth_eq; lia).
  eapply R_set_cov; [exact HP|exact R1|rewrite upd_length; exact Lp1| | |].
  - apply upd_Forall; [apply (R_pop_all _ _ _ _ _ _ _ _ _ _ _ _ _ R1)|exact Gb].
  - intros C a Ha.
    destruct (upd_covers E P feas (bits_ok tot) cov HP (s_log s1) (s_pop s1) i c c b (R_pop_all _ _ _ _ _ _ _ _ _ _ _ _ _ R1) Ec1) with (a := a) as (x & Hx & Nx).
    + intros _. split; apply (HB C); apply in_or_app; right; left; reflexivity.
    + exact C.
    + apply in_or_app; auto.
    + exists x. auto.
  - intros C a Ha. exists b. split; [exact Hbi|]. apply (HB C). apply in_or_app; auto.
Qed.
Lemma even_S_lt i : Nat.even n = true -> Nat.even i = true -> i < n -> S i < n.
Proof. intros H1 H2 H3. apply Nat.even_spec in H1, H2. destruct H1 as [a ->], H2 as [b ->]. lia. Qed.
Lemma q_ma_other (l : list (agent A)) i : Nat.even n = true -> List.length l = n -> Forall (fun a => List.length (att a) = tot) l -> i < n ->
  qt (ma_other l n i) (fun a => List.length (att a) = tot).
Proof.
  intros He Ll Fl Hi. unfold ma_other. rewrite Forall_forall in Fl.
  assert (Hj : (if Nat.even i then S i else i - 1) < n) by (destruct (Nat.even i) eqn:Ei; [apply even_S_lt; auto|lia]).
  eapply q_bind with (Φ := fun a => List.length (att a) = tot).
  - destruct (getitem_lt l _ (eq_ind_r (fun k => _ < k) Hj Ll)) as (a & Ea & _ & Ia). apply q_lift. exists a. split; [exact Ea|auto].
  - intros a Ha. destruct (_ =? _); [|apply q_ret; exact Ha].
    destruct (getitem_lt l 0) as (b & Eb & _ & Ib); [lia|]. apply q_lift. exists b. split; [exact Eb|auto].
Qed.
Lemma b_ma pc p_local gens ep : Nat.even n = true -> 0 < gens ->
  blk0 P feas (bits_ok tot) (eq n) IX cov nd n0 n s0 n (n + n * gens) (ma_evolve E P md pc p_local bits gens n ep) (fun _ => True).
Proof.
  intros He Hg. unfold ma_evolve. eapply b0_qbind; [apply q_collect; intros; apply q_ma_select|]. cbv beta. intros ch [Lc Fc].
  eapply b0_mono with (a := n + n * 0) (b := n + n * gens); [|lia|lia|intros y T; exact T].
  eapply b0_bind.
  - eapply b_replace_made; [exact HP|reflexivity|]. intros i Hi. rewrite Forall_forall in Fc.
    eapply q_bind with (Φ := fun a => List.length (att a) = tot).
    { destruct (getitem_lt ch i) as (a & Ea & _ & Ia); [lia|]. apply q_lift. exists a. split; [exact Ea|auto]. }
    intros dad Hd. eapply q_bind; [apply q_ma_other; auto; rewrite Forall_forall; exact Fc|]. cbv beta. intros mom Hm.
    eapply q_bind; [apply q_ma_cross; auto|]. cbv beta. intros b Hb. eapply q_bind; [apply q_ma_mutate|]. cbv beta. intros b' Hb'.
    apply q_ma_agent. lia.
  - intros _ _. eapply b_for. intros i Hi. eapply b_qbind; [quiet HP|]. intros u _. eapply b_whenm. intros _. apply b_ma_climb; auto.
Qed.
End MA.
Theorem C64_OriginalMA E P md pc p_local bits gens n epochs : 5 <= n -> Nat.even n = true -> 0 < gens -> 0 < epochs ->
  sound_run E P md (original_ma E P md pc p_local bits gens n epochs) (fun _ => True) true n (n + n * gens).
Proof.
  intros Hn Hv Hg He. apply gen_plain.
  apply (sound_agents_st E P md (ma_gea E P bits) (ga_of P (ma_gea E P bits)) n epochs true (ret tt) (ret tt) (ma_evolve E P md pc p_local bits gens n) (fun _ => True) (fun _ => True)
           (fun _ => True) (fun _ => bits_ok (n_dims P * bits)) (fun _ _ _ => True) (fun _ _ _ => True)); try lia.
  - intros feas L L' a _ T; exact T.
  - intros feas rows Hav Hst Hp. apply ma_gea_ok, Hp.
  - intros feas Hp. apply ga_of_ok, ma_gea_ok, Hp.
  - intros feas Hp. apply vars_none; auto.
  - intros feas nd n0 s HP HH HI. eapply main_none; exact HI.
  - intros feas nd n0 HP HH. eapply contract_of; [exact HP|]. intros ep s0 Hep _. apply b_ma; auto.
Qed.

(** ** evolutionary_based/SHADE.py *)
Notation shade_len n x := (List.length (h_f x) = n /\ List.length (h_cr x) = n /\ List.length (h_crn x) = n /\ List.length (h_fn x) = n).
Lemma shade_when E P md top counted limit resize miu_f miu_cr n epochs : 5 <= n -> 0 < n_dims P -> 0 < epochs ->
  (forall feas IX cov nd n0 s0 so, params E P feas (@anyatt unit) cov -> qp P feas (@anyatt unit) (eq n) IX cov nd n0 n s0 (top so n) (fun _ => True)) ->
  sound_when E P md (vars_algo E P md tt n epochs false (shade_vars miu_f miu_cr n) (shade_phases E P md top shade_store counted limit resize n))
    (fun _ => True) (fun _ => True) (fun _ => True) (eq n) true n n n n.
Proof.
  intros Hn Hd He Hq. pose (top' := fun so m => orelse (top so m) (ret (mkAgent [] None tt))). pose (st' := fun l k v => orelse (shade_store l k v) (ret (upd l k v))).
  eapply (returns_of _ _ _ _ (shade_phases E P md top' st' counted limit resize n)).
  - intros ep. cbn [al_evolve vars_algo]. unfold shade_phases, top', st'. refi.
  - change (with_evolve _ _) with (vars_algo E P md tt n epochs false (shade_vars miu_f miu_cr n) (shade_phases E P md top' st' counted limit resize n)).
    state_elite (fun x : shade => shade_len n x).
    + simpl; rewrite !repeat_length; auto.
    + assert (HT : forall so, qt P feas (@anyatt unit) (eq n) (fun _ x => shade_len n x) (true = true /\ obj_num P feas) nd n0 n s0 (orelse (top so n) (ret (mkAgent [] None tt))) (fun _ => True)).
      { intros so. apply q_orelse; [apply Hq; exact HP|apply q_ret; exact I]. }
      assert (HS : forall (l : vec) k v, List.length l = n -> qt P feas (@anyatt unit) (eq n) (fun _ x => shade_len n x) (true = true /\ obj_num P feas) nd n0 n s0
        (orelse (shade_store l k v) (ret (upd l k v))) (fun r => List.length r = n)).
      { intros l k v Hl. apply q_orelse; [|apply q_ret; rewrite upd_length; exact Hl]. apply qp_lift. intros y Hy. unfold setitem in Hy.
        destruct (_ <? _); [|discriminate]. injection Hy as <-. rewrite upd_length; exact Hl. }
      unfold shade_phases, top', st'. clear Hq. counts HP.
Qed.
Lemma qp_shade_top E P feas IX cov nd n0 n s0 so : params E P feas (@anyatt unit) cov ->
  qp P feas (@anyatt unit) (eq n) IX cov nd n0 n s0 (shade_top E so n) (fun _ => True).
Proof.
  intros HP. unfold shade_top. eapply qp_qbind; [solve [quiet HP]|]. intros c _. eapply qp_bind with (Φ := fun _ => True).
  - apply qp_if; intros _; [apply qp_raise|apply qp_qt, q_ret; exact I].
  - intros _ _. eapply qp_qbind with (Φ := fun _ => True); [solve [quiet HP]|]. intros p _.
    eapply qp_bind with (Φ := fun _ => True); [|intros; apply qp_lift; intros; exact I].
    destruct (Nat.ltb_spec 0 (Z.to_nat (ftrunc (fmul (fnat n) p)))).
    + apply qp_qt. eapply q_mono; [apply q_integers; assumption|]. intros; exact I.
    + intros W l s y s' HR Em. exfalso. replace (Z.to_nat _) with 0 in Em by lia. unfold integers in Em. cbn in Em. discriminate Em.
Qed.
Lemma qp_lshade_top E P feas IX cov nd n0 n s0 so : params E P feas (@anyatt unit) cov ->
  qp P feas (@anyatt unit) (eq n) IX cov nd n0 n s0 (lshade_top E so n) (fun _ => True).
Proof.
  intros HP. unfold lshade_top. eapply qp_qbind; [apply q_get_x|]. intros x _.
  eapply qp_qbind with (Φ := fun _ => True); [solve [quiet HP]|]. intros p _.
  eapply qp_bind with (Φ := fun _ => True); [|intros; apply qp_lift; intros; exact I].
  set (k := Z.to_nat _). clearbody k. destruct (Nat.ltb_spec 0 k).
  - apply qp_qt. eapply q_mono; [apply q_integers; assumption|]. intros; exact I.
  - intros W l s y s' HR Em. exfalso. replace k with 0 in Em by lia. unfold integers in Em. cbn in Em. discriminate Em.
Qed.
Theorem C64_OriginalSHADE_returning E P md miu_f miu_cr n epochs : 5 <= n -> 0 < n_dims P -> 0 < epochs ->
  sound_when E P md (original_shade E P md miu_f miu_cr n epochs) (fun _ => True) (fun _ => True) (fun _ => True) (eq n) true n n n n.
Proof. intros. apply shade_when; auto. intros. apply qp_shade_top; assumption. Qed.
Theorem C64_L_SHADE_returning E P md miu_f miu_cr n epochs : 5 <= n -> 0 < n_dims P -> 0 < epochs ->
  sound_when E P md (l_shade E P md miu_f miu_cr n epochs) (fun _ => True) (fun _ => True) (fun _ => True) (eq n) true n n n n.
Proof. intros. apply shade_when; auto. intros. apply qp_lshade_top; assumption. Qed.

Print Assumptions C65_OriginalEP.
Print Assumptions C65_LevyEP.
Print Assumptions C64_OriginalES.
Print Assumptions C64_LevyES.
Print Assumptions C64_CMA_ES_returning.
Print Assumptions C64_Simple_CMA_ES_returning.
Print Assumptions C64_OriginalMA.
Print Assumptions C64_OriginalSHADE_returning.
Print Assumptions C64_L_SHADE_returning.
