(** Theorems about the classes of MClass14. *)
From Coq Require Import Permutation String.
From Verif Require Import Prelude Fl FlArith FlInt FlRound MCore MHelp MAlg MAlg2 MAlg3 MAlg4 MAlg5 MAlg6 MAlg7 SpecCore SpecRun PSpace PSelect PLogic PSolve PRun PPart Demo PropHelp SpecAlg SpecWhen PAlg PFree PClass PAlg2 PAlg3 PAlg4 PAlg5 PAlg6 PAlg7 PAlg8 PAlg9 PRef PFail PElse PAlg10 PAlg11 MClass12 MClass14.

(** A batch that is accepted one by one, in the logic of steps that may lose the best agent. *)
Lemma g_accept_batch {A X} E P md feas attok IL (IX : list vec -> X -> Prop) C nd n0 n (s0 : st A X) (HP : params E P feas attok (false = true /\ C))
  w m (cand : nat -> M A X (agent A)) after : m <= n ->
  (forall w' i, incl w w' -> i < m -> gq P feas attok IL IX (false = true /\ C) nd n0 n s0 w' (cand i) (pend feas attok w')) ->
  (forall w' i old a c, incl w w' -> i < m -> ok P feas attok w' old -> ok P feas attok w' a ->
     gq P feas attok IL IX (false = true /\ C) nd n0 n s0 w' (after i old a c) (fun _ => True)) ->
  gt P feas attok IL IX (false = true /\ C) nd n0 n s0 w m m (accept_batch P md m cand after) (fun _ _ => True).
Proof.
  intros Hm Hc Ha. unfold accept_batch. eapply g_mono with (a := m + 0) (b := m + 0); [|lia|lia|auto].
  eapply g_bind; [eapply g_made_agents; [exact HP|noc|exact Hc]|]. cbv beta. intros l w1 Hi [Ll Fl].
  apply g_quiet. unfold accept_each. apply gq_for. intros k Hk. rewrite Ll in Hk.
  eapply gq_bind; [eapply gq_getitem; [exact HP|noc|lia|exact Fl]|]. intros a Ga.
  eapply gq_bind; [eapply gq_pop_at; lia|]. intros old Go. eapply gq_bind; [eapply gq_compare; [exact HP|noc|exact Ga|exact Go]|]. intros c _.
  eapply gq_bind with (Φ := fun _ => True); [apply gq_when; intros _; eapply gq_pop_set; [exact HP|noc|lia|exact Ga]|]. intros _ _. apply Ha; auto.
Qed.
(** Replaced statements are described by hypotheses. *)
Ltac qelse := match goal with H : context [orelse] |- _ => solve [apply H; first [assumption|lia|solve [auto]]] end.
Ltac qmore HP m ::= lazymatch m with
  | propose _ _ _ => eapply q_propose; bprem HP
  | raw _ _ => eapply q_raw; bprem HP
  | get_nfe => eapply q_get_nfe
  | extreme_fits _ _ => eapply q_extreme_fits; [exact HP|lia]
  | rank_at _ _ _ => eapply q_rank_at; bprem HP
  | orelse _ _ => qelse
  end.
(** ** SRSR *)
Lemma ref_accept_batch {A X} P md n (cand cand' : nat -> M A X (agent A)) after after' :
  (forall i, refines (cand i) (cand' i)) -> (forall i a b c, refines (after i a b c) (after' i a b c)) ->
  refines (accept_batch P md n cand after) (accept_batch P md n cand' after').
Proof. intros H1 H2. unfold accept_batch, made_agents, accept_each. refi; auto. Qed.
Lemma srsr_ga_ok P (feas : vec -> Prop) : problem_ok P feas -> ga_ok P feas (@anyatt _) (srsr_ga P).
Proof.
  intros Hp s o Ho. unfold srsr_ga. apply wp_bind.
  eapply wp_mono; [apply (gea_with_ok P feas (fun _ => ret None)); [exact Hp|intros; draws; exact I|exact Ho]|].
  intros a s' ((k & ->) & Ha & _). apply wp_bind, wp_get_target, wp_ret. simpl. split; [exists k; reflexivity|].
  split; [exact Ha|]. split; [reflexivity|]. intros L _. exact I.
Qed.
Lemma ok_any {A} P feas w (a : agent A) b : ok P feas (@anyatt A) w a -> ok P feas (@anyatt A) w (mkAgent (sol a) (tgt a) b).
Proof. intros [G1 G2 G3 G4]. constructor; simpl; auto. Qed.
Theorem C65_OriginalSRSR_returning E P md n epochs : 5 <= n -> 0 < epochs ->
  sound_when E P md (original_srsr E P md n epochs) (fun _ => True) (fun _ => True) (fun _ => True) (eq n) false n n (2 * n + 5) (2 * n + 5).
Proof.
  intros Hn He. pose (sc := fun r => orelse (srsr_scale E r) (ret tt)). pose (d := mkTarget [] None (fZ 0)). pose (rd := fun o => orelse (srsr_new o) (ret d)).
  eapply (returns_of _ _ _ _ (srsr_phases E P md sc rd n)).
  - intros ep. cbn [al_evolve original_srsr agent_algo]. unfold srsr_phases, sc, rd. refi; try (apply ref_accept_batch; intros; unfold srsr_after; refi).
  - change (with_evolve _ _) with (agent_algo E md (srsr_gea P) (srsr_ga P) n epochs true (srsr_vars n) (ret tt) (srsr_phases E P md sc rd n)).
    apply (sound_agents_st E P md (srsr_gea P) (srsr_ga P) n epochs true (srsr_vars n) (ret tt) (srsr_phases E P md sc rd n) (fun _ => True) (fun _ => True)
           (fun _ => True) (fun _ => @anyatt _) (fun _ _ _ => True) (fun _ _ _ => True)); try lia.
    + intros feas L L' a _ T; exact T.
    + intros feas rows Hav Hst Hpr. apply gea_with_ok; [exact Hpr|intros; draws; trivial].
    + intros feas Hp. apply srsr_ga_ok, Hp.
    + intros feas Hp. apply vars_set; draws; cbv beta. exact I.
    + intros feas nd n0 s HP HH HI. eapply main_none; exact HI.
    + intros feas nd n0 HP HH. apply contract_free. intros ep s0 w Hep _.
      pose proof (@ok_any (option target) P feas) as HO. unfold srsr_phases, srsr_after, srsr_worker, srsr_copy, sc, rd. set (h := n - 1).
      eapply g_mono with (a := n + (n + (5 + 0))) (b := n + (n + (5 + 0))); [|lia|lia|auto].
      assert (Q1 : forall r, qt P feas (@anyatt _) (eq n) (fun _ _ => True) (false = true /\ obj_num P feas) nd n0 n s0 (orelse (srsr_scale E r) (ret tt)) (fun _ => True)).
      { intros r. apply q_orelse; [|quiet HP]. unfold srsr_scale. eapply qp_qbind; [quiet HP|]. intros [] _; [apply qp_raise|apply qp_qt; quiet HP]. }
      assert (Q2 : forall o, qt P feas (@anyatt _) (eq n) (fun _ _ => True) (false = true /\ obj_num P feas) nd n0 n s0 (orelse (srsr_new o) (ret d)) (fun _ => True)).
      { intros o. apply q_orelse; [|quiet HP]. apply qp_lift. auto. }
      eapply g_bind; [eapply g_accept_batch; [exact HP|lia|intros; gquiet HP|intros; gquiet HP]|]. gintros HP.
      do 4 (eapply g_qbind; [gquiet HP|intros]).
      eapply g_bind; [eapply g_accept_batch; [exact HP|lia|intros; gquiet HP|intros; gquiet HP]|]. gintros HP.
      assert (Eep : (0 <? ep) = true) by (apply Nat.ltb_lt; lia). rewrite Eep. cbn [when].
      assert (Hg : gea_ok feas (@anyatt _) (srsr_gea P)) by (apply gea_with_ok; [apply HP|intros; draws; exact I]).
      eapply g_bind with (a := 5) (b := 5); [free HP|gintros HP]. apply g_quiet. apply gq_for. intros k Hk. gquiet HP.
Qed.

(** With starting solutions in a parallel mode the agents have no attribute target_new (SRSR.py:126). *)
Definition srsr_rows : list vec := repeat [fZ 1; fZ 2] 5.
Definition srsr_env : env := mkEnv argsort_ins (e_u demo_env) (e_g demo_env) (e_i demo_env)
  (fun name l => if String.eqb name "SRSR:112-116" then fZ 0 else nth 0 l fnan) (e_time demo_env) (e_order demo_env).
Theorem C68_OriginalSRSR_starting :
  solve srsr_env (demo_prob Min sphere true) Swarm (original_srsr srsr_env (demo_prob Min sphere true) Swarm 5 3) None (Some srsr_rows) (st0 []) = Err AttributeError.
Proof.
  assert (T : match solve srsr_env (demo_prob Min sphere true) Swarm (original_srsr srsr_env (demo_prob Min sphere true) Swarm 5 3) None (Some srsr_rows) (st0 []) with Err AttributeError => true | _ => false end = true) by (vm_compute; reflexivity).
  destruct (solve _ _ _ _ _ _ _) as [|e]; [discriminate|]. destruct e; try discriminate. reflexivity.
Qed.

(** ** DevSSpiderA *)
Definition spider_ok (L : list vec) (b : spider) : Prop := exists f, sp_int b = Some f.
Lemma spider_ga_ok E P (feas : vec -> Prop) : problem_ok P feas -> ga_ok P feas spider_ok (spider_ga E P).
Proof.
  intros Hp s o Ho. unfold spider_ga. apply wp_bind.
  eapply wp_mono; [apply (gea_with_ok P feas (fun x => ret (mkSpider x (repeat (fnat 0) (n_dims P)) (repeat (fnat 0) (n_dims P)) None))); [exact Hp|intros; draws; exact I|exact Ho]|].
  intros a s' ((k & ->) & Ha & _). apply wp_bind, wp_get_target, wp_ret. simpl. split; [exists k; reflexivity|].
  split; [exact Ha|]. split; [reflexivity|]. intros L _. eexists; reflexivity.
Qed.
Lemma wp_unret {A X Y} (m : M A X Y) Q s : wp (bindM m (fun y => ret y)) Q s -> wp m Q s.
Proof. unfold wp, bindM, ret. destruct (m s) as [[y s']|e]; auto. Qed.
Section Spider.
Variables (E : env) (P : problem) (feas : vec -> Prop) (IX : list vec -> unit -> Prop) (cov : Prop) (nd n0 n : nat) (s0 : st spider unit).
Hypothesis HP : params E P feas spider_ok cov.
Hypothesis Hn : 5 <= n.
Notation qt := (qt P feas spider_ok (eq n) IX cov nd n0 n s0).
Notation blk := (blk P feas spider_ok (eq n) IX cov nd n0 n s0).
Notation fresh := (fresh_agent feas spider_ok).
Lemma q_spider_copy pc pm ib idx : ib < n -> idx < n -> qt (spider_copy E P pc pm n ib idx) fresh.
Proof.
  intros Hb Hi. unfold spider_copy. eapply q_bind; [apply q_pop_seen; exact Hi|]. intros a (_ & _ & L & t & Et).
  eapply q_bind; [apply q_pop_seen; exact Hb|]. intros b (_ & _ & L' & t' & Et'). rewrite Et, Et'. cbn [attr].
  eapply q_bind; [eapply q_lift with (Φ := eq t'); eauto|]. intros ? <-. eapply q_bind; [eapply q_lift with (Φ := eq t); eauto|]. intros ? <-.
  eapply q_bind; [quiet HP|]. intros u _. eapply q_bind with (Φ := fun _ => True); [destruct (_ < _)%F; quiet HP|]. intros mk _.
  eapply q_bind; [apply q_integers; lia|]. intros j Hj. cbv beta in Hj. eapply q_bind; [quiet HP|]. intros xj _.
  eapply q_bind; [quiet HP|]. intros z _. eapply q_bind; [quiet HP|]. intros y Hy. apply q_ret. split; [exact Hy|]. intros L2 _. exists t. reflexivity.
Qed.
Lemma q_spider_ints p : Forall (fun a => exists L, spider_ok L (att a)) p -> exists l, map_res (fun a : agent spider => attr (sp_int (att a))) p = Ok l.
Proof.
  induction 1 as [|a p (L & t & Et) _ (l & El)]; [exists []; auto|]. cbn [map_res]. rewrite Et, El. cbn [bind attr]. eexists. reflexivity.
Qed.
Lemma b_spider ra pc pm ep : blk n n (spider_evolve E P Single ra pc pm n ep) (fun _ => True).
Proof.
  unfold spider_evolve.
  eapply b_qbind with (Φ := fun p => Forall (fun a => exists L, spider_ok L (att a)) p).
  { intros W l s HR. apply wp_get_pop. pose proof HR as (V & Hp & _). split; [|eapply near_refl; exact HR].
    eapply Forall_impl; [|apply (v_good _ _ _ _ _ _ _ _ _ _ _ V)]. intros a Ga. eexists. apply Ga. }
  intros p Fp. destruct (q_spider_ints p Fp) as (ints & Ef). rewrite Ef.
  eapply b_qbind; [apply q_lift with (Φ := eq ints); eauto|]. intros ? <-.
  eapply b_qbind; [quiet HP|]. intros xs _. eapply b_qbind; [quiet HP|]. intros recv Lr. cbv beta in Lr.
  eapply b_qbind; [apply q_argmax; lia|]. intros ib Hb. cbv beta in Hb. rewrite Lr in Hb.
  intros W l s HR. 
  apply wp_bind. apply wp_unret.
  match goal with |- wp ?m _ _ => change m with (made_agents P Single n (spider_copy E P pc pm n ib)) end.
  eapply wp_made_agents; [exact HP|exact HR|intros i Hi; apply q_spider_copy; assumption|].
  intros new s1 Ln Gn R1 Ep1. apply wp_bind. change (wp (ret new) ?Q s1) with (Q new s1). apply wp_ret. rewrite <- Ln.
  match goal with |- wp ?m _ _ => change m with (accept_each P new (spider_after E P)) end.
  rewrite Ln.
  eapply wp_accept_each_then with (lo := 0) (hi := 0); [exact HP|exact R1|lia| |].
  - intros i old a c Hi So Sa. unfold spider_after. destruct c; cbn [when]; [|apply b_quiet; quiet HP].
    destruct Sa as (Pa & Fa & _). eapply b_qbind; [quiet HP|]. intros f _. eapply b_qbind; [quiet HP|]. intros lv _.
    eapply b_set_att; [exact HP|lia|]. intros L. eexists; reflexivity.
  - intros k s' Hk R2. split; [exact I|]. exists n. split; [lia|]. replace (l + n) with (l + n + k) by lia. exact R2.
Qed.
End Spider.
Theorem C64_DevSSpiderA E P ra pc pm n epochs : 5 <= n -> 0 < epochs ->
  sound_run E P Single (dev_spider E P Single ra pc pm n epochs) (fun _ => True) true n n.
Proof.
  intros Hn He. apply gen_plain.
  apply (sound_agents_st E P Single (spider_gea P) (spider_ga E P) n epochs false (ret tt) (ret tt) (spider_evolve E P Single ra pc pm n) (fun _ => True) (fun _ => True)
           (fun _ => True) (fun _ => spider_ok) (fun _ _ _ => True) (fun _ _ _ => True)); try lia.
  - intros feas L L' a _ T; exact T.
  - intros feas rows Hav. discriminate Hav.
  - intros feas Hp. apply spider_ga_ok, Hp.
  - intros feas Hp. apply vars_none; auto.
  - intros feas nd n0 s HP HH HI. eapply main_none; exact HI.
  - intros feas nd n0 HP HH. eapply contract_of; [exact HP|]. intros ep s0 Hep _. apply b0_blk, b_spider; auto.
Qed.

(** ** OriginalArchOA *)
Theorem C64_OriginalArchOA_parallel E P md pars amax amin n epochs : is_avail md = true -> 5 <= n -> 0 < epochs ->
  sound_run E P md (original_arch E P md pars amax amin n epochs) (fun _ => True) true n n.
Proof.
  intros Hav Hn He. apply gen_plain. att_elite (fun _ : unit => True).
  eapply b0_mono with (a := n * 0 + (n * 0 + n)) (b := n * 0 + (n * 0 + n)) (Φ := fun _ => True); [|lia|lia|auto].
  apply b0_blk. unfold arch_evolve. rewrite Hav. cbv zeta. set (explore := (_ <= _)%F). clearbody explore.
  eapply b_bind with (Φ := fun _ => True).
  - eapply b_for_acc with (Φ := fun _ => True); [exact I|].
    intros k acc Hk _. unfold arch_update. eapply b_mono with (a := 0 + 0) (b := 0 + 0); [|lia|lia|auto].
    eapply b_bind; [|intros; eapply b_quiet; quiet HP].
    eapply b_qbind; [quiet HP|]. intros a (Pa & Fa). eapply b_qbind; [quiet HP|]. intros g _.
    eapply b_qbind; [quiet HP|]. intros d _. eapply b_qbind; [quiet HP|]. intros v _.
    eapply b_qbind with (Φ := fun _ => True); [destruct explore; quiet HP|]. intros c _.
    eapply b_qbind; [quiet HP|]. intros ac _. eapply b_mono with (a := 0 + 0) (b := 0 + 0); [|lia|lia|intros ? T; exact T].
    eapply b_bind with (Φ := fun _ => True); [|intros; apply b_ret; exact I].
    eapply b_set_att; [exact HP|exact Hk|]. intros; exact I.
  - intros accs _. eapply b_bind with (Φ := fun _ => True).
    + eapply b_for. intros k Hk. unfold arch_normal. block HP.
    + intros _ _. unfold arch_move. destruct explore; block HP.
Qed.
(** In single mode the returned target is not that of the returned position: the position before correction is evaluated
    (ArchOA.py:145) and the corrected one is kept. *)
Definition arch_env : env := mkEnv argsort_ins (e_u demo_env) (e_g demo_env) (e_i demo_env)
  (fun name l => if (String.eqb name "ArchOA:134-135" || String.eqb name "ArchOA:137-141")%bool then fZ 9 else nth 0 l fnan) (e_time demo_env) (e_order demo_env).
Theorem C65_OriginalArchOA_refuted : exists g s',
  solve arch_env (demo_prob Max sphere true) Single (original_arch arch_env (demo_prob Max sphere true) Single [fZ 2; fZ 6; fZ 2; dec 5 10] (dec 9 10) (dec 1 10) 5 3) None None (st0 tt) = Ok (g, s') /\
  exists t, tgt g = Some t /\ feq (t_fit t) (sphere (sol g)) = false.
Proof.
  assert (T : match solve arch_env (demo_prob Max sphere true) Single (original_arch arch_env (demo_prob Max sphere true) Single [fZ 2; fZ 6; fZ 2; dec 5 10] (dec 9 10) (dec 1 10) 5 3) None None (st0 tt) with
              | Ok (g, _) => match tgt g with Some t => negb (feq (t_fit t) (sphere (sol g))) | None => false end | _ => false end = true) by (vm_compute; reflexivity).
  destruct (solve _ _ _ _ _ _ _) as [[g s']|]; [|discriminate]. exists g, s'. split; [reflexivity|].
  destruct (tgt g) as [t|]; [|discriminate]. exists t. split; [reflexivity|]. destruct (feq _ _); [discriminate|reflexivity].
Qed.

(** ** CHIO *)
Definition chio_len (n : nat) (x : chio) : Prop := List.length (fst (fst x)) = n.
Lemma chio_where_lt k imm : Forall (fun i => i < List.length imm) (chio_where k imm).
Proof. apply Forall_forall. intros i Hi. apply filter_In in Hi. destruct Hi as [Hi _]. apply in_seq in Hi. lia. Qed.
Lemma qp_choice_noreplace {A X T} E P feas attok IL IX cov nd n0 n (s0 : st A X) m : forall l : list T,
  qp P feas attok IL IX cov nd n0 n s0 (choice_noreplace E l m) (fun _ => True).
Proof.
  induction m as [|m IH]; intros l; cbn [choice_noreplace]; [apply qp_qt, q_ret; exact I|].
  destruct l as [|d l]; [apply qp_raise|]. eapply qp_qbind; [apply q_tick|]. intros k _. cbv zeta. eapply qp_bind; [apply IH|]. intros r _. apply qp_qt, q_ret. exact I.
Qed.
Section Chio.
Variables (E : env) (P : problem) (feas : vec -> Prop) (cov : Prop) (nd n0 n : nat) (s0 : st unit chio).
Hypothesis HP : params E P feas (@anyatt unit) cov.
Hypothesis Hn : 5 <= n.
Notation IX := (fun (_ : list vec) x => chio_len n x).
Notation qt := (qt P feas (@anyatt unit) (eq n) IX cov nd n0 n s0).
Notation qp := (qp P feas (@anyatt unit) (eq n) IX cov nd n0 n s0).
Lemma q_chio_pick c : Forall (fun i => i < n) c -> qt (orelse (chio_pick E c) (ret 0)) (fun i => i < n).
Proof.
  intros Hc. apply q_orelse; [|apply q_ret; lia]. unfold chio_pick. destruct c as [|i c].
  - intros W l s y s' _ Em. discriminate Em.
  - apply qp_qt. eapply q_mono; [apply q_choice1; discriminate|]. intros y Hy. rewrite Forall_forall in Hc. apply Hc, Hy.
Qed.
Lemma q_chio_best c : Forall (fun i => i < n) c -> qt (orelse (chio_best c) (ret 0)) (fun i => i < n).
Proof.
  intros Hc. apply q_orelse; [|apply q_ret; lia]. unfold chio_best. eapply qp_qbind with (Φ := fun _ => True).
  - apply q_for_acc with (I := fun _ _ => True); [exact I|]. intros k acc Hk _. destruct (getitem_lt c k (proj2 Hk)) as (i & Ei & _ & Hi).
    eapply q_bind; [apply q_lift with (Φ := eq i); eauto|]. intros ? <-. rewrite Forall_forall in Hc. pose proof (Hc i Hi). quiet HP.
  - intros fs _. eapply qp_bind; [apply qp_lift with (Φ := fun _ => True); auto|]. intros k _. eapply qp_mono; [apply qp_getitem|].
    intros i Hi. rewrite Forall_forall in Hc. apply Hc, Hi.
Qed.
Lemma q_chio_mix i s j x : i < n -> s < n -> qt (chio_mix E i s j x) (fun _ => True).
Proof. intros Hi Hs. unfold chio_mix. quiet HP. Qed.
Notation pick := (fun c => orelse (chio_pick E c) (ret 0)).
Notation best := (fun c => orelse (chio_best c) (ret 0)).
Lemma q_chio_move brr imm i : List.length imm = n -> i < n -> qt (chio_move E P pick best brr imm i) (fun _ => True).
Proof.
  intros Hl Hi. unfold chio_move. assert (HW : forall k, Forall (fun i => i < n) (chio_where k imm)) by (intros k; rewrite <- Hl; apply chio_where_lt).
  eapply q_bind; [quiet HP|]. intros xi _. apply q_for_acc with (I := fun _ _ => True); [exact I|].
  intros j [[x cor] stop] Hj _. destruct stop; [apply q_ret; exact I|]. eapply q_bind; [quiet HP|]. intros r _.
  destruct (r < _)%F. { cbv zeta. destruct (_ =? _); [apply q_ret; exact I|]. eapply q_bind; [apply q_chio_pick, HW|]. intros s Hs.
    eapply q_bind; [apply q_chio_mix; assumption|]. intros x' _. apply q_ret; exact I. }
  destruct (_ && _)%bool. { eapply q_bind; [apply q_chio_pick, HW|]. intros s Hs. eapply q_bind; [apply q_chio_mix; assumption|]. intros x' _. apply q_ret; exact I. }
  destruct (_ && _)%bool. { eapply q_bind; [apply q_chio_best, HW|]. intros s Hs. eapply q_bind; [apply q_chio_mix; assumption|]. intros x' _. apply q_ret; exact I. }
  apply q_ret; exact I.
Qed.
Lemma fold_upd_length k l : forall imm : list nat, List.length (fold_left (fun l i => upd l i k) l imm) = List.length imm.
Proof. induction l as [|i l IH]; intros imm; [reflexivity|]. cbn [fold_left]. rewrite IH. apply upd_length. Qed.
Notation fill := (orelse (chio_third E n) (ret [])).
Lemma q_chio_fill k imm : List.length imm = n -> qt (chio_fill fill k imm) (fun l => List.length l = n).
Proof.
  intros Hl. unfold chio_fill. destruct (_ =? _); [|apply q_ret; exact Hl]. eapply q_bind with (Φ := fun _ => True).
  - apply q_orelse; [|apply q_ret; exact I]. apply qp_choice_noreplace.
  - intros idx _. apply q_ret. rewrite fold_upd_length. exact Hl.
Qed.
Lemma q_dev_chio_move brr i imm : List.length imm = n -> i < n -> qt (dev_chio_move E P pick best fill brr i imm) (fun r => List.length (snd r) = n).
Proof.
  intros Hl Hi. unfold dev_chio_move.
  assert (HW : forall k imm, List.length imm = n -> Forall (fun i => i < n) (chio_where k imm)) by (intros k l El; rewrite <- El; apply chio_where_lt).
  eapply q_bind; [quiet HP|]. intros xi _. apply q_for_acc with (I := fun _ r => List.length (snd r) = n); [exact Hl|].
  intros j [[x cor] im] Hj Him. cbn [snd] in Him. eapply q_bind; [quiet HP|]. intros r _.
  destruct (r < _)%F. { eapply q_bind; [apply q_chio_fill, Him|]. intros im' Him'. eapply q_bind; [apply q_chio_pick, HW, Him'|]. intros s Hs.
    eapply q_bind; [apply q_chio_mix; assumption|]. intros x' _. apply q_ret; exact Him'. }
  destruct (_ && _)%bool. { eapply q_bind; [apply q_chio_fill, Him|]. intros im' Him'. eapply q_bind; [apply q_chio_pick, HW, Him'|]. intros s Hs.
    eapply q_bind; [apply q_chio_mix; assumption|]. intros x' _. apply q_ret; exact Him'. }
  destruct (_ && _)%bool. { eapply q_bind; [apply q_chio_best, HW, Him|]. intros s Hs. eapply q_bind; [apply q_chio_mix; assumption|]. intros x' _. apply q_ret; exact Him. }
  apply q_ret; exact Him.
Qed.
End Chio.
Section ChioFree.
Variables (E : env) (P : problem) (md : MCore.mode) (feas : vec -> Prop) (C : Prop) (nd n0 n : nat) (s0 : st unit chio).
Hypothesis HP : params E P feas (@anyatt unit) (false = true /\ C).
Hypothesis Hn : 5 <= n.
Notation IX := (fun (_ : list vec) x => chio_len n x).
Notation gt := (gt P feas (@anyatt unit) (eq n) IX (false = true /\ C) nd n0 n s0).
Notation ok := (ok P feas (@anyatt unit)).
Lemma g_chio_update w max_age l cors idx : List.length l = n -> Forall (ok w) l -> idx < n -> gt w 0 1 (chio_update P max_age l cors idx) (fun _ _ => True).
Proof.
  intros Hl Fl Hi. unfold chio_update.
  eapply g_qbind; [eapply gq_getitem; [exact HP|noc|lia|exact Fl]|]. intros new Hnew. cbv beta in Hnew.
  eapply g_qbind; [apply gq_pop_at; lia|]. intros old Hold. cbv beta in Hold.
  eapply g_qbind; [eapply gq_compare; [exact HP|noc|exact Hnew|exact Hold]|]. intros c _.
  eapply g_qbind with (Φ := fun _ => True); [apply gq_when; intros _; eapply gq_pop_set; [exact HP|noc|exact Hi|exact Hnew]|]. intros _ _.
  eapply g_qbind; [gquiet HP|]. intros fs _.
  eapply g_qbind; [eapply gq_fitness; [exact HP|noc|exact Hnew]|]. intros f _.
  eapply g_qbind; [eapply gq_qt; [exact HP|noc|apply q_get_x]|]. intros [[imm age] fin] (L & HL). unfold chio_len in HL. cbn [fst] in HL.
  cbv zeta. eapply g_mono with (a := 0 + 0) (b := 1 + 0); [|lia|lia|intros ? ? ? T; exact T].
  eapply g_bind with (Φ := fun _ _ => True).
  - eapply g_whenm with (a := 1). intros _. eapply g_mono with (a := 1 + 0) (b := 1 + 0); [|lia|lia|intros ? ? ? T; exact T].
    eapply g_bind; [eapply g_random_agent; [exact HP|noc|eapply gea_plain_none; [exact HP|intros; exact I]]|].
    intros a w' Hw Ha. apply g_quiet. eapply gq_pop_set; [exact HP|noc|exact Hi|exact Ha].
  - intros _ w' Hw _. apply g_quiet. eapply gq_qt; [exact HP|noc|]. apply q_set_x. unfold chio_len. cbn [fst].
    repeat match goal with |- context [if ?b then _ else _] => destruct b end; rewrite ?upd_length; exact HL.
Qed.
End ChioFree.
Theorem C65_OriginalCHIO_returning E P md brr max_age n epochs : 5 <= n -> 0 < epochs -> md <> Process ->
  sound_when E P md (original_chio E P md brr max_age n epochs) (fun _ => True) (fun _ => True) (fun _ => True) (eq n) false n n n (2 * n).
Proof.
  intros Hn He Hmd. pose (pick := fun c => orelse (A := unit) (X := chio) (chio_pick E c) (ret 0)). pose (best := fun c => orelse (A := unit) (X := chio) (chio_best c) (ret 0)).
  eapply (returns_of _ _ _ _ (chio_phases E P md pick best brr max_age n)).
  - intros ep. cbn [al_evolve original_chio vars_algo]. unfold chio_evolve, chio_phases, chio_move, pick, best. refi.
  - change (with_evolve _ _) with (vars_algo E P md tt n epochs false (chio_vars E n) (chio_phases E P md pick best brr max_age n)).
    state_free (fun x : chio => chio_len n x).
    + assumption.
    + unfold chio_phases. eapply g_qbind; [eapply gq_qt; [exact HP|noc|apply q_get_x]|]. intros [[imm age] fin] (L & HL). unfold chio_len in HL. cbn [fst] in HL.
      eapply g_qbind with (Φ := fun r => List.length (fst (fst (fst r))) <= n /\ Forall (pend feas (@anyatt unit) w) (fst (fst (fst r)))).
      { eapply gq_for_acc with (I := fun k r => List.length (fst (fst (fst r))) <= k /\ Forall (pend feas (@anyatt unit) w) (fst (fst (fst r)))); [split; [cbn; lia|constructor]|].
        intros k [[[l cors] fi] brk] Hk (Hl & Fl). cbn [fst] in Hl, Fl. destruct brk; [apply gq_ret; cbn [fst]; split; [lia|exact Fl]|].
        eapply gq_bind; [eapply gq_qt; [exact HP|noc|apply q_chio_move; first [exact HP|exact Hn|exact HL|lia]]|]. intros [[x cor] stop] _.
        destruct (fi || stop)%bool; [apply gq_ret; cbn [fst]; split; [lia|exact Fl]|].
        eapply gq_bind; [gquiet HP|]. intros a Ha. apply gq_ret. cbn [fst]. split; [rewrite app_length; cbn; lia|].
        apply Forall_app; split; [exact Fl|]. constructor; [exact Ha|constructor]. }
      intros [[[l cors] fi] brk] (Hl & Fl). cbn [fst] in Hl, Fl.
      eapply g_qbind; [eapply gq_qt; [exact HP|noc|apply q_set_x; exact HL]|]. intros _ _.
      eapply g_mono with (a := List.length l + (n - List.length l + n * 0)) (b := List.length l + (n - List.length l + n * 1)); [|lia|lia|intros ? ? ? T; exact T].
      eapply g_bind; [eapply g_evaluate_all; [exact HP|noc|reflexivity|exact Fl]|]. intros l1 w1 H1 (L1 & F1). cbv beta. rewrite L1.
      eapply g_bind; [eapply g_population_with; [exact HP|noc|exact Hmd|apply ga_of_ok, plain_gea_ok, HP]|]. intros ex w2 H2 (L2 & F2). cbv beta.
      apply g_for. intros k w3 H3 Hk. eapply g_chio_update; try exact HP; try exact Hn; try exact Hk; [rewrite app_length; lia|].
      apply Forall_app; split; [eapply oks_mono; [exact HP| |exact F1]; eapply incl_tran; eassumption|eapply oks_mono; [exact HP|exact H3|exact F2]].
Qed.
Theorem C65_DevCHIO_returning E P md brr max_age n epochs : 5 <= n -> 0 < epochs ->
  sound_when E P md (dev_chio E P md brr max_age n epochs) (fun _ => True) (fun _ => True) (fun _ => True) (eq n) false n n n (2 * n).
Proof.
  intros Hn He. pose (pick := fun c => orelse (A := unit) (X := chio) (chio_pick E c) (ret 0)). pose (best := fun c => orelse (A := unit) (X := chio) (chio_best c) (ret 0)).
  pose (fill := orelse (A := unit) (X := chio) (chio_third E n) (ret [])).
  eapply (returns_of _ _ _ _ (dev_chio_phases E P md pick best fill brr max_age n)).
  - intros ep. cbn [al_evolve dev_chio vars_algo]. unfold dev_chio_phases, dev_chio_move, chio_fill, pick, best, fill. refi.
  - change (with_evolve _ _) with (vars_algo E P md tt n epochs false (chio_vars E n) (dev_chio_phases E P md pick best fill brr max_age n)).
    state_free (fun x : chio => chio_len n x).
    + assumption.
    + unfold dev_chio_phases. eapply g_qbind; [eapply gq_qt; [exact HP|noc|apply q_get_x]|]. intros [[imm age] fin] (L & HL). unfold chio_len in HL. cbn [fst] in HL.
      eapply g_qbind with (Φ := fun r => List.length (fst (fst r)) = n /\ Forall (pend feas (@anyatt unit) w) (fst (fst r)) /\ List.length (snd r) = n).
      { eapply gq_for_acc with (I := fun k r => List.length (fst (fst r)) = k /\ Forall (pend feas (@anyatt unit) w) (fst (fst r)) /\ List.length (snd r) = n); [split; [reflexivity|split; [constructor|exact HL]]|].
        intros k [[l cors] im] Hk (Hl & Fl & Hm). cbn [fst snd] in Hl, Fl, Hm.
        eapply gq_bind; [eapply gq_qt; [exact HP|noc|apply q_dev_chio_move; first [exact HP|exact Hn|exact Hm|lia]]|]. intros [[x cor] im'] Hm'. cbn [snd] in Hm'.
        eapply gq_bind; [gquiet HP|]. intros a Ha. apply gq_ret. cbn [fst snd]. split; [rewrite app_length; cbn; lia|]. split; [|exact Hm'].
        apply Forall_app; split; [exact Fl|]. constructor; [exact Ha|constructor]. }
      intros [[l cors] im] (Hl & Fl & Hm). cbn [fst snd] in Hl, Fl, Hm.
      eapply g_qbind; [eapply gq_qt; [exact HP|noc|apply q_set_x; exact Hm]|]. intros _ _.
      eapply g_mono with (a := n + n * 0) (b := n + n * 1); [|lia|lia|intros ? ? ? T; exact T].
      eapply g_bind; [eapply g_evaluate_all; [exact HP|noc|exact Hl|exact Fl]|]. intros l1 w1 H1 (L1 & F1). cbv beta.
      apply g_for. intros k w3 H3 Hk. eapply g_chio_update; try exact HP; try exact Hn; try exact Hk; [exact L1|]. eapply oks_mono; [exact HP|exact H3|exact F1].
Qed.

Print Assumptions C65_OriginalSRSR_returning.
Print Assumptions C68_OriginalSRSR_starting.
Print Assumptions C64_DevSSpiderA.
Print Assumptions C64_OriginalArchOA_parallel.
Print Assumptions C65_OriginalArchOA_refuted.
Print Assumptions C65_OriginalCHIO_returning.
Print Assumptions C65_DevCHIO_returning.
