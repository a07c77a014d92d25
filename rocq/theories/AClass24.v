(** What the algorithm classes modelled in MClass23 guarantee. *)
From Coq Require Import Permutation.
From Verif Require Import Prelude Fl MCore MHelp MAlg MAlg2 MAlg3 MAlg4 MAlg5 MAlg6 MAlg7 MAlg8 SpecCore SpecRun SpecAlg SpecWhen Demo
  FlRound FlPart FlShare FlOcc PSelect PLogic PSolve PRun PAlg PFree PClass PAlg2 PAlg3 PAlg4 PAlg5 PAlg6 PAlg7 PAlg8 PAlg9 PRef PElse PAlg10 PAlg11 PAlg13 AMath AClass9 AClass14 AClass17 AClass18 AClass19
  MClass20 MClass23.

(** ** OriginalIMODE: the best agent is kept when the problem is a minimization. *)
Section IMODE.
Variables (E : env) (P : problem) (feas : vec -> Prop) (IX : list vec -> unit -> Prop) (nd n0 n : nat) (s0 : st unit unit).
Lemma b_imode cov (HP : params E P feas (@anyatt unit) cov) ep : p_mm P = Min -> 0 < n ->
  blk P feas (@anyatt unit) (eq n) IX cov nd n0 n s0 n n (imode_evolve E P n ep) (fun _ => True).
Proof.
  intros Hmm Hn. unfold imode_evolve. eapply b_mono with (a := 0 + n) (b := 0 + n); [|lia|lia|intros y T; exact T].
  eapply b_bind; [eapply b_sort; exact HP|]. intros _ _ W l s HR. apply wp_bind, wp_get_pop. apply wp_bind.
  eapply wp_new_agents; [exact HP|qcorrect HP|qgea|exact HR|intros i Hi; quiet HP|]. intros new s' Hlen Gn HR' Ep.
  rewrite <- Ep. pose proof (R_pop_all _ _ _ _ _ _ _ _ _ _ _ _ _ HR') as Gp. pose proof HR' as (_ & Lp & _).
  destruct (greedy_covers E P feas _ cov HP _ _ _ Gp Gn) as (r & Er & Lr & Gr & Cr); [lia|]. rewrite Hmm in Er.
  apply wp_bind. eapply wp_lift; [exact Er|]. unfold wp, set_pop. split; [exact I|]. exists n. split; [lia|].
  eapply R_set_cov; [exact HP|exact HR'|lia|exact Gr| |].
  - intros C a Ha. apply Cr; [exact C|apply in_or_app; left; exact Ha].
  - intros C a Ha. apply Cr; [exact C|apply in_or_app; right; exact Ha].
Qed.
Lemma g_imode w C (HP : params E P feas (@anyatt unit) (false = true /\ C)) ep : 0 < n ->
  gt P feas (@anyatt unit) (eq n) IX (false = true /\ C) nd n0 n s0 w n n (imode_evolve E P n ep) (fun _ _ => True).
Proof.
  intros Hn. unfold imode_evolve. eapply g_qbind; [gquiet HP|]. intros _ _. eapply g_qbind; [apply gq_get_pop|]. intros p [Lp Fp].
  eapply g_mono with (a := n + 0) (b := n + 0) (Φ := fun _ _ => True); [|lia|lia|auto].
  eapply g_bind; [eapply g_new_agents; [exact HP|noc|qcorrect HP|qgea|intros; gquiet HP]|]. intros q w1 Hw [Lq Fq].
  assert (Fp1 : Forall (ok P feas anyatt w1) p) by (eapply oks_mono; eassumption).
  eapply g_quiet. eapply gq_bind with (Φ := fun r => List.length r = n /\ Forall (ok P feas anyatt w1) r).
  - eapply gq_lift; [exact HP|noc|]. eexists. split; [apply greedy_ok; [eapply Forall_good_target; exact Fp1|eapply Forall_good_target; exact Fq|lia]|].
    split; [rewrite map_length, combine_length; lia|]. apply Forall_forall. intros a Ha. apply in_map_iff in Ha. destruct Ha as ([o b] & <- & Hc).
    rewrite Forall_forall in Fp1, Fq. cbn [fst snd]. destruct (greedy_pick_cases Min o b) as [->| ->]; [apply Fp1; eapply in_combine_l; eauto|apply Fq; eapply in_combine_r; eauto].
  - intros r [Lr Fr]. apply gq_set_pop; [noc|lia|exact Fr].
Qed.
End IMODE.
Theorem C65_OriginalIMODE E P n epochs : 5 <= n -> 0 < epochs -> sound_run E P Single (original_imode E P n epochs) (fun _ => True) false n n.
Proof. plainfree. apply g_imode; [exact HP|lia]. Qed.
Theorem C64_OriginalIMODE_minimization E P n epochs : p_mm P = Min -> 5 <= n -> 0 < epochs ->
  sound_run E P Single (original_imode E P n epochs) (fun _ => True) true n n.
Proof. intros Hm. plain. apply b0_blk, b_imode; [exact HP|exact Hm|lia]. Qed.

(** ** OriginalBFO with an even number of cells *)
Lemma in_ksort {T} (l : list (T * f64)) d x : In x (map fst (ksort snd d l)) -> In x (map fst l).
Proof. intros H. eapply Permutation_in; [apply Permutation_map, ksorted_perm|exact H]. Qed.
Section BFO.
Variables (E : env) (P : problem) (feas : vec -> Prop) (IX : list vec -> unit -> Prop) (C : Prop) (nd n0 n : nat) (s0 : st unit unit).
Hypothesis HP : params E P feas (@anyatt unit) (false = true /\ C).
Notation gt := (gt P feas (@anyatt unit) (eq n) IX (false = true /\ C) nd n0 n s0).
Lemma g_bfo_swim ci idx k : idx < n -> forall w, gt w (Nat.min 1 k) k (bfo_swim E P ci idx k) (fun _ _ => True).
Proof.
  intros Hi. induction k as [|k IH]; intros w; [apply g_ret; exact I|]. cbn [bfo_swim].
  eapply g_qbind; [gquiet HP|]. intros xi _. eapply g_qbind; [gquiet HP|]. intros z _.
  eapply g_mono with (a := 1 + 0) (b := 1 + k) (Φ := fun _ _ => True); [|lia|lia|auto].
  eapply g_bind; [eapply g_gen_agent; [exact HP|noc|qcorrect HP|qgea]|]. intros a w1 Hw Ha. cbv beta in Ha.
  eapply g_qbind; [apply gq_pop_at; exact Hi|]. intros old Ho. eapply g_qbind; [eapply gq_compare; [exact HP|noc|first [exact Ha|apply Ha]|exact Ho]|]. intros [] _.
  - eapply g_mono with (a := 0) (b := 0); [|lia|lia|intros ? ? _ T; exact T]. apply g_quiet. eapply gq_pop_set; [exact HP|noc|exact Hi|first [exact Ha|apply Ha]].
  - eapply g_mono; [apply IH|lia|lia|auto].
Qed.
Lemma g_bfo_step ci ped ns h w : 0 < ns -> n = h + h -> gt w n (n * ns + n) (bfo_step E P ci ped ns h n) (fun _ _ => True).
Proof.
  intros Hs Hh. unfold bfo_step. eapply g_mono with (a := n * 1 + 0) (b := n * ns + n) (Φ := fun _ _ => True); [|lia|lia|auto].
  eapply g_bind.
  { eapply g_for. intros i w1 Hw Hi. eapply g_qbind; [apply gq_pop_at; exact Hi|]. intros _ _. eapply g_mono; [apply g_bfo_swim; exact Hi|lia|lia|auto]. }
  intros _ w1 Hw1 _. eapply g_qbind; [gquiet HP|]. cbv beta. intros keys Hk. eapply g_qbind; [apply gq_get_pop|]. intros p [Lp Fp]. cbv zeta.
  set (cells := map fst _). assert (Lc : List.length cells = n).
  { unfold cells. rewrite map_length, (Permutation_length (ksorted_perm _ _ _)), combine_length. unfold vec in *. lia. }
  assert (Fc : Forall (ok P feas anyatt w1) cells).
  { apply Forall_forall. intros a Ha. apply in_ksort in Ha. apply in_map_iff in Ha. destruct Ha as ([b k] & <- & Hc). apply in_combine_l in Hc.
    rewrite Forall_forall in Fp. apply Fp, Hc. }
  clearbody cells. eapply g_qbind.
  { apply gq_set_pop; [noc| |].
    - rewrite app_length, firstn_length. lia.
    - assert (T : Forall (ok P feas anyatt w1) (firstn h cells)) by (apply Forall_forall; intros a Ha; rewrite Forall_forall in Fc; apply Fc; rewrite <- (firstn_skipn h cells); apply in_or_app; left; exact Ha).
      apply Forall_app; split; exact T. }
  intros _ _. eapply g_mono with (a := n * 0) (b := n * 1) (Φ := fun _ _ => True); [|lia|lia|auto]. eapply g_for. intros i w2 Hw2 Hi.
  eapply g_qbind; [gquiet HP|]. intros u _.
  unfold when. destruct (flt u ped); [|eapply g_mono with (a := 0) (b := 0) (Φ := fun _ _ => True); [apply g_ret; exact I|lia|lia|auto]].
  eapply g_mono with (a := 1 + 0) (b := 1 + 0) (Φ := fun _ _ => True); [|lia|lia|auto].
  eapply g_bind; [eapply g_random_agent; gprem HP|]. intros a w3 Hw3 Ha. cbv beta in Ha. apply g_quiet. eapply gq_pop_set; [exact HP|noc|exact Hi|first [exact Ha|apply Ha]].
Qed.
End BFO.
Theorem C65_OriginalBFO E P ci ped nc ns h epochs : 3 <= h -> 0 < nc -> 0 < ns -> 0 < epochs ->
  sound_run E P Single (original_bfo E P ci ped nc ns (2 * h) epochs) (fun _ => True) false (nc * (2 * h)) (nc * (2 * h * ns + 2 * h)).
Proof.
  plainfree. unfold bfo_evolve. replace (2 * h / 2) with h by (rewrite Nat.mul_comm, Nat.div_mul; lia). eapply g_for. intros i w1 Hw Hi. apply g_bfo_step; [exact HP|lia|lia].
Qed.

(** ** ABFO, in the runs that return *)
Lemma ref_at_index (idx : nat) : refines (at_index idx) (p <- get_pop ;; if (idx <? List.length p)%nat then ret idx else ret 0).
Proof. unfold at_index. apply ref_bind; [apply ref_refl|]. intros p. destruct (idx <? _); [apply ref_refl|apply ref_raise]. Qed.
Lemma abfo_unique_in l : forall seen a, In a (abfo_unique seen l) -> In a l.
Proof.
  enough (T : forall k l, List.length l <= k -> forall seen a, In a (abfo_unique seen l) -> In a l) by (intros; eapply T; eauto).
  intros k. induction k as [|k IH]; intros [|b r] Hk seen a; cbn [List.length abfo_unique] in *; try lia; auto.
  destruct (existsb _ _).
  - destruct r as [|c r]; [intros []|]. cbn [List.length] in Hk. intros [->|H]; [right; left; reflexivity|]. right; right. eapply (IH r); [lia|exact H].
  - intros [->|H]; [left; reflexivity|]. right. eapply (IH r); [lia|exact H].
Qed.
Lemma abfo_unique_len l : forall seen, List.length (abfo_unique seen l) <= List.length l.
Proof.
  enough (T : forall k l, List.length l <= k -> forall seen, List.length (abfo_unique seen l) <= List.length l) by (intros; eapply T; eauto).
  intros k. induction k as [|k IH]; intros [|b r] Hk seen; cbn [List.length abfo_unique] in *; try lia.
  destruct (existsb _ _).
  - destruct r as [|c r]; cbn [List.length] in *; [lia|]. specialize (IH r ltac:(lia) seen). lia.
  - specialize (IH r ltac:(lia) (sol b :: seen)). cbn [List.length]. lia.
Qed.
Lemma abfo_unique_pos l : 0 < List.length l -> 0 < List.length (abfo_unique [] l).
Proof. destruct l as [|a r]; cbn [List.length abfo_unique existsb]; lia. Qed.
Section ABFO.
Variables (E : env) (P : problem) (feas : vec -> Prop) (IX : list vec -> unit -> Prop) (IL : nat -> Prop) (C : Prop) (nd n0 m : nat) (s0 : st Z unit).
Notation few := (fun (_ : list vec) (z : Z) => (z <= 1)%Z).
Hypothesis HP : params E P feas few (false = true /\ C).
Notation gt := (gt P feas few IL IX (false = true /\ C) nd n0 m s0).
Lemma abfo_gea_ok : gea_ok (X := unit) feas few (abfo_gea P).
Proof.
  intros s o Ho. unfold abfo_gea, gea_with. apply wp_bind. destruct o as [x|]; simpl.
  - apply wp_ret. apply wp_bind, wp_ret, wp_ret. split; [exists (s_ctr s); destruct s; reflexivity|]. split; [reflexivity|]. intros; cbn; lia.
  - apply wp_bind. unfold wp at 1, tick. apply wp_ret. apply wp_bind, wp_ret, wp_ret.
    split; [eexists; reflexivity|]. split; [apply (pr_prob _ _ _ _ _ HP)|]. intros; cbn; lia.
Qed.

Lemma abfo_quiet y : feas y -> qt P feas few IL IX (false = true /\ C) nd n0 m s0 (abfo_gea P (Some y)) (fresh_agent feas few).
Proof. intros Hy. apply gea_quiet; [apply abfo_gea_ok|exact Hy]. Qed.
Lemma g_abfo_swim cs ce idx w : idx < m -> gt w 1 1 (abfo_swim E P cs ce idx) (fun _ _ => True).
Proof.
  intros Hi. unfold abfo_swim. do 4 (eapply g_qbind; [gquiet HP|]; intros ? _).
  eapply g_mono with (a := 1 + 0) (b := 1 + 0) (Φ := fun _ _ => True); [|lia|lia|auto].
  eapply g_bind; [eapply g_gen_agent; [exact HP|noc|qcorrect HP|intros y' Hy'; apply abfo_quiet, Hy']|]. intros a w1 Hw Ha. cbv beta in Ha.
  eapply g_qbind; [apply gq_pop_at; exact Hi|]. intros old Ho. eapply g_qbind; [eapply gq_compare; [exact HP|noc|first [exact Ha|apply Ha]|exact Ho]|]. intros [] _; apply g_quiet.
  - eapply gq_pop_set; [exact HP|noc|exact Hi|]. assert (Ga : ok P feas few w1 a) by (first [exact Ha|apply Ha]). eapply good_att; [exact Ga|]. cbn. lia.
  - eapply gq_set_att; [exact HP|noc|exact Hi|]. pose proof (g_att _ _ _ _ _ Ho) as T. cbv beta in T. intros; lia.
Qed.
Definition cell_of (idx : nat) : M Z unit nat := p <- get_pop ;; if (idx <? List.length p)%nat then ret idx else ret 0.
Lemma g_abfo_cell cs ce ped ns na nsp n idx w : 0 < m -> m <= n -> 0 < na <= 4 -> 2 <= nsp ->
  gt w ns (ns + 1) (abfo_cell E P cell_of cs ce ped ns na nsp n idx) (fun _ _ => True).
Proof.
  intros Hm Hmn Hna Hs. unfold abfo_cell. eapply g_qbind with (Φ := fun i => i < m).
  { unfold cell_of. eapply gq_bind; [apply gq_get_pop|]. intros p [Lp _]. destruct (idx <? List.length p) eqn:Ei; apply gq_ret; [apply Nat.ltb_lt in Ei|]; lia. }
  cbv beta. intros i Hi. eapply g_mono with (a := ns * 1 + 0) (b := ns * 1 + 1) (Φ := fun _ _ => True); [|lia|lia|auto].
  eapply g_bind; [eapply g_for; intros; apply g_abfo_swim; exact Hi|]. intros _ w1 Hw1 _.
  eapply g_qbind; [apply gq_pop_at; exact Hi|]. intros a Ha. eapply g_qbind; [apply gq_get_pop|]. intros p [Lp Fp].
  assert (L : forall k len, exists z, abfo_limit k na len n = Ok z).
  { intros k len. unfold abfo_limit, py_div. destruct (feq (fnat na) (fZ 0)) eqn:E0; [|eexists; reflexivity]. exfalso.
    unfold fnat in E0. rewrite AClass9.fZ_nonzero in E0 by lia. discriminate. }
  destruct (L nsp (List.length p)) as (up & Eu). eapply g_qbind; [eapply gq_lift with (Φ := eq up); [exact HP|noc|eauto]|]. intros ? <-.
  pose proof (g_att _ _ _ _ _ Ha) as T. cbv beta in T.
  assert (F : (Z.max (Z.of_nat nsp) up <? att a)%Z = false) by (apply Z.ltb_ge; lia). 
  eapply g_qbind with (Φ := fun _ => True); [apply gq_when; intros Hx; exfalso; congruence|]. intros _ _.
  eapply g_qbind; [apply gq_get_pop|]. intros p2 [Lp2 Fp2]. destruct (L na (List.length p2)) as (dn & Ed).
  eapply g_qbind; [eapply gq_lift with (Φ := eq dn); [exact HP|noc|eauto]|]. intros ? <-.
  eapply g_qbind; [apply gq_pop_at; exact Hi|]. intros b Hb. eapply g_qbind with (Φ := fun _ => True).
  { destruct (att b <? _)%Z; [apply gq_ret; exact I|]. gquiet HP. }
  intros out _. unfold when. destruct out; [|eapply g_mono with (a := 0) (b := 0) (Φ := fun _ _ => True); [apply g_ret; exact I|lia|lia|auto]].
  eapply g_mono with (a := 1 + 0) (b := 1 + 0) (Φ := fun _ _ => True); [|lia|lia|auto].
  eapply g_bind; [eapply g_random_agent; [exact HP|noc|apply gea_quiet_none, abfo_gea_ok]|]. intros c w3 Hw3 Hc. cbv beta in Hc. apply g_quiet. eapply gq_pop_set; [exact HP|noc|exact Hi|first [exact Hc|apply Hc]].
Qed.
End ABFO.
Theorem C65_ABFO_returning E P md cs ce ped ns na nsp n epochs : 5 <= n -> 0 < epochs -> 0 < na <= 4 -> 2 <= nsp ->
  sound_when E P md (abfo E P md cs ce ped ns na nsp n epochs) (fun _ => True) (fun _ => True) (fun _ => True) (fun m => 0 < m <= n) false n n (n * ns) (n * (ns + 1)).
Proof.
  intros Hn He Hna Hs. eapply (returns_of _ _ _ _ (abfo_evolve E P cell_of cs ce ped ns na nsp n)).
  - intros ep. cbn [al_evolve abfo agent_algo]. unfold abfo_evolve, abfo_next, abfo_cell. 
    repeat first [apply ref_refl|apply ref_at_index|apply ref_for; intros|apply ref_bind; [|intros ?]].
  - change (with_evolve _ _) with (agent_algo E md (abfo_gea P) (ga_of P (abfo_gea P)) n epochs false (ret tt) (ret tt) (abfo_evolve E P cell_of cs ce ped ns na nsp n)).
    assert (T : sound_run_gen E P md (agent_algo E md (abfo_gea P) (ga_of P (abfo_gea P)) n epochs false (ret tt) (ret tt) (abfo_evolve E P cell_of cs ce ped ns na nsp n))
      (fun _ => True) (fun _ => True) (fun _ => True) (fun m => 0 < m <= n) false (n + 0) (n + 0) (n * ns) (n * (ns + 1))).
    2:{ rewrite !Nat.add_0_r in T. exact T. }
    apply (sound_gen E P md _ (fun _ => True) (fun _ => True) (fun _ => True) (fun _ (_ : list vec) z => (z <= 1)%Z)
      (fun _ _ _ => True) (fun _ _ _ => True) (fun m => 0 < m <= n) false n n 0 0 (n * ns) (n * (ns + 1))); auto.
    + intros m Hm. lia.
    + intros feas starting HP _ Hst _. apply agents_init; auto; try lia.
      * intros _ _. eapply abfo_gea_ok. exact HP.
      * apply ga_of_ok. eapply abfo_gea_ok. exact HP.
      * apply vars_none; auto.
    + intros feas nd HP _. apply skip_before_main; auto.
    + intros feas nd n0 HP _. apply contract_free_len; [noc|]. intros ep s0 w Hep HI.
      pose proof (i_len _ _ _ _ _ _ _ _ _ HI) as Hm. cbv beta in Hm. set (m := List.length (s_pop s0)) in *.
      unfold abfo_next. eapply g_mono with (a := n * ns + 0) (b := n * (ns + 1) + 0) (Φ := fun w' q => Forall (ok P feas (fun _ z => (z <= 1)%Z) w') q /\ 0 < List.length q <= n); [|lia|lia|auto].
      eapply g_bind; [eapply g_for; intros; apply g_abfo_cell; [exact HP|lia|lia|lia|lia]|]. intros _ w1 Hw1 _.
      eapply g_qbind; [apply gq_get_pop|]. intros p [Lp Fp]. unfold abfo_balance.
      pose proof (abfo_unique_len p []) as L1. pose proof (abfo_unique_pos p ltac:(lia)) as L2. destruct (n <? _) eqn:En; [apply Nat.ltb_lt in En; lia|].
      apply g_ret. split; [|lia]. apply Forall_forall. intros a Ha. rewrite Forall_forall in Fp. apply Fp. eapply abfo_unique_in; exact Ha.
Qed.

(** ** OriginalCRO *)
Lemma filter_length_le {T} (f : T -> bool) l : List.length (filter f l) <= List.length l.
Proof. induction l as [|x l IH]; cbn [filter List.length]; [lia|]. destruct (f x); cbn [List.length]; lia. Qed.
Lemma nodup_front {T} (l r : list T) : NoDup (l ++ r) -> NoDup l.
Proof. induction l as [|x l IH]; intros H; [constructor|]. inversion H; subst. constructor; [intros Hin; apply H2, in_or_app; left; exact Hin|auto]. Qed.
Lemma perm_filter {T} (f : T -> bool) l l' : Permutation l l' -> Permutation (filter f l) (filter f l').
Proof.
  intros H. induction H; cbn [filter].
  - constructor.
  - destruct (f x); [apply perm_skip|]; assumption.
  - destruct (f x), (f y); try apply Permutation_refl. apply perm_swap.
  - eapply Permutation_trans; eassumption.
Qed.
Section CRO.
Variables (E : env) (P : problem) (md : MCore.mode) (c : cro_pars) (feas : vec -> Prop) (cov : Prop) (nd n0 n : nat) (s0 : st unit reef).
Notation reef_ok := (fun (_ : list vec) (x : reef) => Forall (fun i => i < n) (reef_idx x) /\ NoDup (reef_idx x)).
Hypothesis HP : params E P feas (@anyatt unit) cov.
Hypothesis Hn : 2 <= n.
Notation R := (R P feas (@anyatt unit) (eq n) reef_ok cov nd n0 n s0).
Notation Ev := (Ev P feas (@anyatt unit) (eq n) reef_ok cov nd n0).
Notation good := (good P feas (@anyatt unit)).
(** The agents outside the occupied places are from before the epoch. *)
Definition K (W : list (agent unit)) (l : nat) (s : st unit reef) : Prop :=
  R W l s /\ forall i a, nth_error (s_pop s) i = Some a -> ~ In i (reef_idx (s_x s)) -> In (sol a) (s_log s0).
Lemma mem_nat_in i l : mem_nat i l = true <-> In i l.
Proof.
  unfold mem_nat. rewrite existsb_exists. split; [intros (j & Hj & Ej); apply Nat.eqb_eq in Ej; subst; exact Hj|intros H; exists i; rewrite Nat.eqb_refl; auto].
Qed.
Lemma K_bump W l s k : K W l s -> K W l (bump s k).
Proof. intros [HR HO]. split; [|exact HO]. eapply R_near; [exact HR|]. eapply near_bump; exact HR. Qed.
Lemma reef_now W l s : R W l s -> reef_ok [] (s_x s).
Proof. intros (V & _). destruct (v_x _ _ _ _ _ _ _ _ _ _ _ V) as (L & _ & H). exact H. Qed.
Definition covered (a : agent unit) (s : st unit reef) : Prop := cov -> exists b, In b (s_pop s) /\ no_worse (p_mm P) (fit b) (fit a).
Lemma settle_put W W' l s i a x : R W l s -> i < n -> good (s_log s) a -> incl W' W -> (forall b, In b W -> b = a \/ In b W') ->
  (cov -> forall g b, s_gb s0 = Some g -> nth_error (s_pop s) i = Some b -> no_worse (p_mm P) (fit g) (fit b) \/ no_worse (p_mm P) (fit a) (fit b)) ->
  reef_ok [] x -> R W' l (with_x (with_pop s (upd (s_pop s) i a)) x).
Proof.
  intros (V & Hl & HL) Hi Ga Hinc HW Hc Hx. split; [|split; [cbn [with_x with_pop s_pop]; rewrite upd_length; exact Hl|exact HL]].
  apply Ev_x; [|exists []; split; [intros ? []|exact Hx]].
  apply Ev_pop_set with (W := W); [apply HP|apply HP|exact V|lia|exact Ga|exact Hinc|].
  intros C0 g b Hg [Hb|Hb].
  - destruct (Hc C0 g b Hg Hb); auto.
  - destruct (HW b Hb) as [->|H]; [right; left; apply no_worse_refl; [apply HP|eapply num_good; eassumption]|right; right; exact H].
Qed.
Lemma wp_settle a k : forall W W' l s (Q : unit -> st unit reef -> Prop), K W l s -> good (s_log s) a -> incl W' W -> (forall b, In b W -> b = a \/ In b W') ->
  (k = 0 -> covered a s) -> (forall s', K W' l s' -> s_log s' = s_log s -> Q tt s') -> wp (cro_settle E P n a k) Q s.
Proof.
  induction k as [|k IH]; intros W W' l s Q HK Ga Hinc HW Hcov HQ; cbn [cro_settle].
  - apply wp_ret. apply HQ; [|reflexivity]. destruct HK as [(V & Hl & HL) HO]. split; [|exact HO]. split; [|split; assumption].
    replace s with (with_pop s (s_pop s)) by (destruct s; reflexivity). eapply Ev_set; [exact V| | |].
    + intros b Hb. eapply Ev_pop_good; eassumption.
    + intros b Hb. pose proof (v_W _ _ _ _ _ _ _ _ _ _ _ V) as G. rewrite Forall_forall in G. apply G, Hinc, Hb.
    + intros C0 g b Hg Hb. right. apply in_app_or in Hb.
      assert (N : In b (s_pop s) -> exists b0, In b0 (s_pop s ++ W') /\ no_worse (p_mm P) (fit b0) (fit b)).
      { intros Hin. exists b. split; [apply in_or_app; left; exact Hin|]. apply no_worse_refl; [apply HP|]. eapply num_good; [exact HP|exact C0|eapply Ev_pop_good; eassumption]. }
      destruct Hb as [Hb|Hb]; [exact (N Hb)|]. destruct (HW b Hb) as [->|Hb'].
      * destruct (Hcov eq_refl C0) as (b' & Hb' & Hw). exists b'. split; [apply in_or_app; left; exact Hb'|exact Hw].
      * exists b. split; [apply in_or_app; right; exact Hb'|]. apply no_worse_refl; [apply HP|]. eapply num_good; [exact HP|exact C0|].
        pose proof (v_W _ _ _ _ _ _ _ _ _ _ _ V) as G. rewrite Forall_forall in G. apply G, Hb.
  - apply wp_bind, wp_integers; [lia|]. intros i q Hi. assert (HK1 := K_bump W l s q HK). set (s1 := bump s q) in *.
    assert (Ga1 : good (s_log s1) a) by exact Ga. assert (El : s_log s1 = s_log s) by reflexivity. clearbody s1. rewrite <- El in HQ. clear El HK Ga Hcov s q.
    pose proof HK1 as [HR HO]. pose proof (reef_now _ _ _ HR) as [X1 X2]. pose proof HR as (V & Hl & HL).
    apply wp_bind, wp_get_x. destruct (mem_nat i (reef_idx (s_x s1))) eqn:Em; cbn [negb].
    + apply mem_nat_in in Em. apply wp_bind, wp_pop_at; [lia|]. intros old Eo Ho.
      assert (Go : good (s_log s1) old) by (eapply Ev_pop_good; eassumption).
      destruct (compare_agents_ok E P feas _ _ HP _ a old Ga1 Go) as (b & Eb & Hb).
      apply wp_bind. eapply wp_lift; [exact Eb|]. destruct b.
      * apply wp_pop_set; [lia|]. apply HQ; [|reflexivity]. split.
        -- replace (with_pop s1 _) with (with_x (with_pop s1 (upd (s_pop s1) i a)) (s_x s1)) by (destruct s1; reflexivity).
           eapply settle_put; [exact HR|lia|exact Ga1|exact Hinc|exact HW| |split; assumption].
           intros C0 g b Hg Hb'. right. assert (Some b = Some old) as [= ->] by (rewrite <- Hb'; exact Eo). apply Hb; eapply num_good; eassumption.
        -- cbn [with_pop s_pop s_x]. intros j b Hj Hnot. destruct (Nat.eq_dec j i) as [->|Hji]; [contradiction|]. rewrite upd_nth_neq in Hj by auto. eapply HO; eassumption.
      * eapply IH; [exact HK1|exact Ga1|exact Hinc|exact HW| |exact HQ]. intros _ C0. exists old. split; [exact Ho|]. apply Hb; eapply num_good; eassumption.
    + assert (Hnot : ~ In i (reef_idx (s_x s1))) by (intros Hin; apply mem_nat_in in Hin; congruence).
      apply wp_bind, wp_pop_set; [lia|]. unfold wp, set_x. apply HQ; [|reflexivity]. split.
      * eapply settle_put; [exact HR|lia|exact Ga1|exact Hinc|exact HW| |].
        -- intros C0 g b Hg Hb. left. eapply Ev_old; [exact V|exact C0|exact Hg|eapply Ev_pop_good; [exact V|eapply nth_error_In; exact Hb]|eapply HO; eassumption].
        -- unfold reef_idx. cbn [fst]. split; [apply Forall_app; split; [exact X1|constructor; [lia|constructor]]|].
           eapply Permutation_NoDup; [apply Permutation_cons_append|]. constructor; assumption.
      * cbn [with_x with_pop s_pop s_x]. unfold reef_idx at 1. cbn [fst]. intros j b Hj Hj2. assert (j <> i) by (intros ->; apply Hj2, in_or_app; right; left; reflexivity).
        rewrite upd_nth_neq in Hj by auto. eapply HO; [exact Hj|]. intros Hin. apply Hj2, in_or_app; left; exact Hin.
Qed.
Lemma wp_larvae trials new : 0 < trials -> forall W l s (Q : unit -> st unit reef -> Prop), K (W ++ new) l s -> Forall (good (s_log s)) new ->
  (forall s', K W l s' -> s_log s' = s_log s -> Q tt s') -> wp (cro_larvae E P n trials new) Q s.
Proof.
  intros Ht. unfold cro_larvae. induction new as [|a new IH]; intros W l s Q HK Gn HQ; cbn [for_list].
  - apply wp_ret. rewrite app_nil_r in HK. auto.
  - inversion Gn as [|? ? Ga Gn']; subst. apply wp_bind. eapply wp_settle with (W' := W ++ new); [exact HK|exact Ga| | |intros; lia|].
    + intros b Hb. apply in_app_or in Hb. apply in_or_app. cbn. tauto.
    + intros b Hb. apply in_app_or in Hb. cbn in Hb. rewrite in_app_iff. destruct Hb as [Hb|[Hb|Hb]]; auto.
    + intros s' HK' El. rewrite <- El in Gn'. eapply IH; [exact HK'|exact Gn'|]. intros s2 HK2 E2. apply HQ; [exact HK2|congruence].
Qed.
Lemma drop_one {T} (l : list T) i : forall a m, List.length (filter (fun d => fst d =? i) (combine (seq a m) l)) <= 1 /\
  (i < a -> List.length (filter (fun d => fst d =? i) (combine (seq a m) l)) = 0).
Proof.
  induction l as [|x l IH]; intros a m; destruct m as [|m]; cbn [seq combine filter List.length]; try (split; [lia|reflexivity]).
  cbn [fst]. destruct (IH (S a) m) as [H1 H2]. destruct (Nat.eqb_spec a i) as [->|Hne]; cbn [List.length].
  - rewrite H2 by lia. split; [lia|lia].
  - split; [exact H1|]. intros Hi. apply H2. lia.
Qed.
Lemma filter_or_len {T} (f g : T -> bool) l : List.length l <= List.length (filter (fun d => negb (f d || g d)) l) + List.length (filter f l) + List.length (filter g l).
Proof. induction l as [|x l IH]; cbn [filter List.length]; [lia|]. destruct (f x), (g x); cbn [negb orb List.length]; lia. Qed.
Lemma rest_length sel i1 i2 : List.length sel - 2 <= List.length (map snd (filter (fun d : nat * nat => negb ((fst d =? i1) || (fst d =? i2))) (combine (seq 0 (List.length sel)) sel))).
Proof.
  rewrite map_length. pose proof (filter_or_len (fun d : nat * nat => fst d =? i1) (fun d => fst d =? i2) (combine (seq 0 (List.length sel)) sel)) as H.
  rewrite combine_length, seq_length, Nat.min_id in H. pose proof (proj1 (drop_one sel i1 0 (List.length sel))). pose proof (proj1 (drop_one sel i2 0 (List.length sel))). lia.
Qed.
Notation qt := (qt P feas (@anyatt unit) (eq n) reef_ok cov nd n0 n s0).
Lemma q_pairs k : forall sel, 2 * k <= List.length sel -> Forall (fun i => i < n) sel ->
  qt (cro_pairs E k sel) (fun l => List.length l = k /\ Forall (fun p => fst p < n /\ snd p < n) l).
Proof.
  induction k as [|k IH]; intros sel Hk Hs; cbn [cro_pairs]; [apply q_ret; split; [reflexivity|constructor]|].
  eapply q_bind; [apply choose2_ok; rewrite seq_length; lia|]. intros [i1 i2] [H1 H2]. cbn [fst snd] in H1, H2. apply in_seq in H1. apply in_seq in H2.
  eapply q_bind; [apply q_getitem; lia|]. cbv beta. intros s1 I1. eapply q_bind; [apply q_getitem; lia|]. cbv beta. intros s2 I2.
  eapply q_bind; [apply IH|].
  - pose proof (rest_length sel i1 i2). lia.
  - apply Forall_forall. intros x Hx. apply in_map_iff in Hx. destruct Hx as ([j y] & <- & Hx). apply filter_In in Hx. destruct Hx as [Hx _]. apply in_combine_r in Hx.
    rewrite Forall_forall in Hs. apply Hs, Hx.
  - intros r [Lr Fr]. apply q_ret. rewrite Forall_forall in Hs. split; [cbn; lia|]. constructor; [cbn; auto|exact Fr].
Qed.
Hypothesis Hbig : (Z.of_nat n <= 2 ^ 31)%Z.
Hypothesis Hfb : unit_num (c_fb c).
Hypothesis Hd : 2 <= n_dims P.
Lemma wp_broadcast W l s (Q : list (agent unit) -> st unit reef -> Prop) : R W l s ->
  (forall new s', List.length new <= n -> Forall (good (s_log s')) new -> R (W ++ new) (l + List.length new) s' -> s_pop s' = s_pop s -> Q new s') ->
  wp (cro_broadcast E P md c) Q s.
Proof.
  intros HR HQ. unfold cro_broadcast. apply wp_bind, wp_get_x. set (x := s_x s). pose proof (reef_now _ _ _ HR) as [X1 X2]. fold x in X1, X2. cbv zeta.
  set (occ := reef_idx x) in *. assert (Lo : List.length occ <= n).
  { pose proof (NoDup_incl_length X2 (l' := seq 0 n)) as T. rewrite seq_length in T. apply T. intros i Hi. apply in_seq. rewrite Forall_forall in X1. specialize (X1 i Hi). lia. }
  assert (Lp : part (c_fb c) (List.length occ) <= List.length occ) by (apply share_nat; [exact Hfb|lia]). set (k := part _ _) in *. clearbody k.
  apply wp_bind. eapply wp_mono; [eapply q_choice_noreplace; [exact Lp|exact HR]|]. intros sel s1 ([Ls (oth & Hp)] & N1).
  pose proof (R_near _ _ _ _ _ _ _ _ _ _ _ _ _ _ HR N1) as R1. pose proof (near_pop _ _ _ N1) as P1.
  set (rest := filter _ occ). assert (Fs : Forall (fun i => i < n) sel) by (eapply perm_front; eassumption).
  assert (Fr : Forall (fun i => i < n) rest). { apply Forall_forall. intros i Hi. apply filter_In in Hi. rewrite Forall_forall in X1. apply X1, Hi. }
  assert (Lr : List.length rest + List.length sel <= List.length occ).
  { unfold rest. assert (T : forall f : nat -> bool, List.length (filter f occ) = List.length (filter f (sel ++ oth))).
    { intros f. apply Permutation_length, perm_filter, Permutation_sym, Hp. }
    rewrite T, filter_app, app_length. rewrite <- (Permutation_length Hp), app_length.
    assert (E0 : filter (fun i => negb (mem_nat i sel)) sel = []).
    { assert (G : forall q, incl q sel -> filter (fun i => negb (mem_nat i sel)) q = []).
      { induction q as [|a q IHq]; intros Hq; [reflexivity|]. cbn [filter]. rewrite (proj2 (mem_nat_in a sel)) by (apply Hq; left; reflexivity). cbn [negb]. apply IHq. intros b Hb. apply Hq; right; exact Hb. }
      apply G, incl_refl. }
    rewrite E0. cbn [List.length]. pose proof (filter_length_le (fun i => negb (mem_nat i sel)) oth). lia. }
  clearbody rest. apply wp_bind. eapply wp_new_agents; [exact HP|qcorrect HP|qgea|exact R1| |].
  { intros i Hi. eapply q_bind; [apply q_getitem; exact Hi|]. cbv beta. intros j Hj. rewrite Forall_forall in Fr. specialize (Fr j Hj). quiet HP. }
  intros l1 s2 L1 G1 R2 P2. apply wp_bind. assert (Hk2 : 2 * (List.length sel / 2) <= List.length sel) by (apply Nat.mul_div_le; lia).
  set (h := List.length sel / 2) in *. clearbody h. eapply wp_mono; [eapply q_pairs; [exact Hk2|exact Fs|exact R2]|].
  intros prs s3 ([L3 F3] & N3). pose proof (R_near _ _ _ _ _ _ _ _ _ _ _ _ _ _ R2 N3) as R3. pose proof (near_pop _ _ _ N3) as P3.
  apply wp_bind. eapply wp_new_agents; [exact HP|qcorrect HP|qgea|exact R3| |].
  { intros i Hi. eapply q_bind; [apply q_getitem; exact Hi|]. cbv beta. intros [j1 j2] Hj. rewrite Forall_forall in F3. specialize (F3 _ Hj). cbn [fst snd] in *.
    eapply q_bind; [apply q_pop_sol; apply F3|]. intros x1 _. eapply q_bind; [apply q_pop_sol; apply F3|]. intros x2 _.
    eapply q_bind; [apply choose2_ok; rewrite seq_length; exact Hd|]. intros [p1 p2] _. apply q_ret. exact I. }
  intros l2 s4 L2 G2 R4 P4. apply wp_ret. apply HQ.
  - rewrite app_length. lia.
  - apply Forall_app. split; [|exact G2]. pose proof R4 as (V & _). pose proof (v_W _ _ _ _ _ _ _ _ _ _ _ V) as T. apply Forall_app in T. destruct T as [T _]. apply Forall_app in T. apply T.
  - rewrite app_length, app_assoc. replace (l + (List.length l1 + List.length l2)) with (l + List.length rest + List.length prs) by lia. exact R4.
  - congruence.
Qed.
Lemma wp_best W l s (Q : list (agent unit) -> st unit reef -> Prop) : R W l s ->
  (forall best, Forall (good (s_log s)) best -> List.length best <= n -> Q best s) -> wp (cro_best E P c) Q s.
Proof.
  intros HR HQ. unfold cro_best. apply wp_bind, wp_get_x. pose proof (reef_now _ _ _ HR) as [X1 X2]. set (occ := reef_idx (s_x s)) in *.
  assert (Lo : List.length occ <= n).
  { pose proof (NoDup_incl_length X2 (l' := seq 0 n)) as T. rewrite seq_length in T. apply T. intros i Hi. apply in_seq. rewrite Forall_forall in X1. specialize (X1 i Hi). lia. }
  pose proof (R_pop_all _ _ _ _ _ _ _ _ _ _ _ _ _ HR) as Gp. pose proof HR as (V & Hl & HL). apply wp_bind.
  eapply wp_for_list with (I := fun pre acc s' => s' = s /\ Forall (good (s_log s)) acc /\ List.length acc = List.length pre).
  - split; [reflexivity|]. split; [constructor|reflexivity].
  - intros pre i suf acc s' Ho (-> & Fa & La). apply wp_bind, wp_pop_at.
    + rewrite Forall_forall in X1. specialize (X1 i). rewrite Hl. apply X1. rewrite Ho. apply in_or_app; right; left; reflexivity.
    + intros a _ Ia. apply wp_ret. split; [reflexivity|]. rewrite !app_length, La. split; [|reflexivity]. apply Forall_app; split; [exact Fa|constructor; [|constructor]].
      rewrite Forall_forall in Gp. apply Gp, Ia.
  - intros best s' (-> & Fb & Lb). destruct (good_best E P feas (@anyatt unit) cov HP (s_log s) best Fb) as (sp & ix & Es & Hp & _).
    eapply wp_lift; [unfold get_sorted_and_trimmed_population; rewrite Es; reflexivity|].
    assert (Fsp : Forall (good (s_log s)) sp) by (eapply Permutation_Forall; [apply Permutation_sym; exact Hp|exact Fb]).
    apply HQ; [|rewrite firstn_length, (Permutation_length Hp); lia]. apply Forall_forall. intros a Ha. rewrite Forall_forall in Fsp. apply Fsp. rewrite <- (firstn_skipn (part (c_fa c) (List.length occ)) sp). apply in_or_app; left; exact Ha.
Qed.
Lemma q_depredated : qt (cro_depredated c) (fun out => Forall (fun i => i < n) out /\ List.length out <= n).
Proof.
  unfold cro_depredated. eapply q_bind; [apply q_get_x|]. cbv beta. intros x (_ & X1 & X2). set (occ := reef_idx x) in *.
  assert (Lo : List.length occ <= n).
  { pose proof (NoDup_incl_length X2 (l' := seq 0 n)) as T. rewrite seq_length in T. apply T. intros i Hi. apply in_seq. rewrite Forall_forall in X1. specialize (X1 i Hi). lia. }
  clearbody occ. intros W l s HR. apply wp_bind.
  eapply wp_for_list with (I := fun pre acc s' => near reef_ok s s' /\ List.length acc = List.length pre /\ Forall (fun p => fst p < n) acc).
  - split; [eapply near_refl; exact HR|]. split; [reflexivity|constructor].
  - intros pre i suf acc s' Ho (N1 & La & Fa). assert (Hi : i < n) by (rewrite Forall_forall in X1; apply X1; rewrite Ho; apply in_or_app; right; left; reflexivity).
    pose proof (R_near _ _ _ _ _ _ _ _ _ _ _ _ _ _ HR N1) as R1. apply wp_bind. eapply wp_mono; [eapply q_pop_fit; [exact Hi|exact R1]|].
    intros f s2 (_ & N2). apply wp_ret. split; [eapply near_trans; eassumption|]. rewrite !app_length, La. split; [reflexivity|]. apply Forall_app; split; [exact Fa|constructor; [exact Hi|constructor]].
  - intros fs s' (N1 & Lf & Ff). apply wp_ret. cbv zeta. split; [|exact N1]. set (idx := map fst _).
    assert (F : Forall (fun i => i < n) idx). { apply Forall_forall. intros i Hi. apply in_ksort in Hi. apply in_map_iff in Hi. destruct Hi as (p & <- & Hp). rewrite Forall_forall in Ff. apply Ff, Hp. }
    assert (L : List.length idx <= n). { unfold idx. rewrite map_length, (Permutation_length (ksorted_perm _ _ _)), Lf. exact Lo. }
    clearbody idx. destruct (_ =? 0); [split; assumption|]. split; [|rewrite skipn_length; lia].
    apply Forall_forall. intros i Hi. rewrite Forall_forall in F. apply F. rewrite <- (firstn_skipn (List.length idx - part (c_fd c) (List.length idx)) idx). apply in_or_app; right; exact Hi.
Qed.
Lemma q_params alpha gama : qt (cro_params c alpha gama) (fun _ => True).
Proof.
  unfold cro_params. eapply q_bind; [apply q_get_x|]. cbv beta. intros x (_ & X1 & X2). destruct x as [[occ [dyn g1]] cnt]. apply q_set_x. split; assumption.
Qed.
Lemma b0_cro trials epochs ep : 0 < trials ->
  blk0 P feas (@anyatt unit) (eq n) reef_ok cov nd n0 n s0 0 n (cro_evolve E P md c n trials epochs ep) (fun _ => True).
Proof.
  intros Ht W l s HR HO. unfold cro_evolve. apply wp_bind. eapply wp_broadcast; [exact HR|]. intros new s1 Ln Gn R1 P1.
  apply wp_bind. eapply (wp_larvae trials new Ht); [split; [exact R1|]|exact Gn|].
  { intros i a Hi _. unfold Old in HO. rewrite Forall_forall in HO. apply HO. rewrite <- P1. eapply nth_error_In; exact Hi. }
  intros s2 [R2 O2] E2. apply wp_bind. eapply wp_best; [exact R2|]. intros best Gb Lb. apply wp_bind.
  eapply (wp_larvae trials best Ht); [split; [apply (R_hold _ _ _ _ _ _ _ _ _ _ _ _ _ _ R2 Gb)|exact O2]|exact Gb|].
  intros s3 [R3 _] E3. match goal with |- wp ?m _ _ => assert (T : qt m (fun _ => True)) end.
  { eapply q_bind; [apply q_uniform|]. intros u _. eapply q_bind; [apply q_get_x|]. cbv beta. intros x (_ & X1 & X2). eapply q_bind with (Φ := fun _ => True); [|intros _ _; apply q_params].
    unfold when. destruct (flt u _); [|apply q_ret; exact I]. eapply q_bind; [apply q_depredated|]. intros out _. apply q_set_x. unfold reef_idx at 1 3. cbn [fst].
    split; [|apply NoDup_filter, seq_NoDup]. apply Forall_forall. intros i Hi. apply filter_In in Hi. destruct Hi as [Hi _]. apply in_seq in Hi. lia. }
  eapply wp_mono; [apply (T _ _ _ R3)|]. intros y s' (_ & N). split; [exact I|]. exists (List.length new). split; [lia|]. eapply R_near; eassumption.
Qed.
End CRO.
Theorem C64_OriginalCRO E P md c trials n epochs : 5 <= n -> (Z.of_nat n <= 2 ^ 31)%Z -> 0 < epochs -> 0 < trials -> unit_num (c_po c) -> unit_num (c_fb c) -> 2 <= n_dims P ->
  sound_run_gen E P md (original_cro E P md c trials n epochs) (fun _ => True) (fun _ => True) (fun _ => True) (eq n) true n n 0 n.
Proof.
  intros Hn Hbig He Ht Ho Hfb Hd.
  assert (T : sound_run_gen E P md (original_cro E P md c trials n epochs) (fun _ => True) (fun _ => True) (fun _ => True) (eq n) true (n + 0) (n + 0) 0 n).
  2:{ rewrite !Nat.add_0_r in T. exact T. }
  apply (sound_more E P md _ _ n epochs false (ret tt) _ (ret tt) _ (fun _ => True) (fun _ => True) (fun _ => True) (fun _ => @anyatt unit)
    (fun _ _ _ => True) (fun _ _ x => Forall (fun i => i < n) (reef_idx x) /\ NoDup (reef_idx x)) (fun _ _ x => Forall (fun i => i < n) (reef_idx x) /\ NoDup (reef_idx x))); auto; try lia.
  - intros feas rows _ _ Hp. apply plain_gea_ok, Hp.
  - intros feas Hp. apply ga_of_ok, plain_gea_ok, Hp.
  - intros feas Hp. apply vars_none; auto.
  - intros feas nd n0 s HP _ HS. unfold cro_start. apply wp_bind, wp_get_x, wp_bind. apply wp_choice_noreplace; [rewrite seq_length; apply occupied_nat; assumption|].
    intros r rest k Lr Hp. unfold wp, set_x. split; [|cbn; lia]. destruct HS. constructor; auto. cbn. exists []. split; [intros ? []|].
    unfold reef_idx. cbn [fst]. assert (ND : NoDup (r ++ rest)) by (eapply Permutation_NoDup; [apply Permutation_sym; exact Hp|apply seq_NoDup]).
    split; [|eapply nodup_front; exact ND]. apply Forall_forall. intros i Hi. assert (Hs : In i (seq 0 n)) by (eapply Permutation_in; [exact Hp|apply in_or_app; left; exact Hi]).
    apply in_seq in Hs. lia.
  - intros feas nd n0 s HP _ HI. eapply main_none. exact HI.
  - intros feas nd n0 HP _. eapply contract_of; [exact HP|]. intros ep s0 Hep _. apply b0_cro; auto; lia.
Qed.

(** ** OCRO *)
Section OCRO.
Variables (E : env) (P : problem) (md : MCore.mode) (c : cro_pars) (feas : vec -> Prop) (C : Prop) (nd n0 n : nat) (s0 : st unit reef).
Notation reef_ok := (fun (_ : list vec) (x : reef) => Forall (fun i => i < n) (reef_idx x) /\ NoDup (reef_idx x)).
Hypothesis HP : params E P feas (@anyatt unit) (false = true /\ C).
Hypothesis Hn : 2 <= n.
Notation gt := (gt P feas (@anyatt unit) (eq n) reef_ok (false = true /\ C) nd n0 n s0).
Notation gq := (gq P feas (@anyatt unit) (eq n) reef_ok (false = true /\ C) nd n0 n s0).
Notation ok := (ok P feas (@anyatt unit)).
Lemma gq_reef w : gq w get_x (fun x => reef_ok [] x /\ List.length (reef_idx x) <= n).
Proof.
  eapply gq_mono; [apply gq_get_x|]. intros x (L & _ & X1 & X2). split; [split; assumption|].
  pose proof (NoDup_incl_length X2 (l' := seq 0 n)) as T. rewrite seq_length in T. apply T. intros i Hi. apply in_seq. rewrite Forall_forall in X1. specialize (X1 i Hi). lia.
Qed.
Lemma gq_settle w a k : ok w a -> gq w (cro_settle E P n a k) (fun _ => True).
Proof.
  intros Ha. induction k as [|k IH]; cbn [cro_settle]; [apply gq_ret; exact I|].
  eapply gq_bind; [eapply gq_qt; [exact HP|noc|]; apply q_integers; lia|]. cbv beta. intros i Hi.
  eapply gq_bind; [apply gq_reef|]. intros x [[X1 X2] _]. destruct (mem_nat i (reef_idx x)) eqn:Em; cbn [negb].
  - eapply gq_bind; [apply gq_pop_at; lia|]. intros old Ho. eapply gq_bind; [eapply gq_compare; [exact HP|noc|exact Ha|exact Ho]|].
    intros [] _; [eapply gq_pop_set; [exact HP|noc|lia|exact Ha]|exact IH].
  - eapply gq_bind; [eapply gq_pop_set; [exact HP|noc|lia|exact Ha]|]. intros _ _. apply gq_set_x.
    assert (Hnot : ~ In i (reef_idx x)) by (intros Hin; apply mem_nat_in in Hin; congruence).
    unfold reef_idx. cbn [fst]. split; [apply Forall_app; split; [exact X1|constructor; [lia|constructor]]|].
    eapply Permutation_NoDup; [apply Permutation_cons_append|]. constructor; assumption.
Qed.
Lemma gq_larvae w trials l : Forall (ok w) l -> gq w (cro_larvae E P n trials l) (fun _ => True).
Proof.
  intros Hl. unfold cro_larvae. eapply gq_for_list with (I := fun _ => True); [exact I|]. intros a b Ha _. rewrite Forall_forall in Hl. apply gq_settle, Hl, Ha.
Qed.
Hypothesis Hbig : (Z.of_nat n <= 2 ^ 31)%Z.
Hypothesis Hfb : unit_num (c_fb c).
Hypothesis Hd : 2 <= n_dims P.
Lemma g_broadcast w : gt w 0 n (cro_broadcast E P md c) (fun w' l => Forall (ok w') l).
Proof.
  unfold cro_broadcast. eapply g_qbind; [apply gq_reef|]. intros x [[X1 X2] Lo]. cbv zeta. set (occ := reef_idx x) in *.
  assert (Lp : part (c_fb c) (List.length occ) <= List.length occ) by (apply share_nat; [exact Hfb|lia]). set (k := part _ _) in *. clearbody k.
  eapply g_qbind; [eapply gq_qt; [exact HP|noc|]; apply q_choice_noreplace; exact Lp|]. cbv beta. intros sel [Ls (oth & Hp)].
  set (rest := filter _ occ). assert (Fs : Forall (fun i => i < n) sel) by (eapply perm_front; eassumption).
  assert (Fr : Forall (fun i => i < n) rest). { apply Forall_forall. intros i Hi. apply filter_In in Hi. rewrite Forall_forall in X1. apply X1, Hi. }
  assert (Lr : List.length rest + List.length sel <= List.length occ).
  { unfold rest. assert (T : forall f : nat -> bool, List.length (filter f occ) = List.length (filter f (sel ++ oth))).
    { intros f. apply Permutation_length, perm_filter, Permutation_sym, Hp. }
    rewrite T, filter_app, app_length. rewrite <- (Permutation_length Hp), app_length.
    assert (E0 : filter (fun i => negb (mem_nat i sel)) sel = []).
    { assert (G : forall q, incl q sel -> filter (fun i => negb (mem_nat i sel)) q = []).
      { induction q as [|a q IHq]; intros Hq; [reflexivity|]. cbn [filter]. rewrite (proj2 (mem_nat_in a sel)) by (apply Hq; left; reflexivity). cbn [negb]. apply IHq. intros b Hb. apply Hq; right; exact Hb. }
      apply G, incl_refl. }
    rewrite E0. cbn [List.length]. pose proof (filter_length_le (fun i => negb (mem_nat i sel)) oth). lia. }
  clearbody rest. set (h := List.length sel / 2). assert (Hk2 : 2 * h <= List.length sel) by (apply Nat.mul_div_le; lia). clearbody h.
  eapply g_mono with (a := List.length rest + (h + 0)) (b := List.length rest + (h + 0)) (Φ := fun w' l => Forall (ok w') l); [|lia|lia|auto].
  eapply g_bind.
  { eapply g_new_agents; [exact HP|noc|qcorrect HP|qgea|]. intros w' i _ Hi. eapply gq_qt; [exact HP|noc|]. eapply q_bind; [apply q_getitem; exact Hi|]. cbv beta. intros j Hj.
    rewrite Forall_forall in Fr. specialize (Fr j Hj). quiet HP. }
  intros l1 w1 Hw1 [L1 F1]. eapply g_qbind; [eapply gq_qt; [exact HP|noc|]; eapply q_pairs; auto|]. intros prs [L3 F3].
  rewrite <- L3 at 1 2. eapply g_bind.
  { eapply g_new_agents; [exact HP|noc|qcorrect HP|qgea|]. intros w' i _ Hi. eapply gq_qt; [exact HP|noc|]. eapply q_bind; [apply q_getitem; exact Hi|]. cbv beta. intros [j1 j2] Hj.
    rewrite Forall_forall in F3. specialize (F3 _ Hj). cbn [fst snd] in *.
    eapply q_bind; [apply q_pop_sol; apply F3|]. intros x1 _. eapply q_bind; [apply q_pop_sol; apply F3|]. intros x2 _.
    eapply q_bind; [apply choose2_ok; rewrite seq_length; exact Hd|]. intros [p1 p2] _. apply q_ret. exact I. }
  intros l2 w2 Hw2 [L2 F2]. apply g_ret. apply Forall_app; split; [|exact F2]. eapply oks_mono; [exact HP|exact Hw2|exact F1].
Qed.
Lemma gq_cro_best w : gq w (cro_best E P c) (fun l => Forall (ok w) l /\ List.length l <= n).
Proof.
  unfold cro_best. eapply gq_bind; [apply gq_reef|]. intros x [[X1 X2] Lo]. set (occ := reef_idx x) in *.
  eapply gq_bind with (Φ := fun l => Forall (ok w) l /\ List.length l <= List.length occ).
  - assert (T : forall l acc, Forall (fun i => i < n) l -> Forall (ok w) acc -> gq w (for_list l acc (fun i acc => a <- pop_at i ;; ret (acc ++ [a])%list)) (fun r => Forall (ok w) r /\ List.length r <= List.length acc + List.length l)).
    { induction l as [|i l IH]; intros acc Fl Fa; cbn [for_list].
      - apply gq_ret. split; [exact Fa|cbn; lia].
      - inversion Fl; subst. eapply gq_bind with (Φ := fun r => Forall (ok w) r /\ List.length r = List.length acc + 1).
        + eapply gq_bind; [apply gq_pop_at; assumption|]. intros a Ha. apply gq_ret. split; [apply Forall_app; split; [exact Fa|constructor; [exact Ha|constructor]]|rewrite app_length; reflexivity].
        + intros r [Fr Lr]. eapply gq_mono; [apply IH; assumption|]. intros q [Fq Lq]. split; [exact Fq|cbn; lia]. }
    eapply gq_mono; [apply T; [exact X1|constructor]|]. intros r [Fr Lr]. cbn in Lr. split; assumption.
  - intros best [Fb Lb]. eapply gq_mono; [eapply gq_trimmed; [exact HP|noc|exact Fb]|]. cbv beta. intros q (Fq & Lq). split; [first [exact Fq|exact Lq]|]. lia.
Qed.
Lemma g_ocro w trials restart epochs ep : md <> Process -> unit_num (c_po c) ->
  gt w 0 (4 * n) (ocro_evolve E P md c trials restart n epochs ep) (fun _ _ => True).
Proof.
  intros Hmd Hpo. unfold ocro_evolve. eapply g_mono with (a := 0 + (0 + (0 + 0))) (b := n + (n + (n + n))) (Φ := fun _ _ => True); [|lia|lia|auto].
  eapply g_bind; [apply g_broadcast|]. intros l w1 Hw1 Fl. cbv beta in Fl. eapply g_qbind; [apply gq_larvae; exact Fl|]. intros _ _.
  eapply g_qbind; [apply gq_cro_best|]. intros best [_ Lb]. eapply g_bind.
  { eapply g_mono; [eapply g_new_agents; [exact HP|noc|qcorrect HP|qgea|]|lia|exact Lb|intros w' y' _ Hy; exact Hy]. intros w' i _ Hi. eapply gq_qt; [exact HP|noc|]. quiet HP. }
  intros ls w2 Hw2 [_ Fls]. eapply g_qbind; [apply gq_larvae; exact Fls|]. intros _ _. eapply g_qbind; [gquiet HP|]. intros u _.
  eapply g_qbind; [apply gq_reef|]. intros x _. eapply g_bind with (Φ := fun _ _ => True).
  { unfold when. destruct (flt u _); [|eapply g_mono with (a := 0) (b := 0) (Φ := fun _ _ => True); [apply g_ret; exact I|lia|lia|auto]].
    eapply g_qbind; [eapply gq_qt; [exact HP|noc|]; apply q_depredated; lia|]. intros out [Fo Lo].
    eapply g_mono with (a := List.length out * 0) (b := List.length out * 1) (Φ := fun _ _ => True); [|lia|lia|auto].
    eapply g_for_list with (J := fun _ _ => True); [exact I|]. intros idx w3 y' Hw3 Hin _. rewrite Forall_forall in Fo. specialize (Fo _ Hin).
    eapply g_qbind; [apply gq_pop_at; exact Fo|]. intros a Ha. eapply g_qbind; [apply gq_get_gb|]. intros g Hg.
    eapply g_qbind with (Φ := feas).
    { eapply gq_qt; [exact HP|noc|]. unfold generate_opposition_solution. eapply q_bind; [apply q_uniform|]. intros r _. qcorrect HP. }
    intros z Hz. eapply g_mono with (a := 1 + 0) (b := 1 + 0) (Φ := fun _ _ => True); [|lia|lia|auto].
    eapply g_bind; [eapply g_gen_at; [exact HP|noc|qgea|exact Hz]|]. intros b w4 Hw4 Hb. cbv beta in Hb.
    apply g_quiet. eapply gq_bind; [apply gq_pop_at; exact Fo|]. intros old Ho. eapply gq_bind; [eapply gq_compare; [exact HP|noc|exact Hb|exact Ho]|].
    intros [] _; [eapply gq_pop_set; [exact HP|noc|exact Fo|exact Hb]|].
    eapply gq_bind; [apply gq_reef|]. intros x' [[X1 X2] _]. apply gq_set_x. unfold reef_idx at 1 3. cbn [fst]. split; [|apply NoDup_filter, X2].
    apply Forall_forall. intros i Hi. apply filter_In in Hi. rewrite Forall_forall in X1. apply X1, Hi. }
  intros _ w3 Hw3 _. eapply g_qbind; [eapply gq_qt; [exact HP|noc|]; apply q_params; lia|]. intros _ _.
  eapply g_qbind; [apply gq_reef|]. intros x2 [X _]. eapply g_qbind; [apply gq_get_pop|]. intros p [Lp Fp].
  eapply g_qbind; [eapply gq_best; [exact HP|noc|exact Fp|lia]|]. intros [lb ix] Hlb. eapply g_qbind; [apply gq_get_gb|]. intros g Hg.
  eapply g_qbind; [eapply gq_compare; [exact HP|noc|first [exact Hlb|apply Hlb]|exact Hg]|]. intros t _. cbv zeta.
  destruct (_ =? restart).
  - eapply g_mono with (a := n + 0) (b := n + 0) (Φ := fun _ _ => True); [|lia|lia|auto].
    eapply g_bind; [eapply g_population_with; [exact HP|noc|exact Hmd|apply ga_of_ok, plain_gea_ok, HP]|]. intros q w4 Hw4 [Lq Fq].
    apply g_quiet. eapply gq_bind; [apply gq_set_pop; [noc|exact Lq|exact Fq]|]. intros _ _.
    eapply gq_bind; [eapply gq_qt; [exact HP|noc|]; apply q_choice_noreplace; rewrite seq_length; apply occupied_nat; assumption|]. cbv beta.
    intros r [Lr (rest & Hp)]. apply gq_set_x. unfold reef_idx. cbn [fst]. assert (ND : NoDup (r ++ rest)) by (eapply Permutation_NoDup; [apply Permutation_sym; exact Hp|apply seq_NoDup]).
    split; [|eapply nodup_front; exact ND]. apply Forall_forall. intros i Hi. assert (Hs : In i (seq 0 n)) by (eapply Permutation_in; [exact Hp|apply in_or_app; left; exact Hi]).
    apply in_seq in Hs. lia.
  - eapply g_mono with (a := 0) (b := 0) (Φ := fun _ _ => True); [|lia|lia|auto]. apply g_quiet. apply gq_set_x. exact X.
Qed.
End OCRO.
Theorem C65_OCRO E P md c trials restart n epochs : md <> Process -> 5 <= n -> (Z.of_nat n <= 2 ^ 31)%Z -> 0 < epochs -> unit_num (c_po c) -> unit_num (c_fb c) -> 2 <= n_dims P ->
  sound_run_gen E P md (ocro E P md c trials restart n epochs) (fun _ => True) (fun _ => True) (fun _ => True) (eq n) false n n 0 (4 * n).
Proof.
  intros Hmd Hn Hbig He Ho Hfb Hd.
  assert (T : sound_run_gen E P md (ocro E P md c trials restart n epochs) (fun _ => True) (fun _ => True) (fun _ => True) (eq n) false (n + 0) (n + 0) 0 (4 * n)).
  2:{ rewrite !Nat.add_0_r in T. exact T. }
  apply (sound_more E P md _ _ n epochs false _ _ (ret tt) _ (fun _ => True) (fun _ => True) (fun _ => True) (fun _ => @anyatt unit)
    (fun _ _ _ => True) (fun _ _ x => Forall (fun i => i < n) (reef_idx x) /\ NoDup (reef_idx x)) (fun _ _ x => Forall (fun i => i < n) (reef_idx x) /\ NoDup (reef_idx x))); auto; try lia.
  - intros feas rows _ _ Hp. apply plain_gea_ok, Hp.
  - intros feas Hp. apply ga_of_ok, plain_gea_ok, Hp.
  - intros feas Hp. eapply vars_set. intros s. apply wp_bind, wp_get_x, wp_ret. split; [exists (s_ctr s); destruct s; reflexivity|exact I].
  - intros feas nd n0 s HP _ HS. unfold cro_start. apply wp_bind, wp_get_x, wp_bind. apply wp_choice_noreplace; [rewrite seq_length; apply occupied_nat; assumption|].
    intros r rest k Lr Hp. unfold wp, set_x. split; [|cbn; lia]. destruct HS. constructor; auto. cbn. exists []. split; [intros ? []|].
    unfold reef_idx. cbn [fst]. assert (ND : NoDup (r ++ rest)) by (eapply Permutation_NoDup; [apply Permutation_sym; exact Hp|apply seq_NoDup]).
    split; [|eapply nodup_front; exact ND]. apply Forall_forall. intros i Hi. assert (Hs : In i (seq 0 n)) by (eapply Permutation_in; [exact Hp|apply in_or_app; left; exact Hi]).
    apply in_seq in Hs. lia.
  - intros feas nd n0 s HP _ HI. eapply main_none. exact HI.
  - intros feas nd n0 HP _. apply contract_free. intros ep s0 w Hep _. apply g_ocro; auto; lia.
Qed.

Print Assumptions C65_OriginalIMODE.
Print Assumptions C64_OriginalIMODE_minimization.
Print Assumptions C65_OriginalBFO.
Print Assumptions C65_ABFO_returning.
Print Assumptions C64_OriginalCRO.
Print Assumptions C65_OCRO.
