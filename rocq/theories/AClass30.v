(** HI_WOA and OriginalEFO keep the best solution they evaluate. *)
From Coq Require Import Permutation Reals Lra.
From Verif Require Import Prelude Fl MCore MHelp MAlg MAlg2 MAlg3 MAlg4 MAlg5 MAlg6 MAlg7 MAlg8 SpecCore SpecRun SpecAlg SpecWhen Demo
  FlRound FlPart FlShare FlOcc PSelect PLogic PSolve PRun PAlg PFree PClass PAlg2 PAlg3 PAlg4 PAlg5 PAlg6 PAlg7 PAlg8 PAlg9 PRef PElse PAlg10 PAlg11 PAlg13 PAlg14 AMath AClass9 AClass14 AClass17 AClass18 AClass19
  MClass5 MClass17 MClass20 MClass23 AClass24 AClass29.

(** ** OriginalEFO (EFO.py:115-236): the agent that is overwritten was evaluated before the epoch. *)
Theorem C64_OriginalEFO E P md rr ps pf nf n epochs : 5 <= n -> 0 < epochs -> efo_ok n pf nf ->
  sound_run E P md (original_efo E P md rr ps pf nf n epochs) (fun _ => True) true 1 1.
Proof.
  intros Hn He ([H1 H2] & H3 & H4). plain. unfold efo_evolve.
  set (t := efo_top n pf) in *. set (m := efo_middle n pf) in *. set (b := efo_bottom n nf) in *. clearbody t m b.
  eapply b0_qbind with (Φ := fun _ => True); [quiet HP|]. intros r _.
  eapply b0_qbind with (Φ := fun _ => True); [quiet HP|]. intros x _.
  eapply b0_qbind with (Φ := fun _ => True); [quiet HP|]. intros v _.
  eapply b0_qbind with (Φ := fun _ => True); [quiet HP|]. intros z _.
  intros W l s HR HO. apply wp_bind. eapply wp_gen_agent; [exact HP|qcorrect HP|qgea|exact HR|]. intros a s1 Ga R1 P1.
  pose proof R1 as (V & Hl & HL). apply wp_pop_set; [lia|]. split; [exact I|]. exists 1. split; [lia|].
  split; [|split; [cbn [s_pop]; rewrite upd_length; exact Hl|exact HL]].
  match goal with |- Ev _ _ _ _ _ _ _ _ _ _ ?st => change st with (with_pop s1 (upd (s_pop s1) (n - 1) a)) end.
  apply Ev_pop_set with (W := W ++ [a]); [apply HP|apply HP|exact V|lia|exact Ga|intros q Hq; apply in_or_app; left; exact Hq|].
  intros C0 g q Hg [Hq|Hq].
  - left. eapply Ev_old; [exact V|exact C0|exact Hg|eapply Ev_pop_good; [exact V|eapply nth_error_In; exact Hq]|].
    unfold Old in HO. rewrite Forall_forall in HO. apply HO. rewrite <- P1. eapply nth_error_In; exact Hq.
  - right. apply in_app_or in Hq. destruct Hq as [Hq|[<-|[]]]; [right; exact Hq|left]. eapply same_covers; [exact HP|exact C0|exact Ga].
Qed.

(** ** HI_WOA (WOA.py:182-289): random agents come in only when the best of the population is not better than the global best. *)
Lemma feq_no_worse mm x y : valid_mm mm -> num x -> num y -> feq x y = true -> no_worse mm y x.
Proof.
  intros Hm Hx Hy He. apply feq_FR in He; [|assumption|assumption].
  destruct Hm as [-> | ->]; cbn [no_worse]; apply fle_FR; auto; lra.
Qed.
Section HI.
Variables (E : env) (P : problem) (md : MCore.mode) (feas : vec -> Prop) (cov : Prop) (nd n0 n : nat) (s0 : st unit nat).
Hypothesis HP : params E P feas (@anyatt unit) cov.
Hypothesis Hn : 2 <= n.
Hypothesis Hmd : md <> Process.
Notation IX := (fun (_ : list vec) (_ : nat) => True).
Notation R := (R P feas (@anyatt unit) (eq n) IX cov nd n0 n s0).
Notation good := (good P feas (@anyatt unit)).
Notation gb := (fun s : st unit nat => s_gb s).
Lemma fr_greedy k nf (cand : nat -> M unit nat vec) : (forall i, fr gb (cand i)) -> fr gb (greedy_each P md (correct_solution P) (generate_empty_agent P tt) k nf cand).
Proof.
  intros H. unfold greedy_each, greedy_loop, keep_better. frs; auto.
Qed.
Lemma wp_hi_woa feedback epochs ep l s : 0 < feedback -> R [] l s -> s_gb s = s_gb s0 ->
  wp (hi_woa_evolve E P md feedback n epochs ep) (fun _ s' => exists k, n <= k <= n + n / 2 /\ R [] (l + k) s') s.
Proof.
  intros Hf HR HG. assert (Hh : n / 2 <= n) by (apply Nat.div_le_upper_bound; lia). unfold hi_woa_evolve. cbv zeta. set (h := n / 2) in *. clearbody h. apply wp_bind.
  eapply wp_fr; [apply fr_greedy; intros i; frs; unfold choice1; frs|].
  eapply wp_mono; [eapply (b_greedy_each _ _ _ _ _ _ _ _ _ _ _ _ HP) with (m := n); [qcorrect HP|qgea|reflexivity| |exact HR]|].
  { intros i Hi. quiet HP. }
  intros [] s1 (_ & k & Hk & R1) G1. cbv beta in G1. assert (k = n) as -> by lia.
  pose proof R1 as (V1 & L1 & LL1). assert (Gg : s_gb s1 = s_gb s0) by congruence.
  destruct (v_gb _ _ _ _ _ _ _ _ _ _ _ V1) as (g & Eg & Ggd). pose proof (R_pop_all _ _ _ _ _ _ _ _ _ _ _ _ _ R1) as Gp.
  apply wp_bind, wp_get_pop, wp_bind.
  destruct (good_best E P feas (@anyatt unit) cov HP (s_log s1) (s_pop s1) Gp) as (sp & ix & Es & Hp & Hb).
  pose proof (Permutation_length Hp) as Lsp. destruct sp as [|lb0 sp]; [cbn in Lsp; lia|].
  assert (In0 : In lb0 (s_pop s1)) by (eapply Permutation_in; [exact Hp|left; reflexivity]).
  assert (Gl0 : good (s_log s1) lb0) by (rewrite Forall_forall in Gp; apply Gp, In0).
  destruct (sorted_population_spec (e_argsort E) (pr_argsort _ _ _ _ _ HP) (s_pop s1) (p_mm P) (Forall_good_target _ _ _ _ _ Gp)) as (sp' & ix' & Es' & Hix & _).
  rewrite Es in Es'. injection Es' as <- <-. pose proof (Permutation_length Hix) as Lix. rewrite seq_length in Lix. destruct ix as [|i0 ix]; [cbn in Lix; lia|].
  eapply wp_lift; [unfold get_best_agent; rewrite Es; cbn [bind getitem nth_error]; rewrite (agent_copy_wf lb0) by (eapply good_wf; exact Gl0); reflexivity|].
  assert (Ht : forall a, good (s_log s1) a -> fitness a = Ok (fit a)) by (intros a Ga; apply fitness_fit; unfold has_target; rewrite (g_tgt _ _ _ _ _ Ga); discriminate).
  apply wp_bind. eapply wp_lift; [apply Ht, Gl0|]. apply wp_bind. unfold gb_fit. apply wp_bind. eapply wp_get_gb; [exact Eg|]. eapply wp_lift; [apply Ht, Ggd|].
  apply wp_bind, wp_get_x. apply wp_bind. unfold wp at 1, set_x at 1. set (c' := if feq _ _ then _ else _).
  assert (R2 : R [] (l + n) (with_x s1 c')).
  { split; [|split; assumption]. apply Ev_x; [exact V1|]. exists []. split; [intros ? []|exact I]. }
  assert (Hc : feedback <= c' -> cov -> forall a, In a (s_pop s1) -> no_worse (p_mm P) (fit g) (fit a)).
  { intros Hle C0 a Ha. subst c'. destruct (feq (fit lb0) (fit g)) eqn:Ef; [|lia].
    eapply no_worse_trans; [apply (feq_no_worse _ (fit lb0)); [apply HP|eapply num_good; eassumption|eapply num_good; eassumption|exact Ef]|]. apply (Hb C0 lb0 a); [reflexivity|exact Ha]. }
  clearbody c'. set (s2 := with_x s1 c') in *. change (s_pop s1) with (s_pop s2) in Hc.
  match goal with |- wp ?m ?Q _ => change (wp m Q s2) end.
  assert (G2 : s_gb s2 = s_gb s0) by exact Gg. assert (Eg2 : s_gb s2 = Some g) by exact Eg. clearbody s2.
  unfold when. destruct (Nat.leb_spec feedback c') as [Hle|Hle].
  2:{ apply wp_ret. exists n. split; [lia|exact R2]. }
  specialize (Hc Hle). apply wp_bind. apply wp_choice_noreplace; [rewrite seq_length; exact Hh|]. intros is rest k Li Hperm.
  assert (ND : NoDup (is ++ rest)) by (eapply Permutation_NoDup; [apply Permutation_sym; exact Hperm|apply seq_NoDup]). apply nodup_front in ND.
  assert (Fi : forall i, In i is -> i < n).
  { intros i Hi. assert (Hs : In i (seq 0 n)) by (eapply Permutation_in; [exact Hperm|apply in_or_app; left; exact Hi]). apply in_seq in Hs. lia. }
  assert (R3 : R [] (l + n) (bump s2 k)) by (eapply R_near; [exact R2|eapply near_bump; exact R2]).
  apply wp_bind. eapply wp_population_with; [exact HP|exact R3|exact Hmd|apply ga_ok_contract, ga_of_ok, plain_gea_ok, HP|]. intros new s4 Ln R4 P4. cbn [app] in R4.
  change (s_pop (bump s2 k)) with (s_pop s2) in P4. pose proof R4 as (V4 & L4 & LL4). pose proof (v_W _ _ _ _ _ _ _ _ _ _ _ V4) as Gn.
  pose proof (R_pop_all _ _ _ _ _ _ _ _ _ _ _ _ _ R4) as Gp4.
  eapply wp_for with (I := fun j s' => exists p, s' = with_pop s4 p /\ List.length p = n /\ Forall (good (s_log s4)) p /\
    forall i, i < j -> exists a d, nth_error is i = Some d /\ nth_error new i = Some a /\ nth_error p d = Some a).
  - exists (s_pop s4). split; [destruct s4; reflexivity|]. split; [exact L4|]. split; [exact Gp4|]. intros; lia.
  - intros j s' Hj (p & -> & Lp & Fp & Hin).
    destruct (nth_error is j) as [d|] eqn:Ed; [|apply nth_error_None in Ed; lia]. destruct (nth_error new j) as [a|] eqn:Ea; [|apply nth_error_None in Ea; lia].
    apply wp_bind. eapply wp_lift; [unfold getitem; rewrite Ed; reflexivity|]. apply wp_bind. eapply wp_lift; [unfold getitem; rewrite Ea; reflexivity|].
    assert (Hd : d < n) by (apply Fi; eapply nth_error_In; exact Ed). assert (Ga : good (s_log s4) a) by (rewrite Forall_forall in Gn; apply Gn; eapply nth_error_In; exact Ea).
    apply wp_pop_set; [cbn [with_pop s_pop]; lia|]. exists (upd p d a). split; [reflexivity|]. split; [rewrite upd_length; exact Lp|].
    split.
    + apply Forall_forall. intros q Hq. apply In_nth_error in Hq. destruct Hq as [i Hi]. destruct (Nat.eq_dec d i) as [<-|Hne].
      * rewrite upd_nth_eq in Hi by lia. injection Hi as <-. exact Ga.
      * rewrite upd_nth_neq in Hi by exact Hne. rewrite Forall_forall in Fp. apply Fp. eapply nth_error_In; exact Hi.
    + intros i Hi. destruct (Nat.eq_dec i j) as [->|Hne].
      * exists a, d. split; [exact Ed|]. split; [exact Ea|]. apply upd_nth_eq. lia.
      * destruct (Hin i ltac:(lia)) as (a' & d' & E1 & E2 & E3). exists a', d'. split; [exact E1|]. split; [exact E2|]. rewrite upd_nth_neq; [exact E3|].
        intros <-. apply Hne. eapply (proj1 (NoDup_nth_error is) ND); [apply nth_error_Some; congruence|congruence].
  - intros s' (p & -> & Lp & Fp & Hin). exists (n + h). split; [lia|]. rewrite Nat.add_assoc. split; [|split; [exact Lp|exact LL4]].
    eapply Ev_set; [exact V4|rewrite Forall_forall in Fp; exact Fp|intros a []|].
    intros C0 g' a Hg' Ha. apply in_app_or in Ha. destruct Ha as [Ha|Ha].
    + left. rewrite P4 in Ha. rewrite <- G2, Eg2 in Hg'. injection Hg' as <-. apply Hc; assumption.
    + right. exists a. apply In_nth_error in Ha. destruct Ha as [i Hi]. assert (Hih : i < h) by (rewrite <- Ln; apply nth_error_Some; congruence).
      destruct (Hin i Hih) as (a' & d & E1 & E2 & E3). assert (a' = a) as -> by congruence. split; [apply in_or_app; left; eapply nth_error_In; exact E3|].
      eapply same_covers; [exact HP|exact C0|]. rewrite Forall_forall in Fp. apply Fp. eapply nth_error_In; exact E3.
Qed.
End HI.
Theorem C64_HI_WOA E P md feedback_max n epochs : 5 <= n -> 0 < epochs -> 0 < feedback_max -> md <> Process ->
  sound_run E P md (hi_woa E P md feedback_max n epochs) (fun _ => True) true n (n + n / 2).
Proof.
  intros Hn He Hf Hmd. apply gen_plain.
  apply (sound_agents E P md (generate_empty_agent P tt) (ga_of P (generate_empty_agent P tt)) n epochs true hi_woa_vars (ret tt) _ _ _ (fun _ => @anyatt unit) (fun _ _ _ => True) (fun _ _ _ => True)); auto; try lia.
  - intros feas Hp. apply plain_gea_ok, Hp.
  - intros feas Hp. apply ga_of_ok, plain_gea_ok, Hp.
  - intros feas Hp. apply vars_set. draws. exact I.
  - intros feas nd n0 s HP _ HI. eapply main_none. exact HI.
  - intros feas nd n0 HP _ ep s Hep HI.
    assert (HR : R P feas (@anyatt unit) (eq n) (fun (_ : list vec) (_ : nat) => True) (true = true /\ obj_num P feas) nd n0 n s [] (List.length (s_log s)) s).
    { split; [apply Ev_init; exact HI|]. split; [symmetry; apply (i_len _ _ _ _ _ _ _ _ _ HI)|reflexivity]. }
    eapply wp_mono; [eapply wp_hi_woa; [exact HP|lia|exact Hmd|exact Hf|exact HR|reflexivity]|].
    intros [] s' (k & Hk & V & Hl & HL). split; [exact V|]. split; [symmetry; exact Hl|]. lia.
Qed.
(** ** The conditions are met by the default settings *)
Example efo_ok_default : efo_ok 50 (dec 1 10) (dec 45 100).
Proof.
  assert (T : ((0 <? efo_top 50 (dec 1 10)) && (efo_top 50 (dec 1 10) <=? 50) && (efo_middle 50 (dec 1 10) <? efo_bottom 50 (dec 45 100)) && (efo_bottom 50 (dec 45 100) <? 50))%nat = true) by (vm_compute; reflexivity).
  rewrite !andb_true_iff in T. destruct T as [[[T1 T2] T3] T4]. apply Nat.ltb_lt in T1, T3, T4. apply Nat.leb_le in T2. repeat split; assumption.
Qed.
(** po 0.4, Fb 0.9, Fa 0.1, Fd 0.1, Pd 0.5, GCR 0.1, gamma_min 0.02, gamma_max 0.2 (CRO.py:258-259). *)
Definition cro_default : cro_pars := mkCro (dec 4 10) (dec 9 10) (dec 1 10) (dec 1 10) (dec 5 10) (dec 1 10) (dec 2 100) (dec 2 10).
Example C64_OCRO_case : exists g s',
  solve demo_env (demo_prob Max l0norm true) Thread (ocro demo_env (demo_prob Max l0norm true) Thread cro_default 3 2 6 4) None None (st0 ([], (fZ 0, fZ 0), 0)) = Ok (g, s')
  /\ (forall x, In x (s_log s') -> no_worse Max (fit g) (fitx (demo_prob Max l0norm true) x)).
Proof.
  assert (H1 : unit_num (c_po cro_default)) by (split; vm_compute; reflexivity). assert (H2 : unit_num (c_fb cro_default)) by (split; vm_compute; reflexivity).
  destruct (C64_OCRO demo_env (demo_prob Max l0norm true) Thread cro_default 3 2 6 4 ltac:(discriminate) ltac:(lia) ltac:(lia) ltac:(lia) ltac:(lia) ltac:(lia) H1 H2 (le_n 2)
    (fun x => List.length x = 2) None None (st0 ([], (fZ 0, fZ 0), 0))) as (g & s' & E1 & E2).
  all: try exact I.
  - exact argsort_ins_ok.
  - right; reflexivity.
  - apply demo_problem_ok.
  - exists g, s'. split; [exact E1|]. apply (rs_elite _ _ _ _ _ _ _ _ _ _ E2). split; [reflexivity|apply demo_obj_num].
Qed.

Print Assumptions C64_OriginalEFO.
Print Assumptions C64_HI_WOA.
