(** OCRO keeps the best solution it evaluates: a restart happens only in an epoch whose population does not improve the best agent. *)
From Coq Require Import Permutation.
From Verif Require Import Prelude Fl MCore MHelp MAlg MAlg2 MAlg3 MAlg4 MAlg5 MAlg6 MAlg7 MAlg8 SpecCore SpecRun SpecAlg SpecWhen Demo
  FlRound FlPart FlShare FlOcc PSelect PLogic PSolve PRun PAlg PFree PClass PAlg2 PAlg3 PAlg4 PAlg5 PAlg6 PAlg7 PAlg8 PAlg9 PRef PElse PAlg10 PAlg11 PAlg13 PAlg14 AMath AClass9 AClass14 AClass17 AClass18 AClass19
  MClass20 MClass23 AClass24.

(** ** Computations that leave a part of the state alone *)
Section Frame.
Context {A X T : Type}.
Variable p : st A X -> T.
Definition fr {Y} (m : M A X Y) : Prop := forall s y s', m s = Ok (y, s') -> p s' = p s.
Lemma fr_ret {Y} (y : Y) : fr (ret y).
Proof. intros s y' s' H. injection H as _ <-. reflexivity. Qed.
Lemma fr_raise {Y} e : fr (Y := Y) (raise e).
Proof. intros s y' s' H. discriminate H. Qed.
Lemma fr_lift {Y} (r : res Y) : fr (lift r).
Proof. intros s y' s' H. unfold lift in H. destruct r; [injection H as _ <-; reflexivity|discriminate H]. Qed.
Lemma fr_bind {Y Z} (m : M A X Y) (f : Y -> M A X Z) : fr m -> (forall y, fr (f y)) -> fr (bindM m f).
Proof.
  intros H1 H2 s y s' H. unfold bindM in H. destruct (m s) as [[y1 s1]|e] eqn:E1; [|discriminate H].
  rewrite (H2 _ _ _ _ H). eapply H1; exact E1.
Qed.
Lemma fr_for_acc {B} n : forall i (b : B) f, (forall k b, fr (f k b)) -> fr (for_acc n i b f).
Proof. induction n as [|n IH]; intros i b f H; cbn [for_acc]; [apply fr_ret|]. apply fr_bind; auto. Qed.
Lemma fr_for_list {B U} (l : list U) : forall (b : B) f, (forall x b, fr (f x b)) -> fr (for_list l b f).
Proof. induction l as [|x l IH]; intros b f H; cbn [for_list]; [apply fr_ret|]. apply fr_bind; auto. Qed.
Lemma fr_get_gb : fr get_gb.
Proof. intros s y s' H. unfold get_gb in H. destruct (s_gb s); [injection H as _ <-; reflexivity|discriminate H]. Qed.
(** The rule: what the computation leaves alone may be assumed equal afterwards. *)
Lemma wp_fr {Y} (m : M A X Y) (Q : Y -> st A X -> Prop) s : fr m -> wp m (fun y s' => p s' = p s -> Q y s') s -> wp m Q s.
Proof. intros H. unfold wp. destruct (m s) as [[y s']|e] eqn:E; [|auto]. intros HQ. apply HQ. eapply H; exact E. Qed.
End Frame.
Ltac frprim := let H := fresh in intros ? ? ? H; injection H as _ <-; reflexivity.
Ltac frs :=
  repeat lazymatch goal with
  | |- fr _ (ret _) => apply fr_ret
  | |- fr _ (raise _) => apply fr_raise
  | |- fr _ (lift _) => apply fr_lift
  | |- fr _ get_gb => apply fr_get_gb
  | |- fr _ (bindM _ _) => apply fr_bind; [|intros ?]
  | |- fr _ (for_acc _ _ _ _) => apply fr_for_acc; intros
  | |- fr _ (for_list _ _ _) => apply fr_for_list; intros
  | |- fr _ (let _ := _ in _) => cbv zeta
  | |- fr _ (match ?x with _ => _ end) => destruct x
  | |- fr _ ?m => first [solve [frprim] | progress unfold when, pop_at, pop_set, pop_sol, pop_fit, gb_sol, uniform, integers, choose2, new_agents, propose, evaluate, get_target, get_target_uncounted,
      update_target_for_population, correct_solution, correct_solution_with, amend_clip, generate_empty_agent, rform, generate_opposition_solution, gen_at, cro_params, cro_larvae, cro_best, cro_depredated | fail 1]
  end.
Lemma fr_choice {A X T} (p : st A X -> T) E {U} (Ht : fr p tick) : forall n (l : list U), fr p (choice_noreplace E l n).
Proof. induction n as [|n IH]; intros l; cbn [choice_noreplace]; [apply fr_ret|]. destruct l; [apply fr_raise|]. apply fr_bind; [exact Ht|]. intros k. cbv zeta. apply fr_bind; [apply IH|]. intros; apply fr_ret. Qed.
Section Parts.
Variables (E : env) (P : problem) (md : MCore.mode) (c : cro_pars) (n : nat).
Notation gb := (fun s : st unit reef => s_gb s).
Lemma fr_settle a k : fr gb (cro_settle E P n a k).
Proof. induction k as [|k IH]; cbn [cro_settle]; frs; try exact IH. Qed.
Lemma fr_larvae trials l : fr gb (cro_larvae E P n trials l).
Proof. unfold cro_larvae. apply fr_for_list. intros. apply fr_settle. Qed.
Lemma fr_pairs k : forall sel, fr gb (cro_pairs E k sel).
Proof. induction k as [|k IH]; intros sel; cbn [cro_pairs]; frs; try apply IH; try (apply fr_choice; frprim). Qed.
Lemma fr_broadcast : fr gb (cro_broadcast E P md c).
Proof. unfold cro_broadcast. frs; try apply fr_pairs; try (apply fr_choice; frprim). Qed.
Lemma fr_best : fr gb (cro_best E P c).
Proof. frs. Qed.
Lemma fr_local m : fr gb (new_agents P md (correct_solution P) (generate_empty_agent P tt) m (fun _ => g <- gb_sol ;; rform E P "CRO:286-288" [g; p_lb P; p_ub P])) /\
  fr (fun s : st unit reef => s_x s) (new_agents P md (correct_solution P) (generate_empty_agent P tt) m (fun _ => g <- gb_sol ;; rform E P "CRO:286-288" [g; p_lb P; p_ub P])).
Proof. split; frs. Qed.
(** Lines 315-325: the opposite of a coral takes its place or leaves it free. *)
Definition ocro_opposite : M unit reef unit :=
  out <- cro_depredated c ;;
  for_list out tt (fun idx _ =>
    a <- pop_at idx ;;
    g <- get_gb ;;
    y <- generate_opposition_solution E P a g ;;
    b <- gen_at P (generate_empty_agent P tt) y ;;
    old <- pop_at idx ;;
    t <- lift (compare_agents b old (p_mm P)) ;;
    if t then pop_set idx b
    else x <- get_x ;; set_x (filter (fun i => negb (i =? idx)%nat) (reef_idx x), snd (fst x), snd x)).
Lemma fr_opposite : fr gb ocro_opposite.
Proof. unfold ocro_opposite. frs. Qed.
Lemma fr_params a g : fr gb (cro_params c a g).
Proof. frs. Qed.
End Parts.

Section OCRO.
Variables (E : env) (P : problem) (md : MCore.mode) (c : cro_pars) (feas : vec -> Prop) (cov : Prop) (nd n0 n : nat) (s0 : st unit reef).
Notation reef_ok := (fun (_ : list vec) (x : reef) => Forall (fun i => i < n) (reef_idx x) /\ NoDup (reef_idx x)).
Hypothesis HP : params E P feas (@anyatt unit) cov.
Hypothesis Hn : 2 <= n.
Hypothesis Hbig : (Z.of_nat n <= 2 ^ 31)%Z.
Hypothesis Hfb : unit_num (c_fb c).
Hypothesis Hpo : unit_num (c_po c).
Hypothesis Hd : 2 <= n_dims P.
Hypothesis Hmd : md <> Process.
Notation R := (R P feas (@anyatt unit) (eq n) reef_ok cov nd n0 n s0).
Notation K := (K P feas cov nd n0 n s0).
Notation good := (good P feas (@anyatt unit)).
Notation blk := (blk P feas (@anyatt unit) (eq n) reef_ok cov nd n0 n s0).
Lemma R_x W l s x : R W l s -> reef_ok [] x -> R W l (with_x s x).
Proof. intros (V & Hl & HL) Hx. split; [|split; assumption]. apply Ev_x; [exact V|]. exists []. split; [intros ? []|exact Hx]. Qed.
Lemma b_opposite : blk 0 n (ocro_opposite E P c) (fun _ => True).
Proof.
  unfold ocro_opposite. eapply b_qbind; [eapply q_depredated; eassumption|]. intros out [Fo Lo].
  eapply b_mono with (a := List.length out * 0) (b := List.length out * 1); [|lia|lia|intros y T; exact T].
  apply b_for_list. intros idx Hin. rewrite Forall_forall in Fo. specialize (Fo _ Hin).
  eapply b_qbind with (Φ := fun _ => True); [quiet HP|]. intros a _. eapply b_qbind with (Φ := fun _ => True); [quiet HP|]. intros g _.
  eapply b_qbind with (Φ := feas).
  { unfold generate_opposition_solution. eapply q_bind; [apply q_uniform|]. intros r _. qcorrect HP. }
  intros z Hz W l s HR. apply wp_bind. eapply wp_gen_at; [exact HP|qgea|exact HR|exact Hz|]. intros b s1 Gb R1 P1.
  pose proof R1 as (V & Hl & HL). apply wp_bind, wp_pop_at; [lia|]. intros old Eo Ho.
  assert (Go : good (s_log s1) old) by (eapply Ev_pop_good; eassumption).
  destruct (compare_agents_ok E P feas _ _ HP _ b old Gb Go) as (t & Et & Ht). apply wp_bind. eapply wp_lift; [exact Et|].
  pose proof (reef_now _ _ _ _ _ _ _ _ _ _ R1) as [X1 X2]. destruct t.
  - apply wp_pop_set; [lia|]. split; [exact I|]. exists 1. split; [lia|].
    replace (mkSt _ _ _ _ _ _ _ _) with (with_x (with_pop s1 (upd (s_pop s1) idx b)) (s_x s1)) by (destruct s1; reflexivity).
    eapply settle_put; [exact HP|exact Hn|exact R1|exact Fo|exact Gb|intros q Hq; apply in_or_app; left; exact Hq| | |split; assumption].
    + intros q Hq. apply in_app_or in Hq. destruct Hq as [Hq|[<-|[]]]; auto.
    + intros C0 g' q Hg Hq. right. assert (Some q = Some old) as [= ->] by (rewrite <- Hq; exact Eo). apply Ht; eapply num_good; eassumption.
  - apply wp_bind, wp_get_x. unfold wp, set_x. split; [exact I|]. exists 1. split; [lia|].
    assert (R2 : R W (l + 1) (with_pop s1 (s_pop s1))).
    { eapply R_set_cov; [exact HP|exact R1|exact Hl|eapply R_pop_all; exact R1| |].
      - intros C0 q Hq. exists q. split; [exact Hq|]. eapply same_covers; [exact HP|exact C0|]. eapply Ev_pop_good; eassumption.
      - intros C0 q [<-|[]]. exists old. split; [exact Ho|]. apply Ht; eapply num_good; eassumption. }
    replace (with_pop s1 (s_pop s1)) with s1 in R2 by (destruct s1; reflexivity).
    apply (R_x _ _ _ (filter (fun i => negb (i =? idx)) (reef_idx (s_x s1)), snd (fst (s_x s1)), snd (s_x s1)) R2).
    unfold reef_idx at 1 3. cbn [fst]. split; [|apply NoDup_filter, X2]. apply Forall_forall. intros i Hi. apply filter_In in Hi. rewrite Forall_forall in X1. apply X1, Hi.
Qed.
Lemma wp_ocro trials restart epochs ep l s : 0 < trials -> 0 < restart -> R [] l s -> Old s0 s -> s_gb s = s_gb s0 ->
  wp (ocro_evolve E P md c trials restart n epochs ep) (fun _ s' => exists k, k <= 4 * n /\ R [] (l + k) s') s.
Proof.
  intros Ht Hr HR HO HG. unfold ocro_evolve.
  apply wp_bind. eapply wp_fr; [apply fr_broadcast|]. eapply wp_broadcast; [exact HP|exact Hn|exact Hbig|exact Hfb|exact Hd|exact HR|]. intros new s1 Ln Gn R1 P1 G1. cbv beta in G1.
  apply wp_bind. eapply wp_fr; [apply fr_larvae|]. eapply (wp_larvae _ _ _ _ _ _ _ _ HP Hn trials new Ht []); [split; [exact R1|]|exact Gn|].
  { intros i a Hi _. unfold Old in HO. rewrite Forall_forall in HO. apply HO. rewrite <- P1. eapply nth_error_In; exact Hi. }
  intros s2 [R2 O2] E2 G2. cbv beta in G2. apply wp_bind. eapply wp_best; [exact HP|exact Hn|exact Hd|exact R2|]. intros best Gb Lb.
  apply wp_bind. destruct (fr_local E P md (List.length best)) as [F1 F2].
  eapply wp_fr; [exact F1|]. eapply wp_fr; [exact F2|]. eapply wp_new_agents; [exact HP|qcorrect HP|qgea|exact R2| |].
  { intros i Hi. quiet HP. }
  intros ls s3 L3 Gl R3 P3 X3 G3. cbv beta in X3, G3.
  apply wp_bind. eapply wp_fr; [apply fr_larvae|]. eapply (wp_larvae _ _ _ _ _ _ _ _ HP Hn trials ls Ht []); [split; [exact R3|]|exact Gl|].
  { intros i a Hi Hx. rewrite P3 in Hi. rewrite X3 in Hx. eapply O2; eassumption. }
  intros s4 [R4 _] E4 G4. cbv beta in G4. apply wp_bind. apply wp_uniform. intros u q. set (s5 := bump s4 q).
  assert (R5 : R [] (l + List.length new + List.length best) s5) by (eapply R_near; [exact R4|eapply near_bump; exact R4]).
  assert (G5 : s_gb s5 = s_gb s0) by (change (s_gb s5) with (s_gb s4); congruence). clearbody s5.
  apply wp_bind, wp_get_x. apply wp_bind.
  match goal with |- wp (when ?b ?m) _ _ => change m with (ocro_opposite E P c) end.
  assert (B : blk 0 n (when (flt u (fst (snd (fst (s_x s5))))) (ocro_opposite E P c)) (fun _ => True)).
  { unfold when. destruct (flt u _); [apply b_opposite|]. eapply b_mono with (a := 0) (b := 0) (Φ := fun _ => True); [apply b_ret; exact I|lia|lia|auto]. }
  eapply wp_fr with (p := fun s => s_gb s).
  { unfold when. destruct (flt u _); [apply fr_opposite|apply fr_ret]. }
  eapply wp_mono; [apply (B _ _ _ R5)|]. intros [] s6 (_ & k & Hk & R6) G6.
  apply wp_bind. eapply wp_fr; [apply fr_params|]. eapply wp_mono; [eapply q_params; exact R6|]. intros [] s7 [_ N7] G7. cbv beta in G7.
  pose proof (R_near _ _ _ _ _ _ _ _ _ _ _ _ _ _ R6 N7) as R7. pose proof (reef_now _ _ _ _ _ _ _ _ _ _ R7) as X7.
  pose proof R7 as (V7 & L7 & _). assert (Gg : s_gb s7 = s_gb s0) by congruence.
  destruct (v_gb _ _ _ _ _ _ _ _ _ _ _ V7) as (g & Eg & Ggd). pose proof (R_pop_all _ _ _ _ _ _ _ _ _ _ _ _ _ R7) as Gp.
  apply wp_bind, wp_get_x, wp_bind, wp_get_pop, wp_bind.
  destruct (good_best E P feas (@anyatt unit) cov HP (s_log s7) (s_pop s7) Gp) as (sp & ix & Es & Hp & Hb).
  pose proof (Permutation_length Hp) as Lsp. destruct sp as [|lb sp]; [cbn in Lsp; lia|]. rename lb into lb0.
  assert (In0 : In lb0 (s_pop s7)) by (eapply Permutation_in; [exact Hp|left; reflexivity]).
  assert (Gl0 : good (s_log s7) lb0) by (rewrite Forall_forall in Gp; apply Gp, In0).
  destruct (sorted_population_spec (e_argsort E) (pr_argsort _ _ _ _ _ HP) (s_pop s7) (p_mm P) (Forall_good_target _ _ _ _ _ Gp)) as (sp' & ix' & Es' & Hix & _).
  rewrite Es in Es'. injection Es' as <- <-. pose proof (Permutation_length Hix) as Lix. rewrite seq_length in Lix. destruct ix as [|i0 ix]; [cbn in Lix; lia|].
  eapply wp_lift; [unfold get_best_agent; rewrite Es; cbn [bind getitem nth_error]; rewrite (agent_copy_wf lb0) by (eapply good_wf; exact Gl0); reflexivity|].
  apply wp_bind. eapply wp_get_gb; [exact Eg|].
  destruct (compare_agents_ok E P feas _ _ HP _ lb0 g Gl0 Ggd) as (t & Et & Htc). apply wp_bind. eapply wp_lift; [exact Et|]. cbv zeta.
  destruct (Nat.eqb_spec (if t then 0 else snd (s_x s7) + 1) restart) as [Er|Er].
  2:{ unfold wp, set_x. exists (List.length new + List.length best + k). split; [lia|]. rewrite !Nat.add_assoc.
      apply (R_x _ _ _ (fst (s_x s7), if t then 0 else snd (s_x s7) + 1) R7). exact X7. }
  destruct t; [lia|].
  assert (Hbetter : cov -> forall a, In a (s_pop s7) -> no_worse (p_mm P) (fit g) (fit a)).
  { intros C0 a Ha. eapply no_worse_trans; [apply Htc; eapply num_good; eassumption|]. apply (Hb C0 lb0 a); [reflexivity|exact Ha]. }
  apply wp_bind. eapply wp_population_with; [exact HP|exact R7|exact Hmd|apply ga_ok_contract, ga_of_ok, plain_gea_ok, HP|]. intros q1 s8 Lq R8 P8. cbn [app] in R8.
  apply wp_bind. unfold wp at 1, set_pop at 1.
  assert (R9 : R [] (l + List.length new + List.length best + k + n) (with_pop s8 q1)).
  { pose proof R8 as (V8 & L8 & LL8). pose proof (v_W _ _ _ _ _ _ _ _ _ _ _ V8) as Gq. split; [|split; [exact Lq|exact LL8]].
    eapply Ev_set; [exact V8|rewrite Forall_forall in Gq; exact Gq|intros a []|].
    intros C0 g' a Hg' Ha. apply in_app_or in Ha. destruct Ha as [Ha|Ha].
    - left. rewrite P8 in Ha. rewrite <- Gg, Eg in Hg'. injection Hg' as <-. apply Hbetter; assumption.
    - right. exists a. split; [apply in_or_app; left; exact Ha|]. eapply same_covers; [exact HP|exact C0|]. rewrite Forall_forall in Gq. apply Gq, Ha. }
  change (wp (occ <- choice_noreplace E (seq 0 n) (cro_occupied c n) ;; set_x (occ, snd (fst (s_x s7)), 0)) (fun _ s' => exists k0, k0 <= 4 * n /\ R [] (l + k0) s') (with_pop s8 q1)).
  apply wp_bind. apply wp_choice_noreplace; [rewrite seq_length; apply occupied_nat; assumption|]. intros r rest k2 Lr Hperm. unfold wp, set_x.
  exists (List.length new + List.length best + k + n). split; [lia|]. rewrite !Nat.add_assoc.
  apply (R_x _ _ (bump (with_pop s8 q1) k2) (r, snd (fst (s_x s7)), 0)); [eapply R_near; [exact R9|eapply near_bump; exact R9]|].
  unfold reef_idx. cbn [fst]. assert (ND : NoDup (r ++ rest)) by (eapply Permutation_NoDup; [apply Permutation_sym; exact Hperm|apply seq_NoDup]).
  split; [|eapply nodup_front; exact ND]. apply Forall_forall. intros i Hi. assert (Hs : In i (seq 0 n)) by (eapply Permutation_in; [exact Hperm|apply in_or_app; left; exact Hi]).
  apply in_seq in Hs. lia.
Qed.
End OCRO.
(** OCRO (CRO.py:198-339). *)
Theorem C64_OCRO E P md c trials restart n epochs : md <> Process -> 5 <= n -> (Z.of_nat n <= 2 ^ 31)%Z -> 0 < epochs -> 0 < trials -> 0 < restart -> unit_num (c_po c) -> unit_num (c_fb c) -> 2 <= n_dims P ->
  sound_run_gen E P md (ocro E P md c trials restart n epochs) (fun _ => True) (fun _ => True) (fun _ => True) (eq n) true n n 0 (4 * n).
Proof.
  intros Hmd Hn Hbig He Ht Hr Ho Hfb Hd.
  assert (T : sound_run_gen E P md (ocro E P md c trials restart n epochs) (fun _ => True) (fun _ => True) (fun _ => True) (eq n) true (n + 0) (n + 0) 0 (4 * n)).
  2:{ rewrite !Nat.add_0_r in T. exact T. }
  apply (sound_more E P md _ _ n epochs false _ _ (ret tt) _ (fun _ => True) (fun _ => True) (fun _ => True) (fun _ => @anyatt unit)
    (fun _ _ _ => True) (fun _ _ x => Forall (fun i => i < n) (reef_idx x) /\ NoDup (reef_idx x)) (fun _ _ x => Forall (fun i => i < n) (reef_idx x) /\ NoDup (reef_idx x))); auto; try lia.
  - intros feas rows _ _ Hp. apply plain_gea_ok, Hp.
  - intros feas Hp. apply ga_of_ok, plain_gea_ok, Hp.
  - intros feas Hp. eapply vars_set. intros s. apply wp_bind, wp_get_x, wp_ret. split; [exists (s_ctr s); destruct s; reflexivity|exact I].
  - intros feas nd n0 s HP _ HS. unfold cro_start. apply wp_bind, wp_get_x, wp_bind. apply wp_choice_noreplace; [rewrite seq_length; apply occupied_nat; assumption|].
    intros r rest k Lr Hp. unfold wp, set_x. split; [|cbn; lia]. destruct HS. constructor; auto. cbn. exists []. split; [intros ? []|].
    unfold reef_idx. cbn [fst]. assert (ND : NoDup (r ++ rest)) by (eapply Permutation_NoDup; [apply Permutation_sym; exact Hp|apply seq_NoDup]).
    split; [|eapply nodup_front; exact ND]. apply Forall_forall. intros i Hi. assert (Hs : In i (seq 0 n)) by (eapply Permutation_in; [exact Hp|apply in_or_app; left; exact Hi]).
    apply in_seq in Hs. lia.
  - intros feas nd n0 s HP _ HI. eapply main_none. exact HI.
  - intros feas nd n0 HP _ ep s Hep HI.
    assert (HR : R P feas (@anyatt unit) (eq n) (fun (_ : list vec) (x : reef) => Forall (fun i => i < n) (reef_idx x) /\ NoDup (reef_idx x)) (true = true /\ obj_num P feas) nd n0 n s [] (List.length (s_log s)) s).
    { split; [apply Ev_init; exact HI|]. split; [symmetry; apply (i_len _ _ _ _ _ _ _ _ _ HI)|reflexivity]. }
    eapply wp_mono; [eapply wp_ocro; [exact HP|lia|exact Hbig|exact Hfb|exact Ho|exact Hd|exact Hmd|exact Ht|exact Hr|exact HR| |reflexivity]|].
    + unfold Old. eapply Forall_impl; [|apply (i_good _ _ _ _ _ _ _ _ _ HI)]. intros a G. apply G.
    + intros [] s' (k & Hk & V & Hl & HL). split; [exact V|]. split; [symmetry; exact Hl|]. lia.
Qed.

Print Assumptions C64_OCRO.
