(** The classes of MClass12: every run, or every run that returns, is sound. *)
From Verif Require Import Prelude Fl FlArith MCore MHelp MAlg MAlg2 MAlg3 MAlg4 MAlg5 MAlg6 MAlg7 MClass12 PSpace SpecCore SpecRun PSelect PLogic PSolve PRun SpecAlg SpecWhen PAlg PFree PClass PAlg2 PAlg3 PAlg4 PAlg5 PAlg6 PAlg7 PAlg8 PAlg9 PRef PFail PElse PAlg10 Demo.

(** ** WSO *)
Theorem C64_OriginalWSO_returning E P md pars n epochs : 5 <= n -> 0 < epochs ->
  sound_when E P md (original_wso E P md pars n epochs) (fun _ => True) (fun _ => True) (fun _ => True) (eq n) true n n n n.
Proof.
  intros Hn He. pose (row := fun xs => orelse (wso_row E n xs) (lift (getitem xs 0))).
  eapply (returns_of _ _ _ _ (wso_phases E P md row pars n epochs)).
  - intros ep. unfold wso_phases. cbn [al_evolve original_wso plain_algo]. unfold wso_phases, row. refi.
  - change (with_evolve _ _) with (plain_algo (X := unit) E P md tt n epochs false (wso_phases E P md row pars n epochs)).
    state_elite (fun _ : unit => True). eapply b0_blk. unfold wso_phases.
    eapply b_qbind; [quiet HP|]. intros xs Hxs. cbv beta in Hxs.
    eapply b_qbind; [eapply q_collect with (Φ := fun _ => True); intros i Hi; unfold row; apply q_orelse|].
    + eapply qp_qbind; [apply q_uniform|]. intros u _. eapply qp_mono; [apply qp_getitemZ|]. trivial.
    + quiet HP.
    + intros ws Hws. block HP.
Qed.

(** ** BRO *)
Lemma first_eq_lt v l i j : first_eq v l i = Ok j -> j < i + List.length l.
Proof.
  revert i. induction l as [|x l IH]; intros i H; cbn [first_eq] in H; [discriminate|]. cbn [List.length].
  destruct (feq x v); [injection H as <-; lia|]. specialize (IH _ H). lia.
Qed.
Section BRO.
Variables (E : env) (P : problem) (feas : vec -> Prop) (IL : nat -> Prop) (IX : list vec -> f64 * vec * vec -> Prop) (cov : Prop) (nd n0 n : nat).
Variable s0 : st Z (f64 * vec * vec).
Hypothesis HP : params E P feas (@anyatt Z) cov.
Notation qt := (qt P feas (@anyatt Z) IL IX cov nd n0 n s0).
Lemma q_bro_near m : 0 < n -> qt (orelse (bro_near E n m) (ret 0)) (fun j => j < n).
Proof.
  intros Hn. apply q_orelse; [|apply q_ret; exact Hn]. unfold bro_near. eapply qp_qbind; [quiet HP|]. intros v _.
  eapply qp_qbind; [quiet HP|]. intros d Hd. cbv beta in Hd. unfold bro_min. apply qp_if; intros _.
  - apply qp_qt. eapply q_mono; [apply q_choice1; destruct d; [cbn [List.length] in Hd; lia|discriminate]|]. intros j Hj. apply in_seq in Hj. lia.
  - apply qp_lift. intros j Hj. apply first_eq_lt in Hj. lia.
Qed.
End BRO.
Lemma ok_any {A} P feas w (a : agent A) b : ok P feas (@anyatt A) w a -> ok P feas (@anyatt A) w (mkAgent (sol a) (tgt a) b).
Proof. intros [G1 G2 G3 G4]. constructor; simpl; auto. Qed.
Ltac qmore HP m ::= lazymatch m with
  | propose _ _ _ => eapply q_propose; bprem HP
  | raw _ _ => apply q_raw; assumption
  | get_nfe => apply q_get_nfe
  | extreme_fits _ _ => apply q_extreme_fits; [exact HP|lia]
  | rank_at _ _ _ => eapply q_rank_at; [exact HP|solve [qside]]
  | orelse (bro_near _ _ _) _ => eapply q_bro_near; lia
  end.
Theorem C65_DevBRO_returning E P threshold n epochs : 5 <= n -> 0 < epochs ->
  sound_when E P Single (dev_bro E P threshold n epochs) (fun _ => True) (fun _ => True) (fun _ => True) (eq n) false n n n (3 * n).
Proof.
  intros Hn He. eapply (returns_of _ _ _ _ (dev_bro_phases E P (fun i => orelse (bro_near E n i) (ret 0)) threshold n)).
  - intros ep. cbn [al_evolve dev_bro agent_algo]. unfold dev_bro_phases. refi.
  - change (with_evolve _ _) with (agent_algo E Single (bro_gea P) (ga_of P (bro_gea P)) n epochs false (bro_vars E P epochs) (ret tt) (dev_bro_phases E P (fun i => orelse (bro_near E n i) (ret 0)) threshold n)).
    att_free (fun _ : f64 * vec * vec => True). { intros; exact I. }
    pose proof (@ok_any Z P feas) as HO. unfold dev_bro_phases, bro_shrink.
    assert (HE : forall w a, ok P feas (@anyatt Z) w a -> pend feas (@anyatt Z) w a) by (intros w' a Ha; eapply ok_pend; eassumption).
    gcounts HP.
Qed.
Theorem C65_OriginalBRO_returning E P threshold n epochs : 5 <= n -> 0 < epochs ->
  sound_when E P Single (original_bro E P threshold n epochs) (fun _ => True) (any_array P) (fun _ => True) (eq n) false n n n n.
Proof.
  intros Hn He. eapply (returns_of _ _ _ _ (bro_phases E P (fun i => orelse (bro_near E n i) (ret 0)) threshold n)).
  - intros ep. cbn [al_evolve original_bro agent_algo]. unfold bro_phases. refi.
  - change (with_evolve _ _) with (agent_algo E Single (bro_gea P) (ga_of P (bro_gea P)) n epochs false (bro_vars E P epochs) (ret tt) (bro_phases E P (fun i => orelse (bro_near E n i) (ret 0)) threshold n)).
    att_free (fun _ : f64 * vec * vec => True). { intros; exact I. }
    pose proof (@ok_any Z P feas) as HO. unfold bro_phases, bro_shrink. cbv zeta.
    assert (HI : forall (b : bool) i j, i < n -> j < n -> (if b then i else j) < n) by (intros [] ? ? ? ?; assumption).
    gcounts HP.
Qed.

(** ** ASO *)
Section Keep.
Context {A X : Type}.
Variables (E : env) (P : problem) (feas : vec -> Prop) (attok : list vec -> A -> Prop) (IL : nat -> Prop) (IX : list vec -> X -> Prop) (cov : Prop) (nd n0 n : nat).
Variable s0 : st A X.
Hypothesis HP : params E P feas attok cov.
Notation R := (R P feas attok IL IX cov nd n0 n s0).
Lemma wp_set_att W l s i b (Q : unit -> st A X -> Prop) : R W l s -> Old s0 s -> i < n -> (forall L, attok L b) ->
  (forall s', R W l s' -> Old s0 s' -> Q tt s') -> wp (set_att i b) Q s.
Proof.
  intros HR HO Hi Hb HQ. unfold set_att. pose proof HR as (V & Hn & _). apply wp_bind, wp_pop_at; [lia|].
  intros old Eo Hin. pose proof (Ev_pop_good _ _ _ _ _ _ _ _ _ _ _ _ V Hin) as Go. apply wp_pop_set; [lia|]. apply HQ.
  - eapply R_same; [exact HP|exact HR|exact Hi|apply good_att; auto|].
    intros C c Ec. rewrite Eo in Ec. injection Ec as <-. rewrite fit_att. apply no_worse_refl; [apply HP|].
    eapply good_num; [apply HP; exact C|exact Go].
  - unfold Old in *. cbn [s_pop]. apply upd_Forall; [exact HO|]. cbn [sol with_att]. rewrite Forall_forall in HO. apply (HO old Hin).
Qed.
End Keep.
Theorem C64_OriginalASO E P md alpha beta n epochs : 5 <= n -> 0 < epochs ->
  sound_run E P md (original_aso E P md alpha beta n epochs) (fun _ => True) true n n.
Proof.
  intros. apply gen_plain. att_elite (fun _ : unit => True).
  unfold aso_evolve. eapply b0_mono with (a := n) (b := n) (Φ := fun _ => True); [|lia|lia|intros y T; exact T].
  eapply b0_qbind; [quiet HP|]. intros fs Hfs. eapply b0_qbind; [quiet HP|]. intros ms Hms. cbv beta in Hms.
  intros W l s HR HO. apply wp_bind. unfold for_.
  apply wp_for_acc with (I := fun _ _ s' => PAlg.R P feas (@anyatt (vec * f64)) (eq n) (fun _ _ => True) (true = true /\ obj_num P feas) nd n0 n s0 W l s' /\ Old s0 s').
  { split; assumption. }
  { intros k [] s1 Hk [R1 O1]. pose proof R1 as (V1 & Ln1 & _). apply wp_bind, wp_pop_at; [lia|]. intros a Ea _.
    apply wp_bind. destruct (getitem_lt ms k) as (m & Em & _); [lia|]. eapply wp_lift; [exact Em|].
    eapply wp_set_att; [exact HP|exact R1|exact O1|lia|intros; exact I|]. auto. }
  intros [] s1 [R1 O1].
  match goal with |- wp ?m ?Q _ => enough (T : blk0 P feas (@anyatt (vec * f64)) (eq n) (fun _ _ => True) (true = true /\ obj_num P feas) nd n0 n s0 n n m (fun _ => True)) end.
  { eapply T; eassumption. }
  clear W l s s1 HR HO R1 O1.
  eapply b0_qbind; [quiet HP|]. intros v Hv. eapply b0_qbind; [quiet HP|]. intros acc Hacc. cbv beta in Hacc. qfacts.
  intros W l s HR HO. apply wp_bind. eapply wp_greedy_list; [exact HP|reflexivity|exact HR|exact HO|..].
  { intros i Hi. quiet HP. all: try (split; [assumption|intros; exact I]). }
  intros new s1 Ln Gn R1 M1.
  destruct (best_agent_ok E P feas (@anyatt (vec * f64)) _ HP _ new Gn) as (b & i & Eb & Hin & Gb & _ & Cb); [destruct new; [cbn in Ln; lia|discriminate]|].
  apply wp_bind. eapply wp_lift; [exact Eb|]. apply wp_bind. pose proof R1 as (V & Hn & Hl).
  destruct (Ev_gb _ _ _ _ _ _ _ _ _ _ _ V) as (g & Eg & Gg). eapply wp_get_gb; [exact Eg|]. apply wp_bind.
  destruct (compare_agents_ok E P feas (@anyatt (vec * f64)) _ HP _ g b Gg Gb) as (c & Ec & Hc). eapply wp_lift; [exact Ec|].
  destruct c; cbn [when].
  2: { apply wp_ret. split; [exact I|]. exists n. split; [lia|exact R1]. }
  apply wp_bind. apply wp_integers; [lia|]. intros j k Hj.
  apply wp_pop_set; [cbn; lia|]. split; [exact I|]. exists n. split; [lia|].
  assert (R2 : PAlg.R P feas (@anyatt (vec * f64)) (eq n) (fun _ _ => True) (true = true /\ obj_num P feas) nd n0 n s0 W (l + n) (bump s1 k)).
  { eapply R_near; [exact R1|eapply near_bump; exact R1]. }
  eapply (R_put_over _ _ _ _ _ _ _ _ _ _ _ HP W (l + n) (bump s1 k) j g new R2 M1 Gg); [lia|].
  intros C b' Hb'. eapply no_worse_trans; [|apply Cb; [exact C|exact Hb']]. apply Hc; eapply good_num; try (apply HP; exact C); eassumption.
Qed.

(** ** ESOA *)
(** Every egret of a population has a local target and a gradient. *)
Definition egret_ok (L : list vec) (b : egret) : Prop := (exists t, eg_loct b = Some t) /\ (exists g, eg_g b = Some g).
Lemma esoa_ga_ok E P (feas : vec -> Prop) : problem_ok P feas -> ga_ok P feas egret_ok (esoa_ga E P).
Proof.
  intros Hp s o Ho. unfold esoa_ga. apply wp_bind.
  eapply wp_mono; [apply (gea_with_ok P feas (fun x => w <- rform E P "ESOA:68" [] ;; ret (mkEgret w x None (vtab P (fun _ => fZ 0)) (vtab P (fun _ => fZ 0)) None))); [exact Hp|intros; draws; exact I|exact Ho]|].
  intros a s' ((k & ->) & Ha & _). apply wp_bind, wp_get_target, wp_ret. simpl. split; [exists k; reflexivity|].
  split; [exact Ha|]. split; [reflexivity|]. intros L _. split; eexists; reflexivity.
Qed.
Section ESOA.
Variables (E : env) (P : problem) (feas : vec -> Prop) (IL : nat -> Prop) (IX : list vec -> unit -> Prop) (cov : Prop) (nd n0 n : nat).
Variable s0 : st egret unit.
Hypothesis HP : params E P feas egret_ok cov.
Notation R := (R P feas egret_ok IL IX cov nd n0 n s0).
Notation qt := (qt P feas egret_ok IL IX cov nd n0 n s0).
Notation good := (good P feas egret_ok).
Lemma wp_quiet {Y} W l s (m : M egret unit Y) Φ (Q : Y -> st egret unit -> Prop) k : qt m Φ -> R W l s -> later s0 k s ->
  (forall y s', Φ y -> R W l s' -> later s0 k s' -> s_pop s' = s_pop s -> Q y s') -> wp m Q s.
Proof.
  intros H HR HL HQ. eapply wp_mono; [exact (H _ _ _ HR)|]. intros y s' [Hy N]. apply HQ; [exact Hy|eapply R_near; [exact HR|exact N]|eapply later_near; [exact HL|exact N]|eapply near_pop; exact N].
Qed.
Lemma wp_try W l s k y b (Q : agent egret -> st egret unit -> Prop) : R W l s -> later s0 k s -> feas y -> (forall L, egret_ok L b) ->
  (forall a s', R (W ++ [a]) (l + 1) s' -> later s0 k s' -> s_pop s' = s_pop s -> Q a s') -> wp (evaluate P (mkAgent y None b)) Q s.
Proof.
  intros HR HL Hy Hb HQ. eapply wp_evaluate; [exact HP|exact HR|split; [exact Hy|intros; apply Hb]|].
  intros a' s' Ga' R' Ep _ _ _. apply HQ; [exact R'|eapply later_pop; [exact HL|exact Ep]|exact Ep].
Qed.
Lemma slot_esoa epochs ep i : i < n -> slot P feas egret_ok IL IX cov nd n0 n s0 i 3 3 (esoa_step E P epochs ep i).
Proof.
  intros Hi W l s HR HL. unfold esoa_step.
  pose proof HR as (V & Hn & _). apply wp_bind, wp_pop_at; [lia|]. intros a Ea Hin.
  pose proof (Ev_pop_good _ _ _ _ _ _ _ _ _ _ _ _ V Hin) as Ga. destruct (g_att _ _ _ _ _ Ga) as [(lt & Elt) (ga & Ega)].
  apply wp_bind. eapply wp_lift; [unfold fitness; rewrite (g_tgt _ _ _ _ _ Ga); reflexivity|].
  apply wp_bind. eapply wp_lift; [rewrite Elt; reflexivity|]. apply wp_bind. eapply wp_lift; [rewrite Ega; reflexivity|].
  apply wp_bind. destruct (Ev_gb _ _ _ _ _ _ _ _ _ _ _ V) as (gb & Eg & Gg). eapply wp_get_gb; [exact Eg|].
  destruct (g_att _ _ _ _ _ Gg) as [_ (gg & Egg)].
  apply wp_bind. eapply wp_lift; [unfold fitness; rewrite (g_tgt _ _ _ _ _ Gg); reflexivity|].
  apply wp_bind. eapply wp_lift; [rewrite Egg; reflexivity|].
  apply wp_bind. eapply wp_quiet; [quiet HP|exact HR|exact HL|]. intros g s1 _ R1 L1 Ep1. cbv zeta.
  set (m := vform E P "ESOA:119" _). set (v := vform E P "ESOA:120" _). set (w := vform E P "ESOA:121" _). clearbody m v w.
  set (b := mkEgret w _ _ m v _). assert (Hb : forall L, egret_ok L b) by (intros L; split; eexists; cbn; eassumption).
  apply wp_bind. unfold set_att. pose proof R1 as (V1 & Hn1 & _). apply wp_bind, wp_pop_at; [lia|]. intros a1 Ea1 Hin1.
  pose proof (Ev_pop_good _ _ _ _ _ _ _ _ _ _ _ _ V1 Hin1) as Ga1. apply wp_pop_set; [lia|].
  match goal with |- wp _ _ ?s => set (s2 := s) end.
  assert (R2 : R W l s2).
  { unfold s2. eapply R_same; [exact HP|exact R1|exact Hi|apply good_att; [exact Ga1|apply Hb]|].
    intros C c Ec. rewrite Ea1 in Ec. injection Ec as <-. rewrite fit_att. apply no_worse_refl; [apply HP|].
    eapply good_num; [apply HP; exact C|exact Ga1]. }
  assert (L2 : later s0 i s2).
  { unfold s2. intros j c Hj Hc. cbn [s_pop] in Hc. destruct (Nat.eq_dec j i) as [->|D].
    - rewrite upd_nth_eq in Hc by lia. injection Hc as <-. cbn [sol with_att]. apply (L1 i a1); [lia|exact Ea1].
    - rewrite upd_nth_neq in Hc by lia. apply (L1 j c Hj Hc). }
  clearbody s2. clear V V1 R1 L1 Hn Hn1 Ep1 Ea1 Hin1 Ga1 a1 s1.
  apply wp_bind. eapply wp_quiet; [quiet HP|exact R2|exact L2|]. intros x0 s3 F0 R3 L3 _. cbv beta in F0.
  apply wp_bind. eapply wp_try; [exact R3|exact L3|exact F0|exact Hb|]. intros a0 s4 R4 L4 _.
  apply wp_bind. eapply wp_quiet; [quiet HP|exact R4|exact L4|]. intros z1 s5 F1 R5 L5 _. cbv beta in F1.
  apply wp_bind. eapply wp_quiet; [quiet HP|exact R5|exact L5|]. intros x1 s6 F2 R6 L6 _. cbv beta in F2.
  apply wp_bind. eapply wp_try; [exact R6|exact L6|exact F2|exact Hb|]. intros a1 s7 R7 L7 _.
  apply wp_bind. eapply wp_quiet; [quiet HP|exact R7|exact L7|]. intros z2 s8 F3 R8 L8 _. cbv beta in F3.
  apply wp_bind. eapply wp_quiet; [quiet HP|exact R8|exact L8|]. intros x2 s9 F4 R9 L9 _. cbv beta in F4.
  apply wp_bind. eapply wp_try; [exact R9|exact L9|exact F4|exact Hb|]. intros a2 s10 R10 L10 _.
  clear R2 R3 R4 R5 R6 R7 R8 R9 L2 L3 L4 L5 L6 L7 L8 L9. rename s10 into t, R10 into RT, L10 into LT.
  assert (RV : R (W ++ [a0; a1; a2]) (l + 3) t).
  { replace (W ++ [a0; a1; a2])%list with (((W ++ [a0]) ++ [a1]) ++ [a2])%list by (rewrite <- !app_assoc; reflexivity).
    replace (l + 3) with (l + 1 + 1 + 1) by lia. exact RT. }
  clear RT. pose proof RV as (V & Hn & _). pose proof (v_W _ _ _ _ _ _ _ _ _ _ _ V) as GW. apply Forall_app in GW. destruct GW as [_ GW].
  assert (G0 : good (s_log t) a0) by (rewrite Forall_forall in GW; apply GW; left; reflexivity).
  assert (G1 : good (s_log t) a1) by (rewrite Forall_forall in GW; apply GW; right; left; reflexivity).
  assert (G2 : good (s_log t) a2) by (rewrite Forall_forall in GW; apply GW; right; right; left; reflexivity).
  assert (Ef : map_res fitness [a0; a1; a2] = Ok (map fit [a0; a1; a2])).
  { cbn [map_res map]. unfold fitness, fit. rewrite (g_tgt _ _ _ _ _ G0), (g_tgt _ _ _ _ _ G1), (g_tgt _ _ _ _ _ G2). reflexivity. }
  apply wp_bind. eapply wp_lift; [exact Ef|].
  assert (Ei : exists j, (match p_mm P with Min => np_argmin (map fit [a0; a1; a2]) | _ => np_argmax (map fit [a0; a1; a2]) end) = Ok j /\ j < 3).
  { cbn [map]. destruct (p_mm P); eexists; (split; [reflexivity|apply (arg_from_lt _ 0 1); lia]). }
  destruct Ei as (j & Ei & Hj). apply wp_bind. eapply wp_lift; [exact Ei|].
  destruct (getitem_lt [a0; a1; a2] j) as (best & Eb & Nb & Hbin); [exact Hj|]. apply wp_bind. eapply wp_lift; [exact Eb|].
  assert (Gb : good (s_log t) best) by (rewrite Forall_forall in GW; apply GW; exact Hbin).
  assert (HB : cov -> forall c, In c [a0; a1; a2] -> no_worse (p_mm P) (fit best) (fit c)).
  { intros C c Hc. destruct (arg_best (p_mm P) (map fit [a0; a1; a2]) j) as (q & Eq & Hq); [apply HP| |exact Ei|].
    - apply Forall_forall. intros f Hf. apply in_map_iff in Hf. destruct Hf as (d & <- & Hd). eapply good_num; [apply HP; exact C|]. rewrite Forall_forall in GW. apply GW, Hd.
    - rewrite nth_error_map, Nb in Eq. injection Eq as <-. apply Hq, in_map, Hc. }
  apply wp_bind. eapply wp_lift; [rewrite (g_tgt _ _ _ _ _ Gb); reflexivity|].
  apply wp_bind, wp_pop_at; [lia|]. intros old Eo Ho. pose proof (Ev_pop_good _ _ _ _ _ _ _ _ _ _ _ _ V Ho) as Go.
  destruct (compare_agents_ok E P feas egret_ok cov HP _ best old Gb Go) as (c & Ec & Hc). apply wp_bind. eapply wp_lift; [exact Ec|].
  destruct c.
  - apply wp_pop_set; [lia|]. exists 3. split; [lia|].
    match goal with |- context [mkAgent (sol best) (tgt best) ?q] => set (b' := q) end.
    edestruct (R_slot E P feas egret_ok IL IX cov nd n0 n s0 HP W [a0; a1; a2] (l + 3) t i (with_att best b')) as [RZ LZ]; [exact RV|exact LT|exact Hi| | |split; [exact RZ|exact LZ]].
    + apply good_att; [exact Gb|]. unfold b'. destruct (compare_target _ _ _); [split; eexists; reflexivity|apply Hb].
    + intros C d Hd. rewrite fit_att. apply HB; assumption.
  - apply wp_bind. eapply wp_quiet; [apply q_uniform|exact RV|exact LT|]. intros u t' _ RT' LT' Ep.
    destruct (flt u _); cbn [when].
    + pose proof RT' as (V' & Hn' & _). pose proof (v_W _ _ _ _ _ _ _ _ _ _ _ V') as GW'. apply Forall_app in GW'. destruct GW' as [_ GW'].
      assert (Gb' : good (s_log t') best) by (rewrite Forall_forall in GW'; apply GW'; exact Hbin).
      apply wp_pop_set; [lia|]. exists 3. split; [lia|].
      edestruct (R_slot E P feas egret_ok IL IX cov nd n0 n s0 HP W [a0; a1; a2] (l + 3) t' i (with_att best b)) as [RZ LZ]; [exact RT'|exact LT'|exact Hi| | |split; [exact RZ|exact LZ]].
      * apply good_att; [exact Gb'|apply Hb].
      * intros C d Hd. rewrite fit_att. apply HB; assumption.
    + apply wp_ret. exists 3. split; [lia|]. split; [|eapply later_mono; [exact LT'|lia]].
      eapply (R_unslot E P feas egret_ok IL IX cov nd n0 n s0 HP W [a0; a1; a2] _ _ old RT'); [rewrite Ep; exact Ho|].
      intros C d Hd. eapply no_worse_trans; [|apply HB; assumption]. apply Hc; eapply good_num; try (apply HP; exact C); eassumption.
Qed.
End ESOA.
Theorem C64_OriginalESOA E P n epochs : 5 <= n -> 0 < epochs ->
  sound_run E P Single (original_esoa E P n epochs) (fun _ => True) true (3 * n) (3 * n).
Proof.
  intros Hn He. apply gen_plain.
  apply (sound_agents_st E P Single (esoa_gea E P) (esoa_ga E P) n epochs false (ret tt) (ret tt) (fun ep => for_ n (esoa_step E P epochs ep)) (fun _ => True) (fun _ => True) (fun _ => True)
           (fun _ => egret_ok) (fun _ _ _ => True) (fun _ _ _ => True)); auto; try lia.
  - intros feas rows Hav. discriminate Hav.
  - intros feas Hp. apply esoa_ga_ok, Hp.
  - intros. apply vars_none; auto.
  - intros feas nd n0 s HP HH HI. eapply main_none; exact HI.
  - intros feas nd n0 HP HH. eapply contract_of; [exact HP|]. intros ep s0 Hep _.
    eapply b0_mono with (a := n * 3) (b := n * 3); [apply b_slots; intros i Hi; apply (slot_esoa _ _ _ _ _ _ _ _ _ _ HP); exact Hi|lia|lia|trivial].
Qed.

(** ** EOA *)
Section EOA.
Variables (E : env) (P : problem) (md : MCore.mode) (feas : vec -> Prop) (IX : list vec -> unit -> Prop) (cov : Prop) (nd n0 n : nat).
Variable s0 : st unit unit.
Hypothesis HP : params E P feas (@anyatt unit) cov.
Notation R := (R P feas (@anyatt unit) (eq n) IX cov nd n0 n s0).
Notation qt := (qt P feas (@anyatt unit) (eq n) IX cov nd n0 n s0).
Notation blk0 := (blk0 P feas (@anyatt unit) (eq n) IX cov nd n0 n s0).
Notation good := (good P feas (@anyatt unit)).
Lemma wp_special_first L p nb nw (Q : list (agent unit) * list (agent unit) * list (agent unit) -> st unit unit -> Prop) (s : st unit unit) : Forall (good L) p ->
  (forall sp b w, Permutation sp p -> Forall (good L) sp -> List.length b = Nat.min nb (List.length p) -> Forall (good L) b ->
     (cov -> forall h a, hd_error sp = Some h -> In a p -> no_worse (p_mm P) (fit h) (fit a)) -> Q (sp, b, w) s) ->
  wp (special E P p nb nw) Q s.
Proof.
  intros G HQ. unfold special. destruct (good_best E P feas (@anyatt unit) cov HP L p G) as (sp & ix & Es & Hp & HB).
  assert (Gs : Forall (good L) sp) by (rewrite Forall_forall in *; intros a Ha; apply G; eapply Permutation_in; eauto).
  assert (Hf : incl (firstn nb sp) sp) by (intros a Ha; rewrite <- (firstn_skipn nb sp); apply in_or_app; auto).
  assert (Hr : incl (firstn nw (rev sp)) sp) by (intros a Ha; apply in_rev; rewrite <- (firstn_skipn nw (rev sp)); apply in_or_app; auto).
  assert (WF : forall q, incl q sp -> Forall (fun a => proper a /\ feas (sol a)) q).
  { intros q Hq. apply Forall_forall. intros a Ha. rewrite Forall_forall in Gs. specialize (Gs a (Hq a Ha)). split; [eapply good_wf; exact Gs|apply Gs]. }
  apply wp_bind. eapply wp_lift.
  { unfold get_special_agents. rewrite Es. cbn [bind]. rewrite (copies_ok feas _ (WF _ Hf)).
    cbn [bind]. rewrite (copies_ok feas _ (WF _ Hr)). reflexivity. }
  apply wp_ret. apply HQ; [exact Hp|exact Gs| | |exact HB].
  - rewrite firstn_length, (Permutation_length Hp). reflexivity.
  - rewrite Forall_forall in *. intros a Ha. apply Gs, Hf, Ha.
Qed.
Lemma b0_eoa mate p_c p_m alpha beta gama n_best ep : 0 < n_best -> 2 * n_best <= n ->
  (forall ps, qt (mate ps) (fun _ => True)) ->
  blk0 (2 * n - n_best) (2 * n) (eoa_phases E P md mate p_c p_m alpha beta gama n_best n ep) (fun _ => True).
Proof.
  intros Hb1 Hb2 Hmate. unfold eoa_phases.
  eapply b0_qbind; [eapply q_get_pop|]. intros p [Lp Fp]. cbv beta.
  eapply b0_qbind with (Φ := fun k => List.length k = n_best /\ Forall feas k).
  { eapply q_collect. intros i Hi. quiet HP. }
  intros keep [Lk Fk]. eapply b0_qbind; [quiet HP|]. intros fs Hfs. eapply b0_qbind; [quiet HP|]. intros [bf worst] _. cbv zeta.
  set (ps := eoa_probs P fs worst). specialize (Hmate ps). clearbody ps.
  intros W l s HR HO. apply wp_bind.
  eapply wp_new_agents; [exact HP|qcorrect HP|qgea|exact HR| |].
  { intros i Hi. eapply q_bind; [quiet HP|]. intros x Hx. eapply q_bind; [quiet HP|]. intros r1 Hr1. cbv beta in Hr1.
    eapply q_bind with (Φ := fun _ => True); [|intros; quiet HP]. destruct (n_best <=? i).
    - eapply q_mono with (Φ := fun v => List.length v = n_dims P); [quiet HP; exact Hmate|trivial].
    - eapply q_mono; [apply q_pop_sol; lia|trivial]. }
  intros new s1 Ln Gn R1 Ep1. assert (O1 : Old s0 s1) by (unfold Old; rewrite Ep1; exact HO).
  apply wp_bind. eapply wp_special_first; [exact Gn|]. intros sp bs w Hperm Gsp Lb Gbs HB.
  assert (Lsp : List.length sp = n) by (rewrite (Permutation_length Hperm); exact Ln).
  cbv beta iota. apply wp_bind. destruct (getitem_lt bs 0) as (best & Eb & _ & Hbest); [rewrite Lb, Ln; lia|]. eapply wp_lift; [exact Eb|].
  assert (Esl : slice 0 n_best sp = firstn n_best sp) by (unfold slice; rewrite Nat.sub_0_r; reflexivity).
  rewrite Esl. set (top := firstn n_best sp).
  assert (Gtop : Forall (good (s_log s1)) top).
  { rewrite Forall_forall in *. intros a Ha. apply Gsp. rewrite <- (firstn_skipn n_best sp). apply in_or_app; left; exact Ha. }
  assert (Itop : incl top new).
  { intros a Ha. eapply Permutation_in; [exact Hperm|]. rewrite <- (firstn_skipn n_best sp). apply in_or_app; left; exact Ha. }
  assert (Ltop : List.length top = n_best) by (unfold top; rewrite firstn_length; lia).
  assert (Ctop : cov -> forall a, In a new -> exists b, In b top /\ no_worse (p_mm P) (fit b) (fit a)).
  { intros C a Ha. destruct sp as [|h sp']; [cbn in Lsp; lia|]. exists h. split; [unfold top; destruct n_best; [lia|left; reflexivity]|]. apply HB; auto. }
  clearbody top. apply wp_bind.
  apply wp_for_acc with (I := fun k acc s' => exists ys, acc = (top ++ ys)%list /\ List.length acc = k /\ Old s0 s' /\
     if is_avail md then R (W ++ new) (l + n) s' /\ Forall (fresh_agent feas (@anyatt unit)) ys else R ((W ++ new) ++ ys) (l + n + List.length ys) s').
  - exists []. rewrite app_nil_r. split; [reflexivity|]. split; [exact Ltop|]. split; [exact O1|].
    destruct (is_avail md); [split; [exact R1|constructor]|]. rewrite app_nil_r. cbn [List.length]. rewrite Nat.add_0_r. exact R1.
  - intros k acc s2 Hk (ys & -> & La & O2 & HI).
    set (W' := if is_avail md then (W ++ new)%list else ((W ++ new) ++ ys)%list). set (l' := if is_avail md then l + n else l + n + List.length ys).
    assert (RW : R W' l' s2) by (unfold W', l'; destruct (is_avail md); tauto).
    apply wp_bind. eapply wp_mono.
    { refine ((_ : qt (if (k <? n - n_best)%nat then rform E P "EOA:164-167" [[p_m]; sol best; mean_sol P sp] else lift (getitem keep (k - (n - n_best)))) (fun _ => True)) W' l' s2 RW).
      destruct (k <? n - n_best) eqn:Ek; [quiet HP|]. apply Nat.ltb_ge in Ek. quiet HP. }
    intros x s3 [_ N3]. pose proof (R_near _ _ _ _ _ _ _ _ _ _ _ _ _ _ RW N3) as R3.
    apply wp_bind. eapply wp_mono; [eapply (q_propose (A := unit) (X := unit)) with (feas := feas) (attok := @anyatt unit); [qcorrect HP|qgea|exact R3]|].
    intros a s4 [Fa N4]. pose proof (R_near _ _ _ _ _ _ _ _ _ _ _ _ _ _ R3 N4) as R4.
    assert (O4 : Old s0 s4) by (unfold Old; rewrite (near_pop _ _ _ N4), (near_pop _ _ _ N3); exact O2).
    assert (La' : forall b, List.length ((top ++ ys) ++ [b]) = S k) by (intros b; rewrite app_length; cbn [List.length]; lia).
    unfold W', l' in R4. destruct (is_avail md).
    + apply wp_ret. exists (ys ++ [a])%list. rewrite app_assoc. split; [reflexivity|]. split; [apply La'|]. split; [exact O4|].
      split; [exact R4|]. apply Forall_app. split; [apply HI|constructor; [exact Fa|constructor]].
    + apply wp_bind. eapply wp_evaluate; [exact HP|exact R4|exact Fa|]. intros a' s5 Ga R5 Ep5 _ _ _. apply wp_ret.
      exists (ys ++ [a'])%list. rewrite app_assoc. split; [reflexivity|]. split; [apply La'|]. split; [unfold Old; rewrite Ep5; exact O4|].
      rewrite !app_assoc. rewrite app_length. cbn [List.length]. rewrite Nat.add_assoc. exact R5.
  - intros acc s2 (ys & -> & La & O2 & HI).
    assert (Gt2 : Forall (good (s_log s2)) top).
    { assert (GN : Forall (good (s_log s2)) new).
      { destruct (is_avail md); [destruct HI as [(V2 & _) _]|destruct HI as (V2 & _)]; pose proof (v_W _ _ _ _ _ _ _ _ _ _ _ V2) as GW; rewrite !Forall_app in GW; tauto. }
      rewrite Forall_forall in *. intros a Ha. apply GN, Itop, Ha. }
    destruct (is_avail md) eqn:Hav.
    + destruct HI as [RA FA].
      assert (FT : Forall (fresh_agent feas (@anyatt unit)) (top ++ ys)).
      { apply Forall_app. split; [|exact FA]. eapply Forall_impl; [|exact Gt2]. intros a Ha. split; [apply Ha|intros; exact I]. }
      apply wp_bind. eapply wp_update_target_avail; [exact Hav|]. intros q ->.
      destruct (R_batch E P feas (@anyatt unit) (eq n) IX cov nd n0 n s0 HP (W ++ new) (l + n) s2 (top ++ ys) RA FT) as [RB GB].
      unfold wp, set_pop. split; [exact I|]. exists (2 * n). split; [lia|].
      match goal with |- PAlg.R _ _ _ _ _ _ _ _ _ _ _ _ ?s' => change s' with (with_pop (evald s2 (map sol (top ++ ys))) (map (fun a => with_tgt a (prob_target P (sol a))) (top ++ ys))) end.
      rewrite <- app_assoc in RB. replace (l + 2 * n) with (l + n + List.length (top ++ ys)) by lia.
      eapply R_replace_cov; [exact HP|exact RB|exact O2|rewrite map_length; lia|exact GB|].
      intros C a Ha. apply in_app_or in Ha. destruct Ha as [Ha|Ha].
      * destruct (Ctop C a Ha) as (b & Hbt & Nb). exists b. split; [|exact Nb]. rewrite map_app. apply in_or_app. left.
        apply in_map_iff. exists b. split; [|exact Hbt]. rewrite Forall_forall in Gt2. specialize (Gt2 b Hbt).
        destruct b as [bs0 bt ba]. unfold with_tgt. cbn [sol att]. f_equal. symmetry. apply (g_tgt _ _ _ _ _ Gt2).
      * exists a. split; [exact Ha|]. apply no_worse_refl; [apply HP|]. eapply good_num; [apply HP; exact C|]. rewrite Forall_forall in GB. apply GB, Ha.
    + apply wp_bind, wp_ret. unfold wp, set_pop. split; [exact I|]. exists (n + List.length ys). 
      rewrite app_length in La. split; [lia|].
      match goal with |- PAlg.R _ _ _ _ _ _ _ _ _ _ _ _ ?s' => change s' with (with_pop s2 (top ++ ys)) end.
      pose proof HI as (V2 & _). pose proof (v_W _ _ _ _ _ _ _ _ _ _ _ V2) as GW. apply Forall_app in GW. destruct GW as [_ GY].
      rewrite <- app_assoc in HI. rewrite Nat.add_assoc. eapply R_replace_cov; [exact HP|exact HI|exact O2|rewrite app_length; lia|apply Forall_app; split; assumption|].
      intros C a Ha. apply in_app_or in Ha. destruct Ha as [Ha|Ha].
      * destruct (Ctop C a Ha) as (b & Hbt & Nb). exists b. split; [apply in_or_app; left; exact Hbt|exact Nb].
      * exists a. split; [apply in_or_app; right; exact Ha|]. apply no_worse_refl; [apply HP|]. eapply good_num; [apply HP; exact C|]. rewrite Forall_forall in GY. apply GY, Ha.
Qed.
End EOA.
Theorem C64_OriginalEOA_returning E P md p_c p_m alpha beta gama n_best n epochs : 5 <= n -> 0 < epochs -> 0 < n_best -> 2 * n_best <= n ->
  sound_when E P md (original_eoa E P md p_c p_m alpha beta gama n_best n epochs) (fun _ => True) (fun _ => True) (fun _ => True) (eq n) true n n (2 * n - n_best) (2 * n).
Proof.
  intros Hn He H1 H2. pose (mate := fun ps => orelse (eoa_mate E ps) (pop_sol (A := unit) (X := unit) 0)).
  eapply (returns_of _ _ _ _ (eoa_phases E P md mate p_c p_m alpha beta gama n_best n)).
  - intros ep. cbn [al_evolve original_eoa plain_algo]. unfold eoa_phases, mate. refi.
  - change (with_evolve _ _) with (plain_algo (X := unit) E P md tt n epochs true (eoa_phases E P md mate p_c p_m alpha beta gama n_best n)).
    state_elite (fun _ : unit => True). apply b0_eoa; [exact HP|exact H1|exact H2|]. intros ps. unfold mate, eoa_mate. apply q_orelse; [|quiet HP].
    eapply qp_bind; [apply qp_choice_p|]. intros i _. eapply qp_mono; [apply qp_pop_sol|]. trivial.
Qed.

Print Assumptions C64_OriginalWSO_returning.
Print Assumptions C65_DevBRO_returning.
Print Assumptions C65_OriginalBRO_returning.
Print Assumptions C64_OriginalASO.
Print Assumptions C64_OriginalESOA.
Print Assumptions C64_OriginalEOA_returning.
