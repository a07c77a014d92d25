(** The classes of MClass10: every run is sound. *)
From Verif Require Import Prelude Fl FlArith MCore MHelp MAlg MAlg2 MAlg3 MAlg4 MAlg5 MAlg6 MClass10 PSpace SpecCore SpecRun PSelect PLogic PSolve PRun SpecAlg PAlg PFree PClass PAlg2 PAlg3 PAlg4 PAlg5 PAlg6 PAlg7 PAlg8 Demo AClass9.

(** ** ALO *)
Section ALO.
Variables (E : env) (P : problem) (md : mode) (feas : vec -> Prop) (IX : list vec -> unit -> Prop) (cov : Prop) (nd n0 n : nat).
Hypothesis HP : params E P feas (@anyatt unit) cov.
Hypothesis HW : wheel_ok E P n feas.
Hypothesis Hn : 2 <= n.
Lemma b_alo epochs ep s0 : blk P feas (@anyatt unit) (eq n) IX cov nd n0 n s0 n n (alo_evolve E P md n epochs ep) (fun _ => True).
Proof.
  unfold alo_evolve. eapply b_mono with (a := n + 0) (b := n + 0); [|lia|lia|intros y T; exact T].
  eapply b_qbind; [quiet HP|]. intros fits H. cbv beta in H. qfacts.
  intros W l s HR. unfold trim_batch. apply wp_bind. apply wp_bind.
  eapply wp_new_agents; [exact HP|qcorrect HP|qgea|exact HR|intros i Hi; quiet HP|].
  intros new s' Hlen Gn HR' _. pose proof HR' as (V & Hp & Hlog). apply wp_bind, wp_get_pop. apply wp_bind.
  pose proof (R_pop_all _ _ _ _ _ _ _ _ _ _ _ _ _ HR') as Gp.
  assert (GA : Forall (good P feas (@anyatt unit) (s_log s')) (s_pop s' ++ new)) by (apply Forall_app; auto).
  destruct (good_best E P feas (@anyatt unit) cov HP _ _ GA) as (sp & ix & Es & Hpm & HB).
  assert (Ls : List.length sp = n + List.length new) by (rewrite (Permutation_length Hpm), app_length; lia).
  eapply wp_lift; [unfold get_sorted_and_trimmed_population; rewrite Es; reflexivity|].
  apply wp_bind. unfold wp at 1, set_pop.
  destruct (Ev_gb _ _ _ _ _ _ _ _ _ _ _ V) as (g & Eg & Gg).
  eapply wp_get_gb; [exact Eg|]. apply wp_pop_set; [change (n - 1 < List.length (firstn n sp)); rewrite firstn_length; lia|]. split; [exact I|]. exists n. split; [lia|].
  cbn [s_pop with_pop].
  match goal with |- R _ _ _ _ _ _ _ _ _ _ _ _ ?st => change st with (with_pop s' (upd (firstn n sp) (n - 1) g)) end.
  destruct sp as [|b sp]; [cbn in Ls; lia|]. destruct n as [|[|m]]; [lia|lia|].
  replace (S (S m) - 1) with (S m) by lia.
  change (upd (firstn (S (S m)) (b :: sp)) (S m) g) with (b :: upd (firstn (S m) sp) m g).
  eapply R_set_pop with (W' := new); [exact HP|exact HR'| | |].
  - cbn [List.length]. rewrite upd_length, firstn_length. cbn [List.length] in Ls. lia.
  - assert (GS : Forall (good P feas (@anyatt unit) (s_log s')) (b :: sp)).
    { rewrite Forall_forall in *. intros a Ha. apply GA. eapply Permutation_in; eauto. }
    inversion GS; subst. constructor; [assumption|]. apply upd_Forall; [|exact Gg]. rewrite Forall_forall in *. intros a Ha. apply GS. right. eapply firstn_in; exact Ha.
  - intros C a Ha. exists b. split; [left; reflexivity|]. apply HB; auto.
Qed.
End ALO.
Theorem C64_OriginalALO E P md n epochs : 5 <= n -> 0 < epochs ->
  sound_run_gen E P md (original_alo E P md n epochs) (fun _ => True) (wheel_ok E P n) (fun _ => True) (eq n) true n n n n.
Proof. intros. state_elite (fun _ : unit => True). apply b0_blk, b_alo; auto; lia. Qed.
Theorem C64_DevALO E P md n epochs : 5 <= n -> 0 < epochs ->
  sound_run_gen E P md (dev_alo E P md n epochs) (fun _ => True) (wheel_ok E P n) (fun _ => True) (eq n) true n n n n.
Proof. intros. state_elite (fun _ : unit => True). apply b0_blk, b_alo; auto; lia. Qed.

(** ** AO *)
Theorem C64_OriginalAO E P md n epochs : 5 <= n -> 2 <= epochs -> (Z.of_nat epochs <= 100000)%Z ->
  sound_run E P md (original_ao E P md n epochs) (fun _ => True) true n n.
Proof.
  plain. unfold ao_evolve, py_div. rewrite fZ_nonzero by nia.
  do 2 (eapply b0_qbind; [quiet HP|]; intros ? ?).
  eapply b0_qbind; [eapply q_lift with (Φ := fun _ => True); eexists; split; [reflexivity|exact I]|]. intros aa _. counts HP.
Qed.
Theorem C64_AAO E P md sharpness midpoint n epochs : 5 <= n -> 2 <= epochs -> (Z.of_nat epochs <= 100000)%Z ->
  sound_run E P md (aao E P md sharpness midpoint n epochs) (fun _ => True) true n n.
Proof.
  plain. unfold ao_evolve, py_div. rewrite fZ_nonzero by nia.
  do 2 (eapply b0_qbind; [quiet HP|]; intros ? ?).
  eapply b0_qbind; [eapply q_lift with (Φ := fun _ => True); eexists; split; [reflexivity|exact I]|]. intros aa _. counts HP.
Qed.

(** ** NWOA, EEFO, KOA *)
Theorem C64_OriginalNO E P md alpha sigma0 n epochs : 5 <= n -> 0 < epochs ->
  sound_run E P md (original_no E P md alpha sigma0 n epochs) (fun _ => True) true n n.
Proof. plain. counts HP. Qed.
Theorem C64_OriginalNWOA E P md lamda amplitude decay n epochs : 5 <= n -> 0 < epochs ->
  sound_run E P md (original_nwoa E P md lamda amplitude decay n epochs) (fun _ => True) true n n.
Proof. intros. apply gen_plain. state_elite (fun x : f64 => True). - exact I. - counts HP. Qed.
Theorem C64_OriginalEEFO E P md n epochs : 5 <= n -> 0 < epochs -> 0 < n_dims P ->
  sound_run E P md (original_eefo E P md n epochs) (fun _ => True) true n n.
Proof. plain. counts HP. Qed.
Theorem C64_OriginalKOA E P md mu0 lamda tc n epochs : 5 <= n -> 0 < epochs ->
  sound_run E P md (original_koa E P md mu0 lamda tc n epochs) (fun _ => True) true n n.
Proof. intros. apply gen_plain. state_elite (fun x : list f64 => True). - intros; exact I. - counts HP. Qed.

(** ** ORCA *)
Section Orca.
Variables (E : env) (P : problem) (md : mode) (feas : vec -> Prop) (IL : nat -> Prop) (IX : list vec -> unit -> Prop) (C : Prop) (nd n0 n : nat).
Hypothesis HP : params E P feas (@anyatt unit) (false = true /\ C).
Hypothesis Hn : 5 <= n.
Lemma g_orca_chase w p1 q epochs ep s0 :
  gt P feas (@anyatt unit) IL IX (false = true /\ C) nd n0 n s0 w n n (orca_chase E P md p1 q n epochs ep)
    (fun w' r => List.length r = n /\ Forall (ok P feas anyatt w') r).
Proof.
  unfold orca_chase. eapply g_mono with (a := n + 0) (b := n + 0); [|lia|lia|intros w' y _ T; exact T].
  eapply g_qbind; [gquiet HP|]. intros p Hp. eapply g_bind; [free HP|gintros HP].
  eapply g_qbind; [apply gq_get_pop|]. intros p2 (L2 & F2). cbv beta in *.
  eapply g_mono; [eapply g_greedy; [exact HP|noc|exact F2|assumption|lia]|lia|lia|].
  intros w' r _ (Lr & Fr). split; [lia|exact Fr].
Qed.
End Orca.
Theorem C65_OriginalOrcaPA E P md p1 p2 q n epochs : 5 <= n -> 0 < epochs ->
  sound_run_gen E P md (original_orca_pa E P md p1 p2 q n epochs) (fun _ => True) (any_array P) (fun _ => True) (eq n) false n n (2 * n) (3 * n).
Proof.
  intros. state_free (fun _ : unit => True). unfold orca_pa_evolve, orca_attack, orca_flag, orca_adjust.
  eapply g_mono with (a := n + (n + n * 0)) (b := n + (n + n * 1)); [|lia|lia|trivial].
  eapply g_qbind; [gquiet HP|]. intros p (Lp & Fp). eapply g_qbind; [gquiet HP|]. intros [[sp best] wo] Hs. cbv beta iota in Hs |- *.
  eapply g_bind; [apply g_orca_chase; [exact HP|lia]|gintros HP].
  eapply g_bind with (Φ := fun _ r => List.length r = n).
  - destruct (is_avail md).
    + eapply g_mono with (a := n + n * 0) (b := n + n * 0); [|lia|lia|intros w' z _ T; exact T]. eapply g_bind; [free HP|gintros HP].
      eapply g_qbind; [gquiet HP|]. intros a Ha. cbv beta in Ha.
      eapply g_mono; [eapply g_collect_any with (Φ := fun _ => True)|reflexivity|reflexivity|intros w' z _ T; apply T].
      intros i w' Hw Hi2. gmove Hw. eapply g_mono with (a := 0) (b := 0) (Φ := fun _ _ => True); [free HP|lia|lia|trivial].
    + eapply g_mono with (a := n * 1) (b := n * 1); [|lia|lia|intros w' z _ T; exact T].
      eapply g_mono; [eapply g_collect_any with (Φ := fun _ => True)|reflexivity|reflexivity|intros w' z _ T; apply T].
      intros i w' Hw Hi2. gmove Hw. eapply g_mono with (a := 1 + 0) (b := 1 + 0) (Φ := fun _ _ => True); [|lia|lia|trivial]. free HP.
  - gintros HP. eapply g_for. intros i w' Hw Hi2. gmove Hw. eapply g_mono with (a := 0) (b := 1); [|lia|lia|trivial].
    eapply g_qbind; [gquiet HP|]. intros f _. eapply g_whenm with (a := 0). intros _.
    eapply g_qbind; [gquiet HP|]. intros u _. eapply g_qbind; [gquiet HP|]. intros c Hc. cbv beta in Hc.
    destruct (u < p2)%F.
    + eapply g_mono with (a := 1 + 0) (b := 1 + 0); [free HP|lia|lia|trivial].
    + eapply g_mono with (a := 0) (b := 0); [free HP|lia|lia|trivial].
Qed.
Theorem C64_OriginalOrcaOA E P md n_removes r0 n epochs : 5 <= n -> 0 < epochs -> 1 <= n_removes ->
  sound_run_len E P md (original_orca_oa E P md n_removes r0 n epochs) (fun _ => True) (fun m => m = n \/ m = n - 1) true (n - 1) (n - 1).
Proof.
  intros Hn He Hr. apply (sound_len_of E P md tt n epochs true (ret tt) (orca_oa_evolve E P md n_removes r0 n epochs) _ (fun _ => True) (fun _ => True)); auto; try lia.
  - intros s Hs. apply wp_ret. exists (s_x s), (s_ctr s). split; [destruct s; reflexivity|auto].
  - intros feas nd n0 HP ep s Hep HI. unfold orca_oa_evolve.
    set (m := List.length (s_pop s)). assert (Hm : m = n \/ m = n - 1) by apply (i_len _ _ _ _ _ _ _ _ _ HI).
    assert (HR : R P feas anyatt (fun m => m = n \/ m = n - 1) (fun _ _ => True) (true = true /\ obj_num P feas) nd n0 m s [] (List.length (s_log s)) s).
    { split; [apply Ev_init; exact HI|]. split; reflexivity. }
    assert (HO : Old s s).
    { unfold Old. eapply Forall_impl; [|apply (i_good _ _ _ _ _ _ _ _ _ HI)]. intros a G. apply G. }
    apply wp_bind. eapply wp_mono; [eapply q_all_fits; exact HR|]. intros fits s1 ((Lf & _) & N1).
    pose proof (R_near _ _ _ _ _ _ _ _ _ _ _ _ _ _ HR N1) as R1. pose proof (Old_near _ _ _ _ HO N1) as O1.
    apply wp_bind. eapply wp_mono; [eapply q_gb_fit; exact R1|]. intros gf s2 (_ & N2).
    pose proof (R_near _ _ _ _ _ _ _ _ _ _ _ _ _ _ R1 N2) as R2. pose proof (Old_near _ _ _ _ O1 N2) as O2.
    apply wp_bind. eapply wp_mono; [eapply q_get_x; exact R2|]. intros r s3 (_ & N3).
    pose proof (R_near _ _ _ _ _ _ _ _ _ _ _ _ _ _ R2 N3) as R3. pose proof (Old_near _ _ _ _ O2 N3) as O3. cbv zeta.
    apply wp_bind. eapply wp_mono; [eapply q_set_x; [|exact R3]; exact I|]. intros [] s4 (_ & N4).
    pose proof (R_near _ _ _ _ _ _ _ _ _ _ _ _ _ _ R3 N4) as R4. pose proof (Old_near _ _ _ _ O3 N4) as O4.
    assert (Ld : n - 1 <= List.length (orca_dist n r gf fits)).
    { unfold orca_dist. rewrite map_length. destruct (feq _ _); [rewrite repeat_length; lia|rewrite !map_length; lia]. }
    set (d := orca_dist n r gf fits) in *. clearbody d.
    eapply wp_mono; [eapply replace_len; [exact HP|qcorrect HP|qgea|exact R4|exact O4|]|].
    { intros i Hi. cbv zeta. destruct (Nat.ltb_spec (i + 1) (n - n_removes)); quiet HP. }
    intros [] s' (V & Hl & Hg). split; [exact V|]. split; [right; exact Hl|lia].
Qed.

(** ** PO *)
(** Positions cut to the bounds are solutions. *)
Definition clip_ok (P : problem) (feas : vec -> Prop) : Prop :=
  forall x, feas (vtab P (fun i => fclip (vget x i) (vget (p_lb P) i) (vget (p_ub P) i))).
Lemma np_argmax_ok l : 0 < List.length l -> exists i, np_argmax l = Ok i /\ i < List.length l.
Proof. intros Hl. unfold np_argmax. destruct l as [|a l]; [cbn in Hl; lia|]. eexists. split; [reflexivity|]. apply (arg_from_lt _ 0 1); lia. Qed.
Lemma np_argmin_ok l : 0 < List.length l -> exists i, np_argmin l = Ok i /\ i < List.length l.
Proof. intros Hl. unfold np_argmin. destruct l as [|a l]; [cbn in Hl; lia|]. eexists. split; [reflexivity|]. apply (arg_from_lt _ 0 1); lia. Qed.
Lemma po_winner_ok P m fits j : 0 < m -> j < m -> exists c, po_winner P m fits j = Ok c /\ c < m * m.
Proof.
  intros Hm Hj. unfold po_winner.
  set (c := map _ _). assert (Lc : List.length c = m) by (unfold c; rewrite map_length, seq_length; reflexivity). clearbody c.
  assert (T : exists i, (match p_mm P with Min => np_argmin c | _ => np_argmax c end) = Ok i /\ i < m).
  { destruct (p_mm P); [destruct (np_argmin_ok c) as (i & Ei & Hi)|destruct (np_argmax_ok c) as (i & Ei & Hi)|destruct (np_argmax_ok c) as (i & Ei & Hi)]; try lia;
    exists i; (split; [exact Ei|lia]). }
  destruct T as (i & Ei & Hi). rewrite Ei. cbn [bind]. exists (i * m + j). split; [reflexivity|nia].
Qed.
Lemma po_least_ok P m fits r : 0 < m -> List.length fits = m * m -> r < m -> exists c, po_least P m fits r = Ok c /\ c < m * m.
Proof.
  intros Hm Hf Hr. unfold po_least.
  set (c := slice _ _ _). assert (Lc : List.length c = m) by (unfold c; rewrite slice_length by nia; lia). clearbody c.
  assert (T : exists i, (match p_mm P with Min => np_argmax c | _ => np_argmin c end) = Ok i /\ i < m).
  { destruct (p_mm P); [destruct (np_argmax_ok c) as (i & Ei & Hi)|destruct (np_argmin_ok c) as (i & Ei & Hi)|destruct (np_argmin_ok c) as (i & Ei & Hi)]; try lia;
    exists i; (split; [exact Ei|lia]). }
  destruct T as (i & Ei & Hi). rewrite Ei. cbn [bind]. exists (r * m + i). split; [reflexivity|nia].
Qed.
Section PO.
Variables (E : env) (P : problem) (feas : vec -> Prop) (IL : nat -> Prop) (IX : list vec -> f64 -> Prop) (cov : Prop) (nd n0 m : nat) (s0 : st unit f64).
Hypothesis HP : params E P feas (@anyatt unit) cov.
Hypothesis HC : clip_ok P feas.
Hypothesis Hm : 2 <= m.
Notation fresh := (Forall (fresh_agent feas (@anyatt unit))).
Lemma q_campaign : qt P feas (@anyatt unit) IL IX cov nd n0 (m * m) s0 (po_campaign E P (m * m)) (fun l => List.length l = m * m /\ fresh l).
Proof.
  unfold po_campaign. eapply q_bind; [apply q_get_pop|]. intros p (Lp & Fp).
  eapply q_for_acc with (I := fun _ l => List.length l = m * m /\ fresh l).
  - split; [exact Lp|]. eapply Forall_impl; [|exact Fp]. intros a (_ & Ha). split; [exact Ha|]. intros; exact I.
  - intros k l Hk (Ll & Fl). eapply q_bind; [quiet HP|]. intros x _. eapply q_bind; [apply q_ret with (Φ := feas); apply HC|]. intros y Hy.
    eapply q_bind; [quiet HP|]. intros a _. apply q_ret. split; [rewrite upd_length; exact Ll|].
    apply upd_Forall; [exact Fl|]. split; [exact Hy|]. intros; exact I.
Qed.
Lemma q_switch l fits : List.length l = m * m -> fresh l -> List.length fits = m * m ->
  qt P feas (@anyatt unit) IL IX cov nd n0 (m * m) s0 (po_switch E P m (m * m) l fits) (fun l => List.length l = m * m /\ fresh l).
Proof.
  intros Ll Fl Lf. unfold po_switch. eapply q_bind; [apply q_get_x|]. intros lam _.
  eapply q_bind.
  - eapply q_for_acc with (I := fun _ (lf : list (agent unit) * list f64) => List.length (fst lf) = m * m /\ fresh (fst lf) /\ List.length (snd lf) = m * m); [auto|].
    intros k [l1 f1] Hk (L1 & F1 & G1). cbn [fst snd] in *. eapply q_bind; [quiet HP|]. intros u _. destruct (u < lam)%F; [|apply q_ret; auto].
    eapply q_bind; [apply q_integers; lia|]. intros r Hr. cbv beta in Hr.
    eapply q_bind; [apply q_lift with (Φ := fun c => c < m * m); apply po_least_ok; [lia|exact G1|lia]|]. intros q Hq. cbv beta in Hq.
    destruct (getitem_lt l1 q) as (a & Ea & _ & Ia); [lia|]. destruct (getitem_lt l1 k) as (b & Eb & _ & Ib); [lia|].
    rewrite Ea, Eb. rewrite Forall_forall in F1.
    eapply q_bind; [apply q_lift with (Φ := eq a); eauto|]. intros ? <-. eapply q_bind; [apply q_lift with (Φ := eq b); eauto|]. intros ? <-.
    apply q_ret. cbn [fst snd]. split; [rewrite !upd_length; exact L1|]. split; [|rewrite !upd_length; exact G1].
    apply upd_Forall; [|apply F1; exact Ia]. apply upd_Forall; [apply Forall_forall; exact F1|apply F1; exact Ib].
  - cbv beta. intros r (H1 & H2 & _). apply q_ret. auto.
Qed.
End PO.
Theorem C64_OriginalPO E P md lamda_max m epochs : 2 <= m -> 0 < epochs ->
  sound_run_gen E P md (original_po E P md lamda_max m epochs) (fun _ => True) (clip_ok P) (fun _ => True) (eq (m * m)) true (m * m) (m * m) (m * m + m) (m * m + m).
Proof.
  intros Hm He. eapply (state_elite _ _ _ _ _ _ _ _ _ _ _ _ (fun _ _ _ => True) (fun _ _ _ => True)); [nia|lia|..].
  - intros feas Hp. apply vars_none; auto.
  - intros feas nd n0 s HP HH HI. unfold wp, set_x. exists (s_ctr s), lamda_max. split; [destruct s; reflexivity|]. exists []. split; [intros ? []|exact I].
  - intros feas nd n0 ep s0 HP HH Hep. unfold po_evolve. cbv zeta.
    eapply b0_mono with (a := m * m + (m * 1 + 0)) (b := m * m + (m * 1 + 0)) (Φ := fun _ => True); [|lia|lia|auto].
    eapply b0_qbind; [quiet HP|]. intros fits (Lf & Hf).
    eapply b0_bind; [eapply b0_replace_list; [exact HP|]|].
    + eapply q_bind; [apply q_campaign; auto|]. intros l (Ll & Fl). apply q_switch; auto.
    + intros _ _. eapply b_qbind; [quiet HP|]. intros new (Ln & _).
      eapply b_bind; [eapply b_for|].
      * intros j Hj. eapply b_qbind; [apply q_lift with (Φ := fun c => c < m * m); apply po_winner_ok; lia|]. intros cj Hcj.
        eapply b_qbind; [quiet HP|]. intros r Hr. cbv beta in Hr. qfacts. eapply b_qbind; [apply q_lift with (Φ := fun c => c < m * m); apply po_winner_ok; lia|]. intros cr Hcr.
        cbv beta in *. block HP.
      * intros _ _. eapply b_mono with (a := 0) (b := 0); [block HP|lia|lia|auto].
Qed.

(** ** DMOA *)
(** The wheel over exp(-fitness/mean) returns an index. *)
Definition mongoose_ok (E : env) (P : problem) (n : nat) (feas : vec -> Prop) : Prop :=
  forall l, l <> [] -> List.length l <= n -> fit_values P feas l -> wheel_at E P (map (fun f => exp_ E (fneg f / fmean l)%F) l).
Lemma q_alpha E P feas IL IX C nd n0 n s0 l : mongoose_ok E P n feas -> 0 < List.length l -> List.length l <= n -> fit_values P feas l ->
  qt P feas (@anyatt unit) IL IX C nd n0 n s0 (dmoa_alpha E P l) (fun i => i < List.length l).
Proof.
  intros HM Hl Hln Hf. eapply q_mono; [eapply q_wheel, HM; [intros ->; cbn in Hl; lia|exact Hln|exact Hf]|]. intros i. rewrite map_length. auto.
Qed.
Ltac qmore HP m ::= lazymatch m with
  | propose _ _ _ => eapply q_propose; bprem HP
  | raw _ _ => apply q_raw; assumption
  | dmoa_alpha _ _ _ => apply q_alpha; [assumption|lia|lia|assumption]
  end.
Theorem C65_OriginalDMOA E P sitters peep limit n epochs : 5 <= n -> 0 < epochs -> sitters <= n ->
  sound_run_gen E P Single (original_dmoa E P Single sitters peep limit n epochs) (fun _ => True) (mongoose_ok E P n) (fun _ => True) (eq n) false n n (3 * n) (3 * n + sitters).
Proof.
  intros Hn He Hs. state_free (fun x : list f64 => List.length x = n).
  - apply repeat_length.
  - unfold dmoa_evolve, dmoa_forage, dmoa_scout, dmoa_sit, dmoa_try. gcounts HP.
Qed.
Theorem C65_DevDMOA E P peep limit n epochs : 5 <= n -> 0 < epochs ->
  sound_run_gen E P Single (dev_dmoa E P Single peep limit n epochs) (fun _ => True) (mongoose_ok E P n) (fun _ => True) (eq n) false n n (3 * n) (4 * n).
Proof.
  intros Hn He. state_free (fun x : list f64 => List.length x = n).
  - apply repeat_length.
  - unfold dev_dmoa_evolve, dmoa_forage, dmoa_scout, dmoa_sit, dmoa_try. gcounts HP.
Qed.

(** ** WHO *)
Section WHO.
Variables (E : env) (P : problem) (md : mode) (feas : vec -> Prop) (IX : list vec -> unit -> Prop) (C : Prop) (nd n0 n : nat) (s0 : st unit unit).
Hypothesis HP : params E P feas (@anyatt unit) (false = true /\ C).
Hypothesis HA : any_array P feas.
Hypothesis Hn : 5 <= n.
Hypothesis Hav : is_avail md = true.
Notation gt := (gt P feas (@anyatt unit) (eq n) IX (false = true /\ C) nd n0 n s0).
Lemma g_who_mill w steps : 0 < steps -> gt w (n * steps + n) (n * steps + n) (who_mill E P md steps n) (fun _ _ => True).
Proof.
  intros Hs. unfold who_mill, who_local. rewrite Hav.
  eapply g_bind; [eapply g_collect_pend|].
  - intros i w' Hw Hi. eapply g_mono with (a := steps + 0) (b := steps + 0); [|lia|lia|intros w2 y _ T; exact T].
    eapply g_bind with (Φ := fun _ _ => True).
    + eapply g_mono with (a := steps + 0) (b := steps + 0); [|lia|lia|intros w2 y _ T; exact T]. free HP.
    + intros x w2 Hw2 _. eapply g_quiet. gquiet HP.
  - gintros HP. eapply g_mono with (a := List.length y + 0) (b := List.length y + 0); [|lia|lia|intros w2 z _ T; exact T].
    eapply g_bind; [eapply g_update_target; [exact HP|noc|exact Hav|assumption]|].
    intros new w2 Hw2 (Fn & Ln). eapply g_greedy_set; [exact HP|noc|exact Fn|lia].
Qed.
Lemma g_who_herd w p_hi : gt w 0 n (who_herd E P p_hi n) (fun _ _ => True).
Proof. unfold who_herd. gcounts HP. Qed.
Lemma g_who_last w steps : 0 < steps -> gt w (n * steps) (n * (steps + 2)) (who_last E P md steps n) (fun _ _ => True).
Proof.
  intros Hs. unfold who_last. rewrite Hav.
  eapply g_qbind; [gquiet HP|]. intros p (Lp & Fp). eapply g_qbind; [gquiet HP|]. intros [[sp best] wo] Hb. cbv beta iota in Hb |- *.
  qfacts. do 2 (eapply g_qbind; [gquiet HP|intros ? _]).
  eapply g_qbind with (Φ := fun l => n * steps <= List.length l <= n * (steps + 2) /\ Forall (fresh_agent feas (@anyatt unit)) l).
  { eapply gq_qt; [exact HP|noc|]. eapply q_collect_many. intros i Hi.
    eapply q_bind; [quiet HP|]. intros xi _. eapply q_bind; [unfold who_starve; quiet HP|]. intros o1 _.
    assert (Q : forall o, qt P feas (@anyatt unit) (eq n) IX (false = true /\ C) nd n0 n s0 (who_option P o) (fun l => List.length l <= 1 /\ Forall (fresh_agent feas (@anyatt unit)) l)).
    { intros [v|]; cbn [who_option]; [|apply q_ret; auto]. eapply q_bind; [quiet HP|]. intros a Ha. apply q_ret. auto. }
    eapply q_bind; [apply Q|]. intros l1 (L1 & F1). eapply q_bind; [unfold who_press; quiet HP|]. intros o2 _.
    eapply q_bind; [apply Q|]. intros l2 (L2 & F2).
    eapply q_bind; [eapply q_repeat with (Φ := fresh_agent feas (@anyatt unit)); quiet HP|].
    intros l3 (L3 & F3). apply q_ret. rewrite !app_length. split; [lia|]. repeat (apply Forall_app; split); assumption. }
  intros l (Ll & Fl).
  eapply g_mono with (a := List.length l + 0) (b := List.length l + 0); [|lia|lia|intros w2 z _ T; exact T].
  eapply g_bind; [eapply g_update_target; [exact HP|noc|exact Hav|]|].
  { eapply Forall_impl; [|exact Fl]. intros a. apply fresh_pend. }
  intros new w2 Hw2 (Fn & Ln).
  eapply g_qbind; [eapply gq_trimmed; [exact HP|noc|exact Fn]|]. intros child (Lc & Fc). eapply g_greedy_set; [exact HP|noc|exact Fc|nia].
Qed.
End WHO.
Theorem C65_OriginalWHO_parallel E P md explore exploit p_hi n epochs : 5 <= n -> 0 < epochs -> 0 < explore -> 0 < exploit -> is_avail md = true ->
  sound_run_gen E P md (original_who E P md explore exploit p_hi n epochs) (fun _ => True) (any_array P) (fun _ => True) (eq n) false n n
    (n * explore + n + n * exploit) (n * explore + 2 * n + n * (exploit + 2)).
Proof.
  intros Hn He H1 H2 Hav. state_free (fun _ : unit => True). unfold who_evolve.
  eapply g_mono with (a := (n * explore + n) + (0 + n * exploit)) (b := (n * explore + n) + (n + n * (exploit + 2))); [|lia|lia|trivial].
  eapply g_bind; [apply g_who_mill; auto|]. intros _ w1 _ _. eapply g_bind; [apply g_who_herd; auto|]. intros _ w2 _ _. apply g_who_last; auto.
Qed.
(** In single mode the returned target is not that of the returned position: the step of WHO.py:170 keeps the position before
    correction with the target of the corrected one. *)
Definition who_env : env := mkEnv argsort_ins (e_u demo_env) (e_g demo_env) (e_i demo_env)
  (fun name l => if String.eqb name "WHO:170" then fZ (-9) else nth 0 l fnan) (e_time demo_env) (e_order demo_env).
Theorem C65_OriginalWHO_refuted : exists g s',
  solve who_env (demo_prob Max sphere true) Single (original_who who_env (demo_prob Max sphere true) Single 2 2 (dec 9 10) 5 3) None None (st0 tt) = Ok (g, s') /\
  exists t, tgt g = Some t /\ feq (t_fit t) (sphere (sol g)) = false.
Proof.
  assert (T : match solve who_env (demo_prob Max sphere true) Single (original_who who_env (demo_prob Max sphere true) Single 2 2 (dec 9 10) 5 3) None None (st0 tt) with
              | Ok (g, _) => match tgt g with Some t => negb (feq (t_fit t) (sphere (sol g))) | None => false end | _ => false end = true) by (vm_compute; reflexivity).
  destruct (solve _ _ _ _ _ _ _) as [[g s']|]; [|discriminate]. exists g, s'. split; [reflexivity|].
  destruct (tgt g) as [t|]; [|discriminate]. exists t. split; [reflexivity|]. destruct (feq _ _); [discriminate|reflexivity].
Qed.

(** ** OriginalOrcaOA without removals: the second epoch reads a distance that is not there *)
Theorem C68_OriginalOrcaOA_no_removal :
  solve demo_env (demo_prob Min sphere true) Single (original_orca_oa demo_env (demo_prob Min sphere true) Single 0 (fZ 1) 5 3) None None (st0 (fZ 1)) = Err IndexError.
Proof.
  assert (T : match solve demo_env (demo_prob Min sphere true) Single (original_orca_oa demo_env (demo_prob Min sphere true) Single 0 (fZ 1) 5 3) None None (st0 (fZ 1)) with Err IndexError => true | _ => false end = true) by (vm_compute; reflexivity).
  destruct (solve _ _ _ _ _ _ _) as [|e]; [discriminate|]. destruct e; try discriminate. reflexivity.
Qed.

(** ** BSA *)
Definition bird_ok (L : list vec) (a : bird) : Prop := exists t, b_tgt a = Some t.
Lemma bsa_ga_ok P (feas : vec -> Prop) : problem_ok P feas -> ga_ok P feas bird_ok (bsa_ga P).
Proof.
  intros Hp s o Ho. unfold bsa_ga. apply wp_bind.
  eapply wp_mono; [apply (gea_with_ok P feas (fun x => ret (mkBird x None))); [exact Hp|intros; draws; exact I|exact Ho]|].
  intros a s' ((k & ->) & Ha & _). apply wp_bind, wp_get_target, wp_ret. simpl. split; [exists k; reflexivity|].
  split; [exact Ha|]. split; [reflexivity|]. intros L _. eexists; reflexivity.
Qed.
Section BSA.
Variables (E : env) (P : problem) (md : mode) (feas : vec -> Prop) (IX : list vec -> unit -> Prop) (cov : Prop) (nd n0 n : nat) (s0 : st bird unit).
Hypothesis HP : params E P feas bird_ok cov.
Hypothesis Hn : 5 <= n.
Notation qt := (qt P feas bird_ok (eq n) IX cov nd n0 n s0).
Notation fresh := (fresh_agent feas bird_ok).
Lemma q_bsa_copy i x : i < n -> qt (bsa_copy P i x) fresh.
Proof.
  intros Hi. unfold bsa_copy. eapply q_bind; [apply q_pop_seen; exact Hi|]. intros a (_ & _ & L & t & Et).
  eapply q_bind; [quiet HP|]. intros y Hy. apply q_ret. split; [exact Hy|]. intros L' _. exists t. exact Et.
Qed.
Notation INV := (fun l : list (agent bird) => List.length l = n /\ Forall fresh l).
Lemma q_bsa_upd i x l : i < n -> INV l -> qt (bsa_upd P i x l) INV.
Proof.
  intros Hi (Ll & Fl). unfold bsa_upd. eapply q_bind; [apply q_bsa_copy; exact Hi|]. intros a Ha. apply q_ret.
  split; [rewrite upd_length; exact Ll|apply upd_Forall; assumption].
Qed.
Lemma q_producer i l : i < n -> INV l -> qt (bsa_producer E P i l) INV.
Proof. intros Hi Hl. unfold bsa_producer. do 2 (eapply q_bind; [quiet HP|intros ? _]). apply q_bsa_upd; assumption. Qed.
Lemma q_scrounger fc lo hi i l : lo < hi <= n -> i < n -> INV l -> qt (bsa_scrounger E P fc lo hi i l) INV.
Proof.
  intros Hb Hi Hl. unfold bsa_scrounger. eapply q_bind; [apply q_integers; lia|]. intros k Hk. cbv beta in Hk.
  do 3 (eapply q_bind; [quiet HP|intros ? _]). apply q_bsa_upd; assumption.
Qed.
Lemma q_bsa_fits p : Forall (fun a => exists L, bird_ok L (att a)) p -> exists l, bsa_fits p = Ok l /\ List.length l = List.length p.
Proof.
  induction 1 as [|a p (L & t & Et) _ (l & El & Ll)]; [exists []; auto|]. unfold bsa_fits in *. cbn [map_res]. rewrite Et, El. cbn [bind].
  eexists. split; [reflexivity|]. cbn. lia.
Qed.
Lemma q_groups fc fits : List.length fits = n -> qt (bsa_groups E P fc n fits) INV.
Proof.
  intros Lf. unfold bsa_groups.
  eapply q_bind with (Φ := INV).
  { intros W l s HR. apply wp_get_pop. pose proof HR as (V & Hp & _). split; [|eapply near_refl; exact HR]. split; [exact Hp|].
    pose proof (v_good _ _ _ _ _ _ _ _ _ _ _ V) as G. eapply Forall_impl; [|exact G]. intros a Ga. split; [apply Ga|].
    intros L' _. destruct (g_att _ _ _ _ _ Ga) as [t Et]. exists t. exact Et. }
  intros p Hp. eapply q_bind; [apply q_argmin; lia|]. intros imin Hmin. eapply q_bind; [apply q_argmax; lia|]. intros imax Hmax. cbv beta zeta in *.
  assert (Hh : 0 < n / 2 /\ n / 2 + 1 < n).
  { pose proof (Nat.div_mod n 2 ltac:(lia)) as D. pose proof (Nat.mod_upper_bound n 2 ltac:(lia)). lia. }
  set (h := n / 2) in *. clearbody h. set (ch := bsa_choose n imin imax). clearbody ch.
  destruct (ch <? 3).
  - eapply q_bind; [eapply q_for_list with (I := INV); [exact Hp|]|].
    { intros i l Hi Hl. apply in_seq in Hi. apply q_producer; [lia|exact Hl]. }
    intros l1 H1. eapply q_bind with (Φ := INV).
    { destruct (ch =? 1); [apply q_producer; [lia|exact H1]|apply q_ret; exact H1]. }
    intros l2 H2. eapply q_for_list with (I := INV); [exact H2|]. intros i l Hi Hl. apply in_seq in Hi.
    destruct (_ || _); [apply q_scrounger; [lia|lia|exact Hl]|apply q_ret; exact Hl].
  - eapply q_bind; [eapply q_for_list with (I := INV); [exact Hp|]|].
    { intros i l Hi Hl. apply in_seq in Hi. apply q_producer; [lia|exact Hl]. }
    intros l1 H1. eapply q_bind with (Φ := fun _ => True).
    { destruct (ch =? 4); cbn [when]; [|apply q_ret; exact I]. do 2 (eapply q_bind; [quiet HP|intros ? _]).
      eapply q_bind; [apply q_bsa_copy; lia|]. intros _ _. apply q_ret. exact I. }
    intros _ _. eapply q_for_list with (I := INV); [exact H1|]. intros i l Hi Hl. apply in_seq in Hi.
    destruct (_ || _); [apply q_scrounger; [lia|lia|exact Hl]|apply q_ret; exact Hl].
Qed.
Lemma b_bsa ff c1 c2 a1 a2 pff fc ep : blk P feas bird_ok (eq n) IX cov nd n0 n s0 n n (bsa_evolve E P md ff c1 c2 a1 a2 pff fc n ep) (fun _ => True).
Proof.
  unfold bsa_evolve.
  eapply b_qbind with (Φ := fun p => List.length p = n /\ Forall (fun a => exists L, bird_ok L (att a)) p).
  { intros W l s HR. apply wp_get_pop. pose proof HR as (V & Hp & _). split; [|eapply near_refl; exact HR]. split; [exact Hp|].
    eapply Forall_impl; [|apply (v_good _ _ _ _ _ _ _ _ _ _ _ V)]. intros a Ga. eexists. apply Ga. }
  intros p (Lp & Fp). destruct (q_bsa_fits p Fp) as (fits & Ef & Lf). rewrite Ef.
  eapply b_qbind; [apply q_lift with (Φ := eq fits); eauto|]. intros ? <-.
  destruct (negb _).
  - unfold bsa_fly. eapply b_greedy_agents; [exact HP|lia|]. intros i Hi.
    eapply q_bind; [apply q_pop_seen; exact Hi|]. intros a _. eapply q_bind; [quiet HP|]. intros g _. eapply q_bind; [quiet HP|]. intros c _.
    eapply q_bind with (Φ := fun _ => True); [destruct c; quiet HP|]. intros x _.
    eapply q_bind; [apply q_bsa_copy; exact Hi|]. intros b Hb. apply q_ret. cbn [fst snd]. auto.
  - intros W l s HR. apply wp_bind. eapply wp_mono; [eapply q_groups; [lia|exact HR]|]. intros ts s1 ((Lt & Ft) & N1).
    apply wp_bind. eapply wp_evaluate_all; [exact HP|eapply R_near; [exact HR|exact N1]|exact Ft|].
    intros new s2 Ln R2 _. eapply wp_greedy_select; [exact HP|exact R2|lia|]. intros s3 R3. split; [exact I|]. exists n. split; [lia|].
    rewrite Lt in R3. exact R3.
Qed.
End BSA.
Theorem C64_OriginalBSA E P md ff c1 c2 a1 a2 pff fc n epochs : 5 <= n -> 0 < epochs ->
  sound_run_gen E P md (original_bsa E P md ff c1 c2 a1 a2 pff fc n epochs) (fun _ => True) (fun _ => True)
    (fun starting => is_avail md = true -> starting = None) (eq n) true n n n n.
Proof.
  intros Hn He.
  apply (sound_agents_st E P md (bsa_gea P) (bsa_ga P) n epochs false (ret tt) (ret tt) (bsa_evolve E P md ff c1 c2 a1 a2 pff fc n) (fun _ => True) (fun _ => True)
           (fun starting => is_avail md = true -> starting = None) (fun _ => bird_ok) (fun _ _ _ => True) (fun _ _ _ => True)); try lia.
  - intros feas L L' a _ T; exact T.
  - intros feas rows Hav Hst. discriminate (Hst Hav).
  - intros feas Hp. apply bsa_ga_ok, Hp.
  - intros feas Hp. apply vars_none; auto.
  - intros feas nd n0 s HP HH HI. eapply main_none; exact HI.
  - intros feas nd n0 HP HH. eapply contract_of; [exact HP|]. intros ep s0 Hep _. apply b0_blk, b_bsa; auto.
Qed.
(** With starting solutions in a parallel mode the agents have no local target (BSA.py:118). *)
Definition bsa_rows : list vec := repeat [fZ 1; fZ 2] 5.
Theorem C68_OriginalBSA_starting :
  solve demo_env (demo_prob Min sphere true) Swarm (original_bsa demo_env (demo_prob Min sphere true) Swarm 10 (fZ 2) (fZ 2) (fZ 1) (fZ 1) (dec 8 10) (dec 5 10) 5 3) None (Some bsa_rows) (st0 tt) = Err AttributeError.
Proof.
  assert (T : match solve demo_env (demo_prob Min sphere true) Swarm (original_bsa demo_env (demo_prob Min sphere true) Swarm 10 (fZ 2) (fZ 2) (fZ 1) (fZ 1) (dec 8 10) (dec 5 10) 5 3) None (Some bsa_rows) (st0 tt) with Err AttributeError => true | _ => false end = true) by (vm_compute; reflexivity).
  destruct (solve _ _ _ _ _ _ _) as [|e]; [discriminate|]. destruct e; try discriminate. reflexivity.
Qed.

Print Assumptions C64_OriginalALO.
Print Assumptions C64_DevALO.
Print Assumptions C64_OriginalAO.
Print Assumptions C64_AAO.
Print Assumptions C64_OriginalNO.
Print Assumptions C64_OriginalNWOA.
Print Assumptions C64_OriginalEEFO.
Print Assumptions C64_OriginalKOA.
Print Assumptions C65_OriginalOrcaPA.
Print Assumptions C64_OriginalOrcaOA.
Print Assumptions C64_OriginalPO.
Print Assumptions C65_OriginalDMOA.
Print Assumptions C65_DevDMOA.
Print Assumptions C65_OriginalWHO_parallel.
Print Assumptions C65_OriginalWHO_refuted.
Print Assumptions C68_OriginalOrcaOA_no_removal.
Print Assumptions C64_OriginalBSA.
Print Assumptions C68_OriginalBSA_starting.
