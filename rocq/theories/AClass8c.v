(** C64/C65 (continued): classes of MClass8 whose run depends on a condition on the data, with the condition stated, and
    settings where the same classes go wrong. *)
From Verif Require Import Prelude Fl MCore MHelp MAlg MAlg2 MAlg3 MAlg4 MAlg5 MClass8 SpecCore SpecRun PSelect PLogic PSolve PRun SpecAlg PAlg PFree PClass PAlg2 PAlg3 PAlg4 PAlg5 PAlg6 Demo AClass8b.

(** ** OriginalESO: the percentage given to np.percentile (ESO.py:84) must lie between 0 and 100 *)
Definition field_ok (E : env) (P : problem) (n : nat) (feas : vec -> Prop) : Prop :=
  forall xs fits, List.length xs = n -> Forall feas xs ->
    fle (eso_ptp P xs) (fZ 0) = false -> exists t, np_percentile E fits (fmul (fdiv (fdiv (eso_std E P xs) (eso_ptp P xs)) (fZ 2)) (fZ 100)) = Ok t.

Lemma g_ionized E P feas IL IX C nd n0 n s0 w : params E P feas (@anyatt unit) (false = true /\ C) -> field_ok E P n feas ->
  gq P feas anyatt IL IX (false = true /\ C) nd n0 n s0 w (eso_ionized E P) (fun l => Forall feas l).
Proof.
  intros HP HF. unfold eso_ionized. eapply gq_bind; [gquiet HP|]. intros xs H. cbv beta in H. qfacts.
  destruct (fle (eso_ptp P xs) (fZ 0)) eqn:Z; [apply gq_ret; constructor|].
  eapply gq_bind; [gquiet HP|]. intros fits H1. cbv beta in H1. qfacts.
  eapply gq_bind.
  - eapply gq_lift with (Φ := fun _ => True); [exact HP|noc|]. destruct (HF xs fits H H0 Z) as [t Ht]. exists t. split; [exact Ht|exact I].
  - intros t _. apply gq_ret. apply Forall_forall. intros x Hx. apply in_map_iff in Hx. destruct Hx as ([x' f] & <- & Hx).
    apply filter_In in Hx. destruct Hx as [Hx _]. apply in_combine_l in Hx. rewrite Forall_forall in H0. auto.
Qed.

(** Not elitist: the position of line 132-136 is evaluated and may be dropped for a worse one under maximization. *)
Theorem C65_OriginalESO E P n epochs : 5 <= n -> 0 < epochs ->
  sound_run_gen E P Single (original_eso E P Single n epochs) (fun _ => True) (field_ok E P n) (fun _ => True) (eq n) false n n (2 * n) (3 * n).
Proof.
  intros. state_free (fun _ : unit => True). unfold eso_evolve.
  eapply g_qbind; [gquiet HP|]. intros xs Hx. cbv beta in Hx. qfacts.
  eapply g_qbind; [eapply g_ionized; [exact HP|assumption]|]. intros ion Hi. cbv beta in Hi.
  eapply g_mono with (a := n * 2 + 0) (b := n * 3 + 0); [|lia|lia|trivial].
  eapply g_bind with (Φ := fun w' r => List.length r = n /\ Forall (ok P feas anyatt w') r); [|gintros HP; qfacts; free HP].
  eapply g_collect; [exact HP|]. intros i w' Hw Hn'.
  eapply g_mono with (a := 0 + (1 + (1 + 0))) (b := 1 + (1 + (1 + 0))); [|lia|lia|intros ? ? ? T; exact T].
  eapply g_bind with (Φ := fun w a => pend feas anyatt w a).
  - destruct ((i =? 0) || (List.length ion =? 0)) eqn:Z.
    + eapply g_mono with (a := 0) (b := 0); [|lia|lia|intros ? ? ? T; exact T]. apply g_quiet.
      eapply gq_qt; [exact HP|noc|]. eapply q_mono; [eapply gea_plain_none; [exact HP|intros; exact I]|]. intros a. apply fresh_pend.
    + apply orb_false_iff in Z. destruct Z as [_ Z]. apply Nat.eqb_neq in Z. assert (0 < List.length ion) by lia.
      eapply g_mono with (a := 1) (b := 1) (Φ := fun w a => ok P feas anyatt w a); [free HP|lia|lia|].
      intros w2 a _ Ha. eapply ok_pend; [exact HP|exact Ha].
  - gintros HP. eapply g_bind with (Φ := ok P feas anyatt).
    + eapply g_mono; [eapply g_evaluate; [exact HP|noc|eassumption]|lia|lia|]. intros ? ? _ (T & _). exact T.
    + gintros HP. free HP. destruct y3; assumption.
Qed.

(** In many dimensions the percentage exceeds 100.  A problem with 32 variables in [-5, 5] whose initial agents sit in
    opposite corners; square root as in IEEE 754. *)
Definition sqrt_env : env := mkEnv argsort_ins (e_u demo_env) (e_g demo_env) (e_i demo_env)
  (fun name l => if String.eqb name "sqrt" then BinarySingleNaN.Bsqrt BinarySingleNaN.mode_NE (nth 0 l fnan) else nth 0 l fnan) (e_time demo_env) (e_order demo_env).
Definition corner_prob : problem :=
  mkProblem (repeat (fZ (-5)) 32) (repeat (fZ 5) 32) Min (fun x => [sphere x]) None
    (fun _ x => clip_vec (repeat (fZ (-5)) 32) (repeat (fZ 5) 32) x) (fun k => repeat (if Nat.odd k then fZ 5 else fZ (-5)) 32) false.
Theorem C68_ESO_many_dimensions : solve sqrt_env corner_prob Single (original_eso sqrt_env corner_prob Single 6 3) None None (st0 tt) = Err ValueError.
Proof. vm_compute. reflexivity. Qed.
(** In two dimensions the same program returns. *)
Example eso_small : exists g s', solve sqrt_env (demo_prob Min sphere true) Single (original_eso sqrt_env (demo_prob Min sphere true) Single 6 3) None None (st0 tt) = Ok (g, s').
Proof.
  assert (T : match solve sqrt_env (demo_prob Min sphere true) Single (original_eso sqrt_env (demo_prob Min sphere true) Single 6 3) None None (st0 tt) with Ok _ => true | _ => false end = true) by (vm_compute; reflexivity).
  destruct (solve _ _ _ _ _ _ _) as [[g s']|]; [eauto|discriminate].
Qed.

(** ** OriginalGSKA/DevGSKA: groups of at least two on either side of the middle *)
Example gska_ok_default : gska_ok (dec 1 10) 20.
Proof. assert (T : ((2 <=? gska_id1 (dec 1 10) 20) && (gska_id1 (dec 1 10) 20 + 2 <=? gska_id2 (dec 1 10) 20) && (gska_id2 (dec 1 10) 20 + 2 <=? 20))%nat = true) by (vm_compute; reflexivity).
  apply andb_true_iff in T. destruct T as [T T3]. apply andb_true_iff in T. destruct T as [T1 T2]. apply Nat.leb_le in T1, T2, T3. repeat split; assumption. Qed.
(** With the default pb = 0.1 and five agents the best group is empty, and so is the last epoch's set of juniors
    (GSKA.py:80). *)
Definition gska_env : env := mkEnv argsort_ins (e_u demo_env) (e_g demo_env) (e_i demo_env)
  (fun name l => if String.eqb name "GSKA:80" then fmul (nth 0 l fnan) (fsub (fZ 1) (fdiv (nth 1 l fnan) (nth 2 l fnan))) else nth 0 l fnan) (e_time demo_env) (e_order demo_env).
Theorem C68_DevGSKA_five : exists e,
  solve gska_env (demo_prob Min sphere true) Single (dev_gska gska_env (demo_prob Min sphere true) Single (dec 1 10) (dec 7 10) 5 3) None None (st0 tt) = Err e /\ e = ValueError.
Proof.
  assert (T : match solve gska_env (demo_prob Min sphere true) Single (dev_gska gska_env (demo_prob Min sphere true) Single (dec 1 10) (dec 7 10) 5 3) None None (st0 tt) with Err ValueError => true | _ => false end = true) by (vm_compute; reflexivity).
  destruct (solve _ _ _ _ _ _ _) as [|e]; [discriminate|]. exists e. split; [reflexivity|]. destruct e; try discriminate. reflexivity.
Qed.

(** ** OriginalSBO in single mode: the returned target is not that of the returned position *)
Theorem C65_OriginalSBO_refuted : exists g s',
  solve demo_env (demo_prob Min sphere true) Single (original_sbo demo_env (demo_prob Min sphere true) Single (dec 94 100) (dec 5 100) (dec 2 100) 5 3) None None (st0 tt) = Ok (g, s') /\
  exists t, tgt g = Some t /\ feq (t_fit t) (sphere (sol g)) = false.
Proof.
  assert (T : match solve demo_env (demo_prob Min sphere true) Single (original_sbo demo_env (demo_prob Min sphere true) Single (dec 94 100) (dec 5 100) (dec 2 100) 5 3) None None (st0 tt) with
              | Ok (g, _) => match tgt g with Some t => negb (feq (t_fit t) (sphere (sol g))) | None => false end | _ => false end = true) by (vm_compute; reflexivity).
  destruct (solve _ _ _ _ _ _ _) as [[g s']|]; [|discriminate]. exists g, s'. split; [reflexivity|].
  destruct (tgt g) as [t|]; [|discriminate]. exists t. split; [reflexivity|]. destruct (feq _ _); [discriminate|reflexivity].
Qed.

(** In the parallel modes the new positions replace the population.  The condition: the wheel of lines 176-189 stops, that
    is, every draw lies below the last partial sum of the probabilities. *)
Definition bower_ok (E : env) (P : problem) (n : nat) (feas : vec -> Prop) : Prop :=
  forall k l, l <> [] -> List.length l <= n -> fit_values P feas l -> exists i, first_above (e_u E k) (fZ 0) 0 (bower_probs l) = Ok i.
Lemma first_above_lt r l : forall acc i k, first_above r acc i l = Ok k -> i <= k < i + List.length l.
Proof.
  induction l as [|x l IH]; intros acc i k; cbn [first_above]; [discriminate|]. destruct (flt r _).
  - intros H. injection H as <-. cbn. lia.
  - intros H. apply IH in H. cbn. lia.
Qed.
Lemma q_bower E P feas IL IX C nd n0 n s0 l : params E P feas (@anyatt unit) C -> bower_ok E P n feas -> 0 < List.length l -> List.length l <= n -> fit_values P feas l ->
  qt P feas (@anyatt unit) IL IX C nd n0 n s0 (bower_wheel E (bower_probs l)) (fun i => i < List.length l).
Proof.
  intros HP HB Hl Hln Hf. unfold bower_wheel, uniform. intros W m s HR. apply wp_bind, wp_bind.
  assert (T := q_tick (A := unit) (X := unit)). eapply wp_mono; [eapply T; exact HR|]. intros k s1 [_ N]. apply wp_ret.
  assert (Hne : l <> []) by (intros ->; cbn in Hl; lia). destruct (HB k l Hne Hln Hf) as [i Hi]. unfold wp, lift. rewrite Hi.
  split; [|exact N]. apply first_above_lt in Hi. unfold bower_probs in Hi. rewrite !map_length in Hi. lia.
Qed.
Ltac qmore HP m ::= lazymatch m with
  | propose _ _ _ => eapply q_propose; bprem HP
  | bower_wheel _ (bower_probs _) => eapply q_bower; [exact HP|assumption|lia|lia|assumption]
  end.
Theorem C65_OriginalSBO_parallel E P md alpha p_m psw n epochs : 5 <= n -> 0 < epochs -> is_avail md = true ->
  sound_run_gen E P md (original_sbo E P md alpha p_m psw n epochs) (fun _ => True) (bower_ok E P n) (fun _ => True) (eq n) false n n n n.
Proof.
  intros Hn He Hm. state_free (fun _ : unit => True). unfold sbo_evolve. rewrite Hm. cbn [negb when].
  eapply g_qbind; [gquiet HP|]. intros fits Hf. cbv beta in Hf. qfacts. cbv zeta.
  eapply g_qbind.
  - eapply gq_for_acc with (I := fun k acc => List.length acc = k /\ Forall (pend feas anyatt w) acc); [split; [reflexivity|constructor]|].
    intros k acc Hk [Hl Ha]. cbn [when]. assert (k < n) by lia.
    eapply gq_bind; [gquiet HP|]. intros x Hx. cbv beta in Hx. eapply gq_bind; [gquiet HP|]. intros g Hg. cbv beta in Hg.
    eapply gq_bind; [gquiet HP|]. intros y Hy. cbv beta in Hy.
    eapply gq_bind; [gquiet HP|]. intros a Hx'. cbv beta in Hx'.
    eapply gq_bind with (Φ := fun _ => True); [apply gq_ret; exact I|]. intros _ _. apply gq_ret. rewrite app_length. split; [cbn; lia|].
    apply Forall_app. split; [exact Ha|]. constructor; [exact Hx'|constructor].
  - intros l [Hl Hf]. cbn [when]. cbn [Nat.add] in Hl.
    eapply g_mono with (a := List.length l + 0) (b := List.length l + 0); [|rewrite Hl; lia|rewrite Hl; lia|trivial].
    eapply g_bind with (Φ := fun w' l' => Forall (ok P feas anyatt w') l' /\ List.length l' = n).
    + rewrite <- Hl. eapply g_update_target; [exact HP|noc|exact Hm|exact Hf].
    + gintros HP. free HP.
Qed.

Print Assumptions C65_OriginalESO.
Print Assumptions C68_ESO_many_dimensions.
Print Assumptions C68_DevGSKA_five.
Print Assumptions C65_OriginalSBO_refuted.
Print Assumptions C65_OriginalSBO_parallel.
