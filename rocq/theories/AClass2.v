(** Runs of the classes of MClass2. *)
From Verif Require Import Prelude Fl MCore MHelp MAlg MClass2 SpecCore SpecRun PSelect PLogic PSolve PRun SpecAlg PAlg PFree PClass Demo.

Theorem C64_OriginalWDO E P md rt g_c alp c_e max_v n epochs : 0 < n -> 0 < epochs -> 0 < n_dims P ->
  sound_run E P md (original_wdo E P md rt g_c alp c_e max_v n epochs) (fun _ => True) true n n.
Proof.
  intros. apply gen_plain. state_elite (fun x : list vec => List.length x = n).
  - rewrite map_length; auto.
  - counts HP.
Qed.
Theorem C64_OriginalWarSO E P rr n epochs : 0 < n -> 0 < epochs ->
  sound_run E P Single (original_warso E P rr n epochs) (fun _ => True) true n n.
Proof.
  intros. apply gen_plain. state_elite (fun x : vec * vec => List.length (fst x) = n /\ List.length (snd x) = n).
  - simpl. rewrite !repeat_length; auto.
  - counts HP.
Qed.
Theorem C64_OriginalAFT E P md n epochs : 0 < n -> 0 < epochs ->
  sound_run E P md (original_aft E P md n epochs) (fun _ => True) true n n.
Proof.
  intros. apply gen_plain.
  eapply (state_elite _ _ _ _ _ _ _ _ _ _ _ _ (fun _ _ _ => True) (fun feas _ x => List.length x = n /\ Forall (fun a => wf_agent a /\ feas (sol a)) x)); [lia|lia|..].
  - intros. apply vars_none. auto.
  - intros feas nd n0 s HP HH HI. eapply main_set; [exact HP|exact HI|intros; quiet HP|].
    intros x Hx. exists []. split; [intros ? []|exact Hx].
  - intros feas nd n0 ep s0 HP HH Hep. counts HP.
Qed.
Theorem C64_OriginalDSO E P md lamda eta n epochs : 0 < n -> 0 < epochs ->
  sound_run E P md (original_dso E P md lamda eta n epochs) (fun _ => True) true 0 n.
Proof.
  intros. apply gen_plain.
  eapply (state_elite _ _ _ _ _ _ _ _ _ _ _ _ (fun _ _ _ => True) (fun feas _ x => List.length x = n)); [lia|lia|..].
  - intros. apply vars_none. auto.
  - intros feas nd n0 s HP HH HI. eapply main_set with (Φ := eq (repeat (fZ 0) n)); [exact HP|exact HI|intros; apply q_ret; reflexivity|].
    intros x <-. exists []. split; [intros ? []|apply repeat_length].
  - intros feas nd n0 ep s0 HP HH Hep. counts HP.
Qed.
Theorem C65_OriginalABC E P n_limits n epochs : 3 <= n -> 0 < epochs ->
  sound_run_gen E P Single (original_abc E P n_limits n epochs) (fun _ => True) (wheel_ok E P n) (fun _ => True) (eq n) false n n (2 * n) (3 * n).
Proof.
  intros. state_free (fun x : vec => List.length x = n).
  - apply repeat_length.
  - unfold abc_evolve, abc_try. gcounts HP.
Qed.

(** [k]: int(accepted_rate * pop_size).  The children are evaluated uncorrected, so the guarantee is for problems where
    every array of the right length is admissible. *)
Theorem C65_OriginalCA E P k n epochs : 0 < k -> 0 < n -> 0 < epochs ->
  sound_run_gen E P Single (original_ca E P k n epochs) (fun _ => True) (any_array P) (fun _ => True) (eq n) false n n n n.
Proof.
  intros. state_free (fun _ : vec * vec => True).
  - exact I.
  - gcounts HP. eapply gq_res; [exact HP|noc|]. destruct l as [|a r]; [simpl in *; lia|]. destruct k; [lia|]. eexists; reflexivity.
Qed.
(** [n_cut] = int(p_a * pop_size).  The new nests are evaluated uncorrected, so as for CA. *)
Theorem C64_OriginalCSA E P md n_cut n epochs : n_cut < n -> 0 < epochs ->
  sound_run_gen E P md (original_csa E P md n_cut n epochs) (fun _ => True) (any_array P) (fun _ => True) (eq n) true n n (n + n_cut) (n + n_cut).
Proof.
  intros. state_elite (fun _ : unit => True). counts HP.
Qed.


(** One loop of PFA: the pathfinder, the followers, then the selection. *)
Lemma pfa_block E P md feas (attok : list vec -> unit -> Prop) IL (IX : list vec -> unit -> Prop) cov nd n0 n s0 correct gea p0 (cand : nat -> M unit unit vec) :
  params E P feas attok cov -> 0 < n ->
  (forall x, qt P feas attok IL IX cov nd n0 n s0 (correct x) feas) ->
  (forall x, feas x -> qt P feas attok IL IX cov nd n0 n s0 (gea (Some x)) (fresh_agent feas attok)) ->
  (forall L a, attok L a) ->
  (forall i, qt P feas attok IL IX cov nd n0 n s0 (cand i) (fun _ => True)) ->
  let c := (if is_avail md then n + 1 else n) in
  blk P feas attok IL IX cov nd n0 n s0 c c (pfa_loop P md correct gea n p0 cand) (fun _ => True).
Proof.
  intros HP Hpos Hc Hg Hatt Hcand c W l s HR. unfold pfa_loop. apply wp_bind.
  eapply wp_gen_agent; [exact HP|exact Hc|exact Hg|exact HR|]. intros a0 s1 G0 R1 _. apply wp_bind.
  apply wp_for_acc with (I := fun k acc s' => List.length acc = k /\ 
     if is_avail md then R P feas attok IL IX cov nd n0 n s0 (W ++ [a0]) (l + 1) s' /\ Forall (fresh_agent feas attok) acc /\ In a0 acc
     else R P feas attok IL IX cov nd n0 n s0 (W ++ acc) (l + k) s').
  - split; [reflexivity|]. destruct (is_avail md); [|exact R1]. split; [exact R1|]. split; [|left; reflexivity].
    constructor; [|constructor]. split; [apply G0|auto].
  - intros k acc s' Hk [Hlen HI].
    set (W' := if is_avail md then W ++ [a0] else W ++ acc).
    assert (HR' : R P feas attok IL IX cov nd n0 n s0 W' (if is_avail md then l + 1 else l + k) s') by (unfold W'; destruct (is_avail md); tauto).
    apply wp_bind. eapply wp_mono; [eapply Hcand; exact HR'|]. intros x s2 [_ Hn1].
    assert (R2 := R_near _ _ _ _ _ _ _ _ _ _ _ _ _ _ HR' Hn1).
    apply wp_bind. eapply wp_mono; [eapply q_propose; [exact Hc|exact Hg|exact R2]|]. intros a s3 [Ha Hn2].
    assert (R3 := R_near _ _ _ _ _ _ _ _ _ _ _ _ _ _ R2 Hn2).
    unfold W' in *. destruct (is_avail md).
    + apply wp_ret. split; [rewrite app_length; simpl; lia|]. split; [exact R3|]. destruct HI as (_ & HF & HI).
      split; [apply Forall_app; split; [exact HF|constructor; auto]|apply in_or_app; auto].
    + apply wp_bind. eapply wp_evaluate; [exact HP|exact R3|exact Ha|]. intros a' s4 Ga R4 _ _ _ _. apply wp_ret.
      split; [rewrite app_length; simpl; lia|]. rewrite app_assoc. replace (l + S k) with (l + k + 1) by lia. exact R4.
  - intros acc s' [Hlen HI]. replace (1 + (n - 1)) with n in Hlen, HI by lia. apply wp_bind. unfold c. destruct (is_avail md) eqn:Hav.
    + destruct HI as (R2 & HF & Hin). eapply wp_update_target_avail; [exact Hav|]. intros new ->.
      destruct (R_batch _ _ _ _ _ _ _ _ _ _ _ HP _ _ _ _ R2 HF) as [RB GB].
      eapply wp_greedy_select; [exact HP| |rewrite map_length; exact Hlen|intros s2 R3; split; [exact I|]; exists (n + 1); split; [lia|]; replace (l + (n + 1)) with (l + 1 + List.length acc) by lia; exact R3].
      destruct RB as (VB & HnB & HlB). split; [|split; [exact HnB|exact HlB]].
      set (new := map _ acc) in *.
      eapply Ev_drop; [apply HP|apply HP|exact VB| |].
      { intros z Hz. rewrite !in_app_iff in *. tauto. }
      intros C g a Hg' Ha. right.
      assert (Nm : num (fit a)) by (eapply good_num; [apply HP; exact C|]; eapply Ev_W_good; [exact VB|exact Ha]).
      rewrite !in_app_iff in Ha. destruct Ha as [[Ha|[<-|[]]]|Ha].
      * exists a. split; [rewrite !in_app_iff; auto|]. apply no_worse_refl; [apply HP|exact Nm].
      * exists (with_tgt a0 (prob_target P (sol a0))). split; [rewrite !in_app_iff; right; right; unfold new; apply in_map_iff; eauto|].
        replace (fit (with_tgt a0 (prob_target P (sol a0)))) with (fit a0); [apply no_worse_refl; [apply HP|exact Nm]|].
        unfold fit. rewrite (g_tgt _ _ _ _ _ G0). reflexivity.
      * exists a. split; [rewrite !in_app_iff; auto|]. apply no_worse_refl; [apply HP|exact Nm].
    + apply wp_ret. eapply wp_greedy_select; [exact HP|exact HI|exact Hlen|]. intros s2 R3. split; [exact I|]. exists n. split; [lia|exact R3].
Qed.

Theorem C64_OriginalPFA E P md n epochs : 0 < n -> 0 < epochs ->
  sound_run E P md (original_pfa E P md n epochs) (fun _ => True) true (if is_avail md then n + 1 else n) (if is_avail md then n + 1 else n).
Proof.
  plain. unfold pfa_evolve. eapply b0_mono; [eapply b0_blk; do 4 (eapply b_qbind; [quiet HP|intros; cbv beta in *; qfacts])| | |].
  - eapply pfa_block; [exact HP|lia|intros; qcorrect HP|qgea|intros; exact I|]. intros. quiet HP.
  - apply Nat.le_refl.
  - apply Nat.le_refl.
  - trivial.
Qed.

(** In single mode the stored target is that of the uncorrected seed, so the guarantee is for the parallel modes. *)
Theorem C64_OriginalTSeedA E P md sst n epochs : is_avail md = true -> 2 <= n -> 0 < epochs ->
  sound_run E P md (original_tseeda E P md sst n epochs) (fun _ => True) true (n * Nat.max 1 (n / 10)) (n * Nat.max 2 (n / 4)).
Proof.
  intros Hav. plain. unfold tseeda_evolve.
  assert (Hd : n / 10 <= n / 4) by (apply Nat.div_le_compat_l; lia).
  set (h1 := n / 10) in *. set (h2 := n / 4) in *. clearbody h1 h2. rewrite Hav. clear Hav.
  eapply b0_blk, b_for. intros idx Hi. eapply b_qbind; [apply q_integers; lia|]. intros k Hk. cbv beta in Hk.
  eapply b_qbind; [quiet HP|]. intros rs Hrs. cbv beta in Hrs. qfacts. cbv zeta.
  eapply b_mono; [eapply b_best_accept; [exact HP|intros; qcorrect HP|qgea|lia|exact Hi|intros j Hj; quiet HP]|lia|lia|trivial].
Qed.

Print Assumptions C64_OriginalWDO.
Print Assumptions C64_OriginalWarSO.
Print Assumptions C64_OriginalAFT.
Print Assumptions C64_OriginalDSO.
Print Assumptions C65_OriginalABC.
Print Assumptions C65_OriginalCA.
Print Assumptions C64_OriginalCSA.
Print Assumptions C64_OriginalPFA.
Print Assumptions C64_OriginalTSeedA.
