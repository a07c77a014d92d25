(** The classes of MClass11: every run is sound. *)
From Verif Require Import Prelude Fl FlArith MCore MHelp MAlg MAlg2 MAlg3 MAlg4 MAlg5 MAlg6 MAlg7 MClass11 PSpace SpecCore SpecRun PSelect PLogic PSolve PRun SpecAlg SpecWhen PAlg PFree PClass PAlg2 PAlg3 PAlg4 PAlg5 PAlg6 PAlg7 PAlg8 PAlg9 PRef PFail Demo.

(** ** Amendments *)
Section Amend.
Variables (E : env) (P : problem) (feas : vec -> Prop) (IX : list vec -> unit -> Prop) (cov : Prop) (nd n0 n : nat).
Variable s0 : st unit unit.
Notation qt := (qt P feas (@anyatt unit) (eq n) IX cov nd n0 n s0).
Lemma q_vcs_amend x : qt (vcs_amend E P x) (fun v => List.length v = n_dims P).
Proof. unfold vcs_amend. eapply q_bind; [apply q_uniform_box|]. intros r Hr. apply q_ret, vtab_length. Qed.
Lemma q_lso_amend ph x : qt (lso_amend E P ph x) (fun v => List.length v = n_dims P).
Proof.
  unfold lso_amend. eapply q_bind; [apply q_uniform|]. intros u _. apply q_if; intros _; [apply q_amend_clip|].
  apply q_dims. intros j Hj. apply q_if; intros _; [|apply q_ret; exact I].
  unfold uniform_in. eapply q_bind; [apply q_uniform|]. intros v _. apply q_ret. exact I.
Qed.
End Amend.
Ltac qcorrect HP ::= intros; first [apply q_raw; assumption | eapply q_correct; exact HP
  | eapply q_correct_with; [exact HP | intros; first [apply q_amend_random | apply q_amend_clip | apply q_amend_gen | apply q_amend_form | apply q_vcs_amend | apply q_lso_amend]]].

(** ** VCS *)
Theorem C64_DevVCS E P md lamda sigma n epochs : 5 <= n -> 0 < epochs ->
  sound_run E P md (dev_vcs E P md lamda sigma n epochs) (fun _ => True) true (3 * n) (3 * n).
Proof. plain. unfold dev_vcs_evolve, vcs_spread, vcs_mean. counts HP. Qed.
Theorem C64_OriginalVCS E P md lamda sigma n epochs : 5 <= n -> 0 < epochs ->
  sound_run E P md (original_vcs E P md lamda sigma n epochs) (fun _ => True) true (3 * n) (3 * n).
Proof. plain. unfold original_vcs_evolve, vcs_spread, vcs_mean. counts HP. Qed.

(** ** FBIO *)
Theorem C64_DevFBIO E P md n epochs : 5 <= n -> 0 < epochs -> 0 < n_dims P ->
  sound_run E P md (dev_fbio E P md n epochs) (fun _ => True) true (4 * n) (4 * n).
Proof. plain. unfold fbio_evolve. counts HP. Qed.
Theorem C64_OriginalFBIO E P md n epochs : 5 <= n -> 0 < epochs -> 0 < n_dims P ->
  sound_run E P md (original_fbio E P md n epochs) (fun _ => True) true (4 * n) (4 * n).
Proof. plain. unfold fbio_evolve. counts HP. Qed.

(** ** LSO *)
Theorem C64_OriginalLSO E P md ps pe ph b n epochs : 5 <= n -> 0 < epochs ->
  sound_run E P md (original_lso E P md ps pe ph b n epochs) (fun _ => True) true (2 * n) (2 * n).
Proof. plain. unfold lso_evolve, lso_scatter. counts HP. Qed.
Theorem C64_DevLSO E P md ps pe b n epochs : 5 <= n -> 0 < epochs ->
  sound_run E P md (dev_lso E P md ps pe b n epochs) (fun _ => True) true (2 * n) (2 * n).
Proof. plain. unfold dev_lso_evolve, lso_scatter. counts HP. Qed.

(** ** MSO *)
Lemma sliceZ_length {T} k (l : list T) : List.length (sliceZ k l) <= List.length l.
Proof. unfold sliceZ. destruct (0 <=? k)%Z; rewrite firstn_length; lia. Qed.
Lemma sliceZ_in {T} k (l : list T) x : In x (sliceZ k l) -> In x l.
Proof.
  unfold sliceZ. assert (G : forall m, In x (firstn m l) -> In x l).
  { intros m H. rewrite <- (firstn_skipn m l). apply in_or_app; auto. }
  destruct (0 <=? k)%Z; apply G.
Qed.
Theorem C64_OriginalMSO E P n epochs : 5 <= n -> 0 < epochs ->
  sound_run E P Single (original_mso E P n epochs) (fun _ => True) true n (2 * n - 1).
Proof.
  plain. unfold mso_evolve. eapply b0_mono with (Φ := fun _ => True); [|shelve|shelve|intros y T; exact T].
  eapply b0_blk. eapply b_bind with (c := n) (d := n).
  - eapply b_gen_trim with (lo := 0) (hi := n - 1); [exact HP|qcorrect HP|qgea|lia|].
    eapply q_bind; [eapply q_choice_noreplace; rewrite seq_length; lia|]. intros ac (La & rest & Hperm).
    eapply q_bind; [apply q_get_nfe|]. intros nfe _. apply q_ret.
    split; [pose proof (sliceZ_length (mso_count n epochs nfe) (map S ac)) as T; rewrite map_length in T; lia|].
    intros i Hi. apply sliceZ_in, in_map_iff in Hi. destruct Hi as (j & <- & Hj).
    assert (j < n - 1).
    { assert (T : In j (seq 0 (n - 1))) by (eapply Permutation_in; [exact Hperm|apply in_or_app; auto]). apply in_seq in T. lia. }
    assert (Hi : S j < n) by lia. quiet HP.
  - intros ? _. eapply b_gen_trim with (lo := n) (hi := n); [exact HP|qcorrect HP|qgea|lia|].
    apply q_ret. split; [rewrite seq_length; lia|]. intros i Hi. apply in_seq in Hi. assert (Hj : i < n) by lia. quiet HP.
  Unshelve. all: lia.
Qed.

(** ** HGS *)
Theorem C64_OriginalHGS E P md pup lh n epochs : 5 <= n -> 0 < epochs ->
  sound_run E P md (original_hgs E P md pup lh n epochs) (fun _ => True) true n n.
Proof. intros. apply gen_plain. att_elite (fun _ : unit => True). unfold hgs_evolve, hgs_hunger. counts HP. apply vtab_length. Qed.

(** ** NRO *)
Section NRO.
Variables (E : env) (P : problem) (md : mode) (feas : vec -> Prop) (IX : list vec -> unit -> Prop) (cov : Prop) (nd n0 n : nat).
Hypothesis HP : params E P feas (@anyatt unit) cov.
Hypothesis Hn : 5 <= n.
Variable put : M unit unit f64.
Hypothesis Hput : forall s0, qt P feas (@anyatt unit) (eq n) IX cov nd n0 n s0 put (fun _ => True).
Lemma b_nro epochs ep s0 : blk P feas (@anyatt unit) (eq n) IX cov nd n0 n s0 (3 * n) (3 * n) (nro_phases E P md put n epochs ep) (fun _ => True).
Proof.
  specialize (Hput s0). unfold nro_phases, nro_ion. eapply b_mono; [block HP|lia|lia|trivial]. all: try exact Hput.
Qed.
End NRO.
(** The runs that return. *)
Lemma ref_nro E P md put n epochs ep : refines (nro_put E P) put -> refines (nro_evolve E P md n epochs ep) (nro_phases E P md put n epochs ep).
Proof.
  intros H. unfold nro_evolve, nro_phases.
  do 4 (apply ref_bind; [apply ref_refl|intros ?]). apply ref_bind; [apply ref_refl|intros fits].
  apply ref_bind; [|intros; apply ref_refl]. apply ref_greedy_each. intros idx. unfold nro_ion.
  do 4 (apply ref_bind; [apply ref_refl|intros ?]). apply ref_if.
  - apply ref_bind; [apply ref_refl|intros [i1 i2]]. do 2 (apply ref_bind; [apply ref_refl|intros ?]).
    apply ref_dims. intros j. apply ref_if; [exact H|apply ref_refl].
  - apply ref_bind; [apply ref_refl|intros p]. apply ref_bind; [apply ref_refl|intros [[sp bs] ws]]. apply ref_bind; [apply ref_refl|intros w].
    apply ref_dims. intros j. apply ref_if; [exact H|apply ref_refl].
Qed.
Theorem C64_OriginalNRO_returning E P md n epochs : 5 <= n -> 0 < epochs ->
  sound_when E P md (original_nro E P md n epochs) (fun _ => True) (fun _ => True) (fun _ => True) (eq n) true n n (3 * n) (3 * n).
Proof.
  intros Hn He. eapply (returns_of _ _ _ _ (nro_phases E P md (rnum E "NRO:127" []) n epochs)).
  - intros ep. apply ref_nro. unfold nro_put. destruct (n_dims P =? 1); [apply ref_refl|apply ref_raise].
  - change (with_evolve _ _) with (plain_algo (X := unit) E P md tt n epochs false (nro_phases E P md (rnum E "NRO:127" []) n epochs)).
    state_elite (fun _ : unit => True). eapply b0_blk, b_nro; [exact HP|exact Hn|]. intros s1. quiet HP.
Qed.
(** With one variable every run returns. *)
Theorem C64_OriginalNRO_one_variable E P md n epochs : 5 <= n -> 0 < epochs -> n_dims P = 1 ->
  sound_run E P md (original_nro E P md n epochs) (fun _ => True) true (3 * n) (3 * n).
Proof.
  intros Hn He H1. plain. eapply b0_blk, b_nro; [exact HP|exact Hn|]. intros s1. unfold nro_put. rewrite H1. cbn [Nat.eqb]. quiet HP.
Qed.

(** With several variables, one of which can take a single value only, no run returns. *)
Section NRONever.
Variables (E : env) (P : problem) (md : mode) (n epochs : nat) (c : f64) (j0 : nat).
Hypothesis Hn : 5 <= n.
Hypothesis He : 0 < epochs.
Hypothesis Hd : 2 <= n_dims P.
Hypothesis Hj : j0 < n_dims P.
Hypothesis Hc : feq c c = true.
Definition one_value (x : vec) : Prop := (x.[j0])%F = c.
Lemma put_fails (s : st unit unit) : fails (nro_put E P) s.
Proof. unfold nro_put. destruct (n_dims P =? 1) eqn:T; [apply Nat.eqb_eq in T; lia|]. apply fails_raise. Qed.
Lemma nro_fails IX cov nd n0 ep s0 : params E P one_value (@anyatt unit) cov ->
  bad P one_value (@anyatt unit) (eq n) IX cov nd n0 n s0 (nro_evolve E P md n epochs ep).
Proof.
  intros HP. unfold nro_evolve, nro_phases.
  do 3 (eapply bad_qbind; [quiet HP|]; intros ? ?). eapply bad_bbind; [block HP|]. intros ? ?.
  eapply bad_qbind; [quiet HP|]. intros fits Hfit. cbv beta in Hfit. qfacts. apply bad_first, bad_greedy_each; [lia|].
  unfold nro_ion. eapply bad_qbind; [quiet HP|]. intros x Hx. cbv beta in Hx.
  eapply bad_qbind; [quiet HP|]. intros r Hr. eapply bad_qbind; [quiet HP|]. intros u Hu. eapply bad_qbind; [quiet HP|]. intros g Hg. cbv beta in Hg.
  apply bad_if.
  - eapply bad_qbind; [quiet HP|]. intros [i1 i2] Hi. cbv beta in Hi. qfacts. eapply bad_qbind; [quiet HP|]. intros x1 Hx1.
    eapply bad_qbind; [quiet HP|]. intros x2 Hx2. cbv beta in Hx2. eapply bad_dims; [exact Hj|]. intros s. cbv beta.
    rewrite Hx, Hx2, Hc. apply put_fails.
  - eapply bad_qbind; [eapply q_get_pop|]. cbv beta. intros p Hp. eapply bad_qbind; [eapply q_specials; [exact HP|apply Hp]|].
    intros q (sp & b & w & -> & Hb). eapply bad_qbind; [quiet HP|]. intros a Ha. cbv beta in Ha.
    eapply bad_dims; [exact Hj|]. intros s. cbv beta.
    destruct Hb as (_ & _ & _ & _ & _ & Fw). rewrite Forall_forall in Fw. destruct (Fw a Ha) as [_ Va]. rewrite Va, Hg, Hc. apply put_fails.
Qed.
End NRONever.
(** OriginalNRO on a problem with two or more variables, one of which has a single admissible value. *)
Theorem C68_OriginalNRO E P md n epochs j c tm starting (s : st unit unit) :
  argsort_ok (e_argsort E) -> valid_mm (p_mm P) -> 5 <= n -> 0 < epochs -> 2 <= n_dims P -> j < n_dims P -> feq c c = true ->
  problem_ok P (fun x => (x.[j])%F = c) -> starting_ok P (fun x => (x.[j])%F = c) n starting ->
  exists e, solve E P md (original_nro E P md n epochs) tm starting s = Err e.
Proof.
  intros H1 H2 Hn He Hd Hj Hc H3 H4. apply (plain_fails E P md (one_value c j)); try assumption; try lia.
  intros HP nd n0 ep s0. eapply nro_fails; eassumption.
Qed.
(** Such a problem: the second variable ranges over [1, 1] (a component that is NaN is corrected to 1 too). *)
Definition fixed_prob : problem :=
  mkProblem [fZ (-5); fZ 1] [fZ 5; fZ 1] Min (fun x => [sphere x]) None
    (fun _ x => [fclip (x.[0%nat])%F (fZ (-5)) (fZ 5); fZ 1])
    (fun k => [fZ (Z.of_nat ((k * 3) mod 11) - 5); fZ 1]) false.
Example C68_OriginalNRO_example : 2 <= n_dims fixed_prob /\ 1 < n_dims fixed_prob /\ feq (fZ 1) (fZ 1) = true /\ problem_ok fixed_prob (fun x => (x.[1%nat])%F = fZ 1).
Proof.
  split; [cbn; lia|]. split; [cbn; lia|]. split; [vm_compute; reflexivity|]. split; intros; reflexivity.
Qed.

(** ** CleverBookBeesA *)
Theorem C64_CleverBookBeesA E P md n_elites n_others patch n_sites n_elite_sites n epochs : 5 <= n -> 0 < epochs -> 2 <= n_dims P ->
  0 < n_elites -> 0 < n_others ->
  sound_run E P md (clever_bees E P md n_elites n_others patch n_sites n_elite_sites n epochs) (fun _ => True) true n (n * Nat.max n_elites n_others).
Proof.
  intros. plain. eapply b0_blk. unfold clever_evolve. eapply b_mono; [eapply b_greedy_ready with (lo := 1) (hi := Nat.max n_elites n_others)|..].
  - exact HP.
  - reflexivity.
  - intros i Hi. destruct (i <? n_sites).
    + eapply ready_qbind; [quiet HP|]. intros x Hx. cbv beta in Hx. unfold bees_near.
      eapply ready_mono; [eapply ready_best; [exact HP|qcorrect HP|qgea|destruct (i <? n_elite_sites); assumption|]|..].
      * intros k Hk. quiet HP.
      * destruct (i <? n_elite_sites); lia.
      * destruct (i <? n_elite_sites); lia.
    + eapply ready_mono; [eapply ready_random; [exact HP|]|lia|lia]. eapply gea_plain_none; [exact HP|intros; exact I].
  - lia.
  - lia.
  - auto.
Qed.

Print Assumptions C64_DevVCS.
Print Assumptions C64_OriginalVCS.
Print Assumptions C64_DevFBIO.
Print Assumptions C64_OriginalFBIO.
Print Assumptions C64_OriginalLSO.
Print Assumptions C64_DevLSO.
Print Assumptions C64_OriginalMSO.
Print Assumptions C64_OriginalHGS.
Print Assumptions C64_OriginalNRO_returning.
Print Assumptions C64_OriginalNRO_one_variable.
Print Assumptions C68_OriginalNRO.
Print Assumptions C64_CleverBookBeesA.
