(** Theorems about the classes of MClass20. *)
From Coq Require Import Permutation String.
From Verif Require Import Prelude Fl FlArith FlInt FlRound FlShare MCore MHelp MAlg MAlg2 MAlg3 MAlg4 MAlg5 MAlg6 MAlg7 SpecCore SpecRun PSpace PSelect PLogic PSolve PRun PPart Demo PropHelp SpecAlg SpecWhen PAlg PFree PClass PAlg2 PAlg3 PAlg4 PAlg5 PAlg6 PAlg7 PAlg8 PAlg9 PRef PFail PElse PAlg10 PAlg11 PAlg13 MClass14 AClass14 MClass17 AClass17 AClass18 AClass19 MClass20 FlQueue.

(** ** TLO *)
Theorem C64_OriginalTLO E P n epochs : 5 <= n -> 0 < epochs ->
  sound_run E P Single (original_tlo E P n epochs) (fun _ => True) true (2 * n) (2 * n).
Proof. plain. unfold tlo_evolve. counts HP. Qed.

(** ** QSA *)
Section QSA.
Variables (E : env) (P : problem) (md : mode) (feas : vec -> Prop) (IL : nat -> Prop) (cov : Prop) (nd n0 n : nat).
Variable s0 : st unit unit.
Notation IX := (fun (_ : list vec) (_ : unit) => True).
Hypothesis HP : params E P feas (@anyatt unit) cov.
Hypothesis Hn : 5 <= n.
Notation qt := (qt P feas (@anyatt unit) IL IX cov nd n0 n s0).
Notation blk := (blk P feas (@anyatt unit) IL IX cov nd n0 n s0).
Lemma b_qsa_batch (cand : nat -> M unit unit vec) : (forall i, i < n -> qt (cand i) (fun _ => True)) ->
  blk n n (qsa_batch P md n cand) (fun _ => True).
Proof.
  intros Hc. unfold qsa_batch. destruct (is_avail md).
  - eapply b_greedy_batch; bprem HP. apply Hc; assumption.
  - eapply b_mono with (a := n * 1) (b := n * 1); [|lia|lia|auto]. eapply b_batch_keep; [exact HP|]. intros i Hi.
    eapply q_bind; [apply Hc, Hi|]. intros x _. eapply q_bind; [eapply q_propose; bprem HP|]. intros a Ha. apply q_ret.
    cbv beta in Ha. split; [cbn; lia|]. apply Forall_cons; [split; [exact Hi|exact Ha]|apply Forall_nil].
Qed.
Variable heads_of : M unit unit (list vec * list f64 * (Z * Z)).
Hypothesis Hh : qt heads_of (fun _ => True).
Lemma b_qsa_one epochs ep : blk n n (qsa_one E P heads_of n epochs ep) (fun _ => True).
Proof.
  unfold qsa_one. eapply b_qbind; [exact Hh|]. intros [[hs ts] q] _. cbv beta iota.
  eapply b_mono with (a := n * 1 + 0) (b := n * 1 + 0); [|lia|lia|auto]. eapply b_bind; [|intros c _; eapply b_sort; exact HP].
  apply b_for_acc with (Φ := fun _ => True); [exact I|]. intros i c Hi _. set (c' := qsa_first q i || c). set (h := qsa_head q hs i). clearbody c' h. cbv zeta.
  eapply b_qbind; [quiet HP|]. intros xi _. destruct c'.
  - eapply b_qbind; [quiet HP|]. intros x _. eapply b_mono with (a := 1 + 0) (b := 1 + 0) (Φ := fun _ => True); [|lia|lia|auto].
    eapply b_bind; [eapply b_try_improve_b; bprem HP; exact Hi|]. intros r _. apply b_ret. exact I.
  - eapply b_qbind; [quiet HP|]. intros x _. eapply b_mono with (a := 1 + 0) (b := 1 + 0) (Φ := fun _ => True); [|lia|lia|auto].
    eapply b_bind; [eapply b_try_improve_b; bprem HP; exact Hi|]. intros r _. apply b_ret. exact I.
Qed.
Lemma b_qsa_two ep : blk n n (qsa_two E P md heads_of n ep) (fun _ => True).
Proof.
  unfold qsa_two. eapply b_qbind; [exact Hh|]. intros [[hs ts] q] _. cbv beta iota zeta. set (cv := if (_ < _)%F then _ else _). clearbody cv.
  eapply b_mono with (a := n + 0) (b := n + 0); [|lia|lia|auto]. eapply b_bind; [|intros c _; eapply b_sort; exact HP].
  apply b_qsa_batch. intros i Hi. set (h := qsa_head q hs i). clearbody h. eapply q_bind with (Φ := fun _ => True); [solve [quiet HP]|]. intros u _.
  destruct (u < _)%F; quiet HP.
Qed.
Lemma b_levy_qsa_two ep : blk n n (levy_qsa_two E P md heads_of n ep) (fun _ => True).
Proof.
  unfold levy_qsa_two. eapply b_qbind; [exact Hh|]. intros [[hs ts] q] _. cbv beta iota zeta. set (cv := if (_ < _)%F then _ else _). clearbody cv.
  eapply b_mono with (a := n + 0) (b := n + 0); [|lia|lia|auto]. eapply b_bind; [|intros c _; eapply b_sort; exact HP].
  apply b_qsa_batch. intros i Hi. set (h := qsa_head q hs i). clearbody h. eapply q_bind with (Φ := fun _ => True); [solve [quiet HP]|]. intros u _.
  destruct (u < _)%F; quiet HP.
Qed.
Lemma b_qsa_three : blk n n (qsa_three E P md n) (fun _ => True).
Proof. unfold qsa_three. apply b_qsa_batch. intros i Hi. quiet HP. Qed.
Lemma b_original_qsa_three : blk n n (original_qsa_three E P md n) (fun _ => True).
Proof. unfold original_qsa_three. apply b_qsa_batch. intros i Hi. quiet HP. Qed.
Lemma b_qsa_opposition : blk n n (qsa_opposition E P md n) (fun _ => True).
Proof.
  unfold qsa_opposition. eapply b_mono with (a := 0 + n) (b := 0 + n); [|lia|lia|auto]. eapply b_bind; [eapply b_sort; exact HP|]. intros _ _.
  apply b_qsa_batch. intros i Hi. quiet HP.
Qed.
Lemma b_qsa two three last k epochs ep : (forall ep, blk n n (two heads_of n ep) (fun _ => True)) -> blk n n (three n) (fun _ => True) ->
  blk k k (last n) (fun _ => True) -> blk (3 * n + k) (3 * n + k) (qsa_evolve E P heads_of two three last n epochs ep) (fun _ => True).
Proof.
  intros H2 H3 H4. unfold qsa_evolve. eapply b_mono with (a := n + (n + (n + k))) (b := n + (n + (n + k))); [|lia|lia|auto].
  eapply b_bind; [apply b_qsa_one|]. intros _ _. eapply b_bind; [apply H2|]. intros _ _. eapply b_bind; [apply H3|]. intros _ _. exact H4.
Qed.
End QSA.
(** Every value of the objective is a finite number not below 10^-6. *)
Definition moderate (P : problem) (feas : vec -> Prop) : Prop :=
  forall x, feas x -> fle (dec 1 1000000) (fitx P x) = true /\ flt (fitx P x) finf = true.
Section QSAHeads.
Variables (E : env) (P : problem) (md : mode) (feas : vec -> Prop) (IL : nat -> Prop) (cov : Prop) (nd n0 n : nat).
Variable s0 : st unit unit.
Notation IX := (fun (_ : list vec) (_ : unit) => True).
Hypothesis HP : params E P feas (@anyatt unit) cov.
Hypothesis Hn : 5 <= n.
Notation qt := (qt P feas (@anyatt unit) IL IX cov nd n0 n s0).
Notation qp := (qp P feas (@anyatt unit) IL IX cov nd n0 n s0).
Lemma q_pop_value i : i < n -> qt (pop_at i) (fun a => exists x, feas x /\ fitness a = Ok (fitx P x)).
Proof.
  intros Hi W l s HR. pose proof HR as (V & Hl & _). apply wp_pop_at; [lia|]. intros a _ Ha.
  pose proof (Ev_pop_good _ _ _ _ _ _ _ _ _ _ _ _ V Ha) as G. split; [|eapply near_refl; eauto].
  exists (sol a). split; [apply G|]. unfold fitness. rewrite (g_tgt _ _ _ _ _ G). reflexivity.
Qed.
Lemma qp_qsa_heads : qp (qsa_heads n) (fun _ => True).
Proof.
  unfold qsa_heads. do 3 (eapply qp_bind; [apply qp_pop_at|intros ? _]). do 4 (eapply qp_bind with (Φ := fun _ => True); [apply qp_lift; auto|intros ? _]).
  apply qp_qt, q_ret. exact I.
Qed.
Lemma q_qsa_heads : moderate P feas -> (Z.of_nat n <= 2 ^ 31)%Z -> qt (qsa_heads n) (fun _ => True).
Proof.
  intros Hm Hb. unfold qsa_heads. eapply q_bind; [apply q_pop_value; lia|]. intros a1 (x1 & F1 & E1). eapply q_bind; [apply q_pop_value; lia|]. intros a2 (x2 & F2 & E2).
  eapply q_bind; [apply q_pop_value; lia|]. intros a3 (x3 & F3 & E3). rewrite E1, E2, E3.
  destruct (queues_ok n (fitx P x1) (fitx P x2) (fitx P x3)) as (q & Eq); [intros t [<-|[<-|[<-|[]]]]; apply Hm; assumption|exact Hb|].
  eapply q_bind with (Φ := eq (fitx P x1)); [eapply q_lift; eexists; split; reflexivity|intros ? <-].
  eapply q_bind with (Φ := eq (fitx P x2)); [eapply q_lift; eexists; split; reflexivity|intros ? <-].
  eapply q_bind with (Φ := eq (fitx P x3)); [eapply q_lift; eexists; split; reflexivity|intros ? <-].
  eapply q_bind with (Φ := fun _ => True); [eapply q_lift; eexists; split; [|exact I]; exact Eq|]. intros ? _. apply q_ret. exact I.
Qed.
End QSAHeads.

Theorem C64_DevQSA_returning E P md n epochs : 5 <= n -> 0 < epochs ->
  sound_when E P md (dev_qsa E P md n epochs) (fun _ => True) (fun _ => True) (fun _ => True) (eq n) true n n (3 * n) (3 * n).
Proof.
  intros Hn He. pose (h := orelse (A := unit) (X := unit) (qsa_heads n) (ret ([], [], (0%Z, 0%Z)))).
  eapply (returns_of _ _ _ _ (qsa_evolve E P h (qsa_two E P md) (qsa_three E P md) no_last n epochs)).
  - intros ep. cbn [al_evolve dev_qsa plain_algo]. unfold qsa_evolve, qsa_one, qsa_two, levy_qsa_two, h. refi.
  - change (with_evolve _ _) with (plain_algo (X := unit) E P md tt n epochs true (qsa_evolve E P h (qsa_two E P md) (qsa_three E P md) no_last n epochs)).
    state_elite (fun _ : unit => True). apply b0_blk. eapply b_mono with (a := 3 * n + 0) (b := 3 * n + 0); [|lia|lia|auto].
    assert (Hh : qt P feas anyatt (eq n) (fun _ _ => True) (true = true /\ obj_num P feas) nd n0 n s0 h (fun _ => True)).
    { apply q_orelse; [apply qp_qsa_heads|apply q_ret; exact I]. }
    apply b_qsa; auto; [intros; apply b_qsa_two; auto|apply b_qsa_three; auto|apply b_ret; exact I].
Qed.
Theorem C64_DevQSA E P md n epochs : 5 <= n -> (Z.of_nat n <= 2 ^ 31)%Z -> 0 < epochs ->
  sound_run_gen E P md (dev_qsa E P md n epochs) (fun _ => True) (moderate P) (fun _ => True) (eq n) true n n (3 * n) (3 * n).
Proof.
  intros Hn Hb He. state_elite (fun _ : unit => True). apply b0_blk. eapply b_mono with (a := 3 * n + 0) (b := 3 * n + 0); [|lia|lia|auto].
  assert (Hh : qt P feas anyatt (eq n) (fun _ _ => True) (true = true /\ obj_num P feas) nd n0 n s0 (qsa_heads n) (fun _ => True)) by (apply q_qsa_heads; auto).
  apply b_qsa; auto; [intros; apply b_qsa_two; auto|apply b_qsa_three; auto|apply b_ret; exact I].
Qed.
Theorem C64_OppoQSA_returning E P md n epochs : 5 <= n -> 0 < epochs ->
  sound_when E P md (oppo_qsa E P md n epochs) (fun _ => True) (fun _ => True) (fun _ => True) (eq n) true n n (4 * n) (4 * n).
Proof.
  intros Hn He. pose (h := orelse (A := unit) (X := unit) (qsa_heads n) (ret ([], [], (0%Z, 0%Z)))).
  eapply (returns_of _ _ _ _ (qsa_evolve E P h (qsa_two E P md) (qsa_three E P md) (qsa_opposition E P md) n epochs)).
  - intros ep. cbn [al_evolve oppo_qsa plain_algo]. unfold qsa_evolve, qsa_one, qsa_two, levy_qsa_two, h. refi.
  - change (with_evolve _ _) with (plain_algo (X := unit) E P md tt n epochs true (qsa_evolve E P h (qsa_two E P md) (qsa_three E P md) (qsa_opposition E P md) n epochs)).
    state_elite (fun _ : unit => True). apply b0_blk. eapply b_mono with (a := 3 * n + n) (b := 3 * n + n); [|lia|lia|auto].
    assert (Hh : qt P feas anyatt (eq n) (fun _ _ => True) (true = true /\ obj_num P feas) nd n0 n s0 h (fun _ => True)).
    { apply q_orelse; [apply qp_qsa_heads|apply q_ret; exact I]. }
    apply b_qsa; auto; [intros; apply b_qsa_two; auto|apply b_qsa_three; auto|apply b_qsa_opposition; assumption].
Qed.
Theorem C64_OppoQSA E P md n epochs : 5 <= n -> (Z.of_nat n <= 2 ^ 31)%Z -> 0 < epochs ->
  sound_run_gen E P md (oppo_qsa E P md n epochs) (fun _ => True) (moderate P) (fun _ => True) (eq n) true n n (4 * n) (4 * n).
Proof.
  intros Hn Hb He. state_elite (fun _ : unit => True). apply b0_blk. eapply b_mono with (a := 3 * n + n) (b := 3 * n + n); [|lia|lia|auto].
  assert (Hh : qt P feas anyatt (eq n) (fun _ _ => True) (true = true /\ obj_num P feas) nd n0 n s0 (qsa_heads n) (fun _ => True)) by (apply q_qsa_heads; auto).
  apply b_qsa; auto; [intros; apply b_qsa_two; auto|apply b_qsa_three; auto|apply b_qsa_opposition; assumption].
Qed.
Theorem C64_LevyQSA_returning E P md n epochs : 5 <= n -> 0 < epochs ->
  sound_when E P md (levy_qsa E P md n epochs) (fun _ => True) (fun _ => True) (fun _ => True) (eq n) true n n (3 * n) (3 * n).
Proof.
  intros Hn He. pose (h := orelse (A := unit) (X := unit) (qsa_heads n) (ret ([], [], (0%Z, 0%Z)))).
  eapply (returns_of _ _ _ _ (qsa_evolve E P h (levy_qsa_two E P md) (qsa_three E P md) no_last n epochs)).
  - intros ep. cbn [al_evolve levy_qsa plain_algo]. unfold qsa_evolve, qsa_one, qsa_two, levy_qsa_two, h. refi.
  - change (with_evolve _ _) with (plain_algo (X := unit) E P md tt n epochs true (qsa_evolve E P h (levy_qsa_two E P md) (qsa_three E P md) no_last n epochs)).
    state_elite (fun _ : unit => True). apply b0_blk. eapply b_mono with (a := 3 * n + 0) (b := 3 * n + 0); [|lia|lia|auto].
    assert (Hh : qt P feas anyatt (eq n) (fun _ _ => True) (true = true /\ obj_num P feas) nd n0 n s0 h (fun _ => True)).
    { apply q_orelse; [apply qp_qsa_heads|apply q_ret; exact I]. }
    apply b_qsa; auto; [intros; apply b_levy_qsa_two; auto|apply b_qsa_three; auto|apply b_ret; exact I].
Qed.
Theorem C64_LevyQSA E P md n epochs : 5 <= n -> (Z.of_nat n <= 2 ^ 31)%Z -> 0 < epochs ->
  sound_run_gen E P md (levy_qsa E P md n epochs) (fun _ => True) (moderate P) (fun _ => True) (eq n) true n n (3 * n) (3 * n).
Proof.
  intros Hn Hb He. state_elite (fun _ : unit => True). apply b0_blk. eapply b_mono with (a := 3 * n + 0) (b := 3 * n + 0); [|lia|lia|auto].
  assert (Hh : qt P feas anyatt (eq n) (fun _ _ => True) (true = true /\ obj_num P feas) nd n0 n s0 (qsa_heads n) (fun _ => True)) by (apply q_qsa_heads; auto).
  apply b_qsa; auto; [intros; apply b_levy_qsa_two; auto|apply b_qsa_three; auto|apply b_ret; exact I].
Qed.
Theorem C64_ImprovedQSA_returning E P md n epochs : 5 <= n -> 0 < epochs ->
  sound_when E P md (improved_qsa E P md n epochs) (fun _ => True) (fun _ => True) (fun _ => True) (eq n) true n n (4 * n) (4 * n).
Proof.
  intros Hn He. pose (h := orelse (A := unit) (X := unit) (qsa_heads n) (ret ([], [], (0%Z, 0%Z)))).
  eapply (returns_of _ _ _ _ (qsa_evolve E P h (levy_qsa_two E P md) (qsa_three E P md) (qsa_opposition E P md) n epochs)).
  - intros ep. cbn [al_evolve improved_qsa plain_algo]. unfold qsa_evolve, qsa_one, qsa_two, levy_qsa_two, h. refi.
  - change (with_evolve _ _) with (plain_algo (X := unit) E P md tt n epochs true (qsa_evolve E P h (levy_qsa_two E P md) (qsa_three E P md) (qsa_opposition E P md) n epochs)).
    state_elite (fun _ : unit => True). apply b0_blk. eapply b_mono with (a := 3 * n + n) (b := 3 * n + n); [|lia|lia|auto].
    assert (Hh : qt P feas anyatt (eq n) (fun _ _ => True) (true = true /\ obj_num P feas) nd n0 n s0 h (fun _ => True)).
    { apply q_orelse; [apply qp_qsa_heads|apply q_ret; exact I]. }
    apply b_qsa; auto; [intros; apply b_levy_qsa_two; auto|apply b_qsa_three; auto|apply b_qsa_opposition; assumption].
Qed.
Theorem C64_ImprovedQSA E P md n epochs : 5 <= n -> (Z.of_nat n <= 2 ^ 31)%Z -> 0 < epochs ->
  sound_run_gen E P md (improved_qsa E P md n epochs) (fun _ => True) (moderate P) (fun _ => True) (eq n) true n n (4 * n) (4 * n).
Proof.
  intros Hn Hb He. state_elite (fun _ : unit => True). apply b0_blk. eapply b_mono with (a := 3 * n + n) (b := 3 * n + n); [|lia|lia|auto].
  assert (Hh : qt P feas anyatt (eq n) (fun _ _ => True) (true = true /\ obj_num P feas) nd n0 n s0 (qsa_heads n) (fun _ => True)) by (apply q_qsa_heads; auto).
  apply b_qsa; auto; [intros; apply b_levy_qsa_two; auto|apply b_qsa_three; auto|apply b_qsa_opposition; assumption].
Qed.
Theorem C64_OriginalQSA_returning E P md n epochs : 5 <= n -> 0 < epochs ->
  sound_when E P md (original_qsa E P md n epochs) (fun _ => True) (fun _ => True) (fun _ => True) (eq n) true n n (3 * n) (3 * n).
Proof.
  intros Hn He. pose (h := orelse (A := unit) (X := unit) (qsa_heads n) (ret ([], [], (0%Z, 0%Z)))).
  eapply (returns_of _ _ _ _ (qsa_evolve E P h (qsa_two E P md) (original_qsa_three E P md) no_last n epochs)).
  - intros ep. cbn [al_evolve original_qsa plain_algo]. unfold qsa_evolve, qsa_one, qsa_two, levy_qsa_two, h. refi.
  - change (with_evolve _ _) with (plain_algo (X := unit) E P md tt n epochs true (qsa_evolve E P h (qsa_two E P md) (original_qsa_three E P md) no_last n epochs)).
    state_elite (fun _ : unit => True). apply b0_blk. eapply b_mono with (a := 3 * n + 0) (b := 3 * n + 0); [|lia|lia|auto].
    assert (Hh : qt P feas anyatt (eq n) (fun _ _ => True) (true = true /\ obj_num P feas) nd n0 n s0 h (fun _ => True)).
    { apply q_orelse; [apply qp_qsa_heads|apply q_ret; exact I]. }
    apply b_qsa; auto; [intros; apply b_qsa_two; auto|apply b_original_qsa_three; auto|apply b_ret; exact I].
Qed.
Theorem C64_OriginalQSA E P md n epochs : 5 <= n -> (Z.of_nat n <= 2 ^ 31)%Z -> 0 < epochs ->
  sound_run_gen E P md (original_qsa E P md n epochs) (fun _ => True) (moderate P) (fun _ => True) (eq n) true n n (3 * n) (3 * n).
Proof.
  intros Hn Hb He. state_elite (fun _ : unit => True). apply b0_blk. eapply b_mono with (a := 3 * n + 0) (b := 3 * n + 0); [|lia|lia|auto].
  assert (Hh : qt P feas anyatt (eq n) (fun _ _ => True) (true = true /\ obj_num P feas) nd n0 n s0 (qsa_heads n) (fun _ => True)) by (apply q_qsa_heads; auto).
  apply b_qsa; auto; [intros; apply b_qsa_two; auto|apply b_original_qsa_three; auto|apply b_ret; exact I].
Qed.
(** When maximizing, the agents standing behind the head of the queue can have the value 0, whose reciprocal is infinite: the length of the first queue is
    then int(NaN) (QSA.py:76-81). *)
Definition peak (x : vec) : f64 := if flt (fZ 3) (nth 0 x (fZ 0)) then fZ 1 else fZ 0.
Theorem C64_DevQSA_refuted :
  solve demo_env (demo_prob Max peak true) Single (dev_qsa demo_env (demo_prob Max peak true) Single 5 2) None None (st0 tt) = Err ValueError.
Proof.
  assert (T : match solve demo_env (demo_prob Max peak true) Single (dev_qsa demo_env (demo_prob Max peak true) Single 5 2) None None (st0 tt) with
              | Err ValueError => true | _ => false end = true) by (vm_compute; reflexivity).
  destruct (solve _ _ _ _ _ _ _) as [[g s']|[]]; try discriminate. reflexivity.
Qed.

(** ** TWO *)
Section TWO.
Variables (E : env) (P : problem) (md : mode) (feas : vec -> Prop) (cov : Prop) (nd n0 n : nat).
Variable s0 : st f64 unit.
Notation IX := (fun (_ : list vec) (_ : unit) => True).
Hypothesis HP : params E P feas (@anyatt f64) cov.
Notation qt := (qt P feas (@anyatt f64) (eq n) IX cov nd n0 n s0).
Notation blk := (blk P feas (@anyatt f64) (eq n) IX cov nd n0 n s0).
Notation blk0 := (blk0 P feas (@anyatt f64) (eq n) IX cov nd n0 n s0).
Notation Start := (Start P feas (@anyatt f64) (eq n) IX cov nd n0).
Hypothesis Hn : 0 < n.
Lemma b_two_weights : blk 0 0 (two_weights E n) (fun _ => True).
Proof.
  unfold two_weights. eapply b_qbind; [apply q_all_fits; exact HP|].
  intros fits [Lf _]. cbv zeta. eapply b_qbind with (Φ := fun l : list f64 => List.length l = n).
  { destruct (feq _ _); [apply q_uniform_vec|apply q_ret; exact Lf]. }
  intros l Ll. set (ws := map _ l). assert (Lw : List.length ws = n) by (unfold ws; rewrite map_length; exact Ll). clearbody ws.
  eapply b_mono with (a := n * 0) (b := n * 0) (Φ := fun _ => True); [|lia|lia|auto].
  apply b_for. intros i Hi. eapply b_qbind with (Φ := fun _ => True).
  { eapply q_mono; [apply q_getitem; lia|auto]. }
  intros v _. eapply b_set_att; [exact HP|exact Hi|]. intros; exact I.
Qed.
Lemma q_two_pull ep : qt (two_pull E P n ep) (fun xs => List.length xs = n).
Proof.
  unfold two_pull. eapply q_bind; [apply q_get_pop|]. intros p [Lp Fp]. cbv zeta. set (ws := map att p). assert (Lw : List.length ws = n) by (unfold ws; rewrite map_length; exact Lp).
  clearbody ws. eapply q_mono; [eapply q_for_acc with (I := fun _ (c : list vec) => List.length c = n); [rewrite map_length; exact Lp|]|intros xs H; exact H].
  intros idx cur Hi Lc. cbv beta in *. assert (G : forall T (l : list T) i, i < List.length l -> qt (lift (getitem l i)) (fun _ => True)).
  { intros T l i Hl. eapply q_mono; [apply q_getitem; exact Hl|auto]. }
  eapply q_bind; [apply G; unfold vec in *; lia|]. intros x0 _. eapply q_bind with (Φ := fun _ => True).
  - eapply q_mono; [eapply q_for_acc with (I := fun _ _ => True); [exact I|]|auto]. intros j pos Hj _.
    eapply q_bind; [apply G; lia|]. intros wi _. eapply q_bind; [apply G; lia|]. intros wj _. destruct (flt wi wj); [|apply q_ret; exact I].
    eapply q_bind; [apply G; unfold vec in *; lia|]. intros xj _. eapply q_bind with (Φ := fun _ => True); [quiet HP|]. intros z _. apply q_ret. exact I.
  - intros pos _. apply q_ret. rewrite upd_length. exact Lc.
Qed.
Lemma q_two_repair ep x : qt (two_repair E P ep x) (fun _ => True).
Proof. unfold two_repair. quiet HP. Qed.
Lemma q_two_fresh xs i (fix_ : vec -> M f64 unit vec) : List.length xs = n -> i < n -> (forall x, qt (fix_ x) (fun _ => True)) ->
  qt (x <- lift (getitem xs i) ;; y <- fix_ x ;; z <- correct_solution P y ;; a <- pop_at i ;; ret (mkAgent z None (att a))) (fresh_agent feas (@anyatt f64)).
Proof.
  intros Lx Hi Hf. eapply q_bind; [apply q_getitem; unfold vec in *; lia|]. intros x _. eapply q_bind; [apply Hf|]. intros y _.
  eapply q_bind; [qcorrect HP|]. intros z Hz. eapply q_bind; [apply q_pop_at; exact Hi|]. intros a Ha.
  apply q_ret. split; [exact Hz|intros; exact I].
Qed.
Lemma b0_two_move ep : blk0 n n (two_move E P md n ep) (fun _ => True).
Proof.
  unfold two_move. eapply b0_qbind; [apply q_two_pull|]. intros xs Lx. cbv beta in Lx.
  eapply b_replace_made; [exact HP|reflexivity|]. intros i Hi. apply q_two_fresh; auto. intros; apply q_two_repair.
Qed.
Lemma b0_two_place xs fix_ : is_avail md = true -> List.length xs = n -> (forall x, qt (fix_ x) (fun _ => True)) -> blk0 n n (two_place P md n xs fix_) (fun _ => True).
Proof.
  intros Hav Lx Hf W l s HR HO. unfold two_place. rewrite Hav. apply wp_bind.
  eapply wp_mono; [eapply (q_collect _ _ _ _ _ _ _ _ _ _ n _ (fresh_agent feas (@anyatt f64))); [|exact HR]|].
  { intros i Hi. apply q_two_fresh; auto. }
  intros new s1 [[Ln Fn] N]. pose proof (R_near _ _ _ _ _ _ _ _ _ _ _ _ _ _ HR N) as R1. apply wp_bind.
  eapply wp_update_target_avail; [exact Hav|]. intros l' ->.
  destruct (R_batch E P feas (@anyatt f64) (eq n) IX cov nd n0 n s0 HP _ _ _ new R1 Fn) as [RB GB].
  unfold wp, set_pop. split; [exact I|]. exists n. split; [lia|]. rewrite Ln in RB.
  eapply R_replace; [exact HP|exact RB|exact (Old_near _ _ _ _ HO N)|rewrite map_length; exact Ln].
Qed.
Lemma b0_levy_two ep : is_avail md = true -> blk0 n (2 * n) (levy_two_evolve E P md n ep) (fun _ => True).
Proof.
  intros Hav. unfold levy_two_evolve. eapply b0_qbind; [apply q_two_pull|]. intros xs Lx. cbv beta in Lx.
  eapply b0_mono with (a := n + (n * 0 + 0)) (b := n + (n * 1 + 0)) (Φ := fun _ => True); [|lia|lia|auto].
  eapply b0_bind; [apply b0_two_place; auto; intros; apply q_two_repair|]. intros [] _. eapply b_bind.
  - apply b_for. intros i Hi. eapply b_qbind; [quiet HP|]. intros u _. eapply b_whenm. intros _.
    eapply b_qbind with (Φ := fun _ => True); [eapply q_mono; [apply q_pop_sol; exact Hi|auto]|]. intros xi _. eapply b_qbind with (Φ := fun _ => True); [quiet HP|]. intros x _.
    eapply b_try_improve; [exact HP|qcorrect HP|qgea|exact Hi].
  - intros [] _. apply b_two_weights.
Qed.
Lemma b0_oppo_two ep : is_avail md = true -> blk0 (2 * n) (2 * n) (oppo_two_evolve E P md n ep) (fun _ => True).
Proof.
  intros Hav. unfold oppo_two_evolve. eapply b0_qbind; [apply q_two_pull|]. intros xs Lx. cbv beta in Lx.
  eapply b0_mono with (a := n + (n + 0)) (b := n + (n + 0)) (Φ := fun _ => True); [|lia|lia|auto].
  eapply b0_bind; [apply b0_two_place; auto; intros; unfold oppo_two_fix; quiet HP|]. intros [] _. eapply b_bind; [block HP|].
  intros [] _. apply b_two_weights.
Qed.
Lemma start_weights W l s : B P feas (@anyatt f64) IX cov nd n0 n W l s ->
  wp (two_weights E n) (fun _ s' => B P feas (@anyatt f64) IX cov nd n0 n W l s') s.
Proof using HP Hn.
  intros HS. unfold two_weights, all_fits. apply wp_bind, wp_bind, wp_get_pop.
  pose proof (b_len _ _ _ _ _ _ _ _ _ _ _ HS) as Ln. pose proof (b_good _ _ _ _ _ _ _ _ _ _ _ HS) as Gd.
  eapply wp_lift; [apply map_res_fitness; eapply Forall_good_target; exact Gd|]. cbv zeta. apply wp_bind.
  set (fits := map fit (s_pop s)). assert (Lf : List.length fits = n) by (unfold fits; rewrite map_length; congruence).
  assert (D : dr (A := f64) (X := unit) (if feq (fmaxl fits) (fminl fits) then uniform_vec E n else ret fits) (fun l => List.length l = n)).
  { destruct (feq _ _); [apply dr_uniform_vec|apply dr_ret; exact Lf]. }
  eapply wp_mono; [apply D|]. intros l' s1 [[k ->] Ll]. cbv beta in Ll.
  set (ws := map _ l'). assert (Lw : List.length ws = n) by (unfold ws; rewrite map_length; exact Ll). clearbody ws. clearbody fits.
  unfold for_. apply wp_for_acc with (I := fun _ (_ : unit) s' => B P feas (@anyatt f64) IX cov nd n0 n W l s').
  - apply B_bump, HS.
  - intros i [] s' Hi S1. apply wp_bind. destruct (getitem_lt ws i ltac:(lia)) as (v & Ev & _). eapply wp_lift; [exact Ev|].
    unfold set_att. apply wp_bind. pose proof (b_len _ _ _ _ _ _ _ _ _ _ _ S1) as Ln1. pose proof (b_good _ _ _ _ _ _ _ _ _ _ _ S1) as Gd1.
    apply wp_pop_at; [lia|]. intros a Ha Hin. apply wp_pop_set; [lia|].
    assert (Ga : good P feas (@anyatt f64) (s_log s') a) by (rewrite Forall_forall in Gd1; auto).
    eapply (B_set P feas (@anyatt f64) IX cov nd n0 n W W l s' (upd (s_pop s') i (with_att a (v / fsuml ws + dec 1 10)%F))); [exact S1|rewrite upd_length; congruence| |apply (b_W _ _ _ _ _ _ _ _ _ _ _ S1)|].
    + apply upd_Forall; [exact Gd1|]. apply good_att; [exact Ga|exact I].
    + intros C b Hb. apply in_app_or in Hb. destruct Hb as [Hb|Hb].
      * apply In_nth_error in Hb. destruct Hb as [j Hj]. destruct (Nat.eq_dec i j) as [->|Ne].
        -- eexists. split; [apply in_or_app; left; eapply nth_error_In; apply upd_nth_eq; lia|].
           rewrite Ha in Hj. injection Hj as <-. rewrite fit_att. apply no_worse_refl; [apply HP|]. eapply good_num; [apply HP; exact C|exact Ga].
        -- exists b. split; [apply in_or_app; left; eapply nth_error_In; rewrite upd_nth_neq; [exact Hj|exact Ne]|].
           apply no_worse_refl; [apply HP|]. eapply good_num; [apply HP; exact C|]. rewrite Forall_forall in Gd1. apply Gd1. eapply nth_error_In, Hj.
      * exists b. split; [apply in_or_app; auto|]. apply no_worse_refl; [apply HP|]. eapply good_num; [apply HP; exact C|].
        pose proof (b_W _ _ _ _ _ _ _ _ _ _ _ S1) as GW. rewrite Forall_forall in GW. auto.
  - intros [] s' H. exact H.
Qed.
End TWO.
Lemma two_gea_ok P feas : problem_ok P feas -> gea_ok feas (@anyatt f64) (two_gea P).
Proof. intros Hp. apply gea_with_ok; [exact Hp|intros; draws; auto]. Qed.
Lemma two_sound E P md n epochs a b ev : 0 < n -> 0 < epochs ->
  (forall feas nd n0 s0 ep, params E P feas (@anyatt f64) (true = true /\ obj_num P feas) -> 1 <= ep ->
    blk0 P feas (@anyatt f64) (eq n) (fun _ _ => True) (true = true /\ obj_num P feas) nd n0 n s0 a b (ev ep) (fun _ => True)) ->
  sound_run_gen E P md (with_init (agent_algo E md (two_gea P) (ga_of P (two_gea P)) n epochs false (ret tt) (ret tt) ev) (two_weights E n))
    (fun _ => True) (fun _ => True) (fun _ => True) (eq n) true n n a b.
Proof.
  intros Hn He Hev.
  assert (T : sound_run_gen E P md (with_init (agent_algo E md (two_gea P) (ga_of P (two_gea P)) n epochs false (ret tt) (ret tt) ev) (two_weights E n))
    (fun _ => True) (fun _ => True) (fun _ => True) (eq n) true (n + 0) (n + 0) a b).
  2:{ rewrite !Nat.add_0_r in T. exact T. }
  apply (sound_more E P md _ _ n epochs false (ret tt) _ (ret tt) _ (fun _ => True) (fun _ => True) (fun _ => True) (fun _ => @anyatt f64)
    (fun _ _ _ => True) (fun _ _ _ => True) (fun _ _ _ => True)); auto; try lia.
  - intros feas rows _ _ Hp. apply two_gea_ok, Hp.
  - intros feas Hp. apply ga_of_ok, two_gea_ok, Hp.
  - intros feas Hp. apply vars_none; auto.
  - intros feas nd n0 s HP _ HS. eapply wp_mono; [eapply start_weights; [exact HP|lia|apply B_start, HS]|]. intros [] s' S1.
    apply start_B in S1. destruct S1 as [S1 L1]. split; [exact S1|lia].
  - intros feas nd n0 s HP _ HI. eapply main_none. exact HI.
  - intros feas nd n0 HP _. eapply contract_of; [exact HP|]. intros ep s0 Hep _. apply Hev; assumption.
Qed.
Theorem C64_OriginalTWO E P md n epochs : 5 <= n -> 0 < epochs ->
  sound_run_gen E P md (original_two E P md n epochs) (fun _ => True) (fun _ => True) (fun _ => True) (eq n) true n n n n.
Proof.
  intros Hn He. apply two_sound; [lia|exact He|]. intros feas nd n0 s0 ep HP Hep. unfold two_evolve.
  eapply b0_mono with (a := n + 0) (b := n + 0) (Φ := fun _ => True); [|lia|lia|auto].
  eapply b0_bind; [apply b0_two_move; [exact HP|lia]|]. intros [] _. apply b_two_weights; [exact HP|lia].
Qed.
Theorem C64_LevyTWO_parallel E P md n epochs : 5 <= n -> 0 < epochs -> is_avail md = true ->
  sound_run_gen E P md (levy_two E P md n epochs) (fun _ => True) (fun _ => True) (fun _ => True) (eq n) true n n n (2 * n).
Proof. intros Hn He Hav. apply two_sound; [lia|exact He|]. intros feas nd n0 s0 ep HP Hep. apply b0_levy_two; [exact HP|lia|exact Hav]. Qed.
Lemma dr_for_acc {A X B} m i (b : B) (body : nat -> B -> M A X B) (I : nat -> B -> Prop) :
  I i b -> (forall k b', i <= k < i + m -> I k b' -> dr (body k b') (I (S k))) -> dr (for_acc m i b body) (I (i + m)).
Proof.
  intros H0 Hb s. apply wp_for_acc with (I := fun k b' s' => (exists k, s' = bump s k) /\ I k b').
  - split; [apply bump_self|exact H0].
  - intros k b' s' Hk [[j ->] H1]. eapply wp_mono; [apply (Hb k b' Hk H1)|]. intros y s2 [[j2 ->] H2]. split; [exists j2; reflexivity|exact H2].
  - intros b' s' H. exact H.
Qed.
Lemma start_oppo E P md feas cov nd n0 n s : params E P feas (@anyatt f64) cov -> ~ cov -> is_avail md = true -> 0 < n -> n = 2 * (n / 2) ->
  Start P feas (@anyatt f64) (eq n) (fun _ (_ : unit) => True) cov nd n0 s ->
  wp (oppo_two_more E P md n) (fun _ s' => Start P feas (@anyatt f64) (eq n) (fun _ (_ : unit) => True) cov nd n0 s' /\
    List.length (s_log s) + n / 2 <= List.length (s_log s') <= List.length (s_log s) + n / 2) s.
Proof.
  intros HP Hno Hav Hn Ev HS. pose proof (B_start _ _ _ _ _ _ _ _ _ HS) as HB. unfold oppo_two_more. set (h := n / 2) in *. clearbody h.
  pose proof (st_len _ _ _ _ _ _ _ _ _ HS) as Ln. pose proof (st_good _ _ _ _ _ _ _ _ _ HS) as Gd.
  apply wp_bind, wp_get_pop. apply wp_bind, wp_choice_noreplace; [rewrite seq_length; lia|].
  intros ix rest k1 Lix Hix. apply wp_bind.
  assert (Hixn : forall i, In i ix -> i < n) by (intros i Hi; assert (T : In i (seq 0 n)) by (eapply Permutation_in; [exact Hix|apply in_or_app; auto]); apply in_seq in T; lia).
  eapply wp_mono; [apply (dr_for_acc h 0 [] _ (fun j acc => List.length acc = j /\ Forall (good P feas (@anyatt f64) (s_log s)) acc))|].
  { split; [reflexivity|constructor]. }
  { intros j acc Hj [La Fa]. destruct (getitem_lt ix j ltac:(lia)) as (v & Ei & _ & Iv). destruct (getitem_lt (s_pop s) v) as (a & Ea & _ & Ia).
    { rewrite <- Ln. auto. }
    apply dr_bind with (Φ := eq a); [|].
    - apply dr_bind with (Φ := eq v); [intros s1; eapply wp_lift; [exact Ei|split; [apply bump_self|reflexivity]]|].
      intros y <-. intros s1. eapply wp_lift; [exact Ea|split; [apply bump_self|reflexivity]].
    - intros y <-. apply dr_ret. split; [rewrite app_length; simpl; lia|]. apply Forall_app. split; [exact Fa|]. constructor; [|constructor].
      rewrite Forall_forall in Gd. auto. }
  intros keep s1 [[k2 ->] [Lk Fk]]. cbv beta in *. simpl in Lk. apply wp_bind. unfold new_agents. rewrite Hav. apply wp_bind.
  eapply wp_mono; [apply (dr_for_acc h 0 [] _ (fun j acc => List.length acc = j /\ Forall (fresh_agent feas (@anyatt f64)) acc))|].
  { split; [reflexivity|constructor]. }
  { intros j acc Hj [La Fa]. destruct (getitem_lt keep j ltac:(lia)) as (a & Ea & _).
    apply dr_bind with (Φ := fun _ => True).
    - apply dr_bind with (Φ := eq a); [intros s1; eapply wp_lift; [exact Ea|split; [apply bump_self|reflexivity]]|]. intros y <-. apply dr_ret. exact I.
    - intros x _. apply dr_bind with (Φ := fresh_agent feas (@anyatt f64)).
      + unfold propose. apply dr_bind with (Φ := feas).
        * intros s1. apply wp_correct_solution with (feas := feas); [apply HP|]. intros y i Hy. split; [eexists; reflexivity|exact Hy].
        * intros y Hy s1. eapply wp_mono; [apply (two_gea_ok P feas (pr_prob _ _ _ _ _ HP) s1 (Some y) Hy)|]. intros a' s2 (H1 & H2 & H3).
          split; [exact H1|]. split; [rewrite H2; exact Hy|intros; exact I].
      + intros a' Ha. apply dr_ret. split; [rewrite app_length; simpl; lia|]. apply Forall_app. split; [exact Fa|constructor; [exact Ha|constructor]]. }
  intros new s1 [[k3 ->] [Lw Fw]]. cbv beta in *. simpl in Lw. eapply wp_update_target_avail; [exact Hav|]. intros l' ->.
  pose proof (B_bump P feas (@anyatt f64) _ cov nd n0 n _ _ _ k3 HB) as HB1.
  destruct (B_evals E P feas (@anyatt f64) (fun _ _ => True) cov nd n0 n HP [] _ (bump s k3) new HB1 Fw) as [RB GB].
  set (s1 := evald (bump s k3) (map sol new)) in *. set (q := (keep ++ map _ new)%list).
  assert (B1 : B P feas (@anyatt f64) (fun _ (_ : unit) => True) cov nd n0 n [] (List.length (s_log s) + List.length new) (with_pop s1 q)).
  { eapply B_set; [exact RB| | |constructor|intros C; contradiction (Hno C)].
    - unfold q. rewrite app_length, map_length. lia.
    - unfold q. apply Forall_app. split; [|exact GB]. eapply Forall_impl; [|exact Fk]. intros a. apply good_mono; [apply HP|]. apply incl_appl, incl_refl. }
  apply wp_bind. unfold set_pop, wp at 1. change (wp (two_weights E n) (fun _ s' => Start P feas (@anyatt f64) (eq n) (fun _ (_ : unit) => True) cov nd n0 s' /\
    List.length (s_log s) + h <= List.length (s_log s') <= List.length (s_log s) + h) (with_pop s1 q)).
  eapply wp_mono; [eapply start_weights; [exact HP|lia|exact B1]|]. intros [] s2 B2. apply start_B in B2. destruct B2 as [S2 L2]. split; [exact S2|lia].
Qed.
Theorem C65_OppoTWO_parallel E P md n epochs : 5 <= n -> n = 2 * (n / 2) -> 0 < epochs -> is_avail md = true ->
  sound_run_gen E P md (oppo_two E P md n epochs) (fun _ => True) (fun _ => True) (fun _ => True) (eq n) false (n + n / 2) (n + n / 2) (2 * n) (2 * n).
Proof.
  intros Hn Ev He Hav.
  apply (sound_more E P md _ _ n epochs false (ret tt) _ (ret tt) _ (fun _ => True) (fun _ => True) (fun _ => True) (fun _ => @anyatt f64)
    (fun _ _ _ => True) (fun _ _ _ => True) (fun _ _ _ => True)); auto; try lia.
  - intros feas rows _ _ Hp. apply two_gea_ok, Hp.
  - intros feas Hp. apply ga_of_ok, two_gea_ok, Hp.
  - intros feas Hp. apply vars_none; auto.
  - intros feas nd n0 s HP _ HS. eapply start_oppo; [exact HP|noc|exact Hav|lia|exact Ev|exact HS].
  - intros feas nd n0 s HP _ HI. eapply main_none. exact HI.
  - intros feas nd n0 HP _. eapply contract_of; [exact HP|]. intros ep s0 Hep _. apply b0_oppo_two; [exact HP|lia|exact Hav].
Qed.
(** In single mode the returned target is not that of the returned position: the target is that of the position before correction
    (TWO.py:215-221, 307-313). *)
Theorem C64_LevyTWO_refuted : exists g s',
  solve demo_env (demo_prob Max sphere true) Single (levy_two demo_env (demo_prob Max sphere true) Single 6 2) None None (st0 tt) = Ok (g, s') /\
  exists t, tgt g = Some t /\ feq (t_fit t) (sphere (sol g)) = false.
Proof.
  assert (T : match solve demo_env (demo_prob Max sphere true) Single (levy_two demo_env (demo_prob Max sphere true) Single 6 2) None None (st0 tt) with
              | Ok (g, _) => match tgt g with Some t => negb (feq (t_fit t) (sphere (sol g))) | None => false end | _ => false end = true) by (vm_compute; reflexivity).
  destruct (solve _ _ _ _ _ _ _) as [[g s']|]; [|discriminate]. exists g, s'. split; [reflexivity|].
  destruct (tgt g) as [t|]; [|discriminate]. exists t. split; [reflexivity|]. destruct (feq _ _); [discriminate|reflexivity].
Qed.
Theorem C64_OppoTWO_refuted : exists g s',
  solve demo_env (demo_prob Max sphere true) Single (oppo_two demo_env (demo_prob Max sphere true) Single 6 2) None None (st0 tt) = Ok (g, s') /\
  exists t, tgt g = Some t /\ feq (t_fit t) (sphere (sol g)) = false.
Proof.
  assert (T : match solve demo_env (demo_prob Max sphere true) Single (oppo_two demo_env (demo_prob Max sphere true) Single 6 2) None None (st0 tt) with
              | Ok (g, _) => match tgt g with Some t => negb (feq (t_fit t) (sphere (sol g))) | None => false end | _ => false end = true) by (vm_compute; reflexivity).
  destruct (solve _ _ _ _ _ _ _) as [[g s']|]; [|discriminate]. exists g, s'. split; [reflexivity|].
  destruct (tgt g) as [t|]; [|discriminate]. exists t. split; [reflexivity|]. destruct (feq _ _); [discriminate|reflexivity].
Qed.

Print Assumptions C64_OriginalTLO.
Print Assumptions C64_DevQSA_returning.
Print Assumptions C64_DevQSA.
Print Assumptions C64_OppoQSA_returning.
Print Assumptions C64_OppoQSA.
Print Assumptions C64_LevyQSA_returning.
Print Assumptions C64_LevyQSA.
Print Assumptions C64_ImprovedQSA_returning.
Print Assumptions C64_ImprovedQSA.
Print Assumptions C64_OriginalQSA_returning.
Print Assumptions C64_OriginalQSA.
Print Assumptions C64_DevQSA_refuted.
Print Assumptions C64_OriginalTWO.
Print Assumptions C64_LevyTWO_parallel.
Print Assumptions C65_OppoTWO_parallel.
Print Assumptions C64_LevyTWO_refuted.
Print Assumptions C64_OppoTWO_refuted.
