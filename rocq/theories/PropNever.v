(** Settings inside the documented ranges with which no run ever returns, on any problem, in any mode. *)
From Verif Require Import Prelude Fl MCore MHelp MAlg MAlg2 MClass2 MClass5 MClass8 MAlg6 MClass9 MClass10 MAlg7 MClass11 MClass12 MClass14 SpecCore SpecRun PSelect PLogic PSolve PRun PAny PPart PropGA PAlg.

Section Never.
Context {A X : Type}.
Implicit Types s : st A X.
Definition stops {Y} (m : M A X Y) : Prop := forall s, pc m (fun _ _ => False) s.
Lemma st_bind {Y Z} (m : M A X Y) (f : Y -> M A X Z) : (forall y, stops (f y)) -> stops (bindM m f).
Proof. intros H s. apply pc_bind. intros y s' _. apply H. Qed.
Lemma st_first {Y Z} (m : M A X Y) (f : Y -> M A X Z) : stops m -> stops (bindM m f).
Proof. intros H s. apply pc_bind. intros y s' E. destruct (H s y s' E). Qed.
Lemma st_lift {Y} (r : res Y) : never r -> stops (lift r).
Proof. intros [e ->] s. apply pc_lift. intros y H. discriminate. Qed.
Lemma st_raise {Y} e : stops (@raise A X Y e).
Proof. intros s. apply pc_raise. Qed.
Lemma st_for_acc {B} n i (b : B) body : 0 < n -> (forall b, stops (body i b)) -> stops (for_acc n i b body).
Proof. intros Hn H. destruct n as [|n]; [lia|]. cbn [for_acc]. apply st_first, H. Qed.
Lemma st_integers E lo hi : hi <= lo -> stops (@integers A X E lo hi).
Proof. intros H. unfold integers. destruct (hi <=? lo)%nat eqn:C; [apply st_raise|apply Nat.leb_gt in C; lia]. Qed.
Lemma st_choice {T} E n : forall l : list T, List.length l < n -> stops (@choice_noreplace A X E T l n).
Proof.
  induction n as [|n IH]; intros l Hl; [lia|]. cbn [choice_noreplace]. destruct l as [|d l]; [apply st_raise|].
  apply st_bind. intros k. cbv zeta. apply st_first, IH. set (i := _ mod _).
  assert (Hi : i < List.length (d :: l)) by (apply Nat.mod_upper_bound; discriminate).
  unfold remove_at. rewrite app_length, firstn_length, skipn_length. lia.
Qed.
Lemma st_solve E P md (al : @algo A X) tm starting s :
  stops (al_before_main al) \/ (0 < al_epoch al /\ forall ep, stops (al_evolve al ep)) -> never (solve E P md al tm starting s).
Proof.
  intros H. assert (S : stops (solve E P md al tm starting)).
  { unfold solve. do 6 (apply st_bind; intros). destruct H as [H|[He H]]; [apply st_first, H|].
    apply st_bind; intros. apply st_first. destruct (al_epoch al) as [|n]; [lia|]. cbn [main_loop]. apply st_first.
    unfold epoch_step. apply st_bind; intros k. apply st_first, H. }
  destruct (solve E P md al tm starting s) as [[g s']|e] eqn:Es; [destruct (S _ _ _ Es)|exists e; reflexivity].
Qed.
End Never.

(** JADE with int(pop_size * pt) = 0. *)
Theorem C68_JADE E P md miu_cr miu_f pt ap n epochs tm starting s : 0 < n -> 0 < epochs -> jade_top pt n = 0%nat ->
  never (solve E P md (jade_algo E P md miu_cr miu_f pt ap n epochs) tm starting s).
Proof.
  intros Hn He Ht. apply st_solve. right. split; [exact He|]. intros ep. cbn [jade_algo vars_algo al_evolve agent_algo].
  unfold jade_evolve. apply st_bind; intros x. apply st_bind; intros _. apply st_bind; intros p. apply st_bind; intros [sorted ix].
  apply st_first. unfold accept_batch. apply st_first. unfold made_agents. apply st_first. apply st_for_acc; [exact Hn|]. intros b.
  apply st_first. do 4 (apply st_bind; intros). apply st_first. apply st_integers. rewrite Ht. lia.
Qed.
(** The default pt is 0.1: every population of fewer than ten agents (the constructor accepts 5 to 10000). *)
Theorem C68_JADE_default E P md miu_cr miu_f ap n epochs tm starting s : 0 < n < 10 -> 0 < epochs ->
  never (solve E P md (jade_algo E P md miu_cr miu_f (dec 1 10) ap n epochs) tm starting s).
Proof.
  intros Hn He. apply C68_JADE; [lia|exact He|]. destruct Hn as [_ Hn]. do 10 (destruct n as [|n]; [vm_compute; reflexivity|]). lia.
Qed.
(** OriginalDE with strategy 3 and five agents. *)
Theorem C68_DE E P md wf cr epochs tm starting s : 0 < epochs ->
  never (solve E P md (original_de E P md wf cr 3 5 epochs) tm starting s).
Proof.
  intros He. apply st_solve. right. split; [exact He|]. intros ep. cbn [original_de plain_algo al_evolve]. unfold de_evolve, greedy_each, greedy_loop.
  apply st_first. apply st_for_acc; [lia|]. intros b. apply st_first. apply st_first. cbn [de_cand]. apply st_first.
  unfold choose5. apply st_first. apply st_choice. cbn. lia.
Qed.
(** OriginalCA with int(accepted_rate * pop_size) = 0 ([k]). *)
Theorem C68_CA E P n epochs tm starting s : 0 < epochs -> never (solve E P Single (original_ca E P 0 n epochs) tm starting s).
Proof.
  intros He. apply st_solve. right. split; [exact He|]. intros ep. cbn [original_ca agent_algo al_evolve]. unfold ca_evolve.
  apply st_bind; intros [lo hi]. apply st_bind; intros ch. apply st_bind; intros p. apply st_bind; intros q. apply st_bind; intros [ps ix].
  apply st_bind; intros _. apply st_first. apply st_lift. exists ValueError. reflexivity.
Qed.
(** DS_GWO with more groups than agents (the constructor accepts 5 to 100 groups and 10 or more agents). *)
Theorem C68_DS_GWO E P md n_groups n epochs tm starting s : argsort_ok (e_argsort E) -> 0 < n < n_groups ->
  never (solve E P md (ds_gwo E P md n_groups n epochs) tm starting s).
Proof.
  intros Ha Hn. apply st_solve. left. cbn [ds_gwo agent_algo al_before_main]. unfold ds_gwo_groups. rewrite Nat.div_small by lia.
  apply st_first. apply st_for_acc; [lia|]. intros b. apply st_bind; intros p.
  assert (C : Nat.eqb 0 (n_groups - 1) = false) by (apply Nat.eqb_neq; lia). rewrite C. cbn [Nat.mul Nat.add].
  assert (Sl : slice 0 0 p = []) by reflexivity. rewrite Sl.
  unfold get_sorted_population. cbn [map_res bind]. destruct (Ha []) as [Hp _]. cbn in Hp. apply Permutation_sym, Permutation_nil in Hp. rewrite Hp.
  intros s1. apply pc_bind, pc_lift. intros [g ix] Hg. apply pc_bind, pc_lift. intros b0 Hb.
  destruct (p_mm P); cbn in Hg; try discriminate; injection Hg as <- _; discriminate.
Qed.

(** ** Programs that leave the population as it is *)
Section Keeps.
Context {A X : Type}.
Definition keeps {Y} (m : M A X Y) : Prop := forall s : st A X, pc m (fun _ s' => s_pop s' = s_pop s) s.
Lemma k_ret {Y} (y : Y) : keeps (ret y). Proof. intros s. apply pc_ret. reflexivity. Qed.
Lemma k_raise {Y} e : keeps (@raise A X Y e). Proof. intros s. apply pc_raise. Qed.
Lemma k_bind {Y Z} (m : M A X Y) (f : Y -> M A X Z) : keeps m -> (forall y, keeps (f y)) -> keeps (bindM m f).
Proof.
  intros H1 H2 s. apply pc_bind. eapply pc_mono; [apply H1|]. intros y s' E. eapply pc_mono; [apply H2|]. intros z s2 E2.
  cbv beta in *. congruence.
Qed.
Lemma k_lift {Y} (r : res Y) : keeps (lift r). Proof. intros s. apply pc_lift. reflexivity. Qed.
Lemma k_tick : keeps (@tick A X). Proof. intros s. apply pc_tick. reflexivity. Qed.
Lemma k_get : keeps (@get A X). Proof. intros s. apply pc_get. reflexivity. Qed.
Lemma k_for_acc {B} n : forall i (b : B) body, (forall k b, keeps (body k b)) -> keeps (for_acc n i b body).
Proof. induction n as [|n IH]; intros i b body H; cbn [for_acc]; [apply k_ret|]. apply k_bind; [apply H|]. intros; apply IH, H. Qed.
Lemma k_for_list {B T} (l : list T) : forall (b : B) body, (forall k b, keeps (body k b)) -> keeps (for_list l b body).
Proof. induction l as [|x l IH]; intros b body H; cbn [for_list]; [apply k_ret|]. apply k_bind; [apply H|]. intros; apply IH, H. Qed.
Lemma k_get_pop : keeps (@get_pop A X). Proof. intros s. apply pc_get_pop. reflexivity. Qed.
Lemma k_get_gb : keeps (@get_gb A X).
Proof. intros s y s' E. unfold get_gb in E. destruct (s_gb s); [|discriminate]. injection E as <- <-. reflexivity. Qed.
Lemma k_choice {T} E n : forall l : list T, keeps (@choice_noreplace A X E T l n).
Proof.
  induction n as [|n IH]; intros l; cbn [choice_noreplace]; [apply k_ret|]. destruct l as [|d l]; [apply k_raise|].
  apply k_bind; [apply k_tick|]. intros k. cbv zeta. apply k_bind; [apply IH|]. intros; apply k_ret.
Qed.
End Keeps.
Ltac keep := repeat first
  [ apply k_ret | apply k_raise | apply k_lift | apply k_tick | apply k_get | apply k_get_pop | apply k_get_gb | apply k_choice | apply k_for_acc; intros | apply k_for_list; intros
  | apply k_bind; intros | match goal with |- keeps (if ?b then _ else _) => destruct b end
  | match goal with |- keeps (let '(_, _) := ?r in _) => destruct r end
  | match goal with |- keeps (match ?r with _ => _ end) => destruct r end].

(** OriginalSOO in the parallel modes: pop_new still holds the first phase's agents when the second phase compares it with
    the population (SOO.py:114-147). *)
Section SOO.
Variable E : env.
Variable P : problem.
Variable md : mode.
Lemma k_target l : keeps (update_target_for_population (A := unit) (X := unit) P md l).
Proof. unfold update_target_for_population, get_target_uncounted. destruct (is_avail md); keep. all: intros s; apply pc_wp; cbn; reflexivity. Qed.
Lemma k_propose x : keeps (propose (A := unit) (X := unit) (correct_solution P) (generate_empty_agent P tt) x).
Proof. unfold propose, correct_solution. keep. Qed.
Lemma update_length l s : pc (update_target_for_population (A := unit) (X := unit) P md l) (fun l' s' => List.length l' = List.length l /\ s_pop s' = s_pop s) s.
Proof.
  unfold update_target_for_population. destruct (is_avail md); [|apply pc_ret; auto].
  assert (L : forall (q acc : list (agent unit)) s, pc (for_list q acc (fun a acc => t <- get_target_uncounted (A := unit) (X := unit) P (sol a) ;; ret (acc ++ [with_tgt a t])))
                (fun l' s' => List.length l' = List.length acc + List.length q /\ s_pop s' = s_pop s) s).
  { induction q as [|a q IH]; intros acc s'; cbn [for_list]; [apply pc_ret; split; [cbn; lia|reflexivity]|].
    apply pc_bind. unfold get_target_uncounted. apply pc_bind, pc_bind. intros u s1 E1. injection E1 as <- <-. apply pc_ret. apply pc_ret.
    eapply pc_mono; [apply IH|]. intros l' s2 [H1 H2]. rewrite app_length in H1. cbn in *. split; [lia|exact H2]. }
  apply pc_bind. eapply pc_mono; [apply L|]. intros l' s1 [H1 H2]. apply pc_bind. intros u s2 E2. injection E2 as <- <-. apply pc_ret.
  cbn in *. split; [lia|exact H2].
Qed.
Lemma soo_phase_length n pop_new cand s : is_avail md = true -> (forall i, keeps (cand i)) ->
  pc (soo_phase P md n pop_new cand) (fun l s' => List.length l = List.length pop_new + n /\ List.length (s_pop s') = List.length l /\ List.length (s_pop s) = List.length l) s.
Proof.
  intros Hm Hc. unfold soo_phase. rewrite Hm.
  assert (L : forall k i acc s, pc (for_acc k i acc (fun idx acc => x <- cand idx ;; a <- propose (correct_solution P) (generate_empty_agent P tt) x ;; ret (acc ++ [a])))
                (fun l' s' => List.length l' = List.length acc + k /\ s_pop s' = s_pop s) s).
  { induction k as [|k IH]; intros i acc s'; cbn [for_acc]; [apply pc_ret; split; [lia|reflexivity]|].
    apply pc_bind, pc_bind. eapply pc_mono; [apply Hc|]. intros x s1 E1. apply pc_bind. eapply pc_mono.
    - apply (k_propose x).
    - intros a s2 E2. apply pc_ret. eapply pc_mono; [apply IH|]. intros l' s3 [H1 H2]. rewrite app_length in H1. cbn in *. split; [lia|congruence]. }
  apply pc_bind. eapply pc_mono; [apply L|]. intros l s1 [H1 H2]. apply pc_bind. eapply pc_mono; [apply update_length|]. intros new s2 [H3 H4].
  apply pc_bind, pc_get_pop. apply pc_bind, pc_lift. intros q Hq. apply pc_bind, pc_set_pop. apply pc_ret. cbn.
  unfold greedy_selection_population in Hq. destruct (List.length (s_pop s2) =? List.length new)%nat eqn:El; [|discriminate].
  apply Nat.eqb_eq in El. cbn [negb] in Hq. apply map_res_ok_length in Hq. rewrite combine_length in Hq. rewrite H4, H2 in *. lia.
Qed.
Theorem C68_OriginalSOO n epochs tm starting s : 0 < n -> 0 < epochs -> is_avail md = true -> never (solve E P md (original_soo E P md n epochs) tm starting s).
Proof.
  intros Hn He Hm. apply st_solve. right. split; [exact He|]. intros ep. cbn [original_soo plain_algo al_evolve]. unfold soo_evolve.
  intros s1. apply pc_bind. eapply pc_mono; [apply soo_phase_length; [exact Hm|]|].
  - intros i. unfold gb_sol, pop_sol, pop_at, rform. keep.
  - intros l s2 (H1 & H2 & _). apply pc_bind, pc_get_pop. apply pc_bind. eapply pc_mono.
    + unfold special. keep.
    + intros r s3 E3. destruct r as [[x best3] y]. apply pc_bind. eapply pc_mono; [apply soo_phase_length; [exact Hm|]|].
      * intros i. unfold pop_sol, pop_at, rform, choose3. keep.
      * intros l2 s4 (H4 & H5 & H6). cbn [List.length] in *. rewrite E3 in H6. lia.
Qed.
End SOO.

Section NeverLast.
Context {A X : Type}.
Implicit Types s : st A X.
Lemma pc_skip {Y Z} (m : M A X Y) (f : Y -> M A X Z) Q s : (forall y s', pc (f y) Q s') -> pc (bindM m f) Q s.
Proof. intros H. apply pc_bind. intros y s' _. apply H. Qed.
(** Without a termination condition the last epoch is always reached. *)
Lemma epoch_none E P (al : @algo A X) ep s : pc (epoch_step E P al None ep) (fun r _ => r = None) s.
Proof.
  unfold epoch_step. do 3 (apply pc_skip; intros). apply pc_skip. intros [sp g] s3. do 5 (apply pc_skip; intros). apply pc_ret. reflexivity.
Qed.
Lemma st_main_last E P (al : @algo A X) m : forall i, stops (al_evolve al (i + m)) -> stops (main_loop E P al None (S m) i).
Proof.
  induction m as [|m IH]; intros i H s; cbn [main_loop].
  - apply pc_bind. unfold epoch_step at 1. intros r s' E1. rewrite Nat.add_0_r in H. assert (T : stops (epoch_step E P al None i)).
    { unfold epoch_step. apply st_bind; intros k. apply st_first, H. }
    destruct (T s r s' E1).
  - apply pc_bind. eapply pc_mono; [apply epoch_none|]. intros r s' ->. apply IH. replace (S i + m) with (i + S m) by lia. exact H.
Qed.
Lemma st_solve_last E P md (al : @algo A X) starting s : 0 < al_epoch al -> stops (al_evolve al (al_epoch al)) ->
  never (solve E P md al None starting s).
Proof.
  intros He H. assert (T : stops (solve E P md al None starting)).
  { unfold solve. apply st_bind; intros _. intros s1. apply pc_bind. apply pc_ret.
    match goal with |- pc ?m _ _ => assert (T : stops m) end; [|apply T].
    do 5 (apply st_bind; intros). apply st_first. destruct (al_epoch al) as [|m] eqn:Em; [lia|]. apply st_main_last. exact H. }
  destruct (solve E P md al None starting s) as [[g s']|e] eqn:Es; [destruct (T _ _ _ Es)|exists e; reflexivity].
Qed.
Lemma st_for_reach {B} body j : (forall b, stops (body j b)) -> forall n i (b : B), i <= j < i + n -> stops (for_acc (A := A) (X := X) n i b body).
Proof.
  intros H. induction n as [|n IH]; intros i b Hi; [lia|]. cbn [for_acc].
  destruct (Nat.eq_dec i j) as [->|N]; [apply st_first, H|]. apply st_bind. intros b'. apply IH. lia.
Qed.
Lemma pc_integers E lo hi s : pc (@integers A X E lo hi) (fun k _ => lo <= k < hi) s.
Proof.
  unfold integers. destruct (hi <=? lo) eqn:C; [apply pc_raise|]. apply Nat.leb_gt in C. apply pc_bind, pc_tick. intros k. apply pc_ret.
  assert (e_i E k mod (hi - lo) < hi - lo) by (apply Nat.mod_upper_bound; lia). lia.
Qed.
Lemma pc_choice_length {T} E n : forall (l : list T) s, pc (@choice_noreplace A X E T l n) (fun r _ => List.length r = n) s.
Proof.
  induction n as [|n IH]; intros l s; cbn [choice_noreplace]; [apply pc_ret; reflexivity|]. destruct l as [|d l]; [apply pc_raise|].
  apply pc_bind, pc_tick. intros k. cbv zeta. apply pc_bind. eapply pc_mono; [apply IH|]. intros r s' Hr. apply pc_ret. cbv beta in Hr. cbn [List.length]. lia.
Qed.
End NeverLast.

(** OriginalDOA with more agents than variables and no termination condition. *)
Theorem C68_OriginalDOA E P md n epochs starting s : List.length (p_ub P) < n -> 0 < epochs ->
  never (solve E P md (original_doa E P md n epochs) None starting s).
Proof.
  intros Hn He. apply st_solve_last; [exact He|]. cbn [original_doa plain_algo al_evolve al_epoch]. unfold doa_evolve.
  replace (epochs <=? 9 * epochs / 10) with false by (symmetry; apply Nat.leb_gt; apply Nat.div_lt_upper_bound; [discriminate|lia]).
  unfold doa_exploit, replace_list. apply st_first. unfold collect. eapply st_for_reach with (j := List.length (p_ub P)); [|lia].
  intros b s1. apply pc_bind. apply pc_bind. eapply pc_mono; [apply pc_integers|]. intros k s2 Hk. apply pc_bind.
  eapply pc_mono; [apply pc_choice_length|]. intros js s3 Hj. apply pc_bind. intros g s4 _. apply pc_bind.
  destruct js as [|j js]; [cbv beta in Hk, Hj; cbn [List.length] in Hj; lia|]. cbn [for_list].
  match goal with |- pc ?m _ _ => assert (T : stops m) end.
  { apply st_first. apply st_bind. intros u. apply st_first. apply st_lift. exists IndexError. unfold getitem.
    destruct (nth_error (p_ub P) (List.length (p_ub P))) eqn:En; [|reflexivity]. assert (nth_error (p_ub P) (List.length (p_ub P)) <> None) by congruence.
    apply nth_error_Some in H. lia. }
  eapply pc_mono; [apply T|]. intros y s5 [].
Qed.
(** OriginalDandelionO with one epoch. *)
Theorem C68_OriginalDandelionO E P md n tm starting s : never (solve E P md (original_dandelion E P md n 1) tm starting s).
Proof.
  apply st_solve. right. split; [cbn; lia|]. intros ep. cbn [original_dandelion plain_algo al_evolve]. unfold dandelion_evolve. apply st_first, st_lift.
  exists ZeroDivisionError. vm_compute. reflexivity.
Qed.
(** OriginalAO and AAO with one epoch. *)
Theorem C68_OriginalAO E P md n tm starting s : never (solve E P md (original_ao E P md n 1) tm starting s).
Proof.
  apply st_solve. right. split; [cbn; lia|]. intros ep. cbn [original_ao plain_algo al_evolve]. unfold ao_evolve. do 2 (apply st_bind; intros). apply st_first, st_lift.
  exists ZeroDivisionError. vm_compute. reflexivity.
Qed.
Theorem C68_AAO E P md sharpness midpoint n tm starting s : never (solve E P md (aao E P md sharpness midpoint n 1) tm starting s).
Proof.
  apply st_solve. right. split; [cbn; lia|]. intros ep. cbn [aao plain_algo al_evolve]. unfold ao_evolve. do 2 (apply st_bind; intros). apply st_first, st_lift.
  exists ZeroDivisionError. vm_compute. reflexivity.
Qed.
(** OriginalSquirrelSA with a single food source, or with at most two agents more than food sources. *)
Theorem C68_OriginalSquirrelSA E P md n_food pp gc sf n epochs tm starting s : 0 < epochs -> n_food = 1%nat \/ n <= n_food + 2 ->
  never (solve E P md (original_squirrel E P md n_food pp gc sf n epochs) tm starting s).
Proof.
  intros He H. apply st_solve. right. split; [exact He|]. intros ep. cbn [original_squirrel plain_algo al_evolve].
  unfold squirrel_evolve, replace_list. apply st_first. unfold squirrel_pop. do 2 (apply st_bind; intros).
  destruct (le_lt_dec n (n_food + 2)) as [L|L].
  - apply st_bind; intros perm. apply st_first. apply st_integers. lia.
  - destruct H as [->|H]; [|lia]. intros s1. apply pc_bind. eapply pc_mono; [apply pc_choice_length|]. intros perm s2 Hp. cbv beta in Hp.
    apply pc_bind. eapply pc_mono; [apply pc_integers|]. intros cut s3 Hc. cbv beta in Hc.
    match goal with |- pc ?m _ _ => assert (T : stops m) end; [|apply T]. apply st_first.
    destruct (skipn cut (map (fun i => (i + 1)%nat) perm)) as [|j js] eqn:Es.
    + apply (f_equal (@List.length nat)) in Es. rewrite skipn_length, map_length in Es. cbn [List.length] in Es. lia.
    + cbn [for_list]. apply st_first, st_first, st_integers. cbn. lia.
Qed.


(** CleverBookBeesA on a problem with one variable. *)
Theorem C68_CleverBookBeesA E P md n_elites n_others patch n_sites n_elite_sites n epochs tm starting s : 0 < n -> 0 < epochs ->
  0 < n_elites -> 0 < n_others -> 0 < n_sites -> n_dims P = 1 ->
  never (solve E P md (clever_bees E P md n_elites n_others patch n_sites n_elite_sites n epochs) tm starting s).
Proof.
  intros Hn He H1 H2 H3 Hd. apply st_solve. right. split; [exact He|]. intros ep. cbn [clever_bees plain_algo al_evolve].
  unfold clever_evolve, greedy_ready. apply st_first. apply st_for_acc; [exact Hn|]. intros b. apply st_first.
  apply Nat.ltb_lt in H3. rewrite H3. apply st_bind. intros x. unfold bees_near, best_new, new_agents. do 3 apply st_first.
  apply st_for_acc; [destruct (0 <? n_elite_sites)%nat; assumption|]. intros b2. do 2 apply st_first. apply st_integers. rewrite Hd. lia.
Qed.
Example C68_CleverBookBeesA_example : n_dims (mkProblem [fZ 0] [fZ 1] Min (fun x => x) None (fun _ x => x) (fun _ => [fZ 0]) false) = 1.
Proof. reflexivity. Qed.

(** ** DevSSpiderA in the parallel modes: the list of the new agents is empty (SSpiderA.py:142, 146). *)
Theorem C68_DevSSpiderA E P md ra pc pm n epochs term start s : is_avail md = true -> 0 < n -> 0 < epochs ->
  never (solve E P md (dev_spider E P md ra pc pm n epochs) term start s).
Proof.
  intros Hav Hn He. apply st_solve. right. split; [exact He|]. intros ep. cbn [al_evolve dev_spider agent_algo].
  unfold spider_evolve. apply st_bind; intros p. apply st_bind; intros ints. apply st_bind; intros xs. apply st_bind; intros recv.
  apply st_bind; intros ib. rewrite Hav. intros s1.
  apply pc_bind. eapply pc_mono; [apply pc_for_acc with (I := fun (acc : list (agent spider)) _ => acc = [])|].
  - reflexivity.
  - intros k acc s2 ->. apply pc_skip. intros a s3. apply pc_ret. reflexivity.
  - cbv beta. intros l s2 ->. apply pc_bind.
    eapply pc_mono with (Q := fun l _ => l = []).
    { destruct md; cbn [is_avail] in Hav; try discriminate; intros y s' Ey; cbn in Ey; injection Ey as <- _; reflexivity. }
    cbv beta. intros l s3 ->. unfold for_. destruct n as [|m]; [lia|]. cbn [for_acc].
    match goal with |- PPart.pc ?m _ _ => assert (T : stops m) end; [|apply T].
    apply st_first, st_first, st_lift. exists IndexError. reflexivity.
Qed.

Print Assumptions C68_JADE.
Print Assumptions C68_JADE_default.
Print Assumptions C68_DE.
Print Assumptions C68_CA.
Print Assumptions C68_DS_GWO.
Print Assumptions C68_OriginalSOO.
Print Assumptions C68_OriginalDOA.
Print Assumptions C68_OriginalDandelionO.
Print Assumptions C68_OriginalAO.
Print Assumptions C68_AAO.
Print Assumptions C68_OriginalSquirrelSA.
Print Assumptions C68_CleverBookBeesA.
Print Assumptions C68_DevSSpiderA.
