(** C68, continued: settings that leave the population or the groups too short. *)
From Verif Require Import Prelude Fl MCore MHelp MAlg MAlg2 MAlg3 MAlg4 MAlg5 MAlg6 MAlg7 MClass20 MClass21 PLogic PPart PropGA PropNever PropNever2.

Section NeverMore.
Context {A X : Type}.
Implicit Types s : st A X.
(** A loop that fails when it reaches index [j], if [J] holds until then. *)
Lemma pc_reach {B} (body : nat -> B -> M A X B) j (J : B -> st A X -> Prop) :
  (forall k b s, J b s -> pc (body k b) J s) -> (forall b s, J b s -> pc (body j b) (fun _ _ => False) s) ->
  forall n i b s, i <= j < i + n -> J b s -> pc (for_acc n i b body) (fun _ _ => False) s.
Proof.
  intros Hk Hj. induction n as [|n IH]; intros i b s Hi HJ; [lia|]. cbn [for_acc]. apply pc_bind. destruct (Nat.eq_dec i j) as [->|Hne].
  - eapply pc_mono; [apply Hj; exact HJ|]. intros y s' [].
  - eapply pc_mono; [apply Hk; exact HJ|]. intros y s' HJ'. apply IH; [lia|exact HJ'].
Qed.
Lemma st_solve_init E P md (al : @algo A X) tm starting s : stops (al_init al) -> never (solve E P md al tm starting s).
Proof.
  intros H. assert (S : stops (solve E P md al tm starting)) by (unfold solve; do 4 (apply st_bind; intros); apply st_first, H).
  destruct (solve E P md al tm starting s) as [[g s']|e] eqn:Es; [destruct (S _ _ _ Es)|exists e; reflexivity].
Qed.
Lemma after_init_x E P srt s : pc (after_initialization (A := A) (X := X) E P srt) (fun _ s' => s_x s' = s_x s) s.
Proof.
  unfold after_initialization. apply pc_bind, pc_get_pop. apply pc_bind, pc_lift. intros [[sp best] worst] _. apply pc_bind, pc_lift. intros b _.
  apply pc_bind, pc_lift. intros w _. apply pc_bind. intros u s1 E1. injection E1 as <- <-. apply pc_bind. intros u s1 E1. injection E1 as <- <-.
  apply pc_bind. apply pc_when.
  - intros _. apply pc_set_pop. apply pc_bind, pc_get. apply pc_bind, pc_lift. intros h _ v s2 E2. injection E2 as <- <-. reflexivity.
  - intros _. apply pc_bind, pc_get. apply pc_bind, pc_lift. intros h _ v s2 E2. injection E2 as <- <-. reflexivity.
Qed.
(** The attributes set by the initialization make the first epoch fail. *)
Lemma st_solve_x E P md (al : @algo A X) tm starting s (I : X -> Prop) : (forall s, pc (al_init al) (fun _ s' => I (s_x s')) s) ->
  (forall s, I (s_x s) -> pc (al_before_main al) (fun _ s' => I (s_x s')) s) -> 0 < al_epoch al ->
  (forall ep s, I (s_x s) -> pc (al_evolve al ep) (fun _ _ => False) s) -> never (solve E P md al tm starting s).
Proof.
  intros Hi Hb He Hv. assert (S : stops (solve E P md al tm starting)).
  { unfold solve. do 4 (apply st_bind; intros). intros s1. apply pc_bind. eapply pc_mono; [apply Hi|]. intros u s2 H2.
    apply pc_bind. eapply pc_mono; [apply after_init_x|]. intros u1 s3 H3. cbv beta in H3. apply pc_bind. eapply pc_mono; [apply Hb; rewrite H3; exact H2|].
    intros u2 s4 H4. apply pc_bind. destruct (al_epoch al) as [|n]; [lia|]. cbn [main_loop]. apply pc_bind.
    unfold epoch_step. apply pc_bind, pc_tick. intros k. apply pc_bind. eapply pc_mono; [apply Hv; exact H4|]. intros u3 s5 []. }
  destruct (solve E P md al tm starting s) as [[g s']|e] eqn:Es; [destruct (S _ _ _ Es)|exists e; reflexivity].
Qed.
Lemma set_att_length i (b : A) s : pc (set_att (X := X) i b) (fun _ s' => List.length (s_pop s') = List.length (s_pop s)) s.
Proof.
  unfold set_att, pop_at, pop_set. apply pc_bind. intros old s1 E1. unfold bindM, get_pop, lift, getitem in E1.
  destruct (nth_error (s_pop s) i) as [a|]; [|discriminate]. injection E1 as <- <-. intros u s2 E2. unfold bindM, get_pop, lift, setitem, set_pop in E2.
  destruct (i <? List.length (s_pop s)); [|discriminate]. injection E2 as <- <-. cbn. apply upd_length.
Qed.
End NeverMore.

(** ** OppoTWO with an odd number of agents: its initialization leaves one agent too few (TWO.py:171-186) *)
Lemma two_weights_stops E n (s : st f64 unit) : List.length (s_pop s) < n -> pc (two_weights E n) (fun _ _ => False) s.
Proof.
  intros Hs. unfold two_weights, all_fits. apply pc_bind, pc_bind, pc_get_pop, pc_lift. intros fits Ef. cbv zeta. apply pc_bind.
  match goal with |- pc ?m _ _ => assert (K : keeps m) by (unfold uniform_vec, uniform, repeat_M; keep) end.
  eapply pc_mono; [apply K|]. intros fs s1 E1. cbv beta in E1. unfold for_.
  apply (pc_reach _ (List.length (s_pop s)) (fun _ s' => List.length (s_pop s') = List.length (s_pop s))); [| |lia|rewrite E1; reflexivity].
  - intros k [] s2 H2. apply pc_bind, pc_lift. intros w _. eapply pc_mono; [apply set_att_length|]. cbv beta. intros _ s3 H3. congruence.
  - intros [] s2 H2. apply pc_bind, pc_lift. intros w _. unfold set_att, pop_at. apply pc_bind. intros old s3 E3. exfalso.
    unfold bindM, get_pop, lift, getitem in E3. rewrite (proj2 (nth_error_None _ _)) in E3; [discriminate|]. lia.
Qed.
Lemma update_target_length {A X} P md (l : list (agent A)) (s : st A X) :
  pc (update_target_for_population P md l) (fun l' _ => List.length l' = List.length l) s.
Proof.
  unfold update_target_for_population. destruct (is_avail md); [|apply pc_ret; auto].
  assert (L : forall (q acc : list (agent A)) (s : st A X), pc (for_list q acc (fun a acc => t <- get_target_uncounted P (sol a) ;; ret (acc ++ [with_tgt a t])))
                (fun l' s' => List.length l' = List.length acc + List.length q) s).
  { induction q as [|a q IH]; intros acc s'; cbn [for_list]; [apply pc_ret; cbn; lia|].
    apply pc_bind. apply pc_skip. intros t s1. apply pc_ret.
    eapply pc_mono; [apply IH|]. intros l' s2 H1. cbv beta in H1. rewrite app_length in H1. cbn in *. lia. }
  apply pc_bind. eapply pc_mono; [apply L|]. intros l' s1 H1. apply pc_skip. intros u s2. apply pc_ret. cbn in *. lia.
Qed.
Lemma new_agents_length {A X} P md correct gea n cand (s : st A X) : pc (new_agents P md correct gea n cand) (fun l _ => List.length l = n) s.
Proof.
  unfold new_agents. apply pc_bind.
  assert (L : forall k i (acc : list (agent A)) (s : st A X), pc (for_acc k i acc (fun idx pop_new => x <- cand idx ;; a <- propose correct gea x ;;
      if is_avail md then ret (pop_new ++ [a]) else a' <- evaluate P a ;; ret (pop_new ++ [a']))) (fun l _ => List.length l = List.length acc + k) s).
  { induction k as [|k IH]; intros i acc s1; cbn [for_acc]; [apply pc_ret; lia|]. apply pc_bind. apply pc_skip. intros x s2. apply pc_skip. intros a s3.
    destruct (is_avail md).
    - apply pc_ret. eapply pc_mono; [apply IH|]. cbv beta. intros l s4 Hl. rewrite app_length in Hl. cbn in Hl. lia.
    - apply pc_skip. intros a' s4. apply pc_ret. eapply pc_mono; [apply IH|]. cbv beta. intros l s5 Hl. rewrite app_length in Hl. cbn in Hl. lia. }
  eapply pc_mono; [apply L|]. cbv beta. intros l s1 Hl. cbn in Hl. destruct (is_avail md); [|apply pc_ret; exact Hl].
  eapply pc_mono; [apply update_target_length|]. cbv beta. intros; lia.
Qed.
Theorem C68_OppoTWO E P md n epochs term start s : Nat.odd n = true -> never (solve E P md (oppo_two E P md n epochs) term start s).
Proof.
  intros Ho. apply st_solve_init. unfold oppo_two. cbn [with_init al_init agent_algo]. apply st_bind. intros _ s1. unfold oppo_two_more.
  apply pc_skip. intros p s2. apply pc_skip. intros ix s3. apply pc_bind. eapply pc_mono; [apply pc_collect_length|]. cbv beta. intros keep s4 Lk.
  apply pc_bind. eapply pc_mono; [apply new_agents_length|]. cbv beta. intros opp s5 Lo. apply pc_bind, pc_set_pop. apply two_weights_stops.
  cbn. rewrite app_length, Lk, Lo. apply Nat.odd_spec in Ho. destruct Ho as [h ->]. replace ((2 * h + 1) / 2) with h; [lia|].
  rewrite Nat.mul_comm, Nat.div_add_l by lia. cbn. lia.
Qed.
Example C68_OppoTWO_example : Nat.odd 51 = true /\ Nat.odd 50 = false.
Proof. split; reflexivity. Qed.

(** ** ImprovedBSO when the clusters do not have the same number of agents: the agents left over have no cluster (BSO.py:101-121) *)
Lemma bso_put_length gs c l a gs' : bso_put gs c l a = Ok gs' -> List.length gs' = List.length gs.
Proof.
  unfold bso_put, setitem. destruct (getitem gs c) as [g|]; [|discriminate]. cbn [bind]. destruct (l <? List.length g); [|discriminate]. cbn [bind].
  destruct (c <? List.length gs); [|discriminate]. intros H. injection H as <-. apply upd_length.
Qed.
Lemma bso_slot_length P md correct gs c l x s : pc (bso_slot P md correct gs c l x) (fun gs' _ => List.length gs' = List.length gs) s.
Proof.
  unfold bso_slot. apply pc_skip. intros a s1. apply pc_bind, pc_lift. intros gs1 E1. apply bso_put_length in E1. destruct (is_avail md); [apply pc_ret; exact E1|].
  apply pc_skip. intros a' s2. apply pc_bind, pc_lift. intros b _. apply pc_lift. intros gs2 E2. apply bso_put_length in E2. congruence.
Qed.
Theorem C68_ImprovedBSO E P md p1 p2 p3 p4 m n epochs term start s : 0 < m <= n -> m * (n / m) <> n -> 0 < epochs ->
  never (solve E P md (improved_bso E P md p1 p2 p3 p4 m n epochs) term start s).
Proof.
  intros Hm Hd He. pose proof (Nat.mul_div_le n m ltac:(lia)) as H1. assert (H2 : 0 < n / m) by (apply Nat.div_str_pos; lia).
  apply (st_solve_x E P md _ term start s (fun x => List.length (fst x) = m)); [| |exact He|].
  - intros s1. unfold improved_bso. cbn [with_init al_init agent_algo]. apply pc_skip. intros _ s2. unfold bso_more. apply pc_skip. intros p s3. cbv zeta.
    apply pc_skip. intros cs s4 u s5 E5. injection E5 as <- <-. cbn. rewrite map_length, seq_length. reflexivity.
  - intros s1 H. cbn [improved_bso with_init al_before_main agent_algo]. apply pc_ret. exact H.
  - intros ep s1 Hx. cbn [improved_bso with_init al_evolve agent_algo]. unfold ibso_evolve. set (k := n / m) in *. clearbody k.
    apply pc_bind. intros x s2 E2. injection E2 as <- <-. apply pc_skip. intros cs s3. apply pc_bind.
    eapply pc_mono; [apply (pc_reach _ (m * k) (fun gs _ => List.length gs = m))|].
    + intros idx gs s4 Hg. cbv zeta. apply pc_skip. intros u s5. apply pc_skip. intros v s6. eapply pc_mono; [apply bso_slot_length|]. cbv beta. intros; congruence.
    + intros gs s4 Hg. cbv zeta. apply pc_skip. intros u s5. apply pc_skip. intros v s6. unfold bso_slot. apply pc_skip. intros a s7.
      apply pc_bind, pc_lift. intros gs1 E1. exfalso. unfold bso_put, getitem in E1. rewrite Nat.div_mul in E1 by lia.
      rewrite (proj2 (nth_error_None _ _)) in E1; [discriminate|lia].
    + lia.
    + exact Hx.
    + intros gs s4 [].
Qed.
Example C68_ImprovedBSO_example : 5 * (52 / 5) <> 52 /\ 5 * (50 / 5) = 50.
Proof. vm_compute. split; [discriminate|reflexivity]. Qed.

Print Assumptions C68_OppoTWO.
Print Assumptions C68_ImprovedBSO.
