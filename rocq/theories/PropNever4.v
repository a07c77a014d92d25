(** C68, continued: bacterial foraging and coral reefs. *)
From Verif Require Import Prelude Fl MCore MHelp MAlg MAlg2 MAlg3 MAlg4 MAlg5 MAlg6 MAlg7 MClass20 MClass23 PLogic PPart PropGA PropNever PropNever2 PropNever3.

Section Sizes.
Context {A X : Type}.
Implicit Types s : st A X.
(** The operation leaves the number of agents as it is, or fails. *)
Definition sized {Y} (m : M A X Y) : Prop := forall s, pc m (fun _ s' => List.length (s_pop s') = List.length (s_pop s)) s.
Lemma z_keeps {Y} (m : M A X Y) : keeps m -> sized m.
Proof. intros H s. eapply pc_mono; [apply H|]. cbv beta. intros y s' ->. reflexivity. Qed.
Lemma z_bind {Y Z} (m : M A X Y) (f : Y -> M A X Z) : sized m -> (forall y, sized (f y)) -> sized (bindM m f).
Proof. intros H1 H2 s. apply pc_bind. eapply pc_mono; [apply H1|]. cbv beta. intros y s1 E1. eapply pc_mono; [apply H2|]. cbv beta. congruence. Qed.
Lemma z_pop_set i (a : agent A) : sized (pop_set (X := X) i a).
Proof.
  intros s u s2 E2. unfold pop_set, bindM, get_pop, lift, setitem, set_pop in E2.
  destruct (i <? List.length (s_pop s)); [|discriminate]. injection E2 as <- <-. cbn. apply upd_length.
Qed.
Lemma z_when b (m : M A X unit) : sized m -> sized (when b m).
Proof. intros H s. destruct b; [apply H|apply pc_ret; reflexivity]. Qed.
Lemma z_for_acc {B} n : forall i (b : B) body, (forall k b, sized (body k b)) -> sized (for_acc n i b body).
Proof.
  induction n as [|n IH]; intros i b body Hb; cbn [for_acc]; [apply z_keeps, k_ret|]. apply z_bind; [apply Hb|]. intros y. apply IH, Hb.
Qed.
Lemma pop_at_stops i s : List.length (s_pop s) <= i -> pc (pop_at i) (fun _ _ => False) s.
Proof.
  intros Hi a s' Ea. unfold pop_at, bindM, get_pop, lift, getitem in Ea. rewrite (proj2 (nth_error_None _ _)) in Ea; [discriminate|exact Hi].
Qed.
Lemma k_get_target P x : keeps (@get_target A X P x).
Proof. intros s y s' E. injection E as <- <-. reflexivity. Qed.
Lemma k_gea P (d : A) o : keeps (generate_empty_agent (X := X) P d o).
Proof. unfold generate_empty_agent. destruct o; keep. Qed.
Lemma k_gen_agent P (d : A) x : keeps (gen_agent (X := X) P (correct_solution P) (generate_empty_agent P d) x).
Proof.
  unfold gen_agent, propose, evaluate, correct_solution, correct_solution_with. apply k_bind; [apply k_bind; [unfold amend_clip; keep|intros; apply k_gea]|].
  intros a. apply k_bind; [apply k_get_target|intros; apply k_ret].
Qed.
Lemma k_random_agent P (d : A) : keeps (random_agent (X := X) P (generate_empty_agent P d)).
Proof. unfold random_agent, evaluate. apply k_bind; [apply k_gea|]. intros a. apply k_bind; [apply k_get_target|intros; apply k_ret]. Qed.
End Sizes.

(** ** OriginalBFO with an odd number of agents: the reproduction keeps an even number of them (BFO.py:166-167) *)
Ltac size := repeat first [apply z_pop_set | match goal with |- sized (if ?b then _ else _) => destruct b end
  | apply z_keeps; solve [apply k_gen_agent | apply k_random_agent | unfold rform, rlist, uniform, pop_sol, pop_at; keep]
  | apply z_when | apply z_for_acc; intros | assumption | apply z_bind; [|intros ?]].
Lemma z_bfo_swim E P ci idx k : sized (bfo_swim E P ci idx k).
Proof. induction k as [|k IH]; cbn [bfo_swim]; [apply z_keeps, k_ret|]. size. Qed.
Theorem C68_OriginalBFO E P ci ped nc ns n epochs term start s : Nat.odd n = true -> 2 <= nc -> 0 < epochs ->
  never (solve E P Single (original_bfo E P ci ped nc ns n epochs) term start s).
Proof.
  intros Ho Hc He. apply st_solve. right. split; [exact He|]. intros ep s1. cbn [original_bfo plain_algo al_evolve]. unfold bfo_evolve, for_.
  assert (Hh : 2 * (n / 2) < n).
  { apply Nat.odd_spec in Ho. destruct Ho as [h ->]. replace ((2 * h + 1) / 2) with h; [lia|]. rewrite Nat.mul_comm, Nat.div_add_l by lia. cbn. lia. }
  set (h := n / 2) in *. clearbody h.
  assert (First : forall s, pc (bfo_step E P ci ped ns h n) (fun _ s' => List.length (s_pop s') < n) s).
  { intros s2. unfold bfo_step. apply pc_skip. intros _ s3. apply pc_skip. intros keys s4. apply pc_bind, pc_get_pop. cbv zeta. set (cells := map fst _).
    apply pc_bind, pc_set_pop. assert (Z : sized (for_ n (fun idc => u <- uniform E ;; when (flt u ped) (a <- random_agent P (generate_empty_agent (A := unit) (X := unit) P tt) ;; pop_set idc a)))).
    { unfold for_. size. }
    eapply pc_mono; [apply Z|]. cbv beta. intros _ s5 ->. cbn. rewrite app_length, !firstn_length. lia. }
  destruct nc as [|[|nc]]; [lia|lia|]. cbn [for_acc]. apply pc_bind. eapply pc_mono; [apply First|]. cbv beta. intros _ s2 H2. apply pc_bind.
  unfold bfo_step. apply pc_bind. unfold for_. eapply pc_mono.
  - apply (pc_reach _ (List.length (s_pop s2)) (fun _ s' => List.length (s_pop s') = List.length (s_pop s2))); [| |lia|reflexivity].
    + intros k [] s3 H3. assert (Z : sized (_ <- pop_at k ;; bfo_swim E P ci k ns)) by (apply z_bind; [apply z_keeps; unfold pop_at; keep|intros; apply z_bfo_swim]).
      eapply pc_mono; [apply Z|]. cbv beta. intros _ s4 ->. exact H3.
    + intros [] s3 H3. apply pc_bind. eapply pc_mono; [apply pop_at_stops; lia|]. intros y s4 [].
  - intros y s3 [].
Qed.
Example C68_OriginalBFO_example : Nat.odd 51 = true /\ Nat.odd 100 = false.
Proof. split; reflexivity. Qed.

(** ** ABFO with N_adapt = 0, which its constructor accepts (BFO.py:245, 298) *)
Theorem C68_ABFO E P md cs ce ped ns nsplit n epochs term start s : 0 < n -> 0 < epochs ->
  never (solve E P md (abfo E P md cs ce ped ns 0 nsplit n epochs) term start s).
Proof.
  intros Hn He. apply st_solve. right. split; [exact He|]. intros ep. cbn [abfo agent_algo al_evolve]. unfold abfo_evolve, abfo_next.
  apply st_first, st_first. unfold for_. apply st_for_acc; [exact Hn|]. intros _. unfold abfo_cell. do 4 (apply st_bind; intros ?). apply st_first, st_lift.
  exists ZeroDivisionError. reflexivity.
Qed.

(** ** The coral reefs with one variable: the crossover needs two different points (CRO.py:123) *)
Lemma broadcast_stops E P md c (s : st unit reef) : n_dims P = 1%nat -> 2 <= part (c_fb c) (List.length (reef_idx (s_x s))) -> pc (cro_broadcast E P md c) (fun _ _ => False) s.
Proof.
  intros Hd Hp. unfold cro_broadcast. apply pc_bind. intros x s1 E1. injection E1 as <- <-. cbv zeta. set (k := part _ _) in *. clearbody k.
  apply pc_bind. eapply pc_mono; [apply pc_choice_length|]. cbv beta. intros sel s2 Ls. apply pc_skip. intros l1 s3. apply pc_bind.
  assert (L : forall k sel (s : st unit reef), pc (cro_pairs E k sel) (fun l _ => List.length l = k) s).
  { clear. induction k as [|k IH]; intros sel s; cbn [cro_pairs]; [apply pc_ret; reflexivity|]. apply pc_skip. intros [i1 i2] s1. apply pc_skip. intros a1 s2. apply pc_skip. intros a2 s3.
    apply pc_bind. eapply pc_mono; [apply IH|]. cbv beta. intros r s4 Hr. apply pc_ret. cbn. lia. }
  eapply pc_mono; [apply L|]. cbv beta. intros prs s4 Lp. assert (Hpos : 0 < List.length prs) by (rewrite Lp; apply Nat.div_str_pos; lia).
  match goal with |- pc (bindM ?m _) _ _ => assert (S : stops m) end.
  { unfold new_agents. apply st_first. apply st_for_acc; [exact Hpos|]. intros b. apply st_first. do 3 (apply st_bind; intros ?). apply st_first.
    unfold choose2. apply st_first. apply st_choice. rewrite seq_length, Hd. lia. }
  apply pc_bind. eapply pc_mono; [apply S|]. intros y s5 [].
Qed.
Lemma cro_start_occ E c n (s : st unit reef) : pc (cro_start E c n) (fun _ s' => List.length (reef_idx (s_x s')) = cro_occupied c n) s.
Proof.
  unfold cro_start. apply pc_skip. intros x s1. apply pc_bind. eapply pc_mono; [apply pc_choice_length|]. cbv beta. intros r s2 Lr u s3 E3. injection E3 as <- <-. exact Lr.
Qed.
Theorem C68_OriginalCRO E P md c trials n epochs term start s : n_dims P = 1%nat -> 2 <= part (c_fb c) (cro_occupied c n) -> 0 < epochs ->
  never (solve E P md (original_cro E P md c trials n epochs) term start s).
Proof.
  intros Hd Hp He. apply (st_solve_x E P md _ term start s (fun x => List.length (reef_idx x) = cro_occupied c n)); [| |exact He|].
  - intros s1. unfold original_cro. cbn [with_init al_init agent_algo]. apply pc_skip. intros _ s2. apply cro_start_occ.
  - intros s1 H. apply pc_ret. exact H.
  - intros ep s1 Hx. cbn [original_cro with_init al_evolve agent_algo]. unfold cro_evolve. apply pc_bind. eapply pc_mono; [apply broadcast_stops; [exact Hd|rewrite Hx; exact Hp]|]. intros y s2 [].
Qed.
Theorem C68_OCRO E P md c trials restart n epochs term start s : n_dims P = 1%nat -> 2 <= part (c_fb c) (cro_occupied c n) -> 0 < epochs ->
  never (solve E P md (ocro E P md c trials restart n epochs) term start s).
Proof.
  intros Hd Hp He. apply (st_solve_x E P md _ term start s (fun x => List.length (reef_idx x) = cro_occupied c n)); [| |exact He|].
  - intros s1. unfold ocro. cbn [with_init al_init agent_algo]. apply pc_skip. intros _ s2. apply cro_start_occ.
  - intros s1 H. apply pc_ret. exact H.
  - intros ep s1 Hx. cbn [ocro with_init al_evolve agent_algo]. unfold ocro_evolve. apply pc_bind. eapply pc_mono; [apply broadcast_stops; [exact Hd|rewrite Hx; exact Hp]|]. intros y s2 [].
Qed.
(** The defaults: po = 0.4, Fb = 0.9 and 100 agents. *)
Example C68_CRO_example : let c := mkCro (dec 4 10) (dec 9 10) (dec 1 10) (dec 1 10) (dec 5 10) (dec 1 10) (dec 2 100) (dec 2 10) in
  cro_occupied c 100 = 71%nat /\ part (c_fb c) (cro_occupied c 100) = 63%nat.
Proof. vm_compute. split; reflexivity. Qed.

Print Assumptions C68_OriginalBFO.
Print Assumptions C68_ABFO.
Print Assumptions C68_OriginalCRO.
Print Assumptions C68_OCRO.
