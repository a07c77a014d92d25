(** Starting solutions, initial population, population evaluation, evaluation counter. *)
From Verif Require Import Prelude Fl MCore MConc SpecCore SpecRun PSelect PLogic PSolve PRun PAny PPart Demo.

Definition anyvec (x : vec) : Prop := True.
Definition anyatt {A} (L : list vec) (a : A) : Prop := True.

(** An algorithm that does not override generate_empty_agent, generate_agent, initialization. *)
Definition default_start {A X} (E : env) (P : problem) (md : mode) (dflt : A) (al : @algo A X) : Prop :=
  al_gea al = generate_empty_agent P dflt /\ al_ga al = generate_agent_with P (al_gea al) /\
  al_init_vars al = ret tt /\ al_init al = default_initialization E md (al_ga al) (al_pop_size al).

(** The part of solve that produces the initial population. *)
Definition make_initial {A X} (P : problem) (md : mode) (al : @algo A X) starting : M A X unit :=
  al_init_vars al ;;; before_initialization P md al starting ;;; al_init al.

(** An agent evaluated at its own position, nothing more. *)
Definition eval_agent {A} (P : problem) (dflt : A) (x : vec) : agent A := mkAgent x (Some (prob_target P x)) dflt.

(** * C18 *)
Lemma before_init_exact {A X} E P md (dflt : A) (al : @algo A X) (rows : list vec) s :
  default_start E P md dflt al -> fresh s ->
  List.length rows = al_pop_size al -> (exists (r0 : vec) r, rows = r0 :: r /\ List.length r0 = n_dims P) ->
  wp (before_initialization P md al (Some rows)) (fun _ s' =>
     s_pop s' = map (eval_agent P dflt) rows /\ s_log s' = rows /\ s_nfe s' = s_nfe s + List.length rows /\
     s_hist s' = s_hist s /\ s_x s' = s_x s) s.
Proof.
  intros (D1 & D2 & D3 & D4) (F1 & F2 & F3 & F4 & F5) HL (r0 & r & Er & H0). unfold before_initialization.
  rewrite HL, Nat.eqb_refl. destruct rows as [|q0 q] eqn:Eq; [discriminate|]. injection Er; intros -> ->. clear Er.
  rewrite <- Eq in *. rewrite H0, Nat.eqb_refl. destruct (is_avail md) eqn:Em.
  - apply wp_bind. rewrite D1.
    apply wp_for_list with (I := fun pre l s' => l = map (fun x => mkAgent x None dflt) pre /\ exists k, s' = bump s k).
    + split; [reflexivity|]. exists (s_ctr s). destruct s; reflexivity.
    + intros pre x suf l s' _ (-> & k & ->). apply wp_bind. apply wp_ret. apply wp_ret.
      split; [rewrite map_app; reflexivity|exists k; reflexivity].
    + intros l s' (-> & k & ->). apply wp_bind. unfold set_pop at 1, wp at 1. cbn [s_gb s_gw s_hist s_nfe s_ctr s_log s_x bump].
      apply wp_bind. apply wp_update_target_avail; [exact Em|]. intros l' ->. unfold set_pop, wp. simpl.
      rewrite F2, !map_map, !map_length. simpl. rewrite map_id. repeat split; auto.
  - apply wp_bind. rewrite D2, D1.
    apply wp_for_list with (I := fun pre l s' => l = map (eval_agent P dflt) pre /\ exists k, s' = bump (evald s pre) k).
    + split; [reflexivity|]. exists (s_ctr s). unfold bump, evald; simpl. rewrite app_nil_r, Nat.add_0_r. destruct s; reflexivity.
    + intros pre x suf l s' _ (-> & k & ->). apply wp_bind. unfold generate_agent_with, generate_empty_agent.
      apply wp_bind, wp_ret, wp_bind, wp_get_target, wp_ret, wp_ret. split; [rewrite map_app; reflexivity|].
      exists k. unfold bump, evald; simpl. rewrite app_assoc, app_length. simpl. f_equal; lia.
    + intros l s' (-> & k & ->). unfold set_pop, wp. simpl. rewrite F2. repeat split; auto.
Qed.

(** Accepted rows become the initial population as they are: same rows, same order, nothing else evaluated. *)
Theorem C18_starting_used_exactly : forall (A X : Type) E P md (dflt : A) (al : @algo A X) (rows : list vec) s,
  default_start E P md dflt al -> fresh s ->
  List.length rows = al_pop_size al -> (exists (r0 : vec) r, rows = r0 :: r /\ List.length r0 = n_dims P) ->
  exists s', make_initial P md al (Some rows) s = Ok (tt, s') /\
    map sol (s_pop s') = rows /\ Forall (fun a => tgt a = Some (prob_target P (sol a))) (s_pop s') /\
    s_log s' = rows /\ s_nfe s' = s_nfe s + List.length rows.
Proof.
  intros A X E P md dflt al rows s D F HL HR.
  assert (W : wp (make_initial P md al (Some rows)) (fun _ s' =>
     s_pop s' = map (eval_agent P dflt) rows /\ s_log s' = rows /\ s_nfe s' = s_nfe s + List.length rows) s).
  { unfold make_initial. destruct D as (D1 & D2 & D3 & D4). rewrite D3. apply wp_bind, wp_ret, wp_bind.
    eapply wp_mono; [eapply before_init_exact; eauto; repeat split; eauto|].
    intros [] s1 (Q1 & Q2 & Q3 & Q4 & Q5). rewrite D4. unfold default_initialization. apply wp_bind, wp_get_pop.
    rewrite Q1. destruct HR as (r0 & r & -> & _). simpl map. cbv iota beta. apply wp_ret. auto. }
  destruct (wp_elim _ _ _ W) as ([] & s' & Es & Q1 & Q2 & Q3). exists s'. split; [exact Es|].
  rewrite Q1, map_map. split; [simpl; apply map_id|]. split; [|split; assumption].
  apply Forall_forall. intros a Ha. apply in_map_iff in Ha. destruct Ha as (x & <- & _). reflexivity.
Qed.
(** Anything else is rejected before any evaluation. *)
Theorem C18_rejected : forall (A X : Type) P md (al : @algo A X) (rows : list vec) (s : st A X),
  0 < al_pop_size al ->
  List.length rows <> al_pop_size al \/ (exists (r0 : vec) r, rows = r0 :: r /\ List.length r0 <> n_dims P) ->
  before_initialization P md al (Some rows) s = Err ValueError.
Proof.
  intros A X P md al rows s Hp H. unfold before_initialization.
  destruct (List.length rows =? al_pop_size al) eqn:E1; [|reflexivity]. apply Nat.eqb_eq in E1.
  destruct H as [H|(r0 & r & -> & H)]; [congruence|]. apply Nat.eqb_neq in H. rewrite H. reflexivity.
Qed.
(** Rows after the first are not checked, and no row is moved into the bounds. *)
Theorem C18_unchecked_refuted :
  let P := demo_prob Min sphere false in
  exists rows s', make_initial P Single (random_search demo_env P Single 2 1 false) (Some rows) (st0 tt) = Ok (tt, s') /\
    map (@List.length f64) (map sol (s_pop s')) = [2; 3] /\
    Exists (fun a => flt (nth 0 (p_ub P) fnan) (nth 0 (sol a) fnan) = true) (s_pop s').
Proof.
  intros P. exists [[fZ 1; fZ 1]; [fZ 100; fZ 1; fZ 1]].
  destruct (C18_starting_used_exactly unit unit demo_env P Single tt (random_search demo_env P Single 2 1 false)
     [[fZ 1; fZ 1]; [fZ 100; fZ 1; fZ 1]] (st0 tt)) as (s' & E1 & E2 & E3 & _).
  - repeat split.
  - repeat split.
  - reflexivity.
  - eexists; eexists; split; reflexivity.
  - exists s'. split; [exact E1|]. split; [rewrite E2; reflexivity|].
    apply Exists_exists. destruct (s_pop s') as [|a [|b [|]]]; cbn [map] in E2; try discriminate.
    exists b. split; [right; left; reflexivity|].
    assert (Q : sol b = [fZ 100; fZ 1; fZ 1]) by congruence. rewrite Q. vm_compute. reflexivity.
Qed.

(** * C19 *)
Theorem C19_initial_population : forall (A X : Type) E P md (dflt : A) n (s : st A X),
  exists l s', generate_population_with E md (generate_agent_with P (generate_empty_agent P dflt) None) n s = Ok (l, s') /\
    List.length l = n /\
    Forall (fun a => tgt a = Some (prob_target P (sol a)) /\ att a = dflt /\ exists k, sol a = p_gen P k) l /\
    (exists L, s_log s' = s_log s ++ L /\ Permutation L (map sol l)) /\ s_pop s' = s_pop s.
Proof.
  intros A X E P md dflt n s.
  pose proof (generate_population_ok (A := A) (X := X) E P md (fun x => exists k, x = p_gen P k) (fun _ a => a = dflt)
     ltac:(auto) (generate_agent_with P (generate_empty_agent P dflt) None) n s) as W.
  destruct (wp_elim _ _ _ (W ltac:(apply plain_ga_contract; [intros k; exists k; reflexivity|reflexivity])))
    as (l & s' & Es & H1 & H2 & H3 & _ & _ & _ & _ & (L & H4 & H5 & _) & _).
  exists l, s'. split; [exact Es|]. split; [exact H1|]. split; [|split; [exists L; auto|exact H3]].
  eapply Forall_impl; [|exact H2]. intros a [? ? ? ?]. auto.
Qed.
(** In thread mode the population does not depend on the completion order, up to rearrangement. *)
Theorem C19_thread_order_irrelevant : forall (A X : Type) E1 E2 (ga : M A X (agent A)) n (s : st A X) l s',
  generate_population_with E1 Thread ga n s = Ok (l, s') ->
  exists l', generate_population_with E2 Thread ga n s = Ok (l', s') /\ Permutation l l'.
Proof.
  intros A X E1 E2 ga n s l s' H. unfold generate_population_with, bindM in *. simpl in *.
  destruct (repeat_M n ga _) as [[l0 s0]|]; [|discriminate]. simpl in *. inversion H; subst.
  eexists. split; [reflexivity|]. rewrite !reorder_perm. reflexivity.
Qed.
(** In process mode every worker starts from the same copy of the optimizer: all agents are identical. *)
Theorem C19_process_identical : forall (A X : Type) E P (dflt : A) n (s : st A X),
  exists x s', generate_population_with E Process (generate_agent_with P (generate_empty_agent P dflt) None) n s
     = Ok (repeat (eval_agent P dflt x) n, s') /\ s_nfe s' = s_nfe s /\ List.length (s_log s') = List.length (s_log s) + n.
Proof.
  intros A X E P dflt n s.
  set (x := p_gen P (S (s_ctr s))). set (ga := generate_agent_with P (generate_empty_agent P dflt) None).
  assert (W : wp (repeat_M n (in_child ga)) (fun l s' =>
     l = repeat (eval_agent P dflt x) n /\ s_nfe s' = s_nfe s /\ s_ctr s' = S (s_ctr s) /\
     List.length (s_log s') = List.length (s_log s) + n) (bump s (S (s_ctr s)))).
  { unfold repeat_M. apply wp_for_acc with (I := fun i l s' => l = repeat (eval_agent P dflt x) i /\ s_nfe s' = s_nfe s /\
       s_ctr s' = S (s_ctr s) /\ List.length (s_log s') = List.length (s_log s) + i).
    - simpl. repeat split. lia.
    - intros i l s' _ (-> & Hn & Hc & Hl). unfold wp, bindM, in_child, ga, generate_agent_with, generate_empty_agent, bindM, tick, ret, get_target, bindM, add_nfe, add_log.
      simpl. rewrite Hc. fold x. rewrite app_length. simpl. split; [|split; [assumption|split; [reflexivity|lia]]].
      unfold with_tgt, eval_agent. simpl. rewrite <- repeat_cons. reflexivity.
    - intros l s' (H1 & H2 & H3 & H4). auto. }
  destruct (wp_elim _ _ _ W) as (l & s' & El & -> & Hn & _ & Hl).
  exists x, s'. unfold generate_population_with. unfold bindM at 1.
  change (tick s) with (Ok (s_ctr s, bump s (S (s_ctr s)))). cbv iota beta.
  fold ga. unfold bindM at 1. rewrite El. split; [|auto]. unfold ret. f_equal. f_equal.
  assert (Q : forall l', Permutation l' (repeat (eval_agent P dflt x) n) -> l' = repeat (eval_agent P dflt x) n).
  { intros l' HP. rewrite <- (repeat_length (eval_agent P dflt x) n) at 1. rewrite <- (Permutation_length HP).
    apply Forall_eq_repeat. eapply Permutation_Forall; [symmetry; exact HP|]. apply Forall_forall. intros y Hy.
    symmetry. eapply repeat_spec; exact Hy. }
  apply Q. apply reorder_perm.
Qed.

(** * C20 *)
Lemma nth_ext_error {T} (l l' : list T) : (forall i, nth_error l i = nth_error l' i) -> l = l'.
Proof.
  revert l'; induction l as [|x l IH]; intros [|y l'] H; auto.
  - specialize (H 0); discriminate.
  - specialize (H 0); discriminate.
  - pose proof (H 0) as H0. inversion H0; subst. f_equal. apply IH. intros i. apply (H (S i)).
Qed.
Theorem C20_update_target : forall (A X : Type) P md (p : list (agent A)) (s : st A X), md <> Single ->
  exists l s', update_target_for_population P md p s = Ok (l, s') /\
    map sol l = map sol p /\ map att l = map att p /\
    Forall (fun a => tgt a = Some (prob_target P (sol a))) l /\
    s_nfe s' = s_nfe s + List.length p /\ s_log s' = s_log s ++ map sol p /\ s_pop s' = s_pop s.
Proof.
  intros A X P md p s Hm.
  assert (W : wp (update_target_for_population P md p) (fun l s' =>
     l = map (fun a => with_tgt a (prob_target P (sol a))) p /\ s' = evald s (map sol p)) s).
  { apply wp_update_target_avail; [destruct md; [congruence|reflexivity..]|]. auto. }
  destruct (wp_elim _ _ _ W) as (l & s' & El & -> & ->). eexists; eexists. split; [exact El|].
  rewrite !map_map. simpl. rewrite map_length. repeat split; try reflexivity.
  apply Forall_forall. intros a Ha. apply in_map_iff in Ha. destruct Ha as (b & <- & _). reflexivity.
Qed.
Theorem C20_single_noop : forall (A X : Type) P (p : list (agent A)) (s : st A X),
  update_target_for_population P Single p s = Ok (p, s).
Proof. reflexivity. Qed.
(** Whatever order the workers run in (each task at least once), slot i holds the result for position i. *)
Theorem C20_any_schedule : forall (S T : Type) (f : S -> T) xs sched,
  (forall i, i < List.length xs -> In i sched) -> executor_map f xs sched = map (fun x => Some (f x)) xs.
Proof.
  intros S T f xs sched H. unfold executor_map.
  assert (G : forall sched slots, List.length slots = List.length xs ->
     (forall i x, nth_error xs i = Some x -> nth_error slots i = Some (Some (f x)) \/ In i sched) ->
     fold_left (fun slots i => match nth_error xs i with Some x => upd slots i (Some (f x)) | None => slots end) sched slots
     = map (fun x => Some (f x)) xs).
  { clear. induction sched as [|j sched IH]; intros slots HL H; simpl.
    - apply nth_ext_error. intros i. rewrite nth_error_map. destruct (nth_error xs i) as [x|] eqn:E.
      + destruct (H i x E) as [Q|[]]. exact Q.
      + apply nth_error_None. apply nth_error_None in E. lia.
    - apply IH.
      + destruct (nth_error xs j); [rewrite upd_length|]; exact HL.
      + intros i x Hx. destruct (Nat.eq_dec i j) as [->|Hne].
        * left. rewrite Hx. apply upd_nth_eq. rewrite HL. apply nth_error_Some. congruence.
        * destruct (H i x Hx) as [Q|[Q|Q]]; [left|congruence|right; exact Q].
          destruct (nth_error xs j); [rewrite upd_nth_neq by congruence|]; exact Q. }
  apply G; [apply repeat_length|]. intros i x Hx. right. apply H. apply nth_error_Some. congruence.
Qed.

(** * C21 *)
(** A call counts every evaluation it makes. *)
Definition counted {A X Y} (m : M A X Y) : Prop :=
  forall s y s', m s = Ok (y, s') -> s_nfe s' + List.length (s_log s) = s_nfe s + List.length (s_log s').

Lemma counted_ret {A X Y} (y : Y) : @counted A X Y (ret y).
Proof. intros s y' s' H. inversion H; subst; lia. Qed.
Lemma counted_raise {A X Y} e : @counted A X Y (raise e).
Proof. intros s y' s' H. discriminate. Qed.
Lemma counted_bind {A X Y Z} (m : M A X Y) (f : Y -> M A X Z) : counted m -> (forall y, counted (f y)) -> counted (bindM m f).
Proof.
  intros H1 H2 s z s' H. unfold bindM in H. destruct (m s) as [[y s1]|] eqn:E; [|discriminate].
  specialize (H1 _ _ _ E). specialize (H2 _ _ _ _ H). lia.
Qed.
Lemma counted_lift {A X Y} (r : res Y) : @counted A X Y (lift r).
Proof. intros s y s' H. unfold lift in H. destruct r; [|discriminate]. inversion H; subst; lia. Qed.
Lemma counted_for_acc {A X B} n i (b : B) (body : nat -> B -> M A X B) : (forall k b, counted (body k b)) -> counted (for_acc n i b body).
Proof. intros H. revert i b. induction n as [|n IH]; intros i b; simpl; [apply counted_ret|]. apply counted_bind; auto. Qed.
Lemma counted_for_list {A X B T} (l : list T) (b : B) (body : T -> B -> M A X B) : (forall x b, counted (body x b)) -> counted (for_list l b body).
Proof. intros H. revert b. induction l as [|x l IH]; intros b; simpl; [apply counted_ret|]. apply counted_bind; auto. Qed.
Lemma counted_when {A X} b (m : M A X unit) : counted m -> counted (when b m).
Proof. destruct b; simpl; [auto|intros _; apply counted_ret]. Qed.
(** Anything that touches neither the counter nor the log. *)
Ltac csimple := intros ?s ?y ?s' ?H; cbv in H |- *; inversion H; subst; reflexivity.
Lemma counted_silent {A X Y} (m : M A X Y) : (forall s y s', m s = Ok (y, s') -> s_nfe s' = s_nfe s /\ s_log s' = s_log s) -> counted m.
Proof. intros H s y s' E. destruct (H _ _ _ E) as [-> ->]. lia. Qed.
Lemma counted_tick {A X} : @counted A X nat tick.
Proof. apply counted_silent. intros s y s' H. inversion H; auto. Qed.
Lemma counted_get_pop {A X} : @counted A X _ get_pop. Proof. apply counted_silent. intros s y s' H. inversion H; auto. Qed.
Lemma counted_get {A X} : @counted A X _ get. Proof. apply counted_silent. intros s y s' H. inversion H; subst; auto. Qed.
Lemma counted_get_x {A X} : @counted A X _ get_x. Proof. apply counted_silent. intros s y s' H. inversion H; subst; auto. Qed.
Lemma counted_set_x {A X} x : @counted A X _ (set_x x). Proof. apply counted_silent. intros s y s' H. inversion H; subst; auto. Qed.
Lemma counted_get_gb {A X} : @counted A X _ get_gb.
Proof. apply counted_silent. intros s y s' H. unfold get_gb in H. destruct (s_gb s); [|discriminate]. inversion H; subst; auto. Qed.
Lemma counted_set_pop {A X} p : @counted A X _ (set_pop p). Proof. apply counted_silent. intros s y s' H. inversion H; subst; auto. Qed.
Lemma counted_set_gb {A X} p : @counted A X _ (set_gb p). Proof. apply counted_silent. intros s y s' H. inversion H; subst; auto. Qed.
Lemma counted_set_gw {A X} p : @counted A X _ (set_gw p). Proof. apply counted_silent. intros s y s' H. inversion H; subst; auto. Qed.
Lemma counted_set_hist {A X} h : @counted A X _ (set_hist h). Proof. apply counted_silent. intros s y s' H. inversion H; subst; auto. Qed.
Lemma counted_get_target {A X} P x : @counted A X _ (get_target P x).
Proof. intros s y s' H. inversion H; subst; simpl. rewrite app_length; simpl; lia. Qed.
Lemma counted_update_target {A X} P md p : @counted A X _ (update_target_for_population P md p).
Proof.
  destruct (is_avail md) eqn:Em.
  - intros s y s' H.
    assert (W : wp (update_target_for_population P md p) (fun _ s' => s' = evald s (map sol p)) s)
      by (apply wp_update_target_avail; auto).
    unfold wp in W. rewrite H in W. subst. simpl. rewrite app_length. lia.
  - unfold update_target_for_population. rewrite Em. apply counted_ret.
Qed.
Ltac counted := repeat first
  [ apply counted_ret | apply counted_raise | apply counted_tick | apply counted_get_pop | apply counted_get
  | apply counted_get_x | apply counted_set_x | apply counted_get_gb | apply counted_set_pop | apply counted_set_gb | apply counted_set_gw
  | apply counted_set_hist | apply counted_lift | apply counted_get_target | apply counted_update_target
  | apply counted_bind; [|intros ?] | apply counted_for_acc; intros ? ? | apply counted_for_list; intros ? ?
  | apply counted_when ].
Lemma counted_generate_population {A X} E md (ga : M A X (agent A)) n : md <> Process -> counted ga ->
  counted (generate_population_with E md ga n).
Proof.
  intros Hm Hg. unfold generate_population_with, repeat_M. destruct md; try congruence; counted; exact Hg.
Qed.
Lemma counted_plain_ga {A X} P (dflt : A) x : @counted A X _ (generate_agent_with P (generate_empty_agent P dflt) x).
Proof. unfold generate_agent_with, generate_empty_agent. destruct x; counted. Qed.
Lemma counted_update_gb {A X} E P p : @counted A X _ (update_global_best_agent E P p).
Proof. unfold update_global_best_agent. apply counted_bind; [counted|]. intros [? ?]. counted. Qed.
Lemma counted_update_gb_nosave {A X} E P p : @counted A X _ (update_global_best_agent_nosave E P p).
Proof. unfold update_global_best_agent_nosave. apply counted_bind; [counted|]. intros [? ?]. counted. Qed.

Lemma counted_epoch_step {A X} E P (al : @algo A X) tm ep : counted (al_evolve al ep) -> counted (epoch_step E P al tm ep).
Proof.
  intros H. unfold epoch_step. apply counted_bind; [counted|intros k]. apply counted_bind; [exact H|intros _].
  apply counted_bind; [counted|intros p]. apply counted_bind; [apply counted_update_gb|intros [sp gb]].
  unfold track_optimize_step, check_termination_end. counted. destruct tm; counted.
Qed.
Lemma counted_main_loop {A X} E P (al : @algo A X) tm n i : (forall ep, counted (al_evolve al ep)) -> counted (main_loop E P al tm n i).
Proof.
  intros H. revert i. induction n as [|n IH]; intros i; simpl; [apply counted_ret|].
  apply counted_bind; [apply counted_epoch_step; apply H|]. intros [r|]; [apply counted_ret|apply IH].
Qed.

Lemma collect_length {A X T B} (l : list T) (m : T -> M A X B) acc s r s' :
  for_list l acc (fun x acc => a <- m x ;; ret (acc ++ [a])) s = Ok (r, s') -> List.length r = List.length acc + List.length l.
Proof.
  revert acc s; induction l as [|x l IH]; intros acc s H; simpl in H.
  - inversion H; subst. simpl. lia.
  - unfold bindM at 1 2 in H. destruct (m x s) as [[a s1]|]; [|discriminate]. unfold ret at 1 in H.
    apply IH in H. rewrite app_length in H. simpl in *. lia.
Qed.

(** A whole run: with a termination the counter ends at the number of objective calls of this run, without one it
    adds to what it held; in process mode the calls for a generated initial population are missing. *)
Theorem C21_counter : forall (A X : Type) E P md (dflt : A) (al : @algo A X) tm starting s g s',
  default_start E P md dflt al -> 0 < al_pop_size al -> counted (al_before_main al) -> (forall ep, counted (al_evolve al ep)) ->
  solve E P md al tm starting s = Ok (g, s') ->
  s_nfe s' + (match md, starting with Process, None => al_pop_size al | _, _ => 0 end)
  = (match tm with Some _ => 0 | None => s_nfe s end) + List.length (s_log s').
Proof.
  intros A X E P md dflt al tm starting s g s' (D1 & D2 & D3 & D4) Hp Hb He H.
  unfold solve in H. unfold bindM at 1 in H. unfold check_problem in H at 1.
  set (s0 := mkSt [] None None hist_new (s_nfe s) 0 [] (s_x s)) in H.
  unfold bindM at 1 in H. destruct (check_termination_start E tm s0) as [[tm' s1]|] eqn:E1; [|discriminate].
  assert (F1 : s_pop s1 = [] /\ s_log s1 = [] /\ s_nfe s1 = match tm with Some _ => 0 | None => s_nfe s end).
  { unfold check_termination_start in E1. destruct tm; inversion E1; subst; simpl; auto. }
  destruct F1 as (F1 & F2 & F3).
  unfold bindM at 1 in H. rewrite D3 in H. unfold ret at 1 in H.
  unfold bindM at 1 in H. destruct (before_initialization P md al starting s1) as [[[] s2]|] eqn:E2; [|discriminate].
  unfold bindM at 1 in H. destruct (al_init al s2) as [[[] s3]|] eqn:E3; [|discriminate].
  assert (INIT : s_nfe s3 + (match md, starting with Process, None => al_pop_size al | _, _ => 0 end)
    = (match tm with Some _ => 0 | None => s_nfe s end) + List.length (s_log s3)).
  { rewrite D4 in E3. unfold default_initialization, bindM at 1, get_pop in E3.
    destruct starting as [rows|].
    - assert (C : counted (before_initialization P md al (Some rows))).
      { unfold before_initialization. destruct (_ =? _); [|counted]. destruct rows as [|r0 r]; [counted|].
        destruct (_ =? _); [|counted]. destruct (is_avail md).
        - rewrite D1. unfold generate_empty_agent. counted.
        - rewrite D2, D1. apply counted_bind; [|intros; counted]. apply counted_for_list. intros. apply counted_bind; [apply counted_plain_ga|intros; counted]. }
      specialize (C _ _ _ E2). rewrite F2, F3 in C. simpl in C.
      assert (N2 : s_pop s2 <> []).
      { unfold before_initialization in E2. destruct (List.length rows =? al_pop_size al) eqn:El; [|discriminate].
        apply Nat.eqb_eq in El. destruct rows as [|r0 r]; [simpl in El; lia|]. destruct (_ =? _) eqn:El2; [|discriminate].
        destruct (is_avail md) eqn:Em.
        - rewrite D1 in E2. unfold bindM at 1 in E2.
          destruct (for_list (r0 :: r) [] _ s1) as [[l sx]|] eqn:EL; [|discriminate].
          pose proof (collect_length _ _ _ _ _ _ EL) as HL. simpl in HL.
          unfold bindM at 1, set_pop at 1 in E2. unfold bindM in E2.
          match type of E2 with match ?m with _ => _ end = _ => destruct m as [[l' sy]|] eqn:EU; [|discriminate] end.
          assert (W : forall s4 : st A X, wp (update_target_for_population P md l) (fun l' _ => List.length l' = List.length l) s4).
          { intros s4. apply wp_update_target_avail; [exact Em|]. intros l1 ->. apply map_length. }
          match type of EU with _ ?st = _ => specialize (W st) end. unfold wp in W. rewrite EU in W.
          inversion E2; subst. simpl. intros ->. simpl in W. lia.
        - rewrite D2, D1 in E2. unfold bindM at 1 in E2.
          destruct (for_list (r0 :: r) [] _ s1) as [[l sx]|] eqn:EL; [|discriminate].
          pose proof (collect_length _ _ _ _ _ _ EL) as HL. simpl in HL.
          inversion E2; subst. simpl. intros ->. discriminate. }
      destruct (s_pop s2) as [|a p] eqn:Ep; [congruence|]. inversion E3; subst. destruct md; lia.
    - inversion E2; subst. rewrite F1 in E3.
      destruct md; try (
        match type of E3 with bindM ?m _ _ = _ => assert (C : counted (bindM m (fun l => set_pop l)))
          by (apply counted_bind; [apply counted_generate_population; [congruence|rewrite D2, D1; apply counted_plain_ga]|intros; counted]) end;
        specialize (C _ _ _ E3); rewrite F2, F3 in C; simpl in C; lia).
      rewrite D2, D1 in E3. unfold bindM in E3.
      destruct (C19_process_identical A X E P dflt (al_pop_size al) s2) as (x & sp & Ep & Hn & Hl).
      rewrite Ep in E3. inversion E3; subst. simpl. rewrite Hn, Hl, F2, F3. simpl. lia. }
  assert (REST : counted (after_initialization E P (al_sort al) ;;; al_before_main al ;;; main_loop E P al tm' (al_epoch al) 1 ;;; track_optimize_process ;;; get_gb)).
  { apply counted_bind; [|intros _].
    - unfold after_initialization. apply counted_bind; [counted|intros p]. apply counted_bind; [counted|intros [[? ?] ?]]. counted.
    - apply counted_bind; [exact Hb|intros _]. apply counted_bind; [apply counted_main_loop; exact He|intros _].
      unfold track_optimize_process. counted. destruct (h_div (s_hist y)); counted. }
  specialize (REST _ _ _ H). lia.
Qed.
(** Thread mode: for every schedule in which all [n] calls finish, the counter grew by at most [n] and, if there was
    a call at all, by at least one; at no moment does it exceed the number of finished calls. *)
Definition is_done (t : thread) : bool := match t with Done => true | _ => false end.
Lemma count_upd_done ts i t : nth_error ts i = Some t -> is_done t = false ->
  List.length (filter is_done (upd ts i Done)) = S (List.length (filter is_done ts)).
Proof.
  revert i; induction ts as [|x ts IH]; intros [|i] H Hd; simpl in *; try discriminate.
  - inversion H; subst. rewrite Hd. reflexivity.
  - destruct (is_done x); simpl; rewrite (IH i); auto.
Qed.
Lemma count_upd_other ts i t v : nth_error ts i = Some t -> is_done t = false ->
  List.length (filter is_done (upd ts i (Loaded v))) = List.length (filter is_done ts).
Proof.
  revert i; induction ts as [|x ts IH]; intros [|i] H Hd; simpl in *; try discriminate.
  - inversion H; subst. rewrite Hd. reflexivity.
  - destruct (is_done x); simpl; rewrite (IH i); auto.
Qed.
Theorem C21_thread_never_overcounts : forall c0 n sched, let s := run_threads c0 n sched in
  let finished := List.length (filter is_done (sh_thr s)) in
  sh_ctr s <= c0 + finished /\ (0 < finished -> c0 < sh_ctr s) /\ c0 <= sh_ctr s /\ finished <= n.
Proof.
  intros c0 n sched. unfold run_threads. cbv zeta.
  assert (G : forall sched s, let k s := List.length (filter is_done (sh_thr s)) in
     (sh_ctr s <= c0 + k s /\ (0 < k s -> c0 < sh_ctr s) /\ c0 <= sh_ctr s /\ List.length (sh_thr s) = n /\
      forall v, In (Loaded v) (sh_thr s) -> c0 <= v <= c0 + k s) ->
     let s' := fold_left thread_step sched s in
     (sh_ctr s' <= c0 + k s' /\ (0 < k s' -> c0 < sh_ctr s') /\ c0 <= sh_ctr s' /\ List.length (sh_thr s') = n /\
      forall v, In (Loaded v) (sh_thr s') -> c0 <= v <= c0 + k s')).
  { clear. induction sched as [|i sched IH]; intros s k H; simpl; [exact H|]. apply IH. clear IH. subst k. cbv beta in *.
    destruct H as (H1 & H2 & H3 & H4 & H5). unfold thread_step. destruct (nth_error (sh_thr s) i) as [[|v|]|] eqn:E; auto.
    - simpl. rewrite (count_upd_other _ _ _ _ E eq_refl), upd_length. split; [exact H1|]. split; [exact H2|]. split; [exact H3|]. split; [exact H4|]. intros v H.
      apply upd_In in H. destruct H as [H|H]; [inversion H; subst; lia|apply H5 in H; lia].
    - simpl. rewrite (count_upd_done _ _ _ E eq_refl), upd_length.
      assert (c0 <= v <= c0 + List.length (filter is_done (sh_thr s))) by (apply H5; eapply nth_error_In; eauto).
      split; [lia|]. split; [lia|]. split; [lia|]. split; [exact H4|]. intros w Hw.
      apply upd_In in Hw; destruct Hw as [Hw|Hw]; [discriminate|]; apply H5 in Hw; lia. }
  specialize (G sched (mkShared c0 (repeat Todo n))). simpl in G.
  assert (Z : filter is_done (repeat Todo n) = []) by (clear; induction n; simpl; auto).
  rewrite Z in G. simpl in G.
  destruct G as (G1 & G2 & G3 & G4 & G5).
  - repeat split; try lia; auto using repeat_length; apply repeat_spec in H; discriminate.
  - split; [exact G1|]. split; [exact G2|]. split; [exact G3|]. 
    assert (F : forall l, List.length (filter is_done l) <= List.length l)
      by (induction l as [|t l IH]; simpl; [lia|]; destruct (is_done t); simpl; lia).
    eapply Nat.le_trans; [apply F|]. rewrite G4. lia.
Qed.
(** Increments can be lost: all calls load before any stores. *)
Theorem C21_thread_lost_refuted : exists sched, sh_thr (run_threads 0 3 sched) = [Done; Done; Done] /\ sh_ctr (run_threads 0 3 sched) = 1.
Proof. exists [0; 1; 2; 0; 1; 2]. split; reflexivity. Qed.

(** ** Examples *)
Example C18_example : default_start demo_env (demo_prob Min sphere true) Swarm tt (random_search demo_env (demo_prob Min sphere true) Swarm 3 2 true)
  /\ fresh (A := unit) (st0 tt).
Proof. repeat split. Qed.
Example C21_example : forall ep, counted (al_evolve (random_search demo_env (demo_prob Min sphere true) Swarm 3 2 true) ep).
Proof. intros ep. cbn [random_search plain_algo al_evolve]. apply counted_bind; [apply counted_generate_population; [discriminate|apply counted_plain_ga]|intros; counted]. Qed.
Example C21_example_run : match solve demo_env (demo_prob Min sphere true) Swarm (random_search demo_env (demo_prob Min sphere true) Swarm 3 4 true) None None (st0 tt) with
  | Ok (_, s') => s_nfe s' = 1 + List.length (s_log s') /\ List.length (s_log s') = 15 | Err _ => False end.
Proof. vm_compute. auto. Qed.

Print Assumptions C18_starting_used_exactly.
Print Assumptions C18_rejected.
Print Assumptions C18_unchecked_refuted.
Print Assumptions C19_initial_population.
Print Assumptions C19_thread_order_irrelevant.
Print Assumptions C19_process_identical.
Print Assumptions C20_update_target.
Print Assumptions C20_single_noop.
Print Assumptions C20_any_schedule.
Print Assumptions C21_counter.
Print Assumptions C21_thread_never_overcounts.
Print Assumptions C21_thread_lost_refuted.
