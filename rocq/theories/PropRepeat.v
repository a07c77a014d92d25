(** C50: what of an earlier run can influence a later one on the same optimizer. *)
From Verif Require Import Prelude Fl MCore SpecCore SpecRun Demo.

(** [m] re-initialises the algorithm's own attributes: what they were before makes no difference. *)
Definition resets {A X} (m : M A X unit) : Prop :=
  forall p gb gw h nfe ctr log x y, m (mkSt p gb gw h nfe ctr log x) = m (mkSt p gb gw h nfe ctr log y).

(** With a termination: same problem, parameters and seed (environment) give the same result and the same final
    state, whatever was run before. *)
Theorem C50_repeat_with_termination : forall A X E P md (al : @algo A X) t starting (s1 s2 : st A X),
  resets (al_init_vars al) -> solve E P md al (Some t) starting s1 = solve E P md al (Some t) starting s2.
Proof.
  intros A X E P md al t starting s1 s2 H. unfold solve, bindM at 1 11, check_problem, bindM at 1 10, check_termination_start.
  unfold bindM at 1 2 12 13, set_nfe, tick, ret. cbn [s_pop s_gb s_gw s_hist s_nfe s_ctr s_log s_x].
  unfold bindM at 1 9. rewrite (H [] None None hist_new 0 1 [] (s_x s1) (s_x s2)). reflexivity.
Qed.

(** Without a termination the evaluation counter goes on from the previous run. *)
Definition later {A X} (k : nat) (s : st A X) : st A X :=
  mkSt (s_pop s) (s_gb s) (s_gw s) (s_hist s) (s_nfe s + k) (s_ctr s) (s_log s) (s_x s).
(** [m] does not look at the evaluation counter, only adds to it. *)
Definition blind {A X Y} (m : M A X Y) : Prop :=
  forall k s, m (later k s) = match m s with Ok (y, s') => Ok (y, later k s') | Err e => Err e end.

Section Blind.
Context {A X : Type}.
Lemma blind_ret {Y} (y : Y) : blind (A := A) (X := X) (ret y).
Proof. intros k s. reflexivity. Qed.
Lemma blind_raise {Y} e : blind (A := A) (X := X) (Y := Y) (raise e).
Proof. intros k s. reflexivity. Qed.
Lemma blind_bind {Y Z} (m : M A X Y) (f : Y -> M A X Z) : blind m -> (forall y, blind (f y)) -> blind (bindM m f).
Proof. intros H1 H2 k s. unfold bindM. rewrite H1. destruct (m s) as [[y s']|e]; [apply H2|reflexivity]. Qed.
Lemma blind_lift {Y} (r : res Y) : blind (A := A) (X := X) (lift r).
Proof. intros k s. unfold lift. destruct r; reflexivity. Qed.
Lemma blind_get {Y} (f : st A X -> M A X Y) : (forall k s, f (later k s) = f s) -> (forall s, blind (f s)) -> blind (bindM get f).
Proof. intros H1 H2 k s. unfold bindM, get. rewrite H1. apply H2. Qed.
Lemma blind_get_pop : blind (A := A) (X := X) get_pop. Proof. intros k s. reflexivity. Qed.
Lemma blind_set_pop p : blind (A := A) (X := X) (set_pop p). Proof. intros k s. reflexivity. Qed.
Lemma blind_set_gb p : blind (A := A) (X := X) (set_gb p). Proof. intros k s. reflexivity. Qed.
Lemma blind_set_gw p : blind (A := A) (X := X) (set_gw p). Proof. intros k s. reflexivity. Qed.
Lemma blind_set_hist p : blind (A := A) (X := X) (set_hist p). Proof. intros k s. reflexivity. Qed.
Lemma blind_set_x p : blind (A := A) (X := X) (set_x p). Proof. intros k s. reflexivity. Qed.
Lemma blind_get_x : blind (A := A) (X := X) get_x. Proof. intros k s. reflexivity. Qed.
Lemma blind_get_gb : blind (A := A) (X := X) get_gb. Proof. intros k s. unfold get_gb. simpl. destruct (s_gb s); reflexivity. Qed.
Lemma blind_tick : blind (A := A) (X := X) tick. Proof. intros k s. reflexivity. Qed.
Lemma blind_add_nfe n : blind (A := A) (X := X) (add_nfe n).
Proof. intros k s. unfold add_nfe, later. cbn [s_pop s_gb s_gw s_hist s_nfe s_ctr s_log s_x]. replace (s_nfe s + k + n) with (s_nfe s + n + k) by lia. reflexivity. Qed.
Lemma blind_add_log l : blind (A := A) (X := X) (add_log l). Proof. intros k s. reflexivity. Qed.
Lemma blind_when b (m : M A X unit) : blind m -> blind (when b m).
Proof. intros H. destruct b; [exact H|apply blind_ret]. Qed.
Lemma blind_for_acc {B} n i (b : B) body : (forall j b, blind (body j b)) -> blind (A := A) (X := X) (for_acc n i b body).
Proof. intros H. revert i b. induction n as [|n IH]; intros i b; simpl; [apply blind_ret|]. apply blind_bind; auto. Qed.
Lemma blind_for_list {B T} (l : list T) (b : B) body : (forall j b, blind (body j b)) -> blind (A := A) (X := X) (for_list l b body).
Proof. intros H. revert b. induction l as [|x l IH]; intros b; simpl; [apply blind_ret|]. apply blind_bind; auto. Qed.
Lemma blind_in_child {Y} (m : M A X Y) : blind m -> blind (in_child m).
Proof. intros H k s. unfold in_child. rewrite H. destruct (m s) as [[y s']|e]; reflexivity. Qed.
End Blind.
Ltac bstep :=
  match goal with
  | |- blind ?m => first [ assumption | lazymatch m with
    | ret _ => apply blind_ret | raise _ => apply blind_raise | lift _ => apply blind_lift
    | get_pop => apply blind_get_pop | set_pop _ => apply blind_set_pop | set_gb _ => apply blind_set_gb
    | set_gw _ => apply blind_set_gw | set_hist _ => apply blind_set_hist | set_x _ => apply blind_set_x
    | get_x => apply blind_get_x | get_gb => apply blind_get_gb | tick => apply blind_tick
    | add_nfe _ => apply blind_add_nfe | add_log _ => apply blind_add_log
    | when _ _ => apply blind_when | for_acc _ _ _ _ => apply blind_for_acc; intros ? ?
    | for_list _ _ _ => apply blind_for_list; intros ? ? | in_child _ => apply blind_in_child
    | bindM get _ => apply blind_get; [intros; reflexivity|intros ?]
    | bindM _ _ => apply blind_bind; [|intros ?]
    | match ?x with _ => _ end => destruct x
    | (let _ := _ in _) => cbv zeta
    end ]
  end.
Ltac blind_tac := repeat bstep.

Section Solve.
Context {A X : Type}.
Variable E : env.
Variable P : problem.
Variable md : mode.
Lemma blind_get_target x : blind (A := A) (X := X) (get_target P x).
Proof. unfold get_target. blind_tac. Qed.
Lemma blind_update_target p : blind (A := A) (X := X) (update_target_for_population P md p).
Proof. unfold update_target_for_population, get_target_uncounted. blind_tac. Qed.
Lemma blind_before_initialization (al : @algo A X) st : (forall x, blind (al_gea al x)) -> (forall x, blind (al_ga al x)) ->
  blind (before_initialization P md al st).
Proof. intros H1 H2. unfold before_initialization. pose proof blind_update_target. blind_tac; auto. Qed.
Lemma blind_after_initialization b : blind (A := A) (X := X) (after_initialization E P b).
Proof. unfold after_initialization. blind_tac. Qed.
Lemma blind_epoch_step (al : @algo A X) i : (forall e, blind (al_evolve al e)) -> blind (epoch_step E P al None i).
Proof.
  intros H. unfold epoch_step, update_global_best_agent, track_optimize_step, check_termination_end. blind_tac; auto.
Qed.
Lemma blind_main_loop (al : @algo A X) n i : (forall e, blind (al_evolve al e)) -> blind (main_loop E P al None n i).
Proof.
  intros H. revert i. induction n as [|n IH]; intros i; cbn [main_loop]; [apply blind_ret|].
  apply blind_bind; [apply blind_epoch_step; exact H|]. intros [r|]; [apply blind_ret|apply IH].
Qed.
End Solve.

(** The parts of an algorithm do not look at the counter.  True of every algorithm of the library except MSO
    (MSO.py:99,108,153). *)
Record blind_algo {A X} (al : @algo A X) : Prop := mkBlind {
  ba_gea : forall x, blind (al_gea al x); ba_ga : forall x, blind (al_ga al x); ba_vars : blind (al_init_vars al);
  ba_init : blind (al_init al); ba_before : blind (al_before_main al); ba_evolve : forall e, blind (al_evolve al e) }.
Theorem C50_repeat_without_termination : forall A X E P md (al : @algo A X) starting (s1 s2 : st A X) g s',
  resets (al_init_vars al) -> blind_algo al -> s_nfe s1 <= s_nfe s2 ->
  solve E P md al None starting s1 = Ok (g, s') ->
  solve E P md al None starting s2 = Ok (g, later (s_nfe s2 - s_nfe s1) s').
Proof.
  intros A X E P md al starting s1 s2 g s' HR HB Hn H.
  set (body := al_init_vars al ;;; before_initialization P md al starting ;;; al_init al ;;; after_initialization E P (al_sort al) ;;;
     al_before_main al ;;; main_loop E P al None (al_epoch al) 1 ;;; track_optimize_process ;;; get_gb).
  assert (S : forall s, solve E P md al None starting s = body (mkSt [] None None hist_new (s_nfe s) 0 [] (s_x s))) by reflexivity.
  rewrite S in H. rewrite S.
  assert (B : blind body).
  { unfold body, track_optimize_process. pose proof (ba_vars _ HB). pose proof (ba_init _ HB). pose proof (ba_before _ HB).
    assert (forall b, blind (A := A) (X := X) (after_initialization E P b)) by apply blind_after_initialization.
    assert (blind (main_loop E P al None (al_epoch al) 1)) by (apply blind_main_loop; apply HB).
    assert (blind (before_initialization P md al starting)) by (apply blind_before_initialization; apply HB).
    blind_tac; auto. }
  assert (Q : body (mkSt [] None None hist_new (s_nfe s2) 0 [] (s_x s2)) = body (later (s_nfe s2 - s_nfe s1) (mkSt [] None None hist_new (s_nfe s1) 0 [] (s_x s1)))).
  { unfold later. cbn [s_pop s_gb s_gw s_hist s_nfe s_ctr s_log s_x]. replace (s_nfe s1 + (s_nfe s2 - s_nfe s1)) with (s_nfe s2) by lia.
    unfold body. unfold bindM at 1 8. rewrite (HR [] None None hist_new (s_nfe s2) 0 [] (s_x s2) (s_x s1)). reflexivity. }
  rewrite Q. specialize (B (s_nfe s2 - s_nfe s1) (mkSt [] None None hist_new (s_nfe s1) 0 [] (s_x s1))). rewrite H in B. exact B.
Qed.

(** The hypotheses hold for a random search run after other runs. *)
Example C50_case : blind_algo (random_search demo_env (demo_prob Min sphere false) Single 3 4 false) /\ resets (A := unit) (X := unit) (al_init_vars (random_search demo_env (demo_prob Min sphere false) Single 3 4 false)).
Proof.
  split; [|unfold resets; intros; destruct x, y; reflexivity].
  constructor; intros; unfold random_search; cbn [al_gea al_ga al_init_vars al_init al_before_main al_evolve plain_algo]; 
  unfold generate_empty_agent, generate_agent_with, default_initialization, generate_population_with, repeat_M, get_target; blind_tac.
Qed.

Print Assumptions C50_repeat_with_termination.
Print Assumptions C50_repeat_without_termination.
