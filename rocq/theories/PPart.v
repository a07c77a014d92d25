(** Partial-correctness rules (the call may raise), used to show algorithms [tame]. *)
From Verif Require Import Prelude Fl MCore SpecCore SpecRun PSelect PLogic PSolve PRun PAny.

Definition pc {A X Y} (m : M A X Y) (Q : Y -> st A X -> Prop) (s : st A X) : Prop :=
  forall y s', m s = Ok (y, s') -> Q y s'.

Section Rules.
Context {A X : Type}.
Implicit Types s : st A X.

Lemma pc_mono {Y} (m : M A X Y) (Q Q' : Y -> st A X -> Prop) s :
  pc m Q s -> (forall y s', Q y s' -> Q' y s') -> pc m Q' s.
Proof. unfold pc; eauto. Qed.
Lemma pc_wp {Y} (m : M A X Y) (Q : Y -> st A X -> Prop) s : wp m Q s -> pc m Q s.
Proof. unfold wp, pc. intros H y s' E. rewrite E in H. exact H. Qed.
Lemma pc_ret {Y} (y : Y) (Q : Y -> st A X -> Prop) s : Q y s -> pc (ret y) Q s.
Proof. intros H y' s' E. inversion E; subst; exact H. Qed.
Lemma pc_raise {Y} e (Q : Y -> st A X -> Prop) s : pc (raise e) Q s.
Proof. intros y' s' E. discriminate. Qed.
Lemma pc_bind {Y Z} (m : M A X Y) (f : Y -> M A X Z) Q s :
  pc m (fun y s' => pc (f y) Q s') s -> pc (bindM m f) Q s.
Proof. unfold pc, bindM. intros H y s' E. destruct (m s) as [[y1 s1]|e] eqn:Em; [|discriminate]. eapply H; eauto. Qed.
Lemma pc_lift {Y} (r : res Y) (Q : Y -> st A X -> Prop) s : (forall y, r = Ok y -> Q y s) -> pc (lift r) Q s.
Proof. intros H y s' E. unfold lift in E. destruct r as [y0|e]; [|discriminate]. inversion E; subst. auto. Qed.
Lemma pc_when b (m : M A X unit) Q s : (b = true -> pc m Q s) -> (b = false -> Q tt s) -> pc (when b m) Q s.
Proof. destruct b; simpl; intros H1 H2; [apply H1; reflexivity|apply pc_ret, H2; reflexivity]. Qed.
Lemma pc_for_acc {B} n i (b : B) body (I : B -> st A X -> Prop) s :
  I b s -> (forall k b' s', I b' s' -> pc (body k b') I s') -> pc (for_acc n i b body) I s.
Proof.
  revert i b s; induction n as [|n IH]; intros i b s HI Hb; simpl; [apply pc_ret; exact HI|].
  apply pc_bind. eapply pc_mono; [apply Hb; exact HI|]. intros y s' Hy. apply IH; auto.
Qed.
Lemma pc_for_list {B T} (l : list T) (b : B) body (I : B -> st A X -> Prop) s :
  I b s -> (forall x b' s', I b' s' -> pc (body x b') I s') -> pc (for_list l b body) I s.
Proof.
  revert b s; induction l as [|x l IH]; intros b s HI Hb; simpl; [apply pc_ret; exact HI|].
  apply pc_bind. eapply pc_mono; [apply Hb; exact HI|]. intros y s' Hy. apply IH; auto.
Qed.
Lemma pc_tick (Q : nat -> st A X -> Prop) s : (forall k, Q k (bump s (S k))) -> pc tick Q s.
Proof. intros H. apply pc_wp, wp_tick, H. Qed.
Lemma pc_get (Q : st A X -> st A X -> Prop) s : Q s s -> pc get Q s.
Proof. intros H. apply pc_wp, wp_get, H. Qed.
Lemma pc_get_pop (Q : list (agent A) -> st A X -> Prop) s : Q (s_pop s) s -> pc get_pop Q s.
Proof. intros H. apply pc_wp, wp_get_pop, H. Qed.
Lemma pc_set_pop p (Q : unit -> st A X -> Prop) s : Q tt (with_pop s p) -> pc (set_pop p) Q s.
Proof. intros H y s' E. inversion E; subst. exact H. Qed.
End Rules.

Section Init.
Context {A X : Type}.
Variable E : env.
Variable P : problem.
Variable md : mode.

(** History untouched, population agents proper. *)
Definition same_hist (h : history A) (s : st A X) : Prop := s_hist s = h /\ Forall proper (s_pop s).

Lemma proper_with_tgt (a : agent A) x : proper (with_tgt a (prob_target P x)).
Proof. exists (prob_target P x). split; reflexivity. Qed.

(** An agent generator that only draws and evaluates. *)
Definition tame_ga (ga : M A X (agent A)) : Prop :=
  forall h s, same_hist h s -> pc ga (fun a s' => same_hist h s' /\ proper a) s.

Lemma plain_tame_ga dflt x : tame_ga (generate_agent_with P (generate_empty_agent P dflt) x).
Proof.
  intros h s H. unfold generate_agent_with. apply pc_bind. unfold generate_empty_agent. destruct x as [x|].
  - apply pc_ret, pc_bind. intros t s' Ht. inversion Ht; subst. apply pc_ret.
    split; [split; [exact (proj1 H)|exact (proj2 H)]|apply proper_with_tgt].
  - apply pc_bind, pc_tick. intros k. apply pc_ret, pc_bind. intros t s' Ht. inversion Ht; subst. apply pc_ret.
    split; [split; [exact (proj1 H)|exact (proj2 H)]|apply proper_with_tgt].
Qed.

Lemma reorder_Forall {T} (Q : T -> Prop) ord (l : list T) : Forall Q l -> Forall Q (reorder ord l).
Proof.
  intros H. eapply Permutation_Forall; [|exact H]. symmetry. apply reorder_perm.
Qed.

Lemma generate_population_tame ga n : tame_ga ga -> forall h s, same_hist h s ->
  pc (generate_population_with E md ga n) (fun l s' => same_hist h s' /\ Forall proper l) s.
Proof.
  intros HG h s H.
  assert (R : forall (m : M A X (agent A)) s, tame_ga m -> same_hist h s ->
            pc (repeat_M n m) (fun l s' => same_hist h s' /\ Forall proper l) s).
  { intros m s1 Hm H1. unfold repeat_M. apply pc_for_acc with (I := fun l s' => same_hist h s' /\ Forall proper l).
    - split; [exact H1|constructor].
    - intros _ l s2 [H2 H3]. apply pc_bind. eapply pc_mono; [apply Hm; exact H2|].
      intros a s3 [H4 H5]. apply pc_ret. split; [exact H4|]. apply Forall_app. auto. }
  assert (C : tame_ga (in_child ga)).
  { intros h' s' H' a s2 Ea. unfold in_child in Ea. destruct (ga s') as [[a1 s1]|e] eqn:Eg; [|discriminate].
    inversion Ea; subst. destruct (HG h' s' H' a s1 Eg) as [_ Q]. split; [|exact Q]. exact H'. }
  unfold generate_population_with. destruct md.
  - apply R; assumption.
  - apply R; assumption.
  - apply pc_bind, pc_tick. intros k. apply pc_bind. eapply pc_mono; [apply R; [exact HG|exact H]|].
    intros l s' [H1 H2]. apply pc_ret. split; [exact H1|apply reorder_Forall; exact H2].
  - apply pc_bind, pc_tick. intros k. apply pc_bind. eapply pc_mono; [apply R; [exact C|exact H]|].
    intros l s' [H1 H2]. apply pc_ret. split; [exact H1|apply reorder_Forall; exact H2].
Qed.

Lemma update_target_tame (p : list (agent A)) h s : (is_avail md = false -> Forall proper p) -> same_hist h s ->
  pc (update_target_for_population P md p) (fun l s' => same_hist h s' /\ Forall proper l) s.
Proof.
  intros HP H. unfold update_target_for_population. destruct (is_avail md) eqn:Em; [|apply pc_ret; auto].
  apply pc_bind. eapply pc_mono.
  - apply pc_for_list with (I := fun l s' => same_hist h s' /\ Forall proper l).
    + split; [exact H|constructor].
    + intros a l s' [H1 H2]. apply pc_bind. intros t s'' Et. inversion Et; subst. apply pc_ret.
      split; [exact H1|]. apply Forall_app; split; [exact H2|constructor; [apply proper_with_tgt|constructor]].
  - intros l s' [H1 H2]. apply pc_bind. intros u s'' Eu. inversion Eu; subst. apply pc_ret. split; [exact H1|exact H2].
Qed.

(** Every algorithm with default initialization whose evolve keeps the history and leaves proper agents is tame. *)
Lemma default_tame al dflt starting :
  al_gea al = generate_empty_agent P dflt -> al_ga al = generate_agent_with P (al_gea al) ->
  al_init al = default_initialization E md (al_ga al) (al_pop_size al) ->
  al_init_vars al = ret tt -> al_before_main al = ret tt ->
  (forall ep h s, same_hist h s -> pc (al_evolve al ep) (fun _ s' => same_hist h s') s) ->
  tame P md al starting.
Proof.
  intros H1 H2 H3 H4 H5 HE. constructor.
  - intros s u s' (F1 & F2 & F3 & F4 & F5) H.
    assert (S0 : same_hist hist_new s) by (split; [exact F5|rewrite F1; constructor]).
    revert u s' H.
    change (pc (al_init_vars al;;; before_initialization P md al starting;;; al_init al) (fun _ s' => same_hist hist_new s') s).
    apply pc_bind. rewrite H4. apply pc_ret. apply pc_bind.
    assert (B : pc (before_initialization P md al starting) (fun _ s' => same_hist hist_new s') s).
    { unfold before_initialization. destruct starting as [rows|]; [|apply pc_ret; exact S0].
      destruct (List.length rows =? al_pop_size al); [|apply pc_raise].
      destruct rows as [|r0 rows]; [apply pc_raise|]. destruct (List.length r0 =? n_dims P); [|apply pc_raise].
      destruct (is_avail md) eqn:Em.
      - rewrite H1. apply pc_bind. eapply pc_mono.
        + apply pc_for_list with (I := fun (l : list (agent A)) s' => same_hist hist_new s'); [exact S0|].
          intros x l s' Hs. apply pc_bind. simpl. apply pc_ret, pc_ret. exact Hs.
        + intros l s' Hs. apply pc_bind, pc_set_pop, pc_bind.
          intros l' s'' El.
          assert (K : s_hist s'' = hist_new /\ Forall proper l').
          { unfold update_target_for_population in El. rewrite Em in El. revert l' s'' El.
            change (pc (l0 <- for_list l [] (fun a acc => t <- get_target_uncounted P (sol a);; ret (acc ++ [with_tgt a t]));;
                        add_nfe (List.length l) ;;; ret l0) (fun l' s'' => s_hist s'' = hist_new /\ Forall proper l') (with_pop s' l)).
            apply pc_bind. eapply pc_mono.
            - apply pc_for_list with (I := fun (l : list (agent A)) s' => s_hist s' = hist_new /\ Forall proper l).
              + split; [exact (proj1 Hs)|constructor].
              + intros a l1 s1 [Q1 Q2]. apply pc_bind. intros t s2 Et. inversion Et; subst. apply pc_ret.
                split; [exact Q1|]. apply Forall_app; split; [exact Q2|constructor; [apply proper_with_tgt|constructor]].
            - intros l1 s1 [Q1 Q2]. apply pc_bind. intros u2 s2 Eu. inversion Eu; subst. apply pc_ret. auto. }
          apply pc_set_pop. split; [exact (proj1 K)|exact (proj2 K)].
      - rewrite H2, H1. apply pc_bind. eapply pc_mono.
        + apply pc_for_list with (I := fun (l : list (agent A)) s' => same_hist hist_new s' /\ Forall proper l).
          * split; [exact S0|constructor].
          * intros x l s' [Q1 Q2]. apply pc_bind. eapply pc_mono; [apply plain_tame_ga; exact Q1|].
            intros a s2 [Q3 Q4]. apply pc_ret. split; [exact Q3|apply Forall_app; auto].
        + intros l s' [Q1 Q2]. apply pc_set_pop. split; [exact (proj1 Q1)|exact Q2]. }
    eapply pc_mono; [exact B|]. intros [] s1 S1. rewrite H3. unfold default_initialization.
    apply pc_bind, pc_get_pop. destruct (s_pop s1) as [|a p] eqn:Ep.
    + apply pc_bind. eapply pc_mono.
      * apply (generate_population_tame (al_ga al None)); [rewrite H2, H1; apply plain_tame_ga|exact S1].
      * intros l s2 [Q1 Q2]. apply pc_set_pop. split; [exact (proj1 Q1)|exact Q2].
    + apply pc_ret. exact S1.
  - intros s u s' H. rewrite H5 in H. inversion H; subst. auto.
  - intros ep s u s' HP H. exact (HE ep (s_hist s) s (conj eq_refl HP) u s' H).
Qed.

End Init.
