(** Segments of an epoch between updates of the best solution. *)
From Verif Require Import Prelude Fl MCore MHelp MAlg MAlg8 SpecCore SpecRun SpecAlg SpecSave PSelect PLogic PSolve PRun PAlg PFree PSave.

Section Seg.
Context {A X : Type}.
Variable E : env.
Variable P : problem.
Variable feas : vec -> Prop.
Variable attok : list vec -> A -> Prop.
Variable IX : list vec -> X -> Prop.
Variable cov : Prop.
Variables nd n0 n : nat.
Hypothesis HP : params E P feas attok cov.
Hypothesis Hn : 0 < n.

Notation sg := (seg P feas attok (eq n) IX cov nd n0).
Notation Inv := (Inv P feas attok (eq n) IX cov nd n0).

Lemma Inv_R s : Inv s -> R P feas attok (eq n) IX cov nd n0 n s [] (List.length (s_log s)) s.
Proof. intros I. split; [apply Ev_init; exact I|]. split; [symmetry; apply (i_len _ _ _ _ _ _ _ _ _ I)|reflexivity]. Qed.

Lemma seg_block a b (m : M A X unit) :
  (forall s0, Inv s0 -> blk0 P feas attok (eq n) IX cov nd n0 n s0 a b m (fun _ => True)) -> sg a b m.
Proof.
  intros H. apply seg_plain. intros s I. exact (contract_of E P feas attok IX cov nd n0 n a b (fun _ => m) HP (fun _ s0 _ => H s0) 1 s (le_n 1) I).
Qed.
Lemma seg_free a b (m : M A X unit) :
  (forall s0 w, Inv s0 -> gt P feas attok (eq n) IX cov nd n0 n s0 w a b m (fun _ _ => True)) -> sg a b m.
Proof.
  intros H. apply seg_plain. intros s I. exact (contract_free P feas attok IX cov nd n0 n a b (fun _ => m) (fun _ s0 w _ => H s0 w) 1 s (le_n 1) I).
Qed.
Lemma seg_qbind {Y} a b (m : M A X Y) (Φ : Y -> Prop) (f : Y -> M A X unit) :
  (forall s0, Inv s0 -> qt P feas attok (eq n) IX cov nd n0 n s0 m Φ) -> (forall y, Φ y -> sg a b (f y)) -> sg a b (y <- m ;; f y).
Proof.
  intros H1 H2 i s I H. apply wp_bind. eapply wp_mono; [apply (H1 s I _ _ _ (Inv_R s I))|]. intros y s' (Hy & k & x & -> & Hx).
  assert (I' : Inv (with_x (bump s k) x)) by (destruct I; constructor; simpl; auto).
  assert (H' : HistS P feas attok (eq n) i (with_x (bump s k) x)) by (destruct H; constructor; simpl; auto).
  eapply wp_mono; [apply (H2 y Hy i _ I' H')|]. intros [] s2 T. exact T.
Qed.
Lemma seg_then sort a b c d m1 m2 : sg a b m1 -> sg c d m2 -> sg (a + c) (b + d) (m1 ;;; refresh E P sort ;;; m2).
Proof.
  apply seg_refresh; try apply HP. intros m <-. exact Hn.
Qed.
Lemma seg_mono a b a' b' m : sg a b m -> a' <= a -> b <= b' -> sg a' b' m.
Proof.
  intros H Ha Hb i s I S. eapply wp_mono; [apply (H i s I S)|]. intros [] s' (s1 & T1 & T2 & T3 & T4 & T5 & T6).
  exists s1. repeat (split; [assumption|]). lia.
Qed.
End Seg.

(** Plain algorithms made of segments. *)
Lemma sound_segs {X} (E : env) (P : problem) (md : MCore.mode) (n epochs : nat) (srt : bool)
    (ev : nat -> M unit X unit) (IX : X -> Prop) (H : (vec -> Prop) -> Prop) (eb : bool) (kmin kmax : nat) :
  0 < n -> 0 < epochs ->
  (forall feas nd n0 ep, params E P feas (@anyatt unit) (eb = true /\ obj_num P feas) -> H feas -> 1 <= ep ->
     seg P feas (@anyatt unit) (eq n) (fun _ => IX) (eb = true /\ obj_num P feas) nd n0 kmin kmax (ev ep)) ->
  sound_save E P md (plain_algo E P md tt n epochs srt ev) IX H eb kmin kmax.
Proof.
  intros Hn He HV feas tm starting s Has Hmm Hpr HH Hst HX.
  set (al := plain_algo E P md tt n epochs srt ev) in *.
  assert (HP : params E P feas (@anyatt unit) (eb = true /\ obj_num P feas)) by (constructor; auto; try tauto; intros; exact I).
  pose proof (solve_save E P md feas (@anyatt unit) (eq n) IX (fun _ => IX) (fun _ => IX) (eb = true /\ obj_num P feas) (pr_mono _ _ _ _ _ HP)
     ltac:(intros m <-; exact Hn) Hmm Has (fun c => proj2 c) al tm starting
     (missed md (al_pop_size al) starting) (al_pop_size al) (al_pop_size al) 0 0 kmin kmax s) as T.
  rewrite !Nat.add_0_r in T. apply T; auto.
  - apply default_init_contract with (E := E); auto; try tauto.
    + intros m <-; exact Hn.
    + eapply skip_vars; eauto.
    + apply plain_ga_contract; auto; try (intros; exact I). apply Hpr.
    + intros x Hx. apply plain_ga_contract_some; auto; intros; exact I.
    + intros x Hx s0. cbn [al al_ga plain_algo]. unfold generate_agent_with, generate_empty_agent.
      apply wp_bind, wp_ret, wp_bind, wp_get_target, wp_ret. reflexivity.
    + intros _ _ s0 x Hx. apply wp_ret. split; [exists (s_ctr s0); destruct s0; reflexivity|]. simpl. repeat split; auto.
  - eapply skip_before_main with (IX0 := fun _ => IX); auto.
  - intros n0 ep i s1 Hep I1 H1. apply (HV feas _ n0 ep HP HH Hep i s1 I1 H1).
Qed.

Ltac segs := intros; apply sound_segs; [lia|lia|let HP := fresh "HP" in intros feas nd n0 ep HP HH Hep].
