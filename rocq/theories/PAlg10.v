(** Loops in which each step may overwrite the agent of its own slot, which no earlier step has touched. *)
From Verif Require Import Prelude Fl MCore MHelp MAlg MAlg2 PSpace SpecCore SpecRun PSelect PLogic PSolve PRun SpecAlg PAlg PAlg2.

Section Slots.
Context {A X : Type}.
Variable E : env.
Variable P : problem.
Variable md : MCore.mode.
Variable feas : vec -> Prop.
Variable attok : list vec -> A -> Prop.
Variable IL : nat -> Prop.
Variable IX : list vec -> X -> Prop.
Variable cov : Prop.
Variables nd n0 n : nat.
Variable s0 : st A X.
Hypothesis HP : params E P feas attok cov.
Notation R := (R P feas attok IL IX cov nd n0 n s0).
Notation qt := (qt P feas attok IL IX cov nd n0 n s0).
Notation blk0 := (blk0 P feas attok IL IX cov nd n0 n s0).
Notation near := (near IX).
Notation good := (good P feas attok).
(** The agents from slot [k] on date from before the epoch. *)
Definition later (k : nat) (s : st A X) : Prop := forall i a, k <= i -> nth_error (s_pop s) i = Some a -> In (sol a) (s_log s0).
Lemma later_old s : Old s0 s -> later 0 s.
Proof. intros HO i a _ Hi. unfold Old in HO. rewrite Forall_forall in HO. apply HO. eapply nth_error_In; exact Hi. Qed.
Lemma later_mono k k' s : later k s -> k <= k' -> later k' s.
Proof. intros H Hk i a Hi. apply H. lia. Qed.
Lemma later_pop k s s' : later k s -> s_pop s' = s_pop s -> later k s'.
Proof. intros H Ep i a. rewrite Ep. apply H. Qed.
Lemma later_near k s s' : later k s -> near s s' -> later k s'.
Proof. intros H N. eapply later_pop; [exact H|eapply near_pop; exact N]. Qed.
Definition slot (i lo hi : nat) (body : M A X unit) : Prop := forall W l s, R W l s -> later i s ->
  wp body (fun _ s' => exists k, lo <= k <= hi /\ R W (l + k) s' /\ later (S i) s') s.
Lemma b_slots m lo hi (body : nat -> M A X unit) : (forall i, i < m -> slot i lo hi (body i)) ->
  blk0 (m * lo) (m * hi) (for_ m body) (fun _ => True).
Proof.
  intros H W l s HR HO. unfold for_. apply wp_for_acc with (I := fun k _ s' => exists j, k * lo <= j <= k * hi /\ R W (l + j) s' /\ later k s').
  - exists 0. split; [lia|]. rewrite Nat.add_0_r. split; [exact HR|apply later_old; exact HO].
  - intros k [] s1 Hk (j & Hj & R1 & L1). eapply wp_mono; [apply (H k (proj2 Hk) W (l + j) s1 R1 L1)|]. intros [] s2 (k2 & Hk2 & R2 & L2).
    exists (j + k2). split; [lia|]. rewrite Nat.add_assoc. auto.
  - intros [] s' (j & Hj & R1 & _). split; [exact I|]. exists j. auto.
Qed.
(** The slot receives [r], which is no worse than the agents in hand. *)
Lemma R_slot W V l s k r : R (W ++ V) l s -> later k s -> k < n -> good (s_log s) r ->
  (cov -> forall a, In a V -> no_worse (p_mm P) (fit r) (fit a)) ->
  R W l (with_pop s (upd (s_pop s) k r)) /\ later (S k) (with_pop s (upd (s_pop s) k r)).
Proof.
  intros (V3 & Hn3 & Hl3) HL Hk Gr HV. split.
  - split; [|split; [simpl; rewrite upd_length; exact Hn3|exact Hl3]].
    apply Ev_pop_set with (W := W ++ V); [apply HP|apply HP|exact V3|lia|exact Gr|apply incl_appl, incl_refl|].
    intros C g b Hg [Hb|Hb].
    { left. eapply Ev_old; [exact V3|exact C|exact Hg| |].
      - eapply Ev_pop_good; [exact V3|]. eapply nth_error_In; eauto.
      - apply (HL k b); [lia|exact Hb]. }
    apply in_app_or in Hb. destruct Hb as [Hb|Hb]; [auto|]. right; left. apply HV; assumption.
  - intros i a Hi Ha. cbn [s_pop with_pop] in Ha. rewrite upd_nth_neq in Ha by lia. apply (HL i a); [lia|exact Ha].
Qed.
Lemma R_unslot W V l s b : R (W ++ V) l s -> In b (s_pop s) -> (cov -> forall a, In a V -> no_worse (p_mm P) (fit b) (fit a)) -> R W l s.
Proof.
  intros (V3 & Hn & Hl) Hb HV. split; [|split; assumption]. eapply Ev_drop; [apply HP|apply HP|exact V3|apply incl_appl, incl_refl|].
  intros C g c Hg Hc. right. apply in_app_or in Hc. destruct Hc as [Hc|Hc].
  - exists c. split; [apply in_or_app; auto|]. apply no_worse_refl; [apply HP|]. eapply good_num; [apply HP; exact C|].
    destruct V3. rewrite Forall_forall in v_W. apply v_W, in_or_app. left. exact Hc.
  - exists b. split; [apply in_or_app; left; exact Hb|]. apply HV; assumption.
Qed.
Lemma slot_qbind {Y} i lo hi (m : M A X Y) (f : Y -> M A X unit) Φ : qt m Φ -> (forall y, Φ y -> slot i lo hi (f y)) -> slot i lo hi (y <- m ;; f y).
Proof.
  intros H1 H2 W l s HR HL. apply wp_bind. eapply wp_mono; [exact (H1 _ _ _ HR)|]. intros y s1 [Hy N1].
  apply H2; [exact Hy|eapply R_near; [exact HR|exact N1]|eapply later_near; [exact HL|exact N1]].
Qed.
End Slots.

(** np.argmin and np.argmax find a best element. *)
Section Arg.
Variable before : f64 -> f64 -> bool.
Variable le : f64 -> f64 -> Prop.
Hypothesis le_refl : forall x, num x -> le x x.
Hypothesis le_trans : forall x y z, le x y -> le y z -> le x z.
Hypothesis le_if : forall x y, num x -> num y -> if before x y then le x y else le y x.
Lemma arg_from_best l : forall pre best bv, Forall num (pre ++ l) -> nth_error pre best = Some bv -> (forall a, In a pre -> le bv a) ->
  exists v, nth_error (pre ++ l) (arg_from before best (List.length pre) bv l) = Some v /\ forall a, In a (pre ++ l) -> le v a.
Proof.
  induction l as [|x l IH]; intros pre best bv Hn Hb Hle; cbn [arg_from].
  - rewrite app_nil_r. exists bv. auto.
  - assert (Ep : (pre ++ x :: l = (pre ++ [x]) ++ l)%list) by (rewrite <- app_assoc; reflexivity).
    assert (El : S (List.length pre) = List.length (pre ++ [x])) by (rewrite app_length; cbn; lia).
    assert (Nb : num bv) by (rewrite Forall_forall in Hn; apply Hn, in_or_app; left; eapply nth_error_In; exact Hb).
    assert (Nx : num x) by (rewrite Forall_forall in Hn; apply Hn, in_or_app; right; left; reflexivity).
    rewrite Ep, El. rewrite Ep in Hn.
    assert (Fq : feq bv bv = true) by (apply feq_FR; [exact Nb|exact Nb|reflexivity]). assert (Fx : feq x x = true) by (apply feq_FR; [exact Nx|exact Nx|reflexivity]).
    rewrite Fq, Fx. cbn [negb orb andb]. pose proof (le_if x bv Nx Nb) as T. destruct (before x bv).
    + apply IH; [exact Hn|rewrite nth_error_app2, Nat.sub_diag by lia; reflexivity|].
      intros a Ha. apply in_app_or in Ha. destruct Ha as [Ha|[<-|[]]]; [|auto]. eapply le_trans; [exact T|auto].
    + apply IH; [exact Hn|rewrite nth_error_app1 by (apply nth_error_Some; congruence); exact Hb|].
      intros a Ha. apply in_app_or in Ha. destruct Ha as [Ha|[<-|[]]]; auto.
Qed.
End Arg.
Lemma arg_best mm l i : valid_mm mm -> Forall num l -> (match mm with Min => np_argmin l | _ => np_argmax l end) = Ok i ->
  exists v, nth_error l i = Some v /\ forall a, In a l -> no_worse mm v a.
Proof.
  intros Hv Hn He.
  assert (T : forall before : f64 -> f64 -> bool, (forall x y, num x -> num y -> if before x y then no_worse mm x y else no_worse mm y x) ->
    match l with [] => Err ValueError | x :: r => Ok (arg_from before 0 1 x r) end = Ok i -> exists v, nth_error l i = Some v /\ forall a, In a l -> no_worse mm v a).
  { intros before Hb Ei. destruct l as [|x r]; [discriminate|]. injection Ei as <-.
    apply (arg_from_best before (no_worse mm)) with (pre := [x]); [intros; apply no_worse_refl; assumption|intros ? ? ?; apply no_worse_trans|exact Hb|exact Hn|reflexivity|].
    intros a [<-|[]]. apply no_worse_refl; [exact Hv|]. inversion Hn; assumption. }
  destruct Hv as [-> | ->].
  - apply (T flt) in He; [exact He|]. intros x y Nx Ny. cbn. destruct (flt x y) eqn:Ef; [apply flt_le; exact Ef|apply flt_false_le; assumption].
  - apply (T (fun x y => flt y x)) in He; [exact He|]. intros x y Nx Ny. cbn. destruct (flt y x) eqn:Ef; [apply flt_le; exact Ef|apply flt_false_le; assumption].
Qed.
