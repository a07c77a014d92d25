(** More blocks: a new agent competes for a slot and something follows; the better one of two new agents. *)
From Coq Require Import Permutation.
From Verif Require Import Prelude Fl FlArith MCore MAlg MAlg2 SpecCore SpecRun PSelect PLogic PSolve PRun SpecAlg PAlg PAlg2 PAlg3.

Section Compete.
Context {A X : Type}.
Variable E : env.
Variable P : problem.
Variable feas : vec -> Prop.
Variable attok : list vec -> A -> Prop.
Variable IL : nat -> Prop.
Variable IX : list vec -> X -> Prop.
Variable cov : Prop.
Variables nd n0 n : nat.
Variable s0 : st A X.
Hypothesis HP : params E P feas attok cov.
Notation R := (R P feas attok IL IX cov nd n0 n s0).
Notation good := (good P feas attok).
(** The slot is overwritten by the new agent, or by one as good, when the new one is better. *)
Lemma wp_compete {Y} W l s i a (f : agent A -> bool -> M A X Y) (Q : Y -> st A X -> Prop) : R (W ++ [a]) l s -> i < n ->
  (forall old c, nth_error (s_pop s) i = Some old -> good (s_log s) old -> good (s_log s) a ->
     (c = true -> forall r, good (s_log s) r -> fit r = fit a -> R W l (with_pop s (upd (s_pop s) i r))) ->
     (c = false -> R W l s) -> wp (f old c) Q s) ->
  wp (old <- pop_at i ;; c <- lift (compare_agents a old (p_mm P)) ;; f old c) Q s.
Proof.
  intros HR Hi H. pose proof HR as (V & Hn & Hl). apply wp_bind, wp_pop_at; [lia|]. intros old Eo Hin.
  pose proof (Ev_pop_good _ _ _ _ _ _ _ _ _ _ _ _ V Hin) as Go.
  assert (Ga : good (s_log s) a) by (eapply held_good; [exact HR|left; reflexivity]).
  destruct (compare_agents_ok E P feas attok cov HP _ a old Ga Go) as (c & Ec & Hc). apply wp_bind. eapply wp_lift; [exact Ec|].
  assert (N : cov -> num (fit a) /\ num (fit old)).
  { intros C. split; (eapply good_num; [apply HP; exact C|eassumption]). }
  apply H; [exact Eo|exact Go|exact Ga| |].
  - intros -> r Gr Er. eapply R_pop_set; [exact HP|exact HR|exact Hi|exact Gr| |].
    + intros C b Eb. rewrite Eo in Eb. injection Eb as <-. rewrite Er. apply Hc; apply N; exact C.
    + intros C. rewrite Er. apply no_worse_refl; [apply HP|apply N; exact C].
  - intros ->. eapply R_forget; [exact HP|exact HR|]. intros C. exists old. split; [exact Hin|]. apply Hc; apply N; exact C.
Qed.
(** The better one of two new agents. *)
Lemma R_better W l s a b c : R (W ++ [a; b]) l s -> compare_agents a b (p_mm P) = Ok c -> R (W ++ [if c then a else b]) l s.
Proof.
  intros HR Ec. assert (Ga : good (s_log s) a) by (eapply held_good; [exact HR|left; reflexivity]).
  assert (Gb : good (s_log s) b) by (eapply held_good; [exact HR|right; left; reflexivity]).
  destruct (compare_agents_ok E P feas attok cov HP _ a b Ga Gb) as (c' & Ec' & Hc). rewrite Ec in Ec'. injection Ec' as <-.
  assert (N : cov -> num (fit a) /\ num (fit b)).
  { intros C. split; (eapply good_num; [apply HP; exact C|eassumption]). }
  eapply R_keep_one; [exact HP|exact HR|destruct c; [left|right; left]; reflexivity|].
  intros C x [<-|[<-|[]]]; destruct c; try (apply no_worse_refl; [apply HP|apply N; exact C]); apply Hc; apply N; exact C.
Qed.
Lemma compare_ok L (a b : agent A) : good L a -> good L b -> exists c, compare_agents a b (p_mm P) = Ok c.
Proof. intros Ga Gb. destruct (compare_agents_ok E P feas attok cov HP _ a b Ga Gb) as (c & Ec & _). eauto. Qed.
End Compete.
