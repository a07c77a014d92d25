(** Initializations that generate agents outside the population, for classes that may lose the best agent. *)
From Coq Require Import Permutation.
From Verif Require Import Prelude Fl MCore MHelp MAlg MAlg2 MAlg3 MAlg4 SpecCore SpecRun PSelect PLogic PSolve PRun SpecAlg PAlg PFree PClass PAlg2 PAlg3 PAlg4.
Section More.
Context {A X : Type}.
Variable E : env.
Variable P : problem.
Variable md : mode.
Variable feas : vec -> Prop.
Variable attok : list vec -> A -> Prop.
Variable IL : nat -> Prop.
Variable IX : list vec -> X -> Prop.
Variable cov : Prop.
Variables nd n0 : nat.
Hypothesis HP : params E P feas attok cov.
Hypothesis Hno : ~ cov.
Hypothesis Hmd : md <> Process.
Notation good := (good P feas attok).
Lemma ga_ok_contract (ga : option vec -> M A X (agent A)) : ga_ok P feas attok ga -> ga_contract P feas attok (ga None).
Proof.
  intros Hga s. eapply wp_mono; [apply (Hga s None I)|]. intros a s' (H1 & H2 & H3 & H4).
  split; [exact H1|]. split; [exact H3|]. split; [exact H2|]. apply H4; left; reflexivity.
Qed.
Lemma start_population (ga : option vec -> M A X (agent A)) m s : ga_ok P feas attok ga -> Start P feas attok IL IX cov nd n0 s ->
  wp (generate_population_with E md (ga None) m) (fun l s' => List.length l = m /\ Forall (good (s_log s')) l /\
    s_pop s' = s_pop s /\ s_x s' = s_x s /\ Start P feas attok IL IX cov nd n0 s' /\ incl (s_log s) (s_log s') /\
    List.length (s_log s') = List.length (s_log s) + m) s.
Proof.
  intros Hga S0. eapply wp_mono; [apply (generate_population_ok E P md feas attok)|].
  { apply HP. } { apply ga_ok_contract, Hga. }
  intros l s' (H1 & H2 & H3 & H4 & H5 & H6 & H7 & (L & H8 & H8' & H8'') & H9).
  assert (Hi : incl (s_log s) (s_log s')) by (rewrite H8; apply incl_appl, incl_refl).
  assert (HL : List.length (s_log s') = List.length (s_log s) + m) by (rewrite H8, app_length; lia).
  assert (Hl : lost md m = 0) by (unfold lost; destruct md; congruence).
  split; [exact H1|]. split; [exact H2|]. split; [exact H3|]. split; [exact H7|]. split; [|split; [exact Hi|exact HL]].
  destruct S0. constructor; rewrite ?H3, ?H7, ?H6; auto.
  - eapply Forall_impl; [|exact st_good]. intros a. apply good_mono; [apply HP|exact Hi].
  - rewrite H8. apply Forall_app; split; [assumption|]. rewrite Forall_forall in *. intros x Hx.
    pose proof (Permutation_in x H8' Hx) as Hx'. apply in_map_iff in Hx'. destruct Hx' as (a & <- & Ha). apply (H2 a Ha).
  - lia.
  - intros C. contradiction (Hno C).
  - eapply xok_mono; [exact Hi|assumption].
Qed.
End More.
Lemma start_fresh {A X} (P : problem) (feas : vec -> Prop) (attok : list vec -> A -> Prop) (IX : list vec -> X -> Prop) (cov : Prop) (s : st A X) :
  fresh s -> IX [] (s_x s) -> Start P feas attok (fun _ => True) IX cov 0 (s_nfe s) s.
Proof.
  intros (F1 & F2 & F3 & F4 & F5) Hx. constructor; rewrite ?F1, ?F2, ?F3, ?F4, ?F5; auto; try (cbn; lia).
  all: try (intros _ x []). exists []. split; [intros ? []|exact Hx].
Qed.
Lemma start_set {A X} (P : problem) (feas : vec -> Prop) (attok : list vec -> A -> Prop) (IL IL' : nat -> Prop) (IX : list vec -> X -> Prop) (cov : Prop) nd n0 (s : st A X) l :
  ~ cov -> Start P feas attok IL IX cov nd n0 s -> IL' (List.length l) -> Forall (good P feas attok (s_log s)) l -> Start P feas attok IL' IX cov nd n0 (with_pop s l).
Proof. intros Hno [] Hl Hg. constructor; auto. intros C. contradiction (Hno C). Qed.
