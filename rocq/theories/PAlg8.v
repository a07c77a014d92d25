(** Proof rules for loops that collect values other than agents, and for roulette wheels over derived values. *)
From Verif Require Import Prelude Fl MCore MHelp MAlg MAlg2 MAlg3 MAlg4 MAlg5 MAlg6 SpecCore SpecRun PSelect PLogic PSolve PRun SpecAlg PAlg PFree PClass PAlg2 PAlg3 PAlg4 PAlg5 PAlg6 PAlg7.

(** A roulette wheel over [l] raises nothing and returns an index. *)
Definition wheel_at (E : env) (P : problem) (l : list f64) : Prop :=
  forall A X (s : st A X), exists i k, roulette E P l s = Ok (i, bump s k) /\ i < List.length l.
Section Elite8.
Context {A X : Type}.
Variable E : env.
Variable P : problem.
Variable md : mode.
Variable feas : vec -> Prop.
Variable attok : list vec -> A -> Prop.
Variable IL : nat -> Prop.
Variable IX : list vec -> X -> Prop.
Variable cov : Prop.
Variables nd n0 n : nat.
Variable s0 : st A X.
Hypothesis HP : params E P feas attok cov.
Notation qt := (qt P feas attok IL IX cov nd n0 n s0).
Notation blk := (blk P feas attok IL IX cov nd n0 n s0).
Lemma q_wheel l : wheel_at E P l -> qt (roulette E P l) (fun i => i < List.length l).
Proof.
  intros Hw W m s HR. destruct (Hw A X s) as (i & k & Er & Hi). unfold wp. rewrite Er. split; [exact Hi|eapply near_bump; eauto].
Qed.
Lemma b_collect_any {Y} a b m (c : nat -> M A X Y) (Φ : Y -> Prop) : (forall i, i < m -> blk a b (c i) Φ) ->
  blk (m * a) (m * b) (collect m c) (fun r => List.length r = m /\ Forall Φ r).
Proof.
  intros H W l s HR. unfold collect.
  apply wp_for_acc with (I := fun k acc s' => (List.length acc = k /\ Forall Φ acc) /\ exists j, k * a <= j <= k * b /\ R P feas attok IL IX cov nd n0 n s0 W (l + j) s').
  - split; [split; [reflexivity|constructor]|]. exists 0. split; [lia|]. rewrite Nat.add_0_r. exact HR.
  - intros k acc s' Hk ((Hl & Hf) & j & Hj & R'). apply wp_bind. eapply wp_mono; [apply (H k); [lia|exact R']|].
    intros z s'' (Hz & j' & Hj' & R''). apply wp_ret. split; [split; [rewrite app_length; cbn; lia|apply Forall_app; auto]|].
    exists (j + j'). split; [nia|]. rewrite Nat.add_assoc. exact R''.
  - intros y s' (Hy & j & Hj & R'). split; [exact Hy|]. exists j. split; [simpl in Hj; lia|exact R'].
Qed.
End Elite8.
Section Free8.
Context {A X : Type}.
Variable E : env.
Variable P : problem.
Variable md : mode.
Variable feas : vec -> Prop.
Variable attok : list vec -> A -> Prop.
Variable IL : nat -> Prop.
Variable IX : list vec -> X -> Prop.
Variable cov : Prop.
Variables nd n0 n : nat.
Variable s0 : st A X.
Hypothesis HP : params E P feas attok cov.
Hypothesis Hno : ~ cov.
Notation ok := (ok P feas attok).
Notation pend := (pend feas attok).
Notation gq := (gq P feas attok IL IX cov nd n0 n s0).
Notation gt := (gt P feas attok IL IX cov nd n0 n s0).
Lemma g_collect_any {Y} w a b m (c : nat -> M A X Y) (Φ : Y -> Prop) : (forall i w', incl w w' -> i < m -> gt w' a b (c i) (fun _ => Φ)) ->
  gt w (m * a) (m * b) (collect m c) (fun _ r => List.length r = m /\ Forall Φ r).
Proof.
  intros H. unfold collect.
  apply g_for_acc with (J := fun k (w' : list vec) acc => List.length acc = k /\ Forall Φ acc); [split; [reflexivity|constructor]|].
  intros k w' acc Hi Hk [Hl Hf]. eapply g_mono with (a := a + 0) (b := b + 0); [|lia|lia|intros w3 y _ T; exact T].
  eapply g_bind with (Φ := fun _ => Φ); [apply H; [exact Hi|lia]|].
  intros y w2 Hi2 Hy. apply g_ret. split; [rewrite app_length; simpl; lia|]. apply Forall_app; auto.
Qed.
(** Greedy selection whose result is kept aside. *)
Lemma g_greedy w (p q : list (agent A)) : Forall (ok w) p -> Forall (ok w) q -> List.length p = List.length q ->
  gt w 0 0 (lift (greedy_selection_population p q (p_mm P))) (fun w' r => List.length r = List.length p /\ Forall (ok w') r).
Proof.
  intros H1 H2 Hl s Hw HG. eapply wp_mono; [apply (gq_greedy E P feas attok IL IX cov nd n0 n s0 HP Hno w p q H1 H2 Hl s Hw HG)|].
  intros r s' ((L & F) & Hw' & HG'). rewrite Hw'. split; [apply incl_refl|]. split; [split; [exact L|exact F]|]. split; [rewrite <- Hw; lia|exact HG'].
Qed.
Lemma g_greedy_set w (new : list (agent A)) : Forall (ok w) new -> List.length new = n ->
  gt w 0 0 (p <- get_pop ;; q <- lift (greedy_selection_population p new (p_mm P)) ;; set_pop q) (fun _ _ => True).
Proof.
  intros Hf Hl. apply g_quiet. eapply gq_bind; [apply gq_get_pop|]. intros p (Lp & Fp).
  eapply gq_bind; [eapply gq_greedy; [exact HP|exact Hno|exact Fp|exact Hf|lia]|]. intros q (Lq & Fq). apply gq_set_pop; [exact Hno|lia|exact Fq].
Qed.
End Free8.

Ltac evtrue2 := match goal with |- ?F ?w ?y => is_evar F; let S := type of w in let T := type of y in unify F (fun (_ : S) (_ : T) => True); exact I end.
Ltac qmore HP m ::= lazymatch m with
  | propose _ _ _ => eapply q_propose; bprem HP
  | raw _ _ => apply q_raw; assumption
  end.
Ltac free HP ::= cbv beta;
  lazymatch goal with
  | |- gt _ _ _ _ _ _ _ _ _ _ _ _ _ ?m _ =>
    lazymatch m with
    | bindM ?m1 _ =>
      tryif hasev m1
      then (eapply g_bind; [free HP | gintros HP; free HP])
      else (eapply g_qbind; [gquiet HP | let y := fresh "y" in let H := fresh "H" in intros y H; cbv beta in H; qfacts; free HP])
    | (if ?b then _ else _) => eapply g_ifm; [let Hb := fresh "Hb" in intros Hb; qfacts; free HP | let Hb := fresh "Hb" in intros Hb; qfacts; free HP]
    | (match ?p with (_, _) => _ end) => destruct p; cbn [fst snd] in *; qfacts; free HP
    | (match ?l with [] => _ | _ :: _ => _ end) => destruct l; cbn [List.length] in *; try (exfalso; lia); qfacts; free HP
    | (match ?o with Some _ => _ | None => _ end) => destruct o; try discriminate; qfacts; free HP
    | (let x := _ in _) => cbv zeta; free HP
    | when _ _ => eapply g_whenm; let Hb := fresh "Hb" in intros Hb; qfacts; free HP
    | @collect _ _ (agent _) _ _ => eapply g_collect; [exact HP|]; let i := fresh "i" in let w := fresh "w" in let Hw := fresh "Hw" in let Hi := fresh "Hi" in intros i w Hw Hi; gmove Hw; free HP
    | collect _ _ => eapply g_collect_any with (Φ := fun _ => True); let i := fresh "i" in let w := fresh "w" in let Hw := fresh "Hw" in let Hi := fresh "Hi" in intros i w Hw Hi; gmove Hw; eapply g_mono with (Φ := fun _ _ => True); [free HP | reflexivity | reflexivity | trivial]
    | for_ _ _ => eapply g_for; let i := fresh "i" in let w := fresh "w" in let Hw := fresh "Hw" in let Hi := fresh "Hi" in intros i w Hw Hi; gmove Hw; free HP
    | try_improve _ _ _ _ _ => eapply g_try_improve; gprem HP
    | try_improve_b _ _ _ _ _ => eapply g_try_improve_b; gprem HP
    | gen_keep _ _ _ _ _ _ => eapply g_gen_keep; gprem HP
    | gen_agent _ _ _ _ => eapply g_gen_agent; gprem HP
    | gen_at _ _ _ => eapply g_gen_at; gprem HP
    | random_agent _ _ => eapply g_random_agent; gprem HP
    | evaluate _ _ => eapply g_eval1; gprem HP
    | new_agents _ _ _ _ _ _ => eapply g_new_agents; gprem HP
    | best_new _ _ _ _ _ _ _ => eapply g_best_new; gprem HP
    | greedy_each _ _ _ _ _ _ _ => eapply g_greedy_each; gprem HP
    | greedy_loop _ _ _ _ _ _ _ => eapply g_greedy_loop; gprem HP
    | greedy_batch _ _ _ _ _ _ => eapply g_greedy_batch; gprem HP
    | replace_all _ _ _ _ _ _ => eapply g_replace_all; gprem HP
    | replace_each _ _ _ _ _ _ => eapply g_replace_each; gprem HP
    | trim_batch _ _ _ _ _ _ _ _ => eapply g_trim_batch; gprem HP
    | ret _ => eapply g_ret; try exact I; first [evtrue | evtrue2 | try solve [gside HP]]
    | _ => first [fmore HP m | tryif hasev m then (tryif openc m then free HP else idtac) else (eapply g_quiet; gquiet HP)]
    end
  | _ => idtac
  end.
