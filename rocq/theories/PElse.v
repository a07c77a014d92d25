(** Replacing a statement that may raise by another one where it does, and what a statement guarantees when it returns. *)
From Verif Require Import Prelude Fl MCore MHelp MAlg MAlg2 MAlg4 MAlg7 SpecCore SpecRun PLogic PSolve PRun SpecAlg SpecWhen PPart PAlg PRef.

(** [m], or [d] in the same state when [m] raises. *)
Definition orelse {A X Y} (m d : M A X Y) : M A X Y := fun s => match m s with Ok r => Ok r | Err _ => d s end.
Lemma ref_orelse {A X Y} (m d : M A X Y) : refines m (orelse m d).
Proof. intros s r H. unfold orelse. rewrite H. reflexivity. Qed.
Lemma ref_trans {A X Y} (m1 m2 m3 : M A X Y) : refines m1 m2 -> refines m2 m3 -> refines m1 m3.
Proof. intros H1 H2 s r H. apply H2, H1, H. Qed.

Section Refs.
Context {A X : Type}.
Variable E : env.
Variable P : problem.
Variable md : MCore.mode.
Variable correct : vec -> M A X vec.
Variable gea : option vec -> M A X (agent A).
Lemma ref_collect {Y} n (f f' : nat -> M A X Y) : (forall i, refines (f i) (f' i)) -> refines (collect n f) (collect n f').
Proof. intros H. unfold collect. apply ref_for_acc. intros i b. apply ref_bind; [apply H|intros; apply ref_refl]. Qed.
Lemma ref_new_agents n (c c' : nat -> M A X vec) : (forall i, refines (c i) (c' i)) ->
  refines (new_agents P md correct gea n c) (new_agents P md correct gea n c').
Proof. intros H. unfold new_agents. apply ref_bind; [|intros; apply ref_refl]. apply ref_for_acc. intros i b. apply ref_bind; [apply H|intros; apply ref_refl]. Qed.
Lemma ref_trim_batch n m (c c' : nat -> M A X vec) : (forall i, refines (c i) (c' i)) ->
  refines (trim_batch E P md correct gea n m c) (trim_batch E P md correct gea n m c').
Proof. intros H. unfold trim_batch. apply ref_bind; [apply ref_new_agents, H|intros; apply ref_refl]. Qed.
Lemma ref_greedy_batch n (c c' : nat -> M A X vec) : (forall i, refines (c i) (c' i)) ->
  refines (greedy_batch P md correct gea n c) (greedy_batch P md correct gea n c').
Proof. intros H. unfold greedy_batch. apply ref_bind; [apply ref_new_agents, H|intros; apply ref_refl]. Qed.
Lemma ref_replace_all n (c c' : nat -> M A X vec) : (forall i, refines (c i) (c' i)) ->
  refines (replace_all P md correct gea n c) (replace_all P md correct gea n c').
Proof. intros H. unfold replace_all. apply ref_bind; [apply ref_new_agents, H|intros; apply ref_refl]. Qed.
Lemma ref_replace_each n (c c' : nat -> M A X vec) : (forall i, refines (c i) (c' i)) ->
  refines (replace_each P md correct gea n c) (replace_each P md correct gea n c').
Proof. intros H. unfold replace_each. apply ref_bind; [|intros; apply ref_refl]. apply ref_for_acc. intros i b. apply ref_bind; [apply H|intros; apply ref_refl]. Qed.
Lemma ref_for n (f f' : nat -> M A X unit) : (forall i, refines (f i) (f' i)) -> refines (for_ n f) (for_ n f').
Proof. intros H. unfold for_. apply ref_for_acc. intros i []. apply H. Qed.
End Refs.
Ltac refi := repeat first
  [ assumption
  | apply ref_orelse
  | apply ref_for_acc; intros | apply ref_for_list; intros | apply ref_dims; intros | apply ref_for; intros
  | apply ref_greedy_each; intros | apply ref_collect; intros | apply ref_new_agents; intros | apply ref_trim_batch; intros
  | apply ref_greedy_batch; intros | apply ref_replace_all; intros | apply ref_replace_each; intros
  | apply ref_if | apply ref_when
  | match goal with |- refines ?m ?m => apply ref_refl end
  | apply ref_bind; [|intros]
  | match goal with |- refines (let '(_, _) := ?p in _) _ => destruct p end
  | apply ref_refl ].

(** What holds of a quiet computation if it returns. *)
Section Quiet.
Context {A X : Type}.
Variable E : env.
Variable P : problem.
Variable md : MCore.mode.
Variable feas : vec -> Prop.
Variable attok : list vec -> A -> Prop.
Variable IL : nat -> Prop.
Variable IX : list vec -> X -> Prop.
Variable cov : Prop.
Variables nd n0 n : nat.
Variable s0 : st A X.
Hypothesis HP : params E P feas attok cov.
Notation R := (R P feas attok IL IX cov nd n0 n s0).
Notation qt := (qt P feas attok IL IX cov nd n0 n s0).
Notation near := (near IX).
Definition qp {Y} (m : M A X Y) (Φ : Y -> Prop) : Prop :=
  forall W l s y s', R W l s -> m s = Ok (y, s') -> Φ y /\ near s s'.
Lemma q_orelse {Y} (m d : M A X Y) Φ : qp m Φ -> qt d Φ -> qt (orelse m d) Φ.
Proof.
  intros H1 H2 W l s HR. unfold wp, orelse. destruct (m s) as [[y s']|e] eqn:Em; [exact (H1 _ _ _ _ _ HR Em)|]. exact (H2 _ _ _ HR).
Qed.
Lemma qp_qt {Y} (m : M A X Y) Φ : qt m Φ -> qp m Φ.
Proof. intros H W l s y s' HR Em. pose proof (H _ _ _ HR) as T. unfold wp in T. rewrite Em in T. exact T. Qed.
Lemma qp_mono {Y} (m : M A X Y) (Φ Ψ : Y -> Prop) : qp m Φ -> (forall y, Φ y -> Ψ y) -> qp m Ψ.
Proof. intros H HI W l s y s' HR Em. destruct (H _ _ _ _ _ HR Em). auto. Qed.
Lemma qp_bind {Y Z} (m : M A X Y) (f : Y -> M A X Z) Φ Ψ : qp m Φ -> (forall y, Φ y -> qp (f y) Ψ) -> qp (y <- m ;; f y) Ψ.
Proof.
  intros H1 H2 W l s z s' HR Em. unfold bindM in Em. destruct (m s) as [[y s1]|e] eqn:E1; [|discriminate].
  destruct (H1 _ _ _ _ _ HR E1) as [Hy N1]. destruct (H2 y Hy _ _ _ _ _ (R_near _ _ _ _ _ _ _ _ _ _ _ _ _ _ HR N1) Em) as [Hz N2].
  split; [exact Hz|eapply near_trans; eauto].
Qed.
Lemma qp_qbind {Y Z} (m : M A X Y) (f : Y -> M A X Z) Φ Ψ : qt m Φ -> (forall y, Φ y -> qp (f y) Ψ) -> qp (y <- m ;; f y) Ψ.
Proof. intros H. apply qp_bind, qp_qt, H. Qed.
Lemma qp_lift {Y} (r : res Y) (Φ : Y -> Prop) : (forall y, r = Ok y -> Φ y) -> qp (lift r) Φ.
Proof.
  intros H W l s y s' HR Em. unfold lift in Em. destruct r as [y0|e]; [|discriminate]. injection Em as -> ->.
  split; [apply H; reflexivity|eapply near_refl; exact HR].
Qed.
Lemma qp_raise {Y} e (Φ : Y -> Prop) : qp (raise e) Φ.
Proof. intros W l s y s' _ Em. discriminate Em. Qed.
Lemma qp_if {Y} (b : bool) (m1 m2 : M A X Y) Φ : (b = true -> qp m1 Φ) -> (b = false -> qp m2 Φ) -> qp (if b then m1 else m2) Φ.
Proof. destruct b; auto. Qed.
Lemma getitem_In {T} (l : list T) i y : getitem l i = Ok y -> In y l.
Proof. unfold getitem. destruct (nth_error l i) as [c|] eqn:En; [|discriminate]. intros [= ->]. eapply nth_error_In; exact En. Qed.
Lemma qp_pop_at i : qp (pop_at i) (fun a => proper a /\ feas (sol a)).
Proof.
  unfold pop_at. eapply qp_qbind; [apply q_get_pop|]. intros p [_ Hp]. apply qp_lift. intros a Ha. apply getitem_In in Ha.
  rewrite Forall_forall in Hp. apply Hp, Ha.
Qed.
Lemma qp_pop_sol i : qp (pop_sol i) feas.
Proof. unfold pop_sol. eapply qp_bind; [apply qp_pop_at|]. intros a [_ H]. apply qp_qt, q_ret, H. Qed.
Lemma qp_choice_p p : qp (choice_p E p) (fun _ => True).
Proof. unfold choice_p. apply qp_if; intros _; [apply qp_raise|]. apply qp_qt. eapply q_bind; [eapply q_uniform|]. intros u _. apply q_ret. exact I. Qed.
Lemma qp_roulette l : qp (roulette E P l) (fun _ => True).
Proof.
  unfold roulette. destruct l as [|f l]; [apply qp_raise|]. destruct (roulette_probs _ _); [apply qp_choice_p|].
  apply qp_qt. eapply q_mono; [apply q_integers; cbn [List.length]; lia|]. trivial.
Qed.
Lemma qp_getitem {T} (l : list T) i : qp (lift (getitem l i)) (fun y => In y l).
Proof. apply qp_lift. apply getitem_In. Qed.
Lemma getitemZ_In {T} (l : list T) i y : getitemZ l i = Ok y -> In y l.
Proof. unfold getitemZ. destruct (0 <=? i)%Z; [apply getitem_In|]. destruct (0 <=? _)%Z; [apply getitem_In|discriminate]. Qed.
Lemma qp_getitemZ {T} (l : list T) i : qp (lift (getitemZ l i)) (fun y => In y l).
Proof. apply qp_lift. apply getitemZ_In. Qed.
End Quiet.
