(** Rules for proving an algorithm's evolve contract: quiet computations (draws, reads) and blocks. *)
From Verif Require Import Prelude Fl MCore MHelp MAlg SpecCore SpecRun PSelect PLogic PSolve PRun SpecAlg.

(** The standing assumptions of a run. *)
Record params {A} (E : env) (P : problem) (feas : vec -> Prop) (attok : list vec -> A -> Prop) (cov : Prop) : Prop := mkParams {
  pr_mono : forall L L' a, incl L L' -> attok L a -> attok L' a;
  pr_mm : valid_mm (p_mm P);
  pr_argsort : argsort_ok (e_argsort E);
  pr_cov : cov -> obj_num P feas;
  pr_prob : problem_ok P feas }.

Section Quiet.
Context {A X : Type}.
Variable E : env.
Variable P : problem.
Variable md : mode.
Variable feas : vec -> Prop.
Variable attok : list vec -> A -> Prop.
Variable IL : nat -> Prop.
Variable IX : list vec -> X -> Prop.
Variable cov : Prop.
Variables nd n0 n : nat.
Variable s0 : st A X.
Hypothesis HP : params E P feas attok cov.

Notation Ev := (Ev P feas attok IL IX cov nd n0).
Notation good := (good P feas attok).

(** Inside evolve: [n] agents, [l] evaluations so far. *)
Definition R (W : list (agent A)) (l : nat) (s : st A X) : Prop :=
  Ev s0 W s /\ List.length (s_pop s) = n /\ List.length (s_log s) = l.
(** Only the draw counter and the algorithm's attributes changed. *)
Definition near (s s' : st A X) : Prop := exists k x, s' = with_x (bump s k) x /\ xok IX (s_log s) x.
Definition qt {Y} (m : M A X Y) (Φ : Y -> Prop) : Prop :=
  forall W l s, R W l s -> wp m (fun y s' => Φ y /\ near s s') s.
(** A block that evaluates between [a] and [b] solutions and forgets nothing. *)
Definition blk {Y} (a b : nat) (m : M A X Y) (Φ : Y -> Prop) : Prop :=
  forall W l s, R W l s -> wp m (fun y s' => Φ y /\ exists k, a <= k <= b /\ R W (l + k) s') s.

Lemma R_near W l s s' : R W l s -> near s s' -> R W l s'.
Proof.
  intros (V & H1 & H2) (k & x & -> & Hx). split; [|split; [exact H1|exact H2]].
  apply Ev_x; [apply Ev_bump; exact V|exact Hx].
Qed.
Lemma near_trans s s1 s2 : near s s1 -> near s1 s2 -> near s s2.
Proof. intros (k & x & -> & Hx) (k' & x' & -> & Hx'). exists k', x'. split; [reflexivity|exact Hx']. Qed.
Lemma near_bump s k W l : R W l s -> near s (bump s k).
Proof. intros (V & _). exists k, (s_x s). split; [reflexivity|apply (v_x _ _ _ _ _ _ _ _ _ _ _ V)]. Qed.
Lemma near_refl s W l : R W l s -> near s s.
Proof. intros (V & _). exists (s_ctr s), (s_x s). split; [destruct s; reflexivity|apply (v_x _ _ _ _ _ _ _ _ _ _ _ V)]. Qed.
Lemma near_pop s s' : near s s' -> s_pop s' = s_pop s.
Proof. intros (k & x & -> & _). reflexivity. Qed.
Lemma near_log s s' : near s s' -> s_log s' = s_log s.
Proof. intros (k & x & -> & _). reflexivity. Qed.

Lemma R_good W l s a : R W l s -> In a (s_pop s) -> good (s_log s) a.
Proof. intros (V & _) H. eapply Ev_pop_good; eauto. Qed.

(** ** Quiet computations *)
Lemma q_ret {Y} (y : Y) (Φ : Y -> Prop) : Φ y -> qt (ret y) Φ.
Proof. intros H W l s HR. apply wp_ret. split; [exact H|eapply near_refl; eauto]. Qed.
Lemma q_mono {Y} (m : M A X Y) (Φ Ψ : Y -> Prop) : qt m Φ -> (forall y, Φ y -> Ψ y) -> qt m Ψ.
Proof. intros H HI W l s HR. eapply wp_mono; [eapply H; eauto|]. intros y s' [? ?]; split; auto. Qed.
Lemma q_bind {Y Z} (m : M A X Y) (f : Y -> M A X Z) (Φ : Y -> Prop) (Ψ : Z -> Prop) :
  qt m Φ -> (forall y, Φ y -> qt (f y) Ψ) -> qt (bindM m f) Ψ.
Proof.
  intros H1 H2 W l s HR. apply wp_bind. eapply wp_mono; [eapply H1; eauto|]. intros y s' [Hy Hn].
  eapply wp_mono; [eapply H2; [exact Hy|eapply R_near; eauto]|]. intros z s'' [Hz Hn']. split; [exact Hz|].
  eapply near_trans; eauto.
Qed.
Lemma q_lift {Y} (r : res Y) (Φ : Y -> Prop) : (exists y, r = Ok y /\ Φ y) -> qt (lift r) Φ.
Proof. intros (y & E1 & E2) W l s HR. eapply wp_lift; [exact E1|]. split; [exact E2|eapply near_refl; eauto]. Qed.
Lemma q_if {Y} (b : bool) (m1 m2 : M A X Y) (Φ : Y -> Prop) : (b = true -> qt m1 Φ) -> (b = false -> qt m2 Φ) -> qt (if b then m1 else m2) Φ.
Proof. destruct b; auto. Qed.
Lemma q_when (b : bool) (m : M A X unit) : (b = true -> qt m (fun _ => True)) -> qt (when b m) (fun _ => True).
Proof. intros H. destruct b; simpl; [auto|apply q_ret; exact I]. Qed.
Lemma q_uniform : qt (uniform E) (fun _ => True).
Proof. intros W l s HR. apply wp_uniform. intros u k. split; [exact I|eapply near_bump; eauto]. Qed.
Lemma q_gauss : qt (gauss E) (fun _ => True).
Proof. intros W l s HR. apply wp_gauss. intros u k. split; [exact I|eapply near_bump; eauto]. Qed.
Lemma q_tick : qt tick (fun _ => True).
Proof. intros W l s HR. apply wp_tick. intros k. split; [exact I|eapply near_bump; eauto]. Qed.
Lemma q_integers lo hi : lo < hi -> qt (integers E lo hi) (fun i => lo <= i < hi).
Proof. intros H W l s HR. apply wp_integers; [exact H|]. intros i k Hi. split; [exact Hi|eapply near_bump; eauto]. Qed.
Lemma q_choice1 {T} (l : list T) : l <> [] -> qt (choice1 E l) (fun x => In x l).
Proof. intros H W k s HR. apply wp_choice1; [exact H|]. intros x k' Hx. split; [exact Hx|eapply near_bump; eauto]. Qed.
Lemma q_choice_noreplace {T} (l : list T) m : m <= List.length l ->
  qt (choice_noreplace E l m) (fun r => List.length r = m /\ exists rest, Permutation (r ++ rest) l).
Proof.
  intros H W k s HR. apply wp_choice_noreplace; [exact H|]. intros r rest k' Hr Hp.
  split; [split; [exact Hr|exists rest; exact Hp]|eapply near_bump; eauto].
Qed.
Lemma q_uniform_vec m : qt (uniform_vec E m) (fun v => List.length v = m).
Proof. intros W l s HR. apply wp_uniform_vec. intros v k Hv. split; [exact Hv|eapply near_bump; eauto]. Qed.
Lemma q_gauss_vec m : qt (gauss_vec E m) (fun v => List.length v = m).
Proof. intros W l s HR. apply wp_gauss_vec. intros v k Hv. split; [exact Hv|eapply near_bump; eauto]. Qed.
Lemma q_get_pop : qt get_pop (fun p => List.length p = n /\ Forall (fun a => wf_agent a /\ feas (sol a)) p).
Proof.
  intros W l s HR. apply wp_get_pop. split; [|eapply near_refl; eauto].
  destruct HR as (V & Hn & _). split; [exact Hn|]. apply Forall_forall. intros a Ha.
  pose proof (Ev_pop_good _ _ _ _ _ _ _ _ _ _ _ _ V Ha) as G. split; [eapply good_wf; eauto|apply G].
Qed.
Lemma q_pop_at i : i < n -> qt (pop_at i) (fun a => wf_agent a /\ feas (sol a)).
Proof.
  intros Hi W l s HR. pose proof HR as (V & Hn & _). apply wp_pop_at; [lia|]. intros a _ Ha.
  split; [|eapply near_refl; eauto].
  pose proof (Ev_pop_good _ _ _ _ _ _ _ _ _ _ _ _ V Ha) as G. split; [eapply good_wf; eauto|apply G].
Qed.
(** What is known of an agent read from the population. *)
Lemma q_pop_seen i : i < n -> qt (pop_at i) (fun a => wf_agent a /\ feas (sol a) /\ exists L, attok L (att a)).
Proof.
  intros Hi W l s HR. pose proof HR as (V & Hn & _). apply wp_pop_at; [lia|]. intros a _ Ha.
  pose proof (Ev_pop_good _ _ _ _ _ _ _ _ _ _ _ _ V Ha) as G. split; [|eapply near_refl; eauto].
  split; [eapply good_wf; eauto|]. split; [apply G|]. exists (s_log s). apply G.
Qed.
Lemma q_get_gb : qt get_gb (fun a => wf_agent a /\ feas (sol a)).
Proof.
  intros W l s HR. pose proof HR as (V & Hn & _).
  destruct (Ev_gb _ _ _ _ _ _ _ _ _ _ _ V) as (g & Eg & G).
  eapply wp_get_gb; [exact Eg|]. split; [|eapply near_refl; eauto]. split; [eapply good_wf; eauto|apply G].
Qed.
Lemma q_get_gw : qt get_gw (fun a => wf_agent a /\ feas (sol a)).
Proof.
  intros W l s HR. pose proof HR as (V & Hn & _).
  destruct (Ev_gw _ _ _ _ _ _ _ _ _ _ _ V) as (g & Eg & G).
  unfold wp, get_gw. rewrite Eg. split; [|eapply near_refl; eauto]. split; [eapply good_wf; eauto|apply G].
Qed.
Lemma q_get_x : qt get_x (fun x => exists L, IX L x).
Proof.
  intros W l s HR. pose proof HR as (V & Hn & _). apply wp_get_x. split; [|eapply near_refl; eauto].
  destruct (v_x _ _ _ _ _ _ _ _ _ _ _ V) as (L & _ & H). exists L; exact H.
Qed.
Lemma q_set_x x : IX [] x -> qt (set_x x) (fun _ => True).
Proof.
  intros Hx W l s HR. unfold wp, set_x. split; [exact I|]. exists (s_ctr s), x. split; [destruct s; reflexivity|].
  exists []. split; [apply incl_nil_l|exact Hx].
Qed.
Lemma q_for_acc {B} m i (b : B) body (I : nat -> B -> Prop) :
  I i b -> (forall k b', i <= k < i + m -> I k b' -> qt (body k b') (I (S k))) ->
  qt (for_acc m i b body) (I (i + m)).
Proof.
  intros H0 Hb W l s HR.
  apply wp_for_acc with (I := fun k b' s' => I k b' /\ near s s').
  - split; [exact H0|eapply near_refl; eauto].
  - intros k b' s' Hk [HI Hn]. eapply wp_mono; [eapply (Hb k b' Hk HI); eapply R_near; eauto|].
    intros b'' s'' [? ?]. split; [assumption|eapply near_trans; eauto].
  - intros b' s' [? ?]. split; assumption.
Qed.
Lemma q_for_list {B T} (ls : list T) (b : B) body (I : B -> Prop) :
  I b -> (forall x b', In x ls -> I b' -> qt (body x b') I) -> qt (for_list ls b body) I.
Proof.
  intros H0 Hb W l s HR.
  apply wp_for_list with (I := fun _ b' s' => I b' /\ near s s').
  - split; [exact H0|eapply near_refl; eauto].
  - intros pre x suf b' s' Hk [HI Hn]. eapply wp_mono.
    + eapply (Hb x b'); [rewrite Hk; apply in_or_app; right; left; reflexivity|exact HI|eapply R_near; eauto].
    + intros b'' s'' [? ?]. split; [assumption|eapply near_trans; eauto].
  - intros b' s' [? ?]. split; assumption.
Qed.
Lemma q_repeat {T} m (c : M A X T) (Φ : T -> Prop) : qt c Φ -> qt (repeat_M m c) (fun r => List.length r = m /\ Forall Φ r).
Proof.
  intros H. unfold repeat_M.
  apply (q_for_acc m 0 [] _ (fun k acc => List.length acc = k /\ Forall Φ acc)); [split; [reflexivity|constructor]|].
  intros k b _ [Hl Hf]. eapply q_bind; [exact H|]. intros y Hy. apply q_ret.
  split; [rewrite app_length; simpl; lia|]. apply Forall_app; split; [exact Hf|constructor; auto].
Qed.
Lemma q_collect {T} m (c : nat -> M A X T) (Φ : T -> Prop) : (forall i, i < m -> qt (c i) Φ) -> qt (collect m c) (fun r => List.length r = m /\ Forall Φ r).
Proof.
  intros H. unfold collect.
  apply (q_for_acc m 0 [] _ (fun k acc => List.length acc = k /\ Forall Φ acc)); [split; [reflexivity|constructor]|].
  intros k b Hk [Hl Hf]. eapply q_bind; [apply H; lia|]. intros y Hy. apply q_ret.
  split; [rewrite app_length; simpl; lia|]. apply Forall_app; split; [exact Hf|constructor; auto].
Qed.
Lemma q_for m body : (forall k, k < m -> qt (body k) (fun _ => True)) -> qt (for_ m body) (fun _ => True).
Proof.
  intros H. unfold for_. eapply q_mono; [apply (q_for_acc m 0 tt _ (fun _ _ => True)); [exact I|]|trivial].
  intros k [] Hk _. apply H. lia.
Qed.

(** Fragments of MAlg. *)
Lemma q_uniform_in lo hi : qt (uniform_in E lo hi) (fun _ => True).
Proof. eapply q_bind; [apply q_uniform|]. intros; apply q_ret; exact I. Qed.
Lemma q_uvec : qt (uvec E P) (fun v => List.length v = n_dims P).
Proof. apply q_uniform_vec. Qed.
Lemma q_gvec : qt (gvec E P) (fun v => List.length v = n_dims P).
Proof. apply q_gauss_vec. Qed.
Lemma vtab_length f : List.length (vtab P f) = n_dims P.
Proof. unfold vtab. rewrite map_length, seq_length. reflexivity. Qed.
Lemma q_dims f : (forall j, qt (f j) (fun _ => True)) -> qt (dims P f) (fun v => List.length v = n_dims P).
Proof.
  intros H. unfold dims. apply (q_for_acc (n_dims P) 0 [] _ (fun k acc => List.length acc = k)); [reflexivity|].
  intros k acc _ Hl. eapply q_bind; [apply H|]. intros v _. apply q_ret. rewrite app_length; simpl; lia.
Qed.
Lemma q_uniform_box : qt (uniform_box E P) (fun v => List.length v = n_dims P).
Proof. eapply q_bind; [apply q_uvec|]. intros; apply q_ret, vtab_length. Qed.
Lemma q_permutation m : qt (permutation E m) (fun r => List.length r = m /\ Forall (fun i => i < m) r).
Proof.
  eapply q_mono; [apply q_choice_noreplace; rewrite seq_length; lia|]. intros r [Hr [rest Hp]]. split; [exact Hr|].
  apply Forall_forall. intros i Hi. assert (In i (seq 0 m)) by (eapply Permutation_in; [exact Hp|apply in_or_app; auto]).
  apply in_seq in H; lia.
Qed.
Lemma choose2_ok ls : 2 <= List.length ls -> qt (choose2 E ls) (fun p => In (fst p) ls /\ In (snd p) ls).
Proof.
  intros H. eapply q_bind; [apply q_choice_noreplace; exact H|]. intros r [Hr [rest Hp]].
  destruct r as [|a [|b [|]]]; try discriminate. apply q_ret. simpl.
  split; (eapply Permutation_in; [exact Hp|simpl; auto]).
Qed.
Lemma choose3_ok ls : 3 <= List.length ls ->
  qt (choose3 E ls) (fun p => In (fst (fst p)) ls /\ In (snd (fst p)) ls /\ In (snd p) ls).
Proof.
  intros H. eapply q_bind; [apply q_choice_noreplace; exact H|]. intros r [Hr [rest Hp]].
  destruct r as [|a [|b [|c [|]]]]; try discriminate. apply q_ret. simpl.
  repeat split; (eapply Permutation_in; [exact Hp|simpl; auto]).
Qed.
Lemma choose4_ok ls : 4 <= List.length ls ->
  qt (choose4 E ls) (fun p => In (fst (fst (fst p))) ls /\ In (snd (fst (fst p))) ls /\ In (snd (fst p)) ls /\ In (snd p) ls).
Proof.
  intros H. eapply q_bind; [apply q_choice_noreplace; exact H|]. intros r [Hr [rest Hp]].
  destruct r as [|a [|b [|c [|d [|]]]]]; try discriminate. apply q_ret. simpl.
  repeat split; (eapply Permutation_in; [exact Hp|simpl; auto]).
Qed.
Lemma choose5_ok ls : 5 <= List.length ls ->
  qt (choose5 E ls) (fun p => In (fst (fst (fst (fst p)))) ls /\ In (snd (fst (fst (fst p)))) ls /\ In (snd (fst (fst p))) ls /\ In (snd (fst p)) ls /\ In (snd p) ls).
Proof.
  intros H. eapply q_bind; [apply q_choice_noreplace; exact H|]. intros r [Hr [rest Hp]].
  destruct r as [|a [|b [|c [|d [|e [|]]]]]]; try discriminate. apply q_ret. simpl.
  repeat split; (eapply Permutation_in; [exact Hp|simpl; auto 6]).
Qed.
Lemma others_in m excl i : In i (others m excl) -> i < m /\ ~ In i excl.
Proof.
  unfold others. intros H. apply filter_In in H. destruct H as [H1 H2]. apply in_seq in H1. split; [lia|].
  intros HI. apply negb_true_iff in H2. assert (T : existsb (Nat.eqb i) excl = true).
  { apply existsb_exists. exists i. split; [exact HI|apply Nat.eqb_refl]. }
  congruence.
Qed.
Lemma others_length m excl : m <= List.length (others m excl) + List.length excl.
Proof.
  unfold others.
  assert (G : forall ls, NoDup ls -> List.length ls <= List.length (filter (fun i => negb (existsb (Nat.eqb i) excl)) ls) + List.length excl).
  { intros ls Hd. transitivity (List.length (filter (fun i => negb (existsb (Nat.eqb i) excl)) ls) + List.length (filter (fun i => existsb (Nat.eqb i) excl) ls)).
    - clear. induction ls as [|a ls IH]; simpl; [lia|]. destruct (existsb (Nat.eqb a) excl); simpl; lia.
    - apply Nat.add_le_mono_l. apply NoDup_incl_length; [apply NoDup_filter; exact Hd|].
      intros i Hi. apply filter_In in Hi. destruct Hi as [_ Hi]. apply existsb_exists in Hi.
      destruct Hi as (x & Hx & Ex). apply Nat.eqb_eq in Ex. subst; exact Hx. }
  specialize (G (seq 0 m) (seq_NoDup m 0)). rewrite seq_length in G. exact G.
Qed.
Lemma others_ne m excl : List.length excl < m -> others m excl <> [].
Proof. intros H C. pose proof (others_length m excl). rewrite C in H0. simpl in H0. lia. Qed.

Lemma q_correct_with amend x : (forall y, qt (amend y) (fun v => List.length v = n_dims P)) ->
  qt (correct_solution_with P amend x) feas.
Proof.
  intros H. unfold correct_solution_with. eapply q_bind; [apply H|]. intros y Hy.
  eapply q_bind; [apply q_tick|]. intros k _. apply q_ret. apply (proj1 (pr_prob _ _ _ _ _ HP)). exact Hy.
Qed.
Lemma q_amend_clip x : qt (amend_clip P x) (fun v => List.length v = n_dims P).
Proof. apply q_ret, vtab_length. Qed.
Lemma q_amend_random x : qt (amend_random E P x) (fun v => List.length v = n_dims P).
Proof. eapply q_bind; [apply q_uniform_box|]. intros r Hr. apply q_ret, vtab_length. Qed.
Lemma q_amend_gen x : qt (amend_gen P x) (fun v => List.length v = n_dims P).
Proof. eapply q_bind; [apply q_tick|]. intros r Hr. apply q_ret, vtab_length. Qed.
Lemma q_amend_form name x : qt (amend_form E P name x) (fun v => List.length v = n_dims P).
Proof. eapply q_bind; [apply q_tick|]. intros r Hr. apply q_ret, vtab_length. Qed.
Lemma q_correct x : qt (correct_solution P x) feas.
Proof. apply q_correct_with. apply q_amend_clip. Qed.

Lemma q_raw x : any_array P feas -> qt (raw P x) feas.
Proof. intros H. apply q_ret, H, vtab_length. Qed.

Lemma q_res {Y} (r : res Y) : (exists y, r = Ok y) -> qt (lift r) (fun _ => True).
Proof. intros (y & Hy). apply q_lift. eauto. Qed.
Lemma q_fitness (a : agent A) : wf_agent a -> qt (lift (fitness a)) (fun _ => True).
Proof. intros H. apply q_lift. exists (fit a). split; [apply fitness_fit, wf_has_target, H|exact I]. Qed.
Lemma q_fits (p : list (agent A)) : Forall (fun a => wf_agent a /\ feas (sol a)) p ->
  qt (lift (map_res fitness p)) (fun l => List.length l = List.length p).
Proof.
  intros H. apply q_lift. exists (map fit p). split; [|apply map_length]. apply map_res_fitness.
  eapply Forall_impl; [|exact H]. intros a [Ha _]. apply wf_has_target, Ha.
Qed.
Lemma q_getitem {T} (l : list T) i : i < List.length l -> qt (lift (getitem l i)) (fun x => In x l).
Proof. intros H. apply q_lift. destruct (getitem_lt l i H) as (x & E1 & _ & E3). eauto. Qed.
Lemma q_pick {T} (l : list T) idx : Forall (fun i => i < List.length l) idx ->
  qt (lift (pick l idx)) (fun r => List.length r = List.length idx /\ incl r l).
Proof.
  intros H. apply q_lift. unfold pick. induction H as [|i idx Hi H IH].
  - exists []. split; [reflexivity|]. split; [reflexivity|intros x []].
  - destruct IH as (r & Er & Hr & Hl). destruct (getitem_lt l i Hi) as (x & E1 & _ & E3).
    exists (x :: r). cbn [map_res]. rewrite E1. cbn [bind]. rewrite Er. split; [reflexivity|]. simpl. split; [lia|].
    intros y [<-|Hy]; auto.
Qed.
Lemma arg_from_lt before best i bv l : best < i -> arg_from before best i bv l < i + List.length l.
Proof.
  revert best i bv. induction l as [|x r IH]; intros best i bv H; simpl; [lia|].
  match goal with |- context [if ?b then _ else _] => destruct b end.
  - specialize (IH i (S i) x ltac:(lia)). lia.
  - specialize (IH best (S i) bv ltac:(lia)). lia.
Qed.
Lemma q_argmax l : 0 < List.length l -> qt (lift (np_argmax l)) (fun i => i < List.length l).
Proof.
  intros H. apply q_lift. destruct l as [|x r]; [simpl in H; lia|]. eexists; split; [reflexivity|].
  apply (arg_from_lt _ 0 1); lia.
Qed.
Lemma q_argmin l : 0 < List.length l -> qt (lift (np_argmin l)) (fun i => i < List.length l).
Proof.
  intros H. apply q_lift. destruct l as [|x r]; [simpl in H; lia|]. eexists; split; [reflexivity|].
  apply (arg_from_lt _ 0 1); lia.
Qed.
Lemma q_last {T} (l : list T) : 0 < List.length l -> qt (lift (last_item l)) (fun x => In x l).
Proof.
  intros H. apply q_lift. destruct (last_item_nonempty l) as (w & r & E1 & E2); [intros ->; simpl in H; lia|].
  exists w. split; [exact E2|]. rewrite E1. apply in_or_app; right; left; reflexivity.
Qed.
Lemma q_integers_vec lo hi k : lo < hi -> qt (integers_vec E lo hi k) (fun v => List.length v = k).
Proof.
  intros H. eapply q_bind; [apply q_repeat, q_integers; exact H|]. intros l [Hl _]. apply q_ret. rewrite map_length; exact Hl.
Qed.
Lemma q_choice_vec v k : v <> [] -> qt (choice_vec E v k) (fun v => List.length v = k).
Proof. intros H. eapply q_mono; [apply q_repeat, q_choice1; exact H|]. intros l [Hl _]. exact Hl. Qed.
Lemma q_coin p : qt (coin E p) (fun _ => True).
Proof. eapply q_bind; [apply q_uniform|]. intros; apply q_ret; exact I. Qed.
Lemma q_pop_sol i : i < n -> qt (pop_sol i) feas.
Proof. intros H. eapply q_bind; [apply q_pop_at; exact H|]. intros a Ha; apply q_ret; apply Ha. Qed.
Lemma q_pop_fit i : i < n -> qt (pop_fit i) (fun _ => True).
Proof. intros H. eapply q_bind; [apply q_pop_at; exact H|]. intros a Ha; apply q_fitness; apply Ha. Qed.
Lemma q_gb_sol : qt gb_sol feas.
Proof. eapply q_bind; [apply q_get_gb|]. intros a Ha; apply q_ret; apply Ha. Qed.
Lemma q_gb_fit : qt gb_fit (fun _ => True).
Proof. eapply q_bind; [apply q_get_gb|]. intros a Ha; apply q_fitness; apply Ha. Qed.
Lemma q_gw_sol : qt gw_sol feas.
Proof. eapply q_bind; [apply q_get_gw|]. intros a Ha; apply q_ret; apply Ha. Qed.
Lemma q_gw_fit : qt gw_fit (fun _ => True).
Proof. eapply q_bind; [apply q_get_gw|]. intros a Ha; apply q_fitness; apply Ha. Qed.
Lemma q_all_sols : qt all_sols (fun l => List.length l = n /\ Forall feas l).
Proof.
  eapply q_bind; [apply q_get_pop|]. intros p [H1 H2]. apply q_ret. rewrite map_length. split; [exact H1|].
  apply Forall_map. eapply Forall_impl; [|exact H2]. intros a [_ Ha]; exact Ha.
Qed.
Lemma q_all_fits : qt all_fits (fun l => List.length l = n /\ fit_values P feas l).
Proof.
  intros W l s HR. pose proof HR as (V & Hn & _). unfold all_fits. apply wp_bind, wp_get_pop.
  assert (G : Forall (good (s_log s)) (s_pop s)) by apply (v_good _ _ _ _ _ _ _ _ _ _ _ V).
  apply wp_lift with (y := map fit (s_pop s)).
  - apply map_res_fitness. eapply Forall_impl; [|exact G]. intros a Ga. eapply wf_has_target, good_wf; eauto.
  - split; [|eapply near_refl; eauto]. rewrite map_length. split; [exact Hn|]. apply Forall_map. eapply Forall_impl; [|exact G].
    intros a Ga. exists (sol a). split; [apply Ga|eapply good_fit; eauto].
Qed.
Lemma q_roulette l : wheel_ok E P n feas -> 0 < List.length l -> List.length l <= n -> fit_values P feas l -> qt (roulette E P l) (fun i => i < List.length l).
Proof.
  intros Hw Hl Hln Hf W m s HR. assert (Hne : l <> []) by (intros ->; simpl in Hl; lia). destruct (Hw A X s l Hne Hln Hf) as (i & k & Er & Hi). unfold wp. rewrite Er.
  split; [exact Hi|eapply near_bump; eauto].
Qed.
Lemma q_rnum name v : qt (rnum E name v) (fun _ => True).
Proof. unfold rnum. eapply q_bind; [apply q_tick|]. intros k _. apply q_ret. exact I. Qed.
Lemma q_rform name v : qt (rform E P name v) (fun x => List.length x = n_dims P).
Proof. unfold rform. eapply q_bind; [apply q_tick|]. intros k _. apply q_ret. apply vtab_length. Qed.
Lemma q_rtest name v : qt (rtest E name v) (fun _ => True).
Proof. unfold rtest. eapply q_bind; [apply q_rnum|]. intros k _. apply q_ret. exact I. Qed.
Lemma q_rlist m name reads : qt (rlist E m name reads) (fun l => List.length l = m).
Proof. eapply q_bind; [apply q_tick|]. intros k _. apply q_ret. rewrite map_length, seq_length. reflexivity. Qed.
Lemma q_view : qt view (fun l => List.length l = S n).
Proof.
  unfold view. eapply q_bind; [apply q_gb_sol|]. intros g _. eapply q_bind; [apply q_all_sols|]. intros l [H _]. apply q_ret. simpl; lia.
Qed.
Lemma q_view_fit : qt view_fit (fun _ => True).
Proof.
  unfold view_fit. eapply q_bind; [apply q_view|]. intros v _. eapply q_bind; [apply q_all_fits|]. intros l _.
  eapply q_bind; [apply q_gb_fit|]. intros f _. apply q_ret. exact I.
Qed.
Lemma q_view_worst : qt view_worst (fun _ => True).
Proof.
  unfold view_worst. eapply q_bind; [apply q_view_fit|]. intros v _. eapply q_bind; [apply q_gw_sol|]. intros l _.
  eapply q_bind; [apply q_gw_fit|]. intros f _. apply q_ret. exact I.
Qed.
Lemma q_better_idxs i : i < n -> qt (better_idxs P i) (fun l => Forall (fun k => k < n) l).
Proof.
  intros Hi. unfold better_idxs. eapply q_bind; [apply q_all_fits|]. intros fs [Hf _]. eapply q_bind; [apply q_pop_fit; exact Hi|].
  intros f _. apply q_ret. apply Forall_forall. intros k Hk. apply filter_In in Hk. destruct Hk as [Hk _]. rewrite Hf in Hk. apply in_seq in Hk. lia.
Qed.
Lemma q_compare (a b : agent A) mm : wf_agent a -> wf_agent b -> qt (lift (compare_agents a b mm)) (fun _ => True).
Proof.
  intros (t & E1 & _) (u & E2 & _). apply q_lift. unfold compare_agents. rewrite E1, E2. eexists; split; [reflexivity|exact I].
Qed.
Lemma Forall_wf_target (p : list (agent A)) : Forall (fun a => wf_agent a /\ feas (sol a)) p -> Forall has_target p.
Proof. intros H. eapply Forall_impl; [|exact H]. intros a [Ha _]. apply wf_has_target, Ha. Qed.
Lemma copies_ok (p : list (agent A)) : Forall (fun a => wf_agent a /\ feas (sol a)) p -> map_res agent_copy p = Ok p.
Proof.
  intros H. rewrite (map_res_all_ok _ (fun a => a)); [rewrite map_id; reflexivity|].
  intros a Ha. apply agent_copy_wf. rewrite Forall_forall in H. apply H; exact Ha.
Qed.
(** Sorting, best and worst agents. *)
Lemma q_sorted (p : list (agent A)) : Forall (fun a => wf_agent a /\ feas (sol a)) p ->
  qt (lift (get_sorted_population (e_argsort E) p (p_mm P)))
     (fun r => List.length (fst r) = List.length p /\ Forall (fun a => wf_agent a /\ feas (sol a)) (fst r) /\
               List.length (snd r) = List.length p /\ Forall (fun i => i < List.length p) (snd r)).
Proof.
  intros H. apply q_lift.
  destruct (sorted_population_spec _ (pr_argsort _ _ _ _ _ HP) p (p_mm P) (Forall_wf_target p H)) as (sp & ix & Es & Hix & _ & Hp & _).
  exists (sp, ix). split; [exact Es|]. simpl. split; [apply Permutation_length; exact Hp|]. split.
  - rewrite Forall_forall in *. intros a Ha. apply H. eapply Permutation_in; eauto.
  - split; [rewrite (Permutation_length Hix), seq_length; reflexivity|]. apply Forall_forall. intros i Hi.
    apply (Permutation_in _ Hix) in Hi. apply in_seq in Hi. lia.
Qed.
Lemma q_special (p : list (agent A)) nb nw : Forall (fun a => wf_agent a /\ feas (sol a)) p ->
  qt (lift (get_special_agents (e_argsort E) p (Some nb) (Some nw) (p_mm P)))
     (fun r => exists sp b w, r = (sp, Some b, Some w) /\
        List.length sp = List.length p /\ Forall (fun a => wf_agent a /\ feas (sol a)) sp /\
        List.length b = Nat.min nb (List.length p) /\ Forall (fun a => wf_agent a /\ feas (sol a)) b /\
        List.length w = Nat.min nw (List.length p) /\ Forall (fun a => wf_agent a /\ feas (sol a)) w).
Proof.
  intros H. apply q_lift.
  destruct (sorted_population_spec _ (pr_argsort _ _ _ _ _ HP) p (p_mm P) (Forall_wf_target p H)) as (sp & ix & Es & Hix & _ & Hp & _).
  assert (Hsp : Forall (fun a => wf_agent a /\ feas (sol a)) sp).
  { rewrite Forall_forall in *. intros a Ha. apply H. eapply Permutation_in; eauto. }
  assert (Hb : Forall (fun a => wf_agent a /\ feas (sol a)) (firstn nb sp)).
  { rewrite Forall_forall in *. intros a Ha. apply Hsp. rewrite <- (firstn_skipn nb sp). apply in_or_app; auto. }
  assert (Hw : Forall (fun a => wf_agent a /\ feas (sol a)) (firstn nw (rev sp))).
  { rewrite Forall_forall in *. intros a Ha. apply Hsp. apply in_rev. rewrite <- (firstn_skipn nw (rev sp)). apply in_or_app; auto. }
  exists (sp, Some (firstn nb sp), Some (firstn nw (rev sp))). split.
  - unfold get_special_agents. rewrite Es. cbn [bind]. rewrite (copies_ok _ Hb), (copies_ok _ Hw). reflexivity.
  - exists sp, (firstn nb sp), (firstn nw (rev sp)).
    rewrite !firstn_length, rev_length, (Permutation_length Hp). repeat split; auto.
Qed.
Lemma q_specials (p : list (agent A)) nb nw : Forall (fun a => wf_agent a /\ feas (sol a)) p ->
  qt (special E P p nb nw)
     (fun r => exists sp b w, r = (sp, b, w) /\
        List.length sp = List.length p /\ Forall (fun a => wf_agent a /\ feas (sol a)) sp /\
        List.length b = Nat.min nb (List.length p) /\ Forall (fun a => wf_agent a /\ feas (sol a)) b /\
        List.length w = Nat.min nw (List.length p) /\ Forall (fun a => wf_agent a /\ feas (sol a)) w).
Proof.
  intros H. unfold special. eapply q_bind; [apply q_special; exact H|]. intros r (sp & b & w & -> & Hr). apply q_ret. exists sp, b, w. auto.
Qed.
Lemma q_greedy (p q : list (agent A)) : Forall (fun a => wf_agent a /\ feas (sol a)) p -> Forall (fun a => wf_agent a /\ feas (sol a)) q ->
  List.length p = List.length q ->
  qt (lift (greedy_selection_population p q (p_mm P))) (fun r => List.length r = List.length p /\ Forall (fun a => wf_agent a /\ feas (sol a)) r).
Proof.
  intros H1 H2 Hl. apply q_lift. eexists. split; [apply greedy_ok; [apply Forall_wf_target; exact H1|apply Forall_wf_target; exact H2|exact Hl]|].
  split; [rewrite map_length, combine_length; lia|]. rewrite Forall_forall in *. intros a Ha. apply in_map_iff in Ha.
  destruct Ha as ([o m] & <- & Hc). simpl. destruct (greedy_pick_cases (p_mm P) o m) as [->| ->];
    [apply H1; eapply in_combine_l; eauto|apply H2; eapply in_combine_r; eauto].
Qed.
Lemma q_trimmed (p : list (agent A)) m : Forall (fun a => wf_agent a /\ feas (sol a)) p ->
  qt (lift (get_sorted_and_trimmed_population (e_argsort E) p m (p_mm P)))
     (fun r => List.length r = Nat.min m (List.length p) /\ Forall (fun a => wf_agent a /\ feas (sol a)) r).
Proof.
  intros H. apply q_lift.
  destruct (sorted_population_spec _ (pr_argsort _ _ _ _ _ HP) p (p_mm P) (Forall_wf_target p H)) as (sp & ix & Es & Hix & _ & Hp & _).
  eexists. split; [unfold get_sorted_and_trimmed_population; rewrite Es; reflexivity|].
  rewrite firstn_length, (Permutation_length Hp). split; [reflexivity|]. rewrite Forall_forall in *. intros a Ha. apply H.
  eapply Permutation_in; [exact Hp|]. rewrite <- (firstn_skipn m sp). apply in_or_app; auto.
Qed.
Lemma q_better (a b : agent A) : (wf_agent a /\ feas (sol a)) -> (wf_agent b /\ feas (sol b)) ->
  qt (lift (get_better_agent a b (p_mm P) false)) (fun r => wf_agent r /\ feas (sol r)).
Proof.
  intros Ha Hb. apply q_lift. destruct (get_better_agent_wf a b (p_mm P) false (proj1 Ha) (proj1 Hb) (pr_mm _ _ _ _ _ HP)) as (r & Er & [->| ->]); eauto.
Qed.
Lemma q_best (p : list (agent A)) : Forall (fun a => wf_agent a /\ feas (sol a)) p -> 0 < List.length p ->
  qt (lift (get_best_agent (e_argsort E) p (p_mm P))) (fun r => (wf_agent (fst r) /\ feas (sol (fst r))) /\ snd r < List.length p).
Proof.
  intros H Hl. apply q_lift.
  destruct (sorted_population_spec _ (pr_argsort _ _ _ _ _ HP) p (p_mm P) (Forall_wf_target p H)) as (sp & ix & Es & Hix & _ & Hp & _).
  assert (Hsp : Forall (fun a => wf_agent a /\ feas (sol a)) sp).
  { rewrite Forall_forall in *. intros a Ha. apply H. eapply Permutation_in; eauto. }
  pose proof (Permutation_length Hp) as L1. pose proof (Permutation_length Hix) as L2. rewrite seq_length in L2.
  destruct sp as [|a sp]; [simpl in L1; lia|]. destruct ix as [|i ix]; [simpl in L2; lia|].
  inversion Hsp as [|? ? Ha _]; subst. exists (a, i). unfold get_best_agent. rewrite Es. cbn [bind getitem nth_error].
  rewrite (agent_copy_wf a) by apply Ha. cbn [bind]. split; [reflexivity|]. simpl. split; [exact Ha|].
  assert (In i (seq 0 (List.length p))) by (eapply Permutation_in; [exact Hix|left; reflexivity]). apply in_seq in H0; lia.
Qed.
Lemma q_worst (p : list (agent A)) : Forall (fun a => wf_agent a /\ feas (sol a)) p -> 0 < List.length p ->
  qt (lift (get_worst_agent (e_argsort E) p (p_mm P))) (fun r => (wf_agent (fst r) /\ feas (sol (fst r))) /\ snd r < List.length p).
Proof.
  intros H Hl. apply q_lift.
  destruct (sorted_population_spec _ (pr_argsort _ _ _ _ _ HP) p (p_mm P) (Forall_wf_target p H)) as (sp & ix & Es & Hix & _ & Hp & _).
  assert (Hsp : Forall (fun a => wf_agent a /\ feas (sol a)) sp).
  { rewrite Forall_forall in *. intros a Ha. apply H. eapply Permutation_in; eauto. }
  pose proof (Permutation_length Hp) as L1. pose proof (Permutation_length Hix) as L2. rewrite seq_length in L2.
  destruct (last_item_nonempty sp) as (a & l' & Ea & El); [intros ->; simpl in L1; lia|].
  destruct (last_item_nonempty ix) as (i & m' & Ei & Em); [intros ->; simpl in L2; lia|].
  assert (Ha : wf_agent a /\ feas (sol a)).
  { rewrite Forall_forall in Hsp. apply Hsp. rewrite Ea. apply in_or_app; right; left; reflexivity. }
  exists (a, i). unfold get_worst_agent. rewrite Es. cbn [bind]. rewrite El, Em. cbn [bind].
  rewrite (agent_copy_wf a) by apply Ha. cbn [bind]. split; [reflexivity|]. simpl. split; [exact Ha|].
  assert (HI : In i (seq 0 (List.length p))).
  { eapply Permutation_in; [exact Hix|]. rewrite Ei. apply in_or_app; right; left; reflexivity. } apply in_seq in HI; lia.
Qed.

(** ** Blocks *)
Lemma b_quiet {Y} (m : M A X Y) Φ : qt m Φ -> blk 0 0 m Φ.
Proof.
  intros H W l s HR. eapply wp_mono; [eapply H; eauto|]. intros y s' [Hy Hn]. split; [exact Hy|].
  exists 0. split; [lia|]. rewrite Nat.add_0_r. eapply R_near; eauto.
Qed.
Lemma b_mono {Y} a b a' b' (m : M A X Y) (Φ Ψ : Y -> Prop) :
  blk a b m Φ -> a' <= a -> b <= b' -> (forall y, Φ y -> Ψ y) -> blk a' b' m Ψ.
Proof.
  intros H Ha Hb HI W l s HR. eapply wp_mono; [eapply H; eauto|]. intros y s' (Hy & k & Hk & HR').
  split; [auto|]. exists k. split; [lia|exact HR'].
Qed.
Lemma b_bind {Y Z} a b c d (m : M A X Y) (f : Y -> M A X Z) (Φ : Y -> Prop) (Ψ : Z -> Prop) :
  blk a b m Φ -> (forall y, Φ y -> blk c d (f y) Ψ) -> blk (a + c) (b + d) (bindM m f) Ψ.
Proof.
  intros H1 H2 W l s HR. apply wp_bind. eapply wp_mono; [eapply H1; eauto|]. intros y s' (Hy & k & Hk & HR').
  eapply wp_mono; [eapply H2; eauto|]. intros z s'' (Hz & k' & Hk' & HR''). split; [exact Hz|].
  exists (k + k'). split; [lia|]. rewrite Nat.add_assoc. exact HR''.
Qed.
(** A quiet prefix. *)
Lemma b_qbind {Y Z} c d (m : M A X Y) (f : Y -> M A X Z) (Φ : Y -> Prop) (Ψ : Z -> Prop) :
  qt m Φ -> (forall y, Φ y -> blk c d (f y) Ψ) -> blk c d (bindM m f) Ψ.
Proof. intros H1 H2. apply (b_bind 0 0 c d m f Φ Ψ); [apply b_quiet; exact H1|exact H2]. Qed.
Lemma b_ret {Y} (y : Y) (Φ : Y -> Prop) : Φ y -> blk 0 0 (ret y) Φ.
Proof. intros H. apply b_quiet, q_ret, H. Qed.
Lemma b_if {Y} a b (t : bool) (m1 m2 : M A X Y) Φ : (t = true -> blk a b m1 Φ) -> (t = false -> blk a b m2 Φ) ->
  blk a b (if t then m1 else m2) Φ.
Proof. destruct t; auto. Qed.
Lemma b_when a (t : bool) m : (t = true -> blk a a m (fun _ => True)) -> blk 0 a (when t m) (fun _ => True).
Proof.
  intros H. destruct t; simpl.
  - eapply b_mono; [apply H; reflexivity| | |]; [lia|lia|trivial].
  - eapply b_mono; [apply (b_ret tt (fun _ => True)); exact I| | |]; [lia|lia|trivial].
Qed.
Lemma b_ifm {Y} a b c d (t : bool) (m1 m2 : M A X Y) Φ : (t = true -> blk a b m1 Φ) -> (t = false -> blk c d m2 Φ) ->
  blk (Nat.min a c) (Nat.max b d) (if t then m1 else m2) Φ.
Proof.
  intros H1 H2. destruct t; [eapply b_mono; [apply H1; reflexivity| | |]|eapply b_mono; [apply H2; reflexivity| | |]]; auto; lia.
Qed.
Lemma b_whenm a b (t : bool) m : (t = true -> blk a b m (fun _ => True)) -> blk 0 b (when t m) (fun _ => True).
Proof.
  intros H. destruct t; simpl.
  - eapply b_mono; [apply H; reflexivity| | |]; [lia|lia|trivial].
  - eapply b_mono; [apply (b_ret tt (fun _ => True)); exact I| | |]; [lia|lia|trivial].
Qed.
Lemma b_for a b m body : (forall k, k < m -> blk a b (body k) (fun _ => True)) -> blk (m * a) (m * b) (for_ m body) (fun _ => True).
Proof.
  intros H W l s HR.
  apply wp_for with (I := fun k s' => exists j, k * a <= j <= k * b /\ R W (l + j) s').
  - exists 0. rewrite Nat.add_0_r. split; [lia|exact HR].
  - intros k s' Hk (j & Hj & HR'). eapply wp_mono; [apply (H k Hk W _ s' HR')|].
    intros y s'' (_ & i & Hi & HR''). exists (j + i). split; [lia|]. rewrite Nat.add_assoc; exact HR''.
  - intros s' Hs. split; [exact I|exact Hs].
Qed.
Lemma b_for_list {T} a b (ls : list T) body : (forall x, In x ls -> blk a b (body x tt) (fun _ => True)) ->
  blk (List.length ls * a) (List.length ls * b) (for_list ls tt body) (fun _ => True).
Proof.
  intros H W l s HR.
  apply wp_for_list with (I := fun pre _ s' => exists j, List.length pre * a <= j <= List.length pre * b /\ R W (l + j) s').
  - exists 0. simpl. rewrite Nat.add_0_r. split; [lia|exact HR].
  - intros pre x suf [] s' Hk (j & Hj & HR'). eapply wp_mono.
    + apply (H x) with (W := W) (l := l + j); [rewrite Hk; apply in_or_app; right; left; reflexivity|exact HR'].
    + intros y s'' (_ & i & Hi & HR''). exists (j + i). rewrite app_length; simpl. split; [lia|]. rewrite Nat.add_assoc; exact HR''.
  - intros [] s' Hs. split; [exact I|exact Hs].
Qed.

(** ** Candidates *)
Variable correct : vec -> M A X vec.
Variable gea : option vec -> M A X (agent A).
(** Corrected solutions are admissible; a new agent has the given solution and acceptable attributes. *)
Definition fresh_agent (a : agent A) : Prop := feas (sol a) /\ forall L, In (sol a) L -> attok L (att a).
Hypothesis Hcorrect : forall x, qt (correct x) feas.
Hypothesis Hgea : forall x, feas x -> qt (gea (Some x)) fresh_agent.

Lemma q_propose x : qt (propose correct gea x) fresh_agent.
Proof. eapply q_bind; [apply Hcorrect|]. intros y Hy. apply Hgea; exact Hy. Qed.

Lemma fresh_eval a L : fresh_agent a -> In (sol a) L -> good L (with_tgt a (prob_target P (sol a))).
Proof. intros [Hf Ha] H. constructor; simpl; auto. Qed.

Lemma R_eval W l s a : R W l s -> fresh_agent a ->
  R (W ++ [with_tgt a (prob_target P (sol a))]) (l + 1) (evald s [sol a]).
Proof.
  intros (V & Hn & Hl) Ha. split; [|split; [exact Hn|simpl; rewrite app_length; simpl; lia]].
  change [sol a] with (map sol [with_tgt a (prob_target P (sol a))]).
  apply Ev_eval; [apply HP|apply HP|apply HP|exact V|]. constructor; [|constructor]. destruct Ha as [Hf Ha].
  split; [reflexivity|]. split; [exact Hf|]. apply Ha. apply in_or_app; right; left; reflexivity.
Qed.

(** The evaluated agent is held locally. *)
Lemma wp_evaluate W l s a (Q : agent A -> st A X -> Prop) : R W l s -> fresh_agent a ->
  (forall a' s', good (s_log s') a' -> R (W ++ [a']) (l + 1) s' -> s_pop s' = s_pop s -> s_x s' = s_x s -> sol a' = sol a -> att a' = att a -> Q a' s') -> wp (evaluate P a) Q s.
Proof.
  intros HR Ha H. unfold evaluate. apply wp_bind, wp_get_target, wp_ret.
  apply H; try reflexivity; [|apply R_eval; assumption]. apply fresh_eval; [exact Ha|].
  apply in_or_app; right; left; reflexivity.
Qed.
Lemma wp_gen_agent W l s x (Q : agent A -> st A X -> Prop) : R W l s ->
  (forall a s', good (s_log s') a -> R (W ++ [a]) (l + 1) s' -> s_pop s' = s_pop s -> Q a s') ->
  wp (gen_agent P correct gea x) Q s.
Proof.
  intros HR H. unfold gen_agent. apply wp_bind. eapply wp_mono; [eapply q_propose; exact HR|].
  intros a s' [Ha Hn]. eapply wp_evaluate; [eapply R_near; eauto|exact Ha|]. intros a' s'' G HR' Ep _ _ _.
  apply H; auto. rewrite Ep. eapply near_pop; eauto.
Qed.

Lemma wp_gen_at W l s y (Q : agent A -> st A X -> Prop) : R W l s -> feas y ->
  (forall a s', good (s_log s') a -> R (W ++ [a]) (l + 1) s' -> s_pop s' = s_pop s -> Q a s') ->
  wp (gen_at P gea y) Q s.
Proof.
  intros HR Hy H. unfold gen_at. apply wp_bind. eapply wp_mono; [eapply Hgea; [exact Hy|exact HR]|].
  intros a s' [Ha Hn]. eapply wp_evaluate; [eapply R_near; eauto|exact Ha|]. intros a' s'' G HR' Ep _ _ _.
  apply H; auto. rewrite Ep. eapply near_pop; eauto.
Qed.
Lemma q_correct_list xs : qt (correct_list correct xs) (fun ys => List.length ys = List.length xs /\ Forall feas ys).
Proof.
  intros W l s HR. unfold correct_list.
  apply wp_for_list with (I := fun pre ys s' => near s s' /\ List.length ys = List.length pre /\ Forall feas ys).
  - split; [eapply near_refl; eauto|]. split; [reflexivity|constructor].
  - intros pre x suf ys s' _ (Hn & Hl & Hf). apply wp_bind. eapply wp_mono; [eapply Hcorrect; eapply R_near; eauto|].
    intros y s'' [Hy Hn']. apply wp_ret. split; [eapply near_trans; eauto|]. rewrite !app_length. simpl. split; [lia|].
    apply Forall_app; split; [exact Hf|constructor; auto].
  - intros ys s' (Hn & Hl & Hf). auto.
Qed.
Lemma wp_gen_list W l s ys (Q : list (agent A) -> st A X -> Prop) : R W l s -> Forall feas ys ->
  (forall new s', List.length new = List.length ys -> Forall (good (s_log s')) new ->
     R (W ++ new) (l + List.length ys) s' -> s_pop s' = s_pop s -> Q new s') ->
  wp (gen_list P gea ys) Q s.
Proof.
  intros HR Hf HQ. unfold gen_list.
  apply wp_for_list with (I := fun pre new s' => List.length new = List.length pre /\ Forall (good (s_log s')) new /\
     R (W ++ new) (l + List.length pre) s' /\ s_pop s' = s_pop s).
  - split; [reflexivity|]. split; [constructor|]. rewrite app_nil_r, Nat.add_0_r. split; [exact HR|reflexivity].
  - intros pre y suf new s' Hy (Hl & _ & HR' & Hp). apply wp_bind. eapply wp_gen_at; [exact HR'| |].
    + rewrite Forall_forall in Hf. apply Hf. rewrite Hy. apply in_or_app; right; left; reflexivity.
    + intros a s'' Ga HR'' Hp'. apply wp_ret. rewrite !app_length. simpl. split; [lia|].
      rewrite <- app_assoc in HR''. replace (l + (List.length pre + 1)) with (l + List.length pre + 1) by lia.
      split; [|split; [exact HR''|congruence]]. destruct HR'' as (V & _).
      pose proof (v_W _ _ _ _ _ _ _ _ _ _ _ V) as GW. rewrite Forall_app in GW. tauto.
  - intros new s' (H1 & H2 & H3 & H4). apply HQ; auto.
Qed.

(** Put an agent at hand into slot [i] when nothing is lost by it. *)
Lemma R_pop_set W l s i a : R (W ++ [a]) l s -> i < n -> forall r, good (s_log s) r ->
  (cov -> forall b, nth_error (s_pop s) i = Some b -> no_worse (p_mm P) (fit r) (fit b)) ->
  (cov -> no_worse (p_mm P) (fit r) (fit a)) ->
  R W l (with_pop s (upd (s_pop s) i r)).
Proof.
  intros (V & Hn & Hl) Hi r Gr H1 H2. split; [|split; [simpl; rewrite upd_length; exact Hn|exact Hl]].
  apply Ev_pop_set with (W := W ++ [a]); [apply HP|apply HP|exact V|lia|exact Gr|apply incl_appl, incl_refl|].
  intros C g b Hg [Hb|Hb]; [right; left; apply H1; assumption|].
  apply in_app_or in Hb. destruct Hb as [Hb|[<-|[]]]; [right; right; exact Hb|right; left; apply H2; exact C].
Qed.
(** Forget the agent at hand. *)
Lemma R_forget W l s a : R (W ++ [a]) l s ->
  (cov -> exists b, In b (s_pop s) /\ no_worse (p_mm P) (fit b) (fit a)) -> R W l s.
Proof.
  intros (V & Hn & Hl) H. split; [|split; assumption].
  eapply Ev_drop; [apply HP|apply HP|exact V|apply incl_appl, incl_refl|].
  intros C g b Hg Hb. right. apply in_app_or in Hb. destruct Hb as [Hb|[<-|[]]].
  - exists b. split; [apply in_or_app; auto|]. apply no_worse_refl; [apply HP|].
    eapply good_num; [apply HP; exact C|]. eapply Ev_W_good; [exact V|apply in_or_app; auto].
  - destruct (H C) as (b & Hb & Hw). exists b. split; [apply in_or_app; auto|exact Hw].
Qed.

(** Of agents at hand only one that is at least as good as the others is kept. *)
Lemma R_keep_one W l s new b : R (W ++ new) l s -> In b new ->
  (cov -> forall a, In a new -> no_worse (p_mm P) (fit b) (fit a)) -> R (W ++ [b]) l s.
Proof.
  intros (V & Hn & Hl) Hb HB. split; [|split; assumption].
  eapply Ev_drop; [apply HP|apply HP|exact V| |].
  { intros x Hx. apply in_app_or in Hx. apply in_or_app. destruct Hx as [|[<-|[]]]; auto. }
  intros C g a Hg Ha. right. apply in_app_or in Ha. destruct Ha as [Ha|Ha].
  - exists a. split; [apply in_or_app; right; apply in_or_app; auto|]. apply no_worse_refl; [apply HP|].
    eapply good_num; [apply HP; exact C|]. eapply Ev_W_good; [exact V|apply in_or_app; auto].
  - exists b. split; [apply in_or_app; right; apply in_or_app; right; left; reflexivity|]. apply HB; assumption.
Qed.
Lemma best_agent_ok L new : Forall (good L) new -> new <> [] ->
  exists b i, get_best_agent (e_argsort E) new (p_mm P) = Ok (b, i) /\ In b new /\ good L b /\ i < List.length new /\
    (cov -> forall a, In a new -> no_worse (p_mm P) (fit b) (fit a)).
Proof.
  intros Hg Hne.
  destruct (sorted_population_spec _ (pr_argsort _ _ _ _ _ HP) new (p_mm P) (Forall_good_target _ _ _ _ _ Hg))
    as (sp & ix & Es & Hix & _ & Hp & Hs).
  pose proof (Permutation_length Hp) as L1. pose proof (Permutation_length Hix) as L2. rewrite seq_length in L2.
  destruct sp as [|b sp]; [destruct new; [congruence|simpl in L1; lia]|].
  destruct ix as [|i ix]; [destruct new; [congruence|simpl in L2; lia]|].
  assert (Hb : In b new) by (eapply Permutation_in; [exact Hp|left; reflexivity]).
  rewrite Forall_forall in Hg. exists b, i. split.
  - unfold get_best_agent. rewrite Es. cbn [bind getitem nth_error].
    rewrite (agent_copy_wf b) by (eapply good_wf, Hg, Hb). reflexivity.
  - split; [exact Hb|]. split; [apply Hg; exact Hb|]. split.
    + assert (HI : In i (seq 0 (List.length new))) by (eapply Permutation_in; [exact Hix|left; reflexivity]). apply in_seq in HI; lia.
    + intros C a Ha. pose proof (pr_cov _ _ _ _ _ HP C) as N.
      apply npord_no_worse; [apply HP|eapply good_num; [exact N|apply Hg; exact Hb]|eapply good_num; [exact N|apply Hg; exact Ha]|].
      simpl in Hs. apply (SSorted_head (npord (p_mm P)) (fit b) (map fit sp)); [apply npord_refl|exact Hs|].
      change (fit b :: map fit sp) with (map fit (b :: sp)). apply in_map. eapply Permutation_in; [symmetry; exact Hp|exact Ha].
Qed.

Lemma wp_keep_better W l s nf i a (Q : unit -> st A X -> Prop) : R (W ++ [a]) l s -> good (s_log s) a -> i < n ->
  (forall s', R W l s' -> Q tt s') -> wp (keep_better P nf i a) Q s.
Proof.
  intros HR Ga Hi H. pose proof HR as (V & Hn & Hl). unfold keep_better. apply wp_bind, wp_pop_at; [lia|].
  intros old E1 Hin. pose proof (Ev_pop_good _ _ _ _ _ _ _ _ _ _ _ _ V Hin) as Go.
  apply wp_bind.
  assert (B : exists r, (if nf then get_better_agent a old (p_mm P) false else get_better_agent old a (p_mm P) false) = Ok r /\
     good (s_log s) r /\ (num (fit a) -> num (fit old) -> no_worse (p_mm P) (fit r) (fit a) /\ no_worse (p_mm P) (fit r) (fit old))).
  { destruct nf.
    - destruct (good_get_better P feas attok (pr_mm _ _ _ _ _ HP) _ a old false Ga Go) as (r & Er & _ & Gr & Hr). eauto.
    - destruct (good_get_better P feas attok (pr_mm _ _ _ _ _ HP) _ old a false Go Ga) as (r & Er & _ & Gr & Hr).
      exists r. split; [exact Er|]. split; [exact Gr|]. intros. destruct (Hr H1 H0). split; assumption. }
  destruct B as (r & Er & Gr & Hr). eapply wp_lift; [exact Er|].
  apply wp_pop_set; [lia|]. apply H.
  apply (R_pop_set W l s i a HR Hi r Gr).
  - intros C b Eb. rewrite E1 in Eb. inversion Eb; subst b. apply Hr; (eapply good_num; [apply HP; exact C|eassumption]).
  - intros C. apply Hr; (eapply good_num; [apply HP; exact C|eassumption]).
Qed.

Lemma compare_agents_ok L a b : good L a -> good L b ->
  exists c, compare_agents a b (p_mm P) = Ok c /\
    (num (fit a) -> num (fit b) -> if c then no_worse (p_mm P) (fit a) (fit b) else no_worse (p_mm P) (fit b) (fit a)).
Proof.
  intros Ga Gb. unfold compare_agents, fit. rewrite (g_tgt _ _ _ _ _ Ga), (g_tgt _ _ _ _ _ Gb).
  eexists; split; [reflexivity|]. unfold compare_target.
  destruct (pr_mm _ _ _ _ _ HP) as [Em|Em]; rewrite Em; intros Na Nb.
  - destruct (flt _ _) eqn:Ef; simpl; [apply flt_le; exact Ef|apply flt_false_le; assumption].
  - destruct (flt _ _) eqn:Ef; simpl; [apply flt_le; exact Ef|apply flt_false_le; assumption].
Qed.

Lemma wp_accept W l s i a (Q : unit -> st A X -> Prop) : R (W ++ [a]) l s -> good (s_log s) a -> i < n ->
  (forall s', R W l s' -> Q tt s') -> wp (accept P i a) Q s.
Proof.
  intros HR Ga Hi H. pose proof HR as (V & Hn & Hl). unfold accept. apply wp_bind, wp_pop_at; [lia|].
  intros old E1 Hin. pose proof (Ev_pop_good _ _ _ _ _ _ _ _ _ _ _ _ V Hin) as Go.
  destruct (compare_agents_ok _ a old Ga Go) as (c & Ec & Hc). apply wp_bind. eapply wp_lift; [exact Ec|].
  assert (N : cov -> num (fit a) /\ num (fit old)).
  { intros C. split; (eapply good_num; [apply HP; exact C|eassumption]). }
  apply wp_when; intros ->.
  - apply wp_pop_set; [lia|]. apply H. apply (R_pop_set W l s i a HR Hi a Ga).
    + intros C b Eb. rewrite E1 in Eb. inversion Eb; subst b. apply Hc; apply N; exact C.
    + intros C. apply no_worse_refl; [apply HP|apply N; exact C].
  - apply H. eapply R_forget; [exact HR|]. intros C. exists old. split; [exact Hin|]. apply Hc; apply N; exact C.
Qed.

Lemma b_try_improve i x : i < n -> blk 1 1 (try_improve P correct gea i x) (fun _ => True).
Proof.
  intros Hi W l s HR. unfold try_improve. apply wp_bind. eapply wp_gen_agent; [exact HR|]. intros a s' Ga HR' _.
  eapply wp_accept; [exact HR'|exact Ga|exact Hi|]. intros s'' HR''. split; [exact I|]. exists 1. split; [lia|exact HR''].
Qed.
Lemma b_try_improve_b i x : i < n -> blk 1 1 (try_improve_b P correct gea i x) (fun r => feas (snd r)).
Proof.
  intros Hi W l s HR. unfold try_improve_b. apply wp_bind. eapply wp_gen_agent; [exact HR|]. intros a s' Ga HR' _.
  pose proof HR' as (V & Hn & _). apply wp_bind, wp_pop_at; [lia|]. intros old E1 Hin.
  pose proof (Ev_pop_good _ _ _ _ _ _ _ _ _ _ _ _ V Hin) as Go.
  destruct (compare_agents_ok _ a old Ga Go) as (c & Ec & Hc). apply wp_bind. eapply wp_lift; [exact Ec|].
  pose proof HR' as HR2. assert (N : cov -> num (fit a) /\ num (fit old)).
  { intros C. split; (eapply good_num; [apply HP; exact C|eassumption]). }
  apply wp_bind. apply wp_when; intros ->.
  - apply wp_pop_set; [lia|]. apply wp_ret. split; [apply Ga|]. exists 1. split; [lia|].
    apply (R_pop_set W (l + 1) s' i a HR' Hi a Ga).
    + intros C b Eb. rewrite E1 in Eb. inversion Eb; subst b. apply Hc; apply N; exact C.
    + intros C. apply no_worse_refl; [apply HP|apply N; exact C].
  - apply wp_ret. split; [apply Ga|]. exists 1. split; [lia|].
    eapply R_forget; [exact HR'|]. intros C. exists old. split; [exact Hin|]. apply Hc; apply N; exact C.
Qed.
(** Correct, evaluate, keep the better one. *)
Lemma b_gen_keep nf i x : i < n -> blk 1 1 (gen_keep P correct gea nf i x) (fun _ => True).
Proof.
  intros Hi W l s HR. unfold gen_keep. apply wp_bind. eapply wp_gen_agent; [exact HR|]. intros a s' Ga HR' _.
  eapply wp_keep_better; [exact HR'|exact Ga|exact Hi|]. intros s'' HR''. split; [exact I|]. exists 1. split; [lia|exact HR''].
Qed.

(** The best of several new agents against slot [i]. *)
Lemma b_best_keep nf i ys : i < n -> Forall feas ys -> ys <> [] ->
  blk (List.length ys) (List.length ys)
    (best_keep E P gea nf i ys) (fun _ => True).
Proof.
  intros Hi Hf Hne W l s HR. unfold best_keep. apply wp_bind. eapply wp_gen_list; [exact HR|exact Hf|]. intros new s' Hl Hg HR' _.
  assert (Hne' : new <> []) by (destruct new; [destruct ys; [congruence|discriminate]|congruence]).
  destruct (best_agent_ok _ new Hg Hne') as (b & j & Eb & Hb & Gb & _ & HB).
  apply wp_bind. eapply wp_lift; [exact Eb|]. cbn [fst].
  eapply wp_keep_better; [eapply R_keep_one; eauto|exact Gb|exact Hi|].
  intros s'' HR''. split; [exact I|]. eexists; split; [|exact HR'']. lia.
Qed.
Lemma b_best_keep_n nf i ys k : List.length ys = k -> i < n -> Forall feas ys -> 0 < k -> blk k k (best_keep E P gea nf i ys) (fun _ => True).
Proof. intros <- Hi Hf Hk. apply b_best_keep; auto. intros ->; simpl in Hk; lia. Qed.

(** A batch of evaluated agents. *)
Lemma b_best_with_old i ys k : List.length ys = k -> i < n -> Forall feas ys -> blk k k (best_with_old E P gea i ys) (fun _ => True).
Proof.
  intros Hk Hi Hy W l s HR. unfold best_with_old. apply wp_bind. eapply wp_gen_list; [exact HR|exact Hy|]. intros new s1 Hl Hg R1 Ep.
  pose proof R1 as (V1 & Hn1 & Hl1). apply wp_bind. apply wp_pop_at; [lia|]. intros old Ho Hin.
  assert (Go : good (s_log s1) old) by (eapply Ev_pop_good; eauto).
  assert (GA : Forall (good (s_log s1)) (old :: new)) by (constructor; assumption).
  destruct (best_agent_ok _ (old :: new) GA) as (b & j & Eb & Hb & Gb & _ & HB); [congruence|].
  apply wp_bind. eapply wp_lift; [exact Eb|]. apply wp_pop_set; [lia|]. split; [exact I|]. exists k. split; [lia|].
  rewrite Hk in Hl1. 
  split; [|split; [simpl; rewrite upd_length; exact Hn1|simpl; lia]].
  cbn [fst]. apply Ev_pop_set with (W := W ++ new); [apply HP|apply HP|exact V1|lia|exact Gb|apply incl_appl, incl_refl|].
  intros C g c Hg' [Hc|Hc].
  - right; left. apply (HB C). left. congruence.
  - apply in_app_or in Hc. destruct Hc as [Hc|Hc]; [auto|]. right; left. apply (HB C). right; exact Hc.
Qed.
Lemma R_batch W l s pop_new : R W l s -> Forall fresh_agent pop_new ->
  let new := map (fun a => with_tgt a (prob_target P (sol a))) pop_new in
  R (W ++ new) (l + List.length pop_new) (evald s (map sol pop_new)) /\ Forall (good (s_log s ++ map sol pop_new)) new.
Proof.
  intros (V & Hn & Hl) Hf new.
  assert (Es : map sol pop_new = map sol new) by (unfold new; rewrite map_map; reflexivity).
  assert (F : Forall (fun a => tgt a = Some (prob_target P (sol a)) /\ feas (sol a) /\ attok (s_log s ++ map sol new) (att a)) new).
  { unfold new. rewrite Forall_map. rewrite Forall_forall in *. intros a Ha. destruct (Hf a Ha) as [H1 H2].
    simpl. split; [reflexivity|]. split; [exact H1|]. apply H2. apply in_or_app; right. fold new. rewrite <- Es. apply in_map; exact Ha. }
  split.
  - split; [|split; [exact Hn|simpl; rewrite app_length, map_length; lia]]. rewrite Es.
    apply Ev_eval; [apply HP|apply HP|apply HP|exact V|exact F].
  - rewrite Es. rewrite Forall_forall in *. intros a Ha. destruct (F a Ha) as (H1 & H2 & H3). constructor; auto.
    apply in_or_app; right. apply in_map; exact Ha.
Qed.

(** greedy selection of the population against agents at hand. *)
Lemma wp_greedy_select W l s new (Q : unit -> st A X -> Prop) : R (W ++ new) l s -> List.length new = n ->
  (forall s', R W l s' -> Q tt s') ->
  wp (p <- get_pop ;; q <- lift (greedy_selection_population p new (p_mm P)) ;; set_pop q) Q s.
Proof.
  intros HR Hl H. pose proof HR as (V & Hn & Hlog). apply wp_bind, wp_get_pop. apply wp_bind.
  pose proof (v_good _ _ _ _ _ _ _ _ _ _ _ V) as Gp. pose proof (v_W _ _ _ _ _ _ _ _ _ _ _ V) as GW.
  apply Forall_app in GW. destruct GW as [GW Gn].
  eapply wp_lift; [apply greedy_ok; [eapply Forall_good_target; eauto|eapply Forall_good_target; eauto|lia]|].
  unfold wp, set_pop. apply H.
  set (sel := map _ _). split; [|split; [unfold sel; simpl; rewrite map_length, combine_length; lia|exact Hlog]].
  apply Ev_set with (W := W ++ new); [exact V| | |].
  - intros a Ha. unfold sel in Ha. apply in_map_iff in Ha. destruct Ha as ([o m] & <- & Hc). simpl.
    rewrite Forall_forall in Gp, Gn. destruct (greedy_pick_cases (p_mm P) o m) as [->| ->];
      [apply Gp; eapply in_combine_l; eauto|apply Gn; eapply in_combine_r; eauto].
  - rewrite Forall_forall in GW. exact GW.
  - intros C g a Hg Ha. right. pose proof (pr_cov _ _ _ _ _ HP C) as N.
    rewrite Forall_forall in Gp, Gn, GW.
    assert (Pick : forall o m, In (o, m) (combine (s_pop s) new) ->
       no_worse (p_mm P) (fit (greedy_pick (p_mm P) o m)) (fit o) /\ no_worse (p_mm P) (fit (greedy_pick (p_mm P) o m)) (fit m)).
    { intros o m Hc. destruct (greedy_pick_no_worse (p_mm P) o m (pr_mm _ _ _ _ _ HP)) as [H1 H2].
      - eapply good_num; [exact N|]. apply Gp. eapply in_combine_l; eauto.
      - split; [exact H1|]. apply H2. eapply good_num; [exact N|]. apply Gn. eapply in_combine_r; eauto. }
    apply in_app_or in Ha. destruct Ha as [Ha|Ha].
    + destruct (In_nth_error _ _ Ha) as [i Hi].
      assert (Hlt : i < List.length new) by (rewrite Hl, <- Hn; apply nth_error_Some; congruence).
      destruct (nth_error new i) as [m|] eqn:Em; [|apply nth_error_None in Em; lia].
      assert (Hc : In (a, m) (combine (s_pop s) new)).
      { apply nth_error_In with (n := i). clear - Hi Em. revert Hi Em. generalize (s_pop s) as p, new as q. revert i.
        induction i as [|i IH]; intros [|x p] [|y q] H1 H2; simpl in *; try discriminate.
        - inversion H1; inversion H2; reflexivity.
        - apply IH; assumption. }
      exists (greedy_pick (p_mm P) a m). split; [|apply Pick; exact Hc].
      apply in_or_app; left. unfold sel. apply in_map_iff. exists (a, m). split; [reflexivity|exact Hc].
    + apply in_app_or in Ha. destruct Ha as [Ha|Ha].
      * exists a. split; [apply in_or_app; auto|]. apply no_worse_refl; [apply HP|]. eapply good_num; [exact N|apply GW; exact Ha].
      * destruct (In_nth_error _ _ Ha) as [i Hi].
        assert (Hlt : i < List.length (s_pop s)) by (rewrite Hn, <- Hl; apply nth_error_Some; congruence).
        destruct (nth_error (s_pop s) i) as [o|] eqn:Eo; [|apply nth_error_None in Eo; lia].
        assert (Hc : In (o, a) (combine (s_pop s) new)).
        { apply nth_error_In with (n := i). clear - Hi Eo. revert Hi Eo. generalize (s_pop s) as p, new as q. revert i.
          induction i as [|i IH]; intros [|x p] [|y q] H1 H2; simpl in *; try discriminate.
          - inversion H1; inversion H2; reflexivity.
          - apply IH; assumption. }
        exists (greedy_pick (p_mm P) o a). split; [|apply Pick; exact Hc].
        apply in_or_app; left. unfold sel. apply in_map_iff. exists (o, a). split; [reflexivity|exact Hc].
Qed.

Lemma b_greedy_loop m nf (cand : nat -> M A X (nat * vec)) :
  (is_avail md = true -> m = n) ->
  (forall i, i < m -> qt (cand i) (fun p => fst p < n)) ->
  blk m m (greedy_loop P md correct gea m nf cand) (fun _ => True).
Proof.
  intros Hm Hc W l s HR. unfold greedy_loop. apply wp_bind.
  apply wp_for_acc with (I := fun k acc s' => List.length acc = k /\
     if is_avail md then R W l s' /\ Forall fresh_agent acc else R W (l + k) s').
  - split; [reflexivity|]. destruct (is_avail md); [split; [exact HR|constructor]|rewrite Nat.add_0_r; exact HR].
  - intros k acc s' Hk [Hlen HI]. assert (HR' : R W (if is_avail md then l else l + k) s') by (destruct (is_avail md); tauto).
    apply wp_bind. eapply wp_mono; [eapply (Hc k); [lia|exact HR']|]. intros p s1 [Hp Hn1].
    assert (R1 : R W (if is_avail md then l else l + k) s1) by (eapply R_near; eauto).
    apply wp_bind. eapply wp_mono; [eapply q_propose; exact R1|]. intros a s2 [Ha Hn2].
    assert (R2 : R W (if is_avail md then l else l + k) s2) by (eapply R_near; eauto).
    destruct (is_avail md).
    + apply wp_ret. split; [rewrite app_length; simpl; lia|]. split; [exact R2|]. apply Forall_app; split; [apply HI|constructor; auto].
    + apply wp_bind. eapply wp_evaluate; [exact R2|exact Ha|]. intros a' s3 Ga R3 _ _ _ _.
      apply wp_bind. eapply wp_keep_better; [exact R3|exact Ga|exact Hp|]. intros s4 R4. apply wp_ret.
      split; [rewrite app_length; simpl; lia|]. replace (l + S k) with (l + k + 1) by lia. exact R4.
  - intros acc s' [Hlen HI]. apply wp_when; intros Hav; rewrite Hav in HI.
    + destruct HI as [HR' Hf]. apply wp_bind. eapply wp_update_target_avail; [exact Hav|]. intros new ->.
      destruct (R_batch W l s' acc HR' Hf) as [RB GB].
      eapply wp_greedy_select; [exact RB|rewrite map_length, Hlen; simpl; apply Hm; exact Hav|].
      intros s'' R''. split; [exact I|]. exists m. split; [lia|]. replace (List.length acc) with m in R'' by (simpl in Hlen; lia). exact R''.
    + split; [exact I|]. exists m. split; [lia|exact HI].
Qed.
Lemma b_greedy_each m nf (cand : nat -> M A X vec) : m = n ->
  (forall i, i < m -> qt (cand i) (fun _ => True)) ->
  blk m m (greedy_each P md correct gea m nf cand) (fun _ => True).
Proof.
  intros Hm Hc. apply b_greedy_loop; [auto|]. intros i Hi. eapply q_bind; [apply Hc; exact Hi|]. intros x _. apply q_ret. simpl. lia.
Qed.

(** New agents, all held locally. *)
Lemma wp_new_agents W l s m (cand : nat -> M A X vec) (Q : list (agent A) -> st A X -> Prop) : R W l s ->
  (forall i, i < m -> qt (cand i) (fun _ => True)) ->
  (forall new s', List.length new = m -> Forall (good (s_log s')) new -> R (W ++ new) (l + m) s' -> s_pop s' = s_pop s -> Q new s') ->
  wp (new_agents P md correct gea m cand) Q s.
Proof.
  intros HR Hc HQ. unfold new_agents. apply wp_bind.
  apply wp_for_acc with (I := fun k acc s' => List.length acc = k /\ s_pop s' = s_pop s /\
     if is_avail md then R W l s' /\ Forall fresh_agent acc else R (W ++ acc) (l + k) s' /\ Forall (good (s_log s')) acc).
  - split; [reflexivity|]. split; [reflexivity|]. destruct (is_avail md); (split; [|constructor]); [exact HR|].
    rewrite Nat.add_0_r, app_nil_r; exact HR.
  - intros k acc s' Hk (Hlen & Hpop & HI).
    set (W' := if is_avail md then W else W ++ acc).
    assert (HR' : R W' (if is_avail md then l else l + k) s') by (unfold W'; destruct (is_avail md); tauto).
    apply wp_bind. eapply wp_mono; [eapply (Hc k); [lia|exact HR']|]. intros x s1 [_ Hn1].
    assert (R1 : R W' (if is_avail md then l else l + k) s1) by (eapply R_near; eauto).
    apply wp_bind. eapply wp_mono; [eapply q_propose; exact R1|]. intros a s2 [Ha Hn2].
    assert (R2 : R W' (if is_avail md then l else l + k) s2) by (eapply R_near; eauto).
    assert (Ep : s_pop s2 = s_pop s) by (rewrite (near_pop _ _ Hn2), (near_pop _ _ Hn1); exact Hpop).
    unfold W' in *. destruct (is_avail md).
    + apply wp_ret. split; [rewrite app_length; simpl; lia|]. split; [exact Ep|]. split; [exact R2|].
      apply Forall_app; split; [apply HI|constructor; auto].
    + apply wp_bind. eapply wp_evaluate; [exact R2|exact Ha|]. intros a' s3 Ga R3 Ep3 _ _ _. apply wp_ret.
      split; [rewrite app_length; simpl; lia|]. split; [congruence|]. rewrite app_assoc. replace (l + S k) with (l + k + 1) by lia.
      split; [exact R3|]. apply Forall_app; split; [|constructor; auto].
      destruct R3 as (V & _). pose proof (v_W _ _ _ _ _ _ _ _ _ _ _ V) as GW. rewrite !Forall_app in GW. tauto.
  - intros acc s' (Hlen & Hpop & HI). simpl in Hlen. destruct (is_avail md) eqn:Hav.
    + destruct HI as [HR' Hf]. eapply wp_update_target_avail; [exact Hav|]. intros new ->.
      destruct (R_batch W l s' acc HR' Hf) as [RB GB]. apply HQ; [rewrite map_length; exact Hlen|exact GB| |exact Hpop].
      rewrite Hlen in RB; exact RB.
    + apply wp_ret. apply HQ; [exact Hlen|apply HI| |exact Hpop]. apply HI.
Qed.

Lemma wp_best_new W l s m (cand : nat -> M A X vec) (Q : agent A * nat -> st A X -> Prop) : R W l s -> 0 < m ->
  (forall i, i < m -> qt (cand i) (fun _ => True)) ->
  (forall b i s', good (s_log s') b -> R (W ++ [b]) (l + m) s' -> s_pop s' = s_pop s -> Q (b, i) s') ->
  wp (best_new E P md correct gea m cand) Q s.
Proof.
  intros HR Hm Hc HQ. unfold best_new. apply wp_bind. eapply wp_new_agents; [exact HR|exact Hc|]. intros new s' Hl Hg HR' Ep.
  assert (Hne' : new <> []) by (destruct new; [simpl in Hl; lia|congruence]).
  destruct (best_agent_ok _ new Hg Hne') as (b & j & Eb & Hb & Gb & _ & HB).
  eapply wp_lift; [exact Eb|]. apply HQ; [exact Gb| |exact Ep]. eapply R_keep_one; eauto.
Qed.

Lemma b_greedy_batch m (cand : nat -> M A X vec) : m = n ->
  (forall i, i < m -> qt (cand i) (fun _ => True)) -> blk m m (greedy_batch P md correct gea m cand) (fun _ => True).
Proof.
  intros Hm Hc W l s HR. unfold greedy_batch. apply wp_bind. eapply wp_new_agents; [exact HR|exact Hc|].
  intros new s' Hlen Gn HR' _. eapply wp_greedy_select; [exact HR'|lia|]. intros s'' R''.
  split; [exact I|]. exists m. split; [lia|exact R''].
Qed.

(** Keep the best [m] of population and agents at hand. *)
Lemma b_best_accept m (cand : nat -> M A X vec) idx : 0 < m -> idx < n -> (forall i, i < m -> qt (cand i) (fun _ => True)) ->
  blk m m (b <- best_new E P md correct gea m cand ;; accept P idx (fst b)) (fun _ => True).
Proof.
  intros Hm Hi Hc W l s HR. apply wp_bind. eapply wp_best_new; [exact HR|exact Hm|exact Hc|].
  intros b i s' Gb HR' _. cbn [fst]. eapply wp_accept; [exact HR'|exact Gb|exact Hi|]. intros s'' R''.
  split; [exact I|]. exists m. split; [lia|exact R''].
Qed.
Lemma wp_trim W l s new m (Q : unit -> st A X -> Prop) : R (W ++ new) l s -> 0 < m <= n + List.length new -> m = n ->
  (forall s', R W l s' -> Q tt s') ->
  wp (p <- get_pop ;; q <- lift (get_sorted_and_trimmed_population (e_argsort E) (p ++ new) m (p_mm P)) ;; set_pop q) Q s.
Proof.
  intros HR Hm Hmn H. pose proof HR as (V & Hn & Hlog). apply wp_bind, wp_get_pop. apply wp_bind.
  pose proof (v_good _ _ _ _ _ _ _ _ _ _ _ V) as Gp. pose proof (v_W _ _ _ _ _ _ _ _ _ _ _ V) as GW.
  apply Forall_app in GW. destruct GW as [GW Gn].
  assert (GA : Forall (good (s_log s)) (s_pop s ++ new)) by (apply Forall_app; auto).
  destruct (sorted_population_spec (e_argsort E) (pr_argsort _ _ _ _ _ HP) (s_pop s ++ new) (p_mm P) (Forall_good_target _ _ _ _ _ GA))
    as (sp & ix & Es & _ & _ & Hp & Hs).
  eapply wp_lift; [unfold get_sorted_and_trimmed_population; rewrite Es; reflexivity|].
  unfold wp, set_pop. apply H.
  assert (Ls : List.length sp = n + List.length new) by (rewrite (Permutation_length Hp), app_length; lia).
  split; [|split; [simpl; rewrite firstn_length; lia|exact Hlog]].
  assert (Hin : forall a, In a (firstn m sp) -> In a (s_pop s ++ new)).
  { intros a Ha. eapply Permutation_in; [exact Hp|]. rewrite <- (firstn_skipn m sp). apply in_or_app; auto. }
  rewrite Forall_forall in GA, GW.
  apply Ev_set with (W := W ++ new); [exact V| | |].
  - intros a Ha. apply GA, Hin, Ha.
  - exact GW.
  - intros C g a Hg Ha. right. pose proof (pr_cov _ _ _ _ _ HP C) as N.
    rewrite app_assoc in Ha.
    assert (D : In a (s_pop s ++ new) \/ In a W).
    { rewrite !in_app_iff in Ha. rewrite in_app_iff. tauto. }
    destruct D as [D|D].
    + destruct sp as [|b sp']; [simpl in Ls; lia|].
      exists b. split; [apply in_or_app; left; destruct m; [lia|left; reflexivity]|].
      apply npord_no_worse; [apply HP| | |].
      * eapply good_num; [exact N|apply GA]. eapply Permutation_in; [exact Hp|left; reflexivity].
      * eapply good_num; [exact N|apply GA; exact D].
      * simpl in Hs. apply (SSorted_head (npord (p_mm P)) (fit b) (map fit sp')); [apply npord_refl|exact Hs|].
        change (fit b :: map fit sp') with (map fit (b :: sp')). apply in_map. eapply Permutation_in; [symmetry; exact Hp|exact D].
    + exists a. split; [apply in_or_app; auto|]. apply no_worse_refl; [apply HP|]. eapply good_num; [exact N|apply GW; exact D].
Qed.
Lemma b_trim_batch k m (cand : nat -> M A X vec) : m = n -> 0 < n ->
  (forall i, i < k -> qt (cand i) (fun _ => True)) -> blk k k (trim_batch E P md correct gea k m cand) (fun _ => True).
Proof.
  intros Hm Hpos Hc W l s HR. unfold trim_batch. apply wp_bind. eapply wp_new_agents; [exact HR|exact Hc|].
  intros new s' Hlen Gn HR' _. eapply wp_trim; [exact HR'|lia|exact Hm|]. intros s'' R''.
  split; [exact I|]. exists k. split; [lia|exact R''].
Qed.

Lemma sorted_head_best L p sp : Forall (good L) p -> Permutation sp p -> StronglySorted (npord (p_mm P)) (map fit sp) ->
  cov -> forall b a, hd_error sp = Some b -> In a p -> no_worse (p_mm P) (fit b) (fit a).
Proof.
  intros GA Hp Hs C b a Hb Ha. pose proof (pr_cov _ _ _ _ _ HP C) as N. destruct sp as [|c sp]; [discriminate|]. injection Hb as ->.
  rewrite Forall_forall in GA. apply npord_no_worse; [apply HP| | |].
  - eapply good_num; [exact N|apply GA]. eapply Permutation_in; [exact Hp|left; reflexivity].
  - eapply good_num; [exact N|apply GA; exact Ha].
  - simpl in Hs. apply (SSorted_head (npord (p_mm P)) (fit b) (map fit sp)); [apply npord_refl|exact Hs|].
    change (fit b :: map fit sp) with (map fit (b :: sp)). apply in_map. eapply Permutation_in; [symmetry; exact Hp|exact Ha].
Qed.
(** The population becomes [q], which has an agent no worse than each of the old ones and the held ones. *)
Lemma R_set_pop W W' l s q : R (W ++ W') l s -> List.length q = n -> Forall (good (s_log s)) q ->
  (cov -> forall a, In a (s_pop s ++ W') -> exists b, In b q /\ no_worse (p_mm P) (fit b) (fit a)) -> R W l (with_pop s q).
Proof.
  intros (V & Hn & Hl) Hq Gq HC. split; [|split; [exact Hq|exact Hl]].
  pose proof (v_W _ _ _ _ _ _ _ _ _ _ _ V) as GW. apply Forall_app in GW. destruct GW as [GW _]. rewrite Forall_forall in GW, Gq.
  apply Ev_set with (W := W ++ W'); [exact V|exact Gq|exact GW|].
  intros C g a Hg Ha. right. assert (D : In a (s_pop s ++ W') \/ In a W) by (rewrite !in_app_iff in *; tauto).
  destruct D as [D|D].
  - destruct (HC C a D) as (b & Hb & Hn'). exists b. split; [apply in_or_app; auto|exact Hn'].
  - exists a. split; [apply in_or_app; auto|]. apply no_worse_refl; [apply HP|]. eapply good_num; [apply HP; exact C|apply GW; exact D].
Qed.
Lemma b_renew m k (cand : nat -> M A X vec) : m + k = n -> 0 < m ->
  (forall i, i < k -> qt (cand i) (fun _ => True)) -> blk k k (renew E P md correct gea m k cand) (fun _ => True).
Proof.
  intros Hm Hpos Hc W l s HR. unfold renew. pose proof HR as (V & Hn & Hl). apply wp_bind, wp_get_pop. apply wp_bind.
  pose proof (v_good _ _ _ _ _ _ _ _ _ _ _ V) as Gp.
  destruct (sorted_population_spec (e_argsort E) (pr_argsort _ _ _ _ _ HP) (s_pop s) (p_mm P) (Forall_good_target _ _ _ _ _ Gp))
    as (sp & ix & Es & _ & _ & Hp & Hs).
  pose proof (Permutation_length Hp) as Ls.
  eapply wp_lift; [unfold get_sorted_and_trimmed_population; rewrite Es; reflexivity|]. rewrite (firstn_all2 (n := m + k) sp) by (rewrite Ls; lia).
  apply wp_bind. eapply wp_new_agents; [exact HR|exact Hc|]. intros new s' Hlen Gn HR' Ep.
  unfold wp, set_pop. split; [exact I|]. exists k. split; [lia|].
  pose proof HR' as (V' & _). pose proof (v_good _ _ _ _ _ _ _ _ _ _ _ V') as Gp'. rewrite Ep in Gp'.
  assert (Gs : Forall (good (s_log s')) sp).
  { rewrite Forall_forall in *. intros a Ha. apply Gp'. eapply Permutation_in; eauto. }
  apply R_set_pop with (W' := new); [exact HR'| | |].
  - rewrite app_length, firstn_length. lia.
  - apply Forall_app; split; [|exact Gn]. rewrite Forall_forall in *. intros a Ha. apply Gs. rewrite <- (firstn_skipn m sp). apply in_or_app; auto.
  - intros C a Ha. rewrite Ep in Ha. apply in_app_or in Ha. destruct Ha as [Ha|Ha].
    + destruct sp as [|b sp']; [simpl in Ls; lia|]. exists b. split; [apply in_or_app; left; destruct m; [lia|left; reflexivity]|].
      eapply sorted_head_best; [exact Gp'|exact Hp|exact Hs|exact C|reflexivity|exact Ha].
    + exists a. split; [apply in_or_app; auto|]. apply no_worse_refl; [apply HP|]. rewrite Forall_forall in Gn. eapply good_num; [apply HP; exact C|apply Gn; exact Ha].
Qed.

(** Assigning g_best / g_worst inside evolve. *)
Lemma b_reset : 0 < n -> blk 0 0 (reset_best_worst E P) (fun _ => True).
Proof.
  intros Hpos W l s HR. pose proof HR as (V & Hn & Hl). unfold reset_best_worst. apply wp_bind, wp_get_pop. apply wp_bind.
  pose proof (v_good _ _ _ _ _ _ _ _ _ _ _ V) as Gp.
  destruct (sorted_population_spec _ (pr_argsort _ _ _ _ _ HP) (s_pop s) (p_mm P) (Forall_good_target _ _ _ _ _ Gp)) as (sp & ix & Es & Hix & _ & Hp & _).
  pose proof (Permutation_length Hp) as L1. rewrite Forall_forall in Gp.
  assert (Gs : forall a, In a sp -> good (s_log s) a) by (intros a Ha; apply Gp; eapply Permutation_in; eauto).
  destruct sp as [|b sp']; [simpl in L1; lia|]. destruct (last_item_nonempty (b :: sp')) as (w & r & Ew & _); [congruence|].
  assert (Gb : good (s_log s) b) by (apply Gs; left; reflexivity).
  assert (Gw : good (s_log s) w) by (apply Gs; rewrite Ew; apply in_or_app; right; left; reflexivity).
  eapply wp_lift.
  { unfold get_special_agents. rewrite Es. cbn [bind firstn map_res]. rewrite (agent_copy_wf b) by (eapply good_wf; eauto). cbn [bind].
    rewrite Ew, rev_app_distr. cbn [rev app firstn map_res]. rewrite (agent_copy_wf w) by (eapply good_wf; eauto). reflexivity. }
  cbv beta iota. apply wp_bind. eapply wp_lift; [reflexivity|]. apply wp_bind. eapply wp_lift; [reflexivity|].
  unfold wp, bindM, set_gb, set_gw. split; [exact I|]. exists 0. split; [lia|]. rewrite Nat.add_0_r.
  split; [|split; assumption]. destruct V. constructor; simpl; eauto.
Qed.

(** ** Replacing the population.  Without loss when the agents replaced were evaluated before this epoch. *)
Definition Old (s : st A X) : Prop := Forall (fun a => In (sol a) (s_log s0)) (s_pop s).
Lemma Old_near s s' : Old s -> near s s' -> Old s'.
Proof. intros H Hn. unfold Old. rewrite (near_pop _ _ Hn). exact H. Qed.
Lemma Ev_replace W l s new : R (W ++ new) l s -> Old s -> Ev s0 W (with_pop s new).
Proof.
  intros (V & Hn & Hlog) HO.
  pose proof (v_W _ _ _ _ _ _ _ _ _ _ _ V) as GW. apply Forall_app in GW. destruct GW as [GW Gn].
  rewrite Forall_forall in GW, Gn. unfold Old in HO. rewrite Forall_forall in HO.
  apply Ev_set with (W := W ++ new); [exact V|exact Gn|exact GW|].
  intros C g a Hg Ha. apply in_app_or in Ha. destruct Ha as [Ha|Ha].
  - left. eapply Ev_old; eauto. eapply Ev_pop_good; eauto.
  - right. exists a. rewrite in_app_iff in *. split; [tauto|]. apply no_worse_refl; [apply HP|].
    eapply good_num; [apply HP; exact C|]. destruct Ha; [apply GW|apply Gn]; assumption.
Qed.
Lemma R_replace W l s new : R (W ++ new) l s -> Old s -> List.length new = n -> R W l (with_pop s new).
Proof. intros HR HO Hl. split; [eapply Ev_replace; eauto|split; [exact Hl|apply HR]]. Qed.
(** The population becomes [m] new agents. *)
Lemma replace_len m (cand : nat -> M A X vec) W l s : R W l s -> Old s -> (forall i, i < m -> qt (cand i) (fun _ => True)) ->
  wp (replace_all P md correct gea m cand) (fun _ s' => Ev s0 W s' /\ List.length (s_pop s') = m /\ List.length (s_log s') = l + m) s.
Proof.
  intros HR HO Hc. unfold replace_all. apply wp_bind. eapply wp_new_agents; [exact HR|exact Hc|].
  intros new s' Hlen Gn HR' Ep. unfold wp, set_pop. split; [|split; [exact Hlen|apply HR']].
  apply (Ev_replace W (l + m) s' new HR'). unfold Old; rewrite Ep; exact HO.
Qed.
(** A block that starts with the population of the previous epoch. *)
Definition blk0 {Y} (a b : nat) (m : M A X Y) (Φ : Y -> Prop) : Prop :=
  forall W l s, R W l s -> Old s -> wp m (fun y s' => Φ y /\ exists k, a <= k <= b /\ R W (l + k) s') s.
Lemma b0_blk {Y} a b (m : M A X Y) Φ : blk a b m Φ -> blk0 a b m Φ.
Proof. intros H W l s HR _. apply H; exact HR. Qed.
Lemma b0_mono {Y} a b a' b' (m : M A X Y) (Φ Ψ : Y -> Prop) :
  blk0 a b m Φ -> a' <= a -> b <= b' -> (forall y, Φ y -> Ψ y) -> blk0 a' b' m Ψ.
Proof.
  intros H Ha Hb HI W l s HR HO. eapply wp_mono; [eapply H; eauto|]. intros y s' (Hy & k & Hk & HR').
  split; [auto|]. exists k. split; [lia|exact HR'].
Qed.
Lemma b0_qbind {Y Z} c d (m : M A X Y) (f : Y -> M A X Z) (Φ : Y -> Prop) (Ψ : Z -> Prop) :
  qt m Φ -> (forall y, Φ y -> blk0 c d (f y) Ψ) -> blk0 c d (bindM m f) Ψ.
Proof.
  intros H1 H2 W l s HR HO. apply wp_bind. eapply wp_mono; [eapply H1; eauto|]. intros y s' [Hy Hn].
  eapply H2; [exact Hy|eapply R_near; eauto|eapply Old_near; eauto].
Qed.
Lemma b0_bind {Y Z} a b c d (m : M A X Y) (f : Y -> M A X Z) (Φ : Y -> Prop) (Ψ : Z -> Prop) :
  blk0 a b m Φ -> (forall y, Φ y -> blk c d (f y) Ψ) -> blk0 (a + c) (b + d) (bindM m f) Ψ.
Proof.
  intros H1 H2 W l s HR HO. apply wp_bind. eapply wp_mono; [eapply H1; eauto|]. intros y s' (Hy & k & Hk & HR').
  eapply wp_mono; [eapply H2; eauto|]. intros z s'' (Hz & k' & Hk' & HR''). split; [exact Hz|].
  exists (k + k'). split; [lia|]. rewrite Nat.add_assoc. exact HR''.
Qed.
Lemma b0_ifm {Y} a b c d (t : bool) (m1 m2 : M A X Y) Φ : (t = true -> blk0 a b m1 Φ) -> (t = false -> blk0 c d m2 Φ) ->
  blk0 (Nat.min a c) (Nat.max b d) (if t then m1 else m2) Φ.
Proof.
  intros H1 H2. destruct t; [eapply b0_mono; [apply H1; reflexivity| | |]|eapply b0_mono; [apply H2; reflexivity| | |]]; auto; lia.
Qed.
Lemma b_replace_all m (cand : nat -> M A X vec) : m = n ->
  (forall i, i < m -> qt (cand i) (fun _ => True)) -> blk0 m m (replace_all P md correct gea m cand) (fun _ => True).
Proof.
  intros Hm Hc W l s HR HO. unfold replace_all. apply wp_bind. eapply wp_new_agents; [exact HR|exact Hc|].
  intros new s' Hlen Gn HR' Ep. unfold wp, set_pop. split; [exact I|]. exists m. split; [lia|].
  apply (R_replace W (l + m) s' new HR'); [unfold Old; rewrite Ep; exact HO|lia].
Qed.
Lemma b_replace_each m (cand : nat -> M A X vec) : m = n ->
  (forall i, i < m -> qt (cand i) (fun _ => True)) -> blk0 m m (replace_each P md correct gea m cand) (fun _ => True).
Proof.
  intros Hm Hc W l s HR HO. unfold replace_each. apply wp_bind.
  apply wp_for_acc with (I := fun k acc s' => List.length acc = k /\
     (forall i a, k <= i -> nth_error (s_pop s') i = Some a -> In (sol a) (s_log s0)) /\
     if is_avail md then R W l s' /\ Forall fresh_agent acc /\ s_pop s' = s_pop s else R W (l + k) s').
  - split; [reflexivity|]. split.
    + intros i a _ Hi. unfold Old in HO. rewrite Forall_forall in HO. apply HO. eapply nth_error_In; eauto.
    + destruct (is_avail md); [split; [exact HR|split; [constructor|reflexivity]]|rewrite Nat.add_0_r; exact HR].
  - intros k acc s' Hk (Hlen & Hold & HI). assert (HR' : R W (if is_avail md then l else l + k) s') by (destruct (is_avail md); tauto).
    apply wp_bind. eapply wp_mono; [eapply (Hc k); [lia|exact HR']|]. intros p s1 [_ Hn1].
    assert (R1 : R W (if is_avail md then l else l + k) s1) by (eapply R_near; eauto).
    apply wp_bind. eapply wp_mono; [eapply q_propose; exact R1|]. intros a s2 [Ha Hn2].
    assert (R2 : R W (if is_avail md then l else l + k) s2) by (eapply R_near; eauto).
    assert (Ep : s_pop s2 = s_pop s') by (rewrite (near_pop _ _ Hn2), (near_pop _ _ Hn1); reflexivity).
    destruct (is_avail md).
    + apply wp_ret. split; [rewrite app_length; simpl; lia|]. split; [rewrite Ep; intros i b Hi; apply Hold; lia|].
      destruct HI as (_ & HI & Ep'). split; [exact R2|]. split; [|congruence]. apply Forall_app; split; [exact HI|constructor; auto].
    + apply wp_bind. eapply wp_evaluate; [exact R2|exact Ha|]. intros a' s3 Ga R3 Ep3 _ _ _.
      pose proof R3 as (V3 & Hn3 & Hl3). apply wp_bind. apply wp_pop_set; [lia|]. apply wp_ret.
      split; [rewrite app_length; simpl; lia|]. split.
      * simpl. intros i b Hi Hb. apply (Hold i b); [lia|]. rewrite upd_nth_neq in Hb by lia. congruence.
      * replace (l + S k) with (l + k + 1) by lia.
        split; [|split; [simpl; rewrite upd_length; exact Hn3|exact Hl3]].
        apply Ev_pop_set with (W := W ++ [a']); [apply HP|apply HP|exact V3|lia|exact Ga|apply incl_appl, incl_refl|].
        intros C g b Hg [Hb|Hb].
        { left. eapply Ev_old; [exact V3|exact C|exact Hg| |].
          - eapply Ev_pop_good; [exact V3|]. eapply nth_error_In; eauto.
          - apply (Hold k b); [lia|]. congruence. }
        apply in_app_or in Hb. destruct Hb as [Hb|[<-|[]]]; [auto|]. right; left. apply no_worse_refl; [apply HP|].
        eapply good_num; [apply HP; exact C|exact Ga].
  - intros acc s' (Hlen & Hold & HI). simpl in Hlen. apply wp_when; intros Hav; rewrite Hav in HI.
    + destruct HI as (HR' & Hf & Ep'). apply wp_bind. eapply wp_update_target_avail; [exact Hav|]. intros new ->.
      destruct (R_batch W l s' acc HR' Hf) as [RB GB]. unfold wp, set_pop. split; [exact I|]. exists m. split; [lia|].
      rewrite Hlen in RB. apply (R_replace W (l + m) _ _ RB); [unfold Old; simpl; rewrite Ep'; exact HO|rewrite map_length; lia].
    + split; [exact I|]. exists m. split; [lia|exact HI].
Qed.
End Quiet.

Arguments fresh_agent {A}.
(** From blocks to the evolve contract, for a population of fixed size. *)
Lemma contract_of {A X} (E : env) (P : problem) (feas : vec -> Prop) (attok : list vec -> A -> Prop) (IX : list vec -> X -> Prop)
    (cov : Prop) (nd n0 n kmin kmax : nat) (ev : nat -> M A X unit) :
  params E P feas attok cov ->
  (forall ep s0, 1 <= ep -> Inv P feas attok (eq n) IX cov nd n0 s0 ->
     blk0 P feas attok (eq n) IX cov nd n0 n s0 kmin kmax (ev ep) (fun _ => True)) ->
  evolve_contract P feas attok (eq n) IX cov nd n0 kmin kmax ev.
Proof.
  intros HP H ep s Hep HI.
  assert (HR : R P feas attok (eq n) IX cov nd n0 n s [] (List.length (s_log s)) s).
  { split; [apply Ev_init; exact HI|]. split; [symmetry; apply (i_len _ _ _ _ _ _ _ _ _ HI)|reflexivity]. }
  assert (HO : Old s s).
  { unfold Old. eapply Forall_impl; [|apply (i_good _ _ _ _ _ _ _ _ _ HI)]. intros a G. apply G. }
  eapply wp_mono; [apply (H ep s Hep HI [] _ s HR HO)|].
  intros [] s' (_ & k & Hk & V & Hn & Hl). split; [exact V|]. split; [symmetry; exact Hn|]. lia.
Qed.

(** Default agents and initialization, initialize_variables overridden. *)
Definition anyatt {A} (_ : list vec) (_ : A) : Prop := True.
Lemma sound_len_of {A X} (E : env) (P : problem) (md : mode) (dflt : A) (n epoch : nat) (srt : bool)
    (iv : M A X unit) (ev : nat -> M A X unit) (IL : nat -> Prop) (XP IX : X -> Prop) (eb : bool) (kmin kmax : nat) :
  (forall m, IL m -> 0 < m) -> IL n -> 0 < epoch -> vars_contract XP (fun _ => IX) iv ->
  (forall feas nd n0, params E P feas (@anyatt A) (eb = true /\ obj_num P feas) -> evolve_contract P feas (@anyatt A) IL (fun _ => IX) (eb = true /\ obj_num P feas) nd n0 kmin kmax ev) ->
  sound_run_len E P md (vars_algo E P md dflt n epoch srt iv ev) XP IL eb kmin kmax.
Proof.
  intros Hpos Hn He HV H feas tm starting s Has Hmm Hpr Hst HX.
  set (al := vars_algo E P md dflt n epoch srt iv ev) in *.
  assert (HP : params E P feas (@anyatt A) (eb = true /\ obj_num P feas)) by (constructor; auto; try tauto; intros; exact I).
  pose proof (solve_run E P md feas (@anyatt A) IL XP (fun _ => IX) (fun _ => IX) (eb = true /\ obj_num P feas) (pr_mono _ _ _ _ _ HP) Hpos Hmm Has (fun c => proj2 c) al tm starting
     (missed md (al_pop_size al) starting) (al_pop_size al) (al_pop_size al) 0 0 kmin kmax s) as T.
  rewrite !Nat.add_0_r in T. apply T; auto.
  - apply default_init_contract with (E := E); auto; try tauto.
    + apply plain_ga_contract; auto; try (intros; exact I). apply Hpr.
    + intros x Hx. apply plain_ga_contract_some; auto; intros; exact I.
    + intros x Hx s0. cbn [al al_ga vars_algo]. unfold generate_agent_with, generate_empty_agent.
      apply wp_bind, wp_ret, wp_bind, wp_get_target, wp_ret. reflexivity.
    + intros _ _ s0 x Hx. apply wp_ret. split; [exists (s_ctr s0); destruct s0; reflexivity|]. simpl. repeat split; auto.
  - eapply skip_before_main with (IX0 := fun _ => IX); auto.
  - intros n0. apply H; exact HP.
Qed.
Lemma sound_vars {A X} (E : env) (P : problem) (md : mode) (dflt : A) (n epoch : nat) (srt : bool)
    (iv : M A X unit) (ev : nat -> M A X unit) (XP IX : X -> Prop) (eb : bool) (kmin kmax : nat) :
  0 < n -> 0 < epoch -> vars_contract XP (fun _ => IX) iv ->
  (forall feas nd n0 ep s0, params E P feas (@anyatt A) (eb = true /\ obj_num P feas) -> 1 <= ep ->
     Inv P feas (@anyatt A) (eq n) (fun _ => IX) (eb = true /\ obj_num P feas) nd n0 s0 ->
     blk0 P feas (@anyatt A) (eq n) (fun _ => IX) (eb = true /\ obj_num P feas) nd n0 n s0 kmin kmax (ev ep) (fun _ => True)) ->
  sound_run E P md (vars_algo E P md dflt n epoch srt iv ev) XP eb kmin kmax.
Proof.
  intros Hn He HV H. eapply sound_len_of; eauto.
  - intros m <-; exact Hn.
  - intros feas nd n0 HP. apply contract_of with (E := E); [exact HP|]. intros ep s0 Hep HI. apply H; auto.
Qed.
(** A plain algorithm. *)
Lemma sound_plain {A X} (E : env) (P : problem) (md : mode) (dflt : A) (n epoch : nat) (srt : bool)
    (ev : nat -> M A X unit) (IX : X -> Prop) (eb : bool) (kmin kmax : nat) :
  0 < n -> 0 < epoch ->
  (forall feas nd n0 ep s0, params E P feas (@anyatt A) (eb = true /\ obj_num P feas) -> 1 <= ep ->
     Inv P feas (@anyatt A) (eq n) (fun _ => IX) (eb = true /\ obj_num P feas) nd n0 s0 ->
     blk0 P feas (@anyatt A) (eq n) (fun _ => IX) (eb = true /\ obj_num P feas) nd n0 n s0 kmin kmax (ev ep) (fun _ => True)) ->
  sound_run E P md (plain_algo E P md dflt n epoch srt ev) IX eb kmin kmax.
Proof.
  intros Hn He H. apply (sound_vars E P md dflt n epoch srt (ret tt) ev IX IX); auto.
  intros s Hs. apply wp_ret. exists (s_x s), (s_ctr s). split; [destruct s; reflexivity|auto].
Qed.

Lemma gea_plain {A X} P (feas : vec -> Prop) (attok : list vec -> A -> Prop) (IL : nat -> Prop) (IX : list vec -> X -> Prop) (cov : Prop) (nd n0 n : nat) (s0 : st A X) dflt : (forall L, attok L dflt) ->
  forall x, feas x -> qt P feas attok IL IX cov nd n0 n s0 (generate_empty_agent P dflt (Some x)) (fresh_agent feas attok).
Proof. intros Ha x Hx. apply q_ret. split; simpl; auto. Qed.

Lemma perm_front {T} (Q : T -> Prop) l x y : Permutation (l ++ x) y -> Forall Q y -> Forall Q l.
Proof. intros HP HF. apply Permutation_sym in HP. apply (Permutation_Forall HP), Forall_app in HF. apply HF. Qed.

(** ** Automation *)
Ltac qfacts := repeat match goal with
  | H : _ /\ _ |- _ => destruct H
  | H : exists _, _ |- _ => destruct H
  | H : xok _ _ _ |- _ => unfold xok in H
  | H : (?a, ?b) = (?c, ?d) |- _ => let H1 := fresh H in let H2 := fresh H in
      pose proof (f_equal fst H) as H1; pose proof (f_equal snd H) as H2; cbn [fst snd] in H1, H2; clear H;
      try (is_var a; subst a); try (is_var b; subst b)
  | H : Some _ = Some _ |- _ => let H1 := fresh H in injection H as H1; try (match type of H1 with ?a = _ => is_var a; subst a end)
  | H : In ?i (others _ _) |- _ => apply others_in in H; destruct H
  | H : In ?i (seq _ _) |- _ => apply in_seq in H
  | HF : Forall _ ?l, HI : In ?x ?l |- _ => apply (proj1 (Forall_forall _ _) HF) in HI; cbv beta in HI
  | H : Nat.eqb _ _ = true |- _ => apply Nat.eqb_eq in H
  | H : Nat.eqb _ _ = false |- _ => apply Nat.eqb_neq in H
  | H : Nat.ltb _ _ = true |- _ => apply Nat.ltb_lt in H
  | H : Nat.ltb _ _ = false |- _ => apply Nat.ltb_ge in H
  | H : Nat.leb _ _ = true |- _ => apply Nat.leb_le in H
  | H : Nat.leb _ _ = false |- _ => apply Nat.leb_gt in H
  | HP : Permutation (?l ++ _) ?y, HF : Forall ?Q ?y |- _ =>
      lazymatch goal with H : Forall Q l |- _ => fail | _ => pose proof (perm_front _ _ _ _ HP HF) end
  end.
Lemma perm_bound (y x : list nat) m k : Permutation (y ++ x) (seq 0 m) -> m <= k -> Forall (fun i => i < k) y.
Proof.
  intros H Hm. apply Forall_forall. intros i Hi. assert (In i (seq 0 m)) by (eapply Permutation_in; [exact H|apply in_or_app; auto]).
  apply in_seq in H0. lia.
Qed.
Ltac qside := cbn [fst snd] in *; try assumption; try exact I;
  lazymatch goal with
  | |- _ /\ _ => split; qside
  | |- others _ _ <> [] => apply others_ne; cbn [List.length]; lia
  | |- _ <= List.length (others ?m ?e) =>
      let T := fresh in pose proof (others_length m e) as T; cbn [List.length] in T; lia
  | |- seq 0 _ <> [] => let T := fresh in intros T; apply (f_equal (@List.length nat)) in T; rewrite seq_length in T; cbn in T; lia
  | |- _ <= List.length (seq _ _) => rewrite seq_length, ?app_length; unfold vec in *; lia
  | |- List.length (upd _ _ _) = _ => rewrite upd_length; qside
  | |- fresh_agent _ _ _ => split; [cbn [sol with_att]; solve [assumption | match goal with H : fresh_agent _ _ ?a |- _ (sol ?a) => apply H end] | intros; first [exact I | solve [auto]]]
  | |- Forall (fun i => i < List.length ?l) _ => solve [assumption | eauto | match goal with H : List.length l = _ |- _ => rewrite H; assumption end
       | eapply perm_bound; [eassumption|unfold vec in *; lia]
       | eapply Forall_impl; [|eassumption]; cbv beta; intros; lia]
  | |- Forall _ _ => solve [assumption | eauto]
  | |- _ < List.length _ => solve [rewrite ?upd_length, ?firstn_length, ?seq_length, ?app_length in *; unfold vec in *; cbn [List.length]; lia]
  | |- List.length _ = _ => solve [auto | lia | congruence | simpl; rewrite ?repeat_length, ?upd_length, ?app_length, ?map_length; unfold vec in *; simpl; first [assumption | lia]]
  | |- _ => solve [auto | lia | congruence | (try split; try split; auto; lia)]
  end.
Ltac qcorrect HP := intros; first [apply q_raw; assumption | eapply q_correct; exact HP | eapply q_correct_with; [exact HP | intros; first [apply q_amend_random | apply q_amend_clip | apply q_amend_gen | apply q_amend_form]]].
(** Further steps, added in later files. *)
Ltac qmore HP m := fail.
Ltac qprim HP :=
  lazymatch goal with
  | |- qt _ _ _ _ _ _ _ _ _ _ ?m _ =>
    lazymatch m with
    | uniform _ => apply q_uniform | gauss _ => apply q_gauss | tick => apply q_tick
    | uvec _ _ => apply q_uvec | gvec _ _ => apply q_gvec | uniform_vec _ _ => apply q_uniform_vec | gauss_vec _ _ => apply q_gauss_vec
    | uniform_in _ _ _ => apply q_uniform_in | uniform_box _ _ => apply q_uniform_box | coin _ _ => apply q_coin
    | integers _ _ _ => apply q_integers; solve [qside] | integers_vec _ _ _ _ => apply q_integers_vec; solve [qside]
    | choice1 _ _ => apply q_choice1; solve [qside] | choice_vec _ _ _ => apply q_choice_vec; solve [qside]
    | choice_noreplace _ _ _ => apply q_choice_noreplace; solve [qside] | permutation _ _ => apply q_permutation
    | choose2 _ _ => apply choose2_ok; solve [qside] | choose3 _ _ => apply choose3_ok; solve [qside]
    | choose4 _ _ => apply choose4_ok; solve [qside] | choose5 _ _ => apply choose5_ok; solve [qside]
    | rform _ _ _ _ => apply q_rform | rnum _ _ _ => apply q_rnum | rtest _ _ _ => apply q_rtest
    | view => apply q_view | view_fit => apply q_view_fit | view_worst => apply q_view_worst | better_idxs _ _ => apply q_better_idxs; solve [qside]
    | get_pop => apply q_get_pop | pop_at _ => apply q_pop_seen; solve [qside] | get_gb => apply q_get_gb | get_gw => apply q_get_gw
    | get_x => apply q_get_x | set_x _ => apply q_set_x; solve [qside]
    | pop_sol _ => apply q_pop_sol; solve [qside] | pop_fit _ => apply q_pop_fit; solve [qside]
    | gb_sol => apply q_gb_sol | gb_fit => apply q_gb_fit | gw_sol => apply q_gw_sol | gw_fit => apply q_gw_fit
    | all_sols => apply q_all_sols | all_fits => apply q_all_fits
    | correct_list _ _ => eapply q_correct_list; solve [qcorrect HP]
    | correct_solution _ _ => apply (q_correct _ _ _ _ _ _ _ _ _ _ _ HP)
    | amend_random _ _ _ => apply q_amend_random | amend_clip _ _ => apply q_amend_clip
    | amend_gen _ _ => apply q_amend_gen | amend_form _ _ _ _ => apply q_amend_form
    | correct_solution_with _ _ _ => solve [qcorrect HP]
    | lift (fitness _) => apply q_fitness; solve [qside] | lift (map_res fitness _) => apply q_fits; solve [qside]
    | rlist _ _ _ _ => apply q_rlist
    | roulette _ _ _ => apply q_roulette; solve [qside]
    | lift (np_argmax _) => apply q_argmax; solve [qside] | lift (np_argmin _) => apply q_argmin; solve [qside]
    | lift (pick _ _) => apply q_pick; solve [qside]
    | lift (last_item _) => apply q_last; solve [qside]
    | lift (getitem _ _) => apply q_getitem; solve [qside]
    | lift (compare_agents _ _ _) => apply q_compare; solve [qside]
    | lift (get_special_agents _ _ _ _ _) => apply (q_special _ _ _ _ _ _ _ _ _ _ _ HP); solve [qside]
    | special _ _ _ _ _ => apply (q_specials _ _ _ _ _ _ _ _ _ _ _ HP); solve [qside]
    | lift (get_best_agent _ _ _) => apply (q_best _ _ _ _ _ _ _ _ _ _ _ HP); solve [qside]
    | lift (get_worst_agent _ _ _) => apply (q_worst _ _ _ _ _ _ _ _ _ _ _ HP); solve [qside]
    | lift (greedy_selection_population _ _ _) => apply q_greedy; solve [qside]
    | lift (get_sorted_and_trimmed_population _ _ _ _) => apply (q_trimmed _ _ _ _ _ _ _ _ _ _ _ HP); solve [qside]
    | lift (get_better_agent _ _ _ false) => apply (q_better _ _ _ _ _ _ _ _ _ _ _ HP); solve [qside]
    | lift (get_sorted_population _ _ _) => apply (q_sorted _ _ _ _ _ _ _ _ _ _ _ HP); solve [qside]
    | _ => qmore HP m
    end
  end.
Ltac evtrue := match goal with |- ?F ?y => is_evar F; let T := type of y in unify F (fun _ : T => True); exact I end.
Ltac headc t := lazymatch t with ?f _ => headc f | _ => t end.
Ltac openc t := let h := headc t in
  lazymatch h with
  | @for_acc => fail | @for_list => fail | @lift => fail | @update_target_for_population => fail | @get_target => fail
  | @set_pop => fail | @raise => fail | @greedy_loop => fail | @greedy_each => fail
  | _ => unfold h
  end.
Ltac quiet HP := cbv beta;
  lazymatch goal with
  | |- qt _ _ _ _ _ _ _ _ _ _ ?m _ =>
    lazymatch m with
    | bindM _ _ => eapply q_bind; [quiet HP | let y := fresh "y" in let H := fresh "H" in intros y H; cbv beta in H; qfacts; quiet HP]
    | ret _ => apply q_ret; try exact I; first [evtrue | try solve [qside]]
    | collect _ _ => first [ eapply q_collect; intros; quiet HP | eapply q_mono; [eapply q_collect; intros; quiet HP | intros; cbv beta in *; try solve [qside]] ]
    | repeat_M _ _ => first [ eapply q_repeat; quiet HP | eapply q_mono; [eapply q_repeat; quiet HP | intros; cbv beta in *; try solve [qside]] ]
    | dims _ _ => first [ apply q_dims; intros; quiet HP | eapply q_mono; [apply q_dims; intros; quiet HP | intros; cbv beta in *; try solve [qside]] ]
    | (if ?b then _ else _) => let Hb := fresh "Hb" in destruct b eqn:Hb; qfacts; quiet HP
    | (match ?p with (_, _) => _ end) => destruct p; cbn [fst snd] in *; qfacts; quiet HP
    | (match ?l with [] => _ | _ :: _ => _ end) => destruct l; cbn [List.length] in *; try (exfalso; lia); qfacts; quiet HP
    | (match ?o with Some _ => _ | None => _ end) => destruct o; try discriminate; qfacts; quiet HP
    | (let x := _ in _) => cbv zeta; quiet HP
    | when _ _ => eapply q_mono; [apply q_when; intros; quiet HP|intros; cbv beta in *; try solve [qside]]
    | for_ _ _ => eapply q_mono; [apply q_for; intros; quiet HP|intros; cbv beta in *; try solve [qside]]
    | _ => tryif (first [ qprim HP | eapply q_mono; [qprim HP | let y := fresh "y" in let H := fresh "H" in intros y H; cbv beta in *; qfacts; try exact I; try solve [qside]] ])
           then idtac else (tryif openc m then quiet HP else idtac)
    end
  | _ => idtac
  end.
Ltac qgea := apply gea_plain; intros; exact I.
(** Premises of the block lemmas. *)
Ltac bprem HP :=
  lazymatch goal with
  | |- params _ _ _ _ _ => exact HP
  | |- forall x, qt _ _ _ _ _ _ _ _ _ _ _ _ => qcorrect HP
  | |- forall x, _ x -> qt _ _ _ _ _ _ _ _ _ _ _ (fresh_agent _ _) => qgea
  | |- forall i, _ < _ -> qt _ _ _ _ _ _ _ _ _ _ _ _ => let i := fresh "i" in let Hi := fresh "Hi" in intros i Hi; quiet HP
  | |- is_avail _ = true -> _ => intros; lia
  | |- _ => first [reflexivity | lia | idtac]
  end.
Ltac hasblk1 m :=
  match m with
  | context [try_improve] => idtac | context [try_improve_b] => idtac | context [gen_keep] => idtac
  | context [best_keep] => idtac | context [best_with_old] => idtac | context [greedy_loop] => idtac | context [greedy_each] => idtac
  | context [greedy_batch] => idtac | context [trim_batch] => idtac | context [renew] => idtac | context [replace_all] => idtac
  | context [replace_each] => idtac | context [reset_best_worst] => idtac | context [gen_agent] => idtac
  | context [evaluate] => idtac | context [pop_set] => idtac | context [set_pop] => idtac
  end.
(** Further blocks, added in later files. *)
Ltac hasmore m := fail.
Ltac bmore HP m := fail.
Ltac bmore0 HP m := fail.
(** Also in the body of the constant at the head. *)
Ltac hasblk m := first [hasblk1 m | hasmore m | let h := headc m in let m' := eval unfold h in m in first [hasblk1 m' | hasmore m']].
Ltac block HP := cbv beta;
  lazymatch goal with
  | |- blk _ _ _ _ _ _ _ _ _ _ _ _ ?m _ =>
    lazymatch m with
    | bindM ?m1 _ =>
      tryif hasblk m1
      then (eapply b_bind; [block HP | let y := fresh "y" in let H := fresh "H" in intros y H; cbv beta in H; qfacts; block HP])
      else (eapply b_qbind; [quiet HP | let y := fresh "y" in let H := fresh "H" in intros y H; cbv beta in H; qfacts; block HP])
    | (if ?b then _ else _) => eapply b_ifm; [let Hb := fresh "Hb" in intros Hb; qfacts; block HP | let Hb := fresh "Hb" in intros Hb; qfacts; block HP]
    | (match ?p with (_, _) => _ end) => destruct p; cbn [fst snd] in *; qfacts; block HP
    | (match ?l with [] => _ | _ :: _ => _ end) => destruct l; cbn [List.length] in *; try (exfalso; lia); qfacts; block HP
    | (match ?o with Some _ => _ | None => _ end) => destruct o; try discriminate; qfacts; block HP
    | (let x := _ in _) => cbv zeta; block HP
    | when _ _ => eapply b_whenm; let Hb := fresh "Hb" in intros Hb; qfacts; block HP
    | for_ _ _ => eapply b_for; let i := fresh "i" in let Hi := fresh "Hi" in intros i Hi; block HP
    | try_improve _ _ _ _ _ => eapply b_try_improve; bprem HP
    | try_improve_b _ _ _ _ _ => eapply b_try_improve_b; bprem HP
    | gen_keep _ _ _ _ _ _ => eapply b_gen_keep; bprem HP
    | best_keep _ _ _ _ _ ?ys => match goal with H : List.length ys = _ |- _ =>
        cbn [List.length] in H; eapply b_best_keep_n; try exact H; bprem HP; try assumption; try (cbn; lia) end
    | best_with_old _ _ _ _ ?ys => match goal with H : List.length ys = _ |- _ =>
        cbn [List.length] in H; eapply b_best_with_old; try exact H; bprem HP; try assumption end
    | greedy_each _ _ _ _ _ _ _ => eapply b_greedy_each; bprem HP
    | greedy_loop _ _ _ _ _ _ _ => eapply b_greedy_loop; bprem HP
    | greedy_batch _ _ _ _ _ _ => eapply b_greedy_batch; bprem HP
    | trim_batch _ _ _ _ _ _ _ _ => eapply b_trim_batch; bprem HP
    | renew _ _ _ _ _ _ _ _ => eapply b_renew; bprem HP
    | reset_best_worst _ _ => eapply b_reset; bprem HP
    | ret _ => eapply b_quiet; quiet HP
    | _ => tryif bmore HP m then idtac else tryif (eapply b_quiet; solve [ qprim HP | eapply q_mono; [qprim HP | intros; exact I] ]) then idtac else (tryif openc m then block HP else idtac)
    end
  | _ => idtac
  end.
Ltac block0 HP := cbv beta;
  lazymatch goal with
  | |- blk0 _ _ _ _ _ _ _ _ _ _ _ _ ?m _ =>
    lazymatch m with
    | bindM ?m1 _ =>
      tryif hasblk m1
      then (eapply b0_bind; [block0 HP | let y := fresh "y" in let H := fresh "H" in intros y H; cbv beta in H; qfacts; block HP])
      else (eapply b0_qbind; [quiet HP | let y := fresh "y" in let H := fresh "H" in intros y H; cbv beta in H; qfacts; block0 HP])
    | (match ?p with (_, _) => _ end) => destruct p; cbn [fst snd] in *; qfacts; block0 HP
    | (match ?l with [] => _ | _ :: _ => _ end) => destruct l; cbn [List.length] in *; try (exfalso; lia); qfacts; block0 HP
    | (match ?o with Some _ => _ | None => _ end) => destruct o; try discriminate; qfacts; block0 HP
    | (let x := _ in _) => cbv zeta; block0 HP
    | replace_all _ _ _ _ _ _ => eapply b_replace_all; bprem HP
    | replace_each _ _ _ _ _ _ => eapply b_replace_each; bprem HP
    | if _ then _ else _ => eapply b0_ifm; [let Hb := fresh "Hb" in intros Hb; qfacts; block0 HP | let Hb := fresh "Hb" in intros Hb; qfacts; block0 HP]
    | for_ _ _ => eapply b0_blk; block HP
    | when _ _ => eapply b0_blk; block HP
    | ret _ => eapply b0_blk; block HP
    | _ => tryif bmore0 HP m then idtac else tryif first [hasblk1 m | hasmore m] then (eapply b0_blk; block HP) else (tryif openc m then block0 HP else idtac)
    end
  | _ => idtac
  end.
Ltac counts HP := eapply b0_mono; [block0 HP | cbn; lia | cbn; lia | trivial].
Ltac plain := intros; apply sound_plain; [auto; try lia|auto; try lia|]; [..|let HP := fresh "HP" in intros feas nd n0 ep s0 HP Hep _].
