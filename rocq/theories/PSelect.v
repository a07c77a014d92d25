(** Proofs about sorting, selection and comparison (optimizer.py static methods). *)
From Coq Require Import Reals Lra.
From Verif Require Import Prelude Fl MCore SpecCore SpecRun.

(** ** Order facts *)
Lemma np_le_refl x : np_le x x.
Proof. unfold np_le. destruct (fisnan x) eqn:E; [left; reflexivity|right; apply fle_refl; exact E]. Qed.

Lemma np_le_trans x y z : np_le x y -> np_le y z -> np_le x z.
Proof.
  unfold np_le; intros [H1|H1] [H2|H2]; auto.
  - rewrite fle_nan_l in H2; [discriminate|exact H1].
  - right; eapply fle_trans; eauto.
Qed.

Lemma np_le_num x y : num y -> np_le x y -> fle x y = true.
Proof. unfold num, np_le; intros H [E|E]; [congruence|exact E]. Qed.

Lemma no_worse_refl mm x : valid_mm mm -> num x -> no_worse mm x x.
Proof. intros [->| ->] H; simpl; apply fle_refl; exact H. Qed.
Lemma no_worse_trans mm x y z : no_worse mm x y -> no_worse mm y z -> no_worse mm x z.
Proof. destruct mm; simpl; intros; try contradiction; eapply fle_trans; eauto. Qed.
Lemma better_no_worse mm x y : better mm x y -> no_worse mm x y.
Proof. destruct mm; simpl; intros; try contradiction; apply flt_le; assumption. Qed.
Lemma no_worse_total mm x y : valid_mm mm -> num x -> num y -> no_worse mm x y \/ no_worse mm y x.
Proof. intros [->| ->] Hx Hy; simpl; [|]; destruct (fle_total x y Hx Hy); auto. Qed.
Lemma no_worse_num mm x y : no_worse mm x y -> num x /\ num y.
Proof. destruct mm; simpl; intros H; try contradiction; apply fle_true_nan in H; unfold num; tauto. Qed.
Lemma better_num mm x y : better mm x y -> num x /\ num y.
Proof. intros H; apply (no_worse_num mm); apply better_no_worse; exact H. Qed.
Lemma not_better_no_worse mm x y : valid_mm mm -> num x -> num y -> ~ better mm x y -> no_worse mm y x.
Proof.
  intros [->| ->] Hx Hy H; simpl in *.
  - apply flt_false_le; auto. destruct (flt x y); [exfalso; apply H; reflexivity|reflexivity].
  - apply flt_false_le; auto. destruct (flt y x); [exfalso; apply H; reflexivity|reflexivity].
Qed.
Lemma better_irrefl mm x : ~ better mm x x.
Proof. destruct mm; simpl; try rewrite flt_irrefl; intuition discriminate. Qed.
Lemma better_not_no_worse mm x y : better mm x y -> ~ no_worse mm y x.
Proof.
  intros B N. destruct (better_num _ _ _ B) as [nx ny].
  destruct mm; simpl in *; try contradiction.
  - apply flt_FR in B; auto. apply fle_FR in N; auto. lra.
  - apply flt_FR in B; auto. apply fle_FR in N; auto. lra.
Qed.
Lemma better_no_worse_trans mm x y z : better mm x y -> no_worse mm y z -> better mm x z.
Proof.
  intros B N. destruct (better_num _ _ _ B) as [nx ny]. destruct (no_worse_num _ _ _ N) as [_ nz].
  destruct mm; simpl in *; try contradiction; apply flt_FR in B; auto; apply fle_FR in N; auto; apply flt_FR; auto; lra.
Qed.
Lemma no_worse_better_trans mm x y z : no_worse mm x y -> better mm y z -> better mm x z.
Proof.
  intros N B. destruct (better_num _ _ _ B) as [ny nz]. destruct (no_worse_num _ _ _ N) as [nx _].
  destruct mm; simpl in *; try contradiction; apply flt_FR in B; auto; apply fle_FR in N; auto; apply flt_FR; auto; lra.
Qed.

(** ** StronglySorted helpers *)
Lemma SSorted_app {T} (R : T -> T -> Prop) l1 l2 :
  StronglySorted R l1 -> StronglySorted R l2 -> (forall x y, In x l1 -> In y l2 -> R x y) ->
  StronglySorted R (l1 ++ l2).
Proof.
  induction l1 as [|a l1 IH]; simpl; intros H1 H2 H; [exact H2|].
  inversion H1; subst. constructor.
  - apply IH; auto.
  - rewrite Forall_forall in *. intros y Hy. apply in_app_or in Hy. destruct Hy; auto.
Qed.
Lemma SSorted_rev {T} (R : T -> T -> Prop) l :
  StronglySorted R l -> StronglySorted (fun x y => R y x) (rev l).
Proof.
  induction l as [|a l IH]; simpl; intros H; [constructor|].
  inversion H; subst. apply SSorted_app.
  - apply IH; assumption.
  - constructor; constructor.
  - intros x y Hx [<-|[]]. apply in_rev in Hx. rewrite Forall_forall in H3. auto.
Qed.
Lemma SSorted_impl {T} (R R' : T -> T -> Prop) l :
  (forall x y, In x l -> In y l -> R x y -> R' x y) -> StronglySorted R l -> StronglySorted R' l.
Proof.
  induction l as [|a l IH]; intros H S; [constructor|].
  inversion S; subst. constructor.
  - apply IH; auto. intros; apply H; simpl; auto.
  - rewrite Forall_forall in *. intros y Hy. apply H; simpl; auto.
Qed.
Lemma SSorted_firstn {T} (R : T -> T -> Prop) n l : StronglySorted R l -> StronglySorted R (firstn n l).
Proof.
  revert n; induction l as [|a l IH]; intros [|n] H; simpl; try constructor; inversion H; subst.
  - apply IH; assumption.
  - rewrite Forall_forall in *. intros y Hy. apply H3.
    rewrite <- (firstn_skipn n l). apply in_or_app; left; exact Hy.
Qed.
Lemma SSorted_firstn_skipn {T} (R : T -> T -> Prop) n l x y :
  StronglySorted R l -> In x (firstn n l) -> In y (skipn n l) -> R x y.
Proof.
  revert n; induction l as [|a l IH]; intros [|n] H Hx Hy; simpl in *; try contradiction.
  inversion H; subst. destruct Hx as [->|Hx].
  - rewrite Forall_forall in H3. apply H3. rewrite <- (firstn_skipn n l). apply in_or_app; right; exact Hy.
  - eapply IH; eauto.
Qed.

Lemma map_nth_seq {T} (l : list T) d : map (fun i => nth i l d) (seq 0 (List.length l)) = l.
Proof.
  induction l as [|a l IH]; simpl; [reflexivity|]. f_equal.
  rewrite <- seq_shift, map_map. exact IH.
Qed.

(** ** Fitness access *)
Lemma fitness_fit {A} (a : agent A) : has_target a -> fitness a = Ok (fit a).
Proof. unfold has_target, fitness, fit. destruct (tgt a); [reflexivity|congruence]. Qed.

Lemma map_res_fitness {A} (pop : list (agent A)) :
  Forall has_target pop -> map_res fitness pop = Ok (map fit pop).
Proof.
  intros H. apply map_res_all_ok. intros a Ha. apply fitness_fit. rewrite Forall_forall in H; auto.
Qed.

Lemma agent_copy_ok {A} (a : agent A) : has_target a ->
  exists b, agent_copy a = Ok b /\ sol b = sol a /\ att b = att a /\ has_target b.
Proof.
  unfold has_target, agent_copy. destruct (tgt a) as [t|]; [|congruence]. intros _.
  eexists; split; [reflexivity|]. simpl; repeat split; congruence.
Qed.

(** An agent whose stored fitness is the weighted sum of its stored objectives. *)
Notation wf_agent := proper (only parsing).

Lemma wf_has_target {A} (a : agent A) : wf_agent a -> has_target a.
Proof. intros (t & H & _); unfold has_target; rewrite H; congruence. Qed.

Lemma agent_copy_wf {A} (a : agent A) : wf_agent a -> agent_copy a = Ok a.
Proof.
  intros (t & H & Hf). unfold agent_copy. rewrite H.
  replace (target_copy t) with t; [rewrite <- H; destruct a; reflexivity|].
  unfold target_copy, target_new. rewrite <- Hf. destruct t; reflexivity.
Qed.

(** The order in which get_sorted_population lists fitness values. *)
Definition npord (mm : minmax) (x y : f64) : Prop :=
  match mm with Max => np_le y x | _ => np_le x y end.

(** ** get_sorted_population *)
Section Sorted.
Context {A : Type}.
Variable argsort : list f64 -> list nat.
Hypothesis Hargsort : argsort_ok argsort.

Lemma getitem_all {T} (l : list T) ix : Permutation ix (seq 0 (List.length l)) ->
  exists out, map_res (getitem l) ix = Ok out /\ Permutation out l /\
              map (fun i => nth_error l i) ix = map Some out.
Proof.
  intros HP.
  assert (HL : forall i, In i ix -> i < List.length l).
  { intros i Hi. apply (Permutation_in _ HP) in Hi. apply in_seq in Hi. lia. }
  destruct l as [|d l'] eqn:El.
  - simpl in HP. apply Permutation_sym, Permutation_nil in HP. subst ix. exists []; simpl; repeat split; constructor.
  - rewrite <- El in *. exists (map (fun i => nth i l d) ix). split; [|split].
    + apply map_res_all_ok. intros i Hi. apply getitem_ok. apply nth_error_nth'. auto.
    + transitivity (map (fun i => nth i l d) (seq 0 (List.length l))).
      * apply Permutation_map; exact HP.
      * rewrite map_nth_seq; reflexivity.
    + rewrite map_map. apply map_ext_in. intros i Hi. apply nth_error_nth'. auto.
Qed.

Lemma sorted_population_spec (pop : list (agent A)) mm : Forall has_target pop ->
  exists sp ix, get_sorted_population argsort pop mm = Ok (sp, ix) /\
    Permutation ix (seq 0 (List.length pop)) /\
    map (fun i => nth_error pop i) ix = map Some sp /\
    Permutation sp pop /\
    StronglySorted (npord mm) (map fit sp).
Proof.
  intros HT. unfold get_sorted_population. rewrite (map_res_fitness pop HT). simpl.
  destruct (Hargsort (map fit pop)) as [HP HS]. rewrite map_length in HP.
  set (ix0 := argsort (map fit pop)) in *.
  assert (HP' : Permutation (match mm with Max => rev ix0 | _ => ix0 end) (seq 0 (List.length pop))).
  { destruct mm; auto. rewrite <- Permutation_rev. exact HP. }
  destruct (getitem_all pop _ HP') as (out & E1 & E2 & E3).
  rewrite E1. simpl. eexists _, _; split; [reflexivity|]. split; [exact HP'|]. split; [exact E3|]. split; [exact E2|].
  assert (EF : map fit out = map (fun i => nth i (map fit pop) fnan) (match mm with Max => rev ix0 | _ => ix0 end)).
  { revert E3. generalize (match mm with Max => rev ix0 | _ => ix0 end) as ix.
    clear. intros ix; revert out; induction ix as [|i ix IH]; intros [|o out] H; simpl in *; try discriminate; auto.
    inversion H. f_equal; [|apply IH; assumption].
    apply (map_nth_error fit) in H1. apply nth_error_nth with (d := fnan) in H1. symmetry; exact H1. }
  rewrite EF. destruct mm; unfold npord; auto.
  rewrite map_rev. apply (SSorted_rev np_le). exact HS.
Qed.

(** Non-NaN fitness values and a valid direction: best first. *)
Lemma sorted_best_first (l : list f64) mm : valid_mm mm -> Forall num l ->
  StronglySorted (npord mm) l -> StronglySorted (no_worse mm) l.
Proof.
  intros V N. apply SSorted_impl. rewrite Forall_forall in N. intros x y Hx Hy H.
  destruct V as [->| ->]; simpl in *; apply np_le_num; auto; apply N; auto.
Qed.

Lemma sorted_nonempty (pop sp : list (agent A)) : Permutation sp pop -> pop <> [] ->
  exists b w sp', sp = b :: sp' /\ last_item sp = Ok w /\ In w sp /\ In b pop /\ In w pop.
Proof.
  intros HP Hne. destruct sp as [|b sp'].
  { apply Permutation_nil in HP. congruence. }
  destruct (last_item_nonempty (b :: sp')) as (w & l' & E & El); [congruence|].
  assert (In w (b :: sp')) by (rewrite E; apply in_or_app; right; left; reflexivity).
  exists b, w, sp'. repeat split; auto.
  - eapply Permutation_in; eauto. left; reflexivity.
  - eapply Permutation_in; eauto.
Qed.

(** First element bounds all, last element is bounded by all. *)
Lemma SSorted_head {T} (R : T -> T -> Prop) a l x : (forall y, R y y) ->
  StronglySorted R (a :: l) -> In x (a :: l) -> R a x.
Proof.
  intros Rr H [->|Hx]; [apply Rr|]. inversion H; subst. rewrite Forall_forall in H3; auto.
Qed.
Lemma SSorted_last {T} (R : T -> T -> Prop) l w x : (forall y, R y y) ->
  StronglySorted R (l ++ [w]) -> In x (l ++ [w]) -> R x w.
Proof.
  intros Rr H Hx. apply in_app_or in Hx. destruct Hx as [Hx|[->|[]]]; [|apply Rr].
  induction l as [|a l IH]; [destruct Hx|]. simpl in H. inversion H; subst. destruct Hx as [->|Hx].
  - rewrite Forall_forall in H3. apply H3. apply in_or_app; right; left; reflexivity.
  - apply IH; auto.
Qed.

Lemma npord_refl mm x : npord mm x x.
Proof. destruct mm; simpl; apply np_le_refl. Qed.

(** Best and worst of a population: the combination used by update_global_best_agent
    and after_initialization. *)
Lemma sorted_best_worst (pop : list (agent A)) mm : Forall has_target pop -> pop <> [] ->
  exists sp ix b w, get_sorted_population argsort pop mm = Ok (sp, ix) /\
    Permutation sp pop /\ getitem sp 0 = Ok b /\ last_item sp = Ok w /\ In b pop /\ In w pop /\
    (forall a, In a pop -> npord mm (fit b) (fit a)) /\
    (forall a, In a pop -> npord mm (fit a) (fit w)).
Proof.
  intros HT Hne. destruct (sorted_population_spec pop mm HT) as (sp & ix & E & _ & _ & HP & HS).
  destruct (sorted_nonempty pop sp HP Hne) as (b & w & sp' & Esp & El & Hw & Hb & Hw').
  exists sp, ix, b, w. split; [exact E|]. split; [exact HP|]. split; [rewrite Esp; reflexivity|].
  split; [exact El|]. split; [exact Hb|]. split; [exact Hw'|]. split.
  - intros a Ha. rewrite Esp in HS. simpl in HS.
    apply (SSorted_head (npord mm) (fit b) (map fit sp')); [apply npord_refl|exact HS|].
    change (In (fit a) (map fit (b :: sp'))). apply in_map. rewrite <- Esp.
    eapply Permutation_in; [symmetry; exact HP|exact Ha].
  - intros a Ha.
    destruct (last_item_nonempty sp) as (w0 & l' & E0 & El0); [rewrite Esp; congruence|].
    rewrite El in El0. inversion El0; subst w0.
    rewrite E0, map_app in HS. simpl in HS.
    apply (SSorted_last (npord mm) (map fit l')); [apply npord_refl|exact HS|].
    change (In (fit a) (map fit l' ++ map fit [w])). rewrite <- map_app, <- E0. apply in_map.
    eapply Permutation_in; [symmetry; exact HP|exact Ha].
Qed.

Lemma npord_no_worse mm x y : valid_mm mm -> num x -> num y -> npord mm x y -> no_worse mm x y.
Proof. intros [->| ->] Hx Hy H; simpl in *; apply np_le_num; auto. Qed.

End Sorted.

(** ** get_better_agent *)
Section Better.
Context {A : Type}.

(** With proper targets, the result is one of the two agents, and no worse than both. *)
Lemma get_better_agent_wf (x y : agent A) mm rv : wf_agent x -> wf_agent y -> valid_mm mm ->
  exists r, get_better_agent x y mm rv = Ok r /\ (r = x \/ r = y).
Proof.
  intros Hx Hy V. unfold get_better_agent.
  rewrite (fitness_fit x), (fitness_fit y) by (apply wf_has_target; assumption).
  destruct V as [->| ->]; simpl; destruct rv; simpl; destruct (flt (fit x) (fit y));
    rewrite agent_copy_wf by assumption; eauto.
Qed.

Lemma get_better_agent_spec (x y : agent A) mm : wf_agent x -> wf_agent y -> valid_mm mm ->
  exists r, get_better_agent x y mm false = Ok r /\ (r = x \/ r = y) /\
    (num (fit x) -> num (fit y) -> no_worse mm (fit r) (fit x) /\ no_worse mm (fit r) (fit y)) /\
    (num (fit y) -> ~ num (fit x) -> mm = Min -> r = y).
Proof.
  intros Hx Hy V. unfold get_better_agent.
  rewrite (fitness_fit x), (fitness_fit y) by (apply wf_has_target; assumption).
  destruct V as [->| ->]; simpl; destruct (flt (fit x) (fit y)) eqn:E;
    rewrite agent_copy_wf by assumption; eexists; (split; [reflexivity|]); (split; [auto|]); split;
    try (intros; discriminate); try (intros nx ny; split); try (intros; reflexivity);
    try (simpl; apply fle_refl; assumption); simpl; try (apply flt_le; assumption);
    try (apply flt_false_le; assumption).
  intros _ Hn _. exfalso. apply Hn. apply flt_true_nan in E. apply E.
Qed.

Lemma get_better_agent_rev_spec (x y : agent A) mm : wf_agent x -> wf_agent y -> valid_mm mm ->
  exists r, get_better_agent x y mm true = Ok r /\ (r = x \/ r = y) /\
    (num (fit x) -> num (fit y) -> no_worse mm (fit x) (fit r) /\ no_worse mm (fit y) (fit r)).
Proof.
  intros Hx Hy V. unfold get_better_agent.
  rewrite (fitness_fit x), (fitness_fit y) by (apply wf_has_target; assumption).
  destruct V as [->| ->]; simpl; destruct (flt (fit x) (fit y)) eqn:E;
    rewrite agent_copy_wf by assumption; eexists; (split; [reflexivity|]); (split; [auto|]);
    try (intros nx ny; split); 
    try (simpl; apply fle_refl; assumption); simpl; try (apply flt_le; assumption);
    try (apply flt_false_le; assumption).
Qed.
End Better.

(** ** greedy_selection_population *)
Section Greedy.
Context {A : Type}.

(** The slot-wise choice. *)
Definition greedy_pick (mm : minmax) (o n : agent A) : agent A :=
  match mm with
  | Min => if flt (fit n) (fit o) then n else o
  | _ => if flt (fit o) (fit n) then n else o
  end.

Lemma greedy_ok (old new : list (agent A)) mm :
  Forall has_target old -> Forall has_target new -> List.length old = List.length new ->
  greedy_selection_population old new mm =
  Ok (map (fun on => greedy_pick mm (fst on) (snd on)) (combine old new)).
Proof.
  intros Ho Hn HL. unfold greedy_selection_population. rewrite HL, Nat.eqb_refl. simpl.
  apply map_res_all_ok. intros [o n] H. simpl.
  rewrite Forall_forall in Ho, Hn.
  rewrite (fitness_fit n), (fitness_fit o);
    [|apply Ho; eapply in_combine_l; eauto|apply Hn; eapply in_combine_r; eauto].
  simpl. unfold greedy_pick. destruct mm; reflexivity.
Qed.

Lemma greedy_length_mismatch (old new : list (agent A)) mm :
  List.length old <> List.length new -> greedy_selection_population old new mm = Err ValueError.
Proof.
  intros H. unfold greedy_selection_population. apply Nat.eqb_neq in H. rewrite H. reflexivity.
Qed.

Lemma greedy_pick_cases mm o n : greedy_pick mm o n = o \/ greedy_pick mm o n = n.
Proof.
  unfold greedy_pick; destruct mm; [destruct (flt (fit n) (fit o))| |];
    try destruct (flt (fit o) (fit n)); auto.
Qed.

Lemma greedy_pick_no_worse mm o n : valid_mm mm -> num (fit o) ->
  no_worse mm (fit (greedy_pick mm o n)) (fit o) /\
  (num (fit n) -> no_worse mm (fit (greedy_pick mm o n)) (fit n)).
Proof.
  intros V No. unfold greedy_pick. destruct V as [->| ->]; simpl.
  - destruct (flt (fit n) (fit o)) eqn:E; split; intros.
    + apply flt_le; exact E. + apply fle_refl; assumption.
    + apply fle_refl; assumption. + apply flt_false_le; assumption.
  - destruct (flt (fit o) (fit n)) eqn:E; split; intros.
    + apply flt_le; exact E. + apply fle_refl; assumption.
    + apply fle_refl; assumption. + apply flt_false_le; assumption.
Qed.
End Greedy.
