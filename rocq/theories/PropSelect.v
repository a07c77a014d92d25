(** Properties of sorting, best/worst extraction, comparison, survivor selection, grouping. *)
From Coq Require Import Reals Lra.
From Verif Require Import Prelude Fl MCore SpecCore SpecRun PSelect Demo.

(** ** Vocabulary: rank orders that also say where NaN goes. *)
(** [x] may stand before [y] in a list ordered from best to worst: no later value is better, and NaN
    values come last (first for "max"). *)
Definition may_precede (mm : minmax) (x y : f64) : Prop :=
  (num x -> num y -> match mm with Max => fle y x = true | _ => fle x y = true end) /\
  match mm with Max => fisnan y = true -> fisnan x = true | _ => fisnan x = true -> fisnan y = true end.
Definition ordered {T} (R : T -> T -> Prop) (l : list T) : Prop :=
  forall i j x y, i < j -> nth_error l i = Some x -> nth_error l j = Some y -> R x y.

Lemma SSorted_ordered {T} (R : T -> T -> Prop) l : StronglySorted R l -> ordered R l.
Proof.
  intros H. induction H as [|a l Hs IH Hf]; intros i j x y Hij Hx Hy.
  - destruct i; discriminate.
  - destruct i as [|i]; destruct j as [|j]; try lia; simpl in *.
    + inversion Hx; subst. rewrite Forall_forall in Hf. apply Hf. eapply nth_error_In; eauto.
    + apply (IH i j x y); auto; lia.
Qed.
Lemma npord_may_precede mm x y : npord mm x y -> may_precede mm x y.
Proof.
  unfold may_precede, npord, np_le, num. destruct mm; intros [H|H]; split; intros; try congruence; try assumption;
    destruct (fle_true_nan _ _ H); congruence.
Qed.
Lemma ordered_map {T U} (f : T -> U) R l : ordered R (map f l) -> ordered (fun a b => R (f a) (f b)) l.
Proof. intros H i j x y Hij Hx Hy. apply (H i j); auto; rewrite nth_error_map, ?Hx, ?Hy; reflexivity. Qed.
Lemma SSorted_unmap {T U} (f : T -> U) R l : StronglySorted R (map f l) -> StronglySorted (fun a b => R (f a) (f b)) l.
Proof.
  induction l as [|a l IH]; simpl; intros H; [constructor|]. inversion H; subst. constructor; [auto|].
  rewrite Forall_forall in *. intros b Hb. apply H3. apply in_map. exact Hb.
Qed.

Section Select.
Context {A : Type}.
Variable argsort : list f64 -> list nat.
Hypothesis Hargsort : argsort_ok argsort.
Implicit Types pop : list (agent A).

(** * C11 *)
Theorem C11_sorted_population : forall pop mm, Forall has_target pop ->
  exists sp ix, get_sorted_population argsort pop mm = Ok (sp, ix) /\
    Permutation ix (seq 0 (List.length pop)) /\
    (forall i, nth_error sp i = match nth_error ix i with Some j => nth_error pop j | None => None end) /\
    Permutation sp pop /\
    ordered (fun a b => may_precede mm (fit a) (fit b)) sp.
Proof.
  intros pop mm HT. destruct (sorted_population_spec argsort Hargsort pop mm HT) as (sp & ix & E & P1 & P2 & P3 & P4).
  exists sp, ix. split; [exact E|]. split; [exact P1|]. split; [|split; [exact P3|]].
  - intros i. assert (Q : nth_error (map (fun j => nth_error pop j) ix) i = nth_error (map Some sp) i) by (rewrite P2; reflexivity).
    rewrite !nth_error_map in Q. destruct (nth_error ix i) as [j|]; destruct (nth_error sp i); simpl in Q; congruence.
  - apply ordered_map. intros i j x y Hij Hx Hy. apply npord_may_precede. eapply (SSorted_ordered _ _ P4); eauto.
Qed.
(** Without a target somewhere the call raises. *)
Theorem C11_no_target : forall pop mm, ~ Forall has_target pop -> get_sorted_population argsort pop mm = Err AttributeError.
Proof.
  intros pop mm H. unfold get_sorted_population.
  assert (Q : map_res fitness pop = Err AttributeError).
  { clear -H. induction pop as [|a pop IH]; [exfalso; apply H; constructor|]. simpl. unfold fitness at 1.
    destruct (tgt a) as [t|] eqn:Et; simpl; [|reflexivity]. rewrite IH; [reflexivity|].
    intros F. apply H. constructor; [unfold has_target; congruence|exact F]. }
  rewrite Q. reflexivity.
Qed.

(** * C12 *)
Theorem C12_best_agent : forall pop mm, valid_mm mm -> Forall proper pop -> pop <> [] ->
  exists b i, get_best_agent argsort pop mm = Ok (b, i) /\ nth_error pop i = Some b /\
    forall a, In a pop -> may_precede mm (fit b) (fit a).
Proof.
  intros pop mm V HP Hne.
  assert (HT : Forall has_target pop) by (eapply Forall_impl; [|exact HP]; intros a; apply wf_has_target).
  destruct (sorted_population_spec argsort Hargsort pop mm HT) as (sp & ix & E & P1 & P2 & P3 & P4).
  destruct sp as [|b sp]; [apply Permutation_nil in P3; congruence|].
  destruct ix as [|i ix]; [discriminate|]. simpl in P2. inversion P2.
  assert (Wb : proper b) by (rewrite Forall_forall in HP; apply HP; eapply nth_error_In; eauto).
  exists b, i. unfold get_best_agent. rewrite E. simpl. rewrite agent_copy_wf by exact Wb. split; [reflexivity|].
  split; [assumption|]. intros a Ha. apply npord_may_precede.
  apply (Permutation_in _ (Permutation_sym P3)) in Ha.
  apply (SSorted_head (npord mm) (fit b) (map fit sp)); [apply npord_refl|exact P4|].
  change (fit b :: map fit sp) with (map fit (b :: sp)). apply in_map. exact Ha.
Qed.
Theorem C12_worst_agent : forall pop mm, valid_mm mm -> Forall proper pop -> pop <> [] ->
  exists w i, get_worst_agent argsort pop mm = Ok (w, i) /\ nth_error pop i = Some w /\
    forall a, In a pop -> may_precede mm (fit a) (fit w).
Proof.
  intros pop mm V HP Hne.
  assert (HT : Forall has_target pop) by (eapply Forall_impl; [|exact HP]; intros a; apply wf_has_target).
  destruct (sorted_population_spec argsort Hargsort pop mm HT) as (sp & ix & E & P1 & P2 & P3 & P4).
  assert (sp <> []) by (intros ->; apply Permutation_nil in P3; congruence).
  destruct (last_item_nonempty sp H) as (w & sp' & -> & El).
  assert (ix <> []) by (intros ->; destruct sp'; discriminate).
  destruct (last_item_nonempty ix H0) as (i & ix' & -> & Ei).
  rewrite !map_app in P2. simpl in P2. apply app_inj_tail in P2. destruct P2 as [_ P2].
  assert (Ww : proper w) by (rewrite Forall_forall in HP; apply HP; eapply nth_error_In; eauto).
  exists w, i. unfold get_worst_agent. rewrite E. simpl. rewrite El. simpl. rewrite agent_copy_wf by exact Ww. simpl.
  rewrite Ei. split; [reflexivity|]. split; [exact P2|]. intros a Ha. apply npord_may_precede.
  apply (Permutation_in _ (Permutation_sym P3)) in Ha. rewrite map_app in P4.
  apply (SSorted_last (npord mm) (map fit sp') (fit w)); [apply npord_refl|exact P4|].
  change [fit w] with (map fit [w]). rewrite <- map_app. apply in_map. exact Ha.
Qed.

Theorem C12_special_agents : forall pop mm nb nw, Forall proper pop ->
  exists sp b w, get_special_agents argsort pop (Some nb) (Some nw) mm = Ok (sp, Some b, Some w) /\
    Permutation sp pop /\ ordered (fun x y => may_precede mm (fit x) (fit y)) sp /\
    List.length b = Nat.min nb (List.length pop) /\ List.length w = Nat.min nw (List.length pop) /\
    ordered (fun x y => may_precede mm (fit x) (fit y)) b /\ ordered (fun x y => may_precede mm (fit y) (fit x)) w /\
    (exists rest, Permutation (b ++ rest) pop /\ forall x y, In x b -> In y rest -> may_precede mm (fit x) (fit y)) /\
    (exists rest, Permutation (w ++ rest) pop /\ forall x y, In x w -> In y rest -> may_precede mm (fit y) (fit x)).
Proof.
  intros pop mm nb nw HP.
  assert (HT : Forall has_target pop) by (eapply Forall_impl; [|exact HP]; intros a; apply wf_has_target).
  destruct (sorted_population_spec argsort Hargsort pop mm HT) as (sp & ix & E & P1 & P2 & P3 & P4).
  assert (HPs : Forall proper sp) by (eapply Permutation_Forall; [symmetry; exact P3|exact HP]).
  assert (Cp : forall l, incl l sp -> map_res agent_copy l = Ok l).
  { intros l Hl. rewrite <- (map_id l) at 2. apply map_res_all_ok. intros a Ha. apply agent_copy_wf.
    rewrite Forall_forall in HPs. auto. }
  pose proof (SSorted_unmap fit (npord mm) sp P4) as S1.
  exists sp, (firstn nb sp), (firstn nw (rev sp)). unfold get_special_agents. rewrite E. simpl.
  rewrite (Cp (firstn nb sp)) by (intros a Ha; rewrite <- (firstn_skipn nb sp); apply in_or_app; auto).
  simpl. rewrite (Cp (firstn nw (rev sp))).
  2: { intros a Ha. apply in_rev. rewrite <- (firstn_skipn nw (rev sp)); apply in_or_app; auto. }
  split; [reflexivity|]. split; [exact P3|].
  assert (SO : forall l : list (agent A), StronglySorted (fun a b => npord mm (fit a) (fit b)) l -> ordered (fun x y => may_precede mm (fit x) (fit y)) l).
  { intros l Hl i j x y Hij Hx Hy. apply npord_may_precede. exact (SSorted_ordered _ _ Hl i j x y Hij Hx Hy). }
  pose proof (SSorted_rev _ _ S1) as S2.
  split; [apply SO; exact S1|]. split; [rewrite firstn_length, (Permutation_length P3); reflexivity|].
  split; [rewrite firstn_length, rev_length, (Permutation_length P3); reflexivity|].
  split; [apply SO, SSorted_firstn; exact S1|]. split.
  { intros i j x y Hij Hx Hy. apply npord_may_precede. exact (SSorted_ordered _ _ (SSorted_firstn _ nw _ S2) i j x y Hij Hx Hy). }
  split.
  - exists (skipn nb sp). rewrite firstn_skipn. split; [exact P3|]. intros x y Hx Hy. apply npord_may_precede.
    exact (SSorted_firstn_skipn _ nb sp x y S1 Hx Hy).
  - exists (skipn nw (rev sp)). rewrite firstn_skipn. split; [rewrite <- Permutation_rev; exact P3|].
    intros x y Hx Hy. apply npord_may_precede. exact (SSorted_firstn_skipn _ nw (rev sp) x y S2 Hx Hy).
Qed.

(** The index form selects the same agents. *)
Theorem C12_special_indices : forall pop mm nb nw, Forall proper pop ->
  exists sp b w bi wi, get_special_agents argsort pop (Some nb) (Some nw) mm = Ok (sp, Some b, Some w) /\
    get_special_indices argsort pop (Some nb) (Some nw) mm = Ok (sp, Some bi, Some wi) /\
    NoDup bi /\ NoDup wi /\
    map (fun i => nth_error pop i) bi = map Some b /\ map (fun i => nth_error pop i) wi = map Some w.
Proof.
  intros pop mm nb nw HP.
  assert (HT : Forall has_target pop) by (eapply Forall_impl; [|exact HP]; intros a; apply wf_has_target).
  destruct (sorted_population_spec argsort Hargsort pop mm HT) as (sp & ix & E & P1 & P2 & P3 & P4).
  assert (HPs : Forall proper sp) by (eapply Permutation_Forall; [symmetry; exact P3|exact HP]).
  assert (Cp : forall l, incl l sp -> map_res agent_copy l = Ok l).
  { intros l Hl. rewrite <- (map_id l) at 2. apply map_res_all_ok. intros a Ha. apply agent_copy_wf.
    rewrite Forall_forall in HPs. auto. }
  assert (ND : NoDup ix) by (eapply Permutation_NoDup; [symmetry; exact P1|apply seq_NoDup]).
  assert (NF : forall n (l : list nat), NoDup l -> NoDup (firstn n l)).
  { intros n l Hl. rewrite <- (firstn_skipn n l) in Hl. clear -Hl. induction (firstn n l) as [|a r IH]; [constructor|].
    simpl in Hl. inversion Hl; subst. constructor; [intros Q; apply H1; apply in_or_app; auto|auto]. }
  exists sp, (firstn nb sp), (firstn nw (rev sp)), (firstn nb ix), (firstn nw (rev ix)).
  unfold get_special_agents, get_special_indices. rewrite E. simpl.
  rewrite (Cp (firstn nb sp)) by (intros a Ha; rewrite <- (firstn_skipn nb sp); apply in_or_app; auto).
  simpl. rewrite (Cp (firstn nw (rev sp))).
  2: { intros a Ha. apply in_rev. rewrite <- (firstn_skipn nw (rev sp)); apply in_or_app; auto. }
  split; [reflexivity|]. split; [reflexivity|]. split; [apply NF; exact ND|].
  split; [apply NF; apply NoDup_rev; exact ND|].
  rewrite <- !firstn_map, !map_rev, P2. rewrite <- map_rev. auto.
Qed.

(** * C13 *)
Theorem C13_special_fitness : forall pop mm, Forall has_target pop -> pop <> [] ->
  exists total best worst, get_special_fitness argsort pop mm = Ok (total, best, worst) /\
    total = fold_left fadd (map fit pop) (fZ 0) /\
    In best (map fit pop) /\ In worst (map fit pop) /\
    forall a, In a pop -> may_precede mm best (fit a) /\ may_precede mm (fit a) worst.
Proof.
  intros pop mm HT Hne.
  destruct (sorted_best_worst argsort Hargsort pop mm HT Hne) as (sp & ix & b & w & E & P1 & Eb & Ew & Ib & Iw & Hb & Hw).
  assert (HT' := HT). rewrite Forall_forall in HT'.
  exists (fold_left fadd (map fit pop) (fZ 0)), (fit b), (fit w). unfold get_special_fitness.
  rewrite (map_res_fitness _ HT). simpl. rewrite E. simpl. rewrite Eb. simpl. rewrite (fitness_fit b) by auto. simpl.
  rewrite Ew. simpl. rewrite (fitness_fit w) by auto. simpl. split; [reflexivity|]. split; [reflexivity|].
  split; [apply in_map; exact Ib|]. split; [apply in_map; exact Iw|].
  intros a Ha. split; apply npord_may_precede; auto.
Qed.

(** * C16 *)
Theorem C16_sort_and_trim : forall pop n mm, Forall has_target pop ->
  exists kept dropped, get_sorted_and_trimmed_population argsort pop n mm = Ok kept /\
    List.length kept = Nat.min n (List.length pop) /\ Permutation (kept ++ dropped) pop /\
    ordered (fun a b => may_precede mm (fit a) (fit b)) kept /\
    forall a b, In a kept -> In b dropped -> may_precede mm (fit a) (fit b).
Proof.
  intros pop n mm HT. destruct (sorted_population_spec argsort Hargsort pop mm HT) as (sp & ix & E & P1 & P2 & P3 & P4).
  pose proof (SSorted_unmap fit (npord mm) sp P4) as S1.
  exists (firstn n sp), (skipn n sp). unfold get_sorted_and_trimmed_population. rewrite E. simpl.
  split; [reflexivity|]. split; [rewrite firstn_length, (Permutation_length P3); reflexivity|].
  split; [rewrite firstn_skipn; exact P3|]. split.
  - intros i j x y Hij Hx Hy. apply npord_may_precede. exact (SSorted_ordered _ _ (SSorted_firstn _ n _ S1) i j x y Hij Hx Hy).
  - intros a b Ha Hb. apply npord_may_precede. exact (SSorted_firstn_skipn _ n sp a b S1 Ha Hb).
Qed.
End Select.

(** * C14 *)
Theorem C14_get_better_agent : forall (A : Type) (x y : agent A) mm, proper x -> proper y -> valid_mm mm ->
  get_better_agent x y mm false =
    Ok (match mm with
        | Min => if flt (fit x) (fit y) then x else y
        | _ => if flt (fit x) (fit y) then y else x end) /\
  get_better_agent x y mm true =
    Ok (match mm with
        | Min => if flt (fit x) (fit y) then y else x
        | _ => if flt (fit x) (fit y) then x else y end).
Proof.
  intros A x y mm Hx Hy V. unfold get_better_agent.
  rewrite (fitness_fit x), (fitness_fit y) by (apply wf_has_target; assumption).
  destruct V as [->| ->]; simpl; destruct (flt (fit x) (fit y)); rewrite !agent_copy_wf by assumption; auto.
Qed.
(** The chosen agent is not worse than either (better: reverse=False), not better (reverse=True); ties:
    second argument for min, first for max.  [compare_target] is true exactly when it is the first. *)
Theorem C14_coherent : forall (A : Type) (x y : agent A) mm tx ty, proper x -> proper y -> valid_mm mm ->
  num (fit x) -> num (fit y) -> tgt x = Some tx -> tgt y = Some ty ->
  exists b w, get_better_agent x y mm false = Ok b /\ get_better_agent x y mm true = Ok w /\
    (b = x \/ b = y) /\ no_worse mm (fit b) (fit x) /\ no_worse mm (fit b) (fit y) /\
    (w = x \/ w = y) /\ no_worse mm (fit x) (fit w) /\ no_worse mm (fit y) (fit w) /\
    compare_fitness (fit x) (fit y) mm = compare_target tx ty mm /\
    b = (if compare_target tx ty mm then x else y) /\
    (fit x = fit y -> b = match mm with Min => y | _ => x end /\ w = match mm with Min => x | _ => y end).
Proof.
  intros A x y mm tx ty Hx Hy V Nx Ny Tx Ty. destruct (C14_get_better_agent A x y mm Hx Hy V) as [E1 E2].
  assert (Fx : fit x = t_fit tx) by (unfold fit; rewrite Tx; reflexivity).
  assert (Fy : fit y = t_fit ty) by (unfold fit; rewrite Ty; reflexivity).
  eexists; eexists. split; [exact E1|]. split; [exact E2|]. unfold compare_fitness, compare_target. rewrite <- Fx, <- Fy.
  assert (T : fit x = fit y -> flt (fit x) (fit y) = false) by (intros ->; apply flt_irrefl).
  destruct V as [->| ->]; simpl; destruct (flt (fit x) (fit y)) eqn:Ef;
  try (pose proof (flt_le _ _ Ef)); try (pose proof (flt_false_le _ _ Nx Ny Ef));
  pose proof (fle_refl _ Nx); pose proof (fle_refl _ Ny);
  repeat match goal with |- _ /\ _ => split end; auto; intros Q; try (specialize (T Q); discriminate); auto.
Qed.
(** NaN: for min a NaN first argument loses and a NaN second argument wins; for max the other way round. *)
Theorem C14_nan : forall (A : Type) (x y : agent A) mm, proper x -> proper y -> valid_mm mm ->
  fisnan (fit x) = true \/ fisnan (fit y) = true ->
  get_better_agent x y mm false = Ok (match mm with Min => y | _ => x end).
Proof.
  intros A x y mm Hx Hy V H. rewrite (proj1 (C14_get_better_agent A x y mm Hx Hy V)).
  replace (flt (fit x) (fit y)) with false; [destruct mm; reflexivity|].
  symmetry. destruct H; [apply flt_nan_l|apply flt_nan_r]; assumption.
Qed.
(** For max a tie counts as "better" in compare_target / compare_fitness; for min it does not. *)
Theorem C14_tie : forall x mm, num x -> compare_fitness x x mm = match mm with Min => false | _ => true end.
Proof. intros x mm N. unfold compare_fitness. rewrite flt_irrefl. destruct mm; reflexivity. Qed.

(** * C15 *)
Theorem C15_greedy : forall (A : Type) (old new : list (agent A)) mm, valid_mm mm ->
  Forall has_target old -> Forall has_target new -> List.length old = List.length new ->
  exists out, greedy_selection_population old new mm = Ok out /\ List.length out = List.length old /\
    forall i o n, nth_error old i = Some o -> nth_error new i = Some n ->
      exists a, nth_error out i = Some a /\
        (better mm (fit n) (fit o) -> a = n) /\ (~ better mm (fit n) (fit o) -> a = o) /\
        (num (fit o) -> no_worse mm (fit a) (fit o)) /\ (num (fit o) -> num (fit n) -> no_worse mm (fit a) (fit n)).
Proof.
  intros A old new mm V Ho Hn HL. eexists. split; [apply greedy_ok; assumption|].
  split; [rewrite map_length, combine_length; lia|]. intros i o n E1 E2.
  exists (greedy_pick mm o n). split.
  - rewrite nth_error_map. assert (Q : nth_error (combine old new) i = Some (o, n)).
    { clear -E1 E2. revert new i E1 E2. induction old as [|a old IH]; intros [|b new] [|i] E1 E2; simpl in *; try discriminate; try congruence. auto. }
    rewrite Q. reflexivity.
  - split; [|split; [|split]].
    + intros B. unfold greedy_pick. destruct V as [->| ->]; simpl in B; rewrite B; reflexivity.
    + intros B. unfold greedy_pick. destruct V as [->| ->]; simpl in B; [destruct (flt (fit n) (fit o))|destruct (flt (fit o) (fit n))];
        try reflexivity; exfalso; apply B; reflexivity.
    + intros No. apply (greedy_pick_no_worse mm o n V No).
    + intros No Nn. apply (greedy_pick_no_worse mm o n V No). exact Nn.
Qed.
Theorem C15_length_error : forall (A : Type) (old new : list (agent A)) mm,
  Forall has_target old -> Forall has_target new ->
  (greedy_selection_population old new mm = Err ValueError <-> List.length old <> List.length new).
Proof.
  intros A old new mm Ho Hn. split.
  - intros H HL. rewrite (greedy_ok old new mm Ho Hn HL) in H. discriminate.
  - apply greedy_length_mismatch.
Qed.

(** * C17: maximising f is minimising -f *)
(** [q] is the population [p] with every fitness negated. *)
Definition mirrored {A B} (p : list (agent A)) (q : list (agent B)) : Prop := map fit q = map (fun a => fneg (fit a)) p.
(** Same value up to the sign of zero. *)
Definition opp_eq (x y : f64) : Prop := feq (fneg x) y = true.

Theorem C17_comparison : forall x y, num x -> num y ->
  (better Max x y <-> better Min (fneg x) (fneg y)) /\ (no_worse Max x y <-> no_worse Min (fneg x) (fneg y)) /\
  (feq x y = false -> compare_fitness x y Max = compare_fitness (fneg x) (fneg y) Min).
Proof.
  intros x y Nx Ny. unfold num in *. assert (Nx' : fisnan (fneg x) = false) by (rewrite fisnan_neg; exact Nx).
  assert (Ny' : fisnan (fneg y) = false) by (rewrite fisnan_neg; exact Ny). split; [|split].
  - simpl. rewrite flt_neg. reflexivity.
  - simpl. rewrite !fle_FR by assumption. rewrite !FR_neg. lra.
  - intros Q. unfold compare_fitness. rewrite flt_neg.
    assert (FR x <> FR y) by (intros D; apply feq_FR in D; congruence).
    destruct (flt x y) eqn:E1; destruct (flt y x) eqn:E2; simpl; try reflexivity.
    + apply flt_FR in E1; apply flt_FR in E2; auto. lra.
    + apply flt_false_FR in E1; apply flt_false_FR in E2; auto. lra.
Qed.

Lemma sorted_unique (l m : list R) : StronglySorted Rle l -> StronglySorted Rle m -> Permutation l m -> l = m.
Proof.
  revert m. induction l as [|x l IH]; intros m Hl Hm HP; [apply Permutation_nil in HP; congruence|].
  destruct m as [|y m]; [apply Permutation_sym, Permutation_nil in HP; congruence|].
  inversion Hl as [|? ? Sl Fl]; inversion Hm as [|? ? Sm Fm]; subst. rewrite Forall_forall in Fl, Fm.
  assert (x = y).
  { apply Rle_antisym.
    - assert (In y (x :: l)) by (apply (Permutation_in _ (Permutation_sym HP)); left; reflexivity).
      destruct H as [->|H]; [apply Rle_refl|auto].
    - assert (In x (y :: m)) by (apply (Permutation_in _ HP); left; reflexivity).
      destruct H as [->|H]; [apply Rle_refl|auto]. }
  subst y. f_equal. apply IH; auto. eapply Permutation_cons_inv; eauto.
Qed.

Lemma Forall2_len {T U} (R : T -> U -> Prop) l m : Forall2 R l m -> List.length l = List.length m.
Proof. induction 1; simpl; congruence. Qed.

Theorem C17_sorting : forall (A B : Type) argsort (p : list (agent A)) (q : list (agent B)),
  argsort_ok argsort -> Forall has_target p -> Forall has_target q -> mirrored p q ->
  (forall a, In a p -> num (fit a)) ->
  exists sp ip sq iq, get_sorted_population argsort p Max = Ok (sp, ip) /\ get_sorted_population argsort q Min = Ok (sq, iq) /\
    Forall2 opp_eq (map fit sp) (map fit sq).
Proof.
  intros A B argsort p q HA Tp Tq HM HN.
  destruct (sorted_population_spec argsort HA p Max Tp) as (sp & ip & E & _ & _ & P3 & P4).
  destruct (sorted_population_spec argsort HA q Min Tq) as (sq & iq & E' & _ & _ & Q3 & Q4).
  exists sp, ip, sq, iq. split; [exact E|]. split; [exact E'|].
  assert (N1 : Forall num (map fit sp)).
  { rewrite Forall_forall. intros x Hx. apply in_map_iff in Hx. destruct Hx as (a & <- & Ha). apply HN.
    apply (Permutation_in _ P3). exact Ha. }
  assert (N2 : Forall num (map fit sq)).
  { rewrite Forall_forall. intros x Hx. apply (Permutation_in _ (Permutation_map fit Q3)) in Hx.
    rewrite HM in Hx. apply in_map_iff in Hx. destruct Hx as (a & <- & Ha). unfold num. rewrite fisnan_neg. apply HN; exact Ha. }
  assert (Eq : map (fun x => (- FR x)%R) (map fit sp) = map FR (map fit sq)).
  { apply sorted_unique.
    - pose proof P4 as P5. revert P5 N1. generalize (map fit sp). clear. induction l as [|x l IH]; intros H N; [constructor|].
      inversion H; inversion N; subst. simpl. constructor; [auto|]. rewrite Forall_forall in *. intros y Hy.
      apply in_map_iff in Hy. destruct Hy as (z & <- & Hz). pose proof (H3 z Hz) as Hle. simpl in Hle.
      apply np_le_num in Hle; [|assumption]. apply fle_FR in Hle; [lra|apply H7; exact Hz|assumption].
    - pose proof Q4 as P5. revert P5 N2. generalize (map fit sq). clear. induction l as [|x l IH]; intros H N; [constructor|].
      inversion H; inversion N; subst. simpl. constructor; [auto|]. rewrite Forall_forall in *. intros y Hy.
      apply in_map_iff in Hy. destruct Hy as (z & <- & Hz). pose proof (H3 z Hz) as Hle. simpl in Hle.
      apply np_le_num in Hle; [|apply H7; exact Hz]. apply fle_FR in Hle; [lra|assumption|apply H7; exact Hz].
    - rewrite (Permutation_map FR (Permutation_map fit Q3)). rewrite HM, !map_map.
      rewrite (Permutation_map (fun x => (- FR (fit x))%R) P3).
      erewrite map_ext; [apply Permutation_refl|]. intros a. simpl. rewrite FR_neg. reflexivity. }
  revert N1 N2 Eq. generalize (map fit sp) (map fit sq). clear. induction l as [|x l IH]; intros [|y m] N1 N2 Eq; try discriminate; [constructor|].
  simpl in Eq. inversion Eq. inversion N1; inversion N2; subst. constructor; [|auto]. unfold opp_eq.
  apply feq_FR; [rewrite fisnan_neg; assumption|assumption|rewrite FR_neg; assumption].
Qed.

(** The same on the fitness of the best and the worst agent, and for greedy selection. *)
Theorem C17_best_worst : forall (A B : Type) argsort (p : list (agent A)) (q : list (agent B)) bp ip wp' jp bq iq wq jq,
  argsort_ok argsort -> Forall proper p -> Forall proper q -> mirrored p q ->
  (forall a, In a p -> num (fit a)) ->
  get_best_agent argsort p Max = Ok (bp, ip) -> get_worst_agent argsort p Max = Ok (wp', jp) ->
  get_best_agent argsort q Min = Ok (bq, iq) -> get_worst_agent argsort q Min = Ok (wq, jq) ->
  opp_eq (fit bp) (fit bq) /\ opp_eq (fit wp') (fit wq).
Proof.
  intros A B argsort p q bp ip wp' jp bq iq wq jq HA Pp Pq HM HN H1 H2 H3 H4.
  assert (Tp : Forall has_target p) by (eapply Forall_impl; [|exact Pp]; intros a; apply wf_has_target).
  assert (Tq : Forall has_target q) by (eapply Forall_impl; [|exact Pq]; intros a; apply wf_has_target).
  destruct (C17_sorting A B argsort p q HA Tp Tq HM HN) as (sp & kp & sq & kq & E1 & E2 & HF).
  destruct (sorted_population_spec argsort HA p Max Tp) as (sp' & ? & E1' & _ & _ & P3 & _). assert (sp' = sp) by congruence; subst sp'.
  destruct (sorted_population_spec argsort HA q Min Tq) as (sq' & ? & E2' & _ & _ & Q3 & _). assert (sq' = sq) by congruence; subst sq'.
  assert (Ps : Forall proper sp) by (eapply Permutation_Forall; [symmetry; exact P3|exact Pp]).
  assert (Qs : Forall proper sq) by (eapply Permutation_Forall; [symmetry; exact Q3|exact Pq]).
  split.
  - unfold get_best_agent in H1, H3. rewrite E1 in H1. rewrite E2 in H3. simpl in H1, H3.
    destruct sp as [|b sp]; [discriminate|]. destruct sq as [|c sq]; [discriminate|].
    inversion Ps; inversion Qs; subst. simpl in H1, H3. rewrite agent_copy_wf in H1 by assumption. rewrite agent_copy_wf in H3 by assumption.
    simpl in H1, H3. destruct kp; [discriminate|]. destruct kq; [discriminate|]. inversion H1; inversion H3; subst. simpl in HF. inversion HF; assumption.
  - unfold get_worst_agent in H2, H4. rewrite E1 in H2. rewrite E2 in H4. simpl in H2, H4.
    destruct (last_item sp) as [b|] eqn:Eb; [|discriminate]. destruct (last_item sq) as [c|] eqn:Ec; [|discriminate].
    assert (sp <> []) by (intros ->; discriminate). assert (sq <> []) by (intros ->; discriminate).
    destruct (last_item_nonempty sp H) as (b' & sp' & -> & Eb'). rewrite Eb' in Eb; inversion Eb; subst b'.
    destruct (last_item_nonempty sq H0) as (c' & sq' & -> & Ec'). rewrite Ec' in Ec; inversion Ec; subst c'.
    apply Forall_app in Ps; apply Forall_app in Qs. destruct Ps as [_ Ps], Qs as [_ Qs]. inversion Ps; inversion Qs; subst.
    simpl in H2, H4. rewrite agent_copy_wf in H2 by assumption. rewrite agent_copy_wf in H4 by assumption. simpl in H2, H4.
    destruct (last_item kp); [|discriminate]. destruct (last_item kq); [|discriminate]. inversion H2; inversion H4; subst.
    rewrite !map_app in HF. simpl in HF.
    assert (L : List.length (map fit sp') = List.length (map fit sq')) by (pose proof (Forall2_len _ _ _ HF) as HL; rewrite !app_length in HL; simpl in HL; lia).
    clear -HF L. revert L HF. generalize (map fit sp') (map fit sq'). induction l as [|x l IH]; intros [|y m] L HF; try discriminate; simpl in HF; inversion HF; subst; [assumption|].
    simpl in L. apply (IH m); [lia|assumption].
Qed.

Theorem C17_greedy : forall (A B : Type) (o n : list (agent A)) (o' n' : list (agent B)) r r',
  Forall has_target o -> Forall has_target n -> Forall has_target o' -> Forall has_target n' ->
  mirrored o o' -> mirrored n n' ->
  greedy_selection_population o n Max = Ok r -> greedy_selection_population o' n' Min = Ok r' ->
  mirrored r r'.
Proof.
  intros A B o n o' n' r r' H1 H2 H3 H4 M1 M2 G1 G2.
  assert (L1 : List.length o = List.length n).
  { unfold greedy_selection_population in G1. destruct (List.length o =? List.length n) eqn:E; [apply Nat.eqb_eq; exact E|discriminate]. }
  assert (L2 : List.length o' = List.length n').
  { unfold greedy_selection_population in G2. destruct (List.length o' =? List.length n') eqn:E; [apply Nat.eqb_eq; exact E|discriminate]. }
  rewrite (greedy_ok o n Max H1 H2 L1) in G1. rewrite (greedy_ok o' n' Min H3 H4 L2) in G2. inversion G1; inversion G2; subst.
  unfold mirrored in *. clear -M1 M2 L1 L2. revert n o' n' M1 M2 L1 L2.
  induction o as [|a o IH]; intros [|b n] [|a' o'] [|b' n'] M1 M2 L1 L2; simpl in *; try discriminate; [reflexivity|].
  inversion M1 as [[Ma Mo]]; inversion M2 as [[Mb Mn]]. f_equal.
  - rewrite Ma, Mb, flt_neg. destruct (flt (fit a) (fit b)); assumption.
  - apply IH; auto; lia.
Qed.

Lemma skipn_skipn' {T} a b (l : list T) : skipn a (skipn b l) = skipn (a + b) l.
Proof.
  revert l; induction b as [|b IH]; intros l; [rewrite Nat.add_0_r; reflexivity|].
  rewrite Nat.add_succ_r. destruct l as [|x l]; simpl; [apply skipn_nil|apply IH].
Qed.
(** * C47 *)
Theorem C47_groups : forall (A : Type) (pop : list (agent A)) n m, Forall proper pop ->
  exists gs, generate_group_population pop n m = Ok gs /\ List.length gs = n /\
    List.concat gs = firstn (n * m) pop /\
    forall i g, nth_error gs i = Some g -> List.length g = Nat.min m (List.length pop - i * m).
Proof.
  intros A pop n m HP.
  assert (Cp : forall l, incl l pop -> map_res agent_copy l = Ok l).
  { intros l Hl. rewrite <- (map_id l) at 2. apply map_res_all_ok. intros a Ha. apply agent_copy_wf. rewrite Forall_forall in HP; auto. }
  assert (Sl : forall i, slice (i * m) ((i + 1) * m) pop = firstn m (skipn (i * m) pop)).
  { intros i. unfold slice. f_equal. nia. }
  exists (map (fun i => firstn m (skipn (i * m) pop)) (seq 0 n)). split; [|split; [|split]].
  - unfold generate_group_population. apply map_res_all_ok. intros i Hi. rewrite Sl. apply Cp.
    intros a Ha. rewrite <- (firstn_skipn (i * m) pop). apply in_or_app; right.
    rewrite <- (firstn_skipn m (skipn (i * m) pop)). apply in_or_app; left; exact Ha.
  - rewrite map_length, seq_length. reflexivity.
  - assert (G : forall n k, List.concat (map (fun i => firstn m (skipn (i * m) pop)) (seq k n)) = firstn (n * m) (skipn (k * m) pop)).
    { clear. induction n as [|n IH]; intros k; simpl; [reflexivity|]. rewrite IH.
      replace (S k * m) with (m + k * m) by lia.
      transitivity (firstn m (skipn (k * m) pop) ++ firstn (n * m) (skipn m (skipn (k * m) pop))).
      - f_equal. f_equal. symmetry. apply skipn_skipn'.
      - generalize (skipn (k * m) pop). generalize (n * m). clear. intros c l. revert l. induction m as [|m IH]; intros l; [reflexivity|].
        destruct l as [|x l]; simpl; [destruct c; reflexivity|]. f_equal. apply IH. }
    rewrite G. reflexivity.
  - intros i g Hg. rewrite nth_error_map in Hg. destruct (nth_error (seq 0 n) i) as [j|] eqn:Ej; [|discriminate].
    assert (j = i). { assert (i < n). { assert (Hlt : i < List.length (seq 0 n)) by (apply nth_error_Some; congruence). rewrite seq_length in Hlt. exact Hlt. }
      apply nth_error_nth with (d := 0) in Ej. rewrite seq_nth in Ej by assumption. lia. }
    subst j. simpl in Hg. inversion Hg. rewrite firstn_length, skipn_length. reflexivity.
Qed.

(** ** Concrete populations meeting the hypotheses *)
Definition mk (z : Z) : agent unit := mkAgent [fZ z] (Some (target_new [fZ z] None)) tt.
Definition mknan : agent unit := mkAgent [] (Some (target_new [fnan] None)) tt.
Lemma mk_proper z : proper (mk z). Proof. eexists; split; reflexivity. Qed.
Lemma mknan_proper : proper mknan. Proof. eexists; split; reflexivity. Qed.
Definition sols (l : list (agent unit)) := map (fun a => map BinarySingleNaN.B2SF (sol a)) l.
Definition pop5 : list (agent unit) := [mk 4; mk 1; mknan; mk 3; mk 1].
Example select_example : argsort_ok argsort_ins /\ Forall proper pop5 /\ Forall has_target pop5 /\
  match get_sorted_population argsort_ins pop5 Min with
  | Ok (sp, ix) => ix = [1; 4; 3; 0; 2] | Err _ => False end /\
  match get_sorted_population argsort_ins pop5 Max with
  | Ok (sp, ix) => ix = [2; 0; 3; 4; 1] | Err _ => False end.
Proof.
  split; [exact argsort_ins_ok|]. split; [repeat constructor; try apply mk_proper; apply mknan_proper|].
  split; [repeat constructor; discriminate|]. split; vm_compute; reflexivity.
Qed.
Example greedy_example : match greedy_selection_population [mk 4; mk 1; mk 2] [mk 3; mk 1; mk 5] Min with
  | Ok l => sols l = sols [mk 3; mk 1; mk 2] | Err _ => False end.
Proof. vm_compute. reflexivity. Qed.
Example groups_example : match generate_group_population [mk 1; mk 2; mk 3; mk 4; mk 5] 3 2 with
  | Ok gs => map sols gs = map sols [[mk 1; mk 2]; [mk 3; mk 4]; [mk 5]] | Err _ => False end.
Proof. vm_compute. reflexivity. Qed.
Lemma fneg_SF x y : BinarySingleNaN.B2SF x = BinarySingleNaN.B2SF (fneg y) -> x = fneg y.
Proof. apply BinarySingleNaN.B2SF_inj. Qed.
Example mirrored_example : mirrored [mk 4; mk (-2)] [mk (-4); mk 2] /\
  Forall proper [mk 4; mk (-2)] /\ (forall a, In a [mk 4; mk (-2)] -> num (fit a)).
Proof.
  split; [unfold mirrored; cbn [map]; repeat (f_equal; try (apply fneg_SF; vm_compute; reflexivity))|].
  split; [repeat constructor; apply mk_proper|].
  intros a [<-|[<-|[]]]; vm_compute; reflexivity.
Qed.

Print Assumptions C11_sorted_population.
Print Assumptions C11_no_target.
Print Assumptions C12_best_agent.
Print Assumptions C12_worst_agent.
Print Assumptions C12_special_agents.
Print Assumptions C12_special_indices.
Print Assumptions C13_special_fitness.
Print Assumptions C16_sort_and_trim.
Print Assumptions C14_get_better_agent.
Print Assumptions C14_coherent.
Print Assumptions C14_nan.
Print Assumptions C14_tie.
Print Assumptions C15_greedy.
Print Assumptions C15_length_error.
Print Assumptions C17_comparison.
Print Assumptions C17_sorting.
Print Assumptions C17_best_worst.
Print Assumptions C17_greedy.
Print Assumptions C47_groups.
