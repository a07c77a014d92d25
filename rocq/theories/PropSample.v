(** Index sampling with exclusions, tournament, crossover, opposition. *)
From Coq Require Import Reals Lra.
From Verif Require Import Prelude Fl FlArith MCore MHelp SpecCore PSelect PLogic Demo PropSelect.

Section Sampling.
Context {A X : Type}.
Implicit Types s : st A X.

(** Only the draw counter moves. *)
Definition only_draws s s' : Prop := exists k, s' = bump s k.

Lemma repeat_choice1 E {T} (l : list T) n (Q : list T -> st A X -> Prop) s :
  (n = 0 \/ l <> []) ->
  (forall r k, List.length r = n -> (forall x, In x r -> In x l) -> Q r (bump s k)) ->
  wp (repeat_M n (choice1 E l)) Q s.
Proof.
  intros Hl HQ. unfold repeat_M.
  apply wp_for_acc with (I := fun j (acc : list T) s' => List.length acc = j /\ (forall x, In x acc -> In x l) /\ exists k, s' = bump s k).
  - split; [reflexivity|]. split; [intros x []|]. exists (s_ctr s). destruct s; reflexivity.
  - intros j acc s' Hj (L & H & k & ->). apply wp_bind. apply wp_choice1.
    + destruct Hl; [lia|assumption].
    + intros x k' Hx. apply wp_ret. split; [rewrite app_length; simpl; lia|]. split.
      * intros y Hy. apply in_app_or in Hy as [Hy|[<-|[]]]; auto.
      * exists k'. reflexivity.
  - intros acc s' (L & H & k & ->). apply HQ; auto.
Qed.

Lemma choices_ok E {T} (replace : bool) (l : list T) n (Q : list T -> st A X -> Prop) s :
  (if replace then n = 0 \/ l <> [] else n <= List.length l) ->
  (forall r k, List.length r = n -> (forall x, In x r -> In x l) -> (replace = false -> NoDup l -> NoDup r) -> Q r (bump s k)) ->
  wp (choices E replace l n) Q s.
Proof.
  intros Hn HQ. unfold choices. destruct replace.
  - apply repeat_choice1; [exact Hn|]. intros r k L H. apply HQ; auto. discriminate.
  - apply wp_choice_noreplace; [exact Hn|]. intros r rest k L HP. apply HQ; [exact L| |].
    + intros x Hx. eapply Permutation_in; [exact HP|]. apply in_or_app; auto.
    + intros _ ND. apply Permutation_sym in HP. apply (Permutation_NoDup HP) in ND. clear -ND.
      induction r as [|a r IH]; [constructor|]. simpl in ND. inversion ND; subst. constructor; auto.
      intros H; apply H1; apply in_or_app; auto.
Qed.

(** The draws that pick given positions, one after the other, out of a shrinking list. *)
Lemma nth_remove_at_in {T} (dec : forall x y : T, {x = y} + {x <> y}) (l : list T) x : In x l ->
  exists i, i < List.length l /\ forall d, nth i l d = x.
Proof.
  intros H. apply In_nth_error in H as [i Hi]. exists i. split; [apply nth_error_Some; congruence|].
  intros d. apply nth_error_nth. exact Hi.
Qed.
Lemma remove_at_in {T} i (l : list T) d y : i < List.length l -> In y l -> y <> nth i l d -> In y (remove_at i l).
Proof.
  intros Hi Hy Hn. assert (H := remove_at_perm i l d Hi). apply Permutation_sym in H.
  apply (Permutation_in _ H) in Hy. destruct Hy as [Hy|Hy]; [congruence|exact Hy].
Qed.

Definition with_ints (E : env) (f : nat -> nat) : env :=
  mkEnv (e_argsort E) (e_u E) (e_g E) f (e_fun E) (e_time E) (e_order E).

(** Every distinct selection of elements is the outcome for some integer draws. *)
Lemma choice_noreplace_reach E (want l : list nat) s :
  NoDup want -> (forall x, In x want -> In x l) ->
  exists f k, forall g, (forall i, s_ctr s <= i < s_ctr s + List.length want -> g i = f i) ->
    @choice_noreplace A X (with_ints E g) nat l (List.length want) s = Ok (want, bump s k).
Proof.
  revert l s. induction want as [|x want IH]; intros l s ND Hin; simpl.
  - exists (fun _ => 0), (s_ctr s). intros g _. destruct s; reflexivity.
  - inversion ND as [|? ? Nx ND']; subst.
    destruct (nth_remove_at_in Nat.eq_dec l x (Hin x (or_introl eq_refl))) as (i & Hi & Hx).
    destruct l as [|d l'] eqn:El; [simpl in Hi; lia|]. rewrite <- El in *.
    destruct (IH (remove_at i l) (bump s (S (s_ctr s))) ND') as (f & k & Hf).
    { intros y Hy. apply (remove_at_in i l d); auto.
      - apply Hin; right; exact Hy.
      - rewrite Hx. intros ->; contradiction. }
    exists (fun j => if j =? s_ctr s then i else f j), k. intros g Hg.
    unfold bindM, tick. cbn [e_i with_ints].
    assert (G : g (s_ctr s) = i) by (rewrite Hg by lia; rewrite Nat.eqb_refl; reflexivity).
    rewrite G, Nat.mod_small by exact Hi.
    specialize (Hf g). cbn [s_ctr bump] in Hf.
    assert (HH : forall i0, S (s_ctr s) <= i0 < S (s_ctr s) + List.length want -> g i0 = f i0).
    { intros j Hj. rewrite Hg by lia. destruct (Nat.eqb_spec j (s_ctr s)); [lia|reflexivity]. }
    specialize (Hf HH). unfold bump in Hf at 1. rewrite Hf. rewrite Hx. reflexivity.
Qed.

(** * C43 *)
Definition shift (e r : nat) : nat := if e <=? r then S r else r.
Lemma shift_inj e x y : shift e x = shift e y -> x = y.
Proof. unfold shift. destruct (Nat.leb_spec e x), (Nat.leb_spec e y); lia. Qed.
Lemma NoDup_map_inj {T U} (f : T -> U) l : (forall x y, f x = f y -> x = y) -> NoDup l -> NoDup (map f l).
Proof.
  intros Hf. induction 1 as [|a l Ha ND IH]; simpl; constructor; auto.
  intros H. apply in_map_iff in H as (y & Hy & Hin). apply Hf in Hy. congruence.
Qed.

(** Enough admissible indices: the requested number comes back, in range, never the excluded one, distinct when
    drawn without replacement; nothing but the generator moves. *)
Theorem C43_exclude_one : forall E n ex k (replace : bool) s,
  1 <= n -> (if replace then k = 0 \/ 2 <= n else k <= n - 1) ->
  exists r s', sample_exclude_one E n ex k replace s = Ok (r, s') /\ only_draws s s' /\
    List.length r = k /\ (forall i, In i r -> i < n /\ i <> ex) /\ (replace = false -> NoDup r).
Proof.
  intros E n ex k replace s Hn Hk. destruct n as [|m]; [lia|]. cbn [sample_exclude_one].
  replace (S m - 1) with m in Hk by lia.
  apply (@wp_elim A X _ (l <- choices E replace (seq 0 m) k ;; ret (map (shift ex) l))
     (fun r s' => only_draws s s' /\ List.length r = k /\ (forall i, In i r -> i < S m /\ i <> ex) /\ (replace = false -> NoDup r)) s).
  apply wp_bind. apply choices_ok.
  - destruct replace; [|rewrite seq_length; exact Hk]. destruct Hk as [Hk|Hk]; [left; exact Hk|right].
    destruct m; [lia|discriminate].
  - intros r j L H ND. apply wp_ret. split; [exists j; reflexivity|]. split; [rewrite map_length; exact L|]. split.
    + intros i Hi. apply in_map_iff in Hi as (x & <- & Hx). apply H in Hx. apply in_seq in Hx. unfold shift.
      destruct (Nat.leb_spec ex x); lia.
    + intros R. apply NoDup_map_inj; [apply shift_inj|]. apply ND; [exact R|apply seq_NoDup].
Qed.
(** Too few admissible indices: ValueError. *)
Theorem C43_exclude_one_error : forall E n ex k s,
  n - 1 < k -> sample_exclude_one E n ex k false s = Err ValueError.
Proof.
  intros E n ex k s H. destruct n as [|m]; [reflexivity|]. cbn [sample_exclude_one choices].
  assert (Q : forall k (l : list nat) s, List.length l < k -> @choice_noreplace A X E nat l k s = Err ValueError).
  { clear. induction k as [|k IH]; intros l s H; [lia|]. destruct l as [|d l]; [reflexivity|]. cbn [choice_noreplace].
    unfold bindM, tick. rewrite IH; [reflexivity|].
    assert (I : e_i E (s_ctr s) mod List.length (d :: l) < List.length (d :: l)) by (apply Nat.mod_upper_bound; discriminate).
    pose proof (remove_at_length _ _ I). lia. }
  unfold bindM. rewrite Q; [reflexivity|]. rewrite seq_length. lia.
Qed.
(** Every list of distinct admissible indices comes out for some draws. *)
Theorem C43_exclude_one_reach : forall E n ex want s,
  ex < n -> NoDup want -> (forall i, In i want -> i < n /\ i <> ex) ->
  exists f k, sample_exclude_one (with_ints E f) n ex (List.length want) false s = Ok (want, bump s k).
Proof.
  intros E n ex want s He ND H. destruct n as [|m]; [lia|]. cbn [sample_exclude_one choices].
  set (w := map (fun i => if ex <? i then i - 1 else i) want).
  assert (HB : map (shift ex) w = want).
  { unfold w. rewrite map_map. rewrite <- (map_id want) at 2. apply map_ext_in. intros i Hi.
    destruct (H i Hi) as [H1 H2]. unfold shift. destruct (Nat.ltb_spec ex i).
    - destruct (Nat.leb_spec ex (i - 1)); lia.
    - destruct (Nat.leb_spec ex i); lia. }
  assert (NDw : NoDup w).
  { apply NoDup_map_inv with (f := shift ex). rewrite HB. exact ND. }
  destruct (choice_noreplace_reach E w (seq 0 m) s NDw) as (f & k & Hf).
  { intros x Hx. unfold w in Hx. apply in_map_iff in Hx as (i & <- & Hi). destruct (H i Hi).
    apply in_seq. destruct (Nat.ltb_spec ex i); lia. }
  exists f, k. assert (L : List.length want = List.length w) by (unfold w; rewrite map_length; reflexivity).
  rewrite L. unfold bindM. rewrite (Hf f) by reflexivity. unfold ret.
  change (fun r : nat => if ex <=? r then S r else r) with (shift ex). rewrite HB. reflexivity.
Qed.

Definition admissible (n : nat) (exs : list nat) (i : nat) : Prop := i < n /\ ~ In i exs.
Lemma admissible_filter n exs i :
  In i (filter (fun i => negb (existsb (Nat.eqb i) exs)) (seq 0 n)) <-> admissible n exs i.
Proof.
  rewrite filter_In, in_seq. unfold admissible. split.
  - intros [H1 H2]. split; [lia|]. intros Hin. apply Bool.negb_true_iff in H2.
    assert (existsb (Nat.eqb i) exs = true) by (apply existsb_exists; exists i; split; [exact Hin|apply Nat.eqb_refl]). congruence.
  - intros [H1 H2]. split; [lia|]. apply Bool.negb_true_iff. apply Bool.not_true_is_false. intros H.
    apply existsb_exists in H as (x & Hx & Heq). apply Nat.eqb_eq in Heq. subst. contradiction.
Qed.
Theorem C43_exclude_list : forall E n exs k (replace : bool) s (adm : list nat),
  (forall e, In e exs -> e < n) ->
  NoDup adm -> (forall i, In i adm <-> admissible n exs i) ->
  (if replace then k = 0 \/ adm <> [] else k <= List.length adm) ->
  exists r s', sample_exclude_list E n exs k replace s = Ok (r, s') /\ only_draws s s' /\
    List.length r = k /\ (forall i, In i r -> i < n /\ ~ In i exs) /\ (replace = false -> NoDup r).
Proof.
  intros E n exs k replace s adm He NDa Hadm Hk. unfold sample_exclude_list.
  assert (F : forallb (fun e => e <? n) exs = true) by (apply forallb_forall; intros e H; apply Nat.ltb_lt; auto).
  rewrite F. set (l := filter (fun i => negb (existsb (Nat.eqb i) exs)) (seq 0 n)).
  assert (NDl : NoDup l) by (apply NoDup_filter, seq_NoDup).
  assert (PM : Permutation adm l).
  { apply NoDup_Permutation; auto. intros x. rewrite Hadm. symmetry. apply admissible_filter. }
  apply (@wp_elim A X _ (choices E replace l k)
     (fun r s' => only_draws s s' /\ List.length r = k /\ (forall i, In i r -> i < n /\ ~ In i exs) /\ (replace = false -> NoDup r)) s).
  apply choices_ok.
  - destruct replace.
    + destruct Hk as [Hk|Hk]; [left; exact Hk|right]. intros H0. rewrite H0 in PM. apply Permutation_sym, Permutation_nil in PM. contradiction.
    + rewrite <- (Permutation_length PM). exact Hk.
  - intros r j L H ND. split; [exists j; reflexivity|]. split; [exact L|]. split.
    + intros i Hi. apply H in Hi. apply admissible_filter in Hi. exact Hi.
    + intros R. apply ND; assumption.
Qed.
Theorem C43_exclude_list_reach : forall E n exs want s,
  (forall e, In e exs -> e < n) -> NoDup want -> (forall i, In i want -> i < n /\ ~ In i exs) ->
  exists f k, sample_exclude_list (with_ints E f) n exs (List.length want) false s = Ok (want, bump s k).
Proof.
  intros E n exs want s He ND H. unfold sample_exclude_list.
  assert (F : forallb (fun e => e <? n) exs = true) by (apply forallb_forall; intros e He'; apply Nat.ltb_lt; auto).
  rewrite F. cbn [choices].
  destruct (choice_noreplace_reach E want (filter (fun i => negb (existsb (Nat.eqb i) exs)) (seq 0 n)) s ND) as (f & k & Hf).
  { intros x Hx. apply admissible_filter. apply H; exact Hx. }
  exists f, k. apply Hf. reflexivity.
Qed.
(** An exclusion outside the population raises IndexError. *)
Theorem C43_exclude_list_error : forall E n exs k replace s e, In e exs -> n <= e ->
  sample_exclude_list E n exs k replace s = Err IndexError.
Proof.
  intros E n exs k replace s e He Hn. unfold sample_exclude_list.
  assert (F : forallb (fun e => e <? n) exs = false).
  { apply Bool.not_true_is_false. intros F. rewrite forallb_forall in F. specialize (F e He). apply Nat.ltb_lt in F. lia. }
  rewrite F. reflexivity.
Qed.
End Sampling.

(** Five agents, one or three excluded. *)
Example C43_case_one : match sample_exclude_one (A := unit) (X := unit) demo_env 5 2 3 false (st0 tt) with
  | Ok (r, _) => (List.length r =? 3) && forallb (fun i => (i <? 5) && negb (i =? 2)) r | Err _ => false end = true.
Proof. vm_compute. reflexivity. Qed.
Example C43_case_list : match sample_exclude_list (A := unit) (X := unit) demo_env 5 [0; 2; 4] 2 false (st0 tt) with
  | Ok (r, _) => (List.length r =? 2) && forallb (fun i => (i =? 1) || (i =? 3)) r | Err _ => false end = true.
Proof. vm_compute. reflexivity. Qed.

(** * C45 *)
Section Ksort.
Context {T : Type}.
Variable key : T -> f64.
Variable desc : bool.
Lemma kinsert_perm x l : Permutation (kinsert key desc x l) (x :: l).
Proof.
  induction l as [|y l IH]; simpl; [reflexivity|]. destruct (key_before key desc x y); [|reflexivity].
  rewrite IH. apply perm_swap.
Qed.
Lemma ksort_perm l : Permutation (ksort key desc l) l.
Proof. unfold ksort. induction l as [|x l IH]; simpl; [reflexivity|]. rewrite kinsert_perm, IH. reflexivity. Qed.
Definition kle (x y : T) : Prop := if desc then fle (key y) (key x) = true else fle (key x) (key y) = true.
Lemma kle_trans x y z : kle x y -> kle y z -> kle x z.
Proof. unfold kle. destruct desc; intros; eapply fle_trans; eauto. Qed.
Lemma ksort_sorted l : Forall (fun x => num (key x)) l -> StronglySorted kle (ksort key desc l).
Proof.
  unfold ksort. induction l as [|x l IH]; simpl; intros H; [constructor|]. inversion H as [|? ? Hx Hl]; subst. specialize (IH Hl).
  assert (N : Forall (fun y => num (key y)) (fold_right (kinsert key desc) [] l)).
  { eapply Permutation_Forall; [symmetry; apply ksort_perm|exact Hl]. }
  revert IH N. generalize (fold_right (kinsert key desc) [] l) as r. clear -Hx.
  induction r as [|y r IH]; simpl; intros S N; [repeat constructor|].
  inversion S as [|? ? Sr Fr]; subst. inversion N as [|? ? Ny Nr]; subst.
  destruct (key_before key desc x y) eqn:C.
  - constructor; [apply IH; assumption|]. apply Forall_forall. intros z Hz.
    apply (Permutation_in _ (kinsert_perm x r)) in Hz as [<-|Hz]; [|rewrite Forall_forall in Fr; apply Fr; exact Hz].
    unfold kle, key_before in *. destruct desc; apply flt_le; exact C.
  - assert (K : kle x y).
    { unfold kle, key_before in *. destruct desc; apply flt_false_le; assumption. }
    constructor; [exact S|]. constructor; [exact K|]. eapply Forall_impl; [|exact Fr]. intros z Hz. eapply kle_trans; eauto.
Qed.
End Ksort.

Lemma SSorted_app_inv {T} (R : T -> T -> Prop) a b : StronglySorted R (a ++ b) ->
  StronglySorted R a /\ StronglySorted R b /\ forall x y, In x a -> In y b -> R x y.
Proof.
  induction a as [|x a IH]; simpl; intros H; [split; [constructor|split; [exact H|intros x y []]]|].
  inversion H as [|? ? S F]; subst. destruct (IH S) as (I1 & I2 & I3). rewrite Forall_app in F. destruct F as [F1 F2].
  split; [constructor; assumption|]. split; [exact I2|]. intros z y [<-|Hz] Hy; [|auto]. rewrite Forall_forall in F2. apply F2, Hy.
Qed.
Lemma NoDup_app_inv {T} (a b : list T) : NoDup (a ++ b) -> NoDup a /\ NoDup b /\ forall x, In x a -> ~ In x b.
Proof.
  induction a as [|x a IH]; simpl; intros H; [split; [constructor|split; [exact H|intros x []]]|].
  inversion H as [|? ? N S]; subst. destruct (IH S) as (I1 & I2 & I3). split; [constructor; auto; intros C; apply N, in_or_app; auto|].
  split; [exact I2|]. intros y [<-|Hy]; [intros C; apply N, in_or_app; auto|auto].
Qed.

Section Tournament.
Context {A X : Type}.
Implicit Types s : st A X.
Implicit Types pop : list (agent A).
Definition fit_at pop (i : nat) : f64 := match nth_error pop i with Some a => fit a | None => fnan end.

(** The winners among the sampled positions [ids]: as many as asked for (or all of them), distinct, ordered from
    better to worse, and no sampled position left out is better than one kept (worse, with reverse). *)
Definition winners (mm : minmax) pop (ids : list nat) (output : nat) (reverse : bool) (r : list nat) : Prop :=
  List.length r = Nat.min output (List.length ids) /\ NoDup r /\ (forall i, In i r -> In i ids) /\
  ordered (fun i j => no_worse mm (fit_at pop i) (fit_at pop j)) r /\
  forall i j, In i r -> In j ids -> ~ In j r ->
    if reverse then no_worse mm (fit_at pop j) (fit_at pop i) else no_worse mm (fit_at pop i) (fit_at pop j).

Theorem C45_tournament : forall E P pop k n output reverse s,
  valid_mm (p_mm P) -> Forall (fun a => has_target a /\ num (fit a)) pop ->
  kway_size k (List.length pop) = Ok n -> n <= List.length pop -> (reverse = true -> 1 <= output) ->
  exists ids r s', kway_tournament E P pop k output reverse s = Ok (r, s') /\ only_draws s s' /\
    NoDup ids /\ List.length ids = n /\ (forall i, In i ids -> i < List.length pop) /\
    winners (p_mm P) pop ids output reverse r.
Proof.
  intros E P pop k n output reverse s HM HP HK Hn Hout. unfold kway_tournament. rewrite HK.
  unfold lift at 1. unfold bindM at 1.
  assert (W : wp (choice_noreplace E (seq 0 (List.length pop)) n)
     (fun ids s' => only_draws s s' /\ NoDup ids /\ List.length ids = n /\ forall i, In i ids -> i < List.length pop) s).
  { apply wp_choice_noreplace; [rewrite seq_length; exact Hn|]. intros ids rest j L PM. split; [exists j; reflexivity|].
    assert (ND : NoDup (ids ++ rest)) by (eapply Permutation_NoDup; [symmetry; exact PM|apply seq_NoDup]).
    destruct (NoDup_app_inv _ _ ND) as (N1 & _ & _). split; [exact N1|]. split; [exact L|].
    intros i Hi. assert (In i (seq 0 (List.length pop))) by (eapply Permutation_in; [exact PM|apply in_or_app; auto]).
    apply in_seq in H; lia. }
  apply wp_elim in W as (ids & s' & Ech & Hd & ND & L & Hin). exists ids.
  unfold bindM at 1. rewrite Ech.
  set (g := fun i : nat => (i, fit_at pop i)).
  assert (MR : map_res (fun i => let* a := getitem pop i in let* f := fitness a in Ok (i, f)) ids = Ok (map g ids)).
  { apply map_res_all_ok. intros i Hi. destruct (getitem_lt pop i (Hin i Hi)) as (a & Ga & Na & Ia). rewrite Ga. simpl.
    rewrite Forall_forall in HP. destruct (HP a Ia) as [T _]. unfold g, fit_at. rewrite Na. unfold fitness, fit, has_target in *.
    destruct (tgt a); [reflexivity|congruence]. }
  rewrite MR. unfold lift, bindM, ret.
  set (desc := match p_mm P with Min => false | _ => true end).
  set (so := match p_mm P with Min => ksort snd false (map g ids) | _ => ksort snd true (map g ids) end).
  assert (Eso : so = ksort snd desc (map g ids)) by (unfold so, desc; destruct (p_mm P); reflexivity).
  assert (PMs : Permutation so (map g ids)) by (rewrite Eso; apply ksort_perm).
  assert (Nums : Forall (fun p : nat * f64 => num (snd p)) (map g ids)).
  { apply Forall_forall. intros p Hp. apply in_map_iff in Hp as (i & <- & Hi). simpl. unfold fit_at.
    destruct (nth_error pop i) as [a|] eqn:Na; [|apply nth_error_None in Na; specialize (Hin i Hi); lia].
    rewrite Forall_forall in HP. apply HP. eapply nth_error_In; eauto. }
  assert (SS : StronglySorted (kle snd desc) so) by (rewrite Eso; apply ksort_sorted; exact Nums).
  assert (Form : forall p, In p so -> p = g (fst p)).
  { intros p Hp. apply (Permutation_in _ PMs) in Hp. apply in_map_iff in Hp as (i & <- & _). reflexivity. }
  set (ix := map fst so).
  assert (PMi : Permutation ix ids).
  { unfold ix. rewrite (Permutation_map fst PMs), map_map. unfold g; simpl. rewrite map_id. reflexivity. }
  assert (SSi : StronglySorted (fun i j => no_worse (p_mm P) (fit_at pop i) (fit_at pop j)) ix).
  { unfold ix. clear -SS Form HM. induction SS as [|p l S IH F]; simpl; [constructor|].
    constructor; [apply IH; intros; apply Form; right; assumption|].
    apply Forall_forall. intros j Hj. apply in_map_iff in Hj as (q & <- & Hq). rewrite Forall_forall in F. specialize (F q Hq).
    rewrite (Form p (or_introl eq_refl)), (Form q (or_intror Hq)) in F. unfold kle, g, desc in F. simpl in F.
    unfold no_worse. destruct HM as [HM|HM]; rewrite HM in *; exact F. }
  assert (NDi : NoDup ix) by (eapply Permutation_NoDup; [symmetry; exact PMi|exact ND]).
  assert (Li : List.length ix = n) by (rewrite (Permutation_length PMi); exact L).
  assert (Lso : List.length so = n) by (rewrite <- Li; unfold ix; rewrite map_length; reflexivity).
  eexists. exists s'. split; [reflexivity|]. split; [exact Hd|]. split; [exact ND|]. split; [exact L|]. split; [exact Hin|].
  unfold winners. rewrite L. destruct reverse.
  - specialize (Hout eq_refl). destruct (Nat.eqb_spec output 0); [lia|].
    rewrite <- skipn_map. fold ix. rewrite Lso. set (d := n - output).
    assert (SP : ix = firstn d ix ++ skipn d ix) by (symmetry; apply firstn_skipn).
    rewrite SP in SSi, NDi. destruct (SSorted_app_inv _ _ _ SSi) as (S1 & S2 & S3). destruct (NoDup_app_inv _ _ NDi) as (D1 & D2 & D3).
    split; [rewrite skipn_length, Li; unfold d; lia|]. split; [exact D2|].
    split; [intros i Hi; apply (Permutation_in _ PMi); rewrite SP; apply in_or_app; auto|].
    split; [apply SSorted_ordered; exact S2|].
    intros i j Hi Hj Nj. apply S3; [|exact Hi]. apply (Permutation_in _ (Permutation_sym PMi)) in Hj. rewrite SP in Hj.
    apply in_app_or in Hj as [Hj|Hj]; [exact Hj|contradiction].
  - rewrite <- firstn_map. fold ix.
    assert (SP : ix = firstn output ix ++ skipn output ix) by (symmetry; apply firstn_skipn).
    rewrite SP in SSi, NDi. destruct (SSorted_app_inv _ _ _ SSi) as (S1 & S2 & S3). destruct (NoDup_app_inv _ _ NDi) as (D1 & D2 & D3).
    split; [rewrite firstn_length, Li; reflexivity|]. split; [exact D1|].
    split; [intros i Hi; apply (Permutation_in _ PMi); rewrite SP; apply in_or_app; auto|].
    split; [apply SSorted_ordered; exact S1|].
    intros i j Hi Hj Nj. apply S3; [exact Hi|]. apply (Permutation_in _ (Permutation_sym PMi)) in Hj. rewrite SP in Hj.
    apply in_app_or in Hj as [Hj|Hj]; [contradiction|exact Hj].
Qed.
(** A fraction that selects fewer than one agent makes the result empty (unpacking it then fails). *)
Theorem C45_small_fraction : forall E P pop x output reverse s,
  flt (fZ 0) x = true -> flt x (fZ 1) = true -> (ftrunc (fmul x (fZ (Z.of_nat (List.length pop)))) <= 0)%Z ->
  kway_tournament E P pop (KFloat x) output reverse s = Ok ([], s).
Proof.
  intros E P pop x output reverse s H0 H1 HZ. unfold kway_tournament, kway_size. rewrite H0, H1. cbn [andb].
  assert (Z0 : Z.to_nat (ftrunc (fmul x (fZ (Z.of_nat (List.length pop))))) = 0) by lia. rewrite Z0.
  unfold lift, bindM, ret. cbn. destruct (p_mm P); cbn; destruct reverse, output; reflexivity.
Qed.
End Tournament.
(** Asking for zero losers returns every sampled index instead. *)
Theorem C45_zero_losers_refuted : exists E P (pop : list (agent unit)) (s : st unit unit) r s',
  kway_tournament (X := unit) E P pop (KInt 2) 0 true s = Ok (r, s') /\ List.length r = 2.
Proof.
  exists demo_env, (demo_prob Min sphere false), (map (fun x => mkAgent [fZ x] (Some (target_new [fZ x] None)) tt) [1; 2; 3]%Z), (st0 tt).
  eexists. eexists. split; [cbv [kway_tournament bindM lift ret kway_size]; reflexivity|]. reflexivity.
Qed.


Example C45_case :
  let pop := map (fun x => mkAgent [fZ x] (Some (target_new [fZ x] None)) tt) [5; 1; 4; 2; 3]%Z in
  Forall (fun a : agent unit => has_target a /\ num (fit a)) pop /\
  match kway_tournament (X := unit) demo_env (demo_prob Min sphere false) pop (KInt 3) 2 false (st0 tt),
        kway_tournament (X := unit) demo_env (demo_prob Max sphere false) pop (KFloat (fdiv (fZ 1) (fZ 2))) 1 true (st0 tt) with
  | Ok (r, _), Ok (q, _) => (List.length r, List.length q) = (2, 1)
  | _, _ => False
  end.
Proof.
  split; [|vm_compute; reflexivity].
  repeat constructor; try discriminate; vm_compute; reflexivity.
Qed.

Print Assumptions C43_exclude_one.
Print Assumptions C43_exclude_one_error.
Print Assumptions C43_exclude_one_reach.
Print Assumptions C43_exclude_list.
Print Assumptions C43_exclude_list_reach.
Print Assumptions C43_exclude_list_error.
Print Assumptions C45_tournament.
Print Assumptions C45_small_fraction.
Print Assumptions C45_zero_losers_refuted.
