(** More blocks. *)
From Verif Require Import Prelude Fl MCore MHelp MAlg SpecCore SpecRun PSelect PLogic PSolve PRun SpecAlg PAlg PFree PClass.

Section Blocks2.
Context {A X : Type}.
Variable E : env.
Variable P : problem.
Variable md : mode.
Variable feas : vec -> Prop.
Variable attok : list vec -> A -> Prop.
Variable IL : nat -> Prop.
Variable IX : list vec -> X -> Prop.
Variable cov : Prop.
Variables nd n0 n : nat.
Variable s0 : st A X.
Hypothesis HP : params E P feas attok cov.
Notation Ev := (Ev P feas attok IL IX cov nd n0).
Notation good := (good P feas attok).
Notation R := (R P feas attok IL IX cov nd n0 n s0).
Notation qt := (qt P feas attok IL IX cov nd n0 n s0).
Notation blk := (blk P feas attok IL IX cov nd n0 n s0).

(** More agents held that are in the population. *)
Lemma R_hold W l s V : R W l s -> Forall (good (s_log s)) V -> R (W ++ V) l s.
Proof.
  intros (V0 & Hn & Hl) HV. split; [|split; assumption]. destruct V0. constructor; auto.
  - apply Forall_app; auto.
  - intros C g x Hg Hx. destruct (v_cov C g x Hg Hx) as [H|(b & Hb & Hw)]; [left; exact H|right]. exists b. split; [|exact Hw].
    rewrite !in_app_iff in *. tauto.
Qed.
Lemma good_best L p : Forall (good L) p -> exists sp ix, get_sorted_population (e_argsort E) p (p_mm P) = Ok (sp, ix) /\ Permutation sp p /\
  (cov -> forall b a, hd_error sp = Some b -> In a p -> no_worse (p_mm P) (fit b) (fit a)).
Proof.
  intros G. destruct (sorted_population_spec (e_argsort E) (pr_argsort _ _ _ _ _ HP) p (p_mm P) (Forall_good_target _ _ _ _ _ G)) as (sp & ix & Es & _ & _ & Hp & Hs).
  exists sp, ix. split; [exact Es|]. split; [exact Hp|]. intros C b a. eapply sorted_head_best; eauto.
Qed.
Lemma same_covers L (a : agent A) : cov -> good L a -> no_worse (p_mm P) (fit a) (fit a).
Proof. intros C G. apply no_worse_refl; [apply HP|]. eapply good_num; [apply HP; exact C|exact G]. Qed.
Lemma wp_sort W l s (Q : unit -> st A X -> Prop) : R W l s ->
  (forall ps, Permutation ps (s_pop s) -> R W l (with_pop s ps) -> (cov -> forall b a, hd_error ps = Some b -> In a (s_pop s) -> no_worse (p_mm P) (fit b) (fit a)) -> Q tt (with_pop s ps)) ->
  wp (sort_pop E P) Q s.
Proof.
  intros HR H. pose proof HR as (V & Hn & Hl). pose proof (v_good _ _ _ _ _ _ _ _ _ _ _ V) as G.
  destruct (good_best _ _ G) as (ps & ix & Es & Hp & HB). unfold sort_pop. apply wp_bind, wp_get_pop. apply wp_bind. eapply wp_lift; [exact Es|].
  unfold wp, set_pop. apply H; [exact Hp| |exact HB]. apply R_set_pop with (E := E) (W' := []); [exact HP|rewrite app_nil_r; exact HR| | |].
  - rewrite (Permutation_length Hp). exact Hn.
  - rewrite Forall_forall in *. intros a Ha. apply G. eapply Permutation_in; eauto.
  - rewrite app_nil_r. intros C a Ha. exists a. split; [eapply Permutation_in; [symmetry; exact Hp|exact Ha]|].
    rewrite Forall_forall in G. eapply same_covers; eauto.
Qed.
Lemma b_sort : blk 0 0 (sort_pop E P) (fun _ => True).
Proof.
  intros W l s HR. eapply wp_sort; [exact HR|]. intros ps _ H _. split; [exact I|]. exists 0. rewrite Nat.add_0_r. split; [lia|exact H].
Qed.

Variable correct : vec -> M A X vec.
Variable gea : option vec -> M A X (agent A).
Hypothesis Hcorrect : forall x, qt (correct x) feas.
Hypothesis Hgea : forall x, feas x -> qt (gea (Some x)) (fresh_agent feas attok).

Lemma hd_upd {T} (l : list T) i x : hd_error (upd l (S i) x) = hd_error l.
Proof. destruct l; reflexivity. Qed.
(** New agents written over slots other than the first, when the first agent covers the rest. *)
Lemma b_sort_retire {Y} m k (pre : M A X Y) (Ψ : Y -> Prop) cand : m + k = n -> 0 < m -> qt pre Ψ ->
  (forall y i, Ψ y -> i < k -> qt (cand y i) (fun _ => True)) ->
  blk k k (sort_retire E P correct gea m k pre cand) (fun _ => True).
Proof.
  intros Hm Hpos Hpre Hc W l s HR. unfold sort_retire. apply wp_bind. eapply wp_sort; [exact HR|]. intros ps Hp R1 HB.
  apply wp_bind. eapply wp_mono; [apply (Hpre _ _ _ R1)|]. intros y s2 [Hy Hn2].
  assert (R2 := R_near _ _ _ _ _ _ _ _ _ _ _ _ _ _ R1 Hn2). pose proof (near_pop _ _ _ Hn2) as Ep. cbn in Ep.
  pose proof HR as (V & HnV & _).
  destruct ps as [|b ps]; [apply Permutation_length in Hp; simpl in Hp; lia|].
  unfold for_. apply wp_for_acc with (I := fun i _ s' => R W (l + i) s' /\ hd_error (s_pop s') = Some b /\
     forall j c, m + i <= j -> nth_error (s_pop s') j = Some c -> cov -> no_worse (p_mm P) (fit b) (fit c)).
  - rewrite Nat.add_0_r, Ep. split; [exact R2|]. split; [reflexivity|]. intros j c _ Hj C. eapply HB; [exact C|reflexivity|].
    eapply Permutation_in; [exact Hp|eapply nth_error_In; exact Hj].
  - intros i [] s' Hi (R3 & H1 & H2). apply wp_bind. eapply wp_mono; [apply (Hc y i Hy ltac:(lia) _ _ _ R3)|]. intros x s4 [_ Hn4].
    assert (R4 := R_near _ _ _ _ _ _ _ _ _ _ _ _ _ _ R3 Hn4). apply wp_bind.
    eapply wp_gen_agent; [exact HP|exact Hcorrect|exact Hgea|exact R4|]. intros a s5 Ga R5 Ep5.
    rewrite (near_pop _ _ _ Hn4) in Ep5. pose proof R5 as (V5 & Hn5 & _).
    apply wp_pop_set; [lia|]. replace (m + i) with (S (m + i - 1)) by lia.
    split; [|split].
    + replace (l + S i) with (l + i + 1) by lia. apply R_set_pop with (E := E) (W' := [a]); [exact HP|exact R5|rewrite upd_length; exact Hn5| |].
      * apply Forall_forall. intros c Hcc. apply upd_In in Hcc. destruct Hcc as [->|Hcc]; [exact Ga|].
        pose proof (v_good _ _ _ _ _ _ _ _ _ _ _ V5) as G5. rewrite Forall_forall in G5. auto.
      * intros C c Hcc. apply in_app_or in Hcc. destruct Hcc as [Hcc|[<-|[]]].
        -- apply In_nth_error in Hcc. destruct Hcc as [j Hj].
           destruct (Nat.eq_dec j (S (m + i - 1))) as [->|Hne].
           ++ exists b. split.
              ** assert (Hh : hd_error (upd (s_pop s5) (S (m + i - 1)) a) = Some b) by (rewrite hd_upd, Ep5; exact H1).
                 destruct (upd (s_pop s5) (S (m + i - 1)) a); [discriminate|]. injection Hh as ->. left; reflexivity.
              ** rewrite Ep5 in Hj. eapply H2; [|exact Hj|exact C]. lia.
           ++ exists c. split; [eapply nth_error_In; rewrite upd_nth_neq; [exact Hj|lia]|].
              pose proof (v_good _ _ _ _ _ _ _ _ _ _ _ V5) as G5. rewrite Forall_forall in G5. eapply same_covers; [exact C|apply G5; eapply nth_error_In; exact Hj].
        -- exists a. split; [eapply nth_error_In; apply upd_nth_eq; lia|]. eapply same_covers; eauto.
    + cbn. rewrite hd_upd, Ep5. exact H1.
    + cbn. intros j c Hj Hjc C. rewrite upd_nth_neq in Hjc by lia. rewrite Ep5 in Hjc. eapply H2; [|exact Hjc|exact C]. lia.
  - intros [] s' (R3 & _). split; [exact I|]. exists k. split; [lia|exact R3].
Qed.

Lemma b_try_pair i j x y : i < n -> j < n -> blk 2 2 (try_pair P correct gea i j x y) (fun _ => True).
Proof.
  intros Hi Hj W l s HR. unfold try_pair. apply wp_bind. eapply wp_mono; [apply (Hcorrect x _ _ _ HR)|]. intros x' s1 [Hx Hn1].
  assert (R1 := R_near _ _ _ _ _ _ _ _ _ _ _ _ _ _ HR Hn1). apply wp_bind. eapply wp_mono; [apply (Hcorrect y _ _ _ R1)|]. intros y' s2 [Hy Hn2].
  assert (R2 := R_near _ _ _ _ _ _ _ _ _ _ _ _ _ _ R1 Hn2). apply wp_bind.
  eapply wp_gen_at; [exact HP|exact Hgea|exact R2|exact Hx|]. intros a s3 Ga R3 _. apply wp_bind.
  eapply wp_gen_at; [exact HP|exact Hgea|exact R3|exact Hy|]. intros b s4 Gb R4 _.
  assert (R5 : R ((W ++ [b]) ++ [a]) (l + 1 + 1) s4).
  { destruct R4 as (V & Hn & Hl). split; [|split; assumption]. destruct V. constructor; auto.
    - rewrite !Forall_app in *. tauto.
    - intros C g z Hg Hz. destruct (v_cov C g z Hg Hz) as [H|(c & Hc & Hw)]; [left; exact H|right; exists c; split; [|exact Hw]].
      rewrite !in_app_iff in *. tauto. }
  assert (Ga4 : good (s_log s4) a).
  { destruct R4 as (V & _). pose proof (v_W _ _ _ _ _ _ _ _ _ _ _ V) as GW. rewrite !Forall_app in GW. destruct GW as [[_ GW] _]. inversion GW; assumption. }
  apply wp_bind. eapply wp_accept; [exact HP|exact R5|exact Ga4|exact Hi|]. intros s6 R6.
  assert (Gb6 : good (s_log s6) b).
  { destruct R6 as (V & _). pose proof (v_W _ _ _ _ _ _ _ _ _ _ _ V) as GW. rewrite !Forall_app in GW. destruct GW as [_ GW]. inversion GW; assumption. }
  eapply wp_accept; [exact HP|exact R6|exact Gb6|exact Hj|]. intros s7 R7. split; [exact I|]. exists 2. split; [lia|].
  replace (l + 2) with (l + 1 + 1) by lia. exact R7.
Qed.

Lemma b_with_elites a b k (body : M A X unit) : 2 * k <= n -> 0 < n -> blk a b body (fun _ => True) -> blk a b (with_elites E P n k body) (fun _ => True).
Proof.
  intros Hk Hpos Hb W l s HR. unfold with_elites. apply wp_bind, wp_get_pop. pose proof HR as (V & HnV & _).
  pose proof (v_good _ _ _ _ _ _ _ _ _ _ _ V) as Gp.
  assert (R1 : R (W ++ firstn k (s_pop s)) l s).
  { apply R_hold; [exact HR|]. rewrite Forall_forall in *. intros c Hc. apply Gp. rewrite <- (firstn_skipn k (s_pop s)). apply in_or_app; auto. }
  assert (Lk : List.length (firstn k (s_pop s)) = k) by (rewrite firstn_length; lia).
  remember (firstn k (s_pop s)) as el eqn:Eel. apply wp_bind. eapply wp_mono; [apply (Hb _ _ _ R1)|]. intros [] s2 (_ & c & Hc & R2).
  apply wp_bind. eapply wp_sort; [exact R2|]. intros ps Hp R3 HB. pose proof R2 as (V2 & Hn2 & _).
  pose proof (Permutation_length Hp) as Lp. destruct ps as [|h ps]; [simpl in Lp; lia|].
  pose proof (v_W _ _ _ _ _ _ _ _ _ _ _ V2) as GW. rewrite Forall_app in GW. destruct GW as [_ Gel]. rewrite Forall_forall in Gel.
  set (s3 := with_pop s2 (h :: ps)) in *.
  unfold for_. apply wp_for_acc with (I := fun i _ s' => R (W ++ el) (l + c) s' /\ s_log s' = s_log s2 /\ hd_error (s_pop s') = Some h /\
     (forall j d, j < n - i -> nth_error (s_pop s') j = Some d -> cov -> no_worse (p_mm P) (fit h) (fit d)) /\
     (forall j d, j < i -> nth_error el j = Some d -> In d (s_pop s') /\ nth_error (s_pop s') (n - 1 - j) = Some d)).
  - split; [exact R3|]. split; [reflexivity|]. split; [reflexivity|]. split; [|intros; lia]. intros j d _ Hj C. eapply HB; [exact C|reflexivity|].
    eapply Permutation_in; [exact Hp|eapply nth_error_In; exact Hj].
  - intros i [] s' Hi (R4 & El & H1 & H2 & H3). apply wp_bind.
    destruct (nth_error el i) as [d|] eqn:Ed; [|apply nth_error_None in Ed; lia].
    eapply wp_lift with (y := d); [unfold getitem; rewrite Ed; reflexivity|]. pose proof R4 as (V4 & Hn4 & _).
    apply wp_pop_set; [lia|]. assert (Hin : In d el) by (eapply nth_error_In; exact Ed).
    pose proof (v_good _ _ _ _ _ _ _ _ _ _ _ V4) as G4. rewrite Forall_forall in G4.
    replace (n - 1 - i) with (S (n - 2 - i)) by lia. split; [|split; [exact El|split; [|split]]].
    + apply R_set_pop with (E := E) (W' := []); [exact HP|rewrite app_nil_r; exact R4|rewrite upd_length; exact Hn4| |].
      * apply Forall_forall. intros e He. apply upd_In in He. destruct He as [->|He]; [rewrite El; auto|auto].
      * rewrite app_nil_r. intros C e He. apply In_nth_error in He. destruct He as [j Hj].
        destruct (Nat.eq_dec j (S (n - 2 - i))) as [->|Hne].
        -- exists h. split.
           ++ assert (Hh : hd_error (upd (s_pop s') (S (n - 2 - i)) d) = Some h) by (rewrite hd_upd; exact H1).
              destruct (upd (s_pop s') (S (n - 2 - i)) d); [discriminate|]. injection Hh as ->. left; reflexivity.
           ++ eapply H2; [|exact Hj|exact C]. lia.
        -- exists e. split; [eapply nth_error_In; rewrite upd_nth_neq; [exact Hj|lia]|].
           eapply same_covers; [exact C|apply G4; eapply nth_error_In; exact Hj].
    + cbn. rewrite hd_upd. exact H1.
    + cbn. intros j e Hj Hje C. rewrite upd_nth_neq in Hje by lia. eapply H2; [|exact Hje|exact C]. lia.
    + cbn. intros j e Hj Hje. assert (D : nth_error (upd (s_pop s') (S (n - 2 - i)) d) (n - 1 - j) = Some e).
      { destruct (Nat.eq_dec j i) as [->|Hne].
        - rewrite Ed in Hje. injection Hje as ->. replace (n - 1 - i) with (S (n - 2 - i)) by lia. apply upd_nth_eq. lia.
        - rewrite upd_nth_neq by lia. apply H3; [lia|exact Hje]. }
      split; [eapply nth_error_In; exact D|exact D].
  - intros [] s' (R4 & El & H1 & H2 & H3). split; [exact I|]. exists c. split; [lia|].
    destruct R4 as (V4 & Hn4 & Hl4). split; [|split; assumption].
    eapply Ev_drop; [apply HP|apply HP|exact V4|apply incl_appl, incl_refl|].
    intros C g d Hg Hd. right. apply in_app_or in Hd. destruct Hd as [Hd|Hd].
    + exists d. split; [apply in_or_app; auto|]. eapply same_covers; [exact C|]. eapply Ev_W_good; [exact V4|apply in_or_app; auto].
    + exists d. split; [apply in_or_app; left|].
      * apply In_nth_error in Hd. destruct Hd as [j Hj]. apply (H3 j d); [|exact Hj]. assert (j < List.length el) by (apply nth_error_Some; congruence). lia.
      * eapply same_covers; [exact C|]. eapply Ev_W_good; [exact V4|apply in_or_app; auto].
Qed.
End Blocks2.

(** Blocks for the automation. *)
Ltac hasmore m ::= match m with
  | context [sort_pop] => idtac | context [sort_retire] => idtac | context [try_pair] => idtac | context [with_elites] => idtac
  end.
Ltac bmore HP m ::= lazymatch m with
  | sort_pop _ _ => eapply b_sort; bprem HP
  | sort_retire _ _ _ _ _ _ _ _ => eapply b_sort_retire; try (exact HP); [bprem HP|bprem HP|lia|lia|quiet HP|intros; cbv beta in *; qfacts; quiet HP]
  | try_pair _ _ _ _ _ _ _ => eapply b_try_pair; bprem HP
  | with_elites _ _ _ _ _ => eapply b_with_elites; [exact HP|lia|lia|block HP]
  end.

(** Agents with attributes, any values of which will do. *)
Lemma gea_with_ok {A X} (P : problem) (feas : vec -> Prop) (mk : vec -> M A X A) : problem_ok P feas ->
  (forall x, dr (mk x) (fun _ => True)) -> gea_ok feas (@anyatt A) (gea_with P mk).
Proof.
  intros Hp Hm s o Ho. unfold gea_with. apply wp_bind. destruct o as [x|]; simpl.
  - apply wp_ret. apply wp_bind. eapply wp_mono; [apply Hm|]. intros b s' [[k ->] _]. apply wp_ret.
    split; [eexists; reflexivity|]. split; [reflexivity|]. intros; exact I.
  - apply wp_bind. unfold wp at 1, tick. apply wp_ret. apply wp_bind. eapply wp_mono; [apply Hm|]. intros b s' [[k ->] _]. apply wp_ret.
    split; [eexists; reflexivity|]. split; [apply Hp|]. intros; exact I.
Qed.
(** The same loop when finding a candidate needs evaluations of its own. *)
Section Free2.
Context {A X : Type}.
Variable E : env.
Variable P : problem.
Variable md : mode.
Variable feas : vec -> Prop.
Variable attok : list vec -> A -> Prop.
Variable IL : nat -> Prop.
Variable IX : list vec -> X -> Prop.
Variable cov : Prop.
Variables nd n0 n : nat.
Variable s0 : st A X.
Hypothesis HP : params E P feas attok cov.
Hypothesis Hno : ~ cov.
Notation qt := (qt P feas attok IL IX cov nd n0 n s0).
Notation gt := (gt P feas attok IL IX cov nd n0 n s0).
Variable correct : vec -> M A X vec.
Variable gea : option vec -> M A X (agent A).
Hypothesis Hcorrect : forall x, qt (correct x) feas.
Hypothesis Hgea : forall x, feas x -> qt (gea (Some x)) (fresh_agent feas attok).
Lemma g_greedy_each_ev w a b m nf (cand : nat -> M A X vec) : m = n ->
  (forall w' i, incl w w' -> i < m -> gt w' a b (cand i) (fun _ _ => True)) ->
  gt w (m * a + m) (m * b + m) (greedy_each P md correct gea m nf cand) (fun _ _ => True).
Proof.
  intros Hm Hc. unfold greedy_each, greedy_loop. destruct (is_avail md) eqn:Hav.
  - eapply g_bind with (a := m * a) (b := m * b) (c := m) (d := m) (Φ := fun w' l => List.length l = m /\ Forall (pend feas attok w') l).
    + eapply g_for_acc with (J := fun k w' l => List.length l = k /\ Forall (pend feas attok w') l); [split; [reflexivity|constructor]|].
      intros k w' l Hi Hk [Hl Hf]. replace a with (a + 0) by lia. replace b with (b + 0) by lia.
      eapply g_bind with (Φ := fun _ _ => True).
      * replace a with (a + 0) by lia. replace b with (b + 0) by lia.
        eapply g_bind with (Φ := fun _ _ => True); [apply Hc; [exact Hi|lia]|]. intros x w2 Hi2 _. apply g_ret. exact I.
      * intros p w2 Hi2 _. eapply g_qbind; [eapply gq_propose; eassumption|]. intros ag Ha. apply g_ret.
        split; [rewrite app_length; simpl; lia|]. apply Forall_app; split; [eapply pends_mono; eauto|constructor; auto].
    + intros l w' Hi [Hl Hf]. simpl. eapply g_mono with (a := m + 0) (b := m + 0); [|lia|lia|intros w2 y _ T; exact T].
      eapply g_bind; [rewrite <- Hl; eapply g_update_target; eassumption|]. intros l' w2 Hi2 [Hf2 Hl2]. apply g_quiet.
      eapply gq_bind; [eapply gq_get_pop|]. intros p [Lp Gp].
      eapply gq_bind; [eapply gq_greedy; [exact HP|exact Hno|exact Gp|exact Hf2|lia]|]. intros q [Lq Gq]. eapply gq_set_pop; try eassumption. lia.
  - replace (m * a + m) with (m * (a + 1) + 0) by lia. replace (m * b + m) with (m * (b + 1) + 0) by lia.
    eapply g_bind with (Φ := fun _ _ => True).
    + eapply g_for_acc with (J := fun _ _ _ => True); [exact I|].
      intros k w' l Hi Hk _.
      eapply g_bind with (Φ := fun _ p => fst p = k).
      * replace a with (a + 0) by lia. replace b with (b + 0) by lia.
        eapply g_bind with (Φ := fun _ _ => True); [apply Hc; [exact Hi|lia]|]. intros x w2 Hi2 _. apply g_ret. reflexivity.
      * intros p w2 Hi2 Ep. eapply g_qbind; [eapply gq_propose; eassumption|]. intros ag Ha.
        replace 1 with (1 + 0) by lia; eapply g_bind; [eapply g_eval1; eassumption|]. intros ag' w3 Hi3 Ha'.
        apply g_quiet. eapply gq_bind; [eapply gq_keep_better; try eassumption; lia|]. intros _ _. apply gq_ret. exact I.
    + intros l w' Hi _. simpl. apply g_ret. exact I.
Qed.
End Free2.
Ltac hasevmore m ::= match m with context [greedy_each] => idtac end.

Section Agents.
Context {A X : Type}.
Variable E : env.
Variable P : problem.
Variable md : mode.
Variable gea : option vec -> M A X (agent A).
Variables n epochs : nat.
Variable srt : bool.
Variables iv bm : M A X unit.
Variable ev : nat -> M A X unit.
Variable XP : X -> Prop.
Variable H : (vec -> Prop) -> Prop.
Variables IX0 IX : (vec -> Prop) -> list vec -> X -> Prop.
Variables kmin kmax : nat.
Notation al := (agent_algo E md gea (ga_of P gea) n epochs srt iv bm ev).
Lemma att_elite :
  0 < n -> 0 < epochs ->
  (forall feas, problem_ok P feas -> gea_ok feas (@anyatt A) gea) ->
  (forall feas, problem_ok P feas -> vars_contract XP (IX0 feas) iv) ->
  (forall feas nd n0 s, params E P feas (@anyatt A) (true = true /\ obj_num P feas) -> H feas ->
     Inv P feas (@anyatt A) (eq n) (IX0 feas) (true = true /\ obj_num P feas) nd n0 s ->
     wp bm (fun _ s' => exists k x, s' = with_x (bump s k) x /\ xok (IX feas) (s_log s) x) s) ->
  (forall feas nd n0 ep s0, params E P feas (@anyatt A) (true = true /\ obj_num P feas) -> H feas -> gea_ok feas (@anyatt A) gea -> 1 <= ep ->
     blk0 P feas (@anyatt A) (eq n) (IX feas) (true = true /\ obj_num P feas) nd n0 n s0 kmin kmax (ev ep) (fun _ => True)) ->
  sound_run_gen E P md al XP H (fun _ => True) (eq n) true n n kmin kmax.
Proof.
  intros Hn He Hg Hv Hb Hev. apply (sound_agents E P md gea (ga_of P gea) n epochs srt iv bm ev XP H (fun _ => @anyatt A) IX0 IX); auto.
  - intros feas Hp. apply ga_of_ok; auto.
  - intros feas nd n0 HP HH. eapply contract_of; [exact HP|]. intros ep s0 Hep _. apply Hev; auto. apply Hg, HP.
Qed.
Lemma att_free :
  0 < n -> 0 < epochs ->
  (forall feas, problem_ok P feas -> gea_ok feas (@anyatt A) gea) ->
  (forall feas, problem_ok P feas -> vars_contract XP (IX0 feas) iv) ->
  (forall feas nd n0 s, params E P feas (@anyatt A) (false = true /\ obj_num P feas) -> H feas ->
     Inv P feas (@anyatt A) (eq n) (IX0 feas) (false = true /\ obj_num P feas) nd n0 s ->
     wp bm (fun _ s' => exists k x, s' = with_x (bump s k) x /\ xok (IX feas) (s_log s) x) s) ->
  (forall feas nd n0 ep s0 w, params E P feas (@anyatt A) (false = true /\ obj_num P feas) -> H feas -> gea_ok feas (@anyatt A) gea -> 1 <= ep ->
     gt P feas (@anyatt A) (eq n) (IX feas) (false = true /\ obj_num P feas) nd n0 n s0 w kmin kmax (ev ep) (fun _ _ => True)) ->
  sound_run_gen E P md al XP H (fun _ => True) (eq n) false n n kmin kmax.
Proof.
  intros Hn He Hg Hv Hb Hev. apply (sound_agents E P md gea (ga_of P gea) n epochs srt iv bm ev XP H (fun _ => @anyatt A) IX0 IX); auto.
  - intros feas Hp. apply ga_of_ok; auto.
  - intros feas nd n0 HP HH. apply contract_free. intros ep s0 w Hep _. apply Hev; auto. apply Hg, HP.
Qed.
End Agents.
Ltac qgea ::= first [apply gea_plain; intros; exact I | intros; eapply gea_quiet; eassumption].
(** Agents made by [gea_with]; attribute invariant [I]. *)
Ltac att_elite I := intros; eapply (att_elite _ _ _ _ _ _ _ _ _ _ _ _ (fun _ _ => I) (fun _ _ => I)); [lia|lia|..];
  [ intros feas Hpr; apply gea_with_ok; [exact Hpr|intros; draws; trivial]
  | intros feas Hpr; first [apply vars_none; solve [auto] | apply vars_set; draws; cbv beta]
  | intros feas nd n0 s HP HH HI; eapply main_none; exact HI
  | intros feas nd n0 ep s0 HP HH Hg Hep ].
Ltac att_free I := intros; eapply (att_free _ _ _ _ _ _ _ _ _ _ _ _ (fun _ _ => I) (fun _ _ => I)); [lia|lia|..];
  [ intros feas Hpr; apply gea_with_ok; [exact Hpr|intros; draws; trivial]
  | intros feas Hpr; first [apply vars_none; solve [auto] | apply vars_set; draws; cbv beta]
  | intros feas nd n0 s HP HH HI; eapply main_none; exact HI
  | intros feas nd n0 ep s0 w HP HH Hg Hep ].
