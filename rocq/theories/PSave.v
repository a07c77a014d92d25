(** Runs of the classes that update the best solution inside an epoch (save=False). *)
From Coq Require Import Lra.
From Verif Require Import Prelude Fl MCore SpecCore SpecRun PSelect PLogic PSolve PRun SpecSave MAlg8.

Lemma set_last_snoc {T} (l : list T) x y : last_item l = Ok x -> exists l0, l = l0 ++ [x] /\ set_last l y = Ok (l0 ++ [y]).
Proof.
  intros H. destruct l as [|a l]; [discriminate|].
  destruct (last_item_nonempty (a :: l)) as (z & l' & Ez & El); [congruence|].
  rewrite El in H. inversion H; subst z. exists l'. split; [exact Ez|]. rewrite Ez. apply set_last_app.
Qed.

(** Choosing between a new agent and the best so far, and between it and another agent that is no better: when the new
    agent replaces the first it replaces the second. *)
Lemma better_follow {A} (c g k g' k' : agent A) (mm : minmax) (rv : bool) :
  wf_agent c -> wf_agent g -> wf_agent k -> valid_mm mm -> num (fit c) -> num (fit g) -> num (fit k) ->
  (if rv then no_worse mm (fit k) (fit g) else no_worse mm (fit g) (fit k)) ->
  get_better_agent c g mm rv = Ok g' -> get_better_agent c k mm rv = Ok k' ->
  (g' = c /\ k' = c) \/ (g' = g /\ (g = k -> k' = k)).
Proof.
  intros Wc Wg Wk V Nc Ng Nk Rl. unfold get_better_agent.
  rewrite (fitness_fit c), (fitness_fit g), (fitness_fit k) by (apply wf_has_target; assumption).
  assert (T1 : fle (fit g) (fit k) = true -> flt (fit c) (fit g) = true -> flt (fit c) (fit k) = true).
  { intros F L. apply flt_FR; auto. apply fle_FR in F; auto. apply flt_FR in L; auto. lra. }
  assert (T2 : fle (fit k) (fit g) = true -> flt (fit c) (fit g) = false -> flt (fit c) (fit k) = false).
  { intros F L. destruct (flt (fit c) (fit k)) eqn:Q; [|reflexivity]. exfalso.
    assert (flt (fit c) (fit g) = true); [|congruence]. apply flt_FR; auto. apply fle_FR in F; auto. apply flt_FR in Q; auto. lra. }
  destruct V as [->| ->]; destruct rv; cbn [bind xorb no_worse] in *;
    (destruct (flt (fit c) (fit g)) eqn:Q1; [try rewrite (T1 Rl eq_refl)|try rewrite (T2 Rl eq_refl)]);
    rewrite ?agent_copy_wf by assumption; intros E1; inversion E1; subst g'; clear E1;
    intros E2; try (inversion E2; subst k'; auto; fail);
    right; (split; [reflexivity|]); intros ->; rewrite Q1 in E2; rewrite ?agent_copy_wf in E2 by assumption; inversion E2; reflexivity.
Qed.

Section Save.
Context {A X : Type}.
Variable E : env.
Variable P : problem.
Variable md : MCore.mode.
Variable feas : vec -> Prop.
Variable attok : list vec -> A -> Prop.
Variable IL : nat -> Prop.
Variable IX : list vec -> X -> Prop.
Variable cov : Prop.
Variables nd n0 : nat.
Hypothesis attok_mono : forall L L' a, incl L L' -> attok L a -> attok L' a.
Hypothesis IL_pos : forall n, IL n -> 0 < n.
Hypothesis Vmm : valid_mm (p_mm P).
Hypothesis Hargsort : argsort_ok (e_argsort E).
Hypothesis cov_num : cov -> obj_num P feas.

Notation good := (good P feas attok).
Notation Inv := (Inv P feas attok IL IX cov nd n0).
Notation Ev := (Ev P feas attok IL IX cov nd n0).
Notation Hist := (Hist P feas attok IL).

Definition recorded (L : list vec) (a : agent A) (f : f64) : Prop :=
  (exists x, In x L /\ f = fitx P x) /\ (obj_num P feas -> no_worse (p_mm P) (fit a) f).
Definition top (p : list (agent A)) (b : agent A) : Prop := obj_num P feas -> forall a, In a p -> no_worse (p_mm P) (fit b) (fit a).
Definition bottom (p : list (agent A)) (b : agent A) : Prop := obj_num P feas -> forall a, In a p -> no_worse (p_mm P) (fit a) (fit b).

(** History after [i] completed epochs, and inside the next one. *)
Record HistS (i : nat) (s : st A X) : Prop := mkHistS {
  hs_gb : List.length (h_gb (s_hist s)) = S i;
  hs_cb : List.length (h_cb (s_hist s)) = S i;
  hs_gw : List.length (h_gw (s_hist s)) = S i;
  hs_cw : List.length (h_cw (s_hist s)) = S i;
  hs_time : List.length (h_time (s_hist s)) = i;
  hs_div : List.length (h_div (s_hist s)) = i;
  hs_gbf : Forall2 (recorded (s_log s)) (tl (h_gb (s_hist s))) (h_gbf (s_hist s));
  hs_cbf : Forall2 (recorded (s_log s)) (tl (h_cb (s_hist s))) (h_cbf (s_hist s));
  hs_ggb : Forall (good (s_log s)) (h_gb (s_hist s));
  hs_gcb : Forall (good (s_log s)) (h_cb (s_hist s));
  hs_ggw : Forall (good (s_log s)) (h_gw (s_hist s));
  hs_gcw : Forall (good (s_log s)) (h_cw (s_hist s));
  hs_best : obj_num P feas -> forall j g, nth_error (h_gb (s_hist s)) j = Some g ->
              In g (firstn (S j) (h_cb (s_hist s))) /\ forall b, In b (firstn (S j) (h_cb (s_hist s))) -> no_worse (p_mm P) (fit g) (fit b);
  hs_worst : obj_num P feas -> forall j g, nth_error (h_gw (s_hist s)) j = Some g ->
              In g (firstn (S j) (h_cw (s_hist s))) /\ forall b, In b (firstn (S j) (h_cw (s_hist s))) -> no_worse (p_mm P) (fit b) (fit g);
  hs_pop : if p_save_pop P
           then Forall2 top (h_pop (s_hist s)) (tl (h_cb (s_hist s))) /\
                Forall2 bottom (h_pop (s_hist s)) (tl (h_cw (s_hist s))) /\
                Forall (fun p => IL (List.length p) /\ Forall (good (s_log s)) p) (h_pop (s_hist s))
           else h_pop (s_hist s) = [] }.

(** The values recorded last are those of the last recorded agents (at the end of an epoch). *)
Definition closed (i : nat) (s : st A X) : Prop :=
  0 < i -> exists g, last_item (h_gb (s_hist s)) = Ok g /\ last_item (h_gbf (s_hist s)) = Ok (fit g).

Lemma recorded_mono L L' a f : incl L L' -> recorded L a f -> recorded L' a f.
Proof. intros H ((x & Hx & ->) & T). split; [exists x; auto|exact T]. Qed.
Lemma Forall2_recorded_mono L L' l fs : incl L L' -> Forall2 (recorded L) l fs -> Forall2 (recorded L') l fs.
Proof. intros H F. induction F; constructor; auto. eapply recorded_mono; eauto. Qed.

Lemma HistS_mono i s s' : HistS i s -> s_hist s' = s_hist s -> incl (s_log s) (s_log s') -> HistS i s'.
Proof.
  intros [? ? ? ? ? ? ? ? ? ? ? ? ? ? Hp] Eh Hi.
  constructor; rewrite ?Eh; auto; try (eapply Forall_good_mono; eauto); try (eapply Forall2_recorded_mono; eauto).
  destruct (p_save_pop P); auto. destruct Hp as (? & ? & Hp3). split; [assumption|]. split; [assumption|].
  eapply Forall_impl; [|exact Hp3]. intros p [? ?]; split; auto. eapply Forall_good_mono; eauto.
Qed.

Lemma good_recorded L a : good L a -> recorded L a (fit a).
Proof.
  intros G. split; [exists (sol a); split; [apply G|eapply good_fit; exact G]|].
  intros N. apply no_worse_refl; [exact Vmm|]. eapply good_num; eauto.
Qed.

Lemma Hist_S i s : Hist i s -> HistS i s.
Proof.
  intros H. constructor; try apply H.
  - rewrite (hi_gbf _ _ _ _ _ _ H). pose proof (Forall_tl _ _ (hi_ggb _ _ _ _ _ _ H)) as F.
    induction F; constructor; auto. apply good_recorded; assumption.
  - rewrite (hi_cbf _ _ _ _ _ _ H). pose proof (Forall_tl _ _ (hi_gcb _ _ _ _ _ _ H)) as F.
    induction F; constructor; auto. apply good_recorded; assumption.
  - intros N j g Hj. destruct (hi_best _ _ _ _ _ _ H j g Hj) as [T1 T2]. split; [exact T1|exact (T2 N)].
  - intros N j g Hj. destruct (hi_worst _ _ _ _ _ _ H j g Hj) as [T1 T2]. split; [exact T1|exact (T2 N)].
  - pose proof (hi_pop _ _ _ _ _ _ H) as HP. destruct (p_save_pop P); [|exact HP].
    destruct HP as (P1 & P2 & P3). split; [|split; [|exact P3]].
    + clear - P1. induction P1 as [|p b ps bs Hb _ IH]; constructor; auto. intros N. apply (proj2 Hb N).
    + clear - P2. induction P2 as [|p b ps bs Hb _ IH]; constructor; auto. intros N. apply (proj2 Hb N).
Qed.

(** Changing the last entries of a chain. *)
Lemma chain_set (gs cs : list (agent A)) g k g' k' c (Rel : f64 -> f64 -> Prop) i :
  (forall x y z, Rel x y -> Rel y z -> Rel x z) ->
  List.length gs = i -> List.length cs = i ->
  (forall j q, nth_error (gs ++ [g]) j = Some q -> In q (firstn (S j) (cs ++ [k])) /\
       forall b, In b (firstn (S j) (cs ++ [k])) -> Rel (fit q) (fit b)) ->
  (g' = c /\ k' = c) \/ (g' = g /\ (g = k -> k' = k)) ->
  (k' = c \/ k' = k) -> Rel (fit g') (fit c) -> Rel (fit g') (fit g) -> 
  forall j q, nth_error (gs ++ [g']) j = Some q -> In q (firstn (S j) (cs ++ [k'])) /\
       forall b, In b (firstn (S j) (cs ++ [k'])) -> Rel (fit q) (fit b).
Proof.
  intros Tr Lg Lc HC Hor Hk R1 R2 j q Hq. apply nth_error_app_last in Hq. destruct Hq as [[Hj Hq]|[-> ->]].
  - specialize (HC j q). rewrite nth_error_app1 in HC by exact Hj. specialize (HC Hq).
    rewrite firstn_app_exact in HC by lia. rewrite firstn_app_exact by lia. exact HC.
  - specialize (HC (List.length gs) g). rewrite nth_error_app2, Nat.sub_diag in HC by lia. specialize (HC eq_refl).
    rewrite firstn_all2 in HC by (rewrite app_length; simpl; lia).
    rewrite firstn_all2 by (rewrite app_length; simpl; lia).
    destruct HC as [H1 H2]. split.
    + destruct Hor as [[-> ->]|[-> Hkk]]; apply in_or_app; [right; left; reflexivity|].
      apply in_app_or in H1. destruct H1 as [H1|[H1|[]]]; [left; exact H1|]. right; left. symmetry in H1.
      rewrite (Hkk H1). symmetry; exact H1.
    + intros b Hb. apply in_app_or in Hb. destruct Hb as [Hb|[<-|[]]].
      * eapply Tr; [exact R2|]. apply H2, in_or_app. left; exact Hb.
      * destruct Hk as [->| ->]; [exact R1|]. eapply Tr; [exact R2|]. apply H2, in_or_app. right; left; reflexivity.
Qed.

Lemma Forall_snoc_inv {T} (Q : T -> Prop) l x : Forall Q (l ++ [x]) -> Forall Q l /\ Q x.
Proof. intros H. apply Forall_app in H. destruct H as [H1 H2]. inversion H2; auto. Qed.

(** The recorded values of an epoch stay no better than its entry when the entry is improved. *)
Lemma recorded_last L l x y fs : obj_num P feas -> no_worse (p_mm P) (fit y) (fit x) ->
  Forall2 (recorded L) (tl (l ++ [x])) fs -> Forall2 (recorded L) (tl (l ++ [y])) fs.
Proof.
  intros N H. destruct l as [|a l]; [auto|]. cbn [tl app]. intros F.
  apply Forall2_app_inv_l in F. destruct F as (f1 & f2 & F1 & F2 & ->). apply Forall2_app; [exact F1|].
  inversion F2 as [|? ? ? ? [Q1 Q2] F3]; subst. inversion F3; subst. constructor; [|constructor].
  split; [exact Q1|]. intros _. eapply no_worse_trans; [exact H|apply Q2; exact N].
Qed.
Lemma recorded_last' L l x y fs : (obj_num P feas -> no_worse (p_mm P) (fit y) (fit x)) ->
  Forall2 (recorded L) (tl (l ++ [x])) fs -> Forall2 (recorded L) (tl (l ++ [y])) fs.
Proof.
  intros H. destruct l as [|a l]; [auto|]. cbn [tl app]. intros F.
  apply Forall2_app_inv_l in F. destruct F as (f1 & f2 & F1 & F2 & ->). apply Forall2_app; [exact F1|].
  inversion F2 as [|? ? ? ? [Q1 Q2] F3]; subst. inversion F3; subst. constructor; [|constructor].
  split; [exact Q1|]. intros N. eapply no_worse_trans; [exact (H N)|apply Q2; exact N].
Qed.
Lemma last2 {T} (Q : list T -> agent A -> Prop) l x y ps : (forall p, Q p x -> Q p y) ->
  Forall2 Q ps (tl (l ++ [x])) -> Forall2 Q ps (tl (l ++ [y])).
Proof.
  intros H. destruct l as [|a l]; [auto|]. cbn [tl app]. intros F.
  apply Forall2_app_inv_r in F. destruct F as (f1 & f2 & F1 & F2 & ->). apply Forall2_app; [exact F1|].
  inversion F2 as [|? ? ? ? Q1 F3]; subst. inversion F3; subst. constructor; [auto|constructor].
Qed.

Lemma refresh_ok sort i s0 s : Ev s0 [] s -> HistS i s0 -> IL (List.length (s_pop s)) ->
  wp (refresh E P sort) (fun _ s' => Inv s' /\ HistS i s' /\ s_log s' = s_log s) s.
Proof.
  intros V H0 Hlen.
  assert (H : HistS i s) by (eapply HistS_mono; [exact H0|apply (v_hist _ _ _ _ _ _ _ _ _ _ _ V)|apply (v_ext _ _ _ _ _ _ _ _ _ _ _ V)]).
  pose proof (v_hist _ _ _ _ _ _ _ _ _ _ _ V) as Eh.
  pose proof (v_ext _ _ _ _ _ _ _ _ _ _ _ V) as Hinc.
  unfold refresh. apply wp_bind, wp_get_pop. apply wp_bind. unfold update_global_best_agent_nosave.
  pose proof (v_good _ _ _ _ _ _ _ _ _ _ _ V) as Hgood.
  assert (Hne : s_pop s <> []) by (pose proof (IL_pos _ Hlen); intros C; rewrite C in *; simpl in *; lia).
  destruct (sorted_best_worst (e_argsort E) Hargsort (s_pop s) (p_mm P)
              (Forall_good_target _ _ _ _ _ Hgood) Hne) as (sp & ix & b & w & E1 & HP & E2 & E3 & Hb & Hw & Bb & Bw).
  apply wp_bind. eapply wp_lift; [exact E1|]. cbv beta iota.
  apply wp_bind. eapply wp_lift; [exact E2|]. apply wp_bind. eapply wp_lift; [exact E3|].
  apply wp_bind, wp_get. cbv zeta.
  rewrite Forall_forall in Hgood. pose proof (Hgood b Hb) as Gb. pose proof (Hgood w Hw) as Gw.
  (* the last entries *)
  destruct (i_gb _ _ _ _ _ _ _ _ _ (v_inv0 _ _ _ _ _ _ _ _ _ _ _ V)) as (g & Eg & _ & Lg). rewrite <- Eh in Lg.
  assert (LAST : forall l : list (agent A), List.length l = S i -> exists x, last_item l = Ok x).
  { intros l Hl. destruct l as [|a l]; [discriminate|].
    destruct (last_item_nonempty (a :: l)) as (x & l' & _ & El); [congruence|]. eauto. }
  destruct (LAST _ (hs_cb _ _ H)) as (k & Lk). destruct (LAST _ (hs_gw _ _ H)) as (gw & Lgw). destruct (LAST _ (hs_cw _ _ H)) as (kw & Lkw).
  pose proof (hs_ggb _ _ H) as GGB. pose proof (hs_gcb _ _ H) as GCB.
  pose proof (hs_ggw _ _ H) as GGW. pose proof (hs_gcw _ _ H) as GCW.
  assert (Gg : good (s_log s) g) by (rewrite Forall_forall in GGB; apply GGB, last_item_In; exact Lg).
  assert (Gk : good (s_log s) k) by (rewrite Forall_forall in GCB; apply GCB, last_item_In; exact Lk).
  assert (Ggw : good (s_log s) gw) by (rewrite Forall_forall in GGW; apply GGW, last_item_In; exact Lgw).
  assert (Gkw : good (s_log s) kw) by (rewrite Forall_forall in GCW; apply GCW, last_item_In; exact Lkw).
  destruct (good_get_better P feas attok Vmm _ b k false Gb Gk) as (k' & Ek & Ok' & Gk' & Nk).
  destruct (good_get_better P feas attok Vmm _ b g false Gb Gg) as (g' & Eg' & Og' & Gg' & Ng).
  destruct (good_get_better P feas attok Vmm _ w kw true Gw Gkw) as (kw' & Ekw & Okw' & Gkw' & Nkw).
  destruct (good_get_better P feas attok Vmm _ w gw true Gw Ggw) as (gw' & Egw' & Ogw' & Ggw' & Ngw).
  destruct (set_last_snoc _ _ k' Lk) as (cb0 & Ecb & Scb). destruct (set_last_snoc _ _ g' Lg) as (gb0 & Egb & Sgb).
  destruct (set_last_snoc _ _ kw' Lkw) as (cw0 & Ecw & Scw). destruct (set_last_snoc _ _ gw' Lgw) as (gw0 & Egw & Sgw).
  apply wp_bind. eapply wp_lift; [exact Lk|]. apply wp_bind. eapply wp_lift; [exact Ek|]. apply wp_bind. eapply wp_lift; [exact Scb|].
  apply wp_bind. eapply wp_lift; [exact Lg|]. apply wp_bind. eapply wp_lift; [exact Eg'|]. apply wp_bind. eapply wp_lift; [exact Sgb|].
  apply wp_bind. eapply wp_lift; [exact Lkw|]. apply wp_bind. eapply wp_lift; [exact Ekw|]. apply wp_bind. eapply wp_lift; [exact Scw|].
  apply wp_bind. eapply wp_lift; [exact Lgw|]. apply wp_bind. eapply wp_lift; [exact Egw'|]. apply wp_bind. eapply wp_lift; [exact Sgw|].
  apply wp_bind. unfold set_hist at 1. unfold wp at 1. apply wp_ret. cbv beta iota. apply wp_bind.
  match goal with |- wp _ _ ?st => set (s2 := st) end.
  assert (K : exists p2, wp (when sort (set_pop sp)) (fun _ s' => s' = with_pop s2 p2) s2 /\ Permutation p2 (s_pop s)).
  { destruct sort.
    - exists sp. split; [|exact HP]. unfold wp, when, set_pop. reflexivity.
    - exists (s_pop s). split; [|reflexivity]. unfold wp, when, ret. reflexivity. }
  destruct K as (p2 & K1 & HP2). eapply wp_mono; [exact K1|]. intros [] s3 ->.
  unfold set_gb, wp. simpl.
  assert (Hg2 : Forall (good (s_log s)) p2).
  { apply Forall_forall. intros a Ha. apply Hgood. eapply Permutation_in; eauto. }
  assert (NN : forall a, obj_num P feas -> good (s_log s) a -> num (fit a)) by (intros a N G; eapply good_num; eauto).
  pose proof (hs_gb _ _ H) as LGB. pose proof (hs_cb _ _ H) as LCB. pose proof (hs_gw _ _ H) as LGW. pose proof (hs_cw _ _ H) as LCW.
  rewrite Egb, app_length in LGB. rewrite Ecb, app_length in LCB. rewrite Egw, app_length in LGW. rewrite Ecw, app_length in LCW.
  simpl in LGB, LCB, LGW, LCW.
  pose proof (hs_best _ _ H) as HB. pose proof (hs_worst _ _ H) as HW. pose proof (hs_pop _ _ H) as HPP.
  pose proof (hs_gbf _ _ H) as HGF. pose proof (hs_cbf _ _ H) as HCF.
  rewrite Egb in HB, GGB, HGF. rewrite Ecb in HB, GCB, HPP, HCF. rewrite Egw in HW, GGW. rewrite Ecw in HW, GCW, HPP.
  apply Forall_snoc_inv in GGB, GCB, GGW, GCW.
  split; [|split; [|reflexivity]].
  - constructor; simpl.
    + rewrite (Permutation_length HP2). exact Hlen.
    + exact Hg2.
    + exists g'. split; [reflexivity|]. split; [exact Gg'|]. apply last_item_app.
    + apply (v_gw _ _ _ _ _ _ _ _ _ _ _ V).
    + exists gw'. split; [apply last_item_app|exact Ggw'].
    + apply V.
    + apply V.
    + intros C q x Hq Hx. inversion Hq; subst q. pose proof (cov_num C) as N.
      destruct (Ng (NN b N Gb) (NN g N Gg)) as [N1 N2].
      destruct (v_cov _ _ _ _ _ _ _ _ _ _ _ V C g x Eg Hx) as [Hn|(a & Ha & Hn)].
      * eapply no_worse_trans; eauto.
      * rewrite app_nil_r in Ha. eapply no_worse_trans; [|exact Hn]. eapply no_worse_trans; [exact N1|].
        apply npord_no_worse; auto.
    + apply V.
  - constructor; simpl.
    + rewrite app_length; simpl; lia.
    + rewrite app_length; simpl; lia.
    + rewrite app_length; simpl; lia.
    + rewrite app_length; simpl; lia.
    + apply H.
    + apply H.
    + eapply recorded_last'; [|exact HGF]. intros N. apply Ng; auto.
    + eapply recorded_last'; [|exact HCF]. intros N. apply Nk; auto.
    + apply Forall_app. split; [apply GGB|constructor; [exact Gg'|constructor]].
    + apply Forall_app. split; [apply GCB|constructor; [exact Gk'|constructor]].
    + apply Forall_app. split; [apply GGW|constructor; [exact Ggw'|constructor]].
    + apply Forall_app. split; [apply GCW|constructor; [exact Gkw'|constructor]].
    + intros N. specialize (HB N). destruct (Ng (NN b N Gb) (NN g N Gg)) as [N1 N2].
      apply (chain_set gb0 cb0 g k g' k' b (no_worse (p_mm P)) i); auto; try lia.
      * intros x y z; apply no_worse_trans.
      * eapply better_follow with (mm := p_mm P) (rv := false); eauto using good_wf.
        cbv beta iota. destruct (HB i g) as [_ T].
        { rewrite nth_error_app2 by lia. replace (i - List.length gb0) with 0 by lia. reflexivity. }
        apply T. rewrite firstn_all2 by (rewrite app_length; simpl; lia). apply in_or_app; right; left; reflexivity.
    + intros N. specialize (HW N). destruct (Ngw (NN w N Gw) (NN gw N Ggw)) as [N1 N2].
      apply (chain_set gw0 cw0 gw kw gw' kw' w (fun x y => no_worse (p_mm P) y x) i); auto; try lia.
      * intros x y z H1 H2; eapply no_worse_trans; eauto.
      * eapply better_follow with (mm := p_mm P) (rv := true); eauto using good_wf.
        cbv beta iota. destruct (HW i gw) as [_ T].
        { rewrite nth_error_app2 by lia. replace (i - List.length gw0) with 0 by lia. reflexivity. }
        apply T. rewrite firstn_all2 by (rewrite app_length; simpl; lia). apply in_or_app; right; left; reflexivity.
    + destruct (p_save_pop P); [|exact HPP]. destruct HPP as (P1 & P2 & P3). split; [|split; [|exact P3]].
      * eapply last2; [|exact P1]. intros p T N a Ha. eapply no_worse_trans; [|apply T; auto]. apply Nk; auto.
      * eapply last2; [|exact P2]. intros p T N a Ha. eapply no_worse_trans; [apply T; auto|]. apply Nkw; auto.
Qed.

(** Contract of evolve: after the last update inside the epoch it behaves as an ordinary evolve does from the start. *)
Definition seg_ok (a b i : nat) (s s' : st A X) : Prop :=
  exists s1, Inv s1 /\ HistS i s1 /\ incl (s_log s) (s_log s1) /\ Ev s1 [] s' /\ IL (List.length (s_pop s')) /\
    List.length (s_log s) + a <= List.length (s_log s') <= List.length (s_log s) + b.
Definition seg (a b : nat) (m : M A X unit) : Prop :=
  forall i s, Inv s -> HistS i s -> wp m (fun _ s' => seg_ok a b i s s') s.
Definition evolve_saves (kmin kmax : nat) (ev : nat -> M A X unit) : Prop :=
  forall ep i s, 1 <= ep -> Inv s -> HistS i s -> wp (ev ep) (fun _ s' => seg_ok kmin kmax i s s') s.

(** A segment, the update, and the rest of the epoch. *)
Lemma seg_refresh sort a b c d m1 m2 : seg a b m1 -> seg c d m2 -> seg (a + c) (b + d) (m1 ;;; refresh E P sort ;;; m2).
Proof.
  intros H1 H2 i s I H. apply wp_bind. eapply wp_mono; [apply (H1 i s I H)|].
  intros [] s2 (s1 & I1 & S1 & Inc1 & V & Hl & Hc). apply wp_bind.
  eapply wp_mono; [eapply refresh_ok; eauto|]. intros [] s3 (I3 & S3 & L3).
  pose proof (v_ext _ _ _ _ _ _ _ _ _ _ _ V) as X1.
  eapply wp_mono; [apply (H2 i s3 I3 S3)|]. intros [] s5 (s4 & I4 & S4 & Inc4 & V4 & Hl4 & Hc4). rewrite L3 in *.
  exists s4. split; [exact I4|]. split; [exact S4|].
  split; [eapply incl_tran; [exact Inc1|]; eapply incl_tran; [exact X1|exact Inc4]|].
  split; [exact V4|]. split; [exact Hl4|lia].
Qed.

Lemma seg_plain a b m : (forall s, Inv s -> wp m (fun _ s' => Ev s [] s' /\ IL (List.length (s_pop s')) /\
       List.length (s_log s) + a <= List.length (s_log s') <= List.length (s_log s) + b) s) -> seg a b m.
Proof.
  intros H i s I Hs. eapply wp_mono; [apply (H s I)|]. intros [] s' (V & Hl & Hc).
  exists s. split; [exact I|]. split; [exact Hs|]. split; [apply incl_refl|]. auto.
Qed.

(** Draws before a segment. *)
Lemma seg_first {Y} a b (m : M A X Y) (f : Y -> M A X unit) :
  (forall s, Inv s -> wp m (fun _ s' => exists k x, s' = with_x (bump s k) x /\ xok IX (s_log s) x) s) ->
  (forall y, seg a b (f y)) -> seg a b (y <- m ;; f y).
Proof.
  intros H1 H2 i s I H. apply wp_bind. eapply wp_mono; [apply (H1 s I)|]. intros y s' (k & x & -> & Hx).
  assert (I' : Inv (with_x (bump s k) x)) by (destruct I; constructor; simpl; auto).
  assert (H' : HistS i (with_x (bump s k) x)) by (destruct H; constructor; simpl; auto).
  eapply wp_mono; [apply (H2 y i _ I' H')|]. intros [] s2 T. exact T.
Qed.

Lemma epoch_save_ok al tm kmin kmax i s :
  evolve_saves kmin kmax (al_evolve al) -> Inv s -> HistS i s ->
  wp (epoch_step E P al tm (S i)) (fun r s' =>
     Inv s' /\ HistS (S i) s' /\ closed (S i) s' /\
     List.length (s_log s) + kmin <= List.length (s_log s') <= List.length (s_log s) + kmax /\
     incl (s_log s) (s_log s') /\
     match tm with
     | None => r = None
     | Some t => match r with Some q => fires E t (S i) s' q | None => quiet E t (S i) s' end
     end) s.
Proof.
  intros HC I H. unfold epoch_step. apply wp_bind, wp_tick. intros k0. apply wp_bind.
  assert (I0 : Inv (bump s (S k0))) by (destruct I; constructor; assumption).
  assert (H0 : HistS i (bump s (S k0))) by (destruct H; constructor; assumption).
  eapply wp_mono; [apply (HC (S i) i (bump s (S k0))); [lia|exact I0|exact H0]|].
  intros [] s1 (sm & Im & Hm & Incm & V & Hlen & Hcnt). simpl in Hcnt, Incm.
  clear I0 H0 I H. rename sm into s', Im into I, Hm into H.
  apply wp_bind, wp_get_pop.
  unfold update_global_best_agent. apply wp_bind.
  pose proof (v_good _ _ _ _ _ _ _ _ _ _ _ V) as Hgood. pose proof (v_hist _ _ _ _ _ _ _ _ _ _ _ V) as Eh. simpl in Eh.
  assert (Hne : s_pop s1 <> []) by (pose proof (IL_pos _ Hlen); intros C; rewrite C in *; simpl in *; lia).
  destruct (sorted_best_worst (e_argsort E) Hargsort (s_pop s1) (p_mm P)
              (Forall_good_target _ _ _ _ _ Hgood) Hne) as (sp & ix & b & w & E1 & HP & E2 & E3 & Hb & Hw & Bb & Bw).
  apply wp_bind. eapply wp_lift; [exact E1|]. cbv beta iota.
  apply wp_bind. eapply wp_lift; [exact E2|]. apply wp_bind. eapply wp_lift; [exact E3|].
  apply wp_bind, wp_get. cbv zeta.
  destruct (i_gb _ _ _ _ _ _ _ _ _ I) as (g & Eg & Gg & Lg). destruct (i_hgw _ _ _ _ _ _ _ _ _ I) as (gw & Lgw & Ggw).
  assert (Hinc : incl (s_log s') (s_log s1)) by (apply (v_ext _ _ _ _ _ _ _ _ _ _ _ V)).
  assert (Gg1 : good (s_log s1) g) by (eapply good_mono; eauto).
  assert (Ggw1 : good (s_log s1) gw) by (eapply good_mono; eauto).
  rewrite Forall_forall in Hgood. pose proof (Hgood b Hb) as Gb. pose proof (Hgood w Hw) as Gw.
  apply wp_bind. eapply wp_lift; [rewrite Eh; exact Lg|].
  destruct (good_get_better P feas attok Vmm _ b g false Gb Gg1) as (r & Er & Hr & Gr & Nr).
  apply wp_bind. eapply wp_lift; [exact Er|].
  apply wp_bind. eapply wp_lift; [rewrite Eh; exact Lgw|].
  destruct (good_get_better P feas attok Vmm _ w gw true Gw Ggw1) as (q & Eq & Hq & Gq & Nq).
  apply wp_bind. eapply wp_lift; [exact Eq|].
  apply wp_bind. unfold set_hist at 1. unfold wp at 1. apply wp_ret.
  apply wp_bind. unfold set_gb. unfold wp at 1. simpl.
  (* sort flag *)
  apply wp_bind.
  match goal with |- wp _ _ ?st => set (s2 := st) end.
  assert (K : exists p2, wp (when (al_sort al) (set_pop sp)) (fun _ s' => s' = with_pop s2 p2) s2 /\ Permutation p2 (s_pop s1)).
  { destruct (al_sort al).
    - exists sp. split; [|exact HP]. unfold wp, when, set_pop. reflexivity.
    - exists (s_pop s1). split; [|reflexivity]. unfold wp, when, ret. reflexivity. }
  destruct K as (p2 & K1 & HP2). eapply wp_mono; [exact K1|]. intros [] s3 ->.
  apply wp_bind, wp_tick. intros k1. apply wp_bind, wp_get_pop. simpl.
  assert (Hg2 : Forall (good (s_log s1)) p2).
  { apply Forall_forall. intros a Ha. apply Hgood. eapply Permutation_in; eauto. }
  unfold track_optimize_step. apply wp_bind. apply wp_bind, wp_get. cbv zeta.
  apply wp_bind.
  apply wp_lift with (y := if p_save_pop P then [p2] else []).
  { destruct (p_save_pop P); [|reflexivity]. unfold duplicate_pop. rewrite (agent_copy_all P feas attok _ _ Hg2). reflexivity. }
  apply wp_bind. simpl. eapply wp_lift; [rewrite Eh; apply last_item_app|].
  apply wp_bind. eapply wp_lift; [apply fitness_fit; eapply good_has_target; exact Gr|].
  apply wp_bind. eapply wp_lift; [rewrite Eh; apply last_item_app|].
  apply wp_bind. eapply wp_lift; [apply fitness_fit; eapply good_has_target; exact Gb|].
  unfold set_hist, wp at 1. simpl. rewrite !Eh.
  match goal with |- wp _ _ ?st => set (s4 := st) end.
  (* numeric facts *)
  assert (NUM : obj_num P feas -> no_worse (p_mm P) (fit r) (fit b) /\ no_worse (p_mm P) (fit r) (fit g)).
  { intros N. apply Nr; eapply good_num; eauto. }
  assert (NUMW : obj_num P feas -> no_worse (p_mm P) (fit w) (fit q) /\ no_worse (p_mm P) (fit gw) (fit q)).
  { intros N. apply Nq; eapply good_num; eauto. }
  assert (BEST : best_of P feas p2 b).
  { split; [eapply Permutation_in; [symmetry; exact HP2|exact Hb]|].
    intros N a Ha. apply npord_no_worse; auto; try (eapply good_num; eauto).
    - apply Hgood. eapply Permutation_in; eauto.
    - apply Bb. eapply Permutation_in; eauto. }
  assert (WORST : worst_of P feas p2 w).
  { split; [eapply Permutation_in; [symmetry; exact HP2|exact Hw]|].
    intros N a Ha. apply npord_no_worse; auto; try (eapply good_num; eauto).
    - apply Hgood. eapply Permutation_in; eauto.
    - apply Bw. eapply Permutation_in; eauto. }
  assert (L2 : List.length p2 = List.length (s_pop s1)) by (apply Permutation_length; exact HP2).
  pose proof (hs_gb _ _ H) as LG. pose proof (hs_cb _ _ H) as LC.
  pose proof (hs_gw _ _ H) as LGW. pose proof (hs_cw _ _ H) as LCW.
  assert (NEgb : h_gb (s_hist s') <> []) by (intros C; rewrite C in LG; discriminate).
  assert (NEcb : h_cb (s_hist s') <> []) by (intros C; rewrite C in LC; discriminate).
  assert (NEcw : h_cw (s_hist s') <> []) by (intros C; rewrite C in LCW; discriminate).
  assert (I4 : Inv s4).
  { constructor; simpl.
    - rewrite L2; exact Hlen.
    - exact Hg2.
    - exists r. repeat split; auto; try apply Gr. apply last_item_app.
    - apply (v_gw _ _ _ _ _ _ _ _ _ _ _ V).
    - exists q. split; [apply last_item_app|exact Gq].
    - apply V.
    - apply V.
    - intros C g' x Hg' Hx. inversion Hg'; subst g'. pose proof (cov_num C) as N.
      destruct (NUM N) as [N1 N2].
      destruct (v_cov _ _ _ _ _ _ _ _ _ _ _ V C g x) as [Hn|(a & Ha & Hn)]; auto.
      + eapply no_worse_trans; eauto.
      + rewrite app_nil_r in Ha. eapply no_worse_trans; [|exact Hn].
        eapply no_worse_trans; [exact N1|]. apply BEST; auto. eapply Permutation_in; [symmetry; exact HP2|exact Ha].
    - apply V. }
  assert (H4 : HistS (S i) s4).
  { constructor; simpl.
    - rewrite app_length; simpl; lia.
    - rewrite app_length; simpl; lia.
    - rewrite app_length; simpl; lia.
    - rewrite app_length; simpl; lia.
    - rewrite app_length, (hs_time _ _ H); simpl; lia.
    - rewrite app_length, (hs_div _ _ H); simpl; lia.
    - rewrite tl_app by exact NEgb. apply Forall2_app; [eapply Forall2_recorded_mono; [exact Hinc|apply H]|].
      constructor; [apply good_recorded; exact Gr|constructor].
    - rewrite tl_app by exact NEcb. apply Forall2_app; [eapply Forall2_recorded_mono; [exact Hinc|apply H]|].
      constructor; [apply good_recorded; exact Gb|constructor].
    - apply Forall_app; split; [eapply Forall_good_mono; [exact attok_mono|exact Hinc|apply H]|constructor; [exact Gr|constructor]].
    - apply Forall_app; split; [eapply Forall_good_mono; [exact attok_mono|exact Hinc|apply H]|constructor; [exact Gb|constructor]].
    - apply Forall_app; split; [eapply Forall_good_mono; [exact attok_mono|exact Hinc|apply H]|constructor; [exact Gq|constructor]].
    - apply Forall_app; split; [eapply Forall_good_mono; [exact attok_mono|exact Hinc|apply H]|constructor; [exact Gw|constructor]].
    - intros N j qq Hj.
      destruct (chain_step P feas attok (h_gb (s_hist s')) (h_cb (s_hist s')) (s_log s') g b r (no_worse (p_mm P)) i) with (j := j) (q := qq) as [T1 T2]; auto; try apply H.
      + intros x y z; apply no_worse_trans.
      + intros j' q' Hq'. destruct (hs_best _ _ H N j' q' Hq') as [T1 T2]. split; [exact T1|intros _; exact T2].
    - intros N j qq Hj.
      destruct (chain_step P feas attok (h_gw (s_hist s')) (h_cw (s_hist s')) (s_log s') gw w q (fun x y => no_worse (p_mm P) y x) i) with (j := j) (q := qq) as [T1 T2]; auto; try apply H.
      + intros x y z H1 H2; eapply no_worse_trans; eauto.
      + intros j' q' Hq'. destruct (hs_worst _ _ H N j' q' Hq') as [T1 T2]. split; [exact T1|intros _; exact T2].
    - pose proof (hs_pop _ _ H) as HP'. destruct (p_save_pop P); [|rewrite HP'; reflexivity].
      destruct HP' as (P1 & P2 & P3). rewrite !tl_app by assumption. split; [|split].
      + apply Forall2_app; [exact P1|constructor; [exact (proj2 BEST)|constructor]].
      + apply Forall2_app; [exact P2|constructor; [exact (proj2 WORST)|constructor]].
      + apply Forall_app; split.
        * eapply Forall_impl; [|exact P3]. intros p [? ?]; split; auto. eapply Forall_good_mono; eauto.
        * constructor; [|constructor]. split; [rewrite L2; exact Hlen|exact Hg2]. }
  assert (X4 : closed (S i) s4).
  { intros _. exists r. simpl. split; apply last_item_app. }
  assert (Hinc' : incl (s_log s) (s_log s1)) by (eapply incl_tran; eauto).
  unfold check_termination_end. destruct tm as [t|].
  - apply wp_bind, wp_get. apply wp_bind.
    eapply wp_lift.
    + unfold get_global_repeated_times.
      rewrite (map_res_fitness _ (Forall_good_target _ _ _ _ _ (hs_ggb _ _ H4))). reflexivity.
    + apply wp_bind, wp_tick. intros k2. apply wp_ret.
      assert (I5 : Inv (bump s4 (S k2))) by (destruct I4; constructor; assumption).
      assert (H5 : HistS (S i) (bump s4 (S k2))) by (destruct H4; constructor; assumption).
      split; [exact I5|]. split; [exact H5|]. split; [exact X4|]. split; [exact Hcnt|]. split; [exact Hinc'|].
      destruct (should_terminate t (Z.of_nat (S i)) (Z.of_nat (s_nfe s4)) (e_time E k2) _) eqn:ET;
        exists k2; exact ET.
  - apply wp_ret. split; [exact I4|]. split; [exact H4|]. split; [exact X4|]. split; [exact Hcnt|]. split; [exact Hinc'|]. reflexivity.
Qed.


Definition past_open (t : termination) (i : nat) (s : st A X) : Prop :=
  forall j, 1 <= j <= i ->
    (forall m, tm_epoch t = Some m -> (Z.of_nat j < m)%Z) /\
    (forall m, tm_es t = Some m -> (0 < m)%Z) /\
    (forall m, tm_time t = Some m -> exists k, fle m (fsub (e_time E k) (tm_start t)) = false).

Lemma main_save_ok al tm kmin kmax base n i s :
  evolve_saves kmin kmax (al_evolve al) -> Inv s -> HistS i s -> closed i s ->
  base + kmin * i <= List.length (s_log s) <= base + kmax * i ->
  (forall t, tm = Some t -> past_open t i s) ->
  (forall t, tm = Some t -> 0 < i -> quiet E t i s) ->
  wp (main_loop E P al tm n (S i)) (fun _ s' =>
     exists e, i <= e /\ e <= i + n /\ (0 < n -> i < e) /\ Inv s' /\ HistS e s' /\ closed e s' /\
       base + kmin * e <= List.length (s_log s') <= base + kmax * e /\
       (e = i + n \/ exists t r, tm = Some t /\ fires E t e s' r) /\
       (forall t, tm = Some t -> 0 < e -> past_open t (e - 1) s') /\
       (forall t m, tm = Some t -> tm_fe t = Some m -> 1 < e -> (Z.of_nat (s_nfe s') < m + Z.of_nat kmax)%Z)) s.
Proof.
  intros HC. revert i s; induction n as [|n IH]; intros i s I H HCL Hcnt Hpq Hq; simpl.
  - apply wp_ret. exists i. split; [lia|]. split; [lia|]. split; [lia|]. split; [exact I|]. split; [exact H|]. split; [exact HCL|].
    split; [exact Hcnt|]. split; [left; lia|]. split.
    + intros t Ht He j Hj. apply (Hpq t Ht). lia.
    + intros t m Ht Hm Hi. destruct (quiet_facts E t i s (Hq t Ht ltac:(lia))) as (_ & Q & _). specialize (Q m Hm). lia.
  - apply wp_bind. eapply wp_mono; [apply (epoch_save_ok al tm kmin kmax i s HC I H)|].
    intros r s' (I' & H' & HCL' & Hc & Hinc & Hr). simpl in Hr.
    assert (Hcnt' : base + kmin * S i <= List.length (s_log s') <= base + kmax * S i) by nia.
    assert (Hpq' : forall t, tm = Some t -> past_open t i s').
    { intros t Ht j Hj. destruct (Hpq t Ht j Hj) as (Q1 & Q2 & Q3). auto. }
    assert (FE' : forall t m, tm = Some t -> tm_fe t = Some m -> 1 < S i -> (Z.of_nat (s_nfe s') < m + Z.of_nat kmax)%Z).
    { intros t m Ht Hm Hi. destruct (quiet_facts E t i s (Hq t Ht ltac:(lia))) as (_ & Q & _). specialize (Q m Hm).
      pose proof (i_nfe _ _ _ _ _ _ _ _ _ I). pose proof (i_nfe _ _ _ _ _ _ _ _ _ I'). lia. }
    destruct r as [rr|].
    + apply wp_ret. exists (S i). split; [lia|]. split; [lia|]. split; [lia|]. split; [exact I'|]. split; [exact H'|]. split; [exact HCL'|].
      split; [exact Hcnt'|]. split; [|split].
      * right. destruct tm as [t|]; [|discriminate]. exists t, rr. split; [reflexivity|exact Hr].
      * intros t Ht _. replace (S i - 1) with i by lia. apply (Hpq' t Ht).
      * exact FE'.
    + assert (Hq' : forall t, tm = Some t -> 0 < S i -> quiet E t (S i) s').
      { intros t Ht _. rewrite Ht in Hr. exact Hr. }
      assert (Hpq'' : forall t, tm = Some t -> past_open t (S i) s').
      { intros t Ht j Hj. destruct (Nat.eq_dec j (S i)) as [->|Hne]; [|apply (Hpq' t Ht); lia].
        destruct (quiet_facts E t (S i) s' (Hq' t Ht ltac:(lia))) as (Q1 & _ & Q3 & Q4). split; [exact Q1|]. split; [|exact Q4].
        intros m Hm. specialize (Q3 m Hm). lia. }
      eapply wp_mono; [apply (IH (S i) s'); auto|].
      intros [] s'' (e & R1 & R2 & R3 & R4). exists e. split; [lia|]. split; [lia|]. split; [lia|].
      destruct R4 as (R4 & R5 & R5c & R6 & R7 & R8). repeat (split; [assumption|]). split; [|exact R8].
      destruct R7; [left; lia|right; assumption].
Qed.

End Save.

Section SaveRun.
Context {A X : Type}.
Variable E : env.
Variable P : problem.
Variable md : MCore.mode.
Variable feas : vec -> Prop.
Variable attok : list vec -> A -> Prop.
Variable IL : nat -> Prop.
Variable XP : X -> Prop.
Variables IX0 IX : list vec -> X -> Prop.
Variable cov : Prop.
Hypothesis attok_mono : forall L L' a, incl L L' -> attok L a -> attok L' a.
Hypothesis IL_pos : forall n, IL n -> 0 < n.
Hypothesis Vmm : valid_mm (p_mm P).
Hypothesis Hargsort : argsort_ok (e_argsort E).
Hypothesis cov_num : cov -> obj_num P feas.

Theorem solve_save al tm starting nd imin imax bmin bmax kmin kmax s :
  init_contract P md feas attok IL XP IX0 cov al starting nd imin imax -> before_main_contract P feas attok IL IX0 IX cov al nd bmin bmax ->
  (forall n0, evolve_saves P feas attok IL IX cov nd n0 kmin kmax (al_evolve al)) -> 0 < al_epoch al -> XP (s_x s) ->
  exists g s', solve E P md al tm starting s = Ok (g, s') /\
    save_spec E P feas IL cov (al_epoch al) tm
      (mkCounts (imin + bmin) (imax + bmax) kmin kmax nd (match tm with None => s_nfe s | Some _ => 0 end)) g s'.
Proof.
  intros HI HB HV Hep HX.
  set (n0 := match tm with None => s_nfe s | Some _ => 0 end).
  set (tm' := match tm with None => None
              | Some t => Some (mkTerm (tm_epoch t) (tm_fe t) (tm_time t) (tm_es t) (tm_eps t) (e_time E 0)) end).
  apply wp_elim.
  unfold solve. apply wp_bind. unfold check_problem, wp at 1. apply wp_bind.
  set (s0 := mkSt [] None None hist_new (s_nfe s) 0 [] (s_x s)).
  assert (Hstart : wp (check_termination_start E tm) (fun tm1 s1 =>
            tm1 = tm' /\ fresh s1 /\ s_x s1 = s_x s /\ s_nfe s1 = n0) s0).
  { unfold check_termination_start, tm', n0. destruct tm as [t|].
    - unfold wp, bindM, set_nfe, tick, ret. simpl. repeat split.
    - apply wp_ret. repeat split. }
  eapply wp_mono; [exact Hstart|]. intros tm1 s1 (-> & Hf & Hx1 & Hn1).
  rewrite <- Hx1 in HX. pose proof (HI s1 Hf HX) as H1.
  assert (HA : forall B (rest : M A X B) Q st0,
     wp ((al_init_vars al ;;; before_initialization P md al starting ;;; al_init al) ;;; rest) Q st0 ->
     wp (al_init_vars al ;;; before_initialization P md al starting ;;; al_init al ;;; rest) Q st0).
  { intros B rest Q st0. unfold wp, bindM. destruct (al_init_vars al st0) as [[? ?]|]; auto.
    destruct (before_initialization P md al starting s2) as [[? ?]|]; auto. }
  apply HA. apply wp_bind. eapply wp_mono; [exact H1|]. clear HA H1.
  intros [] s2 (HS & Hc2). rewrite Hn1 in HS.
  apply wp_bind. eapply wp_mono; [eapply after_initialization_ok; eauto|].
  intros [] s3 (I3 & H3 & L3).
  apply wp_bind. eapply wp_mono; [apply (HB s3 n0 I3)|].
  intros [] s4 (I4 & Eh4 & Inc4 & Hc4).
  assert (H4 : HistS P feas attok IL 0 s4) by (eapply HistS_mono; [exact attok_mono|eapply Hist_S; eauto|exact Eh4|exact Inc4]).
  assert (C4 : closed 0 s4) by (intros T; lia).
  apply wp_bind.
  eapply wp_mono.
  { apply main_save_ok with (E := E) (P := P) (feas := feas) (attok := attok) (IL := IL) (IX := IX) (cov := cov)
      (nd := nd) (n0 := n0) (kmin := kmin) (kmax := kmax) (base := List.length (s_log s4)) (i := 0); auto.
    - lia.
    - intros t _ j Hj. lia.
    - intros t _ Hj. lia. }
  intros [] s5 (e & He0 & Hen & Hpos & I5 & H5 & C5 & Hc5 & Hstop & Hpast & Hfe).
  specialize (Hpos Hep). simpl in Hen.
  unfold track_optimize_process. apply wp_bind. apply wp_bind, wp_get. cbv zeta.
  destruct (h_div (s_hist s5)) as [|d0 dr] eqn:Ediv.
  { pose proof (hs_div _ _ _ _ _ _ H5) as Hd. rewrite Ediv in Hd. simpl in Hd. lia. }
  rewrite <- Ediv.
  unfold set_hist, wp at 1. 
  destruct (i_gb _ _ _ _ _ _ _ _ _ I5) as (g & Eg & Gg & Lg).
  destruct (i_gw _ _ _ _ _ _ _ _ _ I5) as (gw0 & Egw & Ggw).
  unfold get_gb, wp. simpl. rewrite Eg.
  pose proof (hs_gb _ _ _ _ _ _ H5) as LG. pose proof (hs_cb _ _ _ _ _ _ H5) as LC.
  pose proof (hs_gw _ _ _ _ _ _ H5) as LGW. pose proof (hs_cw _ _ _ _ _ _ H5) as LCW.
  destruct (h_gb (s_hist s5)) as [|b0 gb] eqn:Egb; [discriminate|].
  destruct (h_cb (s_hist s5)) as [|cb0 cb] eqn:Ecb; [discriminate|].
  destruct (h_gw (s_hist s5)) as [|w0 gw] eqn:Egw'; [discriminate|].
  destruct (h_cw (s_hist s5)) as [|cw0 cw] eqn:Ecw; [discriminate|].
  simpl in LG, LC, LGW, LCW.
  assert (Ee : List.length gb = e) by lia.
  pose proof (hs_ggb _ _ _ _ _ _ H5) as Ggb. pose proof (hs_gcb _ _ _ _ _ _ H5) as Gcb.
  pose proof (hs_ggw _ _ _ _ _ _ H5) as Ggw'. pose proof (hs_gcw _ _ _ _ _ _ H5) as Gcw.
  rewrite Egb in Ggb. rewrite Ecb in Gcb. rewrite Egw' in Ggw'. rewrite Ecw in Gcw.
  (* the initial entries *)
  assert (Hb0 : obj_num P feas -> b0 = cb0).
  { intros N. destruct (hs_best _ _ _ _ _ _ H5 N 0 b0) as [Hin _]; [rewrite Egb; reflexivity|].
    rewrite Ecb in Hin. simpl in Hin. destruct Hin as [Hin|[]]; congruence. }
  assert (Hw0 : obj_num P feas -> w0 = cw0).
  { intros N. destruct (hs_worst _ _ _ _ _ _ H5 N 0 w0) as [Hin _]; [rewrite Egw'; reflexivity|].
    rewrite Ecw in Hin. simpl in Hin. destruct Hin as [Hin|[]]; congruence. }
  assert (EV : forall l, Forall (good P feas attok (s_log s5)) l -> Forall (evaluated P feas (s_log s5)) l).
  { intros l Hl. eapply Forall_impl; [|exact Hl]. intros a. apply good_evaluated. }
  constructor; simpl; rewrite ?Egb, ?Ecb, ?Egw', ?Ecw; simpl.
  - split; [reflexivity|]. destruct gb as [|g1 gb'].
    + simpl in Ee. lia.
    + destruct (last_item_nonempty (g1 :: gb')) as (x & l' & Ex & El); [congruence|]. rewrite El.
      rewrite Ex in Lg. change (b0 :: l' ++ [x]) with ((b0 :: l') ++ [x]) in Lg. rewrite last_item_app in Lg. exact Lg.
  - lia.
  - lia.
  - lia.
  - lia.
  - rewrite (hs_time _ _ _ _ _ _ H5). lia.
  - rewrite (hs_div _ _ _ _ _ _ H5). lia.
  - rewrite map_length, (hs_div _ _ _ _ _ _ H5). lia.
  - rewrite !map_length, (hs_div _ _ _ _ _ _ H5). lia.
  - rewrite (hs_div _ _ _ _ _ _ H5). rewrite Ee. reflexivity.
  - split.
    + pose proof (hs_gbf _ _ _ _ _ _ H5) as T. rewrite Egb in T. exact T.
    + destruct (C5 ltac:(lia)) as (g' & T1 & T2). rewrite Egb, Lg in T1. inversion T1; subst g'. exact T2.
  - pose proof (hs_cbf _ _ _ _ _ _ H5) as T. rewrite Ecb in T. exact T.
  - apply I5.
  - split; [apply EV; apply I5|apply I5].
  - apply EV. rewrite !Forall_app. inversion Ggb; inversion Gcb; inversion Ggw'; inversion Gcw; subst. auto.
  - pose proof (hs_pop _ _ _ _ _ _ H5) as HP. destruct (p_save_pop P); [|exact HP].
    rewrite Ecb, Ecw in HP. simpl in HP. destruct HP as (P1 & P2 & P3). split.
    + clear - P1 P3 EV. revert P3. induction P1 as [|p b ps bs Hb _ IH]; intros P3; [constructor|].
      inversion P3 as [|? ? [Q1 Q2] P3']; subst. constructor; [|apply IH; exact P3'].
      split; [exact Q1|]. split; [apply EV; exact Q2|]. exact Hb.
    + exact P2.
  - exists b0, w0. split; [apply (good_evaluated P feas attok); inversion Ggb; assumption|].
    split; [apply (good_evaluated P feas attok); inversion Ggw'; assumption|].
    split; [|split; [|split]].
    + intros N j gj Hj. destruct (hs_best _ _ _ _ _ _ H5 N (S j) gj) as [Q1 Q2]; [rewrite Egb; exact Hj|].
      rewrite Ecb in Q1, Q2. rewrite (Hb0 N). split; assumption.
    + intros N j wj Hj. destruct (hs_worst _ _ _ _ _ _ H5 N (S j) wj) as [Q1 Q2]; [rewrite Egw'; exact Hj|].
      rewrite Ecw in Q1, Q2. rewrite (Hw0 N). split; assumption.
    + destruct Hstop as [->|(t' & r & Et & (k & Hf'))]; [left; exact Ee|].
      unfold tm' in Et. destruct tm as [t|]; [|discriminate]. inversion Et; subst t'. right.
      exists t, r. split; [reflexivity|]. unfold should_terminate in Hf'. simpl in Hf'. rewrite Egb in Hf'.
      destruct (match tm_epoch t with Some m => (m <=? Z.of_nat e)%Z | None => false end) eqn:T1.
      { inversion Hf'; subst r. simpl. destruct (tm_epoch t) as [m|]; [|discriminate]. exists m. split; [reflexivity|lia]. }
      destruct (match tm_fe t with Some m => (m <=? Z.of_nat (s_nfe s5))%Z | None => false end) eqn:T2.
      { inversion Hf'; subst r. simpl. destruct (tm_fe t) as [m|]; [|discriminate]. exists m. split; [reflexivity|lia]. }
      destruct (match tm_time t with Some m => fle m (fsub (e_time E k) (e_time E 0)) | None => false end) eqn:T3.
      { inversion Hf'; subst r. simpl. destruct (tm_time t) as [m|]; [|discriminate]. exists m, k. auto. }
      destruct (match tm_es t with Some m => _ | None => false end) eqn:T4; [|discriminate].
      inversion Hf'; subst r. simpl. destruct (tm_es t) as [m|]; [|discriminate]. exists m. split; [reflexivity|].
      apply Z.leb_le in T4.
      assert (Hm : Z.to_nat m <= repeated_times (tm_eps t) (map fit (b0 :: gb))) by lia.
      apply repeated_times_spec in Hm. destruct Hm as [Hm|Hm]; [left; lia|right; exact Hm].
    + intros t j Ht Hj. unfold tm' in Hpast. rewrite Ht in Hpast.
      destruct (Hpast _ eq_refl ltac:(lia) j ltac:(lia)) as (Q1 & Q2 & Q3). cbn [tm_epoch tm_es tm_time tm_start tm_eps] in Q1, Q2, Q3.
      auto.
  - intros C x Hx. apply (i_cov _ _ _ _ _ _ _ _ _ I5 C g x Eg Hx).
  - rewrite Ee. rewrite L3 in Hc4. nia.
  - pose proof (i_nfe _ _ _ _ _ _ _ _ _ I5). exact H.
  - intros t m Ht Hm H1. unfold tm' in Hfe. rewrite Ht in Hfe.
    apply (Hfe _ m eq_refl); [exact Hm|lia].
Qed.


End SaveRun.
