(** From contracts to [run_spec]. *)
From Verif Require Import Prelude Fl MCore SpecCore SpecRun PSelect PLogic PSolve.

(** ** The early-stop counter counts the stalled steps at the end *)
Lemma repeated_aux_snoc eps l prev c x :
  repeated_aux eps prev (l ++ [x]) c =
  if fle (fabs (fsub (last l prev) x)) eps then S (repeated_aux eps prev l c) else 0.
Proof.
  revert prev c; induction l as [|y l IH]; intros prev c; [reflexivity|].
  cbn [app repeated_aux]. rewrite IH.
  assert (Hl : last l y = last (y :: l) prev).
  { destruct l as [|z l']; [reflexivity|]. cbn [last]. clear. revert z; induction l'; intros z; [reflexivity|apply IHl']. }
  rewrite Hl. reflexivity.
Qed.

Lemma repeated_times_snoc eps l y x :
  repeated_times eps (l ++ [y; x]) =
  if fle (fabs (fsub y x)) eps then S (repeated_times eps (l ++ [y])) else 0.
Proof.
  destruct l as [|a l].
  - reflexivity.
  - cbn [app repeated_times]. replace (l ++ [y; x]) with ((l ++ [y]) ++ [x]) by (rewrite <- app_assoc; reflexivity).
    rewrite repeated_aux_snoc, last_last. reflexivity.
Qed.

Lemma repeated_times_spec eps l m : m <= repeated_times eps l <-> m = 0 \/ stalled eps l m.
Proof.
  revert m. induction l as [|x l IH] using rev_ind; intros m.
  - split; [simpl; lia|]. intros [->|[H _]]; [lia|simpl in H; lia].
  - destruct l as [|y l0] eqn:El using rev_ind; [|clear IHl0].
    + split; [simpl; lia|]. intros [->|[H _]]; [lia|simpl in *; lia].
    + rewrite <- app_assoc. cbn [app]. rewrite repeated_times_snoc.
      assert (Ln : List.length (l0 ++ [y; x]) = S (S (List.length l0))) by (rewrite app_length; simpl; lia).
      assert (Ny : nth (List.length l0) (l0 ++ [y; x]) fnan = y) by (rewrite app_nth2, Nat.sub_diag by lia; reflexivity).
      assert (Nx : nth (S (List.length l0)) (l0 ++ [y; x]) fnan = x).
      { rewrite app_nth2 by lia. replace (S (List.length l0) - List.length l0) with 1 by lia. reflexivity. }
      assert (Nm : forall i, i <= List.length l0 -> nth i (l0 ++ [y; x]) fnan = nth i (l0 ++ [y]) fnan).
      { intros i Hi. replace (l0 ++ [y; x]) with ((l0 ++ [y]) ++ [x]) by (rewrite <- app_assoc; reflexivity).
        apply app_nth1. rewrite app_length; simpl; lia. }
      destruct (fle (fabs (fsub y x)) eps) eqn:Ef.
      * destruct m as [|m]; [split; [auto|lia]|].
        split.
        -- intros H. right. assert (Hm : m <= repeated_times eps (l0 ++ [y])) by lia. apply IH in Hm.
           split; [rewrite Ln|].
           ++ destruct Hm as [->|[Hm _]]; [lia|rewrite app_length in Hm; simpl in Hm; lia].
           ++ rewrite Ln. intros i Hi1 Hi2. destruct (Nat.eq_dec i (List.length l0)) as [->|Hne].
              { rewrite Ny, Nx; exact Ef. }
              destruct Hm as [->|[Hm1 Hm2]]; [lia|]. rewrite !Nm by lia. apply Hm2; rewrite app_length; simpl; lia.
        -- intros [H|[H1 H2]]; [discriminate|]. rewrite Ln in *. apply le_n_S. apply IH.
           destruct m as [|m]; [auto|]. right. split; [rewrite app_length; simpl; lia|].
           rewrite app_length; simpl. intros i Hi1 Hi2. rewrite <- !Nm by lia. apply H2; lia.
      * split; [lia|]. intros [->|[H1 H2]]; [lia|]. rewrite Ln in *.
        destruct m as [|m]; [lia|]. specialize (H2 (List.length l0)). rewrite Ny, Nx in H2.
        rewrite H2 in Ef by lia. discriminate.
Qed.

Section Run.
Context {A X : Type}.
Variable E : env.
Variable P : problem.
Variable md : mode.
Variable feas : vec -> Prop.
Variable attok : list vec -> A -> Prop.
Variable IL : nat -> Prop.
Variable XP : X -> Prop.
Variables IX0 IX : list vec -> X -> Prop.     (* algorithm attributes: before the run, after initialization, in the loop *)
Variable cov : Prop.

Hypothesis attok_mono : forall L L' a, incl L L' -> attok L a -> attok L' a.
Hypothesis IL_pos : forall n, IL n -> 0 < n.
Hypothesis Vmm : valid_mm (p_mm P).
Hypothesis Hargsort : argsort_ok (e_argsort E).
Hypothesis cov_num : cov -> obj_num P feas.

(** Initialization leads from a fresh optimizer to a [Start] state. *)
Definition init_contract (al : algo) (starting : option (list vec)) (nd imin imax : nat) : Prop :=
  forall s, fresh s -> XP (s_x s) ->
    wp (al_init_vars al ;;; before_initialization P md al starting ;;; al_init al)
       (fun _ s' => Start P feas attok IL IX0 cov nd (s_nfe s) s' /\ imin <= List.length (s_log s') <= imax) s.

Definition before_main_contract (al : @algo A X) (nd bmin bmax : nat) : Prop :=
  forall s n0, Inv P feas attok IL IX0 cov nd n0 s ->
    wp (al_before_main al) (fun _ s' => Inv P feas attok IL IX cov nd n0 s' /\ s_hist s' = s_hist s /\
        incl (s_log s) (s_log s') /\
        List.length (s_log s) + bmin <= List.length (s_log s') <= List.length (s_log s) + bmax) s.

Definition evolves (al : @algo A X) (nd kmin kmax : nat) : Prop :=
  forall n0, evolve_contract P feas attok IL IX cov nd n0 kmin kmax (al_evolve al).

Lemma good_evaluated L a : good P feas attok L a -> evaluated P feas L a.
Proof. intros [? ? ? ?]. repeat split; auto. Qed.

Lemma Forall_tl {T} (Q : T -> Prop) l : Forall Q l -> Forall Q (tl l).
Proof. intros H; destruct H; [constructor|assumption]. Qed.

Theorem solve_run al tm starting nd imin imax bmin bmax kmin kmax s :
  init_contract al starting nd imin imax -> before_main_contract al nd bmin bmax ->
  evolves al nd kmin kmax -> 0 < al_epoch al -> XP (s_x s) ->
  exists g s', solve E P md al tm starting s = Ok (g, s') /\
    run_spec E P feas IL cov (al_epoch al) tm
      (mkCounts (imin + bmin) (imax + bmax) kmin kmax nd (match tm with None => s_nfe s | Some _ => 0 end)) g s'.
Proof.
  intros HI HB HV Hep HX.
  set (n0 := match tm with None => s_nfe s | Some _ => 0 end).
  set (tm' := match tm with None => None
              | Some t => Some (mkTerm (tm_epoch t) (tm_fe t) (tm_time t) (tm_es t) (tm_eps t) (e_time E 0)) end).
  apply wp_elim.
  unfold solve. apply wp_bind. unfold check_problem, wp at 1. apply wp_bind.
  set (s0 := mkSt [] None None hist_new (s_nfe s) 0 [] (s_x s)).
  assert (Hstart : wp (check_termination_start E tm) (fun tm1 s1 =>
            tm1 = tm' /\ fresh s1 /\ s_x s1 = s_x s /\ s_nfe s1 = n0) s0).
  { unfold check_termination_start, tm', n0. destruct tm as [t|].
    - unfold wp, bindM, set_nfe, tick, ret. simpl. repeat split.
    - apply wp_ret. repeat split. }
  eapply wp_mono; [exact Hstart|]. intros tm1 s1 (-> & Hf & Hx1 & Hn1).
  rewrite <- Hx1 in HX. pose proof (HI s1 Hf HX) as H1.
  assert (HA : forall B (rest : M A X B) Q st0,
     wp ((al_init_vars al ;;; before_initialization P md al starting ;;; al_init al) ;;; rest) Q st0 ->
     wp (al_init_vars al ;;; before_initialization P md al starting ;;; al_init al ;;; rest) Q st0).
  { intros B rest Q st0. unfold wp, bindM. destruct (al_init_vars al st0) as [[? ?]|]; auto.
    destruct (before_initialization P md al starting s2) as [[? ?]|]; auto. }
  apply HA. apply wp_bind. eapply wp_mono; [exact H1|]. clear HA H1.
  intros [] s2 (HS & Hc2). rewrite Hn1 in HS.
  apply wp_bind. eapply wp_mono; [eapply after_initialization_ok; eauto|].
  intros [] s3 (I3 & H3 & L3).
  apply wp_bind. eapply wp_mono; [apply (HB s3 n0 I3)|].
  intros [] s4 (I4 & Eh4 & Inc4 & Hc4).
  assert (H4 : Hist P feas attok IL 0 s4) by (eapply Hist_good_mono; eauto).
  apply wp_bind.
  eapply wp_mono.
  { apply main_loop_ok with (E := E) (P := P) (feas := feas) (attok := attok) (IL := IL) (IX := IX) (cov := cov)
      (nd := nd) (n0 := n0) (kmin := kmin) (kmax := kmax) (base := List.length (s_log s4)) (i := 0); auto.
    - lia.
    - intros t _ j Hj. lia.
    - intros t _ Hj. lia. }
  intros [] s5 (e & He0 & Hen & Hpos & I5 & H5 & Hc5 & Hstop & Hpast & Hfe).
  specialize (Hpos Hep). simpl in Hen.
  unfold track_optimize_process. apply wp_bind. apply wp_bind, wp_get. cbv zeta.
  destruct (h_div (s_hist s5)) as [|d0 dr] eqn:Ediv.
  { pose proof (hi_div _ _ _ _ _ _ H5) as Hd. rewrite Ediv in Hd. simpl in Hd. lia. }
  rewrite <- Ediv.
  unfold set_hist, wp at 1. 
  destruct (i_gb _ _ _ _ _ _ _ _ _ I5) as (g & Eg & Gg & Lg).
  destruct (i_gw _ _ _ _ _ _ _ _ _ I5) as (gw0 & Egw & Ggw).
  unfold get_gb, wp. simpl. rewrite Eg.
  pose proof (hi_gb _ _ _ _ _ _ H5) as LG. pose proof (hi_cb _ _ _ _ _ _ H5) as LC.
  pose proof (hi_gw _ _ _ _ _ _ H5) as LGW. pose proof (hi_cw _ _ _ _ _ _ H5) as LCW.
  destruct (h_gb (s_hist s5)) as [|b0 gb] eqn:Egb; [discriminate|].
  destruct (h_cb (s_hist s5)) as [|cb0 cb] eqn:Ecb; [discriminate|].
  destruct (h_gw (s_hist s5)) as [|w0 gw] eqn:Egw'; [discriminate|].
  destruct (h_cw (s_hist s5)) as [|cw0 cw] eqn:Ecw; [discriminate|].
  simpl in LG, LC, LGW, LCW.
  assert (Ee : List.length gb = e) by lia.
  pose proof (hi_ggb _ _ _ _ _ _ H5) as Ggb. pose proof (hi_gcb _ _ _ _ _ _ H5) as Gcb.
  pose proof (hi_ggw _ _ _ _ _ _ H5) as Ggw'. pose proof (hi_gcw _ _ _ _ _ _ H5) as Gcw.
  rewrite Egb in Ggb. rewrite Ecb in Gcb. rewrite Egw' in Ggw'. rewrite Ecw in Gcw.
  (* the initial entries *)
  assert (Hb0 : b0 = cb0).
  { destruct (hi_best _ _ _ _ _ _ H5 0 b0) as [Hin _]; [rewrite Egb; reflexivity|].
    rewrite Ecb in Hin. simpl in Hin. destruct Hin as [Hin|[]]; congruence. }
  assert (Hw0 : w0 = cw0).
  { destruct (hi_worst _ _ _ _ _ _ H5 0 w0) as [Hin _]; [rewrite Egw'; reflexivity|].
    rewrite Ecw in Hin. simpl in Hin. destruct Hin as [Hin|[]]; congruence. }
  assert (EV : forall l, Forall (good P feas attok (s_log s5)) l -> Forall (evaluated P feas (s_log s5)) l).
  { intros l Hl. eapply Forall_impl; [|exact Hl]. apply good_evaluated. }
  constructor; simpl; rewrite ?Egb, ?Ecb, ?Egw', ?Ecw; simpl.
  - split; [reflexivity|]. destruct gb as [|g1 gb'].
    + simpl in Ee. lia.
    + destruct (last_item_nonempty (g1 :: gb')) as (x & l' & Ex & El); [congruence|]. rewrite El.
      rewrite Ex in Lg. change (b0 :: l' ++ [x]) with ((b0 :: l') ++ [x]) in Lg. rewrite last_item_app in Lg. exact Lg.
  - lia.
  - lia.
  - lia.
  - lia.
  - rewrite (hi_time _ _ _ _ _ _ H5). lia.
  - rewrite (hi_div _ _ _ _ _ _ H5). lia.
  - rewrite map_length, (hi_div _ _ _ _ _ _ H5). lia.
  - rewrite !map_length, (hi_div _ _ _ _ _ _ H5). lia.
  - rewrite (hi_div _ _ _ _ _ _ H5). rewrite Ee. reflexivity.
  - rewrite (hi_gbf _ _ _ _ _ _ H5), Egb. reflexivity.
  - rewrite (hi_cbf _ _ _ _ _ _ H5), Ecb. reflexivity.
  - apply I5.
  - split; [apply EV; apply I5|apply I5].
  - apply EV. rewrite !Forall_app. inversion Ggb; inversion Gcb; inversion Ggw'; inversion Gcw; subst. auto.
  - pose proof (hi_pop _ _ _ _ _ _ H5) as HP. destruct (p_save_pop P); [|exact HP].
    rewrite Ecb, Ecw in HP. simpl in HP. destruct HP as (P1 & P2 & P3). split.
    + clear - P1 P3 EV. revert P3. induction P1 as [|p b ps bs Hb _ IH]; intros P3; [constructor|].
      inversion P3 as [|? ? [Q1 Q2] P3']; subst. constructor; [|apply IH; exact P3'].
      split; [exact Q1|]. split; [apply EV; exact Q2|]. destruct Hb; split; assumption.
    + exact P2.
  - exists b0, w0. split; [apply good_evaluated; inversion Ggb; assumption|].
    split; [apply good_evaluated; inversion Ggw'; assumption|].
    split; [|split; [|split]].
    + intros j gj Hj. destruct (hi_best _ _ _ _ _ _ H5 (S j) gj) as [Q1 Q2]; [rewrite Egb; exact Hj|].
      rewrite Ecb in Q1, Q2. rewrite Hb0. split; assumption.
    + intros j wj Hj. destruct (hi_worst _ _ _ _ _ _ H5 (S j) wj) as [Q1 Q2]; [rewrite Egw'; exact Hj|].
      rewrite Ecw in Q1, Q2. rewrite Hw0. split; assumption.
    + destruct Hstop as [->|(t' & r & Et & (k & Hf'))]; [left; exact Ee|].
      unfold tm' in Et. destruct tm as [t|]; [|discriminate]. inversion Et; subst t'. right.
      exists t, r. split; [reflexivity|]. unfold should_terminate in Hf'. simpl in Hf'. rewrite Egb in Hf'.
      destruct (match tm_epoch t with Some m => (m <=? Z.of_nat e)%Z | None => false end) eqn:T1.
      { inversion Hf'; subst r. simpl. destruct (tm_epoch t) as [m|]; [|discriminate]. exists m. split; [reflexivity|lia]. }
      destruct (match tm_fe t with Some m => (m <=? Z.of_nat (s_nfe s5))%Z | None => false end) eqn:T2.
      { inversion Hf'; subst r. simpl. destruct (tm_fe t) as [m|]; [|discriminate]. exists m. split; [reflexivity|lia]. }
      destruct (match tm_time t with Some m => fle m (fsub (e_time E k) (e_time E 0)) | None => false end) eqn:T3.
      { inversion Hf'; subst r. simpl. destruct (tm_time t) as [m|]; [|discriminate]. exists m, k. auto. }
      destruct (match tm_es t with Some m => _ | None => false end) eqn:T4; [|discriminate].
      inversion Hf'; subst r. simpl. destruct (tm_es t) as [m|]; [|discriminate]. exists m. split; [reflexivity|].
      apply Z.leb_le in T4.
      assert (Hm : Z.to_nat m <= repeated_times (tm_eps t) (map fit (b0 :: gb))) by lia.
      apply repeated_times_spec in Hm. destruct Hm as [Hm|Hm]; [left; lia|right; exact Hm].
    + intros t j Ht Hj. unfold tm' in Hpast. rewrite Ht in Hpast.
      destruct (Hpast _ eq_refl ltac:(lia) j ltac:(lia)) as (Q1 & Q2 & Q3). rewrite Egb in Q2. cbn [tm_epoch tm_es tm_time tm_start tm_eps] in Q1, Q2, Q3.
      split; [exact Q1|]. split; [|exact Q3]. intros m Hm. specialize (Q2 m Hm).
      split; [lia|]. intros Hst. assert (Hle : Z.to_nat m <= repeated_times (tm_eps t) (map fit (b0 :: firstn j gb))).
      { apply repeated_times_spec. right; exact Hst. }
      unfold es_at in Q2. cbn [map firstn] in Q2. rewrite firstn_map in Q2. cbn [map] in Hle.
      cbn [tm_eps] in Q2. lia.
  - intros C x Hx. apply (i_cov _ _ _ _ _ _ _ _ _ I5 C g x Eg Hx).
  - rewrite Ee. rewrite L3 in Hc4. nia.
  - pose proof (i_nfe _ _ _ _ _ _ _ _ _ I5). exact H.
  - intros t m Ht Hm H1. unfold tm' in Hfe. rewrite Ht in Hfe.
    apply (Hfe _ m eq_refl); [exact Hm|lia].
Qed.


(** ** Standard initialization *)
Definition starting_ok (n : nat) (starting : option (list vec)) : Prop :=
  match starting with None => True | Some rows => rows_ok P feas n rows end.
Definition missed (n : nat) (starting : option (list vec)) : nat :=
  match starting with None => lost md n | Some _ => 0 end.

Definition vars_contract (m : M A X unit) : Prop :=
  forall s, XP (s_x s) -> wp m (fun _ s' => exists x k, s' = with_x (bump s k) x /\ IX0 [] x) s.

Lemma default_init_contract al starting :
  vars_contract (al_init_vars al) ->
  al_init al = default_initialization E md (al_ga al) (al_pop_size al) ->
  ga_contract P feas attok (al_ga al None) ->
  (forall x, feas x -> ga_contract P feas attok (al_ga al (Some x))) ->
  (forall x, feas x -> forall s0, wp (al_ga al (Some x)) (fun a _ => sol a = x) s0) ->
  (is_avail md = true -> starting <> None -> gea_contract feas attok (al_gea al)) ->
  IL (al_pop_size al) -> starting_ok (al_pop_size al) starting ->
  init_contract al starting (missed (al_pop_size al) starting) (al_pop_size al) (al_pop_size al).
Proof.
  intros HV Hi G1 G2 G3 G4 HL HS s Hf HX. apply wp_bind. eapply wp_mono; [apply HV; exact HX|].
  intros [] s1 (x & k & -> & Hx). apply wp_bind.
  assert (Hf1 : fresh (with_x (bump s k) x)) by exact Hf.
  destruct starting as [rows|]; simpl in HS.
  - eapply wp_mono; [apply (before_initialization_ok P md feas attok attok_mono Vmm IL IX0 cov cov_num al rows); auto; intros Hav; apply G4; [exact Hav|discriminate]|].
    intros [] s2 (S2 & L2 & M2). rewrite Hi. unfold default_initialization. apply wp_bind, wp_get_pop.
    pose proof (IL_pos _ (st_len _ _ _ _ _ _ _ _ _ S2)) as Hne.
    destruct (s_pop s2) as [|a p] eqn:Ep; [simpl in Hne; lia|]. apply wp_ret. split; [exact S2|].
    rewrite L2. destruct HS as (-> & _ & _). lia.
  - apply wp_ret. rewrite Hi. pose proof (IL_pos _ HL).
    eapply wp_mono; [apply (default_initialization_ok E P md feas attok attok_mono Vmm IL IX0 cov cov_num); auto|].
    intros [] s2 (S2 & L2 & _). split; [exact S2|lia].
Qed.

Lemma skip_before_main al nd : al_before_main al = ret tt -> (forall L x, IX0 L x -> IX L x) ->
  before_main_contract al nd 0 0.
Proof.
  intros H HX s n0 I. rewrite H. apply wp_ret. split; [|split; [reflexivity|split; [apply incl_refl|lia]]].
  destruct I as [? ? ? ? ? ? ? ? (L & H1 & H2)]; constructor; auto. exists L; auto.
Qed.
Lemma skip_vars al : al_init_vars al = ret tt -> (forall x, XP x -> IX0 [] x) -> vars_contract (al_init_vars al).
Proof. intros H HX s Hs. rewrite H. apply wp_ret. exists (s_x s), (s_ctr s). split; [destruct s; reflexivity|auto]. Qed.

End Run.

(** Problems all of whose solutions, generated or corrected, are admissible. *)
Definition problem_ok (P : problem) (feas : vec -> Prop) : Prop :=
  (forall k x, List.length x = n_dims P -> feas (p_correct P k x)) /\ (forall k, feas (p_gen P k)).

Section Plain.
Context {A X : Type}.
Variable E : env.
Variable P : problem.
Variable md : mode.
Variable feas : vec -> Prop.
Variable attok : list vec -> A -> Prop.
Variable IL : nat -> Prop.
Variable IX : X -> Prop.
Variable cov : Prop.
Hypothesis attok_mono : forall L L' a, incl L L' -> attok L a -> attok L' a.
Hypothesis IL_pos : forall n, IL n -> 0 < n.
Hypothesis Vmm : valid_mm (p_mm P).
Hypothesis Hargsort : argsort_ok (e_argsort E).
Hypothesis cov_num : cov -> obj_num P feas.
Hypothesis Hprob : problem_ok P feas.

(** Algorithms whose agents are plain and that keep the default initialization. *)
Theorem plain_run dflt al tm starting kmin kmax s :
  al_gea al = generate_empty_agent P dflt -> al_ga al = generate_agent_with P (al_gea al) ->
  al_init al = default_initialization E md (al_ga al) (al_pop_size al) ->
  al_init_vars al = ret tt -> al_before_main al = ret tt ->
  (forall L, attok L dflt) -> IL (al_pop_size al) -> starting_ok P feas (al_pop_size al) starting ->
  (forall nd n0, evolve_contract P feas attok IL (fun _ => IX) cov nd n0 kmin kmax (al_evolve al)) ->
  0 < al_epoch al -> IX (s_x s) ->
  exists g s', solve E P md al tm starting s = Ok (g, s') /\
    run_spec E P feas IL cov (al_epoch al) tm
      (mkCounts (al_pop_size al) (al_pop_size al) kmin kmax (missed md (al_pop_size al) starting)
                (match tm with None => s_nfe s | Some _ => 0 end)) g s'.
Proof.
  intros Hg1 Hg2 Hi Hv Hb Ha HL HS HV Hep HX.
  pose proof (solve_run E P md feas attok IL IX (fun _ => IX) (fun _ => IX) cov attok_mono IL_pos Vmm Hargsort cov_num al tm starting
     (missed md (al_pop_size al) starting) (al_pop_size al) (al_pop_size al) 0 0 kmin kmax s) as T.
  rewrite !Nat.add_0_r in T. apply T; auto.
  - eapply default_init_contract with (E := E) (IX0 := fun _ => IX); auto.
    + eapply skip_vars; eauto.
    + rewrite Hg2, Hg1. apply plain_ga_contract; auto. apply Hprob.
    + intros x Hx. rewrite Hg2, Hg1. apply plain_ga_contract_some; auto.
    + intros x Hx s0. rewrite Hg2, Hg1. unfold generate_agent_with, generate_empty_agent.
      apply wp_bind, wp_ret, wp_bind, wp_get_target, wp_ret. reflexivity.
    + intros _ _. rewrite Hg1. intros s0 x Hx. apply wp_ret. split; [exists (s_ctr s0); destruct s0; reflexivity|]. simpl. auto.
  - eapply skip_before_main with (IX0 := fun _ => IX); auto.
  - intros n0. apply HV.
Qed.
End Plain.
