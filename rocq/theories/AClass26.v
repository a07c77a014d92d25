(** What the algorithm classes modelled in MClass25 guarantee. *)
From Coq Require Import Permutation.
From Verif Require Import Prelude Fl MCore MHelp MAlg MAlg2 MAlg3 MAlg4 MAlg5 MAlg6 MAlg7 MAlg8 SpecCore SpecRun SpecAlg SpecWhen Demo
  PSelect PLogic PSolve PRun PAlg PFree PClass PAlg2 PAlg3 PAlg4 PAlg5 PAlg6 PAlg7 PAlg8 PAlg9 PRef PElse PAlg10 PAlg11 PAlg13 PAlg14 AClass20 AClass21 AClass24 AClass25
  MClass20 MClass25.

(** ** OriginalWCA *)
Lemma map_getitem {T} (l : list T) (ix : list nat) : Forall (fun i => i < List.length l) ix -> exists g, map_res (getitem l) ix = Ok g /\ List.length g = List.length ix /\ forall a, In a g -> In a l.
Proof.
  induction 1 as [|i ix Hi _ (g & Eg & Lg & Ig)]; cbn; [exists []; repeat split; intros a []|].
  destruct (getitem_lt l i Hi) as (x & Ex & _ & Ix). rewrite Ex. cbn. rewrite Eg. exists (x :: g). cbn. split; [reflexivity|]. split; [lia|]. intros a [<-|Ha]; auto.
Qed.
(** The elements of a list without those drawn from it. *)
Lemma left_out (r rest l : list nat) : NoDup l -> Permutation (r ++ rest) l ->
  let q := filter (fun j => negb (existsb (Nat.eqb j) r)) l in NoDup q /\ List.length q + List.length r = List.length l.
Proof.
  intros Hd Hp. cbv zeta. split; [apply NoDup_filter, Hd|].
  assert (Hd' : NoDup (r ++ rest)) by (eapply Permutation_NoDup; [apply Permutation_sym, Hp|exact Hd]).
  rewrite <- (Permutation_length Hp), app_length. rewrite <- (Permutation_length (perm_filter _ _ _ Hp)).
  rewrite filter_app, app_length.
  assert (Hin : forall j, existsb (Nat.eqb j) r = true <-> In j r).
  { intros j. rewrite existsb_exists. split; [intros (y & Hy & Ey); apply Nat.eqb_eq in Ey; subst; exact Hy|intros Hj; exists j; split; [exact Hj|apply Nat.eqb_refl]]. }
  assert (E1 : filter (fun j => negb (existsb (Nat.eqb j) r)) r = []).
  { assert (T : forall l, incl l r -> filter (fun j => negb (existsb (Nat.eqb j) r)) l = []).
    { induction l0 as [|j l0 IH]; intros Hi; [reflexivity|]. cbn [filter]. rewrite (proj2 (Hin j)); [|apply Hi; left; reflexivity]. cbn [negb]. apply IH. intros y Hy. apply Hi. right. exact Hy. }
    apply T, incl_refl. }
  assert (E2 : filter (fun j => negb (existsb (Nat.eqb j) r)) rest = rest).
  { assert (T : forall l, (forall j, In j l -> ~ In j r) -> filter (fun j => negb (existsb (Nat.eqb j) r)) l = l).
    { induction l0 as [|j l0 IH]; intros Hi; [reflexivity|]. cbn [filter]. destruct (existsb (Nat.eqb j) r) eqn:Eb.
      - contradiction (Hi j (or_introl eq_refl)). apply Hin, Eb.
      - cbn [negb]. f_equal. apply IH. intros y Hy. apply Hi. right. exact Hy. }
    apply T. intros j Hj Hr. destruct (in_split _ _ Hr) as (r1 & r2 & ->). rewrite <- app_assoc in Hd'. cbn in Hd'. apply NoDup_remove_2 in Hd'. apply Hd'. rewrite !in_app_iff. auto. }
  rewrite E1, E2. cbn. lia.
Qed.

Lemma choice_short {A X T} E k : forall (l : list T) (s : st A X), List.length l < k -> exists e, choice_noreplace E l k s = Err e.
Proof.
  induction k as [|k IH]; intros l s Hk; [lia|]. cbn [choice_noreplace]. destruct l as [|d l]; [exists ValueError; reflexivity|].
  unfold bindM, tick. set (j := e_i E (s_ctr s) mod List.length (d :: l)). assert (Hj : j < List.length (d :: l)) by (apply Nat.mod_upper_bound; cbn; lia).
  match goal with |- context [choice_noreplace E (remove_at j (d :: l)) k ?s1] => destruct (IH (remove_at j (d :: l)) s1) as [e Ee]; [|rewrite Ee; exists e; reflexivity] end.
  unfold remove_at. rewrite app_length, firstn_length, skipn_length. cbn [List.length] in *. lia.
Qed.
Lemma skip_to {T} (l1 l2 : list T) : skipn (List.length l1) (l1 ++ l2) = l2.
Proof. induction l1 as [|a l1 IH]; cbn; auto. Qed.
Lemma skip_over {T} (l1 : list T) a l2 : skipn (S (List.length l1)) (l1 ++ a :: l2) = l2.
Proof. induction l1 as [|b l1 IH]; cbn; auto. Qed.
Section WCA.
Variables (E : env) (P : problem) (md : MCore.mode).
Notation gea := (generate_empty_agent (A := unit) (X := basin) P tt).
Notation correct := (correct_solution P).
(** The same statements, a river without streams keeping its position, and a river whose number of streams cannot be computed having none. *)
Definition wca_draw_total (m : nat) (c s : f64) (rest : list nat) : M unit basin (list nat) := orelse (wca_draw E m c s rest) (ret []).
Definition wca_best_total (new : list (agent unit)) (river : agent unit) : M unit basin (agent unit) := orelse (wca_best E P new river) (ret river).
Lemma ref_wca_start m nsr n : refines (wca_start E P (wca_draw E m) nsr n) (wca_start E P (wca_draw_total m) nsr n).
Proof.
  unfold wca_start. apply ref_bind; [apply ref_refl|intros p]. apply ref_bind; [apply ref_refl|intros [ps ix]]. apply ref_bind; [apply ref_refl|intros []]. cbv zeta.
  apply ref_bind; [apply ref_refl|intros fits]. apply ref_bind; [apply ref_refl|intros s]. apply ref_bind; [|intros [gs rest]; apply ref_refl].
  apply ref_for_acc. intros i st. apply ref_bind; [apply ref_refl|intros c]. apply ref_bind; [apply ref_orelse|intros r; apply ref_refl].
Qed.
Lemma ref_wca_evolve nsr ep : refines (wca_evolve E P md (wca_best E P) nsr ep) (wca_evolve E P md wca_best_total nsr ep).
Proof.
  unfold wca_evolve. apply ref_bind; [apply ref_refl|intros x]. apply ref_bind; [|intros y; apply ref_refl]. apply ref_for_acc. intros i st. unfold wca_flow.
  do 3 (apply ref_bind; [apply ref_refl|intros ?]). apply ref_bind; [apply ref_orelse|intros b; apply ref_refl].
Qed.
Lemma wca_draw_ok m c s rest (s1 : st unit basin) (Q : list nat -> st unit basin -> Prop) :
  (forall r rest' k, Permutation (r ++ rest') rest -> Q r (bump s1 k)) -> wp (wca_draw_total m c s rest) Q s1.
Proof.
  intros HQ. assert (Q0 : Q [] s1).
  { replace s1 with (bump s1 (s_ctr s1)) by (destruct s1; reflexivity). apply (HQ [] rest). apply Permutation_refl. }
  unfold wca_draw_total, wp, orelse. destruct (wca_draw E m c s rest s1) as [[r s2]|e] eqn:Ed; [|exact Q0].
  revert Ed. unfold wca_draw, bindM, lift. destruct (wca_count m c s) as [k|e]; [|discriminate].
  intros Ed. destruct (Nat.le_gt_cases k (List.length rest)) as [Hk|Hk].
  - pose proof (wp_choice_noreplace E rest k (fun r s2 => exists rest' c, Permutation (r ++ rest') rest /\ s2 = bump s1 c) s1 Hk) as W. unfold wp in W. rewrite Ed in W.
    destruct W as (rest' & c1 & Hp & ->); [intros; eauto|]. eapply HQ, Hp.
  - destruct (choice_short E k rest s1 Hk) as [e Ee]. rewrite Ee in Ed. discriminate.
Qed.
Variables (feas : vec -> Prop) (C : Prop) (nd n0 nsr n : nat).
Hypothesis HP : params E P feas (@anyatt unit) (false = true /\ C).
Hypothesis H1 : 0 < nsr.
Hypothesis H2 : nsr <= n.
Notation good := (good P feas (@anyatt unit)).
Definition basin_ok (L : list vec) (x : basin) : Prop :=
  List.length (fst x) = nsr /\ List.length (snd x) = nsr /\ List.length (List.concat (snd x)) = n - nsr /\ Forall (good L) (fst x) /\ Forall (Forall (good L)) (snd x).
Notation cov := (false = true /\ C).
Lemma wca_start_ok (s : st unit basin) : Start P feas (@anyatt unit) (eq n) (fun _ _ => True) cov nd n0 s ->
  wp (wca_start E P (wca_draw_total (n - nsr)) nsr n)
     (fun _ s' => Start P feas (@anyatt unit) (eq n) basin_ok cov nd n0 s' /\ List.length (s_log s) + 0 <= List.length (s_log s') <= List.length (s_log s) + 0) s.
Proof.
  intros HS. pose proof HS as []. unfold wca_start. apply wp_bind, wp_get_pop.
  destruct (good_best E P feas (@anyatt unit) cov HP _ _ st_good) as (ps & ix & Es & Hp & _).
  apply wp_bind. eapply wp_lift; [exact Es|]. cbv beta iota. apply wp_bind. unfold set_pop at 1. unfold wp at 1.
  assert (Lp : List.length ps = n) by (rewrite (Permutation_length Hp); auto).
  assert (Gp : Forall (good (s_log s)) ps).
  { rewrite Forall_forall in st_good |- *. intros a Ha. apply st_good. eapply Permutation_in; [exact Hp|exact Ha]. }
  cbv zeta. set (rivers := firstn nsr ps). set (streams := skipn nsr ps). fold (with_pop s ps).
  assert (Lr : List.length rivers = nsr) by (unfold rivers; rewrite firstn_length; lia).
  assert (Ls : List.length streams = n - nsr) by (unfold streams; rewrite skipn_length; lia).
  rewrite <- (firstn_skipn nsr ps) in Gp. fold rivers streams in Gp. apply Forall_app in Gp. destruct Gp as [Gr Gs].
  apply wp_bind. eapply wp_lift; [apply map_res_fitness; eapply Forall_good_target; exact Gr|].
  set (fits := map fit rivers). assert (Lf : List.length fits = nsr) by (unfold fits; rewrite map_length; exact Lr).
  set (s1 := with_pop s ps). apply wp_bind. eapply wp_mono; [apply dr_rnum|]. intros tot s2 [[k2 ->] _].
  apply wp_bind. apply wp_for_acc with (I := fun i st s' => (exists k, s' = bump s1 k) /\ List.length (fst st) = i /\ Forall (Forall (good (s_log s))) (fst st) /\
      NoDup (snd st) /\ Forall (fun j => j < n - nsr) (snd st) /\ List.length (List.concat (fst st)) + List.length (snd st) = n - nsr).
  - cbn [fst snd]. split; [eexists; reflexivity|]. split; [reflexivity|]. split; [constructor|]. split; [apply seq_NoDup|]. split; [|cbn; rewrite seq_length; lia].
    apply Forall_forall. intros j Hj. apply in_seq in Hj. lia.
  - intros i [gs rest] s' Hi ((k & ->) & Lg & Gg & Hd & Hr & Lt). cbn [fst snd] in *. apply wp_bind.
    destruct (getitem_lt fits i ltac:(lia)) as (c & Ec & _). eapply wp_lift; [exact Ec|]. apply wp_bind. apply wca_draw_ok. intros r rest' k' Hpr.
    assert (Fr : Forall (fun j => j < List.length streams) r).
    { rewrite Ls. rewrite Forall_forall in Hr |- *. intros j Hj. apply Hr. eapply Permutation_in; [exact Hpr|]. apply in_or_app. auto. }
    destruct (map_getitem streams r Fr) as (g & Eg & Lgg & Ig). apply wp_bind. eapply wp_lift; [exact Eg|]. apply wp_ret. cbn [fst snd].
    destruct (left_out r rest' rest Hd Hpr) as [Hd' Hl]. split; [exists k'; reflexivity|]. split; [rewrite app_length; cbn; lia|].
    split; [apply Forall_app; split; [exact Gg|]; constructor; [|constructor]; rewrite Forall_forall in Gs |- *; intros a Ha; apply Gs, Ig, Ha|].
    split; [exact Hd'|]. split.
    + apply Forall_forall. intros j Hj. apply filter_In in Hj. destruct Hj as [Hj _]. rewrite Forall_forall in Hr. apply Hr, Hj.
    + rewrite concat_app, app_length. cbn [List.concat]. rewrite app_nil_r. lia.
  - intros [gs rest] s' ((k & ->) & Lg & Gg & Hd & Hr & Lt). cbn [fst snd] in *.
    assert (Fr : Forall (fun j => j < List.length streams) rest) by (rewrite Ls; exact Hr).
    destruct (map_getitem streams rest Fr) as (g & Eg & Lgg & Ig). apply wp_bind. eapply wp_lift; [exact Eg|]. unfold wp, set_x.
    split; [|cbn; lia]. constructor; cbn; auto.
    + rewrite <- (firstn_skipn nsr ps). apply Forall_app. split; assumption.
    + intros Cv. destruct Cv as [T _]. discriminate T.
    + exists (s_log s). split; [apply incl_refl|]. unfold basin_ok. cbn [fst snd]. split; [exact Lr|]. split; [rewrite app_length; cbn; lia|].
      split; [rewrite concat_app, app_length; cbn [List.concat]; rewrite app_nil_r; lia|]. split; [exact Gr|].
      apply Forall_app. split; [exact Gg|]. constructor; [|constructor]. rewrite Forall_forall in Gs |- *; intros a Ha; apply Gs, Ig, Ha.
Qed.
Variable s0 : st unit basin.
Notation gt := (gt P feas (@anyatt unit) (eq n) basin_ok cov nd n0 n s0).
Notation ok := (ok P feas (@anyatt unit)).
Lemma basin_mono w w' x : incl w w' -> basin_ok w x -> basin_ok w' x.
Proof.
  intros Hi (A1 & A2 & A3 & A4 & A5). split; [exact A1|]. split; [exact A2|]. split; [exact A3|]. split; [eapply oks_mono; [exact HP|exact Hi|exact A4]|].
  eapply Forall_impl; [|exact A5]. intros l Hl. eapply oks_mono; [exact HP|exact Hi|exact Hl].
Qed.
Lemma gq_wca_better w a b : ok w a -> ok w b -> gq P feas (@anyatt unit) (eq n) basin_ok cov nd n0 n s0 w (wca_better P a b) (ok w).
Proof.
  intros Ha Hb. unfold wca_better. eapply gq_bind; [eapply gq_compare; [exact HP|noc|exact Ha|exact Hb]|]. intros c _. apply gq_ret. destruct c; assumption.
Qed.
Lemma gq_wca_best w new river : Forall (ok w) new -> ok w river -> gq P feas (@anyatt unit) (eq n) basin_ok cov nd n0 n s0 w (wca_best_total new river) (ok w).
Proof.
  intros Fn Hr s Hw HG. unfold wca_best_total, wp, orelse, wca_best, bindM, lift. destruct new as [|a new].
  - destruct (get_best_agent (e_argsort E) [] (p_mm P)) as [[b i]|e] eqn:Eb; [|split; [exact Hr|split; [exact Hw|exact HG]]].
    exfalso. revert Eb. unfold get_best_agent, get_sorted_population. cbn. destruct (map_res _ _) as [l|] eqn:El; [|discriminate]. cbn.
    assert (l = []) as ->.
    { apply (f_equal (fun r => match r with Ok l => List.length l | Err _ => 0 end)) in El. destruct (match p_mm P with Max => _ | _ => _ end) as [|i0 ?]; [cbn in El; destruct l; [reflexivity|discriminate]|].
      cbn in El. destruct i0; cbn in El; destruct l; cbn in El; auto; discriminate. }
    cbn. discriminate.
  - destruct (best_agent_ok E P feas (@anyatt unit) cov HP w (a :: new) Fn ltac:(discriminate)) as (b & i & Eb & _ & Gb & _). rewrite Eb. cbn. split; [exact Gb|split; [exact Hw|exact HG]].
Qed.
Lemma split_at {T} (l : list T) i : i < List.length l -> exists a l1 l2, getitem l i = Ok a /\ l = (l1 ++ a :: l2)%list /\ List.length l1 = i.
Proof. intros H. destruct (getitem_lt l i H) as (a & Ea & _). destruct (getitem_split _ _ _ Ea) as (l1 & l2 & -> & L). exists a, l1, l2. auto. Qed.
Lemma g_wca_flow idx w st stream : basin_ok w st -> getitem (snd st) idx = Ok stream -> idx < nsr ->
  gt w (List.length stream + 1) (List.length stream + 1) (wca_flow E P md wca_best_total idx st)
    (fun w' y => basin_ok w' y /\ skipn (S idx) (snd y) = skipn (S idx) (snd st)).
Proof.
  intros (A1 & A2 & A3 & A4 & A5) Es Hi. unfold wca_flow.
  destruct (getitem_split _ _ _ Es) as (l1 & l2 & El & L1).
  eapply g_qbind with (Φ := fun y => y = stream); [eapply gq_lift; [exact HP|noc|]; exists stream; auto|]. intros y ->.
  destruct (getitem_lt (fst st) idx ltac:(lia)) as (river & Er & _ & Ir).
  eapply g_qbind with (Φ := fun y => y = river); [eapply gq_lift; [exact HP|noc|]; exists river; auto|]. intros y ->.
  assert (Gr : ok w river) by (rewrite Forall_forall in A4; apply A4, Ir).
  eapply g_bind.
  { eapply g_new_agents; [exact HP|noc|qcorrect HP|qgea|]. intros w1 j Hw1 Hj. destruct (getitem_lt stream j Hj) as (a & Ea & _).
    eapply gq_bind with (Φ := fun y => y = a); [eapply gq_lift; [exact HP|noc|]; exists a; auto|]. intros y ->. gquiet HP. }
  intros new w1 Hw1 [Ln Fn]. assert (Gr1 : ok w1 river) by (eapply good_mono; [apply HP|exact Hw1|exact Gr]).
  eapply g_qbind; [apply gq_wca_best; [exact Fn|exact Gr1]|]. intros b Gb. eapply g_qbind; [apply gq_wca_better; [exact Gb|exact Gr1]|]. intros r1 G1.
  eapply g_qbind; [gquiet HP|]. intros g _. eapply g_qbind; [gquiet HP|]. intros z _.
  eapply g_mono with (a := 1 + 0) (b := 1 + 0) (Φ := fun w' y => basin_ok w' y /\ skipn (S idx) (snd y) = skipn (S idx) (snd st)); [|lia|lia|auto].
  eapply g_bind; [eapply g_gen_agent; [exact HP|noc|qcorrect HP|qgea]|]. intros a w2 Hw2 Ga.
  eapply g_qbind; [apply gq_wca_better; [exact Ga|eapply good_mono; [apply HP|exact Hw2|exact G1]]|]. intros r2 G2. apply g_ret. cbn [fst snd].
  assert (Hi2 : incl w w2) by exact (incl_tran Hw1 Hw2).
  rewrite El. subst idx. rewrite upd_split. split.
  - unfold basin_ok. cbn [fst snd]. split; [rewrite upd_length; exact A1|].
    rewrite El in A2, A3, A5. rewrite app_length in *. cbn [List.length] in *. split; [exact A2|].
    rewrite concat_app, app_length in *. cbn [List.concat] in *. rewrite app_length in *. split; [lia|].
    split; [apply upd_Forall; [eapply oks_mono; [exact HP|exact Hi2|exact A4]|exact G2]|].
    apply Forall_app in A5. destruct A5 as [B1 B2]. apply Forall_cons_iff in B2. destruct B2 as [_ B2].
    assert (M2 : forall l, Forall (Forall (ok w)) l -> Forall (Forall (ok w2)) l).
    { intros l Hl. eapply Forall_impl; [|exact Hl]. intros q Hq. eapply oks_mono; [exact HP|exact Hi2|exact Hq]. }
    apply Forall_app. split; [apply M2, B1|]. constructor; [|apply M2, B2]. eapply oks_mono; [exact HP|exact Hw2|exact Fn].
  - rewrite !skip_over. reflexivity.
Qed.
Lemma g_wca_flows k : forall idx w st, basin_ok w st -> idx + k = nsr ->
  gt w (List.length (List.concat (skipn idx (snd st))) + k) (List.length (List.concat (skipn idx (snd st))) + k) (for_acc k idx st (wca_flow E P md wca_best_total)) basin_ok.
Proof.
  induction k as [|k IH]; intros idx w st Hst Hk; cbn [for_acc].
  - pose proof Hst as (A1 & A2 & _). rewrite skipn_all2 by lia. cbn. apply g_ret. exact Hst.
  - pose proof Hst as (A1 & A2 & _). destruct (getitem_lt (snd st) idx ltac:(lia)) as (stream & Es & _).
    destruct (getitem_split _ _ _ Es) as (l1 & l2 & El & L1).
    assert (E0 : skipn idx (snd st) = stream :: skipn (S idx) (snd st)).
    { rewrite El, <- L1, skip_to, skip_over. reflexivity. }
    rewrite E0. cbn [List.concat]. rewrite app_length. set (rest := List.length (List.concat (skipn (S idx) (snd st)))).
    eapply g_mono with (a := (List.length stream + 1) + (rest + k)) (b := (List.length stream + 1) + (rest + k)) (Φ := basin_ok); [|lia|lia|auto].
    eapply g_bind; [eapply g_wca_flow; [exact Hst|exact Es|lia]|]. intros y w1 Hw1 [B1 B2]. unfold rest. rewrite <- B2. apply IH; [exact B1|lia].
Qed.
Lemma g_wca_dry ep idx w st : basin_ok w st -> idx < nsr -> gt w 0 1 (wca_dry E P ep idx st) basin_ok.
Proof.
  intros Hst Hi. pose proof Hst as (A1 & A2 & A3 & A4 & A5). unfold wca_dry.
  destruct (getitem_lt (fst st) idx ltac:(lia)) as (river & Er & _ & Ir).
  eapply g_qbind with (Φ := fun y => y = river); [eapply gq_lift; [exact HP|noc|]; exists river; auto|]. intros y ->.
  eapply g_qbind; [gquiet HP|]. intros g _. eapply g_qbind; [gquiet HP|]. intros c _. destruct c.
  2:{ eapply g_mono with (a := 0) (b := 0); [apply g_ret; exact Hst|lia|lia|auto]. }
  eapply g_mono with (a := 1 + 0) (b := 1 + 0) (Φ := basin_ok); [|lia|lia|auto]. eapply g_bind; [eapply g_random_agent; gprem HP|]. intros child w1 Hw1 Gc.
  destruct (split_at (snd st) idx ltac:(lia)) as (stream & l1 & l2 & Es & El & L1).
  eapply g_qbind with (Φ := fun y => y = stream); [eapply gq_lift; [exact HP|noc|]; exists stream; auto|]. intros y ->.
  rewrite El in A2, A3, A5. apply Forall_app in A5. destruct A5 as [B1 B2]. apply Forall_cons_iff in B2. destruct B2 as [B3 B2].
  eapply g_qbind.
  { eapply gq_sorted; [exact HP|noc|]. apply Forall_app. split; [eapply oks_mono; [exact HP|exact Hw1|exact B3]|]. constructor; [exact Gc|constructor]. }
  intros [ps ix] (Lp & Fp & _). cbn [fst] in *. rewrite app_length in Lp. cbn [List.length] in Lp. destruct ps as [|top rest]; [cbn in Lp; lia|]. cbn [List.length] in Lp.
  apply g_ret. apply Forall_cons_iff in Fp. destruct Fp as [Gt Gr]. unfold basin_ok. cbn [fst snd]. rewrite El. subst idx. rewrite upd_split.
  split; [rewrite upd_length; exact A1|]. rewrite app_length in *. cbn [List.length] in *. split; [exact A2|].
  rewrite concat_app, app_length in *. cbn [List.concat] in *. rewrite app_length in *. split; [lia|].
  split; [apply upd_Forall; [eapply oks_mono; [exact HP|exact Hw1|exact A4]|exact Gt]|].
  assert (M2 : forall l, Forall (Forall (ok w)) l -> Forall (Forall (ok w1)) l).
  { intros l Hl. eapply Forall_impl; [|exact Hl]. intros q Hq. eapply oks_mono; [exact HP|exact Hw1|exact Hq]. }
  apply Forall_app. split; [apply M2, B1|]. constructor; [exact Gr|apply M2, B2].
Qed.
Lemma g_wca ep w : gt w n (n + (nsr - 1)) (wca_evolve E P md wca_best_total nsr ep) (fun _ _ => True).
Proof.
  unfold wca_evolve. eapply g_qbind; [apply gq_get_x|]. intros x (L' & Hl & Hx). apply (basin_mono _ w) in Hx; [|exact Hl].
  eapply g_mono with (a := n + ((nsr - 1) * 0 + 0)) (b := n + ((nsr - 1) * 1 + 0)) (Φ := fun _ _ => True); [|lia|lia|auto].
  eapply g_bind with (Φ := basin_ok).
  { eapply g_mono; [apply (g_wca_flows nsr 0 w x Hx); lia| | |auto]; pose proof Hx as (_ & _ & A3 & _); rewrite skipn_O, A3; lia. }
  intros y w1 Hw1 Hy. eapply g_bind with (Φ := basin_ok).
  { eapply g_mono; [eapply (g_for_acc P feas (@anyatt unit) (eq n) basin_ok cov nd n0 n s0 w1 0 1 (nsr - 1) 1 y _ (fun _ => basin_ok)); [exact Hy|]|lia|lia|intros w' z _ H; exact H].
    intros k w2 z Hw2 Hk Hz. apply g_wca_dry; [exact Hz|lia]. }
  intros z w2 Hw2 Hz. apply g_quiet. eapply gq_bind; [apply gq_set_x; exact Hz|]. intros [] _. pose proof Hz as (A1 & A2 & A3 & A4 & A5).
  eapply gq_set_pop; [noc|rewrite app_length; lia|]. apply Forall_app. split; [exact A4|]. apply Forall_concat. exact A5.
Qed.
End WCA.

(** OriginalWCA (WCA.py:12-157), whenever it returns: a river without streams makes it raise (WCA.py:136), and so do more streams than remain (WCA.py:106). *)
Theorem C65_OriginalWCA_returning E P md nsr n epochs : 5 <= n -> 2 <= nsr <= n / 2 -> 0 < epochs ->
  sound_when E P md (original_wca E P md nsr n epochs) (fun _ => True) (fun _ => True) (fun _ => True) (eq n) false n n n (n + (nsr - 1)).
Proof.
  intros Hn Hs He. assert (Hs2 : nsr <= n) by (pose proof (Nat.div_le_upper_bound n 2 n ltac:(lia) ltac:(lia)); lia).
  set (g := generate_empty_agent (A := unit) (X := basin) P tt). set (ev := wca_evolve E P md (wca_best_total E P) nsr).
  set (al := with_init (agent_algo E md g (ga_of P g) n epochs true (ret tt) (ret tt) ev) (wca_start E P (wca_draw_total E (n - nsr)) nsr n)).
  apply (begins_of E P md _ (al_init al) ev).
  - unfold original_wca, al, with_init. cbn [al_init]. intros starting. apply ref_bind; [apply ref_refl|]. intros []. apply ref_wca_start.
  - intros ep. apply ref_wca_evolve.
  - change (with_start _ _ _) with al.
    assert (T : sound_run_gen E P md al (fun _ => True) (fun _ => True) (fun _ => True) (eq n) false (n + 0) (n + 0) n (n + (nsr - 1))).
    2:{ rewrite !Nat.add_0_r in T. exact T. }
    apply (sound_more E P md _ _ n epochs true (ret tt) _ (ret tt) _ (fun _ => True) (fun _ => True) (fun _ => True) (fun _ => @anyatt unit) (fun _ _ _ => True) (fun feas => basin_ok P feas nsr n) (fun feas => basin_ok P feas nsr n)); auto; try lia.
    + intros feas rows _ _ Hp. apply plain_gea_ok, Hp.
    + intros feas Hp. apply ga_of_ok, plain_gea_ok, Hp.
    + intros feas Hp. apply vars_none; auto.
    + intros feas nd n0 s HP _ HS. eapply wca_start_ok; [exact HP|lia|lia|exact HS].
    + intros feas nd n0 s HP _ HI. eapply main_none. exact HI.
    + intros feas nd n0 HP _. apply contract_free. intros ep s0 w Hep _. unfold ev. eapply g_wca; [exact HP|lia|lia].
Qed.

(** ** OriginalTS: the population is emptied, then holds the last moves. *)
Lemma best_of_none {A} (argsort : list f64 -> list nat) mm : exists e, get_best_agent (A := A) argsort [] mm = Err e.
Proof.
  unfold get_best_agent, get_sorted_population. cbn. set (ix := match mm with Max => _ | _ => _ end). destruct ix as [|[|i] ix]; cbn; eauto.
Qed.
Section TS.
Variables (E : env) (P : problem) (md : MCore.mode).
Notation gea := (generate_empty_agent (A := unit) (X := vec) P tt).
(** A random agent when there is no candidate. *)
Definition ts_best_total (new : list (agent unit)) : M unit vec (agent unit) := match new with [] => random_agent P gea | _ => ts_best E P new end.
Lemma ref_ts tabu nb ep : refines (ts_evolve E P md (ts_best E P) tabu nb ep) (ts_evolve E P md ts_best_total tabu nb ep).
Proof.
  unfold ts_evolve. do 2 (apply ref_bind; [apply ref_refl|intros ?]). cbv zeta. apply ref_bind; [apply ref_refl|intros l]. apply ref_bind; [apply ref_refl|intros new].
  apply ref_bind; [|intros b; apply ref_refl]. unfold ts_best_total. destruct new as [|a new]; [|apply ref_refl].
  intros s r Hr. unfold ts_best, bindM, lift in Hr. destruct (best_of_none (A := unit) (e_argsort E) (p_mm P)) as [e Ee]. rewrite Ee in Hr. discriminate.
Qed.
Variables (feas : vec -> Prop) (cov : Prop) (nd n0 n tabu nb : nat).
Hypothesis HP : params E P feas (@anyatt unit) cov.
Hypothesis Hn : 0 < n.
Hypothesis Ht : 2 <= tabu.
Hypothesis Hnb : 1 <= nb.
Definition ts_size (m : nat) : Prop := m = n \/ 1 <= m <= tabu.
Lemma ts_contract : evolve_contract P feas (@anyatt unit) ts_size (fun _ _ => True) cov nd n0 1 nb (ts_evolve E P md ts_best_total tabu nb).
Proof.
  intros ep s Hep HI. set (m := List.length (s_pop s)). assert (Hm : ts_size m) by apply (i_len _ _ _ _ _ _ _ _ _ HI).
  assert (HR : R P feas anyatt ts_size (fun _ _ => True) cov nd n0 m s [] (List.length (s_log s)) s). { split; [apply Ev_init; exact HI|]. split; reflexivity. }
  unfold ts_evolve. apply wp_bind, wp_get_x. apply wp_bind, wp_get_pop. cbv zeta. set (p := if ep =? 1 then [] else s_pop s).
  assert (Ip : incl p (s_pop s)) by (unfold p; destruct (ep =? 1); [intros ? []|apply incl_refl]).
  assert (Lp : List.length p = 0 \/ List.length p = m) by (unfold p; destruct (ep =? 1); cbn; auto). clearbody p.
  apply wp_bind. eapply wp_mono.
  { eapply q_collect_many with (lo := 0) (hi := 1) (Φ := fresh_agent feas (@anyatt unit)); [|exact HR]. intros i Hi. unfold ts_neighbour.
    eapply q_bind; [quiet HP|]. intros z _. eapply q_bind; [qcorrect HP|]. intros y Hy. cbv beta in Hy. eapply q_bind; [quiet HP|]. intros c _. destruct (c || _)%bool.
    - apply q_ret. cbn. split; [lia|constructor].
    - eapply q_bind; [eapply gea_quiet; [apply plain_gea_ok, HP|exact Hy]|]. intros a Ha. apply q_ret. cbn. split; [lia|]. constructor; [exact Ha|constructor]. }
  intros l s1 [[Ll Fl] N1]. pose proof (near_pop _ _ _ N1) as P1.
  apply wp_bind. eapply wp_evaluate_all; [exact HP|eapply R_near; [exact HR|exact N1]|exact Fl|]. intros new s2 Ln R2 P2. pose proof (R_held_good _ _ _ _ _ _ _ _ _ _ _ _ _ _ R2) as Gn. cbn [app] in R2.
  apply wp_bind.
  assert (HB : wp (ts_best_total new) (fun b s3 => exists W k, 1 <= k <= nb /\ R P feas anyatt ts_size (fun _ _ => True) cov nd n0 m s W (List.length (s_log s) + k) s3 /\ s_pop s3 = s_pop s /\
      good P feas (@anyatt unit) (s_log s3) b /\ (cov -> forall a, In a W -> no_worse (p_mm P) (fit b) (fit a))) s2).
  { unfold ts_best_total. destruct new as [|a0 new].
    - cbn in Ln. assert (E0 : List.length l = 0) by lia. rewrite E0, Nat.add_0_r in R2. unfold random_agent. apply wp_bind.
      eapply wp_mono; [eapply gea_quiet_none; [apply plain_gea_ok, HP|exact R2]|]. intros a s3 [Fa N3].
      eapply wp_evaluate; [exact HP|eapply R_near; [exact R2|exact N3]|exact Fa|]. intros a' s4 Ga R4 P4 _ _ _. cbn [app] in R4.
      exists [a'], 1. split; [lia|]. split; [exact R4|]. split; [rewrite P4, (near_pop _ _ _ N3), P2, P1; reflexivity|]. split; [exact Ga|].
      intros C b [<-|[]]. apply no_worse_refl; [apply HP|]. eapply good_num; [apply HP; exact C|exact Ga].
    - set (nw := a0 :: new) in *. 
      destruct (best_agent_ok E P feas (@anyatt unit) cov HP _ nw Gn ltac:(discriminate)) as (b & i & Eb & _ & Gb & _ & Cb).
      unfold ts_best. apply wp_bind. eapply wp_lift; [exact Eb|]. cbv beta iota. apply wp_ret. exists nw, (List.length l). unfold nw in Ln. cbn [List.length] in Ln.
      split; [lia|]. split; [exact R2|]. split; [rewrite P2, P1; reflexivity|]. split; [exact Gb|]. exact Cb. }
  eapply wp_mono; [exact HB|]. intros b s3 (W & k & Hk & (V3 & Hn3 & Hl3) & P3 & Gb & Cb).
  apply wp_bind. unfold set_x. unfold wp at 1. unfold set_pop, wp. fold (with_x s3 (sol b)).
  set (pop := p ++ [b]).
  assert (Lq : ts_size (List.length (if tabu <? List.length pop then tl pop else pop)) /\ In b (if tabu <? List.length pop then tl pop else pop) /\ incl (if tabu <? List.length pop then tl pop else pop) pop).
  { unfold pop. assert (L1 : List.length (p ++ [b]) = S (List.length p)) by (rewrite app_length; cbn; lia). rewrite L1. unfold ts_size in *. destruct (Nat.ltb_spec tabu (S (List.length p))) as [Hlt|Hge].
    - destruct p as [|a p]; [cbn in Hlt; lia|]. cbn [app tl List.length] in *. rewrite app_length. cbn [List.length].
      split; [lia|]. split; [apply in_or_app; right; left; reflexivity|]. intros x Hx. right. exact Hx.
    - split; [lia|]. split; [apply in_or_app; right; left; reflexivity|apply incl_refl]. }
  destruct Lq as (Lq & Ib & Iq). set (q := if tabu <? List.length pop then tl pop else pop) in *. clearbody q.
  split; [|split; [exact Lq|cbn; lia]].
  assert (V4 : Ev P feas anyatt ts_size (fun _ _ => True) cov nd n0 s W (with_x s3 (sol b))) by (apply Ev_x; [exact V3|exists []; split; [intros ? []|exact I]]).
  eapply Ev_set; [exact V4| |intros a []|].
  - intros a Ha. apply Iq in Ha. unfold pop in Ha. apply in_app_or in Ha. destruct Ha as [Ha|[<-|[]]]; [|exact Gb]. apply Ip in Ha. rewrite <- P3 in Ha. exact (Ev_pop_good _ _ _ _ _ _ _ _ _ _ _ _ V3 Ha).
  - intros C g a Hg Ha. apply in_app_or in Ha. destruct Ha as [Ha|Ha].
    + left. assert (Ga : good P feas (@anyatt unit) (s_log s3) a) by (exact (Ev_pop_good _ _ _ _ _ _ _ _ _ _ _ _ V3 Ha)). eapply Ev_old; [exact V3|exact C|exact Hg|exact Ga|].
      assert (Ha' : In a (s_pop s)) by (rewrite <- P3; exact Ha). pose proof (i_good _ _ _ _ _ _ _ _ _ HI) as G. rewrite Forall_forall in G. apply (g_log _ _ _ _ _ (G a Ha')).
    + right. exists b. split; [apply in_or_app; left; exact Ib|apply (Cb C a Ha)].
Qed.
End TS.

(** OriginalTS (TS.py:12-116), whenever it returns: it raises when no neighbour is allowed (TS.py:109).  An epoch evaluates at most the neighbours,
    and the population holds at most the last [tabu] moves. *)
Theorem C64_OriginalTS_returning E P md tabu nb n epochs : 2 <= n -> 2 <= tabu -> 2 <= nb -> 0 < epochs ->
  sound_when E P md (original_ts E P md tabu nb n epochs) (fun _ => True) (fun _ => True) (fun _ => True) (fun m => m = n \/ 1 <= m <= tabu) true n n 1 nb.
Proof.
  intros Hn Ht Hb He. eapply (returns_of _ _ _ _ (ts_evolve E P md (ts_best_total E P) tabu nb)).
  - intros ep. apply ref_ts.
  - set (g := generate_empty_agent (A := unit) (X := vec) P tt).
    set (al := agent_algo E md g (ga_of P g) n epochs false (ret tt) ts_main (ts_evolve E P md (ts_best_total E P) tabu nb)).
    change (with_evolve _ _) with al.
    assert (T : sound_run_gen E P md al (fun _ => True) (fun _ => True) (fun _ => True) (ts_size n tabu) true (n + 0) (n + 0) 1 nb).
    2:{ rewrite !Nat.add_0_r in T. exact T. }
    apply (sound_gen E P md al (fun _ => True) (fun _ => True) (fun _ => True) (fun _ => @anyatt unit) (fun _ _ _ => True) (fun _ _ _ => True) (ts_size n tabu) true n n 0 0 1 nb); auto.
    + intros m [->|[]]; lia.
    + intros feas starting HP _ Hs _. apply agents_init; auto.
      * intros _ _. apply plain_gea_ok, HP.
      * apply ga_of_ok, plain_gea_ok, HP.
      * intros m [->|[]]; lia.
      * left. reflexivity.
      * apply vars_none; auto.
    + intros feas nd HP _. apply quiet_before_main. intros s n0 HI. unfold al, agent_algo, ts_main. cbn [al_before_main]. apply wp_bind.
      assert (HR : R P feas anyatt (ts_size n tabu) (fun _ _ => True) (true = true /\ obj_num P feas) nd n0 (List.length (s_pop s)) s [] (List.length (s_log s)) s).
      { split; [apply Ev_init; exact HI|]. split; reflexivity. }
      eapply wp_mono; [apply (q_gb_sol _ _ _ _ _ _ _ _ _ _ [] _ s HR)|]. intros x s1 [Hx (k & x1 & -> & Hx1)]. unfold wp, set_x.
      exists k, x. split; [reflexivity|]. exists []. split; [intros ? []|exact I].
    + intros feas nd n0 HP _. apply ts_contract; [exact HP|lia|lia|lia].
Qed.

(** ** OriginalPSS *)
Section PSS.
Variables (E : env) (P : problem) (md : MCore.mode) (feas : vec -> Prop) (cov : Prop) (nd n0 n : nat).
Hypothesis HP : params E P feas (@anyatt unit) cov.
Hypothesis Hn : 0 < n.
Notation gea := (generate_empty_agent (A := unit) (X := bool) P tt).
Lemma pss_init_ok (s : st unit bool) : fresh s ->
  wp (pss_init E P LHS n) (fun _ s' => Start P feas (@anyatt unit) (eq n) (fun _ _ => True) cov 0 (s_nfe s) s' /\ List.length (s_log s') = n) s.
Proof.
  intros (F1 & F5 & F3 & F4 & F2). unfold pss_init. apply wp_bind. unfold pss_sample.
  eapply wp_mono; [eapply (dr_for_acc n 0 [] _ (fun _ _ => True)); [exact I|]; intros i acc _ _; eapply dr_bind; [apply dr_rform|]; intros y _; apply dr_ret; exact I|].
  intros rows s1 [[k ->] _]. apply wp_bind.
  eapply wp_mono; [apply (repeat_M_ok P feas (@anyatt unit)); [apply HP|]|].
  - intros s2. apply wp_bind. eapply wp_mono; [apply dr_rform|]. intros z s3 [[k3 ->] _]. unfold gen_agent, propose. apply wp_bind, wp_bind.
    eapply wp_mono; [eapply dr_correct; exact HP|]. intros y s4 [[k4 ->] Hy]. eapply wp_mono; [eapply (plain_gea_ok P _ _ (pr_prob _ _ _ _ _ HP) _ (Some y)); exact Hy|].
    intros a s5 ((k5 & ->) & Ea & _). unfold evaluate. apply wp_bind, wp_get_target, wp_ret. cbn [sol tgt att with_tgt].
    split; [eexists; cbn; reflexivity|]. split; [reflexivity|]. split; [rewrite Ea; exact Hy|exact I].
  - intros l s2 (Ll & (k2 & ->) & Gl). unfold set_pop, wp. cbn [s_log bump] in Gl. rewrite F5 in Gl. cbn [app] in Gl.
    split; [|cbn; rewrite F5; cbn; rewrite map_length; exact Ll].
    constructor; cbn; rewrite ?F5; cbn [app]; auto.
    + rewrite Forall_map. eapply Forall_impl; [|exact Gl]. intros a Ga. apply Ga.
    + intros C x Hx. apply in_map_iff in Hx. destruct Hx as (a & <- & Ha). rewrite Forall_forall in Gl. exists a. split; [exact Ha|].
      rewrite (good_fit _ _ _ _ _ (Gl a Ha)). apply no_worse_refl; [apply HP|]. apply (pr_cov _ _ _ _ _ HP C). apply (Gl a Ha).
    + exists []. split; [intros ? []|exact I].
Qed.
Variable s0 : st unit bool.
Lemma b_pss ep : blk0 P feas (@anyatt unit) (eq n) (fun _ _ => True) cov nd n0 n s0 n n (pss_evolve E P md LHS n ep) (fun _ => True).
Proof.
  unfold pss_evolve, pss_sample.
  eapply b0_qbind; [eapply q_collect with (Φ := fun _ => True); intros i Hi; quiet HP|]. intros rows [Lr _].
  eapply b0_qbind; [apply q_get_x|]. intros flag _. eapply b0_qbind; [apply q_gb_sol|]. intros g _.
  intros W l s HR HO. apply wp_bind. eapply wp_new_agents; [exact HP|qcorrect HP|qgea|exact HR| |].
  { intros i Hi. eapply q_bind; [apply q_pop_sol; exact Hi|]. intros xi _. eapply q_bind; [apply q_getitem; lia|]. intros r _. quiet HP. }
  intros new s1 Ln Gn R1 P1. apply wp_bind. unfold set_pop. unfold wp at 1. fold (with_pop s1 new).
  assert (R2 : R P feas anyatt (eq n) (fun _ _ => True) cov nd n0 n s0 W (l + n) (with_pop s1 new)).
  { eapply R_replace; [exact HP|exact R1| |exact Ln]. unfold Old. rewrite P1. exact HO. }
  destruct (best_agent_ok E P feas (@anyatt unit) cov HP _ new Gn ltac:(intros ->; cbn in Ln; lia)) as (b & i & Eb & _ & Gb & _).
  apply wp_bind. eapply wp_lift; [exact Eb|]. cbv beta iota. apply wp_bind.
  eapply wp_mono; [apply (q_get_gb _ _ _ _ _ _ _ _ _ _ _ _ _ R2)|]. intros o s3 [Ho N3]. cbv beta in Ho.
  assert (R3 : R P feas anyatt (eq n) (fun _ _ => True) cov nd n0 n s0 W (l + n) s3) by (eapply R_near; [exact R2|exact N3]).
  destruct (compare_agents b o (p_mm P)) as [c|e] eqn:Ec.
  2:{ exfalso. unfold compare_agents in Ec. rewrite (g_tgt _ _ _ _ _ Gb) in Ec. destruct Ho as [Ho _]. destruct Ho as (t & Et & _). rewrite Et in Ec. discriminate. }
  apply wp_bind. eapply wp_lift; [reflexivity|]. unfold wp, set_x. fold (with_x s3 c). split; [exact I|]. exists n. split; [lia|].
  destruct R3 as (V3 & Hn3 & Hl3). split; [|split; [exact Hn3|exact Hl3]]. apply Ev_x; [exact V3|]. exists []. split; [intros ? []|exact I].
Qed.
End PSS.

(** OriginalPSS (PSS.py:13-137) with the Latin hypercube.  Starting solutions are evaluated and dropped (PSS.py:90), so there are none here. *)
Theorem C64_OriginalPSS E P md n epochs : 5 <= n -> 0 < epochs -> md <> Process ->
  sound_run_gen E P md (original_pss E P md LHS n epochs) (fun _ => True) (fun _ => True) (fun st => st = None) (eq n) true n n n n.
Proof.
  intros Hn He Hmd.
  assert (T : sound_run_gen E P md (original_pss E P md LHS n epochs) (fun _ => True) (fun _ => True) (fun st => st = None) (eq n) true (n + 0) (n + 0) n n).
  2:{ rewrite !Nat.add_0_r in T. exact T. }
  apply (sound_gen E P md (original_pss E P md LHS n epochs) (fun _ => True) (fun _ => True) (fun st => st = None) (fun _ => @anyatt unit) (fun _ _ _ => True) (fun _ _ _ => True) (eq n) true n n 0 0 n n); auto.
  - intros m <-. lia.
  - intros feas starting HP _ _ ->. intros s Hf _. unfold original_pss. cbn [al_init_vars al_init al_pop_size]. apply wp_bind. unfold set_x, wp at 1. apply wp_bind. cbn [before_initialization]. apply wp_ret.
    assert (Em : missed md n None = 0) by (unfold missed, lost; destruct md; congruence). rewrite Em.
    eapply wp_mono; [eapply (pss_init_ok E P feas _ n HP); exact Hf|]. intros [] s' [S1 L1]. split; [exact S1|lia].
  - intros feas nd HP _. apply skip_before_main; auto.
  - intros feas nd n0 HP _. eapply contract_of; [exact HP|]. intros ep s0 Hep _. apply b_pss; [exact HP|lia].
Qed.

(** ** QleSCA *)
Definition any_plan : nat * nat * ((f64 * f64) * (f64 * f64)) := (0, 0, ((fnan, fnan), (fnan, fnan))).
Lemma ref_merge {A X} P idx y (b b' : target -> agent A -> bool -> M A X A) : (forall t o c, refines (b t o c) (b' t o c)) ->
  refines (merge P idx y b) (merge P idx y b').
Proof. intros H. unfold merge. apply ref_bind; [apply ref_refl|intros t]. apply ref_bind; [apply ref_refl|intros o]. apply ref_bind; [apply ref_refl|intros c]. apply ref_bind; [apply H|intros x]. apply ref_refl. Qed.
Section QleSCA.
Variables (E : env) (P : problem) (feas : vec -> Prop) (cov : Prop) (nd n0 n : nat).
Hypothesis HP : params E P feas (@anyatt qtable) cov.
Variable s0 : st qtable unit.
Notation qp := (qp P feas (@anyatt qtable) (eq n) (fun _ _ => True) cov nd n0 n s0).
Lemma qp_choice1 {T} (l : list T) : qp (choice1 E l) (fun _ => True).
Proof.
  destruct l as [|d l]; [apply qp_raise|]. apply qp_qt. eapply q_mono; [apply q_choice1; discriminate|]. auto.
Qed.
Lemma qp_q_plan idx : qp (q_plan E P idx) (fun _ => True).
Proof.
  unfold q_plan. eapply qp_qbind; [apply q_all_sols|]. intros xs _. eapply qp_qbind with (Φ := fun _ => True).
  { unfold q_density. destruct xs as [|x xs]; [apply q_rnum|]. destruct (forallb _ xs); [apply q_ret; exact I|apply q_rnum]. }
  intros den _. eapply qp_qbind; [apply q_gb_sol|]. intros g _. eapply qp_qbind; [apply q_rnum|]. intros dis _.
  eapply qp_bind; [apply qp_pop_at|]. intros a _. eapply qp_bind; [apply qp_lift with (Φ := fun _ => True); auto|]. intros state _.
  eapply qp_bind with (Φ := fun _ => True).
  { unfold q_action. eapply qp_bind; [apply qp_getitem|]. intros acts _. apply qp_choice1. }
  intros action _. eapply qp_bind; [apply qp_lift with (Φ := fun _ => True); auto|]. intros r1 _.
  eapply qp_bind; [apply qp_lift with (Φ := fun _ => True); auto|]. intros r3 _. apply qp_qt, q_ret. exact I.
Qed.
End QleSCA.
(** QleSCA (SCA.py:223-342): it returns unless the density or the distance of some agent exceeds 1, which ends the run with StopIteration. *)
Theorem C64_QleSCA_returning E P alpha gama n epochs : 5 <= n -> 0 < epochs ->
  sound_when E P Single (qle_sca E P alpha gama n epochs) (fun _ => True) (fun _ => True) (fun _ => True) (eq n) true n n n n.
Proof.
  intros Hn He. pose (plan := fun i => orelse (q_plan E P i) (ret any_plan)).
  pose (learn := fun r t s a => orelse (q_learn alpha gama r t s a) (ret t)).
  eapply (returns_of _ _ _ _ (q_evolve E P plan learn n)).
  - intros ep. cbn [al_evolve qle_sca agent_algo]. unfold q_evolve. apply ref_for; intros i.
    apply ref_bind; [apply ref_orelse|]. intros [[state action] [r1 r3]].
    do 4 (apply ref_bind; [apply ref_refl|intros ?]). apply ref_merge. intros t o c. apply ref_orelse.
  - change (with_evolve _ _) with (agent_algo E Single (q_gea P) (ga_of P (q_gea P)) n epochs false (ret tt) (ret tt) (q_evolve E P plan learn n)).
    att_elite (fun _ : unit => True). unfold q_evolve.
    apply b0_blk; eapply b_mono with (a := n * 1) (b := n * 1) (Φ := fun _ => True); [|lia|lia|auto]. apply b_for; intros i Hi.
    eapply b_qbind; [apply q_orelse with (Φ := fun _ => True); [apply qp_q_plan; exact HP|apply q_ret; exact I]|]. intros [[state action] [r1 r3]] _.
    eapply b_qbind; [apply q_pop_sol; exact Hi|]. intros xi _. eapply b_qbind; [apply q_gb_sol|]. intros g _.
    eapply b_qbind; [apply q_rform|]. intros z _. eapply b_qbind; [unfold q_correct; qcorrect HP|]. intros y Hy.
    eapply b_merge; [exact HP|exact Hi|exact Hy|]. intros L old c _ _. apply q_orelse; [unfold q_learn; apply qp_lift; intros; exact I|apply q_ret; exact I].
Qed.

Print Assumptions C65_OriginalWCA_returning.
Print Assumptions C64_OriginalTS_returning.
Print Assumptions C64_OriginalPSS.
Print Assumptions C64_QleSCA_returning.
