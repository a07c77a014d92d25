(** What the algorithm classes modelled in MClass24 guarantee. *)
From Coq Require Import Permutation.
From Verif Require Import Prelude Fl MCore MHelp MAlg MAlg2 MAlg3 MAlg4 MAlg5 MAlg6 MAlg7 MAlg8 SpecCore SpecRun SpecAlg SpecWhen Demo
  FlRound FlPart FlShare FlOcc PSelect PLogic PSolve PRun PAlg PFree PClass PAlg2 PAlg3 PAlg4 PAlg5 PAlg6 PAlg7 PAlg8 PAlg9 PRef PElse PAlg10 PAlg11 PAlg13 PAlg14 AMath AClass9 AClass14 AClass17 AClass18 AClass19
  MClass20 MClass24 FlSpark.

(** ** OriginalLSHADEcnEpSin: the population shrinks, its best agent stays. *)
Theorem C64_OriginalLSHADEcnEpSin E P md pmin n epochs : 4 <= pmin -> pmin <= n -> 2 <= n_dims P -> 0 < epochs ->
  sound_run_len E P md (original_lshade E P md pmin n epochs) (fun _ => True) (fun m => pmin <= m <= n) true pmin n.
Proof.
  intros Hp Hn _ He. apply (sound_len_of E P md tt n epochs false (ret tt) (lshade_evolve E P pmin n epochs) (fun m => pmin <= m <= n) (fun _ => True) (fun _ => True)); auto; try lia.
  - intros s Hs. apply wp_ret. exists (s_x s), (s_ctr s). split; [destruct s; reflexivity|auto].
  - intros feas nd n0 HP ep s Hep HI. unfold lshade_evolve.
    set (m := List.length (s_pop s)). assert (Hm : pmin <= m <= n) by apply (i_len _ _ _ _ _ _ _ _ _ HI).
    assert (HR : R P feas anyatt (fun m => pmin <= m <= n) (fun _ _ => True) (true = true /\ obj_num P feas) nd n0 m s [] (List.length (s_log s)) s).
    { split; [apply Ev_init; exact HI|]. split; reflexivity. }
    apply wp_bind, wp_get_pop. fold m. apply wp_bind.
    assert (BL : blk P feas anyatt (fun m => pmin <= m <= n) (fun _ _ => True) (true = true /\ obj_num P feas) nd n0 m s (m * 1) (m * 1)
      (for_ m (fun idx => xs <- all_sols ;; z <- rform E P "LSHADEcnEpSin:284-317" ([fnat ep; fnat idx] :: xs) ;;
         try_improve P (correct_solution P) (generate_empty_agent P tt) idx z)) (fun _ => True)).
    { eapply b_for. intros i Hi. eapply b_qbind; [quiet HP|]. intros xs _. eapply b_qbind; [quiet HP|]. intros z _.
      eapply b_try_improve; [exact HP|qcorrect HP|qgea|exact Hi]. }
    eapply wp_mono; [apply (BL [] _ s HR)|]. intros [] s1 (_ & k1 & Hk1 & R1).
    unfold lshade_reduce. apply wp_bind, wp_get_pop.
    pose proof R1 as (V1 & L1 & C1). assert (Ek : k1 = m) by lia. subst k1.
    set (k := lshade_size pmin n epochs ep). assert (Hk : pmin <= k) by (unfold k, lshade_size; lia). clearbody k.
    unfold when. destruct (Nat.ltb_spec k m) as [Hlt|Hge].
    + pose proof (R_pop_all _ _ _ _ _ _ _ _ _ _ _ _ _ R1) as Gp.
      destruct (good_best E P feas anyatt _ HP _ _ Gp) as (sp & ix & Es & Hperm & HB).
      apply wp_bind. eapply wp_lift; [exact Es|]. cbv beta iota.
      assert (Lsp : List.length sp = m) by (rewrite (Permutation_length Hperm); exact L1).
      apply wp_bind. eapply wp_choice_noreplace; [rewrite firstn_length; lia|]. intros r rest c Lr Hr.
      assert (Er : rest = []).
      { apply Permutation_length in Hr. rewrite app_length, firstn_length in Hr. destruct rest; [reflexivity|cbn in Hr; lia]. }
      subst rest. rewrite app_nil_r in Hr.
      assert (Ir : forall a, In a r -> In a (s_pop s1)).
      { intros a Ha. eapply Permutation_in; [exact Hperm|]. rewrite <- (firstn_skipn k sp). apply in_or_app; left. eapply Permutation_in; eauto. }
      unfold set_pop, wp. fold (with_pop (bump s1 c) r).
      assert (V2 : R P feas anyatt (fun m => pmin <= m <= n) (fun _ _ => True) (true = true /\ obj_num P feas) nd n0 m s [] (List.length (s_log s) + m) (bump s1 c))
        by (exact (R_near _ _ _ _ _ _ _ _ _ _ _ _ _ _ R1 (near_bump _ _ _ _ _ _ _ _ _ _ _ c _ _ R1))).
      destruct V2 as (V2 & _ & _). rewrite Forall_forall in Gp.
      split; [|split; [cbn; lia|cbn; lia]].
      eapply Ev_set; [exact V2|intros a Ha; apply Gp, Ir, Ha|intros a []|].
      intros C g a Hg Ha. right. rewrite !in_app_iff in Ha. cbn in Ha.
      assert (Ha' : In a (s_pop s1)) by tauto.
      destruct sp as [|b sp']; [cbn in Lsp; lia|]. exists b. split.
      * apply in_or_app; left. eapply Permutation_in; [apply Permutation_sym, Hr|]. destruct k; [lia|]. left. reflexivity.
      * apply (HB C b a eq_refl Ha').
    + apply wp_ret. split; [exact V1|]. split; [lia|lia].
Qed.

(** ** ChameleonSA *)
Theorem C64_OriginalChameleonSA E P md n epochs : 5 <= n -> 0 < epochs ->
  sound_run E P md (original_chameleon E P md n epochs) (fun _ => True) true n n.
Proof. plain. counts HP. Qed.
Lemma dr_correct {A X} E P feas (attok : list vec -> A -> Prop) cov (HP : params E P feas attok cov) x : dr (A := A) (X := X) (correct_solution P x) feas.
Proof. intros s. eapply wp_correct_solution with (feas := feas); [apply HP|]. intros y k Hy. split; [exists k; reflexivity|exact Hy]. Qed.
Section IChameleon.
Variables (E : env) (P : problem) (md : MCore.mode) (feas : vec -> Prop) (C : Prop) (nd n0 n : nat) (s0 : st unit unit).
Hypothesis HP : params E P feas (@anyatt unit) (false = true /\ C).
Notation gt := (gt P feas (@anyatt unit) (eq n) (fun _ _ => True) (false = true /\ C) nd n0 n s0).
Lemma g_ichameleon w ep : gt w (n + n * 2) (n + n * 2) (ichameleon_evolve E P md n ep) (fun _ _ => True).
Proof.
  unfold ichameleon_evolve. eapply g_bind; [eapply g_new_agents; [exact HP|noc|qcorrect HP|qgea|intros; gquiet HP]|]. intros l w1 Hw1 _.
  eapply g_for. intros i w2 Hw2 Hi. eapply g_qbind; [gquiet HP|]. intros xs _. eapply g_qbind; [gquiet HP|]. intros g _.
  eapply g_qbind; [gquiet HP|]. intros z _. eapply g_qbind; [gquiet HP|]. intros z' _.
  eapply g_qbind; [eapply gq_qt; [exact HP|noc|qcorrect HP]|]. intros y Hy. eapply g_qbind; [eapply gq_qt; [exact HP|noc|qcorrect HP]|]. intros y' Hy'.
  eapply g_mono with (a := 1 + (1 + 0)) (b := 1 + (1 + 0)) (Φ := fun _ _ => True); [|lia|lia|auto].
  eapply g_bind; [eapply g_gen_at; [exact HP|noc|qgea|exact Hy]|]. intros a w3 Hw3 Ga.
  eapply g_bind; [eapply g_gen_at; [exact HP|noc|qgea|exact Hy']|]. intros b w4 Hw4 Gb.
  assert (Ga4 : ok P feas anyatt w4 a) by (eapply good_mono; [apply HP|exact Hw4|exact Ga]).
  eapply g_qbind; [eapply gq_compare; [exact HP|noc|exact Gb|exact Ga4]|]. intros c _.
  apply g_quiet. eapply gq_pop_set; [exact HP|noc|exact Hi|]. destruct c; assumption.
Qed.
End IChameleon.
(** Without starting solutions, and not in process mode (where the default initialization, unlike this one, misses evaluations in nfe_counter). *)
Theorem C65_IChameleonSA E P md n epochs : 5 <= n -> 0 < epochs -> md <> Process ->
  sound_run_gen E P md (ichameleon E P md n epochs) (fun _ => True) (fun _ => True) (fun start => start = None) (eq n) false n n (3 * n) (3 * n).
Proof.
  intros Hn He Hmd. assert (T : sound_run_gen E P md (ichameleon E P md n epochs) (fun _ => True) (fun _ => True) (fun start => start = None) (eq n) false (n + 0) (n + 0) (3 * n) (3 * n)).
  2:{ rewrite !Nat.add_0_r in T. exact T. }
  apply (sound_gen E P md _ (fun _ => True) (fun _ => True) (fun start => start = None) (fun _ => @anyatt unit) (fun _ _ _ => True) (fun _ _ _ => True) (eq n) false n n 0 0 (3 * n) (3 * n)); auto.
  - intros m <-. lia.
  - intros feas starting HP _ Hst -> s Hf _. cbn [al_init_vars al_init al_pop_size ichameleon] in *. apply wp_bind, wp_ret, wp_bind, wp_ret.
    unfold ichameleon_init. apply wp_bind, wp_get_pop. pose proof (proj1 Hf) as F1. rewrite F1. apply wp_bind.
    pose proof (start_fresh P feas (@anyatt unit) (fun _ _ => True) (false = true /\ obj_num P feas) s Hf I) as S0.
    assert (F2 : s_log s = []) by (destruct Hf as (_ & F & _); exact F).
    assert (NC : ~ (false = true /\ obj_num P feas)) by (intros [? _]; discriminate).
    eapply wp_mono.
    { eapply (sp_new_agents E P md feas (@anyatt unit) (fun _ => True) (fun _ _ => True) (false = true /\ obj_num P feas) 0 (s_nfe s) HP NC (correct_solution P) (generate_empty_agent P tt));
        [intros x; eapply dr_correct; exact HP|apply plain_gea_ok, HP|intros i w' _ _; eapply sp_mono; [apply sp_dr, dr_rform|lia|lia|auto]|exact S0|apply incl_refl]. }
    intros l s1 (S1 & _ & L1 & L2 & G2). unfold set_pop, wp. fold (with_pop s1 l).
    replace (missed md n None) with 0 by (unfold missed, lost; destruct md; congruence).
    rewrite F2 in L1. cbn in L1. split; [|cbn; lia]. eapply start_set; [exact NC|exact S1|auto|exact G2].
  - intros feas nd HP _. apply skip_before_main; auto.
  - intros feas nd n0 HP _. apply contract_free. intros ep s0 w Hep _. eapply g_mono; [apply g_ichameleon; exact HP|lia|lia|auto].
Qed.

(** ** OriginalHCO: the initialization may search for ever. *)
Section HCO.
Variables (E : env) (P : problem) (md : MCore.mode).
Notation gea := (generate_empty_agent (A := unit) (X := unit) P tt).
(** The same initialization, the last random agent being taken when the search is given up. *)
Fixpoint hco_seek_total (fuel : nat) (pfit : f64) : M unit unit (agent unit) :=
  match fuel with
  | O => random_agent P gea
  | S fuel' =>
    a <- random_agent P gea ;;
    f <- lift (fitness a) ;;
    if compare_fitness f pfit (p_mm P) then ret a else hco_seek_total fuel' pfit
  end.
Definition hco_start_total (fuel : nat) (wfp : f64) (n : nat) : M unit unit unit :=
  greedy_each P md (correct_solution P) gea n true (fun idx => xi <- pop_sol idx ;; rform E P "HCO:99" [xi; p_lb P; p_ub P]) ;;;
  p <- get_pop ;;
  '(_, best, worst) <- special E P p 1 1 ;;
  b <- lift (getitem best 0) ;;
  w <- lift (getitem worst 0) ;;
  fb <- lift (fitness b) ;;
  fw <- lift (fitness w) ;;
  let pfit := fadd (fmul (fsub fw fb) wfp) fb in
  for_ n (fun idx =>
    f <- pop_fit idx ;;
    when (compare_fitness pfit f (p_mm P)) (a <- hco_seek_total fuel pfit ;; pop_set idx a)).
Lemma ref_hco_seek fuel pfit : refines (hco_seek P fuel pfit) (hco_seek_total fuel pfit).
Proof.
  induction fuel as [|fuel IH]; cbn [hco_seek hco_seek_total]; [apply ref_raise|]. apply ref_bind; [apply ref_refl|]. intros a. apply ref_bind; [apply ref_refl|]. intros f.
  apply ref_if; [apply ref_refl|exact IH].
Qed.
Lemma ref_hco_start fuel wfp n : refines (hco_start E P md fuel wfp n) (hco_start_total fuel wfp n).
Proof.
  unfold hco_start, hco_start_total. do 2 (apply ref_bind; [apply ref_refl|intros ?]). apply ref_bind; [apply ref_refl|intros [[sp best] worst]].
  do 4 (apply ref_bind; [apply ref_refl|intros ?]). cbv zeta. unfold for_. apply ref_for_acc. intros i []. apply ref_bind; [apply ref_refl|intros f].
  apply ref_when. apply ref_bind; [apply ref_hco_seek|]. intros a. apply ref_refl.
Qed.
Variables (feas : vec -> Prop) (cov : Prop) (nd n0 n : nat).
Hypothesis HP : params E P feas (@anyatt unit) cov.
Hypothesis Hno : ~ cov.
Hypothesis Hn : 0 < n.
Notation sp := (sp (X := unit) P feas (@anyatt unit) (eq n) (fun _ _ => True) cov nd n0).
Lemma sp_hco_seek fuel pfit : forall w, sp w 1 (S fuel) (hco_seek_total fuel pfit) (good P feas (@anyatt unit)).
Proof.
  induction fuel as [|fuel IH]; intros w; cbn [hco_seek_total].
  - eapply sp_random_agent; [exact HP|exact Hno|apply plain_gea_ok, HP].
  - change 1 with (1 + 0) at 1. change (S (S fuel)) with (1 + S fuel). eapply sp_bind; [eapply sp_random_agent; [exact HP|exact Hno|apply plain_gea_ok, HP]|]. intros a w1 Hw1 Ga.
    eapply sp_qbind; [apply sp_fitness; exact Ga|]. intros f w2 Hw2 _. destruct (compare_fitness _ _ _).
    + eapply sp_mono with (a := 0) (b := 0) (Φ := good P feas (@anyatt unit)); [|lia|lia|auto]. apply sp_ret. intros w3 Hw3.
      eapply good_mono; [apply HP| |exact Ga]. exact (incl_tran Hw2 Hw3).
    + eapply sp_mono; [apply IH|lia|lia|auto].
Qed.
Lemma sp_hco_start fuel wfp w : sp w (n + n * 0) (n + n * S fuel) (hco_start_total fuel wfp n) (fun _ _ => True).
Proof.
  unfold hco_start_total. assert (HI : forall i, i < n -> forall m, n = m -> i < m) by (intros; lia). eapply sp_bind.
  - eapply sp_greedy_each; [exact HP|exact Hno|intros x; eapply dr_correct; exact HP|apply plain_gea_ok, HP|].
    intros i w' Hi _. eapply sp_qbind; [apply sp_pop_sol, HI, Hi|]. intros x w1 _ _. eapply sp_mono; [apply sp_dr, dr_rform|lia|lia|auto].
  - intros [] w1 Hw1 _. eapply sp_qbind; [apply sp_get_pop|]. intros p w2 Hw2 [Lp Gp].
    eapply sp_qbind with (Φ := fun w' r => Forall (good P feas (@anyatt unit) w') (snd (fst r)) /\ Forall (good P feas (@anyatt unit) w') (snd r) /\ List.length (snd (fst r)) = 1 /\ List.length (snd r) = 1).
    { intros s S0 Hi. assert (G0 : Forall (good P feas (@anyatt unit) (s_log s)) p) by (eapply goods_mono; eassumption).
      eapply wp_special_perm; [exact HP|exact G0|]. intros spop b ws _ _ Lb Gb Lw Gw.
      split; [exact S0|]. split; [apply incl_refl|]. split; [lia|]. cbn [fst snd]. rewrite Lb, Lw, <- Lp. split; [exact Gb|]. split; [exact Gw|]. split; apply Nat.min_l; exact Hn. }
    intros [[spop bs] ws] w3 Hw3 (Gb & Gw & Lb & Lw). cbn [fst snd] in *.
    destruct bs as [|b [|? ?]]; try discriminate. destruct ws as [|wo [|? ?]]; try discriminate.
    eapply sp_qbind with (Φ := fun _ a => a = b); [eapply sp_lift; [reflexivity|auto]|]. intros b' w4 Hw4 ->.
    eapply sp_qbind with (Φ := fun _ a => a = wo); [eapply sp_lift; [reflexivity|auto]|]. intros wo' w5 Hw5 ->.
    apply Forall_inv in Gb. apply Forall_inv in Gw.
    eapply sp_qbind; [apply sp_fitness; eapply good_mono; [apply HP|exact (incl_tran Hw4 Hw5)|exact Gb]|]. intros fb w6 Hw6 _.
    eapply sp_qbind; [apply sp_fitness; eapply good_mono; [apply HP|exact (incl_tran Hw4 (incl_tran Hw5 Hw6))|exact Gw]|]. intros fw w7 Hw7 _. cbv zeta.
    apply sp_for. intros i w8 Hi _. unfold pop_fit. eapply sp_qbind with (Φ := fun _ _ => True).
    { eapply sp_qbind; [apply sp_pop_at, HI, Hi|]. intros a w9 _ Ga. eapply sp_mono; [apply sp_fitness; exact Ga|lia|lia|auto]. }
    intros f w9 _ _. apply sp_when with (a := 1). eapply sp_mono with (a := 1 + 0) (b := S fuel + 0) (Φ := fun _ _ => True); [|lia|lia|auto]. eapply sp_bind; [apply sp_hco_seek|].
    intros a w10 _ Ga. eapply sp_pop_set; [exact HP|exact Hno|apply HI, Hi|exact Ga].
Qed.
End HCO.

(** OriginalHCO (HCO.py:12-155), whenever its initialization ends.  [fuel] bounds the search for agents better than the predicted fitness (HCO.py:111-116). *)
Theorem C65_OriginalHCO_returning E P md fuel wfp n epochs : 5 <= n -> 0 < epochs ->
  sound_when E P md (original_hco E P md fuel wfp n epochs) (fun _ => True) (fun _ => True) (fun _ => True) (eq n) false (n + n) (n + (n + n * S fuel)) n n.
Proof.
  intros Hn He. set (ev := hco_evolve E P md n).
  apply (begins_of E P md _ (al_init (with_init (agent_algo E md (generate_empty_agent P tt) (ga_of P (generate_empty_agent P tt)) n epochs false (ret tt) (ret tt) ev) (hco_start_total E P md fuel wfp n))) ev).
  - unfold original_hco, with_init. cbn [al_init]. intros starting. apply ref_bind; [apply ref_refl|]. intros []. apply ref_hco_start.
  - intros ep. apply ref_refl.
  - change (with_start _ _ _) with (with_init (agent_algo E md (generate_empty_agent (A := unit) (X := unit) P tt) (ga_of P (generate_empty_agent P tt)) n epochs false (ret tt) (ret tt) ev) (hco_start_total E P md fuel wfp n)).
    apply (sound_more E P md _ _ n epochs false (ret tt) _ (ret tt) _ (fun _ => True) (fun _ => True) (fun _ => True) (fun _ => @anyatt unit) (fun _ _ _ => True) (fun _ _ _ => True) (fun _ _ _ => True)); auto; try lia.
    + intros feas rows _ _ Hp. apply plain_gea_ok, Hp.
    + intros feas Hp. apply ga_of_ok, plain_gea_ok, Hp.
    + intros feas Hp. apply vars_none; auto.
    + intros feas nd n0 s HP _ HS. eapply wp_mono; [eapply sp_hco_start with (w := s_log s); [exact HP|intros [T _]; discriminate T|lia|exact HS|apply incl_refl]|].
      intros [] s' (S1 & _ & L1 & _). split; [exact S1|]. lia.
    + intros feas nd n0 s HP _ HI. eapply main_none. exact HI.
    + intros feas nd n0 HP _. apply contract_free. intros ep s0 w Hep _. unfold ev, hco_evolve. gcounts HP.
Qed.

(** ** OriginalFA: the sparks of the last firework only take part in the selection. *)
Section FA.
Variables (E : env) (P : problem) (md : MCore.mode).
Notation gea := (generate_empty_agent (A := unit) (X := unit) P tt).
Notation correct := (correct_solution P).
(** The same evolution, with one spark when their number cannot be computed. *)
Definition fa_total (pa pb : f64) (mx ms n : nat) (ep : nat) : M unit unit unit :=
  last <- for_acc n 0 [] (fun idx _ =>
    fits <- all_fits ;;
    si <- rnum E "FA:94-95" [[fnat idx]; fits] ;;
    k <- orelse (lift (fa_sparks pa pb mx ms si)) (ret 1) ;;
    new_agents P md correct gea k (fun _ => xi <- pop_sol idx ;; rform E P "FA:96-97,107-112" [xi; fits; p_lb P; p_ub P])) ;;
  let gauss := fun _ : nat => idx <- integers E 0 n ;; xi <- pop_sol idx ;; rform E P "FA:123-127" [xi; p_lb P; p_ub P] in
  new <- (if is_avail md
          then l <- collect ms (fun i => x <- gauss i ;; propose correct gea x) ;; update_target_for_population P md (last ++ l)%list
          else l <- new_agents P md correct gea ms gauss ;; ret (last ++ l)%list) ;;
  p <- get_pop ;;
  q <- lift (get_sorted_and_trimmed_population (e_argsort E) (new ++ p)%list n (p_mm P)) ;;
  set_pop q.
Lemma ref_fa pa pb mx ms n ep : refines (fa_evolve E P md pa pb mx ms n ep) (fa_total pa pb mx ms n ep).
Proof.
  unfold fa_evolve, fa_total. apply ref_bind; [|intros last; apply ref_refl]. apply ref_for_acc. intros idx l.
  apply ref_bind; [apply ref_refl|intros fits]. apply ref_bind; [apply ref_refl|intros si]. apply ref_bind; [apply ref_orelse|intros k; apply ref_refl].
Qed.
Variables (feas : vec -> Prop) (C : Prop) (nd n0 n : nat) (s0 : st unit unit).
Hypothesis HP : params E P feas (@anyatt unit) (false = true /\ C).
Notation gt := (gt P feas (@anyatt unit) (eq n) (fun _ _ => True) (false = true /\ C) nd n0 n s0).
Notation ok := (ok P feas (@anyatt unit)).
Lemma g_fa pa pb mx ms ep w : 1 < n -> unit_num pa -> unit_num pb -> (Z.of_nat mx <= 2 ^ 31)%Z -> (Z.of_nat ms <= 2 ^ 31)%Z ->
  gt w (n + ms) (S n * S (Nat.max mx ms) + ms) (fa_total pa pb mx ms n ep) (fun _ _ => True).
Proof.
  intros Hn Ha Hb H1 H2. set (K := S (Nat.max mx ms)). unfold fa_total.
  eapply g_mono with (a := n * 1 + (ms + 0)) (b := n * K + (K + ms + 0)) (Φ := fun _ _ => True); [|lia|lia|auto]. eapply g_bind.
  - apply (g_for_acc P feas (@anyatt unit) (eq n) (fun _ _ => True) (false = true /\ C) nd n0 n s0 w 1 K n 0 [] _ (fun _ w' l => List.length l <= K /\ Forall (ok w') l)); [split; [cbn; lia|constructor]|].
    intros idx w1 l Hw1 Hi _. eapply g_qbind; [gquiet HP|]. intros fits _. eapply g_qbind; [gquiet HP|]. intros si _.
    eapply g_qbind with (Φ := fun k => 1 <= k <= K).
    { eapply gq_qt; [exact HP|noc|]. apply q_orelse; [apply qp_lift; intros k Hk; exact (fa_sparks_count pa pb mx ms si k Ha Hb H1 H2 Hk)|]. eapply q_ret. unfold K. lia. }
    intros k Hk. eapply g_mono; [eapply g_new_agents; [exact HP|noc|qcorrect HP|qgea|]|lia|lia|].
    + intros w2 i Hw2 Hi2. gquiet HP.
    + intros w2 r _ [L1 F1]. split; [lia|exact F1].
  - intros last w1 Hw1 [Ll Fl]. cbv zeta. eapply g_bind with (Φ := fun w' l => Forall (ok w') l).
    + destruct (is_avail md) eqn:Hav.
      * eapply g_mono with (a := 0 + (List.length last + ms)) (b := 0 + (List.length last + ms)) (Φ := fun w' l => Forall (ok w') l); [|lia|lia|auto].
        eapply g_bind with (Φ := fun w' l => List.length l = ms /\ Forall (pend feas (@anyatt unit) w') l).
        { apply g_quiet. eapply gq_mono; [eapply gq_collect with (Φ := pend feas (@anyatt unit) w1); intros i Hi|auto].
          eapply gq_bind with (Φ := fun _ => True); [gquiet HP|]. intros x _. eapply gq_propose; [exact HP|noc|qcorrect HP|qgea]. }
        intros l w2 Hw2 [L2 F2]. eapply g_mono with (a := List.length (last ++ l)) (b := List.length (last ++ l)); [eapply g_update_target; [exact HP|noc|exact Hav|]| | |intros w3 r _ [T _]; exact T].
        -- apply Forall_app. split; [|exact F2]. eapply Forall_impl; [|exact Fl]. intros a Oa. eapply pend_mono; [exact Hw2|eapply ok_pend; [exact HP|exact Oa]].
        -- rewrite app_length. lia.
        -- rewrite app_length. lia.
      * eapply g_mono with (a := ms + 0) (b := ms + 0) (Φ := fun w' l => Forall (ok w') l); [|lia|lia|auto].
        eapply g_bind; [eapply g_new_agents; [exact HP|noc|qcorrect HP|qgea|intros w2 i Hw2 Hi; gquiet HP]|].
        intros l w2 Hw2 [L2 F2]. apply g_ret. apply Forall_app. split; [|exact F2]. eapply oks_mono; [exact HP|exact Hw2|exact Fl].
    + intros new w2 Hw2 Fn. eapply g_qbind; [apply gq_get_pop|]. intros p [Lp Fp].
      eapply g_qbind; [eapply gq_trimmed; [exact HP|noc|apply Forall_app; split; [exact Fn|exact Fp]]|]. intros q [Lq Fq].
      apply g_quiet. eapply gq_set_pop; [noc| |exact Fq]. rewrite app_length, Lp in Lq. lia.
Qed.
End FA.

(** OriginalFA (FA.py:12-136), whenever it returns: Python's round() of a ratio that is not a number raises (FA.py:103). *)
Theorem C65_OriginalFA_returning E P md pa pb mx ms n epochs : 5 <= n -> 0 < epochs -> unit_num pa -> unit_num pb -> (Z.of_nat mx <= 2 ^ 31)%Z -> (Z.of_nat ms <= 2 ^ 31)%Z ->
  sound_when E P md (original_fa E P md pa pb mx ms n epochs) (fun _ => True) (fun _ => True) (fun _ => True) (eq n) false n n (n + ms) (S n * S (Nat.max mx ms) + ms).
Proof.
  intros Hn He Ha Hb H1 H2. eapply (returns_of _ _ _ _ (fa_total E P md pa pb mx ms n)).
  - intros ep. apply ref_fa.
  - change (with_evolve _ _) with (plain_algo E P md tt n epochs false (fa_total E P md pa pb mx ms n)).
    state_free (fun _ : unit => True). eapply g_fa; [exact HP|lia|assumption..].
Qed.

(** ** OriginalSSpiderO *)
Section SSpiderO.
Variables (E : env) (P : problem) (md : MCore.mode) (feas : vec -> Prop) (cov : Prop) (nd n0 n : nat) (s0 : st unit nat).
Notation IX := (fun (_ : list vec) (nf : nat) => nf < n).
Notation gea := (generate_empty_agent (A := unit) (X := nat) P tt).
Hypothesis HP : params E P feas (@anyatt unit) cov.
Hypothesis Hn : 2 <= n.
Hypothesis Hmd : md <> Process.
Notation R := (R P feas (@anyatt unit) (eq n) IX cov nd n0 n s0).
Notation blk0 := (blk0 P feas (@anyatt unit) (eq n) IX cov nd n0 n s0).
Notation qt := (qt P feas (@anyatt unit) (eq n) IX cov nd n0 n s0).
Lemma q_sspider_couples nf : qt (sspider_couples E n nf) (fun l => List.length l <= (n - nf) * nf).
Proof.
  unfold sspider_couples. eapply q_bind; [apply q_all_sols|]. intros xs _.
  eapply q_mono; [eapply q_for_acc with (I := fun k (acc : list (vec * vec)) => List.length acc <= k); [cbn; lia|]|intros l Hl; exact Hl].
  intros k acc Hk Ha. eapply q_bind; [quiet HP|]. intros near _. apply q_ret. destruct near; [rewrite app_length; cbn; lia|lia].
Qed.
Lemma wp_sspider_mating nf W l s (Q : list (agent unit) -> st unit nat -> Prop) : R W l s -> nf < n ->
  (forall kids s', n <= List.length kids <= n * n -> R (W ++ kids) (l + List.length kids) s' -> s_pop s' = s_pop s -> Q kids s') ->
  wp (sspider_mating E P md n nf) Q s.
Proof.
  intros HR Hnf HQ. unfold sspider_mating. apply wp_bind. eapply wp_mono; [apply (q_sspider_couples nf _ _ _ HR)|]. intros couples s1 [Lc N1].
  pose proof (R_near _ _ _ _ _ _ _ _ _ _ _ _ _ _ HR N1) as R1. apply wp_bind.
  assert (K : wp (if (2 <=? List.length couples)%nat
           then for_list couples [] (fun c acc =>
                  z1 <- rform E P "SSpiderO:184-185" [fst c; snd c] ;;
                  z2 <- rform E P "SSpiderO:186" [fst c; snd c] ;;
                  y1 <- correct_solution_with P (amend_random E P) z1 ;;
                  y2 <- correct_solution_with P (amend_random E P) z2 ;;
                  a1 <- gen_at P gea y1 ;;
                  a2 <- gen_at P gea y2 ;;
                  ret (acc ++ [a1; a2])%list)
           else ret []) (fun kids s' => List.length kids <= 2 * List.length couples /\ R (W ++ kids) (l + List.length kids) s' /\ s_pop s' = s_pop s) s1).
  { destruct (2 <=? List.length couples)%nat.
    - apply wp_for_list with (I := fun pre kids s' => List.length kids = 2 * List.length pre /\ R (W ++ kids) (l + List.length kids) s' /\ s_pop s' = s_pop s).
      + split; [reflexivity|]. cbn [List.length]. rewrite app_nil_r, Nat.add_0_r. split; [exact R1|eapply near_pop; exact N1].
      + intros pre c suf kids s2 _ (L2 & R2 & P2).
        assert (Hr : forall nm vs, qt (rform E P nm vs) (fun _ => True)) by (intros; quiet HP).
        assert (Hc : forall z, qt (correct_solution_with P (amend_random E P) z) feas) by (qcorrect HP).
        apply wp_bind. eapply wp_mono; [apply (Hr _ _ _ _ _ R2)|]. intros z1 s3 [_ N3]. pose proof (R_near _ _ _ _ _ _ _ _ _ _ _ _ _ _ R2 N3) as R3.
        apply wp_bind. eapply wp_mono; [apply (Hr _ _ _ _ _ R3)|]. intros z2 s4 [_ N4]. pose proof (R_near _ _ _ _ _ _ _ _ _ _ _ _ _ _ R3 N4) as R4.
        apply wp_bind. eapply wp_mono; [apply (Hc _ _ _ _ R4)|]. intros y1 s5 [F1 N5]. pose proof (R_near _ _ _ _ _ _ _ _ _ _ _ _ _ _ R4 N5) as R5.
        apply wp_bind. eapply wp_mono; [apply (Hc _ _ _ _ R5)|]. intros y2 s6 [F2 N6]. pose proof (R_near _ _ _ _ _ _ _ _ _ _ _ _ _ _ R5 N6) as R6.
        apply wp_bind. eapply wp_gen_at; [exact HP|qgea|exact R6|exact F1|]. intros a1 s7 _ R7 P7.
        apply wp_bind. eapply wp_gen_at; [exact HP|qgea|exact R7|exact F2|]. intros a2 s8 _ R8 P8. apply wp_ret.
        rewrite <- !app_assoc in R8. rewrite !app_length. cbn [List.length]. split; [lia|]. split; [replace (l + (List.length kids + 2)) with (l + List.length kids + 1 + 1) by lia; exact R8|].
        rewrite P8, P7, (near_pop _ _ _ N6), (near_pop _ _ _ N5), (near_pop _ _ _ N4), (near_pop _ _ _ N3). exact P2.
      + intros kids s2 (L2 & R2 & P2). split; [lia|]. split; assumption.
    - apply wp_ret. cbn [List.length]. rewrite app_nil_r, Nat.add_0_r. split; [lia|]. split; [exact R1|eapply near_pop; exact N1]. }
  eapply wp_mono; [exact K|]. intros kids s2 (L2 & R2 & P2). apply wp_bind. eapply wp_population_with; [exact HP|exact R2|exact Hmd|apply ga_ok_contract, ga_of_ok, plain_gea_ok, HP|].
  intros more s3 L3 R3 P3. apply wp_ret. rewrite <- app_assoc in R3. apply HQ.
  - rewrite app_length, L3. assert (E1 : (n - nf) * nf * 2 <= n * n) by (assert (E0 : exists m, m = n - nf /\ n = m + nf) by (exists (n - nf); lia); destruct E0 as (m & <- & ->); nia). assert (n <= n * n) by nia. lia.
  - rewrite app_length, L3, Nat.add_assoc. exact R3.
  - rewrite P3. exact P2.
Qed.
Lemma b_sspider ep : blk0 (n + n) (n + n * n) (sspider_evolve E P md n ep) (fun _ => True).
Proof.
  unfold sspider_evolve. eapply b0_qbind; [apply q_get_x|]. intros nf (_ & Hf). cbv beta in Hf.
  eapply b0_qbind; [apply q_all_sols|]. intros xs _. eapply b0_qbind; [quiet HP|]. intros g _.
  intros W l s HR HO. apply wp_bind. eapply wp_new_agents; [exact HP|qcorrect HP|qgea|exact HR|intros; quiet HP|]. intros fem s1 L1 _ R1 P1.
  apply wp_bind. eapply wp_new_agents; [exact HP|qcorrect HP|qgea|exact R1|intros; quiet HP|]. intros mal s2 L2 _ R2 P2.
  rewrite <- app_assoc in R2. apply wp_bind. unfold set_pop. unfold wp at 1. fold (with_pop s2 (fem ++ mal)%list).
  assert (R3 : R W (l + n) (with_pop s2 (fem ++ mal)%list)).
  { replace (l + n) with (l + nf + (n - nf)) by lia. eapply R_replace; [exact HP|exact R2| |rewrite app_length; lia]. unfold Old. rewrite P2, P1. exact HO. }
  apply wp_bind. eapply wp_sspider_mating; [exact R3|exact Hf|]. intros kids s4 Lk R4 P4.
  assert (Gk : Forall (good P feas (@anyatt unit) (s_log s4)) kids) by (apply (R_held_good _ _ _ _ _ _ _ _ _ _ _ _ _ _ R4)).
  destruct (trimmed_cov E P feas (@anyatt unit) cov HP _ kids n Gk ltac:(lia)) as (best & Eb & Lb & Gb & Cb).
  apply wp_bind. eapply wp_lift; [exact Eb|]. cbv beta iota.
  eapply wp_accept_each; [exact HP|eapply R_exchange; [exact HP|exact R4|exact Gb|]|lia|intros; quiet HP|].
  - intros C a Ha. destruct (Cb C a Ha) as (b & Hb & Hw). exists b. split; [apply in_or_app; auto|exact Hw].
  - intros s5 R5. split; [exact I|]. exists (n + List.length kids). split; [lia|]. rewrite Nat.add_assoc. exact R5.
Qed.
End SSpiderO.

(** OriginalSSpiderO (SSpiderO.py:13-274). *)
Theorem C64_OriginalSSpiderO E P md n epochs : 5 <= n -> 0 < epochs -> md <> Process ->
  sound_run_gen E P md (original_sspider E P md n epochs) (fun _ => True) (fun _ => True) (fun _ => True) (eq n) true n n (n + n) (n + n * n).
Proof.
  intros Hn He Hmd.
  assert (T : sound_run_gen E P md (original_sspider E P md n epochs) (fun _ => True) (fun _ => True) (fun _ => True) (eq n) true (n + 0) (n + 0) (n + n) (n + n * n)).
  2:{ rewrite !Nat.add_0_r in T. exact T. }
  apply (sound_more E P md _ _ n epochs false (ret tt) _ (ret tt) _ (fun _ => True) (fun _ => True) (fun _ => True) (fun _ => @anyatt unit) (fun _ _ _ => True) (fun _ _ nf => nf < n) (fun _ _ nf => nf < n)); auto; try lia.
  - intros feas rows _ _ Hp. apply plain_gea_ok, Hp.
  - intros feas Hp. apply ga_of_ok, plain_gea_ok, Hp.
  - intros feas Hp. apply vars_none; auto.
  - intros feas nd n0 s HP _ HS. unfold sspider_start. apply wp_bind. eapply wp_mono; [apply (dr_integers E 0 n); lia|]. intros nf s1 [[k ->] Hf].
    unfold wp, set_x. destruct HS. split; [|cbn; lia]. constructor; auto. exists []. split; [intros ? []|]. cbn. lia.
  - intros feas nd n0 s HP _ HI. eapply main_none. exact HI.
  - intros feas nd n0 HP _. eapply contract_of; [exact HP|]. intros ep s0 Hep _. apply b_sspider; [exact HP|lia|exact Hmd].
Qed.

Print Assumptions C64_OriginalLSHADEcnEpSin.
Print Assumptions C64_OriginalChameleonSA.
Print Assumptions C65_IChameleonSA.
Print Assumptions C65_OriginalHCO_returning.
Print Assumptions C65_OriginalFA_returning.
Print Assumptions C64_OriginalSSpiderO.
