(** Theorems about the classes of MClass17. *)
From Coq Require Import Permutation String.
From Verif Require Import Prelude Fl FlArith FlInt FlRound FlPart MCore MHelp MAlg MAlg2 MAlg3 MAlg4 MAlg5 MAlg6 MAlg7 SpecCore SpecRun PSpace PSelect PLogic PSolve PRun PPart Demo PropHelp SpecAlg SpecWhen PAlg PFree PClass PAlg2 PAlg3 PAlg4 PAlg5 PAlg6 PAlg7 PAlg8 PAlg9 PRef PFail PElse PAlg10 PAlg11 PAlg13 MClass14 AClass14 MClass17.

(** ** DBO *)
Theorem C64_OriginalDBO E P md kk bb ss n epochs : 5 <= n -> 0 < epochs ->
  sound_run E P md (original_dbo E P md kk bb ss n epochs) (fun x => x = [] \/ List.length x = n) true n n.
Proof.
  intros Hn He. apply gen_plain.
  assert (T : sound_run_gen E P md (original_dbo E P md kk bb ss n epochs) (fun x => x = [] \/ List.length x = n) (fun _ => True) (fun _ => True) (eq n) true (n + 0) (n + 0) n n).
  2:{ rewrite !Nat.add_0_r in T. exact T. }
  apply (sound_more E P md _ _ n epochs true (ret tt) dbo_more (ret tt) (dbo_evolve E P md kk bb ss n epochs)
    (fun x => x = [] \/ List.length x = n) (fun _ => True) (fun _ => True) (fun _ => @anyatt unit) (fun _ _ x => x = [] \/ List.length x = n)
    (fun _ _ x => List.length x = n) (fun _ _ x => List.length x = n)); auto; try lia.
  - intros feas rows _ _ Hp. apply plain_gea_ok, Hp.
  - intros feas Hp. apply ga_of_ok, plain_gea_ok, Hp.
  - intros feas Hp. apply vars_none; auto.
  - intros feas nd n0 s HP _ HS. unfold dbo_more. apply wp_bind. unfold get_x, wp. cbv beta iota.
    pose proof (st_x _ _ _ _ _ _ _ _ _ HS) as (L & HL & HX). pose proof (st_len _ _ _ _ _ _ _ _ _ HS) as Hl.
    destruct (s_x s) as [|v x] eqn:Ex.
    + change (wp (xs <- all_sols ;; set_x xs) (fun _ s' => Start P feas (@anyatt unit) (eq n) (fun _ x => List.length x = n) (true = true /\ obj_num P feas) nd n0 s' /\
        List.length (s_log s) + 0 <= List.length (s_log s') <= List.length (s_log s) + 0) s).
      unfold all_sols. apply wp_bind, wp_bind, wp_get_pop. apply wp_ret. unfold set_x, wp. split; [|simpl; lia].
      destruct HS. constructor; auto. exists []. split; [intros ? []|]. simpl. rewrite map_length. auto.
    + unfold ret. split; [|simpl; lia]. destruct HX as [HX|HX]; [discriminate|]. destruct HS. constructor; auto. exists L. split; [exact HL|]. rewrite Ex. exact HX.
  - intros feas nd n0 s HP _ HI. eapply main_none. exact HI.
  - intros feas nd n0 HP _. eapply contract_of; [exact HP|]. intros ep s0 Hep _. unfold dbo_evolve. counts HP.
Qed.

(** ** EFO *)
(** The three fields of the population are not empty and the middle one lies between the others. *)
Definition efo_ok (n : nat) (pf nf : f64) : Prop :=
  0 < efo_top n pf <= n /\ efo_middle n pf < efo_bottom n nf /\ efo_bottom n nf < n.
Theorem C64_DevEFO E P md rr ps pf nf n epochs : 5 <= n -> 0 < epochs -> 0 < n_dims P -> efo_ok n pf nf ->
  sound_run E P md (dev_efo E P md rr ps pf nf n epochs) (fun _ => True) true n n.
Proof. intros Hn He Hd ([H1 H2] & H3 & H4). plain. unfold dev_efo_evolve.
 set (t := efo_top n pf) in *. set (m := efo_middle n pf) in *. set (b := efo_bottom n nf) in *. clearbody t m b. counts HP. all: apply vtab_length. Qed.
Theorem C65_OriginalEFO E P md rr ps pf nf n epochs : 5 <= n -> 0 < epochs -> efo_ok n pf nf ->
  sound_run E P md (original_efo E P md rr ps pf nf n epochs) (fun _ => True) false 1 1.
Proof. intros Hn He ([H1 H2] & H3 & H4). plainfree. unfold efo_evolve.
 set (t := efo_top n pf) in *. set (m := efo_middle n pf) in *. set (b := efo_bottom n nf) in *. clearbody t m b. gcounts HP. Qed.

(** ** HGSO *)
Lemma hgso_worst_le n u : unit_num u -> n <= 10000 -> 4 * hgso_worst n u <= n.
Proof.
  intros Hu Hn. assert (Hz : (Z.of_nat n <= 2 ^ 31)%Z) by (assert (n <= 10 * 10 * 10 * 10) by exact Hn; lia).
  pose proof (fifth_count n u Hu Hz) as T. unfold hgso_worst, dec, fnat.
  match goal with |- 4 * Z.to_nat ?z <= n => change z with (ftrunc (fmul (fZ (Z.of_nat n)) (fadd (fmul (fdiv (fZ 1) (fZ 10)) u) (fdiv (fZ 1) (fZ 10))))) end. lia.
Qed.
Lemma slice_part {T} k m (l : list T) i : i < k -> k * m <= List.length l -> List.length (slice (i * m) (S i * m) l) = m.
Proof. intros Hi Hl. rewrite slice_length by nia. nia. Qed.
Lemma slice_Forall {T} (Q : T -> Prop) i j l : Forall Q l -> Forall Q (slice i j l).
Proof.
  intros H. rewrite Forall_forall in *. intros x Hx. apply H. unfold slice in Hx. rewrite <- (firstn_skipn i l). apply in_or_app. right.
  rewrite <- (firstn_skipn (j - i) (skipn i l)). apply in_or_app. left. exact Hx.
Qed.
Lemma puts_Forall {T} (Q : T -> Prop) (ia : list (nat * T)) l : Forall Q l -> Forall (fun p => Q (snd p)) ia ->
  Forall Q (fold_left (fun l '(i, a) => upd l i a) ia l) /\ List.length (fold_left (fun l '(i, a) => upd l i a) ia l) = List.length l.
Proof.
  revert l. induction ia as [|[i a] ia IH]; intros l Hl Hi; [auto|]. inversion Hi; subst. cbn [fold_left].
  destruct (IH (upd l i a)) as [H1' H2']; [apply upd_Forall; assumption|assumption|]. rewrite upd_length in H2'. auto.
Qed.
Section HGSO.
Variables (E : env) (P : problem) (md : mode) (feas : vec -> Prop) (IL : nat -> Prop) (IX : list vec -> unit -> Prop) (C : Prop) (nd n0 n1 : nat).
Variable s0 : st unit unit.
Hypothesis HP : params E P feas (@anyatt unit) (false = true /\ C).
Notation gq := (gq P feas (@anyatt unit) IL IX (false = true /\ C) nd n0 n1 s0).
Notation gt := (gt P feas (@anyatt unit) IL IX (false = true /\ C) nd n0 n1 s0).
Notation ok := (ok P feas (@anyatt unit)).
Lemma g_hgso_cluster w m ep epochs group : 0 < m -> List.length group = m -> Forall (ok w) group ->
  gt w m m (hgso_cluster E P md m ep epochs group) (fun w' l => List.length l = m /\ Forall (ok w') l).
Proof.
  intros Hm Hl HF. unfold hgso_cluster. eapply g_qbind; [eapply gq_best; [exact HP|noc|exact HF|lia]|]. intros [b i] [Hb _]. cbn [fst] in Hb.
  eapply g_qbind; [eapply gq_fitness; [exact HP|noc|exact Hb]|]. intros fb _.
  eapply g_new_agents; [exact HP|noc|qcorrect HP|qgea|]. intros w' j Hw Hj.
  assert (HF' : Forall (ok w') group) by (eapply oks_mono; [exact HP|exact Hw|exact HF]).
  eapply gq_bind; [eapply gq_getitem; [exact HP|noc|lia|exact HF']|]. intros a Ha.
  eapply gq_bind; [eapply gq_fitness; [exact HP|noc|exact Ha]|]. intros fa _. gquiet HP.
Qed.
Lemma g_hgso_next w k n epochs ep : unit_draws E -> 10 <= n <= 10000 -> 2 <= k -> 5 * k <= n -> k * (n / k) <= n1 ->
  gt w (k * (n / k)) (k * (n / k) + n / 4) (hgso_next E P md k (n / k) n epochs ep) (fun w' q => Forall (ok w') q /\ List.length q = k * (n / k)).
Proof.
  intros HU Hn Hk Hkn Hl. set (m := n / k) in *.
  assert (Hm : 0 < m) by (apply Nat.div_str_pos; lia).
  assert (Hbig : n <= 2 * (k * m)) by (pose proof (Nat.div_mod n k ltac:(lia)); pose proof (Nat.mod_upper_bound n k ltac:(lia)); fold m in H; assert (k <= k * m) by nia; lia).
  clearbody m. unfold hgso_next.
  eapply g_qbind; [eapply gq_get_pop|]. intros p [Lp Fp].
  eapply g_mono with (a := k * m + 0) (b := k * m + n / 4); [|lia|lia|intros w2 y _ T; exact T].
  eapply g_bind with (Φ := fun w' q => List.length q = k * m /\ Forall (ok w') q).
  - eapply g_mono; [eapply g_for_acc with (a := m) (b := m) (J := fun i w' q => List.length q = i * m /\ Forall (ok w') q)|lia|lia|].
    + split; [reflexivity|constructor].
    + intros i w' q Hw Hi [Lq Fq]. eapply g_mono with (a := m + 0) (b := m + 0); [|lia|lia|intros w2 y _ T; exact T].
      eapply g_bind; [eapply g_hgso_cluster with (m := m); [exact Hm|eapply slice_part with (k := k); lia|]|].
      * apply slice_Forall. eapply oks_mono; [exact HP|exact Hw|exact Fp].
      * intros new w2 Hw2 [Ln Fn]. apply g_ret. rewrite app_length. split; [lia|]. apply Forall_app. split; [eapply oks_mono; [exact HP|exact Hw2|exact Fq]|exact Fn].
    + intros w2 y _ T. exact T.
  - intros q w2 Hw2 [Lq Fq]. eapply g_qbind with (Φ := unit_num).
    { eapply gq_qt; [exact HP|noc|]. intros W l s HR. unfold uniform. apply wp_bind, wp_tick. intros t. apply wp_ret. split.
      - destruct (HU t) as [U1 U2]. split; [exact U1|apply flt_le; exact U2].
      - eapply near_bump; exact HR. }
    intros u Hu. pose proof (hgso_worst_le n u Hu (proj2 Hn)) as Hc. set (c := hgso_worst n u) in *. clearbody c.
    assert (Hc4 : c <= n / 4) by (apply Nat.div_le_lower_bound; lia).
    eapply g_qbind; [eapply gq_fits; [exact HP|noc|exact Fq]|]. intros fits Lf. cbv zeta.
    eapply g_mono with (a := c + 0) (b := c + 0); [|lia|lia|intros w3 y _ T; exact T].
    eapply g_bind; [eapply g_new_agents; [exact HP|noc|qcorrect HP|qgea|]|].
    + intros w' j Hw' Hj. eapply gq_bind with (Φ := fun _ => True).
      * eapply gq_lift; [exact HP|noc|]. assert (Hj' : j < List.length (e_argsort E fits)).
        { destruct (pr_argsort _ _ _ _ _ HP fits) as [Hp _]. rewrite (Permutation_length Hp), seq_length. cbv beta in *. unfold vec in *. lia. }
        destruct (getitem_lt _ _ Hj') as (x & Ex & _). eauto.
      * intros id _. gquiet HP.
    + intros new w' Hw' [Ln Fn]. apply g_ret.
      destruct (puts_Forall (ok w') (combine (e_argsort E fits) new) q) as [H1' H2'].
      * eapply oks_mono; [exact HP|exact Hw'|exact Fq].
      * rewrite Forall_forall in *. intros [i a] Hi. apply in_combine_r in Hi. apply Fn, Hi.
      * split; [exact H1'|]. rewrite H2'. exact Lq.
Qed.
End HGSO.
Theorem C65_OriginalHGSO E P md k n epochs : unit_draws E -> 10 <= n <= 10000 -> 2 <= k -> 5 * k <= n -> 0 < epochs ->
  sound_run_len E P md (original_hgso E P md k n epochs) (fun _ => True) (fun m => m = n \/ m = k * (n / k)) false (k * (n / k)) (k * (n / k) + n / 4).
Proof.
  intros HU Hn Hk Hkn He. pose proof (Nat.div_str_pos n k ltac:(lia)) as Hm. pose proof (Nat.mul_div_le n k ltac:(lia)) as Hl.
  apply (sound_len_of E P md tt n epochs false (ret tt) (hgso_evolve E P md k (n / k) n epochs) _ (fun _ => True) (fun _ => True)); auto; try lia.
  - intros s Hs. apply wp_ret. exists (s_x s), (s_ctr s). split; [destruct s; reflexivity|auto].
  - intros feas nd n0 HP. apply contract_free_len; [noc|]. intros ep s0 w Hep HI.
    eapply g_mono; [apply g_hgso_next; auto|lia|lia|].
    + destruct (i_len _ _ _ _ _ _ _ _ _ HI) as [T|T]; rewrite T; lia.
    + intros w' q _ [Fq Lq]. auto.
Qed.

(** ** COA *)
Lemma age_insert_perm before a l : Permutation (age_insert before a l) (a :: l).
Proof.
  induction l as [|b l IH]; [apply Permutation_refl|]. cbn [age_insert]. destruct (before _ _); [|apply Permutation_refl].
  eapply Permutation_trans; [apply perm_skip, IH|apply perm_swap].
Qed.
Lemma age_sort_perm mm l : Permutation (age_sort mm l) l.
Proof.
  unfold age_sort. induction l as [|a l IH]; [constructor|]. cbn [fold_right]. eapply Permutation_trans; [apply age_insert_perm|apply perm_skip, IH].
Qed.
Lemma perm_Forall {T} (Q : T -> Prop) l l' : Permutation l l' -> Forall Q l -> Forall Q l'.
Proof. intros Hp H. rewrite Forall_forall in *. intros x Hx. apply H. eapply Permutation_in; [apply Permutation_sym; exact Hp|exact Hx]. Qed.
Section COA.
Variables (E : env) (P : problem) (md : mode) (feas : vec -> Prop) (IL : nat -> Prop) (IX : list vec -> unit -> Prop) (C : Prop) (nd n0 n1 : nat).
Variable s0 : st Z unit.
Hypothesis HP : params E P feas (@anyatt Z) (false = true /\ C).
Notation gq := (gq P feas (@anyatt Z) IL IX (false = true /\ C) nd n0 n1 s0).
Notation gt := (gt P feas (@anyatt Z) IL IX (false = true /\ C) nd n0 n1 s0).
Notation ok := (ok P feas (@anyatt Z)).
Lemma coa_gea_ok : gea_ok (X := unit) feas (@anyatt Z) (coa_gea P).
Proof. apply gea_with_ok; [apply HP|intros; draws; exact I]. Qed.
Lemma ok_age w (a : agent Z) z : ok w a -> ok w (with_att a z).
Proof. intros []. constructor; auto; exact I. Qed.
Lemma g_coa_pack w c group : 3 <= c -> List.length group = c -> Forall (ok w) group ->
  gt w (c + 1) (c + 1) (coa_pack E P md c group) (fun w' l => List.length l = c /\ Forall (ok w') l).
Proof.
  intros Hc Hl HF. unfold coa_pack. pose proof coa_gea_ok as HG.
  eapply g_qbind; [eapply gq_sorted; [exact HP|noc|exact HF]|]. intros [g ix] (Lg & Fg & _). cbn [fst] in Lg, Fg.
  eapply g_bind with (Φ := fun w' l => List.length l = c /\ Forall (ok w') l).
  { eapply g_made_agents; [exact HP|noc|]. intros w' i Hw Hi.
    assert (Fg' : Forall (ok w') g) by (eapply oks_mono; [exact HP|exact Hw|exact Fg]).
    eapply gq_bind; [eapply gq_qt; [exact HP|noc|]; apply choose2_ok|].
    { pose proof (others_length c [i]) as T. cbn [List.length] in T. lia. }
    intros [r1 r2] [H1 H2]. cbn [fst snd] in H1, H2. apply others_in in H1. apply others_in in H2.
    eapply gq_bind; [eapply gq_getitem; [exact HP|noc|lia|exact Fg']|]. intros ai Hai.
    eapply gq_bind; [eapply gq_getitem; [exact HP|noc|lia|exact Fg']|]. intros al Hal.
    eapply gq_bind; [eapply gq_getitem; [exact HP|noc|lia|exact Fg']|]. intros a1 Ha1.
    eapply gq_bind; [eapply gq_getitem; [exact HP|noc|lia|exact Fg']|]. intros a2 Ha2.
    eapply gq_bind with (Φ := fun _ => True); [gquiet HP|]. intros x _.
    eapply gq_bind; [eapply gq_propose; [exact HP|noc|qcorrect HP|apply gea_quiet; exact HG]|]. intros a [Ha _]. apply gq_ret. split; [exact Ha|intros; exact I]. }
  intros new w1 Hw1 [Ln Fn]. assert (Fg1 : Forall (ok w1) g) by (eapply oks_mono; [exact HP|exact Hw1|exact Fg]).
  eapply g_qbind; [eapply gq_greedy; [exact HP|noc|exact Fg1|exact Fn|lia]|]. intros g' [Lg' Fg'].
  eapply g_qbind; [eapply gq_qt; [exact HP|noc|]; apply choose2_ok; rewrite seq_length; lia|].
  intros [i1 i2] [H1 H2]. cbn [fst snd] in H1, H2. apply in_seq in H1. apply in_seq in H2.
  eapply g_qbind; [eapply gq_getitem; [exact HP|noc|lia|exact Fg']|]. intros d Hd.
  eapply g_qbind; [eapply gq_getitem; [exact HP|noc|lia|exact Fg']|]. intros m Hm.
  eapply g_qbind with (Φ := fun _ => True); [gquiet HP|]. intros x _.
  eapply g_mono with (a := 1 + 0) (b := 1 + 0); [|lia|lia|intros w2 y _ T; exact T].
  eapply g_bind; [eapply g_gen_agent; [exact HP|noc|qcorrect HP|apply gea_quiet; exact HG]|]. intros a w2 Hw2 Ha.
  assert (Fg2 : Forall (ok w2) g') by (eapply oks_mono; [exact HP|exact Hw2|exact Fg']).
  eapply g_qbind; [eapply gq_sorted; [exact HP|noc|exact Fg2]|]. intros [packs ix'] (Lp & Fp & _). cbn [fst] in Lp, Fp.
  eapply g_qbind with (Φ := ok w2).
  { eapply gq_lift; [exact HP|noc|]. destruct (last_item_nonempty packs) as (b & rest & _ & Eb); [intros Z; rewrite Z in Lp; cbn [List.length] in Lp; lia|].
    exists b. split; [exact Eb|]. rewrite Forall_forall in Fp. apply Fp. eapply last_item_In; exact Eb. }
  intros b Hb. eapply g_qbind; [eapply gq_compare; [exact HP|noc|exact Ha|exact Hb]|]. intros t _.
  destruct t; apply g_ret.
  - pose proof (age_sort_perm (p_mm P) packs) as Hp. rewrite upd_length. split; [rewrite (Permutation_length Hp); lia|].
    apply upd_Forall; [|exact Ha]. eapply perm_Forall; [apply Permutation_sym; exact Hp|exact Fp].
  - split; [lia|exact Fg2].
Qed.
Lemma g_coa_next w k c : 3 <= c -> 1 <= k -> k * c <= n1 ->
  gt w (k * (c + 1)) (k * (c + 1)) (coa_next E P md k c) (fun w' q => Forall (ok w') q /\ List.length q = k * c).
Proof.
  intros Hc Hk Hl. unfold coa_next. eapply g_qbind; [eapply gq_get_pop|]. intros p [Lp Fp].
  set (Q := fun w' (g : list (agent Z)) => List.length g = c /\ Forall (ok w') g).
  eapply g_mono with (a := k * (c + 1) + 0) (b := k * (c + 1) + 0); [|lia|lia|intros w2 y _ T; exact T].
  eapply g_bind with (Φ := fun w' packs => List.length packs = k /\ Forall (Q w') packs).
  { eapply g_mono; [eapply g_for_acc with (a := c + 1) (b := c + 1) (J := fun i w' packs => List.length packs = i /\ Forall (Q w') packs)|lia|lia|].
    - split; [reflexivity|constructor].
    - intros i w' q Hw Hi [Lq Fq]. eapply g_mono with (a := c + 1 + 0) (b := c + 1 + 0); [|lia|lia|intros w2 y _ T; exact T].
      eapply g_bind; [eapply g_coa_pack with (c := c); [exact Hc|eapply slice_part with (k := k); lia|]|].
      + apply slice_Forall. eapply oks_mono; [exact HP|exact Hw|exact Fp].
      + intros g w2 Hw2 Hg. apply g_ret. rewrite app_length. split; [cbn; lia|]. apply Forall_app. split; [|constructor; [exact Hg|constructor]].
        eapply Forall_impl; [|exact Fq]. intros h [Lh Fh]. split; [exact Lh|]. eapply oks_mono; [exact HP|exact Hw2|exact Fh].
    - intros w2 y _ T. exact T. }
  intros packs w1 Hw1 [Lk Fk]. apply g_quiet.
  eapply gq_bind with (Φ := fun packs => List.length packs = k /\ Forall (Q w1) packs).
  { destruct (1 <? k) eqn:E1; [|apply gq_ret; auto]. apply Nat.ltb_lt in E1.
    eapply gq_bind with (Φ := fun _ => True); [gquiet HP|]. intros u _.
    destruct (u < _)%F; [|apply gq_ret; auto].
    eapply gq_bind; [eapply gq_qt; [exact HP|noc|]; apply choose2_ok; rewrite seq_length; lia|].
    intros [p1 p2] [H1 H2]. cbn [fst snd] in H1, H2. apply in_seq in H1. apply in_seq in H2.
    eapply gq_bind; [eapply gq_qt; [exact HP|noc|]; apply choose2_ok; rewrite seq_length; lia|].
    intros [c1 c2] [H3 H4]. cbn [fst snd] in H3, H4. apply in_seq in H3. apply in_seq in H4.
    destruct (getitem_lt packs p1) as (g1 & Eg1 & _ & I1); [lia|]. destruct (getitem_lt packs p2) as (g2 & Eg2 & _ & I2); [lia|].
    pose proof Fk as Fk'. rewrite Forall_forall in Fk'. destruct (Fk' _ I1) as [L1 F1]. destruct (Fk' _ I2) as [L2 F2].
    eapply gq_bind with (Φ := eq g1); [eapply gq_lift; [exact HP|noc|]; eauto|]. intros ? <-.
    eapply gq_bind with (Φ := eq g2); [eapply gq_lift; [exact HP|noc|]; eauto|]. intros ? <-.
    eapply gq_bind; [eapply gq_getitem; [exact HP|noc|lia|exact F1]|]. intros a1 Ha1.
    eapply gq_bind; [eapply gq_getitem; [exact HP|noc|lia|exact F2]|]. intros a2 Ha2.
    apply gq_ret. rewrite !upd_length. split; [exact Lk|]. apply upd_Forall; [apply upd_Forall; [exact Fk|]|];
      (split; [rewrite upd_length; assumption|apply upd_Forall; assumption]). }
  intros packs' [Lk' Fk'']. apply gq_ret. clear Hl. rewrite map_length. split.
  - rewrite Forall_map. apply Forall_concat. eapply Forall_impl; [|exact Fk'']. intros g [_ Fg]. eapply Forall_impl; [|exact Fg]. intros a. apply ok_age.
  - rewrite <- Lk'. clear - Fk''. induction Fk'' as [|g l [Lg _] _ IH]; [reflexivity|]. cbn [List.concat List.length]. rewrite app_length. lia.
Qed.
End COA.
Theorem C65_OriginalCOA E P md c n epochs : 6 <= n -> 3 <= c <= n / 2 -> 0 < epochs ->
  sound_run_gen E P md (original_coa E P md c n epochs) (fun _ => True) (fun _ => True) (fun _ => True) (fun m => m = n \/ m = n / c * c)
    false n n (n / c * (c + 1)) (n / c * (c + 1)).
Proof.
  intros Hn Hc He. assert (Hk : 1 <= n / c). { apply Nat.div_le_lower_bound; [lia|]. pose proof (Nat.mul_div_le n 2 ltac:(lia)). lia. }
  pose proof (Nat.mul_div_le n c ltac:(lia)) as Hl. 
  assert (T : sound_run_gen E P md (original_coa E P md c n epochs) (fun _ => True) (fun _ => True) (fun _ => True) (fun m => m = n \/ m = n / c * c)
    false (n + 0) (n + 0) (n / c * (c + 1)) (n / c * (c + 1))).
  2:{ rewrite !Nat.add_0_r in T. exact T. }
  unfold original_coa. set (k := n / c) in *. clearbody k.
  apply (sound_gen E P md _ (fun _ => True) (fun _ => True) (fun _ => True) (fun _ => @anyatt Z)
    (fun _ _ _ => True) (fun _ _ _ => True) (fun m => m = n \/ m = k * c) false n n 0 0 (k * (c + 1)) (k * (c + 1))); auto.
  - intros m [->| ->]; nia.
  - intros feas starting HP _ Hst _. pose proof (coa_gea_ok E P feas _ HP) as HG. apply agents_init; auto.
    + apply ga_of_ok, HG.
    + intros m [->| ->]; nia.
    + apply vars_none; auto.
  - intros feas nd HP _. apply quiet_before_main. intros s n0 HI. cbn [al_before_main agent_algo]. apply wp_ret. exists (s_ctr s), (s_x s). split; [destruct s; reflexivity|exists []; split; [intros ? []|exact I]].
  - intros feas nd n0 HP _. apply contract_free_len; [noc|]. intros ep s0 w Hep HI.
    eapply g_mono; [apply g_coa_next; auto; try lia|lia|lia|].
    + destruct (i_len _ _ _ _ _ _ _ _ _ HI) as [T|T]; rewrite T; lia.
    + intros w' q _ [Fq Lq]. auto.
Qed.

(** ** SFO *)
Section SFO.
Variables (E : env) (P : problem) (md : mode) (feas : vec -> Prop) (IL : nat -> Prop) (C : Prop) (nd n0 n1 k : nat).
Variable s0 : st unit (list (agent unit)).
Notation IX := (fun L (x : list (agent unit)) => List.length x = k /\ Forall (good P feas (@anyatt unit) L) x).
Hypothesis HP : params E P feas (@anyatt unit) (false = true /\ C).
Hypothesis Hmd : md <> Process.
Hypothesis Hk : 0 < k.
Hypothesis Hn : n1 <= k.
Notation gq := (gq P feas (@anyatt unit) IL IX (false = true /\ C) nd n0 n1 s0).
Notation gt := (gt P feas (@anyatt unit) IL IX (false = true /\ C) nd n0 n1 s0).
Notation ok := (ok P feas (@anyatt unit)).
Lemma gq_sardines w : gq w get_x (fun x => List.length x = k /\ Forall (ok w) x).
Proof.
  eapply gq_mono; [apply gq_get_x|]. intros x (L & HL & Lx & Fx). split; [exact Lx|]. eapply oks_mono; [exact HP|exact HL|exact Fx].
Qed.
Lemma gq_sfo_best w : gq w (sfo_best E P) (fun _ => True).
Proof.
  unfold sfo_best. eapply gq_bind; [apply gq_sardines|]. intros l [Ll Fl]. 
  eapply gq_bind; [eapply gq_best; [exact HP|noc|exact Fl|lia]|]. intros [b i] _. apply gq_ret. exact I.
Qed.
Lemma g_sfo_move w sp idx x : List.length sp = k -> Forall (ok w) sp -> List.length x = n_dims P ->
  gt w 0 1 (sfo_move P md sp idx x) (fun w' sp' => List.length sp' = k /\ Forall (ok w') sp').
Proof.
  intros Ls Fs Hx. unfold sfo_move. eapply g_qbind; [eapply gq_propose; [exact HP|noc|qcorrect HP|qgea]|]. intros a Ha.
  destruct (is_avail md).
  - eapply g_mono with (a := 0) (b := 0) (Φ := fun w' sp' => List.length sp' = k /\ Forall (ok w') sp'); [apply g_ret; auto|lia|lia|intros w2 y _ T; exact T].
  - eapply g_mono with (a := 1 + 0) (b := 1 + 0); [|lia|lia|intros w2 y _ T; exact T].
    eapply g_bind with (Φ := ok); [eapply g_mono; [eapply g_evaluate; [exact HP|noc|exact Ha]|lia|lia|intros w2 y _ T; apply T]|].
    intros a' w' Hw Ha'. apply g_ret. rewrite upd_length. split; [exact Ls|]. apply upd_Forall; [|exact Ha']. eapply oks_mono; [exact HP|exact Hw|exact Fs].
Qed.
Lemma g_sfo_hunt w one sp : List.length sp = k -> Forall (ok w) sp -> gt w 0 (k + n1) (sfo_hunt E P md one n1 k sp) (fun _ _ => True).
Proof.
  intros Ls Fs. unfold sfo_hunt. eapply g_bind with (a := 0) (b := k) (c := 0) (d := n1) (Φ := fun w' sp => List.length sp = k /\ Forall (ok w') sp).
  { destruct (is_avail md) eqn:Hav.
    - eapply g_mono; [eapply g_update_target; [exact HP|noc|exact Hav|]|lia|lia|].
      + eapply Forall_impl; [|exact Fs]. intros a Ha. eapply ok_pend; [exact HP|exact Ha].
      + intros w2 y _ T. cbv beta in T. destruct T. split; [lia|assumption].
    - unfold update_target_for_population. rewrite Hav.
      eapply g_mono with (a := 0) (b := 0) (Φ := fun w' sp' => List.length sp' = k /\ Forall (ok w') sp'); [apply g_ret; auto|lia|lia|intros w2 y _ T; exact T]. }
  clear sp Ls Fs. intros sp w1 Hw1 [Ls Fs].
  eapply g_qbind; [eapply gq_get_pop|]. intros p [Lp Fp].
  eapply g_qbind; [eapply gq_trimmed; [exact HP|noc|exact Fp]|]. intros q [Lq Fq].
  eapply g_qbind; [eapply gq_set_pop; [noc|lia|exact Fq]|]. intros _ _.
  eapply g_qbind; [eapply gq_trimmed; [exact HP|noc|exact Fs]|]. intros sp' [Ls' Fs'].
  eapply g_qbind with (Φ := fun r => k - n1 <= List.length r <= k /\ Forall (ok w1) r).
  { eapply gq_mono; [eapply gq_for_acc with (I := fun i r => k - i <= List.length r <= k /\ Forall (ok w1) r)|].
    - split; [lia|exact Fs'].
    - intros i r Hi [Lr Fr]. eapply gq_bind; [eapply gq_getitem; [exact HP|noc|lia|exact Fr]|]. intros a Ha.
      eapply gq_bind; [eapply gq_pop_at; lia|]. intros old Ho.
      eapply gq_bind; [eapply gq_compare; [exact HP|noc|exact Ha|exact Ho]|]. intros c _.
      destruct c; [|apply gq_ret; split; [lia|exact Fr]].
      eapply gq_bind with (Φ := fun _ => True); [eapply gq_pop_set; [exact HP|noc|lia|exact Ha]|]. intros _ _. apply gq_ret.
      destruct r as [|r0 r]; [cbn in Lr; lia|]. cbn [tl List.length] in *. split; [lia|]. inversion Fr; assumption.
    - intros r [H1 H2]. split; [lia|exact H2]. }
  intros r [Lr Fr]. set (m := k - List.length r). assert (Hm : m <= n1) by lia.
  eapply g_mono with (a := m + 0) (b := m + 0); [|lia|lia|intros w2 y _ T; exact T].
  eapply g_bind with (Φ := fun w' l => List.length l = m /\ Forall (ok w') l).
  { destruct (one && (m =? 1))%bool eqn:E1.
    - apply andb_prop in E1. destruct E1 as [_ E1]. apply Nat.eqb_eq in E1. clearbody m. subst m.
      eapply g_mono with (a := 1 + 0) (b := 1 + 0) (Φ := fun w' l => List.length l = 1 /\ Forall (ok w') l); [|lia|lia|intros w2 y _ T; exact T].
      eapply g_bind with (Φ := ok); [apply (g_random_agent E P feas (@anyatt unit)); [exact HP|noc|eapply gea_plain_none; [exact HP|intros; exact I]]|].
      intros a w' _ Ha. apply g_ret. split; [reflexivity|]. constructor; [exact Ha|constructor].
    - eapply g_population_with; [exact HP|noc|exact Hmd|]. apply ga_of_ok, plain_gea_ok, HP. }
  intros l w2 Hw2 [Ll Fl]. apply g_quiet. apply gq_set_x. rewrite app_length. split; [lia|]. apply Forall_app. split; [|exact Fl].
  eapply oks_mono; [exact HP|exact Hw2|exact Fr].
Qed.
Lemma g_sfo_moves w sp (body : nat -> list (agent unit) -> M unit (list (agent unit)) (list (agent unit))) : List.length sp = k -> Forall (ok w) sp ->
  (forall w' i r, incl w w' -> i < k -> List.length r = k -> Forall (ok w') r ->
    gt w' 0 1 (body i r) (fun w' sp' => List.length sp' = k /\ Forall (ok w') sp')) ->
  gt w 0 k (for_acc k 0 sp body) (fun w' sp' => List.length sp' = k /\ Forall (ok w') sp').
Proof.
  intros Ls Fs Hb. eapply g_mono; [eapply g_for_acc with (a := 0) (b := 1) (J := fun _ w' r => List.length r = k /\ Forall (ok w') r)|lia|lia|].
  - split; assumption.
  - intros i w' r Hw Hi [Lr Fr]. apply Hb; auto; lia.
  - intros w2 y _ T. exact T.
Qed.
Lemma g_sfo_sardines w choose ap eps ep : (forall w', gq w' choose (fun _ => True)) ->
  gt w 0 k (sfo_sardines E P md choose ap eps k ep) (fun w' sp' => List.length sp' = k /\ Forall (ok w') sp').
Proof.
  intros Hch. unfold sfo_sardines. eapply g_qbind; [apply gq_sfo_best|]. intros sb _. eapply g_qbind; [apply gq_sardines|]. intros sp [Ls Fs].
  destruct (_ < _)%F.
  - eapply g_qbind with (Φ := fun _ => True); [gquiet HP|]. intros list1 _.
    apply g_sfo_moves; auto. intros w' i r _ Hi Lr Fr. destruct (existsb _ _).
    + eapply g_qbind; [eapply gq_getitem; [exact HP|noc|lia|exact Fr]|]. intros a Ha.
      eapply g_qbind; [apply Hch|]. intros list2 _. eapply g_qbind; [gquiet HP|]. intros x Hx. apply g_sfo_move; assumption.
    + eapply g_mono with (a := 0) (b := 0) (Φ := fun w' sp' => List.length sp' = k /\ Forall (ok w') sp'); [apply g_ret; auto|lia|lia|intros w2 y _ T; exact T].
  - apply g_sfo_moves; auto. intros w' i r _ Hi Lr Fr. 
    eapply g_qbind; [eapply gq_getitem; [exact HP|noc|lia|exact Fr]|]. intros a Ha.
    eapply g_qbind with (Φ := fun _ => True); [gquiet HP|]. intros gb _. eapply g_qbind; [gquiet HP|]. intros x Hx. apply g_sfo_move; assumption.
Qed.
Lemma g_isfo_sardines w epochs ep : gt w 0 k (isfo_sardines E P md k epochs ep) (fun w' sp' => List.length sp' = k /\ Forall (ok w') sp').
Proof.
  unfold isfo_sardines. eapply g_qbind; [apply gq_sardines|]. intros sp [Ls Fs].
  apply g_sfo_moves; auto. intros w' i r _ Hi Lr Fr. 
  eapply g_qbind; [eapply gq_getitem; [exact HP|noc|lia|exact Fr]|]. intros a Ha.
  eapply g_qbind with (Φ := fun _ => True); [gquiet HP|]. intros gb _. eapply g_qbind; [gquiet HP|]. intros x Hx. apply g_sfo_move; assumption.
Qed.
Lemma g_sfo_phases w choose ap eps ep : (forall w', gq w' choose (fun _ => True)) ->
  gt w n1 (n1 + (k + (k + n1))) (sfo_phases E P md choose ap eps n1 k ep) (fun _ _ => True).
Proof.
  intros Hch. unfold sfo_phases. eapply g_mono with (a := n1 + (0 + 0)) (b := n1 + (k + (k + n1))); [|lia|lia|intros w2 y _ T; exact T].
  eapply g_bind with (Φ := fun _ _ => True).
  { eapply g_greedy_each; [exact HP|noc|qcorrect HP|qgea|reflexivity|]. intros w' i _ Hi.
    eapply gq_bind with (Φ := fun _ => True); [gquiet HP|]. intros xi _. eapply gq_bind; [apply gq_sfo_best|]. intros sb _. gquiet HP. }
  intros _ w1 _ _. eapply g_bind; [apply g_sfo_sardines, Hch|]. intros sp w2 _ [Ls Fs]. apply g_sfo_hunt; assumption.
Qed.
Lemma g_isfo_evolve w epochs ep :
  gt w n1 (n1 + (k + (k + n1))) (isfo_evolve E P md n1 k epochs ep) (fun _ _ => True).
Proof.
  unfold isfo_evolve. eapply g_mono with (a := n1 + (0 + 0)) (b := n1 + (k + (k + n1))); [|lia|lia|intros w2 y _ T; exact T].
  eapply g_bind with (Φ := fun _ _ => True).
  { eapply g_greedy_each; [exact HP|noc|qcorrect HP|qgea|reflexivity|]. intros w' i _ Hi.
    eapply gq_bind with (Φ := fun _ => True); [gquiet HP|]. intros gb _. eapply gq_bind with (Φ := fun _ => True); [gquiet HP|]. intros xi _.
    eapply gq_bind; [apply gq_sfo_best|]. intros sb _. gquiet HP. }
  intros _ w1 _ _. eapply g_bind; [apply g_isfo_sardines|]. intros sp w2 _ [Ls Fs]. apply g_sfo_hunt; assumption.
Qed.
End SFO.
Lemma sfo_sound E P md k n epochs ev : 5 <= n <= k -> 0 < epochs -> md <> Process ->
  (forall feas nd n0 ep s0 w, params E P feas (@anyatt unit) (false = true /\ obj_num P feas) -> 1 <= ep ->
    gt P feas (@anyatt unit) (eq n) (fun L x => List.length x = k /\ Forall (good P feas (@anyatt unit) L) x) (false = true /\ obj_num P feas) nd n0 n s0 w
      n (n + (k + (k + n))) (ev ep) (fun _ _ => True)) ->
  sound_run_gen E P md (with_init (agent_algo E md (generate_empty_agent P tt) (ga_of P (generate_empty_agent P tt)) n epochs true (ret tt) (ret tt) ev) (sfo_more E P md k))
    (fun _ => True) (fun _ => True) (fun _ => True) (eq n) false (n + k) (n + k) n (n + (k + (k + n))).
Proof.
  intros Hn He Hmd Hev.
  apply (sound_more E P md _ _ n epochs true (ret tt) _ (ret tt) ev (fun _ => True) (fun _ => True) (fun _ => True) (fun _ => @anyatt unit) (fun _ _ _ => True)
    (fun feas L x => List.length x = k /\ Forall (good P feas (@anyatt unit) L) x) (fun feas L x => List.length x = k /\ Forall (good P feas (@anyatt unit) L) x)); auto; try lia.
  - intros feas rows _ _ Hp. apply plain_gea_ok, Hp.
  - intros feas Hp. apply ga_of_ok, plain_gea_ok, Hp.
  - intros feas Hp. apply vars_none; auto.
  - intros feas nd n0 s HP _ HS. unfold sfo_more. apply wp_bind.
    eapply wp_mono; [eapply (start_population E P md); [exact HP|noc|exact Hmd|apply ga_of_ok, plain_gea_ok, HP|exact HS]|].
    intros l s' (H1 & H2 & H3 & H4 & H5 & H6 & H7). unfold set_x, wp. split; [|simpl; lia].
    destruct H5. constructor; auto. exists (s_log s'). split; [apply incl_refl|]. cbn. auto.
  - intros feas nd n0 s HP _ HI. eapply main_none. exact HI.
  - intros feas nd n0 HP _. apply contract_free. intros ep s0 w Hep _. apply Hev; assumption.
Qed.
Theorem C65_ImprovedSFO E P md k n epochs : 5 <= n <= k -> 0 < epochs -> md <> Process ->
  sound_run_gen E P md (improved_sfo E P md k n epochs) (fun _ => True) (fun _ => True) (fun _ => True) (eq n)
    false (n + k) (n + k) n (n + (k + (k + n))).
Proof.
  intros Hn He Hmd. apply sfo_sound; auto. intros. apply g_isfo_evolve; auto; lia.
Qed.
Theorem C65_OriginalSFO_returning E P md ap eps k n epochs : 5 <= n <= k -> 0 < epochs -> md <> Process ->
  sound_when E P md (original_sfo E P md ap eps k n epochs) (fun _ => True) (fun _ => True) (fun _ => True) (eq n)
    false (n + k) (n + k) n (n + (k + (k + n))).
Proof.
  intros Hn He Hmd. pose (ch := fun ep => orelse (sfo_dims E P ap eps ep) (ret [])).
  eapply (returns_of _ _ _ _ (fun ep => sfo_phases E P md (ch ep) ap eps n k ep)).
  - intros ep. cbn [al_evolve original_sfo with_init agent_algo]. unfold sfo_evolve, sfo_phases, sfo_sardines, ch. refi.
  - change (with_evolve _ _) with (with_init (agent_algo E md (generate_empty_agent P tt) (ga_of P (generate_empty_agent P tt)) n epochs true (ret tt) (ret tt)
      (fun ep => sfo_phases E P md (ch ep) ap eps n k ep)) (sfo_more E P md k)).
    apply sfo_sound; auto. intros feas nd n0 ep s0 w HP Hep. apply g_sfo_phases; auto; try lia. intros w'.
    eapply gq_qt; [exact HP|noc|]. unfold ch. apply q_orelse; [apply qp_choice_noreplace|apply q_ret; exact I].
Qed.

(** ** SARO *)
Section SARO.
Variables (E : env) (P : problem) (md : mode) (feas : vec -> Prop) (IL : nat -> Prop) (C : Prop) (nd n0 n1 n : nat).
Variable s0 : st unit (list nat).
Notation IX := (fun (_ : list vec) (x : list nat) => List.length x = n).
Hypothesis HP : params E P feas (@anyatt unit) (false = true /\ C).
Hypothesis Hn : 2 <= n.
Notation gq := (gq P feas (@anyatt unit) IL IX (false = true /\ C) nd n0 n1 s0).
Notation gt := (gt P feas (@anyatt unit) IL IX (false = true /\ C) nd n0 n1 s0).
Notation ok := (ok P feas (@anyatt unit)).
Definition halves (w : list vec) (xm : list (agent unit) * list (agent unit)) : Prop :=
  List.length (fst xm) = n /\ Forall (ok w) (fst xm) /\ List.length (snd xm) = n /\ Forall (ok w) (snd xm).
Lemma gq_usn (w : list vec) : gq w get_x (fun x => List.length x = n).
Proof. eapply gq_mono; [apply gq_get_x|]. intros x (L & HL & Lx). exact Lx. Qed.
Lemma g_saro_select w (restart : bool) mu new xm : List.length new = n -> Forall (ok w) new -> halves w xm ->
  gt w 0 (if restart then n else 0) (saro_select E P restart mu n new xm) halves.
Proof.
  intros Ln Fn Hh. unfold saro_select.
  eapply g_mono with (a := n * 0) (b := n * (if restart then 1 else 0)); [|lia|destruct restart; lia|].
  - eapply g_for_acc with (J := fun _ => halves); [exact Hh|]. intros i w' [px pm] Hw Hi (L1 & F1 & L2 & F2). cbn [fst snd] in *.
    eapply g_qbind; [eapply gq_getitem; [exact HP|noc|lia|eapply oks_mono; [exact HP|exact Hw|exact Fn]]|]. intros a Ha.
    eapply g_qbind; [eapply gq_getitem; [exact HP|noc|lia|exact F1]|]. intros x Hx.
    eapply g_qbind; [eapply gq_compare; [exact HP|noc|exact Ha|exact Hx]|]. intros c _.
    eapply g_qbind; [apply gq_usn|]. intros usn Lu.
    eapply g_qbind with (Φ := halves w').
    { destruct c.
      - eapply gq_bind with (Φ := fun j => j < n); [eapply gq_qt; [exact HP|noc|]; eapply q_mono; [apply q_integers; lia|intros j Hj; exact (proj2 Hj)]|]. intros j Hj.
        eapply gq_bind; [apply gq_set_x; rewrite upd_length; exact Lu|]. intros _ _. apply gq_ret. unfold halves. cbn [fst snd]. rewrite !upd_length.
        repeat split; auto; apply upd_Forall; auto.
      - eapply gq_bind with (Φ := fun _ => True); [eapply gq_lift; [exact HP|noc|]; destruct (getitem_lt usn i) as (u & Eu & _); [cbv beta in Lu; rewrite Lu; lia|]; eauto|]. intros u _.
        eapply gq_bind; [apply gq_set_x; rewrite upd_length; exact Lu|]. intros _ _. apply gq_ret. unfold halves. cbn [fst snd]. auto. }
    intros r Hr. eapply g_qbind; [apply gq_usn|]. intros usn' Lu'.
    eapply g_qbind with (Φ := fun _ => True); [eapply gq_lift; [exact HP|noc|]; destruct (getitem_lt usn' i) as (u & Eu & _); [cbv beta in Lu'; rewrite Lu'; lia|]; eauto|]. intros u _.
    destruct restart; cbn [andb].
    + destruct (mu <? u).
      * eapply g_mono with (a := 1 + 0) (b := 1 + 0) (Φ := halves); [|lia|lia|intros w2 y _ T; exact T].
        eapply g_bind with (Φ := ok); [apply (g_random_agent E P feas (@anyatt unit)); [exact HP|noc|eapply gea_plain_none; [exact HP|intros; exact I]]|].
        intros b w2 Hw2 Hb. apply g_quiet. eapply gq_bind; [apply gq_set_x; rewrite upd_length; exact Lu'|]. intros _ _. apply gq_ret.
        destruct Hr as (M1 & G1 & M2 & G2). unfold halves. cbn [fst snd]. rewrite upd_length. repeat split; auto.
        { apply upd_Forall; [|exact Hb]. eapply oks_mono; [exact HP|exact Hw2|exact G1]. } { eapply oks_mono; [exact HP|exact Hw2|exact G2]. }
      * eapply g_mono with (a := 0) (b := 0) (Φ := halves); [apply g_ret; exact Hr|lia|lia|intros w2 y _ T; exact T].
    + apply g_ret; exact Hr.
  - intros w2 y _ T. exact T.
Qed.
Lemma g_saro_next w social individual se mu ep : n1 = 2 * n ->
  gt w (2 * n) (3 * n) (saro_next E P md social individual se mu n ep) (fun w' q => Forall (ok w') q /\ List.length q = 2 * n).
Proof.
  intros H1. unfold saro_next. eapply g_qbind; [eapply gq_get_pop|]. intros p [Lp Fp].
  assert (Lx : List.length (slice 0 n p) = n) by (rewrite slice_length; lia).
  assert (Lm : List.length (slice n (2 * n) p) = n) by (rewrite slice_length; lia).
  eapply g_mono with (a := n + (0 + (n + 0))) (b := n + (0 + (n + n))) (Φ := fun w' q => Forall (ok w') q /\ List.length q = 2 * n); [|lia|lia|intros w2 y _ T; exact T].
  eapply g_bind.
  { eapply g_new_agents; [exact HP|noc|qcorrect HP|qgea|]. intros w' i Hw Hi. pose proof (oks_mono E P feas (@anyatt unit) _ HP _ _ _ Hw Fp) as Fp'.
    eapply gq_bind; [eapply gq_qt; [exact HP|noc|]; apply q_choice1; intros Z; pose proof (others_length (2 * n) [i]) as T; rewrite Z in T; cbn [List.length] in T; lia|].
    intros k Hk. apply others_in in Hk.
    eapply gq_bind; [eapply gq_getitem; [exact HP|noc|lia|apply slice_Forall; exact Fp']|]. intros x Hx.
    eapply gq_bind; [eapply gq_getitem; [exact HP|noc|lia|exact Fp']|]. intros y Hy.
    eapply gq_bind; [eapply gq_fitness; [exact HP|noc|exact Hx]|]. intros fx _.
    eapply gq_bind; [eapply gq_fitness; [exact HP|noc|exact Hy]|]. intros fy _. gquiet HP. }
  intros new w1 Hw1 [Ln Fn]. eapply g_bind.
  { apply g_saro_select with (restart := false); [exact Ln|exact Fn|]. unfold halves. cbn [fst snd]. repeat split; auto; apply slice_Forall; eapply oks_mono; eauto. }
  intros [px pm] w2 Hw2 (M1 & G1 & M2 & G2). cbn [fst snd] in *. eapply g_bind.
  { eapply g_new_agents; [exact HP|noc|qcorrect HP|qgea|]. intros w' i Hw Hi.
    pose proof (oks_mono E P feas (@anyatt unit) _ HP _ _ _ Hw G1) as G1'. pose proof (oks_mono E P feas (@anyatt unit) _ HP _ _ _ Hw G2) as G2'.
    eapply gq_bind; [eapply gq_qt; [exact HP|noc|]; apply choose2_ok; pose proof (others_length (2 * n) [i]) as T; cbn [List.length] in T; lia|].
    intros [k1 k2] [K1 K2]. cbn [fst snd] in K1, K2. apply others_in in K1. apply others_in in K2.
    eapply gq_bind with (Φ := fun _ => True); [gquiet HP|]. intros gb _.
    eapply gq_bind; [eapply gq_getitem; [exact HP|noc|lia|exact G1']|]. intros x Hx.
    eapply gq_bind; [eapply gq_getitem; [exact HP|noc|rewrite app_length; lia|apply Forall_app; split; assumption]|]. intros y1 Hy1.
    eapply gq_bind; [eapply gq_getitem; [exact HP|noc|rewrite app_length; lia|apply Forall_app; split; assumption]|]. intros y2 Hy2. gquiet HP. }
  intros new2 w3 Hw3 [Ln2 Fn2]. eapply g_mono with (a := 0 + 0) (b := n + 0) (Φ := fun w' q => Forall (ok w') q /\ List.length q = 2 * n); [|lia|lia|intros w4 y _ T; exact T].
  eapply g_bind.
  { apply g_saro_select with (restart := true); [exact Ln2|exact Fn2|]. unfold halves. cbn [fst snd]. repeat split; auto; eapply oks_mono; eauto. }
  intros [px' pm'] w4 Hw4 (M3 & G3 & M4 & G4). cbn [fst snd] in *. apply g_ret. rewrite app_length. split; [apply Forall_app; auto|lia].
Qed.
End SARO.
Lemma saro_sound E P md social individual se mu n epochs : 5 <= n -> 0 < epochs -> md <> Process ->
  sound_run_gen E P md (saro E P md social individual se mu n epochs) (fun _ => True) (fun _ => True) (fun _ => True) (eq (2 * n)) false (2 * n) (2 * n) (2 * n) (3 * n).
Proof.
  intros Hn He Hmd.
  assert (T : sound_run_gen E P md (saro E P md social individual se mu n epochs) (fun _ => True) (fun _ => True) (fun _ => True) (eq (2 * n)) false (2 * n + 0) (2 * n + 0) (2 * n) (3 * n)).
  2:{ rewrite !Nat.add_0_r in T. exact T. }
  apply (sound_gen E P md _ (fun _ => True) (fun _ => True) (fun _ => True) (fun _ => @anyatt unit)
    (fun _ _ x => List.length x = n) (fun _ _ x => List.length x = n) (eq (2 * n)) false (2 * n) (2 * n) 0 0 (2 * n) (3 * n)); auto.
  - intros m <-. lia.
  - intros feas starting HP _ Hst _ s Hf _.
    assert (Hga : forall X, ga_ok (X := X) P feas (@anyatt unit) (ga_of P (generate_empty_agent P tt))) by (intros; apply ga_of_ok, plain_gea_ok, HP).
    cbn [al_init_vars al_init al_pop_size saro] in *. unfold saro_vars. apply wp_bind, wp_bind, wp_ret. unfold set_x, wp at 1. cbv beta iota.
    set (s1 := with_x s (repeat 0 n)).
    assert (F1 : fresh s1) by exact Hf. assert (X1 : List.length (s_x s1) = n) by apply repeat_length. 
    change (wp (before_initialization P md (saro E P md social individual se mu n epochs) starting ;;; saro_init E P md n)
      (fun _ s' => Start P feas (@anyatt unit) (eq (2 * n)) (fun _ x => List.length x = n) (false = true /\ obj_num P feas) (missed md n starting) (s_nfe s1) s' /\
        2 * n <= List.length (s_log s') <= 2 * n) s1). clearbody s1.
    apply wp_bind. destruct starting as [rows|].
    + eapply wp_mono; [apply (before_initialization_ok P md feas (@anyatt unit) (pr_mono _ _ _ _ _ HP) (pr_mm _ _ _ _ _ HP) (eq n) (fun _ x => List.length x = n)
        (false = true /\ obj_num P feas) (pr_cov _ _ _ _ _ HP) (saro E P md social individual se mu n epochs) rows); auto|].
      { intros x Hx s2. cbn [al_ga saro]. eapply wp_mono; [apply (Hga _ s2 (Some x) Hx)|]. intros a s' (H1 & H2 & H3 & H4).
        split; [exact H1|]. split; [exact H3|]. split; [rewrite H2; exact Hx|]. apply H4; left; reflexivity. }
      { intros x Hx s2. cbn [al_ga saro]. eapply wp_mono; [apply (Hga _ s2 (Some x) Hx)|]. intros a s' (H1 & H2 & H3 & H4). exact H2. }
      { intros _. apply gea_ok_contract, plain_gea_ok, HP. }
      intros [] s2 (S2 & L2 & M2). unfold saro_init. apply wp_bind, wp_get_pop. pose proof (st_len _ _ _ _ _ _ _ _ _ S2) as Hl.
      pose proof (st_good _ _ _ _ _ _ _ _ _ S2) as Hg. destruct (s_pop s2) as [|a0 p] eqn:Ep; [cbn in Hl; lia|]. apply wp_bind.
      eapply wp_mono; [eapply (start_population E P md); [exact HP|noc|exact Hmd|apply Hga|exact S2]|].
      intros l s' (H1 & H2 & H3 & H4 & H5 & H6 & H7). unfold set_pop, wp. rewrite L2 in H7. destruct Hst as (Hr & _). split; [|cbn [with_pop s_log]; lia].
      eapply start_set; [noc|exact H5| |].
      * rewrite app_length, H1, <- Hl. lia.
      * apply Forall_app. split; [|exact H2]. eapply Forall_impl; [|exact Hg]. intros a. apply good_mono; [apply HP|exact H6].
    + apply wp_ret. unfold saro_init. destruct F1 as (F1 & F2). pose proof F1 as F1'. pose proof (conj F1 F2 : fresh s1) as F3. apply wp_bind, wp_get_pop. 
      pose proof (start_fresh P feas (@anyatt unit) (fun _ x => List.length x = n) (false = true /\ obj_num P feas) s1 F3 X1) as S1.
      assert (Ep : s_pop s1 = []) by tauto. rewrite Ep. assert (El : s_log s1 = []) by tauto. apply wp_bind.
      eapply wp_mono; [eapply (start_population E P md); [exact HP|noc|exact Hmd|apply Hga|exact S1]|].
      intros l s' (H1 & H2 & H3 & H4 & H5 & H6 & H7). unfold set_pop, wp. rewrite El in H7. cbn [List.length] in H7. split; [|cbn [with_pop s_log]; lia].
      replace (missed md n None) with 0 by (unfold missed, lost; destruct md; congruence).
      eapply start_set; [noc|exact H5|auto|exact H2].
  - intros feas nd HP _. apply skip_before_main; auto.
  - intros feas nd n0 HP _. apply contract_free_len; [noc|]. intros ep s0 w Hep HI.
    eapply g_mono; [apply g_saro_next; [exact HP|lia|symmetry; apply (i_len _ _ _ _ _ _ _ _ _ HI)]|lia|lia|].
    intros w' q _ [Fq Lq]. auto.
Qed.
Theorem C65_DevSARO E P md se mu n epochs : 5 <= n -> 0 < epochs -> md <> Process ->
  sound_run_gen E P md (dev_saro E P md se mu n epochs) (fun _ => True) (fun _ => True) (fun _ => True) (eq (2 * n)) false (2 * n) (2 * n) (2 * n) (3 * n).
Proof. apply saro_sound. Qed.
Theorem C65_OriginalSARO E P md se mu n epochs : 5 <= n -> 0 < epochs -> md <> Process ->
  sound_run_gen E P md (original_saro E P md se mu n epochs) (fun _ => True) (fun _ => True) (fun _ => True) (eq (2 * n)) false (2 * n) (2 * n) (2 * n) (3 * n).
Proof. apply saro_sound. Qed.

(** ** BCO *)
(** The returned target is not that of the returned position: while swimming, the position is corrected and its target is that of the
    position before correction (BCO.py:117-119). *)
Theorem C65_OriginalBCO_refuted : exists g s',
  solve demo_env (demo_prob Max sphere true) Single (original_bco demo_env (demo_prob Max sphere true) (dec 1 100) (fZ 2) 2 4 (dec 1 10) 6 2) None None (st0 []) = Ok (g, s') /\
  exists t, tgt g = Some t /\ feq (t_fit t) (sphere (sol g)) = false.
Proof.
  assert (T : match solve demo_env (demo_prob Max sphere true) Single (original_bco demo_env (demo_prob Max sphere true) (dec 1 100) (fZ 2) 2 4 (dec 1 10) 6 2) None None (st0 []) with
              | Ok (g, _) => match tgt g with Some t => negb (feq (t_fit t) (sphere (sol g))) | None => false end | _ => false end = true) by (vm_compute; reflexivity).
  destruct (solve _ _ _ _ _ _ _) as [[g s']|]; [|discriminate]. exists g, s'. split; [reflexivity|].
  destruct (tgt g) as [t|]; [|discriminate]. exists t. split; [reflexivity|]. destruct (feq _ _); [discriminate|reflexivity].
Qed.

Print Assumptions C64_OriginalDBO.
Print Assumptions C64_DevEFO.
Print Assumptions C65_OriginalEFO.
Print Assumptions C65_OriginalHGSO.
Print Assumptions C65_OriginalCOA.
Print Assumptions C65_ImprovedSFO.
Print Assumptions C65_OriginalSFO_returning.
Print Assumptions C65_DevSARO.
Print Assumptions C65_OriginalSARO.
Print Assumptions C65_OriginalBCO_refuted.
