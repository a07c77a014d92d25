(** What the algorithm classes modelled in MClass27 guarantee. *)
From Coq Require Import Permutation.
From Verif Require Import Prelude Fl MCore MHelp MAlg MAlg2 MAlg3 MAlg4 MAlg5 MAlg6 MAlg7 MAlg8 SpecCore SpecRun SpecAlg SpecWhen Demo
  PSelect PLogic PSolve PRun PAlg PFree PClass PAlg2 PAlg3 PAlg4 PAlg5 PAlg6 PAlg7 PAlg8 PAlg9 PRef PElse PAlg10 PAlg11 PAlg13 PAlg14 AClass14 AClass18 AClass19 AClass20 AClass21 AClass24 AClass25
  AClass26 MClass27.

(** ** DevSMO: the groups *)
Lemma cdiv_mul a b : 0 < b -> a <= b * cdiv a b /\ b * cdiv a b < a + b.
Proof.
  intros Hb. unfold cdiv. pose proof (Nat.div_mod_eq (a + b - 1) b) as D. pose proof (Nat.mod_upper_bound (a + b - 1) b ltac:(lia)) as U.
  generalize dependent ((a + b - 1) / b). intros q D. nia.
Qed.
Lemma cdiv_lt a b i : 0 < b -> (i * b < a <-> i < cdiv a b).
Proof. intros Hb. destruct (cdiv_mul a b Hb). split; intros H1; nia. Qed.
Lemma cdiv_pos a b : 0 < a -> 0 < b -> 0 < cdiv a b.
Proof. intros Ha Hb. destruct (cdiv_mul a b Hb). nia. Qed.
Lemma filter_seq c g : c <= g -> filter (fun i => i <? c) (seq 0 g) = seq 0 c.
Proof.
  intros H. replace g with (c + (g - c)) by lia. rewrite seq_app, filter_app. replace (filter _ (seq 0 c)) with (seq 0 c).
  - replace (filter _ (seq (0 + c) (g - c))) with (@nil nat); [apply app_nil_r|]. symmetry.
    assert (T : forall k s, c <= s -> filter (fun i => i <? c) (seq s k) = []).
    { induction k as [|k IH]; intros s Hs; [reflexivity|]. cbn [seq filter]. destruct (s <? c) eqn:El; [apply Nat.ltb_lt in El; lia|]. apply IH. lia. }
    apply T. lia.
  - symmetry. assert (T : forall k s, s + k <= c -> filter (fun i => i <? c) (seq s k) = seq s k).
    { induction k as [|k IH]; intros s Hs; [reflexivity|]. cbn [seq filter]. destruct (s <? c) eqn:El; [|apply Nat.ltb_ge in El; lia]. f_equal. apply IH. lia. }
    apply T. lia.
Qed.
Lemma concat_slices {T} k (p : list T) c : List.concat (map (fun i => firstn k (skipn (i * k) p)) (seq 0 c)) = firstn (c * k) p.
Proof.
  induction c as [|c IH]; [reflexivity|]. rewrite seq_S, map_app, concat_app, IH. cbn [map List.concat]. rewrite app_nil_r. cbn [Nat.add].
  replace (S c * k) with (c * k + k) by lia. rewrite <- (firstn_skipn (c * k) p) at 3. rewrite firstn_app, firstn_firstn. rewrite Nat.min_r by lia.
  rewrite firstn_length. destruct (le_lt_dec (c * k) (List.length p)) as [H|H].
  - rewrite Nat.min_l by exact H. replace (c * k + k - c * k) with k by lia. reflexivity.
  - rewrite (skipn_all2 p) by lia. rewrite !firstn_nil. reflexivity.
Qed.
Lemma split_eq g (p : list (agent unit)) : 0 < g -> p <> [] -> let k := cdiv (List.length p) g in
  smo_split g p = map (fun i => firstn k (skipn (i * k) p)) (seq 0 (cdiv (List.length p) k)).
Proof.
  intros Hg Hp k. unfold smo_split. cbv zeta. fold k. f_equal.
  assert (Hl : 0 < List.length p) by (destruct p; [contradiction|cbn; lia]). pose proof (cdiv_pos _ _ Hl Hg) as Hk. fold k in Hk.
  rewrite <- (filter_seq (cdiv (List.length p) k) g).
  - apply filter_ext. intros i. pose proof (cdiv_lt (List.length p) k i Hk) as T. destruct (i * k <? _) eqn:E1, (i <? _) eqn:E2; auto.
    + apply Nat.ltb_lt in E1. apply Nat.ltb_ge in E2. lia.
    + apply Nat.ltb_ge in E1. apply Nat.ltb_lt in E2. lia.
  - destruct (Nat.le_gt_cases (cdiv (List.length p) k) g) as [H|H]; [exact H|]. apply (cdiv_lt _ _ _ Hk) in H. destruct (cdiv_mul (List.length p) g Hg). fold k in H0, H1. nia.
Qed.
(** The groups together are the population, in order; none is empty. *)
Lemma split_spec g (p : list (agent unit)) : 0 < g -> p <> [] ->
  List.concat (smo_split g p) = p /\ List.length (smo_split g p) = cdiv (List.length p) (cdiv (List.length p) g) /\ Forall (fun q => q <> []) (smo_split g p).
Proof.
  intros Hg Hp. rewrite (split_eq g p Hg Hp). cbv zeta. set (k := cdiv (List.length p) g).
  assert (Hl : 0 < List.length p) by (destruct p; [contradiction|cbn; lia]). pose proof (cdiv_pos _ _ Hl Hg) as Hk. fold k in Hk.
  split; [|split].
  - rewrite concat_slices. apply firstn_all2. destruct (cdiv_mul (List.length p) k Hk). lia.
  - rewrite map_length, seq_length. reflexivity.
  - apply Forall_forall. intros q Hq. apply in_map_iff in Hq. destruct Hq as (i & <- & Hi). apply in_seq in Hi. assert (H : i * k < List.length p) by (apply cdiv_lt; lia).
    intros E0. apply (f_equal (@List.length _)) in E0. rewrite firstn_length, skipn_length in E0. cbn in E0. lia.
Qed.
Lemma split_le g (p : list (agent unit)) : List.length (smo_split g p) <= g.
Proof. unfold smo_split. rewrite map_length. etransitivity; [apply filter_length_le|]. rewrite seq_length. lia. Qed.

Section SMO.
Variables (E : env) (P : problem).
Notation gea := (generate_empty_agent (A := unit) (X := troop) P tt).
Notation correct := (correct_solution P).
Notation group := (list (agent unit)).
(** The same statements; a draw from nothing gives nothing, a missing probability is not a number, a missing agent is the first one, and a loop without end
    makes the missing evaluations. *)
Definition smo_pick_total (m idx : nat) : M unit troop (list nat) := orelse (smo_pick E P m idx) (ret []).
Definition smo_chance_total (prob : vec) (i : nat) : M unit troop f64 := orelse (smo_chance prob i) (ret fnan).
Definition smo_other_total (g : group) (j : nat) : M unit troop (agent unit) := orelse (smo_other g j) (lift (getitem g 0)).
Definition smo_stuck (left : nat) (g : group) : M unit troop group := for_ left (fun _ => random_agent P gea ;;; ret tt) ;;; ret g.
Lemma ref_each f f' : (forall k g l, refines (f k g l) (f' k g l)) -> forall gs k ls, refines (smo_each f k gs ls) (smo_each f' k gs ls).
Proof.
  intros H. induction gs as [|g gs IH]; intros k ls; cbn [smo_each]; [apply ref_refl|]. destruct ls as [|l ls]; [apply ref_refl|].
  apply ref_bind; [apply H|]. intros g'. apply ref_bind; [apply IH|]. intros r. apply ref_refl.
Qed.
Lemma ref_tries size prob k fuel : forall left idx g,
  refines (smo_tries E P smo_chance smo_other (fun _ _ => raise Endless) size prob k fuel left idx g) (smo_tries E P smo_chance_total smo_other_total smo_stuck size prob k fuel left idx g).
Proof.
  induction fuel as [|f IH]; intros left idx g; destruct left as [|rest]; cbn [smo_tries]; try apply ref_refl; [apply ref_raise|].
  destruct (getitem g idx) as [a|e]; [|apply IH]. apply ref_bind; [apply ref_refl|intros u]. apply ref_bind; [apply ref_orelse|intros pr]. apply ref_if; [|apply IH].
  apply ref_bind; [apply ref_refl|intros d]. apply ref_bind; [apply ref_refl|intros j]. apply ref_bind; [apply ref_orelse|intros o].
  do 4 (apply ref_bind; [apply ref_refl|intros ?]). apply IH.
Qed.
Lemma ref_smo pr mg fuel n epochs ep :
  refines (smo_evolve E P (smo_pick E P) smo_chance smo_other (fun _ _ => raise Endless) pr mg fuel n epochs ep)
          (smo_evolve E P smo_pick_total smo_chance_total smo_other_total smo_stuck pr mg fuel n epochs ep).
Proof.
  unfold smo_evolve. apply ref_bind; [apply ref_refl|intros [[gs ls] [cs gc]]]. apply ref_bind.
  { apply ref_each. intros k g l. unfold smo_local. apply ref_for_acc. intros i g'. apply ref_bind; [apply ref_orelse|intros r; apply ref_refl]. }
  intros g1. do 3 (apply ref_bind; [apply ref_refl|intros ?]). cbv zeta. apply ref_bind; [|intros g2; apply ref_refl].
  apply ref_each. intros k g l. apply ref_tries.
Qed.

Variables (feas : vec -> Prop) (C : Prop) (nd n0 num n : nat).
Hypothesis HP : params E P feas (@anyatt unit) (false = true /\ C).
Hypothesis Hn : 0 < n.
Hypothesis Hg : 0 < num.
Hypothesis Hd : 0 < n_dims P.
Notation cov := (false = true /\ C).
Notation good := (good P feas (@anyatt unit)).
Notation G := (cdiv n (cdiv n num)).
(** All agents of the groups, which are [n] agents, and all leaders were evaluated. *)
Definition groups_ok (L : list vec) (gs : list group) : Prop :=
  List.length gs = G /\ List.length (List.concat gs) = n /\ Forall (fun g => g <> [] /\ Forall (good L) g) gs.
Definition troop_ok (L : list vec) (x : troop) : Prop :=
  groups_ok L (fst (fst x)) /\ List.length (snd (fst x)) = G /\ Forall (good L) (snd (fst x)) /\ List.length (fst (snd x)) = num.
Lemma groups_mono w w' gs : incl w w' -> groups_ok w gs -> groups_ok w' gs.
Proof. intros Hi (A1 & A2 & A3). split; [exact A1|]. split; [exact A2|]. eapply Forall_impl; [|exact A3]. intros g [B1 B2]. split; [exact B1|eapply oks_mono; [exact HP|exact Hi|exact B2]]. Qed.
Lemma groups_all w gs : groups_ok w gs -> Forall (good w) (List.concat gs).
Proof.
  intros (_ & _ & A3). induction A3 as [|g gs [_ B] _ IH]; cbn; [constructor|]. apply Forall_app. split; assumption.
Qed.
Lemma G_le : G <= num.
Proof.
  pose proof (split_le num (repeat (mkAgent [] None tt) n)) as H. destruct (split_spec num (repeat (mkAgent [] None tt) n) Hg) as (_ & L & _).
  - destruct n; [lia|discriminate].
  - rewrite L, repeat_length in H. exact H.
Qed.
Lemma split_ok w p : List.length p = n -> Forall (good w) p -> groups_ok w (smo_split num p).
Proof.
  intros Lp Fp. destruct (split_spec num p Hg) as (A1 & A2 & A3); [destruct p; [cbn in Lp; lia|discriminate]|]. rewrite Lp in A2. split; [exact A2|]. split; [rewrite A1; exact Lp|].
  rewrite Forall_forall in A3 |- *. intros g Hin. split; [apply A3, Hin|]. rewrite Forall_forall in Fp |- *. intros a Ha. apply Fp. rewrite <- A1. apply in_concat. exists g. auto.
Qed.
Lemma top_ok w g : g <> [] -> Forall (good w) g -> exists a, smo_top E P g = Ok a /\ good w a.
Proof.
  intros Hne Fg. destruct (good_best E P feas (@anyatt unit) cov HP w g Fg) as (ps & ix & Es & Hp & _). unfold smo_top. rewrite Es. cbn [fst].
  destruct (getitem_lt ps 0) as (a & Ea & _ & Ia). { rewrite (Permutation_length Hp). destruct g; [contradiction|cbn; lia]. }
  exists a. cbn. rewrite Ea. split; [reflexivity|]. rewrite Forall_forall in Fg. apply Fg. eapply Permutation_in; [exact Hp|exact Ia].
Qed.
Lemma tops_ok w gs : Forall (fun g => g <> [] /\ Forall (good w) g) gs -> exists ls, map_res (smo_top E P) gs = Ok ls /\ List.length ls = List.length gs /\ Forall (good w) ls.
Proof.
  induction 1 as [|g gs [B1 B2] _ (ls & El & Ll & Fl)]; cbn; [exists []; auto|]. destruct (top_ok w g B1 B2) as (a & Ea & Ga). rewrite Ea. cbn. rewrite El. exists (a :: ls). cbn. auto.
Qed.
Lemma smo_start_ok (s : st unit troop) : Start P feas (@anyatt unit) (eq n) (fun _ _ => True) cov nd n0 s ->
  wp (smo_start E P num)
     (fun _ s' => Start P feas (@anyatt unit) (eq n) troop_ok cov nd n0 s' /\ List.length (s_log s) + 0 <= List.length (s_log s') <= List.length (s_log s) + 0) s.
Proof.
  intros HS. pose proof HS as []. unfold smo_start. apply wp_bind, wp_get_pop.
  pose proof (split_ok (s_log s) (s_pop s) ltac:(auto) st_good) as Hs. pose proof Hs as (A1 & _ & A3). destruct (tops_ok _ _ A3) as (ls & El & Ll & Fl).
  apply wp_bind. eapply wp_lift; [exact El|]. unfold wp, set_x. split; [|cbn [s_log]; rewrite Nat.add_0_r; split; apply le_n]. constructor; cbn; auto.
  exists (s_log s). split; [apply incl_refl|]. split; [exact Hs|]. cbn [fst snd]. split; [lia|]. split; [exact Fl|]. apply repeat_length.
Qed.
Variable s0 : st unit troop.
Notation gt := (gt P feas (@anyatt unit) (eq n) troop_ok cov nd n0 n s0).
Notation gq := (gq P feas (@anyatt unit) (eq n) troop_ok cov nd n0 n s0).
Notation ok := (ok P feas (@anyatt unit)).
Lemma g_each c d f gs : forall k w ls, List.length ls = List.length gs -> Forall (fun g => g <> [] /\ Forall (ok w) g) gs -> Forall (ok w) ls ->
  (forall w' k g l, g <> [] -> Forall (ok w') g -> ok w' l -> gt w' (c g) (d g) (f k g l) (fun w'' g' => List.length g' = List.length g /\ Forall (ok w'') g')) ->
  gt w (list_sum (map c gs)) (list_sum (map d gs)) (smo_each f k gs ls)
    (fun w' r => List.length r = List.length gs /\ List.length (List.concat r) = List.length (List.concat gs) /\ Forall (fun g => g <> [] /\ Forall (ok w') g) r).
Proof.
  induction gs as [|g gs IH]; intros k w ls Ll Fg Fl Hf; cbn [smo_each map list_sum fold_right].
  - apply g_ret. split; [reflexivity|]. split; [reflexivity|constructor].
  - destruct ls as [|l ls]; [discriminate|]. apply Forall_cons_iff in Fg. destruct Fg as [[Hne Fg] Fgs]. apply Forall_cons_iff in Fl. destruct Fl as [Hl Fl].
    eapply g_bind; [apply Hf; assumption|]. intros g' w1 Hw1 [Lg' Fg']. fold (list_sum (map c gs)). fold (list_sum (map d gs)).
    eapply g_mono with (a := list_sum (map c gs) + 0) (b := list_sum (map d gs) + 0)
      (Φ := fun w' r => List.length r = List.length (g :: gs) /\ List.length (List.concat r) = List.length (List.concat (g :: gs)) /\ Forall (fun g => g <> [] /\ Forall (ok w') g) r); [|lia|lia|auto].
    eapply g_bind; [apply IH|].
    + cbn in Ll. lia.
    + eapply Forall_impl; [|exact Fgs]. intros q [B1 B2]. split; [exact B1|eapply oks_mono; [exact HP|exact Hw1|exact B2]].
    + eapply oks_mono; [exact HP|exact Hw1|exact Fl].
    + exact Hf.
    + intros r w2 Hw2 (L1 & L2 & F2). apply g_ret. cbn [List.length List.concat]. rewrite !app_length. split; [lia|]. split; [lia|]. constructor; [|exact F2].
      split; [intros ->; destruct g; [contradiction|discriminate]|eapply oks_mono; [exact HP|exact Hw2|exact Fg']].
Qed.
Lemma sum_length (gs : list group) : list_sum (map (fun g => List.length g) gs) = List.length (List.concat gs).
Proof. induction gs as [|g gs IH]; cbn; [reflexivity|]. rewrite app_length. unfold list_sum in IH. lia. Qed.
Lemma sum_const (gs : list group) c : list_sum (map (fun _ => c) gs) = List.length gs * c.
Proof. induction gs as [|g gs IH]; cbn; [reflexivity|]. unfold list_sum in IH. lia. Qed.
Lemma g_local pr k w g l : Forall (ok w) g -> ok w l ->
  gt w (List.length g) (List.length g) (smo_local E P smo_pick_total pr k g l) (fun w' g' => List.length g' = List.length g /\ Forall (ok w') g').
Proof.
  intros Fg Hl. unfold smo_local.
  eapply g_mono; [apply (g_for_acc P feas (@anyatt unit) (eq n) troop_ok cov nd n0 n s0 w 1 1 (List.length g) 0 g _
    (fun i w' l => List.length l = List.length g /\ Forall (ok w') l))|lia|lia|]; [auto| |intros w' y _ H; exact H].
  intros i w1 g1 Hw1 Hi [L1 F1].
  eapply g_qbind with (Φ := fun _ => True).
  { eapply gq_qt; [exact HP|noc|]. apply q_orelse; [|apply q_ret; exact I]. unfold smo_pick. intros W k0 s y s' HR Em.
    assert (Hne : others (List.length g1) [i] <> [] \/ n_dims P = 0 \/ others (List.length g1) [i] = []) by (destruct (others (List.length g1) [i]); [auto|left; discriminate]).
    destruct Hne as [Hne|[Hz|He]].
    - assert (Q : qt P feas (@anyatt unit) (eq n) troop_ok cov nd n0 n s0 (repeat_M (n_dims P) (choice1 E (others (List.length g1) [i]))) (fun _ => True)).
      { eapply q_mono; [apply q_repeat, q_choice1, Hne|auto]. }
      specialize (Q W k0 s HR). unfold wp in Q. rewrite Em in Q. exact Q.
    - rewrite Hz in Hd. lia.
    - exfalso. rewrite He in Em. destruct (n_dims P) as [|d]; [lia|]. cbn in Em. discriminate. }
  intros r _. eapply g_qbind; [eapply gq_getitem; [exact HP|noc|lia|exact F1]|]. intros a Ha. eapply g_qbind; [gquiet HP|]. intros z _.
  eapply g_mono with (a := 1 + 0) (b := 1 + 0) (Φ := fun w' l => List.length l = List.length g /\ Forall (ok w') l); [|lia|lia|auto].
  eapply g_bind; [eapply g_gen_agent; [exact HP|noc|qcorrect HP|qgea]|]. intros b w2 Hw2 Hb.
  eapply g_qbind; [eapply gq_compare; [exact HP|noc|exact Hb|eapply good_mono; [apply HP|exact Hw2|exact Ha]]|]. intros c _. apply g_ret.
  assert (F2 : Forall (ok w2) g1) by (eapply oks_mono; [exact HP|exact Hw2|exact F1]).
  destruct c; [|auto]. split; [rewrite upd_length; exact L1|apply upd_Forall; assumption].
Qed.
Lemma g_tries size prob k fuel : 2 <= size -> forall left idx w g, g <> [] -> Forall (ok w) g ->
  gt w left left (smo_tries E P smo_chance_total smo_other_total smo_stuck size prob k fuel left idx g) (fun w' g' => List.length g' = List.length g /\ Forall (ok w') g').
Proof.
  intros Hs. induction fuel as [|f IH]; intros left idx w g Hne Fg; destruct left as [|rest]; cbn [smo_tries]; try (apply g_ret; auto; fail).
  - unfold smo_stuck. eapply g_mono with (a := S rest * 1 + 0) (b := S rest * 1 + 0) (Φ := fun w' g' => List.length g' = List.length g /\ Forall (ok w') g'); [|lia|lia|auto].
    eapply g_bind with (Φ := fun _ _ => True).
    { eapply g_for. intros i w1 Hw1 Hi. eapply g_mono with (a := 1 + 0) (b := 1 + 0) (Φ := fun _ _ => True); [|lia|lia|auto].
      eapply g_bind; [eapply g_random_agent; gprem HP|]. intros a w2 Hw2 Ha. apply g_ret. exact I. }
    intros _ w1 Hw1 _. apply g_ret. split; [reflexivity|eapply oks_mono; [exact HP|exact Hw1|exact Fg]].
  - destruct (getitem g idx) as [a|e] eqn:Eg; [|apply IH; assumption].
    assert (Ha : ok w a). { rewrite Forall_forall in Fg. apply Fg. destruct (getitem_split _ _ _ Eg) as (l1 & l2 & -> & _). apply in_or_app. right. left. reflexivity. }
    eapply g_qbind; [gquiet HP|]. intros u _. eapply g_qbind with (Φ := fun _ => True).
    { eapply gq_qt; [exact HP|noc|]. apply q_orelse; [|apply q_ret; exact I]. apply qp_lift. auto. }
    intros pr _. destruct (u < pr)%F; [|apply IH; assumption].
    eapply g_qbind; [eapply gq_qt; [exact HP|noc|]; apply q_integers; exact Hd|]. intros d _.
    eapply g_qbind; [eapply gq_qt; [exact HP|noc|]; apply q_choice1; intros E0; pose proof (others_length size [idx]) as Lo; rewrite E0 in Lo; cbn in Lo; lia|]. intros j _.
    eapply g_qbind with (Φ := ok w).
    { unfold smo_other_total. intros s Hw HG. unfold wp, orelse, smo_other, lift. destruct (getitem g j) as [o|e] eqn:Eo.
      - split; [|split; [exact Hw|exact HG]]. rewrite Forall_forall in Fg. apply Fg. destruct (getitem_split _ _ _ Eo) as (l1 & l2 & -> & _). apply in_or_app. right. left. reflexivity.
      - destruct g as [|a0 g]; [contradiction|]. cbn. apply Forall_cons_iff in Fg. split; [apply Fg|split; [exact Hw|exact HG]]. }
    intros o Ho. eapply g_qbind; [eapply gq_get_gb; noc|]. intros best Hb. eapply g_qbind; [gquiet HP|]. intros z _.
    eapply g_mono with (a := 1 + rest) (b := 1 + rest) (Φ := fun w' g' => List.length g' = List.length g /\ Forall (ok w') g'); [|lia|lia|auto].
    eapply g_bind; [eapply g_gen_agent; [exact HP|noc|qcorrect HP|qgea]|]. intros b w2 Hw2 Gb.
    eapply g_qbind; [eapply gq_compare; [exact HP|noc|exact Gb|eapply good_mono; [apply HP|exact Hw2|exact Hb]]|]. intros c _.
    assert (F2 : Forall (ok w2) g) by (eapply oks_mono; [exact HP|exact Hw2|exact Fg]).
    destruct c; [|apply IH; assumption].
    eapply g_mono; [apply IH; [|apply upd_Forall; assumption]|apply le_n|apply le_n|].
    + intros E0. apply (f_equal (@List.length _)) in E0. rewrite upd_length in E0. destruct g; [contradiction|discriminate].
    + intros w3 y _ [L3 F3]. rewrite upd_length in L3. auto.
Qed.
Lemma g_scatter pr w g l : Forall (ok w) g -> ok w l -> gt w (List.length g) (List.length g) (smo_scatter E P pr g l) (fun w' g' => List.length g' = List.length g /\ Forall (ok w') g').
Proof.
  intros Fg Hl. unfold smo_scatter.
  eapply g_mono; [apply (g_for_acc P feas (@anyatt unit) (eq n) troop_ok cov nd n0 n s0 w 1 1 (List.length g) 0 g _
    (fun i w' l => List.length l = List.length g /\ Forall (ok w') l))|lia|lia|]; [auto| |intros w' y _ H; exact H].
  intros i w1 g1 Hw1 Hi [L1 F1]. eapply g_qbind; [eapply gq_getitem; [exact HP|noc|lia|exact F1]|]. intros a Ha.
  eapply g_qbind; [gquiet HP|]. intros z1 _. eapply g_qbind; [gquiet HP|]. intros b _. eapply g_qbind; [gquiet HP|]. intros z _.
  eapply g_mono with (a := 1 + 0) (b := 1 + 0) (Φ := fun w' l => List.length l = List.length g /\ Forall (ok w') l); [|lia|lia|auto].
  eapply g_bind; [eapply g_gen_agent; [exact HP|noc|qcorrect HP|qgea]|]. intros b1 w2 Hw2 Hb. apply g_ret.
  split; [rewrite upd_length; exact L1|apply upd_Forall; [eapply oks_mono; [exact HP|exact Hw2|exact F1]|exact Hb]].
Qed.
Lemma g_decide pr lll gs : forall k w ls news cs, List.length ls = List.length gs -> List.length news = List.length gs -> k + List.length gs <= List.length cs ->
  Forall (fun g => g <> [] /\ Forall (ok w) g) gs -> Forall (ok w) ls -> Forall (ok w) news ->
  gt w 0 (List.length (List.concat gs)) (smo_decide E P pr lll k gs ls news cs)
    (fun w' r => List.length (fst (fst r)) = List.length gs /\ List.length (List.concat (fst (fst r))) = List.length (List.concat gs) /\
       Forall (fun g => g <> [] /\ Forall (ok w') g) (fst (fst r)) /\ List.length (snd (fst r)) = List.length ls /\ Forall (ok w') (snd (fst r)) /\ List.length (snd r) = List.length cs).
Proof.
  induction gs as [|g gs IH]; intros k w ls news cs L1 L2 Lc Fg Fl Fn; cbn [smo_decide].
  - apply g_ret. cbn. destruct ls; [|discriminate]. split; [reflexivity|]. split; [reflexivity|]. split; [constructor|]. split; [reflexivity|]. split; [constructor|reflexivity].
  - destruct ls as [|l ls]; [discriminate|]. destruct news as [|nw news]; [discriminate|]. apply Forall_cons_iff in Fg. destruct Fg as [[Hne Fg] Fgs].
    apply Forall_cons_iff in Fl. destruct Fl as [Hl Fl]. apply Forall_cons_iff in Fn. destruct Fn as [Hw Fn]. cbn [List.length] in *.
    destruct (getitem_lt cs k ltac:(lia)) as (c0 & Ec & _). eapply g_qbind with (Φ := fun y => y = c0); [eapply gq_lift; [exact HP|noc|]; exists c0; auto|]. intros y ->.
    eapply g_mono with (a := 0 + 0) (b := List.length g + List.length (List.concat gs)) (Φ := fun w' r => List.length (fst (fst r)) = S (List.length gs) /\ List.length (List.concat (fst (fst r))) = List.length (List.concat (g :: gs)) /\
       Forall (fun g => g <> [] /\ Forall (ok w') g) (fst (fst r)) /\ List.length (snd (fst r)) = S (List.length ls) /\ Forall (ok w') (snd (fst r)) /\ List.length (snd r) = List.length cs);
      [|lia|cbn [List.concat]; rewrite app_length; lia|auto].
    eapply g_bind with (Φ := fun w' r => (List.length (fst (fst r)) = List.length g /\ Forall (ok w') (fst (fst r))) /\ ok w' (snd (fst r))).
    { unfold smo_judge. eapply g_qbind; [eapply gq_compare; [exact HP|noc|exact Hl|exact Hw]|]. intros b _. cbv zeta.
      assert (Hl' : ok w (if b then l else nw)) by (destruct b; assumption). set (l' := if b then l else nw) in *. clearbody l'. destruct (lll <? _).
      - eapply g_mono with (a := List.length g + 0) (b := List.length g + 0) (Φ := fun w' r => (List.length (fst (fst r)) = List.length g /\ Forall (ok w') (fst (fst r))) /\ ok w' (snd (fst r))); [|lia|lia|auto].
        eapply g_bind; [apply g_scatter; assumption|]. intros g' w1 Hw1 Hg'. apply g_ret. cbn [fst snd]. split; [exact Hg'|eapply good_mono; [apply HP|exact Hw1|exact Hl']].
      - eapply g_mono with (a := 0) (b := 0) (Φ := fun w' r => (List.length (fst (fst r)) = List.length g /\ Forall (ok w') (fst (fst r))) /\ ok w' (snd (fst r))); [apply g_ret; cbn; auto|lia|lia|auto]. }
    intros [[g' l'] c] w1 Hw1 [[Lg' Fg'] Hl']. cbn [fst snd] in *.
    eapply g_mono with (a := 0 + 0) (b := List.length (List.concat gs) + 0); [|lia|lia|intros w' y _ H; exact H].
    eapply g_bind; [apply (IH (S k) w1 ls news (upd cs k c))|].
    + lia.
    + lia.
    + rewrite upd_length. lia.
    + eapply Forall_impl; [|exact Fgs]. intros q [B1 B2]. split; [exact B1|eapply oks_mono; [exact HP|exact Hw1|exact B2]].
    + eapply oks_mono; [exact HP|exact Hw1|exact Fl].
    + eapply oks_mono; [exact HP|exact Hw1|exact Fn].
    + intros [[gr lr] cr] w2 Hw2 (R1 & R2 & R3 & R4 & R5 & R6). cbn [fst snd] in *. apply g_ret. cbn [fst snd List.length List.concat]. rewrite upd_length in R6. rewrite !app_length.
      split; [lia|]. split; [lia|]. split; [|split; [lia|split; [|exact R6]]].
      * constructor; [|exact R3]. split; [intros ->; destruct g; [contradiction|discriminate]|eapply oks_mono; [exact HP|exact Hw2|exact Fg']].
      * constructor; [eapply good_mono; [apply HP|exact Hw2|exact Hl']|exact R5].
Qed.
Lemma g_smo pr mg fuel epochs ep w : num = smo_num mg n -> 2 <= smo_size mg n ->
  gt w (n + G * smo_size mg n) (n + G * smo_size mg n + n) (smo_evolve E P smo_pick_total smo_chance_total smo_other_total smo_stuck pr mg fuel n epochs ep) (fun _ _ => True).
Proof.
  intros Enum Hs. unfold smo_evolve. eapply g_qbind; [apply gq_get_x|]. intros [[gs ls] [cs gc]] (L' & Hl & (A & B1 & B2 & B3)). cbn [fst snd] in *.
  apply (groups_mono _ w) in A; [|exact Hl]. assert (Fl : Forall (ok w) ls) by (eapply oks_mono; [exact HP|exact Hl|exact B2]). clear B2 L' Hl. pose proof A as (A1 & A2 & A3).
  eapply g_mono with (a := n + (G * smo_size mg n + (0 + 0))) (b := n + (G * smo_size mg n + (n + 0))) (Φ := fun _ _ => True); [|lia|lia|auto].
  eapply g_bind with (Φ := groups_ok).
  { eapply g_mono; [apply (g_each (fun g => List.length g) (fun g => List.length g) _ gs 0 w ls ltac:(lia) A3 Fl); intros; apply g_local; assumption|rewrite sum_length; lia|rewrite sum_length; lia|].
    intros w1 r _ (R1 & R2 & R3). split; [lia|]. split; [lia|exact R3]. }
  intros g1 w1 Hw1 O1. pose proof O1 as (A1' & A2' & A3'). pose proof (groups_all _ _ O1) as F1.
  eapply g_qbind; [eapply gq_set_pop; [noc|exact A2'|exact F1]|]. intros _ _. eapply g_qbind; [eapply gq_fits; [exact HP|noc|exact F1]|]. intros fits _.
  eapply g_qbind; [gquiet HP|]. intros prob _. cbv zeta. assert (Fl1 : Forall (ok w1) ls) by (eapply oks_mono; [exact HP|exact Hw1|exact Fl]).
  eapply g_bind with (Φ := groups_ok).
  { eapply g_mono; [apply (g_each (fun _ => smo_size mg n) (fun _ => smo_size mg n) _ g1 0 w1 ls ltac:(lia) A3' Fl1); intros; apply g_tries; assumption|rewrite sum_const, A1'; lia|rewrite sum_const, A1'; lia|].
    intros w2 r _ (R1 & R2 & R3). split; [lia|]. split; [lia|exact R3]. }
  intros g2 w2 Hw2 O2. pose proof O2 as (C1 & C2 & C3). pose proof (groups_all _ _ O2) as F2. assert (Fl2 : Forall (ok w2) ls) by (eapply oks_mono; [exact HP|exact Hw2|exact Fl1]).
  eapply g_qbind; [eapply gq_set_pop; [noc|exact C2|exact F2]|]. intros _ _.
  destruct (top_ok w2 (List.concat g2)) as (top & Et & Gt); [intros E0; rewrite E0 in C2; cbn in C2; lia|exact F2|].
  eapply g_qbind with (Φ := fun y => y = top); [eapply gq_lift; [exact HP|noc|]; exists top; auto|]. intros y ->.
  eapply g_qbind; [eapply gq_get_gb; noc|]. intros best Hb. eapply g_qbind; [eapply gq_compare; [exact HP|noc|exact Gt|exact Hb]|]. intros c _.
  eapply g_qbind with (Φ := fun _ => True); [destruct c; cbn [when]; [eapply gq_set_gb; first [noc|exact Gt]|apply gq_ret; exact I]|]. intros _ _. destruct (tops_ok w2 g2 C3) as (news & En & Ln & Fn).
  eapply g_qbind with (Φ := fun y => y = news); [eapply gq_lift; [exact HP|noc|]; exists news; auto|]. intros y ->.
  pose proof G_le as HG. eapply g_bind.
  { eapply g_mono; [apply (g_decide pr (epochs / 10) g2 0 w2 ls news cs); [lia|lia|lia|exact C3|exact Fl2|exact Fn]|apply le_n|rewrite C2; apply le_n|intros w' y _ H; exact H]. }
  intros [[g3 l3] c3] w3 Hw3 (D1 & D2 & D3 & D4 & D5 & D6). cbn [fst snd] in *. assert (O3 : groups_ok w3 g3) by (split; [lia|]; split; [lia|exact D3]).
  pose proof (groups_all _ _ O3) as F3. apply g_quiet. destruct (_ <? _).
  - eapply gq_bind; [gquiet HP|]. intros u _. eapply gq_bind with (Φ := groups_ok w3).
    { destruct (u < _)%F.
      - eapply gq_bind with (Φ := fun q => List.length q = n /\ Forall (ok w3) q).
        { eapply gq_mono; [eapply gq_qt; [exact HP|noc|]; apply q_choice_noreplace; apply le_n|]. intros q [Lq [rest Hp]]. split; [lia|]. apply Forall_forall. intros a Ha.
          rewrite Forall_forall in F3. apply F3. eapply Permutation_in; [exact Hp|]. apply in_or_app. left. exact Ha. }
        intros q [Lq Fq]. eapply gq_bind; [eapply gq_set_pop; [noc|exact Lq|exact Fq]|]. intros _ _. apply gq_ret. rewrite <- Enum. apply split_ok; assumption.
      - eapply gq_bind; [eapply gq_set_pop; [noc|lia|exact F3]|]. intros _ _. apply gq_ret. exact O3. }
    intros g4 O4. pose proof O4 as (X1 & X2 & X3). destruct (tops_ok w3 g4 X3) as (l4 & El & Ll & F4).
    eapply gq_bind with (Φ := fun y => y = l4); [eapply gq_lift; [exact HP|noc|]; exists l4; auto|]. intros y ->. apply gq_set_x.
    split; [exact O4|]. cbn [fst snd]. split; [lia|]. split; [exact F4|]. rewrite repeat_length. symmetry. exact Enum.
  - apply gq_set_x. split; [exact O3|]. cbn [fst snd]. split; [lia|]. split; [exact D5|]. lia.
Qed.
End SMO.

(** DevSMO (SMO.py:12-238), whenever it returns.  Line 126 raises if the last group has one agent only, line 164 if the last group is smaller than the others and
    a missing agent is drawn, and the loop at line 150 does not end if no agent of a group is ever selected.  Agents made at line 196 in the last epoch
    are not considered for the result.  Every group makes exactly self.group_size attempts in an epoch. *)
Theorem C65_DevSMO_returning E P pr mg fuel n epochs : 5 <= n -> 2 <= mg -> 0 < n_dims P -> 0 < epochs ->
  let size := smo_size mg n in
  let groups := cdiv n size in
  sound_when E P Single (dev_smo E P pr mg fuel n epochs) (fun _ => True) (fun _ => True) (fun _ => True) (eq n) false n n (n + groups * size) (n + groups * size + n).
Proof.
  intros Hn Hm Hd He size groups.
  assert (H3 : 0 < n / 3) by (apply Nat.div_str_pos; lia).
  assert (Hnum : 0 < smo_num mg n) by (unfold smo_num; lia).
  assert (Hs : 2 <= size).
  { unfold size, smo_size. destruct (cdiv_mul n (smo_num mg n) Hnum) as [A _]. pose proof (Nat.div_mod_eq n 3). assert (smo_num mg n <= n / 3) by (unfold smo_num; lia). nia. }
  set (g := generate_empty_agent (A := unit) (X := troop) P tt).
  set (ev := smo_evolve E P (smo_pick_total E P) smo_chance_total smo_other_total (smo_stuck P) pr mg fuel n epochs).
  set (al := with_init (agent_algo E Single g (ga_of P g) n epochs false (ret tt) (ret tt) ev) (smo_start E P (smo_num mg n))).
  eapply (returns_of _ _ _ _ ev).
  - intros ep. cbn [al_evolve dev_smo with_init agent_algo]. apply ref_smo.
  - change (with_evolve _ _) with al.
    assert (T : sound_run_gen E P Single al (fun _ => True) (fun _ => True) (fun _ => True) (eq n) false (n + 0) (n + 0) (n + groups * size) (n + groups * size + n)).
    2:{ rewrite !Nat.add_0_r in T. exact T. }
    apply (sound_more E P Single _ _ n epochs false (ret tt) _ (ret tt) _ (fun _ => True) (fun _ => True) (fun _ => True) (fun _ => @anyatt unit) (fun _ _ _ => True)
      (fun feas => troop_ok P feas (smo_num mg n) n) (fun feas => troop_ok P feas (smo_num mg n) n)); auto; try lia.
    + intros feas rows _ _ Hp. apply plain_gea_ok, Hp.
    + intros feas Hp. apply ga_of_ok, plain_gea_ok, Hp.
    + intros feas Hp. apply vars_none; auto.
    + intros feas nd n0 s HP _ HS. eapply smo_start_ok; [exact HP|lia|lia|exact Hd|exact HS].
    + intros feas nd n0 s HP _ HI. eapply main_none. exact HI.
    + intros feas nd n0 HP _. apply contract_free. intros ep s0 w Hep _. unfold ev. eapply g_smo; [exact HP|lia|exact Hnum|exact Hd|reflexivity|exact Hs].
Qed.

Print Assumptions C65_DevSMO_returning.
