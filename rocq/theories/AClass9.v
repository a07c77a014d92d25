(** The classes of MClass9: every run is sound. *)
From Coq Require RIneq.
From Verif Require Import Prelude Fl FlArith MCore MHelp MAlg MAlg2 MAlg3 MAlg4 MAlg5 MAlg6 MClass9 PSpace SpecCore SpecRun PSelect PLogic PSolve PRun SpecAlg PAlg PFree PClass PAlg2 PAlg3 PAlg4 PAlg5 PAlg6 PAlg7 Demo AClass8c.

Theorem C64_DevEPC E P damping mutation spiral_a spiral_b n epochs : 5 <= n -> 0 < epochs ->
  sound_run E P Single (dev_epc E P Single damping mutation spiral_a spiral_b n epochs) (fun _ => True) true 0 (n * n).
Proof. intros. apply gen_plain. state_elite (fun x : f64 => True). - exact I. - counts HP. Qed.
Theorem C64_OriginalFOX E P md c1 c2 n epochs : 5 <= n -> 0 < epochs ->
  sound_run E P md (original_fox E P md c1 c2 n epochs) (fun _ => True) true n n.
Proof. intros. apply gen_plain. state_elite (fun x : f64 => True). - exact I. - counts HP. Qed.
Theorem C64_DevFOX E P md c1 c2 pp n epochs : 5 <= n -> 0 < epochs ->
  sound_run E P md (dev_fox E P md c1 c2 pp n epochs) (fun _ => True) true n n.
Proof. intros. apply gen_plain. state_elite (fun x : f64 => True). - exact I. - counts HP. Qed.
Theorem C64_OriginalCEO E P md w1 p_base alpha n epochs : 10 <= n -> 0 < epochs ->
  sound_run E P md (original_ceo E P md w1 p_base alpha n epochs) (fun _ => True) true n (2 * n).
Proof. plain. counts HP. Qed.
Theorem C64_OriginalSFOA E P md gp n epochs : 5 <= n -> 0 < epochs -> 0 < n_dims P ->
  sound_run E P md (original_sfoa E P md gp n epochs) (fun _ => True) true n n.
Proof. plain. counts HP. Qed.
Theorem C64_OriginalBES E P md a_factor R_factor alpha c1 c2 n epochs : 5 <= n -> 0 < epochs ->
  sound_run E P md (original_bes E P md a_factor R_factor alpha c1 c2 n epochs) (fun _ => True) true (3 * n) (3 * n).
Proof. plain. counts HP. Qed.
Theorem C64_OriginalSPBO E P md n epochs : 5 <= n -> 0 < epochs ->
  sound_run E P md (original_spbo E P md n epochs) (fun _ => True) true (n_dims P * n) (n_dims P * n).
Proof. plain. counts HP. Qed.
Theorem C64_DevSPBO E P md n epochs : 5 <= n -> 0 < epochs ->
  sound_run E P md (dev_spbo E P md n epochs) (fun _ => True) true n n.
Proof. plain. counts HP. Qed.
Theorem C64_OriginalAPO E P md pf_max n_pairs n epochs : 5 <= n -> 0 < epochs ->
  sound_run E P md (original_apo E P md pf_max n_pairs n epochs) (fun _ => True) true n n.
Proof. plain. counts HP. Qed.
Theorem C64_OriginalNMRA E P md pb n epochs : 5 <= n -> 0 < epochs ->
  sound_run E P md (original_nmra E P md pb n epochs) (fun _ => True) true (2 * n) (2 * n).
Proof. plain. unfold nmra_evolve. assert (n / 5 + 2 <= n) by (pose proof (Nat.div_mod n 5); pose proof (Nat.mod_upper_bound n 5); lia). set (h := n / 5) in *. clearbody h. counts HP. Qed.
Theorem C64_ImprovedNMRA E P md pb pm n epochs : 5 <= n -> 0 < epochs -> 2 <= n_dims P ->
  sound_run E P md (improved_nmra E P md pb pm n epochs) (fun _ => True) true (2 * n) (2 * n).
Proof.
  plain. unfold improved_nmra_evolve. assert (n / 5 + 2 <= n) by (pose proof (Nat.div_mod n 5); pose proof (Nat.mod_upper_bound n 5); lia). set (h := n / 5) in *. clearbody h.
  assert (0 < n_dims P / 2) by (apply Nat.div_str_pos; lia). counts HP.
Qed.
(** A small non-zero integer is not zero as a float. *)
Lemma fZ_nonzero z : (0 < z <= 2 ^ 53)%Z -> feq (fZ z) (fZ 0) = false.
Proof.
  intros Hz. destruct (fZ_FR z) as [F1 R1]; [lia|]. destruct (fZ_FR 0) as [F2 R2]; [lia|].
  destruct (feq (fZ z) (fZ 0)) eqn:Ef; [|reflexivity]. exfalso. rewrite feq_FR in Ef by (apply fin_notnan; assumption). rewrite R1, R2 in Ef. apply RIneq.eq_IZR in Ef. lia.
Qed.
Theorem C64_OriginalDandelionO E P md n epochs : 5 <= n -> 2 <= epochs -> (Z.of_nat epochs <= 100000)%Z ->
  sound_run E P md (original_dandelion E P md n epochs) (fun _ => True) true n n.
Proof.
  plain. unfold dandelion_evolve, py_div. rewrite fZ_nonzero by nia.
  eapply b0_qbind; [eapply q_lift with (Φ := fun _ => True); eexists; split; [reflexivity|exact I]|]. intros aa _. counts HP.
Qed.
Theorem C64_DevDandelionO E P md n epochs : 5 <= n -> 0 < epochs ->
  sound_run E P md (dev_dandelion E P md n epochs) (fun _ => True) true n n.
Proof. plain. counts HP. Qed.
Theorem C65_OriginalAHO E P theta omega n epochs : 5 <= n -> 0 < epochs -> 0 < n_dims P ->
  sound_run E P Single (original_aho E P Single theta omega n epochs) (fun _ => True) false 0 (n * (n + 3)).
Proof.
  intros. apply gen_plain. state_free (fun c : list nat => List.length c = n).
  - apply repeat_length.
  - unfold aho_evolve, aho_move. gcounts HP.
Qed.
(** The order of the jellyfish is a permutation of their indices. *)
Lemma gja_order_ok E P fits : argsort_ok (e_argsort E) -> List.length (gja_order E P fits) = List.length fits /\ Forall (fun i => i < List.length fits) (gja_order E P fits).
Proof.
  intros HA. destruct (HA fits) as (Hp & _). assert (Hl : List.length (e_argsort E fits) = List.length fits) by (apply Permutation_length in Hp; rewrite seq_length in Hp; exact Hp).
  assert (Hf : Forall (fun i => i < List.length fits) (e_argsort E fits)).
  { apply Forall_forall. intros i Hin. eapply Permutation_in in Hin; [|exact Hp]. apply in_seq in Hin. unfold vec in *. lia. }
  unfold gja_order. destruct (p_mm P); rewrite ?rev_length; (split; [exact Hl|]); try exact Hf; apply Forall_rev, Hf.
Qed.
Lemma skipn_in {T} k (l : list T) x : In x (skipn k l) -> In x l.
Proof. intros H. rewrite <- (firstn_skipn k l). apply in_or_app. right. exact H. Qed.
Lemma firstn_in {T} k (l : list T) x : In x (firstn k l) -> In x l.
Proof. intros H. rewrite <- (firstn_skipn k l). apply in_or_app. left. exact H. Qed.
Theorem C65_OriginalGJA E P md beta_start beta_end alpha_ratio n epochs : 5 <= n -> 0 < epochs ->
  sound_run E P md (original_gja E P md beta_start beta_end alpha_ratio n epochs) (fun _ => True) false n (2 * n).
Proof.
  intros. apply gen_plain. state_free (fun c : list vec => True).
  - exact I.
  - unfold gja_evolve. eapply g_qbind; [gquiet HP|]. cbv beta. intros fits Hfits. qfacts.
    destruct (gja_order_ok E P fits) as [Lo Fo]; [apply HP|]. set (ord := gja_order E P fits) in *. clearbody ord. unfold vec in *.
    assert (FI : forall i, In i ord -> i < n) by (rewrite Forall_forall in Fo; intros; replace n with (List.length fits) by lia; auto). clear Fo.
    eapply g_mono with (a := n + 0) (b := n + n); [|lia|lia|trivial]. eapply g_bind.
    + eapply g_greedy_each; gprem HP.
    + gintros HP. eapply g_whenm with (a := 0). intros _.
      eapply g_qbind with (Φ := fun _ => True).
      * eapply gq_for_list with (I := fun _ => True); [exact I|]. intros i [] Hin _. apply firstn_in, FI in Hin. gquiet HP.
      * intros _ _. eapply g_qbind; [gquiet HP|]. intros mem5 _. cbv zeta. set (mem := firstn 5 mem5). clearbody mem.
        eapply g_qbind; [gquiet HP|]. intros _ _. eapply g_whenm with (a := 0). intros Hm. apply Nat.ltb_lt in Hm.
        set (k := n - _). set (worst := match p_mm P with Min => _ | _ => _ end).
        assert (Wl : List.length worst <= n) by (unfold worst; destruct (p_mm P); rewrite ?rev_length, skipn_length; lia).
        assert (Wi : forall i, In i worst -> i < n) by (intros i Hin; apply FI; unfold worst in Hin; destruct (p_mm P); [|apply in_rev in Hin|apply in_rev in Hin]; eapply skipn_in; exact Hin).
        clearbody worst. eapply g_mono with (a := List.length worst * 1) (b := List.length worst * 1); [|lia|lia|trivial].
        eapply g_for_list with (J := fun _ _ => True); [exact I|]. intros i w' [] Hw Hin _. apply Wi in Hin. gmove Hw. unfold gen_set. gcounts HP.
Qed.
(** The five groups of the exploration phase split the population (rounding could make one of them empty). *)
Definition doa_groups (n : nat) : Prop :=
  doa_bound n 0 = 0 /\ doa_bound n 5 = n /\ forall m, m < 5 -> doa_bound n m < doa_bound n (S m).
Example doa_groups_50 : doa_groups 50.
Proof. split; [vm_compute; reflexivity|]. split; [vm_compute; reflexivity|]. intros m Hm. do 5 (destruct m as [|m]; [vm_compute; lia|]). lia. Qed.
Lemma ceil_div_eq d b : 0 < d -> 0 < b -> ceil_div d b = S ((d - 1) / b).
Proof. intros Hd Hb. unfold ceil_div. replace (d + b - 1) with (d - 1 + 1 * b) by lia. rewrite Nat.div_add by lia. lia. Qed.
Lemma ceil_div_le d b : 0 < d -> 0 < b -> 1 <= ceil_div d b <= d.
Proof. intros Hd Hb. rewrite ceil_div_eq by assumption. assert ((d - 1) / b <= d - 1) by (apply Nat.div_le_upper_bound; nia). lia. Qed.
Lemma ceil_div_anti d b c : 0 < d -> 0 < b -> b <= c -> ceil_div d c <= ceil_div d b.
Proof. intros Hd Hb Hc. rewrite !ceil_div_eq by lia. apply le_n_S. apply Nat.div_le_compat_l. lia. Qed.
Theorem C64_OriginalDOA E P md n epochs : 5 <= n -> 0 < epochs -> doa_groups n -> 2 <= n_dims P -> n <= n_dims P -> List.length (p_ub P) = n_dims P ->
  sound_run E P md (original_doa E P md n epochs) (fun _ => True) true n n.
Proof.
  plain. rename H1 into HG, H2 into Hd, H3 into Hnd, H4 into Hub. pose proof (pr_prob _ _ _ _ _ HP) as HPr.
  unfold doa_evolve. destruct (ep <=? 9 * epochs / 10).
  - unfold doa_explore. eapply b0_replace_list; [exact HP|]. destruct HG as (G0 & G5 & GS). assert (GT := GS). unfold collect_many.
    eapply q_mono with (Φ := fun l => List.length l = doa_bound n 5 /\ Forall (fresh_agent feas anyatt) l); [|intros l [Ll Fl]; split; [lia|exact Fl]].
    eapply q_for_acc with (I := fun k l => List.length l = doa_bound n k /\ Forall (fresh_agent feas anyatt) l); [split; [cbn; lia|constructor]|].
    intros m acc Hm [La Fa]. rewrite Nat.add_0_l in *. specialize (GS m). pose proof (ceil_div_le (n_dims P) (3 * S m)). pose proof (ceil_div_anti (n_dims P) (3 * S m) (8 * S m)).
    assert (GU : doa_bound n (S m) <= n).
    { clear - G5 Hm GT. assert (B : forall k, S m + k <= 5 -> doa_bound n (S m) <= doa_bound n (S m + k)).
      { induction k as [|k IH]; intros Hk; [rewrite Nat.add_0_r; lia|]. rewrite Nat.add_succ_r. specialize (GT (S m + k)). lia. }
      specialize (B (4 - m)). replace (S m + (4 - m)) with 5 in B by lia. lia. }
    set (lo := doa_bound n m) in *. set (hi := doa_bound n (S m)) in *. clearbody lo hi.
    eapply q_bind.
    + eapply q_bind; [eapply q_integers; lia|]. intros kk Hk. cbv beta in Hk. cbv zeta.
      eapply q_bind; [eapply q_get_pop|]. intros p [Lp Fp]. unfold vec in *.
      assert (Fs : Forall (fun a => wf_agent a /\ feas (sol a)) (slice lo hi p)).
      { unfold slice. rewrite Forall_forall in *. intros a Ha. apply Fp. eapply skipn_in, firstn_in, Ha. }
      eapply q_bind; [eapply q_best; [exact HP|exact Fs|rewrite slice_length; lia]|]. intros [best j] [[_ Hb] _]. cbn [fst] in Hb.
      eapply q_collect. intros i Hi. eapply q_bind with (Φ := fun _ => True); [|intros y _; quiet HP]. unfold doa_dream.
      eapply q_bind; [eapply q_choice_noreplace; rewrite seq_length; lia|]. intros js _. eapply q_bind; [quiet HP|]. intros c _.
      eapply q_for_list; [exact I|]. intros j' b' _ _. unfold doa_inside. quiet HP.
    + intros c [Lc Fc]. apply q_ret. rewrite app_length. split; [lia|apply Forall_app; auto].
  - assert (Hlb : List.length (p_lb P) = n_dims P) by reflexivity. unfold doa_exploit. eapply b0_replace_list; [exact HP|]. eapply q_collect. intros i Hi.
    pose proof (ceil_div_le (n_dims P) 3). eapply q_bind; [eapply q_integers; lia|]. intros k Hk. cbv beta in Hk.
    eapply q_bind; [eapply q_choice_noreplace; rewrite seq_length; lia|]. intros js _. eapply q_bind; [quiet HP|]. intros g _.
    eapply q_bind with (Φ := fun _ => True); [|intros y _; quiet HP]. eapply q_for_list; [exact I|]. intros j b _ _. unfold doa_inside. quiet HP.

Qed.
(** Line 179 of SquirrelSA.py takes the length of an integer: a population started at one point raises TypeError. *)
Theorem C68_SquirrelSA_equal_start :
  exists E P n_food pp gc sf n start, 1 <= n_food <= 10 /\ n_food + 3 <= n /\
    solve E P Single (original_squirrel E P Single n_food pp gc sf n 1) None (Some start) (st0 tt) = Err TypeError.
Proof.
  exists sqrt_env, (demo_prob Min sphere false), 4, (dec 1 10), (dec 19 10), (fZ 18), 8, (repeat [fZ 1; fZ 1] 8).
  split; [lia|]. split; [lia|].
  assert (T : match solve sqrt_env (demo_prob Min sphere false) Single (original_squirrel sqrt_env (demo_prob Min sphere false) Single 4 (dec 1 10) (dec 19 10) (fZ 18) 8 1) None (Some (repeat [fZ 1; fZ 1] 8)) (st0 tt) with Err TypeError => true | _ => false end = true) by (vm_compute; reflexivity).
  destruct (solve _ _ _ _ _ _ _) as [y|[]]; try discriminate T. reflexivity.
Qed.

Print Assumptions C64_DevEPC.
Print Assumptions C64_OriginalFOX.
Print Assumptions C64_DevFOX.
Print Assumptions C64_OriginalCEO.
Print Assumptions C64_OriginalSFOA.
Print Assumptions C64_OriginalBES.
Print Assumptions C64_OriginalSPBO.
Print Assumptions C64_DevSPBO.
Print Assumptions C64_OriginalAPO.
Print Assumptions C64_OriginalNMRA.
Print Assumptions C64_ImprovedNMRA.
Print Assumptions C64_OriginalDandelionO.
Print Assumptions C64_DevDandelionO.
Print Assumptions C65_OriginalAHO.
Print Assumptions C65_OriginalGJA.
Print Assumptions C64_OriginalDOA.
Print Assumptions C68_SquirrelSA_equal_start.
