(** DevSMO when the last group has only one agent: no run returns. *)
From Verif Require Import Prelude Fl MCore MHelp MAlg MAlg2 MAlg3 MAlg4 MAlg5 MAlg6 MAlg7 MAlg8 SpecCore SpecRun PLogic PSolve PRun SpecAlg PAlg PFree PClass PAlg2 PAlg4 PRef PFail PPart Demo MClass27 AClass26 AClass28 PropGA PropNever PropNever3.

Lemma split_last g (p : list (agent unit)) : 0 < g -> List.length p mod cdiv (List.length p) g = 1 -> exists gs a, smo_split g p = gs ++ [[a]].
Proof.
  intros Hg Hm. assert (Hp : p <> []). { intros ->. cbn in Hm. destruct (cdiv 0 g); cbn in Hm; [discriminate|]. rewrite Nat.sub_diag in Hm. discriminate. }
  rewrite (split_eq g p Hg Hp). cbv zeta. set (k := cdiv (List.length p) g) in *.
  assert (Hl : 0 < List.length p) by (destruct p; [contradiction|cbn; lia]). pose proof (cdiv_pos _ _ Hl Hg) as Hk. fold k in Hk.
  pose proof (Nat.div_mod_eq (List.length p) k) as D. rewrite Hm in D. set (q := List.length p / k) in *. clearbody q k. clear Hm.
  assert (Ec : cdiv (List.length p) k = S q). { pose proof (cdiv_lt (List.length p) k q Hk) as A. pose proof (cdiv_lt (List.length p) k (S q) Hk) as B. nia. }
  rewrite Ec, seq_S, map_app. cbn [map Nat.add]. eexists. set (r := firstn k (skipn (q * k) p)).
  assert (Lr : List.length r = 1) by (unfold r; rewrite firstn_length, skipn_length; nia). destruct r as [|a [|]]; try discriminate. exists a. reflexivity.
Qed.
Lemma each_last {f : nat -> list (agent unit) -> agent unit -> M unit troop (list (agent unit))} g : (forall k l s, pc (f k g l) (fun _ _ => False) s) ->
  forall gs k ls s, pc (smo_each f k (gs ++ [g]) ls) (fun _ _ => False) s.
Proof.
  intros Hf. induction gs as [|h gs IH]; intros k ls s; cbn [app smo_each]; (destruct ls as [|l ls]; [apply pc_raise|]).
  - apply pc_bind. eapply pc_mono; [apply Hf|]. intros y s' [].
  - apply pc_skip. intros h' s1. apply pc_bind. eapply pc_mono; [apply IH|]. intros y s' [].
Qed.
Theorem C68_DevSMO E P pr mg fuel n epochs tm starting s (feas : vec -> Prop) :
  argsort_ok (e_argsort E) -> valid_mm (p_mm P) -> 5 <= n -> 2 <= mg -> 0 < epochs -> 0 < n_dims P ->
  problem_ok P feas -> starting_ok P feas n starting ->
  n mod smo_size mg n = 1 ->
  never (solve E P Single (dev_smo E P pr mg fuel n epochs) tm starting s).
Proof.
  intros Ha Hmm Hn Hg He Hd Hp Hs Hm. apply fails_solve; [exact He|].
  assert (H3 : 0 < n / 3) by (apply Nat.div_str_pos; lia). assert (Hnum : 0 < smo_num mg n) by (unfold smo_num; lia).
  set (ev := smo_evolve E P (smo_pick E P) smo_chance smo_other (fun _ _ => raise Endless) pr mg fuel n epochs).
  set (g := generate_empty_agent (A := unit) (X := troop) P tt).
  set (al := with_init (agent_algo E Single g (ga_of P g) n epochs false (ret tt) (ret tt) (fun ep => flip (ev ep))) (smo_start E P (smo_num mg n))).
  change (with_evolve _ _) with al.
  pose (IX := fun (_ : list vec) (x : troop) => exists gs a, fst (fst x) = gs ++ [[a]]).
  assert (T : sound_run_gen E P Single al (fun _ => True) (fun _ => True) (fun _ => True) (eq n) false (n + 0) (n + 0) 0 0).
  { apply (sound_more E P Single _ _ n epochs false (ret tt) _ (ret tt) _ (fun _ => True) (fun _ => True) (fun _ => True) (fun _ => @anyatt unit) (fun _ _ _ => True)
      (fun _ => IX) (fun _ => IX)); auto; try lia.
    - intros f rows _ _ Hf. apply plain_gea_ok, Hf.
    - intros f Hf. apply ga_of_ok, plain_gea_ok, Hf.
    - intros f Hf. apply vars_none; auto.
    - intros f nd n0 s1 HP _ HS. pose proof HS as []. unfold smo_start. apply wp_bind, wp_get_pop.
      pose proof (split_ok P f (smo_num mg n) n ltac:(lia) Hnum Hd (s_log s1) (s_pop s1) ltac:(auto) st_good) as Ho. pose proof Ho as (_ & _ & A3).
      destruct (tops_ok E P f _ (smo_num mg n) n HP ltac:(lia) Hnum Hd _ _ A3) as (ls & El & _). apply wp_bind. eapply wp_lift; [exact El|]. unfold wp, set_x.
      split; [|cbn [s_log]; rewrite Nat.add_0_r; split; apply le_n]. constructor; cbn; auto.
      exists []. split; [intros ? []|]. unfold IX. cbn [fst]. apply split_last; [exact Hnum|]. rewrite <- st_len. exact Hm.
    - intros f nd n0 s1 HP _ HI. eapply main_none. exact HI.
    - intros f nd n0 HP _. apply (bad_evolve E); [exact HP|]. intros ep s0 W l s1 HR. destruct HR as (V & _). destruct (v_x _ _ _ _ _ _ _ _ _ _ _ V) as (L & _ & Hx).
      assert (B : pc (ev ep) (fun _ _ => False) s1).
      { unfold ev, smo_evolve. apply pc_bind. intros x s9 E2. assert (Hx2 : IX L x) by (injection E2 as <- _; exact Hx). clear E2 Hx. destruct x as [[gs ls] [cs gc]]. destruct Hx2 as (gs' & a & Eg). cbn [fst] in Eg. subst gs.
        cbv beta iota. apply pc_bind. eapply pc_mono; [apply each_last|intros y s' []]. intros k l1 s2. unfold smo_local. cbn [List.length for_acc]. apply pc_bind. apply pc_bind.
        intros r s3 E3. exfalso. unfold smo_pick in E3. destruct (n_dims P) as [|d]; [lia|]. cbn in E3. discriminate. }
      unfold fails. destruct (ev ep s1) as [[y s2]|e] eqn:Ee; [destruct (B _ _ Ee)|eauto]. }
  destruct (T feas tm starting s Ha Hmm Hp I Hs I I) as (r & s' & Es & _). exists (r, s'). exact Es.
Qed.
(** Such settings: 13 agents in groups of 4 and one left over, with the default of five groups at most.  The default of 100 agents is not affected. *)
Example C68_DevSMO_example : 13 mod smo_size 5 13 = 1 /\ 100 mod smo_size 5 100 = 0.
Proof. split; reflexivity. Qed.

Print Assumptions C68_DevSMO.
