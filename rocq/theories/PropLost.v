(** Classes with a C65 theorem: the best solution evaluated need not be the one returned.  One run of each is computed, on two
    variables in [-5, 5], with the squared distance to a point as objective; the random numbers and the formulas the model
    leaves open are given by [mix_env]. *)
From Verif Require Import Prelude Fl MCore MHelp MAlg SpecCore SpecRun PSelect Demo MClass1 MClass2 MClass3 MClass4 MClass5 MClass6 MClass7 MClass8 MClass9
  MClass10 MClass11 MClass12 MClass13 MClass14 MClass15 MClass16 MClass17 MClass18 MClass19 MClass20 MClass21 MClass22.

Definition hash (seed k : Z) : Z := (k * k * 31 + k * (17 + seed) + 7 * seed) mod 101.
Definition mix_env (seed : Z) : env := mkEnv argsort_ins
  (fun k => fdiv (fZ (hash seed (Z.of_nat k) mod 10)) (fZ 10))
  (fun k => fdiv (fZ (hash seed (Z.of_nat k) mod 17 - 8)) (fZ 4))
  (fun k => Z.to_nat (hash seed (Z.of_nat k)))
  (fun _ l => fZ (hash (seed + ftrunc (nth 1 l (fZ 0))) (ftrunc (nth 0 l (fZ 0))) mod 11 - 5)) (e_time demo_env) (e_order demo_env).
Definition far (a b : Z) (x : vec) : f64 :=
  fadd (fmul (fsub (nth 0 x fnan) (fZ a)) (fsub (nth 0 x fnan) (fZ a))) (fmul (fsub (nth 1 x fnan) (fZ b)) (fsub (nth 1 x fnan) (fZ b))).
Definition far_prob (a b : Z) : problem := demo_prob Min (far a b) true.
(** A run, without termination and starting solutions, that returns an agent worse than a solution it evaluated. *)
Definition forgets {A X} (E : env) (P : problem) (al : @algo A X) : Prop := exists x g s' y,
  solve E P Single al None None (st0 x) = Ok (g, s') /\ In y (s_log s') /\ flt (fitx P y) (fit g) = true.
Definition lost {A X} (E : env) (P : problem) (al : @algo A X) (x : X) : bool :=
  match solve E P Single al None None (st0 x) with Ok (g, s') => existsb (fun y => flt (fitx P y) (fit g)) (s_log s') | Err _ => false end.
Lemma lost_forgets {A X} E P (al : @algo A X) x : lost E P al x = true -> forgets E P al.
Proof.
  unfold lost, forgets. destruct (solve E P Single al None None (st0 x)) as [[g s']|] eqn:Es; [|discriminate]. intros T.
  apply existsb_exists in T. destruct T as (y & Hy & Hf). exists x, g, s', y. auto.
Qed.
(** The algorithm attributes before the first run. *)
Class Dflt (T : Type) := dflt : T.
#[global] Instance dflt_unit : Dflt unit := tt.
#[global] Instance dflt_list T : Dflt (list T) := [].
#[global] Instance dflt_pair S T (a : Dflt S) (b : Dflt T) : Dflt (S * T) := (dflt, dflt).
#[global] Instance dflt_nat : Dflt nat := 0.
#[global] Instance dflt_f64 : Dflt f64 := fZ 0.
#[global] Instance dflt_option T : Dflt (option T) := None.
#[global] Instance dflt_bool : Dflt bool := false.
Ltac lost := refine (lost_forgets _ _ _ dflt _); vm_compute; reflexivity.

Theorem C65_AdaptiveBA_refuted : forgets (mix_env 0) (far_prob 5 (-1)) (adaptive_ba (mix_env 0) (far_prob 5 (-1)) Single (fZ 1) (fZ 2) (dec 15 100) (dec 85 100) (fZ (-10)) (fZ 10) 6 6).
Proof. lost. Qed.
Theorem C65_AdaptiveEO_refuted : forgets (mix_env 0) (far_prob 0 0) (adaptive_eo (mix_env 0) (far_prob 0 0) Single 6 1).
Proof. lost. Qed.
Theorem C65_CG_GWO_refuted : forgets (mix_env 0) (far_prob 4 4) (cg_gwo (mix_env 0) (far_prob 4 4) 6 1).
Proof. lost. Qed.
Theorem C65_C_PSO_refuted : forgets (mix_env 3) (far_prob 1 (-2)) (c_pso (mix_env 3) (far_prob 1 (-2)) (fZ 2) (fZ 2) (dec 4 10) (dec 9 10) 6 1).
Proof. lost. Qed.
Theorem C65_DevBRO_refuted : forgets (mix_env 2) (far_prob (-4) (-4)) (dev_bro (mix_env 2) (far_prob (-4) (-4)) (fZ 3) 6 1).
Proof. lost. Qed.
Theorem C65_DevDMOA_refuted : forgets (mix_env 0) (far_prob 2 1) (dev_dmoa (mix_env 0) (far_prob 2 1) Single (fZ 2) (fZ 1) 6 1).
Proof. lost. Qed.
Theorem C65_IOBL_GWO_refuted : forgets (mix_env 0) (far_prob 2 1) (iobl_gwo (mix_env 0) (far_prob 2 1) 6 1).
Proof. lost. Qed.
Theorem C65_ImprovedBSO_refuted : forgets (mix_env 2) (far_prob 1 (-2)) (improved_bso (mix_env 2) (far_prob 1 (-2)) Single (dec 2 10) (dec 8 10) (dec 4 10) (dec 5 10) 2 6 1).
Proof. lost. Qed.
Theorem C65_ImprovedSFO_refuted : forgets (mix_env 1) (far_prob (-3) 4) (improved_sfo (mix_env 1) (far_prob (-3) 4) Single 12 6 1).
Proof. lost. Qed.
Theorem C65_LevyEP_refuted : forgets (mix_env 1) (far_prob 0 0) (levy_ep (mix_env 1) (far_prob 0 0) Single (dec 1 2) 6 2).
Proof. lost. Qed.
Theorem C65_MLFA_GD_refuted : forgets (mix_env 0) (far_prob 1 (-2)) (mlfa_gd (mix_env 0) (far_prob 1 (-2)) Single 2 2 6 1).
Proof. lost. Qed.
Theorem C65_ModifiedEO_refuted : forgets (mix_env 1) (far_prob 1 (-2)) (modified_eo (mix_env 1) (far_prob 1 (-2)) Single 6 1).
Proof. lost. Qed.
Theorem C65_OriginalABC_refuted : forgets (mix_env 1) (far_prob 2 1) (original_abc (mix_env 1) (far_prob 2 1) 2 6 1).
Proof. lost. Qed.
Theorem C65_OriginalAHO_refuted : forgets (mix_env 0) (far_prob 0 0) (original_aho (mix_env 0) (far_prob 0 0) Single (fZ 2) (dec 1 10) 6 1).
Proof. lost. Qed.
Theorem C65_OriginalBA_refuted : forgets (mix_env 5) (far_prob 0 0) (original_ba (mix_env 5) (far_prob 0 0) Single (dec 8 10) (dec 95 100) (fZ 0) (fZ 10) 6 1).
Proof. lost. Qed.
Theorem C65_OriginalBRO_refuted : forgets (mix_env 3) (far_prob 5 (-1)) (original_bro (mix_env 3) (far_prob 5 (-1)) (fZ 3) 6 3).
Proof. lost. Qed.
Theorem C65_OriginalBSO_refuted : forgets (mix_env 0) (far_prob 2 1) (original_bso (mix_env 0) (far_prob 2 1) Single (dec 2 10) (dec 8 10) (dec 4 10) (dec 5 10) 2 6 1).
Proof. lost. Qed.
Theorem C65_OriginalCA_refuted : forgets (mix_env 0) (far_prob 1 (-2)) (original_ca (mix_env 0) (far_prob 1 (-2)) 2 6 1).
Proof. lost. Qed.
Theorem C65_OriginalCHIO_refuted : forgets (mix_env 9) (far_prob 4 4) (original_chio (mix_env 9) (far_prob 4 4) Single (dec 85 100) 1 6 2).
Proof. lost. Qed.
Theorem C65_OriginalCoatiOA_refuted : forgets (mix_env 0) (far_prob (-3) 4) (original_coatioa (mix_env 0) (far_prob (-3) 4) 6 1).
Proof. lost. Qed.
Theorem C65_OriginalDMOA_refuted : forgets (mix_env 0) (far_prob 2 1) (original_dmoa (mix_env 0) (far_prob 2 1) Single 3 (fZ 2) (fZ 1) 6 1).
Proof. lost. Qed.
Theorem C65_OriginalDO_refuted : forgets (mix_env 0) (far_prob (-3) 4) (original_do (mix_env 0) (far_prob (-3) 4) Single 6 1).
Proof. lost. Qed.
Theorem C65_OriginalEO_refuted : forgets (mix_env 0) (far_prob 0 0) (original_eo (mix_env 0) (far_prob 0 0) Single 6 1).
Proof. lost. Qed.
Theorem C65_OriginalEP_refuted : forgets (mix_env 4) (far_prob 5 (-1)) (original_ep (mix_env 4) (far_prob 5 (-1)) Single (dec 1 2) 6 2).
Proof. lost. Qed.
Theorem C65_OriginalFFA_refuted : forgets (mix_env 0) (far_prob 2 1) (original_ffa (mix_env 0) (far_prob 2 1) (dec 2 10) (dec 99 100) 6 1).
Proof. lost. Qed.
Theorem C65_OriginalGJA_refuted : forgets (mix_env 2) (far_prob 1 (-2)) (original_gja (mix_env 2) (far_prob 1 (-2)) Single (fZ 1) (fZ 2) (dec 1 2) 6 6).
Proof. lost. Qed.
Theorem C65_OriginalGRSA_refuted : forgets (mix_env 2) (far_prob 0 0) (original_grsa (mix_env 2) (far_prob 0 0) Single [fZ 1; fZ 1; fZ 1; fZ 1; fZ 1] 6 1).
Proof. lost. Qed.
Theorem C65_OriginalHGSO_refuted : forgets (mix_env 3) (far_prob 0 0) (original_hgso (mix_env 3) (far_prob 0 0) Single 2 6 1).
Proof. lost. Qed.
Theorem C65_OriginalHHO_refuted : forgets (mix_env 1) (far_prob 5 (-1)) (original_hho (mix_env 1) (far_prob 5 (-1)) Single 6 1).
Proof. lost. Qed.
Theorem C65_OriginalOrcaPA_refuted : forgets (mix_env 0) (far_prob (-3) 4) (original_orca_pa (mix_env 0) (far_prob (-3) 4) Single (dec 4 10) (dec 5 10) (dec 9 10) 6 1).
Proof. lost. Qed.
Theorem C65_OriginalSFO_refuted : forgets (mix_env 1) (far_prob (-3) 4) (original_sfo (mix_env 1) (far_prob (-3) 4) Single (fZ 4) (dec 1 10000) 12 6 1).
Proof. lost. Qed.
Theorem C65_OriginalSHO_refuted : forgets (mix_env 0) (far_prob 2 1) (original_sho (mix_env 0) (far_prob 2 1) Single (fZ 5) 3 6 1).
Proof. lost. Qed.
Theorem C65_OriginalTOA_refuted : forgets (mix_env 0) (far_prob 1 (-2)) (original_toa (mix_env 0) (far_prob 1 (-2)) 6 1).
Proof. lost. Qed.
Theorem C65_SwarmSA_refuted : forgets (mix_env 2) (far_prob 0 0) (swarm_sa (mix_env 2) (far_prob 0 0) Single (fZ 100) (fZ 1) (dec 1 2) (dec 9 10) (dec 9 10) 2 2 6 1).
Proof. lost. Qed.

Print Assumptions C65_AdaptiveBA_refuted.
Print Assumptions C65_AdaptiveEO_refuted.
Print Assumptions C65_CG_GWO_refuted.
Print Assumptions C65_C_PSO_refuted.
Print Assumptions C65_DevBRO_refuted.
Print Assumptions C65_DevDMOA_refuted.
Print Assumptions C65_IOBL_GWO_refuted.
Print Assumptions C65_ImprovedBSO_refuted.
Print Assumptions C65_ImprovedSFO_refuted.
Print Assumptions C65_LevyEP_refuted.
Print Assumptions C65_MLFA_GD_refuted.
Print Assumptions C65_ModifiedEO_refuted.
Print Assumptions C65_OriginalABC_refuted.
Print Assumptions C65_OriginalAHO_refuted.
Print Assumptions C65_OriginalBA_refuted.
Print Assumptions C65_OriginalBRO_refuted.
Print Assumptions C65_OriginalBSO_refuted.
Print Assumptions C65_OriginalCA_refuted.
Print Assumptions C65_OriginalCHIO_refuted.
Print Assumptions C65_OriginalCoatiOA_refuted.
Print Assumptions C65_OriginalDMOA_refuted.
Print Assumptions C65_OriginalDO_refuted.
Print Assumptions C65_OriginalEO_refuted.
Print Assumptions C65_OriginalEP_refuted.
Print Assumptions C65_OriginalFFA_refuted.
Print Assumptions C65_OriginalGJA_refuted.
Print Assumptions C65_OriginalGRSA_refuted.
Print Assumptions C65_OriginalHGSO_refuted.
Print Assumptions C65_OriginalHHO_refuted.
Print Assumptions C65_OriginalOrcaPA_refuted.
Print Assumptions C65_OriginalSFO_refuted.
Print Assumptions C65_OriginalSHO_refuted.
Print Assumptions C65_OriginalTOA_refuted.
Print Assumptions C65_SwarmSA_refuted.
