(** C64, C65 for the classes of MClass5.v. *)
From Verif Require Import Prelude Fl MCore MHelp MAlg MAlg2 MClass5 SpecCore SpecRun PSelect PLogic PSolve PRun SpecAlg PAlg PFree PClass PAlg2 PAlg3 Demo.

(** Strategy 3 draws five other agents, so it needs six. *)
Theorem C64_OriginalDE E P md wf cr strategy n epochs : 5 <= n -> (strategy = 3 -> 6 <= n) -> 0 < epochs ->
  sound_run E P md (original_de E P md wf cr strategy n epochs) (fun _ => True) true n n.
Proof.
  intros Hn Hs He. plain. unfold de_evolve, de_cand, de_mutation.
  destruct strategy as [|[|[|[|[|s]]]]]; try specialize (Hs eq_refl); counts HP.
Qed.
Theorem C64_SADE E P md n epochs : 0 < n_dims P -> 5 <= n -> 0 < epochs ->
  sound_run E P md (sade E P md n epochs) (fun _ => True) true n n.
Proof. plain. counts HP. Qed.
Theorem C64_OriginalGWO E P md n epochs : 5 <= n -> 0 < epochs ->
  sound_run E P md (original_gwo E P md n epochs) (fun _ => True) true n n.
Proof. plain. counts HP. Qed.
Theorem C64_GWO_WOA E P md n epochs : 5 <= n -> 0 < epochs ->
  sound_run E P md (gwo_woa E P md n epochs) (fun _ => True) true n n.
Proof. plain. counts HP. Qed.
Theorem C64_IGWO E P md a_min a_max n epochs : 5 <= n -> 0 < epochs ->
  sound_run E P md (igwo E P md a_min a_max n epochs) (fun _ => True) true n n.
Proof. plain. counts HP. Qed.
Theorem C64_FuzzyGWO E P md name n epochs : 5 <= n -> 0 < epochs ->
  sound_run E P md (fuzzy_gwo E P md name n epochs) (fun _ => True) true n n.
Proof. plain. counts HP. Qed.
Theorem C64_IncrementalGWO E P md factor n epochs : 5 <= n -> 0 < epochs ->
  sound_run E P md (incremental_gwo E P md factor n epochs) (fun _ => True) true n n.
Proof. plain. counts HP. Qed.
Theorem C64_ExGWO E P md n epochs : 5 <= n -> 0 < epochs ->
  sound_run E P md (ex_gwo E P md n epochs) (fun _ => True) true n n.
Proof. plain. counts HP. Qed.
Theorem C64_ER_GWO E P md a_initial a_final miu n epochs : 5 <= n -> 0 < epochs ->
  sound_run E P md (er_gwo E P md a_initial a_final miu n epochs) (fun _ => True) true n n.
Proof. plain. counts HP. Qed.
Theorem C64_OriginalWOA E P md n epochs : 5 <= n -> 0 < epochs ->
  sound_run E P md (original_woa E P md n epochs) (fun _ => True) true n n.
Proof. plain. counts HP. Qed.
Theorem C64_DevWOA E P md n epochs : 5 <= n -> 0 < epochs ->
  sound_run E P md (dev_woa E P md n epochs) (fun _ => True) true n n.
Proof. plain. counts HP. Qed.
(** The default pt = 0.1 makes [jade_top] zero for fewer than ten agents; see C67. *)
Theorem C64_JADE E P md miu_cr miu_f pt ap n epochs : 5 <= n -> 1 <= jade_top pt n <= n -> 0 < n_dims P -> 0 < epochs ->
  sound_run E P md (jade_algo E P md miu_cr miu_f pt ap n epochs) (fun _ => True) true n n.
Proof.
  intros. apply gen_plain. state_elite (fun x : jade => List.length (j_tcr x) = n /\ List.length (j_tf x) = n).
  - simpl; rewrite !repeat_length; auto.
  - unfold jade_evolve. set (top := jade_top pt n) in *; clearbody top. counts HP.
Qed.
Theorem C64_DevHS E P md c_r pa_r n epochs : 5 <= n -> 0 < epochs ->
  sound_run E P md (dev_hs E P md c_r pa_r n epochs) (fun _ => True) true n n.
Proof. intros. apply gen_plain. state_elite (fun x : vec => True). - exact I. - counts HP. Qed.
Theorem C64_OriginalHS E P md c_r pa_r n epochs : 5 <= n -> 0 < epochs ->
  sound_run E P md (original_hs E P md c_r pa_r n epochs) (fun _ => True) true n n.
Proof. intros. apply gen_plain. state_elite (fun x : vec => True). - exact I. - counts HP. Qed.
Theorem C64_ChaoticGWO E P md name v n epochs : 5 <= n -> 0 < epochs ->
  sound_run E P md (chaotic_gwo E P md name v n epochs) (fun _ => True) true n n.
Proof. intros. apply gen_plain. state_elite (fun x : f64 => True). - exact I. - counts HP. Qed.

Print Assumptions C64_OriginalDE.
Print Assumptions C64_SADE.
Print Assumptions C64_OriginalGWO.
Print Assumptions C64_GWO_WOA.
Print Assumptions C64_IGWO.
Print Assumptions C64_FuzzyGWO.
Print Assumptions C64_IncrementalGWO.
Print Assumptions C64_ExGWO.
Print Assumptions C64_ER_GWO.
Print Assumptions C64_OriginalWOA.
Print Assumptions C64_DevWOA.
Print Assumptions C64_JADE.
Print Assumptions C64_DevHS.
Print Assumptions C64_OriginalHS.
Print Assumptions C64_ChaoticGWO.
