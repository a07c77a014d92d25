(** Runs of the classes of MClass1. *)
From Verif Require Import Prelude Fl MCore MHelp MAlg MClass1 SpecCore SpecRun PSelect PLogic PSolve PRun SpecAlg PAlg PFree Demo.

Theorem C64_OriginalBMO E P md pl n epochs : 0 < n -> 0 < epochs ->
  sound_run E P md (original_bmo E P md pl n epochs) (fun _ => True) true n n.
Proof. plain. counts HP. Qed.
Theorem C64_OriginalServalOA E P n epochs : 0 < n -> 0 < epochs ->
  sound_run E P Single (original_servaloa E P n epochs) (fun _ => True) true (2 * n) (2 * n).
Proof. plain. counts HP. Qed.
Theorem C64_OriginalTSA E P md n epochs : 0 < n -> 0 < epochs ->
  sound_run E P md (original_tsa E P md n epochs) (fun _ => True) true n n.
Proof. plain. counts HP. Qed.
Theorem C64_OriginalPOA E P n epochs : 0 < n -> 0 < epochs ->
  sound_run E P Single (original_poa E P n epochs) (fun _ => True) true (2 * n) (2 * n).
Proof. plain. counts HP. Qed.
Theorem C64_OriginalFFO E P n epochs : 2 <= n -> 0 < epochs ->
  sound_run E P Single (original_ffo E P n epochs) (fun _ => True) true (2 * n) (2 * n).
Proof. plain. counts HP. Qed.
Theorem C64_OriginalWaOA E P n epochs : 0 < n -> 0 < epochs ->
  sound_run E P Single (original_waoa E P n epochs) (fun _ => True) true (2 * n) (2 * n).
Proof. plain. counts HP. Qed.
Theorem C64_OriginalNGO E P n epochs : 0 < n -> 0 < epochs ->
  sound_run E P Single (original_ngo E P n epochs) (fun _ => True) true (2 * n) (2 * n).
Proof. plain. counts HP. Qed.
Theorem C64_OriginalSSO E P md n epochs : 0 < n -> 0 < epochs ->
  sound_run E P md (original_sso E P md n epochs) (fun _ => True) true n n.
Proof. plain. counts HP. Qed.
Theorem C64_OriginalMFO E P md n epochs : 0 < n -> 0 < epochs ->
  sound_run E P md (original_mfo E P md n epochs) (fun _ => True) true n n.
Proof. plain. counts HP. Qed.
Theorem C64_OriginalSTO E P n epochs : 0 < n -> 0 < epochs ->
  sound_run E P Single (original_sto E P n epochs) (fun _ => True) true (2 * n) (2 * n).
Proof. plain. counts HP. Qed.
Theorem C64_OriginalOOA E P n epochs : 0 < n -> 0 < epochs ->
  sound_run E P Single (original_ooa E P n epochs) (fun _ => True) true (2 * n) (2 * n).
Proof. plain. counts HP. Qed.
Theorem C64_OriginalRIME E P md sr n epochs : 0 < n -> 0 < epochs ->
  sound_run E P md (original_rime E P md sr n epochs) (fun _ => True) true n n.
Proof. plain. counts HP. Qed.
Theorem C64_OriginalSCSO E P md n epochs : 0 < n -> 0 < epochs ->
  sound_run E P md (original_scso E P md n epochs) (fun _ => True) true n n.
Proof. plain. counts HP. Qed.
Theorem C64_OriginalEAO E P ec n epochs : 3 <= n -> 0 < epochs ->
  sound_run E P Single (original_eao E P ec n epochs) (fun _ => True) true (3 * n) (3 * n).
Proof. plain. counts HP. Qed.
Theorem C64_OriginalFPA E P md p_s lm n epochs : 3 <= n -> 0 < epochs ->
  sound_run E P md (original_fpa E P md p_s lm n epochs) (fun _ => True) true n n.
Proof. plain. counts HP. Qed.
Theorem C64_OriginalOSA E P md am bm n epochs : 0 < n -> 0 < epochs ->
  sound_run E P md (original_osa E P md am bm n epochs) (fun _ => True) true n n.
Proof. plain. counts HP. Qed.
Theorem C64_OriginalGOA E P md c1 c2 n epochs : 0 < n -> 0 < epochs ->
  sound_run E P md (original_goa E P md c1 c2 n epochs) (fun _ => True) true n n.
Proof. plain. counts HP. Qed.
Theorem C64_OriginalMGOA E P md r n epochs : 3 <= n -> 0 < epochs ->
  sound_run E P md (original_mgoa E P md r n epochs) (fun _ => True) true n n.
Proof. plain. counts HP. Qed.
Theorem C64_OriginalACOR E P md k i z n epochs : 0 < n -> 0 < epochs ->
  sound_run E P md (original_acor E P md k i z n epochs) (fun _ => True) true k k.
Proof. plain. counts HP. Qed.
Theorem C64_OriginalGJO E P md n epochs : 2 <= n -> 0 < epochs ->
  sound_run E P md (original_gjo E P md n epochs) (fun _ => True) true n n.
Proof. plain. counts HP. Qed.
Theorem C65_OriginalCoatiOA E P n epochs : 0 < n -> 0 < epochs ->
  sound_run E P Single (original_coatioa E P n epochs) (fun _ => True) false (2 * n + (n - n / 2)) (2 * n + (n - n / 2)).
Proof.
  plainfree. assert (HD : n / 2 <= n) by (apply Nat.div_le_upper_bound; lia). unfold coatioa_evolve.
  set (h := n / 2) in *; clearbody h. gcounts HP.
Qed.
Theorem C65_OriginalTOA E P n epochs : 0 < n -> 0 < epochs ->
  sound_run E P Single (original_toa E P n epochs) (fun _ => True) false (3 * n) (4 * n).
Proof. plainfree. gcounts HP. Qed.

Print Assumptions C64_OriginalBMO.
Print Assumptions C64_OriginalServalOA.
Print Assumptions C64_OriginalTSA.
Print Assumptions C64_OriginalPOA.
Print Assumptions C64_OriginalFFO.
Print Assumptions C64_OriginalWaOA.
Print Assumptions C64_OriginalNGO.
Print Assumptions C64_OriginalSSO.
Print Assumptions C64_OriginalMFO.
Print Assumptions C64_OriginalSTO.
Print Assumptions C64_OriginalOOA.
Print Assumptions C64_OriginalRIME.
Print Assumptions C64_OriginalSCSO.
Print Assumptions C64_OriginalEAO.
Print Assumptions C64_OriginalFPA.
Print Assumptions C64_OriginalOSA.
Print Assumptions C64_OriginalGOA.
Print Assumptions C64_OriginalMGOA.
Print Assumptions C64_OriginalACOR.
Print Assumptions C64_OriginalGJO.
Print Assumptions C65_OriginalCoatiOA.
Print Assumptions C65_OriginalTOA.
