(** Classes with a C65 theorem (continued): the best solution evaluated need not be the one returned; runs on the problems and
    environments of PropLost. *)
From Verif Require Import Prelude Fl MCore MHelp MAlg SpecCore SpecRun PSelect Demo MClass23 MClass24 MClass25 MClass26 MClass27 PropLost.

Theorem C65_OriginalBFO_refuted : forgets (mix_env 0) (far_prob 0 0) (original_bfo (mix_env 0) (far_prob 0 0) (dec 1 100) (dec 25 100) 3 2 6 2).
Proof. lost. Qed.
Theorem C65_ABFO_refuted : forgets (mix_env 0) (far_prob 2 1) (abfo (mix_env 0) (far_prob 2 1) Single (dec 1 10) (dec 1 1000) (dec 1 100) 2 2 4 6 2).
Proof. lost. Qed.
Theorem C65_OriginalFA_refuted : forgets (mix_env 0) (far_prob 2 1) (original_fa (mix_env 0) (far_prob 2 1) Single (dec 4 100) (dec 8 10) 5 3 6 2).
Proof. lost. Qed.
Theorem C65_IChameleonSA_refuted : forgets (mix_env 0) (far_prob 2 1) (ichameleon (mix_env 0) (far_prob 2 1) Single 6 2).
Proof. lost. Qed.
Theorem C65_OriginalWCA_refuted : forgets (mix_env 1) (far_prob (-3) 4) (original_wca (mix_env 1) (far_prob (-3) 4) Single 2 6 2).
Proof. lost. Qed.
Theorem C65_SAP_DE_refuted : forgets (mix_env 0) (far_prob 2 1) (sap_de (mix_env 0) (far_prob 2 1) Single 6 6 2).
Proof. lost. Qed.
Theorem C65_DevSMO_refuted : forgets (mix_env 0) (far_prob 2 1) (dev_smo (mix_env 0) (far_prob 2 1) (dec 7 10) 3 20 6 2).
Proof. lost. Qed.

Print Assumptions C65_OriginalBFO_refuted.
Print Assumptions C65_ABFO_refuted.
Print Assumptions C65_OriginalFA_refuted.
Print Assumptions C65_IChameleonSA_refuted.
Print Assumptions C65_OriginalWCA_refuted.
Print Assumptions C65_SAP_DE_refuted.
Print Assumptions C65_DevSMO_refuted.
