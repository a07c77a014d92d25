(** Theorems about the classes of MClass6. *)
From Verif Require Import Prelude Fl MCore MHelp MAlg MAlg2 MClass5 MClass6 SpecCore SpecRun PSelect PLogic PSolve PRun SpecAlg PAlg PFree PClass PAlg2 PAlg3 Demo.

(** OriginalGA makes no evaluation after the initial population (0 per epoch): it returns the best initial agent however
    many epochs are run. *)
Theorem C64_OriginalGA E P md n epochs : 5 <= n -> 0 < epochs ->
  sound_run E P md (original_ga E P md n epochs) (fun _ => True) true 0 0.
Proof. plain. counts HP. Qed.

Print Assumptions C64_OriginalGA.
