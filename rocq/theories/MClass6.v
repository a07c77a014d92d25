(** Further algorithm classes.  The conventions of MClass1 apply. *)
From Verif Require Import Prelude Fl MCore MHelp MAlg MAlg2.
Local Open Scope f_scope.

Section Plain.
Variable E : env.
Variable P : problem.
Variable md : mode.
Notation gea := (generate_empty_agent (A := unit) (X := unit) P tt).
Notation correct := (correct_solution P).
Notation M := (M unit unit).
Notation fm := (rform E P).

(** OriginalGA (evolutionary_based/GA.py:818-911): the class has a constructor and no other method, so evolve is the inherited one,
    which does nothing (optimizer.py:160-161). *)
Definition original_ga (n epochs : nat) := plain_algo (X := unit) E P md tt n epochs false (fun _ => ret tt).
End Plain.
