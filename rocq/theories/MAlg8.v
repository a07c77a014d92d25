(** Updating the best solution inside an epoch. *)
From Verif Require Import Prelude Fl MCore MHelp MAlg.

Section Refresh.
Context {A X : Type}.
Variable E : env.
Variable P : problem.

(** self.pop, self.g_best = self.update_global_best_agent(self.pop, save=False), or _, self.g_best = ... when the result is
    not sorted ([sort] = false) (optimizer.py:609-644). *)
Definition refresh (sort : bool) : M A X unit :=
  p <- get_pop ;;
  '(sp, g) <- update_global_best_agent_nosave E P p ;;
  when sort (set_pop sp) ;;;
  set_gb (Some g).
End Refresh.
