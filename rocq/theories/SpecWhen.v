(** What is claimed of the runs of an algorithm class that may also raise. *)
From Verif Require Import Prelude Fl MCore MHelp SpecCore SpecRun PLogic PRun SpecAlg.

(** As [sound_run_gen] of SpecAlg, for the runs that return. *)
Definition sound_when {A X} (E : env) (P : problem) (md : mode) (al : @algo A X) (XP : X -> Prop)
    (H : (vec -> Prop) -> Prop) (ST : option (list vec) -> Prop) (IL : nat -> Prop) (elite : bool) (imin imax kmin kmax : nat) : Prop :=
  forall feas tm starting s,
    argsort_ok (e_argsort E) -> valid_mm (p_mm P) -> problem_ok P feas -> H feas ->
    starting_ok P feas (al_pop_size al) starting -> ST starting -> XP (s_x s) ->
    forall g s', solve E P md al tm starting s = Ok (g, s') ->
      run_spec E P feas IL (elite = true /\ obj_num P feas) (al_epoch al) tm
        (mkCounts imin imax kmin kmax (missed md (al_pop_size al) starting)
                  (match tm with None => s_nfe s | Some _ => 0 end)) g s'.
