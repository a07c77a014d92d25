(** What is claimed of a run of an algorithm class. *)
From Verif Require Import Prelude Fl MCore MHelp SpecCore SpecRun PLogic PRun.

(** For every admissible-solution predicate of the problem, direction, mode, termination, starting solutions and
    previous state of the optimizer (algorithm attributes satisfying [XP]): solve raises nothing and ends as
    [run_spec] says, with population sizes in [IL], [kmin]..[kmax] evaluations per epoch, and, for
    [elite] and objective values that are numbers on admissible solutions, a returned agent at least as good as every solution evaluated. *)
Definition sound_run_len {A X} (E : env) (P : problem) (md : mode) (al : @algo A X) (XP : X -> Prop) (IL : nat -> Prop)
    (elite : bool) (kmin kmax : nat) : Prop :=
  forall feas tm starting s,
    argsort_ok (e_argsort E) -> valid_mm (p_mm P) -> problem_ok P feas ->
    starting_ok P feas (al_pop_size al) starting -> XP (s_x s) ->
    exists g s', solve E P md al tm starting s = Ok (g, s') /\
      run_spec E P feas IL (elite = true /\ obj_num P feas) (al_epoch al) tm
        (mkCounts (al_pop_size al) (al_pop_size al) kmin kmax (missed md (al_pop_size al) starting)
                  (match tm with None => s_nfe s | Some _ => 0 end)) g s'.
(** The usual case: always pop_size agents. *)
Definition sound_run {A X} (E : env) (P : problem) (md : mode) (al : @algo A X) (XP : X -> Prop) (elite : bool)
    (kmin kmax : nat) : Prop := sound_run_len E P md al XP (eq (al_pop_size al)) elite kmin kmax.
(** The same with an extra hypothesis [H] on the admissible solutions, a condition [ST] on the starting solutions, and
    [imin]..[imax] evaluations before the first epoch. *)
Definition sound_run_gen {A X} (E : env) (P : problem) (md : mode) (al : @algo A X) (XP : X -> Prop)
    (H : (vec -> Prop) -> Prop) (ST : option (list vec) -> Prop) (IL : nat -> Prop) (elite : bool) (imin imax kmin kmax : nat) : Prop :=
  forall feas tm starting s,
    argsort_ok (e_argsort E) -> valid_mm (p_mm P) -> problem_ok P feas -> H feas ->
    starting_ok P feas (al_pop_size al) starting -> ST starting -> XP (s_x s) ->
    exists g s', solve E P md al tm starting s = Ok (g, s') /\
      run_spec E P feas IL (elite = true /\ obj_num P feas) (al_epoch al) tm
        (mkCounts imin imax kmin kmax (missed md (al_pop_size al) starting)
                  (match tm with None => s_nfe s | Some _ => 0 end)) g s'.

(** Extra hypotheses on the admissible solutions used by some classes. *)
(** Values of the objective on admissible solutions. *)
Definition fit_values (P : problem) (feas : vec -> Prop) (l : list f64) : Prop := Forall (fun f => exists x, feas x /\ f = fitx P x) l.
(** Roulette-wheel selection over at most [n] such values raises nothing and returns an index of the list.  (With infinite
    or NaN probabilities it raises ValueError, see C10 and C44; C44_total gives conditions under which it does not.) *)
Definition wheel_ok (E : env) (P : problem) (n : nat) (feas : vec -> Prop) : Prop :=
  forall A X (s : st A X) l, l <> [] -> List.length l <= n -> fit_values P feas l -> exists i k, roulette E P l s = Ok (i, bump s k) /\ i < List.length l.
(** Every array of the right length is admissible: for classes that evaluate positions without correcting them. *)
Definition any_array (P : problem) (feas : vec -> Prop) : Prop := forall x, List.length x = n_dims P -> feas x.
