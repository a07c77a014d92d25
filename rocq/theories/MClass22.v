(** Model of mealpy's algorithm classes, part 22.  The conventions are those of MClass1. *)
From Verif Require Import Prelude Fl MCore MHelp MAlg MAlg2 MAlg3 MAlg4 MAlg5 MAlg6 MAlg7 MAlg8 MClass12.
Local Open Scope f_scope.

(** ** swarm_based/SLO.py, ModifiedSLO and ImprovedSLO *)
(** The attributes of an agent are local_solution and local_target; generate_empty_agent sets only the first. *)
Section SLO.
Variable E : env.
Variable P : problem.
Variable md : mode.
Notation correct := (correct_solution P).
Notation A := (vec * option target)%type.
Notation M := (M (vec * option target) unit).
Notation fm := (rform E P).
(** ModifiedSLO.generate_empty_agent (146-151). *)
Definition slo_gea : option vec -> M (agent A) :=
  gea_with P (fun x => y <- correct (vtab P (fun j => (p_lb P).[j] + (p_ub P).[j] - x.[j])) ;; ret (y, None)).
(** ModifiedSLO.generate_agent (153-166): both positions are evaluated; the worse one becomes the position of the agent. *)
Definition slo_ga (o : option vec) : M (agent A) :=
  a <- slo_gea o ;;
  t <- get_target P (sol a) ;;
  lt <- get_target P (fst (att a)) ;;
  if compare_target t lt (p_mm P)
  then ret (mkAgent (fst (att a)) (Some lt) (sol a, Some t))
  else ret (mkAgent (sol a) (Some t) (fst (att a), Some lt)).
(** Lines 201-205 and 310-314. *)
Definition slo_after (idx : nat) (old new : agent A) (c : bool) : M unit :=
  when c
    (b <- lift (compare_opt (tgt new) (snd (att new)) (p_mm P)) ;;
     when b (set_att idx (sol new, tgt new))).
Definition slo_move (idx : nat) (z : vec) : M (agent A) :=
  a <- pop_at idx ;; y <- correct z ;; ret (mkAgent y (tgt a) (att a)).
(** ModifiedSLO.evolve (167-205). *)
Definition slo_modified_evolve (n epochs ep : nat) : M unit :=
  let c := fnat 2 - fnat 2 * fnat ep / fnat epochs in
  let pa := if fnat 1 < c then dec 3 10 else dec 7 10 in
  sp <- uniform E ;;
  accept_batch P md n (fun idx =>
    z <- (if dec 6 10 <= sp then
            g <- gb_sol ;; xi <- pop_sol idx ;; fm "SLO:185" [g; xi]
          else
            r <- uniform E ;;
            if r < pa then
              g <- gb_sol ;; xi <- pop_sol idx ;; fm "SLO:188-190" [[fnat ep; c]; g; xi; p_lb P; p_ub P]
            else
              j <- integers E 0 n ;;
              b <- pop_at j ;;
              g <- gb_sol ;; xi <- pop_sol idx ;; fm "SLO:192-194" [[c]; g; fst (att b); xi]) ;;
    slo_move idx z) slo_after.
Definition modified_slo (n epochs : nat) :=
  agent_algo E md slo_gea slo_ga n epochs false (ret tt) (ret tt) (slo_modified_evolve n epochs).
(** ImprovedSLO.evolve (268-314).  In the exploration branch the position and its opposite are evaluated and the better one is taken;
    it is corrected and evaluated once more with the others. *)
Definition slo_improved_evolve (c1 c2 : f64) (n epochs ep : nat) : M unit :=
  let c := fnat 2 - fnat 2 * fnat ep / fnat epochs in
  near <- rtest E "SLO:276-279,283" [] ;;
  accept_batch P md n (fun idx =>
    z <- (if near then
            if c < fnat 1 then
              g <- gb_sol ;; a <- pop_at idx ;; fm "SLO:286-289" [[c1; c2]; g; fst (att a); sol a]
            else
              g <- gb_sol ;; xi <- pop_sol idx ;;
              z <- fm "SLO:294" [[c]; g; xi] ;;
              y <- correct z ;;
              t <- get_target P y ;;
              w <- fm "SLO:297" [p_lb P; p_ub P; g; y] ;;
              y' <- correct w ;;
              t' <- get_target P y' ;;
              ret (if compare_target t' t (p_mm P) then y' else y)
          else
            g <- gb_sol ;; xi <- pop_sol idx ;; fm "SLO:303" [g; xi]) ;;
    slo_move idx z) slo_after.
Definition improved_slo (c1 c2 : f64) (n epochs : nat) :=
  agent_algo E md slo_gea slo_ga n epochs false (ret tt) (ret tt) (slo_improved_evolve c1 c2 n epochs).
End SLO.
