(** More code fragments shared by the algorithm classes: agents that are evaluated twice,
    populations built as a list.  No proofs here. *)
From Verif Require Import Prelude Fl MCore MHelp MAlg MAlg2 MAlg4 MAlg5.

Section Blocks.
Context {A X : Type}.
Variable P : problem.
Variable md : mode.
Variable correct : vec -> M A X vec.                   (* correct_solution *)
Variable gea : option vec -> M A X (agent A).          (* generate_empty_agent *)
(** [greedy_each] of MAlg with agents made by generate_agent, which evaluates them, before the usual evaluation (for
    example NMRA.py:78-86). *)
Definition greedy_twice (n : nat) (new_first : bool) (cand : nat -> M A X vec) : M A X unit :=
  pop_new <- for_acc n 0 [] (fun idx pop_new =>
      x <- cand idx ;;
      a <- gen_agent P correct gea x ;;
      if is_avail md then ret (pop_new ++ [a])
      else a' <- evaluate P a ;; keep_better P new_first idx a' ;;; ret (pop_new ++ [a'])) ;;
  when (is_avail md)
    (l <- update_target_for_population P md pop_new ;;
     p <- get_pop ;;
     q <- lift (greedy_selection_population p l (p_mm P)) ;;
     set_pop q).
(** A list of agents is built, evaluated as a whole, and becomes the population. *)
Definition replace_list (m : M A X (list (agent A))) : M A X unit :=
  l <- m ;; new <- evaluate_all P md l ;; set_pop new.
End Blocks.
