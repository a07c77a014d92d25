(** More code fragments shared by the algorithm classes: groups of agents improved outside the population, candidates
    for some of the slots only.  No proofs here. *)
From Verif Require Import Prelude Fl MCore MHelp MAlg MAlg2 MAlg4.

Section Blocks.
Context {A X : Type}.
Variable E : env.
Variable P : problem.
Variable md : mode.
(** [get_better_agent] of MCore with the arguments in either order, the old one being the first or the second. *)
Definition better_of (new_first : bool) (old a : agent A) : res (agent A) :=
  if new_first then get_better_agent a old (p_mm P) false else get_better_agent old a (p_mm P) false.
(** Evaluated agents compete for the slots they were made for. *)
Definition keep_each (new_first : bool) (l : list (nat * agent A)) : M A X unit :=
  for_list l tt (fun ia _ => keep_better P new_first (fst ia) (snd ia)).
(** Candidates for some of the slots, evaluated as a whole. *)
Definition batch_keep (n : nat) (new_first : bool) (cand : nat -> M A X (list (nat * agent A))) : M A X unit :=
  l <- collect_many n cand ;;
  new <- evaluate_all P md (map snd l) ;;
  keep_each new_first (combine (map fst l) new).

Variable correct : vec -> M A X vec.                   (* correct_solution *)
Variable gea : option vec -> M A X (agent A).          (* generate_empty_agent *)
(** [greedy_each] of MAlg on the first [m] agents of a local list [l], which is returned improved; outside single mode
    the whole list is passed to greedy_selection_population. *)
Definition local_greedy (m : nat) (new_first : bool) (l : list (agent A)) (cand : list (agent A) -> nat -> M A X vec) : M A X (list (agent A)) :=
  r <- for_acc m 0 (l, []) (fun idx cn =>
      x <- cand (fst cn) idx ;;
      a <- propose correct gea x ;;
      if is_avail md then ret (fst cn, snd cn ++ [a])
      else a' <- evaluate P a ;;
           old <- lift (getitem (fst cn) idx) ;;
           b <- lift (better_of new_first old a') ;;
           ret (upd (fst cn) idx b, snd cn ++ [a'])) ;;
  if is_avail md then new <- update_target_for_population P md (snd r) ;; lift (greedy_selection_population (fst r) new (p_mm P))
  else ret (fst r).
End Blocks.
