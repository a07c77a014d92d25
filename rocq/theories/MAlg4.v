(** More code fragments shared by the algorithm classes: elites added back, batches of varying size, the front part of
    the population.  No proofs here. *)
From Verif Require Import Prelude Fl MCore MHelp MAlg MAlg2.

Section Blocks.
Context {A X : Type}.
Variable E : env.
Variable P : problem.
Variable md : mode.
(** [self.problem.generate_solution()] (utils/problem.py:178-188). *)
Definition random_solution : M A X vec := k <- tick ;; ret (p_gen P k).
(** [self.pop = self.get_sorted_and_trimmed_population(self.pop + l, m, minmax)]. *)
Definition trim_with (m : nat) (l : list (agent A)) : M A X unit :=
  p <- get_pop ;;
  q <- lift (get_sorted_and_trimmed_population (e_argsort E) (p ++ l) m (p_mm P)) ;;
  set_pop q.
(** [_, elites, _ = self.get_special_agents(self.pop, n_best=k, minmax)], then [body], then the elites compete again. *)
Definition with_best (k m : nat) (body : M A X unit) : M A X unit :=
  p <- get_pop ;;
  '(_, best, _) <- special E P p k 3 ;;
  body ;;;
  trim_with m best.
(** Agents made before, evaluated in turn in single mode and as a whole otherwise. *)
Definition evaluate_all (l : list (agent A)) : M A X (list (agent A)) :=
  if is_avail md then update_target_for_population P md l
  else for_list l [] (fun a acc => b <- evaluate P a ;; ret (acc ++ [b])).
(** A loop whose iterations append several agents each. *)
Definition collect_many {Y} (n : nat) (cand : nat -> M A X (list Y)) : M A X (list Y) :=
  for_acc n 0 [] (fun idx acc => c <- cand idx ;; ret (acc ++ c)).
(** The same, the agents evaluated and [m] kept. *)
Definition trim_many (n m : nat) (cand : nat -> M A X (list (agent A))) : M A X unit :=
  l <- collect_many n cand ;;
  new <- evaluate_all l ;;
  trim_with m new.

Variable correct : vec -> M A X vec.                   (* correct_solution *)
Variable gea : option vec -> M A X (agent A).          (* generate_empty_agent *)
(** [self.pop[idx] = self.generate_agent(self.correct_solution(x))]. *)
Definition gen_set (idx : nat) (x : vec) : M A X unit := a <- gen_agent P correct gea x ;; pop_set idx a.
(** [greedy_each] of MAlg on the first [m] agents only: outside single mode
    [self.pop[:m] = self.greedy_selection_population(self.pop[:m], pop_new, minmax)]. *)
Definition greedy_front (m : nat) (new_first : bool) (cand : nat -> M A X vec) : M A X unit :=
  pop_new <- for_acc m 0 [] (fun idx pop_new =>
      x <- cand idx ;;
      a <- propose correct gea x ;;
      if is_avail md then ret (pop_new ++ [a])
      else a' <- evaluate P a ;; keep_better P new_first idx a' ;;; ret (pop_new ++ [a'])) ;;
  when (is_avail md)
    (l <- update_target_for_population P md pop_new ;;
     p <- get_pop ;;
     q <- lift (greedy_selection_population (firstn m p) l (p_mm P)) ;;
     set_pop (q ++ skipn m p)).
End Blocks.
