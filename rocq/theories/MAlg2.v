(** More code fragments shared by the algorithm classes: candidates that are agents with attributes, and batches
    whose members are accepted one by one.  No proofs here. *)
From Verif Require Import Prelude Fl MCore MHelp MAlg.

Section Blocks.
Context {A X : Type}.
Variable E : env.
Variable P : problem.
Variable md : mode.

(** [greedy_loop] of MAlg with a candidate that is an agent, not yet evaluated, and the slot it competes for. *)
Definition greedy_agents (n : nat) (new_first : bool) (cand : nat -> M A X (nat * agent A)) : M A X unit :=
  pop_new <- for_acc n 0 [] (fun idx pop_new =>
      p <- cand idx ;;
      if is_avail md then ret (pop_new ++ [snd p])
      else a' <- evaluate P (snd p) ;; keep_better P new_first (fst p) a' ;;; ret (pop_new ++ [a'])) ;;
  when (is_avail md)
    (l <- update_target_for_population P md pop_new ;;
     p <- get_pop ;;
     q <- lift (greedy_selection_population p l (p_mm P)) ;;
     set_pop q).
(** [new_agents] of MAlg with candidates that are agents. *)
Definition made_agents (n : nat) (cand : nat -> M A X (agent A)) : M A X (list (agent A)) :=
  pop_new <- for_acc n 0 [] (fun idx pop_new =>
      a <- cand idx ;;
      if is_avail md then ret (pop_new ++ [a])
      else a' <- evaluate P a ;; ret (pop_new ++ [a'])) ;;
  if is_avail md then update_target_for_population P md pop_new else ret pop_new.
Definition replace_made (n : nat) (cand : nat -> M A X (agent A)) : M A X unit :=
  l <- made_agents n cand ;; set_pop l.
Definition greedy_made (n : nat) (cand : nat -> M A X (agent A)) : M A X unit :=
  l <- made_agents n cand ;;
  p <- get_pop ;;
  q <- lift (greedy_selection_population p l (p_mm P)) ;;
  set_pop q.
Definition trim_made (n m : nat) (cand : nat -> M A X (agent A)) : M A X unit :=
  l <- made_agents n cand ;;
  p <- get_pop ;;
  q <- lift (get_sorted_and_trimmed_population (e_argsort E) (p ++ l) m (p_mm P)) ;;
  set_pop q.
(** [replace_each] of MAlg with candidates that are agents. *)
Definition replace_made_each (n : nat) (cand : nat -> M A X (agent A)) : M A X unit :=
  pop_new <- for_acc n 0 [] (fun idx pop_new =>
      a <- cand idx ;;
      if is_avail md then ret (pop_new ++ [a])
      else a' <- evaluate P a ;; pop_set idx a' ;;; ret (pop_new ++ [a'])) ;;
  when (is_avail md) (l <- update_target_for_population P md pop_new ;; set_pop l).
(** One agent evaluated at once, then kept or accepted. *)
Definition keep_agent (new_first : bool) (idx : nat) (a : agent A) : M A X unit :=
  a' <- evaluate P a ;; keep_better P new_first idx a'.
Definition accept_agent (idx : nat) (a : agent A) : M A X unit :=
  a' <- evaluate P a ;; accept P idx a'.
(** [self.pop[idx].<attributes> = ...]. *)
Definition set_att (idx : nat) (b : A) : M A X unit :=
  old <- pop_at idx ;; pop_set idx (with_att old b).
(** [self.compare_target(x, y)] for targets that may be missing. *)
Definition compare_opt (x y : option target) (mm : minmax) : res bool :=
  match x, y with Some a, Some b => Ok (compare_target a b mm) | _, _ => Err AttributeError end.
(** The position [y] is evaluated; it and its target replace those of agent [idx] when better; the attributes are
    replaced in any case: [b] computes them from the new target, the old agent and the outcome of the comparison. *)
Definition merge (idx : nat) (y : vec) (b : target -> agent A -> bool -> M A X A) : M A X unit :=
  t <- get_target P y ;;
  old <- pop_at idx ;;
  c <- lift (compare_opt (Some t) (tgt old) (p_mm P)) ;;
  x <- b t old c ;;
  pop_set idx (if c then mkAgent y (Some t) x else with_att old x).
(** The batch is evaluated as a whole; then each member that is better replaces the agent of its slot. [after] is run
    after each comparison, with the old agent, the new one and the outcome. *)
Definition accept_each (l : list (agent A)) (after : nat -> agent A -> agent A -> bool -> M A X unit) : M A X unit :=
  for_ (List.length l) (fun idx =>
    a <- lift (getitem l idx) ;;
    old <- pop_at idx ;;
    c <- lift (compare_agents a old (p_mm P)) ;;
    when c (pop_set idx a) ;;;
    after idx old a c).
Definition accept_batch (n : nat) (cand : nat -> M A X (agent A)) (after : nat -> agent A -> agent A -> bool -> M A X unit) : M A X unit :=
  l <- made_agents n cand ;; accept_each l after.
End Blocks.
