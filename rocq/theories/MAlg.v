(** Notation and code fragments shared by the algorithm classes.  No proofs here.

    Candidate positions are computed in binary64 as written, componentwise ([vtab]); sums are taken left to right.
    Special functions (sin, exp, power ...) are [e_fun]; uniform, normal and other draws are [e_u]/[e_g]/[e_i].
    In-place changes of an agent of the population ([self.pop[i].update(...)]) are written as replacing the entry. *)
From Verif Require Import Prelude Fl MCore MHelp.

Declare Scope f_scope.
Delimit Scope f_scope with F.
Infix "+" := fadd : f_scope.
Infix "-" := fsub : f_scope.
Infix "*" := fmul : f_scope.
Infix "/" := fdiv : f_scope.
Notation "- x" := (fneg x) : f_scope.
Infix "<" := flt : f_scope.
Infix "<=" := fle : f_scope.
Notation "# n" := (fZ n%Z) (at level 1, n constr at level 0, format "# n") : f_scope.
Notation "x .[ j ]" := (vget x j) (at level 1, format "x .[ j ]").
(** A decimal literal n/d, rounded to nearest. *)
Definition dec (n d : Z) : f64 := fdiv (fZ n) (fZ d).
Definition fnat (n : nat) : f64 := fZ (Z.of_nat n).

Section Blocks.
Context {A X : Type}.
Variable E : env.
Variable P : problem.
Variable md : mode.

Definition sin_ (x : f64) := e_fun E "sin" [x].
Definition cos_ (x : f64) := e_fun E "cos" [x].
Definition exp_ (x : f64) := e_fun E "exp" [x].
Definition log_ (x : f64) := e_fun E "log" [x].
Definition sqrt_ (x : f64) := e_fun E "sqrt" [x].
Definition pow_ (x y : f64) := e_fun E "power" [x; y].
Definition pi_ : f64 := e_fun E "pi" [].

(** A formula over arrays and scalars (a scalar is an array of one component) left abstract: an arbitrary function of
    its arguments for each component. *)
Definition vform (name : string) (args : list vec) : vec :=
  vtab P (fun j => e_fun E name (fnat j :: List.concat args)).
Definition sform (name : string) (args : list vec) : f64 := e_fun E name (List.concat args).
(** Division of Python numbers. *)
Definition py_div (x y : f64) : res f64 := if feq y (fZ 0) then Err ZeroDivisionError else Ok (fdiv x y).

(** A formula with its own random draws left abstract: an arbitrary function of its reads and of the state of the
    generator.  [rtest]: a condition of that kind. *)
Definition rform (name : string) (reads : list vec) : M A X vec := k <- tick ;; ret (vform name ([fnat k] :: reads)).
Definition rnum (name : string) (reads : list vec) : M A X f64 := k <- tick ;; ret (sform name ([fnat k] :: reads)).
Definition rtest (name : string) (reads : list vec) : M A X bool := x <- rnum name reads ;; ret (#0 < x)%F.
(** The same for an array of [m] numbers. *)
Definition rlist (m : nat) (name : string) (reads : list vec) : M A X vec :=
  k <- tick ;; ret (map (fun j => e_fun E name (fnat k :: fnat j :: List.concat reads)) (seq 0 m)).
(** np.argmax / np.argmin: the first extreme element, a NaN counting as extreme; ValueError on an empty array. *)
Fixpoint arg_from (before : f64 -> f64 -> bool) (best i : nat) (bv : f64) (l : vec) : nat :=
  match l with
  | [] => best
  | x :: r => if feq bv bv && (negb (feq x x) || before x bv)
              then arg_from before i (S i) x r else arg_from before best (S i) bv r
  end.
Definition np_argmax (l : vec) : res nat :=
  match l with [] => Err ValueError | x :: r => Ok (arg_from (fun x y => flt y x) 0 1 x r) end.
Definition np_argmin (l : vec) : res nat :=
  match l with [] => Err ValueError | x :: r => Ok (arg_from flt 0 1 x r) end.
(** Fancy indexing [l[idx]]. *)
Definition pick {T} (l : list T) (idx : list nat) : res (list T) := map_res (getitem l) idx.
(** [self.g_worst.<attr>]. *)
Definition get_gw : M A X (agent A) :=
  fun s => match s_gw s with Some g => Ok (g, s) | None => Err AttributeError end.

(** [generator.uniform(lo, hi)]: lo + (hi - lo) * u. *)
Definition uniform_in (lo hi : f64) : M A X f64 := u <- uniform E ;; ret (lo + (hi - lo) * u)%F.
(** [generator.uniform(0, 1, n_dims)], [generator.random(n_dims)], [generator.normal(0, 1, n_dims)]. *)
Definition uvec : M A X vec := uniform_vec E (n_dims P).
Definition gvec : M A X vec := gauss_vec E (n_dims P).
(** [generator.uniform(problem.lb, problem.ub)]. *)
Definition uniform_box : M A X vec :=
  u <- uvec ;; ret (vtab P (fun j => (p_lb P).[j] + ((p_ub P).[j] - (p_lb P).[j]) * u.[j])%F).
(** [set(range(0, n)) - {...}] as a list. *)
Definition others (n : nat) (excl : list nat) : list nat :=
  filter (fun i => negb (existsb (Nat.eqb i) excl)) (seq 0 n).
(** [generator.permutation(n)]. *)
Definition permutation (n : nat) : M A X (list nat) := choice_noreplace E (seq 0 n) n.
(** [generator.choice(l, 2, replace=False)] etc., unpacked. *)
Definition choose2 (l : list nat) : M A X (nat * nat) :=
  r <- choice_noreplace E l 2 ;; match r with [a; b] => ret (a, b) | _ => raise ValueError end.
Definition choose3 (l : list nat) : M A X (nat * nat * nat) :=
  r <- choice_noreplace E l 3 ;; match r with [a; b; c] => ret (a, b, c) | _ => raise ValueError end.
Definition choose4 (l : list nat) : M A X (nat * nat * nat * nat) :=
  r <- choice_noreplace E l 4 ;; match r with [a; b; c; d] => ret (a, b, c, d) | _ => raise ValueError end.
Definition choose5 (l : list nat) : M A X (nat * nat * nat * nat * nat) :=
  r <- choice_noreplace E l 5 ;; match r with [a; b; c; d; e] => ret (a, b, c, d, e) | _ => raise ValueError end.
(** [generator.integers(lo, hi, k)] and [generator.choice([1, -1], k)] and the like, as numbers. *)
Definition integers_vec (lo hi k : nat) : M A X vec := l <- repeat_M k (integers E lo hi) ;; ret (map fnat l).
Definition choice_vec (l : vec) (k : nat) : M A X vec := repeat_M k (choice1 E l).
(** [generator.random() < 0.5] and the like. *)
Definition coin (p : f64) : M A X bool := u <- uniform E ;; ret (u < p)%F.
(** Reads of positions and fitness values. *)
Definition pop_sol (i : nat) : M A X vec := a <- pop_at i ;; ret (sol a).
Definition pop_fit (i : nat) : M A X f64 := a <- pop_at i ;; lift (fitness a).
Definition gb_sol : M A X vec := g <- get_gb ;; ret (sol g).
Definition gb_fit : M A X f64 := g <- get_gb ;; lift (fitness g).
Definition gw_sol : M A X vec := g <- get_gw ;; ret (sol g).
Definition gw_fit : M A X f64 := g <- get_gw ;; lift (fitness g).
Definition all_sols : M A X (list vec) := p <- get_pop ;; ret (map sol p).
Definition all_fits : M A X vec := p <- get_pop ;; lift (map_res fitness p).
(** The positions of the global best and of the population, as arguments of an abstract formula; the same with the
    fitness values, and with the global worst. *)
Definition view : M A X (list vec) := g <- gb_sol ;; xs <- all_sols ;; ret (g :: xs).
Definition view_fit : M A X (list vec) := v <- view ;; fs <- all_fits ;; f <- gb_fit ;; ret ([f] :: fs :: v).
Definition view_worst : M A X (list vec) := v <- view_fit ;; w <- gw_sol ;; f <- gw_fit ;; ret ([f] :: w :: v).
(** Indexes of the agents with better fitness than agent [idx]: get_indexes_better__ of several classes, e.g.
    OriginalSTO.get_indexes_better__ (STO.py:79-85). *)
Definition better_idxs (idx : nat) : M A X (list nat) :=
  fs <- all_fits ;;
  f <- pop_fit idx ;;
  ret (filter (fun k => match p_mm P with Min => (vget fs k < f)%F | _ => (f < vget fs k)%F end) (seq 0 (List.length fs))).
(** [sorted, best, worst = self.get_special_agents(pop, n_best=nb, n_worst=nw, minmax)] as lists. *)
Definition special (pop : list (agent A)) (nb nw : nat) : M A X (list (agent A) * list (agent A) * list (agent A)) :=
  '(sp, ob, ow) <- lift (get_special_agents (e_argsort E) pop (Some nb) (Some nw) (p_mm P)) ;;
  match ob, ow with Some b, Some w => ret (sp, b, w) | _, _ => raise TypeError end.
(** [for jdx in range(n_dims)] computing one component each. *)
Definition dims (f : nat -> M A X f64) : M A X vec :=
  for_acc (n_dims P) 0 [] (fun j acc => v <- f j ;; ret (acc ++ [v])).
(** np.mean of the positions, per dimension. *)
Definition mean_sol (l : list (agent A)) : vec := vtab P (fun j => fmean (map (fun a => (sol a).[j]) l)).

(** The amend_solution that replaces out-of-range components by random ones, as overridden in several classes, e.g.
    OriginalSCA.amend_solution (SCA.py:146-148). *)
Definition amend_random (x : vec) : M A X vec :=
  r <- uniform_box ;;
  ret (vtab P (fun j => if ((p_lb P).[j] <= x.[j])%F && (x.[j] <= (p_ub P).[j])%F then x.[j] else r.[j])).

(** The same with the random components taken from problem.generate_solution(), e.g. OriginalFPA.amend_solution
    (FPA.py:71-74). *)
Definition amend_gen (x : vec) : M A X vec :=
  k <- tick ;;
  ret (vtab P (fun j => if ((p_lb P).[j] <= x.[j])%F && (x.[j] <= (p_ub P).[j])%F then x.[j] else (p_gen P k).[j])).
(** Any other formula for the components. *)
Definition amend_form (name : string) (x : vec) : M A X vec := rform name [x; p_lb P; p_ub P].

(** compare_target on two agents' targets. *)
Definition compare_agents (a b : agent A) (mm : minmax) : res bool :=
  match tgt a, tgt b with
  | Some x, Some y => Ok (compare_target x y mm)
  | _, _ => Err AttributeError
  end.

Variable correct : vec -> M A X vec.                   (* correct_solution *)
Variable gea : option vec -> M A X (agent A).          (* generate_empty_agent *)

(** [agent.target = self.get_target(agent.solution)]. *)
Definition evaluate (a : agent A) : M A X (agent A) := t <- get_target P (sol a) ;; ret (with_tgt a t).
(** [pos = self.correct_solution(pos); agent = self.generate_empty_agent(pos)]. *)
Definition propose (x : vec) : M A X (agent A) := y <- correct x ;; gea (Some y).
(** [pos = self.correct_solution(pos); agent = self.generate_agent(pos)]. *)
Definition gen_agent (x : vec) : M A X (agent A) := a <- propose x ;; evaluate a.

(** [self.generate_agent()]. *)
Definition random_agent : M A X (agent A) := a <- gea None ;; evaluate a.
(** [agent = self.generate_agent(pos)] for a corrected position. *)
Definition gen_at (y : vec) : M A X (agent A) := a <- gea (Some y) ;; evaluate a.
(** Several positions corrected, then several agents evaluated. *)
Definition correct_list (xs : list vec) : M A X (list vec) :=
  for_list xs [] (fun x acc => y <- correct x ;; ret (acc ++ [y])).
Definition gen_list (ys : list vec) : M A X (list (agent A)) :=
  for_list ys [] (fun y acc => a <- gen_at y ;; ret (acc ++ [a])).

(** [self.pop[idx] = self.get_better_agent(agent, self.pop[idx], minmax)], or with the arguments exchanged. *)
Definition keep_better (new_first : bool) (idx : nat) (a : agent A) : M A X unit :=
  old <- pop_at idx ;;
  b <- lift (if new_first then get_better_agent a old (p_mm P) false else get_better_agent old a (p_mm P) false) ;;
  pop_set idx b.
(** [if self.compare_target(agent.target, self.pop[idx].target, minmax): self.pop[idx] = agent]. *)
Definition accept (idx : nat) (a : agent A) : M A X unit :=
  old <- pop_at idx ;;
  c <- lift (compare_agents a old (p_mm P)) ;;
  when c (pop_set idx a).
(** Correct, evaluate, accept if better. *)
Definition try_improve (idx : nat) (x : vec) : M A X unit := a <- gen_agent x ;; accept idx a.
(** The same, telling whether it was accepted and the corrected position. *)
Definition try_improve_b (idx : nat) (x : vec) : M A X (bool * vec) :=
  a <- gen_agent x ;;
  old <- pop_at idx ;;
  c <- lift (compare_agents a old (p_mm P)) ;;
  when c (pop_set idx a) ;;;
  ret (c, sol a).
(** Correct, evaluate, keep the better one of the two. *)
Definition gen_keep (new_first : bool) (idx : nat) (x : vec) : M A X unit := a <- gen_agent x ;; keep_better new_first idx a.
(** The best of several positions against slot idx: [best, _ = self.get_best_agent([...]); self.pop[idx] =
    self.get_better_agent(best, self.pop[idx])]. *)
Definition best_keep (new_first : bool) (idx : nat) (ys : list vec) : M A X unit :=
  new <- gen_list ys ;; b <- lift (get_best_agent (e_argsort E) new (p_mm P)) ;; keep_better new_first idx (fst b).

(** The best of the old agent and several positions: [self.pop[idx], _ = self.get_best_agent([self.pop[idx], ...])]. *)
Definition best_with_old (idx : nat) (ys : list vec) : M A X unit :=
  new <- gen_list ys ;;
  old <- pop_at idx ;;
  b <- lift (get_best_agent (e_argsort E) (old :: new) (p_mm P)) ;;
  pop_set idx (fst b).

(** The usual loop: one candidate per agent; in single mode it is evaluated at once and replaces the agent if
    better, otherwise all candidates are evaluated together and selected greedily. [cand] gives the slot compared
    with and the position. *)
Definition greedy_loop (n : nat) (new_first : bool) (cand : nat -> M A X (nat * vec)) : M A X unit :=
  pop_new <- for_acc n 0 [] (fun idx pop_new =>
      p <- cand idx ;;
      a <- propose (snd p) ;;
      if is_avail md then ret (pop_new ++ [a])
      else a' <- evaluate a ;; keep_better new_first (fst p) a' ;;; ret (pop_new ++ [a'])) ;;
  when (is_avail md)
    (l <- update_target_for_population P md pop_new ;;
     p <- get_pop ;;
     q <- lift (greedy_selection_population p l (p_mm P)) ;;
     set_pop q).
(** The same with the slot of the loop. *)
Definition greedy_each (n : nat) (new_first : bool) (cand : nat -> M A X vec) : M A X unit :=
  greedy_loop n new_first (fun idx => x <- cand idx ;; ret (idx, x)).

(** A list built by a loop: [[body(i) for i in range(n)]] or repeated [append]. *)
Definition collect {Y} (n : nat) (body : nat -> M A X Y) : M A X (list Y) :=
  for_acc n 0 [] (fun i acc => y <- body i ;; ret (acc ++ [y])).
(** A position that is not corrected; an array of n_dims components. *)
Definition raw (x : vec) : M A X vec := ret (vtab P (fun j => x.[j])).
(** One new agent per index, evaluated at once in single mode, all together otherwise. *)
Definition new_agents (n : nat) (cand : nat -> M A X vec) : M A X (list (agent A)) :=
  pop_new <- for_acc n 0 [] (fun idx pop_new =>
      x <- cand idx ;;
      a <- propose x ;;
      if is_avail md then ret (pop_new ++ [a])
      else a' <- evaluate a ;; ret (pop_new ++ [a'])) ;;
  if is_avail md then update_target_for_population P md pop_new else ret pop_new.
(** [self.get_best_agent(pop_new, minmax)] of new agents. *)
Definition best_new (n : nat) (cand : nat -> M A X vec) : M A X (agent A * nat) :=
  new <- new_agents n cand ;; lift (get_best_agent (e_argsort E) new (p_mm P)).
(** [self.pop = pop_new]. *)
Definition replace_all (n : nat) (cand : nat -> M A X vec) : M A X unit :=
  l <- new_agents n cand ;; set_pop l.
(** [self.pop = self.greedy_selection_population(self.pop, pop_new, minmax)] in every mode. *)
Definition greedy_batch (n : nat) (cand : nat -> M A X vec) : M A X unit :=
  l <- new_agents n cand ;;
  p <- get_pop ;;
  q <- lift (greedy_selection_population p l (p_mm P)) ;;
  set_pop q.
(** [self.pop = self.get_sorted_and_trimmed_population(self.pop + pop_new, m, minmax)]. *)
Definition trim_batch (n m : nat) (cand : nat -> M A X vec) : M A X unit :=
  l <- new_agents n cand ;;
  p <- get_pop ;;
  q <- lift (get_sorted_and_trimmed_population (e_argsort E) (p ++ l) m (p_mm P)) ;;
  set_pop q.
(** Sort, keep the [m] best, then append [k] new agents. *)
Definition renew (m k : nat) (cand : nat -> M A X vec) : M A X unit :=
  p <- get_pop ;;
  q <- lift (get_sorted_and_trimmed_population (e_argsort E) p (m + k)%nat (p_mm P)) ;;
  l <- new_agents k cand ;;
  set_pop (firstn m q ++ l).
(** [self.pop, _ = self.get_sorted_population(self.pop, minmax)]. *)
Definition sort_pop : M A X unit :=
  p <- get_pop ;; '(ps, _) <- lift (get_sorted_population (e_argsort E) p (p_mm P)) ;; set_pop ps.
(** Sort, then write new evaluated agents into the last [k] slots; [pre] is read after sorting. *)
Definition sort_retire {Y} (m k : nat) (pre : M A X Y) (cand : Y -> nat -> M A X vec) : M A X unit :=
  sort_pop ;;;
  y <- pre ;;
  for_ k (fun i => x <- cand y i ;; a <- gen_agent x ;; pop_set (m + i)%nat a).
(** Two positions corrected and evaluated, then each accepted into its slot if better. *)
Definition try_pair (i j : nat) (x y : vec) : M A X unit :=
  x' <- correct x ;;
  y' <- correct y ;;
  a <- gen_at x' ;;
  b <- gen_at y' ;;
  accept i a ;;;
  accept j b.
(** Copies of the first [k] agents are kept aside and written over the last [k] slots of the sorted population after [body]. *)
Definition with_elites (n k : nat) (body : M A X unit) : M A X unit :=
  p <- get_pop ;;
  body ;;;
  sort_pop ;;;
  for_ k (fun i => b <- lift (getitem (firstn k p) i) ;; pop_set (n - 1 - i)%nat b).
(** Each new agent takes the place of the old one: at once in single mode, all together otherwise. *)
Definition replace_each (n : nat) (cand : nat -> M A X vec) : M A X unit :=
  pop_new <- for_acc n 0 [] (fun idx pop_new =>
      x <- cand idx ;;
      a <- propose x ;;
      if is_avail md then ret (pop_new ++ [a])
      else a' <- evaluate a ;; pop_set idx a' ;;; ret (pop_new ++ [a'])) ;;
  when (is_avail md) (l <- update_target_for_population P md pop_new ;; set_pop l).
(** [_, best, worst = self.get_special_agents(self.pop, n_best=1, n_worst=1, ...); self.g_best, self.g_worst = best[0], worst[0]]. *)
Definition reset_best_worst : M A X unit :=
  p <- get_pop ;;
  '(_, ob, ow) <- lift (get_special_agents (e_argsort E) p (Some 1) (Some 1) (p_mm P)) ;;
  b <- lift (match ob with Some l => getitem l 0 | None => Err TypeError end) ;;
  w <- lift (match ow with Some l => getitem l 0 | None => Err TypeError end) ;;
  set_gb (Some b) ;;; set_gw (Some w).
(** A generate_empty_agent that adds attributes. *)
Definition gea_with (mk : vec -> M A X A) (solution : option vec) : M A X (agent A) :=
  x <- match solution with Some x => ret x | None => k <- tick ;; ret (p_gen P k) end ;;
  b <- mk x ;;
  ret (mkAgent x None b).
(** An algorithm that overrides generate_empty_agent, generate_agent, initialize_variables, before_main_loop and
    evolve, and keeps the default initialization. *)
Definition agent_algo (ga : option vec -> M A X (agent A)) (pop_size epoch : nat) (sort : bool) (iv bm : M A X unit)
    (evolve : nat -> M A X unit) : algo :=
  mkAlgo pop_size epoch sort gea ga iv (default_initialization E md ga pop_size) bm evolve.
(** The default generate_agent (optimizer.py:327-336): evaluate what generate_empty_agent made. *)
Definition ga_of : option vec -> M A X (agent A) := generate_agent_with P gea.
(** An algorithm that overrides initialize_variables and evolve. *)
Definition vars_algo (dflt : A) (pop_size epoch : nat) (sort : bool) (iv : M A X unit) (evolve : nat -> M A X unit) : algo :=
  let ga := generate_agent_with P (generate_empty_agent P dflt) in
  mkAlgo pop_size epoch sort (generate_empty_agent P dflt) ga iv (default_initialization E md ga pop_size) (ret tt) evolve.
End Blocks.
