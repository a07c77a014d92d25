(** Model of mealpy's algorithm classes, part 19: dragonflies, cats, fireflies, simulated annealing and elephants.
    The conventions are those of MClass1. *)
From Verif Require Import Prelude Fl MCore MHelp MAlg MAlg2 MAlg3 MAlg4 MAlg5 MAlg6 MAlg7.
Local Open Scope f_scope.

(** ** swarm_based/DO.py *)
Section DO.
Variable E : env.
Variable P : problem.
Variable md : mode.
(** The attribute pop_delta. *)
Notation X := (list (agent unit)).
Notation gea := (generate_empty_agent (A := unit) (X := X) P tt).
Notation correct := (correct_solution P).
Notation M := (M unit X).
Notation fm := (rform E P).
(** initialization (swarm_based/DO.py:63-69), after the default one. *)
Definition do_more (n : nat) : M unit := l <- generate_population_with E md (ga_of P gea None) n ;; set_x l.
(** The two new agents of one dragonfly (DO.py:94-157). *)
Definition do_pair (epochs ep idx : nat) : M (agent unit * agent unit) :=
  xs <- all_sols ;;
  xi <- pop_sol idx ;;
  d <- get_x ;;
  di <- lift (getitem d idx) ;;
  g <- gb_sol ;;
  w <- gw_sol ;;
  let reads := (xi :: sol di :: g :: w :: [fnat ep; fnat epochs] :: xs ++ map sol d)%list in
  x <- fm "DO:94-149" reads ;;
  y <- fm "DO:94-148" reads ;;
  a <- propose correct gea x ;;
  b <- propose correct gea y ;;
  ret (a, b).
(** evolve (DO.py:71-167). *)
Definition do_evolve (n epochs ep : nat) : M unit :=
  reset_best_worst E P ;;;
  if is_avail md then
    l <- collect n (fun idx => do_pair epochs ep idx) ;;
    l1 <- evaluate_all P md (map fst l) ;;
    l2 <- evaluate_all P md (map snd l) ;;
    p <- get_pop ;;
    q <- lift (greedy_selection_population p l1 (p_mm P)) ;;
    set_pop q ;;;
    d <- get_x ;;
    d' <- lift (greedy_selection_population d l2 (p_mm P)) ;;
    set_x d'
  else
    for_ n (fun idx =>
      '(a, b) <- do_pair epochs ep idx ;;
      a <- evaluate P a ;;
      b <- evaluate P b ;;
      keep_better P true idx a ;;;
      d <- get_x ;;
      old <- lift (getitem d idx) ;;
      b <- lift (get_better_agent b old (p_mm P) false) ;;
      set_x (upd d idx b)).
Definition original_do (n epochs : nat) :=
  with_init (agent_algo E md gea (ga_of P gea) n epochs false (ret tt) (ret tt) (do_evolve n epochs)) (do_more n).
End DO.

(** ** swarm_based/CSO.py *)
Section CSO.
Variable E : env.
Variable P : problem.
Variable md : mode.
(** The attributes velocity and flag of an agent. *)
Notation A := (vec * bool)%type.
Notation correct := (correct_solution P).
Notation M := (M A unit).
Notation fm := (rform E P).
(** generate_empty_agent (swarm_based/CSO.py:106-116). *)
Definition cso_gea (mixture : f64) := gea_with (A := A) (X := unit) P (fun _ => v <- uniform_box E P ;; u <- uniform E ;; ret (v, u < mixture)).
(** int(self.cdc * self.problem.n_dims) (CSO.py:125). *)
Definition cso_part (cdc : f64) : nat := Z.to_nat (ftrunc (cdc * fnat (n_dims P))).
(** The cat chosen (CSO.py:138-151). *)
Definition cso_pick (strategy smp : nat) (l : list (agent A)) : M (agent A) :=
  match strategy with
  | 0 => '(b, _) <- lift (get_best_agent (e_argsort E) l (p_mm P)) ;; ret b
  | 1 => ix <- choice_noreplace E (seq 0 smp) 4 ;;
         l4 <- lift (map_res (getitem l) ix) ;;
         '(b, _) <- lift (get_best_agent (e_argsort E) l4 (p_mm P)) ;; ret b
  | 2 => fits <- lift (map_res fitness l) ;;
         i <- roulette E P fits ;;
         lift (getitem l i)
  | _ => i <- integers E 0 (List.length l) ;;
         lift (getitem l i)
  end.
(** seeking_mode__ (CSO.py:118-152), with the choice of the components and of the cat as arguments.  With spc the population made at
    line 120 is replaced by copies of the cat (123). *)
Definition cso_seek (mixture srd : f64) (dims : M (list nat)) (pick : list (agent A) -> M (agent A)) (smp : nat) (spc : bool) (cat : agent A) : M vec :=
  clones <- generate_population_with E md (ga_of P (cso_gea mixture) None) smp ;;
  let clones := if spc then repeat cat (smp - 1) else clones in
  l <- for_list clones (if spc then [cat] else []) (fun c l =>
    ix <- dims ;;
    u <- uvec E P ;;
    let x := vtab P (fun j => if existsb (Nat.eqb j) ix then (sol c).[j]
                              else if u.[j] < dec 1 2 then (sol c).[j] * (#1 + srd) else (sol c).[j] * (#1 - srd)) in
    a <- propose correct (cso_gea mixture) x ;;
    let a := with_att a (att c) in
    a <- (if is_avail md then ret a else evaluate P a) ;;
    ret (l ++ [a])%list) ;;
  l <- update_target_for_population P md l ;;
  a <- pick l ;;
  ret (sol a).
(** evolve (CSO.py:154-177). *)
Definition cso_phases (mixture c1 wmin wmax srd : f64) (dims : M (list nat)) (pick : list (agent A) -> M (agent A)) (smp : nat) (spc : bool) (n epochs ep : nat) : M unit :=
  let w := (fnat epochs - fnat ep) / fnat epochs * (wmax - wmin) + wmin in
  l <- for_acc n 0 [] (fun idx (l : list (agent A)) =>
    a <- pop_at (A := A) (X := unit) idx ;;
    y <- (if snd (att a) then
            u <- uniform E ;;
            g <- gb_sol ;;
            correct (vtab P (fun j => (sol a).[j] + w * (fst (att a)).[j] + u * c1 * (g.[j] - (sol a).[j])))
          else cso_seek mixture srd dims pick smp spc a) ;;
    u <- uniform E ;;
    let b : agent A := mkAgent y (tgt a) (fst (att a), u < mixture) in
    b <- (if is_avail md then ret b else evaluate P b) ;;
    ret (l ++ [b])%list) ;;
  l <- update_target_for_population P md l ;;
  set_pop l.
Definition cso_evolve (mixture c1 wmin wmax srd cdc : f64) (strategy smp : nat) (spc : bool) (n epochs ep : nat) : M unit :=
  cso_phases mixture c1 wmin wmax srd (choice_noreplace E (seq 0 (n_dims P)) (cso_part cdc)) (cso_pick strategy smp) smp spc n epochs ep.
Definition original_cso (mixture c1 wmin wmax srd cdc : f64) (strategy smp : nat) (spc : bool) (n epochs : nat) :=
  agent_algo E md (cso_gea mixture) (ga_of P (cso_gea mixture)) n epochs false (ret tt) (ret tt)
    (cso_evolve mixture c1 wmin wmax srd cdc strategy smp spc n epochs).
End CSO.

(** ** swarm_based/FFA.py, OriginalFFA.  is_parallelizable = False (86). *)
Section FFA.
Variable E : env.
Variable P : problem.
(** The attribute dyn_alpha. *)
Notation gea := (generate_empty_agent (A := unit) (X := f64) P tt).
Notation correct := (correct_solution P).
Notation M := (M unit f64).
Notation fm := (rform E P).
(** initialize_variables (swarm_based/FFA.py:89-90). *)
Definition ffa_vars (alpha : f64) : M unit := x <- ret alpha ;; set_x x.
(** The moves of one firefly towards the better ones after it (FFA.py:102-116): the agent it has become and the agents made. *)
Definition ffa_moves (n idx : nat) : M (agent unit * list (agent unit)) :=
  a <- pop_at idx ;;
  for_acc (n - S idx) (S idx) (a, []) (fun j r =>
    let '(a, l) := r in
    b <- pop_at j ;;
    c <- lift (compare_agents b a (p_mm P)) ;;
    if c then
      al <- get_x ;;
      x <- fm "FFA:108-113" [sol a; sol b; [al]] ;;
      a <- gen_agent P correct gea x ;;
      ret (a, l ++ [a])%list
    else ret (a, l)).
(** One firefly (FFA.py:102-122): the best of its positions and of random ones is compared with its last position. *)
Definition ffa_step (n idx : nat) : M unit :=
  '(a, l) <- ffa_moves n idx ;;
  more <- generate_population_with E Single (ga_of P gea None) (n - List.length l)%nat ;;
  '(b, _) <- lift (get_best_agent (e_argsort E) (l ++ more)%list (p_mm P)) ;;
  c <- lift (compare_agents b a (p_mm P)) ;;
  when c (pop_set idx b).
(** evolve (FFA.py:92-124): the global best is appended to the population, which grows by one agent per epoch; the loops still range
    over pop_size.  (dyn_alpha is set before, here, not after.) *)
Definition ffa_next (alpha damp : f64) (n ep : nat) : M (list (agent unit)) :=
  for_ n (ffa_step n) ;;;
  g <- get_gb ;;
  p <- get_pop ;;
  set_x (damp * alpha) ;;;
  ret (p ++ [g])%list.
Definition ffa_evolve (alpha damp : f64) (n ep : nat) : M unit := q <- ffa_next alpha damp n ep ;; set_pop q.
Definition original_ffa (alpha damp : f64) (n epochs : nat) :=
  agent_algo E Single gea (ga_of P gea) n epochs false (ffa_vars alpha) (ret tt) (ffa_evolve alpha damp n).
End FFA.

(** ** swarm_based/FFA.py, MLFA_GD *)
Section MLFA.
Variable E : env.
Variable P : problem.
Variable md : mode.
Notation gea := (generate_empty_agent (A := unit) (X := unit) P tt).
Notation correct := (correct_solution P).
Notation M := (M unit unit).
Notation fm := (rform E P).
(** The males (FFA.py:223-250).  males_pbest is a list of the same agents, which are changed in place: it equals [males] when the two are compared. *)
Definition mlfa_males (females n : nat) : M (list (agent unit)) :=
  p <- get_pop ;;
  l <- made_agents P md (n / 2)%nat (fun idx =>
    ix <- choice_noreplace E (seq 0 (n / 2)) females ;;
    a <- lift (getitem p idx) ;;
    fs <- lift (map_res (fun j => getitem p (n / 2 + j)) ix) ;;
    fits <- lift (map_res fitness (a :: fs)) ;;
    x <- fm "FFA:230-242" (fits :: sol a :: map sol fs) ;;
    propose correct gea x) ;;
  lift (greedy_selection_population l l (p_mm P)).
(** The females (FFA.py:252-273); with an odd population the last one is not moved. *)
Definition mlfa_females (n : nat) (males : list (agent unit)) : M (list (agent unit)) :=
  r <- integers E 0 (n / 2) ;;
  m <- lift (getitem males r) ;;
  yg <- fm "FFA:254-258" (sol m :: map sol males) ;;
  t <- gen_agent P correct gea yg ;;
  p <- get_pop ;;
  let females := skipn (n / 2) p in
  l <- for_acc (n / 2) 0 females (fun idx l =>
    a <- lift (getitem females idx) ;;
    c <- lift (compare_agents t a (p_mm P)) ;;
    g <- gb_sol ;;
    x <- fm "FFA:262-266" [sol a; yg; g; [if c then #1 else #0]] ;;
    b <- propose correct gea x ;;
    b <- (if is_avail md then ret b else evaluate P b) ;;
    ret (upd l idx b)) ;;
  update_target_for_population P md l.
(** The random walk of the global best (FFA.py:279-287). *)
Definition mlfa_walk (k_rw epochs ep : nat) : M unit :=
  for_ k_rw (fun k =>
    g <- get_gb ;;
    x <- fm "FFA:281-284" [sol g; [fnat ep; fnat epochs; fnat k]] ;;
    a <- gen_agent P correct gea x ;;
    c <- lift (compare_agents a g (p_mm P)) ;;
    when c (set_gb (Some a))).
(** evolve (FFA.py:218-287). *)
Definition mlfa_evolve (females k_rw n epochs ep : nat) : M unit :=
  males <- mlfa_males females n ;;
  fem <- mlfa_females n males ;;
  set_pop (males ++ fem)%list ;;;
  g <- get_gb ;;
  '(b, _) <- lift (get_best_agent (e_argsort E) ((males ++ fem) ++ [g])%list (p_mm P)) ;;
  set_gb (Some b) ;;;
  mlfa_walk k_rw epochs ep.
Definition mlfa_gd (females k_rw n epochs : nat) :=
  plain_algo E P md tt n epochs false (mlfa_evolve females k_rw n epochs).
End MLFA.

(** ** physics_based/SA.py, OriginalSA and GaussianSA *)
Section SA.
Variable E : env.
Variable P : problem.
Variable md : mode.
(** The attributes agent_current and temp_current (GaussianSA only). *)
Notation X := (agent unit * f64)%type.
Notation gea := (generate_empty_agent (A := unit) (X := X) P tt).
Notation M := (M unit X).
Notation fm := (rform E P).
(** before_main_loop (physics_based/SA.py:72-73, 165-168). *)
Definition sa_before (temp : f64) : M unit := g <- get_gb ;; set_x (g, temp).
(** The new agent (SA.py:84-95, 178-188), at a position that is not corrected, and whether it becomes the current one. *)
Definition sa_move (step : f64) (ep : nat) : M (agent unit) :=
  x <- get_x ;;
  y <- fm "SA:84" [sol (fst x); [step]] ;;
  y <- raw P y ;;
  a <- gen_at P gea y ;;
  c <- lift (compare_agents a (fst x) (p_mm P)) ;;
  if c then ret a
  else
    f <- lift (fitness (fst x)) ;;
    f' <- lift (fitness a) ;;
    b <- rtest E "SA:91-94" [[f; f'; snd x; fnat ep]] ;;
    ret (if b then a else fst x).
(** evolve (SA.py:75-96, 170-191): the population becomes the global best and the current agent. *)
Definition sa_next (step cool : f64) (ep : nat) : M (list (agent unit)) :=
  a <- sa_move step ep ;;
  x <- get_x ;;
  set_x (a, snd x * cool) ;;;
  g <- get_gb ;;
  ret [g; a].
Definition sa_evolve (step cool : f64) (ep : nat) : M unit := q <- sa_next step cool ep ;; set_pop q.
Definition original_sa (temp step : f64) (n epochs : nat) :=
  agent_algo E md gea (ga_of P gea) n epochs false (ret tt) (sa_before temp) (sa_evolve step #1).
Definition gaussian_sa (temp cool scale : f64) (n epochs : nat) :=
  agent_algo E md gea (ga_of P gea) n epochs false (ret tt) (sa_before temp) (sa_evolve scale cool).
End SA.

(** ** physics_based/SA.py, SwarmSA *)
Section SwarmSA.
Variable E : env.
Variable P : problem.
Variable md : mode.
(** The attributes dyn_t and dyn_sigma. *)
Notation X := (f64 * f64)%type.
Notation gea := (generate_empty_agent (A := unit) (X := X) P tt).
Notation correct := (correct_solution P).
Notation M := (M unit X).
(** initialization (physics_based/SA.py:285-291) sets the attributes, then makes the population as the default one does. *)
Definition swarm_sa_vars (t0 sigma : f64) : M unit := x <- ret (t0, sigma) ;; set_x x.
(** mutate__ (SA.py:277-283). *)
Definition swarm_sa_mutate (rate sigma : f64) (x : vec) : M vec :=
  v <- uniform_box E P ;;
  u <- uvec E P ;;
  let y := vtab P (fun j => if u.[j] < rate then x.[j] else x.[j] + sigma * v.[j]) in
  (if forallb (fun j => feq y.[j] x.[j]) (seq 0 (n_dims P)) then
     k <- integers E 0 (n_dims P) ;;
     r <- uniform E ;;
     correct (vtab P (fun j => if Nat.eqb j k then r else y.[j]))
   else correct y).
(** One round (SA.py:302-326). *)
Definition swarm_sa_round (rate : f64) (moves n : nat) : M unit :=
  l <- new_agents P md correct gea (n * moves)%nat (fun i =>
    a <- pop_at (i / moves)%nat ;;
    x <- get_x ;;
    swarm_sa_mutate rate (snd x) (sol a)) ;;
  q <- lift (get_sorted_and_trimmed_population (e_argsort E) l n (p_mm P)) ;;
  for_ n (fun idx =>
    a <- lift (getitem q idx) ;;
    old <- pop_at idx ;;
    c <- lift (compare_agents a old (p_mm P)) ;;
    if c then pop_set idx a
    else
      x <- get_x ;;
      f <- lift (fitness a) ;;
      f' <- lift (fitness old) ;;
      b <- rtest E "SA:323-325" [[f; f'; fst x]] ;;
      when b (pop_set idx a)).
(** evolve (SA.py:293-329). *)
Definition swarm_sa_evolve (rate tdamp sdamp : f64) (rounds moves n ep : nat) : M unit :=
  for_ rounds (fun _ => swarm_sa_round rate moves n) ;;;
  x <- get_x ;;
  set_x (tdamp * fst x, sdamp * snd x).
Definition swarm_sa (t0 sigma rate tdamp sdamp : f64) (rounds moves n epochs : nat) :=
  vars_algo E P md tt n epochs true (swarm_sa_vars t0 sigma) (swarm_sa_evolve rate tdamp sdamp rounds moves n).
End SwarmSA.

(** ** swarm_based/EHO.py *)
Section EHO.
Variable E : env.
Variable P : problem.
Variable md : mode.
Notation gea := (generate_empty_agent (A := unit) (X := unit) P tt).
Notation correct := (correct_solution P).
Notation M := (M unit unit).
Notation fm := (rform E P).
(** generate_group_population (optimizer.py:770-786): [k] groups of [m] agents. *)
Definition eho_groups (l : list (agent unit)) (k m : nat) : list (list (agent unit)) :=
  map (fun i => slice (i * m) (S i * m) l) (seq 0 k).
(** The separating operator (EHO.py:108-113). *)
Definition eho_separate (k m : nat) : M unit :=
  p <- get_pop ;;
  q <- for_acc k 0 [] (fun i acc =>
    '(so, _) <- lift (get_sorted_population (e_argsort E) (slice (i * m) (S i * m) p) (p_mm P)) ;;
    a <- random_agent P gea ;;
    so' <- lift (set_last so a) ;;
    ret (acc ++ so')%list) ;;
  set_pop q.
(** evolve (swarm_based/EHO.py:81-113).  pop_group holds the groups of the population at the beginning of the epoch: it is made from
    the first population (79) and the population is made from it at the end of each epoch (113). *)
Definition eho_evolve (alpha beta : f64) (k m n ep : nat) : M unit :=
  p <- get_pop ;;
  let groups := eho_groups p k m in
  greedy_each P md correct gea n true (fun idx =>
    g <- lift (getitem groups (idx / m)%nat) ;;
    if (idx mod m =? 0)%nat then
      ret (let c := mean_sol P g in vtab P (fun j => beta * c.[j]))
    else
      a <- lift (getitem g (idx mod m)%nat) ;;
      b <- lift (getitem g 0) ;;
      u <- uniform E ;;
      ret (vtab P (fun j => (sol a).[j] + alpha * u * ((sol b).[j] - (sol a).[j])))) ;;;
  eho_separate k m.
Definition original_eho (alpha beta : f64) (k n epochs : nat) :=
  plain_algo E P md tt n epochs false (eho_evolve alpha beta k (n / k)%nat n).
End EHO.
