(** Model of mealpy's algorithm classes, part 23.  The conventions are those of MClass1. *)
From Verif Require Import Prelude Fl MCore MHelp MAlg MAlg2 MAlg3 MAlg4 MAlg5 MAlg6 MAlg7 MAlg8 MClass20.
Local Open Scope f_scope.

(** ** sota_based/IMODE.py *)
Section IMODE.
Variable E : env.
Variable P : problem.
Notation gea := (generate_empty_agent (A := unit) (X := unit) P tt).
Notation correct := (correct_solution P).
Notation M := (M unit unit).
(** OriginalIMODE.evolve (254-335).  The parameter memories, the operator probabilities and the archive (75-110, 231-252, 289-332) influence
    only the trial positions (112-229), which are arbitrary functions of the population and of the generator here; that the loop of lines
    106-108 ends is assumed.  Line 284 compares as if the problem were a minimization. *)
Definition imode_evolve (n ep : nat) : M unit :=
  sort_pop E P ;;;
  p <- get_pop ;;
  q <- new_agents P Single correct gea n (fun idx => xs <- all_sols ;; rform E P "IMODE:89-229" ([fnat idx] :: xs)) ;;
  r <- lift (greedy_selection_population p q Min) ;;
  set_pop r.
Definition original_imode (n epochs : nat) := plain_algo E P Single tt n epochs true (imode_evolve n).
End IMODE.

(** ** swarm_based/BFO.py, OriginalBFO *)
Section BFO.
Variable E : env.
Variable P : problem.
Notation gea := (generate_empty_agent (A := unit) (X := unit) P tt).
Notation correct := (correct_solution P).
Notation M := (M unit unit).
Notation fm := (rform E P).
(** Lines 155-164: at most [k] swims, until one of them improves the cell. *)
Fixpoint bfo_swim (ci : f64) (idx k : nat) : M unit :=
  match k with
  | O => ret tt
  | S k' =>
    xi <- pop_sol idx ;;
    z <- fm "BFO:156-158" [[ci]; xi; p_lb P; p_ub P] ;;
    a <- gen_agent P correct gea z ;;
    old <- pop_at idx ;;
    c <- lift (compare_agents a old (p_mm P)) ;;
    if c then pop_set idx a else bfo_swim ci idx k'
  end.
(** Lines 149-170, one chemotactic step.  The attributes cost, interaction and nutrients of the cells are only used for the order of line 166;
    they are arbitrary numbers here (cells[0:half] is put twice into the population, so that two slots share one object and its attributes). *)
Definition bfo_step (ci ped : f64) (ns half n : nat) : M unit :=
  for_ n (fun idx => _ <- pop_at idx ;; bfo_swim ci idx ns) ;;;
  keys <- rlist E n "BFO:119-134,151-165" [] ;;
  p <- get_pop ;;
  let cells := map fst (ksort snd false (combine p keys)) in
  set_pop (firstn half cells ++ firstn half cells)%list ;;;
  for_ n (fun idc =>
    u <- uniform E ;;
    when (u < ped) (a <- random_agent P gea ;; pop_set idc a)).
(** OriginalBFO.evolve (142-170). *)
Definition bfo_evolve (ci ped : f64) (nc ns n ep : nat) : M unit :=
  for_ nc (fun _ => bfo_step ci ped ns (n / 2) n).
Definition original_bfo (ci ped : f64) (nc ns n epochs : nat) :=
  plain_algo E P Single tt n epochs false (bfo_evolve ci ped nc ns n).
End BFO.

(** ** swarm_based/BFO.py, ABFO *)
(** The attribute is nutrients.  local_solution and local_target of an agent always equal its solution and target: they are copies when the agent is made, and lines
    294-295 compare an agent with itself and copy its own position. *)
Section ABFO.
Variable E : env.
Variable P : problem.
Notation correct := (correct_solution P).
Notation M := (M Z unit).
Notation fm := (rform E P).
(** ABFO.generate_empty_agent (255-260). *)
Definition abfo_gea : option vec -> M (agent Z) := gea_with P (fun _ => ret 0%Z).
(** Lines 283-297; nutrients of a new agent is 0, so it is 1 after line 291. *)
Definition abfo_swim (cs ce : f64) (idx : nat) : M unit :=
  g <- gb_sol ;;
  xi <- pop_sol idx ;;
  fs <- all_fits ;;
  z <- fm "BFO:268-272,284-287" [[cs; ce]; g; xi; fs; p_lb P; p_ub P] ;;
  a <- gen_agent P correct abfo_gea z ;;
  old <- pop_at idx ;;
  c <- lift (compare_agents a old (p_mm P)) ;;
  if c then pop_set idx (with_att a 1%Z)
  else set_att idx (att old - 1)%Z.
(** [int(N + (len(self.pop) - self.pop_size) / self.N_adapt)] in lines 298 and 304. *)
Definition abfo_limit (k nadapt len n : nat) : res Z :=
  let* d := py_div (fZ (Z.of_nat len - Z.of_nat n)) (fnat nadapt) in
  Ok (ftrunc (fnat k + d)).
(** Lines 281-306 for one agent; [at_ idx] checks the index. *)
Definition abfo_cell (at_ : nat -> M nat) (cs ce ped : f64) (ns nadapt nsplit n idx0 : nat) : M unit :=
  idx <- at_ idx0 ;;
  for_ ns (fun _ => abfo_swim cs ce idx) ;;;
  a <- pop_at idx ;;
  p <- get_pop ;;
  up <- lift (abfo_limit nsplit nadapt (List.length p) n) ;;
  when (Z.max (Z.of_nat nsplit) up <? att a)%Z
    (g <- gb_sol ;;
     z <- fm "BFO:299-300" [g; sol a] ;;
     b <- gen_agent P correct abfo_gea z ;;
     p <- get_pop ;; set_pop (p ++ [b])%list) ;;;
  p <- get_pop ;;
  down <- lift (abfo_limit nadapt nadapt (List.length p) n) ;;
  a <- pop_at idx ;;
  out <- (if (att a <? Z.min (Z.of_nat nadapt) down)%Z then ret true else u <- uniform E ;; ret (u < ped)) ;;
  when out (b <- random_agent P abfo_gea ;; pop_set idx b).
(** Equality of two positions as tuples (310). *)
Definition same_pos (x y : vec) : bool := (List.length x =? List.length y)%nat && forallb (fun c => feq (fst c) (snd c)) (combine x y).
(** Lines 308-313: the list is changed while it is enumerated, so the agent after a removed one is not looked at. *)
Fixpoint abfo_unique (seen : list vec) (l : list (agent Z)) : list (agent Z) :=
  match l with
  | [] => []
  | a :: r =>
    if existsb (same_pos (sol a)) seen
    then match r with [] => [] | b :: r' => b :: abfo_unique seen r' end
    else a :: abfo_unique (sol a :: seen) r
  end.
(** Lines 315-326: a population that is too small is not filled up, [range(0, n_agents)] being empty. *)
Definition abfo_balance (n : nat) (p : list (agent Z)) : M (list (agent Z)) :=
  if (n <? List.length p)%nat then
    out <- choice_noreplace E (seq 0 (List.length p)) (List.length p - n) ;;
    ret (map snd (filter (fun c => negb (existsb (Nat.eqb (fst c)) out)) (combine (seq 0 (List.length p)) p)))
  else ret p.
Definition abfo_next (at_ : nat -> M nat) (cs ce ped : f64) (ns nadapt nsplit n ep : nat) : M (list (agent Z)) :=
  for_ n (fun idx => abfo_cell at_ cs ce ped ns nadapt nsplit n idx) ;;;
  p <- get_pop ;;
  abfo_balance n (abfo_unique [] p).
(** ABFO.evolve (274-326). *)
Definition abfo_evolve (at_ : nat -> M nat) (cs ce ped : f64) (ns nadapt nsplit n ep : nat) : M unit :=
  q <- abfo_next at_ cs ce ped ns nadapt nsplit n ep ;; set_pop q.
(** Reading [self.pop[idx]]. *)
Definition at_index (idx : nat) : M nat :=
  p <- get_pop ;; if (idx <? List.length p)%nat then ret idx else raise IndexError.
Definition abfo (md : mode) (cs ce ped : f64) (ns nadapt nsplit n epochs : nat) :=
  agent_algo E md abfo_gea (ga_of P abfo_gea) n epochs false (ret tt) (ret tt) (abfo_evolve at_index cs ce ped ns nadapt nsplit n).
End ABFO.

(** ** evolutionary_based/CRO.py *)
(** The attributes are occupied_idx_list, (dyn_Pd, G1) and reset_count; occupied_list is 1 exactly at the indices of occupied_idx_list. *)
Definition reef : Type := (list nat * (f64 * f64) * nat)%type.
Definition reef_idx (x : reef) : list nat := fst (fst x).
Definition mem_nat (i : nat) (l : list nat) : bool := existsb (Nat.eqb i) l.
(** [int(k * f)]. *)
Definition part (f : f64) (k : nat) : nat := Z.to_nat (ftrunc (f * fnat k)).
(** po Fb Fa Fd Pd GCR gamma_min gamma_max. *)
Record cro_pars := mkCro { c_po : f64; c_fb : f64; c_fa : f64; c_fd : f64; c_pd : f64; c_gcr : f64; c_gmin : f64; c_gmax : f64 }.
Section CRO.
Variable E : env.
Variable P : problem.
Variable md : mode.
Variable c : cro_pars.
Notation gea := (generate_empty_agent (A := unit) (X := reef) P tt).
Notation correct := (correct_solution P).
Notation M := (M unit reef).
Notation fm := (rform E P).
(** int(pop_size / (1 + po)) (108). *)
Definition cro_occupied (n : nat) : nat := Z.to_nat (ftrunc (fnat n / (#1 + c_po c))).
(** OriginalCRO.initialization (100-112), after the population. *)
Definition cro_start (n : nat) : M unit :=
  x <- get_x ;;
  occ <- choice_noreplace E (seq 0 n) (cro_occupied n) ;;
  set_x (occ, (#0, c_gmax c), snd x).
(** larvae_setting__ (127-140), one larva with [k] trials. *)
Fixpoint cro_settle (n : nat) (a : agent unit) (k : nat) : M unit :=
  match k with
  | O => ret tt
  | S k' =>
    pdx <- integers E 0 (n - 1) ;;
    x <- get_x ;;
    if negb (mem_nat pdx (reef_idx x)) then
      pop_set pdx a ;;; set_x ((reef_idx x ++ [pdx])%list, snd (fst x), snd x)
    else
      old <- pop_at pdx ;;
      b <- lift (compare_agents a old (p_mm P)) ;;
      if b then pop_set pdx a else cro_settle n a k'
  end.
Definition cro_larvae (n trials : nat) (l : list (agent unit)) : M unit :=
  for_list l tt (fun a _ => cro_settle n a trials).
(** The pairs of selected corals (159-160, 166). *)
Fixpoint cro_pairs (k : nat) (sel : list nat) : M (list (nat * nat)) :=
  match k with
  | O => ret []
  | S k' =>
    '(i1, i2) <- choose2 E (seq 0 (List.length sel)) ;;
    s1 <- lift (getitem sel i1) ;;
    s2 <- lift (getitem sel i2) ;;
    r <- cro_pairs k' (map snd (filter (fun d => negb ((fst d =? i1)%nat || (fst d =? i2)%nat)) (combine (seq 0 (List.length sel)) sel))) ;;
    ret ((s1, s2) :: r)
  end.
(** broadcast_spawning_brooding__ (147-167), with gaussian_mutation__ (114-118) and multi_point_cross__ (121-125).  The model draws the pairs
    before the crossover points, and has the larvae of the two kinds evaluated one kind after the other in the parallel modes. *)
Definition cro_broadcast : M (list (agent unit)) :=
  x <- get_x ;;
  let occ := reef_idx x in
  sel <- choice_noreplace E occ (part (c_fb c) (List.length occ)) ;;
  let rest := filter (fun i => negb (mem_nat i sel)) occ in
  l1 <- new_agents P md correct gea (List.length rest) (fun k =>
      i <- lift (getitem rest k) ;;
      xi <- pop_sol i ;;
      fm "CRO:115-117" [xi; [snd (snd (fst x)); c_gcr c]; p_lb P; p_ub P]) ;;
  prs <- cro_pairs (List.length sel / 2) sel ;;
  l2 <- new_agents P md correct gea (List.length prs) (fun k =>
      pr <- lift (getitem prs k) ;;
      x1 <- pop_sol (fst pr) ;;
      x2 <- pop_sol (snd pr) ;;
      '(p1, p2) <- choose2 E (seq 0 (n_dims P)) ;;
      ret (vtab P (fun j => if ((Nat.min p1 p2 <=? j) && (j <? Nat.max p1 p2))%nat then x2.[j] else x1.[j]))) ;;
  ret (l1 ++ l2)%list.
(** sort_occupied_reef__ (142-145) and lines 186-188: the last int(len * Fd) indices, which are all of them when that number is 0. *)
Definition cro_depredated : M (list nat) :=
  x <- get_x ;;
  fs <- for_list (reef_idx x) [] (fun i acc => f <- pop_fit i ;; ret (acc ++ [(i, f)])%list) ;;
  let idx := map fst (ksort snd false fs) in
  let k := part (c_fd c) (List.length idx) in
  ret (if (k =? 0)%nat then idx else skipn (List.length idx - k) idx).
(** Lines 192-195. *)
Definition cro_params (alpha gama : f64) : M unit :=
  x <- get_x ;;
  let '(occ, (dyn, g1), cnt) := x in
  set_x (occ, (if dyn <= c_pd c then dyn + alpha else dyn, if c_gmin c <= g1 then g1 - gama else g1), cnt).
(** Lines 180-182. *)
Definition cro_best : M (list (agent unit)) :=
  x <- get_x ;;
  best <- for_list (reef_idx x) [] (fun i acc => a <- pop_at i ;; ret (acc ++ [a])%list) ;;
  lift (get_sorted_and_trimmed_population (e_argsort E) best (part (c_fa c) (List.length (reef_idx x))) (p_mm P)).
(** OriginalCRO.evolve (169-195). *)
Definition cro_evolve (n trials epochs ep : nat) : M unit :=
  l <- cro_broadcast ;;
  cro_larvae n trials l ;;;
  best <- cro_best ;;
  cro_larvae n trials best ;;;
  u <- uniform E ;;
  x <- get_x ;;
  when (u < fst (snd (fst x)))
    (out <- cro_depredated ;;
     set_x (filter (fun i => mem_nat i (reef_idx x) && negb (mem_nat i out)) (seq 0 n), snd (fst x), snd x)) ;;;
  cro_params (#10 * c_pd c / fnat epochs) (#10 * (c_gmax c - c_gmin c) / fnat epochs).
Definition original_cro (trials n epochs : nat) : algo :=
  with_init (agent_algo E md gea (ga_of P gea) n epochs false (ret tt) (ret tt) (cro_evolve n trials epochs)) (cro_start n).
(** OCRO.evolve (296-339), with local_search__ (283-294). *)
Definition ocro_evolve (trials restart n epochs ep : nat) : M unit :=
  l <- cro_broadcast ;;
  cro_larvae n trials l ;;;
  best <- cro_best ;;
  ls <- new_agents P md correct gea (List.length best) (fun _ =>
      g <- gb_sol ;; fm "CRO:286-288" [g; p_lb P; p_ub P]) ;;
  cro_larvae n trials ls ;;;
  u <- uniform E ;;
  x <- get_x ;;
  when (u < fst (snd (fst x)))
    (out <- cro_depredated ;;
     for_list out tt (fun idx _ =>
       a <- pop_at idx ;;
       g <- get_gb ;;
       y <- generate_opposition_solution E P a g ;;
       b <- gen_at P gea y ;;
       old <- pop_at idx ;;
       t <- lift (compare_agents b old (p_mm P)) ;;
       if t then pop_set idx b
       else x <- get_x ;; set_x (filter (fun i => negb (i =? idx)%nat) (reef_idx x), snd (fst x), snd x))) ;;;
  cro_params (#10 * c_pd c / fnat epochs) (#10 * (c_gmax c - c_gmin c) / fnat epochs) ;;;
  x <- get_x ;;
  p <- get_pop ;;
  '(lb, _) <- lift (get_best_agent (e_argsort E) p (p_mm P)) ;;
  g <- get_gb ;;
  t <- lift (compare_agents lb g (p_mm P)) ;;
  let cnt := (if t then 0 else snd x + 1)%nat in
  if (cnt =? restart)%nat then
    q <- generate_population_with E md (ga_of P gea None) n ;;
    set_pop q ;;;
    occ <- choice_noreplace E (seq 0 n) (cro_occupied n) ;;
    set_x (occ, snd (fst x), 0%nat)
  else set_x (fst x, cnt).
Definition ocro (trials restart n epochs : nat) : algo :=
  with_init (agent_algo E md gea (ga_of P gea) n epochs false (x <- (x <- get_x ;; ret (fst x, 0%nat)) ;; set_x x) (ret tt) (ocro_evolve trials restart n epochs))
    (cro_start n).
End CRO.
