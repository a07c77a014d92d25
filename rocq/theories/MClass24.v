(** Model of mealpy's algorithm classes, part 24.  The conventions are those of MClass1. *)
From Verif Require Import Prelude Fl MCore MHelp MAlg MAlg2 MAlg3 MAlg4 MAlg5 MAlg6 MAlg7 MAlg8 MClass20.
Local Open Scope f_scope.

(** ** sota_based/LSHADEcnEpSin.py *)
Section LSHADE.
Variable E : env.
Variable P : problem.
Variable md : mode.
Notation gea := (generate_empty_agent (A := unit) (X := unit) P tt).
Notation correct := (correct_solution P).
Notation M := (M unit unit).
(** The population size after epoch [ep] (linear_population_reduction, 259-260). *)
Definition lshade_size (pmin n epochs ep : nat) : nat :=
  Z.to_nat (Z.max (Z.of_nat pmin) (ftrunc (fnat pmin + fZ (Z.of_nat (n - pmin) * Z.of_nat (epochs - ep)) / fnat epochs))).
(** linear_population_reduction (257-267) of a population of [np] agents.  The [k] best agents remain, in a random order. *)
Definition lshade_reduce (np k : nat) : M unit :=
  p <- get_pop ;;
  when (k <? np)%nat
    ('(ps, _) <- lift (get_sorted_population (e_argsort E) p (p_mm P)) ;;
     q <- choice_noreplace E (firstn k ps) k ;;
     set_pop q).
(** OriginalLSHADEcnEpSin.evolve (269-370), for pop_size >= pop_size_min: self.NP is then the size of the population.  The parameter memories, the
    archive and the two crossovers (125-255, 277-317, 346-359, 364-370) influence only the trial positions, arbitrary functions of the
    population and of the generator here. *)
Definition lshade_evolve (pmin n epochs ep : nat) : M unit :=
  p0 <- get_pop ;;
  let np := List.length p0 in
  for_ np (fun idx =>
    xs <- all_sols ;;
    z <- rform E P "LSHADEcnEpSin:284-317" ([fnat ep; fnat idx] :: xs) ;;
    try_improve P correct gea idx z) ;;;
  lshade_reduce np (lshade_size pmin n epochs ep).
Definition original_lshade (pmin n epochs : nat) :=
  vars_algo E P md tt n epochs false (ret tt) (lshade_evolve pmin n epochs).
End LSHADE.

(** ** swarm_based/FA.py *)
Section FA.
Variable E : env.
Variable P : problem.
Variable md : mode.
Notation gea := (generate_empty_agent (A := unit) (X := unit) P tt).
Notation correct := (correct_solution P).
Notation M := (M unit unit).
Notation fm := (rform E P).
(** The number of sparks of a firework with the ratio [si] (98-103); Python's round() of a number that is not finite raises. *)
Definition fa_sparks (pa pb : f64) (mx ms : nat) (si : f64) : res nat :=
  let c := if si < pa * fnat mx then pa * fnat mx else if pb * fnat ms < si then pb * fnat mx else si in
  let* z := to_int (fround c) in
  Ok (Z.to_nat (z + 1)).
(** OriginalFA.evolve (83-136).  The list of the sparks is emptied for each firework (105), so only the sparks of the last firework take part in
    the selection.  In the parallel modes they are evaluated once more (133). *)
Definition fa_evolve (pa pb : f64) (mx ms n : nat) (ep : nat) : M unit :=
  last <- for_acc n 0 [] (fun idx _ =>
    fits <- all_fits ;;
    si <- rnum E "FA:94-95" [[fnat idx]; fits] ;;
    k <- lift (fa_sparks pa pb mx ms si) ;;
    new_agents P md correct gea k (fun _ => xi <- pop_sol idx ;; fm "FA:96-97,107-112" [xi; fits; p_lb P; p_ub P])) ;;
  let gauss := fun _ : nat => idx <- integers E 0 n ;; xi <- pop_sol idx ;; fm "FA:123-127" [xi; p_lb P; p_ub P] in
  new <- (if is_avail md
          then l <- collect ms (fun i => x <- gauss i ;; propose correct gea x) ;; update_target_for_population P md (last ++ l)%list
          else l <- new_agents P md correct gea ms gauss ;; ret (last ++ l)%list) ;;
  p <- get_pop ;;
  q <- lift (get_sorted_and_trimmed_population (e_argsort E) (new ++ p)%list n (p_mm P)) ;;
  set_pop q.
Definition original_fa (pa pb : f64) (mx ms n epochs : nat) := plain_algo E P md tt n epochs false (fa_evolve pa pb mx ms n).
End FA.

(** ** bio_based/AAA.py *)
(** The position of [i] in the list [l] (the array ranks of 108-109). *)
Fixpoint place (i : nat) (l : list nat) : nat :=
  match l with [] => 0%nat | j :: r => if (j =? i)%nat then 0%nat else S (place i r) end.
Section AAA.
Variable E : env.
Variable P : problem.
Notation gea := (generate_empty_agent (A := unit) (X := unit) P tt).
Notation correct := (correct_solution P).
Notation M := (M unit unit).
Notation fm := (rform E P).
(** calculate_energy (104-124). *)
Definition aaa_energy (n : nat) (greatness : vec) : vec :=
  let sorting := e_argsort E greatness in
  let f := map (fun i => fnat (place i sorting) * fnat (place i sorting)) (seq 0 n) in
  let mn := fminl f in
  let mx := fmaxl f in
  let range := mx - mn in
  if feq range #0 then map (fun _ => #0) f
  else map (fun x => match p_mm P with Min => (x - mn) / range | _ => (mx - x) / range end) f.
(** The helical movement of one colony (157-173): it goes on while the energy [e] is not negative.  get_index_kway_tournament_selection returns
    some index of the population.  [mine]: the array pos_new is the solution of the agent in the slot, because that agent was made of it (167) and
    accepted (169) in the last round; the writes of 160-162 then change the solution of this agent. *)
Fixpoint aaa_helix (fuel : nat) (loss : f64) (n idx : nat) (x : vec) (mine : bool) (e : f64) : M unit :=
  if fle #0 e then
    match fuel with
    | O => raise Endless
    | S fuel' =>
      ndx <- integers E 0 n ;;
      rd <- choice_noreplace E (seq 0 (n_dims P)) 3 ;;
      xn <- pop_sol ndx ;;
      z <- fm "AAA:160-162" [x; xn; map fnat rd; [fnat idx]] ;;
      when mine (a0 <- pop_at idx ;; pop_set idx (mkAgent z (tgt a0) (att a0))) ;;;
      a <- gen_agent P correct gea z ;;
      old <- pop_at idx ;;
      c <- lift (compare_agents a old (p_mm P)) ;;
      let e1 := e - loss / #2 in
      if c then pop_set idx a ;;; aaa_helix fuel' loss n idx (sol a) true e1
      else aaa_helix fuel' loss n idx (sol a) false (e1 - loss / #2)
    end
  else ret tt.
(** OriginalAAA.evolve (145-190).  The sizes of the colonies (77-101) and the starvation counters are arbitrary: the smallest, the biggest and
    the most starving colony are some indices. *)
Definition aaa_evolve (fuel : nat) (loss ap : f64) (n ep : nat) : M unit :=
  sizes <- rlist E n "AAA:77-101" [] ;;
  for_ n (fun idx =>
    x <- pop_sol idx ;;
    e <- lift (getitem (aaa_energy n sizes) idx) ;;
    aaa_helix fuel loss n idx x false e) ;;;
  smallest <- integers E 0 n ;;
  biggest <- integers E 0 n ;;
  b <- pop_at biggest ;;
  pop_set smallest b ;;;
  c <- coin E ap ;;
  when c
    (idx <- integers E 0 n ;;
     xi <- pop_sol idx ;;
     g <- gb_sol ;;
     z <- fm "AAA:186" [xi; g] ;;
     a <- gen_agent P correct gea z ;;
     pop_set idx a).
Definition original_aaa (fuel : nat) (loss ap : f64) (n epochs : nat) := plain_algo E P Single tt n epochs false (aaa_evolve fuel loss ap n).
End AAA.

(** ** swarm_based/ChameleonSA.py *)
Section Chameleon.
Variable E : env.
Variable P : problem.
Variable md : mode.
Notation gea := (generate_empty_agent (A := unit) (X := unit) P tt).
Notation correct := (correct_solution P).
Notation M := (M unit unit).
Notation fm := (rform E P).
(** OriginalChameleonSA.evolve (113-166).  The three phases (122-152) move the positions of the agents; only the last position is corrected and
    evaluated.  The personal bests (which are the agents themselves as long as line 166 has not replaced them: pop.copy() copies the list) and the
    velocities influence only these positions. *)
Definition chameleon_evolve (n ep : nat) : M unit :=
  replace_all P md correct gea n (fun idx =>
    xs <- all_sols ;;
    g <- gb_sol ;;
    fm "ChameleonSA:118-152" ([fnat ep; fnat idx] :: g :: p_lb P :: p_ub P :: xs)).
Definition original_chameleon (n epochs : nat) := plain_algo E P md tt n epochs true (chameleon_evolve n).
(** IChameleonSA.initialization (241-258). *)
Definition ichameleon_init (n : nat) : M unit :=
  p <- get_pop ;;
  match p with
  | [] => l <- new_agents P md correct gea n (fun idx => fm "ChameleonSA:244-247" [[fnat idx]; p_lb P; p_ub P]) ;; set_pop l
  | _ => ret tt
  end.
(** IChameleonSA.evolve (260-328).  Phase 1 gives the agents positions that are neither corrected nor evaluated, the targets being those of the
    old positions; the greedy selection of phase 2 compares with these targets.  All these agents are overwritten in phase 3, so only the new agents
    of phase 2 and the positions derived from them and from phase 1 (arbitrary here) matter. *)
Definition ichameleon_evolve (n ep : nat) : M unit :=
  l <- new_agents P md correct gea n (fun idx =>
         xs <- all_sols ;; fits <- all_fits ;; g <- gb_sol ;; fm "ChameleonSA:264-274,281-283" ([fnat ep; fnat idx] :: fits :: g :: xs)) ;;
  for_ n (fun idx =>
    xs <- all_sols ;;
    g <- gb_sol ;;
    z <- fm "ChameleonSA:301-312" ([fnat ep; fnat idx] :: g :: map sol l ++ xs)%list ;;
    z' <- fm "ChameleonSA:313" [[fnat ep]; z; p_lb P; p_ub P] ;;
    y <- correct z ;;
    y' <- correct z' ;;
    hunt <- gen_at P gea y ;;
    refr <- gen_at P gea y' ;;
    c <- lift (compare_agents refr hunt (p_mm P)) ;;
    pop_set idx (if c then refr else hunt)).
Definition ichameleon (n epochs : nat) : algo :=
  mkAlgo n epochs false gea (ga_of P gea) (ret tt) (ichameleon_init n) (ret tt) (ichameleon_evolve n).
End Chameleon.

(** ** swarm_based/SSpiderO.py *)
Section SSpiderO.
Variable E : env.
Variable P : problem.
Variable md : mode.
Notation gea := (generate_empty_agent (A := unit) (X := nat) P tt).
Notation M := (M unit nat).
Notation correct := (correct_solution_with P (amend_random E P)).
Notation fm := (rform E P).
(** OriginalSSpiderO.initialization (72-85), after the population: n_f = int(pop_size * fp_temp) with fp_temp in (0, 1) is some number below
    pop_size.  The weights of the spiders (87-91, 247-254) influence only the positions and the choice of the couples. *)
Definition sspider_start (n : nat) : M unit := nf <- integers E 0 n ;; set_x nf.
(** The couples of mating__ (209-225): a dominant male and a female near it. *)
Definition sspider_couples (n nf : nat) : M (list (vec * vec)) :=
  xs <- all_sols ;;
  for_acc ((n - nf) * nf) 0 [] (fun k acc =>
    near <- rtest E "SSpiderO:209-225" ([fnat k] :: xs) ;;
    ret (if (near : bool) then acc ++ [(nth (nf + k / nf) xs [], nth (k mod nf) xs [])] else acc)%list).
(** mating__ (207-237).  generate_population of a negative number gives no agents. *)
Definition sspider_mating (n nf : nat) : M (list (agent unit)) :=
  couples <- sspider_couples n nf ;;
  kids <- (if (2 <=? List.length couples)%nat
           then for_list couples [] (fun c acc =>
                  z1 <- fm "SSpiderO:184-185" [fst c; snd c] ;;
                  z2 <- fm "SSpiderO:186" [fst c; snd c] ;;
                  y1 <- correct z1 ;;
                  y2 <- correct z2 ;;
                  a1 <- gen_at P gea y1 ;;
                  a2 <- gen_at P gea y2 ;;
                  ret (acc ++ [a1; a2])%list)
           else ret []) ;;
  more <- generate_population_with E md (ga_of P gea None) (n - List.length kids) ;;
  ret (kids ++ more)%list.
(** OriginalSSpiderO.evolve (256-274), with move_females__ (98-136), move_males__ (138-177) and survive__ (239-245).  The agents moved are those of
    self.pop_females and self.pop_males; the population is made of them before the children compete (268). *)
Definition sspider_evolve (n ep : nat) : M unit :=
  nf <- get_x ;;
  xs <- all_sols ;;
  g <- gb_sol ;;
  fem <- new_agents P md correct gea nf (fun idx => fm "SSpiderO:99-131" ([fnat ep; fnat idx] :: g :: xs)) ;;
  mal <- new_agents P md correct gea (n - nf) (fun idx => fm "SSpiderO:139-172" ([fnat ep; fnat idx] :: map sol fem ++ xs)%list) ;;
  set_pop (fem ++ mal)%list ;;;
  kids <- sspider_mating n nf ;;
  best <- lift (get_sorted_and_trimmed_population (e_argsort E) kids n (p_mm P)) ;;
  accept_each P best (fun _ _ _ _ => ret tt).
Definition original_sspider (n epochs : nat) : algo :=
  with_init (agent_algo E md gea (ga_of P gea) n epochs false (ret tt) (ret tt) (sspider_evolve n)) (sspider_start n).
End SSpiderO.

(** ** human_based/HCO.py *)
Section HCO.
Variable E : env.
Variable P : problem.
Variable md : mode.
Notation gea := (generate_empty_agent (A := unit) (X := unit) P tt).
Notation correct := (correct_solution P).
Notation M := (M unit unit).
Notation fm := (rform E P).
(** Random agents until one is better than [pfit] (113-117). *)
Fixpoint hco_seek (fuel : nat) (pfit : f64) : M (agent unit) :=
  match fuel with
  | O => raise Endless
  | S fuel' =>
    a <- random_agent P gea ;;
    f <- lift (fitness a) ;;
    if compare_fitness f pfit (p_mm P) then ret a else hco_seek fuel' pfit
  end.
(** OriginalHCO.initialization (94-119), after the population. *)
Definition hco_start (fuel : nat) (wfp : f64) (n : nat) : M unit :=
  greedy_each P md correct gea n true (fun idx => xi <- pop_sol idx ;; fm "HCO:99" [xi; p_lb P; p_ub P]) ;;;
  p <- get_pop ;;
  '(_, best, worst) <- special E P p 1 1 ;;
  b <- lift (getitem best 0) ;;
  w <- lift (getitem worst 0) ;;
  fb <- lift (fitness b) ;;
  fw <- lift (fitness w) ;;
  let pfit := (fw - fb) * wfp + fb in
  for_ n (fun idx =>
    f <- pop_fit idx ;;
    when (compare_fitness pfit f (p_mm P)) (a <- hco_seek fuel pfit ;; pop_set idx a)).
(** OriginalHCO.evolve (121-155).  The personal bests and the velocities influence only the positions. *)
Definition hco_evolve (n ep : nat) : M unit :=
  l <- new_agents P md correct gea n (fun idx =>
         fits <- all_fits ;; gf <- gb_fit ;; g <- gb_sol ;; xs <- all_sols ;; fm "HCO:128-142" ([fnat ep; fnat idx; gf] :: fits :: g :: xs)) ;;
  accept_each P l (fun _ _ _ _ => ret tt).
Definition original_hco (fuel : nat) (wfp : f64) (n epochs : nat) : algo :=
  with_init (agent_algo E md gea (ga_of P gea) n epochs false (ret tt) (ret tt) (hco_evolve n)) (hco_start fuel wfp n).
End HCO.
