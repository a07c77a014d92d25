(** Model of mealpy's algorithm classes, part 13.  The conventions are those of MClass1. *)
From Verif Require Import Prelude Fl MCore MHelp MAlg MAlg2 MAlg3 MAlg4 MAlg5 MAlg6 MAlg7 MClass12.
Local Open Scope f_scope.

(** * Classes without attributes of their own *)
Section Plain.
Variable E : env.
Variable P : problem.
Variable md : mode.
Notation gea := (generate_empty_agent (A := unit) (X := unit) P tt).
Notation correct := (correct_solution P).
Notation M := (M unit unit).
Notation fm := (rform E P).

(** ** swarm_based/SLO.py *)
(** OriginalSLO.evolve (SLO.py:66-97), with amend_solution (54-64). *)
Definition slo_evolve (n epochs ep : nat) : M unit :=
  let c := #2 - #2 * fnat ep / fnat epochs in
  t0 <- uniform E ;;
  let v1 := sin_ E (#2 * pi_ E * t0) in
  let v2 := sin_ E (#2 * pi_ E * (#1 - t0)) in
  let sp := fabs (v1 * (#1 + v2) / v2) in
  greedy_each P md (correct_solution_with P (amend_random E P)) gea n false (fun idx =>
    x <- pop_sol idx ;;
    g <- gb_sol ;;
    if sp < dec 1 4 then
      if c < #1 then
        r <- uniform E ;;
        ret (vtab P (fun j => g.[j] - c * fabs (#2 * r * g.[j] - x.[j])))
      else
        i <- choice1 E (others n [idx]) ;;
        y <- pop_sol i ;;
        r <- uniform E ;;
        ret (vtab P (fun j => y.[j] - c * fabs (#2 * r * y.[j] - x.[j])))
    else
      u <- uniform_in E (fneg #1) #1 ;;
      ret (vtab P (fun j => fabs (g.[j] - x.[j]) * cos_ E (#2 * pi_ E * u) + g.[j]))).
Definition original_slo (n epochs : nat) := plain_algo E P md tt n epochs false (slo_evolve n epochs).

(** ** evolutionary_based/BWOA.py *)
(** The numbers of parents and mutants: initialize_variables (BWOA.py:80-84). *)
Definition bwoa_parents (pp : f64) (n : nat) : nat := Nat.min n (Nat.max 2 (Z.to_nat (ftrunc (pp * fnat n)))).
Definition bwoa_mutants (pm : f64) (n : nat) : nat := Z.to_nat (ftrunc (pm * fnat n)).
(** The better parent and two children: lines 123-129, with _procreate (86-98). *)
Definition bwoa_brood (np : nat) (pop1 : list (agent unit)) : M (agent unit * list (agent unit)) :=
  '(i, j) <- choose2 E (seq 0 np) ;;
  p1 <- lift (getitem pop1 i) ;;
  p2 <- lift (getitem pop1 j) ;;
  female <- lift (get_better_agent p1 p2 (p_mm P) false) ;;
  z1 <- fm "BWOA:90-97" [sol p1; sol p2] ;;
  z2 <- fm "BWOA:90-98" [sol p1; sol p2; z1] ;;
  c1 <- propose correct gea z1 ;;
  c2 <- propose correct gea z2 ;;
  ret (female, [c1; c2]).
(** A mutant: lines 145-147, with _mutate (100-109). *)
Definition bwoa_mutant (np : nat) (pop1 : list (agent unit)) : M (agent unit) :=
  i <- integers E 0 np ;;
  a <- lift (getitem pop1 i) ;;
  z <- fm "BWOA:106-108" [sol a] ;;
  propose correct gea z.
(** OriginalBWOA.evolve (111-158).  The binomial number of children kept (135) is an integer between 0 and 2; the children and mutants
    are evaluated as lists. *)
Definition bwoa_evolve (pp pm : f64) (n ep : nat) : M unit :=
  let np := bwoa_parents pp n in
  p <- get_pop ;;
  '(ps, _) <- lift (get_sorted_population (e_argsort E) p (p_mm P)) ;;
  let pop1 := firstn np ps in
  pop2 <- for_acc np 0 [] (fun _ acc =>
    '(female, brood) <- bwoa_brood np pop1 ;;
    children <- evaluate_all P md brood ;;
    k <- integers E 0 3 ;;
    '(cs, _) <- lift (get_sorted_population (e_argsort E) children (p_mm P)) ;;
    ret (acc ++ female :: firstn (Nat.max 1 k) cs)%list) ;;
  pop3 <- collect (bwoa_mutants pm n) (fun _ => bwoa_mutant np pop1) ;;
  pop3 <- evaluate_all P md pop3 ;;
  let new := (pop2 ++ pop3)%list in
  q <- lift (get_sorted_and_trimmed_population (e_argsort E) (new ++ firstn (n - List.length new)%nat ps) n (p_mm P)) ;;
  set_pop q.
Definition original_bwoa (pp pm : f64) (n epochs : nat) := plain_algo E P md tt n epochs false (bwoa_evolve pp pm n).
End Plain.

(** ** swarm_based/FDO.py; not parallelizable *)
Section FDO.
Variable E : env.
Variable P : problem.
Notation gea := (generate_empty_agent (A := unit) (X := unit) P tt).
Notation correct := (correct_solution P).
Notation fm := (rform E P).
(** OriginalFDO.evolve (FDO.py:115-158), with get_fit_weight (69-93) and get_into_levy_bound (95-113).  The entry of pop_pace (66-67)
    that an agent reads is the one it has just written. *)
Definition fdo_evolve (wf : f64) (n ep : nat) : M unit unit unit :=
  for_ n (fun idx =>
    a <- pop_at idx ;;
    f <- lift (fitness a) ;;
    g <- gb_sol ;;
    fg <- gb_fit ;;
    fw <- rnum E "FDO:81-93" [[fg; f; wf]] ;;
    pace <- fm "FDO:125-132" [[fw]; g; sol a] ;;
    z <- fm "FDO:105-112" [vtab P (fun j => (sol a).[j] + pace.[j])] ;;
    '(c, y) <- try_improve_b P correct gea idx z ;;
    if c : bool then ret tt else
    z2 <- fm "FDO:105-112" [vtab P (fun j => y.[j] + (g.[j] - y.[j]) * fw + pace.[j])] ;;
    '(c2, _) <- try_improve_b P correct gea idx z2 ;;
    if c2 : bool then ret tt else
    x <- pop_sol idx ;;
    levy <- fm "FDO:152" [] ;;
    z3 <- fm "FDO:105-112" [vtab P (fun j => x.[j] + x.[j] * levy.[j])] ;;
    try_improve P correct gea idx z3).
Definition original_fdo (wf : f64) (n epochs : nat) := plain_algo E P Single tt n epochs false (fdo_evolve wf n).
End FDO.

(** * Classes with attributes of their own *)
(** ** swarm_based/MShOA.py; attribute polarization (OriginalMShOA) or pti (DevMShOA), one number per agent *)
Section MShOA.
Variable E : env.
Variable P : problem.
Variable md : mode.
Notation gea := (generate_empty_agent (A := unit) (X := vec) P tt).
Notation M := (M unit vec).
Notation fm := (rform E P).
(** OriginalMShOA.initialize_variables (MShOA.py:79-81). *)
Definition mshoa_vars (n : nat) : M unit := p <- integers_vec E 1 4 n ;; set_x p.
(** OriginalMShOA.evolve (178-220), with amend_solution (83-90) and get_polarization (92-176).  The repeated draw of lines 189-191 is one
    draw among the other indexes; the population is replaced before the polarization is computed from its old and new positions. *)
Definition mshoa_evolve (n ep : nat) : M unit :=
  pol <- get_x ;;
  xs <- all_sols ;;
  replace_all P md (correct_solution_with P (amend_form E P "MShOA:85-90")) gea n (fun idx =>
    x <- pop_sol idx ;;
    g <- gb_sol ;;
    k <- lift (getitem pol idx) ;;
    if feq k #1 then
      i <- choice1 E (others n [idx]) ;;
      u <- uniform E ;;
      y <- pop_sol i ;;
      let d := fneg #1 + #2 * u in
      ret (vtab P (fun j => g.[j] - x.[j] + d * (y.[j] - g.[j])))
    else if feq k #2 then
      fm "MShOA:197-198" [g]
    else
      u <- uniform E ;;
      b <- choice1 E [fneg #1; #1] ;;
      r <- uniform E ;;
      let kk := dec 3 10 * u in
      let y := vtab P (fun j => g.[j] + r * b * kk * g.[j]) in
      if feq b #1 then fm "MShOA:206-207" [y] else ret y) ;;;
  ys <- all_sols ;;
  pol' <- rlist E n "MShOA:96-176" (xs ++ ys)%list ;;
  set_x pol'.
Definition original_mshoa (n epochs : nat) := vars_algo E P md tt n epochs false (mshoa_vars n) (mshoa_evolve n).
(** DevMShOA.before_main_loop (305-315). *)
Definition dev_mshoa_before (n : nat) : M unit := p <- rlist E n "MShOA:312-315" [] ;; set_x p.
(** DevMShOA.evolve (317-493). *)
Definition dev_mshoa_evolve (k_value : f64) (n ep : nat) : M unit :=
  pti <- get_x ;;
  v <- view ;;
  zs <- collect n (fun idx => fm "MShOA:340-394" ([k_value; fnat idx] :: pti :: v)) ;;
  pti' <- rlist E n "MShOA:399-479" (v ++ zs)%list ;;
  set_x pti' ;;;
  replace_all P md (correct_solution P) gea n (fun idx => lift (getitem zs idx)).
Definition dev_mshoa (k_value : f64) (n epochs : nat) :=
  agent_algo E md gea (ga_of P gea) n epochs false (ret tt) (dev_mshoa_before n) (dev_mshoa_evolve k_value n).
End MShOA.

(** ** physics_based/GRSA.py; attributes geodesic_x_p, geodesic_f and prev_pop *)
Section GRSA.
Variable E : env.
Variable P : problem.
Variable md : mode.
Notation X := (list vec * vec * list vec)%type.
Notation gea := (generate_empty_agent (A := unit) (X := X) P tt).
Notation M := (M unit X).
(** OriginalGRSA.before_main_loop (GRSA.py:83-86). *)
Definition grsa_before : M unit :=
  x <- (xs <- all_sols ;; fs <- all_fits ;; ret (xs, fs, xs)) ;; set_x x.
(** The comparison of line 173 ignores the direction of the problem. *)
Definition grsa_geodesic (new old : vec * f64) : vec * f64 := if compare_fitness (snd new) (snd old) Min then new else old.
(** OriginalGRSA.evolve (100-179), with calculate_x_direction (88-98). *)
Definition grsa_evolve (pars : vec) (n epochs ep : nat) : M unit :=
  v <- view_fit ;;
  xs <- all_sols ;;
  '(gx, gf, prev) <- get_x ;;
  zs <- collect n (fun idx => rform E P "GRSA:107-157" ((fnat idx :: fnat ep :: fnat epochs :: pars) :: gf :: v ++ gx ++ prev)%list) ;;
  replace_each P md (correct_solution P) gea n (fun idx => lift (getitem zs idx)) ;;;
  ys <- all_sols ;;
  fs <- all_fits ;;
  let geo := map (fun p => grsa_geodesic (fst p) (snd p)) (combine (combine ys fs) (combine gx gf)) in
  set_x (map fst geo, map snd geo, xs) ;;;
  c <- rtest E "GRSA:178" ys ;;
  when c (l <- generate_population_with E md (ga_of P gea None) n ;; set_pop l).
Definition original_grsa (pars : vec) (n epochs : nat) :=
  agent_algo E md gea (ga_of P gea) n epochs false (ret tt) grsa_before (grsa_evolve pars n epochs).
End GRSA.

(** ** human_based/ILA.py; attributes current_n_g and current_clusters (the others repeat the population, or earlier positions of it) *)
Section ILA.
Variable E : env.
Variable P : problem.
Variable md : mode.
Notation X := (nat * list nat * list vec * vec)%type.
Notation gea := (generate_empty_agent (A := unit) (X := X) P tt).
Notation correct := (correct_solution P).
Notation M := (M unit X).
Notation fm := (rform E P).
(** OriginalILA.before_main_loop (ILA.py:103-108); current_clusters is written in the first epoch that reads it (134-136), its value
    here is not used.  The last two components are the positions of pop_prev and of current_best. *)
Definition ila_before (n : nat) : M unit :=
  x <- (xs <- all_sols ;; g <- gb_sol ;; ret (1%nat, repeat 0%nat n, xs, g)) ;; set_x x.
(** The better one of two new agents replaces the agent of slot [idx] if it is better (ILA.py:193-204, 246-255, 275-283); the value
    fitness[idx] it is compared with is the fitness of that agent, as every slot is visited once per epoch. *)
Definition ila_try (idx : nat) (z1 z2 : vec) : M unit :=
  y1 <- correct z1 ;;
  y2 <- correct z2 ;;
  a1 <- gen_at P gea y1 ;;
  a2 <- gen_at P gea y2 ;;
  c <- lift (compare_agents a1 a2 (p_mm P)) ;;
  let b := if c : bool then a1 else a2 in
  old <- pop_at idx ;;
  c' <- lift (compare_agents b old (p_mm P)) ;;
  when c'
    (pop_set idx b ;;;
     '(k, cl, prev, cb) <- get_x ;;
     set_x (k, cl, upd prev idx (sol old), cb)).
(** kmeans_simple (117-130): a cluster number below [k] for each agent. *)
Definition ila_clusters (n k : nat) : M (list nat) := repeat_M n (integers E 0 k).
(** The indexes of the agents of group [g] (139). *)
Definition ila_group (cl : list nat) (n g : nat) : list nat := filter (fun i => (nth i cl 0 =? g)%nat) (seq 0 n).
(** stage_1_step (132-204); the loops over the groups and over their members are one loop. *)
Definition ila_stage1 (t_m n ep : nat) (v : list vec) : M unit :=
  when (((ep - 1) mod t_m =? 0)%nat)
    (k <- integers E 1 (Nat.max 1 (n / 2) + 1) ;;
     cl <- ila_clusters n k ;;
     '(_, _, prev, cb) <- get_x ;;
     set_x (k, cl, prev, cb)) ;;;
  '(k, cl, prev, cb) <- get_x ;;
  for_list (flat_map (ila_group cl n) (seq 0 k)) tt (fun idx _ =>
    z1 <- fm "ILA:143-186" ([fnat idx] :: map fnat cl :: cb :: prev ++ v)%list ;;
    z2 <- fm "ILA:188-190" ([fnat idx] :: map fnat cl :: z1 :: v) ;;
    ila_try idx z1 z2).
(** stage_2_step and stage_3_step (206-283). *)
Definition ila_stage (name : string) (n : nat) (v : list vec) : M unit :=
  '(_, _, prev, cb) <- get_x ;;
  for_ n (fun idx =>
    z1 <- fm name ([fnat idx] :: cb :: prev ++ v)%list ;;
    z2 <- fm name ([fnat idx] :: z1 :: v) ;;
    ila_try idx z1 z2).
(** OriginalILA.evolve (285-301), with the numbers of lines 89-94. *)
Definition ila_evolve (n_models : nat) (p_s1 p_s2 b_min b_max : f64) (n epochs ep : nat) : M unit :=
  let n1 := Z.to_nat (ftrunc (p_s1 * fnat epochs)) in
  let n2 := Z.to_nat (ftrunc (p_s2 * fnat epochs)) in
  v <- view_fit ;;
  let v := [b_min; b_max] :: v in
  (if (ep <? n1)%nat then ila_stage1 (Nat.max 1 (n1 / n_models)) n ep v
   else if (ep <? n1 + n2)%nat then ila_stage "ILA:208-245" n v
   else ila_stage "ILA:259-274" n v) ;;;
  p <- get_pop ;;
  '(b, _) <- lift (get_best_agent (e_argsort E) p (p_mm P)) ;;
  '(k, cl, prev, _) <- get_x ;;
  set_x (k, cl, prev, sol b).
Definition original_ila (n_models : nat) (p_s1 p_s2 b_min b_max : f64) (n epochs : nat) :=
  agent_algo E md gea (ga_of P gea) n epochs false (ret tt) (ila_before n) (ila_evolve n_models p_s1 p_s2 b_min b_max n epochs).
End ILA.

(** ** swarm_based/CCO.py; not parallelizable; the attributes x, y, s, z, tt, Dis and Lx are one array of numbers here *)
Section CCO.
Variable E : env.
Variable P : problem.
Notation gea := (generate_empty_agent (A := unit) (X := vec) P tt).
Notation correct := (correct_solution P).
Notation M := (M unit vec).
(** OriginalCCO.before_main_loop (CCO.py:92-117). *)
Definition cco_before (n : nat) : M unit :=
  x <- (v <- view ;; rlist E (2 * n + 5)%nat "CCO:96-117" v) ;; set_x x.
(** Lines 260-273; the comparisons of lines 187 and 265 ignore the direction of the problem. *)
Definition cco_try (idx : nat) (q : bool) (z : vec) : M unit :=
  a <- gen_agent P correct gea z ;;
  old <- pop_at idx ;;
  c <- lift (compare_agents a old Min) ;;
  when c
    (pop_set idx a ;;;
     when q
       (p <- get_pop ;;
        '(_, i) <- lift (get_worst_agent (e_argsort E) p (p_mm P)) ;;
        pop_set i a)).
(** OriginalCCO.evolve (119-278).  The best and worst positions used for an agent are computed before it instead of after the agent
    before it (134-136, 276-278); the population is the same at both points. *)
Definition cco_evolve (pars : vec) (n epochs ep : nat) : M unit :=
  for_ n (fun idx =>
    p <- get_pop ;;
    '(_, bs, ws) <- special E P p 1 1 ;;
    b <- lift (getitem bs 0) ;;
    w <- lift (getitem ws 0) ;;
    g <- gb_sol ;;
    v <- view_fit ;;
    x <- get_x ;;
    let reads := (fnat idx :: fnat ep :: fnat epochs :: pars) :: x :: (if (idx =? 0)%nat then g else sol b) :: sol w :: v in
    q <- rtest E "CCO:208-210" reads ;;
    z <- rform E P "CCO:142-258" reads ;;
    cco_try idx q z ;;;
    x' <- rlist E (2 * n + 5)%nat "CCO:200-273" (z :: reads) ;;
    set_x x').
Definition original_cco (pars : vec) (n epochs : nat) :=
  agent_algo E Single gea (ga_of P gea) n epochs false (ret tt) (cco_before n) (cco_evolve pars n epochs).
End CCO.
