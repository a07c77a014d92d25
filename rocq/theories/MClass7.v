(** Algorithm classes, part 7: biogeography, Jaya, Harris hawks, energy valley, multiverse, equilibrium, slime mould and
    artificial ecosystem families.  No proofs here.  Simplifications: see MClass1. *)
From Verif Require Import Prelude Fl MCore MHelp MAlg MAlg2 MAlg4.
Local Open Scope f_scope.

Section Plain.
Variable E : env.
Variable P : problem.
Variable md : mode.
Notation gea := (generate_empty_agent (A := unit) (X := unit) P tt).
Notation correct := (correct_solution P).
Notation M := (M unit unit).
Notation fm := (rform E P).

(** ** bio_based/BBO.py *)
(** OriginalBBO.evolve (65-101).  The wheel over mu (80-85) stops at an index below pop_size, so line 87 never fails. *)
Definition bbo_evolve (p_m : f64) (n_elites n ep : nat) : M unit :=
  with_best E P n_elites n
    (greedy_each P md correct gea n false (fun idx =>
       v <- view ;;
       y <- fm "BBO:76-87" ([fnat idx] :: v) ;;
       noise <- uniform_box E P ;;
       u <- uvec E P ;;
       ret (vtab P (fun j => if u.[j] < p_m then noise.[j] else y.[j])))).
Definition original_bbo (p_m : f64) (n_elites n epochs : nat) := plain_algo E P md tt n epochs false (bbo_evolve p_m n_elites n).
(** DevBBO.evolve (144-174); mr is 1 - mu, set at line 63. *)
Definition dev_bbo_evolve (p_m : f64) (n_elites n ep : nat) : M unit :=
  with_best E P n_elites n
    (fits <- all_fits ;;
     greedy_each P md correct gea n false (fun idx =>
       i <- roulette E P fits ;;
       u <- uvec E P ;;
       xi <- pop_sol i ;;
       x <- pop_sol idx ;;
       let mr := #1 - (fnat n + #1 - fnat (idx + 1)) / (fnat n + #1) in
       let y := vtab P (fun j => if u.[j] < mr then xi.[j] else x.[j]) in
       mutated <- uniform_box E P ;;
       w <- uvec E P ;;
       ret (vtab P (fun j => if w.[j] < p_m then mutated.[j] else y.[j])))).
Definition dev_bbo (p_m : f64) (n_elites n epochs : nat) := plain_algo E P md tt n epochs false (dev_bbo_evolve p_m n_elites n).

(** ** swarm_based/JA.py *)
(** [_, (g_best, ), (g_worst, ) = self.get_special_agents(self.pop, n_best=1, n_worst=1, ...)] (64, 129, 200). *)
Definition ja_ends : M (vec * vec) :=
  p <- get_pop ;;
  '(_, best, worst) <- special E P p 1 1 ;;
  b <- lift (getitem best 0) ;;
  w <- lift (getitem worst 0) ;;
  ret (sol b, sol w).
(** DevJA.evolve (57-77). *)
Definition dev_ja_evolve (n ep : nat) : M unit :=
  '(b, w) <- ja_ends ;;
  greedy_each P md correct gea n false (fun idx =>
    x <- pop_sol idx ;;
    u <- uvec E P ;;
    g <- gauss E ;;
    ret (vtab P (fun j => x.[j] + u.[j] * (b.[j] - fabs (x.[j])) + g * (w.[j] - fabs (x.[j]))))).
Definition dev_ja (n epochs : nat) := plain_algo E P md tt n epochs false (dev_ja_evolve n).
(** OriginalJA.evolve (122-142). *)
Definition ja_evolve (n ep : nat) : M unit :=
  '(b, w) <- ja_ends ;;
  replace_all P md correct gea n (fun idx =>
    x <- pop_sol idx ;;
    u1 <- uvec E P ;;
    u2 <- uvec E P ;;
    ret (vtab P (fun j => x.[j] + u1.[j] * (b.[j] - fabs (x.[j])) - u2.[j] * (w.[j] - fabs (x.[j]))))).
Definition original_ja (n epochs : nat) := plain_algo E P md tt n epochs false (ja_evolve n).
(** LevyJA.evolve (193-215). *)
Definition levy_ja_evolve (n ep : nat) : M unit :=
  '(b, w) <- ja_ends ;;
  greedy_each P md correct gea n false (fun idx =>
    l1 <- rnum E "JA:203" [] ;;
    l2 <- rnum E "JA:204" [] ;;
    x <- pop_sol idx ;;
    ret (vtab P (fun j => x.[j] + fabs l1 * (b.[j] - fabs (x.[j])) - fabs l2 * (w.[j] - fabs (x.[j]))))).
Definition levy_ja (n epochs : nat) := plain_algo E P md tt n epochs false (levy_ja_evolve n).

(** ** swarm_based/HHO.py *)
(** One hawk (67-122): positions Y and Z of the rapid dives are evaluated on the spot. *)
Definition hho_hawk (n epochs ep idx : nat) : M (agent unit) :=
  u0 <- uniform E ;;
  let e0 := #2 * u0 - #1 in
  let e := #2 * e0 * (#1 - fnat ep * #1 / fnat epochs) in
  u1 <- uniform E ;;
  let jj := #2 * (#1 - u1) in
  x <- pop_sol idx ;;
  g <- gb_sol ;;
  if #1 <= fabs e then
    (u <- uniform E ;;
     if dec 1 2 <= u then
       i <- integers E 0 n ;;
       xr <- pop_sol i ;;
       a <- uniform E ;;
       b <- uniform E ;;
       propose correct gea (vtab P (fun j => xr.[j] - a * fabs (xr.[j] - #2 * b * x.[j])))
     else
       v <- view ;;
       y <- fm "HHO:80-82" v ;;
       propose correct gea y)
  else
    (u <- uniform E ;;
     if dec 1 2 <= u then
       propose correct gea
         (if dec 1 2 <= fabs e
          then vtab P (fun j => g.[j] - x.[j] - e * fabs (jj * g.[j] - x.[j]))
          else vtab P (fun j => g.[j] - e * fabs (g.[j] - x.[j])))
     else
       lf <- rnum E "HHO:101" [] ;;
       v <- view ;;
       let y := if dec 1 2 <= fabs e
                then vtab P (fun j => g.[j] - e * fabs (jj * g.[j] - x.[j]))
                else vform E P "HHO:105-106" ([e; jj] :: v) in
       ay <- gen_agent P correct gea y ;;
       r <- uniform_box E P ;;
       az <- gen_agent P correct gea (vtab P (fun j => y.[j] + r.[j] * lf)) ;;
       a <- pop_at idx ;;
       cy <- lift (compare_agents ay a (p_mm P)) ;;
       if (cy : bool) then ret ay
       else cz <- lift (compare_agents az a (p_mm P)) ;;
            if (cz : bool) then ret az else ret a).
(** OriginalHHO.evolve (58-128).  Every agent of pop_new is evaluated (again) after the loop (123-127). *)
Definition hho_evolve (n epochs ep : nat) : M unit :=
  l <- collect n (hho_hawk n epochs ep) ;;
  new <- evaluate_all P md l ;;
  p <- get_pop ;;
  q <- lift (greedy_selection_population p new (p_mm P)) ;;
  set_pop q.
Definition original_hho (n epochs : nat) := plain_algo E P md tt n epochs false (hho_evolve n epochs).

(** ** physics_based/EVO.py *)
(** OriginalEVO.evolve (64-116): one or two new agents per agent, all of them competing with the population. *)
Definition evo_evolve (n ep : nat) : M unit :=
  trim_many E P md n n (fun idx =>
    k <- choice1 E (others n [0%nat; 1%nat; idx]) ;;
    v <- view_worst ;;
    better <- rtest E "EVO:81-86" ([fnat idx] :: v) ;;
    if (better : bool) then
      y1 <- fm "EVO:87-98" ([fnat idx; fnat k] :: v) ;;
      y2 <- fm "EVO:87-100" ([fnat idx; fnat k] :: v) ;;
      a1 <- propose correct gea y1 ;;
      a2 <- propose correct gea y2 ;;
      ret [a1; a2]
    else
      y <- fm "EVO:108" ([fnat idx] :: v) ;;
      a <- propose correct gea y ;;
      ret [a]).
Definition original_evo (n epochs : nat) := plain_algo E P md tt n epochs true (evo_evolve n).

(** ** physics_based/MVO.py *)
(** DevMVO.evolve (76-106). *)
Definition dev_mvo_evolve (wep_min wep_max : f64) (n epochs ep : nat) : M unit :=
  let wep := wep_max - fnat ep * ((wep_max - wep_min) / fnat epochs) in
  let tdr := #1 - pow_ E (fnat ep) (dec 1 6) / pow_ E (fnat epochs) (dec 1 6) in
  greedy_each P md correct gea n true (fun idx =>
    b <- coin E wep ;;
    if (b : bool) then
      fits <- all_fits ;;
      i <- roulette E P fits ;;
      x <- pop_sol idx ;;
      w <- pop_sol i ;;
      g <- gb_sol ;;
      z1 <- gauss E ;;
      z2 <- gauss E ;;
      u <- uvec E P ;;
      ret (vtab P (fun j => if u.[j] < dec 1 2 then x.[j] + tdr * z1 * (w.[j] - x.[j]) else g.[j] + tdr * z2 * (g.[j] - x.[j])))
    else random_solution P).
Definition dev_mvo (wep_min wep_max : f64) (n epochs : nat) :=
  plain_algo E P md tt n epochs true (dev_mvo_evolve wep_min wep_max n epochs).
(** OriginalMVO.evolve (192-237).  roulette_wheel_selection__ (168-176) returns an index of the population or None,
    which becomes 0, so line 220 never fails. *)
Definition mvo_evolve (wep_min wep_max : f64) (n epochs ep : nat) : M unit :=
  let wep := wep_min + fnat ep * ((wep_max - wep_min) / fnat epochs) in
  let tdr := #1 - pow_ E (fnat ep) (dec 1 6) / pow_ E (fnat epochs) (dec 1 6) in
  fits <- all_fits ;;
  norm <- rlist E n "MVO:204-209" [fits] ;;
  greedy_each P md correct gea n true (fun idx =>
    v <- view ;;
    fm "MVO:212-228" ([fnat idx; wep; tdr] :: fits :: norm :: v)).
Definition original_mvo (wep_min wep_max : f64) (n epochs : nat) :=
  plain_algo E P md tt n epochs true (mvo_evolve wep_min wep_max n epochs).

(** ** physics_based/EO.py *)
(** [get_special_agents(self.pop, n_best=4)] and make_equilibrium_pool__ (67-73): the mean of the four best is
    evaluated and joins the pool, not the population. *)
Definition eo_pool : M (list (agent unit)) :=
  p <- get_pop ;;
  '(_, best, _) <- special E P p 4 3 ;;
  a <- gen_agent P correct gea (mean_sol P best) ;;
  ret (best ++ [a]).
(** The new position (89-98, 173-182, 296-306). *)
Definition eo_cand (pool : list (agent unit)) (epochs ep idx : nat) : M vec :=
  let t := pow_ E (#1 - fnat ep / fnat epochs) (fnat ep / fnat epochs) in
  lamda <- uvec E P ;;
  r <- uvec E P ;;
  i <- integers E 0 (List.length pool) ;;
  c <- lift (getitem pool i) ;;
  r1 <- uniform E ;;
  r2 <- uniform E ;;
  x <- pop_sol idx ;;
  ret (vform E P "EO:92-98" [sol c; x; lamda; r; [r1; r2; t]]).
(** OriginalEO.evolve (75-107). *)
Definition eo_evolve (n epochs ep : nat) : M unit :=
  pool <- eo_pool ;;
  greedy_each P md correct gea n true (eo_cand pool epochs ep).
Definition original_eo (n epochs : nat) := plain_algo E P md tt n epochs false (eo_evolve n epochs).
(** AdaptiveEO.evolve (280-317). *)
Definition adaptive_eo_evolve (n epochs ep : nat) : M unit :=
  pool <- eo_pool ;;
  greedy_each P md correct gea n true (fun idx =>
    y <- eo_cand pool epochs ep idx ;;
    fits <- all_fits ;;
    f <- pop_fit idx ;;
    if compare_fitness f (fmean fits) (p_mm P) then
      u <- uvec E P ;;
      ret (vtab P (fun j => y.[j] * (dec 1 2 + u.[j])))
    else ret y).
Definition adaptive_eo (n epochs : nat) := plain_algo E P md tt n epochs false (adaptive_eo_evolve n epochs).
(** ModifiedEO.evolve (159-227); pop_len = int(pop_size / 3) (157).  Outside single mode the mutated agents come first
    in the greedy selection (207): a tie keeps the mutated one. *)
Definition modified_eo_evolve (n epochs ep : nat) : M unit :=
  let k := (n / 3)%nat in
  pool <- eo_pool ;;
  greedy_each P md correct gea n true (eo_cand pool epochs ep) ;;;
  p <- get_pop ;;
  '(_, s1, _) <- special E P p k 3 ;;
  mutated <- new_agents P md correct gea k (fun idx =>
     a <- lift (getitem s1 idx) ;;
     z <- gvec E P ;;
     ret (vtab P (fun j => (sol a).[j] * (#1 + z.[j])))) ;;
  s2 <- (if is_avail md then lift (greedy_selection_population mutated s1 (p_mm P))
         else collect k (fun idx =>
           a <- lift (getitem mutated idx) ;;
           b <- lift (getitem s1 idx) ;;
           lift (get_better_agent a b (p_mm P) false))) ;;
  c0 <- lift (getitem pool 0) ;;
  s3 <- new_agents P md correct gea k (fun idx =>
     u1 <- uniform E ;;
     u2 <- uniform E ;;
     ret (vtab P (fun j => ((sol c0).[j] - (mean_sol P s1).[j]) - u1 * ((p_lb P).[j] + u2 * ((p_ub P).[j] - (p_lb P).[j]))))) ;;
  let three := (s1 ++ s2 ++ s3)%list in
  is <- choice_noreplace E (seq 0 (List.length pool)) (n - List.length three)%nat ;;
  rest <- lift (pick pool is) ;;
  set_pop (three ++ rest).
Definition modified_eo (n epochs : nat) := plain_algo E P md tt n epochs false (modified_eo_evolve n epochs).

(** ** system_based/AEO.py *)
(** Consumption (79-95, 192-208, 312-340, 446-462, 567-585), the expression named by its lines. *)
Definition aeo_eat (name : string) (epochs ep idx : nat) : M vec :=
  xj <- (if Nat.eqb idx 0 then pop_sol 1 else j <- integers E 0 idx ;; pop_sol j) ;;
  x <- pop_sol idx ;;
  x0 <- pop_sol 0 ;;
  g <- gb_sol ;;
  fm name [x; x0; xj; g; [fnat ep; fnat epochs]].
(** The common course of the five evolve methods: production replaces the last agent (71-75, 184-188, 304-308, 438-442,
    559-563), consumption, the current best (106, 219, 351, 473, 596), decomposition. *)
Definition aeo_step (produce eat : string) (rot : vec -> nat -> M vec) (n epochs ep : nat) : M unit :=
  x <- pop_sol (n - 1)%nat ;;
  y <- fm produce [x; p_lb P; p_ub P; [fnat ep; fnat epochs]] ;;
  gen_set P correct gea (n - 1)%nat y ;;;
  greedy_front P md correct gea (n - 1)%nat true (aeo_eat eat epochs ep) ;;;
  p <- get_pop ;;
  '(b, _) <- lift (get_best_agent (e_argsort E) p (p_mm P)) ;;
  greedy_each P md correct gea n true (rot (sol b)).
(** [best.solution + d * (e * best.solution - h * self.pop[idx].solution)] (111-115). *)
Definition aeo_rot (best : vec) (idx : nat) : M vec :=
  r3 <- uniform E ;;
  z <- gauss E ;;
  i <- integers E 1 3 ;;
  x <- pop_sol idx ;;
  let d := #3 * z in
  let e := r3 * fnat i - #1 in
  let h := #2 * r3 - #1 in
  ret (vtab P (fun j => best.[j] + d * (e * best.[j] - h * x.[j]))).
(** OriginalAEO.evolve (62-124). *)
Definition aeo_evolve (n epochs ep : nat) : M unit := aeo_step "AEO:71-72" "AEO:79-95" aeo_rot n epochs ep.
Definition original_aeo (n epochs : nat) := plain_algo E P md tt n epochs true (aeo_evolve n epochs).
(** ImprovedAEO.evolve (175-246): half of the time a mixture with another agent, never the last one (230). *)
Definition improved_aeo_evolve (n epochs ep : nat) : M unit :=
  aeo_step "AEO:184-185" "AEO:192-208" (fun best idx =>
    y <- aeo_rot best idx ;;
    b <- coin E (dec 1 2) ;;
    if (b : bool) then
      let beta := #1 - (#1 - #0) * (fnat ep / fnat epochs) in
      i <- integers E 0 (n - 1)%nat ;;
      xr <- pop_sol i ;;
      x <- pop_sol idx ;;
      c <- coin E (dec 1 2) ;;
      ret (if (c : bool) then vtab P (fun j => beta * xr.[j] + (#1 - beta) * x.[j])
           else vtab P (fun j => beta * x.[j] + (#1 - beta) * xr.[j]))
    else ret y) n epochs ep.
Definition improved_aeo (n epochs : nat) := plain_algo E P md tt n epochs true (improved_aeo_evolve n epochs).
(** Decomposition of EnhancedAEO and ModifiedAEO (356-369, 478-491). *)
Definition aeo_mix (n epochs ep : nat) (best : vec) (idx : nat) : M vec :=
  y <- aeo_rot best idx ;;
  b <- coin E (dec 1 2) ;;
  if (b : bool) then
    let beta := #1 - (#1 - #0) * (fnat ep / fnat epochs) in
    i <- choice1 E (others n [idx]) ;;
    xr <- pop_sol i ;;
    x <- pop_sol idx ;;
    c <- coin E (dec 1 2) ;;
    ret (if (c : bool) then vtab P (fun j => beta * xr.[j] + (#1 - beta) * x.[j])
         else vtab P (fun j => (#1 - beta) * xr.[j] + beta * x.[j]))
  else ret y.
(** EnhancedAEO.evolve (295-378). *)
Definition enhanced_aeo_evolve (n epochs ep : nat) : M unit :=
  aeo_step "AEO:304-305" "AEO:312-340" (aeo_mix n epochs ep) n epochs ep.
Definition enhanced_aeo (n epochs : nat) := plain_algo E P md tt n epochs true (enhanced_aeo_evolve n epochs).
(** ModifiedAEO.evolve (428-500). *)
Definition modified_aeo_evolve (n epochs ep : nat) : M unit :=
  aeo_step "AEO:438-439" "AEO:446-462" (aeo_mix n epochs ep) n epochs ep.
Definition modified_aeo (n epochs : nat) := plain_algo E P md tt n epochs true (modified_aeo_evolve n epochs).
(** AugmentedAEO.evolve (549-614). *)
Definition augmented_aeo_evolve (n epochs ep : nat) : M unit :=
  aeo_step "AEO:559-560" "AEO:567-585" (fun best idx =>
    x <- pop_sol idx ;;
    b <- coin E (dec 1 2) ;;
    if (b : bool) then
      z <- gvec E P ;;
      ret (vtab P (fun j => best.[j] + z.[j] * (best.[j] - x.[j])))
    else fm "AEO:604-605" [best; x]) n epochs ep.
Definition augmented_aeo (n epochs : nat) := plain_algo E P md tt n epochs true (augmented_aeo_evolve n epochs).
End Plain.

Section Weights.
Variable E : env.
Variable P : problem.
Variable md : mode.
Notation gea := (generate_empty_agent (A := unit) (X := list vec) P tt).
Notation correct := (correct_solution P).
Notation M := (M unit (list vec)).

(** ** bio_based/SMA.py *)
(** DevSMA.initialize_variables (61-62). *)
Definition sma_vars (n : nat) : M unit := x <- ret (repeat (vtab P (fun _ => #0)) n) ;; set_x x.
(** The weights of the slime (72-81, 167-176). *)
Definition sma_weights (n : nat) : M unit :=
  gf <- gb_fit ;;
  last <- pop_fit (n - 1)%nat ;;
  for_ n (fun idx =>
    u <- uvec E P ;;
    f <- pop_fit idx ;;
    ws <- get_x ;;
    set_x (upd ws idx (vform E P "SMA:72-81" [u; [fnat idx; gf; last; f]]))).
(** DevSMA.evolve (64-108). *)
Definition dev_sma_evolve (p_t : f64) (n epochs ep : nat) : M unit :=
  sma_weights n ;;;
  greedy_each P md correct gea n true (fun idx =>
    b <- coin E p_t ;;
    if (b : bool) then random_solution P
    else
      f <- pop_fit idx ;;
      gf <- gb_fit ;;
      '(ia, ib) <- choose2 E (others n [idx]) ;;
      xa <- pop_sol ia ;;
      xb <- pop_sol ib ;;
      x <- pop_sol idx ;;
      g <- gb_sol ;;
      ws <- get_x ;;
      w <- lift (getitem ws idx) ;;
      rform E P "SMA:90-98" [g; w; xa; xb; x; [f; gf; fnat ep; fnat epochs]]).
Definition dev_sma (p_t : f64) (n epochs : nat) := vars_algo E P md tt n epochs true (sma_vars n) (dev_sma_evolve p_t n epochs).
(** OriginalSMA.evolve (159-204). *)
Definition sma_evolve (p_t : f64) (n epochs ep : nat) : M unit :=
  sma_weights n ;;;
  replace_each P md correct gea n (fun idx =>
    b <- coin E p_t ;;
    if (b : bool) then random_solution P
    else
      f <- pop_fit idx ;;
      gf <- gb_fit ;;
      x <- pop_sol idx ;;
      g <- gb_sol ;;
      ws <- get_x ;;
      w <- lift (getitem ws idx) ;;
      let p := e_fun E "tanh" [fabs (f - gf)] in
      v <- rform E P "SMA:188-189" [[fnat ep; fnat epochs]] ;;
      vc <- rform E P "SMA:189" [[fnat ep; fnat epochs]] ;;
      dims P (fun j =>
        '(ia, ib) <- choose2 E (others n [idx]) ;;
        xa <- pop_sol ia ;;
        xb <- pop_sol ib ;;
        u <- uniform E ;;
        ret (if u < p then g.[j] + v.[j] * (w.[j] * xa.[j] - xb.[j]) else vc.[j] * x.[j]))).
Definition original_sma (p_t : f64) (n epochs : nat) := vars_algo E P md tt n epochs true (sma_vars n) (sma_evolve p_t n epochs).
End Weights.
