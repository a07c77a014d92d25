(** Model of mealpy's algorithm classes, part 9.  The conventions are those of MClass1. *)
From Verif Require Import Prelude Fl MCore MHelp MAlg MAlg2 MAlg3 MAlg4 MAlg5 MAlg6.
Local Open Scope f_scope.

(** * Classes that keep one number between epochs *)
Section Number.
Variable E : env.
Variable P : problem.
Variable md : mode.
Notation gea := (generate_empty_agent (A := unit) (X := f64) P tt).
Notation correct := (correct_solution P).
Notation M := (M unit f64).
Notation fm := (rform E P).

(** ** swarm_based/EPC.py, not parallelizable *)
(** DevEPC.evolve (178-208) with calculate_attractiveness (113-133) and spiral_movement (135-176); the kept number is
    heat_radiation. *)
Definition epc_evolve (damping mutation spiral_a spiral_b : f64) (n epochs ep : nat) : M unit :=
  h0 <- get_x ;;
  set_x (h0 * damping) ;;;
  for_ n (fun idx =>
    for_ n (fun jdx =>
      a <- pop_at jdx ;;
      b <- pop_at idx ;;
      c <- lift (compare_agents a b (p_mm P)) ;;
      when c (
        h <- get_x ;;
        x <- fm "EPC:135-206" [[h; mutation * (#1 - fnat ep / fnat epochs); spiral_a; spiral_b]; sol b; sol a] ;;
        try_improve P correct gea idx x))).
(** initialize_variables (103-111). *)
Definition dev_epc (damping mutation spiral_a spiral_b : f64) (n epochs : nat) :=
  vars_algo E P md tt n epochs false
    (h <- ret (dec 56 100 * dec 98 100 * dec 56703 1000000000000 * pow_ E (dec 30815 100) (#4)) ;; set_x h)
    (epc_evolve damping mutation spiral_a spiral_b n epochs).

(** ** swarm_based/FOX.py *)
(** OriginalFOX.evolve (76-108) with pp = 0.18 and DevFOX.evolve (170-202): they differ in lines 100 and 194.  The kept
    number is mint. *)
Definition fox_evolve (dev : bool) (c1 c2 pp : f64) (n epochs ep : nat) : M unit :=
  let aa := #2 * (#1 - #1 / fnat epochs) in
  replace_each P md correct gea n (fun idx =>
    g <- gb_sol ;;
    u <- uniform E ;;
    if dec 5 10 <= u then
      t1 <- uvec E P ;;
      let mean := fmean t1 in
      let jump := dec 5 10 * dec 981 100 * (mean / #2 * (mean / #2)) in
      v <- uniform E ;;
      mint <- get_x ;;
      when (mean < mint) (set_x mean) ;;;
      ret (vtab P (fun j => dec 5 10 * (g.[j] / t1.[j]) * t1.[j] * jump * (if pp < v then c1 else c2)))
    else if dev then
      mint <- get_x ;;
      z <- gvec E P ;;
      ret (vtab P (fun j => g.[j] + z.[j] * (mint * aa)))
    else
      mint <- get_x ;;
      v <- uvec E P ;;
      ret (vtab P (fun j => g.[j] * v.[j] * (mint * aa)))).
(** initialize_variables (73-74, 167-168). *)
Definition original_fox (c1 c2 : f64) (n epochs : nat) :=
  vars_algo E P md tt n epochs false (m <- ret (fZ 10000000) ;; set_x m) (fox_evolve false c1 c2 (dec 18 100) n epochs).
Definition dev_fox (c1 c2 pp : f64) (n epochs : nat) :=
  vars_algo E P md tt n epochs false (m <- ret (fZ 10000000) ;; set_x m) (fox_evolve true c1 c2 pp n epochs).
End Number.

(** * Classes without attributes of their own *)
Section Plain.
Variable E : env.
Variable P : problem.
Variable md : mode.
Notation gea := (generate_empty_agent (A := unit) (X := unit) P tt).
Notation correct := (correct_solution P).
Notation M := (M unit unit).
Notation fm := (rform E P).

(** ** physics_based/CEO.py *)
(** OriginalCEO.evolve (78-178). *)
Definition ceo_evolve (w1 p_base alpha : f64) (n epochs ep : nat) : M unit :=
  let r := fnat ep / fnat epochs in
  let p_global := p_base * (#1 - dec 5 10000 * r) * (#1 - r) in
  let p_reson := dec 1 10 * exp_ E (fneg (#3) * fnat ep / fnat epochs) in
  xs <- all_sols ;;
  fits <- all_fits ;;
  accept_batch P md n
    (fun idx =>
      x <- pop_sol idx ;;
      f <- pop_fit idx ;;
      g <- gb_sol ;;
      gf <- gb_fit ;;
      c <- coin E p_global ;;
      y <- (if (c : bool) then fm "CEO:121" ([fnat n] :: x :: xs)
            else fm "CEO:125-155" ([w1; alpha; fnat ep; fnat epochs; f; gf] :: fits :: x :: g :: xs)) ;;
      propose correct gea y)
    (fun idx old a better =>
      when (negb better) (
        c <- coin E p_reson ;;
        when c (y <- fm "CEO:173-174" [sol a] ;; try_improve P correct gea idx y))).
Definition original_ceo (w1 p_base alpha : f64) (n epochs : nat) :=
  plain_algo E P md tt n epochs true (ceo_evolve w1 p_base alpha n epochs).

(** ** bio_based/SFOA.py *)
(** OriginalSFOA.evolve (88-155). *)
Definition sfoa_evolve (gp : f64) (n epochs ep : nat) : M unit :=
  c <- coin E gp ;;
  if (c : bool) then
    greedy_batch P md correct gea n (fun idx =>
      x <- pop_sol idx ;;
      g <- gb_sol ;;
      if (5 <? n_dims P)%nat then
        js <- choice_noreplace E (seq 0 (n_dims P)) 5 ;;
        y <- fm "SFOA:105-112" [[fnat ep; fnat epochs; gp]; x; g] ;;
        ret (vtab P (fun j => if existsb (Nat.eqb j) js then y.[j] else x.[j]))
      else
        jp <- integers E 0 (n_dims P) ;;
        '(i1, i2) <- choose2 E (seq 0 n) ;;
        x1 <- pop_sol i1 ;;
        x2 <- pop_sol i2 ;;
        y <- fm "SFOA:117-124" [[fnat ep; fnat epochs]; x; x1; x2] ;;
        ret (vtab P (fun j => if (j =? jp)%nat then y.[j] else x.[j])))
  else
    '(i1, i2, i3, i4, i5) <- choose5 E (seq 0 n) ;;
    g <- gb_sol ;;
    x1 <- pop_sol i1 ;;
    x2 <- pop_sol i2 ;;
    x3 <- pop_sol i3 ;;
    x4 <- pop_sol i4 ;;
    x5 <- pop_sol i5 ;;
    let dm := map (fun y => vtab P (fun j => g.[j] - y.[j])) [x1; x2; x3; x4; x5] in
    greedy_batch P md correct gea n (fun idx =>
      x <- pop_sol idx ;;
      r1 <- uniform E ;;
      r2 <- uniform E ;;
      '(k1, k2) <- choose2 E (seq 0 5) ;;
      d1 <- lift (getitem dm k1) ;;
      d2 <- lift (getitem dm k2) ;;
      ret (if (idx =? n - 1)%nat then vtab P (fun j => exp_ E (fneg (fnat ep) * fnat n / fnat epochs) * x.[j])
           else vtab P (fun j => x.[j] + r1 * d1.[j] + r2 * d2.[j]))).
Definition original_sfoa (gp : f64) (n epochs : nat) := plain_algo E P md tt n epochs false (sfoa_evolve gp n epochs).

(** ** swarm_based/BES.py *)
(** OriginalBES.evolve (99-160); the four arrays of create_x_y_x1_y1__ (84-97) are left abstract. *)
Definition bes_evolve (a_factor R_factor alpha c1 c2 : f64) (n ep : nat) : M unit :=
  l <- rlist E (4 * n)%nat "BES:84-97" [[a_factor; R_factor; fnat n]] ;;
  p <- get_pop ;;
  let m1 := mean_sol P p in
  greedy_each P md correct gea n true (fun idx =>
    g <- gb_sol ;;
    x <- pop_sol idx ;;
    u <- uniform E ;;
    ret (vtab P (fun j => g.[j] + alpha * u * (m1.[j] - x.[j])))) ;;;
  q <- get_pop ;;
  let m2 := mean_sol P q in
  greedy_each P md correct gea n true (fun idx =>
    r <- choice1 E (others n [idx]) ;;
    x <- pop_sol idx ;;
    xr <- pop_sol r ;;
    ret (vtab P (fun j => x.[j] + l.[n + idx] * (x.[j] - xr.[j]) + l.[idx] * (x.[j] - m2.[j])))) ;;;
  t <- get_pop ;;
  let m3 := mean_sol P t in
  greedy_each P md correct gea n true (fun idx =>
    g <- gb_sol ;;
    x <- pop_sol idx ;;
    u <- uniform E ;;
    ret (vtab P (fun j => u * g.[j] + l.[2 * n + idx] * (x.[j] - c1 * m3.[j]) + l.[3 * n + idx] * (x.[j] - c2 * g.[j])))).
Definition original_bes (a_factor R_factor alpha c1 c2 : f64) (n epochs : nat) :=
  plain_algo E P md tt n epochs false (bes_evolve a_factor R_factor alpha c1 c2 n).

(** ** human_based/SPBO.py *)
(** OriginalSPBO.evolve (62-100). *)
Definition spbo_evolve (n ep : nat) : M unit :=
  for_ (n_dims P) (fun _ =>
    p <- get_pop ;;
    '(_, best) <- lift (get_best_agent (e_argsort E) p (p_mm P)) ;;
    mid <- integers E 1 (n - 1)%nat ;;
    let mean := mean_sol P p in
    greedy_each P md correct gea n true (fun idx =>
      g <- gb_sol ;;
      x <- pop_sol idx ;;
      if (idx =? best)%nat then
        k <- choice1 E [1; 2]%nat ;;
        i <- choice1 E (others n [idx]) ;;
        xi <- pop_sol i ;;
        u <- uvec E P ;;
        ret (vtab P (fun j => g.[j] + (if (k =? 1)%nat then fneg (#1) else #1) * u.[j] * (g.[j] - xi.[j])))
      else
        a <- uniform E ;;
        b <- uniform E ;;
        if (idx <? mid)%nat then
          if b < a then u <- uvec E P ;; ret (vtab P (fun j => g.[j] + u.[j] * (g.[j] - x.[j])))
          else u <- uvec E P ;; v <- uniform E ;; ret (vtab P (fun j => x.[j] + u.[j] * (g.[j] - x.[j]) + v * (x.[j] - mean.[j])))
        else
          if b < a then u <- uvec E P ;; ret (vtab P (fun j => x.[j] + u.[j] * (mean.[j] - x.[j])))
          else random_solution P)).
Definition original_spbo (n epochs : nat) := plain_algo E P md tt n epochs false (spbo_evolve n).
(** DevSPBO.evolve (151-184). *)
Definition dev_spbo_evolve (n ep : nat) : M unit :=
  p <- get_pop ;;
  let mean := mean_sol P p in
  greedy_each P md correct gea n true (fun idx =>
    g <- gb_sol ;;
    x <- pop_sol idx ;;
    if (idx =? 0)%nat then
      i <- choice1 E (others n [idx]) ;;
      xi <- pop_sol i ;;
      z <- gvec E P ;;
      ret (vtab P (fun j => g.[j] + z.[j] * (g.[j] - xi.[j])))
    else if (idx <? n / 3)%nat then
      a <- uniform E ;;
      b <- uniform E ;;
      if b < a then z <- gvec E P ;; ret (vtab P (fun j => g.[j] + z.[j] * (g.[j] - x.[j])))
      else u <- uvec E P ;; ret (vtab P (fun j => x.[j] + u.[j] * (g.[j] - x.[j]) + (#1 - u.[j]) * (x.[j] - mean.[j])))
    else if (idx <? 2 * (n / 3))%nat then z <- gvec E P ;; ret (vtab P (fun j => x.[j] + z.[j] * (mean.[j] - x.[j])))
    else random_solution P).
Definition dev_spbo (n epochs : nat) := plain_algo E P md tt n epochs true (dev_spbo_evolve n).

(** ** human_based/DOA.py *)
(** np.ceil(a / b), for numbers small enough that the quotient is not rounded to an integer. *)
Definition ceil_div (a b : nat) : nat := ((a + b - 1) / b)%nat.
(** The ends of the five groups (98-99). *)
Definition doa_bound (n m : nat) : nat := Z.to_nat (ftrunc (fnat m / #5 * fnat n)).
(** A component out of range (114-119, 144-149). *)
Definition doa_inside (n idx j : nat) (v : f64) : M f64 :=
  if ((p_ub P).[j] < v) || (v < (p_lb P).[j]) then
    if (15 <? n_dims P)%nat then r <- choice1 E (others n [idx]) ;; x <- pop_sol r ;; ret (x.[j])
    else u <- uniform E ;; ret (u * ((p_ub P).[j] - (p_lb P).[j]) + (p_lb P).[j])
  else ret v.
(** One new position of the exploration phase (104-123). *)
Definition doa_dream (n epochs ep kk idx : nat) (b : vec) : M vec :=
  js <- choice_noreplace E (seq 0 (n_dims P)) kk ;;
  c <- coin E (dec 9 10) ;;
  for_list js b (fun j acc =>
    if (c : bool) then
      u <- uniform E ;;
      v <- doa_inside n idx j (b.[j] + (u * ((p_ub P).[j] - (p_lb P).[j]) + (p_lb P).[j]) * sform E "DOA:110" [[fnat ep; fnat epochs]]) ;;
      ret (upd acc j v)
    else r <- choice1 E (others n [idx]) ;; x <- pop_sol r ;; ret (upd acc j (x.[j]))).
(** The exploration phase (90-132). *)
Definition doa_explore (n epochs ep : nat) : M unit :=
  replace_list P md (collect_many 5 (fun m =>
    kk <- integers E (Nat.max 1 (ceil_div (n_dims P) (8 * S m))) (ceil_div (n_dims P) (3 * S m) + 1)%nat ;;
    let lo := doa_bound n m in
    let hi := doa_bound n (S m) in
    p <- get_pop ;;
    '(best, _) <- lift (get_best_agent (e_argsort E) (slice lo hi p) (p_mm P)) ;;
    collect (hi - lo)%nat (fun i => y <- doa_dream n epochs ep kk (lo + i)%nat (sol best) ;; propose correct gea y))).
(** The exploitation phase (133-157).  Line 142 reads the bounds at the index of the agent, not of the variable. *)
Definition doa_exploit (n epochs ep : nat) : M unit :=
  replace_list P md (collect n (fun idx =>
    k <- integers E 2 (Nat.max 2 (ceil_div (n_dims P) 3) + 1)%nat ;;
    js <- choice_noreplace E (seq 0 (n_dims P)) k ;;
    g <- gb_sol ;;
    y <- for_list js g (fun j acc =>
      u <- uniform E ;;
      ub <- lift (getitem (p_ub P) idx) ;;
      lb <- lift (getitem (p_lb P) idx) ;;
      v <- doa_inside n idx j (acc.[j] + (u * (ub - lb) + lb) * sform E "DOA:141" [[fnat ep; fnat epochs]]) ;;
      ret (upd acc j v)) ;;
    propose correct gea y)).
(** OriginalDOA.evolve (80-157); exploration_end (88) is int(9 * self.epoch / 10). *)
Definition doa_evolve (n epochs ep : nat) : M unit :=
  if (ep <=? 9 * epochs / 10)%nat then doa_explore n epochs ep else doa_exploit n epochs ep.
Definition original_doa (n epochs : nat) := plain_algo E P md tt n epochs true (doa_evolve n epochs).

(** ** bio_based/APO.py *)
(** OriginalAPO.evolve (69-143); the set of line 78, the masks (93-94, 100-101) and the pairs of agents (106-134) are left
    abstract. *)
Definition apo_evolve (pf_max : f64) (n_pairs n epochs ep : nat) : M unit :=
  u <- uniform E ;;
  ri <- rlist E n "APO:78" [[pf_max * u; fnat n]] ;;
  greedy_each P md correct gea n false (fun idx =>
    x <- pop_sol idx ;;
    if #0 < ri.[idx] then
      r <- uniform_box E P ;;
      c <- coin E (dec 5 10 * (#1 + cos_ E ((#1 - (fnat idx + #1) / fnat n) * pi_ E))) ;;
      if (c : bool) then ret r else fm "APO:91-95" [x; r]
    else
      xs <- all_sols ;;
      fits <- all_fits ;;
      c <- coin E (dec 5 10 * (#1 + cos_ E (fnat ep / fnat epochs * pi_ E))) ;;
      if (c : bool) then
        i <- integers E 0 n ;;
        xi <- pop_sol i ;;
        fm "APO:106-121" ([fnat n_pairs; fnat idx; fnat ep; fnat epochs] :: x :: xi :: fits :: xs)
      else fm "APO:124-134" ([fnat n_pairs; fnat idx; fnat ep; fnat epochs] :: x :: fits :: xs)).
Definition original_apo (pf_max : f64) (n_pairs n epochs : nat) := plain_algo E P md tt n epochs true (apo_evolve pf_max n_pairs n epochs).

(** ** swarm_based/NMRA.py: every new agent is evaluated twice *)
(** OriginalNMRA.evolve (61-86). *)
Definition nmra_evolve (pb : f64) (n ep : nat) : M unit :=
  let size_b := (n / 5)%nat in
  greedy_twice P md correct gea n false (fun idx =>
    x <- pop_sol idx ;;
    if (idx <? size_b)%nat then
      c <- coin E pb ;;
      if (c : bool) then
        g <- gb_sol ;;
        alpha <- uniform E ;;
        ret (vtab P (fun j => (#1 - alpha) * x.[j] + alpha * (g.[j] - x.[j])))
      else ret x
    else
      '(t1, t2) <- choose2 E (seq size_b (n - size_b)) ;;
      x1 <- pop_sol t1 ;;
      x2 <- pop_sol t2 ;;
      u <- uniform E ;;
      ret (vtab P (fun j => x.[j] + u * (x1.[j] - x2.[j])))).
Definition original_nmra (pb : f64) (n epochs : nat) := plain_algo E P md tt n epochs true (nmra_evolve pb n).
(** ImprovedNMRA.evolve (162-200) with crossover_random__ (149-160). *)
Definition improved_nmra_evolve (pb pm : f64) (n ep : nat) : M unit :=
  let size_b := (n / 5)%nat in
  greedy_twice P md correct gea n false (fun idx =>
    x <- pop_sol idx ;;
    g <- gb_sol ;;
    y <- (if (idx <? size_b)%nat then
            c <- coin E pb ;;
            if (c : bool) then z <- gvec E P ;; ret (vtab P (fun j => x.[j] + z.[j] * (g.[j] - x.[j])))
            else fm "NMRA:177-179" [[fnat ep]; x; g]
          else
            c <- coin E (dec 5 10) ;;
            if (c : bool) then
              '(t1, t2) <- choose2 E (seq size_b (n - size_b)) ;;
              x1 <- pop_sol t1 ;;
              x2 <- pop_sol t2 ;;
              z <- gvec E P ;;
              ret (vtab P (fun j => x.[j] + z.[j] * (x1.[j] - x2.[j])))
            else
              id1 <- integers E 0 (n_dims P / 2)%nat ;;
              let id2 := (id1 + n_dims P / 3)%nat in
              i <- integers E 0 n ;;
              xi <- pop_sol i ;;
              ret (vtab P (fun j => if (id1 <=? j)%nat && (j <? id2)%nat then xi.[j] else g.[j]))) ;;
    t <- uniform_box E P ;;
    u <- uvec E P ;;
    ret (vtab P (fun j => if u.[j] < pm then t.[j] else y.[j]))).
Definition improved_nmra (pb pm : f64) (n epochs : nat) := plain_algo E P md tt n epochs true (improved_nmra_evolve pb pm n).

(** ** swarm_based/DandelionO.py *)
(** OriginalDandelionO.evolve (66-120): all positions are computed from one set of draws; line 75 divides by an
    integer that is zero when epoch is 1. *)
Definition dandelion_evolve (n epochs ep : nat) : M unit :=
  aa <- lift (py_div (#1) (fZ (let e := Z.of_nat epochs in e * e - 2 * e + 1)%Z)) ;;
  xs <- all_sols ;;
  g <- gb_sol ;;
  k <- tick ;;
  replace_each P md correct gea n (fun idx =>
    ret (vform E P "DandelionO:72-109" ([fnat k; fnat idx; fnat ep; fnat epochs; aa] :: g :: xs))).
Definition original_dandelion (n epochs : nat) := plain_algo E P md tt n epochs true (dandelion_evolve n epochs).
(** DevDandelionO.evolve (193-270). *)
Definition dev_dandelion_evolve (n epochs ep : nat) : M unit :=
  xs <- all_sols ;;
  g <- gb_sol ;;
  k <- tick ;;
  replace_each P md correct gea n (fun idx =>
    ret (vform E P "DandelionO:199-259" ([fnat k; fnat idx; fnat ep; fnat epochs] :: g :: xs))).
Definition dev_dandelion (n epochs : nat) := plain_algo E P md tt n epochs true (dev_dandelion_evolve n epochs).

(** ** swarm_based/SquirrelSA.py *)
(** One squirrel moves towards [y], or anywhere (123-134, 144-155, 159-170), with calculate_gliding_distance (93-110). *)
Definition squirrel_move (gc sf pp : f64) (y : vec) (idx : nat) (l : list (agent unit)) : M (list (agent unit)) :=
  c_l <- uniform_in E (dec 675 1000) (dec 15 10) ;;
  u <- uniform E ;;
  x <- pop_sol idx ;;
  z <- (if pp <= u then ret (vform E P "SquirrelSA:96-126" [[c_l; gc; sf]; x; y]) else uniform_box E P) ;;
  a <- propose correct gea z ;;
  old <- pop_at idx ;;
  ret (upd l idx (mkAgent (sol a) (tgt old) tt)).
(** The seasonal condition S_c < S_min (173-177). *)
Definition squirrel_season (n_food epochs ep : nat) (xs : list vec) : bool :=
  let x0 := nth 0 xs [] in
  fmean (map (fun x => sqrt_ E (fsuml (vtab P (fun j => (x.[j] - x0.[j]) * (x.[j] - x0.[j]))))) (slice 1 n_food xs))
    < dec 1 100000 / #365 * (fnat ep / (fnat epochs / dec 25 10)).
(** The new population before it is evaluated (120-187).  Line 179 takes the length of an integer. *)
Definition squirrel_pop (n_food : nat) (pp gc sf : f64) (n epochs ep : nat) : M (list (agent unit)) :=
  let n_acorn := (n_food - 1)%nat in
  p <- get_pop ;;
  l1 <- for_list (seq 1 n_acorn) p (fun idx l => g <- gb_sol ;; squirrel_move gc sf pp g idx l) ;;
  perm <- permutation E (n - n_food) ;;
  let ix := map (fun i => (i + n_food)%nat) perm in
  cut <- integers E 1 (n - n_food - 1)%nat ;;
  l2 <- for_list (skipn cut ix) l1 (fun idx l =>
    k <- integers E 0 n_acorn ;;
    y <- pop_sol (k + 1)%nat ;;
    squirrel_move gc sf pp y idx l) ;;
  l3 <- for_list (firstn cut ix) l2 (fun idx l => y <- pop_sol 0 ;; squirrel_move gc sf pp y idx l) ;;
  xs <- all_sols ;;
  when (squirrel_season n_food epochs ep xs) (raise TypeError) ;;;
  ret l3.
(** OriginalSquirrelSA.evolve (112-194). *)
Definition squirrel_evolve (n_food : nat) (pp gc sf : f64) (n epochs ep : nat) : M unit :=
  replace_list P md (squirrel_pop n_food pp gc sf n epochs ep).
Definition original_squirrel (n_food : nat) (pp gc sf : f64) (n epochs : nat) :=
  plain_algo E P md tt n epochs true (squirrel_evolve n_food pp gc sf n epochs).
End Plain.

(** * Classes that keep a list between epochs *)
Section Counters.
Variable E : env.
Variable P : problem.
Variable md : mode.
Notation gea := (generate_empty_agent (A := unit) (X := list nat) P tt).
Notation correct := (correct_solution P).
Notation M := (M unit (list nat)).
Notation fm := (rform E P).

(** ** swarm_based/AHO.py, not parallelizable *)
(** The location has changed (131-134, 162-166), or not (137-143, 169-175). *)
Definition aho_move (n idx : nat) (prey : vec) (better : bool) : M unit :=
  if better then
    x <- pop_sol idx ;;
    gen_set P correct gea idx (vform E P "AHO:130-131" [x; prey]) ;;;
    c <- get_x ;;
    set_x (upd c idx 0%nat)
  else
    c <- get_x ;;
    k <- lift (getitem c idx) ;;
    set_x (upd c idx (S k)) ;;;
    when (n_dims P * n <=? S k)%nat (
      x <- pop_sol idx ;;
      y <- fm "AHO:140" [x] ;;
      gen_set P correct gea idx y ;;;
      c' <- get_x ;;
      set_x (upd c' idx 0%nat)).
(** OriginalAHO.evolve (101-175).  The prey is a position with its target; here an agent. *)
Definition aho_evolve (theta omega : f64) (n ep : nat) : M unit :=
  for_ n (fun idx =>
    b <- integers E 0 2 ;;
    u <- uniform E ;;
    let th := (if (b =? 1)%nat then fneg (#1) else #1) * u * pi_ E in
    let ab := fabs th in
    when (((#0 <= ab) && (ab < theta)) || ((pi_ E - theta < ab) && (ab <= pi_ E))) (
      x <- pop_sol idx ;;
      kdx <- integers E 0 (n_dims P) ;;
      y <- fm "AHO:119-122" [[fnat kdx; omega; th]; x] ;;
      prey <- gen_agent P correct gea y ;;
      for_ n (fun jdx =>
        old <- pop_at jdx ;;
        c <- lift (compare_agents prey old (p_mm P)) ;;
        aho_move n jdx (sol prey) c)) ;;;
    when ((theta <= ab) && (ab <= pi_ E - theta)) (
      x <- pop_sol idx ;;
      y <- fm "AHO:148-156" [[omega; th]; x] ;;
      prey <- gen_agent P correct gea y ;;
      old <- pop_at idx ;;
      c <- lift (compare_agents prey old (p_mm P)) ;;
      aho_move n idx (sol prey) c)).
(** initialize_variables (95-99). *)
Definition original_aho (theta omega : f64) (n epochs : nat) :=
  vars_algo E P md tt n epochs false (c <- ret (repeat 0%nat n) ;; set_x c) (aho_evolve theta omega n).
End Counters.

Section Memory.
Variable E : env.
Variable P : problem.
Variable md : mode.
Notation gea := (generate_empty_agent (A := unit) (X := list vec) P tt).
Notation correct := (correct_solution P).
Notation M := (M unit (list vec)).
Notation fm := (rform E P).

(** ** swarm_based/GJA.py *)
(** Agents from best to worst by the fitness values of line 96 (98-101, 148-151). *)
Definition gja_order (fits : vec) : list nat :=
  match p_mm P with Min => e_argsort E fits | _ => rev (e_argsort E fits) end.
(** The memory (152-156); np.allclose is left abstract. *)
Definition gja_remember (mem : list vec) (x : vec) : list vec :=
  if existsb (fun m => #0 < sform E "allclose" [x; m]) mem then mem else (mem ++ [x])%list.
(** OriginalGJA.evolve (89-167).  Under minimization the worst are the last of the order (160-163); otherwise the first
    [n_worst] of argsort, the last of the order reversed.  All of them come from the fitness values read at line 96. *)
Definition gja_evolve (beta_start beta_end alpha_ratio : f64) (n epochs ep : nat) : M unit :=
  fits <- all_fits ;;
  greedy_each P md correct gea n true (fun idx =>
    x <- pop_sol idx ;;
    g <- gb_sol ;;
    u <- uniform E ;;
    i <- lift (getitem (gja_order fits) (Nat.min (Z.to_nat (ftrunc (sform E "GJA:118" [[u; fnat n]]))) (n - 1))) ;;
    xi <- pop_sol i ;;
    fm "GJA:91-132" [[beta_start; beta_end; alpha_ratio; fnat ep; fnat epochs]; x; g; xi]) ;;;
  when (ep mod 5 =? 0)%nat (
    for_list (firstn 5 (gja_order fits)) tt (fun i _ =>
      x <- pop_sol i ;;
      mem <- get_x ;;
      set_x (gja_remember mem x)) ;;;
    mem5 <- get_x ;;
    let mem := firstn 5 mem5 in
    set_x mem ;;;
    when (0 <? List.length mem)%nat (
      let n_worst := Nat.max 1 (Z.to_nat (ftrunc (sform E "GJA:159" [[fnat n]]))) in
      let worst := match p_mm P with Min => skipn (n - n_worst) (gja_order fits) | _ => rev (skipn (n - n_worst) (gja_order fits)) end in
      for_list worst tt (fun i _ =>
        k <- integers E 0 (List.length mem) ;;
        y <- lift (getitem mem k) ;;
        gen_set P correct gea i y))).
(** initialize_variables (83-87). *)
Definition original_gja (beta_start beta_end alpha_ratio : f64) (n epochs : nat) :=
  vars_algo E P md tt n epochs false (m <- ret [] ;; set_x m) (gja_evolve beta_start beta_end alpha_ratio n epochs).
End Memory.
