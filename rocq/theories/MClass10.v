(** Model of mealpy's algorithm classes, part 10.  The conventions are those of MClass1. *)
From Verif Require Import Prelude Fl MCore MHelp MAlg MAlg2 MAlg3 MAlg4 MAlg5 MAlg6.
Local Open Scope f_scope.

(** * Classes without attributes of their own *)
Section Plain.
Variable E : env.
Variable P : problem.
Variable md : mode.
Notation gea := (generate_empty_agent (A := unit) (X := unit) P tt).
Notation correct := (correct_solution P).
Notation M := (M unit unit).
Notation fm := (rform E P).

(** ** swarm_based/ALO.py *)
(** OriginalALO.evolve (100-130) with random_walk_antlion__ (61-98), DevALO.evolve (201-230) with its own
    random_walk_antlion__ (173-199): they differ in the walks only. *)
Definition alo_evolve (n epochs ep : nat) : M unit :=
  fits <- all_fits ;;
  trim_batch E P md correct gea n n (fun idx =>
    i <- roulette E P fits ;;
    x <- pop_sol i ;;
    g <- gb_sol ;;
    fm "ALO:115-118" [[fnat ep; fnat epochs; fnat idx]; x; g]) ;;;
  g <- get_gb ;;
  pop_set (n - 1)%nat g.
Definition original_alo (n epochs : nat) := plain_algo E P md tt n epochs true (alo_evolve n epochs).
Definition dev_alo (n epochs : nat) := plain_algo E P md tt n epochs true (alo_evolve n epochs).

(** ** swarm_based/AO.py *)
(** OriginalAO.evolve (63-108) and AAO.evolve (165-217): [early] is the test of line 87, 195.  Lines 91, 200 reassign the
    loop variable, so that in single mode the new agent competes with the agent just drawn. *)
Definition ao_evolve (early : M bool) (n epochs ep : nat) : M unit :=
  g1 <- uniform E ;;
  u <- uniform E ;;
  qe <- lift (py_div (#2 * u - #1) (fZ ((1 - Z.of_nat epochs) * (1 - Z.of_nat epochs)))) ;;
  let qf := pow_ E (fnat ep) qe in
  greedy_agents P md n true (fun idx =>
    p <- get_pop ;;
    g <- gb_sol ;;
    e <- early ;;
    c <- coin E (dec 1 2) ;;
    if e : bool then
      if c : bool then
        x <- fm "AO:89" [[fnat ep / fnat epochs]; g; mean_sol P p] ;;
        a <- propose correct gea x ;;
        ret (idx, a)
      else
        j <- choice1 E (others n [idx]) ;;
        y <- pop_sol j ;;
        x <- fm "AO:92" [g; y] ;;
        a <- propose correct gea x ;;
        ret (j, a)
    else
      y <- pop_sol idx ;;
      x <- (if c : bool then fm "AO:95-96" [g; mean_sol P p] else fm "AO:98-99" [[qf; g1; fnat ep / fnat epochs]; g; y]) ;;
      a <- propose correct gea x ;;
      ret (idx, a)).
Definition original_ao (n epochs : nat) :=
  plain_algo E P md tt n epochs false (fun ep => ao_evolve (ret (fnat ep <= #2 / #3 * fnat epochs)) n epochs ep).
Definition aao (sharpness midpoint : f64) (n epochs : nat) :=
  plain_algo E P md tt n epochs false (fun ep =>
    ao_evolve (u <- uniform E ;; ret (u <= #1 - #1 / (#1 + exp_ E (fneg sharpness * (fnat ep / fnat epochs - midpoint))))) n epochs ep).

(** ** swarm_based/NWOA.py *)
(** OriginalNO.evolve (275-319). *)
Definition no_evolve (alpha sigma0 : f64) (n epochs ep : nat) : M unit :=
  let sigma := sigma0 * (#1 - fnat ep / fnat epochs) in
  greedy_each P md correct gea n true (fun idx =>
    x <- pop_sol idx ;;
    g <- gb_sol ;;
    fm "NWOA:289-304" [[alpha; sigma]; x; g]).
Definition original_no (alpha sigma0 : f64) (n epochs : nat) := plain_algo E P md tt n epochs false (no_evolve alpha sigma0 n epochs).

(** ** swarm_based/EEFO.py *)
(** OriginalEEFO.evolve (80-208) with its amend_solution (62-78).  The direct vector of lines 106-112 is part of the
    formulas: the number of components drawn there never exceeds the dimension.  Line 122 compares as for minimization
    whatever the direction. *)
Definition eefo_evolve (n epochs ep : nat) : M unit :=
  p <- get_pop ;;
  let mn := mean_sol P p in
  let e0 := #4 * sin_ E (#1 - fnat ep / fnat epochs) in
  greedy_batch P md (correct_solution_with P (amend_random E P)) gea n (fun idx =>
    a <- pop_at idx ;;
    e <- rnum E "EEFO:102" [[e0]] ;;
    if #1 < e then
      j <- choice1 E (others n [idx]) ;;
      b <- pop_at j ;;
      c <- lift (compare_agents b a Min) ;;
      if c : bool then fm "EEFO:123-127" [mn; sol a; sol b; p_lb P; p_ub P] else fm "EEFO:129-133" [mn; sol a; sol b; p_lb P; p_ub P]
    else
      r <- uniform E ;;
      g <- gb_sol ;;
      if (r < #1 / #3) || (#2 / #3 < r) then
        i <- integers E 0 n ;;
        d <- integers E 0 (n_dims P) ;;
        y <- pop_sol i ;;
        fm "EEFO:143-180" [[r; y.[d]; fnat d; fnat ep / fnat epochs]; sol a; g; mn]
      else fm "EEFO:185-195" [[fnat ep; fnat epochs]; sol a; g; mn]).
Definition original_eefo (n epochs : nat) := plain_algo E P md tt n epochs false (eefo_evolve n epochs).

(** ** swarm_based/ORCA.py *)
(** OriginalOrcaPA.evolve (182-259): the chasing phase (194-220). *)
Definition orca_chase (p1 q : f64) (n epochs ep : nat) : M (list (agent unit)) :=
  p <- get_pop ;;
  l <- new_agents P md correct gea n (fun idx =>
    u <- uniform E ;;
    x <- pop_sol idx ;;
    g <- gb_sol ;;
    if p1 < u then
      v <- uniform E ;;
      if q < v then fm "ORCA:200-203" [mean_sol P p; x; g] else fm "ORCA:206" [x; g]
    else
      '(j1, j2, j3) <- choose3 E (others n [idx]) ;;
      x1 <- pop_sol j1 ;;
      x2 <- pop_sol j2 ;;
      x3 <- pop_sol j3 ;;
      fm "ORCA:211-212" [[fnat ep / fnat epochs]; x1; x2; x3]) ;;
  p1 <- get_pop ;;
  lift (greedy_selection_population p1 l (p_mm P)).
(** The position of the attacking phase (226-232). *)
Definition orca_attack (best chase : list (agent unit)) (n idx : nat) : M vec :=
  '(j1, j2, j3) <- choose3 E (others n [idx]) ;;
  c <- lift (getitem chase idx) ;;
  c1 <- lift (getitem chase j1) ;;
  c2 <- lift (getitem chase j2) ;;
  c3 <- lift (getitem chase j3) ;;
  x <- pop_sol idx ;;
  fm "ORCA:227-232" [sol c; sol c1; sol c2; sol c3; x; List.concat (map sol best)].
(** Lines 237-240, 245-248: whether the agent is flagged. *)
Definition orca_flag (idx : nat) (a : agent unit) : M bool :=
  old <- pop_at idx ;;
  c <- lift (compare_agents a old (p_mm P)) ;;
  when c (pop_set idx a) ;;;
  ret (negb c).
(** The adjustment of one flagged agent (252-259): the position of line 256 is not corrected. *)
Definition orca_adjust (p2 : f64) (chase : list (agent unit)) (idx : nat) : M unit :=
  u <- uniform E ;;
  c <- lift (getitem chase idx) ;;
  if u < p2 then
    r <- uvec E P ;;
    x <- raw P (vtab P (fun j => if r.[j] < p2 then (p_lb P).[j] else (sol c).[j])) ;;
    a <- gen_at P gea x ;;
    pop_set idx a
  else pop_set idx c.
(** Line 245 compares the last new agent with every old one. *)
Definition orca_pa_evolve (p1 p2 q : f64) (n epochs ep : nat) : M unit :=
  p <- get_pop ;;
  '(_, best, _) <- special E P p 4 1 ;;
  chase <- orca_chase p1 q n epochs ep ;;
  flags <- (if is_avail md then
              l <- new_agents P md correct gea n (fun idx => orca_attack best chase n idx) ;;
              a <- lift (getitem l (n - 1)) ;;
              collect n (fun idx => orca_flag idx a)
            else
              collect n (fun idx =>
                x <- orca_attack best chase n idx ;;
                a <- gen_agent P correct gea x ;;
                orca_flag idx a)) ;;
  for_ n (fun idx => f <- lift (getitem flags idx) ;; when f (orca_adjust p2 chase idx)).
Definition original_orca_pa (p1 p2 q : f64) (n epochs : nat) := plain_algo E P md tt n epochs false (orca_pa_evolve p1 p2 q n epochs).

(** ** bio_based/WHO.py *)
(** Milling (110-132): the locally best agent is evaluated but not kept. *)
Definition who_local (steps idx : nat) : M vec :=
  b <- best_new E P md correct gea steps (fun _ => x <- pop_sol idx ;; fm "WHO:115" [x]) ;;
  x <- pop_sol idx ;;
  ret (vform E P "WHO:123" [sol (fst b); x]).
Definition who_mill (steps n : nat) : M unit :=
  if is_avail md then
    l <- collect n (fun idx => x <- who_local steps idx ;; propose correct gea x) ;;
    new <- update_target_for_population P md l ;;
    p <- get_pop ;;
    q <- lift (greedy_selection_population p new (p_mm P)) ;;
    set_pop q
  else for_ n (fun idx => x <- who_local steps idx ;; gen_keep P correct gea true idx x).
(** Herd instinct (133-141). *)
Definition who_herd (p_hi : f64) (n : nat) : M unit :=
  for_ n (fun idx =>
    r <- integers E 0 n ;;
    a <- pop_at r ;;
    b <- pop_at idx ;;
    c <- lift (compare_agents a b (p_mm P)) ;;
    when c (
      u <- uniform E ;;
      when (u < p_hi) (try_improve P correct gea idx (vform E P "WHO:137" [sol b; sol a])))).
(** Starvation avoidance and population pressure: the positions of lines 151, 161, when their conditions (150, 160) hold. *)
Definition who_starve (worst : agent unit) (idx : nat) : M (option vec) :=
  x <- pop_sol idx ;;
  c <- rtest E "WHO:150" [x; sol worst] ;;
  if c : bool then y <- fm "WHO:151-152" [x] ;; ret (Some y) else ret None.
Definition who_press (best : agent unit) (x : vec) : M (option vec) :=
  c <- rtest E "WHO:160" [x; sol best] ;;
  if c : bool then y <- fm "WHO:161" [sol best] ;; ret (Some y) else ret None.
Definition who_option (o : option vec) : M (list (agent unit)) :=
  match o with Some x => a <- propose correct gea x ;; ret [a] | None => ret [] end.
(** Lines 145-180.  The agent of line 172 has the position before correction, and in single mode (175) the target of the
    corrected one. *)
Definition who_last (steps n : nat) : M unit :=
  p <- get_pop ;;
  '(_, best, worst) <- special E P p 1 1 ;;
  b <- lift (getitem best 0) ;;
  w <- lift (getitem worst 0) ;;
  if is_avail md then
    l <- collect_many n (fun idx =>
      x <- pop_sol idx ;;
      o1 <- who_starve w idx ;;
      l1 <- who_option o1 ;;
      o2 <- who_press b x ;;
      l2 <- who_option o2 ;;
      l3 <- repeat_M steps (x3 <- fm "WHO:170" [sol b] ;; y <- correct x3 ;; x <- raw P x3 ;; gea (Some x)) ;;
      ret (l1 ++ l2 ++ l3)%list) ;;
    new <- update_target_for_population P md l ;;
    child <- lift (get_sorted_and_trimmed_population (e_argsort E) new n (p_mm P)) ;;
    p1 <- get_pop ;;
    q <- lift (greedy_selection_population p1 child (p_mm P)) ;;
    set_pop q
  else
    for_ n (fun idx =>
      x <- pop_sol idx ;;
      o1 <- who_starve w idx ;;
      (match o1 with Some y => gen_keep P correct gea true idx y | None => ret tt end) ;;;
      o2 <- who_press b x ;;
      (match o2 with Some y => gen_keep P correct gea true idx y | None => ret tt end) ;;;
      for_ steps (fun _ =>
        x3 <- fm "WHO:170" [sol b] ;;
        y <- correct x3 ;;
        a <- gea (Some x3) ;;
        t <- get_target P y ;;
        keep_better P true idx (mkAgent (sol a) (Some t) tt))).
(** OriginalWHO.evolve (102-180). *)
Definition who_evolve (explore exploit : nat) (p_hi : f64) (n ep : nat) : M unit :=
  who_mill explore n ;;;
  who_herd p_hi n ;;;
  who_last exploit n.
Definition original_who (explore exploit : nat) (p_hi : f64) (n epochs : nat) := plain_algo E P md tt n epochs false (who_evolve explore exploit p_hi n).
End Plain.

(** * Classes that keep one number between epochs *)
Section Number.
Variable E : env.
Variable P : problem.
Variable md : mode.
Notation gea := (generate_empty_agent (A := unit) (X := f64) P tt).
Notation correct := (correct_solution P).
Notation M := (M unit f64).
Notation fm := (rform E P).

(** ** swarm_based/NWOA.py *)
(** OriginalNWOA.evolve (162-214); the kept number is prey_energy.  The improvement of line 178, read from the history of
    the previous epochs, is part of the test of line 187. *)
Definition nwoa_evolve (lamda amplitude decay : f64) (n epochs ep : nat) : M unit :=
  let a := #2 - #2 * fnat ep / fnat epochs in
  e0 <- get_x ;;
  let e1 := e0 * exp_ E (fneg lamda * fnat ep) in
  let e2 := if #0 < e1 then e1 else #0 in
  set_x e2 ;;;
  greedy_each P md correct gea n true (fun idx =>
    x <- pop_sol idx ;;
    g <- gb_sol ;;
    c <- rtest E "NWOA:145-187" [[e2; fnat ep]] ;;
    if c : bool then fm "NWOA:189-190" [[a; amplitude; decay; fnat ep]; x; g] else fm "NWOA:193-199" [[a; amplitude; decay; e2; fnat ep]; x; g]).
(** initialize_variables (107-109). *)
Definition original_nwoa (lamda amplitude decay : f64) (n epochs : nat) :=
  vars_algo E P md tt n epochs false (e <- ret (#1) ;; set_x e) (nwoa_evolve lamda amplitude decay n epochs).

(** ** swarm_based/ORCA.py *)
(** The distances d_list (73-85). *)
Definition orca_dist (n : nat) (r g : f64) (fits : list f64) : list f64 :=
  let e := map (fun f => f - g) fits in
  let eps := if feq (fmaxl e) (fminl e) then repeat (#0) n else map (fun x => (x - fminl e) / (fmaxl e - fminl e)) e in
  map (fun x => x * r) eps.
(** OriginalOrcaOA.evolve (66-113); the kept number is R, set by __init__ (62) and never reset.  The new population (110) has
    one agent less than pop_size.  [n_removes] is int(p_percent * pop_size) (64).  Line 113 is put before the loop,
    which uses the old value. *)
Definition orca_oa_evolve (n_removes : nat) (r0 : f64) (n epochs ep : nat) : M unit :=
  fits <- all_fits ;;
  gf <- gb_fit ;;
  r <- get_x ;;
  let d := orca_dist n r gf fits in
  set_x (r0 * (#1 - fnat ep / fnat epochs)) ;;;
  replace_all P md correct gea (n - 1)%nat (fun i =>
    let idx := (i + 1)%nat in
    if (idx <? n - n_removes)%nat then
      dir <- fm "ORCA:92-95" [] ;;
      di <- lift (getitem d idx) ;;
      rd <- uniform_in E (r - di) r ;;
      x <- pop_sol 0 ;;
      ret (vtab P (fun j => x.[j] + rd * dir.[j]))
    else uniform_box E P).
Definition original_orca_oa (n_removes : nat) (r0 : f64) (n epochs : nat) :=
  vars_algo E P md tt n epochs true (ret tt) (orca_oa_evolve n_removes r0 n epochs).

(** ** human_based/PO.py *)
(** The winner of constituency [j] (137-143), the least fit member of party [r] (181-188). *)
Definition po_winner (m : nat) (fits : list f64) (j : nat) : res nat :=
  let c := map (fun i => vget fits (i * m + j)) (seq 0 m) in
  let* i := (match p_mm P with Min => np_argmin c | _ => np_argmax c end) in
  Ok (i * m + j)%nat.
Definition po_least (m : nat) (fits : list f64) (r : nat) : res nat :=
  let c := slice (r * m) (r * m + m) fits in
  let* i := (match p_mm P with Min => np_argmax c | _ => np_argmin c end) in
  Ok (r * m + i)%nat.
(** Election campaign (157-174) with rppus_update (84-120): positions are amended, not corrected.  The previous
    population, read by the formula only, is left out. *)
Definition po_campaign (n : nat) : M (list (agent unit)) :=
  p <- get_pop ;;
  for_acc n 0 p (fun k l =>
    x <- fm "PO:158-171" (map sol l) ;;
    y <- amend_clip P x ;;
    a <- lift (getitem l k) ;;
    ret (upd l k (mkAgent y (tgt a) tt))).
(** Party switching (177-194). *)
Definition po_switch (m n : nat) (l : list (agent unit)) (fits : list f64) : M (list (agent unit)) :=
  lam <- get_x ;;
  r <- for_acc n 0 (l, fits) (fun k lf =>
    u <- uniform E ;;
    if u < lam then
      r <- integers E 0 m ;;
      q <- lift (po_least m (snd lf) r) ;;
      a <- lift (getitem (fst lf) q) ;;
      b <- lift (getitem (fst lf) k) ;;
      let l1 := upd (upd (fst lf) q b) k a in
      let f := snd lf in
      ret (l1, upd (upd f k (vget f q)) q (vget f k))
    else ret lf) ;;
  ret (fst r).
(** OriginalPO.evolve (146-221); [m] is pop_n, pop_size is m * m; the kept number is lam.  The leaders (130-136) are read by
    the campaign formula only. *)
Definition po_evolve (lamda_max : f64) (m epochs ep : nat) : M unit :=
  let n := (m * m)%nat in
  fits <- all_fits ;;
  replace_list P md (l <- po_campaign n ;; po_switch m n l fits) ;;;
  new <- all_fits ;;
  for_ m (fun j =>
    cj <- lift (po_winner m new j) ;;
    r <- choice1 E (others m [j]) ;;
    cr <- lift (po_winner m new r) ;;
    xr <- pop_sol cr ;;
    xj <- pop_sol cj ;;
    u <- uniform E ;;
    try_improve P correct gea cj (vtab P (fun d => xr.[d] + (#2 * u - #1) * fabs (xr.[d] - xj.[d])))) ;;;
  lam <- get_x ;;
  set_x (lam - lamda_max / fnat epochs).
(** before_main_loop (78-82). *)
Definition original_po (lamda_max : f64) (m epochs : nat) :=
  agent_algo E md gea (ga_of P gea) (m * m)%nat epochs false (ret tt) (set_x lamda_max) (po_evolve lamda_max m epochs).
End Number.

(** * Classes that keep arrays between epochs *)
Section Arrays.
Variable E : env.
Variable P : problem.
Variable md : mode.
Notation gea := (generate_empty_agent (A := unit) (X := list f64) P tt).
Notation correct := (correct_solution P).
Notation M := (M unit (list f64)).
Notation fm := (rform E P).

(** ** physics_based/KOA.py *)
(** OriginalKOA.evolve (79-184); the kept array holds orbital and period.  The attribute velocities is written but never
    read. *)
Definition koa_evolve (mu0 lamda tc : f64) (n epochs ep : nat) : M unit :=
  xs <- all_sols ;;
  fits <- all_fits ;;
  g <- gb_sol ;;
  gf <- gb_fit ;;
  orb <- get_x ;;
  mass <- rlist E (5 * n)%nat "KOA:98-126" [orb; fits; g; List.concat xs; [gf; mu0; lamda; fnat ep; fnat epochs]] ;;
  greedy_each P md correct gea n true (fun idx =>
    a <- integers E 0 n ;;
    b <- integers E 0 n ;;
    xa <- lift (getitem xs a) ;;
    xb <- lift (getitem xs b) ;;
    x <- lift (getitem xs idx) ;;
    c <- rtest E "KOA:142" [] ;;
    if c : bool then fm "KOA:144-147" [[fnat ep; fnat idx; tc]; xa; xb; x; g] else fm "KOA:150-171" [[fnat idx]; mass; xa; xb; x; g]).
(** initialize_variables (73-77). *)
Definition original_koa (mu0 lamda tc : f64) (n epochs : nat) :=
  vars_algo E P md tt n epochs false (o <- rlist E (2 * n)%nat "KOA:75-76" [] ;; set_x o) (koa_evolve mu0 lamda tc n epochs).

(** ** swarm_based/DMOA.py, not parallelizable *)
(** The alpha female (90-94, 200-206). *)
Definition dmoa_alpha (fits : list f64) : M nat :=
  roulette E P (map (fun f => exp_ E (fneg f / fmean fits)) fits).
(** One move with the count of failures C[idx] (100-104, 112-118 and 212-216, 226-232); the kept array is C. *)
Definition dmoa_try (idx : nat) (x : vec) : M (f64 * f64) :=
  a <- gen_agent P correct gea x ;;
  old <- pop_at idx ;;
  c <- lift (compare_agents a old (p_mm P)) ;;
  fa <- lift (fitness a) ;;
  fo <- lift (fitness old) ;;
  (if c : bool then pop_set idx a else (cs <- get_x ;; set_x (upd cs idx (vget cs idx + #1)))) ;;;
  ret (fa, fo).
Definition dmoa_forage (peep : f64) (n : nat) (fits : list f64) : M unit :=
  for_ n (fun idx =>
    al <- dmoa_alpha fits ;;
    k <- choice1 E (others n [idx; al]) ;;
    xa <- pop_sol al ;;
    xk <- pop_sol k ;;
    x <- fm "DMOA:97-98" [[peep]; xa; xk] ;;
    dmoa_try idx x ;;;
    ret tt).
Definition dmoa_scout (peep eps : f64) (n : nat) : M (list f64) :=
  collect n (fun idx =>
    k <- choice1 E (others n [idx]) ;;
    xi <- pop_sol idx ;;
    xk <- pop_sol k ;;
    x <- fm "DMOA:109-110" [[peep]; xi; xk] ;;
    f <- dmoa_try idx x ;;
    ret ((fst f - snd f) / (fmaxl [fst f; snd f] + eps))).
(** Baby sitters (119-123, 234-238). *)
Definition dmoa_sit (m : nat) (limit : f64) : M unit :=
  for_ m (fun idx =>
    cs <- get_x ;;
    c <- lift (getitem cs idx) ;;
    when (limit <= c) (
      a <- random_agent P gea ;;
      pop_set idx a ;;;
      set_x (upd cs idx (#0)))).
(** OriginalDMOA.evolve (81-135); [limit] is L (79).  The attribute tau (78, 129-133) is part of the formula. *)
Definition dmoa_evolve (sitters : nat) (peep limit : f64) (n epochs ep : nat) : M unit :=
  fits <- all_fits ;;
  dmoa_forage peep n fits ;;;
  sm <- dmoa_scout peep (#0) n ;;
  dmoa_sit sitters limit ;;;
  for_ n (fun idx =>
    x <- pop_sol idx ;;
    s <- lift (getitem sm idx) ;;
    y <- fm "DMOA:127-132" [[s; fmean sm; peep; fnat ep / fnat epochs]; x] ;;
    a <- gen_agent P correct gea y ;;
    pop_set idx a).
Definition original_dmoa (sitters : nat) (peep limit : f64) (n epochs : nat) :=
  vars_algo E P md tt n epochs false (c <- ret (repeat (#0) n) ;; set_x c) (dmoa_evolve sitters peep limit n epochs).
(** DevDMOA.evolve (191-251). *)
Definition dev_dmoa_evolve (peep limit : f64) (n epochs ep : nat) : M unit :=
  fits <- all_fits ;;
  dmoa_forage peep n fits ;;;
  sm <- dmoa_scout peep (dec 1 1000000000) n ;;
  dmoa_sit n limit ;;;
  for_ n (fun idx =>
    x <- pop_sol idx ;;
    g <- gb_sol ;;
    s <- lift (getitem sm idx) ;;
    y <- fm "DMOA:243-247" [[s; fmean sm; peep; fnat ep / fnat epochs]; x; g] ;;
    try_improve P correct gea idx y).
Definition dev_dmoa (peep limit : f64) (n epochs : nat) :=
  vars_algo E P md tt n epochs false (c <- ret (repeat (#0) n) ;; set_x c) (dev_dmoa_evolve peep limit n epochs).
End Arrays.

(** ** swarm_based/BSA.py *)
(** The attributes local_solution and local_target; the latter is missing until generate_agent sets it. *)
Record bird := mkBird { b_loc : vec; b_tgt : option target }.
Section BSA.
Variable E : env.
Variable P : problem.
Variable md : mode.
Notation correct := (correct_solution P).
Notation M := (M bird unit).
Notation fm := (rform E P).
(** generate_empty_agent (98-102), generate_agent (104-108). *)
Definition bsa_gea := gea_with (A := bird) (X := unit) P (fun x => ret (mkBird x None)).
Definition bsa_ga (o : option vec) : M (agent bird) :=
  a <- bsa_gea o ;;
  t <- get_target P (sol a) ;;
  ret (mkAgent (sol a) (Some t) (mkBird (b_loc (att a)) (Some t))).
(** fit_list (118): AttributeError without a local target. *)
Definition bsa_fits (p : list (agent bird)) : res (list f64) :=
  map_res (fun a => match b_tgt (att a) with Some t => Ok (t_fit t) | None => Err AttributeError end) p.
(** [agent = self.pop[i].copy(); agent.solution = self.correct_solution(x)]. *)
Definition bsa_copy (i : nat) (x : vec) : M (agent bird) :=
  a <- pop_at i ;;
  y <- correct x ;;
  ret (mkAgent y (tgt a) (att a)).
(** Lines 122-145. *)
Definition bsa_fly (c1 c2 a1 a2 pff : f64) (n : nat) (p : list (agent bird)) (fits : list f64) : M unit :=
  greedy_agents P md n true (fun idx =>
    a <- pop_at idx ;;
    g <- gb_sol ;;
    c <- rtest E "BSA:126-127" [[pff]] ;;
    x <- (if c : bool then fm "BSA:128-130" [[c1; c2]; sol a; b_loc (att a); g]
          else
            k <- choice1 E (others n [idx]) ;;
            fm "BSA:132-137" [[a1; a2; vget fits idx; vget fits k; fsuml fits; fnat n]; sol a; mean_sol P p; g]) ;;
    b <- bsa_copy idx x ;;
    ret (idx, b)).
(** Lines 147-197: producers and scroungers.  [h] is int(pop_size / 2); with pop_size even 0.5 * pop_size is [h], otherwise it
    lies between [h] and [h + 1].  The agent of lines 187-189 is not used. *)
Definition bsa_upd (i : nat) (x : vec) (l : list (agent bird)) : M (list (agent bird)) :=
  a <- bsa_copy i x ;; ret (upd l i a).
Definition bsa_producer (i : nat) (l : list (agent bird)) : M (list (agent bird)) :=
  xi <- pop_sol i ;; x <- fm "BSA:164" [xi; p_lb P; p_ub P] ;; bsa_upd i x l.
Definition bsa_scrounger (fc : f64) (lo hi i : nat) (l : list (agent bird)) : M (list (agent bird)) :=
  k <- integers E lo hi ;;
  xi <- pop_sol i ;;
  xk <- pop_sol k ;;
  x <- fm "BSA:175-177" [[fc]; xi; xk] ;;
  bsa_upd i x l.
Definition bsa_choose (n imin imax : nat) : nat :=
  let low i := (2 * i <? n)%nat in
  let high i := (n <? 2 * i)%nat in
  if low imin && low imax then 1
  else if high imin && low imax then 2
  else if low imin && high imax then 3
  else if high imin && high imax then 4
  else 0.
Definition bsa_groups (fc : f64) (n : nat) (fits : list f64) : M (list (agent bird)) :=
  p <- get_pop ;;
  imin <- lift (np_argmin fits) ;;
  imax <- lift (np_argmax fits) ;;
  let choose := bsa_choose n imin imax in
  let h := (n / 2)%nat in
  if (choose <? 3)%nat then
    l1 <- for_list (seq (h + 1) (n - (h + 1)))%nat p (fun i l => bsa_producer i l) ;;
    l2 <- (if (choose =? 1)%nat then bsa_producer imin l1 else ret l1) ;;
    for_list (seq 0 h) l2 (fun i l =>
      if (choose =? 2)%nat || negb (imin =? i)%nat then bsa_scrounger fc (h + 1)%nat n i l else ret l)
  else
    l1 <- for_list (seq 0 h) p (fun i l => bsa_producer i l) ;;
    when (choose =? 4)%nat (xi <- pop_sol imin ;; x <- fm "BSA:188" [xi; p_lb P; p_ub P] ;; bsa_copy imin x ;;; ret tt) ;;;
    for_list (seq (h + 1) (n - (h + 1)))%nat l1 (fun i l =>
      if (choose =? 3)%nat || negb (imin =? i)%nat then bsa_scrounger fc 0 h i l else ret l).
(** OriginalBSA.evolve (110-203). *)
Definition bsa_evolve (ff : nat) (c1 c2 a1 a2 pff fc : f64) (n ep : nat) : M unit :=
  p <- get_pop ;;
  fits <- lift (bsa_fits p) ;;
  if negb (ep mod ff =? 0)%nat then bsa_fly c1 c2 a1 a2 pff n p fits
  else
    l <- bsa_groups fc n fits ;;
    new <- evaluate_all P md l ;;
    p1 <- get_pop ;;
    q <- lift (greedy_selection_population p1 new (p_mm P)) ;;
    set_pop q.
Definition original_bsa (ff : nat) (c1 c2 a1 a2 pff fc : f64) (n epochs : nat) :=
  agent_algo E md bsa_gea bsa_ga n epochs false (ret tt) (ret tt) (bsa_evolve ff c1 c2 a1 a2 pff fc n).
End BSA.
