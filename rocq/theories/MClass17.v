(** Model of mealpy's algorithm classes, part 17: classes whose initialization makes more than the population.  The conventions are those of
    MClass1. *)
From Verif Require Import Prelude Fl MCore MHelp MAlg MAlg2 MAlg3 MAlg4 MAlg5 MAlg6 MAlg7.
Local Open Scope f_scope.

(** ** swarm_based/DBO.py *)
Section DBO.
Variable E : env.
Variable P : problem.
Variable md : mode.
Notation gea := (generate_empty_agent (A := unit) (X := list vec) P tt).
Notation correct := (correct_solution P).
Notation M := (M unit (list vec)).
Notation fm := (rform E P).
(** initialization (swarm_based/DBO.py:74-79), after the default one: the previous positions are set on the first call only.  The
    empty list stands for None. *)
Definition dbo_more : M unit :=
  x <- get_x ;;
  match x with [] => xs <- all_sols ;; set_x xs | _ :: _ => ret tt end.
(** evolve (DBO.py:81-158).  The previous position (149) is stored before the correction of the new one (146). *)
Definition dbo_evolve (kk bb ss : f64) (n epochs ep : nat) : M unit :=
  p <- get_pop ;;
  '(_, best, worst) <- special E P p 1 1 ;;
  b <- lift (getitem best 0) ;;
  w <- lift (getitem worst 0) ;;
  greedy_each P md correct gea n true (fun idx =>
    xc <- pop_sol idx ;;
    prev <- get_x ;;
    pv <- lift (getitem prev idx) ;;
    gb <- gb_sol ;;
    x <- fm "DBO:95-144" [xc; pv; sol b; sol w; gb; [kk; bb; ss; fnat ep; fnat epochs; fnat idx]] ;;
    set_x (upd prev idx xc) ;;;
    ret x).
Definition original_dbo (kk bb ss : f64) (n epochs : nat) :=
  with_init (agent_algo E md gea (ga_of P gea) n epochs true (ret tt) (ret tt) (dbo_evolve kk bb ss n epochs)) dbo_more.
End DBO.

(** ** bio_based/BCO.py *)
Section BCO.
Variable E : env.
Variable P : problem.
Notation gea := (generate_empty_agent (A := unit) (X := list (agent unit)) P tt).
Notation correct := (correct_solution P).
Notation M := (M unit (list (agent unit))).
(** initialization (bio_based/BCO.py:79-83), after the default one. *)
Definition bco_more : M unit := p <- get_pop ;; set_x p.
Definition bco_local (idx : nat) : M (agent unit) := l <- get_x ;; lift (getitem l idx).
Definition bco_set (idx : nat) (a : agent unit) : M unit := l <- get_x ;; set_x (upd l idx a).
(** The swimming loop (BCO.py:109-120): the target is computed for the position before correction (119). *)
Fixpoint bco_swim (fuel idx : nat) (step : f64) (dir : vec) (a : agent unit) : M unit :=
  match fuel with
  | O => ret tt
  | S k =>
    old <- pop_at idx ;;
    c <- lift (compare_agents a old (p_mm P)) ;;
    when c
      (pop_set idx a ;;;
       loc <- bco_local idx ;;
       d <- lift (compare_agents a loc (p_mm P)) ;;
       when d (bco_set idx a) ;;;
       let pos := vtab P (fun j => (sol a).[j] + step * dir.[j]) in
       y <- correct pos ;;
       t <- get_target P pos ;;
       bco_swim k idx step dir (mkAgent y (Some t) tt))
  end.
(** Chemotaxis (BCO.py:96-120); [generator.choice([0, 1])] is an integer draw. *)
Definition bco_chemotaxis (step : f64) (swim idx : nat) : M unit :=
  f <- integers E 0 2 ;;
  gb <- gb_sol ;;
  xi <- pop_sol idx ;;
  loc <- bco_local idx ;;
  let dir := vtab P (fun j => fnat f * (gb.[j] - xi.[j]) + (#1 - fnat f) * ((sol loc).[j] - xi.[j])) in
  u <- uvec E P ;;
  let turb := vtab P (fun j => fZ (-1) + #2 * u.[j]) in
  a <- gen_agent P correct gea (vtab P (fun j => xi.[j] + step * (dir.[j] + turb.[j]))) ;;
  bco_swim swim idx step dir a.
(** Exchange (BCO.py:123-148). *)
Definition bco_exchange (n idx : nat) : M unit :=
  kind <- integers E 0 2 ;;
  if (kind =? 0)%nat then
    u <- uniform E ;;
    nb <- (if u < dec 1 2 then
             (if (idx =? 0)%nat then ret 1%nat
              else if (idx =? n - 1)%nat then ret (n - 2)%nat
              else v <- uniform E ;; ret (if v < dec 1 2 then S idx else (idx - 1)%nat))
           else choice1 E (others n [idx])) ;;
    a <- pop_at nb ;;
    old <- pop_at idx ;;
    c <- lift (compare_agents a old (p_mm P)) ;;
    when c (pop_set idx a)
  else
    gb <- get_gb ;;
    old <- pop_at idx ;;
    c <- lift (compare_agents gb old (p_mm P)) ;;
    when c
      (a <- gen_agent P correct gea (vtab P (fun j => (sol old).[j] + dec 1 10 * ((sol gb).[j] - (sol old).[j]))) ;;
       d <- lift (compare_agents a old (p_mm P)) ;;
       when d (pop_set idx a)).
(** evolve (BCO.py:85-167). *)
Definition bco_evolve (cmin cmax : f64) (nc swim : nat) (pmig : f64) (n epochs ep : nat) : M unit :=
  let step := cmin + (cmax - cmin) * pow_ E (#1 - fnat ep / fnat epochs) (fnat nc) in
  for_ n (bco_chemotaxis step swim) ;;;
  for_ n (bco_exchange n) ;;;
  when (ep mod 10 =? 0)%nat
    (p <- get_pop ;;
     '(sp, _) <- lift (get_sorted_population (e_argsort E) p (p_mm P)) ;;
     set_pop sp ;;;
     for_ (n - n / 2)%nat (fun i =>
       a <- pop_at (n / 2 + i - n / 2)%nat ;;
       pop_set (n / 2 + i)%nat a ;;;
       loc <- bco_local (n / 2 + i - n / 2)%nat ;;
       bco_set (n / 2 + i)%nat loc)) ;;;
  when (ep mod 50 =? 0)%nat
    (for_ n (fun idx =>
       u <- uniform E ;;
       when (u < pmig)
         (x <- uniform_box E P ;;
          a <- gen_at P gea x ;;
          pop_set idx a ;;;
          bco_set idx a))).
Definition original_bco (cmin cmax : f64) (nc swim : nat) (pmig : f64) (n epochs : nat) :=
  with_init (agent_algo E Single gea (ga_of P gea) n epochs false (ret tt) (ret tt) (bco_evolve cmin cmax nc swim pmig n epochs)) bco_more.
End BCO.

(** ** physics_based/EFO.py *)
(** [int(...)] of a product of the population size. *)
Definition part (n : nat) (x : f64) : nat := Z.to_nat (ftrunc (fnat n * x)).
Section EFO.
Variable E : env.
Variable P : problem.
Variable md : mode.
Notation gea := (generate_empty_agent (A := unit) (X := unit) P tt).
Notation correct := (correct_solution P).
Notation M := (M unit unit).
Notation fm := (rform E P).
(** The three fields (physics_based/EFO.py:90-92): indexes from the top, the bottom and the middle of the population. *)
Definition efo_top (n : nat) (pf : f64) : nat := part n pf.
Definition efo_bottom (n : nat) (nf : f64) : nat := part n (#1 - nf).
Definition efo_middle (n : nat) (pf : f64) : nat := Z.to_nat (ftrunc (fnat n * pf + #1)).
(** DevEFO.evolve (EFO.py:81-112). *)
Definition dev_efo_evolve (rr ps pf nf : f64) (n ep : nat) : M unit :=
  greedy_each P md correct gea n true (fun idx =>
    i1 <- integers E 0 (efo_top n pf) ;;
    i2 <- integers E (efo_bottom n nf) n ;;
    i3 <- integers E (efo_middle n pf) (efo_bottom n nf) ;;
    u <- uniform E ;;
    x <- (if u < ps then
            gb <- gb_sol ;;
            x1 <- pop_sol i1 ;; x2 <- pop_sol i2 ;; x3 <- pop_sol i3 ;;
            fm "EFO:94-95" [gb; x1; x2; x3]
          else y <- random_solution P ;; ret (vtab P (fun i => y.[i]))) ;;
    v <- uniform E ;;
    if v < rr then
      ri <- integers E 0 (n_dims P) ;;
      j <- integers E 0 (n_dims P) ;;
      z <- uniform_in E (p_lb P).[ri] (p_ub P).[ri] ;;
      ret (vtab P (fun i => if (i =? j)%nat then z else x.[i]))
    else ret (vtab P (fun i => x.[i]))).
Definition dev_efo (rr ps pf nf : f64) (n epochs : nat) :=
  plain_algo E P md tt n epochs true (dev_efo_evolve rr ps pf nf n).
(** OriginalEFO.evolve (EFO.py:208-236).  The numbers drawn for all epochs in initialization (186-206) are drawn here, those of one
    epoch at a time.  The variable that is replaced is always the first one, since self.RI is never increased (228). *)
Definition efo_evolve (rr ps pf nf : f64) (n ep : nat) : M unit :=
  r <- uniform E ;;
  x <- dims P (fun j =>
    i1 <- integers E 0 (efo_top n pf) ;;
    i2 <- integers E (efo_bottom n nf) n ;;
    i3 <- integers E (efo_middle n pf) (efo_bottom n nf) ;;
    u <- uniform E ;;
    x1 <- pop_sol i1 ;;
    if ps < u then
      x2 <- pop_sol i2 ;; x3 <- pop_sol i3 ;;
      ret (x3.[j] + (#1 + sqrt_ E #5) / #2 * r * (x1.[j] - x3.[j]) + r * (x3.[j] - x2.[j]))
    else ret x1.[j]) ;;
  v <- uniform E ;;
  z <- uniform_in E (p_lb P).[0%nat] (p_ub P).[0%nat] ;;
  a <- gen_agent P (correct_solution_with P (amend_random E P)) gea (if v < rr then vtab P (fun i => if (i =? 0)%nat then z else x.[i]) else vtab P (fun i => x.[i])) ;;
  pop_set (n - 1)%nat a.
Definition original_efo (rr ps pf nf : f64) (n epochs : nat) :=
  plain_algo E P md tt n epochs true (efo_evolve rr ps pf nf n).
End EFO.

(** ** physics_based/HGSO.py *)
Section HGSO.
Variable E : env.
Variable P : problem.
Variable md : mode.
Notation gea := (generate_empty_agent (A := unit) (X := unit) P tt).
Notation correct := (correct_solution P).
Notation M := (M unit unit).
Notation fm := (rform E P).
(** One cluster (physics_based/HGSO.py:105-120).  The groups and their best agents, which are computed at the end of the previous epoch
    (146-147) or in initialization (79-80), are computed here from the population, which is unchanged since; the gas constants
    of initialize_variables (70-74) are part of the abstract formula. *)
Definition hgso_cluster (m ep epochs : nat) (group : list (agent unit)) : M (list (agent unit)) :=
  '(b, _) <- lift (get_best_agent (e_argsort E) group (p_mm P)) ;;
  fb <- lift (fitness b) ;;
  new_agents P md correct gea m (fun j =>
    a <- lift (getitem group j) ;;
    fa <- lift (fitness a) ;;
    gb <- gb_sol ;;
    fm "HGSO:107-113" [sol a; sol b; gb; [fa; fb; fnat ep; fnat epochs]]).
(** Number of agents replaced by random ones (HGSO.py:128). *)
Definition hgso_worst (n : nat) (u : f64) : nat := Z.to_nat (ftrunc (fnat n * (dec 1 10 * u + dec 1 10))).
(** evolve (HGSO.py:95-147). *)
Definition hgso_next (k m n epochs ep : nat) : M (list (agent unit)) :=
  p <- get_pop ;;
  q <- for_acc k 0 [] (fun idx acc =>
    new <- hgso_cluster m ep epochs (slice (idx * m) (S idx * m) p) ;;
    ret (acc ++ new)%list) ;;
  u <- uniform E ;;
  fits <- lift (map_res fitness q) ;;
  let ix := e_argsort E fits in
  new <- new_agents P md correct gea (hgso_worst n u) (fun item =>
    id <- lift (getitem ix item) ;;
    uniform_box E P) ;;
  ret (fold_left (fun l '(id, a) => upd l id a) (combine ix new) q).
Definition hgso_evolve (k m n epochs ep : nat) : M unit := q <- hgso_next k m n epochs ep ;; set_pop q.
Definition original_hgso (k n epochs : nat) :=
  plain_algo E P md tt n epochs false (hgso_evolve k (n / k)%nat n epochs).
End HGSO.

(** ** swarm_based/COA.py *)
Section COA.
Variable E : env.
Variable P : problem.
Variable md : mode.
Notation A := Z.
Notation correct := (correct_solution P).
Notation M := (M Z unit).
Notation fm := (rform E P).
(** generate_empty_agent (swarm_based/COA.py:80-84). *)
Definition coa_gea := gea_with (A := Z) (X := unit) P (fun _ => ret 1%Z).
(** Python's [sorted] by age, ascending or with reverse=True (COA.py:134-137): stable. *)
Fixpoint age_insert (before : Z -> Z -> bool) (a : agent Z) (l : list (agent Z)) : list (agent Z) :=
  match l with
  | [] => [a]
  | b :: r => if before (att b) (att a) then b :: age_insert before a r else a :: l
  end.
Definition age_sort (mm : minmax) (l : list (agent Z)) : list (agent Z) :=
  fold_right (age_insert (match mm with Min => Z.ltb | _ => fun x y => Z.ltb y x end)) [] l.
(** One pack (COA.py:96-140). *)
Definition coa_pack (c : nat) (group : list (agent Z)) : M (list (agent Z)) :=
  '(g, _) <- lift (get_sorted_population (e_argsort E) group (p_mm P)) ;;
  new <- made_agents P md c (fun i =>
    '(r1, r2) <- choose2 E (others c [i]) ;;
    ai <- lift (getitem g i) ;;
    al <- lift (getitem g 0) ;;
    a1 <- lift (getitem g r1) ;;
    a2 <- lift (getitem g r2) ;;
    x <- fm "COA:99-107" (sol ai :: sol al :: sol a1 :: sol a2 :: map sol g) ;;
    a <- propose correct coa_gea x ;;
    ret (with_att a (att ai))) ;;
  g' <- lift (greedy_selection_population g new (p_mm P)) ;;
  '(i1, i2) <- choose2 E (seq 0 c) ;;
  d <- lift (getitem g' i1) ;;
  m <- lift (getitem g' i2) ;;
  x <- fm "COA:122-126" [sol d; sol m] ;;
  a <- gen_agent P correct coa_gea x ;;
  '(packs, _) <- lift (get_sorted_population (e_argsort E) g' (p_mm P)) ;;
  last <- lift (last_item packs) ;;
  t <- lift (compare_agents a last (p_mm P)) ;;
  if t then ret (upd (age_sort (p_mm P) packs) (c - 1)%nat a) else ret g'.
(** evolve (COA.py:86-153).  The packs are the consecutive parts of the population (76, 153).  p_leave is 0.005 * n_coyotes ** 2. *)
Definition coa_next (k c : nat) : M (list (agent Z)) :=
  p <- get_pop ;;
  packs <- for_acc k 0 [] (fun i acc =>
    g <- coa_pack c (slice (i * c) (S i * c) p) ;;
    ret (acc ++ [g])%list) ;;
  packs <-
    (if (1 <? k)%nat then
       u <- uniform E ;;
       if u < dec 5 1000 * fZ (Z.of_nat c * Z.of_nat c) then
         '(p1, p2) <- choose2 E (seq 0 k) ;;
         '(c1, c2) <- choose2 E (seq 0 c) ;;
         g1 <- lift (getitem packs p1) ;;
         g2 <- lift (getitem packs p2) ;;
         a1 <- lift (getitem g1 c1) ;;
         a2 <- lift (getitem g2 c2) ;;
         ret (upd (upd packs p1 (upd g1 c1 a2)) p2 (upd g2 c2 a1))
       else ret packs
     else ret packs) ;;
  ret (map (fun a => with_att a (att a + 1)%Z) (List.concat packs)).
Definition coa_evolve (k c ep : nat) : M unit := q <- coa_next k c ;; set_pop q.
Definition original_coa (c n epochs : nat) :=
  agent_algo E md coa_gea (ga_of P coa_gea) n epochs false (ret tt) (ret tt) (coa_evolve (n / c)%nat c).
End COA.

(** ** swarm_based/SFO.py *)
Section SFO.
Variable E : env.
Variable P : problem.
Variable md : mode.
Notation gea := (generate_empty_agent (A := unit) (X := list (agent unit)) P tt).
Notation correct := (correct_solution P).
Notation M := (M unit (list (agent unit))).
Notation fm := (rform E P).
(** initialization (swarm_based/SFO.py:76-80), after the default one: [k] sardines.  Their best is computed where it is used. *)
Definition sfo_more (k : nat) : M unit := l <- generate_population_with E md (ga_of P gea None) k ;; set_x l.
(** The best sardine: s_gbest (SFO.py:80, 151). *)
Definition sfo_best : M vec :=
  l <- get_x ;;
  '(b, _) <- lift (get_best_agent (e_argsort E) l (p_mm P)) ;;
  ret (sol b).
(** A sardine moves (SFO.py:119-123, 128-132): in the parallel modes the new agent is dropped. *)
Definition sfo_move (sp : list (agent unit)) (idx : nat) (x : vec) : M (list (agent unit)) :=
  a <- propose correct gea x ;;
  if is_avail md then ret sp
  else a' <- evaluate P a ;; ret (upd sp idx a').
(** The sardines are evaluated again in the parallel modes, both populations are sorted, the best sardine left is compared with each sailfish in turn, and new
    sardines replace the eaten ones (SFO.py:134-151).  [one]: a single missing sardine is made by generate_agent (147-148). *)
Definition sfo_hunt (one : bool) (n k : nat) (sp : list (agent unit)) : M unit :=
  sp <- update_target_for_population P md sp ;;
  p <- get_pop ;;
  q <- lift (get_sorted_and_trimmed_population (e_argsort E) p n (p_mm P)) ;;
  set_pop q ;;;
  sp <- lift (get_sorted_and_trimmed_population (e_argsort E) sp (List.length sp) (p_mm P)) ;;
  sp <- for_acc n 0 sp (fun idx sp =>
    a <- lift (getitem sp 0) ;;
    old <- pop_at idx ;;
    c <- lift (compare_agents a old (p_mm P)) ;;
    if c then pop_set idx a ;;; ret (tl sp) else ret sp) ;;
  let temp := (k - List.length sp)%nat in
  new <- (if (one && (temp =? 1)%nat)%bool then a <- ga_of P gea None ;; ret [a]
          else generate_population_with E md (ga_of P gea None) temp) ;;
  set_x (sp ++ new)%list.
(** The attack power (SFO.py:107). *)
Definition sfo_power (ap eps : f64) (ep : nat) : f64 := ap * (#1 - #2 * fnat ep * eps).
(** The dimensions in which a sardine moves (SFO.py:110, 117). *)
Definition sfo_dims (ap eps : f64) (ep : nat) : M (list nat) :=
  choice_noreplace E (seq 0 (n_dims P)) (part (n_dims P) (fabs (sfo_power ap eps ep))).
(** The sardines move (SFO.py:108-132), with the draw of the dimensions as an argument. *)
Definition sfo_sardines (choose : M (list nat)) (ap eps : f64) (k ep : nat) : M (list (agent unit)) :=
  sb <- sfo_best ;;
  sp <- get_x ;;
  if sfo_power ap eps ep < dec 1 2 then
    list1 <- repeat_M (part k (fabs (sfo_power ap eps ep))) (integers E 0 k) ;;
    for_acc k 0 sp (fun idx sp =>
      if existsb (Nat.eqb idx) list1 then
        a <- lift (getitem sp idx) ;;
        list2 <- choose ;;
        x <- fm "SFO:118" [sol a; sb; map fnat list2; [sfo_power ap eps ep]] ;;
        sfo_move sp idx x
      else ret sp)
  else
    for_acc k 0 sp (fun idx sp =>
      a <- lift (getitem sp idx) ;;
      gb <- gb_sol ;;
      x <- fm "SFO:127" [sol a; gb; [sfo_power ap eps ep]] ;;
      sfo_move sp idx x).
(** OriginalSFO.evolve (SFO.py:82-151). *)
Definition sfo_phases (choose : M (list nat)) (ap eps : f64) (n k ep : nat) : M unit :=
  greedy_each P md correct gea n false (fun idx =>
    xi <- pop_sol idx ;;
    sb <- sfo_best ;;
    fm "SFO:92-96" [xi; sb; [fnat n; fnat k]]) ;;;
  sp <- sfo_sardines choose ap eps k ep ;;
  sfo_hunt true n k sp.
Definition sfo_evolve (ap eps : f64) (n k ep : nat) : M unit := sfo_phases (sfo_dims ap eps ep) ap eps n k ep.
Definition original_sfo (ap eps : f64) (k n epochs : nat) :=
  with_init (agent_algo E md gea (ga_of P gea) n epochs true (ret tt) (ret tt) (sfo_evolve ap eps n k)) (sfo_more k).
(** ImprovedSFO.evolve (SFO.py:209-268). *)
Definition isfo_sardines (k epochs ep : nat) : M (list (agent unit)) :=
  sp <- get_x ;;
  for_acc k 0 sp (fun idx sp =>
    a <- lift (getitem sp idx) ;;
    gb <- gb_sol ;;
    x <- fm "SFO:235-248" [sol a; gb; [fnat ep; fnat epochs]] ;;
    sfo_move sp idx x).
Definition isfo_evolve (n k epochs ep : nat) : M unit :=
  greedy_each P md correct gea n false (fun idx =>
    gb <- gb_sol ;;
    xi <- pop_sol idx ;;
    sb <- sfo_best ;;
    fm "SFO:220-223" [gb; xi; sb; [fnat n; fnat k]]) ;;;
  sp <- isfo_sardines k epochs ep ;;
  sfo_hunt false n k sp.
Definition improved_sfo (k n epochs : nat) :=
  with_init (agent_algo E md gea (ga_of P gea) n epochs true (ret tt) (ret tt) (isfo_evolve n k epochs)) (sfo_more k).
End SFO.

(** ** human_based/SARO.py *)
Section SARO.
Variable E : env.
Variable P : problem.
Variable md : mode.
Notation gea := (generate_empty_agent (A := unit) (X := list nat) P tt).
Notation correct := (correct_solution_with P (amend_random E P)).
Notation M := (M unit (list nat)).
Notation fm := (rform E P).
(** initialize_variables (human_based/SARO.py:71-72) and initialization (74-78). *)
Definition saro_vars (n : nat) : M unit := x <- ret (repeat 0%nat n) ;; set_x x.
Definition saro_init (n : nat) : M unit :=
  p <- get_pop ;;
  match p with
  | [] => l <- generate_population_with E md (ga_of P gea None) (2 * n)%nat ;; set_pop l
  | _ => l <- generate_population_with E md (ga_of P gea None) n ;; set_pop (p ++ l)%list
  end.
(** The comparison after a phase (SARO.py:110-116, 130-139): a better agent replaces the human, whose old position replaces a random
    remembered one; [restart]: after more than [mu] failures in a row the human starts again at random. *)
Definition saro_select (restart : bool) (mu n : nat) (new : list (agent unit)) (xm : list (agent unit) * list (agent unit)) :
    M (list (agent unit) * list (agent unit)) :=
  for_acc n 0 xm (fun idx '(px, pm) =>
    a <- lift (getitem new idx) ;;
    x <- lift (getitem px idx) ;;
    c <- lift (compare_agents a x (p_mm P)) ;;
    usn <- get_x ;;
    r <- (if c then
            j <- integers E 0 n ;;
            set_x (upd usn idx 0%nat) ;;;
            ret (upd px idx a, upd pm j x)
          else
            u <- lift (getitem usn idx) ;;
            set_x (upd usn idx (S u)) ;;;
            ret (px, pm)) ;;
    usn <- get_x ;;
    u <- lift (getitem usn idx) ;;
    if (restart && (mu <? u)%nat)%bool then
      b <- ga_of P gea None ;;
      set_x (upd usn idx 0%nat) ;;;
      ret (upd (fst r) idx b, snd r)
    else ret r).
(** DevSARO.evolve (SARO.py:85-140) and OriginalSARO.evolve (196-266): [social] and [individual] are the names of the formulas. *)
Definition saro_next (social individual : string) (se : f64) (mu n ep : nat) : M (list (agent unit)) :=
  p <- get_pop ;;
  let px := slice 0 n p in
  let pm := slice n (2 * n) p in
  new <- new_agents P md correct gea n (fun idx =>
    k <- choice1 E (others (2 * n) [idx]) ;;
    x <- lift (getitem px idx) ;;
    y <- lift (getitem p k) ;;
    fx <- lift (fitness x) ;;
    fy <- lift (fitness y) ;;
    fm social [sol x; sol y; [fx; fy; se]]) ;;
  '(px, pm) <- saro_select false mu n new (px, pm) ;;
  new <- new_agents P md correct gea n (fun idx =>
    '(k1, k2) <- choose2 E (others (2 * n) [idx]) ;;
    gb <- gb_sol ;;
    x <- lift (getitem px idx) ;;
    y1 <- lift (getitem (px ++ pm)%list k1) ;;
    y2 <- lift (getitem (px ++ pm)%list k2) ;;
    fm individual [gb; sol x; sol y1; sol y2]) ;;
  '(px, pm) <- saro_select true mu n new (px, pm) ;;
  ret (px ++ pm)%list.
Definition saro_evolve (social individual : string) (se : f64) (mu n ep : nat) : M unit := q <- saro_next social individual se mu n ep ;; set_pop q.
Definition saro (social individual : string) (se : f64) (mu n epochs : nat) : algo :=
  mkAlgo n epochs true gea (ga_of P gea) (saro_vars n) (saro_init n) (ret tt) (saro_evolve social individual se mu n).
Definition dev_saro := saro "SARO:98-103" "SARO:123".
Definition original_saro := saro "SARO:209-223" "SARO:243-248".
End SARO.
