(** Model of mealpy's algorithm classes, part 14.  The conventions are those of MClass1. *)
From Verif Require Import Prelude Fl MCore MHelp MAlg MAlg2 MAlg3 MAlg4 MAlg5 MAlg6 MAlg7 MClass12.
Local Open Scope f_scope.

(** ** swarm_based/SRSR.py *)
(** Of the attributes of a robot only target_new is kept: mu and sigma are computed anew before they are read, solution_new is not
    read, target_move is a function of target and target_new.  The attribute sigma_temp and SIF of the optimizer are one array. *)
Section SRSR.
Variable E : env.
Variable P : problem.
Variable md : mode.
Notation correct := (correct_solution P).
Notation M := (M (option target) vec).
Notation fm := (rform E P).
(** generate_empty_agent (59-66): no attribute target_new. *)
Definition srsr_gea := gea_with (A := option target) (X := vec) P (fun _ => ret None).
(** generate_agent (68-72). *)
Definition srsr_ga (o : option vec) : M (agent (option target)) :=
  a <- srsr_gea o ;;
  t <- get_target P (sol a) ;;
  ret (mkAgent (sol a) (Some t) (Some t)).
(** initialize_variables (74-86). *)
Definition srsr_vars (n : nat) : M unit := x <- ret (fnat 2 :: repeat (fnat 0) n) ;; set_x x.
(** generator.normal raises ValueError when a scale (113-114) is negative; the scales follow the sign of SIF, which is set to a
    multiple of the largest upper bound (142). *)
Definition srsr_scale (reads : list vec) : M unit :=
  neg <- rtest E "SRSR:112-116" reads ;; if neg then raise ValueError else ret tt.
(** Lines 126-128 and 164-166 read and set target_new.  They are placed after the replacement of lines 131-133, which does not read it. *)
Definition srsr_new (o : option target) : M target := lift (attr o).
Definition srsr_after (rd : option target -> M target) (idx : nat) (old new : agent (option target)) (c : bool) : M unit :=
  rd (att old) ;;; set_att idx (tgt new).
Definition srsr_copy (idx : nat) (z : vec) : M (agent (option target)) :=
  a <- pop_at idx ;; y <- correct z ;; ret (mkAgent y (tgt a) (att a)).
(** Lines 227-238: worker idx replaces position and target of the agent idx + 1 from the end when it beats agent 1. *)
Definition srsr_worker (n : nat) (ws : list (agent (option target))) (idx : nat) : M unit :=
  w <- lift (getitem ws idx) ;;
  p1 <- pop_at 1 ;;
  c <- lift (compare_agents w p1 (p_mm P)) ;;
  when c (old <- pop_at (n - 1 - idx) ;; pop_set (n - 1 - idx) (mkAgent (sol w) (tgt w) (att old))).
(** OriginalSRSR.evolve (88-238). *)
Definition srsr_phases (scale : list vec -> M unit) (rd : option target -> M target) (n ep : nat) : M unit :=
  accept_batch P md n (fun idx =>
    x <- get_x ;;
    m <- pop_sol 0 ;;
    xi <- pop_sol idx ;;
    scale [x; m; xi] ;;;
    z <- fm "SRSR:99-116" [[fnat ep]; x; m; xi] ;;
    srsr_copy idx z) (srsr_after rd) ;;;
  x <- get_x ;;
  v <- view_fit ;;
  x' <- rlist E (S n) "SRSR:110-112,137-142" (x :: v) ;;
  set_x x' ;;;
  accept_batch P md n (fun idx =>
    m <- pop_sol 0 ;;
    xi <- pop_sol idx ;;
    z <- fm "SRSR:150-154" [m; xi; p_lb P; p_ub P] ;;
    srsr_copy idx z) (srsr_after rd) ;;;
  when (0 <? ep)%nat
    (ws <- new_agents P md correct srsr_gea 5 (fun _ => m <- pop_sol 0 ;; fm "SRSR:180-222" [m; p_lb P; p_ub P]) ;;
     for_ 5 (fun idx => srsr_worker n ws idx)).
Definition original_srsr (n epochs : nat) :=
  agent_algo E md srsr_gea srsr_ga n epochs true (srsr_vars n) (ret tt) (srsr_phases srsr_scale srsr_new n).
End SRSR.

(** ** swarm_based/SSpiderA.py *)
Record spider := mkSpider { sp_target : vec; sp_local : vec; sp_mask : vec; sp_int : option f64 }.
Section SSpiderA.
Variable E : env.
Variable P : problem.
Variable md : mode.
Notation correct := (correct_solution P).
Notation M := (M spider unit).
Notation fm := (rform E P).
(** generate_empty_agent (82-99): no attribute intensity. *)
Definition spider_gea := gea_with (A := spider) (X := unit) P (fun x =>
  ret (mkSpider x (repeat (fnat 0) (n_dims P)) (repeat (fnat 0) (n_dims P)) None)).
(** The intensity of a fitness (110, 141, 148). *)
Definition spider_int (f : f64) : f64 := log_ E (#1 / (fabs f + dec 1 1000000000) + #1).
(** generate_agent (101-111). *)
Definition spider_ga (o : option vec) : M (agent spider) :=
  a <- spider_gea o ;;
  t <- get_target P (sol a) ;;
  let b := att a in
  ret (mkAgent (sol a) (Some t) (mkSpider (sp_target b) (sp_local b) (sp_mask b) (Some (spider_int (t_fit t))))).
(** The copy that moves (129-138). *)
Definition spider_copy (pc pm : f64) (n ibest idx : nat) : M (agent spider) :=
  a <- pop_at idx ;;
  best <- pop_at ibest ;;
  ib <- lift (attr (sp_int (att best))) ;;
  ia <- lift (attr (sp_int (att a))) ;;
  u <- uniform E ;;
  mask <- (if (pc < u)%F then fm "SSpiderA:133" [[pm]] else ret (sp_mask (att a))) ;;
  j <- integers E 0 n ;;
  xj <- pop_sol j ;;
  z <- fm "SSpiderA:134-137" [sol a; sp_mask (att a); sp_target (att a); sp_local (att a); xj] ;;
  y <- correct z ;;
  ret (mkAgent y (tgt a) (mkSpider (if (ia < ib)%F then sp_target (att best) else sp_target (att a)) (sp_local (att a)) mask (sp_int (att a)))).
(** Lines 146-150 for one agent. *)
Definition spider_after (idx : nat) (old new : agent spider) (c : bool) : M unit :=
  when c
    (f <- lift (fitness new) ;;
     lv <- fm "SSpiderA:147" [sol new; sol old] ;;
     set_att idx (mkSpider (sp_target (att old)) lv (sp_mask (att old)) (Some (spider_int f)))).
(** DevSSpiderA.evolve (113-150).  The list is extended in single mode only (142), so in the other modes line 146 finds it empty.
    The intensity given to a member of the list (141) is not read. *)
Definition spider_evolve (ra pc pm : f64) (n ep : nat) : M unit :=
  p <- get_pop ;;
  ints <- lift (map_res (fun a => attr (sp_int (att a))) p) ;;
  xs <- all_sols ;;
  recv <- rlist E n "SSpiderA:120-125" ([ra] :: ints :: xs) ;;
  ibest <- lift (np_argmax recv) ;;
  l <- for_acc n 0 [] (fun idx acc =>
    a <- spider_copy pc pm n ibest idx ;;
    if is_avail md then ret acc
    else a' <- evaluate P a ;; ret (acc ++ [a'])%list) ;;
  l <- update_target_for_population P md l ;;
  for_ n (fun idx =>
    a <- lift (getitem l idx) ;;
    old <- pop_at idx ;;
    c <- lift (compare_agents a old (p_mm P)) ;;
    when c (pop_set idx a) ;;;
    spider_after idx old a c).
Definition dev_spider (ra pc pm : f64) (n epochs : nat) :=
  agent_algo E md spider_gea spider_ga n epochs false (ret tt) (ret tt) (spider_evolve ra pc pm n).
End SSpiderA.

(** ** physics_based/ArchOA.py *)
Record body := mkBody { bd_den : vec; bd_vol : vec; bd_acc : vec }.
Section ArchOA.
Variable E : env.
Variable P : problem.
Variable md : mode.
Notation correct := (correct_solution P).
Notation M := (M body unit).
Notation fm := (rform E P).
(** generate_empty_agent (89-95). *)
Definition arch_gea := gea_with (A := body) (X := unit) P (fun _ =>
  d <- uniform_box E P ;;
  v <- uniform_box E P ;;
  u <- uniform_box E P ;;
  ret (mkBody d v (vtab P (fun j => (p_lb P).[j] + u.[j] * ((p_ub P).[j] - (p_lb P).[j]))))).
(** Lines 112-123: density, volume and the acceleration before it is normalized. *)
Definition arch_update (explore : bool) (n idx : nat) : M vec :=
  a <- pop_at idx ;;
  g <- get_gb ;;
  d <- fm "ArchOA:112" [bd_den (att a); bd_den (att g)] ;;
  v <- fm "ArchOA:113" [bd_vol (att a); bd_vol (att g)] ;;
  c <- (if explore then k <- choice1 E (others n [idx]) ;; pop_at k else ret g) ;;
  acc <- fm "ArchOA:118-120" [bd_den (att c); bd_vol (att c); bd_acc (att c); d; v] ;;
  set_att idx (mkBody d v (bd_acc (att a))) ;;;
  ret acc.
(** Line 128. *)
Definition arch_normal (amax amin : f64) (accs : list vec) (idx : nat) : M unit :=
  a <- pop_at idx ;;
  acc <- fm "ArchOA:124-128" ([amax; amin; fnat idx] :: accs) ;;
  set_att idx (mkBody (bd_den (att a)) (bd_vol (att a)) acc).
(** Lines 132-141. *)
Definition arch_move (pars : vec) (explore : bool) (n idx : nat) : M vec :=
  a <- pop_at idx ;;
  if explore
  then k <- choice1 E (others n [idx]) ;; xk <- pop_sol k ;; fm "ArchOA:134-135" [pars; sol a; bd_acc (att a); xk]
  else g <- gb_sol ;; fm "ArchOA:137-141" [pars; sol a; bd_acc (att a); g].
(** OriginalArchOA.evolve (97-149).  In single mode the position that is evaluated (145) is not the corrected one (142). *)
Definition arch_evolve (pars : vec) (amax amin : f64) (n epochs ep : nat) : M unit :=
  let tf := exp_ E (fnat ep / fnat epochs) in
  let explore := (tf <= dec 5 10)%F in
  accs <- for_acc n 0 [] (fun idx accs => acc <- arch_update explore n idx ;; ret (accs ++ [acc])%list) ;;
  for_ n (fun idx => arch_normal amax amin accs idx) ;;;
  if is_avail md
  then greedy_made P md n (fun idx =>
    a <- pop_at idx ;;
    z <- arch_move (fnat ep :: pars) explore n idx ;;
    y <- correct z ;;
    ret (mkAgent y (tgt a) (att a)))
  else for_ n (fun idx =>
    a <- pop_at idx ;;
    z <- arch_move (fnat ep :: pars) explore n idx ;;
    y <- correct z ;;
    t <- get_target P z ;;
    keep_better P true idx (mkAgent y (Some t) (att a))).
Definition original_arch (pars : vec) (amax amin : f64) (n epochs : nat) :=
  agent_algo E md arch_gea (ga_of P arch_gea) n epochs false (ret tt) (ret tt) (arch_evolve pars amax amin n epochs).
End ArchOA.

(** ** human_based/CHIO.py *)
(** immunity_type_list, age_list and finished. *)
Definition chio := (list nat * list nat * bool)%type.
Section CHIO.
Variable E : env.
Variable P : problem.
Variable md : mode.
Notation gea := (generate_empty_agent (A := unit) (X := chio) P tt).
Notation correct := (correct_solution P).
Notation M := (M unit chio).
(** initialize_variables (69-72). *)
Definition chio_vars (n : nat) : M unit :=
  x <- (imm <- repeat_M n (integers E 0 3) ;; ret (imm, repeat 0%nat n, false)) ;; set_x x.
(** np.where(self.immunity_type_list == k). *)
Definition chio_where (k : nat) (imm : list nat) : list nat :=
  filter (fun i => (nth i imm 3 =? k)%nat) (seq 0 (List.length imm)).
(** A component of the new position (94, 99, 104). *)
Definition chio_mix (i s j : nat) (x : vec) : M vec :=
  xi <- pop_sol i ;;
  xs <- pop_sol s ;;
  u <- uniform E ;;
  ret (upd x j (xi.[j] + u * (xi.[j] - xs.[j]))).
(** Lines 93, 98: ValueError when there is no such agent. *)
Definition chio_pick (c : list nat) : M nat := choice1 E c.
(** Lines 102-103: np.argmin raises ValueError on an empty list. *)
Definition chio_best (c : list nat) : M nat :=
  fs <- for_acc (List.length c) 0 [] (fun k acc => i <- lift (getitem c k) ;; f <- pop_fit i ;; ret (acc ++ [f])%list) ;;
  k <- lift (np_argmin fs) ;;
  lift (getitem c k).
(** Lines 84-104 for agent i: the position, is_corona_list[i] and whether the loop was left (90-92). *)
Definition chio_move (pick best : list nat -> M nat) (brr : f64) (imm : list nat) (i : nat) : M (vec * bool * bool) :=
  xi <- pop_sol i ;;
  for_acc (n_dims P) 0 (xi, false, false) (fun j acc =>
    let '(x, cor, stop) := acc in
    if stop : bool then ret acc
    else
      r <- uniform E ;;
      if (r < #1 / #3 * brr)%F then
        let c := chio_where 1 imm in
        if (List.length c =? 0)%nat then ret (x, cor, true)
        else s <- pick c ;; x' <- chio_mix i s j x ;; ret (x', true, false)
      else if ((#1 / #3 * brr <= r) && (r < #2 / #3 * brr))%F%bool then
        s <- pick (chio_where 0 imm) ;; x' <- chio_mix i s j x ;; ret (x', cor, false)
      else if ((#2 / #3 * brr <= r) && (r < brr))%F%bool then
        s <- best (chio_where 2 imm) ;; x' <- chio_mix i s j x ;; ret (x', cor, false)
      else ret acc).
(** Lines 117-135 for agent idx. *)
Definition chio_update (max_age : nat) (l : list (agent unit)) (cors : list bool) (idx : nat) : M unit :=
  new <- lift (getitem l idx) ;;
  old <- pop_at idx ;;
  c <- lift (compare_agents new old (p_mm P)) ;;
  when c (pop_set idx new) ;;;
  fs <- all_fits ;;
  f <- lift (fitness new) ;;
  '(imm, age, fin) <- get_x ;;
  let age := if c then age else upd age idx (S (nth idx age 0%nat)) in
  let b := (compare_fitness f (fmean fs) (p_mm P) && (nth idx imm 3 =? 0)%nat && nth idx cors false)%bool in
  let imm := if b then upd imm idx 1%nat else imm in
  let age := if b then upd age idx 1%nat else age in
  let b := (compare_fitness (fmean fs) f (p_mm P) && (nth idx imm 3 =? 1)%nat)%bool in
  let imm := if b then upd imm idx 2%nat else imm in
  let age := if b then upd age idx 0%nat else age in
  let b := ((max_age <=? nth idx age 0%nat)%nat && (nth idx imm 3 =? 1)%nat)%bool in
  when b (a <- random_agent P gea ;; pop_set idx a) ;;;
  set_x (if b then upd imm idx 0%nat else imm, if b then upd age idx 0%nat else age, fin).
(** OriginalCHIO.evolve (74-135).  The new agents are evaluated after the loop that makes them; no draw depends on their targets. *)
Definition chio_phases (pick best : list nat -> M nat) (brr : f64) (max_age n ep : nat) : M unit :=
  '(imm, age, fin) <- get_x ;;
  '(l, cors, fin, _) <- for_acc n 0 ([], repeat false n, fin, false) (fun i acc =>
    let '(l, cors, fin, brk) := acc in
    if brk : bool then ret acc
    else
      '(x, cor, stop) <- chio_move pick best brr imm i ;;
      if (fin || stop)%bool then ret (l, upd cors i cor, true, true)
      else a <- propose correct gea x ;; ret (l ++ [a], upd cors i cor, false, false)%list) ;;
  set_x (imm, age, fin) ;;;
  l <- evaluate_all P md l ;;
  extra <- generate_population_with E md (ga_of P gea None) (n - List.length l) ;;
  let l := (l ++ extra)%list in
  for_ n (fun idx => chio_update max_age l cors idx).
Definition chio_evolve := chio_phases chio_pick chio_best.
Definition original_chio (brr : f64) (max_age n epochs : nat) :=
  vars_algo E P md tt n epochs false (chio_vars n) (chio_evolve brr max_age n).

(** DevCHIO: lines 200-204 and 209-213, an empty class is filled at random. *)
Definition chio_fill (fill : M (list nat)) (k : nat) (imm : list nat) : M (list nat) :=
  if (List.length (chio_where k imm) =? 0)%nat
  then idx <- fill ;; ret (fold_left (fun l i => upd l i k) idx imm)
  else ret imm.
Definition chio_third (n : nat) : M (list nat) := choice_noreplace E (seq 0 n) (Z.to_nat (ftrunc (dec 33 100 * fnat n))).
(** Lines 195-219. *)
Definition dev_chio_move (pick best : list nat -> M nat) (fill : M (list nat)) (brr : f64) (i : nat) (imm : list nat) : M (vec * bool * list nat) :=
  xi <- pop_sol i ;;
  for_acc (n_dims P) 0 (xi, false, imm) (fun j acc =>
    let '(x, cor, imm) := acc in
    r <- uniform E ;;
    if (r < #1 / #3 * brr)%F then
      imm <- chio_fill fill 1 imm ;;
      s <- pick (chio_where 1 imm) ;; x' <- chio_mix i s j x ;; ret (x', true, imm)
    else if ((#1 / #3 * brr <= r) && (r < #2 / #3 * brr))%F%bool then
      imm <- chio_fill fill 0 imm ;;
      s <- pick (chio_where 0 imm) ;; x' <- chio_mix i s j x ;; ret (x', cor, imm)
    else if ((#2 / #3 * brr <= r) && (r < brr))%F%bool then
      s <- best (chio_where 2 imm) ;; x' <- chio_mix i s j x ;; ret (x', cor, imm)
    else ret acc).
(** DevCHIO.evolve (185-248); finished stays False. *)
Definition dev_chio_phases (pick best : list nat -> M nat) (fill : M (list nat)) (brr : f64) (max_age n ep : nat) : M unit :=
  '(imm, age, fin) <- get_x ;;
  '(l, cors, imm) <- for_acc n 0 ([], repeat false n, imm) (fun i acc =>
    let '(l, cors, imm) := acc in
    '(x, cor, imm) <- dev_chio_move pick best fill brr i imm ;;
    a <- propose correct gea x ;; ret (l ++ [a], upd cors i cor, imm)%list) ;;
  set_x (imm, age, fin) ;;;
  l <- evaluate_all P md l ;;
  for_ n (fun idx => chio_update max_age l cors idx).
Definition dev_chio (brr : f64) (max_age n epochs : nat) :=
  vars_algo E P md tt n epochs false (chio_vars n) (dev_chio_phases chio_pick chio_best (chio_third n) brr max_age n).
End CHIO.
