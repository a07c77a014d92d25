(** Algorithm classes, part 8: bats, sparrows, sea horses, marine predators, seagulls, star oscillation, gazelles,
    secretary birds, vultures, bowerbirds, germinal centres, tuna, beluga whales, electrical storm, rabbits, gaining and
    sharing knowledge, life choices.  No proofs here.  Simplifications: see MClass1. *)
From Verif Require Import Prelude Fl MCore MHelp MAlg MAlg2 MAlg4 MAlg5.
Local Open Scope f_scope.

Section Bats.
Variable E : env.
Variable P : problem.
Variable md : mode.
(** ** swarm_based/BA.py *)
(** The batch is evaluated; then agent idx takes solution and target of the new one when that is better and [lucky]
    says so, and keeps or updates its other attributes. *)
Definition accept_lucky {A X} (n : nat) (cand : nat -> M A X (agent A)) (lucky : agent A -> M A X bool) (upd_att : agent A -> agent A -> A) : M A X unit :=
  l <- made_agents P md n cand ;;
  for_ n (fun idx =>
    a <- lift (getitem l idx) ;;
    old <- pop_at idx ;;
    c <- lift (compare_agents a old (p_mm P)) ;;
    when c (b <- lucky a ;; when b (pop_set idx (mkAgent (sol a) (tgt a) (upd_att old a))))).
(** Attributes of OriginalBA's agents: velocity and pulse_frequency (86-91). *)
Definition ba_att (pf_min pf_max : f64) (_ : vec) : M (vec * f64) unit (vec * f64) :=
  v <- uniform_box E P ;; u <- uniform E ;; ret (v, pf_min + (pf_max - pf_min) * u).
(** OriginalBA.evolve (93-118).  The velocity of the population's agents is never written back (118); normal(n_dims) at
    line 107 is one draw with mean n_dims.  The draws of both branches are made on every call here. *)
Definition ba_evolve (loudness pulse_rate : f64) (n ep : nat) : M (vec * f64) unit unit :=
  accept_lucky n (fun idx =>
      a <- pop_at idx ;;
      g <- gb_sol ;;
      u <- uniform E ;;
      z <- gauss E ;;
      y <- correct_solution P (vtab P (fun j => if pulse_rate < u then g.[j] + dec 1 1000 * (fnat (n_dims P) + z) else (sol a).[j] + (fst (att a)).[j])) ;;
      ret (mkAgent y (tgt a) (vtab P (fun j => (fst (att a)).[j] + snd (att a) * ((sol a).[j] - g.[j])), snd (att a))))
    (fun _ => coin E loudness) (fun old _ => att old).
Definition original_ba (loudness pulse_rate pf_min pf_max : f64) (n epochs : nat) :=
  agent_algo E md (gea_with P (ba_att pf_min pf_max)) (ga_of P (gea_with P (ba_att pf_min pf_max))) n epochs false (ret tt) (ret tt)
    (ba_evolve loudness pulse_rate n).
(** AdaptiveBA: velocity, loudness and pulse_rate (185-191). *)
Record bat := mkBat { b_vel : vec; b_loud : f64; b_rate : f64 }.
Definition aba_att (l_min l_max pr_min pr_max : f64) (_ : vec) : M bat unit bat :=
  v <- uniform_box E P ;; l <- uniform E ;; r <- uniform E ;; ret (mkBat v (l_min + (l_max - l_min) * l) (pr_min + (pr_max - pr_min) * r)).
(** AdaptiveBA.evolve (193-222); alpha = gamma = 0.9 (181).  The draws of both branches are made on every call here. *)
Definition aba_evolve (pf_min pf_max : f64) (n ep : nat) : M bat unit unit :=
  p <- get_pop ;;
  let mean_a := fmean (map (fun a => b_loud (att a)) p) in
  accept_lucky n (fun idx =>
      a <- pop_at idx ;;
      g <- gb_sol ;;
      pf <- uniform_in E pf_min pf_max ;;
      let v := vtab P (fun j => (b_vel (att a)).[j] + pf * ((sol a).[j] - g.[j])) in
      u <- uniform E ;;
      z <- gauss E ;;
      y <- correct_solution P (vtab P (fun j => if b_rate (att a) < u then g.[j] + mean_a * (#(-1) + z) else (sol a).[j] + v.[j])) ;;
      ret (mkAgent y (tgt a) (mkBat v (b_loud (att a)) (b_rate (att a)))))
    (fun a => coin E (b_loud (att a)))
    (fun old a => mkBat (b_vel (att old)) (dec 9 10 * b_loud (att a)) (b_rate (att a) * (#1 - exp_ E (fneg (dec 9 10) * fnat ep)))).
Definition adaptive_ba (l_min l_max pr_min pr_max pf_min pf_max : f64) (n epochs : nat) :=
  agent_algo E md (gea_with P (aba_att l_min l_max pr_min pr_max)) (ga_of P (gea_with P (aba_att l_min l_max pr_min pr_max))) n epochs false
    (ret tt) (ret tt) (aba_evolve pf_min pf_max n).
(** DevBA.evolve (286-322).  The attribute of the optimizer is dyn_list_velocity (283-284).  In single mode the
    children are evaluated one by one in the loop; here after it, in the same order. *)
Definition dev_ba_evolve (pulse_rate pf_min pf_max : f64) (n ep : nat) : M unit (list vec) unit :=
  let correct := correct_solution P in let gea := generate_empty_agent P tt in
  l <- new_agents P md correct gea n (fun idx =>
    u <- uniform E ;;
    let pf := pf_min + (pf_max - pf_min) * u in
    w <- uniform E ;;
    vs <- get_x ;;
    g <- gb_sol ;;
    x <- pop_sol idx ;;
    let v := vtab P (fun j => w * (nth idx vs []).[j] + (g.[j] - x.[j]) * pf) in
    set_x (upd vs idx v) ;;;
    ret (vtab P (fun j => x.[j] + v.[j]))) ;;
  kids <- collect_many n (fun idx =>
    a <- lift (getitem l idx) ;;
    old <- pop_at idx ;;
    c <- lift (compare_agents a old (p_mm P)) ;;
    if (c : bool) then pop_set idx a ;;; ret []
    else u <- uniform E ;;
         if pulse_rate < u then
           g <- gb_sol ;;
           r <- uniform_box E P ;;
           k <- propose correct gea (vtab P (fun j => g.[j] + dec 1 100 * r.[j])) ;;
           ret [(idx, k)]
         else ret []) ;;
  new <- evaluate_all P md (map snd kids) ;;
  q <- for_list (combine (map fst kids) new) l (fun ic cur =>
    o <- lift (getitem cur (fst ic)) ;;
    c <- lift (compare_agents (snd ic) o (p_mm P)) ;;
    ret (if (c : bool) then upd cur (fst ic) (snd ic) else cur)) ;;
  set_pop q.
Definition dev_ba (pulse_rate pf_min pf_max : f64) (n epochs : nat) :=
  vars_algo E P md tt n epochs false (v <- ret (repeat (repeat (#0) (n_dims P)) n) ;; set_x v) (dev_ba_evolve pulse_rate pf_min pf_max n).
End Bats.

Section Plain.
Variable E : env.
Variable P : problem.
Variable md : mode.
Notation gea := (generate_empty_agent (A := unit) (X := unit) P tt).
Notation correct := (correct_solution P).
Notation M := (M unit unit).
Notation fm := (rform E P).

(** ** swarm_based/SSA.py *)
(** OriginalSSA.evolve (198-257) and DevSSA.evolve (81-136) with amend_solution (76-79): the two differ in the formulas
    only.  The comparison at lines 122 and 243 reads self.pop[idx], not pop2[idx]. *)
Definition ssa_correct : vec -> M vec := correct_solution_with P (amend_random E P).
Definition ssa_evolve (name : string) (ST : f64) (n1 n2 n ep : nat) : M unit :=
  r2 <- uniform E ;;
  greedy_each P md ssa_correct gea n false (fun idx =>
    x <- pop_sol idx ;;
    if (idx <? n1)%nat then fm (name ++ ":producers") [[r2; ST; fnat ep; fnat idx]; x]
    else
      p <- get_pop ;;
      '(_, best, worst) <- special E P p 1 1 ;;
      b <- lift (getitem best 0) ;;
      w <- lift (getitem worst 0) ;;
      fm (name ++ ":scroungers") [[fnat idx]; x; sol b; sol w]) ;;;
  p <- get_pop ;;
  '(sp, best, worst) <- special E P p 1 1 ;;
  set_pop sp ;;;
  b <- lift (getitem best 0) ;;
  w <- lift (getitem worst 0) ;;
  pop2 <- local_greedy P md ssa_correct gea (List.length (skipn n2 sp)) false (skipn n2 sp) (fun pop2 idx =>
    a <- pop_at idx ;;
    c <- lift (compare_agents a b (p_mm P)) ;;
    z <- lift (getitem pop2 idx) ;;
    fz <- lift (fitness z) ;;
    fw <- lift (fitness w) ;;
    fm (name ++ ":danger") [[if (c : bool) then #1 else #0]; sol z; sol b; sol w; [fz; fw]]) ;;
  q <- get_pop ;;
  set_pop (firstn n2 q ++ pop2)%list.
Definition ssa_count (part : f64) (n : nat) : nat := Z.to_nat (ftrunc (part * fnat n)).
Definition dev_ssa (ST PD SD : f64) (n epochs : nat) :=
  plain_algo E P md tt n epochs true (ssa_evolve "DevSSA" ST (ssa_count PD n) (ssa_count SD n) n).
Definition original_ssa (ST PD SD : f64) (n epochs : nat) :=
  plain_algo E P md tt n epochs true (ssa_evolve "OriginalSSA" ST (ssa_count PD n) (ssa_count SD n) n).

(** ** swarm_based/SeaHO.py *)
(** OriginalSeaHO.evolve (67-122). *)
Definition seaho_evolve (n ep : nat) : M unit :=
  xs <- collect n (fun idx => g <- gb_sol ;; x <- pop_sol idx ;; y <- fm "SeaHO:75-85" [g; x] ;; correct y) ;;
  l <- new_agents P md correct gea n (fun idx => x <- lift (getitem xs idx) ;; g <- gb_sol ;; fm "SeaHO:91-97" [[fnat ep]; x; g]) ;;
  '(child, _) <- lift (get_sorted_population (e_argsort E) l (p_mm P)) ;;
  off <- new_agents P md correct gea (n / 2)%nat (fun k =>
    d <- lift (getitem (firstn (n / 2)%nat child) k) ;;
    m <- lift (getitem (skipn (n / 2)%nat child) k) ;;
    r3 <- uniform E ;;
    ret (vtab P (fun j => r3 * (sol d).[j] + (#1 - r3) * (sol m).[j]))) ;;
  q <- lift (get_sorted_and_trimmed_population (e_argsort E) (child ++ off)%list n (p_mm P)) ;;
  set_pop q.
Definition original_seaho (n epochs : nat) := plain_algo E P md tt n epochs false (seaho_evolve n).

(** ** swarm_based/MPA.py *)
(** OriginalMPA.evolve (72-116); FADS = 0.2. *)
Definition mpa_evolve (n epochs ep : nat) : M unit :=
  per1 <- permutation E n ;;
  per2 <- permutation E n ;;
  greedy_each P md correct gea n false (fun idx =>
    g <- gb_sol ;;
    x <- pop_sol idx ;;
    y0 <- fm "MPA:86-99" [[fnat ep / fnat epochs; fnat idx]; g; x] ;;
    y <- correct y0 ;;
    c <- coin E (dec 2 10) ;;
    if (c : bool) then fm "MPA:102-103" [[fnat ep / fnat epochs]; y]
    else
      i <- lift (getitem per1 idx) ;;
      j <- lift (getitem per2 idx) ;;
      xi <- pop_sol i ;;
      xj <- pop_sol j ;;
      r <- uniform E ;;
      ret (vtab P (fun d => y.[d] + (dec 2 10 * (#1 - r) + r) * (xi.[d] - xj.[d])))).
Definition original_mpa (n epochs : nat) := plain_algo E P md tt n epochs false (mpa_evolve n epochs).

(** ** bio_based/SOA.py *)
(** DevSOA.evolve (61-90). *)
Definition dev_soa_evolve (fc : f64) (n epochs ep : nat) : M unit :=
  greedy_each P md correct gea n true (fun idx =>
    g <- gb_sol ;;
    x <- pop_sol idx ;;
    fm "SOA:68-81" [[fc; fnat ep; fnat epochs]; g; x]).
Definition dev_soa (fc : f64) (n epochs : nat) := plain_algo E P md tt n epochs false (dev_soa_evolve fc n epochs).
(** OriginalSOA.evolve (142-168). *)
Definition soa_evolve (fc : f64) (n epochs ep : nat) : M unit :=
  replace_all P md correct gea n (fun idx =>
    g <- gb_sol ;;
    x <- pop_sol idx ;;
    fm "SOA:149-162" [[fc; fnat ep; fnat epochs]; g; x]).
Definition original_soa (fc : f64) (n epochs : nat) := plain_algo E P md tt n epochs false (soa_evolve fc n epochs).

(** ** physics_based/SOO.py *)
(** One of the two loops of OriginalSOO.evolve (99-119, 125-147): it appends to the pop_new it is given.  Line 99 resets
    pop_new before the first loop only. *)
Definition soo_phase (n : nat) (pop_new : list (agent unit)) (cand : nat -> M vec) : M (list (agent unit)) :=
  l <- for_acc n 0 pop_new (fun idx acc =>
      x <- cand idx ;;
      a <- propose correct gea x ;;
      if is_avail md then ret (acc ++ [a])%list
      else a' <- evaluate P a ;; keep_better P true idx a' ;;; ret (acc ++ [a'])%list) ;;
  if is_avail md then
    new <- update_target_for_population P md l ;;
    p <- get_pop ;;
    q <- lift (greedy_selection_population p new (p_mm P)) ;;
    set_pop q ;;;
    ret new
  else ret l.
(** OriginalSOO.evolve (85-147). *)
Definition soo_evolve (n epochs ep : nat) : M unit :=
  l <- soo_phase n [] (fun idx =>
    g <- gb_sol ;;
    x <- pop_sol idx ;;
    fm "SOO:93-110" [[fnat ep; fnat epochs]; g; x]) ;;
  p <- get_pop ;;
  '(_, best3, _) <- special E P p 3 3 ;;
  l2 <- soo_phase n l (fun idx =>
    '(r1, r2, r3) <- choose3 E (others n [idx]) ;;
    x1 <- pop_sol r1 ;;
    x2 <- pop_sol r2 ;;
    x3 <- pop_sol r3 ;;
    x <- pop_sol idx ;;
    fm "SOO:127-137" [mean_sol P best3; x1; x2; x3; x]) ;;
  ret tt.
Definition original_soo (n epochs : nat) := plain_algo E P md tt n epochs false (soo_evolve n epochs).

(** ** swarm_based/MGO.py *)
(** OriginalMGO.evolve (74-115). *)
Definition mgo_evolve (n epochs ep : nat) : M unit :=
  trim_many E P md n n (fun idx =>
    per <- permutation E n ;;
    i <- integers E ((n + 2) / 3)%nat n ;;
    xi <- pop_sol i ;;
    v <- view ;;
    m <- fm "MGO:83-86" (xi :: map fnat (firstn ((n + 2) / 3)%nat per) :: v) ;;
    x <- pop_sol idx ;;
    g <- gb_sol ;;
    let reads := [[fnat ep / fnat epochs]; m; x; g] in
    x2 <- fm "MGO:94" reads ;;
    k <- integers E 0 n ;;
    xk <- pop_sol k ;;
    x3 <- fm "MGO:95" (xk :: reads) ;;
    x4 <- fm "MGO:96" reads ;;
    x1 <- random_solution P ;;
    a1 <- propose correct gea x1 ;;
    a2 <- propose correct gea x2 ;;
    a3 <- propose correct gea x3 ;;
    a4 <- propose correct gea x4 ;;
    ret [a1; a2; a3; a4]).
Definition original_mgo (n epochs : nat) := plain_algo E P md tt n epochs true (mgo_evolve n epochs).

(** ** bio_based/SBOA.py *)
(** OriginalSBOA.evolve (64-133). *)
Definition sboa_evolve (n epochs ep : nat) : M unit :=
  greedy_each P md correct gea n true (fun idx =>
    x <- pop_sol idx ;;
    if fnat ep < fnat epochs / #3 then
      r1 <- choice1 E (others n [idx]) ;;
      r2 <- choice1 E (others n [idx]) ;;
      x1 <- pop_sol r1 ;;
      x2 <- pop_sol r2 ;;
      u <- uvec E P ;;
      ret (vtab P (fun j => x.[j] + (x1.[j] - x2.[j]) * u.[j]))
    else
      g <- gb_sol ;;
      fm "SBOA:83-92" [[fnat ep; fnat epochs]; g; x]) ;;;
  r <- uniform E ;;
  k <- integers E 0 n ;;
  xk <- pop_sol k ;;
  greedy_each P md correct gea n true (fun idx =>
    x <- pop_sol idx ;;
    g <- gb_sol ;;
    if r < dec 1 2 then fm "SBOA:114-116" [[fnat ep; fnat epochs]; g; x]
    else fm "SBOA:119-121" [xk; x]).
Definition original_sboa (n epochs : nat) := plain_algo E P md tt n epochs false (sboa_evolve n epochs).

(** ** swarm_based/AVOA.py *)
(** OriginalAVOA.evolve (84-128).  The choice of line 97 between the two best is an integer draw below 2. *)
Definition avoa_evolve (p1 p2 p3 gama : f64) (n epochs ep : nat) : M unit :=
  ppp <- rnum E "AVOA:91-92" [[gama; fnat ep; fnat epochs]] ;;
  p <- get_pop ;;
  '(_, best, _) <- special E P p 2 3 ;;
  replace_all P md correct gea n (fun idx =>
    i <- integers E 0 2 ;;
    r <- lift (getitem best i) ;;
    b1 <- lift (getitem best 0) ;;
    b2 <- lift (getitem best 1) ;;
    x <- pop_sol idx ;;
    fm "AVOA:96-122" [[ppp; p1; p2; p3]; sol r; sol b1; sol b2; x]).
Definition original_avoa (p1 p2 p3 gama : f64) (n epochs : nat) := plain_algo E P md tt n epochs false (avoa_evolve p1 p2 p3 gama n epochs).

(** ** bio_based/SBO.py *)
(** DevSBO.evolve (81-112). *)
Definition dev_sbo_evolve (alpha p_m psw : f64) (n ep : nat) : M unit :=
  fits <- all_fits ;;
  greedy_each P md correct gea n true (fun idx =>
    i <- roulette E P fits ;;
    u <- uniform E ;;
    x <- pop_sol idx ;;
    xi <- pop_sol i ;;
    g <- gb_sol ;;
    let pos := vtab P (fun j => x.[j] + alpha * u * ((xi.[j] + g.[j]) / #2 - x.[j])) in
    z <- gvec E P ;;
    w <- uvec E P ;;
    ret (vtab P (fun j => if w.[j] < p_m then x.[j] + z.[j] * (psw * ((p_ub P).[j] - (p_lb P).[j])) else pos.[j]))).
Definition dev_sbo (alpha p_m psw : f64) (n epochs : nat) := plain_algo E P md tt n epochs false (dev_sbo_evolve alpha p_m psw n).
(** OriginalSBO: the probabilities (201-210). *)
Definition bower_probs (fits : vec) : vec :=
  let fit := map (fun f => if f < #0 then #1 + fabs f else #1 / (#1 + fabs f)) fits in
  map (fun f => f / fsuml fit) fit.
(** roulette_wheel_selection__ (176-189): IndexError when the draw is not below the last partial sum. *)
Fixpoint first_above (r acc : f64) (i : nat) (l : vec) : res nat :=
  match l with [] => Err IndexError | x :: t => if r < acc + x then Ok i else first_above r (acc + x) (S i) t end.
Definition bower_wheel (probs : vec) : M nat := r <- uniform E ;; lift (first_above r (#0) 0 probs).
(** OriginalSBO.evolve (191-230).  In single mode line 228 gives the old agent the target of the new position; the new
    position itself is dropped. *)
Definition sbo_evolve (alpha p_m psw : f64) (n ep : nat) : M unit :=
  fits <- all_fits ;;
  let probs := bower_probs fits in
  pop_new <- for_acc n 0 [] (fun idx acc =>
    x <- pop_sol idx ;;
    g <- gb_sol ;;
    y <- dims P (fun j =>
      i <- bower_wheel probs ;;
      xi <- pop_sol i ;;
      c <- coin E p_m ;;
      if (c : bool) then z <- gauss E ;; ret (x.[j] + z * (psw * ((p_ub P).[j] - (p_lb P).[j])))
      else ret (x.[j] + alpha / (#1 + probs.[i]) * ((xi.[j] + g.[j]) / #2 - x.[j]))) ;;
    a <- propose correct gea y ;;
    when (negb (is_avail md)) (t <- get_target P (sol a) ;; old <- pop_at idx ;; pop_set idx (with_tgt old t)) ;;;
    ret (acc ++ [a])%list) ;;
  when (is_avail md) (l <- update_target_for_population P md pop_new ;; set_pop l).
Definition original_sbo (alpha p_m psw : f64) (n epochs : nat) := plain_algo E P md tt n epochs false (sbo_evolve alpha p_m psw n).

(** ** swarm_based/TSO.py *)
(** OriginalTSO.evolve (89-129) with get_new_local_pos__ (68-87); zz = 0.05. *)
Definition tso_evolve (n epochs ep : nat) : M unit :=
  replace_all P md correct gea n (fun idx =>
    g <- gb_sol ;;
    x <- pop_sol idx ;;
    c <- coin E (dec 5 100) ;;
    if (c : bool) then random_solution P
    else
      r <- random_solution P ;;
      if (idx =? 0)%nat then fm "TSO:72-86" [[fnat ep; fnat epochs]; g; x; r]
      else xi <- pop_sol (idx - 1)%nat ;; fm "TSO:108-123" [[fnat ep; fnat epochs]; g; x; xi; r]).
Definition original_tso (n epochs : nat) := plain_algo E P md tt n epochs true (tso_evolve n epochs).

(** ** swarm_based/BWO.py *)
(** The whale fall of one agent (121-141). *)
Definition bwo_fall (n epochs ep idx : nat) : M vec :=
  rr <- choice1 E (others n [idx]) ;;
  x <- pop_sol idx ;;
  xr <- pop_sol rr ;;
  fm "BWO:117,124-125" [[fnat ep / fnat epochs]; x; xr].
(** OriginalBWO.evolve (56-146). *)
Definition bwo_evolve (n epochs ep : nat) : M unit :=
  greedy_each P md correct gea n true (fun idx =>
    rr <- choice1 E (others n [idx]) ;;
    xr <- pop_sol rr ;;
    x <- pop_sol idx ;;
    g <- gb_sol ;;
    fm "BWO:64-95" [[fnat ep / fnat epochs]; x; xr; g]) ;;;
  let Wf := dec 1 10 - dec 5 100 * (fnat ep / fnat epochs) in
  if is_avail md then
    batch_keep P md n true (fun idx =>
      c <- coin E Wf ;;
      if (c : bool) then y <- bwo_fall n epochs ep idx ;; a <- propose correct gea y ;; ret [(idx, a)] else ret [])
  else
    for_ n (fun idx => c <- coin E Wf ;; when c (y <- bwo_fall n epochs ep idx ;; gen_keep P correct gea true idx y)).
Definition original_bwo (n epochs : nat) := plain_algo E P md tt n epochs false (bwo_evolve n epochs).

(** ** physics_based/ESO.py *)
(** std_pos and peak_to_peak (68-72). *)
Definition eso_std (xs : list vec) : f64 :=
  let m := map (fun j => fmean (map (fun x => x.[j]) xs)) (seq 0 (n_dims P)) in
  sqrt_ E (fmean (map (fun x => fsuml (map (fun j => (x.[j] - m.[j]) * (x.[j] - m.[j])) (seq 0 (n_dims P)))) xs)).
Definition eso_ptp (xs : list vec) : f64 :=
  fmaxl (map (fun j => fmaxl (map (fun x => x.[j]) xs) - fminl (map (fun x => x.[j]) xs)) (seq 0 (n_dims P))).
(** np.percentile (84) demands a percentage between 0 and 100.  The percentile itself is left abstract. *)
Definition np_percentile (fits : vec) (q : f64) : res f64 :=
  if (#0 <= q) && (q <= #100) then Ok (sform E "percentile" [[q]; fits]) else Err ValueError.
(** The ionized agents (68-86). *)
Definition eso_ionized : M (list vec) :=
  xs <- all_sols ;;
  if eso_ptp xs <= #0 then ret []
  else
    let resistance := eso_std xs / eso_ptp xs in
    fits <- all_fits ;;
    t <- lift (np_percentile fits (resistance / #2 * #100)) ;;
    ret (map fst (filter (fun xf => snd xf <= t) (combine xs fits))).
(** OriginalESO.evolve (59-168).  The agent of lines 132-136 is evaluated by generate_agent and again at line 137; line
    164 compares without the direction of the problem. *)
Definition eso_evolve (n epochs ep : nat) : M unit :=
  xs <- all_sols ;;
  ion <- eso_ionized ;;
  l <- collect n (fun idx =>
    a <- (if (idx =? 0)%nat || (List.length ion =? 0)%nat then gea None
          else
            i <- integers E 0 (List.length ion) ;;
            alpha <- lift (getitem ion i) ;;
            x <- fm "ESO:89-134" (alpha :: [fnat ep; fnat epochs] :: xs) ;;
            gen_agent P correct gea x) ;;
    b <- evaluate P a ;;
    y <- fm "ESO:141-159" (sol b :: [fnat ep; fnat epochs; fnat (List.length ion)] :: ion ++ xs)%list ;;
    c <- gen_agent P correct gea y ;;
    r <- lift (compare_agents c b Min) ;;
    ret (if (r : bool) then c else b)) ;;
  set_pop l.
Definition original_eso (n epochs : nat) := plain_algo E P md tt n epochs false (eso_evolve n epochs).

(** ** swarm_based/ARO.py *)
(** The candidate of OriginalARO (71-88), LARO (155-173) and IARO (253-270); [name] tells the formulas apart. *)
Definition aro_cand (name : string) (n epochs ep idx : nat) : M vec :=
  r <- fm (name ++ ":R") [[fnat ep / fnat epochs]] ;;
  a <- rnum E (name ++ ":A") [[fnat ep; fnat epochs]] ;;
  x <- pop_sol idx ;;
  if #1 < a then
    i <- integers E 0 n ;;
    xi <- pop_sol i ;;
    fm (name ++ ":detour") [r; x; xi]
  else fm (name ++ ":hiding") [[fnat ep / fnat epochs]; r; x].
(** OriginalARO.evolve (62-97). *)
Definition aro_evolve (n epochs ep : nat) : M unit := greedy_each P md correct gea n true (aro_cand "ARO" n epochs ep).
Definition original_aro (n epochs : nat) := plain_algo E P md tt n epochs false (aro_evolve n epochs).
(** LARO.evolve (146-201). *)
Definition laro_evolve (n epochs ep : nat) : M unit :=
  greedy_each P md correct gea n true (aro_cand "LARO" n epochs ep) ;;;
  for_ n (fun idx =>
    f <- pop_fit idx ;;
    fg <- gb_fit ;;
    when (negb (feq f fg)) (
      g <- gb_sol ;;
      x <- pop_sol idx ;;
      c <- rtest E "LARO:187-196" [[fnat ep / fnat epochs]; g; x] ;;
      when c (y <- fm "LARO:197" [[fnat ep / fnat epochs]; g; x] ;; try_improve P correct gea idx y))).
Definition laro (n epochs : nat) := plain_algo E P md tt n epochs false (laro_evolve n epochs).
(** IARO.evolve (244-279). *)
Definition iaro_evolve (n epochs ep : nat) : M unit := greedy_each P md correct gea n true (aro_cand "IARO" n epochs ep).
Definition iaro (n epochs : nat) := plain_algo E P md tt n epochs false (iaro_evolve n epochs).

(** ** human_based/GSKA.py *)
(** The neighbours of agent idx (83-91, 209-217). *)
Definition gska_near (n idx : nat) : nat * nat :=
  if (idx =? 0)%nat then (2, 1)%nat else if (idx =? n - 1)%nat then (idx - 2, idx - 1)%nat else (idx - 1, idx + 1)%nat.
(** id1 and id2 (105-106, 235-236). *)
Definition gska_id1 (pb : f64) (n : nat) : nat := Z.to_nat (ftrunc (pb * fnat n)).
Definition gska_id2 (pb : f64) (n : nat) : nat := Z.to_nat (ftrunc (fnat (gska_id1 pb n) + fnat n * (#1 - #2 * pb))).
(** Members of the best, the worst and the middle group, agent idx excluded (107-109, 237-239); ValueError when a group
    is empty. *)
Definition gska_groups (pb : f64) (n idx : nat) : M (nat * nat * nat) :=
  let id1 := gska_id1 pb n in
  let id2 := gska_id2 pb n in
  b <- choice1 E (others id1 [idx]) ;;
  w <- choice1 E (others n (idx :: seq 0 id2)) ;;
  m <- choice1 E (others id2 (idx :: seq 0 id1)) ;;
  ret (b, w, m).
(** DevGSKA.evolve (73-126). *)
Definition dev_gska_evolve (pb kr : f64) (n epochs ep : nat) : M unit :=
  let dd := sform E "GSKA:80" [[fnat n; fnat ep; fnat epochs]] in
  greedy_each P md correct gea n true (fun idx =>
    let '(previ, nexti) := gska_near n idx in
    u <- uniform E ;;
    if u <= kr then
      x <- pop_sol idx ;;
      g <- gb_sol ;;
      f <- pop_at idx ;;
      if fnat idx < dd then
        r <- choice1 E (others n [previ; idx; nexti]) ;;
        a <- pop_at r ;;
        c <- lift (compare_agents a f (p_mm P)) ;;
        xp <- pop_sol previ ;;
        xn <- pop_sol nexti ;;
        v <- uvec E P ;;
        ret (vtab P (fun j => if (c : bool) then x.[j] + v.[j] * (xp.[j] - xn.[j] + (sol a).[j] - x.[j]) else g.[j] + v.[j] * ((sol a).[j] - x.[j])))
      else
        '(b, w, m) <- gska_groups pb n idx ;;
        a <- pop_at m ;;
        c <- lift (compare_agents a f (p_mm P)) ;;
        xb <- pop_sol b ;;
        xw <- pop_sol w ;;
        v <- uvec E P ;;
        ret (vtab P (fun j => if (c : bool) then x.[j] + v.[j] * (xb.[j] - xw.[j] + (sol a).[j] - x.[j]) else g.[j] + v.[j] * ((sol a).[j] - x.[j])))
    else uniform_box E P).
Definition dev_gska (pb kr : f64) (n epochs : nat) := plain_algo E P md tt n epochs true (dev_gska_evolve pb kr n epochs).
(** OriginalGSKA.evolve (199-256). *)
Definition gska_evolve (pb kf kr kg : f64) (n epochs ep : nat) : M unit :=
  let dd := sform E "GSKA:206" [[fnat (n_dims P); fnat ep; fnat epochs; kg]] in
  greedy_each P md correct gea n true (fun idx =>
    let '(previ, nexti) := gska_near n idx in
    r <- choice1 E (others n [previ; idx; nexti]) ;;
    f <- pop_at idx ;;
    let x := sol f in
    dims P (fun j =>
      u <- uniform E ;;
      if u <= kr then
        if fnat j < dd then
          a <- pop_at r ;;
          c <- lift (compare_agents a f (p_mm P)) ;;
          xp <- pop_sol previ ;;
          xn <- pop_sol nexti ;;
          ret (if (c : bool) then x.[j] + kf * (xp.[j] - xn.[j] + (sol a).[j] - x.[j]) else x.[j] + kf * (xp.[j] - xn.[j] + x.[j] - (sol a).[j]))
        else
          '(b, w, m) <- gska_groups pb n idx ;;
          a <- pop_at m ;;
          c <- lift (compare_agents a f (p_mm P)) ;;
          xb <- pop_sol b ;;
          xw <- pop_sol w ;;
          ret (if (c : bool) then x.[j] + kf * (xb.[j] - xw.[j] + (sol a).[j] - x.[j]) else x.[j] + kf * (xb.[j] - xw.[j] + x.[j] - (sol a).[j]))
      else ret (x.[j]))).
Definition original_gska (pb kf kr kg : f64) (n epochs : nat) := plain_algo E P md tt n epochs true (gska_evolve pb kf kr kg n epochs).

(** ** human_based/LCO.py *)
(** The candidate shared by the three classes (76-88, 158-171, 245-259).  ceil(sqrt(pop_size)) never exceeds pop_size, so
    the reads of line 78 never fail. *)
Definition lco_cand (name : string) (r1 : f64) (epochs ep idx : nat) : M vec :=
  x <- pop_sol idx ;;
  g <- gb_sol ;;
  xp <- (if (idx =? 0)%nat then ret g else pop_sol (idx - 1)%nat) ;;
  r <- random_solution P ;;
  v <- view ;;
  fm name ([r1; fnat ep; fnat epochs] :: x :: xp :: r :: v).
(** OriginalLCO.evolve (67-97). *)
Definition lco_evolve (r1 : f64) (n epochs ep : nat) : M unit := greedy_each P md correct gea n true (lco_cand "LCO" r1 epochs ep).
Definition original_lco (r1 : f64) (n epochs : nat) := plain_algo E P md tt n epochs true (lco_evolve r1 n epochs).
(** DevLCO.evolve (148-180). *)
Definition dev_lco_evolve (r1 : f64) (n epochs ep : nat) : M unit := greedy_each P md correct gea n true (lco_cand "DevLCO" r1 epochs ep).
Definition dev_lco (r1 : f64) (n epochs : nat) := plain_algo E P md tt n epochs true (dev_lco_evolve r1 n epochs).
(** ImprovedLCO.evolve (235-305).  Line 302 evaluates pop_s2 again where pop_child2 is meant: outside single mode the
    children of the search mechanism are never evaluated. *)
Definition ilco_evolve (n epochs ep : nat) : M unit :=
  let h := (n / 2)%nat in
  greedy_each P md correct gea n true (lco_cand "ILCO" (#0) epochs ep) ;;;
  p <- get_pop ;;
  '(ps, _) <- lift (get_sorted_population (e_argsort E) p (p_mm P)) ;;
  b <- lift (getitem ps 0) ;;
  s1 <- local_greedy P md correct gea h true (firstn h ps) (fun cur idx =>
    a <- lift (getitem cur idx) ;;
    z <- gvec E P ;;
    ret (vtab P (fun j => (sol a).[j] + z.[j] * (sol a).[j]))) ;;
  s2 <- (if is_avail md then
           l <- update_target_for_population P md (skipn h ps) ;;
           lift (greedy_selection_population (skipn h ps) l (p_mm P))
         else local_greedy P md correct gea h false (skipn h ps) (fun cur idx =>
           u <- uniform E ;;
           ret (vtab P (fun j => (sol b).[j] + u * (mean_sol P s1).[j] * (fnat ep / fnat epochs))))) ;;
  set_pop (s1 ++ s2)%list.
Definition improved_lco (n epochs : nat) := plain_algo E P md tt n epochs true (ilco_evolve n epochs).
End Plain.

Section Cells.
Variable E : env.
Variable P : problem.
Variable md : mode.
(** ** system_based/GCO.py: dyn_list_cell_counter and dyn_list_life_signal (69-71). *)
Definition cells := (vec * vec)%type.
Definition gco_vars (n : nat) : M unit cells unit := x <- ret (repeat (#1) n, repeat (#70) n) ;; set_x x.
(** DevGCO.evolve (73-108). *)
Definition dev_gco_evolve (cr wf : f64) (n ep : nat) : M unit cells unit :=
  accept_batch P md n (fun idx =>
      u <- uniform_in E (#0) (#100) ;;
      x <- get_x ;;
      set_x (upd (fst x) idx (if u < (snd x).[idx] then (fst x).[idx] + #1 else #1), snd x) ;;;
      '(r1, r2) <- choose2 E (others n [idx]) ;;
      x1 <- pop_sol r1 ;;
      x2 <- pop_sol r2 ;;
      g <- gb_sol ;;
      xi <- pop_sol idx ;;
      v <- uvec E P ;;
      propose (correct_solution P) (generate_empty_agent P tt) (vtab P (fun j => if v.[j] < cr then g.[j] + wf * (x2.[j] - x1.[j]) else xi.[j])))
    (fun idx _ _ c => when c (x <- get_x ;; set_x (upd (fst x) idx ((fst x).[idx] + #10), snd x))) ;;;
  for_ n (fun idx =>
    fits <- all_fits ;;
    f <- pop_fit idx ;;
    x <- get_x ;;
    set_x (upd (fst x) idx (#10 + #10 * (f - fmaxl fits) / (fminl fits - fmaxl fits + dec 1 1000000000)), snd x)).
Definition dev_gco (cr wf : f64) (n epochs : nat) := vars_algo E P md tt n epochs false (gco_vars n) (dev_gco_evolve cr wf n).
(** OriginalGCO.evolve (165-198).  The counters stay at least 1, so all the probabilities of line 180 are positive. *)
Definition gco_evolve (cr wf : f64) (n ep : nat) : M unit cells unit :=
  for_ n (fun idx =>
    u <- uniform_in E (#0) (#100) ;;
    x <- get_x ;;
    set_x (upd (fst x) idx (if u < (snd x).[idx] then (fst x).[idx] + #1 else if #1 < (fst x).[idx] then (fst x).[idx] - #1 else (fst x).[idx]), snd x) ;;;
    '(r1, r2, r3) <- choose3 E (seq 0 n) ;;
    x1 <- pop_sol r1 ;;
    x2 <- pop_sol r2 ;;
    x3 <- pop_sol r3 ;;
    xi <- pop_sol idx ;;
    v <- uvec E P ;;
    '(c, _) <- try_improve_b P (correct_solution P) (generate_empty_agent P tt) idx
       (vtab P (fun j => if v.[j] < cr then x1.[j] + wf * (x2.[j] - x3.[j]) else xi.[j])) ;;
    when (c : bool) (y <- get_x ;; set_x (fst y, upd (snd y) idx ((snd y).[idx] + #10)))) ;;;
  fits <- all_fits ;;
  x <- get_x ;;
  let fit := map (fun f => let q := (f - fmaxl fits) / (fminl fits - fmaxl fits + dec 1 1000000000) in
                           match p_mm P with Min => q | _ => #1 - q end) fits in
  set_x (fst x, map (fun sf => fst sf - #10 + #10 * snd sf) (combine (snd x) fit)).
Definition original_gco (cr wf : f64) (n epochs : nat) := vars_algo E P Single tt n epochs false (gco_vars n) (gco_evolve cr wf n).
End Cells.
