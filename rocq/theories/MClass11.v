(** Model of mealpy's algorithm classes, part 11.  The conventions are those of MClass1. *)
From Verif Require Import Prelude Fl MCore MHelp MAlg MAlg2 MAlg3 MAlg4 MAlg5 MAlg6 MAlg7.
Local Open Scope f_scope.

(** * Classes without attributes of their own *)
Section Plain.
Variable E : env.
Variable P : problem.
Variable md : mode.
Notation gea := (generate_empty_agent (A := unit) (X := unit) P tt).
Notation correct := (correct_solution P).
Notation M := (M unit unit).
Notation fm := (rform E P).

(** ** bio_based/VCS.py *)
(** DevVCS.__init__ (VCS.py:72). *)
Definition vcs_best (lamda : f64) (n : nat) : nat := Z.to_nat (ftrunc (lamda * fnat n)).
(** calculate_xmean__ (VCS.py:76-93). *)
Definition vcs_mean (nb : nat) : M vec :=
  p <- get_pop ;;
  '(sp, _) <- lift (get_sorted_population (e_argsort E) p (p_mm P)) ;;
  ret (vform E P "VCS:89-92" ([fnat nb] :: map sol (firstn nb sp))).
(** The diffusion and infection phases, equal in both classes: DevVCS.evolve (VCS.py:95-151) and OriginalVCS.evolve
    (VCS.py:212-267). *)
Definition vcs_spread (corr : vec -> M vec) (nb : nat) (sigma : f64) (n epochs ep : nat) : M unit :=
  greedy_each P md corr gea n true (fun idx =>
    x <- pop_sol idx ;;
    g <- gb_sol ;;
    fm "VCS:105-107" [[fnat ep; fnat epochs]; x; g]) ;;;
  mean <- vcs_mean nb ;;
  let sg := sigma * (#1 - fnat ep / fnat epochs) in
  greedy_each P md corr gea n true (fun idx => fm "VCS:123" [[sg]; mean]).
Definition dev_vcs_evolve (lamda sigma : f64) (n epochs ep : nat) : M unit :=
  vcs_spread correct (vcs_best lamda n) sigma n epochs ep ;;;
  sort_pop E P ;;;
  greedy_each P md correct gea n true (fun idx =>
    let pr := fZ (Z.of_nat (n_dims P) - Z.of_nat idx + 1) / fnat (n_dims P) in
    '(i1, i2) <- choose2 E (others n [idx]) ;;
    x <- pop_sol idx ;;
    x1 <- pop_sol i1 ;;
    x2 <- pop_sol i2 ;;
    fm "VCS:140-142" [[pr]; x; x1; x2]).
Definition dev_vcs (lamda sigma : f64) (n epochs : nat) := plain_algo E P md tt n epochs true (dev_vcs_evolve lamda sigma n epochs).
(** OriginalVCS.amend_solution (VCS.py:207-210): the condition is the clipped position itself, so a component is replaced
    only when its clipped value is zero. *)
Definition vcs_amend (x : vec) : M vec :=
  r <- uniform_box E P ;;
  ret (vtab P (fun j => if feq (fclip x.[j] (p_lb P).[j] (p_ub P).[j]) #0 then r.[j] else x.[j])).
Definition original_vcs_evolve (lamda sigma : f64) (n epochs ep : nat) : M unit :=
  let corr := correct_solution_with P vcs_amend in
  vcs_spread corr (vcs_best lamda n) sigma n epochs ep ;;;
  greedy_each P md corr gea n true (fun idx =>
    let pr := fZ (Z.of_nat (n_dims P) - Z.of_nat idx + 1) / fnat (n_dims P) in
    x <- pop_sol idx ;;
    dims P (fun j =>
      u <- uniform E ;;
      if pr < u then
        '(i1, i2) <- choose2 E (others n [idx]) ;;
        x1 <- pop_sol i1 ;;
        x2 <- pop_sol i2 ;;
        v <- uniform E ;;
        ret (x1.[j] - (x2.[j] - x.[j]) * v)
      else ret x.[j])).
Definition original_vcs (lamda sigma : f64) (n epochs : nat) := plain_algo E P md tt n epochs true (original_vcs_evolve lamda sigma n epochs).

(** ** physics_based/NRO.py *)
(** OriginalNRO.evolve (NRO.py:67-189) with its amend_solution (NRO.py:62-65).  The Levy step of line 74 is an array when
    there are several variables; lines 127 and 140 assign it to one component ([put]), which NumPy refuses. *)
Definition nro_put : M f64 := if (n_dims P =? 1)%nat then rnum E "NRO:127" [] else raise ValueError.
(** The ionization stage (NRO.py:121-144). *)
Definition nro_ion (put : M f64) (n : nat) (fits : vec) (idx : nat) : M vec :=
  x <- pop_sol idx ;;
  r <- rank_at E fits idx ;;
  u <- uniform E ;;
  g <- gb_sol ;;
  if fnat r / fnat n < u then
    '(i1, i2) <- choose2 E (others n [idx]) ;;
    x1 <- pop_sol i1 ;;
    x2 <- pop_sol i2 ;;
    dims P (fun j =>
      if feq x2.[j] x.[j] then put
      else
        v <- uniform E ;;
        w <- uniform E ;;
        ret (if v <= dec 1 2 then x1.[j] + w * (x2.[j] - x.[j]) else x1.[j] - w * (x2.[j] - x.[j])))
  else
    p <- get_pop ;;
    '(_, _, ws) <- special E P p 3 1 ;;
    w <- lift (getitem ws 0) ;;
    dims P (fun j => if feq (sol w).[j] g.[j] then put else rnum E "NRO:143-144" [[x.[j]; (sol w).[j]; g.[j]]]).
Definition nro_phases (put : M f64) (n epochs ep : nat) : M unit :=
  let corr := correct_solution_with P (amend_random E P) in
  levy <- rlist E (n_dims P) "NRO:74" [] ;;
  pb <- uniform E ;;
  pfi <- uniform E ;;
  greedy_each P md corr gea n true (fun idx =>
    i1 <- choice1 E (others n [idx]) ;;
    x <- pop_sol idx ;;
    x1 <- pop_sol i1 ;;
    g <- gb_sol ;;
    u <- uniform E ;;
    if u <= pfi then
      v <- uniform E ;;
      if v <= pb then fm "NRO:90-92" [[fnat ep]; x; x1; g]
      else
        i2 <- choice1 E (others n [idx]) ;;
        x2 <- pop_sol i2 ;;
        fm "NRO:96-98" [[fnat ep]; x; x1; x2; g]
    else
      i3 <- choice1 E (others n [idx]) ;;
      x3 <- pop_sol i3 ;;
      fm "NRO:102-103" [[fnat ep]; x; x3; g]) ;;;
  fits <- all_fits ;;
  greedy_each P md corr gea n true (nro_ion put n fits) ;;;
  fits2 <- all_fits ;;
  greedy_each P md corr gea n true (fun idx =>
    '(i1, i2) <- choose2 E (others n [idx]) ;;
    x <- pop_sol idx ;;
    x1 <- pop_sol i1 ;;
    x2 <- pop_sol i2 ;;
    g <- gb_sol ;;
    r <- rank_at E fits2 idx ;;
    u <- uniform E ;;
    if fnat r / fnat n < u then fm "NRO:164-167" [x; x1; x2; g]
    else
      same <- rtest E "NRO:171" [x1; x2] ;;
      if same : bool then fm "NRO:172" [levy; x; g] else fm "NRO:175-180" [[fnat ep; fnat epochs]; x; x1; x2]).
Definition nro_evolve (n epochs ep : nat) : M unit := nro_phases nro_put n epochs ep.
Definition original_nro (n epochs : nat) := plain_algo E P md tt n epochs false (nro_evolve n epochs).

(** ** human_based/FBIO.py *)
(** The steps A1 (68-86), A2 (87-109), B1 (110-126), B2 (127-147) of DevFBIO.evolve and the same steps of
    OriginalFBIO.evolve (212-231, 233-259, 260-277, 278-298), which differ in the formulas of A1, A2 and B1 and in the random
    position of A2.  probability__ (56-59) is part of the test of line 93, 238. *)
Definition fbio_evolve (corr : vec -> M vec) (fresh_pos : M vec) (a1 a2 b1 : string) (n ep : nat) : M unit :=
  greedy_each P md corr gea n true (fun idx =>
    d <- integers E 0 (n_dims P) ;;
    '(i1, i2) <- choose2 E (others n [idx]) ;;
    x <- pop_sol idx ;;
    x1 <- pop_sol i1 ;;
    x2 <- pop_sol i2 ;;
    fm a1 [[fnat d]; x; x1; x2]) ;;;
  fits <- all_fits ;;
  greedy_back P md corr gea n true (fun idx =>
    u <- uniform E ;;
    if sform E "FBIO:56-59" [[fnat idx]; fits] < u then
      '(r1, r2, r3) <- choose3 E (others n [idx]) ;;
      x <- pop_sol idx ;;
      x1 <- pop_sol r1 ;;
      x2 <- pop_sol r2 ;;
      x3 <- pop_sol r3 ;;
      g <- gb_sol ;;
      fm a2 [x; x1; x2; x3; g]
    else fresh_pos) ;;;
  greedy_each P md corr gea n true (fun idx =>
    x <- pop_sol idx ;;
    g <- gb_sol ;;
    fm b1 [x; g]) ;;;
  greedy_back P md corr gea n true (fun idx =>
    r <- choice1 E (others n [idx]) ;;
    a <- pop_at idx ;;
    b <- pop_at r ;;
    g <- gb_sol ;;
    c <- lift (compare_agents a b (p_mm P)) ;;
    if c : bool then fm "FBIO:133-134" [sol a; sol b; g] else fm "FBIO:137-138" [sol a; sol b; g]).
Definition dev_fbio (n epochs : nat) :=
  plain_algo E P md tt n epochs false (fbio_evolve correct (random_solution P) "FBIO:75-77" "FBIO:96-98" "FBIO:116-117" n).
Definition original_fbio (n epochs : nat) :=
  plain_algo E P md tt n epochs false
    (fbio_evolve (correct_solution_with P (amend_random E P)) (uniform_box E P) "FBIO:219-221" "FBIO:240-245" "FBIO:264-268" n).

(** ** physics_based/LSO.py *)
(** OriginalLSO.amend_solution (LSO.py:104-114): clip with probability Ph, otherwise draw the components out of range. *)
Definition lso_amend (ph : f64) (x : vec) : M vec :=
  u <- uniform E ;;
  if u < ph then amend_clip P x
  else dims P (fun j =>
    if (x.[j] < (p_lb P).[j]) || ((p_ub P).[j] < x.[j]) then uniform_in E (p_lb P).[j] (p_ub P).[j] else ret x.[j]).
(** The scattering stages: lines 203-245 of OriginalLSO.evolve and 373-409 of DevLSO.evolve (LSO.py), equal up to the
    formulas. *)
Definition lso_scatter (corr : vec -> M vec) (ps pe b : f64) (n : nat) : M unit :=
  '(bf, wf) <- extreme_fits E P ;;
  greedy_each P md corr gea n true (fun idx =>
    let denom := bf - wf in
    fa <- pop_fit idx ;;
    let f := if fabs denom < dec 1 1000000000 then #0 else fabs ((fa - bf) / denom) in
    x <- pop_sol idx ;;
    g <- gb_sol ;;
    u <- uniform E ;;
    early <- (if f < u then ret true else v <- uniform E ;; ret (v < ps)) ;;
    if early : bool then
      w <- uniform E ;;
      if w < pe then
        '(i1, i2) <- choose2 E (others n [idx]) ;;
        x1 <- pop_sol i1 ;;
        x2 <- pop_sol i2 ;;
        t <- uniform E ;;
        if t < b then fm "LSO:222-223" [x; x1; x2; g] else fm "LSO:223" [x; x1; x2]
      else fm "LSO:226-227" [x; g]
    else
      '(i1, i2, i3) <- choose3 E (others n [idx]) ;;
      x1 <- pop_sol i1 ;;
      x2 <- pop_sol i2 ;;
      x3 <- pop_sol i3 ;;
      fm "LSO:230-233" [x; x1; x2; x3]).
(** OriginalLSO.evolve (LSO.py:116-245). *)
Definition lso_evolve (ps pe ph b : f64) (n epochs ep : nat) : M unit :=
  let corr := correct_solution_with P (lso_amend ph) in
  p <- get_pop ;;
  let xbar := mean_sol P p in
  greedy_each P md corr gea n true (fun idx =>
    i <- choice1 E (others n [idx]) ;;
    xa <- pop_sol i ;;
    x <- pop_sol idx ;;
    g <- gb_sol ;;
    '(i1, i2) <- choose2 E (others n [idx]) ;;
    x1 <- pop_sol i1 ;;
    x2 <- pop_sol i2 ;;
    fm "LSO:137-189" [[fnat ep / fnat epochs]; xbar; xa; x; g; x1; x2]) ;;;
  lso_scatter corr ps pe b n.
Definition original_lso (ps pe ph b : f64) (n epochs : nat) := plain_algo E P md tt n epochs false (lso_evolve ps pe ph b n epochs).
(** DevLSO.evolve (LSO.py:323-409). *)
Definition dev_lso_evolve (ps pe b : f64) (n epochs ep : nat) : M unit :=
  u <- uniform E ;;
  let a := u * (#1 - fnat ep / fnat epochs) in
  p <- get_pop ;;
  let xbar := mean_sol P p in
  greedy_each P md correct gea n true (fun idx =>
    x <- pop_sol idx ;;
    g <- gb_sol ;;
    '(i1, i2) <- choose2 E (others n [idx]) ;;
    x1 <- pop_sol i1 ;;
    x2 <- pop_sol i2 ;;
    fm "LSO:339-361" [[a]; xbar; x; g; x1; x2]) ;;;
  lso_scatter correct ps pe b n.
Definition dev_lso (ps pe b : f64) (n epochs : nat) := plain_algo E P md tt n epochs false (dev_lso_evolve ps pe b n epochs).

(** ** physics_based/MSO.py (single mode) *)
(** OriginalMSO.evolve (MSO.py:89-163).  The number of evaluations so far is used where the algorithm's paper has the
    epoch (lines 99, 108, 153). *)
Definition mso_count (n epochs nfe : nat) : Z :=
  ftrunc (fceil ((fnat n * (#2 / #3)) * (fZ (Z.of_nat epochs - Z.of_nat nfe + 1) / fnat epochs))).
Definition mso_evolve (n epochs ep : nat) : M unit :=
  (ls <- (ac <- permutation E (n - 1)%nat ;; nfe <- get_nfe ;; ret (sliceZ (mso_count n epochs nfe) (map S ac))) ;;
   l <- gen_each P correct gea ls (fun idx =>
     x <- pop_sol idx ;;
     g <- gb_sol ;;
     nfe <- get_nfe ;;
     fm "MSO:104-137" [[fnat nfe; fnat epochs]; x; g]) ;;
   trim_with E P n l) ;;;
  (ls <- ret (seq 0 n) ;;
   l <- gen_each P correct gea ls (fun idx =>
     x <- pop_sol idx ;;
     g <- gb_sol ;;
     nfe <- get_nfe ;;
     fm "MSO:147-159" [[fnat nfe; fnat epochs]; x; g]) ;;
   trim_with E P n l).

(** ** swarm_based/BeesA.py *)
(** CleverBookBeesA.search_neighborhood (93-110): the best of some neighbours differing in one component.  The component is
    drawn below n_dims - 1, which excludes the last one and raises for a single variable. *)
Definition bees_near (patch : f64) (a : vec) (m : nat) : M (agent unit) :=
  r <- best_new E P md correct gea m (fun _ =>
    t <- integers E 0 (n_dims P - 1)%nat ;;
    fm "BeesA:100-102" [[fnat t; patch]; a]) ;;
  ret (fst r).
(** CleverBookBeesA.evolve (112-133). *)
Definition clever_evolve (n_elites n_others : nat) (patch : f64) (n_sites n_elite_sites : nat) (n ep : nat) : M unit :=
  greedy_ready P md n true (fun idx =>
    if (idx <? n_sites)%nat then
      x <- pop_sol idx ;;
      bees_near patch x (if (idx <? n_elite_sites)%nat then n_elites else n_others)
    else random_agent P gea).
Definition clever_bees (n_elites n_others : nat) (patch : f64) (n_sites n_elite_sites : nat) (n epochs : nat) :=
  plain_algo E P md tt n epochs true (clever_evolve n_elites n_others patch n_sites n_elite_sites n).
End Plain.
Definition original_mso (E : env) (P : problem) (n epochs : nat) := plain_algo E P Single tt n epochs false (mso_evolve E P n epochs).

(** * Classes with agent attributes *)
(** ** swarm_based/HGS.py *)
Section HGS.
Variable E : env.
Variable P : problem.
Variable md : mode.
Notation M := (M f64 unit).
(** OriginalHGS.generate_empty_agent (HGS.py:65-69): the hunger starts at one. *)
Definition hgs_gea : option vec -> M (agent f64) := gea_with P (fun _ => ret #1).
(** OriginalHGS.update_hunger_value__ (HGS.py:76-91) for one agent; [fb], [fw] are the fitness of the current best and worst. *)
Definition hgs_hunger (lh fb fw : f64) (idx : nat) : M unit :=
  r <- uniform E ;;
  a <- pop_at idx ;;
  fa <- lift (fitness a) ;;
  let space := fmean (vmap2 P fsub (p_ub P) (p_lb P)) in
  let h := (fa - fb) / (fw - fb + dec 1 1000000000) * r * #2 * space in
  let h := if h < lh then lh * (#1 + r) else h in
  set_att idx (if feq fb fa then #0 else att a + h).
(** OriginalHGS.evolve (HGS.py:93-143). *)
Definition hgs_evolve (pup lh : f64) (n epochs ep : nat) : M unit :=
  p <- get_pop ;;
  '(_, bs, ws) <- special E P p 1 1 ;;
  b <- lift (getitem bs 0) ;;
  w <- lift (getitem ws 0) ;;
  fb <- lift (fitness b) ;;
  fw <- lift (fitness w) ;;
  for_ n (hgs_hunger lh fb fw) ;;;
  let shrink := #2 * (#1 - fnat ep / fnat epochs) in
  q <- get_pop ;;
  let total := fsuml (map att q) in
  greedy_agents P md n false (fun idx =>
    a <- pop_at idx ;;
    fa <- lift (fitness a) ;;
    let e := sform E "HGS:71-74" [[fa - fb]] in
    u1 <- uniform E ;;
    let r := #2 * shrink * u1 - shrink in
    u2 <- uniform E ;;
    w1 <- (if u2 < pup then u3 <- uniform E ;; ret (att a * fnat n / (total + dec 1 1000000000) * u3) else ret #1) ;;
    u4 <- uniform E ;;
    let w2 := (#1 - exp_ E (fneg (fabs (att a - total)))) * u4 * #2 in
    r1 <- uniform E ;;
    r2 <- uniform E ;;
    x <- (if r1 < pup then rform E P "HGS:129" [sol a]
          else ret (vtab P (fun j => let d := r * w2 * fabs ((sol b).[j] - (sol a).[j]) in
                                     if e < r2 then w1 * (sol b).[j] + d else w1 * (sol b).[j] - d))) ;;
    y <- correct_solution P x ;;
    ret (idx, mkAgent y (tgt a) (att a))).
Definition original_hgs (pup lh : f64) (n epochs : nat) :=
  agent_algo E md hgs_gea (ga_of P hgs_gea) n epochs false (ret tt) (ret tt) (hgs_evolve pup lh n epochs).
End HGS.
