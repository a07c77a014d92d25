(** Model of mealpy's algorithm classes, part 15: the classes that update the best solution inside an epoch.  The conventions
    are those of MClass1. *)
From Verif Require Import Prelude Fl MCore MHelp MAlg MAlg2 MAlg3 MAlg4 MAlg5 MAlg6 MAlg7 MAlg8.
Local Open Scope f_scope.

(** ** swarm_based/AGTO.py *)
Section AGTO.
Variable E : env.
Variable P : problem.
Variable md : mode.
Notation gea := (generate_empty_agent (A := unit) (X := unit) P tt).
Notation correct := (correct_solution P).
Notation M := (M unit unit).
Notation fm := (rform E P).
(** Lines 77-78. *)
Definition agto_ac (epochs ep : nat) : M (f64 * f64) :=
  u <- uniform E ;;
  let a := (cos_ E (#2 * u) + #1) * (#1 - fnat ep / fnat epochs) in
  v <- uniform E ;;
  ret (a, a * (#2 * v - #1)).
(** Exploration (80-101). *)
Definition agto_explore (n : nat) (p1 a c : f64) : M unit :=
  greedy_each P md correct gea n true (fun idx =>
    b <- coin E p1 ;;
    if b then random_solution P
    else
      u <- uniform E ;;
      if (dec 5 10 <= u)%F then
        i <- integers E 0 n ;;
        xr <- pop_sol i ;;
        x <- pop_sol idx ;;
        fm "AGTO:86-88" [[a; c]; xr; x]
      else
        '(i, j) <- choose2 E (others n [idx]) ;;
        x <- pop_sol idx ;;
        x1 <- pop_sol i ;;
        x2 <- pop_sol j ;;
        fm "AGTO:91-92" [[c]; x; x1; x2]).
(** Exploitation (104-127). *)
Definition agto_exploit (n : nat) (p2 beta a c : f64) : M unit :=
  xs <- all_sols ;;
  greedy_each P md correct gea n true (fun idx =>
    g <- gb_sol ;;
    x <- pop_sol idx ;;
    if (p2 <= a)%F then fm "AGTO:109-111" ([c] :: g :: x :: xs)
    else fm "AGTO:113-118" [[beta]; g; x]).
(** OriginalAGTO.evolve (70-127). *)
Definition agto_evolve (p1 p2 beta : f64) (n epochs ep : nat) : M unit :=
  '(a, c) <- agto_ac epochs ep ;;
  agto_explore n p1 a c ;;; refresh E P false ;;; agto_exploit n p2 beta a c.
Definition original_agto (p1 p2 beta : f64) (n epochs : nat) :=
  plain_algo E P md tt n epochs false (agto_evolve p1 p2 beta n epochs).

(** MGTO.amend_solution (185-188) is the one of [amend_random]. *)
Notation mcorrect := (correct_solution_with P (amend_random E P)).
(** Lines 197-199. *)
Definition mgto_cl (epochs ep : nat) : M (f64 * f64) :=
  u <- uniform E ;;
  let c := (#1 + cos_ E (#2 * u)) * (#1 - fnat ep / fnat epochs) in
  k <- integers E 0 2 ;;
  ret (c, c * (if (k =? 0)%nat then fneg (#1) else #1)).
(** Elite opposition-based learning (202-214). *)
Definition mgto_oppose (n : nat) : M unit :=
  xs <- all_sols ;;
  replace_all P md mcorrect gea n (fun idx => x <- lift (getitem xs idx) ;; fm "AGTO:203-204" (x :: xs)).
(** Exploration (218-238). *)
Definition mgto_explore (n : nat) (pp c l : f64) : M unit :=
  greedy_each P md mcorrect gea n true (fun idx =>
    b <- coin E pp ;;
    if b then random_solution P
    else
      u <- uniform E ;;
      if (dec 5 10 <= u)%F then
        i <- integers E 0 n ;;
        xr <- pop_sol i ;;
        x <- pop_sol idx ;;
        fm "AGTO:225" [[c; l]; xr; x]
      else
        '(i, j) <- choose2 E (others n [idx]) ;;
        x <- pop_sol idx ;;
        x1 <- pop_sol i ;;
        x2 <- pop_sol j ;;
        fm "AGTO:228-229" [[l]; x; x1; x2]).
(** Exploitation (241-263). *)
Definition mgto_exploit (n : nat) (c l : f64) : M unit :=
  xs <- all_sols ;;
  greedy_each P md mcorrect gea n true (fun idx =>
    g <- gb_sol ;;
    x <- pop_sol idx ;;
    if (#1 <= fabs c)%F then fm "AGTO:246-250" ([l] :: g :: x :: xs)
    else fm "AGTO:252-254" [g; x]).
(** MGTO.evolve (190-263). *)
Definition mgto_evolve (pp : f64) (n epochs ep : nat) : M unit :=
  '(c, l) <- mgto_cl epochs ep ;;
  mgto_oppose n ;;; refresh E P false ;;; (mgto_explore n pp c l ;;; refresh E P false ;;; mgto_exploit n c l).
Definition mgto (pp : f64) (n epochs : nat) := plain_algo E P md tt n epochs false (mgto_evolve pp n epochs).
End AGTO.

(** ** swarm_based/GTO.py *)
Section GTO.
Variable E : env.
Variable P : problem.
Variable md : mode.
Notation gea := (generate_empty_agent (A := unit) (X := unit) P tt).
Notation correct := (correct_solution P).
Notation M := (M unit unit).
Notation fm := (rform E P).
(** Step 1 of OriginalGTO.evolve (89-102), the same in Matlab102GTO.evolve (211-224). *)
Definition gto_search (n : nat) : M unit :=
  greedy_each P md correct gea n true (fun _ => g <- gb_sol ;; fm "GTO:92-93" [g; p_lb P; p_ub P]).
(** Step 2 of OriginalGTO.evolve (106-120), the same in Matlab101GTO.evolve (355-372): the mean is taken once. *)
Definition gto_choose (a : f64) (n : nat) : M unit :=
  p <- get_pop ;;
  greedy_each P md correct gea n true (fun idx =>
    r <- uniform E ;;
    g <- gb_sol ;;
    x <- pop_sol idx ;;
    let m := mean_sol P p in
    ret (vtab P (fun j => g.[j] * a * r + m.[j] - x.[j] * r))).
(** Step 2 of Matlab102GTO.evolve (228-245): the mean is taken for each agent. *)
Definition gto_choose_each (a : f64) (n : nat) : M unit :=
  greedy_each P md correct gea n true (fun idx =>
    p <- get_pop ;;
    r <- uniform E ;;
    g <- gb_sol ;;
    x <- pop_sol idx ;;
    let m := mean_sol P p in
    ret (vtab P (fun j => g.[j] * a * r + m.[j] - x.[j] * r))).
(** Step 3 of OriginalGTO.evolve (124-142), the same up to constants in Matlab102GTO.evolve (249-269). *)
Definition gto_attack (h : f64) (n epochs ep : nat) : M unit :=
  u <- uniform E ;;
  let h' := u * h * (#1 - fnat ep / fnat epochs) in
  greedy_each P md correct gea n true (fun idx =>
    g <- gb_sol ;;
    x <- pop_sol idx ;;
    f <- pop_fit idx ;;
    fm "GTO:128-133" [[f; h']; g; x]).
(** OriginalGTO.evolve (81-142). *)
Definition gto_evolve (a h : f64) (n epochs ep : nat) : M unit :=
  gto_search n ;;; refresh E P true ;;; (gto_choose a n ;;; refresh E P false ;;; gto_attack h n epochs ep).
Definition original_gto (a h : f64) (n epochs : nat) := plain_algo E P md tt n epochs true (gto_evolve a h n epochs).
(** Matlab102GTO.evolve (203-269). *)
Definition gto102_evolve (n epochs ep : nat) : M unit :=
  gto_search n ;;; refresh E P true ;;; (gto_choose_each (dec 4 10) n ;;; refresh E P true ;;; gto_attack (#2) n epochs ep).
Definition matlab102_gto (n epochs : nat) := plain_algo E P md tt n epochs true (gto102_evolve n epochs).

(** self.pop[idx], _ = self.get_best_agent(pop_new + [self.pop[idx]], minmax), pop_new holding [m] new agents (338-351). *)
Definition best_join (m idx : nat) (cand : nat -> M vec) : M unit :=
  new <- new_agents P md correct gea m cand ;;
  old <- pop_at idx ;;
  b <- lift (get_best_agent (e_argsort E) (new ++ [old])%list (p_mm P)) ;;
  pop_set idx (fst b).
(** Step 1 of Matlab101GTO.evolve (337-351).  The inner loop leaves out one of pop_size rounds. *)
Definition gto101_search (n : nat) : M unit :=
  for_ n (fun idx => best_join (n - 1) idx (fun _ => g <- gb_sol ;; fm "GTO:343-344" [g; p_lb P; p_ub P])).
(** Step 3 (376-397). *)
Definition gto101_attack (n epochs ep : nat) : M unit :=
  u <- uniform E ;;
  let h := u * #2 * (#1 - fnat ep / fnat epochs) in
  for_ n (fun idx => best_join (n - 1) idx (fun _ =>
    g <- gb_sol ;;
    x <- pop_sol idx ;;
    f <- pop_fit idx ;;
    fm "GTO:383-390" [[f; h]; g; x])).
(** Matlab101GTO.evolve (329-397). *)
Definition gto101_evolve (n epochs ep : nat) : M unit :=
  gto101_search n ;;; refresh E P false ;;; (gto_choose (dec 4 10) n ;;; refresh E P false ;;; gto101_attack n epochs ep).
Definition matlab101_gto (n epochs : nat) := plain_algo E P md tt n epochs true (gto101_evolve n epochs).
End GTO.

(** ** swarm_based/MRFO.py *)
(** Lines 115, 254 and 270 keep the new best in a local variable; self.g_best is not read again before the main loop sets it, so the
    model sets it at once. *)
Section MRFO.
Variable E : env.
Variable P : problem.
Variable md : mode.
Notation gea := (generate_empty_agent (A := unit) (X := unit) P tt).
Notation correct := (correct_solution P).
Notation M := (M unit unit).
Notation fm := (rform E P).
(** self.pop[idx - 1].solution, or [d] for the first agent. *)
Definition mrfo_before (idx : nat) (d : vec) : M vec := if (idx =? 0)%nat then ret d else pop_sol (idx - 1)%nat.
(** Lines 74-114. *)
Definition mrfo_forage (n epochs ep : nat) : M unit :=
  greedy_each P md correct gea n false (fun idx =>
    g <- gb_sol ;;
    x <- pop_sol idx ;;
    c <- coin E (dec 5 10) ;;
    if c then
      r <- uniform E ;;
      let beta := #2 * exp_ E (r * (fnat epochs - fnat ep) / fnat epochs) * sin_ E (#2 * pi_ E * r) in
      u <- uniform E ;;
      if ((fnat ep + #1) / fnat epochs < u)%F then
        xr <- uniform_box E P ;;
        y <- mrfo_before idx xr ;;
        v <- uniform E ;;
        ret (vtab P (fun j => xr.[j] + v * (y.[j] - x.[j]) + beta * (xr.[j] - x.[j])))
      else
        y <- mrfo_before idx g ;;
        v <- uniform E ;;
        ret (vtab P (fun j => g.[j] + v * (y.[j] - x.[j]) + beta * (g.[j] - x.[j])))
    else
      r <- uniform E ;;
      let alpha := #2 * r * sqrt_ E (fabs (log_ E r)) in
      y <- mrfo_before idx g ;;
      ret (vtab P (fun j => x.[j] + r * (y.[j] - x.[j]) + alpha * (g.[j] - x.[j])))).
(** Somersault foraging (116-129), the same in WMQIMRFO.evolve (257-269). *)
Definition mrfo_somersault (range : f64) (n : nat) : M unit :=
  greedy_each P md correct gea n false (fun idx =>
    x <- pop_sol idx ;;
    g <- gb_sol ;;
    u <- uniform E ;;
    v <- uniform E ;;
    ret (vtab P (fun j => x.[j] + range * (u * g.[j] - v * x.[j])))).
(** OriginalMRFO.evolve (67-129). *)
Definition mrfo_evolve (range : f64) (n epochs ep : nat) : M unit :=
  mrfo_forage n epochs ep ;;; refresh E P false ;;; mrfo_somersault range n.
Definition original_mrfo (range : f64) (n epochs : nat) := plain_algo E P md tt n epochs false (mrfo_evolve range n epochs).

(** Lines 197-253.  self.pop[idx-1] is the last agent for idx = 0 (200), but is not read then. *)
Definition wmqi_forage (pm : f64) (n epochs ep : nat) : M unit :=
  greedy_each P md correct gea n false (fun idx =>
    g <- gb_sol ;;
    x <- pop_sol idx ;;
    theta <- rnum E "MRFO:204-209" [[fnat ep / fnat epochs]] ;;
    c <- coin E (dec 5 10) ;;
    if c then
      let coef := log_ E (#1 + (exp_ E (#1) - #1) * fnat ep / fnat epochs) in
      r <- uniform E ;;
      let beta := #2 * exp_ E (r * (fnat epochs - fnat ep) / fnat epochs) * sin_ E (#2 * pi_ E * r) in
      u <- uniform E ;;
      if (coef < u)%F then
        xr <- random_solution P ;;
        y <- mrfo_before idx xr ;;
        b <- coin E pm ;;
        if b then
          v <- uniform E ;;
          ret (vtab P (fun j => xr.[j] + v * (y.[j] - x.[j]) + beta * (xr.[j] - x.[j])))
        else fm "MRFO:225-232" [[beta; theta]; xr; y; x; p_lb P; p_ub P]
      else
        y <- mrfo_before idx g ;;
        v <- uniform E ;;
        ret (vtab P (fun j => g.[j] + v * (y.[j] - x.[j]) + beta * (g.[j] - x.[j])))
    else
      r <- uniform E ;;
      let alpha := #2 * r * sqrt_ E (fabs (log_ E r)) in
      y <- mrfo_before idx g ;;
      ret (vtab P (fun j => x.[j] + r * (y.[j] - x.[j]) + alpha * (g.[j] - x.[j])))).
(** Quadratic interpolation (273-293): the next two agents, around the end. *)
Definition wmqi_next (n idx : nat) : nat * nat :=
  if (idx =? n - 1)%nat then (0, 1)%nat else if (idx =? n - 2)%nat then ((idx + 1)%nat, 0%nat) else ((idx + 1)%nat, (idx + 2)%nat).
Definition wmqi_interpolate (n : nat) : M unit :=
  greedy_each P md correct gea n false (fun idx =>
    let i2 := fst (wmqi_next n idx) in
    let i3 := snd (wmqi_next n idx) in
    f1 <- pop_fit idx ;;
    f2 <- pop_fit i2 ;;
    f3 <- pop_fit i3 ;;
    x1 <- pop_sol idx ;;
    x2 <- pop_sol i2 ;;
    x3 <- pop_sol i3 ;;
    fm "MRFO:282-284" [[f1; f2; f3]; x1; x2; x3]).
(** WMQIMRFO.evolve (190-293). *)
Definition wmqi_evolve (range pm : f64) (n epochs ep : nat) : M unit :=
  wmqi_forage pm n epochs ep ;;; refresh E P false ;;;
  (mrfo_somersault range n ;;; refresh E P true ;;; wmqi_interpolate n).
Definition wmqi_mrfo (range pm : f64) (n epochs : nat) := plain_algo E P md tt n epochs false (wmqi_evolve range pm n epochs).
End MRFO.
