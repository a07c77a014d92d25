(** Algorithm classes, part 5: differential evolution, harmony search, grey wolf, whale and annealing families.
    No proofs here.  Simplifications: see MClass1. *)
From Verif Require Import Prelude Fl MCore MHelp MAlg MAlg2 MAlg3.
Local Open Scope f_scope.

Section Plain.
Variable E : env.
Variable P : problem.
Variable md : mode.
Notation gea := (generate_empty_agent (A := unit) (X := unit) P tt).
Notation correct := (correct_solution P).
Notation M := (M unit unit).
Notation fm := (rform E P).

(** ** evolutionary_based/DE.py *)
(** OriginalDE.mutation__ (83-86), before the correction. *)
Definition de_mutation (cr : f64) (x y : vec) : M vec :=
  u <- uvec E P ;; ret (vtab P (fun j => if u.[j] < cr then y.[j] else x.[j])).
(** The new position of agent [idx] under each strategy (98-101, 108-111, 118-122, 129-133, 140-144, 151-155). *)
Definition de_cand (wf cr : f64) (strategy n idx : nat) : M vec :=
  match strategy with
  | 0 =>
    '(i0, i1, i2) <- choose3 E (others n [idx]) ;;
    x <- pop_sol idx ;; x0 <- pop_sol i0 ;; x1 <- pop_sol i1 ;; x2 <- pop_sol i2 ;;
    de_mutation cr x (vtab P (fun j => x0.[j] + wf * (x1.[j] - x2.[j])))
  | 1 =>
    '(i0, i1) <- choose2 E (others n [idx]) ;;
    x <- pop_sol idx ;; g <- gb_sol ;; x0 <- pop_sol i0 ;; x1 <- pop_sol i1 ;;
    de_mutation cr x (vtab P (fun j => g.[j] + wf * (x0.[j] - x1.[j])))
  | 2 =>
    '(i0, i1, i2, i3) <- choose4 E (others n [idx]) ;;
    x <- pop_sol idx ;; g <- gb_sol ;; x0 <- pop_sol i0 ;; x1 <- pop_sol i1 ;; x2 <- pop_sol i2 ;; x3 <- pop_sol i3 ;;
    de_mutation cr x (vtab P (fun j => g.[j] + wf * (x0.[j] - x1.[j]) + wf * (x2.[j] - x3.[j])))
  | 3 =>
    '(i0, i1, i2, i3, i4) <- choose5 E (others n [idx]) ;;
    x <- pop_sol idx ;; x0 <- pop_sol i0 ;; x1 <- pop_sol i1 ;; x2 <- pop_sol i2 ;; x3 <- pop_sol i3 ;; x4 <- pop_sol i4 ;;
    de_mutation cr x (vtab P (fun j => x0.[j] + wf * (x1.[j] - x2.[j]) + wf * (x3.[j] - x4.[j])))
  | 4 =>
    '(i0, i1) <- choose2 E (others n [idx]) ;;
    x <- pop_sol idx ;; g <- gb_sol ;; x0 <- pop_sol i0 ;; x1 <- pop_sol i1 ;;
    de_mutation cr x (vtab P (fun j => x.[j] + wf * (g.[j] - x.[j]) + wf * (x0.[j] - x1.[j])))
  | _ =>
    '(i0, i1, i2) <- choose3 E (others n [idx]) ;;
    x <- pop_sol idx ;; x0 <- pop_sol i0 ;; x1 <- pop_sol i1 ;; x2 <- pop_sol i2 ;;
    de_mutation cr x (vtab P (fun j => x.[j] + wf * (x0.[j] - x.[j]) + wf * (x1.[j] - x2.[j])))
  end.
(** OriginalDE.evolve (88-163). *)
Definition de_evolve (wf cr : f64) (strategy n ep : nat) : M unit :=
  greedy_each P md correct gea n true (de_cand wf cr strategy n).
Definition original_de (wf cr : f64) (strategy n epochs : nat) := plain_algo E P md tt n epochs false (de_evolve wf cr strategy n).

(** SADE.evolve (375-438).  The attributes crm and p1 keep their initial value 0.5: lines 433 and 436 test
    epoch / 5 == 0 and epoch / 50 == 0, which no epoch >= 1 satisfies, so the success counters influence nothing and are
    left out. *)
Definition sade_evolve (n ep : nat) : M unit :=
  accept_batch P md n (fun idx =>
    cr <- rnum E "DE:387-388" [[dec 1 2]] ;;
    f <- rnum E "DE:390-396" [] ;;
    '(i1, i2, i3) <- choose3 E (others n [idx]) ;;
    x <- pop_sol idx ;; x1 <- pop_sol i1 ;; x2 <- pop_sol i2 ;; x3 <- pop_sol i3 ;;
    g <- gb_sol ;;
    u <- uniform E ;;
    let y := if u < dec 1 2 then vtab P (fun j => x1.[j] + f * (x2.[j] - x3.[j]))
             else vtab P (fun j => x.[j] + f * (g.[j] - x.[j]) + f * (x1.[j] - x2.[j])) in
    v <- uvec E P ;;
    k <- integers E 0 (n_dims P) ;;
    propose correct gea (vtab P (fun j => if v.[j] < cr then y.[j] else if Nat.eqb j k then y.[j] else x.[j])))
  (fun _ _ _ _ => ret tt).
Definition sade (n epochs : nat) := plain_algo E P md tt n epochs false (sade_evolve n).

(** ** swarm_based/GWO.py *)
(** [_, list_best, _ = self.get_special_agents(self.pop, n_best=3, minmax=...)] and the uses of list_best[0..2]. *)
Definition leaders : M (vec * vec * vec) :=
  p <- get_pop ;;
  '(_, best, _) <- special E P p 3 3 ;;
  b1 <- lift (getitem best 0) ;;
  b2 <- lift (getitem best 1) ;;
  b3 <- lift (getitem best 2) ;;
  ret (sol b1, sol b2, sol b3).
(** A_i and C_i (80-85): [a (2 u - 1)] and [2 u]. *)
Definition gwo_A (a : f64) : M vec := u <- uvec E P ;; ret (vtab P (fun j => a * (#2 * u.[j] - #1))).
Definition gwo_C : M vec := u <- uvec E P ;; ret (vtab P (fun j => #2 * u.[j])).
(** X_i (86): [b - A |C b - x|]. *)
Definition gwo_X (A C b x : vec) : vec := vtab P (fun j => b.[j] - A.[j] * fabs (C.[j] * b.[j] - x.[j])).
(** The three encircling positions (80-88). *)
Definition gwo_three (a1 a2 a3 : f64) (b1 b2 b3 : vec) (idx : nat) : M (vec * vec * vec) :=
  A1 <- gwo_A a1 ;; A2 <- gwo_A a2 ;; A3 <- gwo_A a3 ;;
  C1 <- gwo_C ;; C2 <- gwo_C ;; C3 <- gwo_C ;;
  x <- pop_sol idx ;;
  ret (gwo_X A1 C1 b1 x, gwo_X A2 C2 b2 x, gwo_X A3 C3 b3 x).
Definition mean3 (v : vec * vec * vec) : vec :=
  let '(x, y, z) := v in vtab P (fun j => (x.[j] + y.[j] + z.[j]) / #3).
Definition gwo_move (a : f64) (b : vec * vec * vec) (idx : nat) : M vec :=
  let '(b1, b2, b3) := b in
  v <- gwo_three a a a b1 b2 b3 idx ;; ret (mean3 v).
(** OriginalGWO.evolve (68-98). *)
Definition gwo_evolve (n epochs ep : nat) : M unit :=
  let a := #2 - #2 * fnat ep / fnat epochs in
  b <- leaders ;;
  greedy_each P md correct gea n true (gwo_move a b).
Definition original_gwo (n epochs : nat) := plain_algo E P md tt n epochs false (gwo_evolve n epochs).
(** GWO_WOA.evolve (253-288). *)
Definition gwo_woa_evolve (n epochs ep : nat) : M unit :=
  let a := #2 - fnat ep / fnat epochs in
  b <- leaders ;;
  greedy_each P md correct gea n true (fun idx =>
    let '(b1, b2, b3) := b in
    A1 <- gwo_A a ;; A2 <- gwo_A a ;; A3 <- gwo_A a ;;
    C1 <- gwo_C ;; C2 <- gwo_C ;; C3 <- gwo_C ;;
    x <- pop_sol idx ;;
    u <- uniform E ;;
    da <- (if u < dec 1 2
           then r <- uniform E ;; ret (vtab P (fun j => r * fabs (C1.[j] * b1.[j] - x.[j])))
           else r <- uniform E ;; l <- uniform_in E (fneg #1) #1 ;;
                ret (vtab P (fun j => r * exp_ E (#1 * l) * cos_ E (#2 * pi_ E * l) * fabs (C1.[j] * b1.[j] - x.[j])))) ;;
    ret (mean3 (vtab P (fun j => b1.[j] - A1.[j] * da.[j]), gwo_X A2 C2 b2 x, gwo_X A3 C3 b3 x))).
Definition gwo_woa (n epochs : nat) := plain_algo E P md tt n epochs false (gwo_woa_evolve n epochs).
(** IGWO.evolve (348-380). *)
Definition igwo_evolve (a_min a_max : f64) (n epochs ep : nat) : M unit :=
  let coef (k : Z) := a_max * exp_ E (pow_ E (fnat ep / fnat epochs) (fZ k) * log_ E (a_min / a_max)) in
  let a_alpha := coef 2%Z in
  let a_delta := coef 3%Z in
  let a_beta := (a_alpha + a_delta) * dec 1 2 in
  b <- leaders ;;
  greedy_each P md correct gea n true (fun idx =>
    let '(b1, b2, b3) := b in
    v <- gwo_three a_alpha a_beta a_delta b1 b2 b3 idx ;; ret (mean3 v)).
Definition igwo (a_min a_max : f64) (n epochs : nat) := plain_algo E P md tt n epochs false (igwo_evolve a_min a_max n epochs).
(** FuzzyGWO.evolve (561-595).  The three fuzzy weights depend on the epoch and the operator's name only. *)
Definition fuzzy_gwo_evolve (name : string) (n epochs ep : nat) : M unit :=
  let a := #2 - #2 * fnat ep / fnat epochs in
  let w (k : nat) := sform E ("GWO:584 " ++ name) [[fnat k; fnat ep; fnat epochs]] in
  b <- leaders ;;
  greedy_each P md correct gea n true (fun idx =>
    let '(b1, b2, b3) := b in
    '(x, y, z) <- gwo_three a a a b1 b2 b3 idx ;;
    ret (vtab P (fun j => (x.[j] * w 0%nat + y.[j] * w 1%nat + z.[j] * w 2%nat) / (w 0%nat + w 1%nat + w 2%nat)))).
Definition fuzzy_gwo (name : string) (n epochs : nat) := plain_algo E P md tt n epochs false (fuzzy_gwo_evolve name n epochs).
(** IncrementalGWO.evolve (659-690). *)
Definition incremental_gwo_evolve (factor : f64) (n epochs ep : nat) : M unit :=
  let a := #2 * (#1 - pow_ E (fnat ep / fnat epochs) factor) in
  p <- get_pop ;;
  '(sorted, best, _) <- special E P p 3 3 ;;
  b1 <- lift (getitem best 0) ;;
  greedy_each P md correct gea n true (fun idx =>
    if Nat.eqb idx 0 then A1 <- gwo_A a ;; C1 <- gwo_C ;; x <- pop_sol idx ;; ret (gwo_X A1 C1 (sol b1) x)
    else ret (mean_sol P (firstn idx sorted ++ skipn (S idx) sorted)%list)).
Definition incremental_gwo (factor : f64) (n epochs : nat) := plain_algo E P md tt n epochs false (incremental_gwo_evolve factor n epochs).
(** ExGWO.evolve (744-780). *)
Definition ex_gwo_evolve (n epochs ep : nat) : M unit :=
  let a := #2 * (#1 - fnat ep / fnat epochs) in
  p <- get_pop ;;
  '(sorted, best, _) <- special E P p 3 3 ;;
  greedy_each P md correct gea n true (fun idx =>
    if Nat.ltb idx 3
    then A1 <- gwo_A a ;; C1 <- gwo_C ;; b <- lift (getitem best idx) ;; x <- pop_sol idx ;; ret (gwo_X A1 C1 (sol b) x)
    else ret (mean_sol P (firstn idx sorted))).
Definition ex_gwo (n epochs : nat) := plain_algo E P md tt n epochs false (ex_gwo_evolve n epochs).
(** ER_GWO.evolve (1221-1260). *)
Definition er_gwo_evolve (a_initial a_final miu : f64) (n epochs ep : nat) : M unit :=
  let a := a_initial - (a_initial - a_final) * pow_ E miu (fnat ep) in
  b <- leaders ;;
  greedy_each P md correct gea n true (fun idx =>
    let '(b1, b2, b3) := b in
    v <- gwo_three a a a b1 b2 b3 idx ;;
    let '(x, y, z) := v in
    let dx := sform E "np.linalg.norm" [x] in
    let dy := sform E "np.linalg.norm" [y] in
    let dz := sform E "np.linalg.norm" [z] in
    let total := dx + dy + dz in
    ret (if feq total #0 then mean3 v
         else vtab P (fun j => (x.[j] * dx + y.[j] * dy + z.[j] * dz) / total))).
Definition er_gwo (a_initial a_final miu : f64) (n epochs : nat) :=
  plain_algo E P md tt n epochs false (er_gwo_evolve a_initial a_final miu n epochs).
(** The list [l] of agents improved by random moves (RW_GWO.evolve, 164-176): in single mode each new agent that is
    better takes its slot at once, otherwise all are compared together. *)
Definition improve_list (l : list (agent unit)) (cand : nat -> agent unit -> M vec) : M (list (agent unit)) :=
  r <- for_acc (List.length l) 0 (l, []) (fun idx lr =>
    let '(l, new) := lr in
    b <- lift (getitem l idx) ;;
    x <- cand idx b ;;
    a <- propose correct gea x ;;
    if is_avail md then ret (l, (new ++ [a])%list)
    else
      a' <- evaluate P a ;;
      c <- lift (get_better_agent a' b (p_mm P) false) ;;
      ret (upd l idx c, (new ++ [a'])%list)) ;;
  let '(l', new) := r in
  if is_avail md
  then new' <- update_target_for_population P md new ;; lift (greedy_selection_population l' new' (p_mm P))
  else ret l'.
(** RW_GWO.evolve (151-201). *)
Definition rw_gwo_evolve (n epochs ep : nat) : M unit :=
  let a := #2 - #2 * fnat ep / fnat epochs in
  p <- get_pop ;;
  '(_, best, _) <- special E P p 3 3 ;;
  l <- improve_list best (fun _ b => fm "GWO:167" [sol b; [a]]) ;;
  b1 <- lift (getitem l 0) ;;
  b2 <- lift (getitem l 1) ;;
  b3 <- lift (getitem l 2) ;;
  greedy_each P md correct gea n true (fun idx => x <- pop_sol idx ;; g <- gb_sol ;; fm "GWO:182-191" [sol b1; sol b2; sol b3; g; x; [a]]) ;;;
  p <- get_pop ;;
  q <- lift (get_sorted_and_trimmed_population (e_argsort E) (p ++ l) n (p_mm P)) ;;
  set_pop q.
Definition rw_gwo (n epochs : nat) := plain_algo E P md tt n epochs false (rw_gwo_evolve n epochs).
(** DS_GWO: group_stage_competition (875-908), run by before_main_loop (855-859); delta_candidates, alpha and beta are
    never read afterwards and are dropped here. *)
Definition ds_gwo_groups (n n_groups : nat) : M unit :=
  let m := Nat.div n n_groups in
  cand <- for_acc n_groups 0 [] (fun idx l =>
    p <- get_pop ;;
    let hi := if Nat.eqb idx (n_groups - 1) then n else ((idx + 1) * m)%nat in
    '(g, _) <- lift (get_sorted_population (e_argsort E) (slice (idx * m)%nat hi p) (p_mm P)) ;;
    b <- lift (getitem g 0) ;;
    ret (l ++ [b])%list) ;;
  '(_, best, _) <- special E P cand 1 3 ;;
  alpha <- lift (getitem best 0) ;;
  k <- lift (np_argmax (map (fun d => sform E "np.linalg.norm" [vtab P (fun j => (sol d).[j] - (sol alpha).[j])]) cand)) ;;
  _ <- lift (getitem cand k) ;;
  ret tt.
(** The class does not override evolve, which does nothing (optimizer.py:160-161). *)
Definition ds_gwo (n_groups n epochs : nat) :=
  agent_algo E md gea (ga_of P gea) n epochs false (ret tt) (ds_gwo_groups n n_groups) (fun _ => ret tt).
(** The exploration move shared by IOBL_GWO (981-990) and CG_GWO (1368-1377). *)
Definition explore (n idx : nat) (best : vec) : M vec :=
  r1 <- uniform E ;; r2 <- uniform E ;; r3 <- uniform E ;; r4 <- uniform E ;; r5 <- uniform E ;;
  if fle (dec 1 2) r5
  then
    jdx <- choice1 E (others n [idx]) ;;
    y <- pop_sol jdx ;;
    x <- pop_sol idx ;;
    ret (vtab P (fun j => y.[j] - r1 * fabs (y.[j] - #2 * r2 * x.[j])))
  else
    p <- get_pop ;;
    let m := mean_sol P p in
    ret (vtab P (fun j => best.[j] - m.[j] - r3 * ((p_lb P).[j] + r4 * ((p_ub P).[j] - (p_lb P).[j])))).
(** Opposite position lb + ub - x (1023, 1101, 1145). *)
Definition opposite (x : vec) : vec := vtab P (fun j => (p_lb P).[j] + (p_ub P).[j] - x.[j]).
(** IOBL_GWO.evolve (969-1031).  The opposite positions are evaluated without being corrected (1023-1025); the
    comparison is with the agent at indices[-3+idx] but slot idx is overwritten (1030-1031). *)
Definition iobl_gwo_evolve (n epochs ep : nat) : M unit :=
  let a := #2 - #2 * fnat ep / fnat epochs in
  b <- leaders ;;
  for_ n (fun idx =>
    x <- explore n idx (fst (fst b)) ;;
    r <- try_improve_b P correct gea idx x ;;
    when (negb (fst r)) (y <- gwo_move a b idx ;; try_improve P correct gea idx y)) ;;;
  p <- get_pop ;;
  '(sorted, ix) <- lift (get_sorted_population (e_argsort E) p (p_mm P)) ;;
  obl <- collect 3 (fun k => b <- lift (getitem sorted k) ;; gen_at P gea (opposite (sol b))) ;;
  for_ 3 (fun idx =>
    o <- lift (getitem obl idx) ;;
    i <- lift (getitem ix (n - 3 + idx)%nat) ;;
    w <- pop_at i ;;
    c <- lift (compare_agents o w (p_mm P)) ;;
    when c (pop_set idx o)).
Definition iobl_gwo (n epochs : nat) := plain_algo E P Single tt n epochs false (iobl_gwo_evolve n epochs).
(** CG_GWO.cauchy_gaussian_mutation (1314-1333). *)
Definition cg_mutation (best leader : agent unit) (n epochs ep : nat) : M vec :=
  f <- lift (fitness best) ;;
  fl <- lift (fitness leader) ;;
  fm "GWO:1319-1332" [sol leader; [f; fl; fnat ep / fnat epochs]].
(** CG_GWO.evolve (1335-1398).  The leaders' mutants are evaluated but never enter the population; a second candidate is
    made when the old agent is better than the first, otherwise the first is kept even when it is not better. *)
Definition cg_gwo_evolve (n epochs ep : nat) : M unit :=
  let a := #2 - #2 * fnat ep / fnat epochs in
  p <- get_pop ;;
  '(_, best, _) <- special E P p 3 3 ;;
  b1 <- lift (getitem best 0) ;;
  b2 <- lift (getitem best 1) ;;
  b3 <- lift (getitem best 2) ;;
  x1 <- cg_mutation b1 b1 n epochs ep ;;
  m1 <- gen_agent P correct gea x1 ;;
  x2 <- cg_mutation b1 b2 n epochs ep ;;
  m2 <- gen_agent P correct gea x2 ;;
  x3 <- cg_mutation b1 b3 n epochs ep ;;
  m3 <- gen_agent P correct gea x3 ;;
  l1 <- lift (get_better_agent m1 b1 (p_mm P) false) ;;
  l2 <- lift (get_better_agent m2 b2 (p_mm P) false) ;;
  l3 <- lift (get_better_agent m3 b3 (p_mm P) false) ;;
  for_ n (fun idx =>
    x <- explore n idx (sol l1) ;;
    ag <- gen_agent P correct gea x ;;
    old <- pop_at idx ;;
    c <- lift (compare_agents old ag (p_mm P)) ;;
    ag' <- (if c : bool then y <- gwo_move a (sol l1, sol l2, sol l3) idx ;; gen_agent P correct gea y else ret ag) ;;
    accept P idx ag').
Definition cg_gwo (n epochs : nat) := plain_algo E P Single tt n epochs false (cg_gwo_evolve n epochs).
(** OGWO: opposition (1098-1106, 1143-1150), evaluated without correction. *)
Definition oppose (n : nat) : M unit :=
  p <- get_pop ;;
  opp <- for_list p [] (fun a l => b <- gen_at P gea (opposite (sol a)) ;; ret (l ++ [b])%list) ;;
  p <- get_pop ;;
  q <- lift (get_sorted_and_trimmed_population (e_argsort E) (p ++ opp) n (p_mm P)) ;;
  set_pop q.
(** OGWO.evolve (1108-1150). *)
Definition ogwo_evolve (miu jumping : f64) (n epochs ep : nat) : M unit :=
  let a := #2 * (#1 - pow_ E (fnat ep / fnat epochs) miu) in
  b <- leaders ;;
  greedy_each P md correct gea n true (gwo_move a b) ;;;
  u <- uniform E ;;
  when (u < jumping) (oppose n).
(** OGWO.initialization (1093-1106): the default one, then opposition. *)
Definition ogwo (miu jumping : f64) (n epochs : nat) : algo :=
  with_init (agent_algo E md gea (ga_of P gea) n epochs false (ret tt) (ret tt) (ogwo_evolve miu jumping n epochs)) (oppose n).

(** ** swarm_based/WOA.py *)
(** The coordinate-wise move (71-92). *)
Definition woa_move (n epochs ep idx : nat) : M vec :=
  let a := #2 - #2 * fnat ep / fnat epochs in
  let a2 := fneg #1 - fnat ep / fnat epochs in
  r1 <- uvec E P ;;
  r2 <- uvec E P ;;
  let A j := #2 * a * r1.[j] - a in
  let C j := #2 * r2.[j] in
  ul <- uniform E ;;
  let ll := (a2 - #1) * ul + #1 in
  pp <- uvec E P ;;
  x <- pop_sol idx ;;
  g <- gb_sol ;;
  dims P (fun j =>
    if pp.[j] < dec 1 2
    then if fle #1 (fabs (A j))
         then k <- choice1 E (others n [idx]) ;; y <- pop_sol k ;;
              ret (y.[j] - A j * fabs (C j * y.[j] - x.[j]))
         else ret (g.[j] - A j * fabs (C j * g.[j] - x.[j]))
    else ret (fabs (g.[j] - x.[j]) * exp_ E (#1 * ll) * cos_ E (ll * #2 * pi_ E) + g.[j])).
(** OriginalWOA.evolve (61-99). *)
Definition original_woa_evolve (n epochs ep : nat) : M unit := replace_each P md correct gea n (woa_move n epochs ep).
Definition original_woa (n epochs : nat) := plain_algo E P md tt n epochs false (original_woa_evolve n epochs).
(** DevWOA.evolve (140-179). *)
Definition dev_woa_evolve (n epochs ep : nat) : M unit :=
  greedy_each P md correct gea n true (fun idx =>
    x <- pop_sol idx ;;
    g <- gb_sol ;;
    k <- choice1 E (others n [idx]) ;;
    y <- pop_sol k ;;
    fm "WOA:150-168" [x; g; y; [#2 - #2 * fnat ep / fnat epochs]]).
Definition dev_woa (n epochs : nat) := plain_algo E P md tt n epochs false (dev_woa_evolve n epochs).
End Plain.

(** ** Classes with attributes *)
Section Attributes.
Variable E : env.
Variable P : problem.
Variable md : mode.
Notation correct := (correct_solution P).
Notation fm := (rform E P).

(** JADE (DE.py): dyn_miu_cr, dyn_miu_f, dyn_pop_archive (the positions), and the lists temp_cr, temp_f, list_cr,
    list_f of the running epoch (local variables of evolve in the code; temp_cr and temp_f grow by one entry per agent
    there, here they have pop_size entries from the start and agent [idx] writes entry [idx]). *)
Record jade := mkJade { j_cr : f64; j_f : f64; j_arch : list vec; j_tcr : vec; j_tf : vec; j_lcr : vec; j_lf : vec }.
Definition jade_vars (miu_cr miu_f : f64) (n : nat) : M unit jade unit :=
  x <- ret (mkJade miu_cr miu_f [] (repeat #0 n) (repeat #0 n) [] []) ;; set_x x.
(** int(self.pop_size * self.pt) (272). *)
Definition jade_top (pt : f64) (n : nat) : nat := Z.to_nat (ftrunc (fnat n * pt)).
(** JADE.evolve (246-312).  [cauchy.rvs] (264) draws from SciPy's own generator, not from self.generator; here it is one
    more unknown value.  That the loop 263-269 ends is not modelled. *)
Definition jade_evolve (pt ap : f64) (n ep : nat) : M unit jade unit :=
  x <- get_x ;;
  set_x (mkJade (j_cr x) (j_f x) (j_arch x) (repeat #0 n) (repeat #0 n) [] []) ;;;
  p <- get_pop ;;
  '(sorted, _) <- lift (get_sorted_population (e_argsort E) p (p_mm P)) ;;
  accept_batch P md n (fun idx =>
    x <- get_x ;;
    cr <- rnum E "DE:261-262" [[j_cr x]] ;;
    f <- rnum E "DE:263-269" [[j_f x]] ;;
    set_x (mkJade (j_cr x) (j_f x) (j_arch x) (upd (j_tcr x) idx cr) (upd (j_tf x) idx f) (j_lcr x) (j_lf x)) ;;;
    t <- integers E 0 (jade_top pt n) ;;
    best <- lift (getitem sorted t) ;;
    r1 <- choice1 E (others n [idx]) ;;
    r2 <- choice1 E (others (n + List.length (j_arch x)) [idx; r1]) ;;
    x1 <- pop_sol r1 ;;
    xs <- all_sols ;;
    x2 <- lift (getitem (xs ++ j_arch x)%list r2) ;;
    xi <- pop_sol idx ;;
    let y := vtab P (fun j => xi.[j] + f * ((sol best).[j] - xi.[j]) + f * (x1.[j] - x2.[j])) in
    u <- uvec E P ;;
    k <- integers E 0 (n_dims P) ;;
    propose correct (generate_empty_agent P tt)
      (vtab P (fun j => if u.[j] < cr then y.[j] else if Nat.eqb j k then y.[j] else xi.[j])))
  (fun idx old new c =>
    x <- get_x ;;
    when c
     (a <- lift (getitem (j_tcr x) idx) ;;
      b <- lift (getitem (j_tf x) idx) ;;
      set_x (mkJade (j_cr x) (j_f x) (j_arch x ++ [sol old]) (j_tcr x) (j_tf x) (j_lcr x ++ [a]) (j_lf x ++ [b])))) ;;;
  x <- get_x ;;
  let extra := (List.length (j_arch x) - n)%nat in
  when (Nat.ltb 0 extra)
   (ix <- choice_noreplace E (seq 0 (List.length (j_arch x))) extra ;;
    let kept := filter (fun p => negb (existsb (Nat.eqb (fst p)) ix)) (combine (seq 0 (List.length (j_arch x))) (j_arch x)) in
    set_x (mkJade (j_cr x) (j_f x) (map snd kept) (j_tcr x) (j_tf x) (j_lcr x) (j_lf x))) ;;;
  x <- get_x ;;
  let upd_ (old m : f64) := (#1 - ap) * old + ap * m in
  let mcr := match j_lcr x with [] => dec 1 2 | l => fmean l end in
  let mf := match j_lf x with [] => dec 1 2 | l => sform E "DE:242-244" [l] end in
  set_x (mkJade (upd_ (j_cr x) mcr) (upd_ (j_f x) mf) (j_arch x) (j_tcr x) (j_tf x) (j_lcr x) (j_lf x)).
Definition jade_algo (miu_cr miu_f pt ap : f64) (n epochs : nat) :=
  vars_algo E P md tt n epochs false (jade_vars miu_cr miu_f n) (jade_evolve pt ap n).

(** HS.py: dyn_fw.  DevHS.initialize_variables (69-72). *)
Definition hs_vars : M unit vec unit :=
  x <- ret (vtab P (fun j => dec 1 10000 * ((p_ub P).[j] - (p_lb P).[j]))) ;; set_x x.
Definition hs_damp : M unit vec unit := w <- get_x ;; set_x (vtab P (fun j => w.[j] * dec 9995 10000)).
Notation hgea := (generate_empty_agent (A := unit) (X := vec) P tt).
(** DevHS.evolve (74-100).  The damping of line 98 is done after the trimming of line 100 here; neither reads what the
    other writes. *)
Definition dev_hs_evolve (c_r pa_r : f64) (n ep : nat) : M unit vec unit :=
  trim_batch E P md correct hgea n n (fun idx =>
    x <- uniform_box E P ;;
    w <- get_x ;;
    g <- gb_sol ;;
    fm "HS:84-90" [x; w; g; [c_r; pa_r]]) ;;;
  hs_damp.
Definition dev_hs (c_r pa_r : f64) (n epochs : nat) := vars_algo E P md tt n epochs false hs_vars (dev_hs_evolve c_r pa_r n).
(** OriginalHS.evolve (156-186). *)
Definition original_hs_evolve (c_r pa_r : f64) (n ep : nat) : M unit vec unit :=
  trim_batch E P md correct hgea n n (fun idx =>
    x <- uniform_box E P ;;
    w <- get_x ;;
    dims P (fun j =>
      u <- uniform E ;;
      y <- (if u <= c_r then k <- integers E 0 n ;; s <- pop_sol k ;; ret s.[j] else ret x.[j]) ;;
      v <- uniform E ;;
      if v <= pa_r
      then d <- fm "HS:173-175" [w; p_lb P; p_ub P] ;; ret (y + d.[j])
      else ret y)) ;;;
  hs_damp.
Definition original_hs (c_r pa_r : f64) (n epochs : nat) := vars_algo E P md tt n epochs false hs_vars (original_hs_evolve c_r pa_r n).

(** ChaoticGWO (GWO.py): chao_value.  initialize_variables (456-458). *)
Definition chaotic_vars (v : f64) : M unit f64 unit := x <- ret v ;; set_x x.
(** evolve (466-497) with _update_chao_value (460-464); [name] is the chaotic map. *)
Definition chaotic_gwo_evolve (name : string) (n epochs ep : nat) : M unit f64 unit :=
  p <- get_pop ;;
  '(_, best, _) <- special E P p 3 3 ;;
  b1 <- lift (getitem best 0) ;;
  b2 <- lift (getitem best 1) ;;
  b3 <- lift (getitem best 2) ;;
  greedy_each P md correct (generate_empty_agent P tt) n true (fun idx =>
    v <- get_x ;;
    let v' := fclip (sform E ("GWO:462 " ++ name) [[v]]) #0 #1 in
    set_x v' ;;;
    x <- pop_sol idx ;;
    fm "GWO:479-488" [sol b1; sol b2; sol b3; x; [v'; #2 - #2 * fnat ep / fnat epochs]]).
Definition chaotic_gwo (name : string) (v : f64) (n epochs : nat) :=
  vars_algo E P md tt n epochs false (chaotic_vars v) (chaotic_gwo_evolve name n epochs).

(** HI_WOA (WOA.py): dyn_feedback_count.  initialize_variables (238-240). *)
Definition hi_woa_vars : M unit nat unit := x <- ret 0%nat ;; set_x x.
(** HI_WOA.evolve (242-289). *)
Definition hi_woa_evolve (feedback_max n epochs ep : nat) : M unit nat unit :=
  let a := #2 + #2 * cos_ E (pi_ E / #2 * (#1 + fnat ep / fnat epochs)) in
  let gea := generate_empty_agent (A := unit) (X := nat) P tt in
  greedy_each P md correct gea n true (fun idx =>
    x <- pop_sol idx ;;
    g <- gb_sol ;;
    u <- uniform E ;;
    if u < dec 1 2
    then k <- choice1 E (others n [idx]) ;; y <- pop_sol k ;; fm "WOA:252-264" [x; g; y; [a]]
    else fm "WOA:266-267" [x; g; [a]]) ;;;
  p <- get_pop ;;
  '(best, _) <- lift (get_best_agent (e_argsort E) p (p_mm P)) ;;
  f <- lift (fitness best) ;;
  fg <- gb_fit ;;
  c <- get_x ;;
  let c' := if feq f fg then (c + 1)%nat else 0%nat in
  set_x c' ;;;
  when (Nat.leb feedback_max c')
   (ix <- choice_noreplace E (seq 0 n) (n / 2)%nat ;;
    l <- generate_population_with E md (ga_of P gea None) (n / 2)%nat ;;
    for_ (n / 2)%nat (fun k => i <- lift (getitem ix k) ;; a <- lift (getitem l k) ;; pop_set i a)).
Definition hi_woa (feedback_max n epochs : nat) :=
  vars_algo E P md tt n epochs true hi_woa_vars (hi_woa_evolve feedback_max n epochs).
End Attributes.
