(** Algorithm classes, fourth batch: the particle swarm, differential evolution, grey wolf, whale, annealing and harmony
    search families.  Position formulas are abstract ([rform] etc.) as explained in MClass1.v. *)
From Verif Require Import Prelude Fl MCore MHelp MAlg MAlg2.
Local Open Scope f_scope.

(** ** swarm_based/PSO.py *)
(** The attributes velocity, local_solution, local_target of a particle; local_target is missing until generate_agent
    sets it. *)
Record particle := mkParticle { vel : vec; loc : vec; loc_t : option target }.
Section PSO.
Context {X : Type}.
Variable E : env.
Variable P : problem.
Notation M := (M particle X).
(** generate_empty_agent (PSO.py:81-86, 189-194, 307-312, 404-409, 741-746); the velocity is drawn between bounds that
    depend on the problem only. *)
Definition pso_gea := gea_with (A := particle) (X := X) P (fun x => v <- rform E P "PSO:84" [] ;; ret (mkParticle v x None)).
(** generate_agent (PSO.py:88-92, 196-200, 314-318, 411-415, 748-752). *)
Definition pso_ga (o : option vec) : M (agent particle) :=
  a <- pso_gea o ;;
  t <- get_target P (sol a) ;;
  ret (mkAgent (sol a) (Some t) (mkParticle (vel (att a)) (loc (att a)) (Some t))).
(** The new velocity [v], and the local best replaced when the new target is better (PSO.py:110, 116-117 and the same
    lines of the other classes). *)
Definition pso_local (v y : vec) (t : target) (old : agent particle) (c : bool) : M particle :=
  c' <- lift (compare_opt (Some t) (loc_t (att old)) (p_mm P)) ;;
  ret (if c' then mkParticle v y (Some t) else mkParticle v (loc (att old)) (loc_t (att old))).
(** PSO.py:110-117: the position [x] is corrected and evaluated. *)
Definition pso_move (correct : vec -> M vec) (idx : nat) (v x : vec) : M unit :=
  y <- correct x ;; merge P idx y (pso_local v y).
End PSO.
Section PSOs.
Variable E : env.
Variable P : problem.
Notation amended := (correct_solution_with P (amend_random E P)).
(** OriginalPSO.evolve (PSO.py:99-117). *)
Definition pso_evolve (c1 c2 w : f64) (n ep : nat) : M particle unit unit :=
  for_ n (fun idx =>
    a <- pop_at idx ;;
    let x := sol a in
    r1 <- uvec E P ;;
    g <- gb_sol ;;
    r2 <- uvec E P ;;
    let v := vtab P (fun j => w * (vel (att a)).[j] + c1 * r1.[j] * ((loc (att a)).[j] - x.[j]) + c2 * r2.[j] * (g.[j] - x.[j])) in
    pso_move P amended idx v (vtab P (fun j => x.[j] + v.[j]))).
Definition original_pso (c1 c2 w : f64) (n epochs : nat) :=
  agent_algo E Single (pso_gea E P) (pso_ga E P) n epochs false (ret tt) (ret tt) (pso_evolve c1 c2 w n).
(** AIW_PSO.evolve (PSO.py:207-230). *)
Definition aiw_pso_evolve (c1 c2 alpha : f64) (n ep : nat) : M particle unit unit :=
  p <- get_pop ;;
  '(best, _) <- lift (get_best_agent (e_argsort E) p (p_mm P)) ;;
  for_ n (fun idx =>
    a <- pop_at idx ;;
    g <- gb_sol ;;
    v <- rform E P "PSO:216-223" [sol a; loc (att a); vel (att a); sol best; g; [c1; c2; alpha]] ;;
    pso_move P amended idx v (vtab P (fun j => (sol a).[j] + v.[j]))).
Definition aiw_pso (c1 c2 alpha : f64) (n epochs : nat) :=
  agent_algo E Single (pso_gea E P) (pso_ga E P) n epochs false (ret tt) (ret tt) (aiw_pso_evolve c1 c2 alpha n).
(** LDW_PSO.evolve (PSO.py:325-345). *)
Definition ldw_pso_evolve (c1 c2 w_min w_max : f64) (n epochs ep : nat) : M particle unit unit :=
  let w := fnat (epochs - ep) / fnat epochs * (w_max - w_min) + w_min in
  for_ n (fun idx =>
    a <- pop_at idx ;;
    g <- gb_sol ;;
    v <- rform E P "PSO:335-338" [sol a; loc (att a); vel (att a); g; [c1; c2; w]] ;;
    pso_move P amended idx v (vtab P (fun j => (sol a).[j] + v.[j]))).
Definition ldw_pso (c1 c2 w_min w_max : f64) (n epochs : nat) :=
  agent_algo E Single (pso_gea E P) (pso_ga E P) n epochs false (ret tt) (ret tt) (ldw_pso_evolve c1 c2 w_min w_max n epochs).
(** P_PSO; attributes v_max and dyn_delta_list.  initialize_variables (PSO.py:400-402). *)
Definition p_pso_vars (n : nat) : M particle (vec * vec) unit :=
  x <- (d <- rlist E n "PSO:402" [] ;; ret (vform E P "PSO:401" [p_lb P; p_ub P], d)) ;;
  set_x x.
(** evolve (PSO.py:417-440). *)
Definition p_pso_evolve (n ep : nat) : M particle (vec * vec) unit :=
  for_ n (fun idx =>
    '(vm, dl) <- get_x ;;
    d <- lift (getitem dl idx) ;;
    a <- pop_at idx ;;
    g <- gb_sol ;;
    v <- rform E P "PSO:425-430" [sol a; loc (att a); g; vm; [d]] ;;
    let d' := sform E "PSO:434" [[d]] in
    set_x (vform E P "PSO:435" [[d']; p_lb P; p_ub P], upd dl idx d') ;;;
    pso_move P (correct_solution P) idx v (vtab P (fun j => (sol a).[j] + v.[j]))).
Definition p_pso (n epochs : nat) :=
  agent_algo E Single (pso_gea E P) (pso_ga E P) n epochs false (p_pso_vars n) (ret tt) (p_pso_evolve n).
(** HPSO_TVAC.evolve (PSO.py:503-533); the normal draws repeated until |w - 1| >= 0.01 (513-515) are part of the abstract
    formula, so their termination is not modelled. *)
Definition hpso_evolve (ci cf : f64) (n epochs ep : nat) : M particle (vec * vec) unit :=
  let c := (cf - ci) * (fnat ep / fnat epochs) + ci in
  for_ n (fun idx =>
    '(vm, _) <- get_x ;;
    k <- integers E 0 n ;;
    b <- pop_at k ;;
    a <- pop_at idx ;;
    g <- gb_sol ;;
    v <- rform E P "PSO:513-525" [sol a; loc (att a); loc (att b); g; vm; [c]] ;;
    pso_move P (correct_solution P) idx v (vtab P (fun j => (sol a).[j] + v.[j]))).
Definition hpso_tvac (ci cf : f64) (n epochs : nat) :=
  agent_algo E Single (pso_gea E P) (pso_ga E P) n epochs false (p_pso_vars n) (ret tt) (hpso_evolve ci cf n epochs).
(** C_PSO; attributes dyn_lb and dyn_ub.  initialize_variables (PSO.py:604-609). *)
Definition c_pso_vars : M particle (vec * vec) unit := x <- ret (p_lb P, p_ub P) ;; set_x x.
(** evolve (PSO.py:622-664).  The position x_best is evaluated (653) but only a local copy of the global best takes it
    (648, 655); compare_target is called without the direction (654). *)
Definition c_pso_evolve (c1 c2 w_min w_max : f64) (n ep : nat) : M particle (vec * vec) unit :=
  fits <- all_fits ;;
  '(lo, hi) <- get_x ;;
  for_ n (fun idx =>
    a <- pop_at idx ;;
    f <- pop_fit idx ;;
    g <- gb_sol ;;
    v <- rform E P "PSO:633-636" [sol a; loc (att a); vel (att a); g; fits; [f; c1; c2; w_min; w_max]] ;;
    let x := vtab P (fun j => fclip ((sol a).[j] + v.[j]) lo.[j] hi.[j]) in
    pso_move P (correct_solution P) idx v x) ;;;
  b <- get_gb ;;
  y <- correct_solution P (vform E P "PSO:649-651" [sol b; p_lb P; p_ub P]) ;;
  t <- get_target P y ;;
  c <- lift (compare_opt (Some t) (tgt b) Min) ;;
  let g := if c : bool then y else sol b in
  r <- uniform E ;;
  let lo' := vform E P "PSO:658-659" [[r]; lo; hi; g] in
  set_x (lo', vform E P "PSO:660-661" [[r]; lo'; hi; g]) ;;;
  child <- repeat_M (n - n / 5)%nat (pso_ga E P None) ;;
  p <- get_pop ;;
  q <- lift (get_sorted_and_trimmed_population (e_argsort E) (p ++ child) n (p_mm P)) ;;
  set_pop q.
Definition c_pso (c1 c2 w_min w_max : f64) (n epochs : nat) :=
  agent_algo E Single (pso_gea E P) (pso_ga E P) n epochs false c_pso_vars (ret tt) (c_pso_evolve c1 c2 w_min w_max n).
(** CL_PSO.evolve (PSO.py:754-808); the attribute flags is written but influences nothing and is left out. *)
Variable md : mode.
Definition cl_pso_evolve (c_local w_min w_max : f64) (n epochs ep : nat) : M particle unit unit :=
  let wk := w_max * (fnat ep / fnat epochs) * (w_max - w_min) in
  pop_new <- for_acc n 0 [] (fun idx pop_new =>
    a <- pop_at idx ;;
    d <- dims P (fun j =>
      u <- rtest E "PSO:767" [[fnat idx]] ;;
      if u : bool then rnum E "PSO:768-769" [sol a; loc (att a); vel (att a); [fnat j; wk; c_local]]
      else
        '(i1, i2) <- choose2 E (others n [idx]) ;;
        b1 <- pop_at i1 ;;
        b2 <- pop_at i2 ;;
        c <- lift (compare_agents b1 b2 (p_mm P)) ;;
        rnum E "PSO:773-777" [sol a; (if c : bool then loc (att b1) else loc (att b2)); vel (att a); [fnat j; wk; c_local]]) ;;
    y0 <- correct_solution P (vform E P "PSO:779-780" [sol a; d]) ;;
    y <- correct_solution P y0 ;;
    b <- pso_gea E P (Some y) ;;
    if is_avail md then ret (pop_new ++ [b])
    else
      t <- get_target P y ;;
      keep_better P false idx (mkAgent y (Some t) (mkParticle (vel (att b)) (loc (att b)) (Some t))) ;;;
      cur <- pop_at idx ;;
      c <- lift (compare_opt (Some t) (loc_t (att cur)) (p_mm P)) ;;
      when c (set_att idx (mkParticle (vel (att cur)) y (Some t))) ;;;
      ret (pop_new ++ [b])) ;;
  when (is_avail md)
    (l <- update_target_for_population P md pop_new ;;
     p <- get_pop ;;
     q <- lift (greedy_selection_population p l (p_mm P)) ;;
     q' <- for_acc n 0 q (fun idx q =>
       a <- lift (getitem l idx) ;;
       old <- lift (getitem p idx) ;;
       c <- lift (compare_opt (tgt a) (loc_t (att old)) (p_mm P)) ;;
       b <- lift (getitem q idx) ;;
       ret (if c : bool then upd q idx (with_att b (mkParticle (vel (att b)) (sol a) (tgt a))) else q)) ;;
     set_pop q').
Definition cl_pso (c_local w_min w_max : f64) (n epochs : nat) :=
  agent_algo E md (pso_gea E P) (pso_ga E P) n epochs false (ret tt) (ret tt) (cl_pso_evolve c_local w_min w_max n epochs).
End PSOs.
