(** Algorithm classes, part 2: classes with attributes of their own.  No proofs here.  Simplifications: see MClass1. *)
From Verif Require Import Prelude Fl MCore MHelp MAlg.
Local Open Scope f_scope.

(** OriginalWDO (physics_based/WDO.py:69-120).  Attribute: the velocities. *)
Section WDO.
Variable E : env.
Variable P : problem.
Variable md : mode.
Notation X := (list vec).
Notation gea := (generate_empty_agent (A := unit) (X := X) P tt).
(** initialize_variables (WDO.py:92-93). *)
Definition wdo_vars (max_v : f64) (n : nat) : M unit X unit :=
  x <- (vs <- repeat_M n (uniform_box E P) ;; ret (map (fun v : vec => vtab P (fun j => max_v * v.[j])) vs)) ;; set_x x.
(** evolve (WDO.py:95-120). *)
Definition wdo_evolve (rt : nat) (g_c alp c_e max_v : f64) (n ep : nat) : M unit X unit :=
  greedy_each P md (correct_solution P) gea n true (fun idx =>
    d <- integers E 0 (n_dims P) ;;
    vs <- get_x ;;
    v <- lift (getitem vs idx) ;;
    x <- pop_sol idx ;;
    g <- gb_sol ;;
    let vel := vform E P "WDO:105-108" [v; [v.[d]; fnat rt; g_c; alp; c_e; max_v; fnat idx]; x; g] in
    set_x (upd vs idx vel) ;;;
    ret (vtab P (fun j => x.[j] + vel.[j]))).
Definition original_wdo (rt : nat) (g_c alp c_e max_v : f64) (n epochs : nat) :=
  agent_algo E md gea (ga_of P gea) n epochs false (wdo_vars max_v n) (ret tt) (wdo_evolve rt g_c alp c_e max_v n).
End WDO.

(** OriginalWarSO (human_based/WarSO.py:53-96); not parallelizable.  Attributes: wl, wg. *)
Section WarSO.
Variable E : env.
Variable P : problem.
Notation X := (vec * vec)%type.
Notation gea := (generate_empty_agent (A := unit) (X := X) P tt).
(** initialize_variables (WarSO.py:68-70). *)
Definition warso_vars (n : nat) : M unit X unit := x <- ret (repeat #2 n, repeat #0 n) ;; set_x x.
(** evolve (WarSO.py:72-96). *)
Definition warso_evolve (rr : f64) (n epochs ep : nat) : M unit X unit :=
  p <- get_pop ;;
  '(ps, ix) <- lift (get_sorted_population (e_argsort E) p (p_mm P)) ;;
  '(wl, wg) <- get_x ;;
  wl' <- lift (pick wl ix) ;;
  wg' <- lift (pick wg ix) ;;
  set_x (wl', wg') ;;;
  com <- permutation E n ;;
  for_ n (fun idx =>
    r1 <- uniform E ;;
    '(wl, wg) <- get_x ;;
    w <- lift (getitem wl idx) ;;
    c <- lift (getitem com idx) ;;
    y <- pop_sol c ;;
    b <- lift (getitem ps idx) ;;
    g <- gb_sol ;;
    x <- pop_sol idx ;;
    pos <- rform E P (if r1 < rr then "WarSO:86-87" else "WarSO:89-90") [[r1; w]; g; x; sol b; y] ;;
    '(ok, _) <- try_improve_b P (correct_solution P) gea idx pos ;;
    when ok (
      h <- lift (getitem wg idx) ;;
      let h' := h + #1 in
      set_x (upd wl idx (#1 * w * pow_ E (#1 - h' / fnat epochs) #2), upd wg idx h'))).
Definition original_warso (rr : f64) (n epochs : nat) :=
  agent_algo E Single gea (ga_of P gea) n epochs false (warso_vars n) (ret tt) (warso_evolve rr n epochs).
End WarSO.

(** OriginalAFT (human_based/AFT.py:51-109).  Attribute: pop_best, the agents of the first epoch; improved only in the
    parallel modes. *)
Section AFT.
Variable E : env.
Variable P : problem.
Variable md : mode.
Notation X := (list (agent unit)).
Notation gea := (generate_empty_agent (A := unit) (X := X) P tt).
(** before_main_loop (AFT.py:58-60). *)
Definition aft_main : M unit X unit := x <- get_pop ;; set_x x.
(** evolve (AFT.py:63-109). *)
Definition aft_evolve (n ep : nat) : M unit X unit :=
  followers <- repeat_M n (integers E 0 n) ;;
  replace_each P md (correct_solution P) gea n (fun idx =>
    pb <- get_x ;;
    b <- lift (getitem pb idx) ;;
    f <- lift (getitem followers idx) ;;
    c <- lift (getitem pb f) ;;
    x <- pop_sol idx ;;
    g <- gb_sol ;;
    rform E P "AFT:82-98" [sol b; sol c; x; g; [fnat ep]]) ;;;
  when (is_avail md) (
    p <- get_pop ;;
    pb <- get_x ;;
    q <- lift (greedy_selection_population pb p (p_mm P)) ;;
    set_x q).
Definition original_aft (n epochs : nat) :=
  agent_algo E md gea (ga_of P gea) n epochs false (ret tt) aft_main (aft_evolve n).
End AFT.

(** OriginalDSO (swarm_based/DSO.py:60-118).  Attribute: satiety.  Positions are updated in place. *)
Section DSO.
Variable E : env.
Variable P : problem.
Variable md : mode.
Notation X := vec.
Notation gea := (generate_empty_agent (A := unit) (X := X) P tt).
(** before_main_loop (DSO.py:70-71). *)
Definition dso_main (n : nat) : M unit X unit := x <- ret (repeat #0 n) ;; set_x x.
(** evolve (DSO.py:73-118). *)
Definition dso_evolve (lamda eta : f64) (n ep : nat) : M unit X unit :=
  fits <- all_fits ;;
  sat <- get_x ;;
  sat' <- rlist E n "DSO:82-91" [fits; sat; [lamda]] ;;
  set_x sat' ;;;
  ds <- lift (np_argmax sat') ;;
  w <- pop_sol ds ;;
  s <- lift (getitem sat' ds) ;;
  xs <- all_sols ;;
  c <- rtest E "DSO:99-104" ([s] :: w :: xs) ;;
  if c
  then replace_each P md (correct_solution P) gea n (fun idx =>
         si <- lift (getitem sat' idx) ;;
         x <- pop_sol idx ;;
         rform E P "DSO:108-110" ([s; si; eta; fnat idx] :: x :: w :: xs))
  else ret tt.
Definition original_dso (lamda eta : f64) (n epochs : nat) :=
  agent_algo E md gea (ga_of P gea) n epochs false (ret tt) (dso_main n) (dso_evolve lamda eta n).
End DSO.

(** OriginalABC (swarm_based/ABC.py:53-115); not parallelizable.  Attribute: trials. *)
Section ABC.
Variable E : env.
Variable P : problem.
Notation X := vec.
Notation gea := (generate_empty_agent (A := unit) (X := X) P tt).
Notation correct := (correct_solution P).
(** initialize_variables (ABC.py:68-69). *)
Definition abc_vars (n : nat) : M unit X unit := x <- ret (repeat #0 n) ;; set_x x.
(** One attempt of bee [i] with partner [r] (ABC.py:82-90, 101-109). *)
Definition abc_try (i r : nat) : M unit X unit :=
  x <- pop_sol i ;;
  y <- pop_sol r ;;
  pos <- rform E P "ABC:82-83" [x; y] ;;
  '(ok, _) <- try_improve_b P correct gea i pos ;;
  tr <- get_x ;;
  t <- lift (getitem tr i) ;;
  set_x (upd tr i (if ok : bool then #0 else t + #1)).
(** evolve (ABC.py:71-115).  The abandoned sources are those over the limit after the two phases; resetting one does not
    change another, so the loop tests each in turn. *)
Definition abc_evolve (n_limits n ep : nat) : M unit X unit :=
  for_ n (fun idx => r <- choice1 E (others n [idx]) ;; abc_try idx r) ;;;
  fits <- all_fits ;;
  for_ n (fun idx =>
    bee <- roulette E P fits ;;
    r <- choice1 E (others n [idx; bee]) ;;
    abc_try bee r) ;;;
  for_ n (fun idx =>
    tr <- get_x ;;
    t <- lift (getitem tr idx) ;;
    when (fnat n_limits <= t) (
      a <- random_agent P gea ;;
      pop_set idx a ;;;
      set_x (upd tr idx #0))).
Definition original_abc (n_limits n epochs : nat) :=
  agent_algo E Single gea (ga_of P gea) n epochs false (abc_vars n) (ret tt) (abc_evolve n_limits n).
End ABC.

(** OriginalCA (human_based/CA.py:53-108); not parallelizable.  Attribute: the bounds of the belief space.  [k] is
    dyn_accepted_num = int(accepted_rate * pop_size) (CA.py:74). *)
Section CA.
Variable E : env.
Variable P : problem.
Notation X := (vec * vec)%type.
Notation gea := (generate_empty_agent (A := unit) (X := X) P tt).
(** initialize_variables (CA.py:68-74). *)
Definition ca_vars : M unit X unit := x <- ret (p_lb P, p_ub P) ;; set_x x.
(** update_belief_space__ (CA.py:81-85); np.min of an empty array raises ValueError. *)
Definition ca_belief (l : list (agent unit)) : res X :=
  match l with
  | [] => Err ValueError
  | _ => Ok (vtab P (fun j => fminl (map (fun a => (sol a).[j]) l)), vtab P (fun j => fmaxl (map (fun a => (sol a).[j]) l)))
  end.
(** evolve (CA.py:87-108), with create_faithful__ (77-79): the children are not corrected. *)
Definition ca_evolve (k n ep : nat) : M unit X unit :=
  '(lo, hi) <- get_x ;;
  child <- new_agents P Single (raw P) gea n (fun _ =>
     u <- uvec E P ;; ret (vtab P (fun j => lo.[j] + (hi.[j] - lo.[j]) * u.[j]))) ;;
  p <- get_pop ;;
  let full := (p ++ child)%list in
  pop_new <- collect n (fun _ =>
     '(i1, i2) <- choose2 E (seq 0 (List.length full)) ;;
     a <- lift (getitem full i1) ;;
     b <- lift (getitem full i2) ;;
     lift (get_better_agent a b (p_mm P) false)) ;;
  '(ps, _) <- lift (get_sorted_population (e_argsort E) pop_new (p_mm P)) ;;
  set_pop ps ;;;
  b <- lift (ca_belief (firstn k ps)) ;;
  set_x b.
Definition original_ca (k n epochs : nat) :=
  agent_algo E Single gea (ga_of P gea) n epochs true ca_vars (ret tt) (ca_evolve k n).
End CA.

Section Plain.
Variable E : env.
Variable P : problem.
Variable md : mode.
Notation gea := (generate_empty_agent (A := unit) (X := unit) P tt).
Notation correct := (correct_solution P).
Notation M := (M unit unit).
(** OriginalCSA.evolve (swarm_based/CSA.py:68-101); [n_cut] = int(p_a * pop_size) (65).  The new nests (94-100) are not
    corrected. *)
Definition csa_evolve (n_cut n ep : nat) : M unit :=
  greedy_each P md correct gea n true (fun idx =>
    x <- pop_sol idx ;; g <- gb_sol ;; rform E P "CSA:78-80" [x; g; [fnat ep]]) ;;;
  renew E P md (raw P) gea (n - n_cut)%nat n_cut (fun _ => uniform_box E P).
Definition original_csa (n_cut n epochs : nat) := plain_algo E P md tt n epochs false (csa_evolve n_cut n).

(** OriginalTSeedA.evolve (bio_based/TSeedA.py:77-123), [min_seeds] = max(1, int(0.1 * pop_size)), [max_seeds] = max(2, int(0.25 * pop_size)).  In single mode
    the target is that of the seed before correction (115). *)
Definition tseeda_evolve (st : f64) (n ep : nat) : M unit :=
  for_ n (fun idx =>
    k <- integers E (Nat.max 1 (n / 10)) (Nat.max 2 (n / 4) + 1)%nat ;;
    rs <- repeat_M k (choice1 E (others n [idx])) ;;
    let seed j :=
      r <- lift (getitem rs j) ;;
      x <- pop_sol idx ;;
      g <- gb_sol ;;
      y <- pop_sol r ;;
      rform E P "TSeedA:96-108" [x; g; y; [st]] in
    if is_avail md
    then b <- best_new E P md correct gea k seed ;; accept P idx (fst b)
    else
      new <- collect k (fun j => p <- seed j ;; a <- propose correct gea p ;; t <- get_target P p ;; ret (with_tgt a t)) ;;
      b <- lift (get_best_agent (e_argsort E) new (p_mm P)) ;;
      accept P idx (fst b)).
Definition original_tseeda (st : f64) (n epochs : nat) := plain_algo E P md tt n epochs false (tseeda_evolve st n).

(** OriginalPFA.evolve (swarm_based/PFA.py:57-92).  The pathfinder is evaluated when built (70), and once more with the
    others in the parallel modes (89-91). *)
Definition pfa_loop (correct : vec -> M vec) (gea : option vec -> M (agent unit)) (n : nat) (p0 : vec) (cand : nat -> M vec) : M unit :=
  a0 <- gen_agent P correct gea p0 ;;
  pop_new <- for_acc (n - 1)%nat 1 [a0] (fun idx acc =>
    p <- cand idx ;;
    a <- propose correct gea p ;;
    if is_avail md then ret (acc ++ [a])%list else a' <- evaluate P a ;; ret (acc ++ [a'])%list) ;;
  new <- (if is_avail md then update_target_for_population P md pop_new else ret pop_new) ;;
  p <- get_pop ;;
  q <- lift (greedy_selection_population p new (p_mm P)) ;;
  set_pop q.
Definition pfa_evolve (n ep : nat) : M unit :=
  k <- tick ;;
  x0 <- pop_sol 0 ;;
  g <- gb_sol ;;
  p0 <- rform E P "PFA:64-69" [x0; g; [fnat k; fnat ep]] ;;
  pfa_loop correct gea n p0 (fun idx => v <- view ;; rform E P "PFA:75-84" ([fnat k; fnat idx; fnat ep] :: v)).
Definition original_pfa (n epochs : nat) := plain_algo E P md tt n epochs true (pfa_evolve n).
End Plain.
