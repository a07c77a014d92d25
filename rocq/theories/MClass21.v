(** Model of mealpy's algorithm classes, part 21: trees, brain storms, whales, sea lions.
    The conventions are those of MClass1. *)
From Verif Require Import Prelude Fl MCore MHelp MAlg MAlg2 MAlg3 MAlg4 MAlg5 MAlg6 MAlg7.
Local Open Scope f_scope.

(** ** bio_based/TPO.py *)
Section TPO.
Variable E : env.
Variable P : problem.
Variable md : mode.
(** The attribute pop_total: the leafs of each branch.  The roots and _theta are left to the formula. *)
Notation X := (list (list (agent unit))).
Notation gea := (generate_empty_agent (A := unit) (X := X) P tt).
Notation correct := (correct_solution P).
Notation M := (M unit X).
Notation fm := (rform E P).
(** The number of leafs, int(sqrt(pop_size) + 1) (DevTPO.initialize_variables (86-92)). *)
Definition tpo_leafs (n : nat) : nat := S (Nat.sqrt n).
Definition tpo_vars (n : nat) : M unit := x <- (r <- uniform_vec E (tpo_leafs n * n_dims P)%nat ;; ret []) ;; set_x x.
(** DevTPO.initialization (94-101).  A population made from starting solutions is dropped. *)
Definition tpo_init (n k : nat) : M unit :=
  '(bests, all) <- for_acc n 0 ([], []) (fun _ acc =>
      leafs <- generate_population_with E md (ga_of P gea None) k ;;
      '(b, _) <- lift (get_best_agent (e_argsort E) leafs (p_mm P)) ;;
      ret (fst acc ++ [b], snd acc ++ [leafs])%list) ;;
  set_pop bests ;;;
  set_x all.
(** One branch (111-127).  In the parallel modes the new leafs are the first argument of the greedy selection. *)
Definition tpo_branch (k idx : nat) : M unit :=
  x <- get_x ;;
  leafs <- lift (getitem x idx) ;;
  g <- gb_sol ;;
  let cand := fun _ : nat => fm "TPO:111-116" (g :: map sol leafs) in
  leafs' <- (if is_avail md then new <- new_agents P md correct gea k cand ;; lift (greedy_selection_population new leafs (p_mm P))
             else local_greedy P Single correct gea k true leafs (fun _ => cand)) ;;
  set_x (upd x idx leafs').
(** DevTPO.evolve (103-131); the slots of the population are filled one after another there. *)
Definition tpo_evolve (n k ep : nat) : M unit :=
  for_ n (tpo_branch k) ;;;
  x <- get_x ;;
  q <- collect n (fun i => leafs <- lift (getitem x i) ;; '(b, _) <- lift (get_best_agent (e_argsort E) leafs (p_mm P)) ;; ret b) ;;
  set_pop q.
Definition dev_tpo (n epochs : nat) : algo :=
  mkAlgo n epochs false gea (ga_of P gea) (tpo_vars n) (tpo_init n (tpo_leafs n)) (ret tt) (tpo_evolve n (tpo_leafs n)).
End TPO.

(** ** human_based/BSO.py *)
Section BSO.
Variable E : env.
Variable P : problem.
Variable md : mode.
(** The attributes pop_group and centers. *)
Notation X := (list (list (agent unit)) * list (agent unit))%type.
Notation gea := (generate_empty_agent (A := unit) (X := X) P tt).
Notation M := (M unit X).
Notation fm := (rform E P).
(** ImprovedBSO.find_cluster__ (75-80). *)
Definition bso_centers (m : nat) (gs : list (list (agent unit))) : M (list (agent unit)) :=
  collect m (fun i => g <- lift (getitem gs i) ;; '(b, _) <- lift (get_best_agent (e_argsort E) g (p_mm P)) ;; ret b).
(** ImprovedBSO.initialization (82-86), after the default one; generate_group_population is optimizer.py:770-786. *)
Definition bso_more (m k : nat) : M unit :=
  p <- get_pop ;;
  let gs := map (fun i => slice (i * k) ((i + 1) * k) p) (seq 0 m) in
  cs <- bso_centers m gs ;;
  set_x (gs, cs).
(** A random agent becomes a center (96-98, 208-210). *)
Definition bso_renew (p1 : f64) (m : nat) (cs : list (agent unit)) : M (list (agent unit)) :=
  u <- uniform E ;;
  if u < p1 then i <- integers E 0 m ;; a <- random_agent P gea ;; lift (setitem cs i a) else ret cs.
(** [pop_group[c][l] = a]. *)
Definition bso_put (gs : list (list (agent unit))) (c l : nat) (a : agent unit) : res (list (list (agent unit))) :=
  let* g := getitem gs c in
  let* g' := setitem g l a in
  setitem gs c g'.
(** The new agent takes the slot before it is compared with its agent, that is with itself (119-124, 232-237). *)
Definition bso_slot (correct : vec -> M vec) (gs : list (list (agent unit))) (c l : nat) (x : vec) : M (list (list (agent unit))) :=
  a <- propose correct gea x ;;
  gs1 <- lift (bso_put gs c l a) ;;
  if is_avail md then ret gs1
  else a' <- evaluate P a ;;
       b <- lift (better_of P true a' a') ;;
       lift (bso_put gs1 c l b).
(** The groups evaluated and compared with themselves, the centers, the population (125-134, 238-246). *)
Definition bso_finish (m : nat) (gs : list (list (agent unit))) : M unit :=
  gs' <- (if is_avail md then collect m (fun i =>
             g <- lift (getitem gs i) ;;
             l <- update_target_for_population P md g ;;
             lift (greedy_selection_population l l (p_mm P)))
          else ret gs) ;;
  cs <- bso_centers m gs' ;;
  set_x (gs', cs) ;;;
  set_pop (List.concat (firstn m gs')).
(** [self.pop_group[c][l].solution]. *)
Definition bso_at (gs : list (list (agent unit))) (c l : nat) : M vec :=
  g <- lift (getitem gs c) ;; a <- lift (getitem g l) ;; ret (sol a).
Definition bso_center (cs : list (agent unit)) (c : nat) : M vec := a <- lift (getitem cs c) ;; ret (sol a).
(** Two clusters mixed (111-118, 224-231). *)
Definition bso_mix (name : string) (p4 : f64) (m k ep : nat) (gs : list (list (agent unit))) (cs : list (agent unit)) : M vec :=
  '(c1, c2) <- choose2 E (seq 0 m) ;;
  u <- uniform E ;;
  if u < p4 then x <- bso_center cs c1 ;; y <- bso_center cs c2 ;; fm name [x; y; [fnat ep]]
  else r1 <- integers E 0 k ;; r2 <- integers E 0 k ;; x <- bso_at gs c1 r1 ;; y <- bso_at gs c2 r2 ;; fm name [x; y; [fnat ep]].
(** ImprovedBSO.evolve (88-134). *)
Definition ibso_evolve (p1 p2 p3 p4 : f64) (m k n ep : nat) : M unit :=
  x <- get_x ;;
  cs <- bso_renew p1 m (snd x) ;;
  gs <- for_acc n 0 (fst x) (fun idx gs =>
      let c := (idx / k)%nat in
      let l := (idx mod k)%nat in
      u <- uniform E ;;
      v <- (if u < p2 then
              u2 <- uniform E ;;
              if u2 < p3 then y <- bso_center cs c ;; fm "BSO:106" [y; [fnat ep]]
              else y <- bso_at gs c l ;; fm "BSO:108-109" [y]
            else bso_mix "BSO:113-118" p4 m k ep gs cs) ;;
      bso_slot (correct_solution P) gs c l v) ;;
  bso_finish m gs.
Definition improved_bso (p1 p2 p3 p4 : f64) (m n epochs : nat) :=
  with_init (agent_algo E md gea (ga_of P gea) n epochs false (ret tt) (ret tt) (ibso_evolve p1 p2 p3 p4 m (n / m) n)) (bso_more m (n / m)).
(** OriginalBSO.evolve (199-246), with the amend_solution of 194-197. *)
Definition obso_evolve (p1 p2 p3 p4 : f64) (m k n ep : nat) : M unit :=
  e <- uniform E ;;
  x <- get_x ;;
  cs <- bso_renew p1 m (snd x) ;;
  gs <- for_acc n 0 (fst x) (fun idx gs =>
      let c0 := (idx / k)%nat in
      let l := (idx mod k)%nat in
      u <- uniform E ;;
      r <- (if u < p2 then
              u2 <- uniform E ;;
              c <- (if u2 < p3 then integers E 0 m else ret c0) ;;
              u3 <- uniform E ;;
              v <- (if u3 < p3 then y <- bso_center cs c ;; fm "BSO:219" [y; [e; fnat ep]]
                    else j <- integers E 0 k ;; y <- bso_at gs c j ;; fm "BSO:222" [y]) ;;
              ret (c, v)
            else v <- bso_mix "BSO:226-231" p4 m k ep gs cs ;; ret (c0, v)) ;;
      bso_slot (correct_solution_with P (amend_random E P)) gs (fst r) l (snd r)) ;;
  bso_finish m gs.
Definition original_bso (p1 p2 p3 p4 : f64) (m n epochs : nat) :=
  with_init (agent_algo E md gea (ga_of P gea) n epochs false (ret tt) (ret tt) (obso_evolve p1 p2 p3 p4 m (n / m) n)) (bso_more m (n / m)).
End BSO.

(** ** swarm_based/WOA.py: OriginalWOAmM and DevWOAmM, which never run in parallel *)
Section WOAmM.
Variable E : env.
Variable P : problem.
(** The attributes _stall_count and _stall_fit. *)
Notation X := (nat * option f64)%type.
Notation gea := (generate_empty_agent (A := unit) (X := X) P tt).
Notation M := (M unit X).
Notation fm := (rform E P).
(** OriginalWOAmM.amend_solution (417-422) for the values clip, random and reflect of the parameter bound: with clip the components are
    left as they are. *)
Inductive bound := Clip | Random | Reflect.
Definition woamm_amend (bd : bound) (x : vec) : M vec :=
  match bd with Clip => ret (vtab P (fun j => x.[j])) | Random => amend_random E P x | Reflect => amend_form E P "WOA:397-408" x end.
Notation correct bd := (correct_solution_with P (woamm_amend bd)).
(** OriginalWOAmM.before_main_loop (366-368). *)
Definition woamm_start : M unit :=
  f <- gb_fit ;;
  x <- get_x ;;
  set_x (fst x, Some f).
(** OriginalWOAmM.restart_population (370-377); [k] = n_restart, at most pop_size - 1. *)
Definition woamm_restart (k n : nat) : M unit :=
  p <- get_pop ;;
  '(_, ix) <- lift (get_sorted_population (e_argsort E) p (p_mm P)) ;;
  new <- collect k (fun _ => random_agent P gea) ;;
  for_ k (fun i => w <- lift (getitem (skipn (n - k) ix) i) ;; a <- lift (getitem new i) ;; pop_set w a).
(** The best fitness of the population. *)
Definition woamm_best : M f64 :=
  p <- get_pop ;;
  '(b, _) <- lift (get_best_agent (e_argsort E) p (p_mm P)) ;;
  lift (fitness b).
(** OriginalWOAmM.restart_on_stagnation (379-394). *)
Definition woamm_stagnation (patience k n : nat) : M unit :=
  if (patience =? 0)%nat then ret tt
  else
    f <- woamm_best ;;
    x <- get_x ;;
    let better := match snd x with None => true | Some g => compare_fitness f g (p_mm P) end in
    if better then set_x (0%nat, Some f)
    else if (patience <=? S (fst x))%nat then
           set_x (0%nat, snd x) ;;;
           woamm_restart k n ;;;
           f' <- woamm_best ;;
           set_x (0%nat, Some f')
         else set_x (S (fst x), snd x).
(** The mutualism phase (432-472, 567-607): the agents are read from the population as it was, the improvements written to copies
    that become the population. *)
Definition woamm_mutual (bd : bound) (n : nat) : M unit :=
  p <- get_pop ;;
  for_ n (fun idx =>
      '(m, k) <- choose2 E (others n [idx]) ;;
      a <- lift (getitem p idx) ;;
      b <- lift (getitem p m) ;;
      c <- lift (getitem p k) ;;
      fa <- lift (fitness a) ;;
      fb <- lift (fitness b) ;;
      fc <- lift (fitness c) ;;
      t <- lift (compare_agents b c (p_mm P)) ;;
      x <- fm "WOA:438-462" [sol a; sol b; sol c; [fa; fb; fc]] ;;
      y <- fm "WOA:438-463" [sol a; sol b; sol c; [fa; fb; fc]] ;;
      try_pair P (correct bd) gea idx (if t then k else m) x y).
(** The best so far (475-476, 610-611). *)
Definition woamm_refresh : M unit :=
  p <- get_pop ;;
  '(b, _) <- lift (get_best_agent (e_argsort E) p (p_mm P)) ;;
  g <- get_gb ;;
  r <- lift (get_better_agent b g (p_mm P) false) ;;
  set_gb (Some r).
(** The positions of the whale phase (479-504, 614-640). *)
Definition woamm_whale (name : string) (ep : nat) (_ : nat) : M vec :=
  xs <- all_sols ;;
  g <- gb_sol ;;
  fm name (g :: [fnat ep] :: xs).
(** OriginalWOAmM.evolve (424-511): the new positions are taken unconditionally. *)
Definition woamm_evolve (bd : bound) (patience k n ep : nat) : M unit :=
  woamm_mutual bd n ;;;
  woamm_refresh ;;;
  replace_each P Single (correct bd) gea n (woamm_whale "WOA:483-503" ep) ;;;
  woamm_stagnation patience k n.
(** DevWOAmM.evolve (559-649). *)
Definition dev_woamm_evolve (bd : bound) (patience k n ep : nat) : M unit :=
  woamm_mutual bd n ;;;
  woamm_refresh ;;;
  greedy_each P Single (correct bd) gea n true (woamm_whale "WOA:618-638" ep) ;;;
  woamm_stagnation patience k n.
Definition woamm_vars : M unit := x <- ret (0%nat, None) ;; set_x x.
Definition original_woamm (bd : bound) (patience k n epochs : nat) :=
  agent_algo E Single gea (ga_of P gea) n epochs false woamm_vars woamm_start (woamm_evolve bd patience k n).
Definition dev_woamm (bd : bound) (patience k n epochs : nat) :=
  agent_algo E Single gea (ga_of P gea) n epochs false woamm_vars woamm_start (dev_woamm_evolve bd patience k n).
End WOAmM.
