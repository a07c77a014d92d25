(** Model of mealpy's algorithm classes, part 20: queues, teaching-learning, tugs of war, weeds.
    The conventions are those of MClass1. *)
From Verif Require Import Prelude Fl MCore MHelp MAlg MAlg2 MAlg3 MAlg4 MAlg5 MAlg6 MAlg7.
Local Open Scope f_scope.

(** Python's int() of a float. *)
Definition to_int (x : f64) : res Z :=
  if fisnan x then Err ValueError else if fabs x < finf then Ok (ftrunc x) else Err OverflowError.

(** ** human_based/QSA.py *)
Section QSA.
Variable E : env.
Variable P : problem.
Variable md : mode.
Notation gea := (generate_empty_agent (A := unit) (X := unit) P tt).
Notation correct := (correct_solution P).
Notation M := (M unit unit).
Notation fm := (rform E P).
(** DevQSA.calculate_queue_length__ (QSA.py:68-84): q1 and q2.  The three fitness values are numpy floats, so that dividing by zero
    yields an infinity or a NaN; the conversion to int then raises. *)
Definition qsa_queues (n : nat) (t1 t2 t3 : f64) : res (Z * Z) :=
  let d := (#1 / t1 + #1 / t2 + #1 / t3) in
  let long := dec 1 1000000 < t1 in
  let n1 := if long then (#1 / t1) / d else #1 / #3 in
  let n2 := if long then (#1 / t2) / d else #1 / #3 in
  let* q1 := to_int (n1 * fnat n) in
  let* q2 := to_int (n2 * fnat n) in
  Ok (q1, q2).
(** The first three agents and the queue lengths (87-89, 129-131, 323-325). *)
Definition qsa_heads (n : nat) : M (list vec * list f64 * (Z * Z)) :=
  a1 <- pop_at 0 ;;
  a2 <- pop_at 1 ;;
  a3 <- pop_at 2 ;;
  t1 <- lift (fitness a1) ;;
  t2 <- lift (fitness a2) ;;
  t3 <- lift (fitness a3) ;;
  q <- lift (qsa_queues n t1 t2 t3) ;;
  ret ([sol a1; sol a2; sol a3], [t1; t2; t3], q).
(** The head of the queue agent [idx] stands in (92-103, 139-144). *)
Definition qsa_head (q : Z * Z) (heads : list vec) (idx : nat) : vec :=
  let i := Z.of_nat idx in
  if Z.ltb i (fst q) then nth 0 heads [] else if Z.ltb i (fst q + snd q) then nth 1 heads [] else nth 2 heads [].
(** Agent [idx] is the first of its queue (93, 97, 101). *)
Definition qsa_first (q : Z * Z) (idx : nat) : bool :=
  let i := Z.of_nat idx in
  if Z.ltb i (fst q) then Z.eqb i 0 else if Z.ltb i (fst q + snd q) then Z.eqb i (fst q) else Z.eqb i (fst q + snd q).
(** update_business_1__ (86-126); [heads_of] is [qsa_heads].  The accumulator of the loop tells whether [case] is 1. *)
Definition qsa_one (heads_of : M (list vec * list f64 * (Z * Z))) (n epochs ep : nat) : M unit :=
  '(heads, _, q) <- heads_of ;;
  for_acc n 0 false (fun idx case =>
      let case := qsa_first q idx || case in
      let h := qsa_head q heads idx in
      xi <- pop_sol idx ;;
      if case then
        x <- fm "QSA:104-110" [h; xi; [fnat ep; fnat epochs]] ;;
        r <- try_improve_b P correct gea idx x ;;
        ret (fst r)
      else
        x <- fm "QSA:104-118" [h; xi; [fnat ep; fnat epochs]] ;;
        r <- try_improve_b P correct gea idx x ;;
        ret (negb (fst r))) ;;;
  sort_pop E P.
(** New agents, each against the one it was made from: get_better_agent(agent, pop[idx]) into a new list in single mode, greedy selection of the
    whole otherwise (156-161, 175-180, 252-257, 352-357, 492-497). *)
Definition qsa_batch (n : nat) (cand : nat -> M vec) : M unit :=
  if is_avail md then greedy_batch P md correct gea n cand
  else batch_keep P md n true (fun idx => x <- cand idx ;; a <- propose correct gea x ;; ret [(idx, a)]).
(** DevQSA.update_business_2__ (128-162).  All n agents are kept by get_sorted_and_trimmed_population. *)
Definition qsa_two (heads_of : M (list vec * list f64 * (Z * Z))) (n ep : nat) : M unit :=
  '(heads, ts, q) <- heads_of ;;
  let cv := if dec 1 100000 < nth 0 ts (#0) then nth 0 ts (#0) / (nth 1 ts (#0) + nth 2 ts (#0)) else dec 1 2 in
  qsa_batch n (fun idx =>
      let h := qsa_head q heads idx in
      u <- uniform E ;;
      if u < fnat (S idx) / fnat n then
        '(i1, i2) <- choose2 E (seq 0 n) ;;
        xi <- pop_sol idx ;;
        x1 <- pop_sol i1 ;;
        x2 <- pop_sol i2 ;;
        fm "QSA:147-150" [h; xi; x1; x2; [cv]]
      else r <- random_solution P ;; ret (vtab P (fun j => r.[j]))) ;;;
  sort_pop E P.
(** LevyQSA.update_business_2__ (322-358); the positions made from agents are corrected twice. *)
Definition levy_qsa_two (heads_of : M (list vec * list f64 * (Z * Z))) (n ep : nat) : M unit :=
  '(heads, ts, q) <- heads_of ;;
  let cv := if dec 1 1000000 < nth 0 ts (#0) then nth 0 ts (#0) / (nth 1 ts (#0) + nth 2 ts (#0)) else #1 / #2 in
  qsa_batch n (fun idx =>
      let h := qsa_head q heads idx in
      u <- uniform E ;;
      if u < fnat (S idx) / fnat n then
        i1 <- choice1 E (seq 0 n) ;;
        xi <- pop_sol idx ;;
        x1 <- pop_sol i1 ;;
        x <- fm "QSA:341-345" [h; xi; x1; [cv]] ;;
        y <- correct x ;;
        ret (vtab P (fun j => y.[j]))
      else r <- random_solution P ;; ret (vtab P (fun j => r.[j]))) ;;;
  sort_pop E P.
(** DevQSA.update_business_3__ (164-181). *)
Definition qsa_three (n : nat) : M unit :=
  qsa_batch n (fun idx =>
      i1 <- choice1 E (seq 0 n) ;;
      g <- gb_sol ;;
      xi <- pop_sol idx ;;
      x1 <- pop_sol i1 ;;
      fm "QSA:168-171" [g; xi; x1; [fnat idx; fnat n]]).
(** OriginalQSA.update_business_3__ (477-498). *)
Definition original_qsa_three (n : nat) : M unit :=
  qsa_batch n (fun idx =>
      xi <- pop_sol idx ;;
      dims P (fun j =>
        u <- uniform E ;;
        if fnat (S idx) / fnat n < u then
          '(i1, i2) <- choose2 E (seq 0 n) ;;
          e <- rnum E "QSA:485" [] ;;
          x1 <- pop_sol i1 ;;
          x2 <- pop_sol i2 ;;
          ret (x1.[j] + e * (x2.[j] - xi.[j]))
        else ret (xi.[j]))).
(** OppoQSA.opposition_based__ (244-258). *)
Definition qsa_opposition (n : nat) : M unit :=
  sort_pop E P ;;;
  qsa_batch n (fun idx => xi <- pop_sol idx ;; g <- gb_sol ;; fm "QSA:248" [xi; g]).
(** evolve (183-192, 260-270, 360-369, 421-431, 500-509).  The population passed on from one business to the next is written back in between, which
    nothing reads. *)
Definition qsa_evolve (heads_of : M (list vec * list f64 * (Z * Z))) (two : M (list vec * list f64 * (Z * Z)) -> nat -> nat -> M unit) (three last : nat -> M unit) (n epochs ep : nat) : M unit :=
  qsa_one heads_of n epochs ep ;;; two heads_of n ep ;;; three n ;;; last n.
Definition no_last (n : nat) : M unit := ret tt.
Definition dev_qsa (n epochs : nat) := plain_algo E P md tt n epochs true (qsa_evolve (qsa_heads n) qsa_two qsa_three no_last n epochs).
Definition oppo_qsa (n epochs : nat) := plain_algo E P md tt n epochs true (qsa_evolve (qsa_heads n) qsa_two qsa_three qsa_opposition n epochs).
Definition levy_qsa (n epochs : nat) := plain_algo E P md tt n epochs true (qsa_evolve (qsa_heads n) levy_qsa_two qsa_three no_last n epochs).
Definition improved_qsa (n epochs : nat) := plain_algo E P md tt n epochs true (qsa_evolve (qsa_heads n) levy_qsa_two qsa_three qsa_opposition n epochs).
Definition original_qsa (n epochs : nat) := plain_algo E P md tt n epochs true (qsa_evolve (qsa_heads n) qsa_two original_qsa_three no_last n epochs).
End QSA.

(** ** human_based/TLO.py *)
Section TLO.
Variable E : env.
Variable P : problem.
Variable md : mode.
Section Plain.
Notation gea := (generate_empty_agent (A := unit) (X := unit) P tt).
Notation correct := (correct_solution P).
Notation M := (M unit unit).
Notation fm := (rform E P).
(** OriginalTLO.evolve (human_based/TLO.py:175-204). *)
Definition tlo_evolve (n ep : nat) : M unit :=
  for_ n (fun idx =>
      xs <- view ;;
      xi <- pop_sol idx ;;
      x <- fm "TLO:184-188" (xi :: xs) ;;
      try_improve P correct gea idx x ;;;
      k <- choice1 E (others n [idx]) ;;
      a <- pop_at idx ;;
      b <- pop_at k ;;
      c <- lift (compare_agents a b (p_mm P)) ;;
      x <- fm "TLO:197-200" [sol a; sol b; [if c then #1 else #0]] ;;
      try_improve P correct gea idx x).
Definition original_tlo (n epochs : nat) := plain_algo E P Single tt n epochs false (tlo_evolve n).
(** A row of the position matrix equal to an earlier one: what np.unique(axis=0, return_index=True) leaves out (ETLBO.evolve 119-121). *)
Definition same_row (x y : vec) : bool := (List.length x =? List.length y)%nat && forallb (fun c => feq (fst c) (snd c)) (combine x y).
Definition repeats (xs : list vec) (i : nat) : bool := existsb (fun j => same_row (nth j xs []) (nth i xs [])) (seq 0 i).
(** ETLBO.evolve (62-125). *)
Definition etlbo_teach (n ep : nat) : M unit :=
  p <- get_pop ;;
  '(t, _) <- lift (get_best_agent (e_argsort E) p (p_mm P)) ;;
  let m := mean_sol P p in
  greedy_each P md correct gea n true (fun idx => xi <- pop_sol idx ;; fm "TLO:77-80" [xi; sol t; m]).
Definition etlbo_learn (n : nat) : M unit :=
  greedy_each P md correct gea n true (fun idx =>
      k <- choice1 E (others n [idx]) ;;
      a <- pop_at idx ;;
      b <- pop_at k ;;
      c <- lift (compare_agents a b (p_mm P)) ;;
      fm "TLO:96-100" [sol a; sol b; [if c then #1 else #0]]).
(** Elites over the worst slots (112-116): with return_index=True get_special_agents returns the agents' places in the unsorted population. *)
Definition etlbo_elites (k : nat) (elites : list (agent unit)) : M unit :=
  p <- get_pop ;;
  '(_, ix) <- lift (get_sorted_population (e_argsort E) p (p_mm P)) ;;
  for_ k (fun i => w <- lift (getitem (rev ix) i) ;; e <- lift (getitem elites i) ;; pop_set w e).
(** Repeated positions replaced (119-125); the new positions are not corrected. *)
Definition etlbo_repeats (n : nat) : M unit :=
  xs <- all_sols ;;
  for_list (filter (repeats xs) (seq 0 n)) tt (fun idx _ =>
      x <- uniform_box E P ;;
      a <- gen_at P gea x ;;
      pop_set idx a).
Definition etlbo_evolve (k n ep : nat) : M unit :=
  p <- get_pop ;;
  '(_, elites, _) <- special E P p k 1 ;;
  etlbo_teach n ep ;;;
  etlbo_learn n ;;;
  etlbo_elites k elites ;;;
  etlbo_repeats n.
Definition etlbo (k n epochs : nat) := plain_algo E P md tt n epochs false (etlbo_evolve k n).
End Plain.

Section Improved.
(** ImprovedTLO: the attributes teachers and teams. *)
Notation X := (list (agent unit) * list (list (agent unit)))%type.
Notation gea := (generate_empty_agent (A := unit) (X := X) P tt).
Notation correct := (correct_solution P).
Notation M := (M unit X).
Notation fm := (rform E P).
(** ImprovedTLO.initialization (262-276), after the default one. *)
Definition itlo_more (t n : nat) : M unit :=
  let k := ((n - t) / t)%nat in
  p <- get_pop ;;
  '(sp, _) <- lift (get_sorted_population (e_argsort E) p (p_mm P)) ;;
  b <- lift (getitem sp 0) ;;
  set_gb (Some b) ;;;
  ix <- permutation E (n - t) ;;
  teams <- collect t (fun i => collect k (fun j => r <- lift (getitem ix (i * k + j)) ;; lift (getitem (skipn t sp) r))) ;;
  set_x (firstn t sp, teams).
(** One team (285-310). *)
Definition itlo_teach (t id : nat) : M unit :=
  x <- get_x ;;
  teacher <- lift (getitem (fst x) id) ;;
  team <- lift (getitem (snd x) id) ;;
  tf <- lift (fitness teacher) ;;
  team' <- local_greedy P Single correct gea (List.length team) true team (fun _ j =>
      student <- lift (getitem team j) ;;
      sf <- lift (fitness student) ;;
      i2 <- choice1 E (others t [id]) ;;
      b <- lift (getitem team i2) ;;
      c <- lift (compare_agents teacher b (p_mm P)) ;;
      fm "TLO:291-300" (sol student :: sol teacher :: sol b :: [tf; sf; if c then #1 else #0] :: map sol team)) ;;
  set_x (fst x, upd (snd x) id team').
(** (312-333). *)
Definition itlo_learn (id : nat) : M unit :=
  x <- get_x ;;
  teacher <- lift (getitem (fst x) id) ;;
  team <- lift (getitem (snd x) id) ;;
  u <- uniform E ;;
  team' <- local_greedy P Single correct gea (List.length team) true team (fun _ j =>
      student <- lift (getitem team j) ;;
      i2 <- choice1 E (others (List.length team) [j]) ;;
      b <- lift (getitem team i2) ;;
      c <- lift (compare_agents student b (p_mm P)) ;;
      fm "TLO:318-323" [sol student; sol teacher; sol b; [u; if c then #1 else #0]]) ;;
  set_x (fst x, upd (snd x) id team').
(** The best of a team becomes its teacher (334-338). *)
Definition itlo_elect (id : nat) : M unit :=
  x <- get_x ;;
  teacher <- lift (getitem (fst x) id) ;;
  team <- lift (getitem (snd x) id) ;;
  '(sp, _) <- lift (get_sorted_population (e_argsort E) (team ++ [teacher]) (p_mm P)) ;;
  b <- lift (getitem sp 0) ;;
  set_x (upd (fst x) id b, upd (snd x) id (skipn 1 sp)).
(** evolve (278-339). *)
Definition itlo_evolve (t ep : nat) : M unit :=
  for_ t (itlo_teach t) ;;;
  for_ t itlo_learn ;;;
  for_ t itlo_elect ;;;
  x <- get_x ;;
  set_pop (fst x ++ List.concat (snd x)).
Definition improved_tlo (t n epochs : nat) :=
  with_init (agent_algo E Single gea (ga_of P gea) n epochs false (ret tt) (ret tt) (itlo_evolve t)) (itlo_more t n).
End Improved.
End TLO.

(** ** physics_based/TWO.py *)
Section TWO.
Variable E : env.
Variable P : problem.
Variable md : mode.
(** The attribute weight of an agent. *)
Notation A := f64.
Notation M := (M A unit).
Notation correct := (correct_solution P).
Notation fm := (rform E P).
(** OriginalTWO.generate_empty_agent (physics_based/TWO.py:69-78). *)
Definition two_gea : option vec -> M (agent A) := gea_with P (fun _ => ret (#0)).
(** OriginalTWO.update_weight__ (80-89). *)
Definition two_weights (n : nat) : M unit :=
  fits <- all_fits ;;
  let hi := fmaxl fits in
  let lo := fminl fits in
  fits <- (if feq hi lo then uniform_vec E n else ret fits) ;;
  let ws := map (fun f => exp_ E (fneg (f - hi) / (hi - lo))) fits in
  let tot := fsuml ws in
  for_ n (fun i => w <- lift (getitem ws i) ;; set_att i (w / tot + dec 1 10)).
(** The pulls (98-110, 196-208, 281-293): [cur] holds the positions, which are written into the agents themselves. *)
Definition two_pull (n ep : nat) : M (list vec) :=
  p <- get_pop ;;
  let ws := map att p in
  for_acc n 0 (map sol p) (fun idx cur =>
      x0 <- lift (getitem cur idx) ;;
      pos <- for_acc n 0 x0 (fun jdx pos =>
          wi <- lift (getitem ws idx) ;;
          wj <- lift (getitem ws jdx) ;;
          if wi < wj then
            xj <- lift (getitem cur jdx) ;;
            z <- gvec E P ;;
            ret (vtab P (fun d => pos.[d] + (dec 1 2 * ((wj - wi) * (xj.[d] - x0.[d]) / wi)
                 + pow_ E (dec 99 100) (fnat ep) * dec 1 10 * ((p_ub P).[d] - (p_lb P).[d]) * z.[d])))
          else ret pos) ;;
      ret (upd cur idx pos)).
Definition outside (j : nat) (v : f64) : bool := (v < (p_lb P).[j]) || ((p_ub P).[j] < v).
(** Components out of range (112-123, 295-306). *)
Definition two_repair (ep : nat) (x : vec) : M vec :=
  g <- gb_sol ;;
  dims P (fun j =>
      if outside j (x.[j]) then
        u <- uniform E ;;
        if u <= dec 1 2 then
          z <- gauss E ;;
          let v := g.[j] + z / fnat ep * (g.[j] - x.[j]) in
          ret (if outside j v then x.[j] else v)
        else
          let v := if x.[j] < (p_lb P).[j] then (p_lb P).[j] else x.[j] in
          ret (if (p_ub P).[j] < v then (p_ub P).[j] else v)
      else ret (x.[j])).
(** pop_new is a shallow copy of the population: its agents are the population's, so every comparison is between an agent and itself and the new
    position stays whatever its target (111-131). *)
Definition two_move (n ep : nat) : M unit :=
  xs <- two_pull n ep ;;
  replace_made P md n (fun idx =>
      x <- lift (getitem xs idx) ;;
      y <- two_repair ep x ;;
      z <- correct y ;;
      a <- pop_at idx ;;
      ret (mkAgent z None (att a))).
Definition two_evolve (n ep : nat) : M unit := two_move n ep ;;; two_weights n.
Definition original_two (n epochs : nat) :=
  with_init (agent_algo E md two_gea (ga_of P two_gea) n epochs false (ret tt) (ret tt) (two_evolve n)) (two_weights n).
(** In LevyTWO and OppoTWO the position is corrected but, in single mode, the target is that of the position before correction (LevyTWO.evolve 307-313,
    OppoTWO.evolve 215-221). *)
Definition two_place (n : nat) (xs : list vec) (fix_ : vec -> M vec) : M unit :=
  l <- collect n (fun idx =>
      x <- lift (getitem xs idx) ;;
      y <- fix_ x ;;
      z <- correct y ;;
      a <- pop_at idx ;;
      if is_avail md then ret (mkAgent z None (att a)) else t <- get_target P y ;; ret (mkAgent z (Some t) (att a))) ;;
  l <- update_target_for_population P md l ;;
  set_pop l.
(** LevyTWO.evolve (274-324). *)
Definition levy_two_evolve (n ep : nat) : M unit :=
  xs <- two_pull n ep ;;
  two_place n xs (two_repair ep) ;;;
  for_ n (fun idx =>
      u <- uniform E ;;
      when (u < dec 1 2) (
        xi <- pop_sol idx ;;
        x <- fm "TWO:318-319" [xi] ;;
        try_improve P correct two_gea idx x)) ;;;
  two_weights n.
Definition levy_two (n epochs : nat) :=
  with_init (agent_algo E md two_gea (ga_of P two_gea) n epochs false (ret tt) (ret tt) (levy_two_evolve n)) (two_weights n).
(** OppoTWO.initialization (171-186), after the default one: half of the agents and their opposites. *)
Definition oppo_two_more (n : nat) : M unit :=
  p <- get_pop ;;
  ix <- choice_noreplace E (seq 0 n) (n / 2) ;;
  keep <- collect (n / 2) (fun i => j <- lift (getitem ix i) ;; lift (getitem p j)) ;;
  opp <- new_agents P md correct two_gea (n / 2) (fun i =>
      a <- lift (getitem keep i) ;;
      ret (vtab P (fun d => (p_ub P).[d] + (p_lb P).[d] - (sol a).[d]))) ;;
  set_pop (keep ++ opp) ;;;
  two_weights n.
(** (211-214). *)
Definition oppo_two_fix (ep : nat) (x : vec) : M vec :=
  g <- gb_sol ;;
  z <- gvec E P ;;
  u <- uvec E P ;;
  ret (vtab P (fun d => if outside d (x.[d]) && (u.[d] < dec 1 2) then g.[d] + z.[d] / fnat ep * (g.[d] - x.[d]) else x.[d])).
(** OppoTWO.evolve (188-235). *)
Definition oppo_two_evolve (n ep : nat) : M unit :=
  xs <- two_pull n ep ;;
  two_place n xs (oppo_two_fix ep) ;;;
  greedy_each P md correct two_gea n true (fun idx => xi <- pop_sol idx ;; g <- gb_sol ;; fm "TWO:225" [xi; g]) ;;;
  two_weights n.
Definition oppo_two (n epochs : nat) :=
  with_init (agent_algo E md two_gea (ga_of P two_gea) n epochs false (ret tt) (ret tt) (oppo_two_evolve n)) (oppo_two_more n).
End TWO.

(** ** bio_based/IWO.py *)
Section IWO.
Variable E : env.
Variable P : problem.
Variable md : mode.
Notation gea := (generate_empty_agent (A := unit) (X := unit) P tt).
Notation correct := (correct_solution P).
Notation M := (M unit unit).
Notation fm := (rform E P).
(** The number of seeds (bio_based/IWO.py:97-99); int(np.sqrt(n)) is the integer root below 2^52. *)
Definition iwo_seeds (lo hi n : nat) (ratio : f64) : res nat :=
  let* s := to_int (fceil (fnat lo + fnat (hi - lo) * ratio)) in
  Ok (Nat.min (Z.to_nat s) (Nat.sqrt n)).
Definition iwo_ratio (b w f : f64) : M f64 :=
  let t := b - w in
  if feq t (#0) then uniform E else ret ((f - w) / t).
(** OriginalIWO.evolve (79-112). *)
Definition iwo_next (lo hi n epochs ep : nat) : M (list (agent unit)) :=
  p <- get_pop ;;
  '(sp, bs, ws) <- special E P p 1 1 ;;
  b <- lift (getitem bs 0) ;;
  w <- lift (getitem ws 0) ;;
  bf <- lift (fitness b) ;;
  wf <- lift (fitness w) ;;
  collect_many n (fun idx =>
      a <- lift (getitem sp idx) ;;
      f <- lift (fitness a) ;;
      r <- iwo_ratio bf wf f ;;
      s <- lift (iwo_seeds lo hi n r) ;;
      new_agents P md correct gea s (fun _ => fm "IWO:87,103" [sol a; [fnat ep; fnat epochs]])).
Definition iwo_evolve (lo hi n epochs ep : nat) : M unit :=
  l <- iwo_next lo hi n epochs ep ;;
  q <- lift (get_sorted_and_trimmed_population (e_argsort E) l n (p_mm P)) ;;
  set_pop q.
Definition original_iwo (lo hi n epochs : nat) := plain_algo E P md tt n epochs true (iwo_evolve lo hi n epochs).
End IWO.
