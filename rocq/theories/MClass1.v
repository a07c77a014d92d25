(** Algorithm classes, part 1.  No proofs here.

    In the files MClass1 ... the structure of every class is as written: loops, branches that change what is evaluated,
    the choice of indexes (which may raise), which agents are evaluated, compared and kept, and the attributes.
    Simplification, throughout: the arithmetic of a candidate position is left abstract ([rform], an arbitrary
    function of the arrays it reads, the epoch and its own random draws); the name of the formula gives the lines. *)
From Verif Require Import Prelude Fl MCore MHelp MAlg.
Local Open Scope f_scope.

Section C1.
Variable E : env.
Variable P : problem.
Variable md : mode.
Notation M := (M unit unit).
Notation gea := (generate_empty_agent P tt).
Notation correct := (correct_solution P).
Notation fm := (rform E P).

(** OriginalBMO.evolve (bio_based/BMO.py:68-90). *)
Definition bmo_evolve (pl n ep : nat) : M unit :=
  k1 <- permutation E n ;;
  k2 <- permutation E n ;;
  replace_all P md correct gea n (fun idx =>
    a <- lift (getitem k1 idx) ;;
    b <- lift (getitem k2 idx) ;;
    y <- pop_sol b ;;
    if Nat.leb (Nat.max (a - b) (b - a)) pl
    then x <- pop_sol a ;; fm "BMO:81-82" [x; y]
    else fm "BMO:84" [y]).
Definition original_bmo (pl n epochs : nat) := plain_algo E P md tt n epochs true (bmo_evolve pl n).

(** OriginalServalOA.evolve (swarm_based/ServalOA.py:78-100); not parallelizable. *)
Definition servaloa_evolve (n ep : nat) : M unit :=
  kks <- permutation E n ;;
  kk <- lift (getitem kks 0) ;;
  for_ n (fun idx =>
    x <- pop_sol idx ;;
    y <- pop_sol kk ;;
    p <- fm "ServalOA:88-89" [x; y] ;;
    try_improve P correct gea idx p ;;;
    x <- pop_sol idx ;;
    p <- fm "ServalOA:96" [x; [fnat ep]] ;;
    try_improve P correct gea idx p).
Definition original_servaloa (n epochs : nat) := plain_algo E P Single tt n epochs false (servaloa_evolve n).

(** OriginalTSA.evolve (bio_based/TSA.py:75-100). *)
Definition tsa_evolve (n ep : nat) : M unit :=
  replace_all P md correct gea n (fun idx =>
    g <- gb_sol ;;
    x <- pop_sol idx ;;
    p <- fm "TSA:85-92" [g; x] ;;
    if Nat.eqb idx 0 then ret p
    else y <- pop_sol (idx - 1) ;; ret (vtab P (fun j => (p.[j] + y.[j]) / #2))).
Definition original_tsa (n epochs : nat) := plain_algo E P md tt n epochs false (tsa_evolve n).

(** The move towards or away from agent [kk], shared by POA, WaOA, FFO and NGO (see each). *)
Definition chase (name : string) (mm : minmax) (kk idx : nat) : M unit :=
  a <- pop_at kk ;;
  b <- pop_at idx ;;
  c <- lift (compare_agents a b mm) ;;
  p <- fm (if c then name ++ ":better" else name ++ ":worse")%string [sol a; sol b] ;;
  try_improve P correct gea idx p.
(** OriginalPOA.evolve (swarm_based/POA.py:82-107); not parallelizable. *)
Definition poa_evolve (n ep : nat) : M unit :=
  kks <- permutation E n ;;
  kk <- lift (getitem kks 0) ;;
  for_ n (fun idx =>
    chase "POA:94-96" (p_mm P) kk idx ;;;
    x <- pop_sol idx ;;
    p <- fm "POA:103" [x; [fnat ep]] ;;
    try_improve P correct gea idx p).
Definition original_poa (n epochs : nat) := plain_algo E P Single tt n epochs false (poa_evolve n).
(** OriginalFFO.evolve (swarm_based/FFO.py:90-115); not parallelizable. *)
Definition ffo_evolve (n ep : nat) : M unit :=
  for_ n (fun idx =>
    x <- pop_sol idx ;;
    p <- fm "FFO:99-100" [x; [fnat ep]] ;;
    try_improve P correct gea idx p ;;;
    kk <- choice1 E (others n [idx]) ;;
    chase "FFO:109-111" (p_mm P) kk idx).
Definition original_ffo (n epochs : nat) := plain_algo E P Single tt n epochs false (ffo_evolve n).
(** OriginalWaOA.evolve (swarm_based/WaOA.py:77-102); not parallelizable. *)
Definition waoa_evolve (n ep : nat) : M unit :=
  for_ n (fun idx =>
    kks <- permutation E n ;;
    kk <- lift (getitem kks 0) ;;
    chase "WaOA:88-90" (p_mm P) kk idx ;;;
    x <- pop_sol idx ;;
    p <- fm "WaOA:97-98" [x; [fnat ep]] ;;
    try_improve P correct gea idx p).
Definition original_waoa (n epochs : nat) := plain_algo E P Single tt n epochs false (waoa_evolve n).
(** OriginalNGO.evolve (swarm_based/NGO.py:84-111); not parallelizable.  Line 96 calls compare_target without the
    direction, so it compares as for "min". *)
Definition ngo_evolve (n ep : nat) : M unit :=
  for_ n (fun idx =>
    kks <- permutation E n ;;
    kk <- lift (getitem kks 0) ;;
    chase "NGO:97-99" Min kk idx ;;;
    x <- pop_sol idx ;;
    p <- fm "NGO:106-107" [x; [fnat ep]] ;;
    try_improve P correct gea idx p).
Definition original_ngo (n epochs : nat) := plain_algo E P Single tt n epochs false (ngo_evolve n).

(** OriginalSSO.evolve (swarm_based/SSO.py:58-87). *)
Definition sso_evolve (n ep : nat) : M unit :=
  greedy_each P md correct gea n true (fun idx =>
    if Nat.ltb (2 * idx) n
    then g <- gb_sol ;; fm "SSO:70-74" [g; [fnat ep]]
    else x <- pop_sol idx ;; y <- pop_sol (idx - 1) ;; ret (vtab P (fun j => (x.[j] + y.[j]) / #2))).
Definition original_sso (n epochs : nat) := plain_algo E P md tt n epochs true (sso_evolve n).

(** OriginalMFO.evolve (swarm_based/MFO.py:57-90). *)
Definition mfo_evolve (n ep : nat) : M unit :=
  p <- get_pop ;;
  '(flames, _) <- lift (get_sorted_population (e_argsort E) p (p_mm P)) ;;
  g <- lift (getitem flames 0) ;;
  greedy_each P md correct gea n false (fun idx =>
    f <- lift (getitem flames idx) ;;
    x <- pop_sol idx ;;
    fm "MFO:73-81" [sol f; x; sol g; [fnat idx]; [fnat ep]]).
Definition original_mfo (n epochs : nat) := plain_algo E P md tt n epochs false (mfo_evolve n).

(** The hunted agent of STO and OOA: the global best or, with probability 1/2, one of the better agents. *)
Definition prey (idx : nat) : M (agent unit) :=
  idxs <- better_idxs P idx ;;
  if Nat.eqb (List.length idxs) 0 then get_gb
  else c <- coin E (dec 1 2) ;;
       if c then get_gb
       else ks <- choice_noreplace E idxs (List.length idxs) ;; kk <- lift (getitem ks 0) ;; pop_at kk.
(** OriginalSTO.evolve (swarm_based/STO.py:87-117); not parallelizable. *)
Definition sto_evolve (n ep : nat) : M unit :=
  for_ n (fun idx =>
    sf <- prey idx ;;
    x <- pop_sol idx ;;
    p <- fm "STO:105-106" [sol sf; x] ;;
    try_improve P correct gea idx p ;;;
    x <- pop_sol idx ;;
    p <- fm "STO:113" [x; [fnat ep]] ;;
    try_improve P correct gea idx p).
Definition original_sto (n epochs : nat) := plain_algo E P Single tt n epochs false (sto_evolve n).
(** OriginalOOA.evolve (swarm_based/OOA.py:89-119); not parallelizable. *)
Definition ooa_evolve (n ep : nat) : M unit :=
  for_ n (fun idx =>
    sf <- prey idx ;;
    x <- pop_sol idx ;;
    p <- fm "OOA:107-108" [sol sf; x] ;;
    try_improve P correct gea idx p ;;;
    x <- pop_sol idx ;;
    p <- fm "OOA:115" [x] ;;
    try_improve P correct gea idx p).
Definition original_ooa (n epochs : nat) := plain_algo E P Single tt n epochs false (ooa_evolve n).

(** OriginalRIME.evolve (physics_based/RIME.py:71-102). *)
Definition rime_evolve (sr : f64) (n ep : nat) : M unit :=
  r <- uniform E ;;
  fits <- all_fits ;;
  greedy_each P md correct gea n true (fun idx =>
    x <- pop_sol idx ;;
    g <- gb_sol ;;
    fm "RIME:86-93" [x; g; [r; sr; fnat idx; fnat ep]; fits]).
Definition original_rime (sr : f64) (n epochs : nat) := plain_algo E P md tt n epochs false (rime_evolve sr n).

(** OriginalCoatiOA.evolve (swarm_based/CoatiOA.py:81-115); not parallelizable.  The iguana is evaluated and dropped. *)
Definition coatioa_evolve (n ep : nat) : M unit :=
  for_ (n / 2)%nat (fun idx =>
    x <- pop_sol idx ;;
    g <- gb_sol ;;
    p <- fm "CoatiOA:91" [x; g] ;;
    try_improve P correct gea idx p) ;;;
  for_ (n - n / 2)%nat (fun k =>
    let idx := (n / 2 + k)%nat in
    iguana <- random_agent P gea ;;
    b <- pop_at idx ;;
    c <- lift (compare_agents iguana b (p_mm P)) ;;
    p <- fm (if c then "CoatiOA:100" else "CoatiOA:102") [sol iguana; sol b] ;;
    try_improve P correct gea idx p) ;;;
  for_ n (fun idx =>
    x <- pop_sol idx ;;
    p <- fm "CoatiOA:110-111" [x; [fnat ep]] ;;
    try_improve P correct gea idx p).
Definition original_coatioa (n epochs : nat) := plain_algo E P Single tt n epochs false (coatioa_evolve n).

(** OriginalSCSO.evolve (swarm_based/SCSO.py:71-97).  The attributes set by initialize_variables (62-64) are constants;
    the roulette wheel over them (66-69) is part of the abstract formula. *)
Definition scso_evolve (n ep : nat) : M unit :=
  replace_all P md correct gea n (fun idx => v <- view ;; fm "SCSO:81-91" ([fnat idx; fnat ep] :: v)).
Definition original_scso (n epochs : nat) := plain_algo E P md tt n epochs false (scso_evolve n).

(** OriginalEAO.evolve (bio_based/EAO.py:72-108); not parallelizable. *)
Definition eao_evolve (ec : f64) (n ep : nat) : M unit :=
  for_ n (fun idx =>
    x <- pop_sol idx ;;
    g <- gb_sol ;;
    p1 <- fm "EAO:85-86" [x; g; [fnat ep]] ;;
    '(j1, j2) <- choose2 E (others n [idx]) ;;
    y1 <- pop_sol j1 ;;
    y2 <- pop_sol j2 ;;
    pA <- fm "EAO:94-96" [x; g; y1; y2; [ec; fnat ep]] ;;
    pB <- fm "EAO:101-103" [x; g; y1; y2; [ec; fnat ep]] ;;
    ys <- correct_list correct [p1; pA; pB] ;;
    best_with_old E P gea idx ys).
Definition original_eao (ec : f64) (n epochs : nat) := plain_algo E P Single tt n epochs false (eao_evolve ec n).

(** OriginalFPA.evolve (evolutionary_based/FPA.py:76-99), with amend_solution (71-74). *)
Definition fpa_evolve (p_s levy_multiplier : f64) (n ep : nat) : M unit :=
  greedy_each P md (correct_solution_with P (amend_gen P)) gea n true (fun idx =>
    c <- coin E p_s ;;
    x <- pop_sol idx ;;
    if c
    then g <- gb_sol ;; fm "FPA:86-87" [x; g; [levy_multiplier; fnat ep]]
    else '(i1, i2) <- choose2 E (others n [idx]) ;;
         x1 <- pop_sol i1 ;;
         x2 <- pop_sol i2 ;;
         fm "FPA:90" [x; x1; x2]).
Definition original_fpa (p_s levy_multiplier : f64) (n epochs : nat) :=
  plain_algo E P md tt n epochs false (fpa_evolve p_s levy_multiplier n).

(** OriginalOSA.evolve (swarm_based/OSA.py:81-131).  The new agent is written to the population before the next one
    is built, and is not read again. *)
Definition osa_evolve (alpha_max beta_max : f64) (n ep : nat) : M unit :=
  alpha <- uniform E ;;
  v <- view_fit ;;
  r <- uniform_vec E n ;;
  replace_each P md correct gea n (fun idx =>
    g <- gb_sol ;;
    fm "OSA:112-120" ([alpha; alpha_max; beta_max; fnat idx; fnat ep] :: g :: r :: v)).
Definition original_osa (alpha_max beta_max : f64) (n epochs : nat) :=
  plain_algo E P md tt n epochs false (osa_evolve alpha_max beta_max n).

(** OriginalGOA.evolve (swarm_based/GOA.py:81-110), with s_function__ (75-79). *)
Definition goa_evolve (c_min c_max : f64) (n ep : nat) : M unit :=
  greedy_each P md correct gea n true (fun idx => v <- view ;; fm "GOA:92-101" ([c_min; c_max; fnat idx; fnat ep] :: v)).
Definition original_goa (c_min c_max : f64) (n epochs : nat) :=
  plain_algo E P md tt n epochs false (goa_evolve c_min c_max n).

(** OriginalMGOA.evolve (human_based/MGOA.py:67-101).  The dimensions of line 85 are part of the abstract formula. *)
Definition mgoa_evolve (attract_dim_rate : f64) (n ep : nat) : M unit :=
  attract <- coin E (dec 1 2) ;;
  greedy_each P md correct gea n false (fun idx =>
    x <- pop_sol idx ;;
    if attract
    then g <- gb_sol ;; fm "MGOA:85-86" [x; g; [attract_dim_rate; fnat ep]]
    else '(rA, rB) <- choose2 E (others n [idx]) ;;
         a <- pop_sol rA ;;
         b <- pop_sol rB ;;
         fm "MGOA:89-91" [x; a; b]).
Definition original_mgoa (attract_dim_rate : f64) (n epochs : nat) :=
  plain_algo E P md tt n epochs false (mgoa_evolve attract_dim_rate n).

(** OriginalACOR.evolve (swarm_based/ACOR.py:77-112). *)
Definition acor_evolve (sample_count : nat) (intent_factor zeta : f64) (n ep : nat) : M unit :=
  xs <- all_sols ;;
  trim_batch E P md correct gea sample_count n (fun idx => fm "ACOR:102-105" ([intent_factor; zeta] :: xs)).
Definition original_acor (sample_count : nat) (intent_factor zeta : f64) (n epochs : nat) :=
  plain_algo E P md tt n epochs true (acor_evolve sample_count intent_factor zeta n).

(** OriginalGJO.evolve (swarm_based/GJO.py:62-98). *)
Definition gjo_evolve (n ep : nat) : M unit :=
  p <- get_pop ;;
  '(_, best, _) <- special E P p 2 1 ;;
  male <- lift (getitem best 0) ;;
  female <- lift (getitem best 1) ;;
  rl <- tick ;;
  replace_each P md correct gea n (fun idx =>
    x <- pop_sol idx ;;
    fm "GJO:74-90" [sol male; sol female; x; [fnat rl; fnat idx; fnat ep]]).
Definition original_gjo (n epochs : nat) := plain_algo E P md tt n epochs false (gjo_evolve n).

(** OriginalTOA.evolve (human_based/TOA.py:89-122), with get_indexes_better__ (81-87); not parallelizable.  The
    supervisor built from the mean of the better members is evaluated and dropped. *)
Definition toa_evolve (n ep : nat) : M unit :=
  for_ n (fun idx =>
    x <- pop_sol idx ;;
    g <- gb_sol ;;
    p <- fm "TOA:98" [x; g] ;;
    try_improve P correct gea idx p ;;;
    idxs <- better_idxs P idx ;;
    sf <- (if Nat.eqb (List.length idxs) 0 then get_gb
           else pop <- get_pop ;;
                let m := mean_sol P (map (fun i => nth i pop (mkAgent [] None tt)) idxs) in
                gen_agent P correct gea m) ;;
    x <- pop_sol idx ;;
    f1 <- pop_fit idx ;;
    f2 <- lift (fitness sf) ;;
    p <- fm "TOA:111-112" [x; sol sf; [f1; f2]] ;;
    try_improve P correct gea idx p ;;;
    x <- pop_sol idx ;;
    p <- fm "TOA:118" [x] ;;
    try_improve P correct gea idx p).
Definition original_toa (n epochs : nat) := plain_algo E P Single tt n epochs false (toa_evolve n).
End C1.
