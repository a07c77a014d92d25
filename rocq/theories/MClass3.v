(** Algorithm classes, part 3.  No proofs here.  Simplifications: see MClass1. *)
From Verif Require Import Prelude Fl MCore MHelp MAlg MAlg2.
Local Open Scope f_scope.

Section Plain.
Variable E : env.
Variable P : problem.
Variable md : mode.
Notation gea := (generate_empty_agent (A := unit) (X := unit) P tt).
Notation correct := (correct_solution P).
Notation M := (M unit unit).
Notation fm := (rform E P).

(** OriginalZOA.evolve (swarm_based/ZOA.py:81-123). *)
Definition zoa_evolve (n epochs ep : nat) : M unit :=
  greedy_each P md correct gea n true (fun idx => x <- pop_sol idx ;; g <- gb_sol ;; fm "ZOA:91-92" [x; g]) ;;;
  pm <- permutation E n ;;
  kk <- lift (getitem pm 0) ;;
  greedy_each P md correct gea n true (fun idx =>
    u <- uniform E ;;
    x <- pop_sol idx ;;
    if u < dec 1 2
    then fm "ZOA:109-110" [x; [fnat ep / fnat epochs]]
    else
      r2 <- integers E 1 3 ;;
      y <- pop_sol kk ;;
      fm "ZOA:114" [x; y; [fnat r2]]).
Definition original_zoa (n epochs : nat) := plain_algo E P md tt n epochs false (zoa_evolve n epochs).

(** OriginalCDO.evolve (physics_based/CDO.py:62-105). *)
Definition cdo_evolve (n epochs ep : nat) : M unit :=
  p <- get_pop ;;
  '(_, best, _) <- special E P p 3 1 ;;
  b1 <- lift (getitem best 0) ;;
  b2 <- lift (getitem best 1) ;;
  b3 <- lift (getitem best 2) ;;
  a1 <- rnum E "CDO:71" [] ;;
  a2 <- rnum E "CDO:72" [] ;;
  a3 <- rnum E "CDO:73" [] ;;
  replace_all P md correct gea n (fun idx =>
    x <- pop_sol idx ;;
    fm "CDO:76-97" [sol b1; sol b2; sol b3; x; [a1; a2; a3; #3 - #3 * fnat ep / fnat epochs]]).
Definition original_cdo (n epochs : nat) := plain_algo E P md tt n epochs false (cdo_evolve n epochs).

(** OriginalKLA.evolve (physics_based/KLA.py:61-108). *)
Definition kla_evolve (n ep : nat) : M unit :=
  greedy_each P md correct gea n false (fun idx =>
    '(a, b, jj) <- choose3 E (others n [idx]) ;;
    f_i <- pop_fit idx ;;
    f_a <- pop_fit a ;;
    f_b <- pop_fit b ;;
    f_j <- pop_fit jj ;;
    x <- pop_sol idx ;;
    xa <- pop_sol a ;;
    xb <- pop_sol b ;;
    xj <- pop_sol jj ;;
    fm "KLA:79-99" [[f_i; f_a; f_b; f_j]; x; xa; xb; xj]).
Definition original_kla (n epochs : nat) := plain_algo E P md tt n epochs false (kla_evolve n).

(** OriginalRSA.evolve (swarm_based/RSA.py:62-104). *)
Definition rsa_evolve (alpha beta : f64) (n epochs ep : nat) : M unit :=
  best <- gb_sol ;;
  r3 <- integers E 0 3 ;;
  let es := #2 * (fnat r3 - #1) * (#1 - #1 / fnat epochs) in
  greedy_each P md correct gea n true (fun i =>
    x <- pop_sol i ;;
    r1 <- integers E 0 n ;;
    r2 <- integers E 0 n ;;
    x1 <- pop_sol r1 ;;
    x2 <- pop_sol r2 ;;
    let args := [x; x1; x2; best; [alpha; beta; es]] in
    if fnat ep <= fnat epochs / #4 then fm "RSA:86" args
    else if fnat ep <= #2 * fnat epochs / #4 then fm "RSA:88" args
    else if fnat ep <= #3 * fnat epochs / #4 then fm "RSA:90" args
    else fm "RSA:92" args).
Definition original_rsa (alpha beta : f64) (n epochs : nat) := plain_algo E P md tt n epochs false (rsa_evolve alpha beta n epochs).

(** OriginalFHO.evolve (swarm_based/FHO.py:70-139).  The new positions are computed from the old ones before any
    evaluation; [h] hawks, the rest are preys. *)
Definition fho_evolve (n ep : nat) : M unit :=
  h <- integers E 1 (n / 5 + 1)%nat ;;
  p <- get_pop ;;
  '(_, ix) <- lift (get_sorted_population (e_argsort E) p (p_mm P)) ;;
  g <- gb_sol ;;
  xs <- all_sols ;;
  ys <- lift (pick xs ix) ;;
  new <- collect n (fun idx => fm (if Nat.ltb idx h then "FHO:99-104" else "FHO:110-125") ([fnat idx; fnat h] :: g :: ys)) ;;
  replace_all P md correct gea n (fun idx => lift (getitem new idx)).
Definition original_fho (n epochs : nat) := plain_algo E P md tt n epochs false (fho_evolve n).

(** OriginalSOS.evolve (bio_based/SOS.py:57-94); not parallelizable. *)
Definition sos_evolve (n ep : nat) : M unit :=
  for_ n (fun idx =>
    jdx <- choice1 E (others n [idx]) ;;
    x <- pop_sol idx ;;
    y <- pop_sol jdx ;;
    g <- gb_sol ;;
    bf1 <- integers E 1 3 ;;
    bf2 <- integers E 1 3 ;;
    xi <- fm "SOS:69" [x; y; g; [fnat bf1]] ;;
    xj <- fm "SOS:70" [x; y; g; [fnat bf2]] ;;
    try_pair P correct gea idx jdx xi xj ;;;
    j2 <- choice1 E (others n [idx]) ;;
    x <- pop_sol idx ;;
    y <- pop_sol j2 ;;
    g <- gb_sol ;;
    p <- fm "SOS:81" [x; y; g] ;;
    try_improve P correct gea idx p ;;;
    j3 <- choice1 E (others n [idx]) ;;
    t <- integers E 0 (n_dims P) ;;
    y <- pop_sol j3 ;;
    k <- tick ;;
    try_improve P correct gea idx (vtab P (fun d => if Nat.eqb d t then (p_gen P k).[d] else y.[d]))).
Definition original_sos (n epochs : nat) := plain_algo E P Single tt n epochs false (sos_evolve n).

(** OriginalChOA.evolve (swarm_based/ChOA.py:55-120). *)
Definition choa_evolve (n epochs ep : nat) : M unit :=
  p <- get_pop ;;
  '(_, best, _) <- special E P p 4 3 ;;
  b1 <- lift (getitem best 0) ;;
  b2 <- lift (getitem best 1) ;;
  b3 <- lift (getitem best 2) ;;
  b4 <- lift (getitem best 3) ;;
  greedy_each P md correct gea n true (fun idx =>
    x <- pop_sol idx ;;
    fm "ChOA:75-107" [sol b1; sol b2; sol b3; sol b4; x; [dec 5 2 - dec 5 2 * (fnat ep / fnat epochs)]]).
Definition original_choa (n epochs : nat) := plain_algo E P md tt n epochs false (choa_evolve n epochs).

(** OriginalMSA.evolve (swarm_based/MSA.py:85-119); [m1] = n_moth1 (79). *)
Definition msa_evolve (n_best m1 : nat) (max_step : f64) (n ep : nat) : M unit :=
  with_elites E P n n_best (
    greedy_each P md correct gea n false (fun idx =>
      x <- pop_sol idx ;;
      if Nat.ltb idx m1 then fm "MSA:97-99" [x; [max_step / fnat ep]]
      else g <- gb_sol ;; fm "MSA:102-106" [x; g])).
Definition original_msa (n_best m1 : nat) (max_step : f64) (n epochs : nat) :=
  plain_algo E P md tt n epochs true (msa_evolve n_best m1 max_step n).

(** OriginalTDO.evolve (swarm_based/TDO.py:78-118); not parallelizable.  Both branches of 87 do the same. *)
Definition tdo_evolve (n epochs ep : nat) : M unit :=
  for_ n (fun idx =>
    u <- uniform E ;;
    kk <- choice1 E (others n [idx]) ;;
    a <- pop_at kk ;;
    b <- pop_at idx ;;
    c <- lift (compare_agents a b (p_mm P)) ;;
    pos <- fm (if c : bool then "TDO:92" else "TDO:94") [sol b; sol a; [u]] ;;
    try_improve P correct gea idx pos ;;;
    x <- pop_sol idx ;;
    pos <- fm "TDO:114" [x; [dec 1 100 * (#1 - fnat ep / fnat epochs)]] ;;
    try_improve P correct gea idx pos).
Definition original_tdo (n epochs : nat) := plain_algo E P Single tt n epochs false (tdo_evolve n epochs).

(** OriginalHBA.evolve (swarm_based/HBA.py:80-111), with get_intensity__ (67-78). *)
Definition hba_evolve (n ep : nat) : M unit :=
  v <- view ;;
  it <- rlist E n "HBA:67-78" v ;;
  greedy_each P md correct gea n true (fun idx =>
    g <- gb_sol ;;
    x <- pop_sol idx ;;
    i <- lift (getitem it idx) ;;
    fm "HBA:92-102" [g; x; [i]]).
Definition original_hba (n epochs : nat) := plain_algo E P md tt n epochs false (hba_evolve n).

(** OriginalSHO.evolve (swarm_based/SHO.py:71-115).  The trial solutions (91-99) are evaluated and dropped; the loop
    stops at the first one better than the global best.  [N] positions are then drawn without replacement (101). *)
Definition sho_trials (n_trials : nat) : M nat :=
  '(N, _) <- for_acc n_trials 0 (1%nat, false) (fun _ '(N, stop) =>
    if stop : bool then ret (N, true) else
    g <- get_gb ;;
    pos <- fm "SHO:92-93" [sol g] ;;
    a <- gen_agent P correct gea pos ;;
    c <- lift (compare_agents a g (p_mm P)) ;;
    ret (S N, c)) ;;
  ret N.
Definition sho_evolve (h_factor : f64) (n_trials n epochs ep : nat) : M unit :=
  let hh := h_factor - fnat ep * (h_factor / fnat epochs) in
  greedy_each P md correct gea n false (fun idx =>
    k <- tick ;;
    u <- uniform E ;;
    if u < dec 1 2 then x <- pop_sol idx ;; g <- gb_sol ;; fm "SHO:87-88" [x; g; [hh; fnat k]]
    else
      N <- sho_trials n_trials ;;
      ids <- choice_noreplace E (seq 0 n) N ;;
      xs <- all_sols ;;
      ys <- lift (pick xs ids) ;;
      g <- gb_sol ;;
      fm "SHO:103-106" ([hh; fnat k] :: g :: ys)).
Definition original_sho (h_factor : f64) (n_trials n epochs : nat) := plain_algo E P md tt n epochs false (sho_evolve h_factor n_trials n epochs).

(** OriginalBBOA.evolve (bio_based/BBOA.py:62-108). *)
Definition bboa_evolve (n epochs ep : nat) : M unit :=
  let pp := fnat ep / fnat epochs in
  greedy_each P md correct gea n true (fun idx =>
    x <- pop_sol idx ;;
    if pp <= #1 / #3 then fm "BBOA:75" [x; [pp]]
    else
      g <- gb_sol ;;
      w <- gw_sol ;;
      if (#1 / #3 < pp) && (pp <= #2 / #3) then fm "BBOA:77-78" [x; g; w; [pp]] else fm "BBOA:80-81" [x; g; w; [pp]]) ;;;
  greedy_each P md correct gea n true (fun idx =>
    kk <- choice1 E (others n [idx]) ;;
    a <- pop_at idx ;;
    b <- pop_at kk ;;
    c <- lift (compare_agents a b (p_mm P)) ;;
    fm (if c : bool then "BBOA:97" else "BBOA:99") [sol a; sol b]).
Definition original_bboa (n epochs : nat) := plain_algo E P md tt n epochs false (bboa_evolve n epochs).

(** OriginalRFO.evolve (swarm_based/RFO.py:63-131); [k] = max(1, int(0.05 * pop_size)) (119). *)
Definition rfo_evolve (phi_0 theta : f64) (k n ep : nat) : M unit :=
  for_ n (fun idx =>
    x <- pop_sol idx ;;
    g <- gb_sol ;;
    pos <- fm "RFO:73-77" [x; g] ;;
    try_improve P correct gea idx pos ;;;
    u <- uniform E ;;
    when (dec 3 4 < u) (
      x <- pop_sol idx ;;
      pos <- fm "RFO:86-104" [x; [phi_0; theta]] ;;
      try_improve P correct gea idx pos)) ;;;
  sort_retire E P correct gea (n - k)%nat k
    (x1 <- pop_sol 0 ;; x2 <- pop_sol 1 ;; ret (x1, x2))
    (fun xx _ =>
       let '(x1, x2) := xx in
       kappa <- uniform E ;;
       if dec 9 20 <= kappa then uniform_box E P else ret (vtab P (fun j => kappa * (x1.[j] + x2.[j]) / #2))).
Definition original_rfo (phi_0 theta : f64) (k n epochs : nat) := plain_algo E P md tt n epochs true (rfo_evolve phi_0 theta k n).
End Plain.

(** OriginalCrayfishOA.evolve (swarm_based/CrayfishOA.py:63-117).  The local variable Xfood, changed along the loop (96),
    is kept in the attribute slot; in single mode the agents are evaluated after the loop, which changes nothing else. *)
Section CrayfishOA.
Variable E : env.
Variable P : problem.
Variable md : mode.
Notation X := vec.
Notation gea := (generate_empty_agent (A := unit) (X := X) P tt).
Definition crayfish_evolve (n epochs ep : nat) : M unit X unit :=
  temp <- rnum E "CrayfishOA:72" [] ;;
  p <- get_pop ;;
  '(cb, _) <- lift (get_best_agent (e_argsort E) p (p_mm P)) ;;
  g <- gb_sol ;;
  let xf := vtab P (fun j => (g.[j] + (sol cb).[j]) / #2) in
  let c := #2 - fnat ep / fnat epochs in
  set_x g ;;;
  greedy_batch P md (correct_solution P) gea n (fun idx =>
    x <- pop_sol idx ;;
    if #30 < temp
    then
      u <- uniform E ;;
      if u < dec 1 2 then rform E P "CrayfishOA:83" [x; xf; [c]]
      else dims P (fun j => z <- integers E 0 n ;; y <- pop_sol z ;; ret (x.[j] - y.[j] + xf.[j]))
    else
      u <- uniform E ;;
      f <- pop_fit idx ;;
      fg <- gb_fit ;;
      let pp := #3 * u * f / (fg + epsilon) in
      food <- get_x ;;
      if #2 < pp
      then
        let food' := vtab P (fun j => exp_ E (- #1 / pp) * food.[j]) in
        set_x food' ;;;
        rform E P "CrayfishOA:97-100" [x; food'; [temp]]
      else rform E P "CrayfishOA:103" [x; food; [temp]]).
Definition original_crayfish (n epochs : nat) :=
  agent_algo E md gea (ga_of P gea) n epochs false (ret tt) (ret tt) (crayfish_evolve n epochs).
End CrayfishOA.

(** OriginalCDDO (human_based/CDDO.py:71-136).  Attributes: LR, SR, pop_local and list_gr.  The draw between the bounds of
    the first dimension (112) is an arbitrary number. *)
Section CDDO.
Variable E : env.
Variable P : problem.
Variable md : mode.
Notation X := ((f64 * f64) * list (agent unit) * vec)%type.
Notation gea := (generate_empty_agent (A := unit) (X := X) P tt).
(** before_main_loop (CDDO.py:88-100). *)
Definition cddo_main (n : nat) : M unit X unit :=
  x <- (lr <- uniform_in E (dec 1 10) #1 ;;
        sr <- uniform_in E (dec 1 10) #1 ;;
        loc <- get_pop ;;
        gr <- collect n (fun idx =>
          p1 <- integers E 0 (n_dims P) ;;
          p2 <- integers E 0 (n_dims P) ;;
          y <- pop_sol idx ;;
          ret (if feq y.[p1] #0 then y.[p2] else y.[p1] + y.[p2] / y.[p1])) ;;
        ret ((lr, sr), loc, gr)) ;;
  set_x x.
(** evolve (CDDO.py:102-136). *)
Definition cddo_evolve (psize : nat) (creat : f64) (n ep : nat) : M unit X unit :=
  p <- get_pop ;;
  '(_, pattern, _) <- special E P p psize 3 ;;
  replace_each P md (correct_solution P) gea n (fun idx =>
    hp <- rnum E "CDDO:112" [] ;;
    pp <- integers E 0 (n_dims P) ;;
    x <- pop_sol idx ;;
    '((lr, sr), loc, gr) <- get_x ;;
    l <- lift (getitem loc idx) ;;
    gi <- lift (getitem gr idx) ;;
    if x.[pp] <= hp
    then
      g <- gb_sol ;;
      pos <- rform E P "CDDO:117-120" [[gi; sr; lr]; sol l; x; g] ;;
      i1 <- integers E 6 11 ;;
      i2 <- integers E 6 11 ;;
      set_x ((fnat i1 / #10, fnat i2 / #10), loc, gr) ;;;
      ret pos
    else if (dec 3 2 < gi) && (gi < #2)
    then
      k <- integers E 0 psize ;;
      b <- lift (getitem pattern k) ;;
      i1 <- integers E 0 6 ;;
      i2 <- integers E 0 6 ;;
      set_x ((fnat i1 / #10, fnat i2 / #10), loc, gr) ;;;
      ret (vtab P (fun j => (sol b).[j] - creat * (sol l).[j]))
    else ret x) ;;;
  '(r, loc, gr) <- get_x ;;
  p <- get_pop ;;
  q <- lift (greedy_selection_population loc p (p_mm P)) ;;
  set_x (r, q, gr).
Definition original_cddo (psize : nat) (creat : f64) (n epochs : nat) :=
  agent_algo E md gea (ga_of P gea) n epochs false (ret tt) (cddo_main n) (cddo_evolve psize creat n).
End CDDO.

(** OriginalSSDO (human_based/SSDO.py:56-102).  Agent attribute: local_solution.  The velocities are computed anew in every
    epoch before use, so they are local.  In the parallel modes the candidates (93-96) are dropped, and copies of the old
    agents are evaluated instead. *)
Section SSDO.
Variable E : env.
Variable P : problem.
Variable md : mode.
(** generate_empty_agent (SSDO.py:63-68). *)
Definition ssdo_gea := gea_with (A := vec) (X := unit) P (fun x => _ <- uniform_box E P ;; ret x).
(** evolve (SSDO.py:70-102). *)
Definition ssdo_evolve (n epochs ep : nat) : M vec unit unit :=
  let c := #2 - fnat ep * (#2 / fnat epochs) in
  p <- get_pop ;;
  '(_, best, _) <- special E P p 3 3 ;;
  let pm := sform E "SSDO:80" (map sol best) in
  r1 <- uniform E ;;
  r2 <- uniform E ;;
  vs <- collect n (fun i => a <- pop_at i ;; rform E P (if r2 <= dec 1 2 then "SSDO:87" else "SSDO:89") [att a; sol a; [c; r1; pm]]) ;;
  for_ n (fun idx =>
    v <- lift (getitem vs idx) ;;
    old <- lift (getitem p idx) ;;
    pos <- rform E P "SSDO:93" [sol old; v] ;;
    a <- propose (correct_solution P) ssdo_gea pos ;;
    x <- pop_sol idx ;;
    if is_avail md then ret tt else keep_agent P true idx (with_att a x)) ;;;
  when (is_avail md) (greedy_made P md n (fun i => lift (getitem p i))).
Definition original_ssdo (n epochs : nat) :=
  agent_algo E md ssdo_gea (ga_of P ssdo_gea) n epochs false (ret tt) (ret tt) (ssdo_evolve n epochs).
End SSDO.
