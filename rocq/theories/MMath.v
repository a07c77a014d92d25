(** Algorithms of mealpy/math_based.  No proofs here. *)
From Verif Require Import Prelude Fl MCore MHelp MAlg.
Local Open Scope f_scope.

Section Math.
Variable E : env.
Variable P : problem.
Variable md : mode.
Notation M := (M unit unit).
Notation gea := (generate_empty_agent P tt).
Notation correct := (correct_solution P).
Notation lb := (p_lb P).
Notation ub := (p_ub P).

(** epoch / self.epoch as a float. *)
Definition prog (ep epochs : nat) : f64 := fnat ep / fnat epochs.

(** ** AOA (math_based/AOA.py) *)
(** OriginalAOA.evolve (AOA.py:79-112). *)
Definition aoa_evolve (alpha miu moa_min moa_max : f64) (n epochs ep : nat) : M unit :=
  let moa := moa_min + fnat ep * ((moa_max - moa_min) / fnat epochs) in
  let mop := #1 - pow_ E (fnat (ep + 1)) (#1 / alpha) / pow_ E (fnat epochs) (#1 / alpha) in
  greedy_each P md correct gea n true (fun idx =>
    pop_at idx ;;;
    g <- gb_sol ;;
    dims P (fun j =>
      r1 <- uniform E ;;
      r2 <- uniform E ;;
      r3 <- uniform E ;;
      let w := (ub.[j] - lb.[j]) * miu + lb.[j] in
      ret (if moa < r1
           then if r2 < dec 1 2 then g.[j] / (mop + epsilon) * w else g.[j] * mop * w
           else if r3 < dec 1 2 then g.[j] - mop * w else g.[j] + mop * w))).
Definition original_aoa (alpha miu moa_min moa_max : f64) (n epochs : nat) :=
  plain_algo E P md tt n epochs false (aoa_evolve alpha miu moa_min moa_max n epochs).

(** ** CGO (math_based/CGO.py) *)
(** OriginalCGO.evolve (CGO.py:68-108); not parallelizable. *)
Definition cgo_evolve (n ep : nat) : M unit :=
  for_ n (fun idx =>
    '(s1, s2, s3) <- choose3 E (seq 0 n) ;;
    x1 <- pop_sol s1 ;;
    x2 <- pop_sol s2 ;;
    x3 <- pop_sol s3 ;;
    let mg j := (x1.[j] + x2.[j] + x3.[j]) / #3 in
    a1 <- uniform E ;;
    u2 <- uniform E ;;
    u3 <- uniform E ;;
    u3' <- uniform E ;;
    uniform E ;;;
    uniform E ;;;
    beta <- integers_vec E 0 2 3 ;;
    gama <- integers_vec E 0 2 3 ;;
    k <- integers E 0 (n_dims P) ;;
    kx <- choice_noreplace E (seq 0 (n_dims P)) k ;;
    x <- pop_sol idx ;;
    g <- gb_sol ;;
    us <- uniform_vec E k ;;
    let a2 := #2 * u2 in
    let a3 := #1 + u3 * u3' in
    let seed1 := vtab P (fun j => x.[j] + a1 * (beta.[0] * g.[j] - gama.[0] * mg j)) in
    let seed2 := vtab P (fun j => g.[j] + a2 * (beta.[1] * x.[j] - gama.[1] * mg j)) in
    let seed3 := vtab P (fun j => mg j + a3 * (beta.[2] * x.[j] - gama.[2] * g.[j])) in
    let seed4 := vtab P (fun j => match find (fun p => Nat.eqb (fst p) j) (combine kx us) with
                                  | Some (_, u) => x.[j] + u | None => x.[j] end) in
    ys <- correct_list correct [seed1; seed2; seed3; seed4] ;;
    best_keep E P gea true idx ys).
Definition original_cgo (n epochs : nat) := plain_algo E P Single tt n epochs false (cgo_evolve n).

(** ** CircleSA (math_based/CircleSA.py) *)
(** OriginalCircleSA.evolve (CircleSA.py:61-83). *)
Definition circle_evolve (c_factor : f64) (n epochs ep : nat) : M unit :=
  let a := pi_ E - pi_ E * pow_ E (prog ep epochs) #2 in
  let p := #1 - dec 9 10 * pow_ E (prog ep epochs) (dec 1 2) in
  replace_all P md correct gea n (fun idx =>
    u <- uniform E ;;
    let w := a * u - a in
    x <- pop_sol idx ;;
    g <- gb_sol ;;
    if c_factor * fnat epochs < fnat ep
    then u' <- uniform E ;; ret (vtab P (fun j => g.[j] + (g.[j] - x.[j]) * e_fun E "tan" [w * u']))
    else ret (vtab P (fun j => g.[j] - (g.[j] - x.[j]) * e_fun E "tan" [w * p]))).
Definition original_circle_sa (c_factor : f64) (n epochs : nat) :=
  plain_algo E P md tt n epochs false (circle_evolve c_factor n epochs).

(** ** GBO (math_based/GBO.py) *)
(** OriginalGBO.evolve (GBO.py:75-143).  Simplification: the arithmetic of lines 88-112 and 116-131 is left abstract;
    the draws are taken in groups. *)
Definition gbo_evolve (pr beta_min beta_max : f64) (n epochs ep : nat) : M unit :=
  let beta := beta_min + (beta_max - beta_min) * pow_ E (#1 - pow_ E (prog ep epochs) #3) #2 in
  let alpha := fabs (beta * sin_ E (#3 * pi_ E / #2 + sin_ E (beta * #3 * pi_ E / #2))) in
  greedy_each P md correct gea n true (fun idx =>
    u <- uniform_vec E 11 ;;
    '(r1, r2, r3, r4) <- choose4 E (others n [idx]) ;;
    x <- pop_sol idx ;;
    x1 <- pop_sol r1 ;;
    x2 <- pop_sol r2 ;;
    x3 <- pop_sol r3 ;;
    x4 <- pop_sol r4 ;;
    k <- choice1 E (seq 0 n) ;;
    z <- gauss_vec E 3 ;;
    g <- gb_sol ;;
    w <- gw_sol ;;
    let args := [[alpha]; u; [fnat k]; z; x; x1; x2; x3; x4; g; w] in
    let pos := vform E P "GBO:112" args in
    c <- coin E pr ;;
    if c then
      f <- uniform_vec E 7 ;;
      f2 <- gauss E ;;
      t <- tick ;;
      let xr := p_gen P t in
      m <- choice1 E (seq 0 n) ;;
      xp <- pop_sol m ;;
      ret (vform E P "GBO:127" (f :: [f2] :: xr :: xp :: pos :: args))
    else ret pos) ;;;
  reset_best_worst E P.
Definition original_gbo (pr beta_min beta_max : f64) (n epochs : nat) :=
  plain_algo E P md tt n epochs false (gbo_evolve pr beta_min beta_max n epochs).

(** ** HC (math_based/HC.py) *)
(** OriginalHC.evolve (HC.py:73-89): the population becomes [k] neighbours of the best. *)
Definition hc_evolve (k epochs ep : nat) : M unit :=
  let step := exp_ E (#(-2) * fnat ep / fnat epochs) in
  replace_all P md correct gea k (fun _ =>
    g <- gb_sol ;;
    r <- uniform_box E P ;;
    ret (vtab P (fun j => g.[j] + r.[j] * step))).
Definition original_hc (k n epochs : nat) := plain_algo E P md tt n epochs false (hc_evolve k epochs).
(** SwarmHC.evolve (HC.py:150-175): the best of [k] neighbours of each agent. *)
Definition swarm_hc_evolve (k n epochs ep : nat) : M unit :=
  let total := fsuml (map fnat (seq 1 n)) in
  let step := fmean (map (fun j => ub.[j] - lb.[j]) (seq 0 (n_dims P))) * exp_ E (#(-2) * fnat ep / fnat epochs) in
  pop <- for_acc n 0 [] (fun idx pop =>
      b <- best_new E P md correct gea k (fun _ =>
          x <- pop_sol idx ;;
          z <- gvec E P ;;
          ret (vtab P (fun j => x.[j] + z.[j] * (step * (fnat (S idx) / total))))) ;;
      when (negb (is_avail md)) (keep_better P true idx (fst b)) ;;;
      ret (pop ++ [fst b])%list) ;;
  when (is_avail md)
    (p <- get_pop ;;
     q <- lift (greedy_selection_population p pop (p_mm P)) ;;
     set_pop q).
Definition swarm_hc (k n epochs : nat) := plain_algo E P md tt n epochs false (swarm_hc_evolve k n epochs).

(** ** INFO (math_based/INFO.py) *)
(** OriginalINFO.evolve (INFO.py:66-152).  Simplification: the arithmetic is left abstract; the draws are taken in
    groups. *)
Definition info_evolve (n epochs ep : nat) : M unit :=
  let alpha := #2 * exp_ E (#(-4) * prog ep epochs) in
  ib <- integers E 2 6 ;;
  better <- pop_at ib ;;
  p0 <- get_pop ;;
  worst <- lift (last_item p0) ;;
  fit_2 <- lift (fitness better) ;;
  fit_3 <- lift (fitness worst) ;;
  replace_all P md correct gea n (fun idx =>
    u <- uniform_vec E 3 ;;
    '(a, b, c) <- choose3 E (seq 0 n) ;;
    xa <- pop_sol a ;;
    xb <- pop_sol b ;;
    xc <- pop_sol c ;;
    fa <- pop_fit a ;;
    fb <- pop_fit b ;;
    fc <- pop_fit c ;;
    g <- gb_sol ;;
    fit_1 <- gb_fit ;;
    x <- pop_sol idx ;;
    u1 <- uniform_vec E 6 ;;
    mu <- uvec E P ;;
    c1 <- uvec E P ;;
    c2 <- uvec E P ;;
    let args := [[alpha]; u; [fa; fb; fc; fit_1; fit_2; fit_3]; u1; mu; c1; c2; xa; xb; xc; x; g; sol better; sol worst] in
    l <- coin E (dec 1 2) ;;
    if l then
      u2 <- uniform_vec E 6 ;;
      r <- uvec E P ;;
      ret (vform E P "INFO:146" (u2 :: r :: args))
    else ret (vform E P "INFO:133" args)).
Definition original_info (n epochs : nat) := plain_algo E P md tt n epochs true (info_evolve n epochs).

(** ** RUN (math_based/RUN.py) *)
(** OriginalRUN.runge_kutta__ (RUN.py:67-76).  Simplification: arithmetic left abstract. *)
Definition run_rk (xb xw dx : vec) : M vec :=
  c <- integers E 1 3 ;;
  u <- uniform_vec E 5 ;;
  r1 <- uvec E P ;;
  r2 <- uvec E P ;;
  ret (vform E P "RUN:76" [[fnat c]; u; r1; r2; xb; xw; dx]).
(** np.argmin / np.argmax over three values: the first one among equals; a NaN counts as best. *)
Definition arg3 (f : f64 -> f64 -> bool) (x y z : f64) : nat :=
  let b := if negb (fisnan x) && (fisnan y || f y x) then (1%nat, y) else (0%nat, x) in
  if negb (fisnan (snd b)) && (fisnan z || f z (snd b)) then 2%nat else fst b.
(** OriginalRUN.evolve (RUN.py:91-158), with get_index_of_best_agent__ (84-89); not parallelizable.
    Simplification: the arithmetic of candidate positions is left abstract. *)
Definition run_evolve (n epochs ep : nat) : M unit :=
  let f := #20 * exp_ E (- (#12 * fnat ep / fnat epochs)) in
  sf0 <- uniform_vec E n ;;
  p0 <- get_pop ;;
  let avg := mean_sol P p0 in
  for_ n (fun idx =>
    let sf := #2 * (dec 1 2 - sf0.[idx]) * f in
    u <- uniform_vec E 2 ;;
    v1 <- uvec E P ;;
    v2 <- uvec E P ;;
    v3 <- uvec E P ;;
    x <- pop_sol idx ;;
    g <- gb_sol ;;
    let dx := vform E P "RUN:107" [u; v1; v2; v3; x; g; avg; [prog ep epochs]] in
    '(a, b, c) <- choose3 E (others n [idx]) ;;
    fa <- pop_fit a ;;
    fb <- pop_fit b ;;
    fc <- pop_fit c ;;
    let im := match p_mm P with Min => arg3 flt fa fb fc | _ => arg3 (fun x y => flt y x) fa fb fc end in
    ai <- pop_at idx ;;
    am <- pop_at im ;;
    cm <- lift (compare_agents ai am (p_mm P)) ;;
    sm <- (if cm then run_rk (sol ai) (sol am) dx else run_rk (sol am) (sol ai) dx) ;;
    p <- get_pop ;;
    lbest <- lift (get_best_agent (e_argsort E) p (p_mm P)) ;;
    L <- integers_vec E 0 2 (n_dims P) ;;
    xa <- pop_sol a ;;
    xb <- pop_sol b ;;
    r <- choice_vec E [#1; #(-1)] (n_dims P) ;;
    g2 <- uniform E ;;
    mu <- uvec E P ;;
    w <- coin E (dec 1 2) ;;
    try_improve P correct gea idx
      (vform E P (if w then "RUN:127" else "RUN:129") [L; x; xa; xb; g; sol (fst lbest); r; [sf; g2]; sm; mu]) ;;;
    c2 <- coin E (dec 1 2) ;;
    when c2 (
      uw <- uvec E P ;;
      ue <- uniform E ;;
      let w := vform E P "RUN:136" [uw; [ue; prog ep epochs]] in
      ur <- uniform E ;;
      u3 <- uvec E P ;;
      '(a', b', c') <- choose3 E (others n [idx]) ;;
      xa' <- pop_sol a' ;;
      xb' <- pop_sol b' ;;
      xc' <- pop_sol c' ;;
      beta <- uvec E P ;;
      g' <- gb_sol ;;
      z1 <- gvec E P ;;
      z2 <- gvec E P ;;
      '(ok, pos2) <- try_improve_b P correct gea idx (vform E P "RUN:145" [w; [ur]; u3; xa'; xb'; xc'; beta; g'; z1; z2]) ;;
      if ok then ret tt
      else
        k <- integers E 0 (n_dims P) ;;
        u4 <- uniform E ;;
        when (u4 < w.[k])
          (xi <- pop_sol idx ;;
           sm2 <- run_rk xi pos2 dx ;;
           u5 <- uniform E ;;
           v5 <- uvec E P ;;
           g'' <- gb_sol ;;
           try_improve P correct gea idx (vform E P "RUN:153" [pos2; [u5; sf]; sm2; v5; g''])))).
Definition original_run (n epochs : nat) := plain_algo E P Single tt n epochs false (run_evolve n epochs).

(** ** SHIO (math_based/SHIO.py) *)
(** OriginalSHIO.evolve (SHIO.py:60-83); [a] after idx+1 subtractions of 0.04. *)
Definition shio_a (idx : nat) : f64 := Nat.iter (S idx) (fun a => a - dec 4 100) (dec 3 2).
Definition shio_evolve (n ep : nat) : M unit :=
  p <- get_pop ;;
  '(_, ob, _) <- lift (get_special_agents (e_argsort E) p (Some 3%nat) (Some 1%nat) (p_mm P)) ;;
  match ob with
  | Some [b1; b2; b3] =>
    replace_all P md correct gea n (fun idx =>
      let a := shio_a idx in
      x <- pop_sol idx ;;
      r1 <- uvec E P ;;
      s1 <- uvec E P ;;
      r2 <- uvec E P ;;
      s2 <- uvec E P ;;
      r3 <- uvec E P ;;
      s3 <- uvec E P ;;
      let t (b : agent unit) (r s : vec) j := (sol b).[j] + (a * #2 * r.[j] - a) * fabs (s.[j] * (sol b).[j] - x.[j]) in
      ret (vtab P (fun j => (t b1 r1 s1 j + t b2 r2 s2 j + t b3 r3 s3 j) / #3)))
  | _ => raise ValueError
  end.
Definition original_shio (n epochs : nat) := plain_algo E P md tt n epochs false (shio_evolve n).

(** ** SCA (math_based/SCA.py) *)
(** DevSCA.evolve (SCA.py:63-91). *)
Definition dev_sca_evolve (n epochs ep : nat) : M unit :=
  greedy_each P md correct gea n true (fun idx =>
    let r1 := #2 * (#1 - prog ep epochs) in
    u2 <- uvec E P ;;
    u3 <- uvec E P ;;
    a <- pop_at idx ;;
    g <- get_gb ;;
    u4 <- uvec E P ;;
    ret (vtab P (fun j =>
      let x := (sol a).[j] in
      let d := fabs (#2 * u3.[j] * (sol g).[j] - x) in
      let r2 := #2 * pi_ E * u2.[j] in
      if u4.[j] < dec 1 2 then x + r1 * sin_ E r2 * d else x + r1 * cos_ E r2 * d))).
Definition dev_sca (n epochs : nat) := plain_algo E P md tt n epochs true (dev_sca_evolve n epochs).

(** OriginalSCA.evolve (SCA.py:150-182), with amend_solution (146-148). *)
Definition sca_correct : vec -> M vec := correct_solution_with P (amend_random E P).
Definition sca_evolve (n epochs ep : nat) : M unit :=
  greedy_each P md sca_correct gea n true (fun idx =>
    let r1 := #2 * (#1 - prog ep epochs) in
    a <- pop_at idx ;;
    g <- get_gb ;;
    dims P (fun j =>
      u2 <- uniform E ;;
      u3 <- uniform E ;;
      r4 <- uniform E ;;
      let x := (sol a).[j] in
      let r2 := #2 * pi_ E * u2 in
      let d := fabs (#2 * u3 * (sol g).[j] - x) in
      ret (if r4 < dec 1 2 then x + r1 * sin_ E r2 * d else x + r1 * cos_ E r2 * d))).
Definition original_sca (n epochs : nat) := plain_algo E P md tt n epochs false (sca_evolve n epochs).
End Math.

(** ** CEM (math_based/CEM.py) *)
Section CEM.
Variable E : env.
Variable P : problem.
Variable md : mode.
Notation M := (M unit (vec * vec)).
Notation gea := (generate_empty_agent P tt).
(** OriginalCEM.initialize_variables (CEM.py:75-77); attributes: means, stdevs. *)
Definition cem_vars : M unit :=
  m <- uniform_box E P ;; set_x (m, vtab P (fun j => fabs ((p_ub P).[j] - (p_lb P).[j]))).
(** OriginalCEM.evolve (CEM.py:79-106). *)
Definition cem_evolve (alpha : f64) (n_best n ep : nat) : M unit :=
  p <- get_pop ;;
  let best := firstn n_best p in
  let mn := mean_sol P best in
  let sd := vtab P (fun j => fmean (map (fun a => let d := (sol a).[j] - mn.[j] in d * d) best)) in
  '(m0, s0) <- get_x ;;
  let m1 := vtab P (fun j => alpha * m0.[j] + (#1 - alpha) * mn.[j]) in
  let s1 := vtab P (fun j => fabs (alpha * s0.[j] + (#1 - alpha) * sd.[j])) in
  set_x (m1, s1) ;;;
  greedy_each P md (correct_solution P) gea n true (fun _ =>
    z <- gvec E P ;;
    ret (vtab P (fun j => m1.[j] + s1.[j] * z.[j]))).
Definition original_cem (alpha : f64) (n_best n epochs : nat) :=
  vars_algo E P md tt n epochs true cem_vars (cem_evolve alpha n_best n).
End CEM.
