(** Model of mealpy's algorithm classes, part 12.  The conventions are those of MClass1. *)
From Verif Require Import Prelude Fl MCore MHelp MAlg MAlg2 MAlg3 MAlg4 MAlg5 MAlg6 MAlg7.
Local Open Scope f_scope.

(** * Classes without attributes of their own *)
Section Plain.
Variable E : env.
Variable P : problem.
Variable md : mode.
Notation gea := (generate_empty_agent (A := unit) (X := unit) P tt).
Notation correct := (correct_solution P).
Notation M := (M unit unit).
Notation fm := (rform E P).

(** ** bio_based/EOA.py *)
(** The second parent (EOA.py:137, 142): an index drawn with the given probabilities. *)
Definition eoa_mate (ps : vec) : M vec := i <- choice_p E ps ;; pop_sol i.
(** The selection probabilities (EOA.py:120-124). *)
Definition eoa_probs (fs : vec) (worst : f64) : vec :=
  let fits := map (fun f => (match p_mm P with Min => worst - f | _ => f - worst end) + dec 1 1000000000) fs in
  map (fun f => f / fsuml fits) fits.
(** OriginalEOA.evolve (110-177).  The attribute dyn_beta is gama * beta from the first epoch on; the sorted population of
    line 158 is overwritten by line 159.  In parallel modes the copies of the best agents are evaluated again. *)
Definition eoa_phases (mate : vec -> M vec) (p_c p_m alpha beta gama : f64) (n_best n ep : nat) : M unit :=
  p <- get_pop ;;
  keep <- collect n_best (fun i => a <- lift (getitem p i) ;; ret (sol a)) ;;
  fs <- all_fits ;;
  '(_, worst) <- extreme_fits E P ;;
  let ps := eoa_probs fs worst in
  let b := gama * beta in
  new <- new_agents P md correct gea n (fun idx =>
    x <- pop_sol idx ;;
    r1 <- integers E 0 n ;;
    x1 <- (if (n_best <=? idx)%nat then
             m1 <- integers E 0 n ;;
             y1 <- pop_sol m1 ;;
             y2 <- mate ps ;;
             fm "EOA:139-142" [[p_c]; y1; y2]
           else pop_sol r1) ;;
    ret (vtab P (fun j => b * ((p_lb P).[j] + (p_ub P).[j] - alpha * x.[j]) + (#1 - b) * x1.[j]))) ;;
  '(sp, bs, _) <- special E P new 1 1 ;;
  best <- lift (getitem bs 0) ;;
  pop_new <- for_acc (n - n_best)%nat n_best (slice 0 n_best sp) (fun idx acc =>
    x <- (if (idx <? n - n_best)%nat then fm "EOA:164-167" [[p_m]; sol best; mean_sol P sp]
          else lift (getitem keep (idx - (n - n_best))%nat)) ;;
    a <- propose correct gea x ;;
    if is_avail md then ret (acc ++ [a])%list
    else a' <- evaluate P a ;; ret (acc ++ [a'])%list) ;;
  pop_new <- (if is_avail md then update_target_for_population P md pop_new else ret pop_new) ;;
  set_pop pop_new.
Definition original_eoa (p_c p_m alpha beta gama : f64) (n_best n epochs : nat) :=
  plain_algo E P md tt n epochs true (eoa_phases eoa_mate p_c p_m alpha beta gama n_best n).

(** ** swarm_based/WSO.py *)
(** One row of w_best_v (WSO.py:126-127). *)
Definition wso_row (n : nat) (xs : list vec) : M vec :=
  u <- uniform E ;; lift (getitemZ xs (ftrunc (ffloor (fnat n * u)))).
(** OriginalWSO.evolve (110-183).  The attribute v stays the zero matrix of before_main_loop (105-108); mu depends on tau. *)
Definition wso_phases (row : list vec -> M vec) (pars : vec) (n epochs ep : nat) : M unit :=
  xs <- all_sols ;;
  ws <- collect n (fun _ => row xs) ;;
  g <- gb_sol ;;
  ys <- collect n (fun idx =>
    x <- lift (getitem xs idx) ;;
    w <- lift (getitem ws idx) ;;
    fm "WSO:115-168" [[fnat ep; fnat epochs; fnat n; fnat idx]; pars; x; w; g; p_lb P; p_ub P]) ;;
  greedy_each P md correct gea n true (fun idx => lift (getitem ys idx)).
Definition original_wso (pars : vec) (n epochs : nat) :=
  plain_algo E P md tt n epochs false (wso_phases (wso_row n) pars n epochs).

(** ** physics_based/FLA.py *)
(** The number of molecules that move (FLA.py:128-129, 150-151), for the smaller and the larger factor. *)
Definition fla_count (lo hi : f64) (m : nat) (u : f64) : Z :=
  ftrunc (fround ((hi * fnat m - lo * fnat m) * u + lo * fnat m)).
(** Agents for the indices of a range, not evaluated. *)
Definition fla_group (is : list Z) (cand : Z -> M vec) : M (list (agent unit)) :=
  for_list is [] (fun i acc => x <- cand i ;; a <- propose correct gea x ;; ret (acc ++ [a])%list).
(** The transfer from one half to the other (FLA.py:128-148, 150-170): [b] and [q] are the best agent and the positions of the
    half whose molecules move, [b'] the best of the other half, of [m'] molecules. *)
Definition fla_transfer (lo hi dd : f64) (q : list vec) (b b' mn mn' : vec) (m m' : nat) : M (list (agent unit)) :=
  u <- uniform E ;;
  let nt := fla_count lo hi m u in
  l1 <- fla_group (zrange 0 nt) (fun i => x <- lift (getitemZ q i) ;; fm "FLA:131-133" [[dd]; mn; mn'; b'; x]) ;;
  l2 <- fla_group (zrange nt (Z.of_nat m)) (fun i => x <- lift (getitemZ q i) ;; fm "FLA:138-140" [x; b]) ;;
  l3 <- fla_group (zrange 0 (Z.of_nat m')) (fun _ => fm "FLA:145" [b']) ;;
  ret (l1 ++ l2 ++ l3)%list.
(** OriginalFLA.evolve (112-245).  The halves and their best agents are those computed at the end of the previous epoch
    (238-245) or by before_main_loop (95-110), from the same population; before_main_loop also stores a copy of the
    current best agent as g_best again, which is left out. *)
Definition fla_evolve (c1 c3 c4 dd : f64) (n epochs ep : nat) : M unit :=
  let n1 := Z.to_nat (ftrunc (fround (fnat n / #2))) in
  let n2 := (n - n1)%nat in
  p <- get_pop ;;
  let p1 := slice 0 n1 p in
  let p2 := slice n1 (List.length p) p in
  '(b1, _) <- lift (get_best_agent (e_argsort E) p1 (p_mm P)) ;;
  '(b2, _) <- lift (get_best_agent (e_argsort E) p2 (p_mm P)) ;;
  f1 <- lift (fitness b1) ;;
  f2 <- lift (fitness b2) ;;
  g <- gb_sol ;;
  let q1 := map sol p1 in
  let q2 := map sol p2 in
  let m1 := mean_sol P p1 in
  let m2 := mean_sol P p2 in
  let tf := pow_ E (sform E "sinh" [[fnat ep / fnat epochs]]) c1 in
  l <- (if tf < dec 9 10 then
          t <- rtest E "FLA:125-127" [[tf]] ;;
          if t : bool then fla_transfer c3 c4 dd q1 (sol b1) (sol b2) m1 m2 n1 n2
          else fla_transfer (dec 1 10) (dec 2 10) dd q2 (sol b2) (sol b1) m2 m1 n2 n1
        else
          l1 <- fla_group (zrange 0 (Z.of_nat n1)) (fun i =>
            a <- lift (getitemZ p1 i) ;;
            fa <- lift (fitness a) ;;
            fm "FLA:174-182,203-211" [[tf; f1; f2; fa]; sol b1; sol a; m1; mean_sol P p; g]) ;;
          l2 <- fla_group (zrange 0 (Z.of_nat n2)) (fun i =>
            a <- lift (getitemZ p2 i) ;;
            fa <- lift (fitness a) ;;
            fm "FLA:188-196,217-225" [[tf; f1; f2; fa]; sol b2; sol a; m2; mean_sol P p; g]) ;;
          ret (l1 ++ l2)%list) ;;
  new <- (if is_avail md then update_target_for_population P md l
          else collect n (fun i => a <- lift (getitem l i) ;; evaluate P a)) ;;
  accept_each P (slice 0 n new) (fun _ _ _ _ => ret tt).
Definition original_fla (c1 c3 c4 dd : f64) (n epochs : nat) := plain_algo E P md tt n epochs false (fla_evolve c1 c3 c4 dd n epochs).
End Plain.

(** * Classes with agent attributes *)
(** ** physics_based/ASO.py; attributes velocity and mass *)
Section ASO.
Variable E : env.
Variable P : problem.
Variable md : mode.
Notation M := (M (vec * f64) unit).
Notation amended := (correct_solution_with P (amend_random E P)).
(** OriginalASO.generate_empty_agent (ASO.py:76-81). *)
Definition aso_gea : option vec -> M (agent (vec * f64)) := gea_with P (fun _ => v <- uniform_box E P ;; ret (v, #0)).
(** OriginalASO.evolve (136-163), with update_mass__ (88-94) and acceleration__ (111-134).  The velocity is never written back. *)
Definition aso_evolve (alpha beta : f64) (n epochs ep : nat) : M unit :=
  fs <- all_fits ;;
  ms <- rlist E n "ASO:89-91" [fs] ;;
  for_ n (fun idx => a <- pop_at idx ;; m <- lift (getitem ms idx) ;; set_att idx (fst (att a), m)) ;;;
  v <- view ;;
  acc <- collect n (fun idx => rform E P "ASO:112-133" ([alpha; beta; fnat idx; fnat ep; fnat epochs] :: ms :: v)) ;;
  new <- greedy_list P md n true (fun idx =>
    a <- pop_at idx ;;
    r <- uvec E P ;;
    c <- lift (getitem acc idx) ;;
    y <- amended (vtab P (fun j => (sol a).[j] + (r.[j] * (fst (att a)).[j] + c.[j]))) ;;
    ret (mkAgent y (tgt a) (att a))) ;;
  '(b, _) <- lift (get_best_agent (e_argsort E) new (p_mm P)) ;;
  g <- get_gb ;;
  c <- lift (compare_agents g b (p_mm P)) ;;
  when c (i <- integers E 0 n ;; pop_set i g).
Definition original_aso (alpha beta : f64) (n epochs : nat) :=
  agent_algo E md aso_gea (ga_of P aso_gea) n epochs false (ret tt) (ret tt) (aso_evolve alpha beta n epochs).
End ASO.

(** ** swarm_based/ESOA.py; not parallelizable *)
Record egret : Type := mkEgret { eg_w : vec; eg_loc : vec; eg_loct : option target; eg_m : vec; eg_v : vec; eg_g : option vec }.
Section ESOA.
Variable E : env.
Variable P : problem.
Notation M := (M egret unit).
Definition attr {T} (o : option T) : res T := match o with Some x => Ok x | None => Err AttributeError end.
(** OriginalESOA.generate_empty_agent (ESOA.py:65-71): the attributes local_target and g are missing. *)
Definition esoa_gea : option vec -> M (agent egret) := gea_with P (fun x =>
  w <- rform E P "ESOA:68" [] ;;
  ret (mkEgret w x None (vtab P (fun _ => #0)) (vtab P (fun _ => #0)) None)).
(** The pseudo gradient of an agent (ESOA.py:85, 162). *)
Definition esoa_grad (w x : vec) (f : f64) : vec := vform E P "ESOA:85" [w; x; [f]].
(** OriginalESOA.generate_agent (73-86). *)
Definition esoa_ga (o : option vec) : M (agent egret) :=
  a <- esoa_gea o ;;
  t <- get_target P (sol a) ;;
  let b := att a in
  ret (mkAgent (sol a) (Some t) (mkEgret (eg_w b) (eg_loc b) (Some t) (eg_m b) (eg_v b) (Some (esoa_grad (eg_w b) (sol a) (t_fit t))))).
(** OriginalESOA.evolve (92-166) for one agent.  A position with its target is an agent here; initialize_variables (88-90) sets
    constants. *)
Definition esoa_step (epochs ep idx : nat) : M unit :=
  a <- pop_at idx ;;
  fa <- lift (fitness a) ;;
  lt <- lift (attr (eg_loct (att a))) ;;
  ga <- lift (attr (eg_g (att a))) ;;
  gb <- get_gb ;;
  fg <- lift (fitness gb) ;;
  gg <- lift (attr (eg_g (att gb))) ;;
  g <- rform E P "ESOA:102-117" [[fa; t_fit lt; fg]; sol a; eg_loc (att a); ga; sol gb; gg] ;;
  let m := vform E P "ESOA:119" [eg_m (att a); g] in
  let v := vform E P "ESOA:120" [eg_v (att a); g] in
  let w := vform E P "ESOA:121" [eg_w (att a); m; v] in
  let b := mkEgret w (eg_loc (att a)) (eg_loct (att a)) m v (eg_g (att a)) in
  set_att idx b ;;;
  x0 <- correct_solution P (vform E P "ESOA:124" [[fnat epochs]; sol a; g]) ;;
  a0 <- evaluate P (mkAgent x0 None b) ;;
  z1 <- rform E P "ESOA:129-130" [[fnat ep]; sol a] ;;
  x1 <- correct_solution P z1 ;;
  a1 <- evaluate P (mkAgent x1 None b) ;;
  z2 <- rform E P "ESOA:135-139" [sol a; eg_loc (att a); sol gb] ;;
  x2 <- correct_solution P z2 ;;
  a2 <- evaluate P (mkAgent x2 None b) ;;
  fs <- lift (map_res fitness [a0; a1; a2]) ;;
  i <- lift (match p_mm P with Min => np_argmin fs | _ => np_argmax fs end) ;;
  best <- lift (getitem [a0; a1; a2] i) ;;
  tb <- lift (attr (tgt best)) ;;
  old <- pop_at idx ;;
  c <- lift (compare_agents best old (p_mm P)) ;;
  if c : bool then
    let c' := compare_target tb lt (p_mm P) in
    pop_set idx (mkAgent (sol best) (tgt best)
      (if c' then mkEgret w (sol best) (Some tb) m v (Some (esoa_grad w (sol best) (t_fit tb))) else b))
  else
    u <- uniform E ;;
    when (u < dec 3 10) (pop_set idx (mkAgent (sol best) (tgt best) b)).
Definition original_esoa (n epochs : nat) :=
  agent_algo E Single esoa_gea esoa_ga n epochs false (ret tt) (ret tt) (fun ep => for_ n (esoa_step epochs ep)).
End ESOA.

(** ** human_based/BRO.py; not parallelizable; agent attribute damage, attributes dyn_delta, problem.lb_updated and ub_updated *)
Section BRO.
Variable E : env.
Variable P : problem.
Notation M := (M Z (f64 * vec * vec)).
Notation correct := (correct_solution P).
(** DevBRO.generate_empty_agent (BRO.py:79-83). *)
Definition bro_gea : option vec -> M (agent Z) := gea_with P (fun _ => ret 0%Z).
(** DevBRO.initialize_variables (73-77). *)
Definition bro_vars (epochs : nat) : M unit :=
  x <- (d <- rnum E "BRO:74-75" [[fnat epochs]] ;; ret (d, p_lb P, p_ub P)) ;; set_x x.
(** The first index with a given value, as np.where(...)[0][0]. *)
Fixpoint first_eq (v : f64) (l : vec) (i : nat) : res nat :=
  match l with [] => Err IndexError | x :: r => if feq x v then Ok i else first_eq v r (S i) end.
(** DevBRO.get_idx_min__ (85-92). *)
Definition bro_min (data : vec) : M nat :=
  if forallb (fun d => feq d #0) data then choice1 E (seq 0 (List.length data))
  else lift (first_eq (fminl (filter (fun d => negb (feq d #0)) data)) data 0).
(** DevBRO.find_idx_min_distance__ (94-99). *)
Definition bro_near (n idx : nat) : M nat :=
  v <- view ;;
  data <- rlist E n "BRO:95-98" ([fnat idx] :: v) ;;
  bro_min data.
(** The last lines of evolve (BRO.py:142-149, 228-235). *)
Definition bro_shrink (ep : nat) : M unit :=
  '(d, lo, hi) <- get_x ;;
  when (d <= fnat ep)
    (v <- view ;;
     lo' <- rform E P "BRO:143-147" (lo :: hi :: v) ;;
     hi' <- rform E P "BRO:143-148" (lo' :: hi :: v) ;;
     d' <- rnum E "BRO:149" [[d]] ;;
     set_x (d', lo', hi')).
(** DevBRO.evolve (101-149). *)
Definition dev_bro_phases (near : nat -> M nat) (threshold : f64) (n ep : nat) : M unit :=
  for_ n (fun idx =>
    jdx <- near idx ;;
    a <- pop_at idx ;;
    b <- pop_at jdx ;;
    g <- gb_sol ;;
    c <- lift (compare_agents a b (p_mm P)) ;;
    if c : bool then
      z <- rform E P "BRO:113-114" [sol a; g] ;;
      y <- correct z ;;
      w <- gen_at P bro_gea y ;;
      pop_set idx (with_att w (att a - 1)%Z) ;;;
      b' <- pop_at jdx ;;
      if fZ (att b') < threshold then
        z2 <- rform E P "BRO:122-123" [sol b'; g] ;;
        b2 <- evaluate P b' ;;
        pop_set jdx b2 ;;;
        y2 <- correct z2 ;;
        w2 <- gen_at P bro_gea y2 ;;
        pop_set jdx (with_att w2 (att b' + 1)%Z)
      else
        '(_, lo, hi) <- get_x ;;
        z2 <- rform E P "BRO:127" [lo; hi] ;;
        y2 <- correct z2 ;;
        w2 <- gen_at P bro_gea y2 ;;
        pop_set jdx (with_att w2 0%Z)
    else
      pop_set idx b ;;;
      z <- rform E P "BRO:137" [sol b; g] ;;
      y <- correct z ;;
      w <- gen_at P bro_gea y ;;
      pop_set jdx (with_att w 0%Z)) ;;;
  bro_shrink ep.
Definition dev_bro (threshold : f64) (n epochs : nat) :=
  agent_algo E Single bro_gea (ga_of P bro_gea) n epochs false (bro_vars epochs) (ret tt) (dev_bro_phases (bro_near n) threshold n).
(** OriginalBRO.evolve (203-235).  The position of line 225 is not corrected. *)
Definition bro_phases (near : nat -> M nat) (threshold : f64) (n ep : nat) : M unit :=
  for_ n (fun idx =>
    jdx <- near idx ;;
    a <- pop_at idx ;;
    b <- pop_at jdx ;;
    g <- gb_sol ;;
    c <- lift (compare_agents a b (p_mm P)) ;;
    let dam := if c : bool then jdx else idx in
    let vic := if c then idx else jdx in
    d <- pop_at dam ;;
    if fZ (att d) < threshold then
      z <- rform E P "BRO:217-218" [sol d; g] ;;
      y <- correct z ;;
      w <- gen_at P bro_gea y ;;
      pop_set dam (with_att w (att d + 1)%Z) ;;;
      set_att vic 0%Z
    else
      '(_, lo, hi) <- get_x ;;
      z <- rform E P "BRO:225" [lo; hi] ;;
      y <- raw P z ;;
      w <- gen_at P bro_gea y ;;
      pop_set dam w) ;;;
  bro_shrink ep.
Definition original_bro (threshold : f64) (n epochs : nat) :=
  agent_algo E Single bro_gea (ga_of P bro_gea) n epochs false (bro_vars epochs) (ret tt) (bro_phases (bro_near n) threshold n).
End BRO.
