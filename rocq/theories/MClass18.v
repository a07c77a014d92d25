(** Model of mealpy's algorithm classes, part 18: evolutionary programming, evolution strategies, the memetic algorithm and
    success-history differential evolution.  The conventions are those of MClass1. *)
From Verif Require Import Prelude Fl MCore MHelp MAlg MAlg2 MAlg3 MAlg4 MAlg5 MAlg6 MAlg7.
Local Open Scope f_scope.

(** ** evolutionary_based/EP.py *)
Section EP.
Variable E : env.
Variable P : problem.
Variable md : mode.
(** The attributes strategy and win of an agent. *)
Notation A := (vec * nat)%type.
Notation correct := (correct_solution P).
Notation M := (M A unit).
Notation fm := (rform E P).
(** generate_empty_agent (evolutionary_based/EP.py:76-81). *)
Definition ep_gea := gea_with (A := A) (X := unit) P (fun _ => v <- fm "EP:79" [p_lb P; p_ub P] ;; ret (v, O)).
(** int(self.bout_size * self.pop_size) (EP.py:73). *)
Definition ep_bouts (bout : f64) (n : nat) : nat := Z.to_nat (ftrunc (bout * fnat n)).
(** The children (EP.py:90-100, 172-182). *)
Definition ep_child (idx : nat) : M (agent A) :=
  old <- pop_at idx ;;
  x <- fm "EP:92" [sol old; fst (att old)] ;;
  a <- propose correct ep_gea x ;;
  v <- fm "EP:95" [fst (att old)] ;;
  ret (with_att a (v, O)).
(** [agent.win += 1]. *)
Definition ep_win (l : list (agent A)) (i : nat) : M (list (agent A)) :=
  a <- lift (getitem l i) ;;
  ret (upd l i (with_att a (fst (att a), S (snd (att a))))).
(** The tournaments (EP.py:104-111, 186-193). *)
Definition ep_tournaments (bouts : nat) (pop : list (agent A)) : M (list (agent A)) :=
  for_acc (List.length pop) 0 pop (fun i l =>
    for_acc bouts 0 l (fun _ l =>
      r <- integers E 0 (List.length pop) ;;
      a <- lift (getitem l i) ;;
      b <- lift (getitem l r) ;;
      c <- lift (compare_agents a b (p_mm P)) ;;
      ep_win l (if c then i else r))).
(** [sorted(pop, key=lambda agent: agent.win, reverse=True)] (EP.py:112, 195): stable, most wins first. *)
Fixpoint win_insert (a : agent A) (l : list (agent A)) : list (agent A) :=
  match l with
  | [] => [a]
  | b :: r => if (snd (att a) <? snd (att b))%nat then b :: win_insert a r else a :: l
  end.
Definition win_sort (l : list (agent A)) : list (agent A) := fold_right win_insert [] l.
Definition ep_ranked (bouts n : nat) : M (list (agent A)) :=
  child <- made_agents P md n ep_child ;;
  '(children, _) <- lift (get_sorted_population (e_argsort E) child (p_mm P)) ;;
  p <- get_pop ;;
  q <- ep_tournaments bouts (children ++ p)%list ;;
  ret (win_sort q).
(** OriginalEP.evolve (EP.py:83-113). *)
Definition ep_evolve (bouts n ep : nat) : M unit := q <- ep_ranked bouts n ;; set_pop (firstn n q).
Definition original_ep (bout : f64) (n epochs : nat) :=
  agent_algo E md ep_gea (ga_of P ep_gea) n epochs true (ret tt) (ret tt) (ep_evolve (ep_bouts bout n) n).
(** int(0.5 * len(pop_left)) (EP.py:200). *)
Definition ep_half (m : nat) : nat := Z.to_nat (ftrunc (dec 1 2 * fnat m)).
(** LevyEP.evolve (EP.py:165-211). *)
Definition levy_ep_evolve (bouts n ep : nat) : M unit :=
  q <- ep_ranked bouts n ;;
  let left := skipn n q in
  ids <- choice_noreplace E (seq 0 (List.length left)) (ep_half (List.length left)) ;;
  back <- made_agents P md (List.length ids) (fun k =>
    i <- lift (getitem ids k) ;;
    old <- lift (getitem left i) ;;
    x <- fm "EP:202" [sol old] ;;
    a <- propose correct ep_gea x ;;
    ret (with_att a (vtab P (fun j => dec 5 100 * ((p_ub P).[j] - (p_lb P).[j])), O))) ;;
  r <- lift (get_sorted_and_trimmed_population (e_argsort E) (firstn n q ++ back)%list n (p_mm P)) ;;
  set_pop r.
Definition levy_ep (bout : f64) (n epochs : nat) :=
  agent_algo E md ep_gea (ga_of P ep_gea) n epochs true (ret tt) (ret tt) (levy_ep_evolve (ep_bouts bout n) n).
End EP.

(** ** evolutionary_based/ES.py *)
Section ES.
Variable E : env.
Variable P : problem.
Variable md : mode.
(** The attribute strategy of an agent. *)
Notation A := vec.
Notation correct := (correct_solution P).
Notation M := (M vec unit).
Notation fm := (rform E P).
(** OriginalES.generate_empty_agent (evolutionary_based/ES.py:76-80). *)
Definition es_gea := gea_with (A := vec) (X := unit) P (fun _ => fm "ES:79" [p_lb P; p_ub P]).
(** int(self.lamda * self.pop_size) (ES.py:70). *)
Definition es_children (lamda : f64) (n : nat) : nat := Z.to_nat (ftrunc (lamda * fnat n)).
(** ES.py:91-97, 168-174. *)
Definition es_child (idx : nat) : M (agent vec) :=
  old <- pop_at idx ;;
  x <- fm "ES:91" [sol old; att old] ;;
  a <- propose correct es_gea x ;;
  v <- fm "ES:93-95" [] ;;
  ret (with_att a v).
(** ES.py:181-187. *)
Definition es_levy_child (idx : nat) : M (agent vec) :=
  old <- pop_at idx ;;
  x <- fm "ES:181" [sol old] ;;
  a <- propose correct es_gea x ;;
  v <- fm "ES:183-185" [] ;;
  ret (with_att a v).
(** OriginalES.evolve (ES.py:82-102). *)
Definition es_evolve (k n ep : nat) : M unit :=
  child <- made_agents P md k es_child ;;
  p <- get_pop ;;
  q <- lift (get_sorted_and_trimmed_population (e_argsort E) (child ++ p)%list n (p_mm P)) ;;
  set_pop q.
Definition original_es (lamda : f64) (n epochs : nat) :=
  agent_algo E md es_gea (ga_of P es_gea) n epochs true (ret tt) (ret tt) (es_evolve (es_children lamda n) n).
(** LevyES.evolve (ES.py:159-192). *)
Definition levy_es_evolve (k n ep : nat) : M unit :=
  child <- made_agents P md k es_child ;;
  levy <- made_agents P md k es_levy_child ;;
  p <- get_pop ;;
  q <- lift (get_sorted_and_trimmed_population (e_argsort E) (child ++ levy ++ p)%list n (p_mm P)) ;;
  set_pop q.
Definition levy_es (lamda : f64) (n epochs : nat) :=
  agent_algo E md es_gea (ga_of P es_gea) n epochs true (ret tt) (ret tt) (levy_es_evolve (es_children lamda n) n).
End ES.

(** CMA_ES (ES.py:195-321).  Attributes: sigma, x_mean, C (n_dims * n_dims numbers), and ps and pc.  The constants of before_main_loop
    (253-270) are functions of pop_size and n_dims. *)
Record cma := mkCma { c_sigma : vec; c_mean : vec; c_cov : vec; c_ps : vec; c_pc : vec }.
Section CMA.
Variable E : env.
Variable P : problem.
Variable md : mode.
Notation A := vec.
Notation correct := (correct_solution P).
Notation M := (M vec cma).
Notation fm := (rform E P).
(** generate_empty_agent (ES.py:246-250). *)
Definition cma_gea := gea_with (A := vec) (X := cma) P (fun _ => fm "ES:249" []).
(** int(np.round(self.pop_size / 2)) (ES.py:253, 379). *)
Definition cma_mu (n : nat) : nat := Z.to_nat (ftrunc (fround (fnat n / #2))).
(** before_main_loop (ES.py:252-272). *)
Definition cma_start (n : nat) : M unit :=
  x <- (p <- get_pop ;;
        m <- fm "ES:272" (map sol (firstn (cma_mu n) p)) ;;
        c <- rlist E (n_dims P * n_dims P)%nat "ES:255" [] ;;
        ret (mkCma (vtab P (fun j => dec 1 10 * ((p_ub P).[j] - (p_lb P).[j]))) m c (vtab P (fun _ => #0)) (vtab P (fun _ => #0)))) ;;
  set_x x.
(** NumPy's linear algebra, which raises LinAlgError (a subclass of ValueError) on some matrices: singular, not positive definite, or
    with entries that are not finite.  Which ones is left open. *)
Definition linalg {A X} (name : string) (reads : list vec) : MCore.M A X unit :=
  c <- rtest E name reads ;;
  if c then raise ValueError else ret tt.
(** evolve (ES.py:279-321).  A complex matrix (317-321) has its real and imaginary parts in [c_cov]'s numbers; positions are always real. *)
Definition cma_phases (la : string -> list vec -> M unit) (n ep : nat) : M unit :=
  new <- made_agents P md n (fun idx =>
    old <- pop_at idx ;;
    x <- get_x ;;
    y <- fm "ES:288" [c_mean x; c_sigma x; att old] ;;
    propose correct cma_gea y) ;;
  '(sorted, _) <- lift (get_sorted_population (e_argsort E) new (p_mm P)) ;;
  x <- get_x ;;
  vs <- collect n (fun _ => la "ES:276"%string [c_cov x] ;;; fm "ES:276" [c_cov x]) ;;
  let q := map (fun p => with_att (fst p) (snd p)) (combine sorted vs) in
  set_pop q ;;;
  let steps := map att (firstn (cma_mu n) q) in
  st <- fm "ES:298-300" steps ;;
  mean <- fm "ES:301" [c_mean x; c_sigma x; st] ;;
  la "ES:303"%string [c_cov x] ;;;
  ps <- fm "ES:303-304" [c_ps x; c_cov x; st] ;;
  sigma <- fm "ES:305" [c_sigma x; ps] ;;
  pc <- fm "ES:307-312" [c_pc x; ps; st; [fnat ep]] ;;
  cov <- rlist E (n_dims P * n_dims P)%nat "ES:311-315" (c_cov x :: pc :: steps) ;;
  la "ES:317"%string [cov] ;;;
  cov <- rlist E (n_dims P * n_dims P)%nat "ES:317-321" [cov] ;;
  set_x (mkCma sigma mean cov ps pc).
Definition cma_es (n epochs : nat) :=
  agent_algo E md cma_gea (ga_of P cma_gea) n epochs true (ret tt) (cma_start n) (cma_phases linalg n).
End CMA.

(** Simple_CMA_ES (ES.py:324-413). *)
Section SimpleCMA.
Variable E : env.
Variable P : problem.
Variable md : mode.
Notation gea := (generate_empty_agent (A := unit) (X := unit) P tt).
Notation correct := (correct_solution P).
Notation M := (M unit unit).
Notation fm := (rform E P).
(** evolve (ES.py:381-413). *)
Definition simple_cma_phases (la : string -> list vec -> M unit) (n ep : nat) : M unit :=
  p <- get_pop ;;
  '(sorted, _) <- lift (get_sorted_population (e_argsort E) p (p_mm P)) ;;
  let top := map sol (firstn (cma_mu n) sorted) in
  la "ES:395"%string (map sol p ++ top)%list ;;;
  xs <- collect n (fun i => fm "ES:388-402" (map sol p ++ top ++ [[fnat i]])%list) ;;
  greedy_each P md correct gea n true (fun idx => lift (getitem xs idx)).
Definition simple_cma_es (n epochs : nat) :=
  plain_algo (X := unit) E P md tt n epochs false (simple_cma_phases (linalg E) n).
End SimpleCMA.

(** ** evolutionary_based/MA.py *)
Section MA.
Variable E : env.
Variable P : problem.
Variable md : mode.
(** The attribute bitstring; true is "1". *)
Notation A := (list bool).
Notation correct := (correct_solution P).
Notation M := (M (list bool) unit).
(** One bit per call of generator.uniform (MA.py:95). *)
Definition ma_bits (tot : nat) : M (list bool) :=
  collect tot (fun _ => u <- uniform E ;; ret (u < dec 1 2)).
(** generate_empty_agent (evolutionary_based/MA.py:92-96); bits_total is n_dims * bits_per_param (90). *)
Definition ma_gea (bits : nat) := gea_with P (fun _ => ma_bits (n_dims P * bits)%nat).
(** [int(param, 2)]. *)
Definition bits_value (l : list bool) : Z := fold_left (fun z (b : bool) => (2 * z + (if b then 1 else 0))%Z) l 0%Z.
(** decode__ (MA.py:98-112). *)
Definition ma_decode (bits : nat) (b : list bool) : vec :=
  vtab P (fun j =>
    (p_lb P).[j] + (((p_ub P).[j] - (p_lb P).[j]) / (fZ (2 ^ Z.of_nat bits) - #1)) * fZ (bits_value (slice (j * bits) (S j * bits) b))).
(** crossover__ (MA.py:114-124). *)
Definition ma_cross (pc : f64) (tot : nat) (dad mom : list bool) : M (list bool) :=
  u <- uniform E ;;
  if pc <= u then ret dad
  else collect tot (fun i =>
    v <- uniform E ;;
    if v < dec 1 2 then lift (getitem dad i) else lift (getitem mom i)).
(** point_mutation__ (MA.py:126-133), which compares with pc. *)
Definition ma_mutate (pc : f64) (b : list bool) : M (list bool) :=
  for_list b [] (fun bit acc =>
    u <- uniform E ;;
    ret (acc ++ [if u < pc then negb bit else bit])%list).
(** The new agent with the given bits (MA.py:184-187, 141-144). *)
Definition ma_agent (bits : nat) (b : list bool) : M (agent (list bool)) :=
  a <- propose correct (ma_gea bits) (ma_decode bits b) ;;
  ret (with_att a b).
(** One winner of a tournament of two (MA.py:175-176). *)
Definition ma_select : M (agent (list bool)) :=
  p <- get_pop ;;
  ids <- kway_tournament E P p (KInt 2) 1 false ;;
  i <- lift (getitem ids 0) ;;
  pop_at i.
(** bits_climber__ (MA.py:135-151) and its use (193-195). *)
Definition ma_climb (pc : f64) (bits gens idx : nat) : M unit :=
  c <- pop_at idx ;;
  l <- made_agents P md gens (fun _ => b <- ma_mutate pc (att c) ;; ma_agent bits b) ;;
  '(best, _) <- lift (get_best_agent (e_argsort E) (l ++ [c])%list (p_mm P)) ;;
  pop_set idx best.
(** The other parent (MA.py:179-181): [children[idx + 1]] is read before the last agent is given the first one instead. *)
Definition ma_other (children : list (agent (list bool))) (n idx : nat) : M (agent (list bool)) :=
  a <- lift (getitem children (if Nat.even idx then S idx else (idx - 1)%nat)) ;;
  if (idx =? n - 1)%nat then lift (getitem children 0) else ret a.
(** evolve (MA.py:165-195). *)
Definition ma_evolve (pc p_local : f64) (bits gens n ep : nat) : M unit :=
  children <- collect n (fun _ => ma_select) ;;
  replace_made P md n (fun idx =>
    dad <- lift (getitem children idx) ;;
    mom <- ma_other children n idx ;;
    b <- ma_cross pc (n_dims P * bits)%nat (att dad) (att mom) ;;
    b <- ma_mutate pc b ;;
    ma_agent bits b) ;;;
  for_ n (fun idx =>
    u <- uniform E ;;
    when (u < p_local) (ma_climb pc bits gens idx)).
Definition original_ma (pc p_local : f64) (bits gens n epochs : nat) :=
  agent_algo E md (ma_gea bits) (ga_of P (ma_gea bits)) n epochs true (ret tt) (ret tt) (ma_evolve pc p_local bits gens n).
End MA.

(** ** evolutionary_based/SHADE.py *)
(** Attributes dyn_miu_f, dyn_miu_cr, dyn_pop_archive (the positions), k_counter and dyn_pop_size (L_SHADE only), and the local variables
    of evolve: list_cr_new, list_f_new, list_cr, list_f, list_fit_old, list_fit_new. *)
Record shade := mkShade { h_f : vec; h_cr : vec; h_arch : list vec; h_k : nat; h_size : Z;
  h_crn : vec; h_fn : vec; h_lcr : vec; h_lf : vec; h_old : vec; h_new : vec }.
Section SHADE.
Variable E : env.
Variable P : problem.
Variable md : mode.
Notation gea := (generate_empty_agent (A := unit) (X := shade) P tt).
Notation correct := (correct_solution P).
Notation M := (M unit shade).
(** initialize_variables (evolutionary_based/SHADE.py:74-78, 237-244). *)
Definition shade_vars (miu_f miu_cr : f64) (n : nat) : M unit :=
  x <- ret (mkShade (repeat miu_f n) (repeat miu_cr n) [] 0 (Z.of_nat n) (repeat #1 n) (repeat #1 n) [] [] [] []) ;; set_x x.
(** x_best of OriginalSHADE (SHADE.py:116-118).  2/pop_size exceeds 0.2 for fewer than ten agents; recent releases of NumPy then raise
    ValueError, older ones draw from the reversed interval: both are allowed here. *)
Definition shade_top (sorted : list (agent unit)) (n : nat) : M (agent unit) :=
  c <- rtest E "SHADE:116" [] ;;
  (if (dec 2 10 < #2 / fnat n) && c then raise ValueError else ret tt) ;;;
  p <- uniform_in E (#2 / fnat n) (dec 2 10) ;;
  i <- integers E 0 (Z.to_nat (ftrunc (fnat n * p))) ;;
  lift (getitem sorted i).
(** x_best of L_SHADE (SHADE.py:282-284). *)
Definition lshade_top (sorted : list (agent unit)) (n : nat) : M (agent unit) :=
  x <- get_x ;;
  p <- uniform_in E (dec 15 100) (dec 2 10) ;;
  i <- integers E 0 (Z.to_nat (ftrunc (fceil (fZ (h_size x) * p)))) ;;
  lift (getitem sorted i).
(** dyn_miu_cr[k] = ..., dyn_miu_f[k] = ... (SHADE.py:169-170, 330-331). *)
Definition shade_store (l : vec) (k : nat) (v : f64) : M vec := lift (setitem l k v).
(** evolve (SHADE.py:86-173, 252-336).  [counted idx x] tells whether the fitness values of agent [idx] are collected (323; always in
    OriginalSHADE), [weights] names the computation of the new memories, [limit] is the bound of the counter and [resize] the last
    statement.  [cauchy.rvs] draws from SciPy's own generator; that the loop 107-113 (273-279) ends is not modelled. *)
Definition shade_phases (top : list (agent unit) -> nat -> M (agent unit)) (store : vec -> nat -> f64 -> M vec)
    (counted : nat -> shade -> bool) (limit : shade -> Z) (resize : nat -> Z -> Z) (n ep : nat) : M unit :=
  x <- get_x ;;
  set_x (mkShade (h_f x) (h_cr x) (h_arch x) (h_k x) (h_size x) (repeat #1 n) (repeat #1 n) [] [] [] []) ;;;
  p <- get_pop ;;
  '(sorted, _) <- lift (get_sorted_population (e_argsort E) p (p_mm P)) ;;
  accept_batch P md n (fun idx =>
    x <- get_x ;;
    k <- integers E 0 n ;;
    mcr <- lift (getitem (h_cr x) k) ;;
    mf <- lift (getitem (h_f x) k) ;;
    cr <- rnum E "SHADE:105-106" [[mcr]] ;;
    f <- rnum E "SHADE:107-113" [[mf]] ;;
    set_x (mkShade (h_f x) (h_cr x) (h_arch x) (h_k x) (h_size x) (upd (h_crn x) idx cr) (upd (h_fn x) idx f) (h_lcr x) (h_lf x) (h_old x) (h_new x)) ;;;
    best <- top sorted n ;;
    r1 <- choice1 E (others n [idx]) ;;
    r2 <- choice1 E (others (n + List.length (h_arch x)) [idx; r1]) ;;
    x1 <- pop_sol r1 ;;
    xs <- all_sols ;;
    x2 <- lift (getitem (xs ++ h_arch x)%list r2) ;;
    xi <- pop_sol idx ;;
    let y := vtab P (fun j => xi.[j] + f * ((sol best).[j] - xi.[j]) + f * (x1.[j] - x2.[j])) in
    u <- uvec E P ;;
    k <- integers E 0 (n_dims P) ;;
    propose correct gea (vtab P (fun j => if Nat.eqb j k then y.[j] else if u.[j] < cr then y.[j] else xi.[j])))
  (fun idx old new c =>
    x <- get_x ;;
    when c
     (a <- lift (getitem (h_crn x) idx) ;;
      b <- lift (getitem (h_fn x) idx) ;;
      fo <- lift (fitness old) ;;
      fw <- lift (fitness new) ;;
      set_x (mkShade (h_f x) (h_cr x) (h_arch x ++ [sol new]) (h_k x) (h_size x) (h_crn x) (h_fn x) (h_lcr x ++ [a]) (h_lf x ++ [b])
               (if counted idx x then (h_old x ++ [fo])%list else h_old x) (if counted idx x then (h_new x ++ [fw])%list else h_new x)))) ;;;
  x <- get_x ;;
  let extra := (List.length (h_arch x) - n)%nat in
  when (Nat.ltb 0 extra)
   (ix <- choice_noreplace E (seq 0 (List.length (h_arch x))) extra ;;
    let kept := filter (fun p => negb (existsb (Nat.eqb (fst p)) ix)) (combine (seq 0 (List.length (h_arch x))) (h_arch x)) in
    set_x (mkShade (h_f x) (h_cr x) (map snd kept) (h_k x) (h_size x) (h_crn x) (h_fn x) (h_lcr x) (h_lf x) (h_old x) (h_new x))) ;;;
  x <- get_x ;;
  when (Nat.ltb 0 (List.length (h_lf x)))
   ((* the entries not collected stay 1 (320-321) *)
    let pad l := (l ++ repeat #1 (List.length (h_lf x) - List.length l))%list in
    vcr <- rnum E "SHADE:156-169" [pad (h_old x); pad (h_new x); h_lcr x] ;;
    vf <- rnum E "SHADE:156-170" [pad (h_old x); pad (h_new x); h_lf x] ;;
    cr' <- store (h_cr x) (h_k x) vcr ;;
    f' <- store (h_f x) (h_k x) vf ;;
    let k' := S (h_k x) in
    set_x (mkShade f' cr' (h_arch x) (if (limit x <=? Z.of_nat k')%Z then 0%nat else k') (h_size x) (h_crn x) (h_fn x) (h_lcr x) (h_lf x) (h_old x) (h_new x))) ;;;
  x <- get_x ;;
  set_x (mkShade (h_f x) (h_cr x) (h_arch x) (h_k x) (resize ep (h_size x)) (h_crn x) (h_fn x) (h_lcr x) (h_lf x) (h_old x) (h_new x)).
Definition original_shade (miu_f miu_cr : f64) (n epochs : nat) :=
  vars_algo E P md tt n epochs false (shade_vars miu_f miu_cr n)
    (shade_phases shade_top shade_store (fun _ _ => true) (fun _ => Z.of_nat n) (fun _ z => z) n).
(** [round(self.pop_size + epoch * ((self.n_min - self.pop_size) / self.epoch))] (SHADE.py:336), n_min = int(pop_size / 5) (244). *)
Definition lshade_resize (n epochs ep : nat) (_ : Z) : Z :=
  ftrunc (fround (fnat n + fnat ep * ((fnat (n / 5)%nat - fnat n) / fnat epochs))).
Definition l_shade (miu_f miu_cr : f64) (n epochs : nat) :=
  vars_algo E P md tt n epochs false (shade_vars miu_f miu_cr n)
    (shade_phases lshade_top shade_store (fun idx x => (Z.of_nat idx <? h_size x)%Z) h_size (lshade_resize n epochs) n).
End SHADE.
