(** Model of mealpy's algorithm classes, part 25.  The conventions are those of MClass1. *)
From Verif Require Import Prelude Fl MCore MHelp MAlg MAlg2 MAlg3 MAlg4 MAlg5 MAlg6 MAlg7 MAlg8 MClass20.
Local Open Scope f_scope.

(** ** system_based/WCA.py: self.pop_best (the sea and the rivers) and self.streams, one list of agents for each of them. *)
Section WCA.
Variable E : env.
Variable P : problem.
Variable md : mode.
Definition basin : Type := list (agent unit) * list (list (agent unit)).
Notation gea := (generate_empty_agent (A := unit) (X := basin) P tt).
Notation correct := (correct_solution P).
Notation M := (M unit basin).
Notation fm := (rform E P).
(** The number of streams of a river (99): [c] is its fitness, [s] the sum of the fitness of all rivers, [m] the number of streams.
    A number that is not finite becomes a negative integer (astype, on x86), which choice() at line 106 rejects; it raises here. *)
Definition wca_count (m : nat) (c s : f64) : res nat :=
  let* z := to_int (fround (fabs (c / s) * fnat m)) in Ok (Z.to_nat z).
(** The streams of one river (106), among those not assigned yet. *)
Definition wca_draw (m : nat) (c s : f64) (rest : list nat) : M (list nat) :=
  k <- lift (wca_count m c s) ;; choice_noreplace E rest k.
(** OriginalWCA.initialization (86-114) after the population was made; np.sum at line 99 adds in an order of its own.
    Lines 100-101 change only the last entry of the list of counts, which is not used.  self.g_best (90) is set again by solve. *)
Definition wca_start (draw : f64 -> f64 -> list nat -> M (list nat)) (nsr n : nat) : M unit :=
  p <- get_pop ;;
  '(ps, _) <- lift (get_sorted_population (e_argsort E) p (p_mm P)) ;;
  set_pop ps ;;;
  let rivers := firstn nsr ps in
  let streams := skipn nsr ps in
  fits <- lift (map_res fitness rivers) ;;
  s <- rnum E "WCA:99" [fits] ;;
  '(gs, rest) <- for_acc (nsr - 1)%nat 0 ([], seq 0 (n - nsr)%nat) (fun i st =>
      c <- lift (getitem fits i) ;;
      r <- draw c s (snd st) ;;
      g <- lift (map_res (getitem streams) r) ;;
      ret ((fst st ++ [g])%list, filter (fun j => negb (existsb (Nat.eqb j) r)) (snd st))) ;;
  last <- lift (map_res (getitem streams) rest) ;;
  set_x (rivers, (gs ++ [last])%list).
(** The best new agent of the streams of a river (136). *)
Definition wca_best (new : list (agent unit)) (_ : agent unit) : M (agent unit) :=
  '(b, _) <- lift (get_best_agent (e_argsort E) new (p_mm P)) ;; ret b.
(** [if self.compare_target(a.target, old.target, minmax): old = a] (137-138, 143-144). *)
Definition wca_better (a old : agent unit) : M (agent unit) :=
  c <- lift (compare_agents a old (p_mm P)) ;; ret (if c then a else old).
(** The streams of a river move, then the river (124-144). *)
Definition wca_flow (best : list (agent unit) -> agent unit -> M (agent unit)) (idx : nat) (st : basin) : M basin :=
  stream <- lift (getitem (snd st) idx) ;;
  river <- lift (getitem (fst st) idx) ;;
  new <- new_agents P md correct gea (List.length stream) (fun j => a <- lift (getitem stream j) ;; fm "WCA:128" [sol a; sol river]) ;;
  b <- best new river ;;
  r1 <- wca_better b river ;;
  g <- gb_sol ;;
  z <- fm "WCA:140" [sol r1; g] ;;
  a <- gen_agent P correct gea z ;;
  r2 <- wca_better a r1 ;;
  ret (upd (fst st) idx r2, upd (snd st) idx new).
(** Evaporation of a river close to the sea (146-152); self.ecc only decides whether it happens. *)
Definition wca_dry (ep idx : nat) (st : basin) : M basin :=
  river <- lift (getitem (fst st) idx) ;;
  g <- gb_sol ;;
  c <- rtest E "WCA:147-148" [[fnat ep]; g; sol river] ;;
  if c then
    child <- random_agent P gea ;;
    stream <- lift (getitem (snd st) idx) ;;
    '(ps, _) <- lift (get_sorted_population (e_argsort E) (stream ++ [child])%list (p_mm P)) ;;
    match ps with
    | top :: others => ret (upd (fst st) idx top, upd (snd st) idx others)
    | [] => raise IndexError
    end
  else ret st.
(** OriginalWCA.evolve (116-157). *)
Definition wca_evolve (best : list (agent unit) -> agent unit -> M (agent unit)) (nsr ep : nat) : M unit :=
  x <- get_x ;;
  y <- for_acc nsr 0 x (wca_flow best) ;;
  z <- for_acc (nsr - 1)%nat 1 y (wca_dry ep) ;;
  set_x z ;;;
  set_pop (fst z ++ List.concat (snd z))%list.
Definition original_wca (nsr n epochs : nat) : algo :=
  with_init (agent_algo E md gea (ga_of P gea) n epochs true (ret tt) (ret tt) (wca_evolve wca_best nsr)) (wca_start (wca_draw (n - nsr)%nat) nsr n).
End WCA.

(** ** math_based/TS.py: self.x.  self.tabu_list always holds the positions of self.pop: both are emptied, extended and shortened together (84-85, 112-116) *)
Section TS.
Variable E : env.
Variable P : problem.
Variable md : mode.
Notation gea := (generate_empty_agent (A := unit) (X := vec) P tt).
Notation correct := (correct_solution P).
Notation M := (M unit vec).
Notation fm := (rform E P).
(** Equality of two tuples of numbers. *)
Fixpoint same_tuple (x y : vec) : bool :=
  match x, y with
  | [], [] => true
  | a :: x', b :: y' => andb (feq a b) (same_tuple x' y')
  | _, _ => false
  end.
(** A neighbour that is neither close to the current position nor forbidden (99-105). *)
Definition ts_neighbour (x : vec) (tabu : list vec) : M (list (agent unit)) :=
  z <- fm "TS:95" [x] ;;
  y <- correct z ;;
  close <- rtest E "TS:100" [y; x] ;;
  if (close || existsb (same_tuple y) tabu)%bool then ret [] else a <- gea (Some y) ;; ret [a].
(** The best of the candidates (109). *)
Definition ts_best (new : list (agent unit)) : M (agent unit) :=
  '(b, _) <- lift (get_best_agent (e_argsort E) new (p_mm P)) ;; ret b.
(** OriginalTS.evolve (87-116).  [self.pop = []] of before_main_loop (85) is done at the start of the first epoch: nothing reads the
    population in between.  In single mode each candidate is evaluated as soon as it is made; the evaluations are the same. *)
Definition ts_evolve (best : list (agent unit) -> M (agent unit)) (tabu_size nb ep : nat) : M unit :=
  x <- get_x ;;
  p <- get_pop ;;
  let p := if (ep =? 1)%nat then [] else p in
  l <- collect_many nb (fun _ => ts_neighbour x (map sol p)) ;;
  new <- evaluate_all P md l ;;
  b <- best new ;;
  set_x (sol b) ;;;
  let pop := (p ++ [b])%list in
  set_pop (if (tabu_size <? List.length pop)%nat then tl pop else pop).
(** OriginalTS.before_main_loop (82-85). *)
Definition ts_main : M unit := x <- gb_sol ;; set_x x.
Definition original_ts (tabu_size nb n epochs : nat) : algo :=
  agent_algo E md gea (ga_of P gea) n epochs false (ret tt) ts_main (ts_evolve ts_best tabu_size nb).
End TS.

(** ** math_based/PSS.py: self.new_solution *)
Section PSS.
Variable E : env.
Variable P : problem.
Variable md : mode.
Notation gea := (generate_empty_agent (A := unit) (X := bool) P tt).
Notation correct := (correct_solution P).
Notation M := (M unit bool).
Notation fm := (rform E P).
Inductive sampling := MC | LHS.
(** OriginalPSS.create_population (76-82).  With "MC" the number of variables is passed as the dtype of the draw (78), a TypeError.
    With "LHS" the rows of the sample are arbitrary here; they do not come from the generator of the optimizer. *)
Definition pss_sample (how : sampling) (n : nat) : M (list vec) :=
  match how with
  | MC => raise TypeError
  | LHS => collect n (fun i => fm "PSS:80-81" [[fnat i]])
  end.
(** OriginalPSS.initialization (84-94): the starting solutions are not used. *)
Definition pss_init (how : sampling) (n : nat) : M unit :=
  rows <- pss_sample how n ;;
  l <- repeat_M n (z <- fm "PSS:85-89" (p_lb P :: p_ub P :: rows) ;; gen_agent P correct gea z) ;;
  set_pop l.
(** OriginalPSS.evolve (96-137). *)
Definition pss_evolve (how : sampling) (n ep : nat) : M unit :=
  rows <- pss_sample how n ;;
  flag <- get_x ;;
  g <- gb_sol ;;
  new <- new_agents P md correct gea n (fun idx =>
    xi <- pop_sol idx ;;
    r <- lift (getitem rows idx) ;;
    fm "PSS:106-125" [[fnat ep; if flag : bool then #1 else #0]; xi; r; g; p_lb P; p_ub P]) ;;
  set_pop new ;;;
  '(b, _) <- lift (get_best_agent (e_argsort E) new (p_mm P)) ;;
  o <- get_gb ;;
  c <- lift (compare_agents b o (p_mm P)) ;;
  set_x c.
Definition original_pss (how : sampling) (n epochs : nat) : algo :=
  mkAlgo n epochs false gea (ga_of P gea) (set_x true) (pss_init how n) (ret tt) (pss_evolve how n).
End PSS.

(** ** math_based/SCA.py, QleSCA: each agent has a table of 9 states and 9 actions *)
Section QleSCA.
Variable E : env.
Variable P : problem.
Definition qtable : Type := list vec.
Notation M := (M qtable unit).
Notation fm := (rform E P).
(** QTable (185-198). *)
Definition q_zero : qtable := repeat (repeat (#0) 9) 9.
(** QleSCA.generate_empty_agent (281-285). *)
Definition q_gea : option vec -> M (agent qtable) := gea_with P (fun _ => ret q_zero).
(** QleSCA.amend_solution (287-289). *)
Definition q_correct : vec -> M vec := correct_solution_with P (amend_random E P).
(** [next(i for i, r in enumerate(ranges) if x <= r[1])] with the upper limits of 196-197: StopIteration when there is none. *)
Definition q_level (x : f64) : res nat :=
  if fle x (dec 333 1000) then Ok 0%nat
  else if fle x (dec 666 1000) then Ok 1%nat
  else if fle x (#1) then Ok 2%nat
  else Err StopIteration.
(** QTable.get_state (200-203). *)
Definition q_state (den dis : f64) : res nat :=
  let* a := q_level den in let* b := q_level dis in Ok (a * 3 + b)%nat.
(** QTable.get_action (205-212): one of the actions of maximal value. *)
Definition q_action (t : qtable) (state : nat) : M nat :=
  acts <- lift (getitem t state) ;;
  let top := fmaxl acts in
  choice1 E (filter (fun i => feq (vget acts i) top) (seq 0 (List.length acts))).
(** QTable.get_action_params (214-217). *)
Definition q_range (k : nat) : res (f64 * f64) :=
  getitem [(#0, dec 666 1000); (dec 667 1000, dec 1332 1000); (dec 1333 1000, #2)] k.
(** QTable.update (219-220). *)
Definition q_update (alpha gama reward : f64) (t : qtable) (state action : nat) : res qtable :=
  let* acts := getitem t state in
  let* v := getitem acts action in
  Ok (upd t state (upd acts action (v + alpha * (reward + gama * fmaxl acts - v)))).
(** QleSCA.density__ (291-299).  When all agents coincide the longest distance is zero and the result is not finite;
    otherwise the sums and the mean are numbers computed from the positions. *)
Definition q_density (xs : list vec) : M f64 :=
  match xs with
  | x :: xs' => if (forallb (same_tuple x) xs')%bool then ret fnan else rnum E "SCA:291-299" xs
  | [] => rnum E "SCA:291-299" xs
  end.
(** The state, the action and the ranges of an agent (320-325). *)
Definition q_plan (idx : nat) : M (nat * nat * ((f64 * f64) * (f64 * f64))) :=
  xs <- all_sols ;;
  den <- q_density xs ;;
  g <- gb_sol ;;
  dis <- rnum E "SCA:301-308" (g :: p_lb P :: p_ub P :: xs) ;;
  a <- pop_at idx ;;
  state <- lift (q_state den dis) ;;
  action <- q_action (att a) state ;;
  r1 <- lift (q_range (action / 3)%nat) ;;
  r3 <- lift (q_range (action mod 3)%nat) ;;
  ret (state, action, (r1, r3)).
(** QleSCA.evolve (310-342).  The copy of line 318 shares its table with the original; only one of the two remains in the population. *)
Definition q_evolve (plan : nat -> M (nat * nat * ((f64 * f64) * (f64 * f64))))
    (learn : f64 -> qtable -> nat -> nat -> M qtable) (n ep : nat) : M unit :=
  for_ n (fun idx =>
    '(state, action, (r1, r3)) <- plan idx ;;
    xi <- pop_sol idx ;;
    g <- gb_sol ;;
    z <- fm "SCA:326-333" [[fst r1; snd r1; fst r3; snd r3]; xi; g] ;;
    y <- q_correct z ;;
    merge P idx y (fun _ old c => learn (if c : bool then #1 else fneg (#1)) (att old) state action)).
Definition q_learn (alpha gama reward : f64) (t : qtable) (state action : nat) : M qtable :=
  lift (q_update alpha gama reward t state action).
Definition qle_sca (alpha gama : f64) (n epochs : nat) : algo :=
  agent_algo E Single q_gea (ga_of P q_gea) n epochs false (ret tt) (ret tt) (q_evolve q_plan (q_learn alpha gama) n).
End QleSCA.
