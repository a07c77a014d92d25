(** Model of the optimizer core: Target, Agent, History, Termination and the
    population-level functions of mealpy/optimizer.py.  No proofs here. *)
From Verif Require Import Prelude Fl.

(** A NumPy 1-D float array.  Immutable here; in-place writes and sharing are
    treated in MHeap.v. *)
Definition vec := list f64.

(** Problem.minmax (problem.py:22,24).  Any string other than "min"/"max" is [Other]. *)
Inductive minmax := Min | Max | Other.

(** Optimizer.SUPPORTED_MODES (optimizer.py:43). *)
Inductive mode := Single | Swarm | Thread | Process.
(** [self.mode in self.AVAILABLE_MODES] (optimizer.py:44). *)
Definition is_avail (m : mode) : bool := match m with Single => false | _ => true end.

(* ------------------------------------------------------------------ *)
(** * Target (target.py) *)

Record target := mkTarget { t_objs : list f64; t_wts : option (list f64); t_fit : f64 }.

(** np.dot of two 1-D arrays of equal length (target.py:85).
    Simplification: products are added left to right. *)
Definition dot (w o : list f64) : f64 :=
  match map (fun p => fmul (fst p) (snd p)) (combine w o) with
  | [] => fZ 0
  | p :: r => fold_left fadd r p
  end.

(** Target.calculate_fitness (target.py:71-84): weights are used only when they are
    an array of the right length, otherwise a tuple of ones is used. *)
Definition calc_fitness (wts : option (list f64)) (objs : list f64) : f64 :=
  match wts with
  | Some w => if List.length w =? List.length objs then dot w objs
              else dot (repeat (fZ 1) (List.length objs)) objs
  | None => dot (repeat (fZ 1) (List.length objs)) objs
  end.

(** Target.__init__ (target.py:15-27), objectives already flattened to a float array.
    set_weights(None) ends with [_weights = None] (target.py:53-64).
    A scalar weight is expanded by the caller ([wts] is the expanded array). *)
Definition target_new (objs : list f64) (wts : option (list f64)) : target :=
  mkTarget objs wts (calc_fitness wts objs).

(** Target.copy (target.py:29-30). *)
Definition target_copy (t : target) : target := target_new (t_objs t) (t_wts t).

(* ------------------------------------------------------------------ *)
(** * Agent (agent.py) *)

(** Agent attributes beyond solution/target ([**kwargs], agent.py:14-19) have type [A].
    The running [id] (agent.py:19-24) is not modelled: nothing in the library reads it
    except [__repr__]. *)
Record agent (A : Type) := mkAgent { sol : vec; tgt : option target; att : A }.
Arguments mkAgent {A}. Arguments sol {A}. Arguments tgt {A}. Arguments att {A}.

Section AgentOps.
Context {A : Type}.

(** [agent.target.fitness]; AttributeError when target is None. *)
Definition fitness (a : agent A) : res f64 :=
  match tgt a with Some t => Ok (t_fit t) | None => Err AttributeError end.

(** Agent.copy (agent.py:30-36). *)
Definition agent_copy (a : agent A) : res (agent A) :=
  match tgt a with
  | Some t => Ok (mkAgent (sol a) (Some (target_copy t)) (att a))
  | None => Err AttributeError
  end.

(** [agent.solution = x], [agent.target = t], attribute update. *)
Definition with_sol (a : agent A) (x : vec) : agent A := mkAgent x (tgt a) (att a).
Definition with_tgt (a : agent A) (t : target) : agent A := mkAgent (sol a) (Some t) (att a).
Definition with_att (a : agent A) (b : A) : agent A := mkAgent (sol a) (tgt a) b.

(** Agent._compare_fitness (agent.py:58-72). *)
Definition compare_fitness_agent (a b : agent A) (mm : minmax) : res Z :=
  let* fa := fitness a in
  let* fb := fitness b in
  if feq fa fb then Ok 0%Z
  else match mm with
       | Min => Ok (if flt fa fb then (-1)%Z else 1%Z)
       | _ => Ok (if flt fb fa then (-1)%Z else 1%Z)
       end.

(** Agent.get_better_solution (agent.py:74-82). *)
Definition get_better_solution (a b : agent A) (mm : minmax) : res (agent A) :=
  let* c := compare_fitness_agent a b mm in
  Ok (if (c <=? 0)%Z then a else b).

(** Agent.is_better_than (agent.py:84-92). *)
Definition is_better_than (a b : agent A) (mm : minmax) : res bool :=
  let* c := compare_fitness_agent a b mm in
  Ok (c =? -1)%Z.

End AgentOps.

(* ------------------------------------------------------------------ *)
(** * Static methods of Optimizer *)

(** Optimizer.compare_fitness (optimizer.py:445-450). *)
Definition compare_fitness (x y : f64) (mm : minmax) : bool :=
  match mm with Min => flt x y | _ => negb (flt x y) end.

(** Optimizer.compare_target (optimizer.py:438-443). *)
Definition compare_target (x y : target) (mm : minmax) : bool :=
  match mm with Min => flt (t_fit x) (t_fit y) | _ => negb (flt (t_fit x) (t_fit y)) end.

Section Static.
Context {A : Type}.

(** np.argsort: NumPy's default sort gives no promise on ties, so it is a parameter;
    SpecCore.argsort_ok states what is assumed about it. *)
Variable argsort : list f64 -> list nat.

(** Optimizer.duplicate_pop (optimizer.py:452-454). *)
Definition duplicate_pop (pop : list (agent A)) : res (list (agent A)) := map_res agent_copy pop.

(** Optimizer.get_sorted_population (optimizer.py:456-474). *)
Definition get_sorted_population (pop : list (agent A)) (mm : minmax)
  : res (list (agent A) * list nat) :=
  let* fits := map_res fitness pop in
  let indices := argsort fits in
  let indices := match mm with Max => rev indices | _ => indices end in
  let* pop_new := map_res (getitem pop) indices in
  Ok (pop_new, indices).

(** Optimizer.get_best_agent (optimizer.py:476-488). *)
Definition get_best_agent (pop : list (agent A)) (mm : minmax) : res (agent A * nat) :=
  let* (p, ix) := get_sorted_population pop mm in
  let* a := getitem p 0 in
  let* c := agent_copy a in
  let* i := getitem ix 0 in
  Ok (c, i).

(** Optimizer.get_worst_agent (optimizer.py:490-502). *)
Definition get_worst_agent (pop : list (agent A)) (mm : minmax) : res (agent A * nat) :=
  let* (p, ix) := get_sorted_population pop mm in
  let* a := last_item p in
  let* c := agent_copy a in
  let* i := last_item ix in
  Ok (c, i).

(** Optimizer.get_special_agents (optimizer.py:504-535), [return_index=False].
    [None] for n_best / n_worst gives [None].  Negative counts are not modelled. *)
Definition get_special_agents (pop : list (agent A)) (n_best n_worst : option nat) (mm : minmax)
  : res (list (agent A) * option (list (agent A)) * option (list (agent A))) :=
  let* (sp, _) := get_sorted_population pop mm in
  let* b := match n_best with
            | Some n => let* l := map_res agent_copy (firstn n sp) in Ok (Some l)
            | None => Ok None end in
  let* w := match n_worst with
            | Some n => let* l := map_res agent_copy (firstn n (rev sp)) in Ok (Some l)
            | None => Ok None end in
  Ok (sp, b, w).

(** Optimizer.get_special_agents with [return_index=True] (optimizer.py:522-536). *)
Definition get_special_indices (pop : list (agent A)) (n_best n_worst : option nat) (mm : minmax)
  : res (list (agent A) * option (list nat) * option (list nat)) :=
  let* (sp, ix) := get_sorted_population pop mm in
  Ok (sp, option_map (fun n => firstn n ix) n_best, option_map (fun n => firstn n (rev ix)) n_worst).

(** Optimizer.get_special_fitness (optimizer.py:538-552).  Sum taken left to right. *)
Definition get_special_fitness (pop : list (agent A)) (mm : minmax) : res (f64 * f64 * f64) :=
  let* fits := map_res fitness pop in
  let total := fold_left fadd fits (fZ 0) in
  let* (p, _) := get_sorted_population pop mm in
  let* a := getitem p 0 in
  let* fa := fitness a in
  let* b := last_item p in
  let* fb := fitness b in
  Ok (total, fa, fb).

(** Optimizer.get_better_agent (optimizer.py:554-573).
    The dict lookup raises KeyError for an unknown minmax. *)
Definition get_better_agent (x y : agent A) (mm : minmax) (reverse : bool) : res (agent A) :=
  let* idx := match mm with Min => Ok false | Max => Ok true | Other => Err KeyError end in
  let idx := xorb idx reverse in
  let* fx := fitness x in
  let* fy := fitness y in
  if idx then (if flt fx fy then agent_copy y else agent_copy x)
  else (if flt fx fy then agent_copy x else agent_copy y).

(** Optimizer.greedy_selection_population (optimizer.py:576-593). *)
Definition greedy_selection_population (old new : list (agent A)) (mm : minmax)
  : res (list (agent A)) :=
  if negb (List.length old =? List.length new) then Err ValueError
  else map_res (fun on : agent A * agent A =>
                  let (o, n) := on in
                  let* fn := fitness n in
                  let* fo := fitness o in
                  match mm with
                  | Min => Ok (if flt fn fo then n else o)
                  | _ => Ok (if flt fo fn then n else o)
                  end) (combine old new).

(** Optimizer.get_sorted_and_trimmed_population (optimizer.py:595-607). *)
Definition get_sorted_and_trimmed_population (pop : list (agent A)) (n : nat) (mm : minmax)
  : res (list (agent A)) :=
  let* (p, _) := get_sorted_population pop mm in
  Ok (firstn n p).

(** Optimizer.generate_group_population (optimizer.py:770-786). *)
Definition generate_group_population (pop : list (agent A)) (n_groups m_agents : nat)
  : res (list (list (agent A))) :=
  map_res (fun idx => map_res agent_copy (slice (idx * m_agents) ((idx + 1) * m_agents) pop))
          (seq 0 n_groups).

End Static.

(* ------------------------------------------------------------------ *)
(** * History (history.py:13-210) *)

Record history (A : Type) := mkHist {
  h_gb : list (agent A);   (* list_global_best *)
  h_cb : list (agent A);   (* list_current_best *)
  h_gw : list (agent A);   (* list_global_worst *)
  h_cw : list (agent A);   (* list_current_worst *)
  h_gbf : list f64;        (* list_global_best_fit *)
  h_cbf : list f64;        (* list_current_best_fit *)
  h_time : list f64;       (* list_epoch_time *)
  h_div : list f64;        (* list_diversity *)
  h_pop : list (list (agent A));  (* list_population *)
  h_expl : list f64;       (* list_exploration *)
  h_expt : list f64;       (* list_exploitation *)
  h_epoch : option nat     (* epoch *)
}.
Arguments mkHist {A}. Arguments h_gb {A}. Arguments h_cb {A}. Arguments h_gw {A}. Arguments h_cw {A}.
Arguments h_gbf {A}. Arguments h_cbf {A}. Arguments h_time {A}. Arguments h_div {A}. Arguments h_pop {A}.
Arguments h_expl {A}. Arguments h_expt {A}. Arguments h_epoch {A}.

(** History.__init__ (history.py:75-90). *)
Definition hist_new {A} : history A := mkHist [] [] [] [] [] [] [] [] [] [] [] None.

(** History.store_initial_best_worst (history.py:96-100). *)
Definition store_initial {A} (h : history A) (b w : agent A) : res (history A) :=
  let* gb := agent_copy b in let* cb := agent_copy b in
  let* gw := agent_copy w in let* cw := agent_copy w in
  Ok (mkHist [gb] [cb] [gw] [cw] (h_gbf h) (h_cbf h) (h_time h) (h_div h) (h_pop h)
             (h_expl h) (h_expt h) (h_epoch h)).

(** History.get_global_repeated_times (history.py:102-110), on the list of fitness values. *)
Fixpoint repeated_aux (eps : f64) (prev : f64) (l : list f64) (count : nat) : nat :=
  match l with
  | [] => count
  | x :: r => repeated_aux eps x r (if fle (fabs (fsub prev x)) eps then S count else 0)
  end.
Definition repeated_times (eps : f64) (l : list f64) : nat :=
  match l with [] => 0 | x :: r => repeated_aux eps x r 0 end.
Definition get_global_repeated_times {A} (h : history A) (eps : f64) : res nat :=
  let* fits := map_res fitness (h_gb h) in Ok (repeated_times eps fits).

(* ------------------------------------------------------------------ *)
(** * Termination (termination.py) *)

Record termination := mkTerm {
  tm_epoch : option Z; tm_fe : option Z; tm_time : option f64; tm_es : option Z;
  tm_eps : f64; tm_start : f64 }.

(** Which stopping criterion fired: the [message] (termination.py:98-116). *)
Inductive reason := MG | FE | TB | ES.

(** Termination.should_terminate (termination.py:103-120).  [None] = False. *)
Definition should_terminate (t : termination) (epoch fe : Z) (time : f64) (thr : Z) : option reason :=
  if match tm_epoch t with Some m => (m <=? epoch)%Z | None => false end then Some MG
  else if match tm_fe t with Some m => (m <=? fe)%Z | None => false end then Some FE
  else if match tm_time t with Some m => fle m (fsub time (tm_start t)) | None => false end then Some TB
  else if match tm_es t with Some m => (m <=? thr)%Z | None => false end then Some ES
  else None.

(* ------------------------------------------------------------------ *)
(** * Problem as seen by the optimizer (problem.py) *)

(** [p_correct k x] is Problem.correct_solution x and [p_gen k] is
    Problem.generate_solution(encoded=True), each for the [k]-th random draw
    (transfer variables draw in [correct]); MProblem.v builds both from a list of variables. *)
Record problem := mkProblem {
  p_lb : vec; p_ub : vec; p_mm : minmax;
  p_obj : vec -> list f64;             (* obj_func *)
  p_wts : option (list f64);           (* obj_weights *)
  p_correct : nat -> vec -> vec;
  p_gen : nat -> vec;
  p_save_pop : bool }.                 (* save_population *)

Definition n_dims (P : problem) : nat := List.length (p_lb P).

(** Problem.get_target (problem.py:190-199). *)
Definition prob_target (P : problem) (x : vec) : target := target_new (p_obj P x) (p_wts P).

(** Everything the library takes from outside: NumPy's argsort, the random generators
    (draw number -> value), special functions, the clock, the completion order of
    parallel tasks.  All arbitrary; hypotheses about them are stated in each theorem. *)
Record env := mkEnv {
  e_argsort : list f64 -> list nat;
  e_u : nat -> f64;                    (* k-th uniform draw of [0,1) *)
  e_g : nat -> f64;                    (* k-th other float draw (normal, cauchy, levy ...) *)
  e_i : nat -> nat;                    (* k-th integer draw, reduced to the range by the caller *)
  e_fun : string -> list f64 -> f64;   (* exp, sin, gamma, power ... *)
  e_time : nat -> f64;                 (* time.perf_counter() *)
  e_order : nat -> list nat }.         (* as_completed order, a list of task numbers *)

(* ------------------------------------------------------------------ *)
(** * The optimizer object *)

(** Mutable attributes of an Optimizer.  [self.pop = None] is the empty list
    (a population always has pop_size >= 1 agents otherwise).  [s_log] is a ghost:
    every solution handed to the objective function, in order. [X] is the type of the
    attributes an algorithm adds (dyn_* etc.). *)
Record st (A X : Type) := mkSt {
  s_pop : list (agent A);
  s_gb : option (agent A);
  s_gw : option (agent A);
  s_hist : history A;
  s_nfe : nat;
  s_ctr : nat;
  s_log : list vec;
  s_x : X }.
Arguments mkSt {A X}. Arguments s_pop {A X}. Arguments s_gb {A X}. Arguments s_gw {A X}.
Arguments s_hist {A X}. Arguments s_nfe {A X}. Arguments s_ctr {A X}. Arguments s_log {A X}.
Arguments s_x {A X}.

(** A method call: may raise, may change the optimizer. *)
Definition M (A X Y : Type) := st A X -> res (Y * st A X).
Definition ret {A X Y} (y : Y) : M A X Y := fun s => Ok (y, s).
Definition bindM {A X Y Z} (m : M A X Y) (f : Y -> M A X Z) : M A X Z :=
  fun s => match m s with Ok (y, s') => f y s' | Err e => Err e end.
Definition raise {A X Y} (e : exn) : M A X Y := fun _ => Err e.
Definition lift {A X Y} (r : res Y) : M A X Y :=
  fun s => match r with Ok y => Ok (y, s) | Err e => Err e end.
Notation "x <- m ;; f" := (bindM m (fun x => f)) (at level 61, m at next level, right associativity).
Notation "' p <- m ;; f" := (bindM m (fun p => f)) (at level 61, p pattern, m at next level, right associativity).
Notation "m ;;; f" := (bindM m (fun _ => f)) (at level 61, right associativity).

(** [for idx in range(i, i+n)] with an accumulator of local variables. *)
Fixpoint for_acc {A X B} (n i : nat) (acc : B) (body : nat -> B -> M A X B) : M A X B :=
  match n with
  | O => ret acc
  | S m => b <- body i acc ;; for_acc m (S i) b body
  end.
(** [for idx in range(0, n)] whose body only changes the optimizer. *)
Definition for_ {A X} (n : nat) (body : nat -> M A X unit) : M A X unit :=
  for_acc n 0 tt (fun i _ => body i).
(** [for x in l]. *)
Fixpoint for_list {A X B T} (l : list T) (acc : B) (body : T -> B -> M A X B) : M A X B :=
  match l with
  | [] => ret acc
  | x :: r => b <- body x acc ;; for_list r b body
  end.
Definition when {A X} (b : bool) (m : M A X unit) : M A X unit := if b then m else ret tt.

Section Fields.
Context {A X : Type}.
Definition get : M A X (st A X) := fun s => Ok (s, s).
Definition get_pop : M A X (list (agent A)) := fun s => Ok (s_pop s, s).
Definition set_pop (p : list (agent A)) : M A X unit :=
  fun s => Ok (tt, mkSt p (s_gb s) (s_gw s) (s_hist s) (s_nfe s) (s_ctr s) (s_log s) (s_x s)).
Definition set_gb (g : option (agent A)) : M A X unit :=
  fun s => Ok (tt, mkSt (s_pop s) g (s_gw s) (s_hist s) (s_nfe s) (s_ctr s) (s_log s) (s_x s)).
Definition set_gw (g : option (agent A)) : M A X unit :=
  fun s => Ok (tt, mkSt (s_pop s) (s_gb s) g (s_hist s) (s_nfe s) (s_ctr s) (s_log s) (s_x s)).
Definition set_hist (h : history A) : M A X unit :=
  fun s => Ok (tt, mkSt (s_pop s) (s_gb s) (s_gw s) h (s_nfe s) (s_ctr s) (s_log s) (s_x s)).
Definition set_nfe (n : nat) : M A X unit :=
  fun s => Ok (tt, mkSt (s_pop s) (s_gb s) (s_gw s) (s_hist s) n (s_ctr s) (s_log s) (s_x s)).
Definition add_nfe (n : nat) : M A X unit :=
  fun s => Ok (tt, mkSt (s_pop s) (s_gb s) (s_gw s) (s_hist s) (s_nfe s + n) (s_ctr s) (s_log s) (s_x s)).
Definition add_log (l : list vec) : M A X unit :=
  fun s => Ok (tt, mkSt (s_pop s) (s_gb s) (s_gw s) (s_hist s) (s_nfe s) (s_ctr s) (s_log s ++ l) (s_x s)).
Definition set_x (x : X) : M A X unit :=
  fun s => Ok (tt, mkSt (s_pop s) (s_gb s) (s_gw s) (s_hist s) (s_nfe s) (s_ctr s) (s_log s) x).
Definition get_x : M A X X := fun s => Ok (s_x s, s).
(** [self.g_best.<attr>]: AttributeError while it is None. *)
Definition get_gb : M A X (agent A) :=
  fun s => match s_gb s with Some g => Ok (g, s) | None => Err AttributeError end.
(** Next draw number. *)
Definition tick : M A X nat :=
  fun s => Ok (s_ctr s, mkSt (s_pop s) (s_gb s) (s_gw s) (s_hist s) (s_nfe s) (S (s_ctr s)) (s_log s) (s_x s)).
(** [self.pop[idx]] and [self.pop[idx] = a]. *)
Definition pop_at (i : nat) : M A X (agent A) :=
  p <- get_pop ;; lift (getitem p i).
Definition pop_set (i : nat) (a : agent A) : M A X unit :=
  p <- get_pop ;; q <- lift (setitem p i a) ;; set_pop q.
End Fields.

(* ------------------------------------------------------------------ *)
(** * Optimizer methods *)

Section Optimizer.
Context {A X : Type}.
Variable E : env.
Variable P : problem.
Variable md : mode.

(** Random draws.  [generator.uniform()] / [random()]. *)
Definition uniform : M A X f64 := k <- tick ;; ret (e_u E k).
Definition gauss : M A X f64 := k <- tick ;; ret (e_g E k).
(** [generator.integers(lo, hi)]: ValueError when the range is empty. *)
Definition integers (lo hi : nat) : M A X nat :=
  if hi <=? lo then raise ValueError
  else k <- tick ;; ret (lo + (e_i E k) mod (hi - lo)).
(** [generator.choice(l)]. *)
Definition choice1 {T} (l : list T) : M A X T :=
  match l with
  | [] => raise ValueError
  | d :: _ => k <- tick ;; ret (nth ((e_i E k) mod (List.length l)) l d)
  end.
(** Remove the element at position [i]. *)
Definition remove_at {T} (i : nat) (l : list T) : list T := firstn i l ++ skipn (S i) l.
(** [generator.choice(l, n, replace=False)]: ValueError when fewer than n elements. *)
Fixpoint choice_noreplace {T} (l : list T) (n : nat) : M A X (list T) :=
  match n with
  | O => ret []
  | S m =>
    match l with
    | [] => raise ValueError
    | d :: _ =>
      k <- tick ;;
      let i := (e_i E k) mod (List.length l) in
      r <- choice_noreplace (remove_at i l) m ;;
      ret (nth i l d :: r)
    end
  end.
(** An array of [n_dims] uniform / other draws. *)
Definition uniform_vec (n : nat) : M A X vec :=
  for_acc n 0 [] (fun _ acc => u <- uniform ;; ret (acc ++ [u])).
Definition gauss_vec (n : nat) : M A X vec :=
  for_acc n 0 [] (fun _ acc => u <- gauss ;; ret (acc ++ [u])).

(** Elementwise NumPy arithmetic on arrays of n_dims components.  Shape errors are not
    modelled: the result always has n_dims components, missing ones read as NaN. *)
Definition vtab (f : nat -> f64) : vec := map f (seq 0 (n_dims P)).
Definition vget (x : vec) (i : nat) : f64 := nth i x fnan.
Definition vmap2 (f : f64 -> f64 -> f64) (x y : vec) : vec := vtab (fun i => f (vget x i) (vget y i)).
Definition vmap1 (f : f64 -> f64) (x : vec) : vec := vtab (fun i => f (vget x i)).

(** Optimizer.get_target (optimizer.py:423-436) on one solution, counted. *)
Definition get_target (x : vec) : M A X target :=
  add_nfe 1 ;;; add_log [x] ;;; ret (prob_target P x).

(** Optimizer.get_target with counted=False. *)
Definition get_target_uncounted (x : vec) : M A X target :=
  add_log [x] ;;; ret (prob_target P x).

(** Optimizer.amend_solution, default (optimizer.py:365-376). *)
Definition amend_clip (x : vec) : M A X vec :=
  ret (vtab (fun i => fclip (vget x i) (vget (p_lb P) i) (vget (p_ub P) i))).

(** Optimizer.correct_solution (optimizer.py:378-390), for an overridable amend_solution. *)
Definition correct_solution_with (amend : vec -> M A X vec) (x : vec) : M A X vec :=
  y <- amend x ;; k <- tick ;; ret (p_correct P k y).
Definition correct_solution : vec -> M A X vec := correct_solution_with amend_clip.

(** Optimizer.generate_empty_agent (optimizer.py:316-325), [dflt] = the attributes a plain
    Agent has. *)
Definition generate_empty_agent (dflt : A) (solution : option vec) : M A X (agent A) :=
  match solution with
  | Some x => ret (mkAgent x None dflt)
  | None => k <- tick ;; ret (mkAgent (p_gen P k) None dflt)
  end.

(** Optimizer.generate_agent (optimizer.py:327-336), for an overridable generate_empty_agent. *)
Definition generate_agent_with (gea : option vec -> M A X (agent A)) (solution : option vec)
  : M A X (agent A) :=
  a <- gea solution ;;
  t <- get_target (sol a) ;;
  ret (with_tgt a t).

(** Run n tasks one after the other, collecting the results. *)
Definition repeat_M {T} (n : nat) (m : M A X T) : M A X (list T) :=
  for_acc n 0 [] (fun _ acc => a <- m ;; ret (acc ++ [a])).

(** Optimizer.generate_population (optimizer.py:338-363).
    single/swarm: sequential.  thread: the same tasks, results in completion order
    ([e_order] lists task numbers; tasks it omits are appended so none is lost);
    simplification: each task draws and counts atomically.
    process: every task runs on a pickled copy of the optimizer, so all tasks see the same
    generator state and neither their draws nor their nfe increments come back. *)
Definition reorder {T} (ord : list nat) (l : list T) : list T :=
  let ord := nodup Nat.eq_dec (filter (fun i => i <? List.length l) ord) in
  let rest := filter (fun i => negb (existsb (Nat.eqb i) ord)) (seq 0 (List.length l)) in
  flat_map (fun i => match nth_error l i with Some x => [x] | None => [] end) (ord ++ rest).
Definition in_child {Y} (m : M A X Y) : M A X Y :=
  fun s => match m s with
           | Ok (y, s') => Ok (y, mkSt (s_pop s) (s_gb s) (s_gw s) (s_hist s) (s_nfe s) (s_ctr s)
                                       (s_log s') (s_x s))
           | Err e => Err e
           end.
Definition generate_population_with (ga : M A X (agent A)) (n : nat) : M A X (list (agent A)) :=
  match md with
  | Thread => k <- tick ;; l <- repeat_M n ga ;; ret (reorder (e_order E k) l)
  | Process => k <- tick ;; l <- repeat_M n (in_child ga) ;; ret (reorder (e_order E k) l)
  | _ => repeat_M n ga
  end.

(** Optimizer.update_target_for_population (optimizer.py:392-421).  Results come back in
    submission order in every mode (executor.map); the objective is evaluated once per agent.
    The objective is a function of the solution only. *)
Definition update_target_for_population (pop : list (agent A)) : M A X (list (agent A)) :=
  if is_avail md then
    l <- for_list pop [] (fun a acc =>
           t <- get_target_uncounted (sol a) ;; ret (acc ++ [with_tgt a t])) ;;
    add_nfe (List.length pop) ;;;
    ret l
  else ret pop.

(** Optimizer.update_global_best_agent (optimizer.py:609-644), save=True. *)
Definition update_global_best_agent (pop : list (agent A)) : M A X (list (agent A) * agent A) :=
  '(sp, _) <- lift (get_sorted_population (e_argsort E) pop (p_mm P)) ;;
  c_best <- lift (getitem sp 0) ;;
  c_worst <- lift (last_item sp) ;;
  s <- get ;;
  let h := s_hist s in
  gb <- lift (last_item (h_gb h)) ;;
  better <- lift (get_better_agent c_best gb (p_mm P) false) ;;
  gw <- lift (last_item (h_gw h)) ;;
  worse <- lift (get_better_agent c_worst gw (p_mm P) true) ;;
  set_hist (mkHist (h_gb h ++ [better]) (h_cb h ++ [c_best]) (h_gw h ++ [worse]) (h_cw h ++ [c_worst])
                   (h_gbf h) (h_cbf h) (h_time h) (h_div h) (h_pop h) (h_expl h) (h_expt h) (h_epoch h)) ;;;
  ret (sp, better).

(** Optimizer.update_global_best_agent (optimizer.py:609-644), save=False. *)
Definition update_global_best_agent_nosave (pop : list (agent A)) : M A X (list (agent A) * agent A) :=
  '(sp, _) <- lift (get_sorted_population (e_argsort E) pop (p_mm P)) ;;
  c_best <- lift (getitem sp 0) ;;
  c_worst <- lift (last_item sp) ;;
  s <- get ;;
  let h := s_hist s in
  cb <- lift (last_item (h_cb h)) ;;
  local_better <- lift (get_better_agent c_best cb (p_mm P) false) ;;
  cbs <- lift (set_last (h_cb h) local_better) ;;
  gb <- lift (last_item (h_gb h)) ;;
  global_better <- lift (get_better_agent c_best gb (p_mm P) false) ;;
  gbs <- lift (set_last (h_gb h) global_better) ;;
  cw <- lift (last_item (h_cw h)) ;;
  local_worst <- lift (get_better_agent c_worst cw (p_mm P) true) ;;
  cws <- lift (set_last (h_cw h) local_worst) ;;
  gw <- lift (last_item (h_gw h)) ;;
  global_worst <- lift (get_better_agent c_worst gw (p_mm P) true) ;;
  gws <- lift (set_last (h_gw h) global_worst) ;;
  set_hist (mkHist gbs cbs gws cws
                   (h_gbf h) (h_cbf h) (h_time h) (h_div h) (h_pop h) (h_expl h) (h_expt h) (h_epoch h)) ;;;
  ret (sp, global_better).

(** Population diversity of track_optimize_step (optimizer.py:296-298):
    mean over dimensions of the mean absolute deviation from the median.
    Simplification: sums left to right. *)
Fixpoint finsert (x : f64) (l : list f64) : list f64 :=
  match l with [] => [x] | y :: r => if flt y x then y :: finsert x r else x :: l end.
Definition fsort (l : list f64) : list f64 := fold_right finsert [] l.
Definition fmean (l : list f64) : f64 :=
  fdiv (fold_left fadd l (fZ 0)) (fZ (Z.of_nat (List.length l))).
Definition fmedian (l : list f64) : f64 :=
  if existsb fisnan l then fnan
  else let s := fsort l in
       let n := List.length l in
       if Nat.odd n then nth (n / 2) s fnan
       else fdiv (fadd (nth (n / 2 - 1) s fnan) (nth (n / 2) s fnan)) (fZ 2).
Definition diversity (pos : list vec) : f64 :=
  fmean (map (fun j =>
    let col := map (fun x => vget x j) pos in
    let m := fmedian col in
    fmean (map (fun v => fabs (fsub m v)) col)) (seq 0 (n_dims P))).

(** Optimizer.track_optimize_step (optimizer.py:280-301); logging omitted. *)
Definition track_optimize_step (pop : list (agent A)) (runtime : f64) : M A X unit :=
  s <- get ;;
  let h := s_hist s in
  dup <- lift (if p_save_pop P then let* d := duplicate_pop pop in Ok [d] else Ok []) ;;
  gb <- lift (last_item (h_gb h)) ;;
  gbf <- lift (fitness gb) ;;
  cb <- lift (last_item (h_cb h)) ;;
  cbf <- lift (fitness cb) ;;
  set_hist (mkHist (h_gb h) (h_cb h) (h_gw h) (h_cw h) (h_gbf h ++ [gbf]) (h_cbf h ++ [cbf])
                   (h_time h ++ [runtime]) (h_div h ++ [diversity (map sol pop)]) (h_pop h ++ dup)
                   (h_expl h) (h_expt h) (h_epoch h)).

(** np.max of a non-empty list: NaN wins. *)
Definition fmaxl (l : list f64) : f64 :=
  fold_left (fun m x => if fisnan m then m else if fisnan x then x else if flt m x then x else m)
            (tl l) (hd fnan l).

(** Optimizer.track_optimize_process (optimizer.py:303-314).  np.max of [] raises ValueError. *)
Definition track_optimize_process : M A X unit :=
  s <- get ;;
  let h := s_hist s in
  match h_div h with
  | [] => raise ValueError
  | _ =>
    let div_max := fmaxl (h_div h) in
    let expl := map (fun d => fmul (fZ 100) (fdiv d div_max)) (h_div h) in
    let expt := map (fun e => fsub (fZ 100) e) expl in
    set_hist (mkHist (tl (h_gb h)) (tl (h_cb h)) (tl (h_gw h)) (tl (h_cw h)) (h_gbf h) (h_cbf h)
                     (h_time h) (h_div h) (h_pop h) expl expt (Some (List.length (h_div h))))
  end.

(** Optimizer.after_initialization (optimizer.py:149-155). *)
Definition after_initialization (sort_flag : bool) : M A X unit :=
  p <- get_pop ;;
  '(sp, best, worst) <- lift (get_special_agents (e_argsort E) p (Some 1) (Some 1) (p_mm P)) ;;
  b <- lift (match best with Some l => getitem l 0 | None => Err TypeError end) ;;
  w <- lift (match worst with Some l => getitem l 0 | None => Err TypeError end) ;;
  set_gb (Some b) ;;; set_gw (Some w) ;;;
  when sort_flag (set_pop sp) ;;;
  s <- get ;;
  h <- lift (store_initial (s_hist s) b w) ;;
  set_hist h.

(** Optimizer.check_termination, mode="end" (optimizer.py:195-214). *)
Definition check_termination_end (tm : option termination) (epoch : nat) : M A X (option reason) :=
  match tm with
  | None => ret None
  | Some t =>
    s <- get ;;
    es <- lift (get_global_repeated_times (s_hist s) (tm_eps t)) ;;
    k <- tick ;;
    ret (should_terminate t (Z.of_nat epoch) (Z.of_nat (s_nfe s)) (e_time E k) (Z.of_nat es))
  end.

(** The parts of the optimizer an algorithm class supplies. *)
Record algo := mkAlgo {
  al_pop_size : nat;                             (* self.pop_size *)
  al_epoch : nat;                                (* self.epoch *)
  al_sort : bool;                                (* self.sort_flag *)
  al_gea : option vec -> M A X (agent A);        (* generate_empty_agent *)
  al_ga : option vec -> M A X (agent A);         (* generate_agent *)
  al_init_vars : M A X unit;                     (* initialize_variables *)
  al_init : M A X unit;                          (* initialization *)
  al_before_main : M A X unit;                   (* before_main_loop *)
  al_evolve : nat -> M A X unit }.               (* evolve *)

(** Optimizer.initialization, default (optimizer.py:145-147). *)
Definition default_initialization (ga : option vec -> M A X (agent A)) (n : nat) : M A X unit :=
  p <- get_pop ;;
  match p with
  | [] => l <- generate_population_with (ga None) n ;; set_pop l
  | _ => ret tt
  end.

(** An algorithm that overrides only evolve. *)
Definition plain_algo (dflt : A) (pop_size epoch : nat) (sort : bool) (evolve : nat -> M A X unit) : algo :=
  let gea := generate_empty_agent dflt in
  let ga := generate_agent_with gea in
  mkAlgo pop_size epoch sort gea ga (ret tt) (default_initialization ga pop_size) (ret tt) evolve.

(** Optimizer.before_initialization (optimizer.py:126-143).  [starting]: None, or the rows.
    Only the first row's length is checked. *)
Definition before_initialization (al : algo) (starting : option (list vec)) : M A X unit :=
  match starting with
  | None => ret tt
  | Some rows =>
    if List.length rows =? al_pop_size al then
      match rows with
      | [] => raise IndexError
      | r0 :: _ =>
        if List.length r0 =? n_dims P then
          if is_avail md then
            l <- for_list rows [] (fun r acc => a <- al_gea al (Some r) ;; ret (acc ++ [a])) ;;
            set_pop l ;;;
            l' <- update_target_for_population l ;;
            set_pop l'
          else
            l <- for_list rows [] (fun r acc => a <- al_ga al (Some r) ;; ret (acc ++ [a])) ;;
            set_pop l
        else raise ValueError
      end
    else raise ValueError
  end.

(** One pass of the for loop in Optimizer.solve (lines 253-276 of optimizer.py). *)
Definition epoch_step (al : algo) (tm : option termination) (epoch : nat) : M A X (option reason) :=
  k <- tick ;;
  al_evolve al epoch ;;;
  p <- get_pop ;;
  '(sp, gb) <- update_global_best_agent p ;;
  set_gb (Some gb) ;;;
  when (al_sort al) (set_pop sp) ;;;
  k' <- tick ;;
  p' <- get_pop ;;
  track_optimize_step p' (fsub (e_time E k') (e_time E k)) ;;;
  check_termination_end tm epoch.

(** The for loop [for epoch in range(i, i+n)] with its break. *)
Fixpoint main_loop (al : algo) (tm : option termination) (n i : nat) : M A X unit :=
  match n with
  | O => ret tt
  | S m =>
    r <- epoch_step al tm i ;;
    match r with
    | Some _ => ret tt
    | None => main_loop al tm m (S i)
    end
  end.

(** Optimizer.check_problem (optimizer.py:163-177): new generators, history, population.
    [s_log] is a ghost and restarts with the solve. *)
Definition check_problem : M A X unit :=
  fun s => Ok (tt, mkSt [] None None hist_new (s_nfe s) 0 [] (s_x s)).

(** Optimizer.check_termination, mode="start" (optimizer.py:195-214), for an already built
    Termination: resets the counter and records the start time. *)
Definition check_termination_start (tm : option termination) : M A X (option termination) :=
  match tm with
  | None => ret None
  | Some t =>
    set_nfe 0 ;;;
    k <- tick ;;
    ret (Some (mkTerm (tm_epoch t) (tm_fe t) (tm_time t) (tm_es t) (tm_eps t) (e_time E k)))
  end.

(** Optimizer.solve (optimizer.py:216-278). *)
Definition solve (al : algo) (tm : option termination) (starting : option (list vec)) : M A X (agent A) :=
  check_problem ;;;
  tm' <- check_termination_start tm ;;
  al_init_vars al ;;;
  before_initialization al starting ;;;
  al_init al ;;;
  after_initialization (al_sort al) ;;;
  al_before_main al ;;;
  main_loop al tm' (al_epoch al) 1 ;;;
  track_optimize_process ;;;
  get_gb.

End Optimizer.
