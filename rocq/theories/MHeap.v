(** Objects and references: which parts of the optimizer share an object.

    In MCore an agent is a value.  Here an agent, its position array and its target are objects in a heap, and the
    population, the global best and the history lists hold references, so that in-place changes are seen through
    every reference.  Simplifications: attributes other than position and target are values; the objective values and
    weights inside a Target are not shared (Target.copy builds new arrays); list objects are values, since every
    list of references is only ever replaced or appended to; no termination object; single mode; logging and
    run times omitted. *)
From Verif Require Import Prelude Fl MCore.

Notation loc := nat (only parsing).

(** A position array, a Target (target.py:12-79) or an Agent (agent.py:11-19). *)
Inductive obj (A : Type) := OArr (v : vec) | OTgt (t : target) | OAgt (s : loc) (t : option loc) (b : A).
Arguments OArr {A}. Arguments OTgt {A}. Arguments OAgt {A}.

(** The optimizer's attributes (optimizer.py:60-66, history.py:75-90).  New objects are appended to [hp]. *)
Record hst (A X : Type) := mkH {
  hp : list (obj A);            (* heap *)
  po : list loc;                (* self.pop *)
  gbr : option loc;             (* self.g_best *)
  gwr : option loc;             (* self.g_worst *)
  lgb : list loc;               (* history.list_global_best *)
  lcb : list loc;               (* history.list_current_best *)
  lgw : list loc;               (* history.list_global_worst *)
  lcw : list loc;               (* history.list_current_worst *)
  lpo : list (list loc);        (* history.list_population *)
  hctr : nat;                   (* state of the generators *)
  hx : X }.                     (* attributes added by the algorithm *)
Arguments mkH {A X}. Arguments hp {A X}. Arguments po {A X}. Arguments gbr {A X}. Arguments gwr {A X}.
Arguments lgb {A X}. Arguments lcb {A X}. Arguments lgw {A X}. Arguments lcw {A X}. Arguments lpo {A X}.
Arguments hctr {A X}. Arguments hx {A X}.

Section Heap.
Context {A X : Type}.
Notation hst := (hst A X).
Definition w_hp (s : hst) (h : list (obj A)) : hst := mkH h (po s) (gbr s) (gwr s) (lgb s) (lcb s) (lgw s) (lcw s) (lpo s) (hctr s) (hx s).
Definition w_po (s : hst) p : hst := mkH (hp s) p (gbr s) (gwr s) (lgb s) (lcb s) (lgw s) (lcw s) (lpo s) (hctr s) (hx s).
Definition w_gb (s : hst) g : hst := mkH (hp s) (po s) g (gwr s) (lgb s) (lcb s) (lgw s) (lcw s) (lpo s) (hctr s) (hx s).
Definition w_gw (s : hst) g : hst := mkH (hp s) (po s) (gbr s) g (lgb s) (lcb s) (lgw s) (lcw s) (lpo s) (hctr s) (hx s).
Definition w_hist (s : hst) a b c d : hst := mkH (hp s) (po s) (gbr s) (gwr s) a b c d (lpo s) (hctr s) (hx s).
Definition w_lpo (s : hst) l : hst := mkH (hp s) (po s) (gbr s) (gwr s) (lgb s) (lcb s) (lgw s) (lcw s) l (hctr s) (hx s).
Definition w_ctr (s : hst) k : hst := mkH (hp s) (po s) (gbr s) (gwr s) (lgb s) (lcb s) (lgw s) (lcw s) (lpo s) k (hx s).
Definition w_hx (s : hst) x : hst := mkH (hp s) (po s) (gbr s) (gwr s) (lgb s) (lcb s) (lgw s) (lcw s) (lpo s) (hctr s) x.

(** Reading the fields of an object; AttributeError for the wrong kind of object. *)
Definition o_arr (h : list (obj A)) (l : loc) : res vec :=
  match nth_error h l with Some (OArr v) => Ok v | _ => Err AttributeError end.
Definition o_tgt (h : list (obj A)) (l : loc) : res target :=
  match nth_error h l with Some (OTgt t) => Ok t | _ => Err AttributeError end.
Definition o_agt (h : list (obj A)) (l : loc) : res (loc * option loc * A) :=
  match nth_error h l with Some (OAgt s t b) => Ok (s, t, b) | _ => Err AttributeError end.
(** [agent.target.fitness]. *)
Definition o_fit (h : list (obj A)) (l : loc) : res f64 :=
  let* (s, t, b) := o_agt h l in
  match t with None => Err AttributeError | Some t => let* t := o_tgt h t in Ok (t_fit t) end.

(** ** Methods of an algorithm class *)
(** Any code of an algorithm class, as a sequence of reads and writes.  Reads see everything. *)
Inductive prog (Y : Type) :=
| PRet (y : Y)
| PFail (e : exn)                                  (* raise *)
| PGet (k : hst -> prog Y)                         (* read anything *)
| PNew (o : obj A) (k : loc -> prog Y)             (* a new object *)
| PSol (l a : loc) (k : prog Y)                    (* agent.solution = array *)
| PTgt (l t : loc) (k : prog Y)                    (* agent.target = target *)
| PAtt (l : loc) (b : A) (k : prog Y)              (* agent.<attribute> = ... *)
| PElem (a : loc) (j : nat) (v : f64) (k : prog Y) (* array[j] = v, in place *)
| PPop (p : list loc) (k : prog Y)                 (* self.pop = ..., or a change of its slots *)
| PBest (g : loc) (k : prog Y)                     (* self.g_best = ... *)
| PX (x : X) (k : prog Y)                          (* self.<attribute> = ... *)
| PTick (k : nat -> prog Y).                       (* use of a random generator *)
Arguments PRet {Y}. Arguments PFail {Y}. Arguments PGet {Y}. Arguments PNew {Y}. Arguments PSol {Y}. Arguments PTgt {Y}.
Arguments PAtt {Y}. Arguments PElem {Y}. Arguments PPop {Y}. Arguments PBest {Y}. Arguments PX {Y}. Arguments PTick {Y}.

Fixpoint pbind {Y Z} (p : prog Y) (f : Y -> prog Z) : prog Z :=
  match p with
  | PRet y => f y
  | PFail e => PFail e
  | PGet k => PGet (fun s => pbind (k s) f)
  | PNew o k => PNew o (fun l => pbind (k l) f)
  | PSol l a k => PSol l a (pbind k f)
  | PTgt l t k => PTgt l t (pbind k f)
  | PAtt l b k => PAtt l b (pbind k f)
  | PElem a j v k => PElem a j v (pbind k f)
  | PPop q k => PPop q (pbind k f)
  | PBest g k => PBest g (pbind k f)
  | PX x k => PX x (pbind k f)
  | PTick k => PTick (fun n => pbind (k n) f)
  end.

(** One write to a field of an agent, or to a component of an array. *)
Definition put_agt (h : list (obj A)) (l : loc) (f : loc -> option loc -> A -> obj A) : res (list (obj A)) :=
  let* (s, t, b) := o_agt h l in Ok (upd h l (f s t b)).
Definition put_elem (h : list (obj A)) (a : loc) (j : nat) (v : f64) : res (list (obj A)) :=
  let* x := o_arr h a in
  if j <? List.length x then Ok (upd h a (OArr (upd x j v))) else Err IndexError.

Fixpoint run {Y} (p : prog Y) (s : hst) : res (Y * hst) :=
  match p with
  | PRet y => Ok (y, s)
  | PFail e => Err e
  | PGet k => run (k s) s
  | PNew o k => run (k (List.length (hp s))) (w_hp s (hp s ++ [o]))
  | PSol l a k => let* h := put_agt (hp s) l (fun _ t b => OAgt a t b) in run k (w_hp s h)
  | PTgt l t k => let* h := put_agt (hp s) l (fun x _ b => OAgt x (Some t) b) in run k (w_hp s h)
  | PAtt l b k => let* h := put_agt (hp s) l (fun x t _ => OAgt x t b) in run k (w_hp s h)
  | PElem a j v k => let* h := put_elem (hp s) a j v in run k (w_hp s h)
  | PPop p k => run k (w_po s p)
  | PBest g k => run k (w_gb s (Some g))
  | PX x k => run k (w_hx s x)
  | PTick k => run (k (hctr s)) (w_ctr s (S (hctr s)))
  end.

Definition read {Y} (r : hst -> res Y) : prog Y := PGet (fun s => match r s with Ok y => PRet y | Err e => PFail e end).
Definition new (o : obj A) : prog loc := PNew o (fun l => PRet l).

(** ** The optimizer *)
(** Agent.copy (agent.py:30-36) with Target.copy (target.py:29-30): the position array is shared, the target is a new
    object. *)
Definition copy (l : loc) : prog loc :=
  pbind (read (fun s => let* (x, t, b) := o_agt (hp s) l in
                        match t with None => Err AttributeError | Some t => let* t := o_tgt (hp s) t in Ok (x, t, b) end))
    (fun '(x, t, b) => pbind (new (OTgt (target_copy t))) (fun t' => new (OAgt x (Some t') b))).
Fixpoint copies (ls : list loc) : prog (list loc) :=
  match ls with
  | [] => PRet []
  | l :: r => pbind (copy l) (fun c => pbind (copies r) (fun cs => PRet (c :: cs)))
  end.

Variable argsort : list f64 -> list nat.
Variable mm : minmax.

(** Optimizer.get_sorted_population (optimizer.py:456-474): references to the same agents. *)
Definition sorted_refs (h : list (obj A)) (pop : list loc) : res (list loc) :=
  let* fits := map_res (o_fit h) pop in
  let ix := argsort fits in
  let ix := match mm with Max => rev ix | _ => ix end in
  map_res (getitem pop) ix.
(** Optimizer.get_better_agent (optimizer.py:554-573). *)
Definition better_ref (x y : loc) (reverse : bool) : prog loc :=
  pbind (read (fun s =>
    let* idx := match mm with Min => Ok false | Max => Ok true | Other => Err KeyError end in
    let* fx := o_fit (hp s) x in
    let* fy := o_fit (hp s) y in
    Ok (xorb idx reverse, flt fx fy)))
  (fun '(idx, c) => if (idx : bool) then (if (c : bool) then copy y else copy x) else (if c then copy x else copy y)).

Notation HM Y := (hst -> res (Y * hst)).
Definition hbind {Y Z} (m : HM Y) (f : Y -> HM Z) : HM Z := fun s => let* (y, s) := m s in f y s.
Definition hread {Y} (r : hst -> res Y) : HM Y := fun s => let* y := r s in Ok (y, s).
Definition hput (f : hst -> hst) : HM unit := fun s => Ok (tt, f s).

(** Optimizer.after_initialization (optimizer.py:149-155) with get_special_agents (optimizer.py:504-535) and
    History.store_initial_best_worst (history.py:96-100). *)
Definition h_after_init (sort : bool) : HM unit :=
  hbind (hread (fun s => sorted_refs (hp s) (po s))) (fun sp =>
  hbind (hread (fun _ => getitem sp 0)) (fun b0 =>
  hbind (hread (fun _ => last_item sp)) (fun w0 =>
  hbind (run (copy b0)) (fun b =>
  hbind (run (copy w0)) (fun w =>
  hbind (hput (fun s => w_gw (w_gb s (Some b)) (Some w))) (fun _ =>
  hbind (hput (fun s => if sort then w_po s sp else s)) (fun _ =>
  hbind (run (copy b)) (fun b1 =>
  hbind (run (copy b)) (fun b2 =>
  hbind (run (copy w)) (fun w1 =>
  hbind (run (copy w)) (fun w2 =>
  hput (fun s => w_hist s [b1] [b2] [w1] [w2])))))))))))).

(** Optimizer.update_global_best_agent (optimizer.py:609-644), save=True.  The current best and worst are recorded
    without a copy. *)
Definition h_update : HM (list loc * loc) :=
  hbind (hread (fun s => sorted_refs (hp s) (po s))) (fun sp =>
  hbind (hread (fun _ => getitem sp 0)) (fun c_best =>
  hbind (hread (fun _ => last_item sp)) (fun c_worst =>
  hbind (hread (fun s => last_item (lgb s))) (fun gb =>
  hbind (run (better_ref c_best gb false)) (fun better =>
  hbind (hread (fun s => last_item (lgw s))) (fun gw =>
  hbind (run (better_ref c_worst gw true)) (fun worse =>
  hbind (hput (fun s => w_hist s (lgb s ++ [better]) (lcb s ++ [c_best]) (lgw s ++ [worse]) (lcw s ++ [c_worst]))) (fun _ =>
  fun s => Ok ((sp, better), s))))))))).

(** One pass of the loop of Optimizer.solve (lines 253-267 of optimizer.py) with the copy of the population made by
    track_optimize_step (lines 289-291) when save_population is set. *)
Definition h_epoch (sort save : bool) (evolve : nat -> prog unit) (ep : nat) : HM unit :=
  hbind (run (evolve ep)) (fun _ =>
  hbind h_update (fun '(sp, gb) =>
  hbind (hput (fun s => w_gb s (Some gb))) (fun _ =>
  hbind (hput (fun s => if sort then w_po s sp else s)) (fun _ =>
  if save then hbind (fun s => run (copies (po s)) s) (fun d => hput (fun s => w_lpo s (lpo s ++ [d])))
  else hput (fun s => s))))).

(** [n] epochs from number [i]. *)
Fixpoint h_epochs (sort save : bool) (evolve : nat -> prog unit) (n i : nat) : HM unit :=
  match n with
  | O => hput (fun s => s)
  | S m => hbind (h_epoch sort save evolve i) (fun _ => h_epochs sort save evolve m (S i))
  end.

(** Initialization (optimizer.py:145-147): any code that sets up a population; then the loop. *)
Definition h_solve (sort save : bool) (init before : prog unit) (evolve : nat -> prog unit) (epochs : nat) : HM loc :=
  hbind (run init) (fun _ =>
  hbind (h_after_init sort) (fun _ =>
  hbind (run before) (fun _ =>
  hbind (h_epochs sort save evolve epochs 1) (fun _ =>
  hread (fun s => match gbr s with Some g => Ok g | None => Err AttributeError end))))).
End Heap.
Arguments prog A X Y : clear implicits.
Arguments PRet {A X Y}. Arguments PFail {A X Y}. Arguments PGet {A X Y}. Arguments PNew {A X Y}. Arguments PSol {A X Y}. Arguments PTgt {A X Y}. Arguments PAtt {A X Y}. Arguments PElem {A X Y}. Arguments PPop {A X Y}. Arguments PBest {A X Y}. Arguments PX {A X Y}. Arguments PTick {A X Y}.

(** ** OriginalHBO (human_based/HBO.py) *)
Section HBO.
Variable E : env.
Variable P : problem.
(** Entries [target, index] of self.heap. *)
Notation X := (list (target * nat)).
Notation prog := (prog unit X).
Notation ret := PRet.
Notation "x <- m ;; f" := (pbind m (fun x => f)) (at level 61, m at next level, right associativity).
Notation "' p <- m ;; f" := (pbind m (fun x => match x with p => f end)) (at level 61, p pattern, m at next level, right associativity).
Notation "m ;;; f" := (pbind m (fun _ => f)) (at level 61, right associativity).

(** Python indexing with an index that may be negative. *)
Definition py_idx {T} (l : list T) (z : Z) : res nat :=
  let z := if (z <? 0)%Z then (z + Z.of_nat (List.length l))%Z else z in
  if (z <? 0)%Z then Err IndexError else if (Z.to_nat z <? List.length l)%nat then Ok (Z.to_nat z) else Err IndexError.
Definition swap {T} (l : list T) (i j : nat) : res (list T) :=
  let* x := getitem l i in let* y := getitem l j in Ok (upd (upd l i y) j x).

(** heapifying__ (HBO.py:89-103): [ts] are the targets of the population.  The comparison reads the population, not
    the heap. *)
Fixpoint sift_up (fuel : nat) (deg : Z) (ts : list target) (heap : X) (t : Z) : res X :=
  match fuel with
  | O => Ok heap
  | S f =>
    if (0 <? t)%Z then
      let parent := ((t + 1) / deg - 1)%Z in
      let* i := py_idx ts parent in
      let* j := py_idx ts t in
      let* a := getitem ts i in
      let* b := getitem ts j in
      if compare_target a b (p_mm P) then Ok heap
      else let* i := py_idx heap t in
           let* j := py_idx heap parent in
           let* heap := swap heap i j in
           sift_up f deg ts heap parent
    else Ok heap
  end.
Definition heapify (deg : Z) (ts : list target) : res X :=
  fold_left (fun r c => let* heap := r in
                        let* t := getitem ts c in
                        sift_up (S c) deg ts (heap ++ [(t, c)]) (Z.of_nat c)) (seq 0 (List.length ts)) (Ok []).

(** The target objects of the population. *)
Definition pop_targets (s : hst unit X) : res (list target) :=
  map_res (fun l => let* (x, t, b) := o_agt (hp s) l in
                    match t with None => Err AttributeError | Some t => o_tgt (hp s) t end) (po s).

(** before_main_loop (HBO.py:105-107); the friend limits are a function of pop_size and degree, see [limits] below. *)
Definition hbo_before (deg : Z) : prog unit :=
  heap <- read (fun s => let* ts := pop_targets s in heapify deg ts) ;;
  PX heap (ret tt).

(** The while loop at the end of evolve (HBO.py:151-159). *)
Fixpoint sift (fuel : nat) (deg : Z) (heap : X) (t : nat) : res X :=
  match fuel with
  | O => Ok heap
  | S f =>
    if 1 <? t then
      let parent := Z.to_nat ((Z.of_nat t + 1) / deg) in
      let* a := getitem heap parent in
      let* b := getitem heap t in
      if compare_target (fst a) (fst b) (p_mm P) then Ok heap
      else let* heap := swap heap t parent in sift f deg heap parent
    else Ok heap
  end.

(** A fresh agent evaluated at [x]: generate_agent (optimizer.py:327-336). *)
Definition new_agent (x : vec) : prog loc :=
  a <- new (OArr x) ;; t <- new (OTgt (prob_target P x)) ;; new (OAgt a (Some t) tt).
Definition draw : prog f64 := PTick (fun k => ret (e_u E k)).
Fixpoint draws_n (n : nat) : prog vec := match n with O => ret [] | S m => u <- draw ;; r <- draws_n m ;; ret (u :: r) end.

(** One component of the in-place position update (HBO.py:135-144). *)
Definition hbo_component (gama p1 p2 : f64) (rr rn : vec) (cur par fri : loc) (friend_better : bool) (j : nat) : prog unit :=
  let r := nth j rr fnan in
  let k := fmul (nth j rn fnan) gama in
  '(x, y, z) <- read (fun s =>
     let* x := o_arr (hp s) cur in let* y := o_arr (hp s) par in let* z := o_arr (hp s) fri in
     Ok (nth j x fnan, nth j y fnan, nth j z fnan)) ;;
  if flt r p1 then ret tt
  else if flt r p2 then PElem cur j (fadd y (fmul k (fabs (fsub y x)))) (ret tt)
  else if friend_better then PElem cur j (fadd z (fmul k (fabs (fsub z x)))) (ret tt)
  else PElem cur j (fadd x (fmul k (fabs (fsub z x)))) (ret tt).
Fixpoint hbo_components (js : list nat) gama p1 p2 rr rn cur par fri fb : prog unit :=
  match js with [] => ret tt | j :: r => hbo_component gama p1 p2 rr rn cur par fri fb j ;;; hbo_components r gama p1 p2 rr rn cur par fri fb end.

(** The body of the loop over c (HBO.py:119-159).  [limits]: row c of the friend limits. *)
Definition hbo_step (deg : Z) (limits : nat -> nat * nat) (gama p1 p2 : f64) (c : nat) : prog unit :=
  '(hc, hpar) <- read (fun s =>
     let* hc := getitem (hx s) c in
     let* i := py_idx (hx s) ((Z.of_nat c + 1) / deg - 1) in
     let* q := getitem (hx s) i in Ok (hc, q)) ;;
  old <- read (fun s => getitem (po s) (snd hc)) ;;
  cur <- copy old ;;
  par <- read (fun s => getitem (po s) (snd hpar)) ;;
  friend <- (if fst (limits c) <? snd (limits c) + 1 then ret (fst (limits c))
             else match filter (fun i => negb (i =? c)) (seq (fst (limits c)) (snd (limits c) - fst (limits c))) with
                  | [] => PFail ValueError
                  | l => PTick (fun k => ret (nth (e_i E k mod List.length l) l 0))
                  end) ;;
  hf <- read (fun s => getitem (hx s) friend) ;;
  fri <- read (fun s => getitem (po s) (snd hf)) ;;
  rr <- draws_n (n_dims P) ;;
  rn <- draws_n (n_dims P) ;;
  let rn := map (fun u => fsub (fmul (fZ 2) u) (fZ 1)) rn in
  '(ca, pa, fa) <- read (fun s =>
     let* (a, _, _) := o_agt (hp s) cur in let* (b, _, _) := o_agt (hp s) par in let* (c, _, _) := o_agt (hp s) fri in Ok (a, b, c)) ;;
  hbo_components (seq 0 (n_dims P)) gama p1 p2 rr rn ca pa fa (compare_target (fst hf) (fst hc) (p_mm P)) ;;;
  x <- read (fun s => o_arr (hp s) ca) ;;
  PTick (fun k =>
  let pos := p_correct P k (map (fun i => fclip (vget x i) (vget (p_lb P) i) (vget (p_ub P) i)) (seq 0 (n_dims P))) in
  na <- new_agent pos ;;
  let t := prob_target P pos in
  (if compare_target t (fst hc) (p_mm P)
   then PGet (fun s => PPop (upd (po s) (snd hc) na) (PX (upd (hx s) c (target_copy t, snd hc)) (ret tt)))
   else ret tt) ;;;
  heap <- read (fun s => sift c deg (hx s) c) ;;
  PX heap (ret tt)).
Fixpoint hbo_loop (cs : list nat) deg limits gama p1 p2 : prog unit :=
  match cs with [] => ret tt | c :: r => hbo_step deg limits gama p1 p2 c ;;; hbo_loop r deg limits gama p1 p2 end.

(** evolve (HBO.py:109-159).  [gama]: the value of lines 116-117. *)
Definition hbo_evolve (deg : Z) (limits : nat -> nat * nat) (gama : nat -> f64) (n epochs ep : nat) : prog unit :=
  let p1 := fsub (fZ 1) (fdiv (fZ (Z.of_nat ep)) (fZ (Z.of_nat epochs))) in
  let p2 := fadd p1 (fdiv (fsub (fZ 1) p1) (fZ 2)) in
  hbo_loop (rev (seq 1 (n - 1))) deg limits (gama ep) p1 p2.

(** generate_population (optimizer.py:338-363), single mode. *)
Fixpoint hbo_init (n : nat) : prog (list loc) :=
  match n with
  | O => ret []
  | S m => PTick (fun k => a <- new_agent (p_gen P k) ;; r <- hbo_init m ;; ret (a :: r))
  end.
Definition hbo_solve (deg : Z) limits gama (save : bool) (n epochs : nat) :=
  h_solve (e_argsort E) (p_mm P) false save (p <- hbo_init n ;; PPop p (ret tt)) (hbo_before deg) (hbo_evolve deg limits gama n epochs) epochs.
End HBO.

(** ** OriginalWOA (swarm_based/WOA.py): an algorithm that changes its agents in place *)
Section WOA.
Variable E : env.
Variable P : problem.
(** np.exp, np.cos and np.pi. *)
Variables fexp fcos : f64 -> f64.
Variable fpi : f64.
Notation prog := (prog unit unit).
Notation ret := PRet.
Notation "x <- m ;; f" := (pbind m (fun x => f)) (at level 61, m at next level, right associativity).
Notation "m ;;; f" := (pbind m (fun _ => f)) (at level 61, right associativity).

Fixpoint woa_draws (n : nat) : prog vec :=
  match n with O => ret [] | S m => PTick (fun k => r <- woa_draws m ;; ret (e_u E k :: r)) end.
(** [self.pop[i].solution[j]] and [self.g_best.solution[j]]. *)
Definition woa_pos (i j : nat) : prog f64 :=
  read (fun s => let* l := getitem (po s) i in let* (a, _, _) := o_agt (hp s) l in let* x := o_arr (hp s) a in getitem x j).
Definition woa_best (j : nat) : prog f64 :=
  read (fun s => match gbr s with
                 | None => Err AttributeError
                 | Some g => let* (a, _, _) := o_agt (hp s) g in let* x := o_arr (hp s) a in getitem x j
                 end).
(** One component of pos_new (WOA.py:80-91). *)
Definition woa_component (n idx : nat) (A C ll pp : f64) (j : nat) : prog f64 :=
  if flt pp (fdiv (fZ 1) (fZ 2)) then
    if fle (fZ 1) (fabs A) then
      let l := filter (fun i => negb (i =? idx)) (seq 0 n) in
      PTick (fun k =>
      let r := nth (e_i E k mod List.length l) l 0 in
      xr <- woa_pos r j ;; xi <- woa_pos idx j ;;
      ret (fsub xr (fmul A (fabs (fsub (fmul C xr) xi)))))
    else
      g <- woa_best j ;; xi <- woa_pos idx j ;;
      ret (fsub g (fmul A (fabs (fsub (fmul C g) xi))))
  else
    g <- woa_best j ;; xi <- woa_pos idx j ;;
    ret (fadd (fmul (fmul (fabs (fsub g xi)) (fexp (fmul (fZ 1) ll))) (fcos (fmul (fmul ll (fZ 2)) fpi))) g).
Fixpoint woa_components (n idx : nat) (A C : vec) (ll : f64) (pp : vec) (js : list nat) : prog vec :=
  match js with
  | [] => ret []
  | j :: r => v <- woa_component n idx (nth j A fnan) (nth j C fnan) ll (nth j pp fnan) j ;;
              vs <- woa_components n idx A C ll pp r ;; ret (v :: vs)
  end.
(** The body of the loop (WOA.py:71-97), single mode: the agent's own fields are set. *)
Definition woa_step (n : nat) (a a2 : f64) (idx : nat) : prog unit :=
  r1 <- woa_draws (n_dims P) ;;
  r2 <- woa_draws (n_dims P) ;;
  let A := map (fun r => fsub (fmul (fmul (fZ 2) a) r) a) r1 in
  let C := map (fun r => fmul (fZ 2) r) r2 in
  PTick (fun k =>
  let ll := fadd (fmul (fsub a2 (fZ 1)) (e_u E k)) (fZ 1) in
  pp <- woa_draws (n_dims P) ;;
  x <- woa_components n idx A C ll pp (seq 0 (n_dims P)) ;;
  PTick (fun k =>
  let pos := p_correct P k (map (fun i => fclip (vget x i) (vget (p_lb P) i) (vget (p_ub P) i)) (seq 0 (n_dims P))) in
  arr <- new (OArr pos) ;;
  (new (OAgt arr None tt) ;;;
  t <- new (OTgt (prob_target P pos)) ;;
  l <- read (fun s => getitem (po s) idx) ;;
  PSol l arr (PTgt l t (ret tt))))).
Fixpoint woa_loop (n : nat) (a a2 : f64) (idxs : list nat) : prog unit :=
  match idxs with [] => ret tt | i :: r => woa_step n a a2 i ;;; woa_loop n a a2 r end.
(** evolve (WOA.py:61-97), single mode. *)
Definition woa_evolve (n epochs ep : nat) : prog unit :=
  let q := fdiv (fZ (Z.of_nat ep)) (fZ (Z.of_nat epochs)) in
  woa_loop n (fsub (fZ 2) (fdiv (fZ (Z.of_nat (2 * ep))) (fZ (Z.of_nat epochs)))) (fsub (fZ (-1)) q) (seq 0 n).
(** generate_population (optimizer.py:338-363), single mode. *)
Fixpoint woa_init (n : nat) : prog (list nat) :=
  match n with
  | O => ret []
  | S m => PTick (fun k => arr <- new (OArr (p_gen P k)) ;; t <- new (OTgt (prob_target P (p_gen P k))) ;;
                           l <- new (OAgt arr (Some t) tt) ;; r <- woa_init m ;; ret (l :: r))
  end.
End WOA.
