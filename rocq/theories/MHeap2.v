(** Classes that write into position arrays shared with other agents, as programs on the heap of MHeap. *)
From Verif Require Import Prelude Fl MCore MHeap.
From Coq Require Import String.

(** ** OriginalBeesA and ProbBeesA (swarm_based/BeesA.py) *)
Section Bees.
Variable E : env.
Variable P : problem.
(** The attribute dyn_radius. *)
Notation prog := (prog unit f64).
Notation ret := PRet.
Notation "x <- m ;; f" := (pbind m (fun x => f)) (at level 61, m at next level, right associativity).
Notation "' p <- m ;; f" := (pbind m (fun x => match x with p => f end)) (at level 61, p pattern, m at next level, right associativity).
Notation "m ;;; f" := (pbind m (fun _ => f)) (at level 61, right associativity).

(** correct_solution (optimizer.py:316-325): a new array. *)
Definition corrected (x : vec) : prog vec :=
  PTick (fun k => ret (p_correct P k (map (fun i => fclip (vget x i) (vget (p_lb P) i) (vget (p_ub P) i)) (seq 0 (n_dims P))))).
(** generate_agent (optimizer.py:327-336) at a given position, or generate_empty_agent with the target set afterwards. *)
Definition made (x : vec) : prog loc :=
  a <- new (OArr x) ;; t <- new (OTgt (prob_target P x)) ;; new (OAgt a (Some t) tt).
Definition random_made : prog loc := PTick (fun k => made (p_gen P k)).
Fixpoint randoms (n : nat) : prog (list loc) :=
  match n with O => ret [] | S m => a <- random_made ;; r <- randoms m ;; ret (a :: r) end.
(** The position array of agent idx of the population. *)
Definition array_of (idx : nat) : prog loc :=
  read (fun s => let* l := getitem (po s) idx in let* (a, _, _) := o_agt (hp s) l in Ok a).
(** perform_dance__ (216-219, 330-333): the component is changed in the array of the agent itself. *)
Definition dance (r : f64) (arr : loc) : prog vec :=
  PTick (fun k =>
  let j := e_i E k mod n_dims P in
  x <- read (fun s => o_arr (hp s) arr) ;;
  PTick (fun k =>
  let u := fadd (fZ (-1)) (fmul (fsub (fZ 1) (fZ (-1))) (e_u E k)) in
  PElem arr j (fadd (nth j x fnan) (fmul r u)) (
  x <- read (fun s => o_arr (hp s) arr) ;;
  corrected x))).
(** Lines 232-239, 245-252 and 363-370, single mode. *)
Fixpoint brood (m : nat) (r : f64) (idx : nat) : prog (list loc) :=
  match m with
  | O => ret []
  | S m => arr <- array_of idx ;; x <- dance r arr ;; a <- made x ;; l <- brood m r idx ;; ret (a :: l)
  end.
(** get_best_agent (optimizer.py:477-488). *)
Definition best_of (l : list loc) : prog loc :=
  b <- read (fun s => let* sp := sorted_refs (e_argsort E) (p_mm P) (hp s) l in getitem sp 0) ;; copy b.
(** compare_target(x.target, y.target, minmax). *)
Definition better_than (x y : loc) : prog bool :=
  read (fun s =>
    let* (_, t, _) := o_agt (hp s) x in
    let* (_, u, _) := o_agt (hp s) y in
    match t, u with
    | Some t, Some u => let* t := o_tgt (hp s) t in let* u := o_tgt (hp s) u in Ok (compare_target t u (p_mm P))
    | _, _ => Err AttributeError
    end).
(** Lines 240-242, 253-255: the best of the brood, if it beats the agent. *)
Definition site (m : nat) (r : f64) (idx : nat) (old : loc) : prog loc :=
  l <- brood m r idx ;;
  b <- best_of l ;;
  c <- better_than b old ;;
  ret (if c : bool then b else old).
(** OriginalBeesA.evolve (221-261), single mode. *)
Fixpoint bees_loop (ne ns me ms : nat) (r : f64) (idxs : list nat) (pop_new : list loc) : prog (list loc) :=
  match idxs with
  | [] => ret pop_new
  | idx :: rest =>
    old <- read (fun s => getitem (po s) idx) ;;
    a <- (if idx <? ne then site me r idx old else if idx <? ns then site ms r idx old else random_made) ;;
    bees_loop ne ns me ms r rest (upd pop_new idx a)
  end.
Definition bees_evolve (ne ns me ms : nat) (radius reduction : f64) (n ep : nat) : prog unit :=
  '(r, p) <- read (fun s => Ok (hx s, po s)) ;;
  q <- bees_loop ne ns me ms r (seq 0 n) p ;;
  PPop q (PX (fmul reduction radius) (ret tt)).
Definition bees_solve (ne ns me ms : nat) (radius reduction : f64) (save : bool) (n epochs : nat) :=
  h_solve (e_argsort E) (p_mm P) true save (p <- randoms n ;; PPop p (ret tt)) (ret tt) (bees_evolve ne ns me ms radius reduction n) epochs.

(** ProbBeesA.evolve (335-377), single mode.  Lines 348-361: the rejection probability and the number of recruited bees. *)
Definition reject_prob (d : f64) : f64 :=
  if flt d (fdiv (fZ 9) (fZ 10)) then fdiv (fZ 6) (fZ 10)
  else if flt d (fdiv (fZ 95) (fZ 100)) then fdiv (fZ 2) (fZ 10)
  else if flt d (fdiv (fZ 115) (fZ 100)) then fdiv (fZ 5) (fZ 100) else fZ 0.
(** int() of NaN or an infinity raises (358). *)
Definition bee_count (d : f64) (recruited n : nat) : res nat :=
  let c := fmul d (fZ (Z.of_nat recruited)) in
  if fisnan c then Err ValueError
  else if flt (fabs c) finf then Ok (Nat.min n (Nat.max 2 (Z.to_nat (ftrunc (fceil c)))))
  else Err OverflowError.
Fixpoint prob_loop (recruited n : nat) (r : f64) (ds : list f64) (idxs : list nat) : prog unit :=
  match idxs with
  | [] => ret tt
  | idx :: rest =>
    let d := nth idx ds fnan in
    PTick (fun k =>
    old <- read (fun s => getitem (po s) idx) ;;
    a <- (if fle (reject_prob d) (e_u E k) then m <- read (fun _ => bee_count d recruited n) ;; site m r idx old else random_made) ;;
    PGet (fun s => PPop (upd (po s) idx a) (prob_loop recruited n r ds rest)))
  end.
Definition prob_evolve (recruited : nat) (radius reduction : f64) (n ep : nat) : prog unit :=
  fits <- read (fun s => map_res (o_fit (hp s)) (po s)) ;;
  let inv := map (fun f => fdiv (fZ 1) (fadd f (fdiv (fZ 1) (fZ 1000000000)))) fits in
  let ds := map (fun f => fdiv f (fmean inv)) inv in
  r <- read (fun s => Ok (hx s)) ;;
  prob_loop recruited n r ds (seq 0 n) ;;;
  PX (fmul reduction radius) (ret tt).
Definition prob_solve (recruited : nat) (radius reduction : f64) (save : bool) (n epochs : nat) :=
  h_solve (e_argsort E) (p_mm P) true save (p <- randoms n ;; PPop p (ret tt)) (ret tt) (prob_evolve recruited radius reduction n) epochs.
End Bees.
