(** The genetic algorithms of evolutionary_based/GA.py on the object heap of MHeap.

    Objects are needed here: Agent.copy shares the position array, the selection methods return live position
    arrays, and several mutation operators write into the array they are given.  Single mode. *)
From Verif Require Import Prelude Fl MCore MHelp MHeap.

(** The constructor arguments selection, crossover and mutation (GA.py:96-120, 408-411, 707-710). *)
Inductive selection := Tournament | RandomPair | Roulette.
Inductive crossover := Arithmetic | OnePoint | MultiPoints | Uniform.
(** [MFlip] and [MSwap] are the two operators on the whole vector (mutation_multipoints), the others act on single
    points. *)
Inductive mutation := MFlip | MSwap | Flip | Swap | Scramble | Inversion.

Section GA.
Variable E : env.
Variable P : problem.
(** Bound on the number of redraws of the roulette loop (GA.py:140-141). *)
Variable fuel : nat.
Notation prog := (prog unit unit).
Notation ret := PRet.
Notation "x <- m ;; f" := (pbind m (fun x => f)) (at level 61, m at next level, right associativity).
Notation "' p <- m ;; f" := (pbind m (fun x => match x with p => f end)) (at level 61, p pattern, m at next level, right associativity).
Notation "m ;;; f" := (pbind m (fun _ => f)) (at level 61, right associativity).

(** [generator.random()], [generator.integers(lo, hi)], vectors of them, and [generator.choice(l, n, replace=False)]. *)
Definition h_rand : prog f64 := PTick (fun k => ret (e_u E k)).
Definition h_int (lo hi : nat) : prog nat :=
  if hi <=? lo then PFail ValueError else PTick (fun k => ret (lo + (e_i E k) mod (hi - lo))).
Fixpoint h_many {T} (n : nat) (m : prog T) : prog (list T) :=
  match n with O => ret [] | S j => x <- m ;; r <- h_many j m ;; ret (x :: r) end.
Fixpoint h_choose {T} (l : list T) (n : nat) : prog (list T) :=
  match n with
  | O => ret []
  | S m => match l with
           | [] => PFail ValueError
           | d :: _ => PTick (fun k => let i := (e_i E k) mod List.length l in
                                       r <- h_choose (firstn i l ++ skipn (S i) l) m ;; ret (nth i l d :: r))
           end
  end.
(** Unpacking two values. *)
Definition two {T} (l : list T) : prog (T * T) := match l with [a; b] => ret (a, b) | _ => PFail ValueError end.

(** Fitness values of agents. *)
Definition h_fits (ls : list loc) : prog (list f64) := read (fun s => map_res (o_fit (hp s)) ls).
(** [agent.solution]: the array object. *)
Definition h_arr (ls : list loc) (i : nat) : prog loc :=
  read (fun s => let* l := getitem ls i in let* (x, _, _) := o_agt (hp s) l in Ok x).
Definition h_val (a : loc) : prog vec := read (fun s => o_arr (hp s) a).

(** Optimizer.get_index_roulette_wheel_selection (optimizer.py:674-694). *)
Definition h_roulette (l : list f64) : prog nat :=
  match l with
  | [] => PFail ValueError
  | _ => match roulette_probs (p_mm P) l with
         | None => h_int 0 (List.length l)
         | Some p =>
           if existsb fisnan p || existsb (fun x => flt x (fZ 0)) p || negb (fle (fabs (fsub (fsuml p) (fZ 1))) c_tol)
           then PFail ValueError
           else u <- h_rand ;;
                let cdf := fcumsum (fZ 0) p in
                let tot := last cdf fnan in
                ret (search_right u (map (fun c => fdiv c tot) cdf))
         end
  end.
(** [while id_c2 == id_c1: id_c2 = ...] (GA.py:140-141). *)
Fixpoint h_other (k : nat) (l : list f64) (i j : nat) : prog nat :=
  if j =? i then match k with O => PFail Endless | S k => j <- h_roulette l ;; h_other k l i j end else ret j.
(** Optimizer.get_index_kway_tournament_selection (optimizer.py:696-717). *)
Definition h_tournament (pop : list loc) (k : kway) (output : nat) (reverse : bool) : prog (list nat) :=
  match kway_size k (List.length pop) with
  | Err e => PFail e
  | Ok n =>
    ids <- h_choose (seq 0 (List.length pop)) n ;;
    ps <- read (fun s => map_res (fun i => let* l := getitem pop i in let* f := o_fit (hp s) l in Ok (i, f)) ids) ;;
    let sorted := match p_mm P with Min => ksort snd false ps | _ => ksort snd true ps end in
    ret (map fst (if reverse then (if output =? 0 then sorted else skipn (List.length sorted - output) sorted)
                  else firstn output sorted))
  end.

(** selection_process__ (GA.py:122-145): the live arrays of two agents. *)
Definition ga_select (sel : selection) (k : kway) (n : nat) (fits : list f64) : prog (loc * loc) :=
  '(i, j) <- match sel with
             | Roulette => i <- h_roulette fits ;; j <- h_roulette fits ;; j <- h_other fuel fits i j ;; ret (i, j)
             | RandomPair => l <- h_choose (seq 0 n) 2 ;; two l
             | Tournament => PGet (fun s => l <- h_tournament (po s) k 2 false ;; two l)
             end ;;
  PGet (fun s => a <- h_arr (po s) i ;; b <- h_arr (po s) j ;; ret (a, b)).
(** selection_process_00__ (GA.py:147-171). *)
Definition ga_select_00 (sel : selection) (k : kway) (pop : list loc) : prog (loc * loc) :=
  '(i, j) <- match sel with
             | Roulette => fits <- h_fits pop ;; i <- h_roulette fits ;; j <- h_roulette fits ;; j <- h_other fuel fits i j ;; ret (i, j)
             | RandomPair => l <- h_choose (seq 0 (List.length pop)) 2 ;; two l
             | Tournament => l <- h_tournament pop k 2 false ;; two l
             end ;;
  a <- h_arr pop i ;; b <- h_arr pop j ;; ret (a, b).
(** selection_process_01__ (GA.py:173-195). *)
Definition ga_select_01 (sel : selection) (k : kway) (dads moms : list loc) : prog (loc * loc) :=
  '(i, j) <- match sel with
             | Roulette => fd <- h_fits dads ;; fm <- h_fits moms ;; i <- h_roulette fd ;; j <- h_roulette fm ;; ret (i, j)
             | RandomPair => i <- h_int 0 (List.length dads) ;; j <- h_int 0 (List.length moms) ;; ret (i, j)
             | Tournament => i <- (l <- h_tournament dads k 1 false ;; match l with i :: _ => ret i | [] => PFail IndexError end) ;;
                             j <- (l <- h_tournament moms k 1 false ;; match l with j :: _ => ret j | [] => PFail IndexError end) ;;
                             ret (i, j)
             end ;;
  a <- h_arr dads i ;; b <- h_arr moms j ;; ret (a, b).

(** crossover_process__ (GA.py:197-230): two new arrays.  For the draw of cut points [n_dims-1] below 1 gives an empty
    range. *)
Definition between (lo hi : nat) (x y : vec) : vec :=
  map (fun j => if (lo <=? j) && (j <? hi) then nth j y fnan else nth j x fnan) (seq 0 (List.length x)).
Definition ga_cross (cro : crossover) (dad mom : loc) : prog (loc * loc) :=
  x <- h_val dad ;; y <- h_val mom ;;
  '(w1, w2) <- match cro with
     | Arithmetic => r <- h_rand ;; ret (vmap2 P (cross1 r) x y, vmap2 P (cross1 r) y x)
     | OnePoint => c <- h_int 1 (n_dims P - 1) ;; ret (between c (n_dims P) x y, between c (n_dims P) y x)
     | MultiPoints => l <- h_choose (seq 1 (n_dims P - 2)) 2 ;; '(a, b) <- two l ;;
                      ret (between (Nat.min a b) (Nat.max a b) x y, between (Nat.min a b) (Nat.max a b) y x)
     | Uniform => fl <- h_many (n_dims P) (h_int 0 2) ;;
                  let mix u v := map (fun j => let f := fZ (Z.of_nat (nth j fl 0)) in
                                               fadd (fmul (nth j u fnan) f) (fmul (nth j v fnan) (fsub (fZ 1) f))) (seq 0 (n_dims P)) in
                  ret (mix x y, mix y x)
     end ;;
  a <- new (OArr w1) ;; b <- new (OArr w2) ;; ret (a, b).

(** In-place assignment of the entries of a list of positions. *)
Fixpoint h_put (a : loc) (js : list nat) (vs : list f64) : prog unit :=
  match js, vs with j :: js, v :: vs => PElem a j v (h_put a js vs) | _, _ => ret tt end.
Definition h_swap (a : loc) (i j : nat) : prog loc :=
  x <- h_val a ;; h_put a [i; j] [nth j x fnan; nth i x fnan] ;;; ret a.
(** mutation_process__ (GA.py:232-281, 425-452, 714-738): the array that results; only [MFlip] makes a new one.  The
    loop of the first branch returns in its first pass (index 0). *)
Definition ga_mutate (mut : mutation) (pm : f64) (a : loc) : prog loc :=
  match mut with
  | MSwap => match seq 1 (n_dims P - 1) with
             | [] => PFail ValueError
             | l => i <- h_int 0 (List.length l) ;; h_swap a 0 (nth i l 0)
             end
  | MFlip => PTick (fun k =>
             us <- h_many (n_dims P) h_rand ;;
             x <- h_val a ;;
             new (OArr (map (fun j => if flt (nth j us fnan) pm then nth j (p_gen P k) fnan else nth j x fnan) (seq 0 (n_dims P)))))
  | Swap => l <- h_choose (seq 0 (n_dims P)) 2 ;; '(i, j) <- two l ;; h_swap a i j
  | Inversion => l <- h_choose (seq 0 (n_dims P)) 2 ;; '(c1, c2) <- two l ;;
                 x <- h_val a ;; h_put a (seq c1 (c2 - c1)) (rev (slice c1 c2 x)) ;;; ret a
  | Scramble => l <- h_choose (seq 0 (n_dims P)) 2 ;; '(c1, c2) <- two l ;;
                x <- h_val a ;;
                y <- h_choose (slice c1 c2 x) (List.length (slice c1 c2 x)) ;;
                h_put a (seq c1 (c2 - c1)) y ;;; ret a
  | Flip => i <- h_int 0 (n_dims P) ;; u <- h_rand ;;
            let lb := nth i (p_lb P) fnan in let ub := nth i (p_ub P) fnan in
            h_put a [i] [fadd lb (fmul u (fsub ub lb))] ;;; ret a
  end.

(** correct_solution, generate_empty_agent and get_target (GA.py:317-332): a new array and a new evaluated agent. *)
Definition ga_child (a : loc) : prog loc :=
  x <- h_val a ;;
  PTick (fun k =>
  let pos := p_correct P k (map (fun i => fclip (vget x i) (vget (p_lb P) i) (vget (p_ub P) i)) (seq 0 (n_dims P))) in
  arr <- new (OArr pos) ;; t <- new (OTgt (prob_target P pos)) ;; new (OAgt arr (Some t) tt)).

(** One pass of the loop of evolve (GA.py:310-332). *)
Definition ga_pair (sel : selection) (k : kway) (cro : crossover) (mut : mutation) (pc pm : f64) (n : nat) (fits : list f64)
  : prog (list loc) :=
  '(a, b) <- ga_select sel k n fits ;;
  u <- h_rand ;;
  '(a, b) <- (if flt u pc then ga_cross cro a b else ret (a, b)) ;;
  a <- ga_mutate mut pm a ;;
  b <- ga_mutate mut pm b ;;
  c <- ga_child a ;;
  d <- ga_child b ;;
  ret [c; d].
Fixpoint ga_pairs (m : nat) sel k cro mut pc pm n fits : prog (list loc) :=
  match m with
  | O => ret []
  | S m => l <- ga_pair sel k cro mut pc pm n fits ;; r <- ga_pairs m sel k cro mut pc pm n fits ;; ret (l ++ r)
  end.
(** survivor_process__ (GA.py:283-299). *)
Definition k01 : kway := KFloat (fdiv (fZ 1) (fZ 10)).
Fixpoint ga_survive (pop children : list loc) (idxs : list nat) : prog (list loc) :=
  match idxs with
  | [] => ret []
  | idx :: r =>
    l <- h_tournament pop k01 1 true ;;
    i <- match l with i :: _ => ret i | [] => PFail IndexError end ;;
    c <- read (fun _ => getitem children idx) ;;
    o <- read (fun _ => getitem pop i) ;;
    z <- better_ref (p_mm P) c o false ;;
    zs <- ga_survive pop children r ;; ret (z :: zs)
  end.
(** evolve (GA.py:301-337), used by BaseGA, SingleGA and MultiGA. *)
Definition ga_evolve sel k cro mut pc pm (n : nat) : prog unit :=
  PGet (fun s =>
  fits <- h_fits (po s) ;;
  children <- ga_pairs (n / 2) sel k cro mut pc pm n fits ;;
  PGet (fun s =>
  p <- ga_survive (po s) children (seq 0 n) ;;
  PPop p (ret tt))).
(** BaseGA, SingleGA, MultiGA: sort_flag False (GA.py:104, 413). *)
Definition ga_solve (save : bool) sel k cro mut pc pm (n epochs : nat) :=
  h_solve (e_argsort E) (p_mm P) false save (p <- woa_init P n ;; PPop p (ret tt)) (ret tt)
    (fun _ => ga_evolve sel k cro mut pc pm n) epochs.

(** One child of the elitist variants (GA.py:555-570, 573-587); [parents] is the selection. *)
Definition ga_elite_child (parents : prog (loc * loc)) (cro : crossover) (mut : mutation) (pc pm : f64) : prog loc :=
  '(a, b) <- parents ;;
  u <- h_rand ;;
  '(a, b) <- (if flt u pc then ga_cross cro a b else ret (a, b)) ;;
  v <- h_rand ;;
  c <- ga_mutate mut pm (if fle v (fdiv (fZ 1) (fZ 2)) then a else b) ;;
  ga_child c.
(** evolve of EliteSingleGA and EliteMultiGA (GA.py:543-587, 771-815); [nb] and [nw] are n_elite_best and
    n_elite_worst. *)
Definition ga_elite_evolve (sel : selection) (k : kway) cro mut pc pm (second : bool) (nb nw n : nat) : prog unit :=
  PGet (fun s =>
  let pop := po s in
  let parents := if second then ga_select_01 sel k (slice nb (nb + nw) pop) (skipn (nb + nw) pop)
                 else ga_select_00 sel k (skipn nb pop) in
  cs <- h_many (n - nb) (ga_elite_child parents cro mut pc pm) ;;
  PPop (firstn nb pop ++ cs) (ret tt)).
(** sort_flag True (GA.py:541, 769). *)
Definition ga_elite_solve (save : bool) sel k cro mut pc pm second nb nw (n epochs : nat) :=
  h_solve (e_argsort E) (p_mm P) true save (p <- woa_init P n ;; PPop p (ret tt)) (ret tt)
    (fun _ => ga_elite_evolve sel k cro mut pc pm second nb nw n) epochs.
End GA.
