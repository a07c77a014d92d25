(** Helper methods of Optimizer that algorithms call: index sampling, roulette wheel, tournament, opposition,
    crossover, improved_ms.  No proofs here. *)
From Verif Require Import Prelude Fl MCore.

Section Help.
Context {A X : Type}.
Variable E : env.
Variable P : problem.
Variable md : mode.

(** [generator.choice(l, n, replace=True)]. *)
Definition choice_replace {T} (l : list T) (n : nat) : M A X (list T) := repeat_M n (choice1 E l).
Definition choices {T} (replace : bool) (l : list T) (n : nat) : M A X (list T) :=
  if replace then choice_replace l n else choice_noreplace E l n.

(** Optimizer.sample_indexes_exclude_one (optimizer.py:646-656); the result as a list also for one sample.
    Simplification: [exclude_idx] is a natural number. *)
Definition sample_exclude_one (pop_size exclude_idx n_samples : nat) (replace : bool) : M A X (list nat) :=
  match pop_size with
  | O => raise ValueError
  | S m => l <- choices replace (seq 0 m) n_samples ;;
           ret (map (fun r => if exclude_idx <=? r then S r else r) l)
  end.
(** Optimizer.sample_indexes_exclude_list (optimizer.py:658-671); an excluded position beyond the mask raises.
    Simplification: the excluded positions are natural numbers. *)
Definition sample_exclude_list (pop_size : nat) (exclude : list nat) (n_samples : nat) (replace : bool)
  : M A X (list nat) :=
  if forallb (fun e => e <? pop_size) exclude then
    choices replace (filter (fun i => negb (existsb (Nat.eqb i) exclude)) (seq 0 pop_size)) n_samples
  else raise IndexError.

(** np.min of a non-empty list: NaN wins. *)
Definition fminl (l : list f64) : f64 :=
  fold_left (fun m x => if fisnan m then m else if fisnan x then x else if flt x m then x else m)
            (tl l) (hd fnan l).
(** np.sum / np.cumsum, left to right. *)
Definition fsuml (l : list f64) : f64 := fold_left fadd l (fZ 0).
Fixpoint fcumsum (acc : f64) (l : list f64) : list f64 :=
  match l with [] => [] | x :: r => let a := fadd acc x in a :: fcumsum a r end.
(** The tolerance numpy's Generator.choice allows for the sum of p: sqrt(2^-52). *)
Definition c_tol : f64 := fpow 1 (-26).
(** searchsorted(cdf, u, side="right") on an ascending array: the first position whose entry exceeds u. *)
Fixpoint search_right (u : f64) (l : list f64) : nat :=
  match l with [] => 0 | c :: r => if flt u c then 0 else S (search_right u r) end.
(** [generator.choice(range(len(p)), p=p)]. *)
Definition choice_p (p : list f64) : M A X nat :=
  if existsb fisnan p || existsb (fun x => flt x (fZ 0)) p || negb (fle (fabs (fsub (fsuml p) (fZ 1))) c_tol)
  then raise ValueError
  else u <- uniform E ;;
       let cdf := fcumsum (fZ 0) p in
       let tot := last cdf fnan in
       ret (search_right u (map (fun c => fdiv c tot) cdf)).
(** The selection probabilities; [None]: all fitness values equal, uniform choice. *)
Definition roulette_probs (mm : minmax) (l : list f64) : option (list f64) :=
  if feq (fsub (fmaxl l) (fminl l)) (fZ 0) then None
  else
    let l1 := if existsb (fun x => flt x (fZ 0)) l then map (fun x => fsub x (fminl l)) l else l in
    let l2 := match mm with Min => map (fun x => fsub (fmaxl l1) x) l1 | _ => l1 end in
    let tot := fsuml l2 in
    Some (map (fun x => fdiv x tot) l2).
(** Optimizer.get_index_roulette_wheel_selection (optimizer.py:674-694); np.ptp of [] raises ValueError. *)
Definition roulette (l : list f64) : M A X nat :=
  match l with
  | [] => raise ValueError
  | _ => match roulette_probs (p_mm P) l with
         | None => integers E 0 (List.length l)
         | Some p => choice_p p
         end
  end.

(** Stable sort by a float key, ascending or descending: Python's sorted. *)
Section Sorted.
Context {T : Type}.
Variable key : T -> f64.
Variable desc : bool.
Definition key_before (x y : T) : bool := if desc then flt (key x) (key y) else flt (key y) (key x).
Fixpoint kinsert (x : T) (l : list T) : list T :=
  match l with [] => [x] | y :: r => if key_before x y then y :: kinsert x r else x :: l end.
Definition ksort (l : list T) : list T := fold_right kinsert [] l.
End Sorted.

(** The k_way argument: a float strictly between 0 and 1 is a fraction of the population; otherwise it is the
    number drawn, which must be an integer. *)
Inductive kway := KFloat (x : f64) | KInt (n : nat).
Definition kway_size (k : kway) (n : nat) : res nat :=
  match k with
  | KInt n => Ok n
  | KFloat x => if flt (fZ 0) x && flt x (fZ 1) then Ok (Z.to_nat (ftrunc (fmul x (fZ (Z.of_nat n)))))
                else Err TypeError
  end.
(** Optimizer.get_index_kway_tournament_selection (optimizer.py:696-717).  [l[-0:]] is the whole list. *)
Definition kway_tournament (pop : list (agent A)) (k : kway) (output : nat) (reverse : bool) : M A X (list nat) :=
  n <- lift (kway_size k (List.length pop)) ;;
  ids <- choice_noreplace E (seq 0 (List.length pop)) n ;;
  ps <- lift (map_res (fun i => let* a := getitem pop i in let* f := fitness a in Ok (i, f)) ids) ;;
  let sorted := match p_mm P with Min => ksort snd false ps | _ => ksort snd true ps end in
  ret (map fst (if reverse then (if output =? 0 then sorted else skipn (List.length sorted - output) sorted)
                else firstn output sorted)).

(** Optimizer.generate_opposition_solution (optimizer.py:758-768). *)
Definition opposition_pos (u : f64) (x g : vec) : vec :=
  vtab P (fun i => fadd (fsub (fadd (vget (p_lb P) i) (vget (p_ub P) i)) (vget g i))
                        (fmul u (fsub (vget g i) (vget x i)))).
Definition generate_opposition_solution (a g : agent A) : M A X vec :=
  u <- uniform E ;;
  correct_solution P (opposition_pos u (sol a) (sol g)).

(** Optimizer.crossover_arithmetic (optimizer.py:789-801). *)
Definition cross1 (r d m : f64) : f64 := fadd (fmul r d) (fmul (fsub (fZ 1) r) m).
Definition crossover_arithmetic (dad mom : vec) : M A X (vec * vec) :=
  r <- uniform E ;;
  ret (vmap2 P (cross1 r) dad mom, vmap2 P (cross1 r) mom dad).

(** Optimizer.get_levy_flight_step (optimizer.py:719-756): one step of the given size.  The gamma function, powers
    and the sine come from [e_fun "levy_sigma"], [e_fun "power"]; the rest is as written. *)
(** Optimizer.EPSILON = 10E-10 (optimizer.py:43). *)
Definition epsilon : f64 := fpow 4835703278458517 (-82).
Definition levy_coef (beta u v : f64) : f64 :=
  fdiv (fmul u (e_fun E "levy_sigma" [beta])) (e_fun E "power" [fadd (fabs v) epsilon; fdiv (fZ 1) beta]).
Definition levy_step (beta mult : f64) (size : nat) (case : Z) : M A X vec :=
  u <- gauss_vec E size ;;
  v <- gauss_vec E size ;;
  let s := map (fun i => fmul mult (levy_coef beta (vget u i) (vget v i))) (seq 0 size) in
  if (case =? 0)%Z then r <- uniform E ;; ret (map (fun x => fmul x r) s)
  else if (case =? 1)%Z then r <- gauss E ;; ret (map (fun x => fmul x r) s)
  else ret s.

(** Optimizer.improved_ms (optimizer.py:810-842).  In the parallel modes update_target_for_population changes the
    agents of the list it is given, so the second greedy selection compares a list with itself; in single mode it
    does nothing, and again both arguments are the same list. *)
Definition mean_pos (l : list vec) : vec := vtab P (fun j => fmean (map (fun x => vget x j) l)).
Definition improved_ms (pop : list (agent A)) (g : agent A) : M A X (list (agent A)) :=
  let h := List.length pop / 2 in
  fs <- lift (map_res (fun a => let* f := fitness a in Ok (a, f)) pop) ;;
  let sorted := map fst (ksort snd false fs) in
  let s1 := firstn h sorted in
  let s2 := skipn h sorted in
  new1 <- for_acc h 0 [] (fun i acc =>
      a <- lift (getitem s1 i) ;;
      c <- lift (agent_copy a) ;;
      v <- gauss_vec E (n_dims P) ;;
      x <- correct_solution P (vmap2 P (fun y r => fmul y (fadd (fZ 1) r)) (sol a) v) ;;
      ret (acc ++ [with_sol c x])) ;;
  new1 <- update_target_for_population P md new1 ;;
  s1 <- lift (greedy_selection_population s1 new1 (p_mm P)) ;;
  let mean := mean_pos (map sol s1) in
  new2 <- for_acc h 0 [] (fun i acc =>
      a <- lift (getitem s2 i) ;;
      c <- lift (agent_copy a) ;;
      r1 <- uniform E ;;
      r2 <- uniform E ;;
      x <- correct_solution P (vtab P (fun j =>
             fsub (fsub (vget (sol g) j) (vget mean j))
                  (fmul r1 (fadd (vget (p_lb P) j) (fmul r2 (fsub (vget (p_ub P) j) (vget (p_lb P) j))))))) ;;
      ret (acc ++ [with_sol c x])) ;;
  new2 <- update_target_for_population P md new2 ;;
  s2 <- lift (greedy_selection_population new2 new2 (p_mm P)) ;;
  ret (s1 ++ s2).
End Help.
