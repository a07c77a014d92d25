(** More code fragments shared by the algorithm classes: greedy selections with the arguments exchanged or whose new
    agents are used afterwards, Python ranges and indices that may be negative.  No proofs here. *)
From Verif Require Import Prelude Fl MCore MHelp MAlg MAlg2.

(** np.round: to the nearest integer, ties to even. *)
Definition fround : f64 -> f64 := Flocq.IEEE754.BinarySingleNaN.Bnearbyint Flocq.IEEE754.BinarySingleNaN.mode_NE.
(** The indices of range(lo, hi). *)
Definition zrange (lo hi : Z) : list Z := map (fun i => (lo + Z.of_nat i)%Z) (seq 0 (Z.to_nat (hi - lo))).
(** [l[i]] for an index that may be negative. *)
Definition getitemZ {T} (l : list T) (i : Z) : res T :=
  if (0 <=? i)%Z then getitem l (Z.to_nat i)
  else if (0 <=? Z.of_nat (List.length l) + i)%Z then getitem l (Z.to_nat (Z.of_nat (List.length l) + i))
  else Err IndexError.
(** [l[:k]] for a bound that may be negative. *)
Definition sliceZ {T} (k : Z) (l : list T) : list T :=
  if (0 <=? k)%Z then firstn (Z.to_nat k) l else firstn (List.length l - Z.to_nat (- k)) l.

Section Blocks.
Context {A X : Type}.
Variable P : problem.
Variable md : mode.
Variable correct : vec -> M A X vec.                   (* correct_solution *)
Variable gea : option vec -> M A X (agent A).          (* generate_empty_agent *)
(** [greedy_each] of MAlg with the arguments of greedy_selection_population exchanged: a new agent gives way to a strictly
    better old one (for example FBIO.py:109). *)
Definition greedy_back (n : nat) (new_first : bool) (cand : nat -> M A X vec) : M A X unit :=
  pop_new <- for_acc n 0 [] (fun idx pop_new =>
      x <- cand idx ;;
      a <- propose correct gea x ;;
      if is_avail md then ret (pop_new ++ [a])
      else a' <- evaluate P a ;; keep_better P new_first idx a' ;;; ret (pop_new ++ [a'])) ;;
  when (is_avail md)
    (l <- update_target_for_population P md pop_new ;;
     p <- get_pop ;;
     q <- lift (greedy_selection_population l p (p_mm P)) ;;
     set_pop q).
(** [greedy_agents] of MAlg2, for the slots in order, returning the new agents. *)
Definition greedy_list (n : nat) (new_first : bool) (cand : nat -> M A X (agent A)) : M A X (list (agent A)) :=
  pop_new <- for_acc n 0 [] (fun idx pop_new =>
      a <- cand idx ;;
      if is_avail md then ret (pop_new ++ [a])
      else a' <- evaluate P a ;; keep_better P new_first idx a' ;;; ret (pop_new ++ [a'])) ;;
  if is_avail md then
    l <- update_target_for_population P md pop_new ;;
    p <- get_pop ;;
    q <- lift (greedy_selection_population p l (p_mm P)) ;;
    set_pop q ;;; ret l
  else ret pop_new.
(** Agents made and evaluated one by one, whatever the mode; they compete with the agents of their slots at once in single
    mode, together otherwise. *)
Definition greedy_ready (n : nat) (new_first : bool) (cand : nat -> M A X (agent A)) : M A X unit :=
  pop_new <- for_acc n 0 [] (fun idx pop_new =>
      a <- cand idx ;;
      when (negb (is_avail md)) (keep_better P new_first idx a) ;;;
      ret (pop_new ++ [a])) ;;
  when (is_avail md)
    (p <- get_pop ;;
     q <- lift (greedy_selection_population p pop_new (p_mm P)) ;;
     set_pop q).
(** One agent per element of a list, each generated and evaluated at once. *)
Definition gen_each {T} (l : list T) (cand : T -> M A X vec) : M A X (list (agent A)) :=
  for_list l [] (fun i acc => x <- cand i ;; a <- gen_agent P correct gea x ;; ret (acc ++ [a])).
(** [self.nfe_counter]. *)
Definition get_nfe : M A X nat := fun s => Ok (s_nfe s, s).
End Blocks.

Section Reads.
Context {A X : Type}.
Variable E : env.
Variable P : problem.
(** [_, best_fit, worst_fit = self.get_special_fitness(self.pop, minmax)]. *)
Definition extreme_fits : M A X (f64 * f64) :=
  p <- get_pop ;; '(_, b, w) <- lift (get_special_fitness (e_argsort E) p (p_mm P)) ;; ret (b, w).
(** [np.argsort(fits)[idx]]. *)
Definition rank_at (fits : vec) (idx : nat) : M A X nat := lift (getitem (e_argsort E fits) idx).
End Reads.
