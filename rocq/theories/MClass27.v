(** Model of mealpy's algorithm classes, part 27.  The conventions are those of MClass1. *)
From Verif Require Import Prelude Fl MCore MHelp MAlg MAlg2 MAlg3 MAlg4 MAlg5 MAlg6 MAlg7 MAlg8.
Local Open Scope f_scope.

(** ** swarm_based/SMO.py: self.groups, self.local_leaders, self.local_limit_counts and self.global_limit_count.
    The groups and the leaders are lists of agents that no statement changes in place. *)
Section SMO.
Variable E : env.
Variable P : problem.
Definition troop : Type := list (list (agent unit)) * list (agent unit) * (list nat * nat).
Notation gea := (generate_empty_agent (A := unit) (X := troop) P tt).
Notation correct := (correct_solution P).
Notation M := (M unit troop).
Notation fm := (rform E P).
Notation group := (list (agent unit)).
(** Division rounded up: [-(-a // b)] (94, 105). *)
Definition cdiv (a b : nat) : nat := ((a + b - 1) / b)%nat.
(** self.num_groups and self.group_size (103-105). *)
Definition smo_num (mg n : nat) : nat := Nat.min mg (n / 3)%nat.
Definition smo_size (mg n : nat) : nat := cdiv n (smo_num mg n).
(** split_fill_by_group (88-96). *)
Definition smo_split (g : nat) (p : group) : list group :=
  let n := List.length p in
  let k := cdiv n g in
  map (fun i => firstn k (skipn (i * k)%nat p)) (filter (fun i => (i * k <? n)%nat) (seq 0 g)).
(** [self.get_sorted_population(group, minmax)[0][0]]. *)
Definition smo_top (g : group) : res (agent unit) :=
  let* r := get_sorted_population (e_argsort E) g (p_mm P) in getitem (fst r) 0.
(** initialize_variables (101-111) and initialization (113-119) after the population was made. *)
Definition smo_start (num : nat) : M unit :=
  p <- get_pop ;;
  ls <- lift (map_res smo_top (smo_split num p)) ;;
  set_x (smo_split num p, ls, (repeat 0%nat num, 0%nat)).
(** [for group_idx, group in enumerate(self.groups)], with the leader of the group. *)
Fixpoint smo_each (f : nat -> group -> agent unit -> M group) (k : nat) (gs : list group) (ls : list (agent unit)) : M (list group) :=
  match gs with
  | [] => ret []
  | g :: gs' =>
    match ls with
    | [] => raise IndexError
    | l :: ls' => g' <- f k g l ;; r <- smo_each f (S k) gs' ls' ;; ret (g' :: r)
    end
  end.
(** The other members used for each dimension (126): a group of one agent has none, and choice() raises. *)
Definition smo_pick (m idx : nat) : M (list nat) := repeat_M (n_dims P) (choice1 E (others m [idx])).
(** local_leader_phase (121-136) for one group. *)
Definition smo_local (pick : nat -> nat -> M (list nat)) (pr : f64) (k : nat) (g : group) (l : agent unit) : M group :=
  for_acc (List.length g) 0 g (fun idx g =>
    r <- pick (List.length g) idx ;;
    a <- lift (getitem g idx) ;;
    z <- fm "SMO:127-131" ([pr] :: map fnat r :: sol l :: sol a :: map sol g) ;;
    b <- gen_agent P correct gea z ;;
    c <- lift (compare_agents b a (p_mm P)) ;;
    ret (if c then upd g idx b else g)).
(** The selection probability at line 155 and the second member at line 164; the last group may be smaller than [size]. *)
Definition smo_chance (prob : vec) (i : nat) : M f64 := lift (getitem prob i).
Definition smo_other (g : group) (j : nat) : M (agent unit) := lift (getitem g j).
(** The loops of lines 148-170 for one group, one agent of the inner loop at each step: [left] attempts are missing; at the end of the group
    the inner loop starts again.  The loops may run forever: [stuck] is what happens after [fuel] steps. *)
Fixpoint smo_tries (chance : vec -> nat -> M f64) (other : group -> nat -> M (agent unit)) (stuck : nat -> group -> M group)
    (size : nat) (prob : vec) (k fuel left idx : nat) (g : group) : M group :=
  match left with
  | O => ret g
  | S rest =>
    match fuel with
    | O => stuck left g
    | S f =>
      match getitem g idx with
      | Err _ => smo_tries chance other stuck size prob k f left 0 g
      | Ok a =>
        u <- uniform E ;;
        pr <- chance prob (idx + k * size)%nat ;;
        if u < pr then
          d <- integers E 0 (n_dims P) ;;
          j <- choice1 E (others size [idx]) ;;
          o <- other g j ;;
          best <- get_gb ;;
          z <- fm "SMO:161-164" [[fnat d]; sol a; sol best; sol o] ;;
          b <- gen_agent P correct gea z ;;
          c <- lift (compare_agents b best (p_mm P)) ;;
          smo_tries chance other stuck size prob k f rest (S idx) (if c then upd g idx b else g)
        else smo_tries chance other stuck size prob k f left (S idx) g
      end
    end
  end.
(** The stagnated group moves (187-198). *)
Definition smo_scatter (pr : f64) (g : group) (l : agent unit) : M group :=
  for_acc (List.length g) 0 g (fun idx g =>
    a <- lift (getitem g idx) ;;
    z1 <- uniform_box E P ;;
    best <- gb_sol ;;
    z <- fm "SMO:189-193" [[pr]; z1; sol a; best; sol l] ;;
    b <- gen_agent P correct gea z ;;
    ret (upd g idx b)).
(** local_leader_decision_phase (172-198) for one group: the group, its leader and its counter. *)
Definition smo_judge (pr : f64) (lll c0 : nat) (g : group) (l new : agent unit) : M (group * agent unit * nat) :=
  b <- lift (compare_agents l new (p_mm P)) ;;
  let c := if b then S c0 else 0%nat in
  let l' := if b then l else new in
  if (lll <? c)%nat then g' <- smo_scatter pr g l' ;; ret (g', l', 0%nat) else ret (g, l', c).
Fixpoint smo_decide (pr : f64) (lll k : nat) (gs : list group) (ls news : list (agent unit)) (cs : list nat) : M (list group * list (agent unit) * list nat) :=
  match gs, ls, news with
  | [], _, _ => ret ([], [], cs)
  | g :: gs', l :: ls', new :: news' =>
    c0 <- lift (getitem cs k) ;;
    '(g', l', c) <- smo_judge pr lll c0 g l new ;;
    '(gr, lr, cr) <- smo_decide pr lll (S k) gs' ls' news' (upd cs k c) ;;
    ret (g' :: gr, l' :: lr, cr)
  | _, _, _ => raise IndexError
  end.
(** DevSMO.evolve (227-238): local_leader_phase, global_leader_phase (138-170), update_leaders (216-225), local_leader_decision_phase
    and global_leader_decision_phase (200-214).  The agents made by local_leader_decision_phase do not enter self.pop before the next epoch,
    unless the groups are merged. *)
Definition smo_evolve (pick : nat -> nat -> M (list nat)) (chance : vec -> nat -> M f64) (other : group -> nat -> M (agent unit)) (stuck : nat -> group -> M group)
    (pr : f64) (mg fuel n epochs ep : nat) : M unit :=
  '(gs, ls, (cs, gc)) <- get_x ;;
  g1 <- smo_each (smo_local pick pr) 0 gs ls ;;
  set_pop (List.concat g1) ;;;
  fits <- lift (map_res fitness (List.concat g1)) ;;
  prob <- rlist E n "SMO:142-146" [fits] ;;
  let size := smo_size mg n in
  g2 <- smo_each (fun k g _ => smo_tries chance other stuck size prob k fuel size 0 g) 0 g1 ls ;;
  set_pop (List.concat g2) ;;;
  top <- lift (smo_top (List.concat g2)) ;;
  best <- get_gb ;;
  c <- lift (compare_agents top best (p_mm P)) ;;
  when c (set_gb (Some top)) ;;;
  let gc' := if c then 0%nat else S gc in
  news <- lift (map_res smo_top g2) ;;
  '(g3, l3, c3) <- smo_decide pr (epochs / 10)%nat 0 g2 ls news cs ;;
  if (epochs / 20 <? gc')%nat then
    u <- uniform E ;;
    g4 <- (if u < dec 5 10 then
             q <- choice_noreplace E (List.concat g3) (List.length (List.concat g3)) ;;
             set_pop q ;;;
             ret (smo_split (smo_num mg n) q)
           else set_pop (List.concat g3) ;;; ret g3) ;;
    l4 <- lift (map_res smo_top g4) ;;
    set_x (g4, l4, (repeat 0%nat (smo_num mg n), 0%nat))
  else set_x (g3, l3, (c3, gc')).
Definition dev_smo (pr : f64) (mg fuel n epochs : nat) : algo :=
  with_init (agent_algo E Single gea (ga_of P gea) n epochs false (ret tt) (ret tt)
               (smo_evolve smo_pick smo_chance smo_other (fun _ _ => raise Endless) pr mg fuel n epochs))
            (smo_start (smo_num mg n)).
End SMO.
