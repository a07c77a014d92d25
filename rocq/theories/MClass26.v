(** Model of mealpy's algorithm classes, part 26.  The conventions are those of MClass1. *)
From Verif Require Import Prelude Fl MCore MHelp MAlg MAlg2 MAlg3 MAlg4 MAlg5 MAlg6 MAlg7 MAlg8 MClass20.
Local Open Scope f_scope.

(** ** evolutionary_based/DE.py, SAP_DE *)
(** The attributes of an agent: crossover, mutation and pop_size. *)
Section SAP.
Variable E : env.
Variable P : problem.
Variable md : mode.
Notation A := (f64 * f64 * f64)%type.
Notation M := (M (f64 * f64 * f64) unit).
Notation correct := (correct_solution P).
Notation fm := (rform E P).
Definition sap_cr (a : agent A) : f64 := fst (fst (att a)).
Definition sap_mr (a : agent A) : f64 := snd (fst (att a)).
(** SAP_DE.generate_empty_agent (490-499); the pop_size of an agent is an arbitrary number here and below. *)
Definition sap_gea : option vec -> M (agent A) :=
  gea_with P (fun _ => c <- uniform E ;; m <- uniform E ;; p <- rnum E "DE:495-498" [] ;; ret (c, m, p)).
(** SAP_DE.edit_to_range__ (501-507) with the limits 0 and 1. *)
Fixpoint sap_edit (fuel : nat) (v : f64) : M f64 :=
  if (v <= #0) || (#1 <= v) then
    match fuel with
    | O => raise Endless
    | S k =>
      v1 <- (if v <= #0 then r <- uniform E ;; ret (v + r) else ret v) ;;
      v2 <- (if #1 <= v1 then r <- uniform E ;; ret (v1 - r) else ret v1) ;;
      sap_edit k v2
    end
  else ret v.
(** Lines 531-538 and 550-555: the agent of a new position, with its attributes in single mode. *)
Definition sap_new (z : vec) (c m : f64) (x : list vec) : M (agent A) :=
  y <- correct z ;;
  b <- sap_gea (Some y) ;;
  if is_avail md then ret b else
  t <- get_target P y ;;
  p <- rnum E "DE:527-530,546-549" x ;;
  ret (mkAgent y (Some t) (c, m, p)).
(** One agent of the loop (517-555).  [pick n idx] are the three random indices (519), [edit] is edit_to_range__.  The normal distribution
    of lines 543 and 549 has the scale mutation, which is above a draw from [0, 1) there. *)
Definition sap_one (pick : nat -> nat -> M (nat * nat * nat)) (edit : f64 -> M f64) (n idx : nat) : M (list (agent A)) :=
  '(i0, i1, i2) <- pick n idx ;;
  j <- integers E 0 n ;;
  f <- gauss E ;;
  u <- uniform E ;;
  a <- pop_at idx ;;
  a0 <- pop_at i0 ;;
  a1 <- pop_at i1 ;;
  a2 <- pop_at i2 ;;
  c1 <- (if (u < sap_cr a) || (idx =? j)%nat then
           z <- fm "DE:524" [[f]; sol a0; sol a1; sol a2] ;;
           c <- edit (sap_cr a0 + f * (sap_cr a1 - sap_cr a2)) ;;
           m <- edit (sap_mr a0 + f * (sap_mr a1 - sap_mr a2)) ;;
           sap_new z c m []
         else ret a) ;;
  u2 <- uniform E ;;
  c2 <- (if u2 < sap_mr a0 then
           z <- fm "DE:543" [[sap_mr a0]; sol a] ;;
           c <- gauss E ;;
           m <- gauss E ;;
           b <- sap_new z c m [] ;;
           ret [b]
         else ret []) ;;
  ret (c1 :: c2).
(** The new population size (558-566): [int(uniform(0, 4))] is 0, 1, 2 or 3; [n0] is fixed_pop_size. *)
Definition sap_size (total : M Z) (n0 : nat) : M nat :=
  m <- total ;;
  k <- integers E 0 4 ;;
  ret (if (m <=? 4)%Z then (n0 + k)%nat else if (4 * Z.of_nat n0 <? m)%Z then (n0 - k)%nat else Z.to_nat m).
(** The mean, or the size plus the sum, as an integer (558-562): not a number and infinity raise. *)
Definition sap_total (l : list (agent A)) : M Z := t <- rnum E "DE:558-562" (map (fun a => [snd (att a)]) l) ;; lift (to_int t).
(** SAP_DE.evolve (509-573).  self.pop_size is the length of the population (573). *)
Definition sap_next (pick : nat -> nat -> M (nat * nat * nat)) (edit : f64 -> M f64) (total : list (agent A) -> M Z) (n0 ep : nat) : M (list (agent A)) :=
  p <- get_pop ;;
  let n := List.length p in
  l <- for_acc n 0 [] (fun idx acc => r <- sap_one pick edit n idx ;; ret (acc ++ r)%list) ;;
  new <- update_target_for_population P md l ;;
  m <- sap_size (total new) n0 ;;
  if (m <=? n)%nat then ret (firstn m new)
  else
    '(ps, _) <- lift (get_sorted_population (e_argsort E) new (p_mm P)) ;;
    ret (new ++ firstn (m - n) ps)%list.
Definition sap_evolve (pick : nat -> nat -> M (nat * nat * nat)) (edit : f64 -> M f64) (total : list (agent A) -> M Z) (n0 ep : nat) : M unit :=
  q <- sap_next pick edit total n0 ep ;; set_pop q.
(** [generator.choice(list(set(range(n)) - {idx}), 3, replace=False)] (519). *)
Definition sap_pick (n idx : nat) : M (nat * nat * nat) := choose3 E (others n [idx]).
Definition sap_de (fuel n epochs : nat) :=
  agent_algo E md sap_gea (ga_of P sap_gea) n epochs false (ret tt) (ret tt) (sap_evolve sap_pick (sap_edit fuel) sap_total n).
End SAP.
