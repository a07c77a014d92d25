(** The fruit-fly classes (swarm_based/FOA.py).  They override generate_empty_agent with a transformation of the position:
    the agent holds the norms of consecutive components instead of the position it was given.  Conventions as in MClass1. *)
From Verif Require Import Prelude Fl MCore MHelp MAlg MAlg2 MAlg3 MAlg4.
From Flocq Require Import IEEE754.BinarySingleNaN.
Local Open Scope f_scope.

(** NumPy's check of the scale of [generator.normal]: the sign bit is set and it is not NaN. *)
Definition bad_scale (x : f64) : bool :=
  match x with B754_zero s => s | B754_infinity s => s | B754_finite s _ _ _ => s | B754_nan => false end.

Section FOA.
Variable E : env.
Variable P : problem.
Variable md : MCore.mode.
Notation correct := (correct_solution P).
Notation M := (M unit unit).
Notation fm := (rform E P).

(** norm_consecutive_adjacent__ (swarm_based/FOA.py:58-60); np.linalg.norm is abstract.  The last component pairs the
    last position with the first. *)
Definition foa_norm (x : vec) : vec :=
  vtab P (fun j => e_fun E "norm" [x.[j]; x.[(S j mod n_dims P)%nat]]).
(** generate_empty_agent (FOA.py:62-66). *)
Definition foa_gea (solution : option vec) : M (agent unit) :=
  x <- match solution with Some x => ret x | None => random_solution P end ;;
  ret (mkAgent (foa_norm x) None tt).
(** [self.generator.normal(self.problem.lb, self.problem.ub)]: the upper bounds are used as scales. *)
Definition normal_bounds : M vec :=
  if existsb bad_scale (p_ub P) then raise ValueError
  else g <- gvec E P ;; ret (vtab P (fun j => (p_lb P).[j] + (p_ub P).[j] * g.[j])).
(** The loop shared by the three classes (FOA.py:75-87): in single mode the target is the one of the position before the
    last transformation. *)
Definition foa_batch (n : nat) (cand : nat -> M vec) : M unit :=
  pop_new <- for_acc n 0 [] (fun idx pop_new =>
      x <- cand idx ;;
      y <- correct x ;;
      a <- foa_gea (Some y) ;;
      if is_avail md then ret (pop_new ++ [a])%list
      else
        t <- get_target P y ;;
        old <- pop_at idx ;;
        b <- lift (get_better_agent (with_tgt a t) old (p_mm P) false) ;;
        pop_set idx b ;;;
        ret (pop_new ++ [with_tgt a t])%list) ;;
  when (is_avail md)
    (l <- update_target_for_population P md pop_new ;;
     p <- get_pop ;;
     q <- lift (greedy_selection_population l p (p_mm P)) ;;
     set_pop q).

(** OriginalFOA.evolve (FOA.py:68-87). *)
Definition foa_evolve (n ep : nat) : M unit :=
  foa_batch n (fun idx =>
    xi <- pop_sol idx ;;
    r <- uniform E ;;
    z <- normal_bounds ;;
    ret (foa_norm (vtab P (fun j => xi.[j] + r * z.[j])))).
Definition original_foa (n epochs : nat) :=
  agent_algo E md foa_gea (ga_of P foa_gea) n epochs false (ret tt) (ret tt) (foa_evolve n).

(** DevFOA.evolve (FOA.py:132-152). *)
Definition dev_foa_evolve (n epochs ep : nat) : M unit :=
  foa_batch n (fun idx =>
    xi <- pop_sol idx ;;
    z <- normal_bounds ;;
    r <- uniform E ;;
    let y := foa_norm (vtab P (fun j => xi.[j] + z.[j])) in
    ret (vtab P (fun j => (#1 - fnat ep / fnat epochs) * r * y.[j]))).
Definition dev_foa (n epochs : nat) :=
  agent_algo E md foa_gea (ga_of P foa_gea) n epochs false (ret tt) (ret tt) (dev_foa_evolve n epochs).

(** WhaleFOA.evolve (FOA.py:202-239). *)
Definition whale_foa_evolve (n epochs ep : nat) : M unit :=
  let a := #2 - #2 * fnat ep / fnat epochs in
  foa_batch n (fun idx =>
    r <- uniform E ;;
    let aa := #2 * a * r - a in
    let c := #2 * r in
    l <- uniform_in E (fZ (-1)) #1 ;;
    u <- uniform E ;;
    gb <- gb_sol ;;
    x <- (if u < dec 1 2 then
            (if fabs aa < #1 then
               xi <- pop_sol idx ;;
               ret (vtab P (fun j => gb.[j] - aa * fabs (c * gb.[j] - xi.[j])))
             else
               k <- integers E 0 n ;;
               xr <- pop_sol k ;;
               xi <- pop_sol idx ;;
               ret (vtab P (fun j => xr.[j] - aa * fabs (c * xr.[j] - xi.[j]))))
          else
            xi <- pop_sol idx ;;
            ret (vtab P (fun j => fabs (gb.[j] - xi.[j]) * exp_ E l * cos_ E (#2 * pi_ E * l) + gb.[j]))) ;;
    ret (foa_norm x)).
Definition whale_foa (n epochs : nat) :=
  agent_algo E md foa_gea (ga_of P foa_gea) n epochs false (ret tt) (ret tt) (whale_foa_evolve n epochs).
End FOA.
