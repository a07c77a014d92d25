(** Target and Agent objects at the level of Python values: constructor checks, attribute
    dictionaries and ids of copies, equality and hash.  No proofs here. *)
From Verif Require Import Prelude Fl MCore.

(** Argument of Target(...): None, a number, a list/tuple/array (already flattened), anything else. *)
Inductive pyarg := ANone | ANum (x : f64) | AArr (l : list f64) | AOther.

(** Target.set_objectives (target.py:37-47). *)
Definition set_objectives (o : pyarg) : res (list f64) :=
  match o with
  | ANone => Err ValueError
  | ANum x => Ok [x]
  | AArr l => Ok l
  | AOther => Err ValueError
  end.

(** Target.set_weights (target.py:54-64): the final line overwrites, so None stays None. *)
Definition set_weights (objs : list f64) (w : pyarg) : res (option (list f64)) :=
  match w with
  | ANone => Ok None
  | ANum x => Ok (Some (repeat x (List.length objs)))
  | AArr l => Ok (Some l)
  | AOther => Err ValueError
  end.

(** Target.__init__ (target.py:15-27) with calculate_fitness (target.py:70-84). *)
Definition target_init (o w : pyarg) : res target :=
  let* objs := set_objectives o in
  let* wts := set_weights objs w in
  Ok (target_new objs wts).

(** Target.copy (target.py:29-30). *)
Definition target_py_copy (t : target) : res target :=
  target_init (AArr (t_objs t)) (match t_wts t with None => ANone | Some l => AArr l end).

(** A later call of Target.calculate_fitness with other weights (target.py:71-84). *)
Definition recalculate (t : target) (w : list f64) : target :=
  mkTarget (t_objs t) (t_wts t) (calc_fitness (Some w) (t_objs t)).

(** ** Agents with an attribute dictionary *)
Definition dict (V : Type) := list (string * V).
Fixpoint dget {V} (d : dict V) (k : string) : option V :=
  match d with [] => None | (k', v) :: r => if String.eqb k k' then Some v else dget r k end.
Definition dset {V} (d : dict V) (k : string) (v : V) : dict V := (k, v) :: d.

(** [o_attrs]: instance attributes other than solution, target, id, kwargs. *)
Record pyagent (V : Type) := mkPyAgent {
  o_sol : vec; o_tgt : option target; o_kwargs : dict V; o_attrs : dict V; o_id : nat }.
Arguments mkPyAgent {V}. Arguments o_sol {V}. Arguments o_tgt {V}. Arguments o_kwargs {V}.
Arguments o_attrs {V}. Arguments o_id {V}.

(** Agent.__init__ (agent.py:14-19) and Agent.increase (agent.py:21-24); [ctr] is the class attribute Agent.ID.
    The keyword names solution, target, id and kwargs are not used as extra attributes. *)
Definition py_agent {V} (ctr : nat) (x : vec) (t : option target) (kwargs : dict V) : pyagent V * nat :=
  (mkPyAgent x t kwargs (fold_right (fun kv d => dset d (fst kv) (snd kv)) [] kwargs) (S ctr), S ctr).

(** Agent.update / setattr (agent.py:42-44). *)
Definition py_update {V} (a : pyagent V) (k : string) (v : V) : pyagent V :=
  mkPyAgent (o_sol a) (o_tgt a) (o_kwargs a) (dset (o_attrs a) k v) (o_id a).

(** Agent.copy (agent.py:30-36). *)
Definition py_copy {V} (ctr : nat) (a : pyagent V) : res (pyagent V * nat) :=
  match o_tgt a with
  | None => Err AttributeError
  | Some t =>
    let* t' := target_py_copy t in
    let (b, ctr') := py_agent ctr (o_sol a) (Some t') (o_kwargs a) in
    Ok (mkPyAgent (o_sol b) (o_tgt b) (o_kwargs b) (fold_right (fun kv d => dset d (fst kv) (snd kv)) (o_attrs b) (o_attrs a))
                  (o_id b), ctr')
  end.

(** ** Equality and hash *)
(** The binary64 constants 1e-6 (atol), 1e-5 (numpy's default rtol), 1e6. *)
Definition c1em6 : f64 := fpow 4722366482869645 (-72).
Definition c1em5 : f64 := fpow 5902958103587057 (-69).

(** numpy.isclose for one component: equal (covers equal infinities), or both finite and
    |x - y| <= atol + rtol*|y|. *)
Definition isclose (x y : f64) : bool :=
  feq x y || (fisfin x && fisfin y && fle (fabs (fsub x y)) (fadd c1em6 (fmul c1em5 (fabs y)))).
(** Agent.__eq__ (agent.py:97-101) for two agents with positions of equal length. *)
Definition agent_eq (x y : vec) : bool := forallb (fun p => isclose (fst p) (snd p)) (combine x y).

(** np.round(x, 6) = rint(x * 1e6) / 1e6 (agent.py:101-104). *)
Definition frint (x : f64) : f64 := BinarySingleNaN.Bnearbyint BinarySingleNaN.mode_NE x.
Definition round6 (x : f64) : f64 := fdiv (frint (fmul x (fZ 1000000))) (fZ 1000000).
(** Agent.__hash__ hashes this tuple. *)
Definition hash_key (x : vec) : vec := map round6 x.
