(** Parameter grids, Tuner and Multitask (mealpy/tuner.py, mealpy/multitask.py), the execution-mode check of
    Optimizer.solve.  Data frames, files, figures and printing are left out; the means and standard deviations pandas
    computes, and the runs themselves, are parameters.  No proofs here. *)
From Verif Require Import Prelude Fl MCore MAgent MValid.

(** * ParameterGrid *)
(** One sub-grid: parameter names with their lists of values, in insertion order. *)
Definition subgrid := list (string * list pyval).

(** The checks on one value list (tuner.py:70-80). *)
Definition grid_values (v : pyval) : res (list pyval) :=
  match v with
  | VSeq SArray l => if existsb (fun x => match x with VSeq _ _ => true | _ => false end) l then Err ValueError
                     else match l with [] => Err ValueError | _ => Ok l end
  | VSeq _ l => match l with [] => Err ValueError | _ => Ok l end
  | _ => Err TypeError
  end.
Definition grid_dict (v : pyval) : res subgrid :=
  match v with
  | VDict d => map_res (fun kv => let* l := grid_values (snd kv) in Ok (fst kv, l)) d
  | _ => Err TypeError
  end.
(** ParameterGrid.__init__ (tuner.py:58-80).  A string is iterable: "" gives a grid without sub-grids, any other
    string fails on its first character. *)
Definition grid_init (v : pyval) : res (list subgrid) :=
  match v with
  | VDict _ => let* g := grid_dict v in Ok [g]
  | VSeq _ l => map_res grid_dict l
  | VStr s => match s with EmptyString => Ok [] | _ => Err TypeError end
  | _ => Err TypeError
  end.

(** itertools.product: the last factor varies fastest. *)
Fixpoint product {T} (vs : list (list T)) : list (list T) :=
  match vs with
  | [] => [[]]
  | v :: r => flat_map (fun x => map (cons x) (product r)) v
  end.
(** ParameterGrid.__iter__ (tuner.py:82-98). *)
Definition sub_iter (p : subgrid) : list (list (string * pyval)) :=
  match p with
  | [] => [[]]
  | _ => map (combine (map fst p)) (product (map snd p))
  end.
Definition grid_iter (g : list subgrid) : list (list (string * pyval)) := flat_map sub_iter g.

(** ParameterGrid.__len__ (tuner.py:100-104). *)
Definition sub_len (p : subgrid) : nat :=
  match p with [] => 1 | _ => fold_left (fun a kv => a * List.length (snd kv)) p 1 end.
Definition grid_len (g : list subgrid) : nat := fold_left (fun a p => a + sub_len p) g 0.

(** ParameterGrid.__getitem__ (tuner.py:106-146).  np.product no longer exists in numpy 2 (AttributeError there). *)
Fixpoint sub_get (p : subgrid) (ind : Z) : res (list (string * pyval)) :=
  match p with
  | [] => Ok []
  | (k, l) :: r =>
    let n := Z.of_nat (List.length l) in
    let* x := getitem l (Z.to_nat (ind mod n)) in
    let* rest := sub_get r (ind / n)%Z in
    Ok ((k, x) :: rest)
  end.
Fixpoint grid_get (g : list subgrid) (ind : Z) : res (list (string * pyval)) :=
  match g with
  | [] => Err IndexError
  | [] :: r => if (ind =? 0)%Z then Ok [] else grid_get r (ind - 1)
  | p :: r => let total := Z.of_nat (sub_len p) in
              if (total <=? ind)%Z then grid_get r (ind - total) else sub_get p ind
  end.

(** * Number of jobs *)
(** Multitask.execute (multitask.py:140-233) and Tuner.execute (tuner.py:360-434): [None] = sequential.  A
    value that cannot be compared with 1 gives TypeError. *)
Definition check_jobs (n_jobs : pyval) (cpus : Z) : res (option Z) :=
  match n_jobs with
  | VNone => Ok None
  | _ => match as_number n_jobs with
         | None => Err TypeError
         | Some x => if xle (XFin 1 0) x then let* n := check_int n_jobs (Some (zbound 2 (Z.min 61 (cpus - 1)))) in Ok (Some n)
                     else Ok None
         end
  end.

(** Optimizer.check_mode_and_workers (optimizer.py:179-193): the mode used and the number of workers set. *)
Definition check_mode_and_workers (parallelizable : bool) (mode n_workers : pyval) (cpus : Z) : res (string * option Z) :=
  let* m := check_str mode (Some ["process"; "thread"; "swarm"; "single"]%string) in
  if existsb (String.eqb m) ["process"; "thread"]%string then
    if negb parallelizable then Ok ("single"%string, None)
    else match n_workers with
         | VNone => Ok (m, Some 4%Z)
         | _ => let hi := if String.eqb m "process" then Z.min 61 (cpus - 1) else Z.min 32 (cpus + 4) in
                let* n := check_int n_workers (Some (zbound 2 hi)) in Ok (m, Some n)
         end
  else Ok (m, None).

(** * Multitask *)
(** What check_input returns: one row per algorithm, or the flat list it was given. *)
Inductive table (T : Type) := Rows (m : list (list T)) | Flat (l : list T).
Arguments Rows {T} m. Arguments Flat {T} l.
(** Multitask.check_input (multitask.py:97-113).  [deepcopy(values[idx] for ...)] is applied to a generator, which
    cannot be copied: TypeError.  n >= 1, so that branch always evaluates it at least once. *)
Definition check_input {T} (n m : nat) (values : option (list T)) : res (option (table T)) :=
  match values with
  | None => Ok None
  | Some l =>
    match l with
    | [x] => Ok (Some (Rows (repeat (repeat x m) n)))
    | _ => if List.length l =? n then (match n with 0 => Ok (Some (Rows [])) | _ => Err TypeError end)
           else if List.length l =? m then Ok (Some (Rows (repeat l n)))
           else if List.length l =? n * m then Ok (Some (Flat l))
           else Err ValueError
    end
  end.
(** [self.terminations[i][j]] (multitask.py:198-204); [sub] is what subscripting a single entry does. *)
Definition table_get {T} (sub : T -> nat -> res T) (t : option (table T)) (dflt : T) (i j : nat) : res T :=
  match t with
  | None => Ok dflt
  | Some (Rows m) => let* row := getitem m i in getitem row j
  | Some (Flat l) => let* x := getitem l i in sub x j
  end.
(** Subscripting a mode string gives one character. *)
Fixpoint string_get (s : string) (j : nat) : res string :=
  match s, j with
  | EmptyString, _ => Err IndexError
  | String c _, O => Ok (String c EmptyString)
  | String _ r, S j => string_get r j
  end.

(** One run of algorithm [i] on problem [j]: best fitness, convergence list, name of the problem. *)
Record result := mkResult { r_fit : f64; r_conv : list f64; r_name : string }.
(** Multitask.execute (multitask.py:140-233) as far as the tables go.  For one problem: the trials, the column of
    best fitness values and the convergence table, padded with NaN to equal length (multitask.py:233-239). *)
Definition pad (n : nat) (l : list f64) : list f64 := l ++ repeat fnan (n - List.length l).
Definition conv_table (rs : list result) : list (list f64) :=
  let n := fold_right Nat.max 0 (map (fun r => List.length (r_conv r)) rs) in
  map (fun r => pad n (r_conv r)) rs.
Section Multi.
Variable T : Type.                                          (* terminations *)
Variable run : nat -> nat -> nat -> option T -> string -> res result.      (* algorithm, problem, trial *)
Variable subT : option T -> nat -> res (option T).
(** One algorithm: results per problem, in a dict keyed by the name of the problem (multitask.py:196-231). *)
Definition multi_algo (terms : option (table (option T))) (modes : option (table string)) (m n_trials i : nat)
  : res (dict (list f64) * list (string * list (list f64))) :=
  fold_left (fun acc j =>
      let* (d, cs) := acc in
      let* t := table_get subT terms None i j in
      let* md := table_get string_get modes "single"%string i j in
      let* rs := map_res (fun k => run i j k t md) (seq 1 n_trials) in
      let* lastr := last_item rs in
      Ok (dset d (r_name lastr) (map r_fit rs), cs ++ [(r_name lastr, conv_table rs)]))
    (seq 0 m) (Ok ([], [])).
(** All algorithms; the runs are the same in a process pool, whose map keeps the order of its input. *)
Definition multi_execute (terms : option (table (option T))) (modes : option (table string)) (n m n_trials : nat) :=
  map_res (multi_algo terms modes m n_trials) (seq 0 n).
End Multi.

(** * Tuner *)
(** Ranks pandas gives (Series.rank, method "average"), doubled to stay integral: twice the number of values before
    x, plus the number of values equal to it, plus one. *)
Definition rank2 (asc : bool) (l : list f64) (x : f64) : nat :=
  let before y := if asc then flt y x else flt x y in
  2 * List.length (filter before l) + List.length (filter (fun y => feq y x) l) + 1.
(** Order of pairs of ranks, and the dense rank of a pair: one plus the number of different pairs before it. *)
Definition pair_lt (a b : nat * nat) : bool := (fst a <? fst b) || ((fst a =? fst b) && (snd a <? snd b)).
Definition pair_eqb (a b : nat * nat) : bool := (fst a =? fst b) && (snd a =? snd b).
Definition dedup (l : list (nat * nat)) : list (nat * nat) :=
  fold_right (fun x r => if existsb (pair_eqb x) r then r else x :: r) [] l.
Definition dense (asc : bool) (l : list (nat * nat)) (p : nat * nat) : nat :=
  1 + List.length (filter (fun q => if asc then pair_lt q p else pair_lt p q) (dedup l)).

(** A row of the table: the parameters, mean and standard deviation over the trials. *)
Record row := mkRow { row_params : list (string * pyval); row_mean : f64; row_std : f64 }.
(** The ranking (tuner.py:425-433): both ranks and the dense rank use the same direction; rows with the least dense
    rank are kept and the first is taken. *)
Definition rank_pair (asc : bool) (rows : list row) (r : row) : nat * nat :=
  (rank2 asc (map row_mean rows) (row_mean r), rank2 asc (map row_std rows) (row_std r)).
Definition row_rank (asc : bool) (rows : list row) (r : row) : nat :=
  dense asc (map (rank_pair asc rows) rows) (rank_pair asc rows r).
Definition best_row (asc : bool) (rows : list row) : res row :=
  let least := fold_right Nat.min (match rows with [] => 0 | r :: _ => row_rank asc rows r end) (map (row_rank asc rows) rows) in
  match filter (fun r => row_rank asc rows r =? least) rows with
  | [] => Err IndexError
  | r :: _ => Ok r
  end.

(** The problem given to Tuner.execute: a dictionary, or a Problem object, which cannot be subscripted. *)
Inductive tproblem := TDict (mm : minmax) | TObject.
Section Tune.
Variable mean std : list f64 -> f64.                                 (* pandas mean / std over the trials *)
Variable setp : popt -> list (string * pyval) -> res popt.           (* Optimizer.set_parameters *)
Variable run : popt -> nat -> res f64.                               (* best fitness of one trial *)
(** Tuner.execute (tuner.py:360-434): the parameter combinations in iteration order, set on the algorithm one after
    the other, each solved n_trials times; returns the table, the best row and the algorithm as left behind. *)
Definition tuner_execute (opt : popt) (grid : pyval) (prob : tproblem) (n_trials n_jobs : pyval) (cpus : Z)
  : res (list row * row * popt) :=
  let* n := check_int n_trials (Some (zbound 1 100000)) in
  let* _ := check_jobs n_jobs cpus in
  let* g := grid_init grid in
  let* asc := match prob with TDict Min => Ok true | TDict _ => Ok false | TObject => Err TypeError end in
  let* (rows, o) := fold_left (fun acc ps =>
      let* (rows, o) := acc in
      let* o' := setp o ps in
      let* fs := map_res (run o') (seq 0 (Z.to_nat n)) in
      Ok (rows ++ [mkRow ps (mean fs) (std fs)], o')) (grid_iter g) (Ok ([], opt)) in
  let* b := best_row asc rows in
  Ok (rows, b, o).
End Tune.
