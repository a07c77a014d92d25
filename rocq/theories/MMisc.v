(** Smaller utilities: algorithm metadata, class lookup, loggers, trajectory series, model files.
    No proofs here. *)
From Verif Require Import Prelude Fl MCore MAgent.
From Coq Require Import Ascii.

(** * OptInfo (mealpy/utils/opt_info.py) *)
Local Open Scope string_scope.
(** str.strip() is empty: all characters are white space.  Non-ASCII white space is left out. *)
Definition is_space (c : ascii) : bool :=
  let n := nat_of_ascii c in ((n =? 32) || ((9 <=? n) && (n <=? 13)) || ((28 <=? n) && (n <=? 31)))%nat.
Fixpoint blank (s : string) : bool :=
  match s with EmptyString => true | String c r => is_space c && blank r end.
(** The arguments, of the annotated types; a concern is a ScientificConcern member or something else. *)
Record optinfo := mkOptInfo {
  oi_difficulty : string; oi_kind : string; oi_name : option string; oi_year : option Z; oi_family : option string;
  oi_status : string; oi_concerns : list bool; oi_urls : list string }.
Definition smem (s : string) (l : list string) : bool := existsb (String.eqb s) l.
(** OptInfo.__post_init__ (opt_info.py:81-117): the object, or the exception raised while building it. *)
Definition optinfo_new (o : optinfo) : res optinfo :=
  if negb (smem (oi_difficulty o) ["easy"; "medium"; "hard"; "nightmare"]) then Err ValueError
  else if negb (smem (oi_kind o) ["original"; "variant"; "hybrid"; "sota"; "developed"]) then Err ValueError
  else if negb (smem (oi_status o) ["normal"; "questionable"; "under_investigation"; "withdrawn"; "retracted"]) then Err ValueError
  else if existsb negb (oi_concerns o) then Err TypeError
  else if match oi_name o with Some n => blank n | None => false end then Err ValueError
  else if match oi_year o with Some y => negb ((1800 <=? y)%Z && (y <=? 2100)%Z) | None => false end then Err ValueError
  else if match oi_family o with Some n => blank n | None => false end then Err ValueError
  else Ok o.

(** * Class lookup (mealpy/__init__.py) *)
(** A member of a module: a class (identified by a number; is it the base class Optimizer or derived from it?) or
    something else.  A member of the package: a module with its members sorted by name, or something else. *)
Inductive member := MClass (id : nat) (is_opt : bool) | MOther.
Inductive pmember := PModule (ms : list (string * member)) | POther.
Definition excluded : list string := ["__builtins__"; "current_module"; "inspect"; "sys"].
Definition add_classes (ms : list (string * member)) (cls : dict nat) : dict nat :=
  fold_left (fun d m => match snd m with MClass id true => dset d (fst m) id | _ => d end) ms cls.
Definition dpop {V} (d : dict V) (k : string) : dict V := filter (fun kv => negb (String.eqb (fst kv) k)) d.
(** get_all_optimizers (__init__.py:63-83). *)
Definition get_all_optimizers (pkg : list (string * pmember)) : dict nat :=
  dpop (fold_left (fun d m => match snd m with
                              | PModule ms => if negb (smem (fst m) excluded) then add_classes ms d else d
                              | POther => d end) pkg []) "Optimizer".
(** get_optimizer_by_class (__init__.py:86-104): None when the name is not there. *)
Definition get_optimizer_by_class (pkg : list (string * pmember)) (name : string) : option nat :=
  dget (get_all_optimizers pkg) name.
(** get_optimizer_by_name (__init__.py:107-136). *)
Definition get_optimizer_by_name (pkg : list (string * pmember)) (name : string) (verbose : bool) : res (option (dict nat)) :=
  let '(cls, flag) := fold_left (fun acc m => match snd m with
      | PModule ms => if String.eqb (fst m) name && negb (smem name excluded) then (add_classes ms (fst acc), true) else acc
      | POther => acc end) pkg ([], false) in
  if verbose then
    if negb flag then Ok None
    else match dget cls "Optimizer" with Some _ => Ok (Some (dpop cls "Optimizer")) | None => Err KeyError end
  else Ok (Some cls).

(** * Logger (mealpy/utils/logger.py) *)
Inductive target_log := LConsole | LFile (file : option string) | LNone.
Inductive handler := HStream | HFile (f : string).
Inductive level := INFO | DEBUG | ERROR.
(** The logging module: handlers and levels by logger name, files opened so far.  [parents] lists the names whose
    handlers a logger also uses (its dotted prefixes and the root logger). *)
Record logging := mkLogging { lg_handlers : dict (list handler); lg_level : dict level; lg_opened : list string }.
Definition handlers_of (g : logging) (n : string) : list handler := match dget (lg_handlers g) n with Some l => l | None => [] end.
Definition has_handlers (parents : string -> list string) (g : logging) (n : string) : bool :=
  existsb (fun m => match handlers_of g m with [] => false | _ => true end) (n :: parents n).
Definition new_handler (t : target_log) : handler :=
  match t with LFile (Some f) => HFile f | LFile None => HFile "mealpy.log" | _ => HStream end.
(** Logger.create_logger (logger.py:23-53).  Opening the log file happens before the check for handlers. *)
Definition create_logger (parents : string -> list string) (t : target_log) (name : string) (g : logging) : logging :=
  let h := new_handler t in
  let lev := match t with LConsole => INFO | LFile _ => DEBUG | LNone => ERROR end in
  let opened := match h with HFile f => (lg_opened g ++ [f])%list | HStream => lg_opened g end in
  mkLogging (if has_handlers parents g name then lg_handlers g else dset (lg_handlers g) name (handlers_of g name ++ [h])%list)
            (dset (lg_level g) name lev) opened.

(** * History.save_trajectory_chart (history.py:164-210) *)
(** sorted(set(l)) of integers. *)
Fixpoint zins (x : Z) (l : list Z) : list Z :=
  match l with [] => [x] | y :: r => if (x <? y)%Z then x :: l else if (x =? y)%Z then l else y :: zins x r end.
Definition sorted_set (l : list Z) : list Z := fold_right zins [] l.
(** What is plotted: per agent, per selected dimension, the series over the saved generations.  [pops] holds the
    solutions of each saved population. *)
Definition series (pops : list (list vec)) (a d : Z) : res (list f64) :=
  map_res (fun pop => let* x := getitem pop (Z.to_nat (a - 1)) in getitem x (Z.to_nat (d - 1))) pops.
Definition trajectory (pops : list (list vec)) (agents dims : list Z) : res (list (Z * list (Z * list f64))) :=
  match pops with
  | first :: _ :: _ =>
    let ag := sorted_set agents in
    let dm := sorted_set dims in
    if negb ((List.length dm =? 1)%nat || (List.length dm =? 2)%nat) then Err ValueError
    else if (List.length ag <? 1)%nat || (10 <? List.length ag)%nat then Err ValueError
    else
      let* a_hi := last_item ag in
      let* a_lo := getitem ag 0 in
      if (Z.of_nat (List.length first) <? a_hi)%Z || (a_lo <? 1)%Z then Err ValueError
      else
        let* d_hi := last_item dm in
        let* x0 := getitem first 0 in
        let* d_lo := getitem dm 0 in
        if (Z.of_nat (List.length x0) <? d_hi)%Z || (d_lo <? 1)%Z then Err ValueError
        else map_res (fun a => let* ss := map_res (fun d => let* x := series pops a d in Ok (d, x)) dm in Ok (a, ss)) ag
  | _ => Err ValueError
  end.

(** * Model files (mealpy/utils/io.py) *)
(** [s[-4:]]. *)
Definition last4 (s : string) : string := substring (String.length s - 4) 4 s.
(** The file used by save_model (io.py:10-16) and load_model (io.py:19-25). *)
Definition save_path (p : option string) : string :=
  match p with
  | None => "model.pkl"
  | Some s => if negb (String.eqb (last4 s) ".pkl") then s ++ ".pkl" else s
  end.
Definition load_path (p : option string) : string :=
  match p with
  | None => "model.pkl"
  | Some s => if negb (String.eqb (last4 s) ".pkl") then s ++ ".pkl" else s
  end.
(** Files by name; pickling is taken to keep the object. *)
Definition save_model {M} (fs : dict M) (m : M) (p : option string) : dict M := dset fs (save_path p) m.
Definition load_model {M} (fs : dict M) (p : option string) : option M := dget fs (load_path p).
