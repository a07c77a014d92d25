(** Concurrency of the thread/process modes: the unsynchronised counter increment and the collection of
    results from an executor.  Executable models over an arbitrary schedule; no proofs here. *)
From Verif Require Import Prelude Fl MCore.

(** One call of Optimizer.get_target (optimizer.py:423-436): [self.nfe_counter += 1] is a load followed by a
    store; other threads may run in between. *)
Inductive thread := Todo | Loaded (v : nat) | Done.
Record shared := mkShared { sh_ctr : nat; sh_thr : list thread }.

(** Thread [i] makes one step (nothing happens if it is finished). *)
Definition thread_step (s : shared) (i : nat) : shared :=
  match nth_error (sh_thr s) i with
  | Some Todo => mkShared (sh_ctr s) (upd (sh_thr s) i (Loaded (sh_ctr s)))
  | Some (Loaded v) => mkShared (S v) (upd (sh_thr s) i Done)
  | _ => s
  end.
(** Generation of [n] agents in thread mode (optimizer.py:346-351), as seen by the counter. *)
Definition run_threads (c0 n : nat) (sched : list nat) : shared :=
  fold_left thread_step sched (mkShared c0 (repeat Todo n)).

(** executor.map over a list of positions (optimizer.py:402-416): task [i] puts its result into slot [i] when
    the schedule lets it run; the results are read in submission order. *)
Definition executor_map {S T} (f : S -> T) (xs : list S) (sched : list nat) : list (option T) :=
  fold_left (fun slots i => match nth_error xs i with Some x => upd slots i (Some (f x)) | None => slots end)
            sched (repeat None (List.length xs)).
