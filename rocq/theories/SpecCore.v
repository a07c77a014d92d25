(** Specification vocabulary, independent of the model's control flow. *)
From Verif Require Import Prelude Fl MCore.

(** The fitness of an agent that has a target (NaN otherwise). *)
Definition fit {A} (a : agent A) : f64 :=
  match tgt a with Some t => t_fit t | None => fnan end.

Definition has_target {A} (a : agent A) : Prop := tgt a <> None.

(** "x is strictly better than y" / "x is at least as good as y" for a problem direction.
    Both are false when a NaN is involved. *)
Definition better (mm : minmax) (x y : f64) : Prop :=
  match mm with Min => flt x y = true | Max => flt y x = true | Other => False end.
Definition no_worse (mm : minmax) (x y : f64) : Prop :=
  match mm with Min => fle x y = true | Max => fle y x = true | Other => False end.

(** The order np.argsort sorts by: ascending, NaN after everything. *)
Definition np_le (x y : f64) : Prop := fisnan y = true \/ fle x y = true.

(** What is assumed of np.argsort: a permutation of the positions that puts the values
    in ascending order; nothing about ties. *)
Definition argsort_ok (argsort : list f64 -> list nat) : Prop :=
  forall l, Permutation (argsort l) (seq 0 (List.length l)) /\
            StronglySorted np_le (map (fun i => nth i l fnan) (argsort l)).

(** Objective value usable for comparisons. *)
Definition num (x : f64) : Prop := fisnan x = false.

(** The direction is one of the two documented ones. *)
Definition valid_mm (mm : minmax) : Prop := mm = Min \/ mm = Max.

(** A vector lies in the box: right length, and every component is NaN or between its bounds.
    [in_box] additionally excludes NaN. *)
Definition in_box_or_nan (lb ub x : vec) : Prop :=
  List.length x = List.length lb /\
  forall i, i < List.length lb ->
    fisnan (nth i x fnan) = true \/
    (fle (nth i lb fnan) (nth i x fnan) = true /\ fle (nth i x fnan) (nth i ub fnan) = true).
Definition in_box (lb ub x : vec) : Prop :=
  List.length x = List.length lb /\
  forall i, i < List.length lb ->
    fle (nth i lb fnan) (nth i x fnan) = true /\ fle (nth i x fnan) (nth i ub fnan) = true.
