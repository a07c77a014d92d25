(** What a user may rely on after [solve] returned: stated on the returned agent, the
    recorded history, the solutions handed to the objective function ([s_log]) and the counter. *)
From Verif Require Import Prelude Fl MCore SpecCore.

(** Fitness the problem gives to a solution. *)
Definition fitx (P : problem) (x : vec) : f64 := t_fit (prob_target P x).

(** The objective never yields NaN fitness. *)
Definition obj_num (P : problem) (feas : vec -> Prop) : Prop := forall x, feas x -> num (fitx P x).

(** An agent that was really evaluated: its solution was handed to the objective, its target is
    what the objective returned, and the solution is admissible. *)
Definition evaluated {A} (P : problem) (feas : vec -> Prop) (log : list vec) (a : agent A) : Prop :=
  tgt a = Some (prob_target P (sol a)) /\ In (sol a) log /\ feas (sol a).

(** The last [m] steps of the sequence [l] all changed the value by at most [eps]. *)
Definition stalled (eps : f64) (l : list f64) (m : nat) : Prop :=
  m < List.length l /\
  forall i, List.length l - 1 - m <= i -> i < List.length l - 1 ->
    fle (fabs (fsub (nth i l fnan) (nth (S i) l fnan))) eps = true.

(** Sizes and counts an algorithm promises: number of evaluations for the initial population and
    per epoch, evaluations missed by the counter, counter value before the run. *)
Record counts := mkCounts {
  c_init_min : nat; c_init_max : nat; c_min : nat; c_max : nat; c_lost : nat; c_nfe0 : nat }.

(** The criterion [r] of termination [t] holds after [e] epochs with counter [nfe] and best
    fitness sequence [fits] (initial value first). *)
Definition criterion (E : env) (start : f64) (t : termination) (r : reason) (e nfe : nat) (fits : list f64) : Prop :=
  match r with
  | MG => exists m, tm_epoch t = Some m /\ (m <= Z.of_nat e)%Z
  | FE => exists m, tm_fe t = Some m /\ (m <= Z.of_nat nfe)%Z
  | TB => exists m k, tm_time t = Some m /\ fle m (fsub (e_time E k) start) = true
  | ES => exists m, tm_es t = Some m /\ ((m <= 0)%Z \/ stalled (tm_eps t) fits (Z.to_nat m))
  end.

Record run_spec {A X} (E : env) (P : problem) (feas : vec -> Prop) (IL : nat -> Prop) (cov : Prop)
    (epochs : nat) (tm : option termination) (c : counts) (g : agent A) (s : st A X) : Prop := mkRun {
  (* the returned agent is the current global best and the last recorded global best *)
  rs_ret : s_gb s = Some g /\ last_item (h_gb (s_hist s)) = Ok g;
  (* between 1 and [epochs] epochs were run, one entry of each list per epoch *)
  rs_epochs : 1 <= List.length (h_gb (s_hist s)) <= epochs;
  rs_cb : List.length (h_cb (s_hist s)) = List.length (h_gb (s_hist s));
  rs_gw : List.length (h_gw (s_hist s)) = List.length (h_gb (s_hist s));
  rs_cw : List.length (h_cw (s_hist s)) = List.length (h_gb (s_hist s));
  rs_time : List.length (h_time (s_hist s)) = List.length (h_gb (s_hist s));
  rs_div : List.length (h_div (s_hist s)) = List.length (h_gb (s_hist s));
  rs_expl : List.length (h_expl (s_hist s)) = List.length (h_gb (s_hist s));
  rs_expt : List.length (h_expt (s_hist s)) = List.length (h_gb (s_hist s));
  rs_hepoch : h_epoch (s_hist s) = Some (List.length (h_gb (s_hist s)));
  (* fitness lists agree with the agent lists *)
  rs_gbf : h_gbf (s_hist s) = map fit (h_gb (s_hist s));
  rs_cbf : h_cbf (s_hist s) = map fit (h_cb (s_hist s));
  (* every solution ever evaluated is admissible; every recorded agent was really evaluated *)
  rs_log : Forall feas (s_log s);
  rs_pop : Forall (evaluated P feas (s_log s)) (s_pop s) /\ IL (List.length (s_pop s));
  rs_rec : Forall (evaluated P feas (s_log s))
             (h_gb (s_hist s) ++ h_cb (s_hist s) ++ h_gw (s_hist s) ++ h_cw (s_hist s));
  (* recorded populations *)
  rs_saved : if p_save_pop P
             then Forall2 (fun p b => IL (List.length p) /\ Forall (evaluated P feas (s_log s)) p /\ In b p /\
                             (obj_num P feas -> forall a, In a p -> no_worse (p_mm P) (fit b) (fit a)))
                          (h_pop (s_hist s)) (h_cb (s_hist s)) /\
                  Forall2 (fun p w => In w p /\ (obj_num P feas -> forall a, In a p -> no_worse (p_mm P) (fit a) (fit w)))
                          (h_pop (s_hist s)) (h_cw (s_hist s))
             else h_pop (s_hist s) = [];
  (* best / worst so far, and the stopping rule; [b0] and [w0] are the best and the worst of the
     initial population, whose entries are dropped from the history at the end *)
  rs_chain : exists b0 w0,
    evaluated P feas (s_log s) b0 /\ evaluated P feas (s_log s) w0 /\
    (forall j gj, nth_error (h_gb (s_hist s)) j = Some gj ->
       In gj (b0 :: firstn (S j) (h_cb (s_hist s))) /\
       (obj_num P feas -> forall b, In b (b0 :: firstn (S j) (h_cb (s_hist s))) -> no_worse (p_mm P) (fit gj) (fit b))) /\
    (forall j wj, nth_error (h_gw (s_hist s)) j = Some wj ->
       In wj (w0 :: firstn (S j) (h_cw (s_hist s))) /\
       (obj_num P feas -> forall b, In b (w0 :: firstn (S j) (h_cw (s_hist s))) -> no_worse (p_mm P) (fit b) (fit wj))) /\
    (List.length (h_gb (s_hist s)) = epochs \/
     exists t r, tm = Some t /\
       criterion E (e_time E 0) t r (List.length (h_gb (s_hist s))) (s_nfe s) (map fit (b0 :: h_gb (s_hist s)))) /\
    (forall t j, tm = Some t -> 1 <= j < List.length (h_gb (s_hist s)) ->
       (forall m, tm_epoch t = Some m -> (Z.of_nat j < m)%Z) /\
       (forall m, tm_es t = Some m -> (0 < m)%Z /\
            ~ stalled (tm_eps t) (map fit (b0 :: firstn j (h_gb (s_hist s)))) (Z.to_nat m)) /\
       (forall m, tm_time t = Some m -> exists k, fle m (fsub (e_time E k) (e_time E 0)) = false));
  (* under [cov], nothing evaluated is better than the returned agent *)
  rs_elite : cov -> forall x, In x (s_log s) -> no_worse (p_mm P) (fit g) (fitx P x);
  (* evaluation counts *)
  rs_count : c_init_min c + c_min c * List.length (h_gb (s_hist s)) <= List.length (s_log s)
             <= c_init_max c + c_max c * List.length (h_gb (s_hist s));
  rs_nfe : s_nfe s + c_lost c = c_nfe0 c + List.length (s_log s);
  rs_fe : forall t m, tm = Some t -> tm_fe t = Some m -> 1 < List.length (h_gb (s_hist s)) ->
            (Z.of_nat (s_nfe s) < m + Z.of_nat (c_max c))%Z }.

(** ** Runs of an arbitrary algorithm, epoch by epoch *)

(** Everything [solve] does before its main loop. *)
Definition prepare {A X} (E : env) (P : problem) (md : mode) (al : @algo A X) (tm : option termination)
    (starting : option (list vec)) : M A X (option termination) :=
  check_problem ;;;
  tm' <- check_termination_start E tm ;;
  al_init_vars al ;;;
  before_initialization P md al starting ;;;
  al_init al ;;;
  after_initialization E P (al_sort al) ;;;
  al_before_main al ;;;
  ret tm'.

(** [tr j] is the state after [j] epochs (of [e]), [rs j] the verdict of the stopping rule after epoch [S j]. *)
Definition run_trace {A X} (E : env) (P : problem) (md : mode) (al : @algo A X) (tm : option termination)
    (starting : option (list vec)) (s : st A X) (e : nat) (tr : nat -> st A X) (rs : nat -> option reason) : Prop :=
  exists tm', prepare E P md al tm starting s = Ok (tm', tr 0) /\
    forall j, j < e -> epoch_step E P al tm' (S j) (tr j) = Ok (rs j, tr (S j)).

(** Weak demands on an algorithm: it leaves the history alone, and the agents it leaves in the population
    have a target whose fitness is the weighted sum of its objectives (true of every Target built by the
    library). *)
Definition proper {A} (a : agent A) : Prop :=
  exists t, tgt a = Some t /\ t_fit t = calc_fitness (t_wts t) (t_objs t).
Definition fresh {A X} (s : st A X) : Prop :=
  s_pop s = [] /\ s_log s = [] /\ s_gb s = None /\ s_gw s = None /\ s_hist s = hist_new.
Record tame {A X} (P : problem) (md : mode) (al : @algo A X) (starting : option (list vec)) : Prop := mkTame {
  ta_init : forall s u s', fresh s ->
    (al_init_vars al ;;; before_initialization P md al starting ;;; al_init al) s = Ok (u, s') ->
    s_hist s' = hist_new /\ Forall proper (s_pop s');
  ta_before : forall s u s', al_before_main al s = Ok (u, s') ->
    s_hist s' = s_hist s /\ s_pop s' = s_pop s /\ s_gb s' = s_gb s;
  ta_evolve : forall ep s u s', Forall proper (s_pop s) -> al_evolve al ep s = Ok (u, s') ->
    s_hist s' = s_hist s /\ Forall proper (s_pop s') }.

(** A limit of the termination [t] is reached. *)
Definition reached (t : termination) (epoch fe : Z) (time : f64) (thr : Z) (r : reason) : Prop :=
  match r with
  | MG => exists m, tm_epoch t = Some m /\ (m <= epoch)%Z
  | FE => exists m, tm_fe t = Some m /\ (m <= fe)%Z
  | TB => exists m, tm_time t = Some m /\ fle m (fsub time (tm_start t)) = true
  | ES => exists m, tm_es t = Some m /\ (m <= thr)%Z
  end.
Definition rank (r : reason) : nat := match r with MG => 0 | FE => 1 | TB => 2 | ES => 3 end.

(** The termination as used by a run: same limits, started at the first clock reading. *)
Definition started (E : env) (t : termination) : termination :=
  mkTerm (tm_epoch t) (tm_fe t) (tm_time t) (tm_es t) (tm_eps t) (e_time E 0).
