(** What a user may rely on after [solve] returned, for the classes that also call update_global_best_agent with
    save=False inside an epoch (optimizer.py:633-644): the last history entries are then improved in place, so the entries
    of an epoch can be better than the fitness values and the population recorded at its end. *)
From Verif Require Import Prelude Fl MCore SpecCore SpecRun PLogic PRun.

Record save_spec {A X} (E : env) (P : problem) (feas : vec -> Prop) (IL : nat -> Prop) (cov : Prop)
    (epochs : nat) (tm : option termination) (c : counts) (g : agent A) (s : st A X) : Prop := mkSave {
  (* the returned agent is the current global best and the last recorded global best *)
  ss_ret : s_gb s = Some g /\ last_item (h_gb (s_hist s)) = Ok g;
  (* between 1 and [epochs] epochs were run, one entry of each list per epoch *)
  ss_epochs : 1 <= List.length (h_gb (s_hist s)) <= epochs;
  ss_cb : List.length (h_cb (s_hist s)) = List.length (h_gb (s_hist s));
  ss_gw : List.length (h_gw (s_hist s)) = List.length (h_gb (s_hist s));
  ss_cw : List.length (h_cw (s_hist s)) = List.length (h_gb (s_hist s));
  ss_time : List.length (h_time (s_hist s)) = List.length (h_gb (s_hist s));
  ss_div : List.length (h_div (s_hist s)) = List.length (h_gb (s_hist s));
  ss_expl : List.length (h_expl (s_hist s)) = List.length (h_gb (s_hist s));
  ss_expt : List.length (h_expt (s_hist s)) = List.length (h_gb (s_hist s));
  ss_hepoch : h_epoch (s_hist s) = Some (List.length (h_gb (s_hist s)));
  (* every recorded fitness value was given by the objective and is no better than the recorded agent; they agree for
     the last epoch *)
  ss_gbf : Forall2 (fun a f => (exists x, In x (s_log s) /\ f = fitx P x) /\ (obj_num P feas -> no_worse (p_mm P) (fit a) f))
                   (h_gb (s_hist s)) (h_gbf (s_hist s)) /\ last_item (h_gbf (s_hist s)) = Ok (fit g);
  ss_cbf : Forall2 (fun a f => (exists x, In x (s_log s) /\ f = fitx P x) /\ (obj_num P feas -> no_worse (p_mm P) (fit a) f))
                   (h_cb (s_hist s)) (h_cbf (s_hist s));
  (* every solution ever evaluated is admissible; every recorded agent was really evaluated *)
  ss_log : Forall feas (s_log s);
  ss_pop : Forall (evaluated P feas (s_log s)) (s_pop s) /\ IL (List.length (s_pop s));
  ss_rec : Forall (evaluated P feas (s_log s))
             (h_gb (s_hist s) ++ h_cb (s_hist s) ++ h_gw (s_hist s) ++ h_cw (s_hist s));
  (* recorded populations: no member is better than the current best, or worse than the current worst, of that epoch *)
  ss_saved : if p_save_pop P
             then Forall2 (fun p b => IL (List.length p) /\ Forall (evaluated P feas (s_log s)) p /\
                             (obj_num P feas -> forall a, In a p -> no_worse (p_mm P) (fit b) (fit a)))
                          (h_pop (s_hist s)) (h_cb (s_hist s)) /\
                  Forall2 (fun p w => obj_num P feas -> forall a, In a p -> no_worse (p_mm P) (fit a) (fit w))
                          (h_pop (s_hist s)) (h_cw (s_hist s))
             else h_pop (s_hist s) = [];
  (* best / worst so far, and the stopping rule; [b0] and [w0] are the entries of the initial population (which the first
     epoch may improve), dropped from the history at the end *)
  ss_chain : exists b0 w0,
    evaluated P feas (s_log s) b0 /\ evaluated P feas (s_log s) w0 /\
    (obj_num P feas -> forall j gj, nth_error (h_gb (s_hist s)) j = Some gj ->
       In gj (b0 :: firstn (S j) (h_cb (s_hist s))) /\
       forall b, In b (b0 :: firstn (S j) (h_cb (s_hist s))) -> no_worse (p_mm P) (fit gj) (fit b)) /\
    (obj_num P feas -> forall j wj, nth_error (h_gw (s_hist s)) j = Some wj ->
       In wj (w0 :: firstn (S j) (h_cw (s_hist s))) /\
       forall b, In b (w0 :: firstn (S j) (h_cw (s_hist s))) -> no_worse (p_mm P) (fit b) (fit wj)) /\
    (List.length (h_gb (s_hist s)) = epochs \/
     exists t r, tm = Some t /\
       criterion E (e_time E 0) t r (List.length (h_gb (s_hist s))) (s_nfe s) (map fit (b0 :: h_gb (s_hist s)))) /\
    (forall t j, tm = Some t -> 1 <= j < List.length (h_gb (s_hist s)) ->
       (forall m, tm_epoch t = Some m -> (Z.of_nat j < m)%Z) /\
       (forall m, tm_es t = Some m -> (0 < m)%Z) /\
       (forall m, tm_time t = Some m -> exists k, fle m (fsub (e_time E k) (e_time E 0)) = false));
  (* under [cov], nothing evaluated is better than the returned agent *)
  ss_elite : cov -> forall x, In x (s_log s) -> no_worse (p_mm P) (fit g) (fitx P x);
  (* evaluation counts *)
  ss_count : c_init_min c + c_min c * List.length (h_gb (s_hist s)) <= List.length (s_log s)
             <= c_init_max c + c_max c * List.length (h_gb (s_hist s));
  ss_nfe : s_nfe s + c_lost c = c_nfe0 c + List.length (s_log s);
  ss_fe : forall t m, tm = Some t -> tm_fe t = Some m -> 1 < List.length (h_gb (s_hist s)) ->
            (Z.of_nat (s_nfe s) < m + Z.of_nat (c_max c))%Z }.

(** As [sound_run_gen] of SpecAlg, with [save_spec]. *)
Definition sound_save {A X} (E : env) (P : problem) (md : mode) (al : @algo A X) (XP : X -> Prop)
    (H : (vec -> Prop) -> Prop) (elite : bool) (kmin kmax : nat) : Prop :=
  forall feas tm starting s,
    argsort_ok (e_argsort E) -> valid_mm (p_mm P) -> problem_ok P feas -> H feas ->
    starting_ok P feas (al_pop_size al) starting -> XP (s_x s) ->
    exists g s', solve E P md al tm starting s = Ok (g, s') /\
      save_spec E P feas (eq (al_pop_size al)) (elite = true /\ obj_num P feas) (al_epoch al) tm
        (mkCounts (al_pop_size al) (al_pop_size al) kmin kmax (missed md (al_pop_size al) starting)
                  (match tm with None => s_nfe s | Some _ => 0 end)) g s'.
