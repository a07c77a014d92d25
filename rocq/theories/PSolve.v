(** Generic theorem about Optimizer.solve for an algorithm whose evolve keeps a contract. *)
From Verif Require Import Prelude Fl MCore SpecCore SpecRun PSelect PLogic.

Lemma prob_target_wf P x : t_fit (prob_target P x) = calc_fitness (t_wts (prob_target P x)) (t_objs (prob_target P x)).
Proof. reflexivity. Qed.

Section Contract.
Context {A X : Type}.
Variable E : env.
Variable P : problem.
Variable md : mode.

(** Parameters of an algorithm's contract. *)
Variable feas : vec -> Prop.                 (* admissible solutions *)
Variable attok : list vec -> A -> Prop.      (* extra agent attributes, given the evaluated solutions *)
Variable IL : nat -> Prop.                   (* population sizes between epochs *)
Variable IX : list vec -> X -> Prop.         (* algorithm attributes, given the evaluated solutions *)
Variable cov : Prop.                         (* hypothesis under which nothing good is lost *)
Variables nd n0 : nat.                       (* nfe + nd = n0 + number of evaluations *)

Hypothesis attok_mono : forall L L' a, incl L L' -> attok L a -> attok L' a.
Hypothesis IL_pos : forall n, IL n -> 0 < n.
Hypothesis Vmm : valid_mm (p_mm P).
Hypothesis Hargsort : argsort_ok (e_argsort E).
Hypothesis cov_num : cov -> obj_num P feas.

(** An agent that was really evaluated: its target is the objective at its solution. *)
Record good (L : list vec) (a : agent A) : Prop := mkGood {
  g_tgt : tgt a = Some (prob_target P (sol a));
  g_feas : feas (sol a);
  g_log : In (sol a) L;
  g_att : attok L (att a) }.

Lemma good_mono L L' a : incl L L' -> good L a -> good L' a.
Proof. intros H [? ? ? ?]; constructor; auto. eapply attok_mono; eauto. Qed.
Lemma good_wf L a : good L a -> wf_agent a.
Proof. intros [H _ _ _]. exists (prob_target P (sol a)). split; [exact H|apply prob_target_wf]. Qed.
Lemma good_fit L a : good L a -> fit a = fitx P (sol a).
Proof. intros [H _ _ _]. unfold fit. rewrite H. reflexivity. Qed.
Lemma good_num L a : obj_num P feas -> good L a -> num (fit a).
Proof. intros N G. rewrite (good_fit L a G). apply N, G. Qed.
Lemma good_has_target L a : good L a -> has_target a.
Proof. intros G. eapply wf_has_target, good_wf; eauto. Qed.
Lemma Forall_good_target L l : Forall (good L) l -> Forall has_target l.
Proof. intros H. eapply Forall_impl; [|exact H]. intros a. apply good_has_target. Qed.
Lemma Forall_good_mono L L' l : incl L L' -> Forall (good L) l -> Forall (good L') l.
Proof. intros HI H. eapply Forall_impl; [|exact H]. intros a. apply good_mono; exact HI. Qed.

(** The attributes are as they should be, given some of the evaluated solutions. *)
Definition xok (L : list vec) (x : X) : Prop := exists L', incl L' L /\ IX L' x.
Lemma xok_mono L L' x : incl L L' -> xok L x -> xok L' x.
Proof. intros H (L0 & H1 & H2). exists L0. split; [eapply incl_tran; eauto|exact H2]. Qed.

(** Facts at an epoch boundary. *)
Record Inv (s : st A X) : Prop := mkInv {
  i_len : IL (List.length (s_pop s));
  i_good : Forall (good (s_log s)) (s_pop s);
  i_gb : exists g, s_gb s = Some g /\ good (s_log s) g /\ last_item (h_gb (s_hist s)) = Ok g;
  i_gw : exists g, s_gw s = Some g /\ good (s_log s) g;
  i_hgw : exists g, last_item (h_gw (s_hist s)) = Ok g /\ good (s_log s) g;
  i_log : Forall feas (s_log s);
  i_nfe : s_nfe s + nd = n0 + List.length (s_log s);
  i_cov : cov -> forall g x, s_gb s = Some g -> In x (s_log s) -> no_worse (p_mm P) (fit g) (fitx P x);
  i_x : xok (s_log s) (s_x s) }.

(** Facts inside evolve, started in [s0]; [W] = agents held in local variables. *)
Record Ev (s0 : st A X) (W : list (agent A)) (s : st A X) : Prop := mkEv {
  v_inv0 : Inv s0;
  v_hist : s_hist s = s_hist s0;
  v_good : Forall (good (s_log s)) (s_pop s);
  v_W : Forall (good (s_log s)) W;
  v_gb : exists g, s_gb s = Some g /\ good (s_log s) g;
  v_gw : exists g, s_gw s = Some g /\ good (s_log s) g;
  v_ext : incl (s_log s0) (s_log s);
  v_log : Forall feas (s_log s);
  v_nfe : s_nfe s + nd = n0 + List.length (s_log s);
  v_cov : cov -> forall g x, s_gb s0 = Some g -> In x (s_log s) ->
            no_worse (p_mm P) (fit g) (fitx P x) \/
            exists b, In b (s_pop s ++ W) /\ no_worse (p_mm P) (fit b) (fitx P x);
  v_x : xok (s_log s) (s_x s) }.

Lemma Ev_init s : Inv s -> Ev s [] s.
Proof.
  intros I. constructor; auto; try (apply I); try reflexivity.
  - destruct (i_gb s I) as (g & E1 & E2 & _). eauto.
  - apply incl_refl.
  - intros C g x Hg Hx. left. apply (i_cov s I C g x Hg Hx).
Qed.

Lemma Ev_bump s0 W s k : Ev s0 W s -> Ev s0 W (bump s k).
Proof. intros [? ? ? ? ? ? ? ? ? ? ?]. constructor; simpl; auto. Qed.
Lemma Ev_unbump s0 W s k : Ev s0 W (bump s k) -> Ev s0 W s.
Proof. intros [? ? ? ? ? ? ? ? ? ? ?]. constructor; simpl in *; auto. Qed.

Lemma Ev_gb s0 W s : Ev s0 W s -> exists g, s_gb s = Some g /\ good (s_log s) g.
Proof. intros V. apply (v_gb _ _ _ V). Qed.
Lemma Ev_gw s0 W s : Ev s0 W s -> exists g, s_gw s = Some g /\ good (s_log s) g.
Proof. intros V. apply (v_gw _ _ _ V). Qed.

Lemma Ev_pop_good s0 W s a : Ev s0 W s -> In a (s_pop s) -> good (s_log s) a.
Proof. intros V H. pose proof (v_good _ _ _ V) as G. rewrite Forall_forall in G. auto. Qed.
Lemma Ev_W_good s0 W s a : Ev s0 W s -> In a W -> good (s_log s) a.
Proof. intros V H. pose proof (v_W _ _ _ V) as G. rewrite Forall_forall in G. auto. Qed.

(** State after evaluating [l] (in order). *)
Definition evald (s : st A X) (l : list vec) : st A X :=
  mkSt (s_pop s) (s_gb s) (s_gw s) (s_hist s) (s_nfe s + List.length l) (s_ctr s) (s_log s ++ l) (s_x s).
Definition with_pop (s : st A X) (p : list (agent A)) : st A X :=
  mkSt p (s_gb s) (s_gw s) (s_hist s) (s_nfe s) (s_ctr s) (s_log s) (s_x s).
Definition with_x (s : st A X) (x : X) : st A X :=
  mkSt (s_pop s) (s_gb s) (s_gw s) (s_hist s) (s_nfe s) (s_ctr s) (s_log s) x.

(** Evaluate a batch of agents and keep them at hand. *)
Lemma Ev_eval s0 W s l : Ev s0 W s ->
  Forall (fun a => tgt a = Some (prob_target P (sol a)) /\ feas (sol a) /\
                   attok (s_log s ++ map sol l) (att a)) l ->
  Ev s0 (W ++ l) (evald s (map sol l)).
Proof.
  intros V H.
  assert (Hinc : incl (s_log s) (s_log s ++ map sol l)) by (apply incl_appl, incl_refl).
  assert (Hl : Forall (good (s_log s ++ map sol l)) l).
  { rewrite Forall_forall in *. intros a Ha. destruct (H a Ha) as (H1 & H2 & H3).
    constructor; auto. apply in_or_app; right; apply in_map; exact Ha. }
  constructor; simpl.
  - apply V.
  - apply V.
  - eapply Forall_good_mono; [exact Hinc|apply V].
  - apply Forall_app; split; [eapply Forall_good_mono; [exact Hinc|apply V]|exact Hl].
  - destruct (v_gb _ _ _ V) as (g & E1 & E2). exists g. split; [exact E1|eapply good_mono; eauto].
  - destruct (v_gw _ _ _ V) as (g & E1 & E2). exists g. split; [exact E1|eapply good_mono; eauto].
  - eapply incl_tran; [apply V|exact Hinc].
  - apply Forall_app; split; [apply V|]. rewrite Forall_map.
    eapply Forall_impl; [|exact H]. intros a (_ & ? & _); assumption.
  - rewrite app_length, !map_length. pose proof (v_nfe _ _ _ V). lia.
  - intros C g x Hg Hx. apply in_app_or in Hx. destruct Hx as [Hx|Hx].
    + destruct (v_cov _ _ _ V C g x Hg Hx) as [?|(b & Hb & Hn)]; [auto|]. right.
      exists b; split; [|exact Hn]. rewrite app_assoc. apply in_or_app; left; exact Hb.
    + right. apply in_map_iff in Hx. destruct Hx as (a & <- & Ha). exists a. split.
      * apply in_or_app; right. apply in_or_app; right; exact Ha.
      * rewrite Forall_forall in Hl. rewrite (good_fit _ _ (Hl a Ha)).
        apply no_worse_refl; auto. apply (cov_num C). apply (Hl a Ha).
  - eapply xok_mono; [exact Hinc|apply V].
Qed.

(** Agents whose solution was evaluated before this epoch are dominated by the best so far. *)
Lemma Ev_old s0 W s g a : Ev s0 W s -> cov -> s_gb s0 = Some g -> good (s_log s) a ->
  In (sol a) (s_log s0) -> no_worse (p_mm P) (fit g) (fit a).
Proof.
  intros V C Hg Ga Hin. rewrite (good_fit _ _ Ga). apply (i_cov s0 (v_inv0 _ _ _ V) C g _ Hg Hin).
Qed.

(** Replace population and local agents by some of them, keeping a cover. *)
Lemma Ev_set s0 W s p' W' : Ev s0 W s ->
  (forall a, In a p' -> good (s_log s) a) ->
  (forall a, In a W' -> good (s_log s) a) ->
  (cov -> forall g a, s_gb s0 = Some g -> In a (s_pop s ++ W) ->
            no_worse (p_mm P) (fit g) (fit a) \/
            exists b, In b (p' ++ W') /\ no_worse (p_mm P) (fit b) (fit a)) ->
  Ev s0 W' (with_pop s p').
Proof.
  intros V HG HG' HC. constructor; simpl; try apply V.
  - apply Forall_forall. exact HG.
  - apply Forall_forall. exact HG'.
  - intros C g x Hg Hx. destruct (v_cov _ _ _ V C g x Hg Hx) as [?|(b & Hb & Hn)]; [auto|].
    destruct (HC C g b Hg Hb) as [Hs|(b' & Hb' & Hn')].
    + left. eapply no_worse_trans; eauto.
    + right. exists b'. split; [exact Hb'|]. eapply no_worse_trans; eauto.
Qed.

(** Forget local agents that are dominated by the population, by what is kept, or by the best. *)
Lemma Ev_drop s0 W s W' : Ev s0 W s -> incl W' W ->
  (cov -> forall g a, s_gb s0 = Some g -> In a W -> no_worse (p_mm P) (fit g) (fit a) \/
     exists b, In b (s_pop s ++ W') /\ no_worse (p_mm P) (fit b) (fit a)) ->
  Ev s0 W' s.
Proof.
  intros V HI HC.
  replace s with (with_pop s (s_pop s)) by (destruct s; reflexivity).
  apply Ev_set with (W := W); auto.
  - intros a Ha. eapply Ev_pop_good; eauto.
  - intros a Ha. eapply Ev_W_good; eauto.
  - intros C g a Hg Ha. apply in_app_or in Ha. destruct Ha as [Ha|Ha].
    + right. exists a. split; [apply in_or_app; auto|]. apply no_worse_refl; auto.
      eapply good_num; [apply cov_num; exact C|]. eapply Ev_pop_good; eauto.
    + apply (HC C g a Hg Ha).
Qed.

Lemma Ev_x s0 W s x : Ev s0 W s -> xok (s_log s) x -> Ev s0 W (with_x s x).
Proof. intros [? ? ? ? ? ? ? ? ? ? ?] H. constructor; simpl; auto. Qed.

(** The population slot update [self.pop[i] = a] when [a] is at hand and no worse than the old one,
    or the old one is old enough to be dominated by the best so far. *)
Lemma upd_cover {T} (l : list T) i x y : In y l -> In y (upd l i x) \/ nth_error l i = Some y.
Proof.
  revert i; induction l as [|z l IH]; intros i H; [destruct H|]. destruct i as [|i]; simpl in *.
  - destruct H as [->|H]; auto.
  - destruct H as [->|H]; auto. destruct (IH i H); auto.
Qed.
Lemma upd_in {T} (l : list T) i x : i < List.length l -> In x (upd l i x).
Proof. revert i; induction l as [|z l IH]; intros [|i] H; simpl in *; try lia; auto. right; apply IH; lia. Qed.

Lemma Ev_pop_set s0 W s i a W' : Ev s0 W s -> i < List.length (s_pop s) ->
  good (s_log s) a -> incl W' W ->
  (cov -> forall g b, s_gb s0 = Some g -> nth_error (s_pop s) i = Some b \/ In b W ->
     no_worse (p_mm P) (fit g) (fit b) \/ no_worse (p_mm P) (fit a) (fit b) \/ In b W') ->
  Ev s0 W' (with_pop s (upd (s_pop s) i a)).
Proof.
  intros V Hi Ga HI HC. apply Ev_set with (W := W); auto.
  - intros b Hb. apply upd_In in Hb. destruct Hb as [->|Hb]; [exact Ga|]. eapply Ev_pop_good; eauto.
  - intros b Hb. eapply Ev_W_good; eauto.
  - intros C g b Hg Hb.
    assert (Nb : num (fit b)).
    { eapply good_num; [apply cov_num; exact C|]. apply in_app_or in Hb.
      destruct Hb; [eapply Ev_pop_good|eapply Ev_W_good]; eauto. }
    assert (K : nth_error (s_pop s) i = Some b \/ In b W ->
       no_worse (p_mm P) (fit g) (fit b) \/
       exists b0, In b0 (upd (s_pop s) i a ++ W') /\ no_worse (p_mm P) (fit b0) (fit b)).
    { intros H. destruct (HC C g b Hg H) as [?|[?|?]]; auto; right.
      - exists a. split; [apply in_or_app; left; apply upd_in; exact Hi|assumption].
      - exists b. split; [apply in_or_app; auto|apply no_worse_refl; auto]. }
    apply in_app_or in Hb. destruct Hb as [Hb|Hb]; [|auto].
    destruct (upd_cover (s_pop s) i a b Hb) as [H|H]; [|auto].
    right. exists b. split; [apply in_or_app; auto|apply no_worse_refl; auto].
Qed.

(** ** wp rules that keep [Ev] *)
Lemma wp_get_target x (Q : target -> st A X -> Prop) s :
  Q (prob_target P x) (evald s [x]) -> wp (get_target P x) Q s.
Proof. intros H. unfold get_target, wp, bindM, add_nfe, add_log, ret. simpl. exact H. Qed.

Lemma wp_amend_clip x (Q : vec -> st A X -> Prop) s :
  (forall y, List.length y = n_dims P -> Q y s) -> wp (amend_clip P x) Q s.
Proof. intros H. unfold amend_clip. apply wp_ret, H. unfold vtab. rewrite map_length, seq_length. reflexivity. Qed.

Hypothesis feas_correct : forall k x, List.length x = n_dims P -> feas (p_correct P k x).

Lemma wp_correct_solution x (Q : vec -> st A X -> Prop) s :
  (forall y k, feas y -> Q y (bump s k)) -> wp (correct_solution P x) Q s.
Proof.
  intros H. unfold correct_solution, correct_solution_with. apply wp_bind, wp_amend_clip. intros y Hy.
  apply wp_bind, wp_tick. intros k. apply wp_ret, H. apply feas_correct; exact Hy.
Qed.

(** update_target_for_population in the modes that evaluate. *)
Lemma wp_update_target_avail pop (Q : list (agent A) -> st A X -> Prop) s : is_avail md = true ->
  (forall l, l = map (fun a => with_tgt a (prob_target P (sol a))) pop ->
             Q l (evald s (map sol pop))) ->
  wp (update_target_for_population P md pop) Q s.
Proof.
  intros Hm H. unfold update_target_for_population. rewrite Hm. apply wp_bind.
  apply wp_for_list with (I := fun pre acc s' =>
     acc = map (fun a => with_tgt a (prob_target P (sol a))) pre /\
     s' = mkSt (s_pop s) (s_gb s) (s_gw s) (s_hist s) (s_nfe s) (s_ctr s) (s_log s ++ map sol pre) (s_x s)).
  - split; [reflexivity|]. simpl. rewrite app_nil_r. destruct s; reflexivity.
  - intros pre a suf acc s' _ [-> ->]. unfold get_target_uncounted, wp, bindM, add_log, ret. simpl.
    rewrite !map_app, <- app_assoc. split; reflexivity.
  - intros l s' [-> ->]. unfold wp, bindM, add_nfe, ret. simpl.
    specialize (H _ eq_refl). unfold evald in H. rewrite map_length in H. exact H.
Qed.
Lemma wp_update_target_single pop (Q : list (agent A) -> st A X -> Prop) s : is_avail md = false ->
  Q pop s -> wp (update_target_for_population P md pop) Q s.
Proof. intros Hm H. unfold update_target_for_population. rewrite Hm. apply wp_ret. exact H. Qed.


(** ** Global best / worst bookkeeping at the end of an epoch *)

Lemma last_item_In {T} (l : list T) x : last_item l = Ok x -> In x l.
Proof.
  intros H. destruct l as [|a l]; [discriminate|].
  destruct (last_item_nonempty (a :: l)) as (y & l' & Ey & El); [congruence|].
  rewrite El in H. inversion H; subst. rewrite Ey. apply in_or_app; right; left; reflexivity.
Qed.

Lemma good_get_better L a b rv : good L a -> good L b ->
  exists r, get_better_agent a b (p_mm P) rv = Ok r /\ (r = a \/ r = b) /\ good L r /\
    (num (fit a) -> num (fit b) ->
       if rv then no_worse (p_mm P) (fit a) (fit r) /\ no_worse (p_mm P) (fit b) (fit r)
       else no_worse (p_mm P) (fit r) (fit a) /\ no_worse (p_mm P) (fit r) (fit b)).
Proof.
  intros Ga Gb. destruct rv.
  - destruct (get_better_agent_rev_spec a b (p_mm P) (good_wf _ _ Ga) (good_wf _ _ Gb) Vmm) as (r & E1 & E2 & E3).
    exists r. split; [exact E1|]. split; [exact E2|]. split; [destruct E2; subst; assumption|]. exact E3.
  - destruct (get_better_agent_spec a b (p_mm P) (good_wf _ _ Ga) (good_wf _ _ Gb) Vmm) as (r & E1 & E2 & E3 & _).
    exists r. split; [exact E1|]. split; [exact E2|]. split; [destruct E2; subst; assumption|]. exact E3.
Qed.

(** [g] is the best-so-far of the recorded generation bests [cs]. *)
Definition best_so_far (cs : list (agent A)) (g : agent A) : Prop :=
  In g cs /\ (obj_num P feas -> forall c, In c cs -> no_worse (p_mm P) (fit g) (fit c)).
Definition worst_so_far (cs : list (agent A)) (g : agent A) : Prop :=
  In g cs /\ (obj_num P feas -> forall c, In c cs -> no_worse (p_mm P) (fit c) (fit g)).

(** The best / worst member of one generation. *)
Definition best_of (pop : list (agent A)) (b : agent A) : Prop :=
  In b pop /\ (obj_num P feas -> forall a, In a pop -> no_worse (p_mm P) (fit b) (fit a)).
Definition worst_of (pop : list (agent A)) (w : agent A) : Prop :=
  In w pop /\ (obj_num P feas -> forall a, In a pop -> no_worse (p_mm P) (fit a) (fit w)).

(** History after [i] completed epochs. *)
Record Hist (i : nat) (s : st A X) : Prop := mkHistInv {
  hi_gb : List.length (h_gb (s_hist s)) = S i;
  hi_cb : List.length (h_cb (s_hist s)) = S i;
  hi_gw : List.length (h_gw (s_hist s)) = S i;
  hi_cw : List.length (h_cw (s_hist s)) = S i;
  hi_time : List.length (h_time (s_hist s)) = i;
  hi_div : List.length (h_div (s_hist s)) = i;
  hi_gbf : h_gbf (s_hist s) = map fit (tl (h_gb (s_hist s)));
  hi_cbf : h_cbf (s_hist s) = map fit (tl (h_cb (s_hist s)));
  hi_ggb : Forall (good (s_log s)) (h_gb (s_hist s));
  hi_gcb : Forall (good (s_log s)) (h_cb (s_hist s));
  hi_ggw : Forall (good (s_log s)) (h_gw (s_hist s));
  hi_gcw : Forall (good (s_log s)) (h_cw (s_hist s));
  hi_best : forall j g, nth_error (h_gb (s_hist s)) j = Some g -> best_so_far (firstn (S j) (h_cb (s_hist s))) g;
  hi_worst : forall j g, nth_error (h_gw (s_hist s)) j = Some g -> worst_so_far (firstn (S j) (h_cw (s_hist s))) g;
  hi_pop : if p_save_pop P
           then Forall2 best_of (h_pop (s_hist s)) (tl (h_cb (s_hist s))) /\
                Forall2 worst_of (h_pop (s_hist s)) (tl (h_cw (s_hist s))) /\
                Forall (fun p => IL (List.length p) /\ Forall (good (s_log s)) p) (h_pop (s_hist s))
           else h_pop (s_hist s) = [] }.

Lemma firstn_app_exact {T} (l r : list T) n : n <= List.length l -> firstn n (l ++ r) = firstn n l.
Proof. intros H. rewrite firstn_app. replace (n - List.length l) with 0 by lia. simpl. apply app_nil_r. Qed.
Lemma tl_app {T} (l : list T) x : l <> [] -> tl (l ++ [x]) = tl l ++ [x].
Proof. destruct l; [congruence|reflexivity]. Qed.
Lemma nth_error_app_last {T} (l : list T) x j y : nth_error (l ++ [x]) j = Some y ->
  (j < List.length l /\ nth_error l j = Some y) \/ (j = List.length l /\ y = x).
Proof.
  intros H. destruct (Nat.lt_ge_cases j (List.length l)) as [Hl|Hl].
  - left. rewrite nth_error_app1 in H by exact Hl. auto.
  - right. rewrite nth_error_app2 in H by exact Hl.
    destruct (j - List.length l) as [|k] eqn:Ek; simpl in H.
    + inversion H. split; [lia|reflexivity].
    + destruct k; discriminate.
Qed.

(** Extending a best-so-far chain. *)
Lemma chain_step (gs cs : list (agent A)) L g c g' (Rel : f64 -> f64 -> Prop) i :
  (forall x y z, Rel x y -> Rel y z -> Rel x z) ->
  List.length gs = S i -> List.length cs = S i ->
  (forall j q, nth_error gs j = Some q -> In q (firstn (S j) cs) /\
       (obj_num P feas -> forall b, In b (firstn (S j) cs) -> Rel (fit q) (fit b))) ->
  last_item gs = Ok g -> (g' = c \/ g' = g) ->
  (obj_num P feas -> Rel (fit g') (fit c) /\ Rel (fit g') (fit g)) ->
  Forall (good L) gs ->
  forall j q, nth_error (gs ++ [g']) j = Some q -> In q (firstn (S j) (cs ++ [c])) /\
       (obj_num P feas -> forall b, In b (firstn (S j) (cs ++ [c])) -> Rel (fit q) (fit b)).
Proof.
  intros Tr Lg Lc HC Hl Hor Hrel _ j q Hq. apply nth_error_app_last in Hq. destruct Hq as [[Hj Hq]|[-> ->]].
  - rewrite firstn_app_exact by lia. apply HC; exact Hq.
  - rewrite Lg. rewrite firstn_all2 by (rewrite app_length; simpl; lia).
    assert (Hg : nth_error gs i = Some g).
    { destruct (last_item_nonempty gs) as (x & l' & Ex & El); [destruct gs; [discriminate|congruence]|].
      rewrite El in Hl. inversion Hl; subst x. rewrite Ex in Lg |- *. rewrite app_length in Lg; simpl in Lg.
      rewrite nth_error_app2 by lia. replace (i - List.length l') with 0 by lia. reflexivity. }
    destruct (HC i g Hg) as [H1 H2]. rewrite firstn_all2 in H1, H2 by lia.
    split.
    + apply in_or_app. destruct Hor as [->| ->]; [right; left; reflexivity|left; exact H1].
    + intros N b Hb. destruct (Hrel N) as [R1 R2]. apply in_app_or in Hb. destruct Hb as [Hb|[<-|[]]]; [|exact R1].
      eapply Tr; [exact R2|apply H2; assumption].
Qed.

Definition upd_hist (s : st A X) (h : history A) : st A X :=
  mkSt (s_pop s) (s_gb s) (s_gw s) h (s_nfe s) (s_ctr s) (s_log s) (s_x s).

(** What an algorithm has to show about its evolve: from an epoch boundary it raises nothing,
    keeps [Ev] and evaluates between kmin and kmax solutions. *)
Definition evolve_contract (kmin kmax : nat) (ev : nat -> M A X unit) : Prop :=
  forall ep s, 1 <= ep -> Inv s ->
    wp (ev ep) (fun _ s' => Ev s [] s' /\ IL (List.length (s_pop s')) /\
       List.length (s_log s) + kmin <= List.length (s_log s') <= List.length (s_log s) + kmax) s.

Lemma Hist_good_mono i s s' : Hist i s -> s_hist s' = s_hist s -> incl (s_log s) (s_log s') -> Hist i s'.
Proof.
  intros [? ? ? ? ? ? ? ? ? ? ? ? ? ? Hp] Eh Hi.
  constructor; rewrite ?Eh; auto; try (eapply Forall_good_mono; eauto).
  destruct (p_save_pop P); auto. destruct Hp as (? & ? & Hp3). split; [assumption|]. split; [assumption|].
  eapply Forall_impl; [|exact Hp3]. intros p [? ?]; split; auto. eapply Forall_good_mono; eauto.
Qed.

Lemma agent_copy_all L l : Forall (good L) l -> map_res agent_copy l = Ok l.
Proof.
  intros H. rewrite (map_res_all_ok _ (fun a => a)); [rewrite map_id; reflexivity|].
  intros a Ha. apply agent_copy_wf. rewrite Forall_forall in H. eapply good_wf; eauto.
Qed.

(** [should_terminate] evaluated on a state after epoch [i]. *)
Definition fires (t : termination) (i : nat) (s : st A X) (r : reason) : Prop :=
  exists k, should_terminate t (Z.of_nat i) (Z.of_nat (s_nfe s)) (e_time E k)
      (Z.of_nat (repeated_times (tm_eps t) (map fit (h_gb (s_hist s))))) = Some r.
Definition quiet (t : termination) (i : nat) (s : st A X) : Prop :=
  exists k, should_terminate t (Z.of_nat i) (Z.of_nat (s_nfe s)) (e_time E k)
      (Z.of_nat (repeated_times (tm_eps t) (map fit (h_gb (s_hist s))))) = None.

Lemma epoch_step_ok al tm kmin kmax i s :
  evolve_contract kmin kmax (al_evolve al) -> Inv s -> Hist i s ->
  wp (epoch_step E P al tm (S i)) (fun r s' =>
     Inv s' /\ Hist (S i) s' /\
     List.length (s_log s) + kmin <= List.length (s_log s') <= List.length (s_log s) + kmax /\
     incl (s_log s) (s_log s') /\
     (exists g c w v, h_gb (s_hist s') = h_gb (s_hist s) ++ [g] /\ h_cb (s_hist s') = h_cb (s_hist s) ++ [c] /\
                      h_gw (s_hist s') = h_gw (s_hist s) ++ [w] /\ h_cw (s_hist s') = h_cw (s_hist s) ++ [v]) /\
     match tm with
     | None => r = None
     | Some t => match r with Some q => fires t (S i) s' q | None => quiet t (S i) s' end
     end) s.
Proof.
  intros HC I H. unfold epoch_step. apply wp_bind, wp_tick. intros k0. apply wp_bind.
  assert (I0 : Inv (bump s (S k0))) by (destruct I; constructor; assumption).
  eapply wp_mono; [apply (HC (S i) (bump s (S k0))); [lia|exact I0]|].
  intros [] s1 (V & Hlen & Hcnt). simpl in Hcnt.
  apply wp_bind, wp_get_pop.
  unfold update_global_best_agent. apply wp_bind.
  pose proof (v_good _ _ _ V) as Hgood. pose proof (v_hist _ _ _ V) as Eh. simpl in Eh.
  assert (Hne : s_pop s1 <> []) by (pose proof (IL_pos _ Hlen); intros C; rewrite C in *; simpl in *; lia).
  destruct (sorted_best_worst (e_argsort E) Hargsort (s_pop s1) (p_mm P)
              (Forall_good_target _ _ Hgood) Hne) as (sp & ix & b & w & E1 & HP & E2 & E3 & Hb & Hw & Bb & Bw).
  apply wp_bind. eapply wp_lift; [exact E1|]. cbv beta iota.
  apply wp_bind. eapply wp_lift; [exact E2|]. apply wp_bind. eapply wp_lift; [exact E3|].
  apply wp_bind, wp_get. cbv zeta.
  destruct (i_gb _ I) as (g & Eg & Gg & Lg). destruct (i_hgw _ I) as (gw & Lgw & Ggw).
  assert (Hinc : incl (s_log s) (s_log s1)) by (apply (v_ext _ _ _ V)).
  assert (Gg1 : good (s_log s1) g) by (eapply good_mono; eauto).
  assert (Ggw1 : good (s_log s1) gw) by (eapply good_mono; eauto).
  rewrite Forall_forall in Hgood. pose proof (Hgood b Hb) as Gb. pose proof (Hgood w Hw) as Gw.
  apply wp_bind. eapply wp_lift; [rewrite Eh; exact Lg|].
  destruct (good_get_better _ b g false Gb Gg1) as (r & Er & Hr & Gr & Nr).
  apply wp_bind. eapply wp_lift; [exact Er|].
  apply wp_bind. eapply wp_lift; [rewrite Eh; exact Lgw|].
  destruct (good_get_better _ w gw true Gw Ggw1) as (q & Eq & Hq & Gq & Nq).
  apply wp_bind. eapply wp_lift; [exact Eq|].
  apply wp_bind. unfold set_hist at 1. unfold wp at 1. apply wp_ret.
  apply wp_bind. unfold set_gb. unfold wp at 1. simpl.
  (* sort flag *)
  apply wp_bind.
  match goal with |- wp _ _ ?st => set (s2 := st) end.
  assert (K : exists p2, wp (when (al_sort al) (set_pop sp)) (fun _ s' => s' = with_pop s2 p2) s2 /\ Permutation p2 (s_pop s1)).
  { destruct (al_sort al).
    - exists sp. split; [|exact HP]. unfold wp, when, set_pop. reflexivity.
    - exists (s_pop s1). split; [|reflexivity]. unfold wp, when, ret. reflexivity. }
  destruct K as (p2 & K1 & HP2). eapply wp_mono; [exact K1|]. intros [] s3 ->.
  apply wp_bind, wp_tick. intros k1. apply wp_bind, wp_get_pop. simpl.
  assert (Hg2 : Forall (good (s_log s1)) p2).
  { apply Forall_forall. intros a Ha. apply Hgood. eapply Permutation_in; eauto. }
  unfold track_optimize_step. apply wp_bind. apply wp_bind, wp_get. cbv zeta.
  apply wp_bind.
  apply wp_lift with (y := if p_save_pop P then [p2] else []).
  { destruct (p_save_pop P); [|reflexivity]. unfold duplicate_pop. rewrite (agent_copy_all _ _ Hg2). reflexivity. }
  apply wp_bind. simpl. eapply wp_lift; [rewrite Eh; apply last_item_app|].
  apply wp_bind. eapply wp_lift; [apply fitness_fit; eapply good_has_target; exact Gr|].
  apply wp_bind. eapply wp_lift; [rewrite Eh; apply last_item_app|].
  apply wp_bind. eapply wp_lift; [apply fitness_fit; eapply good_has_target; exact Gb|].
  unfold set_hist, wp at 1. simpl. rewrite !Eh.
  match goal with |- wp _ _ ?st => set (s4 := st) end.
  (* numeric facts *)
  assert (NUM : obj_num P feas -> no_worse (p_mm P) (fit r) (fit b) /\ no_worse (p_mm P) (fit r) (fit g)).
  { intros N. apply Nr; eapply good_num; eauto. }
  assert (NUMW : obj_num P feas -> no_worse (p_mm P) (fit w) (fit q) /\ no_worse (p_mm P) (fit gw) (fit q)).
  { intros N. apply Nq; eapply good_num; eauto. }
  assert (BEST : best_of p2 b).
  { split; [eapply Permutation_in; [symmetry; exact HP2|exact Hb]|].
    intros N a Ha. apply npord_no_worse; auto; try (eapply good_num; eauto).
    - apply Hgood. eapply Permutation_in; eauto.
    - apply Bb. eapply Permutation_in; eauto. }
  assert (WORST : worst_of p2 w).
  { split; [eapply Permutation_in; [symmetry; exact HP2|exact Hw]|].
    intros N a Ha. apply npord_no_worse; auto; try (eapply good_num; eauto).
    - apply Hgood. eapply Permutation_in; eauto.
    - apply Bw. eapply Permutation_in; eauto. }
  assert (L2 : List.length p2 = List.length (s_pop s1)) by (apply Permutation_length; exact HP2).
  pose proof (hi_gb _ _ H) as LG. pose proof (hi_cb _ _ H) as LC.
  pose proof (hi_gw _ _ H) as LGW. pose proof (hi_cw _ _ H) as LCW.
  assert (NEgb : h_gb (s_hist s) <> []) by (intros C; rewrite C in LG; discriminate).
  assert (NEcb : h_cb (s_hist s) <> []) by (intros C; rewrite C in LC; discriminate).
  assert (NEcw : h_cw (s_hist s) <> []) by (intros C; rewrite C in LCW; discriminate).
  assert (I4 : Inv s4).
  { constructor; simpl.
    - rewrite L2; exact Hlen.
    - exact Hg2.
    - exists r. repeat split; auto; try apply Gr. apply last_item_app.
    - apply (v_gw _ _ _ V).
    - exists q. split; [apply last_item_app|exact Gq].
    - apply V.
    - apply V.
    - intros C g' x Hg' Hx. inversion Hg'; subst g'. pose proof (cov_num C) as N.
      destruct (NUM N) as [N1 N2].
      destruct (v_cov _ _ _ V C g x) as [Hn|(a & Ha & Hn)]; auto.
      + eapply no_worse_trans; eauto.
      + rewrite app_nil_r in Ha. eapply no_worse_trans; [|exact Hn].
        eapply no_worse_trans; [exact N1|]. apply BEST; auto. eapply Permutation_in; [symmetry; exact HP2|exact Ha].
    - apply V. }
  assert (H4 : Hist (S i) s4).
  { constructor; simpl.
    - rewrite app_length; simpl; lia.
    - rewrite app_length; simpl; lia.
    - rewrite app_length; simpl; lia.
    - rewrite app_length; simpl; lia.
    - rewrite app_length, (hi_time _ _ H); simpl; lia.
    - rewrite app_length, (hi_div _ _ H); simpl; lia.
    - rewrite tl_app by exact NEgb. rewrite map_app, (hi_gbf _ _ H). reflexivity.
    - rewrite tl_app by exact NEcb. rewrite map_app, (hi_cbf _ _ H). reflexivity.
    - apply Forall_app; split; [eapply Forall_good_mono; [exact Hinc|apply H]|constructor; [exact Gr|constructor]].
    - apply Forall_app; split; [eapply Forall_good_mono; [exact Hinc|apply H]|constructor; [exact Gb|constructor]].
    - apply Forall_app; split; [eapply Forall_good_mono; [exact Hinc|apply H]|constructor; [exact Gq|constructor]].
    - apply Forall_app; split; [eapply Forall_good_mono; [exact Hinc|apply H]|constructor; [exact Gw|constructor]].
    - unfold best_so_far.
      apply (chain_step _ _ (s_log s) g b r (no_worse (p_mm P)) i); auto; try apply H.
      intros x y z; apply no_worse_trans.
    - unfold worst_so_far.
      apply (chain_step _ _ (s_log s) gw w q (fun x y => no_worse (p_mm P) y x) i); auto; try apply H.
      intros x y z H1 H2; eapply no_worse_trans; eauto.
    - pose proof (hi_pop _ _ H) as HP'. destruct (p_save_pop P); [|rewrite HP'; reflexivity].
      destruct HP' as (P1 & P2 & P3). rewrite !tl_app by assumption. split; [|split].
      + apply Forall2_app; [exact P1|constructor; [exact BEST|constructor]].
      + apply Forall2_app; [exact P2|constructor; [exact WORST|constructor]].
      + apply Forall_app; split.
        * eapply Forall_impl; [|exact P3]. intros p [? ?]; split; auto. eapply Forall_good_mono; eauto.
        * constructor; [|constructor]. split; [rewrite L2; exact Hlen|exact Hg2]. }
  assert (X4 : exists g c w v, h_gb (s_hist s4) = h_gb (s_hist s) ++ [g] /\ h_cb (s_hist s4) = h_cb (s_hist s) ++ [c] /\
                      h_gw (s_hist s4) = h_gw (s_hist s) ++ [w] /\ h_cw (s_hist s4) = h_cw (s_hist s) ++ [v]).
  { exists r, b, q, w. simpl. auto. }
  unfold check_termination_end. destruct tm as [t|].
  - apply wp_bind, wp_get. apply wp_bind.
    eapply wp_lift.
    + unfold get_global_repeated_times.
      rewrite (map_res_fitness _ (Forall_good_target _ _ (hi_ggb _ _ H4))). reflexivity.
    + apply wp_bind, wp_tick. intros k2. apply wp_ret.
      assert (I5 : Inv (bump s4 (S k2))) by (destruct I4; constructor; assumption).
      assert (H5 : Hist (S i) (bump s4 (S k2))) by (destruct H4; constructor; assumption).
      split; [exact I5|]. split; [exact H5|]. split; [exact Hcnt|]. split; [exact Hinc|]. split; [exact X4|].
      destruct (should_terminate t (Z.of_nat (S i)) (Z.of_nat (s_nfe s4)) (e_time E k2) _) eqn:ET;
        exists k2; exact ET.
  - apply wp_ret. split; [exact I4|]. split; [exact H4|]. split; [exact Hcnt|]. split; [exact Hinc|]. split; [exact X4|]. reflexivity.
Qed.


(** State between initialization and after_initialization. *)
Record Start (s : st A X) : Prop := mkStart {
  st_len : IL (List.length (s_pop s));
  st_good : Forall (good (s_log s)) (s_pop s);
  st_log : Forall feas (s_log s);
  st_nfe : s_nfe s + nd = n0 + List.length (s_log s);
  st_cov : cov -> forall x, In x (s_log s) ->
             exists b, In b (s_pop s) /\ no_worse (p_mm P) (fit b) (fitx P x);
  st_hist : s_hist s = hist_new;
  st_x : xok (s_log s) (s_x s) }.

Lemma getitem_rev_last {T} (l : list T) w : last_item l = Ok w -> hd_error (rev l) = Some w.
Proof. unfold last_item. destruct (rev l); simpl; intros H; inversion H; reflexivity. Qed.

Lemma after_initialization_ok sort s : Start s ->
  wp (after_initialization E P sort) (fun _ s' => Inv s' /\ Hist 0 s' /\ s_log s' = s_log s) s.
Proof.
  intros S0. unfold after_initialization. apply wp_bind, wp_get_pop.
  pose proof (st_good _ S0) as Hgood.
  assert (Hne : s_pop s <> []) by (pose proof (IL_pos _ (st_len _ S0)); intros C; rewrite C in *; simpl in *; lia).
  destruct (sorted_best_worst (e_argsort E) Hargsort (s_pop s) (p_mm P)
              (Forall_good_target _ _ Hgood) Hne) as (sp & ix & b & w & E1 & HP & E2 & E3 & Hb & Hw & Bb & Bw).
  rewrite Forall_forall in Hgood. pose proof (Hgood b Hb) as Gb. pose proof (Hgood w Hw) as Gw.
  apply wp_bind. apply wp_lift with (y := (sp, Some [b], Some [w])).
  { unfold get_special_agents. rewrite E1. simpl.
    destruct sp as [|b' sp']; [discriminate|]. simpl in E2. inversion E2; subst b'.
    simpl. rewrite (agent_copy_wf b (good_wf _ _ Gb)). simpl.
    apply getitem_rev_last in E3. simpl in E3.
    destruct (rev sp' ++ [b]) as [|w' r] eqn:Er; [discriminate|]. simpl in E3. inversion E3; subst w'.
    simpl. rewrite (agent_copy_wf w (good_wf _ _ Gw)). reflexivity. }
  cbv beta iota. apply wp_bind. eapply wp_lift; [reflexivity|]. apply wp_bind. eapply wp_lift; [reflexivity|].
  apply wp_bind. unfold set_gb, wp at 1. apply wp_bind. unfold set_gw, wp at 1. simpl.
  apply wp_bind.
  match goal with |- wp _ _ ?st => set (s2 := st) end.
  assert (K : exists p2, wp (when sort (set_pop sp)) (fun _ s' => s' = with_pop s2 p2) s2 /\ Permutation p2 (s_pop s)).
  { destruct sort.
    - exists sp. split; [|exact HP]. unfold wp, when, set_pop. reflexivity.
    - exists (s_pop s). split; [|reflexivity]. unfold wp, when, ret. reflexivity. }
  destruct K as (p2 & K1 & HP2). eapply wp_mono; [exact K1|]. intros [] s3 ->.
  apply wp_bind, wp_get. apply wp_bind.
  eapply wp_lift.
  { unfold store_initial. rewrite (agent_copy_wf b (good_wf _ _ Gb)), (agent_copy_wf w (good_wf _ _ Gw)). reflexivity. }
  unfold set_hist, wp; simpl.
  assert (Hg2 : Forall (good (s_log s)) p2).
  { apply Forall_forall. intros a Ha. apply Hgood. eapply Permutation_in; eauto. }
  rewrite (st_hist _ S0). split; [|split].
  - constructor; simpl.
    + rewrite (Permutation_length HP2). apply S0.
    + exact Hg2.
    + exists b. split; [reflexivity|]. split; [exact Gb|reflexivity].
    + exists w. split; [reflexivity|exact Gw].
    + exists w. split; [reflexivity|exact Gw].
    + apply S0.
    + apply S0.
    + intros C g x Hg Hx. inversion Hg; subst g. destruct (st_cov _ S0 C x Hx) as (a & Ha & Hn).
      eapply no_worse_trans; [|exact Hn]. pose proof (cov_num C) as N.
      apply npord_no_worse; auto; eapply good_num; eauto.
    + apply S0.
  - constructor; simpl; auto; try (constructor; [assumption|constructor]).
    + intros j g Hj. destruct j; simpl in Hj; [|destruct j; discriminate]. inversion Hj; subst g.
      split; [left; reflexivity|]. intros N c [<-|[]]. apply no_worse_refl; auto. eapply good_num; eauto.
    + intros j g Hj. destruct j; simpl in Hj; [|destruct j; discriminate]. inversion Hj; subst g.
      split; [left; reflexivity|]. intros N c [<-|[]]. apply no_worse_refl; auto. eapply good_num; eauto.
    + destruct (p_save_pop P); auto.
  - reflexivity.
Qed.

(** Early-stop counter read off the history after epoch [j]. *)
Definition es_at (t : termination) (fits : list f64) (j : nat) : nat :=
  repeated_times (tm_eps t) (firstn (S j) fits).

(** No criterion other than the clock was met after epoch [j] (history fits, counter nfe). *)
Definition past_quiet (t : termination) (i : nat) (s : st A X) : Prop :=
  forall j, 1 <= j <= i ->
    (forall m, tm_epoch t = Some m -> (Z.of_nat j < m)%Z) /\
    (forall m, tm_es t = Some m -> (Z.of_nat (es_at t (map fit (h_gb (s_hist s))) j) < m)%Z) /\
    (forall m, tm_time t = Some m -> exists k, fle m (fsub (e_time E k) (tm_start t)) = false).

Lemma quiet_facts t i s : quiet t i s ->
  (forall m, tm_epoch t = Some m -> (Z.of_nat i < m)%Z) /\
  (forall m, tm_fe t = Some m -> (Z.of_nat (s_nfe s) < m)%Z) /\
  (forall m, tm_es t = Some m -> (Z.of_nat (repeated_times (tm_eps t) (map fit (h_gb (s_hist s)))) < m)%Z) /\
  (forall m, tm_time t = Some m -> exists k, fle m (fsub (e_time E k) (tm_start t)) = false).
Proof.
  intros (k & H). unfold should_terminate in H.
  destruct (match tm_epoch t with Some m => (m <=? Z.of_nat i)%Z | None => false end) eqn:E1; [discriminate|].
  destruct (match tm_fe t with Some m => (m <=? Z.of_nat (s_nfe s))%Z | None => false end) eqn:E2; [discriminate|].
  destruct (match tm_time t with Some m => fle m (fsub (e_time E k) (tm_start t)) | None => false end) eqn:E3; [discriminate|].
  destruct (match tm_es t with Some m => _ | None => false end) eqn:E4; [discriminate|].
  repeat split; intros m Hm; [rewrite Hm in E1; lia|rewrite Hm in E2; lia|rewrite Hm in E4; lia|].
  exists k. rewrite Hm in E3. exact E3.
Qed.

Lemma firstn_map_app {T U} (f : T -> U) l x n : n <= List.length l -> firstn n (map f (l ++ [x])) = firstn n (map f l).
Proof. intros H. rewrite map_app. apply firstn_app_exact. rewrite map_length; exact H. Qed.

Lemma main_loop_ok al tm kmin kmax base n i s :
  evolve_contract kmin kmax (al_evolve al) -> Inv s -> Hist i s ->
  base + kmin * i <= List.length (s_log s) <= base + kmax * i ->
  (forall t, tm = Some t -> past_quiet t i s) ->
  (forall t, tm = Some t -> 0 < i -> quiet t i s) ->
  wp (main_loop E P al tm n (S i)) (fun _ s' =>
     exists e, i <= e /\ e <= i + n /\ (0 < n -> i < e) /\ Inv s' /\ Hist e s' /\
       base + kmin * e <= List.length (s_log s') <= base + kmax * e /\
       (e = i + n \/ exists t r, tm = Some t /\ fires t e s' r) /\
       (forall t, tm = Some t -> 0 < e -> past_quiet t (e - 1) s') /\
       (forall t m, tm = Some t -> tm_fe t = Some m -> 1 < e -> (Z.of_nat (s_nfe s') < m + Z.of_nat kmax)%Z)) s.
Proof.
  intros HC. revert i s; induction n as [|n IH]; intros i s I H Hcnt Hpq Hq; simpl.
  - apply wp_ret. exists i. split; [lia|]. split; [lia|]. split; [lia|]. split; [exact I|]. split; [exact H|].
    split; [exact Hcnt|]. split; [left; lia|]. split.
    + intros t Ht He j Hj. apply (Hpq t Ht). lia.
    + intros t m Ht Hm Hi. destruct (quiet_facts t i s (Hq t Ht ltac:(lia))) as (_ & Q & _). specialize (Q m Hm). lia.
  - apply wp_bind. eapply wp_mono; [apply (epoch_step_ok al tm kmin kmax i s HC I H)|].
    intros r s' (I' & H' & Hc & Hinc & (g & c & w & v & Eg & _) & Hr). simpl in Hr.
    assert (Hcnt' : base + kmin * S i <= List.length (s_log s') <= base + kmax * S i) by nia.
    assert (Hpq' : forall t, tm = Some t -> past_quiet t i s').
    { intros t Ht j Hj. destruct (Hpq t Ht j Hj) as (Q1 & Q2 & Q3). split; [exact Q1|]. split; [|exact Q3]. intros m Hm.
      unfold es_at. rewrite Eg, firstn_map_app; [apply (Q2 m Hm)|]. rewrite (hi_gb _ _ H). lia. }
    assert (FE' : forall t m, tm = Some t -> tm_fe t = Some m -> 1 < S i -> (Z.of_nat (s_nfe s') < m + Z.of_nat kmax)%Z).
    { intros t m Ht Hm Hi. destruct (quiet_facts t i s (Hq t Ht ltac:(lia))) as (_ & Q & _). specialize (Q m Hm).
      pose proof (i_nfe _ I). pose proof (i_nfe _ I'). lia. }
    destruct r as [rr|].
    + apply wp_ret. exists (S i). split; [lia|]. split; [lia|]. split; [lia|]. split; [exact I'|]. split; [exact H'|].
      split; [exact Hcnt'|]. split; [|split].
      * right. destruct tm as [t|]; [|discriminate]. exists t, rr. split; [reflexivity|exact Hr].
      * intros t Ht _. replace (S i - 1) with i by lia. apply (Hpq' t Ht).
      * exact FE'.
    + assert (Hq' : forall t, tm = Some t -> 0 < S i -> quiet t (S i) s').
      { intros t Ht _. rewrite Ht in Hr. exact Hr. }
      assert (Hpq'' : forall t, tm = Some t -> past_quiet t (S i) s').
      { intros t Ht j Hj. destruct (Nat.eq_dec j (S i)) as [->|Hne]; [|apply (Hpq' t Ht); lia].
        destruct (quiet_facts t (S i) s' (Hq' t Ht ltac:(lia))) as (Q1 & _ & Q3 & Q4). split; [exact Q1|]. split; [|exact Q4].
        intros m Hm. unfold es_at. rewrite firstn_all2; [apply (Q3 m Hm)|]. rewrite map_length, (hi_gb _ _ H'). lia. }
      eapply wp_mono; [apply (IH (S i) s'); auto|].
      intros [] s'' (e & R1 & R2 & R3 & R4). exists e. split; [lia|]. split; [lia|]. split; [lia|].
      destruct R4 as (R4 & R5 & R6 & R7 & R8). repeat (split; [assumption|]). split; [|exact R8].
      destruct R7; [left; lia|right; assumption].
Qed.

End Contract.

(** ** Initial population *)
Lemma reorder_perm {T} ord (l : list T) : Permutation (reorder ord l) l.
Proof.
  unfold reorder.
  set (o := nodup Nat.eq_dec (filter (fun i => i <? List.length l) ord)).
  set (r := filter (fun i => negb (existsb (Nat.eqb i) o)) (seq 0 (List.length l))).
  assert (HP : Permutation (o ++ r) (seq 0 (List.length l))).
  { apply NoDup_Permutation.
    - assert (No : NoDup o) by apply NoDup_nodup.
      assert (Nr : NoDup r) by (apply NoDup_filter, seq_NoDup).
      assert (D : forall x, In x o -> ~ In x r).
      { intros x Hx Hr. apply filter_In in Hr. destruct Hr as [_ Hr].
        apply negb_true_iff in Hr. assert (existsb (Nat.eqb x) o = true); [|congruence].
        apply existsb_exists. exists x; split; [exact Hx|apply Nat.eqb_refl]. }
      clearbody r. clear - No Nr D. induction o as [|a o IH]; simpl; [exact Nr|]. inversion No; subst. constructor.
      + intros H. apply in_app_or in H. destruct H; [contradiction|]. apply (D a); [left; reflexivity|assumption].
      + apply IH; auto. intros x Hx. apply D. right; exact Hx.
    - apply seq_NoDup.
    - intros x. rewrite in_app_iff. split.
      + intros [H|H].
        * apply nodup_In in H. apply filter_In in H. destruct H as [_ H]. apply Nat.ltb_lt in H. apply in_seq. lia.
        * apply filter_In in H. apply H.
      + intros H. destruct (existsb (Nat.eqb x) o) eqn:Ex.
        * left. apply existsb_exists in Ex. destruct Ex as (y & Hy & Exy). apply Nat.eqb_eq in Exy. subst; exact Hy.
        * right. apply filter_In. split; [exact H|rewrite Ex; reflexivity]. }
  set (f := fun i => match nth_error l i with Some x => [x] | None => [] end).
  transitivity (flat_map f (seq 0 (List.length l))).
  - apply Permutation_flat_map. exact HP.
  - replace (flat_map f (seq 0 (List.length l))) with l; [reflexivity|].
    assert (G : forall k pre, flat_map (fun i => match nth_error (pre ++ l) i with Some x => [x] | None => [] end) (seq (List.length pre) k)
               = firstn k l).
    { clear. induction l as [|a l IH]; intros k pre.
      - rewrite app_nil_r, firstn_nil.
        assert (H : forall m, List.length pre <= m -> flat_map (fun i => match nth_error pre i with Some x => [x] | None => [] end) (seq m k) = []).
        { induction k as [|k IHk]; intros m Hm; simpl; [reflexivity|].
          destruct (nth_error pre m) eqn:En; [|apply IHk; lia].
          assert (m < List.length pre) by (apply nth_error_Some; congruence). lia. }
        apply H; lia.
      - destruct k as [|k]; simpl; [reflexivity|].
        rewrite nth_error_app2, Nat.sub_diag by lia. simpl. f_equal.
        specialize (IH k (pre ++ [a])). rewrite app_length in IH; simpl in IH.
        rewrite Nat.add_1_r in IH. rewrite <- app_assoc in IH. simpl in IH. exact IH. }
    specialize (G (List.length l) []). simpl in G. rewrite firstn_all in G. unfold f. symmetry. exact G.
Qed.

Section Init.
Context {A X : Type}.
Variable E : env.
Variable P : problem.
Variable md : mode.
Variable feas : vec -> Prop.
Variable attok : list vec -> A -> Prop.
Hypothesis attok_mono : forall L L' a, incl L L' -> attok L a -> attok L' a.
Hypothesis Vmm : valid_mm (p_mm P).

Notation good := (good P feas attok).

(** generate_agent evaluates exactly the solution it returns. *)
Definition ga_contract (ga : M A X (agent A)) : Prop :=
  forall s, wp ga (fun a s' => (exists k, s' = bump (evald s [sol a]) k) /\
      tgt a = Some (prob_target P (sol a)) /\ feas (sol a) /\ attok [sol a] (att a)) s.

Lemma repeat_M_ok (ga : M A X (agent A)) n s : ga_contract ga ->
  wp (repeat_M n ga) (fun l s' => List.length l = n /\
      (exists k, s' = bump (evald s (map sol l)) k) /\
      Forall (good (s_log s ++ map sol l)) l) s.
Proof.
  intros HG. unfold repeat_M.
  apply wp_for_acc with (I := fun i l s' => List.length l = i /\
      (exists k, s' = bump (evald s (map sol l)) k) /\ Forall (good (s_log s ++ map sol l)) l).
  - split; [reflexivity|]. split; [|constructor]. exists (s_ctr s). unfold evald, bump; simpl.
    rewrite app_nil_r, Nat.add_0_r. destruct s; reflexivity.
  - intros i l s' _ (Hl & (k & ->) & HF). apply wp_bind. eapply wp_mono; [apply HG|].
    intros a s'' ((k' & ->) & Ht & Hf & Ha). apply wp_ret. split; [rewrite app_length; simpl; lia|].
    assert (Hinc : incl (s_log s ++ map sol l) (s_log s ++ map sol (l ++ [a]))).
    { rewrite map_app. apply incl_app; [apply incl_appl, incl_refl|]. apply incl_appr, incl_appl, incl_refl. }
    split.
    + exists k'. unfold bump, evald; simpl. rewrite map_app, app_assoc, app_length. simpl.
      f_equal; lia.
    + apply Forall_app; split.
      * eapply Forall_impl; [|exact HF]. intros b [? ? ? ?]; constructor; auto; try (apply Hinc; assumption).
        eapply attok_mono; eauto.
      * constructor; [|constructor]. constructor; auto.
        -- rewrite map_app. apply in_or_app; right. apply in_or_app; right. left; reflexivity.
        -- eapply attok_mono; [|exact Ha]. intros x [<-|[]]. rewrite map_app. apply in_or_app; right.
           apply in_or_app; right. left; reflexivity.
  - intros l s' (H1 & H2 & H3). simpl in H1. auto.
Qed.

Lemma repeat_M_child_ok (ga : M A X (agent A)) n s : ga_contract ga ->
  wp (repeat_M n (in_child ga)) (fun l s' => List.length l = n /\
      s' = mkSt (s_pop s) (s_gb s) (s_gw s) (s_hist s) (s_nfe s) (s_ctr s) (s_log s ++ map sol l) (s_x s) /\
      Forall (good (s_log s ++ map sol l)) l) s.
Proof.
  intros HG. unfold repeat_M.
  apply wp_for_acc with (I := fun i l s' => List.length l = i /\
      s' = mkSt (s_pop s) (s_gb s) (s_gw s) (s_hist s) (s_nfe s) (s_ctr s) (s_log s ++ map sol l) (s_x s) /\
      Forall (good (s_log s ++ map sol l)) l).
  - split; [reflexivity|]. split; [|constructor]. simpl. rewrite app_nil_r. destruct s; reflexivity.
  - intros i l s' _ (Hl & -> & HF). apply wp_bind.
    match goal with |- wp _ _ ?st => set (s1 := st) end.
    destruct (wp_elim _ _ _ (HG s1)) as (a & s'' & Es & (k' & ->) & Ht & Hf & Ha).
    unfold in_child, wp. rewrite Es. apply wp_ret. split; [rewrite app_length; simpl; lia|].
    assert (Hinc : incl (s_log s ++ map sol l) (s_log s ++ map sol (l ++ [a]))).
    { rewrite map_app. apply incl_app; [apply incl_appl, incl_refl|]. apply incl_appr, incl_appl, incl_refl. }
    split.
    + unfold s1; simpl. rewrite map_app, app_assoc. reflexivity.
    + apply Forall_app; split.
      * eapply Forall_impl; [|exact HF]. intros b [? ? ? ?]; constructor; auto; try (apply Hinc; assumption).
        eapply attok_mono; eauto.
      * constructor; [|constructor]. constructor; auto.
        -- rewrite map_app. apply in_or_app; right. apply in_or_app; right. left; reflexivity.
        -- eapply attok_mono; [|exact Ha]. intros x [<-|[]]. rewrite map_app. apply in_or_app; right.
           apply in_or_app; right. left; reflexivity.
  - intros l s' (H1 & H2 & H3). simpl in H1. auto.
Qed.

(** How many evaluations of the initial population the counter misses. *)
Definition lost (n : nat) : nat := match md with Process => n | _ => 0 end.

Lemma generate_population_ok (ga : M A X (agent A)) n s : ga_contract ga ->
  wp (generate_population_with E md ga n) (fun l s' =>
      List.length l = n /\ Forall (good (s_log s')) l /\
      s_pop s' = s_pop s /\ s_gb s' = s_gb s /\ s_gw s' = s_gw s /\ s_hist s' = s_hist s /\ s_x s' = s_x s /\
      (exists L, s_log s' = s_log s ++ L /\ Permutation L (map sol l) /\ List.length L = n) /\
      s_nfe s' + lost n = s_nfe s + n) s.
Proof.
  intros HG. unfold generate_population_with, lost.
  assert (SEQ : forall s0, wp (repeat_M n ga) (fun l s' =>
      List.length l = n /\ Forall (good (s_log s')) l /\
      s_pop s' = s_pop s0 /\ s_gb s' = s_gb s0 /\ s_gw s' = s_gw s0 /\ s_hist s' = s_hist s0 /\ s_x s' = s_x s0 /\
      (s_log s' = s_log s0 ++ map sol l) /\ s_nfe s' = s_nfe s0 + n) s0).
  { intros s0. eapply wp_mono; [apply repeat_M_ok; exact HG|]. intros l s' (H1 & (k & ->) & H3).
    simpl. rewrite map_length. repeat split; auto. }
  destruct md.
  - eapply wp_mono; [apply SEQ|]. intros l s' (H1 & H2 & H3 & H4 & H5 & H6 & H7 & H8 & H9).
    repeat (split; [assumption|]). split; [|lia]. exists (map sol l). rewrite map_length; auto.
  - eapply wp_mono; [apply SEQ|]. intros l s' (H1 & H2 & H3 & H4 & H5 & H6 & H7 & H8 & H9).
    repeat (split; [assumption|]). split; [|lia]. exists (map sol l). rewrite map_length; auto.
  - apply wp_bind, wp_tick. intros k. apply wp_bind. eapply wp_mono; [apply SEQ|].
    intros l s' (H1 & H2 & H3 & H4 & H5 & H6 & H7 & H8 & H9). apply wp_ret.
    pose proof (reorder_perm (e_order E k) l) as HP.
    split; [rewrite (Permutation_length HP); exact H1|].
    split; [rewrite Forall_forall in *; intros a Ha; apply H2; eapply Permutation_in; eauto|].
    simpl in *. repeat (split; [assumption|]). split; [|lia].
    exists (map sol l). rewrite map_length. split; [exact H8|]. split; [|exact H1]. apply Permutation_map. symmetry; exact HP.
  - apply wp_bind, wp_tick. intros k. apply wp_bind. eapply wp_mono; [apply repeat_M_child_ok; exact HG|].
    intros l s' (H1 & -> & H2). apply wp_ret. simpl in *.
    pose proof (reorder_perm (e_order E k) l) as HP.
    split; [rewrite (Permutation_length HP); exact H1|].
    split; [rewrite Forall_forall in *; intros a Ha; apply H2; eapply Permutation_in; eauto|].
    repeat (split; [reflexivity|]). split; [|lia].
    exists (map sol l). rewrite map_length. split; [reflexivity|]. split; [|exact H1]. apply Permutation_map. symmetry; exact HP.
Qed.

Lemma plain_ga_contract dflt : (forall k, feas (p_gen P k)) -> (forall L, attok L dflt) ->
  ga_contract (generate_agent_with P (generate_empty_agent P dflt) None).
Proof.
  intros Hg Hd s. unfold generate_agent_with, generate_empty_agent. apply wp_bind, wp_bind, wp_tick. intros k.
  apply wp_ret, wp_bind, wp_get_target, wp_ret. simpl.
  split; [exists (S k); reflexivity|]. auto.
Qed.
Lemma plain_ga_contract_some dflt x : feas x -> (forall L, attok L dflt) ->
  ga_contract (generate_agent_with P (generate_empty_agent P dflt) (Some x)).
Proof.
  intros Hg Hd s. unfold generate_agent_with, generate_empty_agent. apply wp_bind, wp_ret, wp_bind, wp_get_target, wp_ret.
  simpl. split; [exists (s_ctr s); reflexivity|]. auto.
Qed.

Variable IL : nat -> Prop.
Variable IX : list vec -> X -> Prop.
Variable cov : Prop.
Hypothesis cov_num : cov -> obj_num P feas.

Notation Start := (Start P feas attok IL IX cov).

(** Default initialization of a fresh optimizer. *)
Lemma default_initialization_ok ga n s : ga_contract (ga None) -> IL n -> 0 < n -> fresh s -> IX [] (s_x s) ->
  wp (default_initialization E md ga n) (fun _ s' =>
     Start (lost n) (s_nfe s) s' /\ List.length (s_log s') = n /\ List.length (s_pop s') = n) s.
Proof.
  intros HG HL Hn (F1 & F2 & F3 & F4 & F5) HX. unfold default_initialization. apply wp_bind, wp_get_pop.
  rewrite F1. apply wp_bind. eapply wp_mono; [apply generate_population_ok; exact HG|].
  intros l s' (H1 & H2 & H3 & H4 & H5 & H6 & H7 & (L & H8 & H8' & H8'') & H9). unfold set_pop, wp. simpl.
  rewrite F2 in H8; simpl in H8.
  split; [|split; [rewrite H8; exact H8''|exact H1]]. constructor; simpl.
  - rewrite H1; exact HL.
  - exact H2.
  - rewrite H8. apply Forall_forall. intros x Hx. apply (Permutation_in _ H8') in Hx. apply in_map_iff in Hx.
    destruct Hx as (a & <- & Ha). rewrite Forall_forall in H2. apply H2; exact Ha.
  - rewrite H8, H8''. lia.
  - intros C x Hx. rewrite H8 in Hx. apply (Permutation_in _ H8') in Hx. apply in_map_iff in Hx.
    destruct Hx as (a & <- & Ha). exists a. split; [exact Ha|]. rewrite Forall_forall in H2.
    rewrite (good_fit _ _ _ _ _ (H2 a Ha)). apply no_worse_refl; [exact Vmm|]. apply (cov_num C), (H2 a Ha).
  - rewrite H6; exact F5.
  - rewrite H7; exists []; split; [apply incl_nil_l|exact HX].
Qed.

(** Starting solutions: accepted when they are admissible rows. *)
Definition rows_ok (n : nat) (rows : list vec) : Prop :=
  List.length rows = n /\ Forall feas rows /\ match rows with r :: _ => List.length r = n_dims P | [] => False end.

Definition gea_contract (gea : option vec -> M A X (agent A)) : Prop :=
  forall s x, feas x -> wp (gea (Some x)) (fun a s' => (exists k, s' = bump s k) /\ sol a = x /\ attok [x] (att a)) s.

Lemma before_initialization_ok al rows s :
  (forall x, feas x -> ga_contract (al_ga al (Some x))) ->
  (forall x, feas x -> forall s0, wp (al_ga al (Some x)) (fun a _ => sol a = x) s0) -> (is_avail md = true -> gea_contract (al_gea al)) ->
  IL (al_pop_size al) -> rows_ok (al_pop_size al) rows -> fresh s -> IX [] (s_x s) ->
  wp (before_initialization P md al (Some rows)) (fun _ s' =>
     Start 0 (s_nfe s) s' /\ s_log s' = rows /\ map sol (s_pop s') = rows) s.
Proof.
  intros HG HS HE HL (R1 & R2 & R3) (F1 & F2 & F3 & F4 & F5) HX. unfold before_initialization.
  rewrite R1, Nat.eqb_refl. destruct rows as [|r0 rows'] eqn:Er; [contradiction|]. rewrite <- Er in *.
  rewrite R3, Nat.eqb_refl.
  assert (DONE : forall l s', map sol l = rows -> Forall (good (s_log s')) l ->
     s_log s' = rows -> s_nfe s' = s_nfe s + List.length rows -> s_hist s' = s_hist s -> s_x s' = s_x s ->
     Start 0 (s_nfe s) (with_pop s' l)).
  { intros l s' D1 D2 D3 D4 D5 D6. constructor; simpl.
    - rewrite <- (map_length sol l), D1, R1. exact HL.
    - exact D2.
    - rewrite D3; exact R2.
    - rewrite D3; lia.
    - intros C x Hx. rewrite D3, <- D1 in Hx. apply in_map_iff in Hx. destruct Hx as (a & <- & Ha).
      exists a. split; [exact Ha|]. rewrite Forall_forall in D2.
      rewrite (good_fit _ _ _ _ _ (D2 a Ha)). apply no_worse_refl; [exact Vmm|]. apply (cov_num C), (D2 a Ha).
    - rewrite D5; exact F5.
    - rewrite D6; exists []; split; [apply incl_nil_l|exact HX]. }
  destruct (is_avail md) eqn:Em.
  - apply wp_bind.
    apply wp_for_list with (I := fun pre l s' => (exists k, s' = bump s k) /\ map sol l = pre /\
        Forall (fun a => attok [sol a] (att a)) l).
    + split; [exists (s_ctr s); destruct s; reflexivity|]. split; [reflexivity|constructor].
    + intros pre x suf l s' Ex ((k & ->) & Hl & Ha). apply wp_bind. eapply wp_mono.
      * apply (HE eq_refl). rewrite Forall_forall in R2. apply R2. rewrite Ex. apply in_or_app; right; left; reflexivity.
      * intros a s'' ((k' & ->) & Hs & Hat). apply wp_ret. split; [exists k'; reflexivity|].
        split; [rewrite map_app, Hl, <- Hs; reflexivity|]. apply Forall_app; split; [exact Ha|].
        constructor; [rewrite Hs; exact Hat|constructor].
    + intros l s' ((k & ->) & Hl & Ha). apply wp_bind. unfold set_pop at 1, wp at 1. simpl.
      apply wp_bind. apply wp_update_target_avail; [exact Em|]. intros l' El'. unfold set_pop, wp. simpl.
      assert (Es : map sol l' = rows).
      { rewrite El', map_map. simpl. exact Hl. }
      match goal with |- Start _ _ ?st /\ _ => change st with (with_pop (evald (bump s k) (map sol l)) l') end.
      split; [|split; [simpl; rewrite F2, Hl; reflexivity|exact Es]].
      apply DONE; simpl; auto.
      * rewrite Hl, F2; simpl. rewrite El'. apply Forall_forall. intros a Ha'. apply in_map_iff in Ha'.
        destruct Ha' as (a0 & <- & Ha0). rewrite Forall_forall in Ha, R2.
        assert (In (sol a0) rows) by (rewrite <- Hl; apply in_map; exact Ha0).
        constructor; simpl; auto. eapply attok_mono; [|apply Ha; exact Ha0]. intros x [<-|[]]; assumption.
      * rewrite F2, Hl; reflexivity.
      * rewrite <- Hl. reflexivity.
  - apply wp_bind.
    apply wp_for_list with (I := fun pre l s' => (exists k, s' = bump (evald s pre) k) /\ map sol l = pre /\
        Forall (good (s_log s ++ pre)) l).
    + split; [exists (s_ctr s); unfold bump, evald; simpl; rewrite app_nil_r, Nat.add_0_r; destruct s; reflexivity|].
      split; [reflexivity|constructor].
    + intros pre x suf l s' Ex ((k & ->) & Hl & Ha). apply wp_bind.
      assert (Fx : feas x).
      { rewrite Forall_forall in R2. apply R2. rewrite Ex. apply in_or_app; right; left; reflexivity. }
      eapply wp_mono; [apply (wp_conj _ _ _ _ (HG x Fx _) (HS x Fx _))|].
      intros a s'' (((k' & ->) & Ht & Hf & Hat) & Hs). apply wp_ret. rewrite Hs in *.
      split; [exists k'; unfold bump, evald; simpl; rewrite app_assoc, app_length; simpl; f_equal; lia|].
      split; [rewrite map_app, Hl; simpl; rewrite Hs; reflexivity|].
      apply Forall_app; split.
      * eapply Forall_impl; [|exact Ha]. intros b. apply good_mono; [exact attok_mono|]. rewrite app_assoc. apply incl_appl, incl_refl.
      * constructor; [|constructor]. constructor; rewrite ?Hs; auto.
        -- apply in_or_app; right; apply in_or_app; right; left; reflexivity.
        -- eapply attok_mono; [|exact Hat]. intros y [<-|[]]. apply in_or_app; right; apply in_or_app; right; left; reflexivity.
    + intros l s' ((k & ->) & Hl & Ha). unfold set_pop, wp. simpl.
      match goal with |- Start _ _ ?st /\ _ => change st with (with_pop (bump (evald s rows) k) l) end.
      split; [|split; [simpl; rewrite F2; reflexivity|exact Hl]].
      apply DONE; simpl; auto. rewrite F2; reflexivity.
Qed.
End Init.
