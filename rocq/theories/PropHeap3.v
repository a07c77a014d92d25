(** C52, C65 and C68 for classes that write into shared arrays and agents: OriginalTHRO, EnhancedTWO, OriginalICA. *)
From Verif Require Import Prelude Fl MCore MHelp MHeap MGA MHeap2 MAlg MAlg7 MHeap3 PHeap SpecCore SpecRun PSelect PLogic PSolve PRun PAny PPart Demo PropHeap PropHeap2 PropGA PropLost.
From Coq Require Import String.

(** ** Every target on the heap satisfies [T] *)
Section Honest.
Context {A X : Type}.
Notation prog := (prog A X).
Notation hst := (hst A X).
Variable T : target -> Prop.
Hypothesis T_copy : forall t, T t -> T (target_copy t).
Definition targets (h : list (obj A)) : Prop := forall l t, nth_error h l = Some (OTgt t) -> T t.
Definition hq {Y} (p : prog Y) (Φ : Y -> Prop) : Prop := forall s y s', run p s = Ok (y, s') -> targets (hp s) -> targets (hp s') /\ Φ y.
Lemma hq_ret {Y} (y : Y) (Φ : Y -> Prop) : Φ y -> hq (PRet y) Φ.
Proof. intros H s z s' E F. injection E as <- <-. auto. Qed.
Lemma hq_fail {Y} e Φ : hq (@PFail A X Y e) Φ.
Proof. intros s z s' E. discriminate. Qed.
Lemma hq_bind {Y Z} (p : prog Y) (f : Y -> prog Z) Φ Ψ : hq p Φ -> (forall y, Φ y -> hq (f y) Ψ) -> hq (pbind p f) Ψ.
Proof.
  intros Hp Hf s z s'. rewrite run_pbind. destruct (run p s) as [[y s1]|] eqn:E1; cbn [bind]; [|discriminate]. intros E2 F.
  destruct (Hp _ _ _ E1 F) as [F1 Hy]. exact (Hf y Hy _ _ _ E2 F1).
Qed.
Lemma hq_mono {Y} (p : prog Y) (Φ Ψ : Y -> Prop) : hq p Φ -> (forall y, Φ y -> Ψ y) -> hq p Ψ.
Proof. intros H I s y s' E F. destruct (H _ _ _ E F). auto. Qed.
Lemma hq_read {Y} (r : hst -> res Y) : hq (read r) (fun _ => True).
Proof. intros s y s'. rewrite run_read. destruct (r s); cbn [bind]; [|discriminate]. intros E F. injection E as _ <-. auto. Qed.
Lemma hq_get {Y} (k : hst -> prog Y) Φ : (forall s, hq (k s) Φ) -> hq (PGet k) Φ.
Proof. intros H s y s' E F. exact (H s s y s' E F). Qed.
Lemma hq_tick {Y} (k : nat -> prog Y) Φ : (forall i, hq (k i) Φ) -> hq (PTick k) Φ.
Proof. intros H s y s' E F. exact (H _ _ _ _ E F). Qed.
Definition fine (o : obj A) : Prop := match o with OTgt t => T t | _ => True end.
Lemma targets_app h o : targets h -> fine o -> targets (h ++ [o]).
Proof.
  intros F Ho l t E. destruct (Nat.lt_ge_cases l (List.length h)) as [L|L].
  - rewrite nth_error_app1 in E by exact L. exact (F _ _ E).
  - rewrite nth_error_app2 in E by exact L. destruct (l - List.length h) as [|[|]]; cbn in E; try discriminate. injection E as ->. exact Ho.
Qed.
Lemma hq_new o : fine o -> hq (new o) (fun _ => True).
Proof. intros Ho s y s' E F. injection E as _ <-. split; [|exact I]. apply targets_app; assumption. Qed.
Lemma targets_upd h l o : targets h -> fine o -> targets (upd h l o).
Proof.
  intros F Ho k t E. destruct (Nat.eq_dec l k) as [<-|N].
  - destruct (Nat.lt_ge_cases l (List.length h)) as [L|L].
    + rewrite upd_nth_error_eq in E by exact L. injection E as ->. exact Ho.
    + exfalso. assert (nth_error (upd h l o) l = None) by (apply nth_error_None; rewrite upd_len; exact L). congruence.
  - rewrite upd_nth_error_neq in E by exact N. exact (F _ _ E).
Qed.
Lemma put_agt_targets h l f h' : put_agt h l f = Ok h' -> (forall x t b, fine (f x t b)) -> targets h -> targets h'.
Proof. unfold put_agt. destruct (o_agt h l) as [[[x t] b]|]; cbn [bind]; [|discriminate]. intros E H F. injection E as <-. apply targets_upd; auto. Qed.
Lemma hq_sol {Y} l a (k : prog Y) Φ : hq k Φ -> hq (PSol l a k) Φ.
Proof.
  intros H s y s' E F. cbn [run] in E. destruct (put_agt _ _ _) as [h|] eqn:Ep; cbn [bind] in E; [|discriminate].
  apply (H _ _ _ E). cbn. eapply put_agt_targets; [exact Ep| |exact F]. intros; exact I.
Qed.
Lemma hq_tgt {Y} l a (k : prog Y) Φ : hq k Φ -> hq (PTgt l a k) Φ.
Proof.
  intros H s y s' E F. cbn [run] in E. destruct (put_agt _ _ _) as [h|] eqn:Ep; cbn [bind] in E; [|discriminate].
  apply (H _ _ _ E). cbn. eapply put_agt_targets; [exact Ep| |exact F]. intros; exact I.
Qed.
Lemma hq_att {Y} l a (k : prog Y) Φ : hq k Φ -> hq (PAtt l a k) Φ.
Proof.
  intros H s y s' E F. cbn [run] in E. destruct (put_agt _ _ _) as [h|] eqn:Ep; cbn [bind] in E; [|discriminate].
  apply (H _ _ _ E). cbn. eapply put_agt_targets; [exact Ep| |exact F]. intros; exact I.
Qed.
Lemma hq_elem {Y} a j v (k : prog Y) Φ : hq k Φ -> hq (PElem a j v k) Φ.
Proof.
  intros H s y s' E F. cbn [run] in E. unfold put_elem in E. destruct (o_arr _ _) as [x|]; cbn [bind] in E; [|discriminate].
  destruct (j <? List.length x); cbn [bind] in E; [|discriminate]. apply (H _ _ _ E). cbn. apply targets_upd; [exact F|exact I].
Qed.
Lemma hq_pop {Y} p (k : prog Y) Φ : hq k Φ -> hq (PPop p k) Φ.
Proof. intros H s y s' E F. exact (H _ _ _ E F). Qed.
Lemma hq_best {Y} p (k : prog Y) Φ : hq k Φ -> hq (PBest p k) Φ.
Proof. intros H s y s' E F. exact (H _ _ _ E F). Qed.
Lemma hq_x {Y} p (k : prog Y) Φ : hq k Φ -> hq (PX p k) Φ.
Proof. intros H s y s' E F. exact (H _ _ _ E F). Qed.
Lemma hq_copy l : hq (copy l) (fun _ => True).
Proof.
  intros s y s' E F. unfold copy in E. rewrite run_pbind in E. rewrite run_read in E.
  destruct (o_agt (hp s) l) as [[[x [t|]] b]|]; cbn [bind] in E; try discriminate.
  destruct (o_tgt (hp s) t) as [t0|] eqn:Et; cbn [bind] in E; try discriminate. apply o_tgt_inv in Et.
  cbn in E. injection E as _ <-. cbn. split; [|exact I]. apply targets_app; [|exact I]. apply targets_app; [exact F|]. exact (T_copy _ (F _ _ Et)).
Qed.
Lemma hq_copies ls : hq (copies ls) (fun _ => True).
Proof.
  induction ls as [|l r IH]; cbn [copies]; [apply hq_ret, I|]. eapply hq_bind; [apply hq_copy|intros c _].
  eapply hq_bind; [exact IH|intros cs _; apply hq_ret, I].
Qed.
Lemma hq_better mm x y r : hq (better_ref mm x y r) (fun _ => True).
Proof. unfold better_ref. eapply hq_bind; [apply hq_read|]. intros [i c] _. destruct i, c; apply hq_copy. Qed.

(** The optimizer's own code. *)
Definition hh {Y} (m : hst -> res (Y * hst)) : Prop := forall s y s', m s = Ok (y, s') -> targets (hp s) -> targets (hp s').
Lemma hh_bind {Y Z} (m : hst -> res (Y * hst)) (f : Y -> hst -> res (Z * hst)) : hh m -> (forall y, hh (f y)) -> hh (hbind m f).
Proof.
  intros Hp Hf s z s' E F. apply hbind_inv in E. destruct E as (y & s1 & E1 & E2). exact (Hf _ _ _ _ E2 (Hp _ _ _ E1 F)).
Qed.
Lemma hh_read {Y} (r : hst -> res Y) : hh (hread r).
Proof. intros s y s' H F. apply hread_inv in H. destruct H as [_ ->]. exact F. Qed.
Lemma hh_put (f : hst -> hst) : (forall s, hp (f s) = hp s) -> hh (hput f).
Proof. intros Hf s y s' H F. injection H as _ <-. rewrite Hf. exact F. Qed.
Lemma hh_run {Y} (p : prog Y) Φ : hq p Φ -> hh (run p).
Proof. intros H s y s' E F. apply (H _ _ _ E F). Qed.
Ltac hstep := first [apply hh_read|exact (hh_run _ _ (hq_copy _))|exact (hh_run _ _ (hq_better _ _ _ _))|apply hh_put; intros; reflexivity
  |apply hh_put; intros; match goal with |- context [if ?b then _ else _] => destruct b end; reflexivity].
Lemma hh_update argsort mm : hh (h_update argsort mm).
Proof. unfold h_update. repeat (apply hh_bind; [hstep|intros]). intros s y' s' H F. injection H as _ <-. exact F. Qed.
Lemma hh_refresh argsort mm pop : hh (h_refresh argsort mm pop).
Proof. unfold h_refresh. repeat (apply hh_bind; [hstep|intros]). hstep. Qed.
Lemma hh_after_init argsort mm sort : hh (h_after_init argsort mm sort).
Proof. unfold h_after_init. repeat (apply hh_bind; [hstep|intros]). hstep. Qed.
Lemma hh_epochs argsort mm sort save (evolve : nat -> hst -> res (unit * hst)) n : (forall ep, hh (evolve ep)) ->
  forall i, hh (hg_epochs argsort mm sort save evolve n i).
Proof.
  intros He. induction n as [|n IH]; intros i; cbn [hg_epochs]; [hstep|]. apply hh_bind; [|intros _; apply IH].
  unfold hg_epoch. apply hh_bind; [apply He|intros _]. apply hh_bind; [apply hh_update|intros [sp gb]].
  repeat (apply hh_bind; [hstep|intros]). destruct save; [|hstep].
  apply hh_bind; [|intros; hstep]. intros s1 y1 s1' E F. exact (proj1 (hq_copies _ _ _ _ E F)).
Qed.
Theorem honest_run argsort mm sort save init before evolve epochs (s : hst) g s' :
  hq init (fun _ => True) -> hq before (fun _ => True) -> (forall ep, hh (evolve ep)) -> targets (hp s) ->
  hg_solve argsort mm sort save init before evolve epochs s = Ok (g, s') ->
  forall l x t b, deep (hp s') l = Ok (x, t, b) -> T t.
Proof.
  intros Hi Hb He F H l x t b D.
  assert (G : targets (hp s')).
  { revert H F. apply (fun (K : hh (hg_solve argsort mm sort save init before evolve epochs)) => K s g s'). unfold hg_solve.
    apply hh_bind; [exact (hh_run _ _ Hi)|intros _]. apply hh_bind; [apply hh_after_init|intros _].
    apply hh_bind; [exact (hh_run _ _ Hb)|intros _]. apply hh_bind; [apply hh_epochs, He|intros _]. apply hh_read. }
  unfold deep, shown in D. destruct (o_agt (hp s') l) as [[[a [u|]] c]|]; cbn [bind] in D; try discriminate.
  destruct (o_tgt (hp s') u) as [u'|] eqn:Eu; cbn [bind] in D; [|discriminate]. destruct (o_arr (hp s') a); cbn [bind] in D; [|discriminate].
  injection D as _ <- _. apply o_tgt_inv in Eu. exact (G _ _ Eu).
Qed.
End Honest.
(** [h_solve] of MHeap is [hg_solve] for code that leaves the history alone. *)
Lemma solve_same {A X} argsort mm sort save (init before : prog A X unit) evolve epochs s :
  h_solve argsort mm sort save init before evolve epochs s = hg_solve argsort mm sort save init before (fun ep => run (evolve ep)) epochs s.
Proof.
  unfold h_solve, hg_solve. assert (H : forall n i s, h_epochs argsort mm sort save evolve n i s = hg_epochs argsort mm sort save (fun ep => run (evolve ep)) n i s).
  { induction n as [|n IH]; intros i s0; [reflexivity|]. cbn [h_epochs hg_epochs]. unfold hbind. fold (@hbind A X).
    change (hg_epoch argsort mm sort save (fun ep => run (evolve ep)) i s0) with (h_epoch argsort mm sort save evolve i s0).
    destruct (h_epoch _ _ _ _ _ _ s0) as [[? s1]|]; cbn [bind]; [apply IH|reflexivity]. }
  unfold hbind. destruct (run init s) as [[? s1]|]; cbn [bind]; [|reflexivity].
  destruct (h_after_init _ _ _ s1) as [[? s2]|]; cbn [bind]; [|reflexivity].
  destruct (run before s2) as [[? s3]|]; cbn [bind]; [|reflexivity]. rewrite H. reflexivity.
Qed.

(** The value of the objective at some feasible position. *)
Definition attained (P : problem) (feas : vec -> Prop) (t : target) : Prop := exists y, feas y /\ t = prob_target P y.
Lemma attained_copy P feas t : attained P feas t -> attained P feas (target_copy t).
Proof. intros (y & Hy & ->). exists y. split; [exact Hy|]. apply copy_prob_target. Qed.

Ltac hqs := repeat lazymatch goal with
  | |- hq _ (PRet _) _ => apply hq_ret; auto
  | |- hq _ (PFail _) _ => apply hq_fail
  | |- hq _ (read _) _ => apply hq_read
  | |- hq _ (new (OArr _)) _ => apply hq_new; exact I
  | |- hq _ (new (OAgt _ _ _)) _ => apply hq_new; exact I
  | |- hq _ (pbind (t_corrected _ _) _) _ => eapply hq_bind; [|intros ? ?]
  | |- hq _ (pbind (i_corrected _ _) _) _ => eapply hq_bind; [|intros ? ?]
  | |- hq _ (pbind _ _) _ => eapply hq_bind with (Φ := fun _ => True); [|intros ? _]
  | |- hq _ (PGet _) _ => apply hq_get; intros
  | |- hq _ (PTick _) _ => apply hq_tick; intros; cbv beta zeta
  | |- hq _ (PSol _ _ _) _ => apply hq_sol
  | |- hq _ (PTgt _ _ _) _ => apply hq_tgt
  | |- hq _ (PAtt _ _ _) _ => apply hq_att
  | |- hq _ (PElem _ _ _ _) _ => apply hq_elem
  | |- hq _ (PPop _ _) _ => apply hq_pop
  | |- hq _ (PBest _ _) _ => apply hq_best
  | |- hq _ (PX _ _) _ => apply hq_x
  | |- hq _ (copy _) _ => apply hq_copy; apply attained_copy
  | |- hq _ (copies _) _ => apply hq_copies; apply attained_copy
  | |- hq _ (better_ref _ _ _ _) _ => apply hq_better; apply attained_copy
  | |- hq _ (match ?x with _ => _ end) _ => destruct x
  | |- hq _ (let _ := _ in _) _ => cbv zeta
  | |- hq _ _ _ => match goal with
                  | H : hq _ _ _ |- _ => exact H
                  | H : forall _, hq _ _ _ |- _ => apply H
                  | H : forall _ _, hq _ _ _ |- _ => apply H
                  end
  end.

Section Thro.
Variable E : env.
Variable P : problem.
Variable feas : vec -> Prop.
Hypothesis HP : problem_ok P feas.
Notation hq := (hq (A := unit) (X := unit) (attained P feas)).
Lemma t_corrected_hq x : hq (t_corrected P x) feas.
Proof. unfold t_corrected. apply hq_tick. intros k. apply hq_ret. apply HP. rewrite map_length, seq_length. reflexivity. Qed.
Lemma t_made_hq x : feas x -> hq (t_made P x) (fun _ => True).
Proof. intros Hx. unfold t_made. hqs. apply hq_new. exists x. auto. Qed.
Lemma t_randoms_hq n : hq (t_randoms P n) (fun _ => True).
Proof. induction n as [|n IH]; cbn [t_randoms]; hqs. apply t_made_hq, HP. Qed.
Lemma h_choose_hq {T} n : forall l : list T, hq (h_choose E l n) (fun _ => True).
Proof. induction n as [|n IH]; intros l; cbn [h_choose]; [hqs|]. destruct l; hqs. Qed.
Lemma h_rand_hq : hq (h_rand E) (fun _ => True).
Proof. unfold h_rand. hqs. Qed.
Lemma t_levy_hq m : hq (t_levy E m) (fun _ => True).
Proof. unfold t_levy, t_gauss. hqs. Qed.
Lemma t_rows_hq n : hq (t_rows E P n) (fun _ => True).
Proof. induction n as [|n IH]; cbn [t_rows]; unfold t_row; hqs; first [apply h_choose_hq|apply h_rand_hq]. Qed.
Lemma t_race_hq p a b r g ls i base : hq (t_race P p a b r g ls i base) (fun _ => True).
Proof. unfold t_race, t_item, t_value, t_beats. hqs; [apply t_corrected_hq|apply t_made_hq; assumption]. Qed.
Lemma t_round_hq n p tb kb w : hq (t_round E P n p tb kb w) (fun _ => True).
Proof.
  destruct w as [[T K] q]. unfold t_round, t_coef, t_mean, t_gauss, t_item, t_apart.
  hqs; first [apply h_rand_hq|apply t_levy_hq|apply t_race_hq|idtac].
Qed.
Lemma t_rounds_hq n p rows : forall w, hq (t_rounds E P n p rows w) (fun _ => True).
Proof. induction rows as [|[a b] r IH]; intros w; cbn [t_rounds]; hqs. apply t_round_hq. Qed.
Lemma t_racing_hq n ep epochs : hq (t_racing E P n ep epochs) (fun _ => True).
Proof. unfold t_racing, t_sorted. hqs; first [apply h_choose_hq|apply t_rows_hq|apply t_rounds_hq]. Qed.
Lemma t_component_hq n idx ep epochs ls best arr j : hq (t_component E n idx ep epochs ls best arr j) (fun _ => True).
Proof. unfold t_component, t_item, t_value. hqs; first [apply h_rand_hq|apply t_levy_hq|apply h_choose_hq|unfold two; hqs]. Qed.
Lemma t_components_hq js n idx ep epochs ls best arr : hq (t_components E js n idx ep epochs ls best arr) (fun _ => True).
Proof. induction js as [|j r IH]; cbn [t_components]; hqs. apply t_component_hq. Qed.
Lemma t_train_hq n idx ep epochs o ls best : hq (t_train E P n idx ep epochs o ls best) (fun _ => True).
Proof. unfold t_train, t_array, t_item, t_beats. hqs; [apply t_components_hq|apply t_corrected_hq|apply t_made_hq; assumption]. Qed.
Lemma t_training_hq idxs n ep epochs bt bk : forall T K, hq (t_training E P idxs n ep epochs T K bt bk) (fun _ => True).
Proof. induction idxs as [|i r IH]; intros T K; cbn [t_training]; unfold t_item; [hqs|]. hqs; apply t_train_hq. Qed.
Lemma t_finish_hq n ep epochs T K : hq (t_finish E P n ep epochs T K) (fun _ => True).
Proof. unfold t_finish, t_best. hqs. apply t_training_hq. Qed.
Lemma thro_hh n epochs ep : hh (attained P feas) (thro_evolve E P n epochs ep).
Proof.
  unfold thro_evolve. apply hh_bind; [eapply hh_run, t_racing_hq|]. intros [T K].
  apply hh_bind; [apply hh_refresh, attained_copy|intros _]. eapply hh_run, t_finish_hq.
Qed.
(** In every run of OriginalTHRO every target kept by an agent, in particular that of the agent returned, is the value
    of the objective at some feasible position. *)
Theorem C65_OriginalTHRO_fitness save n epochs s g s' l x t :
  hp s = [] -> thro_solve E P save n epochs s = Ok (g, s') -> deep (hp s') l = Ok (x, t, tt) ->
  exists y, feas y /\ t = prob_target P y.
Proof.
  intros Hs H D. eapply (honest_run (attained P feas) (attained_copy P feas)); [| | | |exact H|exact D].
  - hqs. apply t_randoms_hq.
  - hqs.
  - intros ep. apply thro_hh.
  - rewrite Hs. intros k u Hk. destruct k; discriminate.
Qed.
End Thro.

Section Etwo.
Variable E : env.
Variable P : problem.
Notation hq := (hq (A := f64) (X := unit) (attained P (fun _ => True))).
Lemma e_target_hq x : hq (new (OTgt (prob_target P x))) (fun _ => True).
Proof. apply hq_new. exists x. auto. Qed.
Lemma e_made_hq x : hq (e_made P x) (fun _ => True).
Proof. unfold e_made. hqs. apply e_target_hq. Qed.
Lemma e_randoms_hq n : hq (e_randoms P n) (fun _ => True).
Proof. induction n as [|n IH]; cbn [e_randoms]; hqs. apply e_made_hq. Qed.
Lemma e_for_hq idxs f : (forall i, hq (f i) (fun _ => True)) -> hq (e_for idxs f) (fun _ => True).
Proof. intros H. induction idxs as [|i r IH]; cbn [e_for]; hqs. Qed.
Lemma e_fold_hq {T} idxs (f : nat -> T -> prog f64 unit T) : (forall i x, hq (f i x) (fun _ => True)) -> forall x, hq (e_fold idxs x f) (fun _ => True).
Proof. intros H. induction idxs as [|i r IH]; intros x; cbn [e_fold]; hqs. Qed.
Lemma e_many_hq n m : hq m (fun _ => True) -> hq (e_many n m) (fun _ => True).
Proof. intros H. induction n as [|n IH]; cbn [e_many]; hqs. Qed.
Lemma e_weights_hq n ls : hq (e_weights E n ls) (fun _ => True).
Proof. unfold e_weights, e_item, e_draw. hqs; [apply e_many_hq; hqs|]. apply e_for_hq. intros i. hqs. Qed.
Lemma etwo_init_hq n : hq (etwo_init E P n) (fun _ => True).
Proof.
  unfold etwo_init. hqs; [apply e_randoms_hq| |apply e_weights_hq].
  apply e_for_hq. intros i. unfold e_item, e_value, e_corrected. hqs. apply e_target_hq.
Qed.
Lemma etwo_pull_hq n ep i : hq (etwo_pull E P n ep i) (fun _ => True).
Proof.
  unfold etwo_pull, e_pop, e_value. hqs. apply e_fold_hq. intros k x. unfold e_weight, e_normal. hqs. apply e_many_hq. hqs.
Qed.
Lemma etwo_place_hq ep q i : hq (etwo_place E P ep q i) (fun _ => True).
Proof.
  unfold etwo_place, etwo_repair, e_pop, e_value, e_best, e_item, e_corrected. hqs; [|apply e_target_hq].
  apply e_fold_hq. intros j x. unfold e_draw, e_normal. hqs.
Qed.
Lemma etwo_finish_hq ep i q : hq (etwo_finish E P ep i q) (fun _ => True).
Proof.
  unfold etwo_finish, e_value, e_best, e_item, e_corrected, e_draw, e_normal, e_better. hqs; first [apply e_made_hq|apply e_many_hq; hqs].
Qed.
Lemma etwo_hq n ep : hq (etwo_evolve E P n ep) (fun _ => True).
Proof.
  unfold etwo_evolve. hqs; [apply e_for_hq; intros; apply etwo_pull_hq|apply e_for_hq; intros; apply etwo_place_hq
    |apply e_fold_hq; intros; apply etwo_finish_hq|apply e_weights_hq].
Qed.
(** In every run of EnhancedTWO every target kept by an agent is the value of the objective at some position. *)
Theorem C65_EnhancedTWO_fitness save n epochs s g s' l x t w :
  hp s = [] -> etwo_solve E P save n epochs s = Ok (g, s') -> deep (hp s') l = Ok (x, t, w) -> exists y, t = prob_target P y.
Proof.
  intros Hs H D. unfold etwo_solve in H. rewrite solve_same in H.
  assert (K : attained P (fun _ => True) t).
  { eapply (honest_run (attained P (fun _ => True)) (attained_copy P _)); [| | | |exact H|exact D].
    - apply etwo_init_hq.
    - hqs.
    - intros ep. eapply hh_run, etwo_hq.
    - rewrite Hs. intros k u Hk. destruct k; discriminate. }
  destruct K as (y & _ & K). exists y. exact K.
Qed.
End Etwo.

Section Ica.
Variable E : env.
Variable P : problem.
Variable feas : vec -> Prop.
Hypothesis HP : problem_ok P feas.
Notation hq := (hq (A := unit) (X := realm) (attained P feas)).
Lemma i_corrected_hq x : hq (i_corrected P x) feas.
Proof. unfold i_corrected. apply hq_tick. intros k. apply hq_ret. apply HP. rewrite map_length, seq_length. reflexivity. Qed.
Lemma i_target_hq x : feas x -> hq (new (OTgt (prob_target P x))) (fun _ => True).
Proof. intros H. apply hq_new. exists x. auto. Qed.
Lemma i_move_hq l x : feas x -> hq (i_move P l x) (fun _ => True).
Proof. intros H. unfold i_move. hqs. apply i_target_hq, H. Qed.
Lemma i_randoms_hq n : hq (i_randoms P n) (fun _ => True).
Proof. induction n as [|n IH]; cbn [i_randoms]; hqs. apply i_target_hq, HP. Qed.
Lemma i_for_hq idxs f : (forall i, hq (f i) (fun _ => True)) -> hq (i_for idxs f) (fun _ => True).
Proof. intros H. induction idxs as [|i r IH]; cbn [i_for]; hqs. Qed.
Lemma i_many_hq n m : hq m (fun _ => True) -> hq (i_many n m) (fun _ => True).
Proof. intros H. induction n as [|n IH]; cbn [i_many]; hqs. Qed.
Lemma i_choose_hq {T} n : forall l : list T, hq (i_choose E l n) (fun _ => True).
Proof. induction n as [|n IH]; intros l; cbn [i_choose]; [hqs|]. destruct l; hqs. Qed.
Lemma ica_assign_hq idxs ps c : forall free acc, hq (ica_assign E idxs ps c free acc) (fun _ => True).
Proof. induction idxs as [|i r IH]; intros free acc; cbn [ica_assign]; hqs. apply i_choose_hq. Qed.
Lemma ica_init_hq k n : hq (ica_init E P k n) (fun _ => True).
Proof. unfold ica_init. hqs; first [apply i_randoms_hq|apply ica_assign_hq]. Qed.
Lemma i_write_hq arr pos js : hq (i_write arr pos js) (fun _ => True).
Proof. induction js as [|j r IH]; cbn [i_write]; hqs. Qed.
Lemma revolt_hq st m l : hq (revolt E P st m l) (fun _ => True).
Proof.
  unfold revolt, revolution, i_arr, i_val, i_normal. hqs; first [apply i_many_hq; hqs|apply i_choose_hq|apply i_write_hq|apply i_corrected_hq|apply i_move_hq; assumption].
Qed.
Lemma assimilate_hq coef i : hq (assimilate E P coef i) (fun _ => True).
Proof.
  unfold assimilate, i_own. hqs. apply i_for_hq. intros j. unfold i_arr, i_val, i_draw, i_emp.
  hqs; first [apply i_many_hq; hqs|apply i_corrected_hq|apply i_move_hq; assumption].
Qed.
Lemma ica_revolution_hq pr st m i : hq (ica_revolution E P pr st m i) (fun _ => True).
Proof. unfold ica_revolution, i_emp, i_own. hqs; [apply revolt_hq|]. apply i_for_hq. intros j. unfold i_draw. hqs. apply revolt_hq. Qed.
Lemma compete_hq i : hq (compete P i) (fun _ => True).
Proof. unfold compete, i_own. hqs. apply i_for_hq. intros j. unfold i_emp, i_better, i_state. hqs. Qed.
Lemma ica_finish_hq z : hq (ica_finish E P z) (fun _ => True).
Proof. unfold ica_finish, i_state, i_draw. hqs. apply i_many_hq. hqs. Qed.
Lemma ica_hh coef pr st z m ep : hh (attained P feas) (ica_evolve E P coef pr st z m ep).
Proof.
  unfold ica_evolve. apply hh_bind.
  { eapply hh_run. unfold ica_first, i_state. hqs; apply i_for_hq; intros; [apply assimilate_hq|apply ica_revolution_hq]. }
  intros _. apply hh_bind; [apply hh_read|intros em]. apply hh_bind; [apply hh_refresh, attained_copy|intros _].
  eapply hh_run. unfold ica_second, i_state. hqs; [apply i_for_hq; intros; apply compete_hq|apply ica_finish_hq].
Qed.
(** In every run of OriginalICA every target kept by an agent, in particular that of the agent returned, is the value of
    the objective at some feasible position. *)
Theorem C65_OriginalICA_fitness coef pr st z m k save n epochs s g s' l x t :
  hp s = [] -> ica_solve E P coef pr st z m k save n epochs s = Ok (g, s') -> deep (hp s') l = Ok (x, t, tt) ->
  exists y, feas y /\ t = prob_target P y.
Proof.
  intros Hs H D. eapply (honest_run (attained P feas) (attained_copy P feas)); [| | | |exact H|exact D].
  - apply ica_init_hq.
  - hqs.
  - intros ep. apply ica_hh.
  - rewrite Hs. intros j u Hk. destruct j; discriminate.
Qed.
End Ica.

(** ** Runs that spoil agents *)
(** Rough substitutes for the elementary functions: a parabola for the sine, a line for the exponential. *)
Definition rough (name : string) (l : list f64) : f64 :=
  let x := nth 0 l (fZ 0) in
  let pi := fdiv (fZ 355) (fZ 113) in
  if String.eqb name "pi" then pi
  else if String.eqb name "sin" then fdiv (fmul (fmul (fZ 4) x) (fsub pi x)) (fmul pi pi)
  else if String.eqb name "levy_sigma" then fdiv (fZ 7) (fZ 10)
  else if String.eqb name "exp" then fadd (fZ 1) x
  else x.
Definition rough_env (seed : Z) : env :=
  mkEnv argsort_ins (e_u (mix_env seed)) (e_g (mix_env seed)) (e_i (mix_env seed)) rough (e_time demo_env) (e_order demo_env).
(** The agent [g]: its stored fitness is smaller than the objective at its position, its position leaves the bounds of
    [demo_prob], and some target of the run is smaller than its own. *)
Definition flattered {A X} (P : problem) (s : hst A X) (g : nat) : bool :=
  match deep (hp s) g with Ok (x, t, _) => flt (t_fit t) (t_fit (prob_target P x)) | Err _ => false end.
Definition escaped {A X} (s : hst A X) (g : nat) : bool :=
  match deep (hp s) g with Ok (x, t, _) => existsb (fun v => flt v (fZ (-5)) || flt (fZ 5) v) x | Err _ => false end.
Definition beaten {A X} (s : hst A X) (g : nat) : bool :=
  match deep (hp s) g with
  | Ok (x, t, _) => existsb (fun o => match o with OTgt u => flt (t_fit u) (t_fit t) | _ => false end) (hp s)
  | Err _ => false
  end.
(** OriginalTHRO(epoch=1, pop_size=10). *)
Definition thro_demo : res (nat * hst unit unit) := thro_solve (rough_env 3) (demo_prob Min edge false) false 10 1 (heap0 tt).
(** OriginalICA(epoch=1, pop_size=10, empire_count=2), all other parameters at their defaults. *)
Definition ica_demo : res (nat * hst unit realm) :=
  ica_solve (rough_env 2) (demo_prob Min edge false) (fdiv (fZ 3) (fZ 2)) (fdiv (fZ 1) (fZ 20)) (fdiv (fZ 1) (fZ 10)) (fdiv (fZ 1) (fZ 10)) 0 2
    false 10 1 (heap0 (mkRealm [] [] [])).
(** EnhancedTWO(epoch=1, pop_size=6). *)
Definition etwo_demo (P : problem) (seed : Z) : res (nat * hst f64 unit) :=
  etwo_solve (rough_env seed) P false 6 1 (mkH [] [] None None [] [] [] [] [] 0 tt).
Lemma shows {A X} (r : res (nat * hst A X)) (c : nat -> hst A X -> bool) :
  match r with Ok (g, s) => c g s | Err _ => false end = true -> exists g s, r = Ok (g, s) /\ c g s = true.
Proof. destruct r as [[g s]|]; [|discriminate]. eauto. Qed.
(** The agent returned by OriginalTHRO stores a fitness better than the objective at its position, and its position is
    outside the bounds. *)
Theorem C65_OriginalTHRO_refuted : exists g s, thro_demo = Ok (g, s) /\ flattered (demo_prob Min edge false) s g && escaped s g = true.
Proof. apply (shows thro_demo (fun g s => flattered (demo_prob Min edge false) s g && escaped s g)). vm_compute. reflexivity. Qed.
Theorem C65_OriginalICA_refuted : exists g s, ica_demo = Ok (g, s) /\ flattered (demo_prob Min edge false) s g && escaped s g = true.
Proof. apply (shows ica_demo (fun g s => flattered (demo_prob Min edge false) s g && escaped s g)). vm_compute. reflexivity. Qed.
(** EnhancedTWO evaluates a better solution than the one it returns. *)
Theorem C64_EnhancedTWO_refuted : exists g s, etwo_demo (demo_prob Min edge false) 2 = Ok (g, s) /\ beaten s g = true.
Proof. apply (shows (etwo_demo (demo_prob Min edge false) 2) (fun g s => beaten s g)). vm_compute. reflexivity. Qed.
(** Two integer variables in [-5, 5]: a position is corrected to the nearest integers.  The objective is the squared
    distance of the first variable to 0.3. *)
Definition whole_prob : problem :=
  mkProblem (fst demo_box) (snd demo_box) Min
    (fun x => let d := fsub (nth 0 x fnan) (fdiv (fZ 3) (fZ 10)) in [fmul d d]) None
    (fun _ x => map fround (clip_vec (fst demo_box) (snd demo_box) x)) (p_gen (demo_prob Min sphere false)) false.
(** EnhancedTWO(epoch=2, pop_size=6): the agent returned stores the value of the objective at a position that is not a
    pair of integers. *)
Definition etwo_whole : res (nat * hst f64 unit) :=
  etwo_solve (rough_env 6) whole_prob false 6 2 (mkH [] [] None None [] [] [] [] [] 0 tt).
Theorem C65_EnhancedTWO_refuted : exists g s, etwo_whole = Ok (g, s) /\ flattered whole_prob s g = true.
Proof. apply (shows etwo_whole (fun g s => flattered whole_prob s g)). vm_compute. reflexivity. Qed.

(** ** C68: OriginalICA and an objective that is zero everywhere *)
Definition is_zero (x : f64) : Prop := feq x (fZ 0) = true.
Lemma zero_cases x : is_zero x -> x = BinarySingleNaN.B754_zero true \/ x = BinarySingleNaN.B754_zero false.
Proof.
  unfold is_zero, feq. assert (Z : fZ 0 = BinarySingleNaN.B754_zero false) by reflexivity. rewrite Z.
  destruct x as [[|]|[|]| |[|] m e H]; cbn; intros K; auto; discriminate.
Qed.
Lemma zero_add x y : is_zero x -> is_zero y -> is_zero (fadd x y).
Proof. intros Hx Hy. destruct (zero_cases x Hx), (zero_cases y Hy); subst; reflexivity. Qed.
Lemma zero_sub x y : is_zero x -> is_zero y -> is_zero (fsub x y).
Proof. intros Hx Hy. destruct (zero_cases x Hx), (zero_cases y Hy); subst; reflexivity. Qed.
Lemma zero_div x y : is_zero x -> is_zero y -> fdiv x y = fnan.
Proof. intros Hx Hy. destruct (zero_cases x Hx), (zero_cases y Hy); subst; reflexivity. Qed.
Lemma zero_fold (g : f64 -> f64 -> f64) l : (forall m x, is_zero m -> is_zero x -> is_zero (g m x)) -> forall a, is_zero a -> Forall is_zero l -> is_zero (fold_left g l a).
Proof.
  intros Hg. induction l as [|x l IH]; intros a Ha F; [exact Ha|]. inversion F; subst. cbn [fold_left]. apply IH; auto.
Qed.
Lemma zero_sum l : Forall is_zero l -> is_zero (fsuml l).
Proof. intros F. apply zero_fold; [exact zero_add|reflexivity|exact F]. Qed.
Lemma zero_max l : l <> [] -> Forall is_zero l -> is_zero (fmaxl l).
Proof.
  intros N F. destruct l as [|x l]; [congruence|]. inversion F; subst. apply zero_fold; [|assumption|assumption].
  intros m y Hm Hy. destruct (fisnan m); [exact Hm|]. destruct (fisnan y); [exact Hy|]. destruct (flt m y); assumption.
Qed.
Lemma zero_min l : l <> [] -> Forall is_zero l -> is_zero (fminl l).
Proof.
  intros N F. destruct l as [|x l]; [congruence|]. inversion F; subst. apply zero_fold; [|assumption|assumption].
  intros m y Hm Hy. destruct (fisnan m); [exact Hm|]. destruct (fisnan y); [exact Hy|]. destruct (flt y m); assumption.
Qed.
(** The share of an empire whose cost is zero, like that of all others, is not a number. *)
Lemma zero_shares costs i p : Forall is_zero costs -> getitem (shares costs) i = Ok p -> p = fnan.
Proof.
  intros F H. unfold getitem in H. destruct (nth_error (shares costs) i) as [q|] eqn:En; [|discriminate]. injection H as <-.
  apply nth_error_In in En. unfold shares in En. apply in_map_iff in En. destruct En as (c & <- & Hc).
  assert (Fc : Forall is_zero (map (fun x => fsub x (fadd (fmaxl costs) (fminl costs))) costs)).
  { apply Forall_forall. intros y Hy. apply in_map_iff in Hy. destruct Hy as (x & <- & Hx). rewrite Forall_forall in F.
    assert (N : costs <> []) by (intros ->; destruct Hx). assert (F' : Forall is_zero costs) by (apply Forall_forall; exact F).
    apply zero_sub; [apply F, Hx|]. apply zero_add; [apply zero_max|apply zero_min]; assumption. }
  rewrite (zero_div c); [reflexivity| |apply zero_sum, Fc]. rewrite Forall_forall in Fc. apply Fc, Hc.
Qed.
Section IcaZero.
Variable E : env.
Variable P : problem.
Hypothesis HZ : forall x, is_zero (t_fit (prob_target P x)).
Notation hq := (hq (A := unit) (X := realm) (attained P (fun _ => True))).
Lemma zero_fits_hq (ls : list nat) : hq (read (fun s => map_res (o_fit (hp s)) ls)) (Forall is_zero).
Proof.
  intros s y s'. rewrite run_read. intros H F. destruct (map_res (o_fit (hp s)) ls) as [fs|] eqn:Ef; cbn [bind] in H; [|discriminate].
  injection H as <- <-. split; [exact F|]. revert fs Ef. induction ls as [|l r IH]; intros fs Ef; cbn [map_res] in Ef.
  - injection Ef as <-. constructor.
  - destruct (o_fit (hp s) l) as [f|] eqn:E1; cbn [bind] in Ef; [|discriminate].
    destruct (map_res (o_fit (hp s)) r) as [gs|] eqn:E2; cbn [bind] in Ef; [|discriminate]. injection Ef as <-. constructor; [|apply IH; reflexivity].
    unfold o_fit in E1. destruct (o_agt (hp s) l) as [[[x [u|]] b]|]; cbn [bind] in E1; try discriminate.
    destruct (o_tgt (hp s) u) as [t|] eqn:Et; cbn [bind] in E1; [|discriminate]. injection E1 as <-. apply o_tgt_inv in Et.
    destruct (F _ _ Et) as (y & _ & ->). apply HZ.
Qed.
Lemma ica_init_zero k n : 2 <= k -> hq (ica_init E P k n) (fun _ => False).
Proof.
  intros Hk. unfold ica_init. eapply hq_bind with (Φ := fun _ => True); [apply i_randoms_hq; split; auto|intros p0 _].
  eapply hq_bind; [apply hq_read|intros p _]. eapply hq_bind; [apply hq_read|intros b _].
  eapply hq_bind; [apply hq_copy, attained_copy|intros g _]. apply hq_best.
  eapply hq_bind; [apply hq_copies, attained_copy|intros em _]. eapply hq_bind; [apply hq_copies, attained_copy|intros co _].
  eapply hq_bind; [apply zero_fits_hq|intros costs F]. eapply hq_bind with (Φ := fun _ => False); [|intros [a c] []].
  destruct k as [|[|k]]; [lia|lia|]. cbn [Nat.sub seq ica_assign].
  eapply hq_bind with (Φ := fun _ => False); [|intros m []].
  intros s y s'. rewrite run_read. destruct (getitem (shares costs) 0) as [q|] eqn:Eq; cbn [bind]; [|discriminate].
  rewrite (zero_shares _ _ _ F Eq). destruct (fZ (Z.of_nat (n - S (S k)))); discriminate.
Qed.
(** OriginalICA never returns when the objective is zero everywhere: the shares of the empires are 0/0 (ICA.py:107-109)
    and round() raises (117). *)
Theorem C68_OriginalICA coef pr st z m k save n epochs s : 2 <= k -> hp s = [] ->
  never (ica_solve E P coef pr st z m k save n epochs s).
Proof.
  intros Hk Hs. unfold ica_solve, hg_solve. unfold hbind at 1. destruct (run (ica_init E P k n) s) as [[[] s1]|e] eqn:Er; [|exists e; reflexivity].
  exfalso. eapply (ica_init_zero k n Hk); [exact Er|]. rewrite Hs. intros l t Hl. destruct l; discriminate.
Qed.
End IcaZero.
Example C68_OriginalICA_example E coef pr st z m k save n epochs : 2 <= k ->
  never (ica_solve E (demo_prob Min (fun _ => fZ 0) false) coef pr st z m k save n epochs (heap0 (mkRealm [] [] []))).
Proof. intros Hk. apply C68_OriginalICA; [intros x; reflexivity|exact Hk|reflexivity]. Qed.

Print Assumptions C65_OriginalTHRO_fitness.
Print Assumptions C65_EnhancedTWO_fitness.
Print Assumptions C65_OriginalICA_fitness.
Print Assumptions C65_OriginalTHRO_refuted.
Print Assumptions C65_OriginalICA_refuted.
Print Assumptions C64_EnhancedTWO_refuted.
Print Assumptions C65_EnhancedTWO_refuted.
Print Assumptions C68_OriginalICA.
