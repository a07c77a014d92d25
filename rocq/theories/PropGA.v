(** Genetic algorithms on the object heap: consistency of positions and targets, runs that never return. *)
From Verif Require Import Prelude Fl MCore MHelp MHeap MGA SpecCore SpecRun PSelect PLogic PSolve PRun PAny PPart Demo PHeap PropHeap PropHelp.

(** ** Specification *)
(** Reading an agent gives a target that is the objective at the position read. *)
Definition up_to_date {A} (P : problem) (h : list (obj A)) (l : nat) : Prop :=
  exists x b, deep h l = Ok (x, prob_target P x, b).

(** ** Heaps in which every evaluated agent is up to date *)
Section Fresh.
Context {A X : Type}.
Variable P : problem.
Notation hst := (hst A X).
Notation prog := (prog A X).
Definition fresh (h : list (obj A)) : Prop := forall l a t b, nth_error h l = Some (OAgt a (Some t) b) ->
  exists v, nth_error h a = Some (OArr v) /\ nth_error h t = Some (OTgt (prob_target P v)).
(** Code that only adds objects and keeps the heap so. *)
Definition tidy {Y} (p : prog Y) : Prop := forall s y s', run p s = Ok (y, s') -> fresh (hp s) ->
  fresh (hp s') /\ exists m, hp s' = hp s ++ m.
Lemma app_nth_error {T} (l m : list T) i x : nth_error l i = Some x -> nth_error (l ++ m) i = Some x.
Proof. intros H. rewrite nth_error_app1; [exact H|]. apply nth_error_Some. congruence. Qed.
Lemma fresh_app (h m : list (obj A)) : fresh h -> (forall a t b, ~ In (OAgt a (Some t) b) m) -> fresh (h ++ m).
Proof.
  intros F N l a t b H. destruct (Nat.lt_ge_cases l (List.length h)) as [Hl|Hl].
  - rewrite nth_error_app1 in H by exact Hl. destruct (F _ _ _ _ H) as (v & H1 & H2). exists v. split; apply app_nth_error; assumption.
  - rewrite nth_error_app2 in H by exact Hl. exfalso. exact (N _ _ _ (nth_error_In _ _ H)).
Qed.
Lemma fresh_agent (h : list (obj A)) a t b v : fresh h -> nth_error h a = Some (OArr v) -> nth_error h t = Some (OTgt (prob_target P v)) ->
  fresh (h ++ [OAgt a (Some t) b]).
Proof.
  intros F Ha Ht l a' t' b' H. destruct (Nat.lt_ge_cases l (List.length h)) as [Hl|Hl].
  - rewrite nth_error_app1 in H by exact Hl. destruct (F _ _ _ _ H) as (w & H1 & H2). exists w. split; apply app_nth_error; assumption.
  - rewrite nth_error_app2 in H by exact Hl. destruct (l - List.length h) as [|k]; simpl in H; [|destruct k; discriminate].
    injection H as <- <- <-. exists v. split; apply app_nth_error; assumption.
Qed.

Lemma t_ret {Y} (y : Y) : tidy (PRet y).
Proof. intros s z s' H F. injection H as _ <-. split; [exact F|]. exists []. rewrite app_nil_r. reflexivity. Qed.
Lemma t_fail {Y} e : tidy (@PFail A X Y e).
Proof. intros s z s' H. discriminate. Qed.
Lemma t_bind {Y Z} (p : prog Y) (f : Y -> prog Z) : tidy p -> (forall y, tidy (f y)) -> tidy (pbind p f).
Proof.
  intros Hp Hf s z s'. rewrite run_pbind. destruct (run p s) as [[y s1]|] eqn:E1; cbn [bind]; [|discriminate]. intros E2 F.
  destruct (Hp _ _ _ E1 F) as (F1 & m1 & H1). destruct (Hf _ _ _ _ E2 F1) as (F2 & m2 & H2).
  split; [exact F2|]. exists (m1 ++ m2). rewrite H2, H1, app_assoc. reflexivity.
Qed.
Lemma t_read {Y} (r : hst -> res Y) : tidy (read r).
Proof. intros s y s'. rewrite run_read. destruct (r s); cbn [bind]; [|discriminate]. intros H F. injection H as _ <-. split; [exact F|]. exists []. rewrite app_nil_r. reflexivity. Qed.
Lemma t_get {Y} (k : hst -> prog Y) : (forall s, tidy (k s)) -> tidy (PGet k).
Proof. intros H s y s' E. exact (H s s y s' E). Qed.
Lemma t_tick {Y} (k : nat -> prog Y) : (forall i, tidy (k i)) -> tidy (PTick k).
Proof. intros H s y s' E F. exact (H _ _ _ _ E F). Qed.
Lemma t_arr v : tidy (new (OArr v)).
Proof.
  intros s y s' E F. cbn in E. injection E as _ <-. cbn. split; [|eexists; reflexivity]. apply fresh_app; [exact F|].
  intros a t b [H|[]]. discriminate.
Qed.
Lemma t_pop {Y} p (k : prog Y) : tidy k -> tidy (PPop p k).
Proof. intros H s y s' E F. exact (H _ _ _ E F). Qed.
Lemma copy_prob_target x : target_copy (prob_target P x) = prob_target P x.
Proof. reflexivity. Qed.
Lemma shown_fresh (h : list (obj A)) l x t b : fresh h -> shown h l = Ok (x, t, b) ->
  exists v, nth_error h x = Some (OArr v) /\ t = prob_target P v.
Proof.
  intros F H. destruct (shown_inv _ _ _ _ _ H) as (tl & H1 & H2). destruct (F _ _ _ _ H1) as (v & Ha & Ht).
  rewrite H2 in Ht. injection Ht as ->. eauto.
Qed.
Lemma shown_up_to_date (h : list (obj A)) l x t b : fresh h -> shown h l = Ok (x, t, b) -> up_to_date P h l.
Proof.
  intros F H. destruct (shown_fresh _ _ _ _ _ F H) as (v & Ha & ->). exists v, b. unfold deep. rewrite H. cbn [bind].
  unfold o_arr. rewrite Ha. reflexivity.
Qed.
Lemma t_copy l : tidy (copy l).
Proof.
  intros s y s' E F. destruct (run_copy _ _ _ _ E) as (x & t & b & H1 & -> & ->). cbn.
  destruct (shown_fresh _ _ _ _ _ F H1) as (v & Ha & ->). split; [|eexists; reflexivity]. rewrite copy_prob_target.
  change [OTgt (prob_target P v); OAgt x (Some (List.length (hp s))) b] with ([OTgt (prob_target P v)] ++ [@OAgt A x (Some (List.length (hp s))) b]).
  rewrite app_assoc. eapply fresh_agent.
  - apply fresh_app; [exact F|]. intros a t b' [H|[]]. discriminate.
  - apply app_nth_error. exact Ha.
  - rewrite nth_error_app2, Nat.sub_diag by lia. reflexivity.
Qed.
Lemma t_copies ls : tidy (copies ls).
Proof.
  induction ls as [|l r IH]; cbn [copies]; [apply t_ret|]. apply t_bind; [apply t_copy|intros c].
  apply t_bind; [exact IH|intros cs; apply t_ret].
Qed.
Lemma t_better mm x y r : tidy (better_ref mm x y r).
Proof.
  unfold better_ref. apply t_bind; [apply t_read|]. intros [i c]. destruct i, c; apply t_copy.
Qed.
(** A new agent evaluated at a new array. *)
Lemma t_evaluated pos b : tidy (pbind (new (OArr pos)) (fun arr => pbind (new (OTgt (prob_target P pos))) (fun t => new (OAgt arr (Some t) b)))).
Proof.
  intros s y s' E F. cbn in E. injection E as _ <-. cbn. split; [|eexists; rewrite <- !app_assoc; reflexivity].
  eapply fresh_agent with (v := pos).
  - rewrite <- app_assoc. apply fresh_app; [exact F|]. intros a t b' [H|[H|[]]]; discriminate.
  - rewrite nth_error_app1 by (rewrite app_length; cbn; lia). rewrite nth_error_app2, Nat.sub_diag by lia. reflexivity.
  - rewrite nth_error_app2, Nat.sub_diag by lia. reflexivity.
Qed.

(** The same for the optimizer's own code. *)
Definition tidyh {Y} (m : hst -> res (Y * hst)) : Prop := forall s y s', m s = Ok (y, s') -> fresh (hp s) ->
  fresh (hp s') /\ exists m, hp s' = hp s ++ m.
Lemma th_bind {Y Z} (m : hst -> res (Y * hst)) (f : Y -> hst -> res (Z * hst)) : tidyh m -> (forall y, tidyh (f y)) -> tidyh (hbind m f).
Proof.
  intros Hp Hf s z s' E F. apply hbind_inv in E. destruct E as (y & s1 & E1 & E2).
  destruct (Hp _ _ _ E1 F) as (F1 & m1 & H1). destruct (Hf _ _ _ _ E2 F1) as (F2 & m2 & H2).
  split; [exact F2|]. exists (m1 ++ m2). rewrite H2, H1, app_assoc. reflexivity.
Qed.
Lemma th_read {Y} (r : hst -> res Y) : tidyh (hread r).
Proof. intros s y s' H F. apply hread_inv in H. destruct H as [_ ->]. split; [exact F|]. exists []. rewrite app_nil_r. reflexivity. Qed.
Lemma th_put (f : hst -> hst) : (forall s, hp (f s) = hp s) -> tidyh (hput f).
Proof. intros Hf s y s' H F. injection H as _ <-. rewrite Hf. split; [exact F|]. exists []. rewrite app_nil_r. reflexivity. Qed.
Lemma th_pop {Y} (p : list nat -> prog Y) : (forall l, tidy (p l)) -> tidyh (fun s => run (p (po s)) s).
Proof. intros H s y s' E F. exact (H _ _ _ _ E F). Qed.
Lemma th_update argsort mm : tidyh (h_update argsort mm).
Proof.
  unfold h_update. repeat (apply th_bind; [first [apply th_read|exact (t_better _ _ _ _)|apply th_put; reflexivity]|intros]).
  intros s y' s' H F. injection H as _ <-. split; [exact F|]. exists []. rewrite app_nil_r. reflexivity.
Qed.
Lemma th_after_init argsort mm sort : tidyh (h_after_init argsort mm sort).
Proof.
  unfold h_after_init. repeat (apply th_bind; [first [apply th_read|exact (t_copy _)|apply th_put; intros; destruct sort; reflexivity]|intros]).
  apply th_put; reflexivity.
Qed.
Lemma th_epoch argsort mm sort save evolve ep : tidy (evolve ep) -> tidyh (h_epoch argsort mm sort save evolve ep).
Proof.
  intros He. unfold h_epoch. apply th_bind; [exact He|intros _]. apply th_bind; [apply th_update|intros [sp gb]].
  apply th_bind; [apply th_put; reflexivity|intros _]. apply th_bind; [apply th_put; intros; destruct sort; reflexivity|intros _].
  destruct save; [|apply th_put; reflexivity]. apply th_bind; [apply th_pop, t_copies|intros d; apply th_put; reflexivity].
Qed.
Lemma th_epochs argsort mm sort save evolve n : (forall ep, tidy (evolve ep)) -> forall i, tidyh (h_epochs argsort mm sort save evolve n i).
Proof.
  intros He. induction n as [|n IH]; intros i; cbn [h_epochs]; [apply th_put; reflexivity|].
  apply th_bind; [apply th_epoch, He|intros _; apply IH].
Qed.
Lemma epochs_last argsort mm sort save (evolve : nat -> prog unit) n : forall i s s', h_epochs argsort mm sort save evolve (S n) i s = Ok (tt, s') ->
  exists j s1, h_epochs argsort mm sort save evolve n i s = Ok (tt, s1) /\ h_epoch argsort mm sort save evolve j s1 = Ok (tt, s').
Proof.
  induction n as [|n IH]; intros i s s' H; cbn [h_epochs] in H; apply hbind_inv in H; destruct H as ([] & s1 & H1 & H2).
  - injection H2 as <-. exists i, s. split; [reflexivity|exact H1].
  - destruct (IH _ _ _ H2) as (j & s2 & H3 & H4). exists j, s2. split; [|exact H4]. cbn [h_epochs]. unfold hbind. rewrite H1. exact H3.
Qed.
(** A whole run of tidy code: every evaluated agent on the final heap, and the agent returned, is up to date. *)
Theorem tidy_run argsort mm sort save init before evolve epochs (s : hst) g s' :
  tidy init -> tidy before -> (forall ep, tidy (evolve ep)) -> 0 < epochs -> fresh (hp s) ->
  h_solve argsort mm sort save init before evolve epochs s = Ok (g, s') ->
  up_to_date P (hp s') g /\ forall l x t b, deep (hp s') l = Ok (x, t, b) -> t = prob_target P x.
Proof.
  intros Hi Hb He Hn F H. unfold h_solve in H.
  apply hbind_inv in H. destruct H as ([] & s1 & H1 & H). destruct (Hi _ _ _ H1 F) as (F1 & _).
  apply hbind_inv in H. destruct H as ([] & s2 & H2 & H). destruct (th_after_init _ _ _ _ _ _ H2 F1) as (F2 & _).
  apply hbind_inv in H. destruct H as ([] & s3 & H3 & H). destruct (Hb _ _ _ H3 F2) as (F3 & _).
  apply hbind_inv in H. destruct H as ([] & s4 & H4 & H). apply hread_inv in H. destruct H as [Hg ->].
  destruct (th_epochs _ _ _ _ _ _ He _ _ _ _ H4 F3) as (F4 & _).
  split.
  - destruct epochs as [|n]; [lia|]. destruct (epochs_last _ _ _ _ _ _ _ _ _ H4) as (j & s5 & H5 & H6).
    destruct (epoch_inv _ _ _ _ _ _ _ _ H6) as (s6 & sp & better & s7 & m & _ & Hu & Hh & Hb' & _). rewrite Hb' in Hg. injection Hg as <-.
    destruct (update_inv _ _ _ _ _ _ Hu) as (m' & w & cb & cw & gb & gw & _ & _ & _ & _ & _ & _ & _ & (z & x & t & b & _ & _ & _ & Hs) & _).
    eapply shown_up_to_date; [exact F4|]. rewrite Hh. eapply (shown_keeps (fun _ => False) any); [apply keeps_app|tauto|exact Hs].
  - intros l x t b Hd. destruct (deep_shown _ _ _ _ _ Hd) as (a & Hs & Ha). destruct (shown_fresh _ _ _ _ _ F4 Hs) as (v & Hv & ->).
    apply o_arr_inv in Ha. rewrite Ha in Hv. injection Hv as ->. reflexivity.
Qed.
End Fresh.

(** ** Mutation by flipping the whole vector makes new arrays *)
Section GA.
Variable E : env.
Variable P : problem.
Variable fuel : nat.
Ltac tdy := repeat lazymatch goal with
  | |- tidy _ (PRet _) => apply t_ret
  | |- tidy _ (PFail _) => apply t_fail
  | |- tidy _ (read _) => apply t_read
  | |- tidy _ (new (OArr _)) => apply t_arr
  | |- tidy _ (copy _) => apply t_copy
  | |- tidy _ (better_ref _ _ _ _) => apply t_better
  | |- tidy _ (pbind (new (OArr _)) (fun _ => pbind (new (OTgt (prob_target _ _))) _)) => apply t_evaluated
  | |- tidy _ (pbind _ _) => apply t_bind; [|intros]
  | |- tidy _ (PGet _) => apply t_get; intros
  | |- tidy _ (PTick _) => apply t_tick; intros; cbv beta zeta
  | |- tidy _ (PPop _ _) => apply t_pop
  | |- tidy _ (let '_ := ?x in _) => destruct x
  | |- tidy _ (match ?x with _ => _ end) => destruct x
  | |- tidy _ (let _ := _ in _) => cbv zeta
  | H : tidy _ ?p |- tidy _ ?p => exact H
  end.
Lemma t_int lo hi : tidy P (h_int E lo hi).
Proof. unfold h_int. tdy. Qed.
Lemma t_many {T} n (m : prog unit unit T) : tidy P m -> tidy P (h_many n m).
Proof. intros H. induction n as [|n IH]; cbn [h_many]; tdy. Qed.
Lemma t_choose {T} n : forall l : list T, tidy P (h_choose E l n).
Proof. induction n as [|n IH]; intros l; cbn [h_choose]; [tdy|]. destruct l; tdy. apply IH. Qed.
Lemma t_two {T} (l : list T) : tidy P (two l).
Proof. unfold two. tdy. Qed.
Lemma t_roulette l : tidy P (h_roulette E P l).
Proof. unfold h_roulette, h_rand. tdy; try apply t_int. Qed.
Lemma t_other l i k : forall j, tidy P (h_other E P k l i j).
Proof. induction k as [|k IH]; intros j; cbn [h_other]; tdy; [apply t_roulette|apply IH]. Qed.
Lemma t_tournament pop k o r : tidy P (h_tournament E P pop k o r).
Proof. unfold h_tournament. tdy. apply t_choose. Qed.
Ltac tga := tdy; try (lazymatch goal with
  | |- tidy _ (h_int _ _ _) => apply t_int
  | |- tidy _ (h_choose _ _ _) => apply t_choose
  | |- tidy _ (two _) => apply t_two
  | |- tidy _ (h_roulette _ _ _) => apply t_roulette
  | |- tidy _ (h_other _ _ _ _ _ _) => apply t_other
  | |- tidy _ (h_tournament _ _ _ _ _ _) => apply t_tournament
  | |- tidy _ (h_many _ _) => apply t_many
  end; tga).
Lemma t_select sel k n fits : tidy P (ga_select E P fuel sel k n fits).
Proof. unfold ga_select, h_arr. tga. Qed.
Lemma t_select_00 sel k pop : tidy P (ga_select_00 E P fuel sel k pop).
Proof. unfold ga_select_00, h_arr, h_fits. tga. Qed.
Lemma t_select_01 sel k dads moms : tidy P (ga_select_01 E P sel k dads moms).
Proof. unfold ga_select_01, h_arr, h_fits. tga. Qed.
Lemma t_cross cro a b : tidy P (ga_cross E P cro a b).
Proof. unfold ga_cross, h_val, h_rand. tga. Qed.
Lemma t_mflip pm a : tidy P (ga_mutate E P MFlip pm a).
Proof. unfold ga_mutate, h_val, h_rand. tga. Qed.
Lemma t_child a : tidy P (ga_child P a).
Proof. unfold ga_child, h_val. tga. Qed.
Lemma t_pair sel k cro pc pm n fits : tidy P (ga_pair E P fuel sel k cro MFlip pc pm n fits).
Proof. unfold ga_pair, h_rand. tga; auto using t_select, t_cross, t_mflip, t_child. Qed.
Lemma t_pairs m sel k cro pc pm n fits : tidy P (ga_pairs E P fuel m sel k cro MFlip pc pm n fits).
Proof. induction m as [|m IH]; cbn [ga_pairs]; tga; auto using t_pair. Qed.
Lemma t_survive pop ch idxs : tidy P (ga_survive E P pop ch idxs).
Proof. induction idxs as [|i r IH]; cbn [ga_survive]; tga. Qed.
Lemma t_init n : tidy P (woa_init P n).
Proof.
  induction n as [|n IH]; cbn [woa_init]; [apply t_ret|]. apply t_tick; intros k.
  change (tidy P (pbind (pbind (new (OArr (p_gen P k))) (fun arr => pbind (new (OTgt (prob_target P (p_gen P k)))) (fun t => new (OAgt arr (Some t) tt))))
    (fun l => pbind (woa_init P n) (fun r => PRet (l :: r))))).
  apply t_bind; [apply t_evaluated|intros l]. apply t_bind; [exact IH|intros r; apply t_ret].
Qed.
Lemma t_evolve sel k cro pc pm n : tidy P (ga_evolve E P fuel sel k cro MFlip pc pm n).
Proof. unfold ga_evolve, h_fits. tga; auto using t_pairs, t_survive. Qed.
Lemma t_elite_child parents cro pc pm : tidy P parents -> tidy P (ga_elite_child E P parents cro MFlip pc pm).
Proof. intros H. unfold ga_elite_child, h_rand. tga; auto using t_cross, t_mflip, t_child. Qed.
Lemma t_elite_evolve sel k cro pc pm second nb nw n : tidy P (ga_elite_evolve E P fuel sel k cro MFlip pc pm second nb nw n).
Proof.
  unfold ga_elite_evolve. tga. apply t_elite_child. destruct second; auto using t_select_00, t_select_01.
Qed.

(** BaseGA with its default mutation, and MultiGA: every run that returns, whatever the selection, crossover and
    probabilities, returns an agent whose stored target is the objective at its position, and so is every agent
    reachable from the population or the history. *)
Theorem C67_flip save sel k cro pc pm n epochs g s' : 0 < epochs ->
  ga_solve E P fuel save sel k cro MFlip pc pm n epochs (heap0 tt) = Ok (g, s') ->
  up_to_date P (hp s') g /\ forall l x t b, deep (hp s') l = Ok (x, t, b) -> t = prob_target P x.
Proof.
  intros Hn H. eapply tidy_run; [| | |exact Hn| |exact H].
  - apply t_bind; [apply t_init|intros; apply t_pop, t_ret].
  - apply t_ret.
  - intros ep. apply t_evolve.
  - intros [|l] a t b Hl; discriminate.
Qed.
(** EliteMultiGA with mutation "flip". *)
Theorem C67_elite_flip save sel k cro pc pm second nb nw n epochs g s' : 0 < epochs ->
  ga_elite_solve E P fuel save sel k cro MFlip pc pm second nb nw n epochs (heap0 tt) = Ok (g, s') ->
  up_to_date P (hp s') g /\ forall l x t b, deep (hp s') l = Ok (x, t, b) -> t = prob_target P x.
Proof.
  intros Hn H. eapply tidy_run; [| | |exact Hn| |exact H].
  - apply t_bind; [apply t_init|intros; apply t_pop, t_ret].
  - apply t_ret.
  - intros ep. apply t_elite_evolve.
  - intros [|l] a t b Hl; discriminate.
Qed.
End GA.

(** ** Operators that write into their argument *)
(** SingleGA(epoch=4, pop_size=10, pc=0.95, pm=0.8, selection="tournament", crossover="uniform", mutation="swap",
    k_way=0.2) on the first coordinate over [-5, 5]^2.  The agent returned stores a fitness better than the objective at
    its position: when no crossover happens the children are the parents' own arrays. *)
Definition ga_env : env := mkEnv argsort_ins (fun k => fdiv (fZ (Z.of_nat (92 + k * 3 mod 8))) (fZ 100)) (fun k => fZ 0) (fun k => k * 7 + 1)
  (fun _ l => nth 0 l (fZ 0)) (fun k => fZ 0) (fun _ => []).
Definition first_coord (x : vec) : f64 := nth 0 x fnan.
Definition ga_demo (mut : mutation) : res (nat * hst unit unit) :=
  ga_solve ga_env (demo_prob Min first_coord false) 20 false Tournament (KFloat (fdiv (fZ 2) (fZ 10))) Uniform mut
    (fdiv (fZ 95) (fZ 100)) (fdiv (fZ 8) (fZ 10)) 10 4 (heap0 tt).
Theorem C67_swap_refuted : exists g s x t, ga_demo Swap = Ok (g, s) /\ deep (hp s) g = Ok (x, t, tt) /\
  flt (t_fit t) (t_fit (prob_target (demo_prob Min first_coord false) x)) = true.
Proof.
  assert (H : match ga_demo Swap with
              | Ok (g, s) => match deep (hp s) g with
                             | Ok (x, t, _) => flt (t_fit t) (t_fit (prob_target (demo_prob Min first_coord false) x))
                             | Err _ => false end
              | Err _ => false end = true) by (vm_compute; reflexivity).
  destruct (ga_demo Swap) as [[g s]|]; [|discriminate]. destruct (deep (hp s) g) as [[[x t] []]|] eqn:Ed; [|discriminate].
  exists g, s, x, t. auto.
Qed.
(** A complete run to which C67_flip applies. *)
Example C67_flip_case : exists g s, ga_demo MFlip = Ok (g, s).
Proof.
  assert (H : match ga_demo MFlip with Ok _ => true | Err _ => false end = true) by (vm_compute; reflexivity).
  destruct (ga_demo MFlip) as [[g s]|]; [|discriminate]. eauto.
Qed.

(** ** Runs that never return *)
Definition never {Y} (r : res Y) : Prop := exists e, r = Err e.
Section Never.
Variable E : env.
Variable P : problem.
Variable fuel : nat.
Notation prog := (prog unit unit).
Notation hst := (hst unit unit).
Definition pp {Y} (p : prog Y) (Q : Y -> hst -> Prop) (s : hst) : Prop := forall y s', run p s = Ok (y, s') -> Q y s'.
Lemma pp_bind {Y Z} (p : prog Y) (f : Y -> prog Z) Q s : pp p (fun y s' => pp (f y) Q s') s -> pp (pbind p f) Q s.
Proof.
  intros H y s'. rewrite run_pbind. destruct (run p s) as [[y1 s1]|] eqn:E1; cbn [bind]; [|discriminate]. exact (H _ _ E1 y s').
Qed.
Lemma pp_mono {Y} (p : prog Y) (Q Q' : Y -> hst -> Prop) s : pp p Q s -> (forall y s', Q y s' -> Q' y s') -> pp p Q' s.
Proof. unfold pp. eauto. Qed.
Lemma pp_true {Y} (p : prog Y) s : pp p (fun _ _ => True) s.
Proof. unfold pp. auto. Qed.
Lemma pp_ret {Y} (y : Y) (Q : Y -> hst -> Prop) s : Q y s -> pp (PRet y) Q s.
Proof. intros H y' s' Hr. injection Hr as <- <-. exact H. Qed.
Lemma pp_never {Y} (p : prog Y) s : pp p (fun _ _ => False) s -> never (run p s).
Proof. intros H. destruct (run p s) as [[y s']|e] eqn:Er; [destruct (H _ _ Er)|exists e; reflexivity]. Qed.

Lemma pairs_len m sel k cro mut pc pm n fits s : pp (ga_pairs E P fuel m sel k cro mut pc pm n fits) (fun l _ => List.length l = 2 * m) s.
Proof.
  revert s. induction m as [|m IH]; intros s; cbn [ga_pairs]; [apply pp_ret; reflexivity|].
  apply pp_bind. eapply pp_mono with (Q := fun l _ => List.length l = 2).
  - unfold ga_pair. repeat (apply pp_bind; eapply pp_mono; [apply pp_true|]; intros; try match goal with |- pp (let '_ := ?x in _) _ _ => destruct x end).
    apply pp_ret. reflexivity.
  - intros l s1 Hl. apply pp_bind. eapply pp_mono; [apply IH|]. intros r s2 Hr. cbv beta in Hr. apply pp_ret. rewrite app_length. lia.
Qed.
Lemma survive_len pop ch idxs s : pp (ga_survive E P pop ch idxs) (fun _ _ => forall i, In i idxs -> i < List.length ch) s.
Proof.
  revert s. induction idxs as [|i r IH]; intros s; cbn [ga_survive]; [apply pp_ret; intros i []|].
  apply pp_bind. eapply pp_mono; [apply pp_true|]. intros l s1 _.
  apply pp_bind. eapply pp_mono; [apply pp_true|]. intros j s2 _.
  apply pp_bind. eapply pp_mono with (Q := fun _ _ => i < List.length ch).
  { intros y s3. rewrite run_read. unfold getitem. destruct (nth_error ch i) eqn:En; [|discriminate]. intros _. apply nth_error_Some. congruence. }
  intros c s3 Hi. apply pp_bind. eapply pp_mono; [apply pp_true|]. intros o s4 _.
  apply pp_bind. eapply pp_mono; [apply pp_true|]. intros z s5 _.
  apply pp_bind. eapply pp_mono; [apply IH|]. intros zs s6 Hr. apply pp_ret. intros k [<-|Hk]; auto.
Qed.
Lemma k01_small m : m < 10 -> kway_size k01 m = Ok 0.
Proof.
  intros H. do 10 (destruct m as [|m]; [vm_compute; reflexivity|]). lia.
Qed.
Lemma survive_small pop ch i r s : List.length pop < 10 -> pp (ga_survive E P pop ch (i :: r)) (fun _ _ => False) s.
Proof.
  intros Hp. cbn [ga_survive]. unfold h_tournament. rewrite k01_small by exact Hp. cbn [h_choose].
  destruct (p_mm P); cbn; intros y s' Hr; discriminate.
Qed.
Lemma evolve_small sel k cro mut pc pm n s : 0 < n -> List.length (po s) < 10 ->
  (forall fits, pp (ga_pairs E P fuel (n / 2) sel k cro mut pc pm n fits) (fun _ s' => po s' = po s) s) ->
  pp (ga_evolve E P fuel sel k cro mut pc pm n) (fun _ _ => False) s.
Proof.
  intros Hn Hp Hk y s' Hr. unfold ga_evolve in Hr. cbn [run] in Hr. revert y s' Hr.
  change (pp (pbind (h_fits (po s)) (fun fits => pbind (ga_pairs E P fuel (n / 2) sel k cro mut pc pm n fits) (fun children =>
    PGet (fun s0 => pbind (ga_survive E P (po s0) children (seq 0 n)) (fun p => PPop p (PRet tt)))))) (fun _ _ => False) s).
  apply pp_bind. eapply pp_mono with (Q := fun _ s' => s' = s).
  { intros y s'. unfold h_fits. rewrite run_read. destruct (map_res _ _); cbn [bind]; [|discriminate]. intros H; injection H as _ <-. reflexivity. }
  intros fits s1 ->. apply pp_bind. eapply pp_mono; [apply Hk|]. intros ch s1 Hs.
  intros y s2 Hr. cbn [run] in Hr. revert y s2 Hr.
  change (pp (pbind (ga_survive E P (po s1) ch (seq 0 n)) (fun p => PPop p (PRet tt))) (fun _ _ => False) s1).
  apply pp_bind. destruct n as [|m]; [lia|]. cbn [seq]. eapply pp_mono; [apply survive_small; rewrite Hs; exact Hp|]. intros y s2 [].
Qed.
Lemma evolve_odd sel k cro mut pc pm n s : Nat.odd n = true -> pp (ga_evolve E P fuel sel k cro mut pc pm n) (fun _ _ => False) s.
Proof.
  intros Ho y s' Hr. unfold ga_evolve in Hr. cbn [run] in Hr. revert y s' Hr.
  change (pp (pbind (h_fits (po s)) (fun fits => pbind (ga_pairs E P fuel (n / 2) sel k cro mut pc pm n fits) (fun children =>
    PGet (fun s0 => pbind (ga_survive E P (po s0) children (seq 0 n)) (fun p => PPop p (PRet tt)))))) (fun _ _ => False) s).
  apply pp_bind. eapply pp_mono; [apply pp_true|]. intros fits s1 _.
  apply pp_bind. eapply pp_mono; [apply pairs_len|]. intros ch s2 Hl. cbv beta in Hl.
  intros y s3 Hr. cbn [run] in Hr. revert y s3 Hr.
  change (pp (pbind (ga_survive E P (po s2) ch (seq 0 n)) (fun p => PPop p (PRet tt))) (fun _ _ => False) s2).
  apply pp_bind. eapply pp_mono; [apply survive_len|]. intros p s3 Hi. cbv beta in Hi. exfalso.
  apply Nat.odd_spec in Ho. destruct Ho as [m ->]. assert (Hd : (2 * m + 1) / 2 = m) by (symmetry; apply Nat.div_unique with 1; lia).
  rewrite Hd in Hl. specialize (Hi (2 * m)). rewrite in_seq, Hl in Hi. lia.
Qed.

(** Code that does not assign self.pop. *)
Definition nop {Y} (p : prog Y) : Prop := forall s y s', run p s = Ok (y, s') -> po s' = po s.
Lemma n_ret {Y} (y : Y) : nop (PRet y).
Proof. intros s z s' H. injection H as _ <-. reflexivity. Qed.
Lemma n_fail {Y} e : nop (@PFail unit unit Y e).
Proof. intros s z s' H. discriminate. Qed.
Lemma n_bind {Y Z} (p : prog Y) (f : Y -> prog Z) : nop p -> (forall y, nop (f y)) -> nop (pbind p f).
Proof.
  intros Hp Hf s z s'. rewrite run_pbind. destruct (run p s) as [[y s1]|] eqn:E1; cbn [bind]; [|discriminate]. intros E2.
  rewrite (Hf _ _ _ _ E2). exact (Hp _ _ _ E1).
Qed.
Lemma n_read {Y} (r : hst -> res Y) : nop (read r).
Proof. intros s y s'. rewrite run_read. destruct (r s); cbn [bind]; [|discriminate]. intros H. injection H as _ <-. reflexivity. Qed.
Lemma n_get {Y} (k : hst -> prog Y) : (forall s, nop (k s)) -> nop (PGet k).
Proof. intros H s y s' Hr. exact (H s s y s' Hr). Qed.
Lemma n_tick {Y} (k : nat -> prog Y) : (forall i, nop (k i)) -> nop (PTick k).
Proof. intros H s y s' Hr. exact (H _ _ _ _ Hr). Qed.
Lemma n_new o : nop (new o).
Proof. intros s y s' Hr. injection Hr as _ <-. reflexivity. Qed.
Lemma n_elem {Y} a j v (k : prog Y) : nop k -> nop (PElem a j v k).
Proof. intros H s y s' Hr. cbn [run] in Hr. destruct (put_elem _ _ _ _); cbn [bind] in Hr; [|discriminate]. exact (H _ _ _ Hr). Qed.
Ltac npp := repeat lazymatch goal with
  | |- nop (PRet _) => apply n_ret
  | |- nop (PFail _) => apply n_fail
  | |- nop (read _) => apply n_read
  | |- nop (new _) => apply n_new
  | |- nop (pbind _ _) => apply n_bind; [|intros]
  | |- nop (PGet _) => apply n_get; intros
  | |- nop (PTick _) => apply n_tick; intros; cbv beta zeta
  | |- nop (PElem _ _ _ _) => apply n_elem
  | |- nop (match ?x with _ => _ end) => destruct x
  | |- nop (let _ := _ in _) => cbv zeta
  | H : nop ?p |- nop ?p => exact H
  | H : forall _, nop _ |- nop _ => apply H
  end.
Lemma n_many {T} n (m : prog T) : nop m -> nop (h_many n m).
Proof. intros H. induction n as [|n IH]; cbn [h_many]; npp. Qed.
Lemma n_choose {T} n : forall l : list T, nop (h_choose E l n).
Proof. induction n as [|n IH]; intros l; cbn [h_choose]; [npp|]. destruct l; npp. Qed.
Lemma n_roulette l : nop (h_roulette E P l).
Proof. unfold h_roulette, h_rand, h_int. npp. Qed.
Lemma n_other l i k : forall j, nop (h_other E P k l i j).
Proof. induction k as [|k IH]; intros j; cbn [h_other]; destruct (j =? i); npp; apply n_roulette. Qed.
Lemma n_tournament pop k o r : nop (h_tournament E P pop k o r).
Proof. unfold h_tournament. npp. apply n_choose. Qed.
Lemma n_put a js : forall vs, nop (h_put a js vs).
Proof. induction js as [|j js IH]; intros [|v vs]; cbn [h_put]; npp. Qed.
Ltac nga := npp; try (lazymatch goal with
  | |- nop (h_choose _ _ _) => apply n_choose
  | |- nop (h_roulette _ _ _) => apply n_roulette
  | |- nop (h_other _ _ _ _ _ _) => apply n_other
  | |- nop (h_tournament _ _ _ _ _ _) => apply n_tournament
  | |- nop (h_many _ _) => apply n_many
  | |- nop (h_put _ _ _) => apply n_put
  end; nga).
Lemma n_select sel k n fits : nop (ga_select E P fuel sel k n fits).
Proof. unfold ga_select, h_arr, two. nga. Qed.
Lemma n_cross cro a b : nop (ga_cross E P cro a b).
Proof. unfold ga_cross, h_val, h_rand, h_int, two. nga. Qed.
Lemma n_mutate mut pm a : nop (ga_mutate E P mut pm a).
Proof. unfold ga_mutate, h_swap, h_val, h_rand, h_int, two. nga. Qed.
Lemma n_pairs m sel k cro mut pc pm n fits : nop (ga_pairs E P fuel m sel k cro mut pc pm n fits).
Proof.
  induction m as [|m IH]; cbn [ga_pairs]; nga. unfold ga_pair, h_rand, ga_child, h_val. nga; auto using n_select, n_cross, n_mutate.
Qed.

(** The population between the initialization and the first epoch. *)
Lemma n_init n : nop (woa_init P n) .
Proof. induction n as [|n IH]; cbn [woa_init]; npp. Qed.
Lemma init_len n s : pp (woa_init P n) (fun l _ => List.length l = n) s.
Proof.
  revert s. induction n as [|n IH]; intros s; cbn [woa_init]; [apply pp_ret; reflexivity|].
  intros y s' Hr. cbn [run] in Hr. revert y s' Hr. do 3 (apply pp_bind; eapply pp_mono; [apply pp_true|]; intros).
  apply pp_bind. eapply pp_mono; [apply IH|]. intros r s2 Hr. cbv beta in Hr. apply pp_ret. cbn. rewrite Hr. reflexivity.
Qed.
Lemma after_init_po argsort mm (s : hst) s' : h_after_init argsort mm false s = Ok (tt, s') -> po s' = po s.
Proof.
  unfold h_after_init. intros H.
  repeat (apply hbind_inv in H; let y := fresh "y" in let s1 := fresh "s" in let H1 := fresh "H" in destruct H as (y & s1 & H1 & H);
    first [apply hread_inv in H1; destruct H1 as [_ ->]
          |apply run_copy in H1; destruct H1 as (? & ? & ? & _ & _ & ->)
          |injection H1 as _ <-]).
  injection H as <-. reflexivity.
Qed.
Lemma solve_never (evolve : nat -> prog unit) save n epochs : 0 < epochs ->
  (forall s ep, List.length (po s) = n -> pp (evolve ep) (fun _ _ => False) s) ->
  forall s, never (h_solve (e_argsort E) (p_mm P) false save (pbind (woa_init P n) (fun p => PPop p (PRet tt))) (PRet tt) evolve epochs s).
Proof.
  intros He Hv s. set (r := h_solve _ _ _ _ _ _ _ _ _). assert (N : forall y, r <> Ok y).
  { intros [g s'] H. unfold r, h_solve in H.
    apply hbind_inv in H. destruct H as ([] & s1 & H1 & H). apply hbind_inv in H. destruct H as ([] & s2 & H2 & H).
    apply hbind_inv in H. destruct H as ([] & s3 & H3 & H). injection H3 as <-. apply hbind_inv in H. destruct H as ([] & s4 & H4 & _).
    rewrite run_pbind in H1. destruct (run (woa_init P n) s) as [[p s0]|] eqn:Ei; cbn [bind] in H1; [|discriminate].
    injection H1 as <-. pose proof (init_len _ _ _ _ Ei) as Hl. pose proof (after_init_po _ _ _ _ H2) as Hp. cbn in Hp.
    destruct epochs as [|m]; [lia|]. cbn [h_epochs] in H4. apply hbind_inv in H4. destruct H4 as ([] & s5 & H5 & _).
    unfold h_epoch in H5. apply hbind_inv in H5. destruct H5 as ([] & s6 & H6 & _). refine (Hv _ _ _ _ _ H6). rewrite Hp. exact Hl. }
  destruct r as [y|e]; [destruct (N y eq_refl)|exists e; reflexivity].
Qed.
(** BaseGA, SingleGA and MultiGA, any selection, crossover and mutation, on any problem: no run with a population of
    fewer than ten agents, or with an odd number of agents, ever returns (the constructors accept 5 to 10000). *)
Theorem C68_GA save sel k cro mut pc pm n epochs s : 0 < n -> 0 < epochs -> n < 10 \/ Nat.odd n = true ->
  never (ga_solve E P fuel save sel k cro mut pc pm n epochs s).
Proof.
  intros Hn He Hc. apply solve_never; [exact He|]. intros s1 ep Hl. destruct Hc as [Hc|Hc]; [|apply evolve_odd; exact Hc].
  apply evolve_small; [exact Hn|lia|]. intros fits y s' Hr. exact (n_pairs _ _ _ _ _ _ _ _ _ _ _ _ Hr).
Qed.

(** Roulette selection of two different parents when all agents but one are equally bad: the redraw loop never
    ends, whatever the number of redraws ([fuel]). *)
Lemma h_roulette_value l s i s' : run (h_roulette E P l) s = Ok (i, s') ->
  exists s1 : st unit unit, roulette E P l (mkSt [] None None (div_hist []) 0 (hctr s) [] tt) = Ok (i, s1).
Proof.
  unfold h_roulette, roulette. destruct l as [|v l]; [discriminate|]. set (l0 := v :: l). destruct (roulette_probs (p_mm P) l0) as [p|].
  - unfold choice_p. destruct (_ || _ || _)%bool; [discriminate|]. cbn. intros H. injection H as <- _. eexists. reflexivity.
  - unfold h_int, integers. destruct (_ <=? 0)%nat; [discriminate|]. cbn. intros H. injection H as <- _. eexists. reflexivity.
Qed.
(** All values but that of index [b] are worst. *)
Definition one_better (l : list f64) (b : nat) : Prop :=
  forall i j, i < List.length l -> j < List.length l -> i <> b -> flt (nth i l fnan) (nth j l fnan) = false.
Lemma wheel_stuck l b : unit_draws E -> p_mm P = Min -> feq (fsub (fmaxl l) (fminl l)) (fZ 0) = false -> one_better l b ->
  forall s, pp (h_roulette E P l) (fun i _ => i = b) s.
Proof.
  intros HU HM HD Ho s i s' Hr. apply h_roulette_value in Hr. destruct Hr as (s1 & Hr).
  destruct (C44_never_worst E P l _ i s1 HU HM Hr HD) as (Hi & j & Hj & Hlt).
  destruct (Nat.eq_dec i b) as [->|Hne]; [reflexivity|]. rewrite (Ho i j Hi Hj Hne) in Hlt. discriminate.
Qed.
Lemma other_stuck l b : (forall s, pp (h_roulette E P l) (fun i _ => i = b) s) ->
  forall k s, pp (h_other E P k l b b) (fun _ _ => False) s.
Proof.
  intros Hw k. induction k as [|k IH]; intros s; cbn [h_other]; rewrite Nat.eqb_refl.
  - intros y s' Hr. discriminate.
  - apply pp_bind. eapply pp_mono; [apply Hw|]. intros j s' ->. apply IH.
Qed.
Theorem C68_roulette k cro mut pc pm n s fits b : unit_draws E -> p_mm P = Min -> 2 <= n ->
  map_res (o_fit (hp s)) (po s) = Ok fits -> feq (fsub (fmaxl fits) (fminl fits)) (fZ 0) = false -> one_better fits b ->
  never (run (ga_evolve E P fuel Roulette k cro mut pc pm n) s).
Proof.
  intros HU HM Hn Hf HD Ho. apply pp_never. intros y s' Hr. unfold ga_evolve in Hr. cbn [run] in Hr. revert y s' Hr.
  change (pp (pbind (h_fits (po s)) (fun fits => pbind (ga_pairs E P fuel (n / 2) Roulette k cro mut pc pm n fits) (fun children =>
    PGet (fun s0 => pbind (ga_survive E P (po s0) children (seq 0 n)) (fun p => PPop p (PRet tt)))))) (fun _ _ => False) s).
  apply pp_bind. eapply pp_mono with (Q := fun l s' => l = fits /\ s' = s).
  { intros y s'. unfold h_fits. rewrite run_read, Hf. cbn [bind]. intros H; injection H as <- <-. auto. }
  intros l s1 [-> ->]. apply pp_bind. eapply pp_mono with (Q := fun _ _ => False); [|intros ? ? []].
  assert (Hh : 1 <= n / 2) by (apply Nat.div_le_lower_bound; lia). destruct (n / 2) as [|m]; [lia|]. cbn [ga_pairs].
  pose proof (wheel_stuck fits b HU HM HD Ho) as Hw.
  apply pp_bind. eapply pp_mono with (Q := fun _ _ => False); [|intros ? ? []].
  unfold ga_pair. apply pp_bind. eapply pp_mono with (Q := fun _ _ => False); [|intros ? ? []].
  unfold ga_select. apply pp_bind. eapply pp_mono with (Q := fun _ _ => False); [|intros ? ? []].
  apply pp_bind. eapply pp_mono; [apply Hw|]. intros i s1 ->. apply pp_bind. eapply pp_mono; [apply Hw|]. intros j s2 ->.
  apply pp_bind. eapply pp_mono; [apply other_stuck; exact Hw|]. intros ? ? [].
Qed.
End Never.

(** A population to which C68_roulette applies: SingleGA's default selection, ten initial agents, the objective "first
    coordinate is not zero"; one agent happens to have first coordinate zero. *)
Example C68_roulette_case : exists s fits b,
  run (pbind (woa_init (demo_prob Min l0norm false) 10) (fun p => PPop p (PRet tt))) (heap0 tt) = Ok (tt, s) /\
  map_res (o_fit (hp s)) (po s) = Ok fits /\ feq (fsub (fmaxl fits) (fminl fits)) (fZ 0) = false /\ one_better fits b.
Proof.
  assert (H : match run (pbind (woa_init (demo_prob Min l0norm false) 10) (fun p => PPop p (PRet tt))) (heap0 tt) with
    | Ok (_, s) => match map_res (o_fit (hp s)) (po s) with
      | Ok fits => negb (feq (fsub (fmaxl fits) (fminl fits)) (fZ 0)) &&
        forallb (fun i => (i =? 9) || forallb (fun j => negb (flt (nth i fits fnan) (nth j fits fnan))) (seq 0 (List.length fits))) (seq 0 (List.length fits))
      | Err _ => false end
    | Err _ => false end = true) by (vm_compute; reflexivity).
  destruct (run _ _) as [[[] s]|]; [|discriminate]. destruct (map_res _ _) as [fits|] eqn:Ef; [|discriminate].
  apply andb_true_iff in H. destruct H as [H1 H2]. exists s, fits, 9. split; [reflexivity|]. split; [exact Ef|].
  split; [destruct (feq _ _); [discriminate|reflexivity]|].
  intros i j Hi Hj Hne. rewrite forallb_forall in H2. specialize (H2 i). rewrite in_seq in H2. specialize (H2 ltac:(lia)).
  apply orb_true_iff in H2. destruct H2 as [H2|H2]; [apply Nat.eqb_eq in H2; contradiction|].
  rewrite forallb_forall in H2. specialize (H2 j). rewrite in_seq in H2. specialize (H2 ltac:(lia)). destruct (flt _ _); [discriminate|reflexivity].
Qed.
Example C68_draws : unit_draws zero_env.
Proof. intros k. split; reflexivity. Qed.

Print Assumptions C67_flip.
Print Assumptions C67_elite_flip.
Print Assumptions C67_swap_refuted.
Print Assumptions C68_GA.
Print Assumptions C68_roulette.
