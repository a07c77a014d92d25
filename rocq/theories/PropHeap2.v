(** C52 and C68 for the Bees algorithms, on the heap. *)
From Verif Require Import Prelude Fl MCore MHeap MHeap2 PHeap SpecCore SpecRun PSelect PLogic PSolve PRun PAny PPart Demo PropHeap.

(** ** C52: the dance writes into the arrays of recorded agents *)
(** The squared distance to (5, -2), a point on the edge of the box. *)
Definition edge (x : vec) : f64 := sphere [fsub (nth 0 x fnan) (fZ 5); fadd (nth 1 x fnan) (fZ 2)].
Definition half : f64 := fdiv (fZ 1) (fZ 2).
(** OriginalBeesA(epoch=1, pop_size=12, selected_site_ratio=0.4, elite_site_ratio=0.4, selected_site_bee_ratio=0.25,
    elite_site_bee_ratio=2.0, dance_radius=0.5, dance_reduction=0.99): 2 elite sites with 6 bees each and 3 other
    selected sites with 3 bees each. *)
Definition bees_demo : res (nat * hst unit f64) :=
  bees_solve demo_env (demo_prob Min edge false) 2 5 6 3 half (fdiv (fZ 99) (fZ 100)) false 12 1 (heap0 half).
(** ProbBeesA(epoch=1, pop_size=10, recruited_bee_ratio=0.3, dance_radius=0.5, dance_reduction=0.99). *)
Definition prob_demo : res (nat * hst unit f64) :=
  prob_solve demo_env (demo_prob Min edge false) 3 half (fdiv (fZ 99) (fZ 100)) false 10 1 (heap0 half).

(** The agent returned by OriginalBeesA stores a fitness better than the objective at its position, and its position
    is outside the bounds. *)
Theorem C52_OriginalBeesA_refuted : exists g s x t,
  bees_demo = Ok (g, s) /\ deep (hp s) g = Ok (x, t, tt) /\
  flt (t_fit t) (t_fit (prob_target (demo_prob Min edge false) x)) = true /\
  existsb (fun v => flt v (fZ (-5)) || flt (fZ 5) v) x = true.
Proof.
  assert (H : match bees_demo with
              | Ok (g, s) =>
                match deep (hp s) g with
                | Ok (x, t, _) => flt (t_fit t) (t_fit (prob_target (demo_prob Min edge false) x)) && existsb (fun v => flt v (fZ (-5)) || flt (fZ 5) v) x
                | Err _ => false
                end
              | Err _ => false end = true) by (vm_compute; reflexivity).
  destruct bees_demo as [[g s]|]; [|discriminate]. destruct (deep (hp s) g) as [[[x t] []]|] eqn:Ed; [|discriminate].
  apply andb_true_iff in H. destruct H as [H1 H2]. exists g, s, x, t. auto.
Qed.

(** The agent returned by ProbBeesA stores a fitness better than the objective at its position. *)
Theorem C52_ProbBeesA_refuted : exists g s x t,
  prob_demo = Ok (g, s) /\ deep (hp s) g = Ok (x, t, tt) /\
  flt (t_fit t) (t_fit (prob_target (demo_prob Min edge false) x)) = true.
Proof.
  assert (H : match prob_demo with
              | Ok (g, s) =>
                match deep (hp s) g with
                | Ok (x, t, _) => flt (t_fit t) (t_fit (prob_target (demo_prob Min edge false) x))
                | Err _ => false
                end
              | Err _ => false end = true) by (vm_compute; reflexivity).
  destruct prob_demo as [[g s]|]; [|discriminate]. destruct (deep (hp s) g) as [[[x t] []]|] eqn:Ed; [|discriminate].
  exists g, s, x, t. auto.
Qed.

(** ** C68: no bees for some site *)
(** Every run of the program raises. *)
Definition dies {A X Y} (m : prog A X Y) : Prop := forall s, exists e, run m s = Err e.
Lemma dies_first {A X Y Z} (m : prog A X Y) (f : Y -> prog A X Z) : dies m -> dies (pbind m f).
Proof. intros H s. destruct (H s) as [e He]. exists e. rewrite run_pbind. unfold hbind. rewrite He. reflexivity. Qed.
Lemma dies_then {A X Y Z} (m : prog A X Y) (f : Y -> prog A X Z) : (forall y, dies (f y)) -> dies (pbind m f).
Proof.
  intros H s. rewrite run_pbind. unfold hbind. destruct (run m s) as [[y s']|e]; cbn [bind]; [apply H|exists e; reflexivity].
Qed.
Lemma dies_solve {A X} argsort mm sort save (init before : prog A X unit) evolve epochs s :
  0 < epochs -> (forall ep, dies (evolve ep)) -> exists e, h_solve argsort mm sort save init before evolve epochs s = Err e.
Proof.
  intros He Hd. unfold h_solve, hbind.
  destruct (run init s) as [[? s1]|e]; cbn [bind]; [|eauto].
  destruct (h_after_init argsort mm sort s1) as [[? s2]|e]; cbn [bind]; [|eauto].
  destruct (run before s2) as [[? s3]|e]; cbn [bind]; [|eauto].
  destruct epochs as [|m]; [lia|]. cbn [h_epochs]. unfold h_epoch, hbind.
  destruct (Hd 1 s3) as [e Ee]. rewrite Ee. cbn [bind]. eauto.
Qed.

Section Bees.
Variable E : env.
Variable P : problem.
Hypothesis Hsort : argsort_ok (e_argsort E).
(** A site without bees: get_best_agent of an empty list. *)
Lemma dies_site r idx old : dies (site E P 0 r idx old).
Proof.
  assert (T : e_argsort E [] = []).
  { destruct (Hsort []) as [Hp _]. apply Permutation_sym in Hp. apply Permutation_nil in Hp. exact Hp. }
  change (site E P 0 r idx old) with (pbind (MHeap2.best_of E P []) (fun b => pbind (better_than P b old) (fun c => PRet (if c : bool then b else old)))).
  apply dies_first. unfold MHeap2.best_of. apply dies_first. intros s. exists IndexError. rewrite run_read.
  unfold sorted_refs. cbn [map_res bind]. rewrite T. destruct (p_mm P); reflexivity.
Qed.
Lemma dies_bees ne ns me ms r j idxs p : In j idxs ->
  (if j <? ne then me = 0 else j < ns /\ ms = 0) -> dies (bees_loop E P ne ns me ms r idxs p).
Proof.
  intros Hj H. revert p. induction idxs as [|i l IH]; intros p; [destruct Hj|]. cbn [bees_loop].
  apply dies_then. intros old. destruct Hj as [->|Hj].
  - apply dies_first. destruct (j <? ne).
    + subst me. apply dies_site.
    + destruct H as [Hl ->]. apply Nat.ltb_lt in Hl. rewrite Hl. apply dies_site.
  - apply dies_then. intros a. apply IH, Hj.
Qed.
(** OriginalBeesA never returns when there is an elite site and no bee for the elite sites, or a selected site that is
    not elite and no bee for these sites (BeesA.py:212-213 round both numbers of bees, and 0 is a possible result). *)
Theorem C68_OriginalBeesA ne ns me ms radius reduction save n epochs s :
  0 < epochs -> (0 < ne <= n /\ me = 0) \/ (ne < ns <= n /\ ms = 0) ->
  exists e, bees_solve E P ne ns me ms radius reduction save n epochs s = Err e.
Proof.
  intros He H. apply dies_solve; [exact He|]. intros ep. unfold bees_evolve. apply dies_then. intros [r p].
  apply dies_first. destruct H as [[Hn ->]|[Hn ->]].
  - apply dies_bees with (j := 0); [apply in_seq; lia|]. destruct (0 <? ne) eqn:T; [reflexivity|]. apply Nat.ltb_ge in T. lia.
  - apply dies_bees with (j := ne); [apply in_seq; lia|]. rewrite Nat.ltb_irrefl. split; [lia|reflexivity].
Qed.
End Bees.

(** The default ratios with pop_size=5: round(0.5 * 5) = 2 selected sites, round(0.4 * 2) = 1 elite site,
    round(0.1 * 5) = 0 bees for the selected sites and round(2.0 * 0) = 0 bees for the elite site. *)
Example C68_OriginalBeesA_default : forall P mode_save radius reduction epochs s, 0 < epochs ->
  exists e, bees_solve demo_env P 1 2 0 0 radius reduction mode_save 5 epochs s = Err e.
Proof.
  intros. apply C68_OriginalBeesA; [exact argsort_ins_ok|lia|]. left. split; [lia|reflexivity].
Qed.

Print Assumptions C52_OriginalBeesA_refuted.
Print Assumptions C52_ProbBeesA_refuted.
Print Assumptions C68_OriginalBeesA.
