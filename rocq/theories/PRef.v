(** Two ways to speak about algorithms that may raise: if a variant with the failing statements replaced returns, so it
    does with the same result whenever the original returns; and a run certainly fails when each evolve does. *)
From Verif Require Import Prelude Fl MCore MHelp MAlg MAlg2 SpecCore SpecRun PLogic PSolve PRun SpecAlg SpecWhen PPart.

(** Whenever [m] returns, [m'] returns the same. *)
Definition refines {A X Y} (m m' : M A X Y) : Prop := forall s r, m s = Ok r -> m' s = Ok r.

Section Refines.
Context {A X : Type}.
Lemma ref_refl {Y} (m : M A X Y) : refines m m.
Proof. intros s r H. exact H. Qed.
Lemma ref_raise {Y} e (m : M A X Y) : refines (raise e) m.
Proof. intros s r H. discriminate. Qed.
Lemma ref_bind {Y Z} (m m' : M A X Y) (f f' : Y -> M A X Z) : refines m m' -> (forall y, refines (f y) (f' y)) ->
  refines (y <- m ;; f y) (y <- m' ;; f' y).
Proof.
  intros H1 H2 s r. unfold bindM. destruct (m s) as [[y s1]|e] eqn:E1; [|discriminate]. rewrite (H1 _ _ E1). apply H2.
Qed.
Lemma ref_if {Y} (b : bool) (m1 m1' m2 m2' : M A X Y) : refines m1 m1' -> refines m2 m2' -> refines (if b then m1 else m2) (if b then m1' else m2').
Proof. destruct b; auto. Qed.
Lemma ref_when (b : bool) (m m' : M A X unit) : refines m m' -> refines (when b m) (when b m').
Proof. destruct b; [auto|intros _; apply ref_refl]. Qed.
Lemma ref_for_acc {B} n : forall i (b : B) (f f' : nat -> B -> M A X B), (forall i b, refines (f i b) (f' i b)) ->
  refines (for_acc n i b f) (for_acc n i b f').
Proof.
  induction n as [|n IH]; intros i b f f' H; [apply ref_refl|]. cbn [for_acc]. apply ref_bind; [apply H|]. intros y. apply IH, H.
Qed.
Lemma ref_for_list {T B} (l : list T) : forall (b : B) (f f' : T -> B -> M A X B), (forall i b, refines (f i b) (f' i b)) ->
  refines (for_list l b f) (for_list l b f').
Proof.
  induction l as [|x l IH]; intros b f f' H; [apply ref_refl|]. cbn [for_list]. apply ref_bind; [apply H|]. intros y. apply IH, H.
Qed.
Lemma ref_dims P (f f' : nat -> M A X f64) : (forall j, refines (f j) (f' j)) -> refines (dims P f) (dims P f').
Proof. intros H. unfold dims. apply ref_for_acc. intros i b. apply ref_bind; [apply H|]. intros y. apply ref_refl. Qed.
Lemma ref_greedy_each P md correct gea n nf (c c' : nat -> M A X vec) : (forall i, refines (c i) (c' i)) ->
  refines (greedy_each P md correct gea n nf c) (greedy_each P md correct gea n nf c').
Proof.
  intros H. unfold greedy_each, greedy_loop. apply ref_bind; [|intros; apply ref_refl]. apply ref_for_acc. intros i b.
  apply ref_bind; [|intros; apply ref_refl]. apply ref_bind; [apply H|intros; apply ref_refl].
Qed.

(** The whole run. *)
Variable E : env.
Variable P : problem.
Variable md : MCore.mode.
Definition with_evolve (al : @algo A X) (ev : nat -> M A X unit) : @algo A X :=
  mkAlgo (al_pop_size al) (al_epoch al) (al_sort al) (al_gea al) (al_ga al) (al_init_vars al) (al_init al) (al_before_main al) ev.
Lemma ref_main_loop al ev tm n : forall i, (forall ep, refines (al_evolve al ep) (ev ep)) ->
  refines (main_loop E P al tm n i) (main_loop E P (with_evolve al ev) tm n i).
Proof.
  induction n as [|n IH]; intros i H; [apply ref_refl|]. cbn [main_loop]. apply ref_bind.
  - unfold epoch_step. apply ref_bind; [apply ref_refl|]. intros k. apply ref_bind; [apply H|]. intros []. apply ref_refl.
  - intros [r|]; [apply ref_refl|apply IH, H].
Qed.
Lemma ref_solve al ev tm starting : (forall ep, refines (al_evolve al ep) (ev ep)) ->
  refines (solve E P md al tm starting) (solve E P md (with_evolve al ev) tm starting).
Proof.
  intros H. unfold solve. do 7 (apply ref_bind; [apply ref_refl|intros ?]). apply ref_bind; [apply ref_main_loop, H|]. intros. apply ref_refl.
Qed.
Lemma returns_of al ev XP H ST IL elite imin imax kmin kmax : (forall ep, refines (al_evolve al ep) (ev ep)) ->
  sound_run_gen E P md (with_evolve al ev) XP H ST IL elite imin imax kmin kmax -> sound_when E P md al XP H ST IL elite imin imax kmin kmax.
Proof.
  intros Hr HS feas tm starting s H1 H2 H3 H4 H5 H6 H7 g s' Hs. destruct (HS feas tm starting s H1 H2 H3 H4 H5 H6 H7) as (g1 & s1 & E1 & R1).
  apply (ref_solve al ev tm starting Hr) in Hs. rewrite Hs in E1. injection E1 as -> ->. exact R1.
Qed.
End Refines.

(** [m] raises in the state [s]. *)
Definition fails {A X Y} (m : M A X Y) (s : st A X) : Prop := exists e, m s = Err e.
Section Fails.
Context {A X : Type}.
Lemma fails_raise {Y} e (s : st A X) : fails (Y := Y) (raise e) s.
Proof. exists e. reflexivity. Qed.
Lemma fails_first {Y Z} (m : M A X Y) (f : Y -> M A X Z) s : fails m s -> fails (y <- m ;; f y) s.
Proof. intros [e He]. exists e. unfold bindM. rewrite He. reflexivity. Qed.
Lemma fails_then {Y Z} (m : M A X Y) (f : Y -> M A X Z) (Q : Y -> st A X -> Prop) s : wp m Q s -> (forall y s', Q y s' -> fails (f y) s') ->
  fails (y <- m ;; f y) s.
Proof.
  unfold wp, fails, bindM. destruct (m s) as [[y s']|e]; [|contradiction]. intros H1 H2. apply H2. exact H1.
Qed.
(** First iteration of a loop. *)
Lemma fails_for_acc {B} n i (b : B) (f : nat -> B -> M A X B) s : 0 < n -> fails (f i b) s -> fails (for_acc n i b f) s.
Proof. destruct n; [lia|]. intros _ H. cbn [for_acc]. apply fails_first, H. Qed.

Variable E : env.
Variable P : problem.
Variable md : MCore.mode.
(** Replace success of evolve by failure, and failure by doing nothing. *)
Definition flip (m : M A X unit) : M A X unit := fun s => match m s with Ok _ => Err Endless | Err _ => Ok (tt, s) end.
Lemma fails_solve al tm starting s : 0 < al_epoch al ->
  (exists r, solve E P md (with_evolve al (fun ep => flip (al_evolve al ep))) tm starting s = Ok r) ->
  fails (solve E P md al tm starting) s.
Proof.
  intros He. unfold fails, solve, bindM, with_evolve. cbn [al_pop_size al_epoch al_sort al_gea al_ga al_init_vars al_init al_before_main al_evolve].
  destruct (check_problem s) as [[[] s1]|e1]; [|intros [r H]; discriminate].
  destruct (check_termination_start E tm s1) as [[tm' s2]|e2]; [|intros [r H]; discriminate].
  destruct (al_init_vars al s2) as [[[] s3]|e3]; [|intros [r H]; discriminate].
  assert (Eb : before_initialization P md (mkAlgo (al_pop_size al) (al_epoch al) (al_sort al) (al_gea al) (al_ga al) (al_init_vars al) (al_init al)
    (al_before_main al) (fun ep => flip (al_evolve al ep))) starting s3 = before_initialization P md al starting s3) by reflexivity.
  rewrite Eb. destruct (before_initialization P md al starting s3) as [[[] s4]|e4]; [|intros [r H]; discriminate].
  destruct (al_init al s4) as [[[] s5]|e5]; [|intros [r H]; discriminate].
  destruct (after_initialization E P (al_sort al) s5) as [[[] s6]|e6]; [|intros [r H]; discriminate].
  destruct (al_before_main al s6) as [[[] s7]|e7]; [|intros [r H]; discriminate].
  destruct (al_epoch al) as [|m]; [lia|]. cbn [main_loop]. unfold epoch_step, bindM, tick. cbn [al_evolve].
  unfold flip at 1. destruct (al_evolve al 1 _) as [[[] s8]|e8] eqn:E8; [|intros _; exists e8; reflexivity].
  intros [r H]. discriminate.
Qed.
End Fails.
