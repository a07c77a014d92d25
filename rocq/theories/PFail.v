(** Computations that certainly raise, in the states met inside evolve. *)
From Verif Require Import Prelude Fl MCore MHelp MAlg MAlg2 SpecCore SpecRun PLogic PSolve PRun SpecAlg PAlg PRef.

Section Bad.
Context {A X : Type}.
Variable E : env.
Variable P : problem.
Variable md : mode.
Variable feas : vec -> Prop.
Variable attok : list vec -> A -> Prop.
Variable IL : nat -> Prop.
Variable IX : list vec -> X -> Prop.
Variable cov : Prop.
Variables nd n0 n : nat.
Variable s0 : st A X.
Notation R := (R P feas attok IL IX cov nd n0 n s0).
Notation qt := (qt P feas attok IL IX cov nd n0 n s0).
Notation blk := (blk P feas attok IL IX cov nd n0 n s0).
Definition bad {Y} (m : M A X Y) : Prop := forall W l s, R W l s -> fails m s.
Lemma bad_raise {Y} e : bad (Y := Y) (raise e).
Proof. intros W l s _. apply fails_raise. Qed.
Lemma bad_first {Y Z} (m : M A X Y) (f : Y -> M A X Z) : bad m -> bad (y <- m ;; f y).
Proof. intros H W l s HR. apply fails_first. exact (H _ _ _ HR). Qed.
Lemma bad_qbind {Y Z} (m : M A X Y) (f : Y -> M A X Z) Φ : qt m Φ -> (forall y, Φ y -> bad (f y)) -> bad (y <- m ;; f y).
Proof.
  intros H1 H2 W l s HR. eapply fails_then; [exact (H1 _ _ _ HR)|]. intros y s' [Hy N]. eapply H2; [exact Hy|]. eapply R_near; [exact HR|exact N].
Qed.
Lemma bad_bbind {Y Z} a b (m : M A X Y) (f : Y -> M A X Z) Φ : blk a b m Φ -> (forall y, Φ y -> bad (f y)) -> bad (y <- m ;; f y).
Proof.
  intros H1 H2 W l s HR. eapply fails_then; [exact (H1 _ _ _ HR)|]. intros y s' (Hy & k & _ & R'). eapply H2; [exact Hy|exact R'].
Qed.
Lemma bad_if {Y} (b : bool) (m1 m2 : M A X Y) : bad m1 -> bad m2 -> bad (if b then m1 else m2).
Proof. destruct b; auto. Qed.
Lemma bad_for_acc {B} m i (b : B) (f : nat -> B -> M A X B) : 0 < m -> bad (f i b) -> bad (for_acc m i b f).
Proof. intros H H1 W l s HR. apply fails_for_acc; [exact H|]. exact (H1 _ _ _ HR). Qed.
Lemma bad_greedy_each correct gea m nf (c : nat -> M A X vec) : 0 < m -> bad (c 0) -> bad (greedy_each P md correct gea m nf c).
Proof.
  intros H H1. unfold greedy_each, greedy_loop. apply bad_first, bad_for_acc; [exact H|]. apply bad_first, bad_first, H1.
Qed.
(** A loop over the dimensions, one of which raises. *)
Lemma bad_dims (f : nat -> M A X f64) j0 : j0 < n_dims P -> (forall s, fails (f j0) s) -> bad (dims P f).
Proof.
  intros Hj H. unfold dims.
  assert (G : forall m i b s, i <= j0 < i + m -> fails (for_acc (A := A) (X := X) m i b (fun j acc => v <- f j ;; ret (acc ++ [v]))) s).
  { induction m as [|m IH]; intros i b s Hi; [lia|]. cbn [for_acc]. destruct (Nat.eq_dec i j0) as [->|Ne].
    - apply fails_first, fails_first, H.
    - unfold fails, bindM. destruct (f i s) as [[v s1]|e]; [|eauto]. apply IH. lia. }
  intros W l s _. apply G. lia.
Qed.
End Bad.

(** A run fails when evolve certainly does: the run with evolve replaced by nothing is sound. *)
Lemma bad_evolve {A X} (E : env) (P : problem) (feas : vec -> Prop) (attok : list vec -> A -> Prop) (IX : list vec -> X -> Prop)
    (cov : Prop) (nd n0 n : nat) (ev : nat -> M A X unit) :
  params E P feas attok cov -> (forall ep s0, bad P feas attok (eq n) IX cov nd n0 n s0 (ev ep)) ->
  evolve_contract P feas attok (eq n) IX cov nd n0 0 0 (fun ep => flip (ev ep)).
Proof.
  intros HP H ep s Hep HI.
  assert (HR : R P feas attok (eq n) IX cov nd n0 n s [] (List.length (s_log s)) s).
  { split; [apply Ev_init; exact HI|]. split; [symmetry; apply (i_len _ _ _ _ _ _ _ _ _ HI)|reflexivity]. }
  destruct (H ep s _ _ _ HR) as [e Ee]. unfold wp, flip. rewrite Ee. destruct HR as (V & Hn & _).
  split; [exact V|]. split; [symmetry; exact Hn|lia].
Qed.
Theorem plain_fails (E : env) (P : problem) (md : mode) (feas : vec -> Prop) n epochs srt (ev : nat -> M unit unit unit) tm starting (s : st unit unit) :
  argsort_ok (e_argsort E) -> valid_mm (p_mm P) -> problem_ok P feas -> starting_ok P feas n starting -> 0 < n -> 0 < epochs ->
  (params E P feas (@anyatt unit) False -> forall nd n0 ep s0, bad P feas (@anyatt unit) (eq n) (fun _ _ => True) False nd n0 n s0 (ev ep)) ->
  fails (solve E P md (plain_algo E P md tt n epochs srt ev) tm starting) s.
Proof.
  intros H1 H2 H3 H4 H5 H6 H.
  assert (HP : params E P feas (@anyatt unit) False) by (constructor; auto; try (intros; exact I); contradiction).
  specialize (H HP). apply fails_solve; [exact H6|].
  set (al := with_evolve _ _).
  assert (T : exists g s', solve E P md al tm starting s = Ok (g, s') /\
    run_spec E P feas (eq n) False (al_epoch al) tm (mkCounts (al_pop_size al) (al_pop_size al) 0 0 (missed md (al_pop_size al) starting)
                (match tm with None => s_nfe s | Some _ => 0 end)) g s').
  { apply (plain_run E P md feas (@anyatt unit) (eq n) (fun _ : unit => True) False) with (dflt := tt); auto; try contradiction.
    - intros k <-. exact H5.
    - intros L. exact I.
    - intros nd n0. eapply bad_evolve; [exact HP|]. intros ep s0. apply H. }
  destruct T as (g & s' & Es & _). exists (g, s'). exact Es.
Qed.
