(** OriginalINFO with five agents, the smallest population its constructor accepts. *)
From Verif Require Import Prelude Fl MCore MHelp MAlg MAlg2 MMath SpecCore SpecRun PLogic PSolve PRun SpecAlg PAlg PRef PFail PPart Demo PropGA PropNever AMath.

(** The "better" agent is drawn among the positions 2 to 5 (INFO.py:74), so with five agents the draw 5 is outside the
    population.  Here every draw from four values is the last one. *)
Theorem C68_OriginalINFO_five E P md epochs tm starting s (feas : vec -> Prop) :
  argsort_ok (e_argsort E) -> valid_mm (p_mm P) -> 0 < epochs -> problem_ok P feas -> starting_ok P feas 5 starting ->
  (forall k, e_i E k mod 4 = 3) ->
  never (solve E P md (original_info E P md 5 epochs) tm starting s).
Proof.
  intros Ha Hm He Hp Hs Hi. apply fails_solve; [exact He|].
  change (with_evolve _ _) with (plain_algo E P md tt 5 epochs true (fun ep => flip (info_evolve E P md 5 epochs ep))).
  assert (T : sound_run E P md (plain_algo E P md tt 5 epochs true (fun ep => flip (info_evolve E P md 5 epochs ep))) (fun _ => True) false 0 0).
  { apply sound_plain; [lia|exact He|]. intros f nd n0 ep s0 HP _ _ W l s1 HR.
    assert (B : fails (info_evolve E P md 5 epochs ep) s1).
    { pose proof HR as (_ & Hn & _). exists IndexError. unfold info_evolve, integers, pop_at, bindM at 1. cbn [Nat.leb Nat.sub].
      unfold tick, ret, bindM, lift, get_pop. rewrite Hi. cbn [s_pop Nat.add]. unfold getitem.
      rewrite (proj2 (nth_error_None _ 5)); [reflexivity|cbn; lia]. }
    destruct B as [e B]. unfold wp, flip. rewrite B. split; [exact I|]. exists 0. split; [lia|]. rewrite Nat.add_0_r. exact HR. }
  destruct (T feas tm starting s Ha Hm Hp) as (g & s' & Es & _); auto. exists (g, s'). exact Es.
Qed.
(** Such a random stream, and a run with six agents that returns with it. *)
Definition last_env : env := mkEnv argsort_ins (e_u demo_env) (e_g demo_env) (fun _ => 3) (e_fun demo_env) (e_time demo_env) (e_order demo_env).
Example C68_OriginalINFO_five_example : (forall k, e_i last_env k mod 4 = 3) /\ argsort_ok (e_argsort last_env) /\
  problem_ok (demo_prob Min sphere true) (fun x => List.length x = 2) /\ starting_ok (demo_prob Min sphere true) (fun x => List.length x = 2) 5 None /\
  exists r, solve last_env (demo_prob Min sphere true) Single (original_info last_env (demo_prob Min sphere true) Single 6 3) None None (st0 tt) = Ok r.
Proof.
  split; [reflexivity|]. split; [exact argsort_ins_ok|]. split; [apply demo_problem_ok|]. split; [exact I|].
  assert (T : match solve last_env (demo_prob Min sphere true) Single (original_info last_env (demo_prob Min sphere true) Single 6 3) None None (st0 tt) with Ok _ => true | Err _ => false end = true) by (vm_compute; reflexivity).
  destruct (solve _ _ _ _ _ _ _) as [r|e]; [exists r; reflexivity|discriminate].
Qed.

Print Assumptions C68_OriginalINFO_five.
