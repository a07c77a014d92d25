(** OriginalAAA: agents whose solution is not the one that was evaluated, and problems it never finishes. *)
From Coq Require Import Permutation.
From Verif Require Import Prelude Fl MCore MHelp MAlg SpecCore SpecRun PSelect PLogic PPart Demo MClass24 FlEnergy PropGA PropNever PropNever3 PropLost.

(** ** The returned agent (C65) *)
(** Three variables in [-2, 2] and a linear objective. *)
Definition box3 (a b c : Z) : problem :=
  let lb := repeat (fZ (-2)) 3 in let ub := repeat (fZ 2) 3 in
  mkProblem lb ub Min (fun x => [fadd (fadd (fmul (nth 0 x fnan) (fZ a)) (fmul (nth 1 x fnan) (fZ b))) (fmul (nth 2 x fnan) (fZ c))]) None
    (fun _ x => clip_vec lb ub x)
    (fun k => [fZ (Z.of_nat ((k * 3) mod 5) - 2); fZ (Z.of_nat ((k * 2 + 1) mod 5) - 2); fZ (Z.of_nat ((k * 4 + 2) mod 5) - 2)]) true.
(** A run, without termination and starting solutions, that returns an agent whose fitness is not that of its solution, and whose solution is above
    an upper bound. *)
Definition spoils {A X} (E : env) (P : problem) (al : @algo A X) : Prop := exists x g s' i,
  solve E P Single al None None (st0 x) = Ok (g, s') /\ feq (fit g) (fitx P (sol g)) = false /\
  i < n_dims P /\ flt (nth i (p_ub P) fnan) (nth i (sol g) fnan) = true.
Definition spoilt {A X} (E : env) (P : problem) (al : @algo A X) (x : X) : bool :=
  match solve E P Single al None None (st0 x) with
  | Ok (g, _) => negb (feq (fit g) (fitx P (sol g))) && existsb (fun i => flt (nth i (p_ub P) fnan) (nth i (sol g) fnan)) (seq 0 (n_dims P))
  | Err _ => false
  end%bool.
Lemma spoilt_spoils {A X} E P (al : @algo A X) x : spoilt E P al x = true -> spoils E P al.
Proof.
  unfold spoilt, spoils. destruct (solve E P Single al None None (st0 x)) as [[g s']|] eqn:Es; [|discriminate]. intros T.
  apply Bool.andb_true_iff in T. destruct T as [T1 T2]. apply existsb_exists in T2. destruct T2 as (i & Hi & Hf). apply in_seq in Hi.
  exists x, g, s', i. split; [exact Es|]. split; [destruct (feq _ _); [discriminate|reflexivity]|]. split; [lia|exact Hf].
Qed.
(** The array moved in place at AAA.py:160-162 is the solution of the agent stored at AAA.py:169 one round before. *)
Theorem C65_OriginalAAA_refuted : spoils (mix_env 0) (box3 1 1 1) (original_aaa (mix_env 0) (box3 1 1 1) 20 (dec 3 10) (dec 1 2) 5 1).
Proof. refine (spoilt_spoils _ _ _ tt _). vm_compute. reflexivity. Qed.

(** ** Fewer than three variables (C68) *)
Lemma helix_stops E P fuel loss n idx x mine e : n_dims P < 3 -> fle (fZ 0) e = true -> stops (aaa_helix E P fuel loss n idx x mine e).
Proof.
  intros Hd He. destruct fuel as [|fuel]; cbn [aaa_helix]; rewrite He; [apply st_raise|]. apply st_bind; intros ndx. apply st_first, st_choice. rewrite seq_length. exact Hd.
Qed.
Lemma rlist_value {A X} E m nm vs (s : st A X) y s' : rlist E m nm vs s = Ok (y, s') -> List.length y = m.
Proof. unfold rlist, bindM, tick. cbn. intros [= <- _]. rewrite map_length, seq_length. reflexivity. Qed.
(** OriginalAAA on a problem of one or two variables: generator.choice(n_dims, 3, False) (AAA.py:159) raises.  The constructor takes 5 to 10000 agents. *)
Theorem C68_OriginalAAA E P fuel loss ap n epochs term start s : argsort_ok (e_argsort E) -> n_dims P < 3 -> 0 < n -> (Z.of_nat n <= 10000)%Z -> 0 < epochs ->
  never (solve E P Single (original_aaa E P fuel loss ap n epochs) term start s).
Proof.
  intros Ha Hd Hn Hb He. apply st_solve. right. split; [exact He|]. intros ep. cbn [original_aaa plain_algo al_evolve]. unfold aaa_evolve.
  intros s1. apply pc_bind. intros sizes s2 Es. apply rlist_value in Es. revert s2. apply st_first. unfold for_. apply st_for_acc; [exact Hn|]. intros b.
  apply st_bind; intros x. intros s2. apply pc_bind, pc_lift. intros e Hg. apply helix_stops; [exact Hd|].
  eapply aaa_energy_pos; [exact Ha|exact Es| |].
  - change (2 ^ 15) with (Z.to_nat 32768). lia.
  - unfold getitem in Hg. destruct (nth_error _ _) as [c|] eqn:En; [|discriminate]. injection Hg as ->. eapply nth_error_In. exact En.
Qed.
(** Two variables and the sphere. *)
Example C68_OriginalAAA_case : n_dims (demo_prob Min sphere true) < 3.
Proof. cbn. lia. Qed.

Print Assumptions C65_OriginalAAA_refuted.
Print Assumptions C68_OriginalAAA.
