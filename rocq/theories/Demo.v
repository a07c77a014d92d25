(** Concrete instances used in examples: an argsort, an environment, a problem. *)
From Verif Require Import Prelude Fl MCore SpecCore SpecRun PSelect PLogic PSolve PRun PAny PPart.

(** ** An argsort (stable insertion sort, NaN last) *)
Definition np_leb (x y : f64) : bool := fisnan y || fle x y.
Fixpoint ains (v : nat -> f64) (i : nat) (l : list nat) : list nat :=
  match l with
  | [] => [i]
  | j :: r => if np_leb (v i) (v j) then i :: l else j :: ains v i r
  end.
Definition argsort_ins (l : list f64) : list nat :=
  fold_right (ains (fun i => nth i l fnan)) [] (seq 0 (List.length l)).

Lemma ains_perm v i l : Permutation (ains v i l) (i :: l).
Proof.
  induction l as [|j l IH]; simpl; [reflexivity|]. destruct (np_leb (v i) (v j)); [reflexivity|].
  rewrite IH. apply perm_swap.
Qed.
Lemma np_leb_le x y : np_leb x y = true -> np_le x y.
Proof. unfold np_leb, np_le. intros H. apply orb_true_iff in H. exact H. Qed.
Lemma np_leb_gt x y : np_leb x y = false -> np_le y x.
Proof.
  unfold np_leb, np_le. intros H. apply orb_false_iff in H. destruct H as [H1 H2].
  destruct (fisnan x) eqn:Ex; [left; reflexivity|right]. destruct (fle_total x y Ex H1); congruence.
Qed.
Lemma ains_sorted v i l : StronglySorted np_le (map v l) -> StronglySorted np_le (map v (ains v i l)).
Proof.
  induction l as [|j l IH]; simpl; intros H; [repeat constructor|].
  inversion H as [|? ? Hs Hf]; subst. destruct (np_leb (v i) (v j)) eqn:E.
  - simpl. constructor; [exact H|]. apply np_leb_le in E. constructor; [exact E|].
    rewrite Forall_forall in *. intros y Hy. eapply np_le_trans; eauto.
  - simpl. constructor; [apply IH; exact Hs|]. apply np_leb_gt in E.
    rewrite Forall_forall in *. intros y Hy. apply in_map_iff in Hy. destruct Hy as (k & <- & Hk).
    apply (Permutation_in _ (ains_perm v i l)) in Hk. destruct Hk as [<-|Hk]; [exact E|]. apply Hf. apply in_map; exact Hk.
Qed.
Theorem argsort_ins_ok : argsort_ok argsort_ins.
Proof.
  intros l. unfold argsort_ins. set (v := fun i => nth i l fnan).
  assert (G : forall ix, Permutation (fold_right (ains v) [] ix) ix /\ StronglySorted np_le (map v (fold_right (ains v) [] ix))).
  { induction ix as [|i ix [IH1 IH2]]; simpl; [split; [reflexivity|constructor]|].
    split; [rewrite ains_perm, IH1; reflexivity|apply ains_sorted; exact IH2]. }
  apply G.
Qed.

(** ** A small environment: arithmetic patterns instead of random numbers. *)
Definition demo_env : env := mkEnv argsort_ins
  (fun k => fdiv (fZ (Z.of_nat ((k * 7 + 3) mod 10))) (fZ 10))
  (fun k => fdiv (fZ (Z.of_nat ((k * 13 + 5) mod 17) - 8)) (fZ 4))
  (fun k => k * 5 + 2) (fun _ l => nth 0 l (fZ 0)) (fun k => fZ (Z.of_nat k)) (fun _ => []).

(** Two float variables in [-5, 5], one objective. *)
Definition demo_box := (repeat (fZ (-5)) 2, repeat (fZ 5) 2).
Definition clip_vec (lb ub x : vec) : vec :=
  map (fun i => fclip (nth i x fnan) (nth i lb fnan) (nth i ub fnan)) (seq 0 (List.length lb)).
Definition demo_prob (mm : minmax) (obj : vec -> f64) (save : bool) : problem :=
  mkProblem (fst demo_box) (snd demo_box) mm (fun x => [obj x]) None
    (fun _ x => clip_vec (fst demo_box) (snd demo_box) x)
    (fun k => [fZ (Z.of_nat ((k * 3) mod 11) - 5); fZ (Z.of_nat ((k * 5 + 1) mod 11) - 5)]) save.
Definition sphere (x : vec) : f64 := fold_left fadd (map (fun v => fmul v v) x) (fZ 0).

(** Sum of absolute values with NaN read as zero: never NaN on any vector. *)
Definition l0norm (x : vec) : f64 := if feq (nth 0 x fnan) (fZ 0) then fZ 0 else fZ 1.

Definition st0 {A X} (x : X) : st A X := mkSt [] None None hist_new 1 0 [] x.

(** ** A small algorithm: every epoch replaces the whole population by new random agents. *)
Definition random_search (E : env) (P : problem) (md : mode) (n epochs : nat) (sort : bool) : @algo unit unit :=
  let ga := generate_agent_with P (generate_empty_agent P tt) in
  plain_algo E P md tt n epochs sort
    (fun _ => l <- generate_population_with E md (ga None) n ;; set_pop l).

Lemma random_search_tame E P md n epochs sort starting : tame P md (random_search E P md n epochs sort) starting.
Proof.
  eapply default_tame with (dflt := tt) (E := E); try reflexivity.
  intros ep h s H. cbn [random_search plain_algo al_evolve]. apply pc_bind. eapply pc_mono.
  - apply (generate_population_tame E md); [apply plain_tame_ga|exact H].
  - intros l s' [Q1 Q2]. apply pc_set_pop. split; [exact (proj1 Q1)|exact Q2].
Qed.
