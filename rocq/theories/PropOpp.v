(** Arithmetic crossover in binary64, opposition-based solutions and improved_ms. *)
From Coq Require Import Reals Lra.
From Verif Require Import Prelude Fl FlArith FlInt MCore MHelp SpecCore SpecRun PSelect PLogic PSolve PRun PSpace PHelp Demo PropSelect PropHelp.
From Flocq Require Import Core BinarySingleNaN.

(** * C46 *)
(** In binary64 the child of two equal parents can lie above both. *)
Theorem C46_rounding_refuted : exists E P dad mom (s : st unit unit) c1 c2 s', crossover_arithmetic E P dad mom s = Ok ((c1, c2), s') /\
  feq (vget dad 0) (vget mom 0) = true /\ flt (vget dad 0) (vget c1 0) = true.
Proof.
  exists (mkEnv argsort_ins (fun _ => fdiv (fZ 3) (fZ 16)) (fun _ => fZ 0) (fun _ => 0) (fun _ _ => fZ 0) (fun _ => fZ 0) (fun _ => [])).
  exists (demo_prob Min sphere false), (repeat (fdiv (fZ 9) (fZ 10)) 2), (repeat (fdiv (fZ 9) (fZ 10)) 2), (st0 tt).
  eexists. eexists. eexists. split; [reflexivity|]. split; vm_compute; reflexivity.
Qed.

(** The two children are complementary: exchanging the parents exchanges the children. *)
Theorem C46_swap {A X} : forall E P dad mom (s : st A X) c1 c2 s',
  crossover_arithmetic E P dad mom s = Ok ((c1, c2), s') -> crossover_arithmetic E P mom dad s = Ok ((c2, c1), s').
Proof. intros E P dad mom s c1 c2 s' H. unfold crossover_arithmetic, bindM in *. cbn in *. injection H as <- <- <-. reflexivity. Qed.

(** * C69 *)
Lemma fmul_shrinks x r : fisfin x = true -> fle (fZ 0) r = true -> flt r (fZ 1) = true ->
  fisfin (fmul x r) = true /\ fle (fabs (fmul x r)) (fabs x) = true.
Proof.
  intros Fx H0 H1. destruct (fZ_FR 1 ltac:(lia)) as [F1 V1].
  assert (Nr : fisnan r = false) by (destruct (fisnan r) eqn:Er; [rewrite fle_nan_r in H0 by exact Er; discriminate|reflexivity]).
  apply fle_FR in H0; [|reflexivity|exact Nr]. apply flt_FR in H1; [|exact Nr|apply fin_notnan; exact F1].
  rewrite V1 in H1. rewrite fZ_0 in H0.
  assert (Fr : fisfin r = true) by (apply FR_fin_iff; [exact Nr|]; pose proof B_big as HB; assert (1 < IZR (2 ^ 100))%R by (apply IZR_lt; lia); lra).
  destruct (fmul_fin x r Fx Fr) as [N V].
  assert (Hb : (- Rabs (FR x) <= FR (fmul x r) <= Rabs (FR x))%R).
  { rewrite V. pose proof (crnd_FR (fabs x)) as Ca. rewrite fisnan_abs in Ca. specialize (Ca (fin_notnan _ Fx)). rewrite FR_abs in Ca.
    assert (Q : (- Rabs (FR x) <= FR x * FR r <= Rabs (FR x))%R).
    { assert (W := Rabs_pos (FR x)). unfold Rabs in *. destruct (Rcase_abs (FR x)); split; nra. }
    split; [rewrite <- Ca; rewrite <- crnd_opp; apply crnd_mono; tauto|rewrite <- Ca; apply crnd_mono; tauto]. }
  split.
  - apply FR_fin_iff; [exact N|]. apply FR_fin_iff in Fx; [|apply fin_notnan; exact Fx].
    assert (Rabs (FR x) < B)%R by (apply Rabs_def1; lra). lra.
  - apply fle_FR; [rewrite fisnan_abs; exact N|rewrite fisnan_abs; apply fin_notnan; exact Fx|].
    rewrite !FR_abs. apply Rabs_le. exact Hb.
Qed.
(** With draws in [0,1), the step of case 0 has as many components as asked for, and none is longer than the component of
    the unscaled step (any case other than 0 and 1) from the same random numbers, unless that is not finite. *)
Theorem C69_levy {A X} : forall E beta mult size (s : st A X) case, unit_draws E -> (case <> 0)%Z -> (case <> 1)%Z ->
  exists v s1 w s2, levy_step E beta mult size 0 s = Ok (v, s1) /\ levy_step E beta mult size case s = Ok (w, s2) /\
    List.length v = size /\ List.length w = size /\
    forall i, i < size -> fisfin (vget w i) = true -> fisfin (vget v i) = true /\ fle (fabs (vget v i)) (fabs (vget w i)) = true.
Proof.
  intros E beta mult size s case HU H0 H1. apply Z.eqb_neq in H0, H1. unfold levy_step.
  pose proof (wp_gauss_vec E size (fun v s' => exists k, List.length v = size /\ s' = bump s k) s
    ltac:(intros v k Hv; exists k; split; [exact Hv|reflexivity])) as W.
  apply wp_elim in W as (u & s0 & E1 & k & _ & ->).
  pose proof (wp_gauss_vec E size (fun v s' => exists j, List.length v = size /\ s' = bump (bump s k) j) (bump s k)
    ltac:(intros v j Hv; exists j; split; [exact Hv|reflexivity])) as W.
  apply wp_elim in W as (v & s0 & E2 & j & _ & ->).
  unfold uniform, tick, ret, bindM. rewrite E1. cbv beta iota. rewrite E2, H0, H1, Z.eqb_refl. cbv beta iota zeta.
  set (w := map (fun i => fmul mult (levy_coef E beta (vget u i) (vget v i))) (seq 0 size)).
  assert (Lw : List.length w = size) by (unfold w; rewrite map_length, seq_length; reflexivity).
  eexists. eexists. exists w. eexists. split; [reflexivity|]. split; [reflexivity|].
  split; [rewrite map_length; exact Lw|]. split; [exact Lw|].
  intros i Hi Fw. unfold vget in *.
  rewrite nth_indep with (d' := fmul fnan (e_u E (s_ctr (bump (bump s k) j)))) by (rewrite map_length; lia).
  rewrite map_nth with (d := fnan) (f := fun x => fmul x (e_u E (s_ctr (bump (bump s k) j)))).
  apply fmul_shrinks; [exact Fw|apply HU|apply HU].
Qed.

(** * C49 *)
Lemma nth_map_seq {T} (f : nat -> T) n i d : i < n -> nth i (map f (seq 0 n)) d = f i.
Proof. intros H. rewrite nth_indep with (d' := f 0) by (rewrite map_length, seq_length; exact H). rewrite map_nth, seq_nth; auto. Qed.
Section Opp.
Context {A X : Type}.
Implicit Types s : st A X.
Implicit Types a g : agent A.
Variable E : env.
Variable P : problem.

(** Whatever the inputs, the result is admissible for the problem. *)
Theorem C49_admissible : forall feas a g s, problem_ok P feas ->
  exists x k, generate_opposition_solution E P a g s = Ok (x, bump s k) /\ feas x.
Proof.
  intros feas a g s HP.
  assert (W : wp (generate_opposition_solution E P a g) (fun x s' => feas x /\ exists k, s' = bump s k) s).
  { unfold generate_opposition_solution. apply wp_bind, wp_uniform. intros u k.
    apply wp_correct_solution with (feas := feas); [apply HP|]. intros y j Hy. split; [exact Hy|]. exists j. reflexivity. }
  apply wp_elim in W as (x & s' & E1 & E2 & k & ->). eauto.
Qed.

End Opp.

Section OppBox.
Local Open Scope R_scope.
Lemma fpow1 e : (-1074 <= e <= 900)%Z -> fisfin (fpow 1 e) = true /\ FR (fpow 1 e) = bpow radix2 e.
Proof. intros H. destruct (fpow_FR 1 e) as [F V]; [reflexivity|exact H|]. split; [exact F|]. rewrite V. lra. Qed.
Lemma crnd_pow r e : (-1074 <= e <= 900)%Z -> - bpow radix2 e <= r <= bpow radix2 e -> - bpow radix2 e <= crnd r <= bpow radix2 e.
Proof.
  intros He [H1 H2]. destruct (fpow1 e He) as [F V]. assert (N := fin_notnan _ F).
  assert (U : crnd (bpow radix2 e) = bpow radix2 e) by (rewrite <- V; apply crnd_FR; exact N).
  split; [|rewrite <- U; apply crnd_mono; exact H2].
  apply crnd_mono in H1. rewrite crnd_opp, U in H1. exact H1.
Qed.
(** A float operation whose exact result has magnitude at most 2^e. *)
Lemma op_fin z r e : (-1074 <= e <= 900)%Z -> fisnan z = false /\ FR z = crnd r -> - bpow radix2 e <= r <= bpow radix2 e ->
  fisfin z = true /\ - bpow radix2 e <= FR z <= bpow radix2 e.
Proof.
  intros He [N V] H. apply (crnd_pow r e He) in H. rewrite <- V in H. split; [|exact H].
  apply (FR_fin_iff _ N). unfold B.
  assert (bpow radix2 e < bpow radix2 emax) by (apply bpow_lt; unfold emax; lia). lra.
Qed.

(** Bounds of ordinary size. *)
Definition moderate (x : f64) : Prop := fisfin x = true /\ - bpow radix2 800 <= FR x <= bpow radix2 800.

(** Without NaN in the inputs, the vector handed to the problem's correction lies in the box. *)
Theorem C49_in_box : forall {A X} E P (a g : agent A) (s : st A X),
  List.length (p_ub P) = n_dims P ->
  (forall i, (i < n_dims P)%nat -> moderate (vget (p_lb P) i) /\ moderate (vget (p_ub P) i) /\ fle (vget (p_lb P) i) (vget (p_ub P) i) = true) ->
  (forall k, fle (fZ 0) (e_u E k) = true /\ fle (e_u E k) (fZ 1) = true) ->
  in_box (p_lb P) (p_ub P) (sol a) -> in_box (p_lb P) (p_ub P) (sol g) ->
  exists y k s', generate_opposition_solution E P a g s = Ok (p_correct P k y, s') /\ in_box (p_lb P) (p_ub P) y.
Proof.
  intros A X E P a g s LU HB HU [La Ha] [Lg Hg].
  unfold generate_opposition_solution, uniform, correct_solution, correct_solution_with, amend_clip, bindM, tick, ret.
  eexists. eexists. eexists. split; [reflexivity|].
  match goal with |- in_box _ _ ?v => set (y := v) end.
  assert (Ly : List.length y = n_dims P) by (unfold y, vtab; rewrite map_length, seq_length; reflexivity).
  split; [exact Ly|]. intros i Hi. fold (n_dims P) in Hi.
  destruct (HB i Hi) as ([Fl Bl] & [Fu Bu] & Hlu). destruct (HU (s_ctr s)) as [U0 U1].
  destruct (Ha i Hi) as [Ha1 Ha2]. destruct (Hg i Hi) as [Hg1 Hg2].
  fold (vget (p_lb P) i) in *. fold (vget (p_ub P) i) in *. fold (vget (sol a) i) in *. fold (vget (sol g) i) in *.
  assert (Ey : nth i y fnan = fclip (vget (opposition_pos P (e_u E (s_ctr s)) (sol a) (sol g)) i) (vget (p_lb P) i) (vget (p_ub P) i)).
  { unfold y, vtab. rewrite nth_map_seq by exact Hi. reflexivity. }
  rewrite Ey.
  assert (Eo : vget (opposition_pos P (e_u E (s_ctr s)) (sol a) (sol g)) i =
     fadd (fsub (fadd (vget (p_lb P) i) (vget (p_ub P) i)) (vget (sol g) i))
          (fmul (e_u E (s_ctr s)) (fsub (vget (sol g) i) (vget (sol a) i)))).
  { unfold opposition_pos, vget at 1, vtab. rewrite nth_map_seq by exact Hi. reflexivity. }
  rewrite Eo. set (lo := vget (p_lb P) i) in *. set (hi := vget (p_ub P) i) in *. set (x := vget (sol a) i) in *. set (b := vget (sol g) i) in *.
  set (u := e_u E (s_ctr s)) in *. clearbody lo hi x b u. clear -Fl Bl Fu Bu Hlu U0 U1 Ha1 Ha2 Hg1 Hg2.
  assert (Nl := fin_notnan _ Fl). assert (Nu := fin_notnan _ Fu).
  destruct (fle_true_nan _ _ Ha1) as [_ Nx]. destruct (fle_true_nan _ _ Hg1) as [_ Nb]. destruct (fle_true_nan _ _ U0) as [_ Nuu].
  apply fle_FR in Ha1, Ha2, Hg1, Hg2, Hlu, U0, U1; try assumption; try reflexivity.
  assert (V1 : FR (fZ 1) = 1) by apply (fZ_FR 1 ltac:(lia)). assert (V0 := fZ_0). rewrite V0 in U0. rewrite V1 in U1.
  assert (D : forall e, (-1074 <= e <= 900)%Z -> bpow radix2 (e + 1) = 2 * bpow radix2 e).
  { intros e _. rewrite bpow_plus. change (bpow radix2 1) with 2. ring. }
  assert (D1 := D 800%Z ltac:(lia)). assert (D2 := D 801%Z ltac:(lia)). assert (D3 := D 802%Z ltac:(lia)).
  change (800 + 1)%Z with 801%Z in D1. change (801 + 1)%Z with 802%Z in D2. change (802 + 1)%Z with 803%Z in D3.
  assert (PB : 0 < bpow radix2 800) by apply bpow_gt_0.
  assert (BM : bpow radix2 803 < B) by (unfold B; apply bpow_lt; unfold emax; lia).
  assert (Fx : fisfin x = true) by (apply (FR_fin_iff _ Nx); lra).
  assert (Fb : fisfin b = true) by (apply (FR_fin_iff _ Nb); lra).
  assert (F_u : fisfin u = true). { apply (FR_fin_iff _ Nuu). assert (1 < B). { change 1 with (bpow radix2 0). unfold B. apply bpow_lt. unfold emax; lia. } lra. }
  destruct (op_fin (fadd lo hi) _ 801 ltac:(lia) (fadd_fin lo hi Fl Fu)) as [F1 B1]; [lra|].
  destruct (op_fin (fsub (fadd lo hi) b) _ 802 ltac:(lia) (fsub_fin _ b F1 Fb)) as [F2 B2]; [lra|].
  destruct (op_fin (fsub b x) _ 801 ltac:(lia) (fsub_fin b x Fb Fx)) as [F3 B3]; [lra|].
  destruct (op_fin (fmul u (fsub b x)) _ 801 ltac:(lia) (fmul_fin u _ F_u F3)) as [F4 B4]; [nra|].
  destruct (op_fin _ _ 803 ltac:(lia) (fadd_fin _ _ F2 F4)) as [F5 B5]; [lra|].
  assert (N5 := fin_notnan _ F5).
  apply fclip_bounds; [assumption|]. apply fle_FR; assumption.
Qed.
End OppBox.

(** * C48 *)
Section Ms.
Context {A X : Type}.
Implicit Types s : st A X.
Variable E : env.
Variable P : problem.
Variable md : MCore.mode.
Variable feas : vec -> Prop.
Hypothesis Hprob : problem_ok P feas.
Hypothesis Vmm : valid_mm (p_mm P).

(** An agent whose target is what the objective gives for its solution. *)
Definition consistent (a : agent A) : Prop := tgt a = Some (prob_target P (sol a)).

Lemma ksort_In {T} (key : T -> f64) d l x : In x (ksort key d l) -> In x l.
Proof.
  unfold ksort. revert x. induction l as [|y l IH]; simpl; intros x H; [destruct H|].
  assert (G : forall r, In x (kinsert key d y r) -> x = y \/ In x r).
  { clear. induction r as [|z r IH]; simpl; [intros [<-|[]]; auto|]. destruct (key_before key d y z); simpl.
    - intros [->|H]; [auto|]. destruct (IH H); auto.
    - intros [->|[->|H]]; auto. }
  apply G in H as [->|H]; auto.
Qed.
Lemma ksort_length {T} (key : T -> f64) d l : List.length (ksort key d l) = List.length l.
Proof.
  unfold ksort. induction l as [|y l IH]; simpl; [reflexivity|].
  assert (G : forall r, List.length (kinsert key d y r) = S (List.length r)).
  { clear. induction r as [|z r IH]; simpl; [reflexivity|]. destruct (key_before key d y z); simpl; [rewrite IH|]; reflexivity. }
  rewrite G, IH. reflexivity.
Qed.

Lemma greedy_list (old new : list (agent A)) : List.length old = List.length new -> Forall (fun a => tgt a <> None) old -> Forall (fun a => tgt a <> None) new ->
  exists r, greedy_selection_population old new (p_mm P) = Ok r /\ List.length r = List.length old /\ forall a, In a r -> In a old \/ In a new.
Proof.
  intros L HO HN. unfold greedy_selection_population. rewrite L, Nat.eqb_refl. cbn [negb].
  set (f := fun on : agent A * agent A => let (o, n) := on in
     let pick := match p_mm P with Min => flt (fit n) (fit o) | _ => flt (fit o) (fit n) end in if pick then n else o).
  exists (map f (combine old new)). split.
  - apply map_res_all_ok. intros [o n] Hin.
    rewrite Forall_forall in HO, HN. specialize (HO o (in_combine_l _ _ _ _ Hin)). specialize (HN n (in_combine_r _ _ _ _ Hin)).
    unfold fitness, f, fit. destruct (tgt o); [|congruence]. destruct (tgt n); [|congruence]. simpl. destruct (p_mm P); reflexivity.
  - split; [rewrite map_length, combine_length, L; apply Nat.min_id|]. intros a Ha.
    apply in_map_iff in Ha as ([o n] & <- & Hin). unfold f.
    destruct (match p_mm P with Min => flt (fit n) (fit o) | _ => flt (fit o) (fit n) end); [right|left].
    + eapply in_combine_r; eauto.
    + eapply in_combine_l; eauto.
Qed.

(** What improved_ms leaves unchanged: everything but evaluations and random draws. *)
Definition only_evals s s' : Prop := exists l k, s' = bump (evald s l) k.

Lemma wp_new h (src : list (agent A)) (step : agent A -> agent A -> list (agent A) -> M A X (list (agent A))) s
  (Hstep : forall a c acc s1 (Q : list (agent A) -> st A X -> Prop),
     (forall y k, feas y -> Q (acc ++ [with_sol c y]) (bump s1 k)) -> wp (step a c acc) Q s1) :
  h <= List.length src -> Forall (fun a => tgt a <> None) src ->
  wp (for_acc h 0 [] (fun i acc => a <- lift (getitem src i) ;; c <- lift (agent_copy a) ;; step a c acc))
     (fun l s' => List.length l = h /\ Forall (fun a => tgt a <> None /\ feas (sol a)) l /\ exists k, s' = bump s k) s.
Proof.
  intros L HT. eapply wp_mono.
  - eapply wp_for_acc with (I := fun i l s' => List.length l = i /\ Forall (fun a => tgt a <> None /\ feas (sol a)) l /\ exists k, s' = bump s k).
    + split; [reflexivity|]. split; [constructor|]. exists (s_ctr s). destruct s; reflexivity.
    + intros k l s' Hk (I1 & I2 & j & ->). apply wp_bind. destruct (getitem_lt src k ltac:(lia)) as (a & Ga & _ & Ia).
      eapply wp_lift; [exact Ga|]. rewrite Forall_forall in HT. specialize (HT a Ia).
      apply wp_bind. destruct (tgt a) as [t|] eqn:Et; [|congruence]. eapply wp_lift; [unfold agent_copy; rewrite Et; reflexivity|].
      apply Hstep. intros y q Hy. split; [rewrite app_length, I1; simpl; lia|].
      split; [apply Forall_app; split; [exact I2|]; constructor; [|constructor]; simpl; split; [congruence|exact Hy]|]. exists q. reflexivity.
    + intros b' s' H. exact H.
  - intros l s' (I1 & I2 & I3). simpl in I1. auto.
Qed.

Lemma only_evals_refl s : only_evals s s.
Proof. exists [], (s_ctr s). unfold evald, bump. simpl. rewrite Nat.add_0_r, app_nil_r. destruct s; reflexivity. Qed.
Lemma only_evals_step s s' l k : only_evals s s' -> only_evals s (bump (evald s' l) k).
Proof.
  intros (l0 & k0 & ->). exists (l0 ++ l), k. unfold evald, bump. simpl. rewrite app_length, app_assoc, Nat.add_assoc. reflexivity.
Qed.

(** update_target_for_population: afterwards consistent in the evaluating modes, unchanged otherwise. *)
Lemma wp_upd (l : list (agent A)) s0 s : only_evals s0 s -> Forall (fun a => tgt a <> None /\ feas (sol a)) l ->
  wp (update_target_for_population P md l)
     (fun l' s' => List.length l' = List.length l /\ Forall (fun a => tgt a <> None /\ feas (sol a)) l' /\
        (is_avail md = true -> Forall consistent l') /\ (is_avail md = false -> l' = l) /\ only_evals s0 s') s.
Proof.
  intros HE HL. destruct (is_avail md) eqn:Em.
  - apply wp_update_target_avail; [exact Em|]. intros l' ->. split; [apply map_length|].
    split. { apply Forall_forall. intros a Ha. apply in_map_iff in Ha as (b & <- & Hb). rewrite Forall_forall in HL.
      split; [discriminate|]. apply (HL b Hb). }
    split. { intros _. apply Forall_forall. intros a Ha. apply in_map_iff in Ha as (b & <- & Hb). reflexivity. }
    split; [discriminate|]. replace (evald s (map sol l)) with (bump (evald s (map sol l)) (s_ctr s)) by (unfold evald, bump; reflexivity).
    apply only_evals_step, HE.
  - apply wp_update_target_single; [exact Em|]. split; [reflexivity|]. split; [exact HL|]. split; [discriminate|]. split; [reflexivity|exact HE].
Qed.

(** For a population of evaluated admissible agents: no error, an even number of agents (all of them, or all but
    one), all admissible; in the evaluating modes every returned target belongs to the returned solution. *)
Theorem C48_improved_ms : forall pop g s,
  Forall (fun a => consistent a /\ feas (sol a)) pop ->
  exists r s', improved_ms E P md pop g s = Ok (r, s') /\ only_evals s s' /\
    List.length r = 2 * (List.length pop / 2) /\ Forall (fun a => feas (sol a)) r /\
    (is_avail md = true -> Forall consistent r).
Proof.
  intros pop g s HP. apply wp_elim. unfold improved_ms.
  assert (HT : Forall (fun a : agent A => tgt a <> None) pop).
  { eapply Forall_impl; [|exact HP]. intros a [C _]. unfold consistent in C. congruence. }
  apply wp_bind. apply wp_lift with (y := map (fun a => (a, fit a)) pop).
  { apply map_res_all_ok. intros a Ha. rewrite Forall_forall in HT. specialize (HT a Ha). unfold fitness, fit.
    destruct (tgt a); [reflexivity|congruence]. }
  set (h := List.length pop / 2). set (so := map fst (ksort snd false (map (fun a => (a, fit a)) pop))).
  assert (Lso : List.length so = List.length pop) by (unfold so; rewrite map_length, ksort_length, map_length; reflexivity).
  assert (Iso : forall a, In a so -> In a pop).
  { intros a Ha. apply in_map_iff in Ha as (p & <- & Hp). apply ksort_In in Hp. apply in_map_iff in Hp as (b & <- & Hb). exact Hb. }
  assert (Hh : h + h <= List.length pop).
  { unfold h. pose proof (Nat.div_mod (List.length pop) 2 ltac:(lia)). lia. }
  clearbody so.
  assert (S1 : List.length (firstn h so) = h) by (rewrite firstn_length; lia).
  assert (S2 : List.length (skipn h so) = List.length pop - h) by (rewrite skipn_length; lia).
  rewrite Forall_forall in HP, HT.
  assert (I1 : forall a, In a (firstn h so) -> In a pop).
  { intros a Ha. apply Iso. rewrite <- (firstn_skipn h so). apply in_or_app; auto. }
  assert (I2 : forall a, In a (skipn h so) -> In a pop).
  { intros a Ha. apply Iso. rewrite <- (firstn_skipn h so). apply in_or_app; auto. }
  assert (T1 : Forall (fun a : agent A => tgt a <> None) (firstn h so)) by (apply Forall_forall; auto).
  assert (T2 : Forall (fun a : agent A => tgt a <> None) (skipn h so)) by (apply Forall_forall; auto).
  apply wp_bind. eapply wp_mono.
  { apply wp_new; [|lia|exact T1]. intros a c acc s1 Q HQ. apply wp_bind, wp_gauss_vec. intros v k _.
    apply wp_bind. apply wp_correct_solution with (feas := feas); [apply Hprob|]. intros y j Hy. apply wp_ret, HQ, Hy. }
  intros n1 s1 (L1 & F1 & k1 & ->). apply wp_bind.
  assert (OE1 : only_evals s (bump s k1)).
  { replace (bump s k1) with (bump (evald s []) k1); [apply only_evals_step, only_evals_refl|].
    unfold bump, evald. simpl. rewrite Nat.add_0_r, app_nil_r. reflexivity. }
  eapply wp_mono; [apply wp_upd; [exact OE1|exact F1]|]. intros n1' s2 (L1' & F1' & C1' & _ & OE2).
  destruct (greedy_list (firstn h so) n1') as (r1 & G1 & Lr1 & In1); [lia|exact T1|eapply Forall_impl; [|exact F1']; intros ? [? _]; assumption|].
  apply wp_bind. eapply wp_lift; [exact G1|].
  apply wp_bind. eapply wp_mono.
  { apply wp_new; [|lia|exact T2]. intros a c acc s3 Q HQ. apply wp_bind, wp_uniform. intros u1 k. apply wp_bind, wp_uniform. intros u2 k'.
    apply wp_bind. apply wp_correct_solution with (feas := feas); [apply Hprob|]. intros y j Hy. apply wp_ret, HQ, Hy. }
  intros n2 s3 (L2 & F2 & k2 & ->). apply wp_bind.
  assert (OE3 : only_evals s (bump s2 k2)).
  { replace (bump s2 k2) with (bump (evald s2 []) k2); [apply only_evals_step, OE2|].
    unfold bump, evald. simpl. rewrite Nat.add_0_r, app_nil_r. reflexivity. }
  eapply wp_mono; [apply wp_upd; [exact OE3|exact F2]|]. intros n2' s4 (L2' & F2' & C2' & _ & OE4).
  destruct (greedy_list n2' n2') as (r2 & G2 & Lr2 & In2); [reflexivity|eapply Forall_impl; [|exact F2']; intros ? [? _]; assumption|eapply Forall_impl; [|exact F2']; intros ? [? _]; assumption|].
  apply wp_bind. eapply wp_lift; [exact G2|]. apply wp_ret.
  split; [exact OE4|]. split; [rewrite app_length; unfold h in *; lia|].
  rewrite Forall_forall in F1', F2'. split.
  - apply Forall_forall. intros a Ha. apply in_app_or in Ha as [Ha|Ha].
    + destruct (In1 a Ha) as [Hb|Hb]; [apply HP; auto|apply F1', Hb].
    + destruct (In2 a Ha) as [Hb|Hb]; apply F2', Hb.
  - intros Hm. specialize (C1' Hm). specialize (C2' Hm). rewrite Forall_forall in C1', C2'.
    apply Forall_forall. intros a Ha. apply in_app_or in Ha as [Ha|Ha].
    + destruct (In1 a Ha) as [Hb|Hb]; [apply HP; auto|apply C1', Hb].
    + destruct (In2 a Ha) as [Hb|Hb]; apply C2', Hb.
Qed.
End Ms.

(** In single mode the second half keeps the targets of other solutions; an odd population loses an agent. *)
Definition ms_pop : list (agent unit) :=
  map (fun x => let v := [fZ x; fZ 0] in mkAgent v (Some (prob_target (demo_prob Min sphere false) v)) tt) [3; 1; 2]%Z.
Theorem C48_single_mode_refuted : exists E P (pop : list (agent unit)) g (s : st unit unit),
  Forall (fun a => consistent P a) pop /\ List.length pop = 3 /\
  match improved_ms E P Single pop g s with
  | Ok (r, _) => List.length r = 2 /\ existsb (fun a => negb (feq (fit a) (fitx P (sol a)))) r = true
  | Err _ => False
  end.
Proof.
  exists demo_env, (demo_prob Min sphere false), ms_pop, (mkAgent [fZ 1; fZ 0] None tt), (st0 tt).
  split; [|split; [reflexivity|]].
  - unfold ms_pop. repeat constructor.
  - assert (H : match improved_ms demo_env (demo_prob Min sphere false) Single ms_pop (mkAgent [fZ 1; fZ 0] None tt) (st0 tt : st unit unit) with
      | Ok (r, _) => (List.length r =? 2) && existsb (fun a => negb (feq (fit a) (fitx (demo_prob Min sphere false) (sol a)))) r
      | Err _ => false end = true) by (vm_compute; reflexivity).
    destruct (improved_ms _ _ _ _ _ _) as [[r s']|]; [|discriminate]. apply andb_true_iff in H as [H1 H2].
    split; [apply Nat.eqb_eq; exact H1|exact H2].
Qed.

Lemma demo_unit k : fle (fZ 0) (e_u demo_env k) = true /\ fle (e_u demo_env k) (fZ 1) = true.
Proof.
  unfold demo_env, e_u. pose proof (Nat.mod_upper_bound (k * 7 + 3) 10 ltac:(lia)) as H. revert H.
  generalize ((k * 7 + 3) mod 10) as n. intros n H.
  do 10 (destruct n as [|n]; [split; vm_compute; reflexivity|]). lia.
Qed.
(** The draws of the demonstration environment meet the hypothesis of C69_levy, and the components compared are finite and
    not all equal. *)
Example C69_case : unit_draws demo_env /\
  match levy_step demo_env (fZ 1) (fZ 1) 2 2 (st0 tt : st unit unit), levy_step demo_env (fZ 1) (fZ 1) 2 0 (st0 tt : st unit unit) with
  | Ok (w, _), Ok (v, _) => fisfin (vget w 0) && flt (fabs (vget v 0)) (fabs (vget w 0))
  | _, _ => false end = true.
Proof.
  split; [|vm_compute; reflexivity]. intros k. split; [apply demo_unit|].
  unfold demo_env, e_u. pose proof (Nat.mod_upper_bound (k * 7 + 3) 10 ltac:(lia)) as H. revert H.
  generalize ((k * 7 + 3) mod 10) as n. intros n H.
  do 10 (destruct n as [|n]; [vm_compute; reflexivity|]). lia.
Qed.
(** The demonstration problem and environment meet the hypotheses of C49_in_box. *)
Example C49_case : forall k, exists y j s',
  generate_opposition_solution demo_env (demo_prob Min sphere false) (mkAgent [fZ 1; fZ (-3)] None tt) (mkAgent [fZ 5; fZ 2] None tt)
    (bump (st0 tt : st unit unit) k) = Ok (p_correct (demo_prob Min sphere false) j y, s') /\
  in_box (p_lb (demo_prob Min sphere false)) (p_ub (demo_prob Min sphere false)) y.
Proof.
  intros k. apply C49_in_box; [reflexivity| |apply demo_unit| |].
  - assert (M : forall z, (Z.abs z <= 100)%Z -> moderate (fZ z)).
    { intros z Hz. destruct (fZ_FR z ltac:(lia)) as [F V]. split; [exact F|]. rewrite V.
      assert (W : (bpow radix2 7 <= bpow radix2 800)%R) by (apply bpow_le; lia).
      assert (U : (- 128 <= IZR z <= 128)%R) by (split; apply IZR_le; lia).
      change (bpow radix2 7) with 128%R in W. lra. }
    intros i Hi. cbn [n_dims demo_prob p_lb demo_box fst repeat List.length] in Hi.
    destruct i as [|[|i]]; [| |unfold n_dims in Hi; cbn in Hi; lia]; cbn [demo_prob p_lb p_ub demo_box fst snd repeat vget nth];
    (split; [apply M; lia|split; [apply M; lia|vm_compute; reflexivity]]).
  - split; [reflexivity|]. intros i Hi. destruct i as [|[|i]]; [| |cbn in Hi; lia]; split; vm_compute; reflexivity.
  - split; [reflexivity|]. intros i Hi. destruct i as [|[|i]]; [| |cbn in Hi; lia]; split; vm_compute; reflexivity.
Qed.

Print Assumptions C46_rounding_refuted.
Print Assumptions C46_swap.
Print Assumptions C69_levy.
Print Assumptions C49_admissible.
Print Assumptions C49_in_box.
Print Assumptions C48_improved_ms.
Print Assumptions C48_single_mode_refuted.
