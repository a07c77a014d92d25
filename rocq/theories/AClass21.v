(** More theorems about the classes of MClass20. *)
From Coq Require Import Permutation String.
From Verif Require Import Prelude Fl FlArith FlInt FlRound FlShare MCore MHelp MAlg MAlg2 MAlg3 MAlg4 MAlg5 MAlg6 MAlg7 SpecCore SpecRun PSpace PSelect PLogic PSolve PRun PPart Demo PropSelect PropHelp SpecAlg SpecWhen PAlg PFree PClass PAlg2 PAlg3 PAlg4 PAlg5 PAlg6 PAlg7 PAlg8 PAlg9 PRef PFail PElse PAlg10 PAlg11 PAlg13 MClass14 AClass14 MClass17 AClass17 AClass18 AClass19 MClass20 FlQueue AClass20.

(** ** IWO *)
Section IWO.
Variables (E : env) (P : problem) (md : mode) (feas : vec -> Prop) (IL : nat -> Prop) (cov : Prop) (nd n0 n : nat).
Variable s0 : st unit unit.
Notation IX := (fun (_ : list vec) (_ : unit) => True).
Hypothesis HP : params E P feas (@anyatt unit) cov.
Notation good := (good P feas (@anyatt unit)).
Notation qt := (qt P feas (@anyatt unit) IL IX cov nd n0 n s0).
Notation R := (R P feas (@anyatt unit) IL IX cov nd n0 n s0).
Notation blk0 := (blk0 P feas (@anyatt unit) IL IX cov nd n0 n s0).
(** The best and the worst of the sorted agents bound the others. *)
Lemma wp_special_ends L p (Q : list (agent unit) * list (agent unit) * list (agent unit) -> st unit unit -> Prop) (s : st unit unit) : Forall (good L) p -> p <> [] ->
  (forall sp b w, Permutation sp p -> Forall (good L) sp -> good L b -> good L w ->
     (forall a, In a sp -> npord (p_mm P) (fit b) (fit a) /\ npord (p_mm P) (fit a) (fit w)) -> Q (sp, [b], [w]) s) ->
  wp (special E P p 1 1) Q s.
Proof.
  intros G Hne HQ. unfold special.
  destruct (sorted_best_worst (e_argsort E) (pr_argsort _ _ _ _ _ HP) p (p_mm P) (Forall_good_target _ _ _ _ _ G) Hne) as (sp & ix & b & w & Es & Hp & Eb & Ew & Ib & Iw & Hb & Hw).
  assert (Gs : Forall (good L) sp) by (rewrite Forall_forall in *; intros a Ha; apply G; eapply Permutation_in; [exact Hp|exact Ha]).
  destruct sp as [|b0 sp']; [discriminate|]. cbn in Eb. injection Eb as ->.
  destruct (last_item_nonempty (b :: sp')) as (w0 & l' & E0 & El0); [congruence|]. rewrite Ew in El0. injection El0 as <-.
  assert (WF : forall a, In a p -> wf_agent a /\ feas (sol a)).
  { intros a Ha. rewrite Forall_forall in G. specialize (G a Ha). split; [eapply good_wf; exact G|apply G]. }
  assert (Er : firstn 1 (rev (b :: sp')) = [w]) by (rewrite E0, rev_app_distr; reflexivity).
  apply wp_bind. eapply wp_lift.
  { unfold get_special_agents. rewrite Es. cbn [bind]. rewrite Er. cbn [firstn].
    rewrite (copies_ok feas [b]) by (constructor; auto). cbn [bind]. rewrite (copies_ok feas [w]) by (constructor; auto). reflexivity. }
  apply wp_ret. rewrite Forall_forall in G. apply HQ; auto. intros a Ha.
  assert (Ha' : In a p) by (eapply Permutation_in; [exact Hp|exact Ha]). auto.
Qed.
Definition iwo_with (sd : f64 -> M unit unit nat) (epochs ep : nat) : M unit unit unit :=
  l <- (p <- get_pop ;;
        '(sp, bs, ws) <- special E P p 1 1 ;;
        b <- lift (getitem bs 0) ;;
        w <- lift (getitem ws 0) ;;
        bf <- lift (fitness b) ;;
        wf <- lift (fitness w) ;;
        collect_many n (fun idx =>
            a <- lift (getitem sp idx) ;;
            f <- lift (fitness a) ;;
            r <- iwo_ratio E bf wf f ;;
            s <- sd r ;;
            new_agents P md (correct_solution P) (generate_empty_agent (A := unit) (X := unit) P tt) s (fun _ => rform E P "IWO:87,103" [sol a; [fnat ep; fnat epochs]]))) ;;
  q <- lift (get_sorted_and_trimmed_population (e_argsort E) l n (p_mm P)) ;;
  set_pop q.
Lemma npord_le mm x y : valid_mm mm -> npord mm x y -> fisnan x = false -> fisnan y = false ->
  match mm with Max => fle y x = true | _ => fle x y = true end.
Proof. intros Hm H Nx Ny. apply npord_may_precede in H. destruct mm; apply H; assumption. Qed.
Lemma between_nan b w f : fisnan b = true \/ fisnan w = true \/ fisnan f = true -> feq (fsub b w) (fZ 0) = false -> fisnan (fdiv (fsub f w) (fsub b w)) = true.
Proof.
  intros H _. assert (N1 : forall x y, fisnan x = true -> fisnan (fsub x y) = true /\ fisnan (fsub y x) = true).
  { intros x y Hx. destruct x; try discriminate. destruct y; cbn; auto. }
  assert (N2 : forall x y, fisnan x = true -> fisnan (fdiv x y) = true /\ fisnan (fdiv y x) = true).
  { intros x y Hx. destruct x; try discriminate. destruct y; cbn; auto. }
  destruct H as [H|[H|H]].
  - apply (N2 (fsub b w)). apply (N1 b w H).
  - apply (N2 (fsub b w)). apply (N1 w b H).
  - apply (N2 (fsub f w)). apply (N1 f w H).
Qed.
Lemma b0_iwo lo hi epochs ep (Hd : unit_draws E) : 0 < n -> 1 <= lo -> (Z.of_nat lo <= 2 ^ 31)%Z -> (Z.of_nat hi <= 2 ^ 31)%Z ->
  blk0 n (n * Nat.sqrt n) (iwo_with (fun r => orelse (lift (iwo_seeds lo hi n r)) (ret 1)) epochs ep) (fun _ => True).
Proof.
  intros Hn H1 Hlo Hhi W l s HR HO. unfold iwo_with. pose proof HR as (V & Ln & _).
  assert (Sq : 1 <= Nat.sqrt n) by (apply Nat.sqrt_le_square; lia).
  apply wp_bind, wp_bind, wp_get_pop. apply wp_bind.
  eapply wp_special_ends; [apply (v_good _ _ _ _ _ _ _ _ _ _ _ V)|intros T; rewrite T in Ln; cbn in Ln; lia|].
  intros sp b w Hp Gs Gb Gw Hbw. cbv beta iota. apply wp_bind. eapply wp_lift; [reflexivity|]. apply wp_bind. eapply wp_lift; [reflexivity|].
  assert (FT : forall a, good (s_log s) a -> fitness a = Ok (fit a)) by (intros a Ga; apply fitness_fit, wf_has_target; eapply good_wf; exact Ga).
  apply wp_bind. eapply wp_lift; [apply FT, Gb|]. apply wp_bind. eapply wp_lift; [apply FT, Gw|].
  assert (Lsp : List.length sp = n) by (rewrite (Permutation_length Hp); exact Ln).
  unfold collect_many. apply wp_for_acc with (I := fun k acc s' => exists j, k <= j <= k * Nat.sqrt n /\ List.length acc = j /\ s_pop s' = s_pop s /\ R (W ++ acc) (l + j) s').
  - exists 0. split; [lia|]. split; [reflexivity|]. split; [reflexivity|]. rewrite app_nil_r, Nat.add_0_r. exact HR.
  - intros k acc s1 Hk (j & Hj & Lj & Ep & R1). apply wp_bind. apply wp_bind.
    destruct (getitem_lt sp k ltac:(lia)) as (a & Ea & _ & Ia). eapply wp_lift; [exact Ea|].
    assert (Ga : good (s_log s) a) by (rewrite Forall_forall in Gs; auto). apply wp_bind. eapply wp_lift; [apply FT, Ga|].
    apply wp_bind.
    assert (HRt : qt (iwo_ratio E (fit b) (fit w) (fit a)) (fun r => fisnan r = true \/ fle (fZ 0) r = true)).
    { unfold iwo_ratio. destruct (feq (fsub (fit b) (fit w)) (fZ 0)) eqn:Ez.
      - intros W1 l1 s2 HR2. apply wp_mono with (Q := fun u s' => (exists k, s' = bump s2 k) /\ fle (fZ 0) u = true).
        + unfold uniform. apply wp_bind, wp_tick. intros i. apply wp_ret. split; [eexists; reflexivity|apply Hd].
        + intros u s' [[i ->] Hu]. split; [right; exact Hu|eapply near_bump; exact HR2].
      - apply q_ret. destruct (Hbw a Ia) as [B1 B2]. destruct (fisnan (fit b)) eqn:Nb; [left; apply between_nan; auto|].
        destruct (fisnan (fit w)) eqn:Nw; [left; apply between_nan; auto|]. destruct (fisnan (fit a)) eqn:Na; [left; apply between_nan; auto|].
        apply iwo_ratio_ok; [|exact Ez]. pose proof (npord_le _ _ _ (pr_mm _ _ _ _ _ HP) B1 Nb Na) as C1. pose proof (npord_le _ _ _ (pr_mm _ _ _ _ _ HP) B2 Na Nw) as C2.
        destruct (p_mm P); auto. }
    eapply wp_mono; [apply (HRt _ _ _ R1)|]. intros r s2 [Hr N2]. pose proof (R_near _ _ _ _ _ _ _ _ _ _ _ _ _ _ R1 N2) as R2.
    apply wp_bind.
    assert (HS : qt (orelse (lift (iwo_seeds lo hi n r)) (ret 1)) (fun c => 1 <= c <= Nat.sqrt n)).
    { apply q_orelse; [|apply q_ret; lia]. apply qp_lift. intros c Ec. pose proof (seeds_ge lo hi n r c Hlo Hhi Hr Ec). lia. }
    eapply wp_mono; [apply (HS _ _ _ R2)|]. intros c s3 [Hc N3]. pose proof (R_near _ _ _ _ _ _ _ _ _ _ _ _ _ _ R2 N3) as R3.
    eapply wp_new_agents; [exact HP|qcorrect HP|qgea|exact R3|intros; quiet HP|].
    intros new s4 Lw Gn R4 Ep4. apply wp_ret. exists (j + c). split; [nia|]. split; [rewrite app_length; lia|].
    split; [rewrite Ep4, (near_pop _ _ _ N3), (near_pop _ _ _ N2); exact Ep|]. rewrite app_assoc, Nat.add_assoc. exact R4.
  - intros acc s1 (j & Hj & Lj & Ep & R1). cbn [Nat.add] in Hj. apply wp_bind.
    pose proof (R_held_good _ _ _ _ _ _ _ _ _ _ _ _ _ _ R1) as Ga.
    destruct (trimmed_cov E P feas (@anyatt unit) cov HP _ acc n Ga ltac:(lia)) as (q & Eq & Lq & Gq & Cq). eapply wp_lift; [exact Eq|].
    unfold wp, set_pop. split; [exact I|]. exists j. split; [lia|].
    eapply R_replace_cov; [exact HP|exact R1|unfold Old; rewrite Ep; exact HO|exact Lq|exact Gq|exact Cq].
Qed.
End IWO.
Theorem C64_OriginalIWO_returning E P md lo hi n epochs : unit_draws E -> 5 <= n -> 0 < epochs -> 1 <= lo -> (Z.of_nat lo <= 2 ^ 31)%Z -> (Z.of_nat hi <= 2 ^ 31)%Z ->
  sound_when E P md (original_iwo E P md lo hi n epochs) (fun _ => True) (fun _ => True) (fun _ => True) (eq n) true n n n (n * Nat.sqrt n).
Proof.
  intros Hd Hn He H1 Hlo Hhi. pose (sd := fun r => orelse (A := unit) (X := unit) (lift (iwo_seeds lo hi n r)) (ret 1)).
  eapply (returns_of _ _ _ _ (iwo_with E P md n sd epochs)).
  - intros ep. cbn [al_evolve original_iwo plain_algo]. unfold iwo_evolve, iwo_next, iwo_with, collect_many, sd. refi.
  - change (with_evolve _ _) with (plain_algo (X := unit) E P md tt n epochs true (iwo_with E P md n sd epochs)).
    state_elite (fun _ : unit => True). apply b0_iwo; auto; lia.
Qed.

(** ** ImprovedTLO *)
Lemma upd_split {T} (l1 : list T) a l2 b : upd (l1 ++ a :: l2) (List.length l1) b = l1 ++ b :: l2.
Proof. induction l1 as [|c l1 IH]; cbn; [reflexivity|]. f_equal. exact IH. Qed.
Lemma getitem_split {T} (l : list T) i a : getitem l i = Ok a -> exists l1 l2, l = l1 ++ a :: l2 /\ List.length l1 = i.
Proof. unfold getitem. destruct (nth_error l i) as [b|] eqn:En; [|discriminate]. intros H. injection H as <-. exact (nth_error_split _ _ En). Qed.
Section ITLO.
Notation X := (list (agent unit) * list (list (agent unit)))%type.
Variables (E : env) (P : problem) (feas : vec -> Prop) (cov : Prop) (nd n0 n t k : nat).
Notation shape := (fun x : X => List.length (fst x) = t /\ List.length (snd x) = t /\ Forall (fun g => List.length g = k) (snd x)).
Notation IX := (fun L (x : X) => (List.length (fst x) = t /\ List.length (snd x) = t /\ Forall (fun g => List.length g = k) (snd x)) /\ Forall (good P feas (@anyatt unit) L) (fst x ++ List.concat (snd x))).
Notation IL := (fun m => m = n \/ m = t + t * k).
Hypothesis HP : params E P feas (@anyatt unit) cov.
Hypothesis Hk : t < k.
Hypothesis Ht : 2 <= t.
Notation good := (good P feas (@anyatt unit)).
Variable s0 : st unit X.
Variable m : nat.
Notation R := (R P feas (@anyatt unit) IL IX cov nd n0 m s0).
Notation qt := (qt P feas (@anyatt unit) IL IX cov nd n0 m s0).
(** The teachers and the teams are at hand. *)
Definition Held (l : nat) (s : st unit X) : Prop := shape (s_x s) /\ R (fst (s_x s) ++ List.concat (snd (s_x s))) l s /\ Old s0 s.
Lemma held_x l s x : R (fst x ++ List.concat (snd x)) l s -> Old s0 s -> shape x -> Held l (with_x s x).
Proof.
  intros (V & H1 & H2) HO Hx. split; [exact Hx|]. split; [|exact HO]. split; [|split; [exact H1|exact H2]].
  apply Ev_x; [exact V|]. exists (s_log s). split; [apply incl_refl|]. split; [exact Hx|apply (v_W _ _ _ _ _ _ _ _ _ _ _ V)].
Qed.
(** One team improved. *)
Lemma wp_team l s (x : X) id team (cand : list (agent unit) -> nat -> M unit X vec) (Q : unit -> st unit X -> Prop) :
  Held l s -> s_x s = x -> getitem (snd x) id = Ok team ->
  (forall cur j, j < k -> qt (cand cur j) (fun _ => True)) ->
  (forall s', Held (l + k) s' -> Q tt s') ->
  wp (team' <- local_greedy P Single (correct_solution P) (generate_empty_agent P tt) (List.length team) true team cand ;; set_x (fst x, upd (snd x) id team')) Q s.
Proof.
  intros (Sx & HR & HO) Ex Et Hc HQ. rewrite Ex in *. destruct (getitem_split _ _ _ Et) as (g1 & g2 & Eg & Lg).
  assert (Lt : List.length team = k). { destruct Sx as (_ & _ & F). rewrite Eg in F. apply Forall_app in F. destruct F as [_ F]. inversion F; assumption. }
  assert (R1 : R ((fst x ++ List.concat g1 ++ List.concat g2) ++ team) l s).
  { eapply R_perm; [exact HR|]. rewrite Eg, concat_app. cbn [List.concat]. rewrite <- !app_assoc. apply Permutation_app_head, Permutation_app_head. apply Permutation_app_comm. }
  apply wp_bind. eapply wp_local_greedy; [exact HP|qcorrect HP|qgea|exact R1|lia|intros _; reflexivity| |].
  - intros cur j Hj _ _. apply Hc. lia.
  - intros team' s' Lt' R2 _ Ep. unfold set_x, wp. apply HQ. rewrite Lt in R2. rewrite <- Lg, Eg, upd_split. apply held_x.
    + cbn [fst snd]. eapply R_perm; [exact R2|]. rewrite concat_app. cbn [List.concat]. rewrite <- !app_assoc. apply Permutation_app_head, Permutation_app_head. apply Permutation_app_comm.
    + unfold Old. rewrite Ep. exact HO.
    + cbn [fst snd]. destruct Sx as (S1 & S2 & S3). rewrite Eg in S2, S3. split; [exact S1|]. split; [rewrite app_length in *; cbn in *; exact S2|].
      apply Forall_app in S3. destruct S3 as [F1 F2]. apply Forall_app. split; [exact F1|]. inversion F2; subst. constructor; [congruence|assumption].
Qed.
Lemma held_parts l s id : Held l s -> id < t -> exists tc team, getitem (fst (s_x s)) id = Ok tc /\ getitem (snd (s_x s)) id = Ok team /\ List.length team = k /\
  good (s_log s) tc /\ Forall (good (s_log s)) team.
Proof.
  intros ((S1 & S2 & S3) & (V & _) & _) Hi. pose proof (v_W _ _ _ _ _ _ _ _ _ _ _ V) as G. apply Forall_app in G. destruct G as [G1 G2].
  destruct (getitem_lt (fst (s_x s)) id ltac:(lia)) as (tc & E1 & _ & I1). destruct (getitem_lt (snd (s_x s)) id ltac:(lia)) as (team & E2 & _ & I2).
  exists tc, team. split; [exact E1|]. split; [exact E2|]. rewrite Forall_forall in *. split; [apply S3, I2|]. split; [apply G1, I1|].
  intros a Ha. apply G2. apply in_concat. exists team. auto.
Qed.
Lemma q_compare L a b : good L a -> good L b -> qt (lift (compare_agents a b (p_mm P))) (fun _ => True).
Proof. intros Ga Gb. apply q_lift. destruct (compare_agents_ok E P feas _ _ HP _ a b Ga Gb) as (c & Ec & _). exists c. auto. Qed.
Lemma q_fit L a : good L a -> qt (lift (fitness a)) (fun _ => True).
Proof. intros Ga. apply q_lift. exists (fit a). split; [apply fitness_fit, wf_has_target; eapply good_wf; exact Ga|exact I]. Qed.
Lemma q_in (l : list (agent unit)) L i : Forall (good L) l -> i < List.length l -> qt (lift (getitem l i)) (good L).
Proof. intros G Hi. eapply q_mono; [apply q_getitem; exact Hi|]. intros a Ha. rewrite Forall_forall in G. auto. Qed.
Lemma wp_teach l s id (Q : unit -> st unit X -> Prop) : Held l s -> id < t -> (forall s', Held (l + k) s' -> Q tt s') -> wp (itlo_teach E P t id) Q s.
Proof.
  intros HH Hi HQ. destruct (held_parts l s id HH Hi) as (tc & team & E1 & E2 & Lt & Gt & Gm). unfold itlo_teach. apply wp_bind, wp_get_x.
  apply wp_bind. eapply wp_lift; [exact E1|]. apply wp_bind. eapply wp_lift; [exact E2|]. apply wp_bind. eapply wp_lift; [apply fitness_fit, wf_has_target; eapply good_wf; exact Gt|].
  eapply wp_team; [exact HH|reflexivity|exact E2| |exact HQ]. intros cur j Hj.
  eapply q_bind; [apply (q_in team _ j Gm); lia|]. intros st Gst. eapply q_bind; [eapply q_fit; exact Gst|]. intros sf _.
  eapply q_bind; [apply q_choice1; apply others_ne; cbn; lia|]. intros i2 Hi2. apply others_in in Hi2. eapply q_bind; [apply (q_in team _ i2 Gm); lia|]. intros b Gb.
  eapply q_bind; [eapply q_compare; [exact Gt|exact Gb]|]. intros c _. eapply q_mono; [apply q_rform|auto].
Qed.
Lemma wp_learn l s id (Q : unit -> st unit X -> Prop) : Held l s -> id < t -> (forall s', Held (l + k) s' -> Q tt s') -> wp (itlo_learn E P id) Q s.
Proof.
  intros HH Hi HQ. destruct (held_parts l s id HH Hi) as (tc & team & E1 & E2 & Lt & Gt & Gm). unfold itlo_learn. apply wp_bind, wp_get_x.
  apply wp_bind. eapply wp_lift; [exact E1|]. apply wp_bind. eapply wp_lift; [exact E2|]. apply wp_bind. apply wp_uniform. intros u k1.
  eapply (wp_team l (bump s k1)); [|reflexivity|exact E2| |exact HQ].
  { destruct HH as (Sx & HR & HO). split; [exact Sx|]. split; [|exact HO]. eapply R_near; [exact HR|]. eapply near_bump. exact HR. }
  intros cur j Hj. eapply q_bind; [apply (q_in team _ j Gm); lia|]. intros st Gst.
  eapply q_bind; [apply q_choice1; apply others_ne; cbn; lia|]. intros i2 Hi2. apply others_in in Hi2. eapply q_bind; [apply (q_in team _ i2 Gm); lia|]. intros b Gb.
  eapply q_bind; [eapply q_compare; [exact Gst|exact Gb]|]. intros c _. eapply q_mono; [apply q_rform|auto].
Qed.
Lemma wp_elect l s id (Q : unit -> st unit X -> Prop) : Held l s -> id < t -> (forall s', Held l s' -> Q tt s') -> wp (itlo_elect E P id) Q s.
Proof.
  intros HH Hi HQ. destruct (held_parts l s id HH Hi) as (tc & team & E1 & E2 & Lt & Gt & Gm). unfold itlo_elect. apply wp_bind, wp_get_x.
  apply wp_bind. eapply wp_lift; [exact E1|]. apply wp_bind. eapply wp_lift; [exact E2|]. apply wp_bind.
  destruct (sorted_cov E P feas _ _ HP (s_log s) (team ++ [tc])) as (sp & ix & Es & Hp & Gs); [apply Forall_app; auto|].
  eapply wp_lift; [exact Es|]. cbv beta iota. pose proof (Permutation_length Hp) as Lp. rewrite app_length in Lp. cbn in Lp.
  destruct sp as [|b sp]; [cbn in Lp; lia|]. apply wp_bind. eapply wp_lift; [reflexivity|]. unfold set_x, wp. apply HQ.
  destruct HH as ((S1 & S2 & S3) & HR & HO). cbn [skipn].
  destruct (getitem_split _ _ _ E1) as (f1 & f2 & Ef & Lf). destruct (getitem_split _ _ _ E2) as (g1 & g2 & Eg & Lg).
  assert (U1 : upd (f1 ++ tc :: f2) id b = f1 ++ b :: f2) by (rewrite <- Lf; apply upd_split).
  assert (U2 : upd (g1 ++ team :: g2) id sp = g1 ++ sp :: g2) by (rewrite <- Lg; apply upd_split).
  rewrite Ef, Eg in *. rewrite U1, U2. apply held_x; [|exact HO|].
  - eapply R_perm; [exact HR|]. cbn [fst snd]. rewrite !concat_app. cbn [List.concat].
    rewrite <- !app_assoc. apply Permutation_app_head. cbn [app].
    transitivity (f2 ++ List.concat g1 ++ List.concat g2 ++ team ++ [tc]).
    + etransitivity; [apply (Permutation_cons_append _ tc)|]. rewrite <- !app_assoc. apply Permutation_app_head, Permutation_app_head.
      rewrite !app_assoc. apply Permutation_app_tail, Permutation_app_comm.
    + etransitivity; [do 3 apply Permutation_app_head; symmetry; exact Hp|]. symmetry.
      etransitivity; [apply (Permutation_cons_append _ b)|]. rewrite <- !app_assoc. apply Permutation_app_head, Permutation_app_head.
      etransitivity; [|apply Permutation_app_head; symmetry; apply Permutation_cons_append]. rewrite !app_assoc. apply Permutation_app_tail, Permutation_app_comm.
  - cbn [fst snd]. rewrite !app_length in *. cbn in *. split; [lia|]. split; [lia|].
    apply Forall_app in S3. destruct S3 as [F1 F2]. apply Forall_app. split; [exact F1|]. inversion F2; subst. constructor; [cbn in Lp; lia|assumption].
Qed.
Lemma wp_teams (body : nat -> M unit X unit) c l s (Q : unit -> st unit X -> Prop) :
  (forall l' s' id (Q' : unit -> st unit X -> Prop), Held l' s' -> id < t -> (forall s'', Held (l' + c) s'' -> Q' tt s'') -> wp (body id) Q' s') ->
  Held l s -> (forall s', Held (l + t * c) s' -> Q tt s') -> wp (for_ t body) Q s.
Proof using Hk Ht.
  intros Hb HH HQ. apply wp_for with (I := fun i s' => Held (l + i * c) s').
  - cbn. rewrite Nat.add_0_r. exact HH.
  - intros i s' Hi H1. apply Hb with (l' := l + i * c); [exact H1|lia|]. intros s'' H2. replace (l + S i * c) with (l + i * c + c) by lia. exact H2.
  - intros s' H1. apply HQ. exact H1.
Qed.
End ITLO.
Section ITLO2.
Notation X := (list (agent unit) * list (list (agent unit)))%type.
Variables (E : env) (P : problem) (feas : vec -> Prop) (cov : Prop) (nd n0 n t k : nat).
Notation IX := (fun L (x : X) => (List.length (fst x) = t /\ List.length (snd x) = t /\ Forall (fun g => List.length g = k) (snd x)) /\ Forall (good P feas (@anyatt unit) L) (fst x ++ List.concat (snd x))).
Notation IL := (fun m => m = n \/ m = t + t * k).
Hypothesis HP : params E P feas (@anyatt unit) cov.
Hypothesis Hk : t < k.
Hypothesis Ht : 2 <= t.
Lemma concat_len {T} (l : list (list T)) : Forall (fun g => List.length g = k) l -> List.length (List.concat l) = List.length l * k.
Proof. induction 1 as [|g l Hg _ IH]; cbn; [reflexivity|]. rewrite app_length, IH, Hg. reflexivity. Qed.
Lemma itlo_contract : evolve_contract P feas (@anyatt unit) IL IX cov nd n0 (2 * (t * k)) (2 * (t * k)) (itlo_evolve E P t).
Proof.
  intros ep s Hep HI. set (m := List.length (s_pop s)).
  assert (HR : R P feas anyatt IL IX cov nd n0 m s [] (List.length (s_log s)) s). { split; [apply Ev_init; exact HI|]. split; reflexivity. }
  assert (HO : Old s s). { unfold Old. eapply Forall_impl; [|apply (i_good _ _ _ _ _ _ _ _ _ HI)]. intros a G. apply G. }
  destruct (i_x _ _ _ _ _ _ _ _ _ HI) as (L & HL & Sx & Gx). cbv beta in Gx.
  assert (Gx0 : Forall (good P feas (@anyatt unit) (s_log s)) (fst (s_x s) ++ List.concat (snd (s_x s)))).
  { eapply Forall_impl; [|exact Gx]. intros a. apply good_mono; [apply HP|exact HL]. }
  assert (H0 : Held P feas cov nd n0 n t k s m (List.length (s_log s)) s).
  { split; [exact Sx|]. split; [|exact HO]. pose proof (R_hold _ _ _ _ _ _ _ _ _ _ _ _ _ _ HR Gx0) as T. exact T. }
  unfold itlo_evolve. apply wp_bind. eapply wp_teams with (c := k); [exact Hk|exact Ht| |exact H0|].
  { intros l' s' id Q' H1 Hi HQ. eapply wp_teach; [exact HP|exact Hk|exact Ht|exact H1|exact Hi|exact HQ]. }
  intros s1 H1. apply wp_bind. eapply wp_teams with (c := k); [exact Hk|exact Ht| |exact H1|].
  { intros l' s' id Q' H2 Hi HQ. eapply wp_learn; [exact HP|exact Hk|exact Ht|exact H2|exact Hi|exact HQ]. }
  intros s2 H2. apply wp_bind. eapply wp_teams with (c := 0); [exact Hk|exact Ht| |exact H2|].
  { intros l' s' id Q' H3 Hi HQ. eapply wp_elect; [exact HP|exact Hk|exact Ht|exact H3|exact Hi|]. intros s'' H4. apply HQ. rewrite Nat.add_0_r. exact H4. }
  intros s3 ((S1 & S2 & S3) & (V & Lp & Ll) & O3). apply wp_bind, wp_get_x. unfold set_pop, wp.
  set (q := fst (s_x s3) ++ List.concat (snd (s_x s3))) in *.
  split; [|split; [right; cbn [with_pop s_pop]; unfold q; rewrite app_length, concat_len by exact S3; congruence|cbn [with_pop s_log]; lia]].
  pose proof (v_W _ _ _ _ _ _ _ _ _ _ _ V) as GW. rewrite Forall_forall in GW.
  eapply Ev_set; [exact V|exact GW|intros e []|].
  intros C0 g0 e Hg0 He. apply in_app_or in He. destruct He as [He|He].
  - left. unfold Old in O3. rewrite Forall_forall in O3. eapply Ev_old; [exact V|exact C0|exact Hg0|eapply Ev_pop_good; eassumption|apply O3, He].
  - right. exists e. split; [rewrite app_nil_r; exact He|]. apply no_worse_refl; [apply HP|]. eapply num_good; [exact HP|exact C0|apply GW, He].
Qed.
Lemma start_itlo s : k = (n - t) / t -> Start P feas (@anyatt unit) (eq n) (fun _ (_ : X) => True) cov nd n0 s -> 
  wp (itlo_more E P t n) (fun _ s' => Start P feas (@anyatt unit) IL IX cov nd n0 s' /\ List.length (s_log s) + 0 <= List.length (s_log s') <= List.length (s_log s) + 0) s.
Proof.
  intros Ek HS. pose proof (st_len _ _ _ _ _ _ _ _ _ HS) as Ln. pose proof (st_good _ _ _ _ _ _ _ _ _ HS) as Gd. unfold itlo_more. rewrite <- Ek. cbv zeta.
  assert (Hkt : t * k <= n - t) by (rewrite Ek; apply Nat.mul_div_le; lia). assert (Hn : 0 < n) by (assert (2 <= t * k) by nia; lia). assert (Htn : t <= n) by (assert (2 <= t * k) by nia; lia).
  apply wp_bind, wp_get_pop. apply wp_bind. destruct (sorted_cov E P feas _ _ HP (s_log s) (s_pop s) Gd) as (sp & ix & Es & Hp & Gs).
  eapply wp_lift; [exact Es|]. cbv beta iota. pose proof (Permutation_length Hp) as Lp. apply wp_bind.
  destruct (getitem_lt sp 0 ltac:(lia)) as (b & Eb & _). eapply wp_lift; [exact Eb|]. apply wp_bind. unfold set_gb at 1, wp at 1.
  set (s1 := mkSt _ _ _ _ _ _ _ _). assert (HS1 : Start P feas (@anyatt unit) (eq n) (fun _ (_ : X) => True) cov nd n0 s1) by (destruct HS; constructor; assumption).
  assert (El : s_log s1 = s_log s) by reflexivity. rewrite <- El in *. clearbody s1.
  match goal with |- context[bindM (permutation E (n - t)) ?f] => change (wp (bindM (permutation E (n - t)) f) (fun _ s' => Start P feas (@anyatt unit) IL IX cov nd n0 s' /\ List.length (s_log s1) + 0 <= List.length (s_log s') <= List.length (s_log s1) + 0) s1) end.
  apply wp_bind. unfold permutation. apply wp_choice_noreplace; [rewrite seq_length; lia|]. intros pm rest k1 Lpm Hpm.
  assert (Hlt : forall i, In i pm -> i < n - t) by (intros i Hi; assert (T : In i (seq 0 (n - t))) by (eapply Permutation_in; [exact Hpm|apply in_or_app; auto]); apply in_seq in T; lia).
  apply wp_bind. eapply wp_mono; [apply (dr_for_acc t 0 [] _ (fun j acc => List.length acc = j /\ Forall (fun g => List.length g = k) acc /\ Forall (good P feas (@anyatt unit) (s_log s1)) (List.concat acc)))|].
  { split; [reflexivity|]. split; constructor. }
  { intros i acc Hi (La & Fa & Ga). apply dr_bind with (Φ := fun g => List.length g = k /\ Forall (good P feas (@anyatt unit) (s_log s1)) g).
    - unfold collect. apply (dr_for_acc k 0 [] _ (fun j acc => List.length acc = j /\ Forall (good P feas (@anyatt unit) (s_log s1)) acc)); [split; [reflexivity|constructor]|].
      intros j g Hj [Lg Fg]. destruct (getitem_lt pm (i * k + j) ltac:(nia)) as (r & Er & _ & Ir). apply Hlt in Ir.
      destruct (getitem_lt (skipn t sp) r) as (a & Ea & _ & Ia); [rewrite skipn_length; lia|].
      apply dr_bind with (Φ := eq a).
      + apply dr_bind with (Φ := eq r); [intros s2; eapply wp_lift; [exact Er|split; [apply bump_self|reflexivity]]|].
        intros y <-. intros s2. eapply wp_lift; [exact Ea|split; [apply bump_self|reflexivity]].
      + intros y <-. apply dr_ret. split; [rewrite app_length; simpl; lia|]. apply Forall_app. split; [exact Fg|constructor; [|constructor]].
        rewrite Forall_forall in Gs. apply Gs. rewrite <- (firstn_skipn t sp). apply in_or_app; auto.
    - intros g [Lg Fg]. apply dr_ret. split; [rewrite app_length; simpl; lia|]. split; [apply Forall_app; split; [exact Fa|constructor; [exact Lg|constructor]]|].
      rewrite concat_app. cbn. rewrite app_nil_r. apply Forall_app; auto. }
  intros teams s2 [[k2 ->] (Lt & Ft & Gt)]. cbv beta in *. unfold set_x, wp. split; [|cbn [with_x bump s_log]; lia].
  destruct HS1. constructor; auto. exists (s_log s1). split; [apply incl_refl|]. cbn [fst snd with_x s_x]. split.
  - rewrite firstn_length. split; [lia|]. split; [exact Lt|exact Ft].
  - apply Forall_app. split; [|exact Gt]. rewrite Forall_forall in *. intros a Ha. apply Gs. rewrite <- (firstn_skipn t sp). apply in_or_app; auto.
Qed.
End ITLO2.
Theorem C64_ImprovedTLO E P t n epochs : 2 <= t -> (t + 1) * (t + 1) <= n -> 0 < epochs ->
  sound_run_gen E P Single (improved_tlo E P t n epochs) (fun _ => True) (fun _ => True) (fun _ => True)
    (fun m => m = n \/ m = t + t * ((n - t) / t)) true n n (2 * (t * ((n - t) / t))) (2 * (t * ((n - t) / t))).
Proof.
  intros Ht Hn He. set (k := (n - t) / t). assert (Hk : t < k) by (apply Nat.div_le_lower_bound; nia).
  assert (T : sound_run_gen E P Single (improved_tlo E P t n epochs) (fun _ => True) (fun _ => True) (fun _ => True) (fun m => m = n \/ m = t + t * k) true (n + 0 + 0) (n + 0 + 0) (2 * (t * k)) (2 * (t * k))).
  2:{ rewrite !Nat.add_0_r in T. exact T. }
  eapply (sound_gen E P Single (improved_tlo E P t n epochs) (fun _ => True) (fun _ => True) (fun _ => True) (fun _ => @anyatt unit)
    (fun feas L x => (List.length (fst x) = t /\ List.length (snd x) = t /\ Forall (fun g => List.length g = k) (snd x)) /\ Forall (good P feas (@anyatt unit) L) (fst x ++ List.concat (snd x)))
    (fun feas L x => (List.length (fst x) = t /\ List.length (snd x) = t /\ Forall (fun g => List.length g = k) (snd x)) /\ Forall (good P feas (@anyatt unit) L) (fst x ++ List.concat (snd x)))
    (fun m => m = n \/ m = t + t * k) true (n + 0) (n + 0) 0 0); auto.
  - intros m [->| ->]; nia.
  - intros feas starting HP _ Hst _. eapply init_more; [|intros n0 s HS; eapply start_itlo; [exact HP|exact Hk|exact Ht|reflexivity|exact HS]].
    apply agents_init; auto.
    + intros. apply plain_gea_ok, HP.
    + apply ga_of_ok, plain_gea_ok, HP.
    + intros m <-. nia.
    + apply vars_none; auto.
  - intros feas nd HP _. apply quiet_before_main. intros s n0 HI. cbn [al_before_main improved_tlo with_init agent_algo]. apply wp_ret.
    exists (s_ctr s), (s_x s). split; [destruct s; reflexivity|]. apply (i_x _ _ _ _ _ _ _ _ _ HI).
  - intros feas nd n0 HP _. apply itlo_contract; assumption.
Qed.
(** ** ETLBO *)
Section ETLBO.
Variables (E : env) (P : problem) (md : MCore.mode) (feas : vec -> Prop) (IX : list vec -> unit -> Prop) (C : Prop) (nd n0 n : nat) (s0 : st unit unit).
Hypothesis HP : params E P feas (@anyatt unit) (false = true /\ C).
Hypothesis HA : any_array P feas.
Hypothesis Hn : 5 <= n.
Notation gt := (gt P feas (@anyatt unit) (eq n) IX (false = true /\ C) nd n0 n s0).
Notation gq := (gq P feas (@anyatt unit) (eq n) IX (false = true /\ C) nd n0 n s0).
Notation ok := (good P feas (@anyatt unit)).
Lemma g_etlbo_teach w ep : gt w n n (etlbo_teach E P md n ep) (fun _ _ => True).
Proof. unfold etlbo_teach. gcounts HP. Qed.
Lemma g_etlbo_learn w : gt w n n (etlbo_learn E P md n) (fun _ _ => True).
Proof. unfold etlbo_learn. gcounts HP. Qed.
Lemma gq_etlbo_elites w k es : k <= n -> List.length es = k -> Forall (ok w) es -> gq w (etlbo_elites E P k es) (fun _ => True).
Proof.
  intros Hk Le Fe. unfold etlbo_elites. eapply gq_bind; [eapply gq_get_pop|]. intros p [Lp Fp].
  eapply gq_bind; [eapply gq_sorted; [exact HP|noc|exact Fp]|]. intros [sp ix] (_ & _ & Lx & Fx). cbn [fst snd] in *.
  unfold for_. eapply gq_for_acc with (I := fun _ _ => True); [exact I|]. intros i [] Hi _.
  assert (Hr : i < List.length (rev ix)) by (rewrite rev_length; cbv beta in *; unfold vec in *; lia).
  destruct (getitem_lt _ _ Hr) as (x & Ex & _ & Ix). apply in_rev in Ix. rewrite Forall_forall in Fx. pose proof (Fx _ Ix) as Hx.
  eapply gq_bind with (Φ := eq x); [eapply gq_lift; [exact HP|noc|]; eauto|]. intros ? <-.
  eapply gq_bind; [eapply gq_getitem; [exact HP|noc|lia|exact Fe]|]. intros e He.
  eapply gq_mono; [eapply gq_pop_set; [exact HP|noc|lia|exact He]|auto].
Qed.
Lemma g_etlbo_repeats w : gt w 0 n (etlbo_repeats E P n) (fun _ _ => True).
Proof.
  unfold etlbo_repeats. eapply g_qbind; [eapply gq_qt; [exact HP|noc|apply q_all_sols]|]. intros xs _.
  set (l := filter (repeats xs) (seq 0 n)).
  assert (Hl : List.length l <= n). { subst l. rewrite <- (seq_length n 0) at 2. generalize (seq 0 n). intros q. induction q as [|x q IH]; cbn; [lia|]. destruct (repeats xs x); cbn; lia. }
  eapply g_mono with (a := List.length l * 1) (b := List.length l * 1); [|lia|lia|intros w2 y _ T; exact T].
  eapply g_for_list with (J := fun _ _ => True); [exact I|]. intros i w1 [] _ Hi _.
  apply filter_In in Hi. destruct Hi as [Hi _]. apply in_seq in Hi.
  eapply g_qbind; [eapply gq_qt; [exact HP|noc|apply q_uniform_box]|]. intros x Lx.
  eapply g_mono with (a := 1 + 0) (b := 1 + 0); [|lia|lia|intros w2 y _ T; exact T].
  eapply g_bind; [eapply g_gen_at; [exact HP|noc|qgea|apply HA, Lx]|]. intros a w2 _ Ha.
  eapply g_quiet. eapply gq_mono; [eapply gq_pop_set; [exact HP|noc|lia|exact Ha]|auto].
Qed.
Lemma g_etlbo w k ep : k <= n -> gt w (2 * n) (3 * n) (etlbo_evolve E P md k n ep) (fun _ _ => True).
Proof.
  intros Hk. unfold etlbo_evolve. eapply g_qbind; [eapply gq_get_pop|]. intros p [Lp Fp].
  eapply g_qbind; [eapply gq_specials; [exact HP|noc|exact Fp]|]. intros r (sp & b & c & -> & _ & _ & Lb & Fb & _). cbv beta iota.
  eapply g_mono with (a := n + (n + 0)) (b := n + (n + n)); [|lia|lia|intros w2 y _ T; exact T].
  eapply g_bind; [apply g_etlbo_teach|]. intros _ w1 H1 _. eapply g_bind; [apply g_etlbo_learn|]. intros _ w2 H2 _.
  eapply g_qbind; [apply gq_etlbo_elites; [exact Hk|cbv beta in *; unfold vec in *; lia|]|].
  { eapply oks_mono; [exact HP|exact (incl_tran H1 H2)|exact Fb]. }
  intros _ _. apply g_etlbo_repeats.
Qed.
End ETLBO.
(** Repeated positions are replaced by random ones, which are evaluated without correction, so as for CA.  Two positions are
    repeated when NumPy finds them equal, and 0.0 equals -0.0: the best agent may then be the one replaced. *)
Theorem C65_ETLBO E P md k n epochs : 5 <= n -> k <= n -> 0 < epochs ->
  sound_run_gen E P md (etlbo E P md k n epochs) (fun _ => True) (any_array P) (fun _ => True) (eq n) false n n (2 * n) (3 * n).
Proof. intros Hn Hk He. state_free (fun _ : unit => True). apply g_etlbo; auto. Qed.

Print Assumptions C64_OriginalIWO_returning.
Print Assumptions C64_ImprovedTLO.
Print Assumptions C65_ETLBO.
