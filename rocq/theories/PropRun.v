(** Properties of a whole run, for an arbitrary algorithm. *)
From Verif Require Import Prelude Fl MCore SpecCore SpecRun PSelect PLogic PSolve PRun PAny PPart Demo.

(** * C01 *)
Theorem C01_should_terminate : forall t epoch fe time thr,
  (forall r, should_terminate t epoch fe time thr = Some r <->
     reached t epoch fe time thr r /\ forall r', rank r' < rank r -> ~ reached t epoch fe time thr r') /\
  (should_terminate t epoch fe time thr = None <-> forall r, ~ reached t epoch fe time thr r).
Proof.
  intros t ep fe time thr.
  assert (D : forall r, {reached t ep fe time thr r} + {~ reached t ep fe time thr r}).
  { intros [| | |]; simpl;
    [destruct (tm_epoch t) as [m|]|destruct (tm_fe t) as [m|]|destruct (tm_time t) as [m|]|destruct (tm_es t) as [m|]];
    try (right; intros (? & ? & _); discriminate).
    - destruct (Z_le_dec m ep); [left; eauto|right; intros (? & Q & ?); inversion Q; subst; auto].
    - destruct (Z_le_dec m fe); [left; eauto|right; intros (? & Q & ?); inversion Q; subst; auto].
    - destruct (fle m (fsub time (tm_start t))) eqn:Ef; [left; eauto|right; intros (? & Q & ?); inversion Q; subst; congruence].
    - destruct (Z_le_dec m thr); [left; eauto|right; intros (? & Q & ?); inversion Q; subst; auto]. }
  assert (S : should_terminate t ep fe time thr =
     if D MG then Some MG else if D FE then Some FE else if D TB then Some TB else if D ES then Some ES else None).
  { unfold should_terminate.
    destruct (D MG) as [d|d]; simpl in d.
    { destruct d as (m & -> & Hm). replace (m <=? ep)%Z with true; [reflexivity|symmetry; apply Z.leb_le; exact Hm]. }
    replace (match tm_epoch t with Some m => (m <=? ep)%Z | None => false end) with false.
    2: { destruct (tm_epoch t) as [m|]; [|reflexivity]. symmetry. apply Z.leb_gt. apply Z.nle_gt. intros Q. apply d; eauto. }
    destruct (D FE) as [d2|d2]; simpl in d2.
    { destruct d2 as (m & -> & Hm). replace (m <=? fe)%Z with true; [reflexivity|symmetry; apply Z.leb_le; exact Hm]. }
    replace (match tm_fe t with Some m => (m <=? fe)%Z | None => false end) with false.
    2: { destruct (tm_fe t) as [m|]; [|reflexivity]. symmetry. apply Z.leb_gt. apply Z.nle_gt. intros Q. apply d2; eauto. }
    destruct (D TB) as [d3|d3]; simpl in d3.
    { destruct d3 as (m & -> & Hm). rewrite Hm. reflexivity. }
    replace (match tm_time t with Some m => fle m (fsub time (tm_start t)) | None => false end) with false.
    2: { destruct (tm_time t) as [m|]; [|reflexivity]. destruct (fle m (fsub time (tm_start t))) eqn:Q; [|reflexivity]. exfalso; apply d3; eauto. }
    destruct (D ES) as [d4|d4]; simpl in d4.
    { destruct d4 as (m & -> & Hm). replace (m <=? thr)%Z with true; [reflexivity|symmetry; apply Z.leb_le; exact Hm]. }
    destruct (tm_es t) as [m|]; [|reflexivity].
    replace (m <=? thr)%Z with false; [reflexivity|]. symmetry. apply Z.leb_gt. apply Z.nle_gt. intros Q. apply d4; eauto. }
  rewrite S. split.
  - intros r. destruct (D MG) as [d1|d1], (D FE) as [d2|d2], (D TB) as [d3|d3], (D ES) as [d4|d4]; simpl;
    (split;
     [ intros Q; first [discriminate Q | inversion Q; subst r; split; [assumption|intros [| | |] Hr; simpl in Hr; try lia; assumption]]
     | intros [R1 R2]; destruct r; try reflexivity; exfalso;
       solve [ contradiction
             | apply (R2 MG); [simpl; lia|assumption] | apply (R2 FE); [simpl; lia|assumption]
             | apply (R2 TB); [simpl; lia|assumption] ] ]).
  - destruct (D MG) as [d1|d1], (D FE) as [d2|d2], (D TB) as [d3|d3], (D ES) as [d4|d4]; simpl;
    (split; [ intros Q; first [discriminate Q | intros [| | |]; assumption]
            | intros Q; try reflexivity; exfalso;
              solve [ apply (Q MG); assumption | apply (Q FE); assumption | apply (Q TB); assumption | apply (Q ES); assumption ] ]).
Qed.
Example C01_example : should_terminate (mkTerm (Some 10%Z) (Some 500%Z) None (Some 3%Z) (fZ 0) (fZ 0)) 4%Z 500%Z (fZ 1) 3%Z = Some FE.
Proof. reflexivity. Qed.

(** * C03 *)
Theorem C03_early_stop_counter : forall (A : Type) (h : history A) eps n,
  Forall has_target (h_gb h) ->
  get_global_repeated_times h eps = Ok n ->
  (n = 0 \/ stalled eps (map fit (h_gb h)) n) /\
  forall m, stalled eps (map fit (h_gb h)) m -> m <= n.
Proof.
  intros A h eps n HT H. unfold get_global_repeated_times in H. rewrite (map_res_fitness _ HT) in H. inversion H; subst n.
  split; [apply repeated_times_spec; lia|]. intros m Hm. apply repeated_times_spec. right; exact Hm.
Qed.
Theorem C03_total : forall (A : Type) (h : history A) eps,
  Forall has_target (h_gb h) -> exists n, get_global_repeated_times h eps = Ok n.
Proof. intros A h eps HT. unfold get_global_repeated_times. rewrite (map_res_fitness _ HT). eexists; reflexivity. Qed.

Definition ag (f : Z) : agent unit := mkAgent [] (Some (target_new [fZ f] None)) tt.
Definition hist_of (l : list Z) : history unit := mkHist (map ag l) [] [] [] [] [] [] [] [] [] [] None.
Example C03_example : get_global_repeated_times (hist_of [9; 9; 7; 7; 7]%Z) (fZ 0) = Ok 2
  /\ Forall has_target (h_gb (hist_of [9; 9; 7; 7; 7]%Z)).
Proof. split; [vm_compute; reflexivity|]. repeat constructor; discriminate. Qed.

(** * C04, C05: when the loop stops *)
Section Generic.
Context {A X : Type}.
Implicit Types (E : env) (P : problem) (md : mode) (al : @algo A X) (tm : option termination).

Theorem C04_stops_exactly : forall E P md al tm starting s g s',
  valid_mm (p_mm P) -> argsort_ok (e_argsort E) -> tame P md al starting ->
  solve E P md al tm starting s = Ok (g, s') ->
  exists e tr rs, run_trace E P md al tm starting s e tr rs /\
    List.length (h_gb (s_hist s')) = e /\ s_nfe s' = s_nfe (tr e) /\
    1 <= e <= al_epoch al /\
    (forall j, S j < e -> rs j = None) /\
    (e = al_epoch al \/ rs (e - 1) <> None) /\
    (forall j, j < e -> match tm with
       | None => rs j = None
       | Some t => exists k, rs j =
           should_terminate (started E t) (Z.of_nat (S j)) (Z.of_nat (s_nfe (tr (S j)))) (e_time E k)
             (Z.of_nat (repeated_times (tm_eps t) (map fit (h_gb (s_hist (tr (S j)))))))
       end).
Proof.
  intros E P md al tm starting s g s' V HA HT H.
  destruct (solve_any E P md V HA al tm starting s g s' HT H)
    as (e & tr & rs & s0 & tm' & He & C & Etm & RT & Ts & Tn & Tl & G1 & G2 & Ep & En & El & Eh).
  exists e, tr, rs. split; [exact RT|].
  destruct (ch_len _ _ _ _ C e (le_n _)) as (L1 & _).
  split. { rewrite Eh. simpl. destruct (h_gb (s_hist (tr e))); simpl in *; lia. }
  split; [exact En|]. split; [exact He|]. split; [exact Tn|].
  split. { destruct Tl as [Tl|(r & Er)]; [left; exact Tl|right; congruence]. }
  intros j Hj. pose proof (epoch_step_verdict E P al tm' (S j) (tr j) (rs j) (tr (S j)) (Ts j Hj)) as Q.
  rewrite Etm in Q. destruct tm as [t|]; [|exact Q]. destruct Q as (fits & k & Ef & Er). exists k.
  assert (TG : Forall has_target (h_gb (s_hist (tr (S j))))).
  { (* every recorded best is proper: use the chain up to S j *)
    apply Forall_forall. intros a Ha. unfold has_target. intros Hn.
    assert (K : forall l fs, map_res fitness l = Ok fs -> forall b : agent A, In b l -> tgt b <> None).
    { clear. induction l as [|b l IH]; intros fs Hf b' Hb; [destruct Hb|]. simpl in Hf.
      destruct (fitness b) as [fb|] eqn:Eb; [|discriminate]. simpl in Hf.
      destruct (map_res fitness l) as [fr|] eqn:Er; [|discriminate]. destruct Hb as [<-|Hb].
      - unfold fitness in Eb. destruct (tgt b); [congruence|discriminate].
      - eapply IH; eauto. }
    exact (K _ _ Ef a Ha Hn). }
  rewrite (map_res_fitness _ TG) in Ef. inversion Ef; subst fits. exact Er.
Qed.

Theorem C05_evaluation_budget : forall E P md al starting s g s' M eps start,
  valid_mm (p_mm P) -> argsort_ok (e_argsort E) -> tame P md al starting ->
  solve E P md al (Some (mkTerm None (Some M) None None eps start)) starting s = Ok (g, s') ->
  exists e tr rs, run_trace E P md al (Some (mkTerm None (Some M) None None eps start)) starting s e tr rs /\
    List.length (h_gb (s_hist s')) = e /\ s_nfe s' = s_nfe (tr e) /\
    (e < al_epoch al -> (M <= Z.of_nat (s_nfe s'))%Z) /\
    (forall j, 1 <= j < e -> (Z.of_nat (s_nfe (tr j)) < M)%Z) /\
    (1 < e -> (Z.of_nat (s_nfe s') < M + (Z.of_nat (s_nfe (tr e)) - Z.of_nat (s_nfe (tr (e - 1)%nat))))%Z).
Proof.
  intros E P md al starting s g s' M eps start V HA HT H.
  destruct (C04_stops_exactly _ _ _ _ _ _ _ _ _ V HA HT H) as (e & tr & rs & RT & L & N & He & Tn & Tl & Tv).
  exists e, tr, rs. split; [exact RT|]. split; [exact L|]. split; [exact N|].
  assert (Bef : forall j, 1 <= j < e -> (Z.of_nat (s_nfe (tr j)) < M)%Z).
  { intros j Hj. destruct (Tv (j - 1) ltac:(lia)) as (k & Ek). replace (S (j - 1)) with j in Ek by lia.
    rewrite (Tn (j - 1) ltac:(lia)) in Ek. unfold should_terminate in Ek. simpl in Ek.
    destruct (M <=? Z.of_nat (s_nfe (tr j)))%Z eqn:Q; [discriminate|]. apply Z.leb_gt in Q. exact Q. }
  split; [|split; [exact Bef|]].
  - intros Hlt. destruct Tl as [->|Tl]; [lia|]. destruct (Tv (e - 1) ltac:(lia)) as (k & Ek).
    replace (S (e - 1)) with e in Ek by lia. unfold should_terminate in Ek. simpl in Ek.
    destruct (M <=? Z.of_nat (s_nfe (tr e)))%Z eqn:Q; [|congruence]. apply Z.leb_le in Q. rewrite N. exact Q.
  - intros H1. pose proof (Bef (e - 1) ltac:(lia)). rewrite N. lia.
Qed.

(** * C06: global best never gets worse *)
Theorem C06_global_best_monotone_min : forall E P md al tm starting s g s',
  p_mm P = Min -> argsort_ok (e_argsort E) -> tame P md al starting ->
  solve E P md al tm starting s = Ok (g, s') ->
  exists e tr rs, run_trace E P md al tm starting s e tr rs /\ List.length (h_gbf (s_hist s')) = e /\
    ((exists a, In a (s_pop (tr 0)) /\ num (fit a)) ->
     forall i j, i <= j -> j < e ->
       fle (nth j (h_gbf (s_hist s')) fnan) (nth i (h_gbf (s_hist s')) fnan) = true).
Proof.
  intros E P md al tm starting s g s' Em HA HT H.
  destruct (solve_any E P md (or_introl Em) HA al tm starting s g s' HT H)
    as (e & tr & rs & s0 & tm' & He & C & Etm & RT & Ts & Tn & Tl & G1 & G2 & Ep & En & El & Eh).
  destruct (ch_len _ _ _ _ C e (le_n _)) as (L1 & _).
  exists e, tr, rs. split; [exact RT|].
  assert (Eg : h_gbf (s_hist s') = map fit (tl (h_gb (s_hist (tr e))))) by (rewrite Eh; apply (ch_gbf _ _ _ _ C)).
  rewrite Eg. destruct (h_gb (s_hist (tr e))) as [|g0 gs] eqn:Egs; [discriminate|]. simpl in *.
  split; [rewrite map_length; lia|]. intros Ha i j Hij Hj.
  destruct (nth_error gs i) as [gi|] eqn:Ei; [|apply nth_error_None in Ei; lia].
  destruct (nth_error gs j) as [gj|] eqn:Ej; [|apply nth_error_None in Ej; lia].
  assert (F : forall k gk, nth_error gs k = Some gk -> nth k (map fit gs) fnan = fit gk).
  { intros k gk Hk. apply nth_error_nth. rewrite nth_error_map, Hk. reflexivity. }
  rewrite (F i gi Ei), (F j gj Ej).
  apply (ch_min _ _ _ _ C Em Ha (S i) (S j) gi gj); try lia; rewrite Egs; assumption.
Qed.

(** The general form, both directions, when no NaN occurs in the populations. *)
Theorem C06_global_best_monotone : forall E P md al tm starting s g s',
  valid_mm (p_mm P) -> argsort_ok (e_argsort E) -> tame P md al starting ->
  solve E P md al tm starting s = Ok (g, s') ->
  exists e tr rs, run_trace E P md al tm starting s e tr rs /\ List.length (h_gbf (s_hist s')) = e /\
    ((forall k a, k <= e -> In a (s_pop (tr k)) -> num (fit a)) ->
     forall i j, i <= j -> j < e ->
       no_worse (p_mm P) (nth j (h_gbf (s_hist s')) fnan) (nth i (h_gbf (s_hist s')) fnan)).
Proof.
  intros E P md al tm starting s g s' V HA HT H.
  destruct (solve_any E P md V HA al tm starting s g s' HT H)
    as (e & tr & rs & s0 & tm' & He & C & Etm & RT & Ts & Tn & Tl & G1 & G2 & Ep & En & El & Eh).
  destruct (ch_len _ _ _ _ C e (le_n _)) as (L1 & _).
  exists e, tr, rs. split; [exact RT|].
  assert (Eg : h_gbf (s_hist s') = map fit (tl (h_gb (s_hist (tr e))))) by (rewrite Eh; apply (ch_gbf _ _ _ _ C)).
  rewrite Eg. destruct (h_gb (s_hist (tr e))) as [|g0 gs] eqn:Egs; [discriminate|]. simpl in *.
  split; [rewrite map_length; lia|]. intros Hnum i j Hij Hj.
  destruct (ch_gb _ _ _ _ C (S i) ltac:(lia)) as (gi & ci & wi & vi & Q1 & _ & _ & _ & _ & _ & _ & _ & (i1 & I1 & I2) & _).
  destruct (ch_gb _ _ _ _ C (S j) ltac:(lia)) as (gj & cj & wj & vj & R1 & _ & _ & _ & _ & _ & _ & _ & _ & _ & R11).
  rewrite Egs in Q1, R1. simpl in Q1, R1.
  assert (F : forall k gk, nth_error gs k = Some gk -> nth k (map fit gs) fnan = fit gk).
  { intros k gk Hk. apply nth_error_nth. rewrite nth_error_map, Hk. reflexivity. }
  rewrite (F i gi Q1), (F j gj R1).
  destruct (ch_gb _ _ _ _ C i1 ltac:(lia)) as (gx & cx & wx & vx & _ & X2 & _ & _ & _ & X6 & _).
  rewrite X2 in I2. inversion I2; subst cx.
  apply (R11 (fun k a Hk Ha => Hnum k a ltac:(lia) Ha) i1 gi ltac:(lia) X6).
Qed.

(** * C07, C08 *)
Theorem C07_returned_agent_best_of_generations : forall E P md al tm starting s g s',
  valid_mm (p_mm P) -> argsort_ok (e_argsort E) -> tame P md al starting ->
  solve E P md al tm starting s = Ok (g, s') ->
  exists e tr rs, run_trace E P md al tm starting s e tr rs /\ List.length (h_gb (s_hist s')) = e /\
    last_item (h_gb (s_hist s')) = Ok g /\ s_gb s' = Some g /\
    (exists k, k <= e /\ In g (s_pop (tr k))) /\
    ((forall k a, k <= e -> In a (s_pop (tr k)) -> num (fit a)) ->
     forall k a, k <= e -> In a (s_pop (tr k)) -> no_worse (p_mm P) (fit g) (fit a)).
Proof.
  intros E P md al tm starting s g s' V HA HT H.
  destruct (solve_any E P md V HA al tm starting s g s' HT H)
    as (e & tr & rs & s0 & tm' & He & C & Etm & RT & Ts & Tn & Tl & G1 & G2 & Ep & En & El & Eh).
  destruct (ch_len _ _ _ _ C e (le_n _)) as (L1 & _).
  exists e, tr, rs. split; [exact RT|].
  destruct (ch_gb _ _ _ _ C e (le_n _)) as (ge & ce & we & ve & Q1 & _ & _ & _ & Q5 & _ & _ & _ & (i1 & I1 & I2) & _ & Q11).
  rewrite G1 in Q5. inversion Q5; subst ge.
  assert (Eg : h_gb (s_hist s') = tl (h_gb (s_hist (tr e)))) by (rewrite Eh; reflexivity).
  rewrite Eg. destruct (h_gb (s_hist (tr e))) as [|g0 gs] eqn:Egs; [discriminate|]. simpl in *.
  split; [lia|]. split; [|split; [exact G2|split]].
  - destruct e as [|e']; [lia|]. simpl in Q1.
    assert (gs <> []) by (destruct gs; [destruct e'; discriminate|congruence]).
    destruct (last_item_nonempty gs H0) as (x & l' & Ex & El'). rewrite El'. f_equal.
    rewrite Ex in Q1, L1. rewrite app_length in L1. simpl in L1.
    rewrite nth_error_app2 in Q1 by lia. replace (e' - List.length l') with 0 in Q1 by lia. simpl in Q1. congruence.
  - exists i1. split; [exact I1|].
    destruct (ch_gb _ _ _ _ C i1 I1) as (gx & cx & wx & vx & _ & X2 & _ & _ & _ & X6 & _).
    rewrite X2 in I2. inversion I2; subst cx. exact X6.
  - intros HN k a Hk Ha. apply (Q11 HN k a Hk Ha).
Qed.

Theorem C08_global_worst : forall E P md al tm starting s g s',
  valid_mm (p_mm P) -> argsort_ok (e_argsort E) -> tame P md al starting ->
  solve E P md al tm starting s = Ok (g, s') ->
  exists e tr rs, run_trace E P md al tm starting s e tr rs /\ List.length (h_gw (s_hist s')) = e /\
    ((forall k a, k <= e -> In a (s_pop (tr k)) -> num (fit a)) ->
     forall j w, nth_error (h_gw (s_hist s')) j = Some w ->
       (exists k, k <= S j /\ In w (s_pop (tr k))) /\
       (forall k a, k <= S j -> In a (s_pop (tr k)) -> no_worse (p_mm P) (fit a) (fit w)) /\
       (forall i w', i <= j -> nth_error (h_gw (s_hist s')) i = Some w' -> no_worse (p_mm P) (fit w') (fit w))).
Proof.
  intros E P md al tm starting s g s' V HA HT H.
  destruct (solve_any E P md V HA al tm starting s g s' HT H)
    as (e & tr & rs & s0 & tm' & He & C & Etm & RT & Ts & Tn & Tl & G1 & G2 & Ep & En & El & Eh).
  destruct (ch_len _ _ _ _ C e (le_n _)) as (_ & _ & L3 & _).
  exists e, tr, rs. split; [exact RT|].
  assert (Eg : h_gw (s_hist s') = tl (h_gw (s_hist (tr e)))) by (rewrite Eh; reflexivity).
  rewrite Eg. destruct (h_gw (s_hist (tr e))) as [|g0 gs] eqn:Egs; [discriminate|]. simpl in *.
  split; [lia|]. intros HN.
  assert (K : forall j w, nth_error gs j = Some w -> S j <= e /\ 
       (exists k, k <= S j /\ In w (s_pop (tr k))) /\
       (forall k a, k <= S j -> In a (s_pop (tr k)) -> no_worse (p_mm P) (fit a) (fit w))).
  { intros j w Hw. assert (Hj : j < List.length gs) by (apply nth_error_Some; congruence). split; [lia|].
    destruct (ch_gb _ _ _ _ C (S j) ltac:(lia)) as (gj & cj & wj & vj & _ & _ & R3 & _ & _ & _ & _ & _ & _ & (i2 & I3 & I4) & R11).
    rewrite Egs in R3. simpl in R3. rewrite Hw in R3. inversion R3; subst wj. split.
    - exists i2. split; [exact I3|].
      destruct (ch_gb _ _ _ _ C i2 ltac:(lia)) as (gx & cx & wx & vx & _ & _ & _ & X4 & _ & _ & X7 & _).
      rewrite X4 in I4. inversion I4; subst vx. exact X7.
    - intros k a Hk Ha. apply (R11 (fun k a Hk Ha => HN k a ltac:(lia) Ha) k a Hk Ha). }
  intros j w Hw. destruct (K j w Hw) as (K1 & K2 & K3). split; [exact K2|]. split; [exact K3|].
  intros i w' Hi Hw'. destruct (K i w' Hw') as (_ & (k & Hk & Hin) & _). apply (K3 k w'); [lia|exact Hin].
Qed.

(** * C09 *)
Theorem C09_history_aligned : forall E P md al tm starting s g s',
  valid_mm (p_mm P) -> argsort_ok (e_argsort E) -> tame P md al starting ->
  solve E P md al tm starting s = Ok (g, s') ->
  exists e tr rs, run_trace E P md al tm starting s e tr rs /\
    let h := s_hist s' in
    h_epoch h = Some e /\ List.length (h_gb h) = e /\ List.length (h_cb h) = e /\ List.length (h_gw h) = e /\
    List.length (h_cw h) = e /\ List.length (h_gbf h) = e /\ List.length (h_cbf h) = e /\ List.length (h_time h) = e /\
    List.length (h_div h) = e /\ List.length (h_expl h) = e /\ List.length (h_expt h) = e /\
    h_gbf h = map fit (h_gb h) /\ h_cbf h = map fit (h_cb h) /\
    h_pop h = (if p_save_pop P then map (fun j => s_pop (tr j)) (seq 1 e) else []) /\
    (forall j c, nth_error (h_cb h) j = Some c -> In c (s_pop (tr (S j)))) /\
    (forall j c, nth_error (h_cw h) j = Some c -> In c (s_pop (tr (S j)))) /\
    (forall j c, nth_error (h_gb h) j = Some c -> s_gb (tr (S j)) = Some c).
Proof.
  intros E P md al tm starting s g s' V HA HT H.
  destruct (solve_any E P md V HA al tm starting s g s' HT H)
    as (e & tr & rs & s0 & tm' & He & C & Etm & RT & Ts & Tn & Tl & G1 & G2 & Ep & En & El & Eh).
  destruct (ch_len _ _ _ _ C e (le_n _)) as (L1 & L2 & L3 & L4 & L5 & L6).
  exists e, tr, rs. split; [exact RT|]. rewrite Eh. cbv zeta.
  pose proof (ch_gbf _ _ _ _ C) as B1. pose proof (ch_cbf _ _ _ _ C) as B2. pose proof (ch_pop _ _ _ _ C) as B3.
  assert (G : forall j, S j <= e -> exists g c v, nth_error (tl (h_gb (s_hist (tr e)))) j = Some g /\
     nth_error (tl (h_cb (s_hist (tr e)))) j = Some c /\ nth_error (tl (h_cw (s_hist (tr e)))) j = Some v /\
     s_gb (tr (S j)) = Some g /\ In c (s_pop (tr (S j))) /\ In v (s_pop (tr (S j)))).
  { intros j Hj. destruct (ch_gb _ _ _ _ C (S j) Hj) as (gj & cj & wj & vj & Q1 & Q2 & _ & Q4 & Q5 & Q6 & Q7 & _).
    exists gj, cj, vj. destruct (h_gb (s_hist (tr e))); [discriminate|]. destruct (h_cb (s_hist (tr e))); [discriminate|].
    destruct (h_cw (s_hist (tr e))); [discriminate|]. simpl in *. auto 12. }
  assert (LT : forall (l : list (agent A)), List.length l = S e -> List.length (tl l) = e) by (intros [|? ?] Q; simpl in *; lia).
  simpl. rewrite !map_length, B1, B2, !map_length, !LT, L5, L6 by assumption.
  repeat (split; [reflexivity|]). split; [exact B3|].
  assert (LE : forall (l : list (agent A)) j c, List.length l = S e -> nth_error (tl l) j = Some c -> S j <= e).
  { intros l j c Hl Hn. assert (j < List.length (tl l)) by (apply nth_error_Some; congruence). rewrite LT in H0 by exact Hl. lia. }
  split; [|split]; intros j c Hc.
  - destruct (G j (LE _ _ _ L2 Hc)) as (gj & cj & vj & Q1 & Q2 & Q3 & Q4 & Q5 & Q6). congruence.
  - destruct (G j (LE _ _ _ L4 Hc)) as (gj & cj & vj & Q1 & Q2 & Q3 & Q4 & Q5 & Q6). congruence.
  - destruct (G j (LE _ _ _ L1 Hc)) as (gj & cj & vj & Q1 & Q2 & Q3 & Q4 & Q5 & Q6). congruence.
Qed.

(** * C60: no result for an invalid direction, whatever the algorithm *)
Theorem C60_invalid_direction : forall E P md al tm starting s r,
  p_mm P = Other -> 1 <= al_epoch al -> solve E P md al tm starting s <> Ok r.
Proof.
  intros E P md al tm starting s [g s'] Em He H. unfold solve in H.
  apply bindM_ok in H; destruct H as (u & s1 & Hc & H).
  apply bindM_ok in H; destruct H as (tm' & s2 & _ & H).
  apply bindM_ok in H; destruct H as (u1 & s3 & H1 & H).
  apply bindM_ok in H; destruct H as (u2 & s4 & H2 & H).
  apply bindM_ok in H; destruct H as (u3 & s5 & H3 & H).
  apply bindM_ok in H; destruct H as (u4 & s6 & H4 & H).
  apply bindM_ok in H; destruct H as (u5 & s7 & H5 & H).
  apply bindM_ok in H; destruct H as ([] & s8 & H6 & H).
  assert (K : forall n i a b, main_loop E P al tm' n i a = Ok (tt, b) -> n = 0).
  { intros [|n] i a b Q; [reflexivity|exfalso]. cbn [main_loop] in Q.
    apply bindM_ok in Q. destruct Q as (r & s9 & Q & _). unfold epoch_step in Q.
    apply bindM_ok in Q; destruct Q as (? & ? & _ & Q).
    apply bindM_ok in Q; destruct Q as (? & ? & _ & Q).
    apply bindM_ok in Q; destruct Q as (? & ? & _ & Q).
    apply bindM_ok in Q; destruct Q as (? & ? & U & _). unfold update_global_best_agent in U.
    apply bindM_ok in U; destruct U as ([? ?] & ? & _ & U).
    apply bindM_ok in U; destruct U as (? & ? & _ & U).
    apply bindM_ok in U; destruct U as (? & ? & _ & U).
    apply bindM_ok in U; destruct U as (? & ? & _ & U). cbv zeta in U.
    apply bindM_ok in U; destruct U as (? & ? & _ & U).
    apply bindM_ok in U; destruct U as (? & ? & U & _). apply lift_ok in U. destruct U as [U _].
    unfold get_better_agent in U. rewrite Em in U. discriminate. }
  apply K in H6. lia.
Qed.

End Generic.

(** ** Concrete runs meeting the hypotheses *)
Definition rs_algo (mm : minmax) (obj : vec -> f64) (save : bool) (n e : nat) :=
  random_search demo_env (demo_prob mm obj save) Single n e true.
Definition budget (m : Z) : option termination := Some (mkTerm None (Some m) None None (fZ 0) (fZ 0)).

Lemma is_ok_ex {T U} (r : res (T * U)) : is_ok r = true -> exists t u, r = Ok (t, u).
Proof. destruct r as [[t u]|e]; [eauto|discriminate]. Qed.

Example run_example_min : valid_mm Min /\ argsort_ok (e_argsort demo_env) /\
  tame (demo_prob Min sphere true) Single (rs_algo Min sphere true 3 6) None /\
  exists g s', solve demo_env (demo_prob Min sphere true) Single (rs_algo Min sphere true 3 6) (budget 11) None (st0 tt) = Ok (g, s')
   /\ List.length (h_gb (s_hist s')) = 3 /\ s_nfe s' = 12 /\
   forallb (fun a => negb (fisnan (fit a))) (List.concat (h_pop (s_hist s'))) = true.
Proof.
  split; [left; reflexivity|]. split; [exact argsort_ins_ok|]. split; [apply random_search_tame|].
  destruct (is_ok_ex (solve demo_env (demo_prob Min sphere true) Single (rs_algo Min sphere true 3 6) (budget 11) None (st0 tt))) as (g & s' & H);
    [vm_compute; reflexivity|]. exists g, s'. split; [exact H|].
  assert (Q : match solve demo_env (demo_prob Min sphere true) Single (rs_algo Min sphere true 3 6) (budget 11) None (st0 tt) with
     | Ok (g, s') => List.length (h_gb (s_hist s')) = 3 /\ s_nfe s' = 12 /\
        forallb (fun a => negb (fisnan (fit a))) (List.concat (h_pop (s_hist s'))) = true | Err _ => False end)
    by (vm_compute; repeat split).
  rewrite H in Q. exact Q.
Qed.
Example run_example_max : valid_mm Max /\ argsort_ok (e_argsort demo_env) /\
  tame (demo_prob Max sphere false) Single (rs_algo Max sphere false 4 5) None /\
  exists g s', solve demo_env (demo_prob Max sphere false) Single (rs_algo Max sphere false 4 5) None None (st0 tt) = Ok (g, s').
Proof.
  split; [right; reflexivity|]. split; [exact argsort_ins_ok|]. split; [apply random_search_tame|].
  apply is_ok_ex. vm_compute. reflexivity.
Qed.

(** When maximising, one NaN objective value makes the optimizer forget its best: the reported global best
    goes 9, NaN, 1 and the agent returned is worse than an earlier global best. *)
Definition forgetful (x : vec) : f64 :=
  if feq (nth 0 x fnan) (fZ 1) then fZ 9 else if feq (nth 0 x fnan) (fZ (-1)) then fnan else fZ 1.
Theorem C06_global_best_max_nan_refuted : exists E P md (al : @algo unit unit) s g s' i,
  p_mm P = Max /\ argsort_ok (e_argsort E) /\ tame P md al None /\
  solve E P md al None None s = Ok (g, s') /\
  flt (fit g) (nth i (h_gbf (s_hist s')) fnan) = true.
Proof.
  set (P := demo_prob Max forgetful false). set (al := random_search demo_env P Single 1 4 false).
  destruct (is_ok_ex (solve demo_env P Single al None None (st0 tt))) as (g & s' & H); [vm_compute; reflexivity|].
  exists demo_env, P, Single, al, (st0 tt), g, s', 0.
  split; [reflexivity|]. split; [exact argsort_ins_ok|]. split; [apply random_search_tame|]. split; [exact H|].
  assert (Q : match solve demo_env P Single al None None (st0 tt) with
     | Ok (g, s') => flt (fit g) (nth 0 (h_gbf (s_hist s')) fnan) = true | Err _ => False end) by (vm_compute; reflexivity).
  rewrite H in Q. exact Q.
Qed.
(** Likewise when minimising: if every initial fitness is NaN, the NaN agent is never replaced. *)
Definition late (x : vec) : f64 := if feq (nth 0 x fnan) (fZ (-5)) then fnan else fZ 1.
Theorem C06_global_best_min_nan_refuted : exists E P md (al : @algo unit unit) s g s' a,
  p_mm P = Min /\ argsort_ok (e_argsort E) /\ tame P md al None /\
  solve E P md al None None s = Ok (g, s') /\
  In a (h_cb (s_hist s')) /\ fisnan (fit a) = false /\ fisnan (fit g) = true.
Proof.
  set (P := demo_prob Min late false). set (al := random_search demo_env P Single 1 3 false).
  destruct (is_ok_ex (solve demo_env P Single al None None (st0 tt))) as (g & s' & H); [vm_compute; reflexivity|].
  assert (Q : match solve demo_env P Single al None None (st0 tt) with
     | Ok (g, s') => match nth_error (h_cb (s_hist s')) 0 with Some a => fisnan (fit a) = false | None => False end
          /\ fisnan (fit g) = true | Err _ => False end) by (vm_compute; split; reflexivity).
  rewrite H in Q. destruct (nth_error (h_cb (s_hist s')) 0) as [a|] eqn:Ea; [|tauto].
  exists demo_env, P, Single, al, (st0 tt), g, s', a.
  split; [reflexivity|]. split; [exact argsort_ins_ok|]. split; [apply random_search_tame|]. split; [exact H|].
  split; [eapply nth_error_In; exact Ea|]. exact Q.
Qed.

Example C60_example :
  solve demo_env (demo_prob Other sphere false) Single (rs_algo Other sphere false 3 2) None None (st0 tt) = Err KeyError.
Proof. vm_compute. reflexivity. Qed.

Print Assumptions C01_should_terminate.
Print Assumptions C03_early_stop_counter.
Print Assumptions C03_total.
Print Assumptions C04_stops_exactly.
Print Assumptions C05_evaluation_budget.
Print Assumptions C06_global_best_monotone_min.
Print Assumptions C06_global_best_monotone.
Print Assumptions C07_returned_agent_best_of_generations.
Print Assumptions C08_global_worst.
Print Assumptions C09_history_aligned.
Print Assumptions C60_invalid_direction.
Print Assumptions C06_global_best_max_nan_refuted.
Print Assumptions C06_global_best_min_nan_refuted.
