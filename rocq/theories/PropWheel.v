(** C44 (continued): the roulette wheel raises nothing on finite fitness values of moderate size, so the condition
    [wheel_ok] of the class theorems follows from bounds on the objective; examples meeting the conditions of SpecAlg. *)
From Coq Require Import Reals Lra.
From Verif Require Import Prelude Fl FlArith FlInt FlWheel MCore MHelp SpecCore SpecRun PHelp PSelect PLogic PSolve PRun PSpace SpecAlg PropHelp Demo.
From Flocq Require Import Core BinarySingleNaN.
Local Open Scope R_scope.

(** A number between -2^860 and 2^860. *)
Definition fair (x : f64) : Prop := fle (fpow (-1) 860) x = true /\ fle x (fpow 1 860) = true.
Lemma fair_FR x : fair x -> fisfin x = true /\ - bpow radix2 860 <= FR x <= bpow radix2 860.
Proof.
  intros [H1 H2]. destruct (fpow_FR (-1) 860) as [F1 V1]; [reflexivity|split; discriminate|].
  destruct (fpow_FR 1 860) as [F2 V2]; [reflexivity|split; discriminate|].
  assert (N : fisnan x = false) by (destruct (fisnan x) eqn:C; [|reflexivity]; destruct x; discriminate).
  apply fle_FR in H1; [|apply fin_notnan; exact F1|exact N]. apply fle_FR in H2; [|exact N|apply fin_notnan; exact F2].
  rewrite V1 in H1. rewrite V2 in H2. assert (Z : bpow radix2 860 <= big) by (apply bpow_le; lia).
  split; [apply fin_big; [exact N|apply Rabs_le; lra]|lra].
Qed.
Lemma sub_fair x y m : fisfin x = true -> fisfin y = true -> FR y <= FR x -> FR x - FR y <= m * bpow radix2 860 -> m <= 4 ->
  pos_fin (fsub x y) /\ FR (fsub x y) <= bpow radix2 862 /\ (FR y < FR x -> 0 < FR (fsub x y)).
Proof.
  intros Fx Fy L HM H4. assert (Z := bpow_gt_0 radix2 860).
  assert (E4 : 4 * bpow radix2 860 = bpow radix2 862) by (change 862%Z with (2 + 860)%Z; rewrite bpow_plus; reflexivity).
  assert (M4 : m * bpow radix2 860 <= 4 * bpow radix2 860) by (apply Rmult_le_compat_r; lra).
  assert (Z1 : bpow radix2 862 <= big) by (apply bpow_le; lia).
  destruct (fpow_FR 1 862) as [F2 V2]; [reflexivity|split; discriminate|]. rewrite Rmult_1_l in V2.
  destruct (fsub_fin x y Fx Fy) as [N E].
  assert (Bd := crnd_bounds (FR x - FR y) (fZ 0) (fpow 1 862) eq_refl (fin_notnan _ F2)). rewrite fZ_0, V2, <- E in Bd.
  assert (Bd' : 0 <= FR (fsub x y) <= bpow radix2 862) by (apply Bd; lra).
  split; [split; [apply fin_big; [exact N|apply Rabs_le; lra]|lra]|]. split; [lra|]. intros L'. apply (sub_pos x y); auto; lra.
Qed.
(** The probabilities: numbers not below zero that add up to one. *)
Lemma roulette_probs_ok mm l p : l <> [] -> Forall fair l -> INR (List.length l) <= two20 -> roulette_probs mm l = Some p ->
  Forall pos_fin p /\ fisfin (fsuml p) = true /\ Rabs (FR (fsuml p) - 1) <= bpow radix2 (-27).
Proof.
  intros NE HF HN. unfold roulette_probs. destruct (feq (fsub (fmaxl l) (fminl l)) (fZ 0)) eqn:D; [discriminate|].
  assert (HF' : forall x, In x l -> fisfin x = true /\ - bpow radix2 860 <= FR x <= bpow radix2 860).
  { rewrite Forall_forall in HF. intros x Hx. apply fair_FR, HF, Hx. } clear HF.
  assert (NN : forall x, In x l -> fisnan x = false) by (intros x Hx; apply fin_notnan, HF', Hx).
  destruct (fmaxl_spec l NE NN) as (_ & MI & MU). destruct (fminl_spec l NE NN) as (_ & WI & WU).
  set (mx := fmaxl l) in *. set (mn := fminl l) in *. clearbody mx mn.
  destruct (HF' _ MI) as [Fx Bx]. destruct (HF' _ WI) as [Fn Bn]. assert (Z := bpow_gt_0 radix2 860).
  assert (LT : FR mn < FR mx).
  { destruct (Rle_lt_or_eq_dec _ _ (MU mn WI)) as [C|C]; [exact C|exfalso]. destruct (sub_zero mx mn Fx Fn C) as [F0 V0].
    assert (feq (fsub mx mn) (fZ 0) = true) by (apply feq_FR; [apply fin_notnan; exact F0|reflexivity|rewrite V0, fZ_0; reflexivity]). congruence. }
  set (l1 := if existsb (fun x => flt x (fZ 0)) l then map (fun x => fsub x mn) l else l).
  assert (L1 : Forall pos_fin l1 /\ Forall (fun x => FR x <= 2 * bpow radix2 860) l1 /\ List.length l1 = List.length l /\
               exists a b, In a l1 /\ In b l1 /\ FR a < FR b).
  { unfold l1. destruct (existsb (fun x => flt x (fZ 0)) l) eqn:EX.
    - assert (G : forall x, In x l -> pos_fin (fsub x mn) /\ FR (fsub x mn) <= 2 * bpow radix2 860).
      { intros x Hx. destruct (HF' x Hx) as [Fy By]. assert (W := WU x Hx). destruct (sub_fair x mn 2 Fy Fn W) as (A1 & _ & _); [lra|lra|].
        split; [exact A1|]. destruct (fpow_FR 2 860) as [F2 V2]; [reflexivity|split; discriminate|].
        assert (Bd := crnd_bounds (FR x - FR mn) (fZ 0) (fpow 2 860) eq_refl (fin_notnan _ F2)).
        rewrite (proj2 (fsub_fin x mn Fy Fn)). rewrite V2, fZ_0 in Bd. apply Bd. lra. }
      split; [apply Forall_forall; intros y Hy; apply in_map_iff in Hy as (x & <- & Hx); apply G, Hx|].
      split; [apply Forall_forall; intros y Hy; apply in_map_iff in Hy as (x & <- & Hx); apply G, Hx|].
      split; [apply map_length|]. exists (fsub mn mn), (fsub mx mn).
      split; [apply (in_map (fun x => fsub x mn)); exact WI|]. split; [apply (in_map (fun x => fsub x mn)); exact MI|].
      rewrite (proj2 (sub_zero mn mn Fn Fn eq_refl)). apply (sub_fair mx mn 2 Fx Fn); lra.
    - assert (G : forall x, In x l -> 0 <= FR x).
      { intros x Hx. destruct (flt x (fZ 0)) eqn:C.
        - assert (existsb (fun x => flt x (fZ 0)) l = true) by (apply existsb_exists; eauto). congruence.
        - apply flt_false_FR in C; [rewrite fZ_0 in C; exact C|apply NN; exact Hx|reflexivity]. }
      split; [apply Forall_forall; intros x Hx; split; [apply HF', Hx|apply G, Hx]|].
      split; [apply Forall_forall; intros x Hx; destruct (HF' x Hx); lra|]. split; [reflexivity|]. exists mn, mx. auto. }
  clearbody l1. destruct L1 as (P1 & B1 & E1 & a & b & Ha & Hb & Lab).
  set (l2 := match mm with Min => map (fun x => fsub (fmaxl l1) x) l1 | _ => l1 end).
  assert (L2 : Forall pos_fin l2 /\ Forall (fun x => FR x <= bpow radix2 870) l2 /\ List.length l2 = List.length l /\ exists x, In x l2 /\ 0 < FR x).
  { assert (Z8 : bpow radix2 862 <= bpow radix2 870) by (apply bpow_le; lia).
    assert (Z9 : 4 * bpow radix2 860 = bpow radix2 862) by (change 862%Z with (2 + 860)%Z; rewrite bpow_plus; reflexivity).
    assert (Sub : Forall pos_fin l1 /\ Forall (fun x => FR x <= bpow radix2 870) l1 /\ List.length l1 = List.length l /\ exists x, In x l1 /\ 0 < FR x).
    { split; [exact P1|]. split; [eapply Forall_impl; [|exact B1]; intros x Hx; cbv beta in *; lra|]. split; [exact E1|]. exists b. split; [exact Hb|].
      rewrite Forall_forall in P1. destruct (P1 a Ha). lra. }
    unfold l2. destruct mm; [|exact Sub|exact Sub]. rewrite Forall_forall in P1, B1.
    assert (N1 : forall x, In x l1 -> fisnan x = false) by (intros x Hx; apply fin_notnan, P1, Hx).
    assert (NE1 : l1 <> []) by (intros ->; destruct Ha). destruct (fmaxl_spec l1 NE1 N1) as (_ & MI1 & MU1).
    set (m1 := fmaxl l1) in *. clearbody m1.
    assert (G : forall x, In x l1 -> pos_fin (fsub m1 x) /\ FR (fsub m1 x) <= bpow radix2 862 /\ (FR x < FR m1 -> 0 < FR (fsub m1 x))).
    { intros x Hx. destruct (P1 x Hx), (P1 m1 MI1). assert (W1 := B1 m1 MI1). apply (sub_fair m1 x 2); auto; lra. }
    split; [apply Forall_forall; intros y Hy; apply in_map_iff in Hy as (x & <- & Hx); apply G, Hx|].
    split; [apply Forall_forall; intros y Hy; apply in_map_iff in Hy as (x & <- & Hx); destruct (G x Hx) as (_ & W & _); lra|].
    split; [rewrite map_length; exact E1|]. exists (fsub m1 a). split; [apply (in_map (fun x => fsub m1 x)); exact Ha|].
    apply (G a Ha). assert (W := MU1 b Hb). lra. }
  destruct L2 as (P2 & B2 & E2 & X2). intros H. injection H as <-. apply probs_sum; auto. rewrite E2. exact HN.
Qed.
(** A wheel over at most 2^20 numbers between -2^860 and 2^860 raises nothing and returns a position of the list, in every
    state, if the uniform draws lie in [0, 1). *)
Theorem C44_total : forall A X (E : env) (P : problem) (s : st A X) l, unit_draws E -> l <> [] -> (Z.of_nat (List.length l) <= 2 ^ 20)%Z -> Forall fair l ->
  exists i k, roulette E P l s = Ok (i, bump s k) /\ (i < List.length l)%nat.
Proof.
  intros A X E P s l HU NE HN HF.
  assert (HN' : INR (List.length l) <= two20).
  { rewrite INR_IZR_INZ. unfold two20. change (bpow radix2 20) with (IZR (2 ^ 20)). apply IZR_le. exact HN. }
  assert (T : exists i k, roulette E P l s = Ok (i, bump s k)).
  { unfold roulette. destruct l as [|a0 l0] eqn:EL; [congruence|]. rewrite <- EL in *.
    destruct (roulette_probs (p_mm P) l) as [p|] eqn:RP.
    - destruct (roulette_probs_ok _ _ _ NE HF HN' RP) as (Pp & Fs & Es). unfold choice_p.
      assert (C1 : existsb fisnan p = false).
      { destruct (existsb fisnan p) eqn:C; [|reflexivity]. apply existsb_exists in C as (x & Hx & C). rewrite Forall_forall in Pp.
        rewrite fin_notnan in C; [discriminate|apply Pp, Hx]. }
      assert (C2 : existsb (fun x => flt x (fZ 0)) p = false).
      { destruct (existsb (fun x => flt x (fZ 0)) p) eqn:C; [|reflexivity]. apply existsb_exists in C as (x & Hx & C). rewrite Forall_forall in Pp.
        destruct (Pp x Hx) as [Fx Px]. apply flt_FR in C; [|apply fin_notnan; exact Fx|reflexivity]. rewrite fZ_0 in C. lra. }
      assert (C3 : fle (fabs (fsub (fsuml p) (fZ 1))) c_tol = true).
      { assert (F1 : fisfin (fZ 1) = true) by reflexivity. assert (V1 : FR (fZ 1) = 1) by apply (fZ_FR 1 ltac:(lia)).
        destruct (fsub_fin (fsuml p) (fZ 1) Fs F1) as [N V]. rewrite V1 in V.
        assert (T26 := c_tol_FR). assert (L27 : bpow radix2 (-27) <= bpow radix2 (-26)) by (apply bpow_le; lia).
        destruct (fpow_FR (-1) (-26)) as [F2 V2]; [reflexivity|split; discriminate|].
        apply Rabs_le_inv in Es. assert (Bd := crnd_bounds (FR (fsuml p) - 1) (fpow (-1) (-26)) c_tol (fin_notnan _ F2) eq_refl).
        rewrite V2, T26 in Bd. apply fle_FR; [rewrite fisnan_abs; exact N|reflexivity|]. rewrite FR_abs, V, T26. apply Rabs_le.
        assert (Bd' := Bd ltac:(lra)). lra. }
      rewrite C1, C2, C3. cbn [orb negb]. unfold uniform, bindM, tick, ret. eexists _, _. reflexivity.
    - unfold integers. assert (L : (0 < List.length l)%nat) by (rewrite EL; simpl; lia).
      destruct (List.length l <=? 0)%nat eqn:C; [apply Nat.leb_le in C; lia|]. unfold bindM, tick, ret. eexists _, _. reflexivity. }
  destruct T as (i & k & T). exists i, k. split; [exact T|]. exact (C44_in_range E P l s i _ HU T).
Qed.
(** Hence the condition on the wheel in the class theorems. *)
Definition fair_values (P : problem) (feas : vec -> Prop) : Prop := forall x, feas x -> fair (fitx P x).
Theorem C44_wheel_ok : forall E P n feas, unit_draws E -> fair_values P feas -> (Z.of_nat n <= 2 ^ 20)%Z -> wheel_ok E P n feas.
Proof.
  intros E P n feas HU HF Hn A X s l NE HL HV. apply C44_total; [exact HU|exact NE|lia|].
  eapply Forall_impl; [|exact HV]. intros f (x & Hx & ->). apply HF, Hx.
Qed.

Print Assumptions C44_total.
Print Assumptions C44_wheel_ok.
