(** Arithmetic facts about binary64: each operation on finite arguments is the exact result,
    rounded to nearest even and clamped at the infinities. *)
From Coq Require Import Reals Lra.
From Flocq Require Import Core BinarySingleNaN.
From Verif Require Import Prelude Fl.
Local Open Scope R_scope.

Definition B : R := bpow radix2 emax.
Definition rnd (r : R) : R := round radix2 (SpecFloat.fexp prec emax) (round_mode mode_NE) r.
Definition crnd (r : R) : R := Rmax (- B) (Rmin B (rnd r)).

Lemma B_pos : 0 < B. Proof. apply bpow_gt_0. Qed.

#[global] Instance fexp_ok : Valid_exp (SpecFloat.fexp prec emax) := BinarySingleNaN.fexp_correct prec emax Hprec.

Lemma rnd_mono x y : x <= y -> rnd x <= rnd y.
Proof. intros H. apply round_le; [apply fexp_ok|apply valid_rnd_round_mode|exact H]. Qed.
Lemma crnd_mono x y : x <= y -> crnd x <= crnd y.
Proof.
  intros H. apply rnd_mono in H. unfold crnd. apply Rle_max_compat_l. apply Rle_min_compat_l. exact H.
Qed.
Lemma rnd_0 : rnd 0 = 0. Proof. apply round_0. apply valid_rnd_round_mode. Qed.

Lemma rnd_B : rnd B = B.
Proof.
  apply round_generic; [apply valid_rnd_round_mode|]. apply generic_format_bpow.
  unfold SpecFloat.fexp, SpecFloat.emin, emax, prec. simpl. lia.
Qed.
Lemma rnd_opp x : rnd (- x) = - rnd x.
Proof. unfold rnd. apply round_NE_opp. Qed.
Lemma rnd_mB : rnd (- B) = - B.
Proof. rewrite rnd_opp, rnd_B. reflexivity. Qed.

Lemma crnd_id r : rnd r = r -> - B <= r <= B -> crnd r = r.
Proof. intros H [H1 H2]. unfold crnd. rewrite H, Rmin_right, Rmax_right; auto. Qed.
Lemma crnd_0 : crnd 0 = 0.
Proof. apply crnd_id; [apply rnd_0|]. pose proof B_pos; lra. Qed.
Lemma crnd_opp r : crnd (- r) = - crnd r.
Proof.
  assert (K : forall a, Rmax (- B) (Rmin B (- a)) = - Rmax (- B) (Rmin B a)).
  { pose proof B_pos. intros a. destruct (Rle_or_lt B a); [|destruct (Rle_or_lt a (- B))].
    - rewrite (Rmin_right B (- a)), (Rmin_left B a), (Rmax_right (- B) B), Rmax_left by lra. reflexivity.
    - rewrite (Rmin_left B (- a)), (Rmin_right B a), (Rmax_right (- B) B), (Rmax_left (- B) a) by lra. lra.
    - rewrite (Rmin_right B (- a)), (Rmin_right B a), !Rmax_right by lra. reflexivity. }
  unfold crnd. rewrite rnd_opp. apply K.
Qed.
Lemma rnd_FR x : fisnan x = false -> rnd (FR x) = FR x.
Proof.
  destruct x as [s|[|]| |s m e H] eqn:Ex; intros N; try discriminate.
  - apply rnd_0.
  - apply rnd_mB.
  - apply rnd_B.
  - change (rnd (B2R (B754_finite s m e H : f64)) = B2R (B754_finite s m e H : f64)).
    apply round_generic; [apply valid_rnd_round_mode|]. apply generic_format_B2R.
Qed.
Lemma crnd_FR x : fisnan x = false -> crnd (FR x) = FR x.
Proof. intros N. apply crnd_id; [apply rnd_FR; exact N|apply FR_bound_le]. Qed.
Lemma crnd_bounds r lo hi : fisnan lo = false -> fisnan hi = false -> FR lo <= r <= FR hi -> FR lo <= crnd r <= FR hi.
Proof.
  intros N1 N2 [H1 H2]. split.
  - rewrite <- (crnd_FR lo N1). apply crnd_mono; exact H1.
  - rewrite <- (crnd_FR hi N2). apply crnd_mono; exact H2.
Qed.

Lemma B2R_FR x : fisfin x = true -> B2R x = FR x.
Proof. intros H. symmetry. apply FR_fin; exact H. Qed.
Lemma fin_notnan x : fisfin x = true -> fisnan x = false.
Proof. destruct x; simpl; congruence. Qed.

Lemma overflow_FR (z : f64) s r : B2SF z = binary_overflow prec emax mode_NE s ->
  (B <= Rabs (rnd r)) -> (s = false -> 0 <= r) -> (s = true -> r <= 0) ->
  fisnan z = false /\ FR z = crnd r.
Proof.
  intros Hz Hr H1 H2. change (binary_overflow prec emax mode_NE s) with (SpecFloat.S754_infinity s) in Hz.
  destruct z as [s0|s0| |s0 m e Hb]; simpl in Hz; try discriminate. inversion Hz; subst s0. split; [reflexivity|].
  pose proof B_pos. unfold crnd. destruct s.
  - rewrite FR_ninf. fold B. specialize (H2 eq_refl). apply rnd_mono in H2. rewrite rnd_0 in H2.
    rewrite Rabs_left1 in Hr by exact H2. rewrite Rmin_right by lra. rewrite Rmax_left by lra. reflexivity.
  - rewrite FR_pinf. fold B. specialize (H1 eq_refl). apply rnd_mono in H1. rewrite rnd_0 in H1.
    rewrite Rabs_pos_eq in Hr by exact H1. rewrite Rmin_left by lra. rewrite Rmax_right by lra. reflexivity.
Qed.

Lemma no_overflow_FR (z : f64) r : fisfin z = true -> B2R z = rnd r -> Rabs (rnd r) < B ->
  fisnan z = false /\ FR z = crnd r.
Proof.
  intros Hf Hz Hr. split; [apply fin_notnan; exact Hf|]. rewrite (FR_fin z Hf), Hz. apply Rabs_lt_inv in Hr.
  unfold crnd. rewrite Rmin_right, Rmax_right by lra. reflexivity.
Qed.

Lemma Bsign_pos (x : f64) : fisfin x = true -> Bsign x = false -> 0 <= FR x.
Proof.
  intros Hf Hs. rewrite (FR_fin x Hf). destruct x as [s|s| |s m e H]; simpl in *; try lra; subst s.
  apply F2R_ge_0. simpl. lia.
Qed.
Lemma Bsign_neg (x : f64) : fisfin x = true -> Bsign x = true -> FR x <= 0.
Proof.
  intros Hf Hs. rewrite (FR_fin x Hf). destruct x as [s|s| |s m e H]; simpl in *; try lra; subst s.
  apply F2R_le_0. simpl. lia.
Qed.

Lemma fadd_fin x y : fisfin x = true -> fisfin y = true ->
  fisnan (fadd x y) = false /\ FR (fadd x y) = crnd (FR x + FR y).
Proof.
  intros Hx Hy. pose proof (Bplus_correct prec emax Hprec Hmax mode_NE x y Hx Hy) as H.
  fold (fadd x y) in H. rewrite (B2R_FR x Hx), (B2R_FR y Hy) in H. fold (rnd (FR x + FR y)) in H.
  destruct (Rlt_bool_spec (Rabs (rnd (FR x + FR y))) (bpow radix2 emax)) as [Hlt|Hge].
  - destruct H as (H1 & H2 & _). apply no_overflow_FR; assumption.
  - destruct H as (H1 & H2). eapply overflow_FR; [exact H1|exact Hge| |]; intros Hs.
    + pose proof (Bsign_pos x Hx Hs). rewrite Hs in H2. pose proof (Bsign_pos y Hy (eq_sym H2)). lra.
    + pose proof (Bsign_neg x Hx Hs). rewrite Hs in H2. pose proof (Bsign_neg y Hy (eq_sym H2)). lra.
Qed.
Lemma fsub_fin x y : fisfin x = true -> fisfin y = true ->
  fisnan (fsub x y) = false /\ FR (fsub x y) = crnd (FR x - FR y).
Proof.
  intros Hx Hy. pose proof (Bminus_correct prec emax Hprec Hmax mode_NE x y Hx Hy) as H.
  fold (fsub x y) in H. rewrite (B2R_FR x Hx), (B2R_FR y Hy) in H. fold (rnd (FR x - FR y)) in H.
  destruct (Rlt_bool_spec (Rabs (rnd (FR x - FR y))) (bpow radix2 emax)) as [Hlt|Hge].
  - destruct H as (H1 & H2 & _). apply no_overflow_FR; assumption.
  - destruct H as (H1 & H2). eapply overflow_FR; [exact H1|exact Hge| |]; intros Hs.
    + pose proof (Bsign_pos x Hx Hs). rewrite Hs in H2. assert (Bsign y = true) by (destruct (Bsign y); [reflexivity|discriminate]).
      pose proof (Bsign_neg y Hy H0). lra.
    + pose proof (Bsign_neg x Hx Hs). rewrite Hs in H2. assert (Bsign y = false) by (destruct (Bsign y); [discriminate|reflexivity]).
      pose proof (Bsign_pos y Hy H0). lra.
Qed.
Lemma fmul_fin x y : fisfin x = true -> fisfin y = true ->
  fisnan (fmul x y) = false /\ FR (fmul x y) = crnd (FR x * FR y).
Proof.
  intros Hx Hy. pose proof (Bmult_correct prec emax Hprec Hmax mode_NE x y) as H.
  fold (fmul x y) in H. rewrite (B2R_FR x Hx), (B2R_FR y Hy) in H. fold (rnd (FR x * FR y)) in H.
  destruct (Rlt_bool_spec (Rabs (rnd (FR x * FR y))) (bpow radix2 emax)) as [Hlt|Hge].
  - destruct H as (H1 & H2 & _). apply no_overflow_FR; [|assumption|assumption].
    change (is_finite (fmul x y) = true). rewrite H2. change (fisfin x && fisfin y = true)%bool. rewrite Hx, Hy. reflexivity.
  - eapply overflow_FR; [exact H|exact Hge| |]; intros Hs.
    + destruct (Bsign x) eqn:Sx, (Bsign y) eqn:Sy; simpl in Hs; try discriminate.
      * pose proof (Bsign_neg x Hx Sx). pose proof (Bsign_neg y Hy Sy). nra.
      * pose proof (Bsign_pos x Hx Sx). pose proof (Bsign_pos y Hy Sy). nra.
    + destruct (Bsign x) eqn:Sx, (Bsign y) eqn:Sy; simpl in Hs; try discriminate.
      * pose proof (Bsign_neg x Hx Sx). pose proof (Bsign_pos y Hy Sy). nra.
      * pose proof (Bsign_pos x Hx Sx). pose proof (Bsign_neg y Hy Sy). nra.
Qed.
Lemma fdiv_fin x y : fisfin x = true -> fisfin y = true -> FR y <> 0 ->
  fisnan (fdiv x y) = false /\ FR (fdiv x y) = crnd (FR x / FR y).
Proof.
  intros Hx Hy Hn. assert (Hn' : B2R y <> 0) by (rewrite (B2R_FR y Hy); exact Hn).
  pose proof (Bdiv_correct prec emax Hprec Hmax mode_NE x y Hn') as H.
  fold (fdiv x y) in H. rewrite (B2R_FR x Hx), (B2R_FR y Hy) in H. fold (rnd (FR x / FR y)) in H.
  destruct (Rlt_bool_spec (Rabs (rnd (FR x / FR y))) (bpow radix2 emax)) as [Hlt|Hge].
  - destruct H as (H1 & H2 & _). apply no_overflow_FR; [|assumption|assumption].
    change (is_finite (fdiv x y) = true). rewrite H2. exact Hx.
  - eapply overflow_FR; [exact H|exact Hge| |]; intros Hs.
    + destruct (Bsign x) eqn:Sx, (Bsign y) eqn:Sy; simpl in Hs; try discriminate.
      * pose proof (Bsign_neg x Hx Sx). pose proof (Bsign_neg y Hy Sy).
        assert (0 < / - FR y) by (apply Rinv_0_lt_compat; lra). assert (FR x / FR y = (- FR x) * / - FR y) by (field; exact Hn). rewrite H3. nra.
      * pose proof (Bsign_pos x Hx Sx). pose proof (Bsign_pos y Hy Sy).
        assert (0 < / FR y) by (apply Rinv_0_lt_compat; lra). unfold Rdiv. nra.
    + destruct (Bsign x) eqn:Sx, (Bsign y) eqn:Sy; simpl in Hs; try discriminate.
      * pose proof (Bsign_neg x Hx Sx). pose proof (Bsign_pos y Hy Sy).
        assert (0 < / FR y) by (apply Rinv_0_lt_compat; lra). unfold Rdiv. nra.
      * pose proof (Bsign_pos x Hx Sx). pose proof (Bsign_neg y Hy Sy).
        assert (0 < / - FR y) by (apply Rinv_0_lt_compat; lra). assert (FR x / FR y = - (FR x * / - FR y)) by (field; exact Hn). rewrite H3. nra.
Qed.

Lemma FR_fin_iff x : fisnan x = false -> (fisfin x = true <-> - B < FR x < B).
Proof.
  intros N. split; [apply FR_bound|]. intros H. destruct x as [s|[|]| |s m e Hb]; try reflexivity; try discriminate.
  - rewrite FR_ninf in H. unfold B in H. lra.
  - rewrite FR_pinf in H. unfold B in H. lra.
Qed.

Lemma fZ_FR z : (Z.abs z <= 2 ^ 53)%Z -> fisfin (fZ z) = true /\ FR (fZ z) = IZR z.
Proof.
  intros Hz. pose proof (binary_normalize_correct prec emax Hprec Hmax mode_NE z 0 false) as H.
  cbv zeta in H. fold (fpow z 0) in H. fold (fZ z) in H.
  assert (E : F2R (Float radix2 z 0) = IZR z) by (unfold F2R; simpl; lra).
  rewrite E in H.
  assert (G : rnd (IZR z) = IZR z).
  { apply round_generic; [apply valid_rnd_round_mode|]. rewrite <- E.
    destruct (Z.eq_dec (Z.abs z) (2 ^ 53)) as [Q|Q].
    - destruct (Z.abs_spec z) as [[_ Hs]|[_ Hs]]; rewrite E.
      + replace z with (2 ^ 53)%Z by lia. change (IZR (2 ^ 53)) with (bpow radix2 53). apply generic_format_bpow.
        unfold SpecFloat.fexp, SpecFloat.emin, emax, prec. simpl. lia.
      + replace z with (- 2 ^ 53)%Z by lia. rewrite opp_IZR. apply generic_format_opp. change (IZR (2 ^ 53)) with (bpow radix2 53).
        apply generic_format_bpow. unfold SpecFloat.fexp, SpecFloat.emin, emax, prec. simpl. lia.
    - apply generic_format_FLT. apply (FLT_spec radix2 _ _ _ (Float radix2 z 0)); [reflexivity| |]; simpl; [lia|].
      unfold SpecFloat.emin, emax, prec. lia. }
  change (round radix2 (SpecFloat.fexp prec emax) (round_mode mode_NE) (IZR z)) with (rnd (IZR z)) in H.
  rewrite G in H. destruct (Rlt_bool_spec (Rabs (IZR z)) (bpow radix2 emax)) as [Hlt|Hge].
  - destruct H as (H1 & H2 & _). split; [exact H2|]. rewrite (FR_fin _ H2). exact H1.
  - exfalso. assert (Rabs (IZR z) <= bpow radix2 53).
    { rewrite <- abs_IZR. change (bpow radix2 53) with (IZR (2 ^ 53)). apply IZR_le. exact Hz. }
    assert (bpow radix2 53 < bpow radix2 emax) by (apply bpow_lt; reflexivity). lra.
Qed.
Lemma fZ_0 : FR (fZ 0) = 0. Proof. reflexivity. Qed.

(** Multiplying by one is the identity. *)
Lemma fmul_1_fin x : is_finite x = true -> fmul (fZ 1) x = x.
Proof.
  intros Hx. destruct (fZ_FR 1) as [F1 R1]; [vm_compute; discriminate|].
  pose proof (Bmult_correct prec emax Hprec Hmax mode_NE (fZ 1) x) as H. fold (fmul (fZ 1) x) in H.
  rewrite (B2R_FR _ F1), R1, (B2R_FR x Hx) in H. rewrite Rmult_1_l in H.
  change (round radix2 (SpecFloat.fexp prec emax) (round_mode mode_NE) (FR x)) with (rnd (FR x)) in H.
  rewrite (rnd_FR x (fin_notnan x Hx)) in H.
  rewrite Rlt_bool_true in H.
  2: { rewrite (FR_fin x Hx). apply abs_B2R_lt_emax. }
  destruct H as (H1 & H2 & H3). rewrite Hx in H2. change (is_finite (fZ 1)) with true in H2. simpl in H2.
  apply B2R_Bsign_inj; auto.
  - rewrite H1. apply FR_fin; exact Hx.
  - rewrite H3; [|exact (fin_notnan _ H2)]. change (Bsign (fZ 1)) with false. destruct (Bsign x); reflexivity.
Qed.
Lemma fmul_1 x : fmul (fZ 1) x = x.
Proof.
  destruct (is_finite x) eqn:E; [apply fmul_1_fin; exact E|].
  destruct x as [s|[|]| |s m e Hb]; try discriminate; reflexivity.
Qed.

(** Non-negative numbers (infinity allowed). *)
Lemma fadd_nonneg x y : fle (fZ 0) x = true -> fle (fZ 0) y = true -> fle (fZ 0) (fadd x y) = true.
Proof.
  intros Hx Hy. destruct (fle_true_nan _ _ Hx) as [_ Nx], (fle_true_nan _ _ Hy) as [_ Ny].
  apply fle_FR in Hx; auto. apply fle_FR in Hy; auto. rewrite fZ_0 in Hx, Hy.
  destruct (fisfin x) eqn:Fx; [destruct (fisfin y) eqn:Fy|].
  - destruct (fadd_fin x y Fx Fy) as [N R]. apply fle_FR; auto. rewrite fZ_0, R. rewrite <- crnd_0. apply crnd_mono. lra.
  - destruct y as [s|[|]| |s m e Hb]; try discriminate; [rewrite FR_ninf in Hy; pose proof B_pos; unfold B in *; lra|].
    destruct x; try discriminate; reflexivity.
  - destruct x as [s|[|]| |s m e Hb]; try discriminate; [rewrite FR_ninf in Hx; pose proof B_pos; unfold B in *; lra|].
    destruct y as [s|[|]| |s m e Hb]; try discriminate; [reflexivity| |reflexivity|reflexivity].
    rewrite FR_ninf in Hy; pose proof B_pos; unfold B in *; lra.
Qed.
Lemma fmul_nonneg x y : fisfin x = true -> fisfin y = true -> fle (fZ 0) x = true -> fle (fZ 0) y = true ->
  fle (fZ 0) (fmul x y) = true.
Proof.
  intros Fx Fy Hx Hy. apply fle_FR in Hx; [|reflexivity|apply fin_notnan; exact Fx].
  apply fle_FR in Hy; [|reflexivity|apply fin_notnan; exact Fy]. rewrite fZ_0 in Hx, Hy.
  destruct (fmul_fin x y Fx Fy) as [N R]. apply fle_FR; auto. rewrite fZ_0, R, <- crnd_0. apply crnd_mono. nra.
Qed.
Lemma FR_abs x : FR (fabs x) = Rabs (FR x).
Proof.
  destruct x as [s|[|]| |s m e Hb].
  - simpl. rewrite Rabs_R0; reflexivity.
  - change (fabs (B754_infinity true)) with (B754_infinity false : f64). rewrite FR_pinf, FR_ninf, Rabs_Ropp, Rabs_pos_eq; [reflexivity|apply bpow_ge_0].
  - change (fabs (B754_infinity false)) with (B754_infinity false : f64). rewrite FR_pinf, Rabs_pos_eq; [reflexivity|apply bpow_ge_0].
  - simpl. rewrite Rabs_R0; reflexivity.
  - simpl. rewrite <- F2R_Zabs. destruct s; reflexivity.
Qed.
Lemma fisnan_abs x : fisnan (fabs x) = fisnan x. Proof. destruct x; reflexivity. Qed.
Lemma fisfin_abs x : fisfin (fabs x) = fisfin x. Proof. destruct x; reflexivity. Qed.
