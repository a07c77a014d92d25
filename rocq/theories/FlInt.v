(** Integers and dyadic numbers among the binary64 numbers: truncation, floor, ceiling, the constant 1e-4. *)
From Coq Require Import Reals Lra.
From Flocq Require Import Core BinarySingleNaN.
From Verif Require Import Prelude Fl FlArith MCore MValid MSpace.
Local Open Scope R_scope.

Lemma rnd_dyadic m e : (Z.abs m < 2 ^ 53)%Z -> (-1074 <= e)%Z -> rnd (IZR m * bpow radix2 e) = IZR m * bpow radix2 e.
Proof.
  intros Hm He. apply round_generic; [apply valid_rnd_round_mode|]. apply generic_format_FLT.
  apply (FLT_spec radix2 _ _ _ (Float radix2 m e)); [reflexivity|exact Hm|exact He].
Qed.
Lemma bpow_le_B e : (e <= 900)%Z -> bpow radix2 e <= bpow radix2 900.
Proof. intros. apply bpow_le. exact H. Qed.
Lemma crnd_dyadic m e : (Z.abs m < 2 ^ 53)%Z -> (-1074 <= e <= 900)%Z -> crnd (IZR m * bpow radix2 e) = IZR m * bpow radix2 e.
Proof.
  intros Hm He. apply crnd_id; [apply rnd_dyadic; lia|]. apply Rabs_le_inv. rewrite Rabs_mult.
  rewrite (Rabs_pos_eq (bpow radix2 e)) by apply bpow_ge_0. rewrite <- abs_IZR.
  assert (H1 : IZR (Z.abs m) <= bpow radix2 53). { change (bpow radix2 53) with (IZR (2 ^ 53)). apply IZR_le. lia. }
  assert (H2 : bpow radix2 e <= bpow radix2 900) by (apply bpow_le; lia).
  apply Rle_trans with (bpow radix2 53 * bpow radix2 900).
  - apply Rmult_le_compat; auto; [apply IZR_le; lia|apply bpow_ge_0].
  - rewrite <- bpow_plus. unfold B. apply bpow_le. vm_compute. discriminate.
Qed.
Lemma fpow_FR m e : (Z.abs m < 2 ^ 53)%Z -> (-1074 <= e <= 900)%Z ->
  fisfin (fpow m e) = true /\ FR (fpow m e) = IZR m * bpow radix2 e.
Proof.
  intros Hm He. pose proof (binary_normalize_correct prec emax Hprec Hmax mode_NE m e false) as H.
  cbv zeta in H. fold (fpow m e) in H. change (F2R (Float radix2 m e)) with (IZR m * bpow radix2 e) in H.
  change (round radix2 (SpecFloat.fexp prec emax) (round_mode mode_NE) (IZR m * bpow radix2 e)) with (rnd (IZR m * bpow radix2 e)) in H.
  rewrite (rnd_dyadic m e Hm) in H by lia.
  assert (Hlt : Rabs (IZR m * bpow radix2 e) < bpow radix2 emax).
  { rewrite Rabs_mult, (Rabs_pos_eq (bpow radix2 e)) by apply bpow_ge_0. rewrite <- abs_IZR.
    apply Rle_lt_trans with (bpow radix2 53 * bpow radix2 900).
    - apply Rmult_le_compat; [apply IZR_le; lia|apply bpow_ge_0| |apply bpow_le; lia].
      change (bpow radix2 53) with (IZR (2 ^ 53)). apply IZR_le. lia.
    - rewrite <- bpow_plus. apply bpow_lt. reflexivity. }
  rewrite (Rlt_bool_true _ _ Hlt) in H. destruct H as (H1 & H2 & _). split; [exact H2|]. rewrite (FR_fin _ H2). exact H1.
Qed.

Lemma ceps_FR : fisfin ceps = true /\ FR ceps = IZR 7378697629483821 * bpow radix2 (-66).
Proof. apply fpow_FR; [reflexivity|split; discriminate]. Qed.
Lemma chalf_FR : fisfin chalf = true /\ FR chalf = / 2.
Proof.
  destruct (fpow_FR 1 (-1)) as [H1 H2]; [reflexivity|split; discriminate|]. split; [exact H1|].
  unfold chalf. rewrite H2. simpl. lra.
Qed.
Lemma bpow_m14 : bpow radix2 (-14) = / 16384. Proof. reflexivity. Qed.
Lemma ceps_bounds : / 16384 < FR ceps < / 8192.
Proof.
  rewrite (proj2 ceps_FR). change (bpow radix2 (-66)) with (/ IZR (2 ^ 66)).
  set (q := IZR (2 ^ 66)). assert (Hq : q = IZR 73786976294838206464) by reflexivity. rewrite Hq.
  split; [apply Rmult_lt_reg_r with (IZR 73786976294838206464)|apply Rmult_lt_reg_r with (IZR 73786976294838206464)]; try lra.
Qed.

Lemma ftrunc_spec x : fisfin x = true -> ftrunc x = Ztrunc (FR x).
Proof.
  intros F. apply eq_IZR. unfold ftrunc. rewrite (Btrunc_correct prec emax Hmax), round_FIX_IZR, (B2R_FR x F). reflexivity.
Qed.
Lemma ffloor_spec x : fisfin x = true -> fisfin (ffloor x) = true /\ FR (ffloor x) = IZR (Zfloor (FR x)).
Proof.
  intros F. destruct (Bnearbyint_correct prec emax Hmax mode_DN x) as (H1 & H2 & _).
  assert (F' : fisfin (ffloor x) = true) by (unfold fisfin, ffloor; rewrite H2; exact F).
  split; [exact F'|]. rewrite <- (B2R_FR _ F'). unfold ffloor. rewrite H1, round_FIX_IZR, (B2R_FR x F). reflexivity.
Qed.
Lemma fceil_spec x : fisfin x = true -> fisfin (fceil x) = true /\ FR (fceil x) = IZR (Zceil (FR x)).
Proof.
  intros F. destruct (Bnearbyint_correct prec emax Hmax mode_UP x) as (H1 & H2 & _).
  assert (F' : fisfin (fceil x) = true) by (unfold fisfin, fceil; rewrite H2; exact F).
  split; [exact F'|]. rewrite <- (B2R_FR _ F'). unfold fceil. rewrite H1, round_FIX_IZR, (B2R_FR x F). reflexivity.
Qed.
Lemma Ztrunc_range r lo hi : (0 <= lo)%Z -> IZR lo <= r < IZR hi -> (lo <= Ztrunc r < hi)%Z.
Proof.
  intros H0 [H1 H2]. assert (0 <= r) by (apply Rle_trans with (IZR lo); [apply IZR_le; exact H0|exact H1]).
  rewrite Ztrunc_floor by assumption. split.
  - apply Zfloor_lub. exact H1.
  - apply lt_IZR. apply Rle_lt_trans with r; [apply Zfloor_lb|exact H2].
Qed.
(** A finite float with real value between the values of finite floats. *)
Lemma fin_between x lo hi : fisnan x = false -> - B < lo -> hi < B -> lo <= FR x <= hi -> fisfin x = true.
Proof. intros N H1 H2 H. apply FR_fin_iff; [exact N|lra]. Qed.
Lemma B_big : IZR (2 ^ 100) < B.
Proof. unfold B. change (IZR (2 ^ 100)) with (bpow radix2 100). apply bpow_lt. reflexivity. Qed.

(** [n - 1e-4], the upper bound of a choice among n values. *)
Lemma set_ub_FR n : (1 <= n)%nat -> (Z.of_nat n <= 2 ^ 31)%Z ->
  fisfin (set_ub n) = true /\ IZR (Z.of_nat n - 1) <= FR (set_ub n) <= IZR (Z.of_nat n) - / 16384.
Proof.
  intros H1 H2. set (z := Z.of_nat n) in *. destruct (fZ_FR z) as [F1 R1]; [lia|]. destruct ceps_FR as [F2 _].
  destruct (fsub_fin (fZ z) ceps F1 F2) as [N R]. change (fsub (fZ z) ceps) with (set_ub n) in N, R. rewrite R1 in R.
  pose proof ceps_bounds as CB.
  assert (B1 : IZR (z - 1) <= FR (set_ub n)).
  { rewrite R. rewrite <- (Rmult_1_r (IZR (z - 1))). change 1 with (bpow radix2 0). rewrite <- (crnd_dyadic (z - 1) 0); [|lia|lia].
    apply crnd_mono. change (bpow radix2 0) with 1. rewrite minus_IZR. lra. }
  assert (B2 : FR (set_ub n) <= IZR z - / 16384).
  { rewrite R. replace (IZR z - / 16384) with (IZR (z * 16384 - 1) * bpow radix2 (-14)).
    - rewrite <- (crnd_dyadic (z * 16384 - 1) (-14)) by lia. apply crnd_mono.
      rewrite bpow_m14, minus_IZR, mult_IZR. lra.
    - rewrite bpow_m14, minus_IZR, mult_IZR. lra. }
  split; [|split; assumption]. pose proof B_big. assert (IZR z <= IZR (2 ^ 31)) by (apply IZR_le; exact H2).
  assert (0 <= IZR (z - 1)) by (apply IZR_le; lia). assert (IZR (2 ^ 31) < IZR (2 ^ 100)) by (apply IZR_lt; reflexivity).
  apply fin_between with (lo := 0) (hi := IZR z); auto; try lra.
Qed.

(** A value in [0, n - 1e-4] is truncated to one of 0..n-1. *)
Lemma cast64_range y n : fisnan y = false -> (Z.of_nat n <= 2 ^ 31)%Z -> 0 <= FR y < IZR (Z.of_nat n) ->
  (0 <= cast64 y < Z.of_nat n)%Z.
Proof.
  intros N Hn [H1 H2]. pose proof B_big. assert (IZR (Z.of_nat n) <= IZR (2 ^ 31)) by (apply IZR_le; exact Hn).
  assert (IZR (2 ^ 31) < IZR (2 ^ 100)) by (apply IZR_lt; reflexivity).
  assert (F : fisfin y = true) by (apply fin_between with (lo := 0) (hi := FR y); auto; lra).
  assert (T : (0 <= ftrunc y < Z.of_nat n)%Z) by (rewrite (ftrunc_spec _ F); apply Ztrunc_range; [lia|split; assumption]).
  unfold cast64. rewrite F. replace ((- 2 ^ 63 <=? ftrunc y)%Z) with true by (symmetry; apply Z.leb_le; lia).
  replace ((ftrunc y <? 2 ^ 63)%Z) with true by (symmetry; apply Z.ltb_lt; lia). exact T.
Qed.
Lemma cast64_Z z : (Z.abs z <= 2 ^ 53)%Z -> cast64 (fZ z) = z.
Proof.
  intros H. destruct (fZ_FR z H) as [F R]. unfold cast64. rewrite F, (ftrunc_spec _ F), R, Ztrunc_IZR.
  replace ((- 2 ^ 63 <=? z)%Z) with true by (symmetry; apply Z.leb_le; lia).
  replace ((z <? 2 ^ 63)%Z) with true by (symmetry; apply Z.ltb_lt; lia). reflexivity.
Qed.
Lemma fZ_fin z : (Z.abs z <= 2 ^ 53)%Z -> fisfin (fZ z) = true. Proof. intros H. apply (fZ_FR z H). Qed.
Lemma fZ_notnan z : (Z.abs z <= 2 ^ 53)%Z -> fisnan (fZ z) = false. Proof. intros H. apply fin_notnan, fZ_fin, H. Qed.
Lemma fZ_le a b : (Z.abs a <= 2 ^ 53)%Z -> (Z.abs b <= 2 ^ 53)%Z -> (fle (fZ a) (fZ b) = true <-> (a <= b)%Z).
Proof.
  intros Ha Hb. rewrite fle_FR by (apply fZ_notnan; assumption). rewrite (proj2 (fZ_FR a Ha)), (proj2 (fZ_FR b Hb)).
  split; [apply le_IZR|apply IZR_le].
Qed.
