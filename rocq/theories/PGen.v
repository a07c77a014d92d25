(** Rounding facts behind the generation of random values. *)
From Coq Require Import Reals Lra.
From Flocq Require Import Core BinarySingleNaN.
From Verif Require Import Prelude Fl FlArith MCore MValid MSpace SpecCore FlInt PSpace.
Open Scope R_scope.

Notation fx := (FLT_exp (-1074) 53).
Lemma rnd_FLT x : rnd x = round radix2 fx (Znearest (fun z => negb (Z.even z))) x.
Proof. reflexivity. Qed.
#[local] Instance fx_valid : Valid_exp fx. Proof. apply FLT_exp_valid. reflexivity. Qed.
#[local] Instance fx_mono : Monotone_exp fx. Proof. apply FLT_exp_monotone. Qed.
Lemma FR_format x : fisfin x = true -> generic_format radix2 fx (FR x).
Proof.
  intros F. rewrite <- (rnd_FR x (fin_notnan x F)), rnd_FLT. apply generic_format_round; [apply fx_valid|apply valid_rnd_N].
Qed.
Lemma pred_round_le x : pred radix2 fx (rnd x) <= x.
Proof.
  rewrite rnd_FLT. destruct (Rle_or_lt (round radix2 fx (Znearest (fun z => negb (Z.even z))) x) x) as [H|H].
  - eapply Rle_trans; [apply pred_le_id|exact H].
  - destruct (round_DN_or_UP radix2 fx (Znearest (fun z => negb (Z.even z))) x) as [E|E]; rewrite E in *.
    + pose proof (round_DN_pt radix2 fx x) as (_ & L & _). lra.
    + eapply Rle_trans; [apply pred_UP_le_DN; apply fx_valid|]. apply (round_DN_pt radix2 fx x).
Qed.
(** The difference of two floats is exact in the subnormal range. *)
Lemma diff_small x y : generic_format radix2 fx x -> generic_format radix2 fx y -> Rabs (x - y) <= bpow radix2 (-1021) -> rnd (x - y) = x - y.
Proof.
  intros Hx Hy H. rewrite rnd_FLT. apply round_generic; [apply valid_rnd_N|]. apply generic_format_FLT_FIX; [reflexivity|exact H|].
  apply generic_format_FIX_FLT in Hx, Hy. apply FIX_format_generic in Hx, Hy.
  destruct Hx as [[mx ex] Ex Ex']. destruct Hy as [[my ey] Ey Ey']. simpl in Ex', Ey'. subst ex ey. apply generic_format_FIX.
  exists (Float radix2 (mx - my) (-1074)); [|reflexivity]. rewrite Ex, Ey. unfold F2R. simpl Fnum. simpl Fexp. rewrite minus_IZR. ring.
Qed.
(** Scaling a float by a factor of at most 1 - 2^-53 rounds to its predecessor or below. *)
Lemma shrink_pred D t : generic_format radix2 fx D -> bpow radix2 (-1021) <= D -> 0 <= t <= 1 - bpow radix2 (-53) ->
  rnd (D * t) <= pred radix2 fx D.
Proof.
  intros HD HD0 Ht. assert (0 < D) by (pose proof (bpow_gt_0 radix2 (-1021)); lra).
  set (x := D * (1 - bpow radix2 (-53))). assert (Hx : rnd (D * t) <= rnd x) by (apply rnd_mono; unfold x; apply Rmult_le_compat_l; lra).
  eapply Rle_trans; [exact Hx|]. clear Hx.
  destruct (mag radix2 D) as [ex Hex] eqn:Em. assert (Hb := Hex ltac:(lra)). rewrite Rabs_pos_eq in Hb by lra.
  assert (Hmag : mag radix2 D = ex :> Z) by (rewrite Em; reflexivity).
  assert (Hex1 : (-1020 <= ex)%Z).
  { destruct (Z.le_gt_cases (-1020) ex); [assumption|]. exfalso. assert (bpow radix2 ex <= bpow radix2 (-1021)) by (apply bpow_le; lia). lra. }
  rewrite pred_eq_pos by lra. unfold pred_pos. rewrite Hmag.
  destruct (Req_bool_spec D (bpow radix2 (ex - 1))) as [ED|ND].
  - replace (fx (ex - 1))%Z with (ex - 54)%Z by (unfold FLT_exp; lia).
    assert (Hxe : x = D - bpow radix2 (ex - 54)).
    { unfold x. rewrite ED. rewrite Rmult_minus_distr_l, Rmult_1_r, <- bpow_plus. do 2 f_equal. lia. }
    rewrite Hxe. rewrite rnd_FLT. apply Req_le. apply round_generic; [apply valid_rnd_N|].
    pose proof (generic_format_pred radix2 fx D HD) as G. rewrite pred_eq_pos in G by lra. unfold pred_pos in G. rewrite Hmag in G.
    rewrite Req_bool_true in G by exact ED. replace (fx (ex - 1))%Z with (ex - 54)%Z in G by (unfold FLT_exp; lia). exact G.
  - assert (Hp : pred radix2 fx D = D - ulp radix2 fx D).
    { rewrite pred_eq_pos by lra. unfold pred_pos. rewrite Hmag, Req_bool_false by exact ND. reflexivity. }
    rewrite <- Hp. rewrite rnd_FLT. apply round_N_le_midp; [apply fx_valid|apply generic_format_pred; [apply fx_valid|exact HD]|].
    rewrite succ_pred by (apply fx_valid || exact HD). rewrite Hp. rewrite ulp_neq_0 by lra. unfold cexp. rewrite Hmag.
    replace (fx ex)%Z with (ex - 53)%Z by (unfold FLT_exp; lia). unfold x.
    assert (bpow radix2 (ex - 1) < D) by lra.
    assert (bpow radix2 (ex - 1) * bpow radix2 (-53) < D * bpow radix2 (-53)) by (apply Rmult_lt_compat_r; [apply bpow_gt_0|lra]).
    rewrite <- bpow_plus in H1. replace (ex - 1 + -53)%Z with (ex - 53 - 1)%Z in H1 by lia.
    assert (bpow radix2 (ex - 53) = 2 * bpow radix2 (ex - 53 - 1)) by (replace (ex - 53)%Z with (1 + (ex - 53 - 1))%Z at 1 by lia; rewrite bpow_plus; reflexivity).
    lra.
Qed.

(** A uniform draw of NumPy: a multiple of 2^-53 in [0, 1). *)
Definition unit_draw (t : f64) : Prop := fisfin t = true /\ 0 <= FR t <= 1 - bpow radix2 (-53).
(** [l + (u - l) * t] stays in [l, u]. *)
Lemma uniform_in_range l u t : fle l u = true -> fisfin l = true -> fisfin u = true -> fisfin (fsub u l) = true -> unit_draw t ->
  let y := fadd l (fmul (fsub u l) t) in fle l y = true /\ fle y u = true.
Proof.
  intros O Fl Fu Fd [Ft Rt] y. pose proof (fin_notnan _ Fl) as Nl. pose proof (fin_notnan _ Fu) as Nu.
  apply fle_FR in O; [|exact Nl|exact Nu]. pose proof (bpow_gt_0 radix2 (-53)) as P53.
  destruct (fsub_fin u l Fu Fl) as [Nd Rd]. set (D := FR (fsub u l)) in *.
  assert (D0 : 0 <= D) by (rewrite Rd, <- crnd_0; apply crnd_mono; lra).
  assert (DB : - B < D < B) by (apply FR_fin_iff; [exact Nd|exact Fd]).
  assert (RD : D = rnd (FR u - FR l)).
  { rewrite Rd in DB |- *. unfold crnd in *. destruct (Rle_or_lt B (rnd (FR u - FR l))) as [H|H].
    - rewrite (Rmin_left _ _ H) in DB. rewrite Rmax_right in DB by (pose proof B_pos; lra). lra.
    - rewrite Rmin_right by lra. apply Rmax_right. rewrite Rmin_right in DB by lra.
      destruct (Rle_or_lt (- B) (rnd (FR u - FR l))); [assumption|]. rewrite Rmax_left in DB by lra. lra. }
  assert (HcD : crnd D = D) by (apply crnd_FR; exact Nd). assert (HrD : rnd D = D) by (apply rnd_FR; exact Nd).
  destruct (fmul_fin _ _ Fd Ft) as [Nm Rm]. fold D in Rm. set (W := FR (fmul (fsub u l) t)) in *.
  assert (Pt : 0 <= D * FR t) by (apply Rmult_le_pos; lra).
  assert (Pt' : D * FR t <= D) by (rewrite <- (Rmult_1_r D) at 2; apply Rmult_le_compat_l; lra).
  assert (W0 : 0 <= W <= D).
  { rewrite Rm. split; [rewrite <- crnd_0; apply crnd_mono; exact Pt|]. rewrite <- HcD at 2. apply crnd_mono. exact Pt'. }
  assert (Fm : fisfin (fmul (fsub u l) t) = true) by (apply FR_fin_iff; [exact Nm|]; fold W; lra).
  assert (WR : W = rnd (D * FR t)).
  { rewrite Rm in W0 |- *. assert (0 <= rnd (D * FR t)) by (rewrite <- rnd_0; apply rnd_mono; exact Pt).
    assert (rnd (D * FR t) <= D) by (rewrite <- HrD at 2; apply rnd_mono; exact Pt').
    unfold crnd. rewrite Rmin_right by lra. apply Rmax_right. lra. }
  assert (Key : FR l + W <= FR u).
  { destruct (Rle_or_lt D (FR u - FR l)) as [H|H]; [lra|].
    assert (W <= FR u - FR l); [|lra]. rewrite WR.
    apply Rle_trans with (pred radix2 fx D); [|rewrite RD; apply pred_round_le].
    apply shrink_pred; [apply FR_format; exact Fd| |exact Rt].
    destruct (Rle_or_lt (FR u - FR l) (bpow radix2 (-1021))) as [S|S].
    - exfalso. rewrite RD in H. rewrite diff_small in H; [lra|apply FR_format; exact Fu|apply FR_format; exact Fl|].
      rewrite Rabs_pos_eq by lra. exact S.
    - lra. }
  destruct (fadd_fin _ _ Fl Fm) as [Ny Ry]. fold W y in Ry. fold y in Ny. split.
  - apply fle_FR; [exact Nl|exact Ny|]. rewrite Ry. rewrite <- (crnd_FR l Nl) at 1. apply crnd_mono. lra.
  - apply fle_FR; [exact Ny|exact Nu|]. rewrite Ry. rewrite <- (crnd_FR u Nu). apply crnd_mono. exact Key.
Qed.

(** * Integers *)
(** Nearest multiple of 2^(k-52) to a number of the binade [2^k, 2^(k+1)). *)
Lemma rnd_binade k x n : (-1000 <= k <= 900)%Z -> bpow radix2 k <= x < bpow radix2 (k + 1) ->
  Rabs (x - IZR n * bpow radix2 (k - 52)) < bpow radix2 (k - 53) -> rnd x = IZR n * bpow radix2 (k - 52).
Proof.
  intros Hk Hx H. rewrite rnd_FLT. unfold round, F2R. simpl Fnum. simpl Fexp.
  assert (Hm : mag radix2 x = (k + 1)%Z :> Z).
  { apply mag_unique_pos. replace (k + 1 - 1)%Z with k by lia. exact Hx. }
  unfold scaled_mantissa, cexp. rewrite Hm. replace (fx (k + 1))%Z with (k - 52)%Z by (unfold FLT_exp; lia). f_equal. f_equal.
  apply Znearest_imp. set (u := bpow radix2 (k - 52)) in *.
  assert (Hu : bpow radix2 (- (k - 52)) * u = 1) by (unfold u; rewrite <- bpow_plus; replace (- (k - 52) + (k - 52))%Z with 0%Z by lia; reflexivity).
  assert (Hv : bpow radix2 (- (k - 52)) * bpow radix2 (k - 53) = / 2).
  { rewrite <- bpow_plus. replace (- (k - 52) + (k - 53))%Z with (-1)%Z by lia. reflexivity. }
  pose proof (bpow_gt_0 radix2 (- (k - 52))) as P. set (w := bpow radix2 (- (k - 52))) in *.
  replace (x * w - IZR n) with ((x - IZR n * u) * w).
  - rewrite Rabs_mult, (Rabs_pos_eq w) by lra. rewrite <- Hv. rewrite Rmult_comm. apply Rmult_lt_compat_l; assumption.
  - rewrite Rmult_minus_distr_r, Rmult_assoc, (Rmult_comm u w), Hu. ring.
Qed.

Lemma bpZ k : (0 <= k)%Z -> bpow radix2 k = IZR (2 ^ k).
Proof. intros. symmetry. apply (IZR_Zpower radix2 k). assumption. Qed.
(** The integer nearest to m * 2^-66 in units of 2^(k-52), with the distance below half a unit. *)
Definition units (m k : Z) : Z := ((2 * m + 2 ^ (k + 14)) / 2 ^ (k + 15))%Z.
Definition near (m k n : Z) : bool := (Z.abs (n * 2 ^ (k + 14) - m) <? 2 ^ (k + 13))%Z.
Lemma near_R m k n : (0 <= k)%Z -> near m k n = true ->
  Rabs (IZR n * bpow radix2 (k - 52) - IZR m * bpow radix2 (-66)) < bpow radix2 (k - 53).
Proof.
  intros Hk H. apply Z.ltb_lt in H. replace (k - 52)%Z with ((k + 14) + (-66))%Z by lia. replace (k - 53)%Z with ((k + 13) + (-66))%Z by lia.
  rewrite (bpow_plus _ (k + 14)), (bpow_plus _ (k + 13)). rewrite <- (IZR_Zpower radix2 (k + 14)), <- (IZR_Zpower radix2 (k + 13)) by lia. change (radix_val radix2) with 2%Z.
  replace (IZR n * (IZR (2 ^ (k + 14)) * bpow radix2 (-66)) - IZR m * bpow radix2 (-66)) with (IZR (n * 2 ^ (k + 14) - m) * bpow radix2 (-66))
    by (rewrite minus_IZR, mult_IZR; ring).
  rewrite Rabs_mult, (Rabs_pos_eq (bpow radix2 (-66))) by apply bpow_ge_0.
  rewrite <- abs_IZR. apply Rmult_lt_compat_r; [apply bpow_gt_0|]. apply IZR_lt. exact H.
Qed.
Definition eps_m : Z := 7378697629483821.
(** [b + 1] as the sum computed for the exclusive end: ub + 0.5 + 1e-4, where ub is the float next to b + 0.5 - c. *)
Lemma high_ge b k m (ub : f64) : (0 <= k <= 38)%Z -> (2 ^ k <= b < 2 ^ (k + 1))%Z -> (2 * m < 2 ^ 66)%Z -> (0 <= m)%Z ->
  near m k (units m k) = true -> near eps_m k (units m k) = true -> (units m k < 2 ^ (50 - k))%Z -> (0 <= units m k)%Z ->
  fisfin ub = true -> FR ub = crnd (IZR b + / 2 - IZR m * bpow radix2 (-66)) ->
  IZR b + 1 <= FR (fadd (fadd ub chalf) ceps).
Proof.
  intros Hk Hb Hm Hm0 N1 N2 Hu1 Hu0 Fub Rub. set (n := units m k) in *. set (u := bpow radix2 (k - 52)).
  apply near_R in N1, N2; try lia. fold u in N1, N2.
  assert (Ku : bpow radix2 k = IZR (2 ^ 52) * u) by (unfold u; change (IZR (2 ^ 52)) with (bpow radix2 52); rewrite <- bpow_plus; f_equal; lia).
  assert (Bk : bpow radix2 k = IZR (2 ^ k)) by (apply bpZ; lia).
  assert (Bk1 : bpow radix2 (k + 1) = IZR (2 ^ (k + 1))) by (apply bpZ; lia).
  assert (U1 : IZR (2 ^ (52 - k)) * u = 1).
  { unfold u. rewrite <- bpZ by lia. rewrite <- bpow_plus. replace (52 - k + (k - 52))%Z with 0%Z by lia. reflexivity. }
  assert (U2 : IZR (2 ^ (51 - k)) * u = / 2).
  { unfold u. rewrite <- bpZ by lia. rewrite <- bpow_plus. replace (51 - k + (k - 52))%Z with (-1)%Z by lia. reflexivity. }
  assert (U3 : IZR (2 ^ (50 - k)) * u = / 4).
  { unfold u. rewrite <- bpZ by lia. rewrite <- bpow_plus. replace (50 - k + (k - 52))%Z with (-2)%Z by lia. reflexivity. }
  assert (Upos : 0 < u) by apply bpow_gt_0.
  assert (NU : 0 <= IZR n * u < / 4).
  { split; [apply Rmult_le_pos; [apply IZR_le; exact Hu0|lra]|]. rewrite <- U3. apply Rmult_lt_compat_r; [exact Upos|apply IZR_lt; exact Hu1]. }
  assert (HbR : IZR (2 ^ k) <= IZR b /\ IZR b + 1 <= IZR (2 ^ (k + 1))) by (split; [apply IZR_le; lia|rewrite <- plus_IZR; apply IZR_le; lia]).
  assert (P53 : bpow radix2 (k - 53) = u / 2) by (unfold u; replace (k - 52)%Z with (1 + (k - 53))%Z by lia; rewrite bpow_plus; simpl; lra).
  assert (Usm : u <= / 4) by (rewrite <- U3; rewrite <- (Rmult_1_l u) at 1; apply Rmult_le_compat_r; [lra|]; apply IZR_le; assert (0 < 2 ^ (50 - k))%Z by (apply Z.pow_pos_nonneg; lia); lia).
  set (c := IZR m * bpow radix2 (-66)) in *.
  assert (Cb : Rabs (IZR n * u - c) < u / 2) by (rewrite <- P53; exact N1). apply Rabs_def2 in Cb.
  (* the stored upper bound *)
  assert (E1 : rnd (IZR b + / 2 - c) = IZR b + / 2 - IZR n * u).
  { rewrite (rnd_binade k _ (b * 2 ^ (52 - k) + 2 ^ (51 - k) - n)).
    - rewrite minus_IZR, plus_IZR, mult_IZR. fold u. rewrite Rmult_minus_distr_r, Rmult_plus_distr_r, Rmult_assoc, U1, U2. ring.
    - lia.
    - rewrite Bk, Bk1. lra.
    - rewrite minus_IZR, plus_IZR, mult_IZR. fold u. rewrite Rmult_minus_distr_r, Rmult_plus_distr_r, Rmult_assoc, U1, U2.
      rewrite P53. apply Rabs_def1; lra. }
  assert (Big : IZR (2 ^ (k + 1)) + 2 < B).
  { pose proof B_big. assert (IZR (2 ^ (k + 1)) <= IZR (2 ^ 39)) by (apply IZR_le, Z.pow_le_mono_r; lia).
    assert (IZR (2 ^ 39) + 2 <= IZR (2 ^ 100)) by (rewrite <- plus_IZR; apply IZR_le; lia). lra. }
  assert (Kpos : 0 < IZR (2 ^ k)) by (apply IZR_lt, Z.pow_pos_nonneg; lia).
  assert (E2 : FR ub = IZR b + / 2 - IZR n * u).
  { rewrite Rub. unfold crnd. rewrite E1. rewrite Rmin_right, Rmax_right by lra. reflexivity. }
  destruct chalf_FR as [Fh Rh]. destruct (fadd_fin _ _ Fub Fh) as [Nh1 Eh1]. rewrite E2, Rh in Eh1.
  assert (E3 : FR (fadd ub chalf) = IZR b + 1 - IZR n * u).
  { rewrite Eh1. replace (IZR b + / 2 - IZR n * u + / 2) with (IZR (b * 2 ^ (52 - k) + 2 ^ (52 - k) - n) * bpow radix2 (k - 52)).
    - rewrite crnd_dyadic.
      + rewrite minus_IZR, plus_IZR, mult_IZR. fold u. rewrite Rmult_minus_distr_r, Rmult_plus_distr_r, Rmult_assoc, U1. ring.
      + assert (b * 2 ^ (52 - k) + 2 ^ (52 - k) <= 2 ^ (k + 1) * 2 ^ (52 - k))%Z.
        { rewrite <- (Z.mul_1_l (2 ^ (52 - k))) at 2. rewrite <- Z.mul_add_distr_r. apply Z.mul_le_mono_nonneg_r; [apply Z.pow_nonneg; lia|lia]. }
        rewrite <- Z.pow_add_r in H by lia. replace (k + 1 + (52 - k))%Z with 53%Z in H by lia.
        assert (2 ^ k * 2 ^ (52 - k) <= b * 2 ^ (52 - k))%Z by (apply Z.mul_le_mono_nonneg_r; [apply Z.pow_nonneg; lia|lia]).
        rewrite <- Z.pow_add_r in H0 by lia. replace (k + (52 - k))%Z with 52%Z in H0 by lia.
        assert (2 ^ (50 - k) <= 2 ^ 50)%Z by (apply Z.pow_le_mono_r; lia). assert (0 < 2 ^ (52 - k))%Z by (apply Z.pow_pos_nonneg; lia).
        destruct (Z.eq_dec n 0) as [En|]; [|lia].
        (* n = 0 would put the bound at b + 0.5 itself *)
        exfalso. rewrite En in N2. apply Rabs_def2 in N2. rewrite P53 in N2. pose proof ceps_bounds as CB. rewrite (proj2 ceps_FR) in CB. fold eps_m in CB.
        assert (u <= / 16384). { unfold u. rewrite <- bpow_m14. apply bpow_le. lia. } lra.
      + lia.
    - rewrite minus_IZR, plus_IZR, mult_IZR. fold u. rewrite Rmult_minus_distr_r, Rmult_plus_distr_r, Rmult_assoc, U1. lra. }
  assert (Fh1 : fisfin (fadd ub chalf) = true) by (apply FR_fin_iff; [exact Nh1|rewrite E3; lra]).
  destruct ceps_FR as [Fc Rc]. destruct (fadd_fin _ _ Fh1 Fc) as [Nh2 Eh2]. rewrite Eh2, E3, Rc. fold eps_m.
  set (e := IZR eps_m * bpow radix2 (-66)) in *. assert (Ce : Rabs (IZR n * u - e) < u / 2) by (rewrite <- P53; exact N2). apply Rabs_def2 in Ce.
  set (x := IZR b + 1 - IZR n * u + e) in *.
  assert (Fmt : crnd (IZR b + 1) = IZR b + 1).
  { rewrite <- plus_IZR. destruct (fZ_FR (b + 1)) as [Fz Rz]; [|rewrite <- Rz; apply crnd_FR, fin_notnan; exact Fz].
    assert (2 ^ (k + 1) <= 2 ^ 39)%Z by (apply Z.pow_le_mono_r; lia). assert (0 < 2 ^ k)%Z by (apply Z.pow_pos_nonneg; lia). lia. }
  destruct (Rle_or_lt (IZR b + 1) x) as [Hx|Hx]; [rewrite <- Fmt at 1; apply crnd_mono; exact Hx|].
  assert (Er : rnd x = IZR b + 1).
  { rewrite (rnd_binade k _ ((b + 1) * 2 ^ (52 - k))).
    - rewrite mult_IZR. fold u. rewrite Rmult_assoc, U1, plus_IZR. ring.
    - lia.
    - rewrite Bk, Bk1. unfold x in *. lra.
    - rewrite mult_IZR. fold u. rewrite Rmult_assoc, U1, plus_IZR, P53. unfold x in *. apply Rabs_def1; lra. }
  unfold crnd. rewrite Er, Rmin_right, Rmax_right by lra. lra.
Qed.
(** The side conditions for the 39 binades up to 2^38, and both ways the bound is stored. *)
Definition side (m : Z) (k : Z) : bool :=
  near m k (units m k) && near eps_m k (units m k) && (units m k <? 2 ^ (50 - k))%Z && (0 <=? units m k)%Z.
Definition arr_m : Z := (2 ^ 65 - 9005397814890044 * 2 ^ 12)%Z.
Lemma side_all : forallb (fun j => side eps_m (Z.of_nat j) && ((j =? 1)%nat || side arr_m (Z.of_nat j))) (seq 0 39) = true.
Proof. vm_compute. reflexivity. Qed.
Lemma side_k k : (0 <= k <= 38)%Z -> side eps_m k = true /\ (k <> 1%Z -> side arr_m k = true).
Proof.
  intros Hk. pose proof side_all as H. rewrite forallb_forall in H. specialize (H (Z.to_nat k)).
  rewrite Z2Nat.id in H by lia. assert (Hin : In (Z.to_nat k) (seq 0 39)) by (apply in_seq; lia). specialize (H Hin).
  apply andb_true_iff in H. destruct H as [H1 H2]. split; [exact H1|]. intros Hne. apply orb_true_iff in H2.
  destruct H2 as [H2|H2]; [|exact H2]. apply Nat.eqb_eq in H2. lia.
Qed.
Lemma high_ge_side b m ub : (1 <= b <= 2 ^ 38)%Z -> (0 <= m)%Z -> (2 * m < 2 ^ 66)%Z -> side m (Z.log2 b) = true ->
  fisfin ub = true -> FR ub = crnd (IZR b + / 2 - IZR m * bpow radix2 (-66)) ->
  IZR b + 1 <= FR (fadd (fadd ub chalf) ceps).
Proof.
  intros Hb Hm0 Hm S F R. unfold side in S. rewrite !andb_true_iff in S. destruct S as [[[S1 S2] S3] S4].
  apply Z.ltb_lt in S3. apply Z.leb_le in S4.
  apply (high_ge b (Z.log2 b) m ub); auto.
  - split; [apply Z.log2_nonneg|]. change 38%Z with (Z.log2 (2 ^ 38)). apply Z.log2_le_mono. lia.
  - apply Z.log2_spec. lia.
Qed.
Lemma log2_range b : (1 <= b <= 2 ^ 38)%Z -> (0 <= Z.log2 b <= 38)%Z.
Proof. intros. split; [apply Z.log2_nonneg|]. change 38%Z with (Z.log2 (2 ^ 38)). apply Z.log2_le_mono. lia. Qed.
Lemma half_R b : (Z.abs b <= 2 ^ 38)%Z -> fisfin (fadd (fZ b) chalf) = true /\ FR (fadd (fZ b) chalf) = IZR b + / 2.
Proof.
  intros Hb. destruct (fZ_FR b) as [Fb Rb]; [lia|]. destruct chalf_FR as [Fh Rh]. destruct (fadd_fin _ _ Fb Fh) as [N E].
  rewrite Rb, Rh in E. pose proof (crnd_dyadic (2 * b + 1) (-1)) as D.
  replace (IZR (2 * b + 1) * bpow radix2 (-1)) with (IZR b + / 2) in D by (rewrite plus_IZR, mult_IZR; simpl; lra).
  rewrite D in E by lia. split; [|exact E]. apply FR_fin_iff; [exact N|]. rewrite E. pose proof B_big.
  assert (IZR (- 2 ^ 38) <= IZR b <= IZR (2 ^ 38)) by (split; apply IZR_le; lia).
  assert (IZR (2 ^ 38) + 2 <= IZR (2 ^ 100)) by (rewrite <- plus_IZR; apply IZR_le; lia). rewrite opp_IZR in H0. lra.
Qed.
Lemma scalar_high_ge b : (0 <= b <= 2 ^ 38)%Z -> fisfin (fsub (fadd (fZ b) chalf) ceps) = true ->
  IZR b + 1 <= FR (fadd (fadd (fsub (fadd (fZ b) chalf) ceps) chalf) ceps).
Proof.
  intros Hb F. destruct (Z.eq_dec b 0) as [->|Hne].
  - rewrite Rplus_0_l, <- (proj2 (fZ_FR 1 ltac:(lia))). apply fle_FR; vm_compute; reflexivity.
  - destruct (half_R b) as [F1 R1]; [lia|]. destruct ceps_FR as [Fc Rc]. destruct (fsub_fin _ _ F1 Fc) as [N E]. rewrite R1, Rc in E.
    apply (high_ge_side b eps_m); [lia|discriminate|reflexivity| |exact F|exact E].
    apply side_k. apply log2_range. lia.
Qed.
Lemma arr_const : fisfin (fsub chalf ceps) = true /\ FR (fsub chalf ceps) = / 2 - IZR arr_m * bpow radix2 (-66).
Proof.
  assert (Q : fsub chalf ceps = fpow 9005397814890044 (-54)) by (apply B2SF_inj; vm_compute; reflexivity).
  rewrite Q. destruct (fpow_FR 9005397814890044 (-54)) as [F R]; [vm_compute; reflexivity|lia|]. split; [exact F|]. rewrite R.
  unfold arr_m. rewrite minus_IZR, mult_IZR. change (IZR (2 ^ 65)) with (bpow radix2 65). change (IZR (2 ^ 12)) with (bpow radix2 12).
  rewrite Rmult_minus_distr_r, Rmult_assoc, <- !bpow_plus. change (65 + -66)%Z with (-1)%Z. change (12 + -66)%Z with (-54)%Z.
  change (bpow radix2 (-1)) with (/ 2). lra.
Qed.
Lemma array_high_ge b : (0 <= b <= 2 ^ 38)%Z -> fisfin (fadd (fZ b) (fsub chalf ceps)) = true ->
  IZR b + 1 <= FR (fadd (fadd (fadd (fZ b) (fsub chalf ceps)) chalf) ceps).
Proof.
  intros Hb F.
  assert (Small : forall z, (z = 0 \/ z = 2 \/ z = 3)%Z -> b = z -> IZR b + 1 <= FR (fadd (fadd (fadd (fZ b) (fsub chalf ceps)) chalf) ceps)).
  { intros z Hz ->. clear F Hb.
    assert (Hle : fle (fZ (z + 1)) (fadd (fadd (fadd (fZ z) (fsub chalf ceps)) chalf) ceps) = true) by (destruct Hz as [->|[->| ->]]; vm_compute; reflexivity).
    destruct (fle_true_nan _ _ Hle). apply fle_FR in Hle; auto. rewrite (proj2 (fZ_FR (z + 1) ltac:(lia))), plus_IZR in Hle. exact Hle. }
  destruct (Z.eq_dec b 0) as [E0|N0]; [apply (Small 0%Z); auto|]. destruct (Z.eq_dec b 2) as [E2|N2]; [apply (Small 2%Z); auto|].
  destruct (Z.eq_dec b 3) as [E3|N3]; [apply (Small 3%Z); auto|].
  destruct (fZ_FR b) as [Fb Rb]; [lia|]. destruct arr_const as [Fa Ra]. destruct (fadd_fin _ _ Fb Fa) as [N E]. rewrite Rb, Ra in E.
  apply (high_ge_side b arr_m); [lia|vm_compute; discriminate|vm_compute; reflexivity| |exact F|].
  - apply (side_k (Z.log2 b)); [apply log2_range; lia|]. intros L. pose proof (Z.log2_spec b ltac:(lia)) as S. rewrite L in S. simpl in S. lia.
  - rewrite E. f_equal. lra.
Qed.
