(** Rounding error of sums and quotients of non-negative binary64 numbers: the probabilities of a roulette wheel add up
    to one within numpy's tolerance. *)
From Coq Require Import Reals Lra.
From Verif Require Import Prelude Fl FlArith FlInt MCore MHelp PHelp.
From Flocq Require Import Core Relative Plus_error BinarySingleNaN.
Local Open Scope R_scope.

Notation u53 := (bpow radix2 (-53)).
Notation big := (bpow radix2 900).
Lemma big_FR : fisfin (fpow 1 900) = true /\ FR (fpow 1 900) = big.
Proof. destruct (fpow_FR 1 900) as [F H]; [reflexivity|split; discriminate|]. split; [exact F|]. rewrite H. lra. Qed.
Lemma big_B : big < B.
Proof. unfold B. apply bpow_lt. reflexivity. Qed.
Lemma rnd_big r : Rabs r <= big -> Rabs (rnd r) <= big.
Proof.
  intros H. apply Rabs_le_inv in H. destruct big_FR as [F E]. assert (Z := rnd_FR _ (fin_notnan _ F)). rewrite E in Z.
  apply Rabs_le. split.
  - rewrite <- Z, <- rnd_opp. apply rnd_mono. lra.
  - rewrite <- Z. apply rnd_mono. lra.
Qed.
Lemma crnd_rnd r : Rabs r <= big -> crnd r = rnd r.
Proof.
  intros H. apply rnd_big, Rabs_le_inv in H. assert (Z := big_B). unfold crnd.
  rewrite Rmin_right by lra. apply Rmax_right. lra.
Qed.
Lemma fin_big x : fisnan x = false -> Rabs (FR x) <= big -> fisfin x = true.
Proof. intros N H. apply FR_fin_iff; [exact N|]. apply Rabs_le_inv in H. assert (Z := big_B). lra. Qed.
Lemma format_FR x : fisfin x = true -> generic_format radix2 (FLT_exp (-1074) 53) (FR x).
Proof. intros H. rewrite (FR_fin x H). apply (generic_format_B2R prec emax). Qed.
Lemma u_ro_le : u_ro radix2 53 / (1 + u_ro radix2 53) <= u53.
Proof.
  assert (E : u_ro radix2 53 = u53) by (unfold u_ro; change (-53 + 1)%Z with (-52)%Z; simpl; lra).
  rewrite E. assert (P := bpow_gt_0 radix2 (-53)). apply Rmult_le_reg_r with (1 + u53); [lra|]. unfold Rdiv. rewrite Rmult_assoc, Rinv_l by lra. nra.
Qed.
Lemma add_rel x y : fisfin x = true -> fisfin y = true -> 0 <= FR x -> 0 <= FR y -> FR x + FR y <= big ->
  fisfin (fadd x y) = true /\ 0 <= FR (fadd x y) /\ Rabs (FR (fadd x y) - (FR x + FR y)) <= u53 * (FR x + FR y).
Proof.
  intros Fx Fy Px Py HB. destruct (fadd_fin x y Fx Fy) as [N E].
  assert (A : Rabs (FR x + FR y) <= big) by (rewrite Rabs_pos_eq; lra).
  rewrite crnd_rnd in E by exact A. split; [apply fin_big; [exact N|]; rewrite E; apply rnd_big; exact A|].
  split; [rewrite E, <- rnd_0; apply rnd_mono; lra|].
  destruct (FLT_plus_error_N_ex radix2 (-1074) 53 (fun z => negb (Z.even z)) (FR x) (FR y) (format_FR x Fx) (format_FR y Fy)) as (eps & He & Hr).
  assert (R : rnd (FR x + FR y) = (FR x + FR y) * (1 + eps)) by exact Hr.
  rewrite E, R. replace ((FR x + FR y) * (1 + eps) - (FR x + FR y)) with ((FR x + FR y) * eps) by ring.
  rewrite Rabs_mult, (Rabs_pos_eq (FR x + FR y)) by lra. rewrite Rmult_comm. apply Rmult_le_compat_r; [lra|].
  eapply Rle_trans; [exact He|apply u_ro_le].
Qed.
Lemma sub_pos x y : fisfin x = true -> fisfin y = true -> FR y < FR x -> FR x - FR y <= big -> fisfin (fsub x y) = true /\ 0 < FR (fsub x y) <= big.
Proof.
  intros Fx Fy L HB. destruct (fsub_fin x y Fx Fy) as [N E].
  assert (A : Rabs (FR x - FR y) <= big) by (rewrite Rabs_pos_eq; lra).
  rewrite crnd_rnd in E by exact A. assert (A1 := rnd_big _ A). split; [apply fin_big; [exact N|]; rewrite E; exact A1|].
  assert (P0 : 0 <= rnd (FR x - FR y)) by (rewrite <- rnd_0; apply rnd_mono; lra).
  rewrite E. rewrite Rabs_pos_eq in A1 by exact P0. split; [|exact A1]. destruct P0 as [P0|P0]; [exact P0|exfalso].
  assert (Fo : generic_format radix2 (FLT_exp (-1074) 53) (- FR y)) by (apply generic_format_opp, format_FR; exact Fy).
  assert (Z := round_plus_neq_0 radix2 (FLT_exp (-1074) 53) (round_mode mode_NE) (FR x) (- FR y) (format_FR x Fx) Fo).
  apply Z; [lra|]. symmetry. exact P0.
Qed.
Lemma sub_zero x y : fisfin x = true -> fisfin y = true -> FR y = FR x -> fisfin (fsub x y) = true /\ FR (fsub x y) = 0.
Proof.
  intros Fx Fy L. destruct (fsub_fin x y Fx Fy) as [N E]. rewrite L, Rminus_diag_eq, crnd_0 in E by reflexivity.
  split; [|exact E]. apply fin_big; [exact N|]. rewrite E, Rabs_R0. apply bpow_ge_0.
Qed.
Notation eta := (bpow radix2 (-1075)).
Lemma div_rel x y : fisfin x = true -> fisfin y = true -> 0 <= FR x -> 0 < FR y -> FR x / FR y <= big ->
  fisfin (fdiv x y) = true /\ 0 <= FR (fdiv x y) /\ Rabs (FR (fdiv x y) - FR x / FR y) <= u53 * (FR x / FR y) + eta.
Proof.
  intros Fx Fy Px Py HB. destruct (fdiv_fin x y Fx Fy) as [N E]; [lra|].
  assert (P0 : 0 <= FR x / FR y) by (apply Rmult_le_pos; [exact Px|apply Rlt_le, Rinv_0_lt_compat; exact Py]).
  assert (A : Rabs (FR x / FR y) <= big) by (rewrite Rabs_pos_eq; lra).
  rewrite crnd_rnd in E by exact A. split; [apply fin_big; [exact N|]; rewrite E; apply rnd_big; exact A|].
  split; [rewrite E, <- rnd_0; apply rnd_mono; lra|]. set (r := FR x / FR y) in *. clearbody r.
  destruct (relative_error_N_FLT'_ex radix2 (-1074) 53 eq_refl (fun z => negb (Z.even z)) r) as (eps & et & He & Ht & _ & Hr).
  assert (R : rnd r = r * (1 + eps) + et) by exact Hr.
  rewrite E, R. replace (r * (1 + eps) + et - r) with (r * eps + et) by ring.
  eapply Rle_trans; [apply Rabs_triang|]. rewrite Rabs_mult, (Rabs_pos_eq r) by exact P0. apply Rplus_le_compat.
  - rewrite Rmult_comm. apply Rmult_le_compat_r; [exact P0|]. eapply Rle_trans; [exact He|apply u_ro_le].
  - eapply Rle_trans; [exact Ht|]. change (-1074)%Z with (1 + -1075)%Z. rewrite bpow_plus. simpl bpow at 1. assert (Z := bpow_gt_0 radix2 (-1075)). simpl IZR. lra.
Qed.

(** The exact sum. *)
Definition rsum (l : list f64) : R := fold_right (fun x r => FR x + r) 0 l.
Definition pos_fin (x : f64) : Prop := fisfin x = true /\ 0 <= FR x.
Lemma rsum_cons x l : rsum (x :: l) = FR x + rsum l. Proof. reflexivity. Qed.
Lemma rsum_pos l : Forall pos_fin l -> 0 <= rsum l.
Proof. induction 1 as [|x l [_ Hx] _ IH]; [apply Rle_refl|rewrite rsum_cons; lra]. Qed.
Lemma rsum_in l x : Forall pos_fin l -> In x l -> FR x <= rsum l.
Proof.
  induction 1 as [|y l [_ Hy] Hl IH]; intros H; [destruct H|]. assert (P := rsum_pos l Hl). rewrite rsum_cons.
  destruct H as [->|H]; [lra|specialize (IH H); lra].
Qed.
Lemma rsum_le l m : Forall (fun x => FR x <= m) l -> rsum l <= INR (List.length l) * m.
Proof. induction 1 as [|x l Hx Hl IH]; [cbn [List.length INR]; unfold rsum; cbn [fold_right]; lra|]. rewrite rsum_cons. cbn [List.length]. rewrite S_INR. lra. Qed.
Definition two20 : R := bpow radix2 20.
Lemma sum_err l : forall a S0 k, Forall pos_fin l -> pos_fin a -> 0 <= S0 -> Rabs (FR a - S0) <= 2 * u53 * INR k * S0 ->
  INR (k + List.length l) <= two20 -> 2 * (S0 + rsum l) <= big ->
  fisfin (fold_left fadd l a) = true /\ Rabs (FR (fold_left fadd l a) - (S0 + rsum l)) <= 2 * u53 * INR (k + List.length l) * (S0 + rsum l).
Proof.
  induction l as [|x l IH]; intros a S0 k Hl [Fa Pa] P0 HE HN HB.
  - change (rsum []) with 0. cbn [fold_left List.length]. rewrite Nat.add_0_r, Rplus_0_r. auto.
  - inversion Hl as [|? ? [Fx Px] Hl']; subst. rewrite rsum_cons in *. cbn [fold_left List.length] in *.
    assert (Pl := rsum_pos l Hl').
    assert (K1 : INR k <= two20) by (eapply Rle_trans; [|exact HN]; apply le_INR; lia).
    assert (K0 := pos_INR k).
    assert (C : 2 * u53 * INR k <= 1).
    { eapply Rle_trans; [apply Rmult_le_compat_l; [|exact K1]; assert (Z := bpow_gt_0 radix2 (-53)); lra|]. unfold two20. simpl. lra. }
    assert (U := bpow_gt_0 radix2 (-53)). set (c := 2 * u53 * INR k) in *.
    assert (C0 : 0 <= c) by (unfold c; apply Rmult_le_pos; [lra|exact K0]).
    assert (L : FR a <= 2 * S0) by (apply Rabs_le_inv in HE; nra).
    destruct (add_rel a x Fa Fx Pa Px) as (F1 & P1 & E1); [lra|].
    replace (S0 + (FR x + rsum l)) with ((S0 + FR x) + rsum l) in * by ring.
    replace (k + S (List.length l))%nat with (S k + List.length l)%nat in * by lia.
    apply IH; [exact Hl'|split; [exact F1|exact P1]|lra| |exact HN|exact HB].
    replace (2 * u53 * INR (S k) * (S0 + FR x)) with (c * (S0 + FR x) + 2 * u53 * (S0 + FR x)) by (rewrite S_INR; unfold c; ring).
    replace (FR (fadd a x) - (S0 + FR x)) with ((FR (fadd a x) - (FR a + FR x)) + (FR a - S0)) by ring.
    eapply Rle_trans; [apply Rabs_triang|]. assert (u53 * (FR a + FR x) <= u53 * (2 * (S0 + FR x))) by (apply Rmult_le_compat_l; lra).
    assert (0 <= c * FR x) by (apply Rmult_le_pos; lra). lra.
Qed.
Lemma fsuml_err l : Forall pos_fin l -> INR (List.length l) <= two20 -> 2 * rsum l <= big ->
  fisfin (fsuml l) = true /\ Rabs (FR (fsuml l) - rsum l) <= bpow radix2 (-32) * rsum l.
Proof.
  intros Hl HN HB. unfold fsuml. destruct (sum_err l (fZ 0) 0 0) as [F E]; try assumption.
  - split; [reflexivity|rewrite fZ_0; lra].
  - lra.
  - rewrite fZ_0. cbn [INR]. rewrite Rminus_diag_eq, Rabs_R0 by reflexivity. lra.
  - rewrite Rplus_0_l. exact HB.
  - split; [exact F|]. rewrite Rplus_0_l in E. eapply Rle_trans; [exact E|]. apply Rmult_le_compat_r; [apply rsum_pos; exact Hl|].
    assert (U := bpow_gt_0 radix2 (-53)). eapply Rle_trans; [apply Rmult_le_compat_l; [lra|exact HN]|]. unfold two20. simpl. lra.
Qed.
Lemma quot_err t l : fisfin t = true -> 0 < FR t -> Forall pos_fin l -> Forall (fun x => FR x / FR t <= big) l ->
  Forall pos_fin (map (fun x => fdiv x t) l) /\
  Rabs (rsum (map (fun x => fdiv x t) l) - rsum l / FR t) <= u53 * (rsum l / FR t) + INR (List.length l) * eta.
Proof.
  intros Ft Pt. induction l as [|x l IH]; intros Hl HB.
  - split; [constructor|]. cbn [map List.length INR]. change (rsum []) with 0. unfold Rdiv. rewrite Rmult_0_l, Rminus_0_r, Rabs_R0. lra.
  - inversion Hl as [|? ? [Fx Px] Hl']; subst. inversion HB as [|? ? Bx HB']; subst.
    destruct (IH Hl' HB') as [I1 I2]. destruct (div_rel x t Fx Ft Px Pt Bx) as (F1 & P1 & E1). cbn [map].
    split; [constructor; [split; assumption|exact I1]|]. rewrite !rsum_cons. cbn [List.length].
    rewrite S_INR. unfold Rdiv in *. rewrite Rmult_plus_distr_r.
    replace (FR (fdiv x t) + rsum (map (fun x0 => fdiv x0 t) l) - (FR x * / FR t + rsum l * / FR t))
      with ((FR (fdiv x t) - FR x * / FR t) + (rsum (map (fun x0 => fdiv x0 t) l) - rsum l * / FR t)) by ring.
    eapply Rle_trans; [apply Rabs_triang|]. lra.
Qed.
(** Dividing non-negative numbers by their computed sum gives numbers whose computed sum is one up to 2^-27. *)
Theorem probs_sum l : Forall pos_fin l -> INR (List.length l) <= two20 -> Forall (fun x => FR x <= bpow radix2 870) l ->
  (exists x, In x l /\ 0 < FR x) ->
  Forall pos_fin (map (fun x => fdiv x (fsuml l)) l) /\
  fisfin (fsuml (map (fun x => fdiv x (fsuml l)) l)) = true /\
  Rabs (FR (fsuml (map (fun x => fdiv x (fsuml l)) l)) - 1) <= bpow radix2 (-27).
Proof.
  intros Hl HN HM (x0 & Hx0 & P0). assert (S0 : 0 < rsum l) by (assert (Z := rsum_in l x0 Hl Hx0); lra).
  assert (B871 : 2 * rsum l <= big).
  { assert (Z := rsum_le l _ HM). assert (Z2 : INR (List.length l) * bpow radix2 870 <= two20 * bpow radix2 870) by (apply Rmult_le_compat_r; [apply bpow_ge_0|exact HN]).
    unfold two20 in Z2. rewrite <- bpow_plus in Z2. change (20 + 870)%Z with 890%Z in Z2.
    assert (Z3 : 2 * bpow radix2 890 = bpow radix2 891) by (change 891%Z with (1 + 890)%Z; rewrite bpow_plus; reflexivity).
    assert (Z4 : bpow radix2 891 <= big) by (apply bpow_le; lia). lra. }
  destruct (fsuml_err l Hl HN B871) as [Ft Et]. set (t := fsuml l) in *. clearbody t.
  assert (D : bpow radix2 (-32) = / 4294967296) by reflexivity. rewrite D in Et.
  assert (Et' := Rabs_le_inv _ _ Et). assert (Pt : 0 < FR t) by lra.
  assert (It := Rinv_0_lt_compat _ Pt). set (r := rsum l / FR t) in *.
  assert (Hr : r * FR t = rsum l) by (unfold r; field; lra).
  assert (R1 : Rabs (r - 1) <= / 1000000000).
  { apply Rabs_le. assert (Er : r - 1 = (rsum l - FR t) * / FR t) by (unfold r; field; lra). rewrite Er.
    assert (K : / 4294967296 * rsum l <= / 1000000000 * FR t) by lra. split.
    - replace (- / 1000000000) with ((- / 1000000000 * FR t) * / FR t) by (field; lra). apply Rmult_le_compat_r; lra.
    - replace (/ 1000000000) with ((/ 1000000000 * FR t) * / FR t) by (field; lra). apply Rmult_le_compat_r; lra. }
  assert (R2 := Rabs_le_inv _ _ R1).
  assert (Bq : Forall (fun x => FR x / FR t <= big) l).
  { rewrite Forall_forall in *. intros x Hx. assert (Z := rsum_in l x ltac:(apply Forall_forall; exact Hl) Hx).
    apply Rle_trans with r; [unfold r, Rdiv; apply Rmult_le_compat_r; lra|]. apply Rle_trans with 2; [lra|]. change 2 with (bpow radix2 1). apply bpow_le. lia. }
  destruct (quot_err t l Ft Pt Hl Bq) as [Q1 Q2]. fold r in Q2. set (p := map (fun x => fdiv x t) l) in *.
  assert (Lp : List.length p = List.length l) by (unfold p; apply map_length).
  assert (Ee : INR (List.length l) * eta <= / 1000000000).
  { assert (Z : eta <= bpow radix2 (-60)) by (apply bpow_le; lia).
    eapply Rle_trans; [apply Rmult_le_compat; [apply pos_INR|apply bpow_ge_0|exact HN|exact Z]|]. unfold two20. simpl. lra. }
  assert (U : u53 <= / 1000000000) by (simpl; lra). assert (U0 := bpow_gt_0 radix2 (-53)).
  assert (Q3 : Rabs (rsum p - r) <= / 400000000) by (assert (u53 * r <= / 1000000000 * r) by (apply Rmult_le_compat_r; lra); lra).
  assert (Q4 := Rabs_le_inv _ _ Q3).
  destruct (fsuml_err p Q1) as [Fp Ep]; [rewrite Lp; exact HN| |].
  { apply Rle_trans with 4; [lra|]. change 4 with (bpow radix2 2). apply bpow_le. lia. }
  split; [exact Q1|]. split; [exact Fp|]. rewrite D in Ep. assert (Ep' := Rabs_le_inv _ _ Ep).
  apply Rabs_le. assert (T27 : bpow radix2 (-27) = / 134217728) by reflexivity. rewrite T27. lra.
Qed.
