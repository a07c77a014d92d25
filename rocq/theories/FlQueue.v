(** Shares of reciprocals, and ratios of differences. *)
From Coq Require Import ZArith Reals Lra Lia Psatz Bool.
From Flocq Require Import Core BinarySingleNaN.
From Verif Require Import Prelude Fl FlArith FlInt MAlg MAlg7 FlRound FlShare MClass20.
Local Open Scope R_scope.

Lemma to_int_share c n : unit_num c -> (Z.of_nat n <= 2 ^ 31)%Z -> exists z, to_int (fmul c (fnat n)) = Ok z.
Proof.
  intros Hc Hn. destruct (share_FR c n Hc Hn) as (F & _). unfold to_int, fnat.
  destruct (fmul c (fZ (Z.of_nat n))) as [s|s| |s m e Hb]; try discriminate; eexists; cbn; reflexivity.
Qed.
Lemma third_unit : unit_num (fdiv (fZ 1) (fZ 3)).
Proof. split; vm_compute; reflexivity. Qed.
(** A reciprocal of a finite number not below 10^-6. *)
Lemma recip t : fle (dec 1 1000000) t = true -> flt t finf = true ->
  fisfin (fdiv (fZ 1) t) = true /\ 0 < FR (fdiv (fZ 1) t) <= 1048576.
Proof.
  intros H1 H2. destruct (flt_true_nan _ _ H2) as (Nt & _).
  set (lo := fdiv (fZ 1) (fZ 1048576)).
  assert (Hlo : fle lo (dec 1 1000000) = true) by (vm_compute; reflexivity).
  assert (Nc : fisnan (dec 1 1000000) = false) by (vm_compute; reflexivity).
  destruct (fZ_FR 1 ltac:(lia)) as (F1 & V1). destruct (fZ_FR 1048576 ltac:(lia)) as (F2 & V2).
  destruct (fdiv_fin (fZ 1) (fZ 1048576) F1 F2) as (Nl & Vl); [rewrite V2; lra|]. fold lo in Nl, Vl.
  rewrite V1, V2 in Vl. replace (1 / 1048576) with (IZR 1 * bpow radix2 (-20)) in Vl by (cbn; lra). rewrite crnd_dyadic in Vl by lia.
  apply fle_FR in H1; auto. apply fle_FR in Hlo; auto. apply flt_FR in H2; auto.
  change (FR finf) with (bpow radix2 1024) in H2. change (bpow radix2 (-20)) with (/ 1048576) in Vl.
  assert (Ft : fisfin t = true).
  { apply FR_fin_iff; [exact Nt|]. pose proof B_pos. unfold B in *. change emax with 1024%Z. split; lra. }
  assert (Pt : / 1048576 <= FR t) by lra.
  destruct (fdiv_fin (fZ 1) t F1 Ft) as (Nr & Vr); [lra|]. rewrite V1 in Vr.
  assert (U : crnd (1 / FR t) <= 1048576).
  { rewrite <- V2. rewrite <- (crnd_FR (fZ 1048576)) by (apply fin_notnan; exact F2). apply crnd_mono. rewrite V2.
    apply Rmult_le_reg_r with (FR t); [lra|]. field_simplify; lra. }
  assert (L : 0 < crnd (1 / FR t)).
  { apply Rlt_le_trans with (IZR 1 * bpow radix2 (-1024)); [rewrite Rmult_1_l; apply bpow_gt_0|].
    rewrite <- crnd_dyadic by lia. apply crnd_mono. rewrite Rmult_1_l. change (-1024)%Z with (- (1024))%Z. rewrite bpow_opp.
    unfold Rdiv. rewrite Rmult_1_l. apply Rinv_le; lra. }
  rewrite Vr. split; [|lra].
  eapply (fin_between _ 0 1048576); [exact Nr| | |rewrite Vr; lra]; pose proof B_big; pose proof B_pos; [lra|].
  change (IZR (2 ^ 100)) with (IZR 1267650600228229401496703205376) in *. lra.
Qed.
(** The share of one among three positive numbers of moderate size. *)
Lemma add_pos x y m : fisfin x = true -> fisfin y = true -> 0 <= FR x -> 0 <= FR y -> FR x + FR y <= IZR m -> (0 <= m <= 2 ^ 50)%Z ->
  fisfin (fadd x y) = true /\ FR x <= FR (fadd x y) /\ FR y <= FR (fadd x y) /\ FR (fadd x y) <= IZR m.
Proof.
  intros Fx Fy Px Py Hm Hz. destruct (fadd_fin x y Fx Fy) as (N & V). destruct (fZ_FR m ltac:(lia)) as (Fm & Vm).
  assert (A1 : FR x <= crnd (FR x + FR y)) by (rewrite <- (crnd_FR x) at 1 by (apply fin_notnan; exact Fx); apply crnd_mono; lra).
  assert (A2 : FR y <= crnd (FR x + FR y)) by (rewrite <- (crnd_FR y) at 1 by (apply fin_notnan; exact Fy); apply crnd_mono; lra).
  assert (A3 : crnd (FR x + FR y) <= IZR m) by (rewrite <- Vm; rewrite <- (crnd_FR (fZ m)) by (apply fin_notnan; exact Fm); apply crnd_mono; rewrite Vm; lra).
  rewrite V. split; [|lra]. eapply (fin_between _ 0 (IZR m)); [exact N| | |rewrite V; lra]; pose proof B_big as BB; pose proof B_pos; [lra|].
  apply Rle_lt_trans with (IZR (2 ^ 100)); [apply IZR_le; lia|exact BB].
Qed.
Lemma share_of x d : fisfin x = true -> fisfin d = true -> 0 <= FR x <= FR d -> 0 < FR d -> unit_num (fdiv x d).
Proof.
  intros Fx Fd H P. destruct (fdiv_fin x d Fx Fd) as (N & V); [lra|]. destruct (fZ_FR 0 ltac:(lia)) as (F0 & V0). destruct (fZ_FR 1 ltac:(lia)) as (F1 & V1).
  assert (Hb : 0 <= FR x / FR d <= 1).
  { split; [apply Rmult_le_pos; [lra|left; apply Rinv_0_lt_compat; lra]|]. apply Rmult_le_reg_r with (FR d); [lra|]. field_simplify; lra. }
  assert (C : 0 <= crnd (FR x / FR d) <= 1).
  { rewrite <- V0, <- V1. apply crnd_bounds; try (apply fin_notnan; assumption). lra. }
  unfold unit_num. split; apply fle_FR; auto using fin_notnan; lra.
Qed.
Lemma queues_ok n t1 t2 t3 : (forall t, In t (t1 :: t2 :: t3 :: nil) -> fle (dec 1 1000000) t = true /\ flt t finf = true) -> (Z.of_nat n <= 2 ^ 31)%Z ->
  exists q, qsa_queues n t1 t2 t3 = Ok q.
Proof.
  intros H Hn.
  destruct (recip t1) as (F1 & B1); [apply H; cbn; auto|apply H; cbn; auto|].
  destruct (recip t2) as (F2 & B2); [apply H; cbn; auto|apply H; cbn; auto|].
  destruct (recip t3) as (F3 & B3); [apply H; cbn; auto|apply H; cbn; auto|].
  set (r1 := fdiv (fZ 1) t1) in *. set (r2 := fdiv (fZ 1) t2) in *. set (r3 := fdiv (fZ 1) t3) in *.
  destruct (add_pos r1 r2 2097152 F1 F2) as (F12 & G1 & G2 & G3); try lra; try lia.
  destruct (add_pos (fadd r1 r2) r3 3145728 F12 F3) as (Fd & K1 & K2 & K3); try lra; try lia.
  unfold qsa_queues. fold r1. fold r2. fold r3. set (d := fadd (fadd r1 r2) r3) in *.
  assert (U1 : unit_num (fdiv r1 d)) by (apply share_of; auto; lra).
  assert (U2 : unit_num (fdiv r2 d)) by (apply share_of; auto; lra).
  cbv zeta.
  destruct (to_int_share (if flt (dec 1 1000000) t1 then fdiv r1 d else fdiv (fZ 1) (fZ 3)) n) as (q1 & E1); [destruct (flt _ _); auto using third_unit|exact Hn|].
  destruct (to_int_share (if flt (dec 1 1000000) t1 then fdiv r2 d else fdiv (fZ 1) (fZ 3)) n) as (q2 & E2); [destruct (flt _ _); auto using third_unit|exact Hn|].
  rewrite E1, E2. eexists; reflexivity.
Qed.

(** ** Seeds *)
Lemma sub_below x y : fle x y = true -> fisnan (fsub x y) = true \/ fle (fsub x y) (fZ 0) = true.
Proof.
  intros H. destruct (fisfin x) eqn:Fx; [destruct (fisfin y) eqn:Fy|].
  - right. destruct (fsub_fin x y Fx Fy) as (N & V). apply fle_FR in H; try (apply fin_notnan; assumption).
    destruct (fZ_FR 0 ltac:(lia)) as (F0 & V0). apply fle_FR; auto using fin_notnan. rewrite V, V0, <- V0.
    rewrite <- (crnd_FR (fZ 0)) by (apply fin_notnan; exact F0). apply crnd_mono. rewrite V0. lra.
  - destruct y as [s|[|]| |s m e Hb]; try discriminate Fy; destruct x as [s'|[|]| |s' m' e' Hb']; try discriminate Fx; cbn in *; auto; try discriminate.
    all: try (destruct s'; cbn in *; auto; discriminate).
  - destruct x as [s'|[|]| |s' m' e' Hb']; try discriminate Fx; destruct y as [s|[|]| |s m e Hb]; cbn in *; auto; try discriminate.
Qed.
Lemma sub_above x y : fle y x = true -> fisnan (fsub x y) = true \/ fle (fZ 0) (fsub x y) = true.
Proof.
  intros H. destruct (fisfin x) eqn:Fx; [destruct (fisfin y) eqn:Fy|].
  - right. destruct (fsub_fin x y Fx Fy) as (N & V). apply fle_FR in H; try (apply fin_notnan; assumption).
    destruct (fZ_FR 0 ltac:(lia)) as (F0 & V0). apply fle_FR; auto using fin_notnan. rewrite V, V0, <- V0.
    rewrite <- (crnd_FR (fZ 0)) at 1 by (apply fin_notnan; exact F0). apply crnd_mono. rewrite V0. lra.
  - destruct y as [s|[|]| |s m e Hb]; try discriminate Fy; destruct x as [s'|[|]| |s' m' e' Hb']; try discriminate Fx; cbn in *; auto; try discriminate.
    all: try (destruct s'; cbn in *; auto; discriminate).
  - destruct x as [s'|[|]| |s' m' e' Hb']; try discriminate Fx; destruct y as [s|[|]| |s m e Hb]; cbn in *; auto; try discriminate.
Qed.
Lemma div_same x y : (fle x (fZ 0) = true /\ flt y (fZ 0) = true) \/ (fle (fZ 0) x = true /\ flt (fZ 0) y = true) ->
  fisnan (fdiv x y) = true \/ fle (fZ 0) (fdiv x y) = true.
Proof.
  intros H. destruct (fZ_FR 0 ltac:(lia)) as (F0 & V0).
  destruct (fisfin x) eqn:Fx; [destruct (fisfin y) eqn:Fy|].
  - right. assert (Hy : FR y <> 0 /\ 0 <= FR x / FR y).
    { destruct H as [(H1 & H2)|(H1 & H2)]; apply fle_FR in H1; try (apply fin_notnan; assumption); apply flt_FR in H2; try (apply fin_notnan; assumption); rewrite V0 in *.
      - split; [lra|]. replace (FR x / FR y) with (- FR x * / - FR y) by (field; lra). apply Rmult_le_pos; [lra|]. left. apply Rinv_0_lt_compat. lra.
      - split; [lra|]. apply Rmult_le_pos; [lra|]. left. apply Rinv_0_lt_compat. lra. }
    destruct Hy as (Hy & Hq). destruct (fdiv_fin x y Fx Fy Hy) as (N & V). apply fle_FR; auto using fin_notnan. rewrite V.
    rewrite <- (crnd_FR (fZ 0)) by (apply fin_notnan; exact F0). apply crnd_mono. rewrite V0. exact Hq.
  - destruct y as [s|[|]| |s m e Hb]; try discriminate Fy; destruct x as [[|]|s'| |[|] m' e' Hb']; try discriminate Fx; cbn in *; auto; destruct H as [(H1 & H2)|(H1 & H2)]; try discriminate.
  - destruct x as [s'|[|]| |s' m' e' Hb']; try discriminate Fx; destruct y as [[|]|[|]| |[|] m e Hb]; cbn in *; auto; destruct H as [(H1 & H2)|(H1 & H2)]; discriminate.
Qed.
(** The ratio of a fitness between the best and the worst. *)
Lemma iwo_ratio_ok b w f : (fle b f = true /\ fle f w = true) \/ (fle w f = true /\ fle f b = true) -> feq (fsub b w) (fZ 0) = false ->
  fisnan (fdiv (fsub f w) (fsub b w)) = true \/ fle (fZ 0) (fdiv (fsub f w) (fsub b w)) = true.
Proof.
  intros H Hz. assert (Nn : forall x, fisnan x = true -> forall y, fisnan (fdiv x y) = true /\ fisnan (fdiv y x) = true).
  { intros x Hx y. destruct x; try discriminate. destruct y; cbn; auto. }
  assert (T : forall x y z, fle x y = true -> fle y z = true -> fle x z = true).
  { intros x y z H1 H2. destruct (fisnan x) eqn:N1; [rewrite fle_nan_l in H1 by exact N1; discriminate|].
    destruct (fisnan y) eqn:N2; [rewrite fle_nan_l in H2 by exact N2; discriminate|].
    destruct (fisnan z) eqn:N3; [rewrite fle_nan_r in H2 by exact N3; discriminate|].
    apply fle_FR in H1, H2; auto. apply fle_FR; auto. lra. }
  assert (Sl : forall x, fle x (fZ 0) = true -> feq x (fZ 0) = false -> flt x (fZ 0) = true).
  { intros x H1 H2. destruct (fisnan x) eqn:N1; [rewrite fle_nan_l in H1 by exact N1; discriminate|].
    apply fle_FR in H1; auto. apply flt_FR; auto. destruct (Rle_lt_or_eq_dec _ _ H1) as [L|Q]; [exact L|].
    apply feq_FR in Q; auto. congruence. }
  assert (Sg : forall x, fle (fZ 0) x = true -> feq x (fZ 0) = false -> flt (fZ 0) x = true).
  { intros x H1 H2. destruct (fisnan x) eqn:N1; [rewrite fle_nan_r in H1 by exact N1; discriminate|].
    apply fle_FR in H1; auto. apply flt_FR; auto. destruct (Rle_lt_or_eq_dec _ _ H1) as [L|Q]; [exact L|].
    symmetry in Q. apply feq_FR in Q; auto. congruence. }
  destruct H as [(H1 & H2)|(H1 & H2)].
  - destruct (sub_below f w H2) as [N|L1]; [left; apply (Nn _ N)|]. destruct (sub_below b w (T _ _ _ H1 H2)) as [N|L2]; [left; apply (Nn _ N)|].
    apply div_same. left. auto.
  - destruct (sub_above f w H1) as [N|L1]; [left; apply (Nn _ N)|]. destruct (sub_above b w (T _ _ _ H1 H2)) as [N|L2]; [left; apply (Nn _ N)|].
    apply div_same. right. auto.
Qed.
Lemma to_int_fin x z : to_int x = Ok z -> fisfin x = true /\ z = ftrunc x.
Proof.
  unfold to_int. destruct x as [s|[|]| |s m e Hb]; cbn; intros H; try discriminate; inversion H; auto.
Qed.
(** At least [lo] seeds unless the conversion raises. *)
Lemma seeds_ge lo hi n r s : (Z.of_nat lo <= 2 ^ 31)%Z -> (Z.of_nat hi <= 2 ^ 31)%Z -> fisnan r = true \/ fle (fZ 0) r = true ->
  iwo_seeds lo hi n r = Ok s -> (Nat.min lo (Nat.sqrt n) <= s <= Nat.sqrt n)%nat.
Proof.
  intros Hlo Hhi Hr. unfold iwo_seeds. destruct (to_int (fceil (fadd (fnat lo) (fmul (fnat (hi - lo)) r)))) as [z|] eqn:E1; cbn [bind]; [|discriminate].
  intros H. injection H as <-. enough (Z.of_nat lo <= z)%Z by lia.
  apply to_int_fin in E1. destruct E1 as (Fc & ->). unfold fnat in *.
  destruct (fZ_FR (Z.of_nat lo) ltac:(lia)) as (Fl & Vl). destruct (fZ_FR (Z.of_nat (hi - lo)) ltac:(lia)) as (Fk & Vk). destruct (fZ_FR 0 ltac:(lia)) as (F0 & V0).
  set (a := fZ (Z.of_nat lo)) in *. set (k := fZ (Z.of_nat (hi - lo))) in *.
  assert (Fs : fisfin (fadd a (fmul k r)) = true).
  { revert Fc. generalize (fadd a (fmul k r)). intros x. destruct x as [s|[|]| |s m e Hb]; cbn; auto. }
  assert (Fm : fisfin (fmul k r) = true).
  { revert Fs Fl. generalize (fmul k r). generalize a. intros x y. destruct x as [s|[|]| |s m e Hb], y as [s'|[|]| |s' m' e' Hb']; cbn; auto. }
  assert (Fr : fisfin r = true).
  { revert Fm Fk. clear. generalize k. intros x. destruct x as [s|[|]| |s m e Hb], r as [s'|[|]| |s' m' e' Hb']; cbn; auto. }
  destruct Hr as [N|Hr]; [rewrite (fin_notnan r Fr) in N; discriminate|]. apply fle_FR in Hr; auto using fin_notnan. rewrite V0 in Hr.
  destruct (fmul_fin k r Fk Fr) as (Nm & Vm). destruct (fadd_fin a (fmul k r) Fl Fm) as (Ns & Vs).
  assert (Pm : 0 <= FR (fmul k r)).
  { rewrite Vm, <- V0. rewrite <- (crnd_FR (fZ 0)) by (apply fin_notnan; exact F0). apply crnd_mono. rewrite V0, Vk. apply Rmult_le_pos; [apply IZR_le; lia|exact Hr]. }
  assert (Ps : IZR (Z.of_nat lo) <= FR (fadd a (fmul k r))).
  { rewrite Vs, <- Vl. rewrite <- (crnd_FR a) at 1 by (apply fin_notnan; exact Fl). apply crnd_mono. rewrite Vl. lra. }
  rewrite (ftrunc_spec _ Fc). destruct (fceil_spec _ Fs) as (_ & Vc). rewrite Vc, Ztrunc_IZR.
  apply le_IZR. eapply Rle_trans; [exact Ps|]. apply Zceil_ub.
Qed.
