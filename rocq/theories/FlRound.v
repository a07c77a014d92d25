(** Rounding to the nearest integer and the error of one rounding, for numbers of moderate size. *)
From Coq Require Import ZArith Reals Lra Lia Psatz.
From Flocq Require Import Core BinarySingleNaN.
From Verif Require Import Prelude Fl FlArith FlInt MAlg7.
Local Open Scope R_scope.

Lemma fround_spec x : fisfin x = true -> fisfin (fround x) = true /\ FR (fround x) = IZR (ZnearestE (FR x)).
Proof.
  intros F. destruct (Bnearbyint_correct prec emax Hmax mode_NE x) as (H1 & H2 & _).
  assert (F' : fisfin (fround x) = true) by (unfold fisfin, fround; rewrite H2; exact F).
  split; [exact F'|]. rewrite <- (B2R_FR _ F'). unfold fround. rewrite H1, round_FIX_IZR, (B2R_FR x F). reflexivity.
Qed.
(** int(round(x)) for x between lo - 1/2 and hi + 1/2 is between lo and hi. *)
Lemma ftrunc_fround x lo hi : fisfin x = true -> IZR lo - / 2 < FR x < IZR hi + / 2 -> (lo <= ftrunc (fround x) <= hi)%Z.
Proof.
  intros F H. destruct (fround_spec x F) as (F' & R'). rewrite (ftrunc_spec _ F'), R', Ztrunc_IZR.
  pose proof (Znearest_half (fun z => negb (Z.even z)) (FR x)) as N. apply Rabs_def2b in N || apply Rabs_le_inv in N.
  change (Znearest (fun z => negb (Z.even z)) (FR x)) with (ZnearestE (FR x)) in N. set (z := ZnearestE (FR x)) in *.
  split.
  - apply Z.lt_succ_r. apply lt_IZR. rewrite succ_IZR. lra.
  - apply Z.lt_succ_r. apply lt_IZR. rewrite succ_IZR. lra.
Qed.
(** One rounding of a number of size at most 2^32 is off by at most 1/1024. *)
Lemma crnd_near r : Rabs r <= IZR (2 ^ 32) -> r - / 1024 <= crnd r <= r + / 1024.
Proof.
  intros H. apply Rabs_le_inv in H. set (k := Zfloor (r * 1024)).
  pose proof (Zfloor_lb (r * 1024)) as L. pose proof (Zfloor_ub (r * 1024)) as U. fold k in L, U.
  assert (Hk : (- 2 ^ 42 - 1 < k < 2 ^ 42 + 1)%Z).
  { split; apply lt_IZR.
    - rewrite minus_IZR, opp_IZR. change (IZR (2 ^ 42)) with (IZR (2 ^ 32 * 1024)). rewrite mult_IZR. lra.
    - rewrite plus_IZR. change (IZR (2 ^ 42)) with (IZR (2 ^ 32 * 1024)). rewrite mult_IZR. lra. }
  assert (B10 : bpow radix2 (-10) = / 1024) by reflexivity.
  assert (D1 : crnd (IZR k * bpow radix2 (-10)) = IZR k * bpow radix2 (-10)) by (apply crnd_dyadic; lia).
  assert (D2 : crnd (IZR (k + 1) * bpow radix2 (-10)) = IZR (k + 1) * bpow radix2 (-10)) by (apply crnd_dyadic; lia).
  rewrite B10 in D1, D2. rewrite plus_IZR in D2.
  pose proof (crnd_mono (IZR k * / 1024) r ltac:(lra)). pose proof (crnd_mono r ((IZR k + 1) * / 1024) ltac:(lra)). lra.
Qed.
Lemma small_fin x : fisnan x = false -> Rabs (FR x) <= IZR (2 ^ 33) -> fisfin x = true.
Proof.
  intros N H. apply Rabs_le_inv in H. pose proof B_big. assert (IZR (2 ^ 33) < IZR (2 ^ 100)) by (apply IZR_lt; reflexivity).
  apply fin_between with (lo := - IZR (2 ^ 33)) (hi := IZR (2 ^ 33)); auto; lra.
Qed.
Definition unit_num (x : f64) : Prop := fle (fZ 0) x = true /\ fle x (fZ 1) = true.
Lemma unit_FR x : unit_num x -> fisfin x = true /\ 0 <= FR x <= 1.
Proof.
  intros [H1 H2]. assert (N : fisnan x = false) by (destruct (fisnan x) eqn:Z; [destruct x; discriminate|reflexivity]).
  apply fle_FR in H1; [|reflexivity|exact N]. apply fle_FR in H2; [|exact N|reflexivity].
  rewrite fZ_0 in H1. destruct (fZ_FR 1) as (_ & R1); [lia|]. rewrite R1 in H2.
  split; [|lra]. apply small_fin; [exact N|]. apply Rabs_le. assert (1 < IZR (2 ^ 33)) by (apply IZR_lt; reflexivity). lra.
Qed.
(** A share c of n, and int(round((hi*n - lo*n)*u + lo*n)) for shares and a draw between 0 and 1. *)
Lemma share_FR c n : unit_num c -> (Z.of_nat n <= 2 ^ 31)%Z ->
  fisfin (fmul c (fZ (Z.of_nat n))) = true /\ 0 <= FR (fmul c (fZ (Z.of_nat n))) <= IZR (Z.of_nat n).
Proof.
  intros Hc Hn. destruct (unit_FR c Hc) as (Fc & Rc). destruct (fZ_FR (Z.of_nat n)) as (Fn & Rn); [lia|].
  destruct (fmul_fin c (fZ (Z.of_nat n)) Fc Fn) as (N & R). rewrite Rn in R.
  assert (0 <= IZR (Z.of_nat n) <= IZR (2 ^ 31)) by (split; apply IZR_le; lia).
  assert (B : 0 <= FR (fmul c (fZ (Z.of_nat n))) <= IZR (Z.of_nat n)).
  { rewrite R, <- Rn, <- fZ_0. apply crnd_bounds; [reflexivity|apply fin_notnan; exact Fn|]. rewrite Rn, fZ_0. nra. }
  split; [|exact B]. apply small_fin; [exact N|]. apply Rabs_le.
  assert (IZR (2 ^ 31) < IZR (2 ^ 33)) by (apply IZR_lt; reflexivity). lra.
Qed.
Lemma mixed_count lo hi u n : unit_num lo -> unit_num hi -> unit_num u -> (Z.of_nat n <= 2 ^ 31)%Z ->
  (0 <= ftrunc (fround (fadd (fmul (fsub (fmul hi (fZ (Z.of_nat n))) (fmul lo (fZ (Z.of_nat n)))) u) (fmul lo (fZ (Z.of_nat n)))))
     <= Z.of_nat n)%Z.
Proof.
  intros H1 H2 Hu Hn. destruct (share_FR lo n H1 Hn) as (Fp & Bp). destruct (share_FR hi n H2 Hn) as (Fq & Bq).
  destruct (unit_FR u Hu) as (Fu & Bu). set (p := fmul lo (fZ (Z.of_nat n))) in *. set (q := fmul hi (fZ (Z.of_nat n))) in *.
  assert (Hm : 0 <= IZR (Z.of_nat n) <= IZR (2 ^ 31)) by (split; apply IZR_le; lia). set (m := IZR (Z.of_nat n)) in *.
  assert (T : IZR (2 ^ 31) * 2 = IZR (2 ^ 32)) by (rewrite <- mult_IZR; reflexivity).
  assert (T' : IZR (2 ^ 32) * 2 = IZR (2 ^ 33)) by (rewrite <- mult_IZR; reflexivity).
  assert (T0 : 1024 < IZR (2 ^ 31)) by (apply IZR_lt; reflexivity).
  destruct (fsub_fin q p Fq Fp) as (Nd & Rd). set (d := fsub q p) in *.
  pose proof (crnd_near (FR q - FR p) ltac:(apply Rabs_le; lra)) as Cd. rewrite <- Rd in Cd.
  assert (Fd : fisfin d = true) by (apply small_fin; [exact Nd|apply Rabs_le; lra]).
  destruct (fmul_fin d u Fd Fu) as (Ne & Re). set (e := fmul d u) in *.
  assert (Bd : - m - / 1024 <= FR d * FR u <= m + / 1024) by nra.
  pose proof (crnd_near (FR d * FR u) ltac:(apply Rabs_le; lra)) as Ce. rewrite <- Re in Ce.
  assert (Fe : fisfin e = true) by (apply small_fin; [exact Ne|apply Rabs_le; lra]).
  destruct (fadd_fin e p Fe Fp) as (Nv & Rv). set (v := fadd e p) in *.
  assert (Bv : - (2 / 1024) <= FR e + FR p <= m + 2 / 1024) by nra.
  pose proof (crnd_near (FR e + FR p) ltac:(apply Rabs_le; lra)) as Cv. rewrite <- Rv in Cv.
  apply ftrunc_fround; [apply small_fin; [exact Nv|apply Rabs_le; lra]|]. fold m. lra.
Qed.
(** int(round(n / 2)) *)
Lemma half_count n : (Z.of_nat n <= 2 ^ 31)%Z ->
  (Z.of_nat n / 2 <= ftrunc (fround (fdiv (fZ (Z.of_nat n)) (fZ 2))) <= Z.of_nat n / 2 + 1)%Z.
Proof.
  intros Hn. set (z := Z.of_nat n) in *. destruct (fZ_FR z) as (Fz & Rz); [lia|]. destruct (fZ_FR 2) as (F2 & R2); [lia|].
  destruct (fdiv_fin (fZ z) (fZ 2) Fz F2) as (N & R); [rewrite R2; lra|]. rewrite Rz, R2 in R.
  replace (IZR z / 2) with (IZR z * bpow radix2 (-1)) in R by (change (bpow radix2 (-1)) with (/ 2); lra).
  rewrite crnd_dyadic in R by lia. change (bpow radix2 (-1)) with (/ 2) in R.
  pose proof (Z.div_mod z 2 ltac:(lia)) as D. pose proof (Z.mod_pos_bound z 2 ltac:(lia)) as Md. set (h := (z / 2)%Z) in *.
  assert (Lz : IZR (2 * h) <= IZR z <= IZR (2 * h + 1)) by (split; apply IZR_le; lia). rewrite plus_IZR, mult_IZR in Lz.
  assert (0 <= IZR z <= IZR (2 ^ 31)) by (split; apply IZR_le; lia).
  assert (IZR (2 ^ 31) < IZR (2 ^ 33)) by (apply IZR_lt; reflexivity).
  apply ftrunc_fround; [apply small_fin; [exact N|apply Rabs_le; lra]|]. rewrite plus_IZR. lra.
Qed.
