(** A fifth of a number, computed in floating point, is at most a quarter of it. *)
From Coq Require Import ZArith Reals Lra Lia Psatz.
From Flocq Require Import Core BinarySingleNaN.
From Verif Require Import Prelude Fl FlArith FlInt FlRound.
Local Open Scope R_scope.
Lemma crnd_upto r z e : 0 <= r <= IZR z * bpow radix2 e -> (Z.abs z < 2 ^ 53)%Z -> (-1074 <= e <= 900)%Z -> 0 <= crnd r <= IZR z * bpow radix2 e.
Proof.
  intros H Hz He. split.
  - replace 0 with (crnd (IZR 0 * bpow radix2 0)) by (rewrite crnd_dyadic by lia; lra). apply crnd_mono. lra.
  - rewrite <- (crnd_dyadic z e Hz He). apply crnd_mono. lra.
Qed.
Lemma fifth_count n u : unit_num u -> (Z.of_nat n <= 2 ^ 31)%Z ->
  (0 <= 4 * ftrunc (fmul (fZ (Z.of_nat n)) (fadd (fmul (fdiv (fZ 1) (fZ 10)) u) (fdiv (fZ 1) (fZ 10)))) <= Z.of_nat n)%Z.
Proof.
  intros Hu Hn. destruct (unit_FR u Hu) as (Fu & Bu).
  destruct (fZ_FR 1) as (F1 & R1); [lia|]. destruct (fZ_FR 10) as (F10 & R10); [lia|].
  destruct (fZ_FR (Z.of_nat n)) as (Fn & Rn); [lia|].
  assert (S : forall x (b : R), fisnan x = false -> 0 <= FR x <= b -> b <= IZR (2 ^ 31) -> fisfin x = true).
  { intros x b N B Hb. apply small_fin; [exact N|]. apply Rabs_le. assert (IZR (2 ^ 31) < IZR (2 ^ 33)) by (apply IZR_lt; reflexivity). lra. }
  assert (B1 : 1 <= IZR (2 ^ 31)) by (apply IZR_le; lia).
  destruct (fdiv_fin (fZ 1) (fZ 10) F1 F10) as (N & Rt); [rewrite R10; lra|]. set (t := fdiv (fZ 1) (fZ 10)) in *. rewrite R1, R10 in Rt.
  assert (E3 : IZR 1 * bpow radix2 (-3) = / 8) by (change (bpow radix2 (-3)) with (/ 8); lra).
  assert (E2 : IZR 1 * bpow radix2 (-2) = / 4) by (change (bpow radix2 (-2)) with (/ 4); lra).
  pose proof (crnd_upto (1 / 10) 1 (-3) ltac:(lra) ltac:(lia) ltac:(lia)) as T. rewrite <- Rt, E3 in T.
  assert (Ft : fisfin t = true) by (eapply S; [exact N|exact T|lra]).
  destruct (fmul_fin t u Ft Fu) as (N2 & R2). set (v := fmul t u) in *.
  pose proof (crnd_upto (FR t * FR u) 1 (-3) ltac:(nra) ltac:(lia) ltac:(lia)) as V. rewrite <- R2, E3 in V.
  assert (Fv : fisfin v = true) by (eapply S; [exact N2|exact V|lra]).
  destruct (fadd_fin v t Fv Ft) as (N3 & R3). set (c := fadd v t) in *.
  pose proof (crnd_upto (FR v + FR t) 1 (-2) ltac:(lra) ltac:(lia) ltac:(lia)) as C. rewrite <- R3, E2 in C.
  assert (Fc : fisfin c = true) by (eapply S; [exact N3|exact C|lra]).
  destruct (fmul_fin (fZ (Z.of_nat n)) c Fn Fc) as (N4 & R4). set (p := fmul (fZ (Z.of_nat n)) c) in *. rewrite Rn in R4.
  assert (Bn : 0 <= IZR (Z.of_nat n) <= IZR (2 ^ 31)) by (split; apply IZR_le; lia).
  assert (En : IZR (Z.of_nat n) * bpow radix2 (-2) = IZR (Z.of_nat n) / 4) by (change (bpow radix2 (-2)) with (/ 4); lra).
  pose proof (crnd_upto (IZR (Z.of_nat n) * FR c) (Z.of_nat n) (-2) ltac:(nra) ltac:(lia) ltac:(lia)) as Q. rewrite <- R4, En in Q.
  assert (Fp : fisfin p = true) by (eapply S; [exact N4|exact Q|lra]).
  rewrite (ftrunc_spec _ Fp). rewrite Ztrunc_floor by lra.
  assert (0 <= Zfloor (FR p))%Z by (apply Zfloor_lub; lra). split; [lia|].
  apply le_IZR. rewrite mult_IZR. pose proof (Zfloor_lb (FR p)). lra.
Qed.
