(** int(n / (1 + c)) for c between 0 and 1. *)
From Coq Require Import ZArith Reals Lra Lia Psatz.
From Flocq Require Import Core BinarySingleNaN.
From Verif Require Import Prelude Fl FlArith FlInt MAlg MAlg7 FlRound.
Local Open Scope R_scope.

Lemma occupied_count c n : unit_num c -> (Z.of_nat n <= 2 ^ 31)%Z -> (0 <= ftrunc (fdiv (fZ (Z.of_nat n)) (fadd (fZ 1) c)) <= Z.of_nat n)%Z.
Proof.
  intros Hc Hn. destruct (unit_FR c Hc) as (Fc & Rc). destruct (fZ_FR (Z.of_nat n)) as (Fn & Rn); [lia|]. destruct (fZ_FR 1) as (F1 & R1); [lia|]. destruct (fZ_FR 2) as (F2 & R2); [lia|].
  destruct (fadd_fin (fZ 1) c F1 Fc) as (Na & Ra).
  assert (Ba : 1 <= FR (fadd (fZ 1) c) <= 2).
  { rewrite Ra, <- R1, <- R2. apply crnd_bounds; [apply fin_notnan; exact F1|apply fin_notnan; exact F2|]. rewrite R1, R2. lra. }
  assert (Fa : fisfin (fadd (fZ 1) c) = true). { apply small_fin; [exact Na|]. apply Rabs_le. assert (2 < IZR (2 ^ 33)) by (apply (IZR_lt 2); reflexivity). lra. }
  destruct (fdiv_fin (fZ (Z.of_nat n)) (fadd (fZ 1) c) Fn Fa ltac:(lra)) as (N & R). rewrite Rn in R. set (d := FR (fadd (fZ 1) c)) in *.
  assert (0 <= IZR (Z.of_nat n) <= IZR (2 ^ 31)) by (split; apply IZR_le; lia).
  assert (Hq : 0 <= IZR (Z.of_nat n) / d <= IZR (Z.of_nat n)).
  { split; [apply Rmult_le_pos; [lra|apply Rlt_le, Rinv_0_lt_compat; lra]|]. apply Rmult_le_reg_r with d; [lra|]. unfold Rdiv. rewrite Rmult_assoc, Rinv_l by lra. nra. }
  assert (B : 0 <= FR (fdiv (fZ (Z.of_nat n)) (fadd (fZ 1) c)) <= IZR (Z.of_nat n)).
  { rewrite R, <- Rn, <- fZ_0. apply crnd_bounds; [reflexivity|apply fin_notnan; exact Fn|]. rewrite Rn, fZ_0. exact Hq. }
  assert (F : fisfin (fdiv (fZ (Z.of_nat n)) (fadd (fZ 1) c)) = true).
  { apply small_fin; [exact N|]. apply Rabs_le. assert (IZR (2 ^ 31) < IZR (2 ^ 33)) by (apply IZR_lt; reflexivity). lra. }
  rewrite (ftrunc_spec _ F). assert (T : (0 <= Ztrunc (FR (fdiv (fZ (Z.of_nat n)) (fadd (fZ 1) c))) < Z.of_nat n + 1)%Z); [|lia].
  apply Ztrunc_range; [lia|]. rewrite plus_IZR. lra.
Qed.
Lemma occupied_nat c n : unit_num c -> (Z.of_nat n <= 2 ^ 31)%Z -> (Z.to_nat (ftrunc (fdiv (fZ (Z.of_nat n)) (fadd (fZ 1) c))) <= n)%nat.
Proof. intros Hc Hn. pose proof (occupied_count c n Hc Hn). lia. Qed.
