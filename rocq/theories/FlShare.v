(** int(c * n) for a share c between 0 and 1. *)
From Coq Require Import ZArith Reals Lra Lia Psatz.
From Flocq Require Import Core BinarySingleNaN.
From Verif Require Import Prelude Fl FlArith FlInt MAlg MAlg7 FlRound.
Local Open Scope R_scope.

Lemma share_count c n : unit_num c -> (Z.of_nat n <= 2 ^ 31)%Z -> (0 <= ftrunc (fmul c (fZ (Z.of_nat n))) <= Z.of_nat n)%Z.
Proof.
  intros Hc Hn. destruct (share_FR c n Hc Hn) as (F & B). rewrite (ftrunc_spec _ F).
  assert (T : (0 <= Ztrunc (FR (fmul c (fZ (Z.of_nat n)))) < Z.of_nat n + 1)%Z); [|lia].
  apply Ztrunc_range; [lia|]. rewrite plus_IZR. lra.
Qed.
Lemma share_nat c n : unit_num c -> (Z.of_nat n <= 2 ^ 31)%Z -> (Z.to_nat (ftrunc (fmul c (fZ (Z.of_nat n)))) <= n)%nat.
Proof. intros Hc Hn. pose proof (share_count c n Hc Hn). lia. Qed.
Lemma unit_half : unit_num (dec 1 2).
Proof. split; vm_compute; reflexivity. Qed.
