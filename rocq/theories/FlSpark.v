(** The number of sparks of a firework. *)
From Coq Require Import ZArith Reals Lra Lia Psatz.
From Flocq Require Import Core BinarySingleNaN.
From Verif Require Import Prelude Fl FlArith FlInt MAlg MAlg7 FlRound MClass20 MClass24.
Local Open Scope R_scope.

Lemma sparks_of c m k : fisfin c = true -> 0 <= FR c <= IZR (Z.of_nat m) ->
  (let* z := to_int (fround c) in Ok (Z.to_nat (z + 1))) = Ok k -> (1 <= k <= S m)%nat.
Proof.
  intros F H. pose proof (ftrunc_fround c 0 (Z.of_nat m) F ltac:(lra)) as B. unfold to_int.
  destruct (fisnan _); [discriminate|]. destruct (flt _ _); [|discriminate]. cbn [bind]. intros [= <-]. lia.
Qed.
Lemma fround_nan x : fisnan x = true -> fisnan (fround x) = true.
Proof. destruct x; cbn; congruence. Qed.
Lemma fa_sparks_count pa pb mx ms si k : unit_num pa -> unit_num pb -> (Z.of_nat mx <= 2 ^ 31)%Z -> (Z.of_nat ms <= 2 ^ 31)%Z ->
  fa_sparks pa pb mx ms si = Ok k -> (1 <= k <= S (Nat.max mx ms))%nat.
Proof.
  intros Ha Hb H1 H2. unfold fa_sparks, fnat. destruct (share_FR pa mx Ha H1) as (Fa & Ba). destruct (share_FR pb mx Hb H1) as (Fb & Bb). destruct (share_FR pb ms Hb H2) as (Fc & Bc).
  assert (M1 : IZR (Z.of_nat mx) <= IZR (Z.of_nat (Nat.max mx ms))) by (apply IZR_le; lia).
  assert (M2 : IZR (Z.of_nat ms) <= IZR (Z.of_nat (Nat.max mx ms))) by (apply IZR_le; lia).
  destruct (flt si _) eqn:E1; [apply sparks_of; [exact Fa|lra]|]. destruct (flt _ si) eqn:E2; [apply sparks_of; [exact Fb|lra]|].
  destruct (fisnan si) eqn:N; [unfold to_int; rewrite (fround_nan _ N); discriminate|].
  apply flt_false_le in E1; [|exact N|apply fin_notnan; exact Fa]. apply flt_false_le in E2; [|apply fin_notnan; exact Fc|exact N].
  apply fle_FR in E1; [|apply fin_notnan; exact Fa|exact N]. apply fle_FR in E2; [|exact N|apply fin_notnan; exact Fc].
  apply sparks_of; [|lra]. apply small_fin; [exact N|]. apply Rabs_le.
  assert (IZR (Z.of_nat ms) <= IZR (2 ^ 31)) by (apply IZR_le; lia). assert (IZR (2 ^ 31) < IZR (2 ^ 33)) by (apply IZR_lt; reflexivity). lra.
Qed.
