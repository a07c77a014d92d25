(** The energies of the colonies are not negative. *)
From Coq Require Import ZArith Reals Lra Lia Psatz.
From Flocq Require Import Core BinarySingleNaN.
From Verif Require Import Prelude Fl FlArith FlInt MCore MHelp MAlg MAlg7 PHelp FlRound SpecCore MClass24.
Local Open Scope R_scope.

Lemma place_le i l : (place i l <= List.length l)%nat.
Proof. induction l as [|j l IH]; cbn; [lia|]. destruct (j =? i)%nat; lia. Qed.
Lemma square_FR k : (k <= 2 ^ 15)%nat -> fisfin (fmul (fnat k) (fnat k)) = true /\ 0 <= FR (fmul (fnat k) (fnat k)) <= IZR (2 ^ 30).
Proof.
  intros Hk. assert (Hz : (Z.of_nat k <= 2 ^ 15)%Z) by (change (2 ^ 15)%Z with (Z.of_nat (2 ^ 15)); lia). clear Hk. unfold fnat.
  destruct (fZ_FR (Z.of_nat k) ltac:(lia)) as (F & V). destruct (fZ_FR (2 ^ 30) ltac:(lia)) as (F2 & V2).
  destruct (fmul_fin _ _ F F) as (N & R). assert (Hb : 0 <= IZR (Z.of_nat k) <= IZR (2 ^ 15)) by (split; apply IZR_le; lia).
  assert (B : 0 <= FR (fmul (fZ (Z.of_nat k)) (fZ (Z.of_nat k))) <= IZR (2 ^ 30)).
  { rewrite R, <- V2, <- fZ_0. apply crnd_bounds; [reflexivity|apply fin_notnan; exact F2|]. rewrite V, V2, fZ_0.
    assert (T : IZR (2 ^ 15) * IZR (2 ^ 15) = IZR (2 ^ 30)) by (rewrite <- mult_IZR; reflexivity). nra. }
  split; [|exact B]. apply small_fin; [exact N|]. apply Rabs_le. assert (IZR (2 ^ 30) < IZR (2 ^ 33)) by (apply IZR_lt; reflexivity). lra.
Qed.
Lemma gap_FR x y : fisfin x = true -> fisfin y = true -> 0 <= FR y <= FR x -> FR x <= IZR (2 ^ 30) -> fisfin (fsub x y) = true /\ 0 <= FR (fsub x y).
Proof.
  intros Fx Fy H Hx. destruct (fsub_fin x y Fx Fy) as (N & R). destruct (fZ_FR (2 ^ 30) ltac:(lia)) as (F2 & V2).
  assert (B : 0 <= FR (fsub x y) <= IZR (2 ^ 30)).
  { rewrite R, <- V2, <- fZ_0. apply crnd_bounds; [reflexivity|apply fin_notnan; exact F2|]. rewrite V2, fZ_0. lra. }
  split; [|apply B]. apply small_fin; [exact N|]. apply Rabs_le. assert (IZR (2 ^ 30) < IZR (2 ^ 33)) by (apply IZR_lt; reflexivity). lra.
Qed.
Lemma quot_pos a b : fisfin a = true -> fisfin b = true -> 0 <= FR a -> 0 < FR b -> fle (fZ 0) (fdiv a b) = true.
Proof.
  intros Fa Fb Ha Hb. destruct (fdiv_fin a b Fa Fb ltac:(lra)) as (N & R). apply fle_FR; [reflexivity|exact N|]. rewrite R. rewrite fZ_0.
  replace 0 with (crnd (FR (fZ 0))) by (rewrite crnd_FR; [apply fZ_0|reflexivity]). apply crnd_mono. rewrite fZ_0.
  apply Rmult_le_pos; [lra|apply Rlt_le, Rinv_0_lt_compat; lra].
Qed.
Lemma aaa_energy_pos E P n greatness e : argsort_ok (e_argsort E) -> List.length greatness = n -> (n <= 2 ^ 15)%nat ->
  In e (aaa_energy E P n greatness) -> fle (fZ 0) e = true.
Proof.
  intros Ha Hg Hn. unfold aaa_energy. set (sorting := e_argsort E greatness).
  assert (Ls : (List.length sorting <= 2 ^ 15)%nat).
  { destruct (Ha greatness) as [Hp _]. apply Permutation.Permutation_length in Hp. fold sorting in Hp. rewrite seq_length in Hp. lia. }
  set (f := map _ _). assert (Hf : forall x, In x f -> fisfin x = true /\ 0 <= FR x <= IZR (2 ^ 30)).
  { intros x Hx. apply in_map_iff in Hx. destruct Hx as (i & <- & _). apply square_FR. pose proof (place_le i sorting). lia. }
  clearbody f. cbv zeta. destruct (feq _ _) eqn:Ez.
  - intros Hin. apply in_map_iff in Hin. destruct Hin as (x & <- & _). reflexivity.
  - intros Hin. apply in_map_iff in Hin. destruct Hin as (x & <- & Hx). assert (Hne : f <> []) by (intros ->; destruct Hx).
    destruct (fminl_spec f Hne) as (Nm & Im & Um); [intros y Hy; apply fin_notnan, Hf, Hy|].
    destruct (fmaxl_spec f Hne) as (Nx & Ix & Ux); [intros y Hy; apply fin_notnan, Hf, Hy|].
    destruct (Hf _ Im) as (Fm & Bm). destruct (Hf _ Ix) as (Fx & Bx). destruct (Hf _ Hx) as (Fz & Bz). pose proof (Um _ Hx). pose proof (Ux _ Hx).
    destruct (gap_FR (fmaxl f) (fminl f)) as (Fr & Br); [exact Fx|exact Fm|lra|lra|].
    assert (Pr : 0 < FR (fsub (fmaxl f) (fminl f))).
    { destruct Br as [Br|Br]; [exact Br|]. exfalso. assert (T : feq (fsub (fmaxl f) (fminl f)) (fZ 0) = true).
      { apply feq_FR; [apply fin_notnan; exact Fr|reflexivity|]. rewrite fZ_0. symmetry. exact Br. } congruence. }
    destruct (p_mm P); (apply quot_pos; [|exact Fr| |exact Pr]); (apply gap_FR; [assumption|assumption|lra|lra]).
Qed.
