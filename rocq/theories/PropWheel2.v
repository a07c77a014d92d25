(** The conditions of the class theorems on wheels, fields and fitness values: they follow from bounds on the objective and
    on the draws, and a concrete problem meets each of them. *)
From Coq Require Import Reals Lra.
From Verif Require Import Prelude Fl FlArith FlInt FlWheel FlRound FlQueue MCore MHelp MAlg MAlg5 MClass8 MClass10 SpecCore SpecRun PHelp PSelect PLogic PSolve PRun PSpace SpecAlg PAlg8 PropHelp Demo PropWheel AClass8c AClass10 AClass20 AClass5b.
From Flocq Require Import Core BinarySingleNaN.
Local Open Scope R_scope.

(** ** The hand-written wheel (SBO.py:176-210) of the parallel modes *)
Lemma first_above_ok r l : forall acc i, l <> [] -> flt r (fold_left fadd l acc) = true -> exists k, first_above r acc i l = Ok k.
Proof.
  induction l as [|x l IH]; intros acc i NE H; [congruence|]. cbn [first_above fold_left] in *. destruct (flt r (fadd acc x)) eqn:C; [eauto|].
  destruct l as [|y l]; [cbn in H; congruence|]. apply IH; [discriminate|exact H].
Qed.
Lemma bower_weight f : fair f -> let w := if flt f (fZ 0) then fadd (fZ 1) (fabs f) else fdiv (fZ 1) (fadd (fZ 1) (fabs f)) in
  pos_fin w /\ FR w <= bpow radix2 870 /\ 0 < FR w.
Proof.
  intros H. destruct (fair_FR f H) as [Ff Bf]. assert (Fa : fisfin (fabs f) = true) by (rewrite fisfin_abs; exact Ff).
  assert (Va : 0 <= FR (fabs f) <= bpow radix2 860) by (rewrite FR_abs; split; [apply Rabs_pos|apply Rabs_le; lra]).
  assert (F1 : fisfin (fZ 1) = true) by reflexivity. assert (V1 : FR (fZ 1) = 1) by apply (fZ_FR 1 ltac:(lia)).
  assert (O : 1 <= bpow radix2 860) by (change 1 with (bpow radix2 0); apply bpow_le; lia).
  assert (E861 : bpow radix2 861 = 2 * bpow radix2 860) by (change 861%Z with (1 + 860)%Z; rewrite bpow_plus; reflexivity).
  assert (Z1 : bpow radix2 861 <= big) by (apply bpow_le; lia).
  assert (Z2 : bpow radix2 861 <= bpow radix2 870) by (apply bpow_le; lia).
  destruct (fpow_FR 1 861) as [F2 V2]; [reflexivity|split; discriminate|]. rewrite Rmult_1_l in V2.
  destruct (fadd_fin (fZ 1) (fabs f) F1 Fa) as [N E]. rewrite V1 in E.
  assert (Bd := crnd_bounds (1 + FR (fabs f)) (fZ 1) (fpow 1 861) eq_refl (fin_notnan _ F2)). rewrite V1, V2, <- E in Bd.
  assert (By : 1 <= FR (fadd (fZ 1) (fabs f)) <= bpow radix2 861) by (apply Bd; lra).
  set (y := fadd (fZ 1) (fabs f)) in *. clearbody y.
  assert (Fy : fisfin y = true) by (apply fin_big; [exact N|apply Rabs_le; lra]).
  cbv zeta. destruct (flt f (fZ 0)); [split; [split; [exact Fy|lra]|lra]|].
  destruct (fdiv_fin (fZ 1) y F1 Fy) as [Nd Ed]; [lra|]. rewrite V1 in Ed.
  destruct (fpow_FR 1 (-861)) as [F3 V3]; [reflexivity|split; discriminate|]. rewrite Rmult_1_l in V3.
  assert (I : bpow radix2 (-861) <= 1 / FR y <= 1).
  { unfold Rdiv. rewrite Rmult_1_l. split.
    - change (-861)%Z with (- (861))%Z. rewrite bpow_opp. apply Rinv_le; [lra|apply By].
    - rewrite <- Rinv_1. apply Rinv_le; lra. }
  assert (Bq := crnd_bounds (1 / FR y) (fpow 1 (-861)) (fZ 1) (fin_notnan _ F3) eq_refl). rewrite V1, V3, <- Ed in Bq. apply Bq in I.
  assert (P3 := bpow_gt_0 radix2 (-861)).
  split; [split; [apply fin_big; [exact Nd|apply Rabs_le; lra]|lra]|lra].
Qed.
(** Every draw at most 1 - 2^-26 and moderate fitness values: the hand-written wheel stops. *)
Definition low_draws (E : env) : Prop := forall k, fle (e_u E k) (fsub (fZ 1) (fpow 1 (-26))) = true.
Lemma low_FR : FR (fsub (fZ 1) (fpow 1 (-26))) = 1 - bpow radix2 (-26).
Proof.
  rewrite FR_fin by reflexivity. simpl. unfold F2R. simpl. lra.
Qed.
Theorem C65_OriginalSBO_wheel : forall E P n feas, low_draws E -> fair_values P feas -> (Z.of_nat n <= 2 ^ 20)%Z -> bower_ok E P n feas.
Proof.
  intros E P n feas HU HF Hn k l NE HL HV. unfold bower_probs.
  set (fit := map _ l). assert (Lf : List.length fit = List.length l) by apply map_length.
  assert (G : forall w, In w fit -> pos_fin w /\ FR w <= bpow radix2 870 /\ 0 < FR w).
  { intros w Hw. unfold fit in Hw. apply in_map_iff in Hw as (f & <- & Hf). unfold fit_values in HV. rewrite Forall_forall in HV. destruct (HV f Hf) as (x & Hx & ->).
    apply bower_weight, HF, Hx. }
  assert (NEf : fit <> []) by (intros Z; rewrite Z in Lf; destruct l; [congruence|discriminate]).
  clearbody fit. destruct (probs_sum fit) as (P1 & P2 & P3).
  - apply Forall_forall. intros w Hw. apply G, Hw.
  - rewrite Lf, INR_IZR_INZ. unfold two20. change (bpow radix2 20) with (IZR (2 ^ 20)). apply IZR_le. lia.
  - apply Forall_forall. intros w Hw. apply G, Hw.
  - destruct fit as [|w fit]; [congruence|]. exists w. split; [left; reflexivity|apply G; left; reflexivity].
  - apply first_above_ok; [destruct fit; [congruence|discriminate]|]. fold (fsuml (map (fun f => fdiv f (fsuml fit)) fit)).
    specialize (HU k). destruct (fle_true_nan _ _ HU) as [Nu _]. apply fle_FR in HU; [|exact Nu|reflexivity]. rewrite low_FR in HU.
    apply flt_FR; [exact Nu|apply fin_notnan; exact P2|]. apply Rabs_le_inv in P3.
    assert (L : bpow radix2 (-27) < bpow radix2 (-26)) by (apply bpow_lt; lia). lra.
Qed.
(** ** DMOA: the exponential gives moderate numbers *)
Theorem C65_DMOA_wheel : forall E P n feas, unit_draws E -> (forall v, fair (exp_ E v)) -> (Z.of_nat n <= 2 ^ 20)%Z -> mongoose_ok E P n feas.
Proof.
  intros E P n feas HU HE Hn l NE HL HV A X s. apply C44_total; [exact HU|destruct l; [congruence|discriminate]|rewrite map_length; lia|].
  apply Forall_forall. intros y Hy. apply in_map_iff in Hy as (f & <- & _). apply HE.
Qed.

(** ** A concrete problem *)
(** One plus the sphere function, cut to [1, 1000]; NaN gives 1000. *)
Definition capped (x : vec) : f64 := let s := fadd (fZ 1) (sphere x) in if fle (fZ 1) s && fle s (fZ 1000) then s else fZ 1000.
Definition len2 (x : vec) : Prop := List.length x = 2%nat.
Lemma capped_range x : fle (fZ 1) (capped x) = true /\ fle (capped x) (fZ 1000) = true.
Proof.
  unfold capped. set (s := fadd (fZ 1) (sphere x)). clearbody s. cbv zeta.
  destruct (fle (fZ 1) s) eqn:A; [|split; reflexivity]. destruct (fle s (fZ 1000)) eqn:B; [|split; reflexivity]. cbn [andb]. auto.
Qed.
Lemma between_fair x : fle (fZ 0) x = true -> fle x (fZ 1000) = true -> fair x.
Proof. intros A B. split; eapply fle_trans; eauto; vm_compute; reflexivity. Qed.
Lemma demo_fit mm save x : fitx (demo_prob mm capped save) x = capped x.
Proof. change (fitx (demo_prob mm capped save) x) with (fmul (fZ 1) (capped x)). apply fmul_1. Qed.
Example fair_values_case mm save : fair_values (demo_prob mm capped save) len2.
Proof. intros x _. rewrite demo_fit. destruct (capped_range x) as [A B]. apply between_fair; [|exact B]. eapply fle_trans; [|exact A]. reflexivity. Qed.
Lemma demo_u k : exists m, (m < 10)%nat /\ e_u demo_env k = fdiv (fZ (Z.of_nat m)) (fZ 10).
Proof. exists ((k * 7 + 3) mod 10)%nat. split; [apply Nat.mod_upper_bound; lia|reflexivity]. Qed.
Lemma demo_unit : unit_draws demo_env.
Proof. intros k. destruct (demo_u k) as (m & Hm & ->). do 10 (destruct m as [|m]; [split; vm_compute; reflexivity|]). lia. Qed.
Lemma demo_low : low_draws demo_env.
Proof. intros k. destruct (demo_u k) as (m & Hm & ->). do 10 (destruct m as [|m]; [vm_compute; reflexivity|]). lia. Qed.
(** The wheel conditions, for every population size up to 2^20. *)
Example wheel_ok_case mm save n : (Z.of_nat n <= 2 ^ 20)%Z -> wheel_ok demo_env (demo_prob mm capped save) n len2.
Proof. apply C44_wheel_ok; [apply demo_unit|apply fair_values_case]. Qed.
Example bower_ok_case mm save n : (Z.of_nat n <= 2 ^ 20)%Z -> bower_ok demo_env (demo_prob mm capped save) n len2.
Proof. apply C65_OriginalSBO_wheel; [apply demo_low|apply fair_values_case]. Qed.
Example moderate_case mm save : moderate (demo_prob mm capped save) len2.
Proof.
  intros x _. rewrite demo_fit. destruct (capped_range x) as [A B]. split; [eapply fle_trans; [|exact A]; vm_compute; reflexivity|].
  destruct (fle_true_nan _ _ B) as [N _]. apply fle_FR in B; [|exact N|reflexivity]. rewrite (proj2 (fZ_FR 1000 ltac:(lia))) in B.
  apply flt_FR; [exact N|reflexivity|]. unfold finf. rewrite FR_pinf. eapply Rle_lt_trans; [exact B|].
  apply Rlt_le_trans with (bpow radix2 10); [simpl; lra|]. apply bpow_le. discriminate.
Qed.
Example opposite_ok_case mm save : opposite_ok (demo_prob mm capped save) len2.
Proof. intros x _. reflexivity. Qed.
Example clip_ok_case mm save : clip_ok (demo_prob mm capped save) len2.
Proof. intros x. reflexivity. Qed.
Example any_array_case mm save : any_array (demo_prob mm capped save) len2.
Proof. intros x H. exact H. Qed.
(** An environment whose functions give numbers in [0, 1]: the first argument cut to that range. *)
Definition cut01 (v : f64) : f64 := if fle (fZ 0) v && fle v (fZ 1) then v else fZ 1.
Definition cut_env : env := mkEnv (e_argsort demo_env) (e_u demo_env) (e_g demo_env) (e_i demo_env) (fun _ l => cut01 (nth 0 l (fZ 0))) (e_time demo_env) (e_order demo_env).
Lemma cut01_range v : fle (fZ 0) (cut01 v) = true /\ fle (cut01 v) (fZ 1) = true.
Proof. unfold cut01. destruct (fle (fZ 0) v) eqn:A; [|split; reflexivity]. destruct (fle v (fZ 1)) eqn:B; [|split; reflexivity]. cbn [andb]. auto. Qed.
Example mongoose_ok_case P n feas : (Z.of_nat n <= 2 ^ 20)%Z -> mongoose_ok cut_env P n feas.
Proof.
  apply C65_DMOA_wheel; [exact demo_unit|]. intros v. unfold exp_. cbn [e_fun cut_env]. destruct (cut01_range v) as [A B].
  cbn [nth]. apply between_fair; [exact A|]. eapply fle_trans; [exact B|]. reflexivity.
Qed.
(** Two Boolean variables: every position is corrected to zeros and ones.  On this problem the percentage of OriginalESO lies
    between 0 and 100. *)
Definition bit (v : f64) : f64 := if flt (fZ 0) v then fZ 1 else fZ 0.
Definition bit_prob (mm : minmax) (save : bool) : problem :=
  mkProblem [fZ 0; fZ 0] [fZ 1; fZ 1] mm (fun x => [capped x]) None (fun _ x => [bit (vget x 0); bit (vget x 1)]) (fun k => [fZ 1; fZ 0]) save.
Definition is_bit (v : f64) : Prop := v = fZ 0 \/ v = fZ 1.
Definition bits (x : vec) : Prop := List.length x = 2%nat /\ forall i, (i < 2)%nat -> is_bit (vget x i).
Lemma bit_bit v : is_bit (bit v). Proof. unfold bit, is_bit. destruct (flt _ v); auto. Qed.
Example bit_problem_ok mm save : problem_ok (bit_prob mm save) bits.
Proof.
  split.
  - intros k x _. split; [reflexivity|]. intros [|[|i]] Hi; [apply bit_bit|apply bit_bit|lia].
  - intros k. split; [reflexivity|]. intros [|[|i]] Hi; [right; reflexivity|left; reflexivity|lia].
Qed.
Lemma fmaxl_in l : l <> [] -> Forall is_bit l -> is_bit (fmaxl l) /\ is_bit (fminl l).
Proof.
  intros NE H. rewrite Forall_forall in H. assert (NN : forall x, In x l -> fisnan x = false) by (intros x Hx; destruct (H x Hx) as [-> | ->]; reflexivity).
  destruct (fmaxl_spec l NE NN) as (_ & M & _). destruct (fminl_spec l NE NN) as (_ & W & _). auto.
Qed.
Lemma one_minus : fsub (fZ 1) (fZ 0) = fZ 1.
Proof.
  assert (V1 : FR (fZ 1) = 1) by apply (fZ_FR 1 ltac:(lia)).
  destruct (fsub_fin (fZ 1) (fZ 0) eq_refl eq_refl) as [N E]. rewrite fZ_0, Rminus_0_r, crnd_FR in E by reflexivity.
  destruct (FR_inj (fsub (fZ 1) (fZ 0)) (fZ 1) N eq_refl E) as [H|[_ H]]; [exact H|lra].
Qed.
Lemma percent_ok v : fle (fZ 0) v = true -> fle v (fZ 1) = true ->
  let q := fmul (fdiv (fdiv v (fZ 1)) (fZ 2)) (fZ 100) in fle (fZ 0) q = true /\ fle q (fZ 100) = true.
Proof.
  intros A B. destruct (unit_FR v (conj A B)) as [Fv Vv].
  assert (V1 : FR (fZ 1) = 1) by apply (fZ_FR 1 ltac:(lia)). assert (V2 : FR (fZ 2) = 2) by apply (fZ_FR 2 ltac:(lia)). assert (V100 : FR (fZ 100) = 100) by apply (fZ_FR 100 ltac:(lia)).
  assert (U1 : unit_num (fdiv v (fZ 1))) by (apply share_of; [exact Fv|reflexivity|lra|lra]). destruct (unit_FR _ U1) as [F1 W1].
  assert (U2 : unit_num (fdiv (fdiv v (fZ 1)) (fZ 2))) by (apply share_of; [exact F1|reflexivity|lra|lra]). destruct (unit_FR _ U2) as [F2 W2].
  cbv zeta. destruct (fmul_fin _ (fZ 100) F2 eq_refl) as [N E].
  assert (Bd := crnd_bounds (FR (fdiv (fdiv v (fZ 1)) (fZ 2)) * FR (fZ 100)) (fZ 0) (fZ 100) eq_refl eq_refl). rewrite <- E, V100, fZ_0 in Bd.
  assert (Bd' := Bd ltac:(lra)). split; apply fle_FR; auto; rewrite ?fZ_0, ?V100; lra.
Qed.
Example field_ok_case mm save n : (0 < n)%nat -> field_ok cut_env (bit_prob mm save) n bits.
Proof.
  intros Hn xs fits HL HX HP.
  assert (NE : xs <> []) by (intros ->; cbn in HL; lia).
  assert (C : forall j, (j < 2)%nat -> let d := fsub (fmaxl (map (fun x => vget x j) xs)) (fminl (map (fun x => vget x j) xs)) in d = fZ 1 \/ fle d (fZ 0) = true).
  { intros j Hj. destruct (fmaxl_in (map (fun x => vget x j) xs)) as [M W].
    - destruct xs; [congruence|discriminate].
    - rewrite Forall_forall in *. intros y Hy. apply in_map_iff in Hy as (x & <- & Hx). apply (HX x Hx), Hj.
    - cbv zeta. destruct M as [-> | ->], W as [-> | ->]; [right; vm_compute; reflexivity|right; vm_compute; reflexivity|left; apply one_minus|right; vm_compute; reflexivity]. }
  assert (PT : eso_ptp (bit_prob mm save) xs = fZ 1).
  { unfold eso_ptp in *. change (n_dims (bit_prob mm save)) with 2%nat in *. cbn [seq map] in *.
    destruct (C 0%nat ltac:(lia)) as [C0|C0], (C 1%nat ltac:(lia)) as [C1|C1]; cbv zeta in C0, C1.
    - rewrite C0, C1. unfold fmaxl. cbn [hd tl fold_left]. change (fisnan (fZ 1)) with false. cbv iota. change (flt (fZ 1) (fZ 1)) with false. reflexivity.
    - rewrite C0. unfold fmaxl at 1. cbn [hd tl fold_left]. destruct (fle_true_nan _ _ C1) as [N1 _]. rewrite N1. change (fisnan (fZ 1)) with false. cbv iota.
      destruct (flt (fZ 1) _) eqn:L; [|reflexivity]. exfalso. apply flt_FR in L; [|reflexivity|exact N1]. apply fle_FR in C1; [|exact N1|reflexivity].
      rewrite (proj2 (fZ_FR 1 ltac:(lia))) in L. rewrite fZ_0 in C1. lra.
    - rewrite C1. unfold fmaxl at 1. cbn [hd tl fold_left]. destruct (fle_true_nan _ _ C0) as [N1 _]. rewrite N1. change (fisnan (fZ 1)) with false. cbv iota.
      destruct (flt _ (fZ 1)) eqn:L; [reflexivity|]. exfalso. apply flt_false_FR in L; [|exact N1|reflexivity]. apply fle_FR in C0; [|exact N1|reflexivity].
      rewrite (proj2 (fZ_FR 1 ltac:(lia))) in L. rewrite fZ_0 in C0. lra.
    - exfalso. unfold fmaxl at 1 in HP. cbn [hd tl fold_left] in HP. destruct (fisnan _); [congruence|]. destruct (fisnan _); [congruence|]. destruct (flt _ _); congruence. }
  rewrite PT. unfold np_percentile. destruct (percent_ok (eso_std cut_env (bit_prob mm save) xs)) as [A B].
  - unfold eso_std, sqrt_. cbn [e_fun cut_env]. apply cut01_range.
  - unfold eso_std, sqrt_. cbn [e_fun cut_env]. apply cut01_range.
  - cbv zeta in A, B. rewrite A, B. cbn [andb]. eexists. reflexivity.
Qed.

Print Assumptions C65_OriginalSBO_wheel.
Print Assumptions C65_DMOA_wheel.
