(** Exploration percentages, roulette wheel in binary64, tournament, crossover and opposition. *)
From Coq Require Import Reals Lra.
From Verif Require Import Prelude Fl FlArith FlInt MCore MHelp SpecCore PHelp PSelect PLogic PSpace Demo.
From Flocq Require Import Core BinarySingleNaN.
Local Open Scope R_scope.

(** * C10 *)
Section Track.
Context {A X : Type}.
Implicit Types s : st A X.

Lemma fZ100 : fisfin (fZ 100) = true /\ FR (fZ 100) = 100. Proof. apply (fZ_FR 100). lia. Qed.
Lemma pct d m : fisfin d = true -> fisfin m = true -> 0 <= FR d <= FR m -> 0 < FR m ->
  let e := fmul (fZ 100) (fdiv d m) in
  let t := fsub (fZ 100) e in
  fisfin e = true /\ fisfin t = true /\ 0 <= FR e <= 100 /\ 0 <= FR t <= 100 /\ (FR d = FR m -> FR e = 100).
Proof.
  intros Fd Fm [L U] P. destruct fZ100 as [F1 V1]. assert (V0 := fZ_0).
  assert (V2 : FR (fZ 1) = 1) by apply (fZ_FR 1 ltac:(lia)).
  assert (F2 : fisfin (fZ 1) = true) by reflexivity. assert (F0 : fisfin (fZ 0) = true) by reflexivity.
  destruct (fdiv_fin d m Fd Fm) as [N Q]; [lra|].
  assert (R1 : 0 <= FR d / FR m <= 1).
  { split; [apply Rmult_le_pos; [lra|apply Rlt_le, Rinv_0_lt_compat; lra]|].
    apply Rmult_le_reg_r with (FR m); [lra|]. unfold Rdiv. rewrite Rmult_assoc, Rinv_l; lra. }
  assert (R2 : 0 <= FR (fdiv d m) <= 1).
  { rewrite Q. rewrite <- V0, <- V2. apply crnd_bounds; try reflexivity. rewrite V0, V2. exact R1. }
  assert (BB : 1 < B). { rewrite <- V2. assert (Z := proj1 (FR_fin_iff (fZ 1) eq_refl) F2). apply Z. }
  assert (B100 : 100 < B). { rewrite <- V1. assert (Z := proj1 (FR_fin_iff (fZ 100) eq_refl) F1). apply Z. }
  assert (Fq : fisfin (fdiv d m) = true) by (apply (FR_fin_iff _ N); lra).
  destruct (fmul_fin (fZ 100) (fdiv d m) F1 Fq) as [N1 Q1]. rewrite V1 in Q1.
  assert (R3 : 0 <= FR (fmul (fZ 100) (fdiv d m)) <= 100).
  { assert (W := crnd_bounds (100 * FR (fdiv d m)) (fZ 0) (fZ 100) eq_refl eq_refl). rewrite V0, V1 in W. rewrite Q1. apply W. lra. }
  cbv zeta. set (e := fmul (fZ 100) (fdiv d m)) in *.
  assert (Fe : fisfin e = true) by (apply (FR_fin_iff _ N1); lra).
  destruct (fsub_fin (fZ 100) e F1 Fe) as [N2 Q2]. rewrite V1 in Q2.
  assert (R4 : 0 <= FR (fsub (fZ 100) e) <= 100).
  { assert (W := crnd_bounds (100 - FR e) (fZ 0) (fZ 100) eq_refl eq_refl). rewrite V0, V1 in W. rewrite Q2. apply W. lra. }
  split; [exact Fe|]. split; [apply (FR_fin_iff _ N2); lra|]. split; [exact R3|]. split; [exact R4|].
  intros E. rewrite Q1, Q. replace (FR d / FR m) with (FR (fZ 1)) by (rewrite V2, E; field; lra).
  rewrite crnd_FR by reflexivity. rewrite V2. replace (100 * 1) with (FR (fZ 100)) by (rewrite V1; ring). rewrite crnd_FR by reflexivity. exact V1.
Qed.

Definition pos_list (l : list f64) : Prop := Forall (fun d => fisfin d = true /\ fle (fZ 0) d = true) l.
Theorem C10_percentages : forall s, pos_list (h_div (s_hist s)) ->
  (exists d, In d (h_div (s_hist s)) /\ flt (fZ 0) d = true) ->
  exists s', track_optimize_process s = Ok (tt, s') /\
    let ds := h_div (s_hist s) in let ex := h_expl (s_hist s') in let et := h_expt (s_hist s') in
    List.length ex = List.length ds /\ List.length et = List.length ds /\
    forall i, (i < List.length ds)%nat ->
      let e := nth i ex fnan in let t := nth i et fnan in
      fle (fZ 0) e = true /\ fle e (fZ 100) = true /\ fle (fZ 0) t = true /\ fle t (fZ 100) = true /\
      t = fsub (fZ 100) e /\
      ((forall d, In d ds -> fle d (nth i ds fnan) = true) -> feq e (fZ 100) = true /\ feq t (fZ 0) = true).
Proof.
  intros s HP (d0 & Hd0 & P0). unfold track_optimize_process, bindM, get.
  destruct (h_div (s_hist s)) as [|a ds'] eqn:ED; [destruct Hd0|]. rewrite <- ED in *. clear a ds' ED.
  unfold set_hist. eexists. split; [reflexivity|]. cbn [s_hist h_expl h_expt].
  set (ds := h_div (s_hist s)) in *. clearbody ds. unfold pos_list in HP. rewrite Forall_forall in HP.
  assert (NE : ds <> []) by (intros E; rewrite E in Hd0; destruct Hd0).
  assert (NN : forall x, In x ds -> fisnan x = false) by (intros x Hx; apply fin_notnan, HP, Hx).
  destruct (fmaxl_spec ds NE NN) as (MN & MI & MU). set (m := fmaxl ds) in *. destruct (HP m MI) as [Fm _].
  assert (Pm : 0 < FR m). { destruct (flt_true_nan _ _ P0) as [_ N0]. apply flt_FR in P0; auto. rewrite fZ_0 in P0. specialize (MU _ Hd0). lra. }
  split; [rewrite map_length; reflexivity|]. split; [rewrite !map_length; reflexivity|].
  intros i Hi. set (d := nth i ds fnan). assert (Hd : In d ds) by (apply nth_In; exact Hi).
  set (f := fun d : f64 => fmul (fZ 100) (fdiv d m)).
  assert (E1 : nth i (map f ds) fnan = f d).
  { rewrite (nth_indep _ fnan (f fnan)) by (rewrite map_length; exact Hi). apply (map_nth f). }
  assert (E2 : nth i (map (fun e => fsub (fZ 100) e) (map f ds)) fnan = fsub (fZ 100) (f d)).
  { rewrite map_map. rewrite (nth_indep _ fnan (fsub (fZ 100) (f fnan))) by (rewrite map_length; exact Hi).
    apply (map_nth (fun x => fsub (fZ 100) (f x))). }
  cbv zeta. fold f. rewrite E1, E2.
  destruct (HP d Hd) as [Fd Ld]. assert (Nd := NN d Hd). apply fle_FR in Ld; auto. rewrite fZ_0 in Ld.
  destruct (pct d m Fd Fm (conj Ld (MU d Hd)) Pm) as (G1 & G2 & G3 & G4 & G5). fold (f d) in *.
  assert (NG1 := fin_notnan _ G1). assert (NG2 := fin_notnan _ G2). destruct fZ100 as [_ V1].
  assert (V0 := fZ_0).
  split; [apply fle_FR; auto; lra|]. split; [apply fle_FR; auto; lra|]. split; [apply fle_FR; auto; lra|]. split; [apply fle_FR; auto; lra|].
  split; [reflexivity|]. intros HM. assert (E : FR d = FR m).
  { apply Rle_antisym; [apply MU; exact Hd|]. specialize (HM m MI). apply fle_FR in HM; auto. }
  specialize (G5 E). split; [apply feq_FR; auto; lra|]. apply feq_FR; auto.
  rewrite V0. assert (F100 : fisfin (fZ 100) = true) by reflexivity.
  rewrite (proj2 (fsub_fin (fZ 100) (f d) F100 G1)), V1, G5, Rminus_diag_eq by reflexivity. apply crnd_0.
Qed.
(** Every diversity zero: every percentage is NaN. *)
Theorem C10_all_zero : forall s, h_div (s_hist s) <> [] -> Forall (fun d => feq d (fZ 0) = true) (h_div (s_hist s)) ->
  exists s', track_optimize_process s = Ok (tt, s') /\
    Forall (fun e => fisnan e = true) (h_expl (s_hist s')) /\ Forall (fun e => fisnan e = true) (h_expt (s_hist s')) /\
    List.length (h_expl (s_hist s')) = List.length (h_div (s_hist s)) /\ List.length (h_expt (s_hist s')) = List.length (h_div (s_hist s)).
Proof.
  intros s NE HZ. unfold track_optimize_process, bindM, get.
  destruct (h_div (s_hist s)) as [|a ds'] eqn:ED; [congruence|]. rewrite <- ED in *. clear a ds' ED.
  unfold set_hist. eexists. split; [reflexivity|]. cbn [s_hist h_expl h_expt].
  set (ds := h_div (s_hist s)) in *. clearbody ds. rewrite Forall_forall in HZ.
  assert (Q : forall x, In x ds -> exists b, x = B754_zero b).
  { intros x Hx. specialize (HZ x Hx). destruct x as [b|b| |b m e Hb]; [eauto| | |]; unfold feq, Beqb in HZ; simpl in HZ; try destruct b; try discriminate. }
  assert (NN : forall x, In x ds -> fisnan x = false) by (intros x Hx; destruct (Q x Hx) as [b ->]; reflexivity).
  destruct (fmaxl_spec ds NE NN) as (_ & MI & _). destruct (Q _ MI) as [b Eb]. rewrite Eb.
  assert (Z : forall d, In d ds -> fdiv d (B754_zero b) = fnan) by (intros d Hd; destruct (Q d Hd) as [b' ->]; reflexivity).
  split; [|split; [|split; rewrite !map_length; reflexivity]].
  - apply Forall_forall. intros e He. apply in_map_iff in He as (d & <- & Hd). rewrite (Z d Hd). reflexivity.
  - apply Forall_forall. intros e He. rewrite map_map in He. apply in_map_iff in He as (d & <- & Hd). rewrite (Z d Hd). reflexivity.
Qed.
(** No epoch was run: ValueError. *)
Theorem C10_no_epoch : forall s, h_div (s_hist s) = [] -> track_optimize_process s = Err ValueError.
Proof. intros s H. unfold track_optimize_process, bindM, get. rewrite H. reflexivity. Qed.
End Track.

Definition div_hist (l : list f64) : history unit := mkHist [] [] [] [] [] [] [] l [] [] [] None.
Example C10_case : exists s : st unit unit, pos_list (h_div (s_hist s)) /\ (exists d, In d (h_div (s_hist s)) /\ flt (fZ 0) d = true).
Proof.
  exists (mkSt [] None None (div_hist [fZ 3; fZ 0; fpow 1 (-1)]) 0 0 [] tt). cbn [s_hist h_div div_hist]. split.
  - repeat constructor.
  - exists (fZ 3). split; [left; reflexivity|reflexivity].
Qed.

(** * C44, binary64 *)
Lemma last_cumsum l a d : l <> [] -> last (fcumsum a l) d = fold_left fadd l a.
Proof.
  revert a. induction l as [|b l IH]; intros a H; [congruence|]. simpl. destruct l as [|b' l]; [reflexivity|].
  rewrite <- IH by discriminate. reflexivity.
Qed.
Lemma fcumsum_length l a : List.length (fcumsum a l) = List.length l.
Proof. revert a. induction l as [|b l IH]; intros a; simpl; [reflexivity|rewrite IH; reflexivity]. Qed.
Lemma fcumsum_nth l a i : (i < List.length l)%nat ->
  nth i (fcumsum a l) fnan = fadd (match i with O => a | S j => nth j (fcumsum a l) fnan end) (nth i l fnan).
Proof.
  revert a i. induction l as [|b l IH]; intros a i H; simpl in H; [lia|]. destruct i as [|i]; [reflexivity|].
  cbn [fcumsum nth]. rewrite IH by lia. destruct i; reflexivity.
Qed.
Lemma search_right_spec u l : (exists x, In x l /\ flt u x = true) ->
  (search_right u l < List.length l)%nat /\ flt u (nth (search_right u l) l fnan) = true /\
  forall j, (j < search_right u l)%nat -> flt u (nth j l fnan) = false.
Proof.
  induction l as [|a l IH]; intros (x & Hx & Lx); [destruct Hx|]. simpl. destruct (flt u a) eqn:C.
  - split; [lia|]. split; [exact C|]. intros j Hj. lia.
  - destruct IH as (I1 & I2 & I3). { destruct Hx as [<-|Hx]; [congruence|eauto]. }
    split; [lia|]. split; [exact I2|]. intros [|j] Hj; [exact C|apply I3; lia].
Qed.
Lemma FR_inj x y : fisnan x = false -> fisnan y = false -> FR x = FR y -> x = y \/ (FR x = 0 /\ FR y = 0).
Proof.
  intros Nx Ny E. destruct (Req_EM_T (FR x) 0) as [Z|Z]; [right; split; congruence|left].
  destruct (fisfin x) eqn:Fx.
  - assert (Fy : fisfin y = true) by (apply (FR_fin_iff y Ny); rewrite <- E; apply FR_fin_iff; assumption).
    rewrite !FR_fin in * by assumption. apply B2R_inj; [| |exact E].
    + destruct x as [s|s| |s m e Hb]; try discriminate; [exfalso; apply Z; reflexivity|reflexivity].
    + destruct y as [s|s| |s m e Hb]; try discriminate; [exfalso; apply Z; rewrite E; reflexivity|reflexivity].
  - assert (Fy : fisfin y = false).
    { destruct (fisfin y) eqn:Fy; [|reflexivity]. apply (FR_fin_iff y Ny) in Fy. rewrite <- E in Fy. apply (FR_fin_iff x Nx) in Fy. congruence. }
    assert (P := bpow_gt_0 radix2 emax).
    destruct (FR_inf_case x Nx Fx) as [->| ->], (FR_inf_case y Ny Fy) as [->| ->]; try reflexivity;
      unfold finf, fninf in E; rewrite FR_pinf, FR_ninf in E; lra.
Qed.
Definition unit_draws (E : env) : Prop := forall k, fle (fZ 0) (e_u E k) = true /\ flt (e_u E k) (fZ 1) = true.

Section Wheel.
Context {A X : Type}.
Implicit Types s : st A X.

Lemma c_tol_FR : FR c_tol = bpow radix2 (-26).
Proof. unfold c_tol. destruct (fpow_FR 1 (-26)) as [_ H]; [reflexivity|split; discriminate|]. rewrite H. lra. Qed.

(** Generator.choice with probabilities picks an index whose probability is positive. *)
Lemma choice_p_positive E p s i s' : unit_draws E -> choice_p E p s = Ok (i, s') ->
  (i < List.length p)%nat /\ flt (fZ 0) (nth i p fnan) = true /\ Forall (fun x => fisnan x = false) p.
Proof.
  intros HU. unfold choice_p. destruct (existsb fisnan p) eqn:EN; [discriminate|].
  destruct (existsb (fun x => flt x (fZ 0)) p) eqn:EG; [discriminate|].
  destruct (fle (fabs (fsub (fsuml p) (fZ 1))) c_tol) eqn:ET; [|discriminate].
  cbn [orb negb]. unfold bindM, uniform, tick, ret. intros H.
  set (u := e_u E (s_ctr s)) in *. set (cdf := fcumsum (fZ 0) p) in *.
  assert (Hp : forall x, In x p -> fisnan x = false).
  { intros x Hx. apply Bool.not_true_is_false. intros C. assert (existsb fisnan p = true) by (apply existsb_exists; eauto). congruence. }
  assert (Hg : forall x, In x p -> fle (fZ 0) x = true).
  { intros x Hx. apply flt_false_le; [apply Hp; exact Hx|reflexivity|]. apply Bool.not_true_is_false. intros C.
    assert (existsb (fun x => flt x (fZ 0)) p = true) by (apply existsb_exists; eauto). congruence. }
  assert (NE : p <> []) by (intros ->; vm_compute in ET; discriminate).
  assert (TT : last cdf fnan = fsuml p) by (apply last_cumsum; exact NE).
  rewrite TT in H. set (t := fsuml p) in *.
  assert (Nt : fisnan t = false).
  { destruct (fisnan t) eqn:C; [|reflexivity]. destruct (fle_true_nan _ _ ET) as [C' _]. rewrite fisnan_abs, fsub_nan_l in C' by exact C. discriminate. }
  assert (V1 : FR (fZ 1) = 1) by apply (fZ_FR 1 ltac:(lia)).
  assert (Ft : fisfin t = true).
  { destruct (fisfin t) eqn:C; [reflexivity|]. exfalso. destruct (FR_inf_case t Nt C) as [Z|Z]; rewrite Z in ET; vm_compute in ET; discriminate. }
  destruct (fsub_fin t (fZ 1) Ft eq_refl) as [ND QD].
  assert (Pt : 0 < FR t).
  { destruct (Rlt_dec 0 (FR t)) as [C|C]; [exact C|exfalso]. apply fle_FR in ET; [|rewrite fisnan_abs; exact ND|reflexivity].
    rewrite FR_abs, QD, V1, c_tol_FR in ET.
    assert (W : crnd (FR t - 1) <= crnd (FR (fneg (fZ 1)))) by (apply crnd_mono; rewrite FR_neg, V1; lra).
    rewrite crnd_FR in W by reflexivity. rewrite FR_neg, V1 in W.
    assert (bpow radix2 (-26) < 1) by (change 1 with (bpow radix2 0); apply bpow_lt; lia).
    rewrite Rabs_left1 in ET by lra. lra. }
  assert (One : FR (fdiv t t) = 1 /\ fisnan (fdiv t t) = false).
  { destruct (fdiv_fin t t Ft Ft ltac:(lra)) as [N Q]. split; [|exact N]. rewrite Q. replace (FR t / FR t) with (FR (fZ 1)) by (rewrite V1; field; lra).
    rewrite crnd_FR by reflexivity. exact V1. }
  destruct (HU (s_ctr s)) as [U0 U1]. fold u in U0, U1. destruct (fle_true_nan _ _ U0) as [_ Nu].
  apply fle_FR in U0; auto. rewrite fZ_0 in U0. apply flt_FR in U1; auto. rewrite V1 in U1.
  set (q := map (fun c => fdiv c t) cdf) in *.
  assert (Lc : List.length cdf = List.length p) by apply fcumsum_length.
  assert (NEc : cdf <> []) by (intros Z; apply NE; destruct p; [reflexivity|discriminate]).
  assert (EX : exists x, In x q /\ flt u x = true).
  { exists (fdiv t t). split.
    - unfold q. apply (in_map (fun c => fdiv c t)). rewrite <- TT. clear -NEc. destruct (exists_last NEc) as (l' & a & ->).
      rewrite last_last. apply in_or_app; right; left; reflexivity.
    - apply flt_FR; [exact Nu|apply One|]. rewrite (proj1 One). exact U1. }
  destruct (search_right_spec u q EX) as (I1 & I2 & I3). injection H as Hi _. fold q in Hi. fold u in Hi. rewrite Hi in I1, I2, I3. clear Hi.
  unfold q in I1. rewrite map_length, Lc in I1. split; [exact I1|]. split; [|apply Forall_forall; exact Hp].
  assert (Hin : In (nth i p fnan) p) by (apply nth_In; exact I1).
  destruct (flt (fZ 0) (nth i p fnan)) eqn:C; [reflexivity|exfalso].
  apply flt_false_FR in C; [|reflexivity|apply Hp; exact Hin]. rewrite fZ_0 in C.
  assert (C0 := Hg _ Hin). apply fle_FR in C0; [|reflexivity|apply Hp; exact Hin]. rewrite fZ_0 in C0.
  assert (Zi : FR (nth i p fnan) = 0) by lra.
  assert (Qn : forall j, (j < List.length p)%nat -> nth j q fnan = fdiv (nth j cdf fnan) t).
  { intros j Hj. unfold q. rewrite (nth_indep _ fnan (fdiv fnan t)) by (rewrite map_length, Lc; exact Hj).
    apply (map_nth (fun c => fdiv c t)). }
  rewrite Qn in I2 by exact I1.
  assert (Zero : forall z, FR z = 0 -> flt u (fdiv z t) = true -> False).
  { intros z Hz Hl. destruct (flt_true_nan _ _ Hl) as [_ Nz]. apply flt_FR in Hl; auto. rewrite (fdiv_zero z t Hz Nz) in Hl. lra. }
  assert (Step := fcumsum_nth p (fZ 0) i I1). fold cdf in Step.
  destruct i as [|i].
  - destruct (fadd_zero_r (fZ 0) (nth 0 p fnan) Zi eq_refl (Hp _ Hin)) as [_ W]. rewrite fZ_0 in W.
    apply (Zero (nth 0 cdf fnan)); [rewrite Step; exact W|exact I2].
  - assert (Nc : fisnan (nth i cdf fnan) = false).
    { destruct (fisnan (nth i cdf fnan)) eqn:Z; [|reflexivity]. exfalso. rewrite Step in I2.
      rewrite flt_nan_r in I2; [discriminate|]. apply fdiv_nan_l. destruct (nth i cdf fnan); try discriminate. reflexivity. }
    destruct (fadd_zero_r (nth i cdf fnan) (nth (S i) p fnan) Zi Nc (Hp _ Hin)) as [W1 W2]. rewrite <- Step in W1, W2.
    destruct (FR_inj _ _ W1 Nc W2) as [W|[W _]].
    + rewrite W in I2. specialize (I3 i ltac:(lia)). rewrite Qn in I3 by lia. congruence.
    + apply (Zero (nth (S i) cdf fnan)); assumption.
Qed.

(** For minimisation the wheel never picks a worst agent: some agent is strictly worse than the chosen one. *)
Theorem C44_never_worst : forall E P l s i s', unit_draws E -> p_mm P = Min ->
  roulette E P l s = Ok (i, s') -> feq (fsub (fmaxl l) (fminl l)) (fZ 0) = false ->
  (i < List.length l)%nat /\ exists j, (j < List.length l)%nat /\ flt (nth i l fnan) (nth j l fnan) = true.
Proof.
  intros E P l s i s' HU HM H HD. unfold roulette in H. destruct l as [|a0 l0] eqn:EL; [discriminate|]. rewrite <- EL in *.
  assert (NE : l <> []) by (rewrite EL; discriminate). clear a0 l0 EL.
  unfold roulette_probs in H. rewrite HD, HM in H.
  set (l1 := if existsb (fun x => flt x (fZ 0)) l then map (fun x => fsub x (fminl l)) l else l) in *.
  set (g := fun x => fsub (fmaxl l1) x) in *. set (tot := fsuml (map g l1)) in *.
  destruct (choice_p_positive E _ s i s' HU H) as (I1 & I2 & I3). rewrite !map_length in I1.
  assert (L1 : List.length l1 = List.length l) by (unfold l1; destruct (existsb _ l); rewrite ?map_length; reflexivity).
  rewrite L1 in I1. split; [exact I1|].
  (* no NaN anywhere *)
  rewrite Forall_forall in I3.
  assert (Nn : forall k, (k < List.length l)%nat -> fisnan (fdiv (g (nth k l1 fnan)) tot) = false).
  { intros k Hk. apply I3. rewrite map_map. apply (in_map (fun x => fdiv (g x) tot)). apply nth_In. rewrite L1; exact Hk. }
  assert (Ng : forall k, (k < List.length l)%nat -> fisnan (g (nth k l1 fnan)) = false).
  { intros k Hk. destruct (fisnan (g (nth k l1 fnan))) eqn:C; [|reflexivity]. specialize (Nn k Hk). rewrite fdiv_nan_l in Nn by exact C. discriminate. }
  assert (N1 : forall x, In x l1 -> fisnan x = false).
  { intros x Hx. apply (In_nth _ _ fnan) in Hx as (k & Hk & <-). rewrite L1 in Hk. specialize (Ng k Hk).
    destruct (fisnan (nth k l1 fnan)) eqn:C; [|reflexivity]. unfold g in Ng. rewrite fsub_nan_r in Ng by exact C. discriminate. }
  assert (Nl : forall x, In x l -> fisnan x = false).
  { intros x Hx. destruct (fisnan x) eqn:C; [|reflexivity]. exfalso. unfold l1 in N1. destruct (existsb _ l).
    - specialize (N1 (fsub x (fminl l)) (in_map (fun x => fsub x (fminl l)) l x Hx)). rewrite fsub_nan_l in N1 by exact C. discriminate.
    - specialize (N1 x Hx). congruence. }
  assert (NE1 : l1 <> []) by (intros Z; apply NE; destruct l; [reflexivity|rewrite Z in L1; discriminate]).
  destruct (fmaxl_spec l1 NE1 N1) as (M1 & M2 & M3).
  (* the probability of i is zero if its value is the maximum *)
  rewrite map_map in I2. rewrite (nth_indep _ fnan (fdiv (g fnan) tot)) in I2 by (rewrite map_length, L1; exact I1).
  rewrite (map_nth (fun x => fdiv (g x) tot)) in I2.
  assert (NM : FR (nth i l1 fnan) < FR (fmaxl l1)).
  { destruct (Rle_lt_or_eq_dec _ _ (M3 _ (nth_In l1 fnan ltac:(rewrite L1; exact I1)))) as [C|C]; [exact C|exfalso].
    assert (Z : FR (g (nth i l1 fnan)) = 0) by (apply fsub_self; [symmetry; exact C|apply Ng; exact I1]).
    apply flt_FR in I2; [|reflexivity|apply Nn; exact I1]. rewrite (fdiv_zero _ tot Z (Nn i I1)), fZ_0 in I2. lra. }
  apply (In_nth _ _ fnan) in M2 as (j & Hj & Ej). rewrite L1 in Hj. exists j. split; [exact Hj|].
  rewrite <- Ej in NM. apply flt_FR; [apply Nl, nth_In; exact I1|apply Nl, nth_In; exact Hj|].
  destruct (existsb (fun x => flt x (fZ 0)) l) eqn:EX; unfold l1 in NM; [|exact NM].
  assert (NN : forall k, (k < List.length l)%nat -> nth k (map (fun x => fsub x (fminl l)) l) fnan = fsub (nth k l fnan) (fminl l)).
  { intros k Hk. rewrite (nth_indep _ fnan (fsub fnan (fminl l))) by (rewrite map_length; exact Hk). apply (map_nth (fun x => fsub x (fminl l))). }
  rewrite !NN in NM by assumption.
  destruct (fminl_spec l NE Nl) as (W1 & W2 & W3). set (m := fminl l) in *.
  assert (Fm : fisfin m = true).
  { destruct (fisfin m) eqn:C; [reflexivity|exfalso]. assert (Z := fsub_self_inf m m W1 W1 C eq_refl).
    rewrite (N1 (fsub m m)) in Z; [discriminate|]. apply (in_map (fun x => fsub x m)). exact W2. }
  assert (Hi := nth_In l fnan I1). assert (Hj' := nth_In l fnan Hj).
  set (x := nth i l fnan) in *. set (y := nth j l fnan) in *. clearbody x y.
  destruct (Rlt_dec (FR x) (FR y)) as [C|C]; [exact C|exfalso; apply Rnot_lt_le in C].
  assert (Wx := W3 x Hi). assert (Wy := W3 y Hj'). assert (Bm := proj1 (FR_fin_iff m W1) Fm).
  destruct (fisfin x) eqn:Fx.
  - assert (Bx := proj1 (FR_fin_iff x (Nl x Hi)) Fx).
    assert (Fy : fisfin y = true) by (apply FR_fin_iff; [apply Nl; exact Hj'|lra]).
    rewrite (proj2 (fsub_fin x m Fx Fm)), (proj2 (fsub_fin y m Fy Fm)) in NM.
    assert (Z : crnd (FR y - FR m) <= crnd (FR x - FR m)) by (apply crnd_mono; lra). lra.
  - destruct (FR_inf_case x (Nl x Hi) Fx) as [->| ->].
    + assert (Z : fsub finf m = finf) by (destruct m as [b|b| |b mm e Hb]; try discriminate; reflexivity).
      rewrite Z in NM. unfold finf in NM. rewrite FR_pinf in NM. assert (Z' := FR_bound_le (fsub y m)). lra.
    + unfold fninf in Wx. rewrite FR_ninf in Wx. unfold B in Bm. lra.
Qed.
(** In every case the index is in range. *)
Theorem C44_in_range : forall E P l s i s', unit_draws E -> roulette E P l s = Ok (i, s') -> (i < List.length l)%nat.
Proof.
  intros E P l s i s' HU H. unfold roulette in H. destruct l as [|a0 l0] eqn:EL; [discriminate|]. rewrite <- EL in *.
  destruct (roulette_probs (p_mm P) l) as [p|] eqn:RP.
  - destruct (choice_p_positive E p s i s' HU H) as (I & _ & _).
    unfold roulette_probs in RP. destruct (feq _ _); [discriminate|]. injection RP as RP. rewrite <- RP in I.
    rewrite map_length in I. destruct (p_mm P), (existsb _ l); rewrite ?map_length in I; exact I.
  - unfold integers in H. assert (L : (0 < List.length l)%nat) by (rewrite EL; simpl; lia).
    destruct (List.length l <=? 0)%nat eqn:C; [apply Nat.leb_le in C; lia|].
    unfold bindM, tick, ret in H. injection H as H _. rewrite <- H. rewrite Nat.sub_0_r. apply Nat.mod_upper_bound. lia.
Qed.
End Wheel.

(** Fitness values -1, 3, 7 on a minimisation problem: the draw picks one of the first two. *)
Example C44_wheel_case :
  match roulette (A := unit) (X := unit) demo_env (demo_prob Min sphere false) [fZ 7; fZ (-1); fZ 3] (st0 tt) with
  | Ok (i, _) => (1 <=? i) && (i <? 3) | Err _ => false end = true /\
  feq (fsub (fmaxl [fZ 7; fZ (-1); fZ 3]) (fminl [fZ 7; fZ (-1); fZ 3])) (fZ 0) = false.
Proof. split; vm_compute; reflexivity. Qed.

Print Assumptions C10_percentages.
Print Assumptions C10_all_zero.
Print Assumptions C10_no_epoch.
Print Assumptions C44_never_worst.
Print Assumptions C44_in_range.
