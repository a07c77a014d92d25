(** Transfer functions, chaotic maps, fuzzy weights, roulette probabilities and arithmetic crossover in exact real
    arithmetic. *)
From Coq Require Import Reals Rtrigo_def Ratan Machin List Lra Lia Permutation.
From Verif Require Import MReal.
Import ListNotations.
Local Open Scope R_scope.

Definition in_unit (x : R) : Prop := 0 <= x <= 1.
Definition increasing (f : R -> R) : Prop := forall x y, x < y -> f x < f y.
Definition even (f : R -> R) : Prop := forall x, f (- x) = f x.

(** * C31 *)
Lemma sig_unit u : in_unit (1 / (1 + exp u)).
Proof.
  assert (H := exp_pos u). split.
  - apply Rlt_le, Rdiv_lt_0_compat; lra.
  - apply Rmult_le_reg_r with (1 + exp u); [lra|]. unfold Rdiv. rewrite Rmult_assoc, Rinv_l; lra.
Qed.
Lemma sig_dec u v : u < v -> 1 / (1 + exp v) < 1 / (1 + exp u).
Proof.
  intros H. apply exp_increasing in H. assert (P := exp_pos u). unfold Rdiv.
  apply Rmult_lt_compat_l; [lra|]. apply Rinv_lt_contravar; [apply Rmult_lt_0_compat; lra|lra].
Qed.
Lemma sig_0 u : u = 0 -> 1 / (1 + exp u) = 1 / 2.
Proof. intros ->. rewrite exp_0. lra. Qed.

Theorem C31_s_shaped : forall f, In f [sstf_01; sstf_02; sstf_03; sstf_04] ->
  (forall x, in_unit (f x)) /\ increasing f /\ f 0 = 1 / 2.
Proof.
  intros f [<-|[<-|[<-|[<-|[]]]]]; (split; [intros x; apply sig_unit|split; [intros x y H; apply sig_dec; lra|apply sig_0; lra]]).
Qed.

Lemma tanh_form x : tanh x = 1 - 2 / (exp x * exp x + 1).
Proof.
  unfold tanh, sinh, cosh. rewrite exp_Ropp. assert (H := exp_pos x). field. split; [|lra]. nra.
Qed.
Lemma tanh_bound x : -1 < tanh x < 1.
Proof.
  rewrite tanh_form. assert (H := exp_pos x). assert (Q : 1 < exp x * exp x + 1) by nra.
  assert (0 < 2 / (exp x * exp x + 1)) by (apply Rdiv_lt_0_compat; lra).
  assert (2 / (exp x * exp x + 1) < 2); [|lra].
  apply Rmult_lt_reg_r with (exp x * exp x + 1); [lra|]. unfold Rdiv. rewrite Rmult_assoc, Rinv_l; lra.
Qed.
Lemma tanh_odd x : tanh (- x) = - tanh x.
Proof.
  unfold tanh, sinh, cosh. rewrite Ropp_involutive. assert (H := exp_pos x). assert (G := exp_pos (- x)). field. lra.
Qed.
Lemma sqrt_gt x : Rabs x < sqrt (1 + Rsqr x).
Proof.
  rewrite <- sqrt_Rsqr_abs. apply sqrt_lt_1; [apply Rle_0_sqr| |lra]. assert (H := Rle_0_sqr x). lra.
Qed.

Theorem C31_v_shaped : forall f, In f [vstf_02; vstf_03; vstf_04] ->
  (forall x, in_unit (f x)) /\ even f /\ f 0 = 0.
Proof.
  intros f [<-|[<-|[<-|[]]]].
  - split; [|split].
    + intros x. unfold vstf_02. split; [apply Rabs_pos|]. apply Rabs_le. assert (H := tanh_bound x). lra.
    + intros x. unfold vstf_02. rewrite tanh_odd. apply Rabs_Ropp.
    + unfold vstf_02. rewrite tanh_form, exp_0. replace (1 - 2 / (1 * 1 + 1)) with 0 by lra. apply Rabs_R0.
  - split; [|split].
    + intros x. unfold vstf_03. split; [apply Rabs_pos|]. assert (H := sqrt_gt x). assert (G := Rabs_pos x).
      unfold Rdiv. rewrite Rabs_mult, Rabs_inv. rewrite (Rabs_right (sqrt _)) by lra.
      apply Rmult_le_reg_r with (sqrt (1 + Rsqr x)); [lra|]. rewrite Rmult_assoc, Rinv_l; lra.
    + intros x. unfold vstf_03. rewrite <- Rsqr_neg. unfold Rdiv. rewrite Ropp_mult_distr_l_reverse. apply Rabs_Ropp.
    + unfold vstf_03, Rdiv. rewrite Rmult_0_l. apply Rabs_R0.
  - assert (P := PI_RGT_0). split; [|split].
    + intros x. unfold vstf_04. split; [apply Rabs_pos|]. apply Rabs_le. destruct (atan_bound (PI / 2 * x)) as [L U].
      assert (I : 0 < 2 / PI) by (apply Rdiv_lt_0_compat; lra).
      apply (Rmult_lt_compat_l (2 / PI)) in L; [|exact I]. apply (Rmult_lt_compat_l (2 / PI)) in U; [|exact I].
      replace (2 / PI * (- PI / 2)) with (-1) in L by (field; lra). replace (2 / PI * (PI / 2)) with 1 in U by (field; lra). lra.
    + intros x. unfold vstf_04. replace (PI / 2 * - x) with (- (PI / 2 * x)) by ring. rewrite atan_opp.
      rewrite <- Ropp_mult_distr_r. apply Rabs_Ropp.
    + unfold vstf_04. rewrite Rmult_0_r, atan_0, Rmult_0_r. apply Rabs_R0.
Qed.
(** vstf_01 for any odd function with values in [-1,1], which erf is. *)
Theorem C31_erf_shaped : forall erf, (forall x, -1 <= erf x <= 1) -> (forall x, erf (- x) = - erf x) ->
  (forall x, in_unit (vstf_01 erf x)) /\ even (vstf_01 erf) /\ vstf_01 erf 0 = 0.
Proof.
  intros erf B O. split; [|split].
  - intros x. unfold vstf_01. split; [apply Rabs_pos|]. apply Rabs_le. apply B.
  - intros x. unfold vstf_01. replace (sqrt PI / 2 * - x) with (- (sqrt PI / 2 * x)) by ring. rewrite O. apply Rabs_Ropp.
  - unfold vstf_01. rewrite Rmult_0_r. assert (H := O 0). rewrite Ropp_0 in H. replace (erf 0) with 0 by lra. apply Rabs_R0.
Qed.
(** Such a function exists. *)
Example C31_erf_case : (forall x, -1 <= tanh x <= 1) /\ (forall x, tanh (- x) = - tanh x).
Proof. split; [intros x; assert (H := tanh_bound x); lra|exact tanh_odd]. Qed.
(** The S-shaped functions never reach 0 or 1, so no bit is ever certain. *)
Theorem C31_s_shaped_strict : forall f, In f [sstf_01; sstf_02; sstf_03; sstf_04] -> forall x, 0 < f x < 1.
Proof.
  assert (H : forall u, 0 < 1 / (1 + exp u) < 1).
  { intros u. assert (P := exp_pos u). split; [apply Rdiv_lt_0_compat; lra|].
    apply Rmult_lt_reg_r with (1 + exp u); [lra|]. unfold Rdiv. rewrite Rmult_assoc, Rinv_l; lra. }
  intros f [<-|[<-|[<-|[<-|[]]]]] x; apply H.
Qed.
(** The slopes: for positive arguments sstf_01 is above sstf_02, above sstf_04, above sstf_03; for negative ones below. *)
Theorem C31_s_order : forall x, 0 < x ->
  (sstf_03 x < sstf_04 x < sstf_02 x /\ sstf_02 x < sstf_01 x) /\
  (sstf_01 (- x) < sstf_02 (- x) < sstf_04 (- x) /\ sstf_04 (- x) < sstf_03 (- x)).
Proof. intros x H. repeat split; apply sig_dec; lra. Qed.

(** * C53 *)
Definition c (p q : Z) : R := IZR p / IZR q.
Definition invariant (f : R -> R) (P : R -> Prop) : Prop := forall x, P x -> P (f x).
Fixpoint iter (f : R -> R) (n : nat) (x : R) : R := match n with O => x | S m => f (iter f m x) end.
Lemma invariant_iter f P : invariant f P -> forall n x, P x -> P (iter f n x).
Proof. intros H n x Hx. induction n; simpl; auto. Qed.

Ltac cases := unfold rle, rlt, req in *; repeat (match goal with |- context [Rle_dec ?a ?b] => destruct (Rle_dec a b) | |- context [Rlt_dec ?a ?b] => destruct (Rlt_dec a b)
    | |- context [Req_EM_T ?a ?b] => destruct (Req_EM_T a b) end; simpl andb; simpl orb; cbv iota);
  repeat match goal with H : ~ (_ <= _) |- _ => apply Rnot_le_lt in H | H : ~ (_ < _) |- _ => apply Rnot_lt_le in H end.
Lemma d_half z : z / (1 / 2) = 2 * z. Proof. field. Qed.
Lemma d_tenth z : z / (1 / 10) = 10 * z. Proof. field. Qed.
Lemma d_four z : z / (4 / 10) = 5 / 2 * z. Proof. field. Qed.
Lemma d_seven z : z / (7 / 10) = 10 / 7 * z. Proof. field. Qed.

Lemma bernoulli_unit : invariant (bernoulli_map (1 / 2)) in_unit.
Proof. intros x [L U]. unfold bernoulli_map, in_unit. replace (1 - 1 / 2) with (1 / 2) by lra. cases; rewrite ?d_half; split; lra. Qed.
Lemma logistic_unit : invariant (logistic_map 4) in_unit.
Proof. intros x [L U]. unfold logistic_map, in_unit. split; [nra|]. assert (H := Rle_0_sqr (2 * x - 1)). unfold Rsqr in H. nra. Qed.
Lemma chebyshev_unit a : forall x, -1 <= chebyshev_map a x <= 1.
Proof. intros x. apply COS_bound. Qed.
Lemma fmod1_unit x : 0 <= fmod1 x < 1.
Proof. unfold fmod1. destruct (base_Int_part x). lra. Qed.
Lemma circle_unit a b x : in_unit (circle_map a b x).
Proof. unfold circle_map. assert (H := fmod1_unit (x + b - a / (2 * PI) * sin (2 * PI * x))). unfold in_unit. lra. Qed.
Lemma cubic_unit : invariant (cubic_map (259 / 100)) in_unit.
Proof.
  intros x [L U]. unfold cubic_map, in_unit. split; [apply Rmult_le_pos; nra|].
  assert (H : 0 <= (x - 577 / 1000) * (x - 577 / 1000) * (x + 2 * 577 / 1000)) by (apply Rmult_le_pos; [apply Rle_0_sqr|lra]).
  ring_simplify in H. ring_simplify (259 / 100 * x * (1 - x * x)). lra.
Qed.
Lemma icmic_unit a x : in_unit (icmic_map a x).
Proof. unfold icmic_map, in_unit. cases; [lra|]. split; [apply Rabs_pos|]. apply Rabs_le. apply SIN_bound. Qed.
Lemma piecewise_unit : invariant (piecewise_map (4 / 10)) in_unit.
Proof. intros x [L U]. unfold piecewise_map, in_unit.
  replace (1 / 2 - 4 / 10) with (1 / 10) by lra. replace (1 - 4 / 10) with (6 / 10) by lra. cases; rewrite ?d_tenth, ?d_four; lra. Qed.
Lemma tent_unit : invariant tent_map in_unit.
Proof. intros x [L U]. unfold tent_map, in_unit. cases; rewrite ?d_seven; lra. Qed.

(** The largest value 0.996.. of the Singer map is below 1, so it keeps [0, 997/1000] but not [0,1]: it maps 1 to a
    negative number. *)
Definition in_997 (x : R) : Prop := 0 <= x <= 997 / 1000.
Lemma singer_997 : invariant (singer_map (107 / 100)) in_997.
Proof.
  intros x [L U]. unfold singer_map, in_997. simpl pow. split.
  - assert (K : 0 <= 13302875 / 1000000 * (x * x) - 15487 / 1000 * x + 7869 / 1000).
    { assert (H := Rle_0_sqr (x - 582 / 1000)). unfold Rsqr in H. nra. }
    assert (D : 0 <= (997 / 1000 - x) * (13302875 / 1000000 * (x * x) - 15487 / 1000 * x + 7869 / 1000)) by (apply Rmult_le_pos; [lra|exact K]).
    assert (G : 0 <= 786 / 100 - 2331 / 100 * x + 2875 / 100 * (x * x) - 13302875 / 1000000 * (x * x * x)).
    { ring_simplify in D. ring_simplify. lra. }
    assert (W := Rmult_le_pos _ _ L G). ring_simplify in W. ring_simplify. lra.
  - assert (K : 0 <= 13302875 / 1000000 * (x * x) - 20129737 / 1000000 * x + 8869447 / 1000000).
    { assert (H := Rle_0_sqr (x - 756 / 1000)). unfold Rsqr in H. nra. }
    assert (D := Rmult_le_pos _ _ (Rle_0_sqr (x - 81 / 250)) K). unfold Rsqr in D.
    ring_simplify in D. ring_simplify. lra.
Qed.
Lemma PI_upper : PI <= 324 / 100.
Proof.
  destruct (PI_2_3_7_ineq 0) as [_ H]. cbn [sum_f_R0] in H. unfold tg_alt, PI_2_3_7_tg, Ratan_seq in H. simpl in H. lra.
Qed.
Lemma sin_le x : 0 <= x -> sin x <= x.
Proof. intros [H|<-]; [left; apply sin_lt_x; exact H|rewrite sin_0; lra]. Qed.
Lemma sinusoidal_unit : invariant (sinusoidal_map (23 / 10)) in_unit.
Proof.
  intros x [L U]. unfold sinusoidal_map. assert (P := PI_RGT_0). assert (PU := PI_upper).
  assert (S0 : 0 <= sin (PI * x)) by (apply sin_ge_0; nra).
  assert (S1 := SIN_bound (PI * x)).
  assert (X2 : 0 <= x * x) by nra.
  split; [apply Rmult_le_pos; [nra|exact S0]|].
  destruct (Rle_dec x (659 / 1000)) as [C|C].
  { assert (x * x <= 659 / 1000 * (659 / 1000)) by nra. assert (x * x * sin (PI * x) <= 659 / 1000 * (659 / 1000)) by nra. nra. }
  apply Rnot_le_lt in C.
  replace (sin (PI * x)) with (sin (PI * (1 - x))) in *.
  2:{ replace (PI * (1 - x)) with (PI - PI * x) by ring. rewrite sin_minus, sin_PI, cos_PI. ring. }
  set (y := 1 - x) in *. assert (Hx : x = 1 - y) by (unfold y; ring). clearbody y. subst x.
  assert (0 <= y < 341 / 1000) by lra.
  destruct (Rle_dec y (20 / 100)) as [D|D].
  - assert (H1 : sin (PI * y) <= PI * y) by (apply sin_le; nra).
    assert (H2 : sin (PI * y) <= 324 / 100 * y) by nra.
    assert (H3 : (1 - y) * (1 - y) * sin (PI * y) <= (1 - y) * (1 - y) * (324 / 100 * y)) by (apply Rmult_le_compat_l; nra).
    assert ((1 - y) * (1 - y) * y <= 128 / 1000) by nra. nra.
  - apply Rnot_le_lt in D.
    assert (H1 : sin (PI * y) <= 1 / 2 + 867 / 1000 * (324 / 100 * (y - 1 / 6))).
    { replace (PI * y) with (PI / 6 + PI * (y - 1 / 6)) by field. rewrite sin_plus, sin_PI6, cos_PI6.
      assert (Hs : 0 <= sqrt 3 / 2 <= 867 / 1000).
      { assert (Q := sqrt_pos 3). assert (sqrt 3 * sqrt 3 = 3) by (apply sqrt_sqrt; lra). split; nra. }
      assert (Hc := COS_bound (PI * (y - 1 / 6))).
      assert (Hn : 0 <= PI * (y - 1 / 6)) by (apply Rmult_le_pos; lra).
      assert (Hd := sin_le (PI * (y - 1 / 6)) Hn).
      assert (PI * (y - 1 / 6) <= 324 / 100 * (y - 1 / 6)) by (apply Rmult_le_compat_r; lra).
      assert (0 <= sin (PI * (y - 1 / 6))) by (apply sin_ge_0; nra).
      assert (sqrt 3 / 2 * sin (PI * (y - 1 / 6)) <= 867 / 1000 * (324 / 100 * (y - 1 / 6))) by (apply Rmult_le_compat; lra).
      lra. }
    assert (H3 : (1 - y) * (1 - y) * sin (PI * y) <= (1 - y) * (1 - y) * (1 / 2 + 867 / 1000 * (324 / 100 * (y - 1 / 6)))) by (apply Rmult_le_compat_l; nra).
    assert (HW : 0 <= 1337 / 1000 - y) by lra.
    assert (HT := Rmult_le_pos _ _ (Rle_0_sqr (y - 326 / 1000)) HW). unfold Rsqr in HT. ring_simplify in HT.
    assert ((1 - y) * (1 - y) * (1 / 2 + 867 / 1000 * (324 / 100 * (y - 1 / 6))) <= 434 / 1000).
    { assert (0 <= y ^ 2 <= 117 / 1000) by (simpl pow; split; nra). ring_simplify. lra. }
    nra.
Qed.

(** Eight maps with their default parameters keep the unit interval; Chebyshev keeps [-1,1]. *)
Theorem C53_unit_interval : forall f,
  In f [bernoulli_map (1 / 2); logistic_map 4; circle_map (1 / 2) (2 / 10); cubic_map (259 / 100); icmic_map (7 / 10);
        piecewise_map (4 / 10); sinusoidal_map (23 / 10); tent_map] ->
  forall n x, in_unit x -> in_unit (iter f n x).
Proof.
  intros f Hf n x. apply invariant_iter. clear n x.
  destruct Hf as [<-|[<-|[<-|[<-|[<-|[<-|[<-|[<-|[]]]]]]]]].
  - exact bernoulli_unit. - exact logistic_unit. - intros x _; apply circle_unit. - exact cubic_unit.
  - intros x _; apply icmic_unit. - exact piecewise_unit. - exact sinusoidal_unit. - exact tent_unit.
Qed.
Theorem C53_chebyshev : forall n x, -1 <= x <= 1 -> -1 <= iter (chebyshev_map 4) n x <= 1.
Proof. intros n x H. apply (invariant_iter _ (fun x => -1 <= x <= 1)); [intros y _; apply chebyshev_unit|exact H]. Qed.
(** The Singer map leaves the unit interval from x = 1 ... *)
Theorem C53_singer_refuted : in_unit 1 /\ singer_map (107 / 100) 1 < 0.
Proof. unfold in_unit, singer_map. split; simpl pow; lra. Qed.
(** ... but never from a start up to 0.997. *)
Theorem C53_singer : forall n x, 0 <= x <= 997 / 1000 -> 0 <= iter (singer_map (107 / 100)) n x <= 997 / 1000.
Proof. intros n x H. apply (invariant_iter _ in_997); [exact singer_997|exact H]. Qed.
Example C53_case : in_unit (7 / 10). Proof. unfold in_unit; lra. Qed.

(** * C54 *)
Definition degrees (m : member) : Prop := in_unit (m_low m) /\ in_unit (m_medium m) /\ in_unit (m_high m).
Lemma tri_low x : 0 <= x -> in_unit (triangular x 0 0 (1 / 2)).
Proof.
  intros L. unfold triangular, in_unit. replace (1 / 2 - 0) with (1 / 2) by lra. replace (x - 0) with x by ring.
  cases; rewrite ?d_half; lra.
Qed.
Lemma tri_medium x : in_unit (triangular x 0 (1 / 2) 1).
Proof.
  unfold triangular, in_unit. replace (1 / 2 - 0) with (1 / 2) by lra. replace (1 - 1 / 2) with (1 / 2) by lra.
  cases; rewrite ?d_half; lra.
Qed.
Lemma tri_high x : in_unit (triangular x (1 / 2) 1 1).
Proof.
  unfold triangular, in_unit. replace (1 - 1 / 2) with (1 / 2) by lra.
  cases; rewrite ?d_half; lra.
Qed.
Lemma defuzzify_range m : 0 <= m_low m -> 0 <= m_medium m -> 0 <= m_high m -> 25 <= defuzzify m <= 75.
Proof.
  intros A B C. unfold defuzzify. cases; [lra|].
  assert (D : 0 < m_low m + m_medium m + m_high m) by (destruct (Rtotal_order 0 (m_low m + m_medium m + m_high m)) as [H|[H|H]]; lra).
  split.
  - apply Rmult_le_reg_r with (m_low m + m_medium m + m_high m); [exact D|]. unfold Rdiv. rewrite Rmult_assoc, Rinv_l; lra.
  - apply Rmult_le_reg_r with (m_low m + m_medium m + m_high m); [exact D|]. unfold Rdiv. rewrite Rmult_assoc, Rinv_l; lra.
Qed.
Theorem C54_degrees : forall (k n : Z), (0 <= k <= n)%Z -> (0 < n)%Z -> degrees (fuzzify (IZR k / IZR n)).
Proof.
  intros k n H N. apply IZR_lt in N. destruct H as [H _]. apply IZR_le in H.
  split; [apply tri_low, Rmult_le_pos; [lra|apply Rlt_le, Rinv_0_lt_compat; lra]|split; [apply tri_medium|apply tri_high]].
Qed.
Theorem C54_weights : forall (increase : bool) (k n : Z), (0 <= k <= n)%Z -> (0 < n)%Z ->
  let '(a, b, d) := fuzzy_weights increase (IZR k) (IZR n) in 25 <= a <= 75 /\ 25 <= b <= 75 /\ 25 <= d <= 75.
Proof.
  intros increase k n H N. destruct (C54_degrees k n H N) as ((A1 & _) & (B1 & _) & (C1 & _)).
  unfold fuzzy_weights. set (m := fuzzify (IZR k / IZR n)) in *.
  assert (X := Rmax_l (m_medium m) (m_low m)). assert (Y := Rmax_l (m_medium m) (m_high m)). assert (Z := Rmax_l (m_low m) (m_medium m)).
  assert (W := Rmax_l (Rmax (m_low m) (m_medium m)) (m_high m)).
  destruct increase; (split; [|split]); apply defuzzify_range; cbn [m_low m_medium m_high]; lra.
Qed.
(** At the first and the last iteration all degrees vanish and every weight is the default 50: the hierarchy of the
    pyramid is absent exactly there. *)
Theorem C54_ends : forall (increase : bool) (k n : Z), (0 < n)%Z -> (k = 0 \/ k = n)%Z ->
  fuzzy_weights increase (IZR k) (IZR n) = (50, 50, 50).
Proof.
  intros increase k n N K. apply IZR_lt in N.
  assert (D : forall m, m_low m = 0 -> m_medium m = 0 -> m_high m = 0 -> defuzzify m = 50).
  { intros m A B C. unfold defuzzify. rewrite A, B, C. unfold req. destruct (Req_EM_T (0 + 0 + 0) 0); [reflexivity|lra]. }
  assert (F : fuzzify (IZR k / IZR n) = mkMember 0 0 0).
  { assert (V : IZR k / IZR n = 0 \/ IZR k / IZR n = 1).
    { destruct K as [->| ->]; [left; unfold Rdiv; ring|right; field; lra]. }
    unfold fuzzify, triangular. f_equal; cases; destruct V as [V|V]; rewrite ?V in *; try reflexivity; lra. }
  unfold fuzzy_weights. rewrite F. cbn [m_low m_medium m_high]. rewrite !(Rmax_left 0 0) by lra.
  destruct increase; rewrite !D by (cbn; reflexivity); reflexivity.
Qed.

(** * C44 *)
Lemma fold_Rmax l a : (forall x, In x l -> x <= fold_left Rmax l a) /\ a <= fold_left Rmax l a /\ (fold_left Rmax l a = a \/ In (fold_left Rmax l a) l).
Proof.
  revert a. induction l as [|b l IH]; intros a; simpl; [split; [intros x []|split; [lra|auto]]|].
  destruct (IH (Rmax a b)) as (H1 & H2 & H3). assert (A := Rmax_l a b). assert (B := Rmax_r a b). split; [|split].
  - intros x [<-|Hx]; [lra|auto].
  - lra.
  - destruct H3 as [H3|H3]; [|auto]. rewrite H3. unfold Rmax. destruct (Rle_dec a b); auto.
Qed.
Lemma fold_Rmin l a : (forall x, In x l -> fold_left Rmin l a <= x) /\ fold_left Rmin l a <= a /\ (fold_left Rmin l a = a \/ In (fold_left Rmin l a) l).
Proof.
  revert a. induction l as [|b l IH]; intros a; simpl; [split; [intros x []|split; [lra|auto]]|].
  destruct (IH (Rmin a b)) as (H1 & H2 & H3). assert (A := Rmin_l a b). assert (B := Rmin_r a b). split; [|split].
  - intros x [<-|Hx]; [lra|auto].
  - lra.
  - destruct H3 as [H3|H3]; [|auto]. rewrite H3. unfold Rmin. destruct (Rle_dec a b); auto.
Qed.
Lemma rmaxl_spec l : l <> [] -> In (rmaxl l) l /\ forall x, In x l -> x <= rmaxl l.
Proof.
  destruct l as [|a l]; [congruence|]. intros _. unfold rmaxl; simpl. destruct (fold_Rmax l a) as (H1 & H2 & H3).
  split; [destruct H3; auto|]. intros x [<-|Hx]; auto.
Qed.
Lemma rminl_spec l : l <> [] -> In (rminl l) l /\ forall x, In x l -> rminl l <= x.
Proof.
  destruct l as [|a l]; [congruence|]. intros _. unfold rminl; simpl. destruct (fold_Rmin l a) as (H1 & H2 & H3).
  split; [destruct H3; auto|]. intros x [<-|Hx]; auto.
Qed.
Lemma rsum_nonneg l : (forall x, In x l -> 0 <= x) -> 0 <= rsum l /\ (forall x, In x l -> x <= rsum l).
Proof.
  unfold rsum. induction l as [|a l IH]; simpl; intros H; [split; [lra|intros x []]|].
  destruct IH as [I1 I2]; [auto|]. assert (0 <= a) by auto. split; [lra|]. intros x [<-|Hx]; [lra|]. specialize (I2 x Hx). lra.
Qed.
Lemma rsum_scale l k : rsum (map (fun x => x / k) l) = rsum l / k.
Proof. unfold rsum. induction l as [|a l IH]; simpl; [unfold Rdiv; ring|rewrite IH; unfold Rdiv; ring]. Qed.
Lemma rsum_pos l x : (forall y, In y l -> 0 <= y) -> In x l -> 0 < x -> 0 < rsum l.
Proof. intros H Hx P. destruct (rsum_nonneg l H) as [_ Q]. specialize (Q x Hx). lra. Qed.

(** What a probability vector for fitness values [l] must satisfy. *)
Definition better_R (min : bool) (x y : R) : Prop := if min then x < y else y < x.
Record wheel (min : bool) (l p : list R) : Prop := {
  w_length : length p = length l;
  w_nonneg : forall i, (i < length l)%nat -> 0 <= nth i p 0;
  w_sum : rsum p = 1;
  w_better : forall i j, (i < length l)%nat -> (j < length l)%nat ->
     better_R min (nth i l 0) (nth j l 0) -> nth j p 0 < nth i p 0;
  w_equal : forall i j, (i < length l)%nat -> (j < length l)%nat -> nth i l 0 = nth j l 0 -> nth i p 0 = nth j p 0 }.
Definition worst_R (min : bool) (l : list R) (x : R) : Prop := forall y, In y l -> if min then y <= x else x <= y.

Lemma wheel_map min l (g : R -> R) : l <> [] ->
  (forall x, In x l -> 0 <= g x) -> (exists x, In x l /\ 0 < g x) ->
  (forall x y, better_R min x y -> g y < g x) ->
  wheel min l (map (fun x => x / rsum (map g l)) (map g l)).
Proof.
  intros NE H0 (x0 & Hx0 & P0) HB.
  assert (S : 0 < rsum (map g l)).
  { apply rsum_pos with (g x0); [|apply in_map; exact Hx0|exact P0]. intros y Hy. apply in_map_iff in Hy as (z & <- & Hz). auto. }
  set (S' := rsum (map g l)) in *.
  assert (N : forall i, (i < length l)%nat -> nth i (map (fun x => x / S') (map g l)) 0 = g (nth i l 0) / S').
  { intros i Hi. rewrite map_map. rewrite (nth_indep _ 0 (g 0 / S')) by (rewrite map_length; exact Hi).
    exact (map_nth (fun x => g x / S') l 0 i). }
  assert (IP : 0 < / S') by (apply Rinv_0_lt_compat; exact S).
  constructor.
  - rewrite !map_length. reflexivity.
  - intros i Hi. rewrite N by exact Hi. apply Rmult_le_pos; [apply H0, nth_In; exact Hi|lra].
  - rewrite rsum_scale. fold S'. field. lra.
  - intros i j Hi Hj B. rewrite !N by assumption. apply Rmult_lt_compat_r; [exact IP|]. apply HB, B.
  - intros i j Hi Hj B. rewrite !N by assumption. rewrite B. reflexivity.
Qed.
Lemma existsb_neg l : existsb (fun x => rlt x 0) l = true <-> exists x, In x l /\ x < 0.
Proof.
  rewrite existsb_exists. split; intros (x & H1 & H2); exists x; split; auto; unfold rlt in *; destruct (Rlt_dec x 0); auto; discriminate.
Qed.
Lemma rmaxl_shift l k : l <> [] -> rmaxl (map (fun x => x - k) l) = rmaxl l - k.
Proof.
  intros NE. destruct (rmaxl_spec l NE) as [I1 U1].
  destruct (rmaxl_spec (map (fun x => x - k) l)) as [I2 U2]; [destruct l; [congruence|discriminate]|].
  apply in_map_iff in I2 as (y & Hy & Hin). specialize (U1 y Hin).
  assert (Q : rmaxl l - k <= rmaxl (map (fun x => x - k) l)) by (apply U2; exact (in_map (fun x => x - k) l _ I1)). lra.
Qed.
(** The probabilities of a list whose values are not all equal; the worst value has probability zero for "min", and
    for "max" when a fitness is negative. *)
Theorem C44_probabilities : forall (min : bool) l, l <> [] -> ~ (forall x y, In x l -> In y l -> x = y) ->
  exists p, roulette_real min l = Some p /\ wheel min l p /\
    (min = true \/ (exists x, In x l /\ x < 0) ->
     forall i, (i < length l)%nat -> worst_R min l (nth i l 0) -> nth i p 0 = 0).
Proof.
  intros min l NE NU. destruct (rmaxl_spec l NE) as [MI MU]. destruct (rminl_spec l NE) as [NI NL].
  assert (SP : rminl l < rmaxl l).
  { destruct (Rle_dec (rmaxl l) (rminl l)) as [H|H]; [exfalso; apply NU|lra]. intros x y Hx Hy.
    assert (A1 := MU x Hx). assert (A2 := MU y Hy). assert (A3 := NL x Hx). assert (A4 := NL y Hy). lra. }
  unfold roulette_real. assert (R0 : req (rmaxl l - rminl l) 0 = false) by (unfold req; destruct (Req_EM_T (rmaxl l - rminl l) 0); [lra|reflexivity]).
  rewrite R0.
  assert (Z : forall (g : R -> R) i, (i < length l)%nat -> g (nth i l 0) = 0 ->
     nth i (map (fun x => x / rsum (map g l)) (map g l)) 0 = 0).
  { intros g i Hi G. rewrite map_map. rewrite (nth_indep _ 0 (g 0 / rsum (map g l))) by (rewrite map_length; exact Hi).
    rewrite (map_nth (fun x => g x / rsum (map g l)) l 0 i). rewrite G. unfold Rdiv. ring. }
  destruct min.
  - (* min: both cases give max - x *)
    set (l1 := if existsb (fun x => rlt x 0) l then map (fun x => x - rminl l) l else l).
    assert (L1 : map (fun x => rmaxl l1 - x) l1 = map (fun x => rmaxl l - x) l).
    { unfold l1. destruct (existsb _ l); [|reflexivity]. rewrite map_map. rewrite rmaxl_shift by exact NE. apply map_ext. intros; ring. }
    rewrite L1. eexists. split; [reflexivity|]. split.
    + apply wheel_map; [exact NE| | |].
      * intros x Hx. specialize (MU x Hx). lra.
      * exists (rminl l). split; [exact NI|lra].
      * unfold better_R. intros x y H; lra.
    + intros _ i Hi W. apply (Z (fun x => rmaxl l - x)); [exact Hi|]. specialize (W _ MI). simpl in W.
      assert (Q := MU _ (nth_In l 0 Hi)). lra.
  - destruct (existsb (fun x => rlt x 0) l) eqn:EB.
    + eexists. split; [reflexivity|]. split.
      * apply wheel_map; [exact NE| | |].
        -- intros x Hx. specialize (NL x Hx). lra.
        -- exists (rmaxl l). split; [exact MI|lra].
        -- unfold better_R. intros x y H; lra.
      * intros _ i Hi W. apply (Z (fun x => x - rminl l)); [exact Hi|]. specialize (W _ NI). simpl in W.
        assert (Q := NL _ (nth_In l 0 Hi)). lra.
    + assert (Pos : forall x, In x l -> 0 <= x).
      { intros x Hx. destruct (Rlt_dec x 0) as [C|C]; [|lra]. assert (existsb (fun x => rlt x 0) l = true) by (apply existsb_neg; eauto). congruence. }
      assert (W := wheel_map false l (fun x => x) NE Pos). rewrite map_id in W.
      eexists. split; [reflexivity|]. split.
      * apply W; [exists (rmaxl l); split; [exact MI|]; specialize (Pos _ NI); lra|]. unfold better_R; auto.
      * intros [C|C]; [discriminate|]. apply existsb_neg in C. congruence.
Qed.
(** All values equal: uniform choice. *)
Theorem C44_uniform : forall (min : bool) l, l <> [] -> (forall x y, In x l -> In y l -> x = y) -> roulette_real min l = None.
Proof.
  intros min l NE H. destruct (rmaxl_spec l NE) as [MI _]. destruct (rminl_spec l NE) as [NI _].
  unfold roulette_real, req. destruct (Req_EM_T (rmaxl l - rminl l) 0) as [|C]; [reflexivity|].
  exfalso; apply C. rewrite (H _ _ MI NI). ring.
Qed.
(** For "max" with non-negative values the worst agent keeps a positive probability. *)
Theorem C44_max_worst_positive : exists l p, roulette_real false l = Some p /\
  exists i, (i < length l)%nat /\ worst_R false l (nth i l 0) /\ 0 < nth i p 0.
Proof.
  destruct (C44_probabilities false [1; 2; 4]) as (p & Hp & _ & _); [discriminate|intros H; specialize (H 1 2); simpl in H; lra|].
  exists [1; 2; 4], p. split; [exact Hp|]. exists 0%nat. split; [simpl; lia|]. split.
  - intros y [<-|[<-|[<-|[]]]]; simpl; lra.
  - unfold roulette_real in Hp. destruct (req _ 0); [discriminate|].
    assert (EB : existsb (fun x => rlt x 0) [1; 2; 4] = false).
    { apply Bool.not_true_is_false. intros H. apply existsb_neg in H as (x & [<-|[<-|[<-|[]]]] & H); lra. }
    rewrite EB in Hp. inversion Hp. simpl. unfold rsum; simpl. lra.
Qed.
Example C44_case : [3; -1; 7] <> [] /\ ~ (forall x y, In x [3; -1; 7] -> In y [3; -1; 7] -> x = y).
Proof. split; [discriminate|]. intros H. specialize (H 3 7). simpl in H. lra. Qed.

(** * C46 *)
Theorem C46_between : forall r d m, in_unit r ->
  let (w1, w2) := cross_real r d m in
  Rmin d m <= w1 <= Rmax d m /\ Rmin d m <= w2 <= Rmax d m /\ w1 + w2 = d + m.
Proof.
  intros r d m [L U]. unfold cross_real. unfold Rmin, Rmax. destruct (Rle_dec d m); (split; [split; nra|split; [split; nra|ring]]).
Qed.
Example C46_case : in_unit (1 / 4). Proof. unfold in_unit; lra. Qed.

Print Assumptions C31_s_shaped.
Print Assumptions C31_v_shaped.
Print Assumptions C31_erf_shaped.
Print Assumptions C31_s_shaped_strict.
Print Assumptions C31_s_order.
Print Assumptions C53_unit_interval.
Print Assumptions C53_chebyshev.
Print Assumptions C53_singer_refuted.
Print Assumptions C53_singer.
Print Assumptions C54_degrees.
Print Assumptions C54_weights.
Print Assumptions C54_ends.
Print Assumptions C44_probabilities.
Print Assumptions C44_uniform.
Print Assumptions C44_max_worst_positive.
Print Assumptions C46_between.
