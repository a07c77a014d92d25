(** IEEE-754 binary64 numbers: the Python/NumPy [float].
    Flocq's [binary_float 53 1024] with a single NaN. *)
From Coq Require Import ZArith Reals Lia Lra Bool.
From Flocq Require Import Core BinarySingleNaN.

Definition prec := 53%Z.
Definition emax := 1024%Z.
#[global] Instance Hprec : Prec_gt_0 prec.
Proof. unfold Prec_gt_0, prec; lia. Qed.
#[global] Instance Hmax : Prec_lt_emax prec emax.
Proof. unfold Prec_lt_emax, prec, emax; lia. Qed.

Definition f64 := binary_float prec emax.

(** Literals: the binary64 number nearest to m * 2^e. *)
Definition fpow (m e : Z) : f64 := binary_normalize prec emax Hprec Hmax mode_NE m e false.
Definition fZ (z : Z) : f64 := fpow z 0.
Definition fnan : f64 := B754_nan.
Definition finf : f64 := B754_infinity false.
Definition fninf : f64 := B754_infinity true.

(** NumPy/Python arithmetic: round to nearest even. *)
Definition fadd : f64 -> f64 -> f64 := Bplus mode_NE.
Definition fsub : f64 -> f64 -> f64 := Bminus mode_NE.
Definition fmul : f64 -> f64 -> f64 := Bmult mode_NE.
Definition fdiv : f64 -> f64 -> f64 := Bdiv mode_NE.
Definition fneg : f64 -> f64 := Bopp.
Definition fabs : f64 -> f64 := Babs.
Definition ffloor : f64 -> f64 := Bnearbyint mode_DN.   (* np.floor *)
Definition fceil : f64 -> f64 := Bnearbyint mode_UP.    (* np.ceil *)
Definition ftrunc : f64 -> Z := @Btrunc prec emax.      (* int(x) / astype(int), finite x *)

(** Comparisons: false as soon as an argument is NaN (except [fne]). *)
Definition flt (x y : f64) : bool := Bltb x y.
Definition fle (x y : f64) : bool := Bleb x y.
Definition feq (x y : f64) : bool := Beqb x y.
Definition fgt (x y : f64) : bool := flt y x.
Definition fge (x y : f64) : bool := fle y x.
Definition fisnan (x : f64) : bool := is_nan x.
Definition fisfin (x : f64) : bool := is_finite x.

(** Real value of a non-NaN float; infinities sit outside the range of finite values. *)
Definition FR (x : f64) : R :=
  match x with
  | B754_infinity false => bpow radix2 emax
  | B754_infinity true => (- bpow radix2 emax)%R
  | _ => B2R x
  end.

Lemma FR_fin x : fisfin x = true -> FR x = B2R x.
Proof. destruct x as [s|s| |s m e H]; try discriminate; reflexivity. Qed.

Lemma FR_bound x : fisfin x = true -> (- bpow radix2 emax < FR x < bpow radix2 emax)%R.
Proof.
  intros H. rewrite (FR_fin _ H).
  pose proof (abs_B2R_lt_emax prec emax x) as Hb. apply Rabs_lt_inv in Hb. exact Hb.
Qed.

Lemma FR_bound_le x : (- bpow radix2 emax <= FR x <= bpow radix2 emax)%R.
Proof.
  pose proof (bpow_gt_0 radix2 emax).
  destruct x as [s|[|]| |s m e Hb].
  - simpl; lra.
  - unfold FR; lra.
  - unfold FR; lra.
  - simpl; lra.
  - pose proof (FR_bound (B754_finite s m e Hb) eq_refl); lra.
Qed.

Lemma FR_pinf : FR (B754_infinity false) = bpow radix2 emax.
Proof. reflexivity. Qed.
Lemma FR_ninf : FR (B754_infinity true) = (- bpow radix2 emax)%R.
Proof. reflexivity. Qed.

Lemma fcmp_FR x y : fisnan x = false -> fisnan y = false ->
  Bcompare x y = Some (Rcompare (FR x) (FR y)).
Proof.
  intros Hx Hy.
  pose proof (bpow_gt_0 radix2 emax) as Hp.
  destruct (fisfin x) eqn:Fx; destruct (fisfin y) eqn:Fy.
  - rewrite (FR_fin _ Fx), (FR_fin _ Fy). apply Bcompare_correct; assumption.
  - pose proof (FR_bound _ Fx) as B.
    destruct y as [s|[|]| |s m e H]; try discriminate.
    + rewrite FR_ninf, Rcompare_Gt; [|lra].
      destruct x as [s|[|]| |s m e H]; try discriminate; try reflexivity; destruct s; reflexivity.
    + rewrite FR_pinf, Rcompare_Lt; [|lra].
      destruct x as [s|[|]| |s m e H]; try discriminate; try reflexivity; destruct s; reflexivity.
  - pose proof (FR_bound _ Fy) as B.
    destruct x as [s|[|]| |s m e H]; try discriminate.
    + rewrite FR_ninf, Rcompare_Lt; [|lra].
      destruct y as [s|[|]| |s m e H]; try discriminate; try reflexivity; destruct s; reflexivity.
    + rewrite FR_pinf, Rcompare_Gt; [|lra].
      destruct y as [s|[|]| |s m e H]; try discriminate; try reflexivity; destruct s; reflexivity.
  - destruct x as [s|[|]| |s m e H]; try discriminate;
    destruct y as [s'|[|]| |s' m' e' H']; try discriminate; rewrite ?FR_pinf, ?FR_ninf.
    + rewrite Rcompare_Eq; reflexivity.
    + rewrite Rcompare_Lt; [reflexivity|lra].
    + rewrite Rcompare_Gt; [reflexivity|lra].
    + rewrite Rcompare_Eq; reflexivity.
Qed.

Lemma flt_unfold x y : flt x y = match Bcompare x y with Some Lt => true | _ => false end.
Proof. reflexivity. Qed.
Lemma fle_unfold x y : fle x y = match Bcompare x y with Some (Lt | Eq) => true | _ => false end.
Proof. reflexivity. Qed.
Lemma feq_unfold x y : feq x y = match Bcompare x y with Some Eq => true | _ => false end.
Proof. reflexivity. Qed.

Lemma fcmp_nan_l x y : fisnan x = true -> Bcompare x y = None.
Proof. destruct x; try discriminate; reflexivity. Qed.
Lemma fcmp_nan_r x y : fisnan y = true -> Bcompare x y = None.
Proof. destruct y; try discriminate; intros _; destruct x as [s|[|]| |[|] m e H]; reflexivity. Qed.

Lemma flt_nan_l x y : fisnan x = true -> flt x y = false.
Proof. intros H; rewrite flt_unfold, fcmp_nan_l; auto. Qed.
Lemma flt_nan_r x y : fisnan y = true -> flt x y = false.
Proof. intros H; rewrite flt_unfold, fcmp_nan_r; auto. Qed.
Lemma fle_nan_l x y : fisnan x = true -> fle x y = false.
Proof. intros H; rewrite fle_unfold, fcmp_nan_l; auto. Qed.
Lemma fle_nan_r x y : fisnan y = true -> fle x y = false.
Proof. intros H; rewrite fle_unfold, fcmp_nan_r; auto. Qed.

Lemma flt_true_nan x y : flt x y = true -> fisnan x = false /\ fisnan y = false.
Proof.
  intros H. split; apply not_true_is_false; intros E.
  - rewrite flt_nan_l in H; auto; discriminate.
  - rewrite flt_nan_r in H; auto; discriminate.
Qed.
Lemma fle_true_nan x y : fle x y = true -> fisnan x = false /\ fisnan y = false.
Proof.
  intros H. split; apply not_true_is_false; intros E.
  - rewrite fle_nan_l in H; auto; discriminate.
  - rewrite fle_nan_r in H; auto; discriminate.
Qed.

Lemma flt_FR x y : fisnan x = false -> fisnan y = false -> (flt x y = true <-> (FR x < FR y)%R).
Proof.
  intros Hx Hy. rewrite flt_unfold, (fcmp_FR x y Hx Hy).
  destruct (Rcompare_spec (FR x) (FR y)); split; intros; try reflexivity; try discriminate; try lra.
Qed.
Lemma fle_FR x y : fisnan x = false -> fisnan y = false -> (fle x y = true <-> (FR x <= FR y)%R).
Proof.
  intros Hx Hy. rewrite fle_unfold, (fcmp_FR x y Hx Hy).
  destruct (Rcompare_spec (FR x) (FR y)); split; intros; try reflexivity; try discriminate; try lra.
Qed.
Lemma feq_FR x y : fisnan x = false -> fisnan y = false -> (feq x y = true <-> FR x = FR y).
Proof.
  intros Hx Hy. rewrite feq_unfold, (fcmp_FR x y Hx Hy).
  destruct (Rcompare_spec (FR x) (FR y)); split; intros; try reflexivity; try discriminate; try lra.
Qed.

Lemma flt_false_FR x y : fisnan x = false -> fisnan y = false -> (flt x y = false <-> (FR y <= FR x)%R).
Proof.
  intros Hx Hy. pose proof (flt_FR x y Hx Hy) as [A B].
  destruct (flt x y); split; intros H; try discriminate; try reflexivity.
  - pose proof (A eq_refl); lra.
  - destruct (Rle_or_lt (FR y) (FR x)) as [q|q]; [assumption|]. discriminate (B q).
Qed.
Lemma fle_false_FR x y : fisnan x = false -> fisnan y = false -> (fle x y = false <-> (FR y < FR x)%R).
Proof.
  intros Hx Hy. pose proof (fle_FR x y Hx Hy) as [A B].
  destruct (fle x y); split; intros H; try discriminate; try reflexivity.
  - pose proof (A eq_refl); lra.
  - destruct (Rle_or_lt (FR x) (FR y)) as [q|q]; [|assumption]. discriminate (B q).
Qed.

Lemma flt_irrefl x : flt x x = false.
Proof.
  destruct (fisnan x) eqn:E; [apply flt_nan_l; exact E|]. apply flt_false_FR; auto; lra.
Qed.
Lemma flt_trans x y z : flt x y = true -> flt y z = true -> flt x z = true.
Proof.
  intros A B. destruct (flt_true_nan _ _ A) as [nx ny], (flt_true_nan _ _ B) as [_ nz].
  apply flt_FR in A; apply flt_FR in B; auto. apply flt_FR; auto; lra.
Qed.
Lemma flt_asym x y : flt x y = true -> flt y x = false.
Proof.
  intros A. destruct (flt_true_nan _ _ A) as [nx ny]. apply flt_FR in A; auto.
  apply flt_false_FR; auto; lra.
Qed.
Lemma fle_refl x : fisnan x = false -> fle x x = true.
Proof. intros; apply fle_FR; auto; lra. Qed.
Lemma fle_trans x y z : fle x y = true -> fle y z = true -> fle x z = true.
Proof.
  intros A B. destruct (fle_true_nan _ _ A) as [nx ny], (fle_true_nan _ _ B) as [_ nz].
  apply fle_FR in A; apply fle_FR in B; auto. apply fle_FR; auto; lra.
Qed.
Lemma flt_le x y : flt x y = true -> fle x y = true.
Proof.
  intros A. destruct (flt_true_nan _ _ A) as [nx ny]. apply flt_FR in A; auto. apply fle_FR; auto; lra.
Qed.
Lemma flt_false_le x y : fisnan x = false -> fisnan y = false -> flt x y = false -> fle y x = true.
Proof. intros nx ny A. apply flt_false_FR in A; auto. apply fle_FR; auto. Qed.
Lemma fle_total x y : fisnan x = false -> fisnan y = false -> fle x y = true \/ fle y x = true.
Proof.
  intros nx ny. destruct (Rle_or_lt (FR x) (FR y)); [left|right]; apply fle_FR; auto; lra.
Qed.

(** Order reversal of negation. *)
Lemma FR_neg x : FR (fneg x) = (- FR x)%R.
Proof.
  destruct x as [s|[|]| |s m e H]; simpl; try lra.
  rewrite <- F2R_Zopp. destruct s; reflexivity.
Qed.
Lemma fisnan_neg x : fisnan (fneg x) = fisnan x.
Proof. destruct x; reflexivity. Qed.
Lemma flt_neg x y : flt (fneg x) (fneg y) = flt y x.
Proof.
  destruct (fisnan x) eqn:nx.
  - rewrite flt_nan_l, flt_nan_r; auto. rewrite fisnan_neg; exact nx.
  - destruct (fisnan y) eqn:ny.
    + rewrite flt_nan_r, flt_nan_l; auto. rewrite fisnan_neg; exact ny.
    + destruct (flt y x) eqn:E.
      * apply flt_FR in E; auto. apply flt_FR; rewrite ?fisnan_neg; auto. rewrite !FR_neg; lra.
      * apply flt_false_FR in E; auto. apply flt_false_FR; rewrite ?fisnan_neg; auto. rewrite !FR_neg; lra.
Qed.

(** np.clip on one component: [minimum(maximum(x, lo), hi)] with NumPy's NaN propagation
    (numpy clip ufunc: x NaN -> NaN; otherwise [x > lo ? x : lo], then [y < hi ? y : hi]). *)
Definition fmax_np (x y : f64) : f64 := if fisnan x then x else if flt y x then x else y.
Definition fmin_np (x y : f64) : f64 := if fisnan x then x else if flt x y then x else y.
Definition fclip (x lo hi : f64) : f64 := fmin_np (fmax_np x lo) hi.

Lemma fclip_nan x lo hi : fisnan x = true -> fclip x lo hi = x.
Proof. intros H. unfold fclip, fmax_np, fmin_np. rewrite H, H; reflexivity. Qed.

Lemma fclip_bounds x lo hi : fisnan x = false -> fle lo hi = true ->
  fle lo (fclip x lo hi) = true /\ fle (fclip x lo hi) hi = true.
Proof.
  intros nx Hb. destruct (fle_true_nan _ _ Hb) as [nl nh]. pose proof Hb as Hb'. apply fle_FR in Hb'; auto.
  unfold fclip, fmax_np. rewrite nx.
  destruct (flt lo x) eqn:E; unfold fmin_np.
  - rewrite nx. apply flt_FR in E; auto. destruct (flt x hi) eqn:E2.
    + apply flt_FR in E2; auto. split; apply fle_FR; auto; lra.
    + split; apply fle_FR; auto; lra.
  - rewrite nl. destruct (flt lo hi) eqn:E2; split; apply fle_FR; auto; lra.
Qed.

(** Clipping a value already inside gives an equal value (and the same one except for the sign of zero). *)
Lemma fclip_inside x lo hi : fle lo x = true -> fle x hi = true -> FR (fclip x lo hi) = FR x.
Proof.
  intros A B. destruct (fle_true_nan _ _ A) as [nl nx], (fle_true_nan _ _ B) as [_ nh].
  apply fle_FR in A; auto; apply fle_FR in B; auto.
  unfold fclip, fmax_np. rewrite nx. destruct (flt lo x) eqn:E; unfold fmin_np.
  - rewrite nx. destruct (flt x hi) eqn:E2; [reflexivity|]. apply flt_false_FR in E2; auto; lra.
  - apply flt_false_FR in E; auto. rewrite nl. destruct (flt lo hi) eqn:E2; [lra|].
    apply flt_false_FR in E2; auto; lra.
Qed.

Lemma fclip_notnan x lo hi : fisnan x = false -> fisnan lo = false -> fisnan hi = false ->
  fisnan (fclip x lo hi) = false.
Proof.
  intros. unfold fclip, fmax_np. rewrite H. destruct (flt lo x); unfold fmin_np.
  - rewrite H. destruct (flt x hi); assumption.
  - rewrite H0. destruct (flt lo hi); assumption.
Qed.

(** The clip result is one of its three arguments. *)
Lemma fclip_cases x lo hi : fclip x lo hi = x \/ fclip x lo hi = lo \/ fclip x lo hi = hi.
Proof.
  unfold fclip, fmin_np, fmax_np.
  destruct (fisnan x) eqn:nx.
  - rewrite nx; auto.
  - destruct (flt lo x); [rewrite nx; destruct (flt x hi); auto|].
    destruct (fisnan lo); [auto|]. destruct (flt lo hi); auto.
Qed.

Lemma fclip_idem x lo hi : fle lo hi = true -> fclip (fclip x lo hi) lo hi = fclip x lo hi.
Proof.
  intros Hb. destruct (fle_true_nan _ _ Hb) as [nl nh]. apply fle_FR in Hb; auto.
  unfold fclip, fmax_np. destruct (fisnan x) eqn:nx.
  - unfold fmin_np. rewrite nx, nx. rewrite nx; reflexivity.
  - destruct (flt lo x) eqn:E; unfold fmin_np.
    + rewrite nx. destruct (flt x hi) eqn:E2.
      * rewrite nx, E, nx, E2. reflexivity.
      * rewrite nh. destruct (flt lo hi) eqn:E3.
        -- rewrite nh, flt_irrefl; reflexivity.
        -- rewrite nl, E3; reflexivity.
    + rewrite nl. destruct (flt lo hi) eqn:E2.
      * rewrite nl, flt_irrefl, nl, E2; reflexivity.
      * rewrite nh. rewrite E2, nl, E2. reflexivity.
Qed.
