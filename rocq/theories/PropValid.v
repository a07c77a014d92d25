(** Parameter checks, Termination construction, set_parameters. *)
From Coq Require Import Reals Lra.
From Flocq Require Import Core.
From Verif Require Import Prelude Fl FlArith MCore MAgent MValid SpecCore SpecRun.

(** * Meaning of exact numbers *)
Definition xR (m e : Z) : R := (IZR m * bpow radix2 e)%R.

Lemma xfin_cmp_spec m1 e1 m2 e2 : xfin_cmp m1 e1 m2 e2 = Rcompare (xR m1 e1) (xR m2 e2).
Proof.
  unfold xfin_cmp, xR. set (e := Z.min e1 e2).
  assert (S : forall m k, (e <= k)%Z -> (IZR m * bpow radix2 k = IZR (m * 2 ^ (k - e)) * bpow radix2 e)%R).
  { intros m k Hk. rewrite mult_IZR. replace (IZR (2 ^ (k - e))) with (bpow radix2 (k - e)).
    - rewrite Rmult_assoc, <- bpow_plus. f_equal. f_equal. lia.
    - rewrite <- (IZR_Zpower radix2) by lia. reflexivity. }
  rewrite (S m1 e1), (S m2 e2) by (unfold e; lia). rewrite Rcompare_mult_r by apply bpow_gt_0.
  rewrite Rcompare_IZR. reflexivity.
Qed.

(** The numbers strictly/weakly below each other, infinities included. *)
Definition below (strict : bool) (a b : xnum) : Prop :=
  match a, b with
  | XFin m1 e1, XFin m2 e2 => if strict then (xR m1 e1 < xR m2 e2)%R else (xR m1 e1 <= xR m2 e2)%R
  | XNinf, XPinf | XNinf, XFin _ _ | XFin _ _, XPinf => True
  | XNinf, XNinf | XPinf, XPinf => strict = false
  | _, _ => False
  end.
Lemma xlt_below a b : xlt a b = true <-> below true a b.
Proof.
  unfold xlt, xcmp, below. destruct a as [| | |m1 e1], b as [| | |m2 e2]; try (split; intros; (reflexivity || exact I || discriminate || contradiction)).
  rewrite xfin_cmp_spec. destruct (Rcompare_spec (xR m1 e1) (xR m2 e2)); split; intros; try discriminate; try lra; auto.
Qed.
Lemma xle_below a b : xle a b = true <-> below false a b.
Proof.
  unfold xle, xcmp, below. destruct a as [| | |m1 e1], b as [| | |m2 e2]; try (split; intros; (reflexivity || exact I || discriminate || contradiction)).
  rewrite xfin_cmp_spec. destruct (Rcompare_spec (xR m1 e1) (xR m2 e2)); split; intros; try discriminate; try lra; auto.
Qed.
Lemma xeq_ninf a : xeq a XNinf = true <-> a = XNinf.
Proof. destruct a; split; intros H; try discriminate; reflexivity. Qed.
Lemma xeq_pinf a : xeq a XPinf = true <-> a = XPinf.
Proof. destruct a; split; intros H; try discriminate; reflexivity. Qed.

(** * C38 *)
(** A tuple is an open interval, a list a closed one, an infinite end does not constrain. *)
Theorem C38_in_bound : forall v b, v <> XNan ->
  (is_in_bound v b = true <->
   (b_lo b = XNinf \/ below (b_open b) (b_lo b) v) /\ (b_hi b = XPinf \/ below (b_open b) v (b_hi b))).
Proof.
  intros v [o lo hi] Hv. unfold is_in_bound. simpl.
  assert (OPS : forall x y, (if o then xlt else xle) x y = true <-> below o x y).
  { intros x y. destruct o; [apply xlt_below|apply xle_below]. }
  set (ops := if o then xlt else xle) in *.
  rewrite <- (OPS lo v), <- (OPS v hi), <- (xeq_ninf lo), <- (xeq_pinf hi).
  destruct (xeq lo XNinf), (xeq hi XPinf), (ops lo v), (ops v hi); simpl; intuition discriminate.
Qed.
(** NaN passes only the doubly infinite bound. *)
Theorem C38_in_bound_nan : forall b, is_in_bound XNan b = true <-> b_lo b = XNinf /\ b_hi b = XPinf.
Proof.
  intros [o lo hi]. unfold is_in_bound. simpl.
  assert (N1 : forall x, (if o then xlt else xle) XNan x = false) by (destruct o; reflexivity).
  assert (N2 : forall x, (if o then xlt else xle) x XNan = false) by (destruct o; intros [| | |]; reflexivity).
  rewrite N1, N2, <- (xeq_ninf lo), <- (xeq_pinf hi).
  destruct (xeq lo XNinf), (xeq hi XPinf); simpl; intuition discriminate.
Qed.
(** check_int accepts exactly the finite numbers (bools included) in the bound, and truncates towards zero. *)
Lemma py_int_spec m e n : py_int (XFin m e) = Ok n -> n = Ztrunc (xR m e).
Proof.
  unfold py_int, xR. destruct (0 <=? e)%Z eqn:E.
  - apply Z.leb_le in E. intros H; inversion H; subst. rewrite <- (IZR_Zpower radix2) by lia. rewrite <- mult_IZR, Ztrunc_IZR. reflexivity.
  - apply Z.leb_gt in E. intros H; inversion H; subst. clear H.
    replace (bpow radix2 e) with (/ IZR (2 ^ (- e)))%R.
    + fold (Rdiv (IZR m) (IZR (2 ^ (- e)))). symmetry. apply Ztrunc_div. intros C.
      assert (0 < 2 ^ (- e))%Z by (apply Z.pow_pos_nonneg; lia). lia.
    + rewrite (IZR_Zpower radix2) by lia. rewrite bpow_opp, Rinv_inv. reflexivity.
Qed.
Theorem C38_check_int : forall v b n, check_int v (Some b) = Ok n <->
  exists m e, as_number v = Some (XFin m e) /\ n = Ztrunc (xR m e) /\
    (b_lo b = XNinf \/ below (b_open b) (b_lo b) (XFin m e)) /\ (b_hi b = XPinf \/ below (b_open b) (XFin m e) (b_hi b)).
Proof.
  intros v b n. unfold check_int. split.
  - destruct (as_number v) as [x|]; [|discriminate]. destruct (is_in_bound x b) eqn:E; [|discriminate].
    destruct x as [| | |m e]; try discriminate. intros H. exists m, e. split; [reflexivity|]. split; [apply py_int_spec; exact H|].
    apply C38_in_bound; [discriminate|exact E].
  - intros (m & e & -> & -> & H). apply C38_in_bound in H; [|discriminate]. rewrite H.
    destruct (py_int (XFin m e)) as [k|] eqn:E; [apply py_int_spec in E; congruence|].
    unfold py_int in E. discriminate.
Qed.
(** With closed integer bounds the stored integer is inside them. *)
Theorem C38_check_int_in_range : forall v lo hi n, check_int v (Some (zbound lo hi)) = Ok n -> (lo <= n <= hi)%Z.
Proof.
  intros v lo hi n H. apply C38_check_int in H. destruct H as (m & e & _ & -> & [H1|H1] & [H2|H2]); try discriminate.
  simpl in H1, H2. unfold xR in H1 at 1. unfold xR in H2 at 2. simpl in H1, H2. rewrite Rmult_1_r in *. split.
  - rewrite <- (Ztrunc_IZR lo). apply Ztrunc_le. exact H1.
  - rewrite <- (Ztrunc_IZR hi). apply Ztrunc_le. exact H2.
Qed.
(** With an open or fractional bound it need not be: 0.01 is accepted for (0, 5) and stored as 0. *)
Definition c0_01 : f64 := fpow 5764607523034235 (-59).
Theorem C38_truncation_refuted : exists v b n, check_int v (Some b) = Ok n /\ is_in_bound (XFin n 0) b = false.
Proof. exists (VFlt c0_01), (mkBound true (XFin 0 0) (XFin 5 0)), 0%Z. split; vm_compute; reflexivity. Qed.
(** bool passes for a number. *)
Theorem C38_bool_is_number : check_int (VBool true) (Some (zbound 1 100)) = Ok 1%Z.
Proof. reflexivity. Qed.
(** infinity passes a bound that is open-ended and makes int() raise. *)
Theorem C38_infinite : check_int (VFlt finf) (Some (mkBound false (XFin 0 0) XPinf)) = Err OverflowError.
Proof. reflexivity. Qed.

Lemma of_f64_R x : fisfin x = true -> exists m e, of_f64 x = XFin m e /\ xR m e = FR x.
Proof.
  destruct x as [s|s| |s m e B]; intros F; try discriminate.
  - exists 0%Z, 0%Z. split; [reflexivity|]. unfold xR, FR. simpl. lra.
  - exists (if s then Z.neg m else Z.pos m), e. split; [reflexivity|]. unfold xR, FR. simpl. unfold F2R. simpl.
    destruct s; reflexivity.
Qed.
(** check_float returns the number unchanged (an int is converted). *)
Theorem C38_check_float : forall x b y, check_float (VFlt x) (Some b) = Ok y <-> y = x /\ is_in_bound (of_f64 x) b = true.
Proof.
  intros x b y. unfold check_float. simpl. destruct (is_in_bound (of_f64 x) b); split; intros H.
  - inversion H; auto.
  - destruct H as [-> _]; reflexivity.
  - discriminate.
  - destruct H; discriminate.
Qed.
Theorem C38_check_str : forall v l s, check_str v (Some l) = Ok s <-> v = VStr s /\ In s l.
Proof.
  intros v l s. unfold check_str. destruct v; try (split; [discriminate|intros [H _]; discriminate]).
  destruct (existsb (String.eqb s0) l) eqn:E; split; intros H.
  - inversion H; subst. apply existsb_exists in E. destruct E as (x & Hx & Ex). apply String.eqb_eq in Ex. subst; auto.
  - destruct H as [H _]; inversion H; reflexivity.
  - discriminate.
  - destruct H as [H Hin]. inversion H; subst. assert (existsb (String.eqb s) l = true); [|congruence].
    apply existsb_exists. exists s. split; [exact Hin|apply String.eqb_refl].
Qed.
Theorem C38_check_bool : forall v l b, check_bool v l = Ok b <-> v = VBool b /\ In b l.
Proof.
  intros v l b. unfold check_bool. destruct v; try (split; [discriminate|intros [H _]; discriminate]).
  destruct (existsb (Bool.eqb b0) l) eqn:E; split; intros H.
  - inversion H; subst. apply existsb_exists in E. destruct E as (x & Hx & Ex). apply eqb_prop in Ex. subst; auto.
  - destruct H as [H _]; inversion H; reflexivity.
  - discriminate.
  - destruct H as [H Hin]. inversion H; subst. assert (existsb (Bool.eqb b) l = true); [|congruence].
    apply existsb_exists. exists b. split; [exact Hin|apply eqb_reflx].
Qed.
(** Tuples: at least two entries of the right kind; bounds count only when there is one per entry. *)
Theorem C38_check_tuple : forall kind k l bs r, check_tuple kind (VSeq k l) (Some bs) = Ok r <->
  r = VSeq k l /\ 2 <= List.length l /\ (forall v, In v l -> kind v = true) /\
  (List.length bs = List.length l -> forall v b, In (v, b) (combine l bs) -> exists x, as_number v = Some x /\ is_in_bound x b = true).
Proof.
  intros kind k l bs r. unfold check_tuple.
  destruct (1 <? List.length l) eqn:E1; simpl.
  2:{ apply Nat.ltb_ge in E1. split; [discriminate|intros (_ & H & _); lia]. }
  apply Nat.ltb_lt in E1. destruct (forallb kind l) eqn:E2.
  2:{ split; [discriminate|]. intros (_ & _ & H & _). assert (forallb kind l = true) by (apply forallb_forall; exact H). congruence. }
  rewrite forallb_forall in E2. destruct (List.length bs =? List.length l) eqn:E3.
  - apply Nat.eqb_eq in E3. unfold all_in. match goal with |- (if ?c then _ else _) = _ <-> _ => destruct c eqn:E4 end.
    + rewrite forallb_forall in E4. split; [|intros (-> & _); reflexivity].
      intros H; inversion H; subst. repeat (split; auto). intros _ v b Hin. specialize (E4 _ Hin). simpl in E4.
      destruct (as_number v) as [x|]; [eauto|discriminate].
    + split; [discriminate|]. intros (_ & _ & _ & H). specialize (H E3).
      match type of E4 with ?c = false => assert (c = true); [|congruence] end.
      apply forallb_forall. intros [v b] Hin. destruct (H v b Hin) as (x & Ex & Hx). cbn [fst snd]. rewrite Ex. exact Hx.
  - apply Nat.eqb_neq in E3. split; [|intros (-> & _); reflexivity]. intros H; inversion H; subst. repeat (split; auto). intros; congruence.
Qed.
Theorem C38_tuple_unchecked_refuted : exists l bs, check_tuple_int (VSeq STuple l) (Some bs) = Ok (VSeq STuple l) /\
  forall v b, In v l -> In b bs -> exists x, as_number v = Some x /\ is_in_bound x b = false.
Proof.
  exists [VInt 100; VInt 200], [zbound 1 10]. split; [reflexivity|].
  intros v b [<-|[<-|[]]] [<-|[]]; eexists; (split; [reflexivity|vm_compute; reflexivity]).
Qed.

(** * C02 *)
Definition int_limit (v : pyval) (lo hi : Z) (r : option Z) : Prop :=
  match v with
  | VNone => r = None
  | _ => exists m e n, as_number v = Some (XFin m e) /\ (IZR lo <= xR m e <= IZR hi)%R /\ r = Some n /\
           n = Ztrunc (xR m e) /\ (lo <= n <= hi)%Z
  end.
Definition time_limit (v : pyval) (r : option f64) : Prop :=
  match v with
  | VNone => r = None
  | _ => exists m e y, as_number v = Some (XFin m e) /\ (FR c0_1 <= xR m e <= 1000000)%R /\ r = Some y /\ py_float v = Ok y
  end.
Lemma opt_int_limit v lo hi r : opt_check v (fun v => check_int v (Some (zbound lo hi))) = Ok r <-> int_limit v lo hi r.
Proof.
  unfold int_limit. assert (K : forall v, (let* x := check_int v (Some (zbound lo hi)) in Ok (Some x)) = Ok r <->
     exists m e n, as_number v = Some (XFin m e) /\ (IZR lo <= xR m e <= IZR hi)%R /\ r = Some n /\ n = Ztrunc (xR m e) /\ (lo <= n <= hi)%Z).
  { clear v. intros v. destruct (check_int v (Some (zbound lo hi))) as [n|er] eqn:E; simpl.
    - pose proof (C38_check_int_in_range _ _ _ _ E) as Hr. apply C38_check_int in E.
      destruct E as (m & e & E1 & E2 & [C|E3] & [D|E4]); try discriminate. simpl in E3, E4.
      unfold xR in E3 at 1. unfold xR in E4 at 2. simpl in E3, E4. rewrite Rmult_1_r in *. split.
      + intros H; inversion H; subst. exists m, e, (Ztrunc (xR m e)). auto 8.
      + intros (m' & e' & n' & A1 & A2 & -> & -> & _). rewrite E1 in A1. inversion A1; subst. reflexivity.
    - split; [discriminate|]. intros (m & e & n & A1 & A2 & -> & A3 & _).
      assert (check_int v (Some (zbound lo hi)) = Ok n); [|congruence]. apply C38_check_int. exists m, e.
      split; [exact A1|]. split; [exact A3|]. 
      assert (I0 : forall z, xR z 0 = IZR z) by (intros z; unfold xR; simpl; apply Rmult_1_r).
      unfold zbound, below, b_lo, b_hi, b_open. rewrite !I0. split; right; apply A2. }
  destruct v; try apply K. split; intros H; [inversion H; reflexivity|subst; reflexivity].
Qed.
Lemma xR_Z z : xR z 0 = IZR z. Proof. unfold xR. simpl. apply Rmult_1_r. Qed.
Lemma c0_1_fin : fisfin c0_1 = true. Proof. reflexivity. Qed.
Lemma opt_time_limit v r : opt_check v (fun v => check_float v (Some (mkBound false (of_f64 c0_1) (XFin 1000000 0)))) = Ok r <-> time_limit v r.
Proof.
  destruct (of_f64_R c0_1 c0_1_fin) as (m1 & e1 & C1 & C2). rewrite C1. unfold time_limit.
  assert (K : forall v, (forall x, v = VFlt x -> True) -> (let* x := check_float v (Some (mkBound false (XFin m1 e1) (XFin 1000000 0))) in Ok (Some x)) = Ok r <->
     exists m e y, as_number v = Some (XFin m e) /\ (FR c0_1 <= xR m e <= 1000000)%R /\ r = Some y /\ py_float v = Ok y).
  { clear v. intros v _. unfold check_float. destruct (as_number v) as [x|] eqn:Ex.
    2:{ simpl. split; [discriminate|]. intros (m & e & y & H & _). discriminate. }
    destruct (is_in_bound x (mkBound false (XFin m1 e1) (XFin 1000000 0))) eqn:Eb.
    - assert (Hx : x <> XNan).
      { intros ->. apply C38_in_bound_nan in Eb. simpl in Eb. destruct Eb; discriminate. }
      apply C38_in_bound in Eb; [|exact Hx]. unfold below, b_lo, b_hi, b_open in Eb. destruct Eb as [[D|Q1] [D'|Q2]]; try discriminate.
      destruct x as [| | |m e]; try contradiction. rewrite xR_Z in Q2. rewrite C2 in Q1.
      destruct (py_float v) as [y|er] eqn:Ef; simpl; split.
      + intros H; inversion H; subst. exists m, e, y. auto.
      + intros (m' & e' & y' & A1 & A2 & -> & A4). inversion A4; subst; reflexivity.
      + discriminate.
      + intros (m' & e' & y' & A1 & A2 & -> & A4). discriminate.
    - simpl. split; [discriminate|]. intros (m & e & y & A1 & A2 & _). inversion A1; subst.
      assert (is_in_bound (XFin m e) (mkBound false (XFin m1 e1) (XFin 1000000 0)) = true); [|congruence].
      apply C38_in_bound; [discriminate|]. unfold below, b_lo, b_hi, b_open. rewrite xR_Z, C2. split; right; apply A2. }
  destruct v; try (apply K; auto). split; intros H; [inversion H; reflexivity|subst; reflexivity].
Qed.
(** A Termination can be built iff some limit is given and every given limit is a finite number in its range; the
    stored limits are the given ones (integers truncated, hence still in range). *)
Theorem C02_construction : forall me mf mt ms kw t,
  termination_init me mf mt ms kw = Ok t <->
  ~ (me = VNone /\ mf = VNone /\ mt = VNone /\ ms = VNone) /\
  int_limit me 1 10000000 (tm_epoch t) /\ int_limit mf 10 1000000000 (tm_fe t) /\ time_limit mt (tm_time t) /\
  int_limit ms 1 100000 (tm_es t) /\
  tm_eps t = (match dget kw "epsilon" with Some (VFlt x) => x | Some (VInt z) => fZ z | _ => c1em10 end) /\ tm_start t = fZ 0.
Proof.
  intros me mf mt ms kw t. rewrite <- !opt_int_limit, <- opt_time_limit.
  set (ep := match dget kw "epsilon" with Some (VFlt x) => x | Some (VInt z) => fZ z | _ => c1em10 end).
  assert (D : (me = VNone /\ mf = VNone /\ mt = VNone /\ ms = VNone) \/ ~ (me = VNone /\ mf = VNone /\ mt = VNone /\ ms = VNone)).
  { destruct me; try (right; intros (? & _); discriminate). destruct mf; try (right; intros (_ & ? & _); discriminate).
    destruct mt; try (right; intros (_ & _ & ? & _); discriminate). destruct ms; try (right; intros (_ & _ & _ & ?); discriminate). left; auto. }
  destruct D as [(-> & -> & -> & ->)|D].
  { simpl. split; [discriminate|]. intros [C _]. exfalso; apply C; auto. }
  assert (U : termination_init me mf mt ms kw =
    let* e := opt_check me (fun v => check_int v (Some (zbound 1 10000000))) in
    let* f := opt_check mf (fun v => check_int v (Some (zbound 10 1000000000))) in
    let* t := opt_check mt (fun v => check_float v (Some (mkBound false (of_f64 c0_1) (XFin 1000000 0)))) in
    let* s := opt_check ms (fun v => check_int v (Some (zbound 1 100000))) in Ok (mkTerm e f t s ep (fZ 0))).
  { unfold termination_init, ep. destruct me; try reflexivity. destruct mf; try reflexivity. destruct mt; try reflexivity.
    destruct ms; try reflexivity. exfalso; apply D; auto. }
  rewrite U. clear U.
  destruct (opt_check me _) as [e|] eqn:E1; [|split; [discriminate|intros (_ & H & _); discriminate]].
  destruct (opt_check mf _) as [f|] eqn:E2; [|split; [discriminate|intros (_ & _ & H & _); discriminate]].
  destruct (opt_check mt _) as [tt0|] eqn:E3; [|split; [discriminate|intros (_ & _ & _ & H & _); discriminate]].
  destruct (opt_check ms _) as [s|] eqn:E4; [|split; [discriminate|intros (_ & _ & _ & _ & H & _); discriminate]].
  simpl bind. split.
  - intros H. inversion H; subst. simpl. auto 10.
  - intros (_ & H1 & H2 & H3 & H4 & H5 & H6). destruct t; simpl in *. congruence.
Qed.
(** Limits nested in a [termination] dict are not honoured. *)
Theorem C02_nested_ignored : forall d, termination_of_dict [("termination"%string, VDict d)] = Err ValueError.
Proof. reflexivity. Qed.
(** A flat dict is what the constructor is called with. *)
Theorem C02_dict : forall z, (1 <= z <= 10000000)%Z -> exists t, termination_of_dict [("max_epoch"%string, VInt z)] = Ok t /\ tm_epoch t = Some z.
Proof.
  intros z Hz. unfold termination_of_dict, termination_init. simpl dget. cbv iota.
  destruct (opt_check (VInt z) (fun v => check_int v (Some (zbound 1 10000000)))) as [r|er] eqn:E.
  - apply opt_int_limit in E. destruct E as (m & e & n & A1 & A2 & -> & A3 & _). inversion A1; subst.
    unfold xR. simpl. rewrite Rmult_1_r, Ztrunc_IZR. eexists. split; reflexivity.
  - assert (Q : opt_check (VInt z) (fun v => check_int v (Some (zbound 1 10000000))) = Ok (Some z)); [|congruence].
    apply opt_int_limit. exists z, 0%Z, z. unfold xR. simpl. rewrite Rmult_1_r, Ztrunc_IZR. repeat split; try lia; auto; apply IZR_le; lia.
Qed.
Example C02_example : match termination_init (VInt 100) VNone (VFlt c0_1) (VFlt (fdiv (fZ 31) (fZ 2))) [] with
  | Ok t => match tm_epoch t, tm_es t, tm_time t with Some a, Some b, Some c => ((a =? 100) && (b =? 15))%Z && feq c c0_1 | _, _, _ => false end
  | Err _ => false end = true.
Proof. vm_compute. reflexivity. Qed.
Example C02_example_bad : is_ok (termination_init (VInt 0) VNone VNone VNone []) = false /\
  is_ok (termination_init (VInt 5) (VInt 9) VNone VNone []) = false /\ is_ok (termination_init (VStr "5") VNone VNone VNone []) = false.
Proof. repeat split; vm_compute; reflexivity. Qed.

(** * C37 *)
Lemma dget_fold_set {V} (new : dict V) (d : dict V) k :
  dget (fold_left (fun d kv => dset d (fst kv) (snd kv)) new d) k =
  match dget (rev new) k with Some v => Some v | None => dget d k end.
Proof.
  revert d; induction new as [|[k' v] new IH]; intros d; simpl; [reflexivity|]. rewrite IH. simpl.
  assert (A : forall l1 l2 : dict V, dget (l1 ++ l2) k = match dget l1 k with Some v => Some v | None => dget l2 k end).
  { clear. induction l1 as [|[k1 v1] l1 IH]; intros l2; simpl; [reflexivity|]. destruct (String.eqb k k1); [reflexivity|apply IH]. }
  rewrite A. destruct (dget (rev new) k); [reflexivity|]. simpl. destruct (String.eqb k k'); reflexivity.
Qed.
Lemma dget_rev_nodup {V} (d : dict V) k : NoDup (map fst d) -> dget (rev d) k = dget d k.
Proof.
  assert (A : forall l1 l2 : dict V, dget (l1 ++ l2) k = match dget l1 k with Some v => Some v | None => dget l2 k end).
  { clear. induction l1 as [|[k1 v1] l1 IH]; intros l2; simpl; [reflexivity|]. destruct (String.eqb k k1); [reflexivity|apply IH]. }
  assert (NI : forall l : dict V, ~ In k (map fst l) -> dget l k = None).
  { clear. induction l as [|[k1 v1] l IH]; simpl; intros H; [reflexivity|]. destruct (String.eqb k k1) eqn:E; [|apply IH; tauto].
    apply String.eqb_eq in E. subst. exfalso; auto. }
  induction d as [|[k1 v1] d IH]; simpl; intros H; [reflexivity|]. inversion H; subst. rewrite A, (IH H3). simpl.
  destruct (String.eqb k k1) eqn:E; [|destruct (dget d k); reflexivity]. apply String.eqb_eq in E; subst.
  rewrite NI by assumption. reflexivity.
Qed.
(** Python dicts have distinct keys. *)
Theorem C37_set_parameters : forall o new, NoDup (map fst new) ->
  (set_parameters o new = Err ValueError /\ exists k, In k (map fst new) /\ dget (po_params o) k = None) \/
  (exists o', set_parameters o new = Ok o' /\ (forall k, In k (map fst new) -> dget (po_params o) k <> None) /\
     (forall k, dget (po_params o') k = match dget new k with Some v => Some v | None => dget (po_params o) k end) /\
     (forall k, dget (po_attrs o') k = match dget new k with Some v => Some v | None => dget (po_attrs o) k end) /\
     po_order o' = po_order o).
Proof.
  intros o new ND. unfold set_parameters. match goal with |- context [if ?c then _ else _] => destruct c eqn:E end.
  - right. eexists. split; [reflexivity|]. simpl. rewrite forallb_forall in E. split.
    + intros k Hk. apply in_map_iff in Hk. destruct Hk as (kv & <- & Hkv). specialize (E _ Hkv). destruct (dget (po_params o) (fst kv)); congruence.
    + split; [|split; [|reflexivity]]; intros k; rewrite dget_fold_set, dget_rev_nodup by exact ND; reflexivity.
  - left. split; [reflexivity|]. assert (X : exists kv, In kv new /\ dget (po_params o) (fst kv) = None).
    { clear ND. induction new as [|kv new IH]; simpl in E; [discriminate|]. destruct (dget (po_params o) (fst kv)) eqn:Ek.
      - simpl in E. destruct (IH E) as (kv' & ? & ?). exists kv'. split; [right|]; assumption.
      - exists kv. split; [left; reflexivity|exact Ek]. }
    destruct X as (kv & H1 & H2). exists (fst kv). split; [apply in_map; exact H1|exact H2].
Qed.
(** No range check: a value the constructor would refuse is accepted. *)
Theorem C37_unvalidated_refuted : exists o o', set_parameters o [("pop_size"%string, VStr "many")] = Ok o' /\
  dget (po_attrs o') "pop_size" = Some (VStr "many") /\ is_ok (check_int (VStr "many") (Some (zbound 5 10000))) = false.
Proof.
  exists (mkPopt [("pop_size"%string, VInt 100)] [("pop_size"%string, VInt 100)] ["pop_size"%string]). eexists. repeat split.
Qed.
Example C37_example : exists o', set_parameters (mkPopt [("epoch"%string, VInt 1); ("pop_size"%string, VInt 9)] [("epoch"%string, VInt 1); ("pop_size"%string, VInt 9)] [])
   [("epoch"%string, VInt 5)] = Ok o' /\ dget (po_attrs o') "epoch" = Some (VInt 5) /\ dget (po_params o') "pop_size" = Some (VInt 9).
Proof. eexists. repeat split. Qed.

Print Assumptions C38_in_bound.
Print Assumptions C38_in_bound_nan.
Print Assumptions C38_check_int.
Print Assumptions C38_check_int_in_range.
Print Assumptions C38_truncation_refuted.
Print Assumptions C38_bool_is_number.
Print Assumptions C38_infinite.
Print Assumptions C38_check_float.
Print Assumptions C38_check_str.
Print Assumptions C38_check_bool.
Print Assumptions C38_check_tuple.
Print Assumptions C38_tuple_unchecked_refuted.
Print Assumptions C02_construction.
Print Assumptions C02_nested_ignored.
Print Assumptions C02_dict.
Print Assumptions C37_set_parameters.
Print Assumptions C37_unvalidated_refuted.
