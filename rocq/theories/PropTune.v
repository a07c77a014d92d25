(** Parameter grids, tuning, multitask tables, execution modes. *)
From Verif Require Import Prelude Fl FlArith MCore MAgent MValid MTune SpecCore PSelect.

(** * C39 *)
(** A combination: for every parameter, in order, one of its values. *)
Definition combination (p : subgrid) (c : list (string * pyval)) : Prop :=
  Forall2 (fun kl kx => fst kx = fst kl /\ In (snd kx) (snd kl)) p c.
(** Number of combinations of the parameters from position [i] on / before [i]. *)
Definition size (p : subgrid) : nat := fold_right Nat.mul 1 (map (fun kl => List.length (snd kl)) p).
Definition after (p : subgrid) (i : nat) : nat := size (skipn (S i) p).
Definition before (p : subgrid) (i : nat) : nat := size (firstn i p).

Lemma flat_map_length {A B} (f : A -> list B) l n : (forall x, In x l -> List.length (f x) = n) -> List.length (flat_map f l) = List.length l * n.
Proof.
  induction l as [|x l IH]; simpl; intros H; [reflexivity|]. rewrite app_length, H, IH; auto.
Qed.
Lemma product_length {T} (vs : list (list T)) : List.length (product vs) = fold_right Nat.mul 1 (map (@List.length T) vs).
Proof.
  induction vs as [|v vs IH]; simpl; [reflexivity|]. rewrite flat_map_length with (n := List.length (product vs)); [rewrite IH; reflexivity|].
  intros x _. apply map_length.
Qed.
Lemma fold_mul (p : subgrid) : forall a, fold_left (fun a kv => a * List.length (snd kv)) p a = a * size p.
Proof.
  unfold size. induction p as [|kv p IH]; intros a; simpl; [lia|]. rewrite IH. lia.
Qed.
Lemma sub_len_size p : sub_len p = size p.
Proof. destruct p; [reflexivity|]. unfold sub_len. rewrite fold_mul. lia. Qed.
Lemma fold_add (g : list subgrid) : forall a, fold_left (fun a p => a + sub_len p) g a = a + list_sum (map size g).
Proof. induction g as [|p g IH]; intros a; simpl; [lia|]. rewrite IH, sub_len_size. lia. Qed.
Lemma size_map p : size p = fold_right Nat.mul 1 (map (@List.length pyval) (map snd p)).
Proof. unfold size. rewrite map_map. reflexivity. Qed.

(** Iterating in a uniform way, the empty sub-grid included. *)
Definition uni (p : subgrid) : list (list (string * pyval)) := map (combine (map fst p)) (product (map snd p)).
Lemma sub_iter_uni p : sub_iter p = uni p.
Proof. destruct p; reflexivity. Qed.
Lemma uni_cons k l p : uni ((k, l) :: p) = flat_map (fun x => map (cons (k, x)) (uni p)) l.
Proof.
  unfold uni. cbn [map fst snd product]. rewrite flat_map_concat_map, concat_map, map_map, flat_map_concat_map. f_equal.
  apply map_ext. intros x. rewrite !map_map. apply map_ext. intros c. reflexivity.
Qed.
Lemma uni_length p : List.length (uni p) = size p.
Proof. unfold uni. rewrite map_length, product_length, size_map. reflexivity. Qed.

Lemma uni_spec p : forall c, In c (uni p) <-> combination p c.
Proof.
  induction p as [|[k l] p IH]; intros c.
  - unfold uni. simpl. split; [intros [<-|[]]; constructor|]. intros H; inversion H; auto.
  - rewrite uni_cons. split.
    + intros H. apply in_flat_map in H as (x & Hx & Hc). apply in_map_iff in Hc as (c' & <- & Hc'). constructor; [simpl; auto|]. apply IH, Hc'.
    + intros H. inversion H as [|? [k' x] ? c' [E1 E2] H2]; subst. simpl in *. subst k'. apply in_flat_map. exists x. split; [exact E2|].
      apply in_map, IH, H2.
Qed.
Lemma NoDup_flat_cons {K} (l : list pyval) (k : K) (r : list (list (K * pyval))) : NoDup l -> NoDup r -> NoDup (flat_map (fun x => map (cons (k, x)) r) l).
Proof.
  intros Hl Hr. induction l as [|x l IH]; simpl; [constructor|]. inversion Hl as [|? ? Nx Nl]; subst.
  assert (M : NoDup (map (cons (k, x)) r)).
  { clear -Hr. induction r as [|c r IH]; simpl; constructor; inversion Hr; subst; auto.
    intros C. apply in_map_iff in C as (c' & E & Hc'). inversion E; subst. contradiction. }
  revert M. generalize (IH Nl) as M2. clear IH. intros M2 M.
  assert (D : forall c, In c (map (cons (k, x)) r) -> ~ In c (flat_map (fun x => map (cons (k, x)) r) l)).
  { intros c Hc C. apply in_map_iff in Hc as (c1 & <- & _). apply in_flat_map in C as (y & Hy & C). apply in_map_iff in C as (c2 & E & _).
    inversion E; subst. contradiction. }
  induction (map (cons (k, x)) r) as [|c m IHm]; simpl; [exact M2|]. inversion M; subst. constructor.
  - rewrite in_app_iff. intros [C|C]; [contradiction|]. apply (D c); simpl; auto.
  - apply IHm; auto. intros c' Hc'. apply D. simpl; auto.
Qed.
Lemma uni_NoDup p : Forall (fun kl => NoDup (snd kl)) p -> NoDup (uni p).
Proof.
  induction p as [|[k l] p IH]; intros H; [repeat constructor; intros []|].
  inversion H; subst. rewrite uni_cons. apply NoDup_flat_cons; auto.
Qed.

(** The entry number [ind] of the iteration has, for its i-th parameter, the value number
    [ind / (number of combinations of the later parameters) mod (number of values)]. *)
Lemma nth_flat_map {A B} (f : A -> list B) n (l : list A) : 0 < n -> (forall x, In x l -> List.length (f x) = n) ->
  forall ind, ind < List.length l * n -> exists x, nth_error l (ind / n) = Some x /\ nth_error (flat_map f l) ind = nth_error (f x) (ind mod n).
Proof.
  intros Hn. induction l as [|x l IH]; intros HL ind Hi; simpl in *; [lia|].
  destruct (Nat.ltb_spec ind n) as [Hlt|Hge].
  - exists x. rewrite Nat.div_small, Nat.mod_small by assumption. split; [reflexivity|]. apply nth_error_app1. rewrite HL; auto.
  - destruct (IH ltac:(auto) (ind - n) ltac:(lia)) as (y & E1 & E2). exists y.
    assert (D : ind = (ind - n) + 1 * n) by lia. rewrite D at 1 3. rewrite Nat.div_add, Nat.mod_add by lia.
    rewrite Nat.add_1_r. split; [exact E1|]. rewrite nth_error_app2 by (rewrite HL; auto). rewrite HL by auto. exact E2.
Qed.
Definition nonempty (p : subgrid) : Prop := Forall (fun kl => snd kl <> []) p.
Lemma size_pos p : nonempty p -> 0 < size p.
Proof.
  unfold size, nonempty. induction p as [|[k l] p IH]; simpl; intros H; [lia|]. inversion H; subst. simpl in *.
  destruct l; [congruence|]. specialize (IH H3). simpl. lia.
Qed.
Lemma size_cons k l p : size ((k, l) :: p) = List.length l * size p. Proof. reflexivity. Qed.

Lemma size_app a b : size (a ++ b) = size a * size b.
Proof.
  induction a as [|[k l] a IH]; [simpl; change (size []) with 1; lia|]. simpl app. rewrite !size_cons, IH. ring.
Qed.

Theorem C39_iteration_order : forall p ind, nonempty p -> ind < size p ->
  exists c, nth_error (sub_iter p) ind = Some c /\ combination p c /\
    forall i k l, nth_error p i = Some (k, l) -> exists x, nth_error l ((ind / after p i) mod List.length l) = Some x /\ nth_error c i = Some (k, x).
Proof.
  intros p ind HN HI. rewrite sub_iter_uni.
  assert (G : exists c, nth_error (uni p) ind = Some c /\
    forall i k l, nth_error p i = Some (k, l) -> exists x, nth_error l ((ind / after p i) mod List.length l) = Some x /\ nth_error c i = Some (k, x)).
  { revert ind HI. induction p as [|[k l] p IH]; intros ind HI.
    - simpl in HI. unfold size in HI. simpl in HI. assert (ind = 0) by lia. subst. exists []. split; [reflexivity|]. intros [|i] k l H; discriminate.
    - inversion HN; subst. rewrite size_cons in HI. assert (SP := size_pos p H2).
      rewrite uni_cons. destruct (nth_flat_map (fun x => map (cons (k, x)) (uni p)) (size p) l SP) with (ind := ind) as (x & E1 & E2).
      { intros x _. rewrite map_length, uni_length. reflexivity. } { exact HI. }
      destruct (IH H2 (ind mod size p)) as (c & C1 & C2); [apply Nat.mod_upper_bound; lia|].
      exists ((k, x) :: c). rewrite E2. split; [apply map_nth_error; exact C1|].
      intros [|i] k' l' Hi; simpl in Hi.
      + injection Hi as <- <-. exists x. split; [|reflexivity]. unfold after. simpl skipn. rewrite Nat.mod_small; [exact E1|].
        apply Nat.div_lt_upper_bound; [lia|]. rewrite Nat.mul_comm. exact HI.
      + destruct (C2 i k' l' Hi) as (y & Y1 & Y2). exists y. split; [|exact Y2]. rewrite <- Y1. f_equal.
        unfold after. change (skipn (S (S i)) ((k, l) :: p)) with (skipn (S i) p). set (b := size (skipn (S i) p)).
        assert (Hp : skipn i p = (k', l') :: skipn (S i) p).
        { clear -Hi. revert p Hi. induction i as [|i IH]; intros [|a p] Hi; simpl in *; try discriminate; [congruence|]. apply IH, Hi. }
        assert (S1 : exists q, size p = q * (List.length l' * b)).
        { exists (size (firstn i p)). rewrite <- (firstn_skipn i p) at 1. rewrite Hp, size_app, size_cons. reflexivity. }
        destruct S1 as (q & Sq).
        assert (Hb : b <> 0) by (intros C; rewrite C in Sq; rewrite !Nat.mul_0_r in Sq; lia).
        assert (Hl : List.length l' <> 0) by (intros C; rewrite C in Sq; simpl in Sq; rewrite Nat.mul_0_r in Sq; lia).
        assert (I : ind = ind mod size p + (q * (ind / size p) * List.length l') * b).
        { rewrite (Nat.div_mod ind (size p)) at 1 by lia. rewrite Sq at 1. ring. }
        revert I. generalize (ind mod size p) as r, (ind / size p) as d. intros r d ->. rewrite Nat.div_add by exact Hb.
        rewrite Nat.mod_add by exact Hl. reflexivity. }
  destruct G as (c & C1 & C2). exists c. split; [exact C1|]. split; [|exact C2]. apply uni_spec. eapply nth_error_In; exact C1.
Qed.

(** Iterating yields exactly the combinations of the sub-grids, as many as len() says, none twice. *)
Theorem C39_iteration : forall g,
  (forall c, In c (grid_iter g) <-> exists p, In p g /\ combination p c) /\
  List.length (grid_iter g) = grid_len g /\
  (forall p, In p g -> Forall (fun kl => NoDup (snd kl)) p -> NoDup (sub_iter p)).
Proof.
  intros g. split; [|split].
  - intros c. unfold grid_iter. rewrite in_flat_map. split; intros (p & Hp & Hc); exists p; (split; [exact Hp|]).
    + rewrite sub_iter_uni in Hc. apply uni_spec, Hc.
    + rewrite sub_iter_uni. apply uni_spec, Hc.
  - unfold grid_len. rewrite fold_add. simpl. induction g as [|p g IH]; simpl; [reflexivity|]. rewrite app_length, IH, sub_iter_uni, uni_length. reflexivity.
  - intros p _ H. rewrite sub_iter_uni. apply uni_NoDup, H.
Qed.

Lemma getitem_nth {T} (l : list T) i x : nth_error l i = Some x -> getitem l i = Ok x.
Proof. unfold getitem. intros ->. reflexivity. Qed.
Lemma sub_get_ok p : nonempty p -> forall ind, exists c, sub_get p (Z.of_nat ind) = Ok c /\ combination p c /\
  forall i k l, nth_error p i = Some (k, l) -> exists x, nth_error l ((ind / before p i) mod List.length l) = Some x /\ nth_error c i = Some (k, x).
Proof.
  induction p as [|[k l] p IH]; intros HN ind.
  - exists []. split; [reflexivity|]. split; [constructor|]. intros [|i] k l H; discriminate.
  - inversion HN as [|? ? Hl HN']; subst. simpl in Hl.
    assert (L0 : List.length l <> 0) by (destruct l; [congruence|discriminate]).
    destruct (nth_error l (ind mod List.length l)) as [x|] eqn:Ex.
    2: { apply nth_error_None in Ex. pose proof (Nat.mod_upper_bound ind (List.length l) L0). lia. }
    destruct (IH HN' (ind / List.length l)) as (c & C1 & C2 & C3). exists ((k, x) :: c).
    split; [cbn [sub_get]; rewrite <- Nat2Z.inj_mod, Nat2Z.id, <- Nat2Z.inj_div; rewrite (getitem_nth _ _ _ Ex); cbn [bind]; rewrite C1; reflexivity|].
    split; [constructor; [simpl; split; [reflexivity|eapply nth_error_In; eauto]|exact C2]|].
    intros [|i] k' l' Hi; simpl in Hi.
    + injection Hi as <- <-. exists x. split; [|reflexivity]. change (before ((k, l) :: p) 0) with 1. rewrite Nat.div_1_r. exact Ex.
    + destruct (C3 i k' l' Hi) as (y & Y1 & Y2). exists y. split; [|exact Y2]. rewrite <- Y1. f_equal. f_equal.
      unfold before. simpl firstn. rewrite size_cons. rewrite Nat.div_div; [reflexivity|exact L0|].
      assert (0 < size (firstn i p)); [|lia]. apply size_pos. unfold nonempty in *. clear -HN'. revert p HN'.
      induction i as [|i IHi]; intros [|a p] H; simpl; constructor; inversion H; subst; auto.
Qed.

(** Position of the sub-grid that entry [ind] falls in. *)
Theorem C39_getitem : forall g1 p g2 ind, Forall nonempty (g1 ++ p :: g2) -> ind < size p ->
  let off := list_sum (map size g1) in
  exists c, grid_get (g1 ++ p :: g2) (Z.of_nat (off + ind)) = Ok c /\ combination p c /\
    forall i k l, nth_error p i = Some (k, l) -> exists x, nth_error l ((ind / before p i) mod List.length l) = Some x /\ nth_error c i = Some (k, x).
Proof.
  intros g1 p g2 ind HN HI. cbv zeta. revert HN. induction g1 as [|q g1 IH]; intros HN.
  - simpl app in *. simpl list_sum. rewrite Nat.add_0_l. inversion HN as [|? ? Hp HN']; subst.
    destruct p as [|kl p'] eqn:Ep.
    + unfold size in HI. simpl in HI. assert (ind = 0) by lia. subst ind. exists []. split; [reflexivity|]. split; [constructor|].
      intros [|i] k l H; discriminate.
    + rewrite <- Ep in *. destruct (sub_get_ok p Hp ind) as (c & C1 & C2). exists c. split; [|exact C2].
      rewrite <- C1. rewrite Ep. cbn [grid_get]. rewrite <- Ep. rewrite sub_len_size.
      destruct (Z.leb_spec (Z.of_nat (size p)) (Z.of_nat ind)); [lia|reflexivity].
  - simpl app in *. inversion HN as [|? ? Hq HN']; subst. destruct (IH HN') as (c & C1 & C2). exists c. split; [|exact C2].
    rewrite <- C1. destruct q as [|kl q'].
    + change (list_sum (map size ([] :: g1))) with (1 + list_sum (map size g1)). cbn [grid_get].
      destruct (Z.eqb_spec (Z.of_nat (1 + list_sum (map size g1) + ind)) 0); [lia|]. f_equal. lia.
    + change (list_sum (map size ((kl :: q') :: g1))) with (size (kl :: q') + list_sum (map size g1)). cbn [grid_get]. rewrite sub_len_size.
      destruct (Z.leb_spec (Z.of_nat (size (kl :: q'))) (Z.of_nat (size (kl :: q') + list_sum (map size g1) + ind))); [|lia].
      f_equal. lia.
Qed.
Theorem C39_getitem_range : forall g ind, Forall nonempty g -> (Z.of_nat (grid_len g) <= ind)%Z -> grid_get g ind = Err IndexError.
Proof.
  intros g ind _. unfold grid_len. rewrite fold_add. simpl. revert ind.
  induction g as [|p g IH]; intros ind HI; [reflexivity|]. change (list_sum (map size (p :: g))) with (size p + list_sum (map size g)) in HI.
  destruct p as [|kl p']; cbn [grid_get].
  - change (size []) with 1 in HI. destruct (Z.eqb_spec ind 0); [lia|]. apply IH. lia.
  - rewrite sub_len_size. destruct (Z.leb_spec (Z.of_nat (size (kl :: p'))) ind); [|lia]. apply IH. lia.
Qed.
(** grid[i] is not the i-th combination of the iteration, as its documentation says it is. *)
Theorem C39_getitem_order_refuted : exists p c, grid_get [p] 1 = Ok c /\ nth_error (grid_iter [p]) 1 <> Some c.
Proof.
  exists [("a"%string, [VInt 1; VInt 2]); ("b"%string, [VInt 3; VInt 4])]. eexists. split; [reflexivity|].
  simpl. intros H. inversion H.
Qed.
Example C39_case : let p := [("a"%string, [VInt 1; VInt 2]); ("b"%string, [VInt 3; VInt 4; VInt 5])] in
  nonempty p /\ size p = 6 /\ grid_init (VDict [("a"%string, VSeq SList [VInt 1; VInt 2]); ("b"%string, VSeq STuple [VInt 3; VInt 4; VInt 5])]) = Ok [p].
Proof. split; [repeat constructor; discriminate|]. split; reflexivity. Qed.
(** What is accepted: a grid always has non-empty value lists. *)
Theorem C39_init : forall v g, grid_init v = Ok g -> Forall nonempty g.
Proof.
  assert (V : forall v l, grid_values v = Ok l -> l <> []).
  { intros v l. destruct v as [ | | | | |k l0| | ]; try discriminate. simpl. destruct k; destruct l0; try discriminate; try (intros H; inversion H; subst; discriminate).
    destruct (existsb _ _); [discriminate|]. intros H; inversion H; subst; discriminate. }
  assert (D : forall v p, grid_dict v = Ok p -> nonempty p).
  { intros v p. destruct v; try discriminate. simpl. unfold nonempty. revert p. induction d as [|[k w] d IH]; intros p; simpl.
    - intros H; inversion H; constructor.
    - destruct (grid_values w) as [l|] eqn:Ew; [|discriminate]. simpl. destruct (map_res _ d) as [ps|]; [|discriminate]. simpl.
      intros H; inversion H; subst. constructor; [eapply V; eauto|]. apply IH. reflexivity. }
  intros v g. destruct v; try discriminate.
  - simpl. destruct s; [|discriminate]. intros H; inversion H; constructor.
  - simpl. revert g. induction l as [|v l IH]; intros g; simpl; [intros H; inversion H; constructor|].
    destruct (grid_dict v) eqn:Ev; [|discriminate]. simpl. destruct (map_res grid_dict l) eqn:El; [|discriminate]. simpl.
    intros H; inversion H; subst. constructor; [eapply D; eauto|]. apply IH. reflexivity.
  - unfold grid_init. destruct (grid_dict (VDict d)) eqn:Ed; [|discriminate]. cbn [bind]. intros H; inversion H; subst. repeat constructor. eapply D; eauto.
Qed.

(** * C40 *)
Lemma filter_sub {T} (f g : T -> bool) l : (forall x, In x l -> f x = true -> g x = true) -> List.length (filter f l) <= List.length (filter g l).
Proof.
  induction l as [|x l IH]; simpl; intros H; [lia|]. assert (IH' := IH ltac:(auto)). specialize (H x (or_introl eq_refl)).
  destruct (f x), (g x); simpl; try lia. all: discriminate H; reflexivity.
Qed.
Lemma filter_lt {T} (f g : T -> bool) l y : (forall x, In x l -> f x = true -> g x = true) -> In y l -> f y = false -> g y = true ->
  List.length (filter f l) < List.length (filter g l).
Proof.
  induction l as [|x l IH]; simpl; intros H Hy Fy Gy; [destruct Hy|].
  assert (S := filter_sub f g l ltac:(auto)). destruct Hy as [->|Hy].
  - rewrite Fy, Gy. simpl. lia.
  - specialize (IH ltac:(auto) Hy Fy Gy). specialize (H x (or_introl eq_refl)). destruct (f x), (g x); simpl; try lia. all: discriminate H; reflexivity.
Qed.
Lemma filter_sum {T} (f g h : T -> bool) l : (forall x, In x l -> f x = true -> h x = true) -> (forall x, In x l -> g x = true -> h x = true) ->
  (forall x, In x l -> f x = true -> g x = true -> False) -> List.length (filter f l) + List.length (filter g l) <= List.length (filter h l).
Proof.
  induction l as [|x l IH]; simpl; intros H1 H2 H3; [lia|].
  specialize (IH ltac:(auto) ltac:(auto) ltac:(eauto)). specialize (H1 x (or_introl eq_refl)). specialize (H2 x (or_introl eq_refl)).
  specialize (H3 x (or_introl eq_refl)). destruct (f x), (g x), (h x); simpl; try lia; exfalso; auto; discriminate.
Qed.
Lemma feq_refl x : fisnan x = false -> feq x x = true.
Proof. intros N. apply feq_FR; auto. Qed.
Ltac fr := repeat match goal with
  | H : flt _ _ = true |- _ => apply flt_FR in H; [|assumption..]
  | H : fle _ _ = true |- _ => apply fle_FR in H; [|assumption..]
  | H : feq _ _ = true |- _ => apply feq_FR in H; [|assumption..]
  end.
Definition fbefore (asc : bool) (y x : f64) : bool := if asc then flt y x else flt x y.
Lemma rank2_lt asc l x y : Forall (fun z => fisnan z = false) l -> In x l -> In y l -> fbefore asc x y = true -> rank2 asc l x < rank2 asc l y.
Proof.
  intros N Hx Hy H. rewrite Forall_forall in N. assert (Nx := N x Hx). assert (Ny := N y Hy). unfold rank2.
  fold (fbefore asc). change (fun y0 : f64 => if asc then flt y0 x else flt x y0) with (fun z => fbefore asc z x).
  change (fun y0 : f64 => if asc then flt y0 y else flt y y0) with (fun z => fbefore asc z y).
  assert (S : List.length (filter (fun z => fbefore asc z x) l) + List.length (filter (fun z => feq z x) l) <= List.length (filter (fun z => fbefore asc z y) l)).
  { apply filter_sum; intros z Hz; assert (Nz := N z Hz); unfold fbefore in *; destruct asc; intros; fr; try apply flt_FR; try assumption;
    try Lra.lra. }
  assert (Ex : 1 <= List.length (filter (fun z => feq z x) l)).
  { assert (In x (filter (fun z => feq z x) l)) by (apply filter_In; split; [exact Hx|apply feq_refl; exact Nx]).
    destruct (filter (fun z => feq z x) l); [contradiction|simpl; lia]. }
  assert (Ey : 1 <= List.length (filter (fun z => feq z y) l)).
  { assert (In y (filter (fun z => feq z y) l)) by (apply filter_In; split; [exact Hy|apply feq_refl; exact Ny]).
    destruct (filter (fun z => feq z y) l); [contradiction|simpl; lia]. }
  lia.
Qed.
Lemma rank2_eq asc l x y : Forall (fun z => fisnan z = false) l -> fisnan x = false -> fisnan y = false -> feq x y = true -> rank2 asc l x = rank2 asc l y.
Proof.
  intros N Nx Ny H. rewrite Forall_forall in N. unfold rank2. f_equal. f_equal; [f_equal; f_equal|f_equal];
  apply filter_ext_in; intros z Hz; assert (Nz := N z Hz).
  - destruct asc.
    + destruct (flt z x) eqn:E1, (flt z y) eqn:E2; auto; exfalso; fr; [apply flt_false_FR in E2|apply flt_false_FR in E1]; auto; Lra.lra.
    + destruct (flt x z) eqn:E1, (flt y z) eqn:E2; auto; exfalso; fr; [apply flt_false_FR in E2|apply flt_false_FR in E1]; auto; Lra.lra.
  - fr. destruct (feq z x) eqn:E1, (feq z y) eqn:E2; auto; exfalso; fr.
    + assert (feq z y = true) by (apply feq_FR; auto; congruence). congruence.
    + assert (feq z x = true) by (apply feq_FR; auto; congruence). congruence.
Qed.

Lemma pair_eqb_eq a b : pair_eqb a b = true <-> a = b.
Proof.
  unfold pair_eqb. destruct a, b; simpl. rewrite andb_true_iff, !Nat.eqb_eq. split; [intros [-> ->]; reflexivity|intros H; inversion H; auto].
Qed.
Lemma dedup_In l x : In x (dedup l) <-> In x l.
Proof.
  unfold dedup. induction l as [|y l IH]; simpl; [tauto|]. destruct (existsb (pair_eqb y) _) eqn:E; simpl; rewrite IH; [|tauto].
  split; [auto|]. intros [->|H]; [|exact H]. apply existsb_exists in E as (z & Hz & E). apply pair_eqb_eq in E. subst. apply IH, Hz.
Qed.
Definition pbefore (asc : bool) (q p : nat * nat) : bool := if asc then pair_lt q p else pair_lt p q.
Lemma pair_lt_iff a b : pair_lt a b = true <-> fst a < fst b \/ (fst a = fst b /\ snd a < snd b).
Proof. unfold pair_lt. rewrite orb_true_iff, andb_true_iff, !Nat.ltb_lt, Nat.eqb_eq. tauto. Qed.
Lemma pair_lt_trans a b c : pair_lt a b = true -> pair_lt b c = true -> pair_lt a c = true.
Proof. rewrite !pair_lt_iff. lia. Qed.
Lemma dense_lt asc l p q : In p l -> pbefore asc p q = true -> dense asc l p < dense asc l q.
Proof.
  intros Hp H. unfold dense. fold (pbefore asc).
  change (fun q0 : nat * nat => if asc then pair_lt q0 p else pair_lt p q0) with (fun z => pbefore asc z p).
  change (fun q0 : nat * nat => if asc then pair_lt q0 q else pair_lt q q0) with (fun z => pbefore asc z q).
  apply -> Nat.add_lt_mono_l. apply filter_lt with (y := p).
  - intros x _ Hx. unfold pbefore in *. destruct asc; eapply pair_lt_trans; eauto.
  - apply dedup_In, Hp.
  - apply Bool.not_true_is_false. unfold pbefore. destruct asc; rewrite pair_lt_iff; lia.
  - exact H.
Qed.

Lemma min_spec (l : list nat) d : In d l -> In (fold_right Nat.min d l) l /\ forall x, In x l -> fold_right Nat.min d l <= x.
Proof.
  intros Hd. assert (G : (fold_right Nat.min d l = d \/ In (fold_right Nat.min d l) l) /\ forall x, In x l -> fold_right Nat.min d l <= x).
  { clear Hd. induction l as [|y l [I1 I2]]; simpl; [split; [auto|intros x []]|]. split.
    - destruct (Nat.min_spec y (fold_right Nat.min d l)) as [[_ ->]|[_ ->]]; [auto|]. destruct I1 as [I1|I1]; auto.
    - intros x [<-|Hx]; [lia|]. specialize (I2 x Hx). lia. }
  destruct G as [[G|G] G2]; [rewrite G in *; auto|auto].
Qed.

Lemma Forall2_nth_error {T U} {R : T -> U -> Prop} {l l' i x y} : Forall2 R l l' -> nth_error l i = Some x -> nth_error l' i = Some y -> R x y.
Proof.
  intros H. revert i. induction H as [|a b l l' H F IH]; intros [|i] E1 E2; simpl in *; try discriminate; [congruence|eauto].
Qed.
(** A row with numeric mean and deviation. *)
Definition row_num (r : row) : Prop := num (row_mean r) /\ num (row_std r).
(** The row picked has, in either direction, the least mean; among equal means the least deviation. *)
Theorem C40_chosen : forall asc rows, rows <> [] -> Forall row_num rows ->
  exists b, best_row asc rows = Ok b /\ In b rows /\
    forall r, In r rows -> fle (row_mean b) (row_mean r) = true /\
      (feq (row_mean b) (row_mean r) = true -> fle (row_std b) (row_std r) = true).
Proof.
  intros asc rows NE HN. unfold best_row.
  set (d := match rows with [] => 0 | r :: _ => row_rank asc rows r end).
  assert (Hd : In d (map (row_rank asc rows) rows)) by (unfold d; destruct rows; [congruence|left; reflexivity]).
  destruct (min_spec _ _ Hd) as [M1 M2]. set (least := fold_right Nat.min d (map (row_rank asc rows) rows)) in *.
  apply in_map_iff in M1 as (r0 & E0 & H0).
  assert (F0 : In r0 (filter (fun r => row_rank asc rows r =? least) rows)) by (apply filter_In; rewrite Nat.eqb_eq; auto).
  destruct (filter (fun r => row_rank asc rows r =? least) rows) as [|b fs] eqn:Ef; [contradiction|].
  assert (Hb : In b (filter (fun r => row_rank asc rows r =? least) rows)) by (rewrite Ef; left; reflexivity).
  apply filter_In in Hb as [Ib Eb]. apply Nat.eqb_eq in Eb. exists b. split; [reflexivity|]. split; [exact Ib|].
  intros r Hr. assert (Hle : row_rank asc rows b <= row_rank asc rows r) by (rewrite Eb; apply M2, in_map, Hr).
  assert (NB : pbefore asc (rank_pair asc rows r) (rank_pair asc rows b) = false).
  { apply Bool.not_true_is_false. intros C. apply dense_lt with (l := map (rank_pair asc rows) rows) in C; [|apply in_map, Hr].
    unfold row_rank in Hle. lia. }
  rewrite Forall_forall in HN. destruct (HN b Ib) as [Nb1 Nb2]. destruct (HN r Hr) as [Nr1 Nr2]. unfold num in *.
  set (ms := map row_mean rows) in *. set (ss := map row_std rows) in *.
  assert (FM : Forall (fun z => fisnan z = false) ms) by (apply Forall_forall; intros z Hz; apply in_map_iff in Hz as (q & <- & Hq); apply (HN q Hq)).
  assert (FS : Forall (fun z => fisnan z = false) ss) by (apply Forall_forall; intros z Hz; apply in_map_iff in Hz as (q & <- & Hq); apply (HN q Hq)).
  assert (Imb : In (row_mean b) ms) by (apply in_map, Ib). assert (Imr : In (row_mean r) ms) by (apply in_map, Hr).
  assert (Isb : In (row_std b) ss) by (apply in_map, Ib). assert (Isr : In (row_std r) ss) by (apply in_map, Hr).
  unfold rank_pair in NB. fold ms ss in NB. split.
  - destruct (flt (row_mean r) (row_mean b)) eqn:C; [exfalso|apply flt_false_le; auto].
    assert (P : pbefore asc (rank2 asc ms (row_mean r), rank2 asc ss (row_std r)) (rank2 asc ms (row_mean b), rank2 asc ss (row_std b)) = true); [|congruence].
    unfold pbefore. destruct asc; apply pair_lt_iff; simpl; left; apply rank2_lt; auto.
  - intros Eq. destruct (flt (row_std r) (row_std b)) eqn:C; [exfalso|apply flt_false_le; auto].
    assert (Q := rank2_eq asc ms (row_mean b) (row_mean r) FM Nb1 Nr1 Eq).
    assert (P : pbefore asc (rank2 asc ms (row_mean r), rank2 asc ss (row_std r)) (rank2 asc ms (row_mean b), rank2 asc ss (row_std b)) = true); [|congruence].
    unfold pbefore. destruct asc; apply pair_lt_iff; simpl; right; (split; [congruence|]); apply rank2_lt; auto.
Qed.

(** The table has one row per combination, in iteration order; each row's trials were run with the parameters of that
    row set on the algorithm; the reported best row is a row of the table, with the least mean. *)
Inductive tuned (mean std : list f64 -> f64) (setp : popt -> list (string * pyval) -> res popt) (run : popt -> nat -> res f64) (n : nat)
  : popt -> list (list (string * pyval)) -> list row -> popt -> Prop :=
| tuned_nil o : tuned mean std setp run n o [] [] o
| tuned_cons o ps o1 fs cs rows o2 : setp o ps = Ok o1 -> List.length fs = n -> (forall t, t < n -> exists f, run o1 t = Ok f /\ nth_error fs t = Some f) ->
    tuned mean std setp run n o1 cs rows o2 -> tuned mean std setp run n o (ps :: cs) (mkRow ps (mean fs) (std fs) :: rows) o2.

Theorem C40_execute : forall mean std setp run opt grid prob trials jobs cpus rows b o,
  tuner_execute mean std setp run opt grid prob trials jobs cpus = Ok (rows, b, o) ->
  exists g n mm, grid_init grid = Ok g /\ check_int trials (Some (zbound 1 100000)) = Ok n /\ prob = TDict mm /\
    tuned mean std setp run (Z.to_nat n) opt (grid_iter g) rows o /\ map row_params rows = grid_iter g /\ In b rows /\
    (Forall row_num rows -> forall r, In r rows -> fle (row_mean b) (row_mean r) = true).
Proof.
  intros mean std setp run opt grid prob trials jobs cpus rows b o. unfold tuner_execute.
  destruct (check_int trials _) as [n|] eqn:En; [|discriminate]. cbn [bind]. destruct (check_jobs jobs cpus); [|discriminate]. cbn [bind].
  destruct (grid_init grid) as [g|] eqn:Eg; [|discriminate]. cbn [bind].
  destruct prob as [mm|]; [|discriminate].
  set (asc := match mm with Min => true | _ => false end).
  assert (Ea : match mm with Min => Ok true | _ => Ok false end = Ok asc) by (destruct mm; reflexivity). rewrite Ea. cbn [bind].
  set (step := fun acc ps => let* (rows, o) := acc in let* o' := setp o ps in let* fs := map_res (run o') (seq 0 (Z.to_nat n)) in Ok (rows ++ [mkRow ps (mean fs) (std fs)], o')).
  assert (EE : forall cs e, fold_left step cs (Err e) = Err e) by (induction cs as [|c cs IH]; intros e; simpl; auto).
  assert (T : forall cs rows0 o0 rows1 o1, fold_left step cs (Ok (rows0, o0)) = Ok (rows1, o1) ->
     exists rs, rows1 = rows0 ++ rs /\ tuned mean std setp run (Z.to_nat n) o0 cs rs o1 /\ map row_params rs = cs).
  { induction cs as [|c cs IH]; intros rows0 o0 rows1 o1 H.
    - inversion H; subst. exists []. rewrite app_nil_r. split; [reflexivity|]. split; [constructor|reflexivity].
    - cbn [fold_left] in H. unfold step at 2 in H. cbn [bind] in H. destruct (setp o0 c) as [o'|] eqn:Es; [|cbn [bind] in H; rewrite EE in H; discriminate].
      cbn [bind] in H. destruct (map_res (run o') (seq 0 (Z.to_nat n))) as [fs|] eqn:Em; [|cbn [bind] in H; rewrite EE in H; discriminate].
      cbn [bind] in H. apply IH in H as (rs & -> & T & M). exists (mkRow c (mean fs) (std fs) :: rs).
      split; [rewrite <- app_assoc; reflexivity|]. split; [|simpl; rewrite M; reflexivity].
      assert (F2 := proj1 (map_res_Forall2 _ _ _) Em). assert (L := map_res_ok_length _ _ _ Em). rewrite seq_length in L.
      econstructor; [exact Es|exact L| |exact T]. intros t Ht.
      destruct (nth_error fs t) as [f|] eqn:Ef; [|apply nth_error_None in Ef; lia]. exists f. split; [|reflexivity].
      assert (K : nth_error (seq 0 (Z.to_nat n)) t = Some t).
      { rewrite (nth_error_nth' _ 0) by (rewrite seq_length; exact Ht). rewrite seq_nth by exact Ht. reflexivity. }
      apply (Forall2_nth_error F2 K Ef). }
  destruct (fold_left step (grid_iter g) (Ok ([], opt))) as [[rows1 o1]|] eqn:Ef; [|discriminate]. cbn [bind].
  apply T in Ef as (rs & Er & T1 & M1). simpl in Er. subst rs.
  destruct (best_row asc rows1) as [b1|] eqn:Eb; [|discriminate]. cbn [bind]. intros H. inversion H; subst.
  exists g, n, mm. split; [reflexivity|]. split; [reflexivity|]. split; [reflexivity|]. split; [exact T1|]. split; [exact M1|].
  assert (IB : In b rows).
  { unfold best_row in Eb. destruct (filter _ rows) as [|x l] eqn:E; [discriminate|]. inversion Eb; subst.
    assert (In b (b :: l)) by (left; reflexivity). rewrite <- E in H0. apply filter_In in H0. apply H0. }
  split; [exact IB|]. intros HN r Hr. destruct (C40_chosen asc rows) as (b' & E1 & _ & E3); [intros C; rewrite C in IB; destruct IB|exact HN|].
  rewrite Eb in E1. inversion E1; subst. apply E3, Hr.
Qed.
(** For a maximisation problem that is the worst row: a strictly better one is passed over. *)
Theorem C40_max_refuted : exists rows b r, Forall row_num rows /\ best_row false rows = Ok b /\ In r rows /\
  better Max (row_mean r) (row_mean b).
Proof.
  exists [mkRow [] (fZ 1) (fZ 1); mkRow [("a"%string, VInt 2)] (fZ 5) (fZ 1)]. eexists. exists (mkRow [("a"%string, VInt 2)] (fZ 5) (fZ 1)).
  split; [repeat constructor; vm_compute; reflexivity|]. split; [reflexivity|]. split; [right; left; reflexivity|]. vm_compute. reflexivity.
Qed.
(** A Problem object, though documented as accepted, is refused. *)
Theorem C40_problem_object_refused : forall mean std setp run opt grid trials jobs cpus x,
  tuner_execute mean std setp run opt grid TObject trials jobs cpus <> Ok x.
Proof.
  intros. unfold tuner_execute. destruct (check_int trials _); [|discriminate]. cbn [bind]. destruct (check_jobs jobs cpus); [|discriminate]. cbn [bind].
  destruct (grid_init grid); discriminate.
Qed.

(** * C41 *)
Lemma nth_error_rep {T} (x : T) n i : i < n -> nth_error (repeat x n) i = Some x.
Proof. revert i; induction n as [|n IH]; intros [|i] H; simpl; try lia; [reflexivity|apply IH; lia]. Qed.
Section Options.
Context {T : Type}.
Variable sub : T -> nat -> res T.
(** No options: the default for every pair. *)
Theorem C41_none : forall n m dflt i j, check_input (T := T) n m None = Ok None /\ table_get sub (@None (table T)) dflt i j = Ok dflt.
Proof. intros; split; reflexivity. Qed.
(** One option: every pair gets it. *)
Theorem C41_one : forall n m x dflt i j, i < n -> j < m ->
  exists t, check_input n m (Some [x]) = Ok (Some t) /\ table_get sub (Some t) dflt i j = Ok x.
Proof.
  intros n m x dflt i j Hi Hj. eexists. split; [reflexivity|]. simpl. unfold getitem. rewrite nth_error_rep by exact Hi. simpl. rewrite nth_error_rep by exact Hj. reflexivity.
Qed.
(** As many options as problems, and not as many as algorithms: option j for problem j. *)
Theorem C41_per_problem : forall n m l dflt i j x, List.length l = m -> m <> n -> m <> 1 -> i < n -> nth_error l j = Some x ->
  exists t, check_input n m (Some l) = Ok (Some t) /\ table_get sub (Some t) dflt i j = Ok x.
Proof.
  intros n m l dflt i j x L Hn H1 Hi Hx. exists (Rows (repeat l n)). split.
  - destruct l as [|a [|b l]]; [| simpl in L; lia|]; unfold check_input; rewrite L, Nat.eqb_refl; apply Nat.eqb_neq in Hn; rewrite Hn; reflexivity.
  - simpl. unfold getitem. rewrite nth_error_rep by exact Hi. simpl. rewrite Hx. reflexivity.
Qed.
(** As many options as algorithms (more than one): always an error, although documented as accepted. *)
Theorem C41_per_algorithm_refuted : forall n m (l : list T), List.length l = n -> 1 < n -> check_input n m (Some l) = Err TypeError.
Proof.
  intros n m l L H. destruct l as [|a [|b l]]; simpl in L; [lia|lia|]. unfold check_input. cbn [List.length]. rewrite L, Nat.eqb_refl. destruct n; [lia|reflexivity].
Qed.
(** One option per pair: pair (i, j) gets entry i, subscripted by j, instead of an entry of the list. *)
Theorem C41_per_pair_refuted : forall n m l dflt i j x, List.length l = n * m -> 1 < n -> 1 < m -> nth_error l i = Some x ->
  exists t, check_input n m (Some l) = Ok (Some t) /\ table_get sub (Some t) dflt i j = sub x j.
Proof.
  intros n m l dflt i j x L Hn Hm Hx. exists (Flat l). split.
  - assert (n < n * m) by nia. assert (m < n * m) by nia.
    destruct l as [|a [|b l]]; [destruct i; discriminate|simpl in L; nia|]. unfold check_input. rewrite L.
    destruct (Nat.eqb_spec (n * m) n); [lia|]. destruct (Nat.eqb_spec (n * m) m); [lia|]. rewrite Nat.eqb_refl. reflexivity.
  - simpl. unfold getitem. rewrite Hx. reflexivity.
Qed.
(** Any other number of options is refused. *)
Theorem C41_other_sizes : forall n m (l : list T), List.length l <> 1 -> List.length l <> n -> List.length l <> m -> List.length l <> n * m ->
  check_input n m (Some l) = Err ValueError.
Proof.
  intros n m l H1 Hn Hm Hnm. destruct l as [|a [|b l]]; [|simpl in H1; lia|]; unfold check_input;
  apply Nat.eqb_neq in Hn, Hm, Hnm; rewrite Hn, Hm, Hnm; reflexivity.
Qed.
End Options.
(** With one mode per pair every run fails: a single character is not a mode. *)
Theorem C41_modes_per_pair_refuted : forall n m l i j x pz w cpus, List.length l = n * m -> 1 < n -> 1 < m -> nth_error l i = Some x ->
  exists t, check_input n m (Some l) = Ok (Some t) /\
    match table_get string_get (Some t) "single"%string i j with
    | Ok md => check_mode_and_workers pz (VStr md) w cpus = Err ValueError
    | Err e => e = IndexError
    end.
Proof.
  intros n m l i j x pz w cpus L Hn Hm Hx. destruct (C41_per_pair_refuted string_get n m l "single"%string i j x L Hn Hm Hx) as (t & E1 & E2).
  exists t. split; [exact E1|]. rewrite E2.
  assert (S : forall y k, match string_get y k with Ok c => exists a, c = String a EmptyString | Err e => e = IndexError end).
  { induction y as [|a y IH]; intros k; simpl; [reflexivity|]. destruct k; [eauto|apply IH]. }
  specialize (S x j). destruct (string_get x j); [|exact S]. destruct S as (c & ->).
  unfold check_mode_and_workers, check_str. cbn [existsb].
  destruct c as [[|] [|] [|] [|] [|] [|] [|] [|]]; reflexivity.
Qed.
Example C41_case : check_input 2 3 (Some [1; 2; 3]) = Ok (Some (Rows [[1; 2; 3]; [1; 2; 3]])) /\ check_input 2 3 (Some [1; 2]) = Err TypeError
  /\ check_input 2 3 (Some [1; 2; 3; 4; 5; 6]) = Ok (Some (Flat [1; 2; 3; 4; 5; 6])).
Proof. repeat split. Qed.

(** * C42 *)
Lemma xle_int a b : xle (XFin a 0) (XFin b 0) = (a <=? b)%Z.
Proof. unfold xle, xcmp, xfin_cmp. rewrite !Z.mul_1_r. unfold Z.leb. destruct (a ?= b)%Z; reflexivity. Qed.
Lemma in_zbound z lo hi : is_in_bound (XFin z 0) (zbound lo hi) = ((lo <=? z) && (z <=? hi))%Z.
Proof.
  unfold is_in_bound, zbound. cbn [b_open b_lo b_hi]. cbn [xeq xcmp andb]. rewrite !xle_int.
  destruct (lo <=? z)%Z; reflexivity.
Qed.
Lemma check_int_z z lo hi : check_int (VInt z) (Some (zbound lo hi)) = if ((lo <=? z) && (z <=? hi))%Z then Ok z else Err ValueError.
Proof. unfold check_int. cbn [as_number]. rewrite in_zbound. destruct ((lo <=? z) && (z <=? hi))%Z; [|reflexivity]. simpl. rewrite Z.mul_1_r. reflexivity. Qed.
Theorem C42_jobs : forall n cpus,
  check_jobs VNone cpus = Ok None /\
  (n < 1 -> check_jobs (VInt n) cpus = Ok None)%Z /\
  (2 <= n <= Z.min 61 (cpus - 1) -> check_jobs (VInt n) cpus = Ok (Some n))%Z /\
  (1 <= n -> ~ (2 <= n <= Z.min 61 (cpus - 1)) -> check_jobs (VInt n) cpus = Err ValueError)%Z.
Proof.
  intros n cpus. split; [reflexivity|]. unfold check_jobs. cbn [as_number]. rewrite xle_int, check_int_z.
  destruct (Z.leb_spec 1 n), (Z.leb_spec 2 n), (Z.leb_spec n (Z.min 61 (cpus - 1))); cbn [andb bind]; repeat split; intros; try reflexivity; lia.
Qed.
(** One job is documented as sequential execution but is refused. *)
Corollary C42_one_job_refuted : forall cpus, check_jobs (VInt 1) cpus = Err ValueError.
Proof. intros cpus. apply (C42_jobs 1 cpus); lia. Qed.
Example C42_case : check_jobs (VInt 4) 8 = Ok (Some 4%Z) /\ check_jobs (VInt 0) 8 = Ok None /\ check_jobs (VInt 8) 8 = Err ValueError.
Proof. repeat split; vm_compute; reflexivity. Qed.

(** * C62: execution mode *)
Definition modes : list string := ["process"; "thread"; "swarm"; "single"]%string.
Theorem C62_mode : forall pz s w cpus m k, check_mode_and_workers pz (VStr s) w cpus = Ok (m, k) ->
  In s modes /\ In m modes /\
  (m = s \/ (m = "single"%string /\ (s = "process"%string \/ s = "thread"%string) /\ pz = false)) /\
  (pz = false -> m = "swarm"%string \/ m = "single"%string) /\
  (k <> None <-> m = "process"%string \/ m = "thread"%string).
Proof.
  intros pz s w cpus m k. unfold check_mode_and_workers. cbn [check_str].
  destruct (existsb (String.eqb s) _) eqn:Es; [|discriminate]. cbn [bind].
  assert (Is : In s modes). { apply existsb_exists in Es as (x & Hx & E). apply String.eqb_eq in E. subst. exact Hx. }
  intros H. split; [exact Is|].
  destruct Is as [<-|[<-|[<-|[<-|[]]]]]; simpl in H.
  - destruct pz; simpl in H; [|inversion H; subst; unfold modes; simpl; repeat split; auto 8; intros; try discriminate; intuition discriminate].
    assert (K : m = "process"%string /\ k <> None).
    { destruct w; try (inversion H; subst; split; [reflexivity|discriminate]);
      match goal with H : context [check_int ?a ?b] |- _ => destruct (check_int a b); simpl in H; [inversion H; subst; split; [reflexivity|discriminate]|discriminate] end. }
    destruct K as [-> K]. unfold modes; simpl. repeat split; auto 8; intros; try discriminate; auto.
  - destruct pz; simpl in H; [|inversion H; subst; unfold modes; simpl; repeat split; auto 8; intros; try discriminate; intuition discriminate].
    assert (K : m = "thread"%string /\ k <> None).
    { destruct w; try (inversion H; subst; split; [reflexivity|discriminate]);
      match goal with H : context [check_int ?a ?b] |- _ => destruct (check_int a b); simpl in H; [inversion H; subst; split; [reflexivity|discriminate]|discriminate] end. }
    destruct K as [-> K]. unfold modes; simpl. repeat split; auto 8; intros; try discriminate; auto.
  - inversion H; subst. unfold modes; simpl. repeat split; auto 8; intros; try congruence; intuition discriminate.
  - inversion H; subst. unfold modes; simpl. repeat split; auto 8; intros; try congruence; intuition discriminate.
Qed.
(** The workers: 4 by default, else exactly the documented ranges. *)
Theorem C62_workers : forall s n cpus, (s = "process" \/ s = "thread")%string ->
  let hi := (if String.eqb s "process" then Z.min 61 (cpus - 1) else Z.min 32 (cpus + 4))%Z in
  check_mode_and_workers true (VStr s) VNone cpus = Ok (s, Some 4%Z) /\
  (2 <= n <= hi -> check_mode_and_workers true (VStr s) (VInt n) cpus = Ok (s, Some n))%Z /\
  (~ (2 <= n <= hi) -> check_mode_and_workers true (VStr s) (VInt n) cpus = Err ValueError)%Z.
Proof.
  intros s n cpus [->| ->]; cbv zeta; unfold check_mode_and_workers; cbn [check_str existsb String.eqb Ascii.eqb Bool.eqb orb bind negb];
  rewrite check_int_z; split; try reflexivity; split; intros H;
  match goal with |- context [((2 <=? n) && (n <=? ?h))%Z] => destruct (Z.leb_spec 2 n), (Z.leb_spec n h) end; cbn [andb bind]; try reflexivity; lia.
Qed.
Theorem C62_unsupported : forall pz v w cpus, (forall s, v = VStr s -> ~ In s modes) -> check_mode_and_workers pz v w cpus = Err ValueError.
Proof.
  intros pz v w cpus H. unfold check_mode_and_workers. destruct v; try reflexivity. cbn [check_str].
  destruct (existsb (String.eqb s) _) eqn:Es; [|reflexivity]. exfalso. apply (H s eq_refl).
  apply existsb_exists in Es as (x & Hx & E). apply String.eqb_eq in E. subst. exact Hx.
Qed.

(** * C63: Multitask tables *)
(** The convergence table of one problem is rectangular: each column is a run's series followed by NaN. *)
Lemma max_spec l : (forall x, In x l -> x <= fold_right Nat.max 0 l) /\ (l <> [] -> In (fold_right Nat.max 0 l) l).
Proof.
  induction l as [|y l [I1 I2]]; simpl; [split; [intros x []|congruence]|]. split.
  - intros x [<-|H]; [lia|]. specialize (I1 x H). lia.
  - intros _. destruct l as [|z l]; [left; simpl; lia|]. destruct (Nat.max_spec y (fold_right Nat.max 0 (z :: l))) as [[_ ->]|[_ ->]]; [right; apply I2; discriminate|auto].
Qed.
Theorem C63_convergence_table : forall rs, rs <> [] -> exists n,
  (exists r, In r rs /\ List.length (r_conv r) = n) /\ List.length (conv_table rs) = List.length rs /\
  forall k r, nth_error rs k = Some r -> exists col, nth_error (conv_table rs) k = Some col /\ List.length col = n /\
    firstn (List.length (r_conv r)) col = r_conv r /\ Forall (fun x => fisnan x = true) (skipn (List.length (r_conv r)) col).
Proof.
  intros rs NE. unfold conv_table. set (ls := map (fun r => List.length (r_conv r)) rs). destruct (max_spec ls) as [M1 M2].
  exists (fold_right Nat.max 0 ls). split.
  { assert (In (fold_right Nat.max 0 ls) ls) by (apply M2; unfold ls; destruct rs; [congruence|discriminate]).
    apply in_map_iff in H as (r & E & Hr). eauto. }
  split; [apply map_length|]. intros k r Hk. eexists. split; [apply map_nth_error; exact Hk|].
  assert (Le : List.length (r_conv r) <= fold_right Nat.max 0 ls).
  { apply M1. unfold ls. apply in_map_iff. exists r. split; [reflexivity|]. eapply nth_error_In; eauto. }
  unfold pad. split; [rewrite app_length, repeat_length; lia|].
  split; [rewrite firstn_app, Nat.sub_diag, firstn_all; simpl; apply app_nil_r|].
  rewrite skipn_app, Nat.sub_diag, skipn_all. simpl. apply Forall_forall. intros x Hx. apply repeat_spec in Hx. subst. reflexivity.
Qed.

(** The fitness table: under each problem name, the best fitness values of the n_trials runs on the last problem of
    that name, in trial order. *)
Theorem C63_fitness_table : forall T run (subT : option T -> nat -> res (option T)) terms modes m n i d cs, 1 <= n ->
  multi_algo T run subT terms modes m n i = Ok (d, cs) ->
  exists rss : list (list result), List.length rss = m /\
    (forall j rs, nth_error rss j = Some rs -> exists t md, table_get subT terms None i j = Ok t /\
       table_get string_get modes "single"%string i j = Ok md /\ List.length rs = n /\
       forall k r, nth_error rs k = Some r -> run i j (S k) t md = Ok r) /\
    List.length cs = m /\
    (forall j rs, nth_error rss j = Some rs -> exists nm, nth_error cs j = Some (nm, conv_table rs) /\ (exists r, last_item rs = Ok r /\ r_name r = nm)) /\
    forall nm col, dget d nm = Some col <-> exists j rs, nth_error rss j = Some rs /\ col = map r_fit rs /\
       (exists r, last_item rs = Ok r /\ r_name r = nm) /\
       (forall j' rs', j < j' -> nth_error rss j' = Some rs' -> forall r, last_item rs' = Ok r -> r_name r <> nm).
Proof.
  intros T run subT terms modes m n i d cs Hn.
  unfold multi_algo. set (step := fun acc j => _).
  revert d cs. induction m as [|m IH]; intros d cs.
  - simpl. intros H; inversion H; subst. exists []. split; [reflexivity|]. split; [intros [|j] rs E; discriminate|]. split; [reflexivity|].
    split; [intros [|j] rs E; discriminate|]. intros nm col. split; [discriminate|]. intros ([|j] & rs & E & _); discriminate.
  - rewrite seq_S, fold_left_app. cbn [fold_left plus].
    destruct (fold_left step (seq 0 m) (Ok ([], []))) as [[d0 cs0]|e] eqn:Ef; [|discriminate].
    destruct (IH d0 cs0 eq_refl) as (rss & L & R1 & LC & R2 & R3). unfold step at 1. cbn [bind].
    destruct (table_get subT terms None i m) as [t|] eqn:Et; [|discriminate]. cbn [bind].
    destruct (table_get string_get modes "single"%string i m) as [md|] eqn:Em; [|discriminate]. cbn [bind].
    destruct (map_res (fun k => run i m k t md) (seq 1 n)) as [rs|] eqn:Er; [|discriminate]. cbn [bind].
    destruct (last_item rs) as [lr|] eqn:El; [|discriminate]. cbn [bind]. intros H; inversion H; subst d cs. clear H.
    assert (LR := map_res_ok_length _ _ _ Er). rewrite seq_length in LR.
    exists (rss ++ [rs]). split; [rewrite app_length; simpl; lia|].
    assert (NX : forall j rs', nth_error (rss ++ [rs]) j = Some rs' -> (j < m /\ nth_error rss j = Some rs') \/ (j = m /\ rs' = rs)).
    { intros j rs' E. destruct (Nat.ltb_spec j (List.length rss)).
      - rewrite nth_error_app1 in E by assumption. left. split; [lia|exact E].
      - rewrite nth_error_app2 in E by assumption. right. destruct (j - List.length rss) as [|q] eqn:Q; simpl in E; [|destruct q; discriminate]. inversion E. split; [lia|reflexivity]. }
    split; [|split; [|split]].
    + intros j rs' E. apply NX in E as [[Hj E]|[-> ->]]; [apply R1; exact E|]. exists t, md. split; [exact Et|]. split; [exact Em|]. split; [exact LR|].
      intros k r Hk. assert (Hk' : k < n) by (rewrite <- LR; apply nth_error_Some; congruence).
      apply (Forall2_nth_error (i := k) (x := S k) (proj1 (map_res_Forall2 _ _ _) Er)); [|exact Hk].
      rewrite (nth_error_nth' _ 0) by (rewrite seq_length; exact Hk'). rewrite seq_nth by exact Hk'. reflexivity.
    + rewrite app_length; simpl; lia.
    + intros j rs' E. apply NX in E as [[Hj E]|[-> ->]].
      * destruct (R2 j rs' E) as (nm & N1 & N2). exists nm. split; [|exact N2]. rewrite nth_error_app1 by lia. exact N1.
      * exists (r_name lr). split; [rewrite nth_error_app2 by lia; rewrite LC, Nat.sub_diag; reflexivity|]. eauto.
    + intros nm col. unfold dset. cbn [dget]. destruct (String.eqb_spec nm (r_name lr)) as [->|Hne].
      * split.
        -- intros E. injection E as E. exists m, rs. split; [rewrite nth_error_app2 by lia; rewrite L, Nat.sub_diag; reflexivity|].
           split; [symmetry; exact E|]. split; [eauto|]. intros j' rs' Hj E'. apply NX in E' as [[? _]|[? _]]; lia.
        -- intros (j & rs' & E1 & E2 & E3 & E4). f_equal. apply NX in E1 as [[Hj E1]|[-> ->]]; [|symmetry; exact E2].
           exfalso. apply (E4 m rs Hj) with (r := lr); [rewrite nth_error_app2 by lia; rewrite L, Nat.sub_diag; reflexivity|exact El|reflexivity].
      * rewrite R3. split.
        -- intros (j & rs' & E1 & E2 & E3 & E4). exists j, rs'. assert (j < m) by (rewrite <- L; apply nth_error_Some; congruence).
           split; [rewrite nth_error_app1 by lia; exact E1|]. split; [exact E2|]. split; [exact E3|].
           intros j' rs2 Hj E'. apply NX in E' as [[_ E']|[-> ->]]; [eapply E4; eauto|]. intros r Hr. rewrite El in Hr. inversion Hr; subst. congruence.
        -- intros (j & rs' & E1 & E2 & E3 & E4). apply NX in E1 as [[Hj E1]|[-> ->]].
           ++ exists j, rs'. split; [exact E1|]. split; [exact E2|]. split; [exact E3|]. intros j' rs2 Hj' E'. apply (E4 j' rs2 Hj').
              assert (j' < m) by (rewrite <- L; apply nth_error_Some; congruence). rewrite nth_error_app1 by lia. exact E'.
           ++ exfalso. destruct E3 as (r & Hr & Er'). rewrite El in Hr. inversion Hr; subst. congruence.
Qed.
(** Two problems with the same name: the results on the first are lost. *)
Theorem C63_same_name_refuted : exists run : nat -> nat -> nat -> option unit -> string -> res result,
  (forall i j k t md, exists r, run i j k t md = Ok r /\ r_fit r = fZ (Z.of_nat j) /\ r_name r = "P"%string) /\
  match multi_algo unit run (fun _ _ => Err TypeError) None None 2 1 0 with
  | Ok (d, _) => dget d "P"%string = Some [fZ 1] /\ forall nm, nm <> "P"%string -> dget d nm = None
  | Err _ => False
  end.
Proof.
  exists (fun i j k t md => Ok (mkResult (fZ (Z.of_nat j)) [] "P"%string)). split; [intros; eexists; split; [reflexivity|split; reflexivity]|].
  cbn [multi_algo]. unfold multi_algo. cbn [seq fold_left bind table_get map_res last_item rev app dset r_name map r_fit conv_table r_conv].
  split; [reflexivity|]. intros nm H. unfold dset. cbn [dget]. repeat match goal with |- context [String.eqb ?a ?b] => destruct (String.eqb_spec a b) end; try congruence.
Qed.
Example C63_case : exists t, conv_table [mkResult (fZ 1) [fZ 3; fZ 1] "P"; mkResult (fZ 2) [fZ 2] "P"] = t /\ map (@List.length f64) t = [2; 2].
Proof. eexists. split; reflexivity. Qed.

Print Assumptions C39_iteration_order.
Print Assumptions C39_iteration.
Print Assumptions C39_getitem.
Print Assumptions C39_getitem_range.
Print Assumptions C39_getitem_order_refuted.
Print Assumptions C39_init.
Print Assumptions C40_chosen.
Print Assumptions C40_execute.
Print Assumptions C40_max_refuted.
Print Assumptions C40_problem_object_refused.
Print Assumptions C41_none.
Print Assumptions C41_one.
Print Assumptions C41_per_problem.
Print Assumptions C41_per_algorithm_refuted.
Print Assumptions C41_per_pair_refuted.
Print Assumptions C41_other_sizes.
Print Assumptions C41_modes_per_pair_refuted.
Print Assumptions C42_jobs.
Print Assumptions C42_one_job_refuted.
Print Assumptions C62_mode.
Print Assumptions C62_workers.
Print Assumptions C62_unsupported.
Print Assumptions C63_convergence_table.
Print Assumptions C63_fitness_table.
Print Assumptions C63_same_name_refuted.
