(** C66: what the variable constructors accept, and what they build. *)
From Verif Require Import Prelude Fl MCore MValid MSpace SpecCore PSpace Demo PropCodec.

(** [v] was built by one of the constructors. *)
Inductive built (PE : penv) : var -> Prop :=
| B_float lb ub v : float_var lb ub = Ok v -> built PE v
| B_integer lb ub v : integer_var lb ub = Ok v -> built PE v
| B_label cat a v : label_var PE cat a = Ok v -> built PE v
| B_sequence sets : built PE (sequence_var sets)
| B_permutation set v : permutation_var PE set = Ok v -> built PE v
| B_binary n v : binary_var n = Ok v -> built PE v
| B_bool n v : bool_var n = Ok v -> built PE v
| B_tbinary n tf lb ub az v : transfer_binary_var n tf lb ub az = Ok v -> built PE v
| B_tbool n tf lb ub v : transfer_bool_var n tf lb ub = Ok v -> built PE v.

(** n_vars must be an int above 0. *)
Theorem C66_n_vars : forall v n, set_n_vars v = Ok n <-> exists z, v = VInt z /\ (0 < z)%Z /\ Z.of_nat n = z.
Proof.
  intros v n. unfold set_n_vars. split.
  - destruct v; try discriminate. destruct (0 <? z)%Z eqn:Q; [|discriminate]. intros H; inversion H; subst. apply Z.ltb_lt in Q. exists z. repeat split; lia.
  - intros (z & -> & H & Q). apply Z.ltb_lt in H. rewrite H. apply Z.ltb_lt in H. f_equal. lia.
Qed.
Theorem C66_n_vars_error : forall v, (exists n, set_n_vars v = Ok n) \/ set_n_vars v = Err ValueError.
Proof. intros v. unfold set_n_vars. destruct v; auto. destruct (0 <? z)%Z; eauto. Qed.

(** FloatVar: two numbers, or two arrays of the same length. *)
Theorem C66_float : forall lb ub v, float_var lb ub = Ok v <->
  (exists a b x y, lb = BNum a /\ ub = BNum b /\ py_float a = Ok x /\ py_float b = Ok y /\ v = FloatVar [x] [y]) \/
  (exists l u, lb = BArr l /\ ub = BArr u /\ List.length l = List.length u /\ v = FloatVar l u).
Proof.
  intros lb ub v. split.
  - destruct lb as [a|l|], ub as [b|u|]; simpl; try discriminate.
    + destruct (py_float a) as [x|] eqn:Qa; simpl; [|discriminate]. destruct (py_float b) as [y|] eqn:Qb; simpl; [|discriminate].
      intros H; inversion H; subst. left. exists a, b, x, y. auto.
    + destruct (_ =? _) eqn:Q; [|discriminate]. apply Nat.eqb_eq in Q. intros H; inversion H; subst. right. exists l, u. auto.
  - intros [(a & b & x & y & -> & -> & Qa & Qb & ->)|(l & u & -> & -> & L & ->)]; simpl.
    + rewrite Qa. simpl. rewrite Qb. reflexivity.
    + apply Nat.eqb_eq in L. unfold vec in *. rewrite L. reflexivity.
Qed.
(** Arrays of different lengths are refused with ValueError, a number with an array with TypeError. *)
Theorem C66_float_errors : forall l u, List.length l <> List.length u ->
  float_var (BArr l) (BArr u) = Err ValueError /\ integer_var (BArr l) (BArr u) = Err ValueError /\
  forall a, float_var (BNum a) (BArr u) = Err TypeError /\ float_var (BArr l) (BNum a) = Err TypeError /\
            integer_var (BNum a) (BArr u) = Err TypeError /\ integer_var (BArr l) (BNum a) = Err TypeError.
Proof. intros l u H. apply Nat.eqb_neq in H. simpl. unfold vec in *. rewrite H. auto 6. Qed.

(** Choices: a flat collection may hold a single value, nested ones need two values each. *)
Theorem C66_choices : forall PE cat l,
  (exists v, label_var PE cat (SNested l) = Ok v) <-> Forall (fun s => 2 <= List.length s) l.
Proof.
  intros PE cat l. simpl. split.
  - intros [v H]. destruct (forallb _ l) eqn:Q; [|discriminate]. rewrite forallb_forall in Q. apply Forall_forall.
    intros s Hs. apply Nat.ltb_lt. apply Q, Hs.
  - intros H. replace (forallb _ l) with true; [eauto|]. symmetry. apply forallb_forall. rewrite Forall_forall in H.
    intros s Hs. apply Nat.ltb_lt. apply H, Hs.
Qed.
Theorem C66_permutation : forall PE set,
  (2 <= List.length set -> exists v, permutation_var PE set = Ok v /\ n_vars v = List.length set) /\
  (List.length set < 2 -> permutation_var PE set = Err TypeError).
Proof.
  intros PE set. unfold permutation_var. destruct (1 <? List.length set) eqn:Q; [apply Nat.ltb_lt in Q|apply Nat.ltb_ge in Q].
  - split; [|lia]. intros _. eexists. split; reflexivity.
  - split; [lia|reflexivity].
Qed.
Theorem C66_transfer : forall n tf lb ub az,
  ((exists v, transfer_binary_var n tf lb ub az = Ok v) <-> (exists k, set_n_vars n = Ok k) /\ In tf supported_tf) /\
  ((exists v, transfer_bool_var n tf lb ub = Ok v) <-> (exists k, set_n_vars n = Ok k) /\ In tf supported_tf).
Proof.
  intros n tf lb ub az. unfold transfer_binary_var, transfer_bool_var.
  assert (HT : existsb (String.eqb tf) supported_tf = true <-> In tf supported_tf).
  { rewrite existsb_exists. split; [intros (x & Hx & Q); apply String.eqb_eq in Q; subst; exact Hx|]. intros H. exists tf. rewrite String.eqb_refl. auto. }
  assert (G : forall T (f : nat -> T), (exists v, (let* k := set_n_vars n in if existsb (String.eqb tf) supported_tf then Ok (f k) else Err ValueError) = Ok v) <->
    (exists k, set_n_vars n = Ok k) /\ In tf supported_tf).
  { intros T f. rewrite <- HT. destruct (set_n_vars n) as [k|e]; cbn [bind].
    - destruct (existsb _ _); split; [eauto|eauto|intros [v H]; discriminate|intros [_ H]; discriminate].
    - split; [intros [v H]; discriminate|intros [[k H] _]; discriminate]. }
  split; apply G.
Qed.

(** Whatever the constructors build has one lower and one upper bound per component. *)
Theorem C66_lengths : forall PE v, built PE v -> List.length (v_lb v) = n_vars v /\ List.length (v_ub v) = n_vars v.
Proof.
  intros PE v H. destruct H.
  - apply C66_float in H as [(a & b & x & y & _ & _ & _ & _ & ->)|(l & u & _ & _ & L & ->)]; simpl; auto.
  - destruct lb as [a|l|], ub as [b|u|]; simpl in H; try discriminate.
    + destruct (int_of a); simpl in H; [|discriminate]. destruct (int_of b); simpl in H; [|discriminate]. inversion H; subst. split; reflexivity.
    + destruct (_ =? _) eqn:Q; [|discriminate]. apply Nat.eqb_eq in Q. inversion H; subst. simpl. unfold vec in *. rewrite !map_length. auto.
  - unfold label_var in H. destruct a as [[|l0 l]|l|]; try discriminate.
    + inversion H; subst. split; reflexivity.
    + destruct (forallb _ l); [|discriminate]. inversion H; subst. simpl. unfold zeros. rewrite repeat_length, map_length. auto.
  - split; reflexivity.
  - unfold permutation_var in H. destruct (1 <? _); [|discriminate]. inversion H; subst. simpl. unfold zeros, times_ones. rewrite !repeat_length. auto.
  - unfold binary_var in H. destruct (set_n_vars n); simpl in H; [|discriminate]. inversion H; subst. simpl. unfold zeros, times_ones. rewrite !repeat_length. auto.
  - unfold bool_var in H. destruct (set_n_vars n); simpl in H; [|discriminate]. inversion H; subst. simpl. unfold zeros, times_ones. rewrite !repeat_length. auto.
  - unfold transfer_binary_var in H. destruct (set_n_vars n); simpl in H; [|discriminate]. destruct (_ || _); [|discriminate]. inversion H; subst.
    simpl. unfold times_zeros, times_ones. rewrite !repeat_length. auto.
  - unfold transfer_bool_var in H. destruct (set_n_vars n); simpl in H; [|discriminate]. destruct (_ || _); [|discriminate]. inversion H; subst.
    simpl. unfold times_zeros, times_ones. rewrite !repeat_length. auto.
Qed.
(** Bits and booleans have at least one component. *)
Theorem C66_positive : forall n tf lb ub az v,
  binary_var n = Ok v \/ bool_var n = Ok v \/ transfer_binary_var n tf lb ub az = Ok v \/ transfer_bool_var n tf lb ub = Ok v -> 0 < n_vars v.
Proof.
  intros n tf lb ub az v. unfold binary_var, bool_var, transfer_binary_var, transfer_bool_var.
  destruct (set_n_vars n) as [k|] eqn:Q; cbn [bind]; [|intuition discriminate].
  apply C66_n_vars in Q as (z & _ & Hz & Q). destruct (existsb (String.eqb tf) supported_tf); intros [H|[H|[H|H]]]; inversion H; subst; simpl; lia.
Qed.
(** A FloatVar may have no component at all, and its bounds may be in the wrong order or not numbers. *)
Theorem C66_empty_refuted : exists v, float_var (BArr []) (BArr []) = Ok v /\ n_vars v = 0.
Proof. eexists. split; reflexivity. Qed.
Theorem C66_unordered_refuted : exists lb ub v, float_var (BNum lb) (BNum ub) = Ok v /\
  fle (nth 0 (v_lb v) fnan) (nth 0 (v_ub v) fnan) = false.
Proof. exists (VInt 1), (VInt 0). eexists. split; [reflexivity|]. vm_compute. reflexivity. Qed.
Theorem C66_empty_sequence_refuted : exists v, v = sequence_var [] /\ fle (nth 0 (v_lb v) fnan) (nth 0 (v_ub v) fnan) = false.
Proof. eexists. split; [reflexivity|]. vm_compute. reflexivity. Qed.
(** Sensible data gives the variables the other theorems speak of. *)
Theorem C66_sensible : forall PE,
  (forall l u, ordered l u -> exists v, float_var (BArr l) (BArr u) = Ok v /\ wf_var v) /\
  (forall cat l, l <> [] -> Forall (fun s => 2 <= List.length s /\ small (List.length s)) l -> exists v, label_var PE cat (SNested l) = Ok v /\ wf_var v) /\
  (forall set, 2 <= List.length set -> small (List.length set) -> exists v, permutation_var PE set = Ok v /\ wf_var v) /\
  (forall n, 0 < n -> exists v, binary_var (VInt (Z.of_nat n)) = Ok v /\ wf_var v /\ n_vars v = n) /\
  (forall n tf lb ub az, 0 < n -> In tf supported_tf -> fisfin lb = true -> fle (fZ 1) ub = true ->
     exists v, transfer_binary_var (VInt (Z.of_nat n)) tf lb ub az = Ok v /\ wf_var v /\ n_vars v = n).
Proof.
  intros PE. assert (HN : forall n, 0 < n -> set_n_vars (VInt (Z.of_nat n)) = Ok n).
  { intros n H. apply C66_n_vars. exists (Z.of_nat n). repeat split; lia. }
  repeat split.
  - intros l u H. exists (FloatVar l u). split; [apply C66_float; right; exists l, u; destruct H; auto|exact H].
  - intros cat l _ H. destruct (proj2 (C66_choices PE cat l)) as [v Hv]; [eapply Forall_impl; [|exact H]; intros s [Q _]; exact Q|].
    exists v. split; [exact Hv|]. simpl in Hv. destruct (forallb _ l); [|discriminate]. inversion Hv; subst. simpl.
    split; [eapply Forall_impl; [|exact H]; intros s [_ Q]; exact Q|]. split; [apply map_length|reflexivity].
  - intros set H1 H2. unfold permutation_var. replace (1 <? List.length set) with true by (symmetry; apply Nat.ltb_lt; lia).
    eexists. split; [reflexivity|exact H2].
  - intros n H. exists (BinaryVar n). unfold binary_var. rewrite HN by exact H. split; [reflexivity|split; [exact I|reflexivity]].
  - intros n tf lb ub az H Ht Hf Hu. exists (TransferBinaryVar n tf lb ub az). unfold transfer_binary_var. rewrite HN by exact H. cbn [bind].
    replace (existsb (String.eqb tf) supported_tf) with true; [split; [reflexivity|split; [split; assumption|reflexivity]]|].
    symmetry. apply existsb_exists. exists tf. split; [exact Ht|apply String.eqb_refl].
Qed.
Example C66_example : exists v, transfer_binary_var (VInt 3) "sstf_02" (fZ (-8)) (fZ 8) false = Ok v /\ built demo_penv v /\ n_vars v = 3.
Proof. eexists. split; [reflexivity|]. split; [eapply B_tbinary with (n := VInt 3) (tf := "sstf_02"%string); reflexivity|reflexivity]. Qed.

(** Problem: one variable, or a non-empty collection made of variables only. *)
Theorem C66_bounds : forall b vs, set_bounds b = Ok vs <->
  (exists v, b = OneVar v /\ vs = [v]) \/ (exists l, b = ManyVars l /\ l = map Some vs /\ vs <> []).
Proof.
  assert (G : forall l vs, map_res (fun o : option nvar => match o with Some v => Ok v | None => Err ValueError end) l = Ok vs <-> l = map Some vs).
  { induction l as [|o l IH]; intros vs; simpl.
    - split; [intros H; inversion H; reflexivity|destruct vs; [reflexivity|discriminate]].
    - destruct o as [v|]; simpl; [|split; [discriminate|destruct vs; discriminate]].
      destruct (map_res _ l) as [ws|e] eqn:Q; simpl.
      + split.
        * intros H; inversion H; subst. simpl. f_equal. apply IH; reflexivity.
        * destruct vs as [|w ws']; [discriminate|]. simpl. intros H. injection H as Ev El. apply IH in El. inversion El; subst. reflexivity.
      + split; [discriminate|]. destruct vs as [|w ws']; [discriminate|]. simpl. intros H. injection H as Ev El. apply IH in El. discriminate. }
  intros b vs. destruct b as [v|l|]; simpl.
  - split.
    + intros H; inversion H; subst. left; eauto.
    + intros [(w & Q & ->)|(l & Q & _)]; [inversion Q; reflexivity|discriminate].
  - split.
    + destruct (map_res _ l) as [ws|e] eqn:Q; simpl; [|discriminate]. destruct ws as [|w ws]; [discriminate|]. intros H; inversion H; subst.
      apply G in Q. right. exists l. split; [reflexivity|]. split; [exact Q|discriminate].
    + intros [(w & Q & _)|(l' & Q & -> & N)]; [discriminate|]. inversion Q; subst. rewrite (proj2 (G _ vs) eq_refl). simpl. destruct vs; [congruence|reflexivity].
  - split; [discriminate|]. intros [(w & Q & _)|(l & Q & _)]; discriminate.
Qed.
Theorem C66_bounds_errors :
  set_bounds (ManyVars []) = Err ValueError /\ set_bounds NoVars = Err TypeError /\ forall l, In None l -> set_bounds (ManyVars l) = Err ValueError.
Proof.
  split; [reflexivity|]. split; [reflexivity|]. intros l H. simpl.
  replace (map_res _ l) with (Err ValueError : res (list nvar)); [reflexivity|].
  induction l as [|[v|] l IH]; [destruct H| |reflexivity]. simpl. destruct H as [H|H]; [discriminate|]. rewrite <- (IH H). reflexivity.
Qed.

Print Assumptions C66_n_vars.
Print Assumptions C66_n_vars_error.
Print Assumptions C66_float.
Print Assumptions C66_float_errors.
Print Assumptions C66_choices.
Print Assumptions C66_permutation.
Print Assumptions C66_transfer.
Print Assumptions C66_lengths.
Print Assumptions C66_positive.
Print Assumptions C66_empty_refuted.
Print Assumptions C66_unordered_refuted.
Print Assumptions C66_empty_sequence_refuted.
Print Assumptions C66_sensible.
Print Assumptions C66_bounds.
Print Assumptions C66_bounds_errors.
