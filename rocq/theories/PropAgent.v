(** Properties of Target and Agent objects. *)
From Coq Require Import Reals Lra.
From Verif Require Import Prelude Fl FlArith MCore MAgent SpecCore SpecRun PSelect.

(** * C33 *)
(** Sum of a non-empty list, from left to right. *)
Definition fsum (l : list f64) : f64 := match l with [] => fZ 0 | x :: r => fold_left fadd r x end.

Lemma map_mul_ones (o : list f64) n : n = List.length o ->
  map (fun p => fmul (fst p) (snd p)) (combine (repeat (fZ 1) n) o) = o.
Proof.
  revert n; induction o as [|x o IH]; intros n ->; [reflexivity|]. simpl repeat. cbn [combine map fst snd].
  rewrite fmul_1, IH; reflexivity.
Qed.
Lemma dot_ones o : dot (repeat (fZ 1) (List.length o)) o = fsum o.
Proof. unfold dot, fsum. rewrite map_mul_ones by reflexivity. reflexivity. Qed.

Theorem C33_fitness : forall o w t, target_init (AArr o) w = Ok t ->
  t_objs t = o /\
  t_fit t = match w with
            | AArr l => if List.length l =? List.length o
                        then fsum (map (fun p => fmul (fst p) (snd p)) (combine l o))
                        else fsum o
            | ANum c => fsum (map (fmul c) o)
            | _ => fsum o
            end.
Proof.
  intros o w t H. unfold target_init in H. simpl in H. destruct w as [|c|l|]; simpl in H; inversion H; subst; simpl; (split; [reflexivity|]).
  - unfold calc_fitness. apply dot_ones.
  - unfold calc_fitness. rewrite repeat_length, Nat.eqb_refl. unfold dot, fsum.
    replace (map (fun p => fmul (fst p) (snd p)) (combine (repeat c (List.length o)) o)) with (map (fmul c) o); [reflexivity|].
    clear. induction o as [|x o IH]; simpl; [reflexivity|]. rewrite IH; reflexivity.
  - unfold calc_fitness. destruct (List.length l =? List.length o); [reflexivity|apply dot_ones].
Qed.
(** One objective and no weight: the fitness is the objective value itself, bit for bit. *)
Theorem C33_single_objective : forall x, exists t, target_init (ANum x) ANone = Ok t /\ t_fit t = x /\ t_objs t = [x].
Proof. intros x. eexists. split; [reflexivity|]. split; [|reflexivity]. unfold target_new, calc_fitness. simpl t_fit. apply (dot_ones [x]). Qed.
(** Construction fails exactly for a missing/odd objective or an odd weight. *)
Theorem C33_errors : forall o w, target_init o w = Err ValueError <-> (o = ANone \/ o = AOther \/ w = AOther).
Proof.
  intros o w. unfold target_init. destruct o; destruct w; simpl; split; intros H; try discriminate; try tauto;
    destruct H as [H|[H|H]]; try discriminate; reflexivity.
Qed.

(** Exact arithmetic: with integer objectives and weights whose partial sums stay below 2^53, no rounding happens. *)
Definition zsum (l : list Z) : Z := fold_right Z.add 0%Z l.
Lemma fZ_exact a b : FR a = IZR b -> fisfin a = true -> (Z.abs b <= 2 ^ 53)%Z -> feq a (fZ b) = true.
Proof.
  intros H F Hb. destruct (fZ_FR b Hb) as [F2 R2]. apply feq_FR; [apply fin_notnan; exact F|apply fin_notnan; exact F2|]. congruence.
Qed.
Lemma crnd_Z z : (Z.abs z <= 2 ^ 53)%Z -> crnd (IZR z) = IZR z.
Proof. intros H. destruct (fZ_FR z H) as [F R]. rewrite <- R. apply crnd_FR. apply fin_notnan; exact F. Qed.
Lemma fin_of_FR a z : fisnan a = false -> FR a = IZR z -> (Z.abs z <= 2 ^ 53)%Z -> fisfin a = true.
Proof. intros N H Hz. destruct (fZ_FR z Hz) as [F R]. apply FR_fin_iff; [exact N|]. rewrite H, <- R. apply FR_bound. exact F. Qed.

Theorem C33_integer_sums_exact : forall (ws os : list Z) t,
  List.length ws = List.length os ->
  (zsum (map (fun p => Z.abs (fst p * snd p)) (combine ws os)) <= 2 ^ 53)%Z ->
  (forall w, In w ws -> (Z.abs w <= 2 ^ 53)%Z) -> (forall o, In o os -> (Z.abs o <= 2 ^ 53)%Z) ->
  target_init (AArr (map fZ os)) (AArr (map fZ ws)) = Ok t ->
  FR (t_fit t) = IZR (zsum (map (fun p => (fst p * snd p)%Z) (combine ws os))).
Proof.
  intros ws os t HL HS Hw Ho H. destruct (C33_fitness _ _ _ H) as [_ ->]. rewrite !map_length, HL, Nat.eqb_refl.
  assert (M : forall p, In p (combine ws os) -> (Z.abs (fst p * snd p) <= 2 ^ 53)%Z ->
            fisfin (fmul (fZ (fst p)) (fZ (snd p))) = true /\ FR (fmul (fZ (fst p)) (fZ (snd p))) = IZR (fst p * snd p)).
  { intros [w o] Hp Hb. simpl in *. destruct (fZ_FR w) as [F1 R1]; [apply Hw; eapply in_combine_l; eauto|].
    destruct (fZ_FR o) as [F2 R2]; [apply Ho; eapply in_combine_r; eauto|].
    destruct (fmul_fin _ _ F1 F2) as [N R]. rewrite R1, R2, <- mult_IZR, crnd_Z in R by exact Hb.
    split; [eapply fin_of_FR; eauto|exact R]. }
  assert (NN : forall l : list (Z * Z), (0 <= zsum (map (fun p => Z.abs (fst p * snd p)) l))%Z).
  { induction l as [|p l IH]; simpl; lia. }
  assert (G : forall l acc z, (forall p, In p l -> In p (combine ws os)) -> fisfin acc = true -> FR acc = IZR z ->
     (Z.abs z + zsum (map (fun p => Z.abs (fst p * snd p)) l) <= 2 ^ 53)%Z ->
     FR (fold_left fadd (map (fun p => fmul (fst p) (snd p)) (map (fun p => (fZ (fst p), fZ (snd p))) l)) acc)
     = IZR (z + zsum (map (fun p => (fst p * snd p)%Z) l))).
  { induction l as [|p l IH]; intros acc z Hin Fa Ra Hb; simpl in Hb |- *.
    - rewrite Z.add_0_r. exact Ra.
    - pose proof (NN l). destruct (M p) as [F1 R1]; [apply Hin; left; reflexivity|lia|].
      destruct (fadd_fin _ _ Fa F1) as [N2 R2]. rewrite Ra, R1, <- plus_IZR, crnd_Z in R2 by lia.
      rewrite IH with (z := (z + fst p * snd p)%Z).
      + f_equal. lia.
      + intros q Hq. apply Hin. right; exact Hq.
      + eapply fin_of_FR; [exact N2|exact R2|lia].
      + exact R2.
      + lia. }
  assert (C : combine (map fZ ws) (map fZ os) = map (fun p => (fZ (fst p), fZ (snd p))) (combine ws os)).
  { clear. revert os; induction ws as [|w ws IH]; intros [|o os]; simpl; try reflexivity. rewrite IH; reflexivity. }
  rewrite C. destruct (combine ws os) as [|p l] eqn:El; [reflexivity|].
  simpl in HS. pose proof (NN l). destruct (M p) as [F1 R1]; [left; reflexivity|lia|].
  cbn [map fsum fst snd]. rewrite (G l _ (fst p * snd p)%Z); [reflexivity| | | |].
  - intros q Hq. right; exact Hq.
  - exact F1.
  - exact R1.
  - lia.
Qed.
Example C33_example : exists t, target_init (AArr (map fZ [3; 4; 5]%Z)) (AArr (map fZ [2; 1; 10]%Z)) = Ok t /\ feq (t_fit t) (fZ 60) = true.
Proof. eexists. split; [reflexivity|vm_compute; reflexivity]. Qed.
Example C33_wrong_length : exists t, target_init (AArr (map fZ [3; 4; 5]%Z)) (AArr (map fZ [2; 1]%Z)) = Ok t /\ feq (t_fit t) (fZ 12) = true.
Proof. eexists. split; [reflexivity|vm_compute; reflexivity]. Qed.

(** * C34 *)
(** A target as built by the constructor. *)
Definition built (t : target) : Prop := exists o w, target_init o w = Ok t.
Theorem C34_target_copy : forall t, built t -> target_py_copy t = Ok t.
Proof.
  intros t (o & w & H). unfold target_init in H. destruct (set_objectives o) as [objs|]; [|discriminate]. simpl in H.
  destruct (set_weights objs w) as [wts|]; [|discriminate]. simpl in H. inversion H; subst. destruct wts; reflexivity.
Qed.
(** Every keyword attribute given at construction is an attribute (deletion of attributes is not modelled). *)
Definition kw_ok {V} (a : pyagent V) : Prop := forall k, dget (o_kwargs a) k <> None -> dget (o_attrs a) k <> None.
Lemma dget_rebuild {V} (l d : dict V) k :
  dget (fold_right (fun kv d => dset d (fst kv) (snd kv)) d l) k = match dget l k with Some v => Some v | None => dget d k end.
Proof. induction l as [|[k' v] l IH]; simpl; [reflexivity|]. destruct (String.eqb k k'); [reflexivity|exact IH]. Qed.
Theorem C34_agent_copy : forall V (a : pyagent V) ctr t, o_tgt a = Some t -> built t -> kw_ok a ->
  exists b ctr', py_copy ctr a = Ok (b, ctr') /\
    o_sol b = o_sol a /\ o_tgt b = o_tgt a /\ o_kwargs b = o_kwargs a /\
    (forall k, dget (o_attrs b) k = dget (o_attrs a) k) /\ o_id b = S ctr /\ ctr' = S ctr /\ kw_ok b.
Proof.
  intros V a ctr t Ht Hb Hk. unfold py_copy. rewrite Ht, (C34_target_copy t Hb). simpl.
  eexists; eexists. split; [reflexivity|]. simpl. repeat (split; [reflexivity|]).
  assert (Q : forall k, dget (fold_right (fun kv d => dset d (fst kv) (snd kv))
     (fold_right (fun kv d => dset d (fst kv) (snd kv)) [] (o_kwargs a)) (o_attrs a)) k = dget (o_attrs a) k).
  { intros k. rewrite !dget_rebuild. destruct (dget (o_attrs a) k) eqn:E; [reflexivity|].
    destruct (dget (o_kwargs a) k) eqn:E2; [|reflexivity]. exfalso. apply (Hk k); congruence. }
  split; [exact Q|]. split; [reflexivity|]. split; [reflexivity|]. intros k. simpl. rewrite Q. apply Hk.
Qed.
(** The kw_ok condition is kept by construction, update and copy; ids grow strictly. *)
Theorem C34_kw_ok : forall V ctr x t (kw : dict V), kw_ok (fst (py_agent ctr x t kw)) /\
  forall (a : pyagent V) k v, kw_ok a -> kw_ok (py_update a k v).
Proof.
  intros V ctr x t kw. split.
  - intros k. unfold py_agent; simpl. rewrite dget_rebuild. destruct (dget kw k); [congruence|simpl; congruence].
  - intros a k v H k0 Hk. simpl. destruct (String.eqb k0 k); [congruence|apply H; exact Hk].
Qed.
Example C34_example : forall ctr, exists b c,
  py_copy ctr (py_update (fst (py_agent ctr [fZ 1] (Some (target_new [fZ 3] None)) [("vel"%string, 5)])) "vel"%string 7) = Ok (b, c)
  /\ dget (o_attrs b) "vel"%string = Some 7.
Proof. intros. eexists; eexists. split; reflexivity. Qed.
(** Fitness recomputed with other weights is lost by copy. *)
Theorem C34_recalculated_refuted : exists t w t', built t /\
  target_py_copy (recalculate t w) = Ok t' /\ feq (t_fit t') (t_fit (recalculate t w)) = false.
Proof.
  exists (target_new [fZ 1; fZ 2] None), [fZ 2; fZ 2], (target_new [fZ 1; fZ 2] None).
  split; [exists (AArr [fZ 1; fZ 2]), ANone; reflexivity|]. split; [reflexivity|]. vm_compute. reflexivity.
Qed.

(** * C35 *)
Theorem C35_eq_reflexive : forall x, agent_eq x x = true \/ exists v, In v x /\ fisnan v = true.
Proof.
  intros x. destruct (existsb fisnan x) eqn:E.
  - right. apply existsb_exists in E. exact E.
  - left. unfold agent_eq. apply forallb_forall. intros [a b] H.
    assert (a = b /\ In a x).
    { clear E. revert H. induction x as [|v x IH]; simpl; [tauto|]. intros [Q|Q]; [inversion Q; auto|]. destruct (IH Q); auto. }
    destruct H0 as [<- Ha]. simpl. unfold isclose. replace (feq a a) with true; [reflexivity|].
    symmetry. assert (N : fisnan a = false).
    { destruct (fisnan a) eqn:Na; [|reflexivity]. exfalso. assert (existsb fisnan x = true) by (apply existsb_exists; eauto). congruence. }
    apply feq_FR; auto.
Qed.
Theorem C35_not_symmetric_refuted : exists x y, agent_eq x y = true /\ agent_eq y x = false.
Proof. exists [fZ 10000000000], [fZ 10000100001]. vm_compute. auto. Qed.
Theorem C35_not_transitive_refuted : exists x y z, agent_eq x y = true /\ agent_eq y z = true /\ agent_eq x z = false.
Proof. exists [fZ 0], [fpow 8500259669165361 (-73)], [fpow 8500259669165361 (-72)]. vm_compute. auto. Qed.
(** Two equal agents whose hash keys (the tuples that are hashed) differ. *)
Theorem C35_hash_refuted : exists x y, agent_eq x y = true /\ agent_eq y x = true /\
  exists i, feq (nth i (hash_key x) fnan) (nth i (hash_key y) fnan) = false.
Proof. exists [fZ 0], [fpow 8500259669165361 (-73)]. split; [vm_compute; reflexivity|]. split; [vm_compute; reflexivity|]. exists 0. vm_compute. reflexivity. Qed.

(** * C36 *)
Definition bt {A} (a b : agent A) mm : Prop := is_better_than a b mm = Ok true.
Lemma is_better_spec {A} (a b : agent A) mm : valid_mm mm -> has_target a -> has_target b -> num (fit a) -> num (fit b) ->
  exists r, is_better_than a b mm = Ok r /\ (r = true <-> better mm (fit a) (fit b)).
Proof.
  intros V Ha Hb Na Nb. unfold is_better_than, compare_fitness_agent. rewrite (fitness_fit a Ha), (fitness_fit b Hb). simpl.
  destruct (feq (fit a) (fit b)) eqn:E; simpl.
  - exists false. split; [reflexivity|]. split; [discriminate|]. intros B. apply feq_FR in E; auto.
    destruct V as [->| ->]; simpl in B; apply flt_FR in B; auto; lra.
  - destruct V as [->| ->]; simpl.
    + destruct (flt (fit a) (fit b)) eqn:F; simpl; eexists; (split; [reflexivity|]); split; auto; discriminate.
    + destruct (flt (fit b) (fit a)) eqn:F; simpl; eexists; (split; [reflexivity|]); split; auto; discriminate.
Qed.
Theorem C36_strict_weak_order : forall (A : Type) mm (a b c : agent A), valid_mm mm ->
  Forall has_target [a; b; c] -> Forall (fun x => num (fit x)) [a; b; c] ->
  ~ bt a a mm /\ (bt a b mm -> ~ bt b a mm) /\ (bt a b mm -> bt b c mm -> bt a c mm) /\
  (~ bt a b mm -> ~ bt b a mm -> ~ bt b c mm -> ~ bt c b mm -> ~ bt a c mm /\ ~ bt c a mm) /\
  (bt a b mm <-> better mm (fit a) (fit b)).
Proof.
  intros A mm a b c V HT HN. inversion HT as [|? ? Ta HT1]; inversion HT1 as [|? ? Tb HT2]; inversion HT2 as [|? ? Tc _]; subst.
  inversion HN as [|? ? Na HN1]; inversion HN1 as [|? ? Nb HN2]; inversion HN2 as [|? ? Nc _]; subst.
  assert (S : forall x y : agent A, has_target x -> has_target y -> num (fit x) -> num (fit y) -> (bt x y mm <-> better mm (fit x) (fit y))).
  { intros x y Tx Ty Nx Ny. destruct (is_better_spec x y mm V Tx Ty Nx Ny) as (r & E & Q). unfold bt. rewrite E.
    rewrite <- Q. split; intros H; [inversion H; reflexivity|subst; reflexivity]. }
  rewrite !S by assumption. unfold num in *.
  destruct V as [->| ->]; simpl; rewrite !flt_FR by assumption; repeat split; try lra; intros; try lra; tauto.
Qed.
Theorem C36_better_solution : forall (A : Type) mm (a b : agent A), valid_mm mm -> has_target a -> has_target b ->
  num (fit a) -> num (fit b) ->
  exists r, get_better_solution a b mm = Ok r /\ (r = a \/ r = b) /\ no_worse mm (fit r) (fit a) /\ no_worse mm (fit r) (fit b).
Proof.
  intros A mm a b V Ha Hb Na Nb. unfold get_better_solution, compare_fitness_agent. rewrite (fitness_fit a Ha), (fitness_fit b Hb). simpl.
  unfold num in *. destruct (feq (fit a) (fit b)) eqn:E; simpl.
  - exists a. split; [reflexivity|]. split; [auto|]. apply feq_FR in E; auto.
    destruct V as [->| ->]; simpl; rewrite !fle_FR by assumption; lra.
  - destruct V as [->| ->]; simpl.
    + destruct (flt (fit a) (fit b)) eqn:F; simpl; eexists; (split; [reflexivity|]); (split; [auto|]);
      [apply flt_FR in F|apply flt_false_FR in F]; auto; rewrite !fle_FR by assumption; lra.
    + destruct (flt (fit b) (fit a)) eqn:F; simpl; eexists; (split; [reflexivity|]); (split; [auto|]);
      [apply flt_FR in F|apply flt_false_FR in F]; auto; rewrite !fle_FR by assumption; lra.
Qed.
(** With a NaN fitness on either side the second agent is returned: a NaN "other" wins over any agent. *)
Theorem C36_nan : forall (A : Type) mm (a b : agent A), valid_mm mm -> has_target a -> has_target b ->
  fisnan (fit a) = true \/ fisnan (fit b) = true -> get_better_solution a b mm = Ok b /\ is_better_than a b mm = Ok false.
Proof.
  intros A mm a b V Ha Hb N. unfold get_better_solution, is_better_than, compare_fitness_agent.
  rewrite (fitness_fit a Ha), (fitness_fit b Hb). simpl.
  assert (feq (fit a) (fit b) = false).
  { rewrite feq_unfold. destruct N; [rewrite fcmp_nan_l|rewrite fcmp_nan_r]; auto. }
  assert (flt (fit a) (fit b) = false) by (destruct N; [apply flt_nan_l|apply flt_nan_r]; assumption).
  assert (flt (fit b) (fit a) = false) by (destruct N; [apply flt_nan_r|apply flt_nan_l]; assumption).
  rewrite H. destruct V as [->| ->]; simpl; rewrite ?H0, ?H1; auto.
Qed.
Example C36_example : let mk z := mkAgent (A := unit) [] (Some (target_new [fZ z] None)) tt in
  bt (mk 1%Z) (mk 2%Z) Min /\ bt (mk 2%Z) (mk 1%Z) Max /\ Forall has_target [mk 1%Z; mk 2%Z; mk 3%Z].
Proof.
  intros mk. split; [vm_compute; reflexivity|]. split; [vm_compute; reflexivity|].
  repeat (constructor; try discriminate).
Qed.

Print Assumptions C33_fitness.
Print Assumptions C33_single_objective.
Print Assumptions C33_errors.
Print Assumptions C33_integer_sums_exact.
Print Assumptions C34_target_copy.
Print Assumptions C34_agent_copy.
Print Assumptions C34_kw_ok.
Print Assumptions C34_recalculated_refuted.
Print Assumptions C35_eq_reflexive.
Print Assumptions C35_not_symmetric_refuted.
Print Assumptions C35_not_transitive_refuted.
Print Assumptions C35_hash_refuted.
Print Assumptions C36_strict_weak_order.
Print Assumptions C36_better_solution.
Print Assumptions C36_nan.
