(** Metadata checks, class lookup, loggers, trajectory series, model files. *)
From Verif Require Import Prelude Fl MCore MAgent MMisc.
From Coq Require Import Ascii.

(** * C55 *)
Local Open Scope string_scope.
(** What makes metadata valid.  A blank name consists of white space only. *)
Definition white (s : string) : Prop := forall n c, String.get n s = Some c -> is_space c = true.
Record valid_info (o : optinfo) : Prop := {
  vi_difficulty : In (oi_difficulty o) ["easy"; "medium"; "hard"; "nightmare"];
  vi_kind : In (oi_kind o) ["original"; "variant"; "hybrid"; "sota"; "developed"];
  vi_status : In (oi_status o) ["normal"; "questionable"; "under_investigation"; "withdrawn"; "retracted"];
  vi_concerns : Forall (fun b => b = true) (oi_concerns o);
  vi_name : forall n, oi_name o = Some n -> ~ white n;
  vi_year : forall y, oi_year o = Some y -> (1800 <= y <= 2100)%Z;
  vi_family : forall n, oi_family o = Some n -> ~ white n }.
Lemma blank_white s : blank s = true <-> white s.
Proof.
  unfold white. induction s as [|c s IH]; simpl; [split; [intros _ [|n] c H; discriminate|auto]|].
  rewrite andb_true_iff, IH. split.
  - intros [H1 H2] [|n] d H; simpl in H; [congruence|eauto].
  - intros H. split; [apply (H 0%nat); reflexivity|]. intros n d Hd. apply (H (S n)); exact Hd.
Qed.
Lemma smem_In s l : smem s l = true <-> In s l.
Proof.
  unfold smem. rewrite existsb_exists. split; [intros (x & H & E); apply String.eqb_eq in E; congruence|]. intros H. exists s. rewrite String.eqb_refl. auto.
Qed.
Theorem C55_metadata : forall o, (valid_info o -> optinfo_new o = Ok o) /\ (forall o', optinfo_new o = Ok o' -> o' = o /\ valid_info o) /\
  (~ valid_info o -> optinfo_new o = Err ValueError \/ optinfo_new o = Err TypeError).
Proof.
  intros o.
  assert (K : (optinfo_new o = Ok o /\ valid_info o) \/ ((optinfo_new o = Err ValueError \/ optinfo_new o = Err TypeError) /\ ~ valid_info o)).
  { unfold optinfo_new.
    destruct (smem (oi_difficulty o) _) eqn:E1; cbn [negb]; [|right; split; [auto|]; intros V; apply vi_difficulty, smem_In in V; congruence].
    destruct (smem (oi_kind o) _) eqn:E2; cbn [negb]; [|right; split; [auto|]; intros V; apply vi_kind, smem_In in V; congruence].
    destruct (smem (oi_status o) _) eqn:E3; cbn [negb]; [|right; split; [auto|]; intros V; apply vi_status, smem_In in V; congruence].
    destruct (existsb negb (oi_concerns o)) eqn:E4.
    { right. split; [auto|]. intros V. apply vi_concerns in V. apply existsb_exists in E4 as (b & Hb & Eb). rewrite Forall_forall in V. rewrite (V b Hb) in Eb. discriminate. }
    destruct (match oi_name o with Some n => blank n | None => false end) eqn:E5.
    { right. split; [auto|]. intros V. destruct (oi_name o) as [n|] eqn:En; [|discriminate]. apply (vi_name o V n En). apply blank_white, E5. }
    destruct (match oi_year o with Some y => negb ((1800 <=? y)%Z && (y <=? 2100)%Z) | None => false end) eqn:E6.
    { right. split; [auto|]. intros V. destruct (oi_year o) as [y|] eqn:Ey; [|discriminate]. assert (W := vi_year o V y Ey).
      destruct (Z.leb_spec 1800 y), (Z.leb_spec y 2100); simpl in E6; try discriminate; lia. }
    destruct (match oi_family o with Some n => blank n | None => false end) eqn:E7.
    { right. split; [auto|]. intros V. destruct (oi_family o) as [n|] eqn:En; [|discriminate]. apply (vi_family o V n En). apply blank_white, E7. }
    left. split; [reflexivity|]. constructor; try (apply smem_In; assumption).
    - apply Forall_forall. intros b Hb. destruct b; [reflexivity|]. exfalso. assert (existsb negb (oi_concerns o) = true) by (apply existsb_exists; exists false; auto). congruence.
    - intros n En W. rewrite En in E5. apply blank_white in W. congruence.
    - intros y Ey. rewrite Ey in E6. destruct (Z.leb_spec 1800 y), (Z.leb_spec y 2100); simpl in E6; try discriminate; lia.
    - intros n En W. rewrite En in E7. apply blank_white in W. congruence. }
  destruct K as [[K1 K2]|[K1 K2]]; (split; [|split]).
  - auto.
  - intros o' H. rewrite K1 in H. inversion H; subst; split; [reflexivity|exact K2].
  - contradiction.
  - contradiction.
  - intros o' H. destruct K1 as [K1|K1]; rewrite K1 in H; discriminate.
  - auto.
Qed.
Example C55_case : valid_info (mkOptInfo "easy" "original" (Some "Particle Swarm Optimization") (Some 1995%Z) None "normal" [] [])
  /\ ~ valid_info (mkOptInfo "easy" "original" (Some "  ") (Some 1995%Z) None "normal" [] []).
Proof.
  split.
  - match goal with |- valid_info ?o => apply (proj1 (proj2 (C55_metadata o)) o) end. reflexivity.
  - intros V. assert (E := proj1 (C55_metadata _) V). vm_compute in E. discriminate.
Qed.

(** * C56 *)
(** The class that a module, looked at from its last member, has under a name, if it is an optimizer. *)
Definition provides (ms : list (string * member)) (n : string) (c : nat) : Prop :=
  exists a b, ms = (a ++ (n, MClass c true) :: b)%list /\ forall c', ~ In (n, MClass c' true) b.
Lemma dset_get {V} (d : dict V) k v k' : dget (dset d k v) k' = if String.eqb k' k then Some v else dget d k'.
Proof. reflexivity. Qed.
Lemma add_classes_get ms : forall d n, 
  (forall c, provides ms n c -> dget (add_classes ms d) n = Some c) /\
  ((forall c, ~ In (n, MClass c true) ms) -> dget (add_classes ms d) n = dget d n).
Proof.
  unfold add_classes. induction ms as [|[k m] ms IH] using rev_ind; intros d n.
  - split; [|reflexivity]. intros c (a & b & E & _). destruct a; discriminate.
  - rewrite fold_left_app. cbn [fold_left snd fst]. destruct (IH d n) as [I1 I2]. split.
    + intros c (a & b & E & N). destruct b as [|x b _] using rev_ind.
      * apply app_inj_tail in E as [E1 E2]. inversion E2; subst. rewrite dset_get, String.eqb_refl. reflexivity.
      * replace (a ++ (n, MClass c true) :: b ++ [x])%list with ((a ++ (n, MClass c true) :: b) ++ [x])%list in E by (rewrite <- app_assoc; reflexivity).
        apply app_inj_tail in E as [E1 E2]. subst x.
        assert (P : provides ms n c). { exists a, b. split; [exact E1|]. intros c' C. apply (N c'). apply in_or_app; auto. }
        destruct m as [id [|]|]; auto. rewrite dset_get. destruct (String.eqb_spec n k); [|auto].
        subst k. exfalso. apply (N id). apply in_or_app; right; left; reflexivity.
    + intros N. rewrite <- I2 by (intros c C; apply (N c), in_or_app; auto). destruct m as [id [|]|]; auto. rewrite dset_get.
      destruct (String.eqb_spec n k); [|auto]. subst k. exfalso. apply (N id), in_or_app. right; left; reflexivity.
Qed.
Lemma add_classes_cases ms d n : (exists c, provides ms n c /\ dget (add_classes ms d) n = Some c) \/
  ((forall c, ~ In (n, MClass c true) ms) /\ dget (add_classes ms d) n = dget d n).
Proof.
  assert (D : (exists c, provides ms n c) \/ (forall c, ~ In (n, MClass c true) ms)).
  { induction ms as [|[k m] ms [IH|IH]] using rev_ind; [right; intros c []| |].
    - destruct IH as (c & a & b & -> & N). 
      destruct (String.eqb_spec n k) as [->|Hn].
      + destruct m as [id [|]|].
        * left. exists id, (a ++ (k, MClass c true) :: b)%list, []. split; [reflexivity|intros c' []].
        * left. exists c, a, (b ++ [(k, MClass id false)])%list. split; [rewrite <- app_assoc; reflexivity|].
          intros c' C. apply in_app_or in C as [C|[C|[]]]; [apply (N c' C)|discriminate].
        * left. exists c, a, (b ++ [(k, MOther)])%list. split; [rewrite <- app_assoc; reflexivity|].
          intros c' C. apply in_app_or in C as [C|[C|[]]]; [apply (N c' C)|discriminate].
      + left. exists c, a, (b ++ [(k, m)])%list. split; [rewrite <- app_assoc; reflexivity|].
        intros c' C. apply in_app_or in C as [C|[C|[]]]; [apply (N c' C)|congruence].
    - destruct (String.eqb_spec n k) as [->|Hn].
      + destruct m as [id [|]|]; [left; exists id, ms, []; split; [reflexivity|intros c' []]|right|right];
        intros c C; apply in_app_or in C as [C|[C|[]]]; try (apply (IH c C)); discriminate.
      + right. intros c C; apply in_app_or in C as [C|[C|[]]]; [apply (IH c C)|congruence]. }
  destruct (add_classes_get ms d n) as [G1 G2]. destruct D as [(c & P)|D]; [left; eauto|right; auto].
Qed.
Lemma dpop_get {V} (d : dict V) k n : dget (dpop d k) n = if String.eqb n k then None else dget d n.
Proof.
  unfold dpop. induction d as [|[k' v] d IH]; simpl; [destruct (String.eqb n k); reflexivity|].
  destruct (String.eqb_spec k' k) as [->|Hk]; simpl.
  - rewrite IH. destruct (String.eqb_spec n k); reflexivity.
  - rewrite IH. destruct (String.eqb_spec n k') as [->|]; [|reflexivity]. apply String.eqb_neq in Hk. rewrite Hk. reflexivity.
Qed.

(** A module searched by get_all_optimizers. *)
Definition searched (pkg : list (string * pmember)) (ms : list (string * member)) : Prop :=
  exists mn, In (mn, PModule ms) pkg /\ ~ In mn excluded.
(** The result lists a name exactly if a searched module has an optimizer of that name, other than "Optimizer";
    the class listed is one of those. *)
Theorem C56_all : forall pkg n,
  (forall c, dget (get_all_optimizers pkg) n = Some c -> n <> "Optimizer" /\ exists ms, searched pkg ms /\ provides ms n c) /\
  (n <> "Optimizer" -> (exists ms c, searched pkg ms /\ In (n, MClass c true) ms) -> exists c, dget (get_all_optimizers pkg) n = Some c).
Proof.
  intros pkg n. unfold get_all_optimizers. rewrite dpop_get.
  set (f := fun (d : dict nat) (m : string * pmember) => _).
  assert (G : forall d, (forall c, dget (fold_left f pkg d) n = Some c -> dget d n = Some c \/ exists ms, searched pkg ms /\ provides ms n c) /\
     ((exists ms c, searched pkg ms /\ In (n, MClass c true) ms) \/ (exists c, dget d n = Some c) -> exists c, dget (fold_left f pkg d) n = Some c)).
  { induction pkg as [|[mn pm] pkg IH]; intros d; cbn [fold_left].
    - split; [auto|]. intros [(ms & c & (mn & [] & _) & _)|H]; exact H.
    - destruct (IH (f d (mn, pm))) as [I1 I2].
      assert (M : forall ms, searched pkg ms -> searched ((mn, pm) :: pkg) ms) by (intros ms (k & H1 & H2); exists k; split; [right; exact H1|exact H2]).
      assert (Ef : f d (mn, pm) = match pm with PModule ms => if negb (smem mn excluded) then add_classes ms d else d | POther => d end) by reflexivity.
      rewrite Ef in *. clear Ef. destruct pm as [ms|].

      + destruct (smem mn excluded) eqn:Ex; cbn [negb] in *.
        * split.
          -- intros c H. destruct (I1 c H) as [H1|(ms' & H1 & H2)]; eauto.
          -- intros H. apply I2. destruct H as [(ms' & c & (k & [K1|K1] & K2) & K3)|H]; [inversion K1; subst; apply smem_In in Ex; contradiction| |auto].
             left. exists ms', c. split; [exists k; auto|exact K3].
        * assert (NE : ~ In mn excluded) by (intros C; apply smem_In in C; congruence).
          destruct (add_classes_cases ms d n) as [(c0 & P & E)|[N E]]; rewrite E in I1, I2.
          -- split.
             ++ intros c H. right. destruct (I1 c H) as [H1|(ms' & H1 & H2)]; [|eauto]. inversion H1; subst. exists ms. split; [exists mn; split; [left; reflexivity|exact NE]|exact P].
             ++ intros _. apply I2. eauto.
          -- split.
             ++ intros c H. destruct (I1 c H) as [H1|(ms' & H1 & H2)]; eauto.
             ++ intros H. apply I2. destruct H as [(ms' & c & (k & [K1|K1] & K2) & K3)|H]; [|left; exists ms', c; split; [exists k; auto|exact K3]|auto].
                inversion K1; subst. exfalso. apply (N c K3).
      + split.
        * intros c H. destruct (I1 c H) as [H1|(ms' & H1 & H2)]; eauto.
        * intros H. apply I2. destruct H as [(ms' & c & (k & [K1|K1] & K2) & K3)|H]; [discriminate| |auto]. left. exists ms', c. split; [exists k; auto|exact K3]. }
  destruct (G []) as [G1 G2]. destruct (String.eqb_spec n "Optimizer") as [->|Hn].
  - split; [discriminate|congruence].
  - split.
    + intros c H. split; [exact Hn|]. destruct (G1 c H) as [H1|H1]; [discriminate|exact H1].
    + intros _ H. apply G2. auto.
Qed.
(** Looking a class up: a class of that name from a searched module, or None if there is none or the name is that of
    the base class. *)
Theorem C56_by_class : forall pkg n,
  (forall c, get_optimizer_by_class pkg n = Some c -> exists ms, searched pkg ms /\ In (n, MClass c true) ms) /\
  (get_optimizer_by_class pkg n = None <-> n = "Optimizer" \/ forall ms c, searched pkg ms -> ~ In (n, MClass c true) ms).
Proof.
  intros pkg n. unfold get_optimizer_by_class. destruct (C56_all pkg n) as [H1 H2].
  assert (H3 : forall c, dget (get_all_optimizers pkg) n = Some c -> exists ms, searched pkg ms /\ In (n, MClass c true) ms).
  { intros c H. destruct (H1 c H) as (_ & ms & S & a & b & -> & _). exists (a ++ (n, MClass c true) :: b)%list. split; [exact S|]. apply in_or_app; right; left; reflexivity. }
  split; [exact H3|]. split.
  - intros E. destruct (string_dec n "Optimizer"); [auto|]. right. intros ms c S C.
    destruct H2 as (c' & E'); [exact n0|exists ms, c; auto|congruence].
  - intros D. destruct (dget (get_all_optimizers pkg) n) as [c|] eqn:E; [|reflexivity]. destruct (H1 c eq_refl) as [N _].
    destruct D as [D|D]; [contradiction|]. destruct (H3 c eq_refl) as (ms & S & C). exfalso. apply (D ms c S C).
Qed.

(** Looking a module up: its optimizer classes, the base class included unless verbose. *)
Theorem C56_by_name : forall pkg name ms, In (name, PModule ms) pkg -> NoDup (map fst pkg) -> ~ In name excluded ->
  exists d, get_optimizer_by_name pkg name false = Ok (Some d) /\
    (forall n c, provides ms n c -> dget d n = Some c) /\ (forall n, (forall c, ~ In (n, MClass c true) ms) -> dget d n = None) /\
    (forall c, provides ms "Optimizer" c -> exists d', get_optimizer_by_name pkg name true = Ok (Some d') /\
       forall n, dget d' n = if String.eqb n "Optimizer" then None else dget d n) /\
    ((forall c, ~ In ("Optimizer", MClass c true) ms) -> get_optimizer_by_name pkg name true = Err KeyError).
Proof.
  intros pkg name ms HI ND NE. unfold get_optimizer_by_name. set (f := fun acc m => _).
  assert (Skip : forall l acc, ~ In name (map fst l) -> fold_left f l acc = acc).
  { induction l as [|[k m] l IH]; intros acc H; [reflexivity|]. cbn [fold_left]. rewrite IH by (intros C; apply H; right; exact C).
    unfold f. cbn [snd fst]. destruct m; [|reflexivity]. destruct (String.eqb_spec k name) as [->|]; [exfalso; apply H; left; reflexivity|reflexivity]. }
  assert (F : fold_left f pkg ([], false) = (add_classes ms [], true)).
  { apply in_split in HI as (a & b & ->). rewrite map_app in ND. cbn [map fst] in ND. apply NoDup_remove_2 in ND.
    rewrite fold_left_app. rewrite (Skip a) by (intros C; apply ND, in_or_app; auto). cbn [fold_left]. rewrite Skip by (intros C; apply ND, in_or_app; auto).
    unfold f. cbn [snd fst]. rewrite String.eqb_refl. assert (E : smem name excluded = false) by (destruct (smem name excluded) eqn:Q; [apply smem_In in Q; contradiction|reflexivity]).
    rewrite E. reflexivity. }
  rewrite F. cbn [negb]. exists (add_classes ms []). split; [reflexivity|].
  split; [intros n c P; apply add_classes_get; exact P|].
  split; [intros n N; apply (add_classes_get ms [] n); exact N|]. split.
  - intros c P. assert (E : dget (add_classes ms []) "Optimizer" = Some c) by (apply add_classes_get; exact P). rewrite E.
    eexists. split; [reflexivity|]. intros n. apply dpop_get.
  - intros N. assert (E : dget (add_classes ms []) "Optimizer" = None) by (apply (add_classes_get ms [] "Optimizer"); exact N). rewrite E. reflexivity.
Qed.
(** An unknown module: an empty dictionary, or None when verbose. *)
Theorem C56_unknown : forall pkg name, (forall ms, ~ In (name, PModule ms) pkg) ->
  get_optimizer_by_name pkg name false = Ok (Some []) /\ get_optimizer_by_name pkg name true = Ok None.
Proof.
  intros pkg name H. unfold get_optimizer_by_name. set (f := fun acc m => _).
  assert (F : fold_left f pkg ([], false) = ([], false)).
  { induction pkg as [|[k m] pkg IH]; [reflexivity|]. cbn [fold_left]. unfold f at 2. cbn [snd fst].
    destruct m; [destruct (String.eqb_spec k name) as [->|]; [exfalso; apply (H ms); left; reflexivity|]|]; simpl; apply IH; intros ms' C; apply (H ms'); right; exact C. }
  rewrite F. split; reflexivity.
Qed.
Definition demo_pkg : list (string * pmember) :=
  [("GA", PModule [("BaseGA", MClass 1 true); ("Optimizer", MClass 0 true); ("np", MOther)]);
   ("PSO", PModule [("C_PSO", MClass 2 true); ("Optimizer", MClass 0 true); ("OriginalPSO", MClass 3 true)]); ("sys", PModule [])].
Example C56_case : get_optimizer_by_class demo_pkg "C_PSO" = Some 2 /\ get_optimizer_by_class demo_pkg "Optimizer" = None /\
  NoDup (map fst demo_pkg) /\ provides [("BaseGA", MClass 1 true); ("Optimizer", MClass 0 true); ("np", MOther)] "Optimizer" 0.
Proof.
  split; [reflexivity|]. split; [reflexivity|]. split; [repeat constructor; simpl; intuition discriminate|].
  exists [("BaseGA", MClass 1 true)], [("np", MOther)]. split; [reflexivity|]. intros c [C|[]]; discriminate.
Qed.

(** * C57 *)
(** The handlers of a name after any number of create_logger calls on it, on a name that uses no other handlers: just
    the one made by the first call; the level is that of the last call; every file named was opened. *)
Theorem C57_first_handler : forall parents name calls t g, parents name = [] -> handlers_of g name = [] ->
  let g' := fold_left (fun g t => create_logger parents t name g) (t :: calls) g in
  handlers_of g' name = [new_handler t] /\
  dget (lg_level g') name = Some (match last (t :: calls) t with LConsole => INFO | LFile _ => DEBUG | LNone => ERROR end) /\
  (forall u f, In u (t :: calls) -> new_handler u = HFile f -> In f (lg_opened g')).
Proof.
  intros parents name calls t g HP HG. cbv zeta. induction calls as [|u calls IH] using rev_ind.
  - cbn [fold_left last]. unfold create_logger, has_handlers, handlers_of. rewrite HP. cbn [existsb lg_handlers lg_level lg_opened].
    unfold handlers_of in HG. rewrite HG. cbn [orb]. rewrite !dset_get, String.eqb_refl. split; [reflexivity|]. split; [reflexivity|].
    intros u f [<-|[]] E. rewrite E. apply in_or_app; right; left; reflexivity.
  - change (t :: calls ++ [u])%list with ((t :: calls) ++ [u])%list. rewrite fold_left_app. cbn [fold_left]. cbn [fold_left] in IH.
    destruct IH as (I1 & I2 & I3). set (g1 := fold_left (fun g t => create_logger parents t name g) calls (create_logger parents t name g)) in *.
    rewrite last_last. unfold create_logger at 1 2 3, has_handlers. cbn [existsb]. rewrite I1. cbn [orb lg_handlers lg_level lg_opened].
    split; [exact I1|]. split; [rewrite dset_get, String.eqb_refl; reflexivity|].
    intros v f Hv E. apply in_app_or in Hv as [Hv|[<-|[]]].
    + specialize (I3 v f Hv E). destruct (new_handler u); [exact I3|apply in_or_app; auto].
    + rewrite E. apply in_or_app; right; left; reflexivity.
Qed.
(** So a log file asked for by a later call gets nothing, although it is opened. *)
Theorem C57_second_file_refuted : exists parents, let g := create_logger parents (LFile (Some "b.log")) "P" (create_logger parents LConsole "P" (mkLogging [] [] [])) in
  ~ In (HFile "b.log") (handlers_of g "P") /\ In "b.log" (lg_opened g).
Proof. exists (fun _ => []). simpl. split; [intros [C|[]]; discriminate|auto]. Qed.
(** With a handler on a parent (the root logger), no handler is ever added. *)
Theorem C57_parent_handler : forall parents name t g p, In p (parents name) -> handlers_of g p <> [] ->
  handlers_of (create_logger parents t name g) name = handlers_of g name.
Proof.
  intros parents name t g p HP HG. unfold create_logger, handlers_of at 1. cbn [lg_handlers].
  assert (E : has_handlers parents g name = true).
  { unfold has_handlers. apply existsb_exists. exists p. split; [right; exact HP|]. destruct (handlers_of g p); congruence. }
  rewrite E. reflexivity.
Qed.

(** * C58 *)
Lemma zins_In x l y : In y (zins x l) <-> y = x \/ In y l.
Proof.
  induction l as [|z l IH]; simpl; [intuition|]. destruct (Z.ltb_spec x z); [simpl; intuition|]. destruct (Z.eqb_spec x z); [subst; simpl; intuition|].
  simpl. rewrite IH. intuition.
Qed.
Lemma sorted_set_In l y : In y (sorted_set l) <-> In y l.
Proof. unfold sorted_set. induction l as [|x l IH]; simpl; [tauto|]. rewrite zins_In, IH. intuition. Qed.
Lemma zins_sorted x l : StronglySorted Z.lt l -> StronglySorted Z.lt (zins x l).
Proof.
  induction l as [|y l IH]; simpl; intros H; [repeat constructor|]. inversion H as [|? ? S F]; subst.
  destruct (Z.ltb_spec x y). { constructor; [exact H|]. constructor; [exact H0|]. eapply Forall_impl; [|exact F]. intros; lia. }
  destruct (Z.eqb_spec x y); [exact H|]. constructor; [apply IH; exact S|]. apply Forall_forall. intros z Hz. apply zins_In in Hz as [->|Hz]; [lia|].
  rewrite Forall_forall in F. apply F, Hz.
Qed.
Lemma sorted_set_sorted l : StronglySorted Z.lt (sorted_set l).
Proof. unfold sorted_set. induction l as [|x l IH]; simpl; [constructor|]. apply zins_sorted, IH. Qed.
(** How many different numbers a list has. *)
Definition distinct (l : list Z) : nat := List.length (nodup Z.eq_dec l).
Lemma sorted_set_distinct l : List.length (sorted_set l) = distinct l.
Proof.
  unfold distinct. assert (N1 : NoDup (sorted_set l)).
  { assert (S := sorted_set_sorted l). induction S as [|x m S IH F]; constructor; auto. intros C. rewrite Forall_forall in F. specialize (F x C). lia. }
  apply Nat.le_antisymm; apply NoDup_incl_length; auto; try apply NoDup_nodup.
  - intros x Hx. apply nodup_In, sorted_set_In, Hx.
  - intros x Hx. apply sorted_set_In. apply nodup_In in Hx. exact Hx.
Qed.
Lemma sorted_ends m : StronglySorted Z.lt m -> m <> [] -> exists lo hi, getitem m 0 = Ok lo /\ last_item m = Ok hi /\ In lo m /\ In hi m /\
  forall x, In x m -> (lo <= x <= hi)%Z.
Proof.
  intros S NE. destruct m as [|lo m]; [congruence|]. exists lo.
  destruct (last_item_nonempty (lo :: m) NE) as (hi & l' & E1 & E2). exists hi. split; [reflexivity|]. split; [exact E2|]. split; [left; reflexivity|].
  split; [rewrite E1; apply in_or_app; right; left; reflexivity|]. intros x Hx. split.
  - inversion S as [|? ? _ F]; subst. destruct Hx as [->|Hx]; [lia|]. rewrite Forall_forall in F. specialize (F x Hx). lia.
  - rewrite E1 in S, Hx. clear -S Hx. induction l' as [|y l' IH]; simpl in *; [destruct Hx as [->|[]]; lia|].
    inversion S as [|? ? S' F]; subst. destruct Hx as [->|Hx]; [|auto]. rewrite Forall_forall in F. specialize (F hi ltac:(apply in_or_app; right; left; reflexivity)). lia.
Qed.

(** Saved generations that all have [n] agents of [d] dimensions. *)
Definition rect (n d : nat) (pops : list (list vec)) : Prop :=
  Forall (fun pop => List.length pop = n /\ Forall (fun x : vec => List.length x = d) pop) pops.
Record chart_ok (n d : nat) (pops : list (list vec)) (agents dims : list Z) : Prop := {
  ch_gens : 2 <= List.length pops;
  ch_dims : distinct dims = 1%nat \/ distinct dims = 2%nat;
  ch_agents : 1 <= distinct agents <= 10;
  ch_agent_range : forall a, In a agents -> (1 <= a <= Z.of_nat n)%Z;
  ch_dim_range : forall k, In k dims -> (1 <= k <= Z.of_nat d)%Z }.
Lemma series_ok n d pops a k : rect n d pops -> (1 <= a <= Z.of_nat n)%Z -> (1 <= k <= Z.of_nat d)%Z ->
  exists xs, series pops a k = Ok xs /\ List.length xs = List.length pops /\
    forall g pop, nth_error pops g = Some pop -> exists x v, nth_error pop (Z.to_nat (a - 1)) = Some x /\ nth_error x (Z.to_nat (k - 1)) = Some v /\ nth_error xs g = Some v.
Proof.
  intros HR Ha Hk. unfold series. induction pops as [|pop pops IH].
  - exists []. split; [reflexivity|]. split; [reflexivity|]. intros [|g] p E; discriminate.
  - inversion HR as [|? ? [H1 H2] H3]; subst. destruct (IH H3) as (xs & E1 & E2 & E3).
    destruct (getitem_lt pop (Z.to_nat (a - 1)) ltac:(lia)) as (x & G1 & N1 & I1). rewrite Forall_forall in H2. specialize (H2 x I1).
    destruct (getitem_lt x (Z.to_nat (k - 1)) ltac:(unfold vec in *; lia)) as (v & G2 & N2 & _).
    exists (v :: xs). unfold vec in *. cbn [map_res]. rewrite G1. cbn [bind]. unfold vec in *. rewrite G2. cbn [bind]. rewrite E1. split; [reflexivity|]. split; [simpl; rewrite E2; reflexivity|].
    intros [|g] p E; simpl in E; [inversion E; subst; exists x, v; auto|]. apply E3, E.
Qed.

(** Accepted exactly when every index exists (and the counts are supported); then agent a, dimension k shows the
    value of that dimension of that agent in every saved generation. *)
Theorem C58_trajectory : forall n d pops agents dims, rect n d pops -> 1 <= n ->
  (chart_ok n d pops agents dims ->
    exists r, trajectory pops agents dims = Ok r /\ map fst r = sorted_set agents /\
      forall a ss, In (a, ss) r -> map fst ss = sorted_set dims /\
        forall k xs, In (k, xs) ss -> List.length xs = List.length pops /\
          forall g pop, nth_error pops g = Some pop -> exists x v, nth_error pop (Z.to_nat (a - 1)) = Some x /\ nth_error x (Z.to_nat (k - 1)) = Some v /\ nth_error xs g = Some v) /\
  (~ chart_ok n d pops agents dims -> trajectory pops agents dims = Err ValueError).
Proof.
  intros n d pops agents dims HR Hn.
  assert (LA := sorted_set_distinct agents). assert (LD := sorted_set_distinct dims).
  assert (MR : forall {U V} (f : U -> res V) l, (forall x, In x l -> exists y, f x = Ok y) -> exists ys, map_res f l = Ok ys).
  { intros U V f l H. induction l as [|x l IH]; [exists []; reflexivity|]. destruct (H x (or_introl eq_refl)) as (y & E). destruct IH as (ys & E2); [intros z Hz; apply H; right; exact Hz|].
    exists (y :: ys). cbn [map_res]. rewrite E. cbn [bind]. rewrite E2. reflexivity. }
  assert (Main : forall first second rest, pops = first :: second :: rest -> distinct dims = 1%nat \/ distinct dims = 2%nat -> 1 <= distinct agents <= 10 ->
     exists x0 alo ahi dlo dhi, getitem first 0 = Ok x0 /\ List.length x0 = d /\ List.length first = n /\
       getitem (sorted_set agents) 0 = Ok alo /\ last_item (sorted_set agents) = Ok ahi /\ In alo agents /\ In ahi agents /\ (forall x, In x agents -> (alo <= x <= ahi)%Z) /\
       getitem (sorted_set dims) 0 = Ok dlo /\ last_item (sorted_set dims) = Ok dhi /\ In dlo dims /\ In dhi dims /\ (forall x, In x dims -> (dlo <= x <= dhi)%Z)).
  { intros first second rest -> HD HA. inversion HR as [|? ? [H1 H2] _]; subst n.
    destruct (getitem_lt first 0 Hn) as (x0 & G0 & _ & I0). rewrite Forall_forall in H2. specialize (H2 x0 I0).
    destruct (sorted_ends (sorted_set agents) (sorted_set_sorted _)) as (alo & ahi & A1 & A2 & A3 & A4 & A5); [intros C; rewrite C in LA; simpl in LA; lia|].
    destruct (sorted_ends (sorted_set dims) (sorted_set_sorted _)) as (dlo & dhi & D1 & D2 & D3 & D4 & D5); [intros C; rewrite C in LD; simpl in LD; lia|].
    exists x0, alo, ahi, dlo, dhi. rewrite sorted_set_In in A3, A4, D3, D4. assert (A6 : forall x, In x agents -> (alo <= x <= ahi)%Z) by (intros y Hy; apply A5, sorted_set_In, Hy). assert (D6 : forall x, In x dims -> (dlo <= x <= dhi)%Z) by (intros y Hy; apply D5, sorted_set_In, Hy). tauto. }
  unfold trajectory. destruct pops as [|first [|second rest]] eqn:EP.
  { split; [intros [G _ _ _ _]; simpl in G; lia|reflexivity]. }
  { split; [intros [G _ _ _ _]; simpl in G; lia|reflexivity]. }
  rewrite <- EP in *. rewrite LD, LA.
  destruct (Nat.eqb_spec (distinct dims) 1) as [D1|D1]; [|destruct (Nat.eqb_spec (distinct dims) 2) as [D2|D2]]; cbn [orb negb].
  3: { split; [intros [_ G _ _ _]; lia|reflexivity]. }
  all: destruct (Nat.ltb_spec (distinct agents) 1); cbn [orb]; [split; [intros [_ _ G _ _]; lia|reflexivity]|];
       destruct (Nat.ltb_spec 10 (distinct agents)); [split; [intros [_ _ G _ _]; lia|reflexivity]|];
       destruct (Main first second rest EP ltac:(auto) ltac:(lia)) as (x0 & alo & ahi & dlo & dhi & G0 & L0 & LF & A1 & A2 & A3 & A4 & A5 & E1 & E2 & E3 & E4 & E5);
       rewrite A2; cbn [bind]; rewrite A1; cbn [bind]; rewrite LF;
       (destruct (Z.ltb_spec (Z.of_nat n) ahi); cbn [orb]; [split; [intros [_ _ _ G _]; specialize (G ahi A4); lia|reflexivity]|]);
       (destruct (Z.ltb_spec alo 1); [split; [intros [_ _ _ G _]; specialize (G alo A3); lia|reflexivity]|]);
       rewrite E2; cbn [bind]; rewrite G0; cbn [bind]; rewrite E1; cbn [bind]; rewrite L0;
       (destruct (Z.ltb_spec (Z.of_nat d) dhi); cbn [orb]; [split; [intros [_ _ _ _ G]; specialize (G dhi E4); lia|reflexivity]|]);
       (destruct (Z.ltb_spec dlo 1); [split; [intros [_ _ _ _ G]; specialize (G dlo E3); lia|reflexivity]|]);
       (split; [intros _|intros C; exfalso; apply C; constructor;
          [rewrite EP; simpl; lia|auto|lia|intros a Ha; specialize (A5 a Ha); lia|intros k Hk; specialize (E5 k Hk); lia]]).
  all: set (f := fun a => let* ss := map_res (fun k => let* x := series pops a k in Ok (k, x)) (sorted_set dims) in Ok (a, ss)).
  all: assert (SOK : forall a, In a (sorted_set agents) -> forall k, In k (sorted_set dims) -> (1 <= a <= Z.of_nat n)%Z /\ (1 <= k <= Z.of_nat d)%Z)
    by (intros a Ha k Hk; rewrite sorted_set_In in Ha, Hk; specialize (A5 a Ha); specialize (E5 k Hk); lia).
  all: assert (FOK : forall a, In a (sorted_set agents) -> exists y, f a = Ok y)
    by (intros a Ha; unfold f; destruct (MR _ _ (fun k => let* x := series pops a k in Ok (k, x)) (sorted_set dims)) as (ss & Es);
        [intros k Hk; destruct (SOK a Ha k Hk) as [S1 S2]; destruct (series_ok n d pops a k HR S1 S2) as (xs & X1 & _); rewrite X1; eexists; reflexivity|rewrite Es; eexists; reflexivity]).
  all: destruct (MR _ _ f (sorted_set agents) FOK) as (r & Er); exists r; split; [exact Er|]; apply map_res_Forall2 in Er.
  all: split; [clear -Er; induction Er as [|a y l l' H F IH]; [reflexivity|]; simpl; rewrite IH; f_equal; unfold f in H; destruct (map_res _ (sorted_set dims)); [inversion H; reflexivity|discriminate]|].
  all: intros a ss Hin.
  all: assert (Q : In a (sorted_set agents) /\ f a = Ok (a, ss))
    by (clear -Er Hin; induction Er as [|b y l l' H F IH]; [destruct Hin|]; destruct Hin as [->|Hin];
        [assert (b = a) by (unfold f in H; destruct (map_res _ (sorted_set dims)); [inversion H; reflexivity|discriminate]); subst b; split; [left; reflexivity|exact H]
        |destruct (IH Hin) as [I1 I2]; split; [right; exact I1|exact I2]]).
  all: destruct Q as [Qa Qf]; unfold f in Qf; destruct (map_res (fun k => let* x := series pops a k in Ok (k, x)) (sorted_set dims)) as [ss'|] eqn:Es; [|discriminate];
       inversion Qf; subst ss'; apply map_res_Forall2 in Es.
  all: split; [clear -Es; induction Es as [|k y l l' H F IH]; [reflexivity|]; simpl; rewrite IH; f_equal; destruct (series pops a k); [inversion H; reflexivity|discriminate]|].
  all: intros k xs Hk.
  all: assert (Q : In k (sorted_set dims) /\ series pops a k = Ok xs)
    by (clear -Es Hk; induction Es as [|b y l l' H F IH]; [destruct Hk|]; destruct Hk as [->|Hk];
        [destruct (series pops a b) eqn:Eb; [|discriminate]; inversion H; subst; split; [left; reflexivity|exact Eb]
        |destruct (IH Hk) as [I1 I2]; split; [right; exact I1|exact I2]]).
  all: destruct Q as [Qk Qs]; destruct (SOK a Qa k Qk) as [S1 S2]; destruct (series_ok n d pops a k HR S1 S2) as (xs' & X1 & X2 & X3);
       rewrite Qs in X1; inversion X1; subst xs'; split; [exact X2|exact X3].
Qed.
(** If a later generation has fewer agents, indices valid for the first one still fail. *)
Theorem C58_shrinking_refuted : exists pops, trajectory pops [2%Z] [1%Z] = Err IndexError /\ List.length (hd [] pops) = 2.
Proof. exists [[[fZ 1]; [fZ 2]]; [[fZ 1]]]. split; reflexivity. Qed.
Example C58_case : rect 2 2 [[[fZ 1; fZ 2]; [fZ 3; fZ 4]]; [[fZ 5; fZ 6]; [fZ 7; fZ 8]]] /\
  chart_ok 2 2 [[[fZ 1; fZ 2]; [fZ 3; fZ 4]]; [[fZ 5; fZ 6]; [fZ 7; fZ 8]]] [2; 1; 2]%Z [1]%Z.
Proof.
  split; [repeat constructor|]. constructor; simpl; try lia; try (intros a H; intuition lia).
  - left; reflexivity.
  - unfold distinct. simpl. lia.
Qed.

(** * C59 *)
Theorem C59_same_file : forall M (fs : dict M) m p, load_model (save_model fs m p) p = Some m.
Proof. intros M fs m p. unfold load_model, save_model. rewrite dset_get. change (load_path p) with (save_path p). rewrite String.eqb_refl. reflexivity. Qed.
Theorem C59_other_files : forall M (fs : dict M) m p q, save_path p <> save_path q -> load_model (save_model fs m p) q = load_model fs q.
Proof. intros M fs m p q H. unfold load_model, save_model. rewrite dset_get. change (load_path q) with (save_path q). apply not_eq_sym, String.eqb_neq in H. rewrite H. reflexivity. Qed.
Lemma substring_app s t : substring (String.length s) (String.length t) (s ++ t) = t.
Proof. induction s as [|c s IH]; simpl; [|exact IH]. induction t as [|c t IH]; simpl; [reflexivity|rewrite IH; reflexivity]. Qed.
Lemma last4_pkl s : last4 (s ++ ".pkl") = ".pkl".
Proof.
  unfold last4. replace (String.length (s ++ ".pkl") - 4)%nat with (String.length s); [apply (substring_app s ".pkl")|].
  assert (L : String.length (s ++ ".pkl") = (String.length s + 4)%nat) by (induction s as [|c s IH]; simpl; [reflexivity|rewrite IH; reflexivity]). lia.
Qed.
(** Giving the extension or leaving it out names the same file; the name always ends in ".pkl". *)
Theorem C59_extension : forall s, last4 (save_path (Some s)) = ".pkl" /\ save_path (Some (save_path (Some s))) = save_path (Some s) /\
  (last4 s <> ".pkl" -> save_path (Some s) = save_path (Some (s ++ ".pkl"))).
Proof.
  intros s. assert (L : last4 (save_path (Some s)) = ".pkl").
  { cbn [save_path]. destruct (String.eqb_spec (last4 s) ".pkl") as [E|]; cbn [negb]; [exact E|apply last4_pkl]. }
  split; [exact L|]. split.
  - remember (save_path (Some s)) as t. cbn [save_path]. rewrite L, String.eqb_refl. reflexivity.
  - intros H. cbn [save_path]. rewrite last4_pkl, String.eqb_refl. apply String.eqb_neq in H. rewrite H. reflexivity.
Qed.
Example C59_case : save_path (Some "results/m") = "results/m.pkl" /\ save_path (Some "m.pkl") = "m.pkl" /\ save_path None = "model.pkl" /\ save_path (Some "") = ".pkl".
Proof. repeat split. Qed.

Print Assumptions C55_metadata.
Print Assumptions C56_all.
Print Assumptions C56_by_class.
Print Assumptions C56_by_name.
Print Assumptions C56_unknown.
Print Assumptions C57_first_handler.
Print Assumptions C57_second_file_refuted.
Print Assumptions C57_parent_handler.
Print Assumptions C58_trajectory.
Print Assumptions C58_shrinking_refuted.
Print Assumptions C59_same_file.
Print Assumptions C59_other_files.
Print Assumptions C59_extension.
