(** C51, C52: what the history keeps when agents, positions and targets are shared objects. *)
From Verif Require Import Prelude Fl MCore MHeap PHeap SpecCore SpecRun PSelect PLogic PSolve PRun PAny PPart Demo.

(** ** Statements about algorithms *)
(** Every agent of the population is an existing object. *)
Definition pop_exists {A X} (s : hst A X) : Prop := Forall (fun l => l < List.length (hp s)) (po s).
(** The code sets fields only of agents of its population or of agents it created, and refills the population from
    these. *)
Definition own_agents {A X} (p : prog A X unit) : Prop :=
  forall s, pop_exists s -> within (mine s) any (mine s) p s.
(** The code sets fields only of agents it created. *)
Definition new_agents_only {A X} (p : prog A X unit) : Prop :=
  forall s, pop_exists s -> within (newer s) any any p s.
(** As above, and arrays that existed before are not written in place. *)
Definition own_agents_new_arrays {A X} (p : prog A X unit) : Prop :=
  forall s, pop_exists s -> within (mine s) (newer s) (mine s) p s.
Definition new_agents_new_arrays {A X} (p : prog A X unit) : Prop :=
  forall s, pop_exists s -> within (newer s) (newer s) any p s.

Section Records.
Context {A X : Type}.
Variable argsort : list f64 -> list nat.
Variable mm : minmax.
Notation hst := (hst A X).
Notation h_after_init := (h_after_init (A:=A) (X:=X) argsort mm).
Notation h_epoch := (h_epoch (A:=A) (X:=X) argsort mm).
Notation h_epochs := (h_epochs (A:=A) (X:=X) argsort mm).

Definition snaps (s : hst) : list nat := lgb s ++ lgw s ++ List.concat (lpo s).
Definition records (s : hst) : list nat := lgb s ++ lcb s ++ lgw s ++ lcw s ++ List.concat (lpo s).

Definition later (s s' : hst) : Prop :=
  (exists a, lgb s' = lgb s ++ a) /\ (exists a, lcb s' = lcb s ++ a) /\ (exists a, lgw s' = lgw s ++ a) /\
  (exists a, lcw s' = lcw s ++ a) /\ (exists a, lpo s' = lpo s ++ a).
Lemma later_refl s : later s s.
Proof. repeat split; exists []; rewrite app_nil_r; reflexivity. Qed.
Lemma later_trans s1 s2 s3 : later s1 s2 -> later s2 s3 -> later s1 s3.
Proof.
  intros ((a1 & H1) & (a2 & H2) & (a3 & H3) & (a4 & H4) & (a5 & H5)) ((b1 & K1) & (b2 & K2) & (b3 & K3) & (b4 & K4) & (b5 & K5)).
  unfold later. rewrite K1, K2, K3, K4, K5, H1, H2, H3, H4, H5. repeat split; eexists; rewrite <- app_assoc; reflexivity.
Qed.
Lemma later_lists s s' : lists s' = lists s -> later s s'.
Proof. unfold lists, later. intros H. injection H as -> -> -> -> ->. repeat split; exists []; rewrite app_nil_r; reflexivity. Qed.

(** [rec s]: the references kept; [fr s l]: l cannot be reached for writing. *)
Definition tracked (rec : hst -> list nat) (fr : hst -> nat -> Prop) (s : hst) : Prop :=
  Forall (fun l => whole (hp s) l /\ fr s l) (rec s) /\ pop_exists s.
Definition same (ar : bool) (s s' : hst) (l : nat) : Prop :=
  (forall v, shown (hp s) l = Ok v -> shown (hp s') l = Ok v) /\
  (ar = true -> forall v, deep (hp s) l = Ok v -> deep (hp s') l = Ok v).
Lemma same_trans ar s1 s2 s3 l : same ar s1 s2 l -> same ar s2 s3 l -> same ar s1 s3 l.
Proof. intros [H1 H2] [K1 K2]. split; auto. Qed.
Lemma same_app ar (s : hst) s' m l : hp s' = hp s ++ m -> same ar s s' l.
Proof.
  intros E. split; intros; rewrite E.
  - eapply (shown_keeps (fun _ => False) (fun _ => False)); [apply keeps_app|tauto|assumption].
  - eapply (deep_keeps (fun _ => False) (fun _ => False)); [apply keeps_app|tauto|tauto|assumption].
Qed.
Lemma same_whole ar (s s' : hst) l : same ar s s' l -> whole (hp s) l -> whole (hp s') l.
Proof. intros [H _] [v Hv]. exists v. auto. Qed.
(** Arrays writable in place: any, or only new ones. *)
Definition writable (ar : bool) (s : hst) : nat -> Prop := if ar then newer s else any.

Lemma kept wr ar (s s' : hst) l : keeps wr (writable ar s) (hp s) (hp s') -> ~ wr l -> same ar s s' l.
Proof.
  intros K N. split; [intros; eapply shown_keeps; eauto|]. intros ->. intros v Hv. eapply deep_keeps; eauto.
  intros x Hx Hn. unfold writable, newer in Hn. lia.
Qed.

(** *** Agents recorded as copies *)
Definition apart (s : hst) (l : nat) : Prop := ~ In l (po s).
Lemma own_step ar (p : prog A X unit) s s' : tracked snaps apart s -> within (mine s) (writable ar s) (mine s) p s ->
  run p s = Ok (tt, s') -> tracked snaps apart s' /\ later s s' /\ forall l, In l (snaps s) -> same ar s s' l.
Proof.
  intros [Ht Hp] W R. destruct (run_keeps _ _ _ _ _ _ _ W R) as (K & L & Q).
  assert (S : forall l, In l (snaps s) -> same ar s s' l).
  { intros l Hl. eapply kept; [exact K|]. rewrite Forall_forall in Ht. destruct (Ht l Hl) as [Hw Ha].
    apply whole_lt in Hw. unfold mine, newer. intros [H|H]; [exact (Ha H)|lia]. }
  assert (Q' : Forall (fun l => mine s l /\ l < List.length (hp s')) (po s')).
  { apply Q. apply Forall_forall. intros l Hl. unfold pop_exists in Hp. rewrite Forall_forall in Hp. split; [left; exact Hl|auto]. }
  split; [split|split; [apply later_lists; exact L|exact S]].
  - replace (snaps s') with (snaps s) by (unfold lists in L; injection L as E1 E2 E3 E4 E5; unfold snaps; congruence).
    apply Forall_forall. intros l Hl. pose proof (S l Hl) as Sl. rewrite Forall_forall in Ht. destruct (Ht l Hl) as [Hw Ha].
    split; [eapply same_whole; eauto|]. intros Hin. rewrite Forall_forall in Q'. destruct (Q' l Hin) as [[M|M] _]; [exact (Ha M)|].
    apply whole_lt in Hw. unfold newer in M. lia.
  - eapply Forall_impl; [|exact Q']. intros l [_ H]; exact H.
Qed.

Lemma in_concat_app {T} (x : T) a b : In x (List.concat (a ++ b)) <-> In x (List.concat a) \/ In x (List.concat b).
Proof. rewrite concat_app, in_app_iff. reflexivity. Qed.

Lemma own_epoch ar sort save evolve ep s s' : tracked snaps apart s ->
  (forall s, pop_exists s -> within (mine s) (writable ar s) (mine s) (evolve ep) s) ->
  h_epoch sort save evolve ep s = Ok (tt, s') ->
  tracked snaps apart s' /\ later s s' /\ forall l, In l (snaps s) -> same ar s s' l.
Proof.
  intros T W H. destruct (epoch_inv _ _ _ _ _ _ _ _ H) as (s1 & sp & be & s2 & m & R & U & Hh & Hg & Hpo & E1 & E2 & E3 & E4 & ds & E5 & Fd).
  destruct (own_step ar _ _ _ T (W s (proj2 T)) R) as ([T1 P1] & L1 & S1).
  destruct (update_inv _ _ _ _ _ _ U) as (m2 & wo & cb & cw & gb & gw & Hs2 & Fs & Fw & Icb & Icw & Hgb & Hgw & Hbe & Hwo).
  destruct Hbe as (z & x & t & b & _ & Lb & _ & Sb). destruct Hwo as (z' & x' & t' & b' & _ & Lw & _ & Sw).
  assert (Eh : hp s' = hp s1 ++ (m2 ++ m)) by (rewrite Hh, Hs2; cbn; rewrite <- app_assoc; reflexivity).
  assert (Eh2 : hp s2 = hp s1 ++ m2) by (rewrite Hs2; reflexivity).
  assert (Ipo : forall l, In l (po s') -> In l (po s1)).
  { intros l. rewrite Hpo. destruct sort; [rewrite Forall_forall in Fs; apply Fs|]. rewrite Hs2; cbn; auto. }
  assert (Lt : forall l, In l (po s') -> l < List.length (hp s1)).
  { intros l Hl. unfold pop_exists in P1. rewrite Forall_forall in P1. auto. }
  split; [split|split].
  - apply Forall_forall. intros l. unfold snaps. rewrite !in_app_iff, E1, E3, E5, in_concat_app, Hs2. cbn. rewrite !in_app_iff. cbn.
    intros Hl. assert (C : In l (snaps s1) \/ (whole (hp s') l /\ List.length (hp s1) <= l)).
    { unfold snaps. rewrite !in_app_iff. assert (Gb : whole (hp s') be) by (rewrite Hh; apply whole_app; eexists; exact Sb).
      assert (Gw : whole (hp s') wo) by (rewrite Hh; apply whole_app; eexists; exact Sw).
      destruct Hl as [[H1|[<-|[]]]|[[H1|[<-|[]]]|[H1|H1]]]; auto.
      right. apply in_concat in H1. destruct H1 as (d & Hd & Hl). rewrite Forall_forall in Fd. specialize (Fd d Hd).
      rewrite Forall_forall in Fd. destruct (Fd l Hl) as [Hd1 Hd2]. split; [exact Hd2|]. rewrite Eh2, app_length in Hd1. lia. }
    destruct C as [C|[C1 C2]].
    + rewrite Forall_forall in T1. destruct (T1 l C) as [Cw Ca]. split; [rewrite Eh; apply whole_app; exact Cw|]. intros Hin. apply Ca. auto.
    + split; [exact C1|]. intros Hin. apply Lt in Hin. lia.
  - unfold pop_exists. apply Forall_forall. intros l Hl. apply Lt in Hl. rewrite Eh, app_length. lia.
  - eapply later_trans; [exact L1|]. unfold later. rewrite E1, E2, E3, E4, E5, Hs2. cbn. repeat split; eexists; reflexivity.
  - intros l Hl. eapply same_trans; [exact (S1 l Hl)|]. eapply same_app; exact Eh.
Qed.

Lemma own_epochs ar sort save evolve n : forall i s s', tracked snaps apart s ->
  (forall ep s, pop_exists s -> within (mine s) (writable ar s) (mine s) (evolve ep) s) ->
  h_epochs sort save evolve n i s = Ok (tt, s') ->
  tracked snaps apart s' /\ later s s' /\ forall l, In l (snaps s) -> same ar s s' l.
Proof.
  induction n as [|n IH]; intros i s s' T W H; cbn [MHeap.h_epochs] in H.
  - unfold hput in H. injection H as <-. split; [exact T|]. split; [apply later_refl|]. intros; split; auto.
  - apply hbind_inv in H. destruct H as ([] & s1 & H1 & H).
    destruct (own_epoch ar _ _ _ _ _ _ T (W i) H1) as (T1 & L1 & S1).
    destruct (IH _ _ _ T1 W H) as (T2 & L2 & S2). split; [exact T2|]. split; [eapply later_trans; eauto|].
    intros l Hl. eapply same_trans; [exact (S1 l Hl)|]. apply S2. unfold snaps in *.
    destruct L1 as ((a1 & ->) & _ & (a3 & ->) & _ & (a5 & ->)). rewrite !in_app_iff in *. rewrite in_concat_app. tauto.
Qed.

(** *** All records, when only new agents are changed *)
Definition free (s : hst) (l : nat) : Prop := True.
Lemma new_step ar (p : prog A X unit) s s' : tracked records free s -> within (newer s) (writable ar s) any p s ->
  run p s = Ok (tt, s') -> tracked records free s' /\ later s s' /\ forall l, In l (records s) -> same ar s s' l.
Proof.
  intros [Ht Hp] W R. destruct (run_keeps _ _ _ _ _ _ _ W R) as (K & L & Q).
  assert (S : forall l, In l (records s) -> same ar s s' l).
  { intros l Hl. eapply kept; [exact K|]. rewrite Forall_forall in Ht. destruct (Ht l Hl) as [Hw _].
    apply whole_lt in Hw. unfold newer. lia. }
  assert (Q' : Forall (fun l => any l /\ l < List.length (hp s')) (po s')).
  { apply Q. eapply Forall_impl; [|exact Hp]. intros l Hl. split; [exact I|exact Hl]. }
  split; [split|split; [apply later_lists; exact L|exact S]].
  - replace (records s') with (records s) by (unfold lists in L; injection L as E1 E2 E3 E4 E5; unfold records; congruence).
    apply Forall_forall. intros l Hl. split; [|exact I]. rewrite Forall_forall in Ht. destruct (Ht l Hl) as [Hw _].
    eapply same_whole; [apply S; exact Hl|exact Hw].
  - eapply Forall_impl; [|exact Q']. intros l [_ H]; exact H.
Qed.

Lemma new_epoch ar sort save evolve ep s s' : tracked records free s ->
  (forall s, pop_exists s -> within (newer s) (writable ar s) any (evolve ep) s) ->
  h_epoch sort save evolve ep s = Ok (tt, s') ->
  tracked records free s' /\ later s s' /\ forall l, In l (records s) -> same ar s s' l.
Proof.
  intros T W H. destruct (epoch_inv _ _ _ _ _ _ _ _ H) as (s1 & sp & be & s2 & m & R & U & Hh & Hg & Hpo & E1 & E2 & E3 & E4 & ds & E5 & Fd).
  destruct (new_step ar _ _ _ T (W s (proj2 T)) R) as ([T1 P1] & L1 & S1).
  destruct (update_inv _ _ _ _ _ _ U) as (m2 & wo & cb & cw & gb & gw & Hs2 & Fs & Fw & Icb & Icw & Hgb & Hgw & Hbe & Hwo).
  destruct Hbe as (z & x & t & b & _ & Lb & _ & Sb). destruct Hwo as (z' & x' & t' & b' & _ & Lw & _ & Sw).
  assert (Eh : hp s' = hp s1 ++ (m2 ++ m)) by (rewrite Hh, Hs2; cbn; rewrite <- app_assoc; reflexivity).
  assert (Ipo : forall l, In l (po s') -> In l (po s1)).
  { intros l. rewrite Hpo. destruct sort; [rewrite Forall_forall in Fs; apply Fs|]. rewrite Hs2; cbn; auto. }
  split; [split|split].
  - apply Forall_forall. intros l. unfold records. rewrite !in_app_iff, E1, E2, E3, E4, E5, in_concat_app, Hs2. cbn. rewrite !in_app_iff. cbn.
    intros Hl. split; [|exact I]. assert (C : In l (records s1) \/ whole (hp s') l).
    { unfold records. rewrite !in_app_iff. assert (Gb : whole (hp s') be) by (rewrite Hh; apply whole_app; eexists; exact Sb).
      assert (Gw : whole (hp s') wo) by (rewrite Hh; apply whole_app; eexists; exact Sw).
      rewrite Forall_forall in Fw. assert (G1 : whole (hp s') cb) by (rewrite Eh; apply whole_app; auto).
      assert (G2 : whole (hp s') cw) by (rewrite Eh; apply whole_app; auto).
      destruct Hl as [[H1|[<-|[]]]|[[H1|[<-|[]]]|[[H1|[<-|[]]]|[[H1|[<-|[]]]|[H1|H1]]]]]; auto 6.
      right. apply in_concat in H1. destruct H1 as (d & Hd & Hl). rewrite Forall_forall in Fd. specialize (Fd d Hd).
      rewrite Forall_forall in Fd. apply (Fd l Hl). }
    destruct C as [C|C]; [|exact C]. rewrite Forall_forall in T1. rewrite Eh. apply whole_app. apply (T1 l C).
  - unfold pop_exists in *. apply Forall_forall. intros l Hl. rewrite Forall_forall in P1. apply Ipo, P1 in Hl. rewrite Eh, app_length. lia.
  - eapply later_trans; [exact L1|]. unfold later. rewrite E1, E2, E3, E4, E5, Hs2. cbn. repeat split; eexists; reflexivity.
  - intros l Hl. eapply same_trans; [exact (S1 l Hl)|]. eapply same_app; exact Eh.
Qed.

Lemma new_epochs ar sort save evolve n : forall i s s', tracked records free s ->
  (forall ep s, pop_exists s -> within (newer s) (writable ar s) any (evolve ep) s) ->
  h_epochs sort save evolve n i s = Ok (tt, s') ->
  tracked records free s' /\ later s s' /\ forall l, In l (records s) -> same ar s s' l.
Proof.
  induction n as [|n IH]; intros i s s' T W H; cbn [MHeap.h_epochs] in H.
  - unfold hput in H. injection H as <-. split; [exact T|]. split; [apply later_refl|]. intros; split; auto.
  - apply hbind_inv in H. destruct H as ([] & s1 & H1 & H).
    destruct (new_epoch ar _ _ _ _ _ _ T (W i) H1) as (T1 & L1 & S1).
    destruct (IH _ _ _ T1 W H) as (T2 & L2 & S2). split; [exact T2|]. split; [eapply later_trans; eauto|].
    intros l Hl. eapply same_trans; [exact (S1 l Hl)|]. apply S2. unfold records in *.
    destruct L1 as ((a1 & ->) & (a2 & ->) & (a3 & ->) & (a4 & ->) & (a5 & ->)). rewrite !in_app_iff in *. rewrite in_concat_app. tauto.
Qed.

(** *** After initialization *)
Lemma after_init_inv sort s s' : h_after_init sort s = Ok (tt, s') ->
  exists m b1 b2 w1 w2, hp s' = hp s ++ m /\ lgb s' = [b1] /\ lcb s' = [b2] /\ lgw s' = [w1] /\ lcw s' = [w2] /\ lpo s' = lpo s /\
    (forall l, In l (po s') -> In l (po s)) /\ pop_exists s /\
    Forall (fun l => whole (hp s') l /\ List.length (hp s) <= l) [b1; b2; w1; w2].
Proof.
  unfold MHeap.h_after_init. intros H.
  apply hbind_inv in H. destruct H as (sp & s0 & H0 & H). apply hread_inv in H0. destruct H0 as [Hsp ->].
  apply hbind_inv in H. destruct H as (b0 & s0 & H0 & H). apply hread_inv in H0. destruct H0 as [Hb0 ->].
  apply hbind_inv in H. destruct H as (w0 & s0 & H0 & H). apply hread_inv in H0. destruct H0 as [Hw0 ->].
  apply hbind_inv in H. destruct H as (b & sa & Ha & H). apply copy_shown in Ha. destruct Ha as (ma & xa & ta & ba & -> & La & _ & Sa).
  apply hbind_inv in H. destruct H as (w & sb & Hb & H). apply copy_shown in Hb. destruct Hb as (mb & xb & tb & bb & -> & Lb & _ & Sb).
  unfold hput in H at 1 2. unfold hbind at 1 2 in H. cbn [bind] in H.
  set (s2 := if sort then _ else _) in H.
  assert (E2 : hp s2 = hp s ++ (ma ++ mb) /\ lpo s2 = lpo s /\ (forall l, In l (po s2) -> In l (po s))).
  { destruct (sorted_refs_In _ _ _ _ _ Hsp) as [Fs _]. rewrite Forall_forall in Fs. subst s2. destruct sort; cbn; rewrite app_assoc; auto. }
  clearbody s2. destruct E2 as (Eh & El & Ep).
  apply hbind_inv in H. destruct H as (b1 & s3 & H3 & H). apply copy_shown in H3. destruct H3 as (m3 & x3 & t3 & a3 & -> & L3 & _ & S3).
  apply hbind_inv in H. destruct H as (b2 & s4 & H4 & H). apply copy_shown in H4. destruct H4 as (m4 & x4 & t4 & a4 & -> & L4 & _ & S4).
  apply hbind_inv in H. destruct H as (w1 & s5 & H5 & H). apply copy_shown in H5. destruct H5 as (m5 & x5 & t5 & a5 & -> & L5 & _ & S5).
  apply hbind_inv in H. destruct H as (w2 & s6 & H6 & H). apply copy_shown in H6. destruct H6 as (m6 & x6 & t6 & a6 & -> & L6 & _ & S6).
  unfold hput in H. injection H as <-. cbn in *.
  exists (ma ++ mb ++ m3 ++ m4 ++ m5 ++ m6), b1, b2, w1, w2.
  split; [rewrite Eh, <- !app_assoc; reflexivity|]. repeat (split; [auto; fail|]).
  split; [destruct (sorted_refs_In _ _ _ _ _ Hsp) as [_ Fw]; unfold pop_exists; eapply Forall_impl; [|exact Fw]; intros; apply whole_lt; assumption|].
  rewrite Eh in L3, L4, L5, L6. rewrite !app_length in *.
  assert (W1 : whole (hp s2 ++ m3) b1) by (eexists; eassumption).
  assert (W2 : whole ((hp s2 ++ m3) ++ m4) b2) by (eexists; eassumption).
  assert (W3 : whole (((hp s2 ++ m3) ++ m4) ++ m5) w1) by (eexists; eassumption).
  assert (W4 : whole ((((hp s2 ++ m3) ++ m4) ++ m5) ++ m6) w2) by (eexists; eassumption).
  apply Forall_cons; [split; [do 3 apply whole_app; exact W1|lia]|].
  apply Forall_cons; [split; [do 2 apply whole_app; exact W2|lia]|].
  apply Forall_cons; [split; [apply whole_app; exact W3|lia]|].
  apply Forall_cons; [split; [exact W4|lia]|]. apply Forall_nil.
Qed.

Lemma start_snaps sort s s' : lpo s = [] -> h_after_init sort s = Ok (tt, s') -> tracked snaps apart s'.
Proof.
  intros E0 H. destruct (after_init_inv _ _ _ H) as (m & b1 & b2 & w1 & w2 & Eh & E1 & E2 & E3 & E4 & E5 & Ip & Pe & F).
  unfold pop_exists in Pe. rewrite Forall_forall in Pe. split.
  - unfold snaps. rewrite E1, E3, E5, E0. cbn. inversion F as [|? ? F1 F']; subst. inversion F' as [|? ? F2 F'']; subst.
    inversion F'' as [|? ? F3 F4]; subst. destruct F1 as [F1 G1], F3 as [F3 G3].
    apply Forall_cons; [split; [exact F1|intros Hin; apply Ip, Pe in Hin; lia]|].
    apply Forall_cons; [split; [exact F3|intros Hin; apply Ip, Pe in Hin; lia]|]. apply Forall_nil.
  - unfold pop_exists. apply Forall_forall. intros l Hl. apply Ip, Pe in Hl. rewrite Eh, app_length. lia.
Qed.
Lemma start_records sort s s' : lpo s = [] -> h_after_init sort s = Ok (tt, s') -> tracked records free s'.
Proof.
  intros E0 H. destruct (after_init_inv _ _ _ H) as (m & b1 & b2 & w1 & w2 & Eh & E1 & E2 & E3 & E4 & E5 & Ip & Pe & F).
  unfold pop_exists in Pe. rewrite Forall_forall in Pe. split.
  - unfold records. rewrite E1, E2, E3, E4, E5, E0. cbn. eapply Forall_impl; [|exact F]. intros l [? _]. split; [assumption|exact I].
  - unfold pop_exists. apply Forall_forall. intros l Hl. apply Ip, Pe in Hl. rewrite Eh, app_length. lia.
Qed.

(** ** Theorems *)
(** A run: initialization left state [s1] with an empty list of populations, then the code before the main loop,
    then [j] epochs up to [s4] and [k] more up to [s5]. *)
Definition phases sort save before (evolve : nat -> prog A X unit) j k (s1 s2 s3 s4 s5 : hst) : Prop :=
  lpo s1 = [] /\ h_after_init sort s1 = Ok (tt, s2) /\ run before s2 = Ok (tt, s3) /\
  h_epochs sort save evolve j 1 s3 = Ok (tt, s4) /\ h_epochs sort save evolve k (S j) s4 = Ok (tt, s5).

(** Global bests, global worsts and saved populations are snapshots: nothing an algorithm does to its own agents in
    later epochs changes an entry, its target or its attributes, and no entry is removed. *)
Theorem C51_snapshots sort save before evolve j k s1 s2 s3 s4 s5 :
  own_agents before -> (forall ep, own_agents (evolve ep)) -> phases sort save before evolve j k s1 s2 s3 s4 s5 ->
  (exists a, lgb s5 = lgb s4 ++ a) /\ (exists a, lgw s5 = lgw s4 ++ a) /\ (exists a, lpo s5 = lpo s4 ++ a) /\
  forall l, In l (lgb s4 ++ lgw s4 ++ List.concat (lpo s4)) -> exists v, shown (hp s4) l = Ok v /\ shown (hp s5) l = Ok v.
Proof.
  intros Hb He (E0 & Hi & Rb & R1 & R2). pose proof (start_snaps _ _ _ E0 Hi) as T2.
  destruct (own_step false _ _ _ T2 (Hb s2 (proj2 T2)) Rb) as (T3 & _ & _).
  destruct (own_epochs false _ _ _ _ _ _ _ T3 (fun ep s => He ep s) R1) as (T4 & _ & _).
  destruct (own_epochs false _ _ _ _ _ _ _ T4 (fun ep s => He ep s) R2) as (_ & (g1 & _ & g3 & _ & g5) & S).
  split; [exact g1|]. split; [exact g3|]. split; [exact g5|]. intros l Hl. destruct T4 as [T4 _]. rewrite Forall_forall in T4.
  destruct (T4 l Hl) as [[v Hv] _]. exists v. split; [exact Hv|]. apply (S l Hl). exact Hv.
Qed.

(** When the algorithm changes only agents it has created in the same epoch, the recorded current bests and worsts are
    snapshots too. *)
Theorem C51_all_records sort save before evolve j k s1 s2 s3 s4 s5 :
  new_agents_only before -> (forall ep, new_agents_only (evolve ep)) -> phases sort save before evolve j k s1 s2 s3 s4 s5 ->
  (exists a, lcb s5 = lcb s4 ++ a) /\ (exists a, lcw s5 = lcw s4 ++ a) /\
  forall l, In l (lgb s4 ++ lcb s4 ++ lgw s4 ++ lcw s4 ++ List.concat (lpo s4)) ->
    exists v, shown (hp s4) l = Ok v /\ shown (hp s5) l = Ok v.
Proof.
  intros Hb He (E0 & Hi & Rb & R1 & R2). pose proof (start_records _ _ _ E0 Hi) as T2.
  destruct (new_step false _ _ _ T2 (Hb s2 (proj2 T2)) Rb) as (T3 & _ & _).
  destruct (new_epochs false _ _ _ _ _ _ _ T3 (fun ep s => He ep s) R1) as (T4 & _ & _).
  destruct (new_epochs false _ _ _ _ _ _ _ T4 (fun ep s => He ep s) R2) as (_ & (_ & g2 & _ & g4 & _) & S).
  split; [exact g2|]. split; [exact g4|]. intros l Hl. destruct T4 as [T4 _]. rewrite Forall_forall in T4.
  destruct (T4 l Hl) as [[v Hv] _]. exists v. split; [exact Hv|]. apply (S l Hl). exact Hv.
Qed.

(** Position values of the snapshots stay as recorded when no older array is written in place. *)
Theorem C52_positions sort save before evolve j k s1 s2 s3 s4 s5 :
  own_agents_new_arrays before -> (forall ep, own_agents_new_arrays (evolve ep)) ->
  phases sort save before evolve j k s1 s2 s3 s4 s5 ->
  forall l v, In l (lgb s4 ++ lgw s4 ++ List.concat (lpo s4)) -> deep (hp s4) l = Ok v -> deep (hp s5) l = Ok v.
Proof.
  intros Hb He (E0 & Hi & Rb & R1 & R2). pose proof (start_snaps _ _ _ E0 Hi) as T2.
  destruct (own_step true _ _ _ T2 (Hb s2 (proj2 T2)) Rb) as (T3 & _ & _).
  destruct (own_epochs true _ _ _ _ _ _ _ T3 (fun ep s => He ep s) R1) as (T4 & _ & _).
  destruct (own_epochs true _ _ _ _ _ _ _ T4 (fun ep s => He ep s) R2) as (_ & _ & S).
  intros l v Hl Hv. apply (S l Hl); [reflexivity|exact Hv].
Qed.
Theorem C52_all_positions sort save before evolve j k s1 s2 s3 s4 s5 :
  new_agents_new_arrays before -> (forall ep, new_agents_new_arrays (evolve ep)) ->
  phases sort save before evolve j k s1 s2 s3 s4 s5 ->
  forall l v, In l (lgb s4 ++ lcb s4 ++ lgw s4 ++ lcw s4 ++ List.concat (lpo s4)) ->
    deep (hp s4) l = Ok v -> deep (hp s5) l = Ok v.
Proof.
  intros Hb He (E0 & Hi & Rb & R1 & R2). pose proof (start_records _ _ _ E0 Hi) as T2.
  destruct (new_step true _ _ _ T2 (Hb s2 (proj2 T2)) Rb) as (T3 & _ & _).
  destruct (new_epochs true _ _ _ _ _ _ _ T3 (fun ep s => He ep s) R1) as (T4 & _ & _).
  destruct (new_epochs true _ _ _ _ _ _ _ T4 (fun ep s => He ep s) R2) as (_ & _ & S).
  intros l v Hl Hv. apply (S l Hl); [reflexivity|exact Hv].
Qed.

(** The best agent of an epoch is a new object with a new target, on the very array of the population's best agent or
    of the previous global best. *)
Theorem C52_shared_array (s : hst) sp better s' : h_update argsort mm s = Ok ((sp, better), s') ->
  exists z x t b, (In z (po s) \/ last_item (lgb s) = Ok z) /\ shown (hp s) z = Ok (x, t, b) /\
    shown (hp s') better = Ok (x, target_copy t, b) /\ List.length (hp s) <= better.
Proof.
  intros U. destruct (update_inv _ _ _ _ _ _ U) as (m2 & wo & cb & cw & gb & gw & _ & _ & _ & Icb & _ & Hgb & _ & Hbe & _).
  destruct Hbe as (z & x & t & b & Hz & Lb & Sz & Sb). exists z, x, t, b.
  split; [destruct Hz as [-> | ->]; auto|]. auto.
Qed.
End Records.

(** ** Which methods write what *)
Section Safe.
Context {A X : Type}.
Variables wr ar kp : nat -> Prop.
Variable n0 : nat.
Notation hst := (hst A X).
Notation prog := (prog A X).
Definition fine (s : hst) : Prop := n0 <= List.length (hp s) /\ Forall (fun l => kp l /\ l < List.length (hp s)) (po s).
Definition safe {Y} (Pre : hst -> Prop) (p : prog Y) (Post : Y -> hst -> Prop) : Prop :=
  forall s, fine s -> Pre s -> within wr ar kp p s /\ forall y s', run p s = Ok (y, s') -> Post y s'.

Lemma within_pbind {Y Z} (p : prog Y) (f : Y -> prog Z) : forall s, within wr ar kp p s ->
  (forall y s', run p s = Ok (y, s') -> within wr ar kp (f y) s') -> within wr ar kp (pbind p f) s.
Proof.
  induction p as [y0|e|k IH|o k IH|l a k IH|l t k IH|l b k IH|a j v k IH|q k IH|g k IH|x k IH|k IH]; intros s W H; cbn [within pbind run] in *; auto.
  - destruct W as [W1 W2]. split; [exact W1|]. intros h Hh. rewrite Hh in H. cbn [bind] in H. auto.
  - destruct W as [W1 W2]. split; [exact W1|]. intros h Hh. rewrite Hh in H. cbn [bind] in H. auto.
  - destruct W as [W1 W2]. split; [exact W1|]. intros h Hh. rewrite Hh in H. cbn [bind] in H. auto.
  - destruct W as [W1 W2]. split; [exact W1|]. intros h Hh. rewrite Hh in H. cbn [bind] in H. auto.
  - destruct W as [W1 W2]. auto.
Qed.
Lemma safe_bind {Y Z} Pre (p : prog Y) Mid (f : Y -> prog Z) Post :
  safe Pre p Mid -> (forall y, safe (Mid y) (f y) Post) -> safe Pre (pbind p f) Post.
Proof.
  intros Hp Hf s F P. destruct (Hp s F P) as [W R].
  assert (G : forall y s', run p s = Ok (y, s') -> fine s').
  { intros y s' E. destruct (run_keeps _ _ _ _ _ _ _ W E) as ([L _] & _ & Q). destruct F as [F1 F2]. split; [lia|auto]. }
  split.
  - apply within_pbind; [exact W|]. intros y s' E. apply (Hf y s'); eauto.
  - intros z s'. rewrite run_pbind. destruct (run p s) as [[y s1]|] eqn:E; cbn [bind]; [|discriminate].
    intros E2. eapply (Hf y s1); eauto.
Qed.
Lemma safe_ret {Y} (Pre : hst -> Prop) (y : Y) (Post : Y -> hst -> Prop) : (forall s, fine s -> Pre s -> Post y s) -> safe Pre (PRet y) Post.
Proof. intros H s F P. split; [exact I|]. cbn. intros y0 s' E. injection E as <- <-. auto. Qed.
Lemma safe_read {Y} (Pre : hst -> Prop) (r : hst -> res Y) (Post : Y -> hst -> Prop) :
  (forall s y, fine s -> Pre s -> r s = Ok y -> Post y s) -> safe Pre (read r) Post.
Proof.
  intros H s F P. unfold read. cbn [within]. split; [destruct (r s); exact I|].
  intros y s'. cbn [run]. destruct (r s) eqn:E; cbn; [|discriminate]. intros K; injection K as <- <-. eauto.
Qed.
Lemma safe_new (Pre : hst -> Prop) o (Post : nat -> hst -> Prop) :
  (forall s, fine s -> Pre s -> Post (List.length (hp s)) (w_hp s (hp s ++ [o]))) -> safe Pre (new o) Post.
Proof. intros H s F P. split; [exact I|]. cbn. intros y s' E. injection E as <- <-. auto. Qed.
Lemma safe_tick {Y} Pre (k : nat -> prog Y) Post : (forall n, safe Pre (k n) Post) -> (forall s c, Pre s -> Pre (w_ctr s c)) -> safe Pre (PTick k) Post.
Proof. intros H HP s F P. cbn [within run]. destruct (H (hctr s) (w_ctr s (S (hctr s))) F (HP _ _ P)) as [W R]. split; [exact W|exact R]. Qed.
Lemma safe_x {Y} Pre x (k : prog Y) Post : safe Pre k Post -> (forall s x, Pre s -> Pre (w_hx s x)) -> safe Pre (PX x k) Post.
Proof. intros H HP s F P. cbn [within run]. exact (H (w_hx s x) F (HP _ _ P)). Qed.
Lemma safe_conseq {Y} (Pre Pre' : hst -> Prop) (p : prog Y) (Post Post' : Y -> hst -> Prop) :
  safe Pre' p Post' -> (forall s, Pre s -> Pre' s) -> (forall y s, Post' y s -> Post y s) -> safe Pre p Post.
Proof. intros H H1 H2 s F P. destruct (H s F (H1 s P)) as [W R]. split; [exact W|eauto]. Qed.
Definition yes {Y} : Y -> hst -> Prop := fun _ _ => True.
Lemma safe_fail {Y} Pre e (Post : Y -> hst -> Prop) : safe Pre (PFail e) Post.
Proof. intros s F P. split; [exact I|discriminate]. Qed.
Lemma safe_copy Pre l : safe Pre (copy l) yes.
Proof.
  unfold copy. eapply safe_bind; [apply safe_read with (Post := fun _ _ => True); auto|]. intros [[x t] b].
  eapply safe_bind; [apply safe_new with (Post := yes); intros; exact I|]. intros t'. apply safe_new. intros; exact I.
Qed.
End Safe.

Section HBO_covered.
Variable E : env.
Variable P : problem.
Notation X := (list (target * nat)).
Variable wr kp : nat -> Prop.
Variable n0 : nat.
Hypothesis Hkp : forall l, n0 <= l -> kp l.
Notation safe p Q := (@safe unit X wr any kp n0 _ (fun _ => True) p Q).
Notation yes := (@yes unit X _).
Ltac triv := intros; exact I.
Ltac rd := apply safe_read with (Post := yes); triv.

Lemma safe_draw : safe (draw E) yes.
Proof. apply safe_tick; [|triv]. intros k. apply safe_ret. triv. Qed.
Lemma safe_draws n : safe (draws_n E n) yes.
Proof.
  induction n as [|n IH]; [apply safe_ret; triv|]. cbn [draws_n].
  eapply safe_bind; [apply safe_draw|]. intros u. eapply safe_bind; [exact IH|]. intros r. apply safe_ret. triv.
Qed.
Lemma safe_elem a j v : safe (PElem a j v (PRet tt)) yes.
Proof. intros s F Hp. split; [cbn; split; [exact I|]; intros; exact I|triv]. Qed.
Lemma safe_component gama p1 p2 rr rn cur par fri fb j : safe (hbo_component gama p1 p2 rr rn cur par fri fb j) yes.
Proof.
  unfold hbo_component. eapply safe_bind; [rd|]. intros [[x y] z].
  destruct (flt _ p1); [apply safe_ret; triv|]. destruct (flt _ p2); [apply safe_elem|]. destruct fb; apply safe_elem.
Qed.
Lemma safe_components gama p1 p2 rr rn cur par fri fb js : safe (hbo_components js gama p1 p2 rr rn cur par fri fb) yes.
Proof.
  induction js as [|j js IH]; [apply safe_ret; triv|]. cbn [hbo_components]. eapply safe_bind; [apply safe_component|]. intros ?. exact IH.
Qed.
Lemma safe_new_agent x : safe (new_agent P x) (fun l s => n0 <= l /\ l < List.length (hp s)).
Proof.
  unfold new_agent. eapply safe_bind; [apply safe_new with (Post := yes); triv|]. intros a.
  eapply safe_bind; [apply safe_new with (Post := yes); triv|]. intros t.
  apply safe_new. intros s [F _] _. cbn. rewrite app_length. cbn. lia.
Qed.
Lemma safe_hbo_step deg limits gama p1 p2 c : safe (hbo_step E P deg limits gama p1 p2 c) yes.
Proof.
  unfold hbo_step. eapply safe_bind; [rd|]. intros [hc hpar]. eapply safe_bind; [rd|]. intros old.
  eapply safe_bind; [apply safe_copy|]. intros cur. eapply safe_bind; [rd|]. intros par.
  eapply safe_bind with (Mid := yes).
  { destruct (_ <? _); [apply safe_ret; triv|]. destruct (filter _ _); [apply safe_fail|].
    apply safe_tick; [|triv]. intros k. apply safe_ret. triv. }
  intros friend. eapply safe_bind; [rd|]. intros hf. eapply safe_bind; [rd|]. intros fri.
  eapply safe_bind; [apply safe_draws|]. intros rr. eapply safe_bind; [apply safe_draws|]. intros rn.
  eapply safe_bind; [rd|]. intros [[ca pa] fa]. eapply safe_bind; [apply safe_components|]. intros ?.
  eapply safe_bind; [rd|]. intros x. apply safe_tick; [|triv]. intros k.
  eapply safe_bind; [apply safe_new_agent|]. intros na.
  eapply safe_bind with (Mid := yes).
  { destruct (compare_target _ _ _); [|apply safe_ret; triv].
    intros s [F1 F2] [N1 N2]. split; [|triv]. cbn [within]. split; [|exact I].
    apply Forall_forall. intros l Hl. cbn in Hl.
    assert (C : In l (po s) \/ l = na).
    { apply upd_In in Hl. tauto. }
    rewrite Forall_forall in F2. destruct C as [C| ->]; [auto|]. split; [auto|exact N2]. }
  intros ?. eapply safe_bind with (Mid := yes); [rd|]. intros heap. apply safe_x; [|triv]. apply safe_ret. triv.
Qed.
Lemma safe_hbo_loop cs deg limits gama p1 p2 : safe (hbo_loop E P cs deg limits gama p1 p2) yes.
Proof.
  induction cs as [|c cs IH]; [apply safe_ret; triv|]. cbn [hbo_loop]. eapply safe_bind; [apply safe_hbo_step|]. intros ?. exact IH.
Qed.
End HBO_covered.

(** HBO changes no field of an agent: all its records keep their targets.  (Positions are another matter, see below.) *)
Theorem C51_hbo E P deg limits gama n epochs ep :
  new_agents_only (hbo_evolve E P deg limits gama n epochs ep) /\ own_agents (hbo_evolve E P deg limits gama n epochs ep) /\
  new_agents_only (hbo_before P deg) /\ own_agents (hbo_before P deg).
Proof.
  repeat split.
  - intros s Hs. refine (proj1 (safe_hbo_loop E P (newer s) any (List.length (hp s)) (fun _ _ => I) _ _ _ _ _ _ s _ I)).
    split; [reflexivity|]. eapply Forall_impl; [|exact Hs]. intros l Hl. split; [exact I|exact Hl].
  - intros s Hs. refine (proj1 (safe_hbo_loop E P (mine s) (mine s) (List.length (hp s)) (fun l H => or_intror H) _ _ _ _ _ _ s _ I)).
    split; [reflexivity|]. apply Forall_forall. intros l Hl. unfold pop_exists in Hs. rewrite Forall_forall in Hs. split; [left; exact Hl|auto].
  - intros s _. unfold hbo_before, read. cbn. destruct (pop_targets s); cbn; [|exact I]. destruct (heapify P deg _); exact I.
  - intros s _. unfold hbo_before, read. cbn. destruct (pop_targets s); cbn; [|exact I]. destruct (heapify P deg _); exact I.
Qed.

Section WOA_covered.
Variable E : env.
Variable P : problem.
Variables fexp fcos : f64 -> f64.
Variable fpi : f64.
Variable s0 : hst unit unit.
Notation n0 := (List.length (hp s0)).
Notation safe p Q := (@safe unit unit (mine s0) (newer s0) (mine s0) n0 _ (fun _ => True) p Q).
Notation yes := (@yes unit unit _).
Ltac triv := intros; exact I.
Ltac rd := apply safe_read with (Post := yes); triv.
Lemma safe_woa_draws n : safe (woa_draws E n) yes.
Proof.
  induction n as [|n IH]; [apply safe_ret; triv|]. cbn [woa_draws]. apply safe_tick; [|triv]. intros k.
  eapply safe_bind; [exact IH|]. intros r. apply safe_ret. triv.
Qed.
Lemma safe_woa_component n idx a c ll pp j : safe (woa_component E fexp fcos fpi n idx a c ll pp j) yes.
Proof.
  unfold woa_component. destruct (flt _ _); [destruct (fle _ _)|].
  - apply safe_tick; [|triv]. intros k. eapply safe_bind; [rd|]. intros xr. eapply safe_bind; [rd|]. intros xi. apply safe_ret. triv.
  - eapply safe_bind; [rd|]. intros xr. eapply safe_bind; [rd|]. intros xi. apply safe_ret. triv.
  - eapply safe_bind; [rd|]. intros xr. eapply safe_bind; [rd|]. intros xi. apply safe_ret. triv.
Qed.
Lemma safe_woa_components n idx a c ll pp js : safe (woa_components E fexp fcos fpi n idx a c ll pp js) yes.
Proof.
  induction js as [|j js IH]; [apply safe_ret; triv|]. cbn [woa_components].
  eapply safe_bind; [apply safe_woa_component|]. intros v. eapply safe_bind; [exact IH|]. intros vs. apply safe_ret. triv.
Qed.
Lemma safe_woa_step n a a2 idx : safe (woa_step E P fexp fcos fpi n a a2 idx) yes.
Proof.
  unfold woa_step. eapply safe_bind; [apply safe_woa_draws|]. intros r1. eapply safe_bind; [apply safe_woa_draws|]. intros r2.
  apply safe_tick; [|triv]. intros k. eapply safe_bind; [apply safe_woa_draws|]. intros pp.
  eapply safe_bind; [apply safe_woa_components|]. intros x. apply safe_tick; [|triv]. intros k2.
  eapply safe_bind; [apply safe_new with (Post := yes); triv|]. intros arr.
  eapply safe_bind; [apply safe_new with (Post := yes); triv|]. intros ?.
  eapply safe_bind; [apply safe_new with (Post := yes); triv|]. intros t.
  eapply safe_bind; [apply safe_read with (Post := fun l _ => mine s0 l)|].
  { intros s l [_ F] _ Hl. apply getitem_In in Hl. rewrite Forall_forall in F. apply (F l Hl). }
  intros l s F Hl. split; [|triv]. cbn. split; [exact Hl|]. intros h _. split; [exact Hl|]. triv.
Qed.
Lemma safe_woa_loop n a a2 idxs : safe (woa_loop E P fexp fcos fpi n a a2 idxs) yes.
Proof.
  induction idxs as [|i idxs IH]; [apply safe_ret; triv|]. cbn [woa_loop]. eapply safe_bind; [apply safe_woa_step|]. intros ?. exact IH.
Qed.
End WOA_covered.

Lemma within_weaken {A X Y} (wr wr' ar ar' kp kp' : nat -> Prop) (p : prog A X Y) :
  (forall l, wr l -> wr' l) -> (forall l, ar l -> ar' l) -> (forall l, kp l -> kp' l) ->
  forall s, within wr ar kp p s -> within wr' ar' kp' p s.
Proof.
  intros H1 H2 H3. induction p; intros st W; cbn [within] in *; auto.
  - destruct W as [W1 W2]. split; auto.
  - destruct W as [W1 W2]. split; auto.
  - destruct W as [W1 W2]. split; auto.
  - destruct W as [W1 W2]. split; auto.
  - destruct W as [W1 W2]. split; [|auto]. eapply Forall_impl; [|exact W1]. cbn. intros ? [? ?]; split; auto.
Qed.

(** WOA sets the fields of its population's agents, and always to new arrays: its snapshots keep targets and
    positions. *)
Theorem C52_woa E P fexp fcos fpi n epochs ep :
  own_agents_new_arrays (woa_evolve E P fexp fcos fpi n epochs ep) /\ own_agents (woa_evolve E P fexp fcos fpi n epochs ep).
Proof.
  assert (H : own_agents_new_arrays (woa_evolve E P fexp fcos fpi n epochs ep)).
  { intros s Hs. unfold woa_evolve. refine (proj1 (safe_woa_loop E P fexp fcos fpi s _ _ _ _ s _ I)).
    split; [reflexivity|]. apply Forall_forall. intros l Hl. unfold pop_exists in Hs. rewrite Forall_forall in Hs. split; [left; exact Hl|auto]. }
  split; [exact H|]. intros s Hs. eapply within_weaken; [..|exact (H s Hs)]; auto. intros; exact I.
Qed.

(** ** Where sharing shows *)
Definition heap0 {X} (x : X) : hst unit X := mkH [] [] None None [] [] [] [] [] 0 x.
Definition fit_at {X} (s : hst unit X) (l : nat) : option f64 := match o_fit (hp s) l with Ok f => Some f | Err _ => None end.

(** Draws that are all zero. *)
Definition zero_env : env := mkEnv argsort_ins (fun _ => fZ 0) (fun _ => fZ 0) (fun k => k) (fun _ l => nth 0 l (fZ 0)) (fun k => fZ 0) (fun _ => []).
Definition woa_demo (epochs : nat) : res (nat * hst unit unit) :=
  let P := demo_prob Min sphere false in
  h_solve argsort_ins Min false false (pbind (woa_init P 5) (fun p => PPop p (PRet tt))) (PRet tt)
    (woa_evolve zero_env P (fun x => x) (fun x => x) (fZ 3) 5 3) epochs (heap0 tt).

(** A current best recorded by WOA in the first epoch reads differently after the second: the entry is the live agent. *)
Theorem C51_current_best_refuted : exists g1 s1 g2 s2 l f f',
  woa_demo 1 = Ok (g1, s1) /\ woa_demo 2 = Ok (g2, s2) /\
  nth_error (lcb s1) 1 = Some l /\ nth_error (lcb s2) 1 = Some l /\
  fit_at s1 l = Some f /\ fit_at s2 l = Some f' /\ flt f' f = true.
Proof.
  assert (H : match woa_demo 1, woa_demo 2 with
              | Ok (_, s1), Ok (_, s2) =>
                match nth_error (lcb s1) 1, nth_error (lcb s2) 1 with
                | Some l, Some l' => (l =? l') && match fit_at s1 l, fit_at s2 l with Some f, Some f' => flt f' f | _, _ => false end
                | _, _ => false
                end
              | _, _ => false end = true) by (vm_compute; reflexivity).
  destruct (woa_demo 1) as [[g1 s1]|]; [|discriminate]. destruct (woa_demo 2) as [[g2 s2]|]; [|discriminate].
  destruct (nth_error (lcb s1) 1) as [l|] eqn:E1; [|discriminate]. destruct (nth_error (lcb s2) 1) as [l'|] eqn:E2; [|discriminate].
  apply andb_true_iff in H. destruct H as [Hl H]. apply Nat.eqb_eq in Hl. subst l'.
  destruct (fit_at s1 l) as [f|] eqn:F1; [|discriminate]. destruct (fit_at s2 l) as [f'|] eqn:F2; [|discriminate].
  exists g1, s1, g2, s2, l, f, f'. auto 8.
Qed.

(** colleagues_limits_generator__ (HBO.py:76-84) for pop_size 5 and degree 2. *)
Definition limits5 (c : nat) : nat * nat := nth c [(0, 0); (1, 1); (2, 3); (2, 3); (4, 5)] (0, 0).
(** OriginalHBO(epoch=1, pop_size=5, degree=2) on the sphere function over [-5, 5]^2.  With fewer than 25 epochs the
    factor gama (HBO.py:116-117) is 2: cycles is 0 and it_per_cycle infinite. *)
Definition hbo_demo : res (nat * hst unit (list (target * nat))) :=
  hbo_solve demo_env (demo_prob Min sphere false) 2 limits5 (fun _ => fZ 2) false 5 1 (heap0 []).

(** The agent returned by HBO stores a target that is not the objective at its position (the stored fitness is
    better), and its position is outside the bounds: the array was overwritten in place after it had been recorded. *)
Theorem C52_hbo_refuted : exists g s x t,
  hbo_demo = Ok (g, s) /\ deep (hp s) g = Ok (x, t, tt) /\
  flt (t_fit t) (t_fit (prob_target (demo_prob Min sphere false) x)) = true /\
  existsb (fun v => flt v (fZ (-5)) || flt (fZ 5) v) x = true.
Proof.
  assert (H : match hbo_demo with
              | Ok (g, s) =>
                match deep (hp s) g with
                | Ok (x, t, _) => flt (t_fit t) (t_fit (prob_target (demo_prob Min sphere false) x)) && existsb (fun v => flt v (fZ (-5)) || flt (fZ 5) v) x
                | Err _ => false
                end
              | Err _ => false end = true) by (vm_compute; reflexivity).
  destruct hbo_demo as [[g s]|]; [|discriminate]. destruct (deep (hp s) g) as [[[x t] []]|] eqn:Ed; [|discriminate].
  apply andb_true_iff in H. destruct H as [H1 H2]. exists g, s, x, t. auto.
Qed.

(** The hypotheses of the theorems above are met by complete runs. *)
Example C51_run_exists : exists s1 s2 s3 s4 s5,
  phases argsort_ins Min false true (PRet tt) (woa_evolve zero_env (demo_prob Min sphere false) (fun x => x) (fun x => x) (fZ 3) 5 3) 1 2 s1 s2 s3 s4 s5.
Proof.
  pose (P := demo_prob Min sphere false). pose (ev := woa_evolve zero_env P (fun x => x) (fun x => x) (fZ 3) 5 3).
  assert (H : match run (pbind (woa_init P 5) (fun p => PPop p (PRet tt))) (heap0 tt) with
              | Ok (_, s1) => match lpo s1 with [] => true | _ => false end &&
                match h_after_init argsort_ins Min false s1 with
                | Ok (_, s2) => match h_epochs argsort_ins Min false true ev 1 1 s2 with
                                | Ok (_, s4) => match h_epochs argsort_ins Min false true ev 2 2 s4 with Ok _ => true | Err _ => false end
                                | Err _ => false end
                | Err _ => false end
              | Err _ => false end = true) by (vm_compute; reflexivity).
  destruct (run _ _) as [[[] s1]|]; [|discriminate]. destruct (lpo s1) as [|] eqn:E0; [|discriminate]. cbn [andb] in H.
  destruct (h_after_init argsort_ins Min false s1) as [[[] s2]|] eqn:E1; [|discriminate].
  destruct (h_epochs argsort_ins Min false true ev 1 1 s2) as [[[] s4]|] eqn:E2; [|discriminate].
  destruct (h_epochs argsort_ins Min false true ev 2 2 s4) as [[[] s5]|] eqn:E3; [|discriminate].
  exists s1, s2, s2, s4, s5. unfold phases. cbn [run]. auto.
Qed.

(** ** The value model of the optimizer *)
(** Reading the objects gives the agents of MCore. *)
Definition reads {A} (h : list (obj A)) (l : nat) (a : agent A) : Prop :=
  exists v t b, deep h l = Ok (v, t, b) /\ a = mkAgent v (Some t) b.
Definition reads_hist {A X} (s : hst A X) (h : history A) : Prop :=
  Forall2 (reads (hp s)) (lgb s) (h_gb h) /\ Forall2 (reads (hp s)) (lcb s) (h_cb h) /\
  Forall2 (reads (hp s)) (lgw s) (h_gw h) /\ Forall2 (reads (hp s)) (lcw s) (h_cw h).

Section Refine.
Context {A X : Type}.
Notation hst := (hst A X).
Lemma reads_app (h : list (obj A)) m l a : reads h l a -> reads (h ++ m) l a.
Proof.
  intros (v & t & b & H & ->). exists v, t, b. split; [|reflexivity].
  eapply (deep_keeps (fun _ => False) (fun _ => False)); [apply keeps_app|tauto|tauto|exact H].
Qed.
Lemma reads_app2 (h : list (obj A)) m ls las : Forall2 (reads h) ls las -> Forall2 (reads (h ++ m)) ls las.
Proof. induction 1; constructor; [apply reads_app|]; assumption. Qed.
Lemma deep_shown (h : list (obj A)) l v t b : deep h l = Ok (v, t, b) -> exists x, shown h l = Ok (x, t, b) /\ o_arr h x = Ok v.
Proof.
  unfold deep. destruct (shown h l) as [[[x t'] b']|]; cbn [bind]; [|discriminate].
  destruct (o_arr h x) as [v'|] eqn:Ea; cbn [bind]; [|discriminate]. intros H; injection H as -> -> ->. eauto.
Qed.
Lemma shown_fit (h : list (obj A)) l x t b : shown h l = Ok (x, t, b) -> o_fit h l = Ok (t_fit t).
Proof.
  unfold shown, o_fit. destruct (o_agt h l) as [[[x' t'] b']|]; cbn [bind]; [|discriminate].
  destruct t' as [tl|]; [|discriminate]. destruct (o_tgt h tl) as [tv|]; cbn [bind]; [|discriminate]. intros H; injection H as <- <- <-; reflexivity.
Qed.
Lemma reads_fit (h : list (obj A)) l a : reads h l a -> o_fit h l = fitness a.
Proof. intros (v & t & b & H & ->). destruct (deep_shown _ _ _ _ _ H) as (x & Hs & _). exact (shown_fit _ _ _ _ _ Hs). Qed.
Lemma reads_fits (h : list (obj A)) ls las : Forall2 (reads h) ls las -> map_res (o_fit h) ls = map_res fitness las.
Proof. induction 1 as [|l a ls las H _ IH]; cbn; [reflexivity|]. rewrite (reads_fit _ _ _ H), IH. reflexivity. Qed.
Lemma reads_item {T U} (R : T -> U -> Prop) ls las : Forall2 R ls las -> forall i l, getitem ls i = Ok l ->
  exists a, getitem las i = Ok a /\ R l a.
Proof.
  unfold getitem. induction 1 as [|x a ls las H _ IH]; intros [|i] l; cbn; try discriminate; [|apply IH].
  intros E; injection E as <-. eauto.
Qed.
Lemma reads_items {T U} (R : T -> U -> Prop) ls las : Forall2 R ls las -> forall ix sp, map_res (getitem ls) ix = Ok sp ->
  exists spa, map_res (getitem las) ix = Ok spa /\ Forall2 R sp spa.
Proof.
  intros F ix. induction ix as [|i ix IH]; intros sp; cbn.
  - intros E; injection E as <-. exists []. auto.
  - destruct (getitem ls i) as [l|] eqn:Ei; cbn [bind]; [|discriminate]. destruct (map_res (getitem ls) ix) as [sp1|]; cbn [bind]; [|discriminate].
    intros E; injection E as <-. destruct (reads_item _ _ _ F _ _ Ei) as (a & -> & Ha). destruct (IH _ eq_refl) as (spa & -> & Hs).
    cbn [bind]. eauto.
Qed.
Lemma reads_last {T U} (R : T -> U -> Prop) ls las l : Forall2 R ls las -> last_item ls = Ok l -> exists a, last_item las = Ok a /\ R l a.
Proof.
  unfold last_item. intros F. assert (F' : Forall2 R (rev ls) (rev las)).
  { induction F; cbn; [constructor|]. apply Forall2_app; [assumption|]. repeat constructor; assumption. }
  destruct F'; [discriminate|]. intros E; injection E as <-. eauto.
Qed.
Lemma reads_copy l (s : hst) c s' a : run (copy l) s = Ok (c, s') -> reads (hp s) l a ->
  exists a' m, agent_copy a = Ok a' /\ s' = w_hp s (hp s ++ m) /\ reads (hp s') c a'.
Proof.
  intros H (v & t & b & Hd & ->). destruct (copy_shown _ _ _ _ H) as (m & x & t' & b' & -> & _ & S1 & S2).
  destruct (deep_shown _ _ _ _ _ Hd) as (x' & S1' & Ha). rewrite S1 in S1'. injection S1' as <- <- <-.
  eexists _, m. split; [reflexivity|]. split; [reflexivity|]. exists v, (target_copy t'), b'. split; [|reflexivity].
  unfold deep. rewrite S2. cbn [bind hp w_hp]. unfold o_arr. apply o_arr_inv in Ha.
  rewrite nth_error_app1 by (apply nth_error_Some; congruence). rewrite Ha. reflexivity.
Qed.
Lemma reads_better mm x y r (s : hst) c s' ax ay : run (better_ref mm x y r) s = Ok (c, s') ->
  reads (hp s) x ax -> reads (hp s) y ay ->
  exists a' m, get_better_agent ax ay mm r = Ok a' /\ s' = w_hp s (hp s ++ m) /\ reads (hp s') c a'.
Proof.
  unfold better_ref, get_better_agent. rewrite run_pbind, run_read. intros H Rx Ry.
  destruct (match mm with Min => Ok false | Max => Ok true | Other => Err KeyError end) as [i|]; cbn [bind] in *; [|discriminate].
  rewrite (reads_fit _ _ _ Rx), (reads_fit _ _ _ Ry) in H.
  destruct (fitness ax) as [fx|]; cbn [bind] in *; [|discriminate]. destruct (fitness ay) as [fy|]; cbn [bind] in *; [|discriminate].
  destruct (xorb i r), (flt fx fy); eapply reads_copy; eauto.
Qed.

(** The end of an epoch on objects is, read as values, the end of an epoch of the value model. *)
Theorem C51_refines E P (s : hst) sp better s' (st : st A X) :
  h_update (e_argsort E) (p_mm P) s = Ok ((sp, better), s') ->
  Forall2 (reads (hp s)) (po s) (s_pop st) -> reads_hist s (s_hist st) ->
  exists spa bettera st', update_global_best_agent E P (s_pop st) st = Ok ((spa, bettera), st') /\
    Forall2 (reads (hp s')) sp spa /\ reads (hp s') better bettera /\
    Forall2 (reads (hp s')) (po s') (s_pop st') /\ reads_hist s' (s_hist st').
Proof.
  unfold h_update. intros H Fp (F1 & F2 & F3 & F4).
  apply hbind_inv in H. destruct H as (sp0 & s0 & H0 & H). apply hread_inv in H0. destruct H0 as [Hsp ->].
  apply hbind_inv in H. destruct H as (cb & s0 & H0 & H). apply hread_inv in H0. destruct H0 as [Hcb ->].
  apply hbind_inv in H. destruct H as (cw & s0 & H0 & H). apply hread_inv in H0. destruct H0 as [Hcw ->].
  apply hbind_inv in H. destruct H as (gb & s0 & H0 & H). apply hread_inv in H0. destruct H0 as [Hgb ->].
  apply hbind_inv in H. destruct H as (be & s1 & H1 & H).
  apply hbind_inv in H. destruct H as (gw & s0 & H0 & H). apply hread_inv in H0. destruct H0 as [Hgw ->].
  apply hbind_inv in H. destruct H as (wo & s2 & H2 & H).
  unfold sorted_refs in Hsp. rewrite (reads_fits _ _ _ Fp) in Hsp.
  destruct (map_res fitness (s_pop st)) as [fits|] eqn:Ef; cbn [bind] in Hsp; [|discriminate].
  destruct (reads_items _ _ _ Fp _ _ Hsp) as (spa & Hspa & Fsp).
  destruct (reads_item _ _ _ Fsp _ _ Hcb) as (cba & Hcba & Rcb). destruct (reads_last _ _ _ _ Fsp Hcw) as (cwa & Hcwa & Rcw).
  destruct (reads_last _ _ _ _ F1 Hgb) as (gba & Hgba & Rgb).
  destruct (reads_better _ _ _ _ _ _ _ _ _ H1 Rcb Rgb) as (bea & m1 & Hbea & -> & Rbe). cbn [lgw w_hp] in Hgw.
  destruct (reads_last _ _ _ _ F3 Hgw) as (gwa & Hgwa & Rgw).
  destruct (reads_better _ _ _ _ _ _ _ _ _ H2 (reads_app _ m1 _ _ Rcw) (reads_app _ m1 _ _ Rgw)) as (woa & m2 & Hwoa & -> & Rwo).
  unfold hbind, hput in H. cbn in H. injection H as <- <- <-. cbn in *.
  eexists spa, bea, _. split.
  - unfold update_global_best_agent, bindM, lift, get, set_hist, ret, get_sorted_population. rewrite Ef. cbn [bind].
    rewrite Hspa. cbn [bind]. rewrite Hcba. rewrite Hcwa. rewrite Hgba, Hbea, Hgwa, Hwoa. reflexivity.
  - cbn. split; [do 2 apply reads_app2; exact Fsp|]. split; [apply reads_app; exact Rbe|]. split; [do 2 apply reads_app2; exact Fp|].
    repeat split; cbn; apply Forall2_app; try (do 2 apply reads_app2; assumption); repeat constructor;
      auto using reads_app.
Qed.
End Refine.

Print Assumptions C51_snapshots.
Print Assumptions C51_all_records.
Print Assumptions C52_positions.
Print Assumptions C52_all_positions.
Print Assumptions C52_shared_array.
Print Assumptions C51_hbo.
Print Assumptions C52_woa.
Print Assumptions C51_current_best_refuted.
Print Assumptions C52_hbo_refuted.
Print Assumptions C51_refines.
