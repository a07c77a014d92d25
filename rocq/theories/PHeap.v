(** Proof machinery for the heap model: which objects a piece of code may change. *)
From Verif Require Import Prelude Fl MCore MHeap.

Section PHeap.
Context {A X : Type}.
Notation hst := (hst A X).
Notation prog := (prog A X).

(** ** What a reader of an agent sees *)
(** The agent's own fields: which position array it refers to, the value of its target, its other attributes. *)
Definition shown (h : list (obj A)) (l : nat) : res (nat * target * A) :=
  let* (x, t, b) := o_agt h l in
  match t with None => Err AttributeError | Some t => let* t := o_tgt h t in Ok (x, t, b) end.
(** The agent's values: position, target, attributes. *)
Definition deep (h : list (obj A)) (l : nat) : res (vec * target * A) :=
  let* (x, t, b) := shown h l in let* v := o_arr h x in Ok (v, t, b).

(** ** Which objects a run of [p] from [s] writes *)
(** Every agent whose fields are set satisfies [wr], every array written in place satisfies [ar], every agent put
    into the population exists and satisfies [kp]. *)
Fixpoint within {Y} (wr ar kp : nat -> Prop) (p : prog Y) (s : hst) : Prop :=
  match p with
  | PRet _ | PFail _ => True
  | PGet k => within wr ar kp (k s) s
  | PNew o k => within wr ar kp (k (List.length (hp s))) (w_hp s (hp s ++ [o]))
  | PSol l a k => wr l /\ forall h, put_agt (hp s) l (fun _ t b => OAgt a t b) = Ok h -> within wr ar kp k (w_hp s h)
  | PTgt l t k => wr l /\ forall h, put_agt (hp s) l (fun x _ b => OAgt x (Some t) b) = Ok h -> within wr ar kp k (w_hp s h)
  | PAtt l b k => wr l /\ forall h, put_agt (hp s) l (fun x t _ => OAgt x t b) = Ok h -> within wr ar kp k (w_hp s h)
  | PElem a j v k => ar a /\ forall h, put_elem (hp s) a j v = Ok h -> within wr ar kp k (w_hp s h)
  | PPop q k => Forall (fun l => kp l /\ l < List.length (hp s)) q /\ within wr ar kp k (w_po s q)
  | PBest g k => within wr ar kp k (w_gb s (Some g))
  | PX x k => within wr ar kp k (w_hx s x)
  | PTick k => within wr ar kp (k (hctr s)) (w_ctr s (S (hctr s)))
  end.

(** Objects created by the code itself, and agents of the population when the code starts. *)
Definition newer (s : hst) (l : nat) : Prop := List.length (hp s) <= l.
Definition mine (s : hst) (l : nat) : Prop := In l (po s) \/ newer s l.
Definition any (l : nat) : Prop := True.

(** ** Frames *)
Definition keeps (wr ar : nat -> Prop) (h h' : list (obj A)) : Prop :=
  List.length h <= List.length h' /\
  forall l o, nth_error h l = Some o ->
    match o with OTgt _ => True | OArr _ => ~ ar l | OAgt _ _ _ => ~ wr l end -> nth_error h' l = Some o.

Lemma keeps_refl wr ar h : keeps wr ar h h.
Proof. split; auto. Qed.
Lemma keeps_trans wr ar h1 h2 h3 : keeps wr ar h1 h2 -> keeps wr ar h2 h3 -> keeps wr ar h1 h3.
Proof. intros [L1 K1] [L2 K2]. split; [lia|]. intros l o Hl Ho. apply K2; auto. Qed.
Lemma keeps_app wr ar h m : keeps wr ar h (h ++ m).
Proof.
  split; [rewrite app_length; lia|]. intros l o Hl _. rewrite nth_error_app1; [exact Hl|].
  apply nth_error_Some. congruence.
Qed.
Lemma upd_nth_error_eq {T} (l : list T) i x : i < List.length l -> nth_error (upd l i x) i = Some x.
Proof. revert i; induction l as [|y l IH]; intros [|i] H; simpl in *; try lia; [reflexivity|]. apply IH; lia. Qed.
Lemma upd_nth_error_neq {T} (l : list T) i j x : i <> j -> nth_error (upd l i x) j = nth_error l j.
Proof. revert i j; induction l as [|y l IH]; intros [|i] [|j] H; simpl; try congruence; auto. Qed.
Lemma upd_len {T} (l : list T) i x : List.length (upd l i x) = List.length l.
Proof. revert i; induction l as [|y l IH]; intros [|i]; simpl; auto. Qed.

Lemma o_agt_inv h l x t b : o_agt h l = Ok (x, t, b) -> nth_error h l = Some (@OAgt A x t b).
Proof. unfold o_agt. destruct (nth_error h l) as [[| |]|]; try discriminate. intros H; injection H as -> -> ->; reflexivity. Qed.
Lemma o_tgt_inv h l t : o_tgt h l = Ok t -> nth_error h l = Some (@OTgt A t).
Proof. unfold o_tgt. destruct (nth_error h l) as [[| |]|]; try discriminate. intros H; injection H as ->; reflexivity. Qed.
Lemma o_arr_inv h l t : o_arr h l = Ok t -> nth_error h l = Some (@OArr A t).
Proof. unfold o_arr. destruct (nth_error h l) as [[| |]|]; try discriminate. intros H; injection H as ->; reflexivity. Qed.

Lemma put_agt_keeps (wr ar : nat -> Prop) (h : list (obj A)) l f h' : wr l -> put_agt h l f = Ok h' -> keeps wr ar h h'.
Proof.
  unfold put_agt. intros Hw. destruct (o_agt h l) as [[[x t] b]|] eqn:E; cbn [bind]; [|discriminate].
  intros H; injection H as <-. apply o_agt_inv in E. split; [rewrite upd_len; lia|].
  intros k o Hk Ho. destruct (Nat.eq_dec l k) as [<-|N].
  - rewrite E in Hk. injection Hk as <-. tauto.
  - rewrite upd_nth_error_neq by exact N. exact Hk.
Qed.
Lemma put_elem_keeps (wr ar : nat -> Prop) (h : list (obj A)) a j v h' : ar a -> put_elem h a j v = Ok h' -> keeps wr ar h h'.
Proof.
  unfold put_elem. intros Hw. destruct (o_arr h a) as [x|] eqn:E; cbn [bind]; [|discriminate].
  destruct (j <? List.length x); [|discriminate]. intros H; injection H as <-. apply o_arr_inv in E.
  split; [rewrite upd_len; lia|]. intros k o Hk Ho. destruct (Nat.eq_dec a k) as [<-|N].
  - rewrite E in Hk. injection Hk as <-. tauto.
  - rewrite upd_nth_error_neq by exact N. exact Hk.
Qed.

(** The history lists. *)
Definition lists (s : hst) := (lgb s, lcb s, lgw s, lcw s, lpo s).

Theorem run_keeps {Y} wr ar kp (p : prog Y) : forall s y s',
  within wr ar kp p s -> run p s = Ok (y, s') ->
  keeps wr ar (hp s) (hp s') /\ lists s' = lists s /\
  (Forall (fun l => kp l /\ l < List.length (hp s)) (po s) -> Forall (fun l => kp l /\ l < List.length (hp s')) (po s')).
Proof.
  assert (M : forall (h h' : list (obj A)) (p : list nat), keeps wr ar h h' ->
            Forall (fun l => kp l /\ l < List.length h) p -> Forall (fun l => kp l /\ l < List.length h') p).
  { intros h h' q [L _]. apply Forall_impl. intros a [? ?]. split; [assumption|lia]. }
  induction p as [y0|e|k IH|o k IH|l a k IH|l t k IH|l b k IH|a j v k IH|q k IH|g k IH|x k IH|k IH]; intros s y s' W H; cbn [run within] in *.
  - injection H as <- <-. split; [apply keeps_refl|]. split; [reflexivity|auto].
  - discriminate.
  - exact (IH s s y s' W H).
  - destruct (IH _ _ _ _ W H) as (K & L & Q). cbn in K. split; [|split; [exact L|]].
    + eapply keeps_trans; [apply keeps_app|exact K].
    + intros F. apply Q. cbn. eapply M; [apply (keeps_app wr ar)|exact F].
  - destruct W as [Hw W]. destruct (put_agt _ _ _) as [h|] eqn:Ep; cbn [bind] in H; [|discriminate].
    destruct (IH _ _ _ (W h eq_refl) H) as (K & L & Q). cbn in K. pose proof (put_agt_keeps wr ar _ _ _ _ Hw Ep) as K0.
    split; [eapply keeps_trans; eauto|]. split; [exact L|]. intros F. apply Q. cbn. eapply M; eauto.
  - destruct W as [Hw W]. destruct (put_agt _ _ _) as [h|] eqn:Ep; cbn [bind] in H; [|discriminate].
    destruct (IH _ _ _ (W h eq_refl) H) as (K & L & Q). cbn in K. pose proof (put_agt_keeps wr ar _ _ _ _ Hw Ep) as K0.
    split; [eapply keeps_trans; eauto|]. split; [exact L|]. intros F. apply Q. cbn. eapply M; eauto.
  - destruct W as [Hw W]. destruct (put_agt _ _ _) as [h|] eqn:Ep; cbn [bind] in H; [|discriminate].
    destruct (IH _ _ _ (W h eq_refl) H) as (K & L & Q). cbn in K. pose proof (put_agt_keeps wr ar _ _ _ _ Hw Ep) as K0.
    split; [eapply keeps_trans; eauto|]. split; [exact L|]. intros F. apply Q. cbn. eapply M; eauto.
  - destruct W as [Hw W]. destruct (put_elem _ _ _ _) as [h|] eqn:Ep; cbn [bind] in H; [|discriminate].
    destruct (IH _ _ _ (W h eq_refl) H) as (K & L & Q). cbn in K. pose proof (put_elem_keeps wr ar _ _ _ _ _ Hw Ep) as K0.
    split; [eapply keeps_trans; eauto|]. split; [exact L|]. intros F. apply Q. cbn. eapply M; eauto.
  - destruct W as [Hq W]. destruct (IH _ _ _ W H) as (K & L & Q). split; [exact K|]. split; [exact L|]. intros _. apply Q. exact Hq.
  - exact (IH _ _ _ W H).
  - exact (IH _ _ _ W H).
  - exact (IH _ _ _ _ W H).
Qed.

(** ** Recorded agents *)
Definition whole (h : list (obj A)) (l : nat) : Prop := exists v, shown h l = Ok v.
Lemma shown_inv (h : list (obj A)) l x t b : shown h l = Ok (x, t, b) ->
  exists tl, nth_error h l = Some (OAgt x (Some tl) b) /\ nth_error h tl = Some (OTgt t).
Proof.
  unfold shown. destruct (o_agt h l) as [[[x' t'] b']|] eqn:E; cbn [bind]; [|discriminate].
  apply o_agt_inv in E. destruct t' as [tl|]; [|discriminate]. destruct (o_tgt h tl) as [tv|] eqn:Et; cbn [bind]; [|discriminate].
  apply o_tgt_inv in Et. intros H; injection H as <- <- <-. eauto.
Qed.
Lemma shown_make (h : list (obj A)) l x t b tl : nth_error h l = Some (OAgt x (Some tl) b) -> nth_error h tl = Some (OTgt t) -> shown h l = Ok (x, t, b).
Proof. intros H1 H2. unfold shown, o_agt, o_tgt. rewrite H1. cbn [bind]. rewrite H2. reflexivity. Qed.
Lemma shown_keeps (wr ar : nat -> Prop) (h h' : list (obj A)) l v : keeps wr ar h h' -> ~ wr l -> shown h l = Ok v -> shown h' l = Ok v.
Proof.
  intros [_ K] N H. destruct v as [[x t] b]. apply shown_inv in H. destruct H as (tl & H1 & H2).
  eapply shown_make; [apply K; [exact H1|exact N]|apply K; [exact H2|exact I]].
Qed.
Lemma deep_keeps (wr ar : nat -> Prop) (h h' : list (obj A)) l v : keeps wr ar h h' -> ~ wr l -> (forall x, x < List.length h -> ~ ar x) -> deep h l = Ok v -> deep h' l = Ok v.
Proof.
  intros K N Na. unfold deep. destruct (shown h l) as [[[x t] b]|] eqn:E; cbn [bind]; [|discriminate].
  rewrite (shown_keeps _ _ _ _ _ _ K N E). cbn [bind].
  destruct (o_arr h x) as [a|] eqn:Ea; cbn [bind]; [|discriminate]. intros <-. apply o_arr_inv in Ea.
  assert (Hx : nth_error h' x = Some (OArr a)).
  { apply K; [exact Ea|]. apply Na. apply nth_error_Some. congruence. }
  unfold o_arr. rewrite Hx. reflexivity.
Qed.
Lemma whole_lt (h : list (obj A)) l : whole h l -> l < List.length h.
Proof.
  intros [[[x t] b] H]. apply shown_inv in H. destruct H as (tl & H & _). apply nth_error_Some. congruence.
Qed.
Lemma whole_app h m l : whole h l -> whole (h ++ m) l.
Proof. intros [v H]. exists v. eapply (shown_keeps (fun _ => False) any); [apply keeps_app|tauto|exact H]. Qed.

(** ** The optimizer's own steps *)
Lemma run_pbind {Y Z} (p : prog Y) (f : Y -> prog Z) : forall s, run (pbind p f) s = let* (y, s') := run p s in run (f y) s'.
Proof.
  induction p as [y0|e|k IH|o k IH|l a k IH|l t k IH|l b k IH|a j v k IH|q k IH|g k IH|x k IH|k IH]; intros s; cbn [run pbind]; try reflexivity; try (apply IH).
  - destruct (put_agt _ _ _); cbn [bind]; [apply IH|reflexivity].
  - destruct (put_agt _ _ _); cbn [bind]; [apply IH|reflexivity].
  - destruct (put_agt _ _ _); cbn [bind]; [apply IH|reflexivity].
  - destruct (put_elem _ _ _ _); cbn [bind]; [apply IH|reflexivity].
Qed.
Lemma run_read {Y} (r : hst -> res Y) s : run (read r) s = let* y := r s in Ok (y, s).
Proof. unfold read. cbn [run]. destruct (r s); reflexivity. Qed.

Lemma w_hp_id (s : hst) : w_hp s (hp s) = s.
Proof. destruct s; reflexivity. Qed.

Lemma run_copy l (s : hst) c s' : run (copy l) s = Ok (c, s') ->
  exists x t b, shown (hp s) l = Ok (x, t, b) /\ c = S (List.length (hp s)) /\
    s' = w_hp s (hp s ++ [OTgt (target_copy t); OAgt x (Some (List.length (hp s))) b]).
Proof.
  unfold copy. rewrite run_pbind, run_read. fold (shown (hp s) l).
  destruct (shown (hp s) l) as [[[x t] b]|]; cbn [bind]; [|discriminate].
  cbn. intros H; injection H as <- <-. exists x, t, b. split; [reflexivity|].
  rewrite app_length; cbn [List.length]. split; [lia|]. rewrite <- app_assoc. reflexivity.
Qed.

(** A copy: a new agent on the same array, with an equal target. *)
Lemma copy_shown l (s : hst) c s' : run (copy l) s = Ok (c, s') ->
  exists m x t b, s' = w_hp s (hp s ++ m) /\ List.length (hp s) <= c /\
    shown (hp s) l = Ok (x, t, b) /\ shown (hp s') c = Ok (x, target_copy t, b).
Proof.
  intros H. destruct (run_copy _ _ _ _ H) as (x & t & b & Hs & -> & ->).
  exists [OTgt (target_copy t); OAgt x (Some (List.length (hp s))) b], x, t, b.
  split; [reflexivity|]. split; [lia|]. split; [exact Hs|]. cbn [hp w_hp].
  eapply shown_make with (tl := List.length (hp s)).
  - rewrite nth_error_app2 by lia. replace (S (List.length (hp s)) - List.length (hp s)) with 1 by lia. reflexivity.
  - rewrite nth_error_app2 by lia. rewrite Nat.sub_diag. reflexivity.
Qed.
Lemma run_copies ls : forall (s : hst) cs s', run (copies ls) s = Ok (cs, s') ->
  exists m, s' = w_hp s (hp s ++ m) /\ Forall (fun c => List.length (hp s) <= c /\ whole (hp s') c) cs /\
    List.length cs = List.length ls.
Proof.
  induction ls as [|l ls IH]; intros s cs s'; cbn [copies].
  - cbn. intros H; injection H as <- <-. exists []. rewrite app_nil_r, w_hp_id. auto.
  - rewrite run_pbind. destruct (run (copy l) s) as [[c s1]|] eqn:E1; cbn [bind]; [|discriminate].
    rewrite run_pbind. destruct (run (copies ls) s1) as [[cs1 s2]|] eqn:E2; cbn [bind]; [|discriminate].
    cbn. intros H; injection H as <- <-.
    destruct (copy_shown _ _ _ _ E1) as (m1 & x & t & b & -> & Hc & _ & Hsh).
    destruct (IH _ _ _ E2) as (m2 & -> & F & L). cbn in *. exists (m1 ++ m2). rewrite app_assoc. split; [reflexivity|]. split; [|lia].
    constructor.
    + split; [exact Hc|]. apply whole_app. eexists; exact Hsh.
    + eapply Forall_impl; [|exact F]. cbn. intros k [Hk Hw]. split; [rewrite app_length in Hk; lia|exact Hw].
Qed.

Lemma map_res_In {T U} (f : T -> res U) l r : map_res f l = Ok r -> forall y, In y r -> exists x, In x l /\ f x = Ok y.
Proof.
  revert r; induction l as [|x l IH]; cbn; intros r H y Hy.
  - injection H as <-. destruct Hy.
  - destruct (f x) as [u|] eqn:E; cbn [bind] in H; [|discriminate]. destruct (map_res f l) as [us|] eqn:E2; cbn [bind] in H; [|discriminate].
    injection H as <-. destruct Hy as [<-|Hy]; [exists x; auto|]. destruct (IH _ eq_refl _ Hy) as (z & Hz & Ez). exists z; auto.
Qed.
Lemma map_res_Ok {T U} (f : T -> res U) l r : map_res f l = Ok r -> forall x, In x l -> exists y, f x = Ok y.
Proof.
  revert r; induction l as [|x l IH]; cbn; intros r H z Hz; [destruct Hz|].
  destruct (f x) as [u|] eqn:E; cbn [bind] in H; [|discriminate]. destruct (map_res f l) as [us|] eqn:E2; cbn [bind] in H; [|discriminate].
  destruct Hz as [<-|Hz]; [eauto|]. eapply IH; eauto.
Qed.
Lemma getitem_In {T} (l : list T) i x : getitem l i = Ok x -> In x l.
Proof. unfold getitem. destruct (nth_error l i) eqn:E; [|discriminate]. intros H; injection H as <-. eapply nth_error_In; eauto. Qed.
Lemma o_fit_whole (h : list (obj A)) l f : o_fit h l = Ok f -> whole h l.
Proof.
  unfold o_fit, whole, shown. destruct (o_agt h l) as [[[x t] b]|]; cbn [bind]; [|discriminate].
  destruct t as [tl|]; [|discriminate]. destruct (o_tgt h tl) as [tv|]; cbn [bind]; [|discriminate]. intros _. eauto.
Qed.

Variable argsort : list f64 -> list nat.
Variable mm : minmax.
Lemma sorted_refs_In h pop sp : sorted_refs argsort mm h pop = Ok sp -> Forall (fun l => In l pop) sp /\ Forall (whole h) pop.
Proof.
  unfold sorted_refs. destruct (map_res (o_fit h) pop) as [fits|] eqn:E; cbn [bind]; [|discriminate]. intros H. split.
  - apply Forall_forall. intros l Hl. destruct (map_res_In _ _ _ H _ Hl) as (i & _ & Hi). eapply getitem_In; eauto.
  - apply Forall_forall. intros l Hl. destruct (map_res_Ok _ _ _ E _ Hl) as (f & Hf). eapply o_fit_whole; eauto.
Qed.
Lemma last_item_In {T} (l : list T) x : last_item l = Ok x -> In x l.
Proof.
  unfold last_item. destruct (rev l) as [|y r] eqn:E; [discriminate|]. intros H; injection H as <-.
  apply in_rev. rewrite E. left; reflexivity.
Qed.
Lemma run_better x y r (s : hst) c s' : run (better_ref mm x y r) s = Ok (c, s') -> exists z, (z = x \/ z = y) /\ run (copy z) s = Ok (c, s').
Proof.
  unfold better_ref. rewrite run_pbind, run_read.
  destruct (match mm with Min => Ok false | Max => Ok true | Other => Err KeyError end) as [i|]; cbn [bind]; [|discriminate].
  destruct (o_fit (hp s) x) as [fx|]; cbn [bind]; [|discriminate]. destruct (o_fit (hp s) y) as [fy|]; cbn [bind]; [|discriminate].
  destruct (xorb i r), (flt fx fy); intros H; eauto.
Qed.

Lemma hbind_inv {Y Z} (m : hst -> res (Y * hst)) (f : Y -> hst -> res (Z * hst)) s z s' :
  hbind m f s = Ok (z, s') -> exists y s1, m s = Ok (y, s1) /\ f y s1 = Ok (z, s').
Proof. unfold hbind. destruct (m s) as [[y s1]|]; cbn [bind]; [eauto|discriminate]. Qed.
Lemma hread_inv {Y} (r : hst -> res Y) s y s' : hread r s = Ok (y, s') -> r s = Ok y /\ s' = s.
Proof. unfold hread. destruct (r s); cbn [bind]; [|discriminate]. intros H; injection H as <- <-; auto. Qed.

Lemma update_inv (s : hst) sp better s' : h_update argsort mm s = Ok ((sp, better), s') ->
  exists m worse cb cw gb gw,
    s' = w_hist (w_hp s (hp s ++ m)) (lgb s ++ [better]) (lcb s ++ [cb]) (lgw s ++ [worse]) (lcw s ++ [cw]) /\
    Forall (fun l => In l (po s)) sp /\ Forall (whole (hp s)) (po s) /\ In cb (po s) /\ In cw (po s) /\
    last_item (lgb s) = Ok gb /\ last_item (lgw s) = Ok gw /\
    (exists z x t b, (z = cb \/ z = gb) /\ List.length (hp s) <= better /\
       shown (hp s) z = Ok (x, t, b) /\ shown (hp s') better = Ok (x, target_copy t, b)) /\
    (exists z x t b, (z = cw \/ z = gw) /\ List.length (hp s) <= worse /\
       shown (hp s') z = Ok (x, t, b) /\ shown (hp s') worse = Ok (x, target_copy t, b)).
Proof.
  unfold h_update. intros H.
  apply hbind_inv in H. destruct H as (sp0 & s0 & H0 & H). apply hread_inv in H0. destruct H0 as [Hsp ->].
  apply hbind_inv in H. destruct H as (cb & s0 & H0 & H). apply hread_inv in H0. destruct H0 as [Hcb ->].
  apply hbind_inv in H. destruct H as (cw & s0 & H0 & H). apply hread_inv in H0. destruct H0 as [Hcw ->].
  apply hbind_inv in H. destruct H as (gb & s0 & H0 & H). apply hread_inv in H0. destruct H0 as [Hgb ->].
  apply hbind_inv in H. destruct H as (be & s1 & H1 & H). apply run_better in H1. destruct H1 as (z1 & Hz1 & H1).
  apply copy_shown in H1. destruct H1 as (m1 & x1 & t1 & b1 & -> & L1 & S1 & S1').
  apply hbind_inv in H. destruct H as (gw & s0 & H0 & H). apply hread_inv in H0. destruct H0 as [Hgw ->].
  apply hbind_inv in H. destruct H as (wo & s2 & H2 & H). apply run_better in H2. destruct H2 as (z2 & Hz2 & H2).
  apply copy_shown in H2. destruct H2 as (m2 & x2 & t2 & b2 & -> & L2 & S2 & S2').
  unfold hbind, hput in H. cbn in H. injection H as <- <- <-. cbn in *.
  destruct (sorted_refs_In _ _ _ Hsp) as [Fs Fw].
  exists (m1 ++ m2), wo, cb, cw, gb, gw. rewrite app_assoc. split; [reflexivity|]. split; [exact Fs|]. split; [exact Fw|].
  rewrite Forall_forall in Fs. split; [apply Fs; eapply getitem_In; eauto|]. split; [apply Fs; eapply last_item_In; eauto|].
  split; [exact Hgb|]. split; [exact Hgw|]. split.
  - exists z1, x1, t1, b1. repeat split; auto. cbn.
    eapply (shown_keeps (fun _ => False) any); [apply keeps_app|tauto|exact S1'].
  - exists z2, x2, t2, b2. repeat split; auto; cbn.
    + rewrite app_length in L2. lia.
    + eapply (shown_keeps (fun _ => False) any); [apply keeps_app|tauto|exact S2].
Qed.

Lemma epoch_inv sort save evolve ep (s s' : hst) : h_epoch argsort mm sort save evolve ep s = Ok (tt, s') ->
  exists s1 sp better s2 m,
    run (evolve ep) s = Ok (tt, s1) /\ h_update argsort mm s1 = Ok ((sp, better), s2) /\
    hp s' = hp s2 ++ m /\ gbr s' = Some better /\ po s' = (if sort then sp else po s2) /\
    lgb s' = lgb s2 /\ lcb s' = lcb s2 /\ lgw s' = lgw s2 /\ lcw s' = lcw s2 /\
    exists ds, lpo s' = lpo s2 ++ ds /\ Forall (Forall (fun c => List.length (hp s2) <= c /\ whole (hp s') c)) ds.
Proof.
  unfold h_epoch. intros H.
  apply hbind_inv in H. destruct H as (u & s1 & H1 & H). destruct u.
  apply hbind_inv in H. destruct H as ([sp be] & s2 & H2 & H).
  unfold hbind, hput in H. cbn [bind] in H. exists s1, sp, be, s2.
  assert (G : forall s3 : hst, s3 = (if sort then w_po (w_gb s2 (Some be)) sp else w_gb s2 (Some be)) ->
     hp s3 = hp s2 /\ gbr s3 = Some be /\ po s3 = (if sort then sp else po s2) /\ lgb s3 = lgb s2 /\ lcb s3 = lcb s2 /\
     lgw s3 = lgw s2 /\ lcw s3 = lcw s2 /\ lpo s3 = lpo s2).
  { intros s3 ->. destruct sort; cbn; auto 9. }
  destruct save.
  - destruct (run (copies _) _) as [[d s3]|] eqn:Ec; cbn [bind] in H; [|discriminate]. injection H as <-.
    destruct (run_copies _ _ _ _ Ec) as (m & -> & F & _). destruct (G _ eq_refl) as (g1 & g2 & g3 & g4 & g5 & g6 & g7 & g8).
    exists m. cbn in *. rewrite g1 in F. rewrite g1, g2, g3, g4, g5, g6, g7, g8. repeat (split; [auto; fail|]).
    exists [d]. split; [reflexivity|]. constructor; [exact F|constructor].
  - injection H as <-. destruct (G _ eq_refl) as (g1 & g2 & g3 & g4 & g5 & g6 & g7 & g8).
    exists []. rewrite app_nil_r. repeat (split; [auto; fail|]). exists []. rewrite app_nil_r. auto.
Qed.
End PHeap.
