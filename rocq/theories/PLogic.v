(** A total-correctness program logic for the optimizer monad. *)
From Verif Require Import Prelude Fl MCore SpecCore PSelect.

(** [wp m Q s]: running [m] from [s] raises nothing and ends in a result satisfying [Q]. *)
Definition wp {A X Y} (m : M A X Y) (Q : Y -> st A X -> Prop) (s : st A X) : Prop :=
  match m s with Ok (y, s') => Q y s' | Err _ => False end.

(** Only the draw counter differs. *)
Definition bump {A X} (s : st A X) (k : nat) : st A X :=
  mkSt (s_pop s) (s_gb s) (s_gw s) (s_hist s) (s_nfe s) k (s_log s) (s_x s).

Section Rules.
Context {A X : Type}.
Implicit Types s : st A X.

Lemma wp_elim {Y} (m : M A X Y) Q s : wp m Q s -> exists y s', m s = Ok (y, s') /\ Q y s'.
Proof. unfold wp; destruct (m s) as [[y s']|e]; intros H; [eauto|contradiction]. Qed.
Lemma wp_intro {Y} (m : M A X Y) (Q : Y -> st A X -> Prop) s y s' : m s = Ok (y, s') -> Q y s' -> wp m Q s.
Proof. unfold wp; intros -> H; exact H. Qed.
Lemma wp_mono {Y} (m : M A X Y) (Q Q' : Y -> st A X -> Prop) s :
  wp m Q s -> (forall y s', Q y s' -> Q' y s') -> wp m Q' s.
Proof. unfold wp; destruct (m s) as [[y s']|e]; auto. Qed.
Lemma wp_conj {B} (m : M A X B) (Q R : B -> st A X -> Prop) s :
  wp m Q s -> wp m R s -> wp m (fun b s' => Q b s' /\ R b s') s.
Proof. unfold wp. destruct (m s) as [[b s']|e]; auto. Qed.
Lemma wp_ret {Y} (y : Y) (Q : Y -> st A X -> Prop) s : Q y s -> wp (ret y) Q s.
Proof. intros H; exact H. Qed.
Lemma wp_bind {Y Z} (m : M A X Y) (f : Y -> M A X Z) Q s :
  wp m (fun y s' => wp (f y) Q s') s -> wp (bindM m f) Q s.
Proof. unfold wp, bindM. destruct (m s) as [[y s']|e]; auto. Qed.
Lemma wp_lift {Y} (r : res Y) (Q : Y -> st A X -> Prop) s y : r = Ok y -> Q y s -> wp (lift r) Q s.
Proof. intros -> H; exact H. Qed.
Lemma wp_when b (m : M A X unit) Q s : (b = true -> wp m Q s) -> (b = false -> Q tt s) -> wp (when b m) Q s.
Proof. destruct b; simpl; intros H1 H2; [apply H1; reflexivity|apply H2; reflexivity]. Qed.

Lemma wp_for_acc {B} n i (b : B) body (I : nat -> B -> st A X -> Prop) (Q : B -> st A X -> Prop) s :
  I i b s ->
  (forall k b' s', i <= k < i + n -> I k b' s' -> wp (body k b') (fun b'' s'' => I (S k) b'' s'') s') ->
  (forall b' s', I (i + n) b' s' -> Q b' s') ->
  wp (for_acc n i b body) Q s.
Proof.
  revert i b s; induction n as [|n IH]; intros i b s HI Hb HQ; simpl.
  - apply wp_ret. apply HQ. rewrite Nat.add_0_r; exact HI.
  - apply wp_bind. eapply wp_mono; [apply Hb; [lia|exact HI]|].
    intros y s' Hy; simpl in Hy. apply IH; [exact Hy| |].
    + intros k b' s'' Hk; apply Hb; lia.
    + intros b' s''. replace (S i + n) with (i + S n) by lia. apply HQ.
Qed.

Lemma wp_for n body (I : nat -> st A X -> Prop) (Q : unit -> st A X -> Prop) s :
  I 0 s ->
  (forall k s', k < n -> I k s' -> wp (body k) (fun _ s'' => I (S k) s'') s') ->
  (forall s', I n s' -> Q tt s') ->
  wp (for_ n body) Q s.
Proof.
  intros H0 Hb HQ. unfold for_. apply wp_for_acc with (I := fun k _ s => I k s).
  - exact H0.
  - intros k b' s' Hk Hi. apply Hb; [lia|exact Hi].
  - intros [] s' H. apply HQ. exact H.
Qed.

(** [I] indexed by the already processed prefix. *)
Lemma wp_for_list {B T} (l : list T) (b : B) body (I : list T -> B -> st A X -> Prop) (Q : B -> st A X -> Prop) s :
  I [] b s ->
  (forall pre x suf b' s', l = pre ++ x :: suf -> I pre b' s' ->
     wp (body x b') (fun b'' s'' => I (pre ++ [x]) b'' s'') s') ->
  (forall b' s', I l b' s' -> Q b' s') ->
  wp (for_list l b body) Q s.
Proof.
  intros H0 Hb HQ.
  assert (G : forall suf pre b s, l = pre ++ suf -> I pre b s -> wp (for_list suf b body) Q s).
  { induction suf as [|x suf IH]; intros pre b' s' E HI; simpl.
    - apply wp_ret. apply HQ. rewrite app_nil_r in E; subst; exact HI.
    - apply wp_bind. eapply wp_mono; [eapply Hb; [exact E|exact HI]|].
      intros b'' s'' H; simpl in H. apply IH with (pre := pre ++ [x]).
      + rewrite <- app_assoc; exact E.
      + exact H. }
  apply G with (pre := []); auto.
Qed.

Lemma wp_tick (Q : nat -> st A X -> Prop) s : (forall k, Q k (bump s (S k))) -> wp tick Q s.
Proof. intros H. unfold wp, tick. apply (H (s_ctr s)). Qed.
Lemma wp_get (Q : st A X -> st A X -> Prop) s : Q s s -> wp get Q s.
Proof. intros H; exact H. Qed.
Lemma wp_get_pop (Q : list (agent A) -> st A X -> Prop) s : Q (s_pop s) s -> wp get_pop Q s.
Proof. intros H; exact H. Qed.
Lemma wp_get_x (Q : X -> st A X -> Prop) s : Q (s_x s) s -> wp get_x Q s.
Proof. intros H; exact H. Qed.
Lemma wp_get_gb (Q : agent A -> st A X -> Prop) s g : s_gb s = Some g -> Q g s -> wp get_gb Q s.
Proof. intros E H. unfold wp, get_gb. rewrite E; exact H. Qed.
Lemma wp_pop_at i (Q : agent A -> st A X -> Prop) s :
  i < List.length (s_pop s) ->
  (forall a, nth_error (s_pop s) i = Some a -> In a (s_pop s) -> Q a s) -> wp (pop_at i) Q s.
Proof.
  intros Hi H. destruct (getitem_lt (s_pop s) i Hi) as (a & E1 & E2 & E3).
  unfold pop_at. apply wp_bind, wp_get_pop. eapply wp_lift; [exact E1|]. apply H; assumption.
Qed.
Lemma wp_pop_set i a (Q : unit -> st A X -> Prop) s :
  i < List.length (s_pop s) ->
  Q tt (mkSt (upd (s_pop s) i a) (s_gb s) (s_gw s) (s_hist s) (s_nfe s) (s_ctr s) (s_log s) (s_x s)) ->
  wp (pop_set i a) Q s.
Proof.
  intros Hi H. unfold pop_set. apply wp_bind, wp_get_pop. apply wp_bind.
  apply wp_lift with (y := upd (s_pop s) i a).
  - unfold setitem. apply Nat.ltb_lt in Hi. rewrite Hi. reflexivity.
  - exact H.
Qed.
End Rules.

Section Draws.
Context {A X : Type}.
Variable E : env.
Variable P : problem.
Implicit Types s : st A X.

Lemma wp_uniform (Q : f64 -> st A X -> Prop) s : (forall u k, Q u (bump s k)) -> wp (uniform E) Q s.
Proof. intros H. unfold uniform. apply wp_bind, wp_tick. intros k. apply wp_ret, H. Qed.
Lemma wp_gauss (Q : f64 -> st A X -> Prop) s : (forall u k, Q u (bump s k)) -> wp (gauss E) Q s.
Proof. intros H. unfold gauss. apply wp_bind, wp_tick. intros k. apply wp_ret, H. Qed.
Lemma wp_integers lo hi (Q : nat -> st A X -> Prop) s :
  lo < hi -> (forall i k, lo <= i < hi -> Q i (bump s k)) -> wp (integers E lo hi) Q s.
Proof.
  intros Hlt H. unfold integers. destruct (hi <=? lo) eqn:El; [apply Nat.leb_le in El; lia|].
  apply wp_bind, wp_tick. intros k. apply wp_ret, H.
  pose proof (Nat.mod_upper_bound (e_i E k) (hi - lo)). lia.
Qed.
Lemma wp_choice1 {T} (l : list T) (Q : T -> st A X -> Prop) s :
  l <> [] -> (forall x k, In x l -> Q x (bump s k)) -> wp (choice1 E l) Q s.
Proof.
  intros Hne H. unfold choice1. destruct l as [|d l']; [congruence|].
  apply wp_bind, wp_tick. intros k. apply wp_ret, H. apply nth_In.
  apply Nat.mod_upper_bound. discriminate.
Qed.

Lemma remove_at_length {T} i (l : list T) : i < List.length l -> S (List.length (remove_at i l)) = List.length l.
Proof.
  intros H. unfold remove_at. rewrite app_length, firstn_length, skipn_length. lia.
Qed.
Lemma remove_at_perm {T} i (l : list T) d : i < List.length l -> Permutation (nth i l d :: remove_at i l) l.
Proof.
  intros H. unfold remove_at.
  transitivity (firstn i l ++ nth i l d :: skipn (S i) l).
  - apply Permutation_middle.
  - replace (nth i l d :: skipn (S i) l) with (skipn i l).
    + rewrite firstn_skipn; reflexivity.
    + clear - H. revert i H; induction l as [|a l IH]; intros [|i] H; simpl in *; try lia; auto.
      apply IH; lia.
Qed.

(** Sampling without replacement: [n] elements, leaving a rest. *)
Lemma wp_choice_noreplace {T} (l : list T) n (Q : list T -> st A X -> Prop) s :
  n <= List.length l ->
  (forall r rest k, List.length r = n -> Permutation (r ++ rest) l -> Q r (bump s k)) ->
  wp (choice_noreplace E l n) Q s.
Proof.
  revert l Q s; induction n as [|n IH]; intros l Q s Hn H; simpl.
  - apply wp_ret. specialize (H [] l (s_ctr s) eq_refl (Permutation_refl _)). destruct s; exact H.
  - destruct l as [|d l'] eqn:El; [simpl in Hn; lia|]. rewrite <- El in *.
    apply wp_bind, wp_tick. intros k. apply wp_bind.
    set (i := e_i E k mod List.length l).
    assert (Hi : i < List.length l) by (apply Nat.mod_upper_bound; rewrite El; discriminate).
    apply IH.
    + pose proof (remove_at_length i l Hi). lia.
    + intros r rest k' Hr HP. apply wp_ret. apply (H (nth i l d :: r) rest).
      * simpl; lia.
      * simpl. rewrite HP. apply remove_at_perm; exact Hi.
Qed.

Lemma wp_uniform_vec n (Q : vec -> st A X -> Prop) s :
  (forall v k, List.length v = n -> Q v (bump s k)) -> wp (uniform_vec E n) Q s.
Proof.
  intros H. unfold uniform_vec.
  apply wp_for_acc with (I := fun i acc s' => List.length acc = i /\ exists k, s' = bump s k).
  - split; [reflexivity|]. exists (s_ctr s). destruct s; reflexivity.
  - intros k b s' _ [Hl [k' ->]]. apply wp_bind, wp_uniform. intros u k''. apply wp_ret.
    split; [rewrite app_length; simpl; lia|]. exists k''; reflexivity.
  - intros b s' [Hl [k ->]]. apply H. exact Hl.
Qed.
Lemma wp_gauss_vec n (Q : vec -> st A X -> Prop) s :
  (forall v k, List.length v = n -> Q v (bump s k)) -> wp (gauss_vec E n) Q s.
Proof.
  intros H. unfold gauss_vec.
  apply wp_for_acc with (I := fun i acc s' => List.length acc = i /\ exists k, s' = bump s k).
  - split; [reflexivity|]. exists (s_ctr s). destruct s; reflexivity.
  - intros k b s' _ [Hl [k' ->]]. apply wp_bind, wp_gauss. intros u k''. apply wp_ret.
    split; [rewrite app_length; simpl; lia|]. exists k''; reflexivity.
  - intros b s' [Hl [k ->]]. apply H. exact Hl.
Qed.
End Draws.
