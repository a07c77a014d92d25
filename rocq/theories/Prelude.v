(** Shared vocabulary: Python exceptions as values, list helpers.
    Nothing in this file models a particular function of mealpy. *)
From Coq Require Export List Arith ZArith Lia Bool String Permutation Sorted.
Export ListNotations.
Open Scope list_scope.

(** Python exception classes that the modelled code can raise. *)
Inductive exn :=
| ValueError | TypeError | KeyError | IndexError | AttributeError
| ZeroDivisionError | NotImplementedError | OverflowError | StopIteration
| Endless.  (* not a Python exception: the call was still running after the number of steps given to the model *)

(** Outcome of a Python call: a value or an exception. *)
Inductive res (A : Type) :=
| Ok (a : A)
| Err (e : exn).
Arguments Ok {A} a.
Arguments Err {A} e.

Definition bind {A B} (r : res A) (f : A -> res B) : res B :=
  match r with Ok a => f a | Err e => Err e end.
Notation "'let*' x ':=' a 'in' b" := (bind a (fun x => b))
  (at level 61, x pattern, a at next level, right associativity).

Definition is_ok {A} (r : res A) : bool := match r with Ok _ => true | Err _ => false end.

(** [for x in l: out.append(f(x))] where [f] may raise. *)
Fixpoint map_res {A B} (f : A -> res B) (l : list A) : res (list B) :=
  match l with
  | [] => Ok []
  | x :: r => let* y := f x in let* ys := map_res f r in Ok (y :: ys)
  end.

(** Python indexing [l[i]] for a non-negative index: IndexError when out of range. *)
Definition getitem {A} (l : list A) (i : nat) : res A :=
  match nth_error l i with Some x => Ok x | None => Err IndexError end.

(** Python item assignment [l[i] = x] for a non-negative index. *)
Fixpoint upd {A} (l : list A) (i : nat) (x : A) : list A :=
  match l, i with
  | [], _ => []
  | _ :: r, O => x :: r
  | y :: r, S j => y :: upd r j x
  end.
Definition setitem {A} (l : list A) (i : nat) (x : A) : res (list A) :=
  if i <? List.length l then Ok (upd l i x) else Err IndexError.

(** Python slice [l[i:j]] for non-negative bounds. *)
Definition slice {A} (i j : nat) (l : list A) : list A := firstn (j - i) (skipn i l).

(** Last element, as [l[-1]]. *)
Definition last_item {A} (l : list A) : res A :=
  match rev l with x :: _ => Ok x | [] => Err IndexError end.

(** [l[-1] = x]. *)
Definition set_last {A} (l : list A) (x : A) : res (list A) :=
  match rev l with _ :: r => Ok (rev (x :: r)) | [] => Err IndexError end.

Lemma map_res_ok_length {A B} (f : A -> res B) l ys :
  map_res f l = Ok ys -> List.length ys = List.length l.
Proof.
  revert ys; induction l as [|x r IH]; simpl; intros ys H; [inversion H; reflexivity|].
  destruct (f x) as [y|e]; simpl in H; [|discriminate].
  destruct (map_res f r) as [zs|e]; simpl in H; [|discriminate].
  inversion H; subst; simpl; rewrite (IH zs eq_refl); reflexivity.
Qed.

Lemma map_res_Forall2 {A B} (f : A -> res B) l ys :
  map_res f l = Ok ys <-> Forall2 (fun x y => f x = Ok y) l ys.
Proof.
  revert ys; induction l as [|x r IH]; simpl; intros ys; split; intros H.
  - inversion H; constructor.
  - inversion H; reflexivity.
  - destruct (f x) as [y|e] eqn:Ef; simpl in H; [|discriminate].
    destruct (map_res f r) as [zs|e]; simpl in H; [|discriminate].
    inversion H; subst; constructor; [exact Ef|]. apply IH; reflexivity.
  - inversion H; subst. rewrite H2; simpl. apply IH in H4. rewrite H4; reflexivity.
Qed.

Lemma map_res_all_ok {A B} (f : A -> res B) (g : A -> B) l :
  (forall x, In x l -> f x = Ok (g x)) -> map_res f l = Ok (map g l).
Proof.
  induction l as [|x r IH]; simpl; intros H; [reflexivity|].
  rewrite (H x (or_introl eq_refl)); simpl.
  rewrite IH; [reflexivity|]. intros y Hy; apply H; right; exact Hy.
Qed.

Lemma upd_length {A} (l : list A) i x : List.length (upd l i x) = List.length l.
Proof. revert i; induction l as [|y r IH]; intros [|i]; simpl; auto. Qed.

Lemma upd_nth_eq {A} (l : list A) i x : i < List.length l -> nth_error (upd l i x) i = Some x.
Proof. revert i; induction l as [|y r IH]; intros [|i]; simpl; intros H; try lia; auto. apply IH; lia. Qed.

Lemma upd_nth_neq {A} (l : list A) i j x : i <> j -> nth_error (upd l i x) j = nth_error l j.
Proof. revert i j; induction l as [|y r IH]; intros [|i] [|j] H; simpl; try lia; auto. Qed.

Lemma upd_Forall {A} (P : A -> Prop) (l : list A) i x : Forall P l -> P x -> Forall P (upd l i x).
Proof.
  intros H Hx; revert i; induction H as [|y r Hy Hr IH]; intros [|i]; simpl; constructor; auto.
Qed.

Lemma upd_In {A} (l : list A) i x y : In y (upd l i x) -> y = x \/ In y l.
Proof.
  revert i; induction l as [|z r IH]; intros [|i]; simpl; try tauto.
  - intros [->|H]; tauto.
  - intros [->|H]; [tauto|]. destruct (IH _ H); tauto.
Qed.

Lemma getitem_ok {A} (l : list A) i x : getitem l i = Ok x <-> nth_error l i = Some x.
Proof. unfold getitem; destruct (nth_error l i); split; intros H; inversion H; reflexivity. Qed.

Lemma getitem_lt {A} (l : list A) i : i < List.length l -> exists x, getitem l i = Ok x /\ nth_error l i = Some x /\ In x l.
Proof.
  intros H. destruct (nth_error l i) as [x|] eqn:E.
  - exists x; unfold getitem; rewrite E; repeat split. eapply nth_error_In; eauto.
  - apply nth_error_None in E; lia.
Qed.

Lemma last_item_app {A} (l : list A) x : last_item (l ++ [x]) = Ok x.
Proof. unfold last_item; rewrite rev_app_distr; reflexivity. Qed.

Lemma last_item_nonempty {A} (l : list A) : l <> [] -> exists x l', l = l' ++ [x] /\ last_item l = Ok x.
Proof.
  intros H. destruct (exists_last H) as (l' & x & E). exists x, l'; split; [exact E|].
  rewrite E; apply last_item_app.
Qed.

Lemma set_last_app {A} (l : list A) x y : set_last (l ++ [x]) y = Ok (l ++ [y]).
Proof. unfold set_last; rewrite rev_app_distr; simpl. rewrite rev_involutive; reflexivity. Qed.
