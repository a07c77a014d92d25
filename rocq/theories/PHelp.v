(** Lemmas about np.max / np.min of lists and binary64 identities used by the helper properties. *)
From Coq Require Import Reals Lra.
From Verif Require Import Prelude Fl FlArith MCore MHelp SpecCore.
From Flocq Require Import Core BinarySingleNaN.
Local Open Scope R_scope.

Lemma fmax_fold l a : fisnan a = false -> (forall x, In x l -> fisnan x = false) ->
  let m := fold_left (fun m x => if fisnan m then m else if fisnan x then x else if flt m x then x else m) l a in
  fisnan m = false /\ (m = a \/ In m l) /\ FR a <= FR m /\ forall x, In x l -> FR x <= FR m.
Proof.
  revert a. induction l as [|b l IH]; intros a Na Nl; simpl.
  - repeat split; auto; [lra|intros x []].
  - rewrite Na, (Nl b) by (left; reflexivity).
    destruct (flt a b) eqn:C.
    + destruct (IH b (Nl b (or_introl eq_refl)) (fun x H => Nl x (or_intror H))) as (N & I & L & U).
      apply flt_FR in C; auto; [|apply Nl; left; reflexivity].
      split; [exact N|]. split; [destruct I as [->|I]; auto|]. split; [lra|]. intros x [<-|Hx]; auto.
    + destruct (IH a Na (fun x H => Nl x (or_intror H))) as (N & I & L & U).
      apply flt_false_FR in C; auto; [|apply Nl; left; reflexivity].
      split; [exact N|]. split; [destruct I as [->|I]; auto|]. split; [lra|]. intros x [<-|Hx]; [lra|auto].
Qed.
Lemma fmaxl_spec l : l <> [] -> (forall x, In x l -> fisnan x = false) ->
  fisnan (fmaxl l) = false /\ In (fmaxl l) l /\ forall x, In x l -> FR x <= FR (fmaxl l).
Proof.
  destruct l as [|a l]; [congruence|]. intros _ H. unfold fmaxl; simpl.
  destruct (fmax_fold l a (H a (or_introl eq_refl)) (fun x Hx => H x (or_intror Hx))) as (N & I & L & U).
  split; [exact N|]. split; [destruct I as [->|I]; auto|]. intros x [<-|Hx]; auto.
Qed.
Lemma fmin_fold l a : fisnan a = false -> (forall x, In x l -> fisnan x = false) ->
  let m := fold_left (fun m x => if fisnan m then m else if fisnan x then x else if flt x m then x else m) l a in
  fisnan m = false /\ (m = a \/ In m l) /\ FR m <= FR a /\ forall x, In x l -> FR m <= FR x.
Proof.
  revert a. induction l as [|b l IH]; intros a Na Nl; simpl.
  - repeat split; auto; [lra|intros x []].
  - rewrite Na, (Nl b) by (left; reflexivity).
    destruct (flt b a) eqn:C.
    + destruct (IH b (Nl b (or_introl eq_refl)) (fun x H => Nl x (or_intror H))) as (N & I & L & U).
      apply flt_FR in C; auto; [|apply Nl; left; reflexivity].
      split; [exact N|]. split; [destruct I as [->|I]; auto|]. split; [lra|]. intros x [<-|Hx]; auto.
    + destruct (IH a Na (fun x H => Nl x (or_intror H))) as (N & I & L & U).
      apply flt_false_FR in C; auto; [|apply Nl; left; reflexivity].
      split; [exact N|]. split; [destruct I as [->|I]; auto|]. split; [lra|]. intros x [<-|Hx]; [lra|auto].
Qed.
Lemma fminl_spec l : l <> [] -> (forall x, In x l -> fisnan x = false) ->
  fisnan (fminl l) = false /\ In (fminl l) l /\ forall x, In x l -> FR (fminl l) <= FR x.
Proof.
  destruct l as [|a l]; [congruence|]. intros _ H. unfold fminl; simpl.
  destruct (fmin_fold l a (H a (or_introl eq_refl)) (fun x Hx => H x (or_intror Hx))) as (N & I & L & U).
  split; [exact N|]. split; [destruct I as [->|I]; auto|]. intros x [<-|Hx]; auto.
Qed.
(** A NaN wins. *)
Lemma fmax_fold_nan l a : fisnan a = true ->
  fold_left (fun m x => if fisnan m then m else if fisnan x then x else if flt m x then x else m) l a = a.
Proof. revert a. induction l as [|b l IH]; intros a Na; simpl; [reflexivity|]. rewrite Na. apply IH, Na. Qed.
Lemma fmin_fold_nan l a : fisnan a = true ->
  fold_left (fun m x => if fisnan m then m else if fisnan x then x else if flt x m then x else m) l a = a.
Proof. revert a. induction l as [|b l IH]; intros a Na; simpl; [reflexivity|]. rewrite Na. apply IH, Na. Qed.
Lemma fmaxl_nan l x : In x l -> fisnan x = true -> fisnan (fmaxl l) = true.
Proof.
  destruct l as [|a l]; [intros []|]. unfold fmaxl; simpl. intros H N. revert a H.
  induction l as [|b l IH]; intros a H; simpl.
  - destruct H as [<-|[]]. exact N.
  - destruct (fisnan a) eqn:Na; [rewrite fmax_fold_nan; exact Na|]. destruct H as [<-|H]; [congruence|].
    destruct (fisnan b) eqn:Nb; [rewrite fmax_fold_nan; exact Nb|]. destruct H as [<-|H]; [congruence|].
    destruct (flt a b); apply IH; right; exact H.
Qed.
Lemma fminl_nan l x : In x l -> fisnan x = true -> fisnan (fminl l) = true.
Proof.
  destruct l as [|a l]; [intros []|]. unfold fminl; simpl. intros H N. revert a H.
  induction l as [|b l IH]; intros a H; simpl.
  - destruct H as [<-|[]]. exact N.
  - destruct (fisnan a) eqn:Na; [rewrite fmin_fold_nan; exact Na|]. destruct H as [<-|H]; [congruence|].
    destruct (fisnan b) eqn:Nb; [rewrite fmin_fold_nan; exact Nb|]. destruct H as [<-|H]; [congruence|].
    destruct (flt b a); apply IH; right; exact H.
Qed.

Lemma FR_inf_case x : fisnan x = false -> fisfin x = false -> x = finf \/ x = fninf.
Proof. destruct x as [s|[|]| |s m e H]; intros; try discriminate; auto. Qed.
Lemma fsub_nan_l x y : fisnan x = true -> fisnan (fsub x y) = true.
Proof. destruct x; try discriminate; reflexivity. Qed.
Lemma fsub_nan_r x y : fisnan y = true -> fisnan (fsub x y) = true.
Proof. destruct y; try discriminate. destruct x; reflexivity. Qed.
Lemma fdiv_nan_l x y : fisnan x = true -> fisnan (fdiv x y) = true.
Proof. destruct x; try discriminate; reflexivity. Qed.
Lemma fdiv_nan_r x y : fisnan y = true -> fisnan (fdiv x y) = true.
Proof. destruct y; try discriminate. destruct x; reflexivity. Qed.
Lemma fsub_self_inf x y : fisnan x = false -> fisnan y = false -> fisfin x = false -> FR x = FR y -> fisnan (fsub x y) = true.
Proof.
  intros Nx Ny Fx E. destruct (fisfin y) eqn:Fy.
  - assert (Bx := proj1 (FR_fin_iff y Ny) Fy). rewrite <- E in Bx. apply (FR_fin_iff x Nx) in Bx. congruence.
  - destruct (FR_inf_case x Nx Fx) as [->| ->], (FR_inf_case y Ny Fy) as [->| ->]; try reflexivity;
      exfalso; unfold finf, fninf in E; rewrite FR_pinf, FR_ninf in E; assert (P := bpow_gt_0 radix2 emax); lra.
Qed.
Lemma fsub_self x y : FR x = FR y -> fisnan (fsub x y) = false -> FR (fsub x y) = 0.
Proof.
  intros E N. destruct (fisnan x) eqn:Nx; [rewrite fsub_nan_l in N by exact Nx; discriminate|].
  destruct (fisnan y) eqn:Ny; [rewrite fsub_nan_r in N by exact Ny; discriminate|].
  destruct (fisfin x) eqn:Fx; [|rewrite (fsub_self_inf x y) in N by assumption; discriminate].
  assert (Fy : fisfin y = true). { apply (FR_fin_iff y Ny). rewrite <- E. apply FR_fin_iff; assumption. }
  rewrite (proj2 (fsub_fin x y Fx Fy)), E, Rminus_diag_eq by reflexivity. apply crnd_0.
Qed.
Lemma FR_zero x : fisnan x = false -> FR x = 0 -> exists s, x = B754_zero s.
Proof.
  intros N H. destruct x as [s|[|]| |s m e Hb]; try discriminate.
  - eauto.
  - exfalso. change (FR fninf = 0) in H. unfold fninf in H. rewrite FR_ninf in H. assert (P := bpow_gt_0 radix2 emax). lra.
  - exfalso. change (FR finf = 0) in H. unfold finf in H. rewrite FR_pinf in H. assert (P := bpow_gt_0 radix2 emax). lra.
  - exfalso. rewrite FR_fin in H by reflexivity. simpl in H. apply eq_0_F2R in H. destruct s; discriminate.
Qed.
Lemma fdiv_zero x y : FR x = 0 -> fisnan (fdiv x y) = false -> FR (fdiv x y) = 0.
Proof.
  intros H N. destruct (fisnan x) eqn:Nx; [rewrite fdiv_nan_l in N by exact Nx; discriminate|].
  destruct (FR_zero x Nx H) as [s ->]. destruct y as [s'|s'| |s' m e Hb]; try discriminate; simpl; try reflexivity.
Qed.
Lemma fadd_zero_r x y : FR y = 0 -> fisnan x = false -> fisnan y = false -> fisnan (fadd x y) = false /\ FR (fadd x y) = FR x.
Proof.
  intros H Nx Ny. destruct (FR_zero y Ny H) as [s ->].
  destruct x as [s'|s'| |s' m e Hb]; try discriminate.
  - split; [destruct s, s'; reflexivity|]. destruct s, s'; reflexivity.
  - split; reflexivity.
  - split; reflexivity.
Qed.
