(** Classes with attributes of their own: initialize_variables, before_main_loop, generate_empty_agent. *)
From Verif Require Import Prelude Fl MCore MHelp MAlg SpecCore SpecRun PSelect PLogic PSolve PRun SpecAlg PAlg PFree.

(** Computations that only draw random numbers. *)
Definition dr {A X Y} (m : M A X Y) (Φ : Y -> Prop) : Prop :=
  forall s, wp m (fun y s' => (exists k, s' = bump s k) /\ Φ y) s.
Section Draws.
Context {A X : Type}.
Variable E : env.
Variable P : problem.
Lemma bump_self (s : st A X) : exists k, s = bump s k.
Proof. exists (s_ctr s). destruct s; reflexivity. Qed.
Lemma dr_ret {Y} (y : Y) (Φ : Y -> Prop) : Φ y -> dr (A := A) (X := X) (ret y) Φ.
Proof. intros H s. apply wp_ret. split; [apply bump_self|exact H]. Qed.
Lemma dr_bind {Y Z} (m : M A X Y) (f : Y -> M A X Z) (Φ : Y -> Prop) (Ψ : Z -> Prop) : dr m Φ -> (forall y, Φ y -> dr (f y) Ψ) -> dr (bindM m f) Ψ.
Proof.
  intros H1 H2 s. apply wp_bind. eapply wp_mono; [apply H1|]. intros y s' [[k ->] Hy].
  eapply wp_mono; [apply (H2 y Hy)|]. intros z s2 [[k2 ->] Hz]. split; [exists k2; reflexivity|exact Hz].
Qed.
Lemma dr_mono {Y} (m : M A X Y) (Φ Ψ : Y -> Prop) : dr m Φ -> (forall y, Φ y -> Ψ y) -> dr m Ψ.
Proof. intros H1 H2 s. eapply wp_mono; [apply H1|]. intros y s' [Hk Hy]. auto. Qed.
Lemma dr_tick : dr (A := A) (X := X) tick (fun _ => True).
Proof. intros s. unfold wp, tick. split; [eexists; reflexivity|exact I]. Qed.
Lemma dr_uniform : dr (A := A) (X := X) (uniform E) (fun _ => True).
Proof. intros s. apply wp_uniform. intros u k. split; [eexists; reflexivity|exact I]. Qed.
Lemma dr_uniform_vec n : dr (A := A) (X := X) (uniform_vec E n) (fun v => List.length v = n).
Proof. intros s. apply wp_uniform_vec. intros v k H. split; [eexists; reflexivity|exact H]. Qed.
Lemma dr_rlist n name reads : dr (A := A) (X := X) (rlist E n name reads) (fun v => List.length v = n).
Proof. eapply dr_bind; [apply dr_tick|]. intros k _. apply dr_ret. rewrite map_length, seq_length. reflexivity. Qed.
Lemma dr_rform name reads : dr (A := A) (X := X) (rform E P name reads) (fun v => List.length v = n_dims P).
Proof. eapply dr_bind; [apply dr_tick|]. intros k _. apply dr_ret. apply vtab_length. Qed.
Lemma dr_rnum name reads : dr (A := A) (X := X) (rnum E name reads) (fun _ => True).
Proof. eapply dr_bind; [apply dr_tick|]. intros k _. apply dr_ret. exact I. Qed.
Lemma dr_rtest name reads : dr (A := A) (X := X) (rtest E name reads) (fun _ => True).
Proof. eapply dr_bind; [apply dr_rnum|]. intros k _. apply dr_ret. exact I. Qed.
Lemma dr_uniform_box : dr (A := A) (X := X) (uniform_box E P) (fun v => List.length v = n_dims P).
Proof. eapply dr_bind; [apply dr_uniform_vec|]. intros k _. apply dr_ret. apply vtab_length. Qed.
Lemma dr_integers lo hi : lo < hi -> dr (A := A) (X := X) (integers E lo hi) (fun i => lo <= i < hi).
Proof. intros H s. apply wp_integers; [exact H|]. intros i k Hi. split; [eexists; reflexivity|exact Hi]. Qed.
Lemma dr_repeat {Y} n (m : M A X Y) (Φ : Y -> Prop) : dr m Φ -> dr (repeat_M n m) (fun l => List.length l = n /\ Forall Φ l).
Proof.
  intros H s. unfold repeat_M.
  apply wp_for_acc with (I := fun i acc s' => (exists k, s' = bump s k) /\ List.length acc = i /\ Forall Φ acc).
  - split; [apply bump_self|]. auto.
  - intros i acc s' _ ([k ->] & Hl & Hf). apply wp_bind. eapply wp_mono; [apply H|]. intros y s' [[k' ->] Hy]. apply wp_ret.
    split; [exists k'; reflexivity|]. rewrite app_length, Forall_app. simpl. split; [lia|]. auto.
  - intros acc s' (Hk & Hl & Hf). auto.
Qed.
End Draws.
Ltac dprim L := first [apply L | eapply dr_mono; [apply L|]].
Ltac draws :=
  lazymatch goal with
  | |- dr ?m _ =>
    lazymatch m with
    | bindM _ _ => eapply dr_bind; [draws|let y := fresh "y" in let H := fresh "H" in intros y H; cbv beta in H; qfacts; draws]
    | ret _ => apply dr_ret
    | (let x := _ in _) => cbv zeta; draws
    | tick => dprim dr_tick | uniform _ => dprim dr_uniform | uniform_vec _ _ => dprim dr_uniform_vec | rlist _ _ _ _ => dprim dr_rlist
    | rform _ _ _ _ => dprim dr_rform | rnum _ _ _ => dprim dr_rnum | rtest _ _ _ => dprim dr_rtest | uniform_box _ _ => dprim dr_uniform_box
    | integers _ _ _ => first [apply dr_integers; lia | eapply dr_mono; [apply dr_integers; lia|]]
    | repeat_M _ _ => first [apply dr_repeat; draws | eapply dr_mono; [apply dr_repeat; draws|]]
    | _ => openc m; draws
    end
  end.

(** initialize_variables: draw and set. *)
Lemma vars_set {A X} (XP : X -> Prop) (IX0 : list vec -> X -> Prop) (m : M A X X) :
  dr m (IX0 []) -> vars_contract XP IX0 (x <- m ;; set_x x).
Proof.
  intros H1 s _. apply wp_bind. eapply wp_mono; [apply H1|]. intros x s' [[k ->] Hx]. unfold wp, set_x.
  exists x, k. split; [reflexivity|exact Hx].
Qed.
Lemma vars_none {A X} (XP : X -> Prop) (IX0 : list vec -> X -> Prop) :
  (forall x, XP x -> IX0 [] x) -> vars_contract (A := A) XP IX0 (ret tt).
Proof. intros H s Hs. apply wp_ret. exists (s_x s), (s_ctr s). split; [destruct s; reflexivity|auto]. Qed.

(** before_main_loop: read, draw and set. *)
Lemma main_set {A X} (E : env) (P : problem) (feas : vec -> Prop) (attok : list vec -> A -> Prop) (IX0 IX : list vec -> X -> Prop)
    (cov : Prop) nd n0 n (m : M A X X) (Φ : X -> Prop) s :
  params E P feas attok cov -> Inv P feas attok (eq n) IX0 cov nd n0 s ->
  (forall s0, qt P feas attok (eq n) IX0 cov nd n0 n s0 m Φ) -> (forall x, Φ x -> xok IX (s_log s) x) ->
  wp (x <- m ;; set_x x) (fun _ s' => exists k x, s' = with_x (bump s k) x /\ xok IX (s_log s) x) s.
Proof.
  intros HP HI H1 H2. apply wp_bind.
  assert (HR : R P feas attok (eq n) IX0 cov nd n0 n s [] (List.length (s_log s)) s).
  { split; [apply Ev_init; exact HI|]. split; [symmetry; apply (i_len _ _ _ _ _ _ _ _ _ HI)|reflexivity]. }
  eapply wp_mono; [apply (H1 s _ _ s HR)|]. intros x s' (Hx & k & x' & -> & _). unfold wp, set_x.
  exists k, x. split; [reflexivity|apply H2, Hx].
Qed.
Lemma main_none {A X} (P : problem) (feas : vec -> Prop) (attok : list vec -> A -> Prop) (IX : list vec -> X -> Prop)
    (cov : Prop) nd n0 n s :
  Inv P feas attok (eq n) IX cov nd n0 s ->
  wp (ret tt) (fun _ s' => exists k x, s' = with_x (bump s k) x /\ xok IX (s_log s) x) s.
Proof. intros HI. apply wp_ret. exists (s_ctr s), (s_x s). split; [destruct s; reflexivity|apply HI]. Qed.

(** Plain agents, attributes of the algorithm. *)
Lemma plain_gea_ok {A X} (P : problem) (feas : vec -> Prop) (dflt : A) : problem_ok P feas -> gea_ok (X := X) feas (@anyatt A) (generate_empty_agent P dflt).
Proof.
  intros Hp s o Ho. destruct o as [x|]; simpl.
  - apply wp_ret. split; [apply bump_self|]. simpl. split; [reflexivity|]. intros; exact I.
  - apply wp_bind. unfold wp, tick, ret. split; [eexists; reflexivity|]. simpl. split; [apply Hp|]. intros; exact I.
Qed.
Section State.
Context {A X : Type}.
Variable E : env.
Variable P : problem.
Variable md : mode.
Variable dflt : A.
Variables n epochs : nat.
Variable srt : bool.
Variables iv bm : M A X unit.
Variable ev : nat -> M A X unit.
Variable XP : X -> Prop.
Variable H : (vec -> Prop) -> Prop.
Variables IX0 IX : (vec -> Prop) -> list vec -> X -> Prop.
Variables kmin kmax : nat.
Notation gea := (generate_empty_agent P dflt).
Notation al := (agent_algo E md gea (ga_of P gea) n epochs srt iv bm ev).
Lemma state_elite :
  0 < n -> 0 < epochs ->
  (forall feas, problem_ok P feas -> vars_contract XP (IX0 feas) iv) ->
  (forall feas nd n0 s, params E P feas (@anyatt A) (true = true /\ obj_num P feas) -> H feas ->
     Inv P feas (@anyatt A) (eq n) (IX0 feas) (true = true /\ obj_num P feas) nd n0 s ->
     wp bm (fun _ s' => exists k x, s' = with_x (bump s k) x /\ xok (IX feas) (s_log s) x) s) ->
  (forall feas nd n0 ep s0, params E P feas (@anyatt A) (true = true /\ obj_num P feas) -> H feas -> 1 <= ep ->
     blk0 P feas (@anyatt A) (eq n) (IX feas) (true = true /\ obj_num P feas) nd n0 n s0 kmin kmax (ev ep) (fun _ => True)) ->
  sound_run_gen E P md al XP H (fun _ => True) (eq n) true n n kmin kmax.
Proof.
  intros Hn He Hv Hb Hev. apply (sound_agents E P md gea (ga_of P gea) n epochs srt iv bm ev XP H (fun _ => @anyatt A) IX0 IX); auto.
  - intros feas Hp. apply plain_gea_ok, Hp.
  - intros feas Hp. apply ga_of_ok, plain_gea_ok, Hp.
  - intros feas nd n0 HP HH. eapply contract_of; [exact HP|]. intros ep s0 Hep _. apply Hev; auto.
Qed.
Lemma state_free :
  0 < n -> 0 < epochs ->
  (forall feas, problem_ok P feas -> vars_contract XP (IX0 feas) iv) ->
  (forall feas nd n0 s, params E P feas (@anyatt A) (false = true /\ obj_num P feas) -> H feas ->
     Inv P feas (@anyatt A) (eq n) (IX0 feas) (false = true /\ obj_num P feas) nd n0 s ->
     wp bm (fun _ s' => exists k x, s' = with_x (bump s k) x /\ xok (IX feas) (s_log s) x) s) ->
  (forall feas nd n0 ep s0 w, params E P feas (@anyatt A) (false = true /\ obj_num P feas) -> H feas -> 1 <= ep ->
     gt P feas (@anyatt A) (eq n) (IX feas) (false = true /\ obj_num P feas) nd n0 n s0 w kmin kmax (ev ep) (fun _ _ => True)) ->
  sound_run_gen E P md al XP H (fun _ => True) (eq n) false n n kmin kmax.
Proof.
  intros Hn He Hv Hb Hev. apply (sound_agents E P md gea (ga_of P gea) n epochs srt iv bm ev XP H (fun _ => @anyatt A) IX0 IX); auto.
  - intros feas Hp. apply plain_gea_ok, Hp.
  - intros feas Hp. apply ga_of_ok, plain_gea_ok, Hp.
  - intros feas nd n0 HP HH. apply contract_free. intros ep s0 w Hep _. apply Hev; auto.
Qed.
End State.
(** Attribute invariant [I] from initialize_variables on, no before_main_loop, extra hypothesis [H]. *)
Ltac state_elite I := intros; eapply (state_elite _ _ _ _ _ _ _ _ _ _ _ _ (fun _ _ => I) (fun _ _ => I)); [lia|lia|..];
  [ intros feas Hpr; first [apply vars_none; solve [auto] | apply vars_set; draws; cbv beta]
  | intros feas nd n0 s HP HH HI; eapply main_none; exact HI
  | intros feas nd n0 ep s0 HP HH Hep ].
Ltac state_free I := intros; eapply (state_free _ _ _ _ _ _ _ _ _ _ _ _ (fun _ _ => I) (fun _ _ => I)); [lia|lia|..];
  [ intros feas Hpr; first [apply vars_none; solve [auto] | apply vars_set; draws; cbv beta]
  | intros feas nd n0 s HP HH HI; eapply main_none; exact HI
  | intros feas nd n0 ep s0 w HP HH Hep ].
