(** Further classes that write into shared position arrays, as programs on the heap of MHeap. *)
From Verif Require Import Prelude Fl MCore MHelp MHeap MGA MHeap2 MAlg MAlg7.
From Coq Require Import String.

(** ** The loop of solve for an evolve method that also changes the last entries of the history *)
Section Loop.
Context {A X : Type}.
Notation hst := (hst A X).
Notation HM Y := (hst -> res (Y * hst)).
Variable argsort : list f64 -> list nat.
Variable mm : minmax.
(** [l[-1] = x]. *)
Definition set_last {T} (l : list T) (x : T) : res (list T) :=
  match l with [] => Err IndexError | _ => Ok (removelast l ++ [x]) end.
(** Optimizer.update_global_best_agent with save=False (optimizer.py:620-621, 633-644); the result is not used by the
    callers modelled here. *)
Definition h_refresh (pop : list loc) : HM unit :=
  hbind (hread (fun s => sorted_refs argsort mm (hp s) pop)) (fun sp =>
  hbind (hread (fun _ => getitem sp 0)) (fun c_best =>
  hbind (hread (fun _ => last_item sp)) (fun c_worst =>
  hbind (hread (fun s => last_item (lcb s))) (fun cb =>
  hbind (run (better_ref mm c_best cb false)) (fun lb =>
  hbind (hread (fun s => set_last (lcb s) lb)) (fun lcb' =>
  hbind (hread (fun s => last_item (lgb s))) (fun gb =>
  hbind (run (better_ref mm c_best gb false)) (fun gb' =>
  hbind (hread (fun s => set_last (lgb s) gb')) (fun lgb' =>
  hbind (hread (fun s => last_item (lcw s))) (fun cw =>
  hbind (run (better_ref mm c_worst cw true)) (fun lw =>
  hbind (hread (fun s => set_last (lcw s) lw)) (fun lcw' =>
  hbind (hread (fun s => last_item (lgw s))) (fun gw =>
  hbind (run (better_ref mm c_worst gw true)) (fun gw' =>
  hbind (hread (fun s => set_last (lgw s) gw')) (fun lgw' =>
  hput (fun s => w_hist s lgb' lcb' lgw' lcw')))))))))))))))).
(** As [h_epoch], [h_epochs] and [h_solve] of MHeap (optimizer.py:145-155, 253-267, 289-291). *)
Definition hg_epoch (sort save : bool) (evolve : nat -> HM unit) (ep : nat) : HM unit :=
  hbind (evolve ep) (fun _ =>
  hbind (h_update argsort mm) (fun '(sp, gb) =>
  hbind (hput (fun s => w_gb s (Some gb))) (fun _ =>
  hbind (hput (fun s => if sort then w_po s sp else s)) (fun _ =>
  if save then hbind (fun s => run (copies (po s)) s) (fun d => hput (fun s => w_lpo s (lpo s ++ [d])))
  else hput (fun s => s))))).
Fixpoint hg_epochs (sort save : bool) (evolve : nat -> HM unit) (n i : nat) : HM unit :=
  match n with
  | O => hput (fun s => s)
  | S m => hbind (hg_epoch sort save evolve i) (fun _ => hg_epochs sort save evolve m (S i))
  end.
Definition hg_solve (sort save : bool) (init before : prog A X unit) (evolve : nat -> HM unit) (epochs : nat) : HM loc :=
  hbind (run init) (fun _ =>
  hbind (h_after_init argsort mm sort) (fun _ =>
  hbind (run before) (fun _ =>
  hbind (hg_epochs sort save evolve epochs 1) (fun _ =>
  hread (fun s => match gbr s with Some g => Ok g | None => Err AttributeError end))))).
End Loop.

(** ** OriginalTHRO (game_based/THRO.py) *)
Section THRO.
Variable E : env.
Variable P : problem.
Notation prog := (prog unit unit).
Notation ret := PRet.
Notation "x <- m ;; f" := (pbind m (fun x => f)) (at level 61, m at next level, right associativity).
Notation "' p <- m ;; f" := (pbind m (fun x => match x with p => f end)) (at level 61, p pattern, m at next level, right associativity).
Notation "m ;;; f" := (pbind m (fun _ => f)) (at level 61, right associativity).
Local Open Scope f_scope.

Definition t_corrected (x : vec) : prog vec :=
  PTick (fun k => ret (p_correct P k (map (fun i => fclip (vget x i) (vget (p_lb P) i) (vget (p_ub P) i)) (seq 0 (n_dims P))))).
(** generate_agent (optimizer.py:327-336) at a given position. *)
Definition t_made (x : vec) : prog loc :=
  a <- new (OArr x) ;; t <- new (OTgt (prob_target P x)) ;; new (OAgt a (Some t) tt).
Fixpoint t_randoms (n : nat) : prog (list loc) :=
  match n with O => ret [] | S m => PTick (fun k => a <- t_made (p_gen P k) ;; r <- t_randoms m ;; ret (a :: r)) end.
Definition t_gauss : prog f64 := PTick (fun k => ret (e_g E k)).
(** get_levy_flight_step with beta=1.5, size=None and case=-1 (optimizer.py:719-756). *)
Definition t_levy (mult : f64) : prog f64 :=
  u <- t_gauss ;; v <- t_gauss ;; ret (mult * levy_coef E (#3 / #2) u v).
(** [agent.solution] as a reference and as a value. *)
Definition t_array (l : loc) : prog loc := read (fun s => let* (a, _, _) := o_agt (hp s) l in Ok a).
Definition t_value (l : loc) : prog vec := read (fun s => let* (a, _, _) := o_agt (hp s) l in o_arr (hp s) a).
Definition t_item (ls : list loc) (i : nat) : prog loc := read (fun _ => getitem ls i).
Definition t_sorted (ls : list loc) : prog (list loc) := read (fun s => sorted_refs (e_argsort E) (p_mm P) (hp s) ls).
(** get_best_agent (optimizer.py:477-488): a copy that shares the position array. *)
Definition t_best (ls : list loc) : prog loc :=
  b <- read (fun s => let* sp := sorted_refs (e_argsort E) (p_mm P) (hp s) ls in getitem sp 0) ;; copy b.
Definition t_beats (x y : loc) : prog bool :=
  read (fun s =>
    let* (_, t, _) := o_agt (hp s) x in
    let* (_, u, _) := o_agt (hp s) y in
    match t, u with
    | Some t, Some u => let* t := o_tgt (hp s) t in let* u := o_tgt (hp s) u in Ok (compare_target t u (p_mm P))
    | _, _ => Err AttributeError
    end).

(** One row of the matrices T_B and K_B (THRO.py:100-107).  Simplification: the sine is taken to be a number between
    0 and 1, so that int() does not raise and the slice does not count from the end. *)
Definition t_row : prog vec :=
  perm <- h_choose E (seq 0 (n_dims P)) (n_dims P) ;;
  u <- h_rand E ;;
  let m := Z.to_nat (ftrunc (fceil (sin_ E (pi_ E / #2 * u) * #(Z.of_nat (n_dims P))))) in
  ret (map (fun j => if existsb (Nat.eqb j) (firstn m perm) then #1 else #0) (seq 0 (n_dims P))).
(** Lines 98-107. *)
Fixpoint t_rows (n : nat) : prog (list (vec * vec)) :=
  match n with O => ret [] | S m => a <- t_row ;; b <- t_row ;; r <- t_rows m ;; ret ((a, b) :: r) end.
(** Lines 120-123: alpha and beta of one side. *)
Definition t_coef : prog (f64 * f64) :=
  u <- h_rand E ;; g <- t_gauss ;;
  v <- h_rand E ;; h <- t_gauss ;;
  ret (#1 + fround (#1 / #2 * (#1 / #2 + u)) * g, fround (#1 / #2 * (#1 / #10 + v)) * h).
(** Lines 128-143, 196-211. *)
Definition t_case (ft fk : f64) : nat :=
  match p_mm P with
  | Min => if ft < fk then 1%nat else if fk < ft then 2%nat else 3%nat
  | _ => if fk < ft then 1%nat else if ft < fk then 2%nat else 3%nat
  end.
(** Lines 145-146: np.mean of the positions, by columns. *)
Definition t_mean (ls : list loc) : prog vec :=
  xs <- read (fun s => map_res (fun l => let* (a, _, _) := o_agt (hp s) l in o_arr (hp s) a) ls) ;;
  ret (map (fun j => fmean (map (fun x => vget x j) xs)) (seq 0 (n_dims P))).
(** One horse (lines 151-157, and the nine similar places): [ls[i]] moves towards [base] and is replaced if the new
    agent is better. *)
Definition t_race (p alpha beta : f64) (r gap : vec) (ls : list loc) (i : nat) (base : loc) : prog (list loc) :=
  l <- t_item ls i ;;
  x <- t_value l ;;
  b <- t_value base ;;
  y <- t_corrected (map (fun j => (p * vget x j + (#1 - p) * vget b j + vget r j * (vget b j - vget x j + p * vget gap j)) * alpha + beta) (seq 0 (n_dims P))) ;;
  a <- t_made y ;;
  c <- t_beats a l ;;
  ret (if c : bool then upd ls i a else ls).
(** [generator.choice(list(set(range(n)) - {i}))]. *)
Definition t_apart (n i : nat) : prog nat :=
  match filter (fun j => negb (j =? i)) (seq 0 n) with
  | [] => PFail ValueError
  | l => PTick (fun k => ret (nth (e_i E k mod List.length l) l 0%nat))
  end.
(** The indices of the slowest and fastest horses (lines 113-116). *)
Record places := mkPl { ts : nat; tf : nat; ks : nat; kf : nat }.
(** The body of the racing loop (lines 119-284).  [n]: n_pop; [max(0, i - 1)] is [i - 1] on [nat]. *)
Definition t_round (n : nat) (p : f64) (tb kb : vec) (w : list loc * list loc * places) : prog (list loc * list loc * places) :=
  let '(T, K, q) := w in
  '(ta, tbeta) <- t_coef ;;
  '(ka, kbeta) <- t_coef ;;
  lt <- t_levy #1 ;;
  lk <- t_levy #1 ;;
  let tr := map (fun v => lt * v) tb in
  let kr := map (fun v => lk * v) kb in
  slow <- read (fun s => let* a := getitem T (ts q) in let* b := getitem K (ks q) in
                         let* f := o_fit (hp s) a in let* g := o_fit (hp s) b in Ok (t_case f g)) ;;
  tm <- t_mean T ;;
  km <- t_mean K ;;
  let gap := map (fun j => vget tm j - vget km j) (seq 0 (n_dims P)) in
  let up i := Nat.min (n - 1) (i + 1) in
  match slow with
  | 1%nat =>
    b <- t_item T 0 ;;
    T <- t_race p ta tbeta tr gap T (ts q) b ;;
    b <- t_item T (ts q) ;;
    K <- t_race p ka kbeta kr gap K (ks q) b ;;
    ret (T, K, mkPl (ts q - 1) (tf q) (ks q - 1) (kf q))
  | 2%nat =>
    o <- t_apart n (ts q) ;;
    b <- t_item T o ;;
    T <- t_race p ta tbeta tr gap T (ts q) b ;;
    b <- t_item K 0 ;;
    K <- t_race p ka kbeta kr gap K (kf q) b ;;
    ret (T, K, mkPl (ts q - 1) (tf q) (ks q) (up (kf q)))
  | _ =>
    fast <- read (fun s => let* a := getitem T (tf q) in let* b := getitem K (kf q) in
                           let* f := o_fit (hp s) a in let* g := o_fit (hp s) b in Ok (t_case f g)) ;;
    match fast with
    | 1%nat =>
      b <- t_item T 0 ;;
      T <- t_race p ta tbeta tr gap T (tf q) b ;;
      b <- t_item T (tf q) ;;
      K <- t_race p ka kbeta kr gap K (kf q) b ;;
      ret (T, K, mkPl (ts q) (up (tf q)) (ks q) (up (kf q)))
    | _ =>
      o <- t_apart n (match fast with 2%nat => tf q | _ => ts q end) ;;
      b <- t_item T o ;;
      T <- t_race p ta tbeta tr gap T (ts q) b ;;
      b <- t_item K 0 ;;
      K <- t_race p ka kbeta kr gap K (kf q) b ;;
      ret (T, K, mkPl (ts q - 1) (tf q) (ks q) (up (kf q)))
    end
  end.
Fixpoint t_rounds (n : nat) (p : f64) (rows : list (vec * vec)) (w : list loc * list loc * places) : prog (list loc * list loc * places) :=
  match rows with [] => ret w | (tb, kb) :: r => w <- t_round n p tb kb w ;; t_rounds n p r w end.
(** Lines 86-284. *)
Definition t_racing (n ep epochs : nat) : prog (list loc * list loc) :=
  p <- read (fun s => Ok (po s)) ;;
  p <- h_choose E p (List.length p) ;;
  PPop p (
  T <- t_sorted (firstn n p) ;;
  K <- t_sorted (skipn n p) ;;
  rows <- t_rows n ;;
  '(T, K, _) <- t_rounds n (#1 - fnat ep / fnat epochs) rows (T, K, mkPl (n - 1) 0 (n - 1) 0) ;;
  ret (T, K)).

(** One component of the training (lines 296-303, 311-318): [arr] is the array of an agent and is written in place;
    [ls] is the population the two random horses come from.  Simplification: the square is a product. *)
Definition t_component (n idx ep epochs : nat) (ls : list loc) (best arr : loc) (j : nat) : prog unit :=
  u <- h_rand E ;;
  if #1 / #2 < u then
    '(a, b) <- pbind (h_choose E (filter (fun i => negb (i =? idx)) (seq 0 n)) 2) two ;;
    l <- t_levy (#1 / #5) ;;
    la <- t_item ls a ;; xa <- t_value la ;;
    lb <- t_item ls b ;; xb <- t_value lb ;;
    x <- read (fun s => o_arr (hp s) arr) ;;
    PElem arr j (vget x j + l * (vget xa j - vget xb j)) (ret tt)
  else
    v <- h_rand E ;;
    let h := #1 - fnat ep / fnat epochs in
    let m := #1 / #2 * (#1 + #1 / #1000 * (h * h) * sin_ E (pi_ E * v)) in
    b <- t_value best ;;
    x <- read (fun s => o_arr (hp s) arr) ;;
    PElem arr j (vget b j + m * (vget b j - vget x j)) (ret tt).
Fixpoint t_components (js : list nat) n idx ep epochs ls best arr : prog unit :=
  match js with [] => ret tt | j :: r => t_component n idx ep epochs ls best arr j ;;; t_components r n idx ep epochs ls best arr end.
(** Lines 295-307 and 310-322.  [own]: the agent whose array is used, Tianji's in both cases (lines 295, 310). *)
Definition t_train (n idx ep epochs : nat) (own : loc) (ls : list loc) (best : loc) : prog (list loc) :=
  arr <- t_array own ;;
  t_components (seq 0 (n_dims P)) n idx ep epochs ls best arr ;;;
  x <- read (fun s => o_arr (hp s) arr) ;;
  y <- t_corrected x ;;
  a <- t_made y ;;
  old <- t_item ls idx ;;
  c <- t_beats a old ;;
  ret (if c : bool then upd ls idx a else ls).
Fixpoint t_training (idxs : list nat) (n ep epochs : nat) (T K : list loc) (bt bk : loc) : prog (list loc * list loc) :=
  match idxs with
  | [] => ret (T, K)
  | idx :: r =>
    own <- t_item T idx ;;
    T <- t_train n idx ep epochs own T bt ;;
    own <- t_item T idx ;;
    K <- t_train n idx ep epochs own K bk ;;
    t_training r n ep epochs T K bt bk
  end.
(** Lines 290-325. *)
Definition t_finish (n ep epochs : nat) (T K : list loc) : prog unit :=
  bt <- t_best T ;;
  bk <- t_best K ;;
  '(T, K) <- t_training (seq 0 n) n ep epochs T K bt bk ;;
  PPop (T ++ K)%list (ret tt).
(** evolve (lines 76-325); line 287 changes the history only. *)
Definition thro_evolve (n epochs ep : nat) : hst unit unit -> res (unit * hst unit unit) :=
  hbind (run (t_racing n ep epochs)) (fun '(T, K) =>
  hbind (h_refresh (e_argsort E) (p_mm P) (T ++ K)%list) (fun _ =>
  run (t_finish n ep epochs T K))).
(** before_main_loop (lines 70-74): n_pop; the two lists are set again at the start of evolve. *)
Definition thro_solve (save : bool) (pop_size epochs : nat) :=
  hg_solve (e_argsort E) (p_mm P) false save (p <- t_randoms pop_size ;; PPop p (ret tt)) (ret tt)
    (thro_evolve (pop_size / 2) epochs) epochs.
End THRO.

(** ** EnhancedTWO (physics_based/TWO.py:327-442), single mode *)
Section ETWO.
Variable E : env.
Variable P : problem.
(** The attribute weight of an agent. *)
Notation prog := (prog f64 unit).
Notation ret := PRet.
Notation "x <- m ;; f" := (pbind m (fun x => f)) (at level 61, m at next level, right associativity).
Notation "' p <- m ;; f" := (pbind m (fun x => match x with p => f end)) (at level 61, p pattern, m at next level, right associativity).
Notation "m ;;; f" := (pbind m (fun _ => f)) (at level 61, right associativity).
Local Open Scope f_scope.

Definition e_corrected (x : vec) : prog vec :=
  PTick (fun k => ret (p_correct P k (map (fun i => fclip (vget x i) (vget (p_lb P) i) (vget (p_ub P) i)) (seq 0 (n_dims P))))).
(** generate_agent (optimizer.py:327-336) with generate_empty_agent (69-78). *)
Definition e_made (x : vec) : prog loc :=
  a <- new (OArr x) ;; t <- new (OTgt (prob_target P x)) ;; new (OAgt a (Some t) #0).
Fixpoint e_randoms (n : nat) : prog (list loc) :=
  match n with O => ret [] | S m => PTick (fun k => a <- e_made (p_gen P k) ;; r <- e_randoms m ;; ret (a :: r)) end.
Definition e_item (ls : list loc) (i : nat) : prog loc := read (fun _ => getitem ls i).
Definition e_pop (i : nat) : prog loc := read (fun s => getitem (po s) i).
Definition e_value (l : loc) : prog vec := read (fun s => let* (a, _, _) := o_agt (hp s) l in o_arr (hp s) a).
Definition e_weight (l : loc) : prog f64 := read (fun s => let* (_, _, w) := o_agt (hp s) l in Ok w).
Definition e_best : prog vec :=
  read (fun s => match gbr s with None => Err AttributeError | Some g => let* (a, _, _) := o_agt (hp s) g in o_arr (hp s) a end).
Definition e_better (x y : loc) : prog bool :=
  read (fun s =>
    let* (_, t, _) := o_agt (hp s) x in
    let* (_, u, _) := o_agt (hp s) y in
    match t, u with
    | Some t, Some u => let* t := o_tgt (hp s) t in let* u := o_tgt (hp s) u in Ok (compare_target t u (p_mm P))
    | _, _ => Err AttributeError
    end).
Fixpoint e_for (idxs : list nat) (f : nat -> prog unit) : prog unit :=
  match idxs with [] => ret tt | i :: r => f i ;;; e_for r f end.
Fixpoint e_fold {T} (idxs : list nat) (x : T) (f : nat -> T -> prog T) : prog T :=
  match idxs with [] => ret x | i :: r => y <- f i x ;; e_fold r y f end.
Fixpoint e_many (n : nat) (m : prog f64) : prog vec :=
  match n with O => ret [] | S j => x <- m ;; r <- e_many j m ;; ret (x :: r) end.
Definition e_draw : prog f64 := PTick (fun k => ret (e_u E k)).
Definition e_normal : prog f64 := PTick (fun k => ret (e_g E k)).

(** update_weight__ (80-89): the agents of the list get the attribute. *)
Definition e_weights (n : nat) (ls : list loc) : prog unit :=
  fits <- read (fun s => map_res (o_fit (hp s)) ls) ;;
  let hi := fmaxl fits in
  let lo := fminl fits in
  fits <- (if feq hi lo then e_many n e_draw else ret fits) ;;
  let ws := map (fun f => exp_ E (fneg (f - hi) / (hi - lo))) fits in
  let tot := fsuml ws in
  e_for (seq 0 n) (fun i => l <- e_item ls i ;; w <- read (fun _ => getitem ws i) ;; PAtt l (w / tot + #1 / #10) (ret tt)).
(** initialization (371-386).  [self.pop.copy()] copies the list, not the agents: each agent is moved to the opposite
    position, and then stands twice in the list that is sorted and cut. *)
Definition etwo_init (n : nat) : prog unit :=
  p <- e_randoms n ;;
  e_for (seq 0 n) (fun i =>
    l <- e_item p i ;;
    x <- e_value l ;;
    y <- e_corrected (map (fun j => vget (p_ub P) j + vget (p_lb P) j - vget x j) (seq 0 (n_dims P))) ;;
    a <- new (OArr y) ;;
    t <- new (OTgt (prob_target P y)) ;;
    PSol l a (PTgt l t (ret tt))) ;;;
  q <- read (fun s => sorted_refs (e_argsort E) (p_mm P) (hp s) (p ++ p)%list) ;;
  let q := firstn n q in
  e_weights n q ;;;
  PPop q (ret tt).
(** The pulls (396-407). *)
Definition etwo_pull (n ep idx : nat) : prog unit :=
  me <- e_pop idx ;;
  x0 <- e_value me ;;
  x <- e_fold (seq 0 n) x0 (fun k x =>
    other <- e_pop k ;;
    wi <- e_weight me ;;
    wk <- e_weight other ;;
    if wi < wk then
      z <- e_many (n_dims P) e_normal ;;
      y <- e_value other ;;
      ret (map (fun d => vget x d + (#1 / #2 * ((wk - wi) * (vget y d - vget x0 d) / wi)
              + pow_ E (#99 / #100) (fnat ep) * (#1 / #10) * (vget (p_ub P) d - vget (p_lb P) d) * vget z d)) (seq 0 (n_dims P)))
    else ret x) ;;
  a <- new (OArr x) ;;
  PSol me a (ret tt).
Definition e_outside (j : nat) (v : f64) : bool := (v < vget (p_lb P) j) || (vget (p_ub P) j < v).
(** Lines 409-421: the agent of [pop_new] is the agent of the population unless an earlier step replaced the latter. *)
Definition etwo_repair (ep : nat) (x g : vec) : prog vec :=
  e_fold (seq 0 (n_dims P)) x (fun j y =>
    if e_outside j (vget x j) then
      u <- e_draw ;;
      if u <= #1 / #2 then
        z <- e_normal ;;
        let v := vget g j + z / fnat ep * (vget g j - vget x j) in
        ret (upd y j (if e_outside j v then vget x j else v))
      else
        let v := if vget x j < vget (p_lb P) j then vget (p_lb P) j else vget x j in
        ret (upd y j (if vget (p_ub P) j < v then vget (p_ub P) j else v))
    else ret y).
(** Lines 408-424: the stored position is corrected, the target is that of the position before correction. *)
Definition etwo_place (ep : nat) (pop_new : list loc) (idx : nat) : prog unit :=
  me <- e_pop idx ;;
  x <- e_value me ;;
  g <- e_best ;;
  y <- etwo_repair ep x g ;;
  z <- e_corrected y ;;
  l <- e_item pop_new idx ;;
  a <- new (OArr z) ;;
  t <- new (OTgt (prob_target P y)) ;;
  PSol l a (PTgt l t (
  me <- e_pop idx ;;
  b <- better_ref (p_mm P) l me false ;;
  PGet (fun s => PPop (upd (po s) idx b) (ret tt)))).
(** Lines 429-441: the opposite of the agent, or else a Levy step. *)
Definition etwo_finish (ep : nat) (idx : nat) (pop_new : list loc) : prog (list loc) :=
  l <- e_item pop_new idx ;;
  x <- e_value l ;;
  g <- e_best ;;
  u <- e_draw ;;
  y <- e_corrected (map (fun j => vget (p_lb P) j + vget (p_ub P) j - vget g j + u * (vget g j - vget x j)) (seq 0 (n_dims P))) ;;
  y <- e_corrected y ;;
  a <- e_made y ;;
  c <- e_better a l ;;
  if c : bool then ret (upd pop_new idx a)
  else
    us <- e_many (n_dims P) e_normal ;;
    vs <- e_many (n_dims P) e_normal ;;
    y <- e_corrected (map (fun j => vget x j + #1 / sqrt_ E (fnat ep) * (#1 * levy_coef E #1 (vget us j) (vget vs j))) (seq 0 (n_dims P))) ;;
    a <- e_made y ;;
    c <- e_better a l ;;
    ret (if c : bool then upd pop_new idx a else pop_new).
(** evolve (388-442). *)
Definition etwo_evolve (n ep : nat) : prog unit :=
  pop_new <- read (fun s => Ok (po s)) ;;
  e_for (seq 0 n) (etwo_pull n ep) ;;;
  e_for (seq 0 n) (etwo_place ep pop_new) ;;;
  pop_new <- e_fold (seq 0 n) pop_new (etwo_finish ep) ;;
  e_weights n pop_new ;;;
  PPop pop_new (ret tt).
Definition etwo_solve (save : bool) (n epochs : nat) :=
  h_solve (e_argsort E) (p_mm P) false save (etwo_init n) (ret tt) (etwo_evolve n) epochs.
End ETWO.

(** ** OriginalICA (human_based/ICA.py), single mode *)
(** pop_empires, pop_colonies and the dictionary empires, whose keys are 0, 1, ... *)
Record realm := mkRealm { emp : list loc; col : list loc; own : list (list loc) }.
Section ICA.
Variable E : env.
Variable P : problem.
Notation prog := (prog unit realm).
Notation ret := PRet.
Notation "x <- m ;; f" := (pbind m (fun x => f)) (at level 61, m at next level, right associativity).
Notation "' p <- m ;; f" := (pbind m (fun x => match x with p => f end)) (at level 61, p pattern, m at next level, right associativity).
Notation "m ;;; f" := (pbind m (fun _ => f)) (at level 61, right associativity).
Local Open Scope f_scope.

Definition i_corrected (x : vec) : prog vec :=
  PTick (fun k => ret (p_correct P k (map (fun i => fclip (vget x i) (vget (p_lb P) i) (vget (p_ub P) i)) (seq 0 (n_dims P))))).
Fixpoint i_randoms (n : nat) : prog (list loc) :=
  match n with
  | O => ret []
  | S m => PTick (fun k => a <- new (OArr (p_gen P k)) ;; t <- new (OTgt (prob_target P (p_gen P k))) ;;
                           l <- new (OAgt a (Some t) tt) ;; r <- i_randoms m ;; ret (l :: r))
  end.
Fixpoint i_many (n : nat) (m : prog f64) : prog vec :=
  match n with O => ret [] | S j => x <- m ;; r <- i_many j m ;; ret (x :: r) end.
Fixpoint i_for (idxs : list nat) (f : nat -> prog unit) : prog unit :=
  match idxs with [] => ret tt | i :: r => f i ;;; i_for r f end.
Definition i_draw : prog f64 := PTick (fun k => ret (e_u E k)).
Definition i_normal : prog f64 := PTick (fun k => ret (e_g E k)).
Fixpoint i_choose {T} (l : list T) (n : nat) : prog (list T) :=
  match n with
  | O => ret []
  | S m => match l with
           | [] => PFail ValueError
           | d :: _ => PTick (fun k => let i := (e_i E k mod List.length l)%nat in
                                       r <- i_choose (firstn i l ++ skipn (S i) l)%list m ;; ret (nth i l d :: r))
           end
  end.
Definition i_arr (l : loc) : prog loc := read (fun s => let* (a, _, _) := o_agt (hp s) l in Ok a).
Definition i_val (a : loc) : prog vec := read (fun s => o_arr (hp s) a).
Definition i_better (x y : loc) : prog bool :=
  read (fun s =>
    let* (_, t, _) := o_agt (hp s) x in
    let* (_, u, _) := o_agt (hp s) y in
    match t, u with
    | Some t, Some u => let* t := o_tgt (hp s) t in let* u := o_tgt (hp s) u in Ok (compare_target t u (p_mm P))
    | _, _ => Err AttributeError
    end).
(** [agent.solution = pos; agent.target = self.get_target(pos)]. *)
Definition i_move (l : loc) (pos : vec) : prog unit :=
  a <- new (OArr pos) ;; t <- new (OTgt (prob_target P pos)) ;; PSol l a (PTgt l t (ret tt)).
(** The shares of the empires (107-109, 173-174). *)
Definition shares (costs : vec) : vec :=
  let base := fmaxl costs + fminl costs in
  let c := map (fun x => x - base) costs in
  map (fun x => fabs (x / fsuml c)) c.
(** int(round(x)); round() of NaN or an infinity raises. *)
Definition rounded (x : f64) : res nat :=
  if fisnan x then Err ValueError else if fabs x < finf then Ok (Z.to_nat (ftrunc (fround x))) else Err OverflowError.

(** Lines 114-121: the colonies of all empires but the last. *)
Fixpoint ica_assign (idxs : list nat) (ps : vec) (count : nat) (free : list nat) (acc : list (list nat)) : prog (list (list nat) * list nat) :=
  match idxs with
  | [] => ret (acc, free)
  | i :: r =>
    m <- read (fun _ => let* p := getitem ps i in rounded (p * fnat count)) ;;
    l <- i_choose free m ;;
    ica_assign r ps count (filter (fun j => negb (existsb (Nat.eqb j) l)) free) (acc ++ [l])%list
  end.
(** initialization (100-127); g_best is set again by after_initialization. *)
Definition ica_init (k n : nat) : prog unit :=
  p <- i_randoms n ;;
  p <- read (fun s => sorted_refs (e_argsort E) (p_mm P) (hp s) p) ;;
  b <- read (fun _ => getitem p 0) ;;
  g <- copy b ;;
  PBest g (
  em <- copies (firstn k p) ;;
  co <- copies (skipn k p) ;;
  costs <- read (fun s => map_res (o_fit (hp s)) em) ;;
  '(idxs, free) <- ica_assign (seq 0 (k - 1)) (shares costs) (n - k) (seq 0 (n - k)) [] ;;
  es <- read (fun _ => map_res (fun l => map_res (getitem co) l) idxs) ;;
  last <- read (fun _ => map_res (getitem co) free) ;;
  last <- copies last ;;
  PPop p (PX (mkRealm em co (es ++ [last])%list) (ret tt))).

(** revolution_country__ (91-97): the chosen components are written into the array it is given. *)
Fixpoint i_write (arr : loc) (pos : vec) (js : list nat) : prog unit :=
  match js with [] => ret tt | j :: r => PElem arr j (vget pos j) (i_write arr pos r) end.
Definition revolution (step : f64) (m : nat) (arr : loc) : prog unit :=
  zs <- i_many (n_dims P) i_normal ;;
  x <- i_val arr ;;
  let pos := map (fun j => vget x j + step * vget zs j) (seq 0 (n_dims P)) in
  js <- i_choose (seq 0 (n_dims P)) m ;;
  js <- (match js with [] => PTick (fun k => ret [(e_i E k mod n_dims P)%nat]) | _ => ret js end) ;;
  i_write arr pos js.
(** Revolution of an agent (147-151, 155-159). *)
Definition revolt (step : f64) (m : nat) (l : loc) : prog unit :=
  arr <- i_arr l ;;
  revolution step m arr ;;;
  x <- i_val arr ;;
  y <- i_corrected x ;;
  i_move l y.
Definition i_state : prog realm := read (fun s => Ok (hx s)).
(** [self.empires[idx]], [self.empires[idx][j]] and [self.pop_empires[idx]]. *)
Definition i_own (idx : nat) : prog (list loc) := read (fun s => getitem (own (hx s)) idx).
Definition i_emp (idx : nat) : prog loc := read (fun s => getitem (emp (hx s)) idx).
(** Assimilation (136-144). *)
Definition assimilate (coef : f64) (idx : nat) : prog unit :=
  cs <- i_own idx ;;
  i_for (seq 0 (List.length cs)) (fun j =>
    c <- read (fun _ => getitem cs j) ;;
    ca <- i_arr c ;; x <- i_val ca ;;
    us <- i_many (n_dims P) i_draw ;;
    e <- i_emp idx ;; ea <- i_arr e ;; g <- i_val ea ;;
    y <- i_corrected (map (fun d => vget x d + coef * vget us d * (vget g d - vget x d)) (seq 0 (n_dims P))) ;;
    i_move c y).
(** Revolution (145-160). *)
Definition ica_revolution (prob step : f64) (m idx : nat) : prog unit :=
  e <- i_emp idx ;;
  revolt step m e ;;;
  cs <- i_own idx ;;
  i_for (seq 0 (List.length cs)) (fun j =>
    c <- read (fun _ => getitem cs j) ;;
    u <- i_draw ;;
    if u < prob then revolt step m c else ret tt).
(** Intra-empire competition (165-168). *)
Definition compete (idx : nat) : prog unit :=
  cs <- i_own idx ;;
  i_for (seq 0 (List.length cs)) (fun j =>
    c <- read (fun _ => getitem cs j) ;;
    e <- i_emp idx ;;
    b <- i_better c e ;;
    if b : bool then
      e' <- copy e ;;
      c' <- copy c ;;
      r <- i_state ;;
      row <- i_own idx ;;
      PX (mkRealm (upd (emp r) idx c') (col r) (upd (own r) idx (upd row j e'))) (ret tt)
    else ret tt).
(** Lines 170-191.  colonies_sorted is a new list, so the weakest colony also stays where it is (187-188). *)
Definition ica_finish (zeta : f64) : prog unit :=
  r <- i_state ;;
  costs <- read (fun s => map_res (fun i =>
      let* cs := getitem (own r) i in
      let* fs := map_res (o_fit (hp s)) cs in
      let* e := getitem (emp r) i in
      let* f := o_fit (hp s) e in
      Ok (f + zeta * fmean fs)) (seq 0 (List.length (own r)))) ;;
  us <- i_many (List.length costs) i_draw ;;
  let ps := shares costs in
  idx <- read (fun _ => np_argmax (map (fun i => vget ps i - vget us i) (seq 0 (List.length ps)))) ;;
  weak <- read (fun _ => np_argmax costs) ;;
  cs <- read (fun _ => getitem (own r) weak) ;;
  to <- read (fun _ => getitem (own r) idx) ;;
  match cs with
  | _ :: _ =>
    sp <- read (fun s => sorted_refs (e_argsort E) (p_mm P) (hp s) cs) ;;
    w <- read (fun _ => last_item sp) ;;
    PX (mkRealm (emp r) (col r) (upd (own r) idx (to ++ [w])%list)) (PPop (emp r ++ col r)%list (ret tt))
  | [] =>
    w <- read (fun _ => getitem (emp r) weak) ;;
    let em := (firstn weak (emp r) ++ skipn (S weak) (emp r))%list in
    PX (mkRealm em (col r) (upd (own r) idx (to ++ [w])%list)) (PPop (em ++ col r)%list (ret tt))
  end.
(** evolve (129-191). *)
Definition ica_first (coef prob step : f64) (m : nat) : prog unit :=
  r <- i_state ;;
  i_for (seq 0 (List.length (own r))) (assimilate coef) ;;;
  i_for (seq 0 (List.length (own r))) (ica_revolution prob step m).
Definition ica_second (zeta : f64) : prog unit :=
  r <- i_state ;;
  i_for (seq 0 (List.length (own r))) compete ;;;
  ica_finish zeta.
Definition ica_evolve (coef prob step zeta : f64) (m ep : nat) : hst unit realm -> res (unit * hst unit realm) :=
  hbind (run (ica_first coef prob step m)) (fun _ =>
  hbind (hread (fun s => Ok (emp (hx s)))) (fun em =>
  hbind (h_refresh (e_argsort E) (p_mm P) em) (fun _ =>
  run (ica_second zeta)))).
Definition ica_solve (coef prob step zeta : f64) (m k : nat) (save : bool) (n epochs : nat) :=
  hg_solve (e_argsort E) (p_mm P) true save (ica_init k n) (ret tt) (ica_evolve coef prob step zeta m) epochs.
End ICA.
