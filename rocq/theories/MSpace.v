(** Decision variables (mealpy/utils/space.py) and Problem (mealpy/utils/problem.py).  No proofs here. *)
From Verif Require Import Prelude Fl MCore MValid.

(* ------------------------------------------------------------------ *)
(** * Labels and LabelEncoder *)

(** Hashable Python values used as choices.  Numbers by exact value m * 2^e, with m odd or m = e = 0, so that
    equal Python numbers (1, 1.0, True) are one label; [LObj] any other object, by identity, with its str().
    Simplification: NaN and labels that are themselves lists, tuples or arrays are left out. *)
Inductive label := LNone | LNum (m e : Z) | LStr (s : string) | LObj (id : nat) (repr : string).
Definition label_dec (a b : label) : {a = b} + {a <> b}.
Proof. decide equality; try apply Z.eq_dec; try apply string_dec; apply Nat.eq_dec. Defined.
Definition label_eqb (a b : label) : bool := if label_dec a b then true else false.

(** safe_key inside LabelEncoder.fit (space.py:29-52): the comparison of the keys. *)
Definition label_kind (a : label) : nat := match a with LNone => 0 | LNum _ _ => 1 | LStr _ => 2 | LObj _ _ => 3 end.
Definition label_str_le (a b : string) : bool := match String.compare a b with Gt => false | _ => true end.
Definition key_le (a b : label) : bool :=
  match a, b with
  | LNum m1 e1, LNum m2 e2 => match xfin_cmp m1 e1 m2 e2 with Gt => false | _ => true end
  | LStr s1, LStr s2 => label_str_le s1 s2
  | LObj _ s1, LObj _ s2 => label_str_le s1 s2
  | _, _ => label_kind a <=? label_kind b
  end.
(** sorted(): a stable sort. *)
Fixpoint linsert (x : label) (l : list label) : list label :=
  match l with [] => [x] | y :: r => if key_le x y then x :: l else y :: linsert x r end.
Definition lsort (l : list label) : list label := fold_right linsert [] l.

(** What Python leaves open here: the iteration order of a set and str() of a non-string. *)
Record penv := mkPenv { pe_set : list label -> list label; pe_str : label -> string }.

(** LabelEncoder.fit (space.py:29-52): the encoder is its unique_labels; label_to_index is their position. *)
Definition le_fit (PE : penv) (y : list label) : list label := lsort (pe_set PE y).
Fixpoint index_of (x : label) (l : list label) : option nat :=
  match l with
  | [] => None
  | y :: r => if label_dec x y then Some 0 else match index_of x r with Some i => Some (S i) | None => None end
  end.
(** LabelEncoder.transform (space.py:54-71). *)
Definition le_transform1 (le : list label) (x : label) : res nat :=
  match index_of x le with Some i => Ok i | None => Err KeyError end.
Definition le_transform (le : list label) (y : list label) : res (list nat) := map_res (le_transform1 le) y.
(** LabelEncoder.inverse_transform (space.py:88-106), one integer code. *)
Definition unknown : label := LStr "unknown".
Definition le_inverse1 (le : list label) (i : Z) : label :=
  if ((0 <=? i) && (i <? Z.of_nat (List.length le)))%Z then nth (Z.to_nat i) le unknown else unknown.
Definition le_inverse (le : list label) (y : list Z) : list label := map (le_inverse1 le) y.

(* ------------------------------------------------------------------ *)
(** * Variables *)

(** 1e-4, 0.5 *)
Definition ceps : f64 := fpow 7378697629483821 (-66).
Definition chalf : f64 := fpow 1 (-1).

(** The attributes of a variable object; [tf] is the transfer function's name. *)
Inductive var :=
| FloatVar (lb ub : vec)
| IntegerVar (lb ub : vec)
| LabelVar (cat : bool) (sets les : list (list label)) (ub : vec)   (* StringVar, CategoricalVar (cat = true) *)
| SequenceVar (sets : list (list label))
| PermutationVar (set le : list label)
| BinaryVar (n : nat)
| TransferBinaryVar (n : nat) (tf : string) (lb ub : f64) (all_zeros : bool)
| BoolVar (n : nat)
| TransferBoolVar (n : nat) (tf : string) (lb ub : f64).

(** Bounds as given to a constructor: a number, an array of floats, or something else. *)
Inductive barg := BNum (v : pyval) | BArr (l : vec) | BOther.

(** FloatVar._set_bounds (space.py:163-174). *)
Definition float_var (lb ub : barg) : res var :=
  match lb, ub with
  | BNum l, BNum u => let* l := py_float l in let* u := py_float u in Ok (FloatVar [l] [u])
  | BArr l, BArr u => if List.length l =? List.length u then Ok (FloatVar l u) else Err ValueError
  | _, _ => Err TypeError
  end.
(** int() of a Python number. *)
Definition int_of (v : pyval) : res Z := match as_number v with Some x => py_int x | None => Err TypeError end.
(** IntegerVar._set_bounds (space.py:196-208). *)
Definition integer_var (lb ub : barg) : res var :=
  match lb, ub with
  | BNum l, BNum u =>
    let* l := int_of l in let* u := int_of u in
    Ok (IntegerVar [fsub (fZ l) chalf] [fsub (fadd (fZ u) chalf) ceps])
  | BArr l, BArr u =>
    if List.length l =? List.length u
    then Ok (IntegerVar (map (fun x => fsub x chalf) l) (map (fun x => fadd x (fsub chalf ceps)) u))
    else Err ValueError
  | _, _ => Err TypeError
  end.
Definition set_ub (n : nat) : f64 := fsub (fZ (Z.of_nat n)) ceps.
(** StringVar._set_bounds (space.py:231-255): a flat collection of choices, or one collection per variable. *)
Inductive sarg := SFlat (l : list label) | SNested (l : list (list label)) | SOther.
Definition label_var (PE : penv) (cat : bool) (a : sarg) : res var :=
  match a with
  | SFlat [] => Err IndexError
  | SFlat l => Ok (LabelVar cat [l] [le_fit PE l] [set_ub (List.length l)])
  | SNested l =>
    if forallb (fun s => 1 <? List.length s) l
    then Ok (LabelVar cat l (map (le_fit PE) l) (map (fun s => set_ub (List.length s)) l))
    else Err ValueError
  | SOther => Err TypeError
  end.
(** SequenceVar.__init__ (space.py:281-290): no check at all. *)
Definition sequence_var (sets : list (list label)) : var := SequenceVar sets.
(** PermutationVar._set_bounds (space.py:318-326). *)
Definition permutation_var (PE : penv) (set : list label) : res var :=
  if 1 <? List.length set then Ok (PermutationVar set (le_fit PE set)) else Err TypeError.
(** BaseVar.set_n_vars (space.py:119-123). *)
Definition set_n_vars (v : pyval) : res nat :=
  match v with VInt z => if (0 <? z)%Z then Ok (Z.to_nat z) else Err ValueError | _ => Err ValueError end.
(** BinaryVar.__init__ (space.py:343-348), BoolVar.__init__ (space.py:400-405). *)
Definition binary_var (n : pyval) : res var := let* n := set_n_vars n in Ok (BinaryVar n).
Definition bool_var (n : pyval) : res var := let* n := set_n_vars n in Ok (BoolVar n).
(** TransferBinaryVar.__init__ (space.py:368-377), TransferBoolVar.__init__ (space.py:426-434). *)
Definition supported_tf : list string :=
  ["vstf_01"; "vstf_02"; "vstf_03"; "vstf_04"; "sstf_01"; "sstf_02"; "sstf_03"; "sstf_04"]%string.
Definition transfer_binary_var (n : pyval) (tf : string) (lb ub : f64) (az : bool) : res var :=
  let* n := set_n_vars n in
  if existsb (String.eqb tf) supported_tf then Ok (TransferBinaryVar n tf lb ub az) else Err ValueError.
Definition transfer_bool_var (n : pyval) (tf : string) (lb ub : f64) : res var :=
  let* n := set_n_vars n in
  if existsb (String.eqb tf) supported_tf then Ok (TransferBoolVar n tf lb ub) else Err ValueError.

Definition zeros (n : nat) : vec := repeat (fZ 0) n.
(** [c * np.ones(n)], [c * np.zeros(n)]. *)
Definition times_ones (c : f64) (n : nat) : vec := repeat (fmul c (fZ 1)) n.
Definition times_zeros (c : f64) (n : nat) : vec := repeat (fmul c (fZ 0)) n.
Definition bin_ub : f64 := fsub (fZ 2) ceps.

(** The attributes n_vars, lb and ub of each class.  The declared lower bound of the transfer variables is
    multiplied by zeros: TransferBinaryVar.__init__ (space.py:368-377), TransferBoolVar.__init__ (space.py:426-434). *)
Definition n_vars (v : var) : nat :=
  match v with
  | FloatVar lb _ | IntegerVar lb _ => List.length lb
  | LabelVar _ sets _ _ => List.length sets
  | SequenceVar _ => 1
  | PermutationVar set _ => List.length set
  | BinaryVar n | TransferBinaryVar n _ _ _ _ | BoolVar n | TransferBoolVar n _ _ _ => n
  end.
Definition v_lb (v : var) : vec :=
  match v with
  | FloatVar lb _ | IntegerVar lb _ => lb
  | LabelVar _ sets _ _ => zeros (List.length sets)
  | SequenceVar _ => [fZ 0]
  | PermutationVar set _ => zeros (List.length set)
  | BinaryVar n | BoolVar n => zeros n
  | TransferBinaryVar n _ lb _ _ | TransferBoolVar n _ lb _ => times_zeros lb n
  end.
Definition v_ub (v : var) : vec :=
  match v with
  | FloatVar _ ub | IntegerVar _ ub => ub
  | LabelVar _ _ _ ub => ub
  | SequenceVar sets => [set_ub (List.length sets)]
  | PermutationVar set _ => times_ones (set_ub (List.length set)) (List.length set)
  | BinaryVar n | BoolVar n => times_ones bin_ub n
  | TransferBinaryVar n _ _ ub _ | TransferBoolVar n _ _ ub => times_ones ub n
  end.

(** The draws one call makes from the variable's own generator: uniform numbers and raw integers. *)
Record tape := mkTape { tp_u : nat -> f64; tp_i : nat -> nat }.

(** np.clip on arrays of the bounds' length. *)
Definition clipv (lb ub x : vec) : vec :=
  map (fun i => fclip (nth i x fnan) (nth i lb fnan) (nth i ub fnan)) (seq 0 (List.length lb)).

(** np.array(x, dtype=int) of a float: truncation; NaN, infinities and values beyond int64 become the smallest int64
    (the x86-64 conversion; NumPy leaves it to the platform). *)
Definition int_min : Z := (- 2 ^ 63)%Z.
Definition cast64 (x : f64) : Z :=
  if fisfin x && ((- 2 ^ 63 <=? ftrunc x) && (ftrunc x <? 2 ^ 63))%Z then ftrunc x else int_min.

Section Var.
Variable PE : penv.
Variable E : env.

(** TransferBinaryVar._get_correct_x (space.py:379-385).  np.sum of 0/1 integers is 0 iff all are 0. *)
Definition get_correct_x (all_zeros : bool) (tp : tape) (x : list Z) : list Z :=
  if all_zeros then x
  else if forallb (Z.eqb 0) x then upd x (tp_i tp 0 mod List.length x) 1%Z
  else x.
(** np.where(cons < tf(clip(x)), 1, 0). *)
Definition transfer_bits (tf : string) (tp : tape) (x : vec) : list Z :=
  map (fun i => if flt (tp_u tp i) (e_fun E tf [nth i x fnan]) then 1%Z else 0%Z) (seq 0 (List.length x)).

(** The correct methods: FloatVar.correct (space.py:183-184), IntegerVar.correct (space.py:218-219),
    StringVar.correct (space.py:264-266), SequenceVar.correct (space.py:303-305), PermutationVar.correct (space.py:335-336),
    BinaryVar.correct (space.py:357-358), TransferBinaryVar.correct (space.py:387-392), BoolVar.correct (space.py:415-416),
    TransferBoolVar.correct (space.py:436-440).  Integer results as floats (they end up in one np.array). *)
Definition v_correct (tp : tape) (v : var) (x : vec) : vec :=
  let c := clipv (v_lb v) (v_ub v) x in
  match v with
  | FloatVar _ _ | IntegerVar _ _ | BinaryVar _ | BoolVar _ => c
  | LabelVar _ _ _ _ | SequenceVar _ => map (fun y => fZ (cast64 y)) c
  | PermutationVar _ _ => map (fun i => fZ (Z.of_nat i)) (e_argsort E x)
  | TransferBinaryVar _ tf _ _ az => map fZ (get_correct_x az tp (transfer_bits tf tp c))
  | TransferBoolVar _ tf _ _ => map fZ (transfer_bits tf tp c)
  end.

(** BaseVar.round (space.py:150-155). *)
Definition var_round (x : f64) : f64 :=
  let frac := fsub x (ffloor x) in if flt frac chalf then ffloor x else fceil x.

(** Decoded values, one per component of the variable. *)
Inductive dval := DFlt (x : f64) | DInt (z : Z) | DLab (l : label) | DSeq (l : list label) | DBool (b : bool).

(** The decode methods: FloatVar.decode (space.py:179-181), IntegerVar.decode (space.py:213-216),
    StringVar.decode (space.py:260-262), SequenceVar.decode (space.py:298-301) with return_type = tuple,
    PermutationVar.decode (space.py:331-333), BinaryVar.decode (space.py:353-355), BoolVar.decode (space.py:410-413);
    the transfer classes inherit the last two and correct (that is, sample) again. *)
Definition v_decode (tp : tape) (v : var) (x : vec) : res (list dval) :=
  let y := v_correct tp v x in
  match v with
  | FloatVar _ _ => Ok (map DFlt y)
  | IntegerVar _ _ => Ok (map (fun z => DInt (cast64 (var_round z))) y)
  | LabelVar _ _ les _ => Ok (map (fun p => DLab (le_inverse1 (fst p) (cast64 (snd p)))) (combine les y))
  | SequenceVar sets =>
    match y with
    | z :: _ => let i := cast64 z in
                if ((0 <=? i) && (i <? Z.of_nat (List.length sets)))%Z then Ok [DSeq (nth (Z.to_nat i) sets [])]
                else Err KeyError
    | [] => Err IndexError
    end
  | PermutationVar _ le => Ok (map (fun z => DLab (le_inverse1 le (cast64 z))) y)
  | BinaryVar _ | TransferBinaryVar _ _ _ _ _ => Ok (map (fun z => DInt (cast64 z)) y)
  | BoolVar _ | TransferBoolVar _ _ _ _ => Ok (map (fun z => DBool (cast64 z =? 1)%Z) y)
  end.

(** np.array(x, dtype=float) of one decoded value. *)
Definition to_float (d : dval) : res f64 :=
  match d with
  | DFlt x => Ok x
  | DInt z => Ok (fZ z)
  | DBool b => Ok (fZ (if b then 1 else 0))
  | _ => Err ValueError
  end.
(** The last position at which a tuple occurs: label_to_index of SequenceVar.__init__ (space.py:281-290). *)
Fixpoint last_index (x : list label) (l : list (list label)) (i : nat) (acc : option nat) : option nat :=
  match l with
  | [] => acc
  | y :: r => last_index x r (S i) (if list_eq_dec label_dec x y then Some i else acc)
  end.
(** The encode methods: FloatVar.encode (space.py:176-177), IntegerVar.encode (space.py:210-211), StringVar.encode
    (space.py:257-258), SequenceVar.encode (space.py:292-296), PermutationVar.encode (space.py:328-329),
    BinaryVar.encode (space.py:350-351), BoolVar.encode (space.py:407-408).  A SequenceVar value is one tuple. *)
Definition v_encode (v : var) (x : list dval) : res vec :=
  match v with
  | LabelVar _ _ les _ =>
    map_res (fun p => match snd p with
                      | DLab l => let* i := le_transform1 (fst p) l in Ok (fZ (Z.of_nat i))
                      | _ => Err KeyError end) (combine les x)
  | SequenceVar sets =>
    match x with
    | [DSeq l] => match last_index l sets 0 None with Some i => Ok [fZ (Z.of_nat i)] | None => Err ValueError end
    | _ => Err TypeError
    end
  | PermutationVar _ le =>
    map_res (fun d => match d with
                      | DLab l => let* i := le_transform1 le l in Ok (fZ (Z.of_nat i))
                      | _ => Err KeyError end) x
  | _ => map_res to_float x
  end.

(** NumPy's Generator.uniform(lb, ub): lb + (ub - lb) * u, OverflowError when a range is not finite. *)
Definition gen_uniform (tp : tape) (lb ub : vec) : res vec :=
  map_res (fun i =>
    let l := nth i lb fnan in let r := fsub (nth i ub fnan) l in
    if fisfin r then Ok (fadd l (fmul r (tp_u tp i))) else Err OverflowError) (seq 0 (List.length lb)).
(** NumPy's Generator.integers(low, high) for float arrays: both ends go through int(), high excluded, ValueError
    when nothing is left. *)
Definition gen_integer (k : nat) (low high : f64) : res Z :=
  let l := ftrunc low in let h := ftrunc high in
  if fisfin low && fisfin high && (l <? h)%Z then Ok (l + Z.of_nat k mod (h - l))%Z else Err ValueError.
Definition pick {T} (k : nat) (l : list T) (d : T) : T := nth (k mod List.length l) l d.
Definition to_str (l : label) : label := match l with LStr s => LStr s | _ => LStr (pe_str PE l) end.
(** np.array(labels): strings mixed with numbers become strings; with None or other objects nothing is converted. *)
Definition is_str (l : label) : bool := match l with LStr _ => true | _ => false end.
Definition is_plain (l : label) : bool := match l with LStr _ | LNum _ _ => true | _ => false end.
Definition np_labels (l : list label) : list label :=
  if existsb is_str l && forallb is_plain l then map to_str l else l.
(** Generator.permutation: repeatedly take one of the remaining elements. *)
Fixpoint permute (tp : nat -> nat) (n : nat) (l : list label) : list label :=
  match n with
  | O => []
  | S m => match l with
           | [] => []
           | d :: _ => let i := tp 0 mod List.length l in nth i l d :: permute (fun j => tp (S j)) m (remove_at i l)
           end
  end.

(** The generate methods: FloatVar.generate (space.py:186-187), IntegerVar.generate (space.py:221-222),
    StringVar.generate (space.py:268-269), CategoricalVar.generate (space.py:276-277), SequenceVar.generate (space.py:307-309),
    PermutationVar.generate (space.py:338-339), BinaryVar.generate (space.py:360-361), TransferBinaryVar.generate
    (space.py:394-396), BoolVar.generate (space.py:418-419). *)
Definition v_generate (tp : tape) (v : var) : res (list dval) :=
  match v with
  | FloatVar lb ub => let* x := gen_uniform tp lb ub in Ok (map DFlt x)
  | IntegerVar lb ub =>
    map_res (fun i => let* z := gen_integer (tp_i tp i) (fadd (nth i lb fnan) chalf)
                                            (fadd (fadd (nth i ub fnan) chalf) ceps) in Ok (DInt z))
            (seq 0 (List.length lb))
  | LabelVar cat sets _ _ =>
    map_res (fun p => match snd p with
                      | [] => Err ValueError
                      | s => let l := pick (tp_i tp (fst p)) s LNone in Ok (DLab (if cat then l else to_str l))
                      end) (combine (seq 0 (List.length sets)) sets)
  | SequenceVar sets => match sets with [] => Err ValueError | _ => Ok [DSeq (pick (tp_i tp 0) sets [])] end
  | PermutationVar set _ => Ok (map DLab (permute (tp_i tp) (List.length set) (np_labels set)))
  | BinaryVar n => Ok (map (fun i => DInt (Z.of_nat (tp_i tp i mod 2))) (seq 0 n))
  | TransferBinaryVar n _ _ _ az =>
    Ok (map DInt (get_correct_x az (mkTape (tp_u tp) (fun j => tp_i tp (n + j)))
                                (map (fun i => Z.of_nat (tp_i tp i mod 2)) (seq 0 n))))
  | BoolVar n | TransferBoolVar n _ _ _ => Ok (map (fun i => DBool (tp_i tp i mod 2 =? 0)) (seq 0 n))
  end.

(* ------------------------------------------------------------------ *)
(** * Problem *)

(** A variable with its name. *)
Definition nvar : Type := (string * var)%type.
Definition vars_lb (bs : list nvar) : vec := List.concat (map (fun b => v_lb (snd b)) bs).
Definition vars_ub (bs : list nvar) : vec := List.concat (map (fun b => v_ub (snd b)) bs).
Definition vars_dim (bs : list nvar) : nat := List.length (vars_lb bs).

(** Bounds argument of Problem: one variable, a collection whose entries are variables or not, something else. *)
Inductive bounds_arg := OneVar (v : nvar) | ManyVars (l : list (option nvar)) | NoVars.
(** Problem.set_bounds (problem.py:63-79); np.concatenate of nothing raises ValueError. *)
Definition set_bounds (b : bounds_arg) : res (list nvar) :=
  match b with
  | OneVar v => Ok [v]
  | ManyVars l =>
    let* vs := map_res (fun o => match o with Some v => Ok v | None => Err ValueError end) l in
    match vs with [] => Err ValueError | _ => Ok vs end
  | NoVars => Err TypeError
  end.

(** Problem.correct_solution_with_bounds (problem.py:127-133); [tps j] are the draws of variable number j. *)
Fixpoint correct_with_bounds (tps : nat -> tape) (j n : nat) (bs : list nvar) (x : vec) : vec :=
  match bs with
  | [] => []
  | b :: r => v_correct (tps j) (snd b) (slice n (n + n_vars (snd b)) x)
              ++ correct_with_bounds tps (S j) (n + n_vars (snd b)) r x
  end.
(** Problem.encode_solution_with_bounds (problem.py:108-113). *)
Definition encode_with_bounds (x : list (list dval)) (bs : list nvar) : res vec :=
  let* l := map_res (fun i => match nth_error bs i, nth_error x i with
                              | Some b, Some d => v_encode (snd b) d
                              | _, _ => Err IndexError end) (seq 0 (List.length bs)) in
  Ok (List.concat l).
(** Problem.decode_solution_with_bounds (problem.py:115-125): a dict from names to a scalar or a list. *)
Inductive decoded := One (d : dval) | Several (l : list dval).
Definition dict_set (d : list (string * decoded)) (k : string) (v : decoded) : list (string * decoded) :=
  if existsb (fun p => String.eqb (fst p) k) d
  then map (fun p => if String.eqb (fst p) k then (k, v) else p) d
  else d ++ [(k, v)].
Fixpoint decode_with_bounds (tps : nat -> tape) (j n : nat) (bs : list nvar) (x : vec) (acc : list (string * decoded))
  : res (list (string * decoded)) :=
  match bs with
  | [] => Ok acc
  | b :: r =>
    let* t := v_decode (tps j) (snd b) (slice n (n + n_vars (snd b)) x) in
    let* d := (if n_vars (snd b) =? 1 then (match t with z :: _ => Ok (One z) | [] => Err IndexError end)
               else Ok (Several t)) in
    decode_with_bounds tps (S j) (n + n_vars (snd b)) r x (dict_set acc (fst b) d)
  end.
(** Problem.generate_solution_with_bounds (problem.py:135-140), encoded=True. *)
Definition generate_with_bounds (tps : nat -> tape) (bs : list nvar) : res vec :=
  let* x := map_res (fun i => match nth_error bs i with Some b => v_generate (tps i) (snd b) | None => Err IndexError end)
                    (seq 0 (List.length bs)) in
  encode_with_bounds x bs.

(** The problem the optimizer sees.  [tps k j]: draws of variable j in the call with draw number k.  When generation
    raises, [p_gen] is the empty vector: theorems about runs assume it does not. *)
Definition vars_problem (bs : list nvar) (mm : minmax) (obj : vec -> list f64) (wts : option (list f64))
    (save : bool) (tps : nat -> nat -> tape) : problem :=
  mkProblem (vars_lb bs) (vars_ub bs) mm obj wts
    (fun k x => correct_with_bounds (tps k) 0 0 bs x)
    (fun k => match generate_with_bounds (tps k) bs with Ok x => x | Err _ => [] end) save.
End Var.
