(** Parameter checks (mealpy/utils/validator.py), Termination construction (termination.py) and
    Optimizer.set_parameters.  No proofs here. *)
From Verif Require Import Prelude Fl MCore MAgent.

(** Exact values of Python numbers: Python compares int and float exactly.  [XFin m e] is m * 2^e. *)
Inductive xnum := XNan | XNinf | XPinf | XFin (m e : Z).
Definition of_f64 (x : f64) : xnum :=
  match x with
  | BinarySingleNaN.B754_zero _ => XFin 0 0
  | BinarySingleNaN.B754_infinity s => if s then XNinf else XPinf
  | BinarySingleNaN.B754_nan => XNan
  | BinarySingleNaN.B754_finite s m e _ => XFin (if s then Z.neg m else Z.pos m) e
  end.
Definition xfin_cmp (m1 e1 m2 e2 : Z) : comparison :=
  let e := Z.min e1 e2 in (m1 * 2 ^ (e1 - e) ?= m2 * 2 ^ (e2 - e))%Z.
Definition xcmp (a b : xnum) : option comparison :=
  match a, b with
  | XNan, _ | _, XNan => None
  | XNinf, XNinf | XPinf, XPinf => Some Eq
  | XNinf, _ | _, XPinf => Some Lt
  | XPinf, _ | _, XNinf => Some Gt
  | XFin m1 e1, XFin m2 e2 => Some (xfin_cmp m1 e1 m2 e2)
  end.
Definition xlt a b : bool := match xcmp a b with Some Lt => true | _ => false end.
Definition xle a b : bool := match xcmp a b with Some Lt | Some Eq => true | _ => false end.
Definition xeq a b : bool := match xcmp a b with Some Eq => true | _ => false end.

(** Python values as far as the checks look at them.  Complex numbers are left out. *)
Inductive seqkind := SList | STuple | SArray.
Inductive pyval :=
| VNone | VBool (b : bool) | VInt (z : Z) | VFlt (x : f64) | VStr (s : string)
| VSeq (k : seqkind) (l : list pyval) | VDict (d : list (string * pyval)) | VObj.

(** [isinstance(value, numbers.Number)]: bool counts as a number. *)
Definition as_number (v : pyval) : option xnum :=
  match v with
  | VBool b => Some (XFin (if b then 1 else 0) 0)
  | VInt z => Some (XFin z 0)
  | VFlt x => Some (of_f64 x)
  | _ => None
  end.

(** A bound: tuple (open) or list (closed) of two numbers. *)
Record bound := mkBound { b_open : bool; b_lo : xnum; b_hi : xnum }.

(** is_in_bound (validator.py:17-31). *)
Definition is_in_bound (v : xnum) (b : bound) : bool :=
  let ops := if b_open b then xlt else xle in
  if xeq (b_lo b) XNinf && xeq (b_hi b) XPinf then true
  else if xeq (b_lo b) XNinf && ops v (b_hi b) then true
  else if ops (b_lo b) v && xeq (b_hi b) XPinf then true
  else ops (b_lo b) v && ops v (b_hi b).

(** Python's int() of a number. *)
Definition py_int (x : xnum) : res Z :=
  match x with
  | XNan => Err ValueError
  | XNinf | XPinf => Err OverflowError
  | XFin m e => Ok (if (0 <=? e)%Z then m * 2 ^ e else Z.quot m (2 ^ (- e)))%Z
  end.
(** Python's float() of a bool, int or float; an int is rounded to nearest even, OverflowError when too large. *)
Definition py_float (v : pyval) : res f64 :=
  match v with
  | VFlt x => Ok x
  | VBool b => Ok (fZ (if b then 1 else 0))
  | VInt z => let x := fZ z in if fisfin x then Ok x else Err OverflowError
  | _ => Err TypeError
  end.

(** Validator.check_int (validator.py:52-59). *)
Definition check_int (v : pyval) (b : option bound) : res Z :=
  match as_number v with
  | None => Err ValueError
  | Some x =>
    match b with
    | None => py_int x
    | Some b => if is_in_bound x b then py_int x else Err ValueError
    end
  end.
(** Validator.check_float (validator.py:61-68). *)
Definition check_float (v : pyval) (b : option bound) : res f64 :=
  match as_number v with
  | None => Err ValueError
  | Some x =>
    match b with
    | None => py_float v
    | Some b => if is_in_bound x b then py_float v else Err ValueError
    end
  end.
(** Validator.check_str (validator.py:70-75) with is_str_in_list (validator.py:34-37). *)
Definition check_str (v : pyval) (b : option (list string)) : res string :=
  match v with
  | VStr s => match b with
              | None => Ok s
              | Some l => if existsb (String.eqb s) l then Ok s else Err ValueError
              end
  | _ => Err ValueError
  end.
(** Validator.check_bool (validator.py:77-82). *)
Definition check_bool (v : pyval) (b : list bool) : res bool :=
  match v with
  | VBool x => if existsb (Bool.eqb x) b then Ok x else Err ValueError
  | _ => Err ValueError
  end.
(** [isinstance(item, DIGIT)]: bool is an int. *)
Definition is_digit (v : pyval) : bool := match v with VBool _ | VInt _ => true | _ => false end.
Definition is_number (v : pyval) : bool := match as_number v with Some _ => true | None => false end.
Definition all_in (l : list pyval) (bs : list bound) : bool :=
  forallb (fun p => match as_number (fst p) with Some x => is_in_bound x (snd p) | None => false end) (combine l bs).
(** Validator.check_tuple_int (validator.py:84-95). *)
Definition check_tuple (good : pyval -> bool) (v : pyval) (bs : option (list bound)) : res pyval :=
  match v with
  | VSeq k l =>
    if (1 <? List.length l) && forallb good l then
      match bs with
      | Some bs => if List.length bs =? List.length l then (if all_in l bs then Ok v else Err ValueError) else Ok v
      | None => Ok v
      end
    else Err ValueError
  | _ => Err ValueError
  end.
Definition check_tuple_int := check_tuple is_digit.
(** Validator.check_tuple_float (validator.py:97-108). *)
Definition check_tuple_float := check_tuple is_number.
(** Validator.check_list_tuple (validator.py:110-113). *)
Definition check_list_tuple (v : pyval) : res (list pyval) :=
  match v with
  | VSeq SList l | VSeq STuple l => if 1 <=? List.length l then Ok l else Err ValueError
  | _ => Err ValueError
  end.
(** Validator.check_is_int_and_float (validator.py:120-129). *)
Definition check_is_int_and_float (v : pyval) (bi bf : option bound) : res pyval :=
  match v with
  | VInt z => if match bi with None => true | Some b => is_in_bound (XFin z 0) b end then Ok v else Err ValueError
  | VFlt x => if match bf with None => true | Some b => is_in_bound (of_f64 x) b end then Ok v else Err ValueError
  | _ => Err ValueError
  end.

Definition zbound (lo hi : Z) : bound := mkBound false (XFin lo 0) (XFin hi 0).

(** Termination.__init__ with __set_keyword_arguments and __set_condition (termination.py:59-91).  [kwargs] holds
    the keyword arguments other than the four limits (they are not among the four by Python's call rules); of those
    only epsilon is read later.  A [termination] dict among them only becomes an attribute.
    0.1 is the binary64 number. *)
Definition c0_1 : f64 := fpow 7205759403792794 (-56).
Definition c1em10 : f64 := fpow 7737125245533627 (-86).
Definition opt_check {T} (v : pyval) (f : pyval -> res T) : res (option T) :=
  match v with VNone => Ok None | _ => let* x := f v in Ok (Some x) end.
Definition termination_init (me mf mt ms : pyval) (kwargs : list (string * pyval)) : res termination :=
  match me, mf, mt, ms with
  | VNone, VNone, VNone, VNone => Err ValueError
  | _, _, _, _ =>
    let* e := opt_check me (fun v => check_int v (Some (zbound 1 10000000))) in
    let* f := opt_check mf (fun v => check_int v (Some (zbound 10 1000000000))) in
    let* t := opt_check mt (fun v => check_float v (Some (mkBound false (of_f64 c0_1) (XFin 1000000 0)))) in
    let* s := opt_check ms (fun v => check_int v (Some (zbound 1 100000))) in
    Ok (mkTerm e f t s (match dget kwargs "epsilon" with Some (VFlt x) => x | Some (VInt z) => fZ z | _ => c1em10 end) (fZ 0))
  end.
(** A dict given as termination: Optimizer.check_termination (optimizer.py:195-214) calls Termination with star-star dict;
    keys of the four limits are bound to the parameters. *)
Definition termination_of_dict (d : list (string * pyval)) : res termination :=
  let arg k := match dget d k with Some v => v | None => VNone end in
  termination_init (arg "max_epoch"%string) (arg "max_fe"%string) (arg "max_time"%string) (arg "max_early_stop"%string)
    (filter (fun kv => negb (existsb (String.eqb (fst kv)) ["max_epoch"; "max_fe"; "max_time"; "max_early_stop"]%string)) d).

(** ** Optimizer.set_parameters (optimizer.py:71-96) *)
(** The two dictionaries it touches: [self.__dict__] and [self.parameters] (insertion order kept by the list). *)
Record popt := mkPopt { po_attrs : dict pyval; po_params : dict pyval; po_order : list string }.
(** With a list of names: KeyError if one is not an attribute. *)
Definition set_parameters_names (o : popt) (names : list string) : res popt :=
  let* ps := map_res (fun n => match dget (po_attrs o) n with Some v => Ok (n, v) | None => Err KeyError end) names in
  Ok (mkPopt (po_attrs o) (rev ps) names).
(** With a dict. *)
Definition set_parameters (o : popt) (new : dict pyval) : res popt :=
  if forallb (fun kv => match dget (po_params o) (fst kv) with Some _ => true | None => false end) new
  then Ok (mkPopt (fold_left (fun d kv => dset d (fst kv) (snd kv)) new (po_attrs o))
                  (fold_left (fun d kv => dset d (fst kv) (snd kv)) new (po_params o)) (po_order o))
  else Err ValueError.
