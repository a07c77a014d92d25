(** Formulas of the library read in exact real arithmetic: transfer functions, chaotic maps, fuzzy weights, roulette
    probabilities, arithmetic crossover.  Simplification throughout: no rounding.  No proofs here. *)
From Coq Require Import Reals Rtrigo_def Ratan List.
Import ListNotations.
Local Open Scope R_scope.

(* ------------------------------------------------------------------ *)
(** * Transfer functions (transfer.py) *)
(** vstf_01 (transfer.py:14-15); erf is not in the standard library, hence a parameter. *)
Definition vstf_01 (erf : R -> R) (x : R) : R := Rabs (erf (sqrt PI / 2 * x)).
(** vstf_02 (transfer.py:18-19) *)
Definition vstf_02 (x : R) : R := Rabs (tanh x).
(** vstf_03 (transfer.py:22-23) *)
Definition vstf_03 (x : R) : R := Rabs (x / sqrt (1 + Rsqr x)).
(** vstf_04 (transfer.py:26-27) *)
Definition vstf_04 (x : R) : R := Rabs (2 / PI * atan (PI / 2 * x)).
(** sstf_01 (transfer.py:33-34) *)
Definition sstf_01 (x : R) : R := 1 / (1 + exp (- 2 * x)).
(** sstf_02 (transfer.py:37-38) *)
Definition sstf_02 (x : R) : R := 1 / (1 + exp (- x)).
(** sstf_03 (transfer.py:41-42) *)
Definition sstf_03 (x : R) : R := 1 / (1 + exp (- x / 3)).
(** sstf_04 (transfer.py:45-46) *)
Definition sstf_04 (x : R) : R := 1 / (1 + exp (- x / 2)).

(* ------------------------------------------------------------------ *)
(** * Chaotic maps (chaotic.py) *)
(** Comparisons as booleans. *)
Definition rle (x y : R) : bool := if Rle_dec x y then true else false.
Definition rlt (x y : R) : bool := if Rlt_dec x y then true else false.
Definition req (x y : R) : bool := if Req_EM_T x y then true else false.
(** Python's [x % 1]. *)
Definition fmod1 (x : R) : R := x - IZR (Int_part x).

(** ChaoticMap.bernoulli_map (chaotic.py:15-21) *)
Definition bernoulli_map (a x : R) : R :=
  if (rle 0 x && rle x a)%bool then x / (1 - a) else (x - a) / a.
(** ChaoticMap.logistic_map (chaotic.py:23-26) *)
Definition logistic_map (a x : R) : R := a * x * (1 - x).
(** ChaoticMap.chebyshev_map (chaotic.py:28-31) *)
Definition chebyshev_map (a x : R) : R := cos (a * acos x).
(** ChaoticMap.circle_map (chaotic.py:33-36) *)
Definition circle_map (a b x : R) : R := fmod1 (x + b - a / (2 * PI) * sin (2 * PI * x)).
(** ChaoticMap.cubic_map (chaotic.py:38-41) *)
Definition cubic_map (q x : R) : R := q * x * (1 - x * x).
(** ChaoticMap.icmic_map (chaotic.py:43-48) *)
Definition icmic_map (a x : R) : R := if req x 0 then 1 / 10 else Rabs (sin (a / x)).
(** ChaoticMap.piecewise_map (chaotic.py:50-60) *)
Definition piecewise_map (a x : R) : R :=
  if (rle 0 x && rlt x a)%bool then x / a
  else if (rle a x && rlt x (1 / 2))%bool then (x - a) / (1 / 2 - a)
  else if (rle (1 / 2) x && rlt x (1 - a))%bool then (1 - a - x) / (1 / 2 - a)
  else (1 - x) / a.
(** ChaoticMap.singer_map (chaotic.py:62-65) *)
Definition singer_map (a x : R) : R :=
  a * (786 / 100 * x - 2331 / 100 * x ^ 2 + 2875 / 100 * x ^ 3 - 13302875 / 1000000 * x ^ 4).
(** ChaoticMap.sinusoidal_map (chaotic.py:67-70) *)
Definition sinusoidal_map (a x : R) : R := a * x * x * sin (PI * x).
(** ChaoticMap.tent_map (chaotic.py:72-78) *)
Definition tent_map (x : R) : R := if rlt x (7 / 10) then x / (7 / 10) else 10 / 3 * (1 - x).

(* ------------------------------------------------------------------ *)
(** * Fuzzy weights (fuzzy.py) *)
(** FuzzySystem.triangular_membership (fuzzy.py:18-25) *)
Definition triangular (x a b c : R) : R :=
  if (rle x a || rle c x)%bool then 0
  else if (rlt a x && rle x b)%bool then (x - a) / (b - a)
  else (c - x) / (c - b).
(** A membership dict with its low, medium and high entries. *)
Record member := mkMember { m_low : R; m_medium : R; m_high : R }.
(** FuzzySystem.fuzzify_iterations (fuzzy.py:27-32) *)
Definition fuzzify (x : R) : member :=
  mkMember (triangular x 0 0 (1 / 2)) (triangular x 0 (1 / 2) 1) (triangular x (1 / 2) 1 1).
(** FuzzySystem.defuzzify_centroid (fuzzy.py:34-49) *)
Definition defuzzify (m : member) : R :=
  let den := m_low m + m_medium m + m_high m in
  if req den 0 then 50 else (m_low m * 25 + m_medium m * 50 + m_high m * 75) / den.
(** FuzzySystem.get_fuzzy_weights (fuzzy.py:51-95); [increase]: the pyramid type is the string increase. *)
Definition fuzzy_weights (increase : bool) (current max : R) : R * R * R :=
  let i := fuzzify (current / max) in
  let beta := mkMember (m_high i) (Rmax (Rmax (m_low i) (m_medium i)) (m_high i)) 0 in
  if increase then
    (defuzzify (mkMember (m_low i) (Rmax (m_medium i) (m_low i)) (m_high i)), defuzzify beta,
     defuzzify (mkMember (Rmax (m_medium i) (m_high i)) (m_low i) 0))
  else
    (defuzzify (mkMember (m_high i) (Rmax (m_medium i) (m_high i)) (m_low i)), defuzzify beta,
     defuzzify (mkMember (Rmax (m_low i) (m_medium i)) (m_high i) 0)).

(* ------------------------------------------------------------------ *)
(** * Roulette wheel and crossover in exact arithmetic *)
Definition rmaxl (l : list R) : R := fold_left Rmax (tl l) (hd 0 l).
Definition rminl (l : list R) : R := fold_left Rmin (tl l) (hd 0 l).
Definition rsum (l : list R) : R := fold_right Rplus 0 l.
(** The probabilities of Optimizer.get_index_roulette_wheel_selection (optimizer.py:674-694); [None]: uniform choice. *)
Definition roulette_real (min : bool) (l : list R) : option (list R) :=
  if req (rmaxl l - rminl l) 0 then None
  else
    let l1 := if existsb (fun x => rlt x 0) l then map (fun x => x - rminl l) l else l in
    let l2 := if min then map (fun x => rmaxl l1 - x) l1 else l1 in
    Some (map (fun x => x / rsum l2) l2).
(** One component of Optimizer.crossover_arithmetic (optimizer.py:789-801). *)
Definition cross_real (r d m : R) : R * R := (r * d + (1 - r) * m, r * m + (1 - r) * d).
