(** Model of the spheroid shape functions and of the Draine & Hensley shape distribution, in exact real arithmetic. *)
From Coq Require Import Reals Lra Ratan.
From Verif Require Import QMatrix Quadrature.
Open Scope R_scope.

(** SpecialFunctions.hpp l.557-583: get_equal_volume_to_equal_surface_area_sphere_ratio *)
Definition sphere_ratio (axis_ratio : R) : R :=
  if Rlt_dec 1 axis_ratio then
    let axis_ratio2 := axis_ratio * axis_ratio in
    let e := sqrt (1 - 1 / axis_ratio2) in
    let cbrtaxis_ratio2 := cbrt axis_ratio2 in
    1 / sqrt (0.25 * (2 * cbrtaxis_ratio2 + ln ((1 + e) / (1 - e)) / (e * cbrtaxis_ratio2 * cbrtaxis_ratio2)))
  else if Rlt_dec axis_ratio 1 then
    let cbrtaxis_ratio := cbrt axis_ratio in
    let e := sqrt (1 - axis_ratio * axis_ratio) in
    1 / sqrt (0.5 * (cbrtaxis_ratio * cbrtaxis_ratio + asin e / (e * cbrtaxis_ratio)))
  else 1.

(** DraineHensleyShapeDistribution.hpp l.70-86: get_shape_factor *)
Definition get_shape_factor (axis_ratio : R) : R :=
  if Rlt_dec axis_ratio 1 then
    let e2 := 1 - axis_ratio * axis_ratio in
    let e := sqrt e2 in
    (1 - e2) * (0.5 * ln ((1 + e) / (1 - e)) / e - 1) / e2
  else if Rlt_dec 1 axis_ratio then
    let e2 := 1 - 1 / (axis_ratio * axis_ratio) in
    let e := sqrt e2 in
    (1 - sqrt (1 - e2) * asin e / e) / e2
  else 1 / 3.

(** l.129-159: get_jacobian; the literal 1.e-5 *)
Definition get_jacobian (axis_ratio : R) : R :=
  if Rlt_dec axis_ratio 1 then
    let e2 := 1 - axis_ratio * axis_ratio in
    if Rlt_dec e2 (/ 100000) then 4 / 15 + 2 * e2 / 21 + 3 * e2 * e2 / 70
    else
      let e := sqrt e2 in
      0.5 * sqrt (1 - e2) * ((3 - e2) * ln ((1 + e) / (1 - e)) - 6 * e) / (e2 * e2 * e)
  else if Rlt_dec 1 axis_ratio then
    let e2 := 1 - 1 / (axis_ratio * axis_ratio) in
    if Rlt_dec e2 (/ 100000) then 4 / 15 - 2 * e2 / 21 - 11 * e2 * e2 / 210
    else
      let e := sqrt e2 in
      (1 - e2) * ((3 - 2 * e2) * asin e - 3 * e * sqrt (1 - e2)) / (e2 * e2 * e)
  else 4 / 15.

(** l.188-191 *)
Definition cde2 (L : R) : R := let Lm1 := L - 1 in 12 * L * Lm1 * Lm1.
(** l.201-204: evaluate_cde2 *)
Definition evaluate_cde2 (axis_ratio : R) : R := cde2 (get_shape_factor axis_ratio) * get_jacobian axis_ratio.
(** l.213-221: operator() *)
Definition density (minimum maximum axis_ratio : R) : R :=
  if Rle_dec minimum axis_ratio then if Rle_dec axis_ratio maximum then evaluate_cde2 axis_ratio else 0 else 0.

(* ------------------------------------------------ the cutoff criterion, l.304-377 *)
(** l.318-322: while (valmin > 0.) _minimum_axis_ratio *= 0.5, with _maximum_axis_ratio = 1; a [None] means that the loop did not finish in [fuel] rounds *)
Fixpoint halve (fuel : nat) (cutoff minimum : R) : option R :=
  match fuel with
  | O => None
  | S f => if Rlt_dec 0 (density minimum 1 minimum - cutoff) then halve f cutoff (minimum * 0.5) else Some minimum
  end.
(** l.335-346: bisection for the minimum, between [minimum] and [upper] *)
Fixpoint bisect_minimum (fuel : nat) (cutoff minimum upper : R) : option R :=
  match fuel with
  | O => None
  | S f =>
      if Rlt_dec (0.005 * Rabs (minimum + upper)) (Rabs (minimum - upper)) then
        let mid := 0.5 * (minimum + upper) in
        if Rlt_dec (density minimum 1 mid - cutoff) 0 then bisect_minimum f cutoff mid upper else bisect_minimum f cutoff minimum mid
      else Some minimum
  end.
(** l.350-354: while (valmax > 0.) _maximum_axis_ratio += 1. *)
Fixpoint grow (fuel : nat) (cutoff minimum maximum : R) : option R :=
  match fuel with
  | O => None
  | S f => if Rlt_dec 0 (density minimum maximum maximum - cutoff) then grow f cutoff minimum (maximum + 1) else Some maximum
  end.
(** l.364-376: bisection for the maximum *)
Fixpoint bisect_maximum (fuel : nat) (cutoff minimum lower maximum : R) : option R :=
  match fuel with
  | O => None
  | S f =>
      if Rlt_dec (0.005 * Rabs (maximum + lower)) (Rabs (maximum - lower)) then
        let mid := 0.5 * (lower + maximum) in
        if Rlt_dec 0 (density minimum maximum mid - cutoff) then bisect_maximum f cutoff minimum mid maximum else bisect_maximum f cutoff minimum lower mid
      else Some maximum
  end.
(** how the constructor can end: with an axis ratio range, or in a failed assertion *)
Inductive built := Range (minimum maximum : R) | Assertion.
Definition check (asserts : bool) (P : Prop) (D : {P} + {~ P}) (r : option built) : option built :=
  if asserts then if D then r else Some Assertion else r.
(** l.304-377; [asserts] tells whether the code was configured with ACTIVATE_ASSERTIONS (Error.hpp l.136-166) *)
Definition cutoff_range (asserts : bool) (fuel : nat) (cutoff : R) : option built :=
  check asserts _ (Rlt_dec 0 cutoff) (check asserts _ (Rlt_dec cutoff 0.5) (
  match halve fuel cutoff 1 with None => None | Some m0 =>
  check asserts _ (Rlt_dec (density m0 1 m0 - cutoff) 0) (check asserts _ (Rlt_dec 0 (density m0 1 1 - cutoff)) (
  match bisect_minimum fuel cutoff m0 1 with None => None | Some m =>
  match grow fuel cutoff m 1 with None => None | Some x0 =>
  check asserts _ (Rlt_dec 0 (density m x0 1 - cutoff)) (check asserts _ (Rlt_dec (density m x0 x0 - cutoff) 0) (
  match bisect_maximum fuel cutoff m 1 x0 with None => None | Some x => Some (Range m x) end)) end end)) end)).

(* ------------------------------------------------ the fraction criterion, l.235-302 *)
(** [quad a b] is the value returned by SpecialFunctions::gauss_legendre_quadrature(evaluate_cde2, a, b, ...) *)
(** l.257-268 *)
Fixpoint bisect_prolate (fuel : nat) (quad : R -> R -> R) (target lower upper : R) : option R :=
  match fuel with
  | O => None
  | S f =>
      let half := 0.5 * (lower + upper) in
      let integral := quad half 1 in
      if Rlt_dec (0.005 * Rabs (integral + target)) (Rabs (integral - target)) then
        if Rlt_dec target integral then bisect_prolate f quad target half upper else bisect_prolate f quad target lower half
      else Some half
  end.
(** l.281-287 *)
Fixpoint double_upper (fuel : nat) (quad : R -> R -> R) (target upper : R) : option R :=
  match fuel with
  | O => None
  | S f => if Rlt_dec (quad 1 upper) target then double_upper f quad target (upper * 2) else Some upper
  end.
(** l.289-301 *)
Fixpoint bisect_oblate (fuel : nat) (quad : R -> R -> R) (target lower upper : R) : option R :=
  match fuel with
  | O => None
  | S f =>
      let half := 0.5 * (lower + upper) in
      let integral := quad 1 half in
      if Rlt_dec (/ 100000 * Rabs (integral + target)) (Rabs (integral - target)) then
        if Rlt_dec target integral then bisect_oblate f quad target lower half else bisect_oblate f quad target half upper
      else Some half
  end.
(** l.235-302 (the assertions half > 0 hold trivially and are left out; fraction < 1 is a hypothesis of the theorems) *)
Definition fraction_range (fuel : nat) (quad : R -> R -> R) (fraction : R) : option built :=
  let prolate_fraction := quad 0 1 in
  match bisect_prolate fuel quad (fraction * prolate_fraction) 0 1 with None => None | Some m =>
  let oblate_target := fraction * (1 - prolate_fraction) in
  match double_upper fuel quad oblate_target 2 with None => None | Some u =>
  match bisect_oblate fuel quad oblate_target 1 u with None => None | Some x => Some (Range m x) end end end.

(* ------------------------------------------------ evaluation *)
(** ShapeDistribution.hpp l.95-106: evaluate (the arrays are new, hence filled with zeros) *)
Fixpoint weigh (k i : nat) (p : R -> R) (A : arrays) : arrays :=
  match k with
  | O => A
  | S k' => weigh k' (S i) p (fst A, aset (snd A) i (snd A i * p (fst A i)))
  end.
Definition evaluate (fuel npoints : nat) (p : R -> R) (minimum maximum : R) : option arrays :=
  match gauss_legendre_ab fuel npoints minimum maximum (fun _ => 0, fun _ => 0) with
  | None => None
  | Some A => Some (weigh npoints 0 p A)
  end.
(** ShapeDistribution.hpp l.49-58: the default distribution *)
Definition gaussian_density (axis_ratio : R) : R :=
  if Rle_dec 0.5 axis_ratio then if Rle_dec axis_ratio 1.5 then let x := axis_ratio - 1 in exp (- 0.5 * x * x / 0.027777778) else 0 else 0.
