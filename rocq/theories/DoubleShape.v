(** Model in double precision of DraineHensleyShapeDistribution::get_shape_factor (/repo/src/DraineHensleyShapeDistribution.hpp l.70-86): IEEE 754 binary64, rounding to nearest even, without
    fused operations (float_type is double without HAVE_MULTIPRECISION). sqrt is correctly rounded (IEEE 754); [flog] and [fasin] are the functions log and asin of the C library, about which
    nothing is assumed. Simplification: no overflow. *)
From Coq Require Import Reals Lra.
From Verif Require Import Doubles.
Local Open Scope R_scope.

Definition fsqrt (x : R) : R := rnd (sqrt x).
(** None: not a number. That happens for very flat shapes, when 1 - axis_ratio^2 is rounded to 1: zero times the logarithm of 2 / 0. *)
Definition shape_factor_double (flog fasin : R -> R) (axis_ratio : R) : option R :=
  if Rlt_dec axis_ratio 1 then
    let e2 := fsub 1 (fmul axis_ratio axis_ratio) in
    let e := fsqrt e2 in
    if Req_EM_T (fsub 1 e) 0 then None
    else Some (fdiv (fmul (fsub 1 e2) (fsub (fdiv (fmul 0.5 (flog (fdiv (fadd 1 e) (fsub 1 e)))) e) 1)) e2)
  else if Rlt_dec 1 axis_ratio then
    let e2 := fsub 1 (fdiv 1 (fmul axis_ratio axis_ratio)) in
    let e := fsqrt e2 in
    Some (fdiv (fsub 1 (fdiv (fmul (fsqrt (fsub 1 e2)) (fasin e)) e)) e2)
  else Some (fdiv 1 3).
