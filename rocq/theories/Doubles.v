(** Model in double precision of the direction computed by TMatrix::get_forward_scattering_matrix for a particle of any orientation (/repo/src/TMatrix.hpp l.1312-1373; the same
    statements in ScatteringMatrixResource.hpp l.187-242 and ExtinctionMatrixResource.hpp): IEEE 754 binary64, rounding to nearest even, without fused operations
    (float_type is double without HAVE_MULTIPRECISION). The functions cos, sin and acos are taken to be correctly rounded.
    Simplification: no overflow (no value here exceeds 2^27 in size). *)
From Coq Require Import ZArith Reals Lra.
From Flocq Require Import Core.
From Verif Require Import Frames.
Local Open Scope R_scope.

(** the double next to x *)
Definition rnd (x : R) : R := round radix2 (FLT_exp (-1074) 53) ZnearestE x.
Definition fadd (x y : R) : R := rnd (x + y).
Definition fsub (x y : R) : R := rnd (x - y).
Definition fmul (x y : R) : R := rnd (x * y).
Definition fdiv (x y : R) : R := rnd (x / y).
Definition fcos (x : R) : R := rnd (cos x).
Definition fsin (x : R) : R := rnd (sin x).
(** acos is NaN outside of [-1, 1] *)
Definition facos (x : R) : option R := if Rlt_dec 1 x then None else if Rlt_dec x (-1) then None else Some (rnd (acos x)).

(** l.1316-1327 and l.1334-1350 (and l.1352-1373): None when cos of the angle with the axis is not in [-1, 1]: then sintheta_p is NaN, the comparison with zero is true,
    and sintheta_p_inv, cosphi_p and sinphi_p are NaN; everything computed from them is NaN. *)
Definition particle_direction (alpha beta theta phi : R) : option dir :=
  let cosalpha := fcos alpha in let sinalpha := fsin alpha in
  let cosbeta := fcos beta in let sinbeta := fsin beta in
  let costheta_l := fcos theta in let sintheta_l := fsin theta in
  let cosphi_l := fcos phi in let sinphi_l := fsin phi in
  let cosphirel := fadd (fmul cosphi_l cosalpha) (fmul sinphi_l sinalpha) in
  let sinphirel := fsub (fmul sinphi_l cosalpha) (fmul cosphi_l sinalpha) in
  let costheta_p := fadd (fmul costheta_l cosbeta) (fmul (fmul sintheta_l sinbeta) cosphirel) in
  match facos costheta_p with
  | None => None
  | Some theta_p =>
      let sintheta_p := fsin theta_p in
      if Req_EM_T sintheta_p 0 then Some (mkDir costheta_p sintheta_p 9000 1 0)
      else let sintheta_p_inv := fdiv 1 sintheta_p in
           let cosphi_p := fmul (fsub (fmul (fmul cosbeta sintheta_l) cosphirel) (fmul sinbeta costheta_l)) sintheta_p_inv in
           let sinphi_p := fmul (fmul sintheta_l sinphirel) sintheta_p_inv in
           Some (mkDir costheta_p sintheta_p sintheta_p_inv cosphi_p sinphi_p)
  end.
