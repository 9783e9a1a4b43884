(** Model of RefractionEvent.hpp in exact real arithmetic. *)
From Coq Require Import Reals Lra Ratan.
Open Scope R_scope.
(** RefractionEvent.hpp l.40-45 and the members of l.53-64 *)
Inductive polarisation := S_POLARISED | P_POLARISED.
Record event := mkEvent { reflection_angle : R; refraction_angle : R; reflection_coefficient : polarisation -> R; transmission_coefficient : polarisation -> R }.
(** x / y as the code computes it: no value when y = 0 *)
Definition quotient (x y : R) : option R := if Req_EM_T y 0 then None else Some (x / y).
Definition pick (s p : R) (m : polarisation) : R := match m with S_POLARISED => s | P_POLARISED => p end.
(** l.76-115: the constructor; None when a quotient has denominator 0 (the assertions of l.80-83 are hypotheses of the theorems) *)
Definition refract (incident_angle n1 n2 : R) : option event :=
  let sintheta_i := sin incident_angle in
  let sintheta_t := n1 * sintheta_i / n2 in
  if Rle_dec sintheta_t 1 then
    let theta_t := asin sintheta_t in
    let costheta_i := cos incident_angle in
    let costheta_t := cos theta_t in
    match quotient (n1 * costheta_i - n2 * costheta_t) (n1 * costheta_i + n2 * costheta_t), quotient (n1 * costheta_t - n2 * costheta_i) (n1 * costheta_t + n2 * costheta_i) with
    | Some sqrtRs, Some sqrtRp =>
        let reflection := pick (sqrtRs * sqrtRs) (sqrtRp * sqrtRp) in
        Some (mkEvent incident_angle theta_t reflection (pick (1 - reflection S_POLARISED) (1 - reflection P_POLARISED)))
    | _, _ => None
    end
  else Some (mkEvent incident_angle (-1) (pick 1 1) (pick 0 0)).
