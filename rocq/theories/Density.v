(** Orientation distributions given by a density (/repo/src/OrientationDistribution.hpp l.65-69, l.81-86, l.142-164,
    l.174-184, l.192-210, l.220-243; CustomOrientationDistribution of /repo/src/PyOrientationDistribution.hpp l.480-491)
    and the Python function evaluate (/repo/src/PyOrientationDistribution.hpp l.164-215), in exact real arithmetic. *)
From Coq Require Import List Arith Lia Bool Reals Lra.
From Verif Require Import Legendre Quadrature Wigner Orientation Adaptive.
Import ListNotations.
Local Open Scope R_scope.

(** operator()(beta, cosbeta, sinbeta): the density before normalisation. A Python function (CustomOrientationDistribution l.525-581)
    is modelled by the values it returns. *)
Definition pdf := R -> R -> R -> R.
(** l.65-69: the density of the base class *)
Definition uniform : pdf := fun _ _ _ => 5 / 10.
(** an object: _normalisation_factor, and _coefficients with compute_alignment() *)
Record object := mkObject { factor : R; dist : distribution }.
(** l.192-193 *)
Definition constructed (nmax : nat) : object := mkObject 1 (zeros nmax).
(** l.203-210: the copy constructor *)
Definition copied (o : object) : object := mkObject 0 (mkDist (size (dist o)) (coef (dist o)) true).
(** l.81-86: operator()(beta) *)
Definition density (f : pdf) (o : object) (beta : R) : R := factor o * f beta (cos beta) (sin beta).
(** l.152-160: the Legendre polynomial, from the array filled by wigner_dn_0m *)
Definition wigner_d_n (order : nat) (cosbeta : R) : R :=
  match order with 0%nat => 1 | S k => fst (nth k (wigner_dn_0m cosbeta order 0) (0, 0)) end.
(** l.142-164 *)
Definition integrand (f : pdf) (norm_factor : R) (order : nat) (beta : R) : R :=
  let cosbeta := cos beta in let sinbeta := sin beta in
  let wigner := wigner_d_n order cosbeta in
  let pbeta := norm_factor * f beta cosbeta sinbeta in
  sinbeta * pbeta * wigner.
(** l.174-184 *)
Definition normalisation_integrand (f : pdf) (beta : R) : R :=
  let cosbeta := cos beta in let sinbeta := sin beta in
  let pbeta := f beta cosbeta sinbeta in
  sinbeta * pbeta.
(** How the call ends: with an object; with 1 / 0 (l.230), after which the coefficients are not numbers; or not at all (the search
    for the points of a rule does not return). *)
Inductive made := Made (o : object) | DividesByZero | Stuck.
(** l.236-242, [k] iterations from i *)
Fixpoint coef_loop (k i : nat) (rule : nat -> option arrays) (f : pdf) (da dr norm_factor : R) (d : distribution) : option distribution :=
  match k with
  | 0%nat => Some d
  | S k' =>
      match gauss_legendre_quadrature rule (integrand f norm_factor i) (2 * (i + 1)) (100 * (i + 1)) da dr with
      | None => None
      | Some (v, _) => coef_loop k' (S i) rule f da dr norm_factor (setc d i v)
      end
  end.
(** l.220-243: initialise(absolute_error, relative_error) on an object constructed with nmax; [rule n] is the rule with n points on [0, pi] *)
Definition initialise (rule : nat -> option arrays) (f : pdf) (da dr : R) (nmax : nat) : made :=
  match gauss_legendre_quadrature rule (normalisation_integrand f) 100 1000 da dr with
  | None => Stuck
  | Some (norm, _) =>
      if Req_EM_T norm 0 then DividesByZero else
      let norm_factor := 1 / norm in
      let d := setc (zeros nmax) 0 1 in
      match coef_loop (size d - 1) 1 rule f da dr norm_factor d with None => Stuck | Some d => Made (mkObject norm_factor d) end
  end.

(* ------------------------------------------------------------ PyOrientationDistribution::evaluate *)

(** l.196-202: the array wigner_d; element 0 is set by hand, the others by wigner_dn_0m with maximum order get_maximum_order() - 1 *)
Definition wigner_row (maximum_order : nat) (costheta : R) (n : nat) : R :=
  match n with 0%nat => 1 | S k => fst (nth k (wigner_dn_0m costheta (maximum_order - 1) 0) (0, 0)) end.
(** l.204-208 *)
Fixpoint series (k n : nat) (d : distribution) (w : nat -> R) (value : R) : R :=
  match k with 0%nat => value | S k' => series k' (S n) d w (value + 5 / 10 * (2 * INR n + 1) * coef d n * w n) end.
(** l.194-212 for one angle; get_maximum_order() is the number of coefficients minus one (OrientationDistribution.hpp l.261-263). None: with
    maximum order 0 l.199 writes to an empty array. *)
Definition evaluate (d : distribution) (theta : R) : option R :=
  let maximum_order := (size d - 1)%nat in
  if Nat.eqb maximum_order 0 then None else Some (series maximum_order 0 d (wigner_row maximum_order (cos theta)) 0).
