(** Model in double precision of the shape averages (/repo/src/ShapeAveragingTask.hpp l.123-166, l.256-302, l.390-439: the same loops for every angle and every coefficient or
    matrix element) and of the distribution with one shape (/repo/src/SingleShapeShapeDistribution.hpp l.70-73). Arithmetic as in Doubles.v; overflow is not modelled, a norm of
    zero is not either. *)
From Coq Require Import List ZArith Reals.
From Flocq Require Import Core.
From Verif Require Import Doubles.
Import ListNotations.
Local Open Scope R_scope.

(** [l]: for every shape of the distribution its weight and the coefficient computed for it *)
Definition shape_mean (l : list (R * R)) : R :=
  let '(norm, average) := fold_left (fun '(norm, average) '(weight, value) => (fadd norm weight, fadd average (fmul weight value))) l (0, 0) in
  let norm_inv := fdiv 1 norm in
  fmul average norm_inv.
(** the weights of SingleShapeShapeDistribution *)
Definition single_shape_weights : list R := [1].
