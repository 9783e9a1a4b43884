(** The alignment object of the Python module as the argument of get_table: SizeBasedAlignmentDistribution(minimum_size,
    aligned_orientation_distribution_type, maximum_order = 100, oblate_orientation_distribution, prolate_orientation_distribution). *)
From Coq Require Import List ZArith Arith Reals.
From Verif Require Import Legendre Quadrature GaussExact Adaptive Orientation Density.
Import ListNotations.
Open Scope R_scope.

Inductive built := Built (s : size_based) | Aborts | Undefined | Hangs.

(** src/PyAlignmentDistribution.hpp:118-183 and src/SizeBasedAlignmentDistribution.hpp:68-112.  [rule]: quadrature rules on [0, pi].
    The distribution without alignment is the base class with its default tolerances (src/OrientationDistribution.hpp:220-221), order twice the maximum.
    The assertions of l.103 and 106 are not active in a normal build: a missing object is dereferenced. *)
Definition python_alignment (rule : nat -> option arrays) (minimum_size : R) (type : Z) (maximum_order : option nat) (ob pr : option distribution) : built :=
  let nmax := match maximum_order with Some n => n | None => 100%nat end in
  match initialise rule Density.uniform (1 / 10 ^ 10) (1 / 10 ^ 5) (2 * nmax) with
  | Stuck => Hangs
  | DividesByZero => Undefined
  | Made o =>
      match type with
      | 3%Z => match ob, pr with
               | Some a, Some b => match make_size_based minimum_size nmax 3 (dist o) a b with Ok s => Built s | OutOfBounds => Undefined | Fails => Aborts end
               | _, _ => Undefined
               end
      | _ => if (type <? 0)%Z then Aborts else
             match make_size_based minimum_size nmax (Z.to_nat type) (dist o) (dist o) (dist o) with Ok s => Built s | OutOfBounds => Undefined | Fails => Aborts end
      end
  end.

(** std::vector of the coefficients (OrientationDistribution.hpp:192-193, 251-254) *)
Definition coefficient_vector (d : distribution) : list R := map (Orientation.coef d) (seq 0 (size d)).
(** src/TaskManager.hpp:1113-1118 and the calls of compute_alignment and get_coefficient in src/AlignmentAverageTask.hpp:125, 159-160 *)
Definition object_aligned (s : size_based) (size axis : R) : bool := align (get_distribution s size axis).
Definition object_coef (s : size_based) (size axis : R) : list R := coefficient_vector (get_distribution s size axis).
