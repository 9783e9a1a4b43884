(** Model of the radial part of the calculation: InteractionTask::execute (/repo/src/InteractionResource.hpp l.478-527), ResetInteractionResourceTask
    (l.589-607), the getters l.252-381, and the same loop in the constructor of TMatrix (TMatrix.hpp l.587-594).

    The matrices of the resource are flat arrays (Matrix.hpp l.60-67) and get_row hands a pointer into that array to the Bessel routines (Matrix.hpp
    l.142-144), so that a routine can write behind the end of a row: [cap] of Bessel.v is the number of elements from the start of the row to the end
    of the array. Simplifications: exact arithmetic; the checks for NaN of l.495-527 are the outcome [DivZero]. *)
From Coq Require Import List Arith Lia Bool Reals Lra.
From Coquelicot Require Import Complex.
From Verif Require Import Matrix Bessel QMatrix.
Import ListNotations.
Open Scope R_scope.

(** Matrix.hpp l.142-144: the row that starts at [off], and the array after that row has been written *)
Definition row {K} (A : nat -> K) (off : nat) : nat -> K := fun i => A (off + i)%nat.
Definition put_row {K} (A : nat -> K) (off : nat) (r : nat -> K) : nat -> K := fun i => if (i <? off)%nat then A i else r (i - off)%nat.
Definition on_row {K} (routine : (nat -> K) -> (nat -> K) -> out ((nat -> K) * (nat -> K))) (off : nat) (A B : nat -> K) : out ((nat -> K) * (nat -> K)) :=
  match routine (row A off) (row B off) with Done (a, b) => Done (put_row A off a, put_row B off b) | DivZero => DivZero | OutOfBounds => OutOfBounds end.
Definition andthen {A B} (r : out A) (f : A -> out B) : out B := match r with Done a => f a | DivZero => DivZero | OutOfBounds => OutOfBounds end.

(** InteractionResource.hpp l.148-185: the arrays *)
Record store := mkS { s_kr : nat -> R; s_krinv : nat -> R; s_krmr : nat -> C; s_krmrinv : nat -> C;
  s_jkr : nat -> R; s_ykr : nat -> R; s_djkr : nat -> R; s_dykr : nat -> R; s_jkrmr : nat -> C; s_djkrmr : nat -> C }.

Section Task.
(** the resource was made for [rows] points and [columns] orders (l.197-203 with rows = 2 ngauss, columns = nmax) *)
Variables rows columns : nat.
(** the getters, l.296-381: row ig, order n *)
Definition element {K} (A : nat -> K) (ig n : nat) : K := A (ig * columns + (n - 1))%nat.
Definition get_jkr (s : store) := element (s_jkr s). Definition get_ykr (s : store) := element (s_ykr s).
Definition get_djkr (s : store) := element (s_djkr s). Definition get_dykr (s : store) := element (s_dykr s).
Definition get_jkrmr (s : store) := element (s_jkrmr s). Definition get_djkrmr (s : store) := element (s_djkrmr s).

(** what the uninitialised local array of spherical_j_jdj_array holds in each call *)
Variable junk : nat -> nat -> R.
Variable junkc : nat -> nat -> C.
(** l.503-513 for one point *)
Definition radial_step (nmax ig : nat) (s : store) : out store :=
  let off := (ig * columns)%nat in let cap := (rows * columns - off)%nat in
  andthen (on_row (spherical_j_jdj_array R reals (junk ig) cap nmax (s_kr s ig)) off (s_jkr s) (s_djkr s)) (fun '(j, dj) =>
  andthen (on_row (spherical_y_ydy_array R reals cap nmax (s_kr s ig)) off (s_ykr s) (s_dykr s)) (fun '(y, dy) =>
  andthen (on_row (spherical_j_jdj_array C complexes (junkc ig) cap nmax (s_krmr s ig)) off (s_jkrmr s) (s_djkrmr s)) (fun '(jc, djc) =>
  Done (mkS (s_kr s) (s_krinv s) (s_krmr s) (s_krmrinv s) j y dj dy jc djc)))).
Definition radial_loop (nmax points : nat) (s : out store) : out store := for_ 0 points (fun ig s => andthen s (radial_step nmax ig)) s.
(** l.485-493 for one point; [k], [kmr], [R_V]: InteractionVariables, [r]: ParticleGeometryResource::get_r *)
Definition factor_step (k : R) (kmr : C) (R_V : R) (r : nat -> R) (ig : nat) (s : store) : out store :=
  if (ig <? rows)%nat then
    let x := k * r ig * R_V in let z := (kmr * RtoC (r ig) * RtoC R_V)%C in
    if iszero reals x then DivZero else if iszero complexes z then DivZero else
    Done (mkS (vupd (s_kr s) ig x) (vupd (s_krinv s) ig (1 / x)) (vupd (s_krmr s) ig z) (vupd (s_krmrinv s) ig (RtoC 1 / z)%C)
      (s_jkr s) (s_ykr s) (s_djkr s) (s_dykr s) (s_jkrmr s) (s_djkrmr s))
  else OutOfBounds.
(** l.478-527 *)
Definition interaction_task (converged : bool) (nmax ngauss : nat) (k : R) (kmr : C) (R_V : R) (r : nat -> R) (s : store) : out store :=
  if converged then Done s else
  radial_loop nmax (2 * ngauss) (for_ 0 (2 * ngauss) (fun ig s => andthen s (factor_step k kmr R_V r ig)) (Done s)).

(** l.589-607 *)
Definition zero_row {K} (zero : K) (ig : nat) (A : nat -> K) : nat -> K := for_ 0 columns (fun i A => vupd A (ig * columns + i)%nat zero) A.
Definition reset_task (s : store) : store :=
  for_ 0 rows (fun ig s => mkS (vupd (s_kr s) ig 0) (vupd (s_krinv s) ig 0) (vupd (s_krmr s) ig (RtoC 0)) (vupd (s_krmrinv s) ig (RtoC 0))
    (zero_row 0 ig (s_jkr s)) (zero_row 0 ig (s_ykr s)) (zero_row 0 ig (s_djkr s)) (zero_row 0 ig (s_dykr s)) (zero_row (RtoC 0) ig (s_jkrmr s)) (zero_row (RtoC 0) ig (s_djkrmr s))) s.
End Task.
