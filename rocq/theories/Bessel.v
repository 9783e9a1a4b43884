(** Model of the routines for the spherical Bessel functions, src/SpecialFunctions.hpp l.106-140
    (spherical_y_ydy_array) and l.201-240 (spherical_j_jdj_array), and of the part of InteractionTask::execute that
    calls them (src/InteractionResource.hpp l.503-513).

    The routines are templates over the type of the numbers; so is the model: [scalar K] are the operations the
    code uses, [reals] and [complexes] the two instances (float_type and std::complex<float_type>).
    Simplifications: exact arithmetic. A division by zero, which gives inf or NaN in the code (and an abort in the
    NaN checks l.136-139 and l.235-238 when assertions are on), is the outcome [DivZero]. Arrays are functions of the
    index together with their number of elements [cap]; an access outside an array is the outcome [OutOfBounds]. *)
From Coq Require Import List Arith Lia Bool Reals Lra.
From Coquelicot Require Import Complex.
From Verif Require Import Matrix.
Import ListNotations.
Open Scope R_scope.

Record scalar (K : Type) := { num : R -> K; add : K -> K -> K; sub : K -> K -> K; mul : K -> K -> K; div : K -> K -> K; neg : K -> K;
                              ksin : K -> K; kcos : K -> K; iszero : K -> bool }.
Arguments num {K}. Arguments add {K}. Arguments sub {K}. Arguments mul {K}. Arguments div {K}. Arguments neg {K}.
Arguments ksin {K}. Arguments kcos {K}. Arguments iszero {K}.

(** std::sin and std::cos of a complex number x + i y *)
Definition csin (z : C) : C := (sin (Re z) * cosh (Im z), cos (Re z) * sinh (Im z)).
Definition ccos (z : C) : C := (cos (Re z) * cosh (Im z), - (sin (Re z) * sinh (Im z))).

Definition reals : scalar R := {| num := fun x => x; add := Rplus; sub := Rminus; mul := Rmult; div := Rdiv; neg := Ropp; ksin := sin; kcos := cos;
  iszero := fun x => if Req_EM_T x 0 then true else false |}.
Definition complexes : scalar C := {| num := RtoC; add := Cplus; sub := Cminus; mul := Cmult; div := Cdiv; neg := Copp; ksin := csin; kcos := ccos;
  iszero := fun z => if Req_EM_T (Re z) 0 then if Req_EM_T (Im z) 0 then true else false else false |}.

Inductive out (A : Type) := Done (a : A) | DivZero | OutOfBounds.
Arguments Done {A}. Arguments DivZero {A}. Arguments OutOfBounds {A}.

Section Routines.
Variable K : Type.
Variable o : scalar K.
Infix "+" := (add o). Infix "-" := (sub o). Infix "*" := (mul o). Infix "/" := (div o).

(** l.129-134: one step of the loop *)
Definition y_step (cap : nat) (zinv : K) (i : nat) (s : out ((nat -> K) * (nat -> K))) : out ((nat -> K) * (nat -> K)) :=
  match s with
  | Done (y, dy) =>
      if (i <? cap)%nat then
        let twoip1 := num o (2 * INR i + 1)%R in
        let ip1 := num o (INR i + 1)%R in
        let y := vupd y i (twoip1 * zinv * y (i - 1)%nat - y (i - 2)%nat) in
        Done (y, vupd dy i (y (i - 1)%nat - ip1 * zinv * y i))
      else OutOfBounds
  | e => e
  end.
(** l.107-140 *)
Definition spherical_y_ydy_array (cap nmax : nat) (z : K) (y dy : nat -> K) : out ((nat -> K) * (nat -> K)) :=
  let one := num o 1 in let three := num o 3 in
  let cosz := kcos o z in let sinz := ksin o z in
  if iszero o z then DivZero else
  let zinv := one / z in
  let zinv2 := zinv * zinv in
  let zinv3 := zinv2 * zinv in
  if (cap <? 2)%nat then OutOfBounds else
  let y := vupd y 0 (neg o cosz * zinv2 - sinz * zinv) in
  let y := vupd y 1 ((neg o three * zinv3 + zinv) * cosz - three * zinv2 * sinz) in
  let dy := vupd dy 0 (neg o zinv * (cosz + y 0%nat)) in
  let dy := vupd dy 1 (y 0%nat - num o 2 * zinv * y 1%nat) in
  for_ 2 nmax (y_step cap zinv) (Done (y, dy)).

(** l.216-220: one step of the backward recursion; [NMAX] is SPECIALFUNCTIONS_BESSEL_NMAX *)
Definition rho_step (NMAX : nat) (zinv : K) (i : nat) (s : out (nat -> K)) : out (nat -> K) :=
  match s with
  | Done rho =>
      let index := (NMAX - i)%nat in
      let twoip1 := num o (2 * INR index + 1)%R in
      let d := twoip1 * zinv - rho index in
      if iszero o d then DivZero else Done (vupd rho (index - 1)%nat (num o 1 / d))
  | e => e
  end.
(** l.208-220; [junk] is what the uninitialised local array holds *)
Definition ratios (NMAX : nat) (z : K) (junk : nat -> K) : out (nat -> K) :=
  let zinv := num o 1 / z in
  for_ 1 NMAX (rho_step NMAX zinv) (Done (vupd junk (NMAX - 1)%nat (z / num o (2 * INR NMAX + 1)%R))).
(** l.229-233 *)
Definition j_step (NMAX cap : nat) (zinv : K) (rho : nat -> K) (i : nat) (s : out ((nat -> K) * (nat -> K))) : out ((nat -> K) * (nat -> K)) :=
  match s with
  | Done (j, dj) =>
      if ((i <? cap) && (i <? NMAX))%nat then
        let j := vupd j i (rho i * j (i - 1)%nat) in
        let ip1 := num o (INR i + 1)%R in
        Done (j, vupd dj i (j (i - 1)%nat - ip1 * zinv * j i))
      else OutOfBounds
  | e => e
  end.
(** l.202-240 *)
Definition spherical_j_of (NMAX : nat) (junk : nat -> K) (cap nmax : nat) (z : K) (j dj : nat -> K) : out ((nat -> K) * (nat -> K)) :=
  if iszero o z then DivZero else
  let zinv := num o 1 / z in
  match ratios NMAX z junk with
  | Done rho =>
      let sinz := ksin o z in
      let j0 := sinz * zinv in
      if (cap <? 1)%nat then OutOfBounds else
      let j := vupd j 0 (rho 0%nat * j0) in
      let dj := vupd dj 0 (j0 - j 0%nat * zinv) in
      for_ 1 nmax (j_step NMAX cap zinv rho) (Done (j, dj))
  | DivZero => DivZero
  | OutOfBounds => OutOfBounds
  end.
(** l.40 *)
Definition spherical_j_jdj_array := spherical_j_of 800.
End Routines.
