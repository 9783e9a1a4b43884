(** Specification of the spherical Bessel functions of a complex argument by their power series
    (DLMF 10.53.1 and 10.53.2), and of the derivative of a complex function as the limit of its difference quotients.
    Nothing in this file refers to the code. *)
From Coq Require Import List Arith Lia Bool Reals Lra ZArith.
From Coquelicot Require Import Hierarchy Rcomplements Series PSeries ElemFct Complex.
Import ListNotations.
Open Scope R_scope.

(** the series a_0 + a_1 + ... of complex numbers converges to l: its real and imaginary parts do *)
Definition is_csum (a : nat -> C) (l : C) : Prop := is_series (fun k => Re (a k)) (Re l) /\ is_series (fun k => Im (a k)) (Im l).

Fixpoint cpow (z : C) (n : nat) : C := match n with O => RtoC 1 | Datatypes.S n => Cmult z (cpow z n) end.

(** 1 * 3 * ... * (2 n - 1) *)
Fixpoint oddfact (n : nat) : R := match n with O => 1 | Datatypes.S n => (2 * INR n + 1) * oddfact n end.
(** (c + 2) (c + 4) ... (c + 2 k) *)
Fixpoint steps (c : R) (k : nat) : R := match k with O => 1 | Datatypes.S k => steps c k * (c + 2 * INR (Datatypes.S k)) end.
(** the terms of the series  sum_k (-z^2/2)^k / (k! (c+2)(c+4)...(c+2k)) *)
Definition term (c : R) (z : C) (k : nat) : C := (cpow (RtoC (- / 2) * (z * z)) k * RtoC (/ (INR (fact k) * steps c k)))%C.

(** DLMF 10.53.1: j_n(z) = z^n / (2n+1)!! sum_k (-z^2/2)^k / (k! (2n+3)(2n+5)...(2n+2k+1)) *)
Definition is_sph_j (n : nat) (z v : C) : Prop :=
  is_csum (fun k => cpow z n * RtoC (/ oddfact (n + 1)) * term (2 * INR n + 1) z k)%C v.
(** DLMF 10.53.2: y_n(z) = - (2n-1)!! / z^(n+1) sum_k (-z^2/2)^k / (k! (1-2n)(3-2n)...(2k-1-2n)) *)
Definition is_sph_y (n : nat) (z v : C) : Prop :=
  is_csum (fun k => - (RtoC (oddfact n) / cpow z (n + 1)) * term (- 2 * INR n - 1) z k)%C v.

(** f has the complex derivative d at z *)
Definition is_cderiv (f : C -> C) (z d : C) : Prop :=
  forall eps, 0 < eps -> exists delta, 0 < delta /\
  forall h, h <> RtoC 0 -> Cmod h < delta -> Cmod ((f (z + h)%C - f z) / h - d)%C < eps.
