(** Specification for the T-matrix tasks: the surface integrals of the extended boundary condition method, as
    documented in src/TMatrix.hpp l.60-430 (vector spherical wave functions M and N, l.79-103; the surface element
    of a spheroid, l.237-241; the four quarters of Q, l.251-319; T = - RgQ Q^-1, l.206-226), with the polar angle
    integrated by a quadrature rule in cos(theta) and the azimuth integrated exactly.

    Nothing in this file refers to the tasks; the radial functions are the parameter [radial] of QMatrix.v. *)
From Coq Require Import List ZArith Arith Lia Bool Reals Lra.
From Coquelicot Require Import Complex Coquelicot.
From Verif Require Import Matrix Props_matrix Wigner Align QMatrix.
Open Scope R_scope.

(** vectors by their components along the unit vectors of r, theta and phi *)
Record vec := V { vr : C; vt : C; vp : C }.
Definition vadd (a b : vec) : vec := V (vr a + vr b)%C (vt a + vt b)%C (vp a + vp b)%C.
Definition vscale (z : C) (a : vec) : vec := V (z * vr a)%C (z * vt a)%C (z * vp a)%C.
Definition dot (a b : vec) : C := (vr a * vr b + vt a * vt b + vp a * vp b)%C.
Definition cross (a b : vec) : vec :=
  V (vt a * vp b - vp a * vt b)%C (vp a * vr b - vr a * vp b)%C (vr a * vt b - vt a * vr b)%C.

(** spheroid with axis ratio [d] = a / b and the volume of the unit sphere: distance of the surface from the centre *)
Definition radius (d t : R) : R := cbrt d / sqrt (sin t * sin t + d * d * (cos t * cos t)).

(** Wigner d-functions for every m: d^n_(0,-m) = (-1)^m d^n_(0,m) *)
Definition wd (n : nat) (m : Z) (t : R) : R := if (m <? 0)%Z then (-1) ^ Z.abs_nat m * dspec n (Z.abs_nat m) t else dspec n (Z.abs_nat m) t.
Definition gam (n : nat) : R := sqrt ((2 * INR n + 1) / (4 * PI * (INR n * (INR n + 1)))).
Definition cis (x : R) : C := (cos x, sin x).

(** the wave functions; [h] is the radial function at [rho] and [dh] is (rho h)' / rho *)
Inductive kind := WM | WN.
Definition other (p : kind) : kind := match p with WM => WN | WN => WM end.
Definition wave (p : kind) (m : Z) (n : nat) (rho h dh : C) (t phi : R) : vec :=
  vscale (RtoC ((-1) ^ Z.abs_nat m * gam n) * cis (IZR m * phi))%C
    match p with
    | WM => V (RtoC 0) (Ci * RtoC (IZR m / sin t * wd n m t) * h)%C (- (RtoC (Derive (wd n m) t) * h))%C
    | WN => V (RtoC (INR n * (INR n + 1)) / rho * h * RtoC (wd n m t))%C (dh * RtoC (Derive (wd n m) t))%C (dh * (Ci * RtoC (IZR m / sin t * wd n m t)))%C
    end.

Section Particle.
(** axis ratio, equal volume radius, wavelength, refractive index, radial functions *)
Variables (d R_V wavelength : R) (mr : C) (b : radial).
Definition k_ : R := 2 * PI / wavelength.
(** outgoing waves at k r (regular ones for RgQ), internal waves at k m_r r *)
Definition kr_ (t : R) : R := k_ * radius d t * R_V.
Definition kmr_ (t : R) : C := (mr * RtoC (k_ * radius d t * R_V))%C.
Definition outside (rg : bool) (p : kind) (m : Z) (n : nat) (t phi : R) : vec :=
  wave p m n (RtoC (kr_ t))
    (if rg then RtoC (jay b n (kr_ t)) else (jay b n (kr_ t), why b n (kr_ t)))
    (if rg then RtoC (djay b n (kr_ t)) else (djay b n (kr_ t), dwhy b n (kr_ t))) t phi.
Definition inside (p : kind) (m : Z) (n : nat) (t phi : R) : vec := wave p m n (kmr_ t) (jayc b n (kmr_ t)) (djayc b n (kmr_ t)) t phi.
(** surface element divided by sin(theta) dtheta dphi *)
Definition surface (t : R) : vec :=
  vscale (RtoC ((R_V * radius d t) * (R_V * radius d t))) (V (RtoC 1) (RtoC (- (Derive (radius d) t / radius d t))) (RtoC 0)).
(** element of Q with row (p, n) and column (q, n'): curl M = k N and curl N = k M outside, the same with k m_r inside;
    the outgoing wave has azimuthal order - m *)
Definition integrand (rg : bool) (p q : kind) (m n n' : nat) (t phi : R) : C :=
  (RtoC (k_ * k_) * dot (surface t)
    (vadd (vscale mr (cross (inside (other q) (Z.of_nat m) n' t phi) (outside rg p (- Z.of_nat m) n t phi)))
          (cross (inside q (Z.of_nat m) n' t phi) (outside rg (other p) (- Z.of_nat m) n t phi))))%C.
Definition azimuth (f : R -> C) : C := (RInt (fun phi => fst (f phi)) 0 (2 * PI), RInt (fun phi => snd (f phi)) 0 (2 * PI)).
(** quadrature with points cos(t i) and weights w i *)
Definition surface_integral (size : nat) (t w : nat -> R) (rg : bool) (p q : kind) (m n n' : nat) : C :=
  csum (fun i => RtoC (w i) * azimuth (integrand rg p q m n n' (t i)))%C size.
(** rows and columns: first all orders of the first kind, then those of the second kind *)
Definition lowest (m : nat) : nat := Nat.max 1 m.
Definition orders (m nmax : nat) : nat := (nmax + 1 - lowest m)%nat.
Definition kind_of (m nmax i : nat) : kind := if (i <? orders m nmax)%nat then WM else WN.
Definition order_of (m nmax i : nat) : nat := (lowest m + (if (i <? orders m nmax)%nat then i else i - orders m nmax))%nat.
Definition Q_spec (size : nat) (t w : nat -> R) (rg : bool) (m nmax i j : nat) : C :=
  surface_integral size t w rg (kind_of m nmax i) (kind_of m nmax j) m (order_of m nmax i) (order_of m nmax j).
End Particle.
