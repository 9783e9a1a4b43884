(** Model of the task objects that compute one matrix for one pair of directions: /repo/src/ScatteringMatrixResource.hpp (constructor
    l.133-143, execute l.185-490, operator() l.499-508) and /repo/src/ExtinctionMatrixResource.hpp (execute l.100-358).

    The scratch matrices of a ScatteringMatrixResource are members of the object: they are zero when the object is made
    (Matrix.hpp: a new matrix holds zeros) and keep their contents from one execution to the next. An ExtinctionMatrixResource
    makes its scratch matrices inside execute.

    Simplifications: exact real and complex numbers; matrices as functions of the index; members that are overwritten before
    they are read in every execution (_B, _AL_in, _AP_in, _AL_out, _AP_out, _c, _pi_*, _tau_* ) are not part of the state. *)
From Coq Require Import List Arith Lia Bool Reals Lra.
From Coquelicot Require Import Complex.
From Verif Require Import Wigner Optics TClass Frames Observables.
Import ListNotations.
Open Scope R_scope.

(** the members that survive: _C, _R_in, _R_out, _S, _Z and the flag of Computable *)
Record scat_object := mkSO { o_C : nat -> nat -> R; o_Rin : mat2; o_Rout : mat2; o_S : amp; o_Z : nat -> nat -> R; o_available : bool }.
(** l.133-143: all matrices are zero *)
Definition new_object : scat_object :=
  mkSO (fun _ _ => 0) (mk2 0 0 0 0) (mk2 0 0 0 0) (mkAmp (RtoC 0) (RtoC 0) (RtoC 0) (RtoC 0)) (fun _ _ => 0) false.
(** the small loops [for k: target(i, j) += a(i, k) * b(k, j)] of l.282-289, l.290-296, l.298-306, l.307-313 *)
Definition add3 (start : R) (f : nat -> R) : R := start + f 0%nat + f 1%nat + f 2%nat.
Definition add_product (M : mat2) (d : dir) (Cm : nat -> nat -> R) : mat2 :=
  mk2 (add3 (a00 M) (fun k => mAP d 0 k * Cm k 0%nat)) (add3 (a01 M) (fun k => mAP d 0 k * Cm k 1%nat))
      (add3 (a10 M) (fun k => mAP d 1 k * Cm k 0%nat)) (add3 (a11 M) (fun k => mAP d 1 k * Cm k 1%nat)).
(** l.339-431: the sums are those of ScatteringMatrixTask (Optics.amp_term), added to what the matrix [start] holds, and then
    everything is divided by the wavenumber *)
Definition amplitude_from (start : amp) (g : angular) (nmax : nat) (k cosphi sinphi : R) : amp :=
  let '(W, _) := for_C 0 (nmax + 1) (fun m '(W, e) =>
      let nmin := Nat.max m 1 in
      let fcos := 2 * Re e in let fsin := 2 * Im e in
      (for_C nmin (nmax + 1) (fun nn W => for_C nmin (nmax + 1) (fun n W => amp_term g m nn n fcos fsin W) W) W, (e * (cosphi, sinphi))%C))
    (start, RtoC 1) in
  let kinv := RtoC (1 / k) in
  mkAmp (s0 W * kinv)%C (s1 W * kinv)%C (s2 W * kinv)%C (s3 W * kinv)%C.
(** the tables the sums read: T-matrix elements through TMatrixResource::operator() (TMatrixResource.hpp l.187-214), the factors of
    l.324-337, the angular functions of l.354-360 *)
Definition object_tables (nmax : nat) (T : tmats) (din dout : dir) : angular :=
  mkAng (fun i j m n nn => t_element nmax T i n m j nn m) (fst (sinx_tables nmax din)) (snd (sinx_tables nmax din))
        (fst (sinx_tables nmax dout)) (snd (sinx_tables nmax dout)) (fun nn n => class_c n nn).
(** l.433-446: S^L = R_out S^P R_in *)
Definition two_products (Rout : mat2) (W : amp) (Rin : mat2) : amp :=
  let r := RtoC in
  let cS11 := (s0 W * r (a00 Rin) + s1 W * r (a10 Rin))%C in
  let cS12 := (s0 W * r (a01 Rin) + s1 W * r (a11 Rin))%C in
  let cS21 := (s2 W * r (a00 Rin) + s3 W * r (a10 Rin))%C in
  let cS22 := (s2 W * r (a01 Rin) + s3 W * r (a11 Rin))%C in
  mkAmp (r (a00 Rout) * cS11 + r (a01 Rout) * cS21)%C (r (a00 Rout) * cS12 + r (a01 Rout) * cS22)%C
        (r (a10 Rout) * cS11 + r (a11 Rout) * cS21)%C (r (a10 Rout) * cS12 + r (a11 Rout) * cS22)%C.
(** l.185-490. The object was made for orders up to [room] (its arrays _c, _pi_* and _tau_* have that size); with a T-matrix of higher
    order the arrays are written past their end: None. *)
Definition scat_execute (room nmax : nat) (k : R) (T : tmats) (alpha beta theta_in phi_in theta_out phi_out : R) (o : scat_object) : option scat_object :=
  let din := body_dir alpha beta theta_in phi_in in
  let dout := body_dir alpha beta theta_out phi_out in
  let C1 i j := add3 (o_C o i j) (fun l => mB alpha beta i l * mAL theta_in phi_in l j) in
  let Rin := add_product (o_Rin o) din C1 in
  let C2 i j := add3 0 (fun l => mB alpha beta i l * mAL theta_out phi_out l j) in
  let Rout := invert (add_product (o_Rout o) dout C2) in
  if (room <? nmax)%nat then None else
  let W := amplitude_from (o_S o) (object_tables nmax T din dout) nmax k (cp dout * cp din + sp dout * sp din) (sp dout * cp din - cp dout * sp din) in
  let S := two_products Rout W Rin in
  Some (mkSO C2 Rin Rout S (scattering S) true).

(** ExtinctionMatrixResource.hpp l.102-139: the direction, axis of the particle along z *)
Definition ext_dir (theta phi : R) : dir :=
  let costheta_l := cos theta in let sintheta_l := sin theta in
  if Req_EM_T sintheta_l 0 then mkDir costheta_l sintheta_l 9000 1 0
  else let inv := 1 / sintheta_l in mkDir costheta_l sintheta_l inv (sintheta_l * cos phi * inv) (sintheta_l * sin phi * inv).
(** l.100-358 (l.142-190: the matrices; l.192-199: inverse; l.201-309: sums; l.310-330; l.332-355: the elements of K). [K] is what the
    object held before: every element is overwritten. *)
Definition ext_execute (nmax : nat) (k : R) (T : tmats) (theta phi : R) (K : nat -> nat -> R) : nat -> nat -> R :=
  let d := ext_dir theta phi in
  let M := add_product (mk2 0 0 0 0) d (mAL theta phi) in
  let W := amplitude_from (mkAmp (RtoC 0) (RtoC 0) (RtoC 0) (RtoC 0)) (object_tables nmax T d d) nmax k (cp d * cp d + sp d * sp d) (sp d * cp d - cp d * sp d) in
  let S := two_products (invert M) W M in
  let K' := extinction (1 / k) S in
  fun i j => if ((i <? 4) && (j <? 4))%nat then K' i j else K i j.
