(** Model of the outputs of the class TMatrix (/repo/src/TMatrix.hpp): amplitude matrix for a particle with its axis along z
    (l.1111-1229, l.1246-1285) and for any orientation (l.1306-1482), scattering matrix (l.1891-1952), extinction matrix
    (l.1972-2048), coefficients (l.2055-2110), absorption cross sections (l.2133-2287).

    Simplifications: exact real and complex numbers; arrays and matrices as functions of the index; loops over the three or two
    components of a small matrix are written out. The Gauss-Legendre rules of l.2199-2209 are parameters. *)
From Coq Require Import List Arith Lia Bool Reals Lra.
From Coquelicot Require Import Complex.
From Verif Require Import Wigner Optics TClass.
Import ListNotations.
Open Scope R_scope.

(** l.1116-1130: c(n - 1, nn - 1); icomp_pow_nn is multiplied by i once per nn, icomp_pow_m_n_m_1 divided by i once per n *)
Definition class_c (n nn : nat) : C :=
  let icomp_pow_nn := for_C 1 nn (fun _ z => z * Ci)%C Ci in
  let icomp_pow_m_n_m_1 := for_C 1 n (fun _ z => z / Ci)%C (RtoC (-1)) in
  (icomp_pow_m_n_m_1 * icomp_pow_nn *
   RtoC (sqrt ((2 * INR n + 1) * (2 * INR nn + 1) / (INR n * INR nn * (INR n + 1) * (INR nn + 1)))))%C.
(** the ten numbers the function is called with; [inv] is the inverse sine *)
Record dir := mkDir { ct : R; st : R; inv : R; cp : R; sp : R }.
(** l.1150-1158: pi and tau for the direction d *)
Definition sinx_tables (nmax : nat) (d : dir) : (nat -> nat -> R) * (nat -> nat -> R) :=
  (fun m n => fst (nth (n - 1) (wigner_dn_0m_sinx (ct d) (st d) (inv d) nmax m) (0, 0)),
   fun m n => snd (nth (n - 1) (wigner_dn_0m_sinx (ct d) (st d) (inv d) nmax m) (0, 0))).
(** l.1111-1229. The sums over m, n' and n are those of ScatteringMatrixTask, Optics.amplitude; e^{i (phi_out - phi_in)} from l.1134-1136 *)
Definition forward (nmax : nat) (k : R) (T : tmats) (din dout : dir) : amp :=
  amplitude (mkAng (fun i j m n nn => element nmax T i n m j nn m) (fst (sinx_tables nmax din)) (snd (sinx_tables nmax din))
                   (fst (sinx_tables nmax dout)) (snd (sinx_tables nmax dout)) (fun nn n => class_c n nn))
            nmax k (cp dout * cp din + sp dout * sp din) (sp dout * cp din - cp dout * sp din).
(** l.1251-1278, once per direction *)
Definition dir_of (theta phi : R) : dir :=
  let sintheta := sin theta in
  mkDir (cos theta) sintheta (if Req_EM_T sintheta 0 then 9000 else 1 / sintheta) (cos phi) (sin phi).
(** l.1246-1285 *)
Definition fixed_axis (nmax : nat) (k : R) (T : tmats) (theta_in phi_in theta_out phi_out : R) : amp :=
  forward nmax k T (dir_of theta_in phi_in) (dir_of theta_out phi_out).

(** l.1329-1350 and l.1352-1373: the direction in the frame of the particle *)
Definition body_dir (alpha beta theta phi : R) : dir :=
  let cosphirel := cos phi * cos alpha + sin phi * sin alpha in
  let sinphirel := sin phi * cos alpha - cos phi * sin alpha in
  let costheta_p := cos theta * cos beta + sin theta * sin beta * cosphirel in
  let sintheta_p := sin (acos costheta_p) in
  if Req_EM_T sintheta_p 0 then mkDir costheta_p sintheta_p 9000 1 0
  else let sintheta_p_inv := 1 / sintheta_p in
       mkDir costheta_p sintheta_p sintheta_p_inv ((cos beta * sin theta * cosphirel - sin beta * cos theta) * sintheta_p_inv) (sin theta * sinphirel * sintheta_p_inv).
(** a 2x2 real matrix *)
Record mat2 := mk2 { a00 : R; a01 : R; a10 : R; a11 : R }.
(** l.1375-1384 (B), l.1386-1392 and l.1402-1408 (AL), l.1394-1400 and l.1410-1416 (AP), l.1418-1453: AP x (B x AL) *)
Definition mB (alpha beta : R) (i k : nat) : R :=
  match i, k with
  | 0%nat, 0%nat => cos alpha * cos beta | 0%nat, 1%nat => sin alpha * cos beta | 0%nat, 2%nat => - sin beta
  | 1%nat, 0%nat => - sin alpha | 1%nat, 1%nat => cos alpha
  | 2%nat, 0%nat => cos alpha * sin beta | 2%nat, 1%nat => sin alpha * sin beta | 2%nat, 2%nat => cos beta
  | _, _ => 0
  end.
Definition mAL (theta phi : R) (k j : nat) : R :=
  match k, j with
  | 0%nat, 0%nat => cos theta * cos phi | 0%nat, 1%nat => - sin phi
  | 1%nat, 0%nat => cos theta * sin phi | 1%nat, 1%nat => cos phi
  | 2%nat, 0%nat => - sin theta
  | _, _ => 0
  end.
Definition mAP (d : dir) (i k : nat) : R :=
  match i, k with
  | 0%nat, 0%nat => ct d * cp d | 0%nat, 1%nat => ct d * sp d | 0%nat, 2%nat => - st d
  | 1%nat, 0%nat => - sp d | 1%nat, 1%nat => cp d
  | _, _ => 0
  end.
Definition sum3 (f : nat -> R) : R := 0 + f 0%nat + f 1%nat + f 2%nat.
Definition mR (alpha beta theta phi : R) (d : dir) : mat2 :=
  let C i j := sum3 (fun k => mB alpha beta i k * mAL theta phi k j) in
  let R i j := sum3 (fun k => mAP d i k * C k j) in
  mk2 (R 0%nat 0%nat) (R 0%nat 1%nat) (R 1%nat 0%nat) (R 1%nat 1%nat).
(** l.1455-1462 *)
Definition invert (M : mat2) : mat2 :=
  let d := 1 / (a00 M * a11 M - a01 M * a10 M) in
  mk2 (a11 M * d) (- a01 M * d) (- a10 M * d) (a00 M * d).
(** l.1306-1482 *)
Definition oriented (nmax : nat) (k : R) (T : tmats) (alpha beta theta_in phi_in theta_out phi_out : R) : amp :=
  let din := body_dir alpha beta theta_in phi_in in
  let dout := body_dir alpha beta theta_out phi_out in
  let Rin := mR alpha beta theta_in phi_in din in
  let Rout := invert (mR alpha beta theta_out phi_out dout) in
  let W := forward nmax k T din dout in
  let r := RtoC in
  let cS11 := (s0 W * r (a00 Rin) + s1 W * r (a10 Rin))%C in
  let cS12 := (s0 W * r (a01 Rin) + s1 W * r (a11 Rin))%C in
  let cS21 := (s2 W * r (a00 Rin) + s3 W * r (a10 Rin))%C in
  let cS22 := (s2 W * r (a01 Rin) + s3 W * r (a11 Rin))%C in
  mkAmp (r (a00 Rout) * cS11 + r (a01 Rout) * cS21)%C (r (a00 Rout) * cS12 + r (a01 Rout) * cS22)%C
        (r (a10 Rout) * cS11 + r (a11 Rout) * cS21)%C (r (a10 Rout) * cS12 + r (a11 Rout) * cS22)%C.

(** l.1891-1952: the expressions are those of ScatteringMatrixTask, Optics.scattering *)
Definition get_scattering_matrix (nmax : nat) (k : R) (T : tmats) (alpha beta theta_in phi_in theta_out phi_out : R) (i j : nat) : R :=
  scattering (oriented nmax k T alpha beta theta_in phi_in theta_out phi_out) i j.
(** l.1972-2010: the expressions are those of ExtinctionMatrixResource, Optics.extinction, with the prefactor 2 pi / k *)
Definition get_extinction_matrix (nmax : nat) (k : R) (T : tmats) (alpha beta theta_in phi_in : R) (i j : nat) : R :=
  extinction (/ k) (oriented nmax k T alpha beta theta_in phi_in theta_in phi_in) i j.
(** l.2034-2048 *)
Definition get_reduced_extinction_matrix (nmax : nat) (k : R) (T : tmats) (alpha beta theta_in phi_in : R) : R * R * R :=
  let W := oriented nmax k T alpha beta theta_in phi_in theta_in phi_in in
  let prefactor := 2 * PI / k in
  (prefactor * Im (s0 W + s3 W)%C, prefactor * Im (s0 W - s3 W)%C, prefactor * Re (s3 W - s0 W)%C).

(** l.2055-2084 *)
Definition norm2 (z : C) : R := Re z * Re z + Im z * Im z.
Definition get_scattering_coefficient (nmax : nat) (T : tmats) : R :=
  for_C 1 (nmax + 1) (fun n1 s => for_C 1 (nmax + 1) (fun n2 s => for_C 0 (n1 + 1) (fun m1 s => for_C 0 (n2 + 1) (fun m2 s =>
    if (m1 =? m2)%nat then
      let factor := if (0 <? m1)%nat then 2 else 1 in
      s + factor * norm2 (element nmax T 0 n1 m1 0 n2 m2) + factor * norm2 (element nmax T 0 n1 m1 1 n2 m2)
        + factor * norm2 (element nmax T 1 n1 m1 0 n2 m2) + factor * norm2 (element nmax T 1 n1 m1 1 n2 m2)
    else s) s) s) s) 0.
(** l.2091-2110 *)
Definition get_extinction_coefficient (nmax : nat) (T : tmats) : R :=
  for_C 1 (nmax + 1) (fun n1 s => for_C 0 (n1 + 1) (fun m1 s =>
    let factor := if (0 <? m1)%nat then 2 else 1 in
    s + factor * Re (element nmax T 0 n1 m1 0 n1 m1) + factor * Re (element nmax T 0 n1 m1 1 n1 m1)
      + factor * Re (element nmax T 1 n1 m1 0 n1 m1) + factor * Re (element nmax T 1 n1 m1 1 n1 m1)) s) 0.

(** l.2133-2181: result[0] and result[1]; the entries that are not asked for keep their values *)
Definition absorption_at (nmax : nat) (k : R) (T : tmats) (theta : R) (ngauss : nat) (do_Cabs do_Cabspol : bool) (thetaGL wGL phiGL pwGL : nat -> R) (result : R * R) : R * R :=
  let W := fixed_axis nmax k T theta 0 theta 0 in
  let prefactor := 2 * PI / k in
  let result := (if do_Cabs then prefactor * Im (s0 W + s3 W)%C else fst result, if do_Cabspol then prefactor * Im (s0 W - s3 W)%C else snd result) in
  for_C 0 ngauss (fun itheta r => for_C 0 ngauss (fun iphi r =>
    let Stp := fixed_axis nmax k T (thetaGL itheta) (phiGL iphi) theta 0 in
    let weight := wGL itheta * pwGL iphi in
    (if do_Cabs then fst r - scattering Stp 0 0 * weight else fst r, if do_Cabspol then snd r - scattering Stp 1 0 * weight else snd r)) r) result.
(** l.2194-2216 and l.2229-2251; the array Cabs has 2 ntheta or ntheta elements *)
Definition get_absorption_cross_sections (nmax : nat) (k : R) (T : tmats) (theta : nat -> R) (ntheta ngauss : nat) (costhetaGL wGL phiGL pwGL : nat -> R) (Cabs : nat -> R) : nat -> R :=
  let thetaGL := fun i => acos (costhetaGL i) in
  for_C 0 ntheta (fun i Cabs =>
    let r := absorption_at nmax k T (theta i) ngauss true true thetaGL wGL phiGL pwGL (Cabs (2 * i)%nat, Cabs (2 * i + 1)%nat) in
    Matrix.vupd (Matrix.vupd Cabs (2 * i) (fst r)) (2 * i + 1) (snd r)) Cabs.
Definition get_absorption_cross_section (nmax : nat) (k : R) (T : tmats) (theta : nat -> R) (ntheta ngauss : nat) (costhetaGL wGL phiGL pwGL : nat -> R) (Cabs : nat -> R) : nat -> R :=
  let thetaGL := fun i => acos (costhetaGL i) in
  for_C 0 ntheta (fun i Cabs =>
    let r := absorption_at nmax k T (theta i) ngauss true false thetaGL wGL phiGL pwGL (Cabs i, 0) in
    Matrix.vupd Cabs i (fst r)) Cabs.
(** l.2261-2287 *)
Definition get_average_absorption_cross_section (nmax : nat) (k : R) (T : tmats) (ngauss : nat) (costhetaGL wGL phiGL pwGL : nat -> R) : R :=
  let thetaGL := fun i => acos (costhetaGL i) in
  0.5 * for_C 0 ngauss (fun i result => result + fst (absorption_at nmax k T (thetaGL i) ngauss true false thetaGL wGL phiGL pwGL (0, 0)) * wGL i) 0.
