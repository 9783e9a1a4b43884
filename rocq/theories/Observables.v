(** Model of the tasks that turn a T-matrix into the observables
    (/repo/src/AbsorptionCoefficientTask.hpp, ExtinctionCoefficientTask.hpp, ScatteringMatrixTask.hpp):
    the angular grids, the tables of Wigner d functions on these grids, and execute() of the three tasks.

    Simplifications: exact real and complex numbers; arrays and matrices are functions of the index, so that reading outside the
    array is not an error here (the bounds are C28 and C29); the calls of get_gauss_legendre_points_and_weights(_ab) are
    parameters: the points and weights they return (C32, C48, C49 are about them). The functions of the grids and tables that
    only bear on scheduling (link_resources, make_available, check_use, get_memory_size) are elsewhere in the model. *)
From Coq Require Import List Arith Lia Bool Reals Lra.
From Coquelicot Require Import Complex.
From Verif Require Import Wigner Index Matrix Optics TClass.
Import ListNotations.
Open Scope R_scope.

(* ---------------------------------------------- grids *)

(** cosines, sines and inverse sines of the zenith angles of one grid *)
Record zenith_grid := mkZ { z_cos : nat -> R; z_sin : nat -> R; z_inv : nat -> R }.
(** cosines and sines of the azimuth angles *)
Record azimuth_grid := mkA { a_cos : nat -> R; a_sin : nat -> R }.
(** AbsorptionCoefficientTask.hpp l.249-257 and l.269-276, ExtinctionCoefficientTask.hpp l.220-226, ScatteringMatrixTask.hpp
    l.240-246: the sine and its inverse from the cosine that is already stored *)
Definition put_sine (i : nat) (g : zenith_grid) : zenith_grid :=
  let s := sqrt ((1 - z_cos g i) * (1 + z_cos g i)) in
  let g := mkZ (z_cos g) (vupd (z_sin g) i s) (z_inv g) in
  if Req_EM_T (z_sin g i) 0 then mkZ (z_cos g) (z_sin g) (vupd (z_inv g) i 9000)
  else mkZ (z_cos g) (z_sin g) (vupd (z_inv g) i (1 / z_sin g i)).
Definition put_cosine (i : nat) (c : R) (g : zenith_grid) : zenith_grid := mkZ (vupd (z_cos g) i c) (z_sin g) (z_inv g).
(** the array a call of the quadrature function filled *)
Definition put_all (n : nat) (x : nat -> R) (a : nat -> R) : nat -> R := fun i => if (i <? n)%nat then x i else a i.

(** ExtinctionCoefficientTask.hpp l.215-228; also the loop of AbsorptionCoefficientTask.hpp l.242-258 over the angles of the user *)
Definition angle_grid (ntheta : nat) (theta : nat -> R) (g : zenith_grid) : zenith_grid :=
  for_C 0 ntheta (fun itheta g => put_sine itheta (put_cosine itheta (cos (theta itheta)) g)) g.
(** AbsorptionCoefficientTask.hpp l.260-284: the internal grid; x and phi are the points of the two Gauss-Legendre rules *)
Definition absorption_internal (ngauss : nat) (x phi : nat -> R) (g : zenith_grid) (h : azimuth_grid) : zenith_grid * azimuth_grid :=
  let g := mkZ (put_all ngauss x (z_cos g)) (z_sin g) (z_inv g) in
  let h := mkA (put_all ngauss phi (a_cos h)) (a_sin h) in
  for_C 0 ngauss (fun igauss '(g, h) =>
    let g := put_sine igauss g in
    let phi_out := a_cos h igauss in
    let h := mkA (vupd (a_cos h) igauss (cos phi_out)) (a_sin h) in
    (g, mkA (a_cos h) (vupd (a_sin h) igauss (sin phi_out)))) (g, h).
(** ScatteringMatrixTask.hpp l.163-166 (constructor): the only incoming direction *)
Definition scattering_in (theta_in : R) : zenith_grid :=
  let c := cos theta_in in
  let s := sqrt ((1 - c) * (1 + c)) in
  mkZ (fun _ => c) (fun _ => s) (fun _ => if Req_EM_T s 0 then 9000 else 1 / s).
(** ScatteringMatrixTask.hpp l.224-264; theta is the array _theta_out, phi the array _phi_out *)
Definition scattering_theta (gauss : bool) (ntheta_out : nat) (x : nat -> R) (theta : nat -> R) (g : zenith_grid) : (nat -> R) * zenith_grid :=
  let g := if gauss then mkZ (put_all ntheta_out x (z_cos g)) (z_sin g) (z_inv g) else g in
  let dtheta := if gauss then 0 else PI / INR ntheta_out in
  for_C 0 ntheta_out (fun i '(theta, g) =>
    let theta := if gauss then vupd theta i (acos (z_cos g i)) else vupd theta i (INR i * dtheta) in
    let g := if gauss then g else put_cosine i (cos (theta i)) g in
    (theta, put_sine i g)) (theta, g).
Definition scattering_phi (gauss : bool) (nphi_out : nat) (p : nat -> R) (phi : nat -> R) (h : azimuth_grid) : (nat -> R) * azimuth_grid :=
  let phi := if gauss then put_all nphi_out p phi else phi in
  let dphi := if gauss then 0 else 2 * PI / INR nphi_out in
  for_C 0 nphi_out (fun i '(phi, h) =>
    let phi := if gauss then phi else vupd phi i (INR i * dphi) in
    (phi, mkA (vupd (a_cos h) i (cos (phi i))) (vupd (a_sin h) i (sin (phi i))))) (phi, h).

(* ---------------------------------------------- tables of Wigner d functions *)

(** the matrices of one grid: number of the matrix, row, column *)
Definition wtable := nat -> nat -> nat -> R.
(** a row of n entries written by wigner_dn_0m_sinx *)
Definition put_row (t : wtable) (index row n : nat) (v : nat -> R) : wtable :=
  fun i r c => if ((i =? index) && (r =? row) && (c <? n))%nat then v c else t i r c.
Record wtables := mkW { w_sinx : wtable; w_dn : wtable }.
(** one call of wigner_dn_0m_sinx for the angle [row] of the grid *)
Definition wigner_call (g : zenith_grid) (index row n m : nat) (w : wtables) : wtables :=
  let l := wigner_dn_0m_sinx (z_cos g row) (z_sin g row) (z_inv g row) n m in
  mkW (put_row (w_sinx w) index row n (fun c => fst (nth c l (0, 0)))) (put_row (w_dn w) index row n (fun c => snd (nth c l (0, 0)))).
(** ExtinctionCoefficientTask.hpp l.336-356 *)
Definition extinction_tables (nmax ntheta : nat) (g : zenith_grid) (w : wtables) : wtables :=
  for_C 1 (nmax + 1) (fun n w => for_C 0 (n + 1) (fun m w =>
    for_C 0 ntheta (fun itheta_in w => wigner_call g ((2 + n) * (n - 1) / 2 + m)%nat itheta_in n m w) w) w) w.
(** AbsorptionCoefficientTask.hpp l.403-439 and ScatteringMatrixTask.hpp l.383-419: the pair of tables of the grids 0 and 1;
    in the scattering task the first loop has the single angle itheta_in = 0 *)
Definition pair_tables (nmax n0 n1 : nat) (g0 g1 : zenith_grid) (w : wtables * wtables) : wtables * wtables :=
  for_C 1 (nmax + 1) (fun n w => for_C 0 (n + 1) (fun m w =>
    let index := ((2 + n) * (n - 1) / 2 + m)%nat in
    let w := for_C 0 n0 (fun itheta w => (wigner_call g0 index itheta n m (fst w), snd w)) w in
    for_C 0 n1 (fun itheta w => (fst w, wigner_call g1 index itheta n m (snd w))) w) w) w.
(** AbsorptionCoefficientTask.hpp l.453-502, ExtinctionCoefficientTask.hpp l.369-414, ScatteringMatrixTask.hpp l.433-482 *)
Definition get_wigner (t : wtable) (m itheta n nmax : nat) : R := t ((2 + nmax) * (nmax - 1) / 2 + m)%nat itheta (n - 1)%nat.

(* ---------------------------------------------- the tasks *)

(** TMatrixResource.hpp l.195-213: _T[m](row, column); nmax is the order the matrix was last computed for *)
Definition t_element (nmax : nat) (T : tmats) (i1 n1 m1 i2 n2 m2 : nat) : C :=
  if (0 <? m1)%nat then let nm := (nmax + 1 - m1)%nat in T m1 (i1 * nm + n1 - m1)%nat (i2 * nm + n2 - m2)%nat
  else T m1 (i1 * nmax + n1 - m1 - 1)%nat (i2 * nmax + n2 - m2 - 1)%nat.
(** NBasedResources.hpp l.176-184 (and l.105-135, Optics.cnn_table) *)
Definition get_cnn (n1 n2 : nat) : C := cnn_table (n1 - 1) (n2 - 1).
(** AbsorptionCoefficientTask.hpp l.612-715, ExtinctionCoefficientTask.hpp l.517-619, ScatteringMatrixTask.hpp l.588-691. The two
    numbers are the real and imaginary part of expiphi_p_out_m_in (l.630, l.532, l.606). *)
Definition task_forward (nmax : nat) (k : R) (T : tmats) (win : wtables) (itheta_in : nat) (wout : wtables) (itheta_out : nat) (re im : R) : amp :=
  amplitude (mkAng (fun i j m n nn => t_element nmax T i n m j nn m)
                   (fun m nn => get_wigner (w_sinx win) m itheta_in nn nmax) (fun m nn => get_wigner (w_dn win) m itheta_in nn nmax)
                   (fun m n => get_wigner (w_sinx wout) m itheta_out n nmax) (fun m n => get_wigner (w_dn wout) m itheta_out n nmax)
                   get_cnn) nmax k re im.

(** ExtinctionCoefficientTask.hpp l.626-653 *)
Record ext_result := mkE { Qext : nat -> R; Qextpol : nat -> R; Qextcpol : nat -> R }.
Definition extinction_task (nmax : nat) (k a : R) (T : tmats) (ntheta : nat) (w : wtables) (result : ext_result) : ext_result :=
  for_C 0 ntheta (fun itheta_in result =>
    let W := task_forward nmax k T w itheta_in w itheta_in 1 0 in
    let prefactor := 2 * PI / k in
    let result := mkE (vupd (Qext result) itheta_in (prefactor * Im (s0 W + s3 W)%C))
                      (vupd (Qextpol result) itheta_in (prefactor * Im (s0 W - s3 W)%C))
                      (vupd (Qextcpol result) itheta_in (prefactor * Re (s3 W - s0 W)%C)) in
    let norm := PI * a * a in
    mkE (vupd (Qext result) itheta_in (Qext result itheta_in / norm)) (vupd (Qextpol result) itheta_in (Qextpol result itheta_in / norm))
        (vupd (Qextcpol result) itheta_in (Qextcpol result itheta_in / norm))) result.

(** AbsorptionCoefficientTask.hpp l.722-781 *)
Record abs_result := mkQ { Qabs : nat -> R; Qabspol : nat -> R }.
Definition absorption_task (account_for_scattering : bool) (nmax : nat) (k a : R) (T : tmats) (ntheta ngauss : nat) (w : wtables * wtables)
    (cos_theta_in_weights phi_in_weights : nat -> R) (h : azimuth_grid) (result : abs_result) : abs_result :=
  for_C 0 ntheta (fun itheta_out result =>
    let W := task_forward nmax k T (fst w) itheta_out (fst w) itheta_out 1 (- 0) in
    let prefactor := 2 * PI / k in
    let result := mkQ (vupd (Qabs result) itheta_out (prefactor * Im (s0 W + s3 W)%C)) (vupd (Qabspol result) itheta_out (prefactor * Im (s0 W - s3 W)%C)) in
    let result := if account_for_scattering then
      for_C 0 ngauss (fun itheta_in result => for_C 0 ngauss (fun iphi_in result =>
        let cos_phi_in := a_cos h iphi_in in
        let sin_phi_in := a_sin h iphi_in in
        let Stp := task_forward nmax k T (snd w) itheta_in (fst w) itheta_out cos_phi_in (- sin_phi_in) in
        let weight := cos_theta_in_weights itheta_in * phi_in_weights iphi_in in
        let half := RtoC (/ 2) in
        let Z00 := Re (half * (s0 Stp * Cconj (s0 Stp) + s1 Stp * Cconj (s1 Stp) + s2 Stp * Cconj (s2 Stp) + s3 Stp * Cconj (s3 Stp)))%C in
        let result := mkQ (vupd (Qabs result) itheta_out (Qabs result itheta_out - Z00 * weight)) (Qabspol result) in
        let Z10 := Re (half * (s0 Stp * Cconj (s0 Stp) + s1 Stp * Cconj (s1 Stp) - s2 Stp * Cconj (s2 Stp) - s3 Stp * Cconj (s3 Stp)))%C in
        mkQ (Qabs result) (vupd (Qabspol result) itheta_out (Qabspol result itheta_out - Z10 * weight))) result) result
      else result in
    let norm := PI * a * a in
    mkQ (vupd (Qabs result) itheta_out (Qabs result itheta_out / norm)) (vupd (Qabspol result) itheta_out (Qabspol result itheta_out / norm))) result.

(** ScatteringMatrixTask.hpp l.698-751; the sixteen assignments of l.722-748 are Optics.scattering *)
Definition scattering_task (nmax : nat) (k : R) (T : tmats) (ntheta_out nphi_out : nat) (w : wtables * wtables) (h : azimuth_grid)
    (result : nat -> nat -> nat -> R) : nat -> nat -> nat -> R :=
  for_C 0 ntheta_out (fun itheta_out result => for_C 0 nphi_out (fun iphi_out result =>
    let S := task_forward nmax k T (fst w) 0 (snd w) itheta_out (a_cos h iphi_out) (a_sin h iphi_out) in
    vupd result (itheta_out * nphi_out + iphi_out)%nat (scattering S)) result) result.
