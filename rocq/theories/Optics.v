(** Models of the observable-building arithmetic:
    - src/ScatteringMatrixTask.hpp: amplitude matrix (588-687) and 4x4 matrix (722-748)
    - src/ExtinctionCoefficientTask.hpp 513-650, src/AbsorptionCoefficientTask.hpp 700-790
    - src/ExtinctionMatrixResource.hpp 315-355
    - src/DraineDustProperties.hpp 135-142
    Complex numbers are Coquelicot's pairs of reals: exact arithmetic. *)
From Coq Require Import Reals Lra Lia List Psatz.
From Coquelicot Require Import Complex.
Import ListNotations.
Local Open Scope C_scope.

(** a 2x2 amplitude matrix, S[0..3] = S(0,0), S(0,1), S(1,0), S(1,1) *)
Record amp := mkAmp { s0 : C; s1 : C; s2 : C; s3 : C }.

(** ScatteringMatrixTask.hpp 722-748 *)
Definition scattering (S : amp) (i j : nat) : R :=
  let S0 := s0 S in let S1 := s1 S in let S2 := s2 S in let S3 := s3 S in
  let half := RtoC (/ 2) in
  match i, j with
  | 0%nat, 0%nat => Re (half * (S0 * Cconj S0 + S1 * Cconj S1 + S2 * Cconj S2 + S3 * Cconj S3))
  | 0%nat, 1%nat => Re (half * (S0 * Cconj S0 - S1 * Cconj S1 + S2 * Cconj S2 - S3 * Cconj S3))
  | 0%nat, 2%nat => Re (- S0 * Cconj S1 - S3 * Cconj S2)
  | 0%nat, 3%nat => Re (Ci * (S0 * Cconj S1 - S3 * Cconj S2))
  | 1%nat, 0%nat => Re (half * (S0 * Cconj S0 + S1 * Cconj S1 - S2 * Cconj S2 - S3 * Cconj S3))
  | 1%nat, 1%nat => Re (half * (S0 * Cconj S0 - S1 * Cconj S1 - S2 * Cconj S2 + S3 * Cconj S3))
  | 1%nat, 2%nat => Re (- S0 * Cconj S1 + S3 * Cconj S2)
  | 1%nat, 3%nat => Re (Ci * (S0 * Cconj S1 + S3 * Cconj S2))
  | 2%nat, 0%nat => Re (- S0 * Cconj S2 - S3 * Cconj S1)
  | 2%nat, 1%nat => Re (- S0 * Cconj S2 + S3 * Cconj S1)
  | 2%nat, 2%nat => Re (S0 * Cconj S3 + S1 * Cconj S2)
  | 2%nat, 3%nat => Re (- Ci * (S0 * Cconj S3 + S2 * Cconj S1))
  | 3%nat, 0%nat => Re (Ci * (S2 * Cconj S0 + S3 * Cconj S1))
  | 3%nat, 1%nat => Re (Ci * (S2 * Cconj S0 - S3 * Cconj S1))
  | 3%nat, 2%nat => Re (- Ci * (S3 * Cconj S0 - S1 * Cconj S2))
  | 3%nat, 3%nat => Re (S3 * Cconj S0 - S1 * Cconj S2)
  | _, _ => 0%R
  end.

(** ExtinctionMatrixResource.hpp 330-355, kinv = 1 / wavenumber *)
Definition extinction (kinv : R) (S : amp) (i j : nat) : R :=
  let prefactor := (2 * PI * kinv)%R in
  let K00 := (prefactor * Im (s0 S + s3 S)%C)%R in
  let K01 := (prefactor * Im (s0 S - s3 S)%C)%R in
  let K02 := (- prefactor * Im (s1 S + s2 S)%C)%R in
  let K03 := (prefactor * Re (s2 S - s1 S)%C)%R in
  let K12 := (prefactor * Im (s2 S - s1 S)%C)%R in
  let K13 := (- prefactor * Re (s1 S + s2 S)%C)%R in
  let K23 := (prefactor * Re (s3 S - s0 S)%C)%R in
  match i, j with
  | 0%nat, 0%nat | 1%nat, 1%nat | 2%nat, 2%nat | 3%nat, 3%nat => K00
  | 0%nat, 1%nat | 1%nat, 0%nat => K01
  | 0%nat, 2%nat | 2%nat, 0%nat => K02
  | 0%nat, 3%nat | 3%nat, 0%nat => K03
  | 1%nat, 2%nat => K12 | 2%nat, 1%nat => (- K12)%R
  | 1%nat, 3%nat => K13 | 3%nat, 1%nat => (- K13)%R
  | 2%nat, 3%nat => K23 | 3%nat, 2%nat => (- K23)%R
  | _, _ => 0%R
  end.

(** ExtinctionCoefficientTask.hpp 640-657: Qext, Qextpol, Qextcpol of the forward amplitude
    matrix S, wavenumber k and equal volume radius a *)
Definition ext_coefficients (k a : R) (S : amp) : R * R * R :=
  let prefactor := (2 * PI / k)%R in let norm := (PI * a * a)%R in
  ((prefactor * Im (s0 S + s3 S)%C / norm)%R, (prefactor * Im (s0 S - s3 S)%C / norm)%R, (prefactor * Re (s3 S - s0 S)%C / norm)%R).

(** AbsorptionCoefficientTask.hpp 733-784: Qabs and Qabspol; [dirs] lists, for every incoming
    direction of the internal quadrature, the weight and the amplitude matrix *)
Definition abs_coefficients (k a : R) (S : amp) (account_for_scattering : bool) (dirs : list (R * amp)) : R * R :=
  let prefactor := (2 * PI / k)%R in
  let start := ((prefactor * Im (s0 S + s3 S)%C)%R, (prefactor * Im (s0 S - s3 S)%C)%R) in
  let '(Qabs, Qabspol) :=
    if account_for_scattering then
      fold_left (fun '(q, p) '(weight, T) =>
        let half := RtoC (/ 2) in
        let Z00 := Re (half * (s0 T * Cconj (s0 T) + s1 T * Cconj (s1 T) + s2 T * Cconj (s2 T) + s3 T * Cconj (s3 T))) in
        let Z10 := Re (half * (s0 T * Cconj (s0 T) + s1 T * Cconj (s1 T) - s2 T * Cconj (s2 T) - s3 T * Cconj (s3 T))) in
        ((q - Z00 * weight)%R, (p - Z10 * weight)%R)) dirs start
    else start in
  let norm := (PI * a * a)%R in ((Qabs / norm)%R, (Qabspol / norm)%R).

(** DraineDustProperties.hpp 135-142 *)
Definition eps_to_mr (eps : C) : C :=
  let epsr := Re eps in let epsi := Im eps in
  let epsabs := sqrt (epsr * epsr + epsi * epsi) in
  (sqrt (5 / 10 * (epsabs + epsr)), sqrt (5 / 10 * (epsabs - epsr))).

(** the T-matrix elements and angular functions used by the amplitude matrix *)
Record angular := mkAng {
  T : nat -> nat -> nat -> nat -> nat -> C;   (* _Tmatrix(i, n, m, j, nn, m) as T i j m n nn *)
  dsin_in : nat -> nat -> R; tau_in : nat -> nat -> R;    (* get_wigner_d_sinx / get_dwigner_d of m and nn *)
  dsin_out : nat -> nat -> R; tau_out : nat -> nat -> R;  (* of m and n *)
  cnn : nat -> nat -> C }.                    (* _nfactors.get_cnn(nn, n) *)

Definition for_C {X} (lo hi : nat) (body : nat -> X -> X) (s : X) : X := fold_left (fun s k => body k s) (seq lo (hi - lo)) s.

(** body of the innermost loop, ScatteringMatrixTask.hpp 637-678 *)
Definition amp_term (g : angular) (m nn n : nat) (fcos fsin : R) (S : amp) : amp :=
  let pi_nn := (INR m * dsin_in g m nn)%R in let tau_nn := tau_in g m nn in
  let pi_n := (INR m * dsin_out g m n)%R in let tau_n := tau_out g m n in
  let c := cnn g nn n in
  let T11 := T g 0 0 m n nn in let T22 := T g 1 1 m n nn in
  if Nat.eqb m 0 then
    let factor := c * RtoC tau_n * RtoC tau_nn in
    mkAmp (s0 S + factor * T22) (s1 S) (s2 S) (s3 S + factor * T11)
  else
    let T12 := T g 0 1 m n nn in let T21 := T g 1 0 m n nn in
    let real_factor := c * RtoC fcos in let imag_factor := c * RtoC fsin in
    let pi_pi := RtoC (pi_n * pi_nn)%R in let pi_tau := RtoC (pi_n * tau_nn)%R in
    let tau_pi := RtoC (tau_n * pi_nn)%R in let tau_tau := RtoC (tau_n * tau_nn)%R in
    mkAmp
      (s0 S + real_factor * (T11 * pi_pi + T21 * tau_pi + T12 * pi_tau + T22 * tau_tau))
      (s1 S + imag_factor * (T11 * pi_tau + T21 * tau_tau + T12 * pi_pi + T22 * tau_pi))
      (s2 S - imag_factor * (T11 * tau_pi + T21 * pi_pi + T12 * tau_tau + T22 * pi_tau))
      (s3 S + real_factor * (T11 * tau_tau + T21 * pi_tau + T12 * tau_pi + T22 * pi_pi)).
(** ScatteringMatrixTask.hpp 588-687 (the copies in ExtinctionCoefficientTask.hpp 513-616 and
    AbsorptionCoefficientTask.hpp differ only in the grids the tables belong to) *)
Definition amplitude (g : angular) (nmax : nat) (k cosphi sinphi : R) : amp :=
  let '(W, _) := for_C 0 (nmax + 1) (fun m '(W, e) =>
      let nmin := Nat.max m 1 in
      let fcos := (2 * Re e)%R in let fsin := (2 * Im e)%R in
      (for_C nmin (nmax + 1) (fun nn W => for_C nmin (nmax + 1) (fun n W => amp_term g m nn n fcos fsin W) W) W, e * (cosphi, sinphi)))
    (mkAmp (RtoC 0) (RtoC 0) (RtoC 0) (RtoC 0), RtoC 1) in
  let kinv := RtoC (1 / k)%R in
  mkAmp (s0 W * kinv) (s1 W * kinv) (s2 W * kinv) (s3 W * kinv).

(** NBasedResources.hpp 115-135: the factor stored for (n', n) = (ni + 1, nj + 1); the two running
    powers are loop variables: icomp_pow_nn after ni iterations, icomp_pow_m_n_m_1 after nj *)
Definition ann (ni nj : nat) : R :=
  (let nni := (INR ni + 2) * (INR ni + 1) in let sqrtni := sqrt ((2 * (INR ni + 1) + 1) / nni) in
   let nnj := (INR nj + 2) * (INR nj + 1) in let sqrtnj := sqrt ((2 * (INR nj + 1) + 1) / nnj) in
   sqrtni * sqrtnj)%R.
Definition cnn_table (ni nj : nat) : C :=
  let icomp_pow_nn := for_C 0 ni (fun _ z => z * Ci) Ci in
  let icomp_pow_m_n_m_1 := for_C 0 nj (fun _ z => z / Ci) (RtoC (-1)) in
  icomp_pow_m_n_m_1 * icomp_pow_nn * RtoC (ann ni nj).
