(** The TMatrix object of the Python module (PyTMatrix.hpp) and TMatrixCalculator (TMatrixCalculator.hpp l.64-306), composed of the models of
    the convergence loops (Adaptive.v), of the TMatrix class (TClass.v, Frames.v), of the orientation distributions (Orientation.v,
    Density.v) and of the average over orientations (Align.v). Arithmetic in exact reals, comparisons of the convergence loops in
    floating point. *)
From Coq Require Import List Arith Lia Bool ZArith Reals Lra Floats.SpecFloat.
From Coquelicot Require Import Complex.
From Verif Require Import Base Clebsch Matrix Quadrature Adaptive Orientation Density Shape QMatrix Ebcm Wigner Optics Align TClass Frames NumPy.
Import ListNotations.
Local Open Scope R_scope.

(* ------------------------------------------------------------ TMatrixCalculator *)
(** l.114-120, 162-168 *)
Definition m0_factors (nmax : nat) (T : tmats) : R * R :=
  for_C 1 (nmax + 1) (fun n q =>
    let dn1 := 2 * INR n + 1 in
    let a := TClass.element nmax T 0 n 0 0 n 0 in let b := TClass.element nmax T 1 n 0 1 n 0 in
    (fst q + dn1 * (norm2 a + norm2 b), snd q + dn1 * (Re a + Re b))) (0, 0).

(** what a particle is, apart from the order and the number of quadrature points *)
Record grain := mkGrain { g_axis_ratio : R; g_size : R; g_wavelength : R; g_mr : C }.
Section Calculator.
(** precision and largest exponent of float_type; conversion of an exact result to float_type; the radial functions computed by the Bessel
    routines for the given order; the Gauss-Legendre rule with 2 n points on [-1, 1] (TMatrix.hpp l.565-566) *)
Variables prec emax : Z.
Variable round : R -> spec_float.
Variable radials : nat -> radial.
Variable rule : nat -> (nat -> R) * (nat -> R).

(** new TMatrix(wavelength, mr, R_V, axis_ratio, nmax, ngauss), l.108-109, 156-157 *)
Definition particle_of (g : grain) (nmax ngauss : nat) : particle :=
  {| p_radial := radials nmax; p_nmax := nmax; p_ngauss := ngauss; p_x := fst (rule ngauss); p_w := snd (rule ngauss);
     p_axis_ratio := g_axis_ratio g; p_size := g_size g; p_wavelength := g_wavelength g; p_mr := g_mr g |}.
(** l.113-120: of a matrix that cannot be inverted nothing is known; here its factors are 0 *)
Definition factors_of (g : grain) (nmax ngauss : nat) : R * R :=
  match construct (particle_of g nmax ngauss) with Some T => m0_factors nmax T | None => (0, 0) end.
(** l.82-85: the largest integer not above max(4, xev + 4.05 xev^(1/3)) *)
Definition guess (R_V wavelength : R) : nat :=
  let xev := 2 * PI * R_V / wavelength in Z.to_nat (Int_part (Rmax 4 (xev + 4.05 * Rpower xev (/ 3)))).
(** How a call ends: with an object; the process ends ("Unable to converge!", TMatrixCalculator.hpp l.139, 184); a null pointer is used; a matrix
    has a zero pivot; an assertion fails (MishchenkoOrientationDistribution.hpp l.108-109) or, without assertions, the
    coefficients are not those of a probability; an array is overrun; a rule is never found or has norm zero *)
Inductive fault := Aborts | UsesNull | ZeroPivot | Asserts | Overrun | NoRule.
Inductive ended {A} := Done (a : A) | Faulty (f : fault).
Arguments ended : clear implicits.
(** l.64-213 *)
Definition calculate (ratio_of_radii axis_ratio axi wavelength : R) (maximum_order : nat) (tolerance : spec_float) (ndgs : nat) (mr : C) (maximum_ngauss : nat) : ended (particle * tmats) :=
  let ratio_of_radii := if Rlt_dec 1e-8 (Rabs (ratio_of_radii - 1)) then sphere_ratio axis_ratio else ratio_of_radii in
  let R_V := ratio_of_radii * axi in
  let g := mkGrain axis_ratio R_V wavelength mr in
  match calculate_TMatrix prec emax (fun n k => round (fst (factors_of g n k))) (fun n k => round (snd (factors_of g n k))) tolerance
          (guess R_V wavelength) maximum_order ndgs maximum_ngauss with
  | Unable => Faulty Aborts
  | NullPointer => Faulty UsesNull
  | TMatrixOf nmax ngauss =>
      let p := particle_of g nmax ngauss in
      match construct p with
      | None => Faulty ZeroPivot
      | Some T => match compute_additional_elements p T with None => Faulty ZeroPivot | Some T => Done (p, T) end   (* l.200 *)
      end
  end.
End Calculator.
Arguments ended : clear implicits.

(** T_single(i, n1, m, j, n2, m), TMatrix.hpp l.1028-1046 *)
Definition class_view (nmax : nat) (T : tmats) (i j : bool) (m n1 n2 : Z) : C :=
  TClass.element nmax T (Nat.b2n i) (Z.to_nat n1) (Z.to_nat m) (Nat.b2n j) (Z.to_nat n2) (Z.to_nat m).
(** l.298-301 *)
Definition store (nmax : nat) (m n1 n2 : Z) (t : quad) (T : tmats) : tmats :=
  let set i j v T := set_element nmax T (Nat.b2n i) (Z.to_nat n1) (Z.to_nat m) (Nat.b2n j) (Z.to_nat n2) (Z.to_nat m) v in
  let T := set false false (quarter t false false) T in
  let T := set false true (quarter t false true) T in
  let T := set true false (quarter t true false) T in
  set true true (quarter t true true) T.
(** TMatrixCalculator.hpp l.229-306, on the object itself (Align.apply_orientation_distribution is the same on functions) *)
Definition apply_to_object (coef : list R) (nmax : nat) (T : tmats) : option tmats :=
  mn_loops (Z.of_nat nmax) (fun m n1 n2 s => obind (element_fresh coef (class_view nmax T) m n1 n2) (fun t => Some (store nmax m n1 n2 t s))) T.

(* ------------------------------------------------------------ PyTMatrix::init *)
(** PyTMatrix.hpp l.209-219: the distribution for 2 nmax; the errors of initialise() are its default arguments (OrientationDistribution.hpp l.220-221) *)
Definition orientation (angle_rule : nat -> option arrays) (cos2beta axis_ratio : R) (order : nat) : ended distribution :=
  if Req_EM_T cos2beta 0 then Done (davis_greenstein order axis_ratio)
  else if Req_EM_T cos2beta 1 then Done (davis_greenstein order axis_ratio)
  else if Req_EM_T cos2beta (1 / 3) then
    match initialise angle_rule uniform 1e-10 1e-5 order with Made o => Done (dist o) | DividesByZero => Faulty NoRule | Stuck => Faulty NoRule end
  else match Orientation.mishchenko order cos2beta with Ok d => Done d | OutOfBounds => Faulty Overrun | Fails => Faulty Asserts end.
(** the Python object: order, wavenumber and T-matrix *)
Record pyobject := mkPy { py_nmax : nat; py_k : R; py_T : tmats }.
(** PyTMatrix.hpp l.118-227, arguments after parsing *)
Definition init (prec emax : Z) (round : R -> spec_float) (radials : nat -> radial) (rule : nat -> (nat -> R) * (nat -> R)) (angle_rule : nat -> option arrays)
    (particle_radius axis_ratio wavelength : R) (mr : C) (cos2beta : R) (tolerance : spec_float) (maximum_order ndgs maximum_ngauss : nat) (is_equal_volume_radius : bool) : ended pyobject :=
  let ratio_of_radii := if is_equal_volume_radius then 1 else 0.1 in
  match calculate prec emax round radials rule ratio_of_radii axis_ratio particle_radius wavelength maximum_order tolerance ndgs mr maximum_ngauss with
  | Faulty f => Faulty f
  | Done (p, T) =>
      let nmax := p_nmax p in
      if Rle_dec 0 cos2beta then
        match orientation angle_rule cos2beta axis_ratio (2 * nmax) with
        | Faulty f => Faulty f
        | Done d => match apply_to_object (map (coef d) (seq 0 (size d))) nmax T with None => Faulty Overrun | Some T => Done (mkPy nmax (2 * PI / wavelength) T) end
        end
      else Done (mkPy nmax (2 * PI / wavelength) T)
  end.

(* ------------------------------------------------------------ the methods *)
(** What a method returns: an array; an exception (a null pointer); or a read outside of an argument *)
Inductive answer := Array (r : result R) | Raises | OutOfBuffer.
Definition value_of (o : option R) : R := match o with Some r => r | None => 0 end.
Section Methods.
Variable decode : Z -> R.
Variable mem : memory.
Variable o : pyobject.

(** PyTMatrix.hpp l.466-585. The angles are read when they are needed, phi repeatedly; the arrays do not change meanwhile, so that here they are read
    once. *)
Definition py_extinction_matrix (thetas phis : ndarray) (alpha beta : R) : answer :=
  match as_vector thetas, as_vector phis with
  | Some (nt, a), Some (np, b) =>
      match read_loop decode mem 8 (getptr1 a) 0 (Z.to_nat nt), read_loop decode mem 8 (getptr1 b) 0 (Z.to_nat np) with
      | Some theta, Some phi =>
          let ds := [length theta; length phi; 4; 4]%nat in
          Array (squeeze (loops ds (fun index r =>
            match index with
            | [itheta; iphi; i; j] => put index (get_extinction_matrix (py_nmax o) (py_k o) (py_T o) alpha beta (nth itheta theta 0) (nth iphi phi 0) i j) r
            | _ => r
            end) (new_array ds)))
      | _, _ => OutOfBuffer
      end
  | _, _ => Raises
  end.
(** l.606-714 *)
Definition py_scattering_matrix (theta_ins phi_ins theta_outs phi_outs : ndarray) (alpha beta : R) : answer :=
  match unpack decode mem 8 theta_ins, unpack decode mem 8 phi_ins, unpack decode mem 8 theta_outs, unpack decode mem 8 phi_outs with
  | Some ti, Some pi_, Some to, Some po =>
      let ds := [length ti; length pi_; length to; length po; 4; 4]%nat in
      Array (squeeze (loops ds (fun index r =>
        match index with
        | [a; b; c; d; i; j] => put index (get_scattering_matrix (py_nmax o) (py_k o) (py_T o) alpha beta (nth a ti 0) (nth b pi_ 0) (nth c to 0) (nth d po 0) i j) r
        | _ => r
        end) (new_array ds)))
  | _, _, _, _ => OutOfBuffer
  end.
(** the rules of TMatrix.hpp l.2194-2287 with ngauss points: cosines and weights, azimuth angles and weights *)
Variable grid : nat -> (nat -> R) * (nat -> R) * (nat -> R) * (nat -> R).
(** l.273-351 *)
Definition py_absorption_cross_section (thetas : ndarray) (ngauss : nat) : answer :=
  match as_vector thetas with
  | None => Raises
  | Some (n, a) =>
      match unpack_adjacent decode mem n a with
      | None => OutOfBuffer
      | Some theta =>
          let '(x, w, p, v) := grid ngauss in
          let ds := [length theta] in
          let Cabs := get_absorption_cross_section (py_nmax o) (py_k o) (py_T o) (fun i => nth i theta 0) (length theta) ngauss x w p v (fun _ => 0) in
          Array (for_ 0 (length theta) (fun i r => put [i] (Cabs i) r) (new_array ds))
      end
  end.
(** l.369-447: the array of 2 thetasize elements is copied to the result of thetasize times 2 elements *)
Definition py_absorption_cross_sections (thetas : ndarray) (ngauss : nat) : answer :=
  match as_vector thetas with
  | None => Raises
  | Some (n, a) =>
      match unpack_adjacent decode mem n a with
      | None => OutOfBuffer
      | Some theta =>
          let '(x, w, p, v) := grid ngauss in
          let ds := [length theta; 2%nat] in
          let Cabs := get_absorption_cross_sections (py_nmax o) (py_k o) (py_T o) (fun i => nth i theta 0) (length theta) ngauss x w p v (fun _ => 0) in
          Array (squeeze (for_ 0 (2 * length theta) (fun i r => mkResult (shape r) (vupd (content r) i (Some (Cabs i)))) (new_array ds)))
      end
  end.
(** l.249-255 *)
Definition py_average_absorption_cross_section : R :=
  let '(x, w, p, v) := grid 20%nat in get_average_absorption_cross_section (py_nmax o) (py_k o) (py_T o) 20 x w p v.
End Methods.
