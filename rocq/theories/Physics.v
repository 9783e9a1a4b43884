(** The numerical kernels of one run of the task graph, put together from the models of the single functions: an instance of the
    record [kernels] of Whole.v. What is new here is which object feeds which computation, as wired by
    TaskManager::generate_tasks (/repo/src/TaskManager.hpp l.485-1320).

    Simplifications: those of the models that are used (exact real and complex numbers; [round] is any function that maps the exact
    efficiency factors to the floating point numbers the convergence test compares; the points and weights of the Gauss-Legendre rules
    and the Bessel functions are parameters; previous contents of arrays are arbitrary but fixed). A zero pivot makes the inversion
    produce NaN in the code; here the block keeps its content, and the theorems of Props_physics.v assume it does not occur. *)
From Coq Require Import List ZArith Arith Lia Bool Reals Lra Floats.SpecFloat.
From Coquelicot Require Import Complex.
From Verif Require Import Matrix Props_matrix Wigner Align Average QMatrix Ebcm EbcmFacts Props_tmatrix Optics TClass Observables TaskGraph Whole.
Import ListNotations.
Open Scope R_scope.

(** Contents of an object. *)
Inductive object :=
| ONone                                                                  (* not computed *)
| OVars (R_V wavelength : R) (refractive_index : C)                      (* InteractionVariables *)
| ONfac (a : nat -> nat -> R)                                            (* NBasedResources: ann, by order *)
| OGauss (x w : nat -> R) (sinv s2inv : nat -> R)                        (* GaussBasedResources *)
| OWig (d : nat -> nat -> nat -> R * R)                                  (* WignerDResources: m, point, index *)
| OGeom (r2 dr_over_r : nat -> R)                                        (* ParticleGeometryResource; r is sqrt r2 *)
| OInter (j y dj dy : nat -> nat -> R) (jm djm : nat -> nat -> C) (rinv : nat -> R) (rminv : nat -> C)   (* InteractionResource *)
| OBlock (T : cmat)                                                      (* T[m] of a TMatrixResource *)
| OGrid (g0 g1 : zenith_grid) (h : azimuth_grid) (w v : nat -> R)        (* grids of the observables *)
| OTab (t : wtables * wtables)                                           (* *SpecialWignerDResources *)
| OCoef (q : nat -> nat -> R).                                           (* results: quantity, angle *)

Definition vars_of (o : object) : R * R * C := match o with OVars a l m => (a, l, m) | _ => (0, 0, RtoC 0) end.
Definition ann_of (o : object) : nat -> nat -> R := match o with ONfac a => a | _ => fun _ _ => 0 end.
Definition gauss_of (o : object) : (nat -> R) * (nat -> R) * (nat -> R) * (nat -> R) := match o with OGauss x w s t => (x, w, s, t) | _ => (fun _ => 0, fun _ => 0, fun _ => 0, fun _ => 0) end.
Definition wig_of (o : object) : nat -> nat -> nat -> R * R := match o with OWig d => d | _ => fun _ _ _ => (0, 0) end.
Definition geom_of (o : object) : (nat -> R) * (nat -> R) := match o with OGeom r d => (r, d) | _ => (fun _ => 0, fun _ => 0) end.
Definition block_mat (o : object) : cmat := match o with OBlock T => T | _ => zero_mat end.
Definition coef_of (o : object) : nat -> nat -> R := match o with OCoef q => q | _ => fun _ _ => 0 end.
Definition grid_of (o : object) : zenith_grid * zenith_grid * azimuth_grid * (nat -> R) * (nat -> R) :=
  match o with OGrid g0 g1 h w v => (g0, g1, h, w, v) | _ => (mkZ (fun _ => 0) (fun _ => 0) (fun _ => 0), mkZ (fun _ => 0) (fun _ => 0) (fun _ => 0), mkA (fun _ => 0) (fun _ => 0), fun _ => 0, fun _ => 0) end.
Definition blank_tables : wtables := mkW (fun _ _ _ => 0) (fun _ _ _ => 0).
Definition tab_of (o : object) : wtables * wtables := match o with OTab t => t | _ => (blank_tables, blank_tables) end.

(** What the user passes to the TaskManager and to generate_tasks, and the parts that are not modelled further. *)
Record inputs := mkInputs {
  in_size : nat -> R; in_wavelength : nat -> R;                  (* _sizes, _wavelengths *)
  in_index : R -> R -> nat -> C;                                 (* refractive index: wavelength, size, number of the composition (l.992-994) *)
  in_axis : nat -> R; in_weight : nat -> R;                      (* _shape_distribution.get_shape, get_weight *)
  in_aligned : R -> R -> bool; in_coef : R -> R -> list R;       (* orientation distribution of a size and axis ratio (l.1113-1118): compute_alignment, coefficients *)
  in_factor : nat;                                               (* _gauss_legendre_factor *)
  in_ntheta : nat; in_theta : nat -> R;                          (* angles of the results *)
  in_ngauss : nat; in_account : bool;                            (* absorption: internal quadrature, account_for_scattering *)
  in_rule : nat -> (nat -> R) * (nat -> R);                      (* Gauss-Legendre points and weights on [-1, 1], by number of points *)
  in_rule_phi : nat -> (nat -> R) * (nat -> R);                  (* the same on [0, 2 pi] *)
  in_radial : nat -> radial;                                     (* Bessel functions as computed for a given order *)
  in_round : R -> spec_float;
  in_pivot : nat -> nat; in_lapack : nat -> C; in_cg : list R;   (* contents of the work arrays of a thread *)
  in_junk : (nat -> R) * (nat -> R) }.

Section Kernels.
Variable c : cfg.
Variable I : inputs.

(** l.971-990: the loops over compositions, sizes and wavelengths *)
Definition point_wavelength (p : nat) : R := in_wavelength I (p mod n_wav c)%nat.
Definition point_size (p : nat) : R := in_size I (p / n_wav c mod n_size c)%nat.
Definition point_mr (p : nat) : C := in_index I (point_wavelength p) (point_size p) (p / (n_wav c * n_size c))%nat.
(** l.494-497, 794-797, 883-886 *)
Definition ngauss_of (i : nat) : nat := (o_min c * in_factor I + i * in_factor I)%nat.
Definition order_no (i : nat) : nat := (o_min c + i)%nat.

(** NBasedResources.hpp l.105-135 *)
Definition do_nb : object := ONfac (fun n1 n2 => ann_element (n1 - 1) (n2 - 1)).
(** GaussBasedResources.hpp l.132-152: 2 ngauss points *)
Definition do_gauss (i : nat) : object :=
  let r := in_rule I (2 * ngauss_of i) in
  let g := gauss_inverses (ngauss_of i) (fst r) (in_junk I) in
  OGauss (fst r) (snd r) (fst g) (snd g).
(** WignerDResources.hpp l.150-200; the table is stored when the order is below 100 (TaskManager.hpp l.892) *)
Definition do_wigner (i : nat) (gauss : object) : object :=
  let '(x, _, _, _) := gauss_of gauss in
  OWig (fun m => wigner_of (order_no i <? 100)%nat (ngauss_of i) (order_no i) m x (fun _ _ => (0, 0))).
(** ParticleGeometryResource.hpp l.135-149 *)
Definition do_geometry (is i : nat) (gauss : object) : object :=
  let '(x, _, _, _) := gauss_of gauss in
  let p := get_r_dr_spheroid x (2 * ngauss_of i) (in_axis I is) (in_junk I) in
  OGeom (fst p) (snd p).
(** InteractionResource.hpp l.478-527 *)
Definition do_interaction (i : nat) (vars geometry : object) : object :=
  let '(R_V, wavelength, mr) := vars_of vars in
  let kr := kr_of R_V wavelength (fst (geom_of geometry)) in
  let krmr := krmr_of R_V wavelength mr (fst (geom_of geometry)) in
  let b := in_radial I (order_no i) in
  OInter (fun ig n => jay b n (kr ig)) (fun ig n => why b n (kr ig)) (fun ig n => djay b n (kr ig)) (fun ig n => dwhy b n (kr ig))
         (fun ig n => jayc b n (krmr ig)) (fun ig n => djayc b n (krmr ig)) (fun ig => 1 / kr ig) (fun ig => (RtoC 1 / krmr ig)%C).
(** what a T-matrix task reads from these objects (TMatrixResource.hpp l.604-706, 936-1095) *)
Definition env_of (m : nat) (vars nb gauss geometry inter wig : object) : env :=
  let '(R_V, wavelength, mr) := vars_of vars in
  let '(x, w, s, t) := gauss_of gauss in
  let k2_ := 2 * PI / wavelength * (2 * PI / wavelength) in
  let fill j y dj dy jm djm ri rm :=
    {| weight := w; sinthetainv := s; sintheta2inv := t; r2 := fst (geom_of geometry); dr_over_r := snd (geom_of geometry);
       jkr := j; ykr := y; djkr := dj; dykr := dy; jkrmr := jm; djkrmr := djm; krinv := ri; krmrinv := rm;
       QMatrix.ann := ann_of nb; k2mr := (mr * RtoC k2_)%C; k2 := k2_; wigner := wig_of wig m |} in
  match inter with
  | OInter j y dj dy jm djm ri rm => fill j y dj dy jm djm ri rm
  | _ => fill (fun _ _ => 0) (fun _ _ => 0) (fun _ _ => 0) (fun _ _ => 0) (fun _ _ => RtoC 0) (fun _ _ => RtoC 0) (fun _ => 0) (fun _ => RtoC 0)
  end.
(** l.741-756: the efficiency factors *)
Definition efficiencies (nmax : nat) (T : cmat) : R * R :=
  for_ 1 (nmax + 1) (fun n q =>
    let dn1 := 2 * INR n + 1 in
    let a := T (n - 1)%nat (n - 1)%nat in let b := T (nmax + n - 1)%nat (nmax + n - 1)%nat in
    (fst q + dn1 * ((fst a * fst a + snd a * snd a) + (fst b * fst b + snd b * snd b)), snd q + dn1 * (fst a + fst b))) (0, 0).
(** TMatrixResource.hpp l.592-762 *)
Definition do_m0 (i : nat) (vars nb gauss geometry inter wig : object) : object * spec_float * spec_float :=
  let T := match task_execute (env_of 0 vars nb gauss geometry inter wig) 0 (order_no i) (ngauss_of i) (in_pivot I) (in_lapack I) zero_mat with
           | Some T => T | None => zero_mat end in
  let q := efficiencies (order_no i) T in
  (OBlock T, in_round I (fst q), in_round I (snd q)).
(** l.709-723: only the elements of this order are written *)
Definition do_store (i : nat) (u old : object) : object :=
  OBlock (fun r col => if (r <? 2 * order_no i)%nat && (col <? 2 * order_no i)%nat then block_mat u r col else block_mat old r col).
(** TMatrixResource.hpp l.907-1118 *)
Definition do_mall (m i : nat) (vars nb gauss geometry inter wig old : object) : object :=
  match task_execute (env_of m vars nb gauss geometry inter wig) m (order_no i) (ngauss_of i) (in_pivot I) (in_lapack I) (block_mat old) with
  | Some T => OBlock T | None => old end.

(** the blocks as one T-matrix, and its elements as TMatrixResource::operator() (l.195-213) addresses them *)
Definition mats_of (blocks : list object) : tmats := fun m => block_mat (nth m blocks ONone).
Definition view (nmax : nat) (T : tmats) (i j : bool) (m n1 n2 : Z) : C :=
  t_element nmax T (Nat.b2n i) (Z.to_nat n1) (Z.to_nat m) (Nat.b2n j) (Z.to_nat n2) (Z.to_nat m).
(** AlignmentAverageTask.hpp l.115-215, the block m of the output. Row r of a block belongs to the order and kind given by
    order_of and kind_of (as in TMatrixResource.hpp l.195-213). None: the work array is too small (C60); in the code memory behind it
    is overwritten. *)
Definition do_align (b nmax : nat) (blocks : list object) (m : nat) (old : object) : object :=
  let size := point_size (b / n_shape c)%nat in
  let axis := in_axis I (b mod n_shape c)%nat in
  match execute (in_aligned I size axis) (in_coef I size axis) (Z.of_nat nmax) (view nmax (mats_of blocks)) (in_cg I) (view nmax (fun _ => block_mat old)) with
  | Some (_, out) =>
      let rows := (2 * orders m nmax)%nat in
      OBlock (fun r col => if (r <? rows)%nat && (col <? rows)%nat
        then out (kb (kind_of m nmax r)) (kb (kind_of m nmax col)) (Z.of_nat m) (Z.of_nat (order_of m nmax r)) (Z.of_nat (order_of m nmax col))
        else block_mat old r col)
  | None => old
  end.

(** the grids: ExtinctionCoefficientTask.hpp l.215-228, AbsorptionCoefficientTask.hpp l.242-284, ScatteringMatrixTask.hpp l.163-166 and 224-264
    with the arguments of TaskManager.hpp l.808-838 *)
Definition no_z : zenith_grid := mkZ (fun _ => 0) (fun _ => 0) (fun _ => 0).
Definition no_a : azimuth_grid := mkA (fun _ => 0) (fun _ => 0).
Definition do_grid (k : kind) : object :=
  match k with
  | Ext => OGrid (angle_grid (in_ntheta I) (in_theta I) no_z) no_z no_a (fun _ => 0) (fun _ => 0)
  | Abs =>
      let x := in_rule I (in_ngauss I) in let p := in_rule_phi I (in_ngauss I) in
      let inner := absorption_internal (in_ngauss I) (fst x) (fst p) no_z no_a in
      OGrid (angle_grid (in_ntheta I) (in_theta I) no_z) (fst inner) (snd inner) (snd x) (snd p)
  | Sca =>
      let x := in_rule I (in_ntheta I) in let p := in_rule_phi I (2 * in_ntheta I) in
      OGrid (scattering_in (PI / 2)) (snd (scattering_theta true (in_ntheta I) (fst x) (fun _ => 0) no_z))
            (snd (scattering_phi true (2 * in_ntheta I) (fst p) (fun _ => 0) no_a)) (fun _ => 0) (fun _ => 0)
  end.
(** the tables, for all orders up to the maximum *)
Definition do_tables (k : kind) (grid : object) : object :=
  let '(g0, g1, _, _, _) := grid_of grid in
  match k with
  | Ext => OTab (extinction_tables (o_max c) (in_ntheta I) g0 blank_tables, blank_tables)
  | Abs => OTab (pair_tables (o_max c) (in_ntheta I) (in_ngauss I) g0 g1 (blank_tables, blank_tables))
  | Sca => OTab (pair_tables (o_max c) 1 (in_ntheta I) g0 g1 (blank_tables, blank_tables))
  end.
(** the observables. The k-th component of a result: Qext, Qextpol, Qextcpol; Qabs, Qabspol; the matrix elements (i, j), k = 4 i + j *)
Definition do_coef (k : kind) (vars : object) (nmax : nat) (blocks : list object) (nb grid tables old : object) : object :=
  let '(a, wavelength, _) := vars_of vars in
  let wavenumber := 2 * PI / wavelength in
  let T := mats_of blocks in
  let '(_, _, h, w, v) := grid_of grid in
  let t := tab_of tables in
  let o := coef_of old in
  match k with
  | Ext => let r := extinction_task nmax wavenumber a T (in_ntheta I) (fst t) (mkE (o 0%nat) (o 1%nat) (o 2%nat)) in
           OCoef (fun q => match q with 0 => Qext r | 1 => Qextpol r | 2 => Qextcpol r | _ => o q end)%nat
  | Abs => let r := absorption_task (in_account I) nmax wavenumber a T (in_ntheta I) (in_ngauss I) t w v h (mkQ (o 0%nat) (o 1%nat)) in
           OCoef (fun q => match q with 0 => Qabs r | 1 => Qabspol r | _ => o q end)%nat
  | Sca => let r := scattering_task nmax wavenumber T (in_ntheta I) (2 * in_ntheta I) t h (fun l i j => o (4 * i + j)%nat l) in
           OCoef (fun q l => r l (q / 4)%nat (q mod 4)%nat)
  end.
(** numbers of quantities and of angles or directions *)
Definition n_col (k : kind) : nat := match k with Ext => 3 | Abs => 2 | Sca => 16 end.
Definition n_dir (k : kind) : nat := match k with Sca => in_ntheta I * (2 * in_ntheta I) | _ => in_ntheta I end.
(** ShapeAveragingTask.hpp *)
Definition do_average (k : kind) (l : list object) (old : object) : object :=
  OCoef (shape_average (n_col k) (n_dir k) (map (fun s => (in_weight I (fst s), coef_of (snd s))) (combine (seq 0 (length l)) l)) (coef_of old)).

Definition code : kernels object :=
  mkKernels object ONone (OBlock zero_mat) (fun _ => OCoef (fun _ _ => 0))
    (fun p => OVars (point_size p) (point_wavelength p) (point_mr p))
    do_nb do_gauss do_grid do_tables do_wigner do_geometry do_interaction do_m0 do_store do_mall do_align do_coef do_average.
End Kernels.
