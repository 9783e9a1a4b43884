(** Model of the command line program, /repo/src/CosTuuM.cpp l.57-193, with ParameterFile.cpp l.41-68, YAMLDictionary.hpp get_physical_value
    (l.471-483), and Matrix::binary_dump (Matrix.hpp l.156-171).

    Simplifications: of the text on the screen only the eight lines with the two matrices are modelled, without the prefix of ctm_warning; a file that is written replaces the file of that name (a failure to open it for writing
    is not noticed by the program); the arithmetic is that of Units.v, PyTMatrix.v and Frames.v (exact), numbers in texts are those of NumText.v. *)
From Coq Require Import List Ascii String ZArith Bool Reals Floats.SpecFloat.
From Coquelicot Require Import Complex.
From Verif Require Import QMatrix TClass Frames PyTMatrix Parse Yaml Units CmdLine NumText.
Import ListNotations.

(* ------------------------------------------------------------ parameters *)
(** What the program asks for: a physical quantity with a default in text form, or a value of one of four types *)
Inductive parameter := Physical (q : quantity) (default : text) | Flag (default : bool) | Complex (default : C) | Real (default : R) | Count (default : Z).
Inductive pvalue := VReal (x : R) | VFlag (b : bool) | VComplex (z : C) | VCount (n : Z).
(** CosTuuM.cpp l.83-138, in this order *)
Definition requests : list (string * parameter) := [
  ("DustParticle:size", Physical LENGTH (T "10. micron"));
  ("DustParticle:is equal volume sphere radius", Flag true);
  ("DustParticle:refractive index", Complex (1.5, 0.02)%R);
  ("DustParticle:axis ratio", Real 0.5);
  ("Radiation:incoming wavelength", Physical LENGTH (T "6.283185307 micron"));
  ("Calculation:tolerance", Real 1e-4);
  ("Calculation:Gauss Legendre factor", Count 2);
  ("Calculation:maximum order", Count 200);
  ("Calculation:maximum number of Gauss Legendre points", Count 500);
  ("DustParticle:alpha angle", Physical ANGLE (T "145. degrees"));
  ("DustParticle:beta angle", Physical ANGLE (T "52. degrees"));
  ("Radiation:incoming theta", Physical ANGLE (T "56. degrees"));
  ("Radiation:incoming phi", Physical ANGLE (T "114. degrees"));
  ("Radiation:outgoing theta", Physical ANGLE (T "65. degrees"));
  ("Radiation:outgoing phi", Physical ANGLE (T "128. degrees")) ]%string.

Section Program.
(** texts for infinities, NaN, hexadecimal numbers and numbers outside of the range of doubles: NumText.v *)
Variable other : text -> res (R * text).

(** YAMLDictionary.hpp l.471-483 *)
Definition get_physical (q : quantity) (k dv : text) (y : yaml) : res (R * yaml) :=
  let '(s, y') := get_string_default k dv y in
  bind (split_value other s) (fun '(v, unit) => bind (to_SI q v unit) (fun x =>
    Ok (x, mkY (dictionary y') (put k (show_double x ++ T " " ++ T (SI_unit_name q)) (used_values y'))))).
Definition as_ {A} (f : A -> pvalue) (r : res (A * yaml)) : res (pvalue * yaml) := bind r (fun '(a, y) => Ok (f a, y)).
Definition ask (k : text) (p : parameter) (y : yaml) : res (pvalue * yaml) :=
  match p with
  | Physical q dv => as_ VReal (get_physical q k dv y)
  | Flag b => as_ VFlag (get_default to_bool of_bool k b y)
  | Complex z => as_ VComplex (get_default (to_complex other) show_complex k z y)
  | Real x => as_ VReal (get_default (to_double other) show_double k x y)
  | Count n => as_ VCount (get_default (string_to_integer u64) show_count k n y)
  end.
Fixpoint ask_all (l : list (string * parameter)) (y : yaml) : res (list pvalue * yaml) :=
  match l with
  | [] => Ok ([], y)
  | (k, p) :: l => bind (ask (T k) p y) (fun '(v, y) => bind (ask_all l y) (fun '(vs, y) => Ok (v :: vs, y)))
  end.

(* ------------------------------------------------------------ files *)
(** Matrix.hpp l.160-168: a 32-bit number as it lies in memory *)
Definition le32 (n : Z) : list Z := [n mod 256; n / 256 mod 256; n / 65536 mod 256; n / 16777216 mod 256]%Z.
(** l.156-171: [size] is sizeof(DATA_TYPE), [encode] gives the bytes of an element; _array[i * columns + j] is element (i, j) *)
Definition binary_dump (size : Z) (encode : R -> list Z) (rows columns : nat) (array : list R) : list Z :=
  le32 (Z.of_nat rows) ++ le32 (Z.of_nat columns) ++ le32 size ++ flat_map encode array.
(** Matrix.hpp: the array of a matrix *)
Definition array_of (rows columns : nat) (M : nat -> nat -> R) : list R := flat_map (fun i => map (M i) (seq 0 columns)) (seq 0 rows).
Inductive content := Text (t : text) | Bytes (b : list Z).
(** ParameterFile.cpp l.63-68; [stamp] is Utilities::get_timestamp() *)
Definition print_contents (stamp : text) (y : yaml) : text := T "# file written on " ++ stamp ++ T "." ++ newline :: print (Some (used_values y)) (dictionary y).

(* ------------------------------------------------------------ main *)
(** CosTuuM.cpp l.66-70 *)
Definition options : list cloption :=
  [ help_option; mkOpt (T "params") "p" StringArgument [] true; mkOpt (T "output") "o" StringArgument [] true ].
(** how a run ends: exit status; std::abort after an error message; undefined behaviour; or the fault of the calculation *)
(** how a run ends; [Finished]: return 0 after these lines were shown (l.163-184; %g has six digits, as the streams of NumText.v) *)
Inductive ending := Status (code : nat) | Finished (lines : list text) | Error | Undefined_ | Fault (f : fault).
Variables prec emax : Z.
Variable round : R -> spec_float.
Variable radials : nat -> radial.
Variable rule : nat -> (nat -> R) * (nat -> R).
Variable size : Z.
Variable encode : R -> list Z.
Variables norm_int norm_double : text -> res text.

(** l.151-186: the matrices Z and K of l.162-163 and 174-175 *)
Definition compute (vs : list pvalue) : ended ((nat -> nat -> R) * (nat -> nat -> R)) :=
  match vs with
  | [VReal axi; VFlag volume; VComplex mr; VReal axis_ratio; VReal wavelength; VReal tolerance; VCount ndgs; VCount maximum_order; VCount maximum_ngauss;
     VReal alpha; VReal beta; VReal theta_in; VReal phi_in; VReal theta_out; VReal phi_out] =>
      let ratio_of_radii := (if volume then 1 else 0.1)%R in                                             (* l.87-91 *)
      match calculate prec emax round radials rule ratio_of_radii axis_ratio axi wavelength (Z.to_nat maximum_order) (round tolerance) (Z.to_nat ndgs) mr (Z.to_nat maximum_ngauss) with
      | Faulty f => Faulty f
      | Done (p, T) =>
          let k := (2 * PI / wavelength)%R in
          Done (get_scattering_matrix (p_nmax p) k T alpha beta theta_in phi_in theta_out phi_out, get_extinction_matrix (p_nmax p) k T alpha beta theta_in phi_in)
      end
  | _ => Faulty Asserts                                                                                (* not reached: the types of the requests *)
  end.
(** l.57-193: the files written, in this order, and the end of the program. [files] are the contents of the files that can be read. *)
Definition matrix_lines (name : string) (M : nat -> nat -> R) : list text :=
  map (fun i => T name ++ T "[" ++ show_count (Z.of_nat i) ++ T ",:] = " ++ show_double (M i 0%nat) ++ T " " ++ show_double (M i 1%nat) ++ T " " ++ show_double (M i 2%nat) ++ T " " ++ show_double (M i 3%nat)) [0; 1; 2; 3]%nat.
Definition main (files : text -> option text) (stamp : text) (argv : list text) : list (text * content) * ending :=
  match parse_arguments norm_int norm_double options argv with
  | Exit c => ([], Status c) | Abort => ([], Error) | Undefined => ([], Undefined_)
  | Parsed d _ =>
      match find (T "params") d, find (T "output") d with
      | Some params, Some output =>
          match files params with
          | None => ([], Error)                                                                        (* ParameterFile.cpp l.44-46 *)
          | Some t =>
              match bind (parse t) (fun d => ask_all requests (mkY d [])) with
              | Fails => ([], Error) | UB => ([], Undefined_)
              | Ok (vs, y) =>
                  let used := (T "parameters-usedvalues.param", Text (print_contents stamp y)) in       (* l.142-144 *)
                  match compute vs with
                  | Faulty f => ([used], Fault f)
                  | Done (Z_, K) => ([used; (output, Bytes (binary_dump size encode 4 4 (array_of 4 4 K)))], Finished (matrix_lines "Z" Z_ ++ matrix_lines "K" K))  (* l.186 *)
                  end
              end
          end
      | _, _ => ([], Error)                                                                            (* std::map::at throws; not reached *)
      end
  end.
End Program.
