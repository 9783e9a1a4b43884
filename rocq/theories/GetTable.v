(** get_table of the Python module (/repo/src/CTMModule.cpp l.146-478) from its arguments to its return value, on top of NumPy.v (reading the
    argument arrays), TaskGraph.v/Physics.v (the task graph and what its tasks compute) and ResultTable.v (the stores into the result arrays).

    Simplifications: numbers are exact; words of the argument arrays that encode infinities or NaN count as 0; the shape, alignment and dust objects
    are functions; the logs and the text output (l.283-288, 294-297, 313-333) are left out; what happens in between (execute_tasks, l.310) is any
    complete run of the scheduler (see the theorems). Allocation never fails. *)
From Verif Require Import ResultTable.
From Coq Require Import List Arith ZArith Lia Bool Reals Floats.SpecFloat.
From Coquelicot Require Import Complex.
From Verif Require Import Clebsch Matrix QMatrix TaskGraph Footprint Whole Physics NumPy.
Import ListNotations.
Local Open Scope R_scope.

(** a double, and a signed 64-bit integer, from its word *)
Definition real_of_word (w : Z) : R := match double w with Some (m, e) => IZR m * powerRZ 2 e | None => 0 end.
Definition int_of_word (w : Z) : Z := if (w <? 2 ^ 63)%Z then w else (w - 2 ^ 64)%Z.

(** the arguments of a call (l.150-230), and what is not modelled further as in Physics.v *)
Record arguments := mkArgs {
  ar_types : ndarray; ar_sizes : ndarray; ar_wavelengths : ndarray; ar_thetas : ndarray;
  ar_shapes : nat; ar_axis : nat -> R; ar_weight : nat -> R;                        (* shape_distribution: number of shapes, axis ratios, weights *)
  ar_aligned : R -> R -> bool; ar_coef : R -> R -> list R;                          (* alignment_distribution *)
  ar_index : R -> R -> Z -> C;                                                      (* dust_properties: wavelength, size, type *)
  ar_min : nat; ar_max : nat; ar_factor : nat; ar_ngauss : nat;
  ar_abs : bool; ar_ext : bool; ar_sca : bool; ar_account : bool;
  ar_rule : nat -> (nat -> R) * (nat -> R); ar_rule_phi : nat -> (nat -> R) * (nat -> R); ar_radial : nat -> radial; ar_round : R -> spec_float;
  ar_pivot : nat -> nat; ar_lapack : nat -> C; ar_cg : list R; ar_junk : (nat -> R) * (nat -> R) }.

(** std::sort of TaskManager.hpp l.458-459; on real numbers every sort gives the same list *)
Fixpoint insert (x : R) (l : list R) : list R := match l with [] => [x] | y :: l' => if Rle_dec x y then x :: l else y :: insert x l' end.
Definition sort (l : list R) : list R := fold_right insert [] l.

(** l.262-292: the values of the four arrays; None: a read outside of an array *)
Definition parse (m : memory) (a : arguments) : option (list Z * list R * list R * list R) :=
  obind (unpack int_of_word m 8 (ar_types a)) (fun types =>
  obind (unpack real_of_word m 8 (ar_sizes a)) (fun sizes =>
  obind (unpack real_of_word m 8 (ar_wavelengths a)) (fun wavelengths =>
  obind (unpack real_of_word m 8 (ar_thetas a)) (fun thetas => Some (types, sizes, wavelengths, thetas))))).

Section Call.
Variable a : arguments.
Variables (types : list Z) (sizes wavelengths thetas : list R).
(** l.258-281, 303-307: the configuration of the TaskManager. The number of slots of the memory manager is left open (see with_slots). *)
Definition config (slots : nat) : cfg :=
  mkCfg (length types) (length sizes) (length wavelengths) (ar_shapes a) (ar_min a) (ar_max a) slots
    (fun k => match k with Ext => ar_ext a | Abs => ar_abs a | Sca => ar_sca a end).
(** positions beyond the end of a list do not occur *)
Definition the_inputs : inputs :=
  mkInputs (fun i => nth i (sort sizes) 1) (fun i => nth i (sort wavelengths) 1) (fun l s g => ar_index a l s (nth g types 0%Z))
    (ar_axis a) (ar_weight a) (ar_aligned a) (ar_coef a) (ar_factor a) (length thetas) (fun i => nth i thetas 0) (ar_ngauss a) (ar_account a)
    (ar_rule a) (ar_rule_phi a) (ar_radial a) (ar_round a) (ar_pivot a) (ar_lapack a) (ar_cg a) (ar_junk a).

(** Accessors of the results after the run [s] of the tasks (AbsorptionCoefficientResult, ExtinctionCoefficientResult, ScatteringMatrixResult):
    None: the result was not computed *)
Definition get (s : cell -> val object) (v : value) : option R :=
  let result k p := match s (DRes k p) with Data (OCoef Q) => Some Q | _ => None end in
  match v with
  | Coef q p t => match q with
    | Qabs => option_map (fun Q => Q 0%nat t) (result Abs p)
    | Qabspol => option_map (fun Q => Q 1%nat t) (result Abs p)
    | Qext => option_map (fun Q => Q 0%nat t) (result Ext p)
    | Qextpol => option_map (fun Q => Q 1%nat t) (result Ext p)
    | Qextcpol => option_map (fun Q => Q 2%nat t) (result Ext p)
    end
  | Zel p d row col => option_map (fun Q => Q (row * 4 + col)%nat d) (result Sca p)
  end.
(** the stores of ResultTable.v, executed; None: a result that does not exist was accessed *)
Fixpoint fill (s : cell -> val object) (l : list store) (r : result R) : option (result R) :=
  match l with
  | [] => Some r
  | (index, v) :: l => obind v (fun v => obind (get s v) (fun x => fill s l (put index x r)))
  end.
Definition first_dims : list nat := [length types; length sizes; length wavelengths; length thetas; ResultTable.n_col (ar_ext a) (ar_abs a)].
Definition second_dims : list nat := [length types; length sizes; length wavelengths; length thetas; (2 * length thetas)%nat; 4; 4]%nat.
Inductive answer := Null | One (r : result R) | Two (r1 r2 : result R).
(** l.344-477, with the results in the order in which generate_tasks stored them; outer None: undefined behaviour *)
Definition give (results : list res) (s : cell -> val object) : option answer :=
  let C_ := length types in let S_ := length sizes in let W_ := length wavelengths in let T_ := length thetas in
  let first := fill s (first_stores C_ S_ W_ T_ results (ar_ext a) (ar_abs a) (ar_sca a)) (new_array first_dims) in
  let second := fill s (second_stores C_ S_ W_ T_ results (ar_ext a) (ar_abs a) (ar_sca a)) (new_array second_dims) in
  if ar_abs a || ar_ext a then
    obind first (fun r1 => if ar_sca a then obind second (fun r2 => Some (Two (squeeze r1) (squeeze r2))) else Some (One (squeeze r1)))
  else if ar_sca a then obind second (fun r2 => Some (One (squeeze r2))) else Some Null.
End Call.
