(** Model of the calls of Python functions by the module: CustomDustProperties::get_refractive_index (/repo/src/PyDustProperties.hpp l.289-353),
    CustomOrientationDistribution::operator() (/repo/src/PyOrientationDistribution.hpp l.525-581), the loop of TaskManager::generate_tasks that asks for the
    refractive indices (/repo/src/TaskManager.hpp l.457-459, l.976-996) and get_refractive_index of the Python objects (PyDustProperties.hpp l.108-145).

    A function may return anything and may depend on the calls before. Simplifications: numbers are exact; words that encode infinities or NaN count as 0. *)
From Coq Require Import List ZArith Bool Reals.
From Coquelicot Require Import Complex.
From Verif Require Import Clebsch NumPy GetTable.
Import ListNotations.

(** element types of NumPy arrays *)
Inductive dtype := Half | Single | Double | LongDouble | Complex64 | Complex128 | ComplexLong | Integers.
(** PyArray_ISCOMPLEX, PyArray_ISFLOAT *)
Definition is_complex (t : dtype) : bool := match t with Complex64 | Complex128 | ComplexLong => true | _ => false end.
Definition is_float (t : dtype) : bool := match t with Half | Single | Double | LongDouble => true | _ => false end.
(** what a call returns *)
Inductive returned :=
| Raises                                  (* an exception: nullptr *)
| Complex (z : C)                         (* an object of the type complex *)
| ComplexKind (z : C)                     (* an object of a type derived from complex, for example numpy.complex128 *)
| Float (x : R)                           (* an object of the type float or derived from it, for example numpy.float64 *)
| Scalar (t : dtype) (address : Z)        (* a NumPy array without dimensions *)
| Array                                   (* another NumPy array *)
| Something.                              (* any other object *)
Inductive ending (A : Type) := Value (a : A) | NullPointer | Aborts | OutOfBounds.
Arguments Value {A}. Arguments NullPointer {A}. Arguments Aborts {A}. Arguments OutOfBounds {A}.

(** PyDustProperties.hpp l.313-352; [m]: the memory *)
Definition as_index (m : memory) (r : returned) : ending C :=
  match r with
  | Raises => NullPointer                                                           (* a warning, then result->ob_type *)
  | Complex z => Value z                                                            (* l.343-347 *)
  | ComplexKind _ | Float _ | Something => Aborts                                   (* strcmp(tp_name, "complex"), l.339-342 *)
  | Array => Aborts                                                                 (* l.326-329 *)
  | Scalar t a =>
      if is_complex t then
        match load m 8 a, load m 8 (a + 8) with Some u, Some v => Value (real_of_word u, real_of_word v) | _, _ => OutOfBounds end   (* l.336-338 *)
      else Aborts
  end.
(** PyOrientationDistribution.hpp l.543-580 *)
Definition as_density (m : memory) (r : returned) : ending R :=
  match r with
  | Raises => NullPointer
  | Float x => Value x                                                              (* PyFloat_Check, l.572-575 *)
  | Complex _ | ComplexKind _ | Something | Array => Aborts
  | Scalar t a => if is_float t then match load m 8 a with Some u => Value (real_of_word u) | None => OutOfBounds end else Aborts
  end.

(** the arguments of a call: Py_BuildValue "(ddi)" or "(ddiO)", l.301-307 *)
Record call (O : Type) := mkCall { c_wavelength : R; c_size : R; c_type : Z; c_extra : option O }.
Arguments mkCall {O}. Arguments c_wavelength {O}. Arguments c_size {O}. Arguments c_type {O}. Arguments c_extra {O}.
(** const int grain_type_i = grain_type (l.297): 32 bits *)
Definition int32 (g : Z) : Z := let w := (g mod 2 ^ 32)%Z in if (w <? 2 ^ 31)%Z then w else (w - 2 ^ 32)%Z.

Section Calls.
Variable O : Type.
(** the function: the calls before (last first) and this call *)
Variable f : list (call O) -> call O -> returned.
Variable extra : option O.
Variable m : memory.
(** one call: the calls so far with this one, and the value *)
Definition get_refractive_index (before : list (call O)) (wavelength size : R) (type : Z) : list (call O) * ending C :=
  let c := mkCall wavelength size (int32 type) extra in (c :: before, as_index m (f before c)).
(** the values asked for in this order; stops when the program stops *)
Fixpoint ask_all (before : list (call O)) (l : list (R * R * Z)) : list (call O) * ending (list C) :=
  match l with
  | [] => (before, Value [])
  | (wavelength, size, type) :: l =>
      let '(calls, v) := get_refractive_index before wavelength size type in
      match v with
      | Value z => let '(calls, vs) := ask_all calls l in (calls, match vs with Value zs => Value (z :: zs) | NullPointer => NullPointer | Aborts => Aborts | OutOfBounds => OutOfBounds end)
      | NullPointer => (calls, NullPointer) | Aborts => (calls, Aborts) | OutOfBounds => (calls, OutOfBounds)
      end
  end.
(** TaskManager.hpp l.976-996, on the sorted arrays (l.458-459) *)
Definition queries (types : list Z) (sizes wavelengths : list R) : list (R * R * Z) :=
  flat_map (fun g => flat_map (fun s => map (fun l => (l, s, g)) (sort wavelengths)) (sort sizes)) types.
Definition generate_indices (types : list Z) (sizes wavelengths : list R) : list (call O) * ending (list C) := ask_all [] (queries types sizes wavelengths).
(** PyDustProperties.hpp l.108-145: the Python method, get_refractive_index(type, size, wavelength); the type is an int *)
Definition method (before : list (call O)) (type : Z) (size wavelength : R) : list (call O) * ending C := get_refractive_index before wavelength size type.
End Calls.
Arguments get_refractive_index {O}. Arguments ask_all {O}. Arguments generate_indices {O}. Arguments method {O}.

(** get_table with a CustomDustProperties object whose function [g] does not depend on the calls before: the argument record of GetTable.v. Where the program would stop,
    the value is not used (see the theorems) *)
Definition with_function {O} (g : call O -> returned) (extra : option O) (m : memory) (a : arguments) : arguments :=
  mkArgs (ar_types a) (ar_sizes a) (ar_wavelengths a) (ar_thetas a) (ar_shapes a) (ar_axis a) (ar_weight a) (ar_aligned a) (ar_coef a)
    (fun l s t => match snd (get_refractive_index (fun _ => g) extra m [] l s t) with Value z => z | _ => RtoC 0 end)
    (ar_min a) (ar_max a) (ar_factor a) (ar_ngauss a) (ar_abs a) (ar_ext a) (ar_sca a) (ar_account a) (ar_rule a) (ar_rule_phi a) (ar_radial a) (ar_round a)
    (ar_pivot a) (ar_lapack a) (ar_cg a) (ar_junk a).
