(** Model of the Python shape distributions: PyShapeDistribution.hpp (l.50-303), with the parsing of their arguments by PyArg_ParseTupleAndKeywords. *)
From Coq Require Import ZArith Reals Lra List Arith String.
From Verif Require Import Parse Yaml Shape.
Import ListNotations.
Local Open Scope string_scope.
Local Open Scope R_scope.

(** a Python argument: an integer, a floating point number or anything else.
    Simplifications: the values of doubles are real numbers; integers beyond the range of doubles (refused by the format d), objects with __float__ or __index__ and bool are left out *)
Inductive pyvalue := PyInt (n : Z) | PyFloat (x : R) | PyOther.
Inductive number := Unsigned (n : Z) | Real (x : R).
(** the format I: an unsigned int "without overflow checking" (the documentation of PyArg_ParseTuple) *)
Definition format_I (v : pyvalue) : option number := match v with PyInt n => Some (Unsigned (n mod 2 ^ 32)) | _ => None end.
(** the format d *)
Definition format_d (v : pyvalue) : option number := match v with PyInt n => Some (Real (IZR n)) | PyFloat x => Some (Real x) | PyOther => None end.

(** one entry of kwlist with its letter in the format string, and the value of the variable before the call (None: in front of the sign |, required) *)
Record slot := mkSlot { name : text; format : pyvalue -> option number; initial : option number }.
(** PyArg_ParseTupleAndKeywords (CPython): for each entry of kwlist, the next positional argument, else the keyword argument of this name, else the variable keeps its value; too many arguments, and
    keywords that were not used, are refused. Simplification: CPython counts the keywords that were used, here they are taken away (the keywords of one call are different). *)
Fixpoint parse_arguments (kwlist : list slot) (args : list pyvalue) (kwargs : list (text * pyvalue)) : option (list number) :=
  match kwlist with
  | [] => match args, kwargs with [], [] => Some [] | _, _ => None end
  | s :: rest =>
      match args with
      | a :: args' =>
          match format s a, parse_arguments rest args' kwargs with Some v, Some l => Some (v :: l) | _, _ => None end
      | [] =>
          match List.find (fun p => text_eqb (fst p) (name s)) kwargs with
          | Some p =>
              match format s (snd p), parse_arguments rest [] (filter (fun q => negb (text_eqb (fst q) (name s))) kwargs) with Some v, Some l => Some (v :: l) | _, _ => None end
          | None => match initial s, parse_arguments rest [] kwargs with Some v, Some l => Some (v :: l) | _, _ => None end
          end
      end
  end.

(** the wrapped C++ object: SingleShapeShapeDistribution(axis_ratio), or DraineHensleyShapeDistribution with its number of points and its limits *)
Inductive object := Single (axis_ratio : R) | DraineHensley (npoints : Z) (minimum maximum : R).
(** how __init__ ends: with a new wrapped object, with wrong arguments (exit code 1), in a failed assertion (the process is aborted), or not within [fuel] rounds *)
Inductive ending := Created (o : object) | WrongArguments | Aborted | Unfinished.

(** l.138-173 *)
Definition init_single (args : list pyvalue) (kwargs : list (text * pyvalue)) : ending :=
  match parse_arguments [mkSlot (T "axis_ratio") format_d None] args kwargs with
  | Some [Real axis_ratio] => Created (Single axis_ratio)
  | _ => WrongArguments
  end.
(** DraineHensleyShapeDistribution.hpp l.230-382; the quadrature points follow from npoints and the limits (Shape.evaluate) *)
Definition draine_hensley_range (asserts : bool) (fuel : nat) (quad : R -> R -> R) (cutoff fraction : R) : option built :=
  if Rlt_dec 0 fraction then check asserts _ (Rlt_dec fraction 1) (fraction_range fuel quad fraction) else cutoff_range asserts fuel cutoff.
(** l.228-273; the default values of l.231-233 *)
Definition init_draine_hensley (asserts : bool) (fuel : nat) (quad : R -> R -> R) (args : list pyvalue) (kwargs : list (text * pyvalue)) : ending :=
  match parse_arguments [mkSlot (T "npoints") format_I (Some (Unsigned 20)); mkSlot (T "cutoff") format_d (Some (Real 0.15)); mkSlot (T "fraction") format_d (Some (Real (-1)))] args kwargs with
  | Some [Unsigned npoints; Real cutoff; Real fraction] =>
      match draine_hensley_range asserts fuel quad cutoff fraction with
      | Some (Range minimum maximum) => Created (DraineHensley npoints minimum maximum)
      | Some Assertion => Aborted
      | None => Unfinished
      end
  | _ => WrongArguments
  end.

(** the pointer _shape_distribution: l.83-91 (new), and l.170 and l.269 (the former object, if any, is not deleted) *)
Definition new_object : option object := None.
Definition after_init (pointer : option object) (e : ending) : option object := match e with Created o => Some o | _ => pointer end.
(** l.101-110: get_limits; None is a call through a null pointer. SingleShapeShapeDistribution.hpp l.56-63, DraineHensleyShapeDistribution.hpp l.397-414 *)
Definition get_limits (pointer : option object) : option (R * R) :=
  match pointer with None => None | Some (Single a) => Some (a, a) | Some (DraineHensley _ minimum maximum) => Some (minimum, maximum) end.
(** ShapeDistribution.hpp l.113: the number of shapes in the calculation *)
Definition number_of_points (o : object) : Z := match o with Single _ => 1 | DraineHensley n _ _ => n end.
