(** Model of src/CommandLineParser.cpp (39-85, 121-195) and src/CommandLineOption.cpp (66-85, 185-250).
    argv is a list of texts without the program name.  The help text written before exit is not
    modelled (and neither is its conversion of the default values). *)
From Coq Require Import List Ascii String ZArith Lia Bool Arith.
From Verif Require Import Parse Yaml.
Import ListNotations.
Local Open Scope nat_scope.

Inductive argtype := NoArgument | IntArgument | DoubleArgument | StringArgument.
Record cloption := mkOpt { long_name : text; short_name : ascii; argument : argtype; default : text; required : bool }.

Section CmdLine.
(** Utilities::to_string<T>(Utilities::convert<T>(s)) for int_fast32_t and double *)
Variables (norm_int norm_double : text -> res text).

(** CommandLineOption.cpp 195-197 *)
Definition opt_matches (o : cloption) (name : text) : bool :=
  text_eqb name (long_name o) || match name with [c] => Ascii.eqb c (short_name o) | _ => false end.
(** CommandLineOption.cpp 206-240 *)
Definition parse_argument (o : cloption) (arg : text) : res text :=
  let given := match arg with [] => default o | _ => arg end in
  match argument o with
  | NoArgument => Ok (T "true")
  | IntArgument => norm_int given
  | DoubleArgument => norm_double given
  | StringArgument => Ok given
  end.
(** CommandLineOption.cpp 66-85, 248-250 *)
Definition default_value (o : cloption) : res text :=
  match default o with [] => Ok [] | _ =>
  match argument o with
  | NoArgument => bind (to_bool (default o)) (fun b => Ok (of_bool b))
  | IntArgument => norm_int (default o)
  | DoubleArgument => norm_double (default o)
  | StringArgument => Ok (default o)
  end end.

(** CommandLineParser.cpp 39-46 *)
Definition help_option : cloption := mkOpt (T "help") "h" NoArgument (T "false") false.
(** CommandLineParser.cpp 63-85: ctm_error for the reserved names, a warning for a known name *)
Definition add_option (o : cloption) (opts : list cloption) : res (list cloption) :=
  if text_eqb (long_name o) (T "help") || Ascii.eqb (short_name o) "h" then Fails
  else if existsb (fun p => text_eqb (long_name p) (long_name o)) opts then Ok opts else Ok (opts ++ [o]).

Inductive outcome := Exit (code : nat) | Abort | Undefined | Parsed (values : dict) (found : list (text * bool)).
Definition dash_first (s : text) : bool := match s with c :: _ => Ascii.eqb c "-" | [] => false end.
(** 139-142 *)
Fixpoint cut_equals (s : text) : option (text * text) :=
  match s with [] => None | c :: s' => if Ascii.eqb c "=" then Some ([], s') else
    match cut_equals s' with Some (a, b) => Some (c :: a, b) | None => None end end.
(** 150-153 *)
Fixpoint skip_dashes (s : text) : text := match s with c :: s' => if Ascii.eqb c "-" then skip_dashes s' else s | [] => [] end.
(** 156-171 *)
Definition set_option (opts : list cloption) (name arg : text) (d : dict) : outcome + dict :=
  match List.find (fun o => opt_matches o name) opts with
  | None => inl (Exit 1)
  | Some o => match parse_argument o arg with
      | Fails => inl Abort | UB => inl Undefined
      | Ok [] => inl (Exit 1)
      | Ok v => inr (put (long_name o) v d) end
  end.
(** 121-173: the argument loop *)
Fixpoint arguments (opts : list cloption) (argv : list text) (d : dict) : outcome + dict :=
  match argv with
  | [] => inr d
  | a :: rest =>
      if negb (dash_first a) then inl (Exit 1)
      else if text_eqb a (T "--help") || text_eqb a (T "-h") then inl (Exit 0)
      else match cut_equals a with
      | Some (name, arg) => match set_option opts (skip_dashes name) arg d with inl x => inl x | inr d' => arguments opts rest d' end
      | None => match rest with
          | b :: rest' => if negb (dash_first b)
              then match set_option opts (skip_dashes a) b d with inl x => inl x | inr d' => arguments opts rest' d' end
              else match set_option opts (skip_dashes a) [] d with inl x => inl x | inr d' => arguments opts rest d' end
          | [] => match set_option opts (skip_dashes a) [] d with inl x => inl x | inr d' => inr d' end
          end
      end
  end.
(** 177-194: defaults *)
Fixpoint fill (opts : list cloption) (d : dict) (found : list (text * bool)) : outcome :=
  match opts with
  | [] => Parsed d found
  | o :: opts' => match find (long_name o) d with
      | Some _ => fill opts' d ((long_name o, true) :: found)
      | None => if required o then Exit 1 else match default_value o with
          | Fails => Abort | UB => Undefined
          | Ok v => fill opts' (put (long_name o) v d) ((long_name o, false) :: found) end
      end
  end.
Definition parse_arguments (opts : list cloption) (argv : list text) : outcome :=
  match arguments opts argv [] with inl x => x | inr d => fill opts d [] end.
(** CommandLineParser.hpp 273-281, 122; std::map::at of an unknown option throws *)
Definition value_of (o : outcome) (name : text) : option text := match o with Parsed d _ => find name d | _ => None end.
Definition was_found (o : outcome) (name : text) : option bool :=
  match o with Parsed _ f => match List.find (fun e => text_eqb (fst e) name) f with Some (_, b) => Some b | None => None end | _ => None end.
End CmdLine.
