(** Model of src/YAMLDictionary.hpp: the parser (64-251), print_contents (270-358) and the lookup
    functions (368-372, 404-554).
    A std::string is a list of characters, a std::map is the list of its entries sorted by key
    (std::string compares characters as unsigned), and the vectors [levels] and [groupname] of the
    parser are lists with the last element first.  getline is modelled by splitting the whole text
    at the newlines.  ctm_error is [Fails]. *)
From Coq Require Import List Ascii String ZArith Lia Bool Arith.
From Verif Require Import Parse.
Import ListNotations.
Local Open Scope nat_scope.

Definition newline : ascii := "010"%char.
Definition tab : ascii := "009"%char.
Definition blank (c : ascii) : bool := Ascii.eqb c " " || Ascii.eqb c tab.
Definition text_eqb (a b : text) : bool := if list_eq_dec ascii_dec a b then true else false.

(** std::map<std::string, std::string> *)
Fixpoint compare_text (a b : text) : comparison :=
  match a, b with
  | [], [] => Eq | [], _ => Lt | _, [] => Gt
  | x :: a', y :: b' => match Nat.compare (nat_of_ascii x) (nat_of_ascii y) with Eq => compare_text a' b' | o => o end
  end.
Definition dict := list (text * text).
Fixpoint put (k v : text) (d : dict) : dict :=
  match d with
  | [] => [(k, v)]
  | (k', v') :: d' => match compare_text k k' with Lt => (k, v) :: d | Eq => (k, v) :: d' | Gt => (k', v') :: put k v d' end
  end.
Fixpoint find (k : text) (d : dict) : option text :=
  match d with [] => None | (k', v) :: d' => if text_eqb k k' then Some v else find k d' end.

(** getline: the pieces between newlines *)
Fixpoint lines (s : text) : list text :=
  match s with
  | [] => []
  | c :: s' => if Ascii.eqb c newline then [] :: lines s'
               else match lines s' with [] => [[c]] | l :: ls => (c :: l) :: ls end
  end.
Fixpoint skip_blanks (s : text) : text := match s with c :: s' => if blank c then skip_blanks s' else s | [] => [] end.
(** 64-77, 86-93: comment lines and empty lines *)
Definition is_comment_line (l : text) : bool := match skip_blanks l with [] => false | c :: _ => Ascii.eqb c "#" end.
Definition is_empty_line (l : text) : bool := match skip_blanks l with [] => true | _ => false end.
(** 100-105: everything from the first # on is dropped *)
Fixpoint strip_comments (l : text) : text := match l with c :: l' => if Ascii.eqb c "#" then [] else c :: strip_comments l' | [] => [] end.
(** 114-125: the number of leading blanks and tabs, 0 for a line without other characters *)
Definition indentation (l : text) : nat := match skip_blanks l with [] => 0 | r => List.length l - List.length r end.
(** 150-164 *)
Definition strip (l : text) : text := rev (skip_blanks (rev (skip_blanks l))).
(** 133-143: the text before and after the first colon *)
Fixpoint cut_colon (l : text) : option (text * text) :=
  match l with [] => None | c :: l' => if Ascii.eqb c ":" then Some ([], l') else
    match cut_colon l' with Some (a, b) => Some (c :: a, b) | None => None end end.
Definition read_pair (l : text) : res (text * text) :=
  match cut_colon l with None => Fails | Some (a, b) => Ok (strip a, strip b) end.

Record pstate := mkP { levels : list nat; groups : list text; entries : dict }.
Definition pstate0 : pstate := mkP [] [] [].
(** 200-206: levels.back() of an empty vector is undefined behaviour *)
Fixpoint pop (ind : nat) (ls : list nat) (gs : list text) : res (list nat * list text) :=
  match ls with
  | [] => UB
  | l :: ls' => if ind <? l then match gs with [] => UB | _ :: gs' => pop ind ls' gs' end else Ok (ls, gs)
  end.
(** 234-238: [groups] loses as many elements as there are levels *)
Definition clear (ls : list nat) (gs : list text) : res (list text) :=
  if List.length gs <? List.length ls then UB else Ok (skipn (List.length ls) gs).
(** 218-224: the full name, group names first *)
Definition full_key (gs : list text) (k : text) : text := List.concat (map (fun g => g ++ [":"%char]) (rev gs)) ++ k.
Definition store (k v : text) (d : dict) : dict := match v with [] => d | _ => put k v d end.
(** 183-248 *)
Definition parse_line (s : pstate) (line : text) : res pstate :=
  if is_comment_line line || is_empty_line line then Ok s else
  let l := strip_comments line in
  bind (read_pair l) (fun '(k, v) =>
  let ind := indentation l in
  if 0 <? ind then
    bind (match levels s with
      | [] => Ok ([ind], groups s)
      | b :: _ => if b <? ind then Ok (ind :: levels s, groups s) else pop ind (levels s) (groups s)
      end) (fun '(ls, gs) =>
    if negb (List.length ls =? List.length gs) then Fails else
    match v with
    | [] => Ok (mkP ls (k :: gs) (entries s))
    | _ => Ok (mkP ls gs (store (full_key gs k) v (entries s)))
    end)
  else
    if negb (List.length (groups s) =? List.length (levels s)) then Fails else
    bind (clear (levels s) (groups s)) (fun gs =>
    match v with
    | [] => Ok (mkP [] (k :: gs) (entries s))
    | _ => Ok (mkP [] gs (store k v (entries s)))
    end)).
(** 178-251 *)
Fixpoint parse_lines (s : pstate) (ls : list text) : res pstate :=
  match ls with [] => Ok s | l :: ls' => bind (parse_line s l) (fun s' => parse_lines s' ls') end.
Definition parse (t : text) : res dict := bind (parse_lines pstate0 (lines t)) (fun s => Ok (entries s)).

(** 278-287, 340: the groups of a key and the part after its last colon *)
Fixpoint split_key (s : text) : list text * text :=
  match s with
  | [] => ([], [])
  | c :: s' => let '(g, l) := split_key s' in
      if Ascii.eqb c ":" then ([] :: g, l) else match g with [] => ([], c :: l) | g0 :: g' => ((c :: g0) :: g', l) end
  end.
(** 293-297, 318-322: the length of the common beginning *)
Fixpoint common (a b : list text) : nat :=
  match a, b with x :: a', y :: b' => if text_eqb x y then S (common a' b') else 0 | _, _ => 0 end.
(** 302-305: for (j = i; j < groupname.size(); ++j) groupname.pop_back(): the bound shrinks with
    the loop; [pops j n]: number of elements left *)
Fixpoint pops (fuel j n : nat) : nat := match fuel with O => n | S f => if j <? n then pops f (S j) (n - 1) else n end.
Definition indent_text (n : nat) : text := repeat " "%char (2 * n).
(** 307-311, 332-336 *)
Fixpoint group_lines (depth : nat) (gs : list text) : list text :=
  match gs with [] => [] | g :: gs' => (indent_text depth ++ g ++ [":"%char]) :: group_lines (S depth) gs' end.
(** 289-338: the group lines printed and the new contents of groupname (first element first) *)
Definition print_groups (groupname keygroups : list text) : list text * list text :=
  if List.length groupname <? List.length keygroups then
    let i := common groupname keygroups in
    let left := pops (List.length groupname) i (List.length groupname) in
    (group_lines i (skipn i keygroups), firstn left groupname ++ skipn i keygroups)
  else
    let groupname := firstn (List.length keygroups) groupname in
    let i := common groupname keygroups in
    (group_lines i (skipn i keygroups), firstn i groupname ++ skipn i keygroups).
(** 342-356: the text after the key *)
Definition print_value (used : option dict) (key value : text) : text :=
  match used with
  | None => T ": " ++ value
  | Some u => T ": " ++ match find key u with Some w => w | None => T "value not used" end ++ T " # (" ++ value ++ T ")"
  end.
(** 270-358 *)
Fixpoint print_lines (used : option dict) (groupname : list text) (d : dict) : list text :=
  match d with
  | [] => []
  | (key, value) :: d' =>
      let '(keygroups, name) := split_key key in
      let '(out, groupname') := print_groups groupname keygroups in
      out ++ [indent_text (List.length keygroups) ++ name ++ print_value used key value] ++ print_lines used groupname' d'
  end.
Definition print (used : option dict) (d : dict) : text := List.concat (map (fun l => l ++ [newline]) (print_lines used [] d)).

(** lookups: the two maps _dictionary and _used_values *)
Record yaml := mkY { dictionary : dict; used_values : dict }.
(** 368-371 *)
Definition add_value (k v : text) (y : yaml) : yaml := mkY (put k v (dictionary y)) (put k v (used_values y)).
(** 491-494 *)
Definition has_value (k : text) (y : yaml) : bool := match find k (dictionary y) with Some _ => true | None => false end.
(** 507-520: get_value<std::string>(key) *)
Definition get_string (k : text) (y : yaml) : res (text * yaml) :=
  match find k (dictionary y) with None => Fails | Some v => Ok (v, mkY (dictionary y) (put k v (used_values y))) end.
(** 532-554: get_value<std::string>(key, default) *)
Definition sentinel : text := T "default value".
Definition get_string_default (k dv : text) (y : yaml) : text * yaml :=
  match find k (dictionary y) with
  | Some v => if text_eqb v sentinel then (dv, mkY (put k sentinel (dictionary y)) (put k dv (used_values y)))
              else (v, mkY (dictionary y) (put k v (used_values y)))
  | None => (dv, mkY (put k sentinel (dictionary y)) (put k dv (used_values y)))
  end.
Section Typed.
(** Utilities::convert<_datatype_> and Utilities::to_string<_datatype_> *)
Context {A : Type}.
Variables (convert : text -> res A) (show : A -> text).
(** 404-409 *)
Definition get (k : text) (y : yaml) : res (A * yaml) :=
  bind (get_string k y) (fun '(v, y') => bind (convert v) (fun a => Ok (a, mkY (dictionary y') (put k (show a) (used_values y'))))).
(** 427-438 *)
Definition get_default (k : text) (dv : A) (y : yaml) : res (A * yaml) :=
  let '(v, y') := get_string_default k [] y in
  bind (match v with [] => Ok dv | _ => convert v end) (fun a => Ok (a, mkY (dictionary y') (put k (show a) (used_values y')))).
End Typed.
