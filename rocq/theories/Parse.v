(** Models of conversions in src/Utilities.hpp: string_to_integer (108-205), convert<bool> (363-391),
    to_string<bool> (453-459), decompose (697-710).
    Characters are Coq's ascii; a std::string is a list of characters, and value[value.size()] is
    the terminating NUL character; reading beyond it is undefined behaviour (UB). *)
From Coq Require Import List Ascii String ZArith Lia Bool.
Import ListNotations.
Local Open Scope Z_scope.

Notation text := (list ascii) (only parsing).
Definition T (s : string) : text := list_ascii_of_string s.
Definition nul : ascii := "000"%char.
Definition code (c : ascii) : Z := Z.of_nat (nat_of_ascii c).
Definition isdigit (c : ascii) : bool := (48 <=? code c) && (code c <=? 57).
Definition islower_af (c : ascii) : bool := (97 <=? code c) && (code c <=? 102).
Definition isupper_af (c : ascii) : bool := (65 <=? code c) && (code c <=? 70).
Definition isxdigit (c : ascii) : bool := isdigit c || islower_af c || isupper_af c.
Definition tolower (c : ascii) : ascii := if (65 <=? code c) && (code c <=? 90) then ascii_of_nat (Z.to_nat (code c + 32)) else c.

Inductive res (A : Type) := Ok (a : A) | Fails | UB.
Arguments Ok {A}. Arguments Fails {A}. Arguments UB {A}.
Definition bind {A B} (r : res A) (f : A -> res B) : res B := match r with Ok a => f a | Fails => Fails | UB => UB end.

(** an integer type: number of bits and signedness.  Types of fewer than 32 bits are promoted to
    (32-bit) int for arithmetic; uint_fast32_t is the unsigned 64-bit type of x86-64 *)
Record ity := mkTy { bits : Z; signed : bool }.
Definition lo (t : ity) : Z := if signed t then - 2 ^ (bits t - 1) else 0.
Definition hi (t : ity) : Z := if signed t then 2 ^ (bits t - 1) else 2 ^ bits t.
Definition representable (t : ity) (z : Z) : Prop := lo t <= z < hi t.
(** conversion to type t: reduction modulo 2^bits *)
Definition wrap (t : ity) (z : Z) : Z := (z - lo t) mod 2 ^ bits t + lo t.
Definition u64 : ity := mkTy 64 false.
Definition promote (t : ity) : ity := if bits t <? 32 then mkTy 32 true else t.
Definition in_range (t : ity) (z : Z) : bool := (lo t <=? z) && (z <? hi t).
(** a *= b for a of type t and b of type t (or char): arithmetic in the promoted type; signed
    overflow is UB *)
Definition mul (t : ity) (a b : Z) : res Z :=
  let p := promote t in
  if signed p then if in_range p (a * b) then Ok (wrap t (a * b)) else UB
  else Ok (wrap t (a * b)).

Fixpoint skip_spaces (s : text) : text := match s with c :: s' => if Ascii.eqb c " " then skip_spaces s' else s | [] => [] end.
Definition at_ (s : text) (i : nat) : ascii := nth i s nul.
(** 137-148, 164-169: the digit loops; returns the digits (first = most significant) and the rest *)
Definition hexval (c : ascii) : Z := if isdigit c then code c - 48 else 10 + code (tolower c) - 97.
Fixpoint take_hex (s : text) : list Z * text := match s with c :: s' => if isxdigit c then let '(d, r) := take_hex s' in (hexval c :: d, r) else ([], s) | [] => ([], []) end.
Fixpoint take_dec (s : text) : list Z * text := match s with c :: s' => if isdigit c then let '(d, r) := take_dec s' in (code c - 48 :: d, r) else ([], s) | [] => ([], []) end.
(** 156-161, 170-175: ivalue += base * digit, base *= radix, least significant digit first; the sum is
    computed in the unsigned 64-bit type and converted back *)
Definition accumulate (t : ity) (radix : Z) (digits : list Z) : Z :=
  fst (fold_left (fun '(v, base) d => (wrap t (wrap u64 (wrap u64 v + wrap u64 (base * d))), wrap u64 (base * radix))) (rev digits) (0, 1)).
Fixpoint times_ten (t : ity) (n : nat) (v : Z) : res Z := match n with O => Ok v | S n' => bind (mul t v 10) (times_ten t n') end.

(** 108-205 *)
Definition string_to_integer (t : ity) (value : text) : res Z :=
  match value with [] => Fails | _ =>
  match skip_spaces value with [] => Fails | c0 :: tl =>
  let '(sign, s) := if Ascii.eqb c0 "-" then (-1, tl) else (1, c0 :: tl) in
  let x := at_ s 1 in
  if Ascii.eqb (at_ s 0) "0" && (Ascii.eqb x "x" || Ascii.eqb x "X") then
    let '(digits, _) := take_hex (skipn 2 s) in
    match digits with [] => Fails | _ =>
      if (bits t - (if signed t then 1 else 0)) <? Z.of_nat (List.length digits) * 4 then Fails
      else mul t (accumulate t 16 digits) sign
    end
  else
    let '(digits, rest) := take_dec s in
    let ivalue := accumulate t 10 digits in
    bind (match rest with
      | c :: rest' => if Ascii.eqb c "e" || Ascii.eqb c "E" then
            let '(edigits, _) := take_dec rest' in
            let exponent := accumulate u64 10 edigits in
            bind (times_ten t (Z.to_nat exponent) 1) (fun extra_part => mul t ivalue extra_part)
          else Ok ivalue
      | [] => Ok ivalue end)
      (fun ivalue => mul t ivalue sign)
  end end.

(** 363-391 *)
Definition bool_word (s : text) : res bool :=
  if existsb (fun w => if list_eq_dec ascii_dec s (T w) then true else false) ["true"; "yes"; "on"; "y"]%string then Ok true
  else if existsb (fun w => if list_eq_dec ascii_dec s (T w) then true else false) ["false"; "no"; "off"; "n"]%string then Ok false
  else Fails.
Definition to_bool (value : text) : res bool :=
  let v := map tolower value in
  let v := skip_spaces v in       (* 370-374: stops at the terminating NUL *)
  match v with [] => UB           (* 375-378: reads value_copy[size() - 1] of an empty string *)
  | _ => bool_word (rev (skip_spaces (rev v))) end.
(** 453-459 *)
Definition of_bool (b : bool) : text := T (if b then "true" else "false").

(** 697-710, for any integer type: the values stay below the input *)
Fixpoint decompose_ (fuel : nat) (divisor number : Z) : list Z :=
  match fuel with O => [] | S f =>
    if (divisor <=? number) && (1 <? number) then
      if number mod divisor =? 0 then divisor :: decompose_ f divisor (number / divisor) else decompose_ f (divisor + 1) number
    else [] end.
(** at most [number] rounds are needed: every round increases divisor or decreases number *)
Definition decompose (number : Z) : list Z := decompose_ (Z.to_nat number) 2 number.
