(** Model of numbers in texts: /repo/src/Utilities.hpp convert<double> (l.222-230), convert<std::complex<double>> (l.399-411), to_string of double,
    unsigned integers and complex numbers (l.419-423, 467-471), split_value (l.480-495), with the parts of the C and C++ libraries they call:
    strtod, std::stod, sscanf with %lf, and operator<< for a double in a fresh stream (precision 6, general format).

    Simplifications: a double is the real number it stands for; conversion from decimal is correctly rounded to binary64 ([dbl]). Texts that denote
    infinities, NaN, hexadecimal numbers, or numbers that are not zero and outside of the range of normal doubles are handed to the parameter [other].
    The sign of zero is not kept. sscanf reads a number as strtod does (C libraries differ for an "e" that is not followed by digits). *)
From Coq Require Import List Ascii String ZArith Lia Bool Reals Lra.
From Flocq Require Import Core.
From Coquelicot Require Import Complex.
From Verif Require Import Parse Yaml Units Props_parse.
Import ListNotations.
Local Open Scope Z_scope.

Definition ten : radix := Build_radix 10 eq_refl.
(** rounding to nearest, ties to even, 53 bits, smallest positive number 2^-1074 *)
Definition dbl (v : R) : R := round radix2 (FLT_exp (-1074) 53) ZnearestE v.
(** neither underflow nor overflow *)
Definition normal (v : R) : Prop := v = 0%R \/ (bpow radix2 (-1022) <= Rabs v <= bpow radix2 1023)%R.
Definition normal_dec (v : R) : {normal v} + {~ normal v}.
Proof.
  unfold normal. destruct (Req_EM_T v 0); [left; auto|]. destruct (Rle_dec (bpow radix2 (-1022)) (Rabs v)); [|right; intros [A|[A _]]; auto].
  destruct (Rle_dec (Rabs v) (bpow radix2 1023)); [left; auto | right; intros [A|[_ A]]; auto].
Defined.

(* ---------------------------------------------- reading *)

(** case-insensitive prefix *)
Definition starts (w : string) (s : text) : bool := text_eqb (map tolower (firstn (String.length w) s)) (T w).
Definition exotic (s : text) : bool := starts "inf" s || starts "nan" s || starts "0x" s.
Definition sign_of (s : text) : Z * text :=
  match s with c :: r => if Ascii.eqb c "-" then (-1, r) else if Ascii.eqb c "+" then (1, r) else (1, s) | [] => (1, s) end.
Definition number (ds : list Z) : Z := fold_left (fun a d => a * 10 + d) ds 0.
(** digits, number of digits after the point, and what follows *)
Definition mantissa (s : text) : list Z * Z * text :=
  let '(a, r) := take_dec s in
  match r with
  | c :: r' => if Ascii.eqb c "." then let '(b, r2) := take_dec r' in (a ++ b, Z.of_nat (List.length b), r2) else (a, 0, r)
  | [] => (a, 0, r)
  end.
Definition exponent (s : text) : Z * text :=
  match s with
  | c :: r => if Ascii.eqb c "e" || Ascii.eqb c "E" then
                let '(g, r1) := sign_of r in
                match take_dec r1 with ([], _) => (0, s) | (ds, r2) => (g * number ds, r2) end
              else (0, s)
  | [] => (0, [])
  end.
Section Library.
Variable other : text -> res (R * text).
(** strtod: the number and the text after it; Fails when there is no number *)
Definition strtod (s : text) : res (R * text) :=
  let '(g, s1) := sign_of (snd (span isspace s)) in
  if exotic s1 then other s
  else let '(ds, k, s2) := mantissa s1 in
       match ds with
       | [] => Fails
       | _ => let '(e, s3) := exponent s2 in
              let v := (IZR (g * number ds) * bpow ten (e - k))%R in
              if normal_dec v then Ok (dbl v, s3) else other s
       end.
(** l.222-230 *)
Definition to_double (s : text) : res R := bind (strtod s) (fun p => Ok (fst p)).
(** l.399-411: sscanf(value, "%lf + %lfi", ...) == 2 *)
Definition to_complex (s : text) : res C :=
  bind (strtod s) (fun p =>
    match snd (span isspace (snd p)) with
    | c :: r => if Ascii.eqb c "+" then bind (strtod r) (fun q => Ok (fst p, fst q)) else Fails
    | [] => Fails
    end).
(** l.480-495 *)
Definition split_value (s : text) : res (R * text) := bind (strtod s) (fun p => Ok (fst p, skip_spaces (snd p))).
End Library.

(* ---------------------------------------------- writing *)

(** six significant digits of a > 0: (m, e) stands for m 10^(e - 5) *)
Definition six (a : R) : Z * Z :=
  let e := mag ten a - 1 in
  let m := ZnearestE (a * bpow ten (5 - e)) in
  if m =? 1000000 then (100000, e + 1) else (m, e).
Definition digits6 (m : Z) : list Z := [m / 100000; m / 10000 mod 10; m / 1000 mod 10; m / 100 mod 10; m / 10 mod 10; m mod 10].
(** without the zeros at the end *)
Fixpoint drop0 (ds : list Z) : list Z := match ds with 0 :: r => drop0 r | _ => ds end.
Definition no_zeros (ds : list Z) : list Z := rev (drop0 (rev ds)).
Definition point (ds : list Z) : text := match ds with [] => [] | _ => "."%char :: map digit_char ds end.
Definition exponent_digits (x : Z) : list Z := if x <? 100 then [x / 10; x mod 10] else [x / 100; x / 10 mod 10; x mod 10].
Definition general (m e : Z) : text :=
  let ds := digits6 m in
  if (-4 <=? e) && (e <? 6) then
    if 0 <=? e then map digit_char (firstn (Z.to_nat (e + 1)) ds) ++ point (no_zeros (skipn (Z.to_nat (e + 1)) ds))
    else digit_char 0 :: point (repeat 0 (Z.to_nat (- e - 1)) ++ no_zeros ds)
  else map digit_char (firstn 1 ds) ++ point (no_zeros (skipn 1 ds)) ++ "e"%char :: (if e <? 0 then "-"%char else "+"%char) :: map digit_char (exponent_digits (Z.abs e)).
(** l.419-423 for a double *)
Definition show_double (x : R) : text :=
  if Req_EM_T x 0 then [digit_char 0]
  else (if Rlt_dec x 0 then ["-"%char] else []) ++ (let p := six (Rabs x) in general (fst p) (snd p)).
(** l.419-423 for an unsigned integer *)
Definition show_count (n : Z) : text := map digit_char (numeral 10 n).
(** l.467-471 *)
Definition show_complex (z : C) : text := show_double (fst z) ++ T " + " ++ show_double (snd z) ++ T "i".
