(** Model of the helper functions of /repo/src/Utilities.hpp that do not convert numbers from text: memory sizes and times for
    people (l.601-672), ends of names (l.681-689), prime factors (l.698-712), binary digits (l.719-731), file names with a counter
    (l.540-556).

    Simplifications: the floating point numbers of l.601-672 are exact reals (a memory size below 2^50 and its division by powers of 1024 are
    exact in double precision); the last step of both functions, printing the number, is left out: the result is the number and its
    unit. uint_fast32_t has 64 bits. *)
From Coq Require Import List Arith Lia Bool ZArith Reals Lra Ascii String.
From Verif Require Import Parse Yaml Props_parse.
Import ListNotations.
Open Scope Z_scope.

(** l.637-651: None is the call of ctm_error, which ends the program *)
Definition byte_unit (exponent : nat) : option text :=
  match exponent with
  | 0%nat => Some (T "bytes") | 1%nat => Some (T "KB") | 2%nat => Some (T "MB") | 3%nat => Some (T "GB") | 4%nat => Some (T "TB") | _ => None
  end.
(** l.663-667: sizecount after the loop; 7 iterations are enough for 64 bits *)
Fixpoint byte_loop (fuel : nat) (bytes : Z) (sizecount : nat) : nat :=
  match fuel with
  | 0%nat => sizecount
  | S f => if 0 <? Z.shiftr bytes 10 then byte_loop f (Z.shiftr bytes 10) (S sizecount) else sizecount
  end.
(** l.660-672: hundredths of the unit (std::round: halves away from zero) and the unit *)
Definition human_readable_bytes (bytes : Z) : option (Z * text) :=
  let e := byte_loop 7 bytes 0 in
  let k := 1024 ^ Z.of_nat e in
  match byte_unit e with
  | Some u => Some ((200 * bytes + k) / (2 * k), u)
  | None => None
  end.

(** l.601-629: the numbers written, with their units; the last one is the seconds *)
Definition human_readable_time (time : R) : list (Z * text) * R :=
  let minutes := Int_part (time / 60) in
  let seconds := (time - 60 * IZR minutes)%R in
  (if 0 <? minutes then
     let hours := minutes / 60 in
     if 0 <? hours then
       let minutes := minutes - 60 * hours in
       let days := hours / 24 in
       if 0 <? days then
         let hours := hours - 24 * days in
         let years := days / 365 in
         if 0 <? years then
           let days := days - 365 * years in
           [(years, T "y"); (days, T "d"); (hours, T "h"); (minutes, T "m")]
         else [(days, T "d"); (hours, T "h"); (minutes, T "m")]
       else [(hours, T "h"); (minutes, T "m")]
     else [(minutes, T "m")]
   else [], seconds).

(** std::string::rfind: the last position at which needle stands in haystack; [k] positions 0..k-1 are left *)
Fixpoint rfind_from (k : nat) (haystack needle : text) : option nat :=
  match k with
  | 0%nat => None
  | S p => if text_eqb (firstn (List.length needle) (skipn p haystack)) needle then Some p else rfind_from p haystack needle
  end.
Definition rfind (haystack needle : text) : option nat := rfind_from (S (List.length haystack - List.length needle)) haystack needle.
(** l.681-689; npos (None here) is not a length of a string *)
Definition string_ends_with (haystack needle : text) : bool :=
  if (List.length haystack <? List.length needle)%nat then false
  else match rfind haystack needle with Some check => (check =? List.length haystack - List.length needle)%nat | None => false end.

(** l.698-712 for an unsigned integer type of [w] bits. Overflow: ++divisor leaves the range of the type. *)
Inductive factors := Components (l : list Z) | Overflow | Running.
Fixpoint decompose_loop (fuel : nat) (w : Z) (number divisor : Z) (components : list Z) : factors :=
  match fuel with
  | 0%nat => Running
  | S f =>
      if (divisor <=? number) && (1 <? number) then
        if number mod divisor =? 0 then decompose_loop f w (number / divisor) divisor (components ++ [divisor])
        else if 2 ^ w <=? divisor + 1 then Overflow else decompose_loop f w number (divisor + 1) components
      else Components components
  end.
Definition decompose (fuel : nat) (w : Z) (number : Z) : factors := decompose_loop fuel w number 2 [].

(** l.719-731: iterations i .. 63; [mask] as in the code *)
Fixpoint binary_loop (k : nat) (i long_value mask : Z) : text :=
  match k with
  | 0%nat => []
  | S k' => (if (0 <? i) && (i mod 4 =? 0) then [" "%char] else []) ++ map digit_char (numeral 10 (Z.shiftr (Z.land long_value mask) (63 - i))) ++
            binary_loop k' (i + 1) long_value (Z.shiftr mask 1)
  end.
Definition as_binary_sequence (long_value : Z) : text := binary_loop 64 0 long_value (2 ^ 63).

(** l.540-556 *)
Definition compose_filename (folder prefix extension : text) (counter padding : Z) : text :=
  let digits := map digit_char (numeral 10 counter) in
  (match folder with [] => [] | _ => folder ++ T "/" end) ++ prefix ++
  repeat "0"%char (Z.to_nat padding - List.length digits) ++ digits ++ T "." ++ extension.
