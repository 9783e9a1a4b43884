(** Model of src/Unit.hpp and src/UnitConverter.hpp.
    Simplifications: doubles are exact reals; the dimension exponents (64-bit int_fast32_t) are
    unbounded integers; isalpha is that of the "C" locale (and false, as in glibc, for characters
    outside ASCII); a thrown exception (std::stoi) and ctm_error are both Fails. *)
From Coq Require Import List Ascii String ZArith Lia Bool Reals Lra.
From Verif Require Import Parse.
Import ListNotations.
Local Open Scope Z_scope.

(** Unit.hpp 47-68, 82-86 *)
Record unit_ := mkU { uvalue : R; ulength : Z; utime : Z; umass : Z; utemp : Z; ucurrent : Z; uangle : Z }.

(** Unit.hpp 94-103: operator*= *)
Definition umul (a b : unit_) : unit_ :=
  mkU (uvalue a * uvalue b)%R (ulength a + ulength b) (utime a + utime b) (umass a + umass b)
      (utemp a + utemp b) (ucurrent a + ucurrent b) (uangle a + uangle b).
(** Unit.hpp 111-120: operator/= *)
Definition udiv (a b : unit_) : unit_ :=
  mkU (uvalue a / uvalue b)%R (ulength a - ulength b) (utime a - utime b) (umass a - umass b)
      (utemp a - utemp b) (ucurrent a - ucurrent b) (uangle a - uangle b).
(** Unit.hpp 128-152: operator^=; the first loop runs for i = 1 .. power-1, the second for
    i = 0 .. -power-1 *)
Definition upow (a : unit_) (p : Z) : unit_ :=
  mkU (if 0 <=? p then Nat.iter (Z.to_nat (p - 1)) (fun v => v * uvalue a)%R (uvalue a)
       else Nat.iter (Z.to_nat (- p)) (fun v => v / uvalue a)%R 1%R)
      (ulength a * p) (utime a * p) (umass a * p) (utemp a * p) (ucurrent a * p) (uangle a * p).
(** Unit.hpp 180-184: is_same_quantity *)
Definition same_quantity (a b : unit_) : bool :=
  (ulength a =? ulength b) && (utime a =? utime b) && (umass a =? umass b) &&
  (utemp a =? utemp b) && (ucurrent a =? ucurrent b) && (uangle a =? uangle b).

(** Unit.hpp 263-273 (and 274-328 for the other five): one factor of get_equivalent *)
Definition factor (n : Z) (base value : R) : R :=
  if n =? 0 then value
  else if 0 <? n then Nat.iter (Z.to_nat n) (fun v => v * base)%R value
  else Nat.iter (Z.to_nat (- n)) (fun v => v / base)%R value.
(** Unit.hpp 256-331 *)
Definition get_equivalent (u L Ti M K A An : unit_) : unit_ :=
  mkU (factor (uangle u) (uvalue An) (factor (ucurrent u) (uvalue A) (factor (utemp u) (uvalue K)
        (factor (umass u) (uvalue M) (factor (utime u) (uvalue Ti) (factor (ulength u) (uvalue L) 1%R))))))
      (ulength u) (utime u) (umass u) (utemp u) (ucurrent u) (uangle u).

(** PhysicalConstants.hpp 78-91, 93-96 *)
Definition planck : R := 6.626070040e-34%R.
Definition lightspeed : R := 299792458%R.
Definition electronvolt : R := 1.6021766208e-19%R.

(** UnitConverter.hpp 108-171: the chain of comparisons of get_single_unit, as a list searched from
    the front *)
Definition unit_table : list (string * unit_) := [
  ("m",        mkU 1 1 0 0 0 0 0);
  ("cm",       mkU 0.01%R 1 0 0 0 0 0);
  ("pc",       mkU 3.086e16%R 1 0 0 0 0 0);
  ("kpc",      mkU 3.086e19%R 1 0 0 0 0 0);
  ("angstrom", mkU 1e-10%R 1 0 0 0 0 0);
  ("km",       mkU 1000 1 0 0 0 0 0);
  ("au",       mkU 149597870700 1 0 0 0 0 0);
  ("micron",   mkU 1e-6%R 1 0 0 0 0 0);
  ("s",        mkU 1 0 1 0 0 0 0);
  ("Gyr",      mkU 3.154e16%R 0 1 0 0 0 0);
  ("Myr",      mkU 3.154e13%R 0 1 0 0 0 0);
  ("yr",       mkU 3.154e7%R 0 1 0 0 0 0);
  ("h",        mkU 3600 0 1 0 0 0 0);
  ("kg",       mkU 1 0 0 1 0 0 0);
  ("g",        mkU 0.001%R 0 0 1 0 0 0);
  ("Msol",     mkU 1.98855e30%R 0 0 1 0 0 0);
  ("K",        mkU 1 0 0 0 1 0 0);
  ("radians",  mkU 1 0 0 0 0 0 1);
  ("degrees",  mkU (PI / 180)%R 0 0 0 0 0 1);
  ("Hz",       mkU 1 0 (-1) 0 0 0 0);
  ("J",        mkU 1 2 (-2) 1 0 0 0);
  ("erg",      mkU 1e-7%R 2 (-2) 1 0 0 0);
  ("eV",       mkU electronvolt 2 (-2) 1 0 0 0);
  ("Pa",       mkU 1 (-1) (-2) 1 0 0 0);
  ("bar",      mkU 1e5%R (-1) (-2) 1 0 0 0) ]%string.
(** UnitConverter.hpp 108-176 *)
Definition get_single_unit (name : text) : res unit_ :=
  match List.find (fun e => if list_eq_dec ascii_dec name (T (fst e)) then true else false) unit_table with
  | Some (_, u) => Ok u
  | None => Fails
  end.

Definition isalpha (c : ascii) : bool := (65 <=? code c) && (code c <=? 90) || (97 <=? code c) && (code c <=? 122).
Definition isspace (c : ascii) : bool := (9 <=? code c) && (code c <=? 13) || (code c =? 32).
Fixpoint span (f : ascii -> bool) (s : text) : text * text :=
  match s with c :: s' => if f c then let '(a, b) := span f s' in (c :: a, b) else ([], s) | [] => ([], []) end.

(** std::stoi: strtol in base 10 (leading white space, a sign, digits), out_of_range outside int *)
Definition stoi (s : text) : res Z :=
  let s := snd (span isspace s) in
  let '(sign, s) := match s with
    | c :: r => if Ascii.eqb c "-" then (-1, r) else if Ascii.eqb c "+" then (1, r) else (1, s)
    | [] => (1, s) end in
  match fst (take_dec s) with
  | [] => Fails
  | ds => let v := sign * fold_left (fun a d => a * 10 + d) ds 0 in
          if (- 2 ^ 31 <=? v) && (v <? 2 ^ 31) then Ok v else Fails
  end.

(** UnitConverter.hpp 372-402 and 404-433: one unit name with its optional power, and the text after
    it.  None: no alphabetic character is left. *)
Definition term (s : text) : option (res (unit_ * text)) :=
  match snd (span (fun c => negb (isalpha c)) s) with                       (* 373-375 *)
  | [] => None
  | c :: r =>
      let '(n, r) := span (fun c => negb (Ascii.eqb c " " || Ascii.eqb c "^")) r in  (* 380-383 *)
      Some (bind (get_single_unit (c :: n)) (fun u =>                        (* 384 *)
        match r with
        | [] => Ok (u, [])
        | x :: r =>
            if Ascii.eqb x "^" then                                          (* 388-398 *)
              match r with
              | [] => Fails                                                  (* stoi("") throws *)
              | d :: r =>
                  let '(ds, r) := span (fun c => isdigit c || Ascii.eqb c "+" || Ascii.eqb c "-") r in
                  bind (stoi (d :: ds)) (fun p => Ok (upow u p, r))
              end
            else Ok (u, x :: r)
        end))
  end.
(** UnitConverter.hpp 403-436: the loop (fuel: the number of characters left) *)
Fixpoint more (fuel : nat) (s : text) (u : unit_) : res unit_ :=
  match fuel with
  | O => Ok u
  | S fuel => match term s with
      | None => Ok u                                                         (* 408-411 *)
      | Some t => bind t (fun '(u2, r) => more fuel r (umul u u2)) end
  end.
(** UnitConverter.hpp 370-437 *)
Definition get_unit (s : text) : res unit_ :=
  match term s with
  | None => Fails                                                            (* 376-378 *)
  | Some t => bind t (fun '(u, r) => more (List.length r) r u)
  end.

(** UnitConverter.hpp 66-94 *)
Inductive quantity := ACCELERATION | ANGLE | DENSITY | ENERGY | ENERGY_CHANGE_RATE | ENERGY_RATE | FLUX
  | FORCING_POWER | FREQUENCY | FREQUENCY_PER_MASS | INVERSE_LENGTH | INVERSE_SURFACE_AREA | LENGTH | MASS
  | MASS_RATE | MOMENTUM | NUMBER_DENSITY | OPACITY | PRESSURE | REACTION_RATE | SURFACE_AREA
  | SURFACE_DENSITY | TEMPERATURE | TIME | VELOCITY | VOLUME.
(** UnitConverter.hpp 184-242 *)
Definition SI_unit_name (q : quantity) : string :=
  match q with
  | ACCELERATION => "m s^-2" | ANGLE => "radians" | DENSITY => "kg m^-3" | ENERGY => "J"
  | ENERGY_CHANGE_RATE => "J m^-3 s^-1" | ENERGY_RATE => "J s^-1" | FLUX => "m^-2 s^-1"
  | FORCING_POWER => "m^2 s^-3" | FREQUENCY => "Hz" | FREQUENCY_PER_MASS => "Hz kg^-1"
  | INVERSE_LENGTH => "m^-1" | INVERSE_SURFACE_AREA => "m^-2" | LENGTH => "m" | MASS => "kg"
  | MASS_RATE => "kg s^-1" | MOMENTUM => "kg m s^-1" | NUMBER_DENSITY => "m^-3" | OPACITY => "m^-1"
  | PRESSURE => "Pa" | REACTION_RATE => "m^3 s^-1" | SURFACE_AREA => "m^2" | SURFACE_DENSITY => "kg m^-2"
  | TEMPERATURE => "K" | TIME => "s" | VELOCITY => "m s^-1" | VOLUME => "m^3" end.
(** UnitConverter.hpp 250-252 *)
Definition get_SI_unit (q : quantity) : res unit_ := get_unit (T (SI_unit_name q)).

(** UnitConverter.hpp 296-311: S^p for the integer p *)
Definition raise_ (p : Z) (S : R) : R :=
  if 0 <? p then Nat.iter (Z.to_nat (p - 1)) (fun v => v * S)%R S
  else Nat.iter (Z.to_nat (Z.abs p)) (fun v => v / S)%R 1%R.
(** UnitConverter.hpp 319-343: S^(1/p); the powers used are 1 and -1, the std::pow branches for other
    powers (329, 341) are not modelled (Fails) *)
Definition unraise (p : Z) (S : R) : res R :=
  if p =? 1 then Ok (Nat.iter 0 (fun v => v * S)%R S)
  else if p =? -1 then Ok (Nat.iter 1 (fun v => v / S)%R 1%R)
  else Fails.
(** UnitConverter.hpp 272-284 *)
Definition conversions : list (quantity * quantity * R * Z) :=
  [ (ENERGY, FREQUENCY, (1 / planck)%R, 1); (LENGTH, FREQUENCY, lightspeed, -1) ].
(** UnitConverter.hpp 288-351 *)
Fixpoint try_ (l : list (quantity * quantity * R * Z)) (value : R) (from to_ : unit_) : res R :=
  match l with
  | [] => Fails
  | (qa, qb, fac, p) :: l =>
      bind (get_SI_unit qa) (fun A => bind (get_SI_unit qb) (fun B =>
      if same_quantity from A && same_quantity to_ B then
        Ok (raise_ p (value * (1 * uvalue from)) * fac / (1 * uvalue to_))%R
      else if same_quantity from B && same_quantity to_ A then
        bind (unraise p (value * (1 * uvalue from) / fac)%R) (fun v => Ok (v / (1 * uvalue to_))%R)
      else try_ l value from to_))
  end.
Definition try_conversion := try_ conversions.

(** UnitConverter.hpp 447-455 *)
Definition to_SI (q : quantity) (value : R) (name : text) : res R :=
  bind (get_SI_unit q) (fun SI => bind (get_unit name) (fun u =>
  if negb (same_quantity SI u) then try_conversion value u SI else Ok (value * uvalue u)%R)).
(** UnitConverter.hpp 465-473 *)
Definition to_unit (q : quantity) (value : R) (name : text) : res R :=
  bind (get_SI_unit q) (fun SI => bind (get_unit name) (fun u =>
  if negb (same_quantity SI u) then try_conversion value SI u else Ok (value / uvalue u)%R)).
(** UnitConverter.hpp 505-517 *)
Definition convert (value : R) (from to_ : text) : res R :=
  bind (get_unit from) (fun f => bind (get_unit to_) (fun t =>
  if negb (same_quantity t f) then try_conversion value f t
  else Ok (value * uvalue (udiv f t))%R)).
