(** C40 (integers), C41 (prime factors), C54 (booleans) *)
From Coq Require Import List Ascii String ZArith Lia Bool Znumtheory Sorting.Sorted.
From Verif Require Import Parse.
Import ListNotations.
Local Open Scope Z_scope.

(** ---- specification of numerals ---- *)
Definition value (radix : Z) (ds : list Z) : Z := fold_left (fun a d => a * radix + d) ds 0.
Definition digit_char (d : Z) : ascii := ascii_of_nat (Z.to_nat (48 + d)).
Definition hex_char (upper : bool) (d : Z) : ascii := ascii_of_nat (Z.to_nat (if d <? 10 then 48 + d else if upper then 55 + d else 87 + d)).
Definition sign_text (neg : bool) : text := if neg then T "-" else [].
Definition signed_value (neg : bool) (z : Z) : Z := if neg then - z else z.
Definition decimal_digits (ds : list Z) : Prop := ds <> [] /\ Forall (fun d => 0 <= d <= 9) ds.
Definition hex_digits (ds : list Z) : Prop := ds <> [] /\ Forall (fun d => 0 <= d <= 15) ds.
Definition known_type (t : ity) : Prop := In (bits t) [8; 16; 32; 64] /\ (signed t = true -> 32 <= bits t).
(** the decimal (hexadecimal) digits of a number *)
Fixpoint numeral_ (fuel : nat) (radix n : Z) (acc : list Z) : list Z :=
  match fuel with O => acc | S f => if n <? radix then n :: acc else numeral_ f radix (n / radix) (n mod radix :: acc) end.
Definition numeral (radix n : Z) : list Z := numeral_ (S (Z.to_nat n)) radix n [].

Lemma value_app : forall r a b, value r (a ++ b) = value r a * r ^ Z.of_nat (List.length b) + value r b.
Proof.
  intros r a b. unfold value. rewrite fold_left_app. generalize (fold_left (fun a d => a * r + d) a 0). intros x. revert x.
  induction b as [|y b IH] using rev_ind; intros x; cbn [fold_left List.length]; [rewrite Z.pow_0_r; ring|].
  rewrite !fold_left_app. cbn [fold_left]. rewrite IH, app_length. cbn [List.length]. replace (Z.of_nat (List.length b + 1)) with (Z.of_nat (List.length b) + 1) by lia.
  rewrite Z.pow_add_r by lia. ring.
Qed.
Lemma numeral_spec : forall radix n, 2 <= radix -> 0 <= n -> value radix (numeral radix n) = n /\ numeral radix n <> [] /\ Forall (fun d => 0 <= d <= radix - 1) (numeral radix n).
Proof.
  intros radix n Hr Hn. unfold numeral.
  assert (G: forall f n acc, 0 <= n -> (Z.to_nat n < f)%nat -> Forall (fun d => 0 <= d <= radix - 1) acc ->
    value radix (numeral_ f radix n acc) = n * radix ^ Z.of_nat (List.length acc) + value radix acc /\ numeral_ f radix n acc <> [] /\ Forall (fun d => 0 <= d <= radix - 1) (numeral_ f radix n acc)).
  { induction f; intros m acc Hm Hf HA; [lia|]. cbn [numeral_]. destruct (Z.ltb_spec m radix).
    - split; [|split; [discriminate|constructor; auto; lia]]. change (m :: acc) with ([m] ++ acc). rewrite value_app. unfold value at 1. cbn [fold_left]. ring.
    - assert (m / radix < m) by (apply Z.div_lt; lia). assert (0 <= m / radix) by (apply Z.div_pos; lia). pose proof (Z.mod_pos_bound m radix ltac:(lia)).
      destruct (IHf (m / radix) (m mod radix :: acc)) as (A & B & C); try lia; [constructor; auto; lia|]. split; [|split]; auto. rewrite A.
      change (m mod radix :: acc) with ([m mod radix] ++ acc). rewrite value_app. cbn [List.length app]. unfold value at 1. cbn [fold_left].
      replace (Z.of_nat (S (List.length acc))) with (1 + Z.of_nat (List.length acc)) by lia. rewrite Z.pow_add_r by lia. pose proof (Z.div_mod m radix ltac:(lia)). nia. }
  destruct (G (S (Z.to_nat n)) n []) as (A & B & C); auto; try lia. split; auto. rewrite A. cbn. ring.
Qed.

(** ---- arithmetic of the types ---- *)
Lemma pow_bits : forall t, known_type t -> 0 < 2 ^ bits t /\ (exists k, 2 ^ 64 = k * 2 ^ bits t) /\ 2 ^ bits t = 2 * 2 ^ (bits t - 1).
Proof.
  intros t (H & _). cbn [In] in H. decompose [or] H; try contradiction; match goal with E : _ = bits t |- _ => rewrite <- E end;
    (split; [reflexivity|split; [|reflexivity]]).
  - exists (2 ^ 56). reflexivity.
  - exists (2 ^ 48). reflexivity.
  - exists (2 ^ 32). reflexivity.
  - exists 1. reflexivity.
Qed.
Lemma hi_lo : forall t, known_type t -> hi t = lo t + 2 ^ bits t /\ lo t <= 0 < hi t.
Proof. intros t H. destruct (pow_bits t H) as (A & _ & B). unfold hi, lo. destruct (signed t); lia. Qed.
Lemma wrap_id : forall t z, known_type t -> representable t z -> wrap t z = z.
Proof. intros t z K (H1 & H2). destruct (hi_lo t K). unfold wrap. rewrite Z.mod_small; lia. Qed.
Lemma wrap_eqm : forall t z, known_type t -> exists k, wrap t z = z + k * 2 ^ bits t.
Proof.
  intros t z K. destruct (pow_bits t K) as (A & _). unfold wrap. exists (- ((z - lo t) / 2 ^ bits t)). pose proof (Z.div_mod (z - lo t) (2 ^ bits t) ltac:(lia)). nia.
Qed.
Lemma wrap_cong : forall t a b k, known_type t -> a = b + k * 2 ^ bits t -> wrap t a = wrap t b.
Proof. intros t a b k K ->. destruct (pow_bits t K) as (A & _). unfold wrap. f_equal. replace (b + k * 2 ^ bits t - lo t) with (b - lo t + k * 2 ^ bits t) by ring. apply Z.mod_add. lia. Qed.
Lemma known_u64 : known_type u64. Proof. split; [cbn; auto | discriminate]. Qed.
(** conversion to 64 bits first makes no difference *)
Lemma wrap_u64 : forall t z, known_type t -> exists k, wrap u64 z = z + k * 2 ^ bits t.
Proof. intros t z K. destruct (wrap_eqm u64 z known_u64) as (k & E). destruct (pow_bits t K) as (_ & (j & J) & _). exists (k * j). rewrite E. cbn [bits u64]. rewrite J. ring. Qed.

Lemma accumulate_spec : forall t radix ds, known_type t -> accumulate t radix ds = wrap t (value radix ds).
Proof.
  intros t radix ds K. unfold accumulate.
  assert (G: forall l v base x m, (exists k, v = x + k * 2 ^ bits t) -> (exists k, base = m + k * 2 ^ bits t) -> (l = [] -> v = wrap t x) ->
    fst (fold_left (fun '(v, base) d => (wrap t (wrap u64 (wrap u64 v + wrap u64 (base * d))), wrap u64 (base * radix))) l (v, base)) = wrap t (x + m * value radix (rev l))).
  { induction l as [|d l IH]; intros v base x m (k1 & E1) (k2 & E2) E; cbn [fold_left rev].
    - cbn [fst]. rewrite E by auto. f_equal. cbn. ring.
    - destruct (wrap_u64 t v K) as (a1 & A1). destruct (wrap_u64 t (base * d) K) as (a2 & A2). destruct (wrap_u64 t (wrap u64 v + wrap u64 (base * d)) K) as (a3 & A3). destruct (wrap_u64 t (base * radix) K) as (a4 & A4).
      assert (W: wrap t (wrap u64 (wrap u64 v + wrap u64 (base * d))) = wrap t (x + m * d)).
      { apply (wrap_cong t _ _ (a3 + a1 + a2 + k1 + k2 * d) K). rewrite A3, A1, A2, E1, E2. ring. }
      rewrite W. rewrite (IH (wrap t (x + m * d)) (wrap u64 (base * radix)) (x + m * d) (m * radix)).
      + f_equal. rewrite value_app. cbn [List.length]. change (Z.of_nat 1) with 1. rewrite Z.pow_1_r. unfold value at 3. cbn [fold_left]. ring.
      + apply wrap_eqm; auto.
      + exists (a4 + k2 * radix). rewrite A4, E2. ring.
      + reflexivity. }
  rewrite (G (rev ds) 0 1 0 1).
  - rewrite rev_involutive. f_equal. ring.
  - exists 0. ring.
  - exists 0. ring.
  - intros _. symmetry. apply wrap_id; auto. destruct (hi_lo t K). unfold representable. lia.
Qed.
Lemma mul_ok : forall t a b, known_type t -> representable t (a * b) -> mul t a b = Ok (a * b).
Proof.
  intros t a b K H. unfold mul, promote. destruct (Z.ltb_spec (bits t) 32) as [Q|Q].
  - cbn [signed]. assert (R: in_range (mkTy 32 true) (a * b) = true).
    { destruct K as (KB & KS). destruct t as (w, s). cbn [bits signed] in *. destruct s; [specialize (KS eq_refl); lia|]. unfold representable, lo, hi in H. cbn [signed bits] in H.
      assert (2 ^ w <= 2 ^ 16) by (apply Z.pow_le_mono_r; [lia|]; cbn [In] in KB; lia). unfold in_range, lo, hi. cbn [signed bits].
      apply andb_true_intro. split; [apply Z.leb_le | apply Z.ltb_lt]; lia. }
    rewrite R. rewrite wrap_id; auto.
  - destruct (signed t); [|rewrite wrap_id; auto]. assert (R: in_range t (a * b) = true). { unfold in_range. destruct H. apply andb_true_intro. split; [apply Z.leb_le | apply Z.ltb_lt]; lia. }
    rewrite R, wrap_id; auto.
Qed.
Lemma mul_unsigned : forall t a b, known_type t -> signed t = false -> 32 <= bits t -> mul t a b = Ok (wrap t (a * b)).
Proof. intros t a b K S B. unfold mul, promote. destruct (Z.ltb_spec (bits t) 32); [lia|]. rewrite S. reflexivity. Qed.

(** ---- characters ---- *)
Lemma digit_code : forall d, 0 <= d <= 9 -> code (digit_char d) = 48 + d.
Proof. intros d H. unfold code, digit_char. rewrite nat_ascii_embedding; lia. Qed.
Lemma digit_is : forall d, 0 <= d <= 9 -> isdigit (digit_char d) = true.
Proof. intros d H. unfold isdigit. rewrite digit_code by auto. apply andb_true_intro. split; apply Z.leb_le; lia. Qed.
Lemma take_dec_spec : forall ds rest, Forall (fun d => 0 <= d <= 9) ds -> isdigit (at_ rest 0) = false -> take_dec (map digit_char ds ++ rest) = (ds, rest).
Proof.
  induction ds as [|d ds IH]; intros rest H N; cbn [map app take_dec].
  - destruct rest as [|c rest]; auto. cbn [at_ nth] in N. cbn [take_dec]. unfold at_ in N. cbn [nth] in N. rewrite N. reflexivity.
  - inversion_clear H. rewrite digit_is, IH, digit_code by auto. do 2 f_equal. lia.
Qed.
Lemma hex_chars : forall d u, 0 <= d <= 15 -> isxdigit (hex_char u d) = true /\ hexval (hex_char u d) = d.
Proof.
  intros d u H. assert (E: In d [0;1;2;3;4;5;6;7;8;9;10;11;12;13;14;15]) by (cbn [In]; lia). cbn [In] in E.
  decompose [or] E; try contradiction; subst d; destruct u; split; reflexivity.
Qed.
Lemma take_hex_spec : forall ds us rest, Forall (fun d => 0 <= d <= 15) ds -> List.length us = List.length ds -> isxdigit (at_ rest 0) = false ->
  take_hex (map (fun '(u, d) => hex_char u d) (combine us ds) ++ rest) = (ds, rest).
Proof.
  induction ds as [|d ds IH]; intros [|u us] rest H L N; try discriminate; cbn [combine map app take_hex].
  - destruct rest as [|c rest]; auto. unfold at_ in N. cbn [nth] in N. cbn [take_hex]. rewrite N. reflexivity.
  - inversion_clear H. destruct (hex_chars d u H0) as (A & B). rewrite A, B, IH; auto.
Qed.
Lemma skip_app : forall n s, skip_spaces (repeat " "%char n ++ s) = skip_spaces s.
Proof. induction n; intros; cbn; auto. Qed.
Lemma not_space : forall d, 0 <= d <= 9 -> Ascii.eqb (digit_char d) " " = false /\ Ascii.eqb (digit_char d) "-" = false.
Proof.
  intros d H. assert (C: code (digit_char d) = 48 + d) by (apply digit_code; auto). split; apply Ascii.eqb_neq; intros E; rewrite E in C; change (code " ") with 32 in C || change (code "-") with 45 in C; lia.
Qed.

(** what the function does after blanks and sign *)
Definition body (t : ity) (sign : Z) (s : text) : res Z :=
  if Ascii.eqb (at_ s 0) "0" && (Ascii.eqb (at_ s 1) "x" || Ascii.eqb (at_ s 1) "X") then
    let '(digits, _) := take_hex (skipn 2 s) in
    match digits with [] => Fails | _ =>
      if (bits t - (if signed t then 1 else 0)) <? Z.of_nat (List.length digits) * 4 then Fails
      else mul t (accumulate t 16 digits) sign
    end
  else
    let '(digits, rest) := take_dec s in
    let ivalue := accumulate t 10 digits in
    bind (match rest with
      | c :: rest' => if Ascii.eqb c "e" || Ascii.eqb c "E" then
            let '(edigits, _) := take_dec rest' in
            let exponent := accumulate u64 10 edigits in
            bind (times_ten t (Z.to_nat exponent) 1) (fun extra_part => mul t ivalue extra_part)
          else Ok ivalue
      | [] => Ok ivalue end)
      (fun ivalue => mul t ivalue sign).
Lemma start : forall t n neg d ds s, 0 <= d <= 9 ->
  string_to_integer t (repeat " "%char n ++ sign_text neg ++ (map digit_char (d :: ds) ++ s)) = body t (if neg then -1 else 1) (map digit_char (d :: ds) ++ s).
Proof.
  intros t n neg d ds s H. destruct (not_space d H) as (N1 & N2). unfold string_to_integer.
  destruct (repeat " "%char n ++ sign_text neg ++ map digit_char (d :: ds) ++ s) as [|c l] eqn:E.
  - exfalso. apply (f_equal (@List.length ascii)) in E. rewrite !app_length in E. cbn in E. lia.
  - rewrite <- E, skip_app. destruct neg; cbn [sign_text T list_ascii_of_string app map skip_spaces].
    + change (Ascii.eqb "-" " ") with false. cbn iota. change (Ascii.eqb "-" "-") with true. cbn iota. reflexivity.
    + rewrite N1. rewrite N2. reflexivity.
Qed.
(** after the digits: no digit, no exponent and no hexadecimal prefix *)
Definition ends_number (rest : text) : Prop := match rest with [] => True | c :: _ => ~ In c (T "0123456789eExX") end.
Lemma no_digit : forall c, isdigit c = false <-> ~ In c (T "0123456789").
Proof.
  intros c. split.
  - intros H I. cbn in I. repeat (destruct I as [<- | I]; [discriminate|]). exact I.
  - intros H. destruct (isdigit c) eqn:E; [|reflexivity]. exfalso. apply H. destruct c as [[] [] [] [] [] [] [] []]; try discriminate E; cbn; tauto.
Qed.
Lemma no_xdigit : forall c, isxdigit c = false <-> ~ In c (T "0123456789abcdefABCDEF").
Proof.
  intros c. split.
  - intros H I. cbn in I. repeat (destruct I as [<- | I]; [discriminate|]). exact I.
  - intros H. destruct (isxdigit c) eqn:E; [|reflexivity]. exfalso. apply H. destruct c as [[] [] [] [] [] [] [] []]; try discriminate E; cbn; tauto.
Qed.
Lemma ends_number_old : forall rest, ends_number rest -> match rest with [] => True | c :: _ => isdigit c = false /\ ~ In c (T "eExX") end.
Proof. intros [|c r] H; [exact I|]. cbn [ends_number] in H. split; [apply no_digit|]; intros J; apply H; cbn in *; tauto. Qed.

Theorem C40_decimal : forall t n neg ds rest, known_type t -> decimal_digits ds -> ends_number rest ->
  representable t (value 10 ds) -> representable t (signed_value neg (value 10 ds)) ->
  string_to_integer t (repeat " "%char n ++ sign_text neg ++ (map digit_char ds ++ rest)) = Ok (signed_value neg (value 10 ds)).
Proof.
  intros t n neg ds rest K (HN & HD) HE R1 R2. apply ends_number_old in HE. destruct ds as [|d ds]; [congruence|]. inversion HD as [|? ? Hd Hds]; subst.
  rewrite start by auto. unfold body.
  assert (NX: (Ascii.eqb (at_ (map digit_char (d :: ds) ++ rest) 1) "x" || Ascii.eqb (at_ (map digit_char (d :: ds) ++ rest) 1) "X") = false).
  { unfold at_. destruct ds as [|d2 ds]; cbn [map app nth].
    - destruct rest as [|c rest]; [reflexivity|]. cbn [nth]. destruct HE as (_ & HE). destruct (Ascii.eqb_spec c "x"); [destruct HE; cbn; auto|]. destruct (Ascii.eqb_spec c "X"); [destruct HE; cbn; auto|]. reflexivity.
    - inversion_clear Hds. pose proof (digit_code d2 H) as C. destruct (Ascii.eqb_spec (digit_char d2) "x") as [E|]; [rewrite E in C; change (code "x") with 120 in C; lia|].
      destruct (Ascii.eqb_spec (digit_char d2) "X") as [E|]; [rewrite E in C; change (code "X") with 88 in C; lia|]. reflexivity. }
  rewrite NX, andb_false_r. rewrite take_dec_spec; auto.
  2:{ destruct rest; [reflexivity|]. apply HE. }
  rewrite accumulate_spec by auto. rewrite wrap_id by auto. destruct rest as [|c rest].
  - cbn [bind]. rewrite mul_ok; auto; [|destruct neg; cbn [signed_value] in R2; [replace (value 10 (d :: ds) * -1) with (- value 10 (d :: ds)) by ring | rewrite Z.mul_1_r]; auto].
    f_equal. destruct neg; cbn [signed_value]; ring.
  - destruct HE as (_ & HE). destruct (Ascii.eqb_spec c "e"); [destruct HE; cbn; auto|]. destruct (Ascii.eqb_spec c "E"); [destruct HE; cbn; auto|]. cbn [orb bind].
    rewrite mul_ok; auto; [|destruct neg; cbn [signed_value] in R2; [replace (value 10 (d :: ds) * -1) with (- value 10 (d :: ds)) by ring | rewrite Z.mul_1_r]; auto].
    f_equal. destruct neg; cbn [signed_value]; ring.
Qed.
Print Assumptions C40_decimal.
(** in particular the decimal representation of every representable number except the most negative one *)
Theorem C40_roundtrip : forall t z, known_type t -> representable t z -> - z <> hi t ->
  string_to_integer t (sign_text (z <? 0) ++ map digit_char (numeral 10 (Z.abs z))) = Ok z.
Proof.
  intros t z K R NM. destruct (numeral_spec 10 (Z.abs z) ltac:(lia) ltac:(lia)) as (V & N & D).
  pose proof (C40_decimal t 0 (z <? 0) (numeral 10 (Z.abs z)) []) as G. cbn [repeat app] in G. rewrite app_nil_r, V in G.
  assert (SV: signed_value (z <? 0) (Z.abs z) = z) by (unfold signed_value; destruct (Z.ltb_spec z 0); lia). rewrite SV in G. apply G; auto.
  - split; auto.
  - cbn. auto.
  - destruct (hi_lo t K) as (A & B). destruct (pow_bits t K) as (_ & _ & C). unfold representable, hi, lo in *. destruct (signed t); lia.
Qed.
Print Assumptions C40_roundtrip.
(** the most negative number of a signed type is undefined behaviour (negation overflows) *)
Theorem C40_most_negative_refuted : forall t n, known_type t -> signed t = true ->
  string_to_integer t (repeat " "%char n ++ T "-" ++ map digit_char (numeral 10 (hi t))) = UB.
Proof.
  intros t n K S. destruct (hi_lo t K) as (A & B). destruct (numeral_spec 10 (hi t) ltac:(lia) ltac:(lia)) as (V & N & D).
  destruct (numeral 10 (hi t)) as [|d ds] eqn:E; [congruence|]. inversion D as [|? ? Hd Hds]; subst.
  pose proof (start t n true d ds [] Hd) as G. rewrite app_nil_r in G. change (sign_text true) with (T "-") in G. rewrite G. unfold body.
  assert (NX: (Ascii.eqb (at_ (map digit_char (d :: ds)) 1) "x" || Ascii.eqb (at_ (map digit_char (d :: ds)) 1) "X") = false).
  { unfold at_. destruct ds as [|d2 ds]; cbn [map nth]; [reflexivity|]. inversion_clear Hds. pose proof (digit_code d2 H) as C. destruct (Ascii.eqb_spec (digit_char d2) "x") as [Q|]; [rewrite Q in C; change (code "x") with 120 in C; lia|].
    destruct (Ascii.eqb_spec (digit_char d2) "X") as [Q|]; [rewrite Q in C; change (code "X") with 88 in C; lia|]. reflexivity. }
  rewrite NX, andb_false_r. pose proof (take_dec_spec (d :: ds) [] D eq_refl) as TD. rewrite app_nil_r in TD. rewrite TD. cbn [bind].
  rewrite accumulate_spec, V by auto. assert (W: wrap t (hi t) = lo t).
  { unfold wrap. replace (hi t - lo t) with (2 ^ bits t) by lia. rewrite Z.mod_same by lia. lia. }
  rewrite W. unfold mul, promote. destruct K as (KB & KS). specialize (KS S). destruct (Z.ltb_spec (bits t) 32); [lia|]. rewrite S.
  unfold in_range. assert (hi t = - lo t) by (unfold hi, lo; rewrite S; lia). replace (lo t * -1) with (hi t) by lia. rewrite Z.ltb_irrefl, andb_false_r. reflexivity.
Qed.
Print Assumptions C40_most_negative_refuted.
(** too large numbers are silently reduced modulo 2^bits *)
Theorem C40_too_large_wraps : forall t n ds, known_type t -> decimal_digits ds ->
  string_to_integer t (repeat " "%char n ++ map digit_char ds) = Ok (wrap t (value 10 ds)).
Proof.
  intros t n ds K (HN & D). destruct ds as [|d ds]; [congruence|]. inversion D as [|? ? Hd Hds]; subst.
  pose proof (start t n false d ds [] Hd) as G. rewrite app_nil_r in G. cbn [sign_text app] in G. rewrite G. unfold body.
  assert (NX: (Ascii.eqb (at_ (map digit_char (d :: ds)) 1) "x" || Ascii.eqb (at_ (map digit_char (d :: ds)) 1) "X") = false).
  { unfold at_. destruct ds as [|d2 ds]; cbn [map nth]; [reflexivity|]. inversion_clear Hds. pose proof (digit_code d2 H) as C. destruct (Ascii.eqb_spec (digit_char d2) "x") as [Q|]; [rewrite Q in C; change (code "x") with 120 in C; lia|].
    destruct (Ascii.eqb_spec (digit_char d2) "X") as [Q|]; [rewrite Q in C; change (code "X") with 88 in C; lia|]. reflexivity. }
  rewrite NX, andb_false_r. pose proof (take_dec_spec (d :: ds) [] D eq_refl) as TD. rewrite app_nil_r in TD. rewrite TD. cbn [bind].
  rewrite accumulate_spec by auto. destruct (hi_lo t K) as (A & B). destruct (pow_bits t K) as (P & _).
  assert (R: representable t (wrap t (value 10 (d :: ds)))). { unfold representable, wrap. pose proof (Z.mod_pos_bound (value 10 (d :: ds) - lo t) (2 ^ bits t) P). lia. }
  rewrite mul_ok; auto; rewrite Z.mul_1_r; auto.
Qed.
Print Assumptions C40_too_large_wraps.

(** hexadecimal: any mix of cases; at most bits/4 digits (one fewer for signed types) are accepted *)
Theorem C40_hexadecimal : forall t n neg us ds rest, known_type t -> hex_digits ds -> List.length us = List.length ds -> (forall c r, rest = c :: r -> ~ In c (T "0123456789abcdefABCDEF")) ->
  forall (upper : bool), let s := repeat " "%char n ++ sign_text neg ++ (T "0" ++ T (if upper then "X" else "x") ++ map (fun '(u, d) => hex_char u d) (combine us ds) ++ rest) in
  (4 * Z.of_nat (List.length ds) <= bits t - (if signed t then 1 else 0) -> representable t (signed_value neg (value 16 ds)) -> string_to_integer t s = Ok (signed_value neg (value 16 ds))) /\
  (bits t - (if signed t then 1 else 0) < 4 * Z.of_nat (List.length ds) -> string_to_integer t s = Fails).
Proof.
  intros t n neg us ds rest K (HN & D) L E0 upper s. assert (E : isxdigit (at_ rest 0) = false) by (destruct rest as [|c r]; [reflexivity | apply no_xdigit; exact (E0 c r eq_refl)]).
  assert (G: string_to_integer t s = body t (if neg then -1 else 1) (T "0" ++ T (if upper then "X" else "x") ++ map (fun '(u, d) => hex_char u d) (combine us ds) ++ rest)).
  { unfold s, string_to_integer. destruct (repeat " "%char n ++ sign_text neg ++ T "0" ++ T (if upper then "X" else "x") ++ map (fun '(u, d) => hex_char u d) (combine us ds) ++ rest) as [|c l] eqn:Q.
    - exfalso. apply (f_equal (@List.length ascii)) in Q. rewrite !app_length in Q. cbn in Q. lia.
    - rewrite <- Q, skip_app. destruct neg; reflexivity. }
  rewrite G. unfold body.
  assert (X: (Ascii.eqb (at_ (T "0" ++ T (if upper then "X" else "x") ++ map (fun '(u, d) => hex_char u d) (combine us ds) ++ rest) 0) "0" &&
    (Ascii.eqb (at_ (T "0" ++ T (if upper then "X" else "x") ++ map (fun '(u, d) => hex_char u d) (combine us ds) ++ rest) 1) "x" || Ascii.eqb (at_ (T "0" ++ T (if upper then "X" else "x") ++ map (fun '(u, d) => hex_char u d) (combine us ds) ++ rest) 1) "X"))%bool = true) by (destruct upper; reflexivity).
  rewrite X. replace (skipn 2 (T "0" ++ T (if upper then "X" else "x") ++ map (fun '(u, d) => hex_char u d) (combine us ds) ++ rest)) with (map (fun '(u, d) => hex_char u d) (combine us ds) ++ rest) by (destruct upper; reflexivity).
  rewrite take_hex_spec by auto. destruct ds as [|d ds]; [congruence|]. set (dd := d :: ds) in *. split.
  - intros LE R. destruct (Z.ltb_spec (bits t - (if signed t then 1 else 0)) (Z.of_nat (List.length dd) * 4)); [lia|]. rewrite accumulate_spec by auto.
    assert (VB: forall l, Forall (fun d => 0 <= d <= 15) l -> 0 <= value 16 l < 16 ^ Z.of_nat (List.length l)).
    { induction l as [|x l IH] using rev_ind; intros HF; [cbn; lia|]. apply Forall_app in HF. destruct HF as (HF & HX). inversion_clear HX. specialize (IH HF). rewrite value_app, app_length. cbn [List.length]. change (Z.of_nat 1) with 1. rewrite Z.pow_1_r.
      replace (Z.of_nat (List.length l + 1)) with (Z.of_nat (List.length l) + 1) by lia. rewrite Z.pow_add_r by lia. unfold value at 2 4. cbn [fold_left]. lia. }
    assert (R0: representable t (value 16 dd)).
    { specialize (VB dd D). destruct (hi_lo t K) as (_ & B). split; [lia|]. replace (16 ^ Z.of_nat (List.length dd)) with (2 ^ (4 * Z.of_nat (List.length dd))) in VB by (rewrite Z.pow_mul_r by lia; reflexivity).
      assert (2 ^ (4 * Z.of_nat (List.length dd)) <= hi t); [|lia]. unfold hi. destruct (signed t); apply Z.pow_le_mono_r; lia. }
    rewrite wrap_id by auto. rewrite mul_ok; auto; [|destruct neg; cbn [signed_value] in R; [replace (value 16 dd * -1) with (- value 16 dd) by ring | rewrite Z.mul_1_r]; auto].
    f_equal. destruct neg; cbn [signed_value]; ring.
  - intros LT. destruct (Z.ltb_spec (bits t - (if signed t then 1 else 0)) (Z.of_nat (List.length dd) * 4)); [reflexivity | lia].
Qed.
Print Assumptions C40_hexadecimal.
(** so the hexadecimal form of a representable number can be rejected: for every signed type, the
    largest quarter... e.g. 2^60 for 64 bits *)
Theorem C40_hexadecimal_refuted : let t := mkTy 64 true in
  known_type t /\ representable t (2 ^ 60) /\ value 16 (numeral 16 (2 ^ 60)) = 2 ^ 60 /\
  string_to_integer t (T "0x1000000000000000") = Fails.
Proof. cbv zeta. split; [split; cbn; [auto|lia]|]. split; [unfold representable, lo, hi; cbn; lia|]. split; [apply numeral_spec; lia | vm_compute; reflexivity]. Qed.
Print Assumptions C40_hexadecimal_refuted.
(** exponents multiply by the power of ten when nothing overflows *)
Theorem C40_exponent : forall t n neg ds es (upper : bool), known_type t -> decimal_digits ds -> decimal_digits es -> value 10 es < 2 ^ 64 ->
  representable t (10 ^ value 10 es) -> representable t (value 10 ds) -> representable t (value 10 ds * 10 ^ value 10 es) -> representable t (signed_value neg (value 10 ds * 10 ^ value 10 es)) ->
  string_to_integer t (repeat " "%char n ++ sign_text neg ++ (map digit_char ds ++ T (if upper then "E" else "e") ++ map digit_char es)) = Ok (signed_value neg (value 10 ds * 10 ^ value 10 es)).
Proof.
  intros t n neg ds es upper K (HN & HD) (EN & ED) E64 R1 R2 R3 R4. destruct ds as [|d ds]; [congruence|]. inversion HD as [|? ? Hd Hds]; subst.
  rewrite start by auto. unfold body.
  set (rest := T (if upper then "E" else "e") ++ map digit_char es).
  assert (NX: (Ascii.eqb (at_ (map digit_char (d :: ds) ++ rest) 1) "x" || Ascii.eqb (at_ (map digit_char (d :: ds) ++ rest) 1) "X") = false).
  { unfold at_. destruct ds as [|d2 ds]; cbn [map app nth].
    - unfold rest. destruct upper; reflexivity.
    - inversion_clear Hds. pose proof (digit_code d2 H) as C. destruct (Ascii.eqb_spec (digit_char d2) "x") as [E|]; [rewrite E in C; change (code "x") with 120 in C; lia|].
      destruct (Ascii.eqb_spec (digit_char d2) "X") as [E|]; [rewrite E in C; change (code "X") with 88 in C; lia|]. reflexivity. }
  rewrite NX, andb_false_r. rewrite take_dec_spec; [|auto|destruct upper; reflexivity]. rewrite accumulate_spec, wrap_id by auto.
  assert (RS: exists c, rest = c :: map digit_char es /\ (Ascii.eqb c "e" || Ascii.eqb c "E") = true) by (unfold rest; destruct upper; eexists; split; reflexivity).
  destruct RS as (c & -> & CE). rewrite CE. pose proof (take_dec_spec es [] ED eq_refl) as TD. rewrite app_nil_r in TD. rewrite TD.
  assert (VP: forall l, Forall (fun d => 0 <= d <= 9) l -> 0 <= value 10 l).
  { induction l as [|x l IH] using rev_ind; intros HF; [cbn; lia|]. apply Forall_app in HF. destruct HF as (HF & HX). inversion_clear HX. specialize (IH HF). rewrite value_app. cbn [List.length]. unfold value at 2. cbn [fold_left]. lia. }
  pose proof (VP es ED) as PE. rewrite accumulate_spec by apply known_u64. rewrite wrap_id; [|apply known_u64|split; [cbn; lia | cbn [hi u64 signed bits]; lia]].
  assert (TT: forall k a, 0 <= a -> representable t (a * 10 ^ Z.of_nat k) -> times_ten t k a = Ok (a * 10 ^ Z.of_nat k)).
  { induction k; intros a Ha Ra; cbn [times_ten]; [f_equal; cbn; ring|]. replace (Z.of_nat (S k)) with (1 + Z.of_nat k) in * by lia. rewrite Z.pow_add_r in * by lia.
    assert (1 <= 10 ^ Z.of_nat k) by (pose proof (Z.pow_pos_nonneg 10 (Z.of_nat k)); lia). destruct (hi_lo t K) as (_ & B). rewrite mul_ok; auto.
    - cbn [bind]. rewrite IHk; [f_equal; ring | lia |]. replace (a * 10 * 10 ^ Z.of_nat k) with (a * (10 ^ 1 * 10 ^ Z.of_nat k)) by (change (10 ^ 1) with 10; ring). auto.
    - destruct Ra as (_ & Ra). change (10 ^ 1) with 10 in Ra. split; nia. }
  rewrite TT; [|lia|rewrite Z2Nat.id, Z.mul_1_l by lia; auto]. cbn [bind]. rewrite Z2Nat.id, Z.mul_1_l by lia. rewrite mul_ok by auto. cbn [bind].
  rewrite mul_ok; auto; [|destruct neg; cbn [signed_value] in R4; [replace (value 10 (d :: ds) * 10 ^ value 10 es * -1) with (- (value 10 (d :: ds) * 10 ^ value 10 es)) by ring | rewrite Z.mul_1_r]; auto].
  f_equal. destruct neg; cbn [signed_value]; ring.
Qed.
Print Assumptions C40_exponent.
(** text that contains no number at all is not reported *)
Theorem C40_garbage_refuted : forall t c s, known_type t -> ~ In c (T "0123456789 -eE") ->
  string_to_integer t (c :: s) = Ok 0.
Proof.
  intros t c s K N.
  assert (D : isdigit c = false) by (apply no_digit; intros J; apply N; cbn in *; tauto).
  assert (Q : forall x, In x (T " -eE") -> Ascii.eqb c x = false) by (intros x Hx; apply Ascii.eqb_neq; intros ->; apply N; cbn in *; tauto).
  assert (S := Q " "%char ltac:(cbn; tauto)). assert (M := Q "-"%char ltac:(cbn; tauto)). assert (E1 := Q "e"%char ltac:(cbn; tauto)). assert (E2 := Q "E"%char ltac:(cbn; tauto)). clear Q. unfold string_to_integer. cbn [skip_spaces]. rewrite S, M. change (at_ (c :: s) 0) with c.
  replace (Ascii.eqb c "0") with false by (symmetry; apply Ascii.eqb_neq; intros ->; discriminate). cbn [andb take_dec]. rewrite D, E1, E2. cbn [orb bind].
  rewrite accumulate_spec by auto. destruct (hi_lo t K) as (_ & B). rewrite wrap_id; [|auto|change (value 10 []) with 0; split; lia]. change (value 10 []) with 0.
  rewrite mul_ok; auto; try (rewrite Z.mul_0_l; split; lia).
Qed.
Print Assumptions C40_garbage_refuted.
Example C40_example : string_to_integer (mkTy 64 true) (T "  -9223372036854775807") = Ok (- 9223372036854775807) /\
  string_to_integer (mkTy 8 false) (T "0xFe") = Ok 254 /\ string_to_integer (mkTy 32 true) (T "12e3 m") = Ok 12000 /\ string_to_integer (mkTy 64 true) (T "-9223372036854775808") = UB.
Proof. repeat split; vm_compute; reflexivity. Qed.

(** C54: booleans *)
Theorem C54_roundtrip : forall b n m, to_bool (repeat " "%char n ++ of_bool b ++ repeat " "%char m) = Ok b.
Proof.
  intros b n m. unfold to_bool. assert (MR: forall k, map tolower (repeat " "%char k) = repeat " "%char k) by (induction k; cbn; auto; f_equal; auto).
  rewrite !map_app, !MR, skip_app.
  assert (RV: forall k, rev (repeat " "%char k) = repeat " "%char k).
  { induction k; cbn; auto. rewrite IHk. clear. induction k; cbn; auto. f_equal; auto. }
  assert (Q: forall w, w <> [] -> Ascii.eqb (hd nul w) " " = false -> Ascii.eqb (hd nul (rev w)) " " = false -> map tolower w = w -> 
     match skip_spaces (w ++ repeat " "%char m) with [] => UB | _ => bool_word (rev (skip_spaces (rev (skip_spaces (w ++ repeat " "%char m))))) end = bool_word w).
  { intros w W1 W2 W3 _. destruct w as [|c w]; [congruence|]. cbn [hd] in W2. cbn [app skip_spaces]. rewrite W2. change (c :: w ++ repeat " "%char m) with ((c :: w) ++ repeat " "%char m).
    rewrite rev_app_distr, RV, skip_app. destruct (rev (c :: w)) as [|x l] eqn:E; [apply (f_equal (@List.length ascii)) in E; rewrite rev_length in E; discriminate|].
    cbn [hd] in W3. cbn [skip_spaces]. rewrite W3, <- E, rev_involutive. reflexivity. }
  destruct b; rewrite Q; try reflexivity; discriminate.
Qed.
Print Assumptions C54_roundtrip.
(** a blank string is undefined behaviour, everything else is a boolean or an error *)
Theorem C54_blank_refuted : forall s, to_bool s = UB <-> exists n, s = repeat " "%char n.
Proof.
  intros s. unfold to_bool. split.
  - intros H. assert (E: skip_spaces (map tolower s) = []).
    { destruct (skip_spaces (map tolower s)); auto. unfold bool_word in H. repeat (match type of H with context [if ?b then _ else _] => destruct b end; try discriminate). }
    clear H. exists (List.length s). induction s as [|c s IH]; auto. cbn [map skip_spaces] in E. destruct (Ascii.eqb_spec (tolower c) " ") as [Q|]; [|discriminate].
    assert (c = " "%char). { unfold tolower in Q. destruct ((65 <=? code c) && (code c <=? 90))%bool eqn:R; auto. apply andb_prop in R. destruct R as (R1 & R2). apply Z.leb_le in R1, R2.
      apply (f_equal nat_of_ascii) in Q. rewrite nat_ascii_embedding in Q by lia. change (nat_of_ascii " ") with 32%nat in Q. lia. }
    subst c. cbn [List.length repeat]. f_equal. apply IH. auto.
  - intros (n & ->). assert (MR: map tolower (repeat " "%char n) = repeat " "%char n) by (induction n; cbn; auto; f_equal; auto). rewrite MR. rewrite <- (app_nil_r (repeat " "%char n)), skip_app. reflexivity.
Qed.
Print Assumptions C54_blank_refuted.
(** exactly these words, in any case and surrounded by blanks, are booleans *)
Theorem C54_words : forall n w m, Ascii.eqb (hd " "%char w) " " = false -> Ascii.eqb (last w " "%char) " " = false ->
  to_bool (repeat " "%char n ++ w ++ repeat " "%char m) =
    if existsb (fun x => if list_eq_dec ascii_dec (map tolower w) (T x) then true else false) ["true"; "yes"; "on"; "y"]%string then Ok true
    else if existsb (fun x => if list_eq_dec ascii_dec (map tolower w) (T x) then true else false) ["false"; "no"; "off"; "n"]%string then Ok false
    else Fails.
Proof.
  intros n w m H1 H2. unfold to_bool.
  assert (MR: forall k, map tolower (repeat " "%char k) = repeat " "%char k) by (induction k; cbn; auto; f_equal; auto).
  assert (RV: forall k, rev (repeat " "%char k) = repeat " "%char k).
  { induction k; cbn; auto. rewrite IHk. clear. induction k; cbn; auto. f_equal; auto. }
  assert (TS: forall c, Ascii.eqb c " " = false -> Ascii.eqb (tolower c) " " = false).
  { intros c Hc. apply Ascii.eqb_neq. intros Q. apply Ascii.eqb_neq in Hc. apply Hc. unfold tolower in Q. destruct ((65 <=? code c) && (code c <=? 90))%bool eqn:R; auto. apply andb_prop in R. destruct R as (R1 & R2). apply Z.leb_le in R1, R2.
    apply (f_equal nat_of_ascii) in Q. rewrite nat_ascii_embedding in Q by lia. change (nat_of_ascii " ") with 32%nat in Q. lia. }
  rewrite !map_app, !MR, skip_app. destruct w as [|c w]; [discriminate|]. cbn [hd] in H1. cbn [map app skip_spaces]. rewrite (TS c H1).
  change (tolower c :: map tolower w ++ repeat " "%char m) with (map tolower (c :: w) ++ repeat " "%char m).
  rewrite rev_app_distr, RV, skip_app.
  assert (E: skip_spaces (rev (map tolower (c :: w))) = rev (map tolower (c :: w))).
  { destruct (@exists_last _ (c :: w)) as (l & x & L); [discriminate|]. rewrite L in H2 |- *. rewrite last_last in H2. rewrite map_app, rev_app_distr. cbn [map rev app skip_spaces]. now rewrite (TS x H2). }
  rewrite E, rev_involutive. reflexivity.
Qed.
Print Assumptions C54_words.
Example C54_example : to_bool (T "  YES ") = Ok true /\ to_bool (T "maybe") = Fails /\ to_bool (T "  ") = UB.
Proof. repeat split; reflexivity. Qed.

(** C41 *)
Theorem C41_prime_factors : forall n, 1 <= n ->
  Forall prime (decompose n) /\ Sorted Z.le (decompose n) /\ fold_right Z.mul 1 (decompose n) = n.
Proof.
  assert (G: forall f d n, 2 <= d -> 1 <= n -> n - d < Z.of_nat f -> (forall q, 2 <= q < d -> ~ (q | n)) ->
    Forall prime (decompose_ f d n) /\ Sorted Z.le (decompose_ f d n) /\ HdRel Z.le d (decompose_ f d n) /\ fold_right Z.mul 1 (decompose_ f d n) = n).
  { assert (one: forall d n, 2 <= d -> 1 <= n -> n < d -> (forall q, 2 <= q < d -> ~ (q | n)) -> n = 1).
    { intros d n Hd Hn Hl HQ. destruct (Z.eq_dec n 1); auto. destruct (HQ n ltac:(lia)). apply Z.divide_refl. }
    induction f; intros d n Hd Hn HF HQ; cbn [decompose_].
    - rewrite (one d n) by (auto; lia). cbn. auto.
    - destruct (Z.leb_spec d n) as [L|L]; cbn [andb].
      2:{ rewrite (one d n) by auto. cbn. auto. }
      destruct (Z.ltb_spec 1 n) as [L1|L1]; [|lia].
      destruct (Z.eqb_spec (n mod d) 0) as [E|E].
      + apply Z.mod_divide in E; [|lia]. destruct E as (k & ->). rewrite Z.div_mul by lia. assert (1 <= k) by nia.
        assert (HQ': forall q, 2 <= q < d -> ~ (q | k)) by (intros q Hq (j & ->); apply (HQ q Hq); exists (j * d); ring).
        destruct (IHf d k) as (A & B & C & D); auto; [nia|].
        assert (PD: prime d).
        { apply prime_alt. split; [lia|]. intros m Hm Dm. apply (HQ m); [lia|]. apply Z.divide_mul_r; auto. }
        repeat split; try constructor; auto; [lia|]. cbn [fold_right]. rewrite D. ring.
      + assert (NE: n <> d) by (intros ->; apply E; apply Z.mod_same; lia). destruct (IHf (d + 1) n) as (A & B & C & D); try lia.
        { intros q Hq Dq. destruct (Z.eq_dec q d) as [->|]; [apply E; apply Z.mod_divide; auto; lia | apply (HQ q); auto; lia]. }
        repeat split; auto. destruct (decompose_ f (d + 1) n); constructor. inversion C. lia. }
  intros n Hn. unfold decompose. destruct (G (Z.to_nat n) 2 n) as (A & B & _ & D); auto; try lia.
Qed.
Print Assumptions C41_prime_factors.
(** the fuel of the model is not a restriction: more rounds change nothing *)
Theorem C41_terminates : forall n k, decompose_ (Z.to_nat n + k) 2 n = decompose n.
Proof.
  assert (G: forall f k d n, 2 <= d -> n - d < Z.of_nat f -> decompose_ (f + k) d n = decompose_ f d n).
  { induction f; intros k d n Hd HF.
    - cbn [Nat.add decompose_]. destruct k; cbn [decompose_]; auto. destruct (Z.leb_spec d n); [lia|]. reflexivity.
    - cbn [Nat.add decompose_]. destruct (Z.leb_spec d n); cbn [andb]; auto. destruct (Z.ltb_spec 1 n); auto. destruct (n mod d =? 0).
      + f_equal. apply IHf; auto. assert (n / d < n) by (apply Z.div_lt; lia). lia.
      + apply IHf; lia. }
  intros n k. apply G; lia.
Qed.
Print Assumptions C41_terminates.
(** one and below: no factors *)
Theorem C41_no_factors : forall n, n <= 1 -> decompose n = [].
Proof. intros n H. unfold decompose. destruct (Z.to_nat n); auto. cbn [decompose_]. destruct (Z.leb_spec 2 n); [lia|]. reflexivity. Qed.
Print Assumptions C41_no_factors.
Example C41_example : decompose 360 = [2; 2; 2; 3; 3; 5]. Proof. reflexivity. Qed.
