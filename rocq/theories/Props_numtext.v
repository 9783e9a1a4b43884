(** C92: numbers in parameter files. *)
From Coq Require Import List Ascii String ZArith Lia Bool Reals Lra.
From Flocq Require Import Core Relative.
From Coquelicot Require Import Complex.
From Verif Require Import Parse Yaml Units Props_parse NumText.
Import ListNotations.
Local Open Scope Z_scope.

(* ---------------------------------------------- specification *)

(** a decimal number as it is written: sign, digits before and after the point, exponent *)
Inductive expo := NoExp | Exp (upper : bool) (sign : option bool) (ds : list Z).
Record decimal := mkDec { minus : option bool; before : list Z; with_point : bool; after : list Z; expo_of : expo }.
Definition sign_str (s : option bool) : text := match s with None => [] | Some true => ["-"%char] | Some false => ["+"%char] end.
Definition expo_text (x : expo) : text := match x with NoExp => [] | Exp u s ds => (if u then "E"%char else "e"%char) :: sign_str s ++ map digit_char ds end.
Definition text_of (d : decimal) : text :=
  sign_str (minus d) ++ map digit_char (before d) ++ (if with_point d then "."%char :: map digit_char (after d) else []) ++ expo_text (expo_of d).
Definition digits_ok (ds : list Z) : Prop := Forall (fun d => 0 <= d <= 9) ds.
Definition well_formed (d : decimal) : Prop :=
  digits_ok (before d) /\ digits_ok (after d) /\ (with_point d = false -> after d = []) /\ before d ++ after d <> [] /\
  match expo_of d with NoExp => True | Exp _ _ ds => digits_ok ds /\ ds <> [] end.
Definition neg (s : option bool) (z : Z) : Z := match s with Some true => - z | _ => z end.
Definition expo_value (x : expo) : Z := match x with NoExp => 0 | Exp _ s ds => neg s (value 10 ds) end.
Definition value_of (d : decimal) : R := (IZR (neg (minus d) (value 10 (before d ++ after d))) * bpow ten (expo_value (expo_of d) - Z.of_nat (List.length (after d))))%R.
(** what follows is not taken for a part of the number *)
Definition separate (rest : text) : Prop := match rest with [] => True | c :: _ => ~ In c (T "0123456789") /\ ~ In c (T ".eExX") end.
(** neither very large nor very small *)
Definition moderate (x : R) : Prop := x = 0%R \/ (bpow ten (-200) <= Rabs x <= bpow ten 200)%R.

(* ---------------------------------------------- texts *)

Lemma digit_cases : forall d, 0 <= d <= 9 -> In d [0; 1; 2; 3; 4; 5; 6; 7; 8; 9].
Proof. intros d H. cbn [In]. lia. Qed.
Lemma isdigit_char : forall d, 0 <= d <= 9 -> isdigit (digit_char d) = true.
Proof. intros d H. apply digit_cases in H. cbn [In] in H. repeat (destruct H as [<-|H]; [reflexivity|]). destruct H. Qed.
Lemma code_char : forall d, 0 <= d <= 9 -> code (digit_char d) - 48 = d.
Proof. intros d H. apply digit_cases in H. cbn [In] in H. repeat (destruct H as [<-|H]; [reflexivity|]). destruct H. Qed.
Lemma take_digits : forall ds rest, digits_ok ds -> match rest with [] => True | c :: _ => isdigit c = false end -> take_dec (map digit_char ds ++ rest) = (ds, rest).
Proof.
  induction ds as [|d ds IH]; intros rest H R.
  - cbn [map app]. destruct rest as [|c r]; [reflexivity|]. cbn [take_dec]. rewrite R. reflexivity.
  - inversion_clear H. cbn [map app take_dec]. rewrite isdigit_char by auto. rewrite IH by auto. rewrite code_char by auto. reflexivity.
Qed.
Lemma number_value : forall ds, number ds = value 10 ds.
Proof. reflexivity. Qed.
Lemma sign_nodigit : forall s, match s with c :: _ => c <> "-"%char /\ c <> "+"%char | [] => True end -> sign_of s = (1, s).
Proof.
  intros [|c s] H; [reflexivity|]. cbn [sign_of]. destruct H as (A & B). destruct (Ascii.eqb_spec c "-"); [congruence|]. destruct (Ascii.eqb_spec c "+"); [congruence|]. reflexivity.
Qed.
Lemma sign_of_text : forall s r, match r with c :: _ => c <> "-"%char /\ c <> "+"%char | [] => True end -> sign_of (sign_str s ++ r) = (neg s 1, r).
Proof. intros [[|]|] r H; cbn [sign_str app neg]; [reflexivity|reflexivity|]. apply sign_nodigit. auto. Qed.
Lemma digit_nosign : forall d, 0 <= d <= 9 -> digit_char d <> "-"%char /\ digit_char d <> "+"%char /\ digit_char d <> "."%char /\ Ascii.eqb (tolower (digit_char d)) "i" = false /\ Ascii.eqb (tolower (digit_char d)) "n" = false
  /\ isspace (digit_char d) = false /\ (d <> 0 -> digit_char d <> "0"%char) /\ tolower (digit_char d) = digit_char d /\ Ascii.eqb (digit_char d) "x" = false.
Proof. intros d H. apply digit_cases in H. cbn [In] in H. repeat (destruct H as [<-|H]; [repeat split; try discriminate; try reflexivity; try lia; try (intros; lia)|]). destruct H. Qed.
Definition noblank (s : text) : Prop := match s with c :: _ => isspace c = false | [] => True end.
Lemma span_none : forall s, noblank s -> snd (span isspace s) = s.
Proof. intros [|c s] H; cbn [span]; [reflexivity|]. cbn in H. rewrite H. reflexivity. Qed.
Lemma span_spaces : forall n s, noblank s -> snd (span isspace (repeat " "%char n ++ s)) = s.
Proof.
  induction n as [|n IH]; intros s H; [apply span_none; auto|]. cbn [repeat app span]. change (isspace " ") with true. cbv iota. specialize (IH s H). destruct (span isspace (repeat " "%char n ++ s)). exact IH.
Qed.
Lemma text_eqb_false : forall a b, a <> b -> text_eqb a b = false.
Proof. intros a b H. unfold text_eqb. destruct (list_eq_dec ascii_dec a b); congruence. Qed.
Lemma not_exotic : forall s, match s with
   | c :: r => Ascii.eqb (tolower c) "i" = false /\ Ascii.eqb (tolower c) "n" = false /\ (c = "0"%char -> match r with x :: _ => Ascii.eqb (tolower x) "x" = false | [] => True end)
   | [] => True end -> exotic s = false.
Proof.
  intros [|c r] H; [reflexivity|]. destruct H as (A & B & D). unfold exotic, starts. rewrite !text_eqb_false; [reflexivity|..]; cbn [String.length firstn map]; intros E; inversion E as [[E1 E2]].
  - destruct r as [|x r]; cbn [firstn map] in E2; [discriminate|]. inversion E2 as [[E3]].
    assert (c = "0"%char). { destruct c as [[] [] [] [] [] [] [] []]; cbn in E1; try discriminate; reflexivity. }
    specialize (D H). cbn in D. rewrite E3 in D. discriminate.
  - rewrite E1 in B. discriminate.
  - rewrite E1 in A. discriminate.
Qed.
(** *** reading: every decimal number, correctly rounded *)
Lemma mantissa_text : forall a p b rest, digits_ok a -> digits_ok b -> (p = false -> b = []) ->
  match rest with [] => True | c :: _ => isdigit c = false /\ c <> "."%char end ->
  mantissa (map digit_char a ++ (if p : bool then "."%char :: map digit_char b else []) ++ rest) = (a ++ b, Z.of_nat (List.length b), rest).
Proof.
  intros a p b rest A B P R. unfold mantissa. destruct p.
  - cbn [app]. rewrite take_digits by (auto; reflexivity). cbv beta iota. cbn [Ascii.eqb Bool.eqb]. change (Ascii.eqb "." ".") with true. cbv iota. rewrite take_digits; auto. destruct rest; tauto.
  - rewrite P by auto. cbn [app]. rewrite take_digits; [|auto|destruct rest; tauto]. rewrite app_nil_r. destruct rest as [|c r]; [reflexivity|]. destruct (Ascii.eqb_spec c "."); [tauto|]. reflexivity.
Qed.
Lemma separate_digit : forall rest, separate rest -> match rest with [] => True | c :: _ => isdigit c = false end.
Proof. intros [|c r] H; [exact I | apply no_digit; apply H]. Qed.
Lemma exponent_text : forall x rest, match x with NoExp => True | Exp _ _ ds => digits_ok ds /\ ds <> [] end -> separate rest ->
  exponent (expo_text x ++ rest) = (expo_value x, rest).
Proof.
  intros x rest H S. destruct x as [|u s ds]; cbn [expo_text app].
  - destruct rest as [|c r]; [reflexivity|]. cbn [exponent expo_value]. destruct S as (_ & S). destruct (Ascii.eqb_spec c "e") as [->|]; [exfalso; apply S; cbn; auto|]. destruct (Ascii.eqb_spec c "E") as [->|]; [exfalso; apply S; cbn; auto|]. reflexivity.
  - destruct H as (D & N). cbn [exponent]. replace (Ascii.eqb (if u then "E"%char else "e"%char) "e" || Ascii.eqb (if u then "E"%char else "e"%char) "E") with true by (destruct u; reflexivity).
    rewrite <- app_assoc. rewrite sign_of_text by (destruct ds as [|d ds]; [congruence|]; inversion_clear D; cbn; pose proof (digit_nosign d ltac:(auto)); tauto).
    rewrite take_digits by (auto; apply separate_digit; exact S). destruct ds as [|d ds]; [congruence|]. cbn [expo_value]. rewrite number_value. f_equal. destruct s as [[|]|]; cbn [neg]; lia.
Qed.
Lemma noblank_text : forall d rest, well_formed d -> noblank (text_of d ++ rest).
Proof.
  intros d rest (A & B & P & N & _). unfold text_of. destruct (minus d) as [[|]|]; cbn [sign_str app noblank]; try reflexivity.
  destruct (before d) as [|x a]; cbn [map app] in *.
  - destruct (with_point d); [reflexivity|]. rewrite P in N by auto. congruence.
  - inversion_clear A. apply (digit_nosign x). auto.
Qed.
Theorem reading : forall other d n rest, well_formed d -> normal (value_of d) -> separate rest ->
  strtod other (repeat " "%char n ++ text_of d ++ rest) = Ok (dbl (value_of d), rest).
Proof.
  intros other d n rest W V S. pose proof (noblank_text d rest W) as NB. unfold strtod. rewrite span_spaces by exact NB. destruct W as (A & B & P & N & X).
  unfold text_of. rewrite <- !app_assoc.
  assert (HD: forall tl, match (map digit_char (before d) ++ (if with_point d then "."%char :: map digit_char (after d) else []) ++ tl) with
     | c :: r => (c <> "-"%char /\ c <> "+"%char) /\ Ascii.eqb (tolower c) "i" = false /\ Ascii.eqb (tolower c) "n" = false /\
        (c = "0"%char -> match tl with t :: _ => Ascii.eqb (tolower t) "x" = false | [] => True end -> match r with x :: _ => Ascii.eqb (tolower x) "x" = false | [] => True end)
     | [] => False end).
  { intros tl. destruct (before d) as [|x a]; cbn [map app] in *.
    - destruct (with_point d); [|rewrite P in N by auto; congruence]. cbn [app]. split; [split; discriminate|]. split; [reflexivity|]. split; [reflexivity|]. discriminate.
    - inversion_clear A as [|? ? Hx Ha]. pose proof (digit_nosign x Hx) as Q. split; [tauto|]. split; [tauto|]. split; [tauto|]. intros _ T0.
      destruct a as [|y a]; cbn [map app].
      + destruct (with_point d); cbn [app]; [reflexivity|exact T0].
      + inversion_clear Ha as [|? ? Hy _]. pose proof (digit_nosign y Hy) as (_ & _ & _ & _ & _ & _ & _ & E1 & E2). rewrite E1, E2. reflexivity. }
  assert (TX: match expo_text (expo_of d) ++ rest with t :: _ => Ascii.eqb (tolower t) "x" = false | [] => True end).
  { destruct (expo_of d) as [|u s ds]; cbn [expo_text app].
    - destruct rest as [|c r]; auto. destruct S as (_ & S). apply Ascii.eqb_neq. intros E. apply S. assert (c = "x"%char \/ c = "X"%char) as [->| ->] by (destruct c as [[] [] [] [] [] [] [] []]; cbn in E; try discriminate; auto); cbn; tauto.
    - destruct u; reflexivity. }
  specialize (HD (expo_text (expo_of d) ++ rest)).
  rewrite sign_of_text by (destruct (map digit_char (before d) ++ _); tauto). cbv beta iota.
  rewrite not_exotic.
  2:{ destruct (map digit_char (before d) ++ _) as [|c r]; [auto|]. destruct HD as (_ & H1 & H2 & H3). split; [exact H1|]. split; [exact H2|]. intros E0. exact (H3 E0 TX). }
  rewrite mantissa_text; auto.
  2:{ destruct (expo_of d) as [|u s ds]; cbn [expo_text app]; [destruct rest as [|c r]; auto; destruct S as (S1 & S2); apply no_digit in S1; split; auto; intros ->; apply S2; cbn; auto | destruct u; split; try reflexivity; discriminate]. }
  rewrite exponent_text by auto. rewrite number_value.
  assert (EV: (IZR (neg (minus d) 1 * value 10 (before d ++ after d)) * bpow ten (expo_value (expo_of d) - Z.of_nat (List.length (after d))))%R = value_of d).
  { unfold value_of. f_equal. f_equal. destruct (minus d) as [[|]|]; cbn [neg]; lia. }
  destruct (before d ++ after d) as [|q l] eqn:E; [congruence|]. rewrite EV. destruct (normal_dec (value_of d)); [reflexivity|contradiction].
Qed.

(* ---------------------------------------------- writing *)

Lemma drop0_spec : forall ds, exists k, ds = repeat 0 k ++ drop0 ds.
Proof.
  induction ds as [|d ds (k & E)]; [exists 0%nat; reflexivity|]. cbn [drop0]. destruct (Z.eq_dec d 0) as [->|N].
  - exists (S k). cbn [repeat app]. f_equal. exact E.
  - exists 0%nat. destruct d; [congruence|reflexivity|reflexivity].
Qed.
Lemma rev_repeat0 : forall k, rev (repeat 0 k) = repeat 0 k.
Proof. induction k as [|k IH]; [reflexivity|]. cbn [repeat rev]. rewrite IH. clear. induction k; [reflexivity|]. cbn [repeat app]. f_equal. exact IHk. Qed.
Lemma no_zeros_spec : forall ds, exists k, ds = no_zeros ds ++ repeat 0 k.
Proof.
  intros ds. destruct (drop0_spec (rev ds)) as (k & E). exists k. rewrite <- (rev_involutive ds) at 1. rewrite E, rev_app_distr, rev_repeat0. reflexivity.
Qed.
Lemma value_zeros : forall k, value 10 (repeat 0 k) = 0.
Proof. induction k as [|k IH]; [reflexivity|]. change (repeat 0 (S k)) with ([0] ++ repeat 0 k). rewrite value_app, IH. reflexivity. Qed.
Lemma value_no_zeros : forall a b, (IZR (value 10 (a ++ no_zeros b)) * bpow ten (- Z.of_nat (List.length (no_zeros b))) = IZR (value 10 (a ++ b)) * bpow ten (- Z.of_nat (List.length b)))%R.
Proof.
  intros a b. destruct (no_zeros_spec b) as (k & E). revert E. generalize (no_zeros b). intros c E. subst b. rewrite app_assoc, (value_app 10 (a ++ c) (repeat 0 k)), value_zeros, Z.add_0_r, app_length, repeat_length.
  rewrite mult_IZR, Nat2Z.inj_add, Z.opp_add_distr, bpow_plus. change (10 ^ Z.of_nat k) with (ten ^ Z.of_nat k). rewrite IZR_Zpower by lia.
  rewrite (bpow_opp ten (Z.of_nat k)). field. apply Rgt_not_eq, bpow_gt_0.
Qed.
Lemma ok_app : forall a b, digits_ok (a ++ b) <-> digits_ok a /\ digits_ok b.
Proof. intros. apply Forall_app. Qed.
Lemma ok_no_zeros : forall ds, digits_ok ds -> digits_ok (no_zeros ds).
Proof. intros ds H. destruct (no_zeros_spec ds) as (k & E). rewrite E in H. apply ok_app in H. tauto. Qed.
Lemma digits6_ok : forall m, 100000 <= m < 1000000 -> digits_ok (digits6 m) /\ value 10 (digits6 m) = m /\ 1 <= m / 100000.
Proof.
  intros m H. split; [|split].
  - repeat constructor; try (apply Z.mod_pos_bound; lia); try (pose proof (Z.mod_pos_bound (m / 10000) 10); pose proof (Z.mod_pos_bound (m / 1000) 10); pose proof (Z.mod_pos_bound (m / 100) 10); pose proof (Z.mod_pos_bound (m / 10) 10); pose proof (Z.mod_pos_bound m 10); lia).
    + apply Z.div_pos; lia.
    + assert (m / 100000 < 10) by (apply Z.div_lt_upper_bound; lia). lia.
  - unfold digits6, value. cbn [fold_left].
    pose proof (Z.div_mod m 10 ltac:(lia)) as E1. pose proof (Z.div_mod (m / 10) 10 ltac:(lia)) as E2. rewrite Z.div_div in E2 by lia.
    pose proof (Z.div_mod (m / 100) 10 ltac:(lia)) as E3. rewrite Z.div_div in E3 by lia. pose proof (Z.div_mod (m / 1000) 10 ltac:(lia)) as E4. rewrite Z.div_div in E4 by lia.
    pose proof (Z.div_mod (m / 10000) 10 ltac:(lia)) as E5. rewrite Z.div_div in E5 by lia. change (10 * 10) with 100 in *. change (100 * 10) with 1000 in *. change (1000 * 10) with 10000 in *. change (10000 * 10) with 100000 in *. lia.
  - apply Z.div_le_lower_bound; lia.
Qed.
Definition put_point (ds : list Z) : bool := match ds with [] => false | _ => true end.
Lemma point_text : forall ds, point ds = if put_point ds then "."%char :: map digit_char ds else [].
Proof. intros [|d ds]; reflexivity. Qed.
Lemma put_point_false : forall ds, put_point ds = false -> ds = [].
Proof. intros [|]; auto. discriminate. Qed.
Lemma firstn_ok : forall n ds, digits_ok ds -> digits_ok (firstn n ds) /\ digits_ok (skipn n ds).
Proof. intros n ds H. apply ok_app. rewrite firstn_skipn. exact H. Qed.
Lemma exponent_digits_ok : forall x, 0 <= x < 1000 -> digits_ok (exponent_digits x) /\ exponent_digits x <> [] /\ value 10 (exponent_digits x) = x.
Proof.
  intros x H. unfold exponent_digits. destruct (Z.ltb_spec x 100).
  - pose proof (Z.mod_pos_bound x 10 ltac:(lia)). pose proof (Z.div_pos x 10 ltac:(lia) ltac:(lia)). assert (x / 10 < 10) by (apply Z.div_lt_upper_bound; lia).
    split; [repeat constructor; lia|]. split; [discriminate|]. unfold value. cbn [fold_left]. pose proof (Z.div_mod x 10 ltac:(lia)). lia.
  - pose proof (Z.mod_pos_bound x 10 ltac:(lia)). pose proof (Z.mod_pos_bound (x / 10) 10 ltac:(lia)). pose proof (Z.div_pos x 100 ltac:(lia) ltac:(lia)). assert (x / 100 < 10) by (apply Z.div_lt_upper_bound; lia).
    split; [repeat constructor; lia|]. split; [discriminate|]. unfold value. cbn [fold_left]. pose proof (Z.div_mod x 10 ltac:(lia)). pose proof (Z.div_mod (x / 10) 10 ltac:(lia)) as EE. rewrite Z.div_div in EE by lia. change (10 * 10) with 100 in EE. lia.
Qed.
Lemma general_text : forall m e s, 100000 <= m < 1000000 -> -1000 < e < 1000 ->
  exists d, minus d = s /\ sign_str s ++ general m e = text_of d /\ well_formed d /\ value_of d = (IZR (neg s m) * bpow ten (e - 5))%R.
Proof.
  intros m e s H He. destruct (digits6_ok m H) as (OK & VAL & FST). set (ds := digits6 m) in *.
  assert (LEN: List.length ds = 6%nat) by reflexivity.
  assert (NEG: forall a b z, (IZR a * bpow ten b = IZR m * bpow ten z -> IZR (neg s a) * bpow ten b = IZR (neg s m) * bpow ten z)%R).
  { intros a b z E. destruct s as [[|]|]; cbn [neg]; auto. rewrite !opp_IZR. lra. }
  unfold general. fold ds. destruct ((-4 <=? e) && (e <? 6)) eqn:R; [apply andb_true_iff in R; rewrite Z.leb_le, Z.ltb_lt in R; destruct (Z.leb_spec 0 e) as [P|P]|].
  - set (n := Z.to_nat (e + 1)). destruct (firstn_ok n ds OK) as (O1 & O2). set (a := firstn n ds) in *. set (b := skipn n ds) in *.
    assert (LA: List.length a = n) by (unfold a; rewrite firstn_length, LEN; lia).
    assert (LB: List.length b = (6 - n)%nat) by (unfold b; rewrite skipn_length, LEN; lia).
    exists (mkDec s a (put_point (no_zeros b)) (no_zeros b) NoExp). split; [reflexivity|]. split; [|split].
    + unfold text_of. cbn [minus before with_point after expo_of expo_text]. rewrite app_nil_r, point_text. reflexivity.
    + unfold well_formed. cbn [minus before with_point after expo_of]. split; [exact O1|]. split; [apply ok_no_zeros; exact O2|]. split; [apply put_point_false|]. split; [|exact I].
      intros E. apply app_eq_nil in E. destruct E as (E & _). rewrite E in LA. cbn in LA. lia.
    + unfold value_of. cbn [minus before with_point after expo_of expo_value]. apply NEG. rewrite Z.sub_0_l, value_no_zeros. unfold a, b. rewrite firstn_skipn, VAL. fold b. rewrite LB. f_equal. f_equal. lia.
  - set (k := Z.to_nat (- e - 1)). exists (mkDec s [0] true (repeat 0 k ++ no_zeros ds) NoExp). split; [reflexivity|]. split; [|split].
    + unfold text_of. cbn [minus before with_point after expo_of expo_text]. rewrite app_nil_r. cbn [map app]. f_equal. f_equal. unfold point. destruct (repeat 0 k ++ no_zeros ds) eqn:E; [|reflexivity].
      exfalso. apply app_eq_nil in E. destruct E as (_ & E). destruct (no_zeros_spec ds) as (j & Ej). rewrite E in Ej. cbn [app] in Ej. assert (V0: value 10 ds = 0) by (rewrite Ej; apply value_zeros). lia.
    + unfold well_formed. cbn [minus before with_point after expo_of]. split; [repeat constructor; lia|]. split; [|split; [discriminate|split; [discriminate|exact I]]].
      apply ok_app. split; [|apply ok_no_zeros; exact OK]. clear. induction k; constructor; auto; lia.
    + unfold value_of. cbn [minus before with_point after expo_of expo_value]. apply NEG. rewrite Z.sub_0_l.
      assert (VA: value 10 ([0] ++ repeat 0 k ++ no_zeros ds) = value 10 ([] ++ no_zeros ds)). { rewrite app_assoc, value_app. change ([0] ++ repeat 0 k) with (repeat 0 (S k)). rewrite value_zeros. cbn [app]. lia. }
      rewrite VA, app_length, repeat_length, Nat2Z.inj_add, Z.opp_add_distr, Z.add_comm, bpow_plus, <- Rmult_assoc, value_no_zeros. cbn [app]. rewrite VAL, LEN, Rmult_assoc, <- bpow_plus. f_equal. f_equal. lia.
  - destruct (exponent_digits_ok (Z.abs e) ltac:(lia)) as (X1 & X2 & X3). destruct (firstn_ok 1 ds OK) as (O1 & O2). set (a := firstn 1 ds) in *. set (b := skipn 1 ds) in *.
    assert (LB: List.length b = 5%nat) by reflexivity.
    exists (mkDec s a (put_point (no_zeros b)) (no_zeros b) (Exp false (Some (e <? 0)) (exponent_digits (Z.abs e)))). split; [reflexivity|]. split; [|split].
    + unfold text_of. cbn [minus before with_point after expo_of expo_text]. rewrite point_text. destruct (e <? 0); reflexivity.
    + unfold well_formed. cbn [minus before with_point after expo_of]. split; [exact O1|]. split; [apply ok_no_zeros; exact O2|]. split; [apply put_point_false|]. split; [discriminate|]. auto.
    + unfold value_of. cbn [minus before with_point after expo_of expo_value]. apply NEG. unfold Z.sub. rewrite bpow_plus, (Rmult_comm (bpow ten (neg _ _))), <- Rmult_assoc, value_no_zeros. unfold a, b. rewrite firstn_skipn, VAL. fold b. rewrite LB, X3, Rmult_assoc, <- bpow_plus. f_equal. f_equal.
      destruct (Z.ltb_spec e 0); cbn [neg]; lia.
Qed.

(* ---------------------------------------------- six digits *)

Local Open Scope R_scope.
Lemma pow5 : bpow ten 5 = 100000. Proof. change (bpow ten 5) with (IZR 100000). reflexivity. Qed.
Lemma pow6 : bpow ten 6 = 1000000. Proof. change (bpow ten 6) with (IZR 1000000). reflexivity. Qed.
Lemma scaled : forall a e, a * bpow ten (5 - e) * bpow ten (e - 5) = a.
Proof. intros a e. rewrite Rmult_assoc, <- bpow_plus. replace (5 - e + (e - 5))%Z with 0%Z by lia. change (bpow ten 0) with 1. ring. Qed.
Theorem six_accurate : forall a, 0 < a -> (100000 <= fst (six a) < 1000000)%Z /\ Rabs (IZR (fst (six a)) * bpow ten (snd (six a) - 5) - a) <= 5 / 1000000 * a
  /\ (mag ten a - 1 <= snd (six a) <= mag ten a)%Z.
Proof.
  intros a Ha. unfold six. set (e := (mag ten a - 1)%Z). set (t := a * bpow ten (5 - e)). set (m := ZnearestE t).
  pose proof (bpow_mag_le ten a ltac:(lra)) as LO. pose proof (bpow_mag_gt ten a) as HI. rewrite Rabs_pos_eq in LO, HI by lra. fold e in LO.
  pose proof (bpow_gt_0 ten (5 - e)) as P. pose proof (bpow_gt_0 ten (e - 5)) as P'.
  assert (T1: 100000 <= t). { unfold t. rewrite <- pow5. replace 5%Z with (e + (5 - e))%Z at 1 by lia. rewrite bpow_plus. apply Rmult_le_compat_r; lra. }
  assert (T2: t < 1000000). { unfold t. rewrite <- pow6. replace 6%Z with (mag ten a + (5 - e))%Z by (unfold e; lia). rewrite bpow_plus. apply Rmult_lt_compat_r; lra. }
  pose proof (Znearest_half (fun x => negb (Z.even x)) t) as H. fold m in H. assert (HB: IZR m - / 2 <= t <= IZR m + / 2) by (apply Rabs_le_inv in H; lra).
  assert (M1: (100000 <= m)%Z). { apply Z.lt_pred_le. apply lt_IZR. rewrite Z.sub_1_r || idtac. replace (Z.pred 100000) with 99999%Z by reflexivity. lra. }
  assert (M2: (m <= 1000000)%Z). { apply Z.lt_succ_r. apply lt_IZR. replace (Z.succ 1000000) with 1000001%Z by reflexivity. lra. }
  assert (AC: Rabs (IZR m * bpow ten (e - 5) - a) <= 5 / 1000000 * a).
  { rewrite <- (scaled a e). fold t. rewrite <- Rmult_minus_distr_r, Rabs_mult, (Rabs_pos_eq (bpow ten (e - 5))) by lra.
    rewrite Rabs_minus_sym. replace (5 / 1000000 * (t * bpow ten (e - 5))) with (5 / 1000000 * t * bpow ten (e - 5)) by ring. apply Rmult_le_compat_r; lra. }
  destruct (Z.eqb_spec m 1000000) as [E|N]; cbn [fst snd].
  - split; [lia|]. split; [|unfold e; lia]. rewrite E in AC. replace (e + 1 - 5)%Z with (1 + (e - 5))%Z by lia. rewrite bpow_plus. change (bpow ten 1) with 10. replace (IZR 100000 * (10 * bpow ten (e - 5))) with (IZR 1000000 * bpow ten (e - 5)) by ring. exact AC.
  - split; [lia|]. split; [exact AC|unfold e; lia].
Qed.
Theorem six_stable : forall m e x, (100000 <= m < 1000000)%Z -> Rabs (x - IZR m * bpow ten (e - 5)) <= / 10 ^ 12 * (IZR m * bpow ten (e - 5)) -> six x = (m, e).
Proof.
  intros m e x Hm Hx. set (v := IZR m * bpow ten (e - 5)) in *. set (q := bpow ten (e - 5)) in *. assert (Q: 0 < q) by apply bpow_gt_0.
  assert (M1: 100000 <= IZR m) by (apply IZR_le; lia). assert (M2: IZR m <= 999999) by (apply IZR_le; lia). apply Rabs_le_inv in Hx.
  assert (E6: bpow ten (e + 1) = 1000000 * q) by (unfold q; rewrite <- pow6, <- bpow_plus; f_equal; lia).
  assert (E5: bpow ten e = 100000 * q) by (unfold q; rewrite <- pow5, <- bpow_plus; f_equal; lia).
  assert (E4: bpow ten (e - 1) = 10000 * q) by (unfold q; change 10000 with (bpow ten 4); rewrite <- bpow_plus; f_equal; lia).
  assert (E12: / 10 ^ 12 = / 1000000000000) by (f_equal; ring). rewrite E12 in Hx. set (eps := / 1000000000000) in *. assert (EP: 0 < eps <= / 1000000000000) by (unfold eps; lra). clearbody eps.
  assert (V: v = IZR m * q) by reflexivity. assert (D1: eps * v <= / 1000000000000 * (1000000 * q)). { rewrite V. apply Rmult_le_compat; try lra. nra. nra. }
  assert (X1: v - / 1000000 * q <= x <= v + / 1000000 * q) by lra. clear Hx D1. clearbody v.
  assert (XP: 0 < x) by nra.
  assert (NEAR: forall (n : Z) s, Rabs (s - IZR n) < / 2 -> ZnearestE s = n) by (intros n s H; apply Znearest_imp; exact H).
  unfold six. destruct (Rle_dec (bpow ten e) x) as [L|L].
  - assert (MG: mag ten x = (e + 1)%Z :> Z). { apply mag_unique_pos. replace (e + 1 - 1)%Z with e by lia. split; [exact L|]. rewrite E6. nra. }
    rewrite MG. replace (e + 1 - 1)%Z with e by lia. rewrite (NEAR m).
    + destruct (Z.eqb_spec m 1000000); [lia|]. reflexivity.
    + assert (I: q * bpow ten (5 - e) = 1) by (unfold q; rewrite <- bpow_plus; replace (e - 5 + (5 - e))%Z with 0%Z by lia; reflexivity). pose proof (bpow_gt_0 ten (5 - e)) as B. set (b := bpow ten (5 - e)) in *.
      assert (x * b - IZR m = (x - v) * b) by (rewrite V; transitivity (x * b - IZR m * (q * b)); [rewrite I; ring|ring]). rewrite H. apply Rabs_def1; nra.
  - assert (M: m = 100000%Z). { destruct (Z.eq_dec m 100000); auto. exfalso. apply L. rewrite E5. assert (100001 <= IZR m) by (apply IZR_le; lia). nra. }
    assert (MG: mag ten x = e :> Z). { apply mag_unique_pos. split; [rewrite E4; rewrite V, M in X1; nra|lra]. }
    rewrite MG. rewrite (NEAR 1000000%Z).
    + cbn [Z.eqb Pos.eqb]. rewrite M. f_equal. lia.
    + assert (I: 100000 * q * bpow ten (5 - (e - 1)) = 1000000). { rewrite <- E5, <- bpow_plus, <- pow6. f_equal. lia. } pose proof (bpow_gt_0 ten (5 - (e - 1))) as B. set (b := bpow ten (5 - (e - 1))) in *.
      rewrite M in V. assert (x * b - IZR 1000000 = (x - v) * b) by (rewrite <- I, V; ring). rewrite H. assert (q * b = 10) by lra. apply Rabs_def1; nra.
Qed.

(* ---------------------------------------------- binary64 *)

Lemma ten_two : forall n, (0 <= n)%Z -> bpow ten n <= bpow radix2 (4 * n).
Proof.
  intros n H. rewrite <- !IZR_Zpower by lia. apply IZR_le. rewrite Z.pow_mul_r by lia. apply Z.pow_le_mono_l. split; [discriminate|]. cbn. discriminate.
Qed.
Lemma dbl_near : forall v, normal v -> Rabs (dbl v - v) <= / 10 ^ 12 * Rabs v.
Proof.
  intros v [->|H]; [unfold dbl; rewrite round_0; [|apply valid_rnd_N]; rewrite Rminus_0_r, Rabs_R0; lra|].
  unfold dbl. eapply Rle_trans; [apply (relative_error_N_FLT radix2 (-1074) 53 ltac:(reflexivity) (fun x => negb (Z.even x)) v); apply H|].
  apply Rmult_le_compat_r; [apply Rabs_pos|]. replace (- (53) + 1)%Z with (-52)%Z by lia. change (bpow radix2 (-52)) with (/ IZR 4503599627370496). lra.
Qed.
Lemma moderate_normal : forall v x, moderate x -> x <> 0 -> Rabs (v - x) <= / 10 * Rabs x -> normal v.
Proof.
  intros v x [->|H] N E; [congruence|]. right. assert (A: / 10 * bpow ten (-200) <= Rabs v <= 10 * bpow ten 200).
  { split_Rabs; lra. }
  assert (L: bpow radix2 (-1022) <= / 10 * bpow ten (-200)).
  { change (/ 10) with (bpow ten (-1)). rewrite <- bpow_plus. change (-1 + -200)%Z with (- (201))%Z. rewrite (bpow_opp ten 201). change (-1022)%Z with (- (1022))%Z. rewrite (bpow_opp radix2 1022). apply Rinv_le; [apply bpow_gt_0|].
    eapply Rle_trans; [apply ten_two; lia|]. apply bpow_le. lia. }
  assert (U: 10 * bpow ten 200 <= bpow radix2 1023).
  { change 10 with (bpow ten 1). rewrite <- bpow_plus. eapply Rle_trans; [apply ten_two; lia|]. apply bpow_le. lia. }
  lra.
Qed.
Lemma moderate_mag : forall x, moderate x -> x <> 0 -> (-200 <= mag ten (Rabs x) <= 201)%Z.
Proof.
  intros x [->|H] N; [congruence|]. rewrite mag_abs. split.
  - apply Z.lt_le_incl. apply mag_gt_bpow. lra.
  - apply mag_le_bpow; auto. eapply Rle_lt_trans; [apply H|]. apply bpow_lt. lia.
Qed.

(* ---------------------------------------------- theorems *)

(** *** every decimal number is read as the double nearest to it, and the text after it is left *)
Theorem C92_reading : forall other d n rest, well_formed d -> normal (value_of d) -> separate rest ->
  strtod other (repeat " "%char n ++ text_of d ++ rest) = Ok (dbl (value_of d), rest).
Proof. exact reading. Qed.
Print Assumptions C92_reading.
Example C92_reading_example : forall other, exists d, text_of d = T "-12.50e-1" /\ value_of d = -1.25 /\ strtod other (T "  -12.50e-1 m") = Ok (dbl (-1.25), T " m").
Proof.
  intros other. exists (mkDec (Some true) [1; 2]%Z true [5; 0]%Z (Exp false (Some true) [1%Z])). split; [reflexivity|].
  assert (V: value_of (mkDec (Some true) [1; 2]%Z true [5; 0]%Z (Exp false (Some true) [1%Z])) = -1.25).
  { match goal with |- ?a = _ => change a with (IZR (-1250) * bpow ten (-3)) end. change (bpow ten (-3)) with (/ 1000). lra. }
  split; [exact V|]. rewrite <- V. apply (C92_reading other (mkDec (Some true) [1; 2]%Z true [5; 0]%Z (Exp false (Some true) [1%Z])) 2 (T " m")).
  - repeat split; cbn; try discriminate; repeat constructor; try lia; try discriminate.
  - rewrite V. right. rewrite Rabs_left by lra. split; [apply Rle_trans with (bpow radix2 0); [apply bpow_le; lia|change (bpow radix2 0) with 1; lra] | apply Rle_trans with (bpow radix2 1); [change (bpow radix2 1) with 2; lra|apply bpow_le; lia]].
  - split; [apply no_digit; reflexivity|]. cbn. intros [E|[E|[E|[E|[E|[]]]]]]; discriminate.
Qed.

Definition minus_of (x : R) : option bool := if Rlt_dec x 0 then Some true else None.
Lemma neg_abs : forall x m q, 0 < q -> Rabs x = IZR m * q -> x = IZR (neg (minus_of x) m) * q.
Proof.
  intros x m q Q H. unfold minus_of. destruct (Rlt_dec x 0) as [L|L]; cbn [neg]; [rewrite Rabs_left in H by auto; rewrite opp_IZR; lra|rewrite Rabs_pos_eq in H by lra; exact H].
Qed.
Lemma show_nonzero : forall x, x <> 0 -> show_double x = sign_str (minus_of x) ++ general (fst (six (Rabs x))) (snd (six (Rabs x))).
Proof. intros x N. unfold show_double, minus_of. destruct (Req_EM_T x 0); [contradiction|]. destruct (Rlt_dec x 0); reflexivity. Qed.
Lemma show_near : forall s m e x, (100000 <= m < 1000000)%Z -> s = None \/ s = Some true ->
  Rabs (x - IZR (neg s m) * bpow ten (e - 5)) <= / 10 ^ 12 * (IZR m * bpow ten (e - 5)) -> x <> 0 /\ show_double x = sign_str s ++ general m e.
Proof.
  intros s m e x Hm Hs H. pose proof (bpow_gt_0 ten (e - 5)) as Q. assert (M1: 100000 <= IZR m) by (apply IZR_le; lia). set (v := IZR m * bpow ten (e - 5)) in *. assert (V: 0 < v) by (unfold v; nra).
  assert (E12: / 10 ^ 12 = / 1000000000000) by (f_equal; ring).
  destruct Hs as [-> | ->]; cbn [neg] in H; [|rewrite opp_IZR, Ropp_mult_distr_l_reverse in H]; fold v in H; rewrite E12 in H.
  - assert (X: 0 < x) by (apply Rabs_le_inv in H; lra). split; [lra|]. rewrite show_nonzero by lra. unfold minus_of. destruct (Rlt_dec x 0); [lra|]. rewrite Rabs_pos_eq by lra. rewrite (six_stable m e x Hm); [reflexivity|]. fold v. rewrite E12. exact H.
  - assert (X: x < 0) by (apply Rabs_le_inv in H; lra). split; [lra|]. rewrite show_nonzero by lra. unfold minus_of. destruct (Rlt_dec x 0); [|lra]. rewrite Rabs_left by lra. rewrite (six_stable m e (- x) Hm); [reflexivity|]. fold v. rewrite E12.
    replace (- x - v) with (- (x - - v)) by ring. rewrite Rabs_Ropp. exact H.
Qed.
(** what is printed for x is a decimal number of six digits near x *)
Lemma shown : forall x, moderate x -> exists d, show_double x = text_of d /\ well_formed d /\ normal (value_of d) /\ Rabs (value_of d - x) <= 5 / 1000000 * Rabs x /\
  (forall y, Rabs (y - value_of d) <= / 10 ^ 12 * Rabs (value_of d) -> show_double y = show_double x).
Proof.
  intros x M. destruct (Req_EM_T x 0) as [->|N].
  - exists (mkDec None [0%Z] false [] NoExp). assert (V: value_of (mkDec None [0%Z] false [] NoExp) = 0) by (unfold value_of; cbn [minus before after expo_of expo_value neg app List.length]; change (value 10 [0%Z]) with 0%Z; ring). rewrite V.
    split; [unfold show_double; destruct (Req_EM_T 0 0); [reflexivity|congruence]|]. split; [repeat split; cbn; auto; try discriminate; repeat constructor; lia|]. split; [left; reflexivity|]. split; [rewrite Rminus_0_r, Rabs_R0; lra|].
    intros y H. rewrite Rminus_0_r, Rabs_R0, Rmult_0_r in H. f_equal. pose proof (Rabs_pos y). destruct (Req_EM_T y 0) as [|E]; auto. pose proof (Rabs_pos_lt y E). lra.
  - pose proof (Rabs_pos_lt x N) as PX. destruct (six_accurate (Rabs x) PX) as (HM & HA & HE). pose proof (moderate_mag x M N) as MG. set (m := fst (six (Rabs x))) in *. set (e := snd (six (Rabs x))) in *.
    destruct (general_text m e (minus_of x) HM ltac:(lia)) as (d & D1 & D2 & D3 & D4). pose proof (bpow_gt_0 ten (e - 5)) as Q. assert (M1: 100000 <= IZR m) by (apply IZR_le; lia).
    assert (AC: Rabs (value_of d - x) <= 5 / 1000000 * Rabs x).
    { rewrite D4. unfold minus_of. destruct (Rlt_dec x 0) as [L|L]; cbn [neg].
      - rewrite opp_IZR. rewrite (Rabs_left x) in HA |- * by auto. replace (- IZR m * bpow ten (e - 5) - x) with (- (IZR m * bpow ten (e - 5) - - x)) by ring. rewrite Rabs_Ropp. exact HA.
      - rewrite (Rabs_pos_eq x) in HA |- * by lra. exact HA. }
    exists d. split; [rewrite show_nonzero by auto; exact D2|]. split; [exact D3|]. split; [|split; [exact AC|]].
    + apply (moderate_normal _ x); auto. eapply Rle_trans; [exact AC|]. apply Rmult_le_compat_r; lra.
    + intros y Hy. rewrite (show_nonzero x N). fold m e. apply (show_near (minus_of x) m e y HM).
      * unfold minus_of. destruct (Rlt_dec x 0); auto.
      * rewrite <- D4. eapply Rle_trans; [exact Hy|]. rewrite D4. apply Rmult_le_compat_l; [apply Rlt_le, Rinv_0_lt_compat, pow_lt; lra|]. rewrite Rabs_mult, (Rabs_pos_eq (bpow _ _)) by lra. apply Rmult_le_compat_r; [lra|].
        unfold minus_of. destruct (Rlt_dec x 0); cbn [neg]; rewrite ?opp_IZR, ?Rabs_Ropp, Rabs_pos_eq by lra; lra.
Qed.
(** *** printing and reading again changes a number by at most 5.001 millionths of it, and once printed it does not change any more *)
Theorem C92_print_read : forall other x n rest, moderate x -> separate rest ->
  exists y, strtod other (repeat " "%char n ++ show_double x ++ rest) = Ok (y, rest) /\ Rabs (y - x) <= 5001 / 1000000000 * Rabs x /\ show_double y = show_double x.
Proof.
  intros other x n rest M S. destruct (shown x M) as (d & D1 & D2 & D3 & D4 & D5). exists (dbl (value_of d)). split; [|split].
  - rewrite D1. apply (reading other d n rest); auto.
  - pose proof (dbl_near _ D3) as B. replace (dbl (value_of d) - x) with ((dbl (value_of d) - value_of d) + (value_of d - x)) by ring. eapply Rle_trans; [apply Rabs_triang|].
    assert (V: Rabs (value_of d) <= 2 * Rabs x) by (replace (value_of d) with ((value_of d - x) + x) by ring; eapply Rle_trans; [apply Rabs_triang|]; pose proof (Rabs_pos x); lra).
    assert (E12: / 10 ^ 12 = / 1000000000000) by (f_equal; ring). rewrite E12 in B. pose proof (Rabs_pos x). lra.
  - apply D5. apply dbl_near. exact D3.
Qed.
Print Assumptions C92_print_read.
(** *** numbers of at most six significant digits are reproduced exactly *)
Lemma six_digits : forall m, m <> 0%Z -> (Z.abs m < 1000000)%Z -> exists k, (0 <= k)%Z /\ (100000 <= Z.abs m * 10 ^ k < 1000000)%Z.
Proof.
  intros m N H. assert (P: (1 <= Z.abs m)%Z) by lia. revert P H. generalize (Z.abs m). clear. intros n P H.
  assert (In' : (n < 10 \/ 10 <= n < 100 \/ 100 <= n < 1000 \/ 1000 <= n < 10000 \/ 10000 <= n < 100000 \/ 100000 <= n)%Z) by lia.
  destruct In' as [A|[A|[A|[A|[A|A]]]]]; [exists 5%Z|exists 4%Z|exists 3%Z|exists 2%Z|exists 1%Z|exists 0%Z]; cbn [Z.pow Z.pow_pos Pos.iter Z.mul]; lia.
Qed.
Theorem C92_six_digits : forall other m e rest, (Z.abs m < 1000000)%Z -> moderate (IZR m * bpow ten e) -> separate rest ->
  strtod other (show_double (dbl (IZR m * bpow ten e)) ++ rest) = Ok (dbl (IZR m * bpow ten e), rest).
Proof.
  intros other m e rest H M S. destruct (Z.eq_dec m 0) as [->|N].
  - rewrite Rmult_0_l. assert (Z0: dbl 0 = 0) by (unfold dbl; apply round_0; apply valid_rnd_N). rewrite Z0.
    destruct (C92_print_read other 0 0 rest (or_introl eq_refl) S) as (y & E & B & _). cbn [repeat app] in E. rewrite E. rewrite Rminus_0_r, Rabs_R0, Rmult_0_r in B. f_equal. f_equal. destruct (Req_EM_T y 0) as [|Y]; auto. pose proof (Rabs_pos_lt y Y). lra.
  - destruct (six_digits m N H) as (k & K & R). set (n := (Z.abs m * 10 ^ k)%Z) in *. set (e' := (e - k + 5)%Z).
    assert (V: IZR m * bpow ten e = IZR (neg (minus_of (IZR m)) n) * bpow ten (e' - 5)).
    { unfold e'. replace (e - k + 5 - 5)%Z with (e + - k)%Z by lia. rewrite bpow_plus, bpow_opp. pose proof (bpow_gt_0 ten k) as P. unfold n, minus_of. rewrite <- (IZR_Zpower ten k K) in *. change (radix_val ten) with 10%Z in *.
      destruct (Rlt_dec (IZR m) 0) as [L|L]; cbn [neg]; rewrite ?opp_IZR, mult_IZR; [rewrite Z.abs_neq by (apply lt_IZR in L; lia); rewrite opp_IZR|rewrite Z.abs_eq by (apply Rnot_lt_le, le_IZR in L; lia)]; field; lra. }
    set (v := IZR m * bpow ten e) in *. pose proof (bpow_gt_0 ten (e' - 5)) as Q. assert (M1: 100000 <= IZR n) by (apply IZR_le; lia).
    assert (AV: Rabs v = IZR n * bpow ten (e' - 5)). { rewrite V, Rabs_mult, (Rabs_pos_eq (bpow _ _)) by lra. f_equal. unfold minus_of. destruct (Rlt_dec (IZR m) 0); cbn [neg]; rewrite ?opp_IZR, ?Rabs_Ropp, Rabs_pos_eq by lra; reflexivity. }
    assert (VN: v <> 0). { intros E0. rewrite E0, Rabs_R0 in AV. nra. }
    assert (NV: normal v). { apply (moderate_normal v v M VN). rewrite Rminus_diag_eq by reflexivity. rewrite Rabs_R0. pose proof (Rabs_pos v). lra. }
    destruct (show_near (minus_of (IZR m)) n e' (dbl v) R) as (_ & SH).
    { unfold minus_of. destruct (Rlt_dec (IZR m) 0); auto. }
    { rewrite <- V, <- AV. apply dbl_near. exact NV. }
    assert (EB: (-1000 < e' < 1000)%Z).
    { assert (MG: mag ten (Rabs v) = (e' + 1)%Z :> Z). { apply mag_unique_pos. rewrite AV. replace (e' + 1 - 1)%Z with (5 + (e' - 5))%Z by lia. replace (e' + 1)%Z with (6 + (e' - 5))%Z by lia. rewrite !bpow_plus, pow5, pow6. assert (IZR n < 1000000) by (apply IZR_lt; lia). split; [apply Rmult_le_compat_r; lra|apply Rmult_lt_compat_r; lra]. }
      pose proof (moderate_mag v M VN) as MM. rewrite MG in MM. lia. }
    destruct (general_text n e' (minus_of (IZR m)) R EB) as (d & D1 & D2 & D3 & D4). rewrite SH, D2. rewrite <- V in D4. rewrite <- D4. apply (reading other d 0 rest); auto. rewrite D4. exact NV.
Qed.
Print Assumptions C92_six_digits.

Definition space : ascii := " "%char.
Lemma separate_space : forall t, separate (T " " ++ t).
Proof. intros t. split; [apply no_digit; reflexivity|]. cbn. intros [E|[E|[E|[E|[E|[]]]]]]; discriminate. Qed.
Definition close (x y : R) : Prop := Rabs (y - x) <= 5001 / 1000000000 * Rabs x.
(** complex numbers *)
Theorem C92_complex : forall other z, moderate (fst z) -> moderate (snd z) ->
  exists z', to_complex other (show_complex z) = Ok z' /\ close (fst z) (fst z') /\ close (snd z) (snd z') /\ show_complex z' = show_complex z.
Proof.
  intros other (a, b) Ma Mb. cbn [fst snd] in *. unfold show_complex, to_complex. cbn [fst snd].
  destruct (C92_print_read other a 0 (T " + " ++ show_double b ++ T "i") Ma (separate_space _)) as (a' & A1 & A2 & A3). cbn [repeat app] in A1. cbn [app T list_ascii_of_string] in A1 |- *. rewrite A1. cbn [bind snd fst].
  cbn [span]. change (isspace " ") with true. change (isspace "+") with false. cbv iota. cbn [snd]. change (Ascii.eqb "+" "+") with true. cbv iota.
  destruct (C92_print_read other b 1 (T "i") Mb) as (b' & B1 & B2 & B3).
  { split; [apply no_digit; reflexivity|]. cbn. intros [E|[E|[E|[E|[E|[]]]]]]; discriminate. }
  cbn [repeat app T list_ascii_of_string] in B1. rewrite B1. cbn [bind fst]. exists (a', b'). split; [reflexivity|]. cbn [fst snd]. split; [exact A2|]. split; [exact B2|]. rewrite A3, B3. reflexivity.
Qed.
Print Assumptions C92_complex.
(** values with a unit *)
Lemma skip_one : forall c u, c <> " "%char -> skip_spaces (" "%char :: c :: u) = c :: u.
Proof. intros c u H. cbn [skip_spaces]. change (Ascii.eqb " " " ") with true. cbv iota. destruct (Ascii.eqb_spec c " "); [contradiction|]. reflexivity. Qed.
Theorem C92_with_unit : forall other x c u, moderate x -> c <> " "%char ->
  exists y, split_value other (show_double x ++ T " " ++ c :: u) = Ok (y, c :: u) /\ close x y /\ show_double y = show_double x.
Proof.
  intros other x c u M N. destruct (C92_print_read other x 0 (T " " ++ c :: u) M (separate_space _)) as (y & E & B & S). exists y. split; [|split; auto].
  unfold split_value. cbn [repeat app] in E. rewrite E. cbn [bind fst snd]. change (T " " ++ c :: u) with (" "%char :: c :: u). rewrite skip_one by exact N. reflexivity.
Qed.
Print Assumptions C92_with_unit.
(** unsigned integers up to 2^64 - 1 *)
Theorem C92_count : forall n, (0 <= n < 2 ^ 64)%Z -> string_to_integer u64 (show_count n) = Ok n.
Proof.
  intros n H. pose proof (C40_roundtrip u64 n) as R. destruct (Z.ltb_spec n 0); [lia|]. cbn [sign_text app] in R. rewrite Z.abs_eq in R by lia. apply R.
  - split; [cbn; auto|discriminate].
  - unfold representable, lo, hi. cbn [signed bits u64]. lia.
  - unfold hi. cbn [signed bits u64]. lia.
Qed.
Print Assumptions C92_count.
(** *** doubles with more digits are not reproduced *)
Lemma dbl_idem : forall v, dbl (dbl v) = dbl v.
Proof. intros v. unfold dbl. apply round_generic; [apply valid_rnd_N|]. apply generic_format_round; [apply FLT_exp_valid; reflexivity|apply valid_rnd_N]. Qed.
Lemma small_normal : forall v, 1 <= v <= 10 -> normal v.
Proof.
  intros v H. right. rewrite Rabs_pos_eq by lra. split; [apply Rle_trans with (bpow radix2 0); [apply bpow_le; lia|change (bpow radix2 0) with 1; lra] | apply Rle_trans with (bpow radix2 4); [change (bpow radix2 4) with 16; lra|apply bpow_le; lia]].
Qed.
Lemma small_near : forall v, 1 <= v <= 10 -> Rabs (dbl v - v) <= / 100000000000.
Proof. intros v H. pose proof (dbl_near v (small_normal v H)) as B. rewrite (Rabs_pos_eq v) in B by lra. assert (E12: / 10 ^ 12 = / 1000000000000) by (f_equal; ring). rewrite E12 in B. lra. Qed.
Lemma show_example : forall x, 6.2831851 <= x <= 6.283194 -> show_double x = T "6.28319".
Proof.
  intros x H. rewrite show_nonzero by lra. unfold minus_of. destruct (Rlt_dec x 0); [lra|]. cbn [sign_str app]. rewrite Rabs_pos_eq by lra.
  assert (S: six x = (628319, 0)%Z).
  { unfold six. assert (MG: mag ten x = 1%Z :> Z) by (apply mag_unique_pos; change (bpow ten (1 - 1)) with 1; change (bpow ten 1) with 10; lra). rewrite MG. change (5 - (1 - 1))%Z with 5%Z. rewrite pow5.
    replace (ZnearestE (x * 100000)) with 628319%Z; [reflexivity|]. symmetry. apply Znearest_imp. apply Rabs_def1; lra. }
  rewrite S. reflexivity.
Qed.
Theorem C92_exact_refuted : exists x, dbl x = x /\ moderate x /\ forall other, strtod other (show_double x) <> Ok (x, []).
Proof.
  set (x := dbl 6.283185307). set (y := dbl 6.28319). pose proof (small_near 6.283185307 ltac:(lra)) as X. pose proof (small_near 6.28319 ltac:(lra)) as Y. fold x in X. fold y in Y. apply Rabs_le_inv in X, Y.
  assert (P: forall v, 1 <= v <= 10 -> moderate v).
  { intros v H. right. rewrite Rabs_pos_eq by lra. split; [apply Rle_trans with (bpow ten 0); [apply bpow_le; lia|change (bpow ten 0) with 1; lra] | apply Rle_trans with (bpow ten 1); [change (bpow ten 1) with 10; lra|apply bpow_le; lia]]. }
  exists x. split; [apply dbl_idem|]. split; [apply P; lra|]. intros other E.
  pose proof (C92_six_digits other 628319 (-5) [] ltac:(lia)) as R. assert (V: IZR 628319 * bpow ten (-5) = 6.28319) by (change (bpow ten (-5)) with (/ 100000); lra). rewrite V in R. specialize (R (P 6.28319 ltac:(lra)) I). fold y in R. rewrite app_nil_r in R.
  rewrite (show_example x) in E by lra. rewrite (show_example y) in R by lra. rewrite R in E. inversion E. lra.
Qed.
Print Assumptions C92_exact_refuted.

(** the hypotheses are met: the wavelength, refractive index and order of the default parameters *)
Lemma plain_moderate : forall v, / 100 <= Rabs v <= 100 -> moderate v.
Proof.
  intros v H. right. split; [apply Rle_trans with (bpow ten (-2)); [apply bpow_le; lia|change (bpow ten (-2)) with (/ 100); lra] | apply Rle_trans with (bpow ten 2); [change (bpow ten 2) with 100; lra|apply bpow_le; lia]].
Qed.
Example C92_print_read_example : moderate 6.283185307 /\ separate (T " micron") /\ show_double 6.283185307 = T "6.28319" /\
  forall other, exists y, strtod other (T "6.28319 micron") = Ok (y, T " micron") /\ Rabs (y - 6.283185307) <= 4 / 100000 /\ show_double y = T "6.28319".
Proof.
  assert (M: moderate 6.283185307) by (apply plain_moderate; rewrite Rabs_pos_eq by lra; lra). assert (S: separate (T " micron")) by (exact (separate_space (T "micron"))).
  assert (W: show_double 6.283185307 = T "6.28319") by (apply show_example; lra). split; [exact M|]. split; [exact S|]. split; [exact W|]. intros other.
  destruct (C92_print_read other _ 0 _ M S) as (y & A & B & D). rewrite W in A, D. exists y. split; [exact A|]. split; [|exact D]. rewrite (Rabs_pos_eq 6.283185307) in B by lra. lra.
Qed.
Example C92_complex_example : moderate 1.5 /\ moderate (-0.02) /\ forall other, exists z, to_complex other (show_complex (1.5, -0.02)) = Ok z /\ Rabs (fst z - 1.5) <= / 10000 /\ Rabs (snd z + 0.02) <= / 1000000.
Proof.
  assert (A: moderate 1.5) by (apply plain_moderate; rewrite Rabs_pos_eq by lra; lra). assert (B: moderate (-0.02)) by (apply plain_moderate; rewrite Rabs_left by lra; lra).
  split; [exact A|]. split; [exact B|]. intros other. destruct (C92_complex other (1.5, -0.02) A B) as (z & E & X & Y & _). exists z. split; [exact E|]. unfold close in X, Y. cbn [fst snd] in X, Y.
  rewrite (Rabs_pos_eq 1.5) in X by lra. rewrite (Rabs_left (-0.02)) in Y by lra. replace (snd z - -0.02) with (snd z + 0.02) in Y by lra. split; lra.
Qed.
Example C92_count_example : show_count 18446744073709551615 = T "18446744073709551615" /\ string_to_integer u64 (T "18446744073709551615") = Ok 18446744073709551615%Z.
Proof. split; reflexivity. Qed.
(** *** a complex number that is written with a minus sign between its parts is rejected, although it is the usual way to write it *)
Theorem C92_minus_refuted : exists s, s = T "1.5 - 0.02i" /\ forall other, to_complex other s = Fails.
Proof.
  exists (T "1.5 - 0.02i"). split; [reflexivity|]. intros other. unfold to_complex.
  pose proof (C92_reading other (mkDec None [1%Z] true [5%Z] NoExp) 0 (T " - 0.02i")) as R.
  assert (V: value_of (mkDec None [1%Z] true [5%Z] NoExp) = 1.5) by (unfold value_of; cbn [minus before after expo_of expo_value neg app List.length]; change (value 10 [1; 5]%Z) with 15%Z; change (bpow ten (0 - Z.of_nat 1)) with (/ 10); lra).
  rewrite V in R. change (repeat " "%char 0 ++ text_of (mkDec None [1%Z] true [5%Z] NoExp) ++ T " - 0.02i") with (T "1.5 - 0.02i") in R. rewrite R; [reflexivity|..].
  - repeat split; cbn; auto; try discriminate; repeat constructor; lia.
  - apply small_normal. lra.
  - exact (separate_space (T "- 0.02i")).
Qed.
Print Assumptions C92_minus_refuted.
