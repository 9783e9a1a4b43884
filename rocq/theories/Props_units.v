(** C43 and C44: units and unit conversion *)
From Coq Require Import List Ascii String ZArith Lia Bool Reals Lra.
From Verif Require Import Parse Props_parse Units.
Import ListNotations.
Local Open Scope Z_scope.

(** the dimension of a unit: its six exponents *)
Definition dim (u : unit_) : list Z := [ulength u; utime u; umass u; utemp u; ucurrent u; uangle u].
Definition zip2 (f : Z -> Z -> Z) (a b : list Z) : list Z := map (fun p => f (fst p) (snd p)) (combine a b).

Lemma same_spec : forall a b, same_quantity a b = true <-> dim a = dim b.
Proof.
  intros a b. unfold same_quantity, dim. rewrite !andb_true_iff, !Z.eqb_eq. split.
  - intros [[[[[-> ->] ->] ->] ->] ->]. reflexivity.
  - intros H. injection H. tauto.
Qed.

Lemma iter_mul : forall n x y, Nat.iter n (fun v => v * x)%R y = (y * x ^ n)%R.
Proof. induction n as [|n IH]; intros x y; cbn [Nat.iter nat_rect pow]; [ring|]. change (nat_rect _ _ _ n) with (Nat.iter n (fun v => v * x)%R y). rewrite IH. ring. Qed.
Lemma iter_div : forall n x y, Nat.iter n (fun v => v / x)%R y = (y * (/ x) ^ n)%R.
Proof. intros n x y. unfold Rdiv. apply iter_mul. Qed.
Lemma powerRZ_pos : forall x p, 0 <= p -> powerRZ x p = (x ^ Z.to_nat p)%R.
Proof. intros x [|p|p] H; cbn [powerRZ Z.to_nat]; [reflexivity|reflexivity|lia]. Qed.
Lemma powerRZ_negative : forall x p, p <= 0 -> powerRZ x p = ((/ x) ^ Z.to_nat (- p))%R.
Proof. intros x [|p|p] H; cbn [powerRZ Z.to_nat Z.opp]; [reflexivity|lia|]. now rewrite pow_inv. Qed.

(** Multiplication, division and powers *)
Theorem C43_multiply : forall a b, uvalue (umul a b) = (uvalue a * uvalue b)%R /\ dim (umul a b) = zip2 Z.add (dim a) (dim b).
Proof. split; reflexivity. Qed.
Theorem C43_divide : forall a b, uvalue (udiv a b) = (uvalue a / uvalue b)%R /\ dim (udiv a b) = zip2 Z.sub (dim a) (dim b).
Proof. split; reflexivity. Qed.
Theorem C43_power : forall a p, p <> 0 -> uvalue a <> 0%R ->
  uvalue (upow a p) = powerRZ (uvalue a) p /\ dim (upow a p) = map (fun n => p * n) (dim a).
Proof.
  intros a p Hp Ha. split.
  - cbn [uvalue upow]. destruct (Z.leb_spec 0 p).
    + rewrite iter_mul, powerRZ_pos by lia. replace (Z.to_nat p) with (S (Z.to_nat (p - 1))) by lia. reflexivity.
    + rewrite iter_div, powerRZ_negative by lia. ring.
  - unfold dim, upow; cbn [map ulength utime umass utemp ucurrent uangle]. f_equal; [ring|]. repeat (f_equal; try ring).
Qed.
Example C43_power_ex : uvalue (upow (mkU 100 2 (-1) 0 0 0 0) (-3)) = (/ 1000000)%R /\ dim (upow (mkU 100 2 (-1) 0 0 0 0) (-3)) = [-6; 3; 0; 0; 0; 0].
Proof.
  destruct (C43_power (mkU 100 2 (-1) 0 0 0 0) (-3)) as [H1 H2]; [lia|cbn; lra|].
  rewrite H1, H2. cbn [uvalue dim map ulength utime umass utemp ucurrent uangle]. split; [|reflexivity].
  change (powerRZ 100 (-3)) with (/ (100 ^ 3))%R. f_equal. ring.
Qed.
(** the power zero is the exception: the result is dimensionless but keeps its value *)
Theorem C43_power_zero_refuted : forall a, uvalue (upow a 0) = uvalue a /\ dim (upow a 0) = [0; 0; 0; 0; 0; 0].
Proof. intros a. split; [reflexivity|]. unfold dim, upow; cbn [ulength utime umass utemp ucurrent uangle]. now rewrite !Z.mul_0_r. Qed.
Theorem C43_system_of_units : forall u L Ti M K A An,
  Forall (fun b => uvalue b <> 0%R) [L; Ti; M; K; A; An] ->
  uvalue (get_equivalent u L Ti M K A An) =
    (powerRZ (uvalue L) (ulength u) * powerRZ (uvalue Ti) (utime u) * powerRZ (uvalue M) (umass u) *
     powerRZ (uvalue K) (utemp u) * powerRZ (uvalue A) (ucurrent u) * powerRZ (uvalue An) (uangle u))%R
  /\ dim (get_equivalent u L Ti M K A An) = dim u.
Proof.
  assert (F : forall n b v, factor n b v = (v * powerRZ b n)%R).
  { intros n b v. unfold factor. destruct (Z.eqb_spec n 0) as [->|]; [cbn; ring|].
    destruct (Z.ltb_spec 0 n); [rewrite iter_mul, powerRZ_pos by lia; ring|rewrite iter_div, powerRZ_negative by lia; ring]. }
  intros. split; [|reflexivity]. cbn [get_equivalent uvalue]. rewrite !F. ring.
Qed.
Example C43_system_of_units_ex : uvalue (get_equivalent (mkU 1 2 (-1) 0 0 0 0) (mkU 100 1 0 0 0 0 0) (mkU 10 0 1 0 0 0 0)
   (mkU 1 0 0 1 0 0 0) (mkU 1 0 0 0 1 0 0) (mkU 1 0 0 0 0 1 0) (mkU 1 0 0 0 0 0 1)) = 1000%R.
Proof.
  match goal with |- uvalue (get_equivalent ?a ?b ?c ?d ?e ?f ?g) = _ => destruct (C43_system_of_units a b c d e f g) as [-> _] end;
    [repeat (apply Forall_cons; [cbn [uvalue]; lra|]); apply Forall_nil|].
  cbn [uvalue ulength utime umass utemp ucurrent uangle]. 
  change (powerRZ 100 2) with (100 ^ 2)%R. change (powerRZ 10 (-1)) with (/ (10 ^ 1))%R. change (powerRZ 1 0) with 1%R. field.
Qed.

(** Every unit that has a name has a positive value *)
Lemma table_positive : forall n u, In (n, u) unit_table -> (0 < uvalue u)%R.
Proof.
  intros n u H. unfold unit_table in H. pose proof PI_RGT_0.
  repeat (destruct H as [H|H]; [injection H as <- <-; cbn [uvalue]; try unfold electronvolt; lra|]). destruct H.
Qed.
Lemma text_T : forall a b, T a = T b -> a = b.
Proof. intros a b H. rewrite <- (string_of_list_ascii_of_string a), <- (string_of_list_ascii_of_string b). unfold T in H. now rewrite H. Qed.
Lemma single_positive : forall n u, get_single_unit n = Ok u -> (0 < uvalue u)%R.
Proof.
  intros n u. unfold get_single_unit. destruct (List.find _ _) as [[m w]|] eqn:E; [|discriminate].
  intros [= <-]. apply find_some in E. eapply table_positive, E.
Qed.
Lemma single_table : forall n u, In (n, u) unit_table -> get_single_unit (T n) = Ok u.
Proof.
  intros n u H. unfold unit_table in H.
  repeat (destruct H as [H|H]; [injection H as <- <-; reflexivity|]). destruct H.
Qed.
Lemma pow_positive : forall u p, (0 < uvalue u)%R -> (0 < uvalue (upow u p))%R.
Proof.
  intros u p H. cbn [uvalue upow]. destruct (0 <=? p).
  - rewrite iter_mul. apply Rmult_lt_0_compat; [assumption|]. now apply pow_lt.
  - rewrite iter_div, Rmult_1_l. apply pow_lt. now apply Rinv_0_lt_compat.
Qed.
Lemma bind_ok : forall A B (r : res A) (f : A -> res B) b, bind r f = Ok b -> exists a, r = Ok a /\ f a = Ok b.
Proof. intros A B [a| |] f b H; cbn in H; try discriminate. eauto. Qed.
Lemma bind_ub : forall A B (r : res A) (f : A -> res B), bind r f = UB -> r = UB \/ exists a, r = Ok a /\ f a = UB.
Proof. intros A B [a| |] f H; cbn in H; try discriminate; eauto. Qed.
Lemma term_positive : forall s u r, term s = Some (Ok (u, r)) -> (0 < uvalue u)%R.
Proof.
  intros s u r. unfold term. destruct (snd _) as [|c r0]; [discriminate|]. destruct (span _ r0) as [n r1].
  intros [= H]. apply bind_ok in H as (v & Hv & H). apply single_positive in Hv.
  destruct r1 as [|x r1]; [now injection H as <- <-|].
  destruct (Ascii.eqb x "^"); [|now injection H as <- <-].
  destruct r1 as [|d r1]; [discriminate|]. destruct (span _ r1) as [ds r2].
  apply bind_ok in H as (p & Hp & H). injection H as <- <-. now apply pow_positive.
Qed.
Lemma more_positive : forall f s u w, (0 < uvalue u)%R -> more f s u = Ok w -> (0 < uvalue w)%R.
Proof.
  induction f as [|f IH]; intros s u w Hu H; cbn [more] in H; [now injection H as <-|].
  destruct (term s) as [t|] eqn:E; [|now injection H as <-].
  apply bind_ok in H as ([u2 r] & -> & H). apply term_positive in E. eapply IH; [|exact H].
  cbn [uvalue umul]. now apply Rmult_lt_0_compat.
Qed.
Theorem C43_positive : forall s u, get_unit s = Ok u -> (0 < uvalue u)%R.
Proof.
  intros s u. unfold get_unit. destruct (term s) as [t|] eqn:E; [|discriminate]. intros H.
  apply bind_ok in H as ([v r] & -> & H). eapply more_positive; [eapply term_positive, E|exact H].
Qed.

(** what the named units measure, and how they relate to each other *)
Definition named (n : string) (d : list Z) (v : R) : Prop := exists u, get_single_unit (T n) = Ok u /\ dim u = d /\ uvalue u = v.
Theorem C43_named_units : exists pc Gyr Msol eV,
  (forall n v, In (n, v) [("m", 1); ("cm", / 100); ("km", 1000); ("angstrom", / 10 ^ 10); ("micron", / 10 ^ 6); ("pc", pc); ("kpc", 1000 * pc); ("au", 149597870700)]%R%string ->
     named n [1; 0; 0; 0; 0; 0] v) /\
  (forall n v, In (n, v) [("s", 1); ("h", 60 * 60); ("yr", Gyr / 10 ^ 9); ("Myr", Gyr / 10 ^ 3); ("Gyr", Gyr)]%R%string -> named n [0; 1; 0; 0; 0; 0] v) /\
  (forall n v, In (n, v) [("kg", 1); ("g", / 1000); ("Msol", Msol)]%R%string -> named n [0; 0; 1; 0; 0; 0] v) /\
  named "K" [0; 0; 0; 1; 0; 0] 1 /\ named "radians" [0; 0; 0; 0; 0; 1] 1 /\ named "degrees" [0; 0; 0; 0; 0; 1] (2 * PI / 360) /\ named "Hz" [0; -1; 0; 0; 0; 0] 1 /\
  (forall n v, In (n, v) [("J", 1); ("erg", (/ 1000) * (/ 100) ^ 2); ("eV", eV)]%R%string -> named n [2; -2; 1; 0; 0; 0] v) /\
  (forall n v, In (n, v) [("Pa", 1); ("bar", 10 ^ 5)]%R%string -> named n [-1; -2; 1; 0; 0; 0] v) /\
  (* within one permille of: 648000/pi au, 10^9 Julian years, the solar mass and the elementary charge *)
  (Rabs (pc - 30856775814913673) <= 30856775814913673 / 1000 /\ Rabs (Gyr - 31557600000000000) <= 31557600000000000 / 1000 /\
   Rabs (Msol - 19884 * 10 ^ 26) <= 19884 * 10 ^ 26 / 1000 /\ Rabs (eV - 1602176634 / 10 ^ 28) <= 1602176634 / 10 ^ 28 / 1000)%R.
Proof.
  exists 3.086e16%R, 3.154e16%R, 1.98855e30%R, electronvolt.
  assert (Q : forall n d v v', named n d v' -> v = v' -> named n d v) by (intros n d v v' H ->; exact H).
  Ltac one := match goal with H : In _ _ |- _ => repeat (destruct H as [H|H]; [injection H as <- <-; eexists; split; [reflexivity|split; [reflexivity|cbn [uvalue]; try unfold electronvolt; lra]]|]); destruct H end.
  repeat match goal with |- _ /\ _ => split end;
    try (intros n v H; one);
    try (eexists; split; [reflexivity|split; [reflexivity|cbn [uvalue]; lra]]);
    try unfold electronvolt; apply Rabs_le; lra.
Qed.
(** there are no others *)
Theorem C43_all_names : forall n, (exists u, get_single_unit n = Ok u) <->
  In n (map T ["m"; "cm"; "km"; "angstrom"; "micron"; "pc"; "kpc"; "au"; "s"; "h"; "yr"; "Myr"; "Gyr"; "kg"; "g"; "Msol"; "K"; "radians"; "degrees"; "Hz"; "J"; "erg"; "eV"; "Pa"; "bar"]%string).
Proof.
  intros n. split.
  - intros [u H]. unfold get_single_unit in H. destruct (List.find _ _) as [[m w]|] eqn:E; [|discriminate]. apply find_some in E as [E1 E2]. cbn [fst] in E2.
    destruct (list_eq_dec ascii_dec n (T m)) as [->|]; [|discriminate]. apply in_map. apply (in_map fst) in E1. cbn [fst map unit_table] in E1. cbn [In] in *. tauto.
  - intros H. cbn [map In] in H. repeat (destruct H as [<-|H]; [eexists; reflexivity|]). destruct H.
Qed.

(** * Reading a unit: names with optional powers, separated by spaces *)
Record written := mkW { w_spaces : nat; w_name : string; w_power : option (option bool * list Z) }.
  (* sign: None, Some false for '+', Some true for '-' *)
Definition sign_of (s : option bool) : text := match s with None => [] | Some false => ["+"%char] | Some true => ["-"%char] end.
Definition text_of (w : written) : text :=
  repeat " "%char (w_spaces w) ++ T (w_name w) ++
  match w_power w with None => [] | Some (s, ds) => "^"%char :: sign_of s ++ map digit_char ds end.
Definition power_of (w : written) : Z :=
  match w_power w with None => 1 | Some (s, ds) => match s with Some true => - value 10 ds | _ => value 10 ds end end.
Definition acceptable (w : written) : Prop :=
  match w_power w with None => True
  | Some (_, ds) => decimal_digits ds /\ value 10 ds <> 0 /\ - 2 ^ 31 <= power_of w < 2 ^ 31 end.
(** the meaning: product of powers *)
Definition meaning (l : list (unit_ * Z)) : R := fold_right (fun '(u, p) x => (powerRZ (uvalue u) p * x)%R) 1%R l.
Definition meaning_dim (k : nat) (l : list (unit_ * Z)) : Z := fold_right (fun '(u, p) x => p * nth k (dim u) 0 + x) 0 l.

Lemma span_app : forall f a b, Forall (fun c => f c = true) a -> match b with [] => True | c :: _ => f c = false end -> span f (a ++ b) = (a, b).
Proof.
  intros f a b H Hb. induction H as [|c a Hc H IH]; cbn [app span].
  - destruct b as [|c b]; [reflexivity|]. cbn [span]. now rewrite Hb.
  - now rewrite Hc, IH.
Qed.
Lemma name_shape : forall n u, In (n, u) unit_table -> exists c r, T n = c :: r /\ isalpha c = true /\ Forall (fun c => negb (Ascii.eqb c " " || Ascii.eqb c "^") = true) r.
Proof.
  intros n u H. unfold unit_table in H.
  repeat (destruct H as [H|H]; [injection H as <- <-; cbn [T list_ascii_of_string]; do 2 eexists; split; [reflexivity|split; [reflexivity|repeat constructor]]|]). destruct H.
Qed.
Lemma digits_power : forall ds, Forall (fun d => 0 <= d <= 9) ds -> Forall (fun c => isdigit c || Ascii.eqb c "+" || Ascii.eqb c "-" = true) (map digit_char ds).
Proof. intros ds H. induction H as [|d ds Hd H IH]; cbn [map]; constructor; [|assumption]. now rewrite digit_is. Qed.
Lemma digit_not_space : forall d, 0 <= d <= 9 -> isspace (digit_char d) = false.
Proof. intros d H. unfold isspace. rewrite digit_code by lia. destruct (Z.leb_spec (48 + d) 13), (Z.eqb_spec (48 + d) 32), (Z.leb_spec 9 (48 + d)); try lia; reflexivity. Qed.
Lemma digit_not_sign : forall d, 0 <= d <= 9 -> Ascii.eqb (digit_char d) "-" = false /\ Ascii.eqb (digit_char d) "+" = false.
Proof.
  intros d H. split; apply Ascii.eqb_neq; intros E; pose proof (digit_code d H) as C; rewrite E in C; vm_compute (code _) in C; lia.
Qed.
Lemma stoi_digits : forall s ds, decimal_digits ds -> - 2 ^ 31 <= (match s with Some true => - value 10 ds | _ => value 10 ds end) < 2 ^ 31 ->
  stoi (sign_of s ++ map digit_char ds) = Ok (match s with Some true => - value 10 ds | _ => value 10 ds end).
Proof.
  intros s ds [Hn Hd] Hr. unfold stoi.
  assert (E : snd (span isspace (sign_of s ++ map digit_char ds)) = sign_of s ++ map digit_char ds).
  { destruct s as [[]|]; [reflexivity|reflexivity|]. destruct ds as [|d ds]; [congruence|]. inversion Hd; subst. cbn [sign_of app map span].
    now rewrite digit_not_space. }
  rewrite E.
  assert (D : fst (take_dec (map digit_char ds)) = ds). { pose proof (take_dec_spec ds [] Hd eq_refl) as Q. rewrite app_nil_r in Q. now rewrite Q. }
  assert (V : fold_left (fun a d => a * 10 + d) ds 0 = value 10 ds) by reflexivity.
  destruct s as [[]|]; cbn [sign_of app].
  - rewrite (Ascii.eqb_refl "-"). rewrite D. destruct ds as [|d ds]; [congruence|]. rewrite V.
    replace (-1 * value 10 (d :: ds)) with (- value 10 (d :: ds)) by ring.
    destruct (Z.leb_spec (- 2 ^ 31) (- value 10 (d :: ds))); [|lia]. destruct (Z.ltb_spec (- value 10 (d :: ds)) (2 ^ 31)); [reflexivity|lia].
  - change (Ascii.eqb "+" "-") with false. rewrite (Ascii.eqb_refl "+"). rewrite D. destruct ds as [|d ds]; [congruence|]. rewrite V.
    rewrite Z.mul_1_l.
    destruct (Z.leb_spec (- 2 ^ 31) (value 10 (d :: ds))); [|lia]. destruct (Z.ltb_spec (value 10 (d :: ds)) (2 ^ 31)); [reflexivity|lia].
  - destruct ds as [|d ds]; [congruence|]. inversion Hd as [|? ? Hd1 Hd2]; subst. destruct (digit_not_sign d Hd1) as [N1 N2]. cbn [map]. rewrite N1, N2.
    change (digit_char d :: map digit_char ds) with (map digit_char (d :: ds)). rewrite D, V.
    rewrite Z.mul_1_l.
    destruct (Z.leb_spec (- 2 ^ 31) (value 10 (d :: ds))); [|lia]. destruct (Z.ltb_spec (value 10 (d :: ds)) (2 ^ 31)); [reflexivity|lia].
Qed.
Lemma skip_to_name : forall n c r, isalpha c = true -> snd (span (fun c => negb (isalpha c)) (repeat " "%char n ++ c :: r)) = c :: r.
Proof.
  intros n c r H. rewrite span_app; [reflexivity| |].
  - apply Forall_forall. intros x Hx. apply repeat_spec in Hx. now subst.
  - now rewrite H.
Qed.
Lemma term_written : forall w u rest, In (w_name w, u) unit_table -> acceptable w -> (match rest with [] => True | c :: _ => c = " "%char end) ->
  term (text_of w ++ rest) = Some (Ok (if w_power w then upow u (power_of w) else u, rest)).
Proof.
  intros [n nm pw] u rest Hu Ha Hr. unfold term, text_of, acceptable, power_of in *. cbn [w_spaces w_name w_power] in *.
  destruct (name_shape _ _ Hu) as (c & r & E & Hc & Hf). apply single_table in Hu. rewrite E in *.
  rewrite <- !app_assoc. cbn [app]. rewrite skip_to_name by assumption.
  destruct pw as [[s ds]|].
  - destruct Ha as (Hd & Hz & Hrange).
    rewrite span_app; [|assumption|reflexivity]. rewrite Hu. cbn [bind app]. rewrite Ascii.eqb_refl.
    assert (K : exists a b, sign_of s ++ map digit_char ds = a :: b /\ Forall (fun c => isdigit c || Ascii.eqb c "+" || Ascii.eqb c "-" = true) b).
    { destruct Hd as [Hne Hd]. destruct s as [[]|]; cbn [sign_of app].
      - do 2 eexists. split; [reflexivity|]. now apply digits_power.
      - do 2 eexists. split; [reflexivity|]. now apply digits_power.
      - destruct ds as [|d ds]; [congruence|]. inversion Hd; subst. do 2 eexists. split; [reflexivity|]. now apply digits_power. }
    destruct K as (a & b & K1 & K2). rewrite K1. cbn [app]. rewrite span_app; [|assumption|].
    + rewrite <- K1. rewrite stoi_digits by assumption. reflexivity.
    + destruct rest as [|x rest]; [exact I|]. now subst x.
  - cbn [app]. rewrite span_app; [|assumption|].
    + rewrite Hu. cbn [bind]. destruct rest as [|x rest]; [reflexivity|]. subst x. reflexivity.
    + destruct rest as [|x rest]; [exact I|]. now subst x.
Qed.
Lemma term_blank : forall n, term (repeat " "%char n) = None.
Proof.
  intros n. unfold term. replace (repeat " "%char n) with (repeat " "%char n ++ []) by apply app_nil_r.
  rewrite span_app; [reflexivity| |exact I]. apply Forall_forall. intros x Hx. apply repeat_spec in Hx. now subst.
Qed.
Definition unit_of (w : written) (u : unit_) : unit_ := if w_power w then upow u (power_of w) else u.
Lemma text_length : forall w u, In (w_name w, u) unit_table -> (1 <= List.length (text_of w))%nat.
Proof. intros w u H. destruct (name_shape _ _ H) as (c & r & E & _). unfold text_of. rewrite !app_length, E. cbn. lia. Qed.
Lemma more_written : forall ws us n f acc, Forall2 (fun w u => In (w_name w, u) unit_table /\ acceptable w /\ (1 <= w_spaces w)%nat) ws us ->
  (List.length (List.concat (map text_of ws)) <= f)%nat ->
  more f (List.concat (map text_of ws) ++ repeat " "%char n) acc = Ok (fold_left umul (map (fun p => unit_of (fst p) (snd p)) (combine ws us)) acc).
Proof.
  intros ws us n f acc H. revert f acc. induction H as [|w u ws us (Hu & Ha & Hs) H IH]; intros f acc Hf; cbn [map List.concat combine fold_left].
  - destruct f as [|f]; [reflexivity|]. cbn [more app]. now rewrite term_blank.
  - cbn [map List.concat] in Hf. rewrite app_length in Hf. pose proof (text_length _ _ Hu).
    destruct f as [|f]; [lia|]. cbn [more]. rewrite <- app_assoc.
    rewrite (term_written w u); [|assumption|assumption|].
    2: { inversion H as [|w' u' ws' us' (Hu' & Ha' & Hs') H']; subst; cbn [map List.concat app];
      [destruct n; [exact I|reflexivity] | unfold text_of; destruct (w_spaces w'); [lia|reflexivity]]. }
    cbn [bind fst snd]. rewrite IH by lia. reflexivity.
Qed.
Lemma fold_meaning : forall ws us acc, Forall2 (fun w u => In (w_name w, u) unit_table /\ acceptable w) ws us ->
  uvalue (fold_left umul (map (fun p => unit_of (fst p) (snd p)) (combine ws us)) acc) = (uvalue acc * meaning (combine us (map power_of ws)))%R /\
  forall k, nth k (dim (fold_left umul (map (fun p => unit_of (fst p) (snd p)) (combine ws us)) acc)) 0 = nth k (dim acc) 0 + meaning_dim k (combine us (map power_of ws)).
Proof.
  intros ws us acc H. revert acc. induction H as [|w u ws us [Hu Ha] H IH]; intros acc; cbn [map combine fold_left meaning meaning_dim fold_right fst snd].
  - split; [ring|intros; ring].
  - destruct (IH (umul acc (unit_of w u))) as [I1 I2]. rewrite I1. apply table_positive in Hu.
    assert (V : uvalue (unit_of w u) = powerRZ (uvalue u) (power_of w) /\ dim (unit_of w u) = map (fun n => power_of w * n) (dim u)).
    { unfold unit_of, acceptable, power_of in *. destruct (w_power w) as [[s ds]|].
      - apply C43_power; [|lra]. destruct s as [[]|]; lia.
      - split; [symmetry; apply powerRZ_1|]. unfold dim. cbn [map]. now rewrite !Z.mul_1_l. }
    destruct V as [V1 V2]. split.
    + cbn [uvalue umul]. rewrite V1. change (fold_right _ 1%R (combine us (map power_of ws))) with (meaning (combine us (map power_of ws))). ring.
    + intros k. rewrite I2. change (fold_right _ 0 (combine us (map power_of ws))) with (meaning_dim k (combine us (map power_of ws))).
      assert (N : nth k (dim (umul acc (unit_of w u))) 0 = nth k (dim acc) 0 + nth k (dim (unit_of w u)) 0).
      { do 6 (destruct k as [|k]; [reflexivity|]). destruct k; reflexivity. }
      rewrite N, V2.
      assert (M : nth k (map (fun n => power_of w * n) (dim u)) 0 = power_of w * nth k (dim u) 0).
      { do 6 (destruct k as [|k]; [reflexivity|]). destruct k; cbn; ring. }
      rewrite M. ring.
Qed.
(** Reading "name^power name^power ..." gives the product of the powers of the named units *)
Theorem C43_parse : forall w ws us n,
  Forall2 (fun w u => In (w_name w, u) unit_table /\ acceptable w) (w :: ws) us ->
  Forall (fun w => (1 <= w_spaces w)%nat) ws ->
  exists u, get_unit (List.concat (map text_of (w :: ws)) ++ repeat " "%char n) = Ok u /\
    uvalue u = meaning (combine us (map power_of (w :: ws))) /\
    forall k, nth k (dim u) 0 = meaning_dim k (combine us (map power_of (w :: ws))).
Proof.
  intros w ws us n H Hs. inversion H as [|w' u0 ws' us' [Hu Ha] H']; subst.
  assert (K : Forall2 (fun w u => In (w_name w, u) unit_table /\ acceptable w /\ (1 <= w_spaces w)%nat) ws us').
  { clear - H' Hs. induction H' as [|a b ws us' [? ?] H' IH]; constructor; inversion Hs; subst; auto. }
  exists (fold_left umul (map (fun p => unit_of (fst p) (snd p)) (combine ws us')) (unit_of w u0)).
  split; [|].
  - unfold get_unit. cbn [map List.concat]. rewrite <- app_assoc. rewrite (term_written w u0).
    + cbn [bind]. rewrite (more_written ws us'); [reflexivity|assumption|]. rewrite app_length. lia.
    + assumption.
    + assumption.
    + destruct K as [|w' u' ws'' us'' (? & ? & ?) ?]; cbn [map List.concat app]; [destruct n; [exact I|reflexivity]|].
      unfold text_of. destruct (w_spaces w'); [lia|reflexivity].
  - destruct (fold_meaning (w :: ws) (u0 :: us') (mkU 1 0 0 0 0 0 0) H) as [M1 M2].
    cbn [combine map fold_left fst snd] in M1, M2.
    assert (E : umul (mkU 1 0 0 0 0 0 0) (unit_of w u0) = unit_of w u0).
    { unfold umul. cbn [uvalue ulength utime umass utemp ucurrent uangle]. rewrite Rmult_1_l. destruct (unit_of w u0); reflexivity. }
    rewrite E in M1, M2. split.
    + rewrite M1. cbn [uvalue]. cbn [map combine]. ring.
    + intros k. rewrite M2. cbn [map combine].
      assert (Z0 : nth k (dim (mkU 1 0 0 0 0 0 0)) 0 = 0). { do 6 (destruct k as [|k]; [reflexivity|]). destruct k; reflexivity. }
      rewrite Z0. ring.
Qed.
Example C43_parse_ex : let ws := [mkW 0 "g" None; mkW 1 "cm" (Some (Some true, [0; 3])); mkW 2 "h" (Some (None, [2]))] in
  List.concat (map text_of ws) = T "g cm^-03  h^2" /\
  Forall2 (fun w u => In (w_name w, u) unit_table /\ acceptable w) ws [mkU 0.001%R 0 0 1 0 0 0; mkU 0.01%R 1 0 0 0 0 0; mkU 3600 0 1 0 0 0 0] /\
  Forall (fun w => (1 <= w_spaces w)%nat) (tl ws).
Proof.
  cbv zeta. split; [reflexivity|]. split; [|repeat constructor].
  assert (D : forall ds, ds <> [] -> Forall (fun d => 0 <= d <= 9) ds -> decimal_digits ds) by (split; assumption).
  apply Forall2_cons; [split; [unfold unit_table; do 14 right; left; reflexivity|exact I]|].
  apply Forall2_cons; [split; [unfold unit_table; right; left; reflexivity|]|].
  - unfold acceptable. cbn [w_power power_of]. split; [apply D; [discriminate|repeat constructor; lia]|].
    change (value 10 [0; 3]) with 3. lia.
  - apply Forall2_cons; [|apply Forall2_nil]. split; [unfold unit_table; do 12 right; left; reflexivity|].
    unfold acceptable. cbn [w_power power_of]. split; [apply D; [discriminate|repeat constructor; lia]|].
    change (value 10 [2]) with 2. lia.
Qed.

(** names that are not in the table, and texts without any name, are refused *)
Theorem C43_unknown : forall n c r rest, isalpha c = true ->
  Forall (fun c => Ascii.eqb c " " = false /\ Ascii.eqb c "^" = false) r ->
  (forall s u, In (s, u) unit_table -> T s <> c :: r) ->
  (match rest with [] => True | x :: _ => x = " "%char \/ x = "^"%char end) ->
  get_unit (repeat " "%char n ++ (c :: r) ++ rest) = Fails.
Proof.
  intros n c r rest Hc Hf Hn Hr. unfold get_unit, term. cbn [app]. rewrite skip_to_name by assumption.
  rewrite span_app.
  - assert (E : get_single_unit (c :: r) = Fails).
    { unfold get_single_unit. destruct (List.find _ _) as [[m w]|] eqn:E; [|reflexivity]. apply find_some in E as [E1 E2]. cbn [fst] in E2.
      destruct (list_eq_dec ascii_dec (c :: r) (T m)) as [Q|]; [|discriminate]. exfalso. eapply Hn; [exact E1|now symmetry]. }
    rewrite E. reflexivity.
  - eapply Forall_impl; [|exact Hf]. cbn beta. intros a [H1 H2]. now rewrite H1, H2.
  - destruct rest as [|x rest]; [exact I|]. destruct Hr as [->| ->]; reflexivity.
Qed.
Example C43_unknown_ex : get_unit (T "  parsec^2 s") = Fails.
Proof.
  apply (C43_unknown 2 "p" (T "arsec") (T "^2 s")); [reflexivity| | |right; reflexivity].
  - repeat constructor.
  - intros s u H E. unfold unit_table in H.
    repeat (destruct H as [H|H]; [injection H as <- <-; discriminate|]). destruct H.
Qed.
Theorem C43_no_name : forall s, Forall (fun c => isalpha c = false) s -> get_unit s = Fails.
Proof.
  intros s H. unfold get_unit, term. replace s with (s ++ []) by apply app_nil_r. rewrite span_app; [reflexivity| |exact I].
  eapply Forall_impl; [|exact H]. cbn beta. intros a ->. reflexivity.
Qed.

(** * SI units of the quantities: value one, and the dimension of the quantity *)
Definition dimension (q : quantity) : list Z :=   (* m, s, kg, K, A, rad *)
  match q with
  | ACCELERATION => [1; -2; 0; 0; 0; 0] | ANGLE => [0; 0; 0; 0; 0; 1] | DENSITY => [-3; 0; 1; 0; 0; 0]
  | ENERGY => [2; -2; 1; 0; 0; 0] | ENERGY_CHANGE_RATE => [-1; -3; 1; 0; 0; 0] | ENERGY_RATE => [2; -3; 1; 0; 0; 0]
  | FLUX => [-2; -1; 0; 0; 0; 0] | FORCING_POWER => [2; -3; 0; 0; 0; 0] | FREQUENCY => [0; -1; 0; 0; 0; 0]
  | FREQUENCY_PER_MASS => [0; -1; -1; 0; 0; 0] | INVERSE_LENGTH | OPACITY => [-1; 0; 0; 0; 0; 0]
  | INVERSE_SURFACE_AREA => [-2; 0; 0; 0; 0; 0] | LENGTH => [1; 0; 0; 0; 0; 0] | MASS => [0; 0; 1; 0; 0; 0]
  | MASS_RATE => [0; -1; 1; 0; 0; 0] | MOMENTUM => [1; -1; 1; 0; 0; 0] | NUMBER_DENSITY => [-3; 0; 0; 0; 0; 0]
  | PRESSURE => [-1; -2; 1; 0; 0; 0] | REACTION_RATE => [3; -1; 0; 0; 0; 0] | SURFACE_AREA => [2; 0; 0; 0; 0; 0]
  | SURFACE_DENSITY => [-2; 0; 1; 0; 0; 0] | TEMPERATURE => [0; 0; 0; 1; 0; 0] | TIME => [0; 1; 0; 0; 0; 0]
  | VELOCITY => [1; -1; 0; 0; 0; 0] | VOLUME => [3; 0; 0; 0; 0; 0] end.
Theorem C43_SI_units : forall q, exists u, get_SI_unit q = Ok u /\ uvalue u = 1%R /\ dim u = dimension q.
Proof.
  intros q. destruct q; (eexists; split; [lazy -[Rmult Rinv Rdiv IZR Q2R PI electronvolt]; reflexivity|split; [cbn [uvalue]; try lra; field|reflexivity]]).
Qed.

(** * Conversion *)
Lemma planck_positive : (0 < planck)%R. Proof. unfold planck. lra. Qed.
Lemma light_positive : (0 < lightspeed)%R. Proof. unfold lightspeed. lra. Qed.
Lemma same_dim : forall a b q, dim b = dimension q -> same_quantity a b = if list_eq_dec Z.eq_dec (dim a) (dimension q) then true else false.
Proof.
  intros a b q H. destruct (list_eq_dec Z.eq_dec (dim a) (dimension q)) as [E|N].
  - apply same_spec. now rewrite H.
  - destruct (same_quantity a b) eqn:S; [|reflexivity]. apply same_spec in S. congruence.
Qed.
(** which quantities a photon relates *)
Definition related (f t : list Z) : Prop :=
  (f = dimension ENERGY /\ t = dimension FREQUENCY) \/ (f = dimension FREQUENCY /\ t = dimension ENERGY) \/
  (f = dimension LENGTH /\ t = dimension FREQUENCY) \/ (f = dimension FREQUENCY /\ t = dimension LENGTH).
Lemma related_dec : forall f t, related f t \/ ~ related f t.
Proof.
  intros f t. unfold related.
  destruct (list_eq_dec Z.eq_dec f (dimension ENERGY)), (list_eq_dec Z.eq_dec f (dimension FREQUENCY)), (list_eq_dec Z.eq_dec f (dimension LENGTH)),
    (list_eq_dec Z.eq_dec t (dimension ENERGY)), (list_eq_dec Z.eq_dec t (dimension FREQUENCY)), (list_eq_dec Z.eq_dec t (dimension LENGTH)); tauto.
Qed.
Lemma try_spec : forall x f t,
  (dim f = dimension ENERGY -> dim t = dimension FREQUENCY -> try_conversion x f t = Ok (x * (1 * uvalue f) * (1 / planck) / (1 * uvalue t))%R) /\
  (dim f = dimension FREQUENCY -> dim t = dimension ENERGY -> try_conversion x f t = Ok (x * (1 * uvalue f) / (1 / planck) / (1 * uvalue t))%R) /\
  (dim f = dimension LENGTH -> dim t = dimension FREQUENCY -> try_conversion x f t = Ok (1 / (x * (1 * uvalue f)) * lightspeed / (1 * uvalue t))%R) /\
  (dim f = dimension FREQUENCY -> dim t = dimension LENGTH -> try_conversion x f t = Ok (1 / (x * (1 * uvalue f) / lightspeed) / (1 * uvalue t))%R) /\
  (~ related (dim f) (dim t) -> try_conversion x f t = Fails).
Proof.
  intros x f t.
  destruct (C43_SI_units ENERGY) as (E & HE & _ & DE). destruct (C43_SI_units FREQUENCY) as (F & HF & _ & DF). destruct (C43_SI_units LENGTH) as (L & HL & _ & DL).
  unfold try_conversion, conversions, try_. rewrite HE, HF, HL. cbn [bind].
  rewrite !(same_dim _ E ENERGY DE), !(same_dim _ F FREQUENCY DF), !(same_dim _ L LENGTH DL).
  destruct (list_eq_dec Z.eq_dec (dim f) (dimension ENERGY)) as [e1|e1],
    (list_eq_dec Z.eq_dec (dim f) (dimension FREQUENCY)) as [f1|f1],
    (list_eq_dec Z.eq_dec (dim f) (dimension LENGTH)) as [l1|l1],
    (list_eq_dec Z.eq_dec (dim t) (dimension ENERGY)) as [e2|e2],
    (list_eq_dec Z.eq_dec (dim t) (dimension FREQUENCY)) as [f2|f2],
    (list_eq_dec Z.eq_dec (dim t) (dimension LENGTH)) as [l2|l2];
  try (rewrite e1 in f1; discriminate f1); try (rewrite e1 in l1; discriminate l1); try (rewrite f1 in l1; discriminate l1);
  try (rewrite e2 in f2; discriminate f2); try (rewrite e2 in l2; discriminate l2); try (rewrite f2 in l2; discriminate l2);
  cbn [andb]; (repeat split); intros; try congruence; try reflexivity; exfalso; unfold related in *; tauto.
Qed.

(** to_SI and to_unit are conversions to and from the SI unit of the quantity *)
Theorem C43_to_SI : forall q x a, to_SI q x a = convert x a (T (SI_unit_name q)).
Proof.
  intros q x a. unfold to_SI, convert. destruct (C43_SI_units q) as (S & HS & V & _). unfold get_SI_unit in *. rewrite HS. cbn [bind].
  destruct (get_unit a) as [u| |]; cbn [bind]; try reflexivity. destruct (negb (same_quantity S u)); [reflexivity|].
  cbn [uvalue udiv]. rewrite V. f_equal. field.
Qed.
Theorem C43_to_unit : forall q x a, to_unit q x a = convert x (T (SI_unit_name q)) a.
Proof.
  intros q x a. unfold to_unit, convert. destruct (C43_SI_units q) as (S & HS & V & _). unfold get_SI_unit in *. rewrite HS. cbn [bind].
  destruct (get_unit a) as [u| |] eqn:E; cbn [bind]; try reflexivity.
  assert (Q : same_quantity u S = same_quantity S u).
  { apply eq_true_iff_eq. rewrite !same_spec. split; congruence. }
  rewrite Q. destruct (negb (same_quantity S u)); [reflexivity|].
  cbn [uvalue udiv]. rewrite V. f_equal. apply C43_positive in E. field. lra.
Qed.
(** conversion between units of the same quantity keeps the value expressed in SI units *)
Theorem C43_convert : forall x a b ua ub, get_unit a = Ok ua -> get_unit b = Ok ub -> dim ua = dim ub ->
  exists y, convert x a b = Ok y /\ (y * uvalue ub = x * uvalue ua)%R.
Proof.
  intros x a b ua ub Ha Hb Hd. unfold convert. rewrite Ha, Hb. cbn [bind].
  rewrite (proj2 (same_spec ub ua)) by now symmetry. cbn [negb]. eexists. split; [reflexivity|].
  apply C43_positive in Hb. cbn [uvalue udiv]. field. lra.
Qed.
(** photon energy and frequency: E = h nu *)
Theorem C44_energy_frequency : forall x a b ua ub, get_unit a = Ok ua -> get_unit b = Ok ub ->
  dim ua = dimension ENERGY -> dim ub = dimension FREQUENCY ->
  (exists y, convert x a b = Ok y /\ (x * uvalue ua = planck * (y * uvalue ub))%R) /\
  (exists y, convert x b a = Ok y /\ (y * uvalue ua = planck * (x * uvalue ub))%R).
Proof.
  intros x a b ua ub Ha Hb Da Db. unfold convert. rewrite Ha, Hb. cbn [bind].
  pose proof (C43_positive _ _ Ha). pose proof (C43_positive _ _ Hb). pose proof planck_positive.
  assert (N1 : same_quantity ub ua = false) by (apply not_true_is_false; rewrite same_spec, Da, Db; discriminate).
  assert (N2 : same_quantity ua ub = false) by (apply not_true_is_false; rewrite same_spec, Da, Db; discriminate).
  rewrite N1, N2. cbn [negb]. split.
  - destruct (try_spec x ua ub) as (Q & _). rewrite (Q Da Db). eexists. split; [reflexivity|]. field. lra.
  - destruct (try_spec x ub ua) as (_ & Q & _). rewrite (Q Db Da). eexists. split; [reflexivity|]. field. lra.
Qed.
(** photon wavelength and frequency: lambda nu = c *)
Theorem C44_wavelength_frequency : forall x a b ua ub, get_unit a = Ok ua -> get_unit b = Ok ub ->
  dim ua = dimension LENGTH -> dim ub = dimension FREQUENCY -> x <> 0%R ->
  (exists y, convert x a b = Ok y /\ ((x * uvalue ua) * (y * uvalue ub) = lightspeed)%R) /\
  (exists y, convert x b a = Ok y /\ ((y * uvalue ua) * (x * uvalue ub) = lightspeed)%R).
Proof.
  intros x a b ua ub Ha Hb Da Db Hx. unfold convert. rewrite Ha, Hb. cbn [bind].
  pose proof (C43_positive _ _ Ha). pose proof (C43_positive _ _ Hb). pose proof light_positive.
  assert (N1 : same_quantity ub ua = false) by (apply not_true_is_false; rewrite same_spec, Da, Db; discriminate).
  assert (N2 : same_quantity ua ub = false) by (apply not_true_is_false; rewrite same_spec, Da, Db; discriminate).
  rewrite N1, N2. cbn [negb]. split.
  - destruct (try_spec x ua ub) as (_ & _ & Q & _). rewrite (Q Da Db). eexists. split; [reflexivity|]. field. lra.
  - destruct (try_spec x ub ua) as (_ & _ & _ & Q & _). rewrite (Q Db Da). eexists. split; [reflexivity|]. field. lra.
Qed.
(** exactly the unrelated quantities are refused *)
Theorem C44_refused : forall x a b ua ub, get_unit a = Ok ua -> get_unit b = Ok ub ->
  (convert x a b = Fails <-> dim ua <> dim ub /\ ~ related (dim ua) (dim ub)) /\ convert x a b <> UB.
Proof.
  intros x a b ua ub Ha Hb. unfold convert. rewrite Ha, Hb. cbn [bind].
  destruct (try_spec x ua ub) as (Q1 & Q2 & Q3 & Q4 & Q5).
  assert (R : related (dim ua) (dim ub) -> exists y, try_conversion x ua ub = Ok y).
  { intros [[? ?]|[[? ?]|[[? ?]|[? ?]]]]; eexists; eauto. }
  destruct (same_quantity ub ua) eqn:S; cbn [negb].
  - apply same_spec in S. split; [|discriminate]. split; [discriminate|]. intros [? _]. congruence.
  - assert (N : dim ua <> dim ub). { intros E. symmetry in E. apply same_spec in E. congruence. }
    pose proof (related_dec (dim ua) (dim ub)) as D.
    destruct D as [D|D].
    + destruct (R D) as [y ->]. split; [|discriminate]. split; [discriminate|tauto].
    + rewrite (Q5 D). split; [tauto|discriminate].
Qed.
(** in particular, a photon energy cannot be converted directly to a wavelength *)
Corollary C44_energy_wavelength_refused : forall x a b ua ub, get_unit a = Ok ua -> get_unit b = Ok ub ->
  dim ua = dimension ENERGY -> dim ub = dimension LENGTH -> convert x a b = Fails /\ convert x b a = Fails.
Proof.
  intros x a b ua ub Ha Hb Da Db. split.
  - apply (C44_refused x a b ua ub Ha Hb). rewrite Da, Db. split; [discriminate|]. intros [[? ?]|[[? ?]|[[? ?]|[? ?]]]]; discriminate.
  - apply (C44_refused x b a ub ua Hb Ha). rewrite Da, Db. split; [discriminate|]. intros [[? ?]|[[? ?]|[[? ?]|[? ?]]]]; discriminate.
Qed.
(** there and back is the identity *)
Theorem C44_inverse : forall x y a b, convert x a b = Ok y -> x <> 0%R -> convert y b a = Ok x.
Proof.
  intros x y a b H Hx.
  destruct (get_unit a) as [ua| |] eqn:Ha; [|unfold convert in H; rewrite Ha in H; discriminate|unfold convert in H; rewrite Ha in H; discriminate].
  destruct (get_unit b) as [ub| |] eqn:Hb; [|unfold convert in H; rewrite Ha, Hb in H; discriminate|unfold convert in H; rewrite Ha, Hb in H; discriminate].
  pose proof (C43_positive _ _ Ha) as Pa. pose proof (C43_positive _ _ Hb) as Pb. pose proof planck_positive as Pp. pose proof light_positive as Pl.
  destruct (list_eq_dec Z.eq_dec (dim ua) (dim ub)) as [E|N].
  { destruct (C43_convert x a b ua ub Ha Hb E) as (y' & Hy & Ey). rewrite H in Hy. injection Hy as <-.
    destruct (C43_convert y b a ub ua Hb Ha (eq_sym E)) as (z & -> & Ez). f_equal.
    apply Rmult_eq_reg_r with (uvalue ua); [|lra]. congruence. }
  destruct (C44_refused x a b ua ub Ha Hb) as [R _].
  assert (D : related (dim ua) (dim ub)).
  { pose proof (related_dec (dim ua) (dim ub)) as D.
    destruct D as [D|D]; [assumption|]. rewrite (proj2 R) in H by tauto. discriminate. }
  destruct D as [[Da Db]|[[Da Db]|[[Da Db]|[Da Db]]]].
  - destruct (C44_energy_frequency x a b ua ub Ha Hb Da Db) as [(y' & Hy & Ey) _]. rewrite H in Hy. injection Hy as <-.
    destruct (C44_energy_frequency y a b ua ub Ha Hb Da Db) as [_ (z & -> & Ez)]. f_equal.
    apply Rmult_eq_reg_r with (uvalue ua); [|lra]. congruence.
  - destruct (C44_energy_frequency x b a ub ua Hb Ha Db Da) as [_ (y' & Hy & Ey)]. rewrite H in Hy. injection Hy as <-.
    destruct (C44_energy_frequency y b a ub ua Hb Ha Db Da) as [(z & -> & Ez) _]. f_equal.
    apply Rmult_eq_reg_r with (uvalue ua); [|lra]. apply Rmult_eq_reg_l with planck; [|lra]. congruence.
  - destruct (C44_wavelength_frequency x a b ua ub Ha Hb Da Db Hx) as [(y' & Hy & Ey) _]. rewrite H in Hy. injection Hy as <-.
    assert (Ny : y <> 0%R) by (intros ->; lra).
    destruct (C44_wavelength_frequency y a b ua ub Ha Hb Da Db Ny) as [_ (z & -> & Ez)]. f_equal.
    apply Rmult_eq_reg_r with ((uvalue ua) * (y * uvalue ub))%R; [lra|]. intros Q. apply Rmult_integral in Q as [Q|Q]; [lra|]. apply Rmult_integral in Q as [Q|Q]; lra.
  - destruct (C44_wavelength_frequency x b a ub ua Hb Ha Db Da Hx) as [_ (y' & Hy & Ey)]. rewrite H in Hy. injection Hy as <-.
    assert (Ny : y <> 0%R) by (intros ->; lra).
    destruct (C44_wavelength_frequency y b a ub ua Hb Ha Db Da Ny) as [(z & -> & Ez) _]. f_equal.
    apply Rmult_eq_reg_r with ((y * uvalue ub) * (uvalue ua))%R; [lra|]. intros Q. apply Rmult_integral in Q as [Q|Q]; [|lra]. apply Rmult_integral in Q as [Q|Q]; lra.
Qed.
(** a concrete case: "eV" and "Hz", "micron" and "Hz" *)
Example C44_ex : exists e n m, get_unit (T "eV") = Ok e /\ get_unit (T "Hz") = Ok n /\ get_unit (T "micron") = Ok m /\
  dim e = dimension ENERGY /\ dim n = dimension FREQUENCY /\ dim m = dimension LENGTH.
Proof. do 3 eexists. do 3 (split; [reflexivity|]). repeat split. Qed.
Print Assumptions C43_parse. Print Assumptions C44_inverse. Print Assumptions C44_refused. Print Assumptions C43_to_unit. Print Assumptions C43_system_of_units.
Print Assumptions C43_power. Print Assumptions C43_unknown. Print Assumptions C44_energy_frequency. Print Assumptions C44_wavelength_frequency.
