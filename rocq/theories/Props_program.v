(** C93: the command line program as a whole *)
From Coq Require Import List Ascii String ZArith Lia Bool Reals Lra Floats.SpecFloat.
From Flocq Require Import Core.
From Coquelicot Require Import Complex.
From Verif Require Import QMatrix TClass Frames PyTMatrix Parse Yaml YamlFacts Props_yaml Units Props_units CmdLine Props_cmdline Props_parse NumText Props_numtext Program.
From Verif Require Props_tmatrix Props_tclass Props_pytmatrix.
Import ListNotations.
Notation R := Rdefinitions.R.
Local Open Scope R_scope.

(* ------------------------------------------------------------ specification *)
Definition spaces (n : nat) : text := repeat " "%char n.
(** what a text says *)
Definition says_quantity (q : quantity) (s : text) (x : R) : Prop :=
  exists a dec b unit u, s = spaces a ++ text_of dec ++ spaces (S b) ++ unit /\ well_formed dec /\ normal (value_of dec) /\ hd " "%char unit <> " "%char /\
    get_unit unit = Ok u /\ dim u = dimension q /\ x = dbl (value_of dec) * uvalue u.
Definition says_real (s : text) (x : R) : Prop := exists a dec, s = spaces a ++ text_of dec /\ well_formed dec /\ normal (value_of dec) /\ x = dbl (value_of dec).
Definition says_complex (s : text) (z : C) : Prop :=
  exists a dec1 b c dec2, s = spaces a ++ text_of dec1 ++ spaces b ++ "+"%char :: spaces c ++ text_of dec2 ++ T "i" /\ well_formed dec1 /\ well_formed dec2 /\
    normal (value_of dec1) /\ normal (value_of dec2) /\ z = (dbl (value_of dec1), dbl (value_of dec2)).
Definition says_flag (s : text) (b : bool) : Prop := In s (map T (if b then ["true"; "yes"; "on"; "y"] else ["false"; "no"; "off"; "n"])%string).
Definition says_count (s : text) (n : Z) : Prop := exists ds, s = map digit_char ds /\ decimal_digits ds /\ value 10 ds = n /\ (n < 2 ^ 64)%Z.
(** the text of a parameter in the file: the words "default value" mean that it is not given *)
Definition entry_of (d : dict) (k : string) : option text := match find (T k) d with Some v => if text_eqb v (T "default value") then None else Some v | None => None end.
Definition quantity_is (d : dict) (q : quantity) (k default : string) (x : R) : Prop := says_quantity q (match entry_of d k with Some s => s | None => T default end) x.
Definition is_ {A} (d : dict) (k : string) (default : A) (says : text -> A -> Prop) (x : A) : Prop := match entry_of d k with Some s => says s x | None => x = default end.
(** the inputs of the program, and what they are for a given parameter file *)
Record inputs := mkIn { i_size : R; i_volume : bool; i_index : C; i_ratio : R; i_wavelength : R; i_tolerance : R; i_factor : Z; i_order : Z; i_points : Z;
  i_alpha : R; i_beta : R; i_theta_in : R; i_phi_in : R; i_theta_out : R; i_phi_out : R }.
Definition describes (d : dict) (i : inputs) : Prop :=
  quantity_is d LENGTH "DustParticle:size" "10. micron" (i_size i) /\
  is_ d "DustParticle:is equal volume sphere radius" true says_flag (i_volume i) /\
  is_ d "DustParticle:refractive index" (1.5, 0.02) says_complex (i_index i) /\
  is_ d "DustParticle:axis ratio" 0.5 says_real (i_ratio i) /\
  quantity_is d ANGLE "DustParticle:alpha angle" "145. degrees" (i_alpha i) /\
  quantity_is d ANGLE "DustParticle:beta angle" "52. degrees" (i_beta i) /\
  quantity_is d LENGTH "Radiation:incoming wavelength" "6.283185307 micron" (i_wavelength i) /\
  quantity_is d ANGLE "Radiation:incoming theta" "56. degrees" (i_theta_in i) /\
  quantity_is d ANGLE "Radiation:incoming phi" "114. degrees" (i_phi_in i) /\
  quantity_is d ANGLE "Radiation:outgoing theta" "65. degrees" (i_theta_out i) /\
  quantity_is d ANGLE "Radiation:outgoing phi" "128. degrees" (i_phi_out i) /\
  is_ d "Calculation:tolerance" 1e-4 says_real (i_tolerance i) /\
  is_ d "Calculation:Gauss Legendre factor" 2%Z says_count (i_factor i) /\
  is_ d "Calculation:maximum order" 200%Z says_count (i_order i) /\
  is_ d "Calculation:maximum number of Gauss Legendre points" 500%Z says_count (i_points i).
(** the order in which the program asks for them *)
Definition listed (i : inputs) : list pvalue :=
  [VReal (i_size i); VFlag (i_volume i); VComplex (i_index i); VReal (i_ratio i); VReal (i_wavelength i); VReal (i_tolerance i); VCount (i_factor i); VCount (i_order i); VCount (i_points i);
   VReal (i_alpha i); VReal (i_beta i); VReal (i_theta_in i); VReal (i_phi_in i); VReal (i_theta_out i); VReal (i_phi_out i)].

(* ------------------------------------------------------------ reading the parameters *)
Section Reading.
Variable other : text -> res (R * text).
Notation ask := (ask other).
Notation ask_all := (ask_all other).

Lemma spaces_S : forall n, spaces (S n) = " "%char :: spaces n. Proof. reflexivity. Qed.
Lemma skip_to : forall n s, hd " "%char s <> " "%char -> skip_spaces (spaces n ++ s) = s.
Proof.
  induction n as [|n IH]; intros s H; cbn [spaces repeat app skip_spaces].
  - destruct s as [|c s]; [reflexivity|]. cbn [hd] in H. cbn [skip_spaces]. destruct (Ascii.eqb_spec c " "); [contradiction|reflexivity].
  - change (Ascii.eqb " " " ") with true. cbv iota. apply IH. exact H.
Qed.
Lemma separate_spaces : forall n c s, c <> "."%char -> isdigit c = false -> ~ In c (T "eExX") -> separate (spaces n ++ c :: s).
Proof.
  intros [|n] c s A B D.
  - cbn [spaces repeat app separate]. split; [apply no_digit; exact B|]. cbn in D |- *. intros [E|E]; [congruence|tauto].
  - exact (separate_space (spaces n ++ c :: s)).
Qed.
Lemma dim_same : forall u v, dim u = dim v -> same_quantity u v = true.
Proof.
  intros u v E. unfold dim in E. injection E as E1 E2 E3 E4 E5 E6. unfold same_quantity. rewrite E1, E2, E3, E4, E5, E6, !Z.eqb_refl. reflexivity.
Qed.
Lemma to_SI_same : forall q v s u, get_unit s = Ok u -> dim u = dimension q -> to_SI q v s = Ok (v * uvalue u).
Proof.
  intros q v s u E D. destruct (C43_SI_units q) as (w & W & _ & DW). unfold to_SI. rewrite W, E. cbn [bind]. rewrite (dim_same w u) by congruence. reflexivity.
Qed.
Lemma read_quantity : forall q s x, says_quantity q s x -> bind (split_value other s) (fun '(v, unit) => to_SI q v unit) = Ok x.
Proof.
  intros q s x (a & dec & b & unit & u & -> & W & N & H & U & D & ->). unfold split_value, spaces at 1.
  rewrite (C92_reading other dec a (spaces (S b) ++ unit) W N).
  - cbn [bind fst snd]. rewrite skip_to by exact H. apply to_SI_same; auto.
  - destruct unit as [|c r]; [cbn in H; congruence|]. exact (separate_space (spaces b ++ c :: r)).
Qed.
Lemma read_real : forall s x, says_real s x -> to_double other s = Ok x.
Proof. intros s x (a & dec & -> & W & N & ->). unfold to_double, spaces. pose proof (C92_reading other dec a [] W N I) as E. rewrite app_nil_r in E. rewrite E. reflexivity. Qed.
Lemma span_to : forall n c s, isspace c = false -> snd (span isspace (spaces n ++ c :: s)) = c :: s.
Proof. intros n c s H. apply span_spaces. exact H. Qed.
Lemma read_complex : forall s z, says_complex s z -> to_complex other s = Ok z.
Proof.
  intros s z (a & d1 & b & c & d2 & -> & W1 & W2 & N1 & N2 & ->). unfold to_complex. unfold spaces at 1. rewrite (C92_reading other d1 a _ W1 N1).
  2:{ apply separate_spaces; [discriminate|reflexivity|]. cbn. intuition discriminate. }
  cbn [bind snd fst]. rewrite span_to by reflexivity. change (Ascii.eqb "+" "+") with true. cbv iota. unfold spaces. rewrite (C92_reading other d2 c (T "i") W2 N2); [reflexivity|].
  split; [apply no_digit; reflexivity|]. cbn. intuition discriminate.
Qed.
Lemma read_flag : forall s b, says_flag s b -> to_bool s = Ok b.
Proof. intros s b H. unfold says_flag in H. destruct b; cbn [map In] in H; repeat (destruct H as [<-|H]; [reflexivity|]); destruct H. Qed.
Lemma value_nonneg : forall ds, decimal_digits ds -> (0 <= value 10 ds)%Z.
Proof.
  intros ds (_ & F). unfold value. assert (G: forall a, (0 <= a)%Z -> (0 <= fold_left (fun a d => a * 10 + d) ds a)%Z).
  { induction ds as [|d ds IH]; intros a Ha; cbn [fold_left]; [exact Ha|]. inversion_clear F. apply IH; auto. lia. }
  apply G. lia.
Qed.
Lemma read_count : forall s n, says_count s n -> string_to_integer u64 s = Ok n.
Proof.
  intros s n (ds & -> & D & V & B). pose proof (value_nonneg ds D) as P. pose proof (C40_decimal u64 0 false ds []) as G. cbn [repeat app sign_text] in G. rewrite app_nil_r in G. cbn [signed_value] in G. rewrite V in G, P. apply G; auto.
  - split; [cbn; auto|discriminate].
  - exact I.
  - unfold representable, lo, hi. cbn [signed bits u64]. lia.
  - unfold representable, lo, hi. cbn [signed bits u64]. lia.
Qed.

Definition seen (y : yaml) (k : text) : option text := match find k (dictionary y) with Some v => if text_eqb v (T "default value") then None else Some v | None => None end.
Lemma default_step : forall k dv y, exists y', get_string_default k dv y = (match seen y k with Some s => s | None => dv end, y') /\ (forall k', seen y' k' = seen y k').
Proof.
  intros k dv y. unfold get_string_default, seen. fold sentinel. destruct (find k (dictionary y)) as [v|] eqn:E.
  - destruct (text_eqb_spec v sentinel) as [->|N]; eexists; (split; [reflexivity|]); intros k'; cbn [dictionary]; [|reflexivity].
    rewrite find_put. destruct (text_eqb_spec k' k) as [->|]; [|reflexivity]. rewrite E. reflexivity.
  - eexists. split; [reflexivity|]. intros k'. cbn [dictionary]. rewrite find_put. destruct (text_eqb_spec k' k) as [->|]; [|reflexivity]. rewrite E. destruct (text_eqb_spec sentinel sentinel); [reflexivity|congruence].
Qed.
Lemma typed_step : forall {A} (conv : text -> res A) (show : A -> text) k dv y x, conv [] = Fails \/ conv [] = UB ->
  match seen y k with Some s => conv s = Ok x | None => x = dv end ->
  exists y', get_default conv show k dv y = Ok (x, y') /\ (forall k', seen y' k' = seen y k').
Proof.
  intros A conv show k dv y x C H. unfold get_default. destruct (default_step k [] y) as (y' & -> & S).
  assert (E: match (match seen y k with Some s => s | None => [] end) with [] => Ok dv | v => conv v end = Ok x).
  { destruct (seen y k) as [[|c s]|]; [destruct C; congruence|exact H|rewrite H; reflexivity]. }
  destruct (match seen y k with Some s => s | None => [] end) as [|c s]; rewrite E; eexists; (split; [reflexivity|exact S]).
Qed.
(** what a parameter has to be *)
Definition fits (sn : text -> option text) (r : string * parameter) (v : pvalue) : Prop :=
  match snd r, v with
  | Physical q dv, VReal x => says_quantity q (match sn (T (fst r)) with Some s => s | None => dv end) x
  | Flag dv, VFlag b => match sn (T (fst r)) with Some s => says_flag s b | None => b = dv end
  | Program.Complex dv, VComplex z => match sn (T (fst r)) with Some s => says_complex s z | None => z = dv end
  | Real dv, VReal x => match sn (T (fst r)) with Some s => says_real s x | None => x = dv end
  | Count dv, VCount n => match sn (T (fst r)) with Some s => says_count s n | None => n = dv end
  | _, _ => False
  end.
Lemma ask_fits : forall k p y v, fits (seen y) (k, p) v -> exists y', ask (T k) p y = Ok (v, y') /\ (forall k', seen y' k' = seen y k').
Proof.
  intros k p y v H. destruct p as [q dv|dv|dv|dv|dv], v as [x|b|z|n]; cbn [fits fst snd] in H; try contradiction; cbn [Program.ask].
  - unfold get_physical. destruct (default_step (T k) dv y) as (y' & -> & S). apply read_quantity in H. destruct (split_value other _) as [(v, unit)| |]; cbn [bind] in H |- *; try discriminate. rewrite H. cbn [bind as_]. eexists. split; [reflexivity|]. exact S.
  - destruct (typed_step to_bool of_bool (T k) dv y b) as (y' & E & S); [right; reflexivity| |rewrite E; eexists; split; [reflexivity|exact S]]. destruct (seen y (T k)); auto. apply read_flag; auto.
  - destruct (typed_step (to_complex other) show_complex (T k) dv y z) as (y' & E & S); [left; reflexivity| |rewrite E; eexists; split; [reflexivity|exact S]]. destruct (seen y (T k)); auto. apply read_complex; auto.
  - destruct (typed_step (to_double other) show_double (T k) dv y x) as (y' & E & S); [left; reflexivity| |rewrite E; eexists; split; [reflexivity|exact S]]. destruct (seen y (T k)); auto. apply read_real; auto.
  - destruct (typed_step (string_to_integer u64) show_count (T k) dv y n) as (y' & E & S); [left; reflexivity| |rewrite E; eexists; split; [reflexivity|exact S]]. destruct (seen y (T k)); auto. apply read_count; auto.
Qed.
Lemma ask_all_fits : forall l y vs, Forall2 (fits (seen y)) l vs -> exists y', ask_all l y = Ok (vs, y').
Proof.
  induction l as [|(k, p) l IH]; intros y vs H; inversion_clear H as [|? ? ? ? H1 H2]; cbn [Program.ask_all]; [eexists; reflexivity|].
  destruct (ask_fits _ _ _ _ H1) as (y1 & -> & S). cbn [bind]. destruct (IH y1 l') as (y2 & ->).
  - clear - H2 S. induction H2 as [|r v l vs H]; constructor; auto. destruct r as (k', p'). unfold fits in *. cbn [fst snd] in *. rewrite S. exact H.
  - eexists. reflexivity.
Qed.
(** *** the program reads the documented parameters *)
Theorem C93_parameters : forall d i, describes d i -> exists y, ask_all requests (mkY d []) = Ok (listed i, y).
Proof.
  intros d i (H1 & H2 & H3 & H4 & H5 & H6 & H7 & H8 & H9 & H10 & H11 & H12 & H13 & H14 & H15). apply ask_all_fits. unfold listed, requests.
  repeat (constructor; [assumption|]). constructor.
Qed.
End Reading.
Print Assumptions C93_parameters.

(* ------------------------------------------------------------ the file of used values *)
(** what is recorded for a value *)
Definition text_for (p : parameter) (v : pvalue) : text :=
  match p, v with
  | Physical q _, VReal x => show_double x ++ T " " ++ T (SI_unit_name q)
  | _, VReal x => show_double x
  | _, VFlag b => of_bool b
  | _, VComplex z => show_complex z
  | _, VCount n => show_count n
  end.
Definition typed (p : parameter) (v : pvalue) : Prop :=
  match p, v with Physical _ _, VReal _ | Flag _, VFlag _ | Program.Complex _, VComplex _ | Real _, VReal _ => True | Count _, VCount n => (0 <= n < 2 ^ 64)%Z | _, _ => False end.
(** the numbers are neither very large nor very small *)
Definition moderate_value (v : pvalue) : Prop := match v with VReal x => moderate x | VComplex z => moderate (fst z) /\ moderate (snd z) | _ => True end.
(** equal up to 5.001 millionths *)
Definition near (v w : pvalue) : Prop :=
  match v, w with
  | VReal x, VReal y => close x y
  | VFlag a, VFlag b => a = b
  | VComplex z, VComplex w => close (fst z) (fst w) /\ close (snd z) (snd w)
  | VCount m, VCount n => m = n
  | _, _ => False
  end.
(** unit names of the program *)
Definition plain_unit (q : quantity) : Prop := q = LENGTH \/ q = ANGLE.
Definition usable (p : parameter) : Prop := match p with Physical q _ => plain_unit q | Count n => (0 <= n < 2 ^ 64)%Z | _ => True end.

Definition number_char (c : ascii) : Prop := c = " "%char \/ In c (T "0123456789.+-eEi").
Lemma digit_number : forall d, (0 <= d <= 9)%Z -> In (digit_char d) (T "0123456789").
Proof. intros d H. assert (D: d = 0%Z \/ d = 1%Z \/ d = 2%Z \/ d = 3%Z \/ d = 4%Z \/ d = 5%Z \/ d = 6%Z \/ d = 7%Z \/ d = 8%Z \/ d = 9%Z) by lia. repeat (destruct D as [-> |D]; [cbn; tauto|]). rewrite D. cbn. tauto. Qed.
Definition tight (s : text) : Prop := s <> [] /\ forall c, In c s -> In c (T "0123456789.+-eE").
Lemma digits_in : forall ds c, digits_ok ds -> In c (map digit_char ds) -> In c (T "0123456789").
Proof. intros ds c H I. apply in_map_iff in I. destruct I as (d & <- & Id). apply digit_number. unfold digits_ok in H. rewrite Forall_forall in H. apply H. exact Id. Qed.
Lemma in_more : forall c, In c (T "0123456789") -> In c (T "0123456789.+-eE").
Proof. intros c H. cbn in H |- *. tauto. Qed.
Lemma text_tight : forall d, well_formed d -> tight (text_of d).
Proof.
  intros d (A & B & P & N & X). split.
  - unfold text_of. destruct (minus d) as [[|]|]; cbn [sign_str app]; try discriminate. destruct (before d) as [|x a]; cbn [map app] in *; [|discriminate]. destruct (with_point d); [discriminate|]. rewrite P in N by auto. congruence.
  - intros c I. unfold text_of in I. rewrite !in_app_iff in I. destruct I as [I|[I|[I|I]]].
    + destruct (minus d) as [[|]|]; cbn [sign_str In] in I; repeat (destruct I as [<-|I]; [cbn; tauto|]); destruct I.
    + apply in_more. apply (digits_in (before d)); auto.
    + destruct (with_point d); [|cbn in I; contradiction]. destruct I as [<-|I]; [cbn; tauto|]. apply in_more. eapply digits_in; [|exact I]. auto.
    + destruct (expo_of d) as [|u s ds]; [cbn in I; contradiction|]. cbn [expo_text] in I. destruct I as [<-|I]; [destruct u; cbn; tauto|]. apply in_app_iff in I. destruct I as [I|I].
      * destruct s as [[|]|]; cbn [sign_str In] in I; repeat (destruct I as [<-|I]; [cbn; tauto|]); destruct I.
      * apply in_more. eapply digits_in; [|exact I]. tauto.
Qed.
Lemma show_tight : forall x, moderate x -> tight (show_double x).
Proof. intros x M. destruct (shown x M) as (d & -> & W & _). apply text_tight; auto. Qed.
(** texts that begin and end with a character that is not a blank, and have no # and no newline *)
Lemma good_ends : forall s c r a l, s = c :: r -> s = a ++ [l] -> blank c = false -> blank l = false -> plain s -> good_value s.
Proof.
  intros s c r a l E1 E2 B1 B2 P. split; [rewrite E1; discriminate|]. split; [exact P|]. intros x d y E B. split.
  - intros ->. cbn [app] in E. rewrite E in E1. injection E1 as -> _. congruence.
  - intros ->. rewrite E in E2. apply app_inj_tail in E2. destruct E2 as (_ & ->). congruence.
Qed.
Lemma tight_char : forall c, In c (T "0123456789.+-eE") -> blank c = false /\ c <> "#"%char /\ c <> newline /\ c <> "d"%char.
Proof. intros c H. cbn in H. repeat (destruct H as [<-|H]; [repeat split; discriminate|]). destruct H. Qed.
Lemma tight_ends : forall s, tight s -> exists c r a l, s = c :: r /\ s = a ++ [l] /\ In c (T "0123456789.+-eE") /\ In l (T "0123456789.+-eE").
Proof.
  intros s (N & H). destruct (exists_last N) as (a & l & E). destruct s as [|c r]; [congruence|]. exists c, r, a, l. split; [reflexivity|]. split; [exact E|]. split; apply H; [left; reflexivity|]. rewrite E. apply in_app_iff. right. left. reflexivity.
Qed.
Lemma good_tight : forall s rest, tight s -> (forall c, In c rest -> c <> "#"%char /\ c <> newline) -> (rest = [] \/ exists a l, rest = a ++ [l] /\ blank l = false) ->
  good_value (s ++ rest) /\ s ++ rest <> sentinel.
Proof.
  intros s rest Ts PR E. destruct (tight_ends s Ts) as (c & r & a & l & E1 & E2 & Hc & Hl). destruct (tight_char c Hc) as (Bc & _ & _ & Nd). split.
  - assert (P: plain (s ++ rest)). { intros x I. apply in_app_iff in I. destruct I as [I|I]; [|apply PR; auto]. apply (proj2 Ts) in I. destruct (tight_char x I) as (_ & A & B & _). auto. }
    destruct E as [-> |(a' & l' & -> & Bl)].
    + rewrite app_nil_r in *. eapply good_ends; eauto. apply (tight_char l Hl).
    + apply (good_ends _ c (r ++ a' ++ [l']) (s ++ a') l'); auto; [rewrite E1; reflexivity|rewrite app_assoc; reflexivity].
  - rewrite E1. cbn [app]. intros X. injection X as X _. congruence.
Qed.
Lemma count_tight : forall n, (0 <= n < 2 ^ 64)%Z -> tight (show_count n).
Proof.
  intros n H. unfold show_count. destruct (numeral_spec 10 n ltac:(lia) ltac:(lia)) as (_ & N & D). split; [intros E; apply map_eq_nil in E; contradiction|]. intros c I. apply in_more. apply (digits_in (numeral 10 n)); [|exact I].
  unfold digits_ok. eapply Forall_impl; [|exact D]. cbn beta. intros a Ha. lia.
Qed.
Lemma text_good : forall p v, usable p -> typed p v -> moderate_value v -> good_value (text_for p v) /\ text_for p v <> sentinel.
Proof.
  intros p v U Ty M. destruct p as [q dv|dv|dv|dv|dv], v as [x|b|z|n]; cbn [typed] in Ty; try contradiction; cbn [text_for usable moderate_value] in *.
  - apply good_tight; [apply show_tight; auto| |right].
    + intros c I. destruct U as [-> | ->]; cbn in I; repeat (destruct I as [<-|I]; [split; discriminate|]); destruct I.
    + destruct U as [-> | ->]; [exists (T " "), "m"%char|exists (T " radian"), "s"%char]; split; reflexivity.
  - destruct b.
    + pose proof (good_ends (T "true") "t" (T "rue") (T "tru") "e" eq_refl eq_refl eq_refl eq_refl) as G. split; [|discriminate]. apply G. intros c I. cbn in I. repeat (destruct I as [<-|I]; [split; discriminate|]). destruct I.
    + pose proof (good_ends (T "false") "f" (T "alse") (T "fals") "e" eq_refl eq_refl eq_refl eq_refl) as G. split; [|discriminate]. apply G. intros c I. cbn in I. repeat (destruct I as [<-|I]; [split; discriminate|]). destruct I.
  - destruct M as (M1 & M2). unfold show_complex. apply good_tight; [apply show_tight; auto| |right].
    + intros c I. rewrite !in_app_iff in I. destruct I as [I|[I|I]].
      * cbn in I. repeat (destruct I as [<-|I]; [split; discriminate|]). destruct I.
      * apply (show_tight _ M2) in I. destruct (tight_char c I) as (_ & A & B & _). auto.
      * cbn in I. repeat (destruct I as [<-|I]; [split; discriminate|]). destruct I.
    + exists (T " + " ++ show_double (snd z)), "i"%char. split; [rewrite <- app_assoc; reflexivity|reflexivity].
  - rewrite <- (app_nil_r (show_double x)). apply good_tight; [apply show_tight; auto|intros c []|left; reflexivity].
  - rewrite <- (app_nil_r (show_count n)). apply good_tight; [apply count_tight; auto|intros c []|left; reflexivity].
Qed.

Section Used.
Variable other : text -> res (R * text).
Notation ask := (ask other).
Notation ask_all := (ask_all other).

Lemma u64_range : forall s n, string_to_integer u64 s = Ok n -> (0 <= n < 2 ^ 64)%Z.
Proof.
  assert (M: forall a b n, mul u64 a b = Ok n -> (0 <= n < 2 ^ 64)%Z).
  { intros a b n E. change (mul u64 a b) with (@Ok Z (wrap u64 (a * b))) in E. injection E as <-. unfold wrap, lo, hi. cbn [signed bits u64]. pose proof (Z.mod_pos_bound (a * b - 0) (2 ^ 64) ltac:(lia)). lia. }
  intros s n. unfold string_to_integer. destruct s as [|c s]; [discriminate|]. destruct (skip_spaces (c :: s)) as [|c0 tl]; [discriminate|].
  destruct (if Ascii.eqb c0 "-" then _ else _) as (sg, r). destruct (_ && _).
  - destruct (take_hex _) as ([|h hs], ?); [discriminate|]. destruct (_ <? _)%Z; [discriminate|]. apply M.
  - destruct (take_dec r) as (ds, rest). match goal with |- bind ?x _ = _ -> _ => destruct x as [v| |] end; cbn [bind]; try discriminate. apply M.
Qed.
(** a dictionary that was extended by markers for the parameters that were not given *)
Definition marked (d d' : dict) (k : text) : Prop := d' = d /\ (exists v, find k d = Some v) \/ d' = put k sentinel d.
Lemma default_effect : forall k dv y s y', get_string_default k dv y = (s, y') -> marked (dictionary y) (dictionary y') k /\ exists w, used_values y' = put k w (used_values y).
Proof.
  intros k dv y s y' E. unfold get_string_default in E. destruct (find k (dictionary y)) as [v|] eqn:F; [destruct (text_eqb v sentinel)|]; injection E as <- <-; cbn [dictionary used_values]; (split; [|eexists; reflexivity]); unfold marked; eauto.
Qed.
Lemma typed_effect : forall {A} (conv : text -> res A) (show : A -> text) k dv y a y', get_default conv show k dv y = Ok (a, y') ->
  marked (dictionary y) (dictionary y') k /\ (exists w, used_values y' = put k (show a) (put k w (used_values y))) /\ (a = dv \/ exists s, conv s = Ok a).
Proof.
  intros A conv show k dv y a y' E. unfold get_default in E. destruct (get_string_default k [] y) as (s, y1) eqn:D. destruct (default_effect _ _ _ _ _ D) as (M & w & W).
  destruct s as [|c s]; [|destruct (conv (c :: s)) as [b| |] eqn:Cv]; cbn [bind] in E; try discriminate; injection E as <- <-; cbn [dictionary used_values]; (split; [exact M|]); (split; [exists w; rewrite W; reflexivity|]); eauto.
Qed.
Lemma ask_effect : forall k p y v y', usable p -> ask k p y = Ok (v, y') -> typed p v /\ marked (dictionary y) (dictionary y') k /\ exists w, used_values y' = put k (text_for p v) (put k w (used_values y)).
Proof.
  intros k p y v y' U E. destruct p as [q dv|dv|dv|dv|dv]; cbn [Program.ask] in E.
  - unfold get_physical in E. destruct (get_string_default k dv y) as (s, y1) eqn:D. destruct (default_effect _ _ _ _ _ D) as (M & w & W).
    destruct (split_value other s) as [(x, u)| |]; cbn [bind as_] in E; try discriminate. destruct (to_SI q x u) as [z| |]; cbn [bind] in E; try discriminate. injection E as <- <-. cbn [dictionary used_values typed text_for]. split; [exact I|]. split; [exact M|]. exists w. rewrite W. reflexivity.
  - destruct (get_default _ _ _ _ _) as [(a, y1)| |] eqn:D; cbn [as_ bind] in E; try discriminate. injection E as <- <-. destruct (typed_effect _ _ _ _ _ _ _ D) as (M & W & _). split; [exact I|]. split; [exact M|exact W].
  - destruct (get_default _ _ _ _ _) as [(a, y1)| |] eqn:D; cbn [as_ bind] in E; try discriminate. injection E as <- <-. destruct (typed_effect _ _ _ _ _ _ _ D) as (M & W & _). split; [exact I|]. split; [exact M|exact W].
  - destruct (get_default _ _ _ _ _) as [(a, y1)| |] eqn:D; cbn [as_ bind] in E; try discriminate. injection E as <- <-. destruct (typed_effect _ _ _ _ _ _ _ D) as (M & W & _). split; [exact I|]. split; [exact M|exact W].
  - destruct (get_default _ _ _ _ _) as [(a, y1)| |] eqn:D; cbn [as_ bind] in E; try discriminate. injection E as <- <-. destruct (typed_effect _ _ _ _ _ _ _ D) as (M & W & G). split; [|split; [exact M|exact W]]. cbn [typed]. destruct G as [-> |(s & G)]; [exact U|eapply u64_range; eauto].
Qed.
(** reading the recorded text again *)
Lemma default_found : forall k dv y s, find k (dictionary y) = Some s -> s <> sentinel -> get_string_default k dv y = (s, mkY (dictionary y) (put k s (used_values y))).
Proof. intros k dv y s E N. unfold get_string_default. rewrite E. destruct (text_eqb_spec s sentinel); [contradiction|reflexivity]. Qed.
Lemma put_put : forall k a b d, put k a (put k b d) = put k a d.
Proof.
  intros k a b. induction d as [|(q, w) d IH]; cbn [put].
  - rewrite compare_refl. reflexivity.
  - destruct (compare_text k q) eqn:E; cbn [put]; rewrite ?compare_refl, ?E; try reflexivity. rewrite IH. reflexivity.
Qed.
Lemma typed_again : forall {A} (conv : text -> res A) (show : A -> text) k dv y s a, find k (dictionary y) = Some s -> s <> sentinel -> s <> [] -> conv s = Ok a -> show a = s ->
  get_default conv show k dv y = Ok (a, mkY (dictionary y) (put k s (used_values y))).
Proof.
  intros A conv show k dv y s a F N NE Cv Sh. unfold get_default. rewrite (default_found _ _ _ _ F N). destruct s as [|c s]; [congruence|]. rewrite Cv. cbn [bind dictionary used_values]. rewrite Sh, put_put. reflexivity.
Qed.
Lemma ask_again : forall k p v y, usable p -> typed p v -> moderate_value v -> find k (dictionary y) = Some (text_for p v) ->
  exists v', ask k p y = Ok (v', mkY (dictionary y) (put k (text_for p v) (used_values y))) /\ near v v' /\ text_for p v' = text_for p v /\ typed p v'.
Proof.
  intros k p v y U Ty M F. destruct (text_good p v U Ty M) as ((NE & _) & NS). destruct p as [q dv|dv|dv|dv|dv], v as [x|b|z|n]; cbn [typed] in Ty; try contradiction; cbn [text_for usable moderate_value Program.ask] in *.
  - assert (UN: exists c u w, T (SI_unit_name q) = c :: u /\ c <> " "%char /\ get_unit (c :: u) = Ok w /\ uvalue w = 1 /\ dim w = dimension q).
    { destruct (C43_SI_units q) as (w & W1 & W2 & W3). unfold get_SI_unit in W1. destruct U as [-> | ->]; [exists "m"%char, [], w|exists "r"%char, (T "adians"), w]; (split; [reflexivity|]); (split; [discriminate|]); auto. }
    destruct UN as (c & u & w & EN & Nc & W1 & W2 & W3). rewrite EN in *. destruct (C92_with_unit other x c u M Nc) as (y' & S1 & S2 & S3).
    exists (VReal y'). unfold get_physical. rewrite (default_found _ _ _ _ F NS), S1. cbn [bind]. rewrite (to_SI_same q y' (c :: u) w W1 W3), W2, Rmult_1_r. cbn [bind as_ dictionary used_values].
    rewrite EN, S3, put_put. split; [reflexivity|]. split; [exact S2|]. split; [reflexivity|exact I].
  - exists (VFlag b). rewrite (typed_again to_bool of_bool k dv y (of_bool b) b F NS NE); [|destruct b; reflexivity|reflexivity]. split; [reflexivity|]. split; [reflexivity|]. split; [reflexivity|exact I].
  - destruct M as (M1 & M2). destruct (C92_complex other z M1 M2) as (z' & S1 & S2 & S3 & S4). exists (VComplex z'). rewrite (typed_again _ show_complex k dv y _ z' F NS NE S1 S4). split; [reflexivity|]. split; [split; auto|]. split; [exact S4|exact I].
  - destruct (C92_print_read other x 0 [] M I) as (x' & S1 & S2 & S3). cbn [repeat app] in S1. rewrite app_nil_r in S1. exists (VReal x'). assert (TD: to_double other (show_double x) = Ok x') by (unfold to_double; rewrite S1; reflexivity).
    rewrite (typed_again _ show_double k dv y _ x' F NS NE TD S3). split; [reflexivity|]. split; [exact S2|]. split; [exact S3|exact I].
  - exists (VCount n). rewrite (typed_again _ show_count k dv y _ n F NS NE (C92_count n Ty) eq_refl). split; [reflexivity|]. split; [reflexivity|]. split; [reflexivity|exact Ty].
Qed.
End Used.

(* ------------------------------------------------------------ the first line *)
Lemma lines_first : forall l t, ~ In newline l -> lines (l ++ newline :: t) = l :: lines t.
Proof.
  induction l as [|c l IH]; intros t H; cbn [app lines].
  - reflexivity.
  - destruct (Ascii.eqb_spec c newline) as [->|N]; [exfalso; apply H; left; reflexivity|]. rewrite IH by (intros X; apply H; right; exact X). reflexivity.
Qed.
Lemma parse_comment : forall stamp t, ~ In newline stamp -> parse (T "# file written on " ++ stamp ++ T "." ++ newline :: t) = parse t.
Proof.
  intros stamp t H. unfold parse. replace (T "# file written on " ++ stamp ++ T "." ++ newline :: t) with ((T "# file written on " ++ stamp ++ T ".") ++ newline :: t) by (rewrite <- !app_assoc; reflexivity).
  rewrite lines_first; [reflexivity|]. rewrite !in_app_iff. intros [X|[X|X]]; [|auto|]; cbn in X; repeat (destruct X as [X|X]; [discriminate|]); exact X.
Qed.
Lemma find_map : forall g k d, find k (map (fun '(q, _) => (q, g q)) d) = match find k d with None => None | Some _ => Some (g k) end.
Proof. intros g k. induction d as [|(q, w) d IH]; cbn [map find]; auto. destruct (text_eqb_spec k q) as [->|]; auto. Qed.
Lemma put_keeps : forall k v w k' d, k' <> k -> In (k', w) d -> In (k', w) (put k v d).
Proof.
  intros k v w k' d N. induction d as [|(q, x) d IH]; intros I; [destruct I|]. cbn [put]. destruct (compare_text k q) eqn:E.
  - apply compare_eq in E. subst q. destruct I as [I|I]; [injection I as <- _; congruence|right; exact I].
  - right. exact I.
  - destruct I as [I|I]; [left; exact I|right; auto].
Qed.

Section Rerun.
Variable other : text -> res (R * text).
Notation ask := (ask other).
Notation ask_all := (ask_all other).
Definition keys (l : list (string * parameter)) : list text := map (fun r => T (fst r)) l.
Lemma ask_all_effect : forall l y vs y', Forall (fun r => usable (snd r)) l -> NoDup (keys l) -> ask_all l y = Ok (vs, y') ->
  Forall2 (fun r v => typed (snd r) v /\ find (T (fst r)) (used_values y') = Some (text_for (snd r) v)) l vs /\
  (forall k, ~ In k (keys l) -> find k (used_values y') = find k (used_values y)) /\
  (sorted_keys (dictionary y) -> sorted_keys (dictionary y')) /\
  (forall k v, In (k, v) (dictionary y') -> In (k, v) (dictionary y) \/ In k (keys l) /\ v = sentinel) /\
  (forall k, find k (dictionary y) <> None -> find k (dictionary y') <> None) /\
  (forall k, In k (keys l) -> find k (dictionary y') <> None).
Proof.
  induction l as [|(k, p) l IH]; intros y vs y' U D E; cbn [Program.ask_all] in E.
  - injection E as <- <-. split; [constructor|]. split; [reflexivity|]. split; [auto|]. split; [auto|]. split; [auto|]. intros k [].
  - destruct (ask (T k) p y) as [(v, y1)| |] eqn:A; cbn [bind] in E; try discriminate. destruct (ask_all l y1) as [(vs1, y2)| |] eqn:B; cbn [bind] in E; try discriminate. injection E as <- <-.
    inversion_clear U as [|? ? U1 U2]. cbn [keys map fst] in D. inversion_clear D as [|? ? D1 D2]. cbn [snd] in U1.
    destruct (ask_effect other _ _ _ _ _ U1 A) as (Ty & M & w & W). destruct (IH _ _ _ U2 D2 B) as (I1 & I2 & I3 & I4 & I5 & I6). fold (keys l) in *.
    assert (FK: forall k', find k' (used_values y1) = if text_eqb k' (T k) then Some (text_for p v) else find k' (used_values y)).
    { intros k'. rewrite W, !find_put. destruct (text_eqb k' (T k)); reflexivity. }
    assert (FD: forall k', find k' (dictionary y) <> None \/ k' = T k -> find k' (dictionary y1) <> None).
    { intros k' H. destruct M as [(-> & q & Q)| ->]; [destruct H as [H| ->]; [exact H|congruence]|]. rewrite find_put. destruct (text_eqb_spec k' (T k)); [discriminate|]. destruct H; [assumption|contradiction]. }
    split; [constructor; [cbn [fst snd]; split; [exact Ty|]|exact I1]|].
    { rewrite (I2 _ D1), FK. destruct (text_eqb_spec (T k) (T k)); [reflexivity|congruence]. }
    split; [|split; [|split; [|split]]].
    + intros k' H. cbn [keys map fst In] in H. rewrite I2 by (intros X; apply H; right; exact X). rewrite FK. destruct (text_eqb_spec k' (T k)) as [->|]; [exfalso; apply H; left; reflexivity|reflexivity].
    + intros S. apply I3. destruct M as [(-> & _)| ->]; [exact S|apply put_sorted; exact S].
    + intros k' x H. apply I4 in H. destruct H as [H|(H1 & H2)]; [|right; split; [right; exact H1|exact H2]]. destruct M as [(EQ & _)|EQ]; rewrite EQ in H; [left; exact H|]. apply put_in in H. destruct H as [H|H]; [injection H as -> ->; right; split; [left; reflexivity|reflexivity]|left; exact H].
    + intros k' H. apply I5, FD. auto.
    + intros k' [<-|H]; [apply I5, FD; auto|apply I6; exact H].
Qed.
(** the second reading *)
Fixpoint puts (l : list (string * parameter)) (vs : list pvalue) (u : dict) : dict :=
  match l, vs with (k, p) :: l, v :: vs => puts l vs (put (T k) (text_for p v) u) | _, _ => u end.
Lemma ask_all_again : forall l vs y, Forall (fun r => usable (snd r)) l ->
  Forall2 (fun r v => typed (snd r) v /\ find (T (fst r)) (dictionary y) = Some (text_for (snd r) v)) l vs -> Forall moderate_value vs ->
  exists vs', ask_all l y = Ok (vs', mkY (dictionary y) (puts l vs (used_values y))) /\ Forall2 near vs vs' /\ Forall2 (fun r v => typed (snd r) v) l vs'.
Proof.
  induction l as [|(k, p) l IH]; intros vs y U F M; inversion F as [|? v ? vs0 (Ty & Fi) F']; subst.
  - exists []. cbn [Program.ask_all puts]. destruct y; split; [reflexivity|]. split; constructor.
  - inversion_clear U as [|? ? U1 U2]. inversion_clear M as [|? ? M1 M2]. cbn [fst snd] in *. destruct (ask_again other (T k) p v y U1 Ty M1 Fi) as (v' & A & N & _ & Ty').
    destruct (IH vs0 (mkY (dictionary y) (put (T k) (text_for p v) (used_values y))) U2) as (vs' & B & NS & TS); [exact F'|exact M2|]. cbn [dictionary used_values] in B.
    exists (v' :: vs'). cbn [Program.ask_all puts]. rewrite A. cbn [bind]. rewrite B. cbn [bind]. split; [reflexivity|]. split; constructor; auto.
Qed.
Lemma puts_find : forall l vs u, NoDup (keys l) -> List.length l = List.length vs ->
  Forall2 (fun r v => find (T (fst r)) (puts l vs u) = Some (text_for (snd r) v)) l vs /\ forall k, ~ In k (keys l) -> find k (puts l vs u) = find k u.
Proof.
  induction l as [|(k, p) l IH]; intros [|v vs] u D E; try discriminate; cbn [puts]; [split; [constructor|reflexivity]|]. cbn [keys map fst] in D. inversion_clear D as [|? ? D1 D2]. fold (keys l) in *.
  destruct (IH vs (put (T k) (text_for p v) u) D2) as (A & B); [injection E; auto|]. split.
  - constructor; [|exact A]. cbn [fst snd]. rewrite B by exact D1. rewrite find_put. destruct (text_eqb_spec (T k) (T k)); [reflexivity|congruence].
  - intros k' H. cbn [keys map fst In] in H. rewrite B by (intros X; apply H; right; exact X). rewrite find_put. destruct (text_eqb_spec k' (T k)) as [->|]; [exfalso; apply H; left; reflexivity|reflexivity].
Qed.
(** the requests of the program *)
Lemma requests_usable : Forall (fun r => usable (snd r)) requests.
Proof. unfold requests. repeat (constructor; [cbn [snd usable]; first [exact I | left; reflexivity | right; reflexivity | lia]|]). constructor. Qed.
Lemma requests_distinct : NoDup (keys requests).
Proof. unfold requests, keys. cbn [map fst]. repeat (constructor; [cbn [In]; intros H; repeat (destruct H as [H|H]; [discriminate|]); exact H|]). constructor. Qed.
Definition sample : text := T "DustParticle:
  alpha angle: 1
  axis ratio: 1
  beta angle: 1
  is equal volume sphere radius: 1
  refractive index: 1
  size: 1
Radiation:
  incoming phi: 1
  incoming theta: 1
  incoming wavelength: 1
  outgoing phi: 1
  outgoing theta: 1
Calculation:
  Gauss Legendre factor: 1
  maximum number of Gauss Legendre points: 1
  maximum order: 1
  tolerance: 1
".
Lemma requests_keys : Forall good_key (keys requests).
Proof.
  destruct (parse sample) as [d| |] eqn:E; [|vm_compute in E; discriminate|vm_compute in E; discriminate]. destruct (C36_parsed_files sample d E) as (_ & G & _).
  vm_compute in E. injection E as <-. unfold requests, keys. cbn [map fst]. repeat (constructor; [eapply (G _ (T "1")); cbn; tauto|]). constructor.
Qed.
Definition read_all (t : text) : res (list pvalue * yaml) := bind (parse t) (fun d => ask_all requests (mkY d [])).
Lemma read_file : forall t vs y, read_all t = Ok (vs, y) -> Forall moderate_value vs -> forall stamp, ~ In newline stamp ->
  let g k := match find k (used_values y) with Some w => w | None => T "value not used" end in
  parse (print_contents stamp y) = Ok (map (fun '(k, _) => (k, g k)) (dictionary y)) /\
  Forall2 (fun r v => typed (snd r) v /\ find (T (fst r)) (used_values y) = Some (text_for (snd r) v)) requests vs /\
  (forall k, ~ In k (keys requests) -> find k (used_values y) = None) /\ (forall k, In k (keys requests) -> find k (dictionary y) <> None).
Proof.
  intros t vs y E M stamp NS g. unfold read_all in E. destruct (parse t) as [d| |] eqn:P; cbn [bind] in E; try discriminate. destruct (C36_parsed_files t d P) as (S & G & _).
  destruct (ask_all_effect _ _ _ _ requests_usable requests_distinct E) as (E1 & E2 & E3 & E4 & _ & E6). cbn [dictionary used_values] in *. split; [|split; [exact E1|split; [exact E2|exact E6]]].
  unfold print_contents. rewrite parse_comment by exact NS. apply C36_used_values; [apply E3; exact S| |].
  - intros k v H. apply E4 in H. destruct H as [H|(H1 & ->)].
    + destruct (G k v H) as (A & _ & B & _). split; [exact A|]. intros X. apply B in X. tauto.
    + pose proof requests_keys as RK. rewrite Forall_forall in RK. split; [apply RK; exact H1|]. cbn. intuition discriminate.
  - intros k w F. destruct (in_dec (list_eq_dec ascii_dec) k (keys requests)) as [I|N]; [|rewrite (E2 k N) in F; discriminate].
    clear - F I E1 M. pose proof requests_usable as U. revert U I E1 M. generalize requests. intros l U I E1 M. induction E1 as [|r v l vs (Ty & Fi) _ IH]; [destruct I|]. inversion_clear U as [|? ? U1 U2]. inversion_clear M as [|? ? M1 M2].
    cbn [keys map In] in I. destruct I as [I|I]; [|apply IH; auto]. rewrite I, F in Fi. injection Fi as ->. apply text_good; auto.
Qed.
(** *** the file of used values: reading it gives the same values up to 5.001 millionths, and from then on nothing changes any more *)
Theorem C93_used_values : forall t vs y stamp, read_all t = Ok (vs, y) -> Forall moderate_value vs -> ~ In newline stamp ->
  exists vs' y', read_all (print_contents stamp y) = Ok (vs', y') /\ Forall2 near vs vs' /\
    forall stamp', ~ In newline stamp' -> read_all (print_contents stamp' y') = Ok (vs', y').
Proof.
  intros t vs y stamp E M NS. destruct (read_file t vs y E M stamp NS) as (P & F & N & IN). cbv zeta in P. set (g := fun k => match find k (used_values y) with Some w => w | None => T "value not used" end) in *.
  set (d1 := map (fun '(k, _) => (k, g k)) (dictionary y)) in *. pose proof requests_usable as U. pose proof requests_distinct as D.
  assert (FD: Forall2 (fun r v => typed (snd r) v /\ find (T (fst r)) d1 = Some (text_for (snd r) v)) requests vs).
  { assert (Q: forall r, In r requests -> In (T (fst r)) (keys requests)) by (intros r Hr; unfold keys; apply in_map_iff; exists r; auto).
    clear - F IN Q. assert (Q': forall r, In r requests -> find (T (fst r)) (dictionary y) <> None) by auto. clear Q IN. revert F Q'. generalize requests. intros l F Q. induction F as [|r v l vs (Ty & Fi) _ IH]; constructor.
    - split; [exact Ty|]. unfold d1. rewrite find_map. specialize (Q r (or_introl eq_refl)). destruct (find (T (fst r)) (dictionary y)); [|congruence]. unfold g. rewrite Fi. reflexivity.
    - apply IH. intros r' Hr'. apply Q. right. exact Hr'. }
  destruct (ask_all_again requests vs (mkY d1 []) U FD M) as (vs' & A & NR & TY'). cbn [dictionary used_values] in A. exists vs', (mkY d1 (puts requests vs [])).
  assert (R1: read_all (print_contents stamp y) = Ok (vs', mkY d1 (puts requests vs []))) by (unfold read_all; rewrite P; exact A). split; [exact R1|]. split; [exact NR|].
  intros stamp' NS'. unfold read_all. unfold print_contents. rewrite parse_comment by exact NS'.
  assert (LEN: List.length requests = List.length vs) by (clear - F; induction F; cbn [List.length]; congruence). destruct (puts_find requests vs [] D LEN) as (PF & PN).
  assert (SAME: forall k, match find k (puts requests vs []) with Some w => w | None => T "value not used" end = g k).
  { intros k. unfold g. destruct (in_dec (list_eq_dec ascii_dec) k (keys requests)) as [I|NI]; [|rewrite PN, N by exact NI; reflexivity].
    assert (X: find k (puts requests vs []) = find k (used_values y)); [|rewrite X; reflexivity]. revert I PF F. generalize (puts requests vs []). clear. intros u. generalize requests. intros l I PF F. induction F as [|r v l vs (_ & Fi) _ IH]; [destruct I|]. inversion PF as [|? ? ? ? P1 P2]; subst.
    cbn [keys map In] in I. destruct I as [I|I]; [rewrite <- I, P1, Fi; reflexivity|apply IH; auto]. }
  cbn [dictionary used_values]. pose proof E as E'. unfold read_all in E'. destruct (parse t) as [d| |] eqn:PT; cbn [bind] in E'; try discriminate. destruct (C36_parsed_files t d PT) as (S & G & _).
  assert (S1: sorted_keys (dictionary y)) by (apply (ask_all_effect _ _ _ _ U D E'); exact S).
  destruct (C36_parsed_files _ _ P) as (SD & GD & _). rewrite (C36_used_values d1 (puts requests vs [])); [|exact SD| |].
  - cbn [bind]. replace (map (fun '(k, _) => (k, match find k (puts requests vs []) with Some w => w | None => T "value not used" end)) d1) with d1; [exact A|].
    unfold d1. rewrite map_map. apply map_ext. intros (k, v). rewrite SAME. reflexivity.
  - intros k v H. destruct (GD k v H) as (A1 & _ & B & _). split; [exact A1|]. intros X. apply B in X. tauto.
  - intros k w Fk. destruct (in_dec (list_eq_dec ascii_dec) k (keys requests)) as [I|NI]; [|rewrite (PN k NI) in Fk; discriminate].
    revert I PF F U M Fk. generalize (puts requests vs []). clear. intros u. generalize requests. intros l I PF F U M Fk. induction F as [|r v l vs (Ty & _) _ IH]; [destruct I|]. inversion PF as [|? ? ? ? P1 P2]; subst. inversion_clear U as [|? ? U1 U2]. inversion_clear M as [|? ? M1 M2].
    cbn [keys map In] in I. destruct I as [I|I]; [|apply IH; auto]. rewrite I, Fk in P1. injection P1 as ->. apply text_good; auto.
Qed.
End Rerun.
Print Assumptions C93_used_values.

(* ------------------------------------------------------------ the dumped matrix *)
(** a number of four bytes, the least significant one first *)
Definition little (b : list Z) (n : Z) : Prop := exists b0 b1 b2 b3, b = [b0; b1; b2; b3] /\ Forall (fun x => 0 <= x < 256)%Z b /\ n = (b0 + 256 * b1 + 65536 * b2 + 16777216 * b3)%Z.
(** the file of a matrix: three numbers of four bytes, then the elements row by row *)
Definition matrix_file (size : nat) (encode : R -> list Z) (rows columns : nat) (M : nat -> nat -> R) (b : list Z) : Prop :=
  little (firstn 4 b) (Z.of_nat rows) /\ little (firstn 4 (skipn 4 b)) (Z.of_nat columns) /\ little (firstn 4 (skipn 8 b)) (Z.of_nat size) /\
  List.length b = (12 + rows * columns * size)%nat /\
  forall i j, (i < rows)%nat -> (j < columns)%nat -> firstn size (skipn (12 + (i * columns + j) * size) b) = encode (M i j).
Lemma le32_little : forall n, (0 <= n < 2 ^ 32)%Z -> little (le32 n) n.
Proof.
  intros n H. unfold le32. eexists _, _, _, _. split; [reflexivity|]. split; [repeat constructor; apply Z.mod_pos_bound; lia|].
  assert (E1: n = (256 * (n / 256) + n mod 256)%Z) by (apply Z.div_mod; lia).
  assert (E2: (n / 256 = 256 * (n / 65536) + n / 256 mod 256)%Z). { rewrite (Z.div_mod (n / 256) 256) at 1 by lia. rewrite Z.div_div by lia. reflexivity. }
  assert (E3: (n / 65536 = 256 * (n / 16777216) + n / 65536 mod 256)%Z). { rewrite (Z.div_mod (n / 65536) 256) at 1 by lia. rewrite Z.div_div by lia. reflexivity. }
  assert (E4: (n / 16777216 mod 256 = n / 16777216)%Z). { apply Z.mod_small. split; [apply Z.div_pos; lia|apply Z.div_lt_upper_bound; lia]. }
  rewrite E4. lia.
Qed.
Lemma blocks : forall {A} (f : A -> list Z) (L : nat) l, (forall x, List.length (f x) = L) -> List.length (flat_map f l) = (List.length l * L)%nat /\
  forall k x, nth_error l k = Some x -> firstn L (skipn (k * L) (flat_map f l)) = f x.
Proof.
  intros A f L l H. induction l as [|a l (IH1 & IH2)]; cbn [flat_map].
  - split; [reflexivity|]. intros [|k] x E; discriminate.
  - split; [rewrite app_length, IH1, H; cbn [List.length]; lia|]. intros [|k] x E; cbn [nth_error] in E.
    + injection E as ->. cbn [Nat.mul skipn]. rewrite firstn_app, (H x), Nat.sub_diag. cbn [firstn]. rewrite app_nil_r, <- (H x). apply firstn_all.
    + replace (S k * L)%nat with (L + k * L)%nat by lia. rewrite skipn_app, (H a). replace (L + k * L - L)%nat with (k * L)%nat by lia. rewrite skipn_all2 by (rewrite H; lia). apply IH2. exact E.
Qed.
Lemma nth_rows : forall (g : nat -> list R) c n i j s, (forall r, List.length (g r) = c) -> (i < n)%nat -> (j < c)%nat ->
  nth_error (flat_map g (seq s n)) (i * c + j) = nth_error (g (s + i)%nat) j.
Proof.
  intros g c n. induction n as [|n IH]; intros i j s H Hi Hj; [lia|]. cbn [seq flat_map]. destruct i as [|i].
  - cbn [Nat.mul Nat.add]. rewrite nth_error_app1 by (rewrite H; lia). f_equal. f_equal. lia.
  - rewrite nth_error_app2 by (rewrite H; nia). rewrite H. replace (S i * c + j - c)%nat with (i * c + j)%nat by nia. rewrite IH by (auto; lia). f_equal. f_equal. lia.
Qed.
Lemma array_length : forall r c M, List.length (array_of r c M) = (r * c)%nat.
Proof.
  intros r c M. unfold array_of. assert (G: forall s, List.length (flat_map (fun i => map (M i) (seq 0 c)) (seq s r)) = (r * c)%nat); [|apply G].
  induction r as [|r IH]; intros s; cbn [seq flat_map]; [reflexivity|]. rewrite app_length, IH, map_length, seq_length. cbn. lia.
Qed.
(** *** the bytes written for any matrix of any size can be read back *)
Theorem C93_dump : forall size encode rows columns M, (forall x, List.length (encode x) = size) -> (Z.of_nat size < 2 ^ 32)%Z -> (Z.of_nat rows < 2 ^ 32)%Z -> (Z.of_nat columns < 2 ^ 32)%Z ->
  matrix_file size encode rows columns M (binary_dump (Z.of_nat size) encode rows columns (array_of rows columns M)).
Proof.
  intros size encode rows columns M L H1 H2 H3. unfold matrix_file, binary_dump.
  assert (F: forall n l, firstn 4 (le32 n ++ l) = le32 n) by reflexivity. destruct (blocks encode size (array_of rows columns M) L) as (BL & BN).
  split; [rewrite F; apply le32_little; lia|]. split; [change (skipn 4 (le32 (Z.of_nat rows) ++ ?l)) with l; rewrite F; apply le32_little; lia|].
  split; [change (skipn 8 (le32 (Z.of_nat rows) ++ le32 (Z.of_nat columns) ++ ?l)) with l; rewrite F; apply le32_little; lia|].
  split; [rewrite !app_length, BL, array_length; reflexivity|]. intros i j Hi Hj.
  match goal with |- firstn _ (skipn (12 + ?k) (?a ++ ?b ++ ?c ++ ?l)) = _ => change (skipn (12 + k) (a ++ b ++ c ++ l)) with (skipn k l) end.
  apply BN. unfold array_of. rewrite (nth_rows (fun i => map (M i) (seq 0 columns)) columns rows i j 0) by (auto; intros; rewrite map_length, seq_length; reflexivity).
  rewrite Nat.add_0_l. rewrite (map_nth_error (M i) j (seq 0 columns) (d := j)); [reflexivity|]. rewrite nth_error_nth' with (d := 0%nat) by (rewrite seq_length; lia). rewrite seq_nth by lia. reflexivity.
Qed.
Print Assumptions C93_dump.
Example C93_dump_example : matrix_file 1 (fun x => [if Rlt_dec x 1 then 0%Z else 1%Z]) 2 3 (fun i j => INR (i * j)) [2; 0; 0; 0; 3; 0; 0; 0; 1; 0; 0; 0; 0; 0; 0; 0; 1; 1]%Z.
Proof.
  pose proof (C93_dump 1 (fun x => [if Rlt_dec x 1 then 0%Z else 1%Z]) 2 3 (fun i j => INR (i * j)) ltac:(reflexivity) ltac:(lia) ltac:(lia) ltac:(lia)) as H.
  unfold binary_dump, array_of in H. cbn [seq flat_map map app Nat.mul Nat.add INR] in H. repeat (destruct (Rlt_dec _ 1) in H; try lra). exact H.
Qed.

(* ------------------------------------------------------------ the whole program *)
Definition params_option : cloption := mkOpt (T "params") "p" StringArgument [] true.
Definition output_option : cloption := mkOpt (T "output") "o" StringArgument [] true.
(** the last setting of an option *)
Definition set_to (ss : list setting) (o : cloption) (v : text) : Prop :=
  v <> [] /\ exists s1 s s2, ss = s1 ++ s :: s2 /\ designates options (sname s) o /\ sarg s = v /\ forall s', In s' s2 -> ~ designates options (sname s') o.
Definition used_name : text := T "parameters-usedvalues.param".
Lemma options_table : table options.
Proof.
  pose proof (table_add params_option _ _ table_help eq_refl) as T1. exact (table_add output_option _ _ T1 eq_refl).
Qed.

Section Main.
Variable other : text -> res (R * text).
Variables prec emax : Z.
Variable round : R -> spec_float.
Variable radials : nat -> radial.
Variable rule : nat -> (nat -> R) * (nat -> R).
Hypothesis rule_symmetric : forall n, Props_tmatrix.symmetric_rule n (fst (rule n)) (snd (rule n)).
(** the elements of a matrix are stored in [size] bytes *)
Variable size : nat.
Hypothesis size_small : (Z.of_nat size < 2 ^ 32)%Z.
Variable encode : R -> list Z.
Hypothesis encode_length : forall x, List.length (encode x) = size.
Variables norm_int norm_double : text -> res text.
Notation main := (main other prec emax round radials rule (Z.of_nat size) encode norm_int norm_double).
Notation accepted := (accepted norm_int norm_double).
Notation read_all := (read_all other).

Lemma command_line : forall ss f o, Forall (accepted options) ss -> set_to ss params_option f -> set_to ss output_option o ->
  exists d fs, parse_arguments norm_int norm_double options (flat_map render ss) = Parsed d fs /\ find (T "params") d = Some f /\ find (T "output") d = Some o.
Proof.
  intros ss f o A (Nf & a1 & a & a2 & Ea & Da & Sa & La) (No & b1 & b & b2 & Eb & Db & Sb & Lb).
  pose proof (C39_values norm_int norm_double options ss options_table A) as V. cbv zeta in V.
  assert (IP: In params_option options) by (right; left; reflexivity). assert (IO: In output_option options) by (right; right; left; reflexivity).
  assert (H: forall p, In p options -> (exists s, In s ss /\ designates options (sname s) p) \/ required p = false /\ exists v, means_missing norm_int norm_double p v).
  { intros p [<-|[<-|[<-|[]]]].
    - right. split; [reflexivity|]. exists (T "false"). apply (missing_flag norm_int norm_double help_option false); [reflexivity|discriminate|reflexivity].
    - left. exists a. split; [rewrite Ea; apply in_app_iff; right; left; reflexivity|exact Da].
    - left. exists b. split; [rewrite Eb; apply in_app_iff; right; left; reflexivity|exact Db]. }
  specialize (V H). destruct (proj1 (V _ IP) a1 a a2 Ea Da La) as (v & Mv & Vv & _). destruct (proj1 (V _ IO) b1 b b2 Eb Db Lb) as (w & Mw & Vw & _). rewrite Sa in Mv. rewrite Sb in Mw.
  assert (v = f) by (inversion Mv; subst; try discriminate; congruence). assert (w = o) by (inversion Mw; subst; try discriminate; congruence). subst v w.
  destruct (parse_arguments norm_int norm_double options (flat_map render ss)) as [c| | |d fs]; try discriminate. exists d, fs. split; [reflexivity|]. split; assumption.
Qed.
(** a matrix on the screen: one line per row, six digits *)
Definition row_shown (name : string) (M : nat -> nat -> R) (i : nat) (digit : string) : text :=
  T name ++ T "[" ++ T digit ++ T ",:] = " ++ show_double (M i 0%nat) ++ T " " ++ show_double (M i 1%nat) ++ T " " ++ show_double (M i 2%nat) ++ T " " ++ show_double (M i 3%nat).
Definition shown (name : string) (M : nat -> nat -> R) : list text := [row_shown name M 0 "0"; row_shown name M 1 "1"; row_shown name M 2 "2"; row_shown name M 3 "3"].
Lemma lines_shown : forall name M, matrix_lines name M = shown name M.
Proof. intros name M. reflexivity. Qed.
(** *** a run that reads the parameters of a file: the files that are written, and the extinction matrix in the output file *)
Theorem C93_run : forall files stamp ss f o t d i, Forall (accepted options) ss -> set_to ss params_option f -> set_to ss output_option o ->
  files f = Some t -> parse t = Ok d -> describes d i ->
  0 < i_size i -> 0 < i_ratio i -> 0 < i_wavelength i -> i_index i <> RtoC 0 ->
  exists used, match calculate prec emax round radials rule (if i_volume i then 1 else 0.1) (i_ratio i) (i_size i) (i_wavelength i) (Z.to_nat (i_order i)) (round (i_tolerance i)) (Z.to_nat (i_factor i)) (i_index i) (Z.to_nat (i_points i)) with
  | Faulty e => main files stamp (flat_map render ss) = ([(used_name, Text used)], Fault e)
  | PyTMatrix.Done (p, T) => exists bytes,
      let k := 2 * PI / i_wavelength i in
      let Zm := get_scattering_matrix (p_nmax p) k T (i_alpha i) (i_beta i) (i_theta_in i) (i_phi_in i) (i_theta_out i) (i_phi_out i) in
      let Km := get_extinction_matrix (p_nmax p) k T (i_alpha i) (i_beta i) (i_theta_in i) (i_phi_in i) in
      main files stamp (flat_map render ss) = ([(used_name, Text used); (o, Bytes bytes)], Finished (shown "Z" Zm ++ shown "K" Km)) /\
      matrix_file size encode 4 4 Km bytes /\
      Props_tclass.sensible p /\ p_axis_ratio p = i_ratio i /\ p_wavelength p = i_wavelength i /\ p_mr p = i_index i /\ Props_pytmatrix.radius_means (i_volume i) (i_size i) (i_ratio i) (p_size p) /\
      forall m, (m <= p_nmax p)%nat -> Props_tclass.is_T_matrix p m (Props_tclass.read p T m)
  end.
Proof.
  intros files stamp ss f o t d i A Sf So Ff P D H1 H2 H3 H4. destruct (command_line ss f o A Sf So) as (dd & fs & C & Cp & Co). destruct (C93_parameters other d i D) as (y & R).
  exists (print_contents stamp y). unfold Program.main. rewrite C, Cp, Co, Ff, P. cbn [bind]. rewrite R. cbn [compute listed].
  destruct (calculate _ _ _ _ _ _ _ _ _ _ _ _ _ _) as [(p, T)|e] eqn:E; [|reflexivity]. eexists. cbv zeta. split; [reflexivity|]. split; [apply C93_dump; auto; reflexivity|].
  destruct (Props_pytmatrix.calculated prec emax round radials rule rule_symmetric _ _ _ _ _ _ _ _ _ p T H1 H2 H3 H4 E) as (S1 & S2 & S3 & S4 & S5 & T0 & E0 & E1).
  split; [exact S1|]. split; [exact S2|]. split; [exact S3|]. split; [exact S4|]. split; [exact S5|]. intros m Hm. exact (Props_tclass.C73_T_matrix p T0 T S1 E0 E1 m Hm).
Qed.
(** *** what can be written: nothing; or the used values when the calculation failed; or the used values and the matrix when everything went well *)
Theorem C93_effects : forall files stamp argv w e, main files stamp argv = (w, e) ->
  w = [] /\ (forall x, e <> Fault x) \/ (exists u x, w = [(used_name, Text u)] /\ e = Fault x) \/ (exists u o M b, w = [(used_name, Text u); (o, Bytes b)] /\ matrix_file size encode 4 4 M b /\ exists Z_, e = Finished (shown "Z" Z_ ++ shown "K" M)).
Proof.
  intros files stamp argv w e E. unfold Program.main in E.
  destruct (parse_arguments _ _ _ _) as [c| | |d fs]; try (injection E as <- <-; left; split; [reflexivity|discriminate]).
  destruct (find (T "params") d) as [f|]; [|injection E as <- <-; left; split; [reflexivity|discriminate]]. destruct (find (T "output") d) as [o|]; [|injection E as <- <-; left; split; [reflexivity|discriminate]].
  destruct (files f) as [t|]; [|injection E as <- <-; left; split; [reflexivity|discriminate]].
  destruct (bind _ _) as [(vs, y)| |]; try (injection E as <- <-; left; split; [reflexivity|discriminate]).
  destruct (compute _ _ _ _ _ _) as [(ZZ, K)|x]; injection E as <- <-.
  - right. right. eexists _, o, K, _. split; [reflexivity|]. split; [apply C93_dump; auto; reflexivity|exists ZZ; reflexivity].
  - right. left. eexists _, x. split; reflexivity.
Qed.
(** *** runs that stop: a wrong command line, a parameter file that does not exist or is not well formed *)
Theorem C93_stops : forall files stamp ss rest, Forall (accepted options) ss ->
  (forall h, h = T "--help" \/ h = T "-h" -> main files stamp (flat_map render ss ++ h :: rest) = ([], Status 0)) /\
  (forall n v, ~ In "="%char n -> no_dash n -> n <> T "help" -> n <> T "h" -> (forall o, In o options -> ~ refers o n) -> main files stamp (flat_map render ss ++ render (Assign true n v) ++ rest) = ([], Status 1)) /\
  (forall f o, set_to ss params_option f -> set_to ss output_option o -> files f = None -> main files stamp (flat_map render ss) = ([], Error)) /\
  (forall f o t, set_to ss params_option f -> set_to ss output_option o -> files f = Some t -> parse t = Fails -> main files stamp (flat_map render ss) = ([], Error)).
Proof.
  intros files stamp ss rest A. destruct (C39_stops norm_int norm_double options ss rest options_table A) as (S1 & S2 & _). split; [|split; [|split]].
  - intros h H. unfold Program.main. rewrite (S1 h H). reflexivity.
  - intros n v H1 H2 H3 H4 U. unfold Program.main. rewrite (S2 (Assign true n v)); [reflexivity| |exact I|left; exact U]. repeat split; auto.
  - intros f o Sf So N. destruct (command_line ss f o A Sf So) as (dd & fs & C & Cp & Co). unfold Program.main. rewrite C, Cp, Co, N. reflexivity.
  - intros f o t Sf So F P. destruct (command_line ss f o A Sf So) as (dd & fs & C & Cp & Co). unfold Program.main. rewrite C, Cp, Co, F, P. reflexivity.
Qed.
(** the parameters of a run, as they are used *)
Definition run_of (files : text -> option text) (ss : list setting) (f o t : text) (vs : list pvalue) : Prop :=
  Forall (accepted options) ss /\ set_to ss params_option f /\ set_to ss output_option o /\ files f = Some t /\ exists y, read_all t = Ok (vs, y).
Lemma main_run : forall files stamp ss f o t vs y, Forall (accepted options) ss -> set_to ss params_option f -> set_to ss output_option o -> files f = Some t -> read_all t = Ok (vs, y) ->
  main files stamp (flat_map render ss) = match compute prec emax round radials rule vs with
    | Faulty x => ([(used_name, Text (print_contents stamp y))], Fault x)
    | PyTMatrix.Done (Zm, K) => ([(used_name, Text (print_contents stamp y)); (o, Bytes (binary_dump (Z.of_nat size) encode 4 4 (array_of 4 4 K)))], Finished (matrix_lines "Z" Zm ++ matrix_lines "K" K)) end.
Proof.
  intros files stamp ss f o t vs y A Sf So F R. destruct (command_line ss f o A Sf So) as (dd & fs & C & Cp & Co). unfold Program.main. rewrite C, Cp, Co, F. unfold Props_program.read_all in R. rewrite R. reflexivity.
Qed.
(** *** three runs, each with the used values of the one before: the values of the second run are those of the first up to 5.001 millionths; the third
    run has the values of the second, writes the same bytes to its output, ends in the same way, and its file of used values differs in the date only *)
Theorem C93_rerun : forall files1 files2 files3 stamp1 stamp2 stamp3 ss1 ss2 ss3 f1 f2 f3 o1 o2 o3 t vs1 w1 e1 w2 e2 w3 e3 u1 u2 r1 r2,
  ~ In newline stamp1 -> ~ In newline stamp2 ->
  run_of files1 ss1 f1 o1 t vs1 -> Forall moderate_value vs1 -> main files1 stamp1 (flat_map render ss1) = (w1, e1) -> w1 = (used_name, Text u1) :: r1 ->
  Forall (accepted options) ss2 -> set_to ss2 params_option f2 -> set_to ss2 output_option o2 -> files2 f2 = Some u1 -> main files2 stamp2 (flat_map render ss2) = (w2, e2) -> w2 = (used_name, Text u2) :: r2 ->
  Forall (accepted options) ss3 -> set_to ss3 params_option f3 -> set_to ss3 output_option o3 -> files3 f3 = Some u2 -> main files3 stamp3 (flat_map render ss3) = (w3, e3) ->
  exists vs2, run_of files2 ss2 f2 o2 u1 vs2 /\ Forall2 near vs1 vs2 /\ run_of files3 ss3 f3 o3 u2 vs2 /\ e3 = e2 /\
    exists u3, w3 = (used_name, Text u3) :: map (fun w => (o3, snd w)) r2 /\ (stamp3 = stamp2 -> u3 = u2).
Proof.
  intros files1 files2 files3 st1 st2 st3 ss1 ss2 ss3 f1 f2 f3 o1 o2 o3 t vs1 w1 e1 w2 e2 w3 e3 u1 u2 r1 r2 N1 N2 (A1 & P1 & O1 & F1 & y1 & R1) M M1 W1 A2 P2 O2 F2 M2 W2 A3 P3 O3 F3 M3.
  rewrite (main_run _ st1 _ _ _ _ _ _ A1 P1 O1 F1 R1) in M1.
  assert (U1: u1 = print_contents st1 y1) by (destruct (compute _ _ _ _ _ vs1) as [(ZZ, K)|x]; injection M1 as M1 _; rewrite W1 in M1; injection M1; congruence).
  destruct (C93_used_values other t vs1 y1 st1 R1 M N1) as (vs2 & y2 & R2 & NR & R3). rewrite <- U1 in R2.
  rewrite (main_run _ st2 _ _ _ _ _ _ A2 P2 O2 F2 R2) in M2.
  assert (U2: u2 = print_contents st2 y2) by (destruct (compute _ _ _ _ _ vs2) as [(ZZ, K)|x]; injection M2 as M2 _; rewrite W2 in M2; injection M2; congruence).
  specialize (R3 st2 N2). rewrite <- U2 in R3. rewrite (main_run _ st3 _ _ _ _ _ _ A3 P3 O3 F3 R3) in M3.
  exists vs2. split; [repeat (split; [assumption|]); eauto|]. split; [exact NR|]. split; [repeat (split; [assumption|]); eauto|].
  destruct (compute _ _ _ _ _ vs2) as [(ZZ, K)|x]; injection M2 as M2 <-; injection M3 as M3 <-; rewrite W2 in M2; injection M2 as _ <-; (split; [reflexivity|]); exists (print_contents st3 y2); (split; [rewrite <- M3; reflexivity|intros ->; auto]).
Qed.
End Main.
Print Assumptions C93_run.
Print Assumptions C93_effects.
Print Assumptions C93_stops.
Print Assumptions C93_rerun.

(* ------------------------------------------------------------ examples *)
Definition micron : unit_ := mkU 1e-6 1 0 0 0 0 0.
Definition degrees : unit_ := mkU (PI / 180) 0 0 0 0 0 1.
Lemma says_written : forall q dec unit u s x, s = text_of dec ++ T " " ++ unit -> well_formed dec -> normal (value_of dec) -> hd " "%char unit <> " "%char -> get_unit unit = Ok u -> dim u = dimension q ->
  x = dbl (value_of dec) * uvalue u -> says_quantity q s x.
Proof. intros q dec unit u s x E W N H U D X. exists 0%nat, dec, 0%nat, unit, u. repeat (split; [assumption|]). exact X. Qed.
Lemma wf_whole : forall b, digits_ok b -> b <> [] -> well_formed (mkDec None b true [] NoExp).
Proof. intros b D N. split; [exact D|]. split; [constructor|]. split; [discriminate|]. split; [rewrite app_nil_r; exact N|exact I]. Qed.
Lemma value_whole : forall b, value_of (mkDec None b true [] NoExp) = IZR (value 10 b).
Proof. intros b. unfold value_of. cbn [minus before after expo_of expo_value neg List.length]. rewrite app_nil_r. change (bpow ten (0 - Z.of_nat 0)) with 1. ring. Qed.
Lemma normal_whole : forall v, 1 <= v <= 1000 -> normal v.
Proof.
  intros v H. right. rewrite Rabs_pos_eq by lra. split; [apply Rle_trans with (bpow radix2 0); [apply bpow_le; lia|change (bpow radix2 0) with 1; lra] | apply Rle_trans with (bpow radix2 10); [change (bpow radix2 10) with 1024; lra|apply bpow_le; lia]].
Qed.
Definition angle_in (n : Z) : R := dbl (IZR n) * (PI / 180).
(** an empty parameter file: all defaults *)
Definition defaults : inputs := mkIn (dbl 10 * 1e-6) true (1.5, 0.02) 0.5 (dbl 6.283185307 * 1e-6) 1e-4 2 200 500 (angle_in 145) (angle_in 52) (angle_in 56) (angle_in 114) (angle_in 65) (angle_in 128).
Lemma wavelength_value : value_of (mkDec None [6%Z] true [2; 8; 3; 1; 8; 5; 3; 0; 7]%Z NoExp) = 6.283185307.
Proof. unfold value_of. cbn [minus before after expo_of expo_value neg List.length app]. change (value 10 [6; 2; 8; 3; 1; 8; 5; 3; 0; 7]%Z) with 6283185307%Z. change (bpow ten (0 - Z.of_nat 9)) with (/ 1000000000). lra. Qed.
Lemma whole_angle : forall b s n, s = text_of (mkDec None b true [] NoExp) ++ T " degrees" -> digits_ok b -> b <> [] -> value 10 b = n -> (1 <= n <= 1000)%Z -> says_quantity ANGLE s (angle_in n).
Proof.
  intros b s n E D N V B. apply (says_written ANGLE (mkDec None b true [] NoExp) (T "degrees") degrees); auto.
  - apply wf_whole; auto.
  - rewrite value_whole, V. apply normal_whole. split; apply IZR_le; lia.
  - discriminate.
  - rewrite value_whole, V. reflexivity.
Qed.
Lemma default_values : describes [] defaults.
Proof.
  assert (NE: forall k, entry_of [] k = None) by reflexivity.
  assert (OK: forall b, forallb (fun x => (0 <=? x) && (x <=? 9))%Z b = true -> digits_ok b). { intros b H. unfold digits_ok. apply Forall_forall. rewrite forallb_forall in H. intros x I. specialize (H x I). apply andb_true_iff in H. rewrite !Z.leb_le in H. lia. }
  unfold describes, quantity_is, is_. rewrite !NE. cbn [i_size i_volume i_index i_ratio i_alpha i_beta i_wavelength i_theta_in i_phi_in i_theta_out i_phi_out i_tolerance i_factor i_order i_points defaults].
  split; [|split; [reflexivity|split; [reflexivity|split; [reflexivity|]]]].
  { apply (says_written LENGTH (mkDec None [1; 0]%Z true [] NoExp) (T "micron") micron); [reflexivity|apply wf_whole; [apply OK; reflexivity|discriminate]| |discriminate|reflexivity|reflexivity|rewrite value_whole; reflexivity]. rewrite value_whole. change (value 10 [1; 0]%Z) with 10%Z. apply normal_whole. lra. }
  split; [apply (whole_angle [1; 4; 5]%Z); auto; [discriminate|lia]|]. split; [apply (whole_angle [5; 2]%Z); auto; [discriminate|lia]|].
  split. { apply (says_written LENGTH (mkDec None [6%Z] true [2; 8; 3; 1; 8; 5; 3; 0; 7]%Z NoExp) (T "micron") micron); [reflexivity| |rewrite wavelength_value; apply normal_whole; lra|discriminate|reflexivity|reflexivity|rewrite wavelength_value; reflexivity].
    split; [apply OK; reflexivity|]. split; [apply OK; reflexivity|]. split; [discriminate|]. split; [discriminate|exact I]. }
  split; [apply (whole_angle [5; 6]%Z); auto; [discriminate|lia]|]. split; [apply (whole_angle [1; 1; 4]%Z); auto; [discriminate|lia]|]. split; [apply (whole_angle [6; 5]%Z); auto; [discriminate|lia]|]. split; [apply (whole_angle [1; 2; 8]%Z); auto; [discriminate|lia]|].
  repeat split.
Qed.
Lemma near_whole : forall v, 1 <= v <= 1000 -> Rabs (dbl v - v) <= / 1000000000.
Proof. intros v H. pose proof (dbl_near v (normal_whole v H)) as B. rewrite (Rabs_pos_eq v) in B by lra. assert (E12: / 10 ^ 12 = / 1000000000000) by (f_equal; ring). rewrite E12 in B. lra. Qed.
Lemma small_moderate : forall v, / 1000000000 <= Rabs v <= 1000000000 -> moderate v.
Proof.
  intros v H. right. split; [apply Rle_trans with (bpow ten (-9)); [apply bpow_le; lia|change (bpow ten (-9)) with (/ 1000000000); lra] | apply Rle_trans with (bpow ten 9); [change (bpow ten 9) with 1000000000; lra|apply bpow_le; lia]].
Qed.
Lemma angle_moderate : forall n, (1 <= n <= 1000)%Z -> moderate (angle_in n).
Proof.
  intros n H. assert (B: 1 <= IZR n <= 1000) by (split; apply IZR_le; lia). pose proof (near_whole _ B) as N. apply Rabs_le_inv in N. unfold angle_in. pose proof PI_RGT_0. pose proof PI_4. pose proof PI2_1 as P2. 
  assert (P: 2 < PI) by lra. apply small_moderate. rewrite Rabs_pos_eq by nra. split; nra.
Qed.
Example C93_defaults : describes [] defaults /\ Forall moderate_value (listed defaults) /\ 0 < i_size defaults /\ 0 < i_ratio defaults /\ 0 < i_wavelength defaults /\ i_index defaults <> RtoC 0.
Proof.
  pose proof (near_whole 10 ltac:(lra)) as A. apply Rabs_le_inv in A. pose proof (near_whole 6.283185307 ltac:(lra)) as B. apply Rabs_le_inv in B.
  split; [exact default_values|]. split.
  - unfold listed. cbn [i_size i_volume i_index i_ratio i_alpha i_beta i_wavelength i_theta_in i_phi_in i_theta_out i_phi_out i_tolerance i_factor i_order i_points defaults].
    repeat (constructor; [cbn [moderate_value fst snd]; try exact I; try (apply angle_moderate; lia); try split; (apply small_moderate; rewrite Rabs_pos_eq by lra; lra)|]). constructor.
  - cbn [i_size i_ratio i_wavelength i_index defaults]. split; [lra|]. split; [lra|]. split; [lra|]. intros E. unfold RtoC in E. injection E. lra.
Qed.
(** command lines *)
Example C93_command_line : forall norm_int norm_double, let ss := [Separate true (T "params") (T "a.param"); Assign false (T "o") (T "K.dump")] in
  Forall (accepted norm_int norm_double options) ss /\ set_to ss params_option (T "a.param") /\ set_to ss output_option (T "K.dump") /\
  flat_map render ss = [T "--params"; T "a.param"; T "-o=K.dump"].
Proof.
  intros ni nd ss. assert (D1: designates options (T "params") params_option) by (apply find_designates; reflexivity). assert (D2: designates options (T "o") output_option) by (apply find_designates; reflexivity). split; [|split; [|split]].
  - constructor; [|constructor; [|constructor]].
    + split; [repeat split; try discriminate; cbn; intuition discriminate|]. exists params_option, (T "a.param"). split; [exact D1|]. split; [reflexivity|discriminate].
    + split; [repeat split; try discriminate; cbn; intuition discriminate|]. exists output_option, (T "K.dump"). split; [exact D2|]. split; [reflexivity|discriminate].
  - split; [discriminate|]. exists [], (Separate true (T "params") (T "a.param")), [Assign false (T "o") (T "K.dump")]. split; [reflexivity|]. split; [exact D1|]. split; [reflexivity|]. intros s [<-|[]] X. apply find_designates in X. cbn in X. discriminate.
  - split; [discriminate|]. exists [Separate true (T "params") (T "a.param")], (Assign false (T "o") (T "K.dump")), []. split; [reflexivity|]. split; [exact D2|]. split; [reflexivity|]. intros s [].
  - reflexivity.
Qed.
(** *** the file of used values does not reproduce a run: with the default wavelength the second run has a different one *)
Lemma show_micro : forall x, 6.2831851e-6 <= x <= 6.283194e-6 -> show_double x = T "6.28319e-06".
Proof.
  intros x H. rewrite show_nonzero by lra. unfold minus_of. destruct (Rlt_dec x 0); [lra|]. cbn [sign_str app]. rewrite Rabs_pos_eq by lra.
  assert (S: six x = (628319, -6)%Z).
  { unfold six. assert (MG: mag ten x = (-5)%Z :> Z) by (apply mag_unique_pos; change (bpow ten (-5 - 1)) with (/ 1000000); change (bpow ten (-5)) with (/ 100000); lra). rewrite MG. change (5 - (-5 - 1))%Z with 11%Z. change (bpow ten 11) with 100000000000.
    replace (ZnearestE (x * 100000000000)) with 628319%Z; [reflexivity|]. symmetry. apply Znearest_imp. apply Rabs_def1; lra. }
  rewrite S. reflexivity.
Qed.
Lemma asked : forall other l y vs y', Forall (fun r => usable (snd r)) l -> NoDup (keys l) -> ask_all other l y = Ok (vs, y') ->
  Forall2 (fun r v => exists y1 y2, find (T (fst r)) (dictionary y1) = find (T (fst r)) (dictionary y) /\ ask other (T (fst r)) (snd r) y1 = Ok (v, y2)) l vs.
Proof.
  intros other. induction l as [|(k, p) l IH]; intros y vs y' U D E; cbn [ask_all] in E.
  - injection E as <- <-. constructor.
  - destruct (ask other (T k) p y) as [(v, y1)| |] eqn:A; cbn [bind] in E; try discriminate. destruct (ask_all other l y1) as [(vs1, y2)| |] eqn:B; cbn [bind] in E; try discriminate. injection E as <- <-.
    inversion_clear U as [|? ? U1 U2]. cbn [keys map fst] in D. inversion_clear D as [|? ? D1 D2]. fold (keys l) in *. cbn [snd] in U1. constructor; [exists y, y1; split; [reflexivity|exact A]|].
    destruct (ask_effect other _ _ _ _ _ U1 A) as (_ & M & _). specialize (IH _ _ _ U2 D2 B). clear - IH M D1. induction IH as [|r x l vs (z1 & z2 & Z1 & Z2) _ IH]; constructor.
    + exists z1, z2. split; [|exact Z2]. rewrite Z1. destruct M as [(-> & _)| ->]; [reflexivity|]. rewrite find_put. destruct (text_eqb_spec (T (fst r)) (T k)) as [X|]; [|reflexivity]. exfalso. apply D1. left. exact X.
    + apply IH. intros X. apply D1. right. exact X.
Qed.
Lemma nth_forall2 : forall {A B} (P : A -> B -> Prop) l1 l2 a b n, Forall2 P l1 l2 -> (n < List.length l1)%nat -> P (nth n l1 a) (nth n l2 b).
Proof. intros A B P l1 l2 a b n F. revert n. induction F as [|x y l1 l2 H _ IH]; intros n L; cbn [List.length] in L; [lia|]. destruct n as [|n]; cbn [nth]; [exact H|]. apply IH. lia. Qed.
Theorem C93_exact_refuted : forall other stamp, ~ In newline stamp -> exists vs y vs' y', read_all other [] = Ok (vs, y) /\ read_all other (print_contents stamp y) = Ok (vs', y') /\
  nth 4 vs (VCount 0) = VReal (dbl 6.283185307 * 1e-6) /\ nth 4 vs' (VCount 0) = VReal (dbl 6.28319e-6) /\ vs <> vs'.
Proof.
  intros other stamp NS. destruct (C93_parameters other [] defaults default_values) as (y & R). exists (listed defaults), y.
  assert (R0: read_all other [] = Ok (listed defaults, y)) by exact R. destruct C93_defaults as (_ & M & _).
  destruct (C93_used_values other [] (listed defaults) y stamp R0 M NS) as (vs' & y' & R' & NR & _). exists vs', y'. split; [exact R0|]. split; [exact R'|]. split; [reflexivity|].
  pose proof (near_whole 6.283185307 ltac:(lra)) as B. apply Rabs_le_inv in B.
  assert (MO: moderate 6.28319e-6) by (apply small_moderate; rewrite Rabs_pos_eq by lra; lra).
  assert (NM: normal 6.28319e-6). { apply (moderate_normal 6.28319e-6 6.28319e-6); auto; try lra; rewrite Rminus_diag_eq, Rabs_R0 by reflexivity; rewrite Rabs_pos_eq by lra; lra. }
  pose proof (dbl_near 6.28319e-6 NM) as Y.
  rewrite (Rabs_pos_eq 6.28319e-6) in Y by lra. assert (E12: / 10 ^ 12 = / 1000000000000) by (f_equal; ring). rewrite E12 in Y. apply Rabs_le_inv in Y.
  assert (W: nth 4 vs' (VCount 0) = VReal (dbl 6.28319e-6)).
  { destruct (read_file other [] (listed defaults) y R0 M stamp NS) as (P & F & _ & IN). unfold read_all in R'. rewrite P in R'. cbn [bind] in R'.
    apply (asked _ _ _ _ _ requests_usable requests_distinct) in R'. apply (nth_forall2 _ _ _ (""%string, Flag true) (VCount 0) 4) in R'; [|cbn; lia]. apply (nth_forall2 _ _ _ (""%string, Flag true) (VCount 0) 4) in F; [|cbn; lia].
    destruct R' as (y1 & y2 & F1 & A). destruct F as (_ & F). cbn [nth requests fst snd dictionary listed i_wavelength defaults text_for] in *. rewrite find_map in F1.
    specialize (IN (T "Radiation:incoming wavelength")). assert (INK: In (T "Radiation:incoming wavelength") (keys requests)) by (unfold requests, keys; cbn [map fst In]; tauto).
    destruct (find (T "Radiation:incoming wavelength") (dictionary y)); [|exfalso; exact (IN INK eq_refl)]. rewrite F in F1. rewrite show_micro in F1 by lra.
    pose proof (C92_six_digits other 628319 (-11) (T " m") ltac:(lia)) as S6. assert (V: IZR 628319 * bpow ten (-11) = 6.28319e-6) by (change (bpow ten (-11)) with (/ 100000000000); lra). rewrite V in S6. specialize (S6 MO (separate_space (T "m"))). rewrite show_micro in S6 by lra.
    cbn [ask] in A. unfold get_physical in A. change (T (SI_unit_name LENGTH)) with (T "m") in F1. change (T "6.28319e-06" ++ T " " ++ T "m") with (T "6.28319e-06" ++ T " m") in F1. rewrite (default_found _ _ _ _ F1) in A by discriminate. unfold split_value in A. rewrite S6 in A. cbn [bind fst snd] in A. change (skip_spaces (T " m")) with (T "m") in A.
    destruct (C43_SI_units LENGTH) as (w & W1 & W2 & W3). rewrite (to_SI_same LENGTH _ (T "m") w W1 W3), W2, Rmult_1_r in A. cbn [bind as_] in A. injection A as <- _. reflexivity. }
  split; [exact W|]. intros E. rewrite <- E in W. cbn [nth listed i_wavelength defaults] in W. injection W as W. lra.
Qed.
Print Assumptions C93_exact_refuted.
