(** C39: the command line (src/CommandLineParser.cpp, src/CommandLineOption.cpp). *)
From Coq Require Import List Ascii String ZArith Lia Bool Arith.
From Verif Require Import Parse Yaml YamlFacts CmdLine.
Import ListNotations.
Local Open Scope nat_scope.

(** ** specification *)
(** one setting on the command line: --name=value, --name value or --name alone (or with one dash) *)
Inductive setting := Assign (double : bool) (name v : text) | Separate (double : bool) (name v : text) | Alone (double : bool) (name : text).
Definition sname (s : setting) : text := match s with Assign _ n _ => n | Separate _ n _ => n | Alone _ n => n end.
Definition sarg (s : setting) : text := match s with Assign _ _ v => v | Separate _ _ v => v | Alone _ _ => [] end.
Definition dashes (double : bool) : text := T (if double then "--" else "-").
Definition render (s : setting) : list text :=
  match s with Assign b n v => [dashes b ++ n ++ "="%char :: v] | Separate b n v => [dashes b ++ n; v] | Alone b n => [dashes b ++ n] end.
Definition no_dash (t : text) : Prop := match t with c :: _ => c <> "-"%char | [] => True end.
Definition wf_setting (s : setting) : Prop := ~ In "="%char (sname s) /\ no_dash (sname s) /\ sname s <> T "help" /\ sname s <> T "h" /\
  match s with Separate _ _ v => no_dash v | _ => True end.
(** the option a name stands for: the first one with that long name or that one-letter name *)
Definition refers (o : cloption) (name : text) : Prop := name = long_name o \/ name = [short_name o].
Definition designates (opts : list cloption) (name : text) (o : cloption) : Prop :=
  exists before after, opts = before ++ o :: after /\ refers o name /\ forall p, In p before -> ~ refers p name.
(** the tables that a program can build *)
Inductive table : list cloption -> Prop :=
| table_help : table [help_option]
| table_add : forall o opts opts', table opts -> add_option o opts = Ok opts' -> table opts'.

(** ** lemmas *)
Lemma matches_refers : forall o n, opt_matches o n = true <-> refers o n.
Proof.
  intros o n. unfold opt_matches, refers. rewrite orb_true_iff. destruct (text_eqb_spec n (long_name o)) as [E|E].
  - tauto.
  - split; [intros [X|X]; [discriminate|] | intros [X|X]; [contradiction|subst; right; apply Ascii.eqb_refl]]. destruct n as [|c [|]]; try discriminate. apply Ascii.eqb_eq in X. subst. auto.
Qed.
Lemma find_designates : forall opts n o, List.find (fun o => opt_matches o n) opts = Some o <-> designates opts n o.
Proof.
  intros opts n o. induction opts as [|p opts IH]; cbn [List.find].
  - split; [discriminate|]. intros (b & a & E & _). destruct b; discriminate.
  - destruct (opt_matches p n) eqn:M.
    + split.
      * intros E. inversion E; subst. exists [], opts. split; auto. split; [apply matches_refers; auto|intros q []].
      * intros (b & a & E & R & N). destruct b as [|q b]; [inversion E; auto|]. inversion E; subst. apply matches_refers in M. destruct (N q); cbn; auto.
    + rewrite IH. split.
      * intros (b & a & E & R & N). exists (p :: b), a. subst. split; auto. split; auto. intros q [<-|Hq]; auto. intros X. apply matches_refers in X. congruence.
      * intros (b & a & E & R & N). destruct b as [|q b]; inversion E; subst; [apply matches_refers in R; congruence|]. exists b, a. split; auto. split; auto. intros x Hx. apply N. cbn; auto.
Qed.
Lemma find_unknown : forall opts n, List.find (fun o => opt_matches o n) opts = None <-> forall o, In o opts -> ~ refers o n.
Proof.
  induction opts as [|p opts IH]; intros n; cbn [List.find]; [split; auto|]. destruct (opt_matches p n) eqn:M.
  - split; [discriminate|]. intros H. apply matches_refers in M. destruct (H p); cbn; auto.
  - rewrite IH. split; [intros H o [<-|Ho]; auto; intros X; apply matches_refers in X; congruence | intros H o Ho; apply H; cbn; auto].
Qed.
Lemma table_unique : forall opts, table opts -> NoDup (map long_name opts).
Proof.
  induction 1 as [|o opts opts' T1 IH E]; [repeat constructor; cbn; tauto|]. unfold add_option in E. destruct (_ || _); [discriminate|].
  destruct (existsb _ opts) eqn:X; inversion E; subst; auto. rewrite map_app. cbn [map]. apply NoDup_rev in IH. rewrite <- (rev_involutive (map long_name opts ++ [long_name o])). apply NoDup_rev. rewrite rev_app_distr. cbn. constructor; auto.
  intros I. apply in_rev in I. apply in_map_iff in I. destruct I as (p & Ep & Ip). assert (Y: existsb (fun p => text_eqb (long_name p) (long_name o)) opts = true); [|congruence].
  apply existsb_exists. exists p. split; auto. destruct (text_eqb_spec (long_name p) (long_name o)); auto.
Qed.
Lemma cut_none : forall s, ~ In "="%char s -> cut_equals s = None.
Proof. induction s as [|c s IH]; intros H; cbn [cut_equals]; auto. destruct (Ascii.eqb_spec c "="); [subst; destruct H; cbn; auto|]. rewrite IH; auto. intros X; apply H; cbn; auto. Qed.
Lemma cut_some : forall s v, ~ In "="%char s -> cut_equals (s ++ "="%char :: v) = Some (s, v).
Proof. induction s as [|c s IH]; intros v H; cbn [cut_equals app]; auto. destruct (Ascii.eqb_spec c "="); [subst; destruct H; cbn; auto|]. rewrite IH; auto. intros X; apply H; cbn; auto. Qed.
Lemma skip_dashes_name : forall b n, no_dash n -> skip_dashes (dashes b ++ n) = n.
Proof. intros b n H. assert (E: skip_dashes n = n) by (destruct n as [|c n]; auto; cbn [skip_dashes]; destruct (Ascii.eqb_spec c "-"); [contradiction|auto]). destruct b; cbn; auto. Qed.
Lemma dashes_no_eq : forall b n, ~ In "="%char n -> ~ In "="%char (dashes b ++ n).
Proof. intros b n H X. apply in_app_iff in X. destruct X as [X|X]; auto. destruct b; cbn in X; repeat (destruct X as [X|X]; [discriminate|]); tauto. Qed.
Lemma not_help : forall b n, no_dash n -> n <> T "help" -> n <> T "h" -> (text_eqb (dashes b ++ n) (T "--help") || text_eqb (dashes b ++ n) (T "-h")) = false.
Proof.
  intros b n ND H1 H2. destruct (text_eqb_spec (dashes b ++ n) (T "--help")) as [E|_].
  - destruct b; cbn in E; inversion E; subst; [contradiction H1; auto | cbn in ND; congruence].
  - destruct (text_eqb_spec (dashes b ++ n) (T "-h")) as [E|_]; auto. destruct b; cbn in E; inversion E; subst. contradiction H2; auto.
Qed.
Lemma not_help_assign : forall b n v, ~ In "="%char n -> (text_eqb (dashes b ++ n ++ "="%char :: v) (T "--help") || text_eqb (dashes b ++ n ++ "="%char :: v) (T "-h")) = false.
Proof.
  intros b n v H. assert (X: forall w, ~ In "="%char w -> text_eqb (dashes b ++ n ++ "="%char :: v) w = false).
  { intros w Hw. destruct (text_eqb_spec (dashes b ++ n ++ "="%char :: v) w) as [E|]; auto. destruct Hw. rewrite <- E, !in_app_iff. cbn; auto. }
  rewrite !X; auto; intros Y; cbn in Y; repeat (destruct Y as [Y|Y]; [discriminate|]); tauto.
Qed.
Lemma dash_dashes : forall b n, dash_first (dashes b ++ n) = true.
Proof. destruct b; reflexivity. Qed.

Section Props.
Variables (norm_int norm_double : text -> res text).
Notation set_option := (set_option norm_int norm_double).
Notation arguments := (arguments norm_int norm_double).
Notation parse_arguments := (parse_arguments norm_int norm_double).
Notation parse_argument := (parse_argument norm_int norm_double).
Notation default_value := (default_value norm_int norm_double).
(** one setting = one update *)
Lemma step : forall opts s rest d, wf_setting s -> (match s, rest with Alone _ _, a :: _ => dash_first a = true | _, _ => True end) ->
  arguments opts (render s ++ rest) d = match set_option opts (sname s) (sarg s) d with inl x => inl x | inr d' => arguments opts rest d' end.
Proof.
  intros opts s rest d (W1 & W2 & W3 & W4 & W5) R. destruct s as [b n v|b n v|b n]; cbn [render sname sarg app] in *; cbn [CmdLine.arguments].
  - rewrite dash_dashes, not_help_assign by auto. cbn [negb]. rewrite app_assoc, cut_some by (apply dashes_no_eq; auto). rewrite skip_dashes_name by auto. reflexivity.
  - rewrite dash_dashes, not_help by auto. cbn [negb]. rewrite cut_none by (apply dashes_no_eq; auto). rewrite skip_dashes_name by auto.
    assert (E: dash_first v = false) by (destruct v as [|c v]; cbn; auto; apply Ascii.eqb_neq; auto). rewrite E. reflexivity.
  - rewrite dash_dashes, not_help by auto. cbn [negb]. rewrite cut_none by (apply dashes_no_eq; auto). rewrite skip_dashes_name by auto. destruct rest as [|a rest]; cbn [CmdLine.arguments]; auto. rewrite R. reflexivity.
Qed.
Lemma render_dash : forall s, exists a l, render s = a :: l /\ dash_first a = true.
Proof. intros [b n v|b n v|b n]; cbn [render]; eexists; eexists; (split; [reflexivity|]); apply dash_dashes. Qed.
Definition accepted (opts : list cloption) (s : setting) : Prop :=
  wf_setting s /\ exists o v, designates opts (sname s) o /\ parse_argument o (sarg s) = Ok v /\ v <> [].
(** after the settings [ss], what remains is parsed in a state that holds their values *)
Lemma settings_effect : forall opts ss rest d, NoDup (map long_name opts) -> Forall (accepted opts) ss -> (match rest with a :: _ => dash_first a = true | [] => True end) ->
  exists d', arguments opts (flat_map render ss ++ rest) d = arguments opts rest d' /\
    forall o, In o opts ->
      (forall s1 s s2, ss = s1 ++ s :: s2 -> designates opts (sname s) o -> (forall s', In s' s2 -> ~ designates opts (sname s') o) -> exists v, parse_argument o (sarg s) = Ok v /\ find (long_name o) d' = Some v) /\
      ((forall s, In s ss -> ~ designates opts (sname s) o) -> find (long_name o) d' = find (long_name o) d).
Proof.
  intros opts ss rest d ND F R. revert d. induction F as [|s ss (W & o0 & v0 & D & P & NV) F IH]; intros d.
  - exists d. split; auto. intros o Ho. split; auto. intros s1 s s2 E. destruct s1; discriminate.
  - cbn [flat_map]. rewrite <- app_assoc, step; auto.
    2:{ destruct s; auto. destruct (flat_map render ss ++ rest) eqn:E; auto. destruct ss as [|s2 ss]; cbn [flat_map app] in E.
        - subst rest. auto.
        - destruct (render_dash s2) as (a0 & l1 & ER & ED). rewrite ER in E. cbn in E. inversion E; subst. auto. }
    unfold CmdLine.set_option. rewrite (proj2 (find_designates opts (sname s) o0) D), P. destruct v0 as [|c0 v0]; [congruence|].
    destruct (IH (put (long_name o0) (c0 :: v0) d)) as (d' & E & H). exists d'. split; auto. intros o Ho. destruct (H o Ho) as (H1 & H2).
    assert (same: forall p, designates opts (sname s) p -> p = o0) by (intros p Dp; apply find_designates in Dp; apply find_designates in D; congruence).
    split.
    + intros s1 s' s2 ES DS NS. destruct s1 as [|x s1].
      * cbn in ES. inversion ES; subst s' s2. assert (o = o0) by (apply same; auto). subst o. exists (c0 :: v0). split; auto. rewrite H2 by auto. rewrite find_put. destruct (text_eqb_spec (long_name o0) (long_name o0)); congruence.
      * inversion ES; subst. apply (H1 s1 s' s2); auto.
    + intros NS. rewrite H2 by (intros x Hx; apply NS; cbn; auto). rewrite find_put. destruct (text_eqb_spec (long_name o) (long_name o0)) as [EL|]; auto.
      exfalso. apply (NS s); [cbn; auto|]. assert (o = o0); [|subst; auto]. 
      destruct D as (b & a & EO & _). assert (I0: In o0 opts) by (rewrite EO, in_app_iff; cbn; auto). clear - ND Ho I0 EL.
      induction opts as [|p opts IHo]; [destruct Ho|]. cbn [map] in ND. inversion_clear ND. destruct Ho as [ -> |Ho], I0 as [ -> |I0]; auto.
      * exfalso. apply H. rewrite EL. apply in_map; auto.
      * exfalso. apply H. rewrite <- EL. apply in_map; auto.
Qed.
Lemma fill_spec : forall opts d found, NoDup (map long_name opts) ->
  (forall o, In o opts -> find (long_name o) d = None -> required o = false /\ exists v, default_value o = Ok v) ->
  exists d' f, fill norm_int norm_double opts d found = Parsed d' (f ++ found) /\
    (forall k, ~ In k (map long_name opts) -> find k d' = find k d) /\ map fst f = rev (map long_name opts) /\
    forall o, In o opts -> match find (long_name o) d with
      | Some v => find (long_name o) d' = Some v /\ In (long_name o, true) f
      | None => exists v, default_value o = Ok v /\ find (long_name o) d' = Some v /\ In (long_name o, false) f end.
Proof.
  induction opts as [|o opts IH]; intros d found ND H; cbn [fill].
  - exists d, []. split; auto. split; auto. split; auto. intros o [].
  - cbn [map] in ND. inversion_clear ND as [|? ? N1 N2]. destruct (find (long_name o) d) as [v|] eqn:E.
    + destruct (IH d ((long_name o, true) :: found) N2) as (d' & f & A & B & C & D); [intros p Hp; apply H; cbn; auto|].
      exists d', (f ++ [(long_name o, true)]). rewrite <- app_assoc. split; [exact A|]. split; [intros k Hk; apply B; intros X; apply Hk; cbn; auto|]. split; [rewrite map_app, C; reflexivity|].
      intros p [<-|Hp].
      * rewrite E. split; [rewrite B; auto|]. apply in_app_iff. cbn; auto.
      * specialize (D p Hp). destruct (find (long_name p) d); [destruct D; split; auto; apply in_app_iff; auto|]. destruct D as (w & D1 & D2 & D3). exists w. repeat split; auto. apply in_app_iff; auto.
    + destruct (H o) as (RF & v & DV); [cbn; auto|auto|]. rewrite RF, DV.
      assert (FP: forall p, In p opts -> find (long_name p) (put (long_name o) v d) = find (long_name p) d).
      { intros p Hp. rewrite find_put. destruct (text_eqb_spec (long_name p) (long_name o)) as [X|]; auto. exfalso. apply N1. rewrite <- X. apply in_map; auto. }
      destruct (IH (put (long_name o) v d) ((long_name o, false) :: found) N2) as (d' & f & A & B & C & D); [intros p Hp; rewrite FP by auto; apply H; cbn; auto|].
      exists d', (f ++ [(long_name o, false)]). rewrite <- app_assoc. split; [exact A|]. split.
      { intros k Hk. rewrite B by (intros X; apply Hk; cbn; auto). rewrite find_put. destruct (text_eqb_spec k (long_name o)); auto. subst. destruct Hk. cbn; auto. }
      split; [rewrite map_app, C; reflexivity|]. intros p [<-|Hp].
      * rewrite E. exists v. split; auto. split; [|apply in_app_iff; cbn; auto]. rewrite B by auto. rewrite find_put. destruct (text_eqb_spec (long_name o) (long_name o)); congruence.
      * specialize (D p Hp). rewrite FP in D by auto. destruct (find (long_name p) d); [destruct D; split; auto; apply in_app_iff; auto|]. destruct D as (w & D1 & D2 & D3). exists w. repeat split; auto. apply in_app_iff; auto.
Qed.
Lemma found_spec : forall f n b, NoDup (map fst f) -> In (n, b) f -> List.find (fun e : text * bool => text_eqb (fst e) n) f = Some (n, b).
Proof.
  induction f as [|(m, c) f IH]; intros n b ND I; [destruct I|]. cbn [map fst] in ND. inversion_clear ND. cbn [List.find fst]. destruct (text_eqb_spec m n) as [->|N].
  - destruct I as [I|I]; [inversion I; auto|]. exfalso. apply H. apply (in_map fst) in I. auto.
  - destruct I as [I|I]; [inversion I; congruence|]. auto.
Qed.
(** with acceptable settings and all required options given, every option has the value of its last setting, or
    its default, and was_found tells which *)
Lemma values_lemma : forall opts ss, table opts -> Forall (accepted opts) ss ->
  (forall o, In o opts -> (exists s, In s ss /\ designates opts (sname s) o) \/ (required o = false /\ exists v, default_value o = Ok v)) ->
  let result := parse_arguments opts (flat_map render ss) in
  forall o, In o opts ->
    (forall s1 s s2, ss = s1 ++ s :: s2 -> designates opts (sname s) o -> (forall s', In s' s2 -> ~ designates opts (sname s') o) ->
       exists v, parse_argument o (sarg s) = Ok v /\ value_of result (long_name o) = Some v /\ was_found result (long_name o) = Some true) /\
    ((forall s, In s ss -> ~ designates opts (sname s) o) ->
       exists v, default_value o = Ok v /\ value_of result (long_name o) = Some v /\ was_found result (long_name o) = Some false).
Proof.
  intros opts ss TB F H result o Ho. pose proof (table_unique opts TB) as ND. destruct (settings_effect opts ss [] [] ND F I) as (d & E & S). rewrite app_nil_r in E. cbn [CmdLine.arguments] in E.
  assert (decl: forall p, In p opts -> (forall s, In s ss -> ~ designates opts (sname s) p) \/ exists s1 s s2, ss = s1 ++ s :: s2 /\ designates opts (sname s) p /\ forall s', In s' s2 -> ~ designates opts (sname s') p).
  { intros p _. clear. induction ss as [|s ss IH]; [left; intros s []|]. assert (D: {designates opts (sname s) p} + {~ designates opts (sname s) p}).
    { destruct (List.find (fun o => opt_matches o (sname s)) opts) as [q|] eqn:E.
      - assert (dec: {p = q} + {p <> q}) by (repeat decide equality). destruct dec as [ -> |N]; [left; apply find_designates; auto|right]. intros X. apply find_designates in X. congruence.
      - right. intros X. apply find_designates in X. congruence. }
    destruct IH as [IH|(s1 & t & s2 & -> & A & B)]; [|right; exists (s :: s1), t, s2; auto]. destruct D; [right; exists [], s, ss; auto|left]. intros t [<-|Ht]; auto. }
  assert (HF: forall p, In p opts -> find (long_name p) d = None -> required p = false /\ exists v, default_value p = Ok v).
  { intros p Hp N. destruct (H p Hp) as [(s & Is & Ds)|]; auto. exfalso. destruct (S p Hp) as (S1 & _). destruct (decl p Hp) as [X|(s1 & t & s2 & X1 & X2 & X3)]; [apply (X s Is Ds)|].
    destruct (S1 s1 t s2 X1 X2 X3) as (v & _ & X). congruence. }
  destruct (fill_spec opts d [] ND HF) as (d' & f & FE & _ & FN & FS). rewrite app_nil_r in FE.
  assert (RE: result = Parsed d' f) by (unfold result, CmdLine.parse_arguments; rewrite E; auto). rewrite RE. cbn [value_of was_found].
  assert (NF: NoDup (map fst f)) by (rewrite FN; apply NoDup_rev; auto). destruct (S o Ho) as (S1 & S2). specialize (FS o Ho). split.
  - intros s1 s s2 A B C. destruct (S1 s1 s s2 A B C) as (v & P & Q). rewrite Q in FS. destruct FS as (F1 & F2). exists v. split; auto. split; auto. rewrite (found_spec f (long_name o) true); auto.
  - intros N. rewrite (S2 N) in FS. cbn in FS. destruct FS as (v & F1 & F2 & F3). exists v. split; auto. split; auto. rewrite (found_spec f (long_name o) false); auto.
Qed.
(** the meaning of the text given for an option (empty when no text is given), and of a missing option *)
Inductive means (o : cloption) : text -> text -> Prop :=
| means_flag : forall a, argument o = NoArgument -> means o a (T "true")
| means_string : forall a, argument o = StringArgument -> a <> [] -> means o a a
| means_string_default : argument o = StringArgument -> means o [] (default o)
| means_int : forall a v, argument o = IntArgument -> a <> [] -> norm_int a = Ok v -> means o a v
| means_int_default : forall v, argument o = IntArgument -> norm_int (default o) = Ok v -> means o [] v
| means_double : forall a v, argument o = DoubleArgument -> a <> [] -> norm_double a = Ok v -> means o a v
| means_double_default : forall v, argument o = DoubleArgument -> norm_double (default o) = Ok v -> means o [] v.
Inductive means_missing (o : cloption) : text -> Prop :=
| missing_nothing : default o = [] -> means_missing o []
| missing_flag : forall b, argument o = NoArgument -> default o <> [] -> to_bool (default o) = Ok b -> means_missing o (T (if b then "true" else "false"))
| missing_string : argument o = StringArgument -> means_missing o (default o)
| missing_int : forall v, argument o = IntArgument -> default o <> [] -> norm_int (default o) = Ok v -> means_missing o v
| missing_double : forall v, argument o = DoubleArgument -> default o <> [] -> norm_double (default o) = Ok v -> means_missing o v.
Lemma means_spec : forall o a v, parse_argument o a = Ok v <-> means o a v.
Proof.
  intros o a v. unfold CmdLine.parse_argument. split.
  - destruct (argument o) eqn:E, a as [|c a]; intros H; try (injection H as <-); try (constructor; auto; discriminate).
  - intros H. destruct H as [a A|a A N|A|a v A N H|v A H|a v A N H|v A H]; rewrite A; auto; destruct a; congruence.
Qed.
Lemma missing_spec : forall o v, default_value o = Ok v <-> means_missing o v.
Proof.
  intros o v. unfold CmdLine.default_value. split.
  - destruct (default o) as [|c d] eqn:D; [intros [= <-]; constructor; auto|]. rewrite <- D. assert (N: default o <> []) by congruence. destruct (argument o) eqn:E; intros H.
    + destruct (to_bool (default o)) eqn:B; try discriminate. cbn in H. injection H as <-. unfold of_bool. apply missing_flag; auto.
    + apply missing_int; auto.
    + apply missing_double; auto.
    + injection H as <-. apply missing_string; auto.
  - intros H. destruct H as [D|b A N H|A|v A N H|v A N H]; [rewrite D; auto| | | |]; destruct (default o) eqn:E; rewrite ?A; try congruence. rewrite H. reflexivity.
Qed.
(** C39: with acceptable settings and all required options given, every option has the value of its last setting, or
    its default, and was_found tells which *)
Theorem C39_values : forall opts ss, table opts -> Forall (accepted opts) ss ->
  (forall o, In o opts -> (exists s, In s ss /\ designates opts (sname s) o) \/ (required o = false /\ exists v, means_missing o v)) ->
  let result := parse_arguments opts (flat_map render ss) in
  forall o, In o opts ->
    (forall s1 s s2, ss = s1 ++ s :: s2 -> designates opts (sname s) o -> (forall s', In s' s2 -> ~ designates opts (sname s') o) ->
       exists v, means o (sarg s) v /\ value_of result (long_name o) = Some v /\ was_found result (long_name o) = Some true) /\
    ((forall s, In s ss -> ~ designates opts (sname s) o) ->
       exists v, means_missing o v /\ value_of result (long_name o) = Some v /\ was_found result (long_name o) = Some false).
Proof.
  intros opts ss TB F H result o Ho. destruct (values_lemma opts ss TB F) with (o := o) as [A B]; auto.
  { intros p Hp. destruct (H p Hp) as [X|(R & v & X)]; [left; auto|right]. split; auto. exists v. apply missing_spec; auto. }
  split.
  - intros s1 s s2 E D N. destruct (A s1 s s2 E D N) as (v & V & W). exists v. split; auto. apply means_spec; auto.
  - intros N. destruct (B N) as (v & V & W). exists v. split; auto. apply missing_spec; auto.
Qed.
(** how parsing stops, whatever acceptable settings come first *)
Theorem C39_stops : forall opts ss rest, table opts -> Forall (accepted opts) ss ->
  (* help: success *)
  (forall h, h = T "--help" \/ h = T "-h" -> parse_arguments opts (flat_map render ss ++ h :: rest) = Exit 0) /\
  (* a setting of an unknown option, or of a text option that has no default without a value *)
  (forall s, wf_setting s -> (match s, rest with Alone _ _, a :: _ => dash_first a = true | _, _ => True end) ->
      (forall o, In o opts -> ~ refers o (sname s)) \/ (exists o, designates opts (sname s) o /\ argument o = StringArgument /\ default o = [] /\ sarg s = []) ->
      parse_arguments opts (flat_map render ss ++ render s ++ rest) = Exit 1) /\
  (* a value that cannot be converted *)
  (forall s o, wf_setting s -> (match s, rest with Alone _ _, a :: _ => dash_first a = true | _, _ => True end) -> designates opts (sname s) o -> parse_argument o (sarg s) = Fails ->
      parse_arguments opts (flat_map render ss ++ render s ++ rest) = Abort) /\
  (* a required option that is not given *)
  (forall o, In o opts -> required o = true -> (forall s, In s ss -> ~ designates opts (sname s) o) -> (forall p, In p opts -> exists v, default_value p = Ok v) -> parse_arguments opts (flat_map render ss) = Exit 1).
Proof.
  intros opts ss rest TB F. pose proof (table_unique opts TB) as ND. unfold CmdLine.parse_arguments. split; [|split; [|split]].
  - intros h Hh. destruct (settings_effect opts ss (h :: rest) [] ND F) as (d & E & _); [destruct Hh as [ -> | -> ]; reflexivity|]. rewrite E. cbn [CmdLine.arguments]. destruct Hh as [ -> | -> ]; reflexivity.
  - intros s W R U. destruct (settings_effect opts ss (render s ++ rest) [] ND F) as (d & E & _); [destruct (render_dash s) as (a & l & -> & D); exact D|]. rewrite E, step by auto. unfold CmdLine.set_option.
    destruct U as [U|(o & D & A & DF & SA)].
    + rewrite (proj2 (find_unknown opts (sname s)) U). reflexivity.
    + rewrite (proj2 (find_designates opts (sname s) o) D). unfold CmdLine.parse_argument. rewrite A, SA, DF. reflexivity.
  - intros s o W R D P. destruct (settings_effect opts ss (render s ++ rest) [] ND F) as (d & E & _); [destruct (render_dash s) as (a & l & -> & DD); exact DD|]. rewrite E, step by auto. unfold CmdLine.set_option.
    rewrite (proj2 (find_designates opts (sname s) o) D), P. reflexivity.
  - intros o Ho RQ NS DV. destruct (settings_effect opts ss [] [] ND F I) as (d & E & S). rewrite app_nil_r in E. rewrite E. cbn [CmdLine.arguments].
    destruct (S o Ho) as (_ & S2). specialize (S2 NS). cbn in S2. clear - Ho RQ S2 DV ND. 
    assert (G: forall opts d found, NoDup (map long_name opts) -> In o opts -> (forall p, In p opts -> exists v, default_value p = Ok v) -> find (long_name o) d = None -> fill norm_int norm_double opts d found = Exit 1).
    { clear - RQ. induction opts as [|p opts IH]; intros d found ND Ho DV N; [destruct Ho|]. cbn [fill]. cbn [map] in ND. inversion_clear ND as [|? ? N1 N2]. destruct Ho as [ -> |Ho].
      - rewrite N, RQ. reflexivity.
      - destruct (find (long_name p) d); [apply IH; auto; intros q Hq; apply DV; cbn; auto|]. destruct (required p); auto. destruct (DV p) as (v & ->); [cbn; auto|]. apply IH; auto; [intros q Hq; apply DV; cbn; auto|].
        rewrite find_put. destruct (text_eqb_spec (long_name o) (long_name p)) as [X|]; auto. exfalso. apply N1. rewrite <- X. apply in_map; auto. }
    apply G; auto.
Qed.
(** a negative number cannot be given as a separate argument: it is taken for an option *)
Theorem C39_negative_argument_refuted : forall opts ss b n v, table opts -> Forall (accepted opts) ss ->
  accepted opts (Alone b n) -> (forall o, In o opts -> ~ refers o v) -> no_dash v -> v <> T "help" -> v <> T "h" -> ~ In "="%char v ->
  parse_arguments opts (flat_map render ss ++ [dashes b ++ n; "-"%char :: v]) = Exit 1.
Proof.
  intros opts ss b n v TB F A U ND H1 H2 H3. destruct (C39_stops opts (ss ++ [Alone b n]) [] TB) as (_ & C & _); [apply Forall_app; auto|].
  specialize (C (Alone false v)). cbn [render sname sarg] in C. rewrite app_nil_r, flat_map_app, <- app_assoc in C. apply C; auto. repeat split; auto.
Qed.
End Props.
Print Assumptions C39_values.
Print Assumptions C39_stops.
Print Assumptions C39_negative_argument_refuted.
Definition ex_opts : list cloption := [help_option; mkOpt (T "params") "p" StringArgument [] true; mkOpt (T "threads") "t" IntArgument (T "1") false; mkOpt (T "verbose") "v" NoArgument (T "false") false].
Definition ex_norm : text -> res text := fun t => match t with [] => Fails | _ => Ok t end.
Example C39_example : table ex_opts /\
  Forall (accepted ex_norm ex_norm ex_opts) [Separate true (T "params") (T "a.param"); Assign false (T "t") (T "4"); Alone true (T "verbose"); Assign true (T "threads") (T "8")] /\
  let r := parse_arguments ex_norm ex_norm ex_opts [T "--params"; T "a.param"; T "-t=4"; T "--verbose"; T "--threads=8"] in
  value_of r (T "threads") = Some (T "8") /\ value_of r (T "params") = Some (T "a.param") /\ was_found r (T "help") = Some false /\
  parse_arguments ex_norm ex_norm ex_opts [T "--threads"; T "-8"] = Exit 1.
Proof.
  split; [|split].
  - pose proof (table_add (nth 1 ex_opts help_option) _ _ table_help eq_refl) as T1. pose proof (table_add (nth 2 ex_opts help_option) _ _ T1 eq_refl) as T2.
    exact (table_add (nth 3 ex_opts help_option) _ _ T2 eq_refl).
  - assert (W: forall b n v, (n = T "params" \/ n = T "t" \/ n = T "threads") -> wf_setting (Assign b n v)).
    { intros b n v [ -> |[ -> | -> ]]; (split; [cbn; intuition discriminate|]); (split; [cbn; discriminate|]); split; try discriminate; split; try discriminate; exact I. }
    repeat constructor; try discriminate; try (cbn; intuition discriminate); eexists; eexists; (split; [apply find_designates; reflexivity|]); (split; [reflexivity|discriminate]).
  - repeat split; vm_compute; reflexivity.
Qed.
