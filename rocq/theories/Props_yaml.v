(** C36-C38: the parameter file (src/YAMLDictionary.hpp).  The specification of well-formed keys and
    values is at the top of YamlFacts.v. *)
From Coq Require Import List Ascii String ZArith Lia Bool Arith Sorted.
From Verif Require Import Parse Yaml YamlFacts.
Import ListNotations.
Local Open Scope nat_scope.

Lemma common_spec : forall a b, common a b <= List.length a /\ common a b <= List.length b /\ firstn (common a b) a = firstn (common a b) b /\
  (common a b < List.length a -> common a b < List.length b -> firstn (S (common a b)) a <> firstn (S (common a b)) b).
Proof.
  induction a as [|x a IH]; intros b; cbn [common]; [cbn; repeat split; auto; lia|]. destruct b as [|y b]; [cbn; repeat split; auto; lia|].
  destruct (text_eqb_spec x y).
  - subst y. destruct (IH b) as (A & B & C & D). cbn [List.length firstn]. repeat split; try lia; [f_equal; auto|]. intros H1 H2 E. apply D; try lia. inversion E. auto.
  - cbn [List.length firstn]. repeat split; try lia. intros _ _ E. inversion E. auto.
Qed.
Lemma pops_bounds : forall f j n, j <= n -> j <= pops f j n <= n.
Proof.
  induction f; intros j n H; cbn [pops]; [lia|]. destruct (Nat.ltb_spec j n); [|lia]. destruct (Nat.eq_dec n (S j)).
  - subst n. replace (S j - 1) with j by lia. destruct f; cbn [pops]; [lia|]. destruct (Nat.ltb_spec (S j) j); lia.
  - specialize (IHf (S j) (n - 1) ltac:(lia)). lia.
Qed.
Lemma pops_exact : forall f j n, n <= S j -> j <= n -> n - j <= f -> pops f j n = j.
Proof.
  intros f j n H1 H2 H3. destruct f as [|f]; cbn [pops]; [lia|]. destruct (Nat.ltb_spec j n); [|lia].
  assert (n = S j) by lia. subst n. replace (S j - 1) with j by lia. destruct f; cbn [pops]; auto. destruct (Nat.ltb_spec (S j) j); lia.
Qed.

Definition grp (k : text) : list text := fst (split_key k).
(** the printer's (possibly stale) group list agrees with later keys only where the groups of the
    last printed key do *)
Definition fresh (S G : list text) (d : dict) : Prop :=
  forall k v j, In (k, v) d -> j <= List.length S -> j <= List.length (grp k) -> firstn j S = firstn j (grp k) -> firstn j G = firstn j (grp k).
Definition recorded (used : option dict) (e : text * text) : text * text :=
  (fst e, match used with None => snd e | Some u => match find (fst e) u with Some w => w | None => T "value not used" end end).

Lemma not_used_good : good_value (T "value not used").
Proof.
  split; [discriminate|]. split.
  - intros c H. cbn in H. repeat (destruct H as [<-|H]; [split; discriminate|]). tauto.
  - intros a c b E B. split; intros ->.
    + cbn in E. inversion E. subst c. discriminate.
    + change (T "value not used") with (removelast (T "value not used") ++ ["d"%char]) in E. apply app_inj_tail in E. destruct E as (_ & <-). discriminate.
Qed.
Definition good_entries (used : option dict) (d : dict) : Prop :=
  forall k v, In (k, v) d -> good_key k /\ ~ In newline v /\ match used with None => good_value v | Some u => forall w, find k u = Some w -> good_value w end.
Lemma value_text : forall used k v, match used with None => good_value v | Some u => forall w, find k u = Some w -> good_value w end ->
  exists rest, print_value used k v = ":"%char :: rest /\ strip (strip_comments rest) = snd (recorded used (k, v)) /\ snd (recorded used (k, v)) <> [].
Proof.
  intros used k v H. assert (S1: forall w b, good_value w -> Forall (fun c => blank c = true) b -> strip (" "%char :: w ++ b) = w).
  { intros w b (_ & _ & Tr) Hb. apply (strip_spec [" "%char] w b); auto. }
  destruct used as [u|]; unfold print_value, recorded; cbn [fst snd].
  - set (w := match find k u with Some w => w | None => T "value not used" end).
    assert (W: good_value w) by (unfold w; destruct (find k u); [apply H; auto | apply not_used_good]).
    exists (" "%char :: w ++ T " # (" ++ v ++ T ")"). split; [reflexivity|]. split; [|apply (proj1 W)].
    change (strip (" "%char :: strip_comments (w ++ T " # (" ++ v ++ T ")")) = w). rewrite strip_comments_plain by apply (proj1 (proj2 W)).
    change (strip_comments (T " # (" ++ v ++ T ")")) with [" "%char]. apply S1; auto.
  - exists (" "%char :: v). split; [reflexivity|]. split; [|apply (proj1 H)].
    pose proof (strip_comments_plain v [] (proj1 (proj2 H))) as SC. rewrite app_nil_r in SC. change (strip (" "%char :: strip_comments v) = v). rewrite SC. apply S1; auto. constructor.
Qed.

Lemma print_groups_spec : forall S K, exists i S', print_groups S K = (group_lines i (skipn i K), S') /\ i <= List.length S /\ i <= List.length K /\ firstn i S = firstn i K /\
  (S' = K \/ (i < List.length S /\ i < List.length K /\ firstn (1 + i) S <> firstn (1 + i) K /\ firstn (1 + i) S' = firstn (1 + i) S)).
Proof.
  intros S K. unfold print_groups. destruct (Nat.ltb_spec (List.length S) (List.length K)).
  - destruct (common_spec S K) as (A & B & C & D). exists (common S K). eexists. split; [reflexivity|]. split; [auto|]. split; [auto|]. split; [auto|].
    set (i := common S K) in *. pose proof (pops_bounds (List.length S) i (List.length S) A) as PB. destruct (Nat.eq_dec (pops (List.length S) i (List.length S)) i) as [E|E].
    + left. rewrite E, C. apply firstn_skipn.
    + right. assert (i < List.length S) by lia. split; [auto|]. split; [lia|]. split; [apply D; lia|]. rewrite firstn_app, firstn_length_le by lia.
      replace (1 + i - pops (List.length S) i (List.length S)) with 0 by lia. cbn [firstn]. rewrite app_nil_r, firstn_firstn. replace (Nat.min (1 + i) (pops (List.length S) i (List.length S))) with (1 + i) by lia. reflexivity.
  - set (S1 := firstn (List.length K) S). destruct (common_spec S1 K) as (A & B & C & D). exists (common S1 K). eexists. split; [reflexivity|]. set (i := common S1 K) in *.
    assert (L: List.length S1 = List.length K) by (unfold S1; apply firstn_length_le; auto). assert (F: firstn i S1 = firstn i S) by (unfold S1; rewrite firstn_firstn; f_equal; lia).
    split; [lia|]. split; [auto|]. rewrite <- F. split; [auto|]. left. rewrite C. apply firstn_skipn.
Qed.

Lemma print_parse : forall used d S G e pk, sorted_keys d -> good_entries used d ->
  fresh S G d -> (S = [] \/ (G = grp pk /\ forall k v, In (k, v) d -> text_lt pk k)) -> (forall x y, In x e -> In y d -> text_lt (fst x) (fst y)) ->
  exists G', parse_lines (closed G e) (print_lines used S d) = Ok (closed G' (e ++ map (recorded used) d)).
Proof.
  intros used. induction d as [|(k, v) d IH]; intros S G e pk SO GE FR PK LT.
  - exists G. cbn. rewrite app_nil_r. reflexivity.
  - cbn [print_lines]. destruct (split_key k) as (K, name) eqn:SK. destruct (print_groups_spec S K) as (i & S' & PG & I1 & I2 & I3 & I4). rewrite PG.
    assert (EK: K = grp k) by (unfold grp; rewrite SK; auto). assert (EN: name = snd (split_key k)) by (rewrite SK; auto).
    destruct (GE k v) as (GK & NV & GV); [cbn; auto|]. destruct (good_components k GK) as (C1 & C2 & C3). destruct (split_colon k) as (C4 & C5).
    destruct (value_text used k v GV) as (rest & -> & R1 & R2).
    assert (FG: firstn i G = firstn i K). { rewrite EK in *. apply (FR k v i); cbn; auto. }
    assert (IG: i <= List.length G). { apply (f_equal (@List.length _)) in FG. rewrite !firstn_length in FG. lia. }
    assert (EL: parse_lines (closed G e) (group_lines i (skipn i K) ++ [indent_text (List.length K) ++ name ++ ":"%char :: rest]) = Ok (closed K (put (join K ++ name) (snd (recorded used (k, v))) e))).
    { apply entry_lines; auto; rewrite ?EN; auto. intros g Hg. rewrite EK in Hg. unfold grp in Hg. rewrite Forall_forall in C4. destruct (C1 g Hg). auto. }
    assert (JK: join K ++ name = k) by (rewrite EK, EN; symmetry; apply split_join).
    rewrite JK, put_last in EL by (intros x Hx; apply (LT x (k, v)); cbn; auto).
    inversion SO as [|? ? SO' FA]; subst. rewrite Forall_forall in FA.
    destruct (IH S' (grp k) (e ++ [(k, snd (recorded used (k, v)))]) k) as (G' & HG); auto.
    + intros q w Hq. apply GE. cbn; auto.
    + intros q w j Hq J1 J2 J3. destruct I4 as [ -> | (I5 & I6 & I7 & I8)]; [auto|].
      destruct (Nat.le_gt_cases j i) as [L|L].
      * assert (X: firstn j S' = firstn j S). { replace j with (Nat.min j (1 + i)) by lia. rewrite <- !firstn_firstn, I8. reflexivity. }
        rewrite <- J3, X. replace j with (Nat.min j i) by lia. rewrite <- !firstn_firstn, I3. reflexivity.
      * exfalso. assert (X: firstn (1 + i) S = firstn (1 + i) (grp q)). { rewrite <- I8. replace (1 + i) with (Nat.min (1 + i) j) by lia. rewrite <- !firstn_firstn, J3. reflexivity. }
        pose proof (FR q w (1 + i) ltac:(cbn; auto) ltac:(lia) ltac:(lia) X) as Y. destruct PK as [ -> | (-> & PK)]; [cbn in I5; lia|].
        assert (B: firstn (1 + i) (grp k) = firstn (1 + i) (grp pk)).
        { apply (between (1 + i) pk k q); auto.
          - apply (PK k v). cbn; auto.
          - apply (FA (q, w)). auto.
          - assert (LL: List.length (firstn (1 + i) (grp pk)) = List.length (firstn (1 + i) (grp q))) by (rewrite Y; auto). rewrite !firstn_length in LL. unfold grp in *. lia. }
        apply I7. rewrite X, <- Y, <- B. reflexivity.
    + right. split; auto. intros q w Hq. apply (FA (q, w)). auto.
    + intros x y Hx Hy. apply in_app_iff in Hx. destruct Hx as [Hx|[<-|[]]]; [apply LT; cbn; auto|]. apply (FA y Hy).
    + exists G'. rewrite app_assoc, parse_app, EL. cbn [bind]. rewrite HG. rewrite <- app_assoc. reflexivity.
Qed.

Lemma in_repeat_nl : forall n, ~ In newline (repeat " "%char n).
Proof. intros n H. apply repeat_spec in H. discriminate. Qed.
Lemma printed_no_newline : forall used d S, good_entries used d -> forall l, In l (print_lines used S d) -> ~ In newline l.
Proof.
  intros used. induction d as [|(k, v) d IH]; intros S GE l Hl; [destruct Hl|]. cbn [print_lines] in Hl. destruct (split_key k) as (K, name) eqn:SK.
  destruct (print_groups_spec S K) as (i & S' & PG & _). rewrite PG in Hl. destruct (GE k v) as (GK & NV & GV); [cbn; auto|]. destruct (good_components k GK) as (C1 & C2 & C3).
  rewrite SK in *. cbn [fst snd] in *. rewrite !in_app_iff in Hl. destruct Hl as [Hl|[Hl|Hl]].
  - assert (X: forall gs j, (forall g, In g gs -> plain g) -> In l (group_lines j gs) -> ~ In newline l).
    { induction gs as [|g gs IHg]; intros j H H1; cbn [group_lines] in H1; [destruct H1|]. destruct H1 as [<-|H1]; [|eapply IHg; eauto; intros; apply H; cbn; auto].
      rewrite !in_app_iff. intros [X|[X|[X|[]]]]; [eapply in_repeat_nl; eauto | apply H in X; [tauto | cbn; auto] | discriminate]. }
    eapply X; eauto. intros g Hg. apply C1. rewrite <- (firstn_skipn i K). apply in_app_iff; auto.
  - destruct Hl as [<-|[]]. rewrite !in_app_iff. intros [X|[X|X]]; [eapply in_repeat_nl; eauto | apply C3 in X; tauto |].
    unfold print_value in X. destruct used as [u|].
    + rewrite !in_app_iff in X. destruct X as [X|[X|[X|[X|X]]]]; auto; try (cbn in X; repeat (destruct X as [X|X]; [discriminate|]); tauto).
      destruct (find k u) eqn:F; [|apply not_used_good in X; tauto]. apply (GV _ eq_refl) in X. tauto.
    + rewrite in_app_iff in X. destruct X as [X|X]; auto. cbn in X. repeat (destruct X as [X|X]; [discriminate|]); tauto.
  - eapply IH; eauto. intros q w Hq. apply GE. cbn; auto.
Qed.
Lemma roundtrip : forall used d, sorted_keys d -> good_entries used d -> parse (print used d) = Ok (map (recorded used) d).
Proof.
  intros used d S G. unfold parse, print. rewrite lines_print by (eapply printed_no_newline; eauto).
  destruct (print_parse used d [] [] [] [] S G) as (G' & E).
  - intros k v j _ H1 _ _. cbn in H1. replace j with 0 by lia. reflexivity.
  - auto.
  - intros x y [].
  - change pstate0 with (closed [] []). rewrite E. reflexivity.
Qed.

(** C36: printing a dictionary and parsing the text gives back the same dictionary *)
Theorem C36_roundtrip : forall d, sorted_keys d -> (forall k v, In (k, v) d -> good_key k /\ good_value v) -> parse (print None d) = Ok d.
Proof.
  intros d S G. rewrite roundtrip; auto.
  - f_equal. rewrite <- (map_id d) at 2. apply map_ext. intros (k, v). reflexivity.
  - intros k v H. destruct (G k v H) as (A & B). split; auto. split; auto. intros N. apply (proj1 (proj2 B)) in N. tauto.
Qed.
Print Assumptions C36_roundtrip.
(** the file with the used values is parsed to the used values: every key of the dictionary, with the
    recorded value or "value not used" *)
Theorem C36_used_values : forall d u, sorted_keys d -> (forall k v, In (k, v) d -> good_key k /\ ~ In newline v) -> (forall k w, find k u = Some w -> good_value w) ->
  parse (print (Some u) d) = Ok (map (fun '(k, _) => (k, match find k u with Some w => w | None => T "value not used" end)) d).
Proof.
  intros d u S G U. rewrite roundtrip; auto.
  - f_equal. apply map_ext. intros (k, v). reflexivity.
  - intros k v H. destruct (G k v H) as (A & B). split; auto. split; auto. intros w. apply U.
Qed.
Print Assumptions C36_used_values.

(** *** every parsed dictionary is well formed *)
Lemma lines_no_newline : forall t l, In l (lines t) -> ~ In newline l.
Proof.
  induction t as [|c t IH]; intros l H; cbn [lines] in H; [destruct H|]. destruct (Ascii.eqb_spec c newline).
  - destruct H as [<-|H]; auto.
  - destruct (lines t) as [|l0 ls]; [destruct H as [<-|[]]; intros [X|[]]; congruence|]. destruct H as [<-|H]; [|apply IH; cbn; auto].
    intros [X|X]; [congruence|]. apply (IH l0); cbn; auto.
Qed.
Lemma skip_blanks_spec : forall s, exists b, s = b ++ skip_blanks s /\ Forall (fun c => blank c = true) b /\ match skip_blanks s with [] => True | c :: _ => blank c = false end.
Proof.
  induction s as [|c s IH]; [exists []; cbn; auto|]. cbn [skip_blanks]. destruct (blank c) eqn:B.
  - destruct IH as (b & E & F & G). exists (c :: b). split; [cbn; f_equal; auto|]. split; auto.
  - exists []. cbn. auto.
Qed.
Lemma strip_trimmed : forall s, trimmed (strip s) /\ (forall c, In c (strip s) -> In c s).
Proof.
  intros s. unfold strip. destruct (skip_blanks_spec s) as (b1 & E1 & F1 & G1). set (s1 := skip_blanks s) in *.
  destruct (skip_blanks_spec (rev s1)) as (b2 & E2 & F2 & G2). set (s2 := skip_blanks (rev s1)) in *.
  assert (E: s1 = rev s2 ++ rev b2) by (rewrite <- rev_app_distr, <- E2, rev_involutive; auto). split.
  - intros a c b EQ B. split; intros ->.
    + rewrite EQ in E. cbn in E. rewrite E in G1. congruence.
    + apply (f_equal (@rev ascii)) in EQ. rewrite rev_involutive, rev_app_distr in EQ. cbn in EQ. rewrite EQ in G2. congruence.
  - intros c Hc. rewrite E1, E, !in_app_iff. auto.
Qed.
Lemma trimmed_components : forall gs k, Forall (fun g => trimmed g /\ ~ In ":"%char g /\ plain g) (k :: gs) -> good_key (join gs ++ k).
Proof.
  intros gs k H. inversion_clear H as [|? ? (T1 & T2 & T3) F]. induction F as [|g gs (G1 & G2 & G3) F (P & IH)].
  - split; [auto|]. cbn. intros a c b -> B. destruct (T1 a c b eq_refl B) as (A1 & A2). split.
    + destruct (exists_last A1) as (a' & z & ->). exists a', z. split; auto. intros ->. apply T2. rewrite !in_app_iff. cbn; auto.
    + destruct b as [|z b]; [congruence|]. exists z, b. split; auto. intros ->. apply T2. rewrite !in_app_iff. cbn; auto.
  - unfold join in *. cbn [map List.concat]. rewrite <- !app_assoc. split.
    + apply plain_app; auto. intros c [<-|Hc]; [split; discriminate|]. apply P. auto.
    + intros a c b E B. cbn [app] in E. destruct (Nat.lt_trichotomy (List.length a) (List.length g)) as [L|[L|L]].
      * assert (X: exists b', g = a ++ c :: b' /\ b = b' ++ ":"%char :: (List.concat (map (fun g0 => g0 ++ [":"%char]) gs) ++ k)).
        { clear - E L. revert g E L. induction a as [|x a IHa]; intros g E L; destruct g as [|y g]; cbn in *; try lia; inversion E; subst; [exists g; auto|]. destruct (IHa g H1 ltac:(lia)) as (b' & -> & ->). exists b'. auto. }
        destruct X as (b' & -> & ->). destruct (G1 a c b' eq_refl B) as (A1 & A2). split.
        -- destruct (exists_last A1) as (a' & z & ->). exists a', z. split; auto. intros ->. apply G2. rewrite !in_app_iff. cbn; auto.
        -- destruct b' as [|z b']; [congruence|]. exists z. eexists. split; [reflexivity|]. intros ->. apply G2. rewrite !in_app_iff. cbn; auto.
      * exfalso. assert (c = ":"%char). { clear - E L. revert g E L. induction a as [|x a IHa]; intros g E L; destruct g as [|y g]; cbn in *; try lia; inversion E; auto. apply (IHa g); auto. } subst c. discriminate.
      * assert (X: exists a', a = g ++ ":"%char :: a' /\ List.concat (map (fun g0 => g0 ++ [":"%char]) gs) ++ k = a' ++ c :: b).
        { clear - E L. revert a E L. induction g as [|y g IHg]; intros a E L; destruct a as [|x a]; cbn in *; try lia; inversion E; subst; [exists a; auto|]. destruct (IHg a H1 ltac:(lia)) as (a' & -> & ->). exists a'. auto. }
        destruct X as (a' & -> & X). destruct (IH a' c b X B) as ((a'' & z & -> & NX) & R). split; auto. exists (g ++ ":"%char :: a''), z. split; auto. rewrite <- app_assoc. reflexivity.
Qed.
Lemma put_in : forall k v d e, In e (put k v d) -> e = (k, v) \/ In e d.
Proof.
  induction d as [|(q, w) d IH]; intros e H; cbn [put] in H.
  - destruct H as [<-|[]]; auto.
  - destruct (compare_text k q); cbn in *; destruct H as [<-|H]; auto. destruct (IH e H); auto.
Qed.
Lemma put_sorted : forall k v d, sorted_keys d -> sorted_keys (put k v d).
Proof.
  induction d as [|(q, w) d IH]; intros H; cbn [put]; [repeat constructor|]. inversion_clear H as [|? ? SO FA]. rewrite Forall_forall in FA. destruct (compare_text k q) eqn:C.
  - apply compare_eq in C. subst q. constructor; auto. apply Forall_forall. intros e He. apply (FA e He).
  - constructor; [constructor; auto; apply Forall_forall; auto|]. constructor; [exact C|]. apply Forall_forall. intros e He. cbn. eapply lt_trans; [exact C|apply (FA e He)].
  - constructor; [apply IH; auto|]. apply Forall_forall. intros e He. apply put_in in He. destruct He as [->|He]; [|apply (FA e He)]. cbn. unfold text_lt. rewrite compare_flip, C. reflexivity.
Qed.
Definition good_comp (g : text) : Prop := trimmed g /\ ~ In ":"%char g /\ plain g.
Definition sound (s : pstate) : Prop := Forall good_comp (groups s) /\ sorted_keys (entries s) /\ forall k v, In (k, v) (entries s) -> good_key k /\ good_value v.
Lemma cut_colon_sound : forall l a b, cut_colon l = Some (a, b) -> ~ In ":"%char a /\ l = a ++ ":"%char :: b.
Proof.
  induction l as [|c l IH]; intros a b H; cbn [cut_colon] in H; [discriminate|]. destruct (Ascii.eqb_spec c ":").
  - inversion H; subst. auto.
  - destruct (cut_colon l) as [(a', b')|]; [|discriminate]. inversion H; subst. destruct (IH a' b eq_refl) as (A & ->). split; auto. intros [X|X]; auto.
Qed.
Lemma strip_comments_sound : forall l, (forall c, In c (strip_comments l) -> In c l) /\ ~ In "#"%char (strip_comments l).
Proof.
  induction l as [|c l IH]; cbn [strip_comments]; [split; auto|]. destruct IH as (A & B). destruct (Ascii.eqb_spec c "#"); [split; [intros x []|auto]|].
  split; [intros x [X|X]; cbn; auto|]. intros [X|X]; auto.
Qed.
Lemma pop_incl : forall ind ls gs ls' gs', pop ind ls gs = Ok (ls', gs') -> incl gs' gs.
Proof.
  induction ls as [|l ls IH]; intros gs ls' gs' H; cbn [pop] in H; [discriminate|]. destruct (ind <? l).
  - destruct gs as [|g gs]; [discriminate|]. apply IH in H. intros x Hx. cbn; auto.
  - inversion H. apply incl_refl.
Qed.
Lemma parse_line_sound : forall s l s', ~ In newline l -> sound s -> parse_line s l = Ok s' -> sound s'.
Proof.
  intros s l s' NL (S1 & S2 & S3) H. unfold parse_line in H. destruct (is_comment_line l || is_empty_line l); [inversion H; subst; split; auto|].
  unfold read_pair in H. destruct (cut_colon (strip_comments l)) as [(a, b)|] eqn:CC; cbn [bind] in H; [|discriminate].
  destruct (cut_colon_sound _ _ _ CC) as (NC & E). destruct (strip_comments_sound l) as (I1 & I2). rewrite E in I1, I2.
  assert (PL: plain (a ++ b)).
  { intros c Hc. split; intros ->; [apply I2 | apply NL, I1]; apply in_app_iff in Hc; rewrite in_app_iff; cbn; tauto. }
  set (k := strip a) in *. set (v := strip b) in *.
  assert (GK: good_comp k).
  { destruct (strip_trimmed a) as (A & B). split; [auto|]. split; [intros X; apply NC, B; auto|]. intros c Hc. apply PL, in_app_iff. left. apply B; auto. }
  assert (GV: v <> [] -> good_value v).
  { intros N. destruct (strip_trimmed b) as (A & B). split; [auto|]. split; [|auto]. intros c Hc. apply PL, in_app_iff. right. apply B; auto. }
  assert (PS: forall gs, Forall good_comp gs -> v <> [] -> sorted_keys (store (full_key gs k) v (entries s)) /\ forall q w, In (q, w) (store (full_key gs k) v (entries s)) -> good_key q /\ good_value w).
  { intros gs Hgs N. unfold store. destruct v as [|v0 v1] eqn:EV; [congruence|]. rewrite <- EV in *. split; [apply put_sorted; auto|]. intros q w Hq. apply put_in in Hq. destruct Hq as [Hq|Hq]; [|auto].
    inversion Hq; subst q w. split; [|auto]. unfold full_key. apply (trimmed_components (rev gs) k). constructor; [auto|]. apply Forall_rev. auto. }
  assert (SUB: forall gs, incl gs (groups s) -> Forall good_comp gs) by (intros gs Hi; apply Forall_forall; intros x Hx; rewrite Forall_forall in S1; auto).
  destruct (0 <? indentation (strip_comments l)).
  - match type of H with bind ?x _ = _ => destruct x as [(ls, gs)| |] eqn:M; cbn [bind] in H; try discriminate end.
    assert (GI: Forall good_comp gs).
    { apply SUB. destruct (levels s) as [|b0 l0]; [inversion M; apply incl_refl|]. destruct (b0 <? _); [inversion M; apply incl_refl|]. eapply pop_incl; eauto. }
    destruct (negb _); [discriminate|]. destruct v as [|v0 v1] eqn:EV; inversion H; subst s'; unfold sound; cbn [groups entries].
    + split; [constructor; auto|auto].
    + split; auto. apply PS; auto. discriminate.
  - destruct (negb _); [discriminate|]. destruct (clear _ _) as [gs| |] eqn:M; cbn [bind] in H; try discriminate.
    assert (GI: Forall good_comp gs).
    { unfold clear in M. destruct (_ <? _); [discriminate|]. inversion M. apply SUB. intros x Hx. rewrite <- (firstn_skipn (List.length (levels s)) (groups s)). apply in_app_iff; auto. }
    destruct v as [|v0 v1] eqn:EV; inversion H; subst s'; unfold sound; cbn [groups entries].
    + split; [constructor; auto|auto].
    + split; auto. specialize (PS [] (Forall_nil _) ltac:(discriminate)). exact PS.
Qed.
Lemma parse_sound : forall ls s s', (forall l, In l ls -> ~ In newline l) -> sound s -> parse_lines s ls = Ok s' -> sound s'.
Proof.
  induction ls as [|l ls IH]; intros s s' NL S H; cbn [parse_lines] in H; [inversion H; subst; auto|]. destruct (parse_line s l) as [s1| |] eqn:E; cbn [bind] in H; try discriminate.
  eapply IH; [|eapply parse_line_sound; eauto|eauto]; intros; apply NL; cbn; auto.
Qed.
(** whatever text was parsed, printing and parsing again changes nothing *)
Theorem C36_parsed_files : forall t d, parse t = Ok d ->
  sorted_keys d /\ (forall k v, In (k, v) d -> good_key k /\ good_value v) /\ parse (print None d) = Ok d.
Proof.
  intros t d H. unfold parse in H. destruct (parse_lines pstate0 (lines t)) as [s| |] eqn:E; cbn [bind] in H; try discriminate. inversion H; subst d.
  assert (S: sound s). { eapply parse_sound; eauto; [apply lines_no_newline|]. split; [constructor|]. split; [constructor|intros k v []]. }
  destruct S as (_ & S2 & S3). split; [auto|]. split; [auto|]. apply C36_roundtrip; auto.
Qed.
Print Assumptions C36_parsed_files.
Definition ex_text : text := T "a:
  b:
    c: 1
    d: 2 # comment
  e: long value
f: x:y
".
Example C36_example : exists d, parse ex_text = Ok d /\ List.length d = 4 /\ find (T "a:b:d") d = Some (T "2") /\ find (T "a:e") d = Some (T "long value") /\ find (T "f") d = Some (T "x:y") /\ parse (print None d) = Ok d.
Proof. eexists. split; [vm_compute; reflexivity|]. repeat split; vm_compute; reflexivity. Qed.
(** the stale group list of the printer is reachable: the group a:b is printed twice, harmlessly *)
Example C36_stale : exists d, parse (T "a:
  b:
    c: 1
d:
  e:
    f:
      g: 1
") = Ok d /\ fst (print_groups (snd (print_groups [] [T "a"; T "b"])) [T "d"; T "e"; T "f"]) = group_lines 0 [T "d"; T "e"; T "f"] /\ 
  snd (print_groups (snd (print_groups [] [T "a"; T "b"])) [T "d"; T "e"; T "f"]) <> [T "d"; T "e"; T "f"] /\ parse (print None d) = Ok d.
Proof. eexists. split; [vm_compute; reflexivity|]. split; [vm_compute; reflexivity|]. split; [vm_compute; discriminate | vm_compute; reflexivity]. Qed.

(** ** C38: undefined behaviour of the parser *)
(** a line that carries information, and its indentation *)
Definition significant (l : text) : bool := negb (is_comment_line l || is_empty_line l).
Definition depth (l : text) : nat := indentation (strip_comments l).
(** the first indentation since the last line that was not indented *)
Definition block_indentation (ls : list text) : option nat :=
  fold_left (fun acc l => if significant l then if depth l =? 0 then None else match acc with None => Some (depth l) | _ => acc end else acc) ls None.
Definition shape (s : pstate) (f : option nat) : Prop :=
  (List.length (groups s) = List.length (levels s) \/ List.length (groups s) = S (List.length (levels s))) /\
  match f with None => levels s = [] | Some x => levels s <> [] /\ last (levels s) 0 = x /\ 0 < x /\ Forall (fun l => x <= l) (levels s) end.
Lemma pop_spec : forall ind ls gs f, ls <> [] -> last ls 0 = f -> Forall (fun l => f <= l) ls -> List.length ls <= List.length gs ->
  (ind < f -> pop ind ls gs = UB) /\
  (f <= ind -> exists ls' gs', pop ind ls gs = Ok (ls', gs') /\ ls' <> [] /\ last ls' 0 = f /\ Forall (fun l => f <= l) ls' /\ List.length gs' - List.length ls' = List.length gs - List.length ls /\ List.length ls' <= List.length gs').
Proof.
  induction ls as [|l ls IH]; intros gs f N L F G; [congruence|]. inversion_clear F as [|? ? F1 F2]. cbn [pop]. destruct gs as [|g gs]; [cbn in G; lia|]. cbn [List.length] in G. destruct (Nat.ltb_spec ind l) as [Q|Q].
  - destruct ls as [|l2 ls]; [cbn in L; subst f; split; [reflexivity|lia]|].
    destruct (IH gs f ltac:(discriminate) L F2 ltac:(cbn [List.length] in *; lia)) as (A & B). split; [auto|]. intros H. destruct (B H) as (ls' & gs' & E & R). exists ls', gs'. split; auto.
  - split; [lia|]. intros H. exists (l :: ls), (g :: gs). split; [auto|]. split; [discriminate|]. split; [auto|]. split; [constructor; auto|]. cbn [List.length]. lia.
Qed.
Lemma parse_line_shape : forall s f l, shape s f ->
  (parse_line s l = UB <-> significant l = true /\ In ":"%char (strip_comments l) /\ exists x, f = Some x /\ 0 < depth l < x) /\
  (forall s', parse_line s l = Ok s' -> shape s' (if significant l then if depth l =? 0 then None else match f with None => Some (depth l) | _ => f end else f)).
Proof.
  intros s f l (SG & SF). unfold parse_line, significant. destruct (is_comment_line l || is_empty_line l); cbn [negb].
  { split; [split; [discriminate|intros (X & _); discriminate]|]. intros s' E. inversion E; subst. split; auto. }
  assert (CC: forall m, cut_colon m = None <-> ~ In ":"%char m).
  { induction m as [|c m IH]; cbn [cut_colon]; [split; auto|]. destruct (Ascii.eqb_spec c ":"); [subst; split; [discriminate|intros X; destruct X; cbn; auto]|].
    destruct IH as (IH1 & IH2). destruct (cut_colon m) as [(a, b)|]; split.
    - discriminate.
    - intros X. assert (Z: Some (a, b) = @None (text * text)) by (apply IH2; intros W; apply X; cbn; auto). discriminate.
    - intros _ [X|X]; [congruence|]. apply IH1; auto.
    - auto. }
  unfold read_pair. destruct (cut_colon (strip_comments l)) as [(a, b)|] eqn:EC; cbn [bind].
  2:{ apply CC in EC. split; [split; [discriminate|intros (_ & X & _); tauto]|discriminate]. }
  assert (HC: In ":"%char (strip_comments l)). { destruct (in_dec ascii_dec ":"%char (strip_comments l)); auto. apply CC in n. congruence. }
  fold (depth l). destruct (Nat.ltb_spec 0 (depth l)) as [D|D].
  - destruct (Nat.eqb_spec (depth l) 0); [lia|].
    assert (M: let m := match levels s with [] => Ok ([depth l], groups s) | b0 :: _ => if b0 <? depth l then Ok (depth l :: levels s, groups s) else pop (depth l) (levels s) (groups s) end in
       (m = UB <-> exists x, f = Some x /\ 0 < depth l < x) /\ m <> Fails /\
       forall ls gs, m = Ok (ls, gs) -> match (match f with None => Some (depth l) | _ => f end) with None => False | Some x => ls <> [] /\ last ls 0 = x /\ 0 < x /\ Forall (fun l => x <= l) ls end).
    { cbv zeta. destruct f as [x|].
      - destruct SF as (N & L & P & F). destruct (pop_spec (depth l) (levels s) (groups s) x) as (A & B); auto; [lia|]. destruct (levels s) as [|b0 ls0] eqn:EL; [congruence|]. rewrite <- EL in *.
        assert (X0: x <= b0) by (rewrite EL in F; inversion F; auto). destruct (Nat.ltb_spec b0 (depth l)).
        + split; [split; [discriminate|intros (y & Ey & Hy); inversion Ey; lia]|]. split; [discriminate|]. intros ls gs E. inversion E; subst. split; [discriminate|]. split; [rewrite EL; reflexivity|]. split; auto. constructor; [lia|auto].
        + destruct (Nat.lt_ge_cases (depth l) x) as [U|U].
          * rewrite (A U). split; [split; eauto|]. split; discriminate.
          * destruct (B U) as (ls' & gs' & E & R1 & R2 & R3 & R4). rewrite E. split; [split; [discriminate|intros (y & Ey & Hy); inversion Ey; lia]|]. split; [discriminate|]. intros ls gs E'. inversion E'; subst. auto.
      - rewrite SF. split; [split; [discriminate|intros (y & Ey & _); discriminate]|]. split; [discriminate|]. intros ls gs E. inversion E; subst. split; [discriminate|]. split; auto. }
    cbv zeta in M. destruct M as (M1 & M2 & M3). destruct (match levels s with [] => _ | _ => _ end) as [(ls, gs)| |]; cbn [bind].
    + specialize (M3 ls gs eq_refl). destruct (Nat.eqb_spec (List.length ls) (List.length gs)) as [EQ|EQ]; cbn [negb].
      * split; [split; [destruct (strip b); discriminate|intros (_ & _ & X); apply M1 in X; discriminate]|].
        intros s' E. destruct (strip b); inversion E; subst s'; unfold shape; cbn [levels groups List.length]; (split; [auto|]); destruct f as [x|]; tauto.
      * split; [split; [discriminate|intros (_ & _ & X); apply M1 in X; discriminate]|discriminate].
    + congruence.
    + split; [|discriminate]. split; auto. intros _. split; auto. split; auto. apply M1. auto.
  - assert (D0: depth l = 0) by lia. rewrite D0. cbn [Nat.eqb]. split.
    + split; [|intros (_ & _ & x & _ & X); lia]. destruct (Nat.eqb_spec (List.length (groups s)) (List.length (levels s))) as [EQ|EQ]; cbn [negb]; [|discriminate].
      unfold clear. destruct (Nat.ltb_spec (List.length (groups s)) (List.length (levels s))); [lia|]. cbn [bind]. destruct (strip b); discriminate.
    + intros s' E. destruct (Nat.eqb_spec (List.length (groups s)) (List.length (levels s))) as [EQ|EQ]; cbn [negb] in E; [|discriminate].
      unfold clear in E. destruct (Nat.ltb_spec (List.length (groups s)) (List.length (levels s))); [lia|]. cbn [bind] in E. rewrite skipn_all2 in E by lia.
      destruct (strip b); inversion E; subst s'; unfold shape; cbn; auto.
Qed.
Lemma parse_shape : forall ls s f s', shape s f -> parse_lines s ls = Ok s' ->
  shape s' (fold_left (fun acc l => if significant l then if depth l =? 0 then None else match acc with None => Some (depth l) | _ => acc end else acc) ls f).
Proof.
  induction ls as [|l ls IH]; intros s f s' S H; cbn [parse_lines fold_left] in *; [inversion H; subst; auto|]. destruct (parse_line s l) as [s1| |] eqn:E; cbn [bind] in H; try discriminate.
  eapply IH; [|eauto]. apply (proj2 (parse_line_shape s f l S)). auto.
Qed.
(** parsing is undefined exactly when some line is indented, but less than the first indented line
    of its block, and everything before it was accepted *)
Theorem C38_undefined_exactly : forall t, parse t = UB <->
  exists before line after first, lines t = before ++ line :: after /\ (exists s, parse_lines pstate0 before = Ok s) /\
    significant line = true /\ In ":"%char (strip_comments line) /\ block_indentation before = Some first /\ 0 < depth line < first.
Proof.
  intros t. unfold parse. assert (S0: shape pstate0 None) by (split; cbn; auto).
  assert (U: forall ls s, parse_lines s ls = UB <-> exists before line after s', ls = before ++ line :: after /\ parse_lines s before = Ok s' /\ parse_line s' line = UB).
  { induction ls as [|l ls IH]; intros s; cbn [parse_lines].
    - split; [discriminate|]. intros (b & l & a & s' & E & _). destruct b; discriminate.
    - split.
      + destruct (parse_line s l) as [s1| |] eqn:E; cbn [bind]; [|discriminate|].
        * intros H. apply IH in H. destruct H as (b & x & a & s' & -> & P & Q). exists (l :: b), x, a, s'. split; auto. split; auto. cbn [parse_lines]. rewrite E. auto.
        * intros _. exists [], l, ls, s. auto.
      + intros (b & x & a & s' & E & P & Q). destruct b as [|b0 b].
        * inversion E; subst. cbn in P. inversion P; subst. rewrite Q. reflexivity.
        * inversion E; subst. cbn [parse_lines] in P. destruct (parse_line s b0) as [s1| |]; cbn [bind] in *; try discriminate. apply IH. exists b, x, a, s'. auto. }
  split.
  - intros H. assert (H': parse_lines pstate0 (lines t) = UB) by (destruct (parse_lines pstate0 (lines t)); cbn [bind] in H; congruence). apply U in H'. destruct H' as (b & l & a & s & E & P & Q).
    pose proof (parse_shape b pstate0 None s S0 P) as SH. apply (parse_line_shape s _ l SH) in Q. destruct Q as (Q1 & Q2 & x & Q3 & Q4). exists b, l, a, x. repeat split; eauto; lia.
  - intros (b & l & a & x & E & (s & P) & Q1 & Q2 & Q3 & Q4). assert (X: parse_lines pstate0 (lines t) = UB); [|rewrite X; reflexivity]. apply U. exists b, l, a, s. split; auto. split; auto.
    pose proof (parse_shape b pstate0 None s S0 P) as SH. apply (parse_line_shape s _ l SH). split; auto. split; auto. exists x. auto.
Qed.
Print Assumptions C38_undefined_exactly.
(** so a file in which no line is indented less than the first indented line of its block is parsed or rejected *)
Theorem C38_defined : forall t, (forall before line after first, lines t = before ++ line :: after -> significant line = true -> block_indentation before = Some first -> depth line = 0 \/ first <= depth line) ->
  (exists d, parse t = Ok d) \/ parse t = Fails.
Proof.
  intros t H. destruct (parse t) as [d| |] eqn:E; eauto. apply C38_undefined_exactly in E. destruct E as (b & l & a & x & E & _ & Q1 & _ & Q3 & Q4). destruct (H b l a x E Q1 Q3); lia.
Qed.
Print Assumptions C38_defined.
Definition ex_ub : text := T "a:
    b: 1
  c: 2
".
Theorem C38_no_undefined_behaviour_refuted : ~ (forall t, (exists d, parse t = Ok d) \/ parse t = Fails).
Proof. intros H. destruct (H ex_ub) as [(d & E)|E]; vm_compute in E; discriminate. Qed.
Print Assumptions C38_no_undefined_behaviour_refuted.
Example C38_example : parse ex_ub = UB /\ parse (T "a: 1
  b: 2") = Fails /\ exists d, parse ex_text = Ok d.
Proof. split; [vm_compute; reflexivity|]. split; [vm_compute; reflexivity|]. eexists. vm_compute. reflexivity. Qed.

(** ** C37: histories of lookups *)
(** what the caller does, for parameters of type A and for texts *)
Section Lookups.
Context {A : Type}.
Variables (convert : text -> res A) (show : A -> text).
Inductive query := Add (k v : text) | Has (k : text) | GetText (k : text) | GetTextOr (k dv : text) | Get (k : text) | GetOr (k : text) (dv : A).
Inductive answer := Done | Bool (b : bool) | Text (t : text) | Val (a : A).
(** the code *)
Definition ask (q : query) (y : yaml) : res (answer * yaml) :=
  match q with
  | Add k v => Ok (Done, add_value k v y)
  | Has k => Ok (Bool (has_value k y), y)
  | GetText k => bind (get_string k y) (fun '(t, y') => Ok (Text t, y'))
  | GetTextOr k dv => let '(t, y') := get_string_default k dv y in Ok (Text t, y')
  | Get k => bind (get convert show k y) (fun '(a, y') => Ok (Val a, y'))
  | GetOr k dv => bind (get_default convert show k dv y) (fun '(a, y') => Ok (Val a, y'))
  end.
Fixpoint answers (h : list query) (y : yaml) : res (list answer * yaml) :=
  match h with [] => Ok ([], y) | q :: h' => bind (ask q y) (fun '(a, y') => bind (answers h' y') (fun '(l, y'') => Ok (a :: l, y''))) end.
(** the specification: the parameters that were given (in the file or by add_value), and for every key the
    value its last query returned.  A lookup returns the given value, or the default; [asked] are the keys
    that were not given but queried with a default. *)
Record spec := mkS { given : text -> option text; asked : text -> bool; last_value : text -> option text }.
Definition set {B} (f : text -> B) (k : text) (b : B) : text -> B := fun q => if text_eqb q k then b else f q.
Definition spec_ask (q : query) (s : spec) : res (answer * spec) :=
  match q with
  | Add k v => Ok (Done, mkS (set (given s) k (Some v)) (set (asked s) k false) (set (last_value s) k (Some v)))
  | Has k => Ok (Bool (match given s k with Some _ => true | None => asked s k end), s)
  | GetText k => match given s k with
      | Some v => Ok (Text v, mkS (given s) (asked s) (set (last_value s) k (Some v)))
      | None => if asked s k then Ok (Text (T "default value"), mkS (given s) (asked s) (set (last_value s) k (Some (T "default value")))) else Fails end
  | GetTextOr k dv => match given s k with
      | Some v => Ok (Text v, mkS (given s) (asked s) (set (last_value s) k (Some v)))
      | None => Ok (Text dv, mkS (given s) (set (asked s) k true) (set (last_value s) k (Some dv))) end
  | Get k => match given s k with
      | Some v => bind (convert v) (fun a => Ok (Val a, mkS (given s) (asked s) (set (last_value s) k (Some (show a)))))
      | None => if asked s k then bind (convert (T "default value")) (fun a => Ok (Val a, mkS (given s) (asked s) (set (last_value s) k (Some (show a))))) else Fails end
  | GetOr k dv => match given s k with
      | Some v => bind (convert v) (fun a => Ok (Val a, mkS (given s) (asked s) (set (last_value s) k (Some (show a)))))
      | None => Ok (Val dv, mkS (given s) (set (asked s) k true) (set (last_value s) k (Some (show dv)))) end
  end.
Fixpoint spec_answers (h : list query) (s : spec) : res (list answer * spec) :=
  match h with [] => Ok ([], s) | q :: h' => bind (spec_ask q s) (fun '(a, s') => bind (spec_answers h' s') (fun '(l, s'') => Ok (a :: l, s''))) end.
(** values that cannot be mistaken for the marker or for an absent value *)
Definition proper (v : text) : Prop := v <> [] /\ v <> T "default value".
Definition proper_query (q : query) : Prop := match q with Add _ v => proper v | _ => True end.
Definition matches (y : yaml) (s : spec) : Prop := forall k,
  find k (used_values y) = last_value s k /\
  match given s k with
  | Some v => find k (dictionary y) = Some v /\ proper v /\ asked s k = false
  | None => find k (dictionary y) = if asked s k then Some (T "default value") else None end.
Lemma find_put_same : forall k v d, find k (put k v d) = Some v.
Proof. intros. rewrite find_put. destruct (text_eqb_spec k k); congruence. Qed.
Lemma ask_matches : forall q y s, matches y s -> proper_query q ->
  match ask q y, spec_ask q s with
  | Ok (a, y'), Ok (b, s') => a = b /\ matches y' s'
  | Fails, Fails => True | UB, UB => True | _, _ => False end.
Proof.
  intros q y s M PQ. destruct q as [k v|k|k|k dv|k|k dv]; cbn [ask spec_ask proper_query] in *.
  - split; auto. intros j. unfold add_value. cbn [used_values dictionary given asked last_value]. unfold set. rewrite !find_put. destruct (text_eqb_spec j k); [subst; auto|apply M].
  - destruct (M k) as (_ & MK). unfold has_value. destruct (given s k).
    + destruct MK as (-> & _). auto.
    + rewrite MK. destruct (asked s k); auto.
  - destruct (M k) as (_ & MK). unfold get_string. destruct (given s k) as [v|] eqn:G.
    + destruct MK as (E & P & N). rewrite E. cbn [bind]. split; auto. intros j. cbn [used_values dictionary given asked last_value]. unfold set. rewrite find_put. destruct (M j). destruct (text_eqb_spec j k); [subst|]; auto.
    + rewrite MK. destruct (asked s k); cbn [bind]; auto. split; auto. intros j. cbn [used_values dictionary given asked last_value]. unfold set. rewrite find_put. destruct (M j). destruct (text_eqb_spec j k); [subst|]; auto.
  - destruct (M k) as (_ & MK). unfold get_string_default. destruct (given s k) as [v|] eqn:G.
    + destruct MK as (E & (P1 & P2) & N). rewrite E. destruct (text_eqb_spec v sentinel); [contradiction|]. split; auto. intros j. cbn [used_values dictionary given asked last_value]. unfold set. rewrite find_put. destruct (M j). destruct (text_eqb_spec j k); [subst|]; auto.
    + rewrite MK. replace (match (if asked s k then Some (T "default value") else None) with Some v => if text_eqb v sentinel then (dv, mkY (put k sentinel (dictionary y)) (put k dv (used_values y))) else (v, mkY (dictionary y) (put k v (used_values y))) | None => (dv, mkY (put k sentinel (dictionary y)) (put k dv (used_values y))) end)
        with (dv, mkY (put k sentinel (dictionary y)) (put k dv (used_values y))) by (destruct (asked s k); reflexivity).
      split; auto. intros j. cbn [used_values dictionary given asked last_value]. unfold set. rewrite !find_put. destruct (M j). destruct (text_eqb_spec j k); [subst; rewrite G|]; auto.
  - destruct (M k) as (_ & MK). unfold get, get_string. destruct (given s k) as [v|] eqn:G.
    + destruct MK as (E & P & N). rewrite E. cbn [bind]. destruct (convert v); cbn [bind]; auto. split; auto. intros j. cbn [used_values dictionary given asked last_value]. unfold set. rewrite !find_put. destruct (M j). destruct (text_eqb_spec j k); [subst|]; auto.
    + rewrite MK. destruct (asked s k); cbn [bind]; auto. destruct (convert (T "default value")); cbn [bind]; auto. split; auto. intros j. cbn [used_values dictionary given asked last_value]. unfold set. rewrite !find_put. destruct (M j). destruct (text_eqb_spec j k); [subst|]; auto.
  - destruct (M k) as (_ & MK). unfold get_default, get_string_default. destruct (given s k) as [v|] eqn:G.
    + destruct MK as (E & (P1 & P2) & N). rewrite E. destruct (text_eqb_spec v sentinel); [contradiction|]. destruct v as [|v0 v]; [congruence|]. destruct (convert (v0 :: v)); cbn [bind]; auto. split; auto.
      intros j. cbn [used_values dictionary given asked last_value]. unfold set. rewrite !find_put. destruct (M j). destruct (text_eqb_spec j k); [subst|]; auto.
    + rewrite MK. replace (match (if asked s k then Some (T "default value") else None) with Some v => if text_eqb v sentinel then ([], mkY (put k sentinel (dictionary y)) (put k [] (used_values y))) else (v, mkY (dictionary y) (put k v (used_values y))) | None => ([], mkY (put k sentinel (dictionary y)) (put k [] (used_values y))) end)
        with (@nil ascii, mkY (put k sentinel (dictionary y)) (put k [] (used_values y))) by (destruct (asked s k); reflexivity).
      cbn [bind]. split; auto. intros j. cbn [used_values dictionary given asked last_value]. unfold set. rewrite !find_put. destruct (M j). destruct (text_eqb_spec j k); [subst; rewrite G|]; auto.
Qed.
(** every history: the same answers and the same records as the specification *)
Theorem lookups_match : forall h y s, matches y s -> Forall proper_query h ->
  match answers h y, spec_answers h s with
  | Ok (a, y'), Ok (b, s') => a = b /\ matches y' s'
  | Fails, Fails => True | UB, UB => True | _, _ => False end.
Proof.
  induction h as [|q h IH]; intros y s M P; cbn [answers spec_answers]; auto. inversion_clear P as [|? ? P1 P2]. pose proof (ask_matches q y s M P1) as Q.
  destruct (ask q y) as [(a, y1)| |], (spec_ask q s) as [(b, s1)| |]; cbn [bind]; auto; try contradiction. destruct Q as (-> & M1). specialize (IH y1 s1 M1 P2).
  destruct (answers h y1) as [(l, y2)| |], (spec_answers h s1) as [(l', s2)| |]; cbn [bind]; auto. destruct IH as (-> & M2). auto.
Qed.
End Lookups.
Arguments query A : clear implicits. Arguments answer A : clear implicits.

(** the state after reading a parameter file *)
Definition start (d : dict) : yaml := mkY d [].
Definition spec_start (d : dict) : spec := mkS (fun k => find k d) (fun _ => false) (fun _ => None).
Theorem C37_lookups : forall (A : Type) (convert : text -> res A) (show : A -> text) t d h, parse t = Ok d ->
  (forall k v, In (k, v) d -> v <> T "default value") -> Forall proper_query h ->
  match answers convert show h (start d), spec_answers convert show h (spec_start d) with
  | Ok (l, y), Ok (l', s) => l = l' /\ (forall k, find k (used_values y) = last_value s k) /\
      (forall k, find k (dictionary y) = match given s k with Some v => Some v | None => if asked s k then Some (T "default value") else None end)
  | Fails, Fails => True | UB, UB => True | _, _ => False end.
Proof.
  intros A convert show t d h P N Q. destruct (C36_parsed_files t d P) as (_ & G & _).
  assert (M: matches (start d) (spec_start d)).
  { intros k. cbn. split; auto. destruct (find k d) as [v|] eqn:E; auto. split; auto. split; auto.
    assert (I: In (k, v) d). { clear - E. induction d as [|(q, w) d IH]; cbn in E; [discriminate|]. destruct (text_eqb_spec k q); [inversion E; subst; cbn; auto|cbn; auto]. }
    split; [apply (G k v I) | apply (N k v I)]. }
  pose proof (lookups_match convert show h _ _ M Q) as L. destruct (answers convert show h (start d)) as [(l, y)| |], (spec_answers convert show h (spec_start d)) as [(l', s)| |]; auto.
  destruct L as (-> & M'). split; auto. split; intros k; destruct (M' k) as (X & Y); auto. destruct (given s k); [apply Y | auto].
Qed.
Print Assumptions C37_lookups.
(** the file that is written afterwards holds every given or queried parameter with the value that was returned *)
Theorem C37_used_file : forall (A : Type) (convert : text -> res A) (show : A -> text) t d h l y s, parse t = Ok d ->
  (forall k v, In (k, v) d -> v <> T "default value") -> Forall proper_query h ->
  answers convert show h (start d) = Ok (l, y) -> spec_answers convert show h (spec_start d) = Ok (l, s) ->
  (forall k v, find k (dictionary y) = Some v -> good_key k /\ ~ In newline v) -> (forall k w, last_value s k = Some w -> good_value w) ->
  exists f, parse (print (Some (used_values y)) (dictionary y)) = Ok f /\
    forall k, find k f = match given s k, asked s k with None, false => None | _, _ => Some (match last_value s k with Some w => w | None => T "value not used" end) end.
Proof.
  intros A convert show t d h l y s P N Q E1 E2 GK GV. pose proof (C37_lookups A convert show t d h P N Q) as L. rewrite E1, E2 in L. destruct L as (_ & LU & LD).
  assert (SO: sorted_keys (dictionary y)).
  { destruct (C36_parsed_files t d P) as (SD & _). clear - E1 SD.
    assert (X: forall h y l y', answers convert show h y = Ok (l, y') -> sorted_keys (dictionary y) -> sorted_keys (dictionary y')).
    { induction h0 as [|q h0 IH]; intros y0 l0 y' E S; cbn [answers] in E; [inversion E; subst; auto|]. destruct (ask convert show q y0) as [(a, y1)| |] eqn:EA; cbn [bind] in E; try discriminate.
      destruct (answers convert show h0 y1) as [(l1, y2)| |] eqn:EH; cbn [bind] in E; try discriminate. inversion E; subst. eapply IH; eauto. clear - EA S.
      destruct q as [k v|k|k|k dv|k|k dv]; cbn [ask] in EA.
      - inversion EA; subst. apply put_sorted; auto.
      - inversion EA; subst. auto.
      - unfold get_string in EA. destruct (find k (dictionary y0)); cbn [bind] in EA; inversion EA; subst; auto.
      - unfold get_string_default in EA. destruct (find k (dictionary y0)) as [v|]; [destruct (text_eqb v sentinel)|]; inversion EA; subst; auto; apply put_sorted; auto.
      - unfold get, get_string in EA. destruct (find k (dictionary y0)); cbn [bind] in EA; [|inversion EA]. destruct (convert l); cbn [bind] in EA; inversion EA; subst; auto.
      - unfold get_default, get_string_default in EA. destruct (find k (dictionary y0)) as [v|]; [destruct (text_eqb v sentinel)|]; cbn [bind] in EA; try (inversion EA; subst; apply put_sorted; auto; fail).
        destruct (match v with [] => _ | _ => _ end); cbn [bind] in EA; inversion EA; subst; auto. }
    eapply X; eauto. }
  assert (FI: forall k v dd, sorted_keys dd -> (In (k, v) dd <-> find k dd = Some v)).
  { clear. induction dd as [|(q, w) dd IH]; intros S; [split; [intros []|discriminate]|]. inversion_clear S as [|? ? S1 FA]. rewrite Forall_forall in FA. cbn [find In]. destruct (text_eqb_spec k q).
    - subst q. split; [intros [X|X]; [inversion X; auto|] | intros X; inversion X; auto]. specialize (FA _ X). cbn in FA. unfold text_lt in FA. rewrite compare_refl in FA. discriminate.
    - rewrite <- IH by auto. split; [intros [X|X]; [inversion X; congruence|auto] | auto]. }
  eexists. split; [apply C36_used_values; auto|].
  - intros k v I. apply GK. apply FI; auto.
  - intros k w F. apply (GV k). rewrite <- LU. auto.
  - intros k. specialize (LU k). specialize (LD k). 
    assert (FM: forall dd, find k (map (fun '(q, _) => (q, match find q (used_values y) with Some w => w | None => T "value not used" end)) dd) = match find k dd with None => None | Some _ => Some (match find k (used_values y) with Some w => w | None => T "value not used" end) end).
    { induction dd as [|(q, w) dd IH]; cbn [map find]; auto. destruct (text_eqb_spec k q); [subst; auto|auto]. }
    rewrite FM, LD, LU. destruct (given s k); auto. destruct (asked s k); auto.
Qed.
Print Assumptions C37_used_file.
(** deviations: the marker text, and parameters that were first queried with a default *)
Theorem C37_marker_refuted : let y := add_value (T "k") (T "default value") (start []) in
  has_value (T "k") y = true /\ fst (get_string_default (T "k") (T "other") y) = T "other".
Proof. split; vm_compute; reflexivity. Qed.
Print Assumptions C37_marker_refuted.
Theorem C37_required_after_default_refuted : forall k dv y, find k (dictionary y) = None ->
  get_string k y = Fails /\ exists y', snd (get_string_default k dv y) = y' /\ has_value k y' = true /\ exists y'', get_string k y' = Ok (T "default value", y'').
Proof.
  intros k dv y E. unfold get_string, get_string_default. rewrite E. split; auto. eexists. split; [reflexivity|]. unfold has_value. cbn [snd dictionary]. rewrite find_put.
  destruct (text_eqb_spec k k); [|congruence]. split; auto. eexists. reflexivity.
Qed.
Print Assumptions C37_required_after_default_refuted.
Example C37_example : exists d l y, parse ex_text = Ok d /\
  answers to_bool of_bool [GetTextOr (T "a:e") (T "q"); GetOr (T "new") true; GetOr (T "new") false; Add (T "f") (T "no"); Get (T "f"); GetText (T "a:b:c")] (start d) = Ok (l, y) /\
  l = [Text (T "long value"); Val true; Val false; Done; Val false; Text (T "1")] /\ find (T "f") (used_values y) = Some (T "false").
Proof. do 3 eexists. split; [vm_compute; reflexivity|]. split; [vm_compute; reflexivity|]. split; vm_compute; reflexivity. Qed.
