(** Lemmas about the model of src/YAMLDictionary.hpp (Yaml.v): the printed lines are parsed back. *)
From Coq Require Import List Ascii String ZArith Lia Bool Arith Sorted.
From Verif Require Import Parse Yaml.
Import ListNotations.
Local Open Scope nat_scope.

(** ** specification: when is a dictionary well formed *)
Definition text_lt (a b : text) : Prop := compare_text a b = Lt.
(** no '#' and no newline *)
Definition plain (s : text) : Prop := forall c, In c s -> c <> "#"%char /\ c <> newline.
(** no blank or tab at the beginning or the end *)
Definition trimmed (s : text) : Prop := forall a c b, s = a ++ c :: b -> blank c = true -> a <> [] /\ b <> [].
(** a key: no blank or tab at the beginning, at the end or next to a colon *)
Definition good_key (k : text) : Prop := plain k /\
  forall a c b, k = a ++ c :: b -> blank c = true -> (exists a' x, a = a' ++ [x] /\ x <> ":"%char) /\ (exists x b', b = x :: b' /\ x <> ":"%char).
Definition good_value (v : text) : Prop := v <> [] /\ plain v /\ trimmed v.
Definition sorted_keys (d : dict) : Prop := StronglySorted (fun a b => text_lt (fst a) (fst b)) d.

(** ** text order *)
Lemma lt_trans : forall a b c, text_lt a b -> text_lt b c -> text_lt a c.
Proof.
  unfold text_lt. induction a as [|x a IH]; destruct b as [|y b], c as [|z c]; cbn; intros H1 H2; try discriminate; auto.
  destruct (Nat.compare_spec (nat_of_ascii x) (nat_of_ascii y)); try discriminate;
  destruct (Nat.compare_spec (nat_of_ascii y) (nat_of_ascii z)); try discriminate.
  - destruct (Nat.compare_spec (nat_of_ascii x) (nat_of_ascii z)); try lia. eapply IH; eauto.
  - destruct (Nat.compare_spec (nat_of_ascii x) (nat_of_ascii z)); try lia; auto.
  - destruct (Nat.compare_spec (nat_of_ascii x) (nat_of_ascii z)); try lia; auto.
  - destruct (Nat.compare_spec (nat_of_ascii x) (nat_of_ascii z)); try lia; auto.
Qed.
Lemma compare_refl : forall a, compare_text a a = Eq.
Proof. induction a; cbn; auto. rewrite Nat.compare_refl. auto. Qed.
Lemma compare_eq : forall a b, compare_text a b = Eq -> a = b.
Proof.
  induction a; destruct b; cbn; intros H; try discriminate; auto.
  destruct (Nat.compare_spec (nat_of_ascii a) (nat_of_ascii a1)); try discriminate.
  f_equal; auto. apply (f_equal ascii_of_nat) in H0. rewrite !ascii_nat_embedding in H0. auto.
Qed.
Lemma compare_flip : forall a b, compare_text b a = CompOpp (compare_text a b).
Proof.
  induction a; destruct b; cbn; auto. rewrite (Nat.compare_antisym (nat_of_ascii a) (nat_of_ascii a1)).
  destruct (Nat.compare (nat_of_ascii a) (nat_of_ascii a1)); cbn; auto.
Qed.
(** texts with a common beginning are contiguous *)
Lemma convex : forall p a b c, text_lt (p ++ a) b -> text_lt b (p ++ c) -> exists b', b = p ++ b'.
Proof.
  unfold text_lt. induction p as [|x p IH]; intros a b c H1 H2; [exists b; auto|].
  destruct b as [|y b]; cbn in *; [discriminate|].
  destruct (Nat.compare_spec (nat_of_ascii x) (nat_of_ascii y)) as [E|E|E]; try discriminate;
  destruct (Nat.compare_spec (nat_of_ascii y) (nat_of_ascii x)) as [F|F|F]; try discriminate; try lia.
  destruct (IH _ _ _ H1 H2) as (b' & ->). exists b'. f_equal. apply (f_equal ascii_of_nat) in E. rewrite !ascii_nat_embedding in E. auto.
Qed.

Lemma text_eqb_spec : forall a b, reflect (a = b) (text_eqb a b).
Proof. intros a b. unfold text_eqb. destruct (list_eq_dec ascii_dec a b); constructor; auto. Qed.
Lemma find_put : forall k v d k', find k' (put k v d) = if text_eqb k' k then Some v else find k' d.
Proof.
  intros k v d k'. induction d as [|(q, w) d IH]; cbn [put find]; auto.
  destruct (compare_text k q) eqn:C; cbn [find].
  - apply compare_eq in C. subst q. destruct (text_eqb k' k); auto.
  - auto.
  - rewrite IH. destruct (text_eqb_spec k' q), (text_eqb_spec k' k); subst; auto. rewrite compare_refl in C. discriminate.
Qed.
Lemma put_last : forall k v d, (forall e, In e d -> text_lt (fst e) k) -> put k v d = d ++ [(k, v)].
Proof.
  induction d as [|(q, w) d IH]; intros H; cbn [put app]; auto.
  assert (L: text_lt q k) by (apply (H (q, w)); cbn; auto). unfold text_lt in L. rewrite compare_flip, L. cbn [CompOpp]. rewrite IH; auto. intros e He. apply H. cbn; auto.
Qed.

(** ** the lines of the printed text *)
Lemma lines_app : forall l s, ~ In newline l -> lines (l ++ newline :: s) = l :: lines s.
Proof.
  induction l as [|c l IH]; intros s H; cbn [app lines].
  - rewrite Ascii.eqb_refl. reflexivity.
  - destruct (Ascii.eqb_spec c newline); [subst; destruct H; cbn; auto|]. rewrite IH; auto. intros X. apply H. cbn; auto.
Qed.
Lemma lines_print : forall ls, (forall l, In l ls -> ~ In newline l) -> lines (List.concat (map (fun l => l ++ [newline]) ls)) = ls.
Proof.
  induction ls as [|l ls IH]; intros H; cbn [map List.concat]; auto.
  rewrite <- app_assoc. cbn [app]. rewrite lines_app by (apply H; cbn; auto). rewrite IH; auto. intros x Hx. apply H. cbn; auto.
Qed.

(** ** stripping *)
Lemma skip_nonblank : forall s, (match s with [] => True | c :: _ => blank c = false end) -> skip_blanks s = s.
Proof. destruct s; cbn; auto. intros ->. auto. Qed.
Lemma skip_blanks_app : forall b s, Forall (fun c => blank c = true) b -> skip_blanks (b ++ s) = skip_blanks s.
Proof. induction b; intros s H; cbn; auto. inversion_clear H. rewrite H0. auto. Qed.
Lemma blanks_repeat : forall n, Forall (fun c => blank c = true) (repeat " "%char n).
Proof. induction n; cbn; constructor; auto. Qed.
Lemma strip_spec : forall b1 s b2, Forall (fun c => blank c = true) b1 -> Forall (fun c => blank c = true) b2 -> trimmed s -> strip (b1 ++ s ++ b2) = s.
Proof.
  intros b1 s b2 H1 H2 Ht. unfold strip. rewrite skip_blanks_app by auto. destruct s as [|c s].
  - cbn [app]. rewrite <- (app_nil_r b2), skip_blanks_app by auto. reflexivity.
  - rewrite (skip_nonblank ((c :: s) ++ b2)).
    2:{ cbn [app]. destruct (blank c) eqn:E; auto. destruct (Ht [] c s eq_refl E) as (X & _). congruence. }
    rewrite rev_app_distr, skip_blanks_app.
    2:{ apply Forall_forall. intros x Hx. rewrite Forall_forall in H2. apply H2. apply in_rev in Hx. auto. }
    rewrite skip_nonblank; [apply rev_involutive|].
    destruct (rev (c :: s)) as [|x l] eqn:E; auto. destruct (blank x) eqn:B; auto. apply (f_equal (@rev ascii)) in E. rewrite rev_involutive in E. cbn [rev] in E.
    destruct (Ht (rev l) x [] E B) as (_ & X). congruence.
Qed.
Lemma strip_comments_plain : forall s r, plain s -> strip_comments (s ++ r) = s ++ strip_comments r.
Proof.
  induction s as [|c s IH]; intros r H; cbn [app strip_comments]; auto. destruct (Ascii.eqb_spec c "#"); [subst; destruct (H "#"%char); [cbn; auto|congruence]|].
  rewrite IH; auto. intros x Hx. apply H. cbn; auto.
Qed.
Lemma plain_app : forall a b, plain a -> plain b -> plain (a ++ b).
Proof. intros a b Ha Hb c Hc. apply in_app_iff in Hc. destruct Hc; auto. Qed.
Lemma plain_repeat : forall n, plain (repeat " "%char n).
Proof. intros n c H. apply repeat_spec in H. subst. split; discriminate. Qed.
Lemma cut_colon_spec : forall a b, ~ In ":"%char a -> cut_colon (a ++ ":"%char :: b) = Some (a, b).
Proof.
  induction a as [|c a IH]; intros b H; cbn [app cut_colon]; auto. destruct (Ascii.eqb_spec c ":"); [subst; destruct H; cbn; auto|].
  rewrite IH; auto. intros X. apply H. cbn; auto.
Qed.

(** ** keys and their components *)
Definition join (gs : list text) : text := List.concat (map (fun g => g ++ [":"%char]) gs).
Lemma split_join : forall k, k = join (fst (split_key k)) ++ snd (split_key k).
Proof.
  induction k as [|c k IH]; auto. cbn [split_key]. destruct (split_key k) as (g, l). cbn [fst snd] in IH.
  destruct (Ascii.eqb_spec c ":").
  - subst c. cbn. f_equal. auto.
  - destruct g as [|g0 g]; cbn in *; f_equal; auto.
Qed.
Lemma split_colon : forall k, Forall (fun g => ~ In ":"%char g) (fst (split_key k)) /\ ~ In ":"%char (snd (split_key k)).
Proof.
  induction k as [|c k IH]; [split; cbn; auto|]. cbn [split_key]. destruct (split_key k) as (g, l). cbn [fst snd] in IH. destruct IH as (A & B).
  destruct (Ascii.eqb_spec c ":"); [split; auto; constructor; auto|]. destruct g as [|g0 g]; cbn [fst snd]; split; auto.
  - intros [X|X]; auto.
  - inversion_clear A. constructor; auto. intros [X|X]; auto.
Qed.
Lemma split_full : forall gs k, Forall (fun g => ~ In ":"%char g) gs -> ~ In ":"%char k -> split_key (join gs ++ k) = (gs, k).
Proof.
  assert (B: forall k, ~ In ":"%char k -> split_key k = ([], k)).
  { induction k as [|c k IH]; intros H; cbn [split_key]; auto. rewrite IH by (intros X; apply H; cbn; auto). destruct (Ascii.eqb_spec c ":"); [subst; destruct H; cbn; auto|]. reflexivity. }
  induction gs as [|g gs IH]; intros k H K; [apply B; auto|]. inversion_clear H. unfold join in *. cbn [map List.concat]. rewrite <- !app_assoc. cbn [app].
  specialize (IH k H1 K). induction g as [|c g IHg]; cbn [app split_key].
  - rewrite IH. rewrite Ascii.eqb_refl. reflexivity.
  - rewrite IHg by (intros X; apply H0; cbn; auto). destruct (Ascii.eqb_spec c ":"); [subst; destruct H0; cbn; auto|]. reflexivity.
Qed.
(** the groups of a key start with p iff its text starts with their joined text *)
Lemma split_prefix : forall p r, Forall (fun g => ~ In ":"%char g) p -> fst (split_key (join p ++ r)) = p ++ fst (split_key r).
Proof.
  intros p r H. rewrite (split_join r) at 1. rewrite app_assoc. destruct (split_colon r) as (A & B).
  replace (join p ++ join (fst (split_key r))) with (join (p ++ fst (split_key r))).
  - rewrite split_full; auto. apply Forall_app; auto.
  - unfold join. rewrite map_app, concat_app. reflexivity.
Qed.
Lemma prefix_text : forall i k p, firstn i (fst (split_key k)) = p -> exists r, k = join p ++ r.
Proof.
  intros i k p <-. exists (join (skipn i (fst (split_key k))) ++ snd (split_key k)). rewrite app_assoc. unfold join. rewrite <- concat_app, <- map_app, firstn_skipn. apply split_join.
Qed.
Lemma between : forall i a b c, text_lt a b -> text_lt b c -> i <= List.length (fst (split_key a)) -> firstn i (fst (split_key a)) = firstn i (fst (split_key c)) -> firstn i (fst (split_key b)) = firstn i (fst (split_key a)).
Proof.
  intros i a b c H1 H2 Hi E. destruct (prefix_text i a _ eq_refl) as (ra & EA). destruct (prefix_text i c _ eq_refl) as (rc & EC).
  rewrite EA in H1. rewrite EC, <- E in H2. destruct (convex _ _ _ _ H1 H2) as (b' & ->).
  assert (P: Forall (fun g => ~ In ":"%char g) (firstn i (fst (split_key a)))). { destruct (split_colon a) as (A & _). rewrite <- (firstn_skipn i (fst (split_key a))) in A. apply Forall_app in A. tauto. }
  rewrite split_prefix by auto. rewrite firstn_app. rewrite firstn_firstn, Nat.min_id, firstn_length. replace (i - Nat.min i (List.length (fst (split_key a)))) with 0 by lia. cbn. apply app_nil_r.
Qed.

(** components of a good key *)
Lemma good_components : forall k, good_key k -> (forall g, In g (fst (split_key k)) -> trimmed g /\ plain g) /\ trimmed (snd (split_key k)) /\ plain (snd (split_key k)).
Proof.
  intros k (P & G).
  assert (X: forall pre g post, k = pre ++ g ++ post -> (pre = [] \/ exists p', pre = p' ++ [":"%char]) -> (post = [] \/ exists p', post = ":"%char :: p') -> trimmed g /\ plain g).
  { intros pre g post E A B. split.
    - intros a c b -> Hc. destruct (G (pre ++ a) c (b ++ post)) as ((a' & x & E1 & N1) & (y & b' & E2 & N2)); auto.
      { rewrite E. rewrite <- !app_assoc. reflexivity. }
      split; intros ->.
      + rewrite app_nil_r in E1. destruct A as [ -> | (p' & -> )]; [destruct a'; discriminate|]. apply app_inj_tail in E1. destruct E1 as (_ & <-). congruence.
      + cbn [app] in E2. destruct B as [ -> | (p' & -> )]; [discriminate|]. inversion E2. congruence.
    - intros c Hc. apply P. rewrite E. rewrite !in_app_iff. auto. }
  pose proof (split_join k) as E. split.
  - intros g Hg. apply in_split in Hg. destruct Hg as (g1 & g2 & Eg). rewrite Eg in E. unfold join in E. rewrite map_app, concat_app in E. cbn [map List.concat] in E.
    eapply (X (join g1) g (":"%char :: (join g2 ++ snd (split_key k)))).
    + rewrite E at 1. unfold join. rewrite <- !app_assoc. reflexivity.
    + destruct (rev g1) as [|x l] eqn:R; [left|right].
      * apply (f_equal (@rev text)) in R. rewrite rev_involutive in R. subst g1. reflexivity.
      * apply (f_equal (@rev text)) in R. rewrite rev_involutive in R. subst g1. cbn [rev]. unfold join. rewrite map_app, concat_app. cbn [map List.concat]. rewrite app_nil_r, app_assoc. eexists; reflexivity.
    + right. eexists; reflexivity.
  - apply (X (join (fst (split_key k))) (snd (split_key k)) []); auto.
    + rewrite app_nil_r. auto.
    + destruct (rev (fst (split_key k))) as [|x l] eqn:R; [left|right]; apply (f_equal (@rev text)) in R; rewrite rev_involutive in R; rewrite R.
      * reflexivity.
      * cbn [rev]. unfold join. rewrite map_app, concat_app. cbn [map List.concat]. rewrite app_nil_r, app_assoc. eexists; reflexivity.
Qed.

(** ** the parser on printed lines *)
Fixpoint lv (n : nat) : list nat := match n with O => [] | S m => 2 * n :: lv m end.
Lemma lv_length : forall n, List.length (lv n) = n.
Proof. induction n; cbn [lv List.length]; auto. Qed.
Lemma pop_lv : forall n d gs, 0 < d <= n -> List.length gs >= n -> pop (2 * d) (lv n) gs = Ok (lv d, skipn (n - d) gs).
Proof.
  induction n; intros d gs Hd Hg; [lia|]. cbn [lv pop]. destruct (Nat.ltb_spec (2 * d) (2 * S n)).
  - destruct gs as [|g gs]; cbn [List.length] in Hg; [lia|]. rewrite IHn by lia. replace (S n - d) with (S (n - d)) by lia. reflexivity.
  - assert (d = S n) by lia. subst. rewrite Nat.sub_diag. reflexivity.
Qed.
Lemma indent_line : forall d s, (match s with [] => False | c :: _ => blank c = false end) -> skip_blanks (indent_text d ++ s) = s /\ indentation (indent_text d ++ s) = 2 * d.
Proof.
  intros d s H. assert (E: skip_blanks (indent_text d ++ s) = s) by (unfold indent_text; rewrite skip_blanks_app by apply blanks_repeat; apply skip_nonblank; destruct s; auto).
  split; auto. unfold indentation. rewrite E. destruct s; [tauto|]. rewrite app_length. unfold indent_text. rewrite repeat_length. lia.
Qed.
(** one printed line: [d] levels of indentation, the name [k], a colon, the rest *)
Lemma printed_line : forall d k rest v, ~ In ":"%char k -> plain k -> trimmed k -> strip (strip_comments rest) = v ->
  let line := indent_text d ++ k ++ ":"%char :: rest in
  (is_comment_line line || is_empty_line line) = false /\ read_pair (strip_comments line) = Ok (k, v) /\ indentation (strip_comments line) = 2 * d.
Proof.
  intros d k rest v C P Tr V line.
  assert (H: forall r, match k ++ ":"%char :: r with [] => False | c :: _ => blank c = false end).
  { intros r. destruct k as [|c k]; cbn; auto. destruct (blank c) eqn:B; auto. destruct (Tr [] c k eq_refl B). congruence. }
  assert (N: match k ++ ":"%char :: rest with [] => False | c :: _ => Ascii.eqb c "#" = false end).
  { destruct k as [|c k]; cbn; auto. apply Ascii.eqb_neq. intros ->. destruct (P "#"%char); cbn; auto. }
  assert (SC: strip_comments line = indent_text d ++ k ++ ":"%char :: strip_comments rest).
  { unfold line. rewrite strip_comments_plain by (unfold indent_text; apply plain_repeat). rewrite strip_comments_plain by auto. reflexivity. }
  split; [|split].
  - unfold is_comment_line, is_empty_line, line. destruct (indent_line d _ (H rest)) as (-> & _). destruct (k ++ ":"%char :: rest); [tauto|]. rewrite N. reflexivity.
  - rewrite SC. unfold read_pair. rewrite app_assoc, cut_colon_spec.
    + rewrite V. pose proof (strip_spec (indent_text d) k [] (blanks_repeat _) (Forall_nil _) Tr) as Q. rewrite app_nil_r in Q. rewrite Q. reflexivity.
    + rewrite in_app_iff. intros [X|X]; auto. unfold indent_text in X. apply repeat_spec in X. discriminate.
  - rewrite SC. apply indent_line. apply H.
Qed.
(** state after a value line whose groups are G, and after a group line that opened the last of them *)
Definition closed (G : list text) (d : dict) : pstate := mkP (lv (List.length G)) (rev G) d.
Definition opened (G : list text) (d : dict) : pstate := mkP (lv (List.length G - 1)) (rev G) d.
Lemma skipn_rev_firstn : forall d (G : list text), d <= List.length G -> skipn (List.length G - d) (rev G) = rev (firstn d G).
Proof.
  intros d G H. rewrite <- (firstn_skipn d G) at 2. rewrite rev_app_distr, skipn_app. rewrite skipn_all2 by (rewrite rev_length, skipn_length; lia).
  rewrite rev_length, skipn_length, Nat.sub_diag. reflexivity.
Qed.
Lemma move : forall d G e, d <= List.length G -> 
  (if 0 <? 2 * d then
    bind (match levels (closed G e) with [] => Ok ([2 * d], groups (closed G e)) | b :: _ => if b <? 2 * d then Ok (2 * d :: levels (closed G e), groups (closed G e)) else pop (2 * d) (levels (closed G e)) (groups (closed G e)) end)
     (fun '(ls, gs) => if negb (List.length ls =? List.length gs) then Fails else Ok (ls, gs))
   else if negb (List.length (groups (closed G e)) =? List.length (levels (closed G e))) then Fails else bind (clear (levels (closed G e)) (groups (closed G e))) (fun gs => Ok ([], gs)))
  = Ok (lv d, rev (firstn d G)).
Proof.
  intros d G e H. cbn [closed levels groups]. destruct (Nat.ltb_spec 0 (2 * d)).
  - destruct (lv (List.length G)) as [|b ls] eqn:E; [destruct (List.length G); [lia|discriminate]|].
    assert (B: b = 2 * List.length G) by (destruct (List.length G); [lia|]; cbn [lv] in E; inversion E; lia). 
    destruct (Nat.ltb_spec b (2 * d)); [lia|]. rewrite <- E. rewrite pop_lv by (rewrite ?rev_length; lia). cbn [bind].
    rewrite lv_length, skipn_rev_firstn, rev_length, firstn_length_le, Nat.eqb_refl by lia. reflexivity.
  - assert (d = 0) by lia. subst d. rewrite rev_length, lv_length, Nat.eqb_refl. cbn [negb]. unfold clear. rewrite lv_length, rev_length, Nat.ltb_irrefl.
    rewrite skipn_all2 by (rewrite rev_length; lia). reflexivity.
Qed.
Lemma group_after_value : forall d G e g, d <= List.length G -> ~ In ":"%char g -> plain g -> trimmed g ->
  parse_line (closed G e) (indent_text d ++ g ++ [":"%char]) = Ok (opened (firstn d G ++ [g]) e).
Proof.
  intros d G e g H C P Tr. destruct (printed_line d g [] [] C P Tr eq_refl) as (A & B & I). unfold parse_line. rewrite A, B. cbn [bind]. rewrite I.
  pose proof (move d G e H) as M. unfold opened. rewrite rev_app_distr, app_length, firstn_length_le by auto. cbn [rev app List.length]. replace (d + 1 - 1) with d by lia.
  destruct (0 <? 2 * d).
  - destruct (match levels (closed G e) with [] => _ | _ => _ end) as [(ls, gs)| |]; cbn [bind] in *; try discriminate. destruct (negb _); [discriminate|]. inversion M. reflexivity.
  - destruct (negb _); [discriminate|]. destruct (clear _ _); cbn [bind] in *; try discriminate. inversion M as [[M1 M2]]. reflexivity.
Qed.
Lemma group_after_group : forall G e g, G <> [] -> ~ In ":"%char g -> plain g -> trimmed g ->
  parse_line (opened G e) (indent_text (List.length G) ++ g ++ [":"%char]) = Ok (opened (G ++ [g]) e).
Proof.
  intros G e g N C P Tr. destruct (printed_line (List.length G) g [] [] C P Tr eq_refl) as (A & B & I). unfold parse_line. rewrite A, B. cbn [bind]. rewrite I.
  assert (L: List.length G > 0) by (destruct G; cbn; [congruence|lia]). destruct (Nat.ltb_spec 0 (2 * List.length G)); [|lia]. cbn [opened levels groups entries].
  replace (match lv (List.length G - 1) with [] => Ok ([2 * List.length G], rev G) | b :: _ => if b <? 2 * List.length G then Ok (2 * List.length G :: lv (List.length G - 1), rev G) else pop (2 * List.length G) (lv (List.length G - 1)) (rev G) end) with (@Ok (list nat * list text) (lv (List.length G), rev G)).
  - cbn [bind]. rewrite lv_length, rev_length, Nat.eqb_refl. cbn [negb]. unfold opened. rewrite rev_app_distr, app_length. cbn [rev app List.length]. replace (List.length G + 1 - 1) with (List.length G) by lia. reflexivity.
  - destruct (List.length G) as [|n]; [lia|]. replace (S n - 1) with n by lia. destruct n as [|n]; [reflexivity|]. cbn [lv]. destruct (Nat.ltb_spec (2 * S n) (2 * S (S n))); [reflexivity|lia].
Qed.
Lemma value_after_value : forall d G e k rest v, d <= List.length G -> ~ In ":"%char k -> plain k -> trimmed k -> strip (strip_comments rest) = v -> v <> [] ->
  parse_line (closed G e) (indent_text d ++ k ++ ":"%char :: rest) = Ok (closed (firstn d G) (put (join (firstn d G) ++ k) v e)).
Proof.
  intros d G e k rest v H C P Tr V NV. destruct (printed_line d k rest v C P Tr V) as (A & B & I). unfold parse_line. rewrite A, B. cbn [bind]. rewrite I.
  pose proof (move d G e H) as M. match goal with |- _ = Ok (closed ?a ?b) => change (closed a b) with (mkP (lv (List.length a)) (rev a) b) end. rewrite firstn_length_le by auto. destruct v as [|v0 v]; [congruence|]. cbn [store].
  destruct (Nat.ltb_spec 0 (2 * d)) as [L|L].
  - destruct (match levels (closed G e) with [] => _ | _ => _ end) as [(ls, gs)| |]; cbn [bind] in *; try discriminate. destruct (negb _); [discriminate|]. inversion M. cbn [entries closed]. unfold full_key. rewrite rev_involutive. reflexivity.
  - destruct (negb _); [discriminate|]. destruct (clear _ _); cbn [bind] in *; try discriminate. inversion M as [[M1 M2]]. assert (d = 0) by lia. subst d. cbn. reflexivity.
Qed.
Lemma value_after_group : forall G e k rest v, G <> [] -> ~ In ":"%char k -> plain k -> trimmed k -> strip (strip_comments rest) = v -> v <> [] ->
  parse_line (opened G e) (indent_text (List.length G) ++ k ++ ":"%char :: rest) = Ok (closed G (put (join G ++ k) v e)).
Proof.
  intros G e k rest v N C P Tr V NV. destruct (printed_line (List.length G) k rest v C P Tr V) as (A & B & I). unfold parse_line. rewrite A, B. cbn [bind]. rewrite I.
  assert (L: List.length G > 0) by (destruct G; cbn; [congruence|lia]). destruct (Nat.ltb_spec 0 (2 * List.length G)); [|lia]. cbn [opened levels groups entries].
  replace (match lv (List.length G - 1) with [] => Ok ([2 * List.length G], rev G) | b :: _ => if b <? 2 * List.length G then Ok (2 * List.length G :: lv (List.length G - 1), rev G) else pop (2 * List.length G) (lv (List.length G - 1)) (rev G) end) with (@Ok (list nat * list text) (lv (List.length G), rev G)).
  - cbn [bind]. rewrite lv_length, rev_length, Nat.eqb_refl. cbn [negb]. destruct v; [congruence|]. cbn [store]. unfold closed, full_key. rewrite rev_involutive. reflexivity.
  - destruct (List.length G) as [|n]; [lia|]. replace (S n - 1) with n by lia. destruct n as [|n]; [reflexivity|]. cbn [lv]. destruct (Nat.ltb_spec (2 * S n) (2 * S (S n))); [reflexivity|lia].
Qed.
Lemma parse_app : forall a b s, parse_lines s (a ++ b) = bind (parse_lines s a) (fun s' => parse_lines s' b).
Proof. induction a; intros b s; cbn [app parse_lines bind]; auto. destruct (parse_line s a); cbn [bind]; auto. Qed.
(** a run of group lines followed by a value line *)
Lemma entry_lines : forall K i G e k rest v, i <= List.length G -> i <= List.length K -> firstn i G = firstn i K ->
  (forall g, In g K -> ~ In ":"%char g /\ trimmed g /\ plain g) -> ~ In ":"%char k -> plain k -> trimmed k -> strip (strip_comments rest) = v -> v <> [] ->
  parse_lines (closed G e) (group_lines i (skipn i K) ++ [indent_text (List.length K) ++ k ++ ":"%char :: rest]) = Ok (closed K (put (join K ++ k) v e)).
Proof.
  intros K i G e k rest v HG HK E W C P Tr V NV.
  assert (O: forall n j, i < j <= List.length K -> n = List.length K - j ->
     parse_lines (opened (firstn j K) e) (group_lines j (skipn j K) ++ [indent_text (List.length K) ++ k ++ ":"%char :: rest]) = Ok (closed K (put (join K ++ k) v e))).
  { induction n; intros j Hj En.
    - assert (j = List.length K) by lia. subst j. rewrite skipn_all, firstn_all. cbn [group_lines app parse_lines]. rewrite (value_after_group K e k rest v); auto. destruct K; cbn in *; [lia|discriminate].
    - destruct (skipn j K) as [|g gs] eqn:ES; [apply (f_equal (@List.length text)) in ES; rewrite skipn_length in ES; cbn in ES; lia|].
      assert (F: firstn (S j) K = firstn j K ++ [g] /\ skipn (S j) K = gs /\ In g K).
      { rewrite <- (firstn_skipn j K) at 1 3 4. rewrite ES. split; [|split].
        - rewrite firstn_app, firstn_length_le by lia. replace (S j - j) with 1 by lia. rewrite firstn_firstn. replace (Nat.min (S j) j) with j by lia. reflexivity.
        - rewrite skipn_app, firstn_length_le by lia. replace (S j - j) with 1 by lia. rewrite skipn_all2 by (rewrite firstn_length; lia). reflexivity.
        - apply in_app_iff. right. cbn; auto. }
      destruct F as (F1 & F2 & F3). destruct (W g F3) as (W1 & W2 & W3). cbn [group_lines app parse_lines].
      replace (indent_text j) with (indent_text (List.length (firstn j K))) by (rewrite firstn_length_le by lia; auto).
      rewrite group_after_group; auto; [|destruct K, j; cbn in *; try lia; discriminate]. cbn [bind]. rewrite <- F1, <- F2. apply IHn; lia. }
  destruct (skipn i K) as [|g gs] eqn:ES.
  - assert (i = List.length K) by (apply (f_equal (@List.length text)) in ES; rewrite skipn_length in ES; cbn in ES; lia). subst i. cbn [group_lines app parse_lines].
    rewrite (value_after_value (List.length K) G e k rest v); auto. rewrite E, firstn_all. reflexivity.
  - assert (F: firstn (S i) K = firstn i K ++ [g] /\ skipn (S i) K = gs /\ In g K).
    { assert (i < List.length K) by (apply (f_equal (@List.length text)) in ES; rewrite skipn_length in ES; cbn in ES; lia).
      rewrite <- (firstn_skipn i K) at 1 3 4. rewrite ES. split; [|split].
      - rewrite firstn_app, firstn_length_le by lia. replace (S i - i) with 1 by lia. rewrite firstn_firstn. replace (Nat.min (S i) i) with i by lia. reflexivity.
      - rewrite skipn_app, firstn_length_le by lia. replace (S i - i) with 1 by lia. rewrite skipn_all2 by (rewrite firstn_length; lia). reflexivity.
      - apply in_app_iff. right. cbn; auto. }
    destruct F as (F1 & F2 & F3). destruct (W g F3) as (W1 & W2 & W3). cbn [group_lines app parse_lines].
    rewrite group_after_value by auto. cbn [bind]. rewrite E, <- F1, <- F2. eapply O; [|reflexivity].
    apply (f_equal (@List.length text)) in ES; rewrite skipn_length in ES; cbn in ES; lia.
Qed.
