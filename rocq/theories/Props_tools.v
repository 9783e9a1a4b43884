(** C100: helper functions of Utilities.hpp. *)
From Coq Require Import List Arith Lia Bool ZArith Znumtheory Reals Lra Psatz Ascii String Sorted Permutation.
From Verif Require Import Parse Yaml YamlFacts Props_parse Tools.
Import ListNotations.
Open Scope Z_scope.

(** ---- prime factors ---- *)
Definition product (l : list Z) : Z := fold_right Z.mul 1 l.
Lemma product_app : forall a b, product (a ++ b) = product a * product b.
Proof.
  induction a as [|x a IH]; intros b; cbn [app product fold_right].
  - change (product []) with 1. rewrite Z.mul_1_l. reflexivity.
  - change (x * product (a ++ b) = x * product a * product b). rewrite IH. ring.
Qed.
Lemma smallest_divisor_prime : forall d, 2 <= d -> (forall q, 2 <= q < d -> ~ (q | d)) -> prime d.
Proof.
  intros d H N. apply prime_intro; [lia|]. intros n Hn. apply Zgcd_1_rel_prime. pose proof (Z.gcd_nonneg n d) as P. destruct (Z.eq_dec (Z.gcd n d) 1) as [|E]; auto. exfalso.
  assert (Z.gcd n d <> 0). { intros G. apply Z.gcd_eq_0_l in G. lia. }
  assert (Z.gcd n d <= n) by (apply Z.divide_pos_le; [lia|apply Z.gcd_divide_l]).
  apply (N (Z.gcd n d)); [lia|apply Z.gcd_divide_r].
Qed.
Lemma decompose_invariant : forall fuel w number divisor l, 2 <= divisor -> 1 <= number < 2 ^ w -> divisor < 2 ^ w ->
  (forall q, 2 <= q < divisor -> ~ (q | number)) -> Forall prime l -> StronglySorted Z.le l -> Forall (fun p => p <= divisor) l ->
  2 * number - divisor < Z.of_nat fuel -> (1 <= fuel)%nat ->
  exists l', decompose_loop fuel w number divisor l = Components l' /\ product l' = product l * number /\ Forall prime l' /\ StronglySorted Z.le l'.
Proof.
  induction fuel as [|f IH]; intros w number divisor l D N DW Q P S B F F1; [lia|].
  cbn [decompose_loop]. destruct (Z.leb_spec divisor number); destruct (Z.ltb_spec 1 number); cbn [andb].
    2:{ exists l. assert (number = 1) by lia. subst. repeat (split; auto). ring. }
    2:{ destruct (Q number); [lia|apply Z.divide_refl]. }
    2:{ exists l. assert (number = 1) by lia. subst. repeat (split; auto). ring. }
    destruct (Z.eqb_spec (number mod divisor) 0) as [E|E].
    + apply Z.mod_divide in E; [|lia]. destruct E as (k & ->). rewrite Z.div_mul by lia.
      destruct (IH w k divisor (l ++ [divisor])) as (l' & E1 & E2 & E3 & E4); auto; try nia.
      * intros q Hq (z & Hz). apply (Q q Hq). exists (z * divisor). rewrite Hz. ring.
      * apply Forall_app. split; auto. constructor; auto. apply smallest_divisor_prime; auto. intros q Hq (z & Hz). apply (Q q Hq). exists (k * z). rewrite Hz. ring.
      * clear - S B. induction S as [|x l S IH H]; cbn [app]; [repeat constructor|]. inversion B; subst. constructor; [apply IH; auto|]. apply Forall_app. split; auto.
      * apply Forall_app. split; auto. constructor; [lia|constructor].
      * exists l'. split; auto. split; auto. rewrite E2, product_app. cbn [product fold_right]. ring.
    + assert (divisor <> number). { intros ->. rewrite Z.mod_same in E by lia. lia. }
      destruct (Z.leb_spec (2 ^ w) (divisor + 1)); [lia|].
      apply IH; auto; try lia.
      * intros q Hq. destruct (Z.eq_dec q divisor) as [->|]; [|apply Q; lia]. intros C. apply E. apply Z.mod_divide; auto. lia.
      * eapply Forall_impl; [|exact B]. cbn. intros. lia.
Qed.
(** the loop ends, without overflow, with the prime factors in ascending order, each as often as it divides the number *)
Theorem C100_prime_factors : forall w number, 1 <= number < 2 ^ w -> 2 <= w ->
  exists l, decompose (Z.to_nat (2 * number)) w number = Components l /\ product l = number /\ Forall prime l /\ StronglySorted Z.le l.
Proof.
  intros w n H W. assert (4 <= 2 ^ w) by (change 4 with (2 ^ 2); apply Z.pow_le_mono_r; lia).
  destruct (decompose_invariant (Z.to_nat (2 * n)) w n 2 []) as (l & A & B & C & D); auto; try lia; try constructor.
  exists l. split; auto. split; auto. rewrite B. cbn. destruct n; lia.
Qed.
Print Assumptions C100_prime_factors.
Lemma product_zero_free : forall l, Forall prime l -> 0 < product l.
Proof. induction 1 as [|x l P F IH]; cbn [product fold_right]; [lia|]. fold (product l). destruct P. nia. Qed.
(** and it is the only such list *)
Theorem C100_factors_unique : forall l l', Forall prime l -> Forall prime l' -> StronglySorted Z.le l -> StronglySorted Z.le l' -> product l = product l' -> l = l'.
Proof.
  assert (IN: forall p l, prime p -> Forall prime l -> (p | product l) -> In p l).
  { intros p l Pp. induction 1 as [|x l Px F IH]; cbn [product fold_right]; intros D.
    - destruct Pp as [P1 _]. apply Z.divide_1_r_nonneg in D; lia.
    - fold (product l) in D. apply prime_mult in D; auto. destruct D as [D|D]; [|right; auto]. left. apply prime_div_prime in D; auto. }
  induction l as [|x l IH]; intros l' P P' S S' E.
  - destruct l' as [|y l']; auto. exfalso. inversion P' as [|? ? Py Pl]; subst. cbn [product fold_right] in E. fold (product l') in E. pose proof (product_zero_free l' Pl). destruct Py. nia.
  - destruct l' as [|y l'].
    { exfalso. inversion P as [|? ? Py Pl]; subst. cbn [product fold_right] in E. fold (product l) in E. pose proof (product_zero_free l Pl). destruct Py. nia. }
    assert (x = y).
    { inversion P as [|? ? Px Pl]; subst. inversion P' as [|? ? Py Pl']; subst.
      assert (I1: In x (y :: l')) by (apply IN; auto; rewrite <- E; exists (product l); cbn [product fold_right]; fold (product l); ring).
      assert (I2: In y (x :: l)) by (apply IN; auto; rewrite E; exists (product l'); cbn [product fold_right]; fold (product l'); ring).
      inversion S as [|? ? _ F]; subst. inversion S' as [|? ? _ F']; subst. rewrite Forall_forall in F, F'.
      destruct I1 as [|I1]; auto. destruct I2 as [|I2]; auto. specialize (F y I2). specialize (F' x I1). lia. }
    subst y. f_equal. inversion P as [|? ? Px ?]; subst. inversion P'; subst. inversion S; subst. inversion S'; subst. apply IH; auto.
    cbn [product fold_right] in E. fold (product l) (product l') in E. destruct Px. nia.
Qed.
Print Assumptions C100_factors_unique.
Example C100_factors_example : decompose (Z.to_nat (2 * 360)) 32 360 = Components [2; 2; 2; 3; 3; 5].
Proof. vm_compute. reflexivity. Qed.

(** ---- ends of names ---- *)
Lemma rfind_spec : forall k h n, match rfind_from k h n with
  | Some p => (p < k)%nat /\ firstn (List.length n) (skipn p h) = n /\ (forall q, (p < q < k)%nat -> firstn (List.length n) (skipn q h) <> n)
  | None => forall q, (q < k)%nat -> firstn (List.length n) (skipn q h) <> n
  end.
Proof.
  induction k as [|p IH]; intros h n; cbn [rfind_from]; [intros; lia|].
  destruct (text_eqb_spec (firstn (List.length n) (skipn p h)) n) as [E|E].
  - split; [lia|]. split; auto. intros; lia.
  - specialize (IH h n). destruct (rfind_from p h n) as [r|].
    + destruct IH as (A & B & C). split; [lia|]. split; auto. intros q Hq. destruct (Nat.eq_dec q p) as [->|]; auto. apply C. lia.
    + intros q Hq. destruct (Nat.eq_dec q p) as [->|]; auto. apply IH. lia.
Qed.
Theorem C100_ends_with : forall haystack needle, string_ends_with haystack needle = true <-> exists before, haystack = before ++ needle.
Proof.
  intros h n. unfold string_ends_with. destruct (Nat.ltb_spec (List.length h) (List.length n)) as [L|L].
  - split; [discriminate|]. intros (b & ->). rewrite app_length in L. lia.
  - unfold rfind. set (d := (List.length h - List.length n)%nat). pose proof (rfind_spec (S d) h n) as R.
    assert (AT: firstn (List.length n) (skipn d h) = n <-> exists before, h = before ++ n).
    { split.
      - intros E. exists (firstn d h). rewrite <- (firstn_skipn d h) at 1. f_equal. rewrite <- E. symmetry. apply firstn_all2. rewrite skipn_length. unfold d. lia.
      - intros (b & E). assert (LB: List.length b = d) by (unfold d; rewrite E, app_length; lia). rewrite E, skipn_app, skipn_all2 by lia. rewrite LB, Nat.sub_diag. cbn [skipn app]. apply firstn_all. }
    destruct (rfind_from (S d) h n) as [p|].
    + destruct R as (A & B & C). rewrite <- AT. destruct (Nat.eqb_spec p d) as [->|N]; [tauto|]. split; [discriminate|]. intros E. exfalso. apply (C d); auto. lia.
    + rewrite <- AT. split; [discriminate|]. intros E. exfalso. apply (R d); auto.
Qed.
Print Assumptions C100_ends_with.
Example C100_ends_example : string_ends_with (T "table.yml") (T ".yml") = true /\ string_ends_with (T ".yml.txt") (T ".yml") = false.
Proof. split; reflexivity. Qed.

(** ---- binary digits ---- *)
Definition bit (v : Z) (j : nat) : Z := if Z.testbit v (63 - Z.of_nat j) then 1 else 0.
(** groups of four, separated by blanks *)
Fixpoint spaced (ds : list Z) : text :=
  match ds with
  | a :: b :: c :: d :: ((_ :: _) as r) => map digit_char [a; b; c; d] ++ " "%char :: spaced r
  | _ => map digit_char ds
  end.
Lemma masked : forall v i, 0 <= i <= 63 -> Z.shiftr (Z.land v (2 ^ (63 - i))) (63 - i) = if Z.testbit v (63 - i) then 1 else 0.
Proof.
  intros v i H. rewrite Z.shiftr_land. rewrite (Z.shiftr_div_pow2 (2 ^ (63 - i))) by lia. rewrite Z.div_same by (apply Z.pow_nonzero; lia).
  apply Z.bits_inj'. intros n Hn. rewrite Z.land_spec, Z.shiftr_spec by lia. destruct (Z.eq_dec n 0) as [->|N].
  - rewrite Z.add_0_l. destruct (Z.testbit v (63 - i)); reflexivity.
  - replace (Z.testbit 1 n) with false; [rewrite andb_false_r; destruct (Z.testbit v (63 - i))|].
    + symmetry. change 1 with (2 ^ 0). apply Z.pow2_bits_false. lia.
    + symmetry. apply Z.bits_0.
    + symmetry. change 1 with (2 ^ 0). apply Z.pow2_bits_false. lia.
Qed.

Lemma binary_loop_spec : forall k i v, Z.of_nat k + i = 64 -> 0 <= i ->
  binary_loop k i v (2 ^ (63 - i)) = flat_map (fun j => (if (0 <? i + Z.of_nat j) && ((i + Z.of_nat j) mod 4 =? 0) then [" "%char] else []) ++ [digit_char (if Z.testbit v (63 - (i + Z.of_nat j)) then 1 else 0)]) (seq 0 k).
Proof.
  induction k as [|k IH]; intros i v H P; [reflexivity|]. cbn [binary_loop seq flat_map]. rewrite Z.add_0_r, masked by lia.
  assert (N: map digit_char (numeral 10 (if Z.testbit v (63 - i) then 1 else 0)) = [digit_char (if Z.testbit v (63 - i) then 1 else 0)]) by (destruct (Z.testbit v (63 - i)); reflexivity).
  rewrite N, <- app_assoc. f_equal. cbn [app]. f_equal. destruct k as [|k]; [reflexivity|].
  assert (Mk: Z.shiftr (2 ^ (63 - i)) 1 = 2 ^ (63 - (i + 1))).
  { rewrite Z.shiftr_div_pow2 by lia. change (2 ^ 1) with 2. replace (63 - i) with (63 - (i + 1) + 1) by lia. rewrite Z.pow_add_r by lia. rewrite Z.div_mul; lia. }
  rewrite Mk, IH by lia. rewrite <- (seq_shift (S k) 0), !flat_map_concat_map, map_map. f_equal. apply map_ext. intros j.
  replace (i + 1 + Z.of_nat j) with (i + Z.of_nat (S j)) by lia. reflexivity.
Qed.
Lemma value_bits : forall v k, 0 <= v < 2 ^ 64 -> (k <= 64)%nat -> value 2 (map (bit v) (seq 0 k)) = v / 2 ^ (64 - Z.of_nat k).
Proof.
  intros v k V. induction k as [|k IH]; intros K.
  - cbn [seq map]. rewrite Z.sub_0_r, Z.div_small by auto. reflexivity.
  - rewrite seq_S, map_app, value_app, IH by lia. cbn [map List.length Nat.add]. change (Z.of_nat 1) with 1. rewrite Z.pow_1_r.
    replace (64 - Z.of_nat k) with (63 - Z.of_nat k + 1) by lia. replace (64 - Z.of_nat (S k)) with (63 - Z.of_nat k) by lia.
    rewrite Z.pow_add_r, Z.pow_1_r, <- Z.div_div by lia. unfold value, bit. cbn [fold_left]. rewrite Z.testbit_odd, Z.shiftr_div_pow2 by lia.
    set (x := v / 2 ^ (63 - Z.of_nat k)). pose proof (Zmod_odd x) as O. pose proof (Z.div_mod x 2 ltac:(lia)) as D. destruct (Z.odd x); lia.
Qed.
Theorem C100_binary_digits : forall v, 0 <= v < 2 ^ 64 ->
  exists ds, List.length ds = 64%nat /\ Forall (fun d => d = 0 \/ d = 1) ds /\ value 2 ds = v /\ as_binary_sequence v = spaced ds.
Proof.
  intros v V. exists (map (bit v) (seq 0 64)). split; [rewrite map_length, seq_length; reflexivity|]. split; [|split].
  - apply Forall_forall. intros d I. apply in_map_iff in I. destruct I as (j & <- & _). unfold bit. destruct (Z.testbit _ _); auto.
  - rewrite value_bits by (auto; lia). apply Z.div_1_r.
  - unfold as_binary_sequence. change (2 ^ 63) with (2 ^ (63 - 0)). rewrite binary_loop_spec by lia. unfold bit. generalize (Z.testbit v). intros t. reflexivity.
Qed.
Print Assumptions C100_binary_digits.
Example C100_binary_example : as_binary_sequence 10 = T "0000 0000 0000 0000 0000 0000 0000 0000 0000 0000 0000 0000 0000 0000 0000 1010".
Proof. vm_compute. reflexivity. Qed.

(** ---- memory sizes ---- *)
Lemma byte_loop_spec : forall f b c, 0 <= b < 1024 ^ Z.of_nat f -> (1 <= f)%nat ->
  exists e, byte_loop f b c = (c + e)%nat /\ (e <= f)%nat /\ (1024 ^ Z.of_nat e <= b \/ e = 0%nat) /\ b < 1024 ^ Z.of_nat (S e).
Proof.
  induction f as [|f IH]; intros b c B F; [lia|]. cbn [byte_loop]. rewrite Z.shiftr_div_pow2 by lia. change (2 ^ 10) with 1024.
  destruct (Z.ltb_spec 0 (b / 1024)) as [L|L].
  - assert (1024 <= b). { destruct (Z.lt_ge_cases b 1024); auto. rewrite Z.div_small in L by lia. lia. }
    destruct f as [|f]. { cbn in B. lia. }
    rewrite Nat2Z.inj_succ, Z.pow_succ_r in B by lia.
    destruct (IH (b / 1024) (S c)) as (e & E1 & E2 & E3 & E4); [|lia|].
    { split; [lia|]. apply Z.div_lt_upper_bound; lia. }
    exists (S e). rewrite E1. split; [lia|]. split; [lia|].
    pose proof (Z.div_mod b 1024 ltac:(lia)) as D. pose proof (Z.mod_pos_bound b 1024 ltac:(lia)) as M.
    rewrite (Nat2Z.inj_succ e), (Nat2Z.inj_succ (S e)), !Z.pow_succ_r by lia. rewrite Nat2Z.inj_succ, Z.pow_succ_r in E4 |- * by lia.
    split; [left|nia]. destruct E3 as [E3|E3]; [nia|]. subst e. cbn. lia.
  - exists 0%nat. split; [lia|]. split; [lia|]. split; auto. cbn. pose proof (Z.div_mod b 1024 ltac:(lia)) as D. pose proof (Z.mod_pos_bound b 1024 ltac:(lia)) as M. pose proof (Z.div_pos b 1024). lia.
Qed.
(** the units *)
Definition unit_names : list text := [T "bytes"; T "KB"; T "MB"; T "GB"; T "TB"].
(** below 2^50 bytes the number shown is the size in that unit, to half a hundredth; the unit is the largest one not above the size *)
Theorem C100_memory_size : forall bytes, 0 <= bytes < 2 ^ 50 ->
  exists e hundredths, (e < 5)%nat /\ human_readable_bytes bytes = Some (hundredths, nth e unit_names []) /\
  (Rabs (IZR hundredths / 100 * 1024 ^ e - IZR bytes) <= 1024 ^ e / 200)%R /\
  0 <= hundredths <= 102400 /\ (1024 ^ Z.of_nat e <= bytes \/ e = 0%nat) /\ bytes < 1024 ^ Z.of_nat (S e).
Proof.
  intros b B. destruct (byte_loop_spec 7 b 0) as (e & E1 & E2 & E3 & E4); [cbn; lia|lia|]. cbn [Nat.add] in E1.
  assert (L: (e < 5)%nat). { destruct (Nat.lt_ge_cases e 5) as [|G]; auto. exfalso. destruct E3 as [E3|E3]; [|lia]. assert (1024 ^ 5 <= 1024 ^ Z.of_nat e) by (apply Z.pow_le_mono_r; lia). change (1024 ^ 5) with (2 ^ 50) in H. lia. }
  set (k := 1024 ^ Z.of_nat e). assert (K: 0 < k) by (apply Z.pow_pos_nonneg; lia).
  exists e, ((200 * b + k) / (2 * k)). split; auto. 
  assert (D: 2 * k * ((200 * b + k) / (2 * k)) <= 200 * b + k < 2 * k * ((200 * b + k) / (2 * k)) + 2 * k).
  { pose proof (Z.div_mod (200 * b + k) (2 * k) ltac:(lia)) as D. pose proof (Z.mod_pos_bound (200 * b + k) (2 * k) ltac:(lia)) as M. lia. }
  set (q := (200 * b + k) / (2 * k)) in *.
  split; [|split; [|split; [|split]]]; auto.
  - unfold human_readable_bytes. rewrite E1. fold k. fold q. clear - L. do 5 (destruct e as [|e]; [reflexivity|]). lia.
  - assert (RK: (1024 ^ e = IZR k)%R). { unfold k. rewrite <- pow_IZR. reflexivity. }
    rewrite RK. destruct D as (D1 & D2). apply IZR_le in D1. apply IZR_lt in D2. repeat rewrite plus_IZR in D1; repeat rewrite mult_IZR in D1; repeat rewrite plus_IZR in D2; repeat rewrite mult_IZR in D2. apply Rabs_le. clearbody k q. split; lra.
  - rewrite Nat2Z.inj_succ, Z.pow_succ_r in E4 by lia. fold k in E4. split; [apply Z.div_pos; lia|]. assert (q < 102401); [|lia]. apply Z.div_lt_upper_bound; lia.
Qed.
Print Assumptions C100_memory_size.
(** from 2^50 bytes on the program ends, just because the number cannot be shown *)
Theorem C100_large_sizes : forall bytes, 0 <= bytes < 2 ^ 64 -> (human_readable_bytes bytes = None <-> 2 ^ 50 <= bytes).
Proof.
  intros b B. split.
  - intros E. destruct (Z.lt_ge_cases b (2 ^ 50)) as [L|]; auto. destruct (C100_memory_size b) as (e & h & _ & X & _); [lia|]. congruence.
  - intros L. destruct (byte_loop_spec 7 b 0) as (e & E1 & E2 & E3 & E4); [cbn; lia|lia|]. cbn [Nat.add] in E1. unfold human_readable_bytes. rewrite E1.
    assert (G: (5 <= e)%nat). { destruct (Nat.le_gt_cases 5 e) as [|G]; auto. exfalso. assert (1024 ^ Z.of_nat (S e) <= 1024 ^ 5) by (apply Z.pow_le_mono_r; lia). change (1024 ^ 5) with (2 ^ 50) in H. lia. }
    clear - G. do 5 (destruct e as [|e]; [lia|]). reflexivity.
Qed.
Print Assumptions C100_large_sizes.
(** the bound 1024 is reached: 1024 KB instead of 1 MB *)
Example C100_memory_example : human_readable_bytes 1536 = Some (150, T "KB") /\ human_readable_bytes 1048575 = Some (102400, T "KB") /\ human_readable_bytes 1048576 = Some (100, T "MB").
Proof. repeat split; reflexivity. Qed.

(** ---- times ---- *)
Definition seconds_in (u : text) : Z :=
  if text_eqb u (T "y") then 31536000 else if text_eqb u (T "d") then 86400 else if text_eqb u (T "h") then 3600 else 60.
(** the largest value of a field that is not the first one *)
Definition limit_of (u : text) : Z := if text_eqb u (T "d") then 365 else if text_eqb u (T "h") then 24 else 60.
(** the fields together, in seconds *)
Definition total (fields : list (Z * text)) : Z := fold_right (fun p s => fst p * seconds_in (snd p) + s) 0 fields.
Theorem C100_time : forall time, (0 <= time)%R ->
  let '(fields, seconds) := human_readable_time time in
  (0 <= seconds < 60)%R /\
  (IZR (total fields) + seconds = time)%R /\
  (match fields with [] => True | p :: _ => 0 < fst p end) /\
  (exists k, map snd fields = skipn k [T "y"; T "d"; T "h"; T "m"]) /\
  Forall (fun p => snd p <> T "y" -> 0 <= fst p < limit_of (snd p)) fields.
Proof.
  intros t H. unfold human_readable_time. set (m := Int_part (t / 60)).
  assert (Mr: (IZR m <= t / 60 < IZR m + 1)%R). { unfold m. pose proof (base_Int_part (t / 60)). lra. }
  assert (M0: 0 <= m). { assert (-1 < m); [|lia]. apply lt_IZR. assert (0 <= t / 60)%R by (apply Rmult_le_pos; lra). lra. }
  assert (S1: (0 <= t - 60 * IZR m < 60)%R) by lra. clearbody m.
  assert (SUM: forall l, total l = 60 * m -> (IZR (total l) + (t - 60 * IZR m) = t)%R).
  { intros l E. rewrite E, mult_IZR. ring. }
  pose proof (Z.div_mod m 60 ltac:(lia)) as D1. pose proof (Z.mod_pos_bound m 60 ltac:(lia)) as B1.
  set (h := m / 60) in *. pose proof (Z.div_mod h 24 ltac:(lia)) as D2. pose proof (Z.mod_pos_bound h 24 ltac:(lia)) as B2.
  set (d := h / 24) in *. pose proof (Z.div_mod d 365 ltac:(lia)) as D3. pose proof (Z.mod_pos_bound d 365 ltac:(lia)) as B3. set (y := d / 365) in *. clearbody y d h.
  cbv zeta. split; [exact S1|].
  Ltac field_bounds := repeat (apply Forall_cons; [cbn [fst snd]; intros; (congruence || (match goal with |- context [limit_of ?u] => let v := eval vm_compute in (limit_of u) in change (limit_of u) with v end; lia))|]); apply Forall_nil.
  Ltac sums := unfold total; cbn [fold_right fst snd]; repeat (match goal with |- context [seconds_in ?u] => let v := eval vm_compute in (seconds_in u) in change (seconds_in u) with v end); lia.
  destruct (Z.ltb_spec 0 m); [|split; [apply SUM; sums|]; split; [exact I|]; split; [exists 4%nat; reflexivity|apply Forall_nil]].
  destruct (Z.ltb_spec 0 h); [|split; [apply SUM; sums|]; split; [cbn; lia|]; split; [exists 3%nat; reflexivity|field_bounds]].
  destruct (Z.ltb_spec 0 d); [|split; [apply SUM; sums|]; split; [cbn; lia|]; split; [exists 2%nat; reflexivity|field_bounds]].
  destruct (Z.ltb_spec 0 y); [|split; [apply SUM; sums|]; split; [cbn; lia|]; split; [exists 1%nat; reflexivity|field_bounds]].
  split; [apply SUM; sums|]. split; [cbn; lia|]. split; [exists 0%nat; reflexivity|field_bounds].
Qed.
Print Assumptions C100_time.

(** ---- file names with a counter ---- *)
Lemma digits_inj : forall a b, Forall (fun d => 0 <= d <= 9) a -> Forall (fun d => 0 <= d <= 9) b -> map digit_char a = map digit_char b -> a = b.
Proof.
  induction a as [|x a IH]; intros [|y b] A B E; cbn [map] in E; try discriminate; auto. injection E as E1 E2. inversion A; subst. inversion B; subst. f_equal; auto.
  pose proof (digit_code x ltac:(auto)) as C1. pose proof (digit_code y ltac:(auto)) as C2. rewrite E1 in C1. lia.
Qed.
Lemma value_zeros : forall n ds, value 10 (repeat 0 n ++ ds) = value 10 ds.
Proof. intros. rewrite value_app. replace (value 10 (repeat 0 n)) with 0; [ring|]. unfold value. induction n; auto. Qed.
(** different counters give different names *)
Theorem C100_names_differ : forall folder prefix extension padding a b, 0 <= a -> 0 <= b ->
  compose_filename folder prefix extension a padding = compose_filename folder prefix extension b padding -> a = b.
Proof.
  intros fo pr ex pad a b A B E. unfold compose_filename in E. apply app_inv_head in E. apply app_inv_head in E.
  rewrite !app_assoc in E. apply app_inv_tail in E. apply app_inv_tail in E.
  destruct (numeral_spec 10 a ltac:(lia) A) as (V1 & _ & F1). destruct (numeral_spec 10 b ltac:(lia) B) as (V2 & _ & F2).
  assert (Z0: forall n, repeat "0"%char n = map digit_char (repeat 0 n)) by (induction n; cbn [repeat map]; [|rewrite IHn]; reflexivity).
  rewrite !Z0, <- !map_app in E. 
  assert (FZ: forall n l, Forall (fun d => 0 <= d <= 10 - 1) l -> Forall (fun d => 0 <= d <= 9) (repeat 0 n ++ l)).
  { intros n l F. apply Forall_app. split; [apply Forall_forall; intros x I; apply repeat_spec in I; lia|]. eapply Forall_impl; [|exact F]. cbn. intros. lia. }
  apply digits_inj in E; try (apply FZ; auto). apply (f_equal (value 10)) in E. rewrite !value_zeros, V1, V2 in E. auto.
Qed.
Print Assumptions C100_names_differ.
Example C100_name_example : compose_filename (T "out") (T "snap") (T "txt") 42 4 = T "out/snap0042.txt".
Proof. reflexivity. Qed.
