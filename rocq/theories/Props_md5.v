(** C42: get_checksum (src/MD5Sum.hpp) computes the MD5 digest of RFC 1321, for every byte string. *)
From Coq Require Import List Ascii String ZArith Lia Bool Arith QArith Qreals Reals Lra.
From Verif Require Import Parse MD5.
Import ListNotations.
Local Open Scope Z_scope.

(** ** specification: RFC 1321, section 3 *)
(** 3.4: auxiliary functions on 32-bit words *)
Definition complement (x : Z) : Z := (2 ^ 32 - 1 - x) mod 2 ^ 32.
Definition rotate_left (x s : Z) : Z := (x * 2 ^ s) mod 2 ^ 32 + x / 2 ^ (32 - s).
Definition F_ (x y z : Z) : Z := Z.lor (Z.land x y) (Z.land (complement x) z).
Definition G_ (x y z : Z) : Z := Z.lor (Z.land x z) (Z.land y (complement z)).
Definition H_ (x y z : Z) : Z := Z.lxor (Z.lxor x y) z.
Definition I_ (x y z : Z) : Z := Z.lxor y (Z.lor x (complement z)).
(** T[i]: the integer part of 4294967296 times abs(sin(i)), i in radians *)
Definition T_ (i : nat) : Z := Int_part (2 ^ 32 * Rabs (sin (INR i))).
(** [abcd k s i]: a = b + ((a + f(b,c,d) + X[k] + T[i]) <<< s) *)
Definition op (f : Z -> Z -> Z -> Z) (X : nat -> Z) (a b c d : Z) (k : nat) (s : Z) (i : nat) : Z :=
  (b + rotate_left ((a + f b c d + X k + T_ i) mod 2 ^ 32) s) mod 2 ^ 32.
(** four operations [ABCD k1 s1 i] [DABC k2 s2 i+1] [CDAB k3 s3 i+2] [BCDA k4 s4 i+3] *)
Definition quad f X (r : regs) (k1 k2 k3 k4 : nat) (s1 s2 s3 s4 : Z) (i : nat) : regs :=
  let '(mkR A B C D) := r in
  let A := op f X A B C D k1 s1 i in
  let D := op f X D A B C k2 s2 (i + 1) in
  let C := op f X C D A B k3 s3 (i + 2) in
  let B := op f X B C D A k4 s4 (i + 3) in
  mkR A B C D.
Definition rounds (X : nat -> Z) (r : regs) : regs :=
  (* round 1 *)
  let r := quad F_ X r 0 1 2 3 7 12 17 22 1 in
  let r := quad F_ X r 4 5 6 7 7 12 17 22 5 in
  let r := quad F_ X r 8 9 10 11 7 12 17 22 9 in
  let r := quad F_ X r 12 13 14 15 7 12 17 22 13 in
  (* round 2 *)
  let r := quad G_ X r 1 6 11 0 5 9 14 20 17 in
  let r := quad G_ X r 5 10 15 4 5 9 14 20 21 in
  let r := quad G_ X r 9 14 3 8 5 9 14 20 25 in
  let r := quad G_ X r 13 2 7 12 5 9 14 20 29 in
  (* round 3 *)
  let r := quad H_ X r 5 8 11 14 4 11 16 23 33 in
  let r := quad H_ X r 1 4 7 10 4 11 16 23 37 in
  let r := quad H_ X r 13 0 3 6 4 11 16 23 41 in
  let r := quad H_ X r 9 12 15 2 4 11 16 23 45 in
  (* round 4 *)
  let r := quad I_ X r 0 7 14 5 6 10 15 21 49 in
  let r := quad I_ X r 12 3 10 1 6 10 15 21 53 in
  let r := quad I_ X r 8 15 6 13 6 10 15 21 57 in
  quad I_ X r 4 11 2 9 6 10 15 21 61.
(** words have their low-order byte first *)
Definition word_ (block : list Z) (j : nat) : Z :=
  nth (4 * j) block 0 + 2 ^ 8 * nth (4 * j + 1) block 0 + 2 ^ 16 * nth (4 * j + 2) block 0 + 2 ^ 24 * nth (4 * j + 3) block 0.
Definition compress (block : list Z) (r : regs) : regs :=
  let r' := rounds (word_ block) r in
  mkR ((rA r + rA r') mod 2 ^ 32) ((rB r + rB r') mod 2 ^ 32) ((rC r + rC r') mod 2 ^ 32) ((rD r + rD r') mod 2 ^ 32).
(** all 64-byte blocks of a message, in order *)
Definition process (p : list Z) (r : regs) : regs :=
  fold_left (fun r j => compress (firstn 64 (skipn (64 * j) p)) r) (seq 0 (List.length p / 64)) r.
(** 3.1, 3.2: append a one bit, zero bits until the length is 448 modulo 512 bits, and the low-order 64 bits of the
    length in bits *)
Definition bytes_le (n : nat) (x : Z) : list Z := map (fun i => (x / 2 ^ (8 * Z.of_nat i)) mod 2 ^ 8) (seq 0 n).
Definition padded (m p : list Z) : Prop := exists z, (z < 64)%nat /\ ((List.length m + 1 + z) mod 64 = 56)%nat /\
  p = m ++ [128] ++ repeat 0 z ++ bytes_le 8 ((8 * Z.of_nat (List.length m)) mod 2 ^ 64).
(** 3.5: the digest: A, B, C, D with the low-order byte first; two hexadecimal digits per byte *)
Definition hex_digit (x : Z) : ascii := nth (Z.to_nat x) (T "0123456789abcdef") " "%char.
Definition hex_bytes (l : list Z) : text := flat_map (fun b => [hex_digit (b / 16); hex_digit (b mod 16)]) l.
Definition hex_digest (r : regs) : text := hex_bytes (bytes_le 4 (rA r) ++ bytes_le 4 (rB r) ++ bytes_le 4 (rC r) ++ bytes_le 4 (rD r)).

(** ** the table of sines *)
Section Sines.
Local Open Scope R_scope.
Lemma rb : forall a b, Rabs a <= b -> - b <= a <= b.
Proof. intros a b H. pose proof (Rle_abs a). pose proof (Rle_abs (- a)). rewrite Rabs_Ropp in *. lra. Qed.
Definition scale : Z := (2 ^ 120)%Z.
(** fixed-point approximations of (sin n, cos n) and a common bound of their errors, from the addition formulas *)
Fixpoint table (S1 C1 e1 : Z) (n : nat) : Z * Z * Z :=
  match n with
  | O => (0, scale, 0)%Z
  | S m => let '(s, c, e) := table S1 C1 e1 m in
      ((s * C1 + c * S1) / scale, (c * C1 - s * S1) / scale, 2 * e1 + 2 * (e + 1) + 1)%Z
  end.
Definition close (x : R) (a e : Z) : Prop := Rabs (x * IZR scale - IZR a) <= IZR e.
Lemma floor_close : forall x a e, Rabs (x * IZR scale * IZR scale - IZR a) <= e * IZR scale -> Rabs (x * IZR scale - IZR (a / scale)) <= e + 1.
Proof.
  intros x a e H. assert (SP: 0 < IZR scale) by (apply (IZR_lt 0); reflexivity).
  pose proof (Z.div_mod a scale ltac:(discriminate)) as DM. pose proof (Z.mod_pos_bound a scale ltac:(reflexivity)) as MB.
  set (q := (a / scale)%Z) in *. set (m := (a mod scale)%Z) in *. rewrite DM in H. rewrite plus_IZR, mult_IZR in H. destruct MB as (M1 & M2). apply IZR_le in M1. apply IZR_lt in M2.
  apply Rabs_le. apply rb in H. split; nra.
Qed.
Lemma mul_close : forall x y a b e f, Rabs x <= 1 -> (Z.abs b <= scale)%Z -> close x a e -> close y b f ->
  Rabs (x * y * IZR scale * IZR scale - IZR (a * b)) <= (IZR e + IZR f) * IZR scale.
Proof.
  intros x y a b e f X A CX CY. unfold close in *. rewrite mult_IZR. assert (SP: 0 < IZR scale) by (apply (IZR_lt 0); reflexivity).
  replace (x * y * IZR scale * IZR scale - IZR a * IZR b) with ((x * IZR scale - IZR a) * IZR b + x * IZR scale * (y * IZR scale - IZR b)) by ring.
  eapply Rle_trans; [apply Rabs_triang|]. rewrite !Rabs_mult. rewrite (Rabs_pos_eq (IZR scale)) by lra.
  assert (AA: Rabs (IZR b) <= IZR scale) by (rewrite <- abs_IZR; apply IZR_le; auto).
  pose proof (Rabs_pos (x * IZR scale - IZR a)). pose proof (Rabs_pos (y * IZR scale - IZR b)). pose proof (Rabs_pos (IZR b)). pose proof (Rabs_pos x).
  rewrite Rmult_plus_distr_r. apply Rplus_le_compat.
  - apply Rmult_le_compat; auto.
  - rewrite (Rmult_comm (IZR f)). apply Rmult_le_compat; auto; nra.
Qed.
Lemma table_close : forall S1 C1 e1 n, close (sin 1) S1 e1 -> close (cos 1) C1 e1 -> (Z.abs S1 <= scale)%Z -> (Z.abs C1 <= scale)%Z ->
  let '(s, c, e) := table S1 C1 e1 n in close (sin (INR n)) s e /\ close (cos (INR n)) c e.
Proof.
  intros S1 C1 e1 n HS HC BS BC. assert (SP: 0 < IZR scale) by (apply (IZR_lt 0); reflexivity). induction n.
  - cbn [table INR]. unfold close. rewrite sin_0, cos_0. split; apply Rabs_le; rewrite ?Rmult_0_l, ?Rmult_1_l; split; lra.
  - cbn [table]. destruct (table S1 C1 e1 n) as ((s, c), e). destruct IHn as (IS & IC). rewrite S_INR, sin_plus, cos_plus.
    assert (B1: Rabs (sin (INR n)) <= 1) by (apply Rabs_le; apply SIN_bound). assert (B2: Rabs (cos (INR n)) <= 1) by (apply Rabs_le; apply COS_bound).
    pose proof (mul_close _ _ _ _ _ _ B1 BC IS HC) as P1. pose proof (mul_close _ _ _ _ _ _ B2 BS IC HS) as P2.
    pose proof (mul_close _ _ _ _ _ _ B2 BC IC HC) as P3. pose proof (mul_close _ _ _ _ _ _ B1 BS IS HS) as P4.
    set (x1 := sin (INR n)) in *. set (x2 := cos (INR n)) in *. set (y1 := sin 1) in *. set (y2 := cos 1) in *.
    assert (E: IZR (2 * e1 + 2 * (e + 1) + 1) = 2 * (IZR e + IZR e1) + 1 + 2) by (rewrite !plus_IZR, !mult_IZR, plus_IZR; lra).
    split; unfold close; rewrite E.
    + assert (Q: Rabs ((x1 * y2 + x2 * y1) * IZR scale - IZR ((s * C1 + c * S1) / scale)) <= 2 * (IZR e + IZR e1) + 1); [|lra].
      apply floor_close. rewrite plus_IZR. apply Rabs_le. apply rb in P1, P2. split; nra.
    + assert (Q: Rabs ((x2 * y2 - x1 * y1) * IZR scale - IZR ((c * C1 - s * S1) / scale)) <= 2 * (IZR e + IZR e1) + 1); [|lra].
      apply floor_close. rewrite minus_IZR. apply Rabs_le. apply rb in P3, P4. split; nra.
Qed.
(** sin 1 and cos 1 from their series *)
Fixpoint factP (n : nat) : positive := match n with O => 1%positive | S m => (Pos.of_nat (S m) * factP m)%positive end.
Lemma factP_spec : forall n, INR (fact n) = IZR (Zpos (factP n)).
Proof.
  intros n. rewrite INR_IZR_INZ. f_equal. induction n; auto. change (fact (S n)) with (S n * fact n)%nat. cbn [factP]. rewrite Nat2Z.inj_mul, IHn, Pos2Z.inj_mul. f_equal.
  rewrite <- (Nat2Pos.id (S n)) at 1 by discriminate. rewrite positive_nat_Z. reflexivity.
Qed.
Definition sign (i : nat) : Z := if Nat.even i then 1%Z else (-1)%Z.
Lemma sign_spec : forall i, (-1) ^ i = IZR (sign i).
Proof.
  unfold sign. intros i. induction i as [|i IH]; [reflexivity|]. cbn [pow]. rewrite IH, Nat.even_succ, <- Nat.negb_even. destruct (Nat.even i); cbn; lra.
Qed.
Fixpoint seriesQ (odd : nat) (n : nat) : Q := match n with O => (sign 0 # factP odd)%Q | S m => (seriesQ odd m + (sign (S m) # factP (2 * S m + odd)))%Q end.
Lemma series_sin : forall n, sin_approx 1 n = Q2R (seriesQ 1 n).
Proof.
  unfold sin_approx. induction n; cbn [sum_f_R0 seriesQ].
  - unfold sin_term, Q2R, Qnum, Qden. rewrite <- factP_spec. rewrite pow1, <- sign_spec. unfold Rdiv. rewrite Rmult_1_l. reflexivity.
  - rewrite Q2R_plus, IHn. f_equal. unfold sin_term, Q2R, Qnum, Qden. rewrite <- factP_spec, pow1, <- sign_spec. unfold Rdiv. rewrite Rmult_1_l. reflexivity.
Qed.
Lemma series_cos : forall n, cos_approx 1 n = Q2R (seriesQ 0 n).
Proof.
  unfold cos_approx. induction n; cbn [sum_f_R0 seriesQ].
  - unfold cos_term, Q2R, Qnum, Qden. rewrite <- factP_spec. rewrite pow1, <- sign_spec. unfold Rdiv. rewrite Rmult_1_l. reflexivity.
  - rewrite Q2R_plus, IHn. f_equal. unfold cos_term, Q2R, Qnum, Qden. rewrite <- factP_spec, pow1, <- sign_spec. unfold Rdiv. rewrite Rmult_1_l, Nat.add_0_r. reflexivity.
Qed.
Definition sin1 : Z := 1118506790647359666268926078808821564%Z.
Definition cos1 : Z := 718184951147075946983144219864494525%Z.
Lemma close_Q : forall x a lo hi, Q2R lo <= x <= Q2R hi -> Qle_bool ((a - 2) # 2 ^ 120) lo = true -> Qle_bool hi ((a + 2) # 2 ^ 120) = true -> close x a 2.
Proof.
  intros x a lo hi (H1 & H2) L U. apply Qle_bool_iff in L, U. apply Qle_Rle in L, U.
  assert (SP: 0 < IZR scale) by (apply (IZR_lt 0); reflexivity).
  assert (EL: Q2R ((a - 2) # 2 ^ 120) = (IZR a - 2) * / IZR scale) by (unfold Q2R, Qnum, Qden; rewrite minus_IZR; reflexivity).
  assert (EU: Q2R ((a + 2) # 2 ^ 120) = (IZR a + 2) * / IZR scale) by (unfold Q2R, Qnum, Qden; rewrite plus_IZR; reflexivity).
  rewrite EL in L. rewrite EU in U. unfold close. apply Rabs_le.
  assert (L1: (IZR a - 2) * / IZR scale * IZR scale <= x * IZR scale) by (apply Rmult_le_compat_r; lra).
  assert (U1: x * IZR scale <= (IZR a + 2) * / IZR scale * IZR scale) by (apply Rmult_le_compat_r; lra).
  rewrite Rmult_assoc, Rinv_l, Rmult_1_r in L1, U1 by lra. lra.
Qed.
Lemma sin1_close : close (sin 1) sin1 2.
Proof.
  destruct (pre_sin_bound 1 15) as (A & B); [lra|lra|]. rewrite series_sin in A, B. eapply close_Q; [split; eassumption| |]; vm_compute; reflexivity.
Qed.
Lemma cos1_close : close (cos 1) cos1 2.
Proof.
  destruct (pre_cos_bound 1 15) as (A & B); [lra|lra|]. rewrite series_cos in A, B. eapply close_Q; [split; eassumption| |]; vm_compute; reflexivity.
Qed.
(** does the table entry k enclose the integer part of 2^32 |sin n|? *)
Definition entry_ok (n : nat) (k : Z) : bool :=
  let '(s, _, e) := table sin1 cos1 2 n in
  (k * scale <=? 2 ^ 32 * (Z.abs s - e))%Z && (2 ^ 32 * (Z.abs s + e) <? (k + 1) * scale)%Z.
Lemma entry_spec : forall n k, entry_ok n k = true -> T_ n = k.
Proof.
  intros n k H. unfold entry_ok in H. pose proof (table_close sin1 cos1 2 n sin1_close cos1_close ltac:(vm_compute; discriminate) ltac:(vm_compute; discriminate)) as C.
  destruct (table sin1 cos1 2 n) as ((s, c), e). destruct C as (C & _). apply andb_prop in H. destruct H as (H1 & H2). apply Z.leb_le in H1. apply Z.ltb_lt in H2.
  apply IZR_le in H1. apply IZR_lt in H2. rewrite !mult_IZR in H1, H2. rewrite minus_IZR in H1. rewrite !plus_IZR in H2. rewrite abs_IZR in H1, H2. unfold close in C.
  assert (SP: 0 < IZR scale) by (apply (IZR_lt 0); reflexivity).
  assert (D: Rabs (Rabs (sin (INR n)) * IZR scale - Rabs (IZR s)) <= IZR e).
  { eapply Rle_trans; [|exact C]. replace (Rabs (sin (INR n)) * IZR scale) with (Rabs (sin (INR n) * IZR scale)) by (rewrite Rabs_mult, (Rabs_pos_eq (IZR scale)) by lra; auto). apply Rabs_triang_inv2. }
  apply rb in D. unfold T_. change (IZR (2 ^ 32)) with 4294967296 in *. replace (2 ^ 32) with 4294967296 by lra. set (x := Rabs (sin (INR n))) in *. change (IZR 1) with 1 in *.
  assert (E1: IZR k * IZR scale <= 4294967296 * x * IZR scale) by nra. assert (E2: 4294967296 * x * IZR scale < (IZR k + 1) * IZR scale) by nra.
  apply Rmult_le_reg_r in E1; auto. apply Rmult_lt_reg_r in E2; auto. unfold Int_part.
  rewrite <- (tech_up (4294967296 * x) (k + 1)); [ring | rewrite plus_IZR; lra | rewrite plus_IZR; lra].
Qed.
Lemma extra_sines : forall i, (i < 64)%nat -> nth i extra 0%Z = T_ (i + 1).
Proof.
  intros i H. symmetry. apply entry_spec. assert (A: forallb (fun i => entry_ok (i + 1) (nth i extra 0%Z)) (seq 0 64) = true) by (vm_compute; reflexivity).
  rewrite forallb_forall in A. apply A. apply in_seq. lia.
Qed.
End Sines.

(** ** one operation *)
Lemma lor_disjoint : forall a b n, 0 <= n -> 0 <= b < 2 ^ n -> Z.lor (a * 2 ^ n) b = a * 2 ^ n + b.
Proof.
  intros a b n Hn Hb. rewrite <- Z.shiftl_mul_pow2 by auto. rewrite <- Z.lxor_lor, Z.add_nocarry_lxor; auto;
  apply Z.bits_inj'; intros i Hi; rewrite Z.land_spec, Z.shiftl_spec, Z.bits_0 by auto; (destruct (Z.lt_ge_cases i n) as [L|L]; [rewrite Z.testbit_neg_r by lia; reflexivity|]);
  (replace (Z.testbit b i) with false; [apply andb_false_r|]); symmetry; destruct (Z.eq_dec b 0) as [->|]; try apply Z.bits_0; apply Z.bits_above_log2; try lia; apply Z.log2_lt_pow2; try lia;
  eapply Z.lt_le_trans; [apply Hb|apply Z.pow_le_mono_r; lia| apply Hb | apply Z.pow_le_mono_r; lia].
Qed.
Lemma rotate_spec : forall x s, 0 <= x < 2 ^ 32 -> 0 < s < 32 -> Z.lor (u32 (Z.shiftl x s)) (Z.shiftr x (32 - s)) = rotate_left x s.
Proof.
  intros x s Hx Hs. unfold rotate_left, u32. rewrite Z.shiftl_mul_pow2, Z.shiftr_div_pow2 by lia.
  replace (2 ^ 32) with (2 ^ (32 - s) * 2 ^ s) at 1 2 by (rewrite <- Z.pow_add_r by lia; f_equal; lia).
  rewrite Zmult_mod_distr_r. rewrite lor_disjoint; auto; [lia|]. split; [apply Z.div_pos; [lia|apply Z.pow_pos_nonneg; lia]|].
  apply Z.div_lt_upper_bound; [apply Z.pow_pos_nonneg; lia|]. rewrite <- Z.pow_add_r by lia. replace (32 - s + s) with 32 by lia. lia.
Qed.
Lemma not32_spec : forall x, not32 x = complement x.
Proof. intros x. unfold not32, u32, complement, Z.lnot. replace (2 ^ 32 - 1 - x) with (Z.pred (- x) + 1 * 2 ^ 32) by (unfold Z.pred; ring). rewrite Z.mod_add by discriminate. reflexivity. Qed.
Lemma word_spec : forall m j, Forall (fun b => 0 <= b < 2 ^ 8) m -> word m j = word_ m j.
Proof.
  intros m j H. assert (N: forall k, 0 <= nth k m 0 < 2 ^ 8). { intros k. destruct (nth_in_or_default k m 0) as [I|E]; [rewrite Forall_forall in H; auto|rewrite E; lia]. }
  unfold word, word_. rewrite Nat.add_0_r. pose proof (N (4 * j + 3)%nat) as B3. pose proof (N (4 * j + 2)%nat) as B2. pose proof (N (4 * j + 1)%nat) as B1. pose proof (N (4 * j)%nat) as B0.
  set (b3 := nth (4 * j + 3) m 0) in *. set (b2 := nth (4 * j + 2) m 0) in *. set (b1 := nth (4 * j + 1) m 0) in *. set (b0 := nth (4 * j) m 0) in *.
  assert (S: forall x b, 0 <= x < 2 ^ 24 -> 0 <= b < 2 ^ 8 -> Z.lor (u32 (Z.shiftl x 8)) b = x * 2 ^ 8 + b).
  { intros x b Hx Hb. rewrite Z.shiftl_mul_pow2 by lia. unfold u32. rewrite Z.mod_small by lia. apply lor_disjoint; lia. }
  rewrite (S b3 b2) by lia. rewrite (S (b3 * 2 ^ 8 + b2) b1) by lia. rewrite S by lia. ring.
Qed.
(** which function, word and rotation the code uses in round i *)
Definition fn (i : nat) : Z -> Z -> Z -> Z := match Nat.div i 16 with 0%nat => F_ | 1%nat => G_ | 2%nat => H_ | _ => I_ end.
Definition wd (i : nat) : nat := match Nat.div i 16 with 0%nat => i | 1%nat => Nat.modulo (5 * i + 1) 16 | 2%nat => Nat.modulo (3 * i + 5) 16 | _ => Nat.modulo (7 * i) 16 end.
Lemma round_spec : forall m a b c d i, Forall (fun b => 0 <= b < 2 ^ 8) m -> (i < 64)%nat ->
  md5_round m (mkR a b c d) i = mkR d (op (fn i) (word_ m) a b c d (wd i) (nth i rotations 0) (i + 1)) b c.
Proof.
  intros m a b c d i Hm Hi. unfold md5_round. cbn [rA rB rC rD].
  assert (E: (match Nat.div i 16 with
    | 0%nat => (Z.lor (Z.land b c) (Z.land (not32 b) d), i)
    | 1%nat => (Z.lor (Z.land d b) (Z.land (not32 d) c), Nat.modulo (5 * i + 1) 16)
    | 2%nat => (Z.lxor (Z.lxor b c) d, Nat.modulo (3 * i + 5) 16)
    | _ => (Z.lxor c (Z.lor b (not32 d)), Nat.modulo (7 * i) 16)
    end) = (fn i b c d, wd i)).
  { unfold fn, wd. destruct (Nat.div i 16) as [|[|[|]]]; unfold F_, G_, H_, I_; rewrite ?not32_spec; auto. rewrite (Z.land_comm d b), (Z.land_comm (complement d) c). reflexivity. }
  rewrite E. f_equal. unfold op. rewrite extra_sines, word_spec by auto.
  assert (R: 0 < nth i rotations 0 < 32). { assert (A: forallb (fun i => (0 <? nth i rotations 0) && (nth i rotations 0 <? 32)) (seq 0 64) = true) by reflexivity. rewrite forallb_forall in A. specialize (A i ltac:(apply in_seq; lia)). lia. }
  rewrite rotate_spec; auto; [|unfold u32; apply Z.mod_pos_bound; reflexivity]. unfold u32. do 4 f_equal. ring.
Qed.
Lemma quad_spec : forall m r i, Forall (fun b => 0 <= b < 2 ^ 8) m -> (i + 3 < 64)%nat -> fn (i + 1) = fn i -> fn (i + 2) = fn i -> fn (i + 3) = fn i ->
  fold_left (md5_round m) [i; i + 1; i + 2; i + 3]%nat r =
  quad (fn i) (word_ m) r (wd i) (wd (i + 1)) (wd (i + 2)) (wd (i + 3)) (nth i rotations 0) (nth (i + 1) rotations 0) (nth (i + 2) rotations 0) (nth (i + 3) rotations 0) (i + 1).
Proof.
  intros m (a, b, c, d) i Hm Hi E1 E2 E3. cbn [fold_left]. rewrite !round_spec by (auto; lia). rewrite E1, E2, E3. unfold quad.
  replace (i + 1 + 1)%nat with (i + 2)%nat by lia. replace (i + 2 + 1)%nat with (i + 1 + 2)%nat by lia. replace (i + 3 + 1)%nat with (i + 1 + 3)%nat by lia. reflexivity.
Qed.
Lemma md5_compress : forall m r, Forall (fun b => 0 <= b < 2 ^ 8) m -> md5 m r = compress m r.
Proof.
  intros m r Hm. unfold md5, compress, u32. assert (E: fold_left (md5_round m) (seq 0 64) r = rounds (word_ m) r); [|rewrite E; reflexivity].
  change (seq 0 64) with (([0; 0+1; 0+2; 0+3] ++ [4; 4+1; 4+2; 4+3] ++ [8; 8+1; 8+2; 8+3] ++ [12; 12+1; 12+2; 12+3] ++ [16; 16+1; 16+2; 16+3] ++ [20; 20+1; 20+2; 20+3] ++ [24; 24+1; 24+2; 24+3] ++ [28; 28+1; 28+2; 28+3] ++
    [32; 32+1; 32+2; 32+3] ++ [36; 36+1; 36+2; 36+3] ++ [40; 40+1; 40+2; 40+3] ++ [44; 44+1; 44+2; 44+3] ++ [48; 48+1; 48+2; 48+3] ++ [52; 52+1; 52+2; 52+3] ++ [56; 56+1; 56+2; 56+3] ++ [60; 60+1; 60+2; 60+3])%nat).
  rewrite !fold_left_app. rewrite !quad_spec by (auto; try reflexivity; lia). reflexivity.
Qed.

(** ** padding *)
Lemma length_bytes_spec : forall n, length_bytes n = bytes_le 8 ((8 * n) mod 2 ^ 64).
Proof.
  intros n. unfold length_bytes, bytes_le, u64'. rewrite Z.shiftl_mul_pow2 by lia. change (2 ^ 3) with 8. rewrite (Z.mul_comm n 8). apply map_ext. intros i.
  rewrite Z.shiftr_div_pow2 by lia. rewrite (Z.mul_comm (Z.of_nat i) 8). change 255 with (Z.ones 8). rewrite Z.land_ones by lia. reflexivity.
Qed.
Lemma length_bytes_mod : forall n, length_bytes (u64' n) = length_bytes n.
Proof. intros n. rewrite !length_bytes_spec. unfold u64'. rewrite Z.mul_mod_idemp_r by discriminate. reflexivity. Qed.
Lemma length_bytes_length : forall n, List.length (length_bytes n) = 8%nat.
Proof. intros n. unfold length_bytes. rewrite map_length, seq_length. reflexivity. Qed.
Lemma length_bytes_byte : forall n, Forall (fun b => 0 <= b < 2 ^ 8) (length_bytes n).
Proof. intros n. rewrite length_bytes_spec. unfold bytes_le. apply Forall_forall. intros x Hx. apply in_map_iff in Hx. destruct Hx as (i & <- & _). apply Z.mod_pos_bound. reflexivity. Qed.
Lemma process_step : forall b p r, List.length b = 64%nat -> process (b ++ p) r = process p (compress b r).
Proof.
  intros b p r H. unfold process. rewrite app_length, H. replace ((64 + List.length p) / 64)%nat with (S (List.length p / 64)).
  2:{ replace (64 + List.length p)%nat with (List.length p + 1 * 64)%nat by lia. rewrite Nat.div_add by discriminate. lia. }
  cbn [seq fold_left]. rewrite Nat.mul_0_r. cbn [skipn]. rewrite firstn_app, H, Nat.sub_diag, firstn_all2 by lia. cbn [firstn]. rewrite app_nil_r.
  rewrite <- seq_shift. generalize (compress b r). generalize (seq 0 (List.length p / 64)). induction l as [|j l IH]; intros q; cbn [map fold_left]; auto. rewrite IH. do 2 f_equal.
  replace (64 * S j)%nat with (64 + 64 * j)%nat by lia. rewrite skipn_app, H. rewrite skipn_all2 by (rewrite H; lia). cbn [app]. replace (64 + 64 * j - 64)%nat with (64 * j)%nat by lia. reflexivity.
Qed.
Lemma process_nil : forall r, process [] r = r. Proof. reflexivity. Qed.
Lemma process_one : forall b r, List.length b = 64%nat -> process b r = compress b r.
Proof. intros b r H. rewrite <- (app_nil_r b) at 1. rewrite process_step by auto. apply process_nil. Qed.
Lemma mod64 : forall l z, (z < 64)%nat -> ((l + 1 + z) mod 64 = 56)%nat -> exists q, (l + 1 + z = 64 * q + 56)%nat.
Proof. intros l z _ H. exists ((l + 1 + z) / 64)%nat. pose proof (Nat.div_mod (l + 1 + z) 64 ltac:(discriminate)) as D. rewrite H in D. exact D. Qed.
Lemma zeros_byte : forall n, Forall (fun b => 0 <= b < 2 ^ 8) (repeat 0 n).
Proof. intros n. apply Forall_forall. intros x Hx. apply repeat_spec in Hx. subst. lia. Qed.
(** the loop, the extra block and the padded message *)
Lemma loop_spec : forall fuel input done r z, (List.length input <= fuel)%nat -> (done mod 64 = 0)%nat -> Forall (fun b => 0 <= b < 2 ^ 8) input ->
  (z < 64)%nat -> ((List.length input + 1 + z) mod 64 = 56)%nat ->
  (let '(r', message_size, special_end) := md5_loop fuel input (u64' (Z.of_nat done)) true r in
   if special_end || (0 <? message_size) then md5 (final_block message_size special_end) r' else r') =
  process (input ++ [128] ++ repeat 0 z ++ length_bytes (Z.of_nat (done + List.length input))) r.
Proof.
  induction fuel; intros input done r z HF HD HB HZ HM.
  - destruct input; [|cbn in HF; lia]. cbn [List.length] in HM. destruct (mod64 0 z HZ HM) as (q & Q). assert (z = 55%nat) by lia. subst z. cbn [md5_loop orb app]. rewrite md5_compress.
    + rewrite process_one by (cbn [List.length]; rewrite app_length, repeat_length, length_bytes_length; reflexivity).
      unfold final_block. cbn [List.length app]. rewrite length_bytes_mod, Nat.add_0_r. reflexivity.
    + unfold final_block. cbn [List.length app]. constructor; [lia|]. apply Forall_app. split; [apply zeros_byte|apply length_bytes_byte].
  - destruct input as [|x input].
    { cbn [List.length] in HM. destruct (mod64 0 z HZ HM) as (q & Q). assert (z = 55%nat) by lia. subst z. cbn [md5_loop orb app]. rewrite md5_compress.
      + rewrite process_one by (cbn [List.length]; rewrite app_length, repeat_length, length_bytes_length; reflexivity).
        unfold final_block. cbn [List.length app]. rewrite length_bytes_mod, Nat.add_0_r. reflexivity.
      + unfold final_block. cbn [List.length app]. constructor; [lia|]. apply Forall_app. split; [apply zeros_byte|apply length_bytes_byte]. }
    cbn [md5_loop]. set (m := x :: input) in *. destruct (Nat.ltb_spec (List.length (firstn 64 m)) 64) as [L|L].
    + assert (LM: (List.length m < 64)%nat) by (rewrite firstn_length in L; lia). rewrite firstn_all2 by lia.
      assert (SZ: u64' (u64' (Z.of_nat done) + Z.of_nat (List.length m)) = u64' (Z.of_nat (done + List.length m))) by (unfold u64'; rewrite Z.add_mod_idemp_l by discriminate; f_equal; lia). rewrite SZ.
      unfold last_block. rewrite app_length. cbn [List.length]. destruct (mod64 _ _ HZ HM) as (q & Q). destruct (Nat.ltb_spec (List.length m + 1) 57) as [L2|L2].
      * cbn [orb]. change (0 <? 0) with false. cbn iota. assert (z = 55 - List.length m)%nat by lia. subst z.
        replace (56 - (List.length m + 1))%nat with (55 - List.length m)%nat by lia. rewrite length_bytes_mod.
        replace ((m ++ [128]) ++ repeat 0 (55 - List.length m) ++ length_bytes (Z.of_nat (done + List.length m))) with (m ++ [128] ++ repeat 0 (55 - List.length m) ++ length_bytes (Z.of_nat (done + List.length m))) by (rewrite <- app_assoc; reflexivity).
        rewrite md5_compress by (repeat (apply Forall_app; split); auto using zeros_byte, length_bytes_byte; repeat constructor; lia).
        rewrite process_one; auto. rewrite !app_length, repeat_length, length_bytes_length. cbn [List.length]. lia.
      * cbn [orb]. assert (NZ: 0 < u64' (Z.of_nat (done + List.length m))).
        { unfold u64'. pose proof (Z.mod_pos_bound (Z.of_nat (done + List.length m)) (2 ^ 64) ltac:(reflexivity)). destruct (Z.eq_dec (Z.of_nat (done + List.length m) mod 2 ^ 64) 0) as [E|]; [|lia]. exfalso.
          apply Z.mod_divide in E; [|discriminate]. destruct E as (w & E). apply Nat.mod_divide in HD; [|discriminate]. destruct HD as (v & HD). change (2 ^ 64) with (2 ^ 58 * 64) in E. lia. }
        apply Z.ltb_lt in NZ. rewrite NZ. unfold final_block. cbn [List.length app]. rewrite length_bytes_mod.
        assert (z = (63 - List.length m) + 56)%nat by lia. subst z. rewrite repeat_app.
        replace (m ++ 128 :: ((repeat 0 (63 - List.length m) ++ repeat 0 56) ++ length_bytes (Z.of_nat (done + List.length m)))) with (((m ++ [128]) ++ repeat 0 (63 - List.length m)) ++ (repeat 0 56 ++ length_bytes (Z.of_nat (done + List.length m)))) by (rewrite <- !app_assoc; reflexivity).
        replace (64 - (List.length m + 1))%nat with (63 - List.length m)%nat by lia.
        rewrite process_step by (rewrite !app_length, repeat_length; cbn [List.length]; lia). rewrite process_one by (rewrite app_length, repeat_length, length_bytes_length; reflexivity).
        assert (F1: Forall (fun b => 0 <= b < 2 ^ 8) ((m ++ [128]) ++ repeat 0 (63 - List.length m))).
        { apply Forall_app. split; [|apply zeros_byte]. apply Forall_app. split; auto. constructor; [lia|constructor]. }
        assert (F2: Forall (fun b => 0 <= b < 2 ^ 8) (repeat 0 56 ++ length_bytes (Z.of_nat (done + List.length m)))) by (apply Forall_app; split; [apply zeros_byte|apply length_bytes_byte]).
        change (56 - 0)%nat with 56%nat. rewrite (md5_compress _ _ F1), (md5_compress _ _ F2). reflexivity.
    + assert (L64: List.length (firstn 64 m) = 64%nat) by (rewrite firstn_length in *; lia). rewrite L64.
      assert (SZ: u64' (u64' (Z.of_nat done) + Z.of_nat 64) = u64' (Z.of_nat (done + 64))) by (unfold u64'; rewrite Z.add_mod_idemp_l by discriminate; f_equal; lia). rewrite SZ.
      assert (HB': Forall (fun b => 0 <= b < 2 ^ 8) (firstn 64 m) /\ Forall (fun b => 0 <= b < 2 ^ 8) (skipn 64 m)) by (apply Forall_app; rewrite firstn_skipn; auto).
      assert (LS: List.length m = (64 + List.length (skipn 64 m))%nat) by (rewrite skipn_length; rewrite firstn_length in L64; lia).
      rewrite (IHfuel (skipn 64 m) (done + 64)%nat _ z).
      * rewrite md5_compress by apply HB'. rewrite <- process_step by auto. rewrite app_assoc, firstn_skipn. replace (done + 64 + List.length (skipn 64 m))%nat with (done + List.length m)%nat by lia. reflexivity.
      * unfold m in *. cbn [List.length] in *. lia.
      * rewrite <- Nat.add_mod_idemp_r by discriminate. cbn. rewrite Nat.add_0_r. auto.
      * apply HB'.
      * auto.
      * rewrite LS in HM. replace (64 + List.length (skipn 64 m) + 1 + z)%nat with (List.length (skipn 64 m) + 1 + z + 1 * 64)%nat in HM by lia. rewrite Nat.mod_add in HM by discriminate. exact HM.
Qed.
(** ** the digest *)
Lemma hex_char_spec : forall x, 0 <= x < 16 -> hex_char x = hex_digit x.
Proof.
  intros x H. assert (A: forall n, (n < 16)%nat -> hex_char (Z.of_nat n) = hex_digit (Z.of_nat n)). { intros n Hn. do 16 (destruct n as [|n]; [reflexivity|]). lia. }
  rewrite <- (Z2Nat.id x) by lia. apply A. lia.
Qed.
Lemma tohex_spec : forall x, tohex x = hex_bytes (bytes_le 4 x).
Proof.
  intros x. unfold tohex, hex_bytes, bytes_le. cbn [seq map flat_map app]. 
  assert (N: forall i, 0 <= i -> hex_char (Z.land (Z.shiftr x ((2 * i + 1 - 0) * 4)) 15) = hex_digit ((x / 2 ^ (8 * i)) mod 2 ^ 8 / 16) /\ hex_char (Z.land (Z.shiftr x ((2 * i + 1 - 1) * 4)) 15) = hex_digit (((x / 2 ^ (8 * i)) mod 2 ^ 8) mod 16)).
  { intros i Hi. change 15 with (Z.ones 4). rewrite !Z.land_ones, !Z.shiftr_div_pow2 by lia. rewrite !hex_char_spec by (apply Z.mod_pos_bound; reflexivity). split; f_equal.
    - replace ((2 * i + 1 - 0) * 4) with (8 * i + 4) by ring. rewrite Z.pow_add_r by lia. rewrite <- Z.div_div by (try apply Z.pow_pos_nonneg; lia). change (2 ^ 8) with (16 * 16). change (2 ^ 4) with 16.
      rewrite Z.rem_mul_r by lia. rewrite (Z.mul_comm 16 (_ mod 16)), Z.div_add by lia. rewrite (Z.div_small (_ mod 16)) by (apply Z.mod_pos_bound; lia). ring.
    - replace ((2 * i + 1 - 1) * 4) with (8 * i) by ring. change (2 ^ 8) with (16 * 16). rewrite Z.rem_mul_r by lia. change (2 ^ 4) with 16. rewrite (Z.mul_comm 16 (_ mod 16)), Z.mod_add, Z.mod_mod by lia. reflexivity. }
  destruct (N 0 ltac:(lia)) as (A1 & A2). destruct (N 1 ltac:(lia)) as (B1 & B2). destruct (N 2 ltac:(lia)) as (C1 & C2). destruct (N 3 ltac:(lia)) as (D1 & D2).
  change (Z.of_nat 0) with 0. change (Z.of_nat 1) with 1. change (Z.of_nat 2) with 2. change (Z.of_nat 3) with 3.
  rewrite A1, A2, B1, B2, C1, C2, D1, D2. reflexivity.
Qed.
(** C42: the checksum of every byte string is the MD5 digest of the padded string *)
Theorem C42_md5 : forall (message : text) (p : list Z), padded (map code message) p ->
  get_checksum message = hex_digest (process p (mkR 0x67452301 0xefcdab89 0x98badcfe 0x10325476)).
Proof.
  intros message p (z & HZ & HM & ->). unfold get_checksum, hex_digest, md5_regs. 
  assert (HB: Forall (fun b => 0 <= b < 2 ^ 8) (map code message)).
  { apply Forall_forall. intros x Hx. apply in_map_iff in Hx. destruct Hx as (c & <- & _). unfold code. pose proof (nat_ascii_bounded c). change (2 ^ 8) with 256. lia. }
  pose proof (loop_spec (List.length (map code message)) (map code message) 0 regs0 z ltac:(lia) eq_refl HB HZ HM) as L. change (u64' (Z.of_nat 0)) with 0 in L. cbn [Nat.add] in L. rewrite length_bytes_spec in L.
  destruct (md5_loop _ _ 0 true regs0) as ((r, sz), sp). rewrite L. rewrite !tohex_spec. unfold hex_bytes. rewrite !flat_map_app. reflexivity.
Qed.
Print Assumptions C42_md5.
(** every message has exactly one padding, and it consists of whole blocks *)
Theorem C42_padding_exists : forall m, exists p, padded m p /\ (List.length p mod 64 = 0)%nat /\ forall p', padded m p' -> p' = p.
Proof.
  intros m. exists (m ++ [128] ++ repeat 0 ((55 + (64 - List.length m mod 64)) mod 64) ++ bytes_le 8 ((8 * Z.of_nat (List.length m)) mod 2 ^ 64)).
  set (l := List.length m). pose proof (Nat.div_mod l 64 ltac:(discriminate)) as DM. pose proof (Nat.mod_upper_bound l 64 ltac:(discriminate)) as MB. set (z := ((55 + (64 - l mod 64)) mod 64)%nat).
  pose proof (Nat.div_mod (55 + (64 - l mod 64)) 64 ltac:(discriminate)) as DZ. pose proof (Nat.mod_upper_bound (55 + (64 - l mod 64)) 64 ltac:(discriminate)) as MZ. fold z in DZ, MZ.
  assert (E: exists q, (l + 1 + z = 64 * q + 56)%nat) by (exists (l / 64 + 1 - (55 + (64 - l mod 64)) / 64)%nat; lia). destruct E as (q & E).
  assert (EM: ((l + 1 + z) mod 64 = 56)%nat). { rewrite E, Nat.add_comm, Nat.mul_comm, Nat.mod_add by discriminate. reflexivity. }
  split; [exists z; auto|]. split.
  - rewrite !app_length, repeat_length. unfold bytes_le. rewrite map_length, seq_length. cbn [List.length]. fold l. replace (l + (1 + (z + 8)))%nat with (0 + (q + 1) * 64)%nat by lia. rewrite Nat.mod_add by discriminate. reflexivity.
  - intros p' (z' & HZ & HM & ->). fold l in HM. destruct (mod64 l z' HZ HM) as (q' & Q'). assert (z' = z) by lia. subst z'. reflexivity.
Qed.
Print Assumptions C42_padding_exists.
Example C42_example : get_checksum (T "message digest") = T "f96b697d7cb7938d525a2f31aaf161d0" /\
  (* exactly 56 and 64 bytes *) get_checksum (T "12345678901234567890123456789012345678901234567890123456") = T "49f193adce178490e34d1b3a4ec0064c" /\
  get_checksum (T "1234567890123456789012345678901234567890123456789012345678901234") = T "eb6c4179c0a7c82cc2828c1e6338e165".
Proof. repeat split; vm_compute; reflexivity. Qed.
