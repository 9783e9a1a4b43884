(** C82: array arguments of the Python functions *)
From Coq Require Import List Arith ZArith Lia Bool.
From Verif Require Import Clebsch Matrix NumPy.
Import ListNotations.
Local Open Scope Z_scope.

(* ------------------------------------------------------------ buffers *)
Lemma buffer_byte : forall base size l i off, 0 < Z.of_nat size -> 0 <= off < Z.of_nat size -> (i < length l)%nat ->
  buffer base size l (base + Z.of_nat size * Z.of_nat i + off) = Some (nth i l 0 / 256 ^ off mod 256).
Proof.
  intros base size l i off Hs Ho Hi. unfold buffer. cbv zeta.
  assert (B: Z.of_nat size * Z.of_nat i + Z.of_nat size <= Z.of_nat size * Z.of_nat (length l)) by (rewrite <- Z.mul_succ_r; apply Z.mul_le_mono_nonneg_l; lia).
  replace (base + Z.of_nat size * Z.of_nat i + off <? base) with false by (symmetry; apply Z.ltb_ge; assert (0 <= Z.of_nat size * Z.of_nat i) by (apply Z.mul_nonneg_nonneg; lia); lia).
  replace (base + Z.of_nat size * Z.of_nat (length l) <=? base + Z.of_nat size * Z.of_nat i + off) with false by (symmetry; apply Z.leb_gt; lia).
  cbn [orb]. replace (base + Z.of_nat size * Z.of_nat i + off - base) with (off + Z.of_nat i * Z.of_nat size) by lia.
  rewrite Z.div_add by lia. rewrite Z.mod_add by lia. rewrite (Z.div_small off) by lia. rewrite (Z.mod_small off) by lia. rewrite Z.add_0_l, Nat2Z.id. reflexivity.
Qed.
Lemma buffer_outside : forall base size l a, a < base \/ base + Z.of_nat size * Z.of_nat (length l) <= a -> buffer base size l a = None.
Proof.
  intros base size l a H. unfold buffer. cbv zeta.
  replace ((a <? base) || (base + Z.of_nat size * Z.of_nat (length l) <=? a)) with true; [reflexivity|]. symmetry. apply orb_true_iff.
  destruct H; [left; apply Z.ltb_lt | right; apply Z.leb_le]; lia.
Qed.
Lemma load_part : forall base size l i, (i < length l)%nat -> forall k off, 0 <= off -> off + Z.of_nat k <= Z.of_nat size ->
  load (buffer base size l) k (base + Z.of_nat size * Z.of_nat i + off) = Some (nth i l 0 / 256 ^ off mod 256 ^ Z.of_nat k).
Proof.
  intros base size l i Hi. induction k as [|k IH]; intros off Ho Hk; cbn [load].
  - cbn. rewrite Z.mod_1_r. reflexivity.
  - rewrite buffer_byte by lia. cbn [obind].
    replace (base + Z.of_nat size * Z.of_nat i + off + 1) with (base + Z.of_nat size * Z.of_nat i + (off + 1)) by lia.
    rewrite IH by lia. cbn [obind]. f_equal.
    rewrite (Z.pow_add_r 256 off 1) by lia. rewrite Z.pow_1_r. rewrite <- Z.div_div by (try apply Z.pow_nonzero; lia).
    replace (Z.of_nat (S k)) with (1 + Z.of_nat k) by lia. rewrite (Z.pow_add_r 256 1) by lia. rewrite Z.pow_1_r.
    rewrite Z.rem_mul_r; [reflexivity | lia | apply Z.pow_pos_nonneg; lia].
Qed.
Lemma load_word : forall base size l i, (i < length l)%nat -> 0 <= nth i l 0 < 256 ^ Z.of_nat size ->
  load (buffer base size l) size (base + Z.of_nat size * Z.of_nat i) = Some (nth i l 0).
Proof.
  intros base size l i Hi Hw. replace (base + Z.of_nat size * Z.of_nat i) with (base + Z.of_nat size * Z.of_nat i + 0) by lia.
  rewrite load_part by lia. rewrite Z.pow_0_r, Z.div_1_r, Z.mod_small by lia. reflexivity.
Qed.
Lemma load_app : forall m j k a, load m (j + k) a = obind (load m j a) (fun x => obind (load m k (a + Z.of_nat j)) (fun y => Some (x + 256 ^ Z.of_nat j * y))).
Proof.
  intros m. induction j as [|j IH]; intros k a.
  - cbn [Nat.add load obind]. change (Z.of_nat 0) with 0. rewrite Z.add_0_r. destruct (load m k a); cbn [obind]; auto. f_equal. rewrite Z.pow_0_r. lia.
  - cbn [Nat.add load]. rewrite IH. destruct (m a) as [b|]; cbn [obind]; auto. destruct (load m j (a + 1)) as [x|]; cbn [obind]; auto.
    replace (a + 1 + Z.of_nat j) with (a + Z.of_nat (S j)) by lia. destruct (load m k (a + Z.of_nat (S j))) as [y|]; cbn [obind]; auto. f_equal.
    replace (Z.of_nat (S j)) with (1 + Z.of_nat j) by lia. rewrite Z.pow_add_r by lia. lia.
Qed.
Lemma load_none : forall m k a j, (j < k)%nat -> m (a + Z.of_nat j) = None -> load m k a = None.
Proof.
  intros m. induction k as [|k IH]; intros a j Hj E; [lia|]. cbn [load]. destruct j as [|j].
  - change (Z.of_nat 0) with 0 in E. rewrite Z.add_0_r in E. rewrite E. reflexivity.
  - rewrite (IH (a + 1) j); [destruct (m a); reflexivity | lia|]. replace (a + 1 + Z.of_nat j) with (a + Z.of_nat (S j)) by lia. auto.
Qed.

(** the words of a slice [start : : step] of a buffer, as the array NumPy makes of it *)
Definition slice (base : Z) (size : nat) (n : nat) (start step : Z) : ndarray :=
  mkArray (base + Z.of_nat size * start) [Z.of_nat n] [Z.of_nat size * step].
Lemma slice_holds : forall V (decode : Z -> V) base size words n start step (l : list V), (forall w, In w words -> 0 <= w < 256 ^ Z.of_nat size) ->
  length l = n ->
  (forall i v, nth_error l i = Some v -> exists w, 0 <= start + step * Z.of_nat i /\ nth_error words (Z.to_nat (start + step * Z.of_nat i)) = Some w /\ decode w = v) ->
  holds decode (buffer base size words) size (slice base size n start step) l.
Proof.
  intros V decode base size words n start step l Hw <- H. right. exists (Z.of_nat size * step). split; [reflexivity|]. split; [reflexivity|].
  intros i v Hi. destruct (H i v Hi) as (w & P & N & D). exists w. split; auto. unfold element_word, slice. cbn [data strides combine map fold_right fst snd].
  set (j := Z.to_nat (start + step * Z.of_nat i)) in *.
  assert (J: Z.of_nat j = start + step * Z.of_nat i) by (unfold j; lia).
  replace (base + Z.of_nat size * start + (Z.of_nat i * (Z.of_nat size * step) + 0)) with (base + Z.of_nat size * Z.of_nat j) by (rewrite J; ring).
  assert (L: (j < length words)%nat) by (apply nth_error_Some; rewrite N; discriminate).
  rewrite (nth_error_nth' words 0 L) in N. injection N as N. rewrite load_word; [rewrite N; reflexivity | auto|]. apply Hw. apply nth_In. auto.
Qed.

(* ------------------------------------------------------------ C82 *)
(** Whatever the layout (steps, reversed, broadcast with stride 0, a number instead of an array): the vector has the values of the array, in order *)
Theorem C82_unpack : forall V (decode : Z -> V) m size a l, holds decode m size a l -> unpack decode m size a = Some l.
Proof. intros. apply unpack_holds. auto. Qed.
Print Assumptions C82_unpack.
(** in particular for every slice of every buffer *)
Theorem C82_slice : forall size words n start step (base : Z), (forall w, In w words -> 0 <= w < 256 ^ Z.of_nat size) ->
  (forall i, (i < n)%nat -> 0 <= start + step * Z.of_nat i < Z.of_nat (length words)) ->
  unpack (fun w => w) (buffer base size words) size (slice base size n start step) = Some (map (fun i => nth (Z.to_nat (start + step * Z.of_nat i)) words 0) (seq 0 n)).
Proof.
  intros size words n start step base Hw H. apply unpack_holds. apply slice_holds; auto; [rewrite map_length, seq_length; auto|].
  intros i v Hi. assert (L: (i < n)%nat). { assert (nth_error (map (fun i => nth (Z.to_nat (start + step * Z.of_nat i)) words 0) (seq 0 n)) i <> None) as N by congruence.
    apply nth_error_Some in N. rewrite map_length, seq_length in N. auto. }
  rewrite (nth_error_nth' _ 0) in Hi by (rewrite map_length, seq_length; auto). injection Hi as Hi.
  rewrite (nth_indep _ 0 (nth (Z.to_nat (start + step * Z.of_nat 0)) words 0)) in Hi by (rewrite map_length, seq_length; auto).
  rewrite (map_nth (fun i => nth (Z.to_nat (start + step * Z.of_nat i)) words 0)) in Hi. rewrite seq_nth in Hi by auto. cbn [Nat.add] in Hi.
  exists v. split; [apply H; auto|]. split; auto. rewrite <- Hi. apply nth_error_nth'. specialize (H i L). lia.
Qed.
Print Assumptions C82_slice.
Example C82_slice_example : unpack (fun w => w) (buffer 4096 8 [10; 11; 12; 13; 14]) 8 (slice 4096 8 3 4 (-2)) = Some [14; 12; 10].
Proof. apply (C82_slice 8 [10; 11; 12; 13; 14] 3 4 (-2) 4096); [|intros i Hi; cbn [length]; lia]. intros w H. cbn in H. cbn. lia. Qed.

(** more than one dimension: no values at all (get_table then computes nothing for this argument) *)
Theorem C82_more_dimensions : forall V (decode : Z -> V) m size a, (length (dims a) > 1)%nat -> unpack decode m size a = Some [].
Proof. intros V decode m size a H. unfold unpack, as_vector. destruct (dims a) as [|d [|d' ds]]; cbn in H; try lia; reflexivity. Qed.
Print Assumptions C82_more_dimensions.
Example C82_more_dimensions_example : unpack (fun w => w) (buffer 0 8 [1; 2; 3; 4]) 8 (mkArray 0 [2; 2] [16; 8]) = Some [].
Proof. apply C82_more_dimensions. cbn. lia. Qed.

(** The absorption functions of a T-matrix object read adjacent words instead. The values are right for every number and every array with
    adjacent elements... *)
Definition adjacent (a : ndarray) : Prop := dims a = [] \/ strides a = [8] \/ exists n, dims a = [n] /\ n <= 1.
Theorem C82_absorption_angles : forall V (decode : Z -> V) m a l, holds decode m 8 a l -> adjacent a -> unpack_adjacent decode m (Z.of_nat (length l)) a = Some l.
Proof.
  intros V decode m a l H A. unfold unpack_adjacent. rewrite Nat2Z.id. destruct H as [(D & w & v & -> & E & <-) | (s & D & S_ & H)].
  - apply read_loop_all; auto. intros k v Hk. destruct k as [|[|k]]; try discriminate. injection Hk as <-. exists w. split; [exact E | reflexivity].
  - apply read_loop_all; auto. intros k v Hk. destruct (H k v Hk) as (w & E & F). exists w. split; auto. rewrite <- E. unfold element_word. rewrite S_.
    cbn [combine map fold_right fst snd]. f_equal. rewrite Z.add_0_l, Z.add_0_r.
    assert (L: (k < length l)%nat) by (apply nth_error_Some; congruence). destruct A as [A | [A | (n & A & B)]]; [congruence | |].
    + rewrite S_ in A. injection A as ->. lia.
    + rewrite D in A. injection A as A. assert (k = 0)%nat by lia. subst k. lia.
Qed.
Print Assumptions C82_absorption_angles.
Example C82_absorption_angles_example : unpack_adjacent (fun w => w) (buffer 64 8 [7; 8; 9]) 3 (slice 64 8 3 0 1) = Some [7; 8; 9].
Proof.
  apply (C82_absorption_angles Z (fun w => w) (buffer 64 8 [7; 8; 9]) (slice 64 8 3 0 1) [7; 8; 9]); [|right; left; reflexivity].
  apply slice_holds; [intros w H; cbn in H; cbn; lia | reflexivity|]. intros i v Hi. exists v. split; [lia|]. split; auto.
  rewrite <- Hi. f_equal. lia.
Qed.
(** ... and wrong for a[::2] (the first elements of the buffer are used) and for a[::-1] (a read outside of the buffer), where [C82_unpack] holds *)
Theorem C82_absorption_angles_every_second_refuted : forall (base : Z) (words : list Z) n, (forall w, In w words -> 0 <= w < 256 ^ 8) -> (length words = 2 * n)%nat ->
  unpack_adjacent (fun w => w) (buffer base 8 words) (Z.of_nat n) (slice base 8 n 0 2) = Some (firstn n words) /\
  unpack (fun w => w) (buffer base 8 words) 8 (slice base 8 n 0 2) = Some (map (fun i => nth (2 * i) words 0) (seq 0 n)).
Proof.
  intros base words n Hw L. split.
  - unfold unpack_adjacent. rewrite Nat2Z.id. apply read_loop_all; [rewrite firstn_length; lia|]. intros k v Hk. exists v. split; auto.
    assert (K: (k < n)%nat). { assert (nth_error (firstn n words) k <> None) as N by congruence. apply nth_error_Some in N. rewrite firstn_length in N. lia. }
    unfold slice. cbn [data]. rewrite Z.add_0_l. replace (base + Z.of_nat 8 * 0 + 8 * Z.of_nat k) with (base + Z.of_nat 8 * Z.of_nat k) by lia.
    assert (N: nth k words 0 = v). { rewrite <- (firstn_skipn n words). rewrite app_nth1 by (rewrite firstn_length; lia). apply nth_error_nth with (d := 0) in Hk. auto. }
    rewrite load_word; [rewrite N; reflexivity | lia|]. apply Hw. apply nth_In. lia.
  - rewrite C82_slice; [|exact Hw | intros; lia]. f_equal. apply map_ext. intros i. f_equal. lia.
Qed.
Print Assumptions C82_absorption_angles_every_second_refuted.
Theorem C82_absorption_angles_reversed_refuted : forall (base : Z) (words : list Z) n, (forall w, In w words -> 0 <= w < 256 ^ 8) -> (length words = n)%nat -> (n > 1)%nat ->
  unpack_adjacent (fun w => w) (buffer base 8 words) (Z.of_nat n) (slice base 8 n (Z.of_nat n - 1) (-1)) = None /\
  unpack (fun w => w) (buffer base 8 words) 8 (slice base 8 n (Z.of_nat n - 1) (-1)) = Some (rev words).
Proof.
  intros base words n Hw L H. split.
  - unfold unpack_adjacent. rewrite Nat2Z.id. apply read_loop_fails with (k := 1%nat); [lia|]. apply load_none with (j := 0%nat); [lia|].
    apply buffer_outside. right. unfold slice. cbn [data]. lia.
  - rewrite C82_slice; [|exact Hw | intros; lia]. f_equal. apply nth_ext with (d := 0) (d' := 0); rewrite map_length, seq_length; [rewrite rev_length; auto|].
    intros i Hi. rewrite rev_nth by lia. rewrite (nth_indep _ 0 (nth (Z.to_nat (Z.of_nat n - 1 + -1 * Z.of_nat 0)) words 0)) by (rewrite map_length, seq_length; auto).
    rewrite (map_nth (fun i => nth (Z.to_nat (Z.of_nat n - 1 + -1 * Z.of_nat i)) words 0)). rewrite seq_nth by auto. f_equal. lia.
Qed.
Print Assumptions C82_absorption_angles_reversed_refuted.

(** The element type of the array is not looked at. Types of four bytes ("numpy.int32") are read as words of eight: every value but the last
    is mixed with the one after it, and the last read is outside of the buffer. *)
Theorem C82_four_byte_types_refuted : forall (base : Z) (words : list Z) n, (forall w, In w words -> 0 <= w < 256 ^ 4) -> (length words = n)%nat -> (n > 0)%nat ->
  unpack (fun w => w) (buffer base 4 words) 8 (slice base 4 n 0 1) = None /\
  unpack (fun w => w) (buffer base 4 words) 4 (slice base 4 n 0 1) = Some words /\
  (forall i, (i + 1 < n)%nat -> load (buffer base 4 words) 8 (getptr1 (slice base 4 n 0 1) (Z.of_nat i)) = Some (nth i words 0 + 2 ^ 32 * nth (i + 1) words 0)).
Proof.
  intros base words n Hw L H. split; [|split].
  - unfold unpack, as_vector, slice. cbn [dims]. rewrite Nat2Z.id. apply read_loop_fails with (k := (n - 1)%nat); [lia|].
    apply load_none with (j := 4%nat); [lia|]. apply buffer_outside. right. unfold getptr1. cbn [data strides nth]. lia.
  - rewrite C82_slice; [|exact Hw | intros; lia]. f_equal. apply nth_ext with (d := 0) (d' := 0); rewrite map_length, seq_length; auto.
    intros i Hi. rewrite (nth_indep _ 0 (nth (Z.to_nat (0 + 1 * Z.of_nat 0)) words 0)) by (rewrite map_length, seq_length; auto).
    rewrite (map_nth (fun i => nth (Z.to_nat (0 + 1 * Z.of_nat i)) words 0)). rewrite seq_nth by auto. f_equal. lia.
  - intros i Hi. change 8%nat with (4 + 4)%nat. rewrite load_app. unfold getptr1, slice. cbn [data strides nth].
    replace (base + Z.of_nat 4 * 0 + Z.of_nat i * (Z.of_nat 4 * 1)) with (base + Z.of_nat 4 * Z.of_nat i) by lia.
    rewrite load_word; [|lia | apply Hw, nth_In; lia]. cbn [obind].
    replace (base + Z.of_nat 4 * Z.of_nat i + Z.of_nat 4) with (base + Z.of_nat 4 * Z.of_nat (i + 1)) by lia.
    rewrite load_word; [|lia | apply Hw, nth_In; lia]. cbn [obind]. reflexivity.
Qed.
Print Assumptions C82_four_byte_types_refuted.
(** An integer given for an angle, size or wavelength ("sizes=[1, 2]") is read as the bits of a double: any integer from 1 to 2^52 becomes
    a denormal number below 10^-307 *)
Theorem C82_integer_argument_refuted : forall k, 0 <= k < 2 ^ 52 -> double k = Some (k, -1074).
Proof.
  intros k H. unfold double. rewrite (Z.div_small k (2 ^ 52)), (Z.div_small k (2 ^ 63)), (Z.mod_small k) by lia. cbn. destruct k; reflexivity.
Qed.
Print Assumptions C82_integer_argument_refuted.
(** whereas the doubles of the array are read as they are: the word of 1.5 *)
Example C82_double_example : double (0x3FF8000000000000) = Some (3 * 2 ^ 51, -52).
Proof. reflexivity. Qed.
