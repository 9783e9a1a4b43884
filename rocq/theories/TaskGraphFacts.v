(** Closed forms of the event list of TaskGraph.v. *)
From Coq Require Import List Arith Lia Bool ZArith Permutation.
From Verif Require Import Base TaskGraph.
Import ListNotations.

Definition kind_eq_dec : forall a b : kind, {a = b} + {a <> b}.
Proof. decide equality. Defined.
Definition task_eq_dec : forall a b : task, {a = b} + {a <> b}.
Proof. decide equality; try apply Nat.eq_dec; apply kind_eq_dec. Defined.
Definition res_eq_dec : forall a b : res, {a = b} + {a <> b}.
Proof. decide equality; try apply Nat.eq_dec; try apply kind_eq_dec; apply task_eq_dec. Defined.

Lemma in_kinds : forall k, In k kinds.
Proof. intros []; cbn; auto. Qed.

Lemma n_quad_eq : forall c, o_min c <= o_max c -> (Z.of_nat (o_max c) < 2 ^ 64)%Z -> n_quad c = o_max c - o_min c.
Proof. intros c H1 H2. unfold n_quad. rewrite Z.mod_small by lia. lia. Qed.

Section Facts.
Variable c : cfg.
Notation G := (n_quad c).
Notation N := (n_slot c).
Notation S_ := (n_shape c).

Lemma in_for_kinds : forall e f, In e (for_kinds c f) <-> exists k, flag c k = true /\ In e (f k).
Proof.
  intros e f. unfold for_kinds. rewrite in_flat_map. split.
  - intros (k & _ & H). destruct (flag c k) eqn:E; [eauto|contradiction].
  - intros (k & E & H). exists k. split; [apply in_kinds|]. rewrite E. auto.
Qed.

(** The loop over the orders without the threaded pointer. *)
Definition order_events (r : nat) (un : option task) (p b is ig : nat) : list ev :=
  fst (gen_orders r un p b is [ig] (if ig =? 0 then None else Some (TM0 b (ig - 1)))).

Lemma gen_orders_closed : forall r un p b is n a,
  gen_orders r un p b is (seq a n) (if a =? 0 then None else Some (TM0 b (a - 1))) =
  (flat_map (order_events r un p b is) (seq a n), if a + n =? 0 then None else Some (TM0 b (a + n - 1))).
Proof.
  intros r un p b is. induction n as [|n IH]; intros a.
  - cbn [seq gen_orders flat_map]. rewrite Nat.add_0_r. reflexivity.
  - specialize (IH (S a)). replace (S a =? 0) with false in IH by reflexivity. replace (S a - 1) with a in IH by lia.
    cbn [seq flat_map]. unfold order_events at 1. cbn [gen_orders]. rewrite IH. cbn [fst].
    replace (S a + n) with (a + S n) by lia. rewrite app_nil_r. reflexivity.
Qed.

Definition last_m0 (b : nat) : option task := if G =? 0 then None else Some (TM0 b (G - 1)).

Definition block_events (r : nat) (un : option task) (p b is : nat) : list ev :=
  for_kinds c (fun k => [ERes (RUn k b) None; EPutRes (RUn k b)]) ++
  [ERes (RConv b) None; EPutRes (RConv b)] ++
  flat_map (order_events r un p b is) (seq 0 G) ++
  [ETask (TAL b); ELink (TAL b) (RTm (2 * r)) true; ELink (TAL b) (RTm (2 * r + 1)) false;
   EPutTask (TAL b)] ++
  for_kinds c (fun k =>
    [ETask (TC k b); ELink (TC k b) (RUn k b) true;
     ELink (TC k b) (RIV p) false; ELink (TC k b) (RTm (2 * r + 1)) false; ELink (TC k b) (RT TN) false;
     ELink (TC k b) (RT (TGrid k)) false; ELink (TC k b) (RT (TSW k)) false;
     EDep (TAL b) (TC k b); EDep (TSW k) (TC k b); EPutTask (TC k b);
     ELink (TAv k p) (RUn k b) false; EDep (TC k b) (TAv k p)]) ++
  [ETask (TR1 b); ELink (TR1 b) (RTm (2 * r)) true; EPutTask (TR1 b); EDep (TAL b) (TR1 b);
   ETask (TR2 b); ELink (TR2 b) (RTm (2 * r + 1)) true; EPutTask (TR2 b); EDep (TR1 b) (TR2 b)] ++
  for_kinds c (fun k => [EDep (TC k b) (TR2 b)]) ++
  [ETask (TR3 b); ELink (TR3 b) (RInter r) true; EPutTask (TR3 b); EDep (TR2 b) (TR3 b)] ++
  flat_map (fun i =>
    let t := TMA b (i + 1) in
    [ETask t; ELink t (RTmM (2 * r) (i + 1)) true; ELink t (RT TN) false; ELink t (RConv b) false;
     ELink t (RIV p) false; ELink t (RInter r) false] ++
    dep_ptr (last_m0 b) t ++ [EDep t (TAL b); EPutTask t]) (seq 0 (o_max c)).

Lemma gen_block_closed : forall r un p b is, gen_block c r un p b is = block_events r un p b is.
Proof.
  intros r un p b is. unfold gen_block, block_events.
  pose proof (gen_orders_closed r un p b is G 0) as E. cbn [Nat.eqb plus] in E. rewrite E. reflexivity.
Qed.

(** unlock_tasks entry seen by block [b]: the last reset task of the block that
    used the same slot before *)
Definition unlocker (b : nat) : option task := if b <? N then None else Some (TR3 (b - N)).

Definition nth_block (p is : nat) : list ev :=
  let b := p * S_ + is in block_events (b mod N) (unlocker b) p b is.

Definition gst_ok (b : nat) (s : gst) : Prop :=
  g_reuse s = b mod N /\ length (g_unlock s) = N /\
  forall b', b <= b' < b + N -> nth (b' mod N) (g_unlock s) None = unlocker b'.

Lemma gst_step : 0 < N -> forall b s, gst_ok b s ->
  gst_ok (S b) (mkGst (upd (g_reuse s) (Some (TR3 b)) (g_unlock s)) ((g_reuse s + 1) mod N)).
Proof.
  intros HN b s (H1 & H2 & H3). assert (HB: b mod N < N) by (apply Nat.mod_upper_bound; lia).
  unfold gst_ok. cbn [g_reuse g_unlock]. rewrite H1. split; [|split].
  - rewrite Nat.add_mod_idemp_l by lia. f_equal. lia.
  - rewrite upd_length. auto.
  - intros b' Hb'. rewrite nth_upd by lia.
    destruct (Nat.eqb_spec (b' mod N) (b mod N)) as [e|e].
    + assert (b' = b + N).
      { pose proof (Nat.div_mod b N ltac:(lia)). pose proof (Nat.div_mod b' N ltac:(lia)).
        assert (HQ: b' / N = b / N + 1) by nia. nia. }
      subst b'. unfold unlocker. destruct (Nat.ltb_spec (b + N) N); [lia|]. do 2 f_equal. lia.
    + apply H3. destruct (Nat.eq_dec b' (b + N)) as [->|]; [|lia].
      exfalso. apply e. rewrite <- (Nat.mul_1_l N) at 1. apply Nat.mod_add. lia.
Qed.

Lemma gst_init : 0 < N -> gst_ok 0 (mkGst (repeat None N) 0).
Proof.
  intros HN. unfold gst_ok. cbn [g_reuse g_unlock]. split; [rewrite Nat.mod_0_l by lia; auto|]. split; [apply repeat_length|].
  intros b' Hb'. unfold unlocker. destruct (Nat.ltb_spec b' N); [|lia]. apply nth_repeat.
Qed.

Lemma gen_shapes_closed : 0 < N -> forall p n a s, gst_ok (p * S_ + a) s ->
  fst (gen_shapes c p (seq a n) s) = flat_map (nth_block p) (seq a n) /\
  gst_ok (p * S_ + a + n) (snd (gen_shapes c p (seq a n) s)).
Proof.
  intros HN p. induction n as [|n IH]; intros a s H; cbn [seq gen_shapes flat_map].
  - rewrite Nat.add_0_r. auto.
  - destruct (IH (S a) (mkGst (upd (g_reuse s) (Some (TR3 (p * S_ + a))) (g_unlock s)) ((g_reuse s + 1) mod N))) as (I1 & I2).
    { rewrite Nat.add_succ_r. apply gst_step; auto. }
    destruct (gen_shapes c p (seq (S a) n) _) as (rest, s2). cbn [fst snd] in *. split.
    + f_equal; auto. rewrite gen_block_closed. unfold nth_block. destruct H as (H1 & H2 & H3).
      rewrite H1. rewrite (H3 (p * S_ + a)) by lia. reflexivity.
    + replace (p * S_ + a + S n) with (p * S_ + S a + n) by lia. auto.
Qed.

Lemma flat_map_seq_add : forall A (f : nat -> list A) n a, flat_map f (seq a n) = flat_map (fun i => f (a + i)) (seq 0 n).
Proof.
  intros A f n. induction n as [|n IH]; intros a; cbn [seq flat_map]; auto. f_equal; [f_equal; lia|].
  rewrite (IH (S a)), <- seq_shift, flat_map_concat_map, (flat_map_concat_map _ (map S _)), map_map. f_equal.
  apply map_ext. intros i. f_equal. lia.
Qed.
Lemma map_flat_map : forall A B C (g : B -> C) (f : A -> list B) l, map g (flat_map f l) = flat_map (fun x => map g (f x)) l.
Proof. induction l as [|x l IH]; cbn; auto. rewrite map_app, IH. auto. Qed.
(** a nested loop enumerates consecutive numbers *)
Lemma seq_nested : forall n m a, flat_map (fun i => seq ((a + i) * m) m) (seq 0 n) = seq (a * m) (n * m).
Proof.
  induction n as [|n IH]; intros m a; cbn [seq flat_map]; [rewrite Nat.mul_0_l; auto|].
  rewrite (flat_map_seq_add _ _ n 1). cbn beta. 
  assert (E: flat_map (fun i => seq ((a + (1 + i)) * m) m) (seq 0 n) = flat_map (fun i => seq ((S a + i) * m) m) (seq 0 n)).
  { apply flat_map_ext. intros i. f_equal. f_equal. lia. }
  rewrite E, IH. replace (S a * m) with (a * m + m) by lia. replace (S n * m) with (m + n * m) by lia.
  replace ((a + 0) * m) with (a * m) by lia. symmetry. apply seq_app.
Qed.
Lemma seq_offset : forall n a, map (fun i => a + i) (seq 0 n) = seq a n.
Proof. 
  induction n as [|n IH]; intros a; cbn [seq map]; auto. rewrite Nat.add_0_r. f_equal. rewrite <- (IH (S a)), <- seq_shift, map_map.
  apply map_ext. intros. lia.
Qed.

(** the nested loops visit the points in order 0, 1, 2, ... *)
Lemma points_order : map (point_index c) (points c) = seq 0 (n_point c).
Proof.
  unfold points, point_index, n_point. rewrite map_flat_map.
  rewrite <- Nat.mul_assoc. change 0 with (0 * (n_size c * n_wav c)) at 4. rewrite <- (seq_nested (n_comp c) (n_size c * n_wav c) 0). apply flat_map_ext. intros ic.
  rewrite map_flat_map. cbn [plus].
  replace (ic * (n_size c * n_wav c)) with ((ic * n_size c) * n_wav c) by lia.
  rewrite <- (seq_nested (n_size c) (n_wav c) (ic * n_size c)).
  apply flat_map_ext. intros iz. rewrite map_map. apply seq_offset.
Qed.

Lemma gen_points_closed : 0 < N -> forall ps a s, map (point_index c) ps = seq a (length ps) -> gst_ok (a * S_) s ->
  fst (gen_points c ps s) = flat_map (fun p => gen_point c p ++ flat_map (nth_block p) (seq 0 S_)) (seq a (length ps)).
Proof.
  intros HN. induction ps as [|x ps IH]; intros a s HP HS; cbn [gen_points length seq flat_map]; auto.
  cbn [map length seq] in HP. injection HP as HX HP. rewrite HX.
  destruct (gen_shapes_closed HN a S_ 0 s) as (E1 & E2). { rewrite Nat.add_0_r. auto. }
  destruct (gen_shapes c a (seq 0 S_) s) as (e1, s1). cbn [fst snd] in *.
  specialize (IH (S a) s1 HP). rewrite Nat.add_0_r in E2. replace (S a * S_) with (a * S_ + S_) in IH by lia. specialize (IH E2).
  destruct (gen_points c ps s1) as (e2, s2). cbn [fst] in *. rewrite E1, IH, <- app_assoc. auto.
Qed.

Theorem generate_closed : 0 < N ->
  generate c = gen_shared c ++ gen_slots c ++
    flat_map (fun p => gen_point c p ++ flat_map (nth_block p) (seq 0 S_)) (seq 0 (n_point c)).
Proof.
  intros HN. unfold generate. do 2 f_equal.
  assert (L: length (points c) = n_point c) by (rewrite <- (map_length (point_index c)), points_order; apply seq_length).
  rewrite (gen_points_closed HN _ 0); rewrite ?L; auto.
  - apply points_order.
  - apply gst_init; auto.
Qed.

End Facts.
