(** What each task's execute() reads and writes, and race freedom of the
    generated graph. *)
From Coq Require Import List Arith Lia Bool ZArith Relation_Operators Operators_Properties.
From Verif Require Import Base TaskGraph TaskGraphFacts TaskDeps.
Import ListNotations.

(** Shared memory, at the granularity of the C++ members that one task writes
    as a unit. Per-thread scratch (TMatrixAuxiliarySpace) is not shared. *)
Inductive cell :=
| DOwn (t : task)             (* members of NBased/Gauss/Grid/SpecialWigner/WignerD/Geometry objects *)
| DInter (r : nat)            (* all arrays of InteractionResource r *)
| DTm (j : nat)               (* _nmax, _ngauss, _Q*, _dQ* of TMatrixResource j *)
| DTb (j m : nat)             (* _T[m] of TMatrixResource j *)
| DIV (p : nat)               (* InteractionVariables *)
| DConv (b : nat)             (* ConvergedSizeResources *)
| DUn (k : kind) (b : nat)    (* result of a single shape *)
| DRes (k : kind) (p : nat).  (* shape averaged result *)

Section FP.
Variable c : cfg.
Notation G := (n_quad c).
Notation N := (n_slot c).
Notation S_ := (n_shape c).
Notation P := (n_point c).
Notation B := (n_block c).
Notation slot b := (b mod N).

(** Members written by execute(). *)
Definition writes (t : task) (x : cell) : Prop :=
  match t with
  | TN | TG _ | TGrid _ | TSW _ | TWD _ | TPG _ _ => x = DOwn t
      (* NBasedResources.hpp execute, GaussBasedResources.hpp, ...: the object itself *)
  | TI b _ => x = DInter (slot b)                           (* InteractionResource.hpp 478-527 *)
  | TM0 b _ => x = DTm (2 * slot b) \/ x = DTb (2 * slot b) 0 \/ x = DConv b   (* TMatrixResource.hpp 716-775 *)
  | TMA b m => x = DTb (2 * slot b) m                       (* TMatrixResource.hpp 1100-1130 *)
  | TAL b => x = DTm (2 * slot b + 1) \/ exists m, x = DTb (2 * slot b + 1) m   (* AlignmentAverageTask.hpp 115-216 *)
  | TC k b => x = DUn k b
  | TR1 b => x = DTm (2 * slot b) \/ exists m, x = DTb (2 * slot b) m           (* TMatrixResource.hpp 1271-1282 *)
  | TR2 b => x = DTm (2 * slot b + 1) \/ exists m, x = DTb (2 * slot b + 1) m
  | TR3 b => x = DInter (slot b)                            (* InteractionResource.hpp 589-606 *)
  | TAv k p => x = DRes k p                                 (* ShapeAveragingTask.hpp *)
  end.

(** Members read by execute() (besides those it writes).  The m>0 tasks follow
    pointers stored in ConvergedSizeResources to the quadrature points, geometry
    and Wigner functions of whatever order converged (TMatrixResource.hpp 916-920). *)
Definition reads (t : task) (x : cell) : Prop :=
  match t with
  | TN | TG _ | TGrid _ => False
  | TSW k => x = DOwn (TGrid k)
  | TWD i => x = DOwn (TG i)
  | TPG _ i => x = DOwn (TG i)
  | TI b i => x = DOwn (TPG (b mod S_) i) \/ x = DConv b \/ x = DIV (b / S_)
  | TM0 b i => x = DOwn TN \/ x = DOwn (TG i) \/ x = DOwn (TPG (b mod S_) i) \/ x = DIV (b / S_) \/
               x = DInter (slot b) \/ x = DOwn (TWD i)
  | TMA b _ => x = DOwn TN \/ x = DConv b \/ x = DIV (b / S_) \/ x = DInter (slot b) \/
               exists i, i < G /\ (x = DOwn (TG i) \/ x = DOwn (TPG (b mod S_) i) \/ x = DOwn (TWD i))
  | TAL b => x = DTm (2 * slot b) \/ exists m, x = DTb (2 * slot b) m
  | TC k b => x = DIV (b / S_) \/ x = DTm (2 * slot b + 1) \/ (exists m, x = DTb (2 * slot b + 1) m) \/
              x = DOwn TN \/ x = DOwn (TGrid k) \/ x = DOwn (TSW k)
  | TR1 _ | TR2 _ | TR3 _ => False
  | TAv k p => exists b, b < B /\ b / S_ = p /\ x = DUn k b
  end.

Definition path := clos_trans task (dep c).

(** Two tasks touch the same memory and at least one of them writes it. *)
Definition conflicting (t u : task) : Prop :=
  exists x, (writes t x /\ (writes u x \/ reads u x)) \/ (writes u x /\ reads t x).

Hypothesis HN : 0 < N.
Hypothesis HG : 0 < G.
Hypothesis HM : 0 < o_max c.

(** Position of a task within its block. *)
Definition block_of (t : task) : option nat :=
  match t with
  | TI b _ | TM0 b _ | TAL b | TC _ b | TR1 b | TR2 b | TR3 b | TMA b _ => Some b
  | _ => None
  end.
Definition level (t : task) : nat :=
  match t with
  | TI _ i => 2 * i
  | TM0 _ i => 2 * i + 1
  | TMA _ _ => 2 * G
  | TAL _ => 2 * G + 1
  | TC _ _ | TR1 _ => 2 * G + 2
  | TR2 _ => 2 * G + 3
  | TR3 _ => 2 * G + 4
  | _ => 0
  end.

Lemma p_step : forall a b, dep c a b -> path a b.
Proof. intros. apply t_step. auto. Qed.
Lemma p_trans : forall a b d, path a b -> path b d -> path a d.
Proof. intros. eapply t_trans; eauto. Qed.

Lemma orders_chain : forall b i j, b < B -> j < G -> i <= j -> path (TI b i) (TM0 b j).
Proof.
  intros b i j Hb Hj Hi. induction Hi as [|j Hi IH].
  - apply p_step. constructor; auto.
  - eapply p_trans; [apply IH; lia|]. eapply p_trans; apply p_step; constructor; auto.
Qed.
Lemma orders_chain' : forall b i j, b < B -> j < G -> i < j -> path (TM0 b i) (TI b j).
Proof.
  intros b i j Hb Hj Hi. induction Hi as [|j Hi IH].
  - apply p_step. constructor; auto.
  - eapply p_trans; [apply IH; lia|]. eapply p_trans; apply p_step; [apply d_int; auto; lia|apply d_prev; auto].
Qed.

(** The next task of the chain: from every task of the block one can go one level up
    to a given task. *)
Lemma level_path : forall t u b, block_of t = Some b -> block_of u = Some b -> task_in c t -> task_in c u ->
  level t < level u -> path t u.
Proof.
  intros t u b Ht Hu It Iu HL.
  assert (Hb: b < B) by (destruct t; cbn in Ht; try discriminate; injection Ht as ->; cbn in It; tauto).
  (* everything up to M0 reaches the last M0 *)
  assert (L0: forall t, block_of t = Some b -> task_in c t -> level t < 2 * G -> t = TM0 b (G - 1) \/ path t (TM0 b (G - 1))).
  { intros v Hv Iv Lv. destruct v; cbn in Hv; try discriminate; injection Hv as ->; cbn in Lv, Iv; try lia.
    - right. apply orders_chain; auto; lia.
    - destruct (Nat.eq_dec ig (G - 1)) as [ ->|]; auto. right. eapply p_trans; [apply orders_chain' with (j := G - 1); auto; lia|].
      apply orders_chain; auto; lia. }
  assert (LMA: forall v m, v = TM0 b (G - 1) \/ path v (TM0 b (G - 1)) -> 1 <= m <= o_max c -> path v (TMA b m)).
  { intros v m [ ->|Hv] Hm; [|eapply p_trans; [exact Hv|]]; apply p_step; constructor; auto. }
  assert (LAL: forall v, block_of v = Some b -> task_in c v -> level v <= 2 * G -> path v (TAL b)).
  { intros v Hv Iv Lv. destruct (Nat.eq_dec (level v) (2 * G)) as [E|E].
    - destruct v; cbn in Hv; try discriminate; injection Hv as ->; cbn in E, Iv; try lia. apply p_step. constructor; auto; lia.
    - eapply p_trans; [apply LMA with (m := 1); [apply L0; auto; lia|lia]|]. apply p_step. constructor; auto; lia. }
  assert (LA2: forall v, block_of v = Some b -> task_in c v -> level v <= 2 * G + 1 -> v = TAL b \/ path v (TAL b)).
  { intros v Hv Iv Lv. destruct (Nat.eq_dec (level v) (2 * G + 1)) as [E|E]; [|right; apply LAL; auto; lia].
    destruct v; cbn in Hv; try discriminate; injection Hv as ->; cbn in E, Iv; try lia. auto. }
  assert (LR2: forall v, block_of v = Some b -> task_in c v -> level v <= 2 * G + 2 -> path v (TR2 b)).
  { intros v Hv Iv Lv. destruct (Nat.eq_dec (level v) (2 * G + 2)) as [E|E].
    - destruct v; cbn in Hv; try discriminate; injection Hv as ->; cbn in E, Iv; try lia.
      + apply p_step. apply d_c_r2; tauto.
      + apply p_step. apply d_r1_r2; auto.
    - assert (HA: path (TAL b) (TR2 b)) by (eapply p_trans; apply p_step; [apply d_al_r1|apply d_r1_r2]; auto).
      destruct (LA2 v Hv Iv ltac:(lia)) as [ ->|HP]; auto. eapply p_trans; eauto. }
  assert (LR3: forall v, block_of v = Some b -> task_in c v -> level v <= 2 * G + 3 -> path v (TR3 b)).
  { intros v Hv Iv Lv. assert (H3: path (TR2 b) (TR3 b)) by (apply p_step, d_r2_r3; auto).
    destruct (Nat.eq_dec (level v) (2 * G + 3)) as [E|E].
    - destruct v; cbn in Hv; try discriminate; injection Hv as ->; cbn in E, Iv; try lia. auto.
    - eapply p_trans; [apply LR2; auto; lia|auto]. }
  destruct u; cbn in Hu; try discriminate; injection Hu as ->; cbn [level] in HL; cbn in Iu.
  - (* TI *) destruct t; cbn in Ht; try discriminate; injection Ht as ->; cbn [level] in HL; try lia.
    + eapply p_trans; [apply orders_chain with (j := ig0); auto; try lia; cbn in It; lia|]. apply orders_chain'; auto; lia.
    + apply orders_chain'; auto; lia.
  - (* TM0 *) destruct t; cbn in Ht; try discriminate; injection Ht as ->; cbn [level] in HL; try lia.
    + apply orders_chain; auto; lia.
    + eapply p_trans; [apply orders_chain' with (j := ig); auto; lia|]. apply orders_chain; auto; lia.
  - (* TAL *) apply LAL; auto. lia.
  - (* TC *) destruct (LA2 t Ht It ltac:(lia)) as [ ->|HP].
    + apply p_step. apply d_al_c; tauto.
    + eapply p_trans; [exact HP|]. apply p_step. apply d_al_c; tauto.
  - (* TR1 *) destruct (LA2 t Ht It ltac:(lia)) as [ ->|HP].
    + apply p_step. constructor; auto.
    + eapply p_trans; [exact HP|]. apply p_step. constructor; auto.
  - apply LR2; auto. lia.
  - apply LR3; auto. lia.
  - (* TMA *) apply LMA; [apply L0; auto; lia|tauto].
Qed.

(** Blocks sharing a slot are run one after the other. *)
Lemma reuse_chain : forall b b', b < b' -> b' < B -> slot b = slot b' -> path (TR3 b) (TI b' 0).
Proof.
  intros b b' HL Hb'. revert b HL. induction b' as [b' IH] using lt_wf_ind. intros b HL HS.
  assert (HN': N <= b').
  { destruct (le_lt_dec N b'); auto. rewrite !Nat.mod_small in HS by lia. lia. }
  assert (HE: slot (b' - N) = slot b').
  { replace b' with ((b' - N) + 1 * N) at 2 by lia. rewrite Nat.mod_add by lia. auto. }
  assert (HD: path (TR3 (b' - N)) (TI b' 0)) by (apply p_step; constructor; auto).
  destruct (Nat.eq_dec b (b' - N)) as [ ->|Hne]; auto.
  assert (b < b' - N).
  { pose proof (Nat.div_mod b N ltac:(lia)). pose proof (Nat.div_mod b' N ltac:(lia)).
    assert (b / N < b' / N) by nia. assert (b / N + 1 <= b' / N) by lia. nia. }
  eapply p_trans; [apply (IH (b' - N)); auto; try lia; congruence|].
  eapply p_trans; [|exact HD]. apply (level_path _ _ (b' - N)); cbn; auto; try lia.
Qed.

Lemma block_path : forall t u b b', block_of t = Some b -> block_of u = Some b' -> task_in c t -> task_in c u ->
  b < b' -> slot b = slot b' -> path t u.
Proof.
  intros t u b b' Ht Hu It Iu HL HS.
  assert (Hb': b' < B) by (destruct u; cbn in Hu; try discriminate; injection Hu as ->; cbn in Iu; tauto).
  assert (H1: t = TR3 b \/ path t (TR3 b)).
  { destruct (Nat.eq_dec (level t) (2 * G + 4)) as [E|E].
    - left. destruct t; cbn in Ht; try discriminate; injection Ht as ->; cbn in E, It; auto; lia.
    - right. apply (level_path _ _ b); auto; cbn; try lia.
      destruct t; cbn in Ht; try discriminate; injection Ht as ->; cbn in E, It |- *; lia. }
  assert (H2: u = TI b' 0 \/ path (TI b' 0) u).
  { destruct (Nat.eq_dec (level u) 0) as [E|E].
    - left. destruct u; cbn in Hu; try discriminate; injection Hu as ->; cbn in E; try lia. f_equal. lia.
    - right. apply (level_path _ _ b'); auto; cbn; try lia. }
  assert (H3: path (TR3 b) (TI b' 0)) by (apply reuse_chain; auto).
  destruct H1 as [ ->|H1], H2 as [ ->|H2]; eauto using p_trans.
Qed.

(** Two tasks of blocks with the same slot are ordered unless they are on the same
    level of the same block. *)
Lemma same_slot_ordered : forall t u b b', block_of t = Some b -> block_of u = Some b' -> task_in c t -> task_in c u ->
  slot b = slot b' -> (b = b' /\ level t = level u) \/ path t u \/ path u t.
Proof.
  intros t u b b' Ht Hu It Iu HS. destruct (lt_eq_lt_dec b b') as [[H|H]|H].
  - right. left. eapply block_path; eauto.
  - subst b'. destruct (lt_eq_lt_dec (level t) (level u)) as [[H|H]|H]; auto.
    + right. left. eapply level_path; eauto.
    + right. right. eapply level_path; eauto.
  - right. right. eapply (block_path u t); eauto.
Qed.

(** A task of a block comes after everything shared that it reads. *)
Lemma first_then : forall t b, block_of t = Some b -> task_in c t -> forall i, i < G -> 2 * i < level t ->
  path (TI b i) t.
Proof.
  intros t b Ht It i Hi HL. apply (level_path _ _ b); auto; cbn; auto.
  split; auto. destruct t; cbn in Ht; try discriminate; injection Ht as ->; cbn in It; tauto.
Qed.

Lemma own_ordered : forall s u, task_in c s -> task_in c u -> reads u (DOwn s) -> path s u.
Proof.
  intros s u Is Iu HR.
  assert (DM: forall u b, block_of u = Some b -> task_in c u -> 2 * G <= level u -> forall i, i < G -> path (TM0 b i) u).
  { intros v b Hv Iv Lv i Hi. apply (level_path _ _ b); cbn; auto; try lia. split; auto.
    destruct v; cbn in Hv; try discriminate; injection Hv as ->; cbn in Iv; tauto. }
  assert (DG: forall b i, b < B -> i < G -> path (TG i) (TM0 b i)).
  { intros b i Hb Hi. eapply p_trans; apply p_step; [apply d_wd|apply d_wig]; auto. }
  assert (DP: forall b i, b < B -> i < G -> path (TPG (b mod S_) i) (TM0 b i)).
  { intros b i Hb Hi. eapply p_trans; apply p_step; [apply d_geom|apply d_int]; auto. }
  destruct u; cbn in HR, Iu; try contradiction.
  - injection HR as ->. apply p_step. constructor; auto.
  - injection HR as ->. apply p_step. constructor; auto.
  - injection HR as ->. apply p_step. constructor; tauto.
  - destruct HR as (b & _ & _ & HR). discriminate.
  - destruct HR as [HR|[HR|HR]]; try discriminate. injection HR as ->. apply p_step. constructor; tauto.
  - destruct Iu. destruct HR as [HR|[HR|[HR|[HR|[HR|HR]]]]]; try discriminate; injection HR as ->.
    + apply p_step. constructor; auto.
    + apply DG; auto.
    + apply DP; auto.
    + apply p_step. constructor; auto.
  - destruct HR as [HR|(m & HR)]; discriminate.
  - destruct Iu. destruct HR as [HR|[HR|[(m & HR)|[HR|[HR|HR]]]]]; try discriminate; injection HR as ->.
    + eapply p_trans; [apply p_step; apply (d_nb c b 0); auto|]. apply (DM _ b); cbn; auto. lia.
    + eapply p_trans; apply p_step; [apply d_grid|apply d_sw_c]; auto.
    + apply p_step. constructor; auto.
  - destruct Iu. destruct HR as [HR|[HR|[HR|[HR|(i & Hi & [HR|[HR|HR]])]]]]; try discriminate; injection HR as ->.
    + eapply p_trans; [apply p_step; apply (d_nb c b 0); auto|]. apply (DM _ b); cbn; auto.
    + eapply p_trans; [apply (DG b i); auto|]. apply (DM _ b); cbn; auto.
    + eapply p_trans; [apply (DP b i); auto|]. apply (DM _ b); cbn; auto.
    + eapply p_trans; [apply p_step; apply (d_wig c b i); auto|]. apply (DM _ b); cbn; auto.
Qed.

Lemma same_DUn : forall k b p, flag c k = true -> b < B -> b / S_ = p -> path (TC k b) (TAv k p).
Proof. intros k b p Hk Hb <-. apply p_step. constructor; auto. Qed.

Theorem race_free : forall t u, task_in c t -> task_in c u -> t <> u -> conflicting t u -> path t u \/ path u t.
Proof.
  assert (M: forall t u x, task_in c t -> task_in c u -> t <> u -> writes t x -> (writes u x \/ reads u x) -> path t u \/ path u t).
  { intros t u x It Iu Hne HW HU.
    assert (HX: match x with
      | DOwn s => s = t
      | DInter r => exists b, (t = TR3 b \/ exists i, t = TI b i) /\ r = slot b
      | DTm j => exists b, (((t = TR1 b \/ exists i, t = TM0 b i) /\ j = 2 * slot b) \/ ((t = TR2 b \/ t = TAL b) /\ j = 2 * slot b + 1))
      | DTb j m => exists b, (((t = TR1 b \/ (m = 0 /\ exists i, t = TM0 b i) \/ t = TMA b m) /\ j = 2 * slot b) \/ ((t = TR2 b \/ t = TAL b) /\ j = 2 * slot b + 1))
      | DIV _ => False
      | DConv b => exists i, t = TM0 b i
      | DUn k b => t = TC k b
      | DRes k p => t = TAv k p end).
    { destruct t; cbn in HW; try (subst x; eauto; fail).
      - destruct HW as [ ->|[ ->| ->]]; eauto 10.
      - destruct HW as [ ->|(m & ->)]; eauto 10.
      - destruct HW as [ ->|(m & ->)]; eauto 10.
      - destruct HW as [ ->|(m & ->)]; eauto 10.
      - subst x. exists b. left. split; auto. }
    destruct x as [s|r|j|j m|p|b|k b|k p].
    - subst s. destruct HU as [HU|HU].
      + exfalso. destruct u; cbn in HU; try (injection HU as HU; congruence); try discriminate;
          repeat match goal with H : _ \/ _ |- _ => destruct H as [H|H] | H : exists _, _ |- _ => destruct H as (? & H) end; discriminate.
      + left. apply own_ordered; auto.
    - destruct HX as (b & Ht & ->).
      assert (BT: block_of t = Some b) by (destruct Ht as [ ->|(i & ->)]; auto).
      assert (HB: exists b', block_of u = Some b' /\ slot b = slot b' /\
         ((exists i, u = TI b' i) \/ (exists i, u = TM0 b' i) \/ (exists m, u = TMA b' m) \/ u = TR3 b')).
      { destruct HU as [HU|HU]; destruct u; cbn in HU; try discriminate; try contradiction;
          repeat match goal with H : _ \/ _ |- _ => destruct H as [H|H] | H : exists _, _ |- _ => destruct H as (? & H) | H : _ /\ _ |- _ => destruct H end;
          try discriminate; injection HU as HU; eexists; split; try reflexivity; split; eauto 6. }
      destruct HB as (b' & BU & HS & HK).
      destruct (same_slot_ordered t u b b' BT BU It Iu HS) as [(-> & HL)|HP]; auto. exfalso.
      destruct Ht as [ ->|(i & ->)]; destruct HK as [(i' & ->)|[(i' & ->)|[(m & ->)| ->]]]; cbn in HL, It, Iu; try lia; try congruence.
      assert (i = i') by lia. subst. congruence.
    - destruct HX as (b & Ht).
      assert (BT: block_of t = Some b) by (destruct Ht as [([ ->|(i & ->)] & _)|([ ->| ->] & _)]; auto).
      assert (HB: exists b', block_of u = Some b' /\
         (((u = TR1 b' \/ u = TAL b' \/ exists i, u = TM0 b' i) /\ j = 2 * slot b') \/
          ((u = TR2 b' \/ u = TAL b' \/ exists k, u = TC k b') /\ j = 2 * slot b' + 1))).
      { destruct HU as [HU|HU]; destruct u; cbn in HU; try discriminate; try contradiction;
          repeat match goal with H : _ \/ _ |- _ => destruct H as [H|H] | H : exists _, _ |- _ => destruct H as (? & H) | H : _ /\ _ |- _ => destruct H end;
          try discriminate; injection HU as HU; eexists; split; try reflexivity; first [left; split; [solve [eauto 7]|solve [auto]] | right; split; [solve [eauto 7]|solve [auto]]]. }
      destruct HB as (b' & BU & HK).
      assert (HS: slot b = slot b') by (destruct Ht as [(_ & E1)|(_ & E1)], HK as [(_ & E2)|(_ & E2)]; lia).
      destruct (same_slot_ordered t u b b' BT BU It Iu HS) as [(-> & HL)|HP]; auto. exfalso.
      destruct Ht as [([ ->|(i & ->)] & E1)|([ ->| ->] & E1)], HK as [([ ->|[ ->|(i' & ->)]] & E2)|([ ->|[ ->|(k & ->)]] & E2)];
        cbn in HL, It, Iu; try lia; try congruence.
      assert (i = i') by lia. subst. congruence.
    - destruct HX as (b & Ht).
      assert (BT: block_of t = Some b) by (destruct Ht as [([ ->|[(_ & i & ->)| ->]] & _)|([ ->| ->] & _)]; auto).
      assert (HB: exists b', block_of u = Some b' /\
         (((u = TR1 b' \/ u = TAL b' \/ (m = 0 /\ exists i, u = TM0 b' i) \/ u = TMA b' m) /\ j = 2 * slot b') \/
          ((u = TR2 b' \/ u = TAL b' \/ exists k, u = TC k b') /\ j = 2 * slot b' + 1))).
      { destruct HU as [HU|HU]; destruct u; cbn in HU; try discriminate; try contradiction;
          repeat match goal with H : _ \/ _ |- _ => destruct H as [H|H] | H : exists _, _ |- _ => destruct H as (? & H) | H : _ /\ _ |- _ => destruct H end;
          try discriminate; injection HU as HU HU'; subst; eexists; split; try reflexivity;
          first [left; split; [solve [eauto 7]|solve [auto]] | right; split; [solve [eauto 7]|solve [auto]]]. }
      destruct HB as (b' & BU & HK).
      assert (HS: slot b = slot b') by (destruct Ht as [(_ & E1)|(_ & E1)], HK as [(_ & E2)|(_ & E2)]; lia).
      destruct (same_slot_ordered t u b b' BT BU It Iu HS) as [(-> & HL)|HP]; auto. exfalso.
      destruct Ht as [([ ->|[(E0 & i & ->)| ->]] & E1)|([ ->| ->] & E1)],
               HK as [([ ->|[ ->|[(E0' & i' & ->)| ->]]] & E2)|([ ->|[ ->|(k & ->)]] & E2)];
        cbn in HL, It, Iu; try lia; try congruence.
      assert (i = i') by lia. subst. congruence.
    - contradiction.
    - destruct HX as (i & ->).
      assert (HB: block_of u = Some b /\ ((exists i, u = TI b i) \/ (exists i, u = TM0 b i) \/ (exists m, u = TMA b m))).
      { destruct HU as [HU|HU]; destruct u; cbn in HU; try discriminate; try contradiction;
          repeat match goal with H : _ \/ _ |- _ => destruct H as [H|H] | H : exists _, _ |- _ => destruct H as (? & H) | H : _ /\ _ |- _ => destruct H end;
          try discriminate; injection HU as ->; eauto 7. }
      destruct HB as (BU & HK).
      destruct (same_slot_ordered (TM0 b i) u b b eq_refl BU It Iu eq_refl) as [(_ & HL)|HP]; auto. exfalso.
      destruct HK as [(i' & ->)|[(i' & ->)|(m & ->)]]; cbn in HL, It, Iu; try lia. assert (i = i') by lia. subst. congruence.
    - subst t. destruct HU as [HU|HU]; destruct u; cbn in HU; try discriminate; try contradiction;
          repeat match goal with H : _ \/ _ |- _ => destruct H as [H|H] | H : exists _, _ |- _ => destruct H as (? & H) | H : _ /\ _ |- _ => destruct H end;
          try discriminate; match goal with E : DUn _ _ = DUn _ _ |- _ => injection E; intros; subst end; try congruence.
      cbn in Iu, It. left. apply same_DUn; tauto.
    - subst t. exfalso. destruct HU as [HU|HU]; destruct u; cbn in HU; try discriminate; try contradiction;
          repeat match goal with H : _ \/ _ |- _ => destruct H as [H|H] | H : exists _, _ |- _ => destruct H as (? & H) | H : _ /\ _ |- _ => destruct H end;
          try discriminate; match goal with E : DRes _ _ = DRes _ _ |- _ => injection E; intros; subst; congruence end. }
  intros t u It Iu Hne (x & [(H1 & H2)|(H1 & H2)]).
  - eapply M; eauto.
  - destruct (M u t x Iu It) as [H|H]; auto.
Qed.

End FP.
