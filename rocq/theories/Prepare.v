(** qsched_prepare (quicksched/qsched.c:1045-1155): wait counters, topological
    sort, detection of circular dependencies, task weights.

    [unlocks t] is the slice of task [t] (CSort.v).  Flags are 0.  [wait] is a
    C int, here an unbounded integer; [weight] is a long long. *)
From Coq Require Import List Arith Lia Bool ZArith Permutation Relations.
From Verif Require Import Base LockProto Sched.
Import ListNotations.
Local Open Scope Z_scope.

Section Prepare.
Variable n : nat.                      (* s->count *)
Variable unlocks : nat -> list nat.
Variable cost : nat -> Z.

Definition zset (f : nat -> Z) (k : nat) (v : Z) : nat -> Z := fun x => if Nat.eqb x k then v else f x.

(** 1099-1100 / 1127-1128: wait += 1 for every unlock of one task *)
Fixpoint inc_all (us : list nat) (w : nat -> Z) : nat -> Z :=
  match us with [] => w | u :: us' => inc_all us' (zset w u (w u + 1)) end.

(** 1095-1101 *)
Definition set_waits (w : nat -> Z) : nat -> Z :=
  fold_left (fun w k => inc_all (unlocks k) w) (seq 0 n) w.

(** 1113-1117: the inner loop over the unlocks of one task; [tid] is the filled
    part of the array of that name. *)
Fixpoint relax (us tid : list nat) (w : nat -> Z) : list nat * (nat -> Z) :=
  match us with
  | [] => (tid, w)
  | u :: us' => let w' := zset w u (w u - 1) in
                relax us' (if w' u =? 0 then tid ++ [u] else tid) w'
  end.

(** 1111-1118: for (k = 0; k < j; k++); the fuel is shown to be sufficient. *)
Fixpoint topo (fuel k : nat) (tid : list nat) (w : nat -> Z) : nat * list nat * (nat -> Z) :=
  match fuel with
  | O => (k, tid, w)
  | S f => match nth_error tid k with
           | None => (k, tid, w)
           | Some t => let '(tid', w') := relax (unlocks t) tid w in topo f (S k) tid' w'
           end
  end.

(** 1105-1110 *)
Definition first_ready (w : nat -> Z) : list nat := filter (fun k => w k =? 0) (seq 0 n).

(** 1124-1133: one task of the backward sweep *)
Fixpoint max_weight (us : list nat) (weight : nat -> Z) (m : Z) : Z :=
  match us with
  | [] => m
  | u :: us' => max_weight us' weight (if weight u >? m then weight u else m)
  end.
Definition weigh (t : nat) (ww : (nat -> Z) * (nat -> Z)) : (nat -> Z) * (nat -> Z) :=
  let '(w, weight) := ww in
  (inc_all (unlocks t) w, zset weight t (cost t + max_weight (unlocks t) weight 0)).

Record prepared := mkPrep { p_tid : list nat; p_wait : nat -> Z; p_weight : nat -> Z; p_enqueue : list nat }.

(** 1095-1140. [None] is the error "Circular dependencies detected." *)
Definition prepare (w0 weight0 : nat -> Z) : option prepared :=
  let w1 := set_waits w0 in
  let tid0 := first_ready w1 in
  let ready := length tid0 in
  let '(k, tid, w2) := topo (S n) 0 tid0 w1 in
  if (k <? n)%nat then None
  else
    let '(w3, weight) := fold_right weigh (w2, weight0) (firstn n tid) in
    Some (mkPrep tid w3 weight (filter (fun t => w3 t =? 0) (firstn ready tid))).

(* ------------------------------------------------------- specification *)

(** [link_tasks a b] was called. *)
Definition edge (a b : nat) : Prop := (a < n)%nat /\ In b (unlocks a).
Definition cyclic : Prop := exists a, clos_trans nat edge a a.

(** A chain of tasks, each depending on the one before. *)
Fixpoint chain (c : list nat) : Prop :=
  match c with
  | [] => True
  | a :: c' => match c' with [] => True | b :: _ => In b (unlocks a) /\ chain c' end
  end.
Definition total (c : list nat) : Z := fold_right (fun a s => cost a + s) 0 c.

(* ------------------------------------------------------- proofs *)

Notation edges_ok := (edges_in_range n unlocks).

Lemma inc_all_spec : forall us w t, inc_all us w t = w t + Z.of_nat (cnt t us).
Proof.
  induction us as [|u us IH]; intros w t; cbn [inc_all].
  - unfold cnt. simpl. lia.
  - rewrite IH, cnt_cons. unfold zset. destruct (Nat.eqb_spec t u) as [->|]; lia.
Qed.

Lemma fold_inc : forall l w t, fold_left (fun w k => inc_all (unlocks k) w) l w t = w t + Z.of_nat (cnt t (flat_map unlocks l)).
Proof.
  induction l as [|a l IH]; intros w t; cbn [fold_left flat_map].
  - unfold cnt. simpl. lia.
  - rewrite IH, inc_all_spec, cnt_app. lia.
Qed.

Definition preds (t : nat) : nat := preds_count n unlocks t.

Lemma set_waits_spec : forall w t, set_waits w t = w t + Z.of_nat (preds t).
Proof. intros. unfold set_waits. rewrite fold_inc. auto. Qed.

(** Invariant of the topological sort: [done] are the processed tasks. *)
Definition tinv (done tid : list nat) (w : nat -> Z) : Prop :=
  (forall t, w t = Z.of_nat (preds t) - Z.of_nat (cnt t (flat_map unlocks done))) /\
  NoDup tid /\ (forall t, In t tid <-> (t < n)%nat /\ w t = 0).

(** Inner loop invariant: [us] still to be relaxed, all of them in counts *)
Lemma relax_spec : forall us tid w tid' w', relax us tid w = (tid', w') ->
  (forall t, w' t = w t - Z.of_nat (cnt t us)) /\
  exists ext, tid' = tid ++ ext /\
   (NoDup tid -> (forall t, In t tid <-> (t < n)%nat /\ w t = 0) ->
    (forall u, In u us -> (u < n)%nat) -> (forall t, 0 <= w' t) ->
    NoDup tid' /\ (forall t, In t tid' <-> (t < n)%nat /\ w' t = 0)).
Proof.
  induction us as [|u us IH]; intros tid w tid' w' H; cbn [relax] in H.
  - injection H as <- <-. split. { intros. unfold cnt; simpl; lia. }
    exists []. rewrite app_nil_r. split; auto.
  - set (w1 := zset w u (w u - 1)) in *.
    apply IH in H. destruct H as (A & ext & B & C).
    assert (Aw: forall t, w' t = w t - Z.of_nat (cnt t (u :: us))).
    { intros t. rewrite A, cnt_cons. unfold w1, zset. destruct (Nat.eqb_spec t u) as [->|]; lia. }
    split; auto.
    exists ((if w1 u =? 0 then [u] else []) ++ ext). split.
    { rewrite B. destruct (w1 u =? 0); simpl; auto. rewrite <- app_assoc. auto. }
    intros ND IN HU HN.
    assert (Hu: w1 u = w u - 1) by (unfold w1, zset; rewrite Nat.eqb_refl; auto).
    assert (Hwu: 1 <= w u).
    { specialize (HN u). rewrite Aw, cnt_cons, Nat.eqb_refl in HN. lia. }
    apply C; auto.
    + destruct (Z.eqb_spec (w1 u) 0) as [E|E]; auto.
      apply (Permutation_NoDup (Permutation_cons_append tid u)). constructor; auto.
      rewrite IN. intros [_ Hz]. lia.
    + intros t. assert (Hwt: w1 t = if Nat.eqb t u then w u - 1 else w t) by reflexivity. rewrite Hwt; clear Hwt.
      destruct (Z.eqb_spec (w1 u) 0) as [E|E].
      * rewrite in_app_iff. simpl. rewrite IN. destruct (Nat.eqb_spec t u) as [->|].
        -- split; intros; [|auto]. split; [apply HU; simpl; auto|lia].
        -- split; [intros [?|[?|[]]]; [auto|congruence]|auto].
      * rewrite IN. destruct (Nat.eqb_spec t u) as [->|].
        -- split; intros [? ?]; lia.
        -- tauto.
    + intros x Hx. apply HU. simpl; auto.
Qed.

Lemma nodup_flat_le : forall (l L : list nat) t, NoDup l -> incl l L -> (cnt t (flat_map unlocks l) <= cnt t (flat_map unlocks L))%nat.
Proof.
  induction l as [|x l IH]; intros L t HN HI; cbn [flat_map]; [cbn; lia|].
  rewrite cnt_app. inversion HN as [|? ? HA HB]; subst.
  assert (Hx: In x L) by (apply HI; simpl; auto). apply in_split in Hx. destruct Hx as (L1 & L2 & ->).
  assert (Hl: incl l (L1 ++ L2)).
  { intros y Hy. assert (Hin: In y (L1 ++ x :: L2)) by (apply HI; simpl; auto).
    apply in_app_iff in Hin. simpl in Hin. apply in_app_iff. destruct Hin as [|[|]]; auto. subst. contradiction. }
  specialize (IH (L1 ++ L2) t HB Hl). rewrite !flat_map_app, !cnt_app in *. cbn [flat_map]. rewrite cnt_app. lia.
Qed.

Lemma preds_bound : forall l t, NoDup l -> (forall x, In x l -> (x < n)%nat) -> (cnt t (flat_map unlocks l) <= preds t)%nat.
Proof.
  intros l t HN HI. unfold preds, preds_count. apply nodup_flat_le; auto.
  intros x Hx. apply in_seq. specialize (HI x Hx). lia.
Qed.

Lemma tinv_len : forall done tid w, tinv done tid w -> (length tid <= n)%nat.
Proof.
  intros done tid w (_ & ND & IN). rewrite <- (seq_length n 0). apply NoDup_incl_length; auto.
  intros x Hx. apply IN in Hx. apply in_seq. lia.
Qed.

Lemma firstn_snoc : forall (l : list nat) k t, nth_error l k = Some t -> firstn (S k) l = firstn k l ++ [t].
Proof.
  induction l as [|a l IH]; intros [|k] t H; simpl in *; try discriminate.
  - injection H as ->. auto.
  - f_equal. apply IH. auto.
Qed.

(** Outer loop. *)
Lemma topo_spec : edges_ok -> forall fuel k tid w k' tid' w',
  topo fuel k tid w = (k', tid', w') -> tinv (firstn k tid) tid w -> (k <= length tid)%nat -> (n < k + fuel)%nat ->
  k' = length tid' /\ tinv tid' tid' w' /\ (exists ext, tid' = tid ++ ext).
Proof.
  intros HU. induction fuel as [|fuel IH]; intros k tid w k' tid' w' H HI Hk Hf; cbn [topo] in H.
  - pose proof (tinv_len _ _ _ HI). lia.
  - destruct (nth_error tid k) as [t|] eqn:E.
    + destruct (relax (unlocks t) tid w) as [tid1 w1] eqn:ER.
      destruct (relax_spec _ _ _ _ _ ER) as (A & ext & B & C).
      destruct HI as (I1 & I2 & I3).
      assert (Hkl: (k < length tid)%nat) by (apply nth_error_Some; congruence).
      assert (Hfs: firstn (S k) tid1 = firstn k tid ++ [t]).
      { rewrite B, firstn_app. replace (S k - length tid)%nat with 0%nat by lia. rewrite firstn_O, app_nil_r.
        apply firstn_snoc. auto. }
      assert (W1: forall u, w1 u = Z.of_nat (preds u) - Z.of_nat (cnt u (flat_map unlocks (firstn (S k) tid1)))).
      { intros u. rewrite A, I1, Hfs, flat_map_app, cnt_app. cbn [flat_map]. rewrite app_nil_r. lia. }
      assert (Htn: (t < n)%nat). { apply (I3 t). eapply nth_error_In; eauto. }
      assert (ND1: NoDup (firstn (S k) tid)).
      { rewrite <- (firstn_skipn (S k) tid) in I2. apply NoDup_app_l in I2. auto. }
      assert (HN: forall u, 0 <= w1 u).
      { intros u. rewrite W1, Hfs. rewrite <- (firstn_snoc _ _ _ E).
        assert (cnt u (flat_map unlocks (firstn (S k) tid)) <= preds u)%nat; [|lia].
        apply preds_bound; auto. intros x Hx. apply (I3 x). rewrite <- (firstn_skipn (S k) tid). apply in_app_iff. auto. }
      destruct C as (C1 & C2); auto.
      { intros u Hu. eapply HU; eauto. }
      assert (HI1: tinv (firstn (S k) tid1) tid1 w1) by (split; [exact W1|split; auto]).
      destruct (IH (S k) tid1 w1 k' tid' w' H HI1) as (D1 & D2 & (ext2 & D3)); try lia.
      { rewrite B, app_length. lia. }
      split; auto. split; auto. exists (ext ++ ext2). rewrite D3, B, <- app_assoc. auto.
    + injection H as <- <- <-. apply nth_error_None in E. assert (k = length tid) by lia. subst k.
      rewrite firstn_all in HI. split; auto. split; auto. exists []. rewrite app_nil_r. auto.
Qed.

Lemma tinv_init : edges_ok -> forall w0, (forall t, w0 t = 0) -> tinv [] (first_ready (set_waits w0)) (set_waits w0).
Proof.
  intros HU w0 H0. repeat split.
  - intros t. rewrite set_waits_spec, H0. cbn. lia.
  - apply NoDup_filter, seq_NoDup.
  - apply filter_In in H. destruct H as (H & _). apply in_seq in H. lia.
  - apply filter_In in H. destruct H as (_ & H). apply Z.eqb_eq in H. auto.
  - intros (Ht & Hw). apply filter_In. split. apply in_seq; lia. apply Z.eqb_eq. auto.
Qed.

(** The topological order: predecessors come first.  The proof uses that a
    task is appended when its counter drops to zero, i.e. all its predecessors
    are among the processed ones. *)
Definition torder (tid : list nat) : Prop :=
  forall l1 b l2, tid = l1 ++ b :: l2 -> forall a, (a < n)%nat -> In b (unlocks a) -> In a l1.

Lemma cnt_sub : forall (done : list nat) a b, NoDup done -> (forall x, In x done -> (x < n)%nat) -> (a < n)%nat -> In b (unlocks a) ->
  (preds b <= cnt b (flat_map unlocks done))%nat -> In a done.
Proof.
  intros done a b ND HN Ha Hb Hc. destruct (in_dec Nat.eq_dec a done) as [|Hn]; auto. exfalso.
  assert (NoDup (a :: done)) by (constructor; auto).
  pose proof (preds_bound (a :: done) b H) as HP. cbn [flat_map] in HP. rewrite cnt_app in HP.
  assert (cnt b (unlocks a) + cnt b (flat_map unlocks done) <= preds b)%nat.
  { apply HP. intros x [<-|Hx]; auto. }
  apply cnt_In in Hb. lia.
Qed.

(** [relax] appends only tasks whose counter became zero. *)
Lemma relax_ext_zero : forall us tid w tid' w', relax us tid w = (tid', w') -> (forall t, 0 <= w' t) ->
  exists ext, tid' = tid ++ ext /\ forall x, In x ext -> w' x = 0.
Proof.
  induction us as [|u us IH]; intros tid w tid' w' H HN; cbn [relax] in H.
  - injection H as <- <-. exists []. rewrite app_nil_r. split; auto. intros x [].
  - set (w1 := zset w u (w u - 1)) in *.
    destruct (relax_spec _ _ _ _ _ H) as (A & _).
    destruct (IH _ _ _ _ H HN) as (ext & B & C).
    exists ((if w1 u =? 0 then [u] else []) ++ ext). split.
    + rewrite B. destruct (w1 u =? 0); simpl; auto. rewrite <- app_assoc. auto.
    + intros x Hx. apply in_app_iff in Hx. destruct Hx as [Hx|Hx]; auto.
      destruct (Z.eqb_spec (w1 u) 0) as [E|E]; [|contradiction]. destruct Hx as [<-|[]].
      specialize (HN u). rewrite A in *. lia.
Qed.

Lemma torder_app : forall tid ext done, torder tid ->
  (forall b, In b ext -> forall a, (a < n)%nat -> In b (unlocks a) -> In a done) -> incl done tid -> torder (tid ++ ext).
Proof.
  intros tid ext done HT HE HI l1 b l2 E a Ha Hb.
  destruct (app_eq_app _ _ _ _ E) as (l & [(E1 & E2)|(E1 & E2)]).
  - destruct l as [|x l].
    + rewrite app_nil_r in E1. cbn in E2. subst l1. assert (In b ext) by (rewrite <- E2; simpl; auto). apply HI. eapply HE; eauto.
    + simpl in E2. injection E2 as <- E2. eapply (HT l1 b l); eauto.
  - subst l1. apply in_app_iff. left. apply HI. eapply HE; eauto. rewrite E2. apply in_app_iff. simpl. auto.
Qed.

Lemma topo_order : edges_ok -> forall fuel k tid w k' tid' w',
  topo fuel k tid w = (k', tid', w') -> tinv (firstn k tid) tid w -> (k <= length tid)%nat ->
  torder tid -> torder tid'.
Proof.
  intros HU. induction fuel as [|fuel IH]; intros k tid w k' tid' w' H HI Hk HT; cbn [topo] in H.
  - injection H as <- <- <-. auto.
  - destruct (nth_error tid k) as [t|] eqn:E.
    + destruct (relax (unlocks t) tid w) as [tid1 w1] eqn:ER.
      destruct (relax_spec _ _ _ _ _ ER) as (A & ext & B & C).
      destruct HI as (I1 & I2 & I3).
      assert (Hkl: (k < length tid)%nat) by (apply nth_error_Some; congruence).
      assert (Hfs: firstn (S k) tid1 = firstn (S k) tid).
      { rewrite B, firstn_app. replace (S k - length tid)%nat with 0%nat by lia. rewrite firstn_O, app_nil_r. auto. }
      assert (W1: forall u, w1 u = Z.of_nat (preds u) - Z.of_nat (cnt u (flat_map unlocks (firstn (S k) tid)))).
      { intros u. rewrite A, I1, (firstn_snoc _ _ _ E), flat_map_app, cnt_app. cbn [flat_map]. rewrite app_nil_r. lia. }
      assert (ND1: NoDup (firstn (S k) tid)).
      { rewrite <- (firstn_skipn (S k) tid) in I2. apply NoDup_app_l in I2. auto. }
      assert (HB: forall x, In x (firstn (S k) tid) -> (x < n)%nat).
      { intros x Hx. apply (I3 x). rewrite <- (firstn_skipn (S k) tid). apply in_app_iff. auto. }
      assert (HN: forall u, 0 <= w1 u).
      { intros u. rewrite W1. pose proof (preds_bound _ u ND1 HB). lia. }
      assert (Htn: (t < n)%nat). { apply (I3 t). eapply nth_error_In; eauto. }
      destruct C as (C1 & C2); auto.
      { intros u Hu. eapply HU; eauto. }
      destruct (relax_ext_zero _ _ _ _ _ ER HN) as (ext' & B' & Z').
      assert (ext' = ext) by (rewrite B in B'; apply app_inv_head in B'; auto). subst ext'.
      eapply IH; [exact H| | |].
      * rewrite Hfs. split; [exact W1|split; auto].
      * rewrite B, app_length. lia.
      * rewrite B. apply (torder_app tid ext (firstn (S k) tid)); auto.
        -- intros b Hb a Ha Hab. apply (cnt_sub _ a b); auto. specialize (Z' b Hb). rewrite W1 in Z'. lia.
        -- intros x Hx. rewrite <- (firstn_skipn (S k) tid). apply in_app_iff. auto.
    + injection H as <- <- <-. auto.
Qed.

Lemma first_ready_order : forall w0, (forall t, w0 t = 0) -> torder (first_ready (set_waits w0)).
Proof.
  intros w0 H0 l1 b l2 E a Ha Hab. exfalso.
  assert (Hb: In b (first_ready (set_waits w0))) by (rewrite E; apply in_app_iff; simpl; auto).
  apply filter_In in Hb. destruct Hb as (_ & Hb). apply Z.eqb_eq in Hb. rewrite set_waits_spec, H0 in Hb.
  assert (0 < preds b)%nat; [|lia]. apply cnt_In. apply in_flat_map. exists a. split; auto. apply in_seq. lia.
Qed.

(* ---- cycles ---- *)

Lemma torder_acyclic : forall tid, torder tid -> NoDup tid -> Permutation tid (seq 0 n) -> edges_ok -> ~ cyclic.
Proof.
  intros tid HT ND HP HU (a & Ha).
  assert (POS: forall x y, clos_trans nat edge x y -> (x < n)%nat /\ (y < n)%nat /\ exists l1 l2, tid = l1 ++ y :: l2 /\ In x l1).
  { intros x y H. induction H as [x y (Hx & Hy)|x y z H1 IH1 H2 IH2].
    - assert (Hyn: (y < n)%nat) by (eapply HU; eauto).
      split; auto. split; auto.
      assert (Hin: In y tid) by (eapply Permutation_in; [apply Permutation_sym; eauto|apply in_seq; lia]).
      apply in_split in Hin. destruct Hin as (l1 & l2 & E). exists l1, l2. split; auto. eapply HT; eauto.
    - destruct IH1 as (X1 & Y1 & l1 & l2 & E1 & I1). destruct IH2 as (Y2 & Z2 & l3 & l4 & E2 & I2).
      split; auto. split; auto. exists l3, l4. split; auto.
      apply in_split in I2. destruct I2 as (m1 & m2 & E3). subst l3.
      rewrite E1 in E2. rewrite <- app_assoc in E2. cbn [app] in E2.
      (* y occurs once, so l1 = m1 *)
      assert (l1 = m1).
      { rewrite E1 in ND. clear -E2 ND. revert m1 E2 ND. induction l1 as [|c l1 IH]; intros [|d m1] E ND; simpl in *; auto.
        - injection E as -> E. exfalso. inversion ND; subst. apply H1. apply in_app_iff. simpl. auto.
        - injection E as -> E. exfalso. inversion ND; subst. apply H1. apply in_app_iff. simpl. auto.
        - injection E as -> E. f_equal. apply (IH m1); auto. inversion ND; auto. }
      subst m1. apply in_app_iff. auto. }
  destruct (POS a a Ha) as (_ & _ & l1 & l2 & E & I). rewrite E in ND. apply NoDup_remove_2 in ND.
  apply ND. apply in_app_iff. auto.
Qed.

Fixpoint back_path (c : list nat) : Prop :=
  match c with
  | [] => True
  | b :: c' => match c' with [] => True | a :: _ => edge a b /\ back_path c' end
  end.

Lemma back_path_trans : forall l x l2, back_path (x :: l ++ l2) -> forall y l3, l2 = y :: l3 -> clos_trans nat edge y x.
Proof.
  induction l as [|z l IH]; intros x l2 H y l3 E; subst l2; simpl in H.
  - destruct H as (H & _). apply t_step. auto.
  - destruct H as (H & HB). apply t_trans with z. eapply (IH z (y :: l3)); eauto. apply t_step; auto.
Qed.

Lemma back_path_app : forall l1 l2, back_path (l1 ++ l2) -> back_path l2.
Proof.
  induction l1 as [|a l1 IH]; intros l2 H; auto. apply IH. simpl in H. destruct (l1 ++ l2); simpl; auto. destruct H; auto.
Qed.

Lemma back_path_snoc : forall c b a, back_path (c ++ [b]) -> edge a b -> back_path (c ++ [b; a]).
Proof.
  induction c as [|x c IH]; intros b a P Hab.
  - simpl. auto.
  - destruct c as [|y c].
    + simpl in *. destruct P as (P & _). auto.
    + cbn [app back_path] in *. destruct P as (P1 & P2). split; auto. apply (IH b a); auto.
Qed.

Lemma no_pred_free_cyclic : forall (S : list nat), S <> [] ->
  (forall b, In b S -> exists a, In a S /\ edge a b) -> cyclic.
Proof.
  intros S HS HP.
  assert (BP: forall m, exists c, length c = Datatypes.S m /\ back_path (rev (rev c)) /\ (forall x, In x c -> In x S)).
  { assert (BP: forall m, exists c b, (length c = m)%nat /\ back_path (c ++ [b]) /\ (forall x, In x (c ++ [b]) -> In x S)).
    { induction m as [|m (c & b & L & P & I)].
      - destruct S as [|s S]; [congruence|]. exists [], s. simpl. repeat split; auto. intros x [<-|[]]; auto.
      - assert (Hb: In b S) by (apply I; apply in_app_iff; simpl; auto).
        destruct (HP b Hb) as (a & Ha & Hab).
        exists (c ++ [b]), a. repeat split.
        + rewrite app_length. simpl. lia.
        + rewrite <- app_assoc. simpl. apply back_path_snoc; auto.
        + intros x Hx. apply in_app_iff in Hx. destruct Hx as [Hx|[<-|[]]]; auto. }
    intros m. destruct (BP m) as (c & b & L & P & I). exists (c ++ [b]). rewrite rev_involutive. repeat split; auto.
    rewrite app_length; simpl; lia. }
  destruct (BP (length S)) as (c & L & P & I). rewrite rev_involutive in P.
  destruct (ListDec.NoDup_dec Nat.eq_dec c) as [ND|ND].
  - apply NoDup_incl_length with (l' := S) in ND; auto. lia.
  - assert (NN: exists a l1 l2 l3, c = l1 ++ a :: l2 ++ a :: l3).
    { clear -ND. induction c as [|x c IH]; [exfalso; apply ND; constructor|].
      destruct (in_dec Nat.eq_dec x c) as [Hi|Hi].
      - apply in_split in Hi. destruct Hi as (l2 & l3 & ->). exists x, [], l2, l3. auto.
      - destruct IH as (a & l1 & l2 & l3 & ->). { intros H. apply ND. constructor; auto. }
        exists a, (x :: l1), l2, l3. auto. }
    destruct NN as (a & l1 & l2 & l3 & ->). exists a. apply back_path_app in P. eapply (back_path_trans l2); eauto.
Qed.

Lemma topo_stuck_cyclic : edges_ok -> forall tid w, tinv tid tid w -> (length tid < n)%nat -> cyclic.
Proof.
  intros HU tid w (I1 & I2 & I3) HL.
  set (R := filter (fun t => negb (if in_dec Nat.eq_dec t tid then true else false)) (seq 0 n)).
  assert (RI: forall t, In t R <-> (t < n)%nat /\ ~ In t tid).
  { intros t. unfold R. rewrite filter_In, in_seq. destruct (in_dec Nat.eq_dec t tid) as [Hi|Hi]; cbn [negb].
    - split; [intros [_ ?]; discriminate|tauto].
    - split; intros; split; auto; lia. }
  apply (no_pred_free_cyclic R).
  - intros E. assert (incl (seq 0 n) tid).
    { intros t Ht. destruct (in_dec Nat.eq_dec t tid); auto. exfalso.
      assert (In t R). { apply RI. split; auto. apply in_seq in Ht. lia. } rewrite E in H. contradiction. }
    apply NoDup_incl_length in H; [|apply seq_NoDup]. rewrite seq_length in H. lia.
  - intros b Hb. apply RI in Hb. destruct Hb as (Hb & Hnb).
    assert (HN: forall x, In x tid -> (x < n)%nat) by (intros x Hx; apply (I3 x); auto).
    assert (Hw: w b <> 0). { intros E. apply Hnb. apply I3. auto. }
    pose proof (preds_bound tid b I2 HN) as HB. rewrite I1 in Hw.
    (* some predecessor is not in tid *)
    destruct (Exists_dec (fun a => In b (unlocks a)) R) as [HE|HE].
    { intros a. destruct (in_dec Nat.eq_dec b (unlocks a)); auto. }
    + apply Exists_exists in HE. destruct HE as (a & Ha & Hab). exists a. split; auto.
      apply RI in Ha. split; tauto.
    + exfalso. assert (Z0: cnt b (flat_map unlocks R) = 0%nat).
      { destruct (Nat.eq_dec (cnt b (flat_map unlocks R)) 0) as [|Hne]; auto. exfalso. apply HE.
        assert (Hin: In b (flat_map unlocks R)) by (apply cnt_In; lia).
        apply in_flat_map in Hin. destruct Hin as (a & Ha & Hab). apply Exists_exists. eauto. }
      assert (PP: Permutation (seq 0 n) (tid ++ R)).
      { apply NoDup_Permutation.
        - apply seq_NoDup.
        - apply NoDup_app'; auto. apply NoDup_filter, seq_NoDup. intros x Hx Hr. apply RI in Hr. tauto.
        - intros x. rewrite in_app_iff, RI, in_seq. split; intros Hx.
          + destruct (in_dec Nat.eq_dec x tid); [auto|right]. split; [lia|auto].
          + destruct Hx as [Hx|Hx]; [specialize (HN x Hx)|]; lia. }
      assert (preds b = cnt b (flat_map unlocks (tid ++ R))).
      { unfold preds, preds_count, cnt. apply (Permutation_count_occ Nat.eq_dec). apply Permutation_flat_map. auto. }
      rewrite flat_map_app, cnt_app in H. lia.
Qed.

(* ---- weights ---- *)

Lemma max_weight_spec : forall us weight m, let r := max_weight us weight m in
  m <= r /\ (forall u, In u us -> weight u <= r) /\ (r = m \/ exists u, In u us /\ r = weight u).
Proof.
  induction us as [|u us IH]; intros weight m; cbn [max_weight].
  - repeat split; auto; try lia. intros u [].
  - destruct (IH weight (if weight u >? m then weight u else m)) as (A & B & C).
    set (r := max_weight us weight (if weight u >? m then weight u else m)) in *.
    destruct (Z.gtb_spec (weight u) m); cbn zeta; repeat split; try lia.
    + intros v [<-|Hv]; [lia|auto].
    + destruct C as [C|(v & Hv & C)]; [right; exists u; simpl; auto|right; exists v; simpl; auto].
    + intros v [<-|Hv]; [lia|auto].
    + destruct C as [C|(v & Hv & C)]; [auto|right; exists v; simpl; auto].
Qed.

Definition is_critical (t : nat) (v : Z) : Prop :=
  (exists c, chain (t :: c) /\ total (t :: c) = v) /\ (forall c, chain (t :: c) -> total (t :: c) <= v).

Lemma weigh_fold : forall l w weight, (forall l1 b l2, l = l1 ++ b :: l2 -> forall c, In c (unlocks b) -> In c l2) ->
  NoDup l ->
  forall t, In t l -> is_critical t (snd (fold_right weigh (w, weight) l) t).
Proof.
  induction l as [|a l IH]; intros w weight HC ND t Ht; [contradiction|].
  inversion ND as [|? ? HA HB]; subst.
  assert (HC': forall l1 b l2, l = l1 ++ b :: l2 -> forall c, In c (unlocks b) -> In c l2).
  { intros l1 b l2 E c Hc. apply (HC (a :: l1) b l2); auto. rewrite E. auto. }
  specialize (IH w weight HC' HB).
  cbn [fold_right]. destruct (fold_right weigh (w, weight) l) as [w1 wt1] eqn:EF. cbn [weigh snd] in *.
  unfold zset. destruct (Nat.eqb_spec t a) as [->|Hne].
  - assert (HU: forall c, In c (unlocks a) -> is_critical c (wt1 c)).
    { intros c Hc. apply IH. apply (HC [] a l); auto. }
    destruct (max_weight_spec (unlocks a) wt1 0) as (M1 & M2 & M3).
    set (mw := max_weight (unlocks a) wt1 0) in *. split.
    + destruct M3 as [M3|(u & Hu & M3)].
      * exists []. simpl. split; auto. lia.
      * destruct (HU u Hu) as ((c & Hc & Ht2) & _). exists (u :: c). split. { simpl. split; auto. }
        cbn [total fold_right] in *. lia.
    + intros c Hc. destruct c as [|u c].
      * cbn [total fold_right]. lia.
      * simpl in Hc. destruct Hc as (Hu & Hc). destruct (HU u Hu) as (_ & HM).
        specialize (HM c Hc). specialize (M2 u Hu). cbn [total fold_right] in *. lia.
  - destruct Ht as [Ht|Ht]; [congruence|]. apply IH. auto.
Qed.

Lemma weigh_wait : forall l w weight t, fst (fold_right weigh (w, weight) l) t = w t + Z.of_nat (cnt t (flat_map unlocks l)).
Proof.
  induction l as [|a l IH]; intros w weight t; cbn [fold_right flat_map].
  - unfold cnt; simpl; lia.
  - specialize (IH w weight t). destruct (fold_right weigh (w, weight) l) as [w1 wt1]. cbn [weigh fst] in *.
    rewrite inc_all_spec, IH, cnt_app. lia.
Qed.

(* ---- the whole function ---- *)

Lemma perm_full : forall tid, NoDup tid -> (forall t, In t tid -> (t < n)%nat) -> (n <= length tid)%nat -> Permutation tid (seq 0 n).
Proof.
  intros tid ND HI HL. apply NoDup_Permutation_bis; auto.
  - rewrite seq_length. auto.
  - intros x Hx. apply in_seq. specialize (HI x Hx). lia.
Qed.

Lemma prepare_fails_iff : edges_ok -> forall w0 weight0, (forall t, w0 t = 0) ->
  (prepare w0 weight0 = None <-> cyclic).
Proof.
  intros HU w0 weight0 H0. unfold prepare.
  pose proof (tinv_init HU w0 H0) as TI.
  destruct (topo (S n) 0 (first_ready (set_waits w0)) (set_waits w0)) as [[k tid] w2] eqn:ET.
  destruct (topo_spec HU _ _ _ _ _ _ _ ET TI ltac:(lia) ltac:(lia)) as (A & B & _). subst k.
  pose proof (topo_order HU _ _ _ _ _ _ _ ET TI ltac:(lia) (first_ready_order w0 H0)) as HO.
  destruct (Nat.ltb_spec (length tid) n) as [L|L].
  - split; auto. intros _. eapply topo_stuck_cyclic; eauto.
  - destruct (fold_right weigh (w2, weight0) (firstn n tid)) as [w3 wt]. split; [discriminate|].
    intros HC. exfalso. revert HC. destruct B as (_ & B2 & B3).
    apply (torder_acyclic tid); auto. apply perm_full; auto. intros t Ht. apply B3. auto.
Qed.

Lemma torder_succ : forall tid, torder tid -> NoDup tid -> (forall t, In t tid <-> (t < n)%nat) -> edges_ok ->
  forall l1 b l2, tid = l1 ++ b :: l2 -> forall c, In c (unlocks b) -> In c l2.
Proof.
  intros tid HT ND HI HU l1 b l2 E c Hc.
  assert (Hb: (b < n)%nat) by (apply HI; rewrite E; apply in_app_iff; simpl; auto).
  assert (Hc2: In c tid) by (apply HI; eapply HU; eauto).
  assert (Hc3 := Hc2). apply in_split in Hc3. destruct Hc3 as (m1 & m2 & E2).
  pose proof (HT m1 c m2 E2 b Hb Hc) as Hin.
  (* c after b *)
  rewrite E in Hc2. apply in_app_iff in Hc2. simpl in Hc2. destruct Hc2 as [Hc2|[Hc2|Hc2]]; auto.
  - exfalso. apply in_split in Hc2. destruct Hc2 as (p1 & p2 & ->).
    assert (E3: tid = p1 ++ c :: (p2 ++ b :: l2)) by (rewrite E, <- app_assoc; auto).
    pose proof (HT p1 c _ E3 b Hb Hc) as Hin2.
    rewrite E3 in ND. apply in_split in Hin2. destruct Hin2 as (q1 & q2 & ->).
    rewrite <- app_assoc in ND. cbn [app] in ND. apply NoDup_remove_2 in ND. apply ND.
    rewrite !in_app_iff. simpl. rewrite in_app_iff. simpl. tauto.
  - exfalso. subst c. rewrite E2 in ND. apply NoDup_remove_2 in ND. apply ND. apply in_app_iff. auto.
Qed.

Lemma prepare_ok : edges_ok -> forall w0 weight0 p, (forall t, w0 t = 0) -> prepare w0 weight0 = Some p ->
  Permutation (p_tid p) (seq 0 n) /\ torder (p_tid p) /\
  (forall t, p_wait p t = Z.of_nat (preds t)) /\
  (forall t, (t < n)%nat -> is_critical t (p_weight p t)) /\
  Permutation (p_enqueue p) (filter (fun t => Nat.eqb (preds t) 0) (seq 0 n)).
Proof.
  intros HU w0 weight0 p H0. unfold prepare.
  pose proof (tinv_init HU w0 H0) as TI.
  destruct (topo (S n) 0 (first_ready (set_waits w0)) (set_waits w0)) as [[k tid] w2] eqn:ET.
  destruct (topo_spec HU _ _ _ _ _ _ _ ET TI ltac:(lia) ltac:(lia)) as (A & B & (ext & Cx)). subst k.
  pose proof (topo_order HU _ _ _ _ _ _ _ ET TI ltac:(lia) (first_ready_order w0 H0)) as HO.
  pose proof (tinv_len _ _ _ B) as HLn.
  destruct (Nat.ltb_spec (length tid) n) as [L|L]; [discriminate|].
  destruct (fold_right weigh (w2, weight0) (firstn n tid)) as [w3 wt] eqn:EW.
  intros E. injection E as <-. cbn [p_tid p_wait p_weight p_enqueue].
  destruct B as (B1 & B2 & B3).
  assert (HP: Permutation tid (seq 0 n)) by (apply perm_full; auto; intros t Ht; apply B3; auto).
  assert (HI: forall t, In t tid <-> (t < n)%nat).
  { intros t. split; intros Ht; [apply B3; auto|]. eapply Permutation_in; [apply Permutation_sym; eauto|apply in_seq; lia]. }
  assert (EF: firstn n tid = tid) by (apply firstn_all2; lia). rewrite EF in EW.
  assert (W3: forall t, w3 t = Z.of_nat (preds t)).
  { intros t. pose proof (weigh_wait tid w2 weight0 t) as HW. rewrite EW in HW. cbn [fst] in HW. rewrite HW, B1. lia. }
  split; [auto|]. split; [auto|]. split; [auto|]. split.
  - intros t Ht. pose proof (weigh_fold tid w2 weight0 (torder_succ tid HO B2 HI HU) B2 t) as HW.
    rewrite EW in HW. cbn [snd] in HW. apply HW. apply HI. auto.
  - assert (ER: firstn (length (first_ready (set_waits w0))) tid = first_ready (set_waits w0)).
    { rewrite Cx, firstn_app, Nat.sub_diag, firstn_O, app_nil_r. apply firstn_all. }
    rewrite ER. unfold first_ready.
    assert (EQ: filter (fun t => w3 t =? 0) (filter (fun k => set_waits w0 k =? 0) (seq 0 n)) =
                filter (fun t => Nat.eqb (preds t) 0) (seq 0 n)).
    { clear -W3 H0. generalize (seq 0 n). intros l. induction l as [|a l IH]; simpl; auto.
      rewrite set_waits_spec, H0. cbn [Z.add].
      destruct (Nat.eqb_spec (preds a) 0) as [Ea|Ea].
      - rewrite Ea. cbn [Z.of_nat Z.eqb filter]. rewrite W3, Ea. cbn [Z.of_nat Z.eqb]. f_equal. auto.
      - destruct (Z.eqb_spec (Z.of_nat (preds a)) 0); [lia|]. auto. }
    rewrite EQ. auto.
Qed.

(** No cycle gives a rank (used for the progress theorem of Sched.v). *)
Lemma acyclic_ranked : edges_ok -> ~ cyclic -> ranked n unlocks.
Proof.
  intros HU HC. destruct (prepare (fun _ => 0) (fun _ => 0)) as [p|] eqn:EP.
  - destruct (prepare_ok HU _ _ p (fun _ => eq_refl) EP) as (A & B & _).
    assert (ND: NoDup (p_tid p)) by (eapply Permutation_NoDup; [apply Permutation_sym; eauto|apply seq_NoDup]).
    assert (HI: forall t, In t (p_tid p) <-> (t < n)%nat).
    { intros t. split; intros Ht.
      - eapply Permutation_in in Ht; [|exact A]. apply in_seq in Ht. lia.
      - eapply Permutation_in; [apply Permutation_sym; eauto|apply in_seq; lia]. }
    assert (RK: forall l : list nat, NoDup l -> exists rank : nat -> nat, forall l1 a l2, l = l1 ++ a :: l2 -> rank a = length l1).
    { clear. intros l ND. 
      set (pos := fix pos (l : list nat) (x : nat) : nat := match l with [] => O | y :: l' => if Nat.eqb x y then O else S (pos l' x) end).
      exists (pos l). intros l1 a l2 ->. induction l1 as [|b l1 IH]; simpl.
      - rewrite Nat.eqb_refl. auto.
      - simpl in ND. inversion ND; subst. destruct (Nat.eqb_spec a b) as [->|].
        + exfalso. apply H1. apply in_app_iff. simpl. auto.
        + f_equal. auto. }
    destruct (RK (p_tid p) ND) as (rank & HR). exists rank. intros a b Ha Hb.
    assert (Hbt: In b (p_tid p)) by (apply HI; eapply HU; eauto).
    apply in_split in Hbt. destruct Hbt as (l1 & l2 & E). pose proof (B l1 b l2 E a Ha Hb) as Hin.
    apply in_split in Hin. destruct Hin as (m1 & m2 & ->).
    rewrite (HR _ _ _ E). rewrite <- app_assoc in E. cbn [app] in E. rewrite (HR _ _ _ E). rewrite app_length. simpl. lia.
  - exfalso. apply HC. apply (prepare_fails_iff HU (fun _ => 0) (fun _ => 0)); auto.
Qed.

End Prepare.
