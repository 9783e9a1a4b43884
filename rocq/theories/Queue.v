(** Model of quicksched/queue.c: the per-thread ready queue, a binary max-heap of
    task indices ordered by task weight, from which the first task that can be
    locked is taken. *)
From Coq Require Import List Arith Lia Permutation Bool ZArith.
From Verif Require Import Base.
Import ListNotations.

(** queue.h:36-52 (struct queue): [inds] is the whole allocated buffer
    (its length is [size]), of which the first [count] cells are live.
    The queue's own spin lock is not a field: queue_put holds it from
    queue.c:151 to 196 and queue_get from queue.c:64 to 130, so each call is one
    atomic step with respect to the others. *)
Record queue := mkQueue { inds : list nat; count : nat }.

(** queue.c:217-234 queue_init: a fresh buffer of [size] cells (contents
    unspecified in C; zeros here), no live entries. *)
Definition queue_init (size : nat) : queue := mkQueue (repeat 0 size) 0.

(** queue.c:77-86: scan the live entries for the first one that can be locked.
    [lockable tid] is the outcome of [qsched_locktask(s, tid)], which leaves the
    lock state unchanged when it fails (LockSeq.v, [locktask_fail_unchanged]).
    Simplification: a thread that is locking concurrently may change the answer
    for later entries; here the answers are fixed during one call. *)
Fixpoint find_lockable (lockable : nat -> bool) (l : list nat) (k : nat) : option nat :=
  match l with
  | [] => None
  | tid :: t => if lockable tid then Some k else find_lockable lockable t (S k)
  end.

(** queue.c:98-107 and 184-193: bubble the entry at [k] up while it is heavier
    than its parent. [fuel] bounds the number of iterations; [S k] suffices. *)
Fixpoint sift_up (fuel : nat) (w : nat -> Z) (k : nat) (a : list nat) : list nat :=
  match fuel with
  | 0 => a
  | S f =>
    if Nat.eqb k 0 then a else
    let j := (k - 1) / 2 in
    if (w (nth j a 0%nat) <? w (nth k a 0%nat))%Z
    then sift_up f w j (swap 0 j k a)
    else a
  end.

(** queue.c:109-121: push the entry at [k] down, exchanging it with its heavier
    child, while that child is heavier. [cnt] is the number of live entries. *)
Fixpoint sift_down (fuel : nat) (w : nat -> Z) (cnt k : nat) (a : list nat) : list nat :=
  match fuel with
  | 0 => a
  | S f =>
    let j := 2 * k + 1 in
    if cnt <=? j then a else
    let j := if (j + 1 <? cnt) && (w (nth j a 0%nat) <? w (nth (j + 1) a 0%nat))%Z
             then j + 1 else j in
    if (w (nth k a 0%nat) <? w (nth j a 0%nat))%Z
    then sift_down f w cnt j (swap 0 j k a)
    else a
  end.

(** queue.c:55-134 queue_get (the part under the queue lock). Returns the task
    and the new queue; [None] for [qsched_task_none]. *)
Definition queue_get (w : nat -> Z) (lockable : nat -> bool) (q : queue)
  : option (nat * queue) :=
  match find_lockable lockable (firstn (count q) (inds q)) 0 with
  | None => None
  | Some k =>
    let tid := nth k (inds q) 0 in
    let cnt := count q - 1 in                       (* queue.c:92 *)
    let a := upd k (nth cnt (inds q) 0) (inds q) in (* queue.c:93 *)
    let a' :=
      if negb (Nat.eqb k 0)
         && (w (nth ((k - 1) / 2) a 0%nat) <? w (nth k a 0%nat))%Z
      then sift_up (S k) w k a
      else sift_down cnt w cnt k a in
    Some (tid, mkQueue a' cnt)
  end.

(** queue.c:144-197 queue_put. [queue_grow] is 2 (queue.h:24). [None] is an
    out-of-bounds store (undefined behaviour). *)
Definition queue_put (w : nat -> Z) (tid : nat) (q : queue) : option queue :=
  let ind := count q in
  let a := if length (inds q) <=? ind
           then firstn ind (inds q) ++ repeat 0 (2 * length (inds q) - ind)
           else inds q in
  if ind <? length a
  then Some (mkQueue (sift_up (S ind) w ind (upd ind tid a)) (S ind))
  else None.

(** Live contents of the queue. *)
Definition contents (q : queue) : list nat := firstn (count q) (inds q).

(** Heap order: no live entry is heavier than its parent. *)
Definition heap_ok (w : nat -> Z) (l : list nat) : Prop :=
  forall i, 0 < i < length l -> (w (nth i l 0%nat) <= w (nth ((i - 1) / 2) l 0%nat))%Z.

Definition queue_wf (w : nat -> Z) (q : queue) : Prop :=
  count q <= length (inds q) /\ heap_ok w (contents q).

(* ---------------------------------------------------------------- proofs *)

Lemma parent_lt : forall k, 0 < k -> (k - 1) / 2 < k.
Proof. intros. apply Nat.div_lt_upper_bound; lia. Qed.

Lemma half_bounds : forall i, 2 * ((i - 1) / 2) <= i - 1 /\ i - 1 <= 2 * ((i - 1) / 2) + 1.
Proof. intros. pose proof (Nat.div_mod (i - 1) 2). pose proof (Nat.mod_upper_bound (i - 1) 2). lia. Qed.

Lemma sift_up_length : forall f w k a, length (sift_up f w k a) = length a.
Proof.
  induction f; intros; auto. cbn [sift_up]. destruct (Nat.eqb k 0); auto.
  destruct (_ <? _)%Z; auto. rewrite IHf, swap_length. auto.
Qed.

Lemma sift_down_length : forall f w c k a, length (sift_down f w c k a) = length a.
Proof.
  induction f; intros; auto. cbn [sift_down].
  destruct (c <=? 2*k+1); auto.
  match goal with |- context [ if ?b then sift_down _ _ _ _ _ else _ ] => destruct b; auto end.
  rewrite IHf, swap_length. auto.
Qed.

(** The generic loop works on the list of live entries. *)
Lemma swap_firstn : forall A (d : A) n i j l, i < n -> j < n ->
  firstn n (swap d i j l) = swap d i j (firstn n l).
Proof.
  intros. unfold swap. rewrite !firstn_upd_lt by lia. rewrite !nth_firstn by lia. auto.
Qed.

Lemma sift_up_firstn : forall f w n k a, k < n ->
  firstn n (sift_up f w k a) = sift_up f w k (firstn n a).
Proof.
  induction f; intros; auto. cbn [sift_up].
  destruct (Nat.eqb_spec k 0); auto.
  assert ((k-1)/2 < k) by (apply parent_lt; lia).
  rewrite !nth_firstn by lia.
  destruct (_ <? _)%Z; auto. rewrite IHf by lia. rewrite swap_firstn by lia. auto.
Qed.

Lemma sift_down_firstn : forall f w n k a, k < n ->
  firstn n (sift_down f w n k a) = sift_down f w n k (firstn n a).
Proof.
  induction f; intros; auto. cbn [sift_down].
  destruct (Nat.leb_spec n (2*k+1)); auto.
  assert (E: forall j, (if (2*k+1+1 <? n) && (w (nth (2*k+1) (firstn n a) 0%nat) <? w (nth (2*k+1+1) (firstn n a) 0%nat))%Z then 2*k+1+1 else 2*k+1) = j ->
     (if (2*k+1+1 <? n) && (w (nth (2*k+1) a 0%nat) <? w (nth (2*k+1+1) a 0%nat))%Z then 2*k+1+1 else 2*k+1) = j /\ j < n).
  { intros j. destruct (Nat.ltb_spec (2*k+1+1) n); cbn [andb].
    - rewrite !nth_firstn by lia. intros <-. split; auto. destruct (_ <? _)%Z; lia.
    - intros <-. split; auto. }
  destruct (E _ eq_refl) as [E1 E2]. rewrite E1.
  match type of E2 with ?x < n => set (j := x) in * end. clearbody j. clear E E1.
  rewrite !nth_firstn by lia.
  destruct (_ <? _)%Z; auto. rewrite IHf by lia. rewrite swap_firstn by lia. auto.
Qed.

Lemma sift_up_perm : forall f w k a, k < length a -> Permutation a (sift_up f w k a).
Proof.
  induction f; intros; auto. cbn [sift_up].
  destruct (Nat.eqb_spec k 0); auto.
  assert ((k-1)/2 < k) by (apply parent_lt; lia).
  destruct (_ <? _)%Z; auto.
  eapply perm_trans. apply (swap_Permutation _ 0 ((k-1)/2) k); lia.
  apply IHf. rewrite swap_length. lia.
Qed.

Lemma sift_down_perm : forall f w k a, k < length a -> Permutation a (sift_down f w (length a) k a).
Proof.
  induction f; intros; auto. cbn [sift_down].
  destruct (Nat.leb_spec (length a) (2*k+1)); auto.
  match goal with |- context [ if ?b then (2*k+1+1) else _ ] => set (j := if b then 2*k+1+1 else 2*k+1) end.
  assert (j < length a).
  { unfold j. destruct (Nat.ltb_spec (2*k+1+1) (length a)); cbn [andb]; try lia.
    destruct (_ <? _)%Z; lia. }
  clearbody j. destruct (_ <? _)%Z; auto.
  eapply perm_trans. apply (swap_Permutation _ 0 j k); lia.
  rewrite <- (swap_length _ 0 j k a). apply IHf. rewrite swap_length. lia.
Qed.

Local Open Scope Z_scope.

(** heap except that entry [k] may be heavier than its parent *)
Definition up_inv (w : nat -> Z) (k : nat) (l : list nat) : Prop :=
  (forall i, (0 < i < length l)%nat -> i <> k ->
     w (nth i l 0%nat) <= w (nth ((i - 1) / 2)%nat l 0%nat)) /\
  (forall i, (0 < i < length l)%nat -> ((i - 1) / 2)%nat = k -> (0 < k)%nat ->
     w (nth i l 0%nat) <= w (nth ((k - 1) / 2)%nat l 0%nat)).

Lemma sift_up_heap : forall f w k l, (k < length l)%nat -> (k < f)%nat ->
  up_inv w k l -> heap_ok w (sift_up f w k l).
Proof.
  induction f; intros w k l Hk Hf [H1 H2]; try lia. cbn [sift_up].
  destruct (Nat.eqb_spec k 0).
  - subst. intros i Hi. apply H1; lia.
  - assert (Hp: ((k-1)/2 < k)%nat) by (apply parent_lt; lia).
    destruct (Z.ltb_spec (w (nth ((k-1)/2) l 0%nat)) (w (nth k l 0%nat))).
    + apply IHf; try (rewrite swap_length; lia); try lia.
      set (j := ((k-1)/2)%nat) in *.
      split; intros i Hi; rewrite swap_length in Hi.
      * intros Hij. rewrite !nth_swap by lia.
        pose proof (half_bounds i).
        assert (Hpi: ((i-1)/2 < i)%nat) by (apply parent_lt; lia).
        destruct (Nat.eqb_spec i k).
        { subst i. replace ((k-1)/2)%nat with j by auto.
          destruct (Nat.eqb_spec j k); try lia. rewrite Nat.eqb_refl. lia. }
        destruct (Nat.eqb_spec i j); try lia.
        destruct (Nat.eqb_spec ((i-1)/2) k).
        { apply H2; auto. lia. }
        destruct (Nat.eqb_spec ((i-1)/2) j).
        { specialize (H1 i Hi n0). rewrite e in H1. lia. }
        apply H1; auto.
      * intros Hij Hj0. rewrite !nth_swap by lia.
        assert (Hpj: ((j-1)/2 < j)%nat) by (apply parent_lt; lia).
        pose proof (half_bounds i).
        destruct (Nat.eqb_spec ((j-1)/2) k); try lia.
        destruct (Nat.eqb_spec ((j-1)/2) j); try lia.
        assert (w (nth j l 0%nat) <= w (nth ((j-1)/2) l 0%nat)) by (apply H1; lia).
        destruct (Nat.eqb_spec i k).
        { lia. }
        destruct (Nat.eqb_spec i j); [exfalso; lia|].
        assert (Hii: w (nth i l 0%nat) <= w (nth ((i-1)/2) l 0%nat)) by (apply H1; auto).
        rewrite Hij in Hii. lia.
    + intros i Hi. destruct (Nat.eq_dec i k); [subst; lia | apply H1; auto].
Qed.

(** heap except that entry [k] may be lighter than its children *)
Definition down_inv (w : nat -> Z) (k : nat) (l : list nat) : Prop :=
  (forall i, (0 < i < length l)%nat -> ((i - 1) / 2)%nat <> k ->
     w (nth i l 0%nat) <= w (nth ((i - 1) / 2)%nat l 0%nat)) /\
  (forall i, (0 < i < length l)%nat -> ((i - 1) / 2)%nat = k -> (0 < k)%nat ->
     w (nth i l 0%nat) <= w (nth ((k - 1) / 2)%nat l 0%nat)).

Lemma half_child : forall i k, (0 < i)%nat -> ((i - 1) / 2)%nat = k <-> (i = 2*k+1 \/ i = 2*k+2)%nat.
Proof. intros. pose proof (half_bounds i). split; intros; lia. Qed.

Lemma sift_down_heap : forall f w k l, (length l <= k + f)%nat -> (k < length l)%nat ->
  down_inv w k l -> heap_ok w (sift_down f w (length l) k l).
Proof.
  induction f; intros w k l Hf Hk [H1 H2]; try lia. cbn [sift_down].
  destruct (Nat.leb_spec (length l) (2*k+1)).
  - intros i Hi. apply H1; auto. rewrite half_child by lia. lia.
  - match goal with |- context [ if ?b then (2*k+1+1)%nat else _ ] => set (j := if b then (2*k+1+1)%nat else (2*k+1)%nat) end.
    assert (Hj: (j = 2*k+1 \/ j = 2*k+2)%nat /\ (j < length l)%nat /\
       forall i, (0 < i < length l)%nat -> ((i-1)/2)%nat = k -> w (nth i l 0%nat) <= w (nth j l 0%nat)).
    { unfold j. destruct (Nat.ltb_spec (2*k+1+1) (length l)); cbn [andb].
      - destruct (Z.ltb_spec (w (nth (2*k+1) l 0%nat)) (w (nth (2*k+1+1) l 0%nat))).
        + repeat split; try lia. intros i Hi Hik. apply half_child in Hik; try lia.
          destruct Hik as [-> | ->]; try lia. replace (2*k+2)%nat with (2*k+1+1)%nat by lia. lia.
        + repeat split; try lia. intros i Hi Hik. apply half_child in Hik; try lia.
          destruct Hik as [-> | ->]; try lia. replace (2*k+2)%nat with (2*k+1+1)%nat by lia. lia.
      - repeat split; try lia. intros i Hi Hik. apply half_child in Hik; try lia.
        destruct Hik as [-> | ->]; try lia. }
    clearbody j. destruct Hj as (Hj & Hjl & Hjm).
    assert (Hjk: ((j-1)/2)%nat = k) by (apply half_child; lia).
    destruct (Z.ltb_spec (w (nth k l 0%nat)) (w (nth j l 0%nat))).
    + rewrite <- (swap_length _ 0%nat j k l).
      apply IHf; try (rewrite swap_length; lia); try lia.
      split; intros i Hi; rewrite swap_length in Hi.
      * intros Hij. rewrite !nth_swap by lia.
        assert (Hpi: ((i-1)/2 < i)%nat) by (apply parent_lt; lia).
        destruct (Nat.eqb_spec i k).
        { subst i. destruct (Nat.eqb_spec ((k-1)/2) k); try lia.
          destruct (Nat.eqb_spec ((k-1)/2) j); try lia.
          apply H2; try lia. }
        destruct (Nat.eqb_spec i j).
        { subst i. rewrite Hjk. rewrite Nat.eqb_refl. lia. }
        destruct (Nat.eqb_spec ((i-1)/2) k).
        { apply Hjm; auto. }
        destruct (Nat.eqb_spec ((i-1)/2) j); try lia.
        apply H1; auto.
      * intros Hij Hj0. rewrite Hjk. rewrite !nth_swap by lia.
        rewrite Nat.eqb_refl.
        assert (Hi' : (i = 2*j+1 \/ i = 2*j+2)%nat) by (apply half_child; lia).
        destruct (Nat.eqb_spec i k); [exfalso; lia|].
        destruct (Nat.eqb_spec i j); [exfalso; lia|].
        rewrite <- Hij. apply H1; lia.
    + intros i Hi. destruct (Nat.eq_dec ((i-1)/2) k).
      * specialize (Hjm i Hi e). rewrite e. lia.
      * apply H1; auto.
Qed.

Close Scope Z_scope.

Lemma find_lockable_spec : forall p l k0, match find_lockable p l k0 with
  | None => forall x, In x l -> p x = false
  | Some k => k0 <= k < k0 + length l /\ p (nth (k - k0) l 0) = true /\
              forall i, i < k - k0 -> p (nth i l 0) = false
  end.
Proof.
  induction l; simpl; intros. tauto.
  destruct (p a) eqn:E.
  - repeat split; try lia. rewrite Nat.sub_diag. auto.
  - specialize (IHl (S k0)). destruct (find_lockable p l (S k0)).
    + destruct IHl as (A & B & C). replace (n - k0) with (S (n - S k0)) by lia.
      repeat split; try lia; auto. intros. destruct i; auto. apply C. lia.
    + intros. destruct H; subst; auto.
Qed.

Lemma queue_put_spec : forall w tid q, queue_wf w q -> 0 < length (inds q) ->
  exists q', queue_put w tid q = Some q' /\ queue_wf w q' /\
    Permutation (contents q') (tid :: contents q) /\ count q' = S (count q) /\
    length (inds q) <= length (inds q').
Proof.
  intros w tid [a n] [Hn Hh] Hs. unfold queue_put, contents in *. cbn [inds count] in *.
  set (b := if length a <=? n then firstn n a ++ repeat 0 (2 * length a - n) else a).
  assert (Hb: n < length b /\ firstn n b = firstn n a /\ length a <= length b).
  { unfold b. destruct (Nat.leb_spec (length a) n).
    - rewrite app_length, firstn_length, repeat_length. repeat split; try lia.
      rewrite firstn_app. rewrite firstn_length. replace (n - Nat.min n (length a)) with 0 by lia.
      rewrite firstn_O, app_nil_r. rewrite firstn_firstn. f_equal. lia.
    - auto. }
  destruct Hb as (Hb1 & Hb2 & Hb3).
  destruct (Nat.ltb_spec n (length b)); try lia.
  eexists. split; [reflexivity|]. unfold queue_wf, contents. cbn [count inds].
  assert (HF: firstn (S n) (upd n tid b) = firstn n a ++ [tid]).
  { rewrite (firstn_S_nth _ n 0) by (rewrite upd_length; lia).
    rewrite nth_upd_same by lia. rewrite firstn_upd_ge by lia. rewrite Hb2. auto. }
  rewrite !sift_up_firstn by lia. rewrite HF.
  assert (HL: length (firstn n a) = n) by (rewrite firstn_length; lia).
  assert (HL2: length (firstn n a ++ [tid]) = S n) by (rewrite app_length; simpl; lia).
  repeat split.
  - rewrite sift_up_length, upd_length. lia.
  - apply sift_up_heap; try lia.
    split; rewrite HL2; intros i Hi.
    + intros. assert ((i-1)/2 < i) by (apply parent_lt; lia).
      rewrite !app_nth1 by lia. apply Hh. lia.
    + intros. apply half_child in H0; lia.
  - apply Permutation_sym. eapply perm_trans; [|apply sift_up_perm; lia].
    apply Permutation_cons_append.
  - rewrite sift_up_length, upd_length. auto.
Qed.

Lemma heap_max : forall w l, heap_ok w l -> forall i, i < length l ->
  (w (nth i l 0%nat) <= w (nth 0 l 0%nat))%Z.
Proof.
  intros w l H. induction i using lt_wf_ind; intros.
  destruct (Nat.eq_dec i 0). subst; lia.
  assert ((i-1)/2 < i) by (apply parent_lt; lia).
  specialize (H0 _ H2). specialize (H i). lia.
Qed.

Lemma queue_get_spec : forall w p q, queue_wf w q ->
  match queue_get w p q with
  | None => forall x, In x (contents q) -> p x = false
  | Some (tid, q') => p tid = true /\ Permutation (contents q) (tid :: contents q') /\
      queue_wf w q' /\ S (count q') = count q /\ length (inds q') = length (inds q) /\
      (exists k, k < count q /\ tid = nth k (contents q) 0 /\
                 forall i, i < k -> p (nth i (contents q) 0) = false)
  end.
Proof.
  intros w p [a n] [Hn Hh]. unfold queue_get, contents in *. cbn [inds count] in *.
  pose proof (find_lockable_spec p (firstn n a) 0) as HF.
  assert (HL: length (firstn n a) = n) by (rewrite firstn_length; lia).
  destruct (find_lockable p (firstn n a) 0) as [k|]; auto.
  rewrite Nat.sub_0_r in HF. destruct HF as (Hk & Hp & Hpre). rewrite HL in Hk.
  destruct n as [|c]; try lia. rewrite Nat.sub_succ, Nat.sub_0_r.
  cbn [inds count].
  set (b := upd k (nth c a 0) a).
  match goal with |- context [ mkQueue ?x _ ] => set (r := x) end.
  assert (Hlb: length b = length a) by apply upd_length.
  assert (Hhb: forall i, 0 < i < S c -> (w (nth i a 0%nat) <= w (nth ((i-1)/2) a 0%nat))%Z).
  { intros i Hi. specialize (Hh i). rewrite HL in Hh. specialize (Hh Hi).
    assert ((i-1)/2 < i) by (apply parent_lt; lia).
    rewrite !nth_firstn in Hh by lia. auto. }
  rewrite nth_firstn in Hp by lia.
  assert (Hbn: forall i, nth i b 0 = if Nat.eqb i k then nth c a 0 else nth i a 0).
  { intros. unfold b. rewrite nth_upd by lia. auto. }
  assert (Hperm0: Permutation (firstn (S c) a) (nth k a 0 :: firstn c b)).
  { destruct (Nat.eq_dec k c).
    - subst k. rewrite (firstn_S_nth _ c 0) by lia. unfold b.
      rewrite firstn_upd_ge by lia. apply Permutation_sym, Permutation_cons_append.
    - rewrite (firstn_S_nth _ c 0) by lia. unfold b.
      rewrite firstn_upd_lt by lia.
      pose proof (upd_Permutation _ k (nth c a 0) 0 (firstn c a)) as P.
      rewrite firstn_length in P. specialize (P ltac:(lia)).
      rewrite nth_firstn in P by lia.
      apply Permutation_sym. eapply perm_trans. apply P. apply Permutation_cons_append. }
  (* the heap fix *)
  assert (Hr: length r = length a /\ Permutation (firstn c b) (firstn c r) /\ heap_ok w (firstn c r)).
  { assert (HLb: length (firstn c b) = c) by (rewrite firstn_length; lia).
    destruct (Nat.eq_dec k c) as [->|Hkc].
    - (* removed the last entry: no live entry moves *)
      assert (Hb: b = a) by (unfold b; apply upd_nth_id).
      assert (Hrb: r = a).
      { unfold r. rewrite Hb. destruct (Nat.eqb_spec c 0); cbn [negb andb].
        - subst c. reflexivity.
        - specialize (Hhb c ltac:(lia)).
          destruct (Z.ltb_spec (w (nth ((c-1)/2) a 0%nat)) (w (nth c a 0%nat))); try lia.
          destruct c; auto. cbn [sift_down].
          destruct (Nat.leb_spec (S c) (2 * S c + 1)); auto. lia. }
      rewrite Hrb, Hb. repeat split; auto.
      intros i Hi. rewrite firstn_length in Hi.
      assert ((i-1)/2 < i) by (apply parent_lt; lia).
      rewrite !nth_firstn by lia. apply Hhb. lia.
    - assert (Hkc': k < c) by lia.
      unfold r. destruct (Nat.eqb_spec k 0) as [->|Hk0]; cbn [negb andb].
      + (* k = 0: sift down *)
        rewrite sift_down_length. split; [lia|].
        rewrite sift_down_firstn by lia.
        pose proof (sift_down_perm c w 0 (firstn c b)) as P.
        pose proof (sift_down_heap c w 0 (firstn c b)) as Q.
        rewrite HLb in P, Q.
        split. apply P; lia. apply Q; try lia.
        split; rewrite HLb; intros i Hi; [|lia].
        intros Hi2. assert ((i-1)/2 < i) by (apply parent_lt; lia).
        rewrite !nth_firstn by lia. rewrite !Hbn.
        destruct (Nat.eqb_spec i 0); try lia.
        destruct (Nat.eqb_spec ((i-1)/2) 0); try lia. apply Hhb; lia.
      + assert (Hpk: (k-1)/2 < k) by (apply parent_lt; lia).
        assert (Bk: nth k b 0 = nth c a 0) by (rewrite Hbn, Nat.eqb_refl; auto).
        assert (Bp: nth ((k-1)/2) b 0 = nth ((k-1)/2) a 0).
        { rewrite Hbn. destruct (Nat.eqb_spec ((k-1)/2) k); auto; lia. }
        rewrite Bk, Bp.
        destruct (Z.ltb_spec (w (nth ((k-1)/2) a 0%nat)) (w (nth c a 0%nat))).
        * rewrite sift_up_length. split; [lia|].
          rewrite sift_up_firstn by lia. split.
          { apply sift_up_perm. lia. }
          apply sift_up_heap; try lia.
          split; rewrite HLb; intros i Hi.
          { intros Hik. assert ((i-1)/2 < i) by (apply parent_lt; lia).
            rewrite !nth_firstn by lia. rewrite !Hbn.
            destruct (Nat.eqb_spec i k); try lia.
            destruct (Nat.eqb_spec ((i-1)/2) k).
            - pose proof (Hhb i ltac:(lia)). pose proof (Hhb k ltac:(lia)). rewrite e in H1. lia.
            - apply Hhb; lia. }
          { intros Hik _. assert ((i-1)/2 < i) by (apply parent_lt; lia).
            rewrite !nth_firstn by lia. rewrite !Hbn.
            destruct (Nat.eqb_spec i k); try lia.
            destruct (Nat.eqb_spec ((k-1)/2) k); try lia.
            pose proof (Hhb i ltac:(lia)). pose proof (Hhb k ltac:(lia)). rewrite Hik in H1. lia. }
        * rewrite sift_down_length. split; [lia|].
          rewrite sift_down_firstn by lia.
          pose proof (sift_down_perm c w k (firstn c b)) as P.
          pose proof (sift_down_heap c w k (firstn c b)) as Q.
          rewrite HLb in P, Q.
          split. apply P; lia. apply Q; try lia.
          split; rewrite HLb; intros i Hi.
          { intros Hik. assert ((i-1)/2 < i) by (apply parent_lt; lia).
            rewrite !nth_firstn by lia. rewrite !Hbn.
            destruct (Nat.eqb_spec i k).
            - subst i. destruct (Nat.eqb_spec ((k-1)/2) k); try lia.
            - destruct (Nat.eqb_spec ((i-1)/2) k); try lia. apply Hhb; lia. }
          { intros Hik _. assert ((i-1)/2 < i) by (apply parent_lt; lia).
            rewrite !nth_firstn by lia. rewrite !Hbn.
            destruct (Nat.eqb_spec i k); try lia.
            destruct (Nat.eqb_spec ((k-1)/2) k); try lia.
            pose proof (Hhb i ltac:(lia)). pose proof (Hhb k ltac:(lia)). rewrite Hik in H1. lia. } }
  destruct Hr as (Hr1 & Hr2 & Hr3).
  split; [auto|]. split.
  { eapply perm_trans. apply Hperm0. constructor. auto. }
  split. { unfold queue_wf, contents; cbn [inds count]. split; [lia|auto]. }
  split; [lia|]. split; [auto|].
  exists k. split; [lia|]. split. rewrite nth_firstn by lia. auto.
  intros. apply Hpre. lia.
Qed.

Lemma queue_init_wf : forall w n, queue_wf w (queue_init n).
Proof.
  intros. unfold queue_wf, queue_init, contents. simpl. split. lia.
  intros i Hi. simpl in Hi. lia.
Qed.

(** A queue of initial capacity [size] that went through any sequence of puts
    and gets, together with the multiset of tasks it should contain. *)
Inductive queue_life (w : nat -> Z) (size : nat) : queue -> list nat -> Prop :=
| ql_init : queue_life w size (queue_init size) []
| ql_put : forall q l tid q', queue_life w size q l -> queue_put w tid q = Some q' -> queue_life w size q' (tid :: l)
| ql_get : forall q l p tid q' l1 l2, queue_life w size q l -> queue_get w p q = Some (tid, q') -> l = l1 ++ tid :: l2 ->
    queue_life w size q' (l1 ++ l2).

Lemma queue_life_spec : forall w size q l, (0 < size)%nat -> queue_life w size q l ->
  queue_wf w q /\ Permutation (contents q) l /\ (0 < length (inds q))%nat.
Proof.
  intros w size q l Hs H. induction H as [|q l tid q' H IH HP|q l p tid q' l1 l2 H IH HG HL].
  - split; [apply queue_init_wf|]. split; [apply perm_nil|]. cbn. rewrite repeat_length. auto.
  - destruct IH as (A & B & C). destruct (queue_put_spec w tid q A C) as (q2 & E & F & G & _ & I).
    assert (q2 = q') by congruence. subst q2. split; [auto|]. split; [|lia]. rewrite G. constructor. auto.
  - destruct IH as (A & B & C). pose proof (queue_get_spec w p q A) as HS. rewrite HG in HS.
    destruct HS as (_ & P & W & _ & L & _). split; [auto|]. split; [|lia]. subst l.
    apply Permutation_cons_inv with (a := tid). rewrite <- P, B. symmetry. apply Permutation_middle.
Qed.

(** Every queue in use accepts puts; a get finds a lockable task iff there is
    one, and takes the heaviest if that one is lockable. *)
Lemma queue_life_ops : forall w size q l, (0 < size)%nat -> queue_life w size q l ->
  (forall tid, exists q', queue_put w tid q = Some q') /\
  (forall p, (queue_get w p q = None <-> (forall x, In x l -> p x = false)) /\
     (forall tid q', queue_get w p q = Some (tid, q') -> p tid = true /\ In tid l /\
        forall x, In x l -> (w tid < w x)%Z -> exists y, In y l /\ (w x <= w y)%Z /\ p y = false)).
Proof.
  intros w size q l Hs H. destruct (queue_life_spec w size q l Hs H) as (A & B & C). split.
  - intros tid. destruct (queue_put_spec w tid q A C) as (q2 & E & _). eauto.
  - intros p. pose proof (queue_get_spec w p q A) as HS. destruct (queue_get w p q) as [[tid q']|] eqn:EG.
    + destruct HS as (S1 & S2 & S3 & S4 & S5 & (k & K1 & K2 & K3)). split.
      * split; [discriminate|]. intros HN. exfalso. rewrite (HN tid) in S1; [discriminate|].
        eapply Permutation_in; [exact B|]. rewrite S2. left. auto.
      * intros t2 q2 E2. injection E2 as <- <-. split; [auto|]. split.
        { eapply Permutation_in; [exact B|]. rewrite S2. left. auto. }
        intros x Hx Hw. destruct A as (A1 & A2).
        assert (LC: length (contents q) = count q) by (unfold contents; rewrite firstn_length; lia).
        assert (Hin: In x (contents q)) by (eapply Permutation_in; [apply Permutation_sym; exact B|auto]).
        destruct (In_nth _ _ 0%nat Hin) as (i & I1 & I2).
        exists (nth 0 (contents q) 0%nat). pose proof (heap_max w (contents q) A2 i I1) as HM. rewrite I2 in HM.
        assert (Hk: (0 < k)%nat). { destruct k; [|lia]. rewrite K2 in Hw. lia. }
        split; [|split; auto]. eapply Permutation_in; [exact B|]. apply nth_In. lia.
    + split; [|discriminate]. split; [|auto]. intros _ x Hx. apply HS. eapply Permutation_in; [apply Permutation_sym; exact B|auto].
Qed.
