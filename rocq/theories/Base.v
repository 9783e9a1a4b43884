(** Base: list/array helpers shared by the models.

    Arrays of the C/C++ code are modelled as [list]s; [upd] is an array store,
    [nth] an array load.  A store out of range leaves the list unchanged, so
    every model function whose C counterpart could store out of range checks the
    bound first and returns [None] (undefined behaviour) instead. *)
From Coq Require Import List Arith Lia Permutation Bool.
Import ListNotations.

(** Array store: [upd k x l] is [l] with cell [k] replaced by [x]. *)
Fixpoint upd {A} (k : nat) (x : A) (l : list A) : list A :=
  match l, k with
  | [], _ => []
  | _ :: t, 0 => x :: t
  | h :: t, S k' => h :: upd k' x t
  end.

(** Exchange of two array cells. *)
Definition swap {A} (d : A) (i j : nat) (l : list A) : list A :=
  upd j (nth i l d) (upd i (nth j l d) l).

Lemma upd_length : forall A k (x : A) l, length (upd k x l) = length l.
Proof. induction k; destruct l; simpl; auto. Qed.

Lemma nth_upd_same : forall A k (x d : A) l, k < length l -> nth k (upd k x l) d = x.
Proof. induction k; destruct l; simpl; intros; try lia; auto. apply IHk; lia. Qed.

Lemma nth_upd_other : forall A k j (x d : A) l, k <> j -> nth j (upd k x l) d = nth j l d.
Proof. induction k; destruct l; destruct j; simpl; intros; try lia; auto. Qed.

Lemma nth_upd : forall A k j (x d : A) l, k < length l ->
  nth j (upd k x l) d = if Nat.eqb j k then x else nth j l d.
Proof.
  intros. destruct (Nat.eqb_spec j k).
  - subst. apply nth_upd_same; auto.
  - apply nth_upd_other; auto.
Qed.

Lemma upd_out : forall A k (x : A) l, length l <= k -> upd k x l = l.
Proof. induction k; destruct l; simpl; intros; try lia; auto. f_equal. apply IHk; lia. Qed.

Lemma upd_nth_id : forall A k (d : A) l, upd k (nth k l d) l = l.
Proof. induction k; destruct l; simpl; auto. f_equal. apply IHk. Qed.

Lemma firstn_upd_ge : forall A n k (x : A) l, n <= k -> firstn n (upd k x l) = firstn n l.
Proof.
  induction n; intros; auto. destruct l; auto. { destruct k; auto. }
  destruct k; try lia. simpl. f_equal. apply IHn; lia.
Qed.

Lemma firstn_upd_lt : forall A n k (x : A) l, k < n -> firstn n (upd k x l) = upd k x (firstn n l).
Proof.
  induction n; intros; try lia. destruct l; auto. { destruct k; auto. }
  destruct k; simpl; auto. f_equal. apply IHn; lia.
Qed.

Lemma nth_firstn : forall A n k (d : A) l, k < n -> nth k (firstn n l) d = nth k l d.
Proof.
  induction n; simpl; intros; try lia. destruct l; simpl; auto. destruct k; auto.
  apply IHn; lia.
Qed.

Lemma firstn_S_nth : forall A n (d : A) l, n < length l -> firstn (S n) l = firstn n l ++ [nth n l d].
Proof.
  induction n; destruct l; simpl; intros; try lia; auto.
  f_equal. apply (IHn d l). lia.
Qed.

Lemma upd_app1 : forall A k (x : A) l r, k < length l -> upd k x (l ++ r) = upd k x l ++ r.
Proof. induction k; destruct l; simpl; intros; try lia; auto. f_equal. apply IHk; lia. Qed.

Lemma upd_app2 : forall A k (x : A) l r, upd (length l + k) x (l ++ r) = l ++ upd k x r.
Proof. induction l; simpl; intros; auto. f_equal. auto. Qed.

Lemma list_ext : forall A (d : A) l1 l2, length l1 = length l2 ->
  (forall i, i < length l1 -> nth i l1 d = nth i l2 d) -> l1 = l2.
Proof. intros. apply (nth_ext l1 l2 d d); auto. Qed.

Lemma swap_length : forall A (d : A) i j l, length (swap d i j l) = length l.
Proof. intros. unfold swap. rewrite !upd_length. auto. Qed.

Lemma nth_swap : forall A (d : A) i j l p, i < length l -> j < length l ->
  nth p (swap d i j l) d =
  if Nat.eqb p j then nth i l d else if Nat.eqb p i then nth j l d else nth p l d.
Proof.
  intros. unfold swap. rewrite nth_upd by (rewrite upd_length; auto).
  destruct (Nat.eqb p j); auto. rewrite nth_upd by auto. auto.
Qed.

Lemma upd_Permutation : forall A k (x d : A) l, k < length l ->
  Permutation (nth k l d :: upd k x l) (x :: l).
Proof.
  induction k; destruct l; simpl; intros; try lia.
  - apply perm_swap.
  - eapply perm_trans. apply perm_swap. eapply perm_trans.
    apply perm_skip. apply (IHk x d l). lia. apply perm_swap.
Qed.

Lemma swap_Permutation : forall A (d : A) i j l, i < length l -> j < length l ->
  Permutation l (swap d i j l).
Proof.
  intros. unfold swap. destruct (Nat.eq_dec i j).
  - subst. rewrite !upd_nth_id. auto.
  - apply Permutation_cons_inv with (a := nth j l d).
    assert (P1 := upd_Permutation A i (nth j l d) d l H).
    assert (P2 := upd_Permutation A j (nth i l d) d (upd i (nth j l d) l)).
    rewrite upd_length in P2. specialize (P2 H0).
    rewrite nth_upd_other in P2 by auto.
    apply Permutation_sym. eapply perm_trans. apply P2. apply P1.
Qed.

(** Boolean universal quantifier over [0..n-1]. *)
Definition forallb_lt (n : nat) (p : nat -> bool) : bool := forallb p (seq 0 n).

Lemma forallb_lt_spec : forall n p, forallb_lt n p = true <-> (forall i, i < n -> p i = true).
Proof.
  intros. unfold forallb_lt. rewrite forallb_forall. split; intros.
  - apply H. apply in_seq. lia.
  - apply H. apply in_seq in H0. lia.
Qed.

Lemma flat_map_ext' : forall A B (f g : A -> list B) l,
  (forall x, In x l -> f x = g x) -> flat_map f l = flat_map g l.
Proof.
  intros A B f g l H. induction l as [|a l IH]; simpl; auto.
  rewrite H by (simpl; auto). f_equal. apply IH. intros. apply H. simpl. auto.
Qed.

Lemma nth_skipn' : forall A (d : A) n l i, nth i (skipn n l) d = nth (n + i) l d.
Proof.
  intros A d n. induction n as [|n IH]; intros l i; simpl; auto.
  destruct l as [|a l]; simpl; auto. destruct i; auto.
Qed.

Lemma NoDup_app_l : forall A (l1 l2 : list A), NoDup (l1 ++ l2) -> NoDup l1.
Proof.
  induction l1 as [|a l1 IH]; intros l2 H; [constructor|]. inversion H; subst. constructor.
  - intros Hi. apply H2. apply in_app_iff. auto.
  - eapply IH; eauto.
Qed.

Lemma NoDup_app' : forall A (l1 l2 : list A), NoDup l1 -> NoDup l2 ->
  (forall x, In x l1 -> ~ In x l2) -> NoDup (l1 ++ l2).
Proof.
  induction l1 as [|a l1 IH]; intros l2 H1 H2 H; auto. inversion H1; subst. simpl. constructor.
  - rewrite in_app_iff. intros [?|?]; auto. eapply H; eauto. simpl; auto.
  - apply IH; auto. intros x Hx. apply H. simpl; auto.
Qed.

Lemma filter_none : forall A (f : A -> bool) l, (forall x, In x l -> f x = false) -> filter f l = [].
Proof. induction l as [|a l IH]; intros H; cbn; auto. rewrite H by (cbn; auto). apply IH. intros. apply H. cbn; auto. Qed.
