(** qsched_lockres / qsched_unlockres / qsched_locktask run without interference
    (quicksched/qsched.c:665-796), as functions on the lock state. *)
From Coq Require Import List Arith Lia Bool ZArith.
From Verif Require Import Base LockProto.
Import ListNotations.

Section LockSeq.
Variable parent : nat -> option nat.

(** 681-687: climb from [f]; returns the new state and the finger where the loop
    stopped ([None] = qsched_res_none). [fuel] bounds the length of the chain of
    parents. *)
Fixpoint climb (fuel : nat) (m : mem) (f : option nat) : mem * option nat :=
  match fuel, f with
  | S fuel', Some q =>
      if lk m q then (m, Some q)                                  (* 683-684: trylock failed, break *)
      else climb fuel' (setlk (addhd (setlk m q true) q 1) q false) (parent q)   (* 683, 685, 686, 682 *)
  | _, _ => (m, f)
  end.

(** 696-698: undo the holds from [f2] up to (excluding) [f]. *)
Fixpoint undo (fuel : nat) (m : mem) (f2 : option nat) (f : option nat) : mem :=
  match fuel with
  | 0 => m
  | S fuel' =>
      match f2 with
      | None => m
      | Some q => if (match f with Some x => Nat.eqb q x | None => false end) then m
                  else undo fuel' (addhd m q (-1)) (parent q) f
      end
  end.

(** 665-708 *)
Definition lockres (m : mem) (r : nat) : mem * bool :=
  if negb (Z.eqb (hd m r) 0) || lk m r then (m, false)            (* 670-671 *)
  else
    let m1 := setlk m r true in
    if negb (Z.eqb (hd m1 r) 0) then (setlk m1 r false, false)     (* 674-677 *)
    else
      let '(m2, f) := climb (S r) m1 (parent r) in
      match f with
      | Some _ => (undo (S r) (setlk m2 r false) (parent r) f, false)   (* 690-703 *)
      | None => (m2, true)                                         (* 707-708 *)
      end.

(** 717-728 *)
Definition unlockres (m : mem) (r : nat) : mem := undo (S r) (setlk m r false) (parent r) None.

(** 750-752: lock in order; [got] holds the locks taken, latest first. *)
Fixpoint lock_loop (m : mem) (got todo : list nat) : mem * list nat * bool :=
  match todo with
  | [] => (m, got, true)
  | r :: todo' => let '(m', ok) := lockres m r in
                  if ok then lock_loop m' (r :: got) todo' else (m', got, false)
  end.

(** 739-772: [locks] is the lock list of the task. *)
Definition locktask (m : mem) (locks : list nat) : mem * bool :=
  let '(m', got, ok) := lock_loop m [] locks in
  if ok then (m', true) else (fold_left unlockres got m', false).   (* 758-759: for (k -= 1; k >= 0; k--) *)

(** 781-796 and the unlocking part of qsched_done (625-626). *)
Definition unlocktask (m : mem) (locks : list nat) : mem := fold_left unlockres locks m.

(** Two lock states that agree on every resource. *)
Definition same (m m' : mem) : Prop := forall x, lk m x = lk m' x /\ hd m x = hd m' x.

(** Specification: [r] can be locked now. *)
Definition free_for (m : mem) (r : nat) : Prop :=
  hd m r = 0%Z /\ lk m r = false /\ forall x, In x (ancestors parent r) -> lk m x = false.

(* ------------------------------------------------------------------ proofs *)

Notation chain_from := (chain_from parent).
Notation ancestors := (ancestors parent).

Lemma same_refl : forall m, same m m.
Proof. intros m x; auto. Qed.
Lemma same_trans : forall a b c, same a b -> same b c -> same a c.
Proof. intros a b c H1 H2 x. destruct (H1 x), (H2 x). split; congruence. Qed.
Lemma same_sym : forall a b, same a b -> same b a.
Proof. intros a b H x. destruct (H x). auto. Qed.

Lemma climb_spec : forest parent -> forall fuel m f m' f', length (chain_from f) <= fuel ->
  climb fuel m f = (m', f') ->
  exists pre, chain_from f = pre ++ chain_from f' /\
    (forall x, lk m' x = lk m x) /\ (forall x, hd m' x = (hd m x + Z.of_nat (cnt x pre))%Z) /\
    (forall x, In x pre -> lk m x = false) /\ (forall q, f' = Some q -> lk m q = true).
Proof.
  intros HF. induction fuel as [|fuel IH]; intros m f m' f' Hl H.
  - destruct f as [f|]; cbn in Hl; [lia|]. cbn in H. injection H as <- <-.
    exists []. repeat split; auto; try (intros; cbn; lia). intros x []. intros q E; discriminate.
  - destruct f as [q|]; cbn [climb] in H.
    + destruct (lk m q) eqn:E.
      * injection H as <- <-. exists []. split; [auto|]. split; [auto|]. split; [intros; cbn; lia|]. split; [intros x []|].
        intros y Hy. injection Hy as <-. auto.
      * apply IH in H.
        -- destruct H as (pre & A & B & C & D & F). exists (q :: pre).
           assert (L: forall x, lk (setlk (addhd (setlk m q true) q 1) q false) x = lk m x).
           { intros x. cbn [lk setlk addhd]. destruct (Nat.eqb_spec x q); subst; auto. }
           split. { cbn [LockProto.chain_from]. rewrite (ancestors_unfold parent HF), A. auto. }
           split. { intros. rewrite B. auto. }
           split. { intros x. rewrite C, cnt_cons. cbn [hd setlk addhd]. destruct (Nat.eqb_spec x q); lia. }
           split. { intros x [<-|Hx]; auto. rewrite <- L. auto. }
           intros y Hy. rewrite <- L. auto.
        -- cbn [LockProto.chain_from length] in Hl. rewrite (ancestors_unfold parent HF) in Hl. lia.
    + injection H as <- <-. exists []. split; [auto|]. split; [auto|]. split; [intros; cbn; lia|].
      split; [intros x []|intros y Hy; discriminate].
Qed.

Lemma undo_spec : forest parent -> forall pre fuel m f2 f, length (chain_from f2) <= fuel ->
  chain_from f2 = pre ++ chain_from f ->
  (forall x, lk (undo fuel m f2 f) x = lk m x) /\
  (forall x, hd (undo fuel m f2 f) x = (hd m x - Z.of_nat (cnt x pre))%Z).
Proof.
  intros HF. induction pre as [|p pre IH]; intros fuel m f2 f Hl E.
  - assert (U: undo fuel m f2 f = m).
    { destruct fuel; auto. cbn [undo]. destruct f2 as [q|]; auto.
      destruct f as [x|]; [|discriminate E]. cbn in E. injection E as -> _. rewrite Nat.eqb_refl. auto. }
    rewrite U. split; intros; auto. cbn. lia.
  - destruct f2 as [q|]; [|discriminate E]. cbn [LockProto.chain_from app] in E. injection E as <- E.
    destruct fuel as [|fuel]; [cbn in Hl; lia|]. cbn [undo].
    assert (Hne: (match f with Some x => Nat.eqb q x | None => false end) = false).
    { destruct f as [x|]; auto. destruct (Nat.eqb_spec q x) as [->|]; auto. exfalso.
      assert (HI: In x (ancestors x)) by (rewrite E; apply in_app_iff; right; cbn; auto).
      apply ancestors_lt in HI; auto. lia. }
    rewrite Hne. rewrite (ancestors_unfold parent HF) in E.
    destruct (IH fuel (addhd m q (-1)) (parent q) f) as (A & B); auto.
    { cbn [LockProto.chain_from length] in Hl. rewrite (ancestors_unfold parent HF) in Hl. lia. }
    split; intros x.
    + rewrite A. auto.
    + rewrite B, cnt_cons. cbn [hd addhd]. destruct (Nat.eqb_spec x q); lia.
Qed.

Lemma ancs_length : forest parent -> forall fuel r, length (ancs parent fuel r) <= r.
Proof.
  intros HF. induction fuel as [|fuel IH]; intros r; cbn; [lia|].
  destruct (parent r) as [p|] eqn:E; cbn; [|lia]. apply HF in E. specialize (IH p). lia.
Qed.

Lemma chain_length : forest parent -> forall r, length (chain_from (parent r)) <= S r.
Proof.
  intros HF r. rewrite <- (ancestors_unfold parent HF). unfold LockProto.ancestors. 
  pose proof (ancs_length HF (S r) r). lia.
Qed.

(** lockres: exact outcome. *)
Lemma lockres_spec : forest parent -> forall m r m' ok, lockres m r = (m', ok) ->
  (ok = true <-> free_for m r) /\
  (ok = false -> same m' m) /\
  (ok = true -> forall x, lk m' x = (if Nat.eqb x r then true else lk m x) /\
                          hd m' x = (hd m x + Z.of_nat (cnt x (ancestors r)))%Z).
Proof.
  intros HF m r m' ok. unfold lockres.
  destruct (Z.eqb_spec (hd m r) 0) as [Eh|Eh]; cbn [negb orb].
  2: { intros H; injection H as <- <-. split; [|split]; try discriminate.
       - split; [discriminate|]. intros (A & _). contradiction.
       - intros _. apply same_refl. }
  destruct (lk m r) eqn:El.
  { intros H; injection H as <- <-. split; [|split]; try discriminate.
       - split; [discriminate|]. intros (_ & A & _). congruence.
       - intros _. apply same_refl. }
  cbn [hd setlk]. rewrite Eh. cbn [Z.eqb negb].
  destruct (climb (S r) (setlk m r true) (parent r)) as [m2 f] eqn:EC.
  destruct (climb_spec HF _ _ _ _ _ (chain_length HF r) EC) as (pre & A & B & C & D & F).
  destruct f as [q|].
  - intros H; injection H as <- <-.
    destruct (undo_spec HF pre (S r) (setlk m2 r false) (parent r) (Some q) (chain_length HF r) A) as (U1 & U2).
    assert (Hq: In q (ancestors r)).
    { rewrite (ancestors_unfold parent HF), A. apply in_app_iff. right. cbn. auto. }
    split; [|split]; try discriminate.
    + split; [discriminate|]. intros (_ & _ & G). specialize (F q eq_refl). cbn [lk setlk] in F.
      destruct (Nat.eqb_spec q r) as [->|]; [apply ancestors_lt in Hq; auto; lia|]. rewrite (G q Hq) in F. discriminate.
    + intros _ x. split.
      * rewrite U1. cbn [lk setlk]. rewrite B. cbn [lk setlk]. destruct (Nat.eqb_spec x r); subst; auto.
      * rewrite U2. cbn [hd setlk]. rewrite C. cbn [hd setlk]. lia.
  - intros H; injection H as <- <-. cbn [LockProto.chain_from] in A. rewrite app_nil_r in A.
    rewrite <- (ancestors_unfold parent HF) in A.
    split; [|split]; try discriminate.
    + split; auto. intros _. split; auto. split; auto. intros x Hx. rewrite A in Hx. specialize (D x Hx).
      cbn [lk setlk] in D. destruct (Nat.eqb_spec x r); [discriminate|auto].
    + intros _ x. rewrite B, C, A. cbn [lk hd setlk]. auto.
Qed.

Lemma unlockres_spec : forest parent -> forall m r x,
  lk (unlockres m r) x = (if Nat.eqb x r then false else lk m x) /\
  hd (unlockres m r) x = (hd m x - Z.of_nat (cnt x (ancestors r)))%Z.
Proof.
  intros HF m r x. unfold unlockres.
  destruct (undo_spec HF (ancestors r) (S r) (setlk m r false) (parent r) None (chain_length HF r)) as (A & B).
  { cbn [LockProto.chain_from]. rewrite app_nil_r. symmetry. apply ancestors_unfold. auto. }
  rewrite A, B. cbn [lk hd setlk]. auto.
Qed.

Lemma unlockres_same : forest parent -> forall m m' r, same m m' -> same (unlockres m r) (unlockres m' r).
Proof.
  intros HF m m' r H x. destruct (unlockres_spec HF m r x) as (A & B). destruct (unlockres_spec HF m' r x) as (C & D).
  destruct (H x) as (E & F). rewrite A, B, C, D. rewrite E, F. auto.
Qed.

Lemma fold_unlock_same : forest parent -> forall l m m', same m m' -> same (fold_left unlockres l m) (fold_left unlockres l m').
Proof. intros HF. induction l as [|r l IH]; intros m m' H; cbn; auto. apply IH, unlockres_same; auto. Qed.

(** Locking and then unlocking restores the state. *)
Lemma unlock_lock : forest parent -> forall m r m', lockres m r = (m', true) -> same (unlockres m' r) m.
Proof.
  intros HF m r m' H x. destruct (lockres_spec HF _ _ _ _ H) as (A & _ & B). specialize (B eq_refl x).
  destruct (unlockres_spec HF m' r x) as (C & D). destruct B as (B1 & B2). rewrite C, D, B1, B2.
  destruct (proj1 A eq_refl) as (_ & Hl & _). split; [|lia].
  destruct (Nat.eqb_spec x r); subst; auto.
Qed.

Lemma lock_loop_undo : forest parent -> forall todo m got m' got' ok, lock_loop m got todo = (m', got', ok) ->
  exists new, got' = new ++ got /\ same (fold_left unlockres new m') m /\ (ok = true -> got' = rev todo ++ got).
Proof.
  intros HF. induction todo as [|r todo IH]; intros m got m' got' ok H; cbn [lock_loop] in H.
  - injection H as <- <- <-. exists []. cbn. repeat split; auto; apply same_refl.
  - destruct (lockres m r) as [m1 ok1] eqn:E. destruct ok1.
    + destruct (IH _ _ _ _ _ H) as (new & A & B & C). exists (new ++ [r]). split; [rewrite A, <- app_assoc; auto|]. split.
      * rewrite fold_left_app. cbn [fold_left]. eapply same_trans; [apply unlockres_same; [auto|exact B]|].
        apply unlock_lock; auto.
      * intros Hok. rewrite (C Hok). cbn [rev]. rewrite <- app_assoc. auto.
    + injection H as <- <- <-. exists []. split; auto. split; [|discriminate]. cbn.
      destruct (lockres_spec HF _ _ _ _ E) as (_ & A & _). apply A. auto.
Qed.

(** A failed attempt leaves no trace. *)
Lemma locktask_fail_unchanged : forest parent -> forall m locks m', locktask m locks = (m', false) -> same m' m.
Proof.
  intros HF m locks m' H. unfold locktask in H. destruct (lock_loop m [] locks) as [[m1 got] ok] eqn:E.
  destruct ok; [discriminate|]. injection H as <-.
  destruct (lock_loop_undo HF _ _ _ _ _ _ E) as (new & A & B & _). rewrite app_nil_r in A. subst. auto.
Qed.

Lemma lock_loop_success : forest parent -> forall todo m got m' got', lock_loop m got todo = (m', got', true) ->
  forall x, lk m' x = (if in_dec Nat.eq_dec x todo then true else lk m x) /\
            hd m' x = (hd m x + Z.of_nat (cnt x (flat_map ancestors todo)))%Z.
Proof.
  intros HF. induction todo as [|r todo IH]; intros m got m' got' H x; cbn [lock_loop] in H.
  - injection H as <- <-. cbn. split; auto; lia.
  - destruct (lockres m r) as [m1 ok1] eqn:E. destruct ok1; [|discriminate].
    destruct (IH _ _ _ _ H x) as (A & B). destruct (lockres_spec HF _ _ _ _ E) as (_ & _ & C). specialize (C eq_refl x).
    destruct C as (C1 & C2). rewrite A, B, C1, C2. cbn [flat_map]. rewrite cnt_app. split; [|lia].
    destruct (in_dec Nat.eq_dec x todo), (in_dec Nat.eq_dec x (r :: todo)), (Nat.eqb_spec x r); subst; cbn in *; try tauto; auto.
    + exfalso. destruct i; auto.
Qed.

Lemma locktask_success : forest parent -> forall m locks m', locktask m locks = (m', true) ->
  forall x, lk m' x = (if in_dec Nat.eq_dec x locks then true else lk m x) /\
            hd m' x = (hd m x + Z.of_nat (cnt x (flat_map ancestors locks)))%Z.
Proof.
  intros HF m locks m' H. unfold locktask in H. destruct (lock_loop m [] locks) as [[m1 got] ok] eqn:E.
  destruct ok; [|discriminate]. injection H as <-. eapply lock_loop_success; eauto.
Qed.

Lemma unlock_comm : forest parent -> forall m a b, same (unlockres (unlockres m a) b) (unlockres (unlockres m b) a).
Proof.
  intros HF m a b x.
  destruct (unlockres_spec HF (unlockres m a) b x) as (A1 & A2). destruct (unlockres_spec HF (unlockres m b) a x) as (B1 & B2).
  destruct (unlockres_spec HF m a x) as (C1 & C2). destruct (unlockres_spec HF m b x) as (D1 & D2).
  rewrite A1, A2, B1, B2, C1, C2, D1, D2. split; [|lia].
  destruct (Nat.eqb x a), (Nat.eqb x b); auto.
Qed.

(** Unlocking the task restores the state before locking it. *)
Lemma unlock_locktask : forest parent -> forall m locks m', locktask m locks = (m', true) -> same (unlocktask m' locks) m.
Proof.
  intros HF m locks m' H. unfold locktask in H. destruct (lock_loop m [] locks) as [[m1 got] ok] eqn:E.
  destruct ok; [|discriminate]. injection H as <-.
  destruct (lock_loop_undo HF _ _ _ _ _ _ E) as (new & A & B & C). rewrite app_nil_r in A. subst new.
  specialize (C eq_refl). rewrite app_nil_r in C. rewrite C in B.
  unfold unlocktask. eapply same_trans; [|exact B].
  assert (MV: forall l m r, same (fold_left unlockres (l ++ [r]) m) (fold_left unlockres l (unlockres m r))).
  { clear -HF. induction l as [|a l IH]; intros m r; cbn [app fold_left].
    - apply same_refl.
    - eapply same_trans; [apply IH|]. apply fold_unlock_same; auto. apply unlock_comm; auto. }
  assert (RV: forall l m, same (fold_left unlockres (rev l) m) (fold_left unlockres l m)).
  { induction l as [|a l IH]; intros m0; cbn [rev fold_left]; [apply same_refl|].
    eapply same_trans; [apply MV|]. apply IH. }
  apply same_sym. apply RV.
Qed.

(** The whole task can be locked iff its lock list has no internal conflict and
    nothing conflicting is locked: stated for a state where the lock words and
    hold counters describe a set [L] of locked resources. *)
Definition describes (m : mem) (L : list nat) : Prop :=
  (forall x, lk m x = true <-> In x L) /\ (forall x, hd m x = Z.of_nat (cnt x (flat_map ancestors L))).

Definition conflict (r x : nat) : Prop := anc_or_eq parent r x \/ anc_or_eq parent x r.

Lemma free_for_describes : forest parent -> forall m L r, describes m L ->
  (free_for m r <-> forall x, In x L -> ~ conflict r x).
Proof.
  intros HF m L r (D1 & D2). unfold free_for, conflict. split.
  - intros (A & B & C) x Hx [HC|HC].
    + apply anc_or_eq_In in HC; auto. destruct HC as [->|HC].
      * apply D1 in Hx. congruence.
      * rewrite D2 in A. assert (In r (flat_map ancestors L)) by (apply in_flat_map; eauto).
        apply cnt_In in H. lia.
    + apply anc_or_eq_In in HC; auto. destruct HC as [->|HC].
      * apply D1 in Hx. congruence.
      * apply C in HC. apply D1 in Hx. congruence.
  - intros H. split; [|split].
    + rewrite D2. destruct (Nat.eq_dec (cnt r (flat_map ancestors L)) 0) as [E|E]; [rewrite E; auto|]. exfalso.
      assert (Hin: In r (flat_map ancestors L)) by (apply cnt_In; lia).
      apply in_flat_map in Hin. destruct Hin as (x & Hx & Hr). apply (H x Hx). left. apply ancestors_anc; auto.
    + destruct (lk m r) eqn:E; auto. exfalso. apply D1 in E. apply (H r E). left. constructor.
    + intros x Hx. destruct (lk m x) eqn:E; auto. exfalso. apply D1 in E. apply (H x E). right. apply ancestors_anc; auto.
Qed.

Lemma lock_loop_iff : forest parent -> forall todo m got L m' got' ok, describes m L -> lock_loop m got todo = (m', got', ok) ->
  (ok = true <-> ForallOrdPairs (fun r x => ~ conflict r x) todo /\ forall r x, In r todo -> In x L -> ~ conflict r x).
Proof.
  intros HF. induction todo as [|r todo IH]; intros m got L m' got' ok HD H; cbn [lock_loop] in H.
  - injection H as <- <- <-. split; auto. intros _. split; [constructor|]. intros r x [].
  - destruct (lockres m r) as [m1 ok1] eqn:E. destruct (lockres_spec HF _ _ _ _ E) as (A & _ & B).
    rewrite (free_for_describes HF m L r HD) in A. destruct ok1.
    + specialize (B eq_refl).
      assert (HD1: describes m1 (r :: L)).
      { destruct HD as (D1 & D2). split; intros x; destruct (B x) as (B1 & B2).
        - rewrite B1. specialize (D1 x). clear - D1. cbn [In].
          destruct (Nat.eqb_spec x r) as [e|e].
          + split; [intros _; left; auto|auto].
          + rewrite D1. split; [intros q; right; auto|]. intros [q|q]; [symmetry in q; contradiction|auto].
        - rewrite B2, D2. cbn [flat_map]. rewrite cnt_app. lia. }
      rewrite (IH _ _ _ _ _ _ HD1 H). split.
      * intros (F & G). split.
        -- constructor; auto. apply Forall_forall. intros x Hx HC. apply (G x r Hx); cbn; auto. unfold conflict in *. tauto.
        -- intros y x [<-|Hy] Hx. apply A; auto. apply G; cbn; auto.
      * intros (F & G). inversion F as [|? ? F1 F2]; subst. split; auto.
        intros y x Hy [<-|Hx] HC.
        -- rewrite Forall_forall in F1. apply (F1 y Hy). unfold conflict in *. tauto.
        -- apply (G y x); cbn; auto.
    + injection H as <- <- <-. split; [discriminate|]. intros (_ & G). apply A. intros x Hx. apply G; cbn; auto.
Qed.

Lemma locktask_iff : forest parent -> forall m L locks m' ok, describes m L -> locktask m locks = (m', ok) ->
  (ok = true <-> ForallOrdPairs (fun r x => ~ conflict r x) locks /\ forall r x, In r locks -> In x L -> ~ conflict r x).
Proof.
  intros HF m L locks m' ok HD H. unfold locktask in H. destruct (lock_loop m [] locks) as [[m1 got] ok1] eqn:E.
  rewrite <- (lock_loop_iff HF _ _ _ _ _ _ _ HD E). destruct ok1; injection H as <- <-; tauto.
Qed.

End LockSeq.
