(** The execution of a prepared scheduler by any number of threads:
    qsched_run_openmp (quicksched/qsched.c:314-345), qsched_gettask (811-895),
    queue_get / queue_put (queue.c:55-197), qsched_locktask (739-775) and
    qsched_done (612-655), down to the single atomic memory operations of the
    resource locks (LockProto.v).

    Simplifications: task flags are 0 (QuickSchedWrapper.hpp registers all tasks
    with [task_flag_none]), so there are no virtual or skipped tasks; the order
    in which a queue is scanned, the choice of the queue and of the queue a task
    is put in are arbitrary (any choice is allowed); a queue is a list and its
    accesses are atomic while its lock is held (Queue.v models the heap);
    statistics (tic, toc, cost, owner) are left out. *)
From Coq Require Import List Arith Lia Bool ZArith Permutation.
From Verif Require Import Base LockProto.
Import ListNotations.

Section Sched.

(** Resource forest, number of tasks and queues, lock list and dependents of
    every task (qsched.c:1230-1345: addlock / addunlock). *)
Variable parent : nat -> option nat.
Variable n nq : nat.
Variable locks unlocks : nat -> list nat.

(** What a thread is doing. *)
Inductive spc :=
| SIdle                                          (* 828: top of the while loop of gettask *)
| SLock (k t : nat) (got todo : list nat)        (* 750-752, holding the lock of queue k *)
| SRoll (k t : nat) (got : list nat)             (* 757-759: unroll the locks *)
| SRun (t : nat)                                 (* 334: inside the user function *)
| SUnlock (t : nat) (todo : list nat)            (* 625-626 *)
| SDeps (t : nat) (todo : list nat)              (* 629-637 *)
| SEnq (t u : nat) (todo : list nat)             (* 636: qsched_enqueue of u *)
| SExit.                                         (* gettask returned NULL *)

Inductive ev := Start (t : nat) | End (t : nat).

(** Shared state. [fin] (tasks whose qsched_done has returned) and [log]
    (begin/end of user function calls, latest first) are ghost. *)
Record glob := mkG {
  gm : mem;                   (* lock words and hold counters *)
  gw : nat -> nat;            (* tasks[t].wait *)
  gq : nat -> list nat;       (* queues *)
  gwaiting : nat;             (* s->waiting *)
  fin : list nat;
  log : list ev }.

Definition setm (g : glob) (m : mem) := mkG m (gw g) (gq g) (gwaiting g) (fin g) (log g).
Definition fset {A} (f : nat -> A) (k : nat) (v : A) : nat -> A :=
  fun x => if Nat.eqb x k then v else f x.
Definition setw (g : glob) (u v : nat) := mkG (gm g) (fset (gw g) u v) (gq g) (gwaiting g) (fin g) (log g).
Definition setq (g : glob) (k : nat) (l : list nat) := mkG (gm g) (gw g) (fset (gq g) k l) (gwaiting g) (fin g) (log g).
Definition addlog (g : glob) (e : ev) := mkG (gm g) (gw g) (gq g) (gwaiting g) (fin g) (e :: log g).
Definition done1 (g : glob) (t : nat) := mkG (gm g) (gw g) (gq g) (gwaiting g - 1) (t :: fin g) (log g).

Notation thread := (thr * spc)%type.

(** The queue whose lock the thread holds: queue.c:64-70 / 130. *)
Definition qhold (x : thread) : option nat :=
  match snd x with SLock k _ _ _ | SRoll k _ _ => Some k | _ => None end.
Definition qfree (k : nat) (l : list thread) : Prop := forall x, In x l -> qhold x <> Some k.

(** One atomic action of a thread; [oth] are the other threads. *)
Inductive lstep (oth : list thread) : glob -> thread -> glob -> thread -> Prop :=
(* 828-850, queue.c:55-84: tasks are waiting; lock queue k and try its task t *)
| l_pick : forall g th k t, 0 < gwaiting g -> k < nq -> In t (gq g k) -> qfree k oth ->
    lstep oth g (th, SIdle) g (th, SLock k t [] (locks t))
(* 828, 893: nothing is waiting: return NULL *)
| l_exit : forall g th, gwaiting g = 0 -> lstep oth g (th, SIdle) g (th, SExit)
(* 751: call qsched_lockres on the next lock *)
| l_call : forall g th k t got r todo, at_ th = Idle ->
    lstep oth g (th, SLock k t got (r :: todo)) g (mkThr (LHold r) (owned th), SLock k t got (r :: todo))
(* inside lockres / unlockres *)
| l_inner : forall g th p m' th', at_ th <> Idle -> at_ th' <> Idle -> tstep parent (gm g) th m' th' ->
    lstep oth g (th, p) (setm g m') (th', p)
(* 751: lockres returned 1 *)
| l_lock_ok : forall g th k t got r todo m', at_ th <> Idle ->
    tstep parent (gm g) th m' (mkThr Idle (r :: owned th)) ->
    lstep oth g (th, SLock k t got (r :: todo)) (setm g m') (mkThr Idle (r :: owned th), SLock k t (r :: got) todo)
(* 751-752: lockres returned 0 *)
| l_lock_fail : forall g th k t got todo m', at_ th <> Idle ->
    tstep parent (gm g) th m' (mkThr Idle (owned th)) ->
    lstep oth g (th, SLock k t got todo) (setm g m') (mkThr Idle (owned th), SRoll k t got)
(* 770, queue.c:88-130: all locks taken; remove t from the queue, release the
   queue, 334: call the user function *)
| l_got : forall g th k t got q1 q2, at_ th = Idle -> gq g k = q1 ++ t :: q2 ->
    lstep oth g (th, SLock k t got []) (addlog (setq g k (q1 ++ q2)) (Start t)) (th, SRun t)
(* 759: qsched_unlockres on the last lock taken *)
| l_roll_call : forall g o1 r o2 k t got,
    lstep oth g (mkThr Idle (o1 ++ r :: o2), SRoll k t (r :: got)) g (mkThr (UnUnlock r) (o1 ++ o2), SRoll k t got)
| l_roll_ret : forall g th k t got m' o', at_ th <> Idle -> tstep parent (gm g) th m' (mkThr Idle o') ->
    lstep oth g (th, SRoll k t got) (setm g m') (mkThr Idle o', SRoll k t got)
(* 763: give up on this task; the queue is released *)
| l_roll_done : forall g th k t, at_ th = Idle ->
    lstep oth g (th, SRoll k t []) g (th, SIdle)
(* 334: the user function returns; 337: qsched_done *)
| l_finish : forall g th t,
    lstep oth g (th, SRun t) (addlog g (End t)) (th, SUnlock t (locks t))
(* 626 *)
| l_un_call : forall g o1 r o2 t todo,
    lstep oth g (mkThr Idle (o1 ++ r :: o2), SUnlock t (r :: todo)) g (mkThr (UnUnlock r) (o1 ++ o2), SUnlock t todo)
| l_un_ret : forall g th t todo m' o', at_ th <> Idle -> tstep parent (gm g) th m' (mkThr Idle o') ->
    lstep oth g (th, SUnlock t todo) (setm g m') (mkThr Idle o', SUnlock t todo)
| l_un_done : forall g th t, at_ th = Idle ->
    lstep oth g (th, SUnlock t []) g (th, SDeps t (unlocks t))
(* 635: atomic_dec(wait) != 1 *)
| l_dec_more : forall g th t u us w, gw g u = S (S w) ->
    lstep oth g (th, SDeps t (u :: us)) (setw g u (S w)) (th, SDeps t us)
(* 635: atomic_dec(wait) == 1 *)
| l_dec_last : forall g th t u us, gw g u = 1 ->
    lstep oth g (th, SDeps t (u :: us)) (setw g u 0) (th, SEnq t u us)
(* 636, 600-601, queue.c:144-197: put u in some queue *)
| l_enq : forall g th t u us k, k < nq -> qfree k oth ->
    lstep oth g (th, SEnq t u us) (setq g k (u :: gq g k)) (th, SDeps t us)
(* 640: atomic_dec(&s->waiting), back to gettask *)
| l_done : forall g th t, 0 < gwaiting g ->
    lstep oth g (th, SDeps t []) (done1 g t) (th, SIdle).

Record st := mkS { gl : glob; tl_ : list thread }.

Inductive step : st -> st -> Prop :=
| step_thread : forall g l1 x l2 g' x', lstep (l1 ++ l2) g x g' x' ->
    step (mkS g (l1 ++ x :: l2)) (mkS g' (l1 ++ x' :: l2)).

(** All dependency edges (sources repeated per edge). *)
Definition preds_count (t : nat) : nat := cnt t (flat_map unlocks (seq 0 n)).

Definition queued (g : glob) : list nat := flat_map (gq g) (seq 0 nq).

(** State after qsched_prepare (1045-1155): wait counters are the numbers of
    incoming edges, the tasks without incoming edges sit in the queues. Lock
    words and hold counters are free.  See Prepare.v for the computation. *)
Definition initial_sched (s : st) : Prop :=
  (forall r, lk (gm (gl s)) r = false) /\ (forall r, hd (gm (gl s)) r = 0%Z) /\
  (forall t, gw (gl s) t = preds_count t) /\
  Permutation (queued (gl s)) (filter (fun t => preds_count t =? 0) (seq 0 n)) /\
  gwaiting (gl s) = n /\ fin (gl s) = [] /\ log (gl s) = [] /\
  (forall x, In x (tl_ s) -> x = (mkThr Idle [], SIdle)).

Inductive sreach : st -> Prop :=
| sr_init : forall s, initial_sched s -> sreach s
| sr_step : forall s s', sreach s -> step s s' -> sreach s'.

(** Several steps. *)
Inductive steps : st -> st -> Prop :=
| ss_refl : forall s, steps s s
| ss_step : forall s s1 s2, step s s1 -> steps s1 s2 -> steps s s2.

(* ---------------------------------------------------------- observables *)

(** Thread [i] is inside the user function of task [t]. *)
Definition executing (s : st) (i t : nat) : Prop :=
  exists th, nth_error (tl_ s) i = Some (th, SRun t).

Definition all_exited (s : st) : Prop := forall x, In x (tl_ s) -> snd x = SExit.

Definition nstart (t : nat) (l : list ev) : nat :=
  length (filter (fun e => match e with Start u => u =? t | _ => false end) l).
Definition nend (t : nat) (l : list ev) : nat :=
  length (filter (fun e => match e with End u => u =? t | _ => false end) l).

(** Every start of a dependent is preceded by the end of what it depends on
    (the log has the latest event first). *)
Fixpoint ordered (l : list ev) : Prop :=
  match l with
  | [] => True
  | Start b :: l' => (forall a, a < n -> In b (unlocks a) -> In (End a) l') /\ ordered l'
  | _ :: l' => ordered l'
  end.

(* ---------------------------------------------------------- invariants *)

Definition b2n (b : bool) : nat := if b then 1 else 0.
Definition tsum (f : thread -> nat) (l : list thread) : nat := fold_right (fun x a => f x + a) 0 l.

Definition holding (t : nat) (x : thread) : nat :=
  match snd x with
  | SRun u | SUnlock u _ | SDeps u _ | SEnq u _ _ => b2n (t =? u)
  | _ => 0
  end.
Definition pending (t : nat) (x : thread) : nat :=
  match snd x with SEnq _ u _ => b2n (t =? u) | _ => 0 end.
Definition ended (t : nat) (x : thread) : nat :=
  match snd x with SUnlock u _ | SDeps u _ | SEnq u _ _ => b2n (t =? u) | _ => 0 end.
Definition dph (x : thread) : list nat :=
  match snd x with SDeps u _ | SEnq u _ _ => [u] | _ => [] end.
Definition rest (x : thread) : list nat :=
  match snd x with SDeps _ l | SEnq _ _ l => l | _ => [] end.

(** Consistency of one thread. *)
Definition tok (g : glob) (x : thread) : Prop :=
  match x with
  | (th, SIdle) | (th, SExit) => th = mkThr Idle []
  | (th, SLock k t got todo) =>
      k < nq /\ In t (gq g k) /\ Permutation (got ++ todo) (locks t) /\ Permutation (owned th) got /\
      (at_ th = Idle \/ exists r todo', todo = r :: todo' /\ in_lock r (at_ th))
  | (th, SRoll k t got) => k < nq /\ Permutation (owned th) got /\ (at_ th = Idle \/ in_unlock (at_ th))
  | (th, SRun t) => at_ th = Idle /\ Permutation (owned th) (locks t)
  | (th, SUnlock t todo) => Permutation (owned th) todo /\ (at_ th = Idle \/ in_unlock (at_ th))
  | (th, SDeps t todo) => th = mkThr Idle [] /\ exists pre, unlocks t = pre ++ todo
  | (th, SEnq t u todo) => th = mkThr Idle [] /\ exists pre, unlocks t = pre ++ todo
  end.

Definition sinv (s : st) : Prop :=
  let g := gl s in let l := tl_ s in
  reachable parent (mkSys (gm g) (map fst l)) /\
  (forall x, In x l -> tok g x) /\
  (forall k, tsum (fun x => match qhold x with Some k' => b2n (k =? k') | None => 0 end) l <= 1) /\
  (forall t, b2n (negb (gw g t =? 0)) + cnt t (queued g) + tsum (holding t) l + tsum (pending t) l + cnt t (fin g)
             = b2n (t <? n)) /\
  (forall t, gw g t + cnt t (flat_map unlocks (fin g)) + cnt t (flat_map unlocks (flat_map dph l))
             = preds_count t + cnt t (flat_map rest l)) /\
  gwaiting g + length (fin g) = n /\
  (forall t, nstart t (log g) = tsum (holding t) l + cnt t (fin g)) /\
  (forall t, nend t (log g) = tsum (ended t) l + cnt t (fin g)) /\
  ordered (log g).

Lemma tsum_app : forall f l1 l2, tsum f (l1 ++ l2) = tsum f l1 + tsum f l2.
Proof. induction l1; simpl; intros; auto. rewrite IHl1. lia. Qed.
Lemma tsum_mid : forall f l1 x l2, tsum f (l1 ++ x :: l2) = tsum f l1 + f x + tsum f l2.
Proof. intros. rewrite tsum_app. simpl. lia. Qed.
Lemma tsum_zero : forall f l, tsum f l = 0 <-> (forall x, In x l -> f x = 0).
Proof.
  induction l; simpl; split; intros; try tauto.
  - destruct H0. subst. lia. apply IHl; auto. lia.
  - rewrite (H a) by auto. apply IHl. auto.
Qed.

Lemma cnt_flat_mid : forall (f : thread -> list nat) r l1 x l2,
  cnt r (flat_map f (l1 ++ x :: l2)) = cnt r (flat_map f l1) + cnt r (f x) + cnt r (flat_map f l2).
Proof. intros. rewrite flat_map_app. simpl. rewrite !cnt_app. lia. Qed.

Lemma flat2_mid : forall r l1 x l2,
  cnt r (flat_map unlocks (flat_map dph (l1 ++ x :: l2))) =
  cnt r (flat_map unlocks (flat_map dph l1)) + cnt r (flat_map unlocks (dph x)) + cnt r (flat_map unlocks (flat_map dph l2)).
Proof. intros. rewrite flat_map_app. simpl. rewrite !flat_map_app, !cnt_app. lia. Qed.

Lemma cnt_fset_flat : forall (q : nat -> list nat) k l a len t, a <= k < a + len ->
  cnt t (flat_map (fset q k l) (seq a len)) + cnt t (q k) = cnt t (flat_map q (seq a len)) + cnt t l.
Proof.
  intros q k l a len t. revert a. induction len; intros a Hk; [lia|]. cbn [seq flat_map]. rewrite !cnt_app.
  destruct (Nat.eq_dec a k) as [->|Hne].
  - unfold fset at 1. rewrite Nat.eqb_refl.
    assert (E: flat_map (fset q k l) (seq (S k) len) = flat_map q (seq (S k) len)).
    { apply flat_map_ext'. intros x Hx. apply in_seq in Hx. unfold fset. destruct (Nat.eqb_spec x k); [lia|auto]. }
    rewrite E. lia.
  - specialize (IHlen (S a) ltac:(lia)). unfold fset at 1. destruct (Nat.eqb_spec a k); [lia|]. lia.
Qed.

Lemma cnt_setq : forall g k l t, k < nq ->
  cnt t (queued (setq g k l)) + cnt t (gq g k) = cnt t (queued g) + cnt t l.
Proof. intros. unfold queued, setq. cbn [gq]. apply cnt_fset_flat. lia. Qed.

(** Registered dependencies refer to registered tasks. *)
Definition edges_in_range : Prop := forall a u, a < n -> In u (unlocks a) -> u < n.

Lemma sinv_initial : edges_in_range -> forall s, initial_sched s -> sinv s.
Proof.
  intros HU s (A & B & C & D & E & F & G & H). unfold sinv.
  assert (T0: forall f, (forall th, f (th, SIdle) = 0) -> tsum f (tl_ s) = 0).
  { intros f Hf. apply tsum_zero. intros x Hx. rewrite (H x Hx). apply Hf. }
  assert (L0: forall f : thread -> list nat, (forall th, f (th, SIdle) = []) -> flat_map f (tl_ s) = []).
  { intros f Hf. clear -H Hf. induction (tl_ s) as [|a l IH]; simpl; auto.
    rewrite (H a) by (simpl; auto). rewrite Hf. simpl. apply IH. intros. apply H. simpl; auto. }
  repeat split.
  - apply reach_init. repeat split; cbn [smem ths]; auto.
    intros t Ht. apply in_map_iff in Ht. destruct Ht as (x & Hx & Hin). rewrite (H x Hin) in Hx. auto.
  - intros x Hx. rewrite (H x Hx). simpl. auto.
  - intros k. rewrite T0; auto.
  - intros t. rewrite F, C. rewrite (T0 (holding t)), (T0 (pending t)) by auto. cbn [cnt count_occ].
    unfold cnt at 1. rewrite (Permutation_count_occ Nat.eq_dec) in D. rewrite D.
    assert (HF: forall a len, count_occ Nat.eq_dec (filter (fun t0 => preds_count t0 =? 0) (seq a len)) t
              = if (a <=? t) && (t <? a + len) then b2n (preds_count t =? 0) else 0).
    { clear. intros a len. revert a. induction len; intros a; cbn [seq filter].
      - destruct (Nat.leb_spec a t), (Nat.ltb_spec t (a+0)); simpl; auto; lia.
      - assert (IH := IHlen (S a)). destruct (preds_count a =? 0) eqn:E0.
        + cbn [count_occ]. destruct (Nat.eq_dec a t) as [->|Hne].
          * rewrite IH. destruct (Nat.leb_spec (S t) t); [lia|]. cbn [andb].
            destruct (Nat.leb_spec t t), (Nat.ltb_spec t (t + S len)); try lia. cbn [andb]. rewrite E0. auto.
          * rewrite IH. destruct (Nat.leb_spec (S a) t), (Nat.leb_spec a t), (Nat.ltb_spec t (S a + len)), (Nat.ltb_spec t (a + S len));
              cbn [andb]; auto; lia.
        + rewrite IH. destruct (Nat.eq_dec a t) as [->|Hne].
          * destruct (Nat.leb_spec (S t) t); [lia|]. cbn [andb].
            destruct (Nat.leb_spec t t), (Nat.ltb_spec t (t + S len)); try lia. cbn [andb]. rewrite E0. auto.
          * destruct (Nat.leb_spec (S a) t), (Nat.leb_spec a t), (Nat.ltb_spec t (S a + len)), (Nat.ltb_spec t (a + S len));
              cbn [andb]; auto; lia. }
    rewrite HF. cbn [Nat.leb andb plus].
    destruct (Nat.ltb_spec t n); destruct (preds_count t =? 0) eqn:E0; cbn [b2n negb]; try lia.
    exfalso. assert (Hp: 0 < preds_count t) by (destruct (Nat.eqb_spec (preds_count t) 0); [discriminate|lia]).
    apply cnt_In in Hp. apply in_flat_map in Hp. destruct Hp as (a & Ha & Hb). apply in_seq in Ha.
    apply HU in Hb; lia.
  - intros t. rewrite F, C, (L0 dph), (L0 rest) by auto. simpl. lia.
  - rewrite F, E. simpl. lia.
  - intros t. rewrite F, G, (T0 (holding t)) by auto. auto.
  - intros t. rewrite F, G, (T0 (ended t)) by auto. auto.
  - rewrite G. simpl. auto.
Qed.

Lemma reach_lstep : forall oth g x g' x' l1 l2, lstep oth g x g' x' ->
  reachable parent (mkSys (gm g) (map fst (l1 ++ x :: l2))) ->
  reachable parent (mkSys (gm g') (map fst (l1 ++ x' :: l2))).
Proof.
  intros oth g x g' x' l1 l2 H HR.
  assert (ST: forall m m' th th' p p', tstep parent m th m' th' ->
     reachable parent (mkSys m (map fst (l1 ++ (th,p) :: l2))) ->
     reachable parent (mkSys m' (map fst (l1 ++ (th',p') :: l2)))).
  { intros m m' th th' p p' Ht Hr. rewrite map_app in *. cbn [map fst] in *.
    eapply reach_step; [exact Hr|]. constructor. auto. }
  assert (SAME: forall m th p p',
     reachable parent (mkSys m (map fst (l1 ++ (th,p) :: l2))) ->
     reachable parent (mkSys m (map fst (l1 ++ (th,p') :: l2)))).
  { intros m th p p' Hr. rewrite map_app in *. exact Hr. }
  inversion H; subst; cbn [gm setm setw setq addlog done1] in *;
    try (eapply ST; [eassumption|exact HR]); try (eapply SAME; exact HR).
  - eapply ST; [|exact HR]. destruct th as [a o]. cbn [at_ owned] in *. subst a. apply t_call_lock.
  - eapply ST; [|exact HR]. apply t_call_unlock.
  - eapply ST; [|exact HR]. apply t_call_unlock.
Qed.

Lemma tok_mono : forall g g' y, tok g y ->
  (forall k t got todo, snd y = SLock k t got todo -> In t (gq g k) -> In t (gq g' k)) -> tok g' y.
Proof.
  intros g g' [th p] H Hq. destruct p; cbn [tok snd] in *; auto.
  destruct H as (A & B & C). split; auto. split; auto. eapply Hq; eauto.
Qed.

Lemma tok_others : forall oth g x g' x' y, lstep oth g x g' x' -> tok g y -> tok g x -> In y oth ->
  (forall k, qhold x = Some k -> qhold y <> Some k) -> tok g' y.
Proof.
  intros oth g x g' x' y H Hy Hx Hin Hq. eapply tok_mono; [exact Hy|].
  intros k t got todo Hs Ht.
  inversion H; subst; cbn [gq setm setw setq addlog done1]; auto.
  - unfold fset. destruct (Nat.eqb_spec k k0) as [->|]; auto.
    exfalso. apply (Hq k0). reflexivity. unfold qhold. rewrite Hs. auto.
  - unfold fset. destruct (Nat.eqb_spec k k0) as [->|]; simpl; auto.
Qed.

Lemma perm_mid_inv : forall (o1 o2 : list nat) r l, Permutation (o1 ++ r :: o2) (r :: l) -> Permutation (o1 ++ o2) l.
Proof.
  intros. apply Permutation_cons_inv with (a := r). eapply Permutation_trans; [|exact H].
  apply Permutation_middle.
Qed.

Lemma tok_self : forall oth g x g' x', lstep oth g x g' x' -> tok g x -> tok g' x'.
Proof.
  intros oth g x g' x' H Hx. inversion H; subst; cbn [tok gq setm setw setq addlog done1] in *.
  - (* pick *) subst th. repeat split; auto.
  - auto.
  - (* call *) destruct Hx as (A & B & C & D & E). repeat split; auto.
    right. exists r, todo. split; auto. simpl. auto.
  - (* inner *)
    destruct p; cbn [tok] in *; try (subst th; exfalso; apply H0; reflexivity);
      try (destruct Hx as (Hx & _); subst th; exfalso; apply H0; reflexivity).
    + destruct Hx as (A & B & C & D & E). destruct E as [E|(r & todo' & -> & E)]; [contradiction|].
      destruct (in_lock_step _ _ _ _ _ _ H2 E) as [(E1 & E2)|(E1 & E2)]; [|contradiction].
      rewrite E2. repeat split; auto. right. eauto.
    + destruct Hx as (A & B & C). destruct C as [C|C]; [contradiction|].
      destruct (in_unlock_step _ _ _ _ _ H2 C) as ([E1|E1] & E2); [|contradiction]. rewrite E2. auto.
    + destruct Hx as (A & B). contradiction.
    + destruct Hx as (A & [C|C]); [contradiction|].
      destruct (in_unlock_step _ _ _ _ _ H2 C) as ([E1|E1] & E2); [|contradiction]. rewrite E2. auto.
  - (* lock ok *) destruct Hx as (A & B & C & D & E). repeat split; auto.
    + rewrite <- C. simpl. apply Permutation_middle.
    + simpl. auto.
  - (* lock fail *) destruct Hx as (A & B & C & D & E). repeat split; auto.
  - (* got *) destruct Hx as (A & B & C & D & E). rewrite app_nil_r in C. split; auto.
    eapply Permutation_trans; eauto.
  - destruct Hx as (A & B & C). repeat split; auto.
    + eapply perm_mid_inv; eauto.
    + right. simpl. auto.
  - destruct Hx as (A & B & C). destruct C as [C|C]; [contradiction|].
    destruct (in_unlock_step _ _ _ _ _ H1 C) as (_ & E). simpl in E. subst. auto.
  - destruct Hx as (A & B & C). destruct th as [a o]. cbn [at_ owned] in *. subst a.
    apply Permutation_sym in B. apply Permutation_nil in B. subst. auto.
  - destruct Hx as (A & B). split; auto.
  - destruct Hx as (A & B). split.
    + eapply perm_mid_inv; eauto.
    + right. simpl. auto.
  - destruct Hx as (A & [C|C]); [contradiction|].
    destruct (in_unlock_step _ _ _ _ _ H1 C) as (_ & E). simpl in E. subst. auto.
  - destruct Hx as (A & B). split.
    + destruct th as [a o]. cbn [at_ owned] in *. subst a.
      apply Permutation_sym in A. apply Permutation_nil in A. subst. auto.
    + exists []. auto.
  - destruct Hx as (A & pre & B). split; auto. exists (pre ++ [u]). rewrite B, <- app_assoc. auto.
  - destruct Hx as (A & pre & B). split; auto. exists (pre ++ [u]). rewrite B, <- app_assoc. auto.
  - destruct Hx as (A & pre & B). split; auto. exists pre. auto.
  - destruct Hx as (A & B). auto.
Qed.

Lemma cnt_one : forall t u, cnt t [u] = b2n (t =? u).
Proof. intros. rewrite cnt_cons. unfold b2n. cbn [cnt count_occ]. lia. Qed.

Definition qcount (k : nat) (x : thread) : nat :=
  match qhold x with Some k' => b2n (k =? k') | None => 0 end.

Lemma qfree_zero : forall k l, qfree k l <-> tsum (qcount k) l = 0.
Proof.
  intros. rewrite tsum_zero. unfold qfree, qcount. split; intros H x Hx; specialize (H x Hx).
  - destruct (qhold x); auto. destruct (Nat.eqb_spec k n0); subst; simpl; auto. congruence.
  - destruct (qhold x); [|discriminate]. intros E. injection E as ->. rewrite Nat.eqb_refl in H. discriminate.
Qed.

Lemma lstep_qcount : forall oth g x g' x' k, lstep oth g x g' x' ->
  qcount k x' <= qcount k x \/ tsum (qcount k) oth = 0.
Proof.
  intros oth g x g' x' k H. inversion H; subst; unfold qcount, qhold; cbn [snd]; auto; try (left; lia).
  destruct (Nat.eqb_spec k k0) as [->|]; simpl; auto. right. apply qfree_zero. auto.
Qed.

Lemma b2n_le : forall b, b2n b <= 1.
Proof. destruct b; simpl; lia. Qed.
Lemma qcount_le : forall k x, qcount k x <= 1.
Proof. intros. unfold qcount. destruct (qhold x); [apply b2n_le|lia]. Qed.

(** Effect of a step on the accounting of task [t]. *)
Lemma lstep_account : forall oth g x g' x', lstep oth g x g' x' -> tok g x -> forall t,
  b2n (negb (gw g' t =? 0)) + cnt t (queued g') + holding t x' + pending t x' + cnt t (fin g') =
  b2n (negb (gw g t =? 0)) + cnt t (queued g) + holding t x + pending t x + cnt t (fin g).
Proof.
  intros oth g x g' x' H HT t. inversion H; subst; unfold holding, pending; cbn [snd];
    cbn [gw gq fin setm setw addlog done1]; auto;
    try (unfold queued; cbn [gq setm setw addlog done1]; lia).
  - destruct HT as (A & B & C). pose proof (cnt_setq g k (q1 ++ q2) t A) as Hc.
    rewrite H1 in Hc. rewrite !cnt_app, cnt_cons in Hc.
    unfold queued in *. cbn [gq addlog setq gw fin] in *. unfold b2n at 2. destruct (t =? t0); lia.
  - unfold queued. cbn [gq setw]. unfold fset. destruct (Nat.eqb_spec t u) as [->|]; auto. rewrite H0. auto.
  - unfold queued. cbn [gq setw]. unfold fset. destruct (Nat.eqb_spec t u) as [->|]; cbn [b2n]; [|lia].
    rewrite H0. cbn. lia.
  - pose proof (cnt_setq g k (u :: gq g k) t H0) as Hc. rewrite cnt_cons in Hc. cbn [gw fin setq].
    unfold b2n at 5. destruct (t =? u); lia.
  - rewrite cnt_cons. unfold queued. cbn [gq done1]. unfold b2n at 3. destruct (t =? t0); lia.
Qed.

Lemma lstep_waits : forall oth g x g' x', lstep oth g x g' x' -> forall t,
  gw g' t + cnt t (flat_map unlocks (fin g')) + cnt t (flat_map unlocks (dph x')) + cnt t (rest x) =
  gw g t + cnt t (flat_map unlocks (fin g)) + cnt t (flat_map unlocks (dph x)) + cnt t (rest x').
Proof.
  intros oth g x g' x' H t. inversion H; subst; unfold dph, rest; cbn [snd];
    cbn [gw gq fin setm setw setq addlog done1 flat_map]; rewrite ?app_nil_r, ?cnt_app; auto.
  - unfold cnt. simpl. lia.
  - rewrite cnt_cons. unfold fset. destruct (Nat.eqb_spec t u) as [->|]; lia.
  - rewrite cnt_cons. unfold fset. destruct (Nat.eqb_spec t u) as [->|]; lia.
  - unfold cnt. simpl. lia.
Qed.

Lemma lstep_waiting : forall oth g x g' x', lstep oth g x g' x' ->
  gwaiting g' + length (fin g') = gwaiting g + length (fin g).
Proof.
  intros oth g x g' x' H. inversion H; subst; cbn [gwaiting fin setm setw setq addlog done1 length]; auto; lia.
Qed.

Lemma lstep_starts : forall oth g x g' x', lstep oth g x g' x' -> forall t,
  nstart t (log g') + holding t x + cnt t (fin g) = nstart t (log g) + holding t x' + cnt t (fin g').
Proof.
  intros oth g x g' x' H t. inversion H; subst; unfold holding, nstart; cbn [snd];
    cbn [gw gq fin setm setw setq addlog done1 log filter]; auto; try lia.
  - rewrite (Nat.eqb_sym t0 t). destruct (t =? t0); cbn [length b2n]; lia.
  - rewrite cnt_cons. unfold b2n. destruct (t =? t0); lia.
Qed.

Lemma lstep_ends : forall oth g x g' x', lstep oth g x g' x' -> forall t,
  nend t (log g') + ended t x + cnt t (fin g) = nend t (log g) + ended t x' + cnt t (fin g').
Proof.
  intros oth g x g' x' H t. inversion H; subst; unfold ended, nend; cbn [snd];
    cbn [gw gq fin setm setw setq addlog done1 log filter]; auto; try lia.
  - rewrite (Nat.eqb_sym t0 t). destruct (t =? t0); cbn [length b2n]; lia.
  - rewrite cnt_cons. unfold b2n. destruct (t =? t0); lia.
Qed.

Lemma nend_In : forall t l, 0 < nend t l -> In (End t) l.
Proof.
  unfold nend. induction l as [|e l IH]; simpl; intros H; [lia|].
  destruct e as [u|u]; auto. destruct (Nat.eqb_spec u t); subst; auto.
Qed.

(** If the accounting holds and task [b] is queued, all its predecessors have ended. *)
Lemma ready_preds : forall s, edges_in_range -> sinv s -> forall b k, k < nq -> In b (gq (gl s) k) ->
  forall a, a < n -> In b (unlocks a) -> In (End a) (log (gl s)).
Proof.
  intros s HU (I1 & I2 & I3 & I4 & I5 & I6 & I7 & I8 & I9) b k Hk Hb a Ha Hab.
  apply nend_In. rewrite I8.
  assert (Hq: 0 < cnt b (queued (gl s))).
  { apply cnt_In. apply in_flat_map. exists k. split; auto. apply in_seq. lia. }
  assert (Hw: gw (gl s) b = 0).
  { specialize (I4 b). destruct (Nat.eqb_spec (gw (gl s) b) 0); auto. cbn [negb b2n] in I4.
    pose proof (b2n_le (b <? n)). lia. }
  destruct (Nat.eq_dec (tsum (ended a) (tl_ s) + cnt a (fin (gl s))) 0) as [E|E]; [|lia]. exfalso.
  (* fin and the deps-phase tasks are distinct tasks below n, and exclude a *)
  set (D := fin (gl s) ++ flat_map dph (tl_ s)).
  assert (Hd: forall t, cnt t D <= tsum (holding t) (tl_ s) + cnt t (fin (gl s))).
  { intros t. unfold D. rewrite cnt_app. assert (cnt t (flat_map dph (tl_ s)) <= tsum (holding t) (tl_ s)); [|lia].
    clear. induction (tl_ s) as [|x l IH]; cbn [flat_map tsum fold_right]; [auto|]. rewrite cnt_app.
    assert (cnt t (dph x) <= holding t x).
    { unfold dph, holding. destruct (snd x); rewrite ?cnt_one; auto; cbn; lia. }
    unfold tsum in *. lia. }
  assert (Hda: cnt a D = 0).
  { unfold D. rewrite cnt_app. assert (cnt a (flat_map dph (tl_ s)) <= tsum (ended a) (tl_ s)); [|lia].
    clear. induction (tl_ s) as [|x l IH]; cbn [flat_map tsum fold_right]; [auto|]. rewrite cnt_app.
    assert (cnt a (dph x) <= ended a x).
    { unfold dph, ended. destruct (snd x); rewrite ?cnt_one; auto; cbn; lia. }
    unfold tsum in *. lia. }
  assert (Hnd: NoDup (a :: D)).
  { constructor. - intros Hin. apply cnt_In in Hin. lia.
    - apply (NoDup_count_occ Nat.eq_dec). intros t. specialize (I4 t). specialize (Hd t).
      fold (cnt t D). pose proof (b2n_le (t <? n)). lia. }
  assert (Hincl: incl (a :: D) (seq 0 n)).
  { intros t [->|Ht]; apply in_seq; [lia|]. apply cnt_In in Ht. specialize (I4 t). specialize (Hd t).
    destruct (Nat.ltb_spec t n); [lia|]. cbn [b2n] in I4. lia. }
  assert (Hle: cnt b (flat_map unlocks (a :: D)) <= preds_count b).
  { unfold preds_count. clear -Hnd Hincl. revert Hincl. generalize (seq 0 n) as L.
    induction (a :: D) as [|x l IH]; intros L Hincl; cbn [flat_map]; [cbn; lia|].
    rewrite cnt_app. inversion Hnd; subst.
    assert (Hx: In x L) by (apply Hincl; simpl; auto). apply in_split in Hx. destruct Hx as (L1 & L2 & ->).
    specialize (IH H2 (L1 ++ L2)). rewrite !flat_map_app, !cnt_app in *. cbn [flat_map]. rewrite cnt_app.
    assert (incl l (L1 ++ L2)); [|specialize (IH H); lia].
    intros y Hy. assert (In y (L1 ++ x :: L2)) by (apply Hincl; simpl; auto).
    apply in_app_iff in H. simpl in H. apply in_app_iff. destruct H as [|[|]]; auto. subst. contradiction. }
  cbn [flat_map] in Hle. rewrite cnt_app in Hle. unfold D in Hle. rewrite flat_map_app, cnt_app in Hle.
  specialize (I5 b). apply cnt_In in Hab. lia.
Qed.

Lemma lstep_ordered : forall s l1 x l2 g' x', edges_in_range -> sinv s -> tl_ s = l1 ++ x :: l2 ->
  lstep (l1 ++ l2) (gl s) x g' x' -> ordered (log g').
Proof.
  intros s l1 x l2 g' x' HU HI Hs H. pose proof HI as (_ & I2 & _ & _ & _ & _ & _ & _ & I9).
  inversion H; subst; cbn [log setm setw setq addlog done1]; auto.
  cbn [ordered]. split; auto. intros a Ha Hab.
  assert (Hx: tok (gl s) (th, SLock k t got [])).
  { apply I2. rewrite Hs. apply in_app_iff. simpl. auto. }
  destruct Hx as (A & B & _). eapply ready_preds; eauto.
Qed.

Lemma sinv_step : edges_in_range -> forall s s', sinv s -> step s s' -> sinv s'.
Proof.
  intros HU s s' HI H. inversion H as [g l1 x l2 g' x' HL]; subst.
  pose proof HI as (I1 & I2 & I3 & I4 & I5 & I6 & I7 & I8 & I9). cbn [gl tl_] in *.
  assert (Hx: tok g x) by (apply I2; apply in_app_iff; simpl; auto).
  unfold sinv. cbn [gl tl_]. repeat split.
  - eapply reach_lstep; eauto.
  - intros y Hy. apply in_app_iff in Hy. cbn [In] in Hy.
    assert (OTH: In y (l1 ++ l2) -> tok g' y).
    { intros Hin. eapply tok_others; eauto.
      - apply I2. apply in_app_iff in Hin. apply in_app_iff. simpl. tauto.
      - intros k Hk Hy2. specialize (I3 k). change (tsum (qcount k) (l1 ++ x :: l2) <= 1) in I3.
        rewrite tsum_mid in I3.
        assert (Q1: qcount k x = 1) by (unfold qcount; rewrite Hk, Nat.eqb_refl; auto).
        assert (Q2: qcount k y = 1) by (unfold qcount; rewrite Hy2, Nat.eqb_refl; auto).
        assert (Q3: 1 <= tsum (qcount k) (l1 ++ l2)).
        { apply in_split in Hin. destruct Hin as (a & b & ->). rewrite tsum_mid. lia. }
        rewrite tsum_app in Q3. lia. }
    destruct Hy as [Hy|[Hy|Hy]].
    + apply OTH. apply in_app_iff. auto.
    + subst y. eapply tok_self; eauto.
    + apply OTH. apply in_app_iff. auto.
  - intros k. specialize (I3 k). fold (qcount k) in *.
    change (tsum (qcount k) (l1 ++ x' :: l2) <= 1). change (tsum (qcount k) (l1 ++ x :: l2) <= 1) in I3.
    rewrite tsum_mid in *. destruct (lstep_qcount _ _ _ _ _ k HL) as [Hq|Hq]; [lia|].
    rewrite tsum_app in Hq. pose proof (qcount_le k x'). lia.
  - intros t. specialize (I4 t). pose proof (lstep_account _ _ _ _ _ HL Hx t). rewrite !tsum_mid in *. lia.
  - intros t. specialize (I5 t). pose proof (lstep_waits _ _ _ _ _ HL t). rewrite !flat2_mid, !cnt_flat_mid in *. lia.
  - pose proof (lstep_waiting _ _ _ _ _ HL). lia.
  - intros t. specialize (I7 t). pose proof (lstep_starts _ _ _ _ _ HL t). rewrite !tsum_mid in *. lia.
  - intros t. specialize (I8 t). pose proof (lstep_ends _ _ _ _ _ HL t). rewrite !tsum_mid in *. lia.
  - exact (lstep_ordered (mkS g (l1 ++ x :: l2)) l1 x l2 g' x' HU HI eq_refl HL).
Qed.

Lemma sinv_reach : edges_in_range -> forall s, sreach s -> sinv s.
Proof. intros HU s H. induction H. apply sinv_initial; auto. eapply sinv_step; eauto. Qed.

(* ---------------------------------------------------------- consequences *)

Lemma exit_waiting : forall s, sreach s -> forall x, In x (tl_ s) -> snd x = SExit -> gwaiting (gl s) = 0.
Proof.
  intros s H. induction H as [s (A & B & C & D & E & F & G & HT)|s s' HR IH HS]; intros x Hx He.
  - rewrite (HT x Hx) in He. discriminate.
  - inversion HS as [g l1 y l2 g' y' HL]; subst. cbn [gl tl_] in *.
    assert (W: gwaiting g' <= gwaiting g).
    { inversion HL; subst; cbn [gwaiting setm setw setq addlog done1]; lia. }
    apply in_app_iff in Hx. cbn [In] in Hx.
    assert (K: In x l1 \/ In x l2 -> gwaiting g' = 0).
    { intros Hx'. assert (gwaiting g = 0); [|lia]. apply (IH x); auto. apply in_app_iff. simpl. tauto. }
    destruct Hx as [Hx|[Hx|Hx]]; auto. subst y'.
    inversion HL; subst; cbn [snd] in He; try discriminate; cbn [gwaiting]; auto.
    subst p. assert (gwaiting g = 0); [|cbn; lia]. apply (IH (th, SExit)); auto. apply in_app_iff. simpl. auto.
Qed.

Lemma fin_all : forall s, edges_in_range -> sreach s -> gwaiting (gl s) = 0 -> forall t, t < n -> In t (fin (gl s)).
Proof.
  intros s HU HR HW t Ht. destruct (sinv_reach HU s HR) as (_ & _ & _ & I4 & _ & I6 & _).
  rewrite HW in I6. simpl in I6.
  assert (Hnd: NoDup (fin (gl s))).
  { apply (NoDup_count_occ Nat.eq_dec). intros x. specialize (I4 x). fold (cnt x (fin (gl s))).
    pose proof (b2n_le (x <? n)). lia. }
  assert (Hincl: incl (fin (gl s)) (seq 0 n)).
  { intros x Hx. apply in_seq. apply cnt_In in Hx. specialize (I4 x).
    destruct (Nat.ltb_spec x n); [lia|]. cbn [b2n] in I4. lia. }
  assert (incl (seq 0 n) (fin (gl s))).
  { apply NoDup_length_incl; auto. rewrite seq_length. lia. }
  apply H. apply in_seq. lia.
Qed.

Lemma exactly_once : forall s, edges_in_range -> sreach s -> tl_ s <> [] -> all_exited s ->
  forall t, t < n -> nstart t (log (gl s)) = 1 /\ nend t (log (gl s)) = 1.
Proof.
  intros s HU HR HN HE t Ht.
  assert (HW: gwaiting (gl s) = 0).
  { destruct (tl_ s) as [|x l] eqn:E; [congruence|]. apply (exit_waiting s HR x).
    rewrite E. simpl. auto. apply HE. rewrite E. simpl. auto. }
  pose proof (fin_all s HU HR HW t Ht) as Hf. apply cnt_In in Hf.
  destruct (sinv_reach HU s HR) as (_ & _ & _ & I4 & _ & _ & I7 & I8 & _).
  specialize (I4 t). specialize (I7 t). specialize (I8 t). destruct (Nat.ltb_spec t n); [|lia]. cbn [b2n] in I4.
  assert (tsum (ended t) (tl_ s) = 0).
  { apply tsum_zero. intros x Hx. unfold ended. rewrite (HE x Hx). auto. }
  split; lia.
Qed.

Lemma at_most_once : forall s, edges_in_range -> sreach s ->
  forall t, nstart t (log (gl s)) <= (if t <? n then 1 else 0) /\ nend t (log (gl s)) <= nstart t (log (gl s)).
Proof.
  intros s HU HR t. destruct (sinv_reach HU s HR) as (_ & _ & _ & I4 & _ & _ & I7 & I8 & _).
  specialize (I4 t). specialize (I7 t). specialize (I8 t). unfold b2n at 2 in I4.
  assert (tsum (ended t) (tl_ s) <= tsum (holding t) (tl_ s)).
  { clear. induction (tl_ s) as [|x l IH]; cbn [tsum fold_right]; [lia|].
    assert (ended t x <= holding t x) by (unfold ended, holding; destruct (snd x); lia). unfold tsum in *. lia. }
  destruct (t <? n); lia.
Qed.

Lemma no_conflict : forest parent -> edges_in_range -> forall s, sreach s ->
  forall i j t u r x, i <> j -> executing s i t -> executing s j u ->
  In r (locks t) -> In x (locks u) -> ~ anc_or_eq parent r x.
Proof.
  intros HF HU s HR i j t u r x Hij (th & Hi) (th' & Hj) Hr Hx.
  destruct (sinv_reach HU s HR) as (I1 & I2 & _).
  assert (A: tok (gl s) (th, SRun t)) by (apply I2; eapply nth_error_In; eauto).
  assert (B: tok (gl s) (th', SRun u)) by (apply I2; eapply nth_error_In; eauto).
  destruct A as (_ & A). destruct B as (_ & B).
  refine (mutual_exclusion parent HF _ I1 i j th th' r x Hij _ _ _ _); cbn [ths].
  - exact (map_nth_error fst i (tl_ s) Hi).
  - exact (map_nth_error fst j (tl_ s) Hj).
  - eapply Permutation_in; [apply Permutation_sym; eauto|auto].
  - eapply Permutation_in; [apply Permutation_sym; eauto|auto].
Qed.

(** A lock list that one thread can hold. *)
Definition lockable (l : list nat) : Prop :=
  NoDup l /\ (forall r x, In r l -> In x l -> r <> x -> ~ anc_or_eq parent r x).

Lemma running_lockable : forest parent -> edges_in_range -> forall s, sreach s ->
  forall i t, executing s i t -> lockable (locks t).
Proof.
  intros HF HU s HR i t (th & Hi).
  destruct (sinv_reach HU s HR) as (I1 & I2 & _).
  assert (A: tok (gl s) (th, SRun t)) by (apply I2; eapply nth_error_In; eauto). destruct A as (_ & A).
  destruct (no_self_conflict parent HF _ I1 th) as (B & C).
  { cbn [ths]. apply in_map_iff. exists (th, SRun t). split; auto. eapply nth_error_In; eauto. }
  split.
  - eapply Permutation_NoDup; eauto.
  - intros r x Hr Hx. apply Permutation_sym in A. apply C; eapply Permutation_in; eassumption.
Qed.

Lemma final_unlocked : forest parent -> edges_in_range -> forall s, sreach s -> all_exited s ->
  (forall r, lk (gm (gl s)) r = false) /\ (forall r, hd (gm (gl s)) r = 0%Z) /\
  (forall t, gw (gl s) t = 0 \/ tl_ s = []) /\ (forall t, tl_ s = [] \/ ~ In t (queued (gl s))).
Proof.
  intros HF HU s HR HE.
  destruct (sinv_reach HU s HR) as (I1 & I2 & _ & I4 & _).
  assert (TH: forall x, In x (tl_ s) -> fst x = mkThr Idle []).
  { intros [th p] Hx. pose proof (I2 _ Hx) as HT. pose proof (HE _ Hx) as HP. cbn [snd] in HP. subst p. exact HT. }
  assert (Q: forall t, In t (map fst (tl_ s)) -> t = mkThr Idle []).
  { intros t Ht. apply in_map_iff in Ht. destruct Ht as (x & <- & Hx). auto. }
  destruct (inv_reachable parent HF _ I1) as (J1 & J2 & _). cbn [smem ths] in *.
  assert (N1: all_locks (map fst (tl_ s)) = []).
  { clear -Q. induction (map fst (tl_ s)) as [|a l IH]; cbn [all_locks flat_map]; auto.
    rewrite (Q a) by (simpl; auto). cbn. apply IH. intros. apply Q. simpl. auto. }
  assert (N2: all_holds parent (map fst (tl_ s)) = []).
  { clear -Q. induction (map fst (tl_ s)) as [|a l IH]; cbn [all_holds flat_map]; auto.
    rewrite (Q a) by (simpl; auto). cbn. apply IH. intros. apply Q. simpl. auto. }
  repeat split.
  - intros r. specialize (J1 r). rewrite N1 in J1. destruct (lk (gm (gl s)) r); auto; discriminate.
  - intros r. rewrite J2, N2. auto.
  - intros t. destruct (tl_ s) as [|y l] eqn:E; auto. left.
    assert (W: gwaiting (gl s) = 0).
    { apply (exit_waiting s HR y). rewrite E; simpl; auto. apply HE. rewrite E. simpl; auto. }
    specialize (I4 t). destruct (Nat.ltb_spec t n) as [Ht|Ht]; cbn [b2n] in I4.
    + pose proof (fin_all s HU HR W t Ht) as Hf. apply cnt_In in Hf.
      destruct (Nat.eqb_spec (gw (gl s) t) 0); auto. cbn [negb b2n] in I4. lia.
    + destruct (Nat.eqb_spec (gw (gl s) t) 0); auto. cbn [negb b2n] in I4. lia.
  - intros t. destruct (tl_ s) as [|y l] eqn:E; auto. right. intros Hq. apply cnt_In in Hq.
    assert (W: gwaiting (gl s) = 0).
    { apply (exit_waiting s HR y). rewrite E; simpl; auto. apply HE. rewrite E. simpl; auto. }
    specialize (I4 t). destruct (Nat.ltb_spec t n) as [Ht|Ht]; cbn [b2n] in I4; [|lia].
    pose proof (fin_all s HU HR W t Ht) as Hf. apply cnt_In in Hf. lia.
Qed.

(* ---------------------------------------------------------- progress *)

Lemma steps_trans : forall a b c, steps a b -> steps b c -> steps a c.
Proof. intros a b c H. induction H; auto. intros. econstructor; eauto. Qed.
Lemma steps_reach : forall a b, steps a b -> sreach a -> sreach b.
Proof. intros a b H. induction H; auto. intros. apply IHsteps. eapply sr_step; eauto. Qed.

Lemma step1 : forall g l1 x l2 g' x' s, lstep (l1 ++ l2) g x g' x' ->
  steps (mkS g' (l1 ++ x' :: l2)) s -> steps (mkS g (l1 ++ x :: l2)) s.
Proof. intros. eapply ss_step; [constructor; eauto|auto]. Qed.

(** Run a lock call to its return. *)
Lemma lift_lock : forall m th m' thz, istar parent m th m' thz -> at_ thz = Idle ->
  forall g l1 l2 k t got r todo, gm g = m -> at_ th <> Idle -> in_lock r (at_ th) ->
  (owned thz = r :: owned th /\
   steps (mkS g (l1 ++ (th, SLock k t got (r :: todo)) :: l2)) (mkS (setm g m') (l1 ++ (thz, SLock k t (r :: got) todo) :: l2))) \/
  (owned thz = owned th /\
   steps (mkS g (l1 ++ (th, SLock k t got (r :: todo)) :: l2)) (mkS (setm g m') (l1 ++ (thz, SRoll k t got) :: l2))).
Proof.
  intros m th m' thz H. induction H as [m th|m th m1 th1 m2 th2 Hne HS HI IH]; intros Hz g l1 l2 k t got r todo Hm Ha Hin.
  - contradiction.
  - subst m. destruct (in_lock_step _ _ _ _ _ _ HS Hin) as [(E1 & E2)|(E1 & E2)].
    + assert (Hn1: at_ th1 <> Idle) by (intros Hq; rewrite Hq in E1; exact E1).
      destruct (IH Hz (setm g m1) l1 l2 k t got r todo eq_refl Hn1 E1) as [(F1 & F2)|(F1 & F2)];
        [left|right]; (split; [congruence|]).
      * eapply step1; [apply l_inner with (m' := m1) (th' := th1); auto|exact F2].
      * eapply step1; [apply l_inner with (m' := m1) (th' := th1); auto|exact F2].
    + inversion HI as [a b|a b c d e f Hx]; subst; [|congruence].
      destruct th2 as [p2 o2]. cbn [at_ owned] in *. subst p2.
      destruct E2 as [E2|E2]; subst o2; [right|left]; (split; [auto|]).
      * eapply step1; [eapply l_lock_fail; eauto|apply ss_refl].
      * eapply step1; [eapply l_lock_ok; eauto|apply ss_refl].
Qed.

Lemma lift_unlock : forall m th m' thz, istar parent m th m' thz -> at_ thz = Idle ->
  forall g l1 l2 p, gm g = m -> at_ th <> Idle -> in_unlock (at_ th) ->
  (exists k t got, p = SRoll k t got) \/ (exists t todo, p = SUnlock t todo) ->
  owned thz = owned th /\
  steps (mkS g (l1 ++ (th, p) :: l2)) (mkS (setm g m') (l1 ++ (thz, p) :: l2)).
Proof.
  intros m th m' thz H. induction H as [m th|m th m1 th1 m2 th2 Hne HS HI IH]; intros Hz g l1 l2 p Hm Ha Hin Hp.
  - contradiction.
  - subst m. destruct (in_unlock_step _ _ _ _ _ HS Hin) as ([E1|E1] & E2).
    + assert (Hn1: at_ th1 <> Idle) by (intros Hq; rewrite Hq in E1; exact E1).
      destruct (IH Hz (setm g m1) l1 l2 p eq_refl Hn1 E1 Hp) as (F1 & F2). split; [congruence|].
      eapply step1; [apply l_inner with (m' := m1) (th' := th1); auto|exact F2].
    + inversion HI as [a b|a b c d e f Hx]; subst; [|congruence].
      destruct th2 as [p2 o2]. cbn [at_ owned] in *. subst p2. split; auto.
      destruct Hp as [(k & t & got & ->)|(t & todo & ->)].
      * eapply step1; [eapply l_roll_ret; eauto|apply ss_refl].
      * eapply step1; [eapply l_un_ret; eauto|apply ss_refl].
Qed.

Lemma finish_call : forest parent -> edges_in_range -> forall g l1 th p l2,
  sreach (mkS g (l1 ++ (th,p) :: l2)) -> exists m' o', istar parent (gm g) th m' (mkThr Idle o').
Proof.
  intros HF HU g l1 th p l2 HR. destruct (sinv_reach HU _ HR) as (I1 & _).
  destruct (inv_reachable parent HF _ I1) as (_ & _ & _ & J4). apply call_finishes; auto.
  apply J4. cbn [ths gl tl_]. rewrite map_app. apply in_app_iff. simpl. auto.
Qed.

(** Unrolling or unlocking always completes. *)
Lemma roll_finish : forest parent -> edges_in_range -> forall k t got g l1 th l2,
  sreach (mkS g (l1 ++ (th, SRoll k t got) :: l2)) ->
  exists m', steps (mkS g (l1 ++ (th, SRoll k t got) :: l2)) (mkS (setm g m') (l1 ++ (mkThr Idle [], SIdle) :: l2)).
Proof.
  intros HF HU k t. 
  assert (IDLE: forall got g l1 th l2, at_ th = Idle -> sreach (mkS g (l1 ++ (th, SRoll k t got) :: l2)) ->
    exists m', steps (mkS g (l1 ++ (th, SRoll k t got) :: l2)) (mkS (setm g m') (l1 ++ (mkThr Idle [], SIdle) :: l2))).
  { induction got as [|r got IH]; intros g l1 th l2 Ha HR.
    - destruct (sinv_reach HU _ HR) as (_ & I2 & _). cbn [gl tl_] in I2.
      assert (T: tok g (th, SRoll k t [])) by (apply I2; apply in_app_iff; simpl; auto). destruct T as (_ & T & _).
      apply Permutation_sym, Permutation_nil in T. destruct th as [a o]. cbn [at_ owned] in *. subst.
      exists (gm g). eapply step1; [apply l_roll_done; auto|]. destruct g; apply ss_refl.
    - destruct (sinv_reach HU _ HR) as (_ & I2 & _). cbn [gl tl_] in I2.
      assert (T: tok g (th, SRoll k t (r :: got))) by (apply I2; apply in_app_iff; simpl; auto). destruct T as (_ & T & _).
      assert (Hin: In r (owned th)) by (eapply Permutation_in; [apply Permutation_sym; eauto|simpl; auto]).
      apply in_split in Hin. destruct Hin as (o1 & o2 & Ho). destruct th as [a o]. cbn [at_ owned] in *. subst a o.
      assert (S1: step (mkS g (l1 ++ (mkThr Idle (o1 ++ r :: o2), SRoll k t (r :: got)) :: l2))
                       (mkS g (l1 ++ (mkThr (UnUnlock r) (o1 ++ o2), SRoll k t got) :: l2))).
      { constructor. apply l_roll_call. }
      assert (HR1 := sr_step _ _ HR S1).
      destruct (finish_call HF HU _ _ _ _ _ HR1) as (m' & o' & HI).
      destruct (lift_unlock _ _ _ _ HI eq_refl g l1 l2 (SRoll k t got) eq_refl) as (E & HS);
        [discriminate|simpl; auto|left; eauto|].
      destruct (IH (setm g m') l1 (mkThr Idle o') l2 eq_refl (steps_reach _ _ HS HR1)) as (m2 & HS2).
      exists m2. eapply ss_step; [exact S1|]. eapply steps_trans; [exact HS|exact HS2]. }
  intros got g l1 th l2 HR. destruct (sinv_reach HU _ HR) as (_ & I2 & _). cbn [gl tl_] in I2.
  assert (T: tok g (th, SRoll k t got)) by (apply I2; apply in_app_iff; simpl; auto).
  destruct T as (_ & _ & [T|T]); [apply IDLE; auto|].
  destruct (finish_call HF HU _ _ _ _ _ HR) as (m' & o' & HI).
  assert (Hne: at_ th <> Idle) by (intros Hq; rewrite Hq in T; exact T).
  destruct (lift_unlock _ _ _ _ HI eq_refl g l1 l2 (SRoll k t got) eq_refl Hne T) as (E & HS); [left; eauto|].
  destruct (IDLE got (setm g m') l1 (mkThr Idle o') l2 eq_refl (steps_reach _ _ HS HR)) as (m2 & HS2).
  exists m2. eapply steps_trans; [exact HS|exact HS2].
Qed.

Lemma unlock_finish : forest parent -> edges_in_range -> forall t todo g l1 th l2,
  sreach (mkS g (l1 ++ (th, SUnlock t todo) :: l2)) ->
  exists m', steps (mkS g (l1 ++ (th, SUnlock t todo) :: l2)) (mkS (setm g m') (l1 ++ (mkThr Idle [], SDeps t (unlocks t)) :: l2)).
Proof.
  intros HF HU t. 
  assert (IDLE: forall got g l1 th l2, at_ th = Idle -> sreach (mkS g (l1 ++ (th, SUnlock t got) :: l2)) ->
    exists m', steps (mkS g (l1 ++ (th, SUnlock t got) :: l2)) (mkS (setm g m') (l1 ++ (mkThr Idle [], SDeps t (unlocks t)) :: l2))).
  { induction got as [|r got IH]; intros g l1 th l2 Ha HR.
    - destruct (sinv_reach HU _ HR) as (_ & I2 & _). cbn [gl tl_] in I2.
      assert (T: tok g (th, SUnlock t [])) by (apply I2; apply in_app_iff; simpl; auto). destruct T as (T & _).
      apply Permutation_sym, Permutation_nil in T. destruct th as [a o]. cbn [at_ owned] in *. subst.
      exists (gm g). eapply step1; [apply l_un_done; auto|]. destruct g; apply ss_refl.
    - destruct (sinv_reach HU _ HR) as (_ & I2 & _). cbn [gl tl_] in I2.
      assert (T: tok g (th, SUnlock t (r :: got))) by (apply I2; apply in_app_iff; simpl; auto). destruct T as (T & _).
      assert (Hin: In r (owned th)) by (eapply Permutation_in; [apply Permutation_sym; eauto|simpl; auto]).
      apply in_split in Hin. destruct Hin as (o1 & o2 & Ho). destruct th as [a o]. cbn [at_ owned] in *. subst a o.
      assert (S1: step (mkS g (l1 ++ (mkThr Idle (o1 ++ r :: o2), SUnlock t (r :: got)) :: l2))
                       (mkS g (l1 ++ (mkThr (UnUnlock r) (o1 ++ o2), SUnlock t got) :: l2))).
      { constructor. apply l_un_call. }
      assert (HR1 := sr_step _ _ HR S1).
      destruct (finish_call HF HU _ _ _ _ _ HR1) as (m' & o' & HI).
      destruct (lift_unlock _ _ _ _ HI eq_refl g l1 l2 (SUnlock t got) eq_refl) as (E & HS);
        [discriminate|simpl; auto|right; eauto|].
      destruct (IH (setm g m') l1 (mkThr Idle o') l2 eq_refl (steps_reach _ _ HS HR1)) as (m2 & HS2).
      exists m2. eapply ss_step; [exact S1|]. eapply steps_trans; [exact HS|exact HS2]. }
  intros got g l1 th l2 HR. destruct (sinv_reach HU _ HR) as (_ & I2 & _). cbn [gl tl_] in I2.
  assert (T: tok g (th, SUnlock t got)) by (apply I2; apply in_app_iff; simpl; auto).
  destruct T as (_ & [T|T]); [apply IDLE; auto|].
  destruct (finish_call HF HU _ _ _ _ _ HR) as (m' & o' & HI).
  assert (Hne: at_ th <> Idle) by (intros Hq; rewrite Hq in T; exact T).
  destruct (lift_unlock _ _ _ _ HI eq_refl g l1 l2 (SUnlock t got) eq_refl Hne T) as (E & HS); [right; eauto|].
  destruct (IDLE got (setm g m') l1 (mkThr Idle o') l2 eq_refl (steps_reach _ _ HS HR)) as (m2 & HS2).
  exists m2. eapply steps_trans; [exact HS|exact HS2].
Qed.

(** A wait counter that is about to be decremented is positive. *)
Lemma wait_pos : edges_in_range -> forall s, sinv s -> forall u, In u (flat_map rest (tl_ s)) -> 0 < gw (gl s) u.
Proof.
  intros HU s (I1 & I2 & I3 & I4 & I5 & I6 & I7 & I8 & I9) u Hin.
  set (D := fin (gl s) ++ flat_map dph (tl_ s)).
  assert (Hd: forall t, cnt t D <= tsum (holding t) (tl_ s) + cnt t (fin (gl s))).
  { intros t. unfold D. rewrite cnt_app. assert (cnt t (flat_map dph (tl_ s)) <= tsum (holding t) (tl_ s)); [|lia].
    clear. induction (tl_ s) as [|x l IH]; cbn [flat_map tsum fold_right]; [auto|]. rewrite cnt_app.
    assert (cnt t (dph x) <= holding t x).
    { unfold dph, holding. destruct (snd x); rewrite ?cnt_one; auto; cbn; lia. }
    unfold tsum in *. lia. }
  assert (Hnd: NoDup D).
  { apply (NoDup_count_occ Nat.eq_dec). intros t. specialize (I4 t). specialize (Hd t).
      fold (cnt t D). pose proof (b2n_le (t <? n)). lia. }
  assert (Hincl: incl D (seq 0 n)).
  { intros t Ht; apply in_seq. apply cnt_In in Ht. specialize (I4 t). specialize (Hd t).
    destruct (Nat.ltb_spec t n); [lia|]. cbn [b2n] in I4. lia. }
  assert (Hle: cnt u (flat_map unlocks D) <= preds_count u).
  { unfold preds_count. clear -Hnd Hincl. revert Hincl. generalize (seq 0 n) as L.
    induction D as [|x l IH]; intros L Hincl; cbn [flat_map]; [cbn; lia|].
    rewrite cnt_app. inversion Hnd; subst.
    assert (Hx: In x L) by (apply Hincl; simpl; auto). apply in_split in Hx. destruct Hx as (L1 & L2 & ->).
    specialize (IH H2 (L1 ++ L2)). rewrite !flat_map_app, !cnt_app in *. cbn [flat_map]. rewrite cnt_app.
    assert (incl l (L1 ++ L2)); [|specialize (IH H); lia].
    intros y Hy. assert (In y (L1 ++ x :: L2)) by (apply Hincl; simpl; auto).
    apply in_app_iff in H. simpl in H. apply in_app_iff. destruct H as [|[|]]; auto. subst. contradiction. }
  unfold D in Hle. rewrite flat_map_app, cnt_app in Hle. specialize (I5 u). apply cnt_In in Hin. lia.
Qed.

(** No thread in [l] holds a queue lock. *)
Definition noq (l : list thread) : Prop := forall x, In x l -> qhold x = None.

Lemma noq_qfree : forall k l, noq l -> qfree k l.
Proof. intros k l H x Hx. rewrite (H x Hx). discriminate. Qed.

Lemma deps_finish : 0 < nq -> edges_in_range -> forall t todo g l1 l2,
  noq (l1 ++ l2) -> sreach (mkS g (l1 ++ (mkThr Idle [], SDeps t todo) :: l2)) ->
  exists g', steps (mkS g (l1 ++ (mkThr Idle [], SDeps t todo) :: l2)) (mkS g' (l1 ++ (mkThr Idle [], SIdle) :: l2))
    /\ gwaiting g' < gwaiting g.
Proof.
  intros HQ HU t. induction todo as [|u us IH]; intros g l1 l2 HN HR.
  - assert (W: 0 < gwaiting g).
    { destruct (sinv_reach HU _ HR) as (_ & _ & _ & I4 & _ & I6 & _). cbn [gl tl_] in *.
      destruct (Nat.eq_dec (gwaiting g) 0) as [E|]; [|lia]. exfalso.
      assert (Hh: holding t (mkThr Idle [], SDeps t []) = 1).
      { unfold holding. cbn [snd]. rewrite Nat.eqb_refl. auto. }
      specialize (I4 t). rewrite !tsum_mid in I4. rewrite Hh in I4. pose proof (b2n_le (t <? n)) as Hb.
      assert (Ht: t < n).
      { destruct (Nat.ltb_spec t n); auto. cbn [b2n] in I4. lia. }
      pose proof (fin_all _ HU HR E t Ht) as Hf. cbn [gl] in Hf. apply cnt_In in Hf. lia. }
    exists (done1 g t). split.
    + eapply step1; [apply l_done; auto|apply ss_refl].
    + cbn [gwaiting done1]. lia.
  - assert (P: 0 < gw g u).
    { apply (wait_pos HU _ (sinv_reach HU _ HR)). cbn [tl_]. apply in_flat_map.
      exists (mkThr Idle [], SDeps t (u :: us)). split. apply in_app_iff; simpl; auto. simpl. auto. }
    destruct (gw g u) as [|[|w]] eqn:E; [lia| |].
    + (* last *)
      assert (S1: step (mkS g (l1 ++ (mkThr Idle [], SDeps t (u :: us)) :: l2))
                       (mkS (setw g u 0) (l1 ++ (mkThr Idle [], SEnq t u us) :: l2))).
      { constructor. apply l_dec_last. auto. }
      assert (S2: step (mkS (setw g u 0) (l1 ++ (mkThr Idle [], SEnq t u us) :: l2))
                       (mkS (setq (setw g u 0) 0 (u :: gq (setw g u 0) 0)) (l1 ++ (mkThr Idle [], SDeps t us) :: l2))).
      { constructor. apply l_enq; auto. apply noq_qfree. auto. }
      destruct (IH _ l1 l2 HN (sr_step _ _ (sr_step _ _ HR S1) S2)) as (g' & HS & HW).
      exists g'. split.
      * eapply ss_step; [exact S1|]. eapply ss_step; [exact S2|exact HS].
      * cbn [gwaiting setq setw] in HW. auto.
    + assert (S1: step (mkS g (l1 ++ (mkThr Idle [], SDeps t (u :: us)) :: l2))
                       (mkS (setw g u (S w)) (l1 ++ (mkThr Idle [], SDeps t us) :: l2))).
      { constructor. eapply l_dec_more. eauto. }
      destruct (IH _ l1 l2 HN (sr_step _ _ HR S1)) as (g' & HS & HW).
      exists g'. split.
      * eapply ss_step; [exact S1|exact HS].
      * cbn [gwaiting setq setw] in HW. auto.
Qed.

Lemma run_finish : forest parent -> 0 < nq -> edges_in_range -> forall t g l1 th l2,
  noq (l1 ++ l2) -> sreach (mkS g (l1 ++ (th, SRun t) :: l2)) ->
  exists g', steps (mkS g (l1 ++ (th, SRun t) :: l2)) (mkS g' (l1 ++ (mkThr Idle [], SIdle) :: l2)) /\ gwaiting g' < gwaiting g.
Proof.
  intros HF HQ HU t g l1 th l2 HN HR.
  assert (S1: step (mkS g (l1 ++ (th, SRun t) :: l2)) (mkS (addlog g (End t)) (l1 ++ (th, SUnlock t (locks t)) :: l2))).
  { constructor. apply l_finish. }
  assert (HR1 := sr_step _ _ HR S1).
  destruct (unlock_finish HF HU _ _ _ _ _ _ HR1) as (m' & HS2).
  destruct (deps_finish HQ HU _ _ _ _ _ HN (steps_reach _ _ HS2 HR1)) as (g' & HS3 & HW).
  exists g'. split; auto. eapply ss_step; [exact S1|]. eapply steps_trans; eauto.
Qed.

(** Stage 1: every thread can leave the part of gettask that holds a queue lock. *)
Lemma release_queue : forest parent -> edges_in_range -> forall g l1 x l2,
  sreach (mkS g (l1 ++ x :: l2)) ->
  exists g' x', steps (mkS g (l1 ++ x :: l2)) (mkS g' (l1 ++ x' :: l2)) /\ qhold x' = None.
Proof.
  intros HF HU g l1 [th p] l2 HR.
  destruct (qhold (th,p)) as [q|] eqn:Eq; [|exists g, (th,p); split; [apply ss_refl|auto]].
  destruct p; try discriminate.
  - assert (LOCK: forall todo got g l1 th l2, at_ th = Idle -> sreach (mkS g (l1 ++ (th, SLock k t got todo) :: l2)) ->
       exists g' x', steps (mkS g (l1 ++ (th, SLock k t got todo) :: l2)) (mkS g' (l1 ++ x' :: l2)) /\ qhold x' = None).
    { clear -HF HU. induction todo as [|r todo IH]; intros got g l1 th l2 Ha HR.
      - destruct (sinv_reach HU _ HR) as (_ & I2 & _). cbn [gl tl_] in I2.
        assert (T: tok g (th, SLock k t got [])) by (apply I2; apply in_app_iff; simpl; auto). destruct T as (_ & T & _).
        apply in_split in T. destruct T as (q1 & q2 & T).
        eexists. exists (th, SRun t). split; auto.
        eapply step1; [eapply l_got; eauto|apply ss_refl].
      - assert (S1: step (mkS g (l1 ++ (th, SLock k t got (r :: todo)) :: l2))
                         (mkS g (l1 ++ (mkThr (LHold r) (owned th), SLock k t got (r :: todo)) :: l2))).
        { constructor. apply l_call. auto. }
        assert (HR1 := sr_step _ _ HR S1).
        destruct (finish_call HF HU _ _ _ _ _ HR1) as (m' & o' & HI).
        destruct (lift_lock _ _ _ _ HI eq_refl g l1 l2 k t got r todo eq_refl) as [(E & HS)|(E & HS)];
          [discriminate|simpl; auto| |].
        + destruct (IH (r :: got) (setm g m') l1 (mkThr Idle o') l2 eq_refl (steps_reach _ _ HS HR1)) as (g' & x' & HS2 & HH).
          exists g', x'. split; auto. eapply ss_step; [exact S1|]. eapply steps_trans; eauto.
        + destruct (roll_finish HF HU _ _ _ _ _ _ _ (steps_reach _ _ HS HR1)) as (m2 & HS2).
          eexists. eexists. split; [eapply ss_step; [exact S1|]; eapply steps_trans; [exact HS|exact HS2]|auto]. }
    destruct (sinv_reach HU _ HR) as (_ & I2 & _). cbn [gl tl_] in I2.
    assert (T: tok g (th, SLock k t got todo)) by (apply I2; apply in_app_iff; simpl; auto).
    destruct T as (_ & _ & _ & _ & [T|(r & todo' & -> & T)]); [apply LOCK; auto|].
    destruct (finish_call HF HU _ _ _ _ _ HR) as (m' & o' & HI).
    assert (Hne: at_ th <> Idle) by (intros Hq; rewrite Hq in T; exact T).
    destruct (lift_lock _ _ _ _ HI eq_refl g l1 l2 k t got r todo' eq_refl Hne T) as [(E & HS)|(E & HS)].
    + destruct (LOCK todo' (r :: got) (setm g m') l1 (mkThr Idle o') l2 eq_refl (steps_reach _ _ HS HR)) as (g' & x' & HS2 & HH).
      exists g', x'. split; auto. eapply steps_trans; eauto.
    + destruct (roll_finish HF HU _ _ _ _ _ _ _ (steps_reach _ _ HS HR)) as (m2 & HS2).
      eexists. eexists. split; [eapply steps_trans; [exact HS|exact HS2]|auto].
  - destruct (roll_finish HF HU _ _ _ _ _ _ _ HR) as (m2 & HS2).
    eexists. eexists. split; [exact HS2|auto].
Qed.

Definition settled (x : thread) : Prop := x = (mkThr Idle [], SIdle) \/ x = (mkThr Idle [], SExit).

(** Stage 2: a thread that holds no queue lock can finish its task. *)
Lemma settle : forest parent -> 0 < nq -> edges_in_range -> forall g l1 x l2,
  noq (l1 ++ x :: l2) -> sreach (mkS g (l1 ++ x :: l2)) ->
  exists g' x', steps (mkS g (l1 ++ x :: l2)) (mkS g' (l1 ++ x' :: l2)) /\ settled x'.
Proof.
  intros HF HQ HU g l1 [th p] l2 HN HR.
  assert (HN': noq (l1 ++ l2)).
  { intros y Hy. apply HN. apply in_app_iff in Hy. apply in_app_iff. simpl. tauto. }
  assert (Hq: qhold (th,p) = None) by (apply HN; apply in_app_iff; simpl; auto).
  destruct (sinv_reach HU _ HR) as (_ & I2 & _). cbn [gl tl_] in I2.
  assert (T: tok g (th, p)) by (apply I2; apply in_app_iff; simpl; auto).
  destruct p; try discriminate Hq; cbn [tok] in T.
  - subst. exists g. eexists. split; [apply ss_refl|left; auto].
  - destruct (run_finish HF HQ HU _ _ _ _ _ HN' HR) as (g' & HS & _). exists g'. eexists. split; [exact HS|left; auto].
  - destruct (unlock_finish HF HU _ _ _ _ _ _ HR) as (m' & HS2).
    destruct (deps_finish HQ HU _ _ _ _ _ HN' (steps_reach _ _ HS2 HR)) as (g' & HS3 & HW).
    exists g'. eexists. split; [eapply steps_trans; [exact HS2|exact HS3]|left; auto].
  - destruct T as (-> & _).
    destruct (deps_finish HQ HU _ _ _ _ _ HN' HR) as (g' & HS3 & HW).
    exists g'. eexists. split; [exact HS3|left; auto].
  - destruct T as (-> & _).
    assert (S2: step (mkS g (l1 ++ (mkThr Idle [], SEnq t u todo) :: l2))
                     (mkS (setq g 0 (u :: gq g 0)) (l1 ++ (mkThr Idle [], SDeps t todo) :: l2))).
    { constructor. apply l_enq; auto. apply noq_qfree. auto. }
    destruct (deps_finish HQ HU _ _ _ _ _ HN' (sr_step _ _ HR S2)) as (g' & HS3 & HW).
    exists g'. eexists. split; [eapply ss_step; [exact S2|exact HS3]|left; auto].
  - subst. exists g. eexists. split; [apply ss_refl|right; auto].
Qed.

Lemma release_all : forest parent -> edges_in_range -> forall l2 g l1,
  sreach (mkS g (l1 ++ l2)) -> exists g' l2', steps (mkS g (l1 ++ l2)) (mkS g' (l1 ++ l2')) /\ noq l2' /\ length l2' = length l2.
Proof.
  intros HF HU. induction l2 as [|x l2 IH]; intros g l1 HR.
  - exists g, []. split; [apply ss_refl|]. split; auto. intros x [].
  - destruct (release_queue HF HU _ _ _ _ HR) as (g1 & x1 & HS1 & HQ1).
    pose proof (steps_reach _ _ HS1 HR) as HR1.
    replace (l1 ++ x1 :: l2) with ((l1 ++ [x1]) ++ l2) in HR1 by (rewrite <- app_assoc; auto).
    destruct (IH _ _ HR1) as (g2 & l2' & HS2 & HN & HL).
    exists g2, (x1 :: l2'). repeat split.
    + eapply steps_trans; [exact HS1|]. rewrite <- !app_assoc in HS2. exact HS2.
    + intros y [<-|Hy]; auto.
    + simpl. auto.
Qed.

Lemma settle_all : forest parent -> 0 < nq -> edges_in_range -> forall l2 g l1,
  noq (l1 ++ l2) -> sreach (mkS g (l1 ++ l2)) ->
  exists g' l2', steps (mkS g (l1 ++ l2)) (mkS g' (l1 ++ l2')) /\ (forall x, In x l2' -> settled x) /\ length l2' = length l2.
Proof.
  intros HF HQ HU. induction l2 as [|x l2 IH]; intros g l1 HN HR.
  - exists g, []. split; [apply ss_refl|]. split; auto. intros x [].
  - destruct (settle HF HQ HU _ _ _ _ HN HR) as (g1 & x1 & HS1 & HQ1).
    pose proof (steps_reach _ _ HS1 HR) as HR1.
    replace (l1 ++ x1 :: l2) with ((l1 ++ [x1]) ++ l2) in HR1 by (rewrite <- app_assoc; auto).
    assert (HN1: noq ((l1 ++ [x1]) ++ l2)).
    { intros y Hy. rewrite <- app_assoc in Hy. apply in_app_iff in Hy. simpl in Hy.
      destruct Hy as [Hy|[<-|Hy]].
      - apply HN. apply in_app_iff; auto.
      - destruct HQ1 as [-> | ->]; auto.
      - apply HN. apply in_app_iff; simpl; auto. }
    destruct (IH _ _ HN1 HR1) as (g2 & l2' & HS2 & HS3 & HL).
    exists g2, (x1 :: l2'). repeat split.
    + eapply steps_trans; [exact HS1|]. rewrite <- !app_assoc in HS2. exact HS2.
    + intros y [<-|Hy]; auto.
    + simpl. auto.
Qed.

(** No cycles, witnessed by a rank. *)
Definition ranked : Prop := exists rank : nat -> nat, forall a b, a < n -> In b (unlocks a) -> rank a < rank b.

Lemma settled_tsum : forall l, (forall x, In x l -> settled x) -> forall f, (forall th, f (th, SIdle) = 0) ->
  (forall th, f (th, SExit) = 0) -> tsum f l = 0.
Proof. intros l H f A B. apply tsum_zero. intros x Hx. destruct (H x Hx) as [->| ->]; auto. Qed.
Lemma settled_flat : forall l, (forall x, In x l -> settled x) -> forall f : thread -> list nat, (forall th, f (th, SIdle) = []) ->
  (forall th, f (th, SExit) = []) -> flat_map f l = [].
Proof.
  intros l H f A B. induction l as [|x l IH]; simpl; auto. rewrite IH by (intros; apply H; simpl; auto).
  destruct (H x) as [->| ->]; simpl; auto; rewrite ?A, ?B; auto.
Qed.

Lemma filter_split_perm : forall (f : nat -> bool) l, Permutation l (filter f l ++ filter (fun x => negb (f x)) l).
Proof.
  induction l as [|a l IH]; simpl; auto. destruct (f a); simpl; auto.
  eapply Permutation_trans; [apply perm_skip, IH|]. apply Permutation_middle.
Qed.

Lemma ready_exists : edges_in_range -> ranked -> forall s, sreach s -> (forall x, In x (tl_ s) -> settled x) ->
  0 < gwaiting (gl s) -> exists t k, k < nq /\ In t (gq (gl s) k) /\ t < n.
Proof.
  intros HU (rank & HK) s HR HS HW.
  destruct (sinv_reach HU s HR) as (I1 & I2 & I3 & I4 & I5 & I6 & I7 & I8 & I9).
  set (isfin := fun t => if in_dec Nat.eq_dec t (fin (gl s)) then true else false).
  set (U := filter (fun t => negb (isfin t)) (seq 0 n)).
  assert (HU1: U <> []).
  { intros E. assert (incl (seq 0 n) (fin (gl s))).
    { intros t Ht. destruct (in_dec Nat.eq_dec t (fin (gl s))) as [|Hn]; auto. exfalso.
      assert (In t U). { apply filter_In. split; auto. unfold isfin. destruct (in_dec Nat.eq_dec t (fin (gl s))); auto. }
      rewrite E in H. contradiction. }
    apply NoDup_incl_length in H; [|apply seq_NoDup]. rewrite seq_length in H. lia. }
  (* minimal rank in U *)
  assert (MIN: exists t, In t U /\ forall a, In a U -> rank t <= rank a).
  { clear -HU1. induction U as [|x l IH]; [congruence|]. destruct l as [|y l].
    - exists x. split; simpl; auto. intros a [<-|[]]; auto.
    - destruct IH as (t & A & B); [congruence|]. destruct (Nat.le_gt_cases (rank x) (rank t)).
      + exists x. split; simpl; auto. intros a [<-|Ha]; auto. specialize (B a Ha). lia.
      + exists t. split; simpl; auto. intros a [<-|Ha]; auto. lia. }
  destruct MIN as (t & Ht & Hmin). apply filter_In in Ht. destruct Ht as (Htn & Htf). apply in_seq in Htn.
  assert (Hnf: ~ In t (fin (gl s))).
  { unfold isfin in Htf. destruct (in_dec Nat.eq_dec t (fin (gl s))); auto. discriminate. }
  assert (Hnd: NoDup (fin (gl s))).
  { apply (NoDup_count_occ Nat.eq_dec). intros x. specialize (I4 x). fold (cnt x (fin (gl s))).
    pose proof (b2n_le (x <? n)). lia. }
  assert (Hincl: incl (fin (gl s)) (seq 0 n)).
  { intros x Hx. apply in_seq. apply cnt_In in Hx. specialize (I4 x).
    destruct (Nat.ltb_spec x n); [lia|]. cbn [b2n] in I4. lia. }
  assert (HP: Permutation (seq 0 n) (fin (gl s) ++ U)).
  { eapply Permutation_trans; [apply (filter_split_perm isfin)|]. apply Permutation_app_tail.
    apply NoDup_Permutation; auto. apply NoDup_filter, seq_NoDup.
    intros x. rewrite filter_In. unfold isfin. destruct (in_dec Nat.eq_dec x (fin (gl s))); split; intros; auto; try tauto.
    destruct H; discriminate. }
  assert (HC: preds_count t = cnt t (flat_map unlocks (fin (gl s)))).
  { unfold preds_count. 
    assert (PP: Permutation (flat_map unlocks (seq 0 n)) (flat_map unlocks (fin (gl s) ++ U))) by (apply Permutation_flat_map; auto).
    unfold cnt. rewrite (Permutation_count_occ Nat.eq_dec) in PP. rewrite PP, flat_map_app, count_occ_app.
    assert (Z: count_occ Nat.eq_dec (flat_map unlocks U) t = 0).
    { apply (count_occ_not_In Nat.eq_dec). intros Hin. apply in_flat_map in Hin. destruct Hin as (a & Ha & Hb).
      specialize (Hmin a Ha). apply filter_In in Ha. destruct Ha as (Ha & _). apply in_seq in Ha.
      specialize (HK a t ltac:(lia) Hb). lia. }
    lia. }
  specialize (I5 t). specialize (I4 t).
  rewrite (settled_flat _ HS dph), (settled_flat _ HS rest) in I5 by auto. cbn [flat_map] in I5.
  unfold cnt at 2 3 in I5. cbn [count_occ] in I5. 
  rewrite (settled_tsum _ HS (holding t)), (settled_tsum _ HS (pending t)) in I4 by auto.
  assert (gw (gl s) t = 0) by lia. rewrite H in I4. cbn [Nat.eqb negb b2n] in I4.
  assert (cnt t (fin (gl s)) = 0).
  { destruct (Nat.eq_dec (cnt t (fin (gl s))) 0); auto. exfalso. apply Hnf. apply cnt_In. lia. }
  destruct (Nat.ltb_spec t n); [|lia]. cbn [b2n] in I4.
  assert (Hq: In t (queued (gl s))) by (apply cnt_In; lia).
  apply in_flat_map in Hq. destruct Hq as (k & Hk & Hkq). apply in_seq in Hk. exists t, k. repeat split; auto; lia.
Qed.

Lemma all_locks_mid : forall l1 x l2, all_locks (l1 ++ x :: l2) = all_locks l1 ++ tlocks x ++ all_locks l2.
Proof. intros. unfold all_locks. rewrite flat_map_app. auto. Qed.
Lemma all_holds_mid : forall l1 x l2,
  all_holds parent (l1 ++ x :: l2) = all_holds parent l1 ++ tholds parent x ++ all_holds parent l2.
Proof. intros. unfold all_holds. rewrite flat_map_app. auto. Qed.

(** Locking a task alone succeeds. *)
Lemma lock_all : forest parent -> edges_in_range -> forall k t todo got g l1 th l2,
  lockable (locks t) -> (forall x, In x (l1 ++ l2) -> settled x) -> at_ th = Idle ->
  sreach (mkS g (l1 ++ (th, SLock k t got todo) :: l2)) ->
  exists g' th', steps (mkS g (l1 ++ (th, SLock k t got todo) :: l2)) (mkS g' (l1 ++ (th', SRun t) :: l2)) /\ gwaiting g' = gwaiting g.
Proof.
  intros HF HU k t. induction todo as [|r todo IH]; intros got g l1 th l2 HL HS Ha HR.
  - destruct (sinv_reach HU _ HR) as (_ & I2 & _). cbn [gl tl_] in I2.
    assert (T: tok g (th, SLock k t got [])) by (apply I2; apply in_app_iff; simpl; auto). destruct T as (_ & T & _).
    apply in_split in T. destruct T as (q1 & q2 & T).
    eexists. exists th. split; [eapply step1; [eapply l_got; eauto|apply ss_refl]|]. auto.
  - destruct (sinv_reach HU _ HR) as (I1 & I2 & _). cbn [gl tl_] in *.
    assert (T: tok g (th, SLock k t got (r :: todo))) by (apply I2; apply in_app_iff; simpl; auto).
    destruct T as (_ & _ & TL & TO & _).
    destruct (inv_reachable parent HF _ I1) as (J1 & J2 & _). cbn [smem ths] in *.
    rewrite map_app in J1, J2. cbn [map fst] in J1, J2.
    assert (N1: forall l, (forall x, In x l -> settled x) -> all_locks (map fst l) = []).
    { clear. induction l as [|a l IH]; intros H; auto. cbn [map]. rewrite (all_locks_mid [] (fst a) (map fst l) : all_locks (fst a :: map fst l) = _).
      rewrite IH by (intros; apply H; simpl; auto). destruct (H a) as [->| ->]; simpl; auto. }
    assert (N2: forall l, (forall x, In x l -> settled x) -> all_holds parent (map fst l) = []).
    { clear. induction l as [|a l IH]; intros H; auto. cbn [map]. rewrite (all_holds_mid [] (fst a) (map fst l) : all_holds parent (fst a :: map fst l) = _).
      rewrite IH by (intros; apply H; simpl; auto). destruct (H a) as [->| ->]; simpl; auto. }
    assert (HS1: forall x, In x l1 -> settled x) by (intros; apply HS; apply in_app_iff; auto).
    assert (HS2: forall x, In x l2 -> settled x) by (intros; apply HS; apply in_app_iff; auto).
    destruct th as [a o]. cbn [at_ owned] in *. subst a.
    assert (LK: forall x, ~ In x got -> lk (gm g) x = false).
    { intros x Hx. specialize (J1 x). rewrite all_locks_mid, (N1 l1 HS1), (N1 l2 HS2) in J1.
      cbn [app] in J1. rewrite app_nil_r in J1. unfold tlocks in J1. cbn [at_ owned plocks app] in J1.
      destruct (lk (gm g) x); auto. exfalso. apply Hx. eapply Permutation_in; [exact TO|]. apply cnt_In. lia. }
    assert (HD: hd (gm g) r = 0%Z).
    { rewrite J2, all_holds_mid, (N2 l1 HS1), (N2 l2 HS2).
      cbn [app]. rewrite app_nil_r. unfold tholds. cbn [at_ owned pholds app].
      destruct (Nat.eq_dec (cnt r (flat_map (ancestors parent) o)) 0) as [E|E]; [rewrite E; auto|]. exfalso.
      assert (Hin: In r (flat_map (ancestors parent) o)) by (apply cnt_In; lia).
      apply in_flat_map in Hin. destruct Hin as (x & Hx & Hr).
      assert (Hxg: In x got) by (eapply Permutation_in; eauto).
      destruct HL as (_ & HL). apply (HL r x).
      - eapply Permutation_in; [exact TL|]. apply in_app_iff. simpl. auto.
      - eapply Permutation_in; [exact TL|]. apply in_app_iff. auto.
      - apply ancestors_lt in Hr; auto. lia.
      - apply ancestors_anc; auto. }
    assert (HNI: ~ In r got).
    { intros Hin. destruct HL as (HL & _). apply Permutation_sym in TL.
      pose proof (Permutation_NoDup TL HL) as ND. apply NoDup_remove_2 in ND. apply ND. apply in_app_iff. auto. }
    assert (AN: forall x, In x (ancestors parent r) -> ~ In x got).
    { intros x Hx Hg. destruct HL as (_ & HL). apply (HL x r).
      - eapply Permutation_in; [exact TL|]. apply in_app_iff. auto.
      - eapply Permutation_in; [exact TL|]. apply in_app_iff. simpl. auto.
      - apply ancestors_lt in Hx; auto. lia.
      - apply ancestors_anc; auto. }
    destruct (lock_succeeds parent HF (gm g) o r HD (LK r HNI) (fun x Hx => LK x (AN x Hx))) as (m' & HI).
    assert (S1: step (mkS g (l1 ++ (mkThr Idle o, SLock k t got (r :: todo)) :: l2))
                     (mkS g (l1 ++ (mkThr (LHold r) o, SLock k t got (r :: todo)) :: l2))).
    { constructor. apply (l_call (l1 ++ l2) g (mkThr Idle o)). auto. }
    assert (HR1 := sr_step _ _ HR S1).
    destruct (lift_lock _ _ _ _ HI eq_refl g l1 l2 k t got r todo eq_refl) as [(E & HS3)|(E & _)];
      [discriminate|simpl; auto| |].
    + destruct (IH (r :: got) (setm g m') l1 (mkThr Idle (r :: o)) l2 HL HS eq_refl (steps_reach _ _ HS3 HR1)) as (g' & th' & HS4 & HW).
      exists g', th'. split; [|rewrite HW; auto]. eapply ss_step; [exact S1|]. eapply steps_trans; eauto.
    + cbn [owned] in E. exfalso. assert (Hlen: length (r :: o) = length o) by congruence. simpl in Hlen. lia.
Qed.

Lemma exit_all : forall l2 g l1, gwaiting g = 0 -> (forall x, In x l2 -> settled x) ->
  exists l2', steps (mkS g (l1 ++ l2)) (mkS g (l1 ++ l2')) /\ (forall x, In x l2' -> snd x = SExit) /\ length l2' = length l2.
Proof.
  induction l2 as [|x l2 IH]; intros g l1 HW HS.
  - exists []. split; [apply ss_refl|]. split; auto. intros x [].
  - destruct (IH g (l1 ++ [(mkThr Idle [], SExit)]) HW ltac:(intros; apply HS; simpl; auto)) as (l2' & A & B & C).
    exists ((mkThr Idle [], SExit) :: l2'). repeat split.
    + rewrite <- !app_assoc in A. cbn [app] in A.
      destruct (HS x) as [->| ->]; simpl; auto.
      eapply step1; [apply l_exit; auto|exact A].
    + intros y [<-|Hy]; auto.
    + simpl. auto.
Qed.

Lemma can_complete : forest parent -> edges_in_range -> ranked -> 0 < nq -> (forall t, t < n -> lockable (locks t)) ->
  forall s, sreach s -> exists s', steps s s' /\ all_exited s' /\ length (tl_ s') = length (tl_ s).
Proof.
  intros HF HU HK HQ HL.
  assert (MAIN: forall w g l, gwaiting g = w -> (forall x, In x l -> settled x) -> sreach (mkS g l) -> 
     exists s', steps (mkS g l) s' /\ all_exited s' /\ length (tl_ s') = length l).
  { induction w as [w IH] using lt_wf_ind. intros g l HW HS HR.
    destruct (Nat.eq_dec w 0) as [->|Hw].
    - destruct (exit_all l g [] HW HS) as (l' & A & B & C). exists (mkS g l'). repeat split; auto.
    - destruct l as [|x l].
      { exists (mkS g []). repeat split; auto. apply ss_refl. intros y []. }
      assert (Hx: x = (mkThr Idle [], SIdle)).
      { destruct (HS x ltac:(simpl; auto)) as [E|E]; auto. exfalso.
        assert (gwaiting (gl (mkS g (x :: l))) = 0); [|cbn [gl] in *; lia].
        apply (exit_waiting _ HR x); simpl; auto. rewrite E. auto. }
      subst x.
      destruct (ready_exists HU HK _ HR HS ltac:(cbn [gl]; lia)) as (t & k & Hk & Ht & Htn). cbn [gl] in Ht.
      assert (HS': forall x, In x ([] ++ l) -> settled x) by (intros; apply HS; simpl; auto).
      assert (HN: noq ([] ++ l)). { intros y Hy. destruct (HS' y Hy) as [->| ->]; auto. }
      assert (S1: step (mkS g ([] ++ (mkThr Idle [], SIdle) :: l)) (mkS g ([] ++ (mkThr Idle [], SLock k t [] (locks t)) :: l))).
      { constructor. apply l_pick; auto. lia. apply noq_qfree. auto. }
      assert (HR1 := sr_step _ _ HR S1).
      destruct (lock_all HF HU k t (locks t) [] g [] (mkThr Idle []) l (HL t Htn) HS' eq_refl HR1) as (g1 & th1 & HS1 & HW1).
      pose proof (steps_reach _ _ HS1 HR1) as HR2.
      destruct (run_finish HF HQ HU t g1 [] th1 l HN HR2) as (g2 & HS2 & HW2).
      pose proof (steps_reach _ _ HS2 HR2) as HR3.
      destruct (IH (gwaiting g2) ltac:(lia) g2 ([] ++ (mkThr Idle [], SIdle) :: l) eq_refl) as (s' & A & B & C); auto.
      exists s'. repeat split; auto.
      eapply ss_step; [exact S1|]. eapply steps_trans; [exact HS1|]. eapply steps_trans; [exact HS2|exact A]. }
  intros [g l] HR.
  destruct (release_all HF HU l g [] HR) as (g1 & l1 & A1 & A2 & A3). cbn [app] in A1.
  pose proof (steps_reach _ _ A1 HR) as HR1.
  destruct (settle_all HF HQ HU l1 g1 [] A2 HR1) as (g2 & l2 & B1 & B2 & B3). cbn [app] in B1.
  pose proof (steps_reach _ _ B1 HR1) as HR2.
  destruct (MAIN (gwaiting g2) g2 l2 eq_refl B2 HR2) as (s' & C1 & C2 & C3).
  exists s'. split.
  - eapply steps_trans; [exact A1|]. eapply steps_trans; [exact B1|exact C1].
  - split; auto. cbn [tl_]. lia.
Qed.

End Sched.
