(** Executions under a fair operating system: infinite runs of the scheduler of
    Sched.v, and the proof that a fair run ends with all threads returned when
    the lock lists of the tasks are consistently ordered
    (quicksched/qsched.c:314-345 run_openmp, 811-895 gettask, 739-775 locktask,
    665-728 lockres/unlockres, 564-655 enqueue/done). *)
From Coq Require Import List Arith Lia Bool ZArith Permutation Sorted Classical.
From Verif Require Import Base LockProto Sched.
Import ListNotations.

Section Fair.

Variable parent : nat -> option nat.
Variable n nq : nat.
Variable locks unlocks : nat -> list nat.

Notation thread := (thr * spc)%type.
Notation lstep := (lstep parent nq locks unlocks).
Notation sreach := (sreach parent n nq locks unlocks).
Notation step := (step parent nq locks unlocks).
Notation ancestors := (ancestors parent).
Notation chain_from := (chain_from parent).

(** Thread number [i] performs one atomic action. *)
Definition step_at (i : nat) (s s' : st) : Prop :=
  exists l1 x l2 g' x', tl_ s = l1 ++ x :: l2 /\ length l1 = i /\
    lstep (l1 ++ l2) (gl s) x g' x' /\ s' = mkS g' (l1 ++ x' :: l2).

(** A run: at every tick either one thread performs one action, or nothing
    changes (other programs run, or a thread spins in gettask, 828-890, without
    getting hold of a queue or finding a task). *)
Definition run (r : nat -> st) (sch : nat -> option nat) : Prop :=
  sreach (r 0) /\
  forall k, match sch k with None => r (S k) = r k | Some i => step_at i (r k) (r (S k)) end.

Definition at_pc (s : st) (i : nat) (p : spc -> Prop) : Prop :=
  exists th q, nth_error (tl_ s) i = Some (th, q) /\ p q.

(** The queue is not locked by any thread. *)
Definition queue_free (s : st) (k : nat) : Prop := qfree k (tl_ s).

(** When the operating system and the spin locks owe thread [i] a step, from
    time [N] on:
    - it is executing code that does not wait for a queue (in particular every
      user function returns);
    - it is in gettask and nothing is waiting any more (it will return);
    - it is in gettask and some queue is free and has a task, all the time;
    - it wants to put a task in a queue, and every queue is released again and
      again. *)
Inductive owed (r : nat -> st) (i N : nat) : Prop :=
| owed_code :
    (forall k, N <= k -> at_pc (r k) i (fun q => match q with SIdle | SEnq _ _ _ | SExit => False | _ => True end)) ->
    owed r i N
| owed_return :
    (forall k, N <= k -> at_pc (r k) i (eq SIdle) /\ gwaiting (gl (r k)) = 0) -> owed r i N
| owed_task : forall q t, q < nq ->
    (forall k, N <= k -> at_pc (r k) i (eq SIdle) /\ 0 < gwaiting (gl (r k)) /\
                         In t (gq (gl (r k)) q) /\ queue_free (r k) q) -> owed r i N
| owed_put :
    (forall k, N <= k -> at_pc (r k) i (fun q => match q with SEnq _ _ _ => True | _ => False end)) ->
    (forall q, q < nq -> forall M, exists k, M <= k /\ queue_free (r k) q) -> owed r i N.

(** Fairness: a thread that is owed a step takes one. *)
Definition fair (r : nat -> st) (sch : nat -> option nat) : Prop :=
  forall i N, owed r i N -> exists k, N <= k /\ sch k = Some i.

(* ------------------------------------------------------------ basic facts *)

Hypothesis HF : forest parent.
Hypothesis HU : edges_in_range n unlocks.

Lemma step_at_step : forall i s s', step_at i s s' -> step s s'.
Proof.
  intros i [g l] s' (l1 & x & l2 & g' & x' & E & _ & HL & ->). cbn [tl_ gl] in *. subst l. constructor. auto.
Qed.

Lemma nth_mid : forall {A} (l1 : list A) x l2, nth_error (l1 ++ x :: l2) (length l1) = Some x.
Proof. intros. rewrite nth_error_app2 by lia. rewrite Nat.sub_diag. reflexivity. Qed.

Lemma nth_other : forall {A} (l1 : list A) x x' l2 j, j <> length l1 ->
  nth_error (l1 ++ x' :: l2) j = nth_error (l1 ++ x :: l2) j.
Proof.
  intros A l1 x x' l2 j H. destruct (lt_dec j (length l1)).
  - rewrite !nth_error_app1 by lia. auto.
  - rewrite !nth_error_app2 by lia. destruct (j - length l1) eqn:E; [lia|]. reflexivity.
Qed.

Lemma step_self : forall i s s', step_at i s s' -> exists oth x x',
  nth_error (tl_ s) i = Some x /\ nth_error (tl_ s') i = Some x' /\ lstep oth (gl s) x (gl s') x' /\
  (forall y, In y oth -> In y (tl_ s)).
Proof.
  intros i s s' (l1 & x & l2 & g' & x' & E & <- & HL & ->). exists (l1 ++ l2), x, x'. rewrite E. cbn [tl_ gl].
  rewrite !nth_mid. repeat split; auto. intros y. rewrite !in_app_iff. simpl. tauto.
Qed.

Lemma step_others : forall i s s' j, step_at i s s' -> j <> i -> nth_error (tl_ s') j = nth_error (tl_ s) j.
Proof.
  intros i s s' j (l1 & x & l2 & g' & x' & E & <- & HL & ->) Hj. rewrite E. cbn [tl_]. apply nth_other; auto.
Qed.

Variable r : nat -> st.
Variable sch : nat -> option nat.
Hypothesis HR : run r sch.
Hypothesis HFair : fair r sch.

Lemma run_reach_ : forall k, sreach (r k).
Proof.
  destruct HR as [H0 HS]. induction k; auto. specialize (HS k). destruct (sch k).
  - eapply sr_step; [exact IHk|eapply step_at_step; eauto].
  - rewrite HS. auto.
Qed.

Lemma run_sinv : forall k, sinv parent n nq locks unlocks (r k).
Proof. intros. apply sinv_reach; auto. apply run_reach_. Qed.

Lemma run_inv : forall k, inv parent (mkSys (gm (gl (r k))) (map fst (tl_ (r k)))).
Proof. intros. apply inv_reachable; auto. apply (run_sinv k). Qed.

Lemma run_tok : forall k i x, nth_error (tl_ (r k)) i = Some x -> tok nq locks unlocks (gl (r k)) x.
Proof. intros. apply (run_sinv k). eapply nth_error_In; eauto. Qed.

Lemma run_pcok : forall k i x, nth_error (tl_ (r k)) i = Some x -> pc_ok parent (at_ (fst x)).
Proof.
  intros k i x H. destruct (run_inv k) as (_ & _ & _ & J). apply J. cbn [ths]. apply in_map.
  eapply nth_error_In; eauto.
Qed.

(** A thread's local state only changes when the thread moves. *)
Lemma stays : forall i k, sch k <> Some i -> nth_error (tl_ (r (S k))) i = nth_error (tl_ (r k)) i.
Proof.
  intros i k H. destruct HR as [_ HS]. specialize (HS k). destruct (sch k) as [j|].
  - eapply step_others; [exact HS|congruence].
  - rewrite HS. auto.
Qed.

Lemma moves : forall i k, sch k = Some i -> exists oth x x',
  nth_error (tl_ (r k)) i = Some x /\ nth_error (tl_ (r (S k))) i = Some x' /\
  lstep oth (gl (r k)) x (gl (r (S k))) x' /\ (forall y, In y oth -> In y (tl_ (r k))).
Proof. intros i k H. destruct HR as [_ HS]. specialize (HS k). rewrite H in HS. eapply step_self; eauto. Qed.

(** If a thread is owed a step as long as it stays where it is, it moves on
    from exactly there. *)
Lemma next_move : forall i N x, nth_error (tl_ (r N)) i = Some x ->
  ((forall k, N <= k -> nth_error (tl_ (r k)) i = Some x) -> owed r i N) ->
  exists k, N <= k /\ sch k = Some i /\ nth_error (tl_ (r k)) i = Some x.
Proof.
  intros i N x Hx Ho.
  assert (FIRST: forall d, (exists k, N <= k < N + d /\ sch k = Some i /\ nth_error (tl_ (r k)) i = Some x) \/
                 (forall k, N <= k < N + d -> sch k <> Some i) /\ nth_error (tl_ (r (N + d))) i = Some x).
  { induction d as [|d IH].
    - right. rewrite Nat.add_0_r. split; auto. intros; lia.
    - destruct IH as [(k & A & B)|(A & B)].
      + left. exists k. split; [lia|auto].
      + destruct (classic (sch (N + d) = Some i)) as [E|E].
        * left. exists (N + d). split; [lia|auto].
        * right. split. { intros k Hk. destruct (Nat.eq_dec k (N + d)); [subst; auto|apply A; lia]. }
          rewrite Nat.add_succ_r. rewrite stays; auto. }
  destruct (classic (exists d k, N <= k < N + d /\ sch k = Some i /\ nth_error (tl_ (r k)) i = Some x)) as [(d & k & A & B)|HN].
  { exists k. split; [lia|auto]. }
  exfalso.
  assert (ALL: forall k, N <= k -> sch k <> Some i /\ nth_error (tl_ (r k)) i = Some x).
  { intros k Hk. destruct (FIRST (S (k - N))) as [F|(F & _)]; [exfalso; eauto|].
    destruct (FIRST (k - N)) as [F'|(_ & F')]; [exfalso; eauto|].
    replace (N + (k - N)) with k in F' by lia. split; auto. apply F. lia. }
  destruct (HFair i N) as (k & A & B). { apply Ho. intros k Hk. apply ALL. auto. }
  apply (ALL k A). auto.
Qed.

(** Code that does not wait for a queue. *)
Definition code (q : spc) : Prop := match q with SIdle | SEnq _ _ _ | SExit => False | _ => True end.

Lemma code_moves : forall i N th q, nth_error (tl_ (r N)) i = Some (th, q) -> code q ->
  exists k, N <= k /\ sch k = Some i /\ nth_error (tl_ (r k)) i = Some (th, q).
Proof.
  intros i N th q Hx Hc. apply next_move; auto. intros H. apply owed_code. intros k Hk.
  exists th, q. split; auto.
Qed.

(* -------------------------------------------------------------- measures *)

(** Steps left in a lock or unlock call. *)
Definition pcm (p : pc) : nat :=
  match p with
  | Idle => 0
  | LHold r => 5 * length (ancestors r) + 7
  | LRead r => 5 * length (ancestors r) + 6
  | LCas r => 5 * length (ancestors r) + 5
  | LRecheck r => 5 * length (ancestors r) + 4
  | LAbort r => 1
  | UpRead r pre f => 5 * length (chain_from f) + length pre + 3
  | UpCas r pre f => 5 * length (chain_from (Some f)) + length pre + 2
  | UpInc r pre f => 5 * length (chain_from (Some f)) + length pre + 1
  | UpUnlock r pre f => 5 * length (chain_from (Some f)) + length pre
  | RbUnlock r pre f => length pre + 2
  | RbDec rem f2 f => length rem + 1
  | UnUnlock r => length (ancestors r) + 2
  | UnDec rem f => length rem + 1
  end.

Lemma tstep_pcm : forall m t m' t', tstep parent m t m' t' -> pc_ok parent (at_ t) -> at_ t <> Idle ->
  pcm (at_ t') < pcm (at_ t).
Proof.
  intros m t m' t' H Hok Hne. inversion H; subst; cbn [at_ pcm] in *; try congruence; try lia.
  - rewrite (ancestors_unfold parent HF r0). cbn [length]. lia.
  - cbn [LockProto.chain_from length]. lia.
  - rewrite app_length. cbn [LockProto.chain_from length]. rewrite (ancestors_unfold parent HF f). lia.
  - cbn [pc_ok] in Hok. destruct rem; cbn [app LockProto.chain_from] in Hok.
    + injection Hok as E _. congruence.
    + cbn [tl length]. lia.
  - cbn [pc_ok LockProto.chain_from] in Hok. subst rem. cbn [tl length]. lia.
Qed.

Definition sumf (f : nat -> nat) (l : list nat) : nat := fold_right (fun x a => f x + a) 0 l.
Definition ucost (x : nat) : nat := pcm (UnUnlock x) + 1.
Definition lcost (x : nat) : nat := pcm (LHold x) + ucost x + 5.

(** Steps left until the thread is idle again (if it does not start its task). *)
Definition meas (x : thread) : nat :=
  match x with
  | (th, SLock k t got todo) =>
      match at_ th with
      | Idle => sumf lcost todo + sumf ucost got + 2
      | p => pcm p + sumf lcost (tl todo) + sumf ucost (firstn 1 todo) + sumf ucost got + 3
      end
  | (th, SRoll k t got) => pcm (at_ th) + sumf ucost got + 1
  | (th, SRun t) => 0
  | (th, SUnlock t todo) => pcm (at_ th) + sumf ucost todo + 2 * length (unlocks t) + 2
  | (th, SDeps t us) => 2 * length us + 1
  | (th, SEnq t u us) => 2 * length us + 2
  | _ => 0
  end.

Definition count_ev (s : st) : nat := length (log (gl s)) + length (fin (gl s)).

(** Every move away from a busy point reduces the measure, or makes visible
    progress (a task starts, ends or is done). *)
Lemma lstep_meas : forall oth g x g' x', lstep oth g x g' x' -> tok nq locks unlocks g x -> pc_ok parent (at_ (fst x)) ->
  snd x <> SIdle ->
  length (log g) + length (fin g) < length (log g') + length (fin g') \/ meas x' < meas x.
Proof.
  intros oth g x g' x' H Ht Hok Hn. inversion H; subst; cbn [snd fst log fin addlog setq setm setw done1 length] in *;
    try congruence; try (left; lia); right; cbn [meas].
  - (* call *) rewrite H0. cbn [at_ sumf fold_right tl firstn]. fold (sumf lcost todo) (sumf ucost got).
    unfold lcost. lia.
  - (* inner *)
    pose proof (tstep_pcm _ _ _ _ H2 Hok H0) as P.
    destruct p; cbn [tok] in Ht; try (subst th; cbn [at_] in H0; congruence);
      try (destruct Ht as (Ht & _); try subst th; cbn [at_] in *; congruence); cbn [meas]; try lia.
    destruct (at_ th) eqn:E; try congruence; destruct (at_ th') eqn:E'; try congruence; lia.
  - (* lock ok *)
    pose proof (tstep_pcm _ _ _ _ H1 Hok H0) as P. cbn [at_] in *.
    destruct (at_ th) eqn:E; try congruence; cbn [tl firstn sumf fold_right]; fold (sumf lcost todo) (sumf ucost got); lia.
  - (* lock fail *)
    pose proof (tstep_pcm _ _ _ _ H1 Hok H0) as P. cbn [at_ pcm] in *.
    destruct (at_ th) eqn:E; try congruence; lia.
  - cbn [at_ pcm sumf fold_right]. fold (sumf ucost got). unfold ucost. cbn [pcm]. lia.
  - pose proof (tstep_pcm _ _ _ _ H1 Hok H0) as P. cbn [at_ pcm] in *. lia.
  - rewrite H0. cbn. lia.
  - cbn [at_ pcm sumf fold_right]. fold (sumf ucost todo). unfold ucost. cbn [pcm]. lia.
  - pose proof (tstep_pcm _ _ _ _ H1 Hok H0) as P. cbn [at_ pcm] in *. lia.
  - rewrite H0. cbn. lia.
  - cbn [length]. lia.
  - cbn [length]. lia.
  - cbn [length]. lia.
Qed.

(* ------------------------------------------------- no visible progress any more *)

Lemma count_mono1 : forall k, count_ev (r k) <= count_ev (r (S k)).
Proof.
  intros k. destruct HR as [_ HS]. specialize (HS k). destruct (sch k).
  - destruct (step_self _ _ _ HS) as (oth & x & x' & _ & _ & HL & _). unfold count_ev.
    inversion HL; subst; cbn [log fin addlog setq setm setw done1 length]; try lia;
      match goal with H : _ = gl (r (S k)) |- _ => rewrite <- H end; cbn [log fin addlog setq setm setw done1 length]; lia.
  - rewrite HS. lia.
Qed.

Lemma count_mono : forall k k', k <= k' -> count_ev (r k) <= count_ev (r k').
Proof. intros k k' H. induction H; auto. etransitivity; [eauto|]. apply count_mono1. Qed.

Lemma log_len : forall l m, (forall t, nstart t l <= if t <? m then 1 else 0) -> (forall t, nend t l <= nstart t l) ->
  length l <= 2 * m.
Proof.
  intros l m H1 H2.
  set (ss := flat_map (fun e => match e with Start t => [t] | _ => [] end) l).
  set (es := flat_map (fun e => match e with End t => [t] | _ => [] end) l).
  assert (L: length l = length ss + length es).
  { unfold ss, es. clear. induction l as [|[t|t] l IH]; cbn [flat_map app length]; lia. }
  assert (CS: forall t, cnt t ss = nstart t l).
  { unfold ss, nstart. clear. intros t. induction l as [|[u|u] l IH]; cbn [flat_map app filter]; auto.
    rewrite cnt_cons, IH. rewrite Nat.eqb_sym. destruct (u =? t); cbn [length]; lia. }
  assert (CE: forall t, cnt t es = nend t l).
  { unfold es, nend. clear. intros t. induction l as [|[u|u] l IH]; cbn [flat_map app filter]; auto.
    rewrite cnt_cons, IH. rewrite Nat.eqb_sym. destruct (u =? t); cbn [length]; lia. }
  assert (B: forall l, (forall t, cnt t l <= if t <? m then 1 else 0) -> length l <= m).
  { intros l0 H. rewrite <- (seq_length m 0) at 1. apply NoDup_incl_length.
    - apply (NoDup_count_occ Nat.eq_dec). intros t. specialize (H t). unfold cnt in H. destruct (t <? m); lia.
    - intros t Ht. apply cnt_In in Ht. specialize (H t). apply in_seq. destruct (Nat.ltb_spec t m); lia. }
  pose proof (B ss) as BS. pose proof (B es) as BE.
  assert (length ss <= m) by (apply BS; intros; rewrite CS; auto).
  assert (length es <= m) by (apply BE; intros; rewrite CE; etransitivity; eauto). lia.
Qed.

Lemma count_bound : forall k, count_ev (r k) <= 3 * n.
Proof.
  intros k. unfold count_ev.
  assert (length (log (gl (r k))) <= 2 * n).
  { apply log_len; intros t; destruct (at_most_once _ _ _ _ _ (r k) HU (run_reach_ k) t); auto. }
  destruct (run_sinv k) as (_ & _ & _ & _ & _ & I6 & _). lia.
Qed.

Lemma count_stable : exists N, forall k, N <= k -> count_ev (r k) = count_ev (r N).
Proof.
  assert (G: forall d N, 3 * n - count_ev (r N) <= d -> exists N', forall k, N' <= k -> count_ev (r k) = count_ev (r N')).
  { induction d; intros N Hd.
    - exists N. intros k Hk. pose proof (count_mono _ _ Hk). pose proof (count_bound k). lia.
    - destruct (classic (exists k, N <= k /\ count_ev (r N) < count_ev (r k))) as [(k & A & B)|H].
      + apply (IHd k). lia.
      + exists N. intros k Hk. pose proof (count_mono _ _ Hk).
        destruct (Nat.eq_dec (count_ev (r k)) (count_ev (r N))); auto. exfalso. apply H. exists k. split; auto. lia. }
  apply (G (3 * n) 0). lia.
Qed.

Section Stable.
Variable N0 : nat.
Hypothesis HN0 : forall k, N0 <= k -> count_ev (r k) = count_ev (r N0).

Lemma stable_step : forall k, N0 <= k ->
  length (log (gl (r k))) + length (fin (gl (r k))) < length (log (gl (r (S k)))) + length (fin (gl (r (S k)))) -> False.
Proof. intros k Hk H. pose proof (HN0 k Hk). pose proof (HN0 (S k) ltac:(lia)). unfold count_ev in *. lia. Qed.

(** A thread inside locktask comes back to gettask. *)
Lemma lock_returns : forall m i N th q, N0 <= N -> nth_error (tl_ (r N)) i = Some (th, q) -> meas (th, q) <= m ->
  (exists k, qhold (th, q) = Some k) ->
  exists k th' q', N <= k /\ sch k = Some i /\ nth_error (tl_ (r k)) i = Some (th', q') /\ qhold (th', q') = qhold (th, q) /\
      (exists th'', nth_error (tl_ (r (S k))) i = Some (th'', SIdle)).
Proof.
  induction m as [m IH] using lt_wf_ind. intros i N th q HN Hx Hm (kq & Hq).
  assert (Hc: code q) by (destruct q; cbn in Hq |- *; auto; discriminate).
  destruct (code_moves i N th q Hx Hc) as (k & Hk & Hs & Hxk).
  destruct (moves i k Hs) as (oth & x & x' & A & B & C & D). rewrite Hxk in A. injection A as <-.
  assert (Hn: snd (th, q) <> SIdle) by (destruct q; cbn in *; congruence).
  destruct (lstep_meas _ _ _ _ _ C (run_tok _ _ _ Hxk) (run_pcok _ _ _ Hxk) Hn) as [L|L].
  { exfalso. eapply stable_step; [|exact L]. lia. }
  assert (Q: qhold x' = Some kq \/ snd x' = SIdle).
  { inversion C; subst; cbn [qhold snd] in *; auto; try discriminate.
    exfalso. apply (stable_step k ltac:(lia)).
    match goal with H : _ = gl (r (S k)) |- _ => rewrite <- H end. cbn [log fin addlog setq length]. lia. }
  destruct x' as [th' q']. destruct Q as [Q|Q]; cbn [snd] in Q.
  - destruct (IH (meas (th', q')) ltac:(lia) i (S k) th' q' ltac:(lia) B ltac:(lia) ltac:(eauto)) as (k2 & th2 & q2 & E1 & E2 & E3 & E4 & E5).
    exists k2, th2, q2. repeat split; auto; [lia|]. congruence.
  - exists k, th, q. subst q'. repeat split; auto. eauto.
Qed.

(** Queues are released again and again. *)
Lemma queue_released : forall q M, exists k, M <= k /\ queue_free (r k) q.
Proof.
  intros q M. set (N := M + N0).
  destruct (classic (queue_free (r N) q)) as [H|H]. { exists N. split; [lia|auto]. }
  assert (exists x, In x (tl_ (r N)) /\ qhold x = Some q) as ([th p] & Hin & Hq).
  { apply NNPP. intros Hn. apply H. intros x Hx E. apply Hn. eauto. }
  apply In_nth_error in Hin. destruct Hin as (i & Hi).
  destruct (lock_returns _ i N th p ltac:(lia) Hi (le_n _) ltac:(eauto)) as (k & th' & p' & A & B & C & D & (th'' & E)).
  exists (S k). split; [lia|]. intros y Hy Hyq. rewrite Hq in D.
  apply In_nth_error in Hy. destruct Hy as (j & Hj).
  destruct (Nat.eq_dec j i) as [->|Hne].
  { rewrite E in Hj. injection Hj as <-. discriminate. }
  assert (Hj': nth_error (tl_ (r k)) j = Some y) by (rewrite <- stays; auto; congruence).
  destruct (run_sinv k) as (_ & _ & I3 & _). specialize (I3 q).
  assert (TWO: forall l a b (x z : thread), nth_error l a = Some x -> nth_error l b = Some z -> a <> b ->
     qhold x = Some q -> qhold z = Some q ->
     2 <= tsum (fun x => match qhold x with Some k' => b2n (q =? k') | None => 0 end) l).
  { clear. intros l. assert (ONE: forall l a (x : thread), nth_error l a = Some x -> qhold x = Some q ->
      1 <= tsum (fun x => match qhold x with Some k' => b2n (q =? k') | None => 0 end) l).
    { clear. induction l as [|h l IH]; intros [|a] x H E; cbn in H; try discriminate; cbn [tsum fold_right].
      - injection H as ->. rewrite E, Nat.eqb_refl. cbn [b2n]. lia.
      - specialize (IH a x H E). unfold tsum in IH. lia. }
    induction l as [|h l IH]; intros [|a] [|b] x z H1 H2 Hne E1 E2; cbn in H1, H2; try discriminate; try congruence; cbn [tsum fold_right].
    - injection H1 as ->. rewrite E1, Nat.eqb_refl. pose proof (ONE l b z H2 E2). unfold tsum in *. cbn [b2n]. lia.
    - injection H2 as ->. rewrite E2, Nat.eqb_refl. pose proof (ONE l a x H1 E1). unfold tsum in *. cbn [b2n]. lia.
    - specialize (IH a b x z H1 H2 ltac:(congruence) E1 E2). unfold tsum in *. lia. }
  pose proof (TWO _ _ _ _ _ C Hj' (not_eq_sym Hne) D Hyq). lia.
Qed.

Definition finishing (q : spc) : Prop :=
  match q with SRun _ | SUnlock _ _ | SDeps _ _ | SEnq _ _ _ => True | _ => False end.

(** A thread that runs or finishes a task makes visible progress. *)
Lemma no_finishing : forall m i N th q, N0 <= N -> nth_error (tl_ (r N)) i = Some (th, q) -> meas (th, q) <= m ->
  finishing q -> False.
Proof.
  induction m as [m IH] using lt_wf_ind. intros i N th q HN Hx Hm Hf.
  assert (Hmv: exists k, N <= k /\ sch k = Some i /\ nth_error (tl_ (r k)) i = Some (th, q)).
  { destruct q; cbn in Hf; try contradiction; try (apply code_moves; cbn; auto; fail).
    apply next_move; auto. intros H. apply owed_put.
    - intros k Hk. exists th, (SEnq t u todo). split; auto.
    - intros q Hq M. apply queue_released. }
  destruct Hmv as (k & Hk & Hs & Hxk).
  destruct (moves i k Hs) as (oth & x & x' & A & B & C & D). rewrite Hxk in A. injection A as <-.
  assert (Hn: snd (th, q) <> SIdle) by (destruct q; cbn in *; congruence).
  destruct (lstep_meas _ _ _ _ _ C (run_tok _ _ _ Hxk) (run_pcok _ _ _ Hxk) Hn) as [L|L].
  { eapply stable_step; [|exact L]. lia. }
  destruct x' as [th' q']. apply (IH (meas (th', q')) ltac:(lia) i (S k) th' q' ltac:(lia) B (le_n _)).
  inversion C; subst; cbn in Hf |- *; auto.
  exfalso. eapply stable_step with (k := k); [lia|].
  match goal with H : _ = gl (r (S k)) |- _ => rewrite <- H end. cbn [log fin done1 length]. lia.
Qed.

Definition at_rest (q : spc) : Prop := match q with SIdle | SExit => True | _ => False end.

Lemma returns : forall i N x, N0 <= N -> nth_error (tl_ (r N)) i = Some x ->
  exists k th q, N <= k /\ nth_error (tl_ (r k)) i = Some (th, q) /\ at_rest q.
Proof.
  intros i N [th q] HN Hx. destruct q; try (exfalso; eapply no_finishing; [exact HN|exact Hx|apply le_n|exact I]).
  - exists N, th, SIdle. cbn. auto.
  - destruct (lock_returns _ i N _ _ HN Hx (le_n _) ltac:(cbn; eauto)) as (k' & th' & q' & A & B & C & D & (th'' & E)).
    exists (S k'), th'', SIdle. cbn. auto.
  - destruct (lock_returns _ i N _ _ HN Hx (le_n _) ltac:(cbn; eauto)) as (k' & th' & q' & A & B & C & D & (th'' & E)).
    exists (S k'), th'', SIdle. cbn. auto.
  - exists N, th, SExit. cbn. auto.
Qed.

(** What is not acquired any more is eventually not held any more. *)
Lemma drains : forall (X : thread -> Prop) N, N0 <= N ->
  (forall th q, at_rest q -> th = mkThr Idle [] -> ~ X (th, q)) ->
  (forall i k x x', N <= k -> sch k = Some i -> nth_error (tl_ (r k)) i = Some x ->
     nth_error (tl_ (r (S k))) i = Some x' -> ~ X x -> ~ X x') ->
  exists M, N <= M /\ forall k, M <= k -> forall x, In x (tl_ (r k)) -> ~ X x.
Proof.
  intros X N HN H0 HX.
  assert (PER: forall i, exists M, N <= M /\ forall k, M <= k -> forall x, nth_error (tl_ (r k)) i = Some x -> ~ X x).
  { intros i. destruct (nth_error (tl_ (r N)) i) as [x|] eqn:E.
    - destruct (returns i N x HN E) as (M & th & q & A & B & C). exists M. split; auto.
      intros k Hk. induction Hk as [|k Hk IH]; intros y Hy.
      + rewrite B in Hy. injection Hy as <-. apply H0; auto. pose proof (run_tok _ _ _ B) as T.
        destruct q; cbn in C; try contradiction; exact T.
      + destruct (classic (sch k = Some i)) as [Hs|Hs].
        * destruct (moves i k Hs) as (oth & z & z' & F & G & _). rewrite G in Hy. injection Hy as <-.
          eapply (HX i k z z'); eauto. lia.
        * rewrite stays in Hy by auto. apply IH; auto.
    - exists N. split; auto. intros k Hk x Hx. exfalso.
      assert (nth_error (tl_ (r k)) i = None); [|congruence]. clear Hx.
      induction Hk as [|k Hk IH]; auto.
      destruct (classic (sch k = Some i)) as [Hs|Hs].
      + destruct (moves i k Hs) as (oth & z & z' & F & _). congruence.
      + rewrite stays by auto. auto. }
  assert (LEN: forall k, length (tl_ (r k)) = length (tl_ (r 0))).
  { induction k; auto. rewrite <- IHk. destruct HR as [_ HS]. specialize (HS k). destruct (sch k).
    - destruct HS as (l1 & y & l2 & g' & y' & A & B & C & D). rewrite D, A. cbn [tl_]. rewrite !app_length. reflexivity.
    - rewrite HS. auto. }
  assert (ALL: forall L, exists M, N <= M /\ forall i, i < L -> forall k, M <= k -> forall x, nth_error (tl_ (r k)) i = Some x -> ~ X x).
  { induction L as [|L (M & A & B)].
    - exists N. split; auto. intros; lia.
    - destruct (PER L) as (M' & A' & B'). exists (M + M'). split; [lia|]. intros i Hi k Hk x Hx.
      destruct (Nat.eq_dec i L); [subst; apply (B' k); auto; lia|apply (B i ltac:(lia) k); auto; lia]. }
  destruct (ALL (length (tl_ (r 0)))) as (M & A & B). exists M. split; auto. intros k Hk x Hx.
  apply In_nth_error in Hx. destruct Hx as (i & Hi). apply (B i) with (k := k); auto.
  rewrite <- (LEN k). apply nth_error_Some. congruence.
Qed.

(* ------------------------------------------------- consistently ordered locks *)

(** The resources a task touches, in the order in which locktask touches them:
    every lock followed by its ancestors (750-752, 665-708). *)
Definition touch (l : list nat) : list nat := flat_map (fun x => x :: ancestors x) l.

Variable rank : nat -> nat.
Hypothesis HRk : forall t, t < n -> StronglySorted (fun a b => rank a < rank b) (touch (locks t)).

(** The locks are taken in the order of the list. *)
Definition lord (x : thread) : Prop :=
  match snd x with SLock k t got todo => rev got ++ todo = locks t | _ => True end.

Lemma lord_reach : forall s, sreach s -> forall x, In x (tl_ s) -> lord x.
Proof.
  intros s H. induction H as [s (_ & _ & _ & _ & _ & _ & _ & HT)|s s' Hs IH HS]; intros x Hx.
  - rewrite (HT x Hx). exact I.
  - inversion HS as [g l1 y l2 g' y' HL]; subst. cbn [tl_] in *.
    assert (HY: lord y) by (apply IH; apply in_app_iff; simpl; auto).
    apply in_app_iff in Hx. cbn [In] in Hx. destruct Hx as [Hx|[<-|Hx]]; try (apply IH; apply in_app_iff; simpl; tauto).
    inversion HL; subst; cbn [lord snd rev app] in *; auto. rewrite <- HY, <- app_assoc. reflexivity.
Qed.

Lemma run_lord : forall k i x, nth_error (tl_ (r k)) i = Some x -> lord x.
Proof. intros. eapply lord_reach; [apply (run_reach_ k)|]. eapply nth_error_In; eauto. Qed.

Lemma run_task : forall k i th q t got todo, nth_error (tl_ (r k)) i = Some (th, SLock q t got todo) -> t < n.
Proof.
  intros k i th q t got todo H. pose proof (run_tok _ _ _ H) as (Hq & Ht & _).
  destruct (run_sinv k) as (_ & _ & _ & I4 & _). specialize (I4 t).
  assert (0 < cnt t (queued nq (gl (r k)))).
  { apply cnt_In. unfold queued. apply in_flat_map. exists q. split; auto. apply in_seq. lia. }
  destruct (Nat.ltb_spec t n); auto. cbn [b2n] in I4. lia.
Qed.

(** What remains to be touched by a thread whose lock call has not failed. *)
Definition remn (p : pc) (todo : list nat) : option (list nat) :=
  match p with
  | Idle => Some (touch todo)
  | LHold x | LRead x | LCas x => Some (x :: ancestors x ++ touch (tl todo))
  | UpRead x pre f => Some (chain_from f ++ touch (tl todo))
  | UpCas x pre f => Some (chain_from (Some f) ++ touch (tl todo))
  | UpInc x pre f | UpUnlock x pre f => Some (ancestors f ++ touch (tl todo))
  | _ => None
  end.

Definition committed (b : nat) (x : thread) : Prop :=
  exists k t got todo l, snd x = SLock k t got todo /\ remn (at_ (fst x)) todo = Some l /\
    forall z, In z l -> b <= rank z.

(** Nobody touches the resources of rank at least [b] from time [M] on. *)
Definition clear (b M : nat) : Prop :=
  forall k, M <= k -> forall x, In x (tl_ (r k)) -> forall z, b <= rank z ->
    ~ In z (tlocks (fst x)) /\ ~ In z (tholds parent (fst x)).

Lemma not_locked : forall k z, (forall x, In x (tl_ (r k)) -> ~ In z (tlocks (fst x))) -> lk (gm (gl (r k))) z = false.
Proof.
  intros k z H. destruct (run_inv k) as (J & _). specialize (J z). cbn [smem ths] in J.
  destruct (lk (gm (gl (r k))) z); auto. exfalso.
  assert (In z (all_locks (map fst (tl_ (r k))))) as Hz by (apply cnt_In; lia).
  unfold all_locks in Hz. apply in_flat_map in Hz. destruct Hz as (th & A & B).
  apply in_map_iff in A. destruct A as (x & <- & A). apply (H x A B).
Qed.

Lemma not_held : forall k z, (forall x, In x (tl_ (r k)) -> ~ In z (tholds parent (fst x))) -> hd (gm (gl (r k))) z = 0%Z.
Proof.
  intros k z H. destruct (run_inv k) as (_ & J & _). specialize (J z). cbn [smem ths] in J. rewrite J.
  destruct (cnt z (all_holds parent (map fst (tl_ (r k))))) eqn:E; auto. exfalso.
  assert (In z (all_holds parent (map fst (tl_ (r k))))) as Hz by (apply cnt_In; lia).
  unfold all_holds in Hz. apply in_flat_map in Hz. destruct Hz as (th & A & B).
  apply in_map_iff in A. destruct A as (x & <- & A). apply (H x A B).
Qed.

Lemma clear_mem : forall b M k z, clear b M -> M <= k -> b <= rank z ->
  lk (gm (gl (r k))) z = false /\ hd (gm (gl (r k))) z = 0%Z.
Proof.
  intros b M k z H Hk Hz. split; [apply not_locked|apply not_held]; intros x Hx; apply (H k Hk x Hx z Hz).
Qed.

(** A thread that only needs clear resources gets them. *)
Lemma no_committed : forall b M, clear b M -> N0 <= M ->
  forall m i N x, M <= N -> nth_error (tl_ (r N)) i = Some x -> meas x <= m -> committed b x -> False.
Proof.
  intros b M HC HM. induction m as [m IH] using lt_wf_ind. intros i N [th q] HN Hx Hm (kq & t & got & todo & l & E & Hl & Hr).
  cbn [snd fst] in *. subst q.
  destruct (code_moves i N _ _ Hx I) as (k & Hk & Hs & Hxk).
  destruct (moves i k Hs) as (oth & x & x' & A & B & C & D). rewrite Hxk in A. injection A as <-.
  destruct (lstep_meas _ _ _ _ _ C (run_tok _ _ _ Hxk) (run_pcok _ _ _ Hxk) ltac:(discriminate)) as [L|L].
  { eapply stable_step; [|exact L]. lia. }
  assert (CL: forall z, In z (tlocks (fst x')) -> b <= rank z -> False).
  { intros z Hz Hb. destruct (HC (S k) ltac:(lia) x' (nth_error_In _ _ B) z Hb) as [F _]. auto. }
  assert (MEM: forall z, b <= rank z -> lk (gm (gl (r k))) z = false /\ hd (gm (gl (r k))) z = 0%Z).
  { intros z Hz. apply (clear_mem b M); auto. lia. }
  pose proof (run_tok _ _ _ Hxk) as TK. pose proof (run_pcok _ _ _ Hxk) as PK. cbn [fst] in PK.
  assert (GO: committed b x' -> False).
  { intros Hc. apply (IH (meas x') ltac:(lia) i (S k) x' ltac:(lia) B (le_n _) Hc). }
  destruct TK as (_ & _ & _ & _ & TK).
  inversion C; subst.
  - (* call *) apply GO. exists kq, t, got, (r0 :: todo0). eexists. cbn [snd fst at_ remn tl]. repeat split; auto.
    intros z Hz. apply Hr. match goal with H : at_ th = Idle |- _ => rewrite H in Hl end. cbn [remn] in Hl. injection Hl as <-.
    exact Hz.
  - (* inner *)
    destruct th as [p o]. cbn [at_] in *.
    match goal with H : tstep _ _ _ _ th' |- _ => inversion H; subst end; cbn [at_ fst remn] in *; try congruence;
    try (match goal with H : Some _ = Some _ |- _ => injection H as <- end);
    try (apply GO; exists kq, t, got, todo; eexists; cbn [snd fst at_ remn tl]; split; [reflexivity|split; [reflexivity|]]; exact Hr).
    + (* cas ok *) apply (CL r0). unfold tlocks. cbn [at_ plocks]. simpl. auto. apply Hr. simpl. auto.
    + (* up read fail *) destruct (MEM f). { apply Hr. cbn. auto. } congruence.
    + (* up cas fail *) destruct (MEM f). { apply Hr. cbn. auto. } congruence.
    + apply (CL f). unfold tlocks. cbn [at_ plocks]. simpl. auto. apply Hr. simpl. auto.
    + apply GO; exists kq, t, got, todo; eexists; cbn [snd fst at_ remn tl]; split; [reflexivity|split; [reflexivity|]].
      rewrite <- ancestors_unfold by auto. exact Hr.
  - (* lock ok *)
    apply GO. exists kq, t, (r0 :: got), todo0. eexists. cbn [snd fst at_ remn]. split; [reflexivity|split; [reflexivity|]].
    intros z Hz. apply Hr. destruct th as [p o]. cbn [at_ owned] in *.
    match goal with H : tstep _ _ _ _ _ |- _ => inversion H; subst end;
     try (exfalso; match goal with H : _ = r0 :: _ |- _ => apply (f_equal (@length nat)) in H; cbn in H; lia end).
    cbn [remn] in Hl. injection Hl as <-. exact Hz.
  - (* lock fail *)
    destruct th as [p o]. cbn [at_ owned] in *.
    match goal with H : tstep _ _ _ _ _ |- _ => inversion H; subst end; cbn [remn] in Hl; try congruence;
      try (match goal with H : Some _ = Some _ |- _ => injection H as <- end).
    + destruct (MEM r0). { apply Hr. cbn. auto. } congruence.
    + destruct (MEM r0). { apply Hr. cbn. auto. } congruence.
    + destruct (MEM r0). { apply Hr. cbn. auto. } congruence.
    + exfalso. match goal with H : _ = _ :: _ |- _ => apply (f_equal (@length nat)) in H; cbn in H; lia | H : _ :: _ = _ |- _ => apply (f_equal (@length nat)) in H; cbn in H; lia end.
  - (* got *) eapply stable_step with (k := k); [lia|].
    match goal with H : _ = gl (r (S k)) |- _ => rewrite <- H end. cbn [log fin addlog setq length]. lia.
Qed.

(** The position in the list of touched resources. *)
Lemma touch_app : forall a b, touch (a ++ b) = touch a ++ touch b.
Proof. intros. apply flat_map_app. Qed.

Lemma sorted_tail : forall l1 z l2, StronglySorted (fun a b => rank a < rank b) (l1 ++ z :: l2) ->
  forall y, In y l2 -> rank z < rank y.
Proof.
  induction l1 as [|h l1 IH]; intros z l2 H y Hy; cbn [app] in H; inversion H; subst.
  - rewrite Forall_forall in *. auto.
  - eapply IH; eauto.
Qed.

Lemma after_lock : forall k i th q t got todo x todo', nth_error (tl_ (r k)) i = Some (th, SLock q t got todo) -> todo = x :: todo' ->
  (forall y, In y (ancestors x ++ touch todo') -> rank x < rank y) /\
  forall pre f, ancestors x = pre ++ f :: ancestors f -> forall y, In y (ancestors f ++ touch todo') -> rank f < rank y.
Proof.
  intros k i th q t got todo x todo' H ->. pose proof (run_lord _ _ _ H) as E. cbn [lord snd] in E.
  pose proof (HRk t (run_task _ _ _ _ _ _ _ H)) as HS. rewrite <- E, touch_app in HS. cbn [touch flat_map] in HS.
  fold (touch todo') in HS. split.
  - intros y Hy. eapply sorted_tail; [exact HS|]. exact Hy.
  - intros pre f Ha y Hy. 
    assert (E2: touch (rev got) ++ (x :: ancestors x) ++ touch todo' = (touch (rev got) ++ x :: pre) ++ f :: (ancestors f ++ touch todo')).
    { rewrite Ha. rewrite <- !app_assoc. cbn [app]. rewrite <- ?app_assoc. reflexivity. }
    rewrite E2 in HS. eapply sorted_tail; [exact HS|]. exact Hy.
Qed.

(** What a step can add to the hold counters and the locks of its thread. *)
Lemma new_hold : forall m t m' t', tstep parent m t m' t' -> pc_ok parent (at_ t) -> forall z,
  In z (tholds parent t') -> In z (tholds parent t) \/ exists x pre, at_ t = UpInc x pre z.
Proof.
  intros m t m' t' H Hok z Hz. inversion H; subst; unfold tholds in *; cbn [at_ owned pholds app] in *; auto;
    try (left; exact Hz); try (left; rewrite in_app_iff; auto; fail).
  - left. cbn [flat_map] in Hz. cbn [pc_ok LockProto.chain_from] in Hok. rewrite app_nil_r in Hok.
    rewrite <- Hok. exact Hz.
  - destruct Hz as [<-|Hz]; [right; eauto|left; auto].
  - left. rewrite <- app_assoc in Hz. apply in_app_iff in Hz. cbn [app In] in *. rewrite in_app_iff. tauto.
  - left. rewrite in_app_iff in *. destruct Hz as [Hz|Hz]; auto. left. destruct rem; [destruct Hz|]. simpl in *. auto.
  - left. rewrite flat_map_app in *. cbn [flat_map]. rewrite !in_app_iff in *. tauto.
  - left. rewrite in_app_iff in *. destruct Hz as [Hz|Hz]; auto. left. destruct rem; [destruct Hz|]. simpl in *. auto.
Qed.

Lemma new_lock : forall m t m' t', tstep parent m t m' t' -> forall z,
  In z (tlocks t') -> In z (tlocks t) \/ (at_ t = LCas z /\ at_ t' = LRecheck z) \/ (exists x pre, at_ t = UpCas x pre z /\ at_ t' = UpInc x pre z).
Proof.
  intros m t m' t' H z Hz. inversion H; subst; unfold tlocks in *; cbn [at_ owned plocks app] in *; auto;
    try (left; simpl in *; tauto); try (left; simpl; rewrite in_app_iff in *; simpl; tauto).
  - destruct Hz as [<-|Hz]; auto.
  - destruct Hz as [<-|[<-|Hz]]; [right; right; eauto|left; simpl; auto|left; simpl; auto].
  - left. cbn [In] in Hz. rewrite in_app_iff in *. simpl. tauto.
Qed.

(** The memory operations of a thread's step. *)
Lemma lstep_tstep : forall oth g x g' x', lstep oth g x g' x' ->
  (forall z, In z (tlocks (fst x')) -> In z (tlocks (fst x))) /\
  (forall z, In z (tholds parent (fst x')) -> In z (tholds parent (fst x))) \/
  tstep parent (gm g) (fst x) (gm g') (fst x').
Proof.
  intros oth g x g' x' H. inversion H; subst; cbn [fst gm setm]; auto.
  - left. unfold tlocks, tholds. cbn [at_ owned]. match goal with H : at_ _ = Idle |- _ => rewrite H end. cbn. auto.
  - right. apply t_call_unlock.
  - right. apply t_call_unlock.
Qed.

Lemma clear_step : forall b M, clear (S b) M -> N0 <= M -> exists M', M <= M' /\ clear b M'.
Proof.
  intros b M HC HM.
  assert (INC: forall k i x y pre f, M <= k -> nth_error (tl_ (r k)) i = Some x -> at_ (fst x) = UpInc y pre f -> b <= rank f -> False).
  { intros k i [th q] y pre f Hk Hx Ha Hb. cbn [fst] in Ha.
    pose proof (run_tok _ _ _ Hx) as T. pose proof (run_pcok _ _ _ Hx) as PK. cbn [fst] in PK.
    destruct q; cbn [tok] in T; try (subst th; discriminate);
      try (destruct T as (T & _); try subst th; cbn [at_] in *; congruence).
    - destruct T as (_ & _ & _ & _ & [T|(r0 & todo' & -> & T)]); [congruence|]. rewrite Ha in T, PK. cbn [in_lock] in T. subst r0.
      cbn [pc_ok LockProto.chain_from] in PK.
      eapply (no_committed (S b) M HC HM); [exact Hk|exact Hx|apply le_n|].
      exists k0, t, got, (y :: todo'). eexists. cbn [snd fst]. rewrite Ha. cbn [remn tl]. repeat split; auto.
      intros z Hz. destruct (after_lock _ _ _ _ _ _ _ _ _ Hx eq_refl) as (_ & P).
      specialize (P pre f PK z Hz). lia.
    - destruct T as (_ & _ & [T|T]); rewrite Ha in T; [discriminate|exact T].
    - destruct T as (_ & [T|T]); rewrite Ha in T; [discriminate|exact T]. }
  (* no hold of rank >= b is acquired *)
  destruct (drains (fun x => exists z, b <= rank z /\ In z (tholds parent (fst x))) M HM) as (M2 & HM2 & HH).
  { intros th q _ -> (z & _ & Hz). exact Hz. }
  { intros i k x x' Hk Hs Hx Hx' Hno (z & Hb & Hz). apply Hno.
    destruct (moves i k Hs) as (oth & y & y' & A & B & C & _). rewrite Hx in A. injection A as <-. rewrite Hx' in B. injection B as <-.
    destruct (lstep_tstep _ _ _ _ _ C) as [(_ & D)|D].
    - exists z. auto.
    - destruct (new_hold _ _ _ _ D (run_pcok _ _ _ Hx) z Hz) as [E|(y & pre & E)]; [eauto|].
      exfalso. eapply (INC k i x y pre z); eauto. }
  assert (HD: forall k z, M2 <= k -> b <= rank z -> hd (gm (gl (r k))) z = 0%Z).
  { intros k z Hk Hb. apply not_held. intros x Hx Hz. apply (HH k Hk x Hx). eauto. }
  assert (REC: forall k i x y, M2 <= k -> nth_error (tl_ (r k)) i = Some x -> at_ (fst x) = LRecheck y -> b <= rank y -> False).
  { intros k i [th q] y Hk Hx Ha Hb. cbn [fst] in Ha.
    pose proof (run_tok _ _ _ Hx) as T.
    destruct q; cbn [tok] in T; try (subst th; discriminate);
      try (destruct T as (T & _); try subst th; cbn [at_] in *; congruence).
    - destruct T as (_ & _ & _ & _ & [T|(r0 & todo' & -> & T)]); [congruence|]. rewrite Ha in T. cbn [in_lock] in T. subst r0.
      destruct (code_moves i k _ _ Hx I) as (k' & Hk' & Hs & Hxk).
      destruct (moves i k' Hs) as (oth & x & x' & A & B & C & D). rewrite Hxk in A. injection A as <-.
      assert (E: x' = (mkThr (UpRead y [] (parent y)) (owned th), SLock k0 t got (y :: todo'))).
      { pose proof (HD k' y ltac:(lia) Hb) as Z0. destruct th as [p o]. cbn [at_ owned] in *. subst p.
        inversion C; subst; cbn [at_ owned] in *; try congruence.
        - match goal with H : tstep _ _ _ _ _ |- _ => inversion H; subst end; try congruence; cbn [at_] in *; try congruence.
        - exfalso. match goal with H : tstep _ _ _ _ _ |- _ => inversion H; subst end.
        - exfalso. match goal with H : tstep _ _ _ _ _ |- _ => inversion H; subst end. }
      subst x'. eapply (no_committed (S b) M HC HM); [|exact B|apply le_n|]; [lia|].
      exists k0, t, got, (y :: todo'). eexists. cbn [snd fst at_ remn tl]. repeat split; auto.
      intros z Hz. rewrite <- ancestors_unfold in Hz by auto.
      destruct (after_lock _ _ _ _ _ _ _ _ _ Hx eq_refl) as (P & _). specialize (P z Hz). lia.
    - destruct T as (_ & _ & [T|T]); rewrite Ha in T; [discriminate|exact T].
    - destruct T as (_ & [T|T]); rewrite Ha in T; [discriminate|exact T]. }
  destruct (drains (fun x => exists z, b <= rank z /\ In z (tlocks (fst x))) M2 ltac:(lia)) as (M3 & HM3 & HL).
  { intros th q _ -> (z & _ & Hz). exact Hz. }
  { intros i k x x' Hk Hs Hx Hx' Hno (z & Hb & Hz). apply Hno.
    destruct (moves i k Hs) as (oth & y & y' & A & B & C & _). rewrite Hx in A. injection A as <-. rewrite Hx' in B. injection B as <-.
    destruct (lstep_tstep _ _ _ _ _ C) as [(D & _)|D].
    - exists z. auto.
    - destruct (new_lock _ _ _ _ D z Hz) as [E|[(E1 & E2)|(y & pre & E1 & E2)]]; [eauto| |].
      + exfalso. eapply (REC (S k) i x' z); eauto.
      + exfalso. eapply (INC (S k) i x' y pre z); eauto. lia. }
  exists M3. split; [lia|]. intros k Hk x Hx z Hb. split; intros Hz.
  - apply (HL k Hk x Hx). eauto.
  - apply (HH k ltac:(lia) x Hx). eauto.
Qed.

Lemma lists_bound : forall (f : nat -> list nat) m, exists b, forall t, t < m -> forall z, In z (f t) -> rank z < b.
Proof.
  induction m as [|m (b & H)].
  - exists 0. intros; lia.
  - assert (G: forall l, exists b', forall z, In z l -> rank z < b').
    { induction l as [|h l (b' & G)]; [exists 0; intros z []|]. exists (b' + S (rank h)). intros z [<-|Hz]; [lia|]. specialize (G z Hz). lia. }
    destruct (G (f m)) as (b' & G'). exists (b + b'). intros t Ht z Hz.
    destruct (Nat.eq_dec t m) as [->|]; [specialize (G' z Hz)|specialize (H t ltac:(lia) z Hz)]; lia.
Qed.

(** Nothing above the highest rank is ever touched. *)
Lemma clear_top : exists b M, N0 <= M /\ clear b M.
Proof.
  destruct (lists_bound (fun t => touch (locks t)) n) as (b & Hb). exists b.
  assert (IN: forall k i th q t got todo x y, nth_error (tl_ (r k)) i = Some (th, SLock q t got todo) ->
    (exists todo', todo = x :: todo') -> In y (x :: ancestors x) -> rank y < b).
  { intros k i th q t got todo x y H (todo' & ->) Hy. apply (Hb t). eapply run_task; eauto.
    pose proof (run_lord _ _ _ H) as E. cbn [lord snd] in E. rewrite <- E, touch_app. apply in_app_iff. right.
    cbn [touch flat_map]. apply in_app_iff. left. exact Hy. }
  assert (WHERE: forall k i x, nth_error (tl_ (r k)) i = Some x ->
     (forall y pre f, at_ (fst x) = UpInc y pre f -> rank f < b) /\ (forall y, at_ (fst x) = LRecheck y -> rank y < b)).
  { intros k i [th q] Hx. cbn [fst].
    pose proof (run_tok _ _ _ Hx) as T. pose proof (run_pcok _ _ _ Hx) as PK. cbn [fst] in PK.
    destruct q; cbn [tok] in T; try (subst th; split; intros; discriminate);
      try (destruct T as (T & _); try subst th; cbn [at_] in *; split; intros; congruence).
    - destruct T as (_ & _ & _ & _ & [T|(r0 & todo' & -> & T)]); [split; intros; congruence|].
      split; intros y; intros; rewrite H in T, PK; cbn [in_lock] in T; subst r0; eapply IN; eauto.
      + cbn [pc_ok LockProto.chain_from] in PK. right. rewrite PK. apply in_app_iff. right. left. auto.
      + left. auto.
    - destruct T as (_ & _ & [T|T]); split; intros; rewrite H in T; try discriminate; contradiction.
    - destruct T as (_ & [T|T]); split; intros; rewrite H in T; try discriminate; contradiction. }
  destruct (drains (fun x => exists z, b <= rank z /\ (In z (tholds parent (fst x)) \/ In z (tlocks (fst x)))) N0 ltac:(lia)) as (M2 & HM2 & HH).
  { intros th q _ -> (z & _ & [Hz|Hz]); exact Hz. }
  { intros i k x x' Hk Hs Hx Hx' Hno (z & Hz & Hin). apply Hno. exists z. split; auto.
    destruct (moves i k Hs) as (oth & y & y' & A & B & C & _). rewrite Hx in A. injection A as <-. rewrite Hx' in B. injection B as <-.
    destruct (lstep_tstep _ _ _ _ _ C) as [(D1 & D2)|D].
    - destruct Hin; auto.
    - destruct Hin as [Hin|Hin].
      + destruct (new_hold _ _ _ _ D (run_pcok _ _ _ Hx) z Hin) as [E|(y & pre & E)]; [auto|].
        destruct (WHERE _ _ _ Hx) as (W & _). specialize (W _ _ _ E). lia.
      + destruct (WHERE _ _ _ Hx') as (W1 & W2).
        destruct (new_lock _ _ _ _ D z Hin) as [E|[(E1 & E2)|(y & pre & E1 & E2)]]; [auto| |].
        * specialize (W2 _ E2). lia.
        * specialize (W1 _ _ _ E2). lia. }
  exists M2. split; auto. intros k Hk x Hx z Hz. split; intros Hin; apply (HH k Hk x Hx); eauto.
Qed.

Lemma clear_all : exists M, N0 <= M /\ clear 0 M.
Proof.
  destruct clear_top as (b & M & HM & HC). revert M HM HC. induction b; intros M HM HC; [eauto|].
  destruct (clear_step b M HC HM) as (M' & A & B). apply (IHb M'); auto. lia.
Qed.

Lemma all_rest : exists M, N0 <= M /\ forall k, M <= k -> forall x, In x (tl_ (r k)) -> settled x.
Proof.
  destruct clear_all as (M & HM & HC).
  destruct (drains (fun x => ~ at_rest (snd x)) M HM) as (M2 & HM2 & HH).
  { intros th q Hq _ H. auto. }
  { intros i k x x' Hk Hs Hx Hx' Hno Hn. apply NNPP in Hno.
    destruct (moves i k Hs) as (oth & y & y' & A & B & C & _). rewrite Hx in A. injection A as <-. rewrite Hx' in B. injection B as <-.
    inversion C; subst; cbn [snd at_rest] in *; try contradiction.
    - eapply (no_committed 0 M HC HM); [|exact Hx'|apply le_n|]; [lia|].
      exists k0, t, [], (locks t). pose proof (run_tok _ _ _ Hx) as T. cbn [tok] in T. subst th.
      eexists. cbn [snd fst at_ remn]. repeat split; auto. lia. }
  exists M2. split; [lia|]. intros k Hk x Hx. specialize (HH k Hk x Hx). apply NNPP in HH.
  destruct (run_sinv k) as (_ & I2 & _). specialize (I2 x Hx). destruct x as [th q].
  destruct q; cbn [snd at_rest] in HH; try contradiction; cbn [tok] in I2; subst th; [left|right]; reflexivity.
Qed.

End Stable.

Variable rank : nat -> nat.
Hypothesis HRk : forall t, t < n -> StronglySorted (fun a b => rank a < rank b) (touch (locks t)).
Hypothesis HD : ranked n unlocks.

Lemma length_run : forall k, length (tl_ (r k)) = length (tl_ (r 0)).
Proof.
  induction k; auto. rewrite <- IHk. destruct HR as [_ HS]. specialize (HS k). destruct (sch k).
  - destruct HS as (l1 & y & l2 & g' & y' & A & B & C & D). rewrite D, A. cbn [tl_]. rewrite !app_length. reflexivity.
  - rewrite HS. auto.
Qed.

(** Under a fair operating system all threads return. *)
Theorem fair_ends : exists M, forall k, M <= k -> all_exited (r k).
Proof.
  destruct count_stable as (N0 & HN0).
  destruct (all_rest N0 HN0 rank HRk) as (M & HM & HS).
  destruct (Nat.eq_dec (gwaiting (gl (r M))) 0) as [HW|HW].
  - assert (W: forall k, M <= k -> gwaiting (gl (r k)) = 0).
    { intros k Hk. induction Hk as [|k Hk IH]; auto. destruct HR as [_ HX]. specialize (HX k). destruct (sch k) as [i|].
      - destruct (step_self _ _ _ HX) as (oth & x & x' & _ & _ & C & _).
        inversion C; subst; cbn [gwaiting setm setw setq addlog done1]; auto; try lia;
          match goal with H : _ = gl (r (S k)) |- _ => rewrite <- H end; cbn [gwaiting setm setw setq addlog done1]; lia.
      - rewrite HX. auto. }
    assert (PER: forall i, exists M', M <= M' /\ forall k, M' <= k -> forall x, nth_error (tl_ (r k)) i = Some x -> snd x = SExit).
    { intros i. 
      assert (EX: exists M', M <= M' /\ forall x, nth_error (tl_ (r M')) i = Some x -> snd x = SExit).
      { destruct (nth_error (tl_ (r M)) i) as [x|] eqn:E.
        - destruct (HS M (le_n _) x (nth_error_In _ _ E)) as [->| ->].
          + destruct (next_move i M _ E) as (k & A & B & C).
            { intros H. apply owed_return. intros k Hk. split; auto. exists (mkThr Idle []), SIdle. split; auto. }
            exists (S k). split; [lia|]. intros x Hx.
            destruct (moves i k B) as (oth & y & y' & F & G & L & _). rewrite C in F. injection F as <-. rewrite Hx in G. injection G as <-.
            destruct (HS (S k) ltac:(lia) x (nth_error_In _ _ Hx)) as [->| ->]; auto.
            inversion L; subst. exfalso. cbn [at_] in *. congruence.
          + exists M. split; auto. intros x Hx. rewrite E in Hx. injection Hx as <-. reflexivity.
        - exists M. split; auto. intros x Hx. congruence. }
      destruct EX as (M' & A & B). exists M'. split; auto. intros k Hk. induction Hk as [|k Hk IH]; auto.
      intros x Hx. destruct (classic (sch k = Some i)) as [Hs|Hs].
      - destruct (moves i k Hs) as (oth & y & y' & F & G & L & _). rewrite Hx in G. injection G as <-.
        specialize (IH y F). destruct y as [th q]. cbn [snd] in IH. subst q. inversion L; subst. reflexivity.
      - rewrite stays in Hx by auto. auto. }
    assert (ALL: forall L, exists M', M <= M' /\ forall i, i < L -> forall k, M' <= k -> forall x, nth_error (tl_ (r k)) i = Some x -> snd x = SExit).
    { induction L as [|L (M1 & A & B)].
      - exists M. split; auto. intros; lia.
      - destruct (PER L) as (M2 & A' & B'). exists (M1 + M2). split; [lia|]. intros i Hi k Hk x Hx.
        destruct (Nat.eq_dec i L); [subst; apply (B' k); auto; lia|apply (B i ltac:(lia) k); auto; lia]. }
    destruct (ALL (length (tl_ (r 0)))) as (M' & A & B). exists M'. intros k Hk x Hx.
    apply In_nth_error in Hx. destruct Hx as (i & Hi). apply (B i) with (k := k); auto.
    rewrite <- (length_run k). apply nth_error_Some. congruence.
  - destruct (tl_ (r M)) as [|x l] eqn:ET.
    { exists 0. intros k _ x Hx. exfalso. pose proof (length_run k) as L1. pose proof (length_run M) as L2.
      rewrite ET in L2. cbn in L2. rewrite <- L2 in L1. destruct (tl_ (r k)); [exact Hx|discriminate]. }
    exfalso.
    assert (CONST: forall k, M <= k -> r k = r M /\ forall i, sch k <> Some i).
    { assert (ST: forall k, M <= k -> r k = r M -> forall i, sch k <> Some i).
      { intros k Hk E i Hs. destruct (moves i k Hs) as (oth & y & y' & F & G & L & _).
        destruct (HS (S k) ltac:(lia) y' (nth_error_In _ _ G)) as [->| ->];
          destruct (HS k Hk y (nth_error_In _ _ F)) as [->| ->]; inversion L; subst; cbn [at_] in *; try congruence. }
      intros k Hk. induction Hk as [|k Hk (IH1 & IH2)].
      - split; auto.
      - assert (E: r (S k) = r M).
        { destruct HR as [_ HX]. specialize (HX k). destruct (sch k) as [i|] eqn:Es; [exfalso; apply (IH2 i); auto|congruence]. }
        split; auto. }
    destruct (ready_exists parent n nq locks unlocks HU HD (r M) (run_reach_ M) ltac:(intros; apply (HS M); auto) ltac:(lia)) as (t & q & Hq & Ht & _).
    assert (Hx: x = (mkThr Idle [], SIdle)).
    { destruct (HS M (le_n _) x ltac:(rewrite ET; simpl; auto)) as [E|E]; auto. exfalso. apply HW.
      apply (exit_waiting _ _ _ _ _ _ (run_reach_ M) x); [rewrite ET; simpl; auto|rewrite E; auto]. }
    destruct (HFair 0 M) as (k & A & B).
    { apply (owed_task r 0 M q t Hq). intros k Hk. destruct (CONST k Hk) as (-> & _). repeat split; auto; try lia.
      - exists (mkThr Idle []), SIdle. rewrite ET, Hx. split; auto.
      - intros y Hy E. destruct (HS M (le_n _) y Hy) as [->| ->]; discriminate. }
    destruct (CONST k A) as (_ & C). apply (C 0). auto.
Qed.

End Fair.
