(** Fine-grained model of the hierarchical resource locks of QuickSched
    (quicksched/qsched.c:665-728, lock.h:44-54, atomic.h:22-24).

    Any number of threads interleave the individual memory operations (plain
    loads, compare-and-swap, fetch-and-add) of [qsched_lockres] and
    [qsched_unlockres].  Memory is sequentially consistent (the CAS and
    fetch-and-add builtins are full barriers). *)
From Coq Require Import List Arith Lia Bool ZArith.
From Verif Require Import Base.
Import ListNotations.

Section Proto.

(** res.h:26-44 [parent] field; [None] is [qsched_res_none]. *)
Variable parent : nat -> option nat.

(** qsched.c:1167-1210: a resource is added after its parent, so the parent's
    index is smaller. *)
Definition forest := forall r p, parent r = Some p -> p < r.

(** Ancestors of [r], nearest first. *)
Fixpoint ancs (fuel : nat) (r : nat) : list nat :=
  match fuel with
  | 0 => []
  | S f => match parent r with None => [] | Some p => p :: ancs f p end
  end.
Definition ancestors (r : nat) : list nat := ancs (S r) r.

(** Shared memory: lock word (0/1) and hold counter of every resource
    (res.h:26-44). Simplification: the hold counter does not overflow. *)
Record mem := mkMem { lk : nat -> bool; hd : nat -> Z }.

Definition setlk (m : mem) (r : nat) (b : bool) : mem :=
  mkMem (fun x => if Nat.eqb x r then b else lk m x) (hd m).
Definition addhd (m : mem) (r : nat) (d : Z) : mem :=
  mkMem (lk m) (fun x => if Nat.eqb x r then (hd m x + d)%Z else hd m x).

(** Program points of a thread. [r] is the [rid] argument, [f] the C variable
    [finger] ([None] = [qsched_res_none]), [f2] the variable [finger2].  The
    lists [pre] and [rem] are ghost: the fingers whose hold was incremented so
    far, resp. still has to be decremented; no branch depends on them. *)
Inductive pc :=
| Idle
| LHold (r : nat)                       (* 670: load hold *)
| LRead (r : nat)                       (* 670, lock.h:51: load of the lock word *)
| LCas (r : nat)                        (* 670, lock.h:51: compare-and-swap *)
| LRecheck (r : nat)                    (* 674: load hold again *)
| LAbort (r : nat)                      (* 675: unlock, return 0 *)
| UpRead (r : nat) (pre : list nat) (f : option nat)   (* 681-683: loop head, load of lock word *)
| UpCas (r : nat) (pre : list nat) (f : nat)           (* 683: compare-and-swap *)
| UpInc (r : nat) (pre : list nat) (f : nat)           (* 685: atomic_inc hold *)
| UpUnlock (r : nat) (pre : list nat) (f : nat)        (* 686: unlock finger *)
| RbUnlock (r : nat) (pre : list nat) (f : nat)        (* 693: unlock rid *)
| RbDec (rem : list nat) (f2 : option nat) (f : nat)   (* 696-698: undo holds *)
| UnUnlock (r : nat)                                   (* 722: unlock rid *)
| UnDec (rem : list nat) (f : option nat).             (* 725-727: undo holds *)

(** A thread: where it is, and the resources its lock calls have successfully
    returned for and that it has not started to unlock. *)
Record thr := mkThr { at_ : pc; owned : list nat }.

(** One atomic action of one thread. *)
Inductive tstep : mem -> thr -> mem -> thr -> Prop :=
(* client starts qsched_lockres(s, r) *)
| t_call_lock : forall m o r, tstep m (mkThr Idle o) m (mkThr (LHold r) o)
(* 670: hold nonzero -> return 0 *)
| t_hold_fail : forall m o r, hd m r <> 0%Z -> tstep m (mkThr (LHold r) o) m (mkThr Idle o)
| t_hold_ok : forall m o r, hd m r = 0%Z -> tstep m (mkThr (LHold r) o) m (mkThr (LRead r) o)
(* lock.h:51 trylock: nonzero load -> busy, else CAS *)
| t_read_fail : forall m o r, lk m r = true -> tstep m (mkThr (LRead r) o) m (mkThr Idle o)
| t_read_ok : forall m o r, lk m r = false -> tstep m (mkThr (LRead r) o) m (mkThr (LCas r) o)
| t_cas_fail : forall m o r, lk m r = true -> tstep m (mkThr (LCas r) o) m (mkThr Idle o)
| t_cas_ok : forall m o r, lk m r = false ->
    tstep m (mkThr (LCas r) o) (setlk m r true) (mkThr (LRecheck r) o)
(* 674 *)
| t_recheck_fail : forall m o r, hd m r <> 0%Z ->
    tstep m (mkThr (LRecheck r) o) m (mkThr (LAbort r) o)
| t_recheck_ok : forall m o r, hd m r = 0%Z ->
    tstep m (mkThr (LRecheck r) o) m (mkThr (UpRead r [] (parent r)) o)
(* 675-676 *)
| t_abort : forall m o r, tstep m (mkThr (LAbort r) o) (setlk m r false) (mkThr Idle o)
(* 681: finger == none: leave the loop, 707: return 1 *)
| t_up_done : forall m o r pre, tstep m (mkThr (UpRead r pre None) o) m (mkThr Idle (r :: o))
(* 683-684 *)
| t_up_read_fail : forall m o r pre f, lk m f = true ->
    tstep m (mkThr (UpRead r pre (Some f)) o) m (mkThr (RbUnlock r pre f) o)
| t_up_read_ok : forall m o r pre f, lk m f = false ->
    tstep m (mkThr (UpRead r pre (Some f)) o) m (mkThr (UpCas r pre f) o)
| t_up_cas_fail : forall m o r pre f, lk m f = true ->
    tstep m (mkThr (UpCas r pre f) o) m (mkThr (RbUnlock r pre f) o)
| t_up_cas_ok : forall m o r pre f, lk m f = false ->
    tstep m (mkThr (UpCas r pre f) o) (setlk m f true) (mkThr (UpInc r pre f) o)
(* 685 *)
| t_up_inc : forall m o r pre f,
    tstep m (mkThr (UpInc r pre f) o) (addhd m f 1) (mkThr (UpUnlock r pre f) o)
(* 686, 682 *)
| t_up_unlock : forall m o r pre f,
    tstep m (mkThr (UpUnlock r pre f) o) (setlk m f false) (mkThr (UpRead r (pre ++ [f]) (parent f)) o)
(* 693, 696 *)
| t_rb_unlock : forall m o r pre f,
    tstep m (mkThr (RbUnlock r pre f) o) (setlk m r false) (mkThr (RbDec pre (parent r) f) o)
(* 696: finger2 != finger -> 698; [hd_tl] keeps the ghost list in step *)
| t_rb_dec : forall m o rem f2 f, f2 <> f ->
    tstep m (mkThr (RbDec rem (Some f2) f) o) (addhd m f2 (-1)) (mkThr (RbDec (tl rem) (parent f2) f) o)
(* 701: return 0 *)
| t_rb_done : forall m o rem f,
    tstep m (mkThr (RbDec rem (Some f) f) o) m (mkThr Idle o)
(* client starts qsched_unlockres(s, r) on a resource it owns *)
| t_call_unlock : forall m o1 r o2,
    tstep m (mkThr Idle (o1 ++ r :: o2)) m (mkThr (UnUnlock r) (o1 ++ o2))
(* 722 *)
| t_un_unlock : forall m o r,
    tstep m (mkThr (UnUnlock r) o) (setlk m r false) (mkThr (UnDec (ancestors r) (parent r)) o)
(* 725-727 *)
| t_un_dec : forall m o rem f,
    tstep m (mkThr (UnDec rem (Some f)) o) (addhd m f (-1)) (mkThr (UnDec (tl rem) (parent f)) o)
| t_un_done : forall m o rem,
    tstep m (mkThr (UnDec rem None) o) m (mkThr Idle o).

(** The system: shared memory and any number of threads. *)
Record sys := mkSys { smem : mem; ths : list thr }.

Inductive sstep : sys -> sys -> Prop :=
| s_step : forall m m' l1 t l2 t', tstep m t m' t' ->
    sstep (mkSys m (l1 ++ t :: l2)) (mkSys m' (l1 ++ t' :: l2)).

(** qsched.c:1199-1203 (addres): fresh resources are unlocked and not held. *)
Definition initial (s : sys) : Prop :=
  (forall r, lk (smem s) r = false) /\ (forall r, hd (smem s) r = 0%Z) /\
  (forall t, In t (ths s) -> t = mkThr Idle []).

Inductive reachable : sys -> Prop :=
| reach_init : forall s, initial s -> reachable s
| reach_step : forall s s', reachable s -> sstep s s' -> reachable s'.

(* ---------------------------------------------------------------- invariant *)

(** Resources whose lock word this thread has set. *)
Definition plocks (p : pc) : list nat :=
  match p with
  | Idle | LHold _ | LRead _ | LCas _ | RbDec _ _ _ | UnDec _ _ => []
  | LRecheck r | LAbort r | UpRead r _ _ | UpCas r _ _ | RbUnlock r _ _ | UnUnlock r => [r]
  | UpInc r _ f | UpUnlock r _ f => [f; r]
  end.

(** Resources on whose hold counter this thread has a contribution. *)
Definition pholds (p : pc) : list nat :=
  match p with
  | UpRead _ pre _ | UpCas _ pre _ | UpInc _ pre _ | RbUnlock _ pre _ => pre
  | UpUnlock _ pre f => f :: pre
  | RbDec rem _ _ => rem
  | UnUnlock r => ancestors r
  | UnDec rem _ => rem
  | _ => []
  end.

(** Locked resources for which the second hold check has passed. *)
Definition psecured (p : pc) : list nat :=
  match p with
  | UpRead r _ _ | UpCas r _ _ | UpInc r _ _ | UpUnlock r _ _ | RbUnlock r _ _ | UnUnlock r => [r]
  | _ => []
  end.

Definition tlocks (t : thr) : list nat := plocks (at_ t) ++ owned t.
Definition tholds (t : thr) : list nat := pholds (at_ t) ++ flat_map ancestors (owned t).
Definition tsecured (t : thr) : list nat := psecured (at_ t) ++ owned t.

Definition chain_from (f : option nat) : list nat :=
  match f with None => [] | Some q => q :: ancestors q end.

(** Consistency of the ghost lists with the fingers. *)
Definition pc_ok (p : pc) : Prop :=
  match p with
  | UpRead r pre f => ancestors r = pre ++ chain_from f
  | UpCas r pre f | UpInc r pre f | UpUnlock r pre f | RbUnlock r pre f =>
      ancestors r = pre ++ chain_from (Some f)
  | RbDec rem f2 f => chain_from f2 = rem ++ chain_from (Some f)
  | UnDec rem f => rem = chain_from f
  | _ => True
  end.

Definition all_locks (l : list thr) := flat_map tlocks l.
Definition all_holds (l : list thr) := flat_map tholds l.
Definition cnt (r : nat) (l : list nat) : nat := count_occ Nat.eq_dec l r.

Definition inv (s : sys) : Prop :=
  (forall r, cnt r (all_locks (ths s)) = if lk (smem s) r then 1 else 0) /\
  (forall r, hd (smem s) r = Z.of_nat (cnt r (all_holds (ths s)))) /\
  (forall t r, In t (ths s) -> In r (tsecured t) -> hd (smem s) r = 0%Z) /\
  (forall t, In t (ths s) -> pc_ok (at_ t)).

Lemma ancs_fuel : forest -> forall f1 f2 r, r < f1 -> r < f2 -> ancs f1 r = ancs f2 r.
Proof.
  intros HF. induction f1; intros; try lia. destruct f2; try lia. simpl.
  destruct (parent r) eqn:E; auto. f_equal. apply HF in E. apply IHf1; lia.
Qed.

Lemma ancestors_unfold : forest -> forall r, ancestors r = chain_from (parent r).
Proof.
  intros HF r. unfold ancestors, chain_from. cbn [ancs].
  destruct (parent r) eqn:E; auto. f_equal. pose proof (HF _ _ E). apply ancs_fuel; auto; lia.
Qed.

Lemma ancs_lt : forest -> forall f r x, In x (ancs f r) -> x < r.
Proof.
  intros HF. induction f as [|f IH]; simpl; intros r x Hx.
  - tauto.
  - destruct (parent r) as [p|] eqn:E; simpl in Hx; [|tauto].
    pose proof (HF _ _ E) as Hp. destruct Hx as [Hx|Hx].
    + lia.
    + apply IH in Hx. lia.
Qed.

Lemma ancestors_lt : forest -> forall r x, In x (ancestors r) -> x < r.
Proof. intros. eapply ancs_lt; eauto. Qed.

Lemma cnt_app : forall r l1 l2, cnt r (l1 ++ l2) = cnt r l1 + cnt r l2.
Proof. intros. apply count_occ_app. Qed.

Lemma cnt_nil : forall r, cnt r [] = 0.
Proof. auto. Qed.
Lemma cnt_cons : forall r x l, cnt r (x :: l) = (if Nat.eqb r x then 1 else 0) + cnt r l.
Proof.
  intros. unfold cnt. simpl. destruct (Nat.eq_dec x r); destruct (Nat.eqb_spec r x); subst; try congruence; auto.
Qed.

Lemma cnt_In : forall r l, In r l <-> 0 < cnt r l.
Proof. intros. rewrite (count_occ_In Nat.eq_dec). unfold cnt. lia. Qed.

Ltac cs := repeat rewrite ?cnt_app, ?cnt_cons, ?cnt_nil in *.

Lemma inv_initial : forall s, initial s -> inv s.
Proof.
  intros s (A & B & C).
  assert (all_locks (ths s) = [] /\ all_holds (ths s) = []).
  { unfold all_locks, all_holds. clear A B. induction (ths s); simpl; auto.
    rewrite (C a) by (simpl; auto). simpl. apply IHl. intros. apply C; simpl; auto. }
  destruct H as [H1 H2]. unfold inv. rewrite H1, H2. repeat split; intros.
  - rewrite A. auto.
  - rewrite B. auto.
  - apply B.
  - rewrite (C _ H). simpl. auto.
Qed.

(** Effect of one thread step on its own lock and hold multisets. *)
Lemma tstep_locks : forall m t m' t', tstep m t m' t' ->
  forall r, cnt r (tlocks t') + (if lk m r then 1 else 0) = cnt r (tlocks t) + (if lk m' r then 1 else 0)
  \/ (exists x, In x (tlocks t) /\ lk m x = false).
Proof.
  intros m t m' t' H r; inversion H; subst; unfold tlocks; cbn [at_ owned plocks]; cs;
    unfold setlk, addhd; cbn [lk hd]; try (left; lia).
  - left. destruct (Nat.eqb_spec r r0); subst; try lia. rewrite H0. lia.
  - destruct (lk m r0) eqn:E. left. destruct (Nat.eqb_spec r r0); subst; try lia. rewrite E. lia.
    right. exists r0. simpl. auto.
  - left. destruct (Nat.eqb_spec r f); subst; try lia. rewrite H0. lia.
  - destruct (lk m f) eqn:E. left. destruct (Nat.eqb_spec r f); subst; try lia. rewrite E. lia.
    right. exists f. simpl. auto.
  - destruct (lk m r0) eqn:E. left. destruct (Nat.eqb_spec r r0); subst; try lia. rewrite E. lia.
    right. exists r0. simpl. auto.
  - destruct (lk m r0) eqn:E. left. destruct (Nat.eqb_spec r r0); subst; try lia. rewrite E. lia.
    right. exists r0. simpl. auto.
Qed.

Lemma flat_map_cnt_app : forall (f : nat -> list nat) o1 o2 r,
  cnt r (flat_map f (o1 ++ o2)) = cnt r (flat_map f o1) + cnt r (flat_map f o2).
Proof. intros. rewrite flat_map_app. apply cnt_app. Qed.

Lemma tstep_holds : forest -> forall m t m' t', tstep m t m' t' -> pc_ok (at_ t) ->
  forall r, (Z.of_nat (cnt r (tholds t')) + hd m r = Z.of_nat (cnt r (tholds t)) + hd m' r)%Z.
Proof.
  intros HF m t m' t' H HO r; inversion H; subst; unfold tholds; cbn [at_ owned pholds] in *;
    unfold setlk, addhd; cbn [lk hd] in *; cs; try lia.
  - simpl in HO. cbn [flat_map]. cs. rewrite app_nil_r in HO. rewrite HO. lia.
  - destruct (Nat.eqb_spec r f); lia.
  - simpl in HO. destruct rem as [|x rem]; simpl in HO.
    + injection HO as Hx Hy. congruence.
    + injection HO as Hx Hy. subst x. cbn [tl]. cs. destruct (Nat.eqb_spec r f2); lia.
  - simpl in HO. destruct rem as [|x rem]; auto.
    exfalso. simpl in HO. injection HO as Hx Hy. subst x.
    assert (In f (ancestors f)). { rewrite Hy. apply in_app_iff. right. simpl. auto. }
    apply ancestors_lt in H0; auto. lia.
  - rewrite !flat_map_app. cbn [flat_map]. cs. lia.
  - simpl in HO. subst rem. cbn [tl]. cs. destruct (Nat.eqb_spec r f); lia.
  - simpl in HO. subst rem. simpl. lia.
Qed.

Lemma tstep_pc_ok : forest -> forall m t m' t', tstep m t m' t' -> pc_ok (at_ t) -> pc_ok (at_ t').
Proof.
  intros HF m t m' t' H HO; inversion H; subst; cbn [at_ pc_ok] in *; auto.
  - simpl. apply ancestors_unfold; auto.
  - rewrite HO. simpl. rewrite <- app_assoc. simpl. rewrite (ancestors_unfold HF f). auto.
  - rewrite <- (ancestors_unfold HF r). auto.
  - destruct rem as [|x rem]; simpl in HO; injection HO as Hx Hy.
    + congruence.
    + subst x. cbn [tl]. rewrite <- (ancestors_unfold HF f2). auto.
  - apply ancestors_unfold; auto.
  - subst rem. simpl. apply ancestors_unfold; auto.
Qed.

(** A counter that a thread step changes belongs to a lock this thread holds, or
    is decremented. *)
Lemma tstep_hd_change : forall m t m' t', tstep m t m' t' -> forall r,
  hd m' r = hd m r \/ (hd m' r = hd m r + 1 /\ In r (plocks (at_ t)) /\ ~ In r (psecured (at_ t)) )%Z
  \/ (hd m' r = hd m r + 1 /\ (2 <= cnt r (plocks (at_ t)))%nat)%Z
  \/ (hd m' r = hd m r - 1)%Z.
Proof.
  intros m t m' t' H r; inversion H; subst; unfold setlk, addhd; cbn [hd at_ plocks psecured]; auto.
  - destruct (Nat.eqb_spec r f); subst; auto. right.
    destruct (Nat.eq_dec r0 f).
    + subst. right. left. split; auto. cs. rewrite Nat.eqb_refl. lia.
    + left. split; [auto|split]. { simpl; auto. } { simpl. intros [?|[]]; auto. }
  - destruct (Nat.eqb_spec r f2); subst; auto 6.
  - destruct (Nat.eqb_spec r f); subst; auto 6.
Qed.

Lemma tsecured_new : forall m t m' t', tstep m t m' t' -> forall r,
  In r (tsecured t') -> In r (tsecured t) \/ hd m' r = 0%Z.
Proof.
  intros m t m' t' H r; inversion H; subst; unfold tsecured, setlk, addhd; cbn [at_ owned psecured hd]; simpl; auto;
  rewrite ?in_app_iff; simpl; try tauto.
  - intros [?|?]; subst; auto.
Qed.

Lemma tsecured_tlocks : forall t r, cnt r (tsecured t) <= cnt r (tlocks t).
Proof.
  intros. unfold tsecured, tlocks. cs. destruct (at_ t); cbn [psecured plocks]; cs; lia.
Qed.

Lemma inv_step : forest -> forall s s', inv s -> sstep s s' -> inv s'.
Proof.
  intros HF s s' (I1 & I2 & I3 & I4) H. inversion H as [m m' l1 t l2 t' HT]; subst.
  cbn [smem ths] in *.
  assert (Hin: In t (l1 ++ t :: l2)) by (apply in_app_iff; simpl; auto).
  assert (Hok := I4 _ Hin).
  assert (HL: forall r, cnt r (all_locks (l1 ++ t :: l2)) = cnt r (all_locks l1) + (cnt r (tlocks t) + cnt r (all_locks l2))).
  { intros. unfold all_locks. rewrite flat_map_app. simpl. cs. auto. }
  assert (HL': forall r, cnt r (all_locks (l1 ++ t' :: l2)) = cnt r (all_locks l1) + (cnt r (tlocks t') + cnt r (all_locks l2))).
  { intros. unfold all_locks. rewrite flat_map_app. simpl. cs. auto. }
  assert (HH: forall r, cnt r (all_holds (l1 ++ t :: l2)) = cnt r (all_holds l1) + (cnt r (tholds t) + cnt r (all_holds l2))).
  { intros. unfold all_holds. rewrite flat_map_app. simpl. cs. auto. }
  assert (HH': forall r, cnt r (all_holds (l1 ++ t' :: l2)) = cnt r (all_holds l1) + (cnt r (tholds t') + cnt r (all_holds l2))).
  { intros. unfold all_holds. rewrite flat_map_app. simpl. cs. auto. }
  unfold inv. cbn [smem ths].
  split; [|split; [|split]].
  - intros r. destruct (tstep_locks _ _ _ _ HT r) as [E | (x & Hx & E)].
    + rewrite HL'. specialize (I1 r). rewrite HL in I1. lia.
    + exfalso. specialize (I1 x). rewrite E, HL in I1. apply cnt_In in Hx. lia.
  - intros r. pose proof (tstep_holds HF _ _ _ _ HT Hok r). rewrite HH'.
    specialize (I2 r). rewrite HH in I2. lia.
  - (* secured resources have no holds *)
    intros u r Hu Hr.
    assert (Hpos: (0 <= hd m' r)%Z).
    { pose proof (tstep_holds HF _ _ _ _ HT Hok r). specialize (I2 r). rewrite HH in I2. lia. }
    (* either newly secured with hd m' r = 0, or it was already secured *)
    assert (Hold: hd m' r = 0%Z \/ (hd m r = 0%Z /\ exists v, In v (l1 ++ t :: l2) /\ In r (tsecured v) /\
              (v = t \/ (exists la lb, l1 ++ t :: l2 = la ++ t :: lb /\ (In v la \/ In v lb))))).
    { apply in_app_iff in Hu. simpl in Hu.
      assert (Hother: In u l1 \/ In u l2 -> hd m r = 0%Z /\ exists v, In v (l1 ++ t :: l2) /\ In r (tsecured v) /\
              (v = t \/ (exists la lb, l1 ++ t :: l2 = la ++ t :: lb /\ (In v la \/ In v lb)))).
      { intros Ho. assert (In u (l1 ++ t :: l2)) by (apply in_app_iff; simpl; tauto).
        split. eapply I3; eauto. exists u. repeat split; auto. right. exists l1, l2. auto. }
      destruct Hu as [Hu|[Hu|Hu]]; auto.
      subst u. destruct (tsecured_new _ _ _ _ HT r Hr); auto.
      right. split. eapply I3; eauto. exists t. auto. }
    destruct Hold as [?|(Hz & v & Hv & Hrv & Hw)]; auto.
    destruct (tstep_hd_change _ _ _ _ HT r) as [E|[(E & Ep & Es)|[(E & Ep)|E]]]; try lia.
    + (* incremented under its own lock on r, while v has r secured: r locked twice *)
      exfalso. specialize (I1 r). rewrite HL in I1.
      assert (C1: 0 < cnt r (plocks (at_ t))) by (apply cnt_In; auto).
      destruct Hw as [->|(la & lb & Hl & Hw)].
      * unfold tsecured in Hrv. apply in_app_iff in Hrv. destruct Hrv as [Hrv|Hrv]; auto.
        apply cnt_In in Hrv. unfold tlocks in I1. cs. destruct (lk m r); lia.
      * assert (Hc: cnt r (all_locks (l1 ++ t :: l2)) = cnt r (all_locks (la ++ t :: lb))) by (rewrite Hl; auto).
        rewrite HL in Hc. unfold all_locks in Hc. rewrite flat_map_app in Hc. simpl in Hc. cs.
        assert (0 < cnt r (flat_map tlocks la) + cnt r (flat_map tlocks lb)).
        { apply cnt_In in Hrv. pose proof (tsecured_tlocks v r).
          assert (Hvl: In r (tlocks v)) by (apply cnt_In; lia).
          destruct Hw as [Hw|Hw].
          - assert (In r (flat_map tlocks la)) by (apply in_flat_map; eauto). apply cnt_In in H1. lia.
          - assert (In r (flat_map tlocks lb)) by (apply in_flat_map; eauto). apply cnt_In in H1. lia. }
        assert (Ct: cnt r (plocks (at_ t)) <= cnt r (tlocks t)).
        { unfold tlocks. rewrite cnt_app. lia. }
        unfold all_locks in I1. destruct (lk m r); lia.
    + exfalso. specialize (I1 r). rewrite HL in I1. unfold tlocks in I1. cs. destruct (lk m r); lia.
  - intros u Hu. apply in_app_iff in Hu. simpl in Hu. destruct Hu as [Hu|[Hu|Hu]].
    + apply I4. apply in_app_iff; auto.
    + subst. eapply tstep_pc_ok; eauto.
    + apply I4. apply in_app_iff; simpl; auto.
Qed.

Lemma inv_reachable : forest -> forall s, reachable s -> inv s.
Proof. intros HF s H. induction H. apply inv_initial; auto. eapply inv_step; eauto. Qed.

(** [r] is [x] or an ancestor of [x]. *)
Inductive anc_or_eq : nat -> nat -> Prop :=
| aoe_refl : forall r, anc_or_eq r r
| aoe_up : forall r x p, parent x = Some p -> anc_or_eq r p -> anc_or_eq r x.

Lemma anc_or_eq_In : forest -> forall r x, anc_or_eq r x -> r = x \/ In r (ancestors x).
Proof.
  intros HF r x H. induction H; auto.
  right. rewrite ancestors_unfold by auto. rewrite H. simpl. destruct IHanc_or_eq; auto.
Qed.

Lemma ancestors_anc : forest -> forall x r, In r (ancestors x) -> anc_or_eq r x.
Proof.
  intros HF. induction x using lt_wf_ind. intros r Hr. rewrite ancestors_unfold in Hr by auto.
  destruct (parent x) eqn:E; simpl in Hr; try tauto. econstructor; eauto.
  destruct Hr as [->|Hr]. constructor. apply H; auto.
Qed.

Lemma two_owners : forall l i j (t u : thr) r, i < j -> nth_error l i = Some t -> nth_error l j = Some u ->
  In r (tlocks t) -> In r (tlocks u) -> 2 <= cnt r (all_locks l).
Proof.
  induction l; intros. { destruct i; discriminate. }
  unfold all_locks. simpl. fold (all_locks l). cs.
  destruct j; try lia. simpl in H1.
  destruct i; simpl in H0.
  - injection H0 as ->. apply cnt_In in H2.
    assert (In r (all_locks l)). { apply in_flat_map. exists u. split; auto. eapply nth_error_In; eauto. }
    apply cnt_In in H0. lia.
  - specialize (IHl i j t u r ltac:(lia) H0 H1 H2 H3). lia.
Qed.

Lemma mutual_exclusion : forest -> forall s, reachable s ->
  forall i j t u r x, i <> j -> nth_error (ths s) i = Some t -> nth_error (ths s) j = Some u ->
  In r (owned t) -> In x (owned u) -> ~ anc_or_eq r x.
Proof.
  intros HF s HR i j t u r x Hij Ht Hu Hr Hx HA.
  destruct (inv_reachable HF s HR) as (I1 & I2 & I3 & I4).
  apply anc_or_eq_In in HA; auto. destruct HA as [->|HA].
  - assert (A: In x (tlocks t)) by (apply in_app_iff; auto).
    assert (B: In x (tlocks u)) by (apply in_app_iff; auto).
    assert (2 <= cnt x (all_locks (ths s))).
    { destruct (Nat.lt_ge_cases i j).
      - eapply (two_owners _ i j); eauto.
      - eapply (two_owners _ j i); eauto; lia. }
    specialize (I1 x). destruct (lk (smem s) x); lia.
  - assert (hd (smem s) r = 0%Z).
    { apply (I3 t). { eapply nth_error_In; eauto. } unfold tsecured. apply in_app_iff; auto. }
    specialize (I2 r). assert (In r (all_holds (ths s))).
    { apply in_flat_map. exists u. split. eapply nth_error_In; eauto.
      apply in_app_iff. right. apply in_flat_map. eauto. }
    apply cnt_In in H0. lia.
Qed.

(** A single thread never gets hold of a resource twice, nor of a resource and
    its ancestor. *)
Lemma no_self_conflict : forest -> forall s, reachable s ->
  forall t, In t (ths s) -> NoDup (owned t) /\
    (forall r x, In r (owned t) -> In x (owned t) -> r <> x -> ~ anc_or_eq r x).
Proof.
  intros HF s HR t Ht. destruct (inv_reachable HF s HR) as (I1 & I2 & I3 & I4). split.
  - apply (NoDup_count_occ Nat.eq_dec). intros x. specialize (I1 x). fold (cnt x (owned t)).
    apply in_split in Ht. destruct Ht as (l1 & l2 & E). rewrite E in I1.
    unfold all_locks in I1. rewrite flat_map_app in I1. simpl in I1. unfold tlocks at 2 in I1. cs.
    destruct (lk (smem s) x); lia.
  - intros r x Hr Hx Hne HA. apply anc_or_eq_In in HA; auto. destruct HA as [|HA]; auto.
    assert (hd (smem s) r = 0%Z).
    { apply (I3 t); auto. unfold tsecured. apply in_app_iff; auto. }
    specialize (I2 r). assert (In r (all_holds (ths s))).
    { apply in_flat_map. exists t. split; auto.
      apply in_app_iff. right. apply in_flat_map. eauto. }
    apply cnt_In in H0. lia.
Qed.

(** In a quiescent state the lock words and hold counters say exactly who owns
    what: nothing leaks. *)
Lemma quiescent_exact : forest -> forall s, reachable s ->
  (forall t, In t (ths s) -> at_ t = Idle) ->
  forall r, lk (smem s) r = true <-> (exists t, In t (ths s) /\ In r (owned t)).
Proof.
  intros HF s HR HQ r. destruct (inv_reachable HF s HR) as (I1 & _).
  specialize (I1 r). split; intros.
  - rewrite H in I1. assert (In r (all_locks (ths s))) by (apply cnt_In; lia).
    apply in_flat_map in H0. destruct H0 as (t & A & B). exists t. split; auto.
    unfold tlocks in B. rewrite (HQ _ A) in B. auto.
  - destruct H as (t & A & B). assert (In r (all_locks (ths s))).
    { apply in_flat_map. exists t. split; auto. apply in_app_iff; auto. }
    apply cnt_In in H. destruct (lk (smem s) r); auto; lia.
Qed.

Lemma quiescent_holds : forest -> forall s, reachable s ->
  (forall t, In t (ths s) -> at_ t = Idle) ->
  forall r, hd (smem s) r = Z.of_nat (cnt r (flat_map (fun t => flat_map ancestors (owned t)) (ths s))).
Proof.
  intros HF s HR HQ r. destruct (inv_reachable HF s HR) as (_ & I2 & _).
  rewrite I2. f_equal. f_equal. unfold all_holds. clear -HQ.
  induction (ths s); simpl; auto. f_equal.
  - unfold tholds. rewrite (HQ a) by (simpl; auto). auto.
  - apply IHl. intros; apply HQ; simpl; auto.
Qed.


(* ------------------------------------------------------------------ progress *)

(** Steps inside a lock/unlock call (not the start of a new call). *)
Inductive istar : mem -> thr -> mem -> thr -> Prop :=
| i_refl : forall m t, istar m t m t
| i_step : forall m t m1 t1 m2 t2, at_ t <> Idle -> tstep m t m1 t1 ->
    istar m1 t1 m2 t2 -> istar m t m2 t2.

(** Program points of a lock call for [r], resp. of an unlock call. *)
Definition in_lock (r : nat) (p : pc) : Prop :=
  match p with
  | LHold x | LRead x | LCas x | LRecheck x | LAbort x
  | UpRead x _ _ | UpCas x _ _ | UpInc x _ _ | UpUnlock x _ _ | RbUnlock x _ _ => x = r
  | RbDec _ _ _ => True
  | _ => False
  end.
Definition in_unlock (p : pc) : Prop :=
  match p with UnUnlock _ | UnDec _ _ => True | _ => False end.

Lemma in_lock_step : forall m t m' t' r, tstep m t m' t' -> in_lock r (at_ t) ->
  (in_lock r (at_ t') /\ owned t' = owned t) \/
  (at_ t' = Idle /\ (owned t' = owned t \/ owned t' = r :: owned t)).
Proof.
  intros m t m' t' r H HI; inversion H; subst; cbn [at_ owned in_lock] in *; subst; try contradiction; auto 6.
Qed.

Lemma in_unlock_step : forall m t m' t', tstep m t m' t' -> in_unlock (at_ t) ->
  (in_unlock (at_ t') \/ at_ t' = Idle) /\ owned t' = owned t.
Proof.
  intros m t m' t' H HI; inversion H; subst; cbn [at_ owned in_unlock] in *; subst; try contradiction; auto 6.
Qed.

(** Every call in progress can be run to completion without help of any other
    thread: the calls contain no waiting loop. *)
Lemma undec_finish : forest -> forall rem m o f, rem = chain_from f ->
  exists m', istar m (mkThr (UnDec rem f) o) m' (mkThr Idle o).
Proof.
  intros HF. induction rem as [|x rem IH]; intros m o f Hf; destruct f as [f|]; try discriminate Hf.
  - exists m. eapply i_step; [discriminate|apply t_un_done|apply i_refl].
  - simpl in Hf. injection Hf as Hx Hr. subst x.
    rewrite (ancestors_unfold HF) in Hr.
    destruct (IH (addhd m f (-1)) o (parent f) Hr) as [m' Hm].
    exists m'. eapply i_step; [discriminate|apply t_un_dec|exact Hm].
Qed.

Lemma rbdec_finish : forest -> forall rem m o f2 f, chain_from f2 = rem ++ chain_from (Some f) ->
  exists m', istar m (mkThr (RbDec rem f2 f) o) m' (mkThr Idle o).
Proof.
  intros HF. induction rem as [|x rem IH]; intros m o f2 f Hf; destruct f2 as [f2|]; try discriminate Hf.
  - simpl in Hf. injection Hf as Hx Hr. subst f2.
    exists m. eapply i_step; [discriminate|apply t_rb_done|apply i_refl].
  - simpl in Hf. injection Hf as Hx Hr. subst x.
    assert (Hne: f2 <> f).
    { intros ->. assert (HI: In f (ancestors f)) by (rewrite Hr; apply in_app_iff; right; simpl; auto).
      apply ancestors_lt in HI; auto. lia. }
    rewrite (ancestors_unfold HF) in Hr.
    destruct (IH (addhd m f2 (-1)) o (parent f2) f Hr) as [m' Hm].
    exists m'. eapply i_step; [discriminate|apply t_rb_dec; auto|exact Hm].
Qed.

Lemma istar_trans : forall m1 t1 m2 t2 m3 t3, istar m1 t1 m2 t2 -> istar m2 t2 m3 t3 -> istar m1 t1 m3 t3.
Proof. intros m1 t1 m2 t2 m3 t3 H. induction H; auto. intros. eapply i_step; eauto. Qed.

(** Climbing the chain of parents ends, in success or (possibly) failure. *)
Lemma up_finish : forest -> forall n m o r pre f, length (chain_from f) = n ->
  ancestors r = pre ++ chain_from f ->
  exists m' o', istar m (mkThr (UpRead r pre f) o) m' (mkThr Idle o').
Proof.
  intros HF. induction n as [|n IH]; intros m o r pre f Hn Ha; destruct f as [f|]; try discriminate Hn.
  - exists m, (r :: o). eapply i_step; [discriminate|apply t_up_done|apply i_refl].
  - destruct (lk m f) eqn:E.
    + assert (Hc: chain_from (parent r) = pre ++ chain_from (Some f)) by (rewrite <- (ancestors_unfold HF); auto).
      destruct (rbdec_finish HF pre (setlk m r false) o (parent r) f Hc) as [m' Hm].
      exists m', o. eapply i_step; [discriminate|apply t_up_read_fail; auto|].
      eapply i_step; [discriminate|apply t_rb_unlock|exact Hm].
    + assert (Hc: ancestors r = (pre ++ [f]) ++ chain_from (parent f)).
      { rewrite Ha. cbn [chain_from]. rewrite <- app_assoc. cbn [app]. rewrite (ancestors_unfold HF f). auto. }
      destruct (IH (setlk (addhd (setlk m f true) f 1) f false) o r (pre ++ [f]) (parent f)) as (m' & o' & Hm); auto.
      { cbn [chain_from length] in Hn. rewrite (ancestors_unfold HF) in Hn. lia. }
      exists m', o'. eapply i_step; [discriminate|apply t_up_read_ok; auto|].
      eapply i_step; [discriminate|apply t_up_cas_ok; auto|].
      eapply i_step; [discriminate|apply t_up_inc|].
      eapply i_step; [discriminate|apply t_up_unlock|exact Hm].
Qed.

Lemma call_finishes : forest -> forall m t, pc_ok (at_ t) ->
  exists m' o', istar m t m' (mkThr Idle o').
Proof.
  intros HF m [p o] Hok. cbn [at_] in Hok.
  assert (UP: forall m r pre f, ancestors r = pre ++ chain_from f ->
     exists m' o', istar m (mkThr (UpRead r pre f) o) m' (mkThr Idle o')).
  { intros. eapply up_finish; eauto. }
  assert (RECH: forall m r, exists m' o', istar m (mkThr (LRecheck r) o) m' (mkThr Idle o')).
  { intros m0 r. destruct (Z.eq_dec (hd m0 r) 0) as [E|E].
    - destruct (UP m0 r [] (parent r)) as (m' & o' & Hm). { simpl. apply ancestors_unfold; auto. }
      exists m', o'. eapply i_step; [discriminate|apply t_recheck_ok; auto|exact Hm].
    - exists (setlk m0 r false), o. eapply i_step; [discriminate|apply t_recheck_fail; auto|].
      eapply i_step; [discriminate|apply t_abort|apply i_refl]. }
  assert (CAS: forall m r, exists m' o', istar m (mkThr (LCas r) o) m' (mkThr Idle o')).
  { intros m0 r. destruct (lk m0 r) eqn:E.
    - exists m0, o. eapply i_step; [discriminate|apply t_cas_fail; auto|apply i_refl].
    - destruct (RECH (setlk m0 r true) r) as (m' & o' & Hm). exists m', o'.
      eapply i_step; [discriminate|apply t_cas_ok; auto|exact Hm]. }
  assert (RD: forall m r, exists m' o', istar m (mkThr (LRead r) o) m' (mkThr Idle o')).
  { intros m0 r. destruct (lk m0 r) eqn:E.
    - exists m0, o. eapply i_step; [discriminate|apply t_read_fail; auto|apply i_refl].
    - destruct (CAS m0 r) as (m' & o' & Hm). exists m', o'.
      eapply i_step; [discriminate|apply t_read_ok; auto|exact Hm]. }
  assert (RB: forall m r pre f, ancestors r = pre ++ chain_from (Some f) ->
     exists m' o', istar m (mkThr (RbUnlock r pre f) o) m' (mkThr Idle o')).
  { intros m0 r pre f Ha. rewrite (ancestors_unfold HF) in Ha.
    destruct (rbdec_finish HF pre (setlk m0 r false) o (parent r) f Ha) as [m' Hm].
    exists m', o. eapply i_step; [discriminate|apply t_rb_unlock|exact Hm]. }
  assert (UU: forall m r pre f, ancestors r = pre ++ chain_from (Some f) ->
     exists m' o', istar m (mkThr (UpUnlock r pre f) o) m' (mkThr Idle o')).
  { intros m0 r pre f Ha.
    destruct (UP (setlk m0 f false) r (pre ++ [f]) (parent f)) as (m' & o' & Hm).
    { rewrite Ha. cbn [chain_from]. rewrite <- app_assoc. cbn [app]. rewrite (ancestors_unfold HF f). auto. }
    exists m', o'. eapply i_step; [discriminate|apply t_up_unlock|exact Hm]. }
  assert (UI: forall m r pre f, ancestors r = pre ++ chain_from (Some f) ->
     exists m' o', istar m (mkThr (UpInc r pre f) o) m' (mkThr Idle o')).
  { intros m0 r pre f Ha. destruct (UU (addhd m0 f 1) r pre f Ha) as (m' & o' & Hm).
    exists m', o'. eapply i_step; [discriminate|apply t_up_inc|exact Hm]. }
  destruct p; cbn [pc_ok] in Hok.
  - exists m, o. apply i_refl.
  - destruct (Z.eq_dec (hd m r) 0) as [E|E].
    + destruct (RD m r) as (m' & o' & Hm). exists m', o'.
      eapply i_step; [discriminate|apply t_hold_ok; auto|exact Hm].
    + exists m, o. eapply i_step; [discriminate|apply t_hold_fail; auto|apply i_refl].
  - apply RD.
  - apply CAS.
  - apply RECH.
  - exists (setlk m r false), o. eapply i_step; [discriminate|apply t_abort|apply i_refl].
  - apply UP; auto.
  - destruct (lk m f) eqn:E.
    + destruct (RB m r pre f Hok) as (m' & o' & Hm). exists m', o'.
      eapply i_step; [discriminate|apply t_up_cas_fail; auto|exact Hm].
    + destruct (UI (setlk m f true) r pre f Hok) as (m' & o' & Hm). exists m', o'.
      eapply i_step; [discriminate|apply t_up_cas_ok; auto|exact Hm].
  - apply UI; auto.
  - apply UU; auto.
  - apply RB; auto.
  - destruct (rbdec_finish HF rem m o f2 f Hok) as [m' Hm]. eauto.
  - destruct (undec_finish HF (ancestors r) (setlk m r false) o (parent r)) as [m' Hm].
    { apply ancestors_unfold; auto. }
    exists m', o. eapply i_step; [discriminate|apply t_un_unlock|exact Hm].
  - destruct (undec_finish HF rem m o f Hok) as [m' Hm]. eauto.
Qed.

(** A lock call succeeds when it runs alone and nothing conflicting is locked. *)
Lemma up_success : forest -> forall n m o r pre f, length (chain_from f) = n ->
  (forall x, In x (chain_from f) -> lk m x = false) ->
  exists m', istar m (mkThr (UpRead r pre f) o) m' (mkThr Idle (r :: o)).
Proof.
  intros HF. induction n as [|n IH]; intros m o r pre f Hn Hl; destruct f as [f|]; try discriminate Hn.
  - exists m. eapply i_step; [discriminate|apply t_up_done|apply i_refl].
  - assert (E: lk m f = false) by (apply Hl; simpl; auto).
    destruct (IH (setlk (addhd (setlk m f true) f 1) f false) o r (pre ++ [f]) (parent f)) as (m' & Hm); auto.
    { cbn [chain_from length] in Hn. rewrite (ancestors_unfold HF) in Hn. lia. }
    { intros x Hx. cbn [lk setlk addhd]. destruct (Nat.eqb x f); auto.
      apply Hl. cbn [chain_from]. right. rewrite (ancestors_unfold HF). auto. }
    exists m'. eapply i_step; [discriminate|apply t_up_read_ok; auto|].
    eapply i_step; [discriminate|apply t_up_cas_ok; auto|].
    eapply i_step; [discriminate|apply t_up_inc|].
    eapply i_step; [discriminate|apply t_up_unlock|exact Hm].
Qed.

Lemma lock_succeeds : forest -> forall m o r, hd m r = 0%Z -> lk m r = false ->
  (forall x, In x (ancestors r) -> lk m x = false) ->
  exists m', istar m (mkThr (LHold r) o) m' (mkThr Idle (r :: o)).
Proof.
  intros HF m o r Hh Hl Ha.
  destruct (up_success HF _ (setlk m r true) o r [] (parent r) eq_refl) as [m' Hm].
  { intros x Hx. cbn [lk setlk]. rewrite <- (ancestors_unfold HF) in Hx.
    pose proof (ancestors_lt HF _ _ Hx) as Hlt. destruct (Nat.eqb_spec x r); [lia|auto]. }
  exists m'. eapply i_step; [discriminate|apply t_hold_ok; auto|].
  eapply i_step; [discriminate|apply t_read_ok; auto|].
  eapply i_step; [discriminate|apply t_cas_ok; auto|].
  eapply i_step; [discriminate|apply t_recheck_ok; auto|exact Hm].
Qed.

End Proto.
