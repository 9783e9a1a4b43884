(** Concrete runs used as non-vacuity examples. *)
From Coq Require Import List Arith Lia Bool ZArith Permutation.
From Verif Require Import Base CSort Prepare LockProto Sched LockSeq Api.
Import ListNotations.

(** Resource 0 with children 1 and 2, grandchild 3 of 1; five tasks: 0 writes 1,
    1 writes 2, both before 2 (writes 0), then 3 (writes 3 and 2), 4 reads 0. *)
Definition ex_calls : list call := rev
  [Reserve 3 2 1 0 0; RegRes None; RegRes (Some 0); RegRes (Some 0); RegRes (Some 1);
   RegTask 70; RegTask 71; RegTask 72; RegTask 73; RegTask 74;
   LinkRes 0 1 true; LinkRes 1 2 true; LinkRes 2 0 true; LinkRes 3 3 true; LinkRes 3 2 true; LinkRes 4 0 false;
   LinkTasks 0 2; LinkTasks 1 2; LinkTasks 2 3; LinkTasks 0 4].

Lemma ex_valid : valid ex_calls.
Proof. cbn. lia. Qed.

Lemma ex_ntasks : ntasks ex_calls = 5.
Proof. reflexivity. Qed.

Lemma ex_not_circular : ~ circular ex_calls.
Proof.
  intros (a & H).
  assert (G: forall x y, Relation_Operators.clos_trans nat (fun a b => In (a, b) (dependencies ex_calls)) x y -> x < y).
  { intros x y C. induction C as [x y C|x y z C1 IH1 C2 IH2]; [|lia]. cbn in C.
    repeat (destruct C as [C|C]; [injection C as <- <-; lia|]). contradiction. }
  apply G in H. lia.
Qed.

Lemma ex_lockable : forall t, t < ntasks ex_calls -> lockable (parent_of ex_calls) (targets (writelinks ex_calls) t).
Proof.
  assert (P0: parent_of ex_calls 0 = None) by reflexivity.
  assert (P1: parent_of ex_calls 1 = Some 0) by reflexivity.
  assert (P2: parent_of ex_calls 2 = Some 0) by reflexivity.
  assert (P3: parent_of ex_calls 3 = Some 1) by reflexivity.
  assert (NA: ~ anc_or_eq (parent_of ex_calls) 2 3 /\ ~ anc_or_eq (parent_of ex_calls) 3 2).
  { split; intros H; apply anc_or_eq_In in H; try (apply valid_forest, ex_valid); cbn in H; lia. }
  intros t Ht. rewrite ex_ntasks in Ht.
  assert (ONE: forall r, lockable (parent_of ex_calls) [r]).
  { intros r. split; [repeat constructor; auto|]. intros a b [<-|[]] [<-|[]] H; congruence. }
  destruct t as [|[|[|[|[|t]]]]]; [apply ONE|apply ONE|apply ONE| | |lia].
  - change (targets (writelinks ex_calls) 3) with [3; 2]. split.
    + repeat constructor; cbn; lia.
    + intros a b [<-|[<-|[]]] [<-|[<-|[]]] H; try congruence; tauto.
  - change (targets (writelinks ex_calls) 4) with (@nil nat). split; [constructor|]. intros a b [].
Qed.

(** A complete run with three threads and two queues. *)
Lemma ex_run : exists e, running 2 ex_calls 3 e /\ all_exited e.
Proof. apply run_exists; [apply ex_valid|lia|apply ex_not_circular|apply ex_lockable]. Qed.

(** Both children of resource 0 are locked at the same time. *)
Lemma inner_steps : forall par nq lks uns g l1 l2 th p m' th',
  at_ th <> Idle -> at_ th' <> Idle -> tstep par (gm g) th m' th' ->
  step par nq lks uns (mkS g (l1 ++ (th, p) :: l2)) (mkS (setm g m') (l1 ++ (th', p) :: l2)).
Proof. intros. constructor. apply l_inner; auto. Qed.

Section TwoAtOnce.
Variables (par : nat -> option nat) (nq : nat) (lks uns : nat -> list nat).

(** One thread takes task [t], which locks [r] with parent [f]. *)
Lemma take_task : forall g l1 l2 k t r f q1 q2, 0 < gwaiting g -> k < nq -> gq g k = q1 ++ t :: q2 ->
  qfree k (l1 ++ l2) -> lks t = [r] -> par r = Some f -> par f = None -> r <> f ->
  hd (gm g) r = 0%Z -> lk (gm g) r = false -> lk (gm g) f = false ->
  exists m', steps par nq lks uns (mkS g (l1 ++ (mkThr Idle [], SIdle) :: l2))
    (mkS (addlog (setq (setm g m') k (q1 ++ q2)) (Start t)) (l1 ++ (mkThr Idle [r], SRun t) :: l2)) /\
    (forall x, lk m' x = if x =? r then true else if x =? f then false else lk (gm g) x) /\
    (forall x, hd m' x = if x =? f then (hd (gm g) x + 1)%Z else hd (gm g) x).
Proof.
  intros g l1 l2 k t r f q1 q2 W K Q QF L P1 P2 NE H1 H2 H3.
  eexists. split; [|split].
  - eapply ss_step; [constructor; apply (l_pick par nq lks uns (l1 ++ l2) g (mkThr Idle []) k t W K)|].
    { rewrite Q. apply in_app_iff. right. left. auto. } { auto. }
    rewrite L.
    eapply ss_step; [constructor; apply l_call; auto|]. cbn [owned].
    eapply ss_step; [apply inner_steps; [discriminate| |apply t_hold_ok; auto]; discriminate|].
    eapply ss_step; [apply inner_steps; [discriminate| |apply t_read_ok; cbn; auto]; discriminate|].
    eapply ss_step; [apply inner_steps; [discriminate| |apply t_cas_ok; cbn; auto]; discriminate|].
    eapply ss_step; [apply inner_steps; [discriminate| |apply t_recheck_ok; cbn; auto]; discriminate|].
    rewrite P1.
    eapply ss_step; [apply inner_steps; [discriminate| |apply t_up_read_ok; cbn]; [discriminate|]|].
    { destruct (Nat.eqb_spec f r); [congruence|auto]. }
    eapply ss_step; [apply inner_steps; [discriminate| |apply t_up_cas_ok; cbn]; [discriminate|]|].
    { destruct (Nat.eqb_spec f r); [congruence|auto]. }
    eapply ss_step; [apply inner_steps; [discriminate| |apply t_up_inc]; discriminate|].
    eapply ss_step; [apply inner_steps; [discriminate| |apply t_up_unlock]; discriminate|].
    rewrite P2.
    eapply ss_step; [constructor; eapply l_lock_ok; [discriminate|apply t_up_done]|]. cbn [owned].
    eapply ss_step; [constructor; eapply l_got; [reflexivity|cbn [gq setm]; exact Q]|].
    apply ss_refl.
  - intros x. cbn. destruct (Nat.eqb_spec x f) as [E|E]; destruct (Nat.eqb_spec x r) as [E'|E']; auto. congruence.
  - intros x. cbn. auto.
Qed.
End TwoAtOnce.

Definition ex2_calls : list call := rev
  [RegRes None; RegRes (Some 0); RegRes (Some 0); RegTask 10; RegTask 11; LinkRes 0 1 true; LinkRes 1 2 true].

Lemma ex2_valid : valid ex2_calls.
Proof. cbn. lia. Qed.
Lemma ex2_not_circular : ~ circular ex2_calls.
Proof. intros (a & H). apply Operators_Properties.clos_trans_t1n in H. destruct H as [y H|y z H _]; cbn in H; contradiction. Qed.

Lemma ex2_parallel : exists e, running 1 ex2_calls 2 e /\ executing e 0 0 /\ executing e 1 1.
Proof.
  destruct (life_exists 1 ex2_calls ex2_valid) as (s & HS).
  destruct (prepare_sched_ok ex2_calls s ex2_valid (life_rep _ _ _ HS ex2_valid)) as [(E & HC)|(r & E & _ & PF)].
  { exfalso. exact (ex2_not_circular HC). }
  destruct (start_exists 1 r 2 ltac:(lia)) as (e0 & H0).
  pose proof (run_initial 1 ex2_calls s r PF 2 e0 H0) as (I1 & I2 & _ & I4 & I5 & _ & _ & _).
  assert (L0: nth 0 (a_locks r) [] = [1]) by (rewrite (pf_locks _ _ _ PF); reflexivity).
  assert (L1: nth 1 (a_locks r) [] = [2]) by (rewrite (pf_locks _ _ _ PF); reflexivity).
  assert (PP: forall x, par_of (a_s r) x = parent_of ex2_calls x) by (apply par_of_ok, (pf_rep _ _ _ PF)).
  assert (PQ: Permutation (gq (gl e0) 0) [0; 1]).
  { unfold queued in I4. cbn [seq flat_map] in I4. rewrite app_nil_r in I4. rewrite I4.
    assert (EQ: forall t, preds_count (ntasks ex2_calls) (fun t => nth t (a_unlocks r) []) t = 0).
    { intros t. unfold preds_count. change (ntasks ex2_calls) with 2. cbn [seq flat_map].
      rewrite !(pf_unlocks _ _ _ PF). reflexivity. }
    change (ntasks ex2_calls) with 2 in *. cbn [seq filter]. rewrite !EQ. cbn. auto. }
  pose proof H0 as (_ & _ & _ & _ & W & _ & _ & T). destruct e0 as [g0 th0]. cbn [gl tl_] in *.
  assert (T': th0 = [(mkThr Idle [], SIdle); (mkThr Idle [], SIdle)]) by exact T. clear T. subst th0.
  rewrite (pf_count _ _ _ PF) in W. change (ntasks ex2_calls) with 2 in W.
  assert (Q0: exists q1 q2, gq g0 0 = q1 ++ 0 :: q2 /\ q1 ++ q2 = [1]).
  { assert (Hin: In 0 (gq g0 0)) by (rewrite PQ; cbn; auto). apply in_split in Hin. destruct Hin as (q1 & q2 & EQ).
    exists q1, q2. split; auto. rewrite EQ in PQ. symmetry in PQ. apply Permutation_cons_app_inv in PQ.
    apply Permutation_length_1_inv in PQ. auto. }
  destruct Q0 as (q1 & q2 & Q1 & Q2).
  destruct (take_task (par_of (a_s r)) 1 (fun t => nth t (a_locks r) []) (fun t => nth t (a_unlocks r) []) g0 []
     [(mkThr Idle [], SIdle)] 0 0 1 0 q1 q2) as (m1 & S1 & M1 & M2); rewrite ?PP; auto; try lia.
  { intros x [<-|[]]. discriminate. }
  set (g1 := addlog (setq (setm g0 m1) 0 (q1 ++ q2)) (Start 0)) in *.
  destruct (take_task (par_of (a_s r)) 1 (fun t => nth t (a_locks r) []) (fun t => nth t (a_unlocks r) []) g1
     [(mkThr Idle [1], SRun 0)] [] 0 1 2 0 [] []) as (m2 & S2 & _); rewrite ?PP; auto; try lia.
  { unfold g1. cbn. lia. }
  { intros x [<-|[]]. discriminate. }
  { unfold g1. cbn [gm addlog setq setm]. rewrite M2. cbn. apply I2. }
  { unfold g1. cbn [gm addlog setq setm]. rewrite M1. cbn. apply I1. }
  { unfold g1. cbn [gm addlog setq setm]. rewrite M1. cbn. auto. }
  eexists. split; [exists s, r; eexists; split; [exact HS|split; [exact E|split; [exact H0|]]]|].
  { eapply steps_trans; [exact S1|exact S2]. }
  split; eexists; reflexivity.
Qed.

(** The same moment seen by the lock protocol alone. *)
Lemma ex2_lock_state : exists s i j t u, reachable (parent_of ex2_calls) s /\ i <> j /\
  nth_error (ths s) i = Some t /\ nth_error (ths s) j = Some u /\ In 1 (owned t) /\ In 2 (owned u).
Proof.
  destruct ex2_parallel as (e & HR & (th0 & E0) & (th1 & E1)).
  destruct (running_inv _ _ _ _ ex2_valid HR) as (s & r & _ & _ & PF & _ & SR & _).
  destruct (sinv_reach _ _ _ _ _ (run_edges _ s r ex2_valid PF) e SR) as (I1 & I2 & _).
  assert (PP: forall x, par_of (a_s r) x = parent_of ex2_calls x) by (apply par_of_ok, (pf_rep _ _ _ PF)).
  assert (RE: forall p q s, (forall x, p x = q x) -> reachable p s -> reachable q s).
  { clear. intros p q s E H. assert (AE: forall f r, ancs p f r = ancs q f r).
    { induction f as [|f IH]; intros r; cbn; auto. rewrite E. destruct (q r); auto. rewrite IH. auto. }
    induction H as [s H|s s' H IH HS]; [apply reach_init; auto|]. eapply reach_step; [exact IH|].
    inversion HS as [m m' l1 t l2 t' T]; subst. constructor.
    inversion T; subst; unfold ancestors; rewrite ?AE, ?E;
      first [apply t_recheck_ok; auto; fail | apply t_up_unlock | apply t_rb_unlock | apply t_rb_dec; auto; fail
            | apply t_un_unlock | apply t_un_dec | constructor; auto; fail]. }
  exists (mkSys (gm (gl e)) (map fst (tl_ e))), 0, 1, th0, th1.
  pose proof (I2 _ (nth_error_In _ _ E0)) as (_ & T0). pose proof (I2 _ (nth_error_In _ _ E1)) as (_ & T1).
  cbn beta in T0, T1. rewrite (pf_locks _ _ _ PF) in T0, T1.
  split; [eapply RE; [exact PP|exact I1]|]. split; [lia|]. cbn [ths].
  split; [rewrite nth_error_map, E0; auto|]. split; [rewrite nth_error_map, E1; auto|].
  split.
  - eapply Permutation_in; [apply Permutation_sym; exact T0|]. cbn. auto.
  - eapply Permutation_in; [apply Permutation_sym; exact T1|]. cbn. auto.
Qed.
