(** Termination under a fair operating system (C55, C56).

    Vocabulary: [fair_run nq h nt r sch]: an execution, one state [r k] per tick,
    of the tasks registered by the calls [h], with [nq] queues and [nt] threads,
    in which every thread that is owed a step takes one ([owed] in Fair.v: user
    functions return; code that does not wait for a queue goes on; an idle
    thread finds a task that stays available in a free queue; a thread that
    waits for a queue to put a task in gets one if all are released again and
    again).  [all_exited]: execute_tasks returns.  [ordered_writes h rank]: the
    write links of every task are registered in increasing order. *)
From Coq Require Import List Arith Lia Bool ZArith.
From Verif Require Import Base LockProto Sched Api SchedEx Fair Live LiveEx TaskGraph GraphApi GraphHist GraphRun GraphEx.
Import ListNotations.

(** C55 *)
Theorem C55_fair_runs_end_partial : forall nq h nt r sch rank, valid h -> 0 < nt -> ordered_writes h rank ->
  fair_run nq h nt r sch ->
  exists M, forall k, M <= k -> all_exited (r k) /\
    forall t, t < ntasks h -> nstart t (log (gl (r k))) = 1 /\ nend t (log (gl (r k))) = 1.
Proof.
  intros nq h nt r sch rank HV Hn HO HR. destruct (api_fair_ends _ _ _ _ _ _ HV HO HR) as (M & HM).
  exists M. intros k Hk. split; auto. intros t Ht.
  destruct (api_exactly_once nq h nt (r k) HV Hn (fair_run_running _ _ _ _ _ HR k) (HM k Hk) t) as (A & B).
  destruct (Nat.ltb_spec t (ntasks h)); [auto|lia].
Qed.
Print Assumptions C55_fair_runs_end_partial.

(** In particular when no task has more than one write link. *)
Theorem C55_single_write_links : forall nq h nt r sch, valid h -> 0 < nt ->
  (forall t, length (targets (writelinks h) t) <= 1) -> fair_run nq h nt r sch ->
  exists M, forall k, M <= k -> all_exited (r k) /\
    forall t, t < ntasks h -> nstart t (log (gl (r k))) = 1 /\ nend t (log (gl (r k))) = 1.
Proof.
  intros nq h nt r sch HV Hn H1 HR.
  apply (C55_fair_runs_end_partial nq h nt r sch (fun x => length (parents h) - x)); auto. split.
  - intros x p Hp. pose proof (valid_forest h HV x p Hp).
    assert (x < length (parents h)).
    { unfold parent_of in Hp. destruct (lt_dec x (length (parents h))); auto. rewrite nth_overflow in Hp by lia. discriminate. }
    lia.
  - intros t i j a b Hij Ha Hb. assert (j < length (targets (writelinks h) t)) by (apply nth_error_Some; congruence).
    specialize (H1 t). lia.
Qed.
Print Assumptions C55_single_write_links.

(** Fair runs exist, and what fairness grants to a thread can be granted. *)
Theorem C55_fair_runs_exist : forall nq h nt, valid h -> 0 < nq -> ~ circular h ->
  (forall t, t < ntasks h -> lockable (parent_of h) (targets (writelinks h) t)) ->
  exists r sch, fair_run nq h nt r sch.
Proof. exact fair_run_exists. Qed.
Print Assumptions C55_fair_runs_exist.

(** Without an order of the write links, execute_tasks need not return: both
    threads take steps for ever, and no task is ever started. *)
Theorem C55_unordered_links_refuted : exists h r sch,
  valid h /\ ~ circular h /\ (forall t, t < ntasks h -> lockable (parent_of h) (targets (writelinks h) t)) /\
  ntasks h = 2 /\ fair_run 2 h 2 r sch /\
  (forall i N, i < 2 -> exists k, N <= k /\ sch k = Some i) /\
  forall k, log (gl (r k)) = [] /\ ~ all_exited (r k).
Proof.
  destruct opposite_livelock as (r & sch & A & _ & B & C). exists opposite, r, sch.
  split; [exact opp_valid|]. split; [exact opp_not_circular|]. split; [exact opp_lockable|]. auto.
Qed.
Print Assumptions C55_unordered_links_refuted.

(** Resource 1 is the child of 0; task 0 writes 1 then 2, task 1 writes 0. *)
Definition live_calls : list call := rev
  [RegRes None; RegRes (Some 0); RegRes None; RegTask 0; RegTask 1;
   LinkRes 0 1 true; LinkRes 0 2 true; LinkRes 1 0 true].
Example C55_nonvacuous : valid live_calls /\ ordered_writes live_calls (fun x => nth x [1; 0; 2] 0) /\
  exists r sch, fair_run 2 live_calls 2 r sch.
Proof.
  assert (V: valid live_calls) by (cbn; lia). split; [exact V|].
  assert (P0: parent_of live_calls 0 = None) by reflexivity.
  assert (P1: parent_of live_calls 1 = Some 0) by reflexivity.
  assert (P2: parent_of live_calls 2 = None) by reflexivity.
  assert (A1: forall y, anc_or_eq (parent_of live_calls) y 1 -> y = 1 \/ y = 0).
  { intros y H. apply anc_or_eq_In in H; [|apply valid_forest, V]. cbn in H. intuition. }
  assert (A2: forall y, anc_or_eq (parent_of live_calls) y 2 -> y = 2).
  { intros y H. apply anc_or_eq_In in H; [|apply valid_forest, V]. cbn in H. intuition. }
  split.
  - split.
    + intros x p H. destruct x as [|[|[|[|x]]]]; try discriminate H. injection H as <-. cbn. lia.
    + intros t i j a b Hij Ha Hb a' Ha'. destruct t as [|[|t]]; cbn in Ha, Hb.
      * destruct i as [|[|[|i]]], j as [|[|[|j]]]; try lia; try discriminate. injection Ha as <-. injection Hb as <-.
        destruct (A1 a' Ha') as [ -> | -> ]; cbn; lia.
      * destruct i, j as [|[|j]]; try lia; discriminate.
      * destruct i; discriminate.
  - apply fair_run_exists; auto.
    + intros (a & H). induction H as [x y H|]; auto.
    + intros t Ht. change (ntasks live_calls) with 2 in Ht.
      assert (t = 0 \/ t = 1) as [ -> | -> ] by lia; (split; [cbn; repeat constructor; cbn; lia|]).
      * intros x y [<-|[<-|[]]] [<-|[<-|[]]] Hne HA; try congruence; [apply A2 in HA|apply A1 in HA]; cbn in HA; lia.
      * intros x y [<-|[]] [<-|[]] Hne; congruence.
Qed.

(** C56: the graphs that CosTuuM itself builds. *)
Section Graph.
Variable c : cfg.
Variable pre : list call.
Hypothesis HN : 0 < n_slot c.
Hypothesis HG : 0 < n_quad c.
Hypothesis HPre : reservations pre.
Notation h := (generated c pre).
Notation all := (generate c).

Definition res_rank (x : nat) : nat :=
  match nth_error (ress_of all) x with Some (RTmM _ _) => 0 | Some (RConv _) => 2 | _ => 1 end.

Lemma res_rank_rid : forall r, In r (ress_of all) -> res_rank (rid all r) = match r with RTmM _ _ => 0 | RConv _ => 2 | _ => 1 end.
Proof. intros r Hr. unfold res_rank, rid. rewrite index_nth; auto. Qed.

Lemma generated_ordered : ordered_writes h res_rank.
Proof.
  assert (PAR: forall x p, parent_of h x = Some p -> exists j m, nth_error (ress_of all) x = Some (RTmM j m) /\ p = rid all (RTm j) /\ In (RTm j) (ress_of all)).
  { intros x p Hp. destruct (nth_error (ress_of all) x) as [rr|] eqn:E.
    - pose proof (nth_error_In _ _ E) as Hin.
      assert (Ex: rid all rr = x). { unfold rid. apply nth_index; [apply NoDup_ress; auto|auto]. }
      rewrite <- Ex in Hp. rewrite (generated_parent c HN pre HPre rr Hin) in Hp. destruct rr; cbn in Hp; try discriminate.
      exists j, m. injection Hp as <-. repeat split; auto.
      apply in_flat_map in Hin. destruct Hin as (e & He & Hin). destruct e as [x0 q0| | | | | | |]; cbn in Hin; try contradiction.
      destruct Hin as [->|[]]. pose proof (ress_parent c HN _ _ He) as Eq. cbn in Eq. subst q0.
      apply in_split in He. destruct He as (e1 & e2 & Ee). pose proof (wf_generate c HN HG) as HW.
      eapply wfs_split in HW; [|exact Ee]. cbn in HW. destruct HW as (q1 & HQ). apply in_ress. exists q1. rewrite Ee. apply in_app_iff. auto.
    - exfalso. apply nth_error_None in E. unfold parent_of in Hp.
      destruct (hist_spec all pre HPre all) as (_ & _ & EP & _). unfold generated in Hp. rewrite EP in Hp.
      rewrite nth_overflow in Hp; [discriminate|]. rewrite parents_length. exact E. }
  split.
  - intros x p Hp. destruct (PAR x p Hp) as (j & m & E & -> & Hin). rewrite res_rank_rid by auto.
    unfold res_rank. rewrite E. lia.
  - intros t i j a b Hij Ha Hb a' Ha'.
    assert (Ht: t < ntasks h).
    { destruct (lt_dec t (ntasks h)); auto. exfalso.
      destruct (link_keys h (generated_valid c HN HG pre HPre)) as (_ & K2 & _).
      rewrite (targets_out _ (ntasks h)) in Ha; [destruct i; discriminate| |lia]. intros e He. apply (K2 e He). }
    destruct (tid_onto c HN HG pre HPre t Ht) as (u & Hu & <-). rewrite (generated_locks c HN pre HPre u Hu) in Ha, Hb.
    assert (Hj: j < length (map (rid all) (wres c u))) by (apply nth_error_Some; congruence).
    destruct u; cbn [wres map length] in Hj; try lia. assert (i = 0 /\ j = 1) as (-> & ->) by lia.
    cbn [wres map nth_error] in Ha, Hb. injection Ha as <-. injection Hb as <-.
    assert (K1: In (RTmM (2 * (b0 mod n_slot c)) 0) (ress_of all)) by (apply (wres_known c HN HG (TM0 b0 ig)); [exact Hu|cbn [wres In]; auto]).
    assert (K2: In (RConv b0) (ress_of all)) by (apply (wres_known c HN HG (TM0 b0 ig)); [exact Hu|cbn [wres In]; auto]).
    assert (INV: forall y x, anc_or_eq (parent_of h) y x -> y = x \/ exists p, parent_of h x = Some p /\ anc_or_eq (parent_of h) y p)
      by (intros y x Hy; inversion Hy; subst; eauto).
    rewrite (res_rank_rid _ K2). destruct (INV _ _ Ha') as [ -> | (p & H1 & H2) ].
    + change (b0 mod n_slot c + (b0 mod n_slot c + 0)) with (2 * (b0 mod n_slot c)). rewrite (res_rank_rid _ K1). lia.
    + destruct (PAR _ _ H1) as (jj & mm & _ & -> & K3).
      destruct (INV _ _ H2) as [ -> | (p' & H3 & H4) ].
      * rewrite (res_rank_rid _ K3). lia.
      * destruct (PAR _ _ H3) as (j2 & m2 & E2 & _). unfold rid in E2. rewrite index_nth in E2 by auto. discriminate.
Qed.
End Graph.

Theorem C56_task_graph_terminates : forall c pre, 0 < n_slot c -> 0 < n_quad c -> reservations pre ->
  forall nq nt r sch, 0 < nt -> fair_run nq (generated c pre) nt r sch ->
  exists M, forall k, M <= k -> all_exited (r k) /\
    forall t, t < ntasks (generated c pre) -> nstart t (log (gl (r k))) = 1 /\ nend t (log (gl (r k))) = 1.
Proof.
  intros c pre HN HG HPre nq nt r sch Hn HR.
  apply (C55_fair_runs_end_partial nq _ nt r sch (res_rank c)); auto.
  - apply generated_valid; auto.
  - apply generated_ordered; auto.
Qed.
Print Assumptions C56_task_graph_terminates.

Example C56_nonvacuous : 0 < n_slot (ex_cfg 1) /\ 0 < n_quad (ex_cfg 1) /\ ntasks (generated (ex_cfg 1) []) = 69 /\
  exists r sch, fair_run 2 (generated (ex_cfg 1) []) 3 r sch.
Proof.
  destruct (ex_cfg_ok 1 ltac:(lia)) as (A & B & C).
  assert (P: reservations []) by (intros x []).
  split; [exact A|]. split; [exact B|]. split; [exact ex_count|].
  apply fair_run_exists; auto. apply generated_valid; auto. apply generated_acyclic; auto. apply generated_lockable; auto.
Qed.
