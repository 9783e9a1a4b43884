(** Properties of the task graph built by generate_tasks (C13-C16, C20).

    Vocabulary: [cfg] holds the numbers of compositions, sizes, wavelengths,
    shapes and T-matrix slots, the order limits and the requested results
    (TaskGraph.v); [generated c pre] is the sequence of scheduler calls made by
    generate_tasks after the reservations [pre]; [task_in c t]: task [t] exists;
    [tid] its scheduler id; [writes]/[reads] the members its execute() touches
    (Footprint.v); [executed ... s0 lg s]: running the tasks' code, interleaved
    step by step with the starts and ends logged in [lg], leads from memory [s0]
    to [s] (Determinism.v, Races.v). *)
From Coq Require Import List Arith Lia Bool ZArith Permutation Relation_Operators.
From Verif Require Import Base LockProto Sched Api Races TaskGraph TaskGraphFacts TaskDeps Footprint GraphApi GraphHist GraphRun Determinism SlotFree SlotFinal GraphEx.
Import ListNotations.

(** C13 *)
Theorem C13_no_cycles : forall c pre, 0 < n_slot c -> 0 < n_quad c -> reservations pre ->
  valid (generated c pre) /\ ~ circular (generated c pre).
Proof. intros c pre HN HG HP. split; [apply generated_valid|apply generated_acyclic]; auto. Qed.
Print Assumptions C13_no_cycles.

Theorem C13_execution_starts_and_can_finish : forall c pre, 0 < n_slot c -> 0 < n_quad c -> reservations pre ->
  (forall nq s, life nq (generated c pre) s -> exists r, prepare_sched s = Some (Ready r)) /\
  (forall nq nt e, 0 < nq -> running nq (generated c pre) nt e ->
     exists e', runs_to nq (generated c pre) e e' /\ running nq (generated c pre) nt e' /\ all_exited e').
Proof.
  intros c pre HN HG HP. split.
  - intros nq s H. destruct (api_prepare nq _ s (generated_valid c HN HG pre HP) H) as (_ & K).
    destruct (K (generated_acyclic c HN pre HP)) as (r & E & _). eauto.
  - intros nq nt e Hq HR. apply api_progress; auto. { apply generated_valid; auto. } apply generated_lockable; auto.
Qed.
Print Assumptions C13_execution_starts_and_can_finish.

Example C13_nonvacuous : (0 < n_slot (ex_cfg 1) /\ 0 < n_quad (ex_cfg 1) /\ 0 < o_max (ex_cfg 1)) /\
  ntasks (generated (ex_cfg 1) []) = 69 /\ exists e, running 2 (generated (ex_cfg 1) []) 3 e /\ all_exited e.
Proof. split; [apply ex_cfg_ok; lia|]. split; [exact ex_count|apply ex_graph_run; lia]. Qed.

(** C14 *)
Theorem C14_conflicting_tasks_are_ordered : forall c, 0 < n_slot c -> 0 < n_quad c -> 0 < o_max c ->
  forall t u, task_in c t -> task_in c u -> t <> u ->
  (exists x, (writes c t x /\ (writes c u x \/ reads c u x)) \/ (writes c u x /\ reads c t x)) ->
  clos_trans task (fun a b => In (EDep a b) (generate c)) t u \/
  clos_trans task (fun a b => In (EDep a b) (generate c)) u t.
Proof.
  intros c HN HG HM t u Ht Hu Hne HC.
  assert (K: forall a b, clos_trans task (dep c) a b -> clos_trans task (fun a b => In (EDep a b) (generate c)) a b).
  { intros a b H. induction H; [apply t_step, (dep_iff c HN); auto|eapply t_trans; eauto]. }
  destruct (race_free c HN HG HM t u Ht Hu Hne HC); auto.
Qed.
Print Assumptions C14_conflicting_tasks_are_ordered.

Theorem C14_no_data_race : forall c pre nq nt e, 0 < n_slot c -> 0 < n_quad c -> 0 < o_max c -> reservations pre ->
  running nq (generated c pre) nt e -> forall i j t u, i <> j -> task_in c t -> task_in c u ->
  executing e i (tid (generate c) t) -> executing e j (tid (generate c) u) ->
  ~ exists x, (writes c t x /\ (writes c u x \/ reads c u x)) \/ (writes c u x /\ reads c t x).
Proof. exact no_data_race. Qed.
Print Assumptions C14_no_data_race.

(** every id the scheduler executes is the id of such a task *)
Theorem C14_ids_are_tasks : forall c pre, 0 < n_slot c -> 0 < n_quad c -> reservations pre ->
  forall i, i < ntasks (generated c pre) -> exists t, task_in c t /\ tid (generate c) t = i.
Proof. intros c pre HN HG HP. apply tid_onto; auto. Qed.
Print Assumptions C14_ids_are_tasks.

(** blocks 0 and 1 share the only slot: the reset of the first and the first
    computation of the second write the same memory *)
Example C14_nonvacuous : task_in (ex_cfg 1) (TR3 0) /\ task_in (ex_cfg 1) (TI 1 0) /\
  writes (ex_cfg 1) (TR3 0) (DInter 0) /\ writes (ex_cfg 1) (TI 1 0) (DInter 0).
Proof. cbn. repeat split; lia. Qed.

(** C15 *)
Theorem C15_schedule_independent : forall c V L code start, 0 < n_slot c -> 0 < n_quad c -> 0 < o_max c ->
  respects_footprint c V L code -> forall pre nq1 nt1 e1 nq2 nt2 e2 s0 s1 s2, reservations pre ->
  0 < nt1 -> 0 < nt2 ->
  running nq1 (generated c pre) nt1 e1 -> all_exited e1 -> running nq2 (generated c pre) nt2 e2 -> all_exited e2 ->
  executed c V L code start s0 (log (gl e1)) s1 -> executed c V L code start s0 (log (gl e2)) s2 -> forall x, s1 x = s2 x.
Proof. exact schedule_independent. Qed.
Print Assumptions C15_schedule_independent.

Example C15_nonvacuous : respects_footprint (ex_cfg 1) nat nat (ex_code (ex_cfg 1)) /\
  exists e1 e2 s1 s2, running 1 (generated (ex_cfg 1) []) 1 e1 /\ all_exited e1 /\ running 2 (generated (ex_cfg 1) []) 3 e2 /\ all_exited e2 /\
  executed (ex_cfg 1) nat nat (ex_code (ex_cfg 1)) ex_start ex_s0 (log (gl e1)) s1 /\
  executed (ex_cfg 1) nat nat (ex_code (ex_cfg 1)) ex_start ex_s0 (log (gl e2)) s2.
Proof.
  split; [apply ex_respects|]. destruct (ex_cfg_ok 1 ltac:(lia)) as (A1 & A2 & A3).
  assert (P: reservations []) by (intros x []).
  assert (T: terminating (ex_cfg 1) nat nat (ex_code (ex_cfg 1)) ex_start).
  { intros t s _. eexists 2, _. split; [apply ex_steps|reflexivity]. }
  destruct (ex_graph_run 1 1 1 ltac:(lia) ltac:(lia)) as (e1 & R1 & X1).
  destruct (ex_graph_run 1 2 3 ltac:(lia) ltac:(lia)) as (e2 & R2 & X2).
  destruct (executed_exists _ _ _ _ _ A1 A2 A3 [] P (ex_respects _) T 1 1 e1 ex_s0 ltac:(lia) R1 X1) as (s1 & E1).
  destruct (executed_exists _ _ _ _ _ A1 A2 A3 [] P (ex_respects _) T 2 3 e2 ex_s0 ltac:(lia) R2 X2) as (s2 & E2).
  exists e1, e2, s1, s2. auto 10.
Qed.

(** C16: [with_slots c N] is [c] with [N] slots; [slotted N] is the same code
    working on slot (block mod N); the final memory agrees outside the slots, in
    particular on every result.  [resets]: the reset tasks restore the state of
    new storage. *)
Theorem C16_slot_count_irrelevant : forall c V L vcode start s0,
  0 < n_quad c -> 0 < o_max c -> respects_footprint (unshared c) V L vcode -> uniform V s0 -> resets c V L vcode start s0 ->
  forall N1 N2 pre1 pre2 nq1 nt1 e1 nq2 nt2 e2 s1 s2, 0 < N1 -> 0 < N2 -> reservations pre1 -> reservations pre2 ->
  0 < nt1 -> 0 < nt2 ->
  running nq1 (generated (with_slots c N1) pre1) nt1 e1 -> all_exited e1 ->
  running nq2 (generated (with_slots c N2) pre2) nt2 e2 -> all_exited e2 ->
  executed (with_slots c N1) V L (slotted c V L vcode N1) start s0 (log (gl e1)) s1 ->
  executed (with_slots c N2) V L (slotted c V L vcode N2) start s0 (log (gl e2)) s2 ->
  forall k p, s1 (DRes k p) = s2 (DRes k p).
Proof.
  intros c V L vcode start s0 HG HM HV HU HR N1 N2 pre1 pre2 nq1 nt1 e1 nq2 nt2 e2 s1 s2 H1 H2 P1 P2 T1 T2 R1 X1 R2 X2 E1 E2 k p.
  exact (slots_irrelevant c V L vcode start s0 HG HM HV HU HR N1 N2 pre1 pre2 nq1 nt1 e1 nq2 nt2 e2 s1 s2
    H1 H2 P1 P2 T1 T2 R1 X1 R2 X2 E1 E2 (DRes k p) eq_refl).
Qed.
Print Assumptions C16_slot_count_irrelevant.

Example C16_nonvacuous : respects_footprint (unshared (ex_cfg 1)) nat nat (ex_code (unshared (ex_cfg 1))) /\
  uniform nat ex_s0 /\ resets (ex_cfg 1) nat nat (ex_code (unshared (ex_cfg 1))) ex_start ex_s0 /\
  exists e1 e2 s1 s2,
  running 1 (generated (ex_cfg 1) []) 1 e1 /\ all_exited e1 /\ running 2 (generated (ex_cfg 2) []) 3 e2 /\ all_exited e2 /\
  executed (ex_cfg 1) nat nat (slotted (ex_cfg 1) nat nat (ex_code (unshared (ex_cfg 1))) 1) ex_start ex_s0 (log (gl e1)) s1 /\
  executed (ex_cfg 2) nat nat (slotted (ex_cfg 1) nat nat (ex_code (unshared (ex_cfg 1))) 2) ex_start ex_s0 (log (gl e2)) s2.
Proof. split; [apply ex_respects|split; [exact ex_uniform|split; [apply ex_resets|exact ex_slots]]]. Qed.

(** C20: exactly when is task generation defined *)
Theorem C20_null_dereference_exactly_when : forall c, 0 < n_slot c ->
  (In ENull (generate c) <-> n_quad c = 0 /\ 0 < n_block c /\ 0 < o_max c).
Proof. exact null_iff. Qed.
Print Assumptions C20_null_dereference_exactly_when.

(** accepted ranges for which it is not: equal limits *)
Theorem C20_equal_order_limits_refuted : forall c, 0 < n_slot c -> 0 < n_block c -> 0 < o_max c ->
  o_min c = o_max c -> In ENull (generate c).
Proof.
  intros c HN HB HM E. apply (null_iff c HN). split; [|auto]. unfold n_quad. rewrite E, Z.sub_diag. reflexivity.
Qed.
Print Assumptions C20_equal_order_limits_refuted.

(** it is defined when minimum_order < maximum_order, with exactly the expected number of orders *)
Theorem C20_defined_for_proper_ranges : forall c, 0 < n_slot c -> (o_min c < o_max c)%nat ->
  (Z.of_nat (o_max c) < 2 ^ 64)%Z -> ~ In ENull (generate c) /\ n_quad c = o_max c - o_min c.
Proof.
  intros c HN HL HB. assert (E: n_quad c = o_max c - o_min c).
  { unfold n_quad. rewrite Z.mod_small by lia. rewrite <- Nat2Z.inj_sub by lia. apply Nat2Z.id. }
  split; [|auto]. rewrite (null_iff c HN). intros (A & _). lia.
Qed.
Print Assumptions C20_defined_for_proper_ranges.

Example C20_nonvacuous : let c := mkCfg 1 1 1 1 3 3 1 (fun _ => true) in
  0 < n_slot c /\ 0 < n_block c /\ 0 < o_max c /\ o_min c = o_max c /\ o_min (ex_cfg 1) < o_max (ex_cfg 1).
Proof. cbn. lia. Qed.
