(** Properties of the task scheduler (C01-C12).

    Vocabulary (Api.v, Sched.v): [h] is the list of API calls made so far, latest
    first; [valid h] says calls only use ids returned earlier; [ntasks],
    [dependencies], [writelinks], [parents] read off [h] what was registered.
    [life nq h s]: a scheduler with [nq] queues reached state [s] by the calls
    [h] and any number of complete runs in between.  [running nq h nt e]:
    execute_tasks with [nt] threads has been called on such a scheduler and the
    threads, interleaved at single atomic memory operations, are in state [e].
    [log (gl e)] records begin and end of every execute() call, latest first. *)
From Coq Require Import List Arith Lia Bool ZArith Permutation Relation_Operators.
From Verif Require Import Base Queue CSort Prepare LockProto Sched LockSeq Api SchedEx.
Import ListNotations.

(** C01 *)
Theorem C01_every_task_exactly_once : forall nq h nt e,
  valid h -> 0 < nt -> running nq h nt e -> all_exited e ->
  forall t, nstart t (log (gl e)) = (if t <? ntasks h then 1 else 0) /\
            nend t (log (gl e)) = (if t <? ntasks h then 1 else 0).
Proof. exact api_exactly_once. Qed.
Print Assumptions C01_every_task_exactly_once.

Theorem C01_never_twice : forall nq h nt e, valid h -> running nq h nt e ->
  forall t, nstart t (log (gl e)) <= (if t <? ntasks h then 1 else 0) /\
            nend t (log (gl e)) <= nstart t (log (gl e)).
Proof. exact api_at_most_once. Qed.
Print Assumptions C01_never_twice.

Example C01_nonvacuous : valid ex_calls /\ ntasks ex_calls = 5 /\ exists e, running 2 ex_calls 3 e /\ all_exited e.
Proof. split; [exact ex_valid|split; [exact ex_ntasks|exact ex_run]]. Qed.

(** C02 *)
Theorem C02_dependencies_respected : forall nq h nt e, valid h -> running nq h nt e ->
  forall a b l1 l2, In (a, b) (dependencies h) -> log (gl e) = l1 ++ Start b :: l2 -> In (End a) l2.
Proof. exact api_order. Qed.
Print Assumptions C02_dependencies_respected.

Example C02_nonvacuous : exists e l1 l2, running 2 ex_calls 3 e /\ In (0, 2) (dependencies ex_calls) /\
  log (gl e) = l1 ++ Start 2 :: l2.
Proof.
  destruct ex_run as (e & HR & HE). exists e.
  destruct (api_exactly_once 2 ex_calls 3 e ex_valid ltac:(lia) HR HE 2) as (HS & _).
  assert (HI: In (Start 2) (log (gl e))).
  { unfold nstart in HS. destruct (filter _ _) as [|x l] eqn:EF in HS; [discriminate|].
    assert (Hx: In x (x :: l)) by (left; auto). rewrite <- EF in Hx. apply filter_In in Hx. destruct Hx as (A & B).
    destruct x as [u|u]; [|discriminate]. apply Nat.eqb_eq in B. subst u. auto. }
  apply in_split in HI. destruct HI as (l1 & l2 & E). exists l1, l2. split; [auto|]. split; [cbn; tauto|auto].
Qed.

(** C03 *)
Theorem C03_write_links_exclude : forall nq h nt e, valid h -> running nq h nt e ->
  forall i j t u r x, i <> j -> executing e i t -> executing e j u ->
  In (t, r) (writelinks h) -> In (u, x) (writelinks h) -> ~ anc_or_eq (parent_of h) r x.
Proof. exact api_no_conflict. Qed.
Print Assumptions C03_write_links_exclude.

(** two siblings really are written at the same time *)
Example C03_nonvacuous : exists e, running 1 ex2_calls 2 e /\ executing e 0 0 /\ executing e 1 1 /\
  In (0, 1) (writelinks ex2_calls) /\ In (1, 2) (writelinks ex2_calls) /\ parent_of ex2_calls 1 = parent_of ex2_calls 2.
Proof.
  destruct ex2_parallel as (e & A & B & C). exists e. split; [auto|]. split; [auto|]. split; [auto|].
  split; [cbn; tauto|]. split; [cbn; tauto|reflexivity].
Qed.

(** C04 *)
Theorem C04_mutual_exclusion : forall parent, forest parent -> forall s, reachable parent s ->
  forall i j t u r x, i <> j -> nth_error (ths s) i = Some t -> nth_error (ths s) j = Some u ->
  In r (owned t) -> In x (owned u) -> ~ anc_or_eq parent r x.
Proof. exact mutual_exclusion. Qed.
Print Assumptions C04_mutual_exclusion.

Theorem C04_within_one_thread : forall parent, forest parent -> forall s, reachable parent s ->
  forall t, In t (ths s) -> NoDup (owned t) /\
    (forall r x, In r (owned t) -> In x (owned t) -> r <> x -> ~ anc_or_eq parent r x).
Proof. exact no_self_conflict. Qed.
Print Assumptions C04_within_one_thread.

(** lock words and hold counters at every moment: [all_holds] lists, for every
    thread, the ancestors of what it owns and those it has incremented so far in
    an unfinished call *)
Theorem C04_counters : forall parent, forest parent -> forall s, reachable parent s ->
  (forall r, cnt r (all_locks (ths s)) = if lk (smem s) r then 1 else 0) /\
  (forall r, hd (smem s) r = Z.of_nat (cnt r (all_holds parent (ths s)))).
Proof. intros parent HF s HR. destruct (inv_reachable parent HF s HR) as (A & B & _). auto. Qed.
Print Assumptions C04_counters.

(** ... and exactly the owned resources and their ancestors when no call is in progress *)
Theorem C04_counters_quiescent : forall parent, forest parent -> forall s, reachable parent s ->
  (forall t, In t (ths s) -> at_ t = Idle) ->
  forall r, (lk (smem s) r = true <-> exists t, In t (ths s) /\ In r (owned t)) /\
    hd (smem s) r = Z.of_nat (cnt r (flat_map (fun t => flat_map (ancestors parent) (owned t)) (ths s))).
Proof. intros parent HF s HR HQ r. split; [apply (quiescent_exact parent HF s HR HQ)|apply (quiescent_holds parent HF s HR HQ)]. Qed.
Print Assumptions C04_counters_quiescent.

Example C04_nonvacuous : forest (parent_of ex2_calls) /\ exists s i j t u, reachable (parent_of ex2_calls) s /\ i <> j /\
  nth_error (ths s) i = Some t /\ nth_error (ths s) j = Some u /\ In 1 (owned t) /\ In 2 (owned u).
Proof. split; [apply valid_forest, ex2_valid|exact ex2_lock_state]. Qed.

(** C05 *)
Theorem C05_failed_attempt_leaves_no_trace : forall parent, forest parent -> forall m locks m',
  locktask parent m locks = (m', false) -> forall x, lk m' x = lk m x /\ hd m' x = hd m x.
Proof. exact locktask_fail_unchanged. Qed.
Print Assumptions C05_failed_attempt_leaves_no_trace.

Theorem C05_success_adds_exactly : forall parent, forest parent -> forall m locks m',
  locktask parent m locks = (m', true) ->
  forall x, lk m' x = (if in_dec Nat.eq_dec x locks then true else lk m x) /\
            hd m' x = (hd m x + Z.of_nat (cnt x (flat_map (ancestors parent) locks)))%Z.
Proof. exact locktask_success. Qed.
Print Assumptions C05_success_adds_exactly.

(** [describes m L]: exactly the resources [L] are locked *)
Theorem C05_succeeds_iff_free : forall parent, forest parent -> forall m L locks m' ok,
  describes parent m L -> locktask parent m locks = (m', ok) ->
  (ok = true <-> ForallOrdPairs (fun r x => ~ conflict parent r x) locks /\
                 forall r x, In r locks -> In x L -> ~ conflict parent r x).
Proof. exact locktask_iff. Qed.
Print Assumptions C05_succeeds_iff_free.

Theorem C05_unlock_restores : forall parent, forest parent -> forall m locks m',
  locktask parent m locks = (m', true) ->
  forall x, lk (unlocktask parent m' locks) x = lk m x /\ hd (unlocktask parent m' locks) x = hd m x.
Proof. exact unlock_locktask. Qed.
Print Assumptions C05_unlock_restores.

Definition ex_free : mem := mkMem (fun _ => false) (fun _ => 0%Z).
(** resource 0 with children 1, 2 and grandchild 3 of 1: [3; 2] can be locked,
    then [2] and [1] cannot, and a failing attempt on [3's sibling; ...] rolls back *)
Example C05_nonvacuous :
  forest (parent_of ex_calls) /\ describes (parent_of ex_calls) ex_free [] /\
  snd (locktask (parent_of ex_calls) ex_free [3; 2]) = true /\
  snd (locktask (parent_of ex_calls) (fst (locktask (parent_of ex_calls) ex_free [2])) [3; 2]) = false /\
  snd (locktask (parent_of ex_calls) (fst (locktask (parent_of ex_calls) ex_free [3])) [1]) = false.
Proof.
  split; [apply valid_forest, ex_valid|]. split; [split; intros x; cbn; [split; [discriminate|tauto]|auto]|].
  split; [|split]; reflexivity.
Qed.

(** C06 *)
Theorem C06_always_possible_to_complete : forall nq h nt e, valid h -> 0 < nq -> running nq h nt e ->
  (forall t, t < ntasks h -> lockable (parent_of h) (targets (writelinks h) t)) ->
  exists e', runs_to nq h e e' /\ running nq h nt e' /\ all_exited e'.
Proof. exact api_progress. Qed.
Print Assumptions C06_always_possible_to_complete.

Theorem C06_self_conflicting_task_never_starts : forall nq h nt e, valid h -> running nq h nt e ->
  forall t, ~ lockable (parent_of h) (targets (writelinks h) t) -> nstart t (log (gl e)) = 0.
Proof. exact api_self_conflict_never_runs. Qed.
Print Assumptions C06_self_conflicting_task_never_starts.

Example C06_nonvacuous : (forall t, t < ntasks ex_calls -> lockable (parent_of ex_calls) (targets (writelinks ex_calls) t)) /\
  ~ lockable (parent_of (LinkRes 0 0 true :: ex_calls)) (targets (writelinks (LinkRes 0 0 true :: ex_calls)) 0).
Proof.
  split; [exact ex_lockable|]. change (targets (writelinks (LinkRes 0 0 true :: ex_calls)) 0) with [1; 0].
  intros (_ & H). apply (H 0 1); cbn; auto. econstructor; [reflexivity|constructor].
Qed.

(** C07 *)
Theorem C07_circular_dependencies_detected_exactly : forall nq h s, valid h -> life nq h s ->
  (circular h -> prepare_sched s = Some Circular) /\
  (~ circular h -> exists r, prepare_sched s = Some (Ready r) /\
     Permutation (p_tid (a_prep r)) (seq 0 (ntasks h)) /\
     forall l1 b l2, p_tid (a_prep r) = l1 ++ b :: l2 -> forall a, In (a, b) (dependencies h) -> In a l1).
Proof. exact api_prepare. Qed.
Print Assumptions C07_circular_dependencies_detected_exactly.

Example C07_nonvacuous : valid ex_calls /\ ~ circular ex_calls /\ valid (LinkTasks 3 0 :: ex_calls) /\
  circular (LinkTasks 3 0 :: ex_calls) /\ exists s, life 2 (LinkTasks 3 0 :: ex_calls) s.
Proof.
  split; [exact ex_valid|]. split; [exact ex_not_circular|].
  assert (V: valid (LinkTasks 3 0 :: ex_calls)) by (split; [exact ex_valid|cbn; lia]). split; [exact V|].
  split; [|apply life_exists; exact V].
  exists 0. eapply t_trans; [apply (t_step _ _ 0 2)|eapply t_trans; [apply (t_step _ _ 2 3)|apply (t_step _ _ 3 0)]]; cbn; tauto.
Qed.

(** C08: for any costs, as used by the preparation of the graph [unlocks] *)
Theorem C08_weight_is_critical_path : forall n unlocks cost, edges_in_range n unlocks ->
  forall w0 weight0 p, (forall t, w0 t = 0%Z) -> prepare n unlocks cost w0 weight0 = Some p ->
  forall t, t < n ->
    (exists c, chain unlocks (t :: c) /\ total cost (t :: c) = p_weight p t) /\
    (forall c, chain unlocks (t :: c) -> (total cost (t :: c) <= p_weight p t)%Z).
Proof. intros n u c HU w0 wt p H0 HP. destruct (prepare_ok n u c HU w0 wt p H0 HP) as (_ & _ & _ & H & _). exact H. Qed.
Print Assumptions C08_weight_is_critical_path.

Example C08_nonvacuous :
  let u := fun t => nth t [[2]; [2; 3]; [3]; []] [] in
  let c := fun t => nth t [5; 1; 2; 7]%Z 0%Z in
  edges_in_range 4 u /\
  match prepare 4 u c (fun _ => 0%Z) (fun _ => 99%Z) with
  | Some p => map (p_weight p) [0; 1; 2; 3] = [14; 10; 9; 7]%Z
  | None => False
  end.
Proof. split; [|reflexivity]. intros a b Ha Hb. destruct a as [|[|[|[|a]]]]; cbn in Hb; lia. Qed.

(** C09 *)
Theorem C09_queue_contents : forall w size q l, 0 < size -> queue_life w size q l ->
  Permutation (contents q) l /\ heap_ok w (contents q) /\ Queue.count q <= length (inds q).
Proof. intros w size q l Hs H. destruct (queue_life_spec w size q l Hs H) as ((A & B) & C & _). auto. Qed.
Print Assumptions C09_queue_contents.

Theorem C09_queue_operations : forall w size q l, 0 < size -> queue_life w size q l ->
  (forall tid, exists q', queue_put w tid q = Some q') /\
  (forall p, (queue_get w p q = None <-> (forall x, In x l -> p x = false)) /\
     (forall tid q', queue_get w p q = Some (tid, q') -> p tid = true /\ In tid l /\
        forall x, In x l -> (w tid < w x)%Z -> exists y, In y l /\ (w x <= w y)%Z /\ p y = false)).
Proof. exact queue_life_ops. Qed.
Print Assumptions C09_queue_operations.

(** three puts into a queue of size 1 and a get that must skip the heaviest *)
Example C09_nonvacuous : exists q, queue_life Z.of_nat 1 q [5; 9; 3] /\
  exists q', queue_get Z.of_nat (fun t => negb (t =? 9)) q = Some (3, q') \/
             queue_get Z.of_nat (fun t => negb (t =? 9)) q = Some (5, q').
Proof.
  destruct (queue_put Z.of_nat 3 (queue_init 1)) as [q1|] eqn:E1; [|discriminate].
  destruct (queue_put Z.of_nat 9 q1) as [q2|] eqn:E2; [|injection E1 as <-; discriminate].
  destruct (queue_put Z.of_nat 5 q2) as [q3|] eqn:E3.
  - exists q3. split; [eauto using queue_life|]. vm_compute in E1. injection E1 as <-. vm_compute in E2. injection E2 as <-.
    vm_compute in E3. injection E3 as <-. eexists. vm_compute. auto.
  - injection E1 as <-. vm_compute in E2. injection E2 as <-. discriminate.
Qed.

(** C10 *)
Theorem C10_link_tables : forall nq h s r, valid h -> life nq h s -> prepare_sched s = Some (Ready r) ->
  forall t, nth t (a_unlocks r) [] = targets (dependencies h) t /\
            nth t (a_locks r) [] = targets (writelinks h) t /\
            nth t (a_uses r) [] = targets (readlinks h) t.
Proof. exact api_tables. Qed.
Print Assumptions C10_link_tables.

Example C10_nonvacuous : exists s r, life 1 ex_calls s /\ prepare_sched s = Some (Ready r) /\
  targets (dependencies ex_calls) 0 = [2; 4] /\ targets (writelinks ex_calls) 3 = [3; 2].
Proof.
  destruct (life_exists 1 ex_calls ex_valid) as (s & HS).
  destruct (proj2 (api_prepare 1 ex_calls s ex_valid HS) ex_not_circular) as (r & E & _).
  exists s, r. split; [auto|]. split; [auto|]. split; reflexivity.
Qed.

(** C11 *)
Theorem C11_registrations_survive : forall nq h s, valid h -> life nq h s ->
  (forall c, valid (c :: h) -> exists s' id, apply c s = Some (s', id) /\
     match c with RegTask _ => id = ntasks h | RegRes _ => id = length (parents h) | _ => True end) /\
  (forall t x, nth_error (identities h) t = Some x ->
     exists c, get (q_tasks s) t = Some c /\ get (q_data s) (t_data c) = Some x) /\
  (forall r p, nth_error (parents h) r = Some p -> exists c, get (q_res s) r = Some c /\ r_parent c = p) /\
  (exists D L U, live (q_deps s) = Some D /\ Permutation D (dependencies h) /\
                 live (q_locks s) = Some L /\ Permutation L (writelinks h) /\
                 live (q_uses s) = Some U /\ Permutation U (readlinks h)).
Proof. exact api_registered. Qed.
Print Assumptions C11_registrations_survive.

Example C11_nonvacuous : exists s, life 1 ex_calls s /\ nth_error (identities ex_calls) 3 = Some 73 /\
  nth_error (parents ex_calls) 3 = Some (Some 1).
Proof. destruct (life_exists 1 ex_calls ex_valid) as (s & HS). exists s. auto. Qed.

(** C12: the conclusion [life nq h (after ...)] makes C01-C11 apply to the next run *)
Theorem C12_rerun : forall nq h s r nt e0 e cost, valid h -> life nq h s -> prepare_sched s = Some (Ready r) ->
  0 < nt -> starts nq r nt e0 ->
  steps (par_of (a_s r)) nq (fun t => nth t (a_locks r) []) (fun t => nth t (a_unlocks r) []) e0 e ->
  all_exited e ->
  (forall x, lk (gm (gl e)) x = false /\ hd (gm (gl e)) x = 0%Z) /\
  life nq h (after r e cost) /\ exists r', prepare_sched (after r e cost) = Some (Ready r').
Proof. exact api_rerun. Qed.
Print Assumptions C12_rerun.

Example C12_nonvacuous : exists s r e0 e, life 2 ex_calls s /\ prepare_sched s = Some (Ready r) /\ starts 2 r 3 e0 /\
  steps (par_of (a_s r)) 2 (fun t => nth t (a_locks r) []) (fun t => nth t (a_unlocks r) []) e0 e /\ all_exited e.
Proof.
  destruct ex_run as (e & (s & r & e0 & A & B & C & D) & HE). exists s, r, e0, e. auto.
Qed.
