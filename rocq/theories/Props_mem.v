(** Properties C17-C19: the dry memory run of TaskManager::generate_tasks. *)
From Coq Require Import List Arith Lia Bool ZArith.
From Verif Require Import Base TaskGraph TaskGraphFacts TaskDeps GraphApi GraphHist GraphEx DryRun MemLimit.
Import ListNotations.

(** C17: as many pointers are stored in each table as the dry run counted (the
    tables are created with that length, entries go to positions 0, 1, 2, ...) *)
Theorem C17_tables_exactly_filled : forall c, 0 < n_slot c -> 0 < n_quad c ->
  length (stored_tasks (generate c)) = total a_taskptr (dry c) /\
  length (stored_resources (generate c)) = total a_resptr (dry c) /\
  length (stored_results (generate c)) = total a_resultptr (dry c).
Proof.
  intros c HN HG. destruct (stored_count (generate c)) as (A & B & C). rewrite A, B, C.
  split; [apply task_pointers|split; [apply resource_pointers|apply result_pointers]]; auto.
Qed.
Print Assumptions C17_tables_exactly_filled.

(** the offsets into the task table recorded during creation find the intended task *)
Theorem C17_task_lookups : forall c, 0 < n_slot c -> 0 < n_quad c ->
  let T := stored_tasks (generate c) in
  let G := n_quad c in let F := length (ks c) in
  (forall i, i < G -> nth_error T (1 + i) = Some (TG i)) /\
  (forall i, i < G -> nth_error T (1 + G + 2 * F + i) = Some (TWD i)) /\
  (forall is ig, is < n_shape c -> ig < G -> nth_error T (1 + 2 * G + 2 * F + is * G + ig) = Some (TPG is ig)).
Proof. intros c HN HG. apply task_lookups; auto. Qed.
Print Assumptions C17_task_lookups.

(** ... and those into the resource table the intended T-matrix or interaction resource *)
Theorem C17_resource_lookups : forall c, 0 < n_slot c -> 0 < n_quad c ->
  let T := stored_resources (generate c) in
  (forall r, r < n_slot c -> nth_error T r = Some (RInter r)) /\
  (forall j, j < 2 * n_slot c -> nth_error T (n_slot c + j) = Some (RTm j)).
Proof. intros c HN HG. apply resource_lookups; auto. Qed.
Print Assumptions C17_resource_lookups.

(** result table: for every composition-size-wavelength point in order, one entry
    per requested result type, in the order extinction, absorption, scattering *)
Theorem C17_result_order : forall c, 0 < n_slot c -> 0 < n_quad c ->
  stored_results (generate c) = flat_map (fun p => map (fun k => RRes k p) (filter (flag c) [Ext; Abs; Sca])) (seq 0 (n_point c)).
Proof. intros c HN HG. apply results_stored; auto. Qed.
Print Assumptions C17_result_order.

Example C17_nonvacuous : 0 < n_slot (ex_cfg 2) /\ 0 < n_quad (ex_cfg 2) /\
  length (stored_tasks (generate (ex_cfg 2))) = 69 /\ length (stored_resources (generate (ex_cfg 2))) = 20 /\
  stored_results (generate (ex_cfg 2)) = [RRes Ext 0; RRes Sca 0; RRes Ext 1; RRes Sca 1].
Proof. vm_compute. auto 10. Qed.

(** C18: enough tasks, dependencies and write links are reserved *)
Theorem C18_reservation_partial : forall c, 0 < n_slot c -> 0 < n_quad c ->
  total e_task (generate c) <= total a_tasks (dry c) /\
  total e_dep (generate c) <= total a_deps (dry c) /\
  total e_write (generate c) <= total a_write (dry c).
Proof.
  intros c HN HG. split; [|split].
  - rewrite (reserved_tasks c HN HG). auto.
  - apply reserved_deps; auto.
  - rewrite (reserved_writes c HN HG). auto.
Qed.
Print Assumptions C18_reservation_partial.

(** but one read link per T-matrix and result type, and all the per-m resources
    of the T-matrices, are missing from the reservation *)
Theorem C18_reads_and_resources_refuted : forall c, 0 < n_slot c -> 0 < n_quad c ->
  total e_read (generate c) = total a_read (dry c) + n_block c * length (ks c) /\
  total e_res (generate c) = total a_resources (dry c) + 2 * n_slot c * (o_max c + 1).
Proof. intros c HN HG. split; [apply reserved_reads|apply reserved_resources]; auto. Qed.
Print Assumptions C18_reads_and_resources_refuted.

Example C18_nonvacuous : 0 < n_slot (ex_cfg 2) /\ 0 < n_quad (ex_cfg 2) /\
  total a_read (dry (ex_cfg 2)) < total e_read (generate (ex_cfg 2)) /\
  total a_resources (dry (ex_cfg 2)) < total e_res (generate (ex_cfg 2)) /\
  0 < total e_task (generate (ex_cfg 2)) /\ 0 < total e_dep (generate (ex_cfg 2)) /\ 0 < total e_write (generate (ex_cfg 2)).
Proof. vm_compute. repeat split; repeat constructor. Qed.

(** C19 *)
Theorem C19_slots_in_range : forall m limit, mem_ok m -> (1 <= slots m limit <= m_total m)%Z.
Proof. exact slots_range. Qed.
Print Assumptions C19_slots_in_range.

Theorem C19_slots_monotone : forall m l1 l2, mem_ok m -> (used1 m <= l1)%Z -> (l1 <= l2)%Z -> (l2 < 2 ^ 64)%Z ->
  (slots m l1 <= slots m l2)%Z.
Proof. exact slots_monotone. Qed.
Print Assumptions C19_slots_monotone.

(** the largest number that fits is chosen *)
Theorem C19_slots_maximal : forall m limit, mem_ok m -> (used1 m <= limit < 2 ^ 64)%Z ->
  (used1 m + (slots m limit - 1) * per_T m <= limit)%Z /\
  ((slots m limit < m_total m)%Z -> (limit < used1 m + slots m limit * per_T m)%Z).
Proof. exact slots_maximal. Qed.
Print Assumptions C19_slots_maximal.

(** the accounted memory stays within the limit as soon as a second T-matrix fits;
    with a single one it can exceed it by the size of three pointers *)
Theorem C19_accounted_within_limit_partial : forall m limit, mem_ok m -> (used1 m <= limit < 2 ^ 64)%Z -> (m_cap m <= m_res m)%Z ->
  (accounted m limit <= limit + 24)%Z /\ ((2 <= slots m limit)%Z -> (accounted m limit <= limit)%Z).
Proof. exact accounted_bound. Qed.
Print Assumptions C19_accounted_within_limit_partial.

(** a limit that is too small for a single T-matrix is not detected: the 64-bit
    subtraction wraps and the maximum number of T-matrices is allocated *)
Theorem C19_too_small_limit_refuted : forall m limit, mem_ok m -> (0 <= limit)%Z -> (limit < used1 m)%Z ->
  (used1 m - limit <= 2 ^ 64)%Z -> (per_T m * (m_total m - 1) <= 2 ^ 64 - (used1 m - limit))%Z ->
  slots m limit = m_total m.
Proof. exact too_small_limit. Qed.
Print Assumptions C19_too_small_limit_refuted.

(** four kinds of objects allocate more than is accounted, whatever their size *)
Theorem C19_object_sizes_refuted : forall fs, 1 < fs ->
  (forall M, 0 < M -> heap_accounted fs (ONBased M) < heap_allocated fs (ONBased M)) /\
  (forall a q, 0 < q -> heap_accounted fs (OAbsGrid a q) < heap_allocated fs (OAbsGrid a q)) /\
  (forall M a q, 0 < M -> a < q -> heap_accounted fs (OAbsW M a q) < heap_allocated fs (OAbsW M a q)) /\
  (forall a, 0 < a -> heap_accounted fs (OScaRes a) < heap_allocated fs (OScaRes a)).
Proof. exact sizes_insufficient. Qed.
Print Assumptions C19_object_sizes_refuted.

(** for the other eleven kinds the accounted size suffices *)
Theorem C19_object_sizes_partial : forall fs o,
  (match o with ONBased _ | OAbsGrid _ _ | OAbsW _ _ _ | OScaRes _ => False | _ => True end) ->
  heap_allocated fs o <= heap_accounted fs o.
Proof. intros fs o H. apply sizes_sufficient. destruct o; try reflexivity; destruct H. Qed.
Print Assumptions C19_object_sizes_partial.

Definition ex_mem : mem := mkMem 5000 1200 4000 3000 40 1000 16.
Example C19_nonvacuous : mem_ok ex_mem /\ (used1 ex_mem <= 60000 < 2 ^ 64)%Z /\ (m_cap ex_mem <= m_res ex_mem)%Z /\
  slots ex_mem 60000 = 4%Z /\ slots ex_mem 75000 = 6%Z /\ accounted ex_mem 60000 = 49528%Z /\ slots ex_mem 100 = 16%Z.
Proof. vm_compute. repeat split; congruence. Qed.
