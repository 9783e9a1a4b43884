(** Pointer tables of generate_tasks, the number of T-matrix slots and the
    accounted object sizes (/repo/src/TaskManager.hpp l.698-770). *)
From Coq Require Import List Arith Lia Bool ZArith.
From Verif Require Import Base TaskGraph TaskGraphFacts TaskDeps GraphApi GraphHist DryRun.
Import ListNotations.

(* ------------------------------------------------ pointer tables *)

(** Contents of the three tables after creation (entries are stored at
    consecutive positions: running_*_index is incremented after every store). *)
Definition stored_tasks (l : list ev) : list task := flat_map (fun e => match e with EPutTask t => [t] | _ => [] end) l.
Definition stored_resources (l : list ev) : list res := flat_map (fun e => match e with EPutRes r => [r] | _ => [] end) l.
Definition stored_results (l : list ev) : list res := flat_map (fun e => match e with EPutResult r => [r] | _ => [] end) l.

Lemma stored_count : forall l, length (stored_tasks l) = total e_puttask l /\ length (stored_resources l) = total e_putres l /\
  length (stored_results l) = total e_putresult l.
Proof.
  induction l as [|e l (A & B & C)]; [auto|]. unfold stored_tasks, stored_resources, stored_results in *. cbn [flat_map].
  rewrite !app_length, !total_cons, A, B, C. destruct e; auto.
Qed.

Section Tables.
Variable c : cfg.
Notation G := (n_quad c).
Notation N := (n_slot c).
Notation S_ := (n_shape c).
Notation P := (n_point c).
Notation F := (length (ks c)).
Hypothesis HN : 0 < N.
Hypothesis HG : 0 < G.

Lemma st_app : forall a b, stored_tasks (a ++ b) = stored_tasks a ++ stored_tasks b.
Proof. intros. apply flat_map_app. Qed.
Lemma sr_app : forall a b, stored_resources (a ++ b) = stored_resources a ++ stored_resources b.
Proof. intros. apply flat_map_app. Qed.
Lemma st_flat : forall A (f : A -> list ev) l, stored_tasks (flat_map f l) = flat_map (fun x => stored_tasks (f x)) l.
Proof. intros. apply flat_flat. Qed.
Lemma sr_flat : forall A (f : A -> list ev) l, stored_resources (flat_map f l) = flat_map (fun x => stored_resources (f x)) l.
Proof. intros. apply flat_flat. Qed.
Lemma st_kinds : forall f, stored_tasks (for_kinds c f) = flat_map (fun k => stored_tasks (f k)) (ks c).
Proof.
  intros f. unfold for_kinds, ks. rewrite st_flat. generalize kinds. intros l. induction l as [|k l IH]; auto.
  cbn [flat_map filter]. rewrite IH. destruct (flag c k); auto.
Qed.
Lemma sr_kinds : forall f, stored_resources (for_kinds c f) = flat_map (fun k => stored_resources (f k)) (ks c).
Proof.
  intros f. unfold for_kinds, ks. rewrite sr_flat. generalize kinds. intros l. induction l as [|k l IH]; auto.
  cbn [flat_map filter]. rewrite IH. destruct (flag c k); auto.
Qed.
Lemma st_comp : forall t l, stored_tasks (computable t l) = [].
Proof. intros t l. unfold computable. cbn. induction l; auto. Qed.
Lemma sr_comp : forall t l, stored_resources (computable t l) = [].
Proof. intros t l. unfold computable. cbn. induction l; auto. Qed.

Lemma stored_shared : stored_tasks (gen_shared c) = shared_tasks c.
Proof.
  unfold gen_shared, shared_tasks. rewrite !st_app, !st_flat, !st_kinds. cbn [stored_tasks flat_map app].
  change (flat_map (fun e => match e with EPutTask t => [t] | _ => [] end)) with stored_tasks. rewrite st_comp. cbn [app].
  apply f_equal. repeat match goal with |- _ ++ _ = _ ++ _ => apply f_equal2 end.
  5:{ apply flat_ext. intros is _. rewrite st_flat, <- flat_single. apply flat_ext. intros. rewrite st_app, st_comp. auto. }
  all: rewrite <- flat_single; apply flat_ext; intros; rewrite st_app, st_comp; auto.
Qed.
Lemma shared_no_res : stored_resources (gen_shared c) = [].
Proof.
  unfold gen_shared. rewrite !sr_app, !sr_flat, !sr_kinds. cbn [stored_resources flat_map app].
  change (flat_map (fun e => match e with EPutRes t => [t] | _ => [] end)) with stored_resources. rewrite sr_comp. cbn [app].
  repeat match goal with |- ?a ++ ?b = [] => assert (a = []) as ->; [|cbn [app]] end.
  all: try (rewrite <- (flat_nil nat res (seq 0 G)); apply flat_ext; intros; rewrite sr_app, sr_comp; reflexivity).
  all: try (rewrite <- (flat_nil kind res (ks c)); apply flat_ext; intros; rewrite sr_app, sr_comp; reflexivity).
  rewrite <- (flat_nil nat res (seq 0 S_)). apply flat_ext. intros is _. rewrite sr_flat.
  rewrite <- (flat_nil nat res (seq 0 G)); apply flat_ext; intros; rewrite sr_app, sr_comp; reflexivity.
Qed.
Lemma stored_slots : stored_resources (gen_slots c) = map RInter (seq 0 N) ++ map RTm (seq 0 (2 * N)).
Proof.
  unfold gen_slots. rewrite sr_app, !sr_flat. apply f_equal2; rewrite <- flat_single; apply flat_ext; intros j _; [reflexivity|].
  cbn [stored_resources flat_map app]. f_equal. generalize (seq 0 (o_max c + 1)). intros l. induction l; auto.
Qed.

Lemma nth_map_seq : forall A (f : nat -> A) n i, i < n -> nth_error (map f (seq 0 n)) i = Some (f i).
Proof.
  intros A f n i H. rewrite nth_error_map. assert (E: nth_error (seq 0 n) i = Some i); [|rewrite E; auto].
  rewrite (nth_error_nth' _ 0) by (rewrite seq_length; auto). rewrite seq_nth by auto. auto.
Qed.
Lemma nth_grid : forall A (f : nat -> nat -> A) m n i j, i < n -> j < m ->
  nth_error (flat_map (fun a => map (f a) (seq 0 m)) (seq 0 n)) (i * m + j) = Some (f i j).
Proof.
  intros A f m n. assert (G: forall a i j, i < n -> j < m -> nth_error (flat_map (fun a => map (f a) (seq 0 m)) (seq a n)) (i * m + j) = Some (f (a + i) j)).
  { induction n as [|n IH]; intros a i j Hi Hj; [lia|]. cbn [seq flat_map]. destruct i as [|i].
    - rewrite nth_error_app1 by (rewrite map_length, seq_length; lia). cbn [mult plus]. rewrite nth_map_seq by auto. f_equal. f_equal. lia.
    - rewrite nth_error_app2 by (rewrite map_length, seq_length; nia). rewrite map_length, seq_length.
      replace (S i * m + j - m) with (i * m + j) by nia. rewrite IH by lia. f_equal. f_equal. lia. }
  intros i j Hi Hj. apply (G 0); auto.
Qed.

(** The offsets: quadrature_points_offset = 1 (l.794), wigner_d_offset (l.882),
    particle_geometry_offset (l.904), interaction_resource_offset = 0 (l.934),
    tmatrix_resource_offset = n_slot (l.945), being the values of the running
    indices at those lines. *)
Theorem task_lookups :
  let T := stored_tasks (generate c) in
  (forall i, i < G -> nth_error T (1 + i) = Some (TG i)) /\
  (forall i, i < G -> nth_error T (1 + G + 2 * F + i) = Some (TWD i)) /\
  (forall is ig, is < S_ -> ig < G -> nth_error T (1 + 2 * G + 2 * F + is * G + ig) = Some (TPG is ig)).
Proof.
  cbn zeta. unfold generate. rewrite st_app, stored_shared. unfold shared_tasks.
  generalize (stored_tasks (gen_slots c ++ fst (gen_points c (points c) {| g_unlock := repeat None N; g_reuse := 0 |}))). intros rest.
  rewrite <- !app_assoc. cbn [app].
  assert (L1: length (map TG (seq 0 G)) = G) by (rewrite map_length, seq_length; auto).
  assert (L2: length (map TGrid (ks c)) = F) by apply map_length. assert (L3: length (map TSW (ks c)) = F) by apply map_length.
  assert (L4: length (map TWD (seq 0 G)) = G) by (rewrite map_length, seq_length; auto).
  repeat split.
  - intros i Hi. change (1 + i) with (S i). cbn [nth_error]. rewrite nth_error_app1 by lia. apply nth_map_seq. auto.
  - intros i Hi. replace (1 + G + 2 * F + i) with (S (G + (F + (F + i)))) by lia. cbn [nth_error].
    rewrite nth_error_app2 by lia. rewrite nth_error_app2 by lia. rewrite nth_error_app2 by lia. rewrite L1, L2, L3.
    replace (G + (F + (F + i)) - G - F - F) with i by lia. rewrite nth_error_app1 by lia. apply nth_map_seq. auto.
  - intros is ig Hs Hi. replace (1 + 2 * G + 2 * F + is * G + ig) with (S (G + (F + (F + (G + (is * G + ig)))))) by lia. cbn [nth_error].
    rewrite nth_error_app2 by lia. rewrite nth_error_app2 by lia. rewrite nth_error_app2 by lia. rewrite nth_error_app2 by lia.
    rewrite L1, L2, L3, L4. replace (G + (F + (F + (G + (is * G + ig)))) - G - F - F - G) with (is * G + ig) by lia.
    pose proof (nth_grid task TPG G S_ is ig Hs Hi) as E.
    rewrite nth_error_app1; auto. apply nth_error_Some. congruence.
Qed.
Theorem resource_lookups :
  let T := stored_resources (generate c) in
  (forall r, r < N -> nth_error T r = Some (RInter r)) /\
  (forall j, j < 2 * N -> nth_error T (N + j) = Some (RTm j)).
Proof.
  cbn zeta. unfold generate. rewrite !sr_app, shared_no_res, stored_slots. cbn [app].
  generalize (stored_resources (fst (gen_points c (points c) {| g_unlock := repeat None N; g_reuse := 0 |}))). intros rest.
  rewrite <- !app_assoc. assert (L1: length (map RInter (seq 0 N)) = N) by (rewrite map_length, seq_length; auto). split.
  - intros r Hr. rewrite nth_error_app1 by lia. apply nth_map_seq. auto.
  - intros j Hj. rewrite nth_error_app2 by lia. rewrite L1. replace (N + j - N) with j by lia.
    pose proof (nth_map_seq res RTm (2 * N) j Hj) as E. rewrite nth_error_app1; auto. apply nth_error_Some. congruence.
Qed.

(** results: one per point and result type, points in order, types in order Ext, Abs, Sca *)
Lemma sx_flat : forall A (f : A -> list ev) l, stored_results (flat_map f l) = flat_map (fun x => stored_results (f x)) l.
Proof. intros. apply flat_flat. Qed.
Lemma sx_app : forall a b, stored_results (a ++ b) = stored_results a ++ stored_results b.
Proof. intros. apply flat_map_app. Qed.
Lemma sx_kinds : forall f, stored_results (for_kinds c f) = flat_map (fun k => stored_results (f k)) (ks c).
Proof.
  intros f. unfold for_kinds, ks. rewrite sx_flat. generalize kinds. intros l. induction l as [|k l IH]; auto.
  cbn [flat_map filter]. rewrite IH. destruct (flag c k); auto.
Qed.
Lemma sx_zero : forall l, total e_putresult l = 0 -> stored_results l = [].
Proof. intros l H. apply length_zero_iff_nil. rewrite (proj2 (proj2 (stored_count l))). auto. Qed.
Theorem results_stored : stored_results (generate c) = flat_map (fun p => map (fun k => RRes k p) (ks c)) (seq 0 P).
Proof.
  rewrite generate_closed by auto. rewrite !sx_app. 
  rewrite (sx_zero (gen_shared c)), (sx_zero (gen_slots c)).
  - cbn [app]. rewrite sx_flat. apply flat_ext. intros p _. rewrite sx_app.
    assert (E: stored_results (flat_map (nth_block c p) (seq 0 S_)) = []).
    { apply sx_zero. rewrite total_flat. rewrite (total_const _ _ 0); [lia|]. intros is Hi. apply in_seq in Hi.
      assert (E1: (p * S_ + is) / S_ = p) by (rewrite Nat.div_add_l, Nat.div_small by lia; lia).
      assert (E2: (p * S_ + is) mod S_ = is) by (rewrite Nat.add_comm, Nat.mod_add, Nat.mod_small by lia; auto).
      pose proof (putresult_block c HN HG (p * S_ + is)) as K. unfold blk in K. rewrite E1, E2 in K. exact K. }
    rewrite E, app_nil_r. unfold gen_point. rewrite sx_app, sx_kinds. cbn [stored_results flat_map app].
    rewrite <- flat_single. reflexivity.
  - rewrite (slots_total c HN HG e_putresult 0 0) by auto. lia.
  - rewrite (shared_eq c HN HG e_putresult (fun _ => 0)).
    + rewrite (total_const _ _ 0); auto.
    + intros t l d k _. cbn. lia.
Qed.
End Tables.

(* ------------------------------------------------ number of slots *)

Local Open Scope Z_scope.
Definition w64 : Z := 2 ^ 64.

(** Inputs of l.714-749: memory accounted so far [m_used] (l.720), number of
    resources counted so far [m_res], sizes of a TMatrixResource, of an
    InteractionResource and of a quicksched resource, capacity of the scheduler's
    resource buffer, limit and total number of T-matrices.  A pointer takes 8 bytes. *)
Record mem := mkMem { m_used : Z; m_res : Z; sz_T : Z; sz_I : Z; sz_res : Z; m_cap : Z; m_total : Z }.

(** the part of the return value of qsched_ensure that depends on the number of
    resources (qsched.c l.120-132); allocate_quicksched_memory adds the increase
    (TaskManager.hpp l.326-334) *)
Definition qs_mem (m : mem) (n : Z) : Z := Z.max (m_cap m) n * sz_res m.
(** l.721-729 *)
Definition used1 (m : mem) : Z :=
  m_used m + 2 * sz_T m + sz_I m + 3 * 8 + (qs_mem m (m_res m + 3) - qs_mem m (m_res m)).
(** l.730-731 *)
Definition per_T (m : mem) : Z := used1 m - m_used m.
(** l.733-736, unsigned 64-bit arithmetic *)
Definition extra (m : mem) (limit : Z) : Z :=
  Z.min (((limit - used1 m) mod w64) / per_T m) ((m_total m - 1) mod w64).
(** l.749 *)
Definition slots (m : mem) (limit : Z) : Z := extra m limit + 1.
(** l.737-747: memory accounted at the end *)
Definition accounted (m : mem) (limit : Z) : Z :=
  used1 m + extra m limit * (2 * sz_T m + sz_I m) + 3 * 8 +
  (qs_mem m (m_res m + 3 + 3 * extra m limit) - qs_mem m (m_res m + 3)).

Definition mem_ok (m : mem) : Prop :=
  0 <= m_used m /\ 0 <= m_res m /\ 0 < sz_T m /\ 0 < sz_I m /\ 0 < sz_res m /\ 0 <= m_cap m /\ 1 <= m_total m < w64.

Lemma per_pos : forall m, mem_ok m -> 0 < per_T m.
Proof. intros m (A & B & C & D & E & F & H). unfold per_T, used1, qs_mem. nia. Qed.

Theorem slots_range : forall m limit, mem_ok m -> 1 <= slots m limit <= m_total m.
Proof.
  intros m limit H. pose proof (per_pos m H) as HP. destruct H as (A & B & C & D & E & F & H). unfold slots, extra.
  rewrite (Z.mod_small (m_total m - 1)) by lia.
  assert (0 <= ((limit - used1 m) mod w64) / per_T m) by (apply Z.div_pos; auto; apply Z.mod_pos_bound; reflexivity). lia.
Qed.
Theorem slots_monotone : forall m l1 l2, mem_ok m -> used1 m <= l1 -> l1 <= l2 -> l2 < w64 -> slots m l1 <= slots m l2.
Proof.
  intros m l1 l2 H H1 H2 H3. pose proof (per_pos m H) as HP. destruct H as (A & B & C & D & E & F & H). unfold slots, extra.
  assert (0 <= used1 m) by (unfold used1, qs_mem; nia).
  rewrite !(Z.mod_small (_ - used1 m)) by lia.
  pose proof (Z.div_le_mono (l1 - used1 m) (l2 - used1 m) (per_T m) HP ltac:(lia)). lia.
Qed.
Theorem slots_maximal : forall m limit, mem_ok m -> used1 m <= limit < w64 ->
  used1 m + (slots m limit - 1) * per_T m <= limit /\
  (slots m limit < m_total m -> limit < used1 m + slots m limit * per_T m).
Proof.
  intros m limit H H1. pose proof (per_pos m H) as HP. destruct H as (A & B & C & D & E & F & H). unfold slots, extra.
  assert (0 <= used1 m) by (unfold used1, qs_mem; nia).
  rewrite (Z.mod_small (limit - _)), (Z.mod_small (m_total m - 1)) by lia.
  pose proof (Z.div_mod (limit - used1 m) (per_T m) ltac:(lia)) as DM. pose proof (Z.mod_pos_bound (limit - used1 m) (per_T m) HP).
  assert (0 <= (limit - used1 m) / per_T m) by (apply Z.div_pos; lia). split.
  - assert (K: Z.min ((limit - used1 m) / per_T m) (m_total m - 1) <= (limit - used1 m) / per_T m) by lia.
    apply Z.mul_le_mono_nonneg_r with (p := per_T m) in K; [|lia]. rewrite Z.add_simpl_r. lia.
  - intros K. replace (Z.min ((limit - used1 m) / per_T m) (m_total m - 1)) with ((limit - used1 m) / per_T m) by lia. lia.
Qed.
Theorem accounted_bound : forall m limit, mem_ok m -> used1 m <= limit < w64 -> m_cap m <= m_res m ->
  accounted m limit <= limit + 24 /\ (2 <= slots m limit -> accounted m limit <= limit).
Proof.
  intros m limit H H1 H2. pose proof (slots_maximal m limit H H1) as (K & _). pose proof (slots_range m limit H) as R.
  destruct H as (A & B & C & D & E & F & H). unfold slots in *. set (x := extra m limit) in *.
  unfold accounted. fold x. unfold per_T, used1, qs_mem in *. rewrite !Z.max_r in * by lia. nia.
Qed.
Theorem too_small_limit : forall m limit, mem_ok m -> 0 <= limit -> limit < used1 m -> used1 m - limit <= w64 ->
  per_T m * (m_total m - 1) <= w64 - (used1 m - limit) -> slots m limit = m_total m.
Proof.
  intros m limit H H0 H1 H2 H3. pose proof (per_pos m H) as HP. destruct H as (A & B & C & D & E & F & H). unfold slots, extra.
  rewrite (Z.mod_small (m_total m - 1)) by lia.
  assert (E1: (limit - used1 m) mod w64 = w64 - (used1 m - limit)).
  { symmetry. apply (Z.mod_unique_pos _ _ (-1)); lia. }
  rewrite E1. assert (m_total m - 1 <= (w64 - (used1 m - limit)) / per_T m) by (apply Z.div_le_lower_bound; lia). lia.
Qed.

(* ------------------------------------------------ object sizes *)

(** Heap storage of the objects, in units of one float_type of [fs] bytes.  The
    first number is what get_memory_size adds to sizeof(class), the second what
    the constructor allocates; arguments as passed by the dry run and by the
    creation phase: [M] maximum order, [g] number of quadrature points of the
    object, [a] number of output angles, [q] number of absorption quadrature points. *)
Local Open Scope nat_scope.
Definition tri (f : nat -> nat) (M : nat) : nat := list_sum (map (fun n => (n + 1) * f n) (seq 1 M)).
Inductive object :=
| ONBased (M : nat) | OGauss (g : nat) | OExtGrid (a : nat) | OAbsGrid (a q : nat) | OScaGrid (a : nat)
| OExtW (M a : nat) | OAbsW (M a q : nat) | OScaW (M a : nat) | OWigner (n g : nat) (pre : bool) | OGeom (g : nat)
| OInter (M g : nat) | OTmat (M : nat) | OExtRes (a : nat) | OAbsRes (a : nat) | OScaRes (a : nat).

(** bytes accounted for heap storage *)
Definition heap_accounted (fs : nat) (o : object) : nat :=
  match o with
  | ONBased M => M * M + 2 * M * M                                   (* NBasedResources.hpp 77-84 *)
  | OGauss g => 4 * (2 * g) * fs                                     (* GaussBasedResources.hpp 90-101 *)
  | OExtGrid a => 4 * a * fs                                         (* ExtinctionCoefficientTask.hpp 180-184 *)
  | OAbsGrid a q => 4 * a * fs + 6 * q * fs                          (* AbsorptionCoefficientTask.hpp 203-209 *)
  | OScaGrid a => 4 * a * fs + 4 * (2 * a) * fs                      (* ScatteringMatrixTask.hpp 184-191, TaskManager.hpp 538-540 *)
  | OExtW M a => tri (fun n => 2 * a * n * fs) M                     (* ExtinctionCoefficientTask.hpp 293-302 *)
  | OAbsW M a _ => tri (fun n => 2 * a * n * fs + 2 * a * n * fs) M  (* AbsorptionCoefficientTask.hpp 359-369 *)
  | OScaW M a => tri (fun n => 2 * n * fs + 2 * a * n * fs) M        (* ScatteringMatrixTask.hpp 339-349 *)
  | OWigner n g pre => if pre then 2 * ((n + 1) * 2 * g * n * fs) else 0   (* WignerDResources.hpp 102-113 *)
  | OGeom g => 3 * (2 * g * fs)                                      (* ParticleGeometryResource.hpp 92-101 *)
  | OInter M g => 2 * (2 * g * fs) + 2 * (4 * g * fs) + 4 * (2 * g * M * fs) + 2 * (4 * g * M * fs)  (* InteractionResource.hpp 212-236 *)
  | OTmat M => list_sum (map (fun m => 8 * (M + 1 - m) * (M + 1 - m) * fs) (seq 0 (M + 1)))   (* TMatrixResource.hpp 140-149 *)
  | OExtRes a => 3 * a * fs                                          (* ExtinctionCoefficientTask.hpp 87-91 *)
  | OAbsRes a => 2 * a * fs                                          (* AbsorptionCoefficientTask.hpp 83-87 *)
  | OScaRes a => 16 * a * fs                                         (* ScatteringMatrixTask.hpp 85-89, TaskManager.hpp 616-617 *)
  end.
(** bytes allocated for elements by the constructor; a complex number is 2 floats *)
Definition heap_allocated (fs : nat) (o : object) : nat :=
  match o with
  | ONBased M => M * M * fs + M * M * (2 * fs)                       (* NBasedResources.hpp 66-68 *)
  | OGauss g => 4 * (2 * g) * fs                                     (* GaussBasedResources.hpp 75-79 *)
  | OExtGrid a => 4 * a * fs                                         (* ExtinctionCoefficientTask.hpp 163-164 *)
  | OAbsGrid a q => 4 * a * fs + 7 * q * fs                          (* AbsorptionCoefficientTask.hpp 181-185 *)
  | OScaGrid a => 4 * a * fs + 3 * (2 * a) * fs                      (* ScatteringMatrixTask.hpp 167-170 *)
  | OExtW M a => tri (fun n => a * n * fs + a * n * fs) M            (* ExtinctionCoefficientTask.hpp 271-280 *)
  | OAbsW M a q => tri (fun n => 2 * (a * n * fs) + 2 * (q * n * fs)) M   (* AbsorptionCoefficientTask.hpp 330-346 *)
  | OScaW M a => tri (fun n => 2 * (1 * n * fs) + 2 * (a * n * fs)) M     (* ScatteringMatrixTask.hpp 312-326 *)
  | OWigner n g pre => if pre then (n + 1) * (2 * g * n * fs + 2 * g * n * fs) else 0   (* WignerDResources.hpp 80-87 *)
  | OGeom g => 3 * (2 * g * fs)                                      (* ParticleGeometryResource.hpp 80-81 *)
  | OInter M g => 2 * (2 * g * fs) + 2 * (2 * g * (2 * fs)) + 4 * (2 * g * M * fs) + 2 * (2 * g * M * (2 * fs))  (* InteractionResource.hpp 194-200 *)
  | OTmat M => list_sum (map (fun m => (2 * (M + 1 - m)) * (2 * (M + 1 - m)) * (2 * fs)) (seq 0 (M + 1)))   (* TMatrixResource.hpp 122-131 *)
  | OExtRes a => 3 * a * fs                                          (* ExtinctionCoefficientTask.hpp 74-75 *)
  | OAbsRes a => 2 * a * fs                                          (* AbsorptionCoefficientTask.hpp 71 *)
  | OScaRes a => (a * (2 * a)) * (4 * 4) * fs                        (* ScatteringMatrixTask.hpp 60-73 and 274-276, TaskManager.hpp 1056-1058 *)
  end.

Lemma sum_ext : forall (f g : nat -> nat) l, (forall x, f x = g x) -> list_sum (map f l) = list_sum (map g l).
Proof. intros f g l H. f_equal. apply map_ext. auto. Qed.

(** which objects are accounted for sufficiently *)
Definition sufficient (o : object) : bool :=
  match o with ONBased _ | OAbsGrid _ _ | OAbsW _ _ _ | OScaRes _ => false | _ => true end.
Theorem sizes_sufficient : forall fs o, sufficient o = true -> heap_allocated fs o <= heap_accounted fs o.
Proof.
  intros fs o H. destruct o; try discriminate; cbn [heap_allocated heap_accounted]; try nia.
  - apply Nat.eq_le_incl. apply sum_ext. intros. nia.
  - apply Nat.eq_le_incl. apply sum_ext. intros. nia.
  - destruct pre; nia.
  - apply Nat.eq_le_incl. apply sum_ext. intros. nia.
Qed.
Lemma tri_le : forall f g M, 0 < M -> (forall n, 0 < n -> f n < g n) -> tri f M < tri g M.
Proof.
  intros f g M HM H. unfold tri. destruct M as [|M]; [lia|]. clear HM.
  assert (G: forall k a, 0 < a -> list_sum (map (fun n => (n + 1) * f n) (seq a k)) <= list_sum (map (fun n => (n + 1) * g n) (seq a k))).
  { induction k as [|k IH]; intros a Ha; [auto|]. specialize (IH (S a) ltac:(lia)). pose proof (H a Ha) as Hh.
    cbn [seq map]. unfold list_sum in *. cbn [fold_right].
    apply Nat.add_le_mono; [|exact IH]. apply Nat.mul_le_mono_l. lia. }
  specialize (G M 2 ltac:(lia)). pose proof (H 1 ltac:(lia)) as Hh. cbn [seq map]. unfold list_sum in *. cbn [fold_right].
  apply Nat.add_lt_le_mono; [|exact G]. apply Nat.mul_lt_mono_pos_l; lia.
Qed.
(** and which are not *)
Theorem sizes_insufficient : forall fs, 1 < fs ->
  (forall M, 0 < M -> heap_accounted fs (ONBased M) < heap_allocated fs (ONBased M)) /\
  (forall a q, 0 < q -> heap_accounted fs (OAbsGrid a q) < heap_allocated fs (OAbsGrid a q)) /\
  (forall M a q, 0 < M -> a < q -> heap_accounted fs (OAbsW M a q) < heap_allocated fs (OAbsW M a q)) /\
  (forall a, 0 < a -> heap_accounted fs (OScaRes a) < heap_allocated fs (OScaRes a)).
Proof.
  intros fs Hf. repeat split; intros; cbn [heap_allocated heap_accounted]; try nia.
  apply tri_le; auto. intros n Hn. assert (a * n < q * n) by nia. nia.
Qed.
