(** Addressing of T-matrix elements (/repo/src/TMatrixResource.hpp l.122-131,
    l.195-247, l.709-723, l.1105-1119) and of the precomputed Wigner tables
    (/repo/src/ExtinctionCoefficientTask.hpp l.265-280, l.342, l.375; the same in
    AbsorptionCoefficientTask.hpp and ScatteringMatrixTask.hpp l.388, l.440, l.473),
    and Matrix::operator() (/repo/src/Matrix.hpp l.110-133). *)
From Coq Require Import List Arith Lia.
From Verif Require Import ResultTable.
Import ListNotations.

(** Matrix.hpp l.66, l.111: number of elements, position of an element *)
Definition mat_size (rows cols : nat) : nat := rows * cols.
Definition mat_pos (cols i j : nat) : nat := i * cols + j.

(** TMatrixResource.hpp l.127-130: block m is a square matrix of this dimension *)
Definition block_dim (maximum_order m : nat) : nat := 2 * (maximum_order + 1 - m).
(** l.207-212: row (or column) of element (i, n) of block m for runtime order nmax *)
Definition t_row (nmax m i n : nat) : nat :=
  if m =? 0 then i * nmax + n - m - 1 else let nm := nmax + 1 - m in i * nm + n - m.
(** position in the array of block m *)
Definition t_pos (maximum_order nmax m i1 n1 i2 n2 : nat) : nat :=
  mat_pos (block_dim maximum_order m) (t_row nmax m i1 n1) (t_row nmax m i2 n2).

(** elements that exist for order nmax *)
Definition element (nmax m i n : nat) : Prop := i < 2 /\ Nat.max 1 m <= n <= nmax.

Lemma t_row_lt : forall maximum_order nmax m i n, nmax <= maximum_order -> element nmax m i n -> t_row nmax m i n < block_dim maximum_order m.
Proof.
  intros M nmax m i n HM (Hi & Hn). unfold t_row, block_dim. destruct (Nat.eqb_spec m 0) as [->|N]; [|cbn zeta]; destruct i as [|[|]]; lia.
Qed.
Lemma t_row_inj : forall nmax m i n i' n', element nmax m i n -> element nmax m i' n' -> t_row nmax m i n = t_row nmax m i' n' -> i = i' /\ n = n'.
Proof.
  intros nmax m i n i' n' (Hi & Hn) (Hi' & Hn') E. unfold t_row in E. destruct (Nat.eqb_spec m 0) as [->|N]; cbn zeta in E;
  destruct i as [|[|]]; destruct i' as [|[|]]; lia.
Qed.
Theorem t_pos_range : forall maximum_order nmax m i1 n1 i2 n2, nmax <= maximum_order -> element nmax m i1 n1 -> element nmax m i2 n2 ->
  t_pos maximum_order nmax m i1 n1 i2 n2 < mat_size (block_dim maximum_order m) (block_dim maximum_order m).
Proof. intros. unfold t_pos, mat_pos, mat_size. apply pair_lt; apply t_row_lt; auto. Qed.
Theorem t_pos_inj : forall maximum_order nmax m i1 n1 i2 n2 i1' n1' i2' n2', nmax <= maximum_order ->
  element nmax m i1 n1 -> element nmax m i2 n2 -> element nmax m i1' n1' -> element nmax m i2' n2' ->
  t_pos maximum_order nmax m i1 n1 i2 n2 = t_pos maximum_order nmax m i1' n1' i2' n2' -> i1 = i1' /\ n1 = n1' /\ i2 = i2' /\ n2 = n2'.
Proof.
  intros M nmax m i1 n1 i2 n2 i1' n1' i2' n2' HM A B C D E. unfold t_pos, mat_pos in E.
  apply pair_inj in E; try (apply t_row_lt; auto). destruct E as (E1 & E2).
  apply t_row_inj in E1; auto. apply t_row_inj in E2; auto. tauto.
Qed.

(** The m = 0 task stores the product for rows i, nmax + i with i < nmax, where row
    n - 1 (or nmax + n - 1) belongs to order n (l.612-622, l.709-723); the m > 0 task
    rows i, nm + i with i < nm, row n + 1 - m - 1 (l.940-948, l.1105-1119). *)
Definition writer_row (nmax m i n : nat) : nat :=
  if m =? 0 then i * nmax + (n - 1) else i * (nmax + 1 - m) + (n + 1 - m - 1).
Theorem reader_agrees_with_writer : forall nmax m i n, element nmax m i n -> t_row nmax m i n = writer_row nmax m i n.
Proof. intros nmax m i n (Hi & Hn). unfold t_row, writer_row. destruct (Nat.eqb_spec m 0) as [->|N]; destruct i as [|[|]]; lia. Qed.

(* ---------------------------------------------- Wigner tables *)

(** ExtinctionCoefficientTask.hpp l.273-279: tables in the order of allocation *)
Definition wigner_tables (nmax : nat) : list (nat * nat) :=
  flat_map (fun n => map (fun m => (n, m)) (seq 0 (n + 1))) (seq 1 nmax).
(** l.342, l.375 *)
Definition wigner_index (n m : nat) : nat := (2 + n) * (n - 1) / 2 + m.
(** l.269 *)
Definition wigner_count (nmax : nat) : nat := (2 + nmax + 1) * nmax / 2.

Lemma tables_S : forall k, wigner_tables (S k) = wigner_tables k ++ map (fun m => (S k, m)) (seq 0 (S k + 1)).
Proof. intros k. unfold wigner_tables. rewrite seq_S, flat_map_app. cbn [flat_map plus]. rewrite app_nil_r. reflexivity. Qed.
Lemma tables_length2 : forall k, 2 * length (wigner_tables k) = (2 + k + 1) * k.
Proof. induction k; [reflexivity|]. rewrite tables_S, app_length, map_length, seq_length. nia. Qed.
Theorem tables_count : forall nmax, length (wigner_tables nmax) = wigner_count nmax.
Proof. intros k. unfold wigner_count. rewrite <- tables_length2, Nat.mul_comm, Nat.div_mul; lia. Qed.
Theorem table_at : forall nmax n m, 1 <= n <= nmax -> m <= n -> nth_error (wigner_tables nmax) (wigner_index n m) = Some (n, m).
Proof.
  intros nmax n m Hn Hm. assert (EI: wigner_index n m = length (wigner_tables (n - 1)) + m).
  { unfold wigner_index. f_equal. replace ((2 + n) * (n - 1)) with (length (wigner_tables (n - 1)) * 2).
    - rewrite Nat.div_mul; lia.
    - pose proof (tables_length2 (n - 1)). destruct n as [|n]; [lia|]. rewrite Nat.sub_succ, Nat.sub_0_r in *. nia. }
  rewrite EI. induction nmax as [|k IH]; [lia|]. rewrite tables_S. destruct (Nat.eq_dec n (S k)) as [->|N].
  - rewrite Nat.sub_succ, Nat.sub_0_r. rewrite nth_error_app2 by lia.
    replace (length (wigner_tables k) + m - length (wigner_tables k)) with m by lia.
    rewrite nth_error_map. rewrite (nth_error_nth' _ 0) by (rewrite seq_length; lia). rewrite seq_nth by lia. reflexivity.
  - pose proof (IH ltac:(lia)) as E. rewrite nth_error_app1; auto. apply nth_error_Some. congruence.
Qed.
