(** Properties C24, C26, C27, C28, C29: averages, table lookups, addressing. *)
From Coq Require Import List Arith Lia Bool Reals Lra.
From Verif Require Import Average Lookup Index.
Import ListNotations.
Local Open Scope R_scope.

(** C24.  [shapes] lists (weight, coefficients); the specification is the sum
    Σ w_i Q_i / Σ w_i, written with the recursive sum [rsum]. *)
Theorem C24_weighted_mean : forall ncol n shapes old q t, (q < ncol)%nat -> (t < n)%nat -> rsum fst shapes <> 0 ->
  shape_average ncol n shapes old q t = rsum (fun s => fst s * snd s q t) shapes / rsum fst shapes.
Proof. exact average_is_mean. Qed.
Print Assumptions C24_weighted_mean.

Theorem C24_between_extremes : forall ncol n shapes old q t lo hi, (q < ncol)%nat -> (t < n)%nat ->
  (forall s, In s shapes -> 0 <= fst s /\ lo <= snd s q t <= hi) -> 0 < rsum fst shapes ->
  lo <= shape_average ncol n shapes old q t <= hi.
Proof. intros. rewrite average_is_mean; auto. apply mean_bounds; auto. unfold weights; lra. Qed.
Print Assumptions C24_between_extremes.

Theorem C24_common_factor : forall ncol n shapes old q t k, (q < ncol)%nat -> (t < n)%nat -> k <> 0 -> rsum fst shapes <> 0 ->
  shape_average ncol n (map (fun s => (k * fst s, snd s)) shapes) old q t = shape_average ncol n shapes old q t.
Proof.
  intros ncol n l old q t k Hq Ht Hk HW. rewrite !average_is_mean; auto.
  - apply mean_scale; auto.
  - assert (E: weights (map (fun s : R * (nat -> nat -> R) => (k * fst s, snd s)) l) = k * rsum fst l).
    { clear. unfold weights. induction l as [|s l IH]; cbn [map rsum fst]; [lra|]. rewrite IH. lra. }
    rewrite E. intros C. apply Rmult_integral in C. tauto.
Qed.
Print Assumptions C24_common_factor.

Theorem C24_equal_inputs : forall ncol n shapes old q t v, (q < ncol)%nat -> (t < n)%nat ->
  (forall s, In s shapes -> snd s q t = v) -> rsum fst shapes <> 0 -> shape_average ncol n shapes old q t = v.
Proof. intros. rewrite average_is_mean; auto. apply mean_const; auto. Qed.
Print Assumptions C24_equal_inputs.
(** entries outside the table are left alone *)
Theorem C24_frame : forall ncol n shapes old q t, (q >= ncol \/ t >= n)%nat -> shape_average ncol n shapes old q t = old q t.
Proof.
  intros ncol n l old q t H. unfold shape_average.
  assert (OUT: forall f o, for_each ncol n f o q t = o q t).
  { intros. rewrite for_each_at. destruct (Nat.ltb_spec q ncol), (Nat.ltb_spec t n); auto. lia. }
  destruct (fold_left _ _ _) as (norm, sum) eqn:E. rewrite OUT.
  change sum with (snd (norm, sum)). rewrite <- E. clear E norm sum.
  assert (G: forall l st, snd (fold_left (accumulate ncol n) l st) q t = snd st q t).
  { induction l0 as [|s l0 IH]; intros st; cbn [fold_left]; auto. rewrite IH. unfold accumulate. cbn [snd]. apply OUT. }
  rewrite G. cbn [snd]. apply OUT.
Qed.
Print Assumptions C24_frame.

Example C24_example : forall old,
  shape_average 2 5 [(1, fun _ _ => 2); (3, fun q t => INR q + INR t)] old 1%nat 4%nat = (1 * 2 + 3 * 5) / 4
  /\ 2 <= shape_average 2 5 [(1, fun _ _ => 2); (3, fun q t => INR q + INR t)] old 1%nat 4%nat <= 5.
Proof.
  intros old. split.
  - rewrite C24_weighted_mean; try lia; cbn [rsum fst snd INR]; lra.
  - apply C24_between_extremes; try lia; cbn [rsum fst snd]; try lra. intros s [ <- | [ <- | [] ] ]; cbn [fst snd INR]; lra.
Qed.

(** C26: strictly monotone tables, both directions *)
Theorem C26_grid_points : forall rows n kc, (2 <= n)%nat ->
  (forall i j, (i < j < n)%nat -> rows i kc < rows j kc) \/ (forall i j, (i < j < n)%nat -> rows j kc < rows i kc) ->
  forall i, (i < n)%nat -> exists f, get_row rows n kc (rows i kc) = Row f /\ forall c, f c = rows i c.
Proof. intros rows n kc Hn M i Hi. apply get_row_grid; auto. Qed.
Print Assumptions C26_grid_points.

(** the interpolant f satisfies the equation of the line through the two rows, and is
    between them *)
Theorem C26_between_grid_points : forall rows n kc, (2 <= n)%nat ->
  (forall i j, (i < j < n)%nat -> rows i kc < rows j kc) \/ (forall i j, (i < j < n)%nat -> rows j kc < rows i kc) ->
  forall x i, (S i < n)%nat -> (rows i kc < x < rows (S i) kc \/ rows (S i) kc < x < rows i kc) ->
  exists f, get_row rows n kc x = Row f /\
    forall c, (f c - rows i c) * (rows (S i) kc - rows i kc) = (rows (S i) c - rows i c) * (x - rows i kc) /\
              Rmin (rows i c) (rows (S i) c) <= f c <= Rmax (rows i c) (rows (S i) c).
Proof.
  intros rows n kc Hn M x i Hi K. destruct (get_row_between rows n kc Hn x i Hi M) as (f & E & F).
  { unfold Rmin, Rmax. destruct (Rle_dec _ _); lra. }
  exists f. split; auto. intros c. destruct (F c) as (L & B). split; auto. rewrite L. unfold line. field. lra.
Qed.
Print Assumptions C26_between_grid_points.

(** values outside the table are not clamped: the nearest cell is extrapolated *)
Theorem C26_extrapolation : forall rows n kc, (2 <= n)%nat ->
  (forall i j, (i < j < n)%nat -> rows i kc < rows j kc) \/ (forall i j, (i < j < n)%nat -> rows j kc < rows i kc) ->
  forall x, exists l f, get_row rows n kc x = Row f /\ (S l < n)%nat /\
    forall c, (f c - rows l c) * (rows (S l) kc - rows l kc) = (rows (S l) c - rows l c) * (x - rows l kc).
Proof.
  intros rows n kc Hn M x. destruct (get_row_cell rows n kc Hn x M) as (l & f & E & L & F & _).
  exists l, f. split; auto. split; auto. intros c. rewrite F. unfold line. field.
  destruct M as [M|M]; specialize (M l (S l)); cbn beta in M; assert (X: (l < S l < n)%nat) by lia; apply M in X; lra.
Qed.
Print Assumptions C26_extrapolation.

Example C26_example :
  exists f, get_row (fun i c => INR ((i + 1) * (c + 1))) 5 0 (7/2) = Row f /\ f 1%nat = 7.
Proof.
  destruct (C26_between_grid_points (fun i c => INR ((i + 1) * (c + 1))) 5 0) with (x := 7/2) (i := 2%nat) as (f & E & F); try lia.
  - left. intros i j H. apply lt_INR. nia.
  - left. cbn [Nat.add Nat.mul INR]. lra.
  - exists f. split; auto. destruct (F 1%nat) as (H & _). cbn [Nat.add Nat.mul INR] in H. lra.
Qed.

(** C27 *)
Theorem C27_cell : forall x a len, (2 <= len)%nat -> (forall i j, (i <= j < len)%nat -> a i <= a j) ->
  exists i, locate x a len = Some i /\ (i <= len - 2)%nat /\
    (a 0%nat < x <= a (len - 1)%nat -> a i < x <= a (S i)) /\
    (x <= a 0%nat -> i = 0%nat) /\ (a (len - 1)%nat < x -> i = (len - 2)%nat).
Proof. exact locate_sorted. Qed.
Print Assumptions C27_cell.

Example C27_example : locate (5/2) INR 6 = Some 2%nat.
Proof.
  destruct (C27_cell (5/2) INR 6) as (i & E & L & K & _); try lia.
  { intros. apply le_INR. lia. }
  rewrite E. cbn [Nat.sub] in K. specialize (K ltac:(cbn [INR]; lra)). destruct K as (K1 & K2). f_equal.
  destruct (Nat.lt_trichotomy i 2) as [H|[H|H]]; auto.
  - apply (le_INR (S i) 2) in H. cbn [INR] in *. lra.
  - apply (le_INR 3 i) in H. cbn [INR] in *. lra.
Qed.

(** C28 *)
Local Close Scope R_scope.
Theorem C28_inside_block : forall maximum_order nmax m i1 n1 i2 n2, nmax <= maximum_order ->
  i1 < 2 -> i2 < 2 -> 1 <= n1 -> m <= n1 -> n1 <= nmax -> 1 <= n2 -> m <= n2 -> n2 <= nmax ->
  t_pos maximum_order nmax m i1 n1 i2 n2 < mat_size (block_dim maximum_order m) (block_dim maximum_order m).
Proof. intros. apply t_pos_range; auto; split; lia. Qed.
Print Assumptions C28_inside_block.
Theorem C28_distinct_cells : forall maximum_order nmax m i1 n1 i2 n2 j1 k1 j2 k2, nmax <= maximum_order ->
  (i1 < 2 /\ i2 < 2 /\ 1 <= n1 /\ m <= n1 <= nmax /\ 1 <= n2 /\ m <= n2 <= nmax) ->
  (j1 < 2 /\ j2 < 2 /\ 1 <= k1 /\ m <= k1 <= nmax /\ 1 <= k2 /\ m <= k2 <= nmax) ->
  t_pos maximum_order nmax m i1 n1 i2 n2 = t_pos maximum_order nmax m j1 k1 j2 k2 ->
  (i1, n1, i2, n2) = (j1, k1, j2, k2).
Proof.
  intros. destruct (t_pos_inj maximum_order nmax m i1 n1 i2 n2 j1 k1 j2 k2) as (-> & -> & -> & ->); auto; split; lia.
Qed.
Print Assumptions C28_distinct_cells.
(** and every element is read where the T-matrix tasks stored it *)
Theorem C28_reader_agrees_with_writer : forall nmax m i n, i < 2 -> 1 <= n -> m <= n -> n <= nmax ->
  t_row nmax m i n = writer_row nmax m i n.
Proof. intros. apply reader_agrees_with_writer. split; lia. Qed.
Print Assumptions C28_reader_agrees_with_writer.
Example C28_example : t_pos 7 5 2 1 3 0 5 = 63 /\ mat_size (block_dim 7 2) (block_dim 7 2) = 144.
Proof. split; reflexivity. Qed.

(** C29: [wigner_tables nmax] lists the tables (n, m) in the order of allocation *)
Theorem C29_position : forall nmax n m, 1 <= n -> n <= nmax -> m <= n ->
  nth_error (wigner_tables nmax) (wigner_index n m) = Some (n, m) /\ wigner_index n m < wigner_count nmax.
Proof.
  intros nmax n m A B C. assert (E: nth_error (wigner_tables nmax) (wigner_index n m) = Some (n, m)) by (apply table_at; auto).
  split; auto. rewrite <- tables_count. apply nth_error_Some. congruence.
Qed.
Print Assumptions C29_position.
Theorem C29_distinct : forall n m n' m', 1 <= n -> m <= n -> 1 <= n' -> m' <= n' ->
  wigner_index n m = wigner_index n' m' -> n = n' /\ m = m'.
Proof.
  intros n m n' m' A B A' B' E.
  destruct (C29_position (Nat.max n n') n m) as (X & _); try lia.
  destruct (C29_position (Nat.max n n') n' m') as (Y & _); try lia.
  rewrite E in X. rewrite X in Y. split; congruence.
Qed.
Print Assumptions C29_distinct.
Theorem C29_all_used : forall nmax i, i < wigner_count nmax -> exists n m, 1 <= n <= nmax /\ m <= n /\ wigner_index n m = i.
Proof.
  intros nmax i H. rewrite <- tables_count in H. destruct (nth_error (wigner_tables nmax) i) as [(n, m)|] eqn:E.
  2:{ apply nth_error_None in E. lia. }
  assert (I: In (n, m) (wigner_tables nmax)) by (eapply nth_error_In; eauto).
  unfold wigner_tables in I. apply in_flat_map in I. destruct I as (n0 & I1 & I2). apply in_map_iff in I2.
  destruct I2 as (m0 & Q & I2). injection Q as -> ->. apply in_seq in I1, I2.
  exists n, m. split; [lia|]. split; [lia|].
  assert (F: nth_error (wigner_tables nmax) (wigner_index n m) = Some (n, m)) by (apply table_at; lia).
  assert (ND: NoDup (wigner_tables nmax)).
  { unfold wigner_tables. generalize (seq_NoDup nmax 1). generalize (seq 1 nmax). clear.
    induction l as [|a l IH]; intros ND; cbn [flat_map]; [constructor|]. inversion ND; subst.
    assert (K: forall x, In x (map (fun m => (a, m)) (seq 0 (a + 1))) -> fst x = a).
    { intros x Hx. apply in_map_iff in Hx. destruct Hx as (? & <- & _). reflexivity. }
    assert (G: forall x, In x (flat_map (fun n => map (fun m => (n, m)) (seq 0 (n + 1))) l) -> In (fst x) l).
    { intros x Hx. apply in_flat_map in Hx. destruct Hx as (b & Hb & Hx). apply in_map_iff in Hx. destruct Hx as (? & <- & _). auto. }
    revert K. generalize (seq_NoDup (a + 1) 0). generalize (seq 0 (a + 1)). induction l0 as [|b l0 IHl]; intros ND0 K; cbn [map app]; [apply IH; auto|].
    inversion ND0; subst. constructor.
    - intros C. apply in_app_or in C. destruct C as [C|C].
      + apply in_map_iff in C. destruct C as (? & Q & ?). injection Q as ->. contradiction.
      + apply G in C. contradiction.
    - apply IHl; auto. intros x Hx. apply K. right. auto. }
  rewrite NoDup_nth_error in ND. apply ND.
  - apply nth_error_Some. congruence.
  - congruence.
Qed.
Print Assumptions C29_all_used.
Example C29_example : wigner_index 4 3 = 12 /\ wigner_count 4 = 14 /\ nth_error (wigner_tables 4) 12 = Some (4, 3).
Proof. repeat split; reflexivity. Qed.
