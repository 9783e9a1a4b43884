(** Properties C22 and C23: result layout. *)
From Coq Require Import List Arith Lia Bool Permutation Sorted.
From Verif Require Import Base TaskGraph TaskGraphFacts TaskDeps GraphApi GraphHist GraphEx DryRun MemLimit ResultTable.
Import ListNotations.

(** C22: get_result_index is a bijection onto 0 .. N-1 *)
Theorem C22_injective_and_in_range : forall C S_ W R c s w r, c < C -> s < S_ -> w < W -> r < R ->
  result_index S_ W R c s w r < C * S_ * W * R /\
  forall c' s' w' r', s' < S_ -> w' < W -> r' < R ->
    result_index S_ W R c s w r = result_index S_ W R c' s' w' r' -> c = c' /\ s = s' /\ w = w' /\ r = r'.
Proof. intros. split; [apply result_index_range; auto|]. intros. eapply result_index_inj; eauto. Qed.
Print Assumptions C22_injective_and_in_range.

Theorem C22_surjective : forall C S_ W R i, i < C * S_ * W * R ->
  exists c s w r, c < C /\ s < S_ /\ w < W /\ r < R /\ result_index S_ W R c s w r = i.
Proof. exact result_index_onto. Qed.
Print Assumptions C22_surjective.

(** row-major: the last index varies fastest *)
Theorem C22_row_major : forall S_ W R c s w r,
  (r + 1 < R -> result_index S_ W R c s w (r + 1) = result_index S_ W R c s w r + 1) /\
  (w + 1 < W -> result_index S_ W R c s (w + 1) r = result_index S_ W R c s w r + R) /\
  (s + 1 < S_ -> result_index S_ W R c (s + 1) w r = result_index S_ W R c s w r + W * R) /\
  result_index S_ W R (c + 1) s w r = result_index S_ W R c s w r + S_ * W * R.
Proof. intros. unfold result_index. repeat split; intros; nia. Qed.
Print Assumptions C22_row_major.

(** ... and it finds the result of that type created for that composition, size and wavelength *)
Theorem C22_agrees_with_creation : forall c i j k r q, 0 < n_slot c -> 0 < n_quad c ->
  i < n_comp c -> j < n_size c -> k < n_wav c -> nth_error (filter (flag c) [Ext; Abs; Sca]) r = Some q ->
  nth_error (stored_results (generate c))
    (result_index (n_size c) (n_wav c) (length (filter (flag c) [Ext; Abs; Sca])) i j k r) =
  Some (RRes q ((i * n_size c + j) * n_wav c + k)).
Proof. intros c i j k r q HN HG Hi Hj Hk Hr. change (filter (flag c) [Ext; Abs; Sca]) with (ks c). rewrite ks_length. apply result_at; auto. Qed.
Print Assumptions C22_agrees_with_creation.

Example C22_nonvacuous : result_index 2 3 2 1 1 2 1 = 23 /\ 23 < 2 * 2 * 3 * 2 /\
  nth_error (stored_results (generate (ex_cfg 1))) (result_index 2 1 2 0 1 0 1) = Some (RRes Sca 1).
Proof. split; [reflexivity|]. split; [lia|]. vm_compute. reflexivity. Qed.

(** C23: with std::sort giving sorted permutations of the requested sizes and
    wavelengths, every entry of both arrays is written, with the value for the grain
    type, size and wavelength at that position *)
Section C23.
Variable V : Type.
Variable le : V -> V -> Prop.

Theorem C23_coefficients : forall c comps (sizes wavs ssizes swavs : list V), 0 < n_slot c -> 0 < n_quad c ->
  Permutation sizes ssizes -> Sorted le ssizes -> Permutation wavs swavs -> Sorted le swavs ->
  n_comp c = length comps -> n_size c = length sizes -> n_wav c = length wavs ->
  forall T i j k t q g a w col, nth_error comps i = Some g -> nth_error ssizes j = Some a -> nth_error swavs k = Some w -> t < T ->
  nth_error (columns (flag c Ext) (flag c Abs)) q = Some col ->
  exists p, lookup [i; j; k; t; q]
      (first_stores (n_comp c) (n_size c) (n_wav c) T (stored_results (generate c)) (flag c Ext) (flag c Abs) (flag c Sca))
    = Some (Some (Coef col p t)) /\ nth_error (point_params comps ssizes swavs) p = Some (g, a, w).
Proof.
  intros c comps sizes wavs ssizes swavs HN HG PS _ PW _ E1 E2 E3 T i j k t q g a w col Hi Hj Hk Ht Hq.
  rewrite (Permutation_length PS) in E2. rewrite (Permutation_length PW) in E3.
  exists (point c i j k). split.
  - apply first_entry; auto; [rewrite E1|rewrite E2|rewrite E3]; apply nth_error_Some; congruence.
  - unfold point. rewrite E2, E3. apply point_params_at; auto.
Qed.

Theorem C23_scattering_matrices : forall c comps (sizes wavs ssizes swavs : list V), 0 < n_slot c -> 0 < n_quad c ->
  Permutation sizes ssizes -> Sorted le ssizes -> Permutation wavs swavs -> Sorted le swavs ->
  n_comp c = length comps -> n_size c = length sizes -> n_wav c = length wavs -> flag c Sca = true ->
  forall T i j k t ph row col g a w, nth_error comps i = Some g -> nth_error ssizes j = Some a -> nth_error swavs k = Some w ->
  t < T -> ph < 2 * T -> row < 4 -> col < 4 ->
  exists p, lookup [i; j; k; t; ph; row; col]
      (second_stores (n_comp c) (n_size c) (n_wav c) T (stored_results (generate c)) (flag c Ext) (flag c Abs) (flag c Sca))
    = Some (Some (Zel p (t * (2 * T) + ph) row col)) /\ nth_error (point_params comps ssizes swavs) p = Some (g, a, w).
Proof.
  intros c comps sizes wavs ssizes swavs HN HG PS _ PW _ E1 E2 E3 HX T i j k t ph row col g a w Hi Hj Hk Ht Hph Hr Hc.
  rewrite (Permutation_length PS) in E2. rewrite (Permutation_length PW) in E3.
  exists (point c i j k). split.
  - apply second_entry; auto; [rewrite E1|rewrite E2|rewrite E3]; apply nth_error_Some; congruence.
  - unfold point. rewrite E2, E3. apply point_params_at; auto.
Qed.
End C23.
Print Assumptions C23_coefficients.
Print Assumptions C23_scattering_matrices.

(** a null pointer (without a Python exception) is returned exactly when nothing is requested *)
Theorem C23_null_result : forall C S_ W T res e a x, returns C S_ W T res e a x = None <-> (e = false /\ a = false /\ x = false).
Proof. intros. unfold returns. destruct e, a, x; cbn; split; intros H; try discriminate; auto; destruct H as (? & ? & ?); discriminate. Qed.
Print Assumptions C23_null_result.

(** The positions are those of the sorted sizes: with sizes (5, 3) the entry of
    the first size is computed for size 3. *)
Theorem C23_position_in_unsorted_input_refuted : exists c comps sizes ssizes wavs, 0 < n_slot c /\ 0 < n_quad c /\
  Permutation sizes ssizes /\ Sorted Nat.le ssizes /\ n_comp c = length comps /\ n_size c = length sizes /\ n_wav c = length wavs /\
  nth_error sizes 0 = Some 5 /\
  exists p, lookup [0; 0; 0; 0; 0]
      (first_stores (n_comp c) (n_size c) (n_wav c) 1 (stored_results (generate c)) (flag c Ext) (flag c Abs) (flag c Sca))
    = Some (Some (Coef Qext p 0)) /\ nth_error (point_params comps ssizes wavs) p = Some (7, 3, 1).
Proof.
  exists (ex_cfg 1), [7], [5; 3], [3; 5], [1]. split; [cbn; lia|]. split; [cbn; lia|]. split; [apply perm_swap|]. split; [repeat constructor|].
  repeat (split; [reflexivity|]). exists 0. split; vm_compute; reflexivity.
Qed.
Print Assumptions C23_position_in_unsorted_input_refuted.

Example C23_nonvacuous : Permutation [5; 3] [3; 5] /\ Sorted Nat.le [3; 5] /\ n_comp (ex_cfg 1) = length [7] /\ n_size (ex_cfg 1) = length [5; 3] /\
  n_wav (ex_cfg 1) = length [1] /\ flag (ex_cfg 1) Sca = true /\ columns (flag (ex_cfg 1) Ext) (flag (ex_cfg 1) Abs) = [Qext; Qextpol; Qextcpol].
Proof. repeat (split; [constructor || reflexivity|]); try reflexivity; repeat constructor. Qed.
