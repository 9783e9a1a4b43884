(** Layout of the results: ResultKey (/repo/src/ResultKey.hpp l.128-160) and the
    arrays built by get_table (/repo/src/CTMModule.cpp l.330-462). *)
From Coq Require Import List Arith Lia Bool Permutation Sorted.
From Verif Require Import Base TaskGraph TaskGraphFacts TaskDeps GraphApi GraphHist DryRun MemLimit.
Import ListNotations.

(** get_result_index, ResultKey.hpp l.140-155 *)
Definition result_index (S_ W R c s w r : nat) : nat := c * S_ * W * R + s * W * R + w * R + r.

Lemma result_index_eq : forall S_ W R c s w r, result_index S_ W R c s w r = ((c * S_ + s) * W + w) * R + r.
Proof. intros. unfold result_index. nia. Qed.
Lemma pair_inj : forall n a b c d, b < n -> d < n -> a * n + b = c * n + d -> a = c /\ b = d.
Proof.
  intros n a b c d Hb Hd H. assert (E1: (a * n + b) / n = a) by (rewrite Nat.div_add_l, Nat.div_small by lia; lia).
  assert (E2: (c * n + d) / n = c) by (rewrite Nat.div_add_l, Nat.div_small by lia; lia).
  rewrite H in E1. split; [congruence|]. nia.
Qed.
Lemma pair_lt : forall n m a b, a < m -> b < n -> a * n + b < m * n.
Proof. intros. nia. Qed.
Lemma pair_onto : forall n m i, i < m * n -> exists a b, a < m /\ b < n /\ a * n + b = i.
Proof.
  intros n m i H. assert (n <> 0) by nia. exists (i / n), (i mod n).
  assert (i / n < m) by (apply Nat.div_lt_upper_bound; nia).
  split; auto. split; [apply Nat.mod_upper_bound; auto|]. rewrite Nat.mul_comm. symmetry. apply Nat.div_mod. auto.
Qed.
Theorem result_index_inj : forall S_ W R c s w r c' s' w' r', s < S_ -> w < W -> r < R -> s' < S_ -> w' < W -> r' < R ->
  result_index S_ W R c s w r = result_index S_ W R c' s' w' r' -> c = c' /\ s = s' /\ w = w' /\ r = r'.
Proof.
  intros * H1 H2 H3 H4 H5 H6 E. rewrite !result_index_eq in E. apply pair_inj in E; auto. destruct E as (E & ->).
  apply pair_inj in E; auto. destruct E as (E & ->). apply pair_inj in E; auto. destruct E as (-> & ->). auto.
Qed.
Theorem result_index_range : forall C S_ W R c s w r, c < C -> s < S_ -> w < W -> r < R -> result_index S_ W R c s w r < C * S_ * W * R.
Proof. intros. rewrite result_index_eq. apply pair_lt; auto. apply pair_lt; auto. apply pair_lt; auto. Qed.
Theorem result_index_onto : forall C S_ W R i, i < C * S_ * W * R ->
  exists c s w r, c < C /\ s < S_ /\ w < W /\ r < R /\ result_index S_ W R c s w r = i.
Proof.
  intros C S_ W R i H. apply pair_onto in H. destruct H as (a & r & Ha & Hr & <-). apply pair_onto in Ha. destruct Ha as (b & w & Hb & Hw & <-).
  apply pair_onto in Hb. destruct Hb as (c & s & Hc & Hs & <-). exists c, s, w, r. rewrite result_index_eq. auto 10.
Qed.

Lemma nth_flat : forall A B (f : A -> list B) m, (forall a, length (f a) = m) -> forall l i j a b, nth_error l i = Some a -> j < m ->
  nth_error (f a) j = Some b -> nth_error (flat_map f l) (i * m + j) = Some b.
Proof.
  intros A B f m HL. induction l as [|x l IH]; intros i j a b Hi Hj Hb; [destruct i; discriminate|].
  cbn [flat_map]. destruct i as [|i]; cbn [nth_error] in Hi.
  - injection Hi as ->. rewrite nth_error_app1 by (rewrite HL; lia). auto.
  - rewrite nth_error_app2 by (rewrite HL; nia). rewrite HL. replace (S i * m + j - m) with (i * m + j) by nia. eapply IH; eauto.
Qed.

(* ------------------------------------------ parameters of the results *)

(** TaskManager.hpp l.976-1059: the loops over compositions, sizes and
    wavelengths; a result created in an iteration carries the values of the three
    loop variables (grain_type, particle_size, wavelength), and the iterations are
    numbered like the points of TaskGraph.v.  [V] is float_type. *)
Definition point_params {V} (comps : list nat) (sizes wavs : list V) : list (nat * V * V) :=
  flat_map (fun g => flat_map (fun a => map (fun w => (g, a, w)) wavs) sizes) comps.

Lemma flat_length : forall A B (f : A -> list B) m l, (forall a, length (f a) = m) -> length (flat_map f l) = length l * m.
Proof. intros A B f m l H. induction l as [|x l IH]; auto. cbn [flat_map length]. rewrite app_length, H, IH. lia. Qed.
Theorem point_params_at : forall V comps (sizes wavs : list V) i j k g a w, nth_error comps i = Some g -> nth_error sizes j = Some a ->
  nth_error wavs k = Some w -> nth_error (point_params comps sizes wavs) ((i * length sizes + j) * length wavs + k) = Some (g, a, w).
Proof.
  intros V comps sizes wavs i j k g a w Hi Hj Hk.
  assert (Lj: j < length sizes) by (apply nth_error_Some; congruence). assert (Lk: k < length wavs) by (apply nth_error_Some; congruence).
  replace ((i * length sizes + j) * length wavs + k) with (i * (length sizes * length wavs) + (j * length wavs + k)) by nia.
  unfold point_params. eapply nth_flat; [|exact Hi|nia|].
  - intros x. apply flat_length. intros y. apply map_length.
  - eapply nth_flat; [|exact Hj|exact Lk|].
    + intros y. apply map_length.
    + rewrite nth_error_map, Hk. reflexivity.
Qed.

(* ------------------------------------------ get_table *)

Inductive column := Qabs | Qabspol | Qext | Qextpol | Qextcpol.
(** What one store copies into the array: a column of a coefficient result for one
    angle, or one element of a scattering matrix. [None]: a result that does not
    exist or has the wrong type was accessed (undefined behaviour). *)
Inductive value := Coef (q : column) (p angle : nat) | Zel (p direction row col : nat).

Section Table.
Variable C S_ W T : nat.                 (* array dimensions, l.338-342 *)
Variable results : list res.             (* the result pointers *)
Variable do_ext do_abs do_sca : bool.
Definition b2n (b : bool) : nat := if b then 1 else 0.
Definition R : nat := b2n do_ext + b2n do_abs + b2n do_sca.       (* TaskManager.hpp l.461-472 *)

(** static_cast of results[index] to the type with tag [k] *)
Definition fetch (k : kind) (i : nat) : option nat :=
  match nth_error results i with
  | Some (RRes k' p) => if kind_eq_dec k k' then Some p else None
  | _ => None
  end.
Definition coef (k : kind) (i : nat) (q : column) (t : nat) : option value := option_map (fun p => Coef q p t) (fetch k i).

(** the stores, in program order: array index and value *)
Definition store := (list nat * option value)%type.
(** l.355-389 *)
Definition abs_stores (c s w t ir : nat) : list store :=
  let i := result_index S_ W R c s w (b2n do_ext) in
  [([c; s; w; t; ir], coef Abs i Qabs t); ([c; s; w; t; ir + 1], coef Abs i Qabspol t)].
(** l.390-420 *)
Definition ext_stores (c s w t ir : nat) : list store :=
  let i := result_index S_ W R c s w 0 in
  [([c; s; w; t; ir], coef Ext i Qext t); ([c; s; w; t; ir + 1], coef Ext i Qextpol t); ([c; s; w; t; ir + 2], coef Ext i Qextcpol t)].
(** l.350-424 *)
Definition loop4 (f : nat -> nat -> nat -> nat -> list store) : list store :=
  flat_map (fun c => flat_map (fun s => flat_map (fun w => flat_map (fun t => f c s w t) (seq 0 T)) (seq 0 W)) (seq 0 S_)) (seq 0 C).
Definition first_stores : list store :=
  loop4 (fun c s w t =>
    (if do_abs then abs_stores c s w t 0 else []) ++
    (if do_ext then ext_stores c s w t (if do_abs then 2 else 0) else [])).
(** l.446-468 *)
Definition second_stores : list store :=
  loop4 (fun c s w t => flat_map (fun ph => flat_map (fun row => map (fun col =>
    ([c; s; w; t; ph; row; col],
     option_map (fun p => Zel p (2 * t * T + ph) row col) (fetch Sca (result_index S_ W R c s w (b2n do_ext + b2n do_abs)))))
    (seq 0 4)) (seq 0 4)) (seq 0 (2 * T))).

(** the array after the stores: the last one to an index wins; None: never written *)
Fixpoint lookup (idx : list nat) (l : list store) : option (option value) :=
  match l with
  | [] => None
  | (i, v) :: l => match lookup idx l with Some r => Some r | None => if list_eq_dec Nat.eq_dec i idx then Some v else None end
  end.
(** number of columns of the first array, l.331-337 *)
Definition n_col : nat := 2 * b2n do_abs + 3 * b2n do_ext.
(** the return value, l.480-488: None is a null pointer without an exception set *)
Definition returns : option (list (list store)) :=
  match (if do_abs || do_ext then [first_stores] else []) ++ (if do_sca then [second_stores] else []) with
  | [] => None
  | l => Some l
  end.

Lemma lookup_in : forall idx l v, In (idx, v) l -> (forall v', In (idx, v') l -> v' = v) -> lookup idx l = Some v.
Proof.
  intros idx. induction l as [|(i, u) l IH]; intros v H HU; [destruct H|]. cbn [lookup].
  destruct (lookup idx l) as [r|] eqn:E.
  - assert (K: In (idx, r) l).
    { clear - E. induction l as [|(i, u) l IH]; [discriminate|]. cbn [lookup] in E. destruct (lookup idx l) as [q|] eqn:E1.
      - injection E as ->. right. auto.
      - destruct (list_eq_dec Nat.eq_dec i idx) as [->|]; [|discriminate]. injection E as ->. left. auto. }
    f_equal. apply HU. right. auto.
  - destruct H as [H|H].
    + injection H as -> ->. destruct (list_eq_dec Nat.eq_dec idx idx); congruence.
    + exfalso. assert (K: None = Some v) by (apply IH; auto; intros v' Hv; apply HU; right; auto). congruence.
Qed.
Lemma in_loop4 : forall f x, In x (loop4 f) <-> exists c s w t, c < C /\ s < S_ /\ w < W /\ t < T /\ In x (f c s w t).
Proof.
  intros f x. unfold loop4. split.
  - intros H. apply in_flat_map in H. destruct H as (c & Hc & H). apply in_flat_map in H. destruct H as (s & Hs & H).
    apply in_flat_map in H. destruct H as (w & Hw & H). apply in_flat_map in H. destruct H as (t & Ht & H).
    apply in_seq in Hc, Hs, Hw, Ht. exists c, s, w, t. repeat split; auto; lia.
  - intros (c & s & w & t & Hc & Hs & Hw & Ht & H).
    apply in_flat_map. exists c. split; [apply in_seq; lia|]. apply in_flat_map. exists s. split; [apply in_seq; lia|].
    apply in_flat_map. exists w. split; [apply in_seq; lia|]. apply in_flat_map. exists t. split; [apply in_seq; lia|auto].
Qed.
End Table.

(** Specification: the columns of the first array, in order *)
Definition columns (do_ext do_abs : bool) : list column :=
  (if do_abs then [Qabs; Qabspol] else []) ++ (if do_ext then [Qext; Qextpol; Qextcpol] else []).

Section Right.
Variable c : cfg.
Notation C := (n_comp c).
Notation S_ := (n_size c).
Notation W := (n_wav c).
Notation e := (flag c Ext).
Notation a := (flag c Abs).
Notation x := (flag c Sca).
Hypothesis HN : 0 < n_slot c.
Hypothesis HG : 0 < n_quad c.
Notation results := (stored_results (generate c)).
Definition point (i j k : nat) : nat := (i * S_ + j) * W + k.

Lemma ks_length : length (ks c) = R e a x.
Proof. unfold ks, R, kinds. cbn. destruct e, a, x; reflexivity. Qed.
Lemma result_at : forall i j k r q, i < C -> j < S_ -> k < W -> nth_error (ks c) r = Some q ->
  nth_error results (result_index S_ W (R e a x) i j k r) = Some (RRes q (point i j k)).
Proof.
  intros i j k r q Hi Hj Hk Hr. rewrite results_stored, result_index_eq, <- ks_length by auto.
  assert (r < length (ks c)) by (apply nth_error_Some; congruence).
  assert (point i j k < n_point c).
  { unfold n_point, point. apply pair_lt; auto. apply pair_lt; auto. }
  eapply (nth_flat _ _ (fun p => map (fun k0 => RRes k0 p) (ks c))).
  - intros. apply map_length.
  - rewrite (nth_error_nth' _ 0) by (rewrite seq_length; auto). rewrite seq_nth by auto. reflexivity.
  - auto.
  - rewrite nth_error_map, Hr. reflexivity.
Qed.
Lemma fetch_ext : forall i j k, i < C -> j < S_ -> k < W -> e = true ->
  fetch results Ext (result_index S_ W (R e a x) i j k 0) = Some (point i j k).
Proof.
  intros i j k Hi Hj Hk He. unfold fetch. rewrite (result_at i j k 0 Ext); auto.
  unfold ks, kinds. cbn [filter]. rewrite He. reflexivity.
Qed.
Lemma fetch_abs : forall i j k, i < C -> j < S_ -> k < W -> a = true ->
  fetch results Abs (result_index S_ W (R e a x) i j k (b2n e)) = Some (point i j k).
Proof.
  intros i j k Hi Hj Hk He. unfold fetch. rewrite (result_at i j k (b2n e) Abs); auto.
  unfold ks, kinds. cbn [filter]. rewrite He. destruct e; reflexivity.
Qed.
Lemma fetch_sca : forall i j k, i < C -> j < S_ -> k < W -> x = true ->
  fetch results Sca (result_index S_ W (R e a x) i j k (b2n e + b2n a)) = Some (point i j k).
Proof.
  intros i j k Hi Hj Hk He. unfold fetch. rewrite (result_at i j k (b2n e + b2n a) Sca); auto.
  unfold ks, kinds. cbn [filter]. rewrite He. destruct e, a; reflexivity.
Qed.
Theorem first_entry : forall T i j k t q col, i < C -> j < S_ -> k < W -> t < T -> nth_error (columns e a) q = Some col ->
  lookup [i; j; k; t; q] (first_stores C S_ W T results e a x) = Some (Some (Coef col (point i j k) t)).
Proof.
  intros T i j k t q col Hi Hj Hk Ht Hq.
  assert (K: forall i j k t, i < C -> j < S_ -> k < W -> t < T -> forall y,
    In y ((if a then abs_stores S_ W results e a x i j k t 0 else []) ++
          (if e then ext_stores S_ W results e a x i j k t (if a then 2 else 0) else [])) <->
    exists q col, nth_error (columns e a) q = Some col /\ y = ([i; j; k; t; q], Some (Coef col (point i j k) t))).
  { clear i j k t q col Hi Hj Hk Ht Hq. intros i j k t Hi Hj Hk Ht y.
    assert (EA: a = true -> abs_stores S_ W results e a x i j k t 0 =
      [([i; j; k; t; 0], Some (Coef Qabs (point i j k) t)); ([i; j; k; t; 1], Some (Coef Qabspol (point i j k) t))]).
    { intros Ha. unfold abs_stores, coef. rewrite (fetch_abs i j k Hi Hj Hk Ha). reflexivity. }
    assert (EE: e = true -> forall n, ext_stores S_ W results e a x i j k t n =
      [([i; j; k; t; n], Some (Coef Qext (point i j k) t)); ([i; j; k; t; n + 1], Some (Coef Qextpol (point i j k) t));
       ([i; j; k; t; n + 2], Some (Coef Qextcpol (point i j k) t))]).
    { intros He n. unfold ext_stores, coef. rewrite (fetch_ext i j k Hi Hj Hk He). reflexivity. }
    unfold columns. split.
    - intros H. destruct a, e; try rewrite EA in H by auto; try rewrite EE in H by auto; cbn in H;
        repeat (destruct H as [H|H]; [subst y|]); try contradiction;
        [exists 0, Qabs|exists 1, Qabspol|exists 2, Qext|exists 3, Qextpol|exists 4, Qextcpol|exists 0, Qabs|exists 1, Qabspol|exists 0, Qext|exists 1, Qextpol|exists 2, Qextcpol]; auto.
    - intros (q & col & Hq & ->). destruct a, e; try rewrite EA by auto; try rewrite EE by auto; cbn in Hq |- *;
        do 6 (try (destruct q as [|q]; cbn in Hq; [try (injection Hq as <-); auto 10; try discriminate|])); try discriminate. }
  apply lookup_in.
  - apply in_loop4. exists i, j, k, t. repeat (split; [assumption|]). apply K; auto. exists q, col. auto.
  - intros v H. apply in_loop4 in H. destruct H as (i' & j' & k' & t' & Hi' & Hj' & Hk' & Ht' & H). apply K in H; auto.
    destruct H as (q' & col' & Hq' & E). injection E as -> -> -> -> -> ->. rewrite Hq in Hq'. injection Hq' as <-. auto.
Qed.
Theorem second_entry : forall T i j k t ph row col, i < C -> j < S_ -> k < W -> t < T -> ph < 2 * T -> row < 4 -> col < 4 -> x = true ->
  lookup [i; j; k; t; ph; row; col] (second_stores C S_ W T results e a x) = Some (Some (Zel (point i j k) (t * (2 * T) + ph) row col)).
Proof.
  intros T i j k t ph row col Hi Hj Hk Ht Hph Hr Hc Hx.
  assert (K: forall i j k t, i < C -> j < S_ -> k < W -> t < T -> forall y,
    In y (flat_map (fun ph => flat_map (fun row => map (fun col => ([i; j; k; t; ph; row; col],
       option_map (fun p => Zel p (2 * t * T + ph) row col) (fetch results Sca (result_index S_ W (R e a x) i j k (b2n e + b2n a)))))
      (seq 0 4)) (seq 0 4)) (seq 0 (2 * T))) <->
    exists ph row col, ph < 2 * T /\ row < 4 /\ col < 4 /\ y = ([i; j; k; t; ph; row; col], Some (Zel (point i j k) (t * (2 * T) + ph) row col))).
  { clear i j k t ph row col Hi Hj Hk Ht Hph Hr Hc. intros i j k t Hi Hj Hk Ht y.
    rewrite (fetch_sca i j k Hi Hj Hk Hx). cbn [option_map]. replace (2 * t * T) with (t * (2 * T)) by nia. split.
    - intros H. apply in_flat_map in H. destruct H as (ph & Hp & H). apply in_flat_map in H. destruct H as (row & Hr & H).
      apply in_map_iff in H. destruct H as (col & <- & Hc). apply in_seq in Hp, Hr, Hc. exists ph, row, col. repeat split; auto; lia.
    - intros (ph & row & col & Hp & Hr & Hc & ->). apply in_flat_map. exists ph. split; [apply in_seq; lia|].
      apply in_flat_map. exists row. split; [apply in_seq; lia|]. apply in_map_iff. exists col. split; [auto|apply in_seq; lia]. }
  apply lookup_in.
  - apply in_loop4. exists i, j, k, t. repeat (split; [assumption|]). apply K; auto. exists ph, row, col. auto.
  - intros v H. apply in_loop4 in H. destruct H as (i' & j' & k' & t' & Hi' & Hj' & Hk' & Ht' & H). apply K in H; auto.
    destruct H as (ph' & row' & col' & _ & _ & _ & E). injection E as -> -> -> -> -> -> -> ->. auto.
Qed.
End Right.
