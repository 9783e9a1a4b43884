(** C79: from the inputs of the TaskManager to the numbers in the results.

    Specification (this section): the T-matrix of a particle of equal volume radius a and axis ratio d is the solution of
    T Q = - Rg Q, where Q and Rg Q are the surface integrals of Ebcm.v; it is averaged over orientations with Mishchenko's formula;
    the observables are those of Props_outputs.v and Frames.v; a result is their mean over the shapes. *)
From Coq Require Import List ZArith Arith Lia Bool Reals Lra Floats.SpecFloat FunctionalExtensionality.
From Coquelicot Require Import Complex.
From Verif Require Import Base Clebsch Matrix Props_matrix Wigner Props_optics Align AlignFacts Props_align Average QMatrix QFacts Ebcm EbcmFacts Props_tmatrix Optics TClass Frames FramesFacts Props_frames Props_outputs
  Observables Props_observables LockProto Sched Api TaskGraph TaskGraphFacts TaskDeps Footprint GraphApi GraphHist GraphRun Determinism SlotFree SlotFinal Converge Whole Props_whole Physics.
Import ListNotations.
Open Scope R_scope.

Section Spec.
Variable c : cfg.
Variable I : inputs.

(** Q and Rg Q of point p and shape is, in order n with 2 * factor * n quadrature points *)
Definition Q_of (rg : bool) (p is n m : nat) : nat -> nat -> C :=
  let points := (2 * (in_factor I * n))%nat in
  Q_spec (in_axis I is) (point_size c I p) (point_wavelength c I p) (point_mr c I p) (in_radial I n)
    points (fun g => acos (fst (in_rule I points) g)) (snd (in_rule I points)) rg m n.
Definition regular (p is n : nat) : Prop := forall m, (m <= n)%nat -> let size := (2 * Ebcm.orders m n)%nat in
  forall v, (forall i, (i < size)%nat -> cdot size (fun k => Q_of false p is n m i k * v k)%C = RtoC 0) -> forall j, (j < size)%nat -> v j = RtoC 0.
Definition solves (p is n : nat) (T : tmats) : Prop := forall m, (m <= n)%nat -> let size := (2 * Ebcm.orders m n)%nat in
  forall i j, (i < size)%nat -> (j < size)%nat -> cdot size (fun k => T m i k * Q_of false p is n m k j)%C = (- Q_of true p is n m i j)%C.
(** T^{ij}_{m n1 m n2} *)
Definition entry (n : nat) (T : tmats) (i j : bool) (m n1 n2 : Z) : C :=
  let row (b : bool) (a : Z) := ((if b then Ebcm.orders (Z.to_nat m) n else 0) + (Z.to_nat a - lowest (Z.to_nat m)))%nat in
  T (Z.to_nat m) (row i n1) (row j n2).
Definition averaged (p is n : nat) (T Tav : tmats) : Prop := forall i j m n1 n2, in_range (Z.of_nat n) m n1 n2 ->
  entry n Tav i j m n1 n2 =
  if in_aligned I (point_size c I p) (in_axis I is)
  then mishchenko (coefficient (in_coef I (point_size c I p) (in_axis I is))) (entry n T) i j m n1 n2
  else entry n T i j m n1 n2.
(** quantity q for angle or direction t of a particle with T-matrix T and axis along z *)
Definition observable (k : TaskGraph.kind) (p n : nat) (T : tmats) (q t : nat) : R :=
  let wavenumber := 2 * PI / point_wavelength c I p in
  let area := PI * (point_size c I p)² in
  match k with
  | Ext => let K := get_extinction_matrix n wavenumber T 0 0 (in_theta I t) 0 in
           nth q [K 0%nat 0%nat; K 0%nat 1%nat; K 2%nat 3%nat] 0 / area
  | Abs => (if in_account I
            then absorbed n wavenumber T (in_theta I t) (in_ngauss I) (fst (in_rule I (in_ngauss I))) (snd (in_rule I (in_ngauss I)))
                   (fst (in_rule_phi I (in_ngauss I))) (snd (in_rule_phi I (in_ngauss I))) q
            else get_extinction_matrix n wavenumber T 0 0 (in_theta I t) 0 q 0%nat) / area
  | Sca => let nphi := (2 * in_ntheta I)%nat in
           get_scattering_matrix n wavenumber T 0 0 (PI / 2) 0 (acos (fst (in_rule I (in_ntheta I)) (t / nphi)%nat)) (fst (in_rule_phi I nphi) (t mod nphi)%nat) (q / 4) (q mod 4)
  end.

(** reasonable inputs *)
Record physical : Prop := {
  ph_size : forall i, 0 < in_size I i; ph_wav : forall i, 0 < in_wavelength I i; ph_mr : forall p, point_mr c I p <> RtoC 0;
  ph_axis : forall is, (is < n_shape c)%nat -> 0 < in_axis I is;
  ph_weight : weights (map (fun is => (in_weight I is, fun _ _ => 0)) (seq 0 (n_shape c))) <> 0;
  ph_min : (1 <= o_min c)%nat;
  ph_rule : forall n, symmetric_rule n (fst (in_rule I (2 * n))) (snd (in_rule I (2 * n)));
  ph_points : forall n i, (i < n)%nat -> -1 <= fst (in_rule I n) i <= 1;
  ph_theta : forall i, (i < in_ntheta I)%nat -> 0 <= in_theta I i <= PI }.
(** the coefficients and the work array suffice for order n (C60) *)
Definition alignable (p is n : nat) : Prop :=
  in_aligned I (point_size c I p) (in_axis I is) = true ->
  (2 * n < length (in_coef I (point_size c I p) (in_axis I is)))%nat /\ ((2 * n + 1) * (2 * n + 1) <= length (in_cg I))%nat.
End Spec.

(* ---------------------------------------------- the kernels *)
Lemma mishchenko_ext : forall p T U i j nmax m n1 n2, in_range nmax m n1 n2 ->
  (forall m1, in_range nmax m1 n1 n2 -> T i j m1 n1 n2 = U i j m1 n1 n2) -> mishchenko p T i j m n1 n2 = mishchenko p U i j m n1 n2.
Proof.
  intros p T U i j nmax m n1 n2 (Hm & H1 & H2) E. unfold mishchenko. apply zsum_ext. intros N _. f_equal. apply zsum_ext. intros m1 Hm1. f_equal.
  unfold mirrored. destruct (Z.ltb_spec m1 0); [f_equal|]; apply E; repeat split; lia.
Qed.
Section Proof.
Variable c : cfg.
Variable I : inputs.
Notation K := (code c I).
Notation G := (n_quad c).

Lemma over : forall i j u v old, (j <= i)%nat -> k_store K i u (k_store K j v old) = k_store K i u old.
Proof.
  intros i j u v old H. cbn [k_store code]. unfold do_store. cbn [block_mat]. f_equal. apply functional_extensionality. intros r. apply functional_extensionality. intros q.
  unfold order_no. destruct (Nat.ltb_spec r (2 * (o_min c + i))), (Nat.ltb_spec q (2 * (o_min c + i))); cbn [andb]; auto;
  destruct (Nat.ltb_spec r (2 * (o_min c + j))), (Nat.ltb_spec q (2 * (o_min c + j))); cbn [andb]; auto; lia.
Qed.
Lemma ngauss_no : forall i, ngauss_of c I i = (in_factor I * (o_min c + i))%nat.
Proof. intros. unfold ngauss_of. lia. Qed.

Hypothesis PH : physical c I.
Section Block.
Variables p is i : nat.
Hypothesis His : (is < n_shape c)%nat.
Notation b := (p * n_shape c + is)%nat.
Notation n := (o_min c + i)%nat.
Lemma blk : (b / n_shape c = p /\ b mod n_shape c = is)%nat.
Proof.
  split.
  - rewrite Nat.div_add_l by lia. rewrite Nat.div_small by auto. lia.
  - rewrite Nat.add_comm, Nat.mod_add by lia. apply Nat.mod_small. auto.
Qed.
Lemma n_pos : (1 <= n)%nat.
Proof. pose proof (ph_min _ _ PH). lia. Qed.
Hypothesis REG : regular c I p is n.
Hypothesis AL : alignable c I p is n.

Notation the_env m := (make_env (in_radial I n) (n <? 100)%nat m n (ngauss_of c I i) (fst (in_rule I (2 * ngauss_of c I i))) (snd (in_rule I (2 * ngauss_of c I i)))
  (in_axis I is) (point_size c I p) (point_wavelength c I p) (point_mr c I p) (in_junk I) (fun _ _ => (0, 0))).
Lemma env_is : forall m, env_of m (k_iv K (b / n_shape c)) (k_nb K) (k_gauss K i) (sp_geometry c object K b i) (sp_inter c object K b i) (sp_wigner object K i) = the_env m.
Proof. intros m. unfold sp_geometry, sp_inter, sp_wigner, sp_geometry. rewrite (proj1 blk), (proj2 blk). reflexivity. Qed.

Lemma runs : forall m old, (m <= n)%nat -> exists T, task_execute (the_env m) m n (ngauss_of c I i) (in_pivot I) (in_lapack I) old = Some T.
Proof.
  intros m old Hm. destruct (task_execute (the_env m) m n (ngauss_of c I i) (in_pivot I) (in_lapack I) old) as [T|] eqn:E; eauto. exfalso.
  apply (C63_fails_exactly_when_singular (in_radial I n) (n <? 100)%nat m n (ngauss_of c I i)) in E; auto using n_pos;
    try (apply (ph_size _ _ PH)); try (apply (ph_wav _ _ PH)); try (apply (ph_mr _ _ PH)); try (apply (ph_axis _ _ PH); auto); try (apply (ph_rule _ _ PH)).
  destruct E as (v & j & Hj & Hv & Z). apply Hv. apply (REG m Hm v); auto. unfold Q_of. rewrite <- ngauss_no. exact Z.
Qed.
Lemma block_T : forall m, (m <= n)%nat -> exists old T, task_execute (the_env m) m n (ngauss_of c I i) (in_pivot I) (in_lapack I) old = Some T /\
  forall r q, (r < 2 * Ebcm.orders m n)%nat -> (q < 2 * Ebcm.orders m n)%nat -> block_mat (sp_T c object K b i m) r q = T r q.
Proof.
  intros m Hm. destruct (runs m zero_mat Hm) as (T & E). exists zero_mat, T. split; auto. intros r q Hr Hq. unfold sp_T. destruct (Nat.eqb_spec m 0) as [-> | N].
  - unfold sp_m0. cbn [k_store code k_m0]. unfold do_store, do_m0. rewrite env_is. cbn [fst block_mat].
    unfold order_no. rewrite E. unfold Ebcm.orders, lowest in *.
    destruct (Nat.ltb_spec r (2 * n)), (Nat.ltb_spec q (2 * n)); cbn [andb]; auto; lia.
  - cbn [k_mall code k_zero]. unfold do_mall. rewrite env_is. cbn [block_mat]. unfold order_no. rewrite E. reflexivity.
Qed.

Definition T_of : tmats := mats_of (map (sp_T c object K b i) (seq 0 (n + 1))).
Definition Tav_of : tmats := mats_of (map (sp_ensemble c object K b i) (seq 0 (n + 1))).
Lemma mats_at : forall f m, (m <= n)%nat -> mats_of (map f (seq 0 (n + 1))) m = block_mat (f m).
Proof.
  intros f m Hm. unfold mats_of. rewrite (nth_indep _ ONone (f 0%nat)) by (rewrite map_length, seq_length; lia). rewrite map_nth, seq_nth by lia. reflexivity.
Qed.
Lemma T_solves : solves c I p is n T_of.
Proof.
  intros m Hm size r q Hr Hq. destruct (block_T m Hm) as (old & T & E & A).
  destruct (C63_T_matrix (in_radial I n) (n <? 100)%nat m n (ngauss_of c I i) _ _ _ _ _ _ _ _ _ _ _ _ (ph_rule _ _ PH _) (ph_axis _ _ PH _ His) (ph_size _ _ PH _) (ph_wav _ _ PH _) (ph_mr _ _ PH _) Hm n_pos E) as (S1 & _).
  specialize (S1 r q Hr Hq). unfold Q_of. rewrite <- ngauss_no. etransitivity; [|exact S1]. apply cdot_ext. intros k Hk. unfold T_of. rewrite mats_at, A by auto. reflexivity.
Qed.

(* addressing *)
Definition row (m : nat) (j : bool) (a : nat) : nat := ((if j then Ebcm.orders m n else 0) + (a - lowest m))%nat.
Lemma row_ok : forall m j a, (m <= n)%nat -> (lowest m <= a <= n)%nat -> (row m j a < 2 * Ebcm.orders m n)%nat /\ kb (kind_of m n (row m j a)) = j /\ order_of m n (row m j a) = a.
Proof.
  intros m j a Hm Ha. unfold row, kind_of, order_of, Ebcm.orders, lowest in *. destruct j.
  - destruct (Nat.ltb_spec (n + 1 - Nat.max 1 m + (a - Nat.max 1 m)) (n + 1 - Nat.max 1 m)); cbn [kb]; repeat split; auto; lia.
  - destruct (Nat.ltb_spec (0 + (a - Nat.max 1 m)) (n + 1 - Nat.max 1 m)); cbn [kb]; repeat split; auto; lia.
Qed.
Lemma view_row : forall (T : tmats) j1 j2 m a1 a2, in_range (Z.of_nat n) m a1 a2 ->
  view n T j1 j2 m a1 a2 = T (Z.to_nat m) (row (Z.to_nat m) j1 (Z.to_nat a1)) (row (Z.to_nat m) j2 (Z.to_nat a2)).
Proof.
  intros T j1 j2 m a1 a2 (Hm & H1 & H2). unfold view, t_element, row, Ebcm.orders, lowest.
  destruct (Nat.ltb_spec 0 (Z.to_nat m)); f_equal; destruct j1, j2; cbn [Nat.b2n]; lia.
Qed.
Lemma view_entry : forall T j1 j2 m a1 a2, in_range (Z.of_nat n) m a1 a2 -> view n T j1 j2 m a1 a2 = entry n T j1 j2 m a1 a2.
Proof. intros. rewrite view_row by auto. reflexivity. Qed.

Lemma T_zero : forall j1 j2 a1 a2, (1 <= a1 <= Z.of_nat n)%Z -> (1 <= a2 <= Z.of_nat n)%Z -> j1 <> j2 -> view n T_of j1 j2 0%Z a1 a2 = RtoC 0.
Proof.
  intros j1 j2 a1 a2 H1 H2 N. rewrite view_row by (repeat split; lia). change (Z.to_nat 0) with 0%nat.
  destruct (block_T 0 ltac:(lia)) as (old & T & E & A).
  destruct (row_ok 0 j1 (Z.to_nat a1)) as (R1 & K1 & _); try (unfold lowest; lia). destruct (row_ok 0 j2 (Z.to_nat a2)) as (R2 & K2 & _); try (unfold lowest; lia).
  unfold T_of. rewrite mats_at, A by (auto; lia).
  apply (C64_symmetries (in_radial I n) (n <? 100)%nat 0 n (ngauss_of c I i) _ _ _ _ _ _ _ _ _ _ _ _ ltac:(lia) n_pos E); auto. right. right. split; auto. congruence.
Qed.
Lemma Tav_ok : averaged c I p is n T_of Tav_of.
Proof.
  assert (EX: exists cg' out, execute (in_aligned I (point_size c I p) (in_axis I is)) (in_coef I (point_size c I p) (in_axis I is)) (Z.of_nat n) (view n T_of) (in_cg I) (view n (fun _ => zero_mat)) = Some (cg', out) /\
    forall j1 j2 m a1 a2, in_range (Z.of_nat n) m a1 a2 -> out j1 j2 m a1 a2 =
      if in_aligned I (point_size c I p) (in_axis I is) then mishchenko (coefficient (in_coef I (point_size c I p) (in_axis I is))) (view n T_of) j1 j2 m a1 a2 else view n T_of j1 j2 m a1 a2).
  { unfold alignable in AL. destruct (in_aligned I (point_size c I p) (in_axis I is)).
    - destruct (AL eq_refl) as (L1 & L2). apply C58_average; try lia. intros j1 j2 a1 a2 H1 H2 N. apply T_zero; auto.
    - destruct (C58_no_alignment (in_coef I (point_size c I p) (in_axis I is)) (Z.of_nat n) (view n T_of) (in_cg I) (view n (fun _ => zero_mat)) ltac:(lia)) as (out & E & A).
      exists (in_cg I), out. auto. }
  destruct EX as (cg' & out & E & A). intros j1 j2 m a1 a2 HR.
  rewrite <- view_entry by auto. rewrite view_row by auto. pose proof HR as (Hm & H1 & H2).
  unfold Tav_of. rewrite mats_at by lia. unfold sp_ensemble. cbn [k_align code k_zero]. unfold do_align. rewrite (proj1 blk), (proj2 blk). cbn [block_mat].
  change (nmax_of c i) with n. fold T_of. rewrite E. cbn [block_mat].
  destruct (row_ok (Z.to_nat m) j1 (Z.to_nat a1)) as (R1 & K1 & O1); try (unfold lowest; lia). destruct (row_ok (Z.to_nat m) j2 (Z.to_nat a2)) as (R2 & K2 & O2); try (unfold lowest; lia).
  rewrite (proj2 (Nat.ltb_lt _ _) R1), (proj2 (Nat.ltb_lt _ _) R2). cbn [andb]. rewrite K1, K2, O1, O2, !Z2Nat.id by lia. rewrite A by auto.
  destruct (in_aligned I (point_size c I p) (in_axis I is)); [|apply view_entry; auto].
  apply (mishchenko_ext _ _ _ _ _ (Z.of_nat n)); auto. intros. apply view_entry. auto.
Qed.

Lemma coef_ok : (n <= o_max c)%nat -> forall k q t, (q < n_col k)%nat -> (t < n_dir I k)%nat ->
  coef_of (sp_single c object K k b i) q t = observable c I k p n Tav_of q t.
Proof.
  intros HM k q t Hq Ht. unfold sp_single. change (nmax_of c i) with n. cbn [k_coef code k_iv]. rewrite (proj1 blk). cbn [k_grid k_nb k_sw k_blank code].
  destruct k; unfold do_coef; cbn [vars_of]; fold Tav_of; unfold observable, do_tables, do_grid; cbn [grid_of tab_of fst snd coef_of n_col n_dir] in *.
  - destruct (C78_extinction (o_max c) n (2 * PI / point_wavelength c I p) (point_size c I p) Tav_of (in_ntheta I) (in_theta I) no_z blank_tables
      (mkE (fun _ => 0) (fun _ => 0) (fun _ => 0)) HM (ph_theta _ _ PH)) as (A & _).
    destruct (A t 0 Ht) as (A1 & A2 & A3). destruct q as [|[|[|q]]]; [exact A1|exact A2|exact A3|lia].
  - destruct (C78_absorption (in_account I) (o_max c) n (2 * PI / point_wavelength c I p) (point_size c I p) Tav_of (in_ntheta I) (in_theta I) (in_ngauss I)
      (fst (in_rule I (in_ngauss I))) (snd (in_rule I (in_ngauss I))) (fst (in_rule_phi I (in_ngauss I))) (snd (in_rule_phi I (in_ngauss I))) no_z no_z no_a
      (blank_tables, blank_tables) (mkQ (fun _ => 0) (fun _ => 0)) HM (ph_theta _ _ PH) (ph_points _ _ PH _)) as (A & _).
    destruct (A t Ht) as (A1 & A2). destruct q as [|[|q]]; [exact A1|exact A2|lia].
  - pose proof PI_RGT_0.
    destruct (C78_scattering true (o_max c) n (2 * PI / point_wavelength c I p) Tav_of (PI / 2) (in_ntheta I) (2 * in_ntheta I)
      (fst (in_rule I (in_ntheta I))) (fst (in_rule_phi I (2 * in_ntheta I))) (fun _ => 0) no_z (fun _ => 0) no_a
      (blank_tables, blank_tables) (fun l i0 j => 0) HM ltac:(lra) (fun _ => ph_points _ _ PH _)) as (A & _).
    assert (N0: (2 * in_ntheta I <> 0)%nat) by nia.
    assert (Hit: (t / (2 * in_ntheta I) < in_ntheta I)%nat) by (apply Nat.div_lt_upper_bound; lia).
    assert (Hip: (t mod (2 * in_ntheta I) < 2 * in_ntheta I)%nat) by (apply Nat.mod_upper_bound; auto).
    specialize (A _ _ (q / 4)%nat (q mod 4)%nat 0 Hit Hip).
    replace (t / (2 * in_ntheta I) * (2 * in_ntheta I) + t mod (2 * in_ntheta I))%nat with t in A by (rewrite (Nat.div_mod t (2 * in_ntheta I)) at 1 by auto; lia).
    exact A.
Qed.
End Block.

Lemma combine_map : forall A B (f : A -> B) l, combine l (map f l) = map (fun x => (x, f x)) l.
Proof. induction l as [|x l IH]; cbn [combine map]; [|rewrite IH]; reflexivity. Qed.
Lemma rsum_ext : forall A (f g : A -> R) l, (forall x, In x l -> f x = g x) -> Average.rsum f l = Average.rsum g l.
Proof. induction l as [|x l IH]; intros H; cbn [Average.rsum]; auto. rewrite IH by (intros; apply H; right; auto). rewrite (H x) by (left; auto). reflexivity. Qed.
Lemma rsum_map : forall A B (g : A -> B) (f : B -> R) l, Average.rsum f (map g l) = Average.rsum (fun x => f (g x)) l.
Proof. induction l as [|x l IH]; cbn [map Average.rsum]; auto. rewrite IH. reflexivity. Qed.

Lemma result_ok : forall (ord : nat -> nat) p, 
  (forall is, (is < n_shape c)%nat -> (o_min c + ord (p * n_shape c + is)%nat <= o_max c)%nat /\ regular c I p is (o_min c + ord (p * n_shape c + is)%nat) /\ alignable c I p is (o_min c + ord (p * n_shape c + is)%nat)) ->
  forall k q t, (q < n_col k)%nat -> (t < n_dir I k)%nat ->
  coef_of (sp_result c object K k ord p) q t =
  weighted_mean q t (map (fun is => (in_weight I is, observable c I k p (o_min c + ord (p * n_shape c + is)%nat) (Tav_of p is (ord (p * n_shape c + is)%nat)))) (seq 0 (n_shape c))).
Proof.
  intros ord p H k q t Hq Ht. unfold sp_result. cbn [k_avg code]. unfold do_average. cbn [coef_of]. rewrite map_length, seq_length, combine_map, map_map. cbn [fst snd].
  assert (W: forall f, weights (map (fun is => (in_weight I is, f is)) (seq 0 (n_shape c))) = Average.rsum (in_weight I) (seq 0 (n_shape c))).
  { intros f. unfold weights. rewrite rsum_map. reflexivity. }
  rewrite average_is_mean; auto.
  - unfold weighted_mean. rewrite !W, !rsum_map. f_equal. apply rsum_ext. intros is Hi. apply in_seq in Hi. cbn [fst snd]. f_equal. apply coef_ok; auto; try lia. apply H. lia.
  - rewrite W. pose proof (ph_weight _ _ PH) as P. rewrite W in P. exact P.
Qed.
End Proof.

(* ---------------------------------------------- C79 *)
(** For every run, schedule, number of threads and of shared slots: what the results contain. *)
Theorem C79_physics : forall c I prec emax tol, physical c I -> (o_min c < o_max c)%nat -> (Z.of_nat (o_max c) < 2 ^ 64)%Z ->
  forall (L : Type) (vcode : task -> L -> (cell -> val object) -> option (L * (cell -> val object))) (start : task -> L),
  respects_footprint (unshared c) (val object) L vcode ->
  (forall t s s', task_in c t -> completes (val object) L vcode start t s s' -> forall x, s' x = effect c object (code c I) prec emax tol t s x) ->
  forall ord, (forall b, (b < n_block c)%nat -> chosen c object (code c I) prec emax tol b (ord b)) ->
  let n p is := (o_min c + ord (p * n_shape c + is)%nat)%nat in
  (forall p is, (p < n_point c)%nat -> (is < n_shape c)%nat -> regular c I p is (n p is) /\ alignable c I p is (n p is)) ->
  forall N pre nq nt e s, (0 < N)%nat -> reservations pre -> (0 < nt)%nat ->
  running nq (generated (with_slots c N) pre) nt e -> all_exited e ->
  executed (with_slots c N) (val object) L (slotted c (val object) L vcode N) start (initial object (code c I)) (log (gl e)) s ->
  exists T Tav : nat -> nat -> tmats,
  (forall p is, (p < n_point c)%nat -> (is < n_shape c)%nat -> solves c I p is (n p is) (T p is) /\ averaged c I p is (n p is) (T p is) (Tav p is)) /\
  forall k p, flag c k = true -> (p < n_point c)%nat -> exists Q, s (DRes k p) = Data object (OCoef Q) /\
    forall q t, (q < n_col k)%nat -> (t < n_dir I k)%nat ->
      Q q t = weighted_mean q t (map (fun is => (in_weight I is, observable c I k p (n p is) (Tav p is))) (seq 0 (n_shape c))).
Proof.
  intros c I prec emax tol PH Ho H64 L vcode start HV HE ord Hord n HR N pre nq nt e s HN HP Hn Hrun Hx Hex.
  exists (fun p is => T_of c I p is (ord (p * n_shape c + is)%nat)), (fun p is => Tav_of c I p is (ord (p * n_shape c + is)%nat)). split.
  - intros p is Hp His. destruct (HR p is Hp His) as (A & B). split; [apply T_solves|apply Tav_ok]; auto.
  - intros k p Hk Hp.
    pose proof (C77_results c object (code c I) prec emax tol Ho H64 (over c I) L vcode start HV HE ord Hord N pre nq nt e s HN HP Hn Hrun Hx Hex k p Hk Hp) as E.
    eexists. split; [exact E|]. intros q t Hq Ht. apply (result_ok c I PH ord p); auto.
    intros is His. destruct (HR p is Hp His) as (A & B). split; [|split; [exact A|exact B]].
    assert (Hb: (p * n_shape c + is < n_block c)%nat) by (unfold n_block; nia).
    destruct (Hord _ Hb) as (Hi & _). rewrite (G_eq c Ho H64) in Hi. lia.
Qed.
Print Assumptions C79_physics.

(** The inputs of point [p] in that statement are those of its composition, size and wavelength: the point with indices (ic, iz, il) has the wavelength with index il, the size
    with index iz, and the refractive index the property function returns for exactly these three. *)
Theorem C79_points : forall c I ic iz il, (ic < n_comp c)%nat -> (iz < n_size c)%nat -> (il < n_wav c)%nat ->
  let p := ((ic * n_size c + iz) * n_wav c + il)%nat in
  (p < n_point c)%nat /\ point_index c (ic, iz, il) = p /\ point_wavelength c I p = in_wavelength I il /\ point_size c I p = in_size I iz /\
  point_mr c I p = in_index I (in_wavelength I il) (in_size I iz) ic.
Proof.
  intros c I ic iz il Hc Hz Hl p.
  assert (E1: (p mod n_wav c)%nat = il) by (unfold p; rewrite Nat.add_comm, Nat.mod_add by lia; apply Nat.mod_small; auto).
  assert (E2: (p / n_wav c)%nat = (ic * n_size c + iz)%nat) by (unfold p; rewrite Nat.div_add_l by lia; rewrite Nat.div_small by auto; lia).
  assert (E3: ((ic * n_size c + iz) mod n_size c)%nat = iz) by (rewrite Nat.add_comm, Nat.mod_add by lia; apply Nat.mod_small; auto).
  assert (E4: (p / (n_wav c * n_size c))%nat = ic) by (rewrite <- Nat.div_div, E2 by lia; rewrite Nat.div_add_l by lia; rewrite Nat.div_small by auto; lia).
  assert (W: point_wavelength c I p = in_wavelength I il) by (unfold point_wavelength; rewrite E1; auto).
  assert (S: point_size c I p = in_size I iz) by (unfold point_size; rewrite E2, E3; auto).
  assert (A: (ic * n_size c + iz + 1 <= n_comp c * n_size c)%nat) by nia.
  pose proof (Nat.mul_le_mono_r _ _ (n_wav c) A) as A'. split; [unfold n_point, p; lia|]. split; [unfold point_index, p; cbn [fst snd]; nia|]. split; [exact W|]. split; [exact S|].
  unfold point_mr. rewrite W, S, E4. auto.
Qed.
Print Assumptions C79_points.

(** The T-matrix in this statement is unique. *)
Theorem C79_unique : forall c I p is n T U, physical c I -> (is < n_shape c)%nat -> (1 <= n)%nat -> regular c I p is n -> solves c I p is n T -> solves c I p is n U ->
  forall m i j, (m <= n)%nat -> (i < 2 * Ebcm.orders m n)%nat -> (j < 2 * Ebcm.orders m n)%nat -> T m i j = U m i j.
Proof.
  intros c I p is n T U PH His Hn REG HT HU m i j Hm Hi Hj.
  set (e := make_env (in_radial I n) true m n (in_factor I * n) (fst (in_rule I (2 * (in_factor I * n)))) (snd (in_rule I (2 * (in_factor I * n))))
    (in_axis I is) (point_size c I p) (point_wavelength c I p) (point_mr c I p) (in_junk I) (fun _ _ => (0, 0))).
  destruct (task_execute e m n (in_factor I * n) (in_pivot I) (in_lapack I) zero_mat) as [W|] eqn:E.
  - destruct (C63_T_matrix (in_radial I n) true m n (in_factor I * n) _ _ _ _ _ _ _ _ _ _ _ _ (ph_rule _ _ PH _) (ph_axis _ _ PH _ His) (ph_size _ _ PH _) (ph_wav _ _ PH _) (ph_mr _ _ PH _) Hm Hn E) as (_ & S2).
    rewrite (S2 (T m)), (S2 (U m)); auto; [apply HU|apply HT]; auto.
  - exfalso. apply (C63_fails_exactly_when_singular (in_radial I n) true m n (in_factor I * n)) in E; auto;
      try (apply (ph_size _ _ PH)); try (apply (ph_wav _ _ PH)); try (apply (ph_mr _ _ PH)); try (apply (ph_axis _ _ PH); auto); try (apply (ph_rule _ _ PH)).
    destruct E as (v & l & Hl & Hv & Z). apply Hv. apply (REG m Hm v); auto.
Qed.
Print Assumptions C79_unique.

(** The order search compares the efficiency factors of the m = 0 elements of that T-matrix. *)
Definition norm2 (z : C) : R := Re z * Re z + Im z * Im z.
Definition Q_scattering (n : nat) (T : tmats) : R :=
  Average.rsum (fun l => (2 * INR l + 1) * (norm2 (entry n T false false 0 (Z.of_nat l) (Z.of_nat l)) + norm2 (entry n T true true 0 (Z.of_nat l) (Z.of_nat l)))) (seq 1 n).
Definition Q_extinction (n : nat) (T : tmats) : R :=
  Average.rsum (fun l => (2 * INR l + 1) * (Re (entry n T false false 0 (Z.of_nat l) (Z.of_nat l)) + Re (entry n T true true 0 (Z.of_nat l) (Z.of_nat l)))) (seq 1 n).
Lemma for_sums : forall (f g : nat -> R) n lo q, for_ lo (lo + n) (fun l q => (fst q + f l, snd q + g l)) q = (fst q + Average.rsum f (seq lo n), snd q + Average.rsum g (seq lo n)).
Proof.
  intros f g n lo q. unfold for_. replace (lo + n - lo)%nat with n by lia. revert lo q. induction n as [|n IH]; intros lo q; cbn [seq fold_left Average.rsum].
  - destruct q. cbn [fst snd]. f_equal; ring.
  - rewrite IH. cbn [fst snd]. f_equal; ring.
Qed.
Theorem C79_convergence_test : forall c I p is i, physical c I -> (is < n_shape c)%nat -> let n := (o_min c + i)%nat in regular c I p is n ->
  exists T, solves c I p is n T /\
  sp_Qs c object (code c I) (p * n_shape c + is) i = in_round I (Q_scattering n T) /\ sp_Qe c object (code c I) (p * n_shape c + is) i = in_round I (Q_extinction n T).
Proof.
  intros c I p is i PH His n REG. exists (T_of c I p is i). split; [apply T_solves; auto|].
  destruct (runs c I PH p is i His REG 0 zero_mat ltac:(lia)) as (T & E).
  assert (B: forall r q, (r < 2 * n)%nat -> (q < 2 * n)%nat -> T_of c I p is i 0%nat r q = T r q).
  { intros r q Hr Hq. unfold T_of. rewrite (mats_at c is i His _ 0%nat) by (apply Nat.le_0_l). unfold sp_T. cbn [Nat.eqb]. unfold sp_m0. cbn [k_store code k_m0]. unfold do_store, do_m0. rewrite (env_is c I p is i His). cbn [fst block_mat].
    unfold order_no. rewrite E. fold n. destruct (Nat.ltb_spec r (2 * n)), (Nat.ltb_spec q (2 * n)); cbn [andb]; auto; lia. }
  unfold sp_Qs, sp_Qe, sp_m0. cbn [k_m0 code]. unfold do_m0. rewrite (env_is c I p is i His). unfold order_no. rewrite E. cbn [fst snd]. fold n.
  unfold efficiencies. rewrite Nat.add_comm. rewrite (for_sums (fun l => _) (fun l => _)). cbn [fst snd]. rewrite !Rplus_0_l.
  split; f_equal; apply rsum_ext; intros l Hl; apply in_seq in Hl; f_equal; unfold entry, norm2; change (Z.to_nat 0) with 0%nat; rewrite !Nat2Z.id;
    unfold Ebcm.orders, lowest; rewrite !B by lia; unfold Re, Im;
    replace (0 + (l - Nat.max 1 0))%nat with (l - 1)%nat by lia; replace (n + 1 - Nat.max 1 0 + (l - Nat.max 1 0))%nat with (n + l - 1)%nat by lia; reflexivity.
Qed.
Print Assumptions C79_convergence_test.

(* ---------------------------------------------- a concrete case *)
(** One size, one wavelength, two spherical shapes, order 1 only, all three kinds of results, random orientation;
    the radial functions [toy] of C63. *)
Definition mid (N : nat) : (nat -> R) * (nat -> R) := (fun i => -1 + (2 * INR i + 1) / INR N, fun _ => 1).
Definition ph_in : inputs := mkInputs (fun _ => 1) (fun _ => 1) (fun _ _ _ => RtoC 2) (fun _ => 1) (fun is => INR is + 1) (fun _ _ => true) (fun _ _ => [1; 0; 0])
  1 1 (fun _ => PI / 2) 1 true mid mid (fun _ => toy) (fun _ => S754_zero false) (fun _ => 0%nat) (fun _ => RtoC 0) (repeat 0 9) (fun _ => 0, fun _ => 0).
Definition ph_cfg : cfg := mkCfg 1 1 1 2 1 2 1 (fun _ => true).

Lemma mid_sym : forall n, symmetric_rule n (fst (mid (2 * n))) (snd (mid (2 * n))).
Proof.
  intros n i Hi. unfold mid. cbn [fst snd].
  assert (N: 0 < INR (2 * n)) by (apply lt_0_INR; lia). assert (Q: INR i + 1 <= INR (2 * n)) by (rewrite <- S_INR; apply le_INR; lia). pose proof (pos_INR i).
  assert (B: forall a, a / INR (2 * n) * INR (2 * n) = a) by (intros; field; lra).
  split; [|split; [|reflexivity]].
  - pose proof (B (2 * INR i + 1)). set (z := (2 * INR i + 1) / INR (2 * n)) in *. split; [|]; nra.
  - replace (2 * n - 1 - i)%nat with (2 * n - S i)%nat by lia. rewrite minus_INR, S_INR by lia. field. lra.
Qed.
Lemma mid_in : forall n i, (i < n)%nat -> -1 <= fst (mid n) i <= 1.
Proof.
  intros n i Hi. unfold mid. cbn [fst].
  assert (N: 0 < INR n) by (apply lt_0_INR; lia). assert (Q: INR i + 1 <= INR n) by (rewrite <- S_INR; apply le_INR; lia). pose proof (pos_INR i).
  assert (B: (2 * INR i + 1) / INR n * INR n = 2 * INR i + 1) by (field; lra). set (z := (2 * INR i + 1) / INR n) in *. split; nra.
Qed.
Lemma ph_ok : physical ph_cfg ph_in.
Proof.
  pose proof PI_RGT_0. split; cbn [in_size in_wavelength in_axis in_rule in_theta ph_in o_min ph_cfg]; intros; try lra; try lia.
  - unfold point_mr. cbn [in_index ph_in]. intro E. apply RtoC_inj in E. lra.
  - cbn. unfold weights. cbn. lra.
  - apply mid_sym.
  - apply mid_in; auto.
Qed.
Lemma ph_regular : forall p is, regular ph_cfg ph_in p is 1.
Proof.
  intros p is m Hm size v Hv j Hj.
  set (x := fst (mid 2)). set (w := snd (mid 2)).
  assert (SR: symmetric_rule 1 x w) by (apply (mid_sym 1)).
  assert (MR: RtoC 2 <> RtoC 0) by (intro E; apply RtoC_inj in E; lra).
  destruct (C62_surface_integrals toy true m 1 1 x w 1 1 1 (RtoC 2) (fun _ => 0, fun _ => 0) (fun _ _ => (0, 0)) SR ltac:(lra) ltac:(lra) ltac:(lra) MR Hm ltac:(lia)) as (common & CN & CQ).
  set (e := make_env toy true m 1 1 x w 1 1 1 (RtoC 2) (fun _ => 0, fun _ => 0) (fun _ _ => (0, 0))) in *.
  assert (HxS: symmetric_points 1 x (angles x)) by (apply (angles_ok 1 x w); auto).
  destruct (HxS 0%nat ltac:(lia)) as (_ & B & _). pose proof (sin_gt_0 _ (proj1 B) (proj2 B)) as SP.
  destruct (e_wigner toy true m 1 1 x w (angles x) 1 1 1 (RtoC 2) (fun _ => 0, fun _ => 0) (fun _ _ => (0, 0)) HxS ltac:(lia) 0%nat ltac:(lia)) as (s & Ss & Ws).
  specialize (Ws 1%nat ltac:(lia)). fold e in Ws. cbn [Nat.sub] in Ws. set (t0 := angles x 0%nat) in *.
  set (f1 := weight e 0%nat * r2 e 0%nat * (s * dspec 1 m t0 * (s * dspec 1 m t0) * (sintheta2inv e 0%nat * (INR m * INR m)) + s * dspec' 1 m t0 * (s * dspec' 1 m t0))).
  assert (F: 0 < f1).
  { assert (R2: r2 e 0%nat = radius 1 t0 * radius 1 t0) by (apply (e_r2 toy true m 1 1 x w (angles x)); auto; lra || lia).
    unfold f1. change (weight e 0%nat) with 1. rewrite R2. pose proof (radius_pos 1 t0 ltac:(lra)) as RP.
    assert (S2: 0 < sintheta2inv e 0%nat).
    { change (sintheta2inv e 0%nat) with (snd (gauss_inverses 1 x (fun _ => 0, fun _ => 0)) 0%nat).
      rewrite (proj2 (gauss_inverses_at 1 x (angles x) (fun _ => 0, fun _ => 0) HxS 0%nat ltac:(lia))). fold t0. apply Rdiv_lt_0_compat; [lra|]. apply Rmult_lt_0_compat; lra. }
    replace (s * dspec 1 m t0 * (s * dspec 1 m t0)) with (s * s * (dspec 1 m t0)²) by (unfold Rsqr; ring).
    replace (s * dspec' 1 m t0 * (s * dspec' 1 m t0)) with (s * s * (dspec' 1 m t0)²) by (unfold Rsqr; ring). rewrite Ss, !Rmult_1_l.
    apply Rmult_lt_0_compat; [nra|]. pose proof (Rle_0_sqr (dspec 1 m t0)). pose proof (Rle_0_sqr (dspec' 1 m t0)).
    assert (m = 0 \/ m = 1)%nat as [M|M] by lia.
    - assert (D1: dspec' 1 m t0 <> 0).
      { rewrite M. pose proof (dspec_derivative 1 0 t0) as D. intro E. rewrite E in D.
        assert (D2: derivable_pt_lim cos t0 0). { apply (Legendre.derivable_ext (dspec 1 0)); [intros; apply dspec_1_0|auto]. }
        pose proof (uniqueness_limite _ _ _ _ D2 (derivable_pt_lim_cos t0)). lra. }
      pose proof (Rsqr_pos_lt _ D1). rewrite M. cbn [INR]. rewrite M in *. lra.
    - assert (D1: dspec 1 m t0 <> 0).
      { rewrite M, dspec_diag_step, dspec_0_0. cbn [INR]. assert (0 < sqrt ((2 * (0 + 1) - 1) / (2 * (0 + 1)))) by (apply sqrt_lt_R0; lra). assert (0 < sqrt ((2 * (0 + 1) - 1) / (2 * (0 + 1))) * sin t0) by (apply Rmult_lt_0_compat; auto). lra. }
      pose proof (Rsqr_pos_lt _ D1). rewrite M in *. cbn [INR]. assert (0 < (dspec 1 1 t0)² * (sintheta2inv e 0%nat * (1 * 1))) by (apply Rmult_lt_0_compat; lra). lra. }
  assert (A0: 0 < QMatrix.ann e 1 1). { unfold e, make_env, QMatrix.ann, ann_element. cbn [Nat.sub INR]. apply Rmult_lt_0_compat; apply sqrt_lt_R0; lra. }
  pose proof PI_RGT_0 as PP. set (k := k2 e). assert (KE: k = 2 * PI / 1 * (2 * PI / 1)) by reflexivity. assert (KP: 0 < k) by (rewrite KE; apply Rmult_lt_0_compat; lra).
  assert (KM: k2mr e = (RtoC 2 * RtoC k)%C) by reflexivity.
  assert (SZ: size = 2%nat) by (unfold size, Ebcm.orders, lowest; lia).
  assert (EL: forall i l, (i < 2)%nat -> (l < 2)%nat -> exists z, 0 < z /\
    Q_of ph_cfg ph_in false p is 1 m i l = if Nat.eqb i l then RtoC (common * z) else RtoC 0).
  { intros i l Hi Hl. destruct (CQ i l ltac:(lia) ltac:(lia)) as (E & _).
    exists ((if Nat.eqb i 0 then 2 else 1) * k * (QMatrix.ann e 1 1 * f1)). split.
    { apply Rmult_lt_0_compat; [apply Rmult_lt_0_compat; auto; destruct (Nat.eqb i 0); lra|apply Rmult_lt_0_compat; auto]. }
    unfold Q_of. cbn [in_factor ph_in in_axis in_radial in_rule]. change (2 * (1 * 1))%nat with 2%nat. fold x w. etransitivity; [exact E|].
    destruct (task_matrices_at e m 1 1 Hm ltac:(lia) i l ltac:(lia) ltac:(lia)) as (E1 & _). rewrite E1.
    assert (H1: hQ e 0 1 = RtoC 1) by reflexivity. assert (H2: dhQ e 0 1 = RtoC 1) by reflexivity.
    assert (J0: jkrmr e 0 1 = RtoC 0) by reflexivity. assert (J1: djkrmr e 0 1 = RtoC 1) by reflexivity.
    assert (KO: forall u, (u < 2)%nat -> order_of m 1 u = 1%nat /\ kind_of m 1 u = if (u =? 0)%nat then WM else WN).
    { intros u Hu. unfold order_of, kind_of, Ebcm.orders, lowest in *. assert (m = 0 \/ m = 1)%nat as [M|M] by lia; subst m; assert (u = 0 \/ u = 1)%nat as [U|U] by lia; subst u; split; reflexivity. }
    destruct (KO i Hi) as (O1 & K1). destruct (KO l Hl) as (O2 & K2). rewrite O1, O2, K1, K2.
    cbn [Align.csum]. assert (i = 0 \/ i = 1)%nat as [-> | ->] by lia; assert (l = 0 \/ l = 1)%nat as [-> | ->] by lia; cbn [Nat.eqb kb]; unfold kept; cbn [Nat.add Nat.even Bool.eqb];
      try ring; unfold contribution; cbv zeta; cbn [Nat.sub]; rewrite Ws, J0, J1, KM, H1, H2; cbn [fst snd]; fold f1; fold k; rewrite !RtoC_mult; ring. }
  rewrite SZ in *.
  destruct (EL j j Hj Hj) as (z & Hz & E). rewrite Nat.eqb_refl in E.
  specialize (Hv j Hj). rewrite cdot_sum in Hv.
  assert (NZ: RtoC (common * z) <> RtoC 0). { intro X. apply RtoC_inj in X. apply Rmult_integral in X. destruct X; [contradiction|lra]. }
  assert (OFF: forall l, (l < 2)%nat -> l <> j -> Q_of ph_cfg ph_in false p is 1 m j l = RtoC 0).
  { intros l Hl N. destruct (EL j l Hj Hl) as (z' & _ & E'). rewrite E'. destruct (Nat.eqb_spec j l); [congruence|reflexivity]. }
  assert (P: (RtoC (common * z) * v j)%C = RtoC 0).
  { rewrite <- Hv. assert (j = 0 \/ j = 1)%nat as [-> | ->] by lia; cbn [sum].
    - rewrite (OFF 1%nat) by lia. rewrite E. ring.
    - rewrite (OFF 0%nat) by lia. rewrite E. ring. }
  destruct (Ceq_dec (v j) (RtoC 0)) as [X|X]; auto. exfalso. exact (Cmult_neq_0 _ _ NZ X P).
Qed.
Lemma ph_alignable : forall p is, alignable ph_cfg ph_in p is 1.
Proof. intros p is _. cbn. lia. Qed.
Lemma ph_chosen : forall prec emax tol b, chosen ph_cfg object (code ph_cfg ph_in) prec emax tol b 0.
Proof. intros prec emax tol b. split; [vm_compute; lia|]. split; [intros j Hj; lia|]. right. reflexivity. Qed.
(** Every hypothesis of C79_physics holds of a complete run of three threads with one slot for the two shapes. *)
Example C79_example : exists e s, running 2 (generated (with_slots ph_cfg 1) []) 3 e /\ all_exited e /\
  executed (with_slots ph_cfg 1) (val object) bool (slotted ph_cfg (val object) bool (one_code ph_cfg object (code ph_cfg ph_in) 24 128 (S754_finite false 1 (-2))) 1) one_start
    (initial object (code ph_cfg ph_in)) (log (gl e)) s /\
  exists T Tav : nat -> nat -> tmats,
  (forall is, (is < 2)%nat -> solves ph_cfg ph_in 0 is 1 (T 0 is)%nat /\ averaged ph_cfg ph_in 0 is 1 (T 0 is)%nat (Tav 0 is)%nat) /\
  exists Q, s (DRes Sca 0) = Data object (OCoef Q) /\
    forall q t, (q < 16)%nat -> (t < 2)%nat -> Q q t = weighted_mean q t (map (fun is => (INR is + 1, observable ph_cfg ph_in Sca 0 1 (Tav 0 is)%nat)) [0%nat; 1%nat]).
Proof.
  assert (P: reservations []) by (intros x []).
  assert (A: (0 < n_slot (with_slots ph_cfg 1))%nat) by (cbn; lia). assert (B: (0 < n_quad (with_slots ph_cfg 1))%nat) by (vm_compute; lia).
  assert (C: (0 < o_max (with_slots ph_cfg 1))%nat) by (cbn; lia).
  destruct (run_exists 2 (generated (with_slots ph_cfg 1) []) 3) as (e & R & X); [apply generated_valid; auto|lia|apply generated_acyclic; auto|apply generated_lockable; auto|].
  assert (O: (o_min ph_cfg < o_max ph_cfg)%nat) by (cbn; lia). assert (H64: (Z.of_nat (o_max ph_cfg) < 2 ^ 64)%Z) by reflexivity.
  destruct (C77_outcome_exists ph_cfg object (code ph_cfg ph_in) 24 128 (S754_finite false 1 (-2)) 1 [] 2 3 e O H64 ltac:(lia) P ltac:(lia) R X) as (HV & HE & s & E).
  exists e, s. split; [exact R|]. split; [exact X|]. split; [exact E|].
  destruct (C79_physics ph_cfg ph_in 24 128 (S754_finite false 1 (-2)) ph_ok O H64 bool _ one_start HV HE (fun _ => 0%nat) (fun b _ => ph_chosen _ _ _ b)
    (fun p is _ _ => conj (ph_regular p is) (ph_alignable p is)) 1 [] 2 3 e s ltac:(lia) P ltac:(lia) R X E) as (T & Tav & H1 & H2).
  exists T, Tav. split.
  - intros is His. apply H1; auto.
  - apply (H2 Sca 0%nat); auto.
Qed.
