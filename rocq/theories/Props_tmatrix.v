(** C61 (spheroid geometry), C62 (the Q matrices are the documented surface integrals), C63 (the T-matrix),
    C64 (its symmetries).

    Specification: Ebcm.v (vector spherical waves, surface element, quarters of Q), which does not refer to the
    tasks.  [symmetric_rule ngauss x w]: points in (-1, 1) and weights of a rule that is symmetric about 0, as the
    Gauss-Legendre rule is (C32). *)
From Coq Require Import List ZArith Arith Lia Bool Reals Lra.
From Coquelicot Require Import Complex Coquelicot.
From Verif Require Import Matrix Props_matrix Quadrature Props_quad Wigner Props_wigner Align AlignFacts QMatrix QFacts Ebcm EbcmFacts.
Import ListNotations.
Open Scope R_scope.

Definition symmetric_rule (ngauss : nat) (x w : nat -> R) : Prop := forall i, (i < 2 * ngauss)%nat ->
  -1 < x i < 1 /\ x (2 * ngauss - 1 - i)%nat = - x i /\ w (2 * ngauss - 1 - i)%nat = w i.
Definition angles (x : nat -> R) (i : nat) : R := acos (x i).
Lemma angles_ok : forall ngauss x w, symmetric_rule ngauss x w -> symmetric_points ngauss x (angles x).
Proof.
  intros ngauss x w H i Hi. destruct (H i Hi) as (B & E & _). unfold angles. split; [|split].
  - symmetry. apply cos_acos. lra.
  - apply acos_bound_lt; auto.
  - rewrite E. apply acos_opp.
Qed.
Lemma gauss_is_symmetric : forall fuel ngauss A x w, gauss_legendre fuel (2 * ngauss) A = Some (x, w) ->
  (forall i, (i < 2 * ngauss)%nat -> -1 < x i < 1) -> symmetric_rule ngauss x w.
Proof. intros fuel ngauss A x w E B i Hi. destruct (C32_symmetric _ _ _ _ _ E i Hi) as (E1 & E2). auto. Qed.

(** C61: the radius and its logarithmic derivative at every point, for every initial content of the arrays; the radius
    is that of the spheroid with semi-axes a, a, b, a / b = axis_ratio, and the volume of the unit sphere. *)
Theorem C61_spheroid_radius : forall ngauss x w axis_ratio junk, 0 < axis_ratio -> symmetric_rule ngauss x w ->
  forall i, (i < 2 * ngauss)%nat ->
  let theta := acos (x i) in
  let r2 := fst (get_r_dr_spheroid x (2 * ngauss) axis_ratio junk) i in
  let dr_over_r := snd (get_r_dr_spheroid x (2 * ngauss) axis_ratio junk) i in
  exists (a b : R) (r : R -> R), 0 < a /\ 0 < b /\ a / b = axis_ratio /\ 4 / 3 * PI * (a * a * b) = 4 / 3 * PI /\
    (forall t, 0 < r t /\ (r t * sin t) ^ 2 / a ^ 2 + (r t * cos t) ^ 2 / b ^ 2 = 1) /\
    r2 = r theta ^ 2 /\ exists dr, derivable_pt_lim r theta dr /\ dr_over_r = dr / r theta.
Proof.
  intros ngauss x w d junk Hd Hs i Hi theta.
  destruct (spheroid_at ngauss d x (angles x) junk Hd (angles_ok _ _ _ Hs) i Hi) as (E1 & E2). cbv zeta. rewrite E1, E2. fold theta.
  assert (AX: forall t, (radius d t * sin t) ^ 2 / (cbrt d) ^ 2 + (radius d t * cos t) ^ 2 / (cbrt d / d) ^ 2 = 1).
  { intros t. pose proof (cbrt_pos d) as P. pose proof (den_pos d t Hd) as D.
    replace ((radius d t * sin t) ^ 2) with (radius d t * radius d t * (sin t * sin t)) by ring.
    replace ((radius d t * cos t) ^ 2) with (radius d t * radius d t * (cos t * cos t)) by ring.
    rewrite radius_sqr by auto. unfold den in *. field. repeat split; lra. }
  exists (cbrt d), (cbrt d / d), (radius d). pose proof (cbrt_pos d) as P. pose proof (cbrt_cube d Hd) as C3.
  split; auto. split; [apply Rdiv_lt_0_compat; auto|]. split; [field; lra|]. split.
  { transitivity (4 / 3 * PI * (cbrt d * cbrt d * cbrt d / d)); [field; lra|]. rewrite C3. field. lra. }
  split; [intros t; split; [apply radius_pos; auto | apply AX]|].
  split; [unfold angles; fold theta; ring|].
  eexists. split; [apply is_derive_Reals, radius_derive; auto|].
  unfold angles. fold theta. rewrite log_derivative by auto. pose proof (radius_pos d theta Hd). pose proof (den_pos d theta Hd). field. lra.
Qed.
Print Assumptions C61_spheroid_radius.
(** an oblate spheroid (axis ratio 8, a = 2) at cos(theta) = 1/2: r^2 = 4 / (3/4 + 64/4) *)
Example C61_example : symmetric_rule 1 (fun i => if Nat.eqb i 0 then - (1 / 2) else 1 / 2) (fun _ => 1) /\
  fst (get_r_dr_spheroid (fun i => if Nat.eqb i 0 then - (1 / 2) else 1 / 2) 2 8 (fun _ => 0, fun _ => 0)) 1%nat = 4 * (1 / (67 / 4)).
Proof.
  split.
  - intros i Hi. assert (i = 0 \/ i = 1)%nat as [-> | ->] by lia; cbn; lra.
  - assert (C8: cbrt 8 * cbrt 8 = 4).
    { assert (cbrt 8 = 2). { unfold cbrt. replace 8 with (Rpower 2 3). rewrite Rpower_mult. replace (3 * / 3) with 1 by field. apply Rpower_1; lra.
      replace 3 with (INR 3) by (cbn; ring). rewrite Rpower_pow by lra. cbn. ring. }
      rewrite H. ring. }
    unfold get_r_dr_spheroid. change (2 / 2)%nat with 1%nat. unfold for_. change (1 - 0)%nat with 1%nat. cbn [seq fold_left].
    unfold vupd. cbn [fst snd Nat.eqb Nat.sub]. rewrite C8. f_equal. field.
Qed.

(** C62 *)
Definition task_matrices (e : env) (m nmax ngauss : nat) : cmat * cmat :=
  if (m =? 0)%nat then m0_assemble e nmax ngauss else mall_assemble e m nmax ngauss.
Definition task_execute (e : env) (m nmax ngauss : nat) (pivot : nat -> nat) (work : nat -> C) (T : cmat) : option cmat :=
  if (m =? 0)%nat then m0_execute e nmax ngauss pivot work T else mall_execute e m nmax ngauss pivot work T.
Lemma cell_index : forall m nmax i, (m <= nmax)%nat -> (1 <= nmax)%nat -> (i < 2 * orders m nmax)%nat ->
  i = cell (lowest m) (orders m nmax) (kb (kind_of m nmax i)) (order_of m nmax i) /\ (lowest m <= order_of m nmax i <= nmax)%nat.
Proof.
  intros m nmax i H H1 Hi. unfold cell, kind_of, order_of, orders, lowest in *. destruct (Nat.ltb_spec i (nmax + 1 - Nat.max 1 m)); cbn [kb]; split; lia.
Qed.
Lemma task_matrices_at : forall e m nmax ngauss, (m <= nmax)%nat -> (1 <= nmax)%nat ->
  forall i j, (i < 2 * orders m nmax)%nat -> (j < 2 * orders m nmax)%nat ->
  let p := kb (kind_of m nmax i) in let q := kb (kind_of m nmax j) in let n := order_of m nmax i in let n' := order_of m nmax j in
  fst (task_matrices e m nmax ngauss) i j = csum (fun ig => if kept p q n n' then contribution e m (hQ e ig n) (dhQ e ig n) p q ig n n' else RtoC 0) ngauss /\
  snd (task_matrices e m nmax ngauss) i j = csum (fun ig => if kept p q n n' then contribution e m (hRg e ig n) (dhRg e ig n) p q ig n n' else RtoC 0) ngauss.
Proof.
  intros e m nmax ngauss H H1 i j Hi Hj p q n n'.
  destruct (cell_index m nmax i H H1 Hi) as (Ei & Bi). destruct (cell_index m nmax j H H1 Hj) as (Ej & Bj). fold p n in Ei, Bi. fold q n' in Ej, Bj.
  rewrite Ei, Ej. unfold task_matrices, orders, lowest in *. destruct (Nat.eqb_spec m 0) as [-> | N].
  - replace (nmax + 1 - Nat.max 1 0)%nat with nmax by lia. change (Nat.max 1 0) with 1%nat in *. apply m0_assemble_at; lia.
  - replace (Nat.max 1 m) with m in * by lia. apply mall_assemble_at; lia.
Qed.

Lemma common_nonzero : forall m r, 0 < r -> - (-1) ^ m * (r * r) <> 0.
Proof.
  intros m r Hr E. pose proof (msq m) as M. apply Rmult_integral in E. destruct E as [E|E]; [|nra].
  assert (Z0: (-1) ^ m = 0) by lra. rewrite Z0 in M. lra.
Qed.
Section Particle.
Variables (b : radial) (stored : bool) (m nmax ngauss : nat) (x w : nat -> R) (axis_ratio R_V wavelength : R) (refractive_index : C).
Variables (junk : (nat -> R) * (nat -> R)) (table : nat -> nat -> R * R).
Hypotheses (Hs : symmetric_rule ngauss x w) (Ha : 0 < axis_ratio) (HR : 0 < R_V) (Hl : 0 < wavelength) (Hr : refractive_index <> RtoC 0).
Hypotheses (Hm : (m <= nmax)%nat) (Hn : (1 <= nmax)%nat).
Let e := make_env b stored m nmax ngauss x w axis_ratio R_V wavelength refractive_index junk table.
Let Qs rg := Q_spec axis_ratio R_V wavelength refractive_index b (2 * ngauss) (angles x) w rg m nmax.
(** One common factor for all elements of both matrices; it cancels in T.  The sum on the right is over all 2 ngauss
    points, the task only visits the first ngauss and leaves out the elements that vanish. *)
Lemma C62_in_section : forall i j, (i < 2 * orders m nmax)%nat -> (j < 2 * orders m nmax)%nat ->
  Qs false i j = (RtoC (- (-1) ^ m * (R_V * R_V)) * fst (task_matrices e m nmax ngauss) i j)%C /\
  Qs true i j = (RtoC (- (-1) ^ m * (R_V * R_V)) * snd (task_matrices e m nmax ngauss) i j)%C.
Proof.
  intros i j Hi Hj. destruct (task_matrices_at e m nmax ngauss Hm Hn i j Hi Hj) as (E1 & E2). rewrite E1, E2.
  destruct (cell_index m nmax i Hm Hn Hi) as (_ & Bi). destruct (cell_index m nmax j Hm Hn Hj) as (_ & Bj). unfold lowest in *.
  assert (SF: (RtoC 2 * scale_factor m R_V)%C = RtoC (- (-1) ^ m * (R_V * R_V))).
  { unfold scale_factor. rewrite <- RtoC_mult. f_equal. field. }
  unfold Qs, Q_spec. rewrite <- SF.
  assert (HwS: forall i, (i < 2 * ngauss)%nat -> w (2 * ngauss - 1 - i)%nat = w i) by (intros k Hk; apply Hs; auto).
  pose proof (angles_ok _ _ _ Hs) as HxS.
  split; rewrite (full_sum b stored m nmax ngauss x w (angles x) axis_ratio R_V wavelength refractive_index junk table) by (auto; lia); reflexivity.
Qed.

Lemma kept_zero : forall i j, (i < 2 * orders m nmax)%nat -> (j < 2 * orders m nmax)%nat ->
  kept (kb (kind_of m nmax i)) (kb (kind_of m nmax j)) (order_of m nmax i) (order_of m nmax j) = false ->
  fst (task_matrices e m nmax ngauss) i j = RtoC 0 /\ snd (task_matrices e m nmax ngauss) i j = RtoC 0.
Proof.
  intros i j Hi Hj K. destruct (task_matrices_at e m nmax ngauss Hm Hn i j Hi Hj) as (E1 & E2). rewrite E1, E2, K. split; apply csum_0; auto.
Qed.
Lemma off_zero : m = 0%nat -> forall i j, (i < 2 * orders m nmax)%nat -> (j < 2 * orders m nmax)%nat ->
  kind_of m nmax i <> kind_of m nmax j ->
  fst (task_matrices e m nmax ngauss) i j = RtoC 0 /\ snd (task_matrices e m nmax ngauss) i j = RtoC 0.
Proof.
  intros M0 i j Hi Hj K. destruct (task_matrices_at e m nmax ngauss Hm Hn i j Hi Hj) as (E1 & E2). rewrite E1, E2.
  assert (N: kb (kind_of m nmax i) <> kb (kind_of m nmax j)) by (destruct (kind_of m nmax i), (kind_of m nmax j); cbn; congruence).
  split; apply csum_0; intros ig _; destruct (kept _ _ _ _); auto; rewrite M0 at 1; apply contribution_m0_off; auto.
Qed.

Variables (pivot : nat -> nat) (work : nat -> C) (T T' : cmat).
Hypothesis HT : task_execute e m nmax ngauss pivot work T = Some T'.
Lemma HT' : c_t_matrix (orders m nmax) pivot work (fst (task_matrices e m nmax ngauss)) (snd (task_matrices e m nmax ngauss)) T = Some T'.
Proof.
  unfold task_execute, task_matrices, m0_execute, mall_execute, orders, lowest in *. destruct (Nat.eqb_spec m 0) as [E | N].
  - replace (nmax + 1 - Nat.max 1 m)%nat with nmax by lia. exact HT.
  - destruct (Nat.ltb_spec nmax m); [lia|]. replace (Nat.max 1 m) with m by lia. exact HT.
Qed.
Lemma cdot_ext : forall n f g, (forall k, (k < n)%nat -> f k = g k) -> cdot n f = cdot n g.
Proof. intros. rewrite !cdot_sum. apply sum_ext. auto. Qed.
Lemma cdot_scal : forall n a f, cdot n (fun k => (a * f k)%C) = (a * cdot n f)%C.
Proof. intros. rewrite !cdot_sum. apply (sum_mul_l _ _ _ _ _ _ _ _ _ C_field_theory). Qed.
Lemma C63_in_section :
  (forall i j, (i < 2 * orders m nmax)%nat -> (j < 2 * orders m nmax)%nat ->
     cdot (2 * orders m nmax) (fun k => T' i k * Qs false k j)%C = (- Qs true i j)%C) /\
  (forall X, (forall i j, (i < 2 * orders m nmax)%nat -> (j < 2 * orders m nmax)%nat -> cdot (2 * orders m nmax) (fun k => X i k * Qs false k j)%C = (- Qs true i j)%C) ->
     forall i j, (i < 2 * orders m nmax)%nat -> (j < 2 * orders m nmax)%nat -> X i j = T' i j).
Proof.
  destruct (C53_defining_system _ _ _ _ _ _ _ HT') as (S1 & S2 & _).
  set (z := RtoC (- (-1) ^ m * (R_V * R_V))). 
  assert (ZN: z <> RtoC 0).
  { unfold z. intro E. apply RtoC_inj in E. revert E. apply common_nonzero; auto. }
  assert (LIN: forall X i j, (i < 2 * orders m nmax)%nat -> (j < 2 * orders m nmax)%nat ->
    cdot (2 * orders m nmax) (fun k => X i k * Qs false k j)%C = (z * cdot (2 * orders m nmax) (fun k => X i k * fst (task_matrices e m nmax ngauss) k j))%C).
  { intros X i j Hi Hj. rewrite <- cdot_scal. apply cdot_ext. intros k Hk. destruct (C62_in_section k j Hk Hj) as (-> & _). unfold z. ring. }
  split.
  - intros i j Hi Hj. rewrite LIN by auto. rewrite S1 by auto. destruct (C62_in_section i j Hi Hj) as (_ & ->). unfold z. ring.
  - intros X HX. apply S2. intros i j Hi Hj. specialize (HX i j Hi Hj). rewrite LIN in HX by auto.
    destruct (C62_in_section i j Hi Hj) as (_ & E). rewrite E in HX. fold z in HX.
    set (c := cdot _ _) in *. set (r := snd _ _ _) in *.
    replace c with (/ z * (z * c))%C by (rewrite Cmult_assoc, Cinv_l by auto; ring). rewrite HX.
    transitivity (- (/ z * z * r))%C; [ring|]. rewrite Cinv_l by auto. ring.
Qed.
Lemma grading : forall (g : nat -> bool), 
  (forall i j, (i < 2 * orders m nmax)%nat -> (j < 2 * orders m nmax)%nat -> g i <> g j ->
     fst (task_matrices e m nmax ngauss) i j = RtoC 0 /\ snd (task_matrices e m nmax ngauss) i j = RtoC 0) ->
  forall i j, (i < 2 * orders m nmax)%nat -> (j < 2 * orders m nmax)%nat -> g i <> g j -> T' i j = RtoC 0.
Proof.
  intros g G i j Hi Hj N. destruct (C53_defining_system _ _ _ _ _ _ _ HT') as (S1 & S2 & _).
  rewrite <- (S2 (fun i j => if Bool.eqb (g i) (g j) then T' i j else RtoC 0)); auto.
  - destruct (Bool.eqb_spec (g i) (g j)); [contradiction|auto].
  - clear i j Hi Hj N. intros i j Hi Hj. destruct (Bool.bool_dec (g i) (g j)) as [E|N].
    + rewrite <- S1 by auto. apply cdot_ext. intros k Hk. destruct (Bool.eqb_spec (g i) (g k)); auto.
      destruct (G k j Hk Hj) as (-> & _); [congruence|]. ring.
    + destruct (G i j Hi Hj N) as (_ & ->). rewrite (cdot_ext _ _ (fun _ => RtoC 0 * RtoC 0)%C).
      * rewrite (cdot_scal _ (RtoC 0) (fun _ => RtoC 0)). ring.
      * intros k Hk. destruct (Bool.eqb_spec (g i) (g k)) as [E|]; [|ring].
        destruct (G k j Hk Hj) as (-> & _); [congruence|]. ring.
Qed.
Lemma C64_in_section : forall i j, (i < 2 * orders m nmax)%nat -> (j < 2 * orders m nmax)%nat ->
  (Nat.even (order_of m nmax i + order_of m nmax j) = true /\ kind_of m nmax i <> kind_of m nmax j) \/
  (Nat.even (order_of m nmax i + order_of m nmax j) = false /\ kind_of m nmax i = kind_of m nmax j) \/
  (m = 0%nat /\ kind_of m nmax i <> kind_of m nmax j) -> T' i j = RtoC 0.
Proof.
  intros i j Hi Hj [K | [K | K]].
  - apply (grading (fun i => Bool.eqb (kb (kind_of m nmax i)) (Nat.even (order_of m nmax i)))); auto.
    + clear i j Hi Hj K. intros i j Hi Hj N. apply kept_zero; auto. unfold kept. rewrite Nat.even_add.
      destruct (kb (kind_of m nmax i)), (kb (kind_of m nmax j)), (Nat.even (order_of m nmax i)), (Nat.even (order_of m nmax j)); cbn in *; congruence.
    + rewrite Nat.even_add in K. destruct (kind_of m nmax i), (kind_of m nmax j), (Nat.even (order_of m nmax i)), (Nat.even (order_of m nmax j)); cbn in *; destruct K; congruence.
  - apply (grading (fun i => Bool.eqb (kb (kind_of m nmax i)) (Nat.even (order_of m nmax i)))); auto.
    + clear i j Hi Hj K. intros i j Hi Hj N. apply kept_zero; auto. unfold kept. rewrite Nat.even_add.
      destruct (kb (kind_of m nmax i)), (kb (kind_of m nmax j)), (Nat.even (order_of m nmax i)), (Nat.even (order_of m nmax j)); cbn in *; congruence.
    + rewrite Nat.even_add in K. destruct (kind_of m nmax i), (kind_of m nmax j), (Nat.even (order_of m nmax i)), (Nat.even (order_of m nmax j)); cbn in *; destruct K; congruence.
  - destruct K as (M0 & K). apply (grading (fun i => kb (kind_of m nmax i))); auto.
    + intros i' j' Hi' Hj' N. apply off_zero; auto. congruence.
    + destruct (kind_of m nmax i), (kind_of m nmax j); cbn; congruence.
Qed.
End Particle.

Theorem C62_surface_integrals : forall b stored m nmax ngauss x w axis_ratio R_V wavelength refractive_index junk table,
  symmetric_rule ngauss x w -> 0 < axis_ratio -> 0 < R_V -> 0 < wavelength -> refractive_index <> RtoC 0 -> (m <= nmax)%nat -> (1 <= nmax)%nat ->
  let e := make_env b stored m nmax ngauss x w axis_ratio R_V wavelength refractive_index junk table in
  let Q rg := Q_spec axis_ratio R_V wavelength refractive_index b (2 * ngauss) (angles x) w rg m nmax in
  exists common : R, common <> 0 /\
  forall i j, (i < 2 * orders m nmax)%nat -> (j < 2 * orders m nmax)%nat ->
    Q false i j = (RtoC common * fst (task_matrices e m nmax ngauss) i j)%C /\
    Q true i j = (RtoC common * snd (task_matrices e m nmax ngauss) i j)%C.
Proof.
  intros. exists (- (-1) ^ m * (R_V * R_V)). split.
  - apply common_nonzero; auto.
  - intros i j Hi Hj. exact (C62_in_section b stored m nmax ngauss x w axis_ratio R_V wavelength refractive_index junk table H H0 H1 H2 H3 H4 H5 i j Hi Hj).
Qed.
Print Assumptions C62_surface_integrals.

Theorem C63_T_matrix : forall b stored m nmax ngauss x w axis_ratio R_V wavelength refractive_index junk table pivot work T T',
  symmetric_rule ngauss x w -> 0 < axis_ratio -> 0 < R_V -> 0 < wavelength -> refractive_index <> RtoC 0 -> (m <= nmax)%nat -> (1 <= nmax)%nat ->
  let e := make_env b stored m nmax ngauss x w axis_ratio R_V wavelength refractive_index junk table in
  let Q rg := Q_spec axis_ratio R_V wavelength refractive_index b (2 * ngauss) (angles x) w rg m nmax in
  let size := (2 * orders m nmax)%nat in
  task_execute e m nmax ngauss pivot work T = Some T' ->
  (forall i j, (i < size)%nat -> (j < size)%nat -> cdot size (fun k => T' i k * Q false k j)%C = (- Q true i j)%C) /\
  (forall X, (forall i j, (i < size)%nat -> (j < size)%nat -> cdot size (fun k => X i k * Q false k j)%C = (- Q true i j)%C) ->
     forall i j, (i < size)%nat -> (j < size)%nat -> X i j = T' i j).
Proof.
  intros. exact (C63_in_section b stored m nmax ngauss x w axis_ratio R_V wavelength refractive_index junk table H H0 H1 H2 H3 H4 H5 pivot work T T' H6).
Qed.
Print Assumptions C63_T_matrix.
(** the rule of GaussBasedResources is symmetric *)
Theorem C63_gauss_rule : forall fuel ngauss A x w, gauss_legendre fuel (2 * ngauss) A = Some (x, w) ->
  (forall i, (i < 2 * ngauss)%nat -> -1 < x i < 1) -> symmetric_rule ngauss x w.
Proof. exact gauss_is_symmetric. Qed.
Print Assumptions C63_gauss_rule.

(** the task fails exactly when the quadrature of Q is singular *)
Theorem C63_fails_exactly_when_singular : forall b stored m nmax ngauss x w axis_ratio R_V wavelength refractive_index junk table pivot work T,
  symmetric_rule ngauss x w -> 0 < axis_ratio -> 0 < R_V -> 0 < wavelength -> refractive_index <> RtoC 0 -> (m <= nmax)%nat -> (1 <= nmax)%nat ->
  let e := make_env b stored m nmax ngauss x w axis_ratio R_V wavelength refractive_index junk table in
  let Q := Q_spec axis_ratio R_V wavelength refractive_index b (2 * ngauss) (angles x) w false m nmax in
  let size := (2 * orders m nmax)%nat in
  task_execute e m nmax ngauss pivot work T = None <->
  exists v j, (j < size)%nat /\ v j <> RtoC 0 /\ forall i, (i < size)%nat -> cdot size (fun k => Q i k * v k)%C = RtoC 0.
Proof.
  intros b stored m nmax ngauss x w axis_ratio R_V wavelength refractive_index junk table pivot work T H H0 H1 H2 H3 H4 H5 e Q size.
  assert (EQ: task_execute e m nmax ngauss pivot work T = c_t_matrix (orders m nmax) pivot work (fst (task_matrices e m nmax ngauss)) (snd (task_matrices e m nmax ngauss)) T).
  { unfold task_execute, task_matrices, m0_execute, mall_execute, orders, lowest. destruct (Nat.eqb_spec m 0) as [E | N].
    - replace (nmax + 1 - Nat.max 1 m)%nat with nmax by lia. reflexivity.
    - destruct (Nat.ltb_spec nmax m); [lia|]. replace (Nat.max 1 m) with m by lia. reflexivity. }
  rewrite EQ, C53_fails_exactly_for_singular_Q. fold size.
  set (z := RtoC (- (-1) ^ m * (R_V * R_V))).
  assert (ZN: z <> RtoC 0) by (unfold z; intro E; apply RtoC_inj in E; revert E; apply common_nonzero; auto).
  assert (LIN: forall v i, (i < size)%nat -> cdot size (fun k => Q i k * v k)%C = (z * cdot size (fun k => fst (task_matrices e m nmax ngauss) i k * v k))%C).
  { intros v i Hi. rewrite <- cdot_scal. apply cdot_ext. intros k Hk.
    destruct (C62_in_section b stored m nmax ngauss x w axis_ratio R_V wavelength refractive_index junk table H H0 H1 H2 H3 H4 H5 i k Hi Hk) as (E & _).
    unfold Q. rewrite E. fold e z. ring. }
  split; intros (v & j & Hj & Nz & Z0); exists v, j; (split; [auto|split; [auto|]]); intros i Hi.
  - rewrite LIN by auto. rewrite Z0 by auto. ring.
  - specialize (Z0 i Hi). rewrite LIN in Z0 by auto. set (c := cdot _ _) in *.
    replace c with (/ z * (z * c))%C by (rewrite Cmult_assoc, Cinv_l by auto; ring). rewrite Z0. ring.
Qed.
Print Assumptions C63_fails_exactly_when_singular.

(** C64: elements that couple orders of different parity within a kind, or of equal parity between the kinds, vanish; for
    m = 0 the two kinds do not couple at all *)
Theorem C64_symmetries : forall b stored m nmax ngauss x w axis_ratio R_V wavelength refractive_index junk table pivot work T T',
  (m <= nmax)%nat -> (1 <= nmax)%nat ->
  let e := make_env b stored m nmax ngauss x w axis_ratio R_V wavelength refractive_index junk table in
  task_execute e m nmax ngauss pivot work T = Some T' ->
  forall i j, (i < 2 * orders m nmax)%nat -> (j < 2 * orders m nmax)%nat ->
  let even := Nat.even (order_of m nmax i + order_of m nmax j) in
  let same := kind_of m nmax i = kind_of m nmax j in
  (even = true /\ ~ same) \/ (even = false /\ same) \/ (m = 0%nat /\ ~ same) -> T' i j = RtoC 0.
Proof.
  intros b stored m nmax ngauss x w axis_ratio R_V wavelength refractive_index junk table pivot work T T' Hm Hn e HT i j Hi Hj even same K.
  exact (C64_in_section b stored m nmax ngauss x w axis_ratio R_V wavelength refractive_index junk table Hm Hn pivot work T T' HT i j Hi Hj K).
Qed.
Print Assumptions C64_symmetries.

(** A sphere, lowest order, m = 0, two points -+ 1/sqrt 3, with radial functions for which Q can be inverted: the
    hypotheses of C62-C64 are met and T exists. *)
Definition toy : radial := {| jay := fun _ _ => 1; djay := fun _ _ => 1; why := fun _ _ => 0; dwhy := fun _ _ => 0; jayc := fun _ _ => RtoC 0; djayc := fun _ _ => RtoC 1 |}.
Definition two (i : nat) : R := if Nat.eqb i 0 then - / sqrt 3 else / sqrt 3.
Example C63_example : symmetric_rule 1 two (fun _ => 1) /\
  let e := make_env toy true 0 1 1 two (fun _ => 1) 1 1 1 (RtoC 2) (fun _ => 0, fun _ => 0) (fun _ _ => (0, 0)) in
  exists T', task_execute e 0 1 1 (fun _ => 0%nat) (fun _ => RtoC 0) (fun _ _ => RtoC 0) = Some T' /\ T' 0%nat 0%nat = (- RtoC 1)%C.
Proof.
  assert (S3: 1 < sqrt 3) by (rewrite <- sqrt_1 at 1; apply sqrt_lt_1; lra).
  assert (I3: 0 < / sqrt 3 < 1) by (split; [apply Rinv_0_lt_compat; lra | rewrite <- Rinv_1; apply Rinv_lt_contravar; lra]).
  assert (SR: symmetric_rule 1 two (fun _ => 1)).
  { intros i Hi. unfold two. assert (i = 0 \/ i = 1)%nat as [-> | ->] by lia; cbn [Nat.eqb Nat.mul Nat.add Nat.sub]; repeat split; lra. }
  split; auto. intros e.
  assert (HxS: symmetric_points 1 two (angles two)) by (apply (angles_ok 1 two (fun _ => 1)); auto).
  destruct (HxS 0%nat ltac:(lia)) as (_ & B & _). pose proof (sin_gt_0 _ (proj1 B) (proj2 B)) as SP.
  destruct (e_wigner toy true 0 1 1 two (fun _ => 1) (angles two) 1 1 1 (RtoC 2) (fun _ => 0, fun _ => 0) (fun _ _ => (0, 0)) HxS ltac:(lia) 0%nat ltac:(lia)) as (s & Ss & Ws).
  specialize (Ws 1%nat ltac:(lia)). fold e in Ws. cbn [Nat.sub] in Ws.
  assert (D1: dspec' 1 0 (angles two 0%nat) <> 0).
  { pose proof (dspec_derivative 1 0 (angles two 0%nat)) as D. intro E. rewrite E in D.
    assert (D2: derivable_pt_lim cos (angles two 0%nat) 0).
    { apply (Legendre.derivable_ext (dspec 1 0)); [intros; apply dspec_1_0|auto]. }
    pose proof (uniqueness_limite _ _ _ _ D2 (derivable_pt_lim_cos (angles two 0%nat))). lra. }
  set (g := ann e 1 1 * (weight e 0%nat * r2 e 0%nat * (0 + s * dspec' 1 0 (angles two 0%nat) * (s * dspec' 1 0 (angles two 0%nat))))).
  assert (R2: r2 e 0%nat = radius 1 (angles two 0%nat) * radius 1 (angles two 0%nat)).
  { apply (e_r2 toy true 0 1 1 two (fun _ => 1) (angles two)); auto; lra || lia. }
  assert (G: g <> 0).
  { unfold g. rewrite R2. pose proof (radius_pos 1 (angles two 0%nat) ltac:(lra)) as RP.
    assert (A0: 0 < ann e 1 1). { unfold e, make_env, ann, ann_element. cbn [Nat.sub INR]. apply Rmult_lt_0_compat; apply sqrt_lt_R0; lra. }
    change (weight e 0%nat) with 1. set (D := dspec' 1 0 _) in *. assert (0 < D * D) by nra. set (r := radius 1 _) in *. assert (0 < r * r) by nra.
    replace (0 + s * D * (s * D)) with (s * s * (D * D)) by ring. rewrite Ss.
    assert (0 < ann e 1 1 * (1 * (r * r) * (1 * (D * D)))) by (apply Rmult_lt_0_compat; auto; nra). lra. }
  assert (GC: RtoC g <> RtoC 0) by (intro E; apply G, RtoC_inj; auto).
  pose proof PI_RGT_0 as PP. set (k := k2 e). assert (K: k = 2 * PI / 1 * (2 * PI / 1)) by reflexivity. assert (KP: 0 < k) by (rewrite K; apply Rmult_lt_0_compat; lra).
  assert (KC: RtoC k <> RtoC 0) by (intro E; apply RtoC_inj in E; lra).
  assert (KM: k2mr e = (RtoC 2 * RtoC k)%C) by reflexivity.
  assert (TWO: RtoC 2 <> RtoC 0) by (intro E; apply RtoC_inj in E; lra).
  assert (EL: forall i j, (i < 2)%nat -> (j < 2)%nat ->
    fst (task_matrices e 0 1 1) i j = (if Nat.eqb i j then (if Nat.eqb i 0 then RtoC 2 else RtoC 1) * RtoC k * RtoC g else RtoC 0)%C /\
    snd (task_matrices e 0 1 1) i j = (if Nat.eqb i j then (if Nat.eqb i 0 then RtoC 2 else RtoC 1) * RtoC k * RtoC g else RtoC 0)%C).
  { intros i j Hi Hj. destruct (task_matrices_at e 0 1 1 ltac:(lia) ltac:(lia) i j ltac:(cbn; lia) ltac:(cbn; lia)) as (E1 & E2). rewrite E1, E2. clear E1 E2.
    assert (H1: hQ e 0 1 = RtoC 1) by reflexivity. assert (H2: dhQ e 0 1 = RtoC 1) by reflexivity.
    assert (H3: hRg e 0 1 = RtoC 1) by reflexivity. assert (H4: dhRg e 0 1 = RtoC 1) by reflexivity.
    assert (J0: jkrmr e 0 1 = RtoC 0) by reflexivity. assert (J1: djkrmr e 0 1 = RtoC 1) by reflexivity.
    cbn [csum]. assert (i = 0 \/ i = 1)%nat as [-> | ->] by lia; assert (j = 0 \/ j = 1)%nat as [-> | ->] by lia;
      change (kind_of 0 1 0) with WM; change (kind_of 0 1 1) with WN; change (order_of 0 1 0) with 1%nat; change (order_of 0 1 1) with 1%nat;
      cbn [kb]; unfold kept; cbn [Nat.add Nat.even Bool.eqb Nat.eqb]; rewrite ?H1, ?H2, ?H3, ?H4; split; try ring;
      unfold contribution; cbv zeta; cbn [Nat.sub]; rewrite Ws, J0, J1, KM; cbn [fst snd INR]; rewrite (Rmult_0_l 0), !(Rmult_0_r (sintheta2inv e 0%nat)), !(Rmult_0_r (_ * _)); fold k;
      unfold g; rewrite !(RtoC_mult (ann e 1 1)); ring. }
  assert (TE: task_execute e 0 1 1 (fun _ => 0%nat) (fun _ => RtoC 0) (fun _ _ => RtoC 0) =
    c_t_matrix 1 (fun _ => 0%nat) (fun _ => RtoC 0) (fst (task_matrices e 0 1 1)) (snd (task_matrices e 0 1 1)) (fun _ _ => RtoC 0)) by reflexivity.
  rewrite TE. clearbody e. destruct (c_t_matrix 1 _ _ _ _ _) as [T'|] eqn:ET.
  - exists T'. split; auto. destruct (C53_defining_system _ _ _ _ _ _ _ ET) as (S1 & _ & _). specialize (S1 0%nat 0%nat ltac:(lia) ltac:(lia)).
    unfold cdot in S1. cbn [Nat.mul Nat.add seq fold_right] in S1.
    destruct (EL 0%nat 0%nat ltac:(lia) ltac:(lia)) as (E00 & F00). destruct (EL 1%nat 0%nat ltac:(lia) ltac:(lia)) as (E10 & _).
    rewrite E00, E10, F00 in S1. cbn [Nat.eqb] in S1. set (y := (RtoC 2 * RtoC k * RtoC g)%C) in *.
    assert (Y: y <> RtoC 0) by (unfold y; apply Cmult_neq_0; auto; apply Cmult_neq_0; auto).
    assert (S2: (T' 0%nat 0%nat * y)%C = (- y)%C) by (rewrite <- S1; ring).
    replace (T' 0%nat 0%nat) with (T' 0%nat 0%nat * y * / y)%C by (rewrite <- Cmult_assoc, Cinv_r by auto; ring).
    rewrite S2. transitivity (- (y * / y))%C; [ring|]. rewrite Cinv_r by auto. reflexivity.
  - pose proof (proj1 (EL 0%nat 0%nat ltac:(lia) ltac:(lia))) as L00. pose proof (proj1 (EL 0%nat 1%nat ltac:(lia) ltac:(lia))) as L01.
    pose proof (proj1 (EL 1%nat 0%nat ltac:(lia) ltac:(lia))) as L10. pose proof (proj1 (EL 1%nat 1%nat ltac:(lia) ltac:(lia))) as L11. cbn [Nat.eqb] in L00, L01, L10, L11.
    exfalso. apply C53_fails_exactly_for_singular_Q in ET. destruct ET as (v & j & Hj & Nz & Z0).
    assert (j = 0 \/ j = 1)%nat as [-> | ->] by (cbn in Hj; lia); [specialize (Z0 0%nat ltac:(lia)) | specialize (Z0 1%nat ltac:(lia))];
      unfold cdot in Z0; cbn [Nat.mul Nat.add seq fold_right] in Z0; rewrite ?L00, ?L01, ?L10, ?L11 in Z0.
    + apply Nz. assert (Y: (RtoC 2 * RtoC k * RtoC g)%C <> RtoC 0) by (apply Cmult_neq_0; auto; apply Cmult_neq_0; auto). set (y := (RtoC 2 * RtoC k * RtoC g)%C) in *.
      replace (v 0%nat) with (/ y * (y * v 0%nat))%C by (rewrite Cmult_assoc, Cinv_l by auto; ring). replace (y * v 0%nat)%C with (RtoC 0) by (rewrite <- Z0; ring). ring.
    + apply Nz. assert (Y: (RtoC 1 * RtoC k * RtoC g)%C <> RtoC 0) by (apply Cmult_neq_0; auto; apply Cmult_neq_0; auto; intro E; apply RtoC_inj in E; lra). set (y := (RtoC 1 * RtoC k * RtoC g)%C) in *.
      replace (v 1%nat) with (/ y * (y * v 1%nat))%C by (rewrite Cmult_assoc, Cinv_l by auto; ring). replace (y * v 1%nat)%C with (RtoC 0) by (rewrite <- Z0; ring). ring.
Qed.
