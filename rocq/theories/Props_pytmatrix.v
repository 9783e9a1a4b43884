(** C83, C84: the TMatrix object of the Python module *)
From Coq Require Import List Arith Lia Bool ZArith Reals Lra Floats.SpecFloat.
From Coquelicot Require Import Coquelicot.
From Verif Require Import Base Clebsch Matrix Legendre Quadrature GaussExact Adaptive Props_adaptive Orientation Density Props_density Shape ShapeFacts Props_shape QMatrix Ebcm Wigner Optics Align AlignFacts Props_align Props_tmatrix
  TClass Props_tclass Frames FramesFacts Props_frames Props_outputs NumPy Props_numpy PyTMatrix.
Import ListNotations.
Local Open Scope R_scope.

(* ------------------------------------------------------------ average over orientations, on the object *)
Lemma store_at : forall nmax m n1 n2 t T i j m' a b, Props_align.in_range (Z.of_nat nmax) m n1 n2 -> Props_align.in_range (Z.of_nat nmax) m' a b ->
  class_view nmax (store nmax m n1 n2 t T) i j m' a b = if (m' =? m)%Z && (a =? n1)%Z && (b =? n2)%Z then quarter t i j else class_view nmax T i j m' a b.
Proof.
  intros nmax m n1 n2 t T i j m' a b H H'. unfold class_view, store. cbv zeta.
  assert (R: forall i j, Props_tclass.in_range nmax (Nat.b2n i) (Z.to_nat n1) (Nat.b2n j) (Z.to_nat n2) (Z.to_nat m)).
  { intros i' j'. destruct H as (A & B & D). unfold Props_tclass.in_range. destruct i', j'; cbn [Nat.b2n]; repeat split; lia. }
  assert (R': forall i j, Props_tclass.in_range nmax (Nat.b2n i) (Z.to_nat a) (Nat.b2n j) (Z.to_nat b) (Z.to_nat m')).
  { intros i' j'. destruct H' as (A & B & D). unfold Props_tclass.in_range. destruct i', j'; cbn [Nat.b2n]; repeat split; lia. }
  rewrite !C73_set_element by auto.
  assert (E1: (Z.to_nat m' =? Z.to_nat m)%nat = (m' =? m)%Z) by (destruct (Nat.eqb_spec (Z.to_nat m') (Z.to_nat m)), (Z.eqb_spec m' m); auto; destruct H, H'; lia).
  assert (E2: (Z.to_nat a =? Z.to_nat n1)%nat = (a =? n1)%Z) by (destruct (Nat.eqb_spec (Z.to_nat a) (Z.to_nat n1)), (Z.eqb_spec a n1); auto; destruct H as (? & ? & ?), H' as (? & ? & ?); lia).
  assert (E3: (Z.to_nat b =? Z.to_nat n2)%nat = (b =? n2)%Z) by (destruct (Nat.eqb_spec (Z.to_nat b) (Z.to_nat n2)), (Z.eqb_spec b n2); auto; destruct H as (? & ? & ?), H' as (? & ? & ?); lia).
  rewrite E1, E2, E3. destruct (m' =? m)%Z, (a =? n1)%Z, (b =? n2)%Z, i, j; reflexivity.
Qed.
Lemma apply_ok : forall coef nmax T, (2 * nmax < length coef)%nat -> plane_symmetric nmax T ->
  exists T', apply_to_object coef nmax T = Some T' /\
    forall i j m n1 n2, Props_align.in_range (Z.of_nat nmax) m n1 n2 -> class_view nmax T' i j m n1 n2 = Align.mishchenko (coefficient coef) (class_view nmax T) i j m n1 n2.
Proof.
  intros coef nmax T HC (P & _). unfold apply_to_object.
  destruct (mn_loops_ind _ (fun _ => True)
    (fun s m n1 n2 => Props_align.in_range (Z.of_nat nmax) m n1 n2 -> forall i j, class_view nmax s i j m n1 n2 = Align.mishchenko (coefficient coef) (class_view nmax T) i j m n1 n2) (Z.of_nat nmax)
    (fun m n1 n2 s => obind (element_fresh coef (class_view nmax T) m n1 n2) (fun t => Some (store nmax m n1 n2 t s))) T ltac:(lia))
    as (out & E & _ & D); [exact I| |].
  - intros m n1 n2 o Hm H1 H2 _.
    destruct (element_fresh_ok coef (class_view nmax T) m n1 n2) as (t & E & Q); try lia.
    { intros i j X. unfold class_view. change (Z.to_nat 0) with 0%nat. destruct (P (Z.to_nat n1) (Z.to_nat n2)) as (Z1 & Z2); try lia. destruct i, j; try discriminate; cbn [Nat.b2n]; auto. }
    rewrite E. cbn [obind]. eexists. split; [reflexivity|]. split; [exact I|]. split.
    + intros HR i j. rewrite store_at by auto. rewrite !Z.eqb_refl. cbn [andb]. apply Q.
    + intros m' a b Hne HD HR i j. rewrite store_at by (auto; repeat split; lia). replace ((m' =? m)%Z && (a =? n1)%Z && (b =? n2)%Z) with false; [apply HD; auto|].
      destruct (Z.eqb_spec m' m), (Z.eqb_spec a n1), (Z.eqb_spec b n2); auto. subst. exfalso. apply Hne. reflexivity.
  - exists out. split; [exact E|]. intros i j m n1 n2 HR. apply (D m n1 n2); auto; destruct HR as (? & ? & ?); auto.
Qed.

(* ------------------------------------------------------------ order *)
Lemma Int_part_ge : forall k r, IZR k <= r -> (k <= Int_part r)%Z.
Proof. intros k r H. destruct (base_Int_part r) as (_ & B). assert (IZR (k - 1) < IZR (Int_part r)) as L by (rewrite minus_IZR; lra). apply lt_IZR in L. lia. Qed.
Lemma guess_ge : forall a b, (4 <= guess a b)%nat.
Proof. intros. unfold guess. cbv zeta. change 4%nat with (Z.to_nat 4). apply Z2Nat.inj_le; try lia; [|apply Int_part_ge, Rmax_l]. pose proof (Int_part_ge 4 (Rmax 4 (2 * PI * a / b + 4.05 * Rpower (2 * PI * a / b) (/ 3))) (Rmax_l _ _)). lia. Qed.
Lemma climb_order : forall prec emax qsca qext tol lo todo make dext dsca w, (forall s, (w_size w <= s)%nat -> (lo <= fst (make s))%nat) ->
  (forall n g, active w = Some (n, g) -> (lo <= n)%nat) ->
  let w' := climb prec emax qsca qext tol todo make dext dsca w in (w_size w <= w_size w')%nat /\ forall n g, active w' = Some (n, g) -> (lo <= n)%nat.
Proof.
  intros prec emax qsca qext tol lo. induction todo as [|k IH]; intros make dext dsca w HM HA; cbn [climb]; [split; auto|].
  destruct (above tol dext || above tol dsca); [|split; auto]. cbv zeta.
  match goal with |- context [climb _ _ _ _ _ k make ?d ?s ?w'] => destruct (IH make d s w') as (A & B) end; cbn [w_size active] in *.
  - intros s Hs. apply HM. lia.
  - intros n g E. injection E as E. rewrite (surjective_pairing (make (w_size w))) in E. injection E as E1 E2. rewrite <- E1. apply HM. lia.
  - split; [lia | exact B].
Qed.
Lemma order_ge : forall prec emax qsca qext tol guess mo ndgs mg n g, (2 <= guess)%nat -> calculate_TMatrix prec emax qsca qext tol guess mo ndgs mg = TMatrixOf n g -> (guess - 1 <= n)%nat.
Proof.
  intros prec emax qsca qext tol gs mo ndgs mg n g G E. unfold calculate_TMatrix in E. cbv zeta in E.
  match type of E with context [climb ?p ?em ?a ?b ?t (mo - gs) ?m ?d ?s ?w0] => destruct (climb_order p em a b t (gs - 1) (mo - gs) m d s w0) as (A & B); cbn [w_size active fst] in *; [intros; lia | discriminate | set (w := climb p em a b t (mo - gs) m d s w0) in *] end.
  destruct (Nat.eqb_spec (w_size w) mo); [discriminate|].
  match type of E with context [climb ?p ?em ?a ?b ?t ?k ?m ?d ?s ?w0] => destruct (climb_order p em a b t (gs - 1) k m d s w0) as (A' & B'); cbn [w_size active fst] in *; [intros; lia | exact B | set (w' := climb p em a b t k m d s w0) in *] end.
  destruct (w_size w' =? mg)%nat; [discriminate|]. destruct (active w') as [(n', g')|] eqn:F; [|discriminate]. injection E as -> ->. eapply B'. reflexivity.
Qed.

(** the ratio of radii of a spheroid is positive *)
Lemma ratio_positive : forall d, 0 < d -> 0 < sphere_ratio d.
Proof.
  intros d H. pose proof PI_RGT_0 as P. destruct (C67_area_exists d 1 H ltac:(lra)) as (S & S0 & I).
  assert (Q: 0 < S / (4 * PI)) by (apply Rdiv_lt_0_compat; lra).
  set (RV := Rpower (d * d * 1) (/ 3)). assert (V: 0 < RV) by apply exp_pos.
  assert (V3: RV * RV * RV = d * d * 1).
  { transitivity (RV ^ 3); [ring|]. unfold RV. rewrite <- Rpower_pow by apply exp_pos. rewrite Rpower_mult. replace (/ 3 * INR 3) with 1 by (cbn; field). apply Rpower_1. nra. }
  rewrite <- (Rdiv_1 d). rewrite (C67_equal_volume_to_equal_surface d 1 RV (sqrt (S / (4 * PI))) S); auto; try lra.
  - apply Rdiv_lt_0_compat; auto. apply sqrt_lt_R0. auto.
  - apply sqrt_lt_R0. auto.
  - rewrite V3. ring.
  - rewrite sqrt_sqrt by lra. field. lra.
Qed.

Lemma csum_ext' : forall n f g, (forall k, (k < n)%nat -> f k = g k) -> Align.csum f n = Align.csum g n.
Proof. induction n as [|n IH]; intros f g H; cbn [Align.csum]; auto. rewrite (IH f g), (H n); auto. Qed.
Lemma mishchenko_coef : forall p q T i j m n1 n2, (forall N, (0 <= N <= n1 + n2)%Z -> p N = q N) -> Align.mishchenko p T i j m n1 n2 = Align.mishchenko q T i j m n1 n2.
Proof.
  intros p q T i j m n1 n2 H. unfold Align.mishchenko, zsum. apply csum_ext'. intros k Hk. rewrite H; [reflexivity|]. lia.
Qed.
Lemma coef_loop_size : forall rule f da dr norm k i d d', coef_loop k i rule f da dr norm d = Some d' -> size d' = size d.
Proof.
  intros rule f da dr norm. induction k as [|k IH]; intros i d d' E; cbn [coef_loop] in E; [injection E as <-; auto|].
  destruct (gauss_legendre_quadrature _ _ _ _ _ _) as [(v, b)|]; [|discriminate]. apply IH in E. rewrite E. reflexivity.
Qed.
Lemma initialise_size : forall rule f da dr order o, initialise rule f da dr order = Made o -> size (dist o) = (order + 1)%nat.
Proof.
  intros rule f da dr order o E. unfold initialise in E. destruct (gauss_legendre_quadrature _ _ _ _ _ _) as [(v, b)|]; [|discriminate]. destruct (Req_EM_T v 0); [discriminate|]. cbv zeta in E.
  destruct (coef_loop _ _ _ _ _ _ _ _) as [d|] eqn:C; [|discriminate]. injection E as <-. cbn [dist]. apply coef_loop_size in C. rewrite C. reflexivity.
Qed.
Lemma orientation_size : forall rule c axis order d, orientation rule c axis order = Done d -> size d = (order + 1)%nat.
Proof.
  intros rule c axis order d E. unfold orientation in E.
  destruct (Req_EM_T c 0); [injection E as <-; apply (davis_greenstein_spec order axis 0); lia|].
  destruct (Req_EM_T c 1); [injection E as <-; apply (davis_greenstein_spec order axis 0); lia|].
  destruct (Req_EM_T c (1 / 3)).
  - destruct (initialise _ _ _ _ _) as [o| |] eqn:I; try discriminate. injection E as <-. apply initialise_size in I. auto.
  - destruct (Orientation.mishchenko order c) as [d'| |] eqn:M; try discriminate. injection E as <-.
    assert (1 / 5 <= c <= 3 / 5). { unfold Orientation.mishchenko in M. destruct (Rlt_dec c (1 / 5)); [discriminate|]. destruct (Rlt_dec (3 / 5) c); [discriminate|]. lra. }
    destruct (mishchenko_spec order c H) as (A & B). destruct (le_lt_dec 2 order) as [L|L]; [|rewrite B in M; [discriminate|auto]]. destruct (A L) as (d'' & M' & S & _). congruence.
Qed.

(* ------------------------------------------------------------ C83 *)
Section C83.
Variables prec emax : Z.
Variable round : R -> spec_float.
Variable radials : nat -> radial.
Variable rule : nat -> (nat -> R) * (nat -> R).
Variable angle_rule : nat -> option arrays.
Hypothesis rule_symmetric : forall n, symmetric_rule n (fst (rule n)) (snd (rule n)).
Let make := init prec emax round radials rule angle_rule.

(** the equal volume radius of a particle given by its own radius: of the sphere of equal volume, or of the sphere of equal surface area *)
Definition radius_means (is_equal_volume_radius : bool) (radius axis_ratio R_V : R) : Prop :=
  if is_equal_volume_radius then R_V = radius
  else forall a b S, 0 < a -> 0 < b -> a / b = axis_ratio -> spheroid_area a b S -> 4 * PI * (radius * radius) = S -> 4 / 3 * PI * (R_V * R_V * R_V) = 4 / 3 * PI * (a * a * b).

Lemma calculated : forall ev radius axis_ratio wavelength mr tol mo ndgs mg p T, 0 < radius -> 0 < axis_ratio -> 0 < wavelength -> mr <> RtoC 0 ->
  calculate prec emax round radials rule (if ev : bool then 1 else 0.1) axis_ratio radius wavelength mo tol ndgs mr mg = Done (p, T) ->
  sensible p /\ p_axis_ratio p = axis_ratio /\ p_wavelength p = wavelength /\ p_mr p = mr /\ radius_means ev radius axis_ratio (p_size p) /\
  exists T0, construct p = Some T0 /\ compute_additional_elements p T0 = Some T.
Proof.
  intros ev radius axis_ratio wavelength mr tol mo ndgs mg p T Hr Ha Hw Hm E. unfold calculate in E. cbv zeta in E.
  assert (RE: (if Rlt_dec 1e-8 (Rabs ((if ev then 1 else 0.1) - 1)) then sphere_ratio axis_ratio else (if ev then 1 else 0.1)) = if ev then 1 else sphere_ratio axis_ratio).
  { destruct ev.
    - rewrite Rminus_diag_eq, Rabs_R0 by auto. destruct (Rlt_dec 1e-8 0) as [X|X]; [exfalso; lra | reflexivity].
    - rewrite Rabs_left by lra. destruct (Rlt_dec 1e-8 (- (0.1 - 1))) as [X|X]; [reflexivity | exfalso; lra]. }
  rewrite RE in E. set (ratio := if ev then 1 else sphere_ratio axis_ratio) in *.
  destruct (calculate_TMatrix _ _ _ _ _ _ _ _ _) as [n g| |] eqn:O; try discriminate. apply order_ge in O; [|pose proof (guess_ge (ratio * radius) wavelength); lia].
  pose proof (guess_ge (ratio * radius) wavelength) as G4.
  destruct (construct _) as [T0|] eqn:E0; [|discriminate]. destruct (compute_additional_elements _ _) as [T1|] eqn:E1; [|discriminate]. injection E as <- <-.
  assert (RP: 0 < (if ev then 1 else sphere_ratio axis_ratio)) by (destruct ev; [lra | apply ratio_positive; auto]).
  split; [|split; [reflexivity|]; split; [reflexivity|]; split; [reflexivity|]; split; [|exists T0; auto]].
  - unfold sensible, particle_of. cbn. split; [apply rule_symmetric|]. split; auto. split; [|split; [auto|split; [auto|lia]]]. apply Rmult_lt_0_compat; auto.
  - unfold particle_of. cbn [p_size g_size]. unfold radius_means. destruct ev; [unfold ratio; lra|]. intros a b S A B AB SA RS. unfold ratio.
    set (RV := Rpower (a * a * b) (/ 3)). assert (V: 0 < RV) by apply exp_pos.
    assert (AAB: 0 < a * a * b) by (apply Rmult_lt_0_compat; auto; apply Rmult_lt_0_compat; auto).
    assert (V3: RV * RV * RV = a * a * b).
    { transitivity (RV ^ 3); [ring|]. unfold RV. rewrite <- Rpower_pow by apply exp_pos. rewrite Rpower_mult. replace (/ 3 * INR 3) with 1 by (cbn; field). apply Rpower_1. auto. }
    rewrite <- AB. rewrite (C67_equal_volume_to_equal_surface a b RV radius S); auto; [|rewrite V3; auto].
    replace (RV / radius * radius) with RV by (field; lra). rewrite V3. reflexivity.
Qed.

(** The object: the T-matrix of the particle that was asked for, averaged with the coefficients of the distribution *)
Theorem C83_object : forall radius axis_ratio wavelength mr cos2beta tol mo ndgs mg ev o, 0 < radius -> 0 < axis_ratio -> 0 < wavelength -> mr <> RtoC 0 ->
  make radius axis_ratio wavelength mr cos2beta tol mo ndgs mg ev = Done o ->
  exists p T, sensible p /\ p_axis_ratio p = axis_ratio /\ p_wavelength p = wavelength /\ p_mr p = mr /\ radius_means ev radius axis_ratio (p_size p) /\
    (forall m, (m <= p_nmax p)%nat -> is_T_matrix p m (read p T m)) /\ py_nmax o = p_nmax p /\ py_k o = 2 * PI / wavelength /\
    (cos2beta < 0 -> py_T o = T) /\
    (0 <= cos2beta -> exists d, orientation angle_rule cos2beta axis_ratio (2 * p_nmax p) = Done d /\
       forall i j m n1 n2, Props_align.in_range (Z.of_nat (p_nmax p)) m n1 n2 ->
       class_view (p_nmax p) (py_T o) i j m n1 n2 = Align.mishchenko (fun n => coef d (Z.to_nat n)) (class_view (p_nmax p) T) i j m n1 n2).
Proof.
  intros radius axis_ratio wavelength mr cos2beta tol mo ndgs mg ev o Hr Ha Hw Hm E. unfold make, init in E. cbv zeta in E.
  destruct (calculate _ _ _ _ _ _ _ _ _ _ _ _ _ _) as [(p, T)|] eqn:C; [|discriminate].
  destruct (calculated _ _ _ _ _ _ _ _ _ _ _ Hr Ha Hw Hm C) as (S1 & S2 & S3 & S4 & S5 & T0 & E0 & E1). exists p, T.
  split; [exact S1|]. split; [exact S2|]. split; [exact S3|]. split; [exact S4|]. split; [exact S5|].
  split; [intros m Hle; exact (C73_T_matrix p T0 T S1 E0 E1 m Hle)|].
  destruct (Rle_dec 0 cos2beta) as [L|L].
  - destruct (orientation _ _ _ _) as [d|] eqn:D; [|discriminate]. destruct (apply_to_object _ _ _) as [T'|] eqn:A; [|discriminate]. injection E as <-. cbn [py_nmax py_k py_T].
    split; [reflexivity|]. split; [reflexivity|]. split; [lra|]. intros _. exists d. split; [reflexivity|]. intros i j m n1 n2 HR.
    pose proof (orientation_size _ _ _ _ _ D) as SZ.
    destruct (apply_ok (map (coef d) (seq 0 (size d))) (p_nmax p) T) as (T'' & A' & Q); [rewrite map_length, seq_length; lia | exact (C75_objects_are_plane_symmetric p T0 T S1 E0 E1)|].
    rewrite A in A'. injection A' as <-. rewrite Q by auto. apply mishchenko_coef. intros N HN. unfold coefficient. destruct HR as (? & ? & ?).
    rewrite (nth_indep _ 0 (coef d 0)) by (rewrite map_length, seq_length; lia). rewrite map_nth, seq_nth by lia. reflexivity.
  - injection E as <-. cbn [py_nmax py_k py_T]. split; [reflexivity|]. split; [reflexivity|]. split; [reflexivity|]. lra.
Qed.
End C83.
Print Assumptions C83_object.

(** the mean of cos^2 of the angle between the axis and the vertical, from the second coefficient *)
Definition mean_cos2 (d : distribution) : R := (1 + 2 * coef d 2) / 3.
Lemma mean_cos2_means : forall (f : R -> R) p, is_RInt (fun b => sin b * f b) 0 PI 1 -> is_RInt (fun b => sin b * (f b * P 2 0 (cos b))) 0 PI p ->
  is_RInt (fun b => sin b * (f b * (cos b * cos b))) 0 PI ((1 + 2 * p) / 3).
Proof.
  intros f p I0 I2. pose proof (is_RInt_lin _ _ _ _ _ _ (1 / 3) (2 / 3) I0 I2) as L. apply (is_RInt_by _ _ _ _ _ _ L); [|field].
  intros x. rewrite P_2_0. field.
Qed.
(** Which distribution it is: for a degree of alignment cos2beta the density with this mean of cos^2... *)
Theorem C83_alignment : forall rule cos2beta axis_ratio order d, (2 <= order)%nat -> orientation rule cos2beta axis_ratio order = Done d ->
  size d = (order + 1)%nat /\ coef d 0 = 1 /\
  (cos2beta <> 0 -> cos2beta <> 1 -> cos2beta <> 1 / 3 -> 1 / 5 <= cos2beta <= 3 / 5 /\ mean_cos2 d = cos2beta /\
     (forall b, 0 <= mishchenko_pdf cos2beta (cos b)) /\
     forall n, is_RInt (fun b => sin b * (mishchenko_pdf cos2beta (cos b) * P n 0 (cos b))) 0 PI (coef d n)) /\
  (cos2beta = 1 / 3 -> gauss_on rule 1 (100 * (order + 10)) -> forall n, (1 <= n <= order)%nat -> Rabs (coef d n) <= 1 / (25 * 2 ^ n)) /\
  (cos2beta = 0 \/ cos2beta = 1 -> forall n, (n <= order)%nat -> coef d n = P n 0 (if Rlt_dec axis_ratio 1 then 0 else 1)).
Proof.
  intros rule c axis order d Ho E. split; [exact (orientation_size _ _ _ _ _ E)|]. unfold orientation in E.
  destruct (Req_EM_T c 0) as [Z|Z]; [|destruct (Req_EM_T c 1) as [O|O]; [|destruct (Req_EM_T c (1 / 3)) as [T|T]]].
  - injection E as <-. split; [rewrite (proj1 (davis_greenstein_spec order axis 0 ltac:(lia))); apply P_0_0|]. split; [intros; contradiction|]. split; [lra|].
    intros _ n Hn. apply davis_greenstein_spec. auto.
  - injection E as <-. split; [rewrite (proj1 (davis_greenstein_spec order axis 0 ltac:(lia))); apply P_0_0|]. split; [intros; contradiction|]. split; [lra|].
    intros _ n Hn. apply davis_greenstein_spec. auto.
  - destruct (initialise _ _ _ _ _) as [o| |] eqn:I; try discriminate. injection E as <-. assert (Q1: 0 <= 1e-10) by lra. assert (Q2: 0 <= 1e-5) by lra.
    split; [apply (C80_coefficients rule uniform 1e-10 1e-5 order o Q1 Q2 I)|]. split; [intros; contradiction|]. split; [|lra].
    intros _ G n Hn. destruct (C80_uniform rule 1e-10 1e-5 order G Q1 Q2) as (o' & I' & _ & _ & B). rewrite I in I'. injection I' as <-. apply B. auto.
  - destruct (Orientation.mishchenko order c) as [d'| |] eqn:M; try discriminate. injection E as <-.
    assert (H: 1 / 5 <= c <= 3 / 5). { unfold Orientation.mishchenko in M. destruct (Rlt_dec c (1 / 5)); [discriminate|]. destruct (Rlt_dec (3 / 5) c); [discriminate|]. lra. }
    destruct (mishchenko_spec order c H) as (A & _). destruct (A Ho) as (d'' & M' & _ & _ & C). rewrite M in M'. injection M' as <-.
    split; [rewrite C; reflexivity|]. split; [|split; [intros; contradiction | lra]]. intros _ _ _. split; [exact H|]. split.
    { unfold mean_cos2. rewrite C. cbn [Nat.eqb]. unfold p2. field. }
    split; [apply mishchenko_nonnegative; auto|]. intros n. rewrite C. apply mishchenko_moments.
Qed.
Print Assumptions C83_alignment.
(** ... but 0 and 1 only select perfect alignment, and the shape decides which: *)
Theorem C83_perfect_alignment : forall rule order d axis_ratio cos2beta, (2 <= order)%nat -> cos2beta = 0 \/ cos2beta = 1 ->
  orientation rule cos2beta axis_ratio order = Done d -> mean_cos2 d = if Rlt_dec axis_ratio 1 then 0 else 1.
Proof.
  intros rule order d axis c Ho Hc E. destruct (C83_alignment _ _ _ _ _ Ho E) as (_ & _ & _ & _ & D). unfold mean_cos2. rewrite D by (auto; lia).
  rewrite P_2_0. destruct (Rlt_dec axis 1); field.
Qed.
Print Assumptions C83_perfect_alignment.
(** a prolate particle with cos2beta = 1 is treated as with cos2beta = 0, and an oblate one with 0 as with 1: the mean of cos^2 is not what was asked for *)
Theorem C83_perfect_alignment_refuted : forall rule order d axis_ratio, (2 <= order)%nat ->
  (axis_ratio < 1 -> orientation rule 1 axis_ratio order = Done d -> mean_cos2 d = 0) /\
  (1 <= axis_ratio -> orientation rule 0 axis_ratio order = Done d -> mean_cos2 d = 1).
Proof.
  intros rule order d axis Ho. split; intros H E.
  - rewrite (C83_perfect_alignment _ _ _ _ _ Ho (or_intror eq_refl) E). destruct (Rlt_dec axis 1); [reflexivity | contradiction].
  - rewrite (C83_perfect_alignment _ _ _ _ _ Ho (or_introl eq_refl) E). destruct (Rlt_dec axis 1); [lra | reflexivity].
Qed.
Print Assumptions C83_perfect_alignment_refuted.
Theorem C83_zero_and_one_refuted : forall prec emax round radials rule angle_rule radius axis_ratio wavelength mr tol mo ndgs mg ev,
  init prec emax round radials rule angle_rule radius axis_ratio wavelength mr 1 tol mo ndgs mg ev = init prec emax round radials rule angle_rule radius axis_ratio wavelength mr 0 tol mo ndgs mg ev.
Proof.
  intros. unfold init. destruct (calculate _ _ _ _ _ _ _ _ _ _ _ _ _ _) as [(p, T)|]; [|reflexivity]. cbv zeta.
  destruct (Rle_dec 0 1) as [L|L]; [|lra]. destruct (Rle_dec 0 0) as [L'|L']; [|lra].
  replace (orientation angle_rule 1 axis_ratio (2 * p_nmax p)) with (orientation angle_rule 0 axis_ratio (2 * p_nmax p)); [reflexivity|].
  unfold orientation. destruct (Req_EM_T 0 0); [|congruence]. destruct (Req_EM_T 1 0); [lra|]. destruct (Req_EM_T 1 1); [reflexivity|congruence].
Qed.
Print Assumptions C83_zero_and_one_refuted.
Example C83_alignment_example : exists d, orientation (fun _ => None) (1 / 2) 2 8 = Done d /\ mean_cos2 d = 1 / 2.
Proof.
  destruct (mishchenko_spec 8 (1 / 2) ltac:(lra)) as (A & _). destruct (A ltac:(lia)) as (d & M & S & _ & C). exists d. split.
  - unfold orientation. destruct (Req_EM_T (1 / 2) 0); [lra|]. destruct (Req_EM_T (1 / 2) 1); [lra|]. destruct (Req_EM_T (1 / 2) (1 / 3)); [lra|]. rewrite M. reflexivity.
  - unfold mean_cos2. rewrite C. cbn [Nat.eqb]. unfold p2. field.
Qed.

(** The order and the number of points are those C72 describes, with the m = 0 factors of this particle *)
Theorem C83_order : forall prec emax round radials rule ratio axis_ratio axi wavelength mo tol ndgs mr mg p T,
  let R_V := (if Rlt_dec 1e-8 (Rabs (ratio - 1)) then sphere_ratio axis_ratio else ratio) * axi in
  let g := mkGrain axis_ratio R_V wavelength mr in
  let qsca n k := round (fst (factors_of radials rule g n k)) in let qext n k := round (snd (factors_of radials rule g n k)) in
  calculate prec emax round radials rule ratio axis_ratio axi wavelength mo tol ndgs mr mg = Done (p, T) ->
  usable prec emax tol -> (guess R_V wavelength < mo)%nat -> (ndgs * p_nmax p < mg)%nat ->
  (4 <= guess R_V wavelength <= p_nmax p)%nat /\ (p_nmax p < mo)%nat /\ stable_order prec emax qsca qext tol ndgs (guess R_V wavelength) (p_nmax p) /\
  (ndgs * p_nmax p < p_ngauss p < mg)%nat /\ stable_points prec emax qsca qext tol (p_nmax p) (p_ngauss p).
Proof.
  intros prec emax round radials rule ratio axis_ratio axi wavelength mo tol ndgs mr mg p T R_V g qsca qext E U G M. unfold calculate in E. cbv zeta in E. fold R_V in E. fold g in E. fold qsca in E. fold qext in E.
  destruct (calculate_TMatrix _ _ _ _ _ _ _ _ _) as [n k| |] eqn:O; try discriminate.
  destruct (construct _) as [T0|]; [|discriminate]. destruct (compute_additional_elements _ _) as [T1|]; [|discriminate]. injection E as <- <-.
  cbn [particle_of p_nmax p_ngauss] in *. destruct (C72_converged _ _ _ _ _ _ _ _ _ _ _ U G M O) as (A & B & C & D & F & _). pose proof (guess_ge R_V wavelength).
  split; [lia|]. split; [lia|]. split; [exact B|]. split; [exact D|]. exact F.
Qed.
Print Assumptions C83_order.

(* ------------------------------------------------------------ C84 *)
Lemma holds_vector : forall decode m a (l : list R), holds decode m 8 a l -> exists a', as_vector a = Some (Z.of_nat (length l), a') /\ read_loop decode m 8 (getptr1 a') 0 (Z.to_nat (Z.of_nat (length l))) = Some l.
Proof.
  intros decode m a l H. pose proof (unpack_holds _ decode m 8 a l H) as U. unfold unpack in U. destruct H as [(D & w & v & -> & _) | (s & D & _)]; unfold as_vector in *; rewrite D in *; eauto.
Qed.
(** what squeezing leaves of the dimensions *)
Definition without_ones (ds : list nat) : list nat := filter (fun d => negb (d =? 1)%nat) ds.
Lemma loops_body : forall S ds (b1 b2 : list nat -> S -> S) s, (forall index s, length index = length ds -> b1 index s = b2 index s) -> loops ds b1 s = loops ds b2 s.
Proof.
  intros S. induction ds as [|d ds IH]; intros b1 b2 s H; cbn [loops]; [apply H; reflexivity|].
  unfold for_. rewrite Nat.sub_0_r. apply fold_ext. intros s' i. apply IH. intros index s'' L. apply H. cbn [length]. congruence.
Qed.

Section C84.
Variable decode : Z -> R.
Variable mem : memory.
Variable o : pyobject.
Notation nmax := (py_nmax o). Notation k := (py_k o). Notation T := (py_T o).
(** Every element of the returned array is the element of the matrix for the given angles; arrays of any layout, and numbers. The dimensions are theta, phi,
    row and column, without those of length 1. *)
Theorem C84_extinction_matrix : forall thetas phis theta phi alpha beta, holds decode mem 8 thetas theta -> holds decode mem 8 phis phi ->
  let ds := [length theta; length phi; 4; 4]%nat in
  exists r, py_extinction_matrix decode mem o thetas phis alpha beta = Array r /\ shape r = without_ones ds /\
    forall a b i j t p, nth_error theta a = Some t -> nth_error phi b = Some p -> (i < 4)%nat -> (j < 4)%nat ->
    entry r (squeezed ds [a; b; i; j]) = Some (get_extinction_matrix nmax k T alpha beta t p i j).
Proof.
  intros thetas phis theta phi alpha beta Ht Hp ds. unfold py_extinction_matrix.
  destruct (holds_vector _ _ _ _ Ht) as (a1 & -> & ->). destruct (holds_vector _ _ _ _ Hp) as (a2 & -> & ->). cbv zeta. eexists. split; [reflexivity|].
  set (f := fun index => match index with [itheta; iphi; i; j] => get_extinction_matrix nmax k T alpha beta (nth itheta theta 0) (nth iphi phi 0) i j | _ => 0 end).
  fold ds. rewrite (loops_body _ ds _ (fun index r => put index (f index) r)).
  2:{ intros index s L. destruct index as [|x [|y [|z [|u [|v index]]]]]; cbn in L; try lia. reflexivity. }
  split.
  - unfold squeeze, without_ones. cbn [shape]. rewrite loops_fold, puts_shape. reflexivity.
  - intros a b i j t p Ea Eb Hi Hj. assert (W: within ds [a; b; i; j]).
    { unfold within, ds. repeat (apply Forall2_cons; [try lia|]); [apply nth_error_Some; congruence | apply nth_error_Some; congruence | constructor]. }
    destruct (loops_put R ds f [a; b; i; j] W) as (S & E). pose proof (squeeze_entry _ (loops ds (fun index r => put index (f index) r) (new_array ds)) [a; b; i; j]) as Q. rewrite S in Q. rewrite Q by auto. etransitivity; [exact E|]. unfold f.
    rewrite (nth_error_nth _ _ _ Ea), (nth_error_nth _ _ _ Eb). reflexivity.
Qed.
Theorem C84_scattering_matrix : forall atheta_in aphi_in atheta_out aphi_out theta_in phi_in theta_out phi_out alpha beta,
  holds decode mem 8 atheta_in theta_in -> holds decode mem 8 aphi_in phi_in -> holds decode mem 8 atheta_out theta_out -> holds decode mem 8 aphi_out phi_out ->
  let ds := [length theta_in; length phi_in; length theta_out; length phi_out; 4; 4]%nat in
  exists r, py_scattering_matrix decode mem o atheta_in aphi_in atheta_out aphi_out alpha beta = Array r /\ shape r = without_ones ds /\
    forall a b c d i j t p t' p', nth_error theta_in a = Some t -> nth_error phi_in b = Some p -> nth_error theta_out c = Some t' -> nth_error phi_out d = Some p' -> (i < 4)%nat -> (j < 4)%nat ->
    entry r (squeezed ds [a; b; c; d; i; j]) = Some (get_scattering_matrix nmax k T alpha beta t p t' p' i j).
Proof.
  intros x1 x2 x3 x4 theta_in phi_in theta_out phi_out alpha beta H1 H2 H3 H4 ds. unfold py_scattering_matrix.
  rewrite (unpack_holds _ _ _ _ _ _ H1), (unpack_holds _ _ _ _ _ _ H2), (unpack_holds _ _ _ _ _ _ H3), (unpack_holds _ _ _ _ _ _ H4). cbv zeta. eexists. split; [reflexivity|].
  set (f := fun index => match index with [a; b; c; d; i; j] => get_scattering_matrix nmax k T alpha beta (nth a theta_in 0) (nth b phi_in 0) (nth c theta_out 0) (nth d phi_out 0) i j | _ => 0 end).
  fold ds. rewrite (loops_body _ ds _ (fun index r => put index (f index) r)).
  2:{ intros index s L. destruct index as [|? [|? [|? [|? [|? [|? [|? index]]]]]]]; cbn in L; try lia. reflexivity. }
  split.
  - unfold squeeze, without_ones. cbn [shape]. rewrite loops_fold, puts_shape. reflexivity.
  - intros a b c d i j t p t' p' Ea Eb Ec Ed Hi Hj. assert (W: within ds [a; b; c; d; i; j]).
    { unfold within, ds. do 4 (apply Forall2_cons; [apply nth_error_Some; congruence|]). constructor; [lia|]. constructor; [lia|]. constructor. }
    destruct (loops_put R ds f [a; b; c; d; i; j] W) as (S & E). pose proof (squeeze_entry _ (loops ds (fun index r => put index (f index) r) (new_array ds)) [a; b; c; d; i; j]) as Q. rewrite S in Q. rewrite Q by auto. etransitivity; [exact E|]. unfold f.
    rewrite (nth_error_nth _ _ _ Ea), (nth_error_nth _ _ _ Eb), (nth_error_nth _ _ _ Ec), (nth_error_nth _ _ _ Ed). reflexivity.
Qed.
(** more than one dimension: an exception; for the scattering matrix an array without elements instead *)
Theorem C84_wrong_shape : forall a b alpha beta, (length (dims a) > 1)%nat \/ (length (dims b) > 1)%nat -> py_extinction_matrix decode mem o a b alpha beta = Raises.
Proof.
  intros a b alpha beta H. unfold py_extinction_matrix, as_vector. destruct (dims a) as [|x [|y l]], (dims b) as [|x' [|y' l']]; cbn in H; try reflexivity; lia.
Qed.
Theorem C84_scattering_wrong_shape_refuted : forall a b c d alpha beta theta_in phi_in theta_out, (length (dims d) > 1)%nat ->
  holds decode mem 8 a theta_in -> holds decode mem 8 b phi_in -> holds decode mem 8 c theta_out ->
  exists r, py_scattering_matrix decode mem o a b c d alpha beta = Array r /\ In 0%nat (shape r).
Proof.
  intros a b c d alpha beta theta_in phi_in theta_out D H1 H2 H3. unfold py_scattering_matrix.
  rewrite (unpack_holds _ _ _ _ _ _ H1), (unpack_holds _ _ _ _ _ _ H2), (unpack_holds _ _ _ _ _ _ H3), C82_more_dimensions by auto. cbv zeta. eexists. split; [reflexivity|].
  set (ds := [length theta_in; length phi_in; length theta_out; length (@nil R); 4%nat; 4%nat]).
  assert (SH: forall body, (forall index r, shape (body index r) = shape r) -> shape (@loops (result R) ds body (new_array ds)) = ds).
  { intros body HB. rewrite loops_fold. assert (G: forall l r, shape (fold_left (fun s index => body index s) l r) = shape r) by (induction l as [|x l IH]; intros r; cbn [fold_left]; auto; rewrite IH; apply HB). apply G. }
  unfold squeeze. cbn [shape]. rewrite SH.
  - apply filter_In. split; [|reflexivity]. unfold ds. cbn [length In]. auto.
  - intros index r. destruct index as [|? [|? [|? [|? [|? [|? [|? index]]]]]]]; reflexivity.
Qed.
(** an array with one angle is not told from a number: no dimension is left for it *)
Theorem C84_one_angle_refuted : forall thetas phis t p alpha beta, dims thetas = [1%Z] -> dims phis = [1%Z] -> holds decode mem 8 thetas [t] -> holds decode mem 8 phis [p] ->
  exists r, py_extinction_matrix decode mem o thetas phis alpha beta = Array r /\ shape r = [4; 4]%nat.
Proof. intros thetas phis t p alpha beta _ _ Ht Hp. destruct (C84_extinction_matrix _ _ _ _ alpha beta Ht Hp) as (r & E & S & _). exists r. split; auto. Qed.

Variable grid : nat -> (nat -> R) * (nat -> R) * (nat -> R) * (nat -> R).
Lemma for_puts : forall (f : nat -> R) n ds (r0 : result R), shape r0 = ds ->
  let r := for_ 0 n (fun i r => mkResult (shape r) (vupd (content r) i (Some (f i)))) r0 in
  shape r = ds /\ forall i, (i < n)%nat -> content r i = Some (f i).
Proof.
  intros f n ds r0 S. unfold for_. rewrite Nat.sub_0_r. induction n as [|n IH]; [split; [auto | lia]|].
  rewrite seq_S, fold_left_app. cbn [fold_left Nat.add]. destruct IH as (A & B). split; [exact A|]. intros i Hi. cbn [content]. unfold vupd. destruct (Nat.eqb_spec i n) as [ -> | ]; auto. apply B. lia.
Qed.
(** The absorption cross section for every angle: what is extinguished of the incident light and not scattered, integrated with the rule with ngauss points;
    for numbers and arrays with adjacent elements (see C82 for others) *)
Theorem C84_absorption_cross_section : forall thetas theta ngauss, holds decode mem 8 thetas theta -> adjacent thetas -> (forall t, In t theta -> 0 <= t <= PI) ->
  exists r, py_absorption_cross_section decode mem o grid thetas ngauss = Array r /\ shape r = [length theta] /\
    forall a t, nth_error theta a = Some t -> let '(x, w, p, v) := grid ngauss in entry r [a] = Some (absorbed nmax k T t ngauss x w p v 0).
Proof.
  intros thetas theta ngauss H A B. unfold py_absorption_cross_section. destruct (holds_vector _ _ _ _ H) as (a' & V & _). rewrite V.
  assert (U: unpack_adjacent decode mem (Z.of_nat (length theta)) a' = Some theta).
  { pose proof (C82_absorption_angles _ _ _ _ _ H A) as U. unfold as_vector in V. destruct (dims thetas) as [|x [|y l]]; try discriminate; injection V as _ <-; exact U. }
  rewrite U. destruct (grid ngauss) as [[[x w] p] v]. cbv zeta. eexists. split; [reflexivity|].
  set (Cabs := get_absorption_cross_section _ _ _ _ _ _ _ _ _ _ _).
  assert (E: for_ 0 (length theta) (fun i r => put [i] (Cabs i) r) (new_array [length theta]) = for_ 0 (length theta) (fun i r => mkResult (shape r) (vupd (content r) i (Some (Cabs i)))) (new_array [length theta])).
  { unfold for_. generalize (seq 0 (length theta - 0)). assert (G: forall l (r : result R), shape r = [length theta] ->
      fold_left (fun r i => put [i] (Cabs i) r) l r = fold_left (fun r i => mkResult (shape r) (vupd (content r) i (Some (Cabs i)))) l r).
    { induction l as [|i l IH]; intros r S; cbn [fold_left]; auto. unfold put at 2. rewrite S at 2. cbn [offset fold_right]. replace (i * 1 + 0)%nat with i by lia. apply IH. exact S. }
    intros l. apply G. reflexivity. }
  rewrite E. destruct (for_puts Cabs (length theta) [length theta] (new_array [length theta]) eq_refl) as (S & C). split; [exact S|].
  intros a t Ea. assert (La: (a < length theta)%nat) by (apply nth_error_Some; congruence). unfold entry. rewrite S. cbn [offset fold_right]. replace (a * 1 + 0)%nat with a by lia. rewrite C by auto. f_equal.
  destruct (C75_absorption_cross_section nmax k T (fun i => nth i theta 0) (length theta) ngauss x w p v (fun _ => 0)) as (Q & _); [intros i Hi; apply B, nth_In; auto|].
  unfold Cabs. rewrite Q by auto. rewrite (nth_error_nth _ _ _ Ea). reflexivity.
Qed.
Theorem C84_absorption_cross_sections : forall thetas theta ngauss, holds decode mem 8 thetas theta -> adjacent thetas -> (forall t, In t theta -> 0 <= t <= PI) ->
  exists r, py_absorption_cross_sections decode mem o grid thetas ngauss = Array r /\ shape r = without_ones [length theta; 2%nat] /\
    forall a t q, nth_error theta a = Some t -> (q < 2)%nat ->
    let '(x, w, p, v) := grid ngauss in entry r (squeezed [length theta; 2%nat] [a; q]) = Some (absorbed nmax k T t ngauss x w p v q).
Proof.
  intros thetas theta ngauss H A B. unfold py_absorption_cross_sections. destruct (holds_vector _ _ _ _ H) as (a' & V & _). rewrite V.
  assert (U: unpack_adjacent decode mem (Z.of_nat (length theta)) a' = Some theta).
  { pose proof (C82_absorption_angles _ _ _ _ _ H A) as U. unfold as_vector in V. destruct (dims thetas) as [|x [|y l]]; try discriminate; injection V as _ <-; exact U. }
  rewrite U. destruct (grid ngauss) as [[[x w] p] v]. cbv zeta. eexists. split; [reflexivity|].
  set (Cabs := get_absorption_cross_sections _ _ _ _ _ _ _ _ _ _ _). set (ds := [length theta; 2%nat]).
  destruct (for_puts Cabs (2 * length theta) ds (new_array ds) eq_refl) as (S & C). split; [unfold squeeze, without_ones; cbn [shape]; rewrite S; reflexivity|].
  intros a t q Ea Hq. assert (La: (a < length theta)%nat) by (apply nth_error_Some; congruence).
  assert (W: within ds [a; q]) by (constructor; [exact La|]; constructor; [exact Hq|]; constructor).
  set (r := for_ 0 (2 * length theta) (fun i r => mkResult (shape r) (vupd (content r) i (Some (Cabs i)))) (new_array ds)) in *.
  pose proof (squeeze_entry _ r [a; q]) as Q. rewrite S in Q. rewrite Q by auto. unfold entry. rewrite S. unfold ds at 1. cbn [offset fold_right].
  rewrite C by lia. f_equal. replace (a * (2 * 1) + (q * 1 + 0))%nat with (2 * a + q)%nat by lia.
  destruct (C75_absorption_cross_sections nmax k T (fun i => nth i theta 0) (length theta) ngauss x w p v (fun _ => 0)) as (Q' & _); [intros i Hi; apply B, nth_In; auto|].
  destruct (Q' a La) as (Q0 & Q1). rewrite (nth_error_nth _ _ _ Ea) in Q0, Q1. unfold Cabs. destruct q as [|[|q]]; [rewrite Nat.add_0_r; exact Q0 | exact Q1 | lia].
Qed.
(** its average over all directions, with 20 points *)
Theorem C84_average_absorption : py_average_absorption_cross_section o grid =
  let '(x, w, p, v) := grid 20%nat in / 2 * rsum (seq 0 20) (fun i => w i * absorbed nmax k T (acos (x i)) 20 x w p v 0).
Proof. unfold py_average_absorption_cross_section. destruct (grid 20%nat) as [[[x w] p] v]. apply C75_average_absorption. Qed.
End C84.
Print Assumptions C84_extinction_matrix.
Print Assumptions C84_scattering_matrix.
Print Assumptions C84_wrong_shape.
Print Assumptions C84_scattering_wrong_shape_refuted.
Print Assumptions C84_one_angle_refuted.
Print Assumptions C84_absorption_cross_section.
Print Assumptions C84_absorption_cross_sections.
Print Assumptions C84_average_absorption.
(** arguments that meet the hypotheses: three angles out of a buffer of five, the words standing for the angles 0, 1/10, 2/10, ... *)
Example C84_example : let decode w := IZR w / 10 in let mem := buffer 4096 8 [0; 1; 2; 3; 4]%Z in
  holds decode mem 8 (slice 4096 8 3 4 (-2)) [IZR 4 / 10; IZR 2 / 10; IZR 0 / 10] /\ holds decode mem 8 (slice 4096 8 2 1 1) [IZR 1 / 10; IZR 2 / 10] /\
  adjacent (slice 4096 8 2 1 1) /\ forall t, In t [IZR 1 / 10; IZR 2 / 10] -> 0 <= t <= PI.
Proof.
  intros decode mem. split; [|split; [|split]].
  - apply slice_holds; [intros w H; cbn in H; cbn; lia | reflexivity|]. intros i v Hi. destruct i as [|[|[|i]]]; cbn in Hi; try (destruct i; discriminate); injection Hi as <-.
    + exists 4%Z. split; [lia|]. split; reflexivity.
    + exists 2%Z. split; [lia|]. split; reflexivity.
    + exists 0%Z. split; [lia|]. split; reflexivity.
  - apply slice_holds; [intros w H; cbn in H; cbn; lia | reflexivity|]. intros i v Hi. destruct i as [|[|i]]; cbn in Hi; try (destruct i; discriminate); injection Hi as <-.
    + exists 1%Z. split; [lia|]. split; reflexivity.
    + exists 2%Z. split; [lia|]. split; reflexivity.
  - right. left. reflexivity.
  - pose proof PI2_1. pose proof PI_RGT_0. intros t [<- | [<- | []]]; lra.
Qed.
