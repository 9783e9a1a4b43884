(** C91, continued: the tables of get_table.  The efficiencies in the table are means, over the documented ensemble, of the efficiencies of the single
    grains.  Specification: Props_orientmean.v, Props_ensemble.v (C90). *)
From Coq Require Import List ZArith Arith Lia Bool Reals Lra Floats.SpecFloat.
From Coquelicot Require Import Coquelicot.
From Verif Require Import Legendre Quadrature GaussExact GaussBounds Adaptive Orientation Density Props_density Props_quad AlignObject.
From Verif Require Import ResultTable NumPy MemLimit GetTable Props_gettable.
From Verif Require Import Base Clebsch Racah Matrix Average Props_matrix Props_optics Align AlignFacts Props_align QMatrix QFacts Ebcm EbcmFacts Props_tmatrix TClass
  LockProto Sched Api TaskGraph TaskGraphFacts TaskDeps Footprint GraphApi GraphHist GraphRun Determinism SlotFree SlotFinal Converge Whole Props_whole Physics Props_physics Rotation Props_rotation Props_frames Optics Frames FramesFacts Props_outputs PyTMatrix Props_ensemble Props_orientmean Props_pyexample.
Import ListNotations.
Open Scope R_scope.
Notation R := Rdefinitions.R.


(** efficiencies of a single grain with its axis in the direction (beta, alpha): extinction, and absorption without the scattered light subtracted *)
Definition single_efficiency (c : cfg) (I : inputs) (p n : nat) (T : tmats) (q t : nat) (alpha beta : R) : R :=
  let K i j := single_extinction n (2 * PI / point_wavelength c I p) T (in_theta I t) 0 i j alpha beta in
  List.nth q [K 0%nat 0%nat; K 0%nat 1%nat; K 2%nat 3%nat] 0 / (PI * (point_size c I p)²).
Definition single_loss (c : cfg) (I : inputs) (p n : nat) (T : tmats) (q t : nat) (alpha beta : R) : R :=
  single_extinction n (2 * PI / point_wavelength c I p) T (in_theta I t) 0 q 0%nat alpha beta / (PI * (point_size c I p)²).
Lemma mean_div : forall l f v c, mean_over l f v -> mean_over l (fun a b => f a b / c) (v / c).
Proof. intros l f v c H. unfold Rdiv. rewrite (Rmult_comm v). apply (mean_ext l (fun a b => / c * f a b)); [intros; ring | apply mean_scal; exact H]. Qed.
Theorem C91_get_table : forall rule minimum_size type maximum_order ob pr s, gauss_on rule 1 (100 * (2 * order_of maximum_order + 10)) ->
  python_alignment rule minimum_size type maximum_order ob pr = Built s ->
  forall a types sizes wavelengths thetas prec emax tol, ar_aligned a = object_aligned s -> ar_coef a = object_coef s ->
  let c := config a types sizes wavelengths 1 in let I := the_inputs a types sizes wavelengths thetas in
  physical c I -> (ar_min a < ar_max a)%nat -> (Z.of_nat (ar_max a) < 2 ^ 64)%Z ->
  forall (L : Type) (vcode : task -> L -> (cell -> val Physics.object) -> option (L * (cell -> val Physics.object))) (start : task -> L),
  respects_footprint (unshared c) (val Physics.object) L vcode ->
  (forall t s s', task_in c t -> completes (val Physics.object) L vcode start t s s' -> forall x, s' x = effect c Physics.object (code c I) prec emax tol t s x) ->
  forall ord, (forall b, (b < n_block c)%nat -> chosen c Physics.object (code c I) prec emax tol b (ord b)) ->
  let n p is := (ar_min a + ord (p * ar_shapes a + is)%nat)%nat in
  (forall p is, (p < n_point c)%nat -> (is < ar_shapes a)%nat -> regular c I p is (n p is) /\
     (* enough coefficients, and a large enough work array (C60) *)
     (n p is <= order_of maximum_order)%nat /\ (type = 3%Z -> custom ob pr (n p is)) /\ ((2 * n p is + 1) * (2 * n p is + 1) <= length (ar_cg a))%nat) ->
  forall N pre nq nt e st, (0 < N)%nat -> reservations pre -> (0 < nt)%nat ->
  running nq (generated (with_slots c N) pre) nt e -> all_exited e ->
  executed (with_slots c N) (val Physics.object) L (slotted c (val Physics.object) L vcode N) start (initial Physics.object (code c I)) (log (gl e)) st ->
  exists T Tav : nat -> nat -> tmats,
  (forall p is, (p < n_point c)%nat -> (is < ar_shapes a)%nat -> solves c I p is (n p is) (T p is) /\
     exists l, documented minimum_size type ob pr (point_size c I p) (ar_axis a is) l /\ forall t, resolved (in_theta I t) ->
       (forall q, (q < 3)%nat -> mean_over l (single_efficiency c I p (n p is) (T p is) q t) (observable c I Ext p (n p is) (Tav p is) q t)) /\
       (in_account I = false -> forall q, (q < 2)%nat -> mean_over l (single_loss c I p (n p is) (T p is) q t) (observable c I Abs p (n p is) (Tav p is) q t))) /\
  exists ans, give a types sizes wavelengths thetas (stored_results (generate (with_slots c N))) st = Some ans /\
    right_answer a types sizes wavelengths thetas (fun k p q t x =>
      x = weighted_mean q t (map (fun is => (ar_weight a is, observable c I k p (n p is) (Tav p is))) (seq 0 (ar_shapes a)))) ans.
Proof.
  intros rule smin type mo ob pr s G HB a types sizes wavelengths thetas prec emax tol EA EC c I PH Ho H64 L vcode start HV HE ord Hord n HR N pre nq nt e st HN HP Hn Hrun Hx Hex.
  destruct (C90_get_table rule smin type mo ob pr s G HB a types sizes wavelengths thetas prec emax tol EA EC PH Ho H64 L vcode start HV HE ord Hord HR N pre nq nt e st HN HP Hn Hrun Hx Hex) as (T & Tav & H1 & H2).
  exists T, Tav. split; [|exact H2]. intros p is Hp His. destruct (H1 p is Hp His) as (S1 & l & D & E). split; [exact S1|]. exists l. split; [exact D|]. intros t Ht.
  destruct (HR p is Hp His) as (R1 & _).
  assert (Mn: (1 <= n p is)%nat) by (pose proof (ph_min _ _ PH) as M; change (o_min c) with (ar_min a) in M; unfold n; lia).
  assert (U: unmixed (n p is) (class_view (n p is) (T p is))).
  { apply (agree_unmixed _ (Props_physics.entry (n p is) (T p is))); [apply entry_class|]. intros i j n1 n2 A B NE. apply (T_no_mixing c I p is); auto. }
  pose proof (fun i j => C91_extinction_matrix l (n p is) (T p is) (Tav p is) (2 * PI / point_wavelength c I p) (in_theta I t) 0 0 E U Ht i j) as M. split.
  - intros q Hq. unfold observable, single_efficiency. destruct q as [|[|[|q]]]; [| | | lia]; cbn [List.nth]; apply mean_div, M.
  - intros NA q Hq. unfold observable, single_loss. rewrite NA. apply mean_div, M.
Qed.
Print Assumptions C91_get_table.
(** the hypotheses of C91_python: a particle with the degree of alignment 1/2, and the same particle on its own (the object of C83_object_example); light at an
    angle of one radian, which is away from all axes at a right angle to the z axis *)
Example C91_example : exists rule o s, (forall n, Props_tmatrix.symmetric_rule n (fst (rule n)) (snd (rule n))) /\
  init 53 1024 Props_pyexample.coarse (fun _ => Props_energy.exact_radial) rule (fun _ => None) 1 1 Props_pyexample.far (3 / 2, / 10) (1 / 2) Props_pyexample.loose 20 2 100 true = Done o /\
  init 53 1024 Props_pyexample.coarse (fun _ => Props_energy.exact_radial) rule (fun _ => None) 1 1 Props_pyexample.far (3 / 2, / 10) (-1) Props_pyexample.loose 20 2 100 true = Done s /\
  py_nmax o = 5%nat /\ resolved 1 /\ clear_of (PI / 2) 1 /\ python_law (1 / 2) 1 (Spread (fun b => mishchenko_pdf (1 / 2) (cos b))).
Proof.
  destruct Props_pyexample.C83_object_example as (rule & RS & o & E & N). exists rule, o. pose proof E as E'. unfold init in E'. cbv zeta in E'.
  destruct (calculate _ _ _ _ _ _ _ _ _ _ _ _ _ _) as [(p, T)|] eqn:CA; [|discriminate]. exists (mkPy (p_nmax p) (2 * PI / Props_pyexample.far) T).
  split; [exact RS|]. split; [exact E|]. split; [unfold init; cbv zeta; rewrite CA; destruct (Rle_dec 0 (-1)) as [X|X]; [exfalso; lra | reflexivity]|]. split; [exact N|].
  destruct C74_example as (_ & _ & _ & _ & _ & _ & _ & R1). split; [exact R1|]. split; [|right; left; split; [lra | split; [lra | reflexivity]]].
  assert (S1: Rabs (sin 1) < 1 - / 10000000000).
  { pose proof (sin2_cos2 1) as Q. unfold Rsqr in Q. destruct (pre_cos_bound 1 0 ltac:(lra) ltac:(lra)) as (B & _). unfold cos_approx, cos_term in B. cbn in B.
    assert (C1: 1 / 2 <= cos 1) by lra. apply Rabs_def1; nra. }
  split; [rewrite cos_minus | rewrite cos_plus]; rewrite cos_PI2, sin_PI2.
  - replace (cos 1 * 0 + sin 1 * 1) with (sin 1) by ring. lra.
  - replace (cos 1 * 0 - sin 1 * 1) with (- sin 1) by ring. rewrite Rabs_Ropp. lra.
Qed.
