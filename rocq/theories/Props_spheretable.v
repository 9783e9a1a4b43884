(** C87, continued: the tables the module returns for spheres, and a concrete case.  Specification: [mie_Qext] and the theorems' statements. *)
From Coq Require Import List ZArith Arith Lia Bool Reals Lra Floats.SpecFloat.
From Coquelicot Require Import Complex.
From Verif Require Import Base Clebsch Matrix Props_matrix Wigner Props_optics Align AlignFacts Props_align Average QMatrix Ebcm Props_tmatrix Optics TClass Frames FramesFacts Props_frames
  LockProto Sched Api TaskGraph TaskGraphFacts TaskDeps Footprint GraphApi GraphHist GraphRun Determinism SlotFree SlotFinal Converge Whole Props_whole Physics Props_physics Props_mie Props_energy Props_sphere.
From Verif Require Props_outputs Props_tclass.
Import ListNotations.
Open Scope R_scope.

(** Bohren & Huffman eq. 4.62 over pi a^2, with n terms: size parameter x, Mie coefficients a, b *)
Definition mie_Qext (n : nat) (x : R) (a b : nat -> C) : R := 2 / (x * x) * Props_outputs.rsum (seq 1 n) (fun l => (2 * INR l + 1) * Re (a l + b l)%C).
(** intensity scattered by an angle with cosine mu, per incident intensity, for wavenumber k (unpolarised light) *)
Definition mie_intensity (n : nat) (k : R) (a b : nat -> C) (mu : R) : R := (Frames.norm2 (mie_S1 n a b mu) + Frames.norm2 (mie_S2 n a b mu)) / (2 * (k * k)).
Section Spec.
Variable c : cfg.
Variable I : inputs.
(** size parameter, relative refractive index and Mie coefficients of parameter point p in order n *)
Definition x_of (p : nat) : R := 2 * PI * point_size c I p / point_wavelength c I p.
Definition a_of (n p : nat) : nat -> C := mie_a (in_radial I n) (point_mr c I p) (x_of p).
Definition b_of (n p : nat) : nat -> C := mie_b (in_radial I n) (point_mr c I p) (x_of p).
(** spheres only, a rule that integrates the products of the angular functions exactly, exact radial functions, and orientation distributions with p_0 = 1 *)
Record spheres : Prop := {
  sp_axis : forall is, (is < n_shape c)%nat -> in_axis I is = 1;
  sp_factor : (1 <= in_factor I)%nat;
  sp_rule : forall n, (o_min c <= n < o_max c)%nat -> let N := (2 * (in_factor I * n))%nat in AverageFacts.exact_rule N (fst (in_rule I N)) (snd (in_rule I N));
  sp_radial : forall n, bessel_radial (in_radial I n);
  sp_passive : forall p, passive (point_mr c I p);
  sp_coef : forall p is, in_aligned I (point_size c I p) (in_axis I is) = true -> AlignFacts.coefficient (in_coef I (point_size c I p) (in_axis I is)) 0%Z = 1 }.
(** what a sphere gives for quantity q and angle or direction t: the efficiencies of extinction, linear and circular dichroism; with the approximation that neglects
    scattering, the extinction efficiency for the absorption; element (1,1) of the scattering matrix for light incident along x *)
Definition sphere_value (k : TaskGraph.kind) (p n q t : nat) : R :=
  match k with
  | Ext | Abs => if (q =? 0)%nat then mie_Qext n (x_of p) (a_of n p) (b_of n p) else 0
  | Sca => let nphi := (2 * in_ntheta I)%nat in let theta := acos (fst (in_rule I (in_ntheta I)) (t / nphi)%nat) in let phi := fst (in_rule_phi I nphi) (t mod nphi)%nat in
           mie_intensity n (2 * PI / point_wavelength c I p) (a_of n p) (b_of n p) (sin theta * cos phi)
  end.
(** the quantities that are covered *)
Definition covered (k : TaskGraph.kind) (q : nat) : Prop :=
  match k with
  | Ext => True
  | Abs => in_account I = false
  | Sca => q = 0%nat /\ forall i, (i < in_ntheta I)%nat -> / 10000000000 < 1 - Rabs (fst (in_rule I (in_ntheta I)) i)
  end.
End Spec.

Section Proof.
Variable c : cfg.
Variable I : inputs.
Hypothesis PH : physical c I.
Hypothesis SP : spheres c I.
Definition particle_of (p is n : nat) : particle :=
  {| p_radial := in_radial I n; p_nmax := n; p_ngauss := in_factor I * n; p_x := fst (in_rule I (2 * (in_factor I * n))); p_w := snd (in_rule I (2 * (in_factor I * n)));
     p_axis_ratio := in_axis I is; p_size := point_size c I p; p_wavelength := point_wavelength c I p; p_mr := point_mr c I p |}.
Section Block.
Variables p is n : nat.
Hypothesis His : (is < n_shape c)%nat.
Hypothesis Hr : (o_min c <= n < o_max c)%nat.
Lemma Hn : (1 <= n)%nat.
Proof. pose proof (ph_min _ _ PH). lia. Qed.
Notation P := (particle_of p is n).
Lemma P_sphere : is_sphere P.
Proof.
  pose proof (sp_factor _ _ SP). pose proof Hn.
  split; [|split; [apply (sp_axis _ _ SP); auto|split; [apply (sp_rule _ _ SP); auto|cbn [p_nmax p_ngauss particle_of]; nia]]].
  split; [apply (ph_rule _ _ PH)|]. split; [apply (ph_axis _ _ PH); auto|]. split; [apply (ph_size _ _ PH)|]. split; [apply (ph_wav _ _ PH)|]. split; [apply (ph_mr _ _ PH)|cbn [p_nmax particle_of]; lia].
Qed.
Lemma P_regular : regular_sphere P.
Proof. destruct (C86_exists P P_sphere (sp_radial _ _ SP n) (sp_passive _ _ SP p)) as (T & T' & E). apply C85_exists; [apply P_sphere|]. exists T, T'. exact E. Qed.
Lemma I_regular : regular c I p is n.
Proof.
  intros m Hm size v H j Hj. destruct (Ceq_dec (v j) (RtoC 0)) as [E|N]; auto. exfalso. apply (not_singular P P_sphere m Hm P_regular). exists v, j. split; [exact Hj|]. split; [exact N|]. exact H.
Qed.
Lemma row_of : forall m (b : bool) a, (m <= n)%nat -> (lowest m <= a <= n)%nat ->
  let r := ((if b then orders m n else 0) + (a - lowest m))%nat in (r < 2 * orders m n)%nat /\ kind_of m n r = (if b then WN else WM) /\ order_of m n r = a.
Proof.
  intros m b a Hm Ha r. unfold r, kind_of, order_of, orders, lowest in *. destruct b; match goal with |- context [Nat.ltb ?x ?y] => destruct (Nat.ltb_spec x y) end; try lia; (split; [lia|split; [auto|lia]]).
Qed.
Definition t_of (i : bool) (l : Z) : C := (if i then - a_of c I n p (Z.to_nat l) else - b_of c I n p (Z.to_nat l))%C.
Lemma T_spherical : forall T, solves c I p is n T -> spherical (Z.of_nat n) (entry n T) t_of.
Proof.
  intros T HT i j m n1 n2 (H0 & H1 & H2). unfold entry. set (m' := Z.to_nat m) in *.
  assert (TM: is_T_first P m' (T m')) by (assert (L: (m' <= n)%nat) by lia; exact (HT m' L)).
  rewrite (T_diagonal_first P P_sphere m' (T m') ltac:(cbn; lia) (ex_intro _ 0%nat (conj (not_singular P P_sphere 0 ltac:(cbn [p_nmax particle_of]; lia) P_regular) eq_refl)) TM).
  - cbn [p_nmax particle_of]. destruct (row_of m' i (Z.to_nat n1) ltac:(lia) ltac:(unfold lowest; lia)) as (A1 & A2 & A3). destruct (row_of m' j (Z.to_nat n2) ltac:(lia) ltac:(unfold lowest; lia)) as (B1 & B2 & B3).
    cbv zeta in *. set (r := (_ + (Z.to_nat n1 - _))%nat) in *. set (q := (_ + (Z.to_nat n2 - _))%nat) in *. rewrite A2, A3.
    destruct (Nat.eqb_spec r q) as [E|N].
    + assert (i = j) as ->. { rewrite E in A2. rewrite A2 in B2. destruct i, j; congruence. }
      assert (n1 = n2) as -> by (rewrite E in A3; rewrite A3 in B3; lia). rewrite Bool.eqb_reflx, Z.eqb_refl. cbn [andb]. unfold t_of, mie. destruct j; reflexivity.
    + destruct (Bool.eqb_spec i j) as [ -> | N1]; [|reflexivity]. destruct (Z.eqb_spec n1 n2) as [ -> | N2]; [|reflexivity]. exfalso. apply N. reflexivity.
  - cbn [p_nmax particle_of]. apply (row_of m' i (Z.to_nat n1)); unfold lowest; lia.
  - cbn [p_nmax particle_of]. apply (row_of m' j (Z.to_nat n2)); unfold lowest; lia.
Qed.
Lemma Tav_spherical : forall T Tav, solves c I p is n T -> averaged c I p is n T Tav -> spherical (Z.of_nat n) (entry n Tav) t_of.
Proof.
  intros T Tav HT HA i j m n1 n2 R. rewrite (HA i j m n1 n2 R). pose proof (T_spherical T HT) as ST. destruct (in_aligned I (point_size c I p) (in_axis I is)) eqn:E; [|apply ST; auto].
  rewrite (spherical_average (Z.of_nat n) _ _ t_of ST); auto. apply (sp_coef _ _ SP). exact E.
Qed.
Lemma element_entry : forall T i j m n1 n2, (m <= n1 <= n)%nat -> (m <= n2 <= n)%nat -> (1 <= n1)%nat -> (1 <= n2)%nat ->
  element n T (if i : bool then 1 else 0)%nat n1 m (if j : bool then 1 else 0)%nat n2 m = entry n T i j (Z.of_nat m) (Z.of_nat n1) (Z.of_nat n2).
Proof.
  intros T i j m n1 n2 H1 H2 H3 H4. unfold element, element_at, entry. rewrite !Nat2Z.id. unfold orders, lowest. destruct (Nat.ltb_spec 0 m); cbn [fst snd]; destruct i, j; f_equal; lia.
Qed.
Lemma Tav_sphere : forall T Tav, solves c I p is n T -> averaged c I p is n T Tav -> sphere_T n Tav (fun l => - b_of c I n p l)%C (fun l => - a_of c I n p l)%C.
Proof.
  intros T Tav HT HA l l' m H1 H2 H3 H4. pose proof (Tav_spherical T Tav HT HA) as S.
  pose proof (fun i j => element_entry Tav i j m l l' H1 H2 H3 H4) as E. pose proof (fun i j => S i j (Z.of_nat m) (Z.of_nat l) (Z.of_nat l') ltac:(unfold Props_align.in_range; lia)) as D.
  pose proof (E false false) as E1. pose proof (E true true) as E2. pose proof (E false true) as E3. pose proof (E true false) as E4. cbv iota in E1, E2, E3, E4. rewrite E1, E2, E3, E4, !D. cbn [Bool.eqb andb].
  unfold t_of. rewrite !Nat2Z.id. destruct (Nat.eqb_spec l l') as [ -> | N]; [rewrite Z.eqb_refl; auto|]. destruct (Z.eqb_spec (Z.of_nat l) (Z.of_nat l')); [lia|auto].
Qed.
Lemma area : forall X, 2 * PI / (2 * PI / point_wavelength c I p * (2 * PI / point_wavelength c I p)) * X / (PI * (point_size c I p)²) = 2 / (x_of c I p * x_of c I p) * X.
Proof.
  intros X. pose proof (ph_size _ _ PH) as H1. pose proof (ph_wav _ _ PH) as H2. pose proof PI_RGT_0. assert (S: 0 < point_size c I p) by apply H1. assert (W: 0 < point_wavelength c I p) by apply H2.
  unfold x_of, Rsqr. field. repeat split; lra.
Qed.
Lemma observed : forall T Tav, solves c I p is n T -> averaged c I p is n T Tav -> forall k q t, (q < n_col k)%nat -> (t < n_dir I k)%nat -> covered I k q ->
  observable c I k p n Tav q t = sphere_value c I k p n q t.
Proof.
  intros T Tav HT HA k q t Hq Ht Hc. pose proof (Tav_sphere T Tav HT HA) as S.
  pose proof (fun k al be th ph i j => extinction_of n Tav k (a_of c I n p) (b_of c I n p) al be th ph i j S) as X.
  destruct k; unfold observable, sphere_value, n_col, n_dir, covered in *; cbv zeta.
  - destruct q as [|[|[|]]]; try lia; cbn [nth Nat.eqb]; rewrite X by lia; cbn [Nat.eqb]; [apply area|unfold Rdiv; ring|unfold Rdiv; ring].
  - rewrite Hc. destruct q as [|[|]]; try lia; cbn [Nat.eqb]; rewrite X by lia; cbn [Nat.eqb]; [apply area|unfold Rdiv; ring].
  - destruct Hc as ( -> & Hc). change (0 / 4)%nat with 0%nat. change (0 mod 4)%nat with 0%nat. set (nphi := (2 * in_ntheta I)%nat) in *.
    assert (Hit: (t / nphi < in_ntheta I)%nat) by (apply Nat.div_lt_upper_bound; unfold nphi in *; nia). specialize (Hc _ Hit). set (x := fst (in_rule I (in_ntheta I)) (t / nphi)%nat) in *.
    assert (BX: -1 <= x <= 1) by (unfold x; apply (ph_points _ _ PH); exact Hit).
    rewrite (intensity_of n Tav _ (a_of c I n p) (b_of c I n p) 0 0 (PI / 2) 0 (acos x) _ S).
    + assert (M: Re (dot (direction (acos x) (fst (in_rule_phi I nphi) (t mod nphi)%nat)) (direction (PI / 2) 0)) = sin (acos x) * cos (fst (in_rule_phi I nphi) (t mod nphi)%nat)).
      { unfold dot, direction, real3. rewrite sin_PI2, cos_PI2, sin_0, cos_0. cbn [Re fst snd RtoC Cplus Cmult]. ring. }
      rewrite M. unfold mie_intensity, Rdiv. ring.
    + unfold clear_of_axis. cbv zeta. unfold dot, direction, real3. rewrite sin_PI2, cos_PI2, sin_0, cos_0. cbn [Re fst snd RtoC Cplus Cmult]. right.
      match goal with |- _ < 1 - Rabs ?e => replace e with 0 by ring end. rewrite Rabs_R0. lra.
    + unfold clear_of_axis. cbv zeta. unfold dot, direction, real3. rewrite sin_0, cos_0, cos_acos by lra. cbn [Re fst snd RtoC Cplus Cmult]. right.
      match goal with |- _ < 1 - Rabs ?e => replace e with x by ring end. exact Hc.
Qed.
End Block.
End Proof.

(** For every run of the task graph, schedule, number of threads and of shared slots: the results for spheres. *)
Theorem C87_results : forall c I prec emax tol, physical c I -> spheres c I -> (o_min c < o_max c)%nat -> (Z.of_nat (o_max c) < 2 ^ 64)%Z ->
  forall (L : Type) (vcode : task -> L -> (cell -> val object) -> option (L * (cell -> val object))) (start : task -> L),
  respects_footprint (unshared c) (val object) L vcode ->
  (forall t s s', task_in c t -> completes (val object) L vcode start t s s' -> forall x, s' x = effect c object (code c I) prec emax tol t s x) ->
  forall ord, (forall b, (b < n_block c)%nat -> chosen c object (code c I) prec emax tol b (ord b)) ->
  let n p is := (o_min c + ord (p * n_shape c + is)%nat)%nat in
  (forall p is, (p < n_point c)%nat -> (is < n_shape c)%nat -> alignable c I p is (n p is)) ->
  forall N pre nq nt e s, (0 < N)%nat -> reservations pre -> (0 < nt)%nat ->
  running nq (generated (with_slots c N) pre) nt e -> all_exited e ->
  executed (with_slots c N) (val object) L (slotted c (val object) L vcode N) start (initial object (code c I)) (log (gl e)) s ->
  forall k p, flag c k = true -> (p < n_point c)%nat -> exists Q, s (DRes k p) = Data object (OCoef Q) /\
    forall q t, (q < n_col k)%nat -> (t < n_dir I k)%nat -> covered I k q ->
      Q q t = weighted_mean q t (map (fun is => (in_weight I is, sphere_value c I k p (n p is))) (seq 0 (n_shape c))).
Proof.
  intros c I prec emax tol PH SP Ho H64 L vcode start HV HE ord Hord n AL N pre nq nt e s HN HP Hn Hrun Hx Hex k p Hk Hp.
  assert (NP: forall p is, (p < n_point c)%nat -> (is < n_shape c)%nat -> (o_min c <= n p is < o_max c)%nat).
  { intros p' is Hp' His. assert (Hb: (p' * n_shape c + is < n_block c)%nat) by (unfold n_block; nia). destruct (Hord _ Hb) as (Hi & _). rewrite (G_eq c Ho H64) in Hi. unfold n. lia. }
  destruct (C79_physics c I prec emax tol PH Ho H64 L vcode start HV HE ord Hord (fun p is A B => conj (I_regular c I PH SP p is (n p is) B (NP p is A B)) (AL p is A B)) N pre nq nt e s HN HP Hn Hrun Hx Hex) as (T & Tav & HT & R).
  destruct (R k p Hk Hp) as (Q & E & HQ). exists Q. split; [exact E|]. intros q t Hq Ht Hc. rewrite (HQ q t Hq Ht). unfold weighted_mean.
  rewrite !rsum_map. cbn [fst snd]. unfold weights. rewrite !rsum_map. cbn [fst snd]. f_equal. apply rsum_ext. intros is Hi. apply in_seq in Hi. f_equal.
  destruct (HT p is Hp ltac:(lia)) as (S1 & S2). apply (observed c I PH SP p is (n p is) ltac:(lia) (NP p is Hp ltac:(lia)) (T p is) (Tav p is) S1 S2 k q t Hq Ht Hc).
Qed.
Print Assumptions C87_results.
(** one shape *)
Theorem C87_one_shape : forall c I k p n q t, n_shape c = 1%nat -> in_weight I 0 <> 0 -> weighted_mean q t (map (fun is => (in_weight I is, sphere_value c I k p (n p is))) (seq 0 (n_shape c))) = sphere_value c I k p (n p 0%nat) q t.
Proof. intros c I k p n q t H W. rewrite H. unfold weighted_mean, weights. cbn [seq map Average.rsum fst snd]. field. lra. Qed.

(** shapes that need the same order *)
Lemma C87_one_value : forall c I k p n q t, weights (map (fun is => (in_weight I is, fun _ _ => 0)) (seq 0 (n_shape c))) <> 0 ->
  weighted_mean q t (map (fun is => (in_weight I is, sphere_value c I k p n)) (seq 0 (n_shape c))) = sphere_value c I k p n q t.
Proof.
  intros c I k p n q t H. unfold weighted_mean, weights in *. rewrite !rsum_map in *. cbn [fst snd] in *. set (l := seq 0 (n_shape c)) in *.
  replace (Average.rsum (fun is => in_weight I is * sphere_value c I k p n q t) l) with (Average.rsum (fun is => in_weight I is) l * sphere_value c I k p n q t); [field; exact H|].
  clear H. induction l as [|y l IH]; cbn [Average.rsum]; [ring|]. rewrite <- IH. ring.
Qed.
(* ---------------------------------------------- concrete cases *)
(** C87_scattered_field, C87_extinction, C87_intensity: an absorbing sphere with its axis along x, light along z, scattered along y *)
Example C87_example : forall g nmax, (1 <= nmax < 2 * g)%nat -> exists x w T T', let p := ball g nmax x w (3 / 2, / 10) in
  is_sphere p /\ construct p = Some T /\ compute_additional_elements p T = Some T' /\ clear_of_axis 0 (PI / 2) 0 0 /\ clear_of_axis 0 (PI / 2) (PI / 2) (PI / 2) /\
  0 < get_extinction_matrix nmax (2 * PI) T' 0 (PI / 2) 0 0 0 0.
Proof.
  intros g nmax Hg. destruct (C86_example g nmax Hg) as (x & w & S & B & Pa & T & T' & E & E' & H). exists x, w, T, T'. intros p. split; [exact S|]. split; [exact E|]. split; [exact E'|].
  assert (CL: forall e, e = 0 -> / 10000000000 < 1 - Rabs e) by (intros e ->; rewrite Rabs_R0; lra).
  split; [|split].
  - right. unfold dot, direction, real3. rewrite sin_PI2, cos_PI2, sin_0, cos_0. cbn [Re fst snd RtoC Cplus Cmult]. apply CL. ring.
  - right. unfold dot, direction, real3. rewrite sin_PI2, cos_PI2, sin_0, cos_0. cbn [Re fst snd RtoC Cplus Cmult]. apply CL. ring.
  - rewrite (C87_extinction p T T' _ _ _ _ _ 0 0 S E E') by lia. cbn [Nat.eqb]. fold p in S, E, E', H. destruct (C86_energy p T T' S B Pa E E') as ((H0 & _) & _).
    destruct (C85_cross_sections p T T' S E E') as (A1 & A2). change nmax with (p_nmax p) in H. rewrite A1 in H. pose proof PI_RGT_0. apply Rmult_lt_0_compat; [apply Rdiv_lt_0_compat; nra|].
    replace (Props_outputs.rsum _ _) with (- - Props_outputs.rsum (seq 1 (p_nmax p)) (fun n => INR (2 * n + 1) * Re (a_ p n + b_ p n)%C)); [change (p_nmax p) with nmax in *; lra|].
    rewrite Ropp_involutive. apply Props_outputs.rsum_ext. intros n _. rewrite plus_INR, mult_INR. cbn [INR]. ring.
Qed.
(** C87_results: two sizes and two shapes, all kinds of results, order 4, random orientation: a complete run of three threads with one slot for the shapes *)
Definition bl_in (x w : nat -> R) : inputs := mkInputs (fun i => INR i + 1) (fun _ => 1) (fun _ _ _ => (3 / 2, / 10)) (fun _ => 1) (fun is => INR is + 1) (fun _ _ => true) (fun _ _ => 1 :: repeat 0 9)
  1 1 (fun _ => PI / 2) 1 false (fun N => if (N =? 8)%nat then (x, w) else mid N) mid (fun _ => exact_radial) (fun _ => S754_zero false) (fun _ => 0%nat) (fun _ => RtoC 0) (repeat 0 81) (fun _ => 0, fun _ => 0).
Definition bl_cfg : cfg := mkCfg 1 2 1 2 4 5 1 (fun _ => true).
Lemma bl_ok : exists x w, physical bl_cfg (bl_in x w) /\ spheres bl_cfg (bl_in x w).
Proof.
  destruct (symmetric_gauss_exists 4 ltac:(lia)) as (x & w & SY & GA). exists x, w. pose proof PI_RGT_0. split.
  - split; cbn [in_size in_wavelength in_axis in_rule in_theta bl_in o_min bl_cfg]; intros; try lra; try lia.
    + pose proof (pos_INR i). lra.
    + unfold point_mr. cbn [in_index bl_in]. intro E. apply (f_equal Re) in E. cbn in E. lra.
    + cbn. unfold weights. cbn. lra.
    + destruct (Nat.eqb_spec (2 * n) 8); [|apply mid_sym]. replace n with 4%nat by lia. exact SY.
    + destruct (Nat.eqb_spec n 8) as [ -> | ]; [|apply mid_in; auto]. cbn [fst]. destruct (SY i ltac:(lia)) as (B & _). lra.
  - split; cbn [in_axis in_factor in_rule in_radial in_aligned in_coef bl_in o_min o_max bl_cfg]; intros; try lra; try lia.
    + assert (n = 4)%nat as -> by lia. cbn [Nat.mul Nat.add Nat.eqb fst snd]. apply gauss_is_exact; [lia|]. exact GA.
    + apply exact_radial_ok.
    + unfold point_mr, passive. cbn [in_index bl_in]. unfold Cmult, Im. cbn [fst snd]. lra.
    + reflexivity.
Qed.
Example C87_results_example : exists x w e s, physical bl_cfg (bl_in x w) /\ spheres bl_cfg (bl_in x w) /\ running 2 (generated (with_slots bl_cfg 1) []) 3 e /\ all_exited e /\
  executed (with_slots bl_cfg 1) (val object) bool (slotted bl_cfg (val object) bool (one_code bl_cfg object (code bl_cfg (bl_in x w)) 24 128 (S754_finite false 1 (-2))) 1) one_start
    (initial object (code bl_cfg (bl_in x w))) (log (gl e)) s /\
  exists Q, s (DRes Ext 1) = Data object (OCoef Q) /\ Q 0%nat 0%nat = mie_Qext 4 (4 * PI) (mie_a exact_radial (3 / 2, / 10) (4 * PI)) (mie_b exact_radial (3 / 2, / 10) (4 * PI)) /\ Q 1%nat 0%nat = 0.
Proof.
  destruct bl_ok as (x & w & PH & SP). exists x, w. set (I := bl_in x w) in *.
  assert (P: reservations []) by (intros y []).
  assert (A: (0 < n_slot (with_slots bl_cfg 1))%nat) by (cbn; lia). assert (B: (0 < n_quad (with_slots bl_cfg 1))%nat) by (vm_compute; lia).
  assert (C: (0 < o_max (with_slots bl_cfg 1))%nat) by (cbn; lia).
  destruct (run_exists 2 (generated (with_slots bl_cfg 1) []) 3) as (e & R & X); [apply generated_valid; auto|lia|apply generated_acyclic; auto|apply generated_lockable; auto|].
  assert (O: (o_min bl_cfg < o_max bl_cfg)%nat) by (cbn; lia). assert (H64: (Z.of_nat (o_max bl_cfg) < 2 ^ 64)%Z) by reflexivity.
  destruct (C77_outcome_exists bl_cfg object (code bl_cfg I) 24 128 (S754_finite false 1 (-2)) 1 [] 2 3 e O H64 ltac:(lia) P ltac:(lia) R X) as (HV & HE & s & E).
  exists e, s. split; [exact PH|]. split; [exact SP|]. split; [exact R|]. split; [exact X|]. split; [exact E|].
  assert (CH: forall b, chosen bl_cfg object (code bl_cfg I) 24 128 (S754_finite false 1 (-2)) b 0) by (intros b; split; [vm_compute; lia|split; [intros j Hj; lia|right; reflexivity]]).
  assert (AL: forall p is, alignable bl_cfg I p is 4) by (intros p is _; cbn; lia).
  destruct (C87_results bl_cfg I 24 128 (S754_finite false 1 (-2)) PH SP O H64 bool _ one_start HV HE (fun _ => 0%nat) (fun b _ => CH b) (fun p is _ _ => AL p is) 1 [] 2 3 e s ltac:(lia) P ltac:(lia) R X E Ext 1%nat eq_refl ltac:(vm_compute; lia)) as (Q & EQ & HQ).
  exists Q. split; [exact EQ|].
  assert (XO: x_of bl_cfg I 1 = 4 * PI) by (unfold x_of, point_size, point_wavelength; cbn; field).
  assert (V: sphere_value bl_cfg I Ext 1 4 0 0 = mie_Qext 4 (4 * PI) (mie_a exact_radial (3 / 2, / 10) (4 * PI)) (mie_b exact_radial (3 / 2, / 10) (4 * PI))).
  { unfold sphere_value. cbn [Nat.eqb]. unfold a_of, b_of. rewrite XO. reflexivity. }
  split.
  - rewrite (HQ 0%nat 0%nat ltac:(cbn; lia) ltac:(cbn; lia) Logic.I). rewrite <- V. unfold weighted_mean, weights. change (seq 0 (n_shape bl_cfg)) with [0%nat; 1%nat]. cbn [map Average.rsum fst snd o_min bl_cfg Nat.add].
    fold bl_cfg. change (in_weight I 0) with (0 + 1). change (in_weight I 1) with (1 + 1). generalize (sphere_value bl_cfg I Ext 1 4 0 0). intros v. field.
  - rewrite (HQ 1%nat 0%nat ltac:(cbn; lia) ltac:(cbn; lia) Logic.I). unfold weighted_mean, weights. change (seq 0 (n_shape bl_cfg)) with [0%nat; 1%nat]. cbn [map Average.rsum fst snd].
    unfold sphere_value. cbn [Nat.eqb]. change (in_weight I 0) with (0 + 1). change (in_weight I 1) with (1 + 1). field.
Qed.
