(** C90: the tables computed with an alignment object are those of the documented ensemble of grains.
    Specification: first part (with [rotated], [orientation_mean], [is_CInt], [full] of Props_rotation.v). *)
From Coq Require Import List ZArith Arith Lia Bool Reals Lra Floats.SpecFloat.
From Coquelicot Require Import Coquelicot.
From Verif Require Import Legendre Quadrature GaussExact GaussBounds Adaptive Orientation Density Props_density Props_quad AlignObject.
From Verif Require Import ResultTable NumPy MemLimit GetTable Props_gettable.
From Verif Require Import Base Clebsch Racah Matrix Average Props_matrix Props_optics Align AlignFacts Props_align QMatrix QFacts Ebcm EbcmFacts Props_tmatrix TClass
  LockProto Sched Api TaskGraph TaskGraphFacts TaskDeps Footprint GraphApi GraphHist GraphRun Determinism SlotFree SlotFinal Converge Whole Props_whole Physics Props_physics Rotation Props_rotation.
Import ListNotations.
Open Scope R_scope.
Notation R := Rdefinitions.R.

(* ------------------------------------------------------------ specification *)
(** orientations of the axes of the grains: azimuths always uniform *)
Inductive law :=
  | Spread (p : R -> R)        (* zenith angles with density p with respect to sin(beta) *)
  | Tilted (beta : R)          (* all at the same zenith angle *)
  | Kept.                      (* no averaging *)
Definition ensemble (l : law) (n : nat) (T Tav : tmats) : Prop := forall i j m m' n1 n2, in_full_range (Z.of_nat n) m m' n1 n2 ->
  let mean := full (Props_physics.entry n Tav) i j m m' n1 n2 in
  match l with
  | Spread p => orientation_mean p (rotated (Props_physics.entry n T) i j m m' n1 n2) mean
  | Tilted beta => is_CInt (fun alpha => rotated (Props_physics.entry n T) i j m m' n1 n2 alpha beta) 0 (2 * PI) (RtoC (2 * PI) * mean)%C
  | Kept => mean = full (Props_physics.entry n T) i j m m' n1 n2
  end.
(** sum of (2 N + 1) / 2 c_N P_N(cos beta), N < k: the density with Legendre moments c_N (what evaluate of a distribution computes, C81) *)
Fixpoint legendre_series (coef : nat -> R) (k : nat) (b : R) : R :=
  match k with O => 0 | S k' => legendre_series coef k' b + (2 * INR k' + 1) / 2 * coef k' * P k' 0 (cos b) end.
(** what the documentation says about the grains of a size and axis ratio *)
Definition documented (minimum_size : R) (type : Z) (ob pr : option distribution) (size axis : R) (l : law) : Prop :=
  if Rle_dec size minimum_size then exists p, l = Spread p /\ forall b, Rabs (p b - 1 / 2) <= 1 / 10   (* random orientation, up to the error of the quadrature *)
  else match type with
  | 0%Z => l = Tilted (if Rlt_dec 1 axis then 0 else PI / 2)                                              (* perfect Davis-Greenstein alignment *)
  | 1%Z => l = Spread (fun b => mishchenko_pdf (if Rlt_dec 1 axis then 3 / 5 else 1 / 5) (cos b))       (* imperfect alignment *)
  | 2%Z => l = Kept
  | 3%Z => exists d, (if Rlt_dec 1 axis then ob else pr) = Some d /\ l = Spread (legendre_series (Orientation.coef d) (Orientation.size d))
  | _ => False
  end.

(* ------------------------------------------------------------ Legendre series *)
Lemma P_moment : forall n k, is_RInt (fun b => sin b * (P n 0 (cos b) * P k 0 (cos b))) 0 PI (if Nat.eqb n k then 2 / (2 * INR n + 1) else 0).
Proof.
  intros n k. destruct (polyf_P n) as (p & _ & Ep). destruct (polyf_P k) as (q & _ & Eq).
  apply (is_RInt_by (fun b => sin b * eval (pmul p q) (cos b)) _ _ _ (if Nat.eqb n k then 2 / (2 * INR n + 1) else 0)); [|intros; rewrite eval_pmul, <- Ep, <- Eq; auto | auto].
  apply angle_integral. destruct (Nat.eqb_spec n k) as [->|N].
  - apply (is_RInt_by _ _ _ _ _ _ (norm_squared k)); [intros; rewrite eval_pmul, <- Ep, <- Eq; auto | auto].
  - apply (is_RInt_by _ _ _ _ _ _ (orthogonal n k N)); [intros; rewrite eval_pmul, <- Ep, <- Eq; auto | auto].
Qed.
Lemma series_moment : forall coef k n, is_RInt (fun b => sin b * (legendre_series coef k b * P n 0 (cos b))) 0 PI (if (n <? k)%nat then coef n else 0).
Proof.
  intros coef k n. induction k as [|k IH].
  - cbn [legendre_series]. apply (is_RInt_by (fun _ => 0) _ _ _ 0); [|intros; ring | auto]. evar_last; [apply (is_RInt_const (V := R_NormedModule))|]. unfold scal; cbn; unfold mult; cbn. ring.
  - pose proof (is_RInt_lin _ _ _ _ _ _ 1 ((2 * INR k + 1) / 2 * coef k) IH (P_moment k n)) as L. apply (is_RInt_by _ _ _ _ _ _ L); [intros; cbn [legendre_series]; ring|].
    pose proof (pos_INR k). destruct (Nat.eqb_spec k n) as [->|N].
    + rewrite (proj2 (Nat.ltb_ge n n)), (proj2 (Nat.ltb_lt n (S n))) by lia. field. lra.
    + destruct (Nat.ltb_spec n k), (Nat.ltb_spec n (S k)); try lia; ring.
Qed.
Lemma P_bound : forall N b, Rabs (P N 0 (cos b)) <= 1.
Proof.
  intros N b. rewrite <- wd_00. pose proof (wd_orthonormal (Z.of_nat N) 0 0 b ltac:(lia) ltac:(lia) ltac:(lia)) as O. cbn [Z.eqb] in O.
  assert (H: wd (Z.of_nat N) 0 0 b * wd (Z.of_nat N) 0 0 b <= 1).
  { rewrite <- O. unfold zu. set (n := Z.to_nat _). set (f := fun k => _).
    assert (G: forall m q, (q < m)%nat -> f q <= su m f).
    { induction m; intros q Hq; [lia|]. cbn [su]. assert (NN: forall i, 0 <= f i) by (intros; unfold f; nra). destruct (Nat.eq_dec q m) as [->|X]; [pose proof (su_nonneg m f (fun i _ => NN i)); lra|].
      pose proof (IHm q ltac:(lia)). pose proof (NN m). lra. }
    pose proof (G n N ltac:(unfold n; lia)) as A. unfold f at 1 in A. replace (- Z.of_nat N + Z.of_nat N)%Z with 0%Z in A by lia. auto. }
  apply Rabs_le. split; nra.
Qed.
Lemma series_near : forall coef k b, coef 0%nat = 1 -> (forall n, (1 <= n < S k)%nat -> Rabs (coef n) <= 1 / (25 * 2 ^ n)) ->
  Rabs (legendre_series coef (S k) b - 1 / 2) <= 1 / 10 - (2 * INR k + 5) / 50 / 2 ^ k.
Proof.
  intros coef k b C0. induction k as [|k IH]; intros H.
  - cbn [legendre_series]. rewrite P_0_0, C0. cbn [INR pow]. replace (0 + (2 * 0 + 1) / 2 * 1 * 1 - 1 / 2) with 0 by field. rewrite Rabs_R0. lra.
  - change (legendre_series coef (S (S k)) b) with (legendre_series coef (S k) b + (2 * INR (S k) + 1) / 2 * coef (S k) * P (S k) 0 (cos b)).
    specialize (IH ltac:(intros; apply H; lia)). pose proof (H (S k) ltac:(lia)) as Hk. pose proof (P_bound (S k) b) as PB.
    set (x := legendre_series coef (S k) b) in *. set (y := coef (S k)) in *. set (z := P (S k) 0 (cos b)) in *.
    replace (x + (2 * INR (S k) + 1) / 2 * y * z - 1 / 2) with ((x - 1 / 2) + (2 * INR (S k) + 1) / 2 * y * z) by ring.
    eapply Rle_trans; [apply Rabs_triang|]. rewrite !Rabs_mult. rewrite S_INR in *. pose proof (pos_INR k) as Pk. rewrite (Rabs_pos_eq ((2 * (INR k + 1) + 1) / 2)) by lra.
    assert (Q: (2 * (INR k + 1) + 1) / 2 * Rabs y * Rabs z <= (2 * (INR k + 1) + 1) / 2 * (1 / (25 * 2 ^ S k)) * 1).
    { apply Rmult_le_compat; [apply Rmult_le_pos; [lra | apply Rabs_pos] | apply Rabs_pos | apply Rmult_le_compat_l; [lra | auto] | auto]. }
    pose proof (pow_lt 2 k ltac:(lra)) as P2. cbn [pow] in *. set (u := 2 ^ k) in *. 
    replace (1 / 10 - (2 * (INR k + 1) + 5) / 50 / (2 * u)) with ((1 / 10 - (2 * INR k + 5) / 50 / u) + (2 * (INR k + 1) + 1) / 2 * (1 / (25 * (2 * u))) * 1) by (field; lra). lra.
Qed.

(* ------------------------------------------------------------ from Mishchenko's formula to the ensemble *)
Lemma row_in : forall n (j : bool) a, (1 <= a <= n)%nat -> let r := ((if j then Ebcm.orders 0 n else 0) + (a - lowest 0))%nat in (r < 2 * Ebcm.orders 0 n)%nat /\ kb (kind_of 0 n r) = j.
Proof.
  intros n j a Ha r. unfold r, kind_of, Ebcm.orders, lowest. destruct j.
  - destruct (Nat.ltb_spec (n + 1 - Nat.max 1 0 + (a - Nat.max 1 0)) (n + 1 - Nat.max 1 0)); cbn [kb]; split; auto; lia.
  - destruct (Nat.ltb_spec (0 + (a - Nat.max 1 0)) (n + 1 - Nat.max 1 0)); cbn [kb]; split; auto; lia.
Qed.
Lemma T_no_mixing : forall c I p is n T, physical c I -> (is < n_shape c)%nat -> (1 <= n)%nat -> regular c I p is n -> solves c I p is n T ->
  forall i j n1 n2, (1 <= n1 <= Z.of_nat n)%Z -> (1 <= n2 <= Z.of_nat n)%Z -> i <> j -> Props_physics.entry n T i j 0%Z n1 n2 = RtoC 0.
Proof.
  intros c I p is n T PH His Hn REG HT i j n1 n2 H1 H2 N. unfold Props_physics.entry. change (Z.to_nat 0) with 0%nat.
  destruct (row_in n i (Z.to_nat n1) ltac:(lia)) as (R1 & K1). destruct (row_in n j (Z.to_nat n2) ltac:(lia)) as (R2 & K2).
  set (e := make_env (in_radial I n) true 0 n (in_factor I * n) (fst (in_rule I (2 * (in_factor I * n)))) (snd (in_rule I (2 * (in_factor I * n))))
    (in_axis I is) (point_size c I p) (point_wavelength c I p) (point_mr c I p) (in_junk I) (fun _ _ => (0, 0))).
  destruct (task_execute e 0 n (in_factor I * n) (in_pivot I) (in_lapack I) zero_mat) as [W|] eqn:E.
  - destruct (C63_T_matrix (in_radial I n) true 0 n (in_factor I * n) _ _ _ _ _ _ _ _ _ _ _ _ (ph_rule _ _ PH _) (ph_axis _ _ PH _ His) (ph_size _ _ PH _) (ph_wav _ _ PH _) (ph_mr _ _ PH _) ltac:(lia) Hn E) as (_ & S2).
    rewrite (S2 (T 0%nat)); auto; [|apply HT; lia].
    apply (C64_symmetries (in_radial I n) true 0 n (in_factor I * n) _ _ _ _ _ _ _ _ _ _ _ _ ltac:(lia) Hn E); auto. right. right. split; auto. congruence.
  - exfalso. apply (C63_fails_exactly_when_singular (in_radial I n) true 0 n (in_factor I * n)) in E; auto;
      try (apply (ph_size _ _ PH)); try (apply (ph_wav _ _ PH)); try (apply (ph_mr _ _ PH)); try (apply (ph_axis _ _ PH); auto); try (apply (ph_rule _ _ PH)); try lia.
    destruct E as (v & l & Hl & Hv & Z). apply Hv. apply (REG 0%nat ltac:(lia) v); auto.
Qed.

(** every T-matrix averaged with coefficients that suffice is that of the ensemble with these Legendre moments *)
Lemma averaged_ensemble : forall c I p is n T Tav, physical c I -> (is < n_shape c)%nat -> (1 <= n)%nat -> regular c I p is n -> solves c I p is n T -> averaged c I p is n T Tav ->
  let size := point_size c I p in let axis := in_axis I is in
  (in_aligned I size axis = false -> ensemble Kept n T Tav) /\
  (in_aligned I size axis = true ->
    (forall q, has_moments q (coefficient (in_coef I size axis)) (2 * Z.of_nat n) -> ensemble (Spread q) n T Tav) /\
    (forall beta, (forall N, (0 <= N <= 2 * Z.of_nat n)%Z -> coefficient (in_coef I size axis) N = P (Z.to_nat N) 0 (cos beta)) -> ensemble (Tilted beta) n T Tav)).
Proof.
  intros c I p is n T Tav PH His Hn REG HT HA size axis. pose proof (T_no_mixing c I p is n T PH His Hn REG HT) as NM. unfold averaged in HA. fold size axis in HA. split; [|split].
  - intros E i j m m' n1 n2 (H1 & H2 & A & B). cbv zeta. rewrite E in HA. unfold full. destruct (Z.eqb_spec m m') as [<-|N]; auto. unfold mirrored. destruct (m <? 0)%Z eqn:L; [apply Z.ltb_lt in L | apply Z.ltb_ge in L]; rewrite HA by (repeat split; lia); auto.
  - intros q M i j m m' n1 n2 R. cbv zeta. rewrite H in HA. apply (mean_density q (coefficient (in_coef I size axis)) (Z.of_nat n)); auto. intros N. apply NM; auto; destruct R; lia.
  - intros beta M i j m m' n1 n2 R. cbv zeta. rewrite H in HA. apply (mean_angle beta (coefficient (in_coef I size axis)) (Z.of_nat n)); auto. intros N. apply NM; auto; destruct R; lia.
Qed.
Lemma vector_nth : forall d N, (0 <= N < Z.of_nat (Orientation.size d))%Z -> coefficient (coefficient_vector d) N = Orientation.coef d (Z.to_nat N).
Proof. apply coefficients_nth. Qed.
Lemma vector_length : forall d, length (coefficient_vector d) = Orientation.size d.
Proof. apply coefficients_length. Qed.
Lemma tolerances : 0 <= 1 / 10 ^ 10 /\ 0 <= 1 / 10 ^ 5.
Proof. pose proof (pow_lt 10 10 ltac:(lra)). pose proof (pow_lt 10 5 ltac:(lra)). split; apply Rdiv_le_0_compat; lra. Qed.

Definition order_of (maximum_order : option nat) : nat := match maximum_order with Some n => n | None => 100%nat end.
Definition custom (ob pr : option distribution) (order : nat) : Prop := exists a b, ob = Some a /\ pr = Some b /\ (2 * order < Orientation.size a)%nat /\ (2 * order < Orientation.size b)%nat.
(** the object exists for the documented types (with an order of at least 1 for type 1), and has enough coefficients for T-matrices up to its order (for
    custom distributions: if they have) *)
Theorem C90_object : forall rule minimum_size type maximum_order ob pr, gauss_on rule 1 (100 * (2 * order_of maximum_order + 10)) ->
  (type = 0 \/ type = 1 \/ type = 2 \/ type = 3)%Z -> (type = 1%Z -> (1 <= order_of maximum_order)%nat) -> (type = 3%Z -> custom ob pr (order_of maximum_order)) ->
  exists s, python_alignment rule minimum_size type maximum_order ob pr = Built s /\
  forall size axis, object_aligned s size axis = true -> (2 * order_of maximum_order < length (object_coef s size axis))%nat.
Proof.
  intros rule smin type mo ob pr G HT H1 H3. set (n := order_of mo) in *. destruct tolerances as (A & B). destruct (C80_uniform rule (1 / 10 ^ 10) (1 / 10 ^ 5) (2 * n) G A B) as (o & E & _).
  destruct (C80_coefficients _ _ _ _ _ _ A B E) as (So & _). unfold python_alignment. fold (order_of mo). fold n. rewrite E.
  destruct HT as [ -> | [ -> | [ -> | -> ]]].
  - cbn [Z.ltb Z.compare]. change (Z.to_nat 0) with 0%nat. cbn [make_size_based]. eexists. split; [reflexivity|]. intros size axis _. unfold object_coef. rewrite vector_length. unfold get_distribution. cbn [minimum_size oblate prolate non_aligned].
    destruct (Rlt_dec smin size); [destruct (Rlt_dec 1 axis)|]; [destruct (C31_oblate (2 * n) 2 0 ltac:(lra) ltac:(lia)) as (_ & _ & Q) | destruct (C31_prolate (2 * n) (1 / 2) 0 ltac:(lra) ltac:(lia)) as (_ & Q) | rewrite So; lia]; rewrite Q; lia.
  - specialize (H1 eq_refl). cbn [Z.ltb Z.compare]. change (Z.to_nat 1) with 1%nat. cbn [make_size_based].
    destruct (C50_coefficients_are_moments (2 * n) (3 / 5) ltac:(lra) ltac:(lia)) as (d1 & E1 & S1 & _). destruct (C50_coefficients_are_moments (2 * n) (1 / 5) ltac:(lra) ltac:(lia)) as (d2 & E2 & S2 & _).
    rewrite E1, E2. eexists. split; [reflexivity|]. intros size axis _. unfold object_coef. rewrite vector_length. unfold get_distribution. cbn [minimum_size oblate prolate non_aligned].
    destruct (Rlt_dec smin size); [destruct (Rlt_dec 1 axis)|]; lia.
  - cbn [Z.ltb Z.compare]. change (Z.to_nat 2) with 2%nat. cbn [make_size_based]. eexists. split; [reflexivity|]. intros size axis AL. unfold object_aligned, object_coef in *. rewrite vector_length. unfold get_distribution in *. cbn [minimum_size oblate prolate non_aligned] in *.
    destruct (Rlt_dec smin size); [destruct (Rlt_dec 1 axis); discriminate|]. lia.
  - destruct (H3 eq_refl) as (a & b & -> & -> & Sa & Sb). cbn [make_size_based]. eexists. split; [reflexivity|]. intros size axis _. unfold object_coef. rewrite vector_length. unfold get_distribution. cbn [minimum_size oblate prolate non_aligned].
    destruct (Rlt_dec smin size); [destruct (Rlt_dec 1 axis)|]; cbn [Orientation.size copy]; lia.
Qed.
Print Assumptions C90_object.
(** The T-matrices behind the tables are those of the documented ensemble. *)
Theorem C90_ensemble : forall rule minimum_size type maximum_order ob pr s, gauss_on rule 1 (100 * (2 * order_of maximum_order + 10)) ->
  python_alignment rule minimum_size type maximum_order ob pr = Built s ->
  forall c I p is n T Tav, in_aligned I = object_aligned s -> in_coef I = object_coef s ->
  physical c I -> (is < n_shape c)%nat -> (1 <= n <= order_of maximum_order)%nat -> (type = 3%Z -> custom ob pr n) ->
  regular c I p is n -> solves c I p is n T -> averaged c I p is n T Tav ->
  exists l, documented minimum_size type ob pr (point_size c I p) (in_axis I is) l /\ ensemble l n T Tav.
Proof.
  intros rule smin type mo ob pr s G HB c I p is n T Tav IA IC PH His Hn H3 REG HT HA. set (K := order_of mo) in *.
  destruct tolerances as (A & B). destruct (C80_uniform rule (1 / 10 ^ 10) (1 / 10 ^ 5) (2 * K) G A B) as (o & E & C0 & _ & CB).
  destruct (C80_coefficients _ _ _ _ _ _ A B E) as (So & Ao & _). unfold python_alignment in HB. fold (order_of mo) in HB. fold K in HB. rewrite E in HB.
  destruct (averaged_ensemble c I p is n T Tav PH His ltac:(lia) REG HT HA) as (NO & YES). rewrite IA in NO. rewrite IA, IC in YES. unfold object_aligned, object_coef in NO, YES. set (sz := point_size c I p) in *. set (ax := in_axis I is) in *.
  unfold documented. unfold get_distribution in NO, YES.
  assert (MS: minimum_size s = smin /\ non_aligned s = dist o /\
    ((type = 0%Z /\ oblate s = davis_greenstein (2 * K) 2 /\ prolate s = davis_greenstein (2 * K) (1 / 2)) \/
     (type = 1%Z /\ Orientation.mishchenko (2 * K) (3 / 5) = Ok (oblate s) /\ Orientation.mishchenko (2 * K) (1 / 5) = Ok (prolate s)) \/
     (type = 2%Z /\ oblate s = disabled /\ prolate s = disabled) \/
     (type = 3%Z /\ exists a b, ob = Some a /\ pr = Some b /\ oblate s = copy a /\ prolate s = copy b))).
  { destruct (Z.eq_dec type 3) as [ -> | N3].
    - destruct ob as [a|]; [|discriminate]. destruct pr as [b|]; [|discriminate]. cbn [make_size_based] in HB. injection HB as <-. cbn. split; auto. split; auto. right. right. right. split; auto. exists a, b. auto.
    - assert (HB': (if (type <? 0)%Z then Aborts else match make_size_based smin K (Z.to_nat type) (dist o) (dist o) (dist o) with Ok s => Built s | OutOfBounds => Undefined | Fails => Aborts end) = Built s).
      { destruct type as [|[[q|q|]|q|]|q]; auto; congruence. }
      clear HB. destruct (Z.ltb_spec type 0); [discriminate|]. destruct (Z.to_nat type) as [|[|[|[|q]]]] eqn:TQ; cbn [make_size_based] in HB'.
      + injection HB' as <-. cbn. split; auto. split; auto. left. split; [lia | auto].
      + destruct (Orientation.mishchenko (2 * K) (3 / 5)) as [d1| |] eqn:E1; try discriminate. 2: { destruct (Orientation.mishchenko (2 * K) (1 / 5)); discriminate. }
        destruct (Orientation.mishchenko (2 * K) (1 / 5)) as [d2| |] eqn:E2; try discriminate. injection HB' as <-. cbn. split; auto. split; auto. right. left. split; [lia | auto].
      + injection HB' as <-. cbn. split; auto. split; auto. right. right. left. split; [lia | auto].
      + lia.
      + discriminate. }
  destruct MS as (M1 & M2 & M3). rewrite M1 in NO, YES. destruct (Rle_dec sz smin) as [LE|GT].
  - destruct (Rlt_dec smin sz) as [X|_]; [lra|]. rewrite M2 in YES. destruct (YES Ao) as (Y & _).
    eexists. split; [exists (legendre_series (Orientation.coef (dist o)) (S (2 * K))); split; [reflexivity|]|].
    + intros b. eapply Rle_trans; [apply series_near; auto; intros; apply CB; lia|]. pose proof (pow_lt 2 (2 * K) ltac:(lra)) as P2. pose proof (pos_INR (2 * K)) as PK.
      assert (0 <= (2 * INR (2 * K) + 5) / 50 / 2 ^ (2 * K)) by (apply Rdiv_le_0_compat; [apply Rdiv_le_0_compat; lra | auto]). lra.
    + apply Y. intros N HN. rewrite vector_nth by (rewrite So; lia). pose proof (series_moment (Orientation.coef (dist o)) (S (2 * K)) (Z.to_nat N)) as Q. rewrite (proj2 (Nat.ltb_lt _ _)) in Q by lia. exact Q.
  - destruct (Rlt_dec smin sz) as [_|X]; [|lra]. destruct M3 as [(-> & O & R) | [(-> & O & R) | [(-> & O & R) | (-> & a & b & -> & -> & O & R)]]].
    + eexists. split; [reflexivity|]. destruct (Rlt_dec 1 ax) as [A1|A1].
      * rewrite O in YES. destruct (davis_greenstein_spec (2 * K) 2 0 ltac:(lia)) as (_ & Sz & Al). destruct (YES Al) as (_ & Y). apply Y. intros N HN. rewrite vector_nth by (rewrite Sz; lia). rewrite cos_0. apply (C31_oblate (2 * K) 2); [lra | lia].
      * rewrite R in YES. destruct (davis_greenstein_spec (2 * K) (1 / 2) 0 ltac:(lia)) as (_ & Sz & Al). destruct (YES Al) as (_ & Y). apply Y. intros N HN. rewrite vector_nth by (rewrite Sz; lia). rewrite cos_PI2. apply (C31_prolate (2 * K) (1 / 2)); [lra | lia].
    + assert (D: forall cc d, 1 / 5 <= cc <= 3 / 5 -> Orientation.mishchenko (2 * K) cc = Ok d -> align d = true /\ has_moments (fun b => mishchenko_pdf cc (cos b)) (coefficient (coefficient_vector d)) (2 * Z.of_nat n)).
      { intros cc d Hc Ed. destruct (mishchenko_spec (2 * K) cc Hc) as (Q & _). destruct (Q ltac:(lia)) as (d' & Ed' & Sz & Al & Cf). rewrite Ed in Ed'. injection Ed' as <-. split; auto.
        intros N HN. rewrite vector_nth by (rewrite Sz; lia). rewrite Cf. apply mishchenko_moments. }
      eexists. split; [reflexivity|]. destruct (Rlt_dec 1 ax) as [A1|A1].
      * destruct (D (3 / 5) (oblate s) ltac:(lra) O) as (Al & M). destruct (YES Al) as (Y & _). apply Y. exact M.
      * destruct (D (1 / 5) (prolate s) ltac:(lra) R) as (Al & M). destruct (YES Al) as (Y & _). apply Y. exact M.
    + eexists. split; [reflexivity|]. apply NO. destruct (Rlt_dec 1 ax); [rewrite O | rewrite R]; reflexivity.
    + destruct (H3 eq_refl) as (a' & b' & Ea & Eb & Sa & Sb). injection Ea as <-. injection Eb as <-.
      assert (D: forall d, (2 * n < Orientation.size d)%nat -> has_moments (legendre_series (Orientation.coef d) (Orientation.size d)) (coefficient (coefficient_vector (copy d))) (2 * Z.of_nat n)).
      { intros d Hd N HN. rewrite vector_nth by (cbn [copy Orientation.size]; lia). cbn [copy Orientation.coef]. pose proof (series_moment (Orientation.coef d) (Orientation.size d) (Z.to_nat N)) as Q. rewrite (proj2 (Nat.ltb_lt _ _)) in Q by lia. exact Q. }
      destruct (Rlt_dec 1 ax) as [A1|A1].
      * eexists. split; [exists a; auto|]. rewrite O in YES. destruct (YES eq_refl) as (Y & _). apply Y. apply D. auto.
      * eexists. split; [exists b; auto|]. rewrite R in YES. destruct (YES eq_refl) as (Y & _). apply Y. apply D. auto.
Qed.
Print Assumptions C90_ensemble.
(** Down to the tables: C88 with an alignment object. *)
Theorem C90_get_table : forall rule minimum_size type maximum_order ob pr s, gauss_on rule 1 (100 * (2 * order_of maximum_order + 10)) ->
  python_alignment rule minimum_size type maximum_order ob pr = Built s ->
  forall a types sizes wavelengths thetas prec emax tol, ar_aligned a = object_aligned s -> ar_coef a = object_coef s ->
  let c := config a types sizes wavelengths 1 in let I := the_inputs a types sizes wavelengths thetas in
  physical c I -> (ar_min a < ar_max a)%nat -> (Z.of_nat (ar_max a) < 2 ^ 64)%Z ->
  forall (L : Type) (vcode : task -> L -> (cell -> val Physics.object) -> option (L * (cell -> val Physics.object))) (start : task -> L),
  respects_footprint (unshared c) (val Physics.object) L vcode ->
  (forall t s s', task_in c t -> completes (val Physics.object) L vcode start t s s' -> forall x, s' x = effect c Physics.object (code c I) prec emax tol t s x) ->
  forall ord, (forall b, (b < n_block c)%nat -> chosen c Physics.object (code c I) prec emax tol b (ord b)) ->
  let n p is := (ar_min a + ord (p * ar_shapes a + is)%nat)%nat in
  (forall p is, (p < n_point c)%nat -> (is < ar_shapes a)%nat -> regular c I p is (n p is) /\
     (* enough coefficients, and a large enough work array (C60) *)
     (n p is <= order_of maximum_order)%nat /\ (type = 3%Z -> custom ob pr (n p is)) /\ ((2 * n p is + 1) * (2 * n p is + 1) <= length (ar_cg a))%nat) ->
  forall N pre nq nt e st, (0 < N)%nat -> reservations pre -> (0 < nt)%nat ->
  running nq (generated (with_slots c N) pre) nt e -> all_exited e ->
  executed (with_slots c N) (val Physics.object) L (slotted c (val Physics.object) L vcode N) start (initial Physics.object (code c I)) (log (gl e)) st ->
  exists T Tav : nat -> nat -> tmats,
  (forall p is, (p < n_point c)%nat -> (is < ar_shapes a)%nat -> solves c I p is (n p is) (T p is) /\
     exists l, documented minimum_size type ob pr (point_size c I p) (ar_axis a is) l /\ ensemble l (n p is) (T p is) (Tav p is)) /\
  exists ans, give a types sizes wavelengths thetas (stored_results (generate (with_slots c N))) st = Some ans /\
    right_answer a types sizes wavelengths thetas (fun k p q t x =>
      x = weighted_mean q t (map (fun is => (ar_weight a is, observable c I k p (n p is) (Tav p is))) (seq 0 (ar_shapes a)))) ans.
Proof.
  intros rule smin type mo ob pr s G HB a types sizes wavelengths thetas prec emax tol EA EC c I PH Ho H64 L vcode start HV HE ord Hord n HR N pre nq nt e st HN HP Hn Hrun Hx Hex.
  destruct (C88_get_table a types sizes wavelengths thetas prec emax tol PH Ho H64 L vcode start HV HE ord Hord) with (N := N) (pre := pre) (nq := nq) (nt := nt) (e := e) (s := st) as (T & Tav & H1 & H2); auto.
  - intros p is Hp His. destruct (HR p is Hp His) as (R1 & R2 & R3 & R4). split; [exact R1|]. intros AL. cbn [in_aligned in_coef in_cg the_inputs] in *. split; [|exact R4]. rewrite EA, EC in *.
    destruct (Z.eq_dec type 3) as [ -> | N3].
    + clear - HB AL R2 R3 G. destruct (R3 eq_refl) as (d1 & d2 & -> & -> & S1 & S2). unfold python_alignment in HB. destruct tolerances as (A & B). set (K := match mo with Some n => n | None => 100%nat end) in *.
      destruct (initialise rule Density.uniform (1 / 10 ^ 10) (1 / 10 ^ 5) (2 * K)) as [o| |] eqn:E; try discriminate. destruct (C80_coefficients _ _ _ _ _ _ A B E) as (So & _).
      cbn [make_size_based] in HB. injection HB as <-. unfold object_coef. rewrite vector_length. unfold get_distribution. cbn [minimum_size oblate prolate non_aligned].
      change (order_of mo) with K in R2. destruct (Rlt_dec _ _); [destruct (Rlt_dec _ _)|]; cbn [copy Orientation.size]; unfold n in *; lia.
    + assert (TY: (type = 0 \/ type = 1 \/ type = 2 \/ type = 3)%Z /\ (type = 1%Z -> (1 <= order_of mo)%nat)).
      { split; [|intros ->; pose proof (ph_min _ _ PH) as M; change (o_min c) with (ar_min a) in M; unfold n in R2; lia].
        unfold python_alignment in HB. destruct (initialise _ _ _ _ _) as [o| |]; try discriminate. destruct type as [|[[q|q|]|[q|q|]|]|q]; try lia; cbn [Z.ltb Z.compare] in HB; try discriminate;
        exfalso; match type of HB with context [Z.to_nat ?z] => destruct (Z.to_nat z) as [|[|[|[|w]]]] eqn:TQ; try lia end; cbn [make_size_based] in HB; discriminate. }
      destruct (C90_object rule smin type mo ob pr G (proj1 TY) (proj2 TY)) as (s' & HB' & Q); [tauto|]. rewrite HB in HB'. injection HB' as <-. specialize (Q _ _ AL). unfold n in *. lia.
  - exists T, Tav. split; [|exact H2]. intros p is Hp His. destruct (H1 p is Hp His) as (S1 & S2). destruct (HR p is Hp His) as (R1 & R2 & R3 & R4). split; auto.
    apply (C90_ensemble rule smin type mo ob pr s G HB c I p is (n p is) (T p is) (Tav p is)); auto. pose proof (ph_min _ _ PH) as M. change (o_min c) with (ar_min a) in M. unfold n in *. lia.
Qed.
Print Assumptions C90_get_table.
(** With fewer coefficients than twice the order of the T-matrix the average reads beyond them (the check is an assertion that is not active): the custom
    distributions have 101 coefficients by default, which is not enough for T-matrices of order 51 and more. *)
Theorem C90_too_few_coefficients_refuted : forall coef nmax T cg old, (1 <= nmax)%Z -> (Z.of_nat (length coef) <= 2 * nmax)%Z -> execute true coef nmax T cg old = None.
Proof.
  intros coef nmax T cg old Hn HL. unfold execute, mn_loops. set (Q := fun s : list R * Align.tmat => True).
  apply (zup_fails _ Q _ _ _ _ 0%Z); [lia | exact Logic.I | auto |]. intros s _. apply (zup_fails _ Q _ _ _ _ nmax); [lia | exact Logic.I | auto |]. intros s1 _.
  apply (zup_fails _ Q _ _ _ _ nmax); [lia | exact Logic.I | auto |]. intros s2 _. unfold Align.element. rewrite n12min_abs.
  rewrite (zup_fails _ (fun st => True) _ _ _ _ (2 * nmax)%Z); [reflexivity | lia | exact Logic.I | auto |].
  intros [c u] _. unfold N_body. destruct (get_clebsch_gordan_coefficients _ _ _ _) as [r|]; [|reflexivity]. cbn [obind].
  replace (Clebsch.rd coef (2 * nmax)) with (@None R); [reflexivity|]. symmetry. unfold Clebsch.rd. destruct (Z.leb_spec 0 (2 * nmax)); [apply nth_error_None; lia | auto].
Qed.
Print Assumptions C90_too_few_coefficients_refuted.

(* ------------------------------------------------------------ a concrete call *)
(** the call of C88_example with imperfect alignment of the grains larger than 3/2 (the sizes are 1 and 2), T-matrices of order 4 *)
Definition aligned_args (x w : nat -> R) (s : size_based) : arguments :=
  mkArgs (mkArray 1000 [1] [8])%Z (mkArray 1016 [2] [-8])%Z (mkArray 1008 [] [])%Z (mkArray 1008 [] [])%Z 2 (fun _ => 1) (fun is => INR is + 1) (object_aligned s) (object_coef s)
    (fun _ _ _ => (3 / 2, / 10)) 4 5 1 1 true true true false (fun N => if (N =? 8)%nat then (x, w) else mid N) mid (fun _ => Props_energy.exact_radial) (fun _ => S754_zero false)
    (fun _ => 0%nat) (fun _ => RtoC 0) (repeat 0 81) (fun _ => 0, fun _ => 0).
Example C90_example : exists rule al x w e st T Tav, let a := aligned_args x w al in let c := config a [7]%Z [2; 1] [1] 1 in let I := the_inputs a [7]%Z [2; 1] [1] [1] in
  gauss_on rule 1 (100 * (2 * 4 + 10)) /\ python_alignment rule (3 / 2) 1 (Some 4%nat) None None = Built al /\
  running 2 (generated (with_slots c 1) []) 3 e /\ all_exited e /\
  executed (with_slots c 1) (val Physics.object) bool (slotted c (val Physics.object) bool (one_code c Physics.object (code c I) 24 128 (S754_finite false 1 (-2))) 1) one_start
    (initial Physics.object (code c I)) (log (gl e)) st /\
  solves c I 1 0 4 T /\ ensemble (Spread (fun b => mishchenko_pdf (1 / 5) (cos b))) 4 T Tav.
Proof.
  assert (EX: forall hi, exists rule, gauss_on rule 1 hi).
  { intros hi. induction hi as [|hi (rule & IH)]; [exists (fun _ => None); intros n Hn; lia|]. destruct (gauss_rule_exists hi 0 PI) as (x & w & GR).
    exists (fun n => if Nat.eqb n hi then Some (x, w) else rule n). intros n Hn. destruct (Nat.eqb_spec n hi) as [-> | N]; [exists x, w; auto | apply IH; lia]. }
  destruct (EX (100 * (2 * 4 + 10))%nat) as (rule & G). destruct (C90_object rule (3 / 2) 1 (Some 4%nat) None None G) as (al & HB & _); [lia | intros; cbn; lia | discriminate |].
  destruct the_call_ok as (x & w & PH & SP). set (a := aligned_args x w al). set (c := config a [7]%Z [2; 1] [1] 1). set (I := the_inputs a [7]%Z [2; 1] [1] [1]).
  assert (PH': physical c I) by (destruct PH as [q1 q2 q3 q4 q5 q6 q7 q8 q9]; exact (Build_physical c I q1 q2 q3 q4 q5 q6 q7 q8 q9)).
  assert (P: reservations []) by (intros y []).
  assert (A: (0 < n_slot (with_slots c 1))%nat) by (cbn; lia). assert (B: (0 < n_quad (with_slots c 1))%nat) by (vm_compute; lia).
  assert (C: (0 < o_max (with_slots c 1))%nat) by (cbn; lia).
  destruct (run_exists 2 (generated (with_slots c 1) []) 3) as (e & R & X); [apply generated_valid; auto|lia|apply generated_acyclic; auto|apply generated_lockable; auto|].
  assert (O: (o_min c < o_max c)%nat) by (cbn; lia). assert (H64: (Z.of_nat (o_max c) < 2 ^ 64)%Z) by reflexivity.
  destruct (C77_outcome_exists c Physics.object (code c I) 24 128 (S754_finite false 1 (-2)) 1 [] 2 3 e O H64 ltac:(lia) P ltac:(lia) R X) as (HV & HE & st & E).
  assert (CH: forall b, chosen c Physics.object (code c I) 24 128 (S754_finite false 1 (-2)) b 0) by (intros b; split; [vm_compute; lia|split; [intros j Hj; lia|right; reflexivity]]).
  destruct (C90_get_table rule (3 / 2) 1 (Some 4%nat) None None al G HB a [7]%Z [2; 1] [1] [1] 24 128 (S754_finite false 1 (-2)) eq_refl eq_refl PH' O H64 bool _ one_start HV HE (fun _ => 0%nat) (fun b _ => CH b)) with (N := 1%nat) (pre := @nil call) (nq := 2%nat) (nt := 3%nat) (e := e) (st := st) as (T & Tav & HT & _); auto; try lia.
  - intros p is Hp His. split; [exact (Props_spheretable.I_regular _ _ PH SP p is 4 His ltac:(cbn; lia))|]. split; [cbn; lia|]. split; [discriminate | cbn; lia].
  - exists rule, al, x, w, e, st, (T 1%nat 0%nat), (Tav 1%nat 0%nat). cbv zeta. destruct (HT 1%nat 0%nat ltac:(cbn; lia) ltac:(cbn; lia)) as (S1 & l & D & S2). repeat (split; [eassumption|]).
    assert (SZ: point_size c I 1 = 2). { unfold point_size. cbn [c n_wav n_size config length]. change ((1 / 1 mod 2)%nat) with 1%nat. cbn [in_size I the_inputs]. rewrite sorted_12. reflexivity. }
    unfold documented in D. fold c I in D. rewrite SZ in D. destruct (Rle_dec 2 (3 / 2)); [lra|]. change (ar_axis a 0) with 1 in D. destruct (Rlt_dec 1 1); [lra|]. rewrite D in S2. exact S2.
Qed.
