(** C74: the amplitude matrix of a particle with any orientation describes the same scattered field as the one of the particle
    with its axis along z. Specification: FramesFacts.v, first part (directions, field vectors, frame of the particle). *)
From Coq Require Import List Arith Lia Bool ZArith Reals Lra Psatz Nsatz.
From Coquelicot Require Import Complex.
From Verif Require Import Wigner Optics Props_optics TClass Frames FramesFacts.
Import ListNotations.
Open Scope R_scope.

(** for all angles (ti', pi') and (to', po') of the two directions in the frame of the particle: the field scattered by the oriented
    particle, in coordinates of that frame, is the field scattered by the particle with its axis along z *)
Theorem C74_same_scattered_field : forall nmax k T alpha beta ti pi_ to po ti' pi' to' po' E,
  in_body alpha beta (direction ti pi_) = direction ti' pi' -> 0 <= ti' <= PI ->
  in_body alpha beta (direction to po) = direction to' po' -> 0 <= to' <= PI ->
  in_body alpha beta (field to po (apply (oriented nmax k T alpha beta ti pi_ to po) E)) =
  field to' po' (apply (fixed_axis nmax k T ti' pi' to' po') (components ti' pi' (in_body alpha beta (field ti pi_ E)))).
Proof.
  intros nmax k T al be ti pi_ to po ti' pi' to' po' E Hi Ri Ho Ro.
  rewrite apply_compose. rewrite (body_dir_angles al be ti pi_ ti' pi' Ri Hi), (body_dir_angles al be to po to' po' Ro Ho).
  set (qi := if Req_EM_T (sin ti') 0 then 0 else pi'). set (qo := if Req_EM_T (sin to') 0 then 0 else po').
  assert (Di: in_body al be (direction ti pi_) = direction ti' qi).
  { rewrite Hi. unfold qi. destruct (Req_EM_T (sin ti') 0); auto. apply direction_pole. auto. }
  assert (Do: in_body al be (direction to po) = direction to' qo).
  { rewrite Ho. unfold qo. destruct (Req_EM_T (sin to') 0); auto. apply direction_pole. auto. }
  rewrite <- (mR_field al be to po to' qo) by auto. rewrite invert_ok by (apply mR_det; auto).
  rewrite mR_components. set (V := in_body al be (field ti pi_ E)).
  change (scattered nmax k T ti' qi to' qo V = scattered nmax k T ti' pi' to' po' V).
  unfold qi, qo. destruct (Req_EM_T (sin ti') 0), (Req_EM_T (sin to') 0); auto.
  - rewrite (pole_in nmax k T ti' 0 pi') by auto. apply pole_out. auto.
  - apply pole_in. auto.
  - apply pole_out. auto.
Qed.
Print Assumptions C74_same_scattered_field.
Lemma vec_eq : forall a b c a' b' c' : C, a = a' -> b = b' -> c = c' -> (a, b, c) = (a', b', c').
Proof. intros. subst. reflexivity. Qed.
Lemma vec_inj : forall a b c a' b' c' : C, (a, b, c) = (a', b', c') -> a = a' /\ b = b' /\ c = c'.
Proof. intros a b c a' b' c' H. inversion H. auto. Qed.
(** such angles exist, and the theorem determines the amplitude matrix *)
Lemma circle : forall x y, x * x + y * y = 1 -> exists p, x = cos p /\ y = sin p.
Proof.
  intros x y H. assert (-1 <= x <= 1) by nra. destruct (Rle_dec 0 y) as [P|P].
  - exists (acos x). rewrite cos_acos, sin_acos by auto. split; auto. symmetry. apply sqrt_lem_1; unfold Rsqr; nra.
  - exists (- acos x). rewrite cos_neg, sin_neg, cos_acos, sin_acos by auto. split; auto.
    assert (E: sqrt (1 - x²) = - y) by (apply sqrt_lem_1; unfold Rsqr; nra). lra.
Qed.
Theorem C74_angles_exist : forall alpha beta theta phi, exists t p, 0 <= t <= PI /\ in_body alpha beta (direction theta phi) = direction t p.
Proof.
  intros al be t p. pose proof (dot_in_body al be (direction t p) (direction t p)) as D. rewrite in_body_direction in *.
  set (x := cos be * sin t * _ - _) in *. set (y := sin t * _) in *. set (z := cos t * cos be + _) in *.
  assert (N: x * x + y * y + z * z = 1).
  { apply re_inj. rewrite !RtoC_plus, !RtoC_mult. unfold dot, real3, direction in D. cbn beta iota in D. unfold real3 in D. rewrite D. rewrite !RtoC_mult.
    pose proof (cs t) as H1. pose proof (cs p) as H2. ring [H1 H2]. }
  clearbody x y z. clear D. assert (Z: -1 <= z <= 1) by nra. pose proof (acos_bound z) as B. pose proof (cos_acos z Z) as CZ. set (t' := acos z) in *.
  assert (P: 0 <= sin t') by (apply sin_ge_0; lra).
  assert (S2: sin t' * sin t' = x * x + y * y) by (pose proof (sin2_cos2 t') as H; unfold Rsqr in H; rewrite CZ in H; lra).
  destruct (Req_EM_T (sin t') 0) as [E|E].
  - exists t', 0. split; auto. unfold direction, real3. rewrite E, CZ, !Rmult_0_l. rewrite E in S2. assert (x = 0 /\ y = 0) as (-> & ->) by nra. reflexivity.
  - destruct (circle (x / sin t') (y / sin t')) as (p' & C1 & C2).
    + transitivity ((x * x + y * y) / (sin t' * sin t')); [field; auto|]. rewrite <- S2. field. auto.
    + exists t', p'. split; auto. unfold direction, real3. rewrite <- C1, <- C2, CZ. replace (sin t' * (x / sin t')) with x by (field; auto). replace (sin t' * (y / sin t')) with y by (field; auto). reflexivity.
Qed.
Print Assumptions C74_angles_exist.
Lemma apply_ext : forall A B, (forall E, apply A E = apply B E) -> A = B.
Proof.
  intros A B H. pose proof (H (RtoC 1, RtoC 0)) as H1. pose proof (H (RtoC 0, RtoC 1)) as H2. unfold apply in *. cbn [fst snd] in *. rewrite !Cmult_0_r, !Cmult_1_r, !Cplus_0_r in H1.
  rewrite !Cmult_0_r, !Cmult_1_r, !Cplus_0_l in H2. injection H1. injection H2. intros. apply amp_eq; auto.
Qed.
Lemma field_inj : forall t p E F, field t p E = field t p F -> E = F.
Proof. intros. rewrite <- (components_field t p E), H. apply components_field. Qed.
Theorem C74_unique : forall nmax k T alpha beta ti pi_ to po W,
  (forall E, in_body alpha beta (field to po (apply W E)) = in_body alpha beta (field to po (apply (oriented nmax k T alpha beta ti pi_ to po) E))) ->
  W = oriented nmax k T alpha beta ti pi_ to po.
Proof. intros. apply apply_ext. intros E. apply (field_inj to po). apply (in_body_inj alpha beta). auto. Qed.
Print Assumptions C74_unique.

(** only the direction of the axis matters, not the angles that describe it *)
Definition rotz (d : R) (V : vec) : vec := let '(a, b, c) := V in (RtoC (cos d) * a + RtoC (sin d) * b, - RtoC (sin d) * a + RtoC (cos d) * b, c)%C.
Lemma rotz_direction : forall d t p, rotz d (direction t p) = direction t (p - d).
Proof. intros. unfold rotz, direction, real3. rewrite cos_minus, sin_minus. rewrite ?RtoC_mult, ?RtoC_plus, ?RtoC_minus, ?RtoC_mult. apply vec_eq; ring. Qed.
Lemma rotz_field : forall d t p E, rotz d (field t p E) = field t (p - d) E.
Proof. intros. unfold rotz. vecs. rewrite cos_minus, sin_minus. rewrite ?RtoC_mult, ?RtoC_plus, ?RtoC_minus, ?RtoC_mult. apply vec_eq; ring. Qed.
Lemma rotz_components : forall d t p V, components t (p - d) (rotz d V) = components t p V.
Proof.
  intros d t p ((x, y), z). unfold rotz. vecs. rewrite cos_minus, sin_minus. rewrite ?RtoC_mult, ?RtoC_plus, ?RtoC_minus, ?RtoC_mult.
  pose proof (cs d) as HD. generalize dependent (RtoC (cos d)). generalize dependent (RtoC (sin d)). intros. f_equal; ring [HD].
Qed.
Lemma rotz_inj : forall d u v, rotz d u = rotz d v -> u = v.
Proof.
  intros d ((u1, u2), u3) ((v1, v2), v3) H. unfold rotz in H. apply vec_inj in H. destruct H as (H1 & H2 & H3). pose proof (cs d) as HD.
  assert (forall a b, a = RtoC (cos d) * (RtoC (cos d) * a + RtoC (sin d) * b) - RtoC (sin d) * (- RtoC (sin d) * a + RtoC (cos d) * b) /\
                      b = RtoC (sin d) * (RtoC (cos d) * a + RtoC (sin d) * b) + RtoC (cos d) * (- RtoC (sin d) * a + RtoC (cos d) * b))%C as G.
  { intros. generalize dependent (RtoC (cos d)). generalize dependent (RtoC (sin d)). intros. split; ring [HD]. }
  destruct (G u1 u2) as (A & B). destruct (G v1 v2) as (A' & B'). rewrite H1, H2 in A, B. rewrite <- A' in A. rewrite <- B' in B. congruence.
Qed.
Lemma same_axis : forall al be al' be', direction be al = direction be' al' -> exists d, forall V, in_body al' be' V = rotz d (in_body al be V).
Proof.
  intros al be al' be' H. unfold direction, real3 in H. injection H as H1 H2 H3.
  set (x := (cos be * cos al) * (cos be' * cos al') + (cos be * sin al) * (cos be' * sin al') + sin be * sin be').
  set (y := - sin al * (cos be' * cos al') + cos al * (cos be' * sin al')).
  (* zenith' = x zenith + y azimuth, azimuth' = - y zenith + x azimuth *)
  pose proof (sin2_cos2 al) as A1. pose proof (sin2_cos2 be) as A2. pose proof (sin2_cos2 al') as A3. pose proof (sin2_cos2 be') as A4. unfold Rsqr in *.
  assert (Z1: cos be' * cos al' = x * (cos be * cos al) - y * sin al) by (unfold x, y; nsatz).
  assert (Z2: cos be' * sin al' = x * (cos be * sin al) + y * cos al) by (unfold x, y; nsatz).
  assert (Z3: - sin be' = x * (- sin be)) by (unfold x; nsatz).
  assert (Z4: - sin al' = - y * (cos be * cos al) - x * sin al) by (unfold x, y; nsatz).
  assert (Z5: cos al' = - y * (cos be * sin al) + x * cos al) by (unfold x, y; nsatz).
  assert (Z6: 0 = - y * (- sin be)) by (unfold y; nsatz).
  assert (N: x * x + y * y = 1) by (unfold x, y; nsatz).
  destruct (circle x y N) as (d & C1 & C2). exists d. intros ((v1, v2), v3). unfold rotz, in_body. rewrite <- C1, <- C2.
  unfold zenith, azimuth, direction, real3, dot. rewrite <- H1, <- H2, Z1, Z2, Z3, <- H3, Z4, Z5. clearbody x y.
  rewrite ?RtoC_plus, ?RtoC_minus, ?RtoC_mult, ?RtoC_opp, ?RtoC_mult, ?RtoC_opp. apply vec_eq; try ring.
  assert (Z7: (RtoC y * RtoC (sin be) = RtoC 0)%C) by (rewrite <- RtoC_mult; f_equal; lra). ring [Z7].
Qed.
Theorem C74_only_the_axis_matters : forall nmax k T alpha beta alpha' beta' ti pi_ to po, direction beta alpha = direction beta' alpha' ->
  oriented nmax k T alpha' beta' ti pi_ to po = oriented nmax k T alpha beta ti pi_ to po.
Proof.
  intros nmax k T al be al' be' ti pi_ to po H. destruct (same_axis al be al' be' H) as (d & R).
  apply apply_ext. intros E. apply (field_inj to po). apply (in_body_inj al' be').
  destruct (C74_angles_exist al be ti pi_) as (ti' & pi' & Ri & Hi). destruct (C74_angles_exist al be to po) as (to' & po' & Ro & Ho).
  assert (Hi': in_body al' be' (direction ti pi_) = direction ti' (pi' - d)) by (rewrite R, Hi; apply rotz_direction).
  assert (Ho': in_body al' be' (direction to po) = direction to' (po' - d)) by (rewrite R, Ho; apply rotz_direction).
  rewrite (C74_same_scattered_field nmax k T al' be' ti pi_ to po ti' (pi' - d) to' (po' - d) E Hi' Ri Ho' Ro).
  rewrite !R. rewrite (C74_same_scattered_field nmax k T al be ti pi_ to po ti' pi' to' po' E Hi Ri Ho Ro).
  rewrite rotz_field, rotz_components. do 2 f_equal. rewrite !fixed_axis_phi. replace (po' - d - (pi' - d)) with (po' - pi') by ring. reflexivity.
Qed.
Print Assumptions C74_only_the_axis_matters.
(** axis along z: the six-angle function is the four-angle function *)
Theorem C74_axis_along_z : forall nmax k T alpha ti pi_ to po, 0 <= ti <= PI -> 0 <= to <= PI ->
  oriented nmax k T alpha 0 ti pi_ to po = fixed_axis nmax k T ti pi_ to po.
Proof.
  intros nmax k T al ti pi_ to po Ri Ro. rewrite (C74_only_the_axis_matters nmax k T 0 0 al 0).
  2:{ unfold direction, real3. rewrite sin_0, !Rmult_0_l. reflexivity. }
  assert (I: forall V, in_body 0 0 V = V). { intros ((x, y), z). vecs. rewrite cos_0, sin_0. apply vec_eq; ring. }
  apply apply_ext. intros E. apply (field_inj to po). pose proof (C74_same_scattered_field nmax k T 0 0 ti pi_ to po ti pi_ to po E) as S. rewrite !I in S.
  rewrite S by auto. rewrite components_field. reflexivity.
Qed.
Print Assumptions C74_axis_along_z.
(** turning the particle and both directions about the z axis of the laboratory changes nothing *)
Theorem C74_rotation : forall nmax k T alpha beta ti pi_ to po d,
  oriented nmax k T (alpha + d) beta ti (pi_ + d) to (po + d) = oriented nmax k T alpha beta ti pi_ to po.
Proof.
  intros nmax k T al be ti pi_ to po d.
  assert (RI: forall V, in_body (al + d) be V = in_body al be (rotz d V)).
  { intros ((x, y), z). unfold rotz. vecs. rewrite cos_plus, sin_plus. rewrite ?RtoC_plus, ?RtoC_minus, ?RtoC_mult. apply vec_eq; ring. }
  assert (RD: forall t p, in_body (al + d) be (direction t (p + d)) = in_body al be (direction t p)).
  { intros. rewrite RI, rotz_direction. do 2 f_equal. ring. }
  assert (RF: forall t p E, in_body (al + d) be (field t (p + d) E) = in_body al be (field t p E)).
  { intros. rewrite RI, rotz_field. f_equal. f_equal. ring. }
  apply apply_ext. intros E. apply (field_inj to (po + d)). apply (in_body_inj (al + d) be).
  destruct (C74_angles_exist al be ti pi_) as (ti' & pi' & Ri & Hi). destruct (C74_angles_exist al be to po) as (to' & po' & Ro & Ho).
  rewrite (C74_same_scattered_field nmax k T (al + d) be ti (pi_ + d) to (po + d) ti' pi' to' po' E) by (rewrite ?RD; auto).
  rewrite !RF. symmetry. apply C74_same_scattered_field; auto.
Qed.
Print Assumptions C74_rotation.

(** the amplitude matrix of the particle with its axis along z is the textbook series over all m from - nmax to nmax *)
Definition full_T (nmax : nat) (T : tmats) (i j : nat) (m : Z) (n n' : nat) : C :=
  let e := element nmax T i n (Z.abs_nat m) j n' (Z.abs_nat m) in
  if Nat.eqb i j then e else if (m <? 0)%Z then (- e)%C else if (m =? 0)%Z then RtoC 0 else e.
Definition sgn (m : Z) : R := if (m <? 0)%Z then (-1) ^ Z.abs_nat m else 1.
(** d^n_{0m} / sin theta (its limit at the poles, by C47) and the derivative of d^n_{0m} *)
Definition d_over_sin (t : R) (m : Z) (n : nat) : R := sgn m * qspec n (Z.abs_nat m) t.
Definition d_prime (t : R) (m : Z) (n : nat) : R := sgn m * dspec' n (Z.abs_nat m) t.
Definition prefactor (n' n : nat) : C :=
  (ipow n' / ipow (n + 1) * RtoC (sqrt ((2 * INR n + 1) * (2 * INR n' + 1) / (INR n * (INR n + 1) * (INR n' * (INR n' + 1))))))%C.
(** the code replaces the functions by their values at the pole when 1 - |cos theta| is at most 1e-10 *)
Definition resolved (t : R) : Prop := 0 <= t <= PI /\ (t = 0 \/ t = PI \/ / 10000000000 < 1 - Rabs (cos t)).
Lemma ipow_nonzero : forall n, ipow n <> RtoC 0.
Proof. induction n; cbn [ipow]; [intro E; apply RtoC_inj in E; lra|]. apply Cmult_neq_0; auto. unfold Ci, RtoC. intro E. injection E. lra. Qed.
Lemma class_c_prefactor : forall n nn, (1 <= n)%nat -> (1 <= nn)%nat -> class_c n nn = prefactor nn n.
Proof.
  intros n nn Hn Hnn. unfold class_c, prefactor, for_C.
  assert (CI0: Ci <> RtoC 0) by (unfold Ci, RtoC; intros E; injection E; lra).
  assert (CII: (Ci * Ci = - RtoC 1)%C) by (unfold Ci, Cmult, Copp, RtoC; cbn [fst snd]; f_equal; ring).
  assert (A: forall k s z, fold_left (fun s (_ : nat) => s * Ci)%C (seq s k) z = (z * ipow k)%C).
  { induction k; intros s z; cbn [seq fold_left ipow]; [ring|]. rewrite IHk. ring. }
  assert (B: forall k s z, (ipow k * fold_left (fun s (_ : nat) => s / Ci) (seq s k) z = z)%C).
  { induction k; intros s z; cbn [seq fold_left ipow]; [ring|]. rewrite <- Cmult_assoc, (Cmult_comm Ci), Cmult_assoc, IHk. field. exact CI0. }
  rewrite A. replace (ipow nn) with (ipow (nn - 1) * Ci)%C by (replace nn with (S (nn - 1)) at 2 by lia; reflexivity).
  replace (ipow (n + 1)) with (ipow (n - 1) * Ci * Ci)%C by (replace (n + 1)%nat with (S (S (n - 1))) by lia; reflexivity).
  specialize (B (n - 1)%nat 1%nat (RtoC (-1))). set (F := fold_left _ _ (RtoC (-1))) in *. clearbody F.
  replace (INR n * INR nn * (INR n + 1) * (INR nn + 1)) with (INR n * (INR n + 1) * (INR nn * (INR nn + 1))) by ring.
  set (w := RtoC (sqrt _)). clearbody w. pose proof (ipow_nonzero (n - 1)) as NZ. set (p := ipow (n - 1)) in *. clearbody p.
  assert (EF: F = (RtoC (-1) / p)%C) by (rewrite <- B; field; auto). rewrite EF.
  replace (RtoC (-1)) with (Ci * Ci)%C by (rewrite CII, <- RtoC_opp; reflexivity).
  transitivity ((Ci * Ci) * (Ci * Ci) * (ipow (nn - 1) * Ci / (p * Ci * Ci) * w))%C.
  - field. auto.
  - rewrite CII. unfold Cdiv. ring.
Qed.
Lemma amplitude_ext : forall g h nmax k phi,
  (forall m n n', (m <= nmax)%nat -> (Nat.max 1 m <= n <= nmax)%nat -> (Nat.max 1 m <= n' <= nmax)%nat ->
     amp_term g m n' n (2 * Re (expi (Z.of_nat m) phi)) (2 * Im (expi (Z.of_nat m) phi)) azero = amp_term h m n' n (2 * Re (expi (Z.of_nat m) phi)) (2 * Im (expi (Z.of_nat m) phi)) azero) ->
  amplitude g nmax k (cos phi) (sin phi) = amplitude h nmax k (cos phi) (sin phi).
Proof.
  intros g h nmax k phi H. rewrite !amplitude_sum.
  assert (A: forall (X : Type) (l : list X) f f', (forall x, In x l -> f x = f' x) -> asum l f = asum l f').
  { intros X l f f' E. unfold asum. f_equal; apply csum_ext; intros x Hx; rewrite (E x Hx); reflexivity. }
  assert (E: asum (seq 0 (nmax + 1)) (mterm g nmax phi) = asum (seq 0 (nmax + 1)) (mterm h nmax phi)).
  { apply A. intros m Hm. apply in_seq in Hm. unfold mterm. cbv zeta. apply A. intros nn Hn. apply in_seq in Hn. apply A. intros n Hn'. apply in_seq in Hn'. apply H; lia. }
  cbv zeta. rewrite E. reflexivity.
Qed.
Lemma resolved_tables : forall t nmax m n, resolved t -> (m <= nmax)%nat -> (1 <= n <= nmax)%nat ->
  INR m * fst (sinx_tables nmax (dir_of t 0)) m n = INR m * d_over_sin t (Z.of_nat m) n /\ snd (sinx_tables nmax (dir_of t 0)) m n = d_prime t (Z.of_nat m) n.
Proof.
  intros t nmax m n (Ht & K) Hm Hn. unfold sinx_tables, d_over_sin, d_prime, sgn. cbn [fst snd].
  replace (Z.of_nat m <? 0)%Z with false by (symmetry; apply Z.ltb_ge; lia). rewrite Zabs2Nat.id, !Rmult_1_l.
  assert (NS: forall (f : nat -> R * R), List.nth (n - 1) (map f (seq 1 nmax)) (0, 0) = f n).
  { intros f. rewrite (nth_indep _ _ (f 0%nat)) by (rewrite map_length, seq_length; lia). rewrite map_nth, seq_nth by lia. f_equal. lia. }
  destruct (Req_EM_T (sin t) 0) as [S0|S0].
  - change (ct (dir_of t 0)) with (cos t). rewrite (sinx_pole t nmax m _ _ S0 (cos_pole t S0)). rewrite NS. cbn [fst snd]. destruct (Nat.eqb_spec m 0) as [->|N]; auto. cbn [INR]. split; ring.
  - assert (NP: / 10000000000 < 1 - Rabs (cos t)). { destruct K as [ -> | [ -> | K]]; auto; [rewrite sin_0 in S0 | rewrite sin_PI in S0]; lra. }
    unfold dir_of. cbv zeta. cbn [ct st inv]. destruct (Req_EM_T (sin t) 0); [contradiction|]. rewrite sinx_regular; auto.
    + rewrite NS. cbn [fst snd]. split; auto. destruct m as [|m]; [cbn [INR]; ring|]. rewrite (qspec_div n (S m) t) by lia. field. auto.
    + unfold near_pole. intro B. rewrite Rabs_pos_eq in B; lra.
Qed.
Lemma symmetric_sgn : forall f : nat -> nat -> R, symmetric_d (fun m n => sgn m * f n (Z.abs_nat m)).
Proof.
  intros f m n. unfold sgn. replace (Z.abs_nat (- m)) with (Z.abs_nat m) by lia.
  destruct (Z.ltb_spec (- m) 0), (Z.ltb_spec m 0); try lia; try ring.
  - rewrite <- Rmult_assoc, <- Rpow_mult_distr. replace (-1 * -1) with 1 by ring. rewrite pow1. ring.
  - replace m with 0%Z by lia. cbn. ring.
Qed.
Lemma symmetric_full_T : forall nmax T, symmetric_T (full_T nmax T).
Proof.
  intros nmax T m n n'. unfold full_T. replace (Z.abs_nat (- m)) with (Z.abs_nat m) by lia. cbn [Nat.eqb]. split; [auto|split; [auto|]].
  destruct (Z.ltb_spec (- m) 0), (Z.ltb_spec m 0); try lia; destruct (Z.eqb_spec (- m) 0), (Z.eqb_spec m 0); try lia; split; try reflexivity; try ring.
Qed.
Theorem C74_series : forall nmax k T ti pi_ to po, resolved ti -> resolved to ->
  fixed_axis nmax k T ti pi_ to po =
  full_amplitude (full_T nmax T) (d_over_sin ti) (d_prime ti) (d_over_sin to) (d_prime to) prefactor nmax k (po - pi_).
Proof.
  intros nmax k T ti pi_ to po Hi Ho. rewrite <- C51_amplitude_is_the_full_sum.
  - rewrite fixed_axis_phi. apply amplitude_ext. intros m n n' Hm Hn Hn'.
    destruct (resolved_tables ti nmax m n' Hi ltac:(lia) ltac:(lia)) as (I1 & I2). destruct (resolved_tables to nmax m n Ho ltac:(lia) ltac:(lia)) as (O1 & O2).
    unfold amp_term, half_tables. cbn [dsin_in tau_in dsin_out tau_out cnn Optics.T]. rewrite I1, I2, O1, O2. rewrite (class_c_prefactor n n') by lia.
    unfold full_T. rewrite !Zabs2Nat.id. cbn [Nat.eqb]. destruct (Nat.eqb_spec m 0); auto.
    replace (Z.of_nat m <? 0)%Z with false by (symmetry; apply Z.ltb_ge; lia). replace (Z.of_nat m =? 0)%Z with false by (symmetry; apply Z.eqb_neq; lia). reflexivity.
  - apply symmetric_full_T.
  - apply (symmetric_sgn (fun n m => qspec n m ti)).
  - apply (symmetric_sgn (fun n m => dspec' n m ti)).
  - apply (symmetric_sgn (fun n m => qspec n m to)).
  - apply (symmetric_sgn (fun n m => dspec' n m to)).
Qed.
Print Assumptions C74_series.
(** a particle lying along the x axis, light along x (the pole of the particle) scattered along z; two descriptions of that axis *)
Example C74_example : in_body 0 (PI / 2) (direction (PI / 2) 0) = direction 0 1 /\ in_body 0 (PI / 2) (direction 0 0) = direction (PI / 2) PI /\
  0 <= 0 <= PI /\ 0 <= PI / 2 <= PI /\ direction (PI / 2) 0 = direction (- (PI / 2)) PI /\ resolved 0 /\ resolved (PI / 2) /\ resolved 1.
Proof.
  pose proof PI_RGT_0 as P. assert (P4: PI <= 4) by apply PI_4. assert (P2: 2 < PI).
  { apply Rmult_lt_reg_r with (/ 2); [lra|]. pose proof PI2_1. unfold PI2 in *. lra. }
  assert (R1: resolved 1).
  { split; [lra|]. right. right. destruct (pre_cos_bound 1 0 ltac:(lra) ltac:(lra)) as (_ & B). unfold cos_approx, cos_term in B. cbn in B.
    assert (C1: cos 1 <= 13 / 24) by lra. pose proof (cos_gt_0 1 ltac:(lra) ltac:(lra)). rewrite Rabs_pos_eq by lra. lra. }
  assert (R2: resolved (PI / 2)) by (split; [lra|]; right; right; rewrite cos_PI2, Rabs_R0; lra).
  assert (R0: resolved 0) by (split; [lra|auto]).
  rewrite !in_body_direction. unfold direction. rewrite !sin_neg, !cos_neg, !sin_PI2, !cos_PI2, !sin_0, !cos_0, !sin_PI, !cos_PI.
  repeat match goal with |- _ /\ _ => split end; auto; try lra; unfold real3; apply vec_eq; f_equal; ring.
Qed.
