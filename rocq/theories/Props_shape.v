(** C67-C69: spheroid shapes and the shape distribution. *)
From Coq Require Import Reals Lra Ratan Lia Psatz.
From Coquelicot Require Import Coquelicot.
From Verif Require Import QMatrix EbcmFacts Quadrature Shape ShapeFacts ShapeDep ShapeSearch.
Open Scope R_scope.

(* ------------------------------------------------ C67 *)
(** The surface of revolution (a sin t, b cos t), 0 <= t <= PI, has area [S]: the integral of 2 PI times the distance to the
    axis times the length element (with its two components a cos t and - b sin t) *)
Definition spheroid_area (a b S : R) : Prop :=
  is_RInt (fun t => 2 * PI * (a * sin t) * sqrt ((a * cos t) * (a * cos t) + (- b * sin t) * (- b * sin t))) 0 PI S.
(** The function documented as the ratio of the radius of the sphere with the volume of the spheroid to the radius of the
    sphere with its surface area is that ratio, for every spheroid. *)
Theorem C67_equal_volume_to_equal_surface : forall a b RV RS S, 0 < a -> 0 < b -> 0 < RV -> 0 < RS ->
  4 / 3 * PI * (RV * RV * RV) = 4 / 3 * PI * (a * a * b) ->
  spheroid_area a b S -> 4 * PI * (RS * RS) = S ->
  sphere_ratio (a / b) = RV / RS.
Proof.
  intros a b RV RS S A B V Q EV I ES. pose proof PI_RGT_0 as P. assert (E: RV * RV * RV = a * a * b) by (apply Rmult_eq_reg_l with (4 / 3 * PI); [exact EV | lra]).
  destruct (Rtotal_order a b) as [L | [-> | G]].
  - exact (ratio_prolate a b RV RS S A L V Q I ES E).
  - assert (RV = b) by (apply cube_inj; auto; lra). pose proof (area_sphere b B) as I2. assert (E2: S = 4 * PI * (b * b)) by (exact (is_RInt_uniq _ _ _ _ _ I I2)).
    assert (RS = b). { assert (RS * RS = b * b) by (apply Rmult_eq_reg_l with (4 * PI); lra). nra. }
    subst RV RS. unfold sphere_ratio. replace (b / b) with 1 by (field; lra). destruct (Rlt_dec 1 1); [lra | auto].
  - exact (ratio_oblate a b RV RS S B G V Q I ES E).
Qed.
(** the hypotheses can be met for every spheroid (the area exists and is positive) *)
Lemma C67_area_exists : forall a b, 0 < a -> 0 < b -> exists S, 0 < S /\ spheroid_area a b S.
Proof.
  intros a b A B. pose proof PI_RGT_0 as P. destruct (Rtotal_order a b) as [L | [-> | G]].
  - eexists. split; [|exact (area_prolate a b A L)]. pose proof (pc_pos a b A L). pose proof (pc_lt a b A L). set (c := sqrt (b * b - a * a)) in *.
    assert (0 < c / b < 1) by (split; [apply Rdiv_lt_0_compat; lra|]; apply Rmult_lt_reg_r with b; [lra|]; unfold Rdiv; rewrite Rmult_assoc, Rinv_l by lra; lra).
    assert (0 <= asin (c / b)). { apply Rnot_lt_le. intro C. pose proof (sin_asin (c / b) ltac:(lra)) as Sa. pose proof (asin_bound (c / b)). assert (sin (asin (c / b)) < 0) by (apply sin_lt_0_var; lra). lra. }
    assert (0 < 2 * PI * (a * a)) by (apply Rmult_lt_0_compat; nra). assert (0 <= 2 * PI * (a * b) * (b / c) * asin (c / b)); [|lra].
    apply Rmult_le_pos; auto. left. apply Rmult_lt_0_compat; [|apply Rdiv_lt_0_compat; lra]. apply Rmult_lt_0_compat; nra.
  - eexists. split; [|exact (area_sphere b B)]. apply Rmult_lt_0_compat; nra.
  - eexists. split; [|exact (area_oblate a b B G)]. pose proof (c_pos a b B G). pose proof (c_lt a b B G). set (c := sqrt (a * a - b * b)) in *.
    assert (CC: 0 < c / a < 1) by (split; [apply Rdiv_lt_0_compat; lra|]; apply Rmult_lt_reg_r with a; [lra|]; unfold Rdiv; rewrite Rmult_assoc, Rinv_l by lra; lra).
    assert (0 <= ln ((1 + c / a) / (1 - c / a))). { rewrite <- ln_1. apply Rcomplements.ln_le; [lra|]. apply Rmult_le_reg_r with (1 - c / a); [lra|]. unfold Rdiv at 2. rewrite (Rmult_assoc (1 + c / a)), Rinv_l by lra. lra. }
    assert (0 < 2 * PI * (a * a)) by (apply Rmult_lt_0_compat; nra). assert (0 <= PI * (b * b) * (a / c) * ln ((1 + c / a) / (1 - c / a))); [|lra].
    apply Rmult_le_pos; auto. left. apply Rmult_lt_0_compat; [|apply Rdiv_lt_0_compat; lra]. apply Rmult_lt_0_compat; nra.
Qed.
Example C67_example : exists RV RS S, 0 < RV /\ 0 < RS /\ 4 / 3 * PI * (RV * RV * RV) = 4 / 3 * PI * (2 * 2 * 1) /\ spheroid_area 2 1 S /\ 4 * PI * (RS * RS) = S /\ sphere_ratio 2 = RV / RS.
Proof.
  destruct (C67_area_exists 2 1 ltac:(lra) ltac:(lra)) as (S & S0 & I). pose proof PI_RGT_0 as P. assert (Q: 0 < S / (4 * PI)) by (apply Rdiv_lt_0_compat; lra).
  assert (V: cbrt 4 * cbrt 4 * cbrt 4 = 2 * 2 * 1) by (rewrite cbrt_cube; lra). assert (E: 4 * PI * (sqrt (S / (4 * PI)) * sqrt (S / (4 * PI))) = S) by (rewrite sqrt_sqrt by lra; field; lra).
  exists (cbrt 4), (sqrt (S / (4 * PI))), S. pose proof (cbrt_pos 4). pose proof (sqrt_lt_R0 _ Q). repeat split; auto; [rewrite V; auto|].
  replace 2 with (2 / 1) by field. apply (C67_equal_volume_to_equal_surface 2 1 _ _ S); auto; try lra. rewrite V. auto.
Qed.
Print Assumptions C67_equal_volume_to_equal_surface.

(* ------------------------------------------------ C68 *)
(** the shape factor is the depolarisation factor along the symmetry axis: the classical elliptic integral
    (a a b / 2) int_0^oo ds / ((s + b^2) sqrt ((s + a^2)^2 (s + b^2))) *)
Theorem C68_shape_factor_is_depolarisation_factor : forall a b, 0 < a -> 0 < b ->
  is_lim (fun X => RInt (fun s => a * a * b / 2 / ((s + b * b) * sqrt ((s + a * a) * (s + a * a) * (s + b * b)))) 0 X) p_infty (get_shape_factor (a / b)).
Proof.
  intros a b A B. destruct (Rtotal_order a b) as [L | [-> | G]].
  - apply dep_prolate. lra.
  - replace (b / b) with 1 by (field; lra). apply dep_sphere. auto.
  - apply dep_oblate. lra.
Qed.
Theorem C68_shape_factor_range : 
  (forall d, 0 < d -> 0 < get_shape_factor d < 1) /\ (forall d e, 0 < d < e -> get_shape_factor d < get_shape_factor e) /\ get_shape_factor 1 = 1 / 3 /\
  (forall d, 0 < d <= 1 / 2 -> get_shape_factor d <= 4 * d) /\ (forall d, 2 <= d -> 1 - get_shape_factor d <= 4 / d).
Proof.
  split; [exact shape_range|]. split; [intros d e H; apply shape_increasing; lra|]. split; [exact shape_sphere|]. split; intros d H; [apply low_tail | apply high_tail]; auto.
Qed.
(** the coded Jacobian is the derivative of the shape factor: exactly outside a window around the sphere in which the code uses
    a polynomial, and up to 2e-15 inside it *)
Theorem C68_jacobian_is_the_derivative : forall d, 0 < d -> exists D, is_derive get_shape_factor d D /\ 0 < D /\ Rabs (get_jacobian d - D) <= 2 * / 10 ^ 15 /\
  (d = 1 \/ (d < 1 /\ 1 - d * d >= / 100000) \/ (1 < d /\ 1 - 1 / (d * d) >= / 100000) -> get_jacobian d = D).
Proof.
  intros d H. exists (slope d). split; [apply shape_deriv; auto|]. split; [apply slope_pos; auto|]. split; [apply jacobian_near; auto|].
  intros W. apply jacobian_exact; auto. intros N. unfold near_window in N. destruct W as [-> | [W | W]]; lra.
Qed.
(** The coded density: probability of every range of axis ratios, up to a relative error of 8e-15. By the change of variables the
    probability of the axis ratios in [a, b] is that of the shape factors between those of a and b, with density 12 L (1-L)^2. *)
Definition ellipsoid_probability (L1 L2 p : R) : Prop := is_RInt (fun L => 12 * L * ((1 - L) * (1 - L))) L1 L2 p.
Lemma cumulative_is_probability : forall a b, ellipsoid_probability a b (cumulative b - cumulative a).
Proof.
  intros a b. unfold ellipsoid_probability. apply (is_RInt_ext cde2); [intros x _; unfold cde2; change (@eq R (12 * x * (x - 1) * (x - 1)) (12 * x * ((1 - x) * (1 - x)))); ring|].
  apply (is_RInt_derive cumulative cde2); intros x _; [apply cumulative_deriv|]. apply (ex_derive_continuous cde2). unfold cde2. auto_derive. auto.
Qed.
Theorem C68_probability_of_axis_ratios : forall a b p, 0 < a <= b -> ellipsoid_probability (get_shape_factor a) (get_shape_factor b) p ->
  exists I, is_RInt evaluate_cde2 a b I /\ Rabs (I - p) <= 8 * / 10 ^ 15 * p.
Proof.
  intros a b p H E. pose proof (is_RInt_uniq _ _ _ _ _ E (cumulative_is_probability _ _)) as ->. exact (coded_integral a b H).
Qed.
(** hence a probability density (up to the same error): positive, and of total mass one *)
Theorem C68_probability_density : (forall d, 0 < d -> 0 < evaluate_cde2 d) /\
  (forall eps, 0 < eps -> exists a b, 0 < a <= b /\ forall a' b' I, 0 < a' <= a -> b <= b' -> is_RInt evaluate_cde2 a' b' I -> 1 - eps - 8 * / 10 ^ 15 <= I <= 1 + 8 * / 10 ^ 15).
Proof.
  split; [exact coded_positive|]. intros eps He. exists (Rmin (1 / 2) (eps / 16)), (Rmax 2 (16 / eps)).
  assert (P1: 0 < Rmin (1 / 2) (eps / 16)) by (apply Rmin_pos; lra). pose proof (Rmin_l (1 / 2) (eps / 16)). pose proof (Rmin_r (1 / 2) (eps / 16)). pose proof (Rmax_l 2 (16 / eps)). pose proof (Rmax_r 2 (16 / eps)).
  split; [lra|]. intros a b I A B HI. destruct (coded_integral a b ltac:(lra)) as (I' & HI' & C). rewrite (is_RInt_uniq _ _ _ _ _ HI HI').
  destruct (low_tail a ltac:(lra)) as (TL & _). destruct (high_tail b ltac:(lra)) as (TH & _). pose proof (shape_range a ltac:(lra)) as R1. pose proof (shape_range b ltac:(lra)) as R2.
  pose proof (cumulative_le 0 (get_shape_factor a) ltac:(lra) ltac:(lra)) as C1. pose proof (cumulative_le (get_shape_factor b) 1 ltac:(lra) ltac:(lra)) as C2.
  assert (Z0: cumulative 0 = 0) by (unfold cumulative; ring). assert (Z1: cumulative 1 = 1) by (unfold cumulative; ring). rewrite Z0 in C1. rewrite Z1 in C2.
  assert (HB: 4 / b <= eps / 4). { apply Rmult_le_reg_r with b; [lra|]. unfold Rdiv at 1. rewrite Rmult_assoc, Rinv_l by lra. apply Rle_trans with (eps / 4 * (16 / eps)); [right; field; lra | apply Rmult_le_compat_l; lra]. }
  assert (M: 1 - eps <= mass a b <= 1) by (unfold mass; lra). apply Rabs_le_between in C. assert (T: 0 < / 10 ^ 15) by (apply Rinv_0_lt_compat, pow_lt; lra). set (t := / 10 ^ 15) in *. clearbody t. assert (t * mass a b <= t * 1) by (apply Rmult_le_compat_l; lra). lra.
Qed.
Example C68_example : ellipsoid_probability (1 / 3) 1 (16 / 27) /\ exists D, is_derive get_shape_factor 2 D /\ get_jacobian 2 = D.
Proof.
  split. { replace (16 / 27) with (cumulative 1 - cumulative (1 / 3)) by (unfold cumulative; field). apply cumulative_is_probability. }
  destruct (C68_jacobian_is_the_derivative 2 ltac:(lra)) as (D & A & _ & _ & E). exists D. split; auto. apply E. right. right. lra.
Qed.
Print Assumptions C68_shape_factor_is_depolarisation_factor.
Print Assumptions C68_shape_factor_range.
Print Assumptions C68_jacobian_is_the_derivative.
Print Assumptions C68_probability_of_axis_ratios.
Print Assumptions C68_probability_density.

(* ------------------------------------------------ C69 *)
(** For every cutoff below the density of a sphere the constructor returns (in any build without assertions) an axis ratio range
    whose two ends bracket a crossing of the cutoff to within a relative width of one percent. *)
Theorem C69_cutoff_range : forall cutoff, 0 < cutoff < 64 / 135 -> exists fuel0 minimum maximum,
  (forall fuel, (fuel0 <= fuel)%nat -> cutoff_range false fuel cutoff = Some (Range minimum maximum)) /\
  0 < minimum < 1 /\ 1 < maximum /\
  (exists u, minimum < u <= 1 /\ u - minimum <= 0.005 * (minimum + u) /\ evaluate_cde2 minimum <= cutoff <= evaluate_cde2 u) /\
  (exists l, 1 <= l < maximum /\ maximum - l <= 0.005 * (maximum + l) /\ evaluate_cde2 maximum <= cutoff <= evaluate_cde2 l).
Proof.
  intros c Hc. destruct (cutoff_range_ok c Hc) as (n & m & x & u & l & m0 & x0 & A1 & A2 & A3 & A4 & A5 & A6 & A7 & A8 & A9 & A10 & A11 & F).
  exists n, m, x. split. { intros f Hf. destruct (F f Hf) as (F1 & F2 & F3 & F4). unfold cutoff_range, check. rewrite F1, F2, F3, F4. reflexivity. }
  split; [lra|]. split; [lra|]. split; [exists u | exists l]; repeat split; lra.
Qed.
(** with assertions the same range is returned, unless the density takes exactly the value of the cutoff at a probed power of two
    or at a probed integer *)
Theorem C69_cutoff_range_with_assertions : forall cutoff, 0 < cutoff < 64 / 135 ->
  (forall k, evaluate_cde2 ((1 / 2) ^ k) <> cutoff) -> (forall k, evaluate_cde2 (INR k) <> cutoff) ->
  exists fuel0, forall fuel, (fuel0 <= fuel)%nat -> cutoff_range true fuel cutoff = cutoff_range false fuel cutoff.
Proof.
  intros c Hc N1 N2. destruct (cutoff_range_ok c Hc) as (n & m & x & u & l & m0 & x0 & A1 & A2 & A3 & A4 & A5 & A6 & A7 & A8 & A9 & A10 & A11 & F).
  exists n. intros f Hf. destruct (F f Hf) as (F1 & F2 & F3 & F4). unfold cutoff_range, check. rewrite F1, F2, F3, F4.
  assert (HP: forall f k r, halve f c ((1 / 2) ^ k) = Some r -> exists j, r = (1 / 2) ^ j).
  { clear. induction f; intros k r H; cbn [halve] in H; [discriminate|]. destruct (Rlt_dec _ _); [|exists k; congruence].
    replace ((1 / 2) ^ k * 0.5) with ((1 / 2) ^ (S k)) in H by (cbn [pow]; lra). eauto. }
  assert (GP: forall f k r, grow f c m (INR k) = Some r -> exists j, r = INR j).
  { clear. induction f; intros k r H; cbn [grow] in H; [discriminate|]. destruct (Rlt_dec _ _); [|exists k; congruence]. rewrite <- S_INR in H. eauto. }
  destruct (HP f 0%nat m0 F1) as (j & Ej). destruct (GP f 1%nat x0 F3) as (i & Ei).
  pose proof (N1 j). pose proof (N2 i). rewrite <- Ej in H. rewrite <- Ei in H0. rewrite !density_in by lra. rewrite density_sphere.
  destruct (Rlt_dec 0 c); [|lra]. destruct (Rlt_dec c 0.5); [|lra]. destruct (Rlt_dec (evaluate_cde2 m0 - c) 0); [|lra]. destruct (Rlt_dec 0 (64 / 135 - c)); [|lra].
  destruct (Rlt_dec (evaluate_cde2 x0 - c) 0); [auto | lra].
Qed.
(** The check on the cutoff (0 < cutoff < 0.5) accepts values for which there is no such range: from the density of a sphere
    on, the range is the single axis ratio 1, and every quadrature weight is zero. With assertions the constructor stops. *)
Theorem C69_accepted_cutoffs_without_range_refuted : forall cutoff, 64 / 135 <= cutoff < 1 / 2 ->
  (forall fuel, (1 <= fuel)%nat -> cutoff_range false fuel cutoff = Some (Range 1 1)) /\
  (forall fuel, (1 <= fuel)%nat -> cutoff_range true fuel cutoff = Some Assertion) /\
  (forall fuel npoints p x w, evaluate fuel npoints p 1 1 = Some (x, w) -> forall i, (i < npoints)%nat -> x i = 1 /\ w i = 0).
Proof.
  intros c Hc. assert (G: ~ 0 < density 1 1 1 - c) by (rewrite density_in, density_sphere by lra; lra).
  assert (B: Rabs (1 - 1) = 0) by (replace (1 - 1) with 0 by ring; apply Rabs_R0). assert (B2: ~ 0.005 * Rabs (1 + 1) < Rabs (1 - 1)) by (rewrite B, Rabs_right; lra).
  split; [|split].
  - intros f Hf. destruct f; [lia|]. unfold cutoff_range, check. cbn [halve bisect_minimum grow bisect_maximum].
    destruct (Rlt_dec 0 (density 1 1 1 - c)); [tauto|]. destruct (Rlt_dec (0.005 * Rabs (1 + 1)) (Rabs (1 - 1))); [tauto|].
    destruct (Rlt_dec 0 (density 1 1 1 - c)); [tauto|]. destruct (Rlt_dec (0.005 * Rabs (1 + 1)) (Rabs (1 - 1))); [tauto | auto].
  - intros f Hf. destruct f; [lia|]. unfold cutoff_range, check. destruct (Rlt_dec 0 c); [|lra]. destruct (Rlt_dec c 0.5); [|lra]. cbn [halve].
    destruct (Rlt_dec 0 (density 1 1 1 - c)); [tauto|]. destruct (Rlt_dec (density 1 1 1 - c) 0); [|auto]. destruct (Rlt_dec 0 (density 1 1 1 - c)); [tauto | auto].
  - intros f n p x w E. unfold evaluate in E. destruct (gauss_legendre_ab f n 1 1 (fun _ => 0, fun _ => 0)) as [(x1, w1)|] eqn:R1; [|discriminate].
    destruct (rule_affine _ _ _ _ _ _ _ R1) as (x0 & w0 & _ & A). injection E as E.
    assert (W: forall k i A j, snd (weigh k i p A) j = (if Nat.leb i j && Nat.ltb j (i + k) then snd A j * p (fst A j) else snd A j)%bool /\ fst (weigh k i p A) = fst A).
    { clear. induction k as [|k IH]; intros i A j; cbn [weigh].
      - split; auto. destruct (Nat.leb_spec i j), (Nat.ltb_spec j (i + 0)); auto; lia.
      - destruct (IH (S i) (fst A, aset (snd A) i (snd A i * p (fst A i))) j) as (E1 & E2). rewrite E1, E2. cbn [fst snd]. split; auto. unfold aset.
        destruct (Nat.eqb_spec j i) as [-> | N];
          repeat match goal with |- context [Nat.leb ?a ?b] => destruct (Nat.leb_spec a b) | |- context [Nat.ltb ?a ?b] => destruct (Nat.ltb_spec a b) end; try lia; cbn [andb]; auto. }
    intros i Hi. destruct (W n 0%nat (x1, w1) i) as (E1 & E2). rewrite E in E1, E2. cbn [fst snd] in E1, E2. destruct (A i Hi) as (A1 & A2).
    rewrite E2. split; [rewrite A1; field|]. rewrite E1, A2. cbn [Nat.leb andb Nat.add]. destruct (Nat.ltb i n); lra.
Qed.
(** The fraction criterion: with any quadrature that is accurate to a millionth of the fraction and of its complement, the range
    covers the requested fraction of the prolate shapes to 1.01 percent, and of the oblate shapes to 0.003 percent. *)
Definition prolate_share : R := 11 / 27.
Theorem C69_fraction_range : forall quad eps fraction, 0 < fraction < 1 -> eps <= fraction / 1000000 -> eps <= (1 - fraction) / 1000000 ->
  (forall a b p, 0 < a < b -> ellipsoid_probability (get_shape_factor a) (get_shape_factor b) p -> Rabs (quad a b - p) <= eps) ->
  (forall b p, 0 < b -> ellipsoid_probability 0 (get_shape_factor b) p -> Rabs (quad 0 b - p) <= eps) ->
  exists fuel0 minimum maximum p q, 
    (forall fuel, (fuel0 <= fuel)%nat -> fraction_range fuel quad fraction = Some (Range minimum maximum)) /\ 0 < minimum < 1 /\ 1 < maximum /\
    ellipsoid_probability (get_shape_factor minimum) (1 / 3) p /\ Rabs (p - fraction * prolate_share) <= 0.0101 * (fraction * prolate_share) /\
    ellipsoid_probability (1 / 3) (get_shape_factor maximum) q /\ Rabs (q - fraction * (1 - prolate_share)) <= 0.00003 * (fraction * (1 - prolate_share)).
Proof.
  intros quad eps fr Hf E1 E2 Q1 Q2. assert (Q: forall a b, 0 <= a < b -> Rabs (quad a b - mass a b) <= eps).
  { intros a b H. destruct (Req_EM_T a 0) as [-> | N].
    - apply Q2; [lra|]. unfold mass. rewrite shape_zero. apply cumulative_is_probability.
    - apply Q1; [lra|]. apply cumulative_is_probability. }
  destruct (fraction_range_ok quad eps Q fr Hf E1 E2) as (n & m & x & M & X & A & B & F). exists n, m, x, (mass m 1), (mass 1 x). unfold prolate_share. replace (1 - 11 / 27) with (16 / 27) by field.
  repeat split; auto; try lra; unfold mass; rewrite shape_sphere; apply cumulative_is_probability.
Qed.
Lemma C69_prolate_share : ellipsoid_probability 0 (1 / 3) prolate_share.
Proof. replace prolate_share with (cumulative (1 / 3) - cumulative 0) by (unfold prolate_share, cumulative; field). apply cumulative_is_probability. Qed.
Example C69_example : (exists fuel minimum maximum, cutoff_range false fuel 0.15 = Some (Range minimum maximum) /\ minimum < 1 < maximum) /\
  (exists quad, forall a b, 0 < a < b -> ellipsoid_probability (get_shape_factor a) (get_shape_factor b) (quad a b)).
Proof.
  split.
  - destruct (C69_cutoff_range 0.15 ltac:(lra)) as (n & m & x & F & A & B & _). exists n, m, x. split; [apply F; auto | lra].
  - exists mass. intros a b _. apply cumulative_is_probability.
Qed.
Print Assumptions C69_cutoff_range.
Print Assumptions C69_cutoff_range_with_assertions.
Print Assumptions C69_accepted_cutoffs_without_range_refuted.
Print Assumptions C69_fraction_range.
