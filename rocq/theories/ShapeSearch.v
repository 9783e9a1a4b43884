(** The shape distribution as a probability density and the choice of its limits. *)
From Coq Require Import Reals Lra Ratan Lia Psatz.
From Coquelicot Require Import Coquelicot.
From Verif Require Import QMatrix EbcmFacts Quadrature Shape ShapeFacts.
Open Scope R_scope.

(* ------------------------------------------------ continuity of the slope *)
Lemma slope_prolate : forall d, d < 1 -> slope d = d * Kp (el d) / (2 * (el d * el d * (el d * el d) * el d)).
Proof. intros d H. unfold slope. destruct (Rlt_dec d 1); [auto | lra]. Qed.
Lemma slope_oblate : forall d, 1 < d -> slope d = (1 - eo d * eo d) * Ko (eo d) / (eo d * eo d * (eo d * eo d) * eo d).
Proof. intros d H. unfold slope. destruct (Rlt_dec d 1); [lra|]. destruct (Rlt_dec 1 d); [auto | lra]. Qed.
Lemma slope_sphere : slope 1 = 4 / 15.
Proof. unfold slope. destruct (Rlt_dec 1 1); [lra | auto]. Qed.
Lemma slope_near : forall d, Rabs (d - 1) <= / 1000000 -> Rabs (slope d - 4 / 15) <= 10 * Rabs (d - 1).
Proof.
  intros d H. apply Rabs_le_between in H. destruct (Rtotal_order d 1) as [L | [-> | G]].
  - destruct (el_ok d ltac:(lra)) as ((E0 & E1) & E2 & E3). rewrite slope_prolate by auto. pose proof (jac_p_near (el d) ltac:(lra) ltac:(rewrite E2; nra)) as J. rewrite E3 in J.
    rewrite (Rabs_left (d - 1)) by lra. set (s := d * Kp (el d) / (2 * (el d * el d * (el d * el d) * el d))) in *. clearbody s. rewrite E2 in J. clear E0 E1 E2 E3.
    assert (X: 0 <= 1 - d * d <= 2 * (1 - d)) by nra. set (x := 1 - d * d) in *. clearbody x. assert (0 <= x * x <= / 1000 * x) by nra. assert (0 <= x * x * x <= / 1000 * x) by nra.
    apply Rabs_le_between in J. apply Rabs_le. lra.
  - rewrite slope_sphere. replace (4 / 15 - 4 / 15) with 0 by ring. rewrite Rabs_R0. pose proof (Rabs_pos (1 - 1)). lra.
  - destruct (inv_sq d G) as (I0 & I1). assert (X0: (1 - 1 / (d * d)) * (d * d) = d * d - 1) by (field; lra). assert (X: 0 <= 1 - 1 / (d * d) <= 3 * (d - 1)).
    { split; [lra|].  assert (0 <= 1 - 1 / (d * d)) by lra. set (x := 1 - 1 / (d * d)) in *. clearbody x. assert (x * 1 <= x * (d * d)) by (apply Rmult_le_compat_l; nra). nra. }
    destruct (eo_ok d ltac:(lra)) as ((E0 & E1) & E2 & E3). rewrite slope_oblate by auto. pose proof (jac_o_near (eo d) ltac:(lra) ltac:(rewrite E2; lra)) as J.
    rewrite (Rabs_right (d - 1)) by lra. set (s := (1 - eo d * eo d) * Ko (eo d) / (eo d * eo d * (eo d * eo d) * eo d)) in *. clearbody s. rewrite E2 in J. clear E0 E1 E2 E3 X0.
    set (x := 1 - 1 / (d * d)) in *. clearbody x. assert (0 <= x * x <= / 1000 * x) by nra. assert (0 <= x * x * x <= / 1000 * x) by nra.
    apply Rabs_le_between in J. apply Rabs_le. lra.
Qed.
Lemma slope_continuous : forall d, 0 < d -> continuous slope d.
Proof.
  intros d H. destruct (Rtotal_order d 1) as [L | [-> | G]].
  - apply (continuous_ext_loc slope (fun d => d * Kp (el d) / (2 * (el d * el d * (el d * el d) * el d))) d); [apply (loc d 0 1); [lra|]; intros x Hx; symmetry; apply slope_prolate; lra|].
    destruct (el_ok d ltac:(lra)) as ((E0 & E1) & E2 & E3). apply (ex_derive_continuous (fun d => d * Kp (el d) / (2 * (el d * el d * (el d * el d) * el d)))).
    unfold Kp, lnq. assert (DE: ex_derive el d) by (eexists; apply el_deriv; lra). auto_derive. assert (0 < el d * el d * (el d * el d) * el d) by (repeat apply Rmult_lt_0_compat; lra).
    repeat split; auto; try lra. apply Rdiv_lt_0_compat; lra.
  - apply (proj1 (continuity_pt_filterlim slope 1)). intros eps He. exists (Rmin (/ 1000000) (eps / 20)). split; [apply Rmin_pos; lra|].
    intros x (_ & Hx). cbn in *. unfold R_dist in *. pose proof (Rmin_l (/ 1000000) (eps / 20)). pose proof (Rmin_r (/ 1000000) (eps / 20)). rewrite slope_sphere.
    pose proof (slope_near x ltac:(lra)). lra.
  - apply (continuous_ext_loc slope (fun d => (1 - eo d * eo d) * Ko (eo d) / (eo d * eo d * (eo d * eo d) * eo d)) d); [apply (loc d 1 (d + 1)); [lra|]; intros x Hx; symmetry; apply slope_oblate; lra|].
    destruct (eo_ok d G) as ((E0 & E1) & E2 & E3). apply (ex_derive_continuous (fun d => (1 - eo d * eo d) * Ko (eo d) / (eo d * eo d * (eo d * eo d) * eo d))).
    assert (DE: ex_derive eo d) by (eexists; apply eo_deriv; lra). assert (DK: ex_derive (fun d => Ko (eo d)) d).
    { apply (ex_derive_comp Ko eo); auto. unfold Ko. assert (ex_derive asin (eo d)) by (eexists; apply is_derive_asin; lra). auto_derive. repeat split; auto; nra. }
    assert (0 < eo d * eo d * (eo d * eo d) * eo d) by (repeat apply Rmult_lt_0_compat; lra).
    apply ex_derive_mult. { apply ex_derive_mult; auto. auto_derive. auto. } auto_derive. repeat split; auto. lra.
Qed.

(* ------------------------------------------------ the distribution *)
(** cumulative probability of the continuous distribution of ellipsoids *)
Definition cumulative (L : R) : R := 6 * (L * L) - 8 * (L * L * L) + 3 * (L * L * L * L).
Lemma cumulative_deriv : forall L, is_derive cumulative L (cde2 L).
Proof. intros L. unfold cumulative, cde2. auto_derive; auto. ring. Qed.
Definition exact_density (d : R) : R := cde2 (get_shape_factor d) * slope d.
Definition mass (a b : R) : R := cumulative (get_shape_factor b) - cumulative (get_shape_factor a).
Lemma exact_continuous : forall d, 0 < d -> continuous exact_density d.
Proof.
  intros d H. apply (continuous_mult (fun d => cde2 (get_shape_factor d)) slope); [|apply slope_continuous; auto].
  apply (continuous_comp get_shape_factor cde2); [apply (ex_derive_continuous get_shape_factor); eexists; apply shape_deriv; auto|].
  apply (ex_derive_continuous cde2). unfold cde2. auto_derive. auto.
Qed.
Lemma mass_deriv : forall d, 0 < d -> is_derive (fun d => cumulative (get_shape_factor d)) d (exact_density d).
Proof.
  intros d H. evar_last; [apply (is_derive_comp cumulative get_shape_factor); [apply cumulative_deriv | apply shape_deriv; auto]|]. unfold scal. cbn. unfold mult. cbn. unfold exact_density. ring.
Qed.
Lemma exact_integral : forall a b, 0 < a <= b -> is_RInt exact_density a b (mass a b).
Proof.
  intros a b H. unfold mass. apply (is_RInt_derive (fun d => cumulative (get_shape_factor d)) exact_density); intros x Hx; rewrite Rmin_left, Rmax_right in Hx by lra;
    [apply mass_deriv; lra | apply exact_continuous; lra].
Qed.
Lemma cde2_pos : forall L, 0 < L < 1 -> 0 < cde2 L.
Proof. intros L H. unfold cde2. replace (12 * L * (L - 1) * (L - 1)) with (12 * L * ((1 - L) * (1 - L))) by ring. assert (0 < (1 - L) * (1 - L)) by nra. nra. Qed.
Lemma cde2_le : forall L, 0 < L < 1 -> cde2 L <= 2.
Proof. intros L H. unfold cde2. replace (12 * L * (L - 1) * (L - 1)) with (16 / 9 - 12 * ((L - 1 / 3) * (L - 1 / 3) * (4 / 3 - L))) by field.
  pose proof (Rle_0_sqr (L - 1 / 3)) as Q. unfold Rsqr in Q. assert (0 <= (L - 1 / 3) * (L - 1 / 3) * (4 / 3 - L)) by (apply Rmult_le_pos; lra). lra. Qed.
Lemma slope_window : forall d, 0 < d -> near_window d -> 1 / 4 <= slope d.
Proof.
  intros d H W. pose proof (jacobian_near d H) as J. assert (G: 0.26 <= get_jacobian d).
  { unfold get_jacobian. destruct W as [(W1 & W2) | (W1 & W2)].
    - destruct (Rlt_dec d 1); [|lra]. cbv zeta. destruct (Rlt_dec (1 - d * d) (/ 100000)); [|lra]. assert (0 < 1 - d * d) by nra. set (x := 1 - d * d) in *. clearbody x. nra.
    - destruct (Rlt_dec d 1); [lra|]. destruct (Rlt_dec 1 d); [|lra]. cbv zeta. destruct (Rlt_dec (1 - 1 / (d * d)) (/ 100000)); [|lra]. pose proof (inv_sq d W1). assert (0 <= 1 - 1 / (d * d) <= / 100000) by lra. set (x := 1 - 1 / (d * d)) in *. clearbody x. nra. }
  apply Rabs_le_between in J. replace (2 * / 10 ^ 15) with (2 * (/ 100000 * / 100000 * / 100000)) in J by field. lra.
Qed.
(** relative error of the coded density *)
Lemma coded_close : forall d, 0 < d -> Rabs (evaluate_cde2 d - exact_density d) <= 8 * / 10 ^ 15 * exact_density d.
Proof.
  intros d H. unfold evaluate_cde2, exact_density. pose proof (shape_range d H) as L. pose proof (cde2_pos _ L) as C. set (c := cde2 (get_shape_factor d)) in *. clearbody c.
  assert (T: 0 < / 10 ^ 15) by (apply Rinv_0_lt_compat, pow_lt; lra). pose proof (slope_pos d H) as Sp. pose proof (jacobian_near d H) as J.
  assert (JJ: Rabs (get_jacobian d - slope d) <= 8 * / 10 ^ 15 * slope d).
  { assert (D: near_window d \/ ~ near_window d).
    { unfold near_window. destruct (Rlt_dec d 1); destruct (Rlt_dec (1 - d * d) (/ 100000)); destruct (Rlt_dec 1 d); destruct (Rlt_dec (1 - 1 / (d * d)) (/ 100000)); tauto. }
    destruct D as [W | W]; [|rewrite jacobian_exact, Rminus_eq_0, Rabs_R0 by auto; nra]. pose proof (slope_window d H W). set (t := / 10 ^ 15) in *. clearbody t. nra. }
  replace (c * get_jacobian d - c * slope d) with (c * (get_jacobian d - slope d)) by ring. rewrite Rabs_mult, Rabs_right by lra. set (t := / 10 ^ 15) in *. clearbody t. nra.
Qed.
Lemma coded_positive : forall d, 0 < d -> 0 < evaluate_cde2 d.
Proof.
  intros d H. pose proof (coded_close d H) as C. assert (E: 0 < exact_density d) by (apply Rmult_lt_0_compat; [apply cde2_pos, shape_range; auto | apply slope_pos; auto]).
  apply Rabs_le_between in C. assert (T: 0 < / 10 ^ 15 < / 10) by (split; [apply Rinv_0_lt_compat, pow_lt; lra | apply Rinv_lt_contravar; lra]). set (t := / 10 ^ 15) in *. clearbody t. nra.
Qed.

(* ------------------------------------------------ the coded density is integrable *)
Lemma piece : forall (f g : R -> R) a b, a <= b -> (forall x, a < x < b -> g x = f x) -> (forall x, a <= x <= b -> continuous g x) -> ex_RInt f a b.
Proof.
  intros f g a b H E C. apply (ex_RInt_ext g).
  - intros x Hx. rewrite Rmin_left, Rmax_right in Hx by lra. apply E; auto.
  - apply (ex_RInt_continuous g). intros x Hx. rewrite Rmin_left, Rmax_right in Hx by lra. apply C; auto.
Qed.
Lemma shape_factor_continuous : forall d, 0 < d -> continuous (fun d => cde2 (get_shape_factor d)) d.
Proof.
  intros d H. apply (continuous_comp get_shape_factor cde2); [apply (ex_derive_continuous get_shape_factor); eexists; apply shape_deriv; auto|].
  apply (ex_derive_continuous cde2). unfold cde2. auto_derive. auto.
Qed.
Lemma coded_integrable : forall a b, 0 < a <= b -> ex_RInt evaluate_cde2 a b.
Proof.
  intros a b H. set (u := sqrt (1 - / 100000)). assert (U0: 0 < u) by (apply sqrt_lt_R0; lra). assert (U2: u * u = 1 - / 100000) by (apply sqrt_sqrt; lra). assert (U1: u < 1) by nra.
  clearbody u. set (v := / u). assert (V2: v * v * (u * u) = 1) by (unfold v; field; lra). assert (UV: v * u = 1) by (unfold v; field; lra). clearbody v. assert (V1: 1 < v) by nra.
  set (lo := Rmin a u). set (hi := Rmax b v). assert (L0: 0 < lo) by (apply Rmin_pos; lra). pose proof (Rmin_l a u : lo <= a). pose proof (Rmin_r a u : lo <= u). pose proof (Rmax_l b v : b <= hi). pose proof (Rmax_r b v : v <= hi).
  assert (T: ex_RInt evaluate_cde2 lo hi).
  { apply (ex_RInt_Chasles _ lo u hi); [|apply (ex_RInt_Chasles _ u 1 hi); [|apply (ex_RInt_Chasles _ 1 v hi)]].
    - apply (piece _ exact_density); [lra | |intros; apply exact_continuous; lra]. intros x Hx. unfold evaluate_cde2, exact_density. rewrite jacobian_exact; [auto | lra |]. intros [(_ & N) | (N & _)]; [nra | lra].
    - apply (piece _ (fun x => cde2 (get_shape_factor x) * (4 / 15 + 2 * (1 - x * x) / 21 + 3 * (1 - x * x) * (1 - x * x) / 70))); [lra | |].
      + intros x Hx. unfold evaluate_cde2, get_jacobian. destruct (Rlt_dec x 1); [|lra]. cbv zeta. destruct (Rlt_dec (1 - x * x) (/ 100000)); [auto | nra].
      + intros x Hx. apply (continuous_mult (fun x => cde2 (get_shape_factor x))); [apply shape_factor_continuous; lra|]. apply (ex_derive_continuous (fun x : R => 4 / 15 + 2 * (1 - x * x) / 21 + 3 * (1 - x * x) * (1 - x * x) / 70)). auto_derive. auto.
    - apply (piece _ (fun x => cde2 (get_shape_factor x) * (4 / 15 - 2 * (1 - 1 / (x * x)) / 21 - 11 * (1 - 1 / (x * x)) * (1 - 1 / (x * x)) / 210))); [lra | |].
      + intros x Hx. unfold evaluate_cde2, get_jacobian. destruct (Rlt_dec x 1); [lra|]. destruct (Rlt_dec 1 x); [|lra]. cbv zeta. destruct (Rlt_dec (1 - 1 / (x * x)) (/ 100000)) as [_ | N]; [auto|].
        exfalso. apply N. assert (X: (1 - 1 / (x * x)) * (x * x) = x * x - 1) by (field; lra). set (y := 1 - 1 / (x * x)) in *. clearbody y. assert (x * x < v * v) by nra.
        apply Rnot_le_lt. intro C. assert (/ 100000 * (x * x) <= x * x - 1) by (rewrite <- X; apply Rmult_le_compat_r; nra). nra.
      + intros x Hx. apply (continuous_mult (fun x => cde2 (get_shape_factor x))); [apply shape_factor_continuous; lra|]. apply (ex_derive_continuous (fun x : R => 4 / 15 - 2 * (1 - 1 / (x * x)) / 21 - 11 * (1 - 1 / (x * x)) * (1 - 1 / (x * x)) / 210)). auto_derive. nra.
    - apply (piece _ exact_density); [lra | |intros; apply exact_continuous; lra]. intros x Hx. unfold evaluate_cde2, exact_density. rewrite jacobian_exact; [auto | lra |]. intros [(N & _) | (_ & N)]; [lra|].
      assert (X: (1 - 1 / (x * x)) * (x * x) = x * x - 1) by (field; lra). set (y := 1 - 1 / (x * x)) in *. clearbody y. assert (v * v < x * x) by nra.
      assert (x * x - 1 < / 100000 * (x * x)) by (rewrite <- X; apply Rmult_lt_compat_r; nra). nra. }
  apply (ex_RInt_Chasles_1 (V := R_CompleteNormedModule) evaluate_cde2 a b hi); [lra|]. apply (ex_RInt_Chasles_2 (V := R_CompleteNormedModule) evaluate_cde2 lo a hi); [lra | auto].
Qed.
Lemma coded_integral : forall a b, 0 < a <= b -> exists I, is_RInt evaluate_cde2 a b I /\ Rabs (I - mass a b) <= 8 * / 10 ^ 15 * mass a b.
Proof.
  intros a b H. destruct (coded_integrable a b H) as (I & HI). exists I. split; auto. pose proof (exact_integral a b H) as X.
  assert (D: is_RInt (fun d => evaluate_cde2 d - exact_density d) a b (I - mass a b)) by (apply (is_RInt_minus evaluate_cde2 exact_density); auto).
  assert (B: is_RInt (fun d => 8 * / 10 ^ 15 * exact_density d) a b (8 * / 10 ^ 15 * mass a b)) by (apply (is_RInt_scal exact_density a b (8 * / 10 ^ 15)); auto).
  apply (norm_RInt_le (fun d => evaluate_cde2 d - exact_density d) (fun d => 8 * / 10 ^ 15 * exact_density d) a b); auto; [lra|].
  intros x Hx. apply coded_close. lra.
Qed.

(* ------------------------------------------------ tails *)
Lemma ln_le_lin : forall x, 0 < x -> ln x <= x - 1.
Proof. intros x H. pose proof (exp_ineq1_le (x - 1)) as E. rewrite <- (ln_exp (x - 1)). apply Rcomplements.ln_le; auto. lra. Qed.
Lemma lnq_tail : forall d, 0 < d < 1 -> 0 < lnq (el d) <= 4 / d.
Proof.
  intros d H. destruct (el_ok d H) as ((E0 & E1) & E2 & E3). unfold lnq. set (e := el d) in *.
  assert (Q: (1 + e) / (1 - e) = (1 + e) * (1 + e) / (d * d)). { replace (d * d) with ((1 - e) * (1 + e)) by (replace ((1 - e) * (1 + e)) with (1 - e * e) by ring; rewrite E2; ring). field. lra. }
  assert (P: 0 < (1 + e) / d) by (apply Rdiv_lt_0_compat; lra).
  split.
  - rewrite <- ln_1. apply ln_increasing; [lra|]. apply Rmult_lt_reg_r with (1 - e); [lra|]. unfold Rdiv. rewrite Rmult_assoc, Rinv_l by lra. lra.
  - rewrite Q. replace ((1 + e) * (1 + e) / (d * d)) with ((1 + e) / d * ((1 + e) / d)) by (field; lra). rewrite ln_mult by auto. pose proof (ln_le_lin _ P) as Ln.
    assert ((1 + e) / d <= 2 / d) by (apply Rmult_le_compat_r; [left; apply Rinv_0_lt_compat|]; lra). replace (4 / d) with (2 / d + 2 / d) by (field; lra). lra.
Qed.
Lemma el_big : forall d, 0 < d <= 1 / 2 -> 3 / 4 <= el d * el d /\ 4 / 5 <= el d.
Proof. intros d H. destruct (el_ok d ltac:(lra)) as ((E0 & E1) & E2 & E3). rewrite E2. split; nra. Qed.
Lemma low_tail : forall d, 0 < d <= 1 / 2 -> get_shape_factor d <= 4 * d /\ slope d <= 20.
Proof.
  intros d H. destruct (el_big d H) as (B1 & B2). destruct (el_ok d ltac:(lra)) as ((E0 & E1) & E2 & E3). destruct (lnq_tail d ltac:(lra)) as (Q0 & Q). rewrite shape_prolate, slope_prolate by lra. unfold Lp, Kp.
  replace (1 - el d * el d) with (d * d) by lra. set (e := el d) in *. set (l := lnq e) in *. clearbody l e.
  assert (LD: l * d <= 4) by (apply Rmult_le_reg_r with (/ d); [apply Rinv_0_lt_compat; lra|]; rewrite Rmult_assoc, Rinv_r by lra; unfold Rdiv in Q; lra). split.
  - apply Rmult_le_reg_r with (e * e * e); [nra|]. replace (d * d * (l / (2 * e) - 1) / (e * e) * (e * e * e)) with (d * (l * d / 2 - d * e)) by (field; lra).
    rewrite Rmult_assoc, (Rmult_comm 4 _), Rmult_assoc. apply Rmult_le_compat_l; [lra|]. assert (0 <= d * e) by nra. assert (1 / 2 <= e * e * e) by nra. lra.
  - assert (P9: 9 / 16 <= e * e * (e * e)) by (set (q := e * e) in *; clearbody q; nra). assert (P: 1 / 4 <= e * e * (e * e) * e) by (set (q := e * e * (e * e)) in *; clearbody q; nra). apply Rmult_le_reg_r with (2 * (e * e * (e * e) * e)); [lra|].
    replace (d * ((3 - e * e) * l - 6 * e) / (2 * (e * e * (e * e) * e)) * (2 * (e * e * (e * e) * e))) with ((3 - e * e) * (l * d) - 6 * e * d) by (field; lra). assert (0 <= l * d) by nra. nra.
Qed.
Lemma high_tail : forall d, 2 <= d -> 1 - get_shape_factor d <= 4 / d /\ slope d <= 20.
Proof.
  intros d H. destruct (inv_sq d ltac:(lra)) as (I0 & I1). destruct (eo_ok d ltac:(lra)) as ((E0 & E1) & E2 & E3). rewrite shape_oblate, slope_oblate by lra. unfold Lo, Ko. rewrite E3.
  assert (I2: 1 / (d * d) <= 1 / 4) by (apply Rmult_le_reg_r with (d * d); [nra|]; replace (1 / (d * d) * (d * d)) with 1 by (field; lra); nra).
  set (e := eo d) in *. assert (B1: 3 / 4 <= e * e) by lra. assert (B2: 4 / 5 <= e) by nra. pose proof (asin_bound e) as A. pose proof PI_4 as P4. set (t := asin e) in *.
  assert (ID: 0 < / d <= 1 / 2) by (split; [apply Rinv_0_lt_compat; lra | replace (1 / 2) with (/ 2) by lra; apply Rinv_le_contravar; lra]).
  assert (T0: 0 <= t).
  { apply Rnot_lt_le. intro C. pose proof (sin_asin e ltac:(lra)) as Sa. fold t in Sa. assert (sin t < 0) by (apply sin_lt_0_var; lra). lra. }
  split.
  - replace (1 - (1 - / d * t / e) / (e * e)) with ((/ d * t / e - (1 - e * e)) / (e * e)) by (field; lra). apply Rmult_le_reg_r with (e * e * e); [nra|].
    replace ((/ d * t / e - (1 - e * e)) / (e * e) * (e * e * e)) with (/ d * t - (1 - e * e) * e) by (field; lra). assert (0 <= (1 - e * e) * e) by nra. assert (1 / 2 <= e * e * e) by nra. unfold Rdiv. nra.
  - assert (P9: 9 / 16 <= e * e * (e * e)) by (set (q := e * e) in *; clearbody q; nra). assert (P: 1 / 4 <= e * e * (e * e) * e) by (set (q := e * e * (e * e)) in *; clearbody q; nra). apply Rmult_le_reg_r with (e * e * (e * e) * e); [lra|].
    replace ((1 - e * e) * ((3 - 2 * (e * e)) * t - 3 * e * / d) / (e * e * (e * e) * e) * (e * e * (e * e) * e)) with ((1 - e * e) * ((3 - 2 * (e * e)) * t - 3 * e * / d)) by (field; lra).
    assert (X: 0 <= 1 - e * e <= 1 / 4) by lra. assert ((3 - 2 * (e * e)) * t <= 2 * 2) by (apply Rmult_le_compat; lra). assert (0 <= 3 * e * / d) by nra. nra.
Qed.

(* ------------------------------------------------ the cutoff search *)
Lemma jacobian_le : forall d, 0 < d -> get_jacobian d <= slope d + 1.
Proof.
  intros d H. pose proof (jacobian_near d H) as J. apply Rabs_le_between in J. replace (2 * / 10 ^ 15) with (2 * (/ 100000 * / 100000 * / 100000)) in J by field. lra.
Qed.
Lemma density_low : forall d, 0 < d <= 1 / 2 -> evaluate_cde2 d <= 1008 * d.
Proof.
  intros d H. destruct (low_tail d H) as (A & B). pose proof (shape_range d ltac:(lra)) as R1. pose proof (jacobian_le d ltac:(lra)) as J. unfold evaluate_cde2, cde2. set (L := get_shape_factor d) in *. set (g := get_jacobian d) in *. clearbody L g.
  assert (C: 0 <= (L - 1) * (L - 1) <= 1) by nra. assert (D: 0 <= 12 * L * ((L - 1) * (L - 1)) <= 48 * d) by nra. replace (12 * L * (L - 1) * (L - 1)) with (12 * L * ((L - 1) * (L - 1))) by ring. set (c := 12 * L * ((L - 1) * (L - 1))) in *. clearbody c.
  destruct (Rle_dec 0 g); nra.
Qed.
Lemma density_high : forall d, 2 <= d -> evaluate_cde2 d <= 1008 / d.
Proof.
  intros d H. destruct (high_tail d H) as (A & B). pose proof (shape_range d ltac:(lra)) as R1. pose proof (jacobian_le d ltac:(lra)) as J. unfold evaluate_cde2, cde2. assert (I: 0 < / d) by (apply Rinv_0_lt_compat; lra). unfold Rdiv in *. set (i := / d) in *. set (L := get_shape_factor d) in *. set (g := get_jacobian d) in *. clearbody L g i.
  assert (C: 0 <= (L - 1) * (L - 1) <= 1 - L) by nra. assert (D: 0 <= 12 * L * ((L - 1) * (L - 1)) <= 48 * i) by nra. replace (12 * L * (L - 1) * (L - 1)) with (12 * L * ((L - 1) * (L - 1))) by ring. set (c := 12 * L * ((L - 1) * (L - 1))) in *. clearbody c.
  destruct (Rle_dec 0 g); nra.
Qed.
Lemma density_sphere : evaluate_cde2 1 = 64 / 135.
Proof. unfold evaluate_cde2, cde2, get_jacobian. rewrite shape_sphere. destruct (Rlt_dec 1 1); [lra|]. field. Qed.
Lemma density_in : forall a b d, a <= d <= b -> density a b d = evaluate_cde2 d.
Proof. intros a b d H. unfold density. destruct (Rle_dec a d); [|lra]. destruct (Rle_dec d b); [auto | lra]. Qed.
Lemma pow_big : forall x y, 0 < y -> exists k, x <= y * 2 ^ k.
Proof.
  intros x y H. destruct (Pow_x_infinity 2 ltac:(rewrite Rabs_right; lra) (x / y)) as (n & Hn). exists n. specialize (Hn n (le_n n)). rewrite Rabs_right in Hn by (apply Rle_ge, pow_le; lra).
  apply Rmult_le_reg_r with (/ y); [apply Rinv_0_lt_compat; auto|]. replace (y * 2 ^ n * / y) with (2 ^ n) by (field; lra). unfold Rdiv in Hn. lra.
Qed.
Lemma halve_ok : forall c, 0 < c < 1 / 2 -> forall k m, 0 < m <= 1 -> 1008 * m <= c * 2 ^ k -> exists r, 0 < r <= m /\ evaluate_cde2 r <= c /\ forall f, (k < f)%nat -> halve f c m = Some r.
Proof.
  intros c Hc. induction k as [|k IH]; intros m Hm Hk.
  - cbn [pow] in Hk. exists m. assert (evaluate_cde2 m <= c) by (eapply Rle_trans; [apply density_low|]; lra). repeat split; try lra. intros f Hf. destruct f; [lia|]. cbn [halve]. rewrite density_in by lra. destruct (Rlt_dec 0 (evaluate_cde2 m - c)); [lra | auto].
  - destruct (Rlt_dec 0 (density m 1 m - c)) as [D | D].
    + destruct (IH (m * 0.5)) as (r & Hr & Pr & Fr); [lra | cbn [pow] in Hk; lra|]. exists r. repeat split; try lra. intros f Hf. destruct f; [lia|]. cbn [halve]. destruct (Rlt_dec 0 (density m 1 m - c)); [|lra]. apply Fr. lia.
    + exists m. rewrite density_in in D by lra. repeat split; try lra. intros f Hf. destruct f; [lia|]. cbn [halve]. rewrite density_in by lra. destruct (Rlt_dec 0 (evaluate_cde2 m - c)); [lra | auto].
Qed.
Lemma bisect_minimum_ok : forall c k lo up, 0 < lo < up -> up <= 1 -> evaluate_cde2 lo <= c -> c <= evaluate_cde2 up -> up - lo <= 0.01 * lo * 2 ^ k ->
  exists r u, lo <= r < u /\ u <= up /\ u - r <= 0.005 * (r + u) /\ evaluate_cde2 r <= c <= evaluate_cde2 u /\ forall f, (k < f)%nat -> bisect_minimum f c lo up = Some r.
Proof.
  intros c. induction k as [|k IH]; intros lo up H U P1 P2 W.
  - exists lo, up. cbn [pow] in W. repeat split; try lra. intros f Hf. destruct f; [lia|]. cbn [bisect_minimum]. rewrite (Rabs_right (lo + up)), (Rabs_left (lo - up)) by lra. destruct (Rlt_dec _ _); [lra | auto].
  - destruct (Rlt_dec (0.005 * Rabs (lo + up)) (Rabs (lo - up))) as [D | D].
    + set (mid := 0.5 * (lo + up)). destruct (Rlt_dec (density lo 1 mid - c) 0) as [E | E].
      * destruct (IH mid up) as (r & u & A & B & C & F & G); try (unfold mid; lra). { rewrite density_in in E by (unfold mid; lra). lra. } { cbn [pow] in W. assert (0 < 2 ^ k) by (apply pow_lt; lra). unfold mid. assert (0.01 * lo * 2 ^ k <= 0.01 * (0.5 * (lo + up)) * 2 ^ k) by (apply Rmult_le_compat_r; lra). lra. }
        exists r, u. split; [unfold mid in A; lra|]. split; [auto|]. split; [auto|]. split; [auto|]. intros f Hf. destruct f; [lia|]. cbn [bisect_minimum]. destruct (Rlt_dec (0.005 * Rabs (lo + up)) (Rabs (lo - up))); [|lra]. cbv zeta. fold mid. destruct (Rlt_dec (density lo 1 mid - c) 0); [|lra]. apply G. lia.
      * destruct (IH lo mid) as (r & u & A & B & C & F & G); try (unfold mid; lra). { rewrite density_in in E by (unfold mid; lra). lra. } { cbn [pow] in W. unfold mid. lra. }
        exists r, u. split; [auto|]. split; [unfold mid in B; lra|]. split; [auto|]. split; [auto|]. intros f Hf. destruct f; [lia|]. cbn [bisect_minimum]. destruct (Rlt_dec (0.005 * Rabs (lo + up)) (Rabs (lo - up))); [|lra]. cbv zeta. fold mid. destruct (Rlt_dec (density lo 1 mid - c) 0); [lra|]. apply G. lia.
    + exists lo, up. split; [lra|]. split; [lra|]. split; [rewrite (Rabs_right (lo + up)), (Rabs_left (lo - up)) in D by lra; lra|]. split; [lra|].
      intros f Hf. destruct f; [lia|]. cbn [bisect_minimum]. destruct (Rlt_dec (0.005 * Rabs (lo + up)) (Rabs (lo - up))); [lra | auto].
Qed.
Lemma grow_ok : forall c m, 0 < c < 1 / 2 -> m <= 1 -> forall k x, 1 <= x -> 1008 <= c * (x + INR k) -> exists r, x <= r /\ evaluate_cde2 r <= c /\ forall f, (k < f)%nat -> grow f c m x = Some r.
Proof.
  intros c m Hc Hm. induction k as [|k IH]; intros x Hx Hk.
  - cbn [INR] in Hk. exists x. assert (X: 2 <= x) by nra. assert (P: evaluate_cde2 x <= c). { eapply Rle_trans; [apply density_high; auto|]. apply Rmult_le_reg_r with x; [lra|]. unfold Rdiv. rewrite Rmult_assoc, Rinv_l by lra. lra. }
    repeat split; try lra. intros f Hf. destruct f; [lia|]. cbn [grow]. rewrite density_in by lra. destruct (Rlt_dec 0 (evaluate_cde2 x - c)); [lra | auto].
  - destruct (Rlt_dec 0 (density m x x - c)) as [D | D].
    + destruct (IH (x + 1)) as (r & A & B & C); [lra | rewrite S_INR in Hk; lra|]. exists r. repeat split; try lra. intros f Hf. destruct f; [lia|]. cbn [grow]. destruct (Rlt_dec 0 (density m x x - c)); [|lra]. apply C. lia.
    + exists x. rewrite density_in in D by lra. repeat split; try lra. intros f Hf. destruct f; [lia|]. cbn [grow]. rewrite density_in by lra. destruct (Rlt_dec 0 (evaluate_cde2 x - c)); [lra | auto].
Qed.
Lemma bisect_maximum_ok : forall c m k lo up, m <= 1 -> 1 <= lo < up -> evaluate_cde2 up <= c -> c <= evaluate_cde2 lo -> up - lo <= 0.01 * 2 ^ k ->
  exists r l, lo <= l < r /\ r <= up /\ r - l <= 0.005 * (r + l) /\ evaluate_cde2 r <= c <= evaluate_cde2 l /\ forall f, (k < f)%nat -> bisect_maximum f c m lo up = Some r.
Proof.
  intros c m. induction k as [|k IH]; intros lo up M H P1 P2 W.
  - exists up, lo. cbn [pow] in W. repeat split; try lra. intros f Hf. destruct f; [lia|]. cbn [bisect_maximum]. rewrite (Rabs_right (up + lo)), (Rabs_right (up - lo)) by lra. destruct (Rlt_dec _ _); [lra | auto].
  - destruct (Rlt_dec (0.005 * Rabs (up + lo)) (Rabs (up - lo))) as [D | D].
    + set (mid := 0.5 * (lo + up)). destruct (Rlt_dec 0 (density m up mid - c)) as [E | E].
      * destruct (IH mid up) as (r & l & A & B & C & F & G); try (unfold mid; lra). { rewrite density_in in E by (unfold mid; lra). lra. } { cbn [pow] in W. unfold mid. lra. }
        exists r, l. split; [unfold mid in A; lra|]. split; [auto|]. split; [auto|]. split; [auto|]. intros f Hf. destruct f; [lia|]. cbn [bisect_maximum]. destruct (Rlt_dec (0.005 * Rabs (up + lo)) (Rabs (up - lo))); [|lra]. cbv zeta. fold mid. destruct (Rlt_dec 0 (density m up mid - c)); [|lra]. apply G. lia.
      * destruct (IH lo mid) as (r & l & A & B & C & F & G); try (unfold mid; lra). { rewrite density_in in E by (unfold mid; lra). lra. } { cbn [pow] in W. unfold mid. lra. }
        exists r, l. split; [auto|]. split; [unfold mid in B; lra|]. split; [auto|]. split; [auto|]. intros f Hf. destruct f; [lia|]. cbn [bisect_maximum]. destruct (Rlt_dec (0.005 * Rabs (up + lo)) (Rabs (up - lo))); [|lra]. cbv zeta. fold mid. destruct (Rlt_dec 0 (density m up mid - c)); [lra|]. apply G. lia.
    + exists up, lo. split; [lra|]. split; [lra|]. split; [rewrite (Rabs_right (up + lo)), (Rabs_right (up - lo)) in D by lra; lra|]. split; [lra|].
      intros f Hf. destruct f; [lia|]. cbn [bisect_maximum]. destruct (Rlt_dec (0.005 * Rabs (up + lo)) (Rabs (up - lo))); [lra | auto].
Qed.
(** the whole search *)
Lemma cutoff_range_ok : forall c, 0 < c < 64 / 135 -> exists n m x u l m0 x0,
  0 < m < u /\ u <= 1 /\ 1 <= l < x /\ u - m <= 0.005 * (m + u) /\ x - l <= 0.005 * (x + l) /\
  evaluate_cde2 m <= c <= evaluate_cde2 u /\ evaluate_cde2 x <= c <= evaluate_cde2 l /\
  0 < m0 < 1 /\ 1 < x0 /\ evaluate_cde2 m0 <= c /\ evaluate_cde2 x0 <= c /\
  (forall f, (n <= f)%nat -> halve f c 1 = Some m0 /\ bisect_minimum f c m0 1 = Some m /\ grow f c m 1 = Some x0 /\ bisect_maximum f c m 1 x0 = Some x).
Proof.
  intros c Hc. destruct (pow_big (1008 * 1) c ltac:(lra)) as (k1 & K1). destruct (halve_ok c ltac:(lra) k1 1 ltac:(lra) K1) as (m0 & M0 & P0 & F0).
  assert (M1: m0 < 1) by (destruct (Req_EM_T m0 1) as [-> | N]; [rewrite density_sphere in P0; lra | lra]).
  destruct (pow_big (1 - m0) (0.01 * m0) ltac:(lra)) as (k2 & K2). destruct (bisect_minimum_ok c k2 m0 1 ltac:(lra) ltac:(lra) P0 ltac:(rewrite density_sphere; lra) K2) as (m & u & A1 & A2 & A3 & A4 & F1).
  assert (K3': exists k3, 1008 / c < INR k3).
  { exists (Z.to_nat (up (1008 / c))). destruct (archimed (1008 / c)) as (AR & _). rewrite INR_IZR_INZ, Z2Nat.id; [lra|]. apply le_IZR. assert (0 < 1008 / c) by (apply Rdiv_lt_0_compat; lra). lra. }
  destruct K3' as (k3 & K3'). assert (K3: 1008 <= c * INR k3) by (apply (Rmult_lt_compat_l c) in K3'; [|lra]; replace (c * (1008 / c)) with 1008 in K3' by (field; lra); lra). destruct (grow_ok c m ltac:(lra) ltac:(lra) k3 1 ltac:(lra) ltac:(nra)) as (x0 & X0 & P1 & F2).
  assert (X1: 1 < x0) by (destruct (Req_EM_T x0 1) as [-> | N]; [rewrite density_sphere in P1; lra | lra]).
  destruct (pow_big (x0 - 1) 0.01 ltac:(lra)) as (k4 & K4). destruct (bisect_maximum_ok c m k4 1 x0 ltac:(lra) ltac:(lra) P1 ltac:(rewrite density_sphere; lra) K4) as (x & l & B1 & B2 & B3 & B4 & F3).
  exists (S (k1 + k2 + k3 + k4)), m, x, u, l, m0, x0. repeat split; try lra; [apply F0 | apply F1 | apply F2 | apply F3]; lia.
Qed.

(* ------------------------------------------------ the fraction search *)
Lemma cumulative_le : forall a b, 0 <= a <= b -> b <= 1 -> 0 <= cumulative b - cumulative a <= 2 * (b - a).
Proof.
  intros a b H B. destruct (Req_EM_T a b) as [-> | N]; [lra|]. destruct (MVT_cor2 cumulative cde2 a b ltac:(lra)) as (c & E & Hc); [intros; apply is_derive_Reals, cumulative_deriv|].
  rewrite E. pose proof (cde2_pos c ltac:(lra)). pose proof (cde2_le c ltac:(lra)). nra.
Qed.
Lemma shape_zero : get_shape_factor 0 = 0.
Proof. unfold get_shape_factor. destruct (Rlt_dec 0 1); [|lra]. cbv zeta. unfold Rdiv. ring. Qed.
Lemma shape_mono : forall a b, 0 <= a <= b -> 0 <= get_shape_factor a <= get_shape_factor b /\ get_shape_factor b < 1.
Proof.
  intros a b H. destruct (Req_EM_T a 0) as [-> | A].
  - rewrite shape_zero. destruct (Req_EM_T b 0) as [-> | B]; [rewrite shape_zero; lra|]. pose proof (shape_range b ltac:(lra)). lra.
  - pose proof (shape_range a ltac:(lra)). pose proof (shape_range b ltac:(lra)). destruct (Req_EM_T a b) as [-> | N]; [lra|]. pose proof (shape_increasing a b ltac:(lra) ltac:(lra)). lra.
Qed.
Lemma mass_pos : forall a b, 0 <= a <= b -> 0 <= mass a b.
Proof. intros a b H. destruct (shape_mono a b H) as (A & B). unfold mass. apply (cumulative_le (get_shape_factor a) (get_shape_factor b)); lra. Qed.
Lemma mass_add : forall a b c, mass a c = mass a b + mass b c.
Proof. intros. unfold mass. ring. Qed.
Lemma slope_bounded : exists K, forall d, 0 < d -> slope d <= K.
Proof.
  destruct (continuity_ab_maj slope (1 / 2) 2 ltac:(lra)) as (x & Hx & _).
  { intros c Hc. apply continuity_pt_filterlim. apply slope_continuous. lra. }
  exists (Rmax 20 (slope x)). intros d H. pose proof (Rmax_l 20 (slope x)). pose proof (Rmax_r 20 (slope x)). destruct (Rle_dec d (1 / 2)); [pose proof (low_tail d ltac:(lra)); lra|].
  destruct (Rle_dec 2 d); [pose proof (high_tail d ltac:(lra)); lra|]. pose proof (Hx d ltac:(lra)). lra.
Qed.
Lemma shape_lipschitz : exists K, 0 < K /\ forall a b, 0 <= a <= b -> get_shape_factor b - get_shape_factor a <= K * (b - a).
Proof.
  destruct slope_bounded as (K & HK). exists (Rmax 4 K). pose proof (Rmax_l 4 K) as M1. pose proof (Rmax_r 4 K) as M2. set (M := Rmax 4 K) in *. split; [lra|].
  assert (Pos: forall a b, 0 < a <= b -> get_shape_factor b - get_shape_factor a <= M * (b - a)).
  { intros a b H. destruct (Req_EM_T a b) as [-> | N]; [lra|]. destruct (MVT_cor2 get_shape_factor slope a b ltac:(lra)) as (c & E & Hc); [intros; apply is_derive_Reals, shape_deriv; lra|].
    rewrite E. pose proof (HK c ltac:(lra)). apply Rmult_le_compat_r; lra. }
  intros a b H. destruct (Req_EM_T a 0) as [-> | N]; [|apply Pos; lra]. destruct (Req_EM_T b 0) as [-> | Nb]; [lra|]. rewrite shape_zero.
  destruct (Rle_dec b (1 / 2)) as [L | G]; [pose proof (low_tail b ltac:(lra)); nra|].
  pose proof (Pos (1 / 2) b ltac:(lra)). pose proof (low_tail (1 / 2) ltac:(lra)). lra.
Qed.
Lemma mass_lipschitz : exists K, 0 < K /\ forall a b, 0 <= a <= b -> mass a b <= K * (b - a).
Proof.
  destruct shape_lipschitz as (K & K0 & HK). exists (2 * K). split; [lra|]. intros a b H. destruct (shape_mono a b H) as (A & B). unfold mass.
  pose proof (cumulative_le (get_shape_factor a) (get_shape_factor b) ltac:(lra) ltac:(lra)). pose proof (HK a b H). lra.
Qed.
Lemma mass_prolate : mass 0 1 = 11 / 27.
Proof. unfold mass, cumulative. rewrite shape_zero, shape_sphere. field. Qed.
Lemma mass_rest : forall u, 2 <= u -> 16 / 27 - 8 / u <= mass 1 u.
Proof.
  intros u H. destruct (high_tail u H) as (T & _). pose proof (shape_range u ltac:(lra)) as R1. pose proof (cumulative_le (get_shape_factor u) 1 ltac:(lra) ltac:(lra)) as C.
  assert (C1: cumulative 1 = 1) by (unfold cumulative; ring). assert (C3: cumulative (get_shape_factor 1) = 11 / 27) by (rewrite shape_sphere; unfold cumulative; field). unfold mass. rewrite C3. unfold Rdiv in *. lra.
Qed.
Section Fraction.
Variables (quad : R -> R -> R) (eps : R).
Hypothesis Q : forall a b, 0 <= a < b -> Rabs (quad a b - mass a b) <= eps.
Lemma quad_near : forall a b, 0 <= a < b -> mass a b - eps <= quad a b <= mass a b + eps.
Proof. intros a b H. pose proof (Q a b H) as E. apply Rabs_le_between in E. lra. Qed.
Lemma rel_stop : forall t T q, 0 < t < 1 -> 0 < T -> Rabs (q - T) <= t * T -> ~ t * Rabs (q + T) < Rabs (q - T).
Proof.
  intros t T q Ht HT H C. apply Rabs_le_between in H. assert (Hq: T <= q + T). { assert (t * T <= T) by nra. lra. } rewrite (Rabs_right (q + T)) in C by lra.
  assert (t * T <= t * (q + T)) by nra. assert (Rabs (q - T) <= t * T) by (apply Rabs_le; lra). lra.
Qed.
Lemma bisect_prolate_ok : forall K T, 0 < K -> (forall a b, 0 <= a <= b -> mass a b <= K * (b - a)) -> 0 < T -> 4 * eps <= 0.005 * T ->
  forall k lo up, 0 <= lo < up -> up <= 1 -> mass lo 1 >= T - eps -> mass up 1 <= T + eps -> K * (up - lo) <= 0.0025 * T * 2 ^ k ->
  exists r, lo < r < up /\ ~ 0.005 * Rabs (quad r 1 + T) < Rabs (quad r 1 - T) /\ forall f, (k < f)%nat -> bisect_prolate f quad T lo up = Some r.
Proof.
  intros K T HK Lip HT HE. assert (E0: 0 <= eps) by (pose proof (Q 0 1 ltac:(lra)); pose proof (Rabs_pos (quad 0 1 - mass 0 1)); lra).
  induction k as [|k IH]; intros lo up H U P1 P2 W; set (half := 0.5 * (lo + up)); assert (Hh: lo < half < up) by (unfold half; lra); pose proof (quad_near half 1 ltac:(lra)) as QN.
  - cbn [pow] in W. assert (St: ~ 0.005 * Rabs (quad half 1 + T) < Rabs (quad half 1 - T)).
    { apply rel_stop; [lra | auto |]. pose proof (mass_add lo half 1). pose proof (mass_add half up 1). pose proof (mass_pos lo half ltac:(lra)). pose proof (mass_pos half up ltac:(lra)).
      pose proof (Lip lo half ltac:(lra)). pose proof (Lip half up ltac:(lra)). assert (K * (half - lo) <= 0.0025 * T) by nra. assert (K * (up - half) <= 0.0025 * T) by nra. apply Rabs_le. lra. }
    exists half. split; auto. split; auto. intros f Hf. destruct f; [lia|]. cbn [bisect_prolate]. cbv zeta. fold half. destruct (Rlt_dec (0.005 * Rabs (quad half 1 + T)) (Rabs (quad half 1 - T))); [tauto | auto].
  - destruct (Rlt_dec (0.005 * Rabs (quad half 1 + T)) (Rabs (quad half 1 - T))) as [D | D].
    + destruct (Rlt_dec T (quad half 1)) as [E | E].
      * destruct (IH half up) as (r & A & B & C); try lra. { cbn [pow] in W. unfold half. lra. }
        exists r. split; [lra|]. split; auto. intros f Hf. destruct f; [lia|]. cbn [bisect_prolate]. cbv zeta. fold half. destruct (Rlt_dec (0.005 * Rabs (quad half 1 + T)) (Rabs (quad half 1 - T))); [|tauto]. destruct (Rlt_dec T (quad half 1)); [|lra]. apply C. lia.
      * destruct (IH lo half) as (r & A & B & C); try lra. { cbn [pow] in W. unfold half. lra. }
        exists r. split; [lra|]. split; auto. intros f Hf. destruct f; [lia|]. cbn [bisect_prolate]. cbv zeta. fold half. destruct (Rlt_dec (0.005 * Rabs (quad half 1 + T)) (Rabs (quad half 1 - T))); [|tauto]. destruct (Rlt_dec T (quad half 1)); [lra|]. apply C. lia.
    + exists half. split; auto. split; auto. intros f Hf. destruct f; [lia|]. cbn [bisect_prolate]. cbv zeta. fold half. destruct (Rlt_dec (0.005 * Rabs (quad half 1 + T)) (Rabs (quad half 1 - T))); [tauto | auto].
Qed.
Lemma bisect_oblate_ok : forall K T, 0 < K -> (forall a b, 0 <= a <= b -> mass a b <= K * (b - a)) -> 0 < T -> 4 * eps <= / 100000 * T ->
  forall k lo up, 1 <= lo < up -> mass 1 lo <= T + eps -> mass 1 up >= T - eps -> K * (up - lo) <= / 200000 * T * 2 ^ k ->
  exists r, lo < r < up /\ ~ / 100000 * Rabs (quad 1 r + T) < Rabs (quad 1 r - T) /\ forall f, (k < f)%nat -> bisect_oblate f quad T lo up = Some r.
Proof.
  intros K T HK Lip HT HE. assert (E0: 0 <= eps) by (pose proof (Q 0 1 ltac:(lra)); pose proof (Rabs_pos (quad 0 1 - mass 0 1)); lra).
  induction k as [|k IH]; intros lo up H P1 P2 W; set (half := 0.5 * (lo + up)); assert (Hh: lo < half < up) by (unfold half; lra); pose proof (quad_near 1 half ltac:(lra)) as QN.
  - cbn [pow] in W. assert (St: ~ / 100000 * Rabs (quad 1 half + T) < Rabs (quad 1 half - T)).
    { apply rel_stop; [lra | auto |]. pose proof (mass_add 1 lo half). pose proof (mass_add 1 half up). pose proof (mass_pos lo half ltac:(lra)). pose proof (mass_pos half up ltac:(lra)).
      pose proof (Lip lo half ltac:(lra)). pose proof (Lip half up ltac:(lra)). assert (K * (half - lo) <= / 200000 * T) by nra. assert (K * (up - half) <= / 200000 * T) by nra. apply Rabs_le. lra. }
    exists half. split; auto. split; auto. intros f Hf. destruct f; [lia|]. cbn [bisect_oblate]. cbv zeta. fold half. destruct (Rlt_dec (/ 100000 * Rabs (quad 1 half + T)) (Rabs (quad 1 half - T))); [tauto | auto].
  - destruct (Rlt_dec (/ 100000 * Rabs (quad 1 half + T)) (Rabs (quad 1 half - T))) as [D | D].
    + destruct (Rlt_dec T (quad 1 half)) as [E | E].
      * destruct (IH lo half) as (r & A & B & C); try lra. { cbn [pow] in W. unfold half. lra. }
        exists r. split; [lra|]. split; auto. intros f Hf. destruct f; [lia|]. cbn [bisect_oblate]. cbv zeta. fold half. destruct (Rlt_dec (/ 100000 * Rabs (quad 1 half + T)) (Rabs (quad 1 half - T))); [|tauto]. destruct (Rlt_dec T (quad 1 half)); [|lra]. apply C. lia.
      * destruct (IH half up) as (r & A & B & C); try lra. { cbn [pow] in W. unfold half. lra. }
        exists r. split; [lra|]. split; auto. intros f Hf. destruct f; [lia|]. cbn [bisect_oblate]. cbv zeta. fold half. destruct (Rlt_dec (/ 100000 * Rabs (quad 1 half + T)) (Rabs (quad 1 half - T))); [|tauto]. destruct (Rlt_dec T (quad 1 half)); [lra|]. apply C. lia.
    + exists half. split; auto. split; auto. intros f Hf. destruct f; [lia|]. cbn [bisect_oblate]. cbv zeta. fold half. destruct (Rlt_dec (/ 100000 * Rabs (quad 1 half + T)) (Rabs (quad 1 half - T))); [tauto | auto].
Qed.
Lemma double_ok : forall T, T + eps < 16 / 27 -> forall k u, 2 <= u -> 8 <= (16 / 27 - T - eps) * u * 2 ^ k -> exists r, u <= r /\ T <= quad 1 r /\ forall f, (k < f)%nat -> double_upper f quad T u = Some r.
Proof.
  intros T HT. induction k as [|k IH]; intros u Hu Hk.
  - cbn [pow] in Hk. assert (A: T <= quad 1 u). { pose proof (quad_near 1 u ltac:(lra)). pose proof (mass_rest u Hu). assert (8 / u <= 16 / 27 - T - eps); [|lra]. apply Rmult_le_reg_r with u; [lra|]. unfold Rdiv. rewrite (Rmult_assoc 8), Rinv_l by lra. lra. }
    exists u. repeat split; try lra. intros f Hf. destruct f; [lia|]. cbn [double_upper]. destruct (Rlt_dec (quad 1 u) T); [lra | auto].
  - destruct (Rlt_dec (quad 1 u) T) as [D | D].
    + destruct (IH (u * 2)) as (r & A & B & C); [lra | cbn [pow] in Hk; lra|]. exists r. repeat split; try lra. intros f Hf. destruct f; [lia|]. cbn [double_upper]. destruct (Rlt_dec (quad 1 u) T); [|lra]. apply C. lia.
    + exists u. repeat split; try lra. intros f Hf. destruct f; [lia|]. cbn [double_upper]. destruct (Rlt_dec (quad 1 u) T); [lra | auto].
Qed.
Lemma rel_close : forall t T q, 0 < t < / 10 -> 0 < T -> ~ t * Rabs (q + T) < Rabs (q - T) -> Rabs (q - T) <= 2 * t / (1 - t) * T.
Proof.
  intros t T q Ht HT C. apply Rnot_lt_le in C. assert (A: Rabs (q + T) <= Rabs (q - T) + 2 * T). { replace (q + T) with (q - T + 2 * T) by ring. eapply Rle_trans; [apply Rabs_triang|]. rewrite (Rabs_right (2 * T)); lra. }
  apply Rmult_le_reg_r with (1 - t); [lra|]. replace (2 * t / (1 - t) * T * (1 - t)) with (2 * t * T) by (field; lra). nra.
Qed.
Lemma fraction_range_ok : forall fr, 0 < fr < 1 -> eps <= fr / 1000000 -> eps <= (1 - fr) / 1000000 ->
  exists n m x, 0 < m < 1 /\ 1 < x /\ Rabs (mass m 1 - fr * (11 / 27)) <= 0.0101 * (fr * (11 / 27)) /\ Rabs (mass 1 x - fr * (16 / 27)) <= 0.00003 * (fr * (16 / 27)) /\
    forall f, (n <= f)%nat -> fraction_range f quad fr = Some (Range m x).
Proof.
  intros fr Hf E1 E2. assert (E0: 0 <= eps) by (pose proof (Q 0 1 ltac:(lra)); pose proof (Rabs_pos (quad 0 1 - mass 0 1)); lra).
  pose proof (quad_near 0 1 ltac:(lra)) as Q0. rewrite mass_prolate in Q0. destruct mass_lipschitz as (K & K0 & Lip).
  set (T := fr * quad 0 1). set (T2 := fr * (1 - quad 0 1)).
  assert (T1: fr * (11 / 27) - eps <= T <= fr * (11 / 27) + eps) by (unfold T; split; nra). assert (T3: fr * (16 / 27) - eps <= T2 <= fr * (16 / 27) + eps) by (unfold T2; split; nra).
  destruct (pow_big (K * (1 - 0)) (0.0025 * T) ltac:(lra)) as (k1 & K1).
  assert (M11: mass 1 1 = 0) by (unfold mass; ring).
  destruct (bisect_prolate_ok K T K0 Lip ltac:(lra) ltac:(lra) k1 0 1 ltac:(lra) ltac:(lra) ltac:(rewrite mass_prolate; lra) ltac:(rewrite M11; lra) K1) as (m & Hm & Sm & Fm).
  destruct (pow_big 8 ((16 / 27 - T2 - eps) * 2) ltac:(lra)) as (k2 & K2).
  destruct (double_ok T2 ltac:(lra) k2 2 ltac:(lra) K2) as (u & Hu & Su & Fu). pose proof (quad_near 1 u ltac:(lra)) as Qu.
  destruct (pow_big (K * (u - 1)) (/ 200000 * T2) ltac:(lra)) as (k3 & K3).
  destruct (bisect_oblate_ok K T2 K0 Lip ltac:(lra) ltac:(lra) k3 1 u ltac:(lra) ltac:(rewrite M11; lra) ltac:(lra) K3) as (x & Hx & Sx & Fx).
  pose proof (rel_close 0.005 T _ ltac:(lra) ltac:(lra) Sm) as R1. pose proof (rel_close (/ 100000) T2 _ ltac:(lra) ltac:(lra) Sx) as R2.
  pose proof (quad_near m 1 ltac:(lra)) as Qm. pose proof (quad_near 1 x ltac:(lra)) as Qx.
  exists (S (k1 + k2 + k3)), m, x. split; [lra|]. split; [lra|]. apply Rabs_le_between in R1. apply Rabs_le_between in R2. split; [|split].
  - apply Rabs_le. lra.
  - apply Rabs_le. lra.
  - intros f Hf2. unfold fraction_range. cbv zeta. fold T T2. rewrite (Fm f) by lia. rewrite (Fu f) by lia. rewrite (Fx f) by lia. reflexivity.
Qed.
End Fraction.
