(** The shape factor is the classical depolarisation integral of a spheroid. *)
From Coq Require Import Reals Lra Ratan Lia Psatz.
From Coquelicot Require Import Coquelicot.
From Verif Require Import QMatrix Shape ShapeFacts.
Open Scope R_scope.

(** integrand of the depolarisation factor along the symmetry axis b of a spheroid with semi-axes a, a, b:
    (a a b / 2) / ((s + b^2) sqrt((s + a^2)^2 (s + b^2))) *)
Definition depolarisation (a b s : R) : R := a * a * b / 2 / ((s + b * b) * sqrt ((s + a * a) * (s + a * a) * (s + b * b))).
Lemma dep_eq : forall a b s, 0 < a -> 0 < b -> 0 <= s -> depolarisation a b s = a * a * b / 2 / (sqrt (s + b * b) * sqrt (s + b * b) * sqrt (s + b * b) * (s + a * a)).
Proof.
  intros a b s A B H. unfold depolarisation. assert (0 < a * a) by nra. assert (0 < b * b) by nra. rewrite sqrt_mult by nra. rewrite sqrt_square by lra. rewrite (sqrt_sqrt (s + b * b)) by lra.
  f_equal. ring.
Qed.
Section Dep.
Variables (a b c A : R) (h h' : R -> R).
Hypotheses (Pa : 0 < a) (Pb : 0 < b) (Pc : 0 < c).
Hypothesis Hh : forall w, 0 < w <= c / b -> is_derive h w (h' w).
Hypothesis H0 : h 0 = 0.
Hypothesis Hc : continuity_pt h 0.
Let w (s : R) := c / sqrt (s + b * b).
Hypothesis E : forall s, 0 <= s -> A * h' (w s) * - (c / (2 * (sqrt (s + b * b) * sqrt (s + b * b) * sqrt (s + b * b)))) = depolarisation a b s.
Lemma w_deriv : forall s, 0 <= s -> is_derive w s (- (c / (2 * (sqrt (s + b * b) * sqrt (s + b * b) * sqrt (s + b * b))))).
Proof.
  intros s H. unfold w. assert (0 < s + b * b) by nra. assert (0 < sqrt (s + b * b)) by (apply sqrt_lt_R0; auto). auto_derive; [split; [auto|]; split; auto; lra|]. field. lra.
Qed.
Lemma w_range : forall s, 0 <= s -> 0 < w s <= c / b.
Proof.
  intros s H. assert (0 < s + b * b) by nra. assert (P: 0 < sqrt (s + b * b)) by (apply sqrt_lt_R0; auto). assert (b <= sqrt (s + b * b)) by (rewrite <- (sqrt_square b) at 1 by lra; apply sqrt_le_1; nra).
  unfold w. split; [apply Rdiv_lt_0_compat; auto|]. apply Rmult_le_compat_l; [lra|]. apply Rinv_le_contravar; auto.
Qed.
Lemma dep_continuous : forall s, 0 <= s -> continuous (depolarisation a b) s.
Proof.
  intros s H. apply (ex_derive_continuous (depolarisation a b)). unfold depolarisation. assert (0 < a * a) by nra. assert (0 < b * b) by nra.
  assert (P: 0 < (s + a * a) * (s + a * a) * (s + b * b)) by (repeat apply Rmult_lt_0_compat; lra). pose proof (sqrt_lt_R0 _ P). auto_derive. repeat split; auto. apply Rgt_not_eq. apply Rmult_lt_0_compat; lra.
Qed.
Lemma dep_integral : forall X, 0 <= X -> is_RInt (depolarisation a b) 0 X (A * h (w X) - A * h (w 0)).
Proof.
  intros X HX. apply (is_RInt_derive (fun s => A * h (w s)) (depolarisation a b)); intros s Hs; rewrite Rmin_left, Rmax_right in Hs by lra; [|apply dep_continuous; lra].
  rewrite <- (E s) by lra. evar_last.
  - apply (is_derive_scal (fun s => h (w s)) s A). apply (is_derive_comp h w); [apply Hh, w_range; lra | apply w_deriv; lra].
  - unfold scal. cbn. unfold mult. cbn. ring.
Qed.
Lemma dep_limit : is_lim (fun X => RInt (depolarisation a b) 0 X) p_infty (- (A * h (c / b))).
Proof.
  assert (W0: w 0 = c / b) by (unfold w; rewrite Rplus_0_l, sqrt_square by lra; auto).
  apply is_lim_spec. intros eps. destruct (Req_EM_T A 0) as [ZA | NA].
  - exists 1. intros X HX. rewrite (is_RInt_unique _ _ _ _ (dep_integral X ltac:(lra))). rewrite ZA. rewrite !Rmult_0_l, Ropp_0, !Rminus_0_r, Rabs_R0. apply cond_pos.
  - assert (PA: 0 < Rabs A) by (apply Rabs_pos_lt; auto). destruct (Hc (eps / Rabs A)) as (del & Hd & C); [apply Rdiv_lt_0_compat; auto; apply cond_pos|].
    assert (PQ: 0 < c / del) by (apply Rdiv_lt_0_compat; auto). exists (c / del * (c / del) + 1). intros X HX. assert (X0: 0 <= X) by nra. rewrite (is_RInt_unique _ _ _ _ (dep_integral X X0)), W0.
    replace (A * h (w X) - A * h (c / b) - - (A * h (c / b))) with (A * (h (w X) - h 0)) by (rewrite H0; ring). rewrite Rabs_mult.
    destruct (w_range X X0) as (W1 & _). assert (W2: w X < del).
    { assert (0 < X + b * b) by nra. assert (P: 0 < sqrt (X + b * b)) by (apply sqrt_lt_R0; auto). assert (Q: c / del < sqrt (X + b * b)) by (rewrite <- (sqrt_square (c / del)) by lra; apply sqrt_lt_1; nra).
      unfold w. apply Rmult_lt_reg_r with (sqrt (X + b * b)); auto. unfold Rdiv at 1. rewrite Rmult_assoc, Rinv_l, Rmult_1_r by lra. apply (Rmult_lt_compat_l del) in Q; [|auto]. replace (del * (c / del)) with c in Q by (field; lra). auto. }
    assert (K: Rabs (h (w X) - h 0) < eps / Rabs A). { apply (C (w X)). split; [split; [exact I | lra]|]. cbn. unfold R_dist. rewrite Rminus_0_r, Rabs_right; lra. }
    apply (Rmult_lt_compat_l (Rabs A)) in K; auto. replace (Rabs A * (eps / Rabs A)) with (pos eps) in K by (field; lra). auto.
Qed.
End Dep.
Lemma dep_prolate : forall a b, 0 < a < b -> is_lim (fun X => RInt (depolarisation a b) 0 X) p_infty (get_shape_factor (a / b)).
Proof.
  intros a b H. set (c := sqrt (b * b - a * a)). assert (C0: 0 < c) by (apply sqrt_lt_R0; nra). assert (C2: c * c = b * b - a * a) by (apply sqrt_sqrt; nra). assert (CB: c < b) by nra. clearbody c.
  assert (D: 0 < a / b < 1) by (split; [apply Rdiv_lt_0_compat; lra|]; apply Rmult_lt_reg_r with b; [lra|]; unfold Rdiv; rewrite Rmult_assoc, Rinv_l by lra; lra).
  rewrite shape_prolate by auto. assert (EE: el (a / b) = c / b). { apply sqr_sqrt; [left; apply Rdiv_lt_0_compat; lra|]. replace (c / b * (c / b)) with (c * c / (b * b)) by (field; lra). rewrite C2. field. lra. } rewrite EE.
  assert (CB1: 0 < c / b < 1) by (split; [apply Rdiv_lt_0_compat; lra|]; apply Rmult_lt_reg_r with b; [lra|]; unfold Rdiv; rewrite Rmult_assoc, Rinv_l by lra; lra).
  replace (Lp (c / b)) with (- (a * a * b / (c * c * c) * (c / b - lnq (c / b) / 2))).
  2:{ unfold Lp. replace (1 - c / b * (c / b)) with (a * a / (b * b)) by (replace (c / b * (c / b)) with (c * c / (b * b)) by (field; lra); rewrite C2; field; lra). field. lra. }
  assert (DL: forall w, -1 < w < 1 -> is_derive (fun w => w - lnq w / 2) w (- (w * w / (1 - w * w)))).
  { intros w Hw. unfold lnq. auto_derive; [split; [lra | split; [|auto]]; apply Rdiv_lt_0_compat; lra|]. change (1 + - w) with (1 - w). field. repeat split; nra. }
  apply (dep_limit a b c (a * a * b / (c * c * c)) (fun w => w - lnq w / 2) (fun w => - (w * w / (1 - w * w)))); try lra.
  - intros w Hw. apply DL. lra.
  - unfold lnq. replace ((1 + 0) / (1 - 0)) with 1 by field. rewrite ln_1. lra.
  - apply derivable_continuous_pt. exists (- (0 * 0 / (1 - 0 * 0))). apply is_derive_Reals. apply DL. lra.
  - intros s Hs. rewrite dep_eq by lra. assert (P: 0 < s + b * b) by nra. assert (Q: 0 < sqrt (s + b * b)) by (apply sqrt_lt_R0; auto). pose proof (sqrt_sqrt (s + b * b) ltac:(lra)) as Q2. set (q := sqrt (s + b * b)) in *. clearbody q.
    assert (PA: 0 < a * a) by nra. replace (s + a * a) with (q * q - c * c) by lra. assert (0 < q * q - c * c) by nra. field. repeat split; lra.
Qed.
Lemma dep_oblate : forall a b, 0 < b < a -> is_lim (fun X => RInt (depolarisation a b) 0 X) p_infty (get_shape_factor (a / b)).
Proof.
  intros a b H. set (c := sqrt (a * a - b * b)). assert (C0: 0 < c) by (apply sqrt_lt_R0; nra). assert (C2: c * c = a * a - b * b) by (apply sqrt_sqrt; nra). assert (CA: c < a) by nra. clearbody c.
  assert (D: 1 < a / b) by (apply Rmult_lt_reg_r with b; [lra|]; unfold Rdiv; rewrite Rmult_assoc, Rinv_l by lra; lra).
  rewrite shape_oblate by auto. assert (EE: eo (a / b) = c / a). { apply sqr_sqrt; [left; apply Rdiv_lt_0_compat; lra|]. replace (c / a * (c / a)) with (c * c / (a * a)) by (field; lra). rewrite C2. field. lra. } 
  assert (CA1: 0 < c / a < 1) by (split; [apply Rdiv_lt_0_compat; lra|]; apply Rmult_lt_reg_r with a; [lra|]; unfold Rdiv; rewrite Rmult_assoc, Rinv_l by lra; lra).
  destruct (eo_ok (a / b) D) as (_ & _ & E3). rewrite EE in *. replace (/ (a / b)) with (b / a) in E3 by (field; lra).
  replace (Lo (c / a)) with (- (a * a * b / (c * c * c) * (atan (c / b) - c / b))).
  2:{ unfold Lo. rewrite E3. rewrite asin_atan by lra. unfold Rsqr. rewrite E3. replace (c / a / (b / a)) with (c / b) by (field; lra). field. lra. }
  assert (DL: forall w, is_derive (fun w => atan w - w) w (- (w * w / (1 + w * w)))).
  { intros w. assert (0 < 1 + w * w) by nra. evar_last; [apply (is_derive_minus atan (fun w => w)); [apply is_derive_atan | apply is_derive_id]|]. cbn. unfold minus, plus, opp, one. cbn. unfold Rsqr. field. lra. }
  apply (dep_limit a b c (a * a * b / (c * c * c)) (fun w => atan w - w) (fun w => - (w * w / (1 + w * w)))); try lra.
  - intros w Hw. apply DL.
  - rewrite atan_0. lra.
  - apply derivable_continuous_pt. exists (- (0 * 0 / (1 + 0 * 0))). apply is_derive_Reals. apply DL.
  - intros s Hs. rewrite dep_eq by lra. assert (P: 0 < s + b * b) by nra. assert (Q: 0 < sqrt (s + b * b)) by (apply sqrt_lt_R0; auto). pose proof (sqrt_sqrt (s + b * b) ltac:(lra)) as Q2. set (q := sqrt (s + b * b)) in *. clearbody q.
    replace (s + a * a) with (q * q + c * c) by lra. assert (0 < q * q + c * c) by nra. field. repeat split; lra.
Qed.
Lemma dep_sphere : forall a, 0 < a -> is_lim (fun X => RInt (depolarisation a a) 0 X) p_infty (get_shape_factor 1).
Proof.
  intros a H. rewrite shape_sphere. replace (1 / 3) with (- (1 * (- (a / a) * (a / a) * (a / a) / 3))) by (field; lra).
  apply (dep_limit a a a 1 (fun w => - w * w * w / 3) (fun w => - (w * w))); try lra.
  - intros w Hw. auto_derive; auto. field.
  - apply derivable_continuous_pt. exists (- (0 * 0)). apply is_derive_Reals. auto_derive; auto. field.
  - intros s Hs. rewrite dep_eq by lra. assert (P: 0 < s + a * a) by nra. assert (Q: 0 < sqrt (s + a * a)) by (apply sqrt_lt_R0; auto). pose proof (sqrt_sqrt (s + a * a) ltac:(lra)) as Q2. set (q := sqrt (s + a * a)) in *. clearbody q.
    rewrite <- Q2. field. lra.
Qed.
