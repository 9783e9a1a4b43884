(** The addition theorem of the functions d^n_{0m}: sum_m d^n_{0m}(t) d^n_{0m}(t') e^{i m phi} = P_n(cos t cos t' + sin t sin t' cos phi),
    and its derivatives. Specification side only.

    The kernel K(u, v) of two unit vectors is unchanged when both are rotated about the x axis or about the z axis, because its
    derivative along these rotations vanishes; and it is P_n(u.v) when v is the pole. *)
From Coq Require Import List Arith Lia Bool Reals Lra Psatz.
From Coquelicot Require Import Coquelicot.
From Verif Require Import Legendre Quadrature GaussExact Wigner Ortho.
Import ListNotations.
Local Open Scope R_scope.

(* ------------------------------------------------------------ finite sums *)
Fixpoint sm (f : nat -> R) (k : nat) : R := match k with 0%nat => 0 | S k' => sm f k' + f k' end.
Lemma sm_ext : forall k f g, (forall i, (i < k)%nat -> f i = g i) -> sm f k = sm g k.
Proof. induction k; intros f g H; cbn [sm]; [reflexivity|]. rewrite (IHk f g), H by auto. reflexivity. Qed.
Lemma sm_0 : forall k f, (forall i, (i < k)%nat -> f i = 0) -> sm f k = 0.
Proof. induction k; intros f H; cbn [sm]; [reflexivity|]. rewrite IHk, H by auto. ring. Qed.
Lemma sm_scal : forall k c f, sm (fun i => c * f i) k = c * sm f k.
Proof. induction k; intros; cbn [sm]; [ring|]. rewrite IHk. ring. Qed.
Lemma sm_add : forall k f g, sm (fun i => f i + g i) k = sm f k + sm g k.
Proof. induction k; intros; cbn [sm]; [ring|]. rewrite IHk. ring. Qed.
Lemma sm_telescope : forall k (g : nat -> R), sm (fun i => g (S i) - g i) k = g k - g 0%nat.
Proof. induction k; intros; cbn [sm]; [ring|]. rewrite IHk. ring. Qed.
Lemma sm_derivative : forall k (f f' : nat -> R -> R) s, (forall i, (i < k)%nat -> derivable_pt_lim (f i) s (f' i s)) ->
  derivable_pt_lim (fun s => sm (fun i => f i s) k) s (sm (fun i => f' i s) k).
Proof.
  induction k; intros f f' s H; cbn [sm]; [apply derivable_pt_lim_const|].
  apply (derivable_pt_lim_plus (fun s => sm (fun i => f i s) k) (f k)); auto.
Qed.

(* ------------------------------------------------------------ powers of x + i y *)
Fixpoint cpw (m : nat) (x y : R) : R * R := match m with 0%nat => (1, 0) | S m' => let '(a, b) := cpw m' x y in (x * a - y * b, x * b + y * a) end.
Definition pa m x y := fst (cpw m x y).
Definition pb m x y := snd (cpw m x y).
Lemma pa_S : forall m x y, pa (S m) x y = x * pa m x y - y * pb m x y.
Proof. intros. unfold pa, pb. cbn [cpw]. destruct (cpw m x y). reflexivity. Qed.
Lemma pb_S : forall m x y, pb (S m) x y = x * pb m x y + y * pa m x y.
Proof. intros. unfold pa, pb. cbn [cpw]. destruct (cpw m x y). reflexivity. Qed.
Lemma pab_0 : forall x y, pa 0 x y = 1 /\ pb 0 x y = 0.
Proof. split; reflexivity. Qed.
(** derivatives along a curve *)
Lemma pab_derivative : forall m (x y : R -> R) x' y' s, derivable_pt_lim x s x' -> derivable_pt_lim y s y' ->
  derivable_pt_lim (fun s => pa (S m) (x s) (y s)) s (INR (S m) * (pa m (x s) (y s) * x' - pb m (x s) (y s) * y')) /\
  derivable_pt_lim (fun s => pb (S m) (x s) (y s)) s (INR (S m) * (pb m (x s) (y s) * x' + pa m (x s) (y s) * y')).
Proof.
  induction m as [|m IH]; intros x y x' y' s Dx Dy.
  - unfold pa, pb. cbn [cpw fst snd]. split.
    + apply derivable_ext with (fun s => x s - 0 * y s); [intros; ring|]. eapply deriv_eq; [apply (deriv_minus x (fun s => 0 * y s)); [exact Dx|apply (derivable_pt_lim_scal y); exact Dy]|]. cbn [INR]. ring.
    + apply derivable_ext with (fun s => 0 * x s + y s); [intros; ring|]. eapply deriv_eq; [apply (derivable_pt_lim_plus (fun s => 0 * x s) y); [apply (derivable_pt_lim_scal x); exact Dx|exact Dy]|]. cbn [INR]. ring.
  - destruct (IH x y x' y' s Dx Dy) as (A & B). rewrite (S_INR (S m)). split.
    + apply derivable_ext with (fun s => x s * pa (S m) (x s) (y s) - y s * pb (S m) (x s) (y s)); [intros; rewrite (pa_S (S m)); reflexivity|].
      eapply deriv_eq; [apply (deriv_minus (fun s => x s * pa (S m) (x s) (y s)) (fun s => y s * pb (S m) (x s) (y s))); [apply (deriv_mult x); eauto|apply (deriv_mult y); eauto]|].
      cbv beta. rewrite !pa_S, !pb_S. ring.
    + apply derivable_ext with (fun s => x s * pb (S m) (x s) (y s) + y s * pa (S m) (x s) (y s)); [intros; rewrite (pb_S (S m)); reflexivity|].
      eapply deriv_eq; [apply (derivable_pt_lim_plus (fun s => x s * pb (S m) (x s) (y s)) (fun s => y s * pa (S m) (x s) (y s))); [apply (deriv_mult x); eauto|apply (deriv_mult y); eauto]|].
      cbv beta. rewrite !pa_S, !pb_S. ring.
Qed.
Lemma pab_polar : forall m r p, pa m (r * cos p) (r * sin p) = r ^ m * cos (INR m * p) /\ pb m (r * cos p) (r * sin p) = r ^ m * sin (INR m * p).
Proof.
  induction m as [|m IH]; intros r p.
  - cbn [INR pow]. rewrite Rmult_0_l, cos_0, sin_0. unfold pa, pb. cbn. split; ring.
  - destruct (IH r p) as (A & B). rewrite pa_S, pb_S, A, B, S_INR. replace ((INR m + 1) * p) with (INR m * p + p) by ring. rewrite cos_plus, sin_plus. cbn [pow]. split; ring.
Qed.

(* ------------------------------------------------------------ the kernel *)
Section Kernel.
Variable n : nat.
Let N := INR n * (INR n + 1).
Definition c2 (m : nat) : R := INR (fact (n - m)) / INR (fact (n + m)).
Lemma c2_step : forall m x, c2 m * P n (S m) x = (N - INR m * (INR m + 1)) * c2 (S m) * P n (S m) x.
Proof.
  intros m x. destruct (le_lt_dec n m) as [H|H]; [rewrite (P_high n (S m)) by lia; ring|].
  f_equal. unfold c2. replace (n + S m)%nat with (S (n + m)) by lia. replace (n - m)%nat with (S (n - S m)) by lia. rewrite !fact_S_INR.
  replace (INR (S (n - S m))) with (INR n - INR m) by (rewrite <- minus_INR by lia; f_equal; lia). rewrite S_INR, plus_INR.
  pose proof (INR_fact (n + m)). pose proof (pos_INR n). pose proof (pos_INR m). unfold N. field. split; auto. lra.
Qed.
Definition kterm (m : nat) (x y z x' y' z' : R) : R := c2 m * (P n m z * P n m z') * (pa m x y * pa m x' y' + pb m x y * pb m x' y').
Definition K (x y z x' y' z' : R) : R := kterm 0 x y z x' y' z' + 2 * sm (fun i => kterm (S i) x y z x' y' z') n.

Section Rotation.
Variables (x y z x' y' z' : R -> R) (s : R).
(** about the x axis *)
Hypotheses (Dx : derivable_pt_lim x s 0) (Dy : derivable_pt_lim y s (- z s)) (Dz : derivable_pt_lim z s (y s)).
Hypotheses (Dx' : derivable_pt_lim x' s 0) (Dy' : derivable_pt_lim y' s (- z' s)) (Dz' : derivable_pt_lim z' s (y' s)).
Hypotheses (U : x s * x s + y s * y s + z s * z s = 1) (U' : x' s * x' s + y' s * y' s + z' s * z' s = 1).
Let g m := c2 m * ((pb (S m) (x s) (y s) * pa m (x' s) (y' s) - pa (S m) (x s) (y s) * pb m (x' s) (y' s)) * (P n (S m) (z s) * P n m (z' s))
                 - (pb m (x s) (y s) * pa (S m) (x' s) (y' s) - pa m (x s) (y s) * pb (S m) (x' s) (y' s)) * (P n m (z s) * P n (S m) (z' s))).
Lemma P_along : forall (w : R -> R) w' m, derivable_pt_lim w s w' -> derivable_pt_lim (fun s => P n m (w s)) s (w' * P n (S m) (w s)).
Proof. intros w w' m D. eapply deriv_eq; [apply (derivable_pt_lim_comp w (P n m)); [exact D|apply P_derivative]|]. ring. Qed.
Lemma kterm_S_derivative : forall m, derivable_pt_lim (fun s => kterm (S m) (x s) (y s) (z s) (x' s) (y' s) (z' s)) s ((g (S m) - g m) / 2).
Proof.
  intros m. destruct (pab_derivative m x y _ _ s Dx Dy) as (A & B). destruct (pab_derivative m x' y' _ _ s Dx' Dy') as (A' & B').
  unfold kterm. eapply deriv_eq.
  - apply (deriv_mult (fun s => c2 (S m) * (P n (S m) (z s) * P n (S m) (z' s)))).
    + apply (derivable_pt_lim_scal (fun s => P n (S m) (z s) * P n (S m) (z' s))). apply (deriv_mult (fun s => P n (S m) (z s))); apply P_along; eassumption.
    + apply (derivable_pt_lim_plus (fun s => pa (S m) (x s) (y s) * pa (S m) (x' s) (y' s)) (fun s => pb (S m) (x s) (y s) * pb (S m) (x' s) (y' s))).
      * apply (deriv_mult (fun s => pa (S m) (x s) (y s))); eassumption.
      * apply (deriv_mult (fun s => pb (S m) (x s) (y s))); eassumption.
  - cbv beta. unfold g. pose proof (associated n m (z s)) as E. pose proof (associated n m (z' s)) as E'.
    pose proof (c2_step m (z s)) as C1. pose proof (c2_step m (z' s)) as C1'. fold N in E, E'.
    assert (u: 1 - z s * z s = x s * x s + y s * y s) by lra. assert (u': 1 - z' s * z' s = x' s * x' s + y' s * y' s) by lra. rewrite u in E. rewrite u' in E'.
    repeat (rewrite pb_S || rewrite pa_S). rewrite S_INR.
    set (a := pa m (x s) (y s)). set (b := pb m (x s) (y s)). set (a' := pa m (x' s) (y' s)). set (b' := pb m (x' s) (y' s)).
    set (p0 := P n m (z s)) in *. set (p1 := P n (S m) (z s)) in *. set (p2 := P n (S (S m)) (z s)) in *.
    set (q0 := P n m (z' s)) in *. set (q1 := P n (S m) (z' s)) in *. set (q2 := P n (S (S m)) (z' s)) in *.
    set (X := x s) in *. set (Y := y s) in *. set (Z := z s) in *. set (X' := x' s) in *. set (Y' := y' s) in *. set (Z' := z' s) in *. clearbody a b a' b' p0 p1 p2 q0 q1 q2 X Y Z X' Y' Z'.
    set (k := INR m) in *. clearbody k N. set (d := c2 m) in *. set (e := c2 (S m)) in *. clearbody d e.
    assert (F: ((X * X + Y * Y) * p2 - 2 * (k + 1) * Z * p1) * q1 * e = - (d * p1 * p0 * 0) - p0 * (d * q1)).
    { rewrite C1'. replace ((X * X + Y * Y) * p2 - 2 * (k + 1) * Z * p1) with (- ((N - k * (k + 1)) * p0)) by lra. ring. }
    assert (F': ((X' * X' + Y' * Y') * q2 - 2 * (k + 1) * Z' * q1) * p1 * e = - q0 * (d * p1)).
    { rewrite C1. replace ((X' * X' + Y' * Y') * q2 - 2 * (k + 1) * Z' * q1) with (- ((N - k * (k + 1)) * q0)) by lra. ring. }
    (* the difference of the two sides is a combination of F and F' *)
    match goal with |- ?l = ?r => assert (G: 2 * (l - r) =
      - (((X * X + Y * Y) * p2 - 2 * (k + 1) * Z * p1) * q1 * e + p0 * (d * q1)) * (b * (X' * a' - Y' * b') - a * (X' * b' + Y' * a'))
      + (((X' * X' + Y' * Y') * q2 - 2 * (k + 1) * Z' * q1) * p1 * e + q0 * (d * p1)) * ((X * b + Y * a) * a' - (X * a - Y * b) * b')) end.
    { field. }
    rewrite F, F' in G. lra.
Qed.

Lemma kterm_0_derivative : derivable_pt_lim (fun s => kterm 0 (x s) (y s) (z s) (x' s) (y' s) (z' s)) s (g 0).
Proof.
  unfold kterm, g. eapply deriv_eq.
  - apply derivable_ext with (fun s => c2 0 * (P n 0 (z s) * P n 0 (z' s))); [intros; unfold pa, pb; cbn; ring|].
    apply (derivable_pt_lim_scal (fun s => P n 0 (z s) * P n 0 (z' s))). apply (deriv_mult (fun s => P n 0 (z s))); apply P_along; eassumption.
  - rewrite !pa_S, !pb_S. unfold pa, pb. cbn [cpw fst snd]. ring.
Qed.
Lemma K_x : derivable_pt_lim (fun s => K (x s) (y s) (z s) (x' s) (y' s) (z' s)) s 0.
Proof.
  unfold K. eapply deriv_eq.
  - apply (derivable_pt_lim_plus (fun s => kterm 0 (x s) (y s) (z s) (x' s) (y' s) (z' s)) (fun s => 2 * sm (fun i => kterm (S i) (x s) (y s) (z s) (x' s) (y' s) (z' s)) n)); [apply kterm_0_derivative|].
    apply (derivable_pt_lim_scal (fun s => sm (fun i => kterm (S i) (x s) (y s) (z s) (x' s) (y' s) (z' s)) n)).
    apply (sm_derivative n (fun i s => kterm (S i) (x s) (y s) (z s) (x' s) (y' s) (z' s)) (fun i _ => (g (S i) - g i) / 2)). intros; apply kterm_S_derivative.
  - cbv beta. rewrite (sm_ext n _ (fun i => / 2 * (g (S i) - g i))) by (intros; field). rewrite sm_scal, sm_telescope.
    assert (Z: g n = 0) by (unfold g; rewrite !(P_high n (S n)) by lia; ring). rewrite Z. field.
Qed.
End Rotation.
Section RotationZ.
Variables (x y x' y' : R -> R) (z z' s : R).
Hypotheses (Dx : derivable_pt_lim x s (- y s)) (Dy : derivable_pt_lim y s (x s)) (Dx' : derivable_pt_lim x' s (- y' s)) (Dy' : derivable_pt_lim y' s (x' s)).
Lemma K_z : derivable_pt_lim (fun s => K (x s) (y s) z (x' s) (y' s) z') s 0.
Proof.
  unfold K. eapply deriv_eq.
  - apply (derivable_pt_lim_plus (fun s => kterm 0 (x s) (y s) z (x' s) (y' s) z') (fun s => 2 * sm (fun i => kterm (S i) (x s) (y s) z (x' s) (y' s) z') n)).
    + apply derivable_ext with (fun _ => kterm 0 0 0 z 0 0 z'); [intros; reflexivity|]. apply derivable_pt_lim_const.
    + apply (derivable_pt_lim_scal (fun s => sm (fun i => kterm (S i) (x s) (y s) z (x' s) (y' s) z') n)).
      apply (sm_derivative n (fun i s => kterm (S i) (x s) (y s) z (x' s) (y' s) z') (fun i _ => 0)). intros m _.
      destruct (pab_derivative m x y _ _ s Dx Dy) as (A & B). destruct (pab_derivative m x' y' _ _ s Dx' Dy') as (A' & B'). unfold kterm. eapply deriv_eq.
      * apply (derivable_pt_lim_scal (fun s => pa (S m) (x s) (y s) * pa (S m) (x' s) (y' s) + pb (S m) (x s) (y s) * pb (S m) (x' s) (y' s))).
        apply (derivable_pt_lim_plus (fun s => pa (S m) (x s) (y s) * pa (S m) (x' s) (y' s)) (fun s => pb (S m) (x s) (y s) * pb (S m) (x' s) (y' s))).
        -- apply (deriv_mult (fun s => pa (S m) (x s) (y s))); eassumption.
        -- apply (deriv_mult (fun s => pb (S m) (x s) (y s))); eassumption.
      * cbv beta. rewrite !pa_S, !pb_S. ring.
  - cbv beta. rewrite sm_0 by auto. ring.
Qed.
End RotationZ.

Lemma constant : forall (f : R -> R), (forall s, derivable_pt_lim f s 0) -> forall s, f s = f 0.
Proof.
  intros f D s. destruct (Req_dec s 0) as [ -> | H]; [reflexivity|].
  assert (M: forall a b, a < b -> f b = f a).
  { intros a b L. destruct (MVT_cor2 f (fun _ => 0) a b L) as (c & E & _); [intros; apply D|]. lra. }
  destruct (Rtotal_order s 0) as [L|[L|L]]; [symmetry; apply M; auto|contradiction|apply M; auto].
Qed.
Lemma rot_derivative : forall a b s, derivable_pt_lim (fun s => a * cos s - b * sin s) s (- (a * sin s + b * cos s)) /\ derivable_pt_lim (fun s => a * sin s + b * cos s) s (a * cos s - b * sin s).
Proof.
  intros a b s. split.
  - eapply deriv_eq; [apply (deriv_minus (fun s => a * cos s) (fun s => b * sin s)); [apply (derivable_pt_lim_scal cos), derivable_pt_lim_cos|apply (derivable_pt_lim_scal sin), derivable_pt_lim_sin]|]. ring.
  - eapply deriv_eq; [apply (derivable_pt_lim_plus (fun s => a * sin s) (fun s => b * cos s)); [apply (derivable_pt_lim_scal sin), derivable_pt_lim_sin|apply (derivable_pt_lim_scal cos), derivable_pt_lim_cos]|]. ring.
Qed.
Lemma K_rotate_x : forall x y z x' y' z' s, x * x + y * y + z * z = 1 -> x' * x' + y' * y' + z' * z' = 1 ->
  K x (y * cos s - z * sin s) (y * sin s + z * cos s) x' (y' * cos s - z' * sin s) (y' * sin s + z' * cos s) = K x y z x' y' z'.
Proof.
  intros x y z x' y' z' s U U'.
  rewrite (constant (fun s => K x (y * cos s - z * sin s) (y * sin s + z * cos s) x' (y' * cos s - z' * sin s) (y' * sin s + z' * cos s))).
  - rewrite cos_0, sin_0. f_equal; ring.
  - intros r. destruct (rot_derivative y z r) as (A & B). destruct (rot_derivative y' z' r) as (A' & B'). pose proof (sin2_cos2 r) as E. unfold Rsqr in E.
    apply (K_x (fun _ => x) (fun s => y * cos s - z * sin s) (fun s => y * sin s + z * cos s) (fun _ => x') (fun s => y' * cos s - z' * sin s) (fun s => y' * sin s + z' * cos s)); auto; try (apply (derivable_pt_lim_const)); cbv beta.
    + transitivity (x * x + (y * y + z * z) * (sin r * sin r + cos r * cos r)); [ring|]. rewrite E. lra.
    + transitivity (x' * x' + (y' * y' + z' * z') * (sin r * sin r + cos r * cos r)); [ring|]. rewrite E. lra.
Qed.
Lemma K_rotate_z : forall x y z x' y' z' s,
  K (x * cos s - y * sin s) (x * sin s + y * cos s) z (x' * cos s - y' * sin s) (x' * sin s + y' * cos s) z' = K x y z x' y' z'.
Proof.
  intros x y z x' y' z' s.
  rewrite (constant (fun s => K (x * cos s - y * sin s) (x * sin s + y * cos s) z (x' * cos s - y' * sin s) (x' * sin s + y' * cos s) z')).
  - rewrite cos_0, sin_0. f_equal; ring.
  - intros r. destruct (rot_derivative x y r) as (A & B). destruct (rot_derivative x' y' r) as (A' & B').
    apply (K_z (fun s => x * cos s - y * sin s) (fun s => x * sin s + y * cos s) (fun s => x' * cos s - y' * sin s) (fun s => x' * sin s + y' * cos s)); auto.
Qed.
Lemma pab_zero : forall m, pa (S m) 0 0 = 0 /\ pb (S m) 0 0 = 0.
Proof. intros. rewrite pa_S, pb_S. split; ring. Qed.
Lemma c2_0 : c2 0 = 1.
Proof. unfold c2. rewrite Nat.sub_0_r, Nat.add_0_r. field. apply INR_fact. Qed.
Lemma K_pole : forall x y z, K x y z 0 0 1 = P n 0 z.
Proof.
  intros. unfold K. rewrite sm_0.
  - unfold kterm. rewrite c2_0, P_at_1. unfold pa, pb. cbn [cpw fst snd]. ring.
  - intros i _. unfold kterm. destruct (pab_zero i) as (A & B). rewrite A, B. ring.
Qed.
Lemma turn : forall a b, exists s, a * cos s - b * sin s = 0 /\ a * sin s + b * cos s = sqrt (a * a + b * b).
Proof.
  intros a b. set (r := sqrt (a * a + b * b)). assert (Hr: r * r = a * a + b * b) by (apply sqrt_sqrt; nra).
  destruct (Req_dec r 0) as [R0|R0].
  - exists 0. assert (a = 0) by nra. assert (b = 0) by nra. subst a b. rewrite cos_0, sin_0. rewrite R0. split; ring.
  - (* (cos s, sin s) = (b, a) / r *)
    assert (exists s, cos s = b / r /\ sin s = a / r) as (s & C & S).
    { assert (0 < r) by (pose proof (sqrt_pos (a * a + b * b)); fold r in H; lra).
      assert (Q: (b / r) * (b / r) + (a / r) * (a / r) = 1) by (field_simplify; auto; rewrite <- ?Rsqr_pow2; unfold Rsqr; replace (r ^ 2) with (r * r) by ring; rewrite Hr; field; nra).
      assert (B: -1 <= b / r <= 1) by nra.
      destruct (Rle_dec 0 (a / r)) as [G|G].
      - exists (acos (b / r)). split; [apply cos_acos; auto|]. rewrite sin_acos by auto. apply sqrt_lem_1; unfold Rsqr in *; nra.
      - exists (- acos (b / r)). rewrite cos_neg, sin_neg. split; [apply cos_acos; auto|]. rewrite sin_acos by auto.
        replace (a / r) with (- - (a / r)) by ring. f_equal. apply sqrt_lem_1; unfold Rsqr in *; nra. }
    exists s. rewrite C, S. split; [field; auto|]. replace (a * (a / r) + b * (b / r)) with ((a * a + b * b) / r) by (field; auto). rewrite <- Hr. field. auto.
Qed.
(** Legendre's addition theorem *)
Theorem K_addition : forall x y z x' y' z', x * x + y * y + z * z = 1 -> x' * x' + y' * y' + z' * z' = 1 -> K x y z x' y' z' = P n 0 (x * x' + y * y' + z * z').
Proof.
  intros x y z x' y' z' U U'. destruct (turn x' y') as (s & A & B). rewrite <- (K_rotate_z x y z x' y' z' s), A, B.
  set (r := sqrt (x' * x' + y' * y')) in *. assert (Hr: r * r = x' * x' + y' * y') by (apply sqrt_sqrt; nra).
  destruct (turn r z') as (s2 & A2 & B2). pose proof (sin2_cos2 s) as E1. pose proof (sin2_cos2 s2) as E2. unfold Rsqr in *.
  set (X := x * cos s - y * sin s). set (Y := x * sin s + y * cos s).
  assert (UX: X * X + Y * Y + z * z = 1). { unfold X, Y. transitivity ((x * x + y * y) * (sin s * sin s + cos s * cos s) + z * z); [ring|]. rewrite E1. lra. }
  rewrite <- (K_rotate_x X Y z 0 r z' s2) by (auto; lra). rewrite A2, B2. replace (r * r + z' * z') with 1 by lra. rewrite sqrt_1, K_pole. f_equal.
  (* z component of the rotated u is u.v *)
  assert (Q: r * sin s2 + z' * cos s2 = 1) by (rewrite B2; replace (r * r + z' * z') with 1 by lra; apply sqrt_1).
  assert (cos s2 = z') by (transitivity (cos s2 * (r * sin s2 + z' * cos s2) - sin s2 * (r * cos s2 - z' * sin s2)); [rewrite Q, A2; ring|]; transitivity (z' * (sin s2 * sin s2 + cos s2 * cos s2)); [ring|rewrite E2; ring]).
  assert (sin s2 = r) by (transitivity (sin s2 * (r * sin s2 + z' * cos s2) + cos s2 * (r * cos s2 - z' * sin s2)); [rewrite Q, A2; ring|]; transitivity (r * (sin s2 * sin s2 + cos s2 * cos s2)); [ring|rewrite E2; ring]).
  rewrite H, H0. transitivity (X * (x' * cos s - y' * sin s) + Y * (x' * sin s + y' * cos s) + z * z'); [rewrite A, B; ring|]. unfold X, Y.
  transitivity ((x * x' + y * y') * (sin s * sin s + cos s * cos s) + z * z'); [ring|rewrite E1; ring].
Qed.
End Kernel.

(* ------------------------------------------------------------ in angles *)
Definition wsum (n : nat) (f : nat -> R) : R := f 0%nat + 2 * sm (fun i => f (S i)) n.
Lemma wsum_ext : forall n f g, (forall m, (m <= n)%nat -> f m = g m) -> wsum n f = wsum n g.
Proof. intros n f g H. unfold wsum. rewrite H by lia. f_equal. f_equal. apply sm_ext. intros. apply H. lia. Qed.
Lemma wsum_scal : forall n c f, wsum n (fun m => c * f m) = c * wsum n f.
Proof. intros. unfold wsum. rewrite sm_scal. ring. Qed.
Lemma wsum_derivative : forall n (f f' : nat -> R -> R) s, (forall i, derivable_pt_lim (f i) s (f' i s)) -> derivable_pt_lim (fun s => wsum n (fun i => f i s)) s (wsum n (fun i => f' i s)).
Proof.
  intros n f f' s H. unfold wsum. apply (derivable_pt_lim_plus (f 0%nat) (fun s => 2 * sm (fun i => f (S i) s) n)); auto.
  apply (derivable_pt_lim_scal (fun s => sm (fun i => f (S i) s) n)). apply (sm_derivative n (fun i => f (S i)) (fun i => f' (S i))). auto.
Qed.
(** the cosine of the angle between the directions (t, phi) and (t', 0), and its derivative with respect to t *)
Definition cosg (t t' phi : R) : R := cos t * cos t' + sin t * sin t' * cos phi.
Definition dcosg (t t' phi : R) : R := - sin t * cos t' + cos t * sin t' * cos phi.
Lemma cosg_sym : forall t t' phi, cosg t t' phi = cosg t' t phi.
Proof. intros. unfold cosg. ring. Qed.
Theorem addition : forall n t t' phi, wsum n (fun m => cos (INR m * phi) * (dspec n m t * dspec n m t')) = P n 0 (cosg t t' phi).
Proof.
  intros n t t' phi. pose proof (sin2_cos2 t) as E. pose proof (sin2_cos2 t') as E'. pose proof (sin2_cos2 phi) as F. unfold Rsqr in *.
  pose proof (K_addition n (sin t * cos phi) (sin t * sin phi) (cos t) (sin t' * cos 0) (sin t' * sin 0) (cos t')) as A.
  rewrite <- (f_equal (P n 0) (x := sin t * cos phi * (sin t' * cos 0) + sin t * sin phi * (sin t' * sin 0) + cos t * cos t')) by (unfold cosg; rewrite cos_0, sin_0; ring).
  rewrite <- A.
  - assert (T: forall m, cos (INR m * phi) * (dspec n m t * dspec n m t') = kterm n m (sin t * cos phi) (sin t * sin phi) (cos t) (sin t' * cos 0) (sin t' * sin 0) (cos t')).
    { intros m. unfold kterm. destruct (pab_polar m (sin t) phi) as (Q1 & Q2). destruct (pab_polar m (sin t') 0) as (Q3 & Q4). rewrite Q1, Q2, Q3, Q4. rewrite Rmult_0_r, cos_0, sin_0.
      unfold dspec, c2. rewrite <- cnm_sq. ring. }
    unfold wsum, K. rewrite T. f_equal. f_equal. apply sm_ext. intros. apply T.
  - transitivity (sin t * sin t * (sin phi * sin phi + cos phi * cos phi) + cos t * cos t); [ring|]. rewrite F. lra.
  - rewrite cos_0, sin_0. lra.
Qed.
Lemma cosg_derivative : forall t' phi t, derivable_pt_lim (fun t => cosg t t' phi) t (dcosg t t' phi).
Proof.
  intros. unfold cosg, dcosg. apply is_derive_Reals. auto_derive; [auto|ring].
Qed.
Lemma dcosg_derivative : forall t phi t', derivable_pt_lim (fun t' => dcosg t t' phi) t' (sin t * sin t' + cos t * cos t' * cos phi).
Proof. intros. unfold dcosg. apply is_derive_Reals. auto_derive; [auto|ring]. Qed.
Lemma cosg_phi : forall t t' phi, derivable_pt_lim (fun phi => cosg t t' phi) phi (- (sin t * sin t' * sin phi)).
Proof. intros. unfold cosg. apply is_derive_Reals. auto_derive; [auto|ring]. Qed.
Lemma P_comp : forall n m (f : R -> R) f' s, derivable_pt_lim f s f' -> derivable_pt_lim (fun s => P n m (f s)) s (f' * P n (S m) (f s)).
Proof. intros n m f f' s D. eapply deriv_eq; [apply (derivable_pt_lim_comp f (P n m)); [exact D|apply P_derivative]|]. ring. Qed.
Lemma d_left : forall (c : R) (f : R -> R) f' s e, derivable_pt_lim f s f' -> derivable_pt_lim (fun s => c * (f s * e)) s (c * (f' * e)).
Proof. intros c f f' s e D. apply (derivable_pt_lim_scal (fun s => f s * e)). eapply deriv_eq; [apply (deriv_mult f (fun _ => e)); [exact D|apply derivable_pt_lim_const]|]. ring. Qed.
Lemma d_right : forall (c : R) (f : R -> R) f' s e, derivable_pt_lim f s f' -> derivable_pt_lim (fun s => c * (e * f s)) s (c * (e * f')).
Proof. intros c f f' s e D. apply (derivable_pt_lim_scal (fun s => e * f s)). apply (derivable_pt_lim_scal f). exact D. Qed.
Theorem addition_t : forall n t t' phi, wsum n (fun m => cos (INR m * phi) * (dspec' n m t * dspec n m t')) = dcosg t t' phi * P n 1 (cosg t t' phi).
Proof.
  intros n t t' phi. apply (uniqueness_limite (fun t => wsum n (fun m => cos (INR m * phi) * (dspec n m t * dspec n m t'))) t).
  - apply (wsum_derivative n (fun m t => cos (INR m * phi) * (dspec n m t * dspec n m t')) (fun m t => cos (INR m * phi) * (dspec' n m t * dspec n m t'))).
    intros m. apply (d_left _ (dspec n m)). apply dspec_derivative.
  - apply derivable_ext with (fun t => P n 0 (cosg t t' phi)); [intros; symmetry; apply addition|]. apply (P_comp n _ (fun t => cosg t t' phi)). apply cosg_derivative.
Qed.
Theorem addition_tt : forall n t t' phi, wsum n (fun m => cos (INR m * phi) * (dspec' n m t * dspec' n m t')) =
  (sin t * sin t' + cos t * cos t' * cos phi) * P n 1 (cosg t t' phi) + dcosg t t' phi * dcosg t' t phi * P n 2 (cosg t t' phi).
Proof.
  intros n t t' phi. apply (uniqueness_limite (fun t' => wsum n (fun m => cos (INR m * phi) * (dspec' n m t * dspec n m t'))) t').
  - apply (wsum_derivative n (fun m t' => cos (INR m * phi) * (dspec' n m t * dspec n m t')) (fun m t' => cos (INR m * phi) * (dspec' n m t * dspec' n m t'))).
    intros m. apply (d_right _ (dspec n m)). apply dspec_derivative.
  - apply derivable_ext with (fun t' => dcosg t t' phi * P n 1 (cosg t' t phi)); [intros; rewrite cosg_sym; symmetry; apply addition_t|].
    eapply deriv_eq; [apply (deriv_mult (fun t' => dcosg t t' phi)); [apply dcosg_derivative|apply (P_comp n _ (fun t' => cosg t' t phi)); apply (cosg_derivative t phi)]|]. cbv beta. rewrite (cosg_sym t' t). ring.
Qed.
(** derivatives with respect to phi *)
Lemma cos_m : forall m c s, derivable_pt_lim (fun phi => cos (INR m * phi) * c) s (- (INR m * sin (INR m * s)) * c).
Proof. intros. apply is_derive_Reals. auto_derive; [auto|ring]. Qed.
Lemma sin_m : forall m c s, derivable_pt_lim (fun phi => sin (INR m * phi) * c) s ((INR m * cos (INR m * s)) * c).
Proof. intros. apply is_derive_Reals. auto_derive; [auto|ring]. Qed.
Lemma addition_phi : forall n t t' phi, wsum n (fun m => sin (INR m * phi) * (INR m * dspec n m t * dspec n m t')) = sin t * sin t' * sin phi * P n 1 (cosg t t' phi).
Proof.
  intros n t t' phi. assert (E: wsum n (fun m => - (INR m * sin (INR m * phi)) * (dspec n m t * dspec n m t')) = - (sin t * sin t' * sin phi) * P n 1 (cosg t t' phi)).
  { apply (uniqueness_limite (fun phi => wsum n (fun m => cos (INR m * phi) * (dspec n m t * dspec n m t'))) phi).
    - apply (wsum_derivative n (fun m phi => cos (INR m * phi) * (dspec n m t * dspec n m t')) (fun m phi => - (INR m * sin (INR m * phi)) * (dspec n m t * dspec n m t'))). intros m. apply cos_m.
    - apply derivable_ext with (fun phi => P n 0 (cosg t t' phi)); [intros; symmetry; apply addition|]. apply (P_comp n _ (fun phi => cosg t t' phi)). apply cosg_phi. }
  rewrite (wsum_ext n _ (fun m => -1 * (- (INR m * sin (INR m * phi)) * (dspec n m t * dspec n m t')))) by (intros; ring). rewrite wsum_scal, E. ring.
Qed.
Lemma addition_phiphi : forall n t t' phi, wsum n (fun m => cos (INR m * phi) * (INR m * dspec n m t * (INR m * dspec n m t'))) =
  sin t * sin t' * (cos phi * P n 1 (cosg t t' phi) - sin t * sin t' * (sin phi * sin phi) * P n 2 (cosg t t' phi)).
Proof.
  intros n t t' phi. apply (uniqueness_limite (fun phi => wsum n (fun m => sin (INR m * phi) * (INR m * dspec n m t * dspec n m t'))) phi).
  - eapply deriv_eq; [apply (wsum_derivative n (fun m phi => sin (INR m * phi) * (INR m * dspec n m t * dspec n m t')) (fun m phi => (INR m * cos (INR m * phi)) * (INR m * dspec n m t * dspec n m t'))); intros m; apply sin_m|].
    apply wsum_ext. intros. ring.
  - apply derivable_ext with (fun phi => sin t * sin t' * sin phi * P n 1 (cosg t t' phi)); [intros; symmetry; apply addition_phi|].
    eapply deriv_eq; [apply (deriv_mult (fun phi => sin t * sin t' * sin phi)); [apply (derivable_pt_lim_scal sin), derivable_pt_lim_sin|apply (P_comp n _ (fun phi => cosg t t' phi)); apply cosg_phi]|]. cbv beta. ring.
Qed.
(** division by the sine, at the poles too *)
Lemma cancel_sin : forall (f g : R -> R), (forall t, ex_derive f t) -> (forall t, ex_derive g t) -> (forall t, sin t * f t = sin t * g t) -> forall t, f t = g t.
Proof.
  intros f g Df Dg E t. destruct (Df t) as (a & Ha). destruct (Dg t) as (b & Hb). apply is_derive_Reals in Ha. apply is_derive_Reals in Hb.
  assert (H: cos t * f t + sin t * a = cos t * g t + sin t * b).
  { apply (uniqueness_limite (fun t => sin t * f t) t).
    - apply (deriv_mult sin); [apply derivable_pt_lim_sin|exact Ha].
    - apply derivable_ext with (fun t => sin t * g t); [intros; symmetry; apply E|]. apply (deriv_mult sin); [apply derivable_pt_lim_sin|exact Hb]. }
  pose proof (sin2_cos2 t) as S. unfold Rsqr in S. specialize (E t).
  destruct (Req_dec (sin t) 0) as [Z|Z]; [|apply Rmult_eq_reg_l with (sin t); auto].
  rewrite Z in *. apply Rmult_eq_reg_l with (cos t); [lra|]. intro C. rewrite C in S. lra.
Qed.
Lemma ex_derive_P : forall n m x, ex_derive (P n m) x.
Proof. intros. exists (P n (S m) x). apply is_derive_Reals. apply P_derivative. Qed.
Lemma ex_derive_wsum : forall n (f : nat -> R -> R) s, (forall i, ex_derive (f i) s) -> ex_derive (fun s => wsum n (fun i => f i s)) s.
Proof.
  intros n f s H. unfold wsum. apply (ex_derive_plus (f 0%nat) (fun s => 2 * sm (fun i => f (S i) s) n)); auto.
  apply (ex_derive_scal (fun s => sm (fun i => f (S i) s) n)). generalize n. intros k. induction k; cbn [sm]; [apply ex_derive_const|].
  apply (ex_derive_plus (fun s => sm (fun i => f (S i) s) k) (f (S k))); auto.
Qed.
Lemma ex_derive_q : forall n m c e t, ex_derive (fun t => c * (INR m * qspec n m t * e)) t.
Proof. intros. unfold qspec. auto_derive. auto using ex_derive_P. Qed.
Lemma ex_derive_Pg : forall n m t' phi t, ex_derive (fun t => P n m (cosg t t' phi)) t.
Proof. intros. exists (dcosg t t' phi * P n (S m) (cosg t t' phi)). apply is_derive_Reals. apply (P_comp n _ (fun t => cosg t t' phi)). apply cosg_derivative. Qed.
Lemma md_q : forall n m t, INR m * dspec n m t = sin t * (INR m * qspec n m t).
Proof. intros n m t. destruct m as [|m]; [cbn [INR]; ring|]. rewrite (qspec_div n (S m) t) by lia. ring. Qed.
Lemma addition_q : forall n t t' phi, wsum n (fun m => sin (INR m * phi) * (INR m * qspec n m t * dspec n m t')) = sin t' * sin phi * P n 1 (cosg t t' phi).
Proof.
  intros n t t' phi. apply (cancel_sin (fun t => wsum n (fun m => sin (INR m * phi) * (INR m * qspec n m t * dspec n m t'))) (fun t => sin t' * sin phi * P n 1 (cosg t t' phi))).
  - intros s. apply (ex_derive_wsum n (fun m t => sin (INR m * phi) * (INR m * qspec n m t * dspec n m t'))). intros. apply ex_derive_q.
  - intros s. apply (ex_derive_scal (fun t => P n 1 (cosg t t' phi))). apply ex_derive_Pg.
  - intros s. rewrite <- wsum_scal. transitivity (sin s * sin t' * sin phi * P n 1 (cosg s t' phi)); [|ring]. rewrite <- addition_phi. apply wsum_ext. intros m _. rewrite md_q. ring.
Qed.
Theorem addition_qt : forall n t t' phi, wsum n (fun m => sin (INR m * phi) * (INR m * qspec n m t * dspec' n m t')) =
  sin phi * (cos t' * P n 1 (cosg t t' phi) + sin t' * dcosg t' t phi * P n 2 (cosg t t' phi)).
Proof.
  intros n t t' phi. apply (uniqueness_limite (fun t' => wsum n (fun m => sin (INR m * phi) * (INR m * qspec n m t * dspec n m t'))) t').
  - apply (wsum_derivative n (fun m t' => sin (INR m * phi) * (INR m * qspec n m t * dspec n m t')) (fun m t' => sin (INR m * phi) * (INR m * qspec n m t * dspec' n m t'))).
    intros m. apply (d_right _ (dspec n m)). apply dspec_derivative.
  - apply derivable_ext with (fun t' => sin t' * sin phi * P n 1 (cosg t' t phi)); [intros; rewrite cosg_sym; symmetry; apply addition_q|].
    eapply deriv_eq; [apply (deriv_mult (fun t' => sin t' * sin phi)); [apply (deriv_mult sin (fun _ => sin phi)); [apply derivable_pt_lim_sin|apply derivable_pt_lim_const]|apply (P_comp n _ (fun t' => cosg t' t phi)); apply (cosg_derivative t phi)]|]. cbv beta. rewrite (cosg_sym t' t). ring.
Qed.
Theorem addition_qq : forall n t t' phi, wsum n (fun m => cos (INR m * phi) * (INR m * qspec n m t * (INR m * qspec n m t'))) =
  cos phi * P n 1 (cosg t t' phi) - sin t * sin t' * (sin phi * sin phi) * P n 2 (cosg t t' phi).
Proof.
  intros n t t' phi.
  assert (H: forall t', sin t' * wsum n (fun m => cos (INR m * phi) * (INR m * qspec n m t * (INR m * qspec n m t'))) = sin t' * (cos phi * P n 1 (cosg t t' phi) - sin t * sin t' * (sin phi * sin phi) * P n 2 (cosg t t' phi))).
  { clear t'. intros t'. apply (cancel_sin (fun t => sin t' * wsum n (fun m => cos (INR m * phi) * (INR m * qspec n m t * (INR m * qspec n m t')))) (fun t => sin t' * (cos phi * P n 1 (cosg t t' phi) - sin t * sin t' * (sin phi * sin phi) * P n 2 (cosg t t' phi)))).
    - intros s. apply (ex_derive_scal (fun t => wsum n (fun m => cos (INR m * phi) * (INR m * qspec n m t * (INR m * qspec n m t'))))).
      apply (ex_derive_wsum n (fun m t => cos (INR m * phi) * (INR m * qspec n m t * (INR m * qspec n m t')))). intros. apply ex_derive_q.
    - intros s. assert (ex_derive (fun t => cosg t t' phi) s) by (exists (dcosg s t' phi); apply is_derive_Reals, cosg_derivative). auto_derive. auto using (ex_derive_P n 1), (ex_derive_P n 2).
    - intros s. rewrite <- !wsum_scal. transitivity (sin s * sin t' * (cos phi * P n 1 (cosg s t' phi) - sin s * sin t' * (sin phi * sin phi) * P n 2 (cosg s t' phi))); [|ring].
      rewrite <- addition_phiphi. apply wsum_ext. intros m _. rewrite !md_q. ring. }
  apply (cancel_sin (fun t' => wsum n (fun m => cos (INR m * phi) * (INR m * qspec n m t * (INR m * qspec n m t')))) (fun t' => cos phi * P n 1 (cosg t t' phi) - sin t * sin t' * (sin phi * sin phi) * P n 2 (cosg t t' phi))); auto.
  - intros s. apply (ex_derive_wsum n (fun m t' => cos (INR m * phi) * (INR m * qspec n m t * (INR m * qspec n m t')))). intros m. unfold qspec. auto_derive. auto using ex_derive_P.
  - intros s. assert (ex_derive (fun t' => cosg t t' phi) s) by (unfold cosg; auto_derive; auto). auto_derive. auto using (ex_derive_P n 1), (ex_derive_P n 2).
Qed.
