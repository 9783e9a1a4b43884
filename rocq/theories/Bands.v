(** Trigonometric polynomials, with bounds on all their derivatives, and the Fourier series of the Legendre polynomials.
    Specification side: nothing here is taken from the code. *)
From Coq Require Import List Arith Lia Bool Reals Lra.
From Coquelicot Require Import Coquelicot.
From Verif Require Import Legendre GaussExact Props_quad GaussRoots GaussBounds Interp.
Import ListNotations.
Local Open Scope R_scope.

(** a function with derivatives of every order, the k-th of which is bounded by A K^k *)
Definition band (K A : R) (f : R -> R) : Prop := exists D, derivatives D /\ (forall x, D 0%nat x = f x) /\ forall k x, Rabs (D k x) <= A * K ^ k.
Lemma band_ext : forall K A f g, band K A f -> (forall x, f x = g x) -> band K A g.
Proof. intros K A f g (D & H1 & H2 & H3) E. exists D. split; auto. split; auto. intros. rewrite H2. auto. Qed.
Lemma band_add : forall K A B f g, band K A f -> band K B g -> band K (A + B) (fun x => f x + g x).
Proof.
  intros K A B f g (D & H1 & H2 & H3) (E & G1 & G2 & G3). exists (fun k x => D k x + E k x). split; [intros k x; apply (derivable_pt_lim_plus (D k) (E k)); auto|].
  split; [intros; rewrite H2, G2; auto|]. intros k x. eapply Rle_trans; [apply Rabs_triang|]. rewrite Rmult_plus_distr_r. apply Rplus_le_compat; auto.
Qed.
Lemma band_scal : forall K A c f, band K A f -> band K (Rabs c * A) (fun x => c * f x).
Proof.
  intros K A c f (D & H1 & H2 & H3). exists (fun k x => c * D k x). split; [intros k x; apply (derivable_pt_lim_scal (D k)); auto|]. split; [intros; rewrite H2; auto|].
  intros k x. rewrite Rabs_mult, Rmult_assoc. apply Rmult_le_compat_l; auto. apply Rabs_pos.
Qed.
Lemma band_sin : forall K a p, Rabs a <= K -> band K 1 (fun x => sin (a * x + p)).
Proof.
  intros K a p H. exists (fun k x => a ^ k * sin (a * x + p + INR k * (PI / 2))). split; [|split].
  - intros k x. replace (a ^ S k * sin (a * x + p + INR (S k) * (PI / 2))) with (a ^ k * (a * cos (a * x + p + INR k * (PI / 2)))).
    + apply (derivable_pt_lim_scal (fun x => sin (a * x + p + INR k * (PI / 2)))). apply is_derive_Reals. auto_derive; auto. ring.
    + rewrite S_INR. replace (a * x + p + (INR k + 1) * (PI / 2)) with (PI / 2 + (a * x + p + INR k * (PI / 2))) by ring. rewrite <- cos_sin. cbn [pow]. ring.
  - intros x. cbn [pow INR]. rewrite Rmult_1_l. f_equal. ring.
  - intros k x. rewrite Rabs_mult, <- RPow_abs, Rmult_1_l. rewrite <- (Rmult_1_r (K ^ k)). apply Rmult_le_compat; try apply Rabs_pos; [apply pow_le, Rabs_pos | apply pow_incr; split; auto; apply Rabs_pos|].
    apply Rabs_le. apply SIN_bound.
Qed.
Lemma band_cos : forall K a, Rabs a <= K -> band K 1 (fun x => cos (a * x)).
Proof. intros K a H. eapply band_ext; [apply (band_sin K a (PI / 2) H)|]. intros x. cbv beta. rewrite (cos_sin (a * x)). f_equal. ring. Qed.
Lemma band_bound : forall K A B f, A <= B -> 0 <= K -> band K A f -> band K B f.
Proof. intros K A B f L HK (D & H1 & H2 & H3). exists D. split; auto. split; auto. intros. eapply Rle_trans; [apply H3|]. apply Rmult_le_compat_r; auto. apply pow_le. auto. Qed.
Lemma band_sum : forall K n (c : nat -> R) (f : nat -> R -> R), (forall k, (k <= n)%nat -> 0 <= c k /\ band K 1 (f k)) -> band K (sum_f_R0 c n) (fun x => sum_f_R0 (fun k => c k * f k x) n).
Proof.
  intros K n c f H. assert (G: forall k, (k <= n)%nat -> band K (c k) (fun x => c k * f k x)).
  { intros k Hk. destruct (H k Hk) as (C & B). pose proof (band_scal K 1 (c k) (f k) B) as S. rewrite Rmult_1_r, Rabs_pos_eq in S by auto. exact S. }
  clear H. induction n as [|n IH]; cbn [sum_f_R0]; [apply G; lia|]. apply (band_add K (sum_f_R0 c n) (c (S n)) (fun x => sum_f_R0 (fun k => c k * f k x) n) (fun x => c (S n) * f (S n) x)); [apply IH; intros; apply G; lia | apply G; lia].
Qed.

(** the coefficients 1, 1/2, 3/8, ... of (1 - x)^(-1/2) *)
Fixpoint alpha (k : nat) : R := match k with 0%nat => 1 | S j => alpha j * ((2 * INR j + 1) / (2 * INR j + 2)) end.
Lemma alpha_pos : forall k, 0 <= alpha k.
Proof. induction k; cbn [alpha]; [lra|]. apply Rmult_le_pos; auto. pose proof (pos_INR k). apply Rdiv_le_0_compat; lra. Qed.
Definition fourier (n : nat) (t : R) : R := sum_f_R0 (fun k => alpha k * alpha (n - k) * cos ((INR n - 2 * INR k) * t)) n.
Lemma fourier_step : forall n t, (INR n + 2) * fourier (S (S n)) t = (2 * INR n + 3) * (cos t * fourier (S n) t) - (INR n + 1) * fourier n t.
Proof.
  intros n t. set (C := fun k => cos ((INR n + 2 - 2 * INR k) * t)).
  assert (A: fourier (S (S n)) t = alpha (S (S n)) * C 0%nat + sum_f_R0 (fun j => alpha (S j) * alpha (S n - j) * C (S j)) n + alpha (S (S n)) * C (S (S n))).
  { unfold fourier. rewrite decomp_sum by lia. cbn [pred]. rewrite tech5. rewrite Nat.sub_0_r, Nat.sub_diag. cbn [INR Nat.sub]. rewrite <- Rplus_assoc. f_equal; [f_equal|].
    - change (alpha 0) with 1. rewrite Rmult_1_l. f_equal. unfold C. f_equal. cbn [INR]. destruct n; cbn [INR]; ring.
    - apply sum_eq. intros j Hj. f_equal. unfold C. f_equal. destruct n; cbn [INR]; destruct j; cbn [INR]; ring.
    - replace (alpha (S n - S n)) with 1 by (rewrite Nat.sub_diag; auto). rewrite Rmult_1_r. f_equal. unfold C. f_equal. destruct n; cbn [INR]; ring. }
  assert (B: cos t * fourier (S n) t = / 2 * (alpha (S n) * C 0%nat + sum_f_R0 (fun j => alpha (S j) * alpha (n - j) * C (S j)) n) + / 2 * (sum_f_R0 (fun j => alpha j * alpha (S n - j) * C (S j)) n + alpha (S n) * C (S (S n)))).
  { assert (B1: forall k, cos t * cos ((INR (S n) - 2 * INR k) * t) = / 2 * C k + / 2 * C (S k)).
    { intros k. unfold C. replace ((INR n + 2 - 2 * INR k) * t) with ((INR (S n) - 2 * INR k) * t + t) by (rewrite S_INR; ring). replace ((INR n + 2 - 2 * INR (S k)) * t) with ((INR (S n) - 2 * INR k) * t - t) by (rewrite !S_INR; ring).
      rewrite cos_plus, cos_minus. lra. }
    assert (B2: cos t * fourier (S n) t = / 2 * sum_f_R0 (fun k => alpha k * alpha (S n - k) * C k) (S n) + / 2 * sum_f_R0 (fun k => alpha k * alpha (S n - k) * C (S k)) (S n)).
    { unfold fourier. rewrite !scal_sum, <- sum_plus. apply sum_eq. intros k _.
      replace (alpha k * alpha (S n - k) * cos ((INR (S n) - 2 * INR k) * t) * cos t) with (alpha k * alpha (S n - k) * (cos t * cos ((INR (S n) - 2 * INR k) * t))) by ring. rewrite B1. ring. }
    rewrite B2. f_equal; f_equal.
    - rewrite decomp_sum by lia. cbn [pred]. f_equal. cbn [alpha Nat.sub]. ring.
    - rewrite tech5. f_equal. rewrite Nat.sub_diag. cbn [alpha]. ring. }
  assert (D: fourier n t = sum_f_R0 (fun j => alpha j * alpha (n - j) * C (S j)) n).
  { unfold fourier. apply sum_eq. intros j _. f_equal. unfold C. f_equal. rewrite S_INR. ring. }
  rewrite A, B, D.
  assert (E: (INR n + 2) * sum_f_R0 (fun j => alpha (S j) * alpha (S n - j) * C (S j)) n
    = (2 * INR n + 3) * (/ 2 * sum_f_R0 (fun j => alpha (S j) * alpha (n - j) * C (S j)) n + / 2 * sum_f_R0 (fun j => alpha j * alpha (S n - j) * C (S j)) n) - (INR n + 1) * sum_f_R0 (fun j => alpha j * alpha (n - j) * C (S j)) n).
  { rewrite Rmult_plus_distr_l, <- !Rmult_assoc. rewrite !scal_sum, <- sum_plus, <- minus_sum. apply sum_eq. intros j Hj. replace (S n - j)%nat with (S (n - j)) by lia. cbn [alpha].
    rewrite minus_INR by lia. pose proof (le_INR j n Hj). pose proof (pos_INR j). field. split; lra. }
  assert (F: (INR n + 2) * alpha (S (S n)) = (2 * INR n + 3) * (/ 2 * alpha (S n))).
  { change (alpha (S (S n))) with (alpha (S n) * ((2 * INR (S n) + 1) / (2 * INR (S n) + 2))). rewrite S_INR. pose proof (pos_INR n). field. lra. }
  rewrite !Rmult_plus_distr_l. rewrite E. rewrite <- !(Rmult_assoc (INR n + 2) (alpha (S (S n)))), F. ring.
Qed.
Theorem legendre_fourier : forall n t, P n 0 (cos t) = fourier n t.
Proof.
  assert (G: forall n t, P n 0 (cos t) = fourier n t /\ P (S n) 0 (cos t) = fourier (S n) t).
  { induction n as [|n IH]; intros t.
    - split; [rewrite P_0_0; unfold fourier; cbn; replace ((0 - 2 * 0) * t) with 0 by ring; rewrite cos_0; ring|].
      rewrite P_1_0. unfold fourier. cbn. replace ((1 - 2 * 0) * t) with t by ring. replace ((1 - 2 * 1) * t) with (- t) by ring. rewrite cos_neg. field.
    - destruct (IH t) as (A & B). split; auto. pose proof (P_bonnet n (cos t)) as Q. rewrite plus_INR in Q. change (INR 2) with (1 + 1) in Q. rewrite S_INR in Q. pose proof (pos_INR n) as N.
      pose proof (fourier_step n t) as F. apply Rmult_eq_reg_l with (INR n + 2); [|lra]. rewrite F, <- A, <- B.
      transitivity ((INR n + (1 + 1)) * P (S (S n)) 0 (cos t)); [ring|]. rewrite Q. ring. }
  intros. apply G.
Qed.
Lemma alpha_sum : forall n, sum_f_R0 (fun k => alpha k * alpha (n - k)) n = 1.
Proof.
  intros n. pose proof (legendre_fourier n 0) as F. rewrite cos_0, P_at_1 in F. rewrite F. unfold fourier. apply sum_eq. intros k _. rewrite Rmult_0_r, cos_0. ring.
Qed.
(** sin(t) P_n(cos t) is a trigonometric polynomial of order n + 1 *)
Theorem band_legendre : forall n, band (INR n + 1) 1 (fun t => sin t * P n 0 (cos t)).
Proof.
  intros n. pose proof (pos_INR n) as N.
  apply band_ext with (fun t => sum_f_R0 (fun k => alpha k * alpha (n - k) * (/ 2 * sin ((INR n - 2 * INR k + 1) * t + 0) + / 2 * sin ((- (INR n - 2 * INR k - 1)) * t + 0))) n).
  - apply band_bound with (sum_f_R0 (fun k => alpha k * alpha (n - k)) n); [rewrite alpha_sum; lra | lra|]. apply band_sum. intros k Hk. split; [apply Rmult_le_pos; apply alpha_pos|]. pose proof (le_INR k n Hk). pose proof (pos_INR k).
    apply band_bound with (Rabs (/ 2) * 1 + Rabs (/ 2) * 1); [rewrite Rabs_pos_eq; lra | lra|].
    apply (band_add _ _ _ (fun t => / 2 * sin ((INR n - 2 * INR k + 1) * t + 0)) (fun t => / 2 * sin ((- (INR n - 2 * INR k - 1)) * t + 0))).
    + apply (band_scal _ _ _ (fun t => sin ((INR n - 2 * INR k + 1) * t + 0))). apply band_sin. apply Rabs_le. split; lra.
    + apply (band_scal _ _ _ (fun t => sin ((- (INR n - 2 * INR k - 1)) * t + 0))). apply band_sin. apply Rabs_le. split; lra.
  - intros t. rewrite legendre_fourier. unfold fourier. rewrite scal_sum. apply sum_eq. intros k _. rewrite !Rplus_0_r.
    replace (- (INR n - 2 * INR k - 1) * t) with (t - (INR n - 2 * INR k) * t) by ring. replace ((INR n - 2 * INR k + 1) * t) with (t + (INR n - 2 * INR k) * t) by ring. rewrite sin_plus, sin_minus. field.
Qed.
