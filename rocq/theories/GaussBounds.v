(** Bounds on Legendre polynomials and on the points and weights of exact Gauss-Legendre rules. Used by Props_average.v. *)
From Coq Require Import List Arith Lia Bool ZArith Reals Lra Psatz.
From Coquelicot Require Import Coquelicot.
From Verif Require Import Legendre Quadrature GaussExact Props_quad GaussRoots Wigner Ortho.
Import ListNotations.
Local Open Scope R_scope.

(** |P_n| <= 1 on [-1, 1]: P_n^2 + (1 - x^2) P_n'^2 / (n (n+1)) grows on [0, 1] and is 1 at 1 *)
Lemma P_bound_pos : forall n x, 0 <= x <= 1 -> P n 0 x * P n 0 x <= 1.
Proof.
  intros n x Hx. destruct n as [|n]; [rewrite P_0_0; lra|]. set (N := INR (S n) * (INR (S n) + 1)). assert (NP: 0 < N) by (unfold N; pose proof (pos_INR n); rewrite S_INR; nra).
  set (f := fun x => P (S n) 0 x * P (S n) 0 x + / N * ((1 - x * x) * (P (S n) 1 x * P (S n) 1 x))).
  assert (D: forall y, derivable_pt_lim f y (2 * y / N * (P (S n) 1 y * P (S n) 1 y))).
  { intros y. unfold f. eapply deriv_eq.
    - apply (derivable_pt_lim_plus (fun x => P (S n) 0 x * P (S n) 0 x) (fun x => / N * ((1 - x * x) * (P (S n) 1 x * P (S n) 1 x)))).
      + apply (deriv_mult (P (S n) 0) (P (S n) 0)); apply P_derivative.
      + apply (derivable_pt_lim_scal (fun x => (1 - x * x) * (P (S n) 1 x * P (S n) 1 x))). apply (deriv_mult (fun x => 1 - x * x)).
        * apply (deriv_minus (fun _ => 1) (fun x => x * x)); [apply derivable_pt_lim_const|]. apply (deriv_mult (fun x => x) (fun x => x)); apply derivable_pt_lim_id.
        * apply (deriv_mult (P (S n) 1) (P (S n) 1)); apply P_derivative.
    - pose proof (associated (S n) 0 y) as A. fold N in A. cbn [INR] in A. set (p0 := P (S n) 0 y) in *. set (p1 := P (S n) 1 y) in *. set (p2 := P (S n) 2 y) in *.
      assert (E: (1 - y * y) * p2 = 2 * y * p1 - N * p0) by lra.
      cbv beta. match goal with |- ?a = ?b => change (@eq R a b) end. fold p0 p1 p2.
      transitivity (2 * p0 * p1 + / N * (- (2 * y) * (p1 * p1) + 2 * p1 * ((1 - y * y) * p2))).
      { ring. } rewrite E. field. lra. }
  assert (F1: f 1 = 1) by (unfold f; rewrite P_at_1; ring).
  assert (M: f x <= f 1).
  { destruct (Req_dec x 1) as [ -> | NE]; [lra|]. destruct (MVT_cor2 f _ x 1 ltac:(lra) (fun c _ => D c)) as (c & E & C). cbv beta in E.
    assert (0 <= 2 * c / N * (P (S n) 1 c * P (S n) 1 c)). { apply Rmult_le_pos; [|nra]. unfold Rdiv. apply Rmult_le_pos; [lra|]. left. apply Rinv_0_lt_compat. auto. }
    nra. }
  rewrite F1 in M. unfold f in M. assert (0 <= / N * ((1 - x * x) * (P (S n) 1 x * P (S n) 1 x))). { apply Rmult_le_pos; [left; apply Rinv_0_lt_compat; auto|]. apply Rmult_le_pos; nra. }
  lra.
Qed.
Theorem P_bound : forall n x, -1 <= x <= 1 -> Rabs (P n 0 x) <= 1.
Proof.
  assert (S: forall a, a * a <= 1 -> Rabs a <= 1) by (intros a H; apply Rabs_le; nra).
  intros n x Hx. destruct (Rle_lt_dec 0 x) as [H|H]; [apply S; apply P_bound_pos; lra|].
  replace x with (- - x) by ring. rewrite P_parity. rewrite Rabs_mult. replace (Rabs ((-1) ^ (n + 0))) with 1 by (rewrite <- RPow_abs, Rabs_left by lra; replace (- (-1)) with 1 by ring; rewrite pow1; reflexivity).
  rewrite Rmult_1_l. apply S. apply P_bound_pos. lra.
Qed.
Theorem P'_bound : forall n x, -1 <= x <= 1 -> Rabs (P n 1 x) <= INR n * (INR n + 1) / 2.
Proof.
  intros n x Hx. assert (G: forall n, Rabs (P n 1 x) <= INR n * (INR n + 1) / 2 /\ Rabs (P (S n) 1 x) <= INR (S n) * (INR (S n) + 1) / 2).
  { clear n. induction n as [|n (A & B)].
    - split; [rewrite P_0_S, Rabs_R0; cbn [INR]; lra|]. replace (P 1 1 x) with 1; [rewrite Rabs_R1; cbn [INR]; lra|]. rewrite P_up, P_0_S, P_0_0. cbn [INR Nat.add]. ring.
    - split; auto. rewrite P_step. eapply Rle_trans; [apply Rabs_triang|]. pose proof (P_bound (S n) x Hx) as Q. pose proof (pos_INR n) as Hn. rewrite Rabs_mult, (Rabs_pos_eq (2 * INR (S n) + 1)) by (rewrite S_INR; lra).
      rewrite !S_INR in *. nra. }
  apply G.
Qed.
(** no root is closer to the ends than 2 / (n (n+1)) *)
Theorem root_distance : forall n x, -1 < x < 1 -> P n 0 x = 0 -> 2 / (INR n * (INR n + 1)) <= 1 - Rabs x.
Proof.
  assert (G: forall n x, -1 < x < 1 -> P n 0 x = 0 -> 2 / (INR n * (INR n + 1)) <= 1 - x).
  { intros n x Hx Z. destruct n as [|n]; [rewrite P_0_0 in Z; lra|].
    destruct (MVT_cor2 (P (S n) 0) (P (S n) 1) x 1 ltac:(lra)) as (c & E & C); [intros; apply P_derivative|]. rewrite P_at_1, Z in E.
    pose proof (P'_bound (S n) c ltac:(lra)) as B. apply Rabs_le_between in B. set (q := INR (S n) * (INR (S n) + 1)) in *. assert (0 < q) by (unfold q; pose proof (pos_INR n); rewrite S_INR; nra).
    apply Rmult_le_reg_l with q; auto. replace (q * (2 / q)) with 2 by (field; lra). nra. }
  intros n x Hx Z. destruct (Rle_lt_dec 0 x) as [H|H]; [rewrite Rabs_pos_eq by auto; apply G; auto|]. rewrite Rabs_left by auto. apply G; [lra|]. apply parity_root. auto.
Qed.
(** the exact Gauss-Legendre rule on [a, b]: the points are the n roots of P_n, mapped to [a, b] *)
Definition gauss_rule (n : nat) (a b : R) (x w : nat -> R) : Prop := exists r : nat -> R,
  (forall i, (i < n)%nat -> P n 0 (r i) = 0 /\ x i = (b - a) / 2 * r i + (a + b) / 2 /\ w i = (b - a) / 2 * (2 / ((1 - r i * r i) * (P n 1 (r i) * P n 1 (r i))))) /\
  (forall i j, (i < j < n)%nat -> r i <> r j).
Lemma gauss_rule_facts : forall n a b x w, (1 <= n)%nat -> a <= b -> gauss_rule n a b x w ->
  (forall p, (length p <= 2 * n)%nat -> is_RInt (eval p) a b (quad n x w (eval p))) /\ (forall i, (i < n)%nat -> a <= x i <= b /\ 0 <= w i).
Proof.
  intros n a b x w Hn Hab (r & HR & HD). destruct n as [|n]; [lia|].
  assert (RT: forall i, (i < S n)%nat -> -1 < r i < 1).
  { intros i Hi. destruct (legendre_roots (S n)) as (l & _ & _ & I & A). destruct (HR i Hi) as (Z & _). apply I. apply A; auto. }
  split.
  - assert (E0: forall p, (length p <= 2 * S n)%nat -> is_RInt (eval p) (-1) 1 (quad (S n) r (fun i => gauss_weight (S n) (r i)) (eval p))).
    { intros q Lq. rewrite (quad_lsum (S n) r (fun i => gauss_weight (S n) (r i)) (eval q) (gauss_weight (S n))) by auto.
      apply gauss_exact; auto.
      - rewrite map_length, seq_length. reflexivity.
      - assert (ND: forall k i, (i + k <= S n)%nat -> NoDup (map r (seq i k))).
        { induction k; intros i Hi; cbn [seq map]; constructor; [|apply IHk; lia]. intros C. apply in_map_iff in C. destruct C as (j & Q & I). apply in_seq in I. apply (HD i j ltac:(lia)). auto. }
        apply ND. lia.
      - intros y Hy. apply in_map_iff in Hy. destruct Hy as (j & <- & I). apply in_seq in I. apply HR. lia. }
    intros p L. apply (C32_exactness_carries_over (S n) r (fun i => gauss_weight (S n) (r i)) (2 * S n) a b); auto.
    intros i Hi. destruct (HR i Hi) as (_ & A & B). split; auto.
  - intros i Hi. destruct (HR i Hi) as (_ & A & B). pose proof (RT i Hi) as C. rewrite A, B. split; [nra|]. apply Rmult_le_pos; [lra|].
    unfold Rdiv. apply Rmult_le_pos; [lra|]. destruct (Req_dec ((1 - r i * r i) * (P (S n) 1 (r i) * P (S n) 1 (r i))) 0) as [Q|Q]; [rewrite Q, Rinv_0; lra|].
    left. apply Rinv_0_lt_compat. assert (0 <= (1 - r i * r i) * (P (S n) 1 (r i) * P (S n) 1 (r i))); [|lra]. apply Rmult_le_pos; nra.
Qed.
Theorem gauss_rule_exists : forall n a b, exists x w, gauss_rule n a b x w.
Proof.
  intros n a b. destruct (legendre_roots n) as (l & L & ND & I & _). exists (fun i => (b - a) / 2 * nth i l 0 + (a + b) / 2), (fun i => (b - a) / 2 * (2 / ((1 - nth i l 0 * nth i l 0) * (P n 1 (nth i l 0) * P n 1 (nth i l 0))))).
  exists (fun i => nth i l 0). split.
  - intros i Hi. split; [|auto]. apply I. apply nth_In. lia.
  - intros i j H E. apply (NoDup_nth l 0) in E; auto; lia.
Qed.
