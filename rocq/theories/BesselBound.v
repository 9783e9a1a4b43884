(** Bounds: when the backward recursion of Bessel.v cannot fail, and how far its result is from the true functions. *)
From Coq Require Import List Arith Lia Bool Reals Lra ZArith.
From Coquelicot Require Import Hierarchy Rcomplements Series Complex.
From Verif Require Import Matrix BesselSpec Bessel BesselFacts BesselRun.
Import ListNotations.
Open Scope R_scope.

(* ------------------------------------------------ when q cannot vanish *)
Lemma q_nonreal : forall z N, Im z <> 0 -> forall n, (n <= N)%nat -> q z N n <> RtoC 0.
Proof.
  intros z N Hi. assert (Nz: z <> RtoC 0) by (intro E; apply Hi; rewrite E; auto).
  assert (PM: 0 < Re z * Re z + Im z * Im z) by nra.
  set (s := fun m => Im (q z N (m + 1) * Cconj (q z N m))%C * Im z).
  assert (ST: forall m, (m + 1 <= N)%nat -> s m = (Re (q z N (m + 1)) * Re (q z N (m + 1)) + Im (q z N (m + 1)) * Im (q z N (m + 1))) * ((2 * INR (m + 1) + 1) * (Im z * Im z / (Re z * Re z + Im z * Im z))) + s (m + 1)%nat).
  { intros m Hm. unfold s. pose proof (q_rec z N m Hm) as R. rewrite R. replace (m + 1 + 1)%nat with (m + 2)%nat by lia.
    destruct (q z N (m + 1)) as [a b]. destruct (q z N (m + 2)) as [c d]. destruct z as [x y]. unfold Cinv, Cconj, Cmult, Cminus, Copp, Cplus, RtoC, Re, Im in *. cbn [fst snd] in *.
    field. lra. }
  assert (P: forall k, (k + 1 <= N)%nat -> 0 < s (N - 1 - k)%nat).
  { induction k as [|k IH]; intros Hk.
    - rewrite ST by lia. replace (N - 1 - 0 + 1)%nat with N by lia. destruct (q_top z N) as (T1 & T2).
      replace (s N) with 0 by (unfold s; rewrite T1; cbn; ring). rewrite T2. cbn [Re Im RtoC fst snd].
      pose proof (pos_INR N). assert (0 < Im z * Im z / (Re z * Re z + Im z * Im z)) by (apply Rdiv_lt_0_compat; nra). nra.
    - rewrite ST by lia. replace (N - 1 - S k + 1)%nat with (N - 1 - k)%nat by lia. specialize (IH ltac:(lia)).
      set (a := Re _ ) in *. set (b := Im (q z N (N - 1 - k))) in *. pose proof (pos_INR (N - 1 - k)).
      assert (0 < Im z * Im z / (Re z * Re z + Im z * Im z)) by (apply Rdiv_lt_0_compat; nra).
      assert (0 <= (Re (q z N (N - 1 - k)) * Re (q z N (N - 1 - k)) + b * b) * ((2 * INR (N - 1 - k) + 1) * (Im z * Im z / (Re z * Re z + Im z * Im z)))) by (apply Rmult_le_pos; nra).
      unfold a in *. lra. }
  intros n Hn. destruct (Nat.eq_dec n N) as [-> | NN].
  - rewrite (proj2 (q_top z N)). apply RtoC_nz. lra.
  - intro E. specialize (P (N - 1 - n)%nat ltac:(lia)). replace (N - 1 - (N - 1 - n))%nat with n in P by lia. unfold s in P. rewrite E in P.
    replace (Cconj (RtoC 0)) with (RtoC 0) in P by (unfold Cconj, RtoC; cbn [fst snd]; f_equal; ring). rewrite Cmult_0_r in P. cbn in P. lra.
Qed.
Lemma grow : forall z N (p : nat -> C) n, z <> RtoC 0 -> Cmod z <= 1 -> (1 <= N)%nat ->
  (p n + p (n + 2)%nat = RtoC (2 * INR (n + 1) + 1) * / z * p (n + 1)%nat)%C ->
  (Cmod (p n) <= Cmod (p (n + 1)%nat) -> 2 * INR (n + 1) / Cmod z * Cmod (p (n + 1)%nat) <= Cmod (p (n + 2)%nat)) /\
  (Cmod (p (n + 2)%nat) <= Cmod (p (n + 1)%nat) -> 2 * INR (n + 1) / Cmod z * Cmod (p (n + 1)%nat) <= Cmod (p n)).
Proof.
  intros z N p n Nz Hz HN E. pose proof (proj1 (Cmod_gt_0 z) Nz) as Pz. pose proof (pos_INR (n + 1)) as Pn.
  assert (M: (2 * INR (n + 1) + 1) / Cmod z * Cmod (p (n + 1)%nat) <= Cmod (p n) + Cmod (p (n + 2)%nat)).
  { eapply Rle_trans; [|apply Cmod_triangle]. rewrite E, !Cmod_mult, Cmod_R, Cmod_inv, Rabs_right by (auto || lra). right. unfold Rdiv. ring. }
  assert (1 <= / Cmod z) by (rewrite <- Rinv_1; apply Rinv_le_contravar; auto).
  pose proof (Cmod_ge_0 (p (n + 1)%nat)).
  replace ((2 * INR (n + 1) + 1) / Cmod z * Cmod (p (n + 1)%nat)) with (2 * INR (n + 1) / Cmod z * Cmod (p (n + 1)%nat) + / Cmod z * Cmod (p (n + 1)%nat)) in M by (field; lra).
  split; intros; nra.
Qed.
Lemma q_small : forall z N, z <> RtoC 0 -> Cmod z <= 1 -> forall n, (n <= N)%nat -> q z N n <> RtoC 0.
Proof.
  intros z N Nz Hz. pose proof (proj1 (Cmod_gt_0 z) Nz) as Pz.
  assert (P: forall k, (k <= N)%nat -> 1 <= Cmod (q z N (N - k)) /\ Cmod (q z N (N - k + 1)) <= Cmod (q z N (N - k))).
  { induction k as [|k IH]; intros Hk.
    - rewrite Nat.sub_0_r. destruct (q_top z N) as (-> & ->). rewrite Cmod_1, Cmod_0. lra.
    - destruct IH as (A & B); [lia|].
      pose proof (q_rec z N (N - S k) ltac:(lia)) as R.
      destruct (grow z 1 (q z N) (N - S k) Nz Hz (le_n _)) as (_ & Gr); [rewrite R; ring|].
      replace (N - S k + 2)%nat with (N - k + 1)%nat in Gr by lia. replace (N - S k + 1)%nat with (N - k)%nat in * by lia.
      specialize (Gr B).
      assert (1 <= INR (N - k)) by (apply (le_INR 1); lia).
      assert (1 <= / Cmod z) by (rewrite <- Rinv_1; apply Rinv_le_contravar; auto).
      assert (1 <= 2 * INR (N - k) / Cmod z) by (unfold Rdiv; nra). nra. }
  intros n Hn E. destruct (P (N - n)%nat ltac:(lia)) as (A & _). replace (N - (N - n))%nat with n in A by lia. rewrite E, Cmod_0 in A. lra.
Qed.

(* ------------------------------------------------ bounds of the series *)
Lemma G_near : forall c w b B, oddz c -> (forall k, Cmod w ^ (S k) * Rabs (ak c (S k)) <= b k) -> is_series b B -> Cmod (G c w - RtoC 1)%C <= B.
Proof.
  intros c w b B H Hb HB.
  assert (X: is_csum (fun k => cpow w (S k) * RtoC (ak c (S k)))%C (G c w - RtoC 1)%C).
  { pose proof (G_sum c w H) as (A1 & A2). split.
    - apply (is_series_incr_1 (fun k => Re (cpow w k * RtoC (ak c k))%C)). match goal with |- is_series _ ?v => replace v with (Re (G c w)); [exact A1|] end.
      unfold plus. cbn -[Rplus Ropp ak G]. unfold ak. cbn [fact steps INR]. unfold Re. field.
    - apply (is_series_incr_1 (fun k => Im (cpow w k * RtoC (ak c k))%C)). match goal with |- is_series _ ?v => replace v with (Im (G c w)); [exact A2|] end.
      unfold plus. cbn -[Rplus Ropp ak G]. unfold Im. ring. }
  eapply (is_csum_norm (fun k => cpow w (S k) * RtoC (ak c (S k)))%C b); auto.
  intros k. rewrite Cmod_mult, cpow_mod, Cmod_R. apply Hb.
Qed.
Lemma exp_tail : forall x, is_series (fun k => / INR (fact (S k)) * x ^ (S k)) (exp x - 1).
Proof.
  intros x. apply (is_series_incr_1 (fun k => / INR (fact k) * x ^ k)). match goal with |- is_series _ ?v => replace v with (exp x); [exact (exp_series x)|] end.
  unfold plus. cbn -[Rplus Ropp exp]. field.
Qed.
Lemma exp_nat : forall n, exp (INR n) <= 3 ^ n.
Proof.
  induction n; [cbn [INR pow]; rewrite exp_0; lra|]. rewrite S_INR, exp_plus. cbn [pow]. rewrite Rmult_comm.
  apply Rmult_le_compat; [left; apply exp_pos | left; apply exp_pos | apply exp_le_3 | auto].
Qed.
Lemma exp_half : exp (/ 2) <= 1733 / 1000.
Proof.
  assert (E: exp (/ 2) * exp (/ 2) <= 3) by (rewrite <- exp_plus; replace (/ 2 + / 2) with 1 by field; apply exp_le_3).
  pose proof (exp_pos (/ 2)). nra.
Qed.
Lemma arg_mod : forall z, Cmod (arg z) = Cmod z * Cmod z / 2.
Proof. intros z. unfold arg. rewrite !Cmod_mult, Cmod_R. rewrite Rabs_left by lra. field. Qed.
Lemma exp_le : forall x y, x <= y -> exp x <= exp y.
Proof. intros x y [H | ->]; [left; apply exp_increasing; auto | lra]. Qed.

Section Small.
Variable z : C.
Hypothesis Nz : z <> RtoC 0.
Hypothesis Hz : Cmod z <= 1.
Lemma arg_small : Cmod (arg z) <= / 2.
Proof. rewrite arg_mod. pose proof (Cmod_ge_0 z). nra. Qed.
Lemma G_upper : forall c, oddz c -> Cmod (G c (arg z)) <= 1733 / 1000.
Proof. intros c H. eapply Rle_trans; [apply G_norm; auto|]. eapply Rle_trans; [apply exp_le, arg_small | apply exp_half]. Qed.
Lemma G_lower : forall c, oddz c -> 267 / 1000 <= Cmod (G c (arg z)).
Proof.
  intros c H.
  assert (N: Cmod (G c (arg z) - RtoC 1)%C <= exp (/ 2) - 1).
  { apply (G_near c (arg z) (fun k => / INR (fact (S k)) * (/ 2) ^ (S k))); auto; [|apply exp_tail].
    intros k. rewrite Rmult_comm. apply Rmult_le_compat; [apply Rabs_pos | apply pow_le, Cmod_ge_0 | apply ak_abs; auto | apply pow_incr; split; [apply Cmod_ge_0 | apply arg_small]]. }
  pose proof exp_half.
  assert (T: Cmod (RtoC 1) <= Cmod (G c (arg z)) + Cmod (G c (arg z) - RtoC 1)%C).
  { replace (RtoC 1) with (G c (arg z) + - (G c (arg z) - RtoC 1))%C at 1 by ring. eapply Rle_trans; [apply Cmod_triangle|]. rewrite Cmod_opp. lra. }
  rewrite Cmod_1 in T. lra.
Qed.
(** j_{n+d} compared to j_n *)
Lemma J_ratio : forall n d, (1 <= n)%nat -> Cmod (J (n + d) z) <= 7 * Cmod (J n z) * (Cmod z / (2 * INR n)) ^ d.
Proof.
  intros n d Hn. unfold J. rewrite !Cmod_mult, !cpow_mod, !Cmod_R, !Rabs_right by (left; apply Rinv_0_lt_compat, oddfact_pos).
  pose proof (G_upper _ (odd_j (n + d))) as U. pose proof (G_lower _ (odd_j n)) as L. pose proof (Cmod_ge_0 z) as Pz.
  assert (Pn: 1 <= INR n) by (apply (le_INR 1); auto).
  assert (F: / oddfact (n + d + 1) <= / oddfact (n + 1) * (/ (2 * INR n)) ^ d).
  { clear U. induction d as [|d IH]; [cbn [pow]; rewrite Nat.add_0_r; lra|].
    replace (n + S d + 1)%nat with (S (n + d + 1)) by lia. rewrite oddfact_S. pose proof (oddfact_pos (n + d + 1)) as O.
    assert (X: 2 * INR n <= 2 * INR (n + d + 1) + 1) by (rewrite !plus_INR; pose proof (pos_INR d); cbn [INR]; lra).
    rewrite Rinv_mult. cbn [pow]. rewrite <- Rmult_assoc, (Rmult_comm _ (/ (2 * INR n))), Rmult_assoc.
    apply Rmult_le_compat; [left; apply Rinv_0_lt_compat; lra | left; apply Rinv_0_lt_compat; auto | apply Rinv_le_contravar; lra | exact IH]. }
  pose proof (oddfact_pos (n + 1)) as O1.
  set (g := Cmod (G (2 * INR (n + d) + 1) (arg z))) in *. set (g' := Cmod (G (2 * INR n + 1) (arg z))) in *.
  unfold Rdiv. rewrite Rpow_mult_distr, pow_add.
  assert (0 <= Cmod z ^ n) by (apply pow_le; auto). assert (0 <= Cmod z ^ d) by (apply pow_le; auto).
  assert (0 <= g) by apply Cmod_ge_0.
  assert (0 < / oddfact (n + 1)) by (apply Rinv_0_lt_compat; auto).
  assert (0 <= (/ (2 * INR n)) ^ d) by (apply pow_le; left; apply Rinv_0_lt_compat; lra).
  set (P := Cmod z ^ n) in *. set (D := Cmod z ^ d) in *. set (o := / oddfact (n + 1)) in *. set (v := (/ (2 * INR n)) ^ d) in *.
  apply Rle_trans with (P * D * (o * v) * (7 * g')).
  - apply Rmult_le_compat; [apply Rmult_le_pos; [nra|] | auto | apply Rmult_le_compat_l; [nra | exact F] | lra].
    left. apply Rinv_0_lt_compat. apply oddfact_pos.
  - right. ring.
Qed.
Lemma p_ratio : forall N p, p 0%nat = RtoC 0 -> p 1%nat = RtoC 1 ->
  (forall n, (n + 1 <= N)%nat -> (p n + p (n + 2)%nat = RtoC (2 * INR n + 3) * / z * p (n + 1)%nat)%C) ->
  forall n d, (1 <= n)%nat -> (n + d <= N + 1)%nat -> Cmod (p n) <= Cmod (p (n + d)%nat) * (Cmod z / (2 * INR n)) ^ d.
Proof.
  intros N p P0 P1 H n d Hn Hd. pose proof (proj1 (Cmod_gt_0 z) Nz) as Pz. assert (1 <= / Cmod z) by (rewrite <- Rinv_1; apply Rinv_le_contravar; auto).
  assert (S1: forall m, (m + 1 <= N)%nat -> Cmod (p m) <= Cmod (p (m + 1)%nat) /\ 2 * INR (m + 1) / Cmod z * Cmod (p (m + 1)%nat) <= Cmod (p (m + 2)%nat)).
  { induction m as [|m IH]; intros Hm.
    - assert (A: Cmod (p 0%nat) <= Cmod (p (0 + 1)%nat)) by (cbn [Nat.add]; rewrite P0, P1, Cmod_0, Cmod_1; lra).
      split; auto. apply (grow z 1); auto. rewrite H by lia. do 2 f_equal. rewrite plus_INR. cbn [INR]. f_equal. ring.
    - destruct IH as (A & B); [lia|].
      assert (A': Cmod (p (S m)) <= Cmod (p (S m + 1)%nat)).
      { replace (S m) with (m + 1)%nat by lia. replace (m + 1 + 1)%nat with (m + 2)%nat by lia. eapply Rle_trans; [|exact B].
        assert (1 <= INR (m + 1)) by (apply (le_INR 1); lia). pose proof (Cmod_ge_0 (p (m + 1)%nat)). assert (1 <= 2 * INR (m + 1) / Cmod z) by (unfold Rdiv; nra). nra. }
      split; auto. apply (grow z 1); auto. rewrite H by lia. do 2 f_equal. rewrite plus_INR. cbn [INR]. f_equal. ring. }
  assert (Pn: 1 <= INR n) by (apply (le_INR 1); auto).
  induction d as [|d IH]; [rewrite Nat.add_0_r; cbn [pow]; lra|].
  eapply Rle_trans; [apply IH; lia|]. cbn [pow]. rewrite <- Rmult_assoc. apply Rmult_le_compat_r; [apply pow_le; left; apply Rdiv_lt_0_compat; lra|].
  destruct (S1 (n + d - 1)%nat ltac:(lia)) as (_ & B). replace (n + d - 1 + 1)%nat with (n + d)%nat in B by lia. replace (n + d - 1 + 2)%nat with (n + S d)%nat in B by lia.
  assert (2 * INR n / Cmod z * Cmod (p (n + d)%nat) <= Cmod (p (n + S d)%nat)).
  { eapply Rle_trans; [|exact B]. apply Rmult_le_compat_r; [apply Cmod_ge_0|]. unfold Rdiv. apply Rmult_le_compat_r; [lra|].
    rewrite plus_INR. pose proof (pos_INR d). lra. }
  apply Rle_trans with (2 * INR n / Cmod z * Cmod (p (n + d)%nat) * (Cmod z / (2 * INR n))); [right; field; lra|].
  apply Rmult_le_compat_r; auto. left. apply Rdiv_lt_0_compat; lra.
Qed.
End Small.

(** the solution that starts from 0 and 1 exists *)
Fixpoint fore (z : C) (k : nat) : C * C :=
  match k with O => (RtoC 0, RtoC 1) | S k => let '(a, b) := fore z k in (b, RtoC (2 * INR k + 3) * / z * b - a)%C end.
Lemma fore_ok : forall z, let p := fun n => fst (fore z n) in p 0%nat = RtoC 0 /\ p 1%nat = RtoC 1 /\
  forall n, (p n + p (n + 2)%nat = RtoC (2 * INR n + 3) * / z * p (n + 1)%nat)%C.
Proof.
  intros z p. unfold p. split; auto. split; auto. intros n. replace (n + 2)%nat with (S (S n)) by lia. replace (n + 1)%nat with (S n) by lia.
  cbn [fore]. destruct (fore z n) as (a, b). cbn [fst]. ring.
Qed.
