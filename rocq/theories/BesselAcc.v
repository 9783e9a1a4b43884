(** Accuracy of the backward recursion of Bessel.v for arguments up to 20 in absolute value. *)
From Coq Require Import List Arith Lia Bool Reals Lra ZArith.
From Coquelicot Require Import Hierarchy Rcomplements Series Complex.
From Verif Require Import Matrix BesselSpec Bessel BesselFacts BesselRun BesselBound.
Import ListNotations.
Open Scope R_scope.

Fixpoint oddZ (n : nat) : Z := match n with O => 1%Z | S n => ((2 * Z.of_nat n + 1) * oddZ n)%Z end.
Lemma oddfact_Z : forall n, oddfact n = IZR (oddZ n).
Proof. induction n; [auto|]. rewrite oddfact_S, IHn. cbn [oddZ]. rewrite mult_IZR, plus_IZR, mult_IZR, <- INR_IZR_INZ. auto. Qed.
Lemma INR_801 : INR 801 = 801.
Proof. rewrite INR_IZR_INZ. reflexivity. Qed.
Lemma oddfact_mono : forall n m, (n <= m)%nat -> oddfact n <= oddfact m.
Proof.
  intros n m H. induction H as [|m H IH]; [lra|]. rewrite oddfact_S. pose proof (oddfact_pos m). pose proof (pos_INR m). nra.
Qed.
Lemma oddfact_ge1 : forall n, 1 <= oddfact n.
Proof. intros n. exact (oddfact_mono 0 n (Nat.le_0_l n)). Qed.

Lemma steps_big : forall k, 803 ^ (Nat.min k 400) <= Rabs (steps (- 2 * INR 801 - 1) k).
Proof.
  rewrite INR_801. replace (- 2 * 801 - 1) with (-1603) by ring.
  induction k as [|k IH]; [cbn [Nat.min pow steps]; rewrite Rabs_R1; lra|]. rewrite steps_S, Rabs_mult.
  destruct (Nat.le_gt_cases (S k) 400) as [L | L].
  - replace (Nat.min (S k) 400) with (S (Nat.min k 400)) by lia. cbn [pow]. rewrite Rmult_comm. apply Rmult_le_compat; auto; [apply pow_le; lra | lra |].
    assert (INR (S k) <= 400) by (replace 400 with (INR 400) by (rewrite INR_IZR_INZ; reflexivity); apply le_INR; auto).
    rewrite Rabs_left by lra. lra.
  - replace (Nat.min (S k) 400) with (Nat.min k 400) by lia. rewrite <- (Rmult_1_r (803 ^ _)). apply Rmult_le_compat; auto; [apply pow_le; lra | lra |].
    apply odd_abs. apply (odd_add (-1603) (S k)). exists (-802)%Z. reflexivity.
Qed.
Lemma exp_quarter : exp (/ 4) <= 1317 / 1000.
Proof.
  assert (E: (exp (/ 4) * exp (/ 4)) * (exp (/ 4) * exp (/ 4)) <= 3) by (rewrite <- !exp_plus; replace (/ 4 + / 4 + (/ 4 + / 4)) with 1 by field; apply exp_le_3).
  pose proof (exp_pos (/ 4)). assert (exp (/ 4) * exp (/ 4) <= 17331 / 10000) by nra. nra.
Qed.
Lemma pow_IZR' : forall a n, IZR a ^ n = IZR (a ^ Z.of_nat n).
Proof. intros. rewrite pow_IZR. auto. Qed.
Lemma tiny_ratio : 3 ^ 200 * 1000 <= 803 ^ 400.
Proof.
  replace 400%nat with (200 + (2 + 198))%nat by lia. rewrite !pow_add.
  assert (A: 3 ^ 200 <= 803 ^ 200) by (apply pow_incr; lra). assert (B: 1 <= 803 ^ 198) by (apply pow_R1_Rle; lra).
  assert (C: 0 < 3 ^ 200) by (apply pow_lt; lra). set (a := 3 ^ 200) in *. set (b := 803 ^ 200) in *. set (c := 803 ^ 198) in *. clearbody a b c. nra.
Qed.
Lemma exp_200 : exp 200 <= 3 ^ 200.
Proof. replace 200 with (INR 200) at 1 by (rewrite INR_IZR_INZ; reflexivity). apply exp_nat. Qed.
Lemma G_801_lower : forall w, Cmod w <= 200 -> / 2 <= Cmod (G (- 2 * INR 801 - 1) w).
Proof.
  intros w Hw. pose proof tiny_ratio as TR0. pose proof steps_big as SB0. pose proof exp_200 as E200. set (E := 3 ^ 200) in *.
  assert (P803: 0 < 803 ^ 400) by (apply pow_lt; lra).
  set (c := - 2 * INR 801 - 1) in *. assert (Oc: oddz c) by (apply (odd_y 801)).
  set (big := 803 ^ 400) in *. set (b := fun k => / INR (fact (S k)) * (/ 4) ^ (S k) + / big * (/ INR (fact (S k)) * 200 ^ (S k))).
  assert (HB: is_series b ((exp (/ 4) - 1) + / big * (exp 200 - 1))).
  { exact (is_series_plus _ _ _ _ (exp_tail (/ 4)) (is_series_scal (/ big) _ _ (exp_tail 200))). }
  assert (N: Cmod (G c w - RtoC 1)%C <= (exp (/ 4) - 1) + / big * (exp 200 - 1)).
  { apply (G_near c w b); auto. intros k. unfold b, ak.
    pose proof (SB0 (S k)) as SB. set (K := S k) in *. pose proof (INR_fact_lt_0 K) as F.
    assert (PS: 0 < 803 ^ Nat.min K 400) by (apply pow_lt; lra).
    rewrite Rabs_inv, Rabs_mult, (Rabs_right (INR (fact K))), Rinv_mult by lra.
    assert (IF: 0 < / INR (fact K)) by (apply Rinv_0_lt_compat; auto).
    assert (Wk: Cmod w ^ K <= 200 ^ K) by (apply pow_incr; split; [apply Cmod_ge_0 | auto]).
    assert (I1: / Rabs (steps c K) <= / 803 ^ Nat.min K 400) by (apply Rinv_le_contravar; auto).
    assert (0 < / Rabs (steps c K)) by (apply Rinv_0_lt_compat; pose proof (steps_abs c K Oc); lra).
    assert (0 <= Cmod w ^ K) by (apply pow_le, Cmod_ge_0).
    assert (0 <= (/ 4) ^ K) by (apply pow_le; lra). assert (0 < 200 ^ K) by (apply pow_lt; lra). assert (0 < / big) by (apply Rinv_0_lt_compat; auto).
    assert (X: Cmod w ^ K * / Rabs (steps c K) <= (/ 4) ^ K + / big * 200 ^ K).
    { destruct (Nat.le_gt_cases K 400) as [L | L].
      - replace (Nat.min K 400) with K in I1 by lia.
        assert (Cmod w ^ K * / Rabs (steps c K) <= (/ 4) ^ K); [|nra].
        eapply Rle_trans; [apply Rmult_le_compat; [auto | lra | exact Wk | exact I1]|].
        rewrite <- pow_inv, <- Rpow_mult_distr. apply pow_incr. lra.
      - replace (Nat.min K 400) with 400%nat in I1 by lia. fold big in I1.
        assert (Cmod w ^ K * / Rabs (steps c K) <= / big * 200 ^ K); [|lra].
        rewrite (Rmult_comm (/ big)). apply Rmult_le_compat; auto; lra. }
    replace (Cmod w ^ K * (/ INR (fact K) * / Rabs (steps c K))) with (/ INR (fact K) * (Cmod w ^ K * / Rabs (steps c K))) by ring.
    replace (/ INR (fact K) * (/ 4) ^ K + / big * (/ INR (fact K) * 200 ^ K)) with (/ INR (fact K) * ((/ 4) ^ K + / big * 200 ^ K)) by ring.
    apply Rmult_le_compat_l; lra. }
  pose proof exp_quarter as EQ.
  assert (TR: / big * (exp 200 - 1) <= / 1000).
  { apply (Rmult_le_reg_l (big)); auto. rewrite <- Rmult_assoc, Rinv_r by lra. lra. }
  assert (T: Cmod (RtoC 1) <= Cmod (G c w) + Cmod (G c w - RtoC 1)%C).
  { replace (RtoC 1) with (G c w + - (G c w - RtoC 1))%C at 1 by ring. eapply Rle_trans; [apply Cmod_triangle|]. rewrite Cmod_opp. lra. }
  rewrite Cmod_1 in T. lra.
Qed.

(** The inequality of integers behind the final bound, by comparison with powers of 2^20: small computations only. *)
Notation T := (2 ^ 20).
Ltac ints := rewrite !pow_IZR'; apply IZR_le; vm_compute; discriminate.
Lemma T_pos : 0 < T. Proof. apply pow_lt. lra. Qed.
Lemma pow_le_pow : forall a b n m k, 0 <= a -> a ^ n <= b ^ m -> a ^ (n * k) <= b ^ (m * k).
Proof. intros a b n m k P H. rewrite !pow_mult. apply pow_incr. split; auto. apply pow_le; auto. Qed.
Lemma e3 : 3 ^ 200 <= T ^ 16. Proof. ints. Qed.
Lemma e10 : 10 ^ 100 <= T ^ 17. Proof. ints. Qed.
Lemma e1000 : 10 ^ 1000 <= T ^ 170.
Proof.
  assert (H: 10 ^ 60 <= T ^ 10) by ints. pose proof (pow_le_pow 10 T 60 10 17 ltac:(lra) H) as H1. change (10 * 17)%nat with 170%nat in H1.
  eapply Rle_trans; [|exact H1]. apply Rle_pow; [lra|]. change (60 * 17)%nat with 1020%nat. lia.
Qed.
Lemma e2002 : 20 ^ 2002 <= T ^ 434.
Proof.
  assert (H: 20 ^ 143 <= T ^ 31) by ints. pose proof (pow_le_pow 20 T 143 31 14 ltac:(lra) H) as H1. change (31 * 14)%nat with 434%nat in H1. change (143 * 14)%nat with 2002%nat in H1. exact H1.
Qed.
Lemma e1602 : 20 ^ 1602 <= T ^ 348.
Proof.
  assert (H: 20 ^ 60 <= T ^ 13) by ints. pose proof (pow_le_pow 20 T 60 13 26 ltac:(lra) H) as H1. change (13 * 26)%nat with 338%nat in H1. change (60 * 26)%nat with 1560%nat in H1.
  replace 1602%nat with (1560 + 42)%nat by lia. replace 348%nat with (338 + 10)%nat by lia. rewrite !pow_add.
  apply Rmult_le_compat; [apply pow_le; lra | apply pow_le; lra | exact H1 |]. ints.
Qed.
Lemma oddfact_block : forall n d, (2 * INR n + 1) ^ d * oddfact n <= oddfact (n + d).
Proof.
  intros n d. induction d as [|d IH]; [rewrite Nat.add_0_r; cbn [pow]; lra|]. replace (n + S d)%nat with (S (n + d)) by lia. rewrite oddfact_S. cbn [pow]. rewrite Rmult_assoc.
  pose proof (oddfact_pos n). pose proof (pos_INR n). pose proof (pos_INR d). apply Rmult_le_compat; [lra | apply Rmult_le_pos; [apply pow_le; lra | lra] | rewrite plus_INR; lra | exact IH].
Qed.
Lemma block : forall n d c k a b, (n + d)%nat = c -> IZR k = 2 * INR n + 1 -> T ^ a <= oddfact n -> T ^ b <= IZR k ^ d -> T ^ (a + b) <= oddfact c.
Proof.
  intros n d c k a b <- E A B. eapply Rle_trans; [|apply oddfact_block]. rewrite <- E, pow_add, Rmult_comm. pose proof T_pos. apply Rmult_le_compat; auto; apply pow_le; lra.
Qed.
Ltac nums := rewrite INR_IZR_INZ, <- mult_IZR, <- plus_IZR; reflexivity.
Lemma o20 : T ^ 2 <= oddfact 20.
Proof. refine (block 5 15 20 11 0 2 eq_refl _ _ _); [nums | apply oddfact_ge1 | ints]. Qed.
Lemma o50 : T ^ 10 <= oddfact 50.
Proof. refine (block 20 30 50 41 2 8 eq_refl _ o20 _); [nums | ints]. Qed.
Lemma o100 : T ^ 26 <= oddfact 100.
Proof. refine (block 50 50 100 101 10 16 eq_refl _ o50 _); [nums | ints]. Qed.
Lemma o200 : T ^ 64 <= oddfact 200.
Proof. refine (block 100 100 200 201 26 38 eq_refl _ o100 _); [nums | ints]. Qed.
Lemma o300 : T ^ 107 <= oddfact 300.
Proof. refine (block 200 100 300 401 64 43 eq_refl _ o200 _); [nums | ints]. Qed.
Lemma o400 : T ^ 153 <= oddfact 400.
Proof. refine (block 300 100 400 601 107 46 eq_refl _ o300 _); [nums | ints]. Qed.
(** the part above 400 *)
Lemma block2 : forall n d c k a b, (n + d)%nat = c -> IZR k = 2 * INR n + 1 -> T ^ a * oddfact 400 <= oddfact n -> T ^ b <= IZR k ^ d -> T ^ (a + b) * oddfact 400 <= oddfact c.
Proof.
  intros n d c k a b <- E A B. eapply Rle_trans; [|apply oddfact_block]. rewrite <- E, pow_add, (Rmult_comm (T ^ a)), Rmult_assoc. pose proof T_pos. pose proof (oddfact_pos 400).
  apply Rmult_le_compat; auto; [apply pow_le; lra|]. apply Rmult_le_pos; [apply pow_le; lra | lra].
Qed.
Lemma o500 : T ^ 48 * oddfact 400 <= oddfact 500.
Proof. refine (block2 400 100 500 801 0 48 eq_refl _ _ _); [nums | cbn [pow]; lra | ints]. Qed.
Lemma o600 : T ^ 97 * oddfact 400 <= oddfact 600.
Proof. refine (block2 500 100 600 1001 48 49 eq_refl _ o500 _); [nums | ints]. Qed.
Lemma o700 : T ^ 148 * oddfact 400 <= oddfact 700.
Proof. refine (block2 600 100 700 1201 97 51 eq_refl _ o600 _); [nums | ints]. Qed.
Lemma o801 : T ^ 200 * oddfact 400 <= oddfact 801.
Proof. refine (block2 700 101 801 1401 148 52 eq_refl _ o700 _); [nums | ints]. Qed.
Lemma o801_all : T ^ 353 <= oddfact 801.
Proof.
  eapply Rle_trans; [|exact o801]. replace 353%nat with (200 + 153)%nat by lia. rewrite pow_add. apply Rmult_le_compat_l; [apply pow_le; pose proof T_pos; lra | exact o400].
Qed.
Lemma o802 : T ^ 353 <= oddfact 802.
Proof. eapply Rle_trans; [exact o801_all | apply oddfact_mono; lia]. Qed.
Lemma Tmono : forall n m, (n <= m)%nat -> T ^ n <= T ^ m.
Proof. intros. apply Rle_pow; auto. apply pow_R1_Rle. lra. Qed.
Ltac pos := repeat match goal with H : 0 <= ?x |- 0 <= ?x => exact H | |- 0 <= _ ^ _ => apply pow_le; pose proof T_pos; lra | |- 0 <= oddfact _ => left; apply oddfact_pos | |- 0 <= _ * _ => apply Rmult_le_pos | |- 0 <= _ + _ => apply Rplus_le_le_0_compat | |- 0 <= _ => lra end.
Ltac mul := match goal with |- _ * _ <= _ * _ => apply Rmult_le_compat; [pos | pos | mul | mul] | |- oddfact 400 <= oddfact 400 => apply Rle_refl | |- _ => assumption end.
Lemma T4 : 4 <= T. Proof. rewrite pow_IZR'. apply IZR_le. vm_compute. discriminate. Qed.
Lemma T2 : 2 <= T. Proof. pose proof T4. lra. Qed.
Lemma integers : 4 * 3 ^ 200 * (20 ^ 2002 * (3 ^ 200 * 3 ^ 200) * 10 ^ 100 + oddfact 400 * 3 ^ 200 * 20 ^ 1602) * 10 ^ 1000 <= oddfact 801 * oddfact 802.
Proof.
  pose proof T_pos as PT. pose proof e3 as E3. pose proof e10 as E10. pose proof e1000 as E1000. pose proof e2002 as E2002. pose proof e1602 as E1602. pose proof T4 as F4.
  pose proof (oddfact_pos 400) as O4. pose proof (oddfact_pos 801) as O8.
  assert (P3: 0 <= 3 ^ 200) by pos. assert (P10: 0 <= 10 ^ 100) by pos. assert (P1000: 0 <= 10 ^ 1000) by pos. assert (P2002: 0 <= 20 ^ 2002) by pos. assert (P1602: 0 <= 20 ^ 1602) by pos.
  set (a := 3 ^ 200) in *. set (b := 20 ^ 2002) in *. set (c := 10 ^ 100) in *. set (d := 20 ^ 1602) in *. set (f := 10 ^ 1000) in *. clearbody a b c d f.
  assert (U: 4 * a * (b * (a * a) * c) * f <= T ^ 670).
  { replace (T ^ 670) with (T * T ^ 16 * (T ^ 434 * (T ^ 16 * T ^ 16) * T ^ 17) * T ^ 170).
    - mul.
    - replace 670%nat with (1 + 16 + (434 + (16 + 16) + 17) + 170)%nat by lia. rewrite !(pow_add T), pow_1. ring. }
  assert (V: 4 * a * (oddfact 400 * a * d) * f <= T ^ 551 * oddfact 400).
  { replace (T ^ 551 * oddfact 400) with (T * T ^ 16 * (oddfact 400 * T ^ 16 * T ^ 348) * T ^ 170).
    - mul.
    - replace 551%nat with (1 + 16 + (16 + 348) + 170)%nat by lia. rewrite !(pow_add T), pow_1. ring. }
  assert (U2: 2 * T ^ 670 <= oddfact 801 * oddfact 802).
  { apply Rle_trans with (T * T ^ 670); [apply Rmult_le_compat_r; [pos | exact T2]|]. apply Rle_trans with (T ^ 353 * T ^ 353).
    - rewrite <- pow_add. change (T * T ^ 670) with (T ^ (S 670)). apply Tmono. lia.
    - apply Rmult_le_compat; [pos | pos | exact o801_all | exact o802]. }
  assert (V2: 2 * (T ^ 551 * oddfact 400) <= oddfact 801 * oddfact 802).
  { apply Rle_trans with (T * (T ^ 551 * oddfact 400)); [apply Rmult_le_compat_r; [pos | exact T2]|]. apply Rle_trans with ((T ^ 200 * oddfact 400) * T ^ 353).
    - replace (T ^ 200 * oddfact 400 * T ^ 353) with (T ^ 200 * T ^ 353 * oddfact 400) by ring. rewrite <- pow_add, <- Rmult_assoc. apply Rmult_le_compat_r; [lra|].
      change (T * T ^ 551) with (T ^ (S 551)). apply Tmono. lia.
    - apply Rmult_le_compat; [pos | pos | exact o801 | exact o802]. }
  replace (4 * a * (b * (a * a) * c + oddfact 400 * a * d) * f) with (4 * a * (b * (a * a) * c) * f + 4 * a * (oddfact 400 * a * d) * f) by ring. lra.
Qed.
Lemma integers2 : 20 ^ 1602 * (3 ^ 200 * 3 ^ 200) * (4 * 10 ^ 100) <= oddfact 801 * oddfact 802.
Proof.
  pose proof T_pos as PT. pose proof e3 as E3. pose proof e10 as E10. pose proof e1602 as E1602. pose proof T4 as F4.
  assert (P3: 0 <= 3 ^ 200) by pos. assert (P10: 0 <= 10 ^ 100) by pos. assert (P1602: 0 <= 20 ^ 1602) by pos.
  set (a := 3 ^ 200) in *. set (c := 10 ^ 100) in *. set (d := 20 ^ 1602) in *. clearbody a c d.
  apply Rle_trans with (T ^ 348 * (T ^ 16 * T ^ 16) * (T * T ^ 17)).
  { mul. }
  apply Rle_trans with (T ^ 353 * T ^ 353); [|apply Rmult_le_compat; [pos | pos | exact o801_all | exact o802]].
  change (T * T ^ 17) with (T ^ 18). rewrite <- !pow_add. apply Tmono. lia.
Qed.

Section Large.
Variable z : C.
Hypothesis Nz : z <> RtoC 0.
Hypothesis Hz : Cmod z <= 20.
Hypothesis Hs : / 10 ^ 100 <= Cmod (J 0 z).
Notation r := (Cmod z).
Let E := 3 ^ 200.

Lemma Epos : 0 < E. Proof. apply pow_lt. lra. Qed.
Lemma argE : forall c, oddz c -> Cmod (G c (arg z)) <= E.
Proof.
  intros c H. eapply Rle_trans; [apply G_norm; auto|]. unfold E. eapply Rle_trans; [|apply exp_nat]. apply exp_le.
  replace (INR 200) with 200 by (rewrite INR_IZR_INZ; reflexivity). rewrite arg_mod. pose proof (Cmod_ge_0 z). nra.
Qed.
Lemma J_up : forall n, Cmod (J n z) <= r ^ n * E / oddfact (n + 1).
Proof.
  intros n. unfold J. rewrite !Cmod_mult, cpow_mod, Cmod_R, Rabs_right by (left; apply Rinv_0_lt_compat, oddfact_pos).
  replace (r ^ n * E / oddfact (n + 1)) with (r ^ n * / oddfact (n + 1) * E) by (unfold Rdiv; ring).
  apply Rmult_le_compat_l; [|apply argE, odd_j]. apply Rmult_le_pos; [apply pow_le, Cmod_ge_0 | left; apply Rinv_0_lt_compat, oddfact_pos].
Qed.
Lemma Y_mod : forall n, Cmod (Y n z) = oddfact n * / r ^ (n + 1) * Cmod (G (- 2 * INR n - 1) (arg z)).
Proof.
  intros n. unfold Y. rewrite Cmod_mult, Cmod_opp, Cmod_div, cpow_mod, Cmod_R by (apply cpow_nz; auto).
  rewrite Rabs_right by (left; apply oddfact_pos). auto.
Qed.
Lemma rpos : 0 < r. Proof. apply Cmod_gt_0; auto. Qed.
Lemma rpow : forall a b, (a <= b)%nat -> r ^ a <= 20 ^ b.
Proof.
  intros a b H. pose proof rpos. apply Rle_trans with (20 ^ a); [apply pow_incr; lra|]. apply Rle_pow; [lra | auto].
Qed.

Definition pp (n : nat) : C := (J n z * Y 0 z - J 0 z * Y n z)%C.
Lemma pp_rec : forall n, (pp n + pp (n + 2) = RtoC (2 * INR n + 3) * / z * pp (n + 1))%C.
Proof.
  intros n. unfold pp. pose proof (J_rec n z Nz) as A. pose proof (Y_rec n z Nz) as B.
  transitivity ((J n z + J (n + 2) z) * Y 0 z - J 0 z * (Y n z + Y (n + 2) z))%C; [ring|]. rewrite A, B. ring.
Qed.
Lemma pp_801 : Cmod (J 0 z) * oddfact 801 / (4 * r ^ 802) <= Cmod (pp 801).
Proof.
  set (s := Cmod (J 0 z)) in *. pose proof rpos as Pr.
  assert (A: s * oddfact 801 / (2 * r ^ 802) <= Cmod (J 0 z * Y 801 z)%C).
  { rewrite Cmod_mult. fold s. rewrite Y_mod. replace (801 + 1)%nat with 802%nat by auto.
    pose proof (G_801_lower (arg z)) as L. assert (/ 2 <= Cmod (G (- 2 * INR 801 - 1) (arg z))) by (apply L; rewrite arg_mod; nra).
    pose proof (oddfact_pos 801) as O. assert (0 < r ^ 802) by (apply pow_lt; auto).
    replace (s * oddfact 801 / (2 * r ^ 802)) with (s * (oddfact 801 * / r ^ 802) * / 2) by (field; lra).
    rewrite <- (Rmult_assoc s (oddfact 801 * / r ^ 802) _). apply Rmult_le_compat_l; auto. apply Rmult_le_pos; [apply Cmod_ge_0|]. apply Rmult_le_pos; [lra|]. left. apply Rinv_0_lt_compat; auto. }
  assert (B: Cmod (J 801 z * Y 0 z)%C <= s * oddfact 801 / (4 * r ^ 802)).
  { rewrite Cmod_mult, Y_mod. change (0 + 1)%nat with 1%nat. change (oddfact 0) with 1. rewrite pow_1, Rmult_1_l.
    pose proof (J_up 801) as U. replace (801 + 1)%nat with 802%nat in U by auto. pose proof (argE _ (odd_y 0)) as V.
    pose proof (oddfact_pos 801) as O1. pose proof (oddfact_pos 802) as O2. assert (0 < r ^ 802) by (apply pow_lt; auto).
    assert (0 < r ^ 801) by (apply pow_lt; auto).
    pose proof Epos as PE.
    apply Rle_trans with (r ^ 801 * E / oddfact 802 * (/ r * E)).
    { apply Rmult_le_compat; [apply Cmod_ge_0 | | exact U |].
      - apply Rmult_le_pos; [left; apply Rinv_0_lt_compat; auto | apply Cmod_ge_0].
      - apply Rmult_le_compat_l; [left; apply Rinv_0_lt_compat; auto | exact V]. }
    replace (r ^ 801 * E / oddfact 802 * (/ r * E)) with (r ^ 1602 * (E * E) * 4 / (oddfact 802 * (4 * r ^ 802))).
    2:{ change 802%nat with (801 + 1)%nat at 3. replace 1602%nat with (801 + 801)%nat by auto. rewrite !pow_add. cbn [pow]. field. repeat split; lra. }
    assert (Ps: 0 < s) by (assert (0 < / 10 ^ 100) by (apply Rinv_0_lt_compat, pow_lt; lra); lra).
    assert (K: r ^ 1602 * (E * E) * 4 <= s * (oddfact 801 * oddfact 802)).
    { pose proof integers2 as I2. fold E in I2. assert (P10: 0 < 10 ^ 100) by (apply pow_lt; lra).
      apply Rle_trans with (/ 10 ^ 100 * (oddfact 801 * oddfact 802)); [|apply Rmult_le_compat_r; [nra | auto]].
      apply (Rmult_le_reg_l (10 ^ 100)); auto. rewrite <- (Rmult_assoc (10 ^ 100) (/ 10 ^ 100)), Rinv_r, Rmult_1_l by lra.
      eapply Rle_trans; [|exact I2]. pose proof (rpow 1602 1602 (le_n _)) as RP.
      replace (10 ^ 100 * (r ^ 1602 * (E * E) * 4)) with (r ^ 1602 * ((E * E) * (4 * 10 ^ 100))) by ring.
      replace (20 ^ 1602 * (E * E) * (4 * 10 ^ 100)) with (20 ^ 1602 * ((E * E) * (4 * 10 ^ 100))) by ring.
      apply Rmult_le_compat_r; [|exact RP]. apply Rmult_le_pos; nra. }
    unfold Rdiv. rewrite Rinv_mult. rewrite <- Rmult_assoc. apply Rmult_le_compat_r; [left; apply Rinv_0_lt_compat; lra|].
    apply (Rmult_le_reg_r (oddfact 802)); auto. rewrite Rmult_assoc, Rinv_l, Rmult_1_r by lra. lra. }
  assert (T: Cmod (J 0 z * Y 801 z)%C <= Cmod (pp 801) + Cmod (J 801 z * Y 0 z)%C).
  { replace (J 0 z * Y 801 z)%C with (- pp 801 + J 801 z * Y 0 z)%C by (unfold pp; ring). eapply Rle_trans; [apply Cmod_triangle|]. rewrite Cmod_opp. lra. }
  assert (0 < r ^ 802) by (apply pow_lt; auto).
  replace (s * oddfact 801 / (2 * r ^ 802)) with (s * oddfact 801 / (4 * r ^ 802) + s * oddfact 801 / (4 * r ^ 802)) in A by (field; lra). lra.
Qed.
Lemma pp_up : forall n, (1 <= n <= 400)%nat -> Cmod (pp n) <= r ^ (n - 1) * (E * E) + Cmod (J 0 z) * (oddfact n * / r ^ (n + 1) * E).
Proof.
  intros n Hn. pose proof rpos as Pr. pose proof Epos as PE. unfold pp, Cminus. eapply Rle_trans; [apply Cmod_triangle|]. rewrite Cmod_opp, !Cmod_mult.
  apply Rplus_le_compat.
  - rewrite (Y_mod 0). change (0 + 1)%nat with 1%nat. change (oddfact 0) with 1. rewrite pow_1, Rmult_1_l.
    pose proof (J_up n) as U. pose proof (argE _ (odd_y 0)) as V. pose proof (oddfact_ge1 (n + 1)) as O.
    apply Rle_trans with (r ^ n * E * (/ r * E)).
    + apply Rmult_le_compat; [apply Cmod_ge_0 | | |].
      * apply Rmult_le_pos; [left; apply Rinv_0_lt_compat; auto | apply Cmod_ge_0].
      * eapply Rle_trans; [exact U|]. unfold Rdiv. rewrite <- (Rmult_1_r (r ^ n * E)) at 2. apply Rmult_le_compat_l; [apply Rmult_le_pos; [apply pow_le; lra | lra]|].
        rewrite <- Rinv_1. apply Rinv_le_contravar; lra.
      * apply Rmult_le_compat_l; [left; apply Rinv_0_lt_compat; auto | exact V].
    + replace n with (S (n - 1)) at 1 by lia. cbn [pow]. right. field. lra.
  - rewrite Y_mod. apply Rmult_le_compat_l; [apply Cmod_ge_0|]. apply Rmult_le_compat_l; [|apply argE, odd_y].
    apply Rmult_le_pos; [left; apply oddfact_pos | left; apply Rinv_0_lt_compat, pow_lt; auto].
Qed.

Lemma error_bound : forall p, p 0%nat = RtoC 0 -> p 1%nat = RtoC 1 ->
  (forall n, (n + 1 <= 800)%nat -> (p n + p (n + 2)%nat = RtoC (2 * INR n + 3) * / z * p (n + 1)%nat)%C) ->
  p 801%nat <> RtoC 0 -> forall n, (1 <= n <= 400)%nat -> Cmod (J 801 z * p n / p 801%nat)%C <= / 10 ^ 1000.
Proof.
  intros p P0 P1 Hp PN n Hn. pose proof rpos as Pr. pose proof Epos as PE.
  set (s := Cmod (J 0 z)) in *.
  assert (Ps: 0 < s) by (assert (0 < / 10 ^ 100) by (apply Rinv_0_lt_compat, pow_lt; lra); lra).
  assert (X: forall m, (m <= 800)%nat -> pp m = (pp 1 * p m)%C /\ pp (m + 1) = (pp 1 * p (m + 1)%nat)%C).
  { induction m as [|m IH]; intros Hm.
    - cbn [Nat.add]. rewrite P0, P1. split; [unfold pp; ring | ring].
    - destruct IH as (A & B); [lia|]. replace (S m + 1)%nat with (m + 2)%nat by lia. replace (S m) with (m + 1)%nat by lia. split; auto.
      pose proof (pp_rec m) as R. specialize (Hp m ltac:(lia)).
      replace (pp (m + 2)) with (RtoC (2 * INR m + 3) * / z * pp (m + 1) - pp m)%C by (rewrite <- R; ring).
      replace (p (m + 2)%nat) with (RtoC (2 * INR m + 3) * / z * p (m + 1)%nat - p m)%C by (rewrite <- Hp; ring). rewrite A, B. ring. }
  pose proof (proj1 (X n ltac:(lia))) as En. pose proof (proj2 (X 800%nat (le_n _))) as EN. change (800 + 1)%nat with 801%nat in EN.
  pose proof (oddfact_pos 801) as O1. pose proof (oddfact_pos 802) as O2. assert (R802: 0 < r ^ 802) by (apply pow_lt; auto).
  pose proof pp_801 as L. fold s in L.
  assert (LP: 0 < s * oddfact 801 / (4 * r ^ 802)) by (apply Rdiv_lt_0_compat; nra).
  assert (N1: pp 1 <> RtoC 0). { intro Z0. rewrite EN, Z0, Cmult_0_l, Cmod_0 in L. lra. }
  assert (NN: pp 801 <> RtoC 0). { intro Z0. rewrite Z0, Cmod_0 in L. lra. }
  replace (J 801 z * p n / p 801%nat)%C with (J 801 z * pp n / pp 801)%C by (rewrite En, EN; field; auto).
  rewrite Cmod_div, Cmod_mult by auto.
  pose proof (J_up 801) as U. replace (801 + 1)%nat with 802%nat in U by auto. pose proof (pp_up n Hn) as V. fold s in V.
  assert (LI: / Cmod (pp 801) <= / (s * oddfact 801 / (4 * r ^ 802))) by (apply Rinv_le_contravar; auto).
  set (A := r ^ 801 * E / oddfact 802) in *. set (B := r ^ (n - 1) * (E * E) + s * (oddfact n * / r ^ (n + 1) * E)) in *.
  apply Rle_trans with (A * B * / (s * oddfact 801 / (4 * r ^ 802))).
  { unfold Rdiv at 1. apply Rmult_le_compat; [apply Rmult_le_pos; apply Cmod_ge_0 | left; apply Rinv_0_lt_compat, Cmod_gt_0; auto | | exact LI].
    apply Rmult_le_compat; auto; apply Cmod_ge_0. }
  assert (Rn: r ^ (n - 1) * r = r ^ n). { transitivity (r ^ S (n - 1)); [cbn [pow]; ring | f_equal; lia]. }
  assert (F: A * B * / (s * oddfact 801 / (4 * r ^ 802)) = 4 * E * (r ^ (1602 + n) * (E * E) * / s + oddfact n * E * r ^ (1602 - n)) / (oddfact 801 * oddfact 802)).
  { unfold A, B. assert (0 < r ^ (n + 1)) by (apply pow_lt; auto).
    assert (Q1: r ^ (1602 + n) = r ^ 801 * r ^ 802 * r ^ (n - 1)) by (rewrite <- !pow_add; f_equal; lia).
    assert (Q2: r ^ (1602 - n) * r ^ (n + 1) = r ^ 801 * r ^ 802) by (rewrite <- !pow_add; f_equal; lia).
    rewrite Q1. replace (r ^ (1602 - n)) with (r ^ 801 * r ^ 802 / r ^ (n + 1)) by (rewrite <- Q2; field; lra).
    field. repeat split; lra. }
  rewrite F. clear F.
  assert (C1: r ^ (1602 + n) <= 20 ^ 2002) by (apply rpow; lia).
  assert (C2: r ^ (1602 - n) <= 20 ^ 1602) by (apply rpow; lia).
  assert (C3: / s <= 10 ^ 100). { rewrite <- (Rinv_inv (10 ^ 100)). apply Rinv_le_contravar; auto. apply Rinv_0_lt_compat, pow_lt; lra. }
  assert (C4: oddfact n <= oddfact 400) by (apply oddfact_mono; lia).
  pose proof integers as I. fold E in I. assert (P1000: 0 < 10 ^ 1000) by (apply pow_lt; lra).
  pose proof (oddfact_pos n) as On.
  assert (D1: r ^ (1602 + n) * (E * E) * / s <= 20 ^ 2002 * (E * E) * 10 ^ 100).
  { apply Rmult_le_compat; auto; [apply Rmult_le_pos; [apply pow_le; lra | nra] | left; apply Rinv_0_lt_compat; auto |]. apply Rmult_le_compat_r; [nra | auto]. }
  assert (D2: oddfact n * E * r ^ (1602 - n) <= oddfact 400 * E * 20 ^ 1602).
  { apply Rmult_le_compat; auto; [apply Rmult_le_pos; lra | apply pow_le; lra |]. apply Rmult_le_compat_r; lra. }
  set (m1 := r ^ (1602 + n) * (E * E) * / s) in *. set (m2 := oddfact n * E * r ^ (1602 - n)) in *.
  set (M1 := 20 ^ 2002 * (E * E) * 10 ^ 100) in *. set (M2 := oddfact 400 * E * 20 ^ 1602) in *. set (Q := oddfact 801 * oddfact 802) in *.
  assert (PQ: 0 < Q) by (unfold Q; nra).
  apply (Rmult_le_reg_r Q); auto. unfold Rdiv. rewrite Rmult_assoc, Rinv_l, Rmult_1_r by lra.
  apply (Rmult_le_reg_l (10 ^ 1000)); auto. rewrite <- (Rmult_assoc (10 ^ 1000) (/ 10 ^ 1000)), Rinv_r, Rmult_1_l by lra.
  eapply Rle_trans; [|exact I]. rewrite Rmult_comm. apply Rmult_le_compat_r; [lra|]. apply Rmult_le_compat_l; lra.
Qed.
End Large.
