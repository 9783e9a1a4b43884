(** C98: the shape averages in double precision are the weighted means up to rounding; the average over a single shape is its coefficient exactly. *)
From Coq Require Import List ZArith Reals Lra Lia Psatz.
From Flocq Require Import Core Relative Plus_error.
From Verif Require Import Doubles DoubleMean Props_doubles.
Import ListNotations.
Local Open Scope R_scope.
#[local] Instance prec_positive : Prec_gt_0 53 := eq_refl.

(** a double precision number *)
Definition is_double (x : R) : Prop := exists m e : Z, x = IZR m * bpow radix2 e /\ (Z.abs m < 2 ^ 53)%Z /\ (-1074 <= e)%Z.
(** sums over the shapes: of the weights, of weight times coefficient, of weight times size of the coefficient *)
Fixpoint total (f : R * R -> R) (l : list (R * R)) : R := match l with [] => 0 | p :: l => f p + total f l end.
Definition sum_weights (l : list (R * R)) : R := total fst l.
Definition sum_values (l : list (R * R)) : R := total (fun p => fst p * snd p) l.
Definition sum_sizes (l : list (R * R)) : R := total (fun p => fst p * Rabs (snd p)) l.
(** one unit in the last place of 1, halved *)
Definition u : R := / 2 ^ 53.

Local Notation fexp := (FLT_exp (-1074) 53).
Local Notation format := (generic_format radix2 fexp).
Lemma double_format : forall x, is_double x <-> format x.
Proof.
  intros x. split.
  - intros (m & e & -> & H1 & H2). apply generic_format_FLT. exists (Float radix2 m e); [reflexivity | exact H1 | exact H2].
  - intros H. apply FLT_format_generic in H; [|typeclasses eauto]. destruct H as [[m e] H1 H2 H3]. exists m, e. auto.
Qed.
Lemma rnd_format : forall x, format (rnd x). Proof. intros x. apply generic_format_round; typeclasses eauto. Qed.
Lemma u_h : u = 2 * h. Proof. unfold u, h. field. Qed.
Lemma u_ro_u : u_ro radix2 53 = u.
Proof. unfold u_ro. rewrite u_h, <- h_bpow. change (- (53) + 1)%Z with (2 + -54)%Z. rewrite bpow_plus. change (bpow radix2 2) with 4. generalize (bpow radix2 (-54)). intros b. lra. Qed.
Lemma u_small : 0 < u <= / 500000. Proof. rewrite u_h. pose proof h_small. lra. Qed.
Lemma plus_rel : forall x y, format x -> format y -> exists e, Rabs e <= u /\ fadd x y = (x + y) * (1 + e).
Proof.
  intros x y Fx Fy. destruct (FLT_plus_error_N_ex radix2 (-1074) 53 (fun z => negb (Z.even z)) x y Fx Fy) as (e & H1 & H2). exists e. split; [|exact H2].
  eapply Rle_trans; [exact H1|]. rewrite u_ro_u. pose proof u_small. assert (u / (1 + u) <= u / 1); [|lra]. unfold Rdiv. apply Rmult_le_compat_l; [lra|]. apply Rinv_le_contravar; lra.
Qed.
(** a product, or a division, that is zero or not too small *)
Lemma mult_rel : forall x, x = 0 \/ bpow radix2 (-1022) <= Rabs x -> exists e, Rabs e <= u /\ rnd x = x * (1 + e).
Proof.
  intros x [->|H].
  - exists 0. rewrite Rabs_R0. pose proof u_small. split; [lra|]. unfold rnd. rewrite round_0 by typeclasses eauto. ring.
  - destruct (relative_error_N_FLT_ex radix2 (-1074) 53 eq_refl (fun z => negb (Z.even z)) x H) as (e & H1 & H2). exists e. split; [|exact H2]. rewrite <- u_ro_u. exact H1.
Qed.

Definition fsum (a : R) (l : list R) : R := fold_left fadd l a.
Fixpoint tot (f : R -> R) (l : list R) : R := match l with [] => 0 | x :: l => f x + tot f l end.
Definition growth (n : nat) : R := (1 + u) ^ n - 1.
Lemma growth_pos : forall n, 0 <= growth n.
Proof. intros n. unfold growth. pose proof u_small. assert (1 <= (1 + u) ^ n) by (apply pow_R1_Rle; lra). lra. Qed.
Lemma tot_pos : forall l, 0 <= tot Rabs l. Proof. induction l as [|x l IH]; cbn [tot]; [lra|]. pose proof (Rabs_pos x). lra. Qed.
Lemma fsum_format : forall l a, format a -> format (fsum a l).
Proof. induction l as [|x l IH]; intros a H; [exact H|]. cbn [fsum fold_left]. apply IH. apply rnd_format. Qed.
Lemma fsum_error : forall l a, format a -> Forall format l -> Rabs (fsum a l - (a + tot (fun x => x) l)) <= growth (length l) * (Rabs a + tot Rabs l).
Proof.
  induction l as [|x l IH]; intros a Fa Fl.
  - cbn [fsum fold_left tot length growth pow]. unfold growth. cbn [pow]. replace (a - (a + 0)) with 0 by ring. rewrite Rabs_R0. lra.
  - inversion Fl as [|? ? Fx Fl']; subst. cbn [fsum fold_left tot length]. change (fold_left fadd l (fadd a x)) with (fsum (fadd a x) l).
    specialize (IH (fadd a x) (rnd_format _) Fl'). destruct (plus_rel a x Fa Fx) as (e & He & E). rewrite E in IH |- *. pose proof u_small as U. pose proof (growth_pos (length l)) as G. pose proof (tot_pos l) as T.
    pose proof (Rabs_triang a x) as TR. pose proof (Rabs_pos (a + x)) as P0.
    assert (E1 : Rabs ((a + x) * (1 + e)) <= (1 + u) * (Rabs a + Rabs x)).
    { rewrite Rabs_mult. rewrite Rmult_comm. apply Rmult_le_compat; auto using Rabs_pos. eapply Rle_trans; [apply Rabs_triang|]. rewrite Rabs_R1. lra. }
    assert (E2 : Rabs ((a + x) * (1 + e) + tot (fun x => x) l - (a + (x + tot (fun x => x) l))) <= u * (Rabs a + Rabs x)).
    { replace ((a + x) * (1 + e) + tot (fun x => x) l - (a + (x + tot (fun x => x) l))) with (e * (a + x)) by ring. rewrite Rabs_mult. apply Rmult_le_compat; auto using Rabs_pos. }
    eapply Rle_trans; [eapply join; [exact IH | exact E2]|]. unfold growth in *. cbn [pow]. set (g := (1 + u) ^ length l) in *.
    assert (Q1 : (g - 1) * Rabs ((a + x) * (1 + e)) <= (g - 1) * ((1 + u) * (Rabs a + Rabs x))) by (apply Rmult_le_compat_l; assumption).
    assert (Q2 : 0 <= u * g * tot Rabs l) by (apply Rmult_le_pos; [apply Rmult_le_pos; lra | exact T]). lra.
Qed.
(** the loop *)
Lemma loop : forall l a b, fold_left (fun '(norm, average) '(weight, value) => (fadd norm weight, fadd average (fmul weight value))) l (a, b) =
  (fsum a (map fst l), fsum b (map (fun p => fmul (fst p) (snd p)) l)).
Proof. induction l as [|(w, q) l IH]; intros a b; [reflexivity|]. cbn [fold_left map fst snd]. rewrite IH. reflexivity. Qed.

Section Mean.
Variable l : list (R * R).
Hypothesis weights : Forall (fun p => is_double (fst p) /\ 0 <= fst p) l.
(** no product is smaller than the smallest normal number, unless it is zero *)
Hypothesis products : Forall (fun p => fst p * snd p = 0 \/ / 2 ^ 1022 <= Rabs (fst p * snd p)) l.
Hypothesis not_empty : 0 < sum_weights l <= 2 ^ 1000.
Hypothesis not_too_many : INR (length l) <= 2 ^ 20.

Lemma norm_error : Rabs (fsum 0 (map fst l) - sum_weights l) <= growth (length l) * sum_weights l.
Proof.
  assert (F : Forall format (map fst l)) by (apply Forall_forall; intros x H; apply in_map_iff in H as (p & <- & H); rewrite Forall_forall in weights; apply double_format, weights, H).
  pose proof (fsum_error (map fst l) 0 (generic_format_0 _ _) F) as E. rewrite Rabs_R0, map_length in E.
  assert (A : forall m, tot (fun x => x) (map fst m) = sum_weights m) by (induction m as [|p m IH]; [reflexivity|]; cbn [map tot]; rewrite IH; reflexivity).
  assert (B : forall m, Forall (fun p : R * R => is_double (fst p) /\ 0 <= fst p) m -> tot Rabs (map fst m) = sum_weights m).
  { induction m as [|p m IH]; intros H; [reflexivity|]. inversion H as [|? ? (_ & P) H']; subst. cbn [map tot]. rewrite (IH H'), Rabs_right by lra. reflexivity. }
  rewrite A, (B l weights), !Rplus_0_l in E. exact E.
Qed.
Lemma pow_bpow : forall n, / 2 ^ n = bpow radix2 (- Z.of_nat n).
Proof. intros n. rewrite bpow_opp. f_equal. rewrite <- IZR_Zpower by lia. rewrite pow_IZR. reflexivity. Qed.
Lemma average_error : Rabs (fsum 0 (map (fun p => fmul (fst p) (snd p)) l) - sum_values l) <= growth (S (length l)) * sum_sizes l.
Proof.
  assert (F : Forall format (map (fun p => fmul (fst p) (snd p)) l)) by (apply Forall_forall; intros x H; apply in_map_iff in H as (p & <- & H); apply rnd_format).
  pose proof (fsum_error _ 0 (generic_format_0 _ _) F) as E. rewrite Rabs_R0, map_length, !Rplus_0_l in E. pose proof u_small as U.
  assert (A : forall m, Forall (fun p : R * R => is_double (fst p) /\ 0 <= fst p) m -> Forall (fun p => fst p * snd p = 0 \/ / 2 ^ 1022 <= Rabs (fst p * snd p)) m ->
    Rabs (tot (fun x => x) (map (fun p => fmul (fst p) (snd p)) m) - sum_values m) <= u * sum_sizes m /\ tot Rabs (map (fun p => fmul (fst p) (snd p)) m) <= (1 + u) * sum_sizes m /\ 0 <= sum_sizes m).
  { induction m as [|(w, q) m IH]; intros H1 H2.
    - unfold sum_values, sum_sizes. cbn [map tot total]. rewrite Rminus_0_r, Rabs_R0. lra.
    - inversion H1 as [|? ? (_ & P) H1']; subst. inversion H2 as [|? ? Q H2']; subst. destruct (IH H1' H2') as (I1 & I2 & I3). unfold sum_values, sum_sizes in *. cbn [map tot total fst snd] in *.
      set (X := tot (fun x => x) (map (fun p => fmul (fst p) (snd p)) m)) in *. set (Y := tot Rabs (map (fun p => fmul (fst p) (snd p)) m)) in *.
      set (V := total (fun p => fst p * snd p) m) in *. set (S := total (fun p => fst p * Rabs (snd p)) m) in *.
      rewrite (pow_bpow 1022) in Q. destruct (mult_rel (w * q) Q) as (e & He & E'). unfold fmul. rewrite E'.
      assert (WQ : Rabs (w * q) = w * Rabs q) by (rewrite Rabs_mult, (Rabs_right w) by lra; reflexivity).
      assert (Z0 : 0 <= w * Rabs q) by (rewrite <- WQ; apply Rabs_pos).
      split; [|split; [|lra]].
      + replace (w * q * (1 + e) + X - (w * q + V)) with (e * (w * q) + (X - V)) by ring. eapply Rle_trans; [apply Rabs_triang|]. rewrite Rabs_mult, WQ.
        assert (Rabs e * (w * Rabs q) <= u * (w * Rabs q)) by (apply Rmult_le_compat_r; assumption). lra.
      + rewrite Rabs_mult, WQ. assert (Rabs (1 + e) <= 1 + u) by (eapply Rle_trans; [apply Rabs_triang|]; rewrite Rabs_R1; lra).
        assert (w * Rabs q * Rabs (1 + e) <= w * Rabs q * (1 + u)) by (apply Rmult_le_compat_l; assumption). lra. }
  destruct (A l weights products) as (A1 & A2 & A3). eapply Rle_trans; [eapply join; [exact E | exact A1]|]. pose proof (growth_pos (length l)) as G. unfold growth in *. cbn [pow].
  set (g := (1 + u) ^ length l) in *. nra.
Qed.
Lemma growth_bound : forall n, INR n * u <= 1 -> growth n <= INR n * u + (INR n * u) * (INR n * u).
Proof.
  pose proof u_small as U. induction n as [|n IH]; intros H.
  - unfold growth. cbn [pow INR]. lra.
  - rewrite S_INR in *. assert (P : 0 <= INR n) by apply pos_INR. assert (H' : INR n * u <= 1) by nra. specialize (IH H'). unfold growth in *. cbn [pow]. set (g := (1 + u) ^ n) in *. set (k := INR n) in *. 
    assert (k * u * (k * u) * u <= k * u * u) by (assert (k * u * (k * u) <= k * u * 1) by (apply Rmult_le_compat_l; nra); nra).
    assert ((1 + u) * g <= (1 + u) * (1 + (k * u + k * u * (k * u)))) by (apply Rmult_le_compat_l; lra). nra.
Qed.

(** The average is the weighted mean up to (2 n + 4) roundings of the weighted mean of the sizes, n the number of shapes. *)
Theorem C98_mean : Rabs (shape_mean l - sum_values l / sum_weights l) <= (2 * INR (length l) + 4) * u * (sum_sizes l / sum_weights l) + / 2 ^ 1075.
Proof.
  unfold shape_mean. rewrite loop. pose proof norm_error as EN. pose proof average_error as EA. set (nf := fsum 0 (map fst l)) in *. set (af := fsum 0 (map (fun p => fmul (fst p) (snd p)) l)) in *.
  set (N := sum_weights l) in *. set (P := sum_values l) in *. set (A := sum_sizes l) in *. pose proof u_small as U.
  assert (S2 : INR (length l) * u * (INR (length l) * u) <= u / 1000 /\ INR (length l) * u <= / 1000000).
  { assert (U2 : u = / 9007199254740992) by (unfold u; f_equal; rewrite pow_IZR; reflexivity). assert (L20 : INR (length l) <= 1048576) by (eapply Rle_trans; [exact not_too_many|]; rewrite pow_IZR; apply Req_le; reflexivity).
    pose proof (pos_INR (length l)) as P0. split; [|rewrite U2; lra]. assert (INR (length l) * u <= / 1000000000) by (rewrite U2; lra). assert (INR (length l) * (INR (length l) * u) <= 1048576 * / 1000000000) by (apply Rmult_le_compat; nra). nra. }
  set (s := INR (length l) * u) in *. assert (S0 : 0 <= s) by (unfold s; pose proof (pos_INR (length l)); nra).
  assert (G1 : growth (length l) <= s + s * s) by (apply growth_bound; fold s; lra).
  assert (G2 : growth (S (length l)) <= (s + u) + (s + u) * (s + u)). { assert (E : INR (S (length l)) * u = s + u) by (rewrite S_INR; unfold s; ring). rewrite <- E. apply growth_bound. rewrite E. lra. }
  pose proof (growth_pos (length l)) as G1p. pose proof (growth_pos (S (length l))) as G2p. set (g := growth (length l)) in *. set (g' := growth (S (length l))) in *.
  assert (A0 : Rabs P <= A /\ 0 <= A).
  { unfold P, A. clear - weights. induction l as [|(w, q) m IH]; [unfold sum_values, sum_sizes; cbn [total]; rewrite Rabs_R0; lra|]. inversion weights as [|? ? (_ & W) H']; subst. destruct (IH H') as (I1 & I2).
    unfold sum_values, sum_sizes in *. cbn [total fst snd] in *. assert (WQ : Rabs (w * q) = w * Rabs q) by (rewrite Rabs_mult, (Rabs_right w) by lra; reflexivity). pose proof (Rabs_triang (w * q) (total (fun p => fst p * snd p) m)). pose proof (Rabs_pos (w * q)). lra. }
  apply Rabs_le_inv in EN. assert (NF : 0 < nf) by nra. assert (NF2 : nf <= 2 * N) by nra.
  assert (INV : 1 / nf = 0 \/ bpow radix2 (-1022) <= Rabs (1 / nf)).
  { right. rewrite Rabs_right by (apply Rle_ge, Rlt_le; unfold Rdiv; rewrite Rmult_1_l; apply Rinv_0_lt_compat, NF). change (-1022)%Z with (- Z.of_nat 1022)%Z. rewrite <- (pow_bpow 1022). unfold Rdiv. rewrite Rmult_1_l. apply Rinv_le_contravar; [exact NF|].
    eapply Rle_trans; [exact NF2|]. assert (2 * 2 ^ 1000 <= 2 ^ 1022); [|lra]. change (2 * 2 ^ 1000) with (2 ^ 1001). apply Rle_pow; [lra | lia]. }
  destruct (mult_rel _ INV) as (e1 & H1 & R1). destruct (error_N_FLT radix2 (-1074) 53 eq_refl (fun z => negb (Z.even z)) (af * fdiv 1 nf)) as (e2 & eta & H2 & H3 & _ & R2).
  change (/ 2 * bpow radix2 (- (53) + 1)) with (u_ro radix2 53) in H2. rewrite u_ro_u in H2.
  assert (H4 : Rabs eta <= / 2 ^ 1075). { rewrite (pow_bpow 1075). change (- Z.of_nat 1075)%Z with (-1 + -1074)%Z. rewrite bpow_plus. exact H3. }
  unfold fmul at 1. unfold rnd at 1. rewrite R2. unfold fdiv. rewrite R1.
  set (e := e1 + e2 + e1 * e2). assert (HE : Rabs e <= 2 * u + u * u).
  { unfold e. eapply Rle_trans; [apply Rabs_triang|]. eapply Rle_trans; [apply Rplus_le_compat_r, Rabs_triang|]. rewrite Rabs_mult. assert (Rabs e1 * Rabs e2 <= u * u) by (apply Rmult_le_compat; auto using Rabs_pos). lra. }
  set (d := af - P) in *. set (v := nf - N) in *. assert (HV : Rabs v <= g * N) by (apply Rabs_le; lra).
  replace (af * (1 / nf * (1 + e1)) * (1 + e2) + eta - P / N) with ((P * (e * N - v) + d * (1 + e) * N) / (nf * N) + eta) by (unfold d, v, e; field; lra).
  eapply Rle_trans; [apply Rabs_triang|]. apply Rplus_le_compat; [|exact H4].
  unfold Rdiv. rewrite Rabs_mult, (Rabs_right (/ (nf * N))) by (apply Rle_ge, Rlt_le, Rinv_0_lt_compat; nra).
  assert (T : Rabs (P * (e * N - v) + d * (1 + e) * N) <= A * N * ((2 * u + u * u) + g + g' * (1 + 2 * u + u * u))).
  { eapply Rle_trans; [apply Rabs_triang|]. rewrite !Rabs_mult, (Rabs_right N) by lra.
    assert (T1 : Rabs (e * N - v) <= (2 * u + u * u + g) * N). { unfold Rminus. eapply Rle_trans; [apply Rabs_triang|]. rewrite Rabs_Ropp, Rabs_mult, (Rabs_right N) by lra. nra. }
    assert (T2 : Rabs P * Rabs (e * N - v) <= A * ((2 * u + u * u + g) * N)) by (apply Rmult_le_compat; auto using Rabs_pos; apply A0).
    assert (T3 : Rabs (1 + e) <= 1 + 2 * u + u * u) by (eapply Rle_trans; [apply Rabs_triang|]; rewrite Rabs_R1; lra).
    assert (T4 : Rabs d * Rabs (1 + e) <= g' * A * (1 + 2 * u + u * u)) by (apply Rmult_le_compat; auto using Rabs_pos).
    assert (T5 : Rabs d * Rabs (1 + e) * N <= g' * A * (1 + 2 * u + u * u) * N) by (apply Rmult_le_compat_r; lra). lra. }
  assert (K : (2 * u + u * u) + g + g' * (1 + 2 * u + u * u) <= (2 * s + 4 * u) * (1 - g)).
  { assert (g' * (1 + 2 * u + u * u) <= ((s + u) + (s + u) * (s + u)) * (1 + 2 * u + u * u)) by (apply Rmult_le_compat_r; nra).
    assert ((2 * s + 4 * u) * g <= (2 * s + 4 * u) * (s + s * s)) by (apply Rmult_le_compat_l; lra). nra. }
  replace ((2 * INR (length l) + 4) * u) with (2 * s + 4 * u) by (unfold s; ring).
  apply (Rmult_le_reg_r (nf * N)); [nra|]. rewrite Rmult_assoc, Rinv_l, Rmult_1_r by nra. eapply Rle_trans; [exact T|].
  replace ((2 * s + 4 * u) * (A * / N) * (nf * N)) with ((2 * s + 4 * u) * A * nf) by (field; lra).
  assert (NG : N * (1 - g) <= nf) by (unfold v in *; lra).
  assert (A * N * (2 * u + u * u + g + g' * (1 + 2 * u + u * u)) <= A * N * ((2 * s + 4 * u) * (1 - g))) by (apply Rmult_le_compat_l; nra).
  assert ((2 * s + 4 * u) * A * (N * (1 - g)) <= (2 * s + 4 * u) * A * nf) by (apply Rmult_le_compat_l; nra). lra.
Qed.
End Mean.
(** If all shapes have the same coefficient, so has the average, up to rounding. *)
Theorem C98_equal_coefficients : forall q l, Forall (fun p => is_double (fst p) /\ 0 <= fst p) l -> Forall (fun p => fst p * snd p = 0 \/ / 2 ^ 1022 <= Rabs (fst p * snd p)) l ->
  0 < sum_weights l <= 2 ^ 1000 -> INR (length l) <= 2 ^ 20 -> Forall (fun p => snd p = q) l -> Rabs (shape_mean l - q) <= (2 * INR (length l) + 4) * u * Rabs q + / 2 ^ 1075.
Proof.
  intros q l H1 H2 H3 H4 H5. pose proof (C98_mean l H1 H2 H3 H4) as M.
  assert (V : sum_values l = q * sum_weights l /\ sum_sizes l = Rabs q * sum_weights l).
  { clear - H5. unfold sum_values, sum_sizes, sum_weights. induction l as [|p l IH]; cbn [total]; [split; ring|]. inversion H5 as [|? ? E H']; subst. destruct (IH H') as (-> & ->). split; ring. }
  destruct V as (V1 & V2). rewrite V1, V2 in M. replace (q * sum_weights l / sum_weights l) with q in M by (field; lra). replace (Rabs q * sum_weights l / sum_weights l) with (Rabs q) in M by (field; lra). exact M.
Qed.
Lemma rnd_pos : forall x, 0 <= x -> 0 <= rnd x.
Proof. intros x H. rewrite <- (round_0 radix2 fexp ZnearestE). apply round_le; [typeclasses eauto | typeclasses eauto | exact H]. Qed.
(** Averages of coefficients that are not negative are not negative. *)
Theorem C98_sign : forall l, Forall (fun p => 0 <= fst p /\ 0 <= snd p) l -> 0 <= shape_mean l.
Proof.
  intros l H. unfold shape_mean. rewrite loop.
  assert (S : forall m a, 0 <= a -> Forall (fun x => 0 <= x) m -> 0 <= fsum a m).
  { induction m as [|x m IH]; intros a Ha Hm; [exact Ha|]. inversion Hm; subst. cbn [fsum fold_left]. apply IH; [apply rnd_pos; lra | assumption]. }
  assert (A : 0 <= fsum 0 (map (fun p => fmul (fst p) (snd p)) l)).
  { apply S; [lra|]. apply Forall_forall. intros x Hx. apply in_map_iff in Hx as (p & <- & Hp). rewrite Forall_forall in H. destruct (H p Hp). apply rnd_pos. nra. }
  assert (B : 0 <= fsum 0 (map fst l)). { apply S; [lra|]. apply Forall_forall. intros x Hx. apply in_map_iff in Hx as (p & <- & Hp). rewrite Forall_forall in H. apply H, Hp. }
  apply rnd_pos. apply Rmult_le_pos; [exact A|]. apply rnd_pos. unfold Rdiv. rewrite Rmult_1_l. destruct B as [B|B]; [left; apply Rinv_0_lt_compat; exact B | rewrite <- B, Rinv_0; lra].
Qed.
(** The average over the distribution with a single shape is the coefficient of this shape, bit for bit. *)
Theorem C98_single_shape : forall q, is_double q -> shape_mean (combine single_shape_weights [q]) = q.
Proof.
  intros q H. apply double_format in H. unfold shape_mean, single_shape_weights. cbn [combine fold_left]. unfold fmul, fadd, fdiv.
  assert (G : rnd q = q) by (apply round_generic; [typeclasses eauto | exact H]). replace (1 * q) with q by ring. rewrite G. replace (0 + q) with q by ring. rewrite G. replace (0 + 1) with 1 by ring.
  rewrite (rnd_int 1) by lia. replace (1 / 1) with 1 by field. rewrite (rnd_int 1) by lia. replace (q * 1) with q by ring. exact G.
Qed.
(** With other weights not: a single shape of weight 49 and coefficient 1. *)
Theorem C98_equal_coefficients_refuted : shape_mean [(49, 1)] = 1 - u /\ shape_mean [(49, 1)] <> 1.
Proof.
  assert (E : shape_mean [(49, 1)] = 1 - u).
  { assert (U : u = / 9007199254740992) by (unfold u; f_equal; rewrite pow_IZR; reflexivity).
    assert (B1 : bpow radix2 (-47) = / 140737488355328) by reflexivity. assert (B2 : bpow radix2 (-58) = / 288230376151711744) by reflexivity. assert (B3 : bpow radix2 (-53) = / 9007199254740992) by reflexivity.
    assert (R49 : rnd 49 = 49). { rewrite (rnd_is 6896136929411072 (-47)); [rewrite B1; lra | lia | lia | rewrite B1; apply Rabs_lt; lra]. }
    unfold shape_mean. cbn [fold_left]. unfold fmul, fadd, fdiv. replace (49 * 1) with 49 by ring. rewrite R49. replace (0 + 49) with 49 by ring. rewrite R49.
    rewrite (rnd_is 5882252574524729 (-58) (1 / 49)); [| lia | lia | rewrite B2; apply Rabs_lt; lra].
    rewrite (rnd_is 9007199254740991 (-53)); [rewrite B3, U; lra | lia | lia | rewrite B2, B3; apply Rabs_lt; lra]. }
  split; [exact E|]. rewrite E. pose proof u_small. lra.
Qed.
Print Assumptions C98_mean. Print Assumptions C98_equal_coefficients. Print Assumptions C98_sign. Print Assumptions C98_single_shape. Print Assumptions C98_equal_coefficients_refuted.
(** three shapes with weights 1/2, 2 and 1/2 and coefficients 1, -3 and 2 meet the hypotheses of C98_mean *)
Example C98_three_shapes : let l := [(1 / 2, 1); (2, -3); (1 / 2, 2)] in Forall (fun p => is_double (fst p) /\ 0 <= fst p) l /\
  Forall (fun p => fst p * snd p = 0 \/ / 2 ^ 1022 <= Rabs (fst p * snd p)) l /\ 0 < sum_weights l <= 2 ^ 1000 /\ INR (length l) <= 2 ^ 20 /\ sum_values l / sum_weights l = - 3 / 2.
Proof.
  cbv zeta. assert (D1 : is_double (1 / 2)) by (exists 1%Z, (-1)%Z; split; [change (bpow radix2 (-1)) with (/ 2); lra | lia]). assert (D2 : is_double 2) by (exists 2%Z, 0%Z; split; [change (bpow radix2 0) with 1; lra | lia]).
  assert (P : / 2 ^ 1022 <= / 2). { apply Rinv_le_contravar; [lra|]. replace 2 with (2 ^ 1) at 1 by ring. apply Rle_pow; [lra|lia]. }
  split; [apply Forall_cons; [cbn [fst]; split; [exact D1|lra] | apply Forall_cons; [cbn [fst]; split; [exact D2|lra] | apply Forall_cons; [cbn [fst]; split; [exact D1|lra] | apply Forall_nil]]]|]. split; [apply Forall_cons; [right; cbn [fst snd]; eapply Rle_trans; [exact P|]; rewrite Rabs_right; lra | apply Forall_cons; [right; cbn [fst snd]; eapply Rle_trans; [exact P|]; rewrite Rabs_left; lra | apply Forall_cons; [right; cbn [fst snd]; eapply Rle_trans; [exact P|]; rewrite Rabs_right; lra | apply Forall_nil]]]|].
  unfold sum_weights, sum_values. cbn [total fst snd length]. split; [split; [lra|]; apply Rle_trans with (2 ^ 2); [lra | apply Rle_pow; [lra|lia]]|]. split; [|field].
  apply Rle_trans with (2 ^ 2); [cbn [INR]; lra | apply Rle_pow; [lra|lia]].
Qed.
