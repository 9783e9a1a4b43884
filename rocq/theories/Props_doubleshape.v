(** C102: the shape factor of spheroids in double precision, near the sphere and for very flat shapes. *)
From Coq Require Import ZArith Reals Lra Lia Psatz.
From Coquelicot Require Import Coquelicot.
From Flocq Require Import Core Relative Plus_error Sterbenz.
From Verif Require Import Doubles Props_doubles Props_doublemean DoubleShape Shape ShapeFacts.
Local Open Scope R_scope.
#[local] Instance prec_positive : Prec_gt_0 53 := eq_refl.
Local Notation fexp := (FLT_exp (-1074) 53).
Local Notation format := (generic_format radix2 fexp).

Lemma bp : forall p : positive, bpow radix2 (Z.neg p) = / IZR (2 ^ Z.pos p).
Proof. intros p. change (Z.neg p) with (- Z.pos p)%Z. rewrite bpow_opp. f_equal. Qed.
Lemma grid : forall x, format x -> / 2 <= x -> exists k : Z, x = IZR k * bpow radix2 (-53).
Proof.
  intros x F H. apply double_format in F. destruct F as (m & e & -> & M & E).
  assert (L : (-53 <= e)%Z).
  { destruct (Z_le_gt_dec (-53) e) as [|G]; [auto|exfalso]. assert (e <= -54)%Z by lia. pose proof (bpow_le radix2 e (-54) ltac:(lia)) as B. rewrite (bp 54%positive) in B. change (2 ^ 54)%Z with 18014398509481984%Z in B.
    pose proof (bpow_gt_0 radix2 e) as P. assert (Mx : IZR m <= 9007199254740991) by (apply IZR_le; lia). nra. }
  exists (m * 2 ^ (e + 53))%Z. rewrite mult_IZR. change 2%Z with (radix_val radix2). rewrite IZR_Zpower by lia. rewrite Rmult_assoc, <- bpow_plus. do 2 f_equal. lia.
Qed.
Lemma in_format : forall m e, (Z.abs m < 2 ^ 53)%Z -> (-1074 <= e)%Z -> format (IZR m * bpow radix2 e).
Proof. intros m e M E. apply double_format. exists m, e. auto. Qed.
Lemma rnd_id : forall x, format x -> rnd x = x.
Proof. intros x F. apply round_generic; [typeclasses eauto | exact F]. Qed.
Lemma rnd_le : forall x y, x <= y -> rnd x <= rnd y.
Proof. intros x y H. apply round_le; [typeclasses eauto | typeclasses eauto | exact H]. Qed.
Lemma pow_format : forall k, (-1074 <= k)%Z -> format (bpow radix2 k).
Proof. intros k H. apply generic_format_FLT_bpow; [reflexivity | lia]. Qed.

(** what is left of the shape factor: a multiple of 1/4 *)
Lemma quarters : forall q, format q -> / 12 <= Rabs (fdiv (fsub 1 q) (bpow radix2 (-51)) - 1 / 3).
Proof.
  intros q F. unfold fdiv, fsub. assert (D : forall x, x / bpow radix2 (-51) = x * bpow radix2 51). { intros x. unfold Rdiv. rewrite <- bpow_opp. reflexivity. } rewrite D.
  assert (P51 : bpow radix2 51 = 2251799813685248) by reflexivity.
  assert (F1 : format 1) by (change 1 with (bpow radix2 0); apply pow_format; lia).
  destruct (Rlt_dec q (/ 2)) as [Q1 | Q1]; [|destruct (Rlt_dec 2 q) as [Q2 | Q2]].
  - assert (A : / 2 <= rnd (1 - q)). { assert (F2 : format (/ 2)) by (replace (/ 2) with (bpow radix2 (-1)) by (rewrite (bp 1%positive); reflexivity); apply pow_format; lia). rewrite <- (rnd_id (/ 2) F2) at 1. apply rnd_le. lra. }
    assert (B : 1 <= rnd (rnd (1 - q) * bpow radix2 51)). { rewrite <- (rnd_id 1 F1) at 1. apply rnd_le. rewrite P51. lra. }
    rewrite Rabs_right by lra. lra.
  - assert (A : rnd (1 - q) <= -1). { assert (F2 : format (-1)) by (apply generic_format_opp; exact F1). rewrite <- (rnd_id (-1) F2). apply rnd_le. lra. }
    assert (B : rnd (rnd (1 - q) * bpow radix2 51) <= 0). { rewrite <- (rnd_id 0 (generic_format_0 _ _)). apply rnd_le. rewrite P51. lra. }
    rewrite Rabs_left by lra. lra.
  - assert (S : format (1 - q)). { apply sterbenz; try typeclasses eauto; auto. lra. }
    rewrite (rnd_id _ S). destruct (grid q F ltac:(lra)) as (k & K).
    assert (E53 : bpow radix2 (-53) = / 9007199254740992) by (rewrite (bp 53%positive); reflexivity).
    assert (V : (1 - q) * bpow radix2 51 = IZR (2 ^ 53 - k) * / 4). { rewrite K, P51, E53, minus_IZR. change (2 ^ 53)%Z with 9007199254740992%Z. field. }
    rewrite V. assert (R0 : rnd (IZR (2 ^ 53 - k) * / 4) = IZR (2 ^ 53 - k) * / 4).
    { apply rnd_id. rewrite <- V. replace (bpow radix2 51) with (bpow radix2 (51)) by reflexivity.
      destruct (proj2 (double_format _) S) as (m & e & -> & M & E). rewrite Rmult_assoc, <- bpow_plus. apply in_format; [exact M | lia]. }
    rewrite R0. set (j := (2 ^ 53 - k)%Z). assert (J : (3 * j <= 3 \/ 5 <= 3 * j)%Z) by lia. destruct J as [J | J].
    + assert (IZR (3 * j) <= 3) by (apply IZR_le; lia). rewrite mult_IZR in H. rewrite Rabs_left by lra. lra.
    + assert (5 <= IZR (3 * j)) by (apply IZR_le; lia). rewrite mult_IZR in H. rewrite Rabs_right by lra. lra.
Qed.

Definition nearly_round : R := 1 + bpow radix2 (-52).
Lemma nearly_round_double : is_double nearly_round.
Proof. exists (2 ^ 52 + 1)%Z, (-52)%Z. split; [|split; lia]. unfold nearly_round. rewrite plus_IZR. change (2 ^ 52)%Z with 4503599627370496%Z. rewrite (bp 52%positive). change (2 ^ 52)%Z with 4503599627370496%Z. field. Qed.
Lemma eccentricity : fsub 1 (fdiv 1 (fmul nearly_round nearly_round)) = bpow radix2 (-51).
Proof.
  unfold fsub, fdiv, fmul, nearly_round.
  assert (E1 : bpow radix2 (-52) = / 4503599627370496) by (rewrite (bp 52%positive); reflexivity).
  assert (E2 : bpow radix2 (-53) = / 9007199254740992) by (rewrite (bp 53%positive); reflexivity).
  assert (E3 : bpow radix2 (-51) = / 2251799813685248) by (rewrite (bp 51%positive); reflexivity).
  assert (A : rnd ((1 + bpow radix2 (-52)) * (1 + bpow radix2 (-52))) = IZR (2 ^ 52 + 2) * bpow radix2 (-52)).
  { apply rnd_is; [lia | lia |]. rewrite plus_IZR. change (2 ^ 52)%Z with 4503599627370496%Z. rewrite E1. set (t := / 4503599627370496).
    assert (T1 : 4503599627370496 * t = 1) by (unfold t; field). assert (T2 : 0 < t < / 8) by (unfold t; lra).
    replace ((1 + t) * (1 + t) - (4503599627370496 + 2) * t) with (t * t) by nra. rewrite Rabs_right by nra. nra. }
  rewrite A. clear A.
  assert (B : rnd (1 / (IZR (2 ^ 52 + 2) * bpow radix2 (-52))) = IZR (2 ^ 53 - 4) * bpow radix2 (-53)).
  { apply rnd_is; [lia | lia |]. rewrite plus_IZR, minus_IZR. change (2 ^ 52)%Z with 4503599627370496%Z. change (2 ^ 53)%Z with 9007199254740992%Z. rewrite E1, E2.
    replace (1 / ((4503599627370496 + 2) * / 4503599627370496) - (9007199254740992 - 4) * / 9007199254740992) with (8 / 4503599627370498 * / 9007199254740992) by field.
    rewrite Rabs_right by lra. lra. }
  rewrite B. clear B. replace (1 - IZR (2 ^ 53 - 4) * bpow radix2 (-53)) with (bpow radix2 (-51)).
  - apply rnd_id, pow_format. lia.
  - rewrite minus_IZR, E2, E3. change (2 ^ 53)%Z with 9007199254740992%Z. field.
Qed.
Lemma true_factor : Rabs (get_shape_factor nearly_round - 1 / 3) <= / 1000000.
Proof.
  unfold nearly_round. assert (E1 : bpow radix2 (-52) = / 4503599627370496) by (rewrite (bp 52%positive); reflexivity). rewrite E1. set (t := / 4503599627370496). assert (T : 0 < t <= / 100000000) by (unfold t; lra).
  rewrite <- shape_sphere. destruct (MVT_gen get_shape_factor 1 (1 + t) slope) as (c & C & E).
  - intros x Hx. rewrite Rmin_left, Rmax_right in Hx by lra. apply shape_deriv. lra.
  - intros x Hx. rewrite Rmin_left, Rmax_right in Hx by lra. apply continuity_pt_filterlim. apply (ex_derive_continuous get_shape_factor). exists (slope x). apply shape_deriv. lra.
  - rewrite Rmin_left, Rmax_right in C by lra. rewrite E. replace (1 + t - 1) with t by ring. pose proof (slope_pos c ltac:(lra)) as S1. pose proof (jacobian_near c ltac:(lra)) as J.
    assert (S2 : slope c <= 1).
    { assert (G : get_jacobian c <= 4 / 15).
      { unfold get_jacobian. destruct (Rlt_dec c 1); [lra|]. destruct (Rlt_dec 1 c) as [L|]; [|lra]. cbv zeta. set (e2 := 1 - 1 / (c * c)).
        assert (I : c * c * (1 / (c * c)) = 1) by (field; lra). assert (0 < 1 / (c * c)) by (apply Rdiv_lt_0_compat; nra). assert (B : 0 <= e2 < / 100000) by (unfold e2; nra).
        destruct (Rlt_dec e2 (/ 100000)); [nra | lra]. }
      apply Rabs_le_inv in J. assert (2 * / 10 ^ 15 <= / 10) by (cbn [pow]; lra). lra. }
    rewrite Rabs_right by nra. nra.
Qed.

(** For the axis ratio 1 + 2^-52 the shape factor in double precision is wrong by more than 0.08, whatever the functions log and asin of the C library return:
    the natural claim, that it is accurate up to rounding, is false of the code. *)
Theorem C102_shape_factor_refuted : exists d, is_double d /\ 1 < d < 1 + / 10 ^ 15 /\ Rabs (get_shape_factor d - 1 / 3) <= / 1000000 /\
  forall flog fasin, exists L, shape_factor_double flog fasin d = Some L /\ 8 / 100 <= Rabs (L - get_shape_factor d).
Proof.
  assert (E1 : bpow radix2 (-52) = / 4503599627370496) by (rewrite (bp 52%positive); reflexivity).
  exists nearly_round. split; [exact nearly_round_double|]. split. { unfold nearly_round. rewrite E1. cbn [pow]. lra. } split; [exact true_factor|].
  intros flog fasin. unfold shape_factor_double. assert (G : 1 < nearly_round) by (unfold nearly_round; rewrite E1; lra). destruct (Rlt_dec nearly_round 1); [lra|]. destruct (Rlt_dec 1 nearly_round); [|lra]. cbv zeta.
  eexists. split; [reflexivity|]. rewrite eccentricity.
  match goal with |- context [fsub 1 (fdiv ?a ?b)] => pose proof (quarters (fdiv a b) (rnd_format _)) as Q end. pose proof true_factor as T.
  match goal with |- context [Rabs (?x - get_shape_factor _)] => set (L := x) in * end.
  pose proof (Rabs_triang (L - get_shape_factor nearly_round) (get_shape_factor nearly_round - 1 / 3)) as TR. replace (L - get_shape_factor nearly_round + (get_shape_factor nearly_round - 1 / 3)) with (L - 1 / 3) in TR by ring. lra.
Qed.

(** For axis ratios up to 2^-28 it is not a number, although the shape factor exists. *)
Theorem C102_flat_shapes_refuted : forall flog fasin d, 0 < d <= / 2 ^ 28 -> shape_factor_double flog fasin d = None /\ 0 < get_shape_factor d < 1.
Proof.
  intros flog fasin d (H0 & H). assert (N28 : 2 ^ 28 = 268435456) by ring. rewrite N28 in H. split; [|apply shape_range; exact H0]. unfold shape_factor_double. destruct (Rlt_dec d 1); [|lra]. cbv zeta. unfold fsub, fmul, fsqrt.
  assert (F1 : format 1) by (change 1 with (bpow radix2 0); apply pow_format; lia).
  assert (A : 0 <= rnd (d * d) <= bpow radix2 (-56)).
  { split; [rewrite <- (rnd_id 0 (generic_format_0 _ _)) at 1; apply rnd_le; apply Rmult_le_pos; lra | rewrite <- (rnd_id (bpow radix2 (-56)) (pow_format (-56) ltac:(lia))); apply rnd_le].
    rewrite (bp 56%positive). change (2 ^ 56)%Z with 72057594037927936%Z. pose proof (Rmult_le_compat d (/ 268435456) d (/ 268435456) ltac:(lra) ltac:(lra) H H). lra. }
  assert (E56 : bpow radix2 (-56) = / 72057594037927936) by (rewrite (bp 56%positive); reflexivity). assert (E54 : bpow radix2 (-54) = / 18014398509481984) by (rewrite (bp 54%positive); reflexivity).
  assert (E53 : bpow radix2 (-53) = / 9007199254740992) by (rewrite (bp 53%positive); reflexivity). rewrite E56 in A.
  assert (One : rnd (1 - rnd (d * d)) = 1).
  { set (x := 1 - rnd (d * d)). assert (X : 1 - / 72057594037927936 <= x <= 1) by (unfold x; lra). destruct (rnd_small 0 x ltac:(lia)) as (B1 & B2). { change (bpow radix2 0) with 1. rewrite Rabs_right; lra. }
    change (0 - 54)%Z with (-54)%Z in B2. rewrite E54 in B2. apply Rabs_le_inv in B2. change (bpow radix2 0) with 1 in B1. apply Rabs_le_inv in B1.
    destruct (grid (rnd x) (rnd_format _) ltac:(lra)) as (k & K). rewrite K, E53 in B1, B2 |- *.
    assert (K1 : (k <= 9007199254740992)%Z) by (apply le_IZR; lra). assert (K2 : (9007199254740991 < k)%Z) by (apply lt_IZR; lra). replace k with 9007199254740992%Z by lia. field. }
  rewrite One, sqrt_1, (rnd_id 1 F1). replace (1 - 1) with 0 by ring. rewrite (rnd_id 0 (generic_format_0 _ _)). destruct (Req_EM_T 0 0); [reflexivity | congruence].
Qed.
Example C102_flat_case : 0 < / 2 ^ 30 <= / 2 ^ 28.
Proof. cbn [pow]. split; lra. Qed.

(** For a sphere it is the double next to 1/3. *)
Theorem C102_sphere : forall flog fasin, exists L, shape_factor_double flog fasin 1 = Some L /\ is_double L /\ Rabs (L - get_shape_factor 1) <= / 2 ^ 54.
Proof.
  intros flog fasin. exists (rnd (1 / 3)). unfold shape_factor_double, fdiv. destruct (Rlt_dec 1 1); [lra|]. split; [reflexivity|]. split; [apply double_format, rnd_format|]. rewrite shape_sphere.
  destruct (rnd_small 0 (1 / 3) ltac:(lia)) as (_ & B). { change (bpow radix2 0) with 1. rewrite Rabs_right; lra. } change (0 - 54)%Z with (-54)%Z in B. rewrite h_bpow in B. exact B.
Qed.
Print Assumptions C102_sphere.
Print Assumptions C102_shape_factor_refuted.
Print Assumptions C102_flat_shapes_refuted.
