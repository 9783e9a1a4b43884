(** Clebsch-Gordan coefficients, specification side: Racah's closed formula, and the relations
    (ladder, normalisation, symmetry, orthogonality to the scalar state) that follow from it.
    Nothing in this file is taken from the code. *)
From Coq Require Import ZArith Reals Lra Lia Arith.
Open Scope R_scope.

(** Factorial of an integer that is not negative. *)
Definition zfact (z : Z) : R := INR (fact (Z.to_nat z)).

(** 1/z!, with 1/z! = 0 for negative z. *)
Definition ifact (z : Z) : R := if (z <? 0)%Z then 0 else / zfact z.

(** One term of Racah's sum. *)
Definition racah_term (n1 m1 n2 m2 N : Z) (k : nat) : R :=
  let k' := Z.of_nat k in
  (-1) ^ k * ifact k' * ifact (n1 + n2 - N - k') * ifact (n1 - m1 - k') * ifact (n2 + m2 - k')
    * ifact (N - n2 + m1 + k') * ifact (N - n1 - m2 + k').

(** The Clebsch-Gordan coefficient <n1 m1 n2 m2 | N M> (Racah 1942). *)
Definition clebsch_gordan (n1 m1 n2 m2 N M : Z) : R :=
  if Z.eqb (m1 + m2) M then
    sqrt (IZR (2 * N + 1) * zfact (N + n1 - n2) * zfact (N - n1 + n2) * zfact (n1 + n2 - N) / zfact (n1 + n2 + N + 1))
    * sqrt (zfact (N + M) * zfact (N - M) * zfact (n1 + m1) * zfact (n1 - m1) * zfact (n2 + m2) * zfact (n2 - m2))
    * sum_f_R0 (racah_term n1 m1 n2 m2 N) (Z.to_nat (n1 + n2 - N))
  else 0.

(* ------------------------------------------------------------------ facts *)

Lemma zfact_pos : forall z, 0 < zfact z.
Proof. intros z. unfold zfact. apply lt_0_INR, lt_O_fact. Qed.

Lemma zfact_0 : zfact 0 = 1.
Proof. reflexivity. Qed.

Lemma zfact_S : forall z, (0 <= z)%Z -> zfact (z + 1) = IZR (z + 1) * zfact z.
Proof.
  intros z Hz. unfold zfact. replace (Z.to_nat (z + 1)) with (S (Z.to_nat z)) by lia.
  rewrite fact_simpl, mult_INR. f_equal. rewrite INR_IZR_INZ. f_equal. lia.
Qed.

Lemma ifact_neg : forall z, (z < 0)%Z -> ifact z = 0.
Proof. intros z Hz. unfold ifact. destruct (Z.ltb_spec z 0); [auto|lia]. Qed.

Lemma ifact_nn : forall z, (0 <= z)%Z -> ifact z = / zfact z.
Proof. intros z Hz. unfold ifact. destruct (Z.ltb_spec z 0); [lia|auto]. Qed.

Lemma ifact_step : forall z, IZR z * ifact z = ifact (z - 1).
Proof.
  intros z. destruct (Z_lt_le_dec z 0) as [H|H].
  - rewrite !ifact_neg by lia. ring.
  - destruct (Z.eq_dec z 0) as [ -> | Hz ].
    + rewrite (ifact_neg (0 - 1)) by lia. ring.
    + rewrite !ifact_nn by lia. replace z with (z - 1 + 1)%Z at 1 2 by lia. rewrite zfact_S by lia.
      pose proof (zfact_pos (z - 1)). field. split; [lra|]. apply not_0_IZR. lia.
Qed.

Lemma ifact_step_eq : forall z w, (w = z - 1)%Z -> IZR z * ifact z = ifact w.
Proof. intros z w ->. apply ifact_step. Qed.

(** Racah's sum, as a function of m1 and m2. *)
Definition rsum (n1 m1 n2 m2 N : Z) : R := sum_f_R0 (racah_term n1 m1 n2 m2 N) (Z.to_nat (n1 + n2 - N)).

Lemma sum_shift : forall (f : nat -> R) c, sum_f_R0 f c = sum_f_R0 (fun k => f (S k)) c + f 0%nat - f (S c).
Proof. induction c as [|c IH]; cbn [sum_f_R0]; [lra|rewrite IH; lra]. Qed.

Lemma rsum_ladder : forall n1 m1 n2 m2 N, (N <= n1 + n2)%Z ->
  IZR (N - m1 - m2) * rsum n1 m1 n2 m2 N =
  IZR (n1 + m1 + 1) * rsum n1 (m1 + 1) n2 m2 N + IZR (n2 + m2 + 1) * rsum n1 m1 n2 (m2 + 1) N.
Proof.
  intros n1 m1 n2 m2 N HN. unfold rsum. set (c := Z.to_nat (n1 + n2 - N)).
  (* the part that telescopes *)
  set (g := fun k : nat => (-1) ^ k * ifact (Z.of_nat k - 1) * ifact (n1 + n2 - N - Z.of_nat k)
     * ifact (n1 - m1 - Z.of_nat k) * ifact (N - n2 + m1 + Z.of_nat k)
     * ifact (N - n1 - m2 + Z.of_nat k - 1) * ifact (n2 + m2 - Z.of_nat k + 1)).
  assert (E: forall k, IZR (n1 + m1 + 1) * racah_term n1 (m1 + 1) n2 m2 N k + IZR (n2 + m2 + 1) * racah_term n1 m1 n2 (m2 + 1) N k
     = IZR (N - m1 - m2) * racah_term n1 m1 n2 m2 N k + (g k - g (S k))).
  { intros k. unfold racah_term, g. cbv zeta.
    set (z := Z.of_nat k). replace (Z.of_nat (S k)) with (z + 1)%Z by lia.
    replace (n1 - (m1 + 1) - z)%Z with (n1 - m1 - z - 1)%Z by lia.
    replace (n1 - m1 - (z + 1))%Z with (n1 - m1 - z - 1)%Z by lia.
    replace (N - n2 + (m1 + 1) + z)%Z with (N - n2 + m1 + z + 1)%Z by lia.
    replace (N - n2 + m1 + (z + 1))%Z with (N - n2 + m1 + z + 1)%Z by lia.
    replace (n2 + (m2 + 1) - z)%Z with (n2 + m2 - z + 1)%Z by lia.
    replace (n2 + m2 - (z + 1) + 1)%Z with (n2 + m2 - z)%Z by lia.
    replace (N - n1 - (m2 + 1) + z)%Z with (N - n1 - m2 + z - 1)%Z by lia.
    replace (N - n1 - m2 + (z + 1) - 1)%Z with (N - n1 - m2 + z)%Z by lia.
    replace (z + 1 - 1)%Z with z by lia.
    replace (n1 + n2 - N - (z + 1))%Z with (n1 + n2 - N - z - 1)%Z by lia.
    rewrite <- (ifact_step z), <- (ifact_step (n1 + n2 - N - z)), <- (ifact_step (n1 - m1 - z)),
      <- (ifact_step_eq (N - n2 + m1 + z + 1) (N - n2 + m1 + z)) by lia.
    rewrite <- (ifact_step (N - n1 - m2 + z)), <- (ifact_step_eq (n2 + m2 - z + 1) (n2 + m2 - z)) by lia.
    cbn [pow]. repeat (rewrite minus_IZR || rewrite plus_IZR).
    generalize (ifact z) (ifact (n1 + n2 - N - z)) (ifact (n1 - m1 - z)) (ifact (N - n2 + m1 + z + 1))
      (ifact (N - n1 - m2 + z)) (ifact (n2 + m2 - z + 1)) ((-1) ^ k).
    intros f1 f2 f3 f4 f5 f6 s. ring. }
  rewrite !scal_sum.
  assert (T: forall f c, sum_f_R0 (fun k => f k - f (S k)) c = f 0%nat - f (S c)).
  { intros f c0. induction c0 as [|c0 IH]; cbn [sum_f_R0]; [lra|rewrite IH; lra]. }
  assert (G0: g 0%nat = 0). { unfold g. rewrite (ifact_neg (Z.of_nat 0 - 1)) by lia. ring. }
  assert (Gc: g (S c) = 0). { unfold g. rewrite (ifact_neg (n1 + n2 - N - Z.of_nat (S c))) by (subst c; lia). ring. }
  rewrite <- sum_plus.
  symmetry. rewrite (sum_eq _ (fun k => racah_term n1 m1 n2 m2 N k * IZR (N - m1 - m2) + (g k - g (S k)))).
  - rewrite sum_plus, T, G0, Gc. lra.
  - intros k _. specialize (E k). lra.
Qed.

Lemma rsum_m1_out : forall n1 m1 n2 m2 N, (n1 < m1)%Z -> rsum n1 m1 n2 m2 N = 0.
Proof.
  intros. unfold rsum. rewrite (sum_eq _ (fun _ => 0)); [rewrite sum_cte; lra|].
  intros k _. unfold racah_term. rewrite (ifact_neg (n1 - m1 - Z.of_nat k)) by lia. ring.
Qed.

Lemma rsum_m2_out : forall n1 m1 n2 m2 N, (N <= n1 + n2)%Z -> (n2 < m2)%Z -> rsum n1 m1 n2 m2 N = 0.
Proof.
  intros. unfold rsum. rewrite (sum_eq _ (fun _ => 0)); [rewrite sum_cte; lra|].
  intros k Hk. unfold racah_term. rewrite (ifact_neg (N - n1 - m2 + Z.of_nat k)) by lia. ring.
Qed.

Lemma sum_rev : forall c (f : nat -> R), sum_f_R0 f c = sum_f_R0 (fun k => f (c - k)%nat) c.
Proof.
  induction c as [|c IH]; intros f; [reflexivity|].
  rewrite (decomp_sum (fun k => f (S c - k)%nat)) by lia. cbn [pred].
  rewrite (sum_eq (fun i => f (S c - S i)%nat) (fun i => f (c - i)%nat)) by (intros; f_equal; lia).
  cbn [sum_f_R0]. rewrite (IH f). replace (S c - 0)%nat with (S c) by lia. lra.
Qed.

Lemma rsum_symmetry : forall n1 m1 n2 m2 N, (N <= n1 + n2)%Z ->
  rsum n1 (- m1) n2 (- m2) N = (-1) ^ Z.to_nat (n1 + n2 - N) * rsum n1 m1 n2 m2 N.
Proof.
  intros. unfold rsum. rewrite sum_rev. rewrite scal_sum. apply sum_eq. intros k Hk. unfold racah_term.
  set (c := Z.to_nat (n1 + n2 - N)) in *. assert (Ec: Z.of_nat c = (n1 + n2 - N)%Z) by (subst c; lia).
  rewrite Nat2Z.inj_sub by lia. rewrite Ec.
  replace (n1 + n2 - N - (n1 + n2 - N - Z.of_nat k))%Z with (Z.of_nat k) by lia.
  replace (n1 - - m1 - (n1 + n2 - N - Z.of_nat k))%Z with (N - n2 + m1 + Z.of_nat k)%Z by lia.
  replace (n2 + - m2 - (n1 + n2 - N - Z.of_nat k))%Z with (N - n1 - m2 + Z.of_nat k)%Z by lia.
  replace (N - n2 + - m1 + (n1 + n2 - N - Z.of_nat k))%Z with (n1 - m1 - Z.of_nat k)%Z by lia.
  replace (N - n1 - - m2 + (n1 + n2 - N - Z.of_nat k))%Z with (n2 + m2 - Z.of_nat k)%Z by lia.
  assert (S1: (-1) ^ c = (-1) ^ (c - k) * (-1) ^ k) by (rewrite <- pow_add; f_equal; lia).
  assert (S2: (-1) ^ k * (-1) ^ k = 1).
  { rewrite <- pow_add. replace (k + k)%nat with (2 * k)%nat by lia. rewrite pow_mult.
    replace ((-1)^2) with 1 by ring. apply pow1. }
  rewrite S1.
  generalize (ifact (n1 + n2 - N - Z.of_nat k)) (ifact (Z.of_nat k)) (ifact (N - n2 + m1 + Z.of_nat k))
    (ifact (N - n1 - m2 + Z.of_nat k)) (ifact (n1 - m1 - Z.of_nat k)) (ifact (n2 + m2 - Z.of_nat k)).
  intros f1 f2 f3 f4 f5 f6.
  transitivity ((-1) ^ (c - k) * ((-1) ^ k * (-1) ^ k) * (f1 * f2 * f3 * f4 * f5 * f6)); [rewrite S2; ring|ring].
Qed.

(** Weights of the states. *)
Definition sw (n m : Z) : R := sqrt (zfact (n + m) * zfact (n - m)).
Definition kfac (n1 n2 N : Z) : R :=
  sqrt (IZR (2 * N + 1) * zfact (N + n1 - n2) * zfact (N - n1 + n2) * zfact (n1 + n2 - N) / zfact (n1 + n2 + N + 1)).

Lemma sw_pos : forall n m, 0 < sw n m.
Proof. intros. unfold sw. apply sqrt_lt_R0. apply Rmult_lt_0_compat; apply zfact_pos. Qed.

Lemma sw_opp : forall n m, sw n (- m) = sw n m.
Proof. intros. unfold sw. replace (n + - m)%Z with (n - m)%Z by lia. replace (n - - m)%Z with (n + m)%Z by lia. f_equal. ring. Qed.

Lemma cg_eq : forall n1 m1 n2 m2 N M, (m1 + m2 = M)%Z ->
  clebsch_gordan n1 m1 n2 m2 N M = kfac n1 n2 N * (sw N M * sw n1 m1 * sw n2 m2) * rsum n1 m1 n2 m2 N.
Proof.
  intros n1 m1 n2 m2 N M E. unfold clebsch_gordan. rewrite (proj2 (Z.eqb_eq _ _) E). fold (kfac n1 n2 N). unfold rsum. f_equal. f_equal.
  unfold sw. pose proof zfact_pos as P.
  rewrite <- !sqrt_mult; try (repeat apply Rmult_le_pos; apply Rlt_le, P). f_equal. ring.
Qed.

Lemma sw_up : forall n m, (- n <= m < n)%Z -> sqrt (IZR (n + m + 1) * IZR (n - m)) * sw n (m + 1) = IZR (n + m + 1) * sw n m.
Proof.
  intros n m H. unfold sw. pose proof zfact_pos as P.
  assert (A: 0 < IZR (n + m + 1)) by (apply IZR_lt; lia). assert (B: 0 < IZR (n - m)) by (apply IZR_lt; lia).
  replace (IZR (n + m + 1)) with (sqrt (IZR (n + m + 1) * IZR (n + m + 1))) at 2 by (rewrite sqrt_square; lra).
  rewrite <- !sqrt_mult; try (repeat apply Rmult_le_pos; (apply Rlt_le; (apply P || assumption))).
  f_equal. replace (n + (m + 1))%Z with (n + m + 1)%Z by lia. rewrite (zfact_S (n + m)) by lia.
  replace (n - m)%Z with (n - (m + 1) + 1)%Z at 2 by lia. rewrite (zfact_S (n - (m + 1))) by lia.
  replace (n - (m + 1) + 1)%Z with (n - m)%Z by lia. ring.
Qed.

Lemma sw_down : forall n m, (- n <= m < n)%Z -> sqrt (IZR (n + m + 1) * IZR (n - m)) * sw n m = IZR (n - m) * sw n (m + 1).
Proof.
  intros n m H. pose proof (sw_up n m H) as U. pose proof (sw_pos n m). pose proof (sw_pos n (m + 1)).
  assert (A: 0 < IZR (n + m + 1)) by (apply IZR_lt; lia). assert (B: 0 < IZR (n - m)) by (apply IZR_lt; lia).
  apply Rmult_eq_reg_l with (IZR (n + m + 1)); [|lra].
  replace (IZR (n + m + 1) * (sqrt (IZR (n + m + 1) * IZR (n - m)) * sw n m))
    with (sqrt (IZR (n + m + 1) * IZR (n - m)) * (IZR (n + m + 1) * sw n m)) by ring.
  rewrite <- U. rewrite <- Rmult_assoc. rewrite sqrt_sqrt by nra. ring.
Qed.

(** Lowering: the coefficients of M from those of M+1. *)
Lemma cg_ladder : forall n1 m1 n2 m2 N M, (N <= n1 + n2)%Z -> (m1 + m2 = M)%Z -> (- N <= M < N)%Z ->
  (- n1 <= m1 <= n1)%Z -> (- n2 <= m2 <= n2)%Z ->
  sqrt (IZR (N + M + 1) * IZR (N - M)) * clebsch_gordan n1 m1 n2 m2 N M =
  (if (m1 + 1 <=? n1)%Z then sqrt (IZR (n1 + m1 + 1) * IZR (n1 - m1)) * clebsch_gordan n1 (m1 + 1) n2 m2 N (M + 1) else 0) +
  (if (m2 + 1 <=? n2)%Z then sqrt (IZR (n2 + m2 + 1) * IZR (n2 - m2)) * clebsch_gordan n1 m1 n2 (m2 + 1) N (M + 1) else 0).
Proof.
  intros n1 m1 n2 m2 N M HN HM HMN H1 H2.
  rewrite !cg_eq by lia.
  set (K := kfac n1 n2 N).
  transitivity (K * sw N (M + 1) * sw n1 m1 * sw n2 m2 * (IZR (N - m1 - m2) * rsum n1 m1 n2 m2 N)).
  - replace (N - m1 - m2)%Z with (N - M)%Z by lia. pose proof (sw_down N M HMN) as D.
    transitivity (K * (sqrt (IZR (N + M + 1) * IZR (N - M)) * sw N M) * sw n1 m1 * sw n2 m2 * rsum n1 m1 n2 m2 N); [ring|rewrite D; ring].
  - rewrite rsum_ladder by lia. rewrite Rmult_plus_distr_l. f_equal.
    + destruct (Z.leb_spec (m1 + 1) n1).
      * pose proof (sw_up n1 m1 ltac:(lia)) as D.
        transitivity (K * sw N (M + 1) * (IZR (n1 + m1 + 1) * sw n1 m1) * sw n2 m2 * rsum n1 (m1 + 1) n2 m2 N); [ring|rewrite <- D; ring].
      * rewrite rsum_m1_out by lia. ring.
    + destruct (Z.leb_spec (m2 + 1) n2).
      * pose proof (sw_up n2 m2 ltac:(lia)) as D.
        transitivity (K * sw N (M + 1) * sw n1 m1 * (IZR (n2 + m2 + 1) * sw n2 m2) * rsum n1 m1 n2 (m2 + 1) N); [ring|rewrite <- D; ring].
      * rewrite (rsum_m2_out n1 m1 n2 (m2 + 1) N) by lia. ring.
Qed.

(** Reflection. *)
Lemma cg_symmetry : forall n1 m1 n2 m2 N M, (N <= n1 + n2)%Z -> (m1 + m2 = M)%Z ->
  clebsch_gordan n1 (- m1) n2 (- m2) N (- M) = (-1) ^ Z.to_nat (n1 + n2 - N) * clebsch_gordan n1 m1 n2 m2 N M.
Proof.
  intros. rewrite !cg_eq by lia. rewrite !sw_opp, rsum_symmetry by lia. ring.
Qed.

(** The top row M = N. *)
Lemma rsum_top : forall n1 m1 n2 N, (Z.abs (n1 - n2) <= N <= n1 + n2)%Z -> (N - n2 <= m1 <= n1)%Z ->
  rsum n1 m1 n2 (N - m1) N = (-1) ^ Z.to_nat (n1 - m1) * ifact (n1 - m1) * ifact (n2 - N + m1) * ifact (N - n2 + n1) * ifact (N - n1 + n2).
Proof.
  intros n1 m1 n2 N HN H1. unfold rsum.
  set (p := Z.to_nat (n1 - m1)). assert (Ep: Z.of_nat p = (n1 - m1)%Z) by (subst p; lia).
  assert (S1: forall (f : nat -> R) v c q, (q <= c)%nat -> (forall k, (k <= c)%nat -> k <> q -> f k = 0) -> f q = v -> sum_f_R0 f c = v).
  { intros f v. induction c as [|c IH]; intros q Hq Hf Hv.
    - replace q with 0%nat in * by lia. exact Hv.
    - cbn [sum_f_R0]. destruct (Nat.eq_dec q (S c)) as [ -> | Hne ].
      + rewrite Hv. rewrite (sum_eq _ (fun _ => 0)); [rewrite sum_cte; lra|]. intros k Hk. apply Hf; lia.
      + rewrite (IH q); auto; [|lia]. rewrite (Hf (S c)) by lia. lra. }
  apply (S1 _ _ _ p).
  - lia.
  - intros k Hk Hne. unfold racah_term.
    destruct (Z_lt_le_dec (Z.of_nat k) (n1 - m1)).
    + rewrite (ifact_neg (N - n1 - (N - m1) + Z.of_nat k)) by lia. ring.
    + rewrite (ifact_neg (n1 - m1 - Z.of_nat k)) by lia. ring.
  - unfold racah_term. rewrite Ep.
    replace (n1 - m1 - (n1 - m1))%Z with 0%Z by lia. replace (N - n1 - (N - m1) + (n1 - m1))%Z with 0%Z by lia.
    replace (n1 + n2 - N - (n1 - m1))%Z with (n2 - N + m1)%Z by lia.
    replace (n2 + (N - m1) - (n1 - m1))%Z with (N - n1 + n2)%Z by lia.
    replace (N - n2 + m1 + (n1 - m1))%Z with (N - n2 + n1)%Z by lia.
    replace (ifact 0) with 1 by (rewrite ifact_nn by lia; rewrite zfact_0; field). ring.
Qed.

Lemma cg_top_pos : forall n1 n2 N, (0 <= N)%Z -> (Z.abs (n1 - n2) <= N <= n1 + n2)%Z -> 0 < clebsch_gordan n1 n1 n2 (N - n1) N N.
Proof.
  intros n1 n2 N H0 HN. rewrite cg_eq by lia. rewrite rsum_top by lia. pose proof zfact_pos as P.
  replace (n1 - n1)%Z with 0%Z by lia. cbn [Z.to_nat pow].
  assert (I: forall z, (0 <= z)%Z -> 0 < ifact z) by (intros z Hz; rewrite ifact_nn by lia; apply Rinv_0_lt_compat, P).
  apply Rmult_lt_0_compat.
  - apply Rmult_lt_0_compat.
    + unfold kfac. apply sqrt_lt_R0. apply Rmult_lt_0_compat; [|apply Rinv_0_lt_compat, P].
      repeat apply Rmult_lt_0_compat; try apply P. apply IZR_lt. lia.
    + repeat apply Rmult_lt_0_compat; apply sw_pos.
  - repeat apply Rmult_lt_0_compat; try (apply I; lia). lra.
Qed.

Lemma cg_top_step : forall n1 m1 n2 N, (0 <= N)%Z -> (Z.abs (n1 - n2) <= N <= n1 + n2)%Z -> (N - n2 <= m1 < n1)%Z ->
  sqrt (IZR (n1 - m1) * IZR (n1 + m1 + 1)) * clebsch_gordan n1 m1 n2 (N - m1) N N =
  - (sqrt (IZR (n2 - N + m1 + 1) * IZR (n2 + N - m1)) * clebsch_gordan n1 (m1 + 1) n2 (N - (m1 + 1)) N N).
Proof.
  intros n1 m1 n2 N H0 HN H1. rewrite !cg_eq by lia. rewrite !rsum_top by lia.
  pose proof (sw_down n1 m1 ltac:(lia)) as A. pose proof (sw_up n2 (N - (m1 + 1)) ltac:(lia)) as B.
  replace (N - (m1 + 1) + 1)%Z with (N - m1)%Z in B by lia.
  replace (n2 + (N - (m1 + 1)) + 1)%Z with (n2 + N - m1)%Z in B by lia.
  replace (n2 - (N - (m1 + 1)))%Z with (n2 - N + m1 + 1)%Z in B by lia.
  rewrite (Rmult_comm (IZR (n1 - m1))). rewrite (Rmult_comm (IZR (n2 - N + m1 + 1))).
  replace (n1 - (m1 + 1))%Z with (n1 - m1 - 1)%Z by lia. replace (n2 - N + (m1 + 1))%Z with (n2 - N + m1 + 1)%Z by lia.
  replace (Z.to_nat (n1 - m1)) with (S (Z.to_nat (n1 - m1 - 1))) by lia. cbn [pow].
  rewrite <- (ifact_step_eq (n1 - m1) (n1 - m1 - 1)) by lia.
  rewrite <- (ifact_step_eq (n2 - N + m1 + 1) (n2 - N + m1)) by lia.
  set (K := kfac n1 n2 N). set (s := (-1) ^ Z.to_nat (n1 - m1 - 1)).
  pose proof (sw_down n2 (N - (m1 + 1)) ltac:(lia)) as B'.
  replace (N - (m1 + 1) + 1)%Z with (N - m1)%Z in B' by lia.
  replace (n2 + (N - (m1 + 1)) + 1)%Z with (n2 + N - m1)%Z in B' by lia.
  replace (n2 - (N - (m1 + 1)))%Z with (n2 - N + m1 + 1)%Z in B' by lia.
  transitivity (- K * sw N N * (sqrt (IZR (n1 + m1 + 1) * IZR (n1 - m1)) * sw n1 m1) * (IZR (n2 - N + m1 + 1) * sw n2 (N - m1)) * s *
    ifact (n1 - m1) * ifact (n2 - N + m1 + 1) * ifact (N - n2 + n1) * ifact (N - n1 + n2)); [ring|].
  rewrite A, <- B'. ring.
Qed.

(** Binomial sums for the norm of the top row. *)
Definition h2 (a c : nat) : R := INR (fact (a + c)) / (INR (fact a) * INR (fact c)).

Lemma h2_0 : forall a, h2 a 0 = 1.
Proof. intros a. unfold h2. rewrite Nat.add_0_r. cbn [fact INR]. field. apply INR_fact_neq_0. Qed.
Lemma h2_l : forall c, h2 0 c = 1.
Proof. intros a. unfold h2. cbn [fact INR Nat.add]. field. apply INR_fact_neq_0. Qed.
Lemma h2_S : forall a c, h2 (S a) (S c) = h2 a (S c) + h2 (S a) c.
Proof.
  intros a c. unfold h2. replace (S a + S c)%nat with (S (S (a + c))) by lia. replace (a + S c)%nat with (S (a + c)) by lia.
  replace (S a + c)%nat with (S (a + c)) by lia. rewrite (fact_simpl (S (a + c))), (fact_simpl a), (fact_simpl c), !mult_INR, !S_INR, plus_INR.
  pose proof (INR_fact_neq_0 a). pose proof (INR_fact_neq_0 c). pose proof (pos_INR a). pose proof (pos_INR c).
  field. repeat split; auto; lra.
Qed.

Lemma h2_convolution : forall a b c, sum_f_R0 (fun p => h2 a (c - p) * h2 b p) c = h2 (S (a + b)) c.
Proof.
  intros a. induction b as [|b IHb].
  - induction c as [|c IH].
    + cbn [sum_f_R0 Nat.sub]. rewrite !h2_0. ring.
    + rewrite decomp_sum by lia. cbn [pred]. replace (S c - 0)%nat with (S c) by lia. rewrite h2_l.
      rewrite (sum_eq _ (fun p => h2 a (c - p) * h2 0 p)) by (intros; rewrite !h2_l; f_equal; f_equal; lia).
      rewrite IH. rewrite Nat.add_0_r, h2_S. ring.
  - induction c as [|c IH].
    + cbn [sum_f_R0 Nat.sub]. rewrite !h2_0. ring.
    + replace (S (a + S b)) with (S (S (a + b))) by lia. rewrite h2_S. rewrite <- (IHb (S c)).
      replace (S (S (a + b))) with (S (a + S b)) by lia. rewrite <- IH.
      rewrite !(decomp_sum _ (S c)) by lia. cbn [pred]. rewrite !h2_0.
      rewrite (sum_eq _ (fun p => h2 a (S c - S p) * h2 b (S p) + h2 a (c - p) * h2 (S b) p)).
      * rewrite sum_plus. ring.
      * intros p _. rewrite h2_S. replace (S c - S p)%nat with (c - p)%nat by lia. ring.
Qed.

Lemma zfact_nat : forall z (k : nat), z = Z.of_nat k -> zfact z = INR (fact k).
Proof. intros z k ->. unfold zfact. rewrite Nat2Z.id. reflexivity. Qed.

(** The top row has norm 1. *)
Lemma cg_top_norm : forall n1 n2 N, (0 <= N)%Z -> (Z.abs (n1 - n2) <= N <= n1 + n2)%Z ->
  sum_f_R0 (fun p => Rsqr (clebsch_gordan n1 (n1 - Z.of_nat p) n2 (N - (n1 - Z.of_nat p)) N N)) (Z.to_nat (n1 + n2 - N)) = 1.
Proof.
  intros n1 n2 N H0 HN. set (c := Z.to_nat (n1 + n2 - N)). set (a := Z.to_nat (N + n1 - n2)). set (b := Z.to_nat (N - n1 + n2)).
  pose proof (INR_fact_neq_0) as F.
  assert (EK: kfac n1 n2 N * kfac n1 n2 N = INR (S (a + b)) * INR (fact a) * INR (fact b) * INR (fact c) / INR (fact (S (a + b + c)))).
  { unfold kfac. rewrite sqrt_sqrt.
    - rewrite (zfact_nat (N + n1 - n2) a), (zfact_nat (N - n1 + n2) b), (zfact_nat (n1 + n2 - N) c), (zfact_nat (n1 + n2 + N + 1) (S (a + b + c))) by lia.
      replace (IZR (2 * N + 1)) with (INR (S (a + b))); [auto|]. rewrite INR_IZR_INZ. f_equal. lia.
    - apply Rmult_le_pos; [|apply Rlt_le, Rinv_0_lt_compat, zfact_pos].
      repeat apply Rmult_le_pos; try (apply Rlt_le, zfact_pos). apply IZR_le. lia. }
  assert (SW: forall n m, sw n m * sw n m = zfact (n + m) * zfact (n - m)).
  { intros. unfold sw. rewrite sqrt_sqrt; auto. apply Rmult_le_pos; apply Rlt_le, zfact_pos. }
  rewrite (sum_eq _ (fun p => h2 a (c - p) * h2 b p * (INR (fact (a + b)) / (INR (fact a) * INR (fact b)) * (kfac n1 n2 N * kfac n1 n2 N)))).
  - rewrite <- scal_sum. rewrite h2_convolution, EK. unfold h2. replace (S (a + b) + c)%nat with (S (a + b + c)) by lia.
    rewrite (fact_simpl (a + b)), mult_INR. field. repeat split; auto. apply not_0_INR. lia.
  - intros p Hp. rewrite cg_eq by lia. rewrite rsum_top by lia. unfold Rsqr.
    set (K := kfac n1 n2 N) in *. set (s := (-1) ^ Z.to_nat (n1 - (n1 - Z.of_nat p))).
    assert (Es: s * s = 1).
    { unfold s. rewrite <- pow_add. replace (Z.to_nat (n1 - (n1 - Z.of_nat p)) + Z.to_nat (n1 - (n1 - Z.of_nat p)))%nat with (2 * Z.to_nat (n1 - (n1 - Z.of_nat p)))%nat by lia.
      rewrite pow_mult. replace ((-1)^2) with 1 by ring. apply pow1. }
    rewrite !ifact_nn by lia.
    transitivity ((s * s) * (K * K) * (sw N N * sw N N) * (sw n1 (n1 - Z.of_nat p) * sw n1 (n1 - Z.of_nat p)) *
      (sw n2 (N - (n1 - Z.of_nat p)) * sw n2 (N - (n1 - Z.of_nat p))) *
      (/ zfact (n1 - (n1 - Z.of_nat p)) * / zfact (n2 - N + (n1 - Z.of_nat p)) * / zfact (N - n2 + n1) * / zfact (N - n1 + n2)) *
      (/ zfact (n1 - (n1 - Z.of_nat p)) * / zfact (n2 - N + (n1 - Z.of_nat p)) * / zfact (N - n2 + n1) * / zfact (N - n1 + n2))); [ring|].
    rewrite Es, !SW.
    rewrite (zfact_nat (N + N) (a + b)), (zfact_nat (N - N) 0), (zfact_nat (n1 + (n1 - Z.of_nat p)) (a + (c - p))),
      (zfact_nat (n1 - (n1 - Z.of_nat p)) p), (zfact_nat (n2 + (N - (n1 - Z.of_nat p))) (b + p)), (zfact_nat (n2 - (N - (n1 - Z.of_nat p))) (c - p)),
      (zfact_nat (n2 - N + (n1 - Z.of_nat p)) (c - p)), (zfact_nat (N - n2 + n1) a), (zfact_nat (N - n1 + n2) b) by lia.
    unfold h2. cbn [fact INR]. field. repeat split; apply F.
Qed.

(** The scalar state N = 0. *)
Lemma cg_scalar : forall n m, (0 <= n)%Z -> (- n <= m <= n)%Z ->
  clebsch_gordan n m n (- m) 0 0 = (-1) ^ Z.to_nat (n - m) / sqrt (IZR (2 * n + 1)).
Proof.
  intros n m Hn Hm. rewrite cg_eq by lia. replace (- m)%Z with (0 - m)%Z at 2 by lia. rewrite rsum_top by lia.
  rewrite sw_opp. replace (sw 0 0) with 1 by (unfold sw; cbn; rewrite Rmult_1_l, sqrt_1; auto).
  assert (SW: sw n m * sw n m = zfact (n + m) * zfact (n - m)).
  { unfold sw. rewrite sqrt_sqrt; auto. apply Rmult_le_pos; apply Rlt_le, zfact_pos. }
  assert (EK: kfac n n 0 = / sqrt (IZR (2 * n + 1))).
  { unfold kfac. replace (0 + n - n)%Z with 0%Z by lia. replace (0 - n + n)%Z with 0%Z by lia. replace (n + n - 0)%Z with (2 * n)%Z by lia.
    replace (n + n + 0 + 1)%Z with (2 * n + 1)%Z by lia. rewrite zfact_S by lia. rewrite !zfact_0.
    assert (0 < IZR (2 * n + 1)) by (apply IZR_lt; lia). pose proof (zfact_pos (2 * n)).
    replace (IZR (2 * 0 + 1) * 1 * 1 * zfact (2 * n) / (IZR (2 * n + 1) * zfact (2 * n))) with (/ IZR (2 * n + 1)) by (change (2 * 0 + 1)%Z with 1%Z; field; split; lra).
    apply sqrt_inv. }
  rewrite EK. rewrite !ifact_nn by lia. replace (0 - n + n)%Z with 0%Z by lia. rewrite zfact_0.
  replace (n - 0 + m)%Z with (n + m)%Z by lia.
  transitivity (/ sqrt (IZR (2 * n + 1)) * (sw n m * sw n m) * (-1) ^ Z.to_nat (n - m) * / zfact (n - m) * / zfact (n + m)); [field|rewrite SW].
  - pose proof (zfact_pos (n + m)). pose proof (zfact_pos (n - m)). assert (0 < sqrt (IZR (2 * n + 1))) by (apply sqrt_lt_R0, IZR_lt; lia). repeat split; lra.
  - pose proof (zfact_pos (n + m)). pose proof (zfact_pos (n - m)). assert (0 < sqrt (IZR (2 * n + 1))) by (apply sqrt_lt_R0, IZR_lt; lia).
    field. repeat split; lra.
Qed.

Lemma cg_m1_out : forall n1 m1 n2 m2 N M, (n1 < m1)%Z -> (m1 + m2 = M)%Z -> clebsch_gordan n1 m1 n2 m2 N M = 0.
Proof. intros. rewrite cg_eq by lia. rewrite rsum_m1_out by lia. ring. Qed.

(** States with N > 0 are orthogonal to the scalar state: the alternating sum vanishes. *)
Lemma cg_alternating_sum : forall n N, (0 <= n)%Z -> (0 < N <= 2 * n)%Z ->
  sum_f_R0 (fun k => (-1) ^ k * clebsch_gordan n (Z.of_nat k - n) n (- (Z.of_nat k - n)) N 0) (Z.to_nat (2 * n)) = 0.
Proof.
  intros n N Hn HN.
  set (al := fun m => sqrt (IZR (n + m + 1) * IZR (n - m))).
  set (r := fun m => clebsch_gordan n m n (1 - m) N 1).
  set (L := sqrt (IZR (N + 0 + 1) * IZR (N - 0))).
  assert (HL: 0 < L) by (apply sqrt_lt_R0; apply Rmult_lt_0_compat; apply IZR_lt; lia).
  apply Rmult_eq_reg_l with L; [|lra]. rewrite Rmult_0_r, scal_sum.
  set (g := fun k : nat => (-1) ^ k * (al (Z.of_nat k - n - 1)%Z * r (Z.of_nat k - n)%Z)).
  rewrite (sum_eq _ (fun k => g k - g (S k))).
  - assert (T: forall f c, sum_f_R0 (fun k => f k - f (S k)) c = f 0%nat - f (S c)).
    { intros f c0. induction c0 as [|c0 IH]; cbn [sum_f_R0]; [lra|rewrite IH; lra]. }
    rewrite T. unfold g, al.
    replace (n + (Z.of_nat 0 - n - 1) + 1)%Z with 0%Z by lia.
    replace (n - (Z.of_nat (S (Z.to_nat (2 * n))) - n - 1))%Z with 0%Z by lia.
    rewrite Rmult_0_l, Rmult_0_r, sqrt_0. ring.
  - intros k Hk. set (m := (Z.of_nat k - n)%Z).
    pose proof (cg_ladder n m n (- m) N 0 ltac:(lia) ltac:(lia) ltac:(lia) ltac:(lia) ltac:(lia)) as Hl.
    fold L in Hl. fold m.
    transitivity ((-1) ^ k * (L * clebsch_gordan n m n (- m) N 0)); [ring|]. rewrite Hl.
    unfold g. cbn [pow]. replace (Z.of_nat (S k) - n - 1)%Z with m by lia. replace (Z.of_nat (S k) - n)%Z with (m + 1)%Z by lia. fold m.
    assert (E1: (if (m + 1 <=? n)%Z then sqrt (IZR (n + m + 1) * IZR (n - m)) * clebsch_gordan n (m + 1) n (- m) N (0 + 1) else 0) = al m * r (m + 1)%Z).
    { destruct (Z.leb_spec (m + 1) n).
      - unfold al, r. replace (1 - (m + 1))%Z with (- m)%Z by lia. reflexivity.
      - unfold al. replace (n - m)%Z with 0%Z by lia. rewrite Rmult_0_r, sqrt_0. ring. }
    assert (E2: (if (- m + 1 <=? n)%Z then sqrt (IZR (n + - m + 1) * IZR (n - - m)) * clebsch_gordan n m n (- m + 1) N (0 + 1) else 0) = al (m - 1)%Z * r m).
    { destruct (Z.leb_spec (- m + 1) n).
      - unfold al, r. replace (- m + 1)%Z with (1 - m)%Z by lia. replace (n + (m - 1) + 1)%Z with (n - - m)%Z by lia.
        replace (n - (m - 1))%Z with (n + - m + 1)%Z by lia. rewrite (Rmult_comm (IZR (n - - m))). reflexivity.
      - unfold al. replace (n + (m - 1) + 1)%Z with 0%Z by lia. rewrite Rmult_0_l, sqrt_0. ring. }
    rewrite E1, E2. ring.
Qed.
