(** C57 (Clebsch-Gordan coefficients), C58 (average over orientations), C59 (what averaging preserves),
    C60 (the work array of the average).

    Specification: [clebsch_gordan] (Racah.v) is Racah's formula; [mishchenko] (end of Align.v) is eq. 3.27 of
    Mishchenko (1991) with both sums complete.  A T-matrix [T i j m n1 n2] is stored for m >= 0; for negative m
    the elements follow from the symmetry of the particle ([mirrored]). *)
From Coq Require Import List ZArith Reals Lra Lia Arith Bool.
From Coquelicot Require Import Complex.
From Verif Require Import Base Racah Clebsch Align AlignFacts.
Import ListNotations.
Open Scope R_scope.

(** C57 *)
Theorem C57_coefficient : forall n1 m1 n2 m2 N M,
  (0 <= n1)%Z -> (0 <= n2)%Z -> (0 <= N)%Z -> (Z.abs (n1 - n2) <= N <= n1 + n2)%Z ->
  (- n1 <= m1 <= n1)%Z -> (- n2 <= m2 <= n2)%Z -> (- N <= M <= N)%Z ->
  get_clebsch_gordan_coefficient n1 m1 n2 m2 N M = Some (clebsch_gordan n1 m1 n2 m2 N M).
Proof.
  intros n1 m1 n2 m2 N M H1 H2 H0 HN A1 A2 A. unfold get_clebsch_gordan_coefficient.
  destruct (Z.eqb_spec (m1 + m2) M) as [E|E]; cbn [negb].
  - destruct (fill_ok n1 n2 N H1 H2 H0 HN (repeat 0 (Z.to_nat ((N + 1) * (2 * n1 + 1))))) as (C & EC & _ & AC); [rewrite repeat_length; nia|].
    rewrite EC. cbn [obind]. destruct (Z.leb_spec 0 M).
    + specialize (AC M m1 ltac:(lia)). unfold at_, valid_m in AC. rewrite AC by lia. do 2 f_equal. lia.
    + specialize (AC (- M)%Z (- m1)%Z ltac:(lia)). unfold at_, valid_m in AC.
      replace (- M * (2 * n1 + 1) + n1 - m1)%Z with (- M * (2 * n1 + 1) + - m1 + n1)%Z by lia. rewrite AC by lia. cbn [obind]. f_equal.
      replace (- M - - m1)%Z with (- m2)%Z by lia. rewrite (cg_symmetry n1 m1 n2 m2 N M) by lia.
      rewrite <- sgn_pow by lia. unfold sgn.
      assert (EP: (Z.rem (N - n1 - n2) 2 =? 0)%Z = ((n1 + n2 - N) mod 2 =? 0)%Z).
      { replace (N - n1 - n2)%Z with (- (n1 + n2 - N))%Z by lia. rewrite Z.rem_opp_l by lia. rewrite Z.rem_mod_nonneg by lia.
        destruct (Z.eqb_spec ((n1 + n2 - N) mod 2) 0), (Z.eqb_spec (- ((n1 + n2 - N) mod 2)) 0); auto; lia. }
      rewrite EP. destruct ((n1 + n2 - N) mod 2 =? 0)%Z; ring.
  - unfold clebsch_gordan. destruct (Z.eqb_spec (m1 + m2) M); [contradiction|auto].
Qed.
Print Assumptions C57_coefficient.

(** <1 0 1 0 | 2 0> = sqrt (2/3) and <1 1 1 -1 | 0 0> = 1 / sqrt 3 *)
Example C57_coefficient_nonvacuous :
  get_clebsch_gordan_coefficient 1 0 1 0 2 0 = Some (sqrt (2 / 3)) /\
  get_clebsch_gordan_coefficient 1 1 1 (-1) 0 0 = Some (1 / sqrt 3).
Proof.
  split; (rewrite C57_coefficient; [f_equal|lia..]).
  - assert (F0: zfact 0 = 1) by reflexivity.
    assert (F1: zfact 1 = 1) by (change 1%Z with (0 + 1)%Z; rewrite zfact_S, F0 by lia; change (0 + 1)%Z with 1%Z; ring).
    assert (F2: zfact 2 = 2) by (change 2%Z with (1 + 1)%Z; rewrite zfact_S, F1 by lia; change (1 + 1)%Z with 2%Z; ring).
    assert (F5: zfact 5 = 120).
    { change 5%Z with (2 + 1 + 1 + 1)%Z. rewrite !zfact_S, F2 by lia. change (2 + 1 + 1 + 1)%Z with 5%Z. change (2 + 1 + 1)%Z with 4%Z. change (2 + 1)%Z with 3%Z. ring. }
    rewrite cg_eq by lia. unfold kfac, sw, rsum. cbn [Z.add Z.sub Z.opp Z.pos_sub Pos.add Pos.succ Z.mul Pos.mul Pos.pred_double Z.to_nat sum_f_R0].
    unfold racah_term, ifact. cbn -[zfact Rmult Rplus Rinv Rdiv sqrt IZR]. rewrite ?F0, ?F1, ?F2, ?F5.
    replace (1 * / 1 * / 1 * / 1 * / 1 * / 1 * / 1) with 1 by field. rewrite !sqrt_square by lra.
    replace (5 * 2 * 2 * 1 / 120) with (/ 6) by field.
    replace (2 / 3) with (/ 6 * (2 * 2)) by field. rewrite sqrt_mult by lra. rewrite sqrt_square by lra. ring.
  - change (-1)%Z with (- (1))%Z. rewrite cg_scalar by lia. reflexivity.
Qed.

(** The routine for all coefficients with M = 0, in a work array of any content. *)
Theorem C57_coefficients : forall n1 n2 N C, (0 <= n1)%Z -> (0 <= n2)%Z -> (0 <= N)%Z -> (Z.abs (n1 - n2) <= N <= n1 + n2)%Z ->
  let nmin := Z.min n1 n2 in
  ((Z.of_nat (length C) >= (N + 1) * (2 * n1 + 1))%Z ->
     exists C', get_clebsch_gordan_coefficients n1 n2 N C = Some (C', (2 * nmin + 1)%Z) /\ length C' = length C /\
       forall m, (- nmin <= m <= nmin)%Z -> rd C' (nmin + m) = Some (clebsch_gordan n1 m n2 (- m) N 0)) /\
  ((Z.of_nat (length C) < (N + 1) * (2 * n1 + 1))%Z -> get_clebsch_gordan_coefficients n1 n2 N C = None).
Proof. intros. split; intros HL; [apply cgs_ok|apply cgs_too_small]; auto. Qed.
Print Assumptions C57_coefficients.

(** C58: the averaged T-matrix, for every input with T^{01} = T^{10} = 0 at m = 0 (as computed), every list of at
    least 2 nmax + 1 expansion coefficients, any previous content of the work array and of the output. *)
Definition in_range (nmax m n1 n2 : Z) : Prop := (0 <= m <= nmax)%Z /\ (Z.max m 1 <= n1 <= nmax)%Z /\ (Z.max m 1 <= n2 <= nmax)%Z.

Theorem C58_average : forall coef nmax T cg old, (0 <= nmax)%Z -> (2 * nmax < Z.of_nat (length coef))%Z ->
  (Z.of_nat (length cg) >= (2 * nmax + 1) * (2 * nmax + 1))%Z ->
  (forall i j n1 n2, (1 <= n1 <= nmax)%Z -> (1 <= n2 <= nmax)%Z -> i <> j -> T i j 0%Z n1 n2 = RtoC 0) ->
  exists cg' out, execute true coef nmax T cg old = Some (cg', out) /\
    forall i j m n1 n2, in_range nmax m n1 n2 -> out i j m n1 n2 = mishchenko (coefficient coef) T i j m n1 n2.
Proof.
  intros coef nmax T cg old Hn HC HL HT. unfold execute.
  destruct (mn_loops_ind _ (fun s : list R * tmat => length (fst s) = length cg)
    (fun s m n1 n2 => forall i j, snd s i j m n1 n2 = mishchenko (coefficient coef) T i j m n1 n2) nmax
    (fun m n1 n2 s => obind (element coef T m n1 n2 (fst s)) (fun r => Some (fst r, set_elements (snd s) m n1 n2 (snd r)))) (cg, old) Hn)
    as ((cg' & out) & E & _ & D); [reflexivity| |].
  - intros m n1 n2 [c o] Hm H1 H2 L. cbn [fst snd] in *.
    destruct (element_ok coef T m n1 n2 c) as (c' & t & E & L' & Q); try lia; [nia| |].
    { intros i j X. apply HT; try lia. intros ->. rewrite xorb_nilpotent in X. discriminate. }
    rewrite E. cbn [obind fst snd]. eexists. split; [reflexivity|]. cbn [fst snd]. split; [congruence|]. split.
    + intros i j. rewrite set_elements_at. apply Q.
    + intros m' a b Hne HD i j. rewrite set_elements_other by auto. apply HD.
  - exists cg', out. split; [exact E|]. intros i j m n1 n2 (A & B & D'). apply (D m n1 n2); auto.
Qed.
Print Assumptions C58_average.

Theorem C58_calculator : forall coef nmax T, (0 <= nmax)%Z -> (2 * nmax < Z.of_nat (length coef))%Z ->
  (forall i j n1 n2, i <> j -> T i j 0%Z n1 n2 = RtoC 0) ->
  exists out, apply_orientation_distribution coef nmax T = Some out /\
    forall i j m n1 n2, in_range nmax m n1 n2 -> out i j m n1 n2 = mishchenko (coefficient coef) T i j m n1 n2.
Proof.
  intros coef nmax T Hn HC HT. unfold apply_orientation_distribution.
  destruct (mn_loops_ind _ (fun _ => True)
    (fun s m n1 n2 => forall i j, s i j m n1 n2 = mishchenko (coefficient coef) T i j m n1 n2) nmax
    (fun m n1 n2 s => obind (element_fresh coef T m n1 n2) (fun t => Some (set_elements s m n1 n2 t))) T Hn)
    as (out & E & _ & D); [exact I| |].
  - intros m n1 n2 o Hm H1 H2 _.
    destruct (element_fresh_ok coef T m n1 n2) as (t & E & Q); try lia.
    { intros i j X. apply HT. intros ->. rewrite xorb_nilpotent in X. discriminate. }
    rewrite E. cbn [obind]. eexists. split; [reflexivity|]. split; [exact I|]. split.
    + intros i j. rewrite set_elements_at. apply Q.
    + intros m' a b Hne HD i j. rewrite set_elements_other by auto. apply HD.
  - exists out. split; [exact E|]. intros i j m n1 n2 (A & B & D'). apply (D m n1 n2); auto.
Qed.
Print Assumptions C58_calculator.

(** Without alignment the T-matrix is copied. *)
Theorem C58_no_alignment : forall coef nmax T cg old, (0 <= nmax)%Z ->
  exists out, execute false coef nmax T cg old = Some (cg, out) /\
    forall i j m n1 n2, in_range nmax m n1 n2 -> out i j m n1 n2 = T i j m n1 n2.
Proof.
  intros coef nmax T cg old Hn. unfold execute.
  destruct (mn_loops_ind _ (fun s : list R * tmat => fst s = cg) (fun s m n1 n2 => forall i j, snd s i j m n1 n2 = T i j m n1 n2) nmax
    (fun m n1 n2 s => Some (fst s, set_elements (snd s) m n1 n2
           (T false false m n1 n2, T false true m n1 n2, T true false m n1 n2, T true true m n1 n2))) (cg, old) Hn)
    as ((cg' & out) & E & E' & D); [reflexivity| |].
  - intros m n1 n2 [c o] Hm H1 H2 L. eexists. split; [reflexivity|]. cbn [fst snd] in *. split; auto. split.
    + intros i j. rewrite set_elements_at. destruct i, j; reflexivity.
    + intros m' a b Hne HD i j. rewrite set_elements_other by auto. apply HD.
  - cbn [fst] in E'. subst cg'. exists out. split; [exact E|]. intros i j m n1 n2 (A & B & D'). apply (D m n1 n2); auto.
Qed.
Print Assumptions C58_no_alignment.

(** C59: particles without preferred orientation, and the invariance of the traces. *)

(** The sum over all m = -n, ..., n of the diagonal elements of order n. *)
Definition trace (T : tmat) (i : bool) (n : Z) : C :=
  (T i i 0%Z n n + RtoC 2 * csum (fun k => T i i (Z.of_nat (S k)) n n) (Z.to_nat n))%C.

Lemma zsum_mirrored : forall T i n, (0 <= n)%Z -> zsum (- n) n (fun m => mirrored T i i m n n) = trace T i n.
Proof.
  intros T i n Hn. rewrite <- (Z2Nat.id n) at 1 2 by auto. rewrite zsum_sym. rewrite csum_first. cbn [Nat.eqb]. unfold trace. f_equal.
  rewrite <- csum_scal. apply csum_ext. intros k _. unfold mirrored.
  rewrite (proj2 (Z.ltb_ge (Z.of_nat (S k)) 0)) by lia. rewrite (proj2 (Z.ltb_lt (- Z.of_nat (S k)) 0)) by lia.
  rewrite Z.opp_involutive, xorb_nilpotent. replace (RtoC 2) with (RtoC 1 + RtoC 1)%C by (rewrite <- RtoC_plus; f_equal; lra). ring.
Qed.

Lemma sgn_sgn : forall a b, (0 <= b)%Z -> (- b <= a <= b)%Z -> sgn a * (-1) ^ Z.to_nat (b - a) = (-1) ^ Z.to_nat b.
Proof.
  intros a b Hb Ha. rewrite <- !sgn_pow by lia. unfold sgn.
  destruct (Z.eqb_spec (a mod 2) 0), (Z.eqb_spec ((b - a) mod 2) 0), (Z.eqb_spec (b mod 2) 0); try ring; exfalso; Z.div_mod_to_equations; lia.
Qed.

Lemma sq_root : forall n, (0 <= n)%Z -> (-1) ^ Z.to_nat n / sqrt (IZR (2 * n + 1)) * ((-1) ^ Z.to_nat n / sqrt (IZR (2 * n + 1))) = / IZR (2 * n + 1).
Proof.
  intros n Hn. assert (P: 0 < IZR (2 * n + 1)) by (apply IZR_lt; lia). pose proof (sqrt_lt_R0 _ P) as Q.
  assert (S2: (-1) ^ Z.to_nat n * (-1) ^ Z.to_nat n = 1).
  { rewrite <- pow_add. replace (Z.to_nat n + Z.to_nat n)%nat with (2 * Z.to_nat n)%nat by lia. rewrite pow_mult. replace ((-1)^2) with 1 by ring. apply pow1. }
  transitivity (((-1) ^ Z.to_nat n * (-1) ^ Z.to_nat n) * / (sqrt (IZR (2 * n + 1)) * sqrt (IZR (2 * n + 1)))); [field; lra|].
  rewrite S2, sqrt_sqrt by lra. ring.
Qed.

Lemma inner_scalar : forall T i n, (0 <= n)%Z ->
  zsum (- n) n (fun m1 => RtoC (sgn m1 * clebsch_gordan n m1 n (- m1) 0 0) * mirrored T i i m1 n n)%C =
  (RtoC ((-1) ^ Z.to_nat n / sqrt (IZR (2 * n + 1))) * trace T i n)%C.
Proof.
  intros T i n Hn. rewrite <- zsum_mirrored by auto. unfold zsum. rewrite <- csum_scal. apply csum_ext. intros k Hk.
  f_equal. f_equal. rewrite cg_scalar by lia. rewrite <- (sgn_sgn (- n + Z.of_nat k) n) by lia.
  assert (P: 0 < IZR (2 * n + 1)) by (apply IZR_lt; lia). pose proof (sqrt_lt_R0 _ P). field. lra.
Qed.

Lemma mish_diag : forall p T i m n, (0 <= n)%Z -> (- n <= m <= n)%Z ->
  mishchenko p T i i m n n = (RtoC (p 0%Z / IZR (2 * n + 1)) * trace T i n +
    csum (fun k => mish_term p T i i m n n (Z.of_nat (S k))) (Z.to_nat (2 * n)))%C.
Proof.
  intros p T i m n Hn Hm. unfold mishchenko, zsum at 1. rewrite Z.sub_diag. cbn [Z.abs].
  replace (Z.to_nat (n + n - 0 + 1)) with (S (Z.to_nat (2 * n))) by lia. rewrite csum_first. f_equal.
  cbn [Z.of_nat Z.add]. rewrite Z.min_id, inner_scalar by auto. rewrite Cmult_assoc, <- RtoC_mult. f_equal. f_equal.
  rewrite cg_scalar by lia.
  assert (P: 0 < IZR (2 * n + 1)) by (apply IZR_lt; lia). pose proof (sqrt_lt_R0 _ P).
  transitivity (p 0%Z * ((-1) ^ Z.to_nat n / sqrt (IZR (2 * n + 1)) * ((-1) ^ Z.to_nat n / sqrt (IZR (2 * n + 1))))); [|rewrite sq_root by auto; reflexivity].
  pose proof (sgn_sgn m n Hn Hm) as SS. set (u := (-1) ^ Z.to_nat n) in *. rewrite <- SS at 2. field. lra.
Qed.

(** Particles in random orientation: the average is diagonal, and all m have the same elements. *)
Theorem C59_random_orientation : forall coef nmax T cg old cg' out, (0 <= nmax)%Z -> (2 * nmax < Z.of_nat (length coef))%Z ->
  (forall i j n1 n2, i <> j -> T i j 0%Z n1 n2 = RtoC 0) ->
  coefficient coef 0 = 1 -> (forall N, (0 < N)%Z -> coefficient coef N = 0) ->
  (Z.of_nat (length cg) >= (2 * nmax + 1) * (2 * nmax + 1))%Z ->
  execute true coef nmax T cg old = Some (cg', out) ->
  forall i j m n1 n2, in_range nmax m n1 n2 ->
  out i j m n1 n2 = if eqb i j && (n1 =? n2)%Z then (RtoC (/ IZR (2 * n1 + 1)) * trace T i n1)%C else RtoC 0.
Proof.
  intros coef nmax T cg old cg' out Hn HC HT P0 PN HL HE i j m n1 n2 HR.
  destruct (C58_average coef nmax T cg old Hn HC HL (fun i j n1 n2 _ _ => HT i j n1 n2)) as (c2 & o2 & E2 & D). rewrite HE in E2. injection E2 as <- <-.
  rewrite D by auto. destruct HR as (Hm & H1 & H2).
  assert (TZ: forall N i j, (0 < N)%Z -> mish_term (coefficient coef) T i j m n1 n2 N = RtoC 0).
  { intros N i' j' HN. unfold mish_term. rewrite PN by auto. rewrite Rmult_0_r, Rmult_0_l. ring. }
  destruct (Z.eqb_spec n1 n2) as [ <- | Hne ].
  - destruct (eqb i j) eqn:Eij; cbn [andb].
    + apply eqb_prop in Eij. subst j. rewrite mish_diag by lia. rewrite P0. rewrite csum_0; [|intros k _; apply TZ; lia].
      replace (1 / IZR (2 * n1 + 1)) with (/ IZR (2 * n1 + 1)) by (unfold Rdiv; ring). ring.
    + unfold mishchenko, zsum at 1. apply csum_0. intros k _. destruct k as [|k]; [|apply TZ; lia].
      rewrite Z.sub_diag. cbn [Z.abs Z.add Z.of_nat]. rewrite Z.min_id.
      assert (X: xorb i j = true) by (destruct i, j; auto; discriminate).
      pose proof (complete_sum T i j n1 n1 0 ltac:(lia) ltac:(lia) ltac:(lia) ltac:(lia)) as CS. rewrite Z.min_id in CS. rewrite <- CS.
      * rewrite csum_0; [ring|]. intros k _. unfold selected. rewrite X. replace ((0 + (n1 + n1)) mod 2)%Z with 0%Z by (Z.div_mod_to_equations; lia). reflexivity.
      * intros _. apply HT. intros ->. rewrite xorb_nilpotent in X. discriminate.
  - rewrite andb_false_r. unfold mishchenko, zsum at 1. apply csum_0. intros k _. apply TZ. lia.
Qed.
Print Assumptions C59_random_orientation.

(** Whatever the orientation distribution (normalised: p0 = 1), the traces are those of a single particle. *)
Lemma mish_even : forall p T i m n, (0 <= n)%Z -> mishchenko p T i i (- m) n n = mishchenko p T i i m n n.
Proof.
  intros p T i m n Hn. unfold mishchenko. apply zsum_ext. intros N HN. rewrite Z.sub_diag in HN. cbn [Z.abs] in HN.
  rewrite Z.min_id. pose proof (complete_sum T i i n n N ltac:(lia) ltac:(lia) ltac:(lia) ltac:(lia)) as CS. rewrite Z.min_id in CS.
  rewrite <- CS by (rewrite xorb_nilpotent; discriminate).
  rewrite sgn_opp. rewrite Z.opp_involutive.
  assert (SY: clebsch_gordan n (- m) n m N 0 = sgn (n + n - N) * clebsch_gordan n m n (- m) N 0).
  { rewrite sgn_pow by lia. rewrite <- (cg_symmetry n m n (- m) N 0) by lia. f_equal; lia. }
  rewrite SY. unfold selected. rewrite xorb_nilpotent. unfold sgn at 2.
  replace ((n + n - N) mod 2 =? 0)%Z with ((N + (n + n)) mod 2 =? 0)%Z
    by (destruct (Z.eqb_spec ((N + (n + n)) mod 2) 0), (Z.eqb_spec ((n + n - N) mod 2) 0); auto; exfalso; Z.div_mod_to_equations; lia).
  destruct ((N + (n + n)) mod 2 =? 0)%Z; cbn [negb eqb].
  - f_equal. f_equal. ring.
  - rewrite csum_0 by auto. ring.
Qed.

Lemma alternating : forall n N, (0 <= n)%Z -> (0 < N <= 2 * n)%Z ->
  zsum (- n) n (fun m => RtoC (sgn m * clebsch_gordan n m n (- m) N 0)) = RtoC 0.
Proof.
  intros n N Hn HN. pose proof (cg_alternating_sum n N Hn HN) as A. unfold zsum.
  replace (Z.to_nat (n - - n + 1)) with (S (Z.to_nat (2 * n))) by lia. rewrite csum_RtoC. f_equal.
  assert (S2: (-1) ^ Z.to_nat n * (-1) ^ Z.to_nat n = 1).
  { rewrite <- pow_add. replace (Z.to_nat n + Z.to_nat n)%nat with (2 * Z.to_nat n)%nat by lia. rewrite pow_mult. replace ((-1)^2) with 1 by ring. apply pow1. }
  rewrite (sum_eq _ (fun k => (-1) ^ k * clebsch_gordan n (Z.of_nat k - n) n (- (Z.of_nat k - n)) N 0 * (-1) ^ Z.to_nat n)).
  - rewrite <- scal_sum. rewrite A. ring.
  - intros k Hk. replace (- n + Z.of_nat k)%Z with (Z.of_nat k - n)%Z by lia.
    assert (E: sgn (Z.of_nat k - n) = (-1) ^ k * (-1) ^ Z.to_nat n).
    { replace ((-1) ^ k) with (sgn (Z.of_nat k)) by (rewrite sgn_pow, Nat2Z.id by lia; auto). rewrite <- sgn_pow by auto. unfold sgn.
      destruct (Z.eqb_spec ((Z.of_nat k - n) mod 2) 0), (Z.eqb_spec (Z.of_nat k mod 2) 0), (Z.eqb_spec (n mod 2) 0); try ring; exfalso; Z.div_mod_to_equations; lia. }
    rewrite E. ring.
Qed.

Theorem C59_trace_invariant : forall coef nmax T cg old cg' out, (0 <= nmax)%Z -> (2 * nmax < Z.of_nat (length coef))%Z ->
  (forall i j n1 n2, i <> j -> T i j 0%Z n1 n2 = RtoC 0) ->
  coefficient coef 0 = 1 -> (Z.of_nat (length cg) >= (2 * nmax + 1) * (2 * nmax + 1))%Z ->
  execute true coef nmax T cg old = Some (cg', out) ->
  forall i n, (1 <= n <= nmax)%Z -> trace out i n = trace T i n.
Proof.
  intros coef nmax T cg old cg' out Hn HC HT P0 HL HE i n Hr.
  destruct (C58_average coef nmax T cg old Hn HC HL (fun i j n1 n2 _ _ => HT i j n1 n2)) as (c2 & o2 & E2 & D). rewrite HE in E2. injection E2 as <- <-.
  set (p := coefficient coef) in *.
  transitivity (zsum (- n) n (fun m => mishchenko p T i i m n n)).
  - rewrite <- (Z2Nat.id n) at 2 3 by lia. rewrite zsum_sym, csum_first. cbn [Nat.eqb]. unfold trace. rewrite D by (repeat split; lia). f_equal.
    rewrite <- csum_scal. apply csum_ext. intros k Hk. rewrite mish_even by lia. rewrite D by (repeat split; lia).
    replace (RtoC 2) with (RtoC 1 + RtoC 1)%C by (rewrite <- RtoC_plus; f_equal; lra). ring.
  - unfold zsum. rewrite (csum_ext _ (fun k => (RtoC (/ IZR (2 * n + 1)) * trace T i n +
      csum (fun q => mish_term p T i i (- n + Z.of_nat k) n n (Z.of_nat (S q))) (Z.to_nat (2 * n)))%C)).
    + rewrite csum_plus, csum_swap. rewrite (csum_0 (fun q => csum _ _)).
      * assert (K: forall (c : C) k, csum (fun _ => c) k = (RtoC (INR k) * c)%C).
        { intros c. induction k as [|k IH]; [cbn; ring|]. cbn [csum]. rewrite IH. rewrite S_INR, RtoC_plus. ring. }
        rewrite K, Cmult_assoc, <- RtoC_mult. rewrite INR_IZR_INZ. replace (Z.of_nat (Z.to_nat (n - - n + 1))) with (2 * n + 1)%Z by lia.
        assert (0 < IZR (2 * n + 1)) by (apply IZR_lt; lia). rewrite Rinv_r by lra. ring.
      * intros q Hq. unfold mish_term.
        set (S0 := zsum (- Z.min n n) (Z.min n n) _).
        rewrite (csum_ext _ (fun k => ((RtoC (p (Z.of_nat (S q))) * S0) * RtoC (sgn (- n + Z.of_nat k) * clebsch_gordan n (- n + Z.of_nat k) n (- (- n + Z.of_nat k)) (Z.of_nat (S q)) 0))%C)).
        -- rewrite csum_scal. pose proof (alternating n (Z.of_nat (S q)) ltac:(lia) ltac:(lia)) as A. unfold zsum in A. rewrite A. ring.
        -- intros k _. rewrite !RtoC_mult. ring.
    + intros k Hk. rewrite mish_diag by lia. rewrite P0. do 2 f_equal. unfold Rdiv. f_equal. ring.
Qed.
Print Assumptions C59_trace_invariant.

(** C60: the average needs a work array of (2 nmax + 1)^2 numbers and has one of
    (maximum_order + 1)(2 maximum_order + 1): it is written out of bounds whenever nmax is too close to maximum_order. *)
Theorem C60_bounds_exactly : forall coef nmax T cg old, (1 <= nmax)%Z -> (2 * nmax < Z.of_nat (length coef))%Z ->
  (forall i j n1 n2, i <> j -> T i j 0%Z n1 n2 = RtoC 0) ->
  (execute true coef nmax T cg old = None <-> (Z.of_nat (length cg) < (2 * nmax + 1) * (2 * nmax + 1))%Z).
Proof.
  intros coef nmax T cg old Hn HC HT. split.
  - intros E. destruct (Z_lt_le_dec (Z.of_nat (length cg)) ((2 * nmax + 1) * (2 * nmax + 1))); auto.
    destruct (C58_average coef nmax T cg old ltac:(lia) HC ltac:(lia) (fun i j n1 n2 _ _ => HT i j n1 n2)) as (c & o & E' & _). congruence.
  - intros HL. apply execute_too_small; auto.
Qed.
Print Assumptions C60_bounds_exactly.

Theorem C60_no_overflow_partial : forall coef nmax maximum_order T cg old, (0 <= nmax)%Z -> (0 <= maximum_order)%Z ->
  Z.of_nat (length cg) = work_size maximum_order -> (2 * nmax < Z.of_nat (length coef))%Z ->
  (forall i j n1 n2, i <> j -> T i j 0%Z n1 n2 = RtoC 0) ->
  (10 * nmax <= 7 * maximum_order)%Z -> execute true coef nmax T cg old <> None.
Proof.
  intros coef nmax mo T cg old Hn Hm HW HC HT HL.
  destruct (C58_average coef nmax T cg old Hn HC) as (c & o & E' & _); auto; [|congruence].
  rewrite HW. unfold work_size. nia.
Qed.
Print Assumptions C60_no_overflow_partial.

(** The order search may end at maximum_order; then the array is always too small. *)
Theorem C60_overflow_refuted : forall coef maximum_order T cg old, (1 <= maximum_order)%Z ->
  Z.of_nat (length cg) = work_size maximum_order -> execute true coef maximum_order T cg old = None.
Proof. intros coef mo T cg old Hm HW. apply execute_too_small; auto. rewrite HW. unfold work_size. nia. Qed.
Print Assumptions C60_overflow_refuted.

(** A T-matrix of order 2 with non-zero elements, an aligned distribution and work arrays of both sizes. *)
Definition ex_T : tmat := fun i j m n1 n2 => if eqb i j then RtoC (IZR (m + n1 + 2 * n2)) else RtoC (IZR m).
Example C58_nonvacuous : let coef := [1; 0; / 5; 0; 0] in let cg := repeat 0 25 in
  (0 <= 2)%Z /\ (2 * 2 < Z.of_nat (length coef))%Z /\ (Z.of_nat (length cg) >= (2 * 2 + 1) * (2 * 2 + 1))%Z /\
  (forall i j n1 n2, i <> j -> ex_T i j 0%Z n1 n2 = RtoC 0) /\ coefficient coef 0 = 1 /\
  (exists r, execute true coef 2 ex_T cg ex_T = Some r) /\ trace ex_T false 2 = RtoC 36.
Proof.
  intros coef cg. assert (T0: forall i j n1 n2, i <> j -> ex_T i j 0%Z n1 n2 = RtoC 0).
  { intros [] [] n1 n2 H; try congruence; reflexivity. }
  split; [lia|]. split; [cbn; lia|]. split; [cbn; lia|]. split; [exact T0|]. split; [reflexivity|]. split.
  - destruct (C58_average coef 2 ex_T cg ex_T) as (c & o & E & _); auto; try (cbn; lia). eauto.
  - apply injective_projections; lazy -[Rplus Rmult Rminus Ropp IZR]; lra.
Qed.
Example C60_nonvacuous : Z.of_nat (length (repeat 0 15)) = work_size 2 /\
  execute true [1; 0; / 5; 0; 0] 2 ex_T (repeat 0 15) ex_T = None /\ execute true [1; 0; / 5; 0; 0] 1 ex_T (repeat 0 15) ex_T <> None.
Proof.
  split; [reflexivity|]. split; [apply C60_overflow_refuted; [lia|reflexivity]|].
  destruct (C58_average [1; 0; / 5; 0; 0] 1 ex_T (repeat 0 15) ex_T) as (c & o & E & _); try (cbn; lia); [|congruence].
  intros [] [] n1 n2 H; try congruence; reflexivity.
Qed.
