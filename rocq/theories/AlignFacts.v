(** Proofs about Align.v. *)
From Coq Require Import List ZArith Reals Lra Lia Arith Bool.
From Coquelicot Require Import Complex.
From Verif Require Import Base Racah Clebsch Align.
Import ListNotations.
Open Scope R_scope.

Lemma cgs_ok : forall n1 n2 N C, (0 <= n1)%Z -> (0 <= n2)%Z -> (0 <= N)%Z -> (Z.abs (n1 - n2) <= N <= n1 + n2)%Z ->
  (Z.of_nat (length C) >= (N + 1) * (2 * n1 + 1))%Z ->
  exists C', get_clebsch_gordan_coefficients n1 n2 N C = Some (C', (2 * Z.min n1 n2 + 1)%Z) /\ length C' = length C /\
    forall m, (- Z.min n1 n2 <= m <= Z.min n1 n2)%Z -> rd C' (Z.min n1 n2 + m) = Some (clebsch_gordan n1 m n2 (- m) N 0).
Proof.
  intros n1 n2 N C H1 H2 H0 HN HL. unfold get_clebsch_gordan_coefficients.
  destruct (fill_ok n1 n2 N H1 H2 H0 HN C HL) as (C1 & E1 & L1 & A1). rewrite E1. cbn [obind].
  set (nmin := Z.min n1 n2).
  set (P := fun (i : Z) (c : list R) => length c = length C /\
    (forall k, (0 <= k < i)%Z -> rd c k = Some (clebsch_gordan n1 (k - nmin) n2 (0 - (k - nmin)) N 0)) /\
    (forall k, (i <= k <= 2 * nmin)%Z -> rd c (k - nmin + n1) = Some (clebsch_gordan n1 (k - nmin) n2 (0 - (k - nmin)) N 0))).
  destruct (zup_ind _ P (fun i C => obind (rd C (i - nmin + n1)) (fun c => wr C i c)) (Z.to_nat (2 * nmin + 1)) 0 C1) as (C2 & E2 & L2 & A2 & B2).
  - split; auto. split; [intros; lia|]. intros k Hk.
    assert (V: valid_m n1 n2 0 (k - nmin)) by (unfold valid_m; lia). specialize (A1 0%Z (k - nmin)%Z ltac:(lia) V).
    unfold at_ in A1. rewrite <- A1. apply f_equal. lia.
  - intros j c Hj (L & A & B). rewrite B by lia. cbn [obind].
    destruct (wr_ok c j (clebsch_gordan n1 (j - nmin) n2 (0 - (j - nmin)) N 0)) as (c' & E & L' & S' & O'); [nia|].
    exists c'. split; auto. split; [congruence|]. split.
    + intros k Hk. destruct (Z.eq_dec k j) as [ -> | Hne ]; auto. rewrite O' by auto. apply A. lia.
    + intros k Hk. rewrite O' by lia. apply B. lia.
  - rewrite E2. cbn [obind]. exists C2. split; auto. split; auto. intros m Hm. rewrite A2 by lia.
    replace (nmin + m - nmin)%Z with m by lia. reflexivity.
Qed.

Lemma cgs_too_small : forall n1 n2 N C, (0 <= n1)%Z -> (0 <= n2)%Z -> (0 <= N)%Z -> (Z.abs (n1 - n2) <= N <= n1 + n2)%Z ->
  (Z.of_nat (length C) < (N + 1) * (2 * n1 + 1))%Z -> get_clebsch_gordan_coefficients n1 n2 N C = None.
Proof. intros. unfold get_clebsch_gordan_coefficients. rewrite fill_too_small by auto. reflexivity. Qed.

(* ---------------- sums *)

Lemma csum_ext : forall f g n, (forall k, (k < n)%nat -> f k = g k) -> csum f n = csum g n.
Proof. intros f g. induction n as [|n IH]; intros H; [auto|]. cbn [csum]. rewrite IH by (intros; apply H; lia). rewrite H by lia. auto. Qed.
Lemma csum_first : forall f n, csum f (S n) = (f 0%nat + csum (fun k => f (S k)) n)%C.
Proof. intros f. induction n as [|n IH]; [cbn; ring|]. cbn [csum] in *. rewrite IH. ring. Qed.
Lemma csum_plus : forall f g n, csum (fun k => (f k + g k)%C) n = (csum f n + csum g n)%C.
Proof. intros f g. induction n as [|n IH]; cbn [csum]; [ring|rewrite IH; ring]. Qed.
Lemma csum_scal : forall a f n, csum (fun k => (a * f k)%C) n = (a * csum f n)%C.
Proof. intros a f. induction n as [|n IH]; cbn [csum]; [ring|rewrite IH; ring]. Qed.
Lemma csum_0 : forall f n, (forall k, (k < n)%nat -> f k = RtoC 0) -> csum f n = RtoC 0.
Proof. intros f. induction n as [|n IH]; intros H; cbn [csum]; [auto|]. rewrite IH by (intros; apply H; lia). rewrite H by lia. ring. Qed.
Lemma csum_swap : forall (f : nat -> nat -> C) n k, csum (fun i => csum (f i) k) n = csum (fun j => csum (fun i => f i j) n) k.
Proof.
  intros f. induction n as [|n IH]; intros k; cbn [csum].
  - symmetry. apply csum_0. auto.
  - rewrite IH. rewrite csum_plus. auto.
Qed.
Lemma csum_RtoC : forall f n, csum (fun k => RtoC (f k)) (S n) = RtoC (sum_f_R0 f n).
Proof.
  intros f. induction n as [|n IH].
  - cbn [csum sum_f_R0]. ring.
  - cbn [csum] in *. rewrite IH. cbn [sum_f_R0]. rewrite RtoC_plus. auto.
Qed.

Lemma zsum_ext : forall a b f g, (forall k, (a <= k <= b)%Z -> f k = g k) -> zsum a b f = zsum a b g.
Proof. intros. unfold zsum. apply csum_ext. intros k Hk. apply H. lia. Qed.

Lemma zsum_sym : forall M f, zsum (- Z.of_nat M) (Z.of_nat M) f =
  csum (fun k => if (k =? 0)%nat then f 0%Z else (f (Z.of_nat k) + f (- Z.of_nat k)%Z)%C) (S M).
Proof.
  induction M as [|M IH]; intros f.
  - unfold zsum. cbn. auto.
  - cbn [csum] in *. rewrite <- IH. unfold zsum. cbn [Nat.eqb].
    replace (Z.to_nat (Z.of_nat (S M) - - Z.of_nat (S M) + 1)) with (S (S (Z.to_nat (Z.of_nat M - - Z.of_nat M + 1)))) by lia.
    set (n := Z.to_nat (Z.of_nat M - - Z.of_nat M + 1)).
    rewrite csum_first. cbn [csum].
    replace (- Z.of_nat (S M) + Z.of_nat 0)%Z with (- Z.of_nat (S M))%Z by lia.
    replace (- Z.of_nat (S M) + Z.of_nat (S n))%Z with (Z.of_nat (S M)) by lia.
    rewrite (csum_ext (fun k => f (- Z.of_nat (S M) + Z.of_nat (S k))%Z) (fun k => f (- Z.of_nat M + Z.of_nat k)%Z)) by (intros; f_equal; lia).
    ring.
Qed.

(* ---------------- one element *)

Lemma sgn_opp : forall k, sgn (- k) = sgn k.
Proof. intros k. unfold sgn. destruct (Z.eqb_spec (k mod 2) 0), (Z.eqb_spec ((- k) mod 2) 0); auto; exfalso; Z.div_mod_to_equations; lia. Qed.
Lemma sgn_pow : forall k, (0 <= k)%Z -> sgn k = (-1) ^ Z.to_nat k.
Proof.
  intros k Hk. unfold sgn. rewrite <- (Z2Nat.id k) at 1 by auto. generalize (Z.to_nat k). intros n.
  induction n as [|n IH] using nat_ind; [reflexivity|].
  replace (Z.of_nat (S n)) with (Z.of_nat n + 1)%Z by lia. cbn [pow]. rewrite <- IH.
  destruct (Z.eqb_spec (Z.of_nat n mod 2) 0), (Z.eqb_spec ((Z.of_nat n + 1) mod 2) 0); try ring; exfalso; Z.div_mod_to_equations; lia.
Qed.

(** does the parity of N + n1 + n2 select this quarter? *)
Definition selected (N n1 n2 : Z) (i j : bool) : bool := eqb (xorb i j) (negb ((N + (n1 + n2)) mod 2 =? 0)%Z).

Lemma m1_loop : forall T m n1 n2 N pN cg t, (0 <= m <= Z.min n1 n2)%Z ->
  (forall k, (- Z.min n1 n2 <= k <= Z.min n1 n2)%Z -> rd cg (Z.min n1 n2 + k) = Some (clebsch_gordan n1 k n2 (- k) N 0)) ->
  exists t', zup (Z.to_nat (Z.min n1 n2 + 1)) 0 (m1_body T m n1 n2 N pN cg) t = Some t' /\
  forall i j, quarter t' i j = (quarter t i j + RtoC (sgn m * pN * clebsch_gordan n1 m n2 (- m) N 0) *
     csum (fun k => if selected N n1 n2 i j then RtoC (sgn (Z.of_nat k) * (if (k =? 0)%nat then 1 else 2) * clebsch_gordan n1 (Z.of_nat k) n2 (- Z.of_nat k) N 0)
         * T i j (Z.of_nat k) n1 n2 else RtoC 0) (Z.to_nat (Z.min n1 n2 + 1)))%C.
Proof.
  intros T m n1 n2 N pN cg t Hm HR. set (M := Z.min n1 n2) in *.
  set (g := fun i j k => (if selected N n1 n2 i j then RtoC (sgn (Z.of_nat k) * (if (k =? 0)%nat then 1 else 2) * clebsch_gordan n1 (Z.of_nat k) n2 (- Z.of_nat k) N 0)
         * T i j (Z.of_nat k) n1 n2 else RtoC 0)%C).
  set (a := RtoC (sgn m * pN * clebsch_gordan n1 m n2 (- m) N 0)).
  set (P := fun (q : Z) (u : quad) => forall i j, quarter u i j = (quarter t i j + a * csum (g i j) (Z.to_nat q))%C).
  destruct (zup_ind _ P (m1_body T m n1 n2 N pN cg) (Z.to_nat (M + 1)) 0 t) as (t' & E & A).
  - intros i j. cbn [Z.to_nat csum]. ring.
  - intros q u Hq HP. destruct u as [[[u00 u01] u10] u11]. unfold m1_body. fold M. rewrite HR by lia. cbn [obind]. rewrite HR by lia. cbn [obind].
    eexists. split; [reflexivity|]. intros i j. replace (Z.to_nat (q + 1)) with (S (Z.to_nat q)) by lia. cbn [csum].
    rewrite Cmult_plus_distr_l, Cplus_assoc, <- HP. unfold g. rewrite Z2Nat.id by lia.
    replace (if (Z.to_nat q =? 0)%nat then 1 else 2) with (if (q =? 0)%Z then 1 else 2) by (destruct (Z.eqb_spec q 0), (Nat.eqb_spec (Z.to_nat q) 0); auto; lia).
    set (w := clebsch_gordan n1 q n2 (- q) N 0). set (w0 := clebsch_gordan n1 m n2 (- m) N 0) in *.
    set (fc := if (q =? 0)%Z then 1 else 2).
    assert (EF: RtoC (sgn q * sgn m * fc * pN * w0 * w) = (a * RtoC (sgn q * fc * w))%C).
    { unfold a. rewrite <- RtoC_mult. f_equal. ring. }
    rewrite EF. unfold selected. destruct ((N + (n1 + n2)) mod 2 =? 0)%Z; destruct i, j; cbn [xorb negb eqb quarter]; ring.
  - exists t'. split; auto. intros i j. rewrite (A i j). rewrite Z.add_0_l, Nat2Z.id. reflexivity.
Qed.

(** The sum over m1 >= 0 with the factors 2 is the complete sum. *)
Lemma complete_sum : forall (T : tmat) i j n1 n2 N, (0 <= n1)%Z -> (0 <= n2)%Z -> (N <= n1 + n2)%Z -> (0 <= N)%Z ->
  (xorb i j = true -> T i j 0%Z n1 n2 = RtoC 0) ->
  csum (fun k => if selected N n1 n2 i j then RtoC (sgn (Z.of_nat k) * (if (k =? 0)%nat then 1 else 2) * clebsch_gordan n1 (Z.of_nat k) n2 (- Z.of_nat k) N 0)
         * T i j (Z.of_nat k) n1 n2 else RtoC 0)%C (Z.to_nat (Z.min n1 n2 + 1)) =
  zsum (- Z.min n1 n2) (Z.min n1 n2) (fun m1 => RtoC (sgn m1 * clebsch_gordan n1 m1 n2 (- m1) N 0) * mirrored T i j m1 n1 n2)%C.
Proof.
  intros T i j n1 n2 N H1 H2 HN H0 HT. set (M := Z.to_nat (Z.min n1 n2)).
  replace (Z.min n1 n2) with (Z.of_nat M) by lia. rewrite zsum_sym. replace (Z.to_nat (Z.of_nat M + 1)) with (S M) by lia.
  apply csum_ext. intros k _.
  assert (SY: forall q, clebsch_gordan n1 (- q) n2 q N 0 = sgn (n1 + n2 - N) * clebsch_gordan n1 q n2 (- q) N 0).
  { intros q. rewrite sgn_pow by lia. rewrite <- (cg_symmetry n1 q n2 (- q) N 0) by lia. f_equal; lia. }
  assert (SP: ((N + (n1 + n2)) mod 2 =? 0)%Z = ((n1 + n2 - N) mod 2 =? 0)%Z).
  { destruct (Z.eqb_spec ((N + (n1 + n2)) mod 2) 0), (Z.eqb_spec ((n1 + n2 - N) mod 2) 0); auto; exfalso; Z.div_mod_to_equations; lia. }
  unfold selected. rewrite SP. destruct (Nat.eqb_spec k 0) as [ -> | Hk ].
  - cbn [Z.of_nat]. unfold mirrored. cbn [Z.ltb Z.compare].
    pose proof (SY 0%Z) as S0. cbn [Z.opp] in S0. unfold sgn in S0.
    destruct ((n1 + n2 - N) mod 2 =? 0)%Z; cbn [negb].
    + destruct (xorb i j) eqn:X; cbn [eqb]; [rewrite HT by auto; ring|]. unfold sgn. cbn. replace (1 * 1) with 1 by ring. auto.
    + assert (Z0: clebsch_gordan n1 0 n2 0 N 0 = 0) by lra. cbn [Z.opp]. rewrite Z0.
      destruct (eqb (xorb i j) true); [|rewrite Rmult_0_r; ring]. rewrite !Rmult_0_r. ring.
  - unfold mirrored. rewrite (proj2 (Z.ltb_ge (Z.of_nat k) 0)) by lia. rewrite (proj2 (Z.ltb_lt (- Z.of_nat k) 0)) by lia.
    rewrite Z.opp_involutive. rewrite (SY (Z.of_nat k)), sgn_opp.
    set (w := clebsch_gordan n1 (Z.of_nat k) n2 (- Z.of_nat k) N 0). set (s := sgn (Z.of_nat k)). unfold sgn.
    destruct ((n1 + n2 - N) mod 2 =? 0)%Z; cbn [negb]; destruct (xorb i j); cbn [eqb];
      rewrite ?RtoC_mult; try (replace (RtoC 2) with (RtoC 1 + RtoC 1)%C by (rewrite <- RtoC_plus; f_equal; lra));
      try (replace (RtoC (-1)) with (- RtoC 1)%C by (rewrite <- RtoC_opp; f_equal; lra)); ring.
Qed.

Lemma n12min_abs : forall n1 n2, n12min n1 n2 = Z.abs (n1 - n2).
Proof. intros. unfold n12min. destruct (Z.ltb_spec n2 n1); lia. Qed.

(** What the loop over N adds. *)
Definition mish_term (p : Z -> R) (T : tmat) (i j : bool) (m n1 n2 N : Z) : C :=
  (RtoC (sgn m * p N * clebsch_gordan n1 m n2 (- m) N 0) *
     zsum (- Z.min n1 n2) (Z.min n1 n2) (fun m1 => RtoC (sgn m1 * clebsch_gordan n1 m1 n2 (- m1) N 0) * mirrored T i j m1 n1 n2))%C.

Lemma rd_nth : forall l i, (0 <= i < Z.of_nat (length l))%Z -> rd l i = Some (nth (Z.to_nat i) l 0).
Proof. intros l i H. unfold rd. rewrite (proj2 (Z.leb_le 0 i)) by lia. apply nth_error_nth'. lia. Qed.

Definition coefficient (coef : list R) (N : Z) : R := nth (Z.to_nat N) coef 0.

Lemma element_ok : forall coef T m n1 n2 cg, (0 <= m <= Z.min n1 n2)%Z -> (1 <= Z.min n1 n2)%Z ->
  (n1 + n2 < Z.of_nat (length coef))%Z -> (Z.of_nat (length cg) >= (n1 + n2 + 1) * (2 * n1 + 1))%Z ->
  (forall i j, xorb i j = true -> T i j 0%Z n1 n2 = RtoC 0) ->
  exists cg' t, element coef T m n1 n2 cg = Some (cg', t) /\ length cg' = length cg /\
    forall i j, quarter t i j = mishchenko (coefficient coef) T i j m n1 n2.
Proof.
  intros coef T m n1 n2 cg Hm Hn HC HL HT. unfold element. rewrite n12min_abs. set (lo := Z.abs (n1 - n2)).
  set (P := fun (q : Z) (st : list R * quad) => length (fst st) = length cg /\ forall i j, quarter (snd st) i j =
     csum (fun k => mish_term (coefficient coef) T i j m n1 n2 (lo + Z.of_nat k)) (Z.to_nat (q - lo))).
  destruct (zup_ind _ P (N_body coef T m n1 n2) (Z.to_nat (n1 + n2 + 1 - lo)) lo (cg, quad0)) as ((cg' & t) & E & L & A).
  - split; [auto|]. intros i j. rewrite Z.sub_diag. cbn. destruct i, j; reflexivity.
  - intros q [c u] Hq (L & A). cbn [fst snd] in *. unfold N_body. cbn [fst snd].
    destruct (cgs_ok n1 n2 q c) as (c' & E1 & L1 & R1); try lia; [nia|]. rewrite E1. cbn [obind fst].
    rewrite rd_nth by lia. cbn [obind]. fold (coefficient coef q).
    destruct (m1_loop T m n1 n2 q (coefficient coef q) c' u Hm R1) as (t' & E2 & R2). rewrite E2. cbn [obind].
    eexists. split; [reflexivity|]. split; [cbn [fst]; congruence|]. intros i j. cbn [snd]. rewrite R2.
    replace (Z.to_nat (q + 1 - lo)) with (S (Z.to_nat (q - lo))) by lia. cbn [csum]. rewrite <- A.
    replace (lo + Z.of_nat (Z.to_nat (q - lo)))%Z with q by lia. unfold mish_term. rewrite complete_sum; auto; lia.
  - exists cg', t. cbn [fst snd] in *. split; auto. split; auto. intros i j. rewrite A. unfold mishchenko, zsum. fold lo.
    replace (Z.to_nat (lo + Z.of_nat (Z.to_nat (n1 + n2 + 1 - lo)) - lo)) with (Z.to_nat (n1 + n2 - lo + 1)) by lia.
    apply csum_ext. intros k Hk. reflexivity.
Qed.

Lemma element_fresh_ok : forall coef T m n1 n2, (0 <= m <= Z.min n1 n2)%Z -> (1 <= Z.min n1 n2)%Z ->
  (n1 + n2 < Z.of_nat (length coef))%Z ->
  (forall i j, xorb i j = true -> T i j 0%Z n1 n2 = RtoC 0) ->
  exists t, element_fresh coef T m n1 n2 = Some t /\
    forall i j, quarter t i j = mishchenko (coefficient coef) T i j m n1 n2.
Proof.
  intros coef T m n1 n2 Hm Hn HC HT. unfold element_fresh. rewrite n12min_abs. set (lo := Z.abs (n1 - n2)).
  set (P := fun (q : Z) (u : quad) => forall i j, quarter u i j =
     csum (fun k => mish_term (coefficient coef) T i j m n1 n2 (lo + Z.of_nat k)) (Z.to_nat (q - lo))).
  destruct (zup_ind _ P (N_body_fresh coef T m n1 n2) (Z.to_nat (n1 + n2 + 1 - lo)) lo quad0) as (t & E & A).
  - intros i j. rewrite Z.sub_diag. cbn. destruct i, j; reflexivity.
  - intros q u Hq A. unfold N_body_fresh.
    destruct (cgs_ok n1 n2 q (repeat 0 (Z.to_nat ((q + 1) * (2 * n1 + 1))))) as (c' & E1 & L1 & R1); try lia; [rewrite repeat_length; nia|]. rewrite E1. cbn [obind fst].
    rewrite rd_nth by lia. cbn [obind]. fold (coefficient coef q).
    destruct (m1_loop T m n1 n2 q (coefficient coef q) c' u Hm R1) as (t' & E2 & R2). rewrite E2.
    eexists. split; [reflexivity|]. intros i j. rewrite R2.
    replace (Z.to_nat (q + 1 - lo)) with (S (Z.to_nat (q - lo))) by lia. cbn [csum]. rewrite <- A.
    replace (lo + Z.of_nat (Z.to_nat (q - lo)))%Z with q by lia. unfold mish_term. rewrite complete_sum; auto; lia.
  - exists t. split; auto. intros i j. rewrite A. unfold mishchenko, zsum. fold lo.
    replace (Z.to_nat (lo + Z.of_nat (Z.to_nat (n1 + n2 + 1 - lo)) - lo)) with (Z.to_nat (n1 + n2 - lo + 1)) by lia.
    apply csum_ext. intros k Hk. reflexivity.
Qed.

(* ---------------- the loops *)

(** Invariant rule: [Q s] is kept, and the elements visited so far satisfy [D]. *)
Lemma mn_loops_ind : forall S (Q : S -> Prop) (D : S -> Z -> Z -> Z -> Prop) nmax f s, (0 <= nmax)%Z -> Q s ->
  (forall m n1 n2 s, (0 <= m <= nmax)%Z -> (Z.max m 1 <= n1 <= nmax)%Z -> (Z.max m 1 <= n2 <= nmax)%Z -> Q s ->
     exists s', f m n1 n2 s = Some s' /\ Q s' /\ D s' m n1 n2 /\
       forall m' a b, (m', a, b) <> (m, n1, n2) -> D s m' a b -> D s' m' a b) ->
  exists s', mn_loops nmax f s = Some s' /\ Q s' /\
    forall m n1 n2, (0 <= m <= nmax)%Z -> (Z.max m 1 <= n1 <= nmax)%Z -> (Z.max m 1 <= n2 <= nmax)%Z -> D s' m n1 n2.
Proof.
  intros S Q D nmax f s Hn HQ HF. unfold mn_loops.
  assert (DEC: forall (x y : Z * Z * Z), x = y \/ x <> y) by (intros; destruct x as [[? ?] ?], y as [[? ?] ?]; destruct (Z.eq_dec z z2), (Z.eq_dec z0 z3), (Z.eq_dec z1 z4); subst; auto; right; congruence).
  set (rng := fun m a b => (Z.max m 1 <= a <= nmax)%Z /\ (Z.max m 1 <= b <= nmax)%Z).
  set (P1 := fun (m0 : Z) (s : S) => Q s /\ forall m a b, (0 <= m < m0)%Z -> rng m a b -> D s m a b).
  destruct (zup_ind _ P1 (fun m s => zup (Z.to_nat (nmax + 1 - Z.max m 1)) (Z.max m 1) (fun n1 s =>
      zup (Z.to_nat (nmax + 1 - Z.max m 1)) (Z.max m 1) (fun n2 s => f m n1 n2 s) s) s) (Z.to_nat (nmax + 1)) 0 s) as (s' & E & HQ' & HD).
  - split; auto. intros; lia.
  - intros m0 s0 Hm0 (Q0 & D0).
    set (P2 := fun (a0 : Z) (s : S) => Q s /\ forall m a b, ((0 <= m < m0)%Z \/ m = m0 /\ (a < a0)%Z) -> rng m a b -> D s m a b).
    destruct (zup_ind _ P2 (fun n1 s => zup (Z.to_nat (nmax + 1 - Z.max m0 1)) (Z.max m0 1) (fun n2 s => f m0 n1 n2 s) s)
       (Z.to_nat (nmax + 1 - Z.max m0 1)) (Z.max m0 1) s0) as (s1 & E1 & Q1 & D1).
    + split; auto. intros m a b [H|H] HR; auto. destruct HR. lia.
    + intros a0 s1 Ha0 (Q1 & D1).
      set (P3 := fun (b0 : Z) (s : S) => Q s /\ forall m a b, ((0 <= m < m0)%Z \/ m = m0 /\ ((a < a0)%Z \/ a = a0 /\ (b < b0)%Z)) -> rng m a b -> D s m a b).
      destruct (zup_ind _ P3 (fun n2 s => f m0 a0 n2 s) (Z.to_nat (nmax + 1 - Z.max m0 1)) (Z.max m0 1) s1) as (s2 & E2 & Q2 & D2).
      * split; auto. intros m a b [H|[H [H'|H']]] HR; auto. destruct HR. lia.
      * intros b0 s2 Hb0 (Q2 & D2). destruct (HF m0 a0 b0 s2) as (s3 & E3 & Q3 & D3 & K3); auto; try lia.
        exists s3. split; auto. split; auto. intros m a b HH HR.
        destruct (DEC (m, a, b) (m0, a0, b0)) as [EQ|NE]; [injection EQ as -> -> ->; auto|].
        apply K3; auto. apply D2; auto. assert (~ (m = m0 /\ a = a0 /\ b = b0)) by (intros (-> & -> & ->); auto). lia.
      * exists s2. split; auto. split; auto. intros m a b HH HR. apply D2; auto. destruct HR. lia.
    + exists s1. split; auto. split; auto. intros m a b HH HR. apply D1; auto. destruct HR. lia.
  - exists s'. split; auto. split; auto. intros m a b Hm Ha Hb. apply HD; [lia|split; auto].
Qed.

Lemma set_elements_at : forall T m n1 n2 t i j, set_elements T m n1 n2 t i j m n1 n2 = quarter t i j.
Proof. intros. unfold set_elements. rewrite !Z.eqb_refl. reflexivity. Qed.
Lemma set_elements_other : forall T m n1 n2 t i j m' a b, (m', a, b) <> (m, n1, n2) -> set_elements T m n1 n2 t i j m' a b = T i j m' a b.
Proof.
  intros. unfold set_elements. destruct (Z.eqb_spec m' m), (Z.eqb_spec a n1), (Z.eqb_spec b n2); cbn [andb]; auto. subst. congruence.
Qed.

(* ---------------- too small a work array *)

Lemma wr_length : forall C i v C', wr C i v = Some C' -> length C' = length C.
Proof. intros C i v C'. unfold wr. destruct (_ && _); [|discriminate]. intros [= <-]. apply upd_length. Qed.

Lemma zup_keeps : forall S (Q : S -> Prop) f cnt i s s', zup cnt i f s = Some s' -> Q s ->
  (forall j s s', f j s = Some s' -> Q s -> Q s') -> Q s'.
Proof.
  intros S Q f. induction cnt as [|c IH]; intros i s s' E H HF; cbn [zup] in E; [congruence|].
  destruct (f i s) as [s1|] eqn:E1; [|discriminate]. cbn [obind] in E. eapply IH; eauto.
Qed.
Lemma zdown_keeps : forall S (Q : S -> Prop) f cnt i s s', zdown cnt i f s = Some s' -> Q s ->
  (forall j s s', f j s = Some s' -> Q s -> Q s') -> Q s'.
Proof.
  intros S Q f. induction cnt as [|c IH]; intros i s s' E H HF; cbn [zdown] in E; [congruence|].
  destruct (f i s) as [s1|] eqn:E1; [|discriminate]. cbn [obind] in E. eapply IH; eauto.
Qed.

(** A loop fails when one of its iterations fails whatever happened before. *)
Lemma zup_fails : forall S (Q : S -> Prop) f cnt i s q, (i <= q < i + Z.of_nat cnt)%Z -> Q s ->
  (forall j s s', f j s = Some s' -> Q s -> Q s') -> (forall s, Q s -> f q s = None) -> zup cnt i f s = None.
Proof.
  intros S Q f. induction cnt as [|c IH]; intros i s q Hq H HK HF; [lia|]. cbn [zup].
  destruct (f i s) as [s1|] eqn:E1; [|auto]. cbn [obind]. destruct (Z.eq_dec i q) as [ -> | Hne ].
  - rewrite HF in E1 by auto. discriminate.
  - apply (IH (i + 1)%Z s1 q); auto; [lia|]. eapply HK; eauto.
Qed.

Lemma obind_some : forall A B (x : option A) (f : A -> option B) y, obind x f = Some y -> exists a, x = Some a /\ f a = Some y.
Proof. intros A B [a|] f y H; [eauto|discriminate]. Qed.

Lemma fill_length : forall n1 n2 N C C', fill n1 n2 N C = Some C' -> length C' = length C.
Proof.
  intros n1 n2 N C C' H. unfold fill in H.
  apply obind_some in H. destruct H as (C1 & E1 & H). apply wr_length in E1.
  apply obind_some in H. destruct H as ([C2 norm] & E2 & H).
  assert (L2: length C2 = length C).
  { change (length (fst (C2, norm)) = length C). eapply (zdown_keeps _ (fun st => length (fst st) = length C)); [exact E2|exact E1|].
    intros j [c x] [c' x'] E L. cbn [fst] in *. unfold top_body in E.
    apply obind_some in E. destruct E as (? & _ & E). apply obind_some in E. destruct E as (? & _ & E). apply obind_some in E. destruct E as (? & _ & E).
    apply obind_some in E. destruct E as (? & _ & E). apply obind_some in E. destruct E as (? & W & E). injection E as <- <-. apply wr_length in W. congruence. }
  apply obind_some in H. destruct H as (? & _ & H). apply obind_some in H. destruct H as (? & _ & H).
  apply obind_some in H. destruct H as (C3 & E3 & H).
  assert (L3: length C3 = length C).
  { eapply (zdown_keeps _ (fun c => length c = length C)); [exact E3|exact L2|].
    intros j c c' E L. unfold norm_body in E. apply obind_some in E. destruct E as (? & _ & E). apply wr_length in E. congruence. }
  eapply (zdown_keeps _ (fun c => length c = length C)); [exact H|exact L3|].
  intros j c c' E L. unfold row_body in E. apply obind_some in E. destruct E as (? & _ & E). apply obind_some in E. destruct E as (? & _ & E).
  eapply (zup_keeps _ (fun c => length c = length C)); [exact E|exact L|].
  intros k d d' F L'. unfold low_body in F. apply obind_some in F. destruct F as (? & _ & F). apply obind_some in F. destruct F as (? & _ & F). apply wr_length in F. congruence.
Qed.

Lemma cgs_length : forall n1 n2 N C C' k, get_clebsch_gordan_coefficients n1 n2 N C = Some (C', k) -> length C' = length C.
Proof.
  intros n1 n2 N C C' k H. unfold get_clebsch_gordan_coefficients in H.
  apply obind_some in H. destruct H as (C1 & E1 & H). apply fill_length in E1. apply obind_some in H. destruct H as (C2 & E2 & H). injection H as <- <-.
  eapply (zup_keeps _ (fun c => length c = length C)); [exact E2|exact E1|].
  intros j d d' F L'. apply obind_some in F. destruct F as (? & _ & F). apply wr_length in F. congruence.
Qed.

Lemma element_length : forall coef T m n1 n2 cg r, element coef T m n1 n2 cg = Some r -> length (fst r) = length cg.
Proof.
  intros coef T m n1 n2 cg r H. unfold element in H.
  eapply (zup_keeps _ (fun st => length (fst st) = length cg)); [exact H|reflexivity|].
  intros j [c u] [c' u'] E L. cbn [fst] in *. unfold N_body in E. apply obind_some in E. destruct E as ([c1 k1] & E1 & E).
  apply obind_some in E. destruct E as (? & _ & E). apply obind_some in E. destruct E as (? & _ & E). cbn [fst] in E, E1. injection E as <- <-.
  apply cgs_length in E1. congruence.
Qed.

Lemma execute_too_small : forall coef nmax T cg old, (1 <= nmax)%Z -> (Z.of_nat (length cg) < (2 * nmax + 1) * (2 * nmax + 1))%Z ->
  execute true coef nmax T cg old = None.
Proof.
  intros coef nmax T cg old Hn HL. unfold execute, mn_loops.
  set (f := fun m n1 n2 (s : list R * tmat) => obind (element coef T m n1 n2 (fst s)) (fun r => Some (fst r, set_elements (snd s) m n1 n2 (snd r)))).
  set (Q := fun s : list R * tmat => length (fst s) = length cg).
  assert (K: forall m n1 n2 s s', f m n1 n2 s = Some s' -> Q s -> Q s').
  { intros m n1 n2 s s' E HQ. unfold f in E. apply obind_some in E. destruct E as (r & E & E'). injection E' as <-.
    unfold Q in *. cbn [fst]. apply element_length in E. congruence. }
  apply (zup_fails _ Q _ _ _ _ 0%Z); [lia|reflexivity| |].
  - intros j s s' E HQ. eapply (zup_keeps _ Q); [exact E|exact HQ|]. intros a s1 s1' E1 HQ1.
    eapply (zup_keeps _ Q); [exact E1|exact HQ1|]. intros b s2 s2' E2 HQ2. eapply K; eauto.
  - intros s HQ. apply (zup_fails _ Q _ _ _ _ nmax); [lia|exact HQ| |].
    + intros a s1 s1' E1 HQ1. eapply (zup_keeps _ Q); [exact E1|exact HQ1|]. intros b s2 s2' E2 HQ2. eapply K; eauto.
    + intros s1 HQ1. apply (zup_fails _ Q _ _ _ _ nmax); [lia|exact HQ1| |].
      * intros b s2 s2' E2 HQ2. eapply K; eauto.
      * intros s2 HQ2. unfold f. unfold element. rewrite n12min_abs.
        rewrite (zup_fails _ (fun st => length (fst st) = length cg) _ _ _ _ (2 * nmax)%Z); [reflexivity|lia|exact HQ2| |].
        -- intros j [c u] [c' u'] E L. cbn [fst] in *. unfold N_body in E. apply obind_some in E. destruct E as ([c1 k1] & E1 & E).
           apply obind_some in E. destruct E as (? & _ & E). apply obind_some in E. destruct E as (? & _ & E). cbn [fst] in E, E1. injection E as <- <-.
           apply cgs_length in E1. congruence.
        -- intros [c u] L. cbn [fst] in L. unfold N_body. cbn [fst]. rewrite cgs_too_small; auto; lia.
Qed.
