(** Properties C31, C32, C35, C49, C50: quadrature rules and orientation distributions. *)
From Coq Require Import List Arith Lia Bool Reals Lra.
From Coquelicot Require Import Coquelicot.
From Verif Require Import Legendre Quadrature GaussExact Orientation.
Import ListNotations.
Local Open Scope R_scope.

(** C31.  [P n 0] is Rodrigues' Legendre polynomial (Legendre.v). *)
Theorem C31_prolate : forall nmax axis_ratio n, axis_ratio < 1 -> (n <= nmax)%nat ->
  coef (davis_greenstein nmax axis_ratio) n = P n 0 0 /\ size (davis_greenstein nmax axis_ratio) = (nmax + 1)%nat.
Proof. intros nmax q n Q H. destruct (davis_greenstein_spec nmax q n H) as (A & B & _). destruct (Rlt_dec q 1); [auto|lra]. Qed.
Print Assumptions C31_prolate.
Theorem C31_oblate : forall nmax axis_ratio n, 1 <= axis_ratio -> (n <= nmax)%nat ->
  coef (davis_greenstein nmax axis_ratio) n = P n 0 1 /\ coef (davis_greenstein nmax axis_ratio) n = 1 /\ size (davis_greenstein nmax axis_ratio) = (nmax + 1)%nat.
Proof. intros nmax q n Q H. destruct (davis_greenstein_spec nmax q n H) as (A & B & _). destruct (Rlt_dec q 1); [lra|]. rewrite A, P_at_1. auto. Qed.
Print Assumptions C31_oblate.
Example C31_example : coef (davis_greenstein 8 (1 / 2)) 4 = 3 / 8.
Proof.
  destruct (C31_prolate 8 (1 / 2) 4 ltac:(lra) ltac:(lia)) as (-> & _).
  pose proof (P_even_at_0 1) as A. pose proof (P_even_at_0 0) as B. cbn [Nat.add Nat.mul INR] in *. rewrite A, B, P_0_0. field.
Qed.

(** C32 *)
Theorem C32_symmetric : forall fuel order A points weights, gauss_legendre fuel order A = Some (points, weights) ->
  forall i, (i < order)%nat -> points (order - 1 - i)%nat = - points i /\ weights (order - 1 - i)%nat = weights i.
Proof. exact rule_symmetric. Qed.
Print Assumptions C32_symmetric.
Theorem C32_affine_image : forall fuel order a b A points weights, gauss_legendre_ab fuel order a b A = Some (points, weights) ->
  exists x w, gauss_legendre fuel order A = Some (x, w) /\
    forall i, (i < order)%nat -> points i = (b - a) / 2 * x i + (a + b) / 2 /\ weights i = (b - a) / 2 * w i.
Proof. exact rule_affine. Qed.
Print Assumptions C32_affine_image.
(** a rule exact on [-1,1] for polynomials of some degree is exact on [a,b] *)
Fixpoint quad (order : nat) (x w : nat -> R) (f : R -> R) : R := match order with 0%nat => 0 | S k => quad k x w f + w k * f (x k) end.
Theorem C32_exactness_carries_over : forall order x w d a b points weights,
  (forall p, (length p <= d)%nat -> is_RInt (eval p) (-1) 1 (quad order x w (eval p))) ->
  (forall i, (i < order)%nat -> points i = (b - a) / 2 * x i + (a + b) / 2 /\ weights i = (b - a) / 2 * w i) ->
  forall p, (length p <= d)%nat -> is_RInt (eval p) a b (quad order points weights (eval p)).
Proof.
  intros order x w d a b points weights H HP p L. destruct (affine_poly p ((b - a) / 2) ((a + b) / 2)) as (q & Lq & E).
  pose proof (H q ltac:(lia)) as G.
  assert (X: exists v, is_RInt (eval p) a b v).
  { apply (ex_RInt_continuous (V := R_CompleteNormedModule)). intros z _. apply (ex_derive_continuous (eval p)). eexists. apply is_derive_Reals. apply eval_deriv. }
  destruct X as (v & V).
  assert (V': is_RInt (eval p) ((b - a) / 2 * (-1) + (a + b) / 2) ((b - a) / 2 * 1 + (a + b) / 2) v).
  { replace ((b - a) / 2 * (-1) + (a + b) / 2) with a by field. replace ((b - a) / 2 * 1 + (a + b) / 2) with b by field. exact V. }
  apply (is_RInt_comp_lin (eval p) ((b - a) / 2) ((a + b) / 2) (-1) 1 v) in V'.
  pose proof (is_RInt_scalR _ _ _ ((b - a) / 2) _ G) as Y.
  assert (Y': is_RInt (fun y => scal ((b - a) / 2) (eval p ((b - a) / 2 * y + (a + b) / 2))) (-1) 1 ((b - a) / 2 * quad order x w (eval q))).
  { apply (is_RInt_by _ _ _ _ _ _ Y); [|reflexivity]. intros. rewrite <- E. reflexivity. }
  pose proof (is_RInt_unique _ _ _ _ V') as U1. pose proof (is_RInt_unique _ _ _ _ Y') as U2.
  apply (is_RInt_by _ _ _ _ _ _ V); [reflexivity|]. transitivity ((b - a) / 2 * quad order x w (eval q)).
  { etransitivity; [symmetry; exact U1|exact U2]. }
  clear - E HP. induction order as [|k IH]; cbn [quad]; [ring|]. rewrite Rmult_plus_distr_l, IH by (intros; apply HP; lia).
  destruct (HP k ltac:(lia)) as (-> & ->). rewrite E. ring.
Qed.
Print Assumptions C32_exactness_carries_over.
(** the iteration is Newton's method for P_n, and stops with an update within tolerance *)
Theorem C32_newton : forall order x, (1 <= order)%nat -> (1 - x * x) * P order 1 x <> 0 ->
  newton_step order x = (x - P order 0 x / P order 1 x, 1 / ((1 - x * x) * P order 1 x), P order 0 x / P order 1 x).
Proof. exact newton_step_spec. Qed.
Print Assumptions C32_newton.
Theorem C32_tolerance : forall fuel order x x' pa, (fuel <= 100)%nat -> newton fuel 0 (1 / 10 ^ 16) order x = Some (x', pa) ->
  exists x0, newton_step order x0 = (x', pa, x0 - x') /\ Rabs (x0 - x') <= 1 / 10 ^ 16 * Rabs x'.
Proof.
  intros fuel order x x' pa F E. destruct (newton_accuracy _ _ _ _ _ _ _ E) as (x0 & c & A & B & e & C & D). exists x0. split; auto.
  replace e with 0%nat in C by lia. rewrite C in B. cbn [pow] in B. lra.
Qed.
Print Assumptions C32_tolerance.
(** the rules with one point, computed by the code *)
Example C32_example : exists x w, gauss_legendre_ab 1 1 2 5 (fun _ => 0, fun _ => 0) = Some (x, w) /\ x 0%nat = 7 / 2 /\ w 0%nat = 3.
Proof.
  unfold gauss_legendre_ab, gauss_legendre. change (1 / 2 + 1 mod 2)%nat with 1%nat. cbn [fill].
  pose proof (middle_guess 1 eq_refl) as M. change (1 / 2 + 1 mod 2 - 1)%nat with 0%nat in M. rewrite M. cbn [newton]. unfold newton_step. cbn [Nat.sub leg_loop].
  replace (0 - 1 / ((1 - 0 * 0) * INR 1) * 0 * (1 - 0 * 0)) with 0 by ring.
  replace (1 / ((1 - 0 * 0) * INR 1) * 0 * (1 - 0 * 0)) with 0 by ring. rewrite Rabs_R0. change (Nat.ltb 100 1) with false. cbn iota.
  destruct (Rlt_dec _ _) as [C|C]; [rewrite Rmult_0_r in C; lra|].
  cbn [scale]. eexists. eexists. split; [reflexivity|]. unfold store. cbn. unfold aset. cbn. split; field.
Qed.

(** C49: with exact nodes, the rule of [order] points that the code stores (for any
    interval) integrates every polynomial of degree < 2 order exactly. [root i] stands for
    the result of the Newton iteration for the i-th root: the node, and the value pa of the
    last step. *)
Lemma parity_root : forall n x, P n 0 x = 0 -> P n 0 (- x) = 0.
Proof. intros n x H. rewrite P_parity, H. ring. Qed.
Lemma parity_weight : forall n x, gauss_weight n (- x) = gauss_weight n x.
Proof.
  intros n x. unfold gauss_weight.
  assert (Q: (-1) ^ (n + 1) * (-1) ^ (n + 1) = 1) by (rewrite <- pow_add; replace (n + 1 + (n + 1))%nat with (2 * (n + 1))%nat by lia; rewrite pow_mult; replace ((-1) ^ 2) with 1 by (cbn; ring); apply pow1).
  assert (B: P n 1 (- x) * P n 1 (- x) = P n 1 x * P n 1 x).
  { rewrite P_parity. transitivity ((-1) ^ (n + 1) * (-1) ^ (n + 1) * (P n 1 x * P n 1 x)); [ring|]. rewrite Q. ring. }
  rewrite B. replace (- x * - x) with (x * x) by ring. reflexivity.
Qed.
Lemma quad_lsum : forall order x w (f g : R -> R), (forall i, (i < order)%nat -> w i = g (x i)) ->
  quad order x w f = lsum (fun y => g y * f y) (map x (seq 0 order)).
Proof.
  intros order x w f g H. induction order as [|k IH]; [reflexivity|].
  rewrite seq_S, map_app. cbn [quad map Nat.add]. rewrite IH by (intros; apply H; lia).
  assert (A: forall l y, lsum (fun z => g z * f z) (l ++ [y]) = lsum (fun z => g z * f z) l + g y * f y).
  { induction l as [|z l IHl]; intros y; cbn [app lsum]; [ring|]. rewrite IHl. ring. }
  rewrite A, H by lia. reflexivity.
Qed.
Theorem C49_gauss_rule_exact : forall order root A x w, (1 <= order)%nat ->
  fill (order / 2 + order mod 2) 0 order root A = Some (x, w) ->
  (forall i r, (i < order)%nat -> root i = Some r -> P order 0 (fst r) = 0 /\ exists x' pb, newton_step order (fst r) = (x', snd r, pb)) ->
  (forall i j, (i < j < order)%nat -> x i <> x j) ->
  forall a b p, (length p <= 2 * order)%nat ->
    let A' := scale order 0 (1 / 2 * (b - a)) (1 / 2 * (a + b)) (x, w) in
    is_RInt (eval p) a b (quad order (fst A') (snd A') (eval p)).
Proof.
  intros order root A x w Ho E HR HD a b p L A'. destruct (half_eq order) as (H1 & H2).
  apply fill_spec in E; [|lia]. destruct E as (_ & E). cbn [fst snd] in E.
  destruct order as [|n]; [lia|].
  assert (N: forall y, P (S n) 0 y = 0 -> (1 - y * y) * P (S n) 1 y <> 0).
  { intros y Z C. pose proof (K_at_root n y Z) as Q. pose proof (K_diag_pos n y) as KP.
    assert ((1 - y * y) * (P (S n) 1 y * P (S n) 1 y) = 0) by (rewrite <- Rmult_assoc, C; ring). lra. }
  assert (G: forall j, (j < S n)%nat -> P (S n) 0 (x j) = 0 /\ w j = gauss_weight (S n) (x j)).
  { assert (G1: forall j, (j < S n / 2 + S n mod 2)%nat -> let k := (S n - 1 - j)%nat in (P (S n) 0 (x k) = 0 /\ w k = gauss_weight (S n) (x k)) /\ (P (S n) 0 (x j) = 0 /\ w j = gauss_weight (S n) (x j))).
    { intros j Hj k. destruct (E j ltac:(lia)) as (r & R1 & R2 & R3 & R4). destruct (HR j r ltac:(lia) R1) as (Z & x' & pb & NS).
      rewrite newton_step_spec in NS by (auto; lia). injection NS as _ Epa _.
      assert (W: 2 * snd r * snd r * (1 - fst r * fst r) = gauss_weight (S n) (fst r)).
      { rewrite <- Epa. apply (weight_formula (S n) (fst r)). auto. }
      fold k in R2, R3. split.
      - rewrite R2, R3. auto.
      - destruct (Nat.eq_dec j k) as [Q|Q]; [rewrite Q, R2, R3; auto|]. destruct (R4 Q) as (-> & ->). rewrite parity_weight. split; auto. apply parity_root; auto. }
    intros j Hj. destruct (Nat.lt_ge_cases j (S n / 2 + S n mod 2)) as [B|B]; [apply G1; auto|].
    destruct (G1 (S n - 1 - j)%nat ltac:(lia)) as (X & _). replace (S n - 1 - (S n - 1 - j))%nat with j in X by lia. exact X. }
  apply (C32_exactness_carries_over (S n) x w (2 * S n) a b); auto.
  - intros q Lq. rewrite (quad_lsum (S n) x w (eval q) (gauss_weight (S n))) by (intros; apply G; auto).
    apply gauss_exact; auto.
    + rewrite map_length, seq_length. reflexivity.
    + assert (ND: forall k i, (i + k <= S n)%nat -> NoDup (map x (seq i k))).
      { induction k; intros i Hi; cbn [seq map]; constructor; [|apply IHk; lia]. intros C. apply in_map_iff in C. destruct C as (j & Q & I). apply in_seq in I.
        apply (HD i j ltac:(lia)). auto. }
      apply ND. lia.
    + intros y Hy. apply in_map_iff in Hy. destruct Hy as (j & <- & I). apply in_seq in I. apply G. lia.
  - intros i Hi. destruct (scale_spec (S n) 0 (1 / 2 * (b - a)) (1 / 2 * (a + b)) (x, w) i) as (S1 & S2). fold A' in S1, S2. cbn [fst snd Nat.leb andb Nat.add] in S1, S2.
    destruct (Nat.ltb_spec i (S n)); [|lia]. rewrite S1, S2. split; field.
Qed.
Print Assumptions C49_gauss_rule_exact.
(** two points: nodes -1/sqrt 3 and 1/sqrt 3; the integral of x^3 over [0, 2] *)
Example C49_example : exists x w root,
  fill (2 / 2 + 2 mod 2) 0 2 root (fun _ => 0, fun _ => 0) = Some (x, w) /\
  (forall i r, (i < 2)%nat -> root i = Some r -> P 2 0 (fst r) = 0 /\ exists x' pb, newton_step 2 (fst r) = (x', snd r, pb)) /\
  (forall i j, (i < j < 2)%nat -> x i <> x j).
Proof.
  set (s := / sqrt 3). assert (S: 0 < s) by (apply Rinv_0_lt_compat, sqrt_lt_R0; lra).
  assert (S2: s * s = / 3). { unfold s. rewrite <- Rinv_mult, sqrt_sqrt by lra. reflexivity. }
  exists (fun i => if Nat.eqb i 0 then - s else if Nat.eqb i 1 then s else 0). eexists.
  exists (fun _ => Some (s, snd (fst (newton_step 2 s)))). split; [|split].
  - change (2 / 2 + 2 mod 2)%nat with 1%nat. cbn [fill]. unfold store. cbn. unfold aset. cbn. reflexivity.
  - intros i r _ E. injection E as <-. cbn [fst snd]. split.
    + rewrite P_2_0. replace (3 * s * s) with (3 * (s * s)) by ring. rewrite S2. field.
    + unfold newton_step. cbn. eexists. eexists. reflexivity.
  - intros k l H. assert (Q: k = 0%nat /\ l = 1%nat) by lia. destruct Q as (-> & ->). cbn [Nat.eqb]. lra.
Qed.

(** C35 *)
Theorem C35_selection : forall s radius axis_ratio,
  (radius > minimum_size s -> axis_ratio > 1 -> get_distribution s radius axis_ratio = oblate s) /\
  (radius > minimum_size s -> axis_ratio <= 1 -> get_distribution s radius axis_ratio = prolate s) /\
  (radius <= minimum_size s -> get_distribution s radius axis_ratio = non_aligned s).
Proof.
  intros s r q. unfold get_distribution. destruct (Rlt_dec (minimum_size s) r), (Rlt_dec 1 q); repeat split; intros; auto; lra.
Qed.
Print Assumptions C35_selection.
(** what the aligned distributions are: perfect alignment (type 0), <cos^2> = 3/5 and 1/5
    (type 1), none (type 2), the given coefficients (type 3); other types are errors *)
Theorem C35_types : forall smin nmax type base ob pr,
  match make_size_based smin nmax type base ob pr with
  | Ok s => minimum_size s = smin /\ non_aligned s = base /\
      ((type = 0%nat /\ forall n, (n <= 2 * nmax)%nat -> coef (oblate s) n = P n 0 1 /\ coef (prolate s) n = P n 0 0) \/
       (type = 1%nat /\ (1 <= nmax)%nat /\ forall n,
          is_RInt (fun b => sin b * (mishchenko_pdf (3 / 5) (cos b) * P n 0 (cos b))) 0 PI (coef (oblate s) n) /\
          is_RInt (fun b => sin b * (mishchenko_pdf (1 / 5) (cos b) * P n 0 (cos b))) 0 PI (coef (prolate s) n)) \/
       (type = 2%nat /\ align (oblate s) = false /\ align (prolate s) = false) \/
       (type = 3%nat /\ size (oblate s) = size ob /\ coef (oblate s) = coef ob /\ size (prolate s) = size pr /\ coef (prolate s) = coef pr))
  | OutOfBounds => type = 1%nat /\ nmax = 0%nat
  | Fails => (3 < type)%nat
  end.
Proof.
  intros smin nmax type base ob pr. destruct type as [|[|[|[|type]]]]; cbn [make_size_based].
  - repeat split. left. split; auto. intros n H. destruct (C31_oblate (2 * nmax) 2 n ltac:(lra) H) as (A & _). destruct (C31_prolate (2 * nmax) (1 / 2) n ltac:(lra) H) as (B & _). auto.
  - destruct (mishchenko_spec (2 * nmax) (3 / 5) ltac:(lra)) as (A1 & A2). destruct (mishchenko_spec (2 * nmax) (1 / 5) ltac:(lra)) as (B1 & B2).
    destruct (Nat.eq_dec nmax 0) as [->|N].
    + rewrite A2 by lia. auto.
    + destruct (A1 ltac:(lia)) as (d & -> & _ & _ & D). destruct (B1 ltac:(lia)) as (e & -> & _ & _ & F). cbn [minimum_size non_aligned oblate prolate].
      repeat split. right. left. split; auto. split; [lia|]. intros n. rewrite D, F. split; apply mishchenko_moments.
  - repeat split. right. right. left. auto.
  - repeat split. right. right. right. cbn. auto.
  - lia.
Qed.
Print Assumptions C35_types.
(** custom distributions: a copy of a distribution that disables alignment enables it *)
Theorem C35_copied_flag_refuted : forall smin nmax base s, make_size_based smin nmax 3 base disabled disabled = Ok s ->
  align disabled = false /\ align (oblate s) = true /\ size (oblate s) = 1%nat.
Proof. intros smin nmax base s E. injection E as <-. cbn. auto. Qed.
Print Assumptions C35_copied_flag_refuted.
Example C35_example : forall base, exists s, make_size_based 1 10 1 base base base = Ok s /\
  coef (get_distribution s 2 (1 / 2)) 2 = - (1 / 5) /\ coef (get_distribution s 2 3) 2 = 2 / 5 /\ get_distribution s 1 3 = base.
Proof.
  intros base. pose proof (C35_types 1 10 1 base base base) as T. cbn [make_size_based] in *.
  destruct (mishchenko_spec (2 * 10) (3 / 5) ltac:(lra)) as (A1 & _). destruct (mishchenko_spec (2 * 10) (1 / 5) ltac:(lra)) as (B1 & _).
  destruct (A1 ltac:(lia)) as (d & E1 & _ & _ & D). destruct (B1 ltac:(lia)) as (e & E2 & _ & _ & F). rewrite E1, E2 in *.
  eexists. split; [reflexivity|]. destruct (C35_selection (mkSB 1 base d e) 2 (1 / 2)) as (_ & X & _). destruct (C35_selection (mkSB 1 base d e) 2 3) as (Y & _ & _).
  destruct (C35_selection (mkSB 1 base d e) 1 3) as (_ & _ & Z). cbn [minimum_size] in *.
  rewrite X, Y, Z by lra. cbn [oblate prolate non_aligned]. rewrite D, F. cbn [Nat.eqb]. unfold p2. repeat split; lra.
Qed.

(** C50: imperfect alignment *)
Theorem C50_coefficients_are_moments : forall nmax c, 1 / 5 <= c <= 3 / 5 -> (2 <= nmax)%nat ->
  exists d, mishchenko nmax c = Ok d /\ size d = (nmax + 1)%nat /\
    forall n, is_RInt (fun b => sin b * (mishchenko_pdf c (cos b) * P n 0 (cos b))) 0 PI (coef d n).
Proof.
  intros nmax c H N. destruct (mishchenko_spec nmax c H) as (A & _). destruct (A N) as (d & E & S & _ & D).
  exists d. split; auto. split; auto. intros n. rewrite D. apply mishchenko_moments.
Qed.
Print Assumptions C50_coefficients_are_moments.
Theorem C50_normalised_mean_and_sign : forall c,
  is_RInt (fun b => sin b * mishchenko_pdf c (cos b)) 0 PI 1 /\
  is_RInt (fun b => sin b * (mishchenko_pdf c (cos b) * (cos b * cos b))) 0 PI c /\
  ((forall b, 0 <= mishchenko_pdf c (cos b)) <-> 1 / 5 <= c <= 3 / 5).
Proof.
  intros c. split; [|split; [apply mishchenko_mean_cos2 | apply mishchenko_nonnegative]].
  pose proof (mishchenko_moments c 0) as M. cbn [Nat.eqb] in M. apply (is_RInt_by _ _ _ _ _ _ M); [|reflexivity]. intros. rewrite P_0_0. ring.
Qed.
Print Assumptions C50_normalised_mean_and_sign.
(** for fewer than three coefficients the constructor writes outside the vector *)
Theorem C50_small_order_refuted : forall nmax c, 1 / 5 <= c <= 3 / 5 -> (nmax < 2)%nat -> mishchenko nmax c = OutOfBounds.
Proof. intros nmax c H N. apply mishchenko_spec; auto. Qed.
Print Assumptions C50_small_order_refuted.
Example C50_example : exists d, mishchenko 4 (1 / 2) = Ok d /\ coef d 2 = 1 / 4.
Proof. destruct (mishchenko_spec 4 (1 / 2) ltac:(lra)) as (A & _). destruct (A ltac:(lia)) as (d & E & _ & _ & D). exists d. split; auto. rewrite D. cbn [Nat.eqb]. unfold p2. lra. Qed.
