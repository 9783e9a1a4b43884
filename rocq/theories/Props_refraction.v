(** C70: refraction at a plane surface. *)
From Coq Require Import Reals Lra Ratan Psatz.
From Verif Require Import Refraction.
Open Scope R_scope.

(** Continuity of the tangential components of the electric and the magnetic field of a plane wave at the surface, for an
    incident wave of amplitude 1, reflected amplitude r and transmitted amplitude t (angles i and j to the normal). *)
Definition boundary (m : polarisation) (n1 n2 i j r t : R) : Prop :=
  match m with
  | S_POLARISED => 1 + r = t /\ n1 * cos i * (1 - r) = n2 * cos j * t
  | P_POLARISED => n1 * (1 + r) = n2 * t /\ cos i * (1 - r) = cos j * t
  end.
Definition accepted (i n1 n2 : R) : Prop := 0 <= i <= PI / 2 /\ 0 < n1 /\ 0 < n2.

Lemma cos_asin_pos : forall x, 0 <= x <= 1 -> 0 <= asin x <= PI / 2 /\ 0 <= cos (asin x) /\ (x < 1 -> 0 < cos (asin x)) /\ sin (asin x) = x.
Proof.
  intros x H. pose proof (sin_asin x ltac:(lra)) as Sa. pose proof (asin_bound x) as B. pose proof PI_RGT_0 as P.
  assert (A: 0 <= asin x) by (apply Rnot_lt_le; intro C; assert (sin (asin x) < 0) by (apply sin_lt_0_var; lra); lra).
  split; [lra|]. split; [apply cos_ge_0; lra|]. split; [|auto]. intros X. apply cos_gt_0; [lra|].
  destruct (Req_EM_T (asin x) (PI / 2)) as [E | N]; [rewrite E, sin_PI2 in Sa; lra | lra].
Qed.
Lemma inputs : forall i n1 n2, accepted i n1 n2 -> 0 <= n1 * sin i / n2 /\ 0 <= cos i /\ (0 < cos i \/ i = PI / 2).
Proof.
  intros i n1 n2 (Hi & H1 & H2). pose proof PI_RGT_0 as P. pose proof (sin_ge_0 i ltac:(lra) ltac:(lra)) as S0. split; [|split].
  - apply Rmult_le_pos; [nra|]. left. apply Rinv_0_lt_compat; auto.
  - apply cos_ge_0; lra.
  - destruct (Req_EM_T i (PI / 2)) as [-> | N]; [right; auto|]. left. apply cos_gt_0; lra.
Qed.
Lemma le_div : forall x n1 n2, 0 < n2 -> (n1 * x / n2 <= 1 <-> n1 * x <= n2) /\ (n1 * x / n2 < 1 <-> n1 * x < n2).
Proof.
  intros x n1 n2 H. assert (E: n1 * x = n1 * x / n2 * n2) by (field; lra). split; split; intro K.
  - rewrite E. nra.
  - apply Rmult_le_reg_r with n2; auto. rewrite <- E. lra.
  - rewrite E. nra.
  - apply Rmult_lt_reg_r with n2; auto. rewrite <- E. lra.
Qed.

(** Snell's law and total internal reflection: every event has the incident angle as reflection angle; if n1 sin i <= n2 the
    refraction angle is the one of Snell's law, otherwise it is -1 and everything is reflected. Nothing is undefined unless a
    ray grazes a surface between equal materials. *)
Theorem C70_snell : forall i n1 n2, accepted i n1 n2 -> ~ (i = PI / 2 /\ n1 = n2) ->
  exists e, refract i n1 n2 = Some e /\ reflection_angle e = i /\
    (n1 * sin i <= n2 -> 0 <= refraction_angle e <= PI / 2 /\ n1 * sin i = n2 * sin (refraction_angle e)) /\
    (n2 < n1 * sin i -> refraction_angle e = -1 /\ forall m, reflection_coefficient e m = 1 /\ transmission_coefficient e m = 0).
Proof.
  intros i n1 n2 A N. destruct (inputs i n1 n2 A) as (S0 & C0 & C1). destruct A as (Hi & H1 & H2). destruct (le_div (sin i) n1 n2 H2) as ((L1 & L2) & (L3 & L4)). unfold refract. cbv zeta.
  destruct (Rle_dec (n1 * sin i / n2) 1) as [D | D].
  - destruct (cos_asin_pos (n1 * sin i / n2) ltac:(lra)) as (B1 & B2 & B3 & B4). set (st := n1 * sin i / n2) in *. set (j := asin st) in *.
    assert (CC: 0 < cos i \/ 0 < cos j).
    { destruct C1 as [C1 | ->]; [auto|]. right. apply B3. destruct (Req_EM_T st 1) as [E | NE]; [|lra]. exfalso. apply N. split; auto. unfold st in E. rewrite sin_PI2 in E. apply Rmult_eq_compat_r with (r := n2) in E. unfold Rdiv in E. rewrite Rmult_assoc, Rinv_l in E by lra. lra. }
    assert (D1: n1 * cos i + n2 * cos j <> 0) by (destruct CC; nra). assert (D2: n1 * cos j + n2 * cos i <> 0) by (destruct CC; nra).
    unfold quotient. destruct (Req_EM_T (n1 * cos i + n2 * cos j) 0); [tauto|]. destruct (Req_EM_T (n1 * cos j + n2 * cos i) 0); [tauto|].
    eexists. split; [reflexivity|]. cbn [reflection_angle refraction_angle]. split; auto. split; [|intro; specialize (L1 D); lra]. intros _. split; auto. rewrite B4. unfold st. field. lra.
  - eexists. split; [reflexivity|]. cbn. split; auto. split; [intro K; exfalso; apply D; auto|]. intros _. split; auto. intros []; auto.
Qed.
(** Below the critical angle the coefficients are those of the solution of the boundary conditions: the reflected intensity, and
    the transmitted energy flux per unit of surface; they lie between 0 and 1 and add up to 1. *)
Theorem C70_fresnel : forall i n1 n2 e m r t, accepted i n1 n2 -> refract i n1 n2 = Some e -> n1 * sin i <= n2 -> i < PI / 2 ->
  boundary m n1 n2 i (refraction_angle e) r t ->
  reflection_coefficient e m = r * r /\
  transmission_coefficient e m = n2 * cos (refraction_angle e) / (n1 * cos i) * (t * t) /\
  0 <= reflection_coefficient e m <= 1 /\ 0 <= transmission_coefficient e m <= 1 /\ reflection_coefficient e m + transmission_coefficient e m = 1.
Proof.
  intros i n1 n2 e m r t A E L G B. destruct (inputs i n1 n2 A) as (S0 & C0 & C1). destruct A as (Hi & H1 & H2). destruct (le_div (sin i) n1 n2 H2) as ((L1 & L2) & _). destruct C1 as [C1 | ->]; [|lra].
  unfold refract in E. cbv zeta in E. destruct (Rle_dec (n1 * sin i / n2) 1) as [D | D]; [|tauto].
  destruct (cos_asin_pos (n1 * sin i / n2) ltac:(lra)) as (B1 & B2 & B3 & B4). set (j := asin (n1 * sin i / n2)) in *. clearbody j. set (u := cos i) in *. set (v := cos j) in *.
  unfold quotient in E. destruct (Req_EM_T (n1 * u + n2 * v) 0) as [Z1 | Z1]; [discriminate|]. destruct (Req_EM_T (n1 * v + n2 * u) 0) as [Z2 | Z2]; [discriminate|]. injection E as <-. cbn [reflection_coefficient transmission_coefficient refraction_angle] in *.
  assert (P1: 0 < n1 * u + n2 * v) by nra. assert (P2: 0 < n1 * v + n2 * u) by nra.
  destruct m; cbn [boundary pick] in *; destruct B as (E1 & E2); fold u v in E2; fold v.
  - assert (R1: r = (n1 * u - n2 * v) / (n1 * u + n2 * v)). { apply Rmult_eq_reg_r with (n1 * u + n2 * v); [|lra]. replace ((n1 * u - n2 * v) / (n1 * u + n2 * v) * (n1 * u + n2 * v)) with (n1 * u - n2 * v) by (field; lra). subst t. lra. }
    rewrite <- R1. assert (T: 1 - r * r = n2 * v / (n1 * u) * (t * t)). { replace (1 - r * r) with ((1 - r) * (1 + r)) by ring. rewrite E1. apply Rmult_eq_reg_r with (n1 * u); [|nra]. replace (n2 * v / (n1 * u) * (t * t) * (n1 * u)) with (n2 * v * t * t) by (field; split; nra). rewrite <- E2. ring. }
    assert (T0: 0 <= n2 * v / (n1 * u) * (t * t)). { apply Rmult_le_pos; [|nra]. apply Rmult_le_pos; [nra|]. left. apply Rinv_0_lt_compat. nra. }
    split; [auto|]. split; [auto|]. assert (0 <= r * r) by nra. lra.
  - assert (R1: - r = (n1 * v - n2 * u) / (n1 * v + n2 * u)). { apply Rmult_eq_reg_r with (n1 * v + n2 * u); [|lra]. replace ((n1 * v - n2 * u) / (n1 * v + n2 * u) * (n1 * v + n2 * u)) with (n1 * v - n2 * u) by (field; lra). assert (n2 * (u * (1 - r)) = v * (n1 * (1 + r))) by (rewrite E1, E2; ring). lra. }
    rewrite <- R1. replace (- r * - r) with (r * r) by ring. assert (T: 1 - r * r = n2 * v / (n1 * u) * (t * t)). { replace (1 - r * r) with ((1 - r) * (1 + r)) by ring. apply Rmult_eq_reg_r with (n1 * u); [|nra]. replace (n2 * v / (n1 * u) * (t * t) * (n1 * u)) with (n2 * t * (v * t)) by (field; split; nra). rewrite <- E1, <- E2. ring. }
    assert (T0: 0 <= n2 * v / (n1 * u) * (t * t)). { apply Rmult_le_pos; [|nra]. apply Rmult_le_pos; [nra|]. left. apply Rinv_0_lt_compat. nra. }
    split; [auto|]. split; [auto|]. assert (0 <= r * r) by nra. lra.
Qed.
(** the boundary conditions have a solution, so the theorem above says something for every ray below grazing incidence *)
Theorem C70_solution_exists : forall m i j n1 n2, 0 < cos i -> 0 <= cos j -> 0 < n1 -> 0 < n2 -> exists r t, boundary m n1 n2 i j r t.
Proof.
  intros [] i j n1 n2 A B H1 H2; cbn [boundary].
  - assert (0 < n1 * cos i + n2 * cos j) by nra. exists ((n1 * cos i - n2 * cos j) / (n1 * cos i + n2 * cos j)), (2 * n1 * cos i / (n1 * cos i + n2 * cos j)). split; field; lra.
  - assert (0 < n1 * cos j + n2 * cos i) by nra. exists ((n2 * cos i - n1 * cos j) / (n1 * cos j + n2 * cos i)), (2 * n1 * cos i / (n1 * cos j + n2 * cos i)). split; field; lra.
Qed.
(** a grazing ray between different materials is reflected completely *)
Theorem C70_grazing : forall n1 n2 e m, 0 < n1 -> n1 < n2 -> refract (PI / 2) n1 n2 = Some e -> reflection_coefficient e m = 1 /\ transmission_coefficient e m = 0.
Proof.
  intros n1 n2 e m H1 H2 E. unfold refract in E. cbv zeta in E. rewrite sin_PI2, cos_PI2, Rmult_1_r in E. assert (Q: 0 <= n1 / n2 < 1).
  { split; [left; apply Rdiv_lt_0_compat; lra|]. apply Rmult_lt_reg_r with n2; [lra|]. unfold Rdiv. rewrite Rmult_assoc, Rinv_l by lra. lra. }
  destruct (Rle_dec (n1 / n2) 1); [|lra]. destruct (cos_asin_pos (n1 / n2) ltac:(lra)) as (_ & _ & C & _). specialize (C ltac:(lra)). set (v := cos (asin (n1 / n2))) in *. unfold quotient in E.
  destruct (Req_EM_T (n1 * 0 + n2 * v) 0); [nra|]. destruct (Req_EM_T (n1 * v + n2 * 0) 0); [nra|]. injection E as <-. destruct m; cbn [reflection_coefficient transmission_coefficient pick].
  - replace ((n1 * 0 - n2 * v) / (n1 * 0 + n2 * v)) with (-1) by (field; lra). lra.
  - replace ((n1 * v - n2 * 0) / (n1 * v + n2 * 0)) with 1 by (field; split; lra). lra.
Qed.
(** a grazing ray between equal materials is 0/0 in exact arithmetic *)
Theorem C70_grazing_equal_materials_refuted : forall n, 0 < n -> accepted (PI / 2) n n /\ refract (PI / 2) n n = None.
Proof.
  intros n H. pose proof PI_RGT_0 as P. split; [repeat split; lra|]. unfold refract. cbv zeta. rewrite sin_PI2, cos_PI2. replace (n * 1 / n) with 1 by (field; lra). destruct (Rle_dec 1 1); [|lra]. rewrite asin_1, cos_PI2. unfold quotient.
  destruct (Req_EM_T (n * 0 + n * 0) 0); [auto | lra].
Qed.
Example C70_example : accepted (PI / 6) 1 2 /\ 1 * sin (PI / 6) <= 2 /\ (exists e, refract (PI / 6) 1 2 = Some e /\ 1 * (1 / 2) = 2 * sin (refraction_angle e)) /\ (2 * sin (PI / 2) > 1).
Proof.
  pose proof PI_RGT_0 as P. assert (A: accepted (PI / 6) 1 2) by (repeat split; lra). split; auto. rewrite sin_PI6, sin_PI2. split; [lra|]. split; [|lra].
  destruct (C70_snell (PI / 6) 1 2 A ltac:(lra)) as (e & E & _ & Sn & _). exists e. split; auto. rewrite sin_PI6 in Sn. apply Sn. lra.
Qed.
Print Assumptions C70_snell.
Print Assumptions C70_fresnel.
Print Assumptions C70_solution_exists.
Print Assumptions C70_grazing.
Print Assumptions C70_grazing_equal_materials_refuted.
