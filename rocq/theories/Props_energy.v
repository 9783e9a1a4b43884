(** C86: conservation of energy for spheres. With the spherical Bessel functions of BesselSpec.v, a sphere of any size and of any material that does not
    amplify light has a T-matrix (no denominator of the Mie coefficients is zero), never scatters more than it takes from the incoming wave, scatters exactly
    that much if the material is transparent, and less if it absorbs. *)
From Coq Require Import List ZArith Arith Lia Bool Reals Lra.
From Coquelicot Require Import Complex Coquelicot.
From Verif Require Import BesselSpec BesselFacts Bessel Props_bessel BesselEnergy.
From Verif Require Import Matrix QMatrix Ebcm TClass Props_tclass Mie Props_mie.
From Verif Require Import Frames Optics GaussBounds.
From Verif Require Props_outputs Props_tmatrix Props_optics Props_average AverageFacts.
Import ListNotations.
Open Scope R_scope.

(* ------------------------------------------------------------ specification *)
(** The radial functions are the spherical Bessel functions, with [(rho z_n(rho))' / rho] as second component *)
Definition bessel_radial (b : radial) : Prop := forall n, (1 <= n)%nat ->
  (forall x, 0 < x ->
     is_sph_j n (RtoC x) (RtoC (jay b n x)) /\ derivable_pt_lim (fun t => t * jay b n t) x (x * djay b n x) /\
     is_sph_y n (RtoC x) (RtoC (why b n x)) /\ derivable_pt_lim (fun t => t * why b n t) x (x * dwhy b n x)) /\
  (forall z, z <> RtoC 0 -> is_sph_j n z (jayc b n z) /\ is_cderiv (fun t => t * jayc b n t)%C z (z * djayc b n z)%C).

(* ------------------------------------------------------------ the functions *)
Lemma local_deriv : forall (f g : R -> R) x l l', 0 < x -> (forall t, 0 < t -> f t = g t) -> derivable_pt_lim f x l -> derivable_pt_lim g x l' -> l = l'.
Proof.
  intros f g x l l' Hx E D D'. apply is_derive_Reals in D. apply is_derive_Reals in D'. apply is_derive_unique in D. apply is_derive_unique in D'. rewrite <- D, <- D'.
  apply Derive_ext_loc. exists (mkposreal x Hx). intros s Hs. cbn in Hs. unfold AbsRing_ball in Hs. cbn in Hs. unfold abs, minus, plus, opp in Hs. cbn in Hs. apply E. apply Rabs_def2 in Hs. lra.
Qed.
Lemma cderiv_unique : forall f z l l', is_cderiv f z l -> is_cderiv f z l' -> l = l'.
Proof.
  intros f z l l' H H'. destruct (Req_dec (Cmod (l - l')%C) 0) as [E|N].
  - apply Cmod_eq_0 in E. replace l with (l - l' + l')%C by ring. rewrite E. ring.
  - exfalso. pose proof (Cmod_ge_0 (l - l')%C). set (c := Cmod (l - l')%C) in *. destruct (H (c / 2) ltac:(lra)) as (d & Pd & Hd). destruct (H' (c / 2) ltac:(lra)) as (d' & Pd' & Hd').
    set (h := Rmin d d' / 2). assert (Ph: 0 < Rmin d d') by (apply Rmin_glb_lt; auto). pose proof (Rmin_l d d'). pose proof (Rmin_r d d').
    assert (CH: Cmod (RtoC h) = h) by (rewrite Cmod_R, Rabs_right; unfold h; lra). assert (NH: RtoC h <> RtoC 0) by (apply RtoC_nz; unfold h; lra).
    specialize (Hd (RtoC h) NH). specialize (Hd' (RtoC h) NH). rewrite CH in *. specialize (Hd ltac:(unfold h; lra)). specialize (Hd' ltac:(unfold h; lra)).
    set (q := ((f (z + RtoC h)%C - f z) / RtoC h)%C) in *. assert (c <= Cmod (q - l)%C + Cmod (q - l')%C).
    { unfold c. replace (l - l')%C with ((q - l') - (q - l))%C by ring. eapply Rle_trans; [apply Cmod_triangle|]. rewrite Cmod_opp. lra. } lra.
Qed.
Lemma cderiv_local : forall f g z l, z <> RtoC 0 -> (forall t, t <> RtoC 0 -> f t = g t) -> is_cderiv f z l -> is_cderiv g z l.
Proof.
  intros f g z l Nz E D eps He. destruct (D eps He) as (d & Pd & Hd). pose proof (proj1 (Cmod_gt_0 z) Nz) as P. exists (Rmin d (Cmod z)). split; [apply Rmin_glb_lt; auto|].
  intros h Nh Hh. pose proof (Rmin_l d (Cmod z)). pose proof (Rmin_r d (Cmod z)). rewrite <- !E; auto; [apply Hd; auto; lra|].
  intro E0. assert (Cmod z = Cmod h). { assert (EZ: z = (- h)%C) by (transitivity (z + h - h)%C; [ring | rewrite E0; ring]). rewrite EZ. apply Cmod_opp. } lra.
Qed.
Section Functions.
Variables (b : radial) (n : nat).
Hypothesis B : bessel_radial b.
Hypothesis Hn : (1 <= n)%nat.
Lemma f_jayc : forall z, z <> RtoC 0 -> jayc b n z = J n z /\ (z * djayc b n z)%C = dpsi n z.
Proof.
  intros z Nz. assert (A: forall t, t <> RtoC 0 -> jayc b n t = J n t) by (intros t Nt; apply is_sph_j_unique; apply B; auto). split; [auto|].
  destruct (B n Hn) as (_ & Bc). destruct (Bc z Nz) as (_ & D). apply (cderiv_unique (psi n) z).
  - apply (cderiv_local (fun t => t * jayc b n t)%C); auto. intros t Nt. unfold psi. rewrite A by auto. reflexivity.
  - apply smooth_deriv, psi_deriv.
Qed.
Lemma f_jay : forall x, 0 < x -> RtoC (jay b n x) = J n (RtoC x) /\ RtoC (x * djay b n x) = dpsi n (RtoC x).
Proof.
  intros x Hx. destruct (B n Hn) as (Br & _). assert (A: forall t, 0 < t -> RtoC (jay b n t) = J n (RtoC t)) by (intros t Ht; apply is_sph_j_unique; apply Br; auto). split; [auto|].
  destruct (Br x Hx) as (_ & D & _). pose proof (psi_deriv n (RtoC x)) as P. apply real_deriv in P.
  assert (E: x * djay b n x = Re (dpsi n (RtoC x))).
  { eapply local_deriv; [exact Hx | | exact D | exact P]. intros t Ht. cbv beta. unfold psi. rewrite <- A by auto. unfold RtoC, Cmult, Re. cbn [fst snd]. ring. }
  rewrite E. symmetry. unfold dpsi. assert (R1: forall k, J k (RtoC x) = RtoC (Re (J k (RtoC x)))) by (intros k; apply (is_sph_j_real k x), J_is). rewrite (R1 n), (R1 (n + 1)%nat).
  rewrite <- !RtoC_mult, <- RtoC_minus. reflexivity.
Qed.
Lemma f_why : forall x, 0 < x -> RtoC (why b n x) = Y n (RtoC x) /\ RtoC (x * dwhy b n x) = (RtoC x * Y (n - 1) (RtoC x) - RtoC (INR n) * Y n (RtoC x))%C.
Proof.
  intros x Hx. assert (UY: forall t v, is_sph_y n t v -> v = Y n t) by (intros t v H; eapply is_csum_unique; [exact H | apply Y_is]).
  destruct (B n Hn) as (Br & _). assert (A: forall t, 0 < t -> RtoC (why b n t) = Y n (RtoC t)) by (intros t Ht; apply UY; apply Br; auto). split; [auto|].
  destruct (Br x Hx) as (_ & _ & _ & D). assert (Nz: RtoC x <> RtoC 0) by (apply RtoC_nz; lra).
  assert (R1: forall k, Y k (RtoC x) = RtoC (Re (Y k (RtoC x)))) by (intros k; apply (is_sph_y_real k x); [lra | apply Y_is]).
  destruct n as [|k]; [lia|]. replace (Datatypes.S k) with (k + 1)%nat in * by lia. pose proof (zY_deriv k (RtoC x) Nz) as P. apply real_deriv in P.
  replace (k + 1 - 1)%nat with k by lia. replace (INR (k + 1)) with (INR k + 1) by (rewrite plus_INR; cbn; ring).
  assert (E: x * dwhy b (k + 1) x = Re (RtoC x * Y k (RtoC x) - RtoC (INR k + 1) * Y (k + 1) (RtoC x))%C).
  { eapply local_deriv; [exact Hx | | exact D | exact P]. intros t Ht. cbv beta. rewrite <- A by auto. unfold RtoC, Cmult, Re. cbn [fst snd]. ring. }
  rewrite E. rewrite (R1 k), (R1 (k + 1)%nat). rewrite <- !RtoC_mult, <- RtoC_minus. reflexivity.
Qed.
(** j_n (x y_n)' - (x j_n)' y_n = 1 / x *)
Lemma wronskian : forall x, 0 < x -> jay b n x * (x * dwhy b n x) - (x * djay b n x) * why b n x = / x.
Proof.
  intros x Hx. assert (Nz: RtoC x <> RtoC 0) by (apply RtoC_nz; lra). apply RtoC_inj. rewrite RtoC_minus, !(RtoC_mult _ (why _ _ _)), (RtoC_mult (jay b n x)).
  destruct (f_jay x Hx) as (-> & ->). destruct (f_why x Hx) as (-> & ->). rewrite RtoC_inv by lra.
  destruct n as [|k]; [lia|]. replace (Datatypes.S k) with (k + 1)%nat by lia. rewrite dpsi_down by auto. replace (k + 1 - 1)%nat with k by lia. replace (INR (k + 1)) with (INR k + 1) by (rewrite plus_INR; cbn; ring).
  transitivity (RtoC x * (J (k + 1) (RtoC x) * Y k (RtoC x) - J k (RtoC x) * Y (k + 1) (RtoC x)))%C; [ring|]. rewrite BesselEnergy.cross by auto. field. auto.
Qed.
End Functions.

(* ------------------------------------------------------------ one coefficient *)
Lemma one_coefficient : forall j P y Q W (u M : C), j * Q - P * y = W -> 0 < W -> Im (M * Cconj u)%C <= 0 -> ~ (u = RtoC 0 /\ M = RtoC 0) ->
  let N := (u * RtoC P - RtoC j * M)%C in let D := (u * (P, Q) - (j, y) * M)%C in
  D <> RtoC 0 /\ Re (N / D)%C - norm2 (N / D)%C = W * - Im (M * Cconj u)%C / norm2 D /\ 0 < norm2 D.
Proof.
  intros j P y Q W (u1, u2) (M1, M2) HW PW S NB N D.
  assert (NR: norm2 D = norm2 N + norm2 (u1 * Q - y * M1, u2 * Q - y * M2) + 2 * (W * - Im ((M1, M2) * Cconj (u1, u2))%C)).
  { rewrite <- HW. unfold D, N, norm2, Cmult, Cminus, Cplus, Copp, Cconj, RtoC, Re, Im. cbn [fst snd]. ring. }
  set (F := Im ((M1, M2) * Cconj (u1, u2))%C) in *.
  assert (PD: 0 < norm2 D).
  { assert (0 <= W * - F) by (apply Rmult_le_pos; lra). assert (N0: 0 <= norm2 N) by (unfold norm2; nra). assert (E0: 0 <= norm2 (u1 * Q - y * M1, u2 * Q - y * M2)) by (unfold norm2; nra).
    destruct (Rle_lt_dec (norm2 D) 0) as [L|]; auto. exfalso. apply NB.
    assert (Z1: norm2 N = 0) by lra. assert (Z2: norm2 (u1 * Q - y * M1, u2 * Q - y * M2) = 0) by lra. 
    assert (SQ: forall a b, a * a + b * b = 0 -> a = 0 /\ b = 0) by (intros a b E; split; nra).
    assert (Z1': (u1 * P - j * M1) * (u1 * P - j * M1) + (u2 * P - j * M2) * (u2 * P - j * M2) = 0) by (rewrite <- Z1; unfold N, norm2, Cmult, Cminus, Cplus, Copp, RtoC, Re, Im; cbn [fst snd]; ring).
    unfold norm2, Re, Im in Z2. cbn [fst snd] in Z2. apply SQ in Z1'. apply SQ in Z2. destruct Z1' as (A1 & A2). destruct Z2 as (B1 & B2).
    assert (U1: u1 * W = 0) by (rewrite <- HW; transitivity (j * (u1 * Q - y * M1) - y * (u1 * P - j * M1)); [ring | rewrite A1, B1; ring]).
    assert (U2: u2 * W = 0) by (rewrite <- HW; transitivity (j * (u2 * Q - y * M2) - y * (u2 * P - j * M2)); [ring | rewrite A2, B2; ring]).
    assert (V1: M1 * W = 0) by (rewrite <- HW; transitivity (P * (u1 * Q - y * M1) - Q * (u1 * P - j * M1)); [ring | rewrite A1, B1; ring]).
    assert (V2: M2 * W = 0) by (rewrite <- HW; transitivity (P * (u2 * Q - y * M2) - Q * (u2 * P - j * M2)); [ring | rewrite A2, B2; ring]).
    assert (forall r, r * W = 0 -> r = 0) as K by (intros r E; apply Rmult_integral in E; destruct E; lra). rewrite (K _ U1), (K _ U2), (K _ V1), (K _ V2). split; reflexivity. }
  split; [intro E; rewrite E in PD; unfold norm2 in PD; cbn in PD; lra|]. split; [|exact PD].
  assert (RD: Re (N / D)%C * norm2 D = Re (N * Cconj D)%C).
  { destruct N as (n1, n2), D as (d1, d2). unfold Cdiv, Cinv, Cconj, Cmult, norm2, Re, Im in *. cbn [fst snd] in *. field. replace (d1 ^ 2 + d2 ^ 2) with (d1 * d1 + d2 * d2) by ring. lra. }
  assert (ND: norm2 (N / D)%C * norm2 D = norm2 N).
  { destruct N as (n1, n2), D as (d1, d2). unfold Cdiv, Cinv, Cconj, Cmult, norm2, Re, Im in *. cbn [fst snd] in *. field. replace (d1 ^ 2 + d2 ^ 2) with (d1 * d1 + d2 * d2) by ring. lra. }
  apply (Rmult_eq_reg_r (norm2 D)); [|lra]. rewrite Rmult_minus_distr_r, RD, ND. unfold Rdiv. rewrite Rmult_assoc, Rinv_l by lra. rewrite <- HW. unfold N, D, F, norm2, Cmult, Cminus, Cplus, Copp, Cconj, RtoC, Re, Im. cbn [fst snd]. ring.
Qed.

Section One.
Variables (b : radial) (m : C) (x : R) (n : nat).
Hypothesis B : bessel_radial b.
Hypothesis Nm : m <> RtoC 0.
Hypothesis Px : 0 < x.
Hypothesis Hn : (1 <= n)%nat.
Let u0 := jayc b n (m * !x)%C.
Let M := (m * !x * djayc b n (m * !x))%C.
Lemma NZ : (m * !x)%C <> RtoC 0.
Proof. apply Cmult_neq_0; auto. apply RtoC_nz. lra. Qed.
Lemma norm_m : 0 < norm2 m.
Proof. destruct (Rle_lt_dec (norm2 m) 0) as [L|]; auto. exfalso. apply Nm. apply norm_0. exact L. Qed.
Lemma flux_M : forall w, flux n m w x = norm2 m * x * Im (w * (M * Cconj u0))%C.
Proof.
  intros w. unfold flux, psi. destruct (f_jayc b n B Hn (m * !x)%C NZ) as (EJ & ED). unfold u0, M. rewrite ED, EJ. rewrite (Cmult_comm (RtoC x) m).
  destruct (dpsi n (m * !x)%C) as (d1, d2). destruct (J n (m * !x)%C) as (j1, j2). unfold norm2, Cmult, Cconj, RtoC, Re, Im. cbn [fst snd]. ring.
Qed.
Lemma u_M : ~ (u0 = RtoC 0 /\ M = RtoC 0).
Proof.
  intros (E1 & E2). destruct (f_jayc b n B Hn (m * !x)%C NZ) as (EJ & ED). unfold u0, M in *. apply (not_both n m Nm Hn x Px).
  rewrite (Cmult_comm (RtoC x) m). unfold psi. rewrite <- EJ, <- ED, E1, E2. split; ring.
Qed.
Lemma mm : (m * m)%C <> RtoC 0.
Proof. apply Cmult_neq_0; auto. Qed.
Lemma u_M2 : ~ ((m * m * u0)%C = RtoC 0 /\ M = RtoC 0).
Proof. intros (E1 & E2). apply u_M. split; auto. apply Classical_Prop.NNPP. intro N. apply (Cmult_neq_0 _ _ mm N). exact E1. Qed.
Lemma shape_b : b_denominator b m x n = (u0 * (x * djay b n x, x * dwhy b n x)%R - (jay b n x, why b n x) * M)%C /\
  mie_b b m x n = ((u0 * !(x * djay b n x) - !(jay b n x) * M) / b_denominator b m x n)%C.
Proof.
  assert (E: forall p q : R, (!x * (p, q))%C = (x * p, x * q)) by (intros; unfold Cmult, RtoC; cbn [fst snd]; f_equal; ring).
  unfold mie_b, b_denominator. fold u0. fold M. rewrite E, RtoC_mult. split; reflexivity.
Qed.
Lemma shape_a : a_denominator b m x n = (m * m * u0 * (x * djay b n x, x * dwhy b n x)%R - (jay b n x, why b n x) * M)%C /\
  mie_a b m x n = ((m * m * u0 * !(x * djay b n x) - !(jay b n x) * M) / a_denominator b m x n)%C.
Proof.
  assert (E: forall p q : R, (!x * (p, q))%C = (x * p, x * q)) by (intros; unfold Cmult, RtoC; cbn [fst snd]; f_equal; ring).
  unfold mie_a, a_denominator. fold u0. fold M. rewrite E, RtoC_mult. split; reflexivity.
Qed.
Lemma conj_in : (M * Cconj (m * m * u0) = Cconj (m * m) * (M * Cconj u0))%C.
Proof. destruct M as (a, c), u0 as (d, e), (m * m)%C as (f, g). unfold Cmult, Cconj. cbn [fst snd]. f_equal; ring. Qed.
Lemma energy : 0 <= Im (m * m)%C ->
  a_denominator b m x n <> RtoC 0 /\ b_denominator b m x n <> RtoC 0 /\
  norm2 (mie_a b m x n) <= Re (mie_a b m x n) /\ norm2 (mie_b b m x n) <= Re (mie_b b m x n) /\
  (Im (m * m)%C = 0 -> norm2 (mie_a b m x n) = Re (mie_a b m x n) /\ norm2 (mie_b b m x n) = Re (mie_b b m x n)) /\
  (0 < Im (m * m)%C -> norm2 (mie_a b m x n) < Re (mie_a b m x n) /\ norm2 (mie_b b m x n) < Re (mie_b b m x n)).
Proof.
  intros HI. pose proof norm_m as Pm. assert (Pk: 0 < norm2 m * x) by (apply Rmult_lt_0_compat; auto).
  assert (Pw: 0 < / x) by (apply Rinv_0_lt_compat; auto). pose proof (wronskian b n B Hn x Px) as W.
  assert (CI: Im (Cconj (m * m))%C = - Im (m * m)%C) by (destruct (m * m)%C; reflexivity).
  assert (CM: Im (Cconj (m * m) * (m * m))%C = 0) by (destruct (m * m)%C; unfold Cconj, Cmult, Im; cbn [fst snd]; ring).
  assert (F1: Im (M * Cconj u0)%C <= 0).
  { pose proof (flux_sign n m x Nm Px (RtoC 1) ltac:(cbn; lra) ltac:(rewrite Cmult_1_l; exact HI)) as F. rewrite flux_M, Cmult_1_l in F. nra. }
  assert (F2: Im (M * Cconj (m * m * u0))%C <= 0).
  { pose proof (flux_sign n m x Nm Px (Cconj (m * m))%C ltac:(lra) ltac:(lra)) as F. rewrite flux_M in F. rewrite conj_in. nra. }
  destruct (one_coefficient _ _ _ _ _ u0 M W Pw F1 u_M) as (D1 & E1 & P1). destruct (one_coefficient _ _ _ _ _ (m * m * u0)%C M W Pw F2 u_M2) as (D2 & E2 & P2).
  destruct shape_b as (SB & SB'). destruct shape_a as (SA & SA'). rewrite <- SB in *. rewrite <- SA in *. rewrite <- SB' in E1. rewrite <- SA' in E2.
  assert (Q: forall D, 0 < D -> 0 < / D) by (intros; apply Rinv_0_lt_compat; auto). pose proof (Q _ P1) as Q1. pose proof (Q _ P2) as Q2.
  split; [exact D2|]. split; [exact D1|].
  assert (R1: Re (mie_b b m x n) - norm2 (mie_b b m x n) = / x * / norm2 (b_denominator b m x n) * - Im (M * Cconj u0)%C) by (rewrite E1; unfold Rdiv; ring).
  assert (R2: Re (mie_a b m x n) - norm2 (mie_a b m x n) = / x * / norm2 (a_denominator b m x n) * - Im (M * Cconj (m * m * u0))%C) by (rewrite E2; unfold Rdiv; ring).
  assert (S1: 0 < / x * / norm2 (b_denominator b m x n)) by (apply Rmult_lt_0_compat; auto). assert (S2: 0 < / x * / norm2 (a_denominator b m x n)) by (apply Rmult_lt_0_compat; auto).
  split; [nra|]. split; [nra|]. split.
  - intros Z. assert (G1: Im (M * Cconj u0)%C = 0).
    { pose proof (flux_none n m x Nm Px (RtoC 1) ltac:(reflexivity) ltac:(rewrite Cmult_1_l; exact Z)) as F. rewrite flux_M, Cmult_1_l in F. nra. }
    assert (G2: Im (M * Cconj (m * m * u0))%C = 0).
    { pose proof (flux_none n m x Nm Px (Cconj (m * m))%C ltac:(lra) ltac:(lra)) as F. rewrite flux_M in F. rewrite conj_in. nra. }
    rewrite G1 in R1. rewrite G2 in R2. split; lra.
  - intros Z. destruct (flux_strict n m x Nm Px Hn Z) as (F & F'). rewrite flux_M in F, F'. rewrite Cmult_1_l in F'. rewrite conj_in in R2.
    assert (G1: Im (M * Cconj u0)%C < 0) by nra. assert (G2: Im (Cconj (m * m) * (M * Cconj u0))%C < 0) by nra. split; nra.
Qed.
End One.

(* ------------------------------------------------------------ C86 *)
(** The material does not amplify: the imaginary part of its dielectric function, the square of the refractive index, is not negative *)
Definition passive (m : C) : Prop := 0 <= Im (m * m)%C.
(** so is every index that the code makes of a dielectric function with an imaginary part that is not negative *)
Theorem C86_dielectric : forall eps, 0 <= Im eps -> passive (eps_to_mr eps) /\ (eps <> RtoC 0 -> eps_to_mr eps <> RtoC 0).
Proof. intros eps H. destruct (Props_optics.C34_square_root eps H) as (E & _). unfold passive. rewrite E. split; auto. intros N Z. apply N. rewrite <- E, Z. ring. Qed.
Print Assumptions C86_dielectric.
Theorem C86_exists : forall p, is_sphere p -> bessel_radial (p_radial p) -> passive (p_mr p) ->
  exists T T', construct p = Some T /\ compute_additional_elements p T = Some T'.
Proof.
  intros p S Bp Pa. apply C85_exists; auto. intros n Hn. destruct (energy (p_radial p) (p_mr p) (size_of p) n Bp (S_mr p S) (S_x p S) ltac:(lia) Pa) as (A & B & _). auto.
Qed.
Print Assumptions C86_exists.
Theorem C86_energy : forall p T T', is_sphere p -> bessel_radial (p_radial p) -> passive (p_mr p) -> construct p = Some T -> compute_additional_elements p T = Some T' ->
  0 <= get_scattering_coefficient (p_nmax p) T' <= - get_extinction_coefficient (p_nmax p) T' /\
  (Im (p_mr p * p_mr p)%C = 0 -> get_scattering_coefficient (p_nmax p) T' = - get_extinction_coefficient (p_nmax p) T') /\
  (0 < Im (p_mr p * p_mr p)%C -> get_scattering_coefficient (p_nmax p) T' < - get_extinction_coefficient (p_nmax p) T').
Proof.
  intros p T T' S Bp Pa E E'. destruct (C85_cross_sections p T T' S E E') as (-> & ->). rewrite Ropp_involutive.
  assert (EN: forall n, (1 <= n)%nat -> _) by (intros n Hn; exact (energy (p_radial p) (p_mr p) (size_of p) n Bp (S_mr p S) (S_x p S) Hn Pa)). fold (a_ p) in EN. fold (b_ p) in EN.
  assert (W: forall n, 0 < INR (2 * n + 1)) by (intros n; apply lt_0_INR; lia).
  assert (LE: forall l f g, (forall n : nat, In n l -> f n <= g n) -> Props_outputs.rsum l f <= Props_outputs.rsum l g).
  { induction l as [|k l IH]; intros f g H; [cbn; lra|]. rewrite !Props_outputs.rsum_cons. pose proof (H k ltac:(left; auto)). pose proof (IH f g ltac:(intros; apply H; right; auto)). lra. }
  split; [split|split].
  - replace 0 with (Props_outputs.rsum (seq 1 (p_nmax p)) (fun _ => 0)) by (apply Props_outputs.rsum_zero; auto). apply LE. intros n _. specialize (W n). unfold norm2. nra.
  - apply LE. intros n Hn. apply in_seq in Hn. specialize (W n). destruct (EN n ltac:(lia)) as (_ & _ & A & B & _). apply Rmult_le_compat_l; [lra|]. cbn [Re Cplus fst]. unfold Re in *. lra.
  - intros Z. apply Props_outputs.rsum_ext. intros n Hn. apply in_seq in Hn. destruct (EN n ltac:(lia)) as (_ & _ & _ & _ & A & _). destruct (A Z) as (-> & ->). reflexivity.
  - intros Z. pose proof S as ((_ & _ & _ & _ & _ & Hn1) & _). replace (p_nmax p) with (1 + (p_nmax p - 1))%nat by lia. cbn [Nat.add seq]. rewrite !Props_outputs.rsum_cons.
    assert (ST: forall n, (1 <= n)%nat -> INR (2 * n + 1) * (norm2 (a_ p n) + norm2 (b_ p n)) < INR (2 * n + 1) * Re (a_ p n + b_ p n)%C).
    { intros n Hn. specialize (W n). destruct (EN n Hn) as (_ & _ & _ & _ & _ & A). destruct (A Z) as (A1 & A2). apply Rmult_lt_compat_l; [lra|]. cbn [Re Cplus fst]. unfold Re in *. lra. }
    apply Rplus_lt_le_compat; [apply ST; lia|]. apply LE. intros n Hn. apply in_seq in Hn. left. apply ST. lia.
Qed.
Print Assumptions C86_energy.

(** the average absorption cross section that the code gives is positive up to the error of the quadrature in the azimuth (C76) *)
Theorem C86_absorption : forall p T T' k ngauss x w phi v, is_sphere p -> bessel_radial (p_radial p) -> passive (p_mr p) -> construct p = Some T -> compute_additional_elements p T = Some T' ->
  (p_nmax p < ngauss)%nat -> INR ngauss <= 100000 -> gauss_rule ngauss (-1) 1 x w -> gauss_rule ngauss 0 (2 * PI) phi v -> k <> 0 ->
  let error := 8 * PI * ((2 * PI * INR (p_nmax p)) ^ (2 * ngauss) / INR (fact (2 * ngauss))) * INR (2 * p_nmax p + 1) / (k * k) * get_scattering_coefficient (p_nmax p) T' in
  let Cabs := get_average_absorption_cross_section (p_nmax p) k T' ngauss x w phi v in
  - error <= Cabs /\ (Im (p_mr p * p_mr p)%C = 0 -> Rabs Cabs <= error).
Proof.
  intros p T T' k ngauss x w phi v S Bp Pa E E' Hn Hg Gx Gp Hk error Cabs. destruct (C86_energy p T T' S Bp Pa E E') as ((_ & H) & H0 & _). pose proof S as (Hp & _).
  destruct (Props_average.C76_averages (p_nmax p) ngauss k T' x w phi v Hn Hg Gx Gp Hk (Props_outputs.C75_objects_are_plane_symmetric p T T' Hp E E')) as (_ & _ & A). fold error in A. fold Cabs in A.
  set (e := get_extinction_coefficient (p_nmax p) T') in *. set (s := get_scattering_coefficient (p_nmax p) T') in *. assert (P: 0 < 2 * PI / (k * k)) by (pose proof PI_RGT_0; apply Rdiv_lt_0_compat; [lra | nra]).
  split.
  - assert (0 <= - (2 * PI / (k * k)) * (e + s)) by nra. apply Rabs_le_between in A. lra.
  - intros Z. rewrite (H0 Z) in A. replace (Cabs - - (2 * PI / (k * k)) * (e + - e)) with Cabs in A by ring. exact A.
Qed.
Print Assumptions C86_absorption.

(** The hypotheses hold for a sphere with the size of a wavelength and the refractive index 3/2 + i/10 *)
Definition exact_radial : radial := {| jay := fun n x => Re (J n (RtoC x)); djay := fun n x => Re (dpsi n (RtoC x)) / x;
  why := fun n x => Re (Y n (RtoC x)); dwhy := fun n x => Re (RtoC x * Y (n - 1) (RtoC x) - RtoC (INR n) * Y n (RtoC x))%C / x;
  jayc := J; djayc := fun n z => (dpsi n z / z)%C |}.
Lemma exact_radial_ok : bessel_radial exact_radial.
Proof.
  intros n Hn. split.
  - intros x Hx. cbn [exact_radial jay djay why dwhy]. assert (Nz: RtoC x <> RtoC 0) by (apply RtoC_nz; lra). split; [|split; [|split]].
    + rewrite <- (is_sph_j_real n x _ (J_is n (RtoC x))). apply J_is.
    + pose proof (psi_deriv n (RtoC x)) as D. apply real_deriv in D. replace (x * (Re (dpsi n (RtoC x)) / x)) with (Re (dpsi n (RtoC x))) by (field; lra).
      intros eps He. destruct (D eps He) as (d & Hd). exists d. intros h Nh Hh. specialize (Hd h Nh Hh).
      assert (Q: forall t, Re (psi n (RtoC t)) = t * Re (J n (RtoC t))) by (intros t; unfold psi, RtoC, Cmult, Re; cbn [fst snd]; ring). rewrite !Q in Hd. exact Hd.
    + rewrite <- (is_sph_y_real n x _ ltac:(lra) (Y_is n (RtoC x))). apply Y_is.
    + destruct n as [|k]; [lia|]. replace (Datatypes.S k) with (k + 1)%nat in * by lia. replace (k + 1 - 1)%nat with k by lia. replace (INR (k + 1)) with (INR k + 1) by (rewrite plus_INR; cbn; ring).
      pose proof (zY_deriv k (RtoC x) Nz) as D. apply real_deriv in D. match type of D with derivable_pt_lim _ _ ?l => replace (x * (l / x)) with l by (field; lra) end.
      intros eps He. destruct (D eps He) as (d & Hd). exists d. intros h Nh Hh. specialize (Hd h Nh Hh).
      assert (Q: forall t, Re (RtoC t * Y (k + 1) (RtoC t))%C = t * Re (Y (k + 1) (RtoC t))) by (intros t; unfold RtoC, Cmult, Re; cbn [fst snd]; ring). rewrite !Q in Hd. exact Hd.
  - intros z Nz. cbn [exact_radial jayc djayc]. split; [apply J_is|]. replace (z * (dpsi n z / z))%C with (dpsi n z) by (field; auto). apply smooth_deriv, (psi_deriv n z).
Qed.
Definition ball (g nmax : nat) (x w : nat -> R) (m : C) : particle :=
  {| p_radial := exact_radial; p_nmax := nmax; p_ngauss := g; p_x := x; p_w := w; p_axis_ratio := 1; p_size := 1; p_wavelength := 1; p_mr := m |}.
Example C86_example : forall g nmax, (1 <= nmax < 2 * g)%nat -> exists x w, let p := ball g nmax x w (3 / 2, / 10) in
  is_sphere p /\ bessel_radial (p_radial p) /\ passive (p_mr p) /\ exists T T', construct p = Some T /\ compute_additional_elements p T = Some T' /\ get_scattering_coefficient nmax T' < - get_extinction_coefficient nmax T'.
Proof.
  intros g nmax Hg. destruct (symmetric_gauss_exists g ltac:(lia)) as (x & w & SY & GA). exists x, w. intros p.
  assert (S: is_sphere p).
  { split; [|split; [reflexivity | split; [apply gauss_is_exact; auto; cbn; lia | cbn; lia]]]. unfold sensible. cbn [p ball p_ngauss p_x p_w p_axis_ratio p_size p_wavelength p_mr p_nmax]. split; [exact SY|]. split; [lra|]. split; [lra|]. split; [lra|]. split; [|lia].
    intro E. apply (f_equal Re) in E. cbn in E. lra. }
  assert (I: 0 < Im (p_mr p * p_mr p)%C) by (cbn [p ball p_mr]; unfold Cmult, Im; cbn [fst snd]; lra). assert (Pa: passive (p_mr p)) by (unfold passive; lra).
  split; [exact S|]. split; [apply exact_radial_ok|]. split; [exact Pa|]. destruct (C86_exists p S exact_radial_ok Pa) as (T & T' & E & E'). exists T, T'. split; [exact E|]. split; [exact E'|].
  destruct (C86_energy p T T' S exact_radial_ok Pa E E') as (_ & _ & H). apply (H I).
Qed.
Example C85_example : forall g nmax, (1 <= nmax < 2 * g)%nat -> exists x w, is_sphere (ball g nmax x w (3 / 2, / 10)) /\ regular_sphere (ball g nmax x w (3 / 2, / 10)).
Proof.
  intros g nmax Hg. destruct (C86_example g nmax Hg) as (x & w & S & _ & _ & T & T' & E & E' & _). exists x, w. split; [exact S|]. apply C85_exists; eauto.
Qed.
