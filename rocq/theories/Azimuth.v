(** Error of a Gauss rule on [0, 2 pi] for e^{i j phi}, from the Taylor polynomials of sine and cosine. Used by Props_average.v. *)
From Coq Require Import List Arith Lia Bool ZArith Reals Lra Psatz.
From Coquelicot Require Import Coquelicot Complex.
From Verif Require Import Legendre GaussExact Wigner Ortho Matrix Optics Props_optics TClass Frames FramesFacts Props_frames Props_outputs AverageFacts.
Import ListNotations.
Local Open Scope R_scope.

(* ---------------------------------------------- antiderivatives of polynomials *)
Fixpoint anti (k : nat) (p : poly) : poly := match p with [] => [] | a :: q => a / INR (S k) :: anti (S k) q end.
Lemma anti_eq : forall p k x, x * eval (deriv (anti k p)) x + INR (S k) * eval (anti k p) x = eval p x.
Proof.
  induction p as [|a q IH]; intros k x; [cbn; ring|]. cbn [anti deriv eval]. rewrite eval_padd. cbn [eval]. rewrite <- (IH (S k) x). set (A := eval (anti (S k) q) x). set (B := eval (deriv (anti (S k) q)) x).
  rewrite (S_INR (S k)). field. apply not_0_INR. lia.
Qed.
Lemma anti_derivative : forall p x, derivable_pt_lim (eval (0 :: anti 0 p)) x (eval p x).
Proof. intros p x. eapply deriv_eq; [apply eval_deriv|]. cbn [deriv]. rewrite eval_padd. cbn [eval]. rewrite <- (anti_eq p 0 x). cbn [INR]. ring. Qed.
Lemma anti_length : forall p k, length (anti k p) = length p.
Proof. induction p; intros; cbn [anti length]; auto. Qed.

(* ---------------------------------------------- Taylor polynomials *)
Lemma grow : forall n (g g' : R -> R), (forall y, derivable_pt_lim g y (g' y)) -> g 0 = 0 -> (forall y, Rabs (g' y) <= Rabs y ^ n / INR (fact n)) ->
  forall y, 0 <= y -> Rabs (g y) <= y ^ S n / INR (fact (S n)).
Proof.
  intros n g g' D G0 B y Hy. destruct (Req_dec y 0) as [ -> | N]; [rewrite G0, Rabs_R0; cbn [pow]; unfold Rdiv; rewrite !Rmult_0_l; lra|].
  assert (DP: forall z, derivable_pt_lim (fun z => z ^ S n / INR (fact (S n))) z (z ^ n / INR (fact n))).
  { intros z. eapply deriv_eq.
    - apply derivable_ext with (fun z => / INR (fact (S n)) * z ^ S n); [intros; unfold Rdiv; ring|]. apply (derivable_pt_lim_scal (fun z => z ^ S n)). apply derivable_pt_lim_pow.
    - cbn [pred]. rewrite fact_S_INR. field. split; [apply INR_fact|apply INR_S_neq]. }
  assert (M: forall h h', (forall z, derivable_pt_lim h z (h' z)) -> h 0 = 0 -> (forall z, 0 < z -> 0 <= h' z) -> 0 <= h y).
  { intros h h' Dh H0 P. destruct (MVT_cor2 h h' 0 y ltac:(lra)) as (c & E & Hc); [intros; apply Dh|]. rewrite H0 in E. assert (0 <= h' c) by (apply P; lra). nra. }
  assert (BP: forall z, 0 < z -> Rabs (g' z) <= z ^ n / INR (fact n)) by (intros z Hz; specialize (B z); rewrite (Rabs_pos_eq z) in B by lra; exact B).
  assert (P0: 0 ^ S n / INR (fact (S n)) = 0) by (cbn [pow]; unfold Rdiv; ring).
  apply Rabs_le. split.
  - assert (0 <= y ^ S n / INR (fact (S n)) + g y); [|lra].
    apply (M (fun z => z ^ S n / INR (fact (S n)) + g z) (fun z => z ^ n / INR (fact n) + g' z)); [intros; apply (derivable_pt_lim_plus (fun z => z ^ S n / INR (fact (S n))) g); auto|rewrite P0, G0; ring|].
    intros z Hz. specialize (BP z Hz). apply Rabs_le_between in BP. lra.
  - assert (0 <= y ^ S n / INR (fact (S n)) - g y); [|lra].
    apply (M (fun z => z ^ S n / INR (fact (S n)) - g z) (fun z => z ^ n / INR (fact n) - g' z)); [intros; apply (deriv_minus (fun z => z ^ S n / INR (fact (S n))) g); auto|rewrite P0, G0; ring|].
    intros z Hz. specialize (BP z Hz). apply Rabs_le_between in BP. lra.
Qed.
Lemma grow_all : forall n (g g' : R -> R), (forall y, derivable_pt_lim g y (g' y)) -> g 0 = 0 -> (forall y, Rabs (g' y) <= Rabs y ^ n / INR (fact n)) ->
  forall y, Rabs (g y) <= Rabs y ^ S n / INR (fact (S n)).
Proof.
  intros n g g' D G0 B y. destruct (Rle_lt_dec 0 y) as [H|H]; [rewrite (Rabs_pos_eq y) by auto; apply (grow n g g'); auto|].
  rewrite (Rabs_left y) by auto. replace (g y) with ((fun z => g (- z)) (- y)) by (cbv beta; f_equal; ring).
  apply (grow n (fun z => g (- z)) (fun z => - g' (- z))); [|rewrite Ropp_0; auto| |lra].
  - intros z. eapply deriv_eq; [apply (derivable_pt_lim_comp Ropp g); [|apply D]|].
    + apply (derivable_pt_lim_opp id). apply derivable_pt_lim_id.
    + unfold id. ring.
  - intros z. rewrite Rabs_Ropp, <- (Rabs_Ropp z). apply B.
Qed.
Lemma taylor : forall n, exists c s, (length c <= n)%nat /\ (length s <= n)%nat /\ (forall y, Rabs (cos y - eval c y) <= Rabs y ^ n / INR (fact n)) /\ (forall y, Rabs (sin y - eval s y) <= Rabs y ^ n / INR (fact n)).
Proof.
  induction n as [|n (c & s & Lc & Ls & Bc & Bs)].
  - exists [], []. cbn [length eval pow fact INR]. unfold Rdiv. rewrite Rinv_1. repeat split; auto; intros y; rewrite Rminus_0_r, Rmult_1_l; apply Rabs_le; [apply COS_bound|apply SIN_bound].
  - exists (padd [1] (0 :: anti 0 (pscale (-1) s))), (0 :: anti 0 c). repeat split.
    + apply length_padd; cbn [length]; [lia|]. rewrite anti_length. unfold pscale. rewrite map_length. lia.
    + cbn [length]. rewrite anti_length. lia.
    + intros y. apply (grow_all n (fun y => cos y - eval (padd [1] (0 :: anti 0 (pscale (-1) s))) y) (fun y => - sin y - eval (pscale (-1) s) y)).
      * intros z. apply (deriv_minus cos); [apply derivable_pt_lim_cos|]. apply derivable_ext with (fun z => 1 + eval (0 :: anti 0 (pscale (-1) s)) z); [intros; rewrite eval_padd; cbn [eval]; ring|].
        eapply deriv_eq; [apply (derivable_pt_lim_plus (fun _ => 1)); [apply derivable_pt_lim_const|apply anti_derivative]|]. ring.
      * rewrite cos_0, eval_padd. cbn [eval]. ring.
      * intros z. rewrite eval_pscale. replace (- sin z - -1 * eval s z) with (- (sin z - eval s z)) by ring. rewrite Rabs_Ropp. apply Bs.
    + intros y. apply (grow_all n (fun y => sin y - eval (0 :: anti 0 c) y) (fun y => cos y - eval c y)).
      * intros z. apply (deriv_minus sin); [apply derivable_pt_lim_sin|apply anti_derivative].
      * rewrite sin_0. cbn [eval]. ring.
      * apply Bc.
Qed.

(* ---------------------------------------------- the rule *)
Definition exact_on (a b : R) (ngauss : nat) (x w : nat -> R) : Prop :=
  forall p, (length p <= 2 * ngauss)%nat -> is_RInt (eval p) a b (rsum (seq 0 ngauss) (fun i => w i * eval p (x i))).
Lemma trig_pi : forall j, sin (IZR j * PI) = 0 /\ (cos (IZR j * PI) = 1 \/ cos (IZR j * PI) = -1).
Proof.
  intros j. assert (S: sin (IZR j * PI) = 0) by (apply sin_eq_0_1; exists j; reflexivity). split; auto.
  pose proof (sin2_cos2 (IZR j * PI)) as E. rewrite S in E. unfold Rsqr in E. assert ((cos (IZR j * PI) - 1) * (cos (IZR j * PI) + 1) = 0) by lra. apply Rmult_integral in H. destruct H; [left|right]; lra.
Qed.
Section Azimuth.
Variables (N : nat) (p v : nat -> R).
Hypothesis N1 : (1 <= N)%nat.
Hypothesis EX : exact_on 0 (2 * PI) N p v.
Hypothesis P2 : forall i, (i < N)%nat -> 0 <= p i <= 2 * PI.
Hypothesis V0 : forall i, (i < N)%nat -> 0 <= v i.
Lemma weights : rsum (seq 0 N) v = 2 * PI.
Proof.
  pose proof (EX [1] ltac:(cbn; lia)) as A. pose proof (is_RInt_unique _ _ _ _ A) as U.
  assert (B: is_RInt (eval [1]) 0 (2 * PI) (2 * PI)).
  { eapply is_RInt_by; [apply (is_RInt_const (V := R_NormedModule) 0 (2 * PI) 1)| |]; [intros; cbn; ring|]. unfold scal; cbn. unfold mult; cbn. ring. }
  pose proof (is_RInt_unique _ _ _ _ B) as U2. rewrite U2 in U. rewrite U. apply rsum_ext. intros. cbn [eval]. ring.
Qed.
Lemma rule_error : forall (f : R -> R) I q e, (length q <= 2 * N)%nat -> is_RInt f 0 (2 * PI) I -> (forall t, 0 <= t <= 2 * PI -> Rabs (f t - eval q t) <= e) ->
  Rabs (rsum (seq 0 N) (fun i => v i * f (p i)) - I) <= 4 * PI * e.
Proof.
  intros f I q e L HI B. pose proof PI_RGT_0 as PP. pose proof (EX q L) as J. set (Q := rsum (seq 0 N) (fun i => v i * eval q (p i))) in J.
  assert (A1: Rabs (rsum (seq 0 N) (fun i => v i * f (p i)) - Q) <= 2 * PI * e).
  { replace (rsum (seq 0 N) (fun i => v i * f (p i)) - Q) with (rsum (seq 0 N) (fun i => v i * (f (p i) - eval q (p i)))).
    2:{ unfold Q. transitivity (rsum (seq 0 N) (fun i => v i * f (p i)) + -1 * rsum (seq 0 N) (fun i => v i * eval q (p i))); [|ring]. rewrite <- rsum_scal, <- rsum_add. apply rsum_ext. intros; ring. }
    eapply Rle_trans; [apply rsum_Rabs|]. rewrite <- weights, <- rsum_scal_r. apply rsum_le. intros i Hi. apply in_seq in Hi. rewrite Rabs_mult, Rabs_pos_eq by (apply V0; lia). apply Rmult_le_compat_l; [apply V0; lia|]. apply B. apply P2. lia. }
  assert (A2: Rabs (I - Q) <= 2 * PI * e).
  { pose proof (is_RInt_minus _ _ _ _ _ _ HI J) as K.
    assert (KN: norm (minus I Q) <= (2 * PI - 0) * e).
    { apply (norm_RInt_le_const (fun t => minus (f t) (eval q t)) 0 (2 * PI) (minus I Q) e); [lra| |exact K]. intros t Ht. apply (B t Ht). }
    change (norm (minus I Q)) with (Rabs (I - Q)) in KN. lra. }
  replace (rsum (seq 0 N) (fun i => v i * f (p i)) - I) with ((rsum (seq 0 N) (fun i => v i * f (p i)) - Q) + - (I - Q)) by ring.
  eapply Rle_trans; [apply Rabs_triang|]. rewrite Rabs_Ropp. lra.
Qed.
(** a polynomial close to f(j (t - pi)) *)
Lemma shifted : forall (f : R -> R) (j : Z) q B, (forall y, Rabs (f y - eval q y) <= Rabs y ^ (2 * N) / INR (fact (2 * N))) -> Rabs (IZR j) <= B -> (length q <= 2 * N)%nat ->
  exists r, (length r <= 2 * N)%nat /\ forall t, 0 <= t <= 2 * PI -> Rabs (f (IZR j * (t - PI)) - eval r t) <= (B * PI) ^ (2 * N) / INR (fact (2 * N)).
Proof.
  intros f j q B H HB L. destruct (affine_poly q (IZR j) (- (IZR j * PI))) as (r & Lr & Er). exists r. split; [lia|]. intros t Ht. pose proof PI_RGT_0 as PP.
  rewrite <- Er. replace (IZR j * t + - (IZR j * PI)) with (IZR j * (t - PI)) by ring. eapply Rle_trans; [apply H|].
  apply Rmult_le_compat_r; [left; apply Rinv_0_lt_compat; apply lt_0_INR; apply lt_O_fact|]. apply pow_incr. split; [apply Rabs_pos|]. rewrite Rabs_mult. apply Rmult_le_compat; auto using Rabs_pos. apply Rabs_le. lra.
Qed.
Lemma int_cos : forall j, is_RInt (fun t => cos (IZR j * t)) 0 (2 * PI) (if (j =? 0)%Z then 2 * PI else 0).
Proof.
  intros j. destruct (Z.eqb_spec j 0) as [ -> | NZ].
  - eapply is_RInt_by; [apply (is_RInt_const (V := R_NormedModule) 0 (2 * PI) 1)| |]; [intros; cbv beta; rewrite Rmult_0_l, cos_0; reflexivity|]. unfold scal; cbn. unfold mult; cbn. ring.
  - assert (IZR j <> 0) by (intro E; apply NZ; apply eq_IZR; auto).
    assert (DS: forall c t, derivable_pt_lim (fun t => c * t) t c) by (intros c t; eapply deriv_eq; [apply (derivable_pt_lim_scal (fun t => t)); apply derivable_pt_lim_id|ring]).
    eapply is_RInt_val.
    + apply (integral_of (fun t => / IZR j * sin (IZR j * t)) (fun t => cos (IZR j * t)) (fun t => - sin (IZR j * t) * IZR j)).
      * intros t. eapply deriv_eq; [apply (derivable_pt_lim_scal (fun t => sin (IZR j * t))); apply (derivable_pt_lim_comp (fun t => IZR j * t) sin); [apply DS|apply derivable_pt_lim_sin]|]. cbv beta. field. auto.
      * intros t. eapply deriv_eq; [apply (derivable_pt_lim_comp (fun t => IZR j * t) cos); [apply DS|apply derivable_pt_lim_cos]|]. reflexivity.
    + cbv beta. replace (IZR j * (2 * PI)) with (IZR (j * 2) * PI) by (rewrite mult_IZR; ring). destruct (trig_pi (j * 2)) as (S & _). replace (IZR j * 0) with 0 by ring; rewrite S, sin_0. ring.
Qed.
Lemma int_sin : forall j, is_RInt (fun t => sin (IZR j * t)) 0 (2 * PI) 0.
Proof.
  intros j. destruct (Z.eqb_spec j 0) as [ -> | NZ].
  - eapply is_RInt_by; [apply (is_RInt_const (V := R_NormedModule) 0 (2 * PI) 0)| |]; [intros; cbv beta; rewrite Rmult_0_l, sin_0; reflexivity|]. unfold scal; cbn. unfold mult; cbn. ring.
  - assert (IZR j <> 0) by (intro E; apply NZ; apply eq_IZR; auto).
    assert (DS: forall c t, derivable_pt_lim (fun t => c * t) t c) by (intros c t; eapply deriv_eq; [apply (derivable_pt_lim_scal (fun t => t)); apply derivable_pt_lim_id|ring]).
    eapply is_RInt_val.
    + apply (integral_of (fun t => - / IZR j * cos (IZR j * t)) (fun t => sin (IZR j * t)) (fun t => cos (IZR j * t) * IZR j)).
      * intros t. eapply deriv_eq; [apply (derivable_pt_lim_scal (fun t => cos (IZR j * t))); apply (derivable_pt_lim_comp (fun t => IZR j * t) cos); [apply DS|apply derivable_pt_lim_cos]|]. cbv beta. field. auto.
      * intros t. eapply deriv_eq; [apply (derivable_pt_lim_comp (fun t => IZR j * t) sin); [apply DS|apply derivable_pt_lim_sin]|]. reflexivity.
    + cbv beta. replace (IZR j * (2 * PI)) with (IZR j * PI + IZR j * PI) by ring. rewrite cos_plus. destruct (trig_pi j) as (S & C). replace (IZR j * 0) with 0 by ring. rewrite S, cos_0. destruct C as [ -> | -> ]; ring.
Qed.
Definition azimuth_error (nmax : nat) : R := 8 * PI * ((2 * PI * INR nmax) ^ (2 * N) / INR (fact (2 * N))).
Theorem gauss_azimuth : forall nmax, azimuth_rule nmax N p v (azimuth_error nmax).
Proof.
  intros nmax j Hj. pose proof PI_RGT_0 as PP. set (B := 2 * INR nmax). set (e := (B * PI) ^ (2 * N) / INR (fact (2 * N))).
  assert (HB: Rabs (IZR j) <= B). { unfold B. rewrite INR_IZR_INZ, <- abs_IZR, <- mult_IZR. apply IZR_le. lia. }
  destruct (taylor (2 * N)) as (c & s & Lc & Ls & Bc & Bs).
  destruct (shifted cos j c B Bc HB Lc) as (c' & Lc' & Ec). destruct (shifted sin j s B Bs HB Ls) as (s' & Ls' & Es). fold e in Ec, Es. destruct (trig_pi j) as (S & C).
  assert (SH: forall t, cos (IZR j * t) = cos (IZR j * PI) * cos (IZR j * (t - PI)) /\ sin (IZR j * t) = cos (IZR j * PI) * sin (IZR j * (t - PI))).
  { intros t. replace (IZR j * t) with (IZR j * (t - PI) + IZR j * PI) by ring. rewrite cos_plus, sin_plus, S. split; ring. }
  set (k := cos (IZR j * PI)) in *. assert (AK: Rabs k = 1) by (destruct C as [ -> | -> ]; [apply Rabs_R1|rewrite Rabs_left; lra]).
  assert (Q: forall f t (q : poly), Rabs (f - eval q t) <= e -> Rabs (k * f - eval (pscale k q) t) <= e).
  { intros f t q H. rewrite eval_pscale, <- Rmult_minus_distr_l, Rabs_mult, AK, Rmult_1_l. exact H. }
  assert (A1: Rabs (rsum (seq 0 N) (fun i => v i * cos (IZR j * p i)) - (if (j =? 0)%Z then 2 * PI else 0)) <= 4 * PI * e).
  { apply (rule_error (fun t => cos (IZR j * t)) _ (pscale k c')); [unfold pscale; rewrite map_length; auto|apply int_cos|]. intros t Ht. destruct (SH t) as (-> & _). apply Q. auto. }
  assert (A2: Rabs (rsum (seq 0 N) (fun i => v i * sin (IZR j * p i)) - 0) <= 4 * PI * e).
  { apply (rule_error (fun t => sin (IZR j * t)) _ (pscale k s')); [unfold pscale; rewrite map_length; auto|apply int_sin|]. intros t Ht. destruct (SH t) as (_ & ->). apply Q. auto. }
  replace (csum (seq 0 N) (fun b => RtoC (v b) * expi j (p b))%C) with (rsum (seq 0 N) (fun i => v i * cos (IZR j * p i)), rsum (seq 0 N) (fun i => v i * sin (IZR j * p i))).
  2:{ clear. induction (seq 0 N) as [|a l IH]; [reflexivity|]. rewrite csum_cons, !rsum_cons, <- IH. unfold expi, Cplus, Cmult, RtoC. cbn [fst snd]. f_equal; ring. }
  set (X := rsum _ _) in *. set (Y := rsum _ (fun i => v i * sin _)) in *. set (d := if (j =? 0)%Z then 2 * PI else 0) in *.
  replace ((X, Y) - RtoC d)%C with (RtoC (X - d) + Ci * RtoC (Y - 0))%C by (unfold Cminus, Cplus, Copp, Cmult, Ci, RtoC; cbn [fst snd]; f_equal; ring).
  eapply Rle_trans; [apply Cmod_triangle|]. rewrite Cmod_mult, !Cmod_R. replace (Cmod Ci) with 1 by (unfold Cmod, Ci; cbn [fst snd]; replace (0 ^ 2 + 1 ^ 2) with 1 by ring; rewrite sqrt_1; reflexivity).
  unfold azimuth_error. replace (2 * PI * INR nmax) with (B * PI) by (unfold B; ring). fold e. lra.
Qed.
End Azimuth.
