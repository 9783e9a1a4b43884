(** The spherical Bessel functions j_n and y_n of BesselSpec.v: their Wronskian, the differential equation of z j_n(z), and the sign of the energy flux
    Im (w phi' conj(phi)) of phi(t) = (m t) j_n(m t) for an absorbing material. Nothing in this file refers to the code. *)
From Coq Require Import List Arith Lia Bool Reals Lra ZArith.
From Coquelicot Require Import Hierarchy Rcomplements Derive Series Complex.
From Verif Require Import BesselSpec BesselFacts Bessel.
Import ListNotations.
Open Scope R_scope.

Lemma smooth_plus : forall f g z l m, smooth f z l -> smooth g z m -> smooth (fun x => f x + g x)%C z (l + m)%C.
Proof.
  intros f g z l m (K & d & Pd & PK & H) (K' & d' & Pd' & PK' & H'). exists (K + K'), (Rmin d d'). split; [apply Rmin_glb_lt; auto|]. split; [lra|].
  intros h Hh. specialize (H h (Rle_trans _ _ _ Hh (Rmin_l _ _))). specialize (H' h (Rle_trans _ _ _ Hh (Rmin_r _ _))).
  replace (f (z + h)%C + g (z + h)%C - (f z + g z) - (l + m) * h)%C with ((f (z + h)%C - f z - l * h) + (g (z + h)%C - g z - m * h))%C by ring.
  eapply Rle_trans; [apply Cmod_triangle|]. lra.
Qed.
Definition psi (n : nat) (z : C) : C := (z * J n z)%C.
Definition dpsi (n : nat) (z : C) : C := (RtoC (INR n + 1) * J n z - z * J (n + 1) z)%C.
Definition J_next (n : nat) (z : C) : J (n + 1) z = (cpow z (n + 1) * (RtoC (/ oddfact (n + 1)) * RtoC (/ (2 * INR n + 3))) * G (2 * INR n + 3) (arg z))%C.
Proof.
  unfold J. replace (2 * INR (n + 1) + 1) with (2 * INR n + 3) by (rewrite plus_INR; cbn; ring). f_equal. f_equal. rewrite <- RtoC_mult. f_equal.
  replace (n + 1 + 1)%nat with (Datatypes.S (n + 1)) by lia. rewrite oddfact_S. replace (INR (n + 1)) with (INR n + 1) by (rewrite plus_INR; cbn; ring).
  pose proof (oddfact_pos (n + 1)). pose proof (pos_INR n). field. lra.
Qed.
Lemma psi_deriv : forall n z, smooth (psi n) z (dpsi n z).
Proof.
  intros n z. pose proof (smooth_mult _ _ _ _ _ (smooth_mult _ _ _ _ _ (smooth_cpow (n + 1) z) (smooth_const (RtoC (/ oddfact (n + 1))) z)) (smooth_F _ z (odd_j n))) as X.
  cbv beta in X. eapply smooth_ext in X; cycle 1.
  { intros x. instantiate (1 := psi n). unfold psi, J. rewrite cpow_add. cbn [cpow]. ring. }
  match type of X with smooth _ _ ?e => replace (dpsi n z) with e; [exact X|] end. unfold dpsi. rewrite J_next. unfold J.
  replace (2 * INR n + 1 + 2) with (2 * INR n + 3) by ring. replace (n + 1 - 1)%nat with n by lia. replace (INR (n + 1)) with (INR n + 1) by (rewrite plus_INR; cbn; ring).
  rewrite !cpow_add. cbn [cpow]. ring.
Qed.
Lemma J_deriv : forall n z, smooth (J n) z (RtoC (INR n) * cpow z (n - 1) * RtoC (/ oddfact (n + 1)) * G (2 * INR n + 1) (arg z) - J (n + 1) z)%C.
Proof.
  intros n z. pose proof (smooth_mult _ _ _ _ _ (smooth_mult _ _ _ _ _ (smooth_cpow n z) (smooth_const (RtoC (/ oddfact (n + 1))) z)) (smooth_F _ z (odd_j n))) as X.
  cbv beta in X. fold (J n) in X. match type of X with smooth _ _ ?e => replace (_ - J (n + 1) z)%C with e; [exact X|] end. rewrite J_next.
  replace (2 * INR n + 1 + 2) with (2 * INR n + 3) by ring. rewrite !cpow_add. cbn [cpow]. ring.
Qed.
Lemma dpsi_deriv : forall n z, exists l, smooth (dpsi n) z l /\ (z <> RtoC 0 -> l = ((RtoC (INR n * (INR n + 1)) / (z * z) - RtoC 1) * psi n z)%C).
Proof.
  intros n z. pose proof (smooth_mult _ _ _ _ _ (smooth_const (RtoC (INR n + 1)) z) (J_deriv n z)) as A. cbv beta in A.
  pose proof (smooth_mult _ _ _ _ _ (smooth_const (- RtoC 1)%C z) (psi_deriv (n + 1) z)) as B. cbv beta in B.
  pose proof (smooth_plus _ _ _ _ _ A B) as X. eapply smooth_ext in X; cycle 1. { intros x. instantiate (1 := dpsi n). unfold dpsi, psi. ring. }
  eexists. split; [exact X|]. intros Nz. unfold dpsi at 1, psi. replace (INR (n + 1) + 1) with (INR n + 2) by (rewrite plus_INR; cbn; ring).
  replace (n + 1 + 1)%nat with (n + 2)%nat by lia.
  assert (N1: (RtoC (INR n) * cpow z (n - 1) * RtoC (/ oddfact (n + 1)) * G (2 * INR n + 1) (arg z))%C = (RtoC (INR n) / z * J n z)%C).
  { unfold J. destruct n as [|n]; [cbn [INR]; field; auto|]. replace (Datatypes.S n - 1)%nat with n by lia. cbn [cpow]. field. auto. }
  rewrite N1. pose proof (J_rec n z Nz) as R. replace (J (n + 2) z) with (RtoC (2 * INR n + 3) * / z * J (n + 1) z - J n z)%C by (rewrite <- R; ring).
  rewrite RtoC_mult. replace (RtoC (2 * INR n + 3)) with (RtoC (INR n + 1) + RtoC (INR n + 2))%C by (rewrite <- RtoC_plus; f_equal; ring). field. auto.
Qed.
(** the functions of order n + 1 in terms of those of order n, as the recurrences of the code give them *)
Lemma dpsi_down : forall n z, z <> RtoC 0 -> dpsi (n + 1) z = (z * J n z - RtoC (INR n + 1) * J (n + 1) z)%C.
Proof.
  intros n z Nz. unfold dpsi. pose proof (J_rec n z Nz) as R. replace (n + 1 + 1)%nat with (n + 2)%nat by lia. replace (INR (n + 1) + 1) with (INR n + 2) by (rewrite plus_INR; cbn; ring).
  replace (J (n + 2) z) with (RtoC (2 * INR n + 3) * / z * J (n + 1) z - J n z)%C by (rewrite <- R; ring).
  replace (RtoC (2 * INR n + 3)) with (RtoC (INR n + 1) + RtoC (INR n + 2))%C by (rewrite <- RtoC_plus; f_equal; ring). field. auto.
Qed.

(* ------------------------------------------------ Wronskian *)
Lemma csin2 : forall z, (csin z * csin z + ccos z * ccos z = RtoC 1)%C.
Proof.
  intros (x, y). unfold csin, ccos. cbn [Re Im fst snd]. apply injective_projections; cbn [fst snd Cplus Cmult RtoC].
  - pose proof (sin2_cos2 x) as H. unfold Rsqr in H. pose proof (cosh y) as _. 
    transitivity ((sin x * sin x + cos x * cos x) * (cosh y * cosh y - sinh y * sinh y)); [ring|]. rewrite H. unfold cosh, sinh.
    assert (E: exp y * exp (- y) = 1) by (rewrite <- exp_plus; replace (y + - y) with 0 by ring; apply exp_0). nra.
  - ring.
Qed.
Lemma cross : forall n z, z <> RtoC 0 -> (J (n + 1) z * Y n z - J n z * Y (n + 1) z = / (z * z))%C.
Proof.
  intros n z Nz. induction n as [|n IH].
  - cbn [Nat.add]. rewrite J0_sin, Y0_cos, Y1_sincos by auto.
    assert (J1: J 1 z = (csin z / (z * z) - ccos z / z)%C).
    { pose proof (dpsi_deriv 0 z) as _. pose proof (psi_deriv 0 z) as D. destruct (sincos z) as (S1 & S2).
      assert (E: dpsi 0 z = Cs z).
      { pose proof (Ss_deriv z) as D'. eapply smooth_ext in D'; cycle 1. { intros x. instantiate (1 := psi 0). unfold psi, Ss, J. cbn [cpow Nat.add oddfact INR]. replace (2 * 0 + 1) with 1 by ring. rewrite Rmult_1_r, Rinv_1. ring. }
        destruct D as (K & d & Pd & PK & H). destruct D' as (K' & d' & Pd' & PK' & H'). destruct (Req_dec (Cmod (dpsi 0 z - Cs z)%C) 0) as [Z0|NZ].
        - apply Cmod_eq_0 in Z0. replace (dpsi 0 z) with (dpsi 0 z - Cs z + Cs z)%C by ring. rewrite Z0. ring.
        - exfalso. pose proof (Cmod_ge_0 (dpsi 0 z - Cs z)%C) as P0. set (c := Cmod (dpsi 0 z - Cs z)%C) in *.
          set (h := Rmin (Rmin d d') (c / (2 * (K + K' + 1)))). assert (PS: 0 < h) by (unfold h; repeat apply Rmin_glb_lt; auto; apply Rdiv_lt_0_compat; lra).
          assert (Hd: h <= d) by (unfold h; eapply Rle_trans; [apply Rmin_l | apply Rmin_l]). assert (Hd': h <= d') by (unfold h; eapply Rle_trans; [apply Rmin_l | apply Rmin_r]).
          assert (Hc: h <= c / (2 * (K + K' + 1))) by (unfold h; apply Rmin_r). clearbody h.
          assert (CH: Cmod (RtoC h) = h) by (rewrite Cmod_R, Rabs_right; lra). specialize (H (RtoC h)). specialize (H' (RtoC h)). rewrite CH in *. specialize (H Hd). specialize (H' Hd').
          assert (T: c * h <= (K + K') * (h * h)).
          { replace (c * h) with (Cmod ((dpsi 0 z - Cs z) * RtoC h)%C) by (rewrite Cmod_mult, CH; reflexivity).
            replace ((dpsi 0 z - Cs z) * RtoC h)%C with ((psi 0 (z + RtoC h)%C - psi 0 z - Cs z * RtoC h) - (psi 0 (z + RtoC h)%C - psi 0 z - dpsi 0 z * RtoC h))%C by ring.
            eapply Rle_trans; [apply Cmod_triangle|]. rewrite Cmod_opp. lra. }
          assert (c <= (K + K') * h) by (apply (Rmult_le_reg_r h); lra). assert (h * (2 * (K + K' + 1)) <= c) by (apply Rle_div_r in Hc; lra). nra. }
      unfold dpsi in E. cbn [INR Nat.add] in E. rewrite S2 in E. replace (RtoC (0 + 1)) with (RtoC 1) in E by (f_equal; ring). rewrite J0_sin in E by auto.
      assert (E': (z * J 1 z = csin z / z - ccos z)%C) by (rewrite <- E; ring). transitivity (z * J 1 z / z)%C; [field; auto|]. rewrite E'. field. auto. }
    rewrite J1. pose proof (csin2 z) as S2. transitivity ((csin z * csin z + ccos z * ccos z) / (z * z))%C; [field; auto | rewrite S2; field; auto].
  - pose proof (J_rec n z Nz) as R1. pose proof (Y_rec n z Nz) as R2. replace (Datatypes.S n + 1)%nat with (n + 2)%nat by lia. replace (Datatypes.S n) with (n + 1)%nat by lia.
    replace (J (n + 2) z) with (RtoC (2 * INR n + 3) * / z * J (n + 1) z - J n z)%C by (rewrite <- R1; ring).
    replace (Y (n + 2) z) with (RtoC (2 * INR n + 3) * / z * Y (n + 1) z - Y n z)%C by (rewrite <- R2; ring). rewrite <- IH. ring.
Qed.

(* ------------------------------------------------ energy flux *)
Lemma derive_eq : forall f x l l', derivable_pt_lim f x l -> l = l' -> derivable_pt_lim f x l'.
Proof. intros f x l l' H <-. exact H. Qed.
Section Flux.
Variables (n : nat) (m : C) (x : R).
Hypothesis Nm : m <> RtoC 0.
Hypothesis Px : 0 < x.
Let phi t := psi n (RtoC t * m)%C.
Let dphi t := (dpsi n (RtoC t * m) * m)%C.
Definition flux (w : C) (t : R) : R := Im (w * (dphi t * Cconj (phi t)))%C.
Lemma phi_deriv : forall t, derivable_pt_lim (fun t => Re (phi t)) t (Re (dphi t)) /\ derivable_pt_lim (fun t => Im (phi t)) t (Im (dphi t)).
Proof.
  intros t. pose proof (psi_deriv n (RtoC 0 + RtoC t * m)%C) as D. apply path_deriv in D. destruct D as (D1 & D2). unfold phi, dphi.
  assert (Z: forall t, (RtoC 0 + RtoC t * m)%C = (RtoC t * m)%C) by (intros; ring). rewrite Z in D1, D2. split; intros eps He.
  - destruct (D1 eps He) as (d & Hd). exists d. intros h Nh Hh. specialize (Hd h Nh Hh). rewrite !Z in Hd. exact Hd.
  - destruct (D2 eps He) as (d & Hd). exists d. intros h Nh Hh. specialize (Hd h Nh Hh). rewrite !Z in Hd. exact Hd.
Qed.
Lemma dphi_deriv : forall t, exists c d, derivable_pt_lim (fun t => Re (dphi t)) t c /\ derivable_pt_lim (fun t => Im (dphi t)) t d /\
  (0 < t -> let L := INR n * (INR n + 1) / (t * t) in (c, d) = ((RtoC L - m * m) * phi t)%C).
Proof.
  intros t. destruct (dpsi_deriv n (RtoC 0 + RtoC t * m)%C) as (l & D & E).
  pose proof (smooth_mult _ _ _ _ _ D (smooth_const m (RtoC 0 + RtoC t * m)%C)) as X. cbv beta in X. apply path_deriv in X. destruct X as (D1 & D2).
  assert (Z: forall t, (RtoC 0 + RtoC t * m)%C = (RtoC t * m)%C) by (intros; ring). rewrite Z in E, D1, D2.
  set (l' := ((l * m + dpsi n (RtoC t * m) * RtoC 0) * m)%C) in *. exists (Re l'), (Im l'). split; [|split].
  - intros eps He. destruct (D1 eps He) as (d & Hd). exists d. intros h Nh Hh. specialize (Hd h Nh Hh). rewrite !Z in Hd. exact Hd.
  - intros eps He. destruct (D2 eps He) as (d & Hd). exists d. intros h Nh Hh. specialize (Hd h Nh Hh). rewrite !Z in Hd. exact Hd.
  - intros Ht L. assert (Nt: RtoC t <> RtoC 0) by (apply RtoC_nz; lra). specialize (E (Cmult_neq_0 _ _ Nt Nm)). unfold Re, Im. rewrite <- surjective_pairing. unfold l'. rewrite E. fold (phi t).
    unfold L. rewrite RtoC_div by nra. rewrite (RtoC_mult t t). match goal with |- ?a = ?b => change (@eq C a b) end. field. split; auto.
Qed.
Lemma phi_0 : phi 0 = RtoC 0.
Proof. unfold phi, psi. ring. Qed.
Lemma flux_0 : forall w, flux w 0 = 0.
Proof. intros w. unfold flux. rewrite phi_0. unfold Cconj, RtoC, Cmult, Im. cbn [fst snd]. ring. Qed.
Definition norm (z : C) : R := Re z * Re z + Im z * Im z.
Lemma norm_pos : forall z, 0 <= norm z.
Proof. intros z. unfold norm. nra. Qed.
(** d/dt Im (w phi' conj(phi)) *)
Lemma flux_deriv : forall w t, exists l, derivable_pt_lim (flux w) t l /\
  (0 < t -> l = - Im (w * (m * m))%C * norm (phi t) + Im w * (INR n * (INR n + 1) / (t * t) * norm (phi t) + norm (dphi t))).
Proof.
  intros w t. destruct (phi_deriv t) as (DA & DB). destruct (dphi_deriv t) as (c & d & DC & DD & E).
  set (A := fun t => Re (phi t)) in *. set (B := fun t => Im (phi t)) in *. set (C' := fun t => Re (dphi t)) in *. set (D' := fun t => Im (dphi t)) in *.
  pose proof (derivable_pt_lim_mult _ _ _ _ _ DC DA) as CA. pose proof (derivable_pt_lim_mult _ _ _ _ _ DD DB) as DBB. pose proof (derivable_pt_lim_mult _ _ _ _ _ DD DA) as DAA. pose proof (derivable_pt_lim_mult _ _ _ _ _ DC DB) as CB.
  pose proof (derivable_pt_lim_scal _ (Re w) _ _ (derivable_pt_lim_minus _ _ _ _ _ DAA CB)) as Q. pose proof (derivable_pt_lim_scal _ (Im w) _ _ (derivable_pt_lim_plus _ _ _ _ _ CA DBB)) as P.
  pose proof (derivable_pt_lim_plus _ _ _ _ _ Q P) as F. eexists. split.
  - intros eps He. destruct (F eps He) as (dl & Hd). exists dl. intros h Nh Hh. specialize (Hd h Nh Hh).
    assert (FE: forall s, flux w s = (mult_real_fct (Re w) (D' * A - C' * B) + mult_real_fct (Im w) (C' * A + D' * B))%F s).
    { intros s. unfold flux, plus_fct, minus_fct, mult_fct, mult_real_fct, A, B, C', D'. destruct (dphi s) as (u, v). destruct (phi s) as (a, b). destruct w as (w1, w2). unfold Cmult, Cconj, Re, Im. cbn [fst snd]. ring. }
    rewrite !FE. exact Hd.
  - intros Ht. specialize (E Ht). cbv zeta in E. set (L := INR n * (INR n + 1) / (t * t)) in *. assert (Ec: c = Re ((RtoC L - m * m) * phi t)%C) by (rewrite <- E; reflexivity). assert (Ed: d = Im ((RtoC L - m * m) * phi t)%C) by (rewrite <- E; reflexivity). clear E. unfold A, B, C', D' in *. rewrite Ec, Ed. unfold norm. clearbody L phi dphi. clear.
    destruct (dphi t) as (u, v). destruct (phi t) as (a, b). destruct w as (w1, w2). destruct m as (m1, m2). unfold Cmult, Cconj, Cminus, Cplus, Copp, RtoC, Re, Im. cbn [fst snd]. ring.
Qed.
Lemma flux_sign : forall w, Im w <= 0 -> 0 <= Im (w * (m * m))%C -> flux w x <= 0.
Proof.
  intros w H1 H2. assert (DR: forall t, derivable_pt_lim (flux w) t (Derive (flux w) t)).
  { intros t. destruct (flux_deriv w t) as (l & D & _). apply is_derive_Reals in D. rewrite (is_derive_unique _ _ _ D). apply is_derive_Reals. exact D. }
  destruct (MVT_cor2 (flux w) (Derive (flux w)) 0 x Px (fun t _ => DR t)) as (t & E & Ht). rewrite flux_0 in E.
  assert (S: Derive (flux w) t <= 0).
  { destruct (flux_deriv w t) as (l & D & F). apply is_derive_Reals in D. rewrite (is_derive_unique _ _ _ D). rewrite F by lra.
    assert (0 <= INR n * (INR n + 1) / (t * t)) by (pose proof (pos_INR n); apply Rmult_le_pos; [nra | left; apply Rinv_0_lt_compat; nra]).
    pose proof (norm_pos (phi t)). pose proof (norm_pos (dphi t)). assert (0 <= INR n * (INR n + 1) / (t * t) * norm (phi t)) by (apply Rmult_le_pos; auto). nra. }
  nra.
Qed.
Lemma flux_opp : forall w t, flux (- w)%C t = - flux w t.
Proof. intros w t. unfold flux. destruct (dphi t * Cconj (phi t))%C as (a, b), w as (w1, w2). unfold Cmult, Copp, Im. cbn [fst snd]. ring. Qed.
Lemma flux_none : forall w, Im w = 0 -> Im (w * (m * m))%C = 0 -> flux w x = 0.
Proof.
  intros w H1 H2. pose proof (flux_sign w ltac:(lra) ltac:(lra)) as A.
  assert (B: flux (- w)%C x <= 0).
  { apply flux_sign; [destruct w; unfold Copp, Im in *; cbn [fst snd] in *; lra|]. replace (- w * (m * m))%C with (- (w * (m * m)))%C by ring. destruct (w * (m * m))%C as (a, b). unfold Copp, Im in *. cbn [fst snd] in *. lra. }
  rewrite flux_opp in B. lra.
Qed.
(** psi and its derivative do not vanish together *)
Lemma not_both : (1 <= n)%nat -> forall t, 0 < t -> ~ (phi t = RtoC 0 /\ dphi t = RtoC 0).
Proof.
  intros Hn t Ht (H1 & H2). assert (Nt: RtoC t <> RtoC 0) by (apply RtoC_nz; lra). unfold phi, dphi, psi in *.
  pose proof (Cmult_neq_0 _ _ Nt Nm) as Nz. set (z := (RtoC t * m)%C) in *. clearbody z.
  assert (E1: J n z = RtoC 0) by (apply Classical_Prop.NNPP; intro N; apply (Cmult_neq_0 _ _ Nz N); exact H1).
  assert (E2: dpsi n z = RtoC 0) by (apply Classical_Prop.NNPP; intro N; apply (Cmult_neq_0 _ _ N Nm); exact H2).
  destruct n as [|k]; [lia|]. replace (Datatypes.S k) with (k + 1)%nat in * by lia. rewrite dpsi_down in E2 by auto. rewrite E1 in E2.
  assert (E3: J k z = RtoC 0). { apply Classical_Prop.NNPP. intro N. apply (Cmult_neq_0 _ _ Nz N). rewrite <- E2. ring. }
  pose proof (cross k z Nz) as W. rewrite E1, E3 in W. assert (W0: (/ (z * z))%C = RtoC 0) by (rewrite <- W; ring).
  assert (RtoC 1 = RtoC 0) by (transitivity (z * z * / (z * z))%C; [field; auto | rewrite W0; ring]). apply RtoC_inj in H. lra.
Qed.
Lemma norm_0 : forall z, norm z <= 0 -> z = RtoC 0.
Proof. intros (a, b) H. unfold norm, Re, Im in H. cbn [fst snd] in H. assert (a = 0) by nra. assert (b = 0) by nra. subst. reflexivity. Qed.
Lemma flux_strict : (1 <= n)%nat -> 0 < Im (m * m)%C -> flux (Cconj (m * m)%C) x < 0 /\ flux (RtoC 1) x < 0.
Proof.
  intros Hn H.
  assert (DR: forall w t, derivable_pt_lim (flux w) t (Derive (flux w) t)).
  { intros w t. destruct (flux_deriv w t) as (l & D & _). apply is_derive_Reals in D. rewrite (is_derive_unique _ _ _ D). apply is_derive_Reals. exact D. }
  assert (DV: forall w t, 0 < t -> Derive (flux w) t = - Im (w * (m * m))%C * norm (phi t) + Im w * (INR n * (INR n + 1) / (t * t) * norm (phi t) + norm (dphi t))).
  { intros w t Ht. destruct (flux_deriv w t) as (l & D & F). apply is_derive_Reals in D. rewrite (is_derive_unique _ _ _ D). auto. }
  assert (L: forall t, 0 < t -> 0 < INR n * (INR n + 1) / (t * t)).
  { intros t Ht. assert (1 <= INR n) by (apply (le_INR 1); auto). apply Rmult_lt_0_compat; [nra | apply Rinv_0_lt_compat; nra]. }
  split.
  - destruct (MVT_cor2 (flux (Cconj (m * m)%C)) (Derive (flux (Cconj (m * m)%C))) 0 x Px (fun t _ => DR _ t)) as (t & E & Ht). rewrite flux_0, DV in E by lra.
    replace (Im (Cconj (m * m) * (m * m))%C) with 0 in E by (destruct (m * m)%C; unfold Cconj, Cmult, Im; cbn [fst snd]; ring).
    replace (Im (Cconj (m * m)%C)) with (- Im (m * m)%C) in E by (destruct (m * m)%C; reflexivity).
    specialize (L t ltac:(lra)). pose proof (norm_pos (phi t)). pose proof (norm_pos (dphi t)). set (l := INR n * (INR n + 1) / (t * t)) in *.
    assert (0 < l * norm (phi t) + norm (dphi t)).
    { destruct (Rle_lt_dec (l * norm (phi t) + norm (dphi t)) 0); auto. exfalso. apply (not_both Hn t ltac:(lra)). assert (0 <= l * norm (phi t)) by (apply Rmult_le_pos; lra). split; apply norm_0; [|lra].
      assert (l * norm (phi t) <= 0) by lra. nra. }
    assert (0 < Im (m * m)%C * (l * norm (phi t) + norm (dphi t))) by (apply Rmult_lt_0_compat; auto). nra.
  - assert (DE: forall t, 0 < t -> Derive (flux (RtoC 1)) t = - Im (m * m)%C * norm (phi t)).
    { intros t Ht. rewrite DV by auto. replace (Im (RtoC 1)) with 0 by reflexivity. rewrite Cmult_1_l. ring. }
    assert (MONO: forall a c, 0 <= a < c -> flux (RtoC 1) c <= flux (RtoC 1) a).
    { intros a c Hc. destruct (MVT_cor2 (flux (RtoC 1)) (Derive (flux (RtoC 1))) a c ltac:(lra) (fun t _ => DR _ t)) as (t & E & Ht). rewrite DE in E by lra. pose proof (norm_pos (phi t)).
      assert (0 <= Im (m * m)%C * norm (phi t)) by (apply Rmult_le_pos; lra). nra. }
    destruct (Rlt_le_dec (flux (RtoC 1) x) 0) as [|Q]; auto. exfalso.
    assert (F0: forall t, 0 <= t <= x -> flux (RtoC 1) t = 0).
    { intros t Ht. destruct (Req_dec t 0) as [->|]; [apply flux_0|]. pose proof (MONO 0 t ltac:(lra)) as A. rewrite flux_0 in A. destruct (Req_dec t x) as [->|]; [lra|]. pose proof (MONO t x ltac:(lra)). lra. }
    assert (P0: forall t, 0 < t < x -> phi t = RtoC 0).
    { intros t Ht. pose proof (DE t ltac:(lra)) as E. assert (Z: Derive (flux (RtoC 1)) t = 0).
      { rewrite (Derive_ext_loc _ (fun _ => 0)); [apply Derive_const|]. exists (mkposreal (Rmin t (x - t)) ltac:(apply Rmin_glb_lt; lra)). intros s Hs. cbn in Hs. unfold AbsRing_ball in Hs. cbn in Hs. unfold abs, minus, plus, opp in Hs. cbn in Hs.
        apply F0. apply Rabs_def2 in Hs. pose proof (Rmin_l t (x - t)). pose proof (Rmin_r t (x - t)). lra. }
      rewrite Z in E. pose proof (norm_pos (phi t)). apply norm_0. nra. }
    apply (not_both Hn (x / 2) ltac:(lra)). split; [apply P0; lra|].
    destruct (phi_deriv (x / 2)) as (D1 & D2). apply is_derive_Reals in D1. apply is_derive_Reals in D2. apply is_derive_unique in D1. apply is_derive_unique in D2.
    assert (LOC: locally (x / 2) (fun s => phi s = RtoC 0)).
    { exists (mkposreal (x / 2) ltac:(lra)). intros s Hs. cbn in Hs. unfold AbsRing_ball in Hs. cbn in Hs. unfold abs, minus, plus, opp in Hs. cbn in Hs. apply P0. apply Rabs_def2 in Hs. lra. }
    rewrite (Derive_ext_loc _ (fun _ => 0)) in D1 by (eapply filter_imp; [|exact LOC]; cbv beta; intros s ->; reflexivity).
    rewrite (Derive_ext_loc _ (fun _ => 0)) in D2 by (eapply filter_imp; [|exact LOC]; cbv beta; intros s ->; reflexivity).
    rewrite Derive_const in D1, D2. destruct (dphi (x / 2)) as (a, b). unfold Re, Im in D1, D2. cbn [fst snd] in D1, D2. subst. reflexivity.
Qed.
End Flux.
