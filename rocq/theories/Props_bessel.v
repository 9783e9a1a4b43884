(** C65, C66: the spherical Bessel functions. *)
From Coq Require Import List Arith Lia Bool Reals Lra ZArith.
From Coquelicot Require Import Hierarchy Rcomplements Series Complex.
From Verif Require Import Matrix BesselSpec Bessel BesselFacts BesselRun BesselBound BesselAcc.
Import ListNotations.
Open Scope R_scope.

(* ------------------------------------------------ the two instances of the templates *)
(** the same outcome, and the same numbers *)
Definition same (r : out ((nat -> R) * (nat -> R))) (c : out ((nat -> C) * (nat -> C))) : Prop :=
  match r, c with
  | Done (a, b), Done (a', b') => forall i, a' i = RtoC (a i) /\ b' i = RtoC (b i)
  | DivZero, DivZero => True
  | OutOfBounds, OutOfBounds => True
  | _, _ => False
  end.
Lemma for_two : forall {S S'} (R0 : S -> S' -> Prop) lo hi b b' s s', R0 s s' ->
  (forall k s s', (lo <= k < hi)%nat -> R0 s s' -> R0 (b k s) (b' k s')) -> R0 (for_ lo hi b s) (for_ lo hi b' s').
Proof.
  intros S S' R0 lo hi b b' s s' H Hs. unfold for_. remember (hi - lo)%nat as d eqn:E. revert lo s s' H Hs E.
  induction d; intros lo s s' H Hs E; cbn [seq fold_left]; auto.
  apply (IHd (Datatypes.S lo)); [apply Hs; auto; lia | intros; apply Hs; auto; lia | lia].
Qed.
Lemma iszero_real : forall x, iszero complexes (RtoC x) = iszero reals x.
Proof. intros x. cbn. destruct (Req_EM_T x 0); auto. destruct (Req_EM_T 0 0); auto. Qed.
Lemma csin_real : forall x, csin (RtoC x) = RtoC (sin x).
Proof. intros x. rewrite <- (proj1 (sincos (RtoC x))). apply sincos_real. Qed.
Lemma ccos_real : forall x, ccos (RtoC x) = RtoC (cos x).
Proof. intros x. rewrite <- (proj2 (sincos (RtoC x))). apply sincos_real. Qed.
Lemma vupd_RtoC : forall (w : nat -> R) i v w' v', (forall k, w' k = RtoC (w k)) -> v' = RtoC v -> forall k, vupd w' i v' k = RtoC (vupd w i v k).
Proof. intros w i v w' v' H E k. unfold vupd. destruct (k =? i)%nat; auto. Qed.
Ltac cast := repeat first [rewrite RtoC_minus | rewrite RtoC_plus | rewrite RtoC_mult | rewrite RtoC_opp].

Theorem C65_real_and_complex_agree : forall x,
  (forall cap nmax y dy, same (spherical_y_ydy_array R reals cap nmax x y dy) (spherical_y_ydy_array C complexes cap nmax (RtoC x) (fun i => RtoC (y i)) (fun i => RtoC (dy i)))) /\
  (forall junk cap nmax j dj, same (spherical_j_jdj_array R reals junk cap nmax x j dj) (spherical_j_jdj_array C complexes (fun i => RtoC (junk i)) cap nmax (RtoC x) (fun i => RtoC (j i)) (fun i => RtoC (dj i)))).
Proof.
  intros x. assert (ZI: iszero reals x = false -> x <> 0) by (cbn; destruct (Req_EM_T x 0); auto; discriminate).
  split.
  - intros cap nmax y dy. unfold spherical_y_ydy_array. rewrite iszero_real. destruct (iszero reals x) eqn:Z; [exact I|]. specialize (ZI eq_refl).
    destruct (cap <? 2)%nat; [exact I|]. cbn [num add sub mul div neg ksin kcos complexes reals]. rewrite csin_real, ccos_real.
    rewrite <- RtoC_div by auto. apply for_two.
    + assert (Y0: forall k, vupd (vupd (fun i => RtoC (y i)) 0 (- RtoC (cos x) * (RtoC (1 / x) * RtoC (1 / x)) - RtoC (sin x) * RtoC (1 / x)))%C 1
        ((- RtoC 3 * (RtoC (1 / x) * RtoC (1 / x) * RtoC (1 / x)) + RtoC (1 / x)) * RtoC (cos x) - RtoC 3 * (RtoC (1 / x) * RtoC (1 / x)) * RtoC (sin x))%C k =
        RtoC (vupd (vupd y 0 (- cos x * (1 / x * (1 / x)) - sin x * (1 / x))) 1 ((- (3) * (1 / x * (1 / x) * (1 / x)) + 1 / x) * cos x - 3 * (1 / x * (1 / x)) * sin x) k)).
      { intros k. apply vupd_RtoC; [intros k'; apply vupd_RtoC; auto|]; cast; ring. }
      intros k. split; [apply Y0|]. apply vupd_RtoC; [intros k'; apply vupd_RtoC; auto|]; rewrite ?Y0; cast; ring.
    + intros k s s' Hk H. unfold y_step. destruct s as [[a b] | |], s' as [[a' b'] | |]; cbn [same] in H; try contradiction; try exact I.
      destruct (k <? cap)%nat; [|exact I]. cbn [num add sub mul div neg complexes reals].
      assert (HY: forall i, vupd a' k (RtoC (2 * INR k + 1) * RtoC (1 / x) * a' (k - 1)%nat - a' (k - 2)%nat)%C i = RtoC (vupd a k ((2 * INR k + 1) * (1 / x) * a (k - 1)%nat - a (k - 2)%nat) i)).
      { apply vupd_RtoC; [intros; apply H|]. rewrite !(proj1 (H _)). cast. ring. }
      intros i. split; [apply HY|]. apply vupd_RtoC; [intros; apply H|]. rewrite !HY. cast. ring.
  - intros junk cap nmax j dj. unfold spherical_j_jdj_array, spherical_j_of. rewrite iszero_real. destruct (iszero reals x) eqn:Z; [exact I|]. specialize (ZI eq_refl).
    generalize 800%nat as N. intros N.
    assert (RT: match ratios R reals N x junk, ratios C complexes N (RtoC x) (fun i => RtoC (junk i)) with
      | Done a, Done a' => forall i, a' i = RtoC (a i) | DivZero, DivZero => True | OutOfBounds, OutOfBounds => True | _, _ => False end).
    { unfold ratios. cbn [num add sub mul div neg complexes reals].
      apply (for_two (fun r c => match r, c with Done a, Done a' => forall i, a' i = RtoC (a i) | DivZero, DivZero => True | OutOfBounds, OutOfBounds => True | _, _ => False end)).
      - apply vupd_RtoC; auto. rewrite RtoC_div; auto. pose proof (pos_INR N). lra.
      - intros k s s' Hk H. unfold rho_step. destruct s as [a | |], s' as [a' | |]; try contradiction; auto.
        cbn [num add sub mul div neg complexes reals]. rewrite H. rewrite <- RtoC_div, <- RtoC_mult, <- RtoC_minus by auto. fold complexes. rewrite iszero_real.
        destruct (iszero reals ((2 * INR (N - k) + 1) * (1 / x) - a (N - k)%nat)) eqn:Z'; auto.
        apply vupd_RtoC; auto. rewrite RtoC_div; auto. intro E. cbn in Z'. rewrite E in Z'. destruct (Req_EM_T 0 0); [discriminate | lra]. }
    destruct (ratios R reals N x junk) as [rho | |], (ratios C complexes N (RtoC x) (fun i => RtoC (junk i))) as [rho' | |]; try contradiction; try exact I.
    destruct (cap <? 1)%nat; [exact I|]. cbn [num add sub mul div neg ksin kcos complexes reals]. rewrite csin_real, RT, <- RtoC_div by auto.
    apply for_two.
    + assert (J0: forall k, vupd (fun i => RtoC (j i)) 0 (RtoC (rho 0%nat) * (RtoC (sin x) * RtoC (1 / x)))%C k = RtoC (vupd j 0 (rho 0%nat * (sin x * (1 / x))) k)).
      { apply vupd_RtoC; auto. cast. ring. }
      intros k. split; [apply J0|]. apply vupd_RtoC; auto. rewrite J0. cast. ring.
    + intros k s s' Hk H. unfold j_step. destruct s as [[a b] | |], s' as [[a' b'] | |]; cbn [same] in H; try contradiction; try exact I.
      destruct ((k <? cap) && (k <? N))%nat; [|exact I]. cbn [num add sub mul div neg complexes reals].
      assert (HY: forall i, vupd a' k (rho' k * a' (k - 1)%nat)%C i = RtoC (vupd a k (rho k * a (k - 1)%nat) i)).
      { apply vupd_RtoC; [intros; apply H|]. rewrite RT, (proj1 (H _)). cast. ring. }
      intros i. split; [apply HY|]. apply vupd_RtoC; [intros; apply H|]. rewrite !HY. cast. ring.
Qed.
Print Assumptions C65_real_and_complex_agree.

(* ------------------------------------------------ real arguments *)
Lemma cpow_real : forall x n, cpow (RtoC x) n = RtoC (x ^ n).
Proof. intros x n. induction n; cbn [cpow pow]; auto. rewrite IHn, RtoC_mult. auto. Qed.
Lemma is_csum_real : forall a l, (forall k, Im (a k) = 0) -> is_csum a l -> l = RtoC (Re l).
Proof.
  intros a l H (A & B). destruct l as [u v]. unfold RtoC. cbn [Re fst Im snd] in *. f_equal.
  rewrite <- (is_series_unique _ _ B). rewrite (Series_ext _ (fun _ => 0 * 0)) by (intros; rewrite H; ring). rewrite Series_scal_l. ring.
Qed.
Lemma term_real : forall c x k, term c (RtoC x) k = RtoC ((- / 2 * (x * x)) ^ k * / (INR (fact k) * steps c k)).
Proof. intros. unfold term. rewrite <- !RtoC_mult, cpow_real, <- RtoC_mult. auto. Qed.
Lemma is_sph_j_real : forall n x v, is_sph_j n (RtoC x) v -> v = RtoC (Re v).
Proof. intros n x v H. refine (is_csum_real _ v _ H). intros k. rewrite term_real, cpow_real, <- !RtoC_mult. reflexivity. Qed.
Lemma is_sph_y_real : forall n x v, x <> 0 -> is_sph_y n (RtoC x) v -> v = RtoC (Re v).
Proof.
  intros n x v N H. refine (is_csum_real _ v _ H). intros k.
  rewrite term_real, cpow_real, <- RtoC_div, <- RtoC_opp, <- RtoC_mult by (apply pow_nonzero; auto). reflexivity.
Qed.
Lemma RtoC_Re_inj : forall z, z = RtoC (Re z) -> Im z = 0.
Proof. intros [a b] E. unfold RtoC in E. inversion E. auto. Qed.
(** from the complex to the real derivative *)
Lemma real_deriv : forall (f : C -> C) x l, smooth f (RtoC x) l -> derivable_pt_lim (fun t => Re (f (RtoC t))) x (Re l).
Proof.
  intros f x l H. replace (RtoC x) with (RtoC 0 + RtoC x * RtoC 1)%C in H by ring. destruct (path_deriv f (RtoC 0) (RtoC 1) x l H) as (A & _).
  rewrite Cmult_1_r in A. intros eps He. destruct (A eps He) as (d & Hd). exists d. intros h Nh Hh. specialize (Hd h Nh Hh). rewrite !Cplus_0_l, !Cmult_1_r in Hd. exact Hd.
Qed.

(* ------------------------------------------------ C65: Neumann functions *)
Theorem C65_y_complex : forall z cap nmax y dy, z <> RtoC 0 -> (2 <= cap)%nat -> (nmax <= cap)%nat ->
  exists y' dy', spherical_y_ydy_array C complexes cap nmax z y dy = Done (y', dy') /\
  forall i, (i < nmax)%nat -> is_sph_y (i + 1) z (y' i) /\
    exists f d, (forall x, x <> RtoC 0 -> is_sph_y (i + 1) x (f x)) /\ is_cderiv (fun x => x * f x)%C z d /\ dy' i = (d / z)%C.
Proof.
  intros z cap nmax y dy Nz H2 Hc. destruct (y_run z Nz cap nmax y dy H2 Hc) as (y' & dy' & E & A & _). exists y', dy'. split; auto.
  intros i Hi. destruct (A i ltac:(lia)) as (A1 & A2). rewrite A1. split; [apply Y_is|].
  exists (Y (i + 1)), (z * Y i z - RtoC (INR i + 1) * Y (i + 1) z)%C. split; [intros; apply Y_is|]. split.
  - apply smooth_deriv, zY_deriv; auto.
  - rewrite A2. field. auto.
Qed.
Print Assumptions C65_y_complex.
Theorem C65_y_real : forall x cap nmax y dy, x <> 0 -> (2 <= cap)%nat -> (nmax <= cap)%nat ->
  exists y' dy', spherical_y_ydy_array R reals cap nmax x y dy = Done (y', dy') /\
  forall i, (i < nmax)%nat -> is_sph_y (i + 1) (RtoC x) (RtoC (y' i)) /\
    exists f d, (forall t, t <> 0 -> is_sph_y (i + 1) (RtoC t) (RtoC (f t))) /\ derivable_pt_lim (fun t => t * f t) x d /\ dy' i = d / x.
Proof.
  intros x cap nmax y dy Nx H2 Hc. assert (Nz: RtoC x <> RtoC 0) by (apply RtoC_nz; auto).
  destruct (y_run (RtoC x) Nz cap nmax (fun i => RtoC (y i)) (fun i => RtoC (dy i)) H2 Hc) as (yc & dyc & E & A & _).
  pose proof (proj1 (C65_real_and_complex_agree x) cap nmax y dy) as S0. rewrite E in S0. destruct (spherical_y_ydy_array R reals cap nmax x y dy) as [[y' dy'] | |]; try contradiction.
  exists y', dy'. split; auto. intros i Hi. destruct (A i ltac:(lia)) as (A1 & A2). destruct (S0 i) as (B1 & B2).
  split; [rewrite <- B1, A1; apply Y_is|].
  assert (YR: forall n t, t <> 0 -> Y n (RtoC t) = RtoC (Re (Y n (RtoC t)))) by (intros n t Nt; apply (is_sph_y_real n t); auto; apply Y_is).
  pose proof (zY_deriv i (RtoC x) Nz) as D. apply real_deriv in D.
  exists (fun t => Re (Y (i + 1) (RtoC t))). eexists. split; [|split].
  - intros t Nt. rewrite <- YR by auto. apply Y_is.
  - intros eps He. destruct (D eps He) as (dl & Hd). exists dl. intros h Nh Hh. specialize (Hd h Nh Hh).
    assert (RE: forall t, Re (RtoC t * Y (i + 1) (RtoC t))%C = t * Re (Y (i + 1) (RtoC t))) by (intros t; unfold Re, Cmult, RtoC; cbn [fst snd]; ring).
    rewrite !RE in Hd. exact Hd.
  - rewrite A2 in B2. apply (f_equal Re) in B2. rewrite (YR i x), (YR (i + 1)%nat x) in * by auto.
    rewrite <- RtoC_inv, <- !RtoC_mult, <- !RtoC_minus in B2 by auto. rewrite <- !RtoC_mult, <- RtoC_minus. cbn [Re RtoC fst] in *. rewrite <- B2. field. auto.
Qed.
Print Assumptions C65_y_real.
(** the arrays must have at least two elements, even for nmax = 1 *)
Theorem C65_y_bounds : forall z cap nmax y dy, z <> RtoC 0 ->
  (spherical_y_ydy_array C complexes cap nmax z y dy = OutOfBounds <-> (cap < Nat.max 2 nmax)%nat).
Proof.
  intros z cap nmax y dy Nz. split.
  - intros E. destruct (Nat.le_gt_cases (Nat.max 2 nmax) cap) as [L | L]; auto.
    destruct (y_run z Nz cap nmax y dy ltac:(lia) ltac:(lia)) as (y' & dy' & E' & _). congruence.
  - intros H. apply y_short; auto. lia.
Qed.
Print Assumptions C65_y_bounds.
Theorem C65_one_element_refuted : ~ (forall z nmax y dy, z <> RtoC 0 -> (1 <= nmax)%nat -> exists a, spherical_y_ydy_array C complexes nmax nmax z y dy = Done a).
Proof.
  intros H. assert (N1: RtoC 1 <> RtoC 0) by (apply RtoC_nz; lra). destruct (H (RtoC 1) 1%nat (fun _ => RtoC 0) (fun _ => RtoC 0) N1 (le_n _)) as (a & E).
  rewrite (proj2 (C65_y_bounds _ 1 1 _ _ N1)) in E by (cbn; lia). discriminate.
Qed.
Print Assumptions C65_one_element_refuted.
(** y_1 and y_2 at pi/2: -2/pi and -12/pi^2 *)
Example C65_example : exists y dy, spherical_y_ydy_array R reals 2 2 (PI / 2) (fun _ => 0) (fun _ => 0) = Done (y, dy) /\ y 0%nat = - 2 / PI /\ y 1%nat = - 12 / PI ^ 2.
Proof.
  pose proof PI_RGT_0 as P. unfold spherical_y_ydy_array. cbn [iszero reals]. destruct (Req_EM_T (PI / 2) 0) as [E | _]; [lra|].
  eexists; eexists. split; [reflexivity|]. cbn [num add sub mul div neg ksin kcos reals]. rewrite sin_PI2, cos_PI2. unfold vupd. cbn [Nat.eqb]. split; field; lra.
Qed.

(* ------------------------------------------------ C66: Bessel functions of the first kind *)
Lemma j_done : forall z junk cap nmax j dj j' dj', z <> RtoC 0 -> spherical_j_jdj_array C complexes junk cap nmax z j dj = Done (j', dj') ->
  (nmax <= 800)%nat /\ (nmax <= cap)%nat /\ q z 800 0 <> RtoC 0 /\
  forall i, (i < nmax)%nat -> j' i = (J 0 z * q z 800 (i + 1) / q z 800 0)%C /\
       dj' i = (J 0 z * q z 800 i / q z 800 0 - RtoC (INR i + 1) * / z * (J 0 z * q z 800 (i + 1) / q z 800 0))%C.
Proof.
  intros z junk cap nmax j dj j' dj' Nz E. unfold spherical_j_jdj_array in E.
  assert (N1: (1 <= 800)%nat) by lia.
  destruct (Nat.le_gt_cases nmax 800) as [L | L].
  2:{ destruct (j_short z Nz 800 junk cap nmax j dj N1 (or_intror (or_intror L))); congruence. }
  destruct (Nat.le_gt_cases nmax cap) as [L2 | L2].
  2:{ destruct (j_short z Nz 800 junk cap nmax j dj N1 (or_intror (or_introl L2))); congruence. }
  destruct (Nat.le_gt_cases 1 cap) as [L3 | L3].
  2:{ destruct (j_short z Nz 800 junk cap nmax j dj N1 (or_introl L3)); congruence. }
  destruct (j_run z Nz 800 junk cap nmax j dj N1 L3 L2 L) as [(a & b & E' & Q0 & A & _) | (E' & _)]; [|congruence].
  rewrite E' in E. inversion E. subst a b. split; auto. split; auto. split; auto. intros i Hi. apply A. lia.
Qed.
Lemma fore_exists : forall z, exists p, p 0%nat = RtoC 0 /\ p 1%nat = RtoC 1 /\ forall n, (p n + p (n + 2)%nat = RtoC (2 * INR n + 3) * / z * p (n + 1)%nat)%C.
Proof. intros z. exists (fun n => fst (fore z n)). exact (fore_ok z). Qed.
Lemma is_sph_j_unique : forall n z v, is_sph_j n z v -> v = J n z.
Proof. intros n z v H. eapply is_csum_unique; [exact H | apply J_is]. Qed.

(** What the routine returns is the true function up to the effect of the assumption that the ratio of order 800 has
    its asymptotic value: [p] is the solution of the recurrence relation of the Bessel functions that starts from 0
    and 1, and the relative size of the error is the ratio j_801 p_n / p_801. *)
Theorem C66_truncation : forall z junk cap nmax j dj j' dj', z <> RtoC 0 ->
  spherical_j_jdj_array C complexes junk cap nmax z j dj = Done (j', dj') ->
  forall p, p 0%nat = RtoC 0 -> p 1%nat = RtoC 1 -> (forall n, (p n + p (n + 2)%nat = RtoC (2 * INR n + 3) * / z * p (n + 1)%nat)%C) ->
  p 801%nat <> RtoC 0 /\
  forall i, (i < nmax)%nat -> forall v0 v1 v801, is_sph_j i z v0 -> is_sph_j (i + 1) z v1 -> is_sph_j 801 z v801 ->
  let error n := (v801 * p n / p 801%nat)%C in
  j' i = (v1 - error (i + 1)%nat)%C /\ dj' i = (v0 - error i - RtoC (INR i + 1) / z * (v1 - error (i + 1)%nat))%C.
Proof.
  intros z junk cap nmax j dj j' dj' Nz E p P0 P1 Hp. destruct (j_done _ _ _ _ _ _ _ _ Nz E) as (L & _ & Q0 & A).
  destruct (truncation z Nz 800 p Q0 P0 P1 ltac:(intros; apply Hp)) as (PN & T). change (800 + 1)%nat with 801%nat in *. split; auto.
  intros i Hi v0 v1 v801 I0 I1 I8 error. apply is_sph_j_unique in I0. apply is_sph_j_unique in I1. apply is_sph_j_unique in I8. subst.
  destruct (A i Hi) as (A1 & A2). rewrite A1, A2, !T by lia. split; auto.
Qed.
Print Assumptions C66_truncation.

(** it does not divide by zero when the argument is not real or not larger than 1 *)
Theorem C66_no_division_by_zero : forall z junk cap nmax j dj, z <> RtoC 0 -> Im z <> 0 \/ Cmod z <= 1 ->
  (1 <= cap)%nat -> (nmax <= cap)%nat -> (nmax <= 800)%nat -> exists j' dj', spherical_j_jdj_array C complexes junk cap nmax z j dj = Done (j', dj').
Proof.
  intros z junk cap nmax j dj Nz H C1 C2 C3. assert (N1: (1 <= 800)%nat) by lia.
  destruct (j_run z Nz 800 junk cap nmax j dj N1 C1 C2 C3) as [(a & b & E' & _) | (_ & m & Hm & Qm)]; [eauto|].
  exfalso. revert Qm. destruct H as [H | H]; [apply q_nonreal | apply q_small]; auto; lia.
Qed.
Print Assumptions C66_no_division_by_zero.

(** error below 10^-1000 for |z| <= 20 up to order 400, unless j_0 (almost) vanishes *)
Theorem C66_accuracy : forall z junk cap nmax j dj j' dj', z <> RtoC 0 -> Cmod z <= 20 ->
  (exists v0, is_sph_j 0 z v0 /\ / 10 ^ 100 <= Cmod v0) -> (nmax <= 400)%nat ->
  spherical_j_jdj_array C complexes junk cap nmax z j dj = Done (j', dj') ->
  forall i v, (i < nmax)%nat -> is_sph_j (i + 1) z v -> Cmod (j' i - v)%C <= / 10 ^ 1000 /\
  exists f d, (forall x, is_sph_j (i + 1) x (f x)) /\ is_cderiv (fun x => x * f x)%C z d /\
    Cmod (dj' i - d / z)%C <= (1 + (INR i + 1) / Cmod z) * / 10 ^ 1000.
Proof.
  intros z junk cap nmax j dj j' dj' Nz Hz (v0 & I0 & S0) Hn E i v Hi Hv.
  apply is_sph_j_unique in I0. apply is_sph_j_unique in Hv. subst.
  destruct (fore_exists z) as (p & P0 & P1 & Hp).
  destruct (C66_truncation _ _ _ _ _ _ _ _ Nz E p P0 P1 Hp) as (PN & T).
  destruct (T i Hi _ _ _ (J_is i z) (J_is (i + 1) z) (J_is 801 z)) as (A1 & A2).
  pose proof (error_bound z Nz Hz S0 p P0 P1 ltac:(intros; apply Hp) PN) as B.
  assert (B1: Cmod (J 801 z * p (i + 1)%nat / p 801%nat)%C <= / 10 ^ 1000) by (apply B; lia).
  assert (B0: Cmod (J 801 z * p i / p 801%nat)%C <= / 10 ^ 1000).
  { destruct (Nat.eq_dec i 0) as [-> | N0]; [|apply B; lia].
    replace (J 801 z * p 0%nat / p 801%nat)%C with (RtoC 0) by (rewrite P0; unfold Cdiv; ring). rewrite Cmod_0. left. apply Rinv_0_lt_compat, pow_lt. lra. }
  cbv zeta in A1, A2. set (t := / 10 ^ 1000) in *. clearbody t. set (e1 := (J 801 z * p (i + 1)%nat / p 801%nat)%C) in *. set (e0 := (J 801 z * p i / p 801%nat)%C) in *.
  split; [rewrite A1; replace (J (i + 1) z - e1 - J (i + 1) z)%C with (- e1)%C by ring; rewrite Cmod_opp; auto|].
  exists (J (i + 1)), (z * J i z - RtoC (INR i + 1) * J (i + 1) z)%C. split; [intros; apply J_is|]. split; [apply smooth_deriv, zJ_deriv; auto|].
  rewrite A2. match goal with |- Cmod ?x <= _ => replace x with (- e0 + RtoC (INR i + 1) / z * e1)%C by (field; auto) end.
  eapply Rle_trans; [apply Cmod_triangle|]. rewrite Cmod_opp, Cmod_mult, Cmod_div, Cmod_R by auto. pose proof (pos_INR i). rewrite Rabs_right by lra.
  pose proof (proj1 (Cmod_gt_0 z) Nz). assert (0 < (INR i + 1) / Cmod z) by (apply Rdiv_lt_0_compat; lra). nra.
Qed.
Print Assumptions C66_accuracy.

(** relative error for |z| <= 1, all orders *)
Theorem C66_accuracy_small : forall z junk cap nmax j dj j' dj', z <> RtoC 0 -> Cmod z <= 1 ->
  spherical_j_jdj_array C complexes junk cap nmax z j dj = Done (j', dj') ->
  forall i v, (i < nmax)%nat -> is_sph_j (i + 1) z v ->
  Cmod (j' i - v)%C <= 7 * Cmod v * (Cmod z / (2 * INR (i + 1))) ^ (2 * (800 - i)).
Proof.
  intros z junk cap nmax j dj j' dj' Nz Hz E i v Hi Hv. apply is_sph_j_unique in Hv. subst.
  destruct (fore_exists z) as (p & P0 & P1 & Hp).
  destruct (C66_truncation _ _ _ _ _ _ _ _ Nz E p P0 P1 Hp) as (PN & T).
  destruct (T i Hi _ _ _ (J_is i z) (J_is (i + 1) z) (J_is 801 z)) as (A1 & _). cbv zeta in A1.
  destruct (j_done _ _ _ _ _ _ _ _ Nz E) as (L & _).
  rewrite A1. replace (J (i + 1) z - J 801 z * p (i + 1)%nat / p 801%nat - J (i + 1) z)%C with (- (J 801 z * p (i + 1)%nat / p 801%nat))%C by ring.
  rewrite Cmod_opp, Cmod_div, Cmod_mult by auto.
  pose proof (J_ratio z Hz (i + 1) (800 - i) ltac:(lia)) as U.
  assert (N1: (1 <= i + 1)%nat) by lia. assert (N2: (i + 1 + (800 - i) <= 800 + 1)%nat) by lia.
  pose proof (p_ratio z Nz Hz 800 p P0 P1 ltac:(intros; apply Hp) (i + 1) (800 - i) N1 N2) as V.
  replace (i + 1 + (800 - i))%nat with 801%nat in * by lia.
  set (k := (Cmod z / (2 * INR (i + 1))) ^ (800 - i)) in *.
  replace ((Cmod z / (2 * INR (i + 1))) ^ (2 * (800 - i))) with (k * k) by (unfold k; rewrite <- pow_add; f_equal; lia).
  pose proof (proj1 (Cmod_gt_0 _) PN) as PP.
  apply (Rmult_le_reg_r (Cmod (p 801%nat))); auto. unfold Rdiv. rewrite Rmult_assoc, Rinv_l, Rmult_1_r by lra.
  eapply Rle_trans; [apply Rmult_le_compat; [apply Cmod_ge_0 | apply Cmod_ge_0 | exact U | exact V]|]. right. ring.
Qed.
Print Assumptions C66_accuracy_small.
(** more than 800 orders: an access outside the array of ratios *)
Theorem C66_bounds : forall z junk cap nmax j dj, z <> RtoC 0 -> Im z <> 0 \/ Cmod z <= 1 ->
  (spherical_j_jdj_array C complexes junk cap nmax z j dj = OutOfBounds <-> (cap < Nat.max 1 nmax \/ 800 < nmax)%nat).
Proof.
  intros z junk cap nmax j dj Nz H. split.
  - intros E. destruct (Nat.le_gt_cases (Nat.max 1 nmax) cap) as [L | L]; auto. destruct (Nat.le_gt_cases nmax 800) as [L' | L']; auto.
    destruct (C66_no_division_by_zero z junk cap nmax j dj Nz H ltac:(lia) ltac:(lia) L') as (a & b & E'). congruence.
  - intros Hc. assert (N1: (1 <= 800)%nat) by lia. destruct (j_short z Nz 800 junk cap nmax j dj N1 ltac:(lia)) as [E | E]; auto.
    exfalso. unfold spherical_j_of in E. rewrite (proj2 (iszero_cf z) Nz) in E.
    destruct (ratios_run z Nz 800 junk N1) as [(rho & Er & _) | (_ & m & Hm & Qm)].
    + rewrite Er in E. destruct (cap <? 1)%nat; [discriminate E|].
      match type of E with for_ 1 nmax ?f ?s = DivZero => enough (X: (fun r => r <> DivZero) (for_ 1 nmax f s)) by (apply X; auto); apply (for_two (fun r (_ : unit) => r <> DivZero) 1 nmax f (fun _ u => u) s tt); [discriminate|] end.
      intros k s [] _ Hs. unfold j_step. destruct s as [[? ?] | |]; [|exact Hs|exact Hs]. destruct (_ && _)%bool; intros Y'; discriminate Y'.
    + revert Qm. destruct H as [H | H]; [apply q_nonreal | apply q_small]; auto; lia.
Qed.
Print Assumptions C66_bounds.

(** At a zero of the sine the recursion is normalised by j_0 = 0: whatever it returns is zero, at every order, although
    j_1 does not vanish there. *)
Lemma J1_sincos : forall z, z <> RtoC 0 -> J 1 z = ((csin z / z - ccos z) / z)%C.
Proof.
  intros z N. destruct (sincos z) as (E1 & E2). rewrite <- E1, <- E2. unfold J, Ss, Cs. cbn [cpow Nat.add oddfact INR].
  pose proof (G_contiguous 1 (arg z) odd1) as E. replace (1 + 2) with 3 in E by ring. replace (1 - 2) with (-1) in E by ring.
  replace ((2 * 1 + 1) * ((2 * 0 + 1) * 1)) with 3 by ring. replace (2 * 1 + 1) with 3 by ring.
  replace (G (-1) (arg z)) with (G 1 (arg z) + RtoC (2 / (1 * 3)) * arg z * G 3 (arg z))%C by (rewrite <- E; ring).
  replace (RtoC (2 / (1 * 3))) with (RtoC 2 * RtoC (/ 3))%C by (rewrite <- RtoC_mult; f_equal; field).
  replace (RtoC 2 * RtoC (/ 3) * arg z)%C with (- (z * z) * RtoC (/ 3))%C by (rewrite <- arg_mul; ring). field. auto.
Qed.
Lemma zero_of_sine : forall x N junk cap nmax j dj j' dj', x <> 0 -> sin x = 0 -> (1 <= N)%nat ->
  spherical_j_of C complexes N junk cap nmax (RtoC x) j dj = Done (j', dj') -> forall i, (i < nmax)%nat -> j' i = RtoC 0.
Proof.
  intros x N junk cap nmax j dj j' dj' Nx S0 HN E i Hi. assert (Nz: RtoC x <> RtoC 0) by (apply RtoC_nz; auto).
  assert (J00: J 0 (RtoC x) = RtoC 0) by (rewrite J0_sin, csin_real, S0 by auto; unfold Cdiv; ring).
  destruct (Nat.le_gt_cases nmax N) as [L | L].
  2:{ destruct (j_short _ Nz N junk cap nmax j dj HN (or_intror (or_intror L))) as [E' | E']; rewrite E' in E; discriminate E. }
  destruct (Nat.le_gt_cases nmax cap) as [L2 | L2].
  2:{ destruct (j_short _ Nz N junk cap nmax j dj HN (or_intror (or_introl L2))) as [E' | E']; rewrite E' in E; discriminate E. }
  destruct (j_run _ Nz N junk cap nmax j dj HN ltac:(lia) L2 L) as [(a & b & E' & Q0 & A & _) | (E' & _)]; rewrite E' in E; [|discriminate E].
  injection E as <- <-. destruct (A i ltac:(lia)) as (-> & _). rewrite J00. unfold Cdiv. ring.
Qed.
Theorem C66_zero_of_sine_refuted : forall k junk cap nmax j dj, (1 <= k)%nat ->
  let x := INR k * PI in
  (exists v, is_sph_j 1 (RtoC x) v /\ v <> RtoC 0) /\
  forall j' dj', spherical_j_jdj_array R reals junk cap nmax x j dj = Done (j', dj') -> forall i, (i < nmax)%nat -> j' i = 0.
Proof.
  intros k junk cap nmax j dj Hk x. assert (Pk: 1 <= INR k) by (apply (le_INR 1); auto). pose proof PI_RGT_0 as PP.
  assert (Nx: x <> 0) by (unfold x; nra). assert (S0: sin x = 0) by (unfold x; rewrite <- (Rplus_0_l (INR k * PI)); apply sin_eq_0_1; exists (Z.of_nat k); rewrite INR_IZR_INZ; ring).
  assert (Nz: RtoC x <> RtoC 0) by (apply RtoC_nz; auto). split.
  - exists (J 1 (RtoC x)). split; [apply J_is|]. rewrite J1_sincos, csin_real, ccos_real, S0 by auto. rewrite <- RtoC_div, <- RtoC_minus, <- RtoC_div by auto.
    apply RtoC_nz. pose proof (sin2_cos2 x) as T. unfold Rsqr in T. rewrite S0 in T. intro E. assert (cos x = 0); [|nra].
    apply (f_equal (Rmult (- x))) in E. replace (- x * ((0 / x - cos x) / x)) with (cos x) in E by (field; auto). lra.
  - intros j' dj' E i Hi. pose proof (proj2 (C65_real_and_complex_agree x) junk cap nmax j dj) as S1. rewrite E in S1.
    unfold spherical_j_jdj_array in S1. destruct (spherical_j_of C complexes 800 (fun i => RtoC (junk i)) cap nmax (RtoC x) (fun i => RtoC (j i)) (fun i => RtoC (dj i))) as [[jc djc] | |] eqn:EC; try contradiction S1.
    destruct (S1 i) as (B & _). rewrite (zero_of_sine x 800 _ _ _ _ _ _ _ Nx S0 ltac:(lia) EC i Hi) in B. injection B as B. auto.
Qed.
Print Assumptions C66_zero_of_sine_refuted.

(** real arguments *)
Theorem C66_accuracy_real : forall x junk cap nmax j dj j' dj', x <> 0 -> Rabs x <= 20 -> / 10 ^ 100 <= Rabs (sin x / x) -> (nmax <= 400)%nat ->
  spherical_j_jdj_array R reals junk cap nmax x j dj = Done (j', dj') ->
  forall i v, (i < nmax)%nat -> is_sph_j (i + 1) (RtoC x) (RtoC v) -> Rabs (j' i - v) <= / 10 ^ 1000.
Proof.
  intros x junk cap nmax j dj j' dj' Nx Hx S0 Hn E i v Hi Hv. assert (Nz: RtoC x <> RtoC 0) by (apply RtoC_nz; auto).
  pose proof (proj2 (C65_real_and_complex_agree x) junk cap nmax j dj) as S1. rewrite E in S1.
  unfold spherical_j_jdj_array in S1. destruct (spherical_j_of C complexes 800 (fun i => RtoC (junk i)) cap nmax (RtoC x) (fun i => RtoC (j i)) (fun i => RtoC (dj i))) as [[jc djc] | |] eqn:EC; try contradiction S1.
  destruct (S1 i) as (B & _).
  assert (HX: Cmod (RtoC x) <= 20) by (rewrite Cmod_R; exact Hx).
  assert (HS: exists v0, is_sph_j 0 (RtoC x) v0 /\ / 10 ^ 100 <= Cmod v0).
  { exists (J 0 (RtoC x)). split; [apply J_is|]. rewrite J0_sin, csin_real, <- RtoC_div, Cmod_R by auto. exact S0. }
  destruct (C66_accuracy (RtoC x) _ cap nmax _ _ jc djc Nz HX HS Hn EC i (RtoC v) Hi Hv) as (A & _).
  rewrite B, <- RtoC_minus, Cmod_R in A. exact A.
Qed.
Print Assumptions C66_accuracy_real.

(** the hypotheses are met: a real argument, pi / 6, where j_0 = 3 / pi, and arrays of 400 elements *)
Example C66_example : exists j dj, spherical_j_jdj_array R reals (fun _ => 0) 400 400 (PI / 6) (fun _ => 0) (fun _ => 0) = Done (j, dj) /\
  Rabs (PI / 6) <= 20 /\ / 10 ^ 100 <= Rabs (sin (PI / 6) / (PI / 6)) /\ Rabs (j 0%nat - (sin (PI / 6) / (PI / 6) - cos (PI / 6)) / (PI / 6)) <= / 10 ^ 1000.
Proof.
  pose proof PI_RGT_0 as PP. pose proof PI_4 as P4. set (x := PI / 6). assert (Nx: x <> 0) by (unfold x; lra). assert (Bx: 0 < x <= 1) by (unfold x; lra).
  assert (Nz: RtoC x <> RtoC 0) by (apply RtoC_nz; auto).
  assert (Hx: Rabs x <= 20) by (rewrite Rabs_right; lra).
  assert (S0: / 10 ^ 100 <= Rabs (sin x / x)).
  { unfold x. rewrite sin_PI6. replace (1 / 2 / (PI / 6)) with (3 / PI) by (field; lra).
    apply Rle_trans with (/ 2).
    - apply Rinv_le_contravar; [lra|]. apply Rle_trans with (10 ^ 1); [lra|]. apply Rle_pow; [lra | lia].
    - rewrite Rabs_right by (apply Rle_ge, Rdiv_le_0_compat; lra). apply Rmult_le_reg_r with PI; auto. replace (3 / PI * PI) with 3 by (field; lra). lra. }
  pose proof (proj2 (C65_real_and_complex_agree x) (fun _ => 0) 400%nat 400%nat (fun _ => 0) (fun _ => 0)) as S1.
  destruct (C66_no_division_by_zero (RtoC x) (fun _ => RtoC 0) 400 400 (fun _ => RtoC 0) (fun _ => RtoC 0) Nz) as (jc & djc & EC); try lia.
  { right. rewrite Cmod_R, Rabs_right; lra. }
  destruct (spherical_j_jdj_array R reals (fun _ => 0) 400 400 x (fun _ => 0) (fun _ => 0)) as [[j dj] | |] eqn:E; rewrite EC in S1; try contradiction S1.
  exists j, dj. split; [reflexivity|]. split; auto. split; auto.
  apply (C66_accuracy_real x _ 400 400 _ _ _ _ Nx Hx S0 (le_n _) E 0); [lia|].
  replace (RtoC ((sin x / x - cos x) / x)) with (J (0 + 1) (RtoC x)); [apply J_is|].
  cbn [Nat.add]. rewrite J1_sincos, csin_real, ccos_real by auto. rewrite <- RtoC_div, <- RtoC_minus, <- RtoC_div by auto. reflexivity.
Qed.

(** *** division by zero on the real axis: the first step of the backward recursion divides by 1599/x - x/1601 *)
Theorem C66_division_by_zero_refuted : forall junk cap nmax j dj, let x := sqrt (1599 * 1601) in
  1599 < x < 1601 /\ spherical_j_jdj_array R reals junk cap nmax x j dj = DivZero.
Proof.
  intros junk cap nmax j dj x. assert (X2: x * x = 1599 * 1601) by (apply sqrt_sqrt; lra). assert (X0: 0 <= x) by apply sqrt_pos. assert (B: 1599 < x < 1601) by nra. split; [exact B|].
  unfold spherical_j_jdj_array, spherical_j_of. cbn [iszero reals]. destruct (Req_EM_T x 0) as [E|_]; [lra|].
  assert (R: ratios R reals 800 x junk = DivZero); [|rewrite R; reflexivity].
  unfold ratios. set (rho0 := vupd junk (800 - 1)%nat (div reals x (num reals (2 * INR 800 + 1)%R))).
  pose (I := fun (k : nat) (s : out (nat -> R)) => (k = 1%nat /\ s = Done rho0) \/ ((1 < k)%nat /\ s = DivZero)).
  assert (Q: I 800%nat (for_ 1 800 (rho_step R reals 800 (div reals (num reals 1) x)) (Done rho0))).
  { apply (for_ind I); [lia | left; split; reflexivity |]. intros k s Hk [(-> & ->) | (L & ->)]; right; (split; [lia|]); [|reflexivity].
    unfold rho_step. replace (800 - 1)%nat with 799%nat by reflexivity. unfold rho0. replace (800 - 1)%nat with 799%nat by reflexivity. rewrite vupd_same. cbn [reals num mul sub div iszero].
    destruct (Req_EM_T _ 0) as [_|E]; [reflexivity|]. exfalso. apply E. rewrite !INR_IZR_INZ. change (Z.of_nat 799) with 799%Z. change (Z.of_nat 800) with 800%Z.
    replace (2 * 799 + 1) with 1599 by ring. replace (2 * 800 + 1) with 1601 by ring. apply Rmult_eq_reg_r with (1601 * x); [|nra]. field_simplify; nra. }
  destruct Q as [(E & _) | (_ & E)]; [discriminate | exact E].
Qed.
Print Assumptions C66_division_by_zero_refuted.

(** *** and already between 3 and 10/3 (next to the first zero of the sine): there is an argument at which every call fails, whatever is asked for *)
Fixpoint fore (t : R) (n : nat) : R := match n with O => 0 | S k => match k with O => 1 | S m => (2 * INR m + 3) * t * fore t k - fore t m end end.
Lemma fore_SS : forall t n, fore t (S (S n)) = (2 * INR n + 3) * t * fore t (S n) - fore t n.
Proof. reflexivity. Qed.
Lemma fore_continuous : forall n, continuity (fun t => fore t n) /\ continuity (fun t => fore t (S n)).
Proof.
  induction n as [|n (A & B)].
  - split; [apply (continuity_const (fun _ => 0)) | apply (continuity_const (fun _ => 1))]; intros a b; reflexivity.
  - split; [exact B|].
    apply (continuity_minus (fun t => (2 * INR n + 3) * t * fore t (S n)) (fun t => fore t n)); [|exact A].
    apply (continuity_mult (fun t => (2 * INR n + 3) * t) (fun t => fore t (S n))); [|exact B].
    apply (continuity_mult (fun _ => 2 * INR n + 3) (fun t => t)); [apply continuity_const; intros a b; reflexivity | apply derivable_continuous, derivable_id].
Qed.
Lemma fore_grows : forall s t n, 3 / 10 <= t -> (2 <= n)%nat -> (s = 1 \/ s = -1) -> 0 < s * fore t n <= s * fore t (S n) -> forall m, (n <= m)%nat -> 0 < s * fore t m <= s * fore t (S m).
Proof.
  intros s t n Ht Hn Hs H m. induction m as [|m IH]; intros L; [lia|]. destruct (Nat.eq_dec n (S m)) as [<-|Ne]; [exact H|]. specialize (IH ltac:(lia)).
  rewrite fore_SS. assert (K : 2 <= (2 * INR m + 3) * t). { assert (2 <= INR m) by (apply (le_INR 2); lia). nra. }
  set (a := fore t m) in *. set (b := fore t (S m)) in *. split; [lra|]. replace (s * ((2 * INR m + 3) * t * b - a)) with ((2 * INR m + 3) * t * (s * b) - s * a) by ring. nra.
Qed.
Lemma fore_complex : forall x, x <> 0 -> let p n := RtoC (fore (/ x) n) in p 0%nat = RtoC 0 /\ p 1%nat = RtoC 1 /\ (forall n, (p n + p (n + 2)%nat = RtoC (2 * INR n + 3) * / RtoC x * p (n + 1)%nat)%C).
Proof.
  intros x Nx p. split; [reflexivity|]. split; [reflexivity|]. intros n. unfold p. replace (n + 2)%nat with (S (S n)) by lia. replace (n + 1)%nat with (S n) by lia. rewrite fore_SS, <- RtoC_inv by exact Nx.
  rewrite <- !RtoC_mult, <- RtoC_plus. f_equal. ring.
Qed.
Theorem C66_division_by_zero_near_pi_refuted : exists x, 3 < x < 10 / 3 /\
  forall junk cap nmax j dj, (1 <= cap)%nat -> (nmax <= cap)%nat -> (nmax <= 800)%nat -> spherical_j_jdj_array R reals junk cap nmax x j dj = DivZero.
Proof.
  assert (S1: fore (3 / 10) 801 < 0).
  { destruct (fore_grows (-1) (3 / 10) 4 ltac:(lra) ltac:(lia) ltac:(right; reflexivity)) with (m := 801%nat) as (A & _); [cbn; lra | lia | lra]. }
  assert (S2: 0 < fore (/ 3) 801).
  { destruct (fore_grows 1 (/ 3) 4 ltac:(lra) ltac:(lia) ltac:(left; reflexivity)) with (m := 801%nat) as (A & _); [cbn; lra | lia | lra]. }
  destruct (IVT (fun t => fore t 801) (3 / 10) (/ 3) (proj1 (fore_continuous 801)) ltac:(lra) S1 S2) as (t & Ht & Et).
  assert (Ht': 3 / 10 < t < / 3). { destruct Ht as (A & B). split; [destruct A as [A|A]; [exact A | exfalso; rewrite <- A in Et; rewrite Et in S1; lra] | destruct B as [B|B]; [exact B | exfalso; rewrite B in Et; rewrite Et in S2; lra]]. }
  exists (/ t). assert (Bx: 3 < / t < 10 / 3).
  { split; [rewrite <- (Rinv_inv 3) | replace (10 / 3) with (/ (3 / 10)) by field]; apply Rinv_lt_contravar; nra. }
  split; [exact Bx|]. intros junk cap nmax j dj C1 C2 C3. assert (Nx: / t <> 0) by lra. assert (Nz: RtoC (/ t) <> RtoC 0) by (apply RtoC_nz; exact Nx).
  pose proof (proj2 (C65_real_and_complex_agree (/ t)) junk cap nmax j dj) as S.
  destruct (fore_complex (/ t) Nx) as (P0 & P1 & Hp). cbv zeta in P0, P1, Hp. rewrite Rinv_inv in P0, P1, Hp.
  destruct (spherical_j_jdj_array C complexes (fun i => RtoC (junk i)) cap nmax (RtoC (/ t)) (fun i => RtoC (j i)) (fun i => RtoC (dj i))) as [[jc djc]| |] eqn:EC.
  - exfalso. destruct (C66_truncation _ _ _ _ _ _ _ _ Nz EC (fun n => RtoC (fore t n)) P0 P1 Hp) as (N & _). apply N. cbv beta in Et. rewrite Et. reflexivity.
  - unfold spherical_j_jdj_array in *. destruct (spherical_j_of R reals 800 junk cap nmax (/ t) j dj); [destruct a; contradiction S | reflexivity | contradiction S].
  - exfalso. destruct (j_run _ Nz 800 (fun i => RtoC (junk i)) cap nmax (fun i => RtoC (j i)) (fun i => RtoC (dj i)) ltac:(lia) C1 C2 C3) as [(a & b & E' & _) | (E' & _)]; unfold spherical_j_jdj_array in EC; congruence.
Qed.
Print Assumptions C66_division_by_zero_near_pi_refuted.
