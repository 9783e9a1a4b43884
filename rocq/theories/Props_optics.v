(** C30 (scattering matrices), C34 (refractive index), C51 (amplitude matrix as a full
    spherical wave sum), C52 (extinction and absorption coefficients) *)
From Coq Require Import Reals Lra Lia List Psatz ZArith.
From Coquelicot Require Import Complex.
From Verif Require Import Optics.
Import ListNotations.
Local Open Scope C_scope.

(** ---- specification ---- *)
(** Stokes vector (I, Q, U, V) of a field with components Et, Ep *)
Definition stokes (Et Ep : C) (i : nat) : R :=
  match i with
  | O => Re (Et * Cconj Et + Ep * Cconj Ep)
  | S O => Re (Et * Cconj Et - Ep * Cconj Ep)
  | S (S O) => (- 2 * Re (Et * Cconj Ep)%C)%R
  | _ => (2 * Im (Et * Cconj Ep)%C)%R
  end.
Definition field_t (S : amp) (Et Ep : C) : C := s0 S * Et + s1 S * Ep.
Definition field_p (S : amp) (Et Ep : C) : C := s2 S * Et + s3 S * Ep.
Definition act (Z : nat -> nat -> R) (v : nat -> R) (i : nat) : R := (Z i 0%nat * v 0%nat + Z i 1%nat * v 1%nat + Z i 2%nat * v 2%nat + Z i 3%nat * v 3%nat)%R.
(** squared degree of polarisation defect: >= 0 for a physical Stokes vector, 0 for fully polarised light *)
Definition defect (v : nat -> R) : R := (v 0%nat * v 0%nat - v 1%nat * v 1%nat - v 2%nat * v 2%nat - v 3%nat * v 3%nat)%R.
Definition physical (v : nat -> R) : Prop := (0 <= v 0%nat /\ 0 <= defect v)%R.

Ltac comp := repeat match goal with z : C |- _ => destruct z as (?, ?) | a : amp |- _ => destruct a as (?, ?, ?, ?) end.

Theorem C30_maps_stokes_vectors : forall S Et Ep i, (i < 4)%nat ->
  stokes (field_t S Et Ep) (field_p S Et Ep) i = act (scattering S) (stokes Et Ep) i.
Proof.
  intros S Et Ep i H. destruct S as (a, b, c, d). comp. destruct i as [|[|[|[|i]]]]; [| | | |lia]; cbv [stokes act scattering field_t field_p s0 s1 s2 s3 Re Im fst snd Cmult Cplus Cminus Copp Cconj RtoC Ci]; field.
Qed.
Print Assumptions C30_maps_stokes_vectors.
Definition det (S : amp) : C := s0 S * s3 S - s1 S * s2 S.
Theorem C30_polarisation_defect : forall S v, defect (act (scattering S) v) = (Re (det S * Cconj (det S))%C * defect v)%R.
Proof.
  intros S v. destruct S as (a, b, c, d). comp. unfold defect, act, det. generalize (v 0%nat) (v 1%nat) (v 2%nat) (v 3%nat). intros w0 w1 w2 w3.
  cbv [scattering s0 s1 s2 s3 Re Im fst snd Cmult Cplus Cminus Copp Cconj RtoC Ci]. field.
Qed.
Print Assumptions C30_polarisation_defect.
Lemma cauchy3 : forall a b c x y z : R, ((a * x + b * y + c * z) * (a * x + b * y + c * z) <= (a * a + b * b + c * c) * (x * x + y * y + z * z))%R.
Proof. intros. pose proof (Rle_0_sqr (a * y - b * x)). pose proof (Rle_0_sqr (a * z - c * x)). pose proof (Rle_0_sqr (b * z - c * y)). unfold Rsqr in *. nra. Qed.
Theorem C30_physical_light_stays_physical : forall S v, physical v -> physical (act (scattering S) v).
Proof.
  intros S v (P1 & P2). split.
  - assert (R0: (0 <= scattering S 0 0)%R).
    { destruct S as (a, b, c, d). comp. cbv [scattering s0 s1 s2 s3 Re Im fst snd Cmult Cplus Cminus Copp Cconj RtoC Ci]. nra. }
    assert (RN: (scattering S 0 1 * scattering S 0 1 + scattering S 0 2 * scattering S 0 2 + scattering S 0 3 * scattering S 0 3 <= scattering S 0 0 * scattering S 0 0)%R).
    { assert (E: (scattering S 0 0 * scattering S 0 0 - (scattering S 0 1 * scattering S 0 1 + scattering S 0 2 * scattering S 0 2 + scattering S 0 3 * scattering S 0 3) = Re (det S * Cconj (det S))%C)%R).
      { destruct S as (a, b, c, d). comp. cbv [det scattering s0 s1 s2 s3 Re Im fst snd Cmult Cplus Cminus Copp Cconj RtoC Ci]. field. }
      assert (0 <= Re (det S * Cconj (det S))%C)%R by (destruct (det S); cbv [Re fst Cmult Cconj snd]; nra). lra. }
    unfold act. revert P1 P2 R0 RN. unfold defect. generalize (v 0%nat) (v 1%nat) (v 2%nat) (v 3%nat) (scattering S 0 0) (scattering S 0 1) (scattering S 0 2) (scattering S 0 3).
    intros v0 v1 v2 v3 a b c d P1 P2 R0 RN. pose proof (cauchy3 b c d v1 v2 v3) as CS.
    assert (Q: ((b * v1 + c * v2 + d * v3) * (b * v1 + c * v2 + d * v3) <= (a * v0) * (a * v0))%R).
    { eapply Rle_trans; [exact CS|]. replace ((a * v0) * (a * v0))%R with ((a * a) * (v0 * v0))%R by ring. apply Rmult_le_compat; nra. }
    assert (0 <= a * v0)%R by nra. assert (- (a * v0) <= b * v1 + c * v2 + d * v3)%R by nra. lra.
  - rewrite C30_polarisation_defect. apply Rmult_le_pos; auto. destruct (det S); cbv [Re fst Cmult Cconj snd]; nra.
Qed.
Print Assumptions C30_physical_light_stays_physical.
Theorem C30_fully_polarised : forall S Et Ep, physical (stokes Et Ep) /\ defect (stokes Et Ep) = 0%R /\ defect (act (scattering S) (stokes Et Ep)) = 0%R.
Proof.
  intros S Et Ep. assert (D: defect (stokes Et Ep) = 0%R) by (comp; cbv [defect stokes Re Im fst snd Cmult Cplus Cminus Copp Cconj]; ring).
  split; [|split; auto].
  - split; [|lra]. comp. cbv [stokes Re Im fst snd Cmult Cplus Cminus Copp Cconj]. nra.
  - rewrite C30_polarisation_defect, D. ring.
Qed.
Print Assumptions C30_fully_polarised.
(** no other matrix has this property *)
Theorem C30_unique : forall S Z, (forall Et Ep i, (i < 4)%nat -> stokes (field_t S Et Ep) (field_p S Et Ep) i = act Z (stokes Et Ep) i) ->
  forall i j, (i < 4)%nat -> (j < 4)%nat -> Z i j = scattering S i j.
Proof.
  intros S Z H i j Hi Hj.
  assert (G: forall Et Ep, act Z (stokes Et Ep) i = act (scattering S) (stokes Et Ep) i) by (intros; rewrite <- H, <- C30_maps_stokes_vectors; auto).
  pose proof (G (RtoC 1) (RtoC 0)) as G1. pose proof (G (RtoC 0) (RtoC 1)) as G2. pose proof (G (RtoC 1) (RtoC 1)) as G3. pose proof (G (RtoC 1) Ci) as G4.
  unfold act in *. cbv [stokes Re Im fst snd Cmult Cplus Cminus Copp Cconj RtoC Ci] in *.
  destruct j as [|[|[|[|j]]]]; [| | | |lia]; lra.
Qed.
Print Assumptions C30_unique.
Example C30_example : scattering (mkAmp (1, 2) (3, 4) (5, 6) (7, 8))%R 0 0 = 102%R /\ scattering (mkAmp (1, 2) (3, 4) (5, 6) (7, 8))%R 2 3 = 4%R.
Proof. split; cbv [scattering s0 s1 s2 s3 Re Im fst snd Cmult Cplus Cminus Copp Cconj RtoC Ci]; lra. Qed.

(** C34 *)
Theorem C34_square_root : forall eps, (0 <= Im eps)%R ->
  eps_to_mr eps * eps_to_mr eps = eps /\ (0 <= Re (eps_to_mr eps))%R /\ (0 <= Im (eps_to_mr eps))%R.
Proof.
  intros (x, y) H. cbn [Im snd] in H. unfold eps_to_mr. cbn [Re Im fst snd]. set (r := sqrt (x * x + y * y)).
  assert (R0: (0 <= r)%R) by apply sqrt_pos. assert (R2: (r * r = x * x + y * y)%R) by (apply sqrt_sqrt; nra).
  assert (RX: (Rabs x <= r)%R). { rewrite <- sqrt_Rsqr_abs. apply sqrt_le_1; unfold Rsqr; nra. }
  assert (A: (0 <= 5 / 10 * (r + x))%R) by (unfold Rabs in RX; destruct (Rcase_abs x); lra).
  assert (B: (0 <= 5 / 10 * (r - x))%R) by (unfold Rabs in RX; destruct (Rcase_abs x); lra).
  split; [|split; apply sqrt_pos]. unfold Cmult. cbn [fst snd]. rewrite !sqrt_sqrt by auto. rewrite (Rmult_comm (sqrt (5 / 10 * (r - x)))), <- sqrt_mult by auto.
  replace (5 / 10 * (r + x) * (5 / 10 * (r - x)))%R with ((y / 2) * (y / 2))%R by nra. rewrite sqrt_square by lra. f_equal; lra.
Qed.
Print Assumptions C34_square_root.
(** it is the only one *)
Theorem C34_unique : forall eps m, (0 < Im eps)%R -> m * m = eps -> (0 <= Re m)%R -> m = eps_to_mr eps.
Proof.
  intros eps m H E P. destruct (C34_square_root eps ltac:(lra)) as (E2 & P1 & P2). destruct (eps_to_mr eps) as (a, b), m as (c, d).
  subst eps. unfold Cmult in *. cbn [Re Im fst snd] in *. injection E2 as X Y.
  assert (K: forall u w, (0 <= u)%R -> (0 < u * w + w * u)%R -> (0 < u /\ 0 < w)%R).
  { intros u w U V. assert (u <> 0)%R by (intros Z; rewrite Z in V; lra). split; nra. }
  destruct (K c d P H). destruct (K a b P1 ltac:(lra)).
  assert (Q: (a * a + b * b = c * c + d * d)%R).
  { assert ((a * a + b * b) * (a * a + b * b) = (c * c + d * d) * (c * c + d * d))%R.
    { replace ((a * a + b * b) * (a * a + b * b))%R with ((a * a - b * b) * (a * a - b * b) + (a * b + b * a) * (a * b + b * a))%R by ring. rewrite X, Y. ring. }
    apply Rsqr_inj; unfold Rsqr; nra. }
  assert (a * a = c * c)%R by lra. assert (b * b = d * d)%R by lra. f_equal; apply Rsqr_inj; unfold Rsqr; lra.
Qed.
Print Assumptions C34_unique.
(** with a negative imaginary part the result belongs to the complex conjugate *)
Theorem C34_negative_imaginary_part_refuted : forall eps, (Im eps < 0)%R -> eps_to_mr eps * eps_to_mr eps = Cconj eps /\ eps_to_mr eps * eps_to_mr eps <> eps.
Proof.
  intros (x, y) H. cbn [Im snd] in H. assert (E: eps_to_mr (x, y) = eps_to_mr (x, - y)%R) by (unfold eps_to_mr; cbn [Re Im fst snd]; replace (- y * - y)%R with (y * y)%R by ring; reflexivity).
  destruct (C34_square_root (x, - y)%R ltac:(cbn [Im snd]; lra)) as (Q & _ & _). rewrite E, Q. split; [reflexivity|]. intros C. injection C as C. lra.
Qed.
Print Assumptions C34_negative_imaginary_part_refuted.
Example C34_example : eps_to_mr (3, 4)%R = (2, 1)%R.
Proof. symmetry. apply C34_unique; [cbn; lra| |cbn; lra]. unfold Cmult. cbn. f_equal; ring. Qed.

(** C51: the amplitude matrix.  The textbook sum runs over all azimuthal orders m = -nmax..nmax;
    [Tz i j m n n'], [dz_in m n'], [dz_out m n] (Wigner functions over sin theta), [tz_in], [tz_out]
    (their theta derivatives) are the full tables. *)
Definition csum {X} (l : list X) (f : X -> C) : C := fold_right (fun x a => f x + a) (RtoC 0) l.
Definition orders (nmax : nat) : list Z := map (fun k => (Z.of_nat k - Z.of_nat nmax)%Z) (seq 0 (2 * nmax + 1)).
Definition degrees (nmax : nat) (m : Z) : list nat := seq (Nat.max (Z.abs_nat m) 1) (nmax + 1 - Nat.max (Z.abs_nat m) 1).
Definition expi (m : Z) (phi : R) : C := (cos (IZR m * phi), sin (IZR m * phi))%R.
Section Full.
Variables (Tz : nat -> nat -> Z -> nat -> nat -> C) (dz_in tz_in dz_out tz_out : Z -> nat -> R) (c : nat -> nat -> C).
Definition pin m n := RtoC (IZR m * dz_in m n)%R.
Definition tin m n := RtoC (tz_in m n).
Definition pout m n := RtoC (IZR m * dz_out m n)%R.
Definition tout m n := RtoC (tz_out m n).
Definition full_sum (nmax : nat) (phi : R) (f : Z -> nat -> nat -> C) : C :=
  csum (orders nmax) (fun m => csum (degrees nmax m) (fun n' => csum (degrees nmax m) (fun n => c n' n * expi m phi * f m n' n))).
Definition full_amplitude (nmax : nat) (k phi : R) : amp := mkAmp
  (RtoC (1 / k)%R * full_sum nmax phi (fun m n' n => Tz 0 0 m n n' * pout m n * pin m n' + Tz 1 0 m n n' * tout m n * pin m n' + Tz 0 1 m n n' * pout m n * tin m n' + Tz 1 1 m n n' * tout m n * tin m n'))
  (RtoC (1 / k)%R * full_sum nmax phi (fun m n' n => (Tz 0 0 m n n' * pout m n * tin m n' + Tz 1 0 m n n' * tout m n * tin m n' + Tz 0 1 m n n' * pout m n * pin m n' + Tz 1 1 m n n' * tout m n * pin m n') / Ci))
  (RtoC (1 / k)%R * full_sum nmax phi (fun m n' n => (Tz 0 0 m n n' * tout m n * pin m n' + Tz 1 0 m n n' * pout m n * pin m n' + Tz 0 1 m n n' * tout m n * tin m n' + Tz 1 1 m n n' * pout m n * tin m n') * Ci))
  (RtoC (1 / k)%R * full_sum nmax phi (fun m n' n => Tz 0 0 m n n' * tout m n * tin m n' + Tz 1 0 m n n' * pout m n * tin m n' + Tz 0 1 m n n' * tout m n * pin m n' + Tz 1 1 m n n' * pout m n * pin m n')).
End Full.
(** symmetries of the T-matrix of a rotationally symmetric particle and of the Wigner functions *)
Definition symmetric_T (Tz : nat -> nat -> Z -> nat -> nat -> C) : Prop := forall m n n',
  Tz 0%nat 0%nat (- m)%Z n n' = Tz 0%nat 0%nat m n n' /\ Tz 1%nat 1%nat (- m)%Z n n' = Tz 1%nat 1%nat m n n' /\
  Tz 0%nat 1%nat (- m)%Z n n' = - Tz 0%nat 1%nat m n n' /\ Tz 1%nat 0%nat (- m)%Z n n' = - Tz 1%nat 0%nat m n n'.
Definition symmetric_d (d : Z -> nat -> R) : Prop := forall m n, d (- m)%Z n = ((-1) ^ (Z.abs_nat m) * d m n)%R.
(** what the code is given: the entries for m >= 0 *)
Definition half_tables Tz dz_in tz_in dz_out tz_out c : angular :=
  mkAng (fun i j m n n' => Tz i j (Z.of_nat m) n n') (fun m n => dz_in (Z.of_nat m) n) (fun m n => tz_in (Z.of_nat m) n)
        (fun m n => dz_out (Z.of_nat m) n) (fun m n => tz_out (Z.of_nat m) n) c.

Lemma csum_app : forall {X} (l1 l2 : list X) f, csum (l1 ++ l2) f = csum l1 f + csum l2 f.
Proof. induction l1; intros; unfold csum; cbn [fold_right app]; [rewrite Cplus_0_l; reflexivity|]. unfold csum in *. rewrite IHl1. ring. Qed.
Lemma csum_ext : forall {X} (l : list X) f g, (forall x, In x l -> f x = g x) -> csum l f = csum l g.
Proof. induction l; intros f g H; cbn [csum fold_right]; auto. unfold csum in *. rewrite (H a), (IHl f g); auto; intros; try apply H; cbn; auto. Qed.
Lemma csum_add : forall {X} (l : list X) f g, csum l (fun x => f x + g x) = csum l f + csum l g.
Proof. induction l; intros; cbn [csum fold_right]; [ring|]. unfold csum in *. rewrite IHl. ring. Qed.
Lemma csum_zero : forall {X} (l : list X) f, (forall x, In x l -> f x = RtoC 0) -> csum l f = RtoC 0.
Proof. induction l; intros f H; cbn [csum fold_right]; auto. unfold csum in *. rewrite (H a (or_introl eq_refl)), (IHl f (fun x i => H x (or_intror i))). ring. Qed.
Lemma csum_map : forall {X Y} (l : list X) (h : X -> Y) f, csum (map h l) f = csum l (fun x => f (h x)).
Proof. induction l; intros; cbn [csum fold_right map]; auto. unfold csum in *. rewrite IHl. reflexivity. Qed.
Lemma csum_mul : forall {X} (l : list X) a f, csum l (fun x => a * f x) = a * csum l f.
Proof. induction l; intros; cbn [csum fold_right]; [ring|]. unfold csum in *. rewrite IHl. ring. Qed.
Lemma csum_orders : forall nmax f, csum (orders nmax) f = f 0%Z + csum (seq 1 nmax) (fun m => f (Z.of_nat m) + f (- Z.of_nat m)%Z).
Proof.
  intros nmax f. unfold orders. rewrite csum_map. replace (2 * nmax + 1)%nat with (nmax + (1 + nmax))%nat by lia. rewrite seq_app, csum_app.
  rewrite (seq_app 1 nmax), csum_app. rewrite csum_add.
  assert (A: csum (seq 0 nmax) (fun k => f (Z.of_nat k - Z.of_nat nmax)%Z) = csum (seq 1 nmax) (fun m => f (- Z.of_nat m)%Z)).
  { assert (G: forall d n, (d <= n)%nat -> csum (seq (n - d) d) (fun k => f (Z.of_nat k - Z.of_nat n)%Z) = csum (seq 1 d) (fun m => f (- Z.of_nat m)%Z)).
    { induction d; intros n H; auto. rewrite (seq_S d 1), csum_app, <- (IHd n) by lia. cbn [seq csum fold_right].
      replace (S (n - S d)) with (n - d)%nat by lia. replace (Z.of_nat (n - S d) - Z.of_nat n)%Z with (- Z.of_nat (1 + d))%Z by lia. unfold csum. ring. }
    rewrite <- (G nmax nmax) by lia. rewrite Nat.sub_diag. reflexivity. }
  assert (B: csum (seq (0 + nmax + 1) nmax) (fun k => f (Z.of_nat k - Z.of_nat nmax)%Z) = csum (seq 1 nmax) (fun m => f (Z.of_nat m))).
  { assert (G: forall d s, csum (seq (nmax + s) d) (fun k => f (Z.of_nat k - Z.of_nat nmax)%Z) = csum (seq s d) (fun m => f (Z.of_nat m))).
    { induction d; intros s; auto. cbn [seq csum fold_right]. specialize (IHd (S s)). replace (nmax + S s)%nat with (S (nmax + s)) in IHd by lia. unfold csum in *. rewrite IHd.
      replace (Z.of_nat (nmax + s) - Z.of_nat nmax)%Z with (Z.of_nat s) by lia. reflexivity. }
    replace (0 + nmax + 1)%nat with (nmax + 1)%nat by lia. apply G. }
  rewrite A, B. cbn [seq csum fold_right]. replace (Z.of_nat (0 + nmax) - Z.of_nat nmax)%Z with 0%Z by lia. ring.
Qed.

Definition aadd (a b : amp) : amp := mkAmp (s0 a + s0 b) (s1 a + s1 b) (s2 a + s2 b) (s3 a + s3 b).
Definition azero : amp := mkAmp (RtoC 0) (RtoC 0) (RtoC 0) (RtoC 0).
Definition asum {X} (l : list X) (f : X -> amp) : amp := mkAmp (csum l (fun x => s0 (f x))) (csum l (fun x => s1 (f x))) (csum l (fun x => s2 (f x))) (csum l (fun x => s3 (f x))).
Lemma amp_eq : forall a b, s0 a = s0 b -> s1 a = s1 b -> s2 a = s2 b -> s3 a = s3 b -> a = b.
Proof. intros (?, ?, ?, ?) (?, ?, ?, ?). cbn. intros; subst; auto. Qed.
Lemma amp_term_add : forall g m nn n fc fs A, amp_term g m nn n fc fs A = aadd A (amp_term g m nn n fc fs azero).
Proof. intros. unfold amp_term, aadd, azero. destruct (Nat.eqb m 0); apply amp_eq; cbn [s0 s1 s2 s3]; ring. Qed.
Lemma for_amp : forall (body : nat -> amp -> amp) t lo hi A, (forall n A, body n A = aadd A (t n)) ->
  for_C lo hi body A = aadd A (asum (seq lo (hi - lo)) t).
Proof.
  intros body t lo hi A H. unfold for_C. revert A. generalize (seq lo (hi - lo)). induction l as [|x l IH]; intros A; cbn [fold_left].
  - unfold asum, aadd, csum. apply amp_eq; cbn [s0 s1 s2 s3 fold_right]; rewrite Cplus_0_r; reflexivity.
  - rewrite IH, H. unfold asum, aadd, csum. apply amp_eq; cbn [s0 s1 s2 s3 fold_right]; rewrite Cplus_assoc; reflexivity.
Qed.
Lemma expi_S : forall m phi, expi (Z.of_nat (S m)) phi = expi (Z.of_nat m) phi * (cos phi, sin phi)%R.
Proof.
  intros m phi. unfold expi. rewrite Nat2Z.inj_succ, succ_IZR, Rmult_plus_distr_r, Rmult_1_l, cos_plus, sin_plus. unfold Cmult. cbn [fst snd]. f_equal; ring.
Qed.
Definition mterm (g : angular) (nmax : nat) (phi : R) (m : nat) : amp :=
  let l := seq (Nat.max m 1) (nmax + 1 - Nat.max m 1) in
  asum l (fun nn => asum l (fun n => amp_term g m nn n (2 * Re (expi (Z.of_nat m) phi))%R (2 * Im (expi (Z.of_nat m) phi))%R azero)).
Lemma amplitude_sum : forall g nmax k phi, let W := asum (seq 0 (nmax + 1)) (mterm g nmax phi) in let kinv := RtoC (1 / k)%R in
  amplitude g nmax k (cos phi) (sin phi) = mkAmp (s0 W * kinv) (s1 W * kinv) (s2 W * kinv) (s3 W * kinv).
Proof.
  intros g nmax k phi. cbv zeta. unfold amplitude. unfold for_C at 1. rewrite Nat.sub_0_r.
  assert (G: forall d s A, fold_left (fun s m => (fun m '(W, e) => (for_C (Nat.max m 1) (nmax + 1) (fun nn W => for_C (Nat.max m 1) (nmax + 1) (fun n W => amp_term g m nn n (2 * Re e)%R (2 * Im e)%R W) W) W, e * (cos phi, sin phi)%R)) m s) (seq s d) (A, expi (Z.of_nat s) phi)
    = (aadd A (asum (seq s d) (mterm g nmax phi)), expi (Z.of_nat (s + d)) phi)).
  { induction d; intros s A; cbn [seq fold_left].
    - rewrite Nat.add_0_r. f_equal. unfold asum, aadd, csum. apply amp_eq; cbn [s0 s1 s2 s3 fold_right]; rewrite Cplus_0_r; reflexivity.
    - rewrite <- expi_S. rewrite (for_amp _ (fun nn => asum (seq (Nat.max s 1) (nmax + 1 - Nat.max s 1)) (fun n => amp_term g s nn n (2 * Re (expi (Z.of_nat s) phi))%R (2 * Im (expi (Z.of_nat s) phi))%R azero))).
      2:{ intros nn B. apply for_amp. intros. apply amp_term_add. }
      rewrite IHd. replace (S s + d)%nat with (s + S d)%nat by lia. f_equal. unfold asum, aadd, mterm, csum. apply amp_eq; cbn [s0 s1 s2 s3 fold_right]; rewrite Cplus_assoc; reflexivity. }
  specialize (G (nmax + 1)%nat 0%nat azero). replace (expi (Z.of_nat 0) phi) with (RtoC 1) in G by (unfold expi; cbn [Z.of_nat]; rewrite Rmult_0_l, cos_0, sin_0; reflexivity).
  cbv zeta. unfold azero in G. rewrite G. unfold aadd. cbn [s0 s1 s2 s3]. rewrite !Cplus_0_l. reflexivity.
Qed.
Theorem C51_amplitude_is_the_full_sum : forall Tz dz_in tz_in dz_out tz_out c nmax k phi,
  symmetric_T Tz -> symmetric_d dz_in -> symmetric_d tz_in -> symmetric_d dz_out -> symmetric_d tz_out ->
  amplitude (half_tables Tz dz_in tz_in dz_out tz_out c) nmax k (cos phi) (sin phi) = full_amplitude Tz dz_in tz_in dz_out tz_out c nmax k phi.
Proof.
  intros Tz dz_in tz_in dz_out tz_out c nmax k phi HT H1 H2 H3 H4. rewrite amplitude_sum. set (g := half_tables _ _ _ _ _ _).
  assert (SG: forall m, exists s, s * s = RtoC 1 /\ forall n,
     pin dz_in (- m) n = - s * pin dz_in m n /\ pout dz_out (- m) n = - s * pout dz_out m n /\ tin tz_in (- m) n = s * tin tz_in m n /\ tout tz_out (- m) n = s * tout tz_out m n).
  { intros m. exists (RtoC ((-1) ^ Z.abs_nat m)%R). split.
    - rewrite <- RtoC_mult. rewrite <- Rpow_mult_distr. replace (-1 * -1)%R with 1%R by ring. rewrite pow1. reflexivity.
    - intros n. unfold pin, pout, tin, tout. rewrite H1, H2, H3, H4. rewrite opp_IZR. rewrite !RtoC_mult. rewrite RtoC_opp. repeat split; ring. }
  assert (T0: forall n n', Tz 0%nat 1%nat 0%Z n n' = RtoC 0 /\ Tz 1%nat 0%nat 0%Z n n' = RtoC 0).
  { intros n n'. destruct (HT 0%Z n n') as (_ & _ & A & B). cbn [Z.opp] in A, B. 
    assert (Z0: forall z : C, z = - z -> z = RtoC 0). { intros (x, y) E. unfold Copp in E. cbn [fst snd] in E. injection E as E1 E2. unfold RtoC. f_equal; lra. }
    split; apply Z0; auto. }
  assert (EX: forall m, expi m phi + expi (- m) phi = RtoC (2 * Re (expi m phi))%R /\ expi m phi - expi (- m) phi = RtoC (2 * Im (expi m phi))%R * Ci).
  { intros m. unfold expi. rewrite opp_IZR, Ropp_mult_distr_l_reverse, cos_neg, sin_neg. split; apply injective_projections; cbv [Cplus Cminus Copp Cmult RtoC Ci Re Im fst snd]; ring. }
  assert (E0: expi 0 phi = RtoC 1) by (unfold expi; rewrite Rmult_0_l, cos_0, sin_0; reflexivity).
  assert (P0: forall n, pin dz_in 0 n = RtoC 0 /\ pout dz_out 0 n = RtoC 0) by (intros; unfold pin, pout; rewrite !Rmult_0_l; auto).
  assert (main: forall (sel : amp -> C) (f : Z -> nat -> nat -> C),
     sel (asum (seq 0 (nmax + 1)) (mterm g nmax phi)) = csum (seq 0 (nmax + 1)) (fun m => csum (degrees nmax (Z.of_nat m)) (fun n' => csum (degrees nmax (Z.of_nat m)) (fun n => sel (amp_term g m n' n (2 * Re (expi (Z.of_nat m) phi))%R (2 * Im (expi (Z.of_nat m) phi))%R azero)))) ->
     (forall n' n, sel (amp_term g 0 n' n (2 * Re (expi (Z.of_nat 0) phi))%R (2 * Im (expi (Z.of_nat 0) phi))%R azero) = c n' n * expi 0 phi * f 0%Z n' n) ->
     (forall m n' n, (1 <= m)%nat -> sel (amp_term g m n' n (2 * Re (expi (Z.of_nat m) phi))%R (2 * Im (expi (Z.of_nat m) phi))%R azero) =
        c n' n * expi (Z.of_nat m) phi * f (Z.of_nat m) n' n + c n' n * expi (- Z.of_nat m) phi * f (- Z.of_nat m)%Z n' n) ->
     sel (asum (seq 0 (nmax + 1)) (mterm g nmax phi)) * RtoC (1 / k)%R = RtoC (1 / k)%R * full_sum c nmax phi f).
  { intros sel f E Hz Hp. rewrite E. rewrite Cmult_comm. f_equal.
    unfold full_sum. rewrite csum_orders. replace (nmax + 1)%nat with (1 + nmax)%nat by lia. rewrite seq_app, csum_app. f_equal.
    - unfold csum at 1. cbn [seq fold_right]. rewrite Cplus_0_r. cbn [Z.of_nat]. apply csum_ext. intros n' _. apply csum_ext. intros n _. apply Hz.
    - apply csum_ext. intros m Hm. apply in_seq in Hm. replace (degrees nmax (- Z.of_nat m)) with (degrees nmax (Z.of_nat m)) by (unfold degrees; replace (Z.abs_nat (- Z.of_nat m)) with (Z.abs_nat (Z.of_nat m)) by lia; reflexivity).
      rewrite <- csum_add. apply csum_ext. intros n' _. rewrite <- csum_add. apply csum_ext. intros n _. apply Hp. lia. }
  assert (DG: forall m, seq (Nat.max m 1) (nmax + 1 - Nat.max m 1) = degrees nmax (Z.of_nat m)) by (intros; unfold degrees; rewrite Zabs2Nat.id; reflexivity).
  assert (CI0: Ci <> RtoC 0) by (unfold Ci, RtoC; intros E; injection E; lra).
  assert (CII: Ci * Ci = - RtoC 1) by (unfold Ci, Cmult, Copp, RtoC; cbn [fst snd]; f_equal; ring).
  unfold full_amplitude. apply amp_eq; cbn [s0 s1 s2 s3].
  - apply (main s0).
    + unfold mterm, asum. cbn [s0]. apply csum_ext. intros m _. rewrite DG. reflexivity.
    + intros n' n. unfold amp_term, g, half_tables, azero. cbn [Nat.eqb s0 s1 s2 s3 T dsin_in tau_in dsin_out tau_out cnn Z.of_nat]. rewrite E0. destruct (T0 n n') as (Q1 & Q2). destruct (P0 n') as (Q3 & _). destruct (P0 n) as (_ & Q4). rewrite Q1, Q2, Q3, Q4. unfold tin, tout. ring.
    + intros m n' n Hm. destruct (SG (Z.of_nat m)) as (s & Ss & G). destruct (HT (Z.of_nat m) n n') as (A1 & A2 & A3 & A4). destruct (EX (Z.of_nat m)) as (X1 & X2).
      destruct (G n') as (B1 & _ & B3 & _). destruct (G n) as (_ & B2 & _ & B4). rewrite A1, A2, A3, A4, B1, B2, B3, B4.
      unfold amp_term. destruct (Nat.eqb_spec m 0); [lia|]. unfold g, half_tables, azero. cbn [s0 s1 s2 s3 T dsin_in tau_in dsin_out tau_out cnn].
      revert X1 X2. generalize (2 * Re (expi (Z.of_nat m) phi))%R (2 * Im (expi (Z.of_nat m) phi))%R. intros fc fs X1 X2. rewrite INR_IZR_INZ, !RtoC_mult.
      unfold pin, pout, tin, tout. rewrite ?RtoC_mult. rewrite <- X1. ring [Ss].
  - apply (main s1).
    + unfold mterm, asum. cbn [s1]. apply csum_ext. intros m _. rewrite DG. reflexivity.
    + intros n' n. unfold amp_term, g, half_tables, azero. cbn [Nat.eqb s0 s1 s2 s3 T dsin_in tau_in dsin_out tau_out cnn Z.of_nat]. rewrite E0. destruct (T0 n n') as (Q1 & Q2). destruct (P0 n') as (Q3 & _). destruct (P0 n) as (_ & Q4). rewrite Q1, Q2, Q3, Q4. unfold tin, tout. field. exact CI0.
    + intros m n' n Hm. destruct (SG (Z.of_nat m)) as (s & Ss & G). destruct (HT (Z.of_nat m) n n') as (A1 & A2 & A3 & A4). destruct (EX (Z.of_nat m)) as (X1 & X2).
      destruct (G n') as (B1 & _ & B3 & _). destruct (G n) as (_ & B2 & _ & B4). rewrite A1, A2, A3, A4, B1, B2, B3, B4.
      unfold amp_term. destruct (Nat.eqb_spec m 0); [lia|]. unfold g, half_tables, azero. cbn [s0 s1 s2 s3 T dsin_in tau_in dsin_out tau_out cnn].
      revert X1 X2. generalize (2 * Re (expi (Z.of_nat m) phi))%R (2 * Im (expi (Z.of_nat m) phi))%R. intros fc fs X1 X2. rewrite INR_IZR_INZ, !RtoC_mult.
      unfold pin, pout, tin, tout. rewrite ?RtoC_mult. replace (RtoC fs) with ((expi (Z.of_nat m) phi - expi (- Z.of_nat m) phi) / Ci) by (rewrite X2; field; exact CI0). field_simplify_eq; [|exact CI0]. ring [Ss CII].
  - apply (main s2).
    + unfold mterm, asum. cbn [s2]. apply csum_ext. intros m _. rewrite DG. reflexivity.
    + intros n' n. unfold amp_term, g, half_tables, azero. cbn [Nat.eqb s0 s1 s2 s3 T dsin_in tau_in dsin_out tau_out cnn Z.of_nat]. rewrite E0. destruct (T0 n n') as (Q1 & Q2). destruct (P0 n') as (Q3 & _). destruct (P0 n) as (_ & Q4). rewrite Q1, Q2, Q3, Q4. unfold tin, tout. ring.
    + intros m n' n Hm. destruct (SG (Z.of_nat m)) as (s & Ss & G). destruct (HT (Z.of_nat m) n n') as (A1 & A2 & A3 & A4). destruct (EX (Z.of_nat m)) as (X1 & X2).
      destruct (G n') as (B1 & _ & B3 & _). destruct (G n) as (_ & B2 & _ & B4). rewrite A1, A2, A3, A4, B1, B2, B3, B4.
      unfold amp_term. destruct (Nat.eqb_spec m 0); [lia|]. unfold g, half_tables, azero. cbn [s0 s1 s2 s3 T dsin_in tau_in dsin_out tau_out cnn].
      revert X1 X2. generalize (2 * Re (expi (Z.of_nat m) phi))%R (2 * Im (expi (Z.of_nat m) phi))%R. intros fc fs X1 X2. rewrite INR_IZR_INZ, !RtoC_mult.
      unfold pin, pout, tin, tout. rewrite ?RtoC_mult. replace (RtoC fs) with (- ((expi (Z.of_nat m) phi - expi (- Z.of_nat m) phi) * Ci)) by (rewrite X2; rewrite <- Cmult_assoc, CII; ring). ring [Ss CII].
  - apply (main s3).
    + unfold mterm, asum. cbn [s3]. apply csum_ext. intros m _. rewrite DG. reflexivity.
    + intros n' n. unfold amp_term, g, half_tables, azero. cbn [Nat.eqb s0 s1 s2 s3 T dsin_in tau_in dsin_out tau_out cnn Z.of_nat]. rewrite E0. destruct (T0 n n') as (Q1 & Q2). destruct (P0 n') as (Q3 & _). destruct (P0 n) as (_ & Q4). rewrite Q1, Q2, Q3, Q4. unfold tin, tout. ring.
    + intros m n' n Hm. destruct (SG (Z.of_nat m)) as (s & Ss & G). destruct (HT (Z.of_nat m) n n') as (A1 & A2 & A3 & A4). destruct (EX (Z.of_nat m)) as (X1 & X2).
      destruct (G n') as (B1 & _ & B3 & _). destruct (G n) as (_ & B2 & _ & B4). rewrite A1, A2, A3, A4, B1, B2, B3, B4.
      unfold amp_term. destruct (Nat.eqb_spec m 0); [lia|]. unfold g, half_tables, azero. cbn [s0 s1 s2 s3 T dsin_in tau_in dsin_out tau_out cnn].
      revert X1 X2. generalize (2 * Re (expi (Z.of_nat m) phi))%R (2 * Im (expi (Z.of_nat m) phi))%R. intros fc fs X1 X2. rewrite INR_IZR_INZ, !RtoC_mult.
      unfold pin, pout, tin, tout. rewrite ?RtoC_mult. rewrite <- X1. ring [Ss].
Qed.
Print Assumptions C51_amplitude_is_the_full_sum.
(** straight ahead (the same angles, phi = 0) the amplitude matrix is diagonal *)
Theorem C51_forward_is_diagonal : forall g nmax k, s1 (amplitude g nmax k 1 0) = RtoC 0 /\ s2 (amplitude g nmax k 1 0) = RtoC 0.
Proof.
  intros g nmax k. replace (amplitude g nmax k 1 0) with (amplitude g nmax k (cos 0) (sin 0)) by (rewrite cos_0, sin_0; reflexivity). rewrite amplitude_sum. cbn [s1 s2].
  assert (Z: forall m n' n, s1 (amp_term g m n' n (2 * Re (expi (Z.of_nat m) 0))%R (2 * Im (expi (Z.of_nat m) 0))%R azero) = RtoC 0 /\ s2 (amp_term g m n' n (2 * Re (expi (Z.of_nat m) 0))%R (2 * Im (expi (Z.of_nat m) 0))%R azero) = RtoC 0).
  { intros m n' n. unfold expi. rewrite Rmult_0_r, sin_0. cbn [Re Im fst snd]. rewrite (Rmult_0_r 2). unfold amp_term. destruct (Nat.eqb m 0); cbn [s1 s2 azero]; auto. split; ring. }
  unfold asum, mterm. cbn [s1 s2 asum].
  split; (rewrite csum_zero; [ring|]; intros m _; rewrite csum_zero; auto; intros n' _; rewrite csum_zero; auto; intros n _; apply Z).
Qed.
Print Assumptions C51_forward_is_diagonal.
(** the prefactor table: i^(n'-n-1) sqrt((2n+1)(2n'+1) / (n(n+1)n'(n'+1))) for n' = ni+1, n = nj+1 *)
Fixpoint ipow (n : nat) : C := match n with O => RtoC 1 | S m => ipow m * Ci end.
Theorem C51_prefactors : forall ni nj, let n' := INR (ni + 1) in let n := INR (nj + 1) in
  ipow (nj + 2) * cnn_table ni nj = ipow (ni + 1) * RtoC (sqrt ((2 * n + 1) * (2 * n' + 1) / (n * (n + 1) * (n' * (n' + 1)))))%R.
Proof.
  intros ni nj n' n. assert (CII: Ci * Ci = - RtoC 1) by (unfold Ci, Cmult, Copp, RtoC; cbn [fst snd]; f_equal; ring).
  assert (CI0: Ci <> RtoC 0) by (unfold Ci, RtoC; intros E; injection E; lra).
  assert (A: forall k s z, fold_left (fun s (_ : nat) => s * Ci) (seq s k) z = z * ipow k).
  { induction k; intros s z; cbn [seq fold_left ipow]; [ring|]. rewrite IHk. ring. }
  assert (B: forall k s z, ipow k * fold_left (fun s (_ : nat) => s / Ci) (seq s k) z = z).
  { induction k; intros s z; cbn [seq fold_left ipow]; [ring|]. rewrite <- Cmult_assoc, (Cmult_comm Ci), Cmult_assoc, IHk. field. exact CI0. }
  unfold cnn_table, for_C. rewrite !Nat.sub_0_r. rewrite A. replace (nj + 2)%nat with (S (S nj)) by lia. replace (ni + 1)%nat with (S ni) by lia. cbn [ipow].
  assert (AN: ann ni nj = sqrt ((2 * n + 1) * (2 * n' + 1) / (n * (n + 1) * (n' * (n' + 1))))).
  { unfold ann, n, n'. rewrite !plus_INR. cbn [INR]. pose proof (pos_INR ni). pose proof (pos_INR nj). rewrite <- sqrt_mult.
    - f_equal. field. lra.
    - apply Rlt_le, Rdiv_lt_0_compat; nra.
    - apply Rlt_le, Rdiv_lt_0_compat; nra. }
  rewrite AN. generalize (RtoC (sqrt ((2 * n + 1) * (2 * n' + 1) / (n * (n + 1) * (n' * (n' + 1)))))). intros w. clear AN.
  specialize (B nj 0%nat (RtoC (-1))). set (F := fold_left _ _ (RtoC (-1))) in *. clearbody F.
  transitivity ((ipow nj * F) * (Ci * Ci) * (ipow ni * Ci) * w); [ring|]. rewrite B, CII. replace (RtoC (-1)) with (- RtoC 1) by (rewrite <- RtoC_opp; reflexivity). ring.
Qed.
Print Assumptions C51_prefactors.
Definition ex_T (i j : nat) (m : Z) (n n' : nat) : C := if Nat.eqb i j then RtoC 1 else RtoC (IZR m).
Definition ex_d (m : Z) (n : nat) : R := if (m <? 0)%Z then ((-1) ^ Z.abs_nat m)%R else 1%R.
Example C51_example : symmetric_T ex_T /\ symmetric_d ex_d /\
  s0 (amplitude (half_tables ex_T ex_d ex_d ex_d ex_d (fun _ _ => RtoC 1)) 1 1 0 1) = RtoC 1 /\
  s1 (amplitude (half_tables ex_T ex_d ex_d ex_d ex_d (fun _ _ => RtoC 1)) 1 1 0 1) = RtoC 8.
Proof.
  split; [|split; [|split]].
  - intros m n n'. unfold ex_T. cbn [Nat.eqb]. rewrite opp_IZR, RtoC_opp. auto.
  - intros m n. unfold ex_d. replace (Z.abs_nat (- m)) with (Z.abs_nat m) by lia. destruct (Z.ltb_spec (- m) 0), (Z.ltb_spec m 0); try lia.
    + ring.
    + rewrite <- Rpow_mult_distr. replace (-1 * -1)%R with 1%R by ring. rewrite pow1. reflexivity.
    + replace m with 0%Z by lia. cbn. ring.
  - unfold amplitude, for_C, amp_term. cbn. unfold ex_T, ex_d. cbn. unfold Cmult, Cplus, RtoC. cbn. f_equal; field.
  - unfold amplitude, for_C, amp_term. cbn. unfold ex_T, ex_d. cbn. unfold Cmult, Cplus, RtoC. cbn. f_equal; field.
Qed.

(** C52: to first order in the path length, a field that propagates through the particles,
    E -> (1 + i eps (2 pi / k) S) E, has its Stokes vector changed by - eps K; the second order is the
    scattered intensity *)
Theorem C52_extinction_matrix : forall kinv S Et Ep eps i, (i < 4)%nat ->
  let b := RtoC (eps * (2 * PI * kinv))%R in
  stokes (Et + Ci * b * field_t S Et Ep) (Ep + Ci * b * field_p S Et Ep) i
  = (stokes Et Ep i - eps * act (extinction kinv S) (stokes Et Ep) i + eps * eps * (2 * PI * kinv) * (2 * PI * kinv) * act (scattering S) (stokes Et Ep) i)%R.
Proof.
  intros kinv S Et Ep eps i H b. unfold b. destruct S as (p, q, r, s). comp. unfold extinction. set (P := (2 * PI * kinv)%R). clearbody P.
  destruct i as [|[|[|[|i]]]]; [| | | |lia]; cbv [stokes act scattering field_t field_p s0 s1 s2 s3 Re Im fst snd Cmult Cplus Cminus Copp Cconj RtoC Ci]; field.
Qed.
Print Assumptions C52_extinction_matrix.
(** the three coefficients are the entries K00, K01 and K23 over pi a^2; for the diagonal forward
    amplitude all others are zero or follow from these *)
Theorem C52_extinction_coefficients : forall g nmax k a, let S := amplitude g nmax k 1 0 in let K := extinction (1 / k) S in
  (a <> 0)%R -> (k <> 0)%R ->
  let '(q, p, c) := ext_coefficients k a S in
  (q * (PI * a * a) = K 0%nat 0%nat /\ p * (PI * a * a) = K 0%nat 1%nat /\ c * (PI * a * a) = K 2%nat 3%nat)%R /\
  forall i j, (i < 4)%nat -> (j < 4)%nat -> K i j =
    match i, j with
    | 0%nat, 0%nat | 1%nat, 1%nat | 2%nat, 2%nat | 3%nat, 3%nat => K 0%nat 0%nat
    | 0%nat, 1%nat | 1%nat, 0%nat => K 0%nat 1%nat
    | 2%nat, 3%nat => K 2%nat 3%nat | 3%nat, 2%nat => (- K 2%nat 3%nat)%R
    | _, _ => 0%R end.
Proof.
  intros g nmax k a S K Ha Hk. destruct (C51_forward_is_diagonal g nmax k) as (D1 & D2). fold S in D1, D2. unfold ext_coefficients. pose proof PI_RGT_0. split.
  - unfold K, extinction. repeat split; field; repeat split; auto; lra.
  - intros i j Hi Hj. unfold K, extinction. rewrite D1, D2. destruct i as [|[|[|[|i]]]], j as [|[|[|[|j]]]]; try lia; auto; cbv [Re Im fst snd Cplus Cminus Copp RtoC]; ring.
Qed.
Print Assumptions C52_extinction_coefficients.
(** absorption = extinction minus the scattered part, the latter summed over the quadrature *)
Theorem C52_absorption_coefficients : forall k a S (account : bool) dirs,
  abs_coefficients k a S account dirs =
  (let total f := fold_right (fun '(w, Z) s => (w * f Z + s)%R) 0%R (if account then dirs else []) in
   ((extinction (1 / k) S 0 0 - total (fun Z => scattering Z 0 0)) / (PI * a * a),
    (extinction (1 / k) S 0 1 - total (fun Z => scattering Z 1 0)) / (PI * a * a)))%R.
Proof.
  intros k a S account dirs. unfold abs_coefficients, extinction. replace (2 * PI * (1 / k))%R with (2 * PI / k)%R by (unfold Rdiv; ring).
  generalize (2 * PI / k * Im (s0 S + s3 S)%C)%R (2 * PI / k * Im (s0 S - s3 S)%C)%R. intros x y. destruct account.
  2:{ cbn. rewrite !Rminus_0_r. reflexivity. }
  cbv zeta. revert x y. induction dirs as [|(w, Z) dirs IH]; intros x y; cbn [fold_left fold_right].
  - rewrite !Rminus_0_r. reflexivity.
  - rewrite IH. unfold scattering. f_equal; f_equal; ring.
Qed.
Print Assumptions C52_absorption_coefficients.
Example C52_example : extinction 1 (mkAmp (0, 1) (0, 0) (0, 0) (0, 2))%R 0 0 = (6 * PI)%R /\ fst (abs_coefficients 1 1 (mkAmp (0, 1) (0, 0) (0, 0) (0, 2))%R true [(PI, mkAmp (1, 0) (0, 0) (0, 0) (1, 0))%R]) = 5%R.
Proof.
  pose proof PI_RGT_0. split; [|unfold abs_coefficients]; cbn [extinction fold_left s0 s1 s2 s3 fst snd]; cbv [Re Im fst snd Cplus Cminus Copp Cmult Cconj RtoC]; field. lra.
Qed.
