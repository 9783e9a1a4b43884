(** From the arrays the resource tasks leave behind to the surface integrals of Ebcm.v. *)
From Coq Require Import List ZArith Arith Lia Bool Reals Lra.
From Coquelicot Require Import Complex Coquelicot.
From Verif Require Import Matrix Props_matrix Quadrature Wigner Props_wigner Align AlignFacts QMatrix QFacts Ebcm.
Import ListNotations.
Open Scope R_scope.

(* ---------------------------------------------- geometry *)

Lemma cbrt_pos : forall x, 0 < cbrt x.
Proof. intros. unfold cbrt, Rpower. apply exp_pos. Qed.
Lemma cbrt_cube : forall x, 0 < x -> cbrt x * cbrt x * cbrt x = x.
Proof.
  intros x H. unfold cbrt. rewrite <- !Rpower_plus. replace (/ 3 + / 3 + / 3) with 1 by field. apply Rpower_1; auto.
Qed.
Definition den (d t : R) : R := sin t * sin t + d * d * (cos t * cos t).
Lemma den_pos : forall d t, 0 < d -> 0 < den d t.
Proof.
  intros d t H. unfold den. pose proof (sin2_cos2 t) as E. unfold Rsqr in E.
  destruct (Req_dec (cos t) 0) as [Z0|N].
  - rewrite Z0 in *. nra.
  - assert (0 < cos t * cos t) by nra. assert (0 <= sin t * sin t) by nra. assert (0 < d * d) by nra. nra.
Qed.
Lemma radius_pos : forall d t, 0 < d -> 0 < radius d t.
Proof. intros. unfold radius. apply Rdiv_lt_0_compat; [apply cbrt_pos | apply sqrt_lt_R0; apply den_pos; auto]. Qed.
Lemma radius_sqr : forall d t, 0 < d -> radius d t * radius d t = cbrt d * cbrt d * (1 / den d t).
Proof.
  intros d t H. unfold radius. pose proof (den_pos d t H) as P. unfold den in *.
  pose proof (sqrt_sqrt _ (Rlt_le _ _ P)) as S. set (q := sqrt _) in *. assert (q <> 0) by nra. rewrite <- S. field. auto.
Qed.
(** the point at distance [radius d t] in the direction t lies on the spheroid with semi-axes a, a, b; a / b = d and a a b = 1 *)
Theorem radius_on_spheroid : forall d t, 0 < d -> exists a b, a / b = d /\ a * a * b = 1 /\ 0 < a /\ 0 < b /\
  (radius d t * sin t) * (radius d t * sin t) / (a * a) + (radius d t * cos t) * (radius d t * cos t) / (b * b) = 1.
Proof.
  intros d t H. exists (cbrt d), (cbrt d / d). pose proof (cbrt_pos d) as P. pose proof (cbrt_cube d H) as C3.
  pose proof (den_pos d t H) as D.
  repeat split; auto.
  - field. split; lra.
  - transitivity (cbrt d * cbrt d * cbrt d / d); [field; lra|]. rewrite C3. field. lra.
  - apply Rdiv_lt_0_compat; auto.
  - replace (radius d t * sin t * (radius d t * sin t)) with (radius d t * radius d t * (sin t * sin t)) by ring.
    replace (radius d t * cos t * (radius d t * cos t)) with (radius d t * radius d t * (cos t * cos t)) by ring.
    rewrite radius_sqr by auto. unfold den in *. field. repeat split; try lra.
Qed.
Lemma radius_derive : forall d t, 0 < d -> is_derive (radius d) t (radius d t * ((d * d - 1) * sin t * cos t / den d t)).
Proof.
  intros d t H. unfold radius. pose proof (den_pos d t H) as P. unfold den in *.
  pose proof (sqrt_lt_R0 _ P) as Q.
  auto_derive.
  - repeat split; try lra.
  - pose proof (sqrt_sqrt _ (Rlt_le _ _ P)) as S. set (q := sqrt _) in *.
    assert (E: forall x y, x * y * y = x * (y * y)) by (intros; ring).
    replace (sin t * sin t + d * d * (cos t * cos t)) with (q * q). field. nra.
Qed.
Lemma log_derivative : forall d t, 0 < d -> Derive (radius d) t / radius d t = (d * d - 1) * sin t * cos t / den d t.
Proof.
  intros d t H. rewrite (is_derive_unique _ _ _ (radius_derive d t H)). pose proof (radius_pos d t H). pose proof (den_pos d t H). field. split; lra.
Qed.

(** for a symmetric set of points all entries of the arrays are those of the spheroid *)
Definition symmetric_points (ngauss : nat) (x t : nat -> R) : Prop :=
  forall i, (i < 2 * ngauss)%nat -> x i = cos (t i) /\ 0 < t i < PI /\ t (2 * ngauss - 1 - i)%nat = PI - t i.
Lemma sin_angle : forall t, 0 < t < PI -> 0 < sin t /\ (1 - cos t) * (1 + cos t) = sin t * sin t /\ sqrt (sin t * sin t) = sin t.
Proof.
  intros t H. assert (P: 0 < sin t) by (apply sin_gt_0; lra). split; auto. split.
  - pose proof (sin2_cos2 t) as E. unfold Rsqr in E. nra.
  - apply sqrt_square. lra.
Qed.
Lemma cos_mirror : forall t, cos (PI - t) = - cos t.
Proof. intros. rewrite cos_minus, cos_PI, sin_PI. ring. Qed.
Lemma sin_mirror : forall t, sin (PI - t) = sin t.
Proof. intros. rewrite sin_minus, cos_PI, sin_PI. ring. Qed.
Lemma den_mirror : forall d t, den d (PI - t) = den d t.
Proof. intros. unfold den. rewrite cos_mirror, sin_mirror. ring. Qed.
Lemma radius_mirror : forall d t, radius d (PI - t) = radius d t.
Proof. intros. unfold radius. rewrite cos_mirror, sin_mirror. f_equal. f_equal. ring. Qed.

Lemma vupd_at : forall {X} (w : nat -> X) i v j, vupd w i v j = if (j =? i)%nat then v else w j.
Proof. reflexivity. Qed.
Lemma gauss_inverses_at : forall ngauss x t junk, symmetric_points ngauss x t -> forall i, (i < 2 * ngauss)%nat ->
  fst (gauss_inverses ngauss x junk) i = 1 / sin (t i) /\ snd (gauss_inverses ngauss x junk) i = 1 / (sin (t i) * sin (t i)).
Proof.
  intros ngauss x t junk Hx i Hi. unfold gauss_inverses.
  set (I := fun (k : nat) (s : (nat -> R) * (nat -> R)) => forall i, (i < 2 * ngauss)%nat -> (i < k \/ 2 * ngauss - k <= i)%nat ->
    fst s i = 1 / sin (t i) /\ snd s i = 1 / (sin (t i) * sin (t i))).
  match goal with |- fst ?s i = _ /\ _ => assert (G: I ngauss s) end.
  2:{ apply G; auto. lia. }
  apply (for_ind I); [lia| |].
  - intros j Hj K. lia.
  - intros k s Hk IH j Hj K. cbn [fst snd]. rewrite !vupd_at.
    destruct (Hx k ltac:(lia)) as (Ex & Bt & Em). destruct (sin_angle _ Bt) as (Ps & Es & Eq).
    assert (V2: 1 / ((1 - x k) * (1 + x k)) = 1 / (sin (t k) * sin (t k))) by (rewrite Ex, Es; reflexivity).
    assert (V1: sqrt (1 / (sin (t k) * sin (t k))) = 1 / sin (t k)).
    { replace (1 / (sin (t k) * sin (t k))) with ((1 / sin (t k)) * (1 / sin (t k))) by (field; lra). apply sqrt_square.
      apply Rlt_le, Rdiv_lt_0_compat; lra. }
    rewrite V2, V1.
    destruct (Nat.eqb_spec j (2 * ngauss - k - 1)) as [->|N1].
    + replace (2 * ngauss - k - 1)%nat with (2 * ngauss - 1 - k)%nat by lia. rewrite Em, sin_mirror. auto.
    + destruct (Nat.eqb_spec j k) as [->|N2]; [auto|]. apply IH; lia.
Qed.
Lemma spheroid_at : forall ngauss d x t junk, 0 < d -> symmetric_points ngauss x t -> forall i, (i < 2 * ngauss)%nat ->
  fst (get_r_dr_spheroid x (2 * ngauss) d junk) i = radius d (t i) * radius d (t i) /\
  snd (get_r_dr_spheroid x (2 * ngauss) d junk) i = Derive (radius d) (t i) / radius d (t i).
Proof.
  intros ngauss d x t junk Hd Hx i Hi. unfold get_r_dr_spheroid. cbv zeta.
  replace (2 * ngauss / 2)%nat with ngauss by (rewrite Nat.mul_comm, Nat.div_mul; lia).
  set (I := fun (k : nat) (s : (nat -> R) * (nat -> R)) => forall i, (i < 2 * ngauss)%nat -> (i < k \/ 2 * ngauss - k <= i)%nat ->
    fst s i = radius d (t i) * radius d (t i) /\ snd s i = Derive (radius d) (t i) / radius d (t i)).
  match goal with |- fst ?s i = _ /\ _ => assert (G: I ngauss s) end.
  2:{ apply G; auto. lia. }
  apply (for_ind I); [lia| |].
  - intros j Hj K. lia.
  - intros k s Hk IH j Hj K. cbn [fst snd]. rewrite !vupd_at. rewrite Nat.eqb_refl.
    destruct (Hx k ltac:(lia)) as (Ex & Bt & Em). destruct (sin_angle _ Bt) as (Ps & Es & Eq).
    pose proof (den_pos d (t k) Hd) as P.
    assert (V1: cbrt d * cbrt d * (1 / ((1 - x k) * (1 + x k) + d * d * (x k * x k))) = radius d (t k) * radius d (t k)).
    { rewrite Ex, Es. symmetry. apply radius_sqr; auto. }
    assert (V2: 1 / ((1 - x k) * (1 + x k) + d * d * (x k * x k)) * x k * sqrt ((1 - x k) * (1 + x k)) * (d * d - 1) = Derive (radius d) (t k) / radius d (t k)).
    { rewrite Ex, Es, Eq, log_derivative by auto. unfold den in *. field. lra. }
    rewrite V1, V2.
    destruct (Nat.eqb_spec j (2 * ngauss - k - 1)) as [->|N1].
    + replace (2 * ngauss - k - 1)%nat with (2 * ngauss - 1 - k)%nat by lia. rewrite Em. split; [rewrite radius_mirror; auto|].
      rewrite !log_derivative by auto. rewrite den_mirror, sin_mirror, cos_mirror. field. lra.
    + destruct (Nat.eqb_spec j k) as [->|N2]; [auto|]. apply IH; lia.
Qed.

(* ---------------------------------------------- one quadrature point *)

Lemma wd_pos : forall n m t, wd n (Z.of_nat m) t = dspec n m t.
Proof. intros. unfold wd. destruct (Z.ltb_spec (Z.of_nat m) 0); [lia|]. rewrite Zabs2Nat.id. reflexivity. Qed.
Lemma wd_neg : forall n m t, wd n (- Z.of_nat m) t = (-1) ^ m * dspec n m t.
Proof.
  intros. unfold wd. replace (Z.abs_nat (- Z.of_nat m)) with m by lia. destruct (Z.ltb_spec (- Z.of_nat m) 0); auto.
  assert (m = 0%nat) by lia. subst. cbn [pow]. ring.
Qed.
Lemma dwd_pos : forall n m t, Derive (wd n (Z.of_nat m)) t = dspec' n m t.
Proof.
  intros. apply is_derive_unique. apply (is_derive_ext (dspec n m)); [intros; symmetry; apply wd_pos|]. apply is_derive_Reals, dspec_derivative.
Qed.
Lemma dwd_neg : forall n m t, Derive (wd n (- Z.of_nat m)) t = (-1) ^ m * dspec' n m t.
Proof.
  intros. apply is_derive_unique. apply (is_derive_ext (fun t => (-1) ^ m * dspec n m t)); [intros; symmetry; apply wd_neg|].
  apply (is_derive_scal (dspec n m)). apply is_derive_Reals, dspec_derivative.
Qed.
Lemma msq : forall m, (-1) ^ m * (-1) ^ m = 1.
Proof. intros. rewrite <- pow_add. replace (m + m)%nat with (2 * m)%nat by lia. rewrite pow_mult. replace ((-1) ^ 2) with 1 by (cbn; ring). apply pow1. Qed.
Lemma cis_inverse : forall x, (cis x * cis (- x))%C = RtoC 1.
Proof.
  intros. unfold cis, Cmult, RtoC. cbn [fst snd]. rewrite cos_neg, sin_neg. pose proof (sin2_cos2 x) as E. unfold Rsqr in E.
  apply injective_projections; cbn [fst snd]; [rewrite <- E|]; ring.
Qed.
Lemma gam_product : forall n n', (1 <= n)%nat -> (1 <= n')%nat -> 2 * PI * (gam n * gam n') = / 2 * ann_element (n - 1) (n' - 1).
Proof.
  assert (G: forall n, (1 <= n)%nat -> sqrt (4 * PI) * gam n = sqrt ((2 * (INR (n - 1) + 1) + 1) / ((INR (n - 1) + 2) * (INR (n - 1) + 1)))).
  { intros n Hn. unfold gam. pose proof PI_RGT_0 as PP. assert (P: 0 < 4 * PI) by lra. rewrite minus_INR by lia. cbn [INR].
    assert (N: 1 <= INR n) by (apply (le_INR 1); auto).
    rewrite <- sqrt_mult; [| lra | apply Rlt_le, Rdiv_lt_0_compat; [lra | apply Rmult_lt_0_compat; [lra | apply Rmult_lt_0_compat; lra]]].
    f_equal. field. repeat split; lra. }
  intros n n' H H'. unfold ann_element. rewrite <- !G by auto.
  assert (P: 0 < 4 * PI) by (pose proof PI_RGT_0; lra). pose proof (sqrt_sqrt _ (Rlt_le _ _ P)) as S.
  transitivity (/ 2 * (sqrt (4 * PI) * sqrt (4 * PI)) * (gam n * gam n')); [rewrite S; field | ring].
Qed.

Definition kb (p : kind) : bool := match p with WM => false | WN => true end.
Lemma Ci2 : (Ci * Ci)%C = (- RtoC 1)%C.
Proof. unfold Ci, Cmult, Copp, RtoC. cbn [fst snd]. apply injective_projections; cbn [fst snd]; ring. Qed.
Lemma azimuth_const : forall f z, (forall phi, f phi = z) -> azimuth f = (RtoC (2 * PI) * z)%C.
Proof.
  intros f z H. unfold azimuth. apply injective_projections; cbn [fst snd].
  - rewrite (RInt_ext _ (fun _ => fst z)) by (intros; rewrite H; auto). rewrite RInt_const. unfold scal; cbn. unfold mult; cbn. ring.
  - rewrite (RInt_ext _ (fun _ => snd z)) by (intros; rewrite H; auto). rewrite RInt_const. unfold scal; cbn. unfold mult; cbn. ring.
Qed.

(** the common kernel *)
Definition kern (K2M K2 h dh j dj ki kmi ms d1 dd1 d2 dd2 u nn1 nn2 : C) (p q : bool) : C :=
  let f1 := (d1 * d2 * (ms * ms) + dd1 * dd2)%C in
  let J12 := (- (f1 * (j * dh) + u * nn1 * (d1 * dd2) * (ki * (j * h))))%C in
  let J21 := (f1 * (h * dj) + u * nn2 * (dd1 * d2) * (j * h * kmi))%C in
  let e1 := (ms * (d1 * dd2 + dd1 * d2))%C in
  let fac := (ms * u * (d1 * d2))%C in
  let J11 := (Ci * (e1 * (j * h)))%C in
  let J22 := (Ci * (e1 * (dj * dh) + fac * nn1 * (dj * h * ki) + fac * nn2 * (j * dh * kmi)))%C in
  match p, q with
  | false, false => K2M * J21 + K2 * J12
  | false, true => K2M * J11 + K2 * J22
  | true, false => K2M * J22 + K2 * J11
  | true, true => K2M * J12 + K2 * J21
  end%C.

Lemma contribution_kern : forall e m h dh p q ig n1 n2 s d1 dd1 d2 dd2, s * s = 1 ->
  sintheta2inv e ig = sinthetainv e ig * sinthetainv e ig ->
  wigner e ig (n1 - 1)%nat = (s * d1, s * dd1) -> wigner e ig (n2 - 1)%nat = (s * d2, s * dd2) ->
  contribution e m h dh p q ig n1 n2 =
  (!(ann e n1 n2 * (weight e ig * r2 e ig)) *
   kern (k2mr e) !(k2 e) h dh (jkrmr e ig n2) (djkrmr e ig n2) !(krinv e ig) (krmrinv e ig) !(sinthetainv e ig * INR m)
     !d1 !dd1 !d2 !dd2 !(dr_over_r e ig) !(INR n1 * (INR n1 + 1)) !(INR n2 * (INR n2 + 1)) p q)%C.
Proof.
  intros e m h dh p q ig n1 n2 s d1 dd1 d2 dd2 S S2 W1 W2. unfold contribution. rewrite W1, W2, S2. cbn [fst snd].
  assert (SC: (!s * !s)%C = !1) by (rewrite <- RtoC_mult, S; reflexivity).
  unfold kern. cbv zeta. rewrite !RtoC_mult, !RtoC_plus, ?RtoC_opp, !RtoC_mult.
  set (s' := !s) in *. clearbody s'. destruct p, q; ring [SC].
Qed.

Section Point.
Variables (d R_V wavelength : R) (mr : C) (b : radial).
Hypothesis Hd : 0 < d.
Notation kr := (kr_ d R_V wavelength). Notation kmr := (kmr_ d R_V wavelength mr). Notation k := (k_ wavelength).
Definition hs (rg : bool) (n : nat) (t : R) : C := if rg then !(jay b n (kr t)) else (jay b n (kr t), why b n (kr t)).
Definition dhs (rg : bool) (n : nat) (t : R) : C := if rg then !(djay b n (kr t)) else (djay b n (kr t), dwhy b n (kr t)).
Lemma integrand_kern : forall rg p q m n n' t phi, kr t <> 0 -> kmr t <> !0 -> 0 < sin t ->
  integrand d R_V wavelength mr b rg p q m n n' t phi =
  (!(- ((-1) ^ m * (gam n * gam n') * (R_V * R_V * (radius d t * radius d t)))) *
   kern (mr * !(k * k)) !(k * k) (hs rg n t) (dhs rg n t) (jayc b n' (kmr t)) (djayc b n' (kmr t)) !(1 / kr t) (!1 / kmr t) !(1 / sin t * INR m)
     !(dspec n m t) !(dspec' n m t) !(dspec n' m t) !(dspec' n' m t) !(Derive (radius d) t / radius d t)
     !(INR n * (INR n + 1)) !(INR n' * (INR n' + 1)) (kb p) (kb q))%C.
Proof.
  intros rg p q m n n' t phi Hk Hkm Hs. unfold integrand, surface, inside, outside.
  fold (hs rg n t) (dhs rg n t). unfold wave. rewrite !wd_pos, !wd_neg, !dwd_pos, !dwd_neg.
  replace (Z.abs_nat (Z.of_nat m)) with m by lia. replace (Z.abs_nat (- Z.of_nat m)) with m by lia.
  rewrite opp_IZR, <- INR_IZR_INZ. replace (- INR m * phi) with (- (INR m * phi)) by ring.
  pose proof (cis_inverse (INR m * phi)) as XY. set (X := cis (INR m * phi)) in *. set (Y := cis (- (INR m * phi))) in *. clearbody X Y.
  pose proof (f_equal RtoC (msq m)) as SG. rewrite RtoC_mult in SG. pose proof Ci2 as I2.
  set (g := (-1) ^ m) in *. clearbody g.
  set (h := hs rg n t). set (dh := dhs rg n t). clearbody h dh.
  set (j := jayc b n' (kmr t)). set (dj := djayc b n' (kmr t)). clearbody j dj.
  replace (INR m / sin t) with (1 / sin t * INR m) by (field; lra).
  replace (- INR m / sin t) with (- (1 / sin t * INR m)) by (field; lra).
  set (ms := 1 / sin t * INR m). clearbody ms.
  rewrite RtoC_div by auto. set (ikr := (!1 / !(kr t))%C). set (ikm := (!1 / kmr t)%C).
  assert (K0: !(kr t) <> !0) by (intro E; apply Hk; apply RtoC_inj; auto).
  assert (E1: (!(INR n * (INR n + 1)) / !(kr t))%C = (!(INR n * (INR n + 1)) * ikr)%C) by (unfold ikr; field; auto).
  assert (E2: (!(INR n' * (INR n' + 1)) / kmr t)%C = (!(INR n' * (INR n' + 1)) * ikm)%C) by (unfold ikm; field; auto).
  set (nn := INR n * (INR n + 1)) in *. set (nn' := INR n' * (INR n' + 1)) in *.
  set (u := Derive (radius d) t / radius d t). clearbody u. set (rad := radius d t). clearbody rad.
  set (D1 := dspec n m t). set (D1' := dspec' n m t). set (D2 := dspec n' m t). set (D2' := dspec' n' m t). clearbody D1 D1' D2 D2'.
  destruct p, q; cbn [other kb]; unfold kern, dot, vadd, vscale, cross; cbn [vr vt vp]; cbv zeta; rewrite ?E1, ?E2;
    clearbody ikr ikm nn nn'; rewrite !RtoC_mult, ?RtoC_opp, !RtoC_mult; set (g' := !g) in *; set (I := Ci) in *; clearbody g' I; clear E1 E2;
    ring [XY SG I2].
Qed.
End Point.

Lemma kern_mirror : forall K2M K2 h dh j dj ki kmi ms d1 dd1 d2 dd2 u nn1 nn2 p q (a c : C),
  kern K2M K2 h dh j dj ki kmi ms (a * d1)%C (- a * dd1)%C (c * d2)%C (- c * dd2)%C (- u)%C nn1 nn2 p q =
  (a * c * (if Bool.eqb p q then !1 else - !1) * kern K2M K2 h dh j dj ki kmi ms d1 dd1 d2 dd2 u nn1 nn2 p q)%C.
Proof. intros. unfold kern. destruct p, q; cbn [Bool.eqb]; cbv zeta; ring. Qed.
Lemma pow_even_sign : forall n, (-1) ^ n = if Nat.even n then 1 else -1.
Proof.
  induction n as [|n IH]; [reflexivity|]. cbn [pow]. rewrite IH, Nat.even_succ, <- Nat.negb_even. destruct (Nat.even n); cbn [negb]; ring.
Qed.
Lemma csum_halves : forall f n, csum f (2 * n) = csum (fun i => (f i + f (2 * n - 1 - i)%nat)%C) n.
Proof.
  intros f n. assert (G: forall k, (k <= n)%nat -> csum f (2 * n) = (csum (fun i => (f i + f (2 * n - 1 - i)%nat)%C) k + csum (fun i => f (k + i)%nat) (2 * n - 2 * k))%C).
  { induction k as [|k IH]; intros H.
    - cbn [csum]. rewrite Cplus_0_l. replace (2 * n - 2 * 0)%nat with (2 * n)%nat by lia. apply csum_ext. intros. f_equal.
    - rewrite IH by lia. replace (2 * n - 2 * k)%nat with (S (S (2 * n - 2 * S k))) by lia. rewrite csum_first. cbn [csum].
      replace (k + S (2 * n - 2 * S k))%nat with (2 * n - 1 - k)%nat by lia. replace (k + 0)%nat with k by lia.
      rewrite (csum_ext (fun i => f (k + S i)%nat) (fun i => f (S k + i)%nat)) by (intros; f_equal; lia). ring. }
  rewrite (G n) by lia. replace (2 * n - 2 * n)%nat with 0%nat by lia. cbn [csum]. ring.
Qed.

Section Main.
Variables (b : radial) (stored : bool) (m nmax ngauss : nat) (x w t : nat -> R) (d R_V wavelength : R) (mr : C).
Variables (junk : (nat -> R) * (nat -> R)) (table : nat -> nat -> R * R).
Hypotheses (Hx : symmetric_points ngauss x t) (Hw : forall i, (i < 2 * ngauss)%nat -> w (2 * ngauss - 1 - i)%nat = w i).
Hypotheses (Hd : 0 < d) (HR : 0 < R_V) (Hl : 0 < wavelength) (Hmr : mr <> RtoC 0) (Hm : (m <= nmax)%nat).
Let e := make_env b stored m nmax ngauss x w d R_V wavelength mr junk table.
Definition scale_factor : C := !(- / 2 * (-1) ^ m * (R_V * R_V)).

Lemma e_wigner : forall i, (i < 2 * ngauss)%nat -> exists s, s * s = 1 /\ forall n, (1 <= n <= nmax)%nat ->
  wigner e i (n - 1)%nat = (s * dspec n m (t i), s * dspec' n m (t i)).
Proof.
  intros i Hi. unfold e, make_env, wigner, wigner_of. cbn [wigner]. destruct stored.
  - exists (row_sign ngauss m i). split; [apply row_sign_sq|]. intros n Hn. apply (Props_wigner.stored ngauss nmax m x t); auto.
  - exists 1. split; [ring|]. intros n Hn. destruct (Hx i Hi) as (-> & B & _). rewrite wigner_dn_0m_spec by auto. rewrite entry by auto. f_equal; ring.
Qed.
Lemma e_r2 : forall i, (i < 2 * ngauss)%nat -> r2 e i = radius d (t i) * radius d (t i).
Proof. intros. unfold e, make_env. cbn [r2]. apply spheroid_at; auto. Qed.
Lemma e_kr : forall i, (i < 2 * ngauss)%nat -> kr_of R_V wavelength (r2 e) i = kr_ d R_V wavelength (t i) /\ kr_ d R_V wavelength (t i) <> 0.
Proof.
  intros i Hi. pose proof (radius_pos d (t i) Hd) as P. split.
  - unfold kr_of, kr_, k_. rewrite e_r2 by auto. rewrite sqrt_square by lra. ring.
  - unfold kr_, k_. pose proof PI_RGT_0. assert (0 < 2 * PI / wavelength) by (apply Rdiv_lt_0_compat; lra).
    assert (0 < 2 * PI / wavelength * radius d (t i) * R_V) by (apply Rmult_lt_0_compat; auto; apply Rmult_lt_0_compat; auto). lra.
Qed.
Lemma e_krmr : forall i, (i < 2 * ngauss)%nat -> krmr_of R_V wavelength mr (r2 e) i = kmr_ d R_V wavelength mr (t i) /\ kmr_ d R_V wavelength mr (t i) <> !0.
Proof.
  intros i Hi. destruct (e_kr i Hi) as (E & N). pose proof (radius_pos d (t i) Hd) as P. split.
  - unfold krmr_of, kmr_, k_. rewrite e_r2 by auto. rewrite sqrt_square by lra. rewrite !RtoC_mult. ring.
  - unfold kmr_. unfold kr_ in N. apply Cmult_neq_0; auto. intro K. apply N. apply RtoC_inj; auto.
Qed.
Definition hE (rg : bool) (i n : nat) : C := if rg then hRg e i n else hQ e i n.
Definition dhE (rg : bool) (i n : nat) : C := if rg then dhRg e i n else dhQ e i n.
Lemma e_radial : forall i, (i < 2 * ngauss)%nat -> forall n,
  (forall rg, hE rg i n = hs d R_V wavelength b rg n (t i) /\ dhE rg i n = dhs d R_V wavelength b rg n (t i)) /\
  jkrmr e i n = jayc b n (kmr_ d R_V wavelength mr (t i)) /\ djkrmr e i n = djayc b n (kmr_ d R_V wavelength mr (t i)) /\
  krinv e i = 1 / kr_ d R_V wavelength (t i) /\ krmrinv e i = (!1 / kmr_ d R_V wavelength mr (t i))%C.
Proof.
  intros i Hi n. destruct (e_kr i Hi) as (E & _). destruct (e_krmr i Hi) as (E' & _).
  unfold hE, dhE, hRg, dhRg, hQ, dhQ, hs, dhs. unfold e, make_env in *. cbn [jkr ykr djkr dykr jkrmr djkrmr krinv krmrinv r2] in *.
  rewrite E, E'. repeat split; destruct rg; reflexivity.
Qed.
Lemma point : forall rg p q n n' i, (i < 2 * ngauss)%nat -> (1 <= n <= nmax)%nat -> (1 <= n' <= nmax)%nat ->
  (!(w i) * azimuth (integrand d R_V wavelength mr b rg p q m n n' (t i)))%C =
  (scale_factor * contribution e m (hE rg i n) (dhE rg i n) (kb p) (kb q) i n n')%C.
Proof.
  intros rg p q n n' i Hi Hn Hn'. destruct (e_wigner i Hi) as (s & Ss & Ws).
  destruct (e_kr i Hi) as (_ & K). destruct (e_krmr i Hi) as (_ & K'). destruct (Hx i Hi) as (_ & B & _). destruct (sin_angle _ B) as (Ps & _ & _).
  destruct (gauss_inverses_at ngauss x t junk Hx i Hi) as (G1 & G2). destruct (spheroid_at ngauss d x t junk Hd Hx i Hi) as (G3 & G4).
  destruct (e_radial i Hi n) as (R1 & _ & _ & R2 & R3). destruct (e_radial i Hi n') as (_ & R4 & R5 & _ & _). destruct (R1 rg) as (R6 & R7).
  rewrite (contribution_kern e m _ _ _ _ i n n' s (dspec n m (t i)) (dspec' n m (t i)) (dspec n' m (t i)) (dspec' n' m (t i))); auto.
  2:{ unfold e, make_env. cbn [sintheta2inv sinthetainv]. rewrite G1, G2. field. lra. }
  rewrite R2, R3, R4, R5, R6, R7. rewrite e_r2 by auto.
  assert (F1: sinthetainv e i = 1 / sin (t i)) by (unfold e, make_env; cbn [sinthetainv]; auto).
  assert (F2: dr_over_r e i = Derive (radius d) (t i) / radius d (t i)) by (unfold e, make_env; cbn [dr_over_r]; auto).
  assert (F3: k2 e = k_ wavelength * k_ wavelength) by reflexivity. assert (F4: k2mr e = (mr * !(k_ wavelength * k_ wavelength))%C) by reflexivity.
  assert (F5: ann e n n' = ann_element (n - 1) (n' - 1)) by reflexivity. assert (F6: weight e i = w i) by reflexivity.
  rewrite F1, F2, F3, F4, F5, F6.
  rewrite (azimuth_const _ _ (fun phi => integrand_kern d R_V wavelength mr b rg p q m n n' (t i) phi K K' Ps)).
  rewrite !Cmult_assoc. f_equal. unfold scale_factor. rewrite <- !RtoC_mult. f_equal.
  pose proof (gam_product n n' ltac:(lia) ltac:(lia)) as G.
  transitivity (- (w i * (-1) ^ m * (R_V * R_V * (radius d (t i) * radius d (t i)))) * (2 * PI * (gam n * gam n'))); [ring|]. rewrite G. field.
Qed.
Lemma mirrored_point : forall rg p q n n' i, (i < 2 * ngauss)%nat -> (1 <= n <= nmax)%nat -> (1 <= n' <= nmax)%nat ->
  let i' := (2 * ngauss - 1 - i)%nat in
  contribution e m (hE rg i' n) (dhE rg i' n) p q i' n n' =
  ((if kept p q n n' then !1 else - !1) * contribution e m (hE rg i n) (dhE rg i n) p q i n n')%C.
Proof.
  intros rg p q n n' i Hi Hn Hn' i'. assert (Hi': (i' < 2 * ngauss)%nat) by (unfold i'; lia).
  destruct (e_wigner i Hi) as (s & Ss & Ws). destruct (e_wigner i' Hi') as (s' & Ss' & Ws').
  destruct (Hx i Hi) as (_ & B & T). destruct (sin_angle _ B) as (Ps & _ & _). fold i' in T.
  destruct (gauss_inverses_at ngauss x t junk Hx i Hi) as (G1 & G2). destruct (gauss_inverses_at ngauss x t junk Hx i' Hi') as (G1' & G2').
  destruct (spheroid_at ngauss d x t junk Hd Hx i Hi) as (G3 & G4). destruct (spheroid_at ngauss d x t junk Hd Hx i' Hi') as (G3' & G4').
  destruct (e_radial i Hi n) as (R1 & _ & _ & R2 & R3). destruct (e_radial i Hi n') as (_ & R4 & R5 & _ & _). destruct (R1 rg) as (R6 & R7).
  destruct (e_radial i' Hi' n) as (Q1 & _ & _ & Q2 & Q3). destruct (e_radial i' Hi' n') as (_ & Q4 & Q5 & _ & _). destruct (Q1 rg) as (Q6 & Q7).
  rewrite (contribution_kern e m _ _ _ _ i n n' s (dspec n m (t i)) (dspec' n m (t i)) (dspec n' m (t i)) (dspec' n' m (t i))); auto.
  2:{ unfold e, make_env. cbn [sintheta2inv sinthetainv]. rewrite G1, G2. field. lra. }
  rewrite (contribution_kern e m _ _ _ _ i' n n' s' (dspec n m (t i')) (dspec' n m (t i')) (dspec n' m (t i')) (dspec' n' m (t i'))); auto.
  2:{ unfold e, make_env. cbn [sintheta2inv sinthetainv]. rewrite G1', G2', T, sin_mirror. field. lra. }
  rewrite R2, R3, R4, R5, R6, R7, Q2, Q3, Q4, Q5, Q6, Q7. rewrite !e_r2 by auto.
  assert (F1: sinthetainv e i = 1 / sin (t i)) by (unfold e, make_env; cbn [sinthetainv]; auto).
  assert (F1': sinthetainv e i' = 1 / sin (t i)) by (unfold e, make_env; cbn [sinthetainv]; rewrite G1', T, sin_mirror; auto).
  assert (F2: dr_over_r e i = Derive (radius d) (t i) / radius d (t i)) by (unfold e, make_env; cbn [dr_over_r]; auto).
  assert (F2': dr_over_r e i' = - (Derive (radius d) (t i) / radius d (t i))).
  { unfold e, make_env; cbn [dr_over_r]. rewrite G4', T. rewrite !log_derivative by auto. rewrite den_mirror, sin_mirror, cos_mirror.
    pose proof (den_pos d (t i) Hd). field. lra. }
  assert (F6: weight e i = w i) by reflexivity. assert (F6': weight e i' = w i) by (unfold e, make_env; cbn [weight]; apply Hw; auto).
  rewrite F1, F1', F2, F2', F6, F6', T. unfold hs, dhs, kr_, kmr_. rewrite !radius_mirror, !dspec_mirror, !dspec'_mirror.
  rewrite !RtoC_opp, !(RtoC_mult _ (dspec _ _ _)), !(RtoC_mult _ (dspec' _ _ _)), !RtoC_opp.
  rewrite kern_mirror.
  set (K := kern _ _ _ _ _ _ _ _ _ _ _ _ _ _ _ _ _ _).
  assert (SG: (!((-1) ^ (n + m)) * !((-1) ^ (n' + m)) * (if Bool.eqb p q then !1 else - !1))%C = (if kept p q n n' then !1 else - !1)%C).
  { rewrite <- RtoC_mult. rewrite <- pow_add. replace (n + m + (n' + m))%nat with (n + n' + 2 * m)%nat by lia. rewrite pow_add, (pow_mult _ 2 m).
    replace ((-1) ^ 2) with 1 by (cbn; ring). rewrite pow1, Rmult_1_r, pow_even_sign. unfold kept.
    destruct (Nat.even (n + n')), (Bool.eqb p q); cbn [Bool.eqb]; try ring.
    all: replace (-1) with (- (1)) by ring; rewrite RtoC_opp; ring. }
  rewrite SG. ring.
Qed.

Lemma full_sum : forall rg p q n n', (1 <= n <= nmax)%nat -> (1 <= n' <= nmax)%nat ->
  surface_integral d R_V wavelength mr b (2 * ngauss) t w rg p q m n n' =
  (!2 * scale_factor * csum (fun i => if kept (kb p) (kb q) n n' then contribution e m (hE rg i n) (dhE rg i n) (kb p) (kb q) i n n' else !0) ngauss)%C.
Proof.
  intros rg p q n n' Hn Hn'. unfold surface_integral. rewrite csum_halves.
  rewrite <- csum_scal. apply csum_ext. intros i Hi. rewrite !point by lia. rewrite mirrored_point by lia.
  replace (!2) with (!1 + !1)%C by (rewrite <- RtoC_plus; f_equal; ring).
  destruct (kept _ _ _ _); ring.
Qed.
End Main.
