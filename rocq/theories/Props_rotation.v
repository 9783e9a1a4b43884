(** C89: the orientation average of a T-matrix is the mean of the T-matrices of the rotated particles.
    Specification: first part, with Wigner's d-functions [wd] (Rotation.v), Legendre polynomials [P] (Legendre.v). *)
From Coq Require Import List ZArith Reals Lra Lia Arith Bool.
From Coquelicot Require Import Coquelicot.
From Verif Require Import Clebsch Racah Legendre Orientation Props_quad Align AlignFacts Props_align Rotation.
Import ListNotations.
Open Scope R_scope.

(* ------------------------------------------------------------ specification *)
(** integral of a complex function of a real variable *)
Definition is_CInt (f : R -> C) (a b : R) (v : C) : Prop := is_RInt (fun x => Re (f x)) a b (Re v) /\ is_RInt (fun x => Im (f x)) a b (Im v).
(** e^(i x) *)
Definition cexp (x : R) : C := (cos x, sin x).
(** Element of the T-matrix of an axisymmetric particle in a frame in which its axis has zenith angle beta and azimuth alpha, from its elements
    [mirrored T] in the frame in which the axis is the z axis (where it is diagonal in the azimuthal order): T' = D T D^(-1), with the
    rotation matrix elements D^n_{m m1} = e^(-i m alpha) d^n_{m m1}(beta) (Mishchenko, Travis & Lacis 2002, eq. 5.29). *)
Definition rotated (T : tmat) (i j : bool) (m m' n1 n2 : Z) (alpha beta : R) : C :=
  zsum (- Z.min n1 n2) (Z.min n1 n2) (fun m1 =>
    cexp (- IZR m * alpha) * RtoC (wd n1 m m1 beta) * mirrored T i j m1 n1 n2 * (cexp (IZR m' * alpha) * RtoC (wd n2 m' m1 beta)))%C.
(** mean over the orientations: the azimuth of the axis is uniform, the zenith angle has the density p with respect to sin(beta) *)
Definition orientation_mean (p : R -> R) (f : R -> R -> C) (v : C) : Prop :=
  exists g : R -> C, (forall beta, is_CInt (fun alpha => f alpha beta) 0 (2 * PI) (RtoC (2 * PI) * g beta)%C) /\
    is_CInt (fun beta => RtoC (sin beta * p beta) * g beta)%C 0 PI v.
(** p has the Legendre moments given by coef up to order k *)
Definition has_moments (p : R -> R) (coef : Z -> R) (k : Z) : Prop :=
  forall N, (0 <= N <= k)%Z -> is_RInt (fun b => sin b * (p b * P (Z.to_nat N) 0 (cos b))) 0 PI (coef N).
(** the full matrix (diagonal in the azimuthal order) of which the elements with non-negative azimuthal order are stored *)
Definition full (T : tmat) (i j : bool) (m m' n1 n2 : Z) : C := if (m =? m')%Z then mirrored T i j m n1 n2 else RtoC 0.
Definition in_full_range (nmax m m' n1 n2 : Z) : Prop := (1 <= n1 <= nmax)%Z /\ (1 <= n2 <= nmax)%Z /\ (- n1 <= m <= n1)%Z /\ (- n2 <= m' <= n2)%Z.

(* ------------------------------------------------------------ proof *)
Lemma is_CInt_ext : forall f g a b v, (forall x, f x = g x) -> is_CInt f a b v -> is_CInt g a b v.
Proof. intros f g a b v E (A & B). split; [apply (is_RInt_ext (fun x => Re (f x))) | apply (is_RInt_ext (fun x => Im (f x)))]; auto; intros; rewrite E; auto. Qed.
Lemma is_CInt_0 : forall a b, is_CInt (fun _ => RtoC 0) a b (RtoC 0).
Proof. intros. split; cbn; (evar_last; [apply (is_RInt_const (V := R_NormedModule))|]); unfold scal; cbn; unfold mult; cbn; ring. Qed.
Lemma is_CInt_plus : forall f g a b u v, is_CInt f a b u -> is_CInt g a b v -> is_CInt (fun x => (f x + g x)%C) a b (u + v)%C.
Proof. intros f g a b u v (A & B) (D & E). split; cbn; [apply (is_RInt_plus (fun x => Re (f x)) (fun x => Re (g x))) | apply (is_RInt_plus (fun x => Im (f x)) (fun x => Im (g x)))]; auto. Qed.
Lemma is_CInt_real : forall f a b l z, is_RInt f a b l -> is_CInt (fun x => (RtoC (f x) * z)%C) a b (RtoC l * z)%C.
Proof.
  intros f a b l z H. split; cbn.
  - apply (is_RInt_ext (fun x => scal (fst z) (f x))); [intros; unfold scal; cbn; unfold mult; cbn; ring|]. replace (l * fst z - 0 * snd z) with (scal (fst z) l : R) by (unfold scal; cbn; unfold mult; cbn; ring). apply (is_RInt_scal f). auto.
  - apply (is_RInt_ext (fun x => scal (snd z) (f x))); [intros; unfold scal; cbn; unfold mult; cbn; ring|]. replace (l * snd z + 0 * fst z) with (scal (snd z) l : R) by (unfold scal; cbn; unfold mult; cbn; ring). apply (is_RInt_scal f). auto.
Qed.
Lemma is_CInt_csum : forall n (f : nat -> R -> C) a b (v : nat -> C), (forall k, (k < n)%nat -> is_CInt (f k) a b (v k)) -> is_CInt (fun x => csum (fun k => f k x) n) a b (csum v n).
Proof. induction n; intros f a b v H; cbn [csum]; [apply is_CInt_0|]. apply is_CInt_plus; [apply IHn; intros; apply H; lia | apply H; lia]. Qed.
Lemma is_CInt_zsum : forall lo hi (f : Z -> R -> C) a b (v : Z -> C), (forall k, (lo <= k <= hi)%Z -> is_CInt (f k) a b (v k)) -> is_CInt (fun x => zsum lo hi (fun k => f k x)) a b (zsum lo hi v).
Proof. intros. unfold zsum. apply (is_CInt_csum _ (fun k => f (lo + Z.of_nat k)%Z)). intros. apply H. lia. Qed.
Lemma zsum_scal : forall a b z f, zsum a b (fun k => (z * f k)%C) = (z * zsum a b f)%C.
Proof. intros. unfold zsum. apply csum_scal. Qed.
Lemma zsum_swap : forall a b c d f, zsum a b (fun i => zsum c d (f i)) = zsum c d (fun j => zsum a b (fun i => f i j)).
Proof. intros. unfold zsum. apply csum_swap. Qed.
Lemma zsum_RtoC : forall a b f, zsum a b (fun k => RtoC (f k)) = RtoC (zu a b f).
Proof. intros a b f. unfold zsum, zu. induction (Z.to_nat (b - a + 1)); cbn [csum su]; auto. rewrite IHn, RtoC_plus. auto. Qed.
Lemma zsum_0 : forall a b f, (forall k, (a <= k <= b)%Z -> f k = RtoC 0) -> zsum a b f = RtoC 0.
Proof. intros. unfold zsum. apply csum_0. intros. apply H. lia. Qed.

(** the rotated T-matrix at azimuth 0, azimuthal orders equal *)
Definition turned (T : tmat) (i j : bool) (m n1 n2 : Z) (beta : R) : C :=
  zsum (- Z.min n1 n2) (Z.min n1 n2) (fun m1 => (RtoC (wd n1 m m1 beta * wd n2 m m1 beta) * mirrored T i j m1 n1 n2)%C).
Lemma cexp_add : forall x y, (cexp x * cexp y)%C = cexp (x + y).
Proof. intros. unfold cexp. apply injective_projections; cbn; [rewrite cos_plus | rewrite sin_plus]; ring. Qed.
Lemma cexp_0 : cexp 0 = RtoC 1.
Proof. unfold cexp. rewrite cos_0, sin_0. auto. Qed.
Lemma cexp_int : forall k : Z, k <> 0%Z -> is_CInt (fun x => cexp (IZR k * x)) 0 (2 * PI) (RtoC 0).
Proof.
  intros k Hk. assert (K: IZR k <> 0) by (apply not_0_IZR; auto).
  assert (SP: forall z : Z, sin (IZR z * (2 * PI)) = 0) by (intros z; apply sin_eq_0_1; exists (2 * z)%Z; rewrite mult_IZR; ring).
  assert (CP: forall z : Z, cos (IZR z * (2 * PI)) = 1).
  { intros z. replace (IZR z * (2 * PI)) with (2 * (IZR z * PI)) by ring. rewrite cos_2a_sin. assert (S0: sin (IZR z * PI) = 0) by (apply sin_eq_0_1; exists z; auto). rewrite S0. ring. }
  split; cbn.
  - replace 0 with (minus ((fun x => sin (IZR k * x) / IZR k) (2 * PI)) ((fun x => sin (IZR k * x) / IZR k) 0)) at 2.
    + apply (is_RInt_derive (fun x => sin (IZR k * x) / IZR k) (fun x => cos (IZR k * x))); intros x _.
      * auto_derive; auto. field. auto.
      * apply (ex_derive_continuous (fun x => cos (IZR k * x))). auto_derive. auto.
    + unfold minus, plus, opp. cbn. rewrite SP, Rmult_0_r, sin_0. field. auto.
  - replace 0 with (minus ((fun x => - cos (IZR k * x) / IZR k) (2 * PI)) ((fun x => - cos (IZR k * x) / IZR k) 0)) at 2.
    + apply (is_RInt_derive (fun x => - cos (IZR k * x) / IZR k) (fun x => sin (IZR k * x))); intros x _.
      * auto_derive; auto. field. auto.
      * apply (ex_derive_continuous (fun x => sin (IZR k * x))). auto_derive. auto.
    + unfold minus, plus, opp. cbn. rewrite CP, Rmult_0_r, cos_0. field. auto.
Qed.
Lemma rotated_factor : forall T i j m m' n1 n2 a b,
  rotated T i j m m' n1 n2 a b = (cexp (IZR (m' - m) * a) * zsum (- Z.min n1 n2) (Z.min n1 n2) (fun m1 => RtoC (wd n1 m m1 b * wd n2 m' m1 b) * mirrored T i j m1 n1 n2))%C.
Proof.
  intros. rewrite <- zsum_scal. unfold rotated. apply zsum_ext. intros k _. replace (IZR (m' - m) * a) with (- IZR m * a + IZR m' * a) by (rewrite minus_IZR; ring).
  rewrite <- cexp_add, RtoC_mult. ring.
Qed.
(** the mean over the azimuth *)
Lemma azimuth_mean : forall T i j m m' n1 n2 b,
  is_CInt (fun a => rotated T i j m m' n1 n2 a b) 0 (2 * PI) (RtoC (2 * PI) * (if (m =? m')%Z then turned T i j m n1 n2 b else RtoC 0))%C.
Proof.
  intros T i j m m' n1 n2 b. set (S := zsum (- Z.min n1 n2) (Z.min n1 n2) (fun m1 => (RtoC (wd n1 m m1 b * wd n2 m' m1 b) * mirrored T i j m1 n1 n2)%C)).
  destruct (Z.eqb_spec m m') as [<-|N].
  - apply is_CInt_ext with (fun a => (RtoC 1 * S)%C).
    + intros a. rewrite rotated_factor. fold S. rewrite Z.sub_diag, Rmult_0_l, cexp_0. auto.
    + change (turned T i j m n1 n2 b) with S. apply (is_CInt_real (fun _ => 1)). evar_last; [apply (is_RInt_const (V := R_NormedModule))|]. unfold scal. cbn. unfold mult. cbn. ring.
  - apply is_CInt_ext with (fun a => (cexp (IZR (m' - m) * a) * S)%C); [intros a; rewrite rotated_factor; auto|].
    destruct (cexp_int (m' - m) ltac:(lia)) as (A & B). 
    pose proof (is_CInt_real _ _ _ _ S A) as A'. pose proof (is_CInt_real _ _ _ _ (Ci * S)%C B) as B'. pose proof (is_CInt_plus _ _ _ _ _ _ A' B') as D.
    match type of D with is_CInt _ _ _ ?v => replace (RtoC (2 * PI) * RtoC 0)%C with v by (apply injective_projections; cbn; ring) end.
    eapply is_CInt_ext; [|exact D]. intros a. cbv beta. unfold Ci. apply injective_projections; cbn; ring.
Qed.
Lemma sgn_alt : forall m, sgn m = if Z.even m then 1 else -1.
Proof. intros m. unfold sgn. rewrite Zeven_mod. unfold Zeq_bool. destruct (m mod 2)%Z; reflexivity. Qed.
Lemma sgn_minus : forall m k, (-1) ^ Z.to_nat (Z.abs (m - k)) = sgn m * sgn k.
Proof.
  intros m k. rewrite <- sgn_pow by lia. rewrite !sgn_alt. assert (E: Z.even (Z.abs (m - k)) = Bool.eqb (Z.even m) (Z.even k)).
  { rewrite <- Z.even_sub. destruct (Z.abs_eq_or_opp (m - k)) as [-> | ->]; auto. apply Z.even_opp. }
  rewrite E. destruct (Z.even m), (Z.even k); cbn; ring.
Qed.
Lemma sgn_square : forall m, sgn m * sgn m = 1.
Proof. intros m. rewrite sgn_alt. destruct (Z.even m); ring. Qed.
(** product of two d-functions as Legendre series *)
Lemma kernel_series : forall n1 n2 m m1 b, (0 <= n1)%Z -> (0 <= n2)%Z -> (Z.abs m <= Z.min n1 n2)%Z -> (Z.abs m1 <= Z.min n1 n2)%Z ->
  wd n1 m m1 b * wd n2 m m1 b = sgn m * sgn m1 * zu (Z.abs (n1 - n2)) (n1 + n2) (fun N => clebsch_gordan n1 m n2 (- m) N 0 * clebsch_gordan n1 m1 n2 (- m1) N 0 * P (Z.to_nat N) 0 (cos b)).
Proof.
  intros n1 n2 m m1 b H1 H2 A B.
  assert (E: wd n2 m m1 b = sgn m * sgn m1 * wd n2 (- m) (- m1) b).
  { rewrite wd_mirror, sgn_minus by lia. transitivity ((sgn m * sgn m) * (sgn m1 * sgn m1) * wd n2 m m1 b); [rewrite !sgn_square|]; ring. }
  rewrite E. transitivity (sgn m * sgn m1 * (wd n1 m m1 b * wd n2 (- m) (- m1) b)); [ring|]. rewrite cg_series by lia. f_equal. apply zu_ext. intros N HN.
  replace (m + - m)%Z with 0%Z by lia. replace (m1 + - m1)%Z with 0%Z by lia. rewrite <- wd_00. rewrite Z2Nat.id by lia.
  rewrite !cg_in by lia. replace (m + - m)%Z with 0%Z by lia. replace (m1 + - m1)%Z with 0%Z by lia. auto.
Qed.
Definition kernel (p : Z -> R) (n1 n2 m m1 : Z) : R :=
  sgn m * sgn m1 * zu (Z.abs (n1 - n2)) (n1 + n2) (fun N => clebsch_gordan n1 m n2 (- m) N 0 * clebsch_gordan n1 m1 n2 (- m1) N 0 * p N).
Lemma mishchenko_kernel : forall p T i j m n1 n2, mishchenko p T i j m n1 n2 =
  zsum (- Z.min n1 n2) (Z.min n1 n2) (fun m1 => (RtoC (kernel p n1 n2 m m1) * mirrored T i j m1 n1 n2)%C).
Proof.
  intros. unfold mishchenko.
  transitivity (zsum (Z.abs (n1 - n2)) (n1 + n2) (fun N => zsum (- Z.min n1 n2) (Z.min n1 n2) (fun m1 =>
    (RtoC (sgn m * p N * clebsch_gordan n1 m n2 (- m) N 0) * (RtoC (sgn m1 * clebsch_gordan n1 m1 n2 (- m1) N 0) * mirrored T i j m1 n1 n2))%C))).
  { apply zsum_ext. intros N HN. rewrite zsum_scal. auto. }
  rewrite zsum_swap. apply zsum_ext. intros m1 Hm1. unfold kernel.
  transitivity (zsum (Z.abs (n1 - n2)) (n1 + n2) (fun N => (mirrored T i j m1 n1 n2 * RtoC (sgn m * sgn m1 * (clebsch_gordan n1 m n2 (- m) N 0 * clebsch_gordan n1 m1 n2 (- m1) N 0 * p N)))%C)).
  { apply zsum_ext. intros N HN. rewrite !RtoC_mult. ring. }
  rewrite zsum_scal, zsum_RtoC, zu_scal. ring.
Qed.
Lemma is_RInt_zu : forall lo hi (f : Z -> R -> R) a b (v : Z -> R), (forall k, (lo <= k <= hi)%Z -> is_RInt (f k) a b (v k)) -> is_RInt (fun x => zu lo hi (fun k => f k x)) a b (zu lo hi v).
Proof.
  intros lo hi f a b v. unfold zu. assert (G: forall n, (forall k, (k < n)%nat -> is_RInt (f (lo + Z.of_nat k)%Z) a b (v (lo + Z.of_nat k)%Z)) ->
    is_RInt (fun x => su n (fun k => f (lo + Z.of_nat k)%Z x)) a b (su n (fun k => v (lo + Z.of_nat k)%Z))).
  { induction n; intros H; cbn [su].
    - evar_last; [apply (is_RInt_const (V := R_NormedModule))|]. unfold scal. cbn. unfold mult. cbn. ring.
    - apply (is_RInt_plus (fun x => su n (fun k => f (lo + Z.of_nat k)%Z x)) (f (lo + Z.of_nat n)%Z)); [apply IHn; intros; apply H; lia | apply H; lia]. }
  intros H. apply G. intros. apply H. lia.
Qed.
Lemma kernel_integral : forall p coef nmax n1 n2 m m1, has_moments p coef (2 * nmax) -> (1 <= n1 <= nmax)%Z -> (1 <= n2 <= nmax)%Z -> (Z.abs m <= Z.min n1 n2)%Z -> (Z.abs m1 <= Z.min n1 n2)%Z ->
  is_RInt (fun b => sin b * p b * (wd n1 m m1 b * wd n2 m m1 b)) 0 PI (kernel coef n1 n2 m m1).
Proof.
  intros p coef nmax n1 n2 m m1 M H1 H2 A B. unfold kernel. rewrite <- zu_scal.
  apply (is_RInt_ext (fun b => zu (Z.abs (n1 - n2)) (n1 + n2) (fun N => sgn m * sgn m1 * (clebsch_gordan n1 m n2 (- m) N 0 * clebsch_gordan n1 m1 n2 (- m1) N 0) * (sin b * (p b * P (Z.to_nat N) 0 (cos b)))))).
  { intros b _. rewrite kernel_series by lia. rewrite <- zu_scal, <- zu_scal. apply zu_ext. intros. ring. }
  apply is_RInt_zu. intros N HN. evar_last; [apply (is_RInt_scal (fun b => sin b * (p b * P (Z.to_nat N) 0 (cos b)))); apply M; lia|]. unfold scal. cbn. unfold mult. cbn. ring.
Qed.
Lemma kernel_fixed : forall b n1 n2 m m1, (0 <= n1)%Z -> (0 <= n2)%Z -> (Z.abs m <= Z.min n1 n2)%Z -> (Z.abs m1 <= Z.min n1 n2)%Z ->
  kernel (fun N => P (Z.to_nat N) 0 (cos b)) n1 n2 m m1 = wd n1 m m1 b * wd n2 m m1 b.
Proof. intros. rewrite kernel_series by auto. auto. Qed.
Lemma csum_reverse : forall n f, csum f n = csum (fun k => f (n - 1 - k)%nat) n.
Proof.
  induction n; intros f; auto. rewrite csum_first. cbn [csum]. rewrite (IHn (fun k => f (S k))).
  rewrite (csum_ext (fun k => f (S (n - 1 - k))) (fun k => f (S n - 1 - k)%nat)) by (intros; f_equal; lia).
  replace (S n - 1 - n)%nat with 0%nat by lia. ring.
Qed.
Lemma zsum_reflect : forall n f, zsum (- n) n f = zsum (- n) n (fun k => f (- k)%Z).
Proof. intros n f. unfold zsum. rewrite csum_reverse. apply csum_ext. intros k Hk. f_equal. lia. Qed.
Lemma kernel_mirror : forall p n1 n2 m m1, kernel p n1 n2 (- m) (- m1) = kernel p n1 n2 m m1.
Proof.
  intros. unfold kernel. rewrite !sgn_opp. f_equal. apply zu_ext. intros N HN.
  pose proof (cg_symmetry n1 m n2 (- m) N 0 ltac:(lia) ltac:(lia)) as A. pose proof (cg_symmetry n1 m1 n2 (- m1) N 0 ltac:(lia) ltac:(lia)) as B.
  change (- 0)%Z with 0%Z in A, B. rewrite A, B. pose proof (sgn_sq (Z.to_nat (n1 + n2 - N))) as Q.
  transitivity (((-1) ^ Z.to_nat (n1 + n2 - N) * (-1) ^ Z.to_nat (n1 + n2 - N)) * (clebsch_gordan n1 m n2 (- m) N 0 * clebsch_gordan n1 m1 n2 (- m1) N 0 * p N)); [ring | rewrite Q; ring].
Qed.
Definition flip (i j : bool) : C := RtoC (if xorb i j then -1 else 1).
Lemma mirrored_opp : forall T i j m n1 n2, (i <> j -> T i j 0%Z n1 n2 = RtoC 0) -> mirrored T i j (- m) n1 n2 = (flip i j * mirrored T i j m n1 n2)%C.
Proof.
  intros T i j m n1 n2 H. unfold mirrored, flip. destruct (Z.ltb_spec (- m) 0), (Z.ltb_spec m 0); try lia.
  - rewrite Z.opp_involutive. auto.
  - assert (F: (RtoC (-1) * RtoC (-1))%C = RtoC 1) by (rewrite <- RtoC_mult; f_equal; ring).
    destruct i, j; cbn [xorb]; try ring; match goal with |- ?t = _ => transitivity ((RtoC (-1) * RtoC (-1)) * t)%C; [rewrite F; ring | ring] end.
  - assert (m = 0%Z) as -> by lia. cbn. destruct i, j; cbn; try ring; rewrite H by discriminate; ring.
Qed.
(** in terms of Mishchenko's formula *)
Lemma mean_kernel : forall coef nmax (T out : tmat), (forall i j m n1 n2, in_range nmax m n1 n2 -> out i j m n1 n2 = mishchenko coef T i j m n1 n2) ->
  forall i j m n1 n2, (i <> j -> T i j 0%Z n1 n2 = RtoC 0) -> in_full_range nmax m m n1 n2 ->
  mirrored out i j m n1 n2 = zsum (- Z.min n1 n2) (Z.min n1 n2) (fun m1 => (RtoC (kernel coef n1 n2 m m1) * mirrored T i j m1 n1 n2)%C).
Proof.
  intros coef nmax T out D i j m n1 n2 HT (H1 & H2 & A & B). unfold mirrored at 1. destruct (Z.ltb_spec m 0) as [L|L].
  - rewrite D by (repeat split; lia). rewrite mishchenko_kernel. fold (flip i j). rewrite <- zsum_scal. rewrite zsum_reflect. apply zsum_ext. intros m1 Hm1. rewrite mirrored_opp by auto.
    rewrite kernel_mirror. transitivity ((flip i j * flip i j) * (RtoC (kernel coef n1 n2 m m1) * mirrored T i j m1 n1 n2))%C; [ring|].
    assert (F: (flip i j * flip i j)%C = RtoC 1) by (unfold flip; rewrite <- RtoC_mult; destruct (xorb i j); f_equal; ring). rewrite F. ring.
  - rewrite D by (repeat split; lia). apply mishchenko_kernel.
Qed.
Lemma mean_density : forall p coef nmax (T out : tmat), (forall i j m n1 n2, in_range nmax m n1 n2 -> out i j m n1 n2 = mishchenko coef T i j m n1 n2) -> has_moments p coef (2 * nmax) ->
  forall i j m m' n1 n2, (i <> j -> T i j 0%Z n1 n2 = RtoC 0) -> in_full_range nmax m m' n1 n2 -> orientation_mean p (rotated T i j m m' n1 n2) (full out i j m m' n1 n2).
Proof.
  intros p coef nmax T out D M i j m m' n1 n2 HT R.
  exists (fun b => if (m =? m')%Z then turned T i j m n1 n2 b else RtoC 0). split; [intros b; apply azimuth_mean|].
  unfold full. destruct (Z.eqb_spec m m') as [<-|N].
  - rewrite (mean_kernel coef nmax T out) by auto. destruct R as (H1 & H2 & A & B).
    apply is_CInt_ext with (fun b => zsum (- Z.min n1 n2) (Z.min n1 n2) (fun m1 => (RtoC (sin b * p b * (wd n1 m m1 b * wd n2 m m1 b)) * mirrored T i j m1 n1 n2)%C)).
    + intros b. unfold turned. rewrite <- zsum_scal. apply zsum_ext. intros k Hk. rewrite (RtoC_mult (sin b * p b)). ring.
    + apply (is_CInt_zsum _ _ (fun m1 b => (RtoC (sin b * p b * (wd n1 m m1 b * wd n2 m m1 b)) * mirrored T i j m1 n1 n2)%C)). intros k Hk. apply is_CInt_real. eapply kernel_integral; eauto; lia.
  - eapply is_CInt_ext; [|apply is_CInt_0]. intros b. cbv beta. ring.
Qed.
Lemma mean_angle : forall angle coef nmax (T out : tmat), (forall i j m n1 n2, in_range nmax m n1 n2 -> out i j m n1 n2 = mishchenko coef T i j m n1 n2) ->
  (forall N, (0 <= N <= 2 * nmax)%Z -> coef N = P (Z.to_nat N) 0 (cos angle)) ->
  forall i j m m' n1 n2, (i <> j -> T i j 0%Z n1 n2 = RtoC 0) -> in_full_range nmax m m' n1 n2 ->
  is_CInt (fun alpha => rotated T i j m m' n1 n2 alpha angle) 0 (2 * PI) (RtoC (2 * PI) * full out i j m m' n1 n2)%C.
Proof.
  intros angle coef nmax T out D M i j m m' n1 n2 HT R.
  assert (EQ: full out i j m m' n1 n2 = if (m =? m')%Z then turned T i j m n1 n2 angle else RtoC 0); [|rewrite EQ; apply azimuth_mean].
  unfold full. destruct (Z.eqb_spec m m') as [<-|N]; auto. rewrite (mean_kernel coef nmax T out) by auto. destruct R as (H1 & H2 & A & B).
  unfold turned. apply zsum_ext. intros k Hk. do 2 f_equal. rewrite <- kernel_fixed by lia. unfold kernel. f_equal. apply zu_ext. intros q Hq. rewrite M by lia. auto.
Qed.
Lemma average_formula : forall coef nmax T cg old cg' out, (0 <= nmax)%Z -> (2 * nmax < Z.of_nat (length coef))%Z -> (Z.of_nat (length cg) >= (2 * nmax + 1) * (2 * nmax + 1))%Z ->
  (forall i j n1 n2, i <> j -> T i j 0%Z n1 n2 = RtoC 0) -> execute true coef nmax T cg old = Some (cg', out) ->
  forall i j m n1 n2, in_range nmax m n1 n2 -> out i j m n1 n2 = mishchenko (coefficient coef) T i j m n1 n2.
Proof.
  intros coef nmax T cg old cg' out Hn HC HL HT E.
  destruct (C58_average coef nmax T cg old Hn HC HL (fun i j n1 n2 _ _ => HT i j n1 n2)) as (c2 & o2 & E2 & D). rewrite E in E2. injection E2 as <- <-. auto.
Qed.
Lemma average_kernel : forall coef nmax T cg old cg' out, (0 <= nmax)%Z -> (2 * nmax < Z.of_nat (length coef))%Z -> (Z.of_nat (length cg) >= (2 * nmax + 1) * (2 * nmax + 1))%Z ->
  (forall i j n1 n2, i <> j -> T i j 0%Z n1 n2 = RtoC 0) -> execute true coef nmax T cg old = Some (cg', out) ->
  forall i j m n1 n2, in_full_range nmax m m n1 n2 ->
  mirrored out i j m n1 n2 = zsum (- Z.min n1 n2) (Z.min n1 n2) (fun m1 => (RtoC (kernel (coefficient coef) n1 n2 m m1) * mirrored T i j m1 n1 n2)%C).
Proof. intros. eapply mean_kernel; eauto. eapply average_formula; eauto. Qed.

(* ------------------------------------------------------------ theorems *)
(** For every orientation density with the given moments, the result of averaging is, element by element of the full matrix, the mean of the rotated T-matrices. *)
Theorem C89_average : forall p coef nmax T cg old cg' out, (0 <= nmax)%Z -> (2 * nmax < Z.of_nat (length coef))%Z -> (Z.of_nat (length cg) >= (2 * nmax + 1) * (2 * nmax + 1))%Z ->
  (forall i j n1 n2, i <> j -> T i j 0%Z n1 n2 = RtoC 0) -> execute true coef nmax T cg old = Some (cg', out) ->
  has_moments p (coefficient coef) (2 * nmax) ->
  forall i j m m' n1 n2, in_full_range nmax m m' n1 n2 -> orientation_mean p (rotated T i j m m' n1 n2) (full out i j m m' n1 n2).
Proof. intros. eapply mean_density; eauto. eapply average_formula; eauto. Qed.
Print Assumptions C89_average.
(** All axes at the same angle to the z axis *)
Theorem C89_fixed_angle : forall angle coef nmax T cg old cg' out, (0 <= nmax)%Z -> (2 * nmax < Z.of_nat (length coef))%Z -> (Z.of_nat (length cg) >= (2 * nmax + 1) * (2 * nmax + 1))%Z ->
  (forall i j n1 n2, i <> j -> T i j 0%Z n1 n2 = RtoC 0) -> execute true coef nmax T cg old = Some (cg', out) ->
  (forall N, (0 <= N <= 2 * nmax)%Z -> coefficient coef N = P (Z.to_nat N) 0 (cos angle)) ->
  forall i j m m' n1 n2, in_full_range nmax m m' n1 n2 -> is_CInt (fun alpha => rotated T i j m m' n1 n2 alpha angle) 0 (2 * PI) (RtoC (2 * PI) * full out i j m m' n1 n2)%C.
Proof. intros. eapply mean_angle; eauto. eapply average_formula; eauto. Qed.
Print Assumptions C89_fixed_angle.
(** Perfect alignment of oblate grains (C31): the average is the T-matrix itself. *)
Theorem C89_perfect_alignment : forall coef nmax T cg old cg' out, (0 <= nmax)%Z -> (2 * nmax < Z.of_nat (length coef))%Z -> (Z.of_nat (length cg) >= (2 * nmax + 1) * (2 * nmax + 1))%Z ->
  (forall i j n1 n2, i <> j -> T i j 0%Z n1 n2 = RtoC 0) -> execute true coef nmax T cg old = Some (cg', out) ->
  (forall N, (0 <= N <= 2 * nmax)%Z -> coefficient coef N = P (Z.to_nat N) 0 1) ->
  forall i j m n1 n2, in_range nmax m n1 n2 -> out i j m n1 n2 = T i j m n1 n2.
Proof.
  intros coef nmax T cg old cg' out Hn HC HL HT E M i j m n1 n2 (R0 & R1 & R2).
  assert (F: in_full_range nmax m m n1 n2) by (repeat split; lia).
  pose proof (average_kernel coef nmax T cg old cg' out Hn HC HL HT E i j m n1 n2 F) as K. unfold mirrored at 1 in K. rewrite (proj2 (Z.ltb_ge m 0)) in K by lia. rewrite K.
  transitivity (zsum (- Z.min n1 n2) (Z.min n1 n2) (fun m1 => (RtoC (if (m =? m1)%Z then 1 else 0) * mirrored T i j m1 n1 n2)%C)).
  - apply zsum_ext. intros k Hk. do 2 f_equal. transitivity (kernel (fun N => P (Z.to_nat N) 0 (cos 0)) n1 n2 m k).
    + unfold kernel. f_equal. apply zu_ext. intros q Hq. rewrite M, cos_0 by lia. auto.
    + rewrite kernel_fixed, !wd_0 by lia. destruct (m =? k)%Z; ring.
  - unfold zsum. assert (Q: forall q n f, (q < n)%nat -> (forall k, (k < n)%nat -> k <> q -> f k = RtoC 0) -> csum f n = f q).
    { intros q. induction n as [|n IH]; intros f Hq Hf; [lia|]. cbn [csum]. destruct (Nat.eq_dec q n) as [->|N].
      - rewrite csum_0; [ring|]. intros; apply Hf; lia.
      - rewrite IH, (Hf n) by (try lia; intros; apply Hf; lia). ring. }
    rewrite (Q (Z.to_nat (m + Z.min n1 n2))); [|lia|].
    + replace (- Z.min n1 n2 + Z.of_nat (Z.to_nat (m + Z.min n1 n2)))%Z with m by lia. rewrite Z.eqb_refl. unfold mirrored. rewrite (proj2 (Z.ltb_ge m 0)) by lia. ring.
    + intros k Hk N. rewrite (proj2 (Z.eqb_neq m (- Z.min n1 n2 + Z.of_nat k))) by lia. ring.
Qed.
Print Assumptions C89_perfect_alignment.

(** The distributions of the orientation objects of the Python module. *)
Definition coefficients_of (d : distribution) : list R := map (Orientation.coef d) (seq 0 (size d)).
Lemma coefficients_nth : forall d N, (0 <= N < Z.of_nat (size d))%Z -> coefficient (coefficients_of d) N = Orientation.coef d (Z.to_nat N).
Proof.
  intros d N H. unfold coefficient, coefficients_of. rewrite (List.nth_indep _ 0 (Orientation.coef d 0)) by (rewrite map_length, seq_length; lia).
  rewrite map_nth, seq_nth by lia. auto.
Qed.
Lemma coefficients_length : forall d, length (coefficients_of d) = size d.
Proof. intros. unfold coefficients_of. rewrite map_length, seq_length. auto. Qed.
(** Mishchenko's imperfect alignment, of any strength c = <cos^2 beta> *)
Theorem C89_imperfect_alignment : forall c order nmax T cg old, 1 / 5 <= c <= 3 / 5 -> (2 <= order)%nat -> (2 * nmax <= Z.of_nat order)%Z -> (0 <= nmax)%Z ->
  (Z.of_nat (length cg) >= (2 * nmax + 1) * (2 * nmax + 1))%Z -> (forall i j n1 n2, i <> j -> T i j 0%Z n1 n2 = RtoC 0) ->
  exists d cg' out, Orientation.mishchenko order c = Ok d /\ execute true (coefficients_of d) nmax T cg old = Some (cg', out) /\
  forall i j m m' n1 n2, in_full_range nmax m m' n1 n2 ->
    orientation_mean (fun b => mishchenko_pdf c (cos b)) (rotated T i j m m' n1 n2) (full out i j m m' n1 n2).
Proof.
  intros c order nmax T cg old Hc Ho Hno Hn HL HT. destruct (C50_coefficients_are_moments order c Hc Ho) as (d & E & Sz & M).
  assert (HC: (2 * nmax < Z.of_nat (length (coefficients_of d)))%Z) by (rewrite coefficients_length, Sz; lia).
  destruct (C58_average (coefficients_of d) nmax T cg old Hn HC HL (fun i j n1 n2 _ _ => HT i j n1 n2)) as (cg' & out & X & _).
  exists d, cg', out. split; auto. split; auto. intros. eapply C89_average; eauto.
  intros N HN. rewrite coefficients_nth by lia. apply M.
Qed.
Print Assumptions C89_imperfect_alignment.
(** Davis-Greenstein alignment: spinning oblate grains have their axis along z, prolate grains perpendicular to it, with all azimuths equally likely. *)
Theorem C89_davis_greenstein : forall q order nmax T cg old, (2 * nmax <= Z.of_nat order)%Z -> (0 <= nmax)%Z ->
  (Z.of_nat (length cg) >= (2 * nmax + 1) * (2 * nmax + 1))%Z -> (forall i j n1 n2, i <> j -> T i j 0%Z n1 n2 = RtoC 0) ->
  exists cg' out, execute true (coefficients_of (davis_greenstein order q)) nmax T cg old = Some (cg', out) /\
  forall i j m m' n1 n2, in_full_range nmax m m' n1 n2 ->
    is_CInt (fun alpha => rotated T i j m m' n1 n2 alpha (if Rlt_dec q 1 then PI / 2 else 0)) 0 (2 * PI) (RtoC (2 * PI) * full out i j m m' n1 n2)%C.
Proof.
  intros q order nmax T cg old Hno Hn HL HT. set (d := davis_greenstein order q).
  assert (Sz: size d = (order + 1)%nat) by (unfold d; destruct (Rlt_dec q 1) as [A|A]; [apply (C31_prolate order q 0 A); lia | apply (C31_oblate order q 0); [lra | lia]]).
  assert (HC: (2 * nmax < Z.of_nat (length (coefficients_of d)))%Z) by (rewrite coefficients_length, Sz; lia).
  destruct (C58_average (coefficients_of d) nmax T cg old Hn HC HL (fun i j n1 n2 _ _ => HT i j n1 n2)) as (cg' & out & X & _).
  exists cg', out. split; auto. intros. eapply C89_fixed_angle; eauto.
  intros N HN. rewrite coefficients_nth by lia. unfold d. destruct (Rlt_dec q 1) as [A|A].
  - rewrite cos_PI2. apply (C31_prolate order q (Z.to_nat N) A). lia.
  - rewrite cos_0. apply (C31_oblate order q (Z.to_nat N)); [lra | lia].
Qed.
Print Assumptions C89_davis_greenstein.
Example C89_nonvacuous : exists d cg' out, Orientation.mishchenko 4 (1 / 2) = Ok d /\ execute true (coefficients_of d) 2 ex_T (repeat 0 25) ex_T = Some (cg', out) /\
  has_moments (fun b => mishchenko_pdf (1 / 2) (cos b)) (coefficient (coefficients_of d)) 4 /\
  (forall i j n1 n2, i <> j -> ex_T i j 0%Z n1 n2 = RtoC 0) /\ in_full_range 2 (-1) 1 2 1 /\ coefficient (coefficients_of d) 2 = 1 / 4.
Proof.
  assert (T0: forall i j n1 n2, i <> j -> ex_T i j 0%Z n1 n2 = RtoC 0) by (intros [] [] n1 n2 H; try congruence; reflexivity).
  destruct (C50_coefficients_are_moments 4 (1 / 2) ltac:(lra) ltac:(lia)) as (d & E & Sz & M).
  destruct (C58_average (coefficients_of d) 2 ex_T (repeat 0 25) ex_T) as (cg' & out & X & _); auto; [lia | rewrite coefficients_length, Sz; lia | cbn; lia |].
  exists d, cg', out. split; auto. split; auto. split; [intros N HN; rewrite coefficients_nth by lia; apply M|]. split; auto. split; [repeat split; lia|].
  rewrite coefficients_nth by lia. destruct C50_example as (d' & E' & V). rewrite E in E'. injection E' as ->. exact V.
Qed.

(* ------------------------------------------------------------ power *)
(** sum of the squared moduli of the elements with given n1, n2, i, j *)
Definition square (z : C) : R := Re z * Re z + Im z * Im z.
Definition block_power (t : Z -> Z -> C) (n1 n2 : Z) : R := zu (- n1) n1 (fun m => zu (- n2) n2 (fun m' => square (t m m'))).
Lemma wd_orthonormal : forall n k k' x, (0 <= n)%Z -> (- n <= k <= n)%Z -> (- n <= k' <= n)%Z -> zu (- n) n (fun m => wd n m k x * wd n m k' x) = if (k =? k')%Z then 1 else 0.
Proof.
  intros n k k' x Hn Hk Hk'. set (f := fun t => zu (- n) n (fun m => wd n m k t * wd n m k' t)).
  transitivity (f 0).
  - apply (constant f). intros t. unfold f. evar_last.
    + apply (is_derive_zu _ _ (fun m t => wd n m k t * wd n m k' t)). intros m Hm. apply (is_derive_mult (K := R_AbsRing) (wd n m k) (wd n m k')); [apply wd_derive; auto | apply wd_derive; auto | intros; apply Rmult_comm].
    + unfold plus, mult. cbn.
      pose proof (turn_antisym n (fun m => wd n m k t) Hn) as A. pose proof (turn_antisym n (fun m => wd n m k' t) Hn) as B.
      pose proof (turn_antisym n (fun m => wd n m k t + wd n m k' t) Hn) as D. cbv beta in A, B, D.
      transitivity (1 / 2 * (zu (- n) n (fun m => (wd n m k t + wd n m k' t) * (c n (m - 1) * (wd n (m - 1) k t + wd n (m - 1) k' t) - c n m * (wd n (m + 1) k t + wd n (m + 1) k' t))) +
        -1 * zu (- n) n (fun m => wd n m k t * (c n (m - 1) * wd n (m - 1) k t - c n m * wd n (m + 1) k t)) +
        -1 * zu (- n) n (fun m => wd n m k' t * (c n (m - 1) * wd n (m - 1) k' t - c n m * wd n (m + 1) k' t)))).
      * rewrite <- !zu_scal, <- !zu_plus, <- zu_scal. apply zu_ext. intros m Hm. ring.
      * rewrite A, B, D. ring.
  - unfold f. rewrite (zu_pick _ _ _ k) by (auto; intros m Hm N; rewrite !wd_0 by auto; rewrite (proj2 (Z.eqb_neq m k)) by auto; ring).
    rewrite !wd_0 by auto. rewrite Z.eqb_refl. ring.
Qed.
Lemma zu_mul : forall a b a' b' f g, zu a b f * zu a' b' g = zu a b (fun i => zu a' b' (fun j => f i * g j)).
Proof. intros. rewrite Rmult_comm, <- zu_scal. apply zu_ext. intros. rewrite zu_scal. ring. Qed.
Lemma real_power : forall n1 n2 x (r : Z -> R), (0 <= n1)%Z -> (0 <= n2)%Z -> let l := Z.min n1 n2 in
  zu (- n1) n1 (fun m => zu (- n2) n2 (fun m' => zu (- l) l (fun k => wd n1 m k x * wd n2 m' k x * r k) * zu (- l) l (fun k => wd n1 m k x * wd n2 m' k x * r k))) = zu (- l) l (fun k => r k * r k).
Proof.
  intros n1 n2 x r H1 H2 l. assert (Hl: (l <= n1 /\ l <= n2)%Z) by (unfold l; lia).
  transitivity (zu (- l) l (fun k => zu (- l) l (fun k' => r k * r k' * (zu (- n1) n1 (fun m => wd n1 m k x * wd n1 m k' x) * zu (- n2) n2 (fun m' => wd n2 m' k x * wd n2 m' k' x))))).
  - transitivity (zu (- n1) n1 (fun m => zu (- n2) n2 (fun m' => zu (- l) l (fun k => zu (- l) l (fun k' => (wd n1 m k x * wd n2 m' k x * r k) * (wd n1 m k' x * wd n2 m' k' x * r k')))))).
    { apply zu_ext. intros m _. apply zu_ext. intros m' _. apply zu_mul. }
    transitivity (zu (- n1) n1 (fun m => zu (- l) l (fun k => zu (- l) l (fun k' => zu (- n2) n2 (fun m' => (wd n1 m k x * wd n2 m' k x * r k) * (wd n1 m k' x * wd n2 m' k' x * r k')))))).
    { apply zu_ext. intros m _. rewrite zu_swap. apply zu_ext. intros k _. apply zu_swap. }
    rewrite zu_swap. apply zu_ext. intros k _. rewrite zu_swap. apply zu_ext. intros k' _. rewrite zu_mul, <- zu_scal. apply zu_ext. intros m _. rewrite <- zu_scal. apply zu_ext. intros m' _. ring.
  - apply zu_ext. intros k Hk. rewrite (zu_pick _ _ _ k) by (auto; intros k' Hk' N; rewrite !wd_orthonormal by lia; rewrite (proj2 (Z.eqb_neq k k')) by auto; ring).
    rewrite !wd_orthonormal by lia. rewrite Z.eqb_refl. ring.
Qed.
Lemma square_mul : forall a b, square (a * b)%C = square a * square b.
Proof. intros (a1, a2) (b1, b2). unfold square. cbn. ring. Qed.
Lemma square_cexp : forall x, square (cexp x) = 1.
Proof. intros. unfold square, cexp. cbn. pose proof (sin2_cos2 x) as E. unfold Rsqr in E. lra. Qed.
Lemma zsum_parts : forall a b f, zsum a b f = (zu a b (fun k => Re (f k)), zu a b (fun k => Im (f k))).
Proof. intros a b f. unfold zsum, zu. induction (Z.to_nat (b - a + 1)); cbn [csum su]; auto. rewrite IHn. auto. Qed.
Lemma re_scal : forall r z, Re (RtoC r * z)%C = r * Re z.
Proof. intros r (x, y). cbn. ring. Qed.
Lemma im_scal : forall r z, Im (RtoC r * z)%C = r * Im z.
Proof. intros r (x, y). cbn. ring. Qed.
(** Turning a particle does not change the power in any block of its T-matrix. *)
Theorem C89_power : forall T i j n1 n2 alpha beta, (0 <= n1)%Z -> (0 <= n2)%Z ->
  block_power (fun m m' => rotated T i j m m' n1 n2 alpha beta) n1 n2 = block_power (fun m m' => full T i j m m' n1 n2) n1 n2.
Proof.
  intros T i j n1 n2 al be H1 H2. set (l := Z.min n1 n2).
  transitivity (zu (- l) l (fun k => Re (mirrored T i j k n1 n2) * Re (mirrored T i j k n1 n2)) + zu (- l) l (fun k => Im (mirrored T i j k n1 n2) * Im (mirrored T i j k n1 n2))).
  - rewrite <- !(real_power n1 n2 be) by auto. rewrite <- zu_plus. apply zu_ext. intros m Hm. rewrite <- zu_plus. apply zu_ext. intros m' Hm'.
    replace (rotated T i j m m' n1 n2 al be) with (cexp (- IZR m * al + IZR m' * al) * zsum (- l) l (fun k => RtoC (wd n1 m k be * wd n2 m' k be) * mirrored T i j k n1 n2))%C.
    + rewrite square_mul, square_cexp, zsum_parts. unfold square. cbn [Re Im fst snd].
      rewrite Rmult_1_l. f_equal; f_equal; apply zu_ext; intros; (apply re_scal || apply im_scal).
    + unfold rotated. fold l. rewrite <- zsum_scal. apply zsum_ext. intros k Hk. rewrite <- cexp_add, RtoC_mult. ring.
  - rewrite <- zu_plus. unfold block_power. symmetry.
    rewrite (zu_ext (- n1) n1 _ (fun m => if inside l m then square (mirrored T i j m n1 n2) else 0)).
    + rewrite <- (zu_widen (- l) l) by (try (unfold l; lia); intros k Hk N; destruct (inside l k) eqn:E; auto; apply inside_true in E; unfold l in *; lia).
      apply zu_ext. intros k Hk. rewrite (proj2 (inside_true l k)) by auto. reflexivity.
    + intros m Hm. destruct (inside l m) eqn:E.
      * apply inside_true in E. rewrite (zu_pick _ _ _ m); [unfold full; rewrite Z.eqb_refl; auto | unfold l in *; lia |]. intros k Hk N. unfold full. rewrite (proj2 (Z.eqb_neq m k)) by auto. unfold square. cbn. ring.
      * apply zu_0. intros k Hk. unfold full. destruct (Z.eqb_spec m k) as [<-|N]; [|unfold square; cbn; ring].
        assert (inside l m = true) by (apply inside_true; unfold l; lia). congruence.
Qed.
Print Assumptions C89_power.
(** But averaging does: the power scattered by the ensemble (the mean of the powers of the particles) is not that of the averaged T-matrix, from which
    the code computes the scattering matrices. *)
Definition one_T : tmat := fun i j m n1 n2 => if (negb i && negb j && (m =? 0) && (n1 =? 1) && (n2 =? 1))%Z then RtoC 1 else RtoC 0.
Theorem C89_power_of_average_refuted : exists cg' out, execute true [1; 0; 0] 1 one_T (repeat 0 9) one_T = Some (cg', out) /\
  has_moments (fun _ => 1 / 2) (coefficient [1; 0; 0]) 2 /\
  (forall alpha beta, block_power (fun m m' => rotated one_T false false m m' 1 1 alpha beta) 1 1 = 1) /\ block_power (fun m m' => full out false false m m' 1 1) 1 1 = 1 / 3.
Proof.
  assert (T0: forall i j n1 n2, i <> j -> one_T i j 0%Z n1 n2 = RtoC 0) by (intros [] [] n1 n2 H; try congruence; reflexivity).
  destruct (C58_average [1; 0; 0] 1 one_T (repeat 0 9) one_T) as (cg' & out & X & _); auto; [lia | cbn; lia | cbn; lia |].
  exists cg', out. split; auto. split; [|split].
  - intros N HN. pose proof (mishchenko_moments (1 / 3) (Z.to_nat N)) as M. replace (coefficient [1; 0; 0] N) with (if (Z.to_nat N =? 0)%nat then 1 else if (Z.to_nat N =? 2)%nat then p2 (1 / 3) else 0).
    + apply (is_RInt_ext (fun b => sin b * (mishchenko_pdf (1 / 3) (cos b) * P (Z.to_nat N) 0 (cos b)))); auto. intros x _. do 2 f_equal. unfold mishchenko_pdf, p2. field.
    + assert (D: N = 0%Z \/ N = 1%Z \/ N = 2%Z) by lia. unfold coefficient, p2. destruct D as [ -> | [ -> | -> ]]; [reflexivity | change (Z.to_nat 1) with 1%nat | change (Z.to_nat 2) with 2%nat]; cbn [Nat.eqb List.nth]; field.
  - intros al be. rewrite C89_power by lia. unfold block_power.
    assert (S0: square (RtoC 0) = 0) by (unfold square; cbn; ring).
    rewrite (zu_pick _ _ _ 0%Z); [|lia|].
    + rewrite (zu_pick _ _ _ 0%Z); [|lia|]; [unfold square; cbn; ring|]. intros k Hk N. unfold full. rewrite (proj2 (Z.eqb_neq 0 k)) by auto. apply S0.
    + intros m Hm N. apply zu_0. intros k Hk. unfold full. destruct (m =? k)%Z; [|apply S0].
      replace (mirrored one_T false false m 1 1) with (RtoC 0); auto. assert (D: m = (-1)%Z \/ m = 1%Z) by lia. destruct D as [ -> | -> ]; apply injective_projections; cbn; ring.
  - assert (V: forall m, (m = 0 \/ m = 1)%Z -> out false false m 1%Z 1%Z = RtoC (1 / 3)).
    { intros m Hm. rewrite (C59_random_orientation [1; 0; 0] 1 one_T (repeat 0 9) one_T cg' out); auto; [| lia | cbn; lia | intros N HN; unfold coefficient; destruct (Z.to_nat N) as [|[|[|k]]] eqn:Q; auto; [lia | destruct k; auto] | cbn; lia | repeat split; lia].
      cbn [eqb andb Z.eqb Pos.eqb]. unfold trace. replace (Z.to_nat 1) with 1%nat by lia. cbn [csum].
      replace (one_T false false 0%Z 1%Z 1%Z) with (RtoC 1) by auto. replace (one_T false false (Z.of_nat 1) 1%Z 1%Z) with (RtoC 0) by auto.
      apply injective_projections; cbn [fst snd RtoC Cmult Cplus]; change (2 * 1 + 1)%Z with 3%Z; field. }
    assert (Q: block_power (fun m m' => full out false false m m' 1 1) 1 1 = zu (- (1)) 1 (fun _ => 1 / 9)).
    { unfold block_power. apply zu_ext. intros m Hm. rewrite (zu_pick _ _ _ m); auto.
      - unfold full. rewrite Z.eqb_refl. assert (D: m = (-1)%Z \/ m = 0%Z \/ m = 1%Z) by lia.
        assert (W: mirrored out false false m 1 1 = RtoC (1 / 3)).
        { unfold mirrored. destruct D as [ -> | [ -> | -> ]]; cbn [Z.ltb Z.compare xorb]; [change (- -1)%Z with 1%Z | |]; rewrite V by lia; auto. apply injective_projections; cbn; ring. }
        rewrite W. unfold square. cbn. field.
      - intros k Hk N. unfold full. rewrite (proj2 (Z.eqb_neq m k)) by auto. unfold square. cbn. ring. }
    rewrite Q. unfold zu. replace (Z.to_nat (1 - - (1) + 1)) with 3%nat by lia. cbn [su]. field.
Qed.
Print Assumptions C89_power_of_average_refuted.
