(** The surface integrals of Ebcm.v for a sphere: axis ratio 1 and a quadrature rule that is exact for polynomials of degree n + n'. *)
From Coq Require Import List ZArith Arith Lia Bool Reals Lra.
From Coquelicot Require Import Complex Coquelicot.
From Verif Require Import Matrix Props_matrix Quadrature Wigner Props_wigner Align AlignFacts QMatrix QFacts Ebcm EbcmFacts Legendre Ortho Props_tmatrix.
From Verif Require AverageFacts Props_outputs.
Import ListNotations.
Open Scope R_scope.

Lemma cbrt_1 : cbrt 1 = 1.
Proof. unfold cbrt. unfold Rpower. rewrite ln_1, Rmult_0_r. apply exp_0. Qed.
Lemma radius_sphere : forall t, radius 1 t = 1.
Proof. intros t. unfold radius. rewrite cbrt_1. replace (sin t * sin t + 1 * 1 * (cos t * cos t)) with 1 by (pose proof (sin2_cos2 t) as E; unfold Rsqr in E; lra). rewrite sqrt_1. field. Qed.
Lemma radius_sphere_derive : forall t, Derive (radius 1) t = 0.
Proof. intros t. rewrite (Derive_ext _ (fun _ => 1)) by (intros; apply radius_sphere). apply Derive_const. Qed.

(** size parameter inside and outside *)
Definition size_parameter (R_V wavelength : R) : R := 2 * PI * R_V / wavelength.
(** rows and columns *)
Lemma index_eq : forall nmax m i j, (i < 2 * orders m nmax)%nat -> (j < 2 * orders m nmax)%nat ->
  ((order_of m nmax i =? order_of m nmax j)%nat && Bool.eqb (kb (kind_of m nmax i)) (kb (kind_of m nmax j)))%bool = (i =? j)%nat.
Proof.
  intros nmax m i j Hi Hj. unfold order_of, kind_of. destruct (Nat.ltb_spec i (orders m nmax)), (Nat.ltb_spec j (orders m nmax)); cbn [kb Bool.eqb]; rewrite ?andb_true_r, ?andb_false_r.
  - destruct (Nat.eqb_spec i j), (Nat.eqb_spec (lowest m + i) (lowest m + j)); auto; lia.
  - destruct (Nat.eqb_spec i j); auto; lia.
  - destruct (Nat.eqb_spec i j); auto; lia.
  - destruct (Nat.eqb_spec i j), (Nat.eqb_spec (lowest m + (i - orders m nmax)) (lowest m + (j - orders m nmax))); auto; lia.
Qed.
Lemma order_range : forall nmax m i, (m <= nmax)%nat -> (1 <= nmax)%nat -> (i < 2 * orders m nmax)%nat -> (Nat.max 1 m <= order_of m nmax i <= nmax)%nat.
Proof. intros nmax m i Hm Hn Hi. unfold order_of, orders, lowest in *. destruct (Nat.ltb_spec i (nmax + 1 - Nat.max 1 m)); lia. Qed.
Section Sphere.
Variables (R_V wavelength : R) (mr : C) (b : radial).
Hypotheses (HR : 0 < R_V) (Hl : 0 < wavelength) (Hmr : mr <> RtoC 0).
Let x_ := size_parameter R_V wavelength.
Definition h_ (rg : bool) (n : nat) : C := if rg then !(jay b n x_) else (jay b n x_, why b n x_).
Definition dh_ (rg : bool) (n : nat) : C := if rg then !(djay b n x_) else (djay b n x_, dwhy b n x_).
Definition j_ (n : nat) : C := jayc b n (mr * !x_)%C.
Definition dj_ (n : nat) : C := djayc b n (mr * !x_)%C.
(** the radial part of the diagonal *)
Definition diagonal (rg : bool) (p : kind) (n : nat) : C :=
  match p with WM => mr * (h_ rg n * dj_ n) - j_ n * dh_ rg n | WN => h_ rg n * dj_ n - mr * (j_ n * dh_ rg n) end%C.
Definition sphere_factor (m n : nat) : R := - (2 * PI * ((-1) ^ m * (gam n * gam n) * (R_V * R_V)) * (k_ wavelength * k_ wavelength) * gram_norm n).
Lemma x_pos : 0 < x_.
Proof. unfold x_, size_parameter. pose proof PI_RGT_0. apply Rdiv_lt_0_compat; auto. apply Rmult_lt_0_compat; auto. lra. Qed.
Lemma kr_sphere : forall t, kr_ 1 R_V wavelength t = x_.
Proof. intros t. unfold kr_, k_, x_, size_parameter. rewrite radius_sphere. field. lra. Qed.
Lemma kmr_sphere : forall t, kmr_ 1 R_V wavelength mr t = (mr * !x_)%C.
Proof. intros t. unfold kmr_. f_equal. f_equal. exact (kr_sphere t). Qed.

Lemma azimuth_sphere : forall rg p q m n n' t, 0 < sin t ->
  azimuth (integrand 1 R_V wavelength mr b rg p q m n n' t) =
  (!(- (2 * PI * ((-1) ^ m * (gam n * gam n') * (R_V * R_V)) * (k_ wavelength * k_ wavelength))) *
   match p, q with
   | WM, WM => !(gram_even n n' m t) * (mr * (h_ rg n * dj_ n') - j_ n' * dh_ rg n)
   | WN, WN => !(gram_even n n' m t) * (h_ rg n * dj_ n' - mr * (j_ n' * dh_ rg n))
   | WM, WN => !(gram_odd n n' m t) * (Ci * (mr * (h_ rg n * j_ n') + dh_ rg n * dj_ n'))
   | WN, WM => !(gram_odd n n' m t) * (Ci * (mr * (dh_ rg n * dj_ n') + h_ rg n * j_ n'))
   end)%C.
Proof.
  intros rg p q m n n' t Hs. pose proof x_pos as XP.
  rewrite (azimuth_const _ _ (fun phi => integrand_kern 1 R_V wavelength mr b rg p q m n n' t phi ltac:(rewrite kr_sphere; lra)
    ltac:(rewrite kmr_sphere; apply Cmult_neq_0; [exact Hmr | intro E; apply RtoC_inj in E; lra]) Hs)).
  unfold hs, dhs. rewrite !kr_sphere, !kmr_sphere, radius_sphere, radius_sphere_derive. fold (h_ rg n) (dh_ rg n) (j_ n') (dj_ n').
  replace (0 / 1) with 0 by field. rewrite !Rmult_1_r.
  assert (E1: (!(1 / sin t * INR m) * !(dspec n m t))%C = !(INR m * qspec n m t)).
  { rewrite <- RtoC_mult. f_equal. destruct m as [|m]; [cbn [INR]; ring|]. rewrite (qspec_div n (S m)) by lia. field. lra. }
  assert (E2: (!(1 / sin t * INR m) * !(dspec n' m t))%C = !(INR m * qspec n' m t)).
  { rewrite <- RtoC_mult. f_equal. destruct m as [|m]; [cbn [INR]; ring|]. rewrite (qspec_div n' (S m)) by lia. field. lra. }
  unfold gram_even, gram_odd. rewrite !RtoC_plus, (RtoC_mult (INR m * _) (INR m * _)), (RtoC_mult (INR m * _) (dspec' _ _ _)), (RtoC_mult (dspec' _ _ _) (INR m * _)), (RtoC_mult (dspec' n m t)), <- E1, <- E2.
  replace (!(- (2 * PI * ((-1) ^ m * (gam n * gam n') * (R_V * R_V)) * (k_ wavelength * k_ wavelength))))
    with (!(2 * PI) * (!(- ((-1) ^ m * (gam n * gam n') * (R_V * R_V))) * !(k_ wavelength * k_ wavelength)))%C by (rewrite <- !RtoC_mult; f_equal; ring).
  set (ms := !(1 / sin t * INR m)). clearbody ms. set (K2 := !(k_ wavelength * k_ wavelength)).
  clear E1 E2. destruct p, q; cbn [kb]; unfold kern; cbv zeta; ring.
Qed.

Variables (nmax size : nat) (x w : nat -> R).
Hypothesis Hx : forall i, (i < size)%nat -> -1 < x i < 1.
Hypothesis EX : AverageFacts.exact_rule size x w.
Hypothesis Hg : (nmax < size)%nat.
Lemma csum_rsum : forall (f : nat -> R) n, csum (fun i => !(f i)) n = !(Props_outputs.rsum (seq 0 n) f).
Proof.
  intros f. induction n as [|n IH]; [reflexivity|]. cbn [csum]. rewrite IH, seq_S, Props_outputs.rsum_app, <- RtoC_plus. f_equal. rewrite Props_outputs.rsum_cons, Props_outputs.rsum_nil. cbn [Nat.add]. ring.
Qed.
Lemma rule_value : forall (f : R -> R) p v, (length p <= 2 * size)%nat -> (forall t, f t = eval p (cos t)) -> is_RInt (eval p) (-1) 1 v ->
  Props_outputs.rsum (seq 0 size) (fun i => w i * f (angles x i)) = v.
Proof.
  intros f p v L E I. pose proof (EX p L) as J. pose proof (is_RInt_unique _ _ _ _ I) as U1. pose proof (is_RInt_unique _ _ _ _ J) as U2. rewrite U1 in U2.
  transitivity (Props_outputs.rsum (seq 0 size) (fun i => w i * eval p (x i))); [|symmetry; exact U2].
  apply Props_outputs.rsum_ext. intros i Hi. apply in_seq in Hi. unfold angles. rewrite E, cos_acos; auto. pose proof (Hx i ltac:(lia)); lra.
Qed.
Lemma sin_point : forall i, (i < size)%nat -> 0 < sin (angles x i).
Proof.
  intros i Hi. unfold angles. specialize (Hx i Hi). rewrite sin_acos by lra. apply sqrt_lt_R0. unfold Rsqr. nra.
Qed.
Lemma sphere_integral : forall rg p q m n n', (Nat.max 1 m <= n <= nmax)%nat -> (Nat.max 1 m <= n' <= nmax)%nat ->
  surface_integral 1 R_V wavelength mr b size (angles x) w rg p q m n n' =
  if (n =? n')%nat && Bool.eqb (kb p) (kb q) then (!(sphere_factor m n) * diagonal rg p n)%C else !0.
Proof.
  intros rg p q m n n' H H'. unfold surface_integral.
  destruct (gram_even_integral n n' m ltac:(lia) ltac:(lia)) as (pe & Le & Ee & Ie). destruct (gram_odd_integral n n' m ltac:(lia) ltac:(lia)) as (po & Lo & Eo & Io).
  assert (VE: Props_outputs.rsum (seq 0 size) (fun i => w i * gram_even n n' m (angles x i)) = if (n =? n')%nat then gram_norm n else 0) by (apply (rule_value _ pe); auto; lia).
  assert (VO: Props_outputs.rsum (seq 0 size) (fun i => w i * gram_odd n n' m (angles x i)) = 0) by (apply (rule_value _ po); auto; lia).
  assert (SE: forall (g : R -> R) Z F, (forall i, (i < size)%nat -> azimuth (integrand 1 R_V wavelength mr b rg p q m n n' (angles x i)) = (F * (!(g (angles x i)) * Z))%C) ->
    csum (fun i => !(w i) * azimuth (integrand 1 R_V wavelength mr b rg p q m n n' (angles x i)))%C size = (F * Z * !(Props_outputs.rsum (seq 0 size) (fun i => w i * g (angles x i))%R))%C).
  { intros g Z F HF. rewrite <- csum_rsum, <- csum_scal. apply csum_ext. intros i Hi. rewrite HF by auto. rewrite RtoC_mult. ring. }
  assert (AZ := fun i (Hi : (i < size)%nat) => azimuth_sphere rg p q m n n' (angles x i) (sin_point i Hi)).
  destruct p, q; cbn [kb Bool.eqb]; rewrite ?andb_true_r, ?andb_false_r.
  - rewrite (SE (gram_even n n' m) _ _ AZ), VE. destruct (Nat.eqb_spec n n') as [<-|N]; [|ring]. unfold sphere_factor, diagonal. rewrite !RtoC_opp, !RtoC_mult. ring.
  - rewrite (SE (gram_odd n n' m) _ _ AZ), VO. ring.
  - rewrite (SE (gram_odd n n' m) _ _ AZ), VO. ring.
  - rewrite (SE (gram_even n n' m) _ _ AZ), VE. destruct (Nat.eqb_spec n n') as [<-|N]; [|ring]. unfold sphere_factor, diagonal. rewrite !RtoC_opp, !RtoC_mult. ring.
Qed.
Lemma sphere_factor_nonzero : forall m n, (1 <= n)%nat -> sphere_factor m n <> 0.
Proof.
  intros m n Hn. unfold sphere_factor. pose proof PI_RGT_0 as PP. assert (1 <= INR n) by (apply (le_INR 1); auto).
  assert (G: 0 < gam n). { unfold gam. apply sqrt_lt_R0. apply Rdiv_lt_0_compat; [lra|]. apply Rmult_lt_0_compat; [lra|]. nra. }
  assert (K: 0 < k_ wavelength) by (unfold k_; apply Rdiv_lt_0_compat; lra).
  assert (N: 0 < gram_norm n) by (unfold gram_norm; apply Rdiv_lt_0_compat; nra).
  assert (S: (-1) ^ m <> 0) by (apply pow_nonzero; lra). intro E. apply S.
  apply Rmult_eq_reg_r with (- (2 * PI * (gam n * gam n * (R_V * R_V)) * (k_ wavelength * k_ wavelength) * gram_norm n)).
  - rewrite Rmult_0_l. rewrite <- E. ring.
  - apply Ropp_neq_0_compat. apply Rgt_not_eq. assert (0 < 2 * PI) by lra. apply Rmult_lt_0_compat; auto. apply Rmult_lt_0_compat; [|nra]. apply Rmult_lt_0_compat; auto. apply Rmult_lt_0_compat; nra.
Qed.
Theorem sphere_Q : forall rg m i j, (m <= nmax)%nat -> (1 <= nmax)%nat -> (i < 2 * orders m nmax)%nat -> (j < 2 * orders m nmax)%nat ->
  Q_spec 1 R_V wavelength mr b size (angles x) w rg m nmax i j =
  if (i =? j)%nat then (!(sphere_factor m (order_of m nmax i)) * diagonal rg (kind_of m nmax i) (order_of m nmax i))%C else !0.
Proof.
  intros rg m i j Hm Hn Hi Hj. unfold Q_spec. rewrite sphere_integral by (apply order_range; auto). rewrite index_eq by auto. reflexivity.
Qed.
End Sphere.
