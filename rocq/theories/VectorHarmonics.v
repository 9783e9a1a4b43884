(** The amplitude matrix of any particle as a series over its T-matrix (textbook formula), and how it changes with the frame: the vector harmonics of
    a direction, seen in the frame of the particle, are combinations of those in the laboratory with Wigner's d-functions.  Specification side;
    [full_T], [prefactor], [d_over_sin] and [d_prime] are those of Props_frames.v (C74). *)
From Coq Require Import List ZArith Reals Lra Lia Arith Bool.
From Coquelicot Require Import Coquelicot.
From Verif Require Import Legendre Wigner Optics Props_optics TClass Frames FramesFacts Props_frames Align AlignFacts Rotation Props_rotation Harmonics.
Import ListNotations.
Open Scope R_scope.

(* ------------------------------------------------------------ specification *)
(** theta component (false) or phi component (true) of a pair, entry of an amplitude matrix *)
Definition comp (w : C * C) (a : bool) : C := if a then snd w else fst w.
Definition entry (W : amp) (a b : bool) : C := match a, b with false, false => s0 W | false, true => s1 W | true, false => s2 W | true, true => s3 W end.
(** Angular part of the outgoing waves of degree n and azimuthal order m, magnetic (false) or electric (true) *)
Definition wave (i : bool) (n : nat) (m : Z) (t p : R) : C * C :=
  let a := RtoC (IZR m * d_over_sin t m n) in let b := RtoC (d_prime t m n) in
  if i then (expi m p * b, expi m p * (Ci * a))%C else (expi m p * a, expi m p * (Ci * b))%C.
Definition sum4 (f : bool -> bool -> C) : C := (f false false + f false true + f true false + f true true)%C.
(** sum over all orders and degrees of a T-matrix that need not be diagonal in the azimuthal order *)
Definition form (T : bool -> bool -> Z -> Z -> Z -> Z -> C) (nmax : Z) (fo fi : bool -> Z -> Z -> C) : C :=
  zsum 1 nmax (fun n => zsum 1 nmax (fun n' => (prefactor (Z.to_nat n') (Z.to_nat n) *
    zsum (- n) n (fun m => zsum (- n') n' (fun m' => sum4 (fun i j => T i j m m' n n' * fo i n m * fi j n' m'))))%C)).
(** Entry (a, b) of the amplitude matrix, from the T-matrix in the frame of the angles (Mishchenko, Travis & Lacis 2002, eq. 5.11-5.14) *)
Definition series (T : bool -> bool -> Z -> Z -> Z -> Z -> C) (nmax : Z) (k ti pi_ to po : R) (a b : bool) : C :=
  (RtoC (1 / k) * form T nmax (fun i n m => comp (wave i (Z.to_nat n) m to po) a) (fun j n' m' => Cconj (comp (wave j (Z.to_nat n') m' ti pi_) b)))%C.
(** the stored T-matrix of a TMatrix object *)
Definition viewed (nmax : nat) (T : tmats) : Align.tmat := fun i j m n1 n2 => full_T nmax T (Nat.b2n i) (Nat.b2n j) m (Z.to_nat n1) (Z.to_nat n2).

(* ------------------------------------------------------------ conjugation *)
Lemma conj_plus : forall x y, Cconj (x + y)%C = (Cconj x + Cconj y)%C.
Proof. intros. unfold Cconj. apply injective_projections; cbn; ring. Qed.
Lemma conj_mult : forall x y, Cconj (x * y)%C = (Cconj x * Cconj y)%C.
Proof. intros. unfold Cconj. apply injective_projections; cbn; ring. Qed.
Lemma conj_real : forall r, Cconj (RtoC r) = RtoC r.
Proof. intros. unfold Cconj, RtoC. apply injective_projections; cbn; ring. Qed.
Lemma conj_conj : forall x, Cconj (Cconj x) = x.
Proof. intros (x, y). unfold Cconj. cbn. f_equal. ring. Qed.
Lemma conj_cexp : forall x, Cconj (cexp x) = cexp (- x).
Proof. intros. unfold Cconj, cexp. cbn. rewrite cos_neg, sin_neg. reflexivity. Qed.
Lemma conj_csum : forall f n, Cconj (csum f n) = csum (fun k => Cconj (f k)) n.
Proof. intros f. induction n; cbn [csum]; [apply conj_real|]. rewrite conj_plus, IHn. reflexivity. Qed.
Lemma conj_zsum : forall a b f, Cconj (zsum a b f) = zsum a b (fun k => Cconj (f k)).
Proof. intros. unfold zsum. apply conj_csum. Qed.
Definition vconj (V : vec) : vec := let '(a, b, c) := V in (Cconj a, Cconj b, Cconj c).
Lemma dot_conj : forall u v, Cconj (dot u v) = dot (vconj u) (vconj v).
Proof. intros ((u1, u2), u3) ((v1, v2), v3). unfold dot, vconj. rewrite !conj_plus, !conj_mult. reflexivity. Qed.
Lemma vconj_real : forall x y z, vconj (real3 x y z) = real3 x y z.
Proof. intros. unfold vconj, real3. rewrite !conj_real. reflexivity. Qed.
Lemma vconj_body : forall al be V, vconj (in_body al be V) = in_body al be (vconj V).
Proof. intros. unfold in_body. unfold vconj at 1. rewrite !dot_conj. unfold zenith, azimuth, direction. rewrite !vconj_real. reflexivity. Qed.
Lemma vconj_conj : forall V, vconj (vconj V) = V.
Proof. intros ((a, b), c). unfold vconj. rewrite !conj_conj. reflexivity. Qed.

(* ------------------------------------------------------------ sums *)
Lemma zsum_plus : forall a b f g, zsum a b (fun k => (f k + g k)%C) = (zsum a b f + zsum a b g)%C.
Proof. intros. unfold zsum. apply csum_plus. Qed.
Lemma zsum_pick : forall a b f q, (a <= q <= b)%Z -> (forall k, (a <= k <= b)%Z -> k <> q -> f k = RtoC 0) -> zsum a b f = f q.
Proof.
  intros a b f q Hq H. rewrite zsum_parts. rewrite (zu_pick _ _ _ q), (zu_pick _ _ (fun k => Im (f k)) q); auto; [destruct (f q); reflexivity | |]; intros k Hk N; rewrite (H k Hk N); reflexivity.
Qed.
Lemma zsum_widen : forall a b a' b' f, (a' <= a)%Z -> (b <= b')%Z -> (forall k, (a' <= k <= b')%Z -> ~ (a <= k <= b)%Z -> f k = RtoC 0) -> zsum a b f = zsum a' b' f.
Proof. intros a b a' b' f Ha Hb H. rewrite !zsum_parts. rewrite (zu_widen a b a' b'), (zu_widen a b a' b' (fun k => Im (f k))); auto; intros k Hk N; rewrite (H k Hk N); reflexivity. Qed.
Lemma sum4_ext : forall f g, (forall i j, f i j = g i j) -> sum4 f = sum4 g.
Proof. intros f g H. unfold sum4. rewrite !H. reflexivity. Qed.
Lemma sum4_zsum : forall a b f, sum4 (fun i j => zsum a b (f i j)) = zsum a b (fun k => sum4 (fun i j => f i j k)).
Proof. intros. unfold sum4. rewrite !zsum_plus. reflexivity. Qed.
Lemma sum4_scal : forall z f, (z * sum4 f)%C = sum4 (fun i j => (z * f i j)%C).
Proof. intros. unfold sum4. ring. Qed.
Lemma form_ext : forall T nmax fo fi fo' fi', (forall i n m, (1 <= n <= nmax)%Z -> (- n <= m <= n)%Z -> fo i n m = fo' i n m) -> (forall i n m, (1 <= n <= nmax)%Z -> (- n <= m <= n)%Z -> fi i n m = fi' i n m) ->
  form T nmax fo fi = form T nmax fo' fi'.
Proof.
  intros T nmax fo fi fo' fi' Ho Hi. unfold form. apply zsum_ext. intros n Hn. apply zsum_ext. intros n' Hn'. f_equal. apply zsum_ext. intros m Hm. apply zsum_ext. intros m' Hm'.
  apply sum4_ext. intros i j. rewrite Ho, Hi by auto. reflexivity.
Qed.
Lemma form_lin_o : forall T nmax fo fo' fi p q, form T nmax (fun i n m => (fo i n m * p + fo' i n m * q)%C) fi = (form T nmax fo fi * p + form T nmax fo' fi * q)%C.
Proof.
  intros. unfold form. rewrite !(Cmult_comm (zsum _ _ _)), <- !zsum_scal, <- zsum_plus. apply zsum_ext. intros n Hn. rewrite <- !zsum_scal, <- zsum_plus. apply zsum_ext. intros n' Hn'.
  set (A := zsum (- n) n _). set (B := zsum (- n) n _). set (D := zsum (- n) n _). assert (X: A = (p * B + q * D)%C); [|rewrite X; ring].
  unfold A, B, D. rewrite <- !zsum_scal, <- zsum_plus. apply zsum_ext. intros m Hm. rewrite <- !zsum_scal, <- zsum_plus. apply zsum_ext. intros m' Hm'. unfold sum4. ring.
Qed.
Lemma form_lin_i : forall T nmax fo fi fi' p q, form T nmax fo (fun i n m => (fi i n m * p + fi' i n m * q)%C) = (form T nmax fo fi * p + form T nmax fo fi' * q)%C.
Proof.
  intros. unfold form. rewrite !(Cmult_comm (zsum _ _ _)), <- !zsum_scal, <- zsum_plus. apply zsum_ext. intros n Hn. rewrite <- !zsum_scal, <- zsum_plus. apply zsum_ext. intros n' Hn'.
  set (A := zsum (- n) n _). set (B := zsum (- n) n _). set (D := zsum (- n) n _). assert (X: A = (p * B + q * D)%C); [|rewrite X; ring].
  unfold A, B, D. rewrite <- !zsum_scal, <- zsum_plus. apply zsum_ext. intros m Hm. rewrite <- !zsum_scal, <- zsum_plus. apply zsum_ext. intros m' Hm'. unfold sum4. ring.
Qed.
(** a matrix that is diagonal in the azimuthal order *)
Lemma diagonal_sum : forall n n' (f : Z -> Z -> C), (0 <= n)%Z -> (0 <= n')%Z -> (forall m m', m <> m' -> f m m' = RtoC 0) ->
  zsum (- n) n (fun m => zsum (- n') n' (fun m' => f m m')) = zsum (- Z.min n n') (Z.min n n') (fun m => f m m).
Proof.
  intros n n' f Hn Hn' H.
  transitivity (zsum (- n) n (fun m => if inside n' m then f m m else RtoC 0)).
  - apply zsum_ext. intros m Hm. destruct (inside n' m) eqn:I.
    + apply inside_true in I. apply (zsum_pick _ _ (fun m' => f m m') m); auto.
    + apply zsum_0. intros k Hk. apply H. intros ->. apply inside_true in Hk. congruence.
  - symmetry. rewrite (zsum_ext _ _ _ (fun m => if inside n' m then f m m else RtoC 0)).
    + apply zsum_widen; try lia. intros k Hk X. destruct (inside n' k) eqn:I; auto. apply inside_true in I. lia.
    + intros k Hk. rewrite (proj2 (inside_true n' k)) by lia. reflexivity.
Qed.
(** the rotated T-matrix *)
Lemma form_rotated : forall (T : Align.tmat) nmax al be fo fi fo' fi',
  (forall i n m1, (1 <= n <= nmax)%Z -> (- n <= m1 <= n)%Z -> fo' i n m1 = zsum (- n) n (fun m => (cexp (- IZR m * al) * RtoC (wd n m m1 be) * fo i n m)%C)) ->
  (forall i n m1, (1 <= n <= nmax)%Z -> (- n <= m1 <= n)%Z -> fi' i n m1 = zsum (- n) n (fun m => (cexp (IZR m * al) * RtoC (wd n m m1 be) * fi i n m)%C)) ->
  form (full T) nmax fo' fi' = form (fun i j m m' n1 n2 => rotated T i j m m' n1 n2 al be) nmax fo fi.
Proof.
  intros T nmax al be fo fi fo' fi' Ho Hi. unfold form. apply zsum_ext. intros n Hn. apply zsum_ext. intros n' Hn'. f_equal.
  rewrite (diagonal_sum n n' (fun m m' => sum4 (fun i j => full T i j m m' n n' * fo' i n m * fi' j n' m'))%C); try lia.
  2:{ intros m m' N. unfold full. replace (m =? m')%Z with false by (symmetry; apply Z.eqb_neq; auto). unfold sum4. ring. }
  set (l := Z.min n n').
  transitivity (zsum (- l) l (fun m1 => zsum (- n) n (fun m => zsum (- n') n' (fun m' => sum4 (fun i j =>
    cexp (- IZR m * al) * RtoC (wd n m m1 be) * mirrored T i j m1 n n' * (cexp (IZR m' * al) * RtoC (wd n' m' m1 be)) * fo i n m * fi j n' m')))))%C.
  - apply zsum_ext. intros m1 Hm1. unfold l in Hm1.
    transitivity (sum4 (fun i j => zsum (- n) n (fun m => zsum (- n') n' (fun m' => cexp (- IZR m * al) * RtoC (wd n m m1 be) * mirrored T i j m1 n n' * (cexp (IZR m' * al) * RtoC (wd n' m' m1 be)) * fo i n m * fi j n' m')))%C).
    + apply sum4_ext. intros i j. unfold full. rewrite Z.eqb_refl. rewrite Ho, Hi by lia. rewrite <- Cmult_assoc. set (B := zsum (- n') n' _). rewrite (Cmult_comm (zsum (- n) n _)), <- !zsum_scal.
      apply zsum_ext. intros m Hm. transitivity ((mirrored T i j m1 n n' * (cexp (- IZR m * al) * RtoC (wd n m m1 be) * fo i n m)) * B)%C; [ring|]. unfold B. rewrite <- zsum_scal. apply zsum_ext. intros m' Hm'. ring.
    + rewrite sum4_zsum. apply zsum_ext. intros m Hm. rewrite sum4_zsum. reflexivity.
  - rewrite zsum_swap. apply zsum_ext. intros m Hm. rewrite zsum_swap. apply zsum_ext. intros m' Hm'. rewrite <- sum4_zsum. apply sum4_ext. intros i j. unfold rotated. fold l.
    rewrite <- Cmult_assoc, (Cmult_comm (zsum _ _ _)), <- zsum_scal. apply zsum_ext. intros. ring.
Qed.

(* ------------------------------------------------------------ vector harmonics *)
Definition cross (u v : vec) : vec := let '(u1, u2, u3) := u in let '(v1, v2, v3) := v in (u2 * v3 - u3 * v2, u3 * v1 - u1 * v3, u1 * v2 - u2 * v1)%C.
Lemma dot_cross : forall u a b, dot u (cross a b) = dot (cross u a) b.
Proof. intros ((u1, u2), u3) ((a1, a2), a3) ((b1, b2), b3). unfold dot, cross. ring. Qed.
Lemma cross_body : forall al be u v, cross (in_body al be u) (in_body al be v) = in_body al be (cross u v).
Proof.
  intros al be ((u1, u2), u3) ((v1, v2), v3). unfold cross. vecs. pose proof (cs al) as H1. pose proof (cs be) as H2.
  generalize dependent (RtoC (cos al)). generalize dependent (RtoC (sin al)). generalize dependent (RtoC (cos be)). generalize dependent (RtoC (sin be)). intros.
  apply vec_eq; ring [H1 H2].
Qed.
Lemma cross_field : forall t p w, cross (direction t p) (field t p w) = field t p (- snd w, fst w)%C.
Proof.
  intros t p (x, y). unfold cross. vecs. pose proof (cs t) as H1. pose proof (cs p) as H2.
  generalize dependent (RtoC (cos t)). generalize dependent (RtoC (sin t)). generalize dependent (RtoC (cos p)). generalize dependent (RtoC (sin p)). intros.
  apply vec_eq; ring [H1 H2].
Qed.
Lemma wave_electric : forall n m t p, wave true n m t p = (let w := wave false n m t p in (Ci * - snd w, Ci * fst w)%C).
Proof.
  intros. unfold wave. cbn [fst snd]. assert (CII: (Ci * Ci = - RtoC 1)%C) by (unfold Ci, Cmult, Copp, RtoC; cbn [fst snd]; f_equal; ring).
  f_equal; [|ring]. transitivity (- (Ci * Ci) * (expi m p * RtoC (d_prime t m n)))%C; [rewrite CII; ring | ring].
Qed.
Lemma field_scal : forall t p z w, field t p (z * fst w, z * snd w)%C = (let '(a, b, c) := field t p w in (z * a, z * b, z * c)%C).
Proof. intros. vecs. apply vec_eq; ring. Qed.
Lemma dot_field : forall u t p w, dot u (field t p w) = (dot u (zenith t p) * fst w + dot u (azimuth p) * snd w)%C.
Proof. intros ((u1, u2), u3) t p w. vecs. ring. Qed.
Lemma electric_dot : forall u n m t p, dot u (field t p (wave true n m t p)) = (Ci * dot (cross u (direction t p)) (field t p (wave false n m t p)))%C.
Proof. intros. rewrite wave_electric. cbv zeta. rewrite <- dot_cross, cross_field, !dot_field. cbn [fst snd]. ring. Qed.
(** Cartesian components of the magnetic harmonics *)
Lemma wave_cartesian : forall n m t q, (- Z.of_nat n <= m <= Z.of_nat n)%Z ->
  let y1 := fun m => dz n m t * cos (IZR m * q) in let y2 := fun m => dz n m t * sin (IZR m * q) in let N := Z.of_nat n in
  field t q (wave false n m t q) = ((va N y1 m, va N y2 m), (- turn N y2 m, turn N y1 m), (vc y1 m, vc y2 m)).
Proof.
  intros n m t q Hm y1 y2 N. destruct (tau_pi n m t Hm) as (TT & PP). fold N in TT, PP. set (y := fun m => dz n m t) in *.
  set (pi_ := par m * qspec n (Z.abs_nat m) t) in *. set (tau := par m * dspec' n (Z.abs_nat m) t) in *.
  assert (A1: va N y1 m = cos (IZR m * q) * cos q * va N y m + sin (IZR m * q) * sin q * turn N y m).
  { unfold va, turn, y1, y. rewrite minus_IZR, plus_IZR. replace ((IZR m - 1) * q) with (IZR m * q - q) by ring. replace ((IZR m + 1) * q) with (IZR m * q + q) by ring. rewrite cos_plus, cos_minus. field. }
  assert (A2: va N y2 m = sin (IZR m * q) * cos q * va N y m - cos (IZR m * q) * sin q * turn N y m).
  { unfold va, turn, y2, y. rewrite minus_IZR, plus_IZR. replace ((IZR m - 1) * q) with (IZR m * q - q) by ring. replace ((IZR m + 1) * q) with (IZR m * q + q) by ring. rewrite sin_plus, sin_minus. field. }
  assert (B1: turn N y1 m = cos (IZR m * q) * cos q * turn N y m + sin (IZR m * q) * sin q * va N y m).
  { unfold va, turn, y1, y. rewrite minus_IZR, plus_IZR. replace ((IZR m - 1) * q) with (IZR m * q - q) by ring. replace ((IZR m + 1) * q) with (IZR m * q + q) by ring. rewrite cos_plus, cos_minus. field. }
  assert (B2: turn N y2 m = sin (IZR m * q) * cos q * turn N y m - cos (IZR m * q) * sin q * va N y m).
  { unfold va, turn, y2, y. rewrite minus_IZR, plus_IZR. replace ((IZR m - 1) * q) with (IZR m * q - q) by ring. replace ((IZR m + 1) * q) with (IZR m * q + q) by ring. rewrite sin_plus, sin_minus. field. }
  assert (MD: IZR m * dz n m t = IZR m * pi_ * sin t).
  { unfold dz, pi_. destruct (Z.abs_nat m) as [|k] eqn:K; [replace m with 0%Z by lia; ring|]. rewrite (qspec_div n (S k)) by lia. ring. }
  rewrite A1, A2, B1, B2, TT, PP. unfold wave. fold (d_over_sin t m n). 
  assert (DS: d_over_sin t m n = pi_) by reflexivity. assert (DP: d_prime t m n = tau) by reflexivity. rewrite DS, DP.
  unfold vc, y1, y2. unfold field, zenith, azimuth, real3, expi, Ci. clear - MD. 
  assert (M1: - IZR m * (dz n m t * cos (IZR m * q)) = - (IZR m * pi_ * sin t) * cos (IZR m * q)) by (rewrite <- MD; ring).
  assert (M2: - IZR m * (dz n m t * sin (IZR m * q)) = - (IZR m * pi_ * sin t) * sin (IZR m * q)) by (rewrite <- MD; ring). rewrite M1, M2.
  apply vec_eq; apply injective_projections; cbn; ring.
Qed.
Lemma va_ext : forall N f g m, (forall m, f m = g m) -> va N f m = va N g m.
Proof. intros N f g m H. unfold va. rewrite !H. reflexivity. Qed.
Lemma turn_ext : forall N f g m, (forall m, f m = g m) -> turn N f m = turn N g m.
Proof. intros N f g m H. unfold turn. rewrite !H. reflexivity. Qed.
Lemma vc_ext : forall f g m, (forall m, f m = g m) -> vc f m = vc g m.
Proof. intros f g m H. unfold vc. rewrite !H. reflexivity. Qed.
Lemma in_body_0 : forall be a b c, in_body 0 be (a, b, c) = (RtoC (cos be) * a - RtoC (sin be) * c, b, RtoC (sin be) * a + RtoC (cos be) * c)%C.
Proof. intros. vecs. rewrite sin_0, cos_0. apply vec_eq; ring. Qed.
Lemma zsum_wd : forall N m1 be (f g : Z -> R), zsum (- N) N (fun m => (RtoC (wd N m m1 be) * (f m, g m))%C) = (zu (- N) N (fun m => wd N m m1 be * f m), zu (- N) N (fun m => wd N m m1 be * g m)).
Proof. intros. rewrite zsum_parts. f_equal; apply zu_ext; intros; cbn; ring. Qed.
Lemma magnetic_0 : forall n be t q t' p' u m1, in_body 0 be (direction t q) = direction t' p' -> (- Z.of_nat n <= m1 <= Z.of_nat n)%Z ->
  dot u (field t' p' (wave false n m1 t' p')) = zsum (- Z.of_nat n) (Z.of_nat n) (fun m => (RtoC (wd (Z.of_nat n) m m1 be) * dot u (in_body 0 be (field t q (wave false n m t q))))%C).
Proof.
  intros n be t q t' p' ((u1, u2), u3) m1 H Hm1. rewrite in_body_direction in H. unfold direction, real3 in H. injection H as Hx Hy Hz. rewrite cos_0, sin_0 in Hx, Hy, Hz.
  set (x := sin t' * cos p') in *. set (y := sin t' * sin p') in *. set (z := cos t') in *. set (N := Z.of_nat n).
  pose proof (sin2_cos2 be) as SB. unfold Rsqr in SB. pose proof (sin2_cos2 p') as SP. unfold Rsqr in SP. pose proof (sin2_cos2 t') as ST. unfold Rsqr in ST.
  assert (U: x * x + y * y + z * z = 1) by (unfold x, y, z; transitivity (sin t' * sin t' * (sin p' * sin p' + cos p' * cos p') + cos t' * cos t'); [ring|]; rewrite SP; lra).
  assert (X: x * cos be + z * sin be = sin t * cos q).
  { rewrite <- Hx, <- Hz. transitivity (sin t * cos q * (sin be * sin be + cos be * cos be)); [ring|]. rewrite SB. ring. }
  assert (Y: y = sin t * sin q) by (rewrite <- Hy; ring).
  assert (ZZ: - x * sin be + z * cos be = cos t).
  { rewrite <- Hx, <- Hz. transitivity (cos t * (sin be * sin be + cos be * cos be)); [ring|]. rewrite SB. ring. }
  set (y1 := fun m => dz n m t * cos (IZR m * q)). set (y2 := fun m => dz n m t * sin (IZR m * q)).
  set (w1 := fun m => dz n m t' * cos (IZR m * p')). set (w2 := fun m => dz n m t' * sin (IZR m * p')).
  assert (L1: forall m, hy true n m (x * cos be + z * sin be) y (- x * sin be + z * cos be) = y1 m) by (intros m; rewrite X, Y, ZZ; apply hy_polar).
  assert (L2: forall m, hy false n m (x * cos be + z * sin be) y (- x * sin be + z * cos be) = y2 m) by (intros m; rewrite X, Y, ZZ; apply hy_polar).
  assert (X0: x * cos 0 + z * sin 0 = x) by (rewrite cos_0, sin_0; ring). assert (Z0: - x * sin 0 + z * cos 0 = z) by (rewrite cos_0, sin_0; ring).
  assert (B1: forall m, hy true n m (x * cos 0 + z * sin 0) y (- x * sin 0 + z * cos 0) = w1 m) by (intros m; rewrite X0, Z0; apply hy_polar).
  assert (B2: forall m, hy false n m (x * cos 0 + z * sin 0) y (- x * sin 0 + z * cos 0) = w2 m) by (intros m; rewrite X0, Z0; apply hy_polar).
  pose proof (rotate_x true n x y z U m1 be Hm1) as RX1. pose proof (rotate_x false n x y z U m1 be Hm1) as RX2.
  pose proof (rotate_y true n x y z U m1 be Hm1) as RY1. pose proof (rotate_y false n x y z U m1 be Hm1) as RY2.
  pose proof (rotate_z true n x y z U m1 be Hm1) as RZ1. pose proof (rotate_z false n x y z U m1 be Hm1) as RZ2.
  cbv beta zeta in RX1, RX2, RY1, RY2, RZ1, RZ2. fold N in RX1, RX2, RY1, RY2, RZ1, RZ2.
  rewrite (va_ext N _ w1 m1 B1) in RX1. rewrite (va_ext N _ w2 m1 B2) in RX2. rewrite (turn_ext N _ w1 m1 B1) in RY1. rewrite (turn_ext N _ w2 m1 B2) in RY2. rewrite (vc_ext _ w1 m1 B1) in RZ1. rewrite (vc_ext _ w2 m1 B2) in RZ2.
  rewrite (wave_cartesian n m1 t' p' Hm1). fold N w1 w2. cbv zeta.
  transitivity (u1 * zsum (- N) N (fun m => (RtoC (wd N m m1 be) * ((cos be * va N y1 m - sin be * vc y1 m)%R, (cos be * va N y2 m - sin be * vc y2 m)%R))%C) +
    u2 * zsum (- N) N (fun m => (RtoC (wd N m m1 be) * ((-1 * turn N y2 m)%R, turn N y1 m))%C) +
    u3 * zsum (- N) N (fun m => (RtoC (wd N m m1 be) * ((sin be * va N y1 m + cos be * vc y1 m)%R, (sin be * va N y2 m + cos be * vc y2 m)%R))%C))%C.
  - rewrite !zsum_wd. unfold dot. f_equal; [f_equal|]; f_equal; f_equal.
    + rewrite <- RX1. apply zu_ext. intros m Hm. rewrite (va_ext N _ y1 m L1), (vc_ext _ y1 m L1). reflexivity.
    + rewrite <- RX2. apply zu_ext. intros m Hm. rewrite (va_ext N _ y2 m L2), (vc_ext _ y2 m L2). reflexivity.
    + rewrite <- RY2. transitivity (-1 * zu (- N) N (fun m => wd N m m1 be * turn N (fun m => hy false n m (x * cos be + z * sin be) y (- x * sin be + z * cos be)) m)); [ring|].
      rewrite <- zu_scal. apply zu_ext. intros m Hm. rewrite (turn_ext N _ y2 m L2). ring.
    + rewrite <- RY1. apply zu_ext. intros m Hm. rewrite (turn_ext N _ y1 m L1). reflexivity.
    + rewrite <- RZ1. apply zu_ext. intros m Hm. rewrite (va_ext N _ y1 m L1), (vc_ext _ y1 m L1). reflexivity.
    + rewrite <- RZ2. apply zu_ext. intros m Hm. rewrite (va_ext N _ y2 m L2), (vc_ext _ y2 m L2). reflexivity.
  - rewrite <- !zsum_scal, <- !zsum_plus. apply zsum_ext. intros m Hm. rewrite (wave_cartesian n m t q Hm). fold N y1 y2. cbv zeta. rewrite in_body_0. unfold dot.
    replace (cos be * va N y1 m - sin be * vc y1 m, cos be * va N y2 m - sin be * vc y2 m) with (RtoC (cos be) * (va N y1 m, va N y2 m) - RtoC (sin be) * (vc y1 m, vc y2 m))%C by (apply injective_projections; cbn; ring).
    replace (sin be * va N y1 m + cos be * vc y1 m, sin be * va N y2 m + cos be * vc y2 m) with (RtoC (sin be) * (va N y1 m, va N y2 m) + RtoC (cos be) * (vc y1 m, vc y2 m))%C by (apply injective_projections; cbn; ring).
    replace (-1 * turn N y2 m) with (- turn N y2 m) by ring. ring.
Qed.
(** the rotation theorem *)
Lemma wave_shift : forall i n m t p al, wave i n m t p = (cexp (IZR m * al) * fst (wave i n m t (p - al)), cexp (IZR m * al) * snd (wave i n m t (p - al)))%C.
Proof.
  intros i n m t p al. assert (X: expi m p = (cexp (IZR m * al) * expi m (p - al))%C).
  { change (expi m p) with (cexp (IZR m * p)). change (expi m (p - al)) with (cexp (IZR m * (p - al))). rewrite cexp_add. f_equal. ring. }
  unfold wave. cbv zeta. rewrite X. destruct i; cbn [fst snd]; f_equal; ring.
Qed.
Lemma body_shift : forall al be t p w, in_body al be (field t p w) = in_body 0 be (field t (p - al) w).
Proof. intros. vecs. rewrite cos_minus, sin_minus, cos_0, sin_0. rewrite ?RtoC_plus, ?RtoC_minus, ?RtoC_mult. apply vec_eq; ring. Qed.
Lemma body_shift_direction : forall al be t p, in_body al be (direction t p) = in_body 0 be (direction t (p - al)).
Proof. intros. vecs. rewrite cos_minus, sin_minus, cos_0, sin_0. rewrite ?RtoC_plus, ?RtoC_minus, ?RtoC_mult. apply vec_eq; ring. Qed.
Theorem harmonics_rotate : forall i n al be t p t' p' u m1, in_body al be (direction t p) = direction t' p' -> (- Z.of_nat n <= m1 <= Z.of_nat n)%Z ->
  dot u (field t' p' (wave i n m1 t' p')) =
  zsum (- Z.of_nat n) (Z.of_nat n) (fun m => (cexp (- IZR m * al) * RtoC (wd (Z.of_nat n) m m1 be) * dot u (in_body al be (field t p (wave i n m t p))))%C).
Proof.
  intros i n al be t p t' p' u m1 H Hm1.
  assert (M: forall u, dot u (field t' p' (wave false n m1 t' p')) = zsum (- Z.of_nat n) (Z.of_nat n) (fun m => (cexp (- IZR m * al) * RtoC (wd (Z.of_nat n) m m1 be) * dot u (in_body al be (field t p (wave false n m t p))))%C)).
  { intros v. rewrite body_shift_direction in H. rewrite (magnetic_0 n be t (p - al) t' p' v m1 H Hm1). apply zsum_ext. intros m Hm. rewrite (body_shift al be), (wave_shift false n m t p al).
    replace (in_body 0 be (field t (p - al) (cexp (IZR m * al) * fst (wave false n m t (p - al)), cexp (IZR m * al) * snd (wave false n m t (p - al))))%C)
      with (let '(a, b, c) := in_body 0 be (field t (p - al) (wave false n m t (p - al))) in (cexp (IZR m * al) * a, cexp (IZR m * al) * b, cexp (IZR m * al) * c)%C).
    - destruct (in_body 0 be (field t (p - al) (wave false n m t (p - al)))) as ((a, b), c_). destruct v as ((v1, v2), v3). unfold dot.
      assert (E1: (cexp (- IZR m * al) * cexp (IZR m * al) = RtoC 1)%C) by (rewrite cexp_add; replace (- IZR m * al + IZR m * al) with 0 by ring; apply cexp_0).
      transitivity (cexp (- IZR m * al) * cexp (IZR m * al) * (RtoC (wd (Z.of_nat n) m m1 be) * (v1 * a + v2 * b + v3 * c_)))%C; [rewrite E1; ring | ring].
    - rewrite field_scal. destruct (field t (p - al) _) as ((a, b), c_). rewrite !in_body_0. apply vec_eq; ring. }
  destruct i; [|apply M]. rewrite electric_dot, M, <- zsum_scal. apply zsum_ext. intros m Hm.
  assert (X: dot u (in_body al be (field t p (wave true n m t p))) = (Ci * dot (cross u (direction t' p')) (in_body al be (field t p (wave false n m t p))))%C).
  { rewrite wave_electric. cbv zeta. set (w := wave false n m t p). rewrite <- H, <- dot_cross, cross_body, cross_field.
    transitivity (dot u (in_body al be (let '(a, b, c) := field t p (- snd w, fst w)%C in (Ci * a, Ci * b, Ci * c)%C))).
    - rewrite <- (field_scal t p Ci (- snd w, fst w)%C). reflexivity.
    - destruct (field t p (- snd w, fst w)%C) as ((a, b), c_). destruct u as ((u1, u2), u3). vecs. ring. }
  rewrite X. ring.
Qed.
