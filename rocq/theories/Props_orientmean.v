(** C91: observables of a cloud of oriented particles.  The amplitude matrix (and with it the extinction matrix) that CosTuuM computes from the
    orientation-averaged T-matrix is the mean, over the documented ensemble of orientations, of the amplitude (extinction) matrices it computes
    for the single particle in each orientation.  Specification: VectorHarmonics.v (the textbook series), Props_rotation.v (means, C89). *)
From Coq Require Import List ZArith Reals Lra Lia Arith Bool.
From Coquelicot Require Import Coquelicot.
From Verif Require Import Legendre Wigner Optics Props_optics TClass Frames FramesFacts Props_frames Align AlignFacts Props_align Rotation Props_rotation Harmonics VectorHarmonics Props_outputs Orientation Density Adaptive PyTMatrix Props_pytmatrix TaskGraph Physics Props_physics Props_ensemble.
Import ListNotations.
Open Scope R_scope.
Notation R := Rdefinitions.R.
Notation entry := VectorHarmonics.entry.
Notation series := VectorHarmonics.series.
Notation form := VectorHarmonics.form.
Notation in_range := Props_align.in_range.
Notation csum := Align.csum.

(* ------------------------------------------------------------ the series of the code *)
Lemma list_sum : forall {X} (l : list X) (f : X -> C) (d : X), Props_optics.csum l f = csum (fun k => f (List.nth k l d)) (length l).
Proof.
  intros X l f d. induction l as [|x l IH] using rev_ind; [reflexivity|].
  rewrite Props_optics.csum_app, IH, app_length. cbn [length]. rewrite Nat.add_1_r. cbn [csum]. rewrite app_nth2, Nat.sub_diag by lia. cbn [List.nth].
  unfold Props_optics.csum at 1. cbn [fold_right]. rewrite Cplus_0_r. f_equal.
  apply csum_ext. intros k Hk. rewrite app_nth1 by lia. reflexivity.
Qed.
Lemma sum_orders : forall nmax f, Props_optics.csum (orders nmax) f = zsum (- Z.of_nat nmax) (Z.of_nat nmax) f.
Proof.
  intros. rewrite (list_sum _ _ 0%Z). unfold zsum, orders. rewrite map_length, seq_length. replace (Z.to_nat (Z.of_nat nmax - - Z.of_nat nmax + 1)) with (2 * nmax + 1)%nat by lia.
  apply csum_ext. intros k Hk. f_equal. rewrite (List.nth_indep _ _ ((fun k => (Z.of_nat k - Z.of_nat nmax)%Z) 0%nat)) by (rewrite map_length, seq_length; lia).
  rewrite (map_nth (fun k => (Z.of_nat k - Z.of_nat nmax)%Z)), seq_nth by lia. lia.
Qed.
Lemma sum_degrees : forall nmax m f, (Z.abs m <= Z.of_nat nmax)%Z ->
  Props_optics.csum (degrees nmax m) f = zsum 1 (Z.of_nat nmax) (fun n => if inside n m then f (Z.to_nat n) else RtoC 0).
Proof.
  intros nmax m f Hm. transitivity (zsum (Z.max (Z.abs m) 1) (Z.of_nat nmax) (fun n => f (Z.to_nat n))).
  - rewrite (list_sum _ _ 0%nat). unfold zsum, degrees. rewrite seq_length. replace (Z.to_nat (Z.of_nat nmax - Z.max (Z.abs m) 1 + 1)) with (nmax + 1 - Nat.max (Z.abs_nat m) 1)%nat by lia.
    apply csum_ext. intros k Hk. rewrite seq_nth by lia. f_equal. lia.
  - transitivity (zsum (Z.max (Z.abs m) 1) (Z.of_nat nmax) (fun n => if inside n m then f (Z.to_nat n) else RtoC 0)).
    + apply zsum_ext. intros n Hn. rewrite (proj2 (inside_true n m)) by lia. reflexivity.
    + apply zsum_widen; try lia. intros k Hk N. destruct (inside k m) eqn:I; auto. apply inside_true in I. lia.
Qed.
Lemma full_sum_box : forall c nmax phi f, full_sum c nmax phi f =
  zsum 1 (Z.of_nat nmax) (fun n => zsum 1 (Z.of_nat nmax) (fun n' => c (Z.to_nat n') (Z.to_nat n) *
    zsum (- Z.min n n') (Z.min n n') (fun m => expi m phi * f m (Z.to_nat n') (Z.to_nat n))))%C.
Proof.
  intros c nmax phi f. unfold full_sum. rewrite sum_orders. set (N := Z.of_nat nmax).
  transitivity (zsum (- N) N (fun m => zsum 1 N (fun n => zsum 1 N (fun n' => if inside n m then if inside n' m then c (Z.to_nat n') (Z.to_nat n) * expi m phi * f m (Z.to_nat n') (Z.to_nat n) else RtoC 0 else RtoC 0)))%C).
  - apply zsum_ext. intros m Hm. rewrite sum_degrees by lia. fold N. rewrite zsum_swap. apply zsum_ext. intros n' Hn'. destruct (inside n' m).
    + rewrite sum_degrees by lia. fold N. apply zsum_ext. intros n Hn. destruct (inside n m); reflexivity.
    + symmetry. apply zsum_0. intros n Hn. destruct (inside n m); reflexivity.
  - rewrite zsum_swap. apply zsum_ext. intros n Hn. rewrite zsum_swap. apply zsum_ext. intros n' Hn'. rewrite <- zsum_scal. symmetry.
    transitivity (zsum (- Z.min n n') (Z.min n n') (fun m => if inside n m then if inside n' m then c (Z.to_nat n') (Z.to_nat n) * expi m phi * f m (Z.to_nat n') (Z.to_nat n) else RtoC 0 else RtoC 0)%C).
    + apply zsum_ext. intros m Hm. rewrite !(proj2 (inside_true _ m)) by lia. ring.
    + apply zsum_widen; try lia. intros m Hm X. destruct (inside n m) eqn:I; auto. destruct (inside n' m) eqn:I'; auto. apply inside_true in I, I'. lia.
Qed.
Lemma mirrored_viewed : forall nmax T i j m n n', mirrored (viewed nmax T) i j m n n' = viewed nmax T i j m n n'.
Proof.
  intros nmax T i j m n n'. unfold mirrored, viewed. destruct (Z.ltb_spec m 0); auto.
  destruct (symmetric_full_T nmax T m (Z.to_nat n) (Z.to_nat n')) as (A & B & D & E). destruct i, j; cbn [xorb Nat.b2n]; rewrite ?A, ?B, ?D, ?E; try ring;
  replace (RtoC (-1)) with (- RtoC 1)%C by (rewrite <- RtoC_opp; reflexivity); ring.
Qed.
Lemma expi_split : forall m a b, expi m (a - b) = (expi m a * Cconj (expi m b))%C.
Proof. intros. change (expi m (a - b)) with (cexp (IZR m * (a - b))). change (expi m a) with (cexp (IZR m * a)). change (expi m b) with (cexp (IZR m * b)). rewrite conj_cexp, cexp_add. f_equal. ring. Qed.
(** the code's amplitude matrix for an axis along z is the textbook series *)
Theorem C91_series : forall nmax k T ti pi_ to po a b, resolved ti -> resolved to ->
  entry (fixed_axis nmax k T ti pi_ to po) a b = series (full (viewed nmax T)) (Z.of_nat nmax) k ti pi_ to po a b.
Proof.
  intros nmax k T ti pi_ to po a b Hi Ho. rewrite C74_series by auto. unfold series, form.
  assert (CI0: Ci <> RtoC 0) by (unfold Ci, RtoC; intros E; injection E; lra).
  assert (CII: (Ci * Ci = - RtoC 1)%C) by (unfold Ci, Cmult, Copp, RtoC; cbn [fst snd]; f_equal; ring).
  assert (CC: Cconj Ci = (- Ci)%C) by (unfold Ci, Cconj, Copp; cbn [fst snd]; f_equal; ring).
  assert (CD: forall z, (z / Ci = - Ci * z)%C). { intros z. replace z with (z * - (Ci * Ci))%C at 1 by (rewrite CII; ring). field. auto. }
  transitivity (RtoC (1 / k) * full_sum prefactor nmax (po - pi_) (fun m n' n => sum4 (fun i j => full_T nmax T (Nat.b2n i) (Nat.b2n j) m n n' *
     (if a then Ci * (if i then RtoC (IZR m * d_over_sin to m n) else RtoC (d_prime to m n)) else if i then RtoC (d_prime to m n) else RtoC (IZR m * d_over_sin to m n)) *
     (if b then - Ci * (if j then RtoC (IZR m * d_over_sin ti m n') else RtoC (d_prime ti m n')) else if j then RtoC (d_prime ti m n') else RtoC (IZR m * d_over_sin ti m n')))))%C.
  - unfold full_amplitude. destruct a, b; cbn [entry s0 s1 s2 s3]; f_equal; unfold full_sum; apply Props_optics.csum_ext; intros m _; apply Props_optics.csum_ext; intros n' _; apply Props_optics.csum_ext; intros n _; f_equal;
    unfold pin, tin, pout, tout, sum4; cbn [Nat.b2n]; rewrite ?CD; ring [CII].
  - f_equal. rewrite full_sum_box. apply zsum_ext. intros n Hn. apply zsum_ext. intros n' Hn'. f_equal.
    rewrite (diagonal_sum n n' (fun m m' => sum4 (fun i j => full (viewed nmax T) i j m m' n n' * comp (wave i (Z.to_nat n) m to po) a * Cconj (comp (wave j (Z.to_nat n') m' ti pi_) b)))%C); try lia.
    2:{ intros m m' N. unfold full. replace (m =? m')%Z with false by (symmetry; apply Z.eqb_neq; auto). unfold sum4. ring. }
    apply zsum_ext. intros m Hm. rewrite sum4_scal. apply sum4_ext. intros i j. unfold full. rewrite Z.eqb_refl, mirrored_viewed. unfold viewed. rewrite expi_split.
    set (f := full_T _ _ _ _ _ _ _). unfold wave. destruct i, j, a, b; cbn [comp fst snd]; rewrite ?conj_mult, ?CC, ?conj_real; ring.
Qed.
Print Assumptions C91_series.

(* ------------------------------------------------------------ any orientation *)
Definition series_amp (T : bool -> bool -> Z -> Z -> Z -> Z -> C) (nmax : Z) (k ti pi_ to po : R) : amp :=
  mkAmp (series T nmax k ti pi_ to po false false) (series T nmax k ti pi_ to po false true) (series T nmax k ti pi_ to po true false) (series T nmax k ti pi_ to po true true).
Lemma amp_entries : forall A B, (forall a b, entry A a b = entry B a b) -> A = B.
Proof. intros A B H. apply amp_eq; [apply (H false false) | apply (H false true) | apply (H true false) | apply (H true true)]. Qed.
Lemma dot_field_field : forall t p E F, dot (field t p E) (field t p F) = (fst E * fst F + snd E * snd F)%C.
Proof.
  intros t p (x, y) (z, w). vecs. pose proof (cs t) as H1. pose proof (cs p) as H2.
  generalize dependent (RtoC (cos t)). generalize dependent (RtoC (sin t)). generalize dependent (RtoC (cos p)). generalize dependent (RtoC (sin p)). intros. ring [H1 H2].
Qed.
Lemma vconj_field : forall t p E, vconj (field t p E) = field t p (Cconj (fst E), Cconj (snd E)).
Proof. intros t p (x, y). unfold vconj. vecs. cbn [Cconj]. rewrite !conj_plus, !conj_mult. rewrite ?RtoC_opp. apply vec_eq; rewrite <- ?RtoC_opp, ?conj_mult, ?conj_real; reflexivity. Qed.
Definition received (E w : C * C) : C := (Cconj (fst w) * fst E + Cconj (snd w) * snd E)%C.
Lemma received_dot : forall t p E w, received E w = Cconj (dot (vconj (field t p E)) (field t p w)).
Proof. intros. rewrite vconj_field, dot_field_field. cbn [fst snd]. rewrite conj_plus, !conj_mult, !conj_conj. unfold received. ring. Qed.
Lemma series_scattered : forall T nmax k ti pi_ to po u E,
  dot u (field to po (apply (series_amp T nmax k ti pi_ to po) E)) =
  (RtoC (1 / k) * form T nmax (fun i n m => dot u (field to po (wave i (Z.to_nat n) m to po))) (fun j n m => received E (wave j (Z.to_nat n) m ti pi_)))%C.
Proof.
  intros T nmax k ti pi_ to po u E. rewrite dot_field. unfold apply, series_amp. cbn [s0 s1 s2 s3 fst snd]. unfold series.
  set (fo := fun a i n m => comp (wave i (Z.to_nat n) m to po) a). set (fi := fun b j n' m' => Cconj (comp (wave j (Z.to_nat n') m' ti pi_) b)).
  change (fun i n m => comp (wave i (Z.to_nat n) m to po) false) with (fo false). change (fun i n m => comp (wave i (Z.to_nat n) m to po) true) with (fo true).
  change (fun j n' m' => Cconj (comp (wave j (Z.to_nat n') m' ti pi_) false)) with (fi false). change (fun j n' m' => Cconj (comp (wave j (Z.to_nat n') m' ti pi_) true)) with (fi true).
  transitivity (RtoC (1 / k) * form T nmax (fun i n m => fo false i n m * dot u (zenith to po) + fo true i n m * dot u (azimuth po)) (fun j n m => fi false j n m * fst E + fi true j n m * snd E))%C.
  - rewrite (form_lin_o T nmax (fo false) (fo true)), !(form_lin_i T nmax _ (fi false) (fi true)). ring.
  - f_equal. apply form_ext; intros i n m Hn Hm.
    + rewrite dot_field. unfold fo, comp. ring.
    + reflexivity.
Qed.
Lemma dot_body_back : forall al be u, exists v, forall V, dot u (in_body al be V) = dot v V.
Proof.
  intros al be ((u1, u2), u3). unfold in_body. destruct (zenith be al) as ((z1, z2), z3). destruct (azimuth al) as ((a1, a2), a3). destruct (direction be al) as ((d1, d2), d3).
  exists (u1 * z1 + u2 * a1 + u3 * d1, u1 * z2 + u2 * a2 + u3 * d2, u1 * z3 + u2 * a3 + u3 * d3)%C. intros ((x, y), z). unfold dot. ring.
Qed.
Lemma dot_ext : forall V W, (forall u, dot u V = dot u W) -> V = W.
Proof.
  intros ((x, y), z) ((x', y'), z') H. pose proof (H (RtoC 1, RtoC 0, RtoC 0)) as H1. pose proof (H (RtoC 0, RtoC 1, RtoC 0)) as H2. pose proof (H (RtoC 0, RtoC 0, RtoC 1)) as H3.
  unfold dot in H1, H2, H3. apply vec_eq; [etransitivity; [|etransitivity; [exact H1|]]; ring | etransitivity; [|etransitivity; [exact H2|]]; ring | etransitivity; [|etransitivity; [exact H3|]]; ring].
Qed.
(** The field scattered by the particle in its own frame, from the series, is the field scattered in the laboratory by the rotated T-matrix. *)
Lemma series_rotated : forall (T : Align.tmat) nmax k al be ti pi_ to po ti' pi' to' po' E,
  in_body al be (direction ti pi_) = direction ti' pi' -> in_body al be (direction to po) = direction to' po' ->
  field to' po' (apply (series_amp (full T) nmax k ti' pi' to' po') (components ti' pi' (in_body al be (field ti pi_ E)))) =
  in_body al be (field to po (apply (series_amp (fun i j m m' n1 n2 => rotated T i j m m' n1 n2 al be) nmax k ti pi_ to po) E)).
Proof.
  intros T nmax k al be ti pi_ to po ti' pi' to' po' E Hi Ho. apply dot_ext. intros u. destruct (dot_body_back al be u) as (v & Hv).
  rewrite Hv, !series_scattered. f_equal. set (V := in_body al be (field ti pi_ E)).
  assert (FV: field ti' pi' (components ti' pi' V) = V) by (apply field_components; unfold V; rewrite <- Hi, dot_in_body; apply dot_dir_field).
  apply form_rotated; intros i n m1 Hn Hm.
  - pose proof (harmonics_rotate i (Z.to_nat n) al be to po to' po' u m1 Ho) as HR. rewrite Z2Nat.id in HR by lia. rewrite HR by lia. apply zsum_ext. intros m Hm'. rewrite Hv. reflexivity.
  - rewrite (received_dot ti' pi'), FV. pose proof (harmonics_rotate i (Z.to_nat n) al be ti pi_ ti' pi' (vconj V) m1 Hi) as HR. rewrite Z2Nat.id in HR by lia. rewrite HR by lia.
    rewrite conj_zsum. apply zsum_ext. intros m Hm'. rewrite !conj_mult, conj_cexp, conj_real. rewrite (received_dot ti pi_ E).
    unfold V. rewrite vconj_body, dot_in_body. f_equal. f_equal. f_equal. ring.
Qed.
(** The code's amplitude matrix for any orientation is the series over the T-matrix of the particle in that orientation. *)
Theorem C91_oriented : forall nmax k T al be ti pi_ to po ti' pi' to' po' a b,
  in_body al be (direction ti pi_) = direction ti' pi' -> resolved ti' -> in_body al be (direction to po) = direction to' po' -> resolved to' ->
  entry (oriented nmax k T al be ti pi_ to po) a b =
  series (fun i j m m' n1 n2 => rotated (viewed nmax T) i j m m' n1 n2 al be) (Z.of_nat nmax) k ti pi_ to po a b.
Proof.
  intros nmax k T al be ti pi_ to po ti' pi' to' po' a b Hi Ri Ho Ro.
  assert (X: series_amp (fun i j m m' n1 n2 => rotated (viewed nmax T) i j m m' n1 n2 al be) (Z.of_nat nmax) k ti pi_ to po = oriented nmax k T al be ti pi_ to po).
  { apply C74_unique. intros E. rewrite (C74_same_scattered_field nmax k T al be ti pi_ to po ti' pi' to' po' E Hi (proj1 Ri) Ho (proj1 Ro)).
    rewrite <- (series_rotated _ _ _ _ _ _ _ _ _ ti' pi' to' po') by auto. f_equal. f_equal.
    apply amp_entries. intros a' b'. rewrite C91_series by auto. destruct a', b'; reflexivity. }
  rewrite <- X. destruct a, b; reflexivity.
Qed.
Print Assumptions C91_oriented.

(* ------------------------------------------------------------ means over orientations *)
(** mean over a law of a function of the azimuth alpha and the zenith angle beta of the axis *)
Definition mean_over (l : law) (f : R -> R -> R) (v : R) : Prop :=
  match l with
  | Spread p => exists g : R -> R, (forall beta, is_RInt (fun alpha => f alpha beta) 0 (2 * PI) (2 * PI * g beta)) /\ is_RInt (fun beta => sin beta * p beta * g beta) 0 PI v
  | Tilted beta => is_RInt (fun alpha => f alpha beta) 0 (2 * PI) (2 * PI * v)
  | Kept => v = f 0 0
  end.
Definition cmean (l : law) (f : R -> R -> C) (v : C) : Prop :=
  match l with
  | Spread p => orientation_mean p f v
  | Tilted beta => is_CInt (fun alpha => f alpha beta) 0 (2 * PI) (RtoC (2 * PI) * v)%C
  | Kept => v = f 0 0
  end.
Lemma is_CInt_scal : forall f a b v z, is_CInt f a b v -> is_CInt (fun x => (z * f x)%C) a b (z * v)%C.
Proof.
  intros f a b v (x, y) (A & B). split; cbn [Re Im fst snd Cmult].
  - apply (is_RInt_ext (fun t => minus (scal x (Re (f t))) (scal y (Im (f t))))); [intros; reflexivity|].
    apply (is_RInt_minus (V := R_NormedModule) (fun t => scal x (Re (f t))) (fun t => scal y (Im (f t)))); apply (is_RInt_scal (V := R_NormedModule)); auto.
  - apply (is_RInt_ext (fun t => plus (scal x (Im (f t))) (scal y (Re (f t))))); [intros; reflexivity|].
    apply (is_RInt_plus (V := R_NormedModule) (fun t => scal x (Im (f t))) (fun t => scal y (Re (f t)))); apply (is_RInt_scal (V := R_NormedModule)); auto.
Qed.
Lemma is_CInt_to : forall f a b u v, is_CInt f a b u -> u = v -> is_CInt f a b v.
Proof. intros. subst. auto. Qed.
Lemma cmean_ext : forall l f g v, (forall a b, f a b = g a b) -> cmean l f v -> cmean l g v.
Proof.
  intros [p|be|] f g v E H; cbn [cmean] in *; [destruct H as (h & A & B); exists h; split; auto; intros b; apply (is_CInt_ext (fun a => f a b)); auto | apply (is_CInt_ext (fun a => f a be)); auto | rewrite <- E; auto].
Qed.
Lemma cmean_0 : forall l, cmean l (fun _ _ => RtoC 0) (RtoC 0).
Proof.
  intros [p|be|]; cbn [cmean]; auto.
  - exists (fun _ => RtoC 0). split; [intros b; apply (is_CInt_to _ _ _ _ _ (is_CInt_0 _ _)); ring|]. apply (is_CInt_ext (fun _ => RtoC 0)); [intros; ring | apply is_CInt_0].
  - apply (is_CInt_to _ _ _ _ _ (is_CInt_0 _ _)). ring.
Qed.
Lemma cmean_plus : forall l f g u v, cmean l f u -> cmean l g v -> cmean l (fun a b => f a b + g a b)%C (u + v)%C.
Proof.
  intros [p|be|] f g u v; cbn [cmean].
  - intros (h & A & B) (k & D & E). exists (fun b => h b + k b)%C. split.
    + intros b. apply (is_CInt_to _ _ _ (RtoC (2 * PI) * h b + RtoC (2 * PI) * k b)%C); [|ring]. apply (is_CInt_plus (fun a => f a b) (fun a => g a b)); auto.
    + apply (is_CInt_ext (fun b => RtoC (sin b * p b) * h b + RtoC (sin b * p b) * k b)%C); [intros; ring|]. apply (is_CInt_plus (fun b => RtoC (sin b * p b) * h b)%C (fun b => RtoC (sin b * p b) * k b)%C); auto.
  - intros A B. apply (is_CInt_to _ _ _ (RtoC (2 * PI) * u + RtoC (2 * PI) * v)%C); [|ring]. apply (is_CInt_plus (fun a => f a be) (fun a => g a be)); auto.
  - intros -> ->. reflexivity.
Qed.
Lemma cmean_scal : forall l f u z, cmean l f u -> cmean l (fun a b => z * f a b)%C (z * u)%C.
Proof.
  intros [p|be|] f u z; cbn [cmean].
  - intros (h & A & B). exists (fun b => z * h b)%C. split.
    + intros b. apply (is_CInt_to _ _ _ (z * (RtoC (2 * PI) * h b))%C); [|ring]. apply (is_CInt_scal (fun a => f a b)); auto.
    + apply (is_CInt_ext (fun b => z * (RtoC (sin b * p b) * h b))%C); [intros; ring|]. apply (is_CInt_scal (fun b => RtoC (sin b * p b) * h b)%C); auto.
  - intros A. apply (is_CInt_to _ _ _ (z * (RtoC (2 * PI) * u))%C); [|ring]. apply (is_CInt_scal (fun a => f a be)); auto.
  - intros ->. reflexivity.
Qed.
Lemma cmean_csum : forall l n (f : nat -> R -> R -> C) v, (forall k, (k < n)%nat -> cmean l (f k) (v k)) -> cmean l (fun a b => Align.csum (fun k => f k a b) n) (Align.csum v n).
Proof.
  intros l. induction n; intros f v H; cbn [Align.csum]; [apply cmean_0|].
  apply (cmean_plus l (fun a b => Align.csum (fun k => f k a b) n) (fun a b => f n a b)); [apply IHn; intros; apply H; lia | apply H; lia].
Qed.
Lemma cmean_zsum : forall l lo hi (f : Z -> R -> R -> C) v, (forall k, (lo <= k <= hi)%Z -> cmean l (f k) (v k)) -> cmean l (fun a b => zsum lo hi (fun k => f k a b)) (zsum lo hi v).
Proof. intros l lo hi f v H. unfold zsum. apply (cmean_csum l _ (fun k a b => f (lo + Z.of_nat k)%Z a b)). intros. apply H. lia. Qed.
Lemma cmean_form : forall l nmax (F : bool -> bool -> Z -> Z -> Z -> Z -> R -> R -> C) G fo fi,
  (forall i j m m' n1 n2, in_full_range nmax m m' n1 n2 -> cmean l (F i j m m' n1 n2) (G i j m m' n1 n2)) ->
  cmean l (fun a b => form (fun i j m m' n1 n2 => F i j m m' n1 n2 a b) nmax fo fi) (form G nmax fo fi).
Proof.
  intros l nmax F G fo fi H. unfold form.
  apply (cmean_zsum l 1 nmax (fun n a b => zsum 1 nmax (fun n' => prefactor (Z.to_nat n') (Z.to_nat n) * zsum (- n) n (fun m => zsum (- n') n' (fun m' => sum4 (fun i j => F i j m m' n n' a b * fo i n m * fi j n' m')))))%C). intros n Hn.
  apply (cmean_zsum l 1 nmax (fun n' a b => prefactor (Z.to_nat n') (Z.to_nat n) * zsum (- n) n (fun m => zsum (- n') n' (fun m' => sum4 (fun i j => F i j m m' n n' a b * fo i n m * fi j n' m'))))%C). intros n' Hn'.
  apply (cmean_scal l (fun a b => zsum (- n) n (fun m => zsum (- n') n' (fun m' => sum4 (fun i j => F i j m m' n n' a b * fo i n m * fi j n' m'))))%C).
  apply (cmean_zsum l (- n) n (fun m a b => zsum (- n') n' (fun m' => sum4 (fun i j => F i j m m' n n' a b * fo i n m * fi j n' m')))%C). intros m Hm.
  apply (cmean_zsum l (- n') n' (fun m' a b => sum4 (fun i j => F i j m m' n n' a b * fo i n m * fi j n' m'))%C). intros m' Hm'.
  assert (T: forall i j, cmean l (fun a b => F i j m m' n n' a b * fo i n m * fi j n' m')%C (G i j m m' n n' * fo i n m * fi j n' m')%C).
  { intros i j. replace (G i j m m' n n' * fo i n m * fi j n' m')%C with ((fo i n m * fi j n' m') * G i j m m' n n')%C by ring.
    apply (cmean_ext l (fun a b => (fo i n m * fi j n' m') * F i j m m' n n' a b)%C); [intros; ring|]. apply (cmean_scal l (F i j m m' n n')). apply H. repeat split; lia. }
  unfold sum4. repeat (match goal with |- cmean _ (fun a b => (@?f a b + @?g a b)%C) _ => apply (cmean_plus l f g) end); apply T.
Qed.
(** real and imaginary parts *)
Lemma Re_scal : forall r z, Re (RtoC r * z)%C = r * Re z.
Proof. intros. unfold Re, Im, Cmult, RtoC. cbn [fst snd]. ring. Qed.
Lemma Im_scal : forall r z, Im (RtoC r * z)%C = r * Im z.
Proof. intros. unfold Re, Im, Cmult, RtoC. cbn [fst snd]. ring. Qed.
Lemma mean_parts : forall l f v, cmean l f v -> mean_over l (fun a b => Re (f a b)) (Re v) /\ mean_over l (fun a b => Im (f a b)) (Im v).
Proof.
  intros [p|be|] f v; cbn [cmean mean_over].
  - intros (g & A & (B1 & B2)). split; [exists (fun b => Re (g b)) | exists (fun b => Im (g b))]; split.
    + intros b. destruct (A b) as (A1 & _). replace (2 * PI * Re (g b)) with (Re (RtoC (2 * PI) * g b)%C) by (unfold Re, Im, Cmult, RtoC; cbn [fst snd]; ring). exact A1.
    + apply (is_RInt_ext (fun b => Re (RtoC (sin b * p b) * g b)%C)); [intros; apply Re_scal | exact B1].
    + intros b. destruct (A b) as (_ & A2). replace (2 * PI * Im (g b)) with (Im (RtoC (2 * PI) * g b)%C) by (unfold Re, Im, Cmult, RtoC; cbn [fst snd]; ring). exact A2.
    + apply (is_RInt_ext (fun b => Im (RtoC (sin b * p b) * g b)%C)); [intros; apply Im_scal | exact B2].
  - intros (A & B). split.
    + replace (2 * PI * Re v) with (Re (RtoC (2 * PI) * v)%C) by (unfold Re, Im, Cmult, RtoC; cbn [fst snd]; ring). exact A.
    + replace (2 * PI * Im v) with (Im (RtoC (2 * PI) * v)%C) by (unfold Re, Im, Cmult, RtoC; cbn [fst snd]; ring). exact B.
  - intros ->. auto.
Qed.
Lemma mean_ext : forall l f g v, (forall a b, f a b = g a b) -> mean_over l f v -> mean_over l g v.
Proof.
  intros [p|be|] f g v E H; cbn [mean_over] in *; [destruct H as (h & A & B); exists h; split; auto; intros b; apply (is_RInt_ext (fun a => f a b)); auto | apply (is_RInt_ext (fun a => f a be)); auto | rewrite <- E; auto].
Qed.
Lemma mean_scal : forall l f v c, mean_over l f v -> mean_over l (fun a b => c * f a b) (c * v).
Proof.
  intros [p|be|] f v c; cbn [mean_over].
  - intros (g & A & B). exists (fun b => c * g b). split.
    + intros b. replace (2 * PI * (c * g b)) with (c * (2 * PI * g b)) by ring. apply (is_RInt_scal (V := R_NormedModule) (fun a => f a b)). auto.
    + apply (is_RInt_ext (fun b => c * (sin b * p b * g b))); [intros; match goal with |- @eq _ ?a ?b => change (@eq R a b) end; ring|]. apply (is_RInt_scal (V := R_NormedModule) (fun b => sin b * p b * g b)). auto.
  - intros A. replace (2 * PI * (c * v)) with (c * (2 * PI * v)) by ring. apply (is_RInt_scal (V := R_NormedModule) (fun a => f a be)). auto.
  - intros ->. reflexivity.
Qed.
Lemma mean_0 : forall l, mean_over l (fun _ _ => 0) 0.
Proof. intros l. destruct (mean_parts l _ _ (cmean_0 l)) as (A & _). exact A. Qed.
Lemma extinction_mean : forall l kinv (A : R -> R -> amp) B, (forall x y, cmean l (fun a b => entry (A a b) x y) (entry B x y)) ->
  forall i j, mean_over l (fun a b => extinction kinv (A a b) i j) (extinction kinv B i j).
Proof.
  intros l kinv A B H i j. set (q := 2 * PI * kinv).
  pose proof (H false false) as H0. pose proof (H false true) as H1. pose proof (H true false) as H2. pose proof (H true true) as H3. cbn [entry] in H0, H1, H2, H3.
  assert (P: forall (f g : R -> R -> C) u v z c, cmean l f u -> cmean l g v -> mean_over l (fun a b => c * Re (f a b + z * g a b)%C) (c * Re (u + z * v)%C) /\ mean_over l (fun a b => c * Im (f a b + z * g a b)%C) (c * Im (u + z * v)%C)).
  { intros f g u v z c Hf Hg. destruct (mean_parts l _ _ (cmean_plus l f (fun a b => z * g a b)%C u (z * v)%C Hf (cmean_scal l g v z Hg))) as (M1 & M2). split; [apply (mean_scal l _ _ c M1) | apply (mean_scal l _ _ c M2)]. }
  assert (M1: forall z, (RtoC 1 * z = z)%C) by (intros; ring). assert (MM: forall y z, (y + RtoC (-1) * z = y - z)%C) by (intros; apply injective_projections; cbn; ring).
  assert (PP: forall (f g : R -> R -> C) u v c, cmean l f u -> cmean l g v ->
    (mean_over l (fun a b => c * Re (f a b + g a b)%C) (c * Re (u + v)%C) /\ mean_over l (fun a b => c * Im (f a b + g a b)%C) (c * Im (u + v)%C)) /\
    (mean_over l (fun a b => c * Re (f a b - g a b)%C) (c * Re (u - v)%C) /\ mean_over l (fun a b => c * Im (f a b - g a b)%C) (c * Im (u - v)%C))).
  { intros f g u v c Hf Hg. destruct (P f g u v (RtoC 1) c Hf Hg) as (X1 & X2). destruct (P f g u v (RtoC (-1)) c Hf Hg) as (Y1 & Y2). rewrite M1 in X1, X2. rewrite MM in Y1, Y2.
    split; split; eapply mean_ext; [| exact X1 | | exact X2 | | exact Y1 | | exact Y2]; intros; cbv beta; rewrite ?M1, ?MM; reflexivity. }
  assert (NG: forall f v, mean_over l f v -> mean_over l (fun a b => - f a b) (- v)).
  { intros f v X. replace (- v) with (-1 * v) by ring. apply (mean_ext l (fun a b => -1 * f a b)); [intros; ring|]. apply mean_scal. exact X. }
  destruct (PP _ _ _ _ q H0 H3) as ((_ & K00) & (_ & K01)). destruct (PP _ _ _ _ (- q) H1 H2) as ((K13 & K02) & _). destruct (PP _ _ _ _ q H2 H1) as (_ & (K03 & K12)). destruct (PP _ _ _ _ q H3 H0) as (_ & (K23 & _)).
  pose proof (NG _ _ K12) as K12'. pose proof (NG _ _ K13) as K13'. pose proof (NG _ _ K23) as K23'. pose proof (mean_0 l) as Z0.
  unfold extinction. fold q. destruct i as [|[|[|[|i]]]], j as [|[|[|[|j]]]]; assumption.
Qed.

(* ------------------------------------------------------------ views of a T-matrix *)
Definition unmixed (nmax : nat) (V : Align.tmat) : Prop := forall i j n1 n2, (1 <= n1 <= Z.of_nat nmax)%Z -> (1 <= n2 <= Z.of_nat nmax)%Z -> i <> j -> V i j 0%Z n1 n2 = RtoC 0.
Definition agree (nmax : nat) (V W : Align.tmat) : Prop := forall i j m n1 n2, in_range (Z.of_nat nmax) m n1 n2 -> V i j m n1 n2 = W i j m n1 n2.
Lemma agree_mirrored : forall nmax V W, agree nmax V W -> forall i j m n1 n2, (1 <= n1 <= Z.of_nat nmax)%Z -> (1 <= n2 <= Z.of_nat nmax)%Z -> (- Z.min n1 n2 <= m <= Z.min n1 n2)%Z -> mirrored V i j m n1 n2 = mirrored W i j m n1 n2.
Proof. intros nmax V W A i j m n1 n2 H1 H2 Hm. unfold mirrored. destruct (Z.ltb_spec m 0); [f_equal|]; apply A; repeat split; lia. Qed.
Lemma agree_full : forall nmax V W, agree nmax V W -> forall i j m m' n1 n2, in_full_range (Z.of_nat nmax) m m' n1 n2 -> full V i j m m' n1 n2 = full W i j m m' n1 n2.
Proof. intros nmax V W A i j m m' n1 n2 (H1 & H2 & Hm & Hm'). unfold full. destruct (Z.eqb_spec m m') as [<-|]; auto. apply (agree_mirrored nmax V W A); lia. Qed.
Lemma agree_rotated : forall nmax V W, agree nmax V W -> forall i j m m' n1 n2 al be, in_full_range (Z.of_nat nmax) m m' n1 n2 -> rotated V i j m m' n1 n2 al be = rotated W i j m m' n1 n2 al be.
Proof. intros nmax V W A i j m m' n1 n2 al be (H1 & H2 & Hm & Hm'). unfold rotated. apply zsum_ext. intros m1 Hm1. rewrite (agree_mirrored nmax V W A) by lia. reflexivity. Qed.
Lemma form_ext_T : forall T U nmax fo fi, (forall i j m m' n1 n2, in_full_range nmax m m' n1 n2 -> T i j m m' n1 n2 = U i j m m' n1 n2) -> form T nmax fo fi = form U nmax fo fi.
Proof.
  intros T U nmax fo fi H. unfold form. apply zsum_ext. intros n Hn. apply zsum_ext. intros n' Hn'. f_equal. apply zsum_ext. intros m Hm. apply zsum_ext. intros m' Hm'. apply sum4_ext. intros i j. rewrite H by (repeat split; lia). reflexivity.
Qed.
Lemma entry_class : forall n T, agree n (Props_physics.entry n T) (class_view n T).
Proof.
  intros n T i j m n1 n2 (Hm & H1 & H2). unfold Props_physics.entry, class_view, TClass.element, TClass.element_at, Ebcm.orders, Ebcm.lowest.
  destruct (Nat.ltb_spec 0 (Z.to_nat m)); cbn [fst snd]; f_equal; destruct i, j; cbn [Nat.b2n]; lia.
Qed.
Lemma viewed_class : forall n T, unmixed n (class_view n T) -> agree n (viewed n T) (class_view n T).
Proof.
  intros n T U i j m n1 n2 (Hm & H1 & H2). unfold viewed, full_T. replace (Z.abs_nat m) with (Z.to_nat m) by lia.
  destruct (Nat.eqb_spec (Nat.b2n i) (Nat.b2n j)) as [E|E]; [reflexivity|]. destruct (Z.ltb_spec m 0); [lia|]. destruct (Z.eqb_spec m 0) as [->|N]; [|reflexivity].
  symmetry. apply U; try lia. congruence.
Qed.
Lemma agree_sym : forall n V W, agree n V W -> agree n W V.
Proof. intros n V W H i j m n1 n2 R. symmetry. auto. Qed.
Lemma agree_trans : forall n V W X, agree n V W -> agree n W X -> agree n V X.
Proof. intros n V W X H K i j m n1 n2 R. rewrite H, K by auto. reflexivity. Qed.
Lemma agree_unmixed : forall n V W, agree n V W -> unmixed n V -> unmixed n W.
Proof. intros n V W H U i j n1 n2 H1 H2 N. rewrite <- H by (repeat split; lia). apply U; auto. Qed.
(** the average of a T-matrix without mixing at m = 0 has no mixing at m = 0 *)
Lemma rotated_unmixed : forall n V, unmixed n V -> forall i j n1 n2 al be, (1 <= n1 <= Z.of_nat n)%Z -> (1 <= n2 <= Z.of_nat n)%Z -> i <> j -> rotated V i j 0 0 n1 n2 al be = RtoC 0.
Proof.
  intros n V U i j n1 n2 al be H1 H2 N.
  assert (X: rotated V i j 0 0 n1 n2 al be = (- rotated V i j 0 0 n1 n2 al be)%C).
  { unfold rotated at 1. rewrite zsum_reflect. transitivity (zsum (- Z.min n1 n2) (Z.min n1 n2) (fun m1 => RtoC (-1) * (cexp (- 0 * al) * RtoC (wd n1 0 m1 be) * mirrored V i j m1 n1 n2 * (cexp (0 * al) * RtoC (wd n2 0 m1 be)))))%C.
    - apply zsum_ext. intros m1 Hm1. rewrite mirrored_opp by (intros; apply U; auto).
      pose proof (wd_mirror n1 0 m1 be ltac:(lia) ltac:(lia) ltac:(lia)) as W1. pose proof (wd_mirror n2 0 m1 be ltac:(lia) ltac:(lia) ltac:(lia)) as W2. change (- 0)%Z with 0%Z in W1, W2. rewrite W1, W2.
      set (s := (-1) ^ Z.to_nat (Z.abs (0 - m1))). assert (S2: (RtoC s * RtoC s = RtoC 1)%C). { rewrite <- RtoC_mult. f_equal. unfold s. rewrite <- Rpow_mult_distr. replace (-1 * -1) with 1 by ring. apply pow1. }
      unfold flip. replace (xorb i j) with true by (destruct i, j; try congruence; reflexivity). rewrite !RtoC_mult. 
      transitivity ((RtoC s * RtoC s) * (RtoC (-1) * (cexp (- 0 * al) * RtoC (wd n1 0 m1 be) * mirrored V i j m1 n1 n2 * (cexp (0 * al) * RtoC (wd n2 0 m1 be)))))%C; [ring|]. rewrite S2. ring.
    - rewrite zsum_scal. unfold rotated. replace (RtoC (-1)) with (- RtoC 1)%C by (rewrite <- RtoC_opp; reflexivity). ring. }
  set (z := rotated V i j 0 0 n1 n2 al be) in *. clearbody z. destruct z as (x, y). unfold Copp in X. cbn [fst snd] in X. injection X as X1 X2. unfold RtoC. f_equal; lra.
Qed.
Lemma rotated_0 : forall n V i j m m' n1 n2, in_full_range n m m' n1 n2 -> rotated V i j m m' n1 n2 0 0 = full V i j m m' n1 n2.
Proof.
  intros n V i j m m' n1 n2 (H1 & H2 & Hm & Hm'). unfold rotated, full. 
  assert (E: forall x, cexp (x * 0) = RtoC 1) by (intros; rewrite Rmult_0_r; apply cexp_0).
  transitivity (zsum (- Z.min n1 n2) (Z.min n1 n2) (fun m1 => RtoC (if (m =? m1)%Z then 1 else 0) * RtoC (if (m' =? m1)%Z then 1 else 0) * mirrored V i j m1 n1 n2)%C).
  - apply zsum_ext. intros m1 Hm1. rewrite !E, !wd_0 by lia. ring.
  - destruct (Z.eqb_spec m m') as [<-|N].
    + rewrite (zsum_pick _ _ _ m); [rewrite Z.eqb_refl; ring | lia |]. intros k Hk X. replace (m =? k)%Z with false by (symmetry; apply Z.eqb_neq; auto). ring.
    + apply zsum_0. intros k Hk. destruct (Z.eqb_spec m k); [|ring]. destruct (Z.eqb_spec m' k); [congruence | ring].
Qed.
(** [ensemble] of C90 in the form of [cmean] *)
Lemma ensemble_cmean : forall l n T Tav, ensemble l n T Tav -> forall i j m m' n1 n2, in_full_range (Z.of_nat n) m m' n1 n2 ->
  cmean l (rotated (Props_physics.entry n T) i j m m' n1 n2) (full (Props_physics.entry n Tav) i j m m' n1 n2).
Proof.
  intros l n T Tav E i j m m' n1 n2 H. specialize (E i j m m' n1 n2 H). cbv zeta in E. destruct l; cbn [cmean]; auto. rewrite (rotated_0 (Z.of_nat n)) by auto. exact E.
Qed.
Lemma cmean_unique_0 : forall l v, cmean l (fun _ _ => RtoC 0) v -> v = RtoC 0.
Proof.
  assert (U: forall a b v, is_CInt (fun _ => RtoC 0) a b v -> v = RtoC 0).
  { intros a b v (A & B). pose proof (is_CInt_0 a b) as (C & D). apply injective_projections.
    - apply (is_RInt_unique (V := R_CompleteNormedModule)) in A. apply (is_RInt_unique (V := R_CompleteNormedModule)) in C. change (fst v) with (Re v). rewrite <- A, C. reflexivity.
    - apply (is_RInt_unique (V := R_CompleteNormedModule)) in B. apply (is_RInt_unique (V := R_CompleteNormedModule)) in D. change (snd v) with (Im v). rewrite <- B, D. reflexivity. }
  assert (PZ: forall v, (RtoC (2 * PI) * v = RtoC 0)%C -> v = RtoC 0).
  { intros v H. pose proof PI_RGT_0 as HP. pose proof (f_equal Re H) as A. pose proof (f_equal Im H) as B. rewrite Re_scal in A. rewrite Im_scal in B. unfold RtoC, Re, Im in A, B. cbn [fst snd] in A, B.
    apply injective_projections; cbn [RtoC fst snd]; [apply Rmult_integral in A; destruct A; lra | apply Rmult_integral in B; destruct B; lra]. }
  intros [p|be|] v; cbn [cmean].
  - intros (g & A & B). assert (G: forall b, g b = RtoC 0) by (intros b; apply PZ, (U 0 (2 * PI)); apply A). apply (U 0 PI). apply (is_CInt_ext (fun b => RtoC (sin b * p b) * g b)%C); [intros; rewrite G; ring | exact B].
  - intros A. apply PZ. apply (U 0 (2 * PI)). exact A.
  - auto.
Qed.
Lemma ensemble_unmixed : forall l n T Tav, ensemble l n T Tav -> unmixed n (Props_physics.entry n T) -> unmixed n (Props_physics.entry n Tav).
Proof.
  intros l n T Tav E U i j n1 n2 H1 H2 N. pose proof (ensemble_cmean l n T Tav E i j 0 0 n1 n2 ltac:(repeat split; lia)) as C.
  apply (cmean_unique_0 l). apply (cmean_ext l (fun a b => rotated (Props_physics.entry n T) i j 0 0 n1 n2 a b)); [|exact C]. intros a b. apply (rotated_unmixed n _ U); auto.
Qed.

(* ------------------------------------------------------------ C91 *)
(** The amplitude matrix computed from the average is the mean of the amplitude matrices of the rotated particles. *)
Theorem C91_amplitude : forall l n T Tav k ti pi_ to po x y, ensemble l n T Tav -> unmixed n (class_view n T) -> resolved ti -> resolved to ->
  cmean l (fun alpha beta => series (fun i j m m' n1 n2 => rotated (viewed n T) i j m m' n1 n2 alpha beta) (Z.of_nat n) k ti pi_ to po x y) (entry (fixed_axis n k Tav ti pi_ to po) x y).
Proof.
  intros l n T Tav k ti pi_ to po x y E U Ri Ro. rewrite C91_series by auto. unfold series.
  assert (A: agree n (viewed n T) (Props_physics.entry n T)) by (eapply agree_trans; [apply viewed_class; exact U | apply agree_sym, entry_class]).
  assert (UT: unmixed n (Props_physics.entry n T)) by (apply (agree_unmixed n (class_view n T)); [apply agree_sym, entry_class | exact U]).
  pose proof (ensemble_unmixed l n T Tav E UT) as UA.
  assert (B: agree n (viewed n Tav) (Props_physics.entry n Tav)).
  { eapply agree_trans; [apply viewed_class; apply (agree_unmixed n (Props_physics.entry n Tav)); [apply entry_class | exact UA] | apply agree_sym, entry_class]. }
  match goal with |- cmean l (fun a b => ?z * form (@?F a b) ?N ?fo ?fi)%C _ => set (FO := fo); set (FI := fi) end.
  apply (cmean_scal l (fun a b => form (fun i j m m' n1 n2 => rotated (viewed n T) i j m m' n1 n2 a b) (Z.of_nat n) FO FI)).
  rewrite (form_ext_T (full (viewed n Tav)) (full (Props_physics.entry n Tav)) _ FO FI) by (intros; apply (agree_full n _ _ B); auto).
  apply (cmean_form l (Z.of_nat n) (fun i j m m' n1 n2 a b => rotated (viewed n T) i j m m' n1 n2 a b)). intros i j m m' n1 n2 HR.
  apply (cmean_ext l (rotated (Props_physics.entry n T) i j m m' n1 n2)); [intros a b; symmetry; apply (agree_rotated n _ _ A); auto | apply ensemble_cmean; auto].
Qed.
Print Assumptions C91_amplitude.

(** Extinction matrix of a particle with its axis in the direction (beta, alpha), from the series over its rotated T-matrix *)
Definition single_extinction (n : nat) (k : R) (T : tmats) (theta phi : R) (i j : nat) (alpha beta : R) : R :=
  extinction (/ k) (series_amp (fun i j m m' n1 n2 => rotated (viewed n T) i j m m' n1 n2 alpha beta) (Z.of_nat n) k theta phi theta phi) i j.
(** it is what the code computes for that orientation (up to the directions very close to the axis that the code takes for the axis) *)
Theorem C91_single_particle : forall n k T alpha beta theta phi t' p' i j, in_body alpha beta (direction theta phi) = direction t' p' -> resolved t' ->
  get_extinction_matrix n k T alpha beta theta phi i j = single_extinction n k T theta phi i j alpha beta.
Proof.
  intros n k T al be th ph t' p' i j H Hr. unfold get_extinction_matrix, single_extinction. f_equal. apply amp_entries. intros a b.
  rewrite (C91_oriented n k T al be th ph th ph t' p' t' p') by auto. destruct a, b; reflexivity.
Qed.
Print Assumptions C91_single_particle.
Theorem C91_extinction_matrix : forall l n T Tav k theta phi alpha, ensemble l n T Tav -> unmixed n (class_view n T) -> resolved theta -> forall i j,
  mean_over l (single_extinction n k T theta phi i j) (get_extinction_matrix n k Tav alpha 0 theta phi i j).
Proof.
  intros l n T Tav k th ph al E U Hr i j. unfold single_extinction, get_extinction_matrix. rewrite C74_axis_along_z by (destruct Hr; auto).
  apply (extinction_mean l (/ k) (fun a b => series_amp (fun i j m m' n1 n2 => rotated (viewed n T) i j m m' n1 n2 a b) (Z.of_nat n) k th ph th ph)).
  intros x y. eapply cmean_ext; [|exact (C91_amplitude l n T Tav k th ph th ph x y E U Hr Hr)]. intros a b. destruct x, y; reflexivity.
Qed.
Print Assumptions C91_extinction_matrix.
(** A direction that stays away from the axes of all particles that have the zenith angle beta: the mean of what the code computes for them *)
Definition clear_of (beta theta : R) : Prop := / 10000000000 < 1 - Rabs (cos (theta - beta)) /\ / 10000000000 < 1 - Rabs (cos (theta + beta)).
Lemma clear_resolved : forall alpha beta theta phi, 0 <= beta <= PI -> 0 <= theta <= PI -> clear_of beta theta -> exists t p, in_body alpha beta (direction theta phi) = direction t p /\ resolved t.
Proof.
  intros al be th ph Hb Ht (A & B). destruct (C74_angles_exist al be th ph) as (t & p & R & E). exists t, p. split; auto. split; auto. right. right.
  rewrite in_body_direction in E. unfold direction, real3 in E. injection E as _ _ E3. rewrite <- E3. rewrite cos_minus in A. rewrite cos_plus in B.
  assert (CD: cos ph * cos al + sin ph * sin al = cos (ph - al)) by (rewrite cos_minus; reflexivity). rewrite CD.
  pose proof (COS_bound (ph - al)) as (C1 & C2). set (q := cos (ph - al)) in *. pose proof (sin_ge_0 be (proj1 Hb) (proj2 Hb)) as S1. pose proof (sin_ge_0 th (proj1 Ht) (proj2 Ht)) as S2.
  pose proof (Rmult_le_pos _ _ S2 S1) as S3. set (s := sin th * sin be) in *. set (c := cos th * cos be) in *.
  assert (A1: Rabs (c + s) < 1 - / 10000000000) by lra. assert (B1: Rabs (c - s) < 1 - / 10000000000) by lra. apply Rabs_def2 in A1, B1.
  assert (Rabs (c + s * q) < 1 - / 10000000000); [|lra]. apply Rabs_def1; nra.
Qed.
Theorem C91_same_tilt : forall beta n T Tav k theta phi alpha, ensemble (Tilted beta) n T Tav -> unmixed n (class_view n T) -> 0 <= beta <= PI -> resolved theta -> clear_of beta theta -> forall i j,
  is_RInt (fun azimuth => get_extinction_matrix n k T azimuth beta theta phi i j) 0 (2 * PI) (2 * PI * get_extinction_matrix n k Tav alpha 0 theta phi i j).
Proof.
  intros be n T Tav k th ph al E U Hb Hr Hc i j. pose proof (C91_extinction_matrix (Tilted be) n T Tav k th ph al E U Hr i j) as M. cbn [mean_over] in M.
  apply (is_RInt_ext (fun azimuth => single_extinction n k T th ph i j azimuth be)); [|exact M]. intros az _. destruct (clear_resolved az be th ph Hb (proj1 Hr) Hc) as (t & p & D & R).
  rewrite (C91_single_particle n k T az be th ph t p) by auto. reflexivity.
Qed.
Print Assumptions C91_same_tilt.

(* ------------------------------------------------------------ Python objects *)
(** the law that a degree of alignment cos2beta stands for *)
Definition python_law (cos2beta axis_ratio : R) (l : law) : Prop :=
  (cos2beta = 0 \/ cos2beta = 1) /\ l = Tilted (if Rlt_dec axis_ratio 1 then PI / 2 else 0) \/
  1 / 5 <= cos2beta <= 3 / 5 /\ cos2beta <> 1 / 3 /\ l = Spread (fun b => mishchenko_pdf cos2beta (cos b)) \/
  cos2beta = 1 / 3 /\ exists p, l = Spread p /\ forall b, Rabs (p b - 1 / 2) <= 1 / 10.   (* random orientation, up to the error of the quadrature *)
Lemma python_ensemble : forall rule cos2beta axis_ratio n d T Tav, (1 <= n)%nat -> unmixed n (class_view n T) -> orientation rule cos2beta axis_ratio (2 * n) = Done d ->
  (forall i j m n1 n2, in_range (Z.of_nat n) m n1 n2 -> class_view n Tav i j m n1 n2 = Align.mishchenko (fun N => Orientation.coef d (Z.to_nat N)) (class_view n T) i j m n1 n2) ->
  0 <= cos2beta -> (cos2beta = 1 / 3 -> Props_density.gauss_on rule 1 (100 * (2 * n + 10))) -> exists l, python_law cos2beta axis_ratio l /\ ensemble l n T Tav.
Proof.
  intros rule c axis n d T Tav Hn U D M Hc G3. destruct (C83_alignment rule c axis (2 * n) d ltac:(lia) D) as (SZ & C0 & A & A3 & B).
  assert (UT: unmixed n (Props_physics.entry n T)) by (apply (agree_unmixed n (class_view n T)); [apply agree_sym, entry_class | exact U]).
  assert (F: forall i j m n1 n2, in_range (Z.of_nat n) m n1 n2 -> Props_physics.entry n Tav i j m n1 n2 = Align.mishchenko (fun N => Orientation.coef d (Z.to_nat N)) (Props_physics.entry n T) i j m n1 n2).
  { intros i j m n1 n2 HR. rewrite (entry_class n Tav) by auto. rewrite M by auto. apply (mishchenko_ext _ _ _ _ _ (Z.of_nat n)); auto. intros. symmetry. apply entry_class. auto. }
  destruct (Req_EM_T c 0) as [Z0|Z0]; [|destruct (Req_EM_T c 1) as [Z1|Z1]].
  1,2: exists (Tilted (if Rlt_dec axis 1 then PI / 2 else 0)); split; [left; auto|]; intros i j m m' n1 n2 HR; cbv zeta;
    apply (mean_angle _ (fun N => Orientation.coef d (Z.to_nat N)) (Z.of_nat n)); auto;
    [intros N HN; rewrite B by (auto; lia); destruct (Rlt_dec axis 1); [rewrite cos_PI2 | rewrite cos_0]; reflexivity | intros NE; destruct HR as (? & ? & ? & ?); apply UT; auto].
  destruct (Req_EM_T c (1 / 3)) as [H3|H3].
  { specialize (A3 H3 (G3 H3)). exists (Spread (legendre_series (Orientation.coef d) (S (2 * n)))). split.
    - right. right. split; auto. eexists. split; [reflexivity|]. intros b. eapply Rle_trans; [apply series_near; auto; intros; apply A3; lia|]. pose proof (pow_lt 2 (2 * n) ltac:(lra)) as P2. pose proof (pos_INR (2 * n)) as PK.
      assert (0 <= (2 * INR (2 * n) + 5) / 50 / 2 ^ (2 * n)) by (apply Rdiv_le_0_compat; [apply Rdiv_le_0_compat; lra | auto]). lra.
    - intros i j m m' n1 n2 HR. cbv zeta. apply (mean_density _ (fun N => Orientation.coef d (Z.to_nat N)) (Z.of_nat n)); auto.
      + intros N HN. pose proof (series_moment (Orientation.coef d) (S (2 * n)) (Z.to_nat N)) as Q. rewrite (proj2 (Nat.ltb_lt _ _)) in Q by lia. exact Q.
      + intros NE. destruct HR as (? & ? & ? & ?). apply UT; auto. }
  destruct (A Z0 Z1 H3) as (A1 & _ & _ & A4). exists (Spread (fun b => mishchenko_pdf c (cos b))). split; [right; auto|]. intros i j m m' n1 n2 HR. cbv zeta.
  apply (mean_density _ (fun N => Orientation.coef d (Z.to_nat N)) (Z.of_nat n)); auto.
  - intros N HN. apply A4.
  - intros NE. destruct HR as (? & ? & ? & ?). apply UT; auto.
Qed.
(** Two TMatrix objects of the same particle, one for the single particle (cos2beta < 0) and one with a degree of alignment: the extinction matrix of the second is
    the mean over the orientations of the extinction matrices of the first. *)
Theorem C91_python : forall prec emax round radials rule angle_rule, (forall n, Props_tmatrix.symmetric_rule n (fst (rule n)) (snd (rule n))) ->
  forall radius axis_ratio wavelength mr cos2beta none tol mo ndgs mg ev o s, 0 < radius -> 0 < axis_ratio -> 0 < wavelength -> mr <> RtoC 0 ->
  0 <= cos2beta -> (cos2beta = 1 / 3 -> forall K, Props_density.gauss_on angle_rule 1 K) -> none < 0 ->
  init prec emax round radials rule angle_rule radius axis_ratio wavelength mr cos2beta tol mo ndgs mg ev = Done o ->
  init prec emax round radials rule angle_rule radius axis_ratio wavelength mr none tol mo ndgs mg ev = Done s ->
  exists l, python_law cos2beta axis_ratio l /\ forall theta phi alpha i j, resolved theta ->
    mean_over l (single_extinction (py_nmax s) (py_k s) (py_T s) theta phi i j) (get_extinction_matrix (py_nmax o) (py_k o) (py_T o) alpha 0 theta phi i j) /\
    (forall beta, l = Tilted beta -> clear_of beta theta ->
       is_RInt (fun azimuth => get_extinction_matrix (py_nmax s) (py_k s) (py_T s) azimuth beta theta phi i j) 0 (2 * PI) (2 * PI * get_extinction_matrix (py_nmax o) (py_k o) (py_T o) alpha 0 theta phi i j)).
Proof.
  intros prec emax round radials rule angle_rule RS radius axis wl mr c none tol mo ndgs mg ev o s Hr Ha Hw Hm Hc H3 Hnone E1 E2.
  unfold init in E1, E2. cbv zeta in E1, E2. destruct (calculate _ _ _ _ _ _ _ _ _ _ _ _ _ _) as [(p, T)|] eqn:CA; [|discriminate].
  destruct (calculated prec emax round radials rule RS ev radius axis wl mr tol mo ndgs mg p T Hr Ha Hw Hm CA) as (S1 & _ & _ & _ & _ & T0 & F0 & F1).
  destruct (Rle_dec 0 none) as [LE|LE]; [lra|]. injection E2 as <-. destruct (Rle_dec 0 c) as [LC|LC]; [|contradiction]. destruct (orientation _ _ _ _) as [d|] eqn:D; [|discriminate].
  destruct (apply_to_object _ _ _) as [T'|] eqn:A; [|discriminate]. injection E1 as <-. cbn [py_nmax py_k py_T].
  pose proof (C75_objects_are_plane_symmetric p T0 T S1 F0 F1) as PS. pose proof (orientation_size _ _ _ _ _ D) as SZ. set (n := p_nmax p) in *.
  assert (Hn: (1 <= n)%nat) by (destruct S1 as (_ & _ & _ & _ & _ & X); exact X).
  assert (U: unmixed n (class_view n T)).
  { intros i j n1 n2 H1 H2 N. unfold class_view. change (Z.to_nat 0) with 0%nat. destruct (proj1 PS (Z.to_nat n1) (Z.to_nat n2)) as (Z1 & Z2); try lia. destruct i, j; try congruence; cbn [Nat.b2n]; auto. }
  destruct (apply_ok (map (Orientation.coef d) (seq 0 (Orientation.size d))) n T) as (T'' & A' & Q); [rewrite map_length, seq_length; lia | exact PS|]. rewrite A in A'. injection A' as <-.
  destruct (python_ensemble angle_rule c axis n d T T' Hn U D) as (l & L1 & L2); auto.
  { intros i j m n1 n2 HR. rewrite Q by auto. apply mishchenko_coef. intros N HN. unfold coefficient. destruct HR as (? & ? & ?).
    rewrite (List.nth_indep _ 0 (Orientation.coef d 0)) by (rewrite map_length, seq_length; lia). rewrite map_nth, seq_nth by lia. reflexivity. }
  exists l. split; auto. intros th ph al i j Hth. split; [apply C91_extinction_matrix; auto|].
  intros be -> Hcl. apply C91_same_tilt; auto. pose proof PI_RGT_0. destruct L1 as [(_ & X)|[(_ & _ & X)|(_ & q & X & _)]]; [injection X as ->; destruct (Rlt_dec axis 1); lra | discriminate | discriminate].
Qed.
Print Assumptions C91_python.
