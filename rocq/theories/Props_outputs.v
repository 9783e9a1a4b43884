(** C75: scattering matrix, extinction matrix, coefficients and absorption cross sections of the class TMatrix. *)
From Coq Require Import List Arith Lia Bool ZArith Reals Lra Psatz.
From Coquelicot Require Import Complex.
From Verif Require Import Matrix Wigner Optics Props_optics QMatrix QFacts Ebcm EbcmFacts Props_tmatrix TClass TClassFacts Props_tclass Frames FramesFacts Props_frames.
Import ListNotations.
Open Scope R_scope.

(** the scattering matrix maps the Stokes vector of the incoming light to the one of the scattered light; physical light stays physical *)
Theorem C75_scattering_matrix : forall nmax k T alpha beta ti pi_ to po Et Ep i, (i < 4)%nat ->
  let E' := apply (oriented nmax k T alpha beta ti pi_ to po) (Et, Ep) in
  act (get_scattering_matrix nmax k T alpha beta ti pi_ to po) (stokes Et Ep) i = stokes (fst E') (snd E') i /\
  (forall v, physical v -> physical (act (get_scattering_matrix nmax k T alpha beta ti pi_ to po) v)).
Proof.
  intros. split.
  - symmetry. apply (C30_maps_stokes_vectors (oriented nmax k T alpha beta ti pi_ to po) Et Ep i H).
  - intros v Hv. apply (C30_physical_light_stays_physical (oriented nmax k T alpha beta ti pi_ to po) v Hv).
Qed.
Print Assumptions C75_scattering_matrix.
(** the extinction matrix is the change, to first order in the path length, of the Stokes vector of light that propagates through the
    particles; the three numbers of get_reduced_extinction_matrix are elements of it *)
Theorem C75_extinction_matrix : forall nmax k T alpha beta ti pi_ Et Ep eps i, (i < 4)%nat ->
  let b := RtoC (eps * (2 * PI / k)) in
  let E' := apply (oriented nmax k T alpha beta ti pi_ ti pi_) (Et, Ep) in
  let K := get_extinction_matrix nmax k T alpha beta ti pi_ in
  stokes (Et + Ci * b * fst E')%C (Ep + Ci * b * snd E')%C i =
    stokes Et Ep i - eps * act K (stokes Et Ep) i
    + eps * eps * (2 * PI / k) * (2 * PI / k) * act (get_scattering_matrix nmax k T alpha beta ti pi_ ti pi_) (stokes Et Ep) i /\
  get_reduced_extinction_matrix nmax k T alpha beta ti pi_ = (K 0%nat 0%nat, K 0%nat 1%nat, K 2%nat 3%nat).
Proof. intros. split; [apply (C52_extinction_matrix (/ k) (oriented nmax k T alpha beta ti pi_ ti pi_) Et Ep eps i H) | reflexivity]. Qed.
Print Assumptions C75_extinction_matrix.

(** when the axis lies in the plane of the z axis and the direction of the light, the extinction matrix has the form assumed by
    get_reduced_extinction_matrix *)
Definition reduced_form (K : nat -> nat -> R) (r : R * R * R) : Prop := let '(Cext, Cpol, Ccpol) := r in
  K 0%nat 0%nat = Cext /\ K 0%nat 1%nat = Cpol /\ K 0%nat 2%nat = 0 /\ K 0%nat 3%nat = 0 /\
  K 1%nat 0%nat = Cpol /\ K 1%nat 1%nat = Cext /\ K 1%nat 2%nat = 0 /\ K 1%nat 3%nat = 0 /\
  K 2%nat 0%nat = 0 /\ K 2%nat 1%nat = 0 /\ K 2%nat 2%nat = Cext /\ K 2%nat 3%nat = Ccpol /\
  K 3%nat 0%nat = 0 /\ K 3%nat 1%nat = 0 /\ K 3%nat 2%nat = - Ccpol /\ K 3%nat 3%nat = Cext.
Lemma diagonal_reduced : forall nmax k T al be t p, let W := oriented nmax k T al be t p t p in s1 W = RtoC 0 -> s2 W = RtoC 0 ->
  reduced_form (get_extinction_matrix nmax k T al be t p) (get_reduced_extinction_matrix nmax k T al be t p).
Proof.
  intros nmax k T al be t p W H1 H2. unfold reduced_form, get_extinction_matrix, get_reduced_extinction_matrix, extinction. cbv zeta. fold W. rewrite H1, H2.
  cbn [Re Im fst snd RtoC Cplus Cminus Copp]. unfold Rdiv. repeat split; try ring.
Qed.
Lemma forward_diagonal : forall nmax k T d, cp d * cp d + sp d * sp d = 1 -> s1 (forward nmax k T d d) = RtoC 0 /\ s2 (forward nmax k T d d) = RtoC 0.
Proof. intros. unfold forward. rewrite H. replace (sp d * cp d - cp d * sp d) with 0 by ring. apply C51_forward_is_diagonal. Qed.
Lemma in_plane_diagonal : forall nmax k T al be t p, sin (p - al) = 0 -> let W := oriented nmax k T al be t p t p in s1 W = RtoC 0 /\ s2 W = RtoC 0.
Proof.
  intros nmax k T al be t p H W.
  assert (ND: exists t' p', body_dir al be t p = dir_of t' p' /\ in_body al be (direction t p) = direction t' p').
  { destruct (C74_angles_exist al be t p) as (t' & p' & Rg & E). exists t', (if Req_EM_T (sin t') 0 then 0 else p'). split.
    - apply body_dir_angles; auto.
    - rewrite E. destruct (Req_EM_T (sin t') 0); auto. apply direction_pole. auto. }
  destruct ND as (t' & p' & ED & EB).
  assert (D2: cp (body_dir al be t p) * cp (body_dir al be t p) + sp (body_dir al be t p) * sp (body_dir al be t p) = 1).
  { rewrite ED. cbn [cp sp dir_of]. pose proof (sin2_cos2 p') as Q. unfold Rsqr in Q. lra. }
  assert (SP: sp (body_dir al be t p) = 0).
  { rewrite sin_minus in H. unfold body_dir. cbv zeta. destruct (Req_EM_T _ 0); cbn [sp]; auto. rewrite H. unfold Rdiv. ring. }
  destruct (forward_diagonal nmax k T (body_dir al be t p) D2) as (F1 & F2).
  assert (DET: a00 (mR al be t p (body_dir al be t p)) * a11 (mR al be t p (body_dir al be t p)) - a01 (mR al be t p (body_dir al be t p)) * a10 (mR al be t p (body_dir al be t p)) <> 0) by (rewrite ED; apply mR_det; auto).
  assert (OFF: a01 (mR al be t p (body_dir al be t p)) = 0 /\ a10 (mR al be t p (body_dir al be t p)) = 0).
  { rewrite sin_minus in H. unfold mR, sum3, mAP, mB, mAL. cbn [a01 a10]. rewrite SP. split.
    - transitivity (- (sin p * cos al - cos p * sin al) * (ct (body_dir al be t p) * cp (body_dir al be t p) * cos be - st (body_dir al be t p) * sin be)); [ring|]. rewrite H. ring.
    - transitivity ((sin p * cos al - cos p * sin al) * (cp (body_dir al be t p) * cos t)); [ring|]. rewrite H. ring. }
  destruct OFF as (O1 & O2). unfold W, oriented. cbv zeta. set (M := mR al be t p (body_dir al be t p)) in *. unfold invert. cbn [a00 a01 a10 a11 s1 s2]. rewrite F1, F2, O1, O2.
  replace (- (0) * (1 / (a00 M * a11 M - 0 * 0))) with 0 by ring. split; ring.
Qed.
Theorem C75_reduced_form : forall nmax k T alpha beta ti pi_, sin (pi_ - alpha) = 0 \/ sin beta = 0 ->
  reduced_form (get_extinction_matrix nmax k T alpha beta ti pi_) (get_reduced_extinction_matrix nmax k T alpha beta ti pi_).
Proof.
  intros nmax k T al be t p [H|H].
  - apply diagonal_reduced; apply in_plane_diagonal; auto.
  - assert (D: direction be p = direction be al) by (apply direction_pole; auto).
    assert (Z: sin (p - p) = 0) by (replace (p - p) with 0 by ring; apply sin_0).
    destruct (in_plane_diagonal nmax k T p be t p Z) as (E1 & E2).
    apply diagonal_reduced; cbv zeta; rewrite (C74_only_the_axis_matters nmax k T p be al be t p t p D); auto.
Qed.
Print Assumptions C75_reduced_form.
(** in general it has not: a dipole along the x axis in light along the z axis, with the polarisation measured at 45 degrees *)
Definition x_dipole : tmats := fun m i j => if ((m =? 0) && (i =? 1) && (j =? 1))%nat then RtoC 1 else RtoC 0.
Theorem C75_reduced_form_in_general_refuted :
  ~ (forall nmax k T alpha beta ti pi_, 0 < k -> reduced_form (get_extinction_matrix nmax k T alpha beta ti pi_) (get_reduced_extinction_matrix nmax k T alpha beta ti pi_)).
Proof.
  intros H. specialize (H 1%nat 1 x_dipole 0 (PI / 2) 0 (PI / 4) Rlt_0_1). unfold reduced_form, get_reduced_extinction_matrix in H. cbv zeta in H. destruct H as (_ & _ & K & _).
  assert (B: body_dir 0 (PI / 2) 0 (PI / 4) = mkDir 0 1 1 (-1) 0).
  { unfold body_dir. rewrite cos_PI2, sin_PI2, cos_0, sin_0, cos_PI4, sin_PI4. cbv zeta.
    replace (1 * 0 + 0 * 1 * (1 / sqrt 2 * 1 + 1 / sqrt 2 * 0)) with 0 by ring. rewrite acos_0, sin_PI2. destruct (Req_EM_T 1 0); [lra|]. f_equal; field; apply Rgt_not_eq; apply sqrt_lt_R0; lra. }
  assert (R4: mR 0 (PI / 2) 0 (PI / 4) (mkDir 0 1 1 (-1) 0) = mk2 (- / sqrt 2) (/ sqrt 2) (- / sqrt 2) (- / sqrt 2)).
  { unfold mR, sum3, mAP, mB, mAL. cbn [ct st inv cp sp]. rewrite cos_PI2, sin_PI2, cos_0, sin_0, cos_PI4, sin_PI4. f_equal; field; apply Rgt_not_eq; apply sqrt_lt_R0; lra. }
  assert (Q2: / sqrt 2 * / sqrt 2 = / 2) by (rewrite <- Rinv_mult, sqrt_sqrt by lra; reflexivity).
  unfold get_extinction_matrix, oriented in K. rewrite B, R4 in K. cbv zeta in K.
  destruct (forward_diagonal 1 1 x_dipole (mkDir 0 1 1 (-1) 0)) as (F1 & F2); [cbn [cp sp]; ring|].
  assert (F3: s3 (forward 1 1 x_dipole (mkDir 0 1 1 (-1) 0) (mkDir 0 1 1 (-1) 0)) = RtoC 0 /\ Im (s0 (forward 1 1 x_dipole (mkDir 0 1 1 (-1) 0) (mkDir 0 1 1 (-1) 0))) <> 0).
  { unfold forward, amplitude, for_C. cbn [Nat.add Nat.sub seq fold_left Nat.max]. unfold amp_term. cbn [Nat.eqb T dsin_in dsin_out tau_in tau_out cnn].
    unfold element, element_at, x_dipole. cbn [Nat.ltb Nat.leb Nat.mul Nat.add Nat.sub fst snd Nat.eqb andb].
    unfold sinx_tables, wigner_dn_0m_sinx. cbn [ct st inv]. rewrite Rabs_R0, Rminus_0_r, Rabs_R1. destruct (Rle_dec 1 (/ 10000000000)); [lra|].
    unfold wigner_core, w0_loop. cbn [map Nat.sub nth fst snd s0 s1 s2 s3]. unfold class_c, for_C. cbn [Nat.sub seq fold_left]. cbn [INR].
    split; [ring|].
    replace ((2 * 1 + 1) * (2 * 1 + 1) / (1 * 1 * (1 + 1) * (1 + 1))) with (3 / 2 * (3 / 2)) by field. rewrite sqrt_square by lra.
    unfold Cmult, Cplus, Cdiv, Cinv, Ci, RtoC. cbn [Re Im fst snd]. lra. }
  destruct F3 as (F3 & F4). unfold extinction, invert in K. cbv zeta in K. cbn [a00 a01 a10 a11 s0 s1 s2 s3] in K. rewrite F1, F2, F3 in K. apply F4.
  set (z := s0 _) in *. set (q := / sqrt 2) in *.
  replace (- q * - q - q * - q) with 1 in K by lra. destruct z as (x, y). unfold Cmult, Cplus, Copp, RtoC in K. cbn [Re Im fst snd] in K. cbn [Im snd].
  pose proof PI_RGT_0 as P. assert (y * (q * q) = 0); [|rewrite Q2 in H; lra].
  apply (Rmult_eq_reg_l (4 * PI)); [|lra]. rewrite <- K at 2 || idtac. clear F4. nra.
Qed.
Print Assumptions C75_reduced_form_in_general_refuted.

(* ---------------------------------------------- coefficients *)

Definition rsum {X} (l : list X) (f : X -> R) : R := fold_right (fun x a => f x + a) 0 l.
(** all |T|^2 and the real part of the trace, over all m from - nmax to nmax, with the elements of negative m that follow from the
    symmetry of the particle (full_T) *)
Definition all_norms (nmax : nat) (T : tmats) : R :=
  rsum (Props_optics.orders nmax) (fun m => rsum (degrees nmax m) (fun n => rsum (degrees nmax m) (fun n' => rsum [0; 1]%nat (fun i => rsum [0; 1]%nat (fun j => norm2 (full_T nmax T i j m n n')))))).
Definition trace (nmax : nat) (T : tmats) : C :=
  csum (Props_optics.orders nmax) (fun m => csum (degrees nmax m) (fun n => csum [0; 1]%nat (fun i => full_T nmax T i i m n n))).
(** elements that are zero for every particle with a plane of symmetry perpendicular to its axis (C64) *)
Definition plane_symmetric (nmax : nat) (T : tmats) : Prop :=
  (forall n n', (1 <= n <= nmax)%nat -> (1 <= n' <= nmax)%nat -> element nmax T 0 n 0 1 n' 0 = RtoC 0 /\ element nmax T 1 n 0 0 n' 0 = RtoC 0) /\
  (forall m n, (m <= nmax)%nat -> (Nat.max 1 m <= n <= nmax)%nat -> element nmax T 0 n m 1 n m = RtoC 0 /\ element nmax T 1 n m 0 n m = RtoC 0).

Lemma rsum_cons : forall {X} (x : X) l f, rsum (x :: l) f = f x + rsum l f.
Proof. reflexivity. Qed.
Lemma rsum_nil : forall {X} (f : X -> R), rsum [] f = 0.
Proof. reflexivity. Qed.
Lemma rsum_app : forall {X} (l1 l2 : list X) f, rsum (l1 ++ l2) f = rsum l1 f + rsum l2 f.
Proof. induction l1; intros; cbn [app]; rewrite ?rsum_cons, ?rsum_nil; [ring|]. rewrite IHl1. ring. Qed.
Lemma rsum_ext : forall {X} (l : list X) f g, (forall x, In x l -> f x = g x) -> rsum l f = rsum l g.
Proof. induction l; intros f g H; auto. rewrite !rsum_cons. rewrite (H a) by now left. rewrite (IHl f g) by (intros; apply H; now right). reflexivity. Qed.
Lemma rsum_add : forall {X} (l : list X) f g, rsum l (fun x => f x + g x) = rsum l f + rsum l g.
Proof. induction l; intros; rewrite ?rsum_cons, ?rsum_nil; [ring|]. rewrite IHl. ring. Qed.
Lemma rsum_scal : forall {X} (l : list X) a f, rsum l (fun x => a * f x) = a * rsum l f.
Proof. induction l; intros; rewrite ?rsum_cons, ?rsum_nil; [ring|]. rewrite IHl. ring. Qed.
Lemma rsum_zero : forall {X} (l : list X) f, (forall x, In x l -> f x = 0) -> rsum l f = 0.
Proof. induction l; intros f H; rewrite ?rsum_cons, ?rsum_nil; auto. rewrite (H a) by now left. rewrite IHl by (intros; apply H; now right). ring. Qed.
Lemma rsum_map : forall {X Y} (l : list X) (h : X -> Y) f, rsum (map h l) f = rsum l (fun x => f (h x)).
Proof. induction l; intros; cbn [map]; rewrite ?rsum_cons; auto. rewrite IHl. reflexivity. Qed.
Lemma rsum_swap : forall {X Y} (l : list X) (l' : list Y) f, rsum l (fun x => rsum l' (fun y => f x y)) = rsum l' (fun y => rsum l (fun x => f x y)).
Proof.
  induction l; intros l' f.
  - symmetry. apply rsum_zero. auto.
  - rewrite rsum_cons, IHl, <- rsum_add. reflexivity.
Qed.
Lemma for_R : forall lo hi (body : nat -> R -> R) t a, (forall n a, (lo <= n < hi)%nat -> body n a = a + t n) -> for_C lo hi body a = a + rsum (seq lo (hi - lo)) t.
Proof.
  intros lo hi body t a H. unfold for_C.
  assert (G: forall l a, (forall n, In n l -> (lo <= n < hi)%nat) -> fold_left (fun s k => body k s) l a = a + rsum l t).
  { induction l as [|x l IH]; intros b Hl; cbn [fold_left]; rewrite ?rsum_cons, ?rsum_nil; [ring|]. rewrite IH by (intros; apply Hl; now right). rewrite H by (apply Hl; now left). ring. }
  apply G. intros n Hn. apply in_seq in Hn. lia.
Qed.
(** sums over m from - nmax to nmax of something symmetric *)
Lemma rsum_orders : forall nmax f, (forall m, f (- m)%Z = f m) -> rsum (Props_optics.orders nmax) f = rsum (seq 0 (nmax + 1)) (fun m => (if (0 <? m)%nat then 2 else 1) * f (Z.of_nat m)).
Proof.
  intros nmax f H. unfold Props_optics.orders. rewrite rsum_map.
  replace (seq 0 (2 * nmax + 1)) with (seq 0 nmax ++ seq nmax (nmax + 1)) by (replace (2 * nmax + 1)%nat with (nmax + (nmax + 1))%nat by lia; rewrite (seq_app nmax (nmax + 1) 0); reflexivity).
  rewrite rsum_app.
  assert (A: rsum (seq 0 nmax) (fun k => f (Z.of_nat k - Z.of_nat nmax)%Z) = rsum (seq 1 nmax) (fun m => f (Z.of_nat m))).
  { assert (G: forall d, (d <= nmax)%nat -> rsum (seq (nmax - d) d) (fun k => f (Z.of_nat k - Z.of_nat nmax)%Z) = rsum (seq 1 d) (fun m => f (Z.of_nat m))).
    { induction d; intros Hd; [reflexivity|].
      rewrite (seq_S d 1), rsum_app, rsum_cons, rsum_nil. replace (seq (nmax - S d) (S d)) with ((nmax - S d)%nat :: seq (nmax - d) d) by (cbn [seq]; f_equal; f_equal; lia).
      rewrite rsum_cons, IHd by lia.
      rewrite <- (H (Z.of_nat (nmax - S d) - Z.of_nat nmax)%Z). replace (- (Z.of_nat (nmax - S d) - Z.of_nat nmax))%Z with (Z.of_nat (1 + d)) by lia. ring. }
    specialize (G nmax ltac:(lia)). rewrite Nat.sub_diag in G. exact G. }
  rewrite A.
  assert (B: rsum (seq nmax (nmax + 1)) (fun k => f (Z.of_nat k - Z.of_nat nmax)%Z) = rsum (seq 0 (nmax + 1)) (fun m => f (Z.of_nat m))).
  { assert (G: forall n s, rsum (seq (nmax + s) n) (fun k => f (Z.of_nat k - Z.of_nat nmax)%Z) = rsum (seq s n) (fun m => f (Z.of_nat m))).
    { induction n as [|d IH]; intros s; cbn [seq]; auto. rewrite !rsum_cons. rewrite <- Nat.add_succ_r, IH. do 2 f_equal. lia. }
    specialize (G (nmax + 1)%nat 0%nat). rewrite Nat.add_0_r in G. exact G. }
  rewrite B. rewrite Nat.add_1_r. cbn [seq]. rewrite !rsum_cons. change (0 <? 0)%nat with false. cbv iota.
  rewrite (rsum_ext (seq 1 nmax) (fun m => (if (0 <? m)%nat then 2 else 1) * f (Z.of_nat m)) (fun x => 2 * f (Z.of_nat x))).
  - rewrite rsum_scal. ring.
  - intros x Hx. apply in_seq in Hx. destruct x; [lia|reflexivity].
Qed.

Lemma rsum_upto : forall n nmax g, (n <= nmax)%nat -> rsum (seq 0 (n + 1)) g = rsum (seq 0 (nmax + 1)) (fun m => if (m <=? n)%nat then g m else 0).
Proof.
  intros n nmax g H. replace (nmax + 1)%nat with ((n + 1) + (nmax - n))%nat by lia. rewrite (seq_app (n + 1) (nmax - n) 0), rsum_app.
  rewrite (rsum_zero (seq (0 + (n + 1)) (nmax - n))).
  - rewrite Rplus_0_r. apply rsum_ext. intros m Hm. apply in_seq in Hm. destruct (Nat.leb_spec m n); [auto|lia].
  - intros m Hm. apply in_seq in Hm. destruct (Nat.leb_spec m n); [lia|auto].
Qed.
Lemma rsum_from : forall m nmax g, (m <= nmax)%nat ->
  rsum (seq 1 nmax) (fun n => if (m <=? n)%nat then g n else 0) = rsum (seq (Nat.max m 1) (nmax + 1 - Nat.max m 1)) g.
Proof.
  intros m nmax g H. destruct m as [|m]; [replace (Nat.max 0 1) with 1%nat by lia; replace (nmax + 1 - 1)%nat with nmax by lia; apply rsum_ext; auto|].
  replace (Nat.max (S m) 1) with (S m) by lia. replace nmax with (m + (nmax + 1 - S m))%nat at 1 by lia. rewrite (seq_app m (nmax + 1 - S m) 1), rsum_app.
  rewrite (rsum_zero (seq 1 m)).
  - rewrite Rplus_0_l. replace (1 + m)%nat with (S m) by lia. apply rsum_ext. intros n Hn. apply in_seq in Hn. destruct (Nat.leb_spec (S m) n); [auto|lia].
  - intros n Hn. apply in_seq in Hn. destruct (Nat.leb_spec (S m) n); [lia|auto].
Qed.
Lemma rsum_if : forall {X} (l : list X) (b : bool) f, rsum l (fun x => if b then f x else 0) = if b then rsum l f else 0.
Proof. intros. destruct b; auto. apply rsum_zero. auto. Qed.
Lemma rsum_pick : forall n m g, rsum (seq 0 n) (fun x => if (m =? x)%nat then g else 0) = if (m <? n)%nat then g else 0.
Proof.
  induction n; intros m g; [reflexivity|]. rewrite seq_S, rsum_app, rsum_cons, rsum_nil, IHn. cbn [Nat.add].
  destruct (Nat.ltb_spec m n), (Nat.ltb_spec m (S n)), (Nat.eqb_spec m n); try lia; ring.
Qed.
Lemma norm2_opp : forall z, norm2 (- z)%C = norm2 z.
Proof. intros (x, y). unfold norm2. cbn [Copp Re Im fst snd]. ring. Qed.
Lemma degrees_nat : forall nmax m, degrees nmax (Z.of_nat m) = seq (Nat.max m 1) (nmax + 1 - Nat.max m 1).
Proof. intros. unfold degrees. rewrite Zabs2Nat.id. reflexivity. Qed.
Lemma degrees_opp : forall nmax m, degrees nmax (- m) = degrees nmax m.
Proof. intros. unfold degrees. replace (Z.abs_nat (- m)) with (Z.abs_nat m) by lia. reflexivity. Qed.
(** the scattering coefficient is the sum of |T|^2 over all elements, the extinction coefficient the real part of the trace *)
Theorem C75_scattering_coefficient : forall nmax T, plane_symmetric nmax T -> get_scattering_coefficient nmax T = all_norms nmax T.
Proof.
  intros nmax T (P0 & _).
  set (g := fun m n n' => (if (0 <? m)%nat then 2 else 1) * (norm2 (element nmax T 0 n m 0 n' m) + norm2 (element nmax T 0 n m 1 n' m) + norm2 (element nmax T 1 n m 0 n' m) + norm2 (element nmax T 1 n m 1 n' m))).
  assert (L: get_scattering_coefficient nmax T = rsum (seq 1 nmax) (fun n1 => rsum (seq 1 nmax) (fun n2 => rsum (seq 0 (n1 + 1)) (fun m => if (m <? n2 + 1)%nat then g m n1 n2 else 0)))).
  { unfold get_scattering_coefficient. replace (seq 1 nmax) with (seq 1 (nmax + 1 - 1)) by (f_equal; lia).
    rewrite <- (Rplus_0_l (rsum _ _)). apply for_R. intros n1 a H1. apply for_R. intros n2 b H2.
    replace (n1 + 1)%nat with (n1 + 1 - 0)%nat at 2 by lia. apply for_R. intros m1 c H3.
    rewrite <- rsum_pick. replace (n2 + 1)%nat with (n2 + 1 - 0)%nat at 2 by lia. apply for_R. intros m2 d H4.
    destruct (Nat.eqb_spec m1 m2) as [->|]; [unfold g; destruct (0 <? m2)%nat; ring | ring]. }
  rewrite L.
  transitivity (rsum (seq 0 (nmax + 1)) (fun m => rsum (seq (Nat.max m 1) (nmax + 1 - Nat.max m 1)) (fun n1 => rsum (seq (Nat.max m 1) (nmax + 1 - Nat.max m 1)) (fun n2 => g m n1 n2)))).
  { rewrite (rsum_ext (seq 1 nmax) _ (fun n1 => rsum (seq 0 (nmax + 1)) (fun m => if (m <=? n1)%nat then rsum (seq (Nat.max m 1) (nmax + 1 - Nat.max m 1)) (fun n2 => g m n1 n2) else 0))).
    - rewrite rsum_swap. apply rsum_ext. intros m Hm. apply in_seq in Hm. apply rsum_from. lia.
    - intros n1 H1. apply in_seq in H1. rewrite rsum_swap. rewrite (rsum_upto n1 nmax) by lia. apply rsum_ext. intros m Hm. apply in_seq in Hm. destruct (Nat.leb_spec m n1); auto.
      rewrite <- rsum_from by lia. apply rsum_ext. intros n2 H2. destruct (Nat.ltb_spec m (n2 + 1)), (Nat.leb_spec m n2); auto; lia. }
  unfold all_norms. rewrite rsum_orders.
  - apply rsum_ext. intros m Hm. apply in_seq in Hm. rewrite degrees_nat. rewrite <- rsum_scal. apply rsum_ext. intros n Hn. apply in_seq in Hn. rewrite <- rsum_scal. apply rsum_ext. intros n' Hn'. apply in_seq in Hn'.
    rewrite !rsum_cons, !rsum_nil. unfold full_T. rewrite !Zabs2Nat.id. cbn [Nat.eqb].
    replace (Z.of_nat m <? 0)%Z with false by (symmetry; apply Z.ltb_ge; lia). unfold g. destruct (Z.eqb_spec (Z.of_nat m) 0) as [E|N]; [|ring].
    assert (m = 0%nat) as -> by lia. destruct (P0 n n' ltac:(lia) ltac:(lia)) as (-> & ->). ring.
  - intros m. rewrite degrees_opp. apply rsum_ext. intros n _. apply rsum_ext. intros n' _. rewrite !rsum_cons, !rsum_nil. unfold full_T. replace (Z.abs_nat (- m)) with (Z.abs_nat m) by lia. cbn [Nat.eqb].
    destruct (Z.ltb_spec (- m) 0), (Z.ltb_spec m 0); try lia; destruct (Z.eqb_spec (- m) 0), (Z.eqb_spec m 0); try lia; rewrite ?norm2_opp; reflexivity.
Qed.
Print Assumptions C75_scattering_coefficient.
Lemma Re_csum : forall {X} (l : list X) f, Re (csum l f) = rsum l (fun x => Re (f x)).
Proof. induction l; intros; [reflexivity|]. rewrite rsum_cons, <- IHl. reflexivity. Qed.
Theorem C75_extinction_coefficient : forall nmax T, plane_symmetric nmax T -> get_extinction_coefficient nmax T = Re (trace nmax T).
Proof.
  intros nmax T (_ & P1).
  set (g := fun m n => (if (0 <? m)%nat then 2 else 1) * (Re (element nmax T 0 n m 0 n m) + Re (element nmax T 0 n m 1 n m) + Re (element nmax T 1 n m 0 n m) + Re (element nmax T 1 n m 1 n m))).
  assert (L: get_extinction_coefficient nmax T = rsum (seq 1 nmax) (fun n1 => rsum (seq 0 (n1 + 1)) (fun m => g m n1))).
  { unfold get_extinction_coefficient. replace (seq 1 nmax) with (seq 1 (nmax + 1 - 1)) by (f_equal; lia).
    rewrite <- (Rplus_0_l (rsum _ _)). apply for_R. intros n1 a H1. replace (n1 + 1)%nat with (n1 + 1 - 0)%nat at 2 by lia. apply for_R. intros m1 c H3.
    unfold g. destruct (0 <? m1)%nat; ring. }
  rewrite L.
  transitivity (rsum (seq 0 (nmax + 1)) (fun m => rsum (seq (Nat.max m 1) (nmax + 1 - Nat.max m 1)) (fun n1 => g m n1))).
  { rewrite (rsum_ext (seq 1 nmax) _ (fun n1 => rsum (seq 0 (nmax + 1)) (fun m => if (m <=? n1)%nat then g m n1 else 0))).
    - rewrite rsum_swap. apply rsum_ext. intros m Hm. apply in_seq in Hm. apply rsum_from. lia.
    - intros n1 H1. apply in_seq in H1. apply rsum_upto. lia. }
  unfold trace. rewrite Re_csum, rsum_orders.
  - apply rsum_ext. intros m Hm. apply in_seq in Hm. rewrite degrees_nat, Re_csum, <- rsum_scal. apply rsum_ext. intros n Hn. apply in_seq in Hn.
    rewrite Re_csum, !rsum_cons, !rsum_nil. unfold full_T. rewrite !Zabs2Nat.id. cbn [Nat.eqb]. unfold g.
    destruct (P1 m n ltac:(lia) ltac:(lia)) as (-> & ->). cbn [Re RtoC fst]. ring.
  - intros m. rewrite degrees_opp. f_equal. apply csum_ext. intros n _. apply csum_ext. intros i _. unfold full_T. rewrite Nat.eqb_refl. replace (Z.abs_nat (- m)) with (Z.abs_nat m) by lia. reflexivity.
Qed.
Print Assumptions C75_extinction_coefficient.
(** the objects the constructor makes have this symmetry *)
Lemma block_kind : forall m nmax i, (i < 2 * orders m nmax)%nat -> block m nmax i = 0%nat /\ kind_of m nmax i = WM \/ block m nmax i = 1%nat /\ kind_of m nmax i = WN.
Proof. intros. unfold block, kind_of. destruct (i <? orders m nmax)%nat; auto. Qed.
Theorem C75_objects_are_plane_symmetric : forall p T T', sensible p -> construct p = Some T -> compute_additional_elements p T = Some T' -> plane_symmetric (p_nmax p) T'.
Proof.
  intros p T T' Hp E1 E2. pose proof Hp as (_ & _ & _ & _ & _ & Hn).
  (* an element with one row of each type is zero when m = 0 or the orders have the same parity *)
  assert (K: forall m n n', (m <= p_nmax p)%nat -> (Nat.max 1 m <= n <= p_nmax p)%nat -> (Nat.max 1 m <= n' <= p_nmax p)%nat -> (m = 0%nat \/ n = n') ->
    element (p_nmax p) T' 0 n m 1 n' m = RtoC 0 /\ element (p_nmax p) T' 1 n m 0 n' m = RtoC 0).
  { intros m n n' Hm H1 H2 C.
    assert (TK: exists X, task0 p m = Some X).
    { destruct (task0 p m) as [X|] eqn:E; [eauto|]. exfalso.
      apply (task_fails p m true zeros (fun _ _ => (0, 0)) (fun _ => 0%nat) (fun _ => RtoC 0) (fun _ _ => RtoC 0) Hp Hm) in E.
      destruct (C73_fails_exactly_when_singular p Hp) as (F0 & F1). destruct (Nat.eq_dec m 0) as [->|N].
      - apply F0 in E. congruence.
      - assert (compute_additional_elements p T = None) by (apply F1; exists m; split; auto; lia). congruence. }
    destruct TK as (X & EX).
    assert (RD: forall i j, (i < 2 * orders m (p_nmax p))%nat -> (j < 2 * orders m (p_nmax p))%nat -> read p T' m i j = X i j).
    { intros i j Hi Hj. exact (C73_same_as_tasks p T T' m true _ _ _ _ _ X Hp E1 E2 Hm EX i j Hi Hj). }
    set (o := orders m (p_nmax p)). assert (O: o = (p_nmax p + 1 - Nat.max 1 m)%nat) by reflexivity.
    assert (ID: forall n, (Nat.max 1 m <= n <= p_nmax p)%nat -> let i := (n - Nat.max 1 m)%nat in
       (i < o)%nat /\ block m (p_nmax p) i = 0%nat /\ order_of m (p_nmax p) i = n /\ block m (p_nmax p) (o + i) = 1%nat /\ order_of m (p_nmax p) (o + i) = n /\ kind_of m (p_nmax p) i = WM /\ kind_of m (p_nmax p) (o + i) = WN).
    { intros q Hq i. unfold block, order_of, kind_of, lowest. fold o. destruct (Nat.ltb_spec i o); [|lia]. destruct (Nat.ltb_spec (o + i) o); [lia|]. repeat split; lia. }
    destruct (ID n H1) as (A1 & A2 & A3 & A4 & A5 & A6 & A7). destruct (ID n' H2) as (B1 & B2 & B3 & B4 & B5 & B6 & B7).
    unfold task0, task in EX. pose proof (C64_symmetries _ _ _ _ _ _ _ _ _ _ _ _ _ _ _ _ _ Hm Hn EX) as Z.
    pose proof (RD (n - Nat.max 1 m)%nat (o + (n' - Nat.max 1 m))%nat ltac:(fold o; lia) ltac:(fold o; lia)) as R1. pose proof (RD (o + (n - Nat.max 1 m))%nat (n' - Nat.max 1 m)%nat ltac:(fold o; lia) ltac:(fold o; lia)) as R2.
    unfold read in R1, R2. rewrite A2, A3, B4, B5 in R1. rewrite A4, A5, B2, B3 in R2. rewrite R1, R2.
    split; apply Z; try (fold o; lia).
    - rewrite A3, B5, A6, B7. destruct C as [C | ->]; [right; right; split; [auto|discriminate] | left; split; [|discriminate]]. rewrite Nat.even_add. destruct (Nat.even n'); reflexivity.
    - rewrite A5, B3, A7, B6. destruct C as [C | ->]; [right; right; split; [auto|discriminate] | left; split; [|discriminate]]. rewrite Nat.even_add. destruct (Nat.even n'); reflexivity. }
  split.
  - intros n n' H1 H2. apply (K 0%nat n n'); auto; lia.
  - intros m n Hm H1. apply (K m n n); auto; lia.
Qed.
Print Assumptions C75_objects_are_plane_symmetric.

(* ---------------------------------------------- absorption *)

(** the light of unit intensity scattered out of all directions, as the two-dimensional rule integrates it, for the Stokes element i *)
Definition scattered_out (nmax : nat) (k : R) (T : tmats) (theta : R) (ngauss : nat) (costhetaGL wGL phiGL pwGL : nat -> R) (i : nat) : R :=
  rsum (seq 0 ngauss) (fun a => rsum (seq 0 ngauss) (fun b => wGL a * pwGL b * get_scattering_matrix nmax k T 0 0 (acos (costhetaGL a)) (phiGL b) theta 0 i 0)).
(** what is extinguished and not scattered *)
Definition absorbed (nmax : nat) (k : R) (T : tmats) (theta : R) (ngauss : nat) (costhetaGL wGL phiGL pwGL : nat -> R) (i : nat) : R :=
  get_extinction_matrix nmax k T 0 0 theta 0 i 0 - scattered_out nmax k T theta ngauss costhetaGL wGL phiGL pwGL i.

Lemma for_pair : forall n (body : nat -> R * R -> R * R) t u r, (forall i r, (i < n)%nat -> body i r = (fst r - t i, snd r - u i)) ->
  for_C 0 n body r = (fst r - rsum (seq 0 n) t, snd r - rsum (seq 0 n) u).
Proof.
  intros n body t u r H. unfold for_C. rewrite Nat.sub_0_r.
  assert (G: forall l r, (forall i, In i l -> (i < n)%nat) -> fold_left (fun s i => body i s) l r = (fst r - rsum l t, snd r - rsum l u)).
  { induction l as [|x l IH]; intros q Hl; cbn [fold_left]; rewrite ?rsum_cons, ?rsum_nil; [destruct q; cbn [fst snd]; f_equal; ring|].
    rewrite IH by (intros; apply Hl; now right). rewrite H by (apply Hl; now left). cbn [fst snd]. f_equal; ring. }
  apply G. intros i Hi. apply in_seq in Hi. lia.
Qed.
Lemma absorption_at_spec : forall nmax k T theta ngauss (b : bool) x w p v q, 0 <= theta <= PI ->
  absorption_at nmax k T theta ngauss true b (fun i => acos (x i)) w p v q =
  (absorbed nmax k T theta ngauss x w p v 0, if b then absorbed nmax k T theta ngauss x w p v 1 else snd q).
Proof.
  intros nmax k T theta ngauss b x w p v q Ht. unfold absorption_at. cbv zeta.
  set (Z := fun i a c => w a * v c * get_scattering_matrix nmax k T 0 0 (acos (x a)) (p c) theta 0 i 0).
  assert (ZE: forall i a c, scattering (fixed_axis nmax k T (acos (x a)) (p c) theta 0) i 0 * (w a * v c) = Z i a c).
  { intros. unfold Z, get_scattering_matrix. rewrite C74_axis_along_z; auto using acos_bound. ring. }
  rewrite (for_pair ngauss _ (fun a => rsum (seq 0 ngauss) (Z 0%nat a)) (fun a => if b then rsum (seq 0 ngauss) (Z 1%nat a) else 0)).
  - cbn [fst snd]. unfold absorbed, scattered_out. fold (Z 0%nat). fold (Z 1%nat). unfold get_extinction_matrix. rewrite C74_axis_along_z by auto. unfold extinction. cbv zeta. f_equal.
    destruct b; [reflexivity|]. rewrite rsum_zero by auto. ring.
  - intros a r Ha. rewrite (for_pair ngauss _ (Z 0%nat a) (fun c => if b then Z 1%nat a c else 0)).
    + f_equal. f_equal. destruct b; [reflexivity|]. rewrite rsum_zero by auto. ring.
    + intros c s Hc. rewrite !ZE. destruct b; f_equal; ring.
Qed.
(** two values per angle: what is absorbed of the intensity and of the linear polarisation; nothing else of the array is touched, and what
    it contained does not matter *)
Theorem C75_absorption_cross_sections : forall nmax k T theta ntheta ngauss x w p v Cabs, (forall i, (i < ntheta)%nat -> 0 <= theta i <= PI) ->
  let R' := get_absorption_cross_sections nmax k T theta ntheta ngauss x w p v Cabs in
  (forall i, (i < ntheta)%nat -> R' (2 * i)%nat = absorbed nmax k T (theta i) ngauss x w p v 0 /\ R' (2 * i + 1)%nat = absorbed nmax k T (theta i) ngauss x w p v 1) /\
  (forall j, (2 * ntheta <= j)%nat -> R' j = Cabs j).
Proof.
  intros nmax k T theta ntheta ngauss x w p v Cabs Ht R'. unfold R', get_absorption_cross_sections, for_C. rewrite Nat.sub_0_r. cbv zeta.
  induction ntheta as [|n IH]; [split; [lia|reflexivity]|].
  destruct IH as (A & B); [intros; apply Ht; lia|]. rewrite seq_S, fold_left_app. cbn [fold_left Nat.add]. rewrite !absorption_at_spec by (apply Ht; lia). cbn [fst snd].
  unfold Matrix.vupd in *. split.
  - intros i Hi. destruct (Nat.eqb_spec (2 * i) (2 * n + 1)); [lia|]. destruct (Nat.eqb_spec (2 * i + 1) (2 * n)); [lia|].
    destruct (Nat.eqb_spec (2 * i) (2 * n)), (Nat.eqb_spec (2 * i + 1) (2 * n + 1)); try lia.
    + assert (i = n) as -> by lia. auto.
    + apply A. lia.
  - intros j Hj. destruct (Nat.eqb_spec j (2 * n + 1)); [lia|]. destruct (Nat.eqb_spec j (2 * n)); [lia|]. apply B. lia.
Qed.
Print Assumptions C75_absorption_cross_sections.
Theorem C75_absorption_cross_section : forall nmax k T theta ntheta ngauss x w p v Cabs, (forall i, (i < ntheta)%nat -> 0 <= theta i <= PI) ->
  let R' := get_absorption_cross_section nmax k T theta ntheta ngauss x w p v Cabs in
  (forall i, (i < ntheta)%nat -> R' i = absorbed nmax k T (theta i) ngauss x w p v 0) /\ (forall j, (ntheta <= j)%nat -> R' j = Cabs j).
Proof.
  intros nmax k T theta ntheta ngauss x w p v Cabs Ht R'. unfold R', get_absorption_cross_section, for_C. rewrite Nat.sub_0_r. cbv zeta.
  induction ntheta as [|n IH]; [split; [lia|reflexivity]|].
  destruct IH as (A & B); [intros; apply Ht; lia|]. rewrite seq_S, fold_left_app. cbn [fold_left Nat.add]. rewrite !absorption_at_spec by (apply Ht; lia). cbn [fst snd].
  unfold Matrix.vupd in *. split.
  - intros i Hi. destruct (Nat.eqb_spec i n) as [ -> | ]; auto. apply A. lia.
  - intros j Hj. destruct (Nat.eqb_spec j n); [lia|]. apply B. lia.
Qed.
Print Assumptions C75_absorption_cross_section.
(** the average over directions, with the same rule *)
Theorem C75_average_absorption : forall nmax k T ngauss x w p v,
  get_average_absorption_cross_section nmax k T ngauss x w p v =
  / 2 * rsum (seq 0 ngauss) (fun i => w i * absorbed nmax k T (acos (x i)) ngauss x w p v 0).
Proof.
  intros. unfold get_average_absorption_cross_section. cbv zeta. replace 0.5 with (/ 2) by lra. f_equal.
  rewrite <- (Rplus_0_l (rsum _ _)). replace (seq 0 ngauss) with (seq 0 (ngauss - 0)) by (f_equal; lia). apply for_R. intros n a _. rewrite absorption_at_spec by apply acos_bound. cbn [fst]. ring.
Qed.
Print Assumptions C75_average_absorption.
(** non-vacuity: an object made by the constructor *)
Example C75_example : exists T T', construct sample = Some T /\ compute_additional_elements sample T = Some T' /\ plane_symmetric (p_nmax sample) T' /\
  get_scattering_coefficient (p_nmax sample) T' = all_norms (p_nmax sample) T' /\ sin (0 - 0) = 0.
Proof.
  destruct C73_example as (Hp & T & T' & E1 & E2 & _). exists T, T'. pose proof (C75_objects_are_plane_symmetric sample T T' Hp E1 E2) as P.
  split; [exact E1|]. split; [exact E2|]. split; [exact P|]. split; [apply C75_scattering_coefficient; exact P|]. replace (0 - 0) with 0 by ring. apply sin_0.
Qed.
