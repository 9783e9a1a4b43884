(** Vectors and frames, and the facts about Frames.v behind C74. *)
From Coq Require Import List Arith Lia Bool Reals Lra Psatz.
From Coquelicot Require Import Complex.
From Verif Require Import Wigner Optics Props_optics TClass Frames.
Import ListNotations.
Open Scope R_scope.

(* ---------------------------------------------- specification: directions, field vectors, the frame of the particle *)

Notation vec := (C * C * C)%type.
Definition dot (u v : vec) : C :=
  let '(u1, u2, u3) := u in let '(v1, v2, v3) := v in (u1 * v1 + u2 * v2 + u3 * v3)%C.
Definition real3 (x y z : R) : vec := (RtoC x, RtoC y, RtoC z).
(** unit vectors of the direction of propagation and of the theta and phi components of the field *)
Definition direction (theta phi : R) : vec := real3 (sin theta * cos phi) (sin theta * sin phi) (cos theta).
Definition zenith (theta phi : R) : vec := real3 (cos theta * cos phi) (cos theta * sin phi) (- sin theta).
Definition azimuth (phi : R) : vec := real3 (- sin phi) (cos phi) 0.
(** the field vector with theta and phi components E, for light in the direction (theta, phi) *)
Definition field (theta phi : R) (E : C * C) : vec :=
  let '(z1, z2, z3) := zenith theta phi in let '(a1, a2, a3) := azimuth phi in
  (fst E * z1 + snd E * a1, fst E * z2 + snd E * a2, fst E * z3 + snd E * a3)%C.
Definition components (theta phi : R) (V : vec) : C * C := (dot (zenith theta phi) V, dot (azimuth phi) V).
(** coordinates in the frame of a particle with its axis in the direction (beta, alpha): the z axis is the axis of the particle, the
    x and y axes are the directions of increasing beta and alpha *)
Definition in_body (alpha beta : R) (V : vec) : vec := (dot (zenith beta alpha) V, dot (azimuth alpha) V, dot (direction beta alpha) V).
Definition apply (W : amp) (E : C * C) : C * C := (s0 W * fst E + s1 W * snd E, s2 W * fst E + s3 W * snd E)%C.

(* ---------------------------------------------- proofs *)

Lemma cs : forall x, (RtoC (cos x) * RtoC (cos x) = RtoC 1 - RtoC (sin x) * RtoC (sin x))%C.
Proof. intros. rewrite <- !RtoC_mult, <- RtoC_minus. f_equal. pose proof (sin2_cos2 x) as H. unfold Rsqr in H. lra. Qed.
Ltac push := rewrite ?RtoC_mult, ?RtoC_opp.
Ltac vecs := unfold in_body, components, field, direction, zenith, azimuth, real3, dot in *; cbn [fst snd] in *; push.
Lemma dot_in_body : forall al be u v, dot (in_body al be u) (in_body al be v) = dot u v.
Proof.
  intros al be ((u1, u2), u3) ((v1, v2), v3). vecs. pose proof (cs al) as H1. pose proof (cs be) as H2.
  generalize dependent (RtoC (cos al)). generalize dependent (RtoC (sin al)). generalize dependent (RtoC (cos be)). generalize dependent (RtoC (sin be)). intros. ring [H1 H2].
Qed.
Lemma dot_dir_field : forall t p E, dot (direction t p) (field t p E) = RtoC 0.
Proof.
  intros t p (x, y). vecs. pose proof (cs t) as H1. pose proof (cs p) as H2.
  generalize dependent (RtoC (cos t)). generalize dependent (RtoC (sin t)). generalize dependent (RtoC (cos p)). generalize dependent (RtoC (sin p)). intros. ring [H1 H2].
Qed.
(** a vector perpendicular to the direction is the field of its components *)
Lemma field_components : forall t p V, dot (direction t p) V = RtoC 0 -> field t p (components t p V) = V.
Proof.
  intros t p ((x, y), z) H. 
  assert (G: let '(a, b, c) := field t p (components t p (x, y, z)) in let '(d1, d2, d3) := direction t p in let d := dot (direction t p) (x, y, z) in
     a = (x - d * d1)%C /\ b = (y - d * d2)%C /\ c = (z - d * d3)%C).
  { clear H. vecs. pose proof (cs t) as H1. pose proof (cs p) as H2.
    generalize dependent (RtoC (cos t)). generalize dependent (RtoC (sin t)). generalize dependent (RtoC (cos p)). generalize dependent (RtoC (sin p)). intros.
    split; [|split]; ring [H1 H2]. }
  destruct (field t p _) as ((a, b), c). destruct (direction t p) as ((d1, d2), d3) eqn:E. cbv zeta in G. rewrite H in G. destruct G as (-> & -> & ->).
  f_equal; [f_equal|]; ring.
Qed.
Lemma components_field : forall t p E, components t p (field t p E) = E.
Proof.
  intros t p (x, y). vecs. pose proof (cs t) as H1. pose proof (cs p) as H2.
  generalize dependent (RtoC (cos t)). generalize dependent (RtoC (sin t)). generalize dependent (RtoC (cos p)). generalize dependent (RtoC (sin p)). intros.
  f_equal; ring [H1 H2].
Qed.
Lemma in_body_inj : forall al be u v, in_body al be u = in_body al be v -> u = v.
Proof.
  intros al be ((u1, u2), u3) ((v1, v2), v3) H.
  assert (G: forall w1 w2 w3, let '(a, b, c) := in_body al be (w1, w2, w3) in
     w1 = dot (real3 (cos be * cos al) (- sin al) (sin be * cos al)) (a, b, c) /\ w2 = dot (real3 (cos be * sin al) (cos al) (sin be * sin al)) (a, b, c)
     /\ w3 = dot (real3 (- sin be) 0 (cos be)) (a, b, c)).
  { intros. vecs. pose proof (cs al) as H1. pose proof (cs be) as H2. clear H.
    generalize dependent (RtoC (cos al)). generalize dependent (RtoC (sin al)). generalize dependent (RtoC (cos be)). generalize dependent (RtoC (sin be)). intros.
    split; [|split]; ring [H1 H2]. }
  pose proof (G u1 u2 u3) as A. pose proof (G v1 v2 v3) as B. rewrite <- H in B. destruct (in_body al be (u1, u2, u3)) as ((a, b), c).
  destruct A as (A1 & A2 & A3), B as (B1 & B2 & B3). congruence.
Qed.

Definition apply2 (M : mat2) (E : C * C) : C * C :=
  (RtoC (a00 M) * fst E + RtoC (a01 M) * snd E, RtoC (a10 M) * fst E + RtoC (a11 M) * snd E)%C.
(** R: components of the field vector in the frame of the particle *)
Lemma mR_components : forall al be t p t' p' E, apply2 (mR al be t p (dir_of t' p')) E = components t' p' (in_body al be (field t p E)).
Proof.
  intros al be t p t' p' (x, y). unfold apply2, mR, dir_of, sum3, mAP, mB, mAL. cbn [a00 a01 a10 a11 ct st cp sp].
  vecs. rewrite ?RtoC_plus, ?RtoC_mult, ?RtoC_opp, ?RtoC_plus, ?RtoC_mult, ?RtoC_opp, ?RtoC_plus, ?RtoC_mult, ?RtoC_opp. f_equal; ring.
Qed.
Lemma mR_field : forall al be t p t' p' E, in_body al be (direction t p) = direction t' p' ->
  field t' p' (apply2 (mR al be t p (dir_of t' p')) E) = in_body al be (field t p E).
Proof.
  intros. rewrite mR_components. apply field_components. rewrite <- H, dot_in_body. apply dot_dir_field.
Qed.
Lemma field_zero : forall t p, field t p (RtoC 0, RtoC 0) = (RtoC 0, RtoC 0, RtoC 0).
Proof. intros. vecs. f_equal; [f_equal|]; ring. Qed.
Lemma mR_inj : forall al be t p t' p' E, in_body al be (direction t p) = direction t' p' ->
  apply2 (mR al be t p (dir_of t' p')) E = (RtoC 0, RtoC 0) -> E = (RtoC 0, RtoC 0).
Proof.
  intros al be t p t' p' E H Z. pose proof (mR_field al be t p t' p' E H) as F. rewrite Z, field_zero in F.
  assert (F0: in_body al be (field t p (RtoC 0, RtoC 0)) = (RtoC 0, RtoC 0, RtoC 0)).
  { rewrite field_zero. unfold in_body, dot, zenith, azimuth, direction, real3. f_equal; [f_equal|]; ring. }
  rewrite <- F0 in F. apply in_body_inj in F. rewrite <- (components_field t p E), <- F, components_field. reflexivity.
Qed.
Lemma mR_det : forall al be t p t' p', in_body al be (direction t p) = direction t' p' ->
  let M := mR al be t p (dir_of t' p') in a00 M * a11 M - a01 M * a10 M <> 0.
Proof.
  intros al be t p t' p' H M D.
  assert (K: forall x y, a00 M * x + a01 M * y = 0 -> a10 M * x + a11 M * y = 0 -> x = 0 /\ y = 0).
  { intros x y E1 E2. assert (Z: (RtoC x, RtoC y) = (RtoC 0, RtoC 0)).
    { apply (mR_inj al be t p t' p'); auto. fold M. unfold apply2. cbn [fst snd]. rewrite <- !RtoC_mult, <- !RtoC_plus, E1, E2. reflexivity. }
    injection Z. auto. }
  destruct (K (a11 M) (- a10 M)) as (Z1 & Z2); [lra | ring |]. destruct (K (- a01 M) (a00 M)) as (Z3 & Z4); [ring | lra |].
  destruct (K 1 0); [rewrite Z4; lra | replace (a10 M) with 0 by lra; lra | lra].
Qed.
Lemma invert_ok : forall M E, a00 M * a11 M - a01 M * a10 M <> 0 -> apply2 M (apply2 (invert M) E) = E.
Proof.
  intros (a, b, c, d) (x, y) H. unfold apply2, invert. cbn [a00 a01 a10 a11 fst snd] in *. set (e := 1 / (a * d - b * c)).
  assert (He: (a * d - b * c) * e = 1) by (unfold e; field; auto). clearbody e.
  assert (HC: (RtoC a * RtoC d * RtoC e = RtoC 1 + RtoC b * RtoC c * RtoC e)%C) by (rewrite <- !RtoC_mult, <- RtoC_plus; f_equal; lra).
  rewrite !RtoC_mult, !RtoC_opp. f_equal; ring [HC].
Qed.
Lemma apply_compose : forall nmax k T al be ti pi_ to po E,
  apply (oriented nmax k T al be ti pi_ to po) E =
  apply2 (invert (mR al be to po (body_dir al be to po)))
    (apply (forward nmax k T (body_dir al be ti pi_) (body_dir al be to po)) (apply2 (mR al be ti pi_ (body_dir al be ti pi_)) E)).
Proof. intros. unfold oriented, apply, apply2. cbv zeta. cbn [s0 s1 s2 s3 fst snd]. f_equal; ring. Qed.

(** the direction in the frame of the particle *)
Lemma re_inj : forall a b, RtoC a = RtoC b -> a = b.
Proof. intros. apply RtoC_inj; auto. Qed.
Lemma in_body_direction : forall al be t p,
  in_body al be (direction t p) =
  real3 (cos be * sin t * (cos p * cos al + sin p * sin al) - sin be * cos t) (sin t * (sin p * cos al - cos p * sin al))
        (cos t * cos be + sin t * sin be * (cos p * cos al + sin p * sin al)).
Proof.
  intros. vecs. f_equal; [f_equal|]; rewrite <- ?RtoC_mult, <- ?RtoC_opp, <- ?RtoC_mult, <- ?RtoC_plus; f_equal; ring.
Qed.
Lemma sin_acos_cos : forall t, 0 <= t <= PI -> sin (acos (cos t)) = sin t.
Proof. intros. rewrite acos_cos by auto. reflexivity. Qed.
Lemma body_dir_angles : forall al be t p t' p', 0 <= t' <= PI -> in_body al be (direction t p) = direction t' p' ->
  body_dir al be t p = dir_of t' (if Req_EM_T (sin t') 0 then 0 else p').
Proof.
  intros al be t p t' p' Ht H. rewrite in_body_direction in H. unfold direction, real3 in H. injection H as H1 H2 H3.
  unfold body_dir. cbv zeta. rewrite H3. rewrite sin_acos_cos by auto. unfold dir_of. cbv zeta. destruct (Req_EM_T (sin t') 0) as [E|N].
  - rewrite cos_0, sin_0. reflexivity.
  - rewrite H1, H2. f_equal; field; auto.
Qed.
Lemma direction_pole : forall t p p', sin t = 0 -> direction t p = direction t p'.
Proof. intros t p p' H. unfold direction, real3. rewrite H, !Rmult_0_l. reflexivity. Qed.

(** the amplitude matrix at the poles *)
Definition shape_in (s : R) (X Y : C) (phi : R) : amp :=
  mkAmp (RtoC (cos phi) * X)%C (RtoC s * RtoC (sin phi) * X)%C (- RtoC (sin phi) * Y)%C (RtoC s * RtoC (cos phi) * Y)%C.
Definition shape_out (s : R) (X Y : C) (phi : R) : amp :=
  mkAmp (RtoC (cos phi) * X)%C (RtoC (sin phi) * Y)%C (- RtoC s * RtoC (sin phi) * X)%C (RtoC s * RtoC (cos phi) * Y)%C.
Definition shaped (sh : R -> C -> C -> R -> amp) (s : R) (f : R -> amp) : Prop := exists X Y, forall phi, f phi = sh s X Y phi.
Lemma shaped_asum : forall sh s (A : Type) (l : list A) (f : A -> R -> amp), sh = shape_in \/ sh = shape_out ->
  (forall x, In x l -> shaped sh s (f x)) -> shaped sh s (fun phi => asum l (fun x => f x phi)).
Proof.
  intros sh s A l f Hsh. induction l as [|x l IH]; intros H.
  - exists (RtoC 0), (RtoC 0). intros phi. unfold asum. destruct Hsh; subst; apply amp_eq; cbn; ring.
  - destruct (H x ltac:(now left)) as (X & Y & E). destruct IH as (X' & Y' & E'); [intros; apply H; now right|].
    exists (X + X')%C, (Y + Y')%C. intros phi. specialize (E phi). specialize (E' phi).
    assert (G: asum (x :: l) (fun x => f x phi) = aadd (f x phi) (asum l (fun x => f x phi))) by reflexivity.
    rewrite G, E, E'. destruct Hsh; subst; apply amp_eq; cbn; ring.
Qed.
Lemma shaped_amplitude : forall sh s g nmax k, sh = shape_in \/ sh = shape_out ->
  (forall m nn n, (m <= nmax)%nat -> (1 <= nn <= nmax)%nat -> (1 <= n <= nmax)%nat -> shaped sh s (fun phi => amp_term g m nn n (2 * Re (expi (Z.of_nat m) phi)) (2 * Im (expi (Z.of_nat m) phi)) azero)) ->
  shaped sh s (fun phi => amplitude g nmax k (cos phi) (sin phi)).
Proof.
  intros sh s g nmax k Hsh H.
  assert (G: shaped sh s (fun phi => asum (seq 0 (nmax + 1)) (fun m => mterm g nmax phi m))).
  { apply shaped_asum; auto. intros m Hm. apply in_seq in Hm. unfold mterm. cbv zeta.
    apply (shaped_asum sh s _ _ (fun nn phi => asum _ (fun n => amp_term g m nn n (2 * Re (expi (Z.of_nat m) phi)) (2 * Im (expi (Z.of_nat m) phi)) azero))); auto.
    intros nn Hn. apply in_seq in Hn. apply (shaped_asum sh s _ _ (fun n phi => amp_term g m nn n (2 * Re (expi (Z.of_nat m) phi)) (2 * Im (expi (Z.of_nat m) phi)) azero)); auto.
    intros n Hn'. apply in_seq in Hn'. apply H; lia. }
  destruct G as (X & Y & E). exists (X * RtoC (1 / k))%C, (Y * RtoC (1 / k))%C. intros phi. rewrite amplitude_sum. specialize (E phi).
  change (fun m => mterm g nmax phi m) with (mterm g nmax phi) in E. cbv zeta. rewrite E. destruct Hsh; subst; apply amp_eq; cbn; ring.
Qed.
Lemma expi_1 : forall phi, 2 * Re (expi (Z.of_nat 1) phi) = 2 * cos phi /\ 2 * Im (expi (Z.of_nat 1) phi) = 2 * sin phi.
Proof. intros. unfold expi. cbn [Z.of_nat Pos.of_succ_nat Re Im fst snd]. rewrite Rmult_1_l. auto. Qed.
Lemma expi_0 : forall phi, 2 * Re (expi (Z.of_nat 0) phi) = 2 /\ 2 * Im (expi (Z.of_nat 0) phi) = 0.
Proof. intros. unfold expi. cbn [Z.of_nat Re Im fst snd]. rewrite Rmult_0_l, cos_0, sin_0. lra. Qed.
(** tables of a pole: only m = 1, and tau = s pi *)
Definition polar (nmax : nat) (s : R) (d t : nat -> nat -> R) : Prop :=
  forall m n, (1 <= n <= nmax)%nat -> (m <> 1%nat -> d m n = 0 /\ t m n = 0) /\ t 1%nat n = s * d 1%nat n.
Lemma polar_in : forall g nmax k s, s * s = 1 -> polar nmax s (dsin_in g) (tau_in g) -> shaped shape_in s (fun phi => amplitude g nmax k (cos phi) (sin phi)).
Proof.
  intros g nmax k s Hs HP. apply shaped_amplitude; auto. intros m nn n Hm Hn Hn'.
  assert (SC: (RtoC s * RtoC s = RtoC 1)%C) by (rewrite <- RtoC_mult, Hs; reflexivity).
  destruct (Nat.eq_dec m 1) as [->|N].
  - destruct (HP 1%nat nn Hn) as (_ & E). unfold amp_term. cbn [Nat.eqb].
    set (a := RtoC (dsin_in g 1 nn)). set (pn := RtoC (1 * dsin_out g 1 n)). set (tn := RtoC (tau_out g 1 n)).
    exists (RtoC 2 * cnn g nn n * a * (T g 0 0 1 n nn * pn + T g 1 0 1 n nn * tn + RtoC s * (T g 0 1 1 n nn * pn + T g 1 1 1 n nn * tn)))%C.
    exists (RtoC 2 * cnn g nn n * a * (T g 0 0 1 n nn * tn + T g 1 0 1 n nn * pn + RtoC s * (T g 0 1 1 n nn * tn + T g 1 1 1 n nn * pn)))%C.
    intros phi. destruct (expi_1 phi) as (-> & ->). rewrite E. change (INR 1) with 1. unfold azero, shape_in. cbn [s0 s1 s2 s3].
    rewrite !(RtoC_mult (1 * dsin_out g 1 n)), !(RtoC_mult (tau_out g 1 n)). fold pn tn. rewrite !Rmult_1_l, !RtoC_mult. fold a. apply amp_eq; cbn [s0 s1 s2 s3]; ring [SC].
  - destruct (HP m nn Hn) as (E & _). destruct (E N) as (E1 & E2). exists (RtoC 0), (RtoC 0). intros phi. unfold amp_term. rewrite E1, E2.
    rewrite !Rmult_0_r. destruct (Nat.eqb m 0); apply amp_eq; cbn [s0 s1 s2 s3 azero shape_in]; rewrite ?Rmult_0_r; ring.
Qed.
Lemma polar_out : forall g nmax k s, s * s = 1 -> polar nmax s (dsin_out g) (tau_out g) -> shaped shape_out s (fun phi => amplitude g nmax k (cos phi) (sin phi)).
Proof.
  intros g nmax k s Hs HP. apply shaped_amplitude; auto. intros m nn n Hm Hn Hn'.
  assert (SC: (RtoC s * RtoC s = RtoC 1)%C) by (rewrite <- RtoC_mult, Hs; reflexivity).
  destruct (Nat.eq_dec m 1) as [->|N].
  - destruct (HP 1%nat n Hn') as (_ & E). unfold amp_term. cbn [Nat.eqb].
    set (a := RtoC (dsin_out g 1 n)). set (pn := RtoC (1 * dsin_in g 1 nn)). set (tn := RtoC (tau_in g 1 nn)).
    exists (RtoC 2 * cnn g nn n * a * (T g 0 0 1 n nn * pn + T g 0 1 1 n nn * tn + RtoC s * (T g 1 0 1 n nn * pn + T g 1 1 1 n nn * tn)))%C.
    exists (RtoC 2 * cnn g nn n * a * (T g 0 0 1 n nn * tn + T g 0 1 1 n nn * pn + RtoC s * (T g 1 0 1 n nn * tn + T g 1 1 1 n nn * pn)))%C.
    intros phi. destruct (expi_1 phi) as (-> & ->). rewrite E. change (INR 1) with 1. unfold azero, shape_out. cbn [s0 s1 s2 s3].
    rewrite !(RtoC_mult _ (1 * dsin_in g 1 nn)), !(RtoC_mult _ (tau_in g 1 nn)). fold pn tn. rewrite !Rmult_1_l, !RtoC_mult. fold a. apply amp_eq; cbn [s0 s1 s2 s3]; ring [SC].
  - destruct (HP m n Hn') as (E & _). destruct (E N) as (E1 & E2). exists (RtoC 0), (RtoC 0). intros phi. unfold amp_term. rewrite E1, E2.
    rewrite !Rmult_0_r, !Rmult_0_l. destruct (Nat.eqb m 0); apply amp_eq; cbn [s0 s1 s2 s3 azero shape_out]; rewrite ?Rmult_0_r; ring.
Qed.
Lemma pole_loop_snd : forall k n neg sg i, (i < k)%nat -> snd (nth i (pole_loop k n neg sg) (0, 0)) = (if neg then -1 else 1) * fst (nth i (pole_loop k n neg sg) (0, 0)).
Proof.
  induction k as [|k IH]; intros n neg sg i Hi; [lia|]. cbn [pole_loop]. cbv zeta. destruct i as [|i]; cbn [nth fst snd].
  - destruct neg; ring.
  - apply IH. lia.
Qed.
Lemma tables_polar : forall nmax d, ct d = 1 \/ ct d = -1 -> polar nmax (ct d) (fst (sinx_tables nmax d)) (snd (sinx_tables nmax d)).
Proof.
  intros nmax d H m n Hn. unfold sinx_tables. cbn [fst snd].
  assert (NP: forall m, wigner_dn_0m_sinx (ct d) (st d) (inv d) nmax m =
    (if Nat.eqb m 1 then pole_loop nmax 1 (if Rlt_dec (ct d) 0 then true else false) 1 else repeat (0, 0) nmax)).
  { intros m'. unfold wigner_dn_0m_sinx. destruct (Rle_dec _ _) as [_|K]; auto. exfalso. apply K.
    assert (E: Rabs (ct d) = 1). { destruct H as [ -> | -> ]; [apply Rabs_R1 | rewrite Rabs_left; lra]. }
    rewrite E. replace (1 - 1) with 0 by ring. rewrite Rabs_R0. lra. }
  rewrite !NP. split.
  - intros N. destruct (Nat.eqb_spec m 1); [contradiction|].
    assert (E': forall k j, nth j (repeat (0, 0) k) (0, 0) = (0, 0)). { clear. induction k; intros [|j]; cbn; auto. }
    rewrite E'. auto.
  - cbn [Nat.eqb]. rewrite pole_loop_snd by lia. f_equal. destruct H as [ -> | -> ]; [destruct (Rlt_dec 1 0); lra | destruct (Rlt_dec (-1) 0); lra].
Qed.
Lemma cos_pole : forall t, sin t = 0 -> cos t = 1 \/ cos t = -1.
Proof. intros t H. pose proof (sin2_cos2 t) as E. unfold Rsqr in E. rewrite H in E. assert ((cos t - 1) * (cos t + 1) = 0) by lra. apply Rmult_integral in H0. destruct H0; [left|right]; lra. Qed.
(** scattering of a field vector, both directions in the frame of the particle *)
Definition scattered (nmax : nat) (k : R) (T : tmats) (ti pi_ to po : R) (V : vec) : vec :=
  field to po (apply (fixed_axis nmax k T ti pi_ to po) (components ti pi_ V)).
Lemma fixed_axis_phi : forall nmax k T ti pi_ to po, fixed_axis nmax k T ti pi_ to po =
  amplitude (mkAng (fun i j m n nn => element nmax T i n m j nn m) (fst (sinx_tables nmax (dir_of ti 0))) (snd (sinx_tables nmax (dir_of ti 0)))
                   (fst (sinx_tables nmax (dir_of to 0))) (snd (sinx_tables nmax (dir_of to 0))) (fun nn n => class_c n nn)) nmax k (cos (po - pi_)) (sin (po - pi_)).
Proof.
  intros. unfold fixed_axis, forward. rewrite cos_minus, sin_minus. reflexivity.
Qed.
Lemma pole_in : forall nmax k T ti p p' to po V, sin ti = 0 -> scattered nmax k T ti p to po V = scattered nmax k T ti p' to po V.
Proof.
  intros nmax k T ti p p' to po ((x, y), z) H. unfold scattered. f_equal. rewrite !fixed_axis_phi. set (g := mkAng _ _ _ _ _ _).
  destruct (polar_in g nmax k (cos ti)) as (X & Y & E).
  { destruct (cos_pole ti H) as [ -> | -> ]; lra. } { apply (tables_polar nmax (dir_of ti 0)). apply cos_pole. auto. }
  assert (G: forall q, apply (amplitude g nmax k (cos (po - q)) (sin (po - q))) (components ti q (x, y, z)) =
     (X * RtoC (cos ti) * (RtoC (cos po) * x + RtoC (sin po) * y), Y * RtoC (cos ti) * (- RtoC (sin po) * x + RtoC (cos po) * y))%C).
  { intros q. rewrite E. unfold apply, shape_in. cbn [s0 s1 s2 s3]. vecs. rewrite H, cos_minus, sin_minus, RtoC_plus, RtoC_minus, !RtoC_mult.
    pose proof (cs q) as HQ. generalize dependent (RtoC (cos q)). generalize dependent (RtoC (sin q)). intros. f_equal; ring [HQ]. }
  rewrite !G. reflexivity.
Qed.
Lemma pole_out : forall nmax k T ti pi_ to p p' V, sin to = 0 -> scattered nmax k T ti pi_ to p V = scattered nmax k T ti pi_ to p' V.
Proof.
  intros nmax k T ti pi_ to p p' V H. unfold scattered. rewrite !fixed_axis_phi. set (g := mkAng _ _ _ _ _ _). destruct (components ti pi_ V) as (x, y).
  destruct (polar_out g nmax k (cos to)) as (X & Y & E).
  { destruct (cos_pole to H) as [ -> | -> ]; lra. } { apply (tables_polar nmax (dir_of to 0)). apply cos_pole. auto. }
  assert (G: forall q, field to q (apply (amplitude g nmax k (cos (q - pi_)) (sin (q - pi_))) (x, y)) =
     (RtoC (cos to) * (X * RtoC (cos pi_) * x - Y * RtoC (sin pi_) * y), RtoC (cos to) * (X * RtoC (sin pi_) * x + Y * RtoC (cos pi_) * y), RtoC 0)%C).
  { intros q. rewrite E. unfold apply, shape_out. cbn [s0 s1 s2 s3]. vecs. rewrite H, cos_minus, sin_minus, RtoC_plus, RtoC_minus, !RtoC_mult.
    pose proof (cs q) as HQ. generalize dependent (RtoC (cos q)). generalize dependent (RtoC (sin q)). intros. f_equal; [f_equal|]; ring [HQ]. }
  rewrite !G. reflexivity.
Qed.
