(** C99: the task objects for a single scattering event give the matrices of the class TMatrix, if they are executed once. *)
From Coq Require Import List Arith Lia Bool ZArith Reals Lra Psatz.
From Coquelicot Require Import Complex.
From Verif Require Import Wigner Optics Props_optics TClass Frames FramesFacts Props_frames Props_outputs Observables ScatRes.
Import ListNotations.
Open Scope R_scope.

Lemma for_C_ext : forall X lo hi (f g : nat -> X -> X), (forall k s, f k s = g k s) -> forall s, for_C lo hi f s = for_C lo hi g s.
Proof.
  intros X lo hi f g H. unfold for_C. generalize (seq lo (hi - lo)). intros l. induction l as [|k l IH]; intros s; cbn [fold_left]; auto. rewrite H. apply IH.
Qed.
Lemma amplitude_from_zero : forall g nmax k c s, amplitude_from azero g nmax k c s = amplitude g nmax k c s.
Proof. reflexivity. Qed.
Lemma t_element_element : forall nmax T a n m b n', t_element nmax T a n m b n' m = element nmax T a n m b n' m.
Proof. intros. unfold t_element, element, element_at. destruct (0 <? m)%nat; reflexivity. Qed.
Lemma object_forward : forall nmax k T din dout,
  amplitude_from azero (object_tables nmax T din dout) nmax k (cp dout * cp din + sp dout * sp din) (sp dout * cp din - cp dout * sp din) = forward nmax k T din dout.
Proof.
  intros. rewrite amplitude_from_zero. unfold forward, amplitude, object_tables. 
  assert (E: forall m nn n fc fs W, amp_term
     (mkAng (fun i j m n nn => t_element nmax T i n m j nn m) (fst (sinx_tables nmax din)) (snd (sinx_tables nmax din))
        (fst (sinx_tables nmax dout)) (snd (sinx_tables nmax dout)) (fun nn n => class_c n nn)) m nn n fc fs W =
     amp_term (mkAng (fun i j m n nn => element nmax T i n m j nn m) (fst (sinx_tables nmax din)) (snd (sinx_tables nmax din))
        (fst (sinx_tables nmax dout)) (snd (sinx_tables nmax dout)) (fun nn n => class_c n nn)) m nn n fc fs W).
  { intros. unfold amp_term. cbn [Optics.T dsin_in tau_in dsin_out tau_out cnn]. rewrite !t_element_element. reflexivity. }
  match goal with |- (let '(_, _) := for_C _ _ ?f ?s in _) = (let '(_, _) := for_C _ _ ?g ?s in _) =>
    assert (F: for_C 0 (nmax + 1) f s = for_C 0 (nmax + 1) g s) end.
  { apply for_C_ext. intros m (W, e). f_equal. apply for_C_ext. intros nn W'. apply for_C_ext. intros n W''. apply E. }
  rewrite F. reflexivity.
Qed.

Lemma new_matrix : forall al be t p d Cm, (forall i j, Cm i j = sum3 (fun k => mB al be i k * mAL t p k j)) -> add_product (mk2 0 0 0 0) d Cm = mR al be t p d.
Proof. intros. unfold add_product, mR, add3, sum3. cbn [a00 a01 a10 a11]. rewrite !H. reflexivity. Qed.

(** a new object, executed once: the matrix of TMatrix::get_scattering_matrix for the same angles *)
Theorem C99_scattering_object : forall room nmax k T alpha beta ti pi_ to po, (nmax <= room)%nat ->
  exists o, scat_execute room nmax k T alpha beta ti pi_ to po new_object = Some o /\ o_available o = true /\
  forall i j, o_Z o i j = get_scattering_matrix nmax k T alpha beta ti pi_ to po i j.
Proof.
  intros room nmax k T al be ti pi_ to po H. unfold scat_execute. cbv zeta. assert (L: (room <? nmax)%nat = false) by (apply Nat.ltb_ge; auto). rewrite L.
  eexists. split; [reflexivity|]. cbn [o_available o_Z]. split; [reflexivity|]. intros i j. unfold get_scattering_matrix. f_equal.
  cbn [new_object o_C o_Rin o_Rout o_S]. change (mkAmp (RtoC 0) (RtoC 0) (RtoC 0) (RtoC 0)) with azero. rewrite object_forward.
  rewrite (new_matrix al be ti pi_ (body_dir al be ti pi_)) by reflexivity. rewrite (new_matrix al be to po (body_dir al be to po)) by reflexivity. reflexivity.
Qed.
Print Assumptions C99_scattering_object.

(** an object of too small a room for the T-matrix writes past the end of its arrays, and only then *)
Theorem C99_room : forall room nmax k T alpha beta ti pi_ to po o, scat_execute room nmax k T alpha beta ti pi_ to po o = None <-> (room < nmax)%nat.
Proof. intros. unfold scat_execute. cbv zeta. destruct (room <? nmax)%nat eqn:E; [apply Nat.ltb_lt in E|apply Nat.ltb_ge in E]; split; intros H; auto; try discriminate; lia. Qed.
Print Assumptions C99_room.

Lemma ext_dir_body : forall t p, 0 <= t <= PI -> ext_dir t p = body_dir 0 0 t p.
Proof.
  intros t p H. unfold ext_dir, body_dir. rewrite cos_0, sin_0. cbv zeta. 
  replace (cos t * 1 + sin t * 0 * (cos p * 1 + sin p * 0)) with (cos t) by ring. rewrite sin_acos_cos by auto.
  destruct (Req_EM_T (sin t) 0); [reflexivity|]. f_equal; ring.
Qed.
(** the extinction object, executed in whatever state: the matrix of TMatrix::get_extinction_matrix for a particle with its axis along z *)
Theorem C99_extinction_object : forall nmax k T theta phi K i j, 0 <= theta <= PI -> (i < 4)%nat -> (j < 4)%nat ->
  ext_execute nmax k T theta phi K i j = get_extinction_matrix nmax k T 0 0 theta phi i j.
Proof.
  intros nmax k T t p K i j H Hi Hj. unfold ext_execute. cbv zeta. apply Nat.ltb_lt in Hi, Hj. rewrite Hi, Hj. cbn [andb].
  unfold get_extinction_matrix. replace (1 / k) with (/ k) by (unfold Rdiv; ring). f_equal. rewrite ext_dir_body by auto.
  change (mkAmp (RtoC 0) (RtoC 0) (RtoC 0) (RtoC 0)) with azero. rewrite object_forward.
  assert (M: add_product (mk2 0 0 0 0) (body_dir 0 0 t p) (mAL t p) = mR 0 0 t p (body_dir 0 0 t p)).
  { unfold add_product, mR, add3, sum3, mB. cbn [a00 a01 a10 a11]. rewrite cos_0, sin_0. f_equal; ring. }
  rewrite M. reflexivity.
Qed.
Print Assumptions C99_extinction_object.
(** what the extinction object held before does not matter *)
Theorem C99_extinction_again : forall nmax k T theta phi K, forall i j, (i < 4)%nat -> (j < 4)%nat ->
  ext_execute nmax k T theta phi (ext_execute nmax k T theta phi K) i j = ext_execute nmax k T theta phi K i j.
Proof.
  intros. unfold ext_execute. cbv zeta. apply Nat.ltb_lt in H, H0. rewrite H, H0. reflexivity.
Qed.
Print Assumptions C99_extinction_again.

(** -- executing a scattering object a second time -- *)
Definition scaled (c : C) (W : amp) : amp := mkAmp (c * s0 W)%C (c * s1 W)%C (c * s2 W)%C (c * s3 W)%C.
Lemma amplitude_from_sum : forall A g nmax k phi,
  amplitude_from A g nmax k (cos phi) (sin phi) = aadd (scaled (RtoC (1 / k)) A) (amplitude g nmax k (cos phi) (sin phi)).
Proof.
  intros A g nmax k phi. rewrite amplitude_sum. cbv zeta. unfold amplitude_from. unfold for_C at 1. rewrite Nat.sub_0_r.
  assert (G: forall d s A, fold_left (fun s m => (fun m '(W, e) => (for_C (Nat.max m 1) (nmax + 1) (fun nn W => for_C (Nat.max m 1) (nmax + 1) (fun n W => amp_term g m nn n (2 * Re e)%R (2 * Im e)%R W) W) W, (e * (cos phi, sin phi))%C)) m s) (seq s d) (A, expi (Z.of_nat s) phi)
    = (aadd A (asum (seq s d) (mterm g nmax phi)), expi (Z.of_nat (s + d)) phi)).
  { induction d; intros s A0; cbn [seq fold_left].
    - rewrite Nat.add_0_r. f_equal. unfold asum, aadd, csum. apply amp_eq; cbn [s0 s1 s2 s3 fold_right]; rewrite Cplus_0_r; reflexivity.
    - rewrite <- expi_S. rewrite (for_amp _ (fun nn => asum (seq (Nat.max s 1) (nmax + 1 - Nat.max s 1)) (fun n => amp_term g s nn n (2 * Re (expi (Z.of_nat s) phi))%R (2 * Im (expi (Z.of_nat s) phi))%R azero))).
      2:{ intros nn B. apply for_amp. intros. apply amp_term_add. }
      rewrite IHd. replace (S s + d)%nat with (s + S d)%nat by lia. f_equal. unfold asum, aadd, mterm, csum. apply amp_eq; cbn [s0 s1 s2 s3 fold_right]; rewrite Cplus_assoc; reflexivity. }
  specialize (G (nmax + 1)%nat 0%nat A). replace (expi (Z.of_nat 0) phi) with (RtoC 1) in G by (unfold expi; cbn [Z.of_nat]; rewrite Rmult_0_l, cos_0, sin_0; reflexivity).
  cbv zeta. rewrite G. unfold aadd, scaled. cbn [s0 s1 s2 s3]. apply amp_eq; cbn [s0 s1 s2 s3]; ring.
Qed.
Lemma straight_dir : forall t p, 0 < t < PI -> body_dir 0 0 t p = mkDir (cos t) (sin t) (1 / sin t) (cos p) (sin p).
Proof.
  intros t p H. assert (0 < sin t) by (apply sin_gt_0; lra). rewrite <- ext_dir_body by lra. unfold ext_dir. cbv zeta. destruct (Req_EM_T (sin t) 0); [lra|]. f_equal; field; lra.
Qed.
Lemma sq : forall x, sin x * sin x = 1 - cos x * cos x.
Proof. intros x. pose proof (sin2_cos2 x) as H. unfold Rsqr in H. lra. Qed.
(** axis along z, light going straight on: the second execution of the same object multiplies the whole matrix *)
Theorem C99_second_execution : forall room nmax k T theta phi, (nmax <= room)%nat -> 0 < theta < PI ->
  exists o1 o2, scat_execute room nmax k T 0 0 theta phi theta phi new_object = Some o1 /\
  scat_execute room nmax k T 0 0 theta phi theta phi o1 = Some o2 /\
  forall i j, (i < 4)%nat -> (j < 4)%nat -> o_Z o2 i j = (3 / 2 * (1 + 1 / k)) * (3 / 2 * (1 + 1 / k)) * o_Z o1 i j.
Proof.
  intros room nmax k T t p H Ht. assert (L: (room <? nmax)%nat = false) by (apply Nat.ltb_ge; auto).
  set (d := mkDir (cos t) (sin t) (1 / sin t) (cos p) (sin p)).
  pose proof (sq t) as St. pose proof (sq p) as Sp.
  assert (CC: cp d * cp d + sp d * sp d = cos 0) by (unfold d; cbn [cp sp]; rewrite cos_0, Sp; ring).
  assert (SS: sp d * cp d - cp d * sp d = sin 0) by (rewrite sin_0; ring).
  assert (M1: forall M, add_product M d (fun i j => add3 0 (fun l => mB 0 0 i l * mAL t p l j)) = mk2 (a00 M + 1) (a01 M) (a10 M) (a11 M + 1)).
  { intros (x, y, z, w). unfold add_product, add3, mB, mAL, mAP, d. cbn [a00 a01 a10 a11 ct st cp sp]. rewrite cos_0, sin_0. f_equal; ring [St Sp]. }
  assert (M2: forall M, add_product M d (fun i j => add3 (add3 0 (fun l => mB 0 0 i l * mAL t p l j)) (fun l => mB 0 0 i l * mAL t p l j)) = mk2 (a00 M + 2) (a01 M) (a10 M) (a11 M + 2)).
  { intros (x, y, z, w). unfold add_product, add3, mB, mAL, mAP, d. cbn [a00 a01 a10 a11 ct st cp sp]. rewrite cos_0, sin_0. f_equal; ring [St Sp]. }
  set (W := amplitude (object_tables nmax T d d) nmax k (cos 0) (sin 0)).
  assert (I1: invert (mk2 (0 + 1) 0 0 (0 + 1)) = mk2 1 0 0 1) by (unfold invert; cbn [a00 a01 a10 a11]; f_equal; field).
  assert (P1: two_products (mk2 1 0 0 1) W (mk2 (0 + 1) 0 0 (0 + 1)) = W).
  { unfold two_products. cbn [a00 a01 a10 a11]. rewrite !Rplus_0_l. apply amp_eq; cbn [s0 s1 s2 s3]; ring. }
  exists (mkSO (fun i j => add3 0 (fun l => mB 0 0 i l * mAL t p l j)) (mk2 (0 + 1) 0 0 (0 + 1)) (mk2 1 0 0 1) W (scattering W) true).
  exists (mkSO (fun i j => add3 0 (fun l => mB 0 0 i l * mAL t p l j)) (mk2 (1 + 2) 0 0 (1 + 2)) (mk2 (/ 2) 0 0 (/ 2))
               (scaled (RtoC (3 / 2 * (1 + 1 / k))) W) (scattering (scaled (RtoC (3 / 2 * (1 + 1 / k))) W)) true).
  split; [|split].
  - unfold scat_execute. cbv zeta. rewrite L, (straight_dir t p Ht). fold d. rewrite CC, SS. cbn [new_object o_C o_Rin o_Rout o_S].
    change (mkAmp (RtoC 0) (RtoC 0) (RtoC 0) (RtoC 0)) with azero. rewrite amplitude_from_zero. fold W. rewrite !M1. cbn [a00 a01 a10 a11]. rewrite I1, P1. reflexivity.
  - unfold scat_execute. cbv zeta. rewrite L, (straight_dir t p Ht). fold d. rewrite CC, SS. cbn [o_C o_Rin o_Rout o_S].
    rewrite amplitude_from_sum. fold W. rewrite M1, M2. cbn [a00 a01 a10 a11].
    assert (I2: invert (mk2 (1 + 1) 0 0 (1 + 1)) = mk2 (/ 2) 0 0 (/ 2)) by (unfold invert; cbn [a00 a01 a10 a11]; f_equal; field).
    assert (I3: mk2 (0 + 1 + 2) 0 0 (0 + 1 + 2) = mk2 (1 + 2) 0 0 (1 + 2)) by (f_equal; ring).
    rewrite I2, I3.
    assert (P2: two_products (mk2 (/ 2) 0 0 (/ 2)) (aadd (scaled (RtoC (1 / k)) W) W) (mk2 (1 + 2) 0 0 (1 + 2)) = scaled (RtoC (3 / 2 * (1 + 1 / k))) W).
    { unfold two_products, aadd, scaled. cbn [a00 a01 a10 a11]. replace (3 / 2 * (1 + 1 / k)) with (/ 2 * (1 + 2) * (1 / k + 1)) by lra.
      rewrite !RtoC_mult, !RtoC_plus. apply amp_eq; cbn [s0 s1 s2 s3]; ring. }
    rewrite P2. reflexivity.
  - intros i j Hi Hj. cbn [o_Z]. set (c := 3 / 2 * (1 + 1 / k)). generalize c W. clear - Hi Hj. intros c ((x0, y0), (x1, y1), (x2, y2), (x3, y3)). unfold scaled, scattering. cbv zeta. cbn [s0 s1 s2 s3].
    do 4 (destruct i as [|i]; [do 4 (destruct j as [|j]; [unfold Cminus, Cmult, Cplus, Copp, Cconj, RtoC, Ci; cbn [Re Im fst snd]; ring|]); lia|]); lia.
Qed.
Print Assumptions C99_second_execution.

(** so the claim "executing the object again gives the same matrix" is false *)
Theorem C99_executing_again_refuted :
  ~ (forall room nmax k T alpha beta ti pi_ to po o1 o2, (nmax <= room)%nat -> 0 < k ->
     scat_execute room nmax k T alpha beta ti pi_ to po new_object = Some o1 -> scat_execute room nmax k T alpha beta ti pi_ to po o1 = Some o2 ->
     o_Z o2 0%nat 0%nat = o_Z o1 0%nat 0%nat).
Proof.
  intros H. pose proof PI_RGT_0 as P.
  assert (B: 0 < PI / 2 < PI) by lra.
  destruct (C99_second_execution 1 1 1 x_dipole (PI / 2) 0 (le_n 1) B) as (o1 & o2 & E1 & E2 & E3).
  destruct (C99_scattering_object 1 1 1 x_dipole 0 0 (PI / 2) 0 (PI / 2) 0 (le_n 1)) as (o & Eo & _ & EZ). rewrite E1 in Eo. injection Eo as <-.
  specialize (H _ _ _ _ _ _ _ _ _ _ o1 o2 (le_n 1) Rlt_0_1 E1 E2). rewrite (E3 0%nat 0%nat) in H by lia.
  assert (Z0: o_Z o1 0%nat 0%nat = 0) by nra. rewrite EZ in Z0. unfold get_scattering_matrix in Z0. clear - Z0 B.
  rewrite C74_axis_along_z in Z0 by lra. unfold fixed_axis, dir_of in Z0. cbv zeta in Z0. rewrite cos_PI2, sin_PI2, cos_0, sin_0 in Z0.
  destruct (Req_EM_T 1 0) as [E|_]; [lra|]. replace (1 / 1) with 1 in Z0 by field. set (dd := mkDir 0 1 1 1 0) in *.
  assert (F4: Im (s0 (forward 1 1 x_dipole dd dd)) <> 0).
  { unfold forward, amplitude, for_C, dd. cbn [Nat.add Nat.sub seq fold_left Nat.max]. unfold amp_term. cbn [Nat.eqb T dsin_in dsin_out tau_in tau_out cnn].
    unfold element, element_at, x_dipole. cbn [Nat.ltb Nat.leb Nat.mul Nat.add Nat.sub fst snd Nat.eqb andb].
    unfold sinx_tables, wigner_dn_0m_sinx. cbn [ct st inv]. rewrite Rabs_R0, Rminus_0_r, Rabs_R1. destruct (Rle_dec 1 (/ 10000000000)); [lra|].
    unfold wigner_core, w0_loop. cbn [map Nat.sub nth fst snd s0 s1 s2 s3]. unfold class_c, for_C. cbn [Nat.sub seq fold_left]. cbn [INR].
    replace ((2 * 1 + 1) * (2 * 1 + 1) / (1 * 1 * (1 + 1) * (1 + 1))) with (3 / 2 * (3 / 2)) by field. rewrite sqrt_square by lra.
    unfold Cmult, Cplus, Cdiv, Cinv, Ci, RtoC. cbn [Re Im fst snd]. lra. }
  unfold scattering in Z0. destruct (forward 1 1 x_dipole dd dd) as ((x0, y0), (x1, y1), (x2, y2), (x3, y3)). cbn [s0 s1 s2 s3] in *. cbn [Im snd] in F4.
  unfold Cmult, Cplus, Cconj, RtoC in Z0. cbn [Re Im fst snd] in Z0. nra.
Qed.
Print Assumptions C99_executing_again_refuted.
(** the hypotheses of the theorems above: an object for order 1 and the dipole of C75 *)
Example C99_example : exists o, scat_execute 3 1 1 x_dipole 0 0 (PI / 2) 0 (PI / 3) 0 new_object = Some o /\ o_available o = true.
Proof. destruct (C99_scattering_object 3 1 1 x_dipole 0 0 (PI / 2) 0 (PI / 3) 0) as (o & E & A & _); [lia|]. exists o. auto. Qed.
