(** C97: in double precision, the direction of the light in the frame of a particle is found, except close to the axis of the particle. *)
From Coq Require Import ZArith Reals Lra Lia Psatz QArith Qreals.
From Coquelicot Require Import Complex.
From Flocq Require Import Core Relative.
From Verif Require Import Frames FramesFacts Doubles.
Local Open Scope R_scope.

Definition h : R := / 2 ^ 54.
Lemma h_bpow : bpow radix2 (-54) = h.
Proof. unfold h. change (-54)%Z with (- (54))%Z. rewrite bpow_opp. f_equal. rewrite pow_IZR. reflexivity. Qed.
Lemma h_small : 0 < h <= / 1000000.
Proof.
  unfold h. assert (E : 2 ^ 54 = IZR (2 ^ 54)) by (rewrite pow_IZR; reflexivity). rewrite E. change (2 ^ 54)%Z with 18014398509481984%Z. split; [lra|].
  apply Rinv_le_contravar; lra.
Qed.
Lemma pow49 : / 2 ^ 49 = 32 * h.
Proof. unfold h. field. Qed.
Lemma pow50 : / 2 ^ 50 = 16 * h.
Proof. unfold h. field. Qed.

#[local] Instance prec_positive : Prec_gt_0 53 := eq_refl.
Local Notation fexp := (FLT_exp (-1074) 53).
Lemma rnd_small : forall k x, (-1000 <= k)%Z -> Rabs x <= bpow radix2 k -> Rabs (rnd x) <= bpow radix2 k /\ Rabs (rnd x - x) <= bpow radix2 (k - 54).
Proof.
  intros k x K H.
  assert (G : generic_format radix2 fexp (bpow radix2 k)) by (apply generic_format_FLT_bpow; [reflexivity | lia]).
  split; [apply abs_round_le_generic; [typeclasses eauto | typeclasses eauto | exact G | exact H]|].
  destruct (Req_dec (Rabs x) (bpow radix2 k)) as [E|E].
  - assert (GX : generic_format radix2 fexp x).
    { destruct (Rcase_abs x) as [N|N]; [rewrite Rabs_left in E by lra | rewrite Rabs_right in E by lra].
      - replace x with (- bpow radix2 k) by lra. apply generic_format_opp. exact G.
      - rewrite E. exact G. }
    unfold rnd. rewrite round_generic by (auto; typeclasses eauto). rewrite Rminus_diag_eq, Rabs_R0 by reflexivity. apply bpow_ge_0.
  - eapply Rle_trans; [apply error_le_half_ulp; typeclasses eauto|].
    replace (bpow radix2 (k - 54)) with (/ 2 * bpow radix2 (k - 53)).
    2:{ replace (k - 53)%Z with (1 + (k - 54))%Z by ring. rewrite bpow_plus. change (bpow radix2 1) with 2. field. }
    apply Rmult_le_compat_l; [lra|]. destruct (Req_dec x 0) as [X0|X0].
    + rewrite X0, ulp_FLT_0 by reflexivity. apply bpow_le. lia.
    + rewrite ulp_neq_0 by exact X0. apply bpow_le. unfold cexp, FLT_exp. pose proof (mag_le_bpow radix2 x k X0 ltac:(lra)). lia.
Qed.
Lemma rnd1 : forall x, Rabs x <= 1 -> Rabs (rnd x) <= 1 /\ Rabs (rnd x - x) <= h.
Proof. intros x H. pose proof (rnd_small 0 x ltac:(lia) H) as R. rewrite <- h_bpow. exact R. Qed.
Lemma rnd2 : forall x, Rabs x <= 2 -> Rabs (rnd x) <= 2 /\ Rabs (rnd x - x) <= 2 * h.
Proof.
  intros x H. pose proof (rnd_small 1 x ltac:(lia) H) as R. change (bpow radix2 1) with 2 in R. change (1 - 54)%Z with (1 + -54)%Z in R. rewrite bpow_plus, h_bpow in R. exact R.
Qed.
Lemma rnd4 : forall x, Rabs x <= 4 -> Rabs (rnd x) <= 4 /\ Rabs (rnd x - x) <= 4 * h.
Proof.
  intros x H. pose proof (rnd_small 2 x ltac:(lia) H) as R. change (bpow radix2 2) with 4 in R. change (2 - 54)%Z with (2 + -54)%Z in R. rewrite bpow_plus, h_bpow in R. exact R.
Qed.
Lemma near : forall a A e, Rabs (a - A) <= e -> Rabs a <= Rabs A + e.
Proof. intros a A e H. replace a with (A + (a - A)) by ring. eapply Rle_trans; [apply Rabs_triang|]. lra. Qed.
Lemma join : forall a b c e1 e2, Rabs (a - b) <= e1 -> Rabs (b - c) <= e2 -> Rabs (a - c) <= e1 + e2.
Proof. intros a b c e1 e2 H1 H2. replace (a - c) with ((a - b) + (b - c)) by ring. eapply Rle_trans; [apply Rabs_triang|]. lra. Qed.
Lemma prod : forall a A b B ea eb mb, Rabs (a - A) <= ea -> Rabs (b - B) <= eb -> Rabs A <= 1 -> Rabs b <= mb -> Rabs (a * b - A * B) <= ea * mb + eb.
Proof.
  intros a A b B ea eb mb H1 H2 H3 H4. replace (a * b - A * B) with ((a - A) * b + A * (b - B)) by ring. eapply Rle_trans; [apply Rabs_triang|]. rewrite !Rabs_mult.
  pose proof (Rabs_pos (a - A)). pose proof (Rabs_pos (b - B)). pose proof (Rabs_pos A). pose proof (Rabs_pos b). apply Rplus_le_compat; [apply Rmult_le_compat; assumption|].
  replace eb with (1 * eb) by ring. apply Rmult_le_compat; assumption.
Qed.
Lemma sum_err : forall a A b B ea eb, Rabs (a - A) <= ea -> Rabs (b - B) <= eb -> Rabs (a + b - (A + B)) <= ea + eb.
Proof. intros. replace (a + b - (A + B)) with ((a - A) + (b - B)) by ring. eapply Rle_trans; [apply Rabs_triang|]. lra. Qed.
Lemma diff_err : forall a A b B ea eb, Rabs (a - A) <= ea -> Rabs (b - B) <= eb -> Rabs (a - b - (A - B)) <= ea + eb.
Proof. intros. replace (a - b - (A - B)) with ((a - A) - (b - B)) by ring. unfold Rminus at 1. eapply Rle_trans; [apply Rabs_triang|]. rewrite Rabs_Ropp. lra. Qed.
Lemma abs1_prod : forall a b, Rabs a <= 1 -> Rabs b <= 1 -> Rabs (a * b) <= 1.
Proof. intros a b H1 H2. rewrite Rabs_mult. replace 1 with (1 * 1) by ring. apply Rmult_le_compat; auto using Rabs_pos. Qed.
Lemma cos1 : forall x, Rabs (cos x) <= 1. Proof. intros x. apply Rabs_le. pose proof (COS_bound x). lra. Qed.
Lemma sin1 : forall x, Rabs (sin x) <= 1. Proof. intros x. apply Rabs_le. pose proof (SIN_bound x). lra. Qed.
Lemma fcos_ok : forall x, Rabs (fcos x) <= 1 /\ Rabs (fcos x - cos x) <= h. Proof. intros x. apply rnd1, cos1. Qed.
Lemma fsin_ok : forall x, Rabs (fsin x) <= 1 /\ Rabs (fsin x - sin x) <= h. Proof. intros x. apply rnd1, sin1. Qed.

(** product of two functions of angles *)
Lemma fmul2 : forall a A b B, Rabs a <= 1 /\ Rabs (a - A) <= h -> Rabs b <= 1 /\ Rabs (b - B) <= h -> Rabs A <= 1 -> Rabs (fmul a b) <= 1 /\ Rabs (fmul a b - A * B) <= 3 * h.
Proof.
  intros a A b B (H1 & H2) (H3 & H4) H5. destruct (rnd1 (a * b) (abs1_prod a b H1 H3)) as (R1 & R2). split; [exact R1|]. eapply Rle_trans; [eapply join; [exact R2 | apply (prod a A b B h h 1); assumption]|]. lra.
Qed.
Lemma rel_ok : forall a A b B, Rabs a <= 1 /\ Rabs (a - A) <= 3 * h -> Rabs b <= 1 /\ Rabs (b - B) <= 3 * h ->
  Rabs (fadd a b - (A + B)) <= 8 * h /\ Rabs (fsub a b - (A - B)) <= 8 * h.
Proof.
  intros a A b B (H1 & H2) (H3 & H4). split.
  - assert (Q : Rabs (a + b) <= 2) by (eapply Rle_trans; [apply Rabs_triang|lra]). destruct (rnd2 _ Q) as (R1 & R2). eapply Rle_trans; [eapply join; [exact R2 | apply sum_err; eassumption]|]. lra.
  - assert (Q : Rabs (a - b) <= 2) by (unfold Rminus; eapply Rle_trans; [apply Rabs_triang|rewrite Rabs_Ropp; lra]). destruct (rnd2 _ Q) as (R1 & R2). eapply Rle_trans; [eapply join; [exact R2 | apply diff_err; eassumption]|]. lra.
Qed.
(** a product of two functions times the relative angle; and this plus or minus another product *)
Lemma fmul3 : forall p P c C', Rabs p <= 1 /\ Rabs (p - P) <= 3 * h -> Rabs P <= 1 -> Rabs C' <= 1 -> Rabs (c - C') <= 8 * h -> Rabs (fmul p c) <= 1 + 14 * h /\ Rabs (fmul p c - P * C') <= 14 * h.
Proof.
  intros p P c C' (H1 & H2) H3 H4 H5. pose proof h_small as Hh. pose proof (near _ _ _ H5) as Nc.
  assert (Q : Rabs (p * c) <= 2). { rewrite Rabs_mult. pose proof (Rabs_pos p). pose proof (Rabs_pos c). nra. }
  destruct (rnd2 _ Q) as (R1 & R2). assert (E : Rabs (fmul p c - P * C') <= 14 * h).
  { eapply Rle_trans; [eapply join; [exact R2 | apply (prod p P c C' (3 * h) (8 * h) (1 + 8 * h)); auto; lra]|]. nra. }
  split; [|exact E]. pose proof (near _ _ _ E) as N. pose proof (abs1_prod P C' H3 H4). lra.
Qed.
Lemma last_ok : forall a A b B, Rabs a <= 1 + 14 * h /\ Rabs (a - A) <= 14 * h -> Rabs b <= 1 /\ Rabs (b - B) <= 3 * h -> (Rabs (A + B) <= 1 -> Rabs (fadd b a - (B + A)) <= 19 * h) /\ (Rabs (A - B) <= 1 -> Rabs (fsub a b - (A - B)) <= 19 * h).
Proof.
  intros a A b B (H1 & H2) (H3 & H4). pose proof h_small as Hh. split; intros X.
  - pose proof (sum_err b B a A _ _ H4 H2) as S. pose proof (near _ _ _ S) as N. rewrite (Rplus_comm B A) in N at 1. destruct (rnd2 (b + a) ltac:(lra)) as (R1 & R2). eapply Rle_trans; [eapply join; [exact R2 | exact S]|]. lra.
  - pose proof (diff_err a A b B _ _ H2 H4) as S. pose proof (near _ _ _ S) as N. destruct (rnd2 (a - b) ltac:(lra)) as (R1 & R2). eapply Rle_trans; [eapply join; [exact R2 | exact S]|]. lra.
Qed.
Lemma rnd_rel : forall x, exists eps eta, Rabs eps <= 2 * h /\ Rabs eta <= h * h /\ rnd x = x * (1 + eps) + eta.
Proof.
  intros x. destruct (error_N_FLT radix2 (-1074) 53 ltac:(lia) (fun z => negb (Z.even z)) x) as (eps & eta & H1 & H2 & _ & H3). exists eps, eta. split; [|split; [|exact H3]].
  - eapply Rle_trans; [exact H1|]. rewrite <- h_bpow. change (- (53) + 1)%Z with (2 + -54)%Z. rewrite bpow_plus. change (bpow radix2 2) with 4. generalize (bpow radix2 (-54)). intros b. lra.
  - eapply Rle_trans; [exact H2|]. rewrite <- h_bpow, <- bpow_plus. pose proof (bpow_le radix2 (-1074) (-54 + -54) ltac:(lia)). pose proof (bpow_ge_0 radix2 (-1074)). lra.
Qed.
Lemma scaled : forall num st, 0 < st <= 1 -> Rabs num <= 1 + 19 * h -> Rabs (st * fmul num (fdiv 1 st) - num) <= 5 * h.
Proof.
  intros num st Hs Hn. pose proof h_small as Hh.
  destruct (rnd_rel (1 / st)) as (e1 & t1 & E1 & T1 & R1). destruct (rnd_rel (num * fdiv 1 st)) as (e2 & t2 & E2 & T2 & R2).
  unfold fmul. rewrite R2. unfold fdiv. rewrite R1.
  set (d := e1 + st * t1). assert (D : Rabs d <= 2 * h + h * h).
  { unfold d. eapply Rle_trans; [apply Rabs_triang|]. rewrite Rabs_mult, (Rabs_right st) by lra. assert (st * Rabs t1 <= 1 * (h * h)) by (apply Rmult_le_compat; auto using Rabs_pos; lra). lra. }
  replace (st * (num * (1 / st * (1 + e1) + t1) * (1 + e2) + t2) - num) with (num * (d + e2 + d * e2) + st * t2) by (unfold d; field; lra).
  eapply Rle_trans; [apply Rabs_triang|]. rewrite !Rabs_mult, (Rabs_right st) by lra.
  assert (G : Rabs (d + e2 + d * e2) <= 4 * h + 6 * (h * h)).
  { eapply Rle_trans; [apply Rabs_triang|]. eapply Rle_trans; [apply Rplus_le_compat_r, Rabs_triang|]. rewrite Rabs_mult.
    assert (Rabs d * Rabs e2 <= (2 * h + h * h) * (2 * h)) by (apply Rmult_le_compat; auto using Rabs_pos). nra. }
  assert (Rabs num * Rabs (d + e2 + d * e2) <= (1 + 19 * h) * (4 * h + 6 * (h * h))) by (apply Rmult_le_compat; auto using Rabs_pos).
  assert (st * Rabs t2 <= 1 * (h * h)) by (apply Rmult_le_compat; auto using Rabs_pos; lra). nra.
Qed.
Lemma sin_lipschitz : forall a b, Rabs (sin a - sin b) <= Rabs (a - b).
Proof.
  intros a b. assert (M : forall a b, a < b -> Rabs (sin b - sin a) <= Rabs (b - a)).
  { intros x y H. destruct (MVT_cor2 sin cos x y H) as (c & E & _); [intros; apply derivable_pt_lim_sin|]. rewrite E, Rabs_mult. pose proof (cos1 c). pose proof (Rabs_pos (y - x)). nra. }
  destruct (Rtotal_order a b) as [H|[->|H]]; [rewrite <- Rabs_Ropp, <- (Rabs_Ropp (a - b)), !Ropp_minus_distr; auto | rewrite !Rminus_diag_eq, Rabs_R0 by reflexivity; lra | auto].
Qed.
(** the sine of the angle *)
Lemma sine_ok : forall c, Rabs c <= 1 -> let s := fsin (rnd (acos c)) in 0 <= sqrt (1 - c * c) <= 1 /\ Rabs s <= 1 /\ Rabs (s - sqrt (1 - c * c)) <= 5 * h.
Proof.
  intros c Hc s. apply Rabs_le_inv in Hc. pose proof (acos_bound c) as B. pose proof PI_4 as P4. pose proof h_small as Hh.
  assert (S : sin (acos c) = sqrt (1 - c * c)) by (rewrite sin_acos by lra; reflexivity).
  split; [rewrite <- S; pose proof (SIN_bound (acos c)); split; [apply sin_ge_0; lra | lra]|].
  split; [apply fsin_ok|]. rewrite <- S. assert (A4 : Rabs (acos c) <= 4) by (rewrite Rabs_right by lra; lra). destruct (rnd4 _ A4) as (_ & R).
  eapply Rle_trans; [eapply join; [apply fsin_ok | eapply Rle_trans; [apply sin_lipschitz | exact R]]|]. lra.
Qed.
Lemma real3_inj : forall x y z x' y' z', real3 x y z = real3 x' y' z' -> x = x' /\ y = y' /\ z = z'.
Proof. intros x y z x' y' z' H. unfold real3 in H. injection H as E1 E2 E3. auto. Qed.

(* ---------------------------------------------------------------- the property *)
Section Angles.
Variables alpha beta theta phi x y z : R.
(** the exact direction of the light in the frame of the particle (C74) *)
Hypothesis exact : in_body alpha beta (direction theta phi) = real3 x y z.
Let cosphirel := fadd (fmul (fcos phi) (fcos alpha)) (fmul (fsin phi) (fsin alpha)).
Let sinphirel := fsub (fmul (fsin phi) (fcos alpha)) (fmul (fcos phi) (fsin alpha)).
Lemma unit_vector : x * x + y * y + z * z = 1.
Proof.
  rewrite in_body_direction in exact. apply real3_inj in exact as (<- & <- & <-).
  pose proof (sin2_cos2 alpha) as A. pose proof (sin2_cos2 beta) as B. pose proof (sin2_cos2 theta) as T. pose proof (sin2_cos2 phi) as P. unfold Rsqr in *.
  replace (cos alpha * cos alpha) with (1 - sin alpha * sin alpha) in * by lra.
  assert (A' : cos alpha * cos alpha = 1 - sin alpha * sin alpha) by (pose proof (sin2_cos2 alpha) as H; unfold Rsqr in H; lra).
  assert (B' : cos beta * cos beta = 1 - sin beta * sin beta) by lra. assert (T' : cos theta * cos theta = 1 - sin theta * sin theta) by lra. assert (P' : cos phi * cos phi = 1 - sin phi * sin phi) by lra.
  ring [A' B' T' P'].
Qed.
Lemma parts : Rabs (cosphirel - cos (phi - alpha)) <= 8 * h /\ Rabs (sinphirel - sin (phi - alpha)) <= 8 * h.
Proof.
  rewrite cos_minus, sin_minus. split.
  - apply rel_ok; apply fmul2; auto using fcos_ok, fsin_ok, cos1, sin1.
  - apply rel_ok; apply fmul2; auto using fcos_ok, fsin_ok, cos1, sin1.
Qed.
Lemma exact_parts : x = cos beta * sin theta * cos (phi - alpha) - sin beta * cos theta /\ y = sin theta * sin (phi - alpha) /\ z = cos theta * cos beta + sin theta * sin beta * cos (phi - alpha).
Proof. rewrite in_body_direction in exact. apply real3_inj in exact as (<- & <- & <-). rewrite cos_minus, sin_minus. auto. Qed.
Lemma square1 : forall a b, a * a + b = 1 -> 0 <= b -> Rabs a <= 1.
Proof. intros a b H1 H2. apply Rabs_le. nra. Qed.
Lemma z_ok : Rabs (fadd (fmul (fcos theta) (fcos beta)) (fmul (fmul (fsin theta) (fsin beta)) cosphirel) - z) <= 19 * h.
Proof.
  pose proof unit_vector as U. destruct exact_parts as (_ & _ & Z). assert (Z1 : Rabs z <= 1) by (apply (square1 z (x * x + y * y)); nra). rewrite Z in Z1 |- *.
  apply last_ok; [| | rewrite Rplus_comm; exact Z1].
  - apply fmul3; [apply fmul2; auto using fsin_ok, sin1 | apply abs1_prod; apply sin1 | apply cos1 | apply parts].
  - apply fmul2; auto using fcos_ok, cos1.
Qed.
Lemma x_ok : Rabs (fsub (fmul (fmul (fcos beta) (fsin theta)) cosphirel) (fmul (fsin beta) (fcos theta)) - x) <= 19 * h.
Proof.
  pose proof unit_vector as U. destruct exact_parts as (X & _ & _). assert (X1 : Rabs x <= 1) by (apply (square1 x (y * y + z * z)); nra). rewrite X in X1 |- *.
  apply last_ok; [| | exact X1].
  - apply fmul3; [apply fmul2; auto using fcos_ok, fsin_ok, sin1, cos1 | apply abs1_prod; auto using sin1, cos1 | apply cos1 | apply parts].
  - apply fmul2; auto using fcos_ok, fsin_ok, cos1, sin1.
Qed.
Lemma y_ok : Rabs (fmul (fsin theta) sinphirel - y) <= 12 * h.
Proof.
  destruct exact_parts as (_ & Y & _). rewrite Y. pose proof h_small as Hh. destruct parts as (_ & P). destruct (fsin_ok theta) as (F1 & F2). pose proof (near _ _ _ P) as N. pose proof (sin1 (phi - alpha)) as S1.
  assert (Q : Rabs (fsin theta * sinphirel) <= 2) by (rewrite Rabs_mult; pose proof (Rabs_pos (fsin theta)); pose proof (Rabs_pos sinphirel); nra).
  destruct (rnd2 _ Q) as (_ & R). eapply Rle_trans; [eapply join; [exact R | apply (prod (fsin theta) (sin theta) sinphirel (sin (phi - alpha)) h (8 * h) (1 + 8 * h)); auto using sin1; lra]|]. nra.
Qed.

(** Whenever numbers are found, the cosine of the angle between the light and the axis is right up to 2^-49. *)
Theorem C97_cosine : forall d, particle_direction alpha beta theta phi = Some d -> Rabs (ct d - z) <= / 2 ^ 49.
Proof.
  intros d. unfold particle_direction. fold cosphirel sinphirel. set (c := fadd (fmul (fcos theta) (fcos beta)) _). destruct (facos c) as [t|]; [|discriminate]. pose proof h_small as Hh. rewrite pow49.
  pose proof z_ok as Z. fold c in Z. destruct (Req_EM_T (fsin t) 0); intros [= <-]; cbn [ct]; lra.
Qed.
(** For light that is not within about 2^-24 of the axis of the particle, numbers are found; the three components of the direction are right up to 2^-49. *)
Theorem C97_direction : Rabs z <= 1 - / 2 ^ 49 -> exists d, particle_direction alpha beta theta phi = Some d /\ 0 < st d /\ Rabs (ct d * ct d + st d * st d - 1) <= / 2 ^ 50 /\
  Rabs (st d * cp d - x) <= / 2 ^ 49 /\ Rabs (st d * sp d - y) <= / 2 ^ 49 /\ Rabs (ct d - z) <= / 2 ^ 49.
Proof.
  intros H. rewrite pow49 in *. rewrite pow50. pose proof h_small as Hh. unfold particle_direction. fold cosphirel sinphirel. set (c := fadd (fmul (fcos theta) (fcos beta)) _).
  pose proof z_ok as Z. fold c in Z. pose proof (near _ _ _ Z) as N. assert (C1 : Rabs c <= 1 - 13 * h) by lra. pose proof (Rabs_le_inv _ _ C1) as C2.
  unfold facos. destruct (Rlt_dec 1 c); [lra|]. destruct (Rlt_dec c (-1)); [lra|].
  destruct (sine_ok c ltac:(lra)) as (S0 & S1 & S2). set (s := fsin (rnd (acos c))) in *.
  assert (Q : 100 * h * (100 * h) <= 1 - c * c) by nra.
  assert (L : 100 * h <= sqrt (1 - c * c)) by (rewrite <- (sqrt_square (100 * h)) by lra; apply sqrt_le_1; nra).
  assert (SQ : sqrt (1 - c * c) * sqrt (1 - c * c) = 1 - c * c) by (apply sqrt_sqrt; nra).
  set (q := sqrt (1 - c * c)) in *. apply Rabs_le_inv in S1. pose proof (Rabs_le_inv _ _ S2) as S3.
  assert (P : 0 < s) by lra. destruct (Req_EM_T s 0); [lra|]. eexists. split; [reflexivity|]. cbn [ct st cp sp]. split; [exact P|].
  assert (X : Rabs (s * fmul (fsub (fmul (fmul (fcos beta) (fsin theta)) cosphirel) (fmul (fsin beta) (fcos theta))) (fdiv 1 s) - x) <= 32 * h).
  { pose proof x_ok as X. pose proof (near _ _ _ X) as NX. pose proof unit_vector as U. assert (X1 : Rabs x <= 1) by (apply (square1 x (y * y + z * z)); nra).
    eapply Rle_trans; [eapply join; [apply scaled; [lra|lra] | exact X]|]. lra. }
  assert (Y : Rabs (s * fmul (fmul (fsin theta) sinphirel) (fdiv 1 s) - y) <= 32 * h).
  { pose proof y_ok as Y. pose proof (near _ _ _ Y) as NY. pose proof unit_vector as U. assert (Y1 : Rabs y <= 1) by (apply (square1 y (x * x + z * z)); nra).
    eapply Rle_trans; [eapply join; [apply scaled; [lra|lra] | exact Y]|]. lra. }
  split; [|split; [exact X|split; [exact Y|lra]]].
  replace (c * c + s * s - 1) with ((s - q) * (s + q)) by nra. rewrite Rabs_mult. assert (Rabs (s + q) <= 2) by (apply Rabs_le; lra). pose proof (Rabs_pos (s - q)). pose proof (Rabs_pos (s + q)). nra.
Qed.
End Angles.

(* ---------------------------------------------------------------- light along the axis *)
(** Taylor polynomials in nested form *)
Fixpoint cos_nest (x : Q) (k n : nat) : Q :=
  match n with O => 1%Q | S n => (1 - x * x / (inject_Z (Z.of_nat (2 * k + 1)) * inject_Z (Z.of_nat (2 * k + 2))) * cos_nest x (S k) n)%Q end.
Fixpoint sin_nest (x : Q) (k n : nat) : Q :=
  match n with O => 1%Q | S n => (1 - x * x / (inject_Z (Z.of_nat (2 * k + 2)) * inject_Z (Z.of_nat (2 * k + 3))) * sin_nest x (S k) n)%Q end.
Lemma Q2R_nat : forall n, Q2R (inject_Z (Z.of_nat n)) = INR n.
Proof. intros n. unfold Q2R, inject_Z. cbn [Qnum Qden]. rewrite <- INR_IZR_INZ. change (/ 1) with (/ 1). field. Qed.
Lemma nat_nonzero : forall n, ~ (inject_Z (Z.of_nat (S n)) == 0)%Q.
Proof. intros n H. unfold Qeq in H. cbn [inject_Z Qnum Qden] in H. lia. Qed.
Lemma sum_shift : forall (f : nat -> R) n, sum_f_R0 f (S n) = f O + sum_f_R0 (fun i => f (S i)) n.
Proof. intros f n. rewrite (decomp_sum f (S n)) by lia. reflexivity. Qed.
Lemma cos_step : forall x k, cos_term x (S k) = - cos_term x k * (x * x / (INR (2 * k + 1) * INR (2 * k + 2))).
Proof.
  intros x k. unfold cos_term. replace (2 * S k)%nat with (S (S (2 * k))) by lia. replace (2 * k + 1)%nat with (S (2 * k)) by lia. replace (2 * k + 2)%nat with (S (S (2 * k))) by lia.
  rewrite !fact_simpl, !mult_INR. cbn [pow]. pose proof (INR_fact_neq_0 (2 * k)). pose proof (not_0_INR (S (2 * k)) ltac:(lia)). pose proof (not_0_INR (S (S (2 * k))) ltac:(lia)).
  generalize dependent (INR (S (2 * k))). generalize dependent (INR (S (S (2 * k)))). intros. field. auto.
Qed.
Lemma sin_step : forall x k, sin_term x (S k) = - sin_term x k * (x * x / (INR (2 * k + 2) * INR (2 * k + 3))).
Proof.
  intros x k. unfold sin_term. replace (2 * S k + 1)%nat with (S (S (2 * k + 1))) by lia. replace (2 * k + 2)%nat with (S (2 * k + 1)) by lia. replace (2 * k + 3)%nat with (S (S (2 * k + 1))) by lia.
  rewrite !fact_simpl, !mult_INR. cbn [pow]. pose proof (INR_fact_neq_0 (2 * k + 1)). pose proof (not_0_INR (S (2 * k + 1)) ltac:(lia)). pose proof (not_0_INR (S (S (2 * k + 1))) ltac:(lia)).
  generalize dependent (INR (S (2 * k + 1))). generalize dependent (INR (S (S (2 * k + 1)))). intros. field. auto.
Qed.
Lemma cos_nest_sum : forall q n k, sum_f_R0 (fun i => cos_term (Q2R q) (k + i)) n = cos_term (Q2R q) k * Q2R (cos_nest q k n).
Proof.
  intros q. induction n as [|n IH]; intros k.
  - cbn [sum_f_R0 cos_nest]. rewrite Nat.add_0_r. unfold Q2R. cbn [Qnum Qden]. field.
  - rewrite sum_shift, Nat.add_0_r. rewrite (sum_eq _ (fun i => cos_term (Q2R q) (S k + i))) by (intros i _; f_equal; lia). rewrite IH, cos_step. cbn [cos_nest].
    replace (2 * k + 1)%nat with (S (2 * k)) by lia. replace (2 * k + 2)%nat with (S (S (2 * k))) by lia.
    assert (NZ : ~ (inject_Z (Z.of_nat (S (2 * k))) * inject_Z (Z.of_nat (S (S (2 * k)))) == 0)%Q) by (intros E; apply Qmult_integral in E as [E|E]; revert E; apply nat_nonzero).
    rewrite Q2R_minus, Q2R_mult, Q2R_div, !Q2R_mult, !Q2R_nat by exact NZ. replace (Q2R 1) with 1 by (unfold Q2R; cbn [Qnum Qden]; field). ring.
Qed.
Lemma sin_nest_sum : forall q n k, sum_f_R0 (fun i => sin_term (Q2R q) (k + i)) n = sin_term (Q2R q) k * Q2R (sin_nest q k n).
Proof.
  intros q. induction n as [|n IH]; intros k.
  - cbn [sum_f_R0 sin_nest]. rewrite Nat.add_0_r. unfold Q2R. cbn [Qnum Qden]. field.
  - rewrite sum_shift, Nat.add_0_r. rewrite (sum_eq _ (fun i => sin_term (Q2R q) (S k + i))) by (intros i _; f_equal; lia). rewrite IH, sin_step. cbn [sin_nest].
    replace (2 * k + 2)%nat with (S (S (2 * k))) by lia. replace (2 * k + 3)%nat with (S (S (S (2 * k)))) by lia.
    assert (NZ : ~ (inject_Z (Z.of_nat (S (S (2 * k)))) * inject_Z (Z.of_nat (S (S (S (2 * k))))) == 0)%Q) by (intros E; apply Qmult_integral in E as [E|E]; revert E; apply nat_nonzero).
    rewrite Q2R_minus, Q2R_mult, Q2R_div, !Q2R_mult, !Q2R_nat by exact NZ. replace (Q2R 1) with 1 by (unfold Q2R; cbn [Qnum Qden]; field). ring.
Qed.
Lemma cos_enclosed : forall q n, 0 <= Q2R q <= 1 -> Q2R (cos_nest q 0 (2 * n + 1)) <= cos (Q2R q) <= Q2R (cos_nest q 0 (2 * (n + 1))).
Proof.
  intros q n B. pose proof PI2_1 as P. pose proof (cos_bound (Q2R q) n ltac:(lra) ltac:(lra)) as H. unfold cos_approx in H. rewrite !(cos_nest_sum q _ 0) in H.
  replace (cos_term (Q2R q) 0) with 1 in H by (unfold cos_term; cbn; field). rewrite !Rmult_1_l in H. exact H.
Qed.
Lemma sin_enclosed : forall q n, 0 <= Q2R q <= 1 -> Q2R q * Q2R (sin_nest q 0 (2 * n + 1)) <= sin (Q2R q) <= Q2R q * Q2R (sin_nest q 0 (2 * (n + 1))).
Proof.
  intros q n B. pose proof PI2_1 as P. pose proof (sin_bound (Q2R q) n ltac:(lra) ltac:(lra)) as H. unfold sin_approx in H. rewrite !(sin_nest_sum q _ 0) in H.
  replace (sin_term (Q2R q) 0) with (Q2R q) in H by (unfold sin_term; cbn; field). exact H.
Qed.
(** rounding to a known neighbour *)
Lemma rnd_is : forall m e x, (-1074 <= e)%Z -> (2 ^ 52 < m < 2 ^ 53)%Z -> Rabs (x - IZR m * bpow radix2 e) < / 2 * bpow radix2 e -> rnd x = IZR m * bpow radix2 e.
Proof.
  intros m e x He Hm H. pose proof (bpow_gt_0 radix2 e) as B. apply Rabs_lt_inv in H.
  assert (M1 : IZR (2 ^ 52 + 1) <= IZR m) by (apply IZR_le; lia). assert (M2 : IZR m <= IZR (2 ^ 53 - 1)) by (apply IZR_le; lia). rewrite plus_IZR in M1. rewrite minus_IZR in M2.
  assert (X1 : IZR (2 ^ 52) * bpow radix2 e <= x) by nra. assert (X2 : x < IZR (2 ^ 53) * bpow radix2 e) by nra.
  assert (XP : 0 < x). { eapply Rlt_le_trans; [|exact X1]. apply Rmult_lt_0_compat; [apply IZR_lt; reflexivity | exact B]. }
  assert (MG : mag radix2 x = (e + 53)%Z :> Z).
  { apply mag_unique. rewrite Rabs_right by lra. replace (e + 53 - 1)%Z with (52 + e)%Z by ring. replace (e + 53)%Z with (53 + e)%Z by ring. rewrite !bpow_plus. split; [exact X1 | exact X2]. }
  unfold rnd, round, F2R, scaled_mantissa, cexp. cbn [Fnum Fexp]. rewrite MG. unfold FLT_exp. replace (Z.max (e + 53 - 53) (-1074)) with e by lia. f_equal. f_equal. apply Znearest_imp.
  rewrite bpow_opp. replace (x * / bpow radix2 e - IZR m) with ((x - IZR m * bpow radix2 e) * / bpow radix2 e) by (field; lra).
  rewrite Rabs_mult, (Rabs_right (/ bpow radix2 e)) by (apply Rle_ge, Rlt_le, Rinv_0_lt_compat; exact B). apply Rabs_lt in H. apply (Rmult_lt_reg_r (bpow radix2 e)); [exact B|].
  rewrite Rmult_assoc, Rinv_l, Rmult_1_r by lra. change (/ 2) with (/ 2) in H. lra.
Qed.
Lemma bp : bpow radix2 (-52) = / 4503599627370496 /\ bpow radix2 (-53) = / 9007199254740992 /\ bpow radix2 (-54) = / 18014398509481984.
Proof. repeat split; reflexivity. Qed.
Definition tilt : R := 85 / 128.
Lemma cos_tilt : fcos tilt = 7093123766132370 * bpow radix2 (-53).
Proof.
  assert (T : tilt = Q2R (85 # 128)) by (unfold tilt, Q2R; cbn [Qnum Qden]; field). destruct bp as (B1 & B2 & B3). unfold fcos. apply (rnd_is 7093123766132370 (-53)); [lia | lia |]. rewrite B2.
  pose proof (cos_enclosed (85 # 128) 5 ltac:(rewrite <- T; unfold tilt; lra)) as H. rewrite <- T in H.
  assert (L : Q2R (14186247532264739 # 18014398509481984) < Q2R (cos_nest (85 # 128) 0 (2 * 5 + 1))) by (apply Qlt_Rlt; vm_compute; reflexivity).
  assert (U : Q2R (cos_nest (85 # 128) 0 (2 * (5 + 1))) < Q2R (14186247532264741 # 18014398509481984)) by (apply Qlt_Rlt; vm_compute; reflexivity).
  unfold Q2R at 1 in L. unfold Q2R at 2 in U. cbn [Qnum Qden] in L, U. apply Rabs_lt. lra.
Qed.
Lemma sin_tilt : fsin tilt = 5551327197430794 * bpow radix2 (-53).
Proof.
  assert (T : tilt = Q2R (85 # 128)) by (unfold tilt, Q2R; cbn [Qnum Qden]; field). destruct bp as (B1 & B2 & B3). unfold fsin. apply (rnd_is 5551327197430794 (-53)); [lia | lia |]. rewrite B2.
  pose proof (sin_enclosed (85 # 128) 5 ltac:(rewrite <- T; unfold tilt; lra)) as H. rewrite <- !Q2R_mult, <- T in H.
  assert (L : Q2R (11102654394861587 # 18014398509481984) < Q2R ((85 # 128) * sin_nest (85 # 128) 0 (2 * 5 + 1))) by (apply Qlt_Rlt; vm_compute; reflexivity).
  assert (U : Q2R ((85 # 128) * sin_nest (85 # 128) 0 (2 * (5 + 1))) < Q2R (11102654394861589 # 18014398509481984)) by (apply Qlt_Rlt; vm_compute; reflexivity).
  unfold Q2R at 1 in L. unfold Q2R at 2 in U. cbn [Qnum Qden] in L, U. apply Rabs_lt. lra.
Qed.
Lemma rnd_int : forall n, (0 <= n <= 1)%Z -> rnd (IZR n) = IZR n.
Proof.
  intros n H. apply round_generic; [typeclasses eauto|]. assert (C : n = 0%Z \/ n = 1%Z) by lia. destruct C as [-> | ->]; [apply generic_format_0 |]. change 1 with (bpow radix2 0). apply generic_format_FLT_bpow; [reflexivity | lia].
Qed.
(** Light along the axis of a particle that is tilted by 85/128 (38 degrees): the cosine of the angle between the light and the axis is 1 + 2^-52 in double precision, its arc cosine is
    not a number, and neither are the amplitude, scattering and extinction matrices computed from it. *)
Theorem C97_along_the_axis_refuted : in_body 0 tilt (direction tilt 0) = real3 0 0 1 /\ particle_direction 0 tilt tilt 0 = None.
Proof.
  split.
  - rewrite in_body_direction, sin_0, cos_0. pose proof (sin2_cos2 tilt) as H. unfold Rsqr in H. unfold real3. repeat f_equal; ring_simplify; try ring. rewrite <- H. ring.
  - unfold particle_direction. rewrite cos_tilt, sin_tilt. destruct bp as (B1 & B2 & B3).
    assert (C0 : fcos 0 = 1) by (unfold fcos; rewrite cos_0; apply (rnd_int 1); lia). assert (S0 : fsin 0 = 0) by (unfold fsin; rewrite sin_0; apply (rnd_int 0); lia). rewrite C0, S0.
    assert (CR : fadd (fmul 1 1) (fmul 0 0) = 1).
    { unfold fadd, fmul. replace (1 * 1) with 1 by ring. replace (0 * 0) with 0 by ring. rewrite (rnd_int 1), (rnd_int 0) by lia. replace (1 + 0) with 1 by ring. apply (rnd_int 1). lia. }
    rewrite CR.
    assert (CC : fmul (7093123766132370 * bpow radix2 (-53)) (7093123766132370 * bpow radix2 (-53)) = 5585799019066846 * bpow radix2 (-53)).
    { unfold fmul. apply (rnd_is 5585799019066846 (-53)); [lia | lia |]. rewrite B2. apply Rabs_lt. lra. }
    assert (SS : fmul (5551327197430794 * bpow radix2 (-53)) (5551327197430794 * bpow radix2 (-53)) = 6842800471348295 * bpow radix2 (-54)).
    { unfold fmul. apply (rnd_is 6842800471348295 (-54)); [lia | lia |]. rewrite B2, B3. apply Rabs_lt. lra. }
    assert (S1 : fmul (6842800471348295 * bpow radix2 (-54)) 1 = 6842800471348295 * bpow radix2 (-54)).
    { unfold fmul. apply (rnd_is 6842800471348295 (-54)); [lia | lia |]. rewrite B3. apply Rabs_lt. lra. }
    assert (SUM : fadd (5585799019066846 * bpow radix2 (-53)) (6842800471348295 * bpow radix2 (-54)) = 4503599627370497 * bpow radix2 (-52)).
    { unfold fadd. apply (rnd_is 4503599627370497 (-52)); [lia | lia |]. rewrite B1, B2, B3. apply Rabs_lt. lra. }
    rewrite CC, SS, S1, SUM. unfold facos. rewrite B1. destruct (Rlt_dec 1 (4503599627370497 * / 4503599627370496)) as [_|N]; [reflexivity | exfalso; apply N; lra].
Qed.
Print Assumptions C97_cosine. Print Assumptions C97_direction. Print Assumptions C97_along_the_axis_refuted.
(** The directions of C97_direction exist: light along the laboratory axis, a particle tilted by a right angle. *)
Example C97_right_angle : exists x y z, in_body 0 (PI / 2) (direction 0 0) = real3 x y z /\ Rabs z <= 1 - / 2 ^ 49.
Proof.
  rewrite in_body_direction. do 3 eexists. split; [reflexivity|]. rewrite sin_0, cos_0, cos_PI2. replace (1 * 0 + 0 * sin (PI / 2) * (1 * 1 + 0 * 0)) with 0 by ring. rewrite Rabs_R0, pow49. pose proof h_small. lra.
Qed.
