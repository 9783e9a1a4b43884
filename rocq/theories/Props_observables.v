(** C78: what the tasks that compute the observables store.

    Specification: the extinction, absorption and scattering matrices of Frames.v and Props_outputs.v (get_extinction_matrix,
    absorbed, get_scattering_matrix), whose meaning in terms of electric fields and Stokes vectors is C74 and C75, for a
    particle with its axis along z, divided by the cross section of the equal volume sphere. *)
From Coq Require Import List Arith Lia Bool Reals Lra.
From Coquelicot Require Import Complex.
From Verif Require Import Wigner Index Matrix Optics Props_optics TClass Frames FramesFacts Props_frames Props_outputs Observables.
Import ListNotations.
Open Scope R_scope.

(* ---------------------------------------------- loops *)
Lemma loop_keep : forall (X : Type) (P : X -> Prop) lo hi body s, (forall i s, (lo <= i < hi)%nat -> P s -> P (body i s)) -> P s -> P (for_C lo hi body s).
Proof.
  intros X P lo hi body s H. unfold for_C. assert (G: forall l s, (forall i, In i l -> (lo <= i < hi)%nat) -> P s -> P (fold_left (fun s k => body k s) l s)).
  { induction l as [|x l IH]; intros t Hl Ht; cbn [fold_left]; auto. apply IH; [intros; apply Hl; now right|]. apply H; auto. apply Hl. now left. }
  apply G. intros i Hi. apply in_seq in Hi. lia.
Qed.
Lemma loop_hit : forall (X : Type) (P : X -> Prop) lo hi body s i0, (lo <= i0 < hi)%nat -> (forall i s, (lo <= i < hi)%nat -> P s -> P (body i s)) ->
  (forall s, P (body i0 s)) -> P (for_C lo hi body s).
Proof.
  intros X P lo hi body s i0 Hi Hk Hh. unfold for_C.
  replace (hi - lo)%nat with ((i0 - lo) + (hi - i0))%nat by lia. rewrite seq_app, fold_left_app. replace (lo + (i0 - lo))%nat with i0 by lia.
  replace (hi - i0)%nat with (S (hi - S i0)) by lia. cbn [seq fold_left].
  apply (loop_keep X P (S i0) hi body); auto. intros; apply Hk; auto. lia.
Qed.
Lemma loop_proj : forall (X Y : Type) (f : X -> Y) lo hi body body' s, (forall i s, (lo <= i < hi)%nat -> f (body i s) = body' i (f s)) -> f (for_C lo hi body s) = for_C lo hi body' (f s).
Proof.
  intros X Y f lo hi body body' s H. unfold for_C. assert (G: forall l s, (forall i, In i l -> (lo <= i < hi)%nat) -> f (fold_left (fun s k => body k s) l s) = fold_left (fun s k => body' k s) l (f s)).
  { induction l as [|x l IH]; intros t Hl; cbn [fold_left]; auto. rewrite IH by (intros; apply Hl; now right). rewrite H; auto. apply Hl. now left. }
  apply G. intros i Hi. apply in_seq in Hi. lia.
Qed.
Lemma vupd_eq : forall (X : Type) (a : nat -> X) i v, vupd a i v i = v.
Proof. intros. unfold vupd. now rewrite Nat.eqb_refl. Qed.
Lemma vupd_neq : forall (X : Type) (a : nat -> X) i j v, j <> i -> vupd a i v j = a j.
Proof. intros. unfold vupd. destruct (Nat.eqb_spec j i); auto. contradiction. Qed.

(* ---------------------------------------------- grids *)
(** entry i of the grid belongs to the zenith angle t *)
Definition on_grid (g : zenith_grid) (i : nat) (t : R) : Prop := z_cos g i = ct (dir_of t 0) /\ z_sin g i = st (dir_of t 0) /\ z_inv g i = inv (dir_of t 0).
Lemma sine_of_cosine : forall t, 0 <= t <= PI -> sqrt ((1 - cos t) * (1 + cos t)) = sin t.
Proof.
  intros t Ht. replace ((1 - cos t) * (1 + cos t)) with (Rsqr (sin t)).
  - apply sqrt_Rsqr. apply sin_ge_0; lra.
  - pose proof (sin2_cos2 t). unfold Rsqr in *. lra.
Qed.
Lemma put_sine_hit : forall g i t, 0 <= t <= PI -> z_cos g i = cos t -> on_grid (put_sine i g) i t.
Proof.
  intros g i t Ht E. unfold put_sine. cbv zeta. cbn [z_sin z_cos z_inv]. rewrite vupd_eq, E, sine_of_cosine by auto.
  unfold on_grid, dir_of. cbv zeta. cbn [ct st inv]. destruct (Req_EM_T (sin t) 0); cbn [z_cos z_sin z_inv]; rewrite !vupd_eq; auto.
Qed.
Lemma put_sine_other : forall g i j t, j <> i -> on_grid g j t -> on_grid (put_sine i g) j t.
Proof.
  intros g i j t N (A & B & C). unfold put_sine. cbv zeta. cbn [z_sin z_cos z_inv]. destruct (Req_EM_T _ 0); unfold on_grid; cbn [z_sin z_cos z_inv]; rewrite !vupd_neq by auto; auto.
Qed.
Lemma put_sine_cos : forall g i, z_cos (put_sine i g) = z_cos g.
Proof. intros. unfold put_sine. cbv zeta. destruct (Req_EM_T _ 0); reflexivity. Qed.
Lemma put_cosine_other : forall g i j c t, j <> i -> on_grid g j t -> on_grid (put_cosine i c g) j t.
Proof. intros g i j c t N (A & B & C). unfold put_cosine, on_grid. cbn [z_sin z_cos z_inv]. rewrite vupd_neq by auto. auto. Qed.
Lemma angle_grid_ok : forall ntheta theta g i, (i < ntheta)%nat -> 0 <= theta i <= PI -> on_grid (angle_grid ntheta theta g) i (theta i).
Proof.
  intros ntheta theta g i Hi Ht. unfold angle_grid. 
  assert (H: forall s, on_grid (put_sine i (put_cosine i (cos (theta i)) s)) i (theta i)).
  { intros s. apply put_sine_hit; auto. unfold put_cosine. cbn [z_cos]. apply vupd_eq. }
  apply (loop_hit _ (fun g => on_grid g i (theta i)) _ _ _ _ i); [lia| |auto].
  intros j s Hj P. destruct (Nat.eq_dec i j) as [<-|N]; [apply H|]. apply put_sine_other; auto. apply put_cosine_other; auto.
Qed.
Lemma scattering_in_ok : forall t, 0 <= t <= PI -> on_grid (scattering_in t) 0 t.
Proof. intros t Ht. unfold scattering_in, on_grid, dir_of. cbv zeta. cbn [z_cos z_sin z_inv ct st inv]. rewrite sine_of_cosine by auto. destruct (Req_EM_T (sin t) 0); auto. Qed.
Lemma put_all_in : forall n x a i, (i < n)%nat -> put_all n x a i = x i.
Proof. intros. unfold put_all. destruct (Nat.ltb_spec i n); auto. lia. Qed.
Lemma internal_ok : forall n x phi g h i, (i < n)%nat -> -1 <= x i <= 1 ->
  let r := absorption_internal n x phi g h in on_grid (fst r) i (acos (x i)) /\ a_cos (snd r) i = cos (phi i) /\ a_sin (snd r) i = sin (phi i).
Proof.
  intros n x phi g h i Hi Hx r.
  set (pre := fun q : zenith_grid * azimuth_grid => z_cos (fst q) i = x i /\ a_cos (snd q) i = phi i).
  set (post := fun q : zenith_grid * azimuth_grid => on_grid (fst q) i (acos (x i)) /\ a_cos (snd q) i = cos (phi i) /\ a_sin (snd q) i = sin (phi i)).
  change (post r). unfold r, absorption_internal. cbv zeta. set (body := fun (igauss : nat) _ => _).
  unfold for_C. rewrite Nat.sub_0_r. replace n with (i + S (n - S i))%nat by lia. rewrite seq_app, fold_left_app. cbn [seq fold_left Nat.add].
  replace (i + S (n - S i))%nat with n by lia.
  match goal with |- context [fold_left ?f (seq 0 i) ?q] => assert (P: pre (fold_left f (seq 0 i) q)) end.
  { pose proof (loop_keep _ pre 0 i body) as LK. unfold for_C in LK. rewrite Nat.sub_0_r in LK. apply LK.
    - intros j (g', h') Hj (A & B). unfold body, pre. cbn [fst snd] in *. rewrite put_sine_cos. cbn [a_cos]. rewrite vupd_neq by lia. auto.
    - unfold pre. cbn [fst snd z_cos a_cos]. rewrite !put_all_in by auto. auto. }
  match goal with P : pre ?q |- _ => generalize dependent q end. intros (g', h') (A & B). cbn [fst snd] in A, B.
  pose proof (loop_keep _ post (S i) n body) as LK. unfold for_C in LK. apply LK.
  - intros j (g1, h1) Hj (A1 & B1 & C1). unfold body, post in *. cbn [fst snd a_cos a_sin] in *. rewrite !vupd_neq by lia. repeat split; auto; apply put_sine_other; auto; lia.
  - unfold body, post. cbn [fst snd a_cos a_sin]. rewrite !vupd_eq, B. repeat split; auto; apply put_sine_hit; try apply acos_bound; rewrite A; symmetry; apply cos_acos; lra.
Qed.
(** the directions of the scattering grid *)
Definition theta_sample (gauss : bool) (n : nat) (x : nat -> R) (i : nat) : R := if gauss then acos (x i) else INR i * (PI / INR n).
Definition phi_sample (gauss : bool) (n : nat) (p : nat -> R) (i : nat) : R := if gauss then p i else INR i * (2 * PI / INR n).
Lemma uniform_theta : forall n i, (i < n)%nat -> 0 <= INR i * (PI / INR n) <= PI.
Proof.
  intros n i Hi. pose proof (pos_INR i). assert (0 < INR n) by (apply lt_0_INR; lia). assert (INR i < INR n) by (apply lt_INR; auto). pose proof PI_RGT_0.
  assert (0 < PI / INR n) by (apply Rdiv_lt_0_compat; auto). split; [apply Rmult_le_pos; lra|].
  apply Rle_trans with (INR n * (PI / INR n)); [apply Rmult_le_compat_r; lra|]. right. field. lra.
Qed.
Lemma scattering_theta_ok : forall gauss n x theta g i, (i < n)%nat -> (gauss = true -> -1 <= x i <= 1) ->
  let r := scattering_theta gauss n x theta g in on_grid (snd r) i (theta_sample gauss n x i) /\ fst r i = theta_sample gauss n x i.
Proof.
  intros gauss n x theta g i Hi Hx r. unfold r, scattering_theta. cbv zeta. unfold theta_sample. destruct gauss.
  - set (body := fun (i0 : nat) _ => _).
    set (P := fun q : (nat -> R) * zenith_grid => z_cos (snd q) i = x i).
    set (Q := fun q : (nat -> R) * zenith_grid => on_grid (snd q) i (acos (x i)) /\ fst q i = acos (x i)).
    assert (HP: forall j q, P q -> P (body j q)). { intros j (t, g') A. unfold P, body in *. cbn [snd] in *. now rewrite put_sine_cos. }
    assert (HQ: forall q, P q -> Q (body i q)).
    { intros (t, g') A. unfold P, Q, body in *. cbn [fst snd] in *. rewrite vupd_eq, A. split; auto. apply put_sine_hit; [apply acos_bound|]. rewrite A. symmetry. apply cos_acos. specialize (Hx eq_refl). lra. }
    assert (F: forall q, P q -> P (for_C 0 n body q) /\ Q (for_C 0 n body q)).
    { intros q Hq. split; [apply loop_keep; auto|]. pose proof (loop_hit _ (fun q => P q -> Q q)) as X. clear X.
      unfold for_C. rewrite Nat.sub_0_r. replace n with (i + S (n - S i))%nat by lia. rewrite seq_app, fold_left_app. cbn [seq fold_left Nat.add]. replace (i + S (n - S i))%nat with n by lia.
      pose proof (loop_keep _ Q (S i) n body) as LK. unfold for_C in LK. apply LK.
      - intros j (t, g') Hj (A & B). unfold Q, body in *. cbn [fst snd] in *. rewrite vupd_neq by lia. split; auto. apply put_sine_other; auto. lia.
      - apply HQ. pose proof (loop_keep _ P 0 i body q) as LP. unfold for_C in LP. rewrite Nat.sub_0_r in LP. apply LP; auto. }
    apply F. unfold P. cbn [snd z_cos]. apply put_all_in; auto.
  - set (Q := fun q : (nat -> R) * zenith_grid => on_grid (snd q) i (INR i * (PI / INR n)) /\ fst q i = INR i * (PI / INR n)).
    match goal with |- on_grid (snd (for_C 0 n ?b ?s)) _ _ /\ _ => assert (H: Q (for_C 0 n b s)) end; [|exact H].
    assert (H: forall q : (nat -> R) * zenith_grid, Q (let '(theta0, g0) := q in (vupd theta0 i (INR i * (PI / INR n)), put_sine i (put_cosine i (cos (vupd theta0 i (INR i * (PI / INR n)) i)) g0)))).
    { intros (t, g'). unfold Q. cbn [fst snd]. rewrite vupd_eq. split; auto. apply put_sine_hit; [apply uniform_theta; auto|]. unfold put_cosine. cbn [z_cos]. apply vupd_eq. }
    apply (loop_hit _ Q _ _ _ _ i); [lia| |exact H].
    intros j (t, g') Hj P. destruct (Nat.eq_dec i j) as [<-|N]; [exact (H (t, g'))|]. destruct P as (A & B). unfold Q. cbn [fst snd] in *. rewrite (vupd_neq R t j i) by auto. split; auto.
    apply put_sine_other; auto. apply put_cosine_other; auto.
Qed.
Lemma scattering_phi_ok : forall gauss n p phi h i, (i < n)%nat ->
  let r := scattering_phi gauss n p phi h in a_cos (snd r) i = cos (phi_sample gauss n p i) /\ a_sin (snd r) i = sin (phi_sample gauss n p i).
Proof.
  intros gauss n p phi h i Hi r. unfold r, scattering_phi. cbv zeta. unfold phi_sample. destruct gauss.
  - set (P := fun q : (nat -> R) * azimuth_grid => fst q i = p i).
    set (Q := fun q : (nat -> R) * azimuth_grid => a_cos (snd q) i = cos (p i) /\ a_sin (snd q) i = sin (p i)).
    set (body := fun (i0 : nat) _ => _).
    assert (G: forall q, fst q = put_all n p phi -> fst (for_C 0 n body q) = put_all n p phi /\ Q (for_C 0 n body q)).
    { intros q Hq. pose proof (loop_keep _ (fun q => fst q = put_all n p phi) 0 n body q) as LK.
      assert (K1: forall j (s : (nat -> R) * azimuth_grid), fst s = put_all n p phi -> fst (body j s) = put_all n p phi) by (intros j (t, h') Es; exact Es).
      split; [apply LK; auto|].
      assert (X: (fun q => fst q = put_all n p phi /\ (forall _ : True, Q q)) (for_C 0 n body q)); [|apply X; exact I].
      unfold for_C. rewrite Nat.sub_0_r. replace n with (i + S (n - S i))%nat by lia. rewrite seq_app, fold_left_app. cbn [seq fold_left Nat.add]. replace (i + S (n - S i))%nat with n by lia.
      pose proof (loop_keep _ (fun q => fst q = put_all n p phi /\ (True -> Q q)) (S i) n body) as L2. unfold for_C in L2. apply L2.
      - intros j (t, h') Hj (A & B). split; auto. intros _. specialize (B I). unfold Q, body in *. cbn [fst snd a_cos a_sin] in *. rewrite !vupd_neq by lia. auto.
      - pose proof (loop_keep _ (fun q => fst q = put_all n p phi) 0 i body q) as L3. unfold for_C in L3. rewrite Nat.sub_0_r in L3.
        match goal with |- fst (body i ?q0) = _ /\ _ => assert (E: fst q0 = put_all n p phi) by (apply L3; auto); destruct q0 as (t, h') end.
        cbn [fst] in E. subst t. split; auto. intros _. unfold Q, body. cbn [fst snd a_cos a_sin]. rewrite !vupd_eq, put_all_in by auto. auto. }
    apply G. reflexivity.
  - set (Q := fun q : (nat -> R) * azimuth_grid => a_cos (snd q) i = cos (INR i * (2 * PI / INR n)) /\ a_sin (snd q) i = sin (INR i * (2 * PI / INR n))).
    match goal with |- a_cos (snd (for_C 0 n ?b ?s)) _ = _ /\ _ => assert (H: Q (for_C 0 n b s)) end; [|exact H].
    apply (loop_hit _ Q _ _ _ _ i); [lia| |intros (t, h'); unfold Q; cbn [fst snd a_cos a_sin]; rewrite !vupd_eq; auto].
    intros j (t, h') Hj P. unfold Q in *. cbn [fst snd a_cos a_sin] in *. destruct (Nat.eq_dec i j) as [<-|N]; [rewrite !vupd_eq; auto|]. rewrite !(vupd_neq R _ j i) by auto. auto.
Qed.

(* ---------------------------------------------- tables *)
Lemma index_inj : forall n m n' m', (1 <= n)%nat -> (m <= n)%nat -> (1 <= n')%nat -> (m' <= n')%nat ->
  ((2 + n) * (n - 1) / 2 + m = (2 + n') * (n' - 1) / 2 + m')%nat -> n = n' /\ m = m'.
Proof.
  intros n m n' m' A B A' B' E. change (wigner_index n m = wigner_index n' m') in E.
  pose proof (table_at (Nat.max n n') n m ltac:(lia) B) as T1. pose proof (table_at (Nat.max n n') n' m' ltac:(lia) B') as T2.
  rewrite E in T1. rewrite T1 in T2. injection T2. auto.
Qed.
(** the two matrices of order N and degree m hold the d functions of the angle t in row i *)
Definition table_ok (w : wtables) (i N m : nat) (t : R) : Prop := forall c, (c < N)%nat ->
  w_sinx w ((2 + N) * (N - 1) / 2 + m)%nat i c = fst (sinx_tables N (dir_of t 0)) m (c + 1)%nat /\
  w_dn w ((2 + N) * (N - 1) / 2 + m)%nat i c = snd (sinx_tables N (dir_of t 0)) m (c + 1)%nat.
Lemma call_hit : forall g i N m t w, on_grid g i t -> table_ok (wigner_call g ((2 + N) * (N - 1) / 2 + m)%nat i N m w) i N m t.
Proof.
  intros g i N m t w (A & B & C) c Hc. unfold wigner_call. cbv zeta. cbn [w_sinx w_dn]. unfold put_row. rewrite !Nat.eqb_refl. destruct (Nat.ltb_spec c N); [|lia]. cbn [andb].
  unfold sinx_tables. cbn [fst snd]. rewrite A, B, C. replace (c + 1 - 1)%nat with c by lia. auto.
Qed.
Lemma call_keep : forall g i N m t w j n m', (1 <= N)%nat -> (m <= N)%nat -> (1 <= n)%nat -> (m' <= n)%nat -> on_grid g i t -> table_ok w i N m t ->
  table_ok (wigner_call g ((2 + n) * (n - 1) / 2 + m')%nat j n m' w) i N m t.
Proof.
  intros g i N m t w j n m' HN Hm Hn Hm' G H.
  destruct (Nat.eq_dec ((2 + N) * (N - 1) / 2 + m) ((2 + n) * (n - 1) / 2 + m')) as [E|NE].
  - apply index_inj in E; auto. destruct E as (<- & <-). destruct (Nat.eq_dec i j) as [<-|NE]; [apply call_hit; auto|].
    intros c Hc. unfold wigner_call. cbv zeta. cbn [w_sinx w_dn]. unfold put_row. destruct (Nat.eqb_spec i j); [contradiction|]. rewrite andb_false_r. cbn [andb]. apply H; auto.
  - intros c Hc. unfold wigner_call. cbv zeta. cbn [w_sinx w_dn]. unfold put_row. destruct (Nat.eqb_spec ((2 + N) * (N - 1) / 2 + m) ((2 + n) * (n - 1) / 2 + m')); [contradiction|]. cbn [andb]. apply H; auto.
Qed.
Lemma extinction_tables_ok : forall M ntheta g w i N m t, (1 <= N <= M)%nat -> (m <= N)%nat -> (i < ntheta)%nat -> on_grid g i t ->
  table_ok (extinction_tables M ntheta g w) i N m t.
Proof.
  intros M ntheta g w i N m t HN Hm Hi G. unfold extinction_tables.
  assert (K: forall n m' w, (1 <= n)%nat -> (m' <= n)%nat -> table_ok w i N m t ->
    table_ok (for_C 0 ntheta (fun itheta_in w => wigner_call g ((2 + n) * (n - 1) / 2 + m')%nat itheta_in n m' w) w) i N m t).
  { intros n m' w' Hn Hm' H. apply loop_keep; auto. intros j s Hj Hs. apply call_keep; auto; lia. }
  apply (loop_hit _ (fun w => table_ok w i N m t) _ _ _ _ N); [lia| |].
  - intros n s Hn Hs. apply loop_keep; auto. intros m' s' Hm' Hs'. apply K; auto; lia.
  - intros s. apply (loop_hit _ (fun w => table_ok w i N m t) _ _ _ _ m); [lia| |].
    + intros m' s' Hm' Hs'. apply K; auto; lia.
    + intros s'. apply (loop_hit _ (fun w => table_ok w i N m t) _ _ _ _ i); [lia| |].
      * intros j s2 Hj Hs2. apply call_keep; auto; lia.
      * intros s2. apply call_hit; auto.
Qed.
Lemma pair_tables_ok : forall M n0 n1 g0 g1 w N m, (1 <= N <= M)%nat -> (m <= N)%nat ->
  (forall i t, (i < n0)%nat -> on_grid g0 i t -> table_ok (fst (pair_tables M n0 n1 g0 g1 w)) i N m t) /\
  (forall i t, (i < n1)%nat -> on_grid g1 i t -> table_ok (snd (pair_tables M n0 n1 g0 g1 w)) i N m t).
Proof.
  intros M n0 n1 g0 g1 w N m HN Hm.
  assert (E: pair_tables M n0 n1 g0 g1 w = (extinction_tables M n0 g0 (fst w), extinction_tables M n1 g1 (snd w))).
  { unfold pair_tables, extinction_tables. rewrite (surjective_pairing (for_C 1 (M + 1) _ w)). f_equal.
    - apply loop_proj. intros n s Hn. apply loop_proj. intros m' s' Hm'.
      rewrite (loop_proj _ _ fst _ _ _ (fun _ x => x)) by auto. 
      assert (I: forall lo hi (x : wtables), for_C lo hi (fun _ x => x) x = x) by (intros; apply (loop_keep _ (fun y => y = x)); auto).
      rewrite I. apply loop_proj. auto.
    - apply loop_proj. intros n s Hn. apply loop_proj. intros m' s' Hm'.
      rewrite (loop_proj _ _ snd _ _ _ (fun itheta w => wigner_call g1 ((2 + n) * (n - 1) / 2 + m')%nat itheta n m' w)) by auto.
      assert (I: forall lo hi (x : wtables), for_C lo hi (fun _ x => x) x = x) by (intros; apply (loop_keep _ (fun y => y = x)); auto).
      rewrite (loop_proj _ _ snd _ _ _ (fun _ x => x)) by auto. now rewrite I. }
  rewrite E. cbn [fst snd]. split; intros; apply extinction_tables_ok; auto.
Qed.

(* ---------------------------------------------- the amplitude matrix *)
Lemma cnn_prefactor : forall n' n, (1 <= n')%nat -> (1 <= n)%nat -> get_cnn n' n = class_c n n'.
Proof.
  intros n' n H' H. rewrite class_c_prefactor by auto. unfold get_cnn, prefactor.
  pose proof (C51_prefactors (n' - 1) (n - 1)) as E. cbv zeta in E. replace (n' - 1 + 1)%nat with n' in E by lia. replace (n - 1 + 1)%nat with n in E by lia. replace (n - 1 + 2)%nat with (n + 1)%nat in E by lia.
  pose proof (ipow_nonzero (n + 1)) as NZ.
  replace (cnn_table (n' - 1) (n - 1)) with (ipow (n + 1) * cnn_table (n' - 1) (n - 1) / ipow (n + 1))%C by (field; auto).
  rewrite E. field. auto.
Qed.
(** the tables of all degrees for the order in use *)
Definition row_ok (w : wtables) (i nmax : nat) (t : R) : Prop := forall m, (m <= nmax)%nat -> table_ok w i nmax m t.
Lemma forward_fixed : forall nmax k T win i wout j ti pi_ to po, row_ok win i nmax ti -> row_ok wout j nmax to ->
  task_forward nmax k T win i wout j (cos (po - pi_)) (sin (po - pi_)) = fixed_axis nmax k T ti pi_ to po.
Proof.
  intros nmax k T win i wout j ti pi_ to po Hi Ho. rewrite fixed_axis_phi. unfold task_forward. apply amplitude_ext. intros m n n' Hm Hn Hn'.
  unfold amp_term. cbn [dsin_in tau_in dsin_out tau_out cnn Optics.T]. unfold get_wigner.
  destruct (Hi m Hm (n' - 1)%nat ltac:(lia)) as (A1 & A2). destruct (Ho m Hm (n - 1)%nat ltac:(lia)) as (B1 & B2).
  replace (n' - 1 + 1)%nat with n' in * by lia. replace (n - 1 + 1)%nat with n in * by lia.
  rewrite A1, A2, B1, B2, cnn_prefactor by lia.
  assert (TE: forall a b, t_element nmax T a n m b n' m = element nmax T a n m b n' m) by (intros; unfold t_element, element, element_at; destruct (0 <? m)%nat; reflexivity).
  rewrite !TE. reflexivity.
Qed.

(* ---------------------------------------------- extinction *)
(** For every angle the task stores the extinction cross sections of the particle for that direction of the light, divided by pi a^2; what
    the arrays of the grid, of the tables and of the result contained before does not matter. [M] is the order the tables were made for,
    [nmax] the order the T-matrix was computed for. *)
Theorem C78_extinction : forall M nmax k a T ntheta theta g w r, (nmax <= M)%nat -> (forall i, (i < ntheta)%nat -> 0 <= theta i <= PI) ->
  let Q := extinction_task nmax k a T ntheta (extinction_tables M ntheta (angle_grid ntheta theta g) w) r in
  (forall i alpha, (i < ntheta)%nat -> let K := get_extinction_matrix nmax k T alpha 0 (theta i) 0 in
     Qext Q i = K 0%nat 0%nat / (PI * a²) /\ Qextpol Q i = K 0%nat 1%nat / (PI * a²) /\ Qextcpol Q i = K 2%nat 3%nat / (PI * a²)) /\
  (forall j, (ntheta <= j)%nat -> Qext Q j = Qext r j /\ Qextpol Q j = Qextpol r j /\ Qextcpol Q j = Qextcpol r j).
Proof.
  intros M nmax k a T ntheta theta g w r HM Ht. cbv zeta. set (tab := extinction_tables M ntheta _ w).
  assert (RO: forall i, (i < ntheta)%nat -> row_ok tab i nmax (theta i)).
  { intros i Hi m Hm c Hc. apply extinction_tables_ok; auto; [lia|]. apply angle_grid_ok; auto. }
  unfold extinction_task. cbv zeta. split.
  - intros i al Hi. unfold get_extinction_matrix. rewrite C74_axis_along_z by auto.
    set (Wf := fixed_axis nmax k T (theta i) 0 (theta i) 0).
    assert (FW: task_forward nmax k T tab i tab i 1 0 = Wf).
    { unfold Wf. rewrite <- (forward_fixed nmax k T tab i tab i (theta i) 0 (theta i) 0) by auto. rewrite Rminus_0_r, cos_0, sin_0. reflexivity. }
    apply (loop_hit _ (fun Q => Qext Q i = extinction (/ k) Wf 0 0 / (PI * a²) /\ Qextpol Q i = extinction (/ k) Wf 0 1 / (PI * a²) /\ Qextcpol Q i = extinction (/ k) Wf 2 3 / (PI * a²)) _ _ _ _ i).
    + lia.
    + intros j s Hj P. destruct (Nat.eq_dec i j) as [<-|N].
      * cbn [Qext Qextpol Qextcpol]. rewrite !vupd_eq, FW. unfold extinction, Rsqr, Rdiv. cbv zeta. rewrite !(Rmult_assoc PI). auto.
      * cbn [Qext Qextpol Qextcpol]. rewrite !(vupd_neq R _ j i) by auto. exact P.
    + intros s. cbn [Qext Qextpol Qextcpol]. rewrite !vupd_eq, FW. unfold extinction, Rsqr, Rdiv. cbv zeta. rewrite !(Rmult_assoc PI). auto.
  - intros j Hj. apply (loop_keep _ (fun Q => Qext Q j = Qext r j /\ Qextpol Q j = Qextpol r j /\ Qextcpol Q j = Qextcpol r j)); auto.
    intros i s Hi P. cbn [Qext Qextpol Qextcpol]. rewrite !(vupd_neq R _ i j) by lia. exact P.
Qed.
Print Assumptions C78_extinction.

(* ---------------------------------------------- absorption *)
(** With scattering taken into account the two values are what is extinguished of the direction of the user and not scattered into it out of
    all other directions, as the product of the two Gauss-Legendre rules integrates it; without, they are the extinction. *)
Theorem C78_absorption : forall (account : bool) M nmax k a T ntheta theta ngauss x w p v gout gin h tabs r, (nmax <= M)%nat ->
  (forall i, (i < ntheta)%nat -> 0 <= theta i <= PI) -> (forall i, (i < ngauss)%nat -> -1 <= x i <= 1) ->
  let inner := absorption_internal ngauss x p gin h in
  let tables := pair_tables M ntheta ngauss (angle_grid ntheta theta gout) (fst inner) tabs in
  let Q := absorption_task account nmax k a T ntheta ngauss tables w v (snd inner) r in
  (forall i, (i < ntheta)%nat ->
     Qabs Q i = (if account then absorbed nmax k T (theta i) ngauss x w p v 0 else get_extinction_matrix nmax k T 0 0 (theta i) 0 0 0) / (PI * a²) /\
     Qabspol Q i = (if account then absorbed nmax k T (theta i) ngauss x w p v 1 else get_extinction_matrix nmax k T 0 0 (theta i) 0 1 0) / (PI * a²)) /\
  (forall j, (ntheta <= j)%nat -> Qabs Q j = Qabs r j /\ Qabspol Q j = Qabspol r j).
Proof.
  intros account M nmax k a T ntheta theta ngauss x w p v gout gin h tabs r HM Ht Hx. cbv zeta.
  set (inner := absorption_internal ngauss x p gin h). set (tables := pair_tables M ntheta ngauss _ _ tabs).
  assert (IN: forall i, (i < ngauss)%nat -> on_grid (fst inner) i (acos (x i)) /\ a_cos (snd inner) i = cos (p i) /\ a_sin (snd inner) i = sin (p i)).
  { intros i Hi. apply internal_ok; auto. }
  assert (RO: forall i, (i < ntheta)%nat -> row_ok (fst tables) i nmax (theta i)).
  { intros i Hi m Hm c Hc. destruct (pair_tables_ok M ntheta ngauss (angle_grid ntheta theta gout) (fst inner) tabs nmax m ltac:(lia) Hm) as (A & _). apply (A i (theta i)); auto. apply angle_grid_ok; auto. }
  assert (RI: forall i, (i < ngauss)%nat -> row_ok (snd tables) i nmax (acos (x i))).
  { intros i Hi m Hm c Hc. destruct (pair_tables_ok M ntheta ngauss (angle_grid ntheta theta gout) (fst inner) tabs nmax m ltac:(lia) Hm) as (_ & A). apply (A i (acos (x i))); auto. apply IN; auto. }
  unfold absorption_task. cbv zeta. split.
  - intros i Hi. set (Wf := fixed_axis nmax k T (theta i) 0 (theta i) 0).
    assert (FW: task_forward nmax k T (fst tables) i (fst tables) i 1 (- 0) = Wf).
    { unfold Wf. rewrite <- (forward_fixed nmax k T (fst tables) i (fst tables) i (theta i) 0 (theta i) 0) by auto. rewrite Rminus_0_r, cos_0, sin_0, Ropp_0. reflexivity. }
    assert (FI: forall b c, (b < ngauss)%nat -> (c < ngauss)%nat ->
      task_forward nmax k T (snd tables) b (fst tables) i (a_cos (snd inner) c) (- a_sin (snd inner) c) = fixed_axis nmax k T (acos (x b)) (p c) (theta i) 0).
    { intros b c Hb Hc. rewrite <- (forward_fixed nmax k T (snd tables) b (fst tables) i (acos (x b)) (p c) (theta i) 0) by auto.
      destruct (IN c Hc) as (_ & EC & ES). rewrite EC, ES. replace (0 - p c) with (- p c) by ring. rewrite cos_neg, sin_neg. reflexivity. }
    set (P := fun Q => Qabs Q i = (if account then absorbed nmax k T (theta i) ngauss x w p v 0 else get_extinction_matrix nmax k T 0 0 (theta i) 0 0 0) / (PI * a²) /\
      Qabspol Q i = (if account then absorbed nmax k T (theta i) ngauss x w p v 1 else get_extinction_matrix nmax k T 0 0 (theta i) 0 1 0) / (PI * a²)).
    match goal with |- Qabs (for_C 0 ntheta ?b r) i = _ /\ _ => set (body := b); assert (H: P (for_C 0 ntheta body r)) end; [|exact H].
    assert (HIT: forall s, P (body i s)).
    { intros s. unfold P, body. cbv beta. cbn [Qabs Qabspol]. rewrite !vupd_eq. rewrite FW.
      assert (EN: PI * a * a = PI * a²) by (unfold Rsqr; ring). rewrite EN.
      destruct account.
      - match goal with |- Qabs ?q i / _ = _ /\ _ => assert (E: (Qabs q i, Qabspol q i) = (absorbed nmax k T (theta i) ngauss x w p v 0, absorbed nmax k T (theta i) ngauss x w p v 1)) end.
        2:{ pose proof (f_equal fst E) as E1. pose proof (f_equal snd E) as E2. cbv beta iota delta [fst snd] in E1, E2. split; [exact (f_equal (fun z => z / (PI * a²)) E1)|exact (f_equal (fun z => z / (PI * a²)) E2)]. }
        rewrite <- (absorption_at_spec nmax k T (theta i) ngauss true x w p v (0, 0)) by auto.
        unfold absorption_at. cbv zeta. fold Wf.
        rewrite (loop_proj _ _ (fun q => (Qabs q i, Qabspol q i)) 0 ngauss _ (fun itheta r0 => for_C 0 ngauss (fun iphi r1 =>
          (fst r1 - scattering (fixed_axis nmax k T (acos (x itheta)) (p iphi) (theta i) 0) 0 0 * (w itheta * v iphi),
           snd r1 - scattering (fixed_axis nmax k T (acos (x itheta)) (p iphi) (theta i) 0) 1 0 * (w itheta * v iphi))) r0)).
        + cbn [Qabs Qabspol]. rewrite !vupd_eq. reflexivity.
        + intros b q Hb. apply (loop_proj _ _ (fun q => (Qabs q i, Qabspol q i))). intros c q' Hc. cbn [Qabs Qabspol fst snd]. rewrite !vupd_eq. rewrite FI by lia. reflexivity.
      - cbn [Qabs Qabspol]. rewrite !vupd_eq. unfold get_extinction_matrix. rewrite !C74_axis_along_z by auto. auto. }
    apply (loop_hit _ P _ _ _ _ i); [lia| |exact HIT].
    intros j s Hj Ps. destruct (Nat.eq_dec i j) as [<-|N]; [apply HIT|].
    unfold P, body in *. cbv beta. cbn [Qabs Qabspol]. rewrite !(vupd_neq R _ j i) by auto. destruct account.
    + match goal with |- Qabs ?q i = _ /\ _ => enough (E: Qabs q i = Qabs s i /\ Qabspol q i = Qabspol s i) by (destruct E as (E1 & E2); rewrite E1, E2; exact Ps) end.
      apply (loop_keep _ (fun q => Qabs q i = Qabs s i /\ Qabspol q i = Qabspol s i)).
      * intros b q Hb Hq. apply (loop_keep _ (fun q => Qabs q i = Qabs s i /\ Qabspol q i = Qabspol s i)); auto. intros c q' Hc Hq'. cbn [Qabs Qabspol]. rewrite !(vupd_neq R _ j i) by auto. exact Hq'.
      * cbn [Qabs Qabspol]. rewrite !(vupd_neq R _ j i) by auto. auto.
    + cbn [Qabs Qabspol]. rewrite !(vupd_neq R _ j i) by auto. exact Ps.
  - intros j Hj. apply (loop_keep _ (fun q => Qabs q j = Qabs r j /\ Qabspol q j = Qabspol r j)); auto. intros i s Hi Ps. cbn [Qabs Qabspol]. rewrite !(vupd_neq R _ i j) by lia.
    destruct account.
    + apply (loop_keep _ (fun q => Qabs q j = Qabs r j /\ Qabspol q j = Qabspol r j)).
      * intros b q Hb Hq. apply (loop_keep _ (fun q => Qabs q j = Qabs r j /\ Qabspol q j = Qabspol r j)); auto. intros c q' Hc Hq'. cbn [Qabs Qabspol]. rewrite !(vupd_neq R _ i j) by lia. exact Hq'.
      * cbn [Qabs Qabspol]. rewrite !(vupd_neq R _ i j) by lia. exact Ps.
    + cbn [Qabs Qabspol]. rewrite !(vupd_neq R _ i j) by lia. exact Ps.
Qed.
Print Assumptions C78_absorption.

(* ---------------------------------------------- scattering matrix *)
(** The matrix for the outgoing direction (it, ip) is stored at it * nphi + ip, it maps the Stokes vector of light coming from theta_in, phi = 0 to
    that of the light scattered into that direction (C75). *)
Theorem C78_scattering : forall (gauss : bool) M nmax k T theta_in ntheta nphi x p th g ph h tabs r, (nmax <= M)%nat ->
  0 <= theta_in <= PI -> (gauss = true -> forall i, (i < ntheta)%nat -> -1 <= x i <= 1) ->
  let tables := pair_tables M 1 ntheta (scattering_in theta_in) (snd (scattering_theta gauss ntheta x th g)) tabs in
  let Z := scattering_task nmax k T ntheta nphi tables (snd (scattering_phi gauss nphi p ph h)) r in
  (forall it ip i j alpha, (it < ntheta)%nat -> (ip < nphi)%nat ->
     Z (it * nphi + ip)%nat i j =
     get_scattering_matrix nmax k T alpha 0 theta_in 0 (theta_sample gauss ntheta x it) (phi_sample gauss nphi p ip) i j) /\
  (forall l, (ntheta * nphi <= l)%nat -> Z l = r l).
Proof.
  intros gauss M nmax k T ti ntheta nphi x p th g ph h tabs r HM Ht Hx. cbv zeta.
  set (tables := pair_tables _ _ _ _ _ _). set (hh := snd (scattering_phi _ _ _ _ _)).
  assert (TI: row_ok (fst tables) 0 nmax ti).
  { intros m Hm c Hc. destruct (pair_tables_ok M 1 ntheta (scattering_in ti) (snd (scattering_theta gauss ntheta x th g)) tabs nmax m ltac:(lia) Hm) as (A & _). apply (A 0%nat ti); auto. apply scattering_in_ok; auto. }
  assert (TO: forall i, (i < ntheta)%nat -> row_ok (snd tables) i nmax (theta_sample gauss ntheta x i)).
  { intros i Hi m Hm c Hc. destruct (pair_tables_ok M 1 ntheta (scattering_in ti) (snd (scattering_theta gauss ntheta x th g)) tabs nmax m ltac:(lia) Hm) as (_ & A). apply (A i (theta_sample gauss ntheta x i)); auto.
    apply scattering_theta_ok; auto. }
  assert (RT: forall i, (i < ntheta)%nat -> 0 <= theta_sample gauss ntheta x i <= PI).
  { intros i Hi. unfold theta_sample. destruct gauss; [apply acos_bound|apply uniform_theta; auto]. }
  unfold scattering_task. split.
  - intros it ip i j al Hit Hip. unfold get_scattering_matrix. rewrite C74_axis_along_z by auto.
    set (Wf := fixed_axis nmax k T ti 0 (theta_sample gauss ntheta x it) (phi_sample gauss nphi p ip)).
    assert (FW: task_forward nmax k T (fst tables) 0 (snd tables) it (a_cos hh ip) (a_sin hh ip) = Wf).
    { unfold Wf. rewrite <- (forward_fixed nmax k T (fst tables) 0 (snd tables) it ti 0 _ (phi_sample gauss nphi p ip)) by auto.
      destruct (scattering_phi_ok gauss nphi p ph h ip Hip) as (A & B). cbv zeta in A, B. fold hh in A, B. rewrite A, B, Rminus_0_r. reflexivity. }
    set (P := fun q : nat -> nat -> nat -> R => q (it * nphi + ip)%nat i j = scattering Wf i j).
    assert (HIT: forall s, P (vupd s (it * nphi + ip)%nat (scattering (task_forward nmax k T (fst tables) 0 (snd tables) it (a_cos hh ip) (a_sin hh ip))))).
    { intros s. unfold P. rewrite vupd_eq, FW. reflexivity. }
    assert (KEEP: forall a b s, (a < ntheta)%nat -> (b < nphi)%nat -> P s -> P (vupd s (a * nphi + b)%nat (scattering (task_forward nmax k T (fst tables) 0 (snd tables) a (a_cos hh b) (a_sin hh b))))).
    { intros a b s Ha Hb Ps. destruct (Nat.eq_dec (it * nphi + ip) (a * nphi + b)) as [E|N].
      - assert (it = a) by nia. assert (ip = b) by nia. subst a b. apply HIT.
      - unfold P. rewrite vupd_neq by auto. exact Ps. }
    match goal with |- for_C ?lo ?hi ?b ?s _ i j = _ => change (P (for_C lo hi b s)) end.
    apply (loop_hit _ P _ _ _ _ it); [lia| |].
    + intros a s Ha Ps. apply loop_keep; auto. intros b s' Hb Ps'. apply KEEP; auto; lia.
    + intros s. apply (loop_hit _ P _ _ _ _ ip); [lia| |exact HIT]. intros b s' Hb Ps'. apply KEEP; auto; lia.
  - intros l Hl. apply (loop_keep _ (fun q => q l = r l)); auto. intros a s Ha Hs. apply (loop_keep _ (fun q => q l = r l)); auto. intros b s' Hb Hs'. rewrite vupd_neq by nia. exact Hs'.
Qed.
Print Assumptions C78_scattering.

(** The amplitude matrix the three tasks use is the series over all m from - nmax to nmax: for the directions of the extinction task, where e is the
    azimuth of the outgoing direction less that of the incoming one (zero there). *)
Theorem C78_series : forall nmax k T win i wout j ti to e, row_ok win i nmax ti -> row_ok wout j nmax to -> resolved ti -> resolved to ->
  task_forward nmax k T win i wout j (cos e) (sin e) =
  full_amplitude (full_T nmax T) (d_over_sin ti) (d_prime ti) (d_over_sin to) (d_prime to) prefactor nmax k e.
Proof.
  intros nmax k T win i wout j ti to e Hi Ho Ri Ro. pose proof (forward_fixed nmax k T win i wout j ti 0 to e Hi Ho) as F. rewrite Rminus_0_r in F. rewrite F, C74_series by auto. now rewrite Rminus_0_r.
Qed.
Print Assumptions C78_series.
(** the rows the tasks read are such rows *)
Theorem C78_rows : forall M nmax n0 n1 theta gout x p gin h tabs, (nmax <= M)%nat -> (forall i, (i < n0)%nat -> 0 <= theta i <= PI) -> (forall i, (i < n1)%nat -> -1 <= x i <= 1) ->
  let tables := pair_tables M n0 n1 (angle_grid n0 theta gout) (fst (absorption_internal n1 x p gin h)) tabs in
  (forall i, (i < n0)%nat -> row_ok (fst tables) i nmax (theta i)) /\ (forall i, (i < n1)%nat -> row_ok (snd tables) i nmax (acos (x i))).
Proof.
  intros M nmax n0 n1 theta gout x p gin h tabs HM Ht Hx tables. split; intros i Hi m Hm c Hc;
  destruct (pair_tables_ok M n0 n1 (angle_grid n0 theta gout) (fst (absorption_internal n1 x p gin h)) tabs nmax m ltac:(lia) Hm) as (A & B).
  - apply (A i (theta i)); auto. apply angle_grid_ok; auto.
  - apply (B i (acos (x i))); auto. apply internal_ok; auto.
Qed.
Print Assumptions C78_rows.

(** an electric dipole along z with T = -1, in light across and along its axis: three times the cross section of the sphere with ka = 1, all of it in
    the polarisation along the dipole, and nothing *)
Definition z_dipole : tmats := fun m i j => if ((m =? 0) && (i =? 1) && (j =? 1))%nat then RtoC (-1) else RtoC 0.
Definition two_angles (i : nat) : R := if (i =? 0)%nat then PI / 2 else 0.
Example C78_example : forall g w r, let Q := extinction_task 1 1 1 z_dipole 2 (extinction_tables 3 2 (angle_grid 2 two_angles g) w) r in
  Qext Q 0%nat = 3 /\ Qextpol Q 0%nat = 3 /\ Qext Q 1%nat = 0 /\ (forall i, (i < 2)%nat -> 0 <= two_angles i <= PI) /\ (forall i, (i < 2)%nat -> -1 <= (if (i =? 0)%nat then / 2 else - / 2) <= 1).
Proof.
  intros g w r Q. pose proof PI_RGT_0 as P. assert (A: forall i, (i < 2)%nat -> 0 <= two_angles i <= PI) by (intros i _; unfold two_angles; destruct (i =? 0)%nat; lra).
  destruct (C78_extinction 3 1 1 1 z_dipole 2 two_angles g w r ltac:(lia) A) as (H & _). fold Q in H.
  destruct (H 0%nat 0 ltac:(lia)) as (H1 & H2 & _). destruct (H 1%nat 0 ltac:(lia)) as (H3 & _).
  rewrite H1, H2, H3. unfold get_extinction_matrix. rewrite !C74_axis_along_z by (apply A; lia). unfold two_angles. cbn [Nat.eqb].
  assert (D: dir_of (PI / 2) 0 = mkDir 0 1 1 1 0).
  { unfold dir_of. cbv zeta. rewrite sin_PI2, cos_PI2, cos_0, sin_0. destruct (Req_EM_T 1 0); [lra|]. f_equal. field. }
  assert (D0: dir_of 0 0 = mkDir 1 0 9000 1 0).
  { unfold dir_of. cbv zeta. rewrite cos_0, sin_0. destruct (Req_EM_T 0 0); [|lra]. reflexivity. }
  unfold fixed_axis. rewrite D, D0.
  assert (W: forall d, s3 (forward 1 1 z_dipole d d) = RtoC 0 /\ s0 (forward 1 1 z_dipole d d) = (0, 3 / 2 * (snd (sinx_tables 1 d) 0%nat 1%nat) ^ 2)).
  { intros d. unfold forward, amplitude, for_C. cbn [Nat.add Nat.sub seq fold_left Nat.max]. unfold amp_term. cbn [Nat.eqb T dsin_in dsin_out tau_in tau_out cnn].
    unfold element, element_at, z_dipole. cbn [Nat.ltb Nat.leb Nat.mul Nat.add Nat.sub fst snd Nat.eqb andb]. cbn [s0 s1 s2 s3]. set (tau := snd (sinx_tables 1 d) 0%nat 1%nat).
    generalize (fst (sinx_tables 1 d) 1%nat 1%nat) (snd (sinx_tables 1 d) 1%nat 1%nat). intros u v. unfold class_c, for_C. cbn [Nat.sub seq fold_left]. cbn [INR].
    replace ((2 * 1 + 1) * (2 * 1 + 1) / (1 * 1 * (1 + 1) * (1 + 1))) with (3 / 2 * (3 / 2)) by field. rewrite sqrt_square by lra.
    unfold Cmult, Cplus, Ci, RtoC. cbn [fst snd]. split; apply injective_projections; cbn [fst snd]; field. }
  destruct (W (mkDir 0 1 1 1 0)) as (W3 & W0). destruct (W (mkDir 1 0 9000 1 0)) as (V3 & V0).
  unfold extinction. cbv zeta. rewrite W3, W0, V3, V0. unfold sinx_tables, wigner_dn_0m_sinx. cbn [ct st inv fst snd]. rewrite Rabs_R0, Rminus_0_r, Rabs_R1. replace (1 - 1) with 0 by ring. rewrite Rabs_R0.
  destruct (Rle_dec 1 (/ 10000000000)); [lra|]. destruct (Rle_dec 0 (/ 10000000000)); [|lra].
  unfold wigner_core, w0_loop. cbn [map Nat.sub nth fst snd s0 s1 s2 s3 Nat.eqb repeat].
  cbn [INR]. unfold Im, Cplus, Cminus, Copp, RtoC, Rsqr. cbn [snd fst].
  split; [field; lra|]. split; [unfold Cplus; cbn [snd fst]; field; lra|]. split; [field; lra|]. split; [exact A|]. intros i _. destruct (i =? 0)%nat; lra.
Qed.
