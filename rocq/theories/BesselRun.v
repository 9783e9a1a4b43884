(** What the routines of Bessel.v compute for a complex argument, and the relation between the two instances. *)
From Coq Require Import List Arith Lia Bool Reals Lra.
From Coquelicot Require Import Hierarchy Complex.
From Verif Require Import Matrix BesselSpec Bessel BesselFacts.
Import ListNotations.
Open Scope R_scope.

Lemma iszero_c : forall z, iszero complexes z = true <-> z = RtoC 0.
Proof.
  intros [x y]. cbn [iszero complexes Re Im fst snd]. unfold RtoC. destruct (Req_EM_T x 0) as [-> | N]; [destruct (Req_EM_T y 0) as [-> | N]|].
  - split; auto. - split; [discriminate|]. intros E. inversion E. contradiction. - split; [discriminate|]. intros E. inversion E. contradiction.
Qed.
Lemma iszero_cf : forall z, iszero complexes z = false <-> z <> RtoC 0.
Proof. intros z. rewrite <- iszero_c. destruct (iszero complexes z); split; congruence. Qed.
Lemma vupd_same : forall {X} (w : nat -> X) i v, vupd w i v i = v.
Proof. intros. unfold vupd. rewrite Nat.eqb_refl. auto. Qed.
Lemma vupd_other : forall {X} (w : nat -> X) i v k, k <> i -> vupd w i v k = w k.
Proof. intros. unfold vupd. apply Nat.eqb_neq in H. rewrite H. auto. Qed.

Section Complex.
Variable z : C.
Hypothesis Nz : z <> RtoC 0.

Lemma y_run : forall cap nmax y dy, (2 <= cap)%nat -> (nmax <= cap)%nat ->
  exists y' dy', spherical_y_ydy_array C complexes cap nmax z y dy = Done (y', dy') /\
  (forall i, (i < Nat.max 2 nmax)%nat -> y' i = Y (i + 1) z /\ dy' i = (Y i z - RtoC (INR i + 1) * / z * Y (i + 1) z)%C) /\
  (forall i, (Nat.max 2 nmax <= i)%nat -> y' i = y i /\ dy' i = dy i).
Proof.
  intros cap nmax y dy H2 Hc. unfold spherical_y_ydy_array. rewrite (proj2 (iszero_cf z) Nz).
  replace (cap <? 2)%nat with false by (symmetry; apply Nat.ltb_ge; lia).
  cbn [num add sub mul div neg ksin kcos complexes]. rewrite !vupd_same. rewrite !(vupd_other _ 1 _ 0) by lia. rewrite !vupd_same.
  set (y2 := vupd (vupd y 0 _) 1 _). set (dy2 := vupd (vupd dy 0 _) 1 _).
  pose proof (Y0_cos z Nz) as E0. pose proof (Y1_sincos z Nz) as E1. pose proof (Y_rec 0 z Nz) as R0. cbn [Nat.add INR] in R0.
  replace (2 * 0 + 3) with 3 in R0 by ring.
  assert (E2: Y 2 z = (RtoC 3 * / z * Y 1 z - Y 0 z)%C) by (rewrite <- R0; ring).
  assert (B: (forall i, (i < 2)%nat -> y2 i = Y (i + 1) z /\ dy2 i = (Y i z - RtoC (INR i + 1) * / z * Y (i + 1) z)%C) /\ (forall i, (2 <= i)%nat -> y2 i = y i /\ dy2 i = dy i)).
  { split.
    - intros i Hi. unfold y2, dy2. assert (i = 0 \/ i = 1)%nat as [-> | ->] by lia.
      + rewrite !(vupd_other _ 1 _ 0) by lia. rewrite !vupd_same. cbn [Nat.add INR]. rewrite Rplus_0_l. split; [rewrite E1; field; auto|].
        rewrite E0, E1. field. auto.
      + rewrite !vupd_same. cbn [Nat.add INR]. rewrite E2, E1, E0. replace (1 + 1) with 2 by ring. split; field; auto.
    - intros i Hi. unfold y2, dy2. rewrite !vupd_other by lia. auto. }
  clearbody y2 dy2.
  destruct (Nat.le_gt_cases nmax 2) as [L | L].
  { exists y2, dy2. unfold for_. replace (nmax - 2)%nat with 0%nat by lia. cbn [seq fold_left]. split; auto. replace (Nat.max 2 nmax) with 2%nat by lia. auto. }
  replace (Nat.max 2 nmax) with nmax by lia.
  pose (I := fun k (s : out ((nat -> C) * (nat -> C))) => exists y' dy', s = Done (y', dy') /\
    (forall i, (i < k)%nat -> y' i = Y (i + 1) z /\ dy' i = (Y i z - RtoC (INR i + 1) * / z * Y (i + 1) z)%C) /\
    (forall i, (k <= i)%nat -> y' i = y i /\ dy' i = dy i)).
  change (I nmax (for_ 2 nmax (y_step C complexes cap (RtoC 1 / z)%C) (Done (y2, dy2)))).
  apply (for_ind I); [lia | exists y2, dy2; auto |].
  intros k s Hk (y' & dy' & -> & A & A'). unfold y_step. replace (k <? cap)%nat with true by (symmetry; apply Nat.ltb_lt; lia).
  cbn [num add sub mul div neg ksin kcos complexes]. eexists; eexists. split; [reflexivity|]. rewrite vupd_same. rewrite (vupd_other _ k _ (k - 1)) by lia.
  destruct (A (k - 1)%nat ltac:(lia)) as (P1 & _). destruct (A (k - 2)%nat ltac:(lia)) as (P2 & _). rewrite P1, P2.
  replace (k - 1 + 1)%nat with k by lia. replace (k - 2 + 1)%nat with (k - 1)%nat by lia.
  pose proof (Y_rec (k - 1) z Nz) as R. replace (k - 1 + 2)%nat with (k + 1)%nat in R by lia. replace (k - 1 + 1)%nat with k in R by lia.
  replace (2 * INR (k - 1) + 3) with (2 * INR k + 1) in R by (rewrite minus_INR by lia; cbn [INR]; ring).
  assert (V: (RtoC (2 * INR k + 1) * (RtoC 1 / z) * Y k z - Y (k - 1) z)%C = Y (k + 1) z) by (replace (RtoC 1 / z)%C with (/ z)%C by (unfold Cdiv; ring); rewrite <- R; ring).
  rewrite V. split.
  - intros i Hi. destruct (Nat.eq_dec i k) as [-> | Ni].
    + rewrite !vupd_same. split; auto. unfold Cdiv. ring.
    + rewrite !vupd_other by auto. apply A. lia.
  - intros i Hi. rewrite !vupd_other by lia. apply A'. lia.
Qed.
Lemma y_short : forall cap nmax y dy, (cap < 2)%nat \/ (cap < nmax)%nat -> spherical_y_ydy_array C complexes cap nmax z y dy = OutOfBounds.
Proof.
  intros cap nmax y dy H. unfold spherical_y_ydy_array. rewrite (proj2 (iszero_cf z) Nz).
  destruct (Nat.ltb_spec cap 2) as [L | L]; auto. destruct H as [H | H]; [lia|].
  pose (I := fun k (r : out ((nat -> C) * (nat -> C))) => ((k <= cap)%nat -> exists a, r = Done a) /\ ((cap < k)%nat -> r = OutOfBounds)).
  match goal with |- for_ 2 nmax ?b ?x = _ => enough (E: I nmax (for_ 2 nmax b x)) by (apply (proj2 E); auto) end.
  apply (for_ind I); [lia | split; [eauto | lia] |]. intros k r Hk (A & B). split; intros Hc.
  - destruct (A ltac:(lia)) as ((a & b) & ->). unfold y_step. replace (k <? cap)%nat with true by (symmetry; apply Nat.ltb_lt; lia). eauto.
  - destruct (Nat.eq_dec k cap) as [-> | N].
    + destruct (A (le_n _)) as ((a & b) & ->). unfold y_step. rewrite Nat.ltb_irrefl. auto.
    + rewrite B by lia. reflexivity.
Qed.
Lemma j_short : forall N junk cap nmax j dj, (1 <= N)%nat -> (cap < 1)%nat \/ (cap < nmax)%nat \/ (N < nmax)%nat ->
  spherical_j_of C complexes N junk cap nmax z j dj = OutOfBounds \/ spherical_j_of C complexes N junk cap nmax z j dj = DivZero.
Proof.
  intros N junk cap nmax j dj HN H. unfold spherical_j_of. rewrite (proj2 (iszero_cf z) Nz).
  destruct (ratios C complexes N z junk) as [rho | |]; auto. left.
  destruct (Nat.ltb_spec cap 1) as [L | L]; auto. set (b := Nat.min cap N). assert (Hb: (b < nmax)%nat) by lia.
  pose (I := fun k (r : out ((nat -> C) * (nat -> C))) => ((k <= b)%nat -> exists a, r = Done a) /\ ((b < k)%nat -> r = OutOfBounds)).
  match goal with |- for_ 1 nmax ?f ?x = _ => enough (E: I nmax (for_ 1 nmax f x)) by (apply (proj2 E); auto) end.
  apply (for_ind I); [lia | split; [eauto | lia] |]. intros k r Hk (A & B). split; intros Hc.
  - destruct (A ltac:(lia)) as ((a & c) & ->). unfold j_step. replace (k <? cap)%nat with true by (symmetry; apply Nat.ltb_lt; lia).
    replace (k <? N)%nat with true by (symmetry; apply Nat.ltb_lt; lia). cbn [andb]. eauto.
  - destruct (Nat.eq_dec k b) as [-> | Nk].
    + destruct (A (le_n _)) as ((a & c) & ->). unfold j_step.
      replace ((b <? cap) && (b <? N))%nat with false; auto. symmetry. apply andb_false_iff. rewrite !Nat.ltb_ge. lia.
    + rewrite B by lia. reflexivity.
Qed.

(** the solution of the recurrence that vanishes at N + 1, downwards from there *)
Fixpoint back (N : nat) (k : nat) : C * C :=
  match k with
  | O => (RtoC 0, RtoC 1)
  | S k => let '(a, b) := back N k in (b, RtoC (2 * INR (N - k) + 1) * / z * b - a)%C
  end.
Definition q (N n : nat) : C := fst (back N (N + 1 - n)).
Lemma q_top : forall N, q N (N + 1) = RtoC 0 /\ q N N = RtoC 1.
Proof. intros N. unfold q. rewrite Nat.sub_diag. replace (N + 1 - N)%nat with 1%nat by lia. auto. Qed.
Lemma back_snd : forall N k, snd (back N k) = fst (back N (S k)).
Proof. intros N k. cbn [back]. destruct (back N k). auto. Qed.
Lemma q_rec : forall N n, (n + 1 <= N)%nat -> q N n = (RtoC (2 * INR (n + 1) + 1) * / z * q N (n + 1) - q N (n + 2))%C.
Proof.
  intros N n H. unfold q. replace (N + 1 - n)%nat with (S (N - n)) by lia. rewrite <- back_snd.
  replace (N - n)%nat with (S (N - (n + 1))) by lia. cbn [back]. replace (N + 1 - (n + 1))%nat with (S (N - (n + 1))) by lia. rewrite <- back_snd.
  replace (N + 1 - (n + 2))%nat with (N - (n + 1))%nat by lia.
  destruct (back N (N - (n + 1))) as (a, b). cbn [snd fst]. replace (N - (N - (n + 1)))%nat with (n + 1)%nat by lia. auto.
Qed.

Lemma ratios_run : forall N junk, (1 <= N)%nat ->
  (exists rho, ratios C complexes N z junk = Done rho /\ forall m, (m < N)%nat -> q N m <> RtoC 0 /\ rho m = (q N (m + 1) / q N m)%C) \/
  (ratios C complexes N z junk = DivZero /\ exists m, (m + 2 <= N)%nat /\ q N m = RtoC 0).
Proof.
  intros N junk HN. unfold ratios.
  pose (I := fun k (s : out (nat -> C)) =>
    (exists rho, s = Done rho /\ forall m, (N - k <= m < N)%nat -> q N m <> RtoC 0 /\ rho m = (q N (m + 1) / q N m)%C) \/
    (s = DivZero /\ exists m, (m + 2 <= N)%nat /\ q N m = RtoC 0)).
  match goal with |- context [for_ 1 N ?b ?s] => enough (E: I N (for_ 1 N b s)) end.
  { destruct E as [(rho & E & H) | E]; [left; exists rho; split; auto; intros m Hm; apply H; lia | right; auto]. }
  cbn [num div complexes]. destruct (q_top N) as (T1 & T2).
  assert (P: RtoC (2 * INR N + 1) <> RtoC 0) by (apply RtoC_nz; pose proof (pos_INR N); lra).
  apply (for_ind I); auto.
  - left. eexists. split; [reflexivity|]. intros m Hm. replace m with (N - 1)%nat by lia. rewrite vupd_same.
    rewrite (q_rec N (N - 1)) by lia. replace (N - 1 + 1)%nat with N by lia. replace (N - 1 + 2)%nat with (N + 1)%nat by lia. rewrite T1, T2.
    assert (X: (RtoC (2 * INR N + 1) * / z * RtoC 1 - RtoC 0)%C <> RtoC 0).
    { replace (RtoC (2 * INR N + 1) * / z * RtoC 1 - RtoC 0)%C with (RtoC (2 * INR N + 1) * / z)%C by ring. apply Cmult_neq_0; auto.
      intro E. assert (F: (z * / z)%C = RtoC 1) by (field; auto). rewrite E, Cmult_0_r in F. apply RtoC_inj in F. lra. }
    split; auto. field. repeat split; auto.
  - intros k s Hk [(rho & -> & A) | (-> & A)]; [|right; split; auto].
    unfold rho_step. cbn [num div mul sub complexes].
    destruct (A (N - k)%nat ltac:(lia)) as (Q1 & Q2).
    pose proof (q_rec N (N - k - 1) ltac:(lia)) as R. replace (N - k - 1 + 1)%nat with (N - k)%nat in R by lia. replace (N - k - 1 + 2)%nat with (N - k + 1)%nat in R by lia.
    assert (D: (RtoC (2 * INR (N - k) + 1) * (RtoC 1 / z) - rho (N - k)%nat)%C = (q N (N - k - 1) / q N (N - k))%C).
    { rewrite Q2, R. field. auto. }
    rewrite D. destruct (iszero complexes (q N (N - k - 1) / q N (N - k))%C) eqn:Z.
    + right. split; auto. exists (N - k - 1)%nat. split; [lia|]. apply iszero_c in Z.
      replace (q N (N - k - 1)) with (q N (N - k - 1) / q N (N - k) * q N (N - k))%C by (field; auto). rewrite Z. ring.
    + apply iszero_cf in Z. left. eexists. split; [reflexivity|].
      assert (Q0: q N (N - k - 1) <> RtoC 0) by (intro E; apply Z; rewrite E; unfold Cdiv; ring).
      intros m Hm. destruct (Nat.eq_dec m (N - k - 1)) as [-> | Nm].
      * rewrite vupd_same. split; auto. replace (N - k - 1 + 1)%nat with (N - k)%nat by lia. field. auto.
      * rewrite vupd_other by auto. apply A. lia.
Qed.

Lemma j_run : forall N junk cap nmax j dj, (1 <= N)%nat -> (1 <= cap)%nat -> (nmax <= cap)%nat -> (nmax <= N)%nat ->
  (exists j' dj', spherical_j_of C complexes N junk cap nmax z j dj = Done (j', dj') /\ q N 0 <> RtoC 0 /\
    (forall i, (i < Nat.max 1 nmax)%nat -> j' i = (J 0 z * q N (i + 1) / q N 0)%C /\
       dj' i = (J 0 z * q N i / q N 0 - RtoC (INR i + 1) * / z * (J 0 z * q N (i + 1) / q N 0))%C) /\
    (forall i, (Nat.max 1 nmax <= i)%nat -> j' i = j i /\ dj' i = dj i)) \/
  (spherical_j_of C complexes N junk cap nmax z j dj = DivZero /\ exists m, (m + 2 <= N)%nat /\ q N m = RtoC 0).
Proof.
  intros N junk cap nmax j dj HN H1 Hc Hm. unfold spherical_j_of. rewrite (proj2 (iszero_cf z) Nz).
  destruct (ratios_run N junk HN) as [(rho & E & H) | (E & H)]; rewrite E; [left | right; auto].
  replace (cap <? 1)%nat with false by (symmetry; apply Nat.ltb_ge; lia).
  cbn [num add sub mul div neg ksin kcos complexes]. rewrite !vupd_same.
  replace (csin z * (RtoC 1 / z))%C with (J 0 z) by (rewrite J0_sin by auto; field; auto).
  destruct (H 0%nat ltac:(lia)) as (Q0 & R0). cbn [Nat.add] in R0.
  set (j2 := vupd j 0 _). set (dj2 := vupd dj 0 _).
  assert (B: (forall i, (i < 1)%nat -> j2 i = (J 0 z * q N (i + 1) / q N 0)%C /\
       dj2 i = (J 0 z * q N i / q N 0 - RtoC (INR i + 1) * / z * (J 0 z * q N (i + 1) / q N 0))%C) /\ (forall i, (1 <= i)%nat -> j2 i = j i /\ dj2 i = dj i)).
  { split; intros i Hi; unfold j2, dj2.
    - replace i with 0%nat by lia. rewrite !vupd_same. rewrite R0. cbn [Nat.add INR]. rewrite Rplus_0_l. split; field; auto.
    - rewrite !vupd_other by lia. auto. }
  clearbody j2 dj2.
  destruct (Nat.le_gt_cases nmax 1) as [L | L].
  { exists j2, dj2. unfold for_. replace (nmax - 1)%nat with 0%nat by lia. cbn [seq fold_left]. split; auto. replace (Nat.max 1 nmax) with 1%nat by lia. destruct B. auto. }
  replace (Nat.max 1 nmax) with nmax by lia.
  pose (I := fun k (s : out ((nat -> C) * (nat -> C))) => exists j' dj', s = Done (j', dj') /\ q N 0 <> RtoC 0 /\
    (forall i, (i < k)%nat -> j' i = (J 0 z * q N (i + 1) / q N 0)%C /\
       dj' i = (J 0 z * q N i / q N 0 - RtoC (INR i + 1) * / z * (J 0 z * q N (i + 1) / q N 0))%C) /\
    (forall i, (k <= i)%nat -> j' i = j i /\ dj' i = dj i)).
  match goal with |- exists j' dj', ?e = _ /\ _ => change (I nmax e) end.
  apply (for_ind I); [lia | destruct B; exists j2, dj2; auto |].
  intros k s Hk (j' & dj' & -> & _ & A & A'). unfold j_step.
  replace (k <? cap)%nat with true by (symmetry; apply Nat.ltb_lt; lia). replace (k <? N)%nat with true by (symmetry; apply Nat.ltb_lt; lia). cbn [andb].
  cbn [num add sub mul div neg ksin kcos complexes]. eexists; eexists. split; [reflexivity|]. split; auto. rewrite vupd_same. rewrite (vupd_other _ k _ (k - 1)) by lia.
  destruct (A (k - 1)%nat ltac:(lia)) as (P1 & _). rewrite P1. replace (k - 1 + 1)%nat with k by lia.
  destruct (H k ltac:(lia)) as (Qk & Rk). rewrite Rk. split.
  - intros i Hi. destruct (Nat.eq_dec i k) as [-> | Ni].
    + rewrite !vupd_same. split; field; auto.
    + rewrite !vupd_other by auto. apply A. lia.
  - intros i Hi. rewrite !vupd_other by lia. apply A'. lia.
Qed.

(** the solution that starts from 0 and 1 *)
Lemma casorati : forall N p, p 0%nat = RtoC 0 -> p 1%nat = RtoC 1 ->
  (forall n, (n + 1 <= N)%nat -> (p n + p (n + 2)%nat = RtoC (2 * INR n + 3) * / z * p (n + 1)%nat)%C) -> q N 0 = p (N + 1)%nat.
Proof.
  intros N p P0 P1 H.
  assert (E: forall n, (n <= N)%nat -> (p n * q N (n + 1) - p (n + 1)%nat * q N n = - q N 0)%C).
  { induction n as [|n IH]; intros Hn; [rewrite P0; cbn [Nat.add]; rewrite P1; ring|].
    rewrite <- IH by lia. replace (S n + 1)%nat with (n + 2)%nat by lia. replace (S n) with (n + 1)%nat by lia.
    specialize (H n ltac:(lia)). pose proof (q_rec N n ltac:(lia)) as R.
    replace (2 * INR (n + 1) + 1) with (2 * INR n + 3) in R by (rewrite plus_INR; cbn [INR]; ring).
    rewrite R. replace (p (n + 2)%nat) with (RtoC (2 * INR n + 3) * / z * p (n + 1)%nat - p n)%C by (rewrite <- H; ring). ring. }
  specialize (E N (le_n _)). destruct (q_top N) as (T1 & T2). rewrite T1, T2 in E.
  transitivity (- - q N 0)%C; [ring|]. rewrite <- E. ring.
Qed.
Lemma truncation : forall N p, q N 0 <> RtoC 0 -> p 0%nat = RtoC 0 -> p 1%nat = RtoC 1 ->
  (forall n, (n + 1 <= N)%nat -> (p n + p (n + 2)%nat = RtoC (2 * INR n + 3) * / z * p (n + 1)%nat)%C) ->
  p (N + 1)%nat <> RtoC 0 /\ forall n, (n <= N + 1)%nat -> (J 0 z * q N n / q N 0 = J n z - J (N + 1) z * p n / p (N + 1)%nat)%C.
Proof.
  intros N p Q0 P0 P1 H. pose proof (casorati N p P0 P1 H) as E. assert (PN: p (N + 1)%nat <> RtoC 0) by congruence. split; auto.
  set (e := fun n => (J 0 z * q N n / q N 0 - J n z)%C).
  assert (X: forall n, (n <= N)%nat -> e n = (e 1%nat * p n)%C /\ e (n + 1)%nat = (e 1%nat * p (n + 1)%nat)%C).
  { induction n as [|n IH]; intros Hn.
    - cbn [Nat.add]. rewrite P0, P1. split; [unfold e; field; auto | ring].
    - destruct IH as (A & B); [lia|]. replace (S n + 1)%nat with (n + 2)%nat by lia. replace (S n) with (n + 1)%nat by lia. split; auto.
      specialize (H n ltac:(lia)). pose proof (q_rec N n ltac:(lia)) as R. pose proof (J_rec n z Nz) as JR.
      replace (2 * INR (n + 1) + 1) with (2 * INR n + 3) in R by (rewrite plus_INR; cbn [INR]; ring).
      replace (p (n + 2)%nat) with (RtoC (2 * INR n + 3) * / z * p (n + 1)%nat - p n)%C by (rewrite <- H; ring).
      transitivity (RtoC (2 * INR n + 3) * / z * e (n + 1)%nat - e n)%C; [|rewrite A, B; ring].
      unfold e. replace (J (n + 2) z) with (RtoC (2 * INR n + 3) * / z * J (n + 1) z - J n z)%C by (rewrite <- JR; ring).
      replace (q N (n + 2)) with (RtoC (2 * INR n + 3) * / z * q N (n + 1) - q N n)%C by (rewrite R; ring). field. auto. }
  assert (T: e (N + 1)%nat = (- J (N + 1) z)%C) by (unfold e; rewrite (proj1 (q_top N)); field; auto).
  assert (E1: e 1%nat = (- J (N + 1) z / p (N + 1)%nat)%C) by (rewrite <- T, (proj2 (X N (le_n _))); field; auto).
  intros n Hn. assert (En: e n = (e 1%nat * p n)%C) by (destruct (Nat.eq_dec n (N + 1)) as [-> | ?]; [apply (X N) | apply (X n)]; lia).
  transitivity (J n z + e n)%C; [unfold e; ring|]. rewrite En, E1. field. auto.
Qed.
End Complex.
