(** Rotations, specification side: Wigner's d-functions by Wigner's formula, and the relations needed to show that the orientation average of
    Align.v is an average over rotated particles: the rotation equation, orthogonality and completeness of the Clebsch-Gordan coefficients, and the
    Clebsch-Gordan series.  Nothing in this file is taken from the code. *)
From Coq Require Import ZArith Reals Lra Lia Arith Bool.
From Coquelicot Require Import Coquelicot.
From Verif Require Import Racah Legendre.
Open Scope R_scope.

(* ---------------------------------------------- sums *)
Fixpoint su (n : nat) (f : nat -> R) : R := match n with O => 0 | S k => su k f + f k end.
(** f(a) + ... + f(b) *)
Definition zu (a b : Z) (f : Z -> R) : R := su (Z.to_nat (b - a + 1)) (fun k => f (a + Z.of_nat k)%Z).
Lemma su_ext : forall n f g, (forall k, (k < n)%nat -> f k = g k) -> su n f = su n g.
Proof. induction n; intros f g H; cbn [su]; auto. rewrite (IHn f g) by (intros; apply H; lia). rewrite H by lia. auto. Qed.
Lemma su_plus : forall n f g, su n (fun k => f k + g k) = su n f + su n g.
Proof. induction n; intros; cbn [su]; [ring|]. rewrite IHn. ring. Qed.
Lemma su_scal : forall n a f, su n (fun k => a * f k) = a * su n f.
Proof. induction n; intros; cbn [su]; [ring|]. rewrite IHn. ring. Qed.
Lemma su_0 : forall n f, (forall k, (k < n)%nat -> f k = 0) -> su n f = 0.
Proof. induction n; intros f H; cbn [su]; auto. rewrite IHn by (intros; apply H; lia). rewrite H by lia. ring. Qed.
Lemma su_first : forall n f, su (S n) f = f 0%nat + su n (fun k => f (S k)).
Proof. induction n; intros; [cbn; ring|]. change (su (S (S n)) f) with (su (S n) f + f (S n)). rewrite IHn. cbn [su]. ring. Qed.
Lemma su_swap : forall n k f, su n (fun i => su k (f i)) = su k (fun j => su n (fun i => f i j)).
Proof. induction n; intros; cbn [su]; [rewrite su_0; auto|]. rewrite IHn, <- su_plus. apply su_ext. auto. Qed.
Lemma su_pick : forall n f q, (q < n)%nat -> (forall k, (k < n)%nat -> k <> q -> f k = 0) -> su n f = f q.
Proof.
  induction n; intros f q Hq H; [lia|]. cbn [su]. destruct (Nat.eq_dec q n) as [->|N].
  - rewrite su_0; [ring|]. intros k Hk. apply H; lia.
  - rewrite (IHn f q), (H n) by (try lia; intros; apply H; lia). ring.
Qed.
Lemma su_nonneg : forall n f, (forall k, (k < n)%nat -> 0 <= f k) -> 0 <= su n f.
Proof. induction n; intros f H; cbn [su]; [lra|]. apply Rplus_le_le_0_compat; [apply IHn; intros; apply H; lia | apply H; lia]. Qed.
Lemma su_nonneg_0 : forall n f, (forall k, (k < n)%nat -> 0 <= f k) -> su n f = 0 -> forall k, (k < n)%nat -> f k = 0.
Proof.
  induction n; intros f H E k Hk; [lia|]. cbn [su] in E. pose proof (su_nonneg n f ltac:(intros; apply H; lia)). pose proof (H n ltac:(lia)).
  destruct (Nat.eq_dec k n) as [->|N]; [lra|]. apply IHn; try lia; [intros; apply H; lia | lra].
Qed.
Lemma su_split : forall a b f, su (a + b) f = su a f + su b (fun k => f (a + k)%nat).
Proof. intros a. induction b; intros; [rewrite Nat.add_0_r; cbn; ring|]. rewrite Nat.add_succ_r. cbn [su]. rewrite IHb. ring. Qed.

Lemma zu_ext : forall a b f g, (forall k, (a <= k <= b)%Z -> f k = g k) -> zu a b f = zu a b g.
Proof. intros. unfold zu. apply su_ext. intros k Hk. apply H. lia. Qed.
Lemma zu_plus : forall a b f g, zu a b (fun k => f k + g k) = zu a b f + zu a b g.
Proof. intros. unfold zu. apply su_plus. Qed.
Lemma zu_scal : forall a b x f, zu a b (fun k => x * f k) = x * zu a b f.
Proof. intros. unfold zu. apply su_scal. Qed.
Lemma zu_0 : forall a b f, (forall k, (a <= k <= b)%Z -> f k = 0) -> zu a b f = 0.
Proof. intros a b f H. apply su_0. intros. apply H. lia. Qed.
Lemma zu_swap : forall a b c d f, zu a b (fun i => zu c d (f i)) = zu c d (fun j => zu a b (fun i => f i j)).
Proof. intros. unfold zu. apply su_swap. Qed.
Lemma zu_pick : forall a b f q, (a <= q <= b)%Z -> (forall k, (a <= k <= b)%Z -> k <> q -> f k = 0) -> zu a b f = f q.
Proof. intros a b f q Hq H. unfold zu. rewrite (su_pick _ _ (Z.to_nat (q - a))); [f_equal; lia | lia |]. intros k Hk N. apply H; lia. Qed.
Lemma zu_shift : forall a b f, zu a b (fun k => f (k + 1)%Z) = zu (a + 1) (b + 1) f.
Proof. intros. unfold zu. replace (b + 1 - (a + 1) + 1)%Z with (b - a + 1)%Z by lia. apply su_ext. intros. f_equal. lia. Qed.
(** the sum over a larger range where f vanishes outside *)
Lemma zu_widen : forall a b a' b' f, (a' <= a)%Z -> (b <= b')%Z -> (forall k, (a' <= k <= b')%Z -> ~ (a <= k <= b)%Z -> f k = 0) -> zu a b f = zu a' b' f.
Proof.
  intros a b a' b' f Ha Hb H. destruct (Z_lt_le_dec b a) as [E|E].
  - rewrite (zu_0 a b) by (intros; lia). symmetry. apply zu_0. intros k Hk. apply H; lia.
  - unfold zu. replace (Z.to_nat (b' - a' + 1)) with (Z.to_nat (a - a') + (Z.to_nat (b - a + 1) + Z.to_nat (b' - b)))%nat by lia. rewrite !su_split.
    rewrite (su_0 (Z.to_nat (a - a'))) by (intros; apply H; lia). rewrite (su_0 (Z.to_nat (b' - b))) by (intros; apply H; lia).
    rewrite Rplus_0_l, Rplus_0_r. apply su_ext. intros. f_equal. lia.
Qed.
(** shifting the index of a sum over a symmetric range *)
Lemma zu_step : forall n f, (0 <= n)%Z -> f (- n)%Z = 0 -> f (n + 1)%Z = 0 -> zu (- n) n (fun k => f (k + 1)%Z) = zu (- n) n f.
Proof.
  intros n f Hn A B. rewrite zu_shift. transitivity (zu (- n) (n + 1) f).
  - apply zu_widen; try lia. intros k Hk N. replace k with (- n)%Z by lia. auto.
  - symmetry. apply zu_widen; try lia. intros k Hk N. replace k with (n + 1)%Z by lia. auto.
Qed.

(* ---------------------------------------------- an orthonormal square system is complete *)
Definition del (i j : nat) : R := if (i =? j)%nat then 1 else 0.
Lemma del_same : forall i, del i i = 1.
Proof. intros. unfold del. rewrite Nat.eqb_refl. auto. Qed.
Lemma del_other : forall i j, i <> j -> del i j = 0.
Proof. intros i j H. unfold del. apply Nat.eqb_neq in H. rewrite H. auto. Qed.
Lemma complete : forall k (U : nat -> nat -> R), (forall i j, (i < k)%nat -> (j < k)%nat -> su k (fun p => U i p * U j p) = del i j) ->
  forall p q, (p < k)%nat -> (q < k)%nat -> su k (fun i => U i p * U i q) = del p q.
Proof.
  intros k U O.
  set (K := fun p q => su k (fun i => U i p * U i q)).
  assert (KK: forall p q, (p < k)%nat -> (q < k)%nat -> su k (fun r => K p r * K q r) = K p q).
  { intros p q Hp Hq. unfold K.
    transitivity (su k (fun r => su k (fun i => su k (fun j => U i p * U j q * (U i r * U j r))))).
    { apply su_ext. intros r Hr. rewrite (su_ext k (fun i => su k (fun j => U i p * U j q * (U i r * U j r))) (fun i => su k (fun j => U j q * U j r) * (U i p * U i r))).
      - rewrite su_scal. ring.
      - intros i Hi. rewrite <- (Rmult_comm (U i p * U i r)), <- su_scal. apply su_ext. intros. ring. }
    rewrite su_swap. apply su_ext. intros i Hi. rewrite su_swap.
    transitivity (su k (fun j => U i p * U j q * del i j)).
    { apply su_ext. intros j Hj. rewrite su_scal, O by auto. auto. }
    rewrite (su_pick _ _ i) by (auto; intros; rewrite del_other by auto; ring). rewrite del_same. ring. }
  assert (KS: forall p q, K p q = K q p) by (intros; unfold K; apply su_ext; intros; ring).
  assert (B: forall p, (p < k)%nat -> su k (fun r => (del p r - K p r) * (del p r - K p r)) = 1 - K p p).
  { intros p Hp. transitivity (su k (fun r => del p r * del p r + (-2 * (del p r * K p r) + K p r * K p r))); [apply su_ext; intros; ring|].
    rewrite su_plus, su_plus, su_scal, KK by auto.
    rewrite (su_pick k (fun r => del p r * del p r) p) by (auto; intros; rewrite del_other by auto; ring).
    rewrite (su_pick k (fun r => del p r * K p r) p) by (auto; intros; rewrite del_other by auto; ring). rewrite del_same. ring. }
  assert (TR: su k (fun p => 1 - K p p) = 0).
  { transitivity (su k (fun p => 1 + -1 * K p p)); [apply su_ext; intros; ring|]. rewrite su_plus, su_scal. unfold K. rewrite su_swap.
    rewrite (su_ext _ (fun j => su k (fun i => U j i * U j i)) (fun _ => 1)) by (intros; rewrite O, del_same by auto; auto). ring. }
  assert (Z0: forall p, (p < k)%nat -> 1 - K p p = 0).
  { apply su_nonneg_0; auto. intros p Hp. rewrite <- B by auto. apply su_nonneg. intros. apply Rle_0_sqr. }
  intros p q Hp Hq. assert (E: (del p q - K p q) * (del p q - K p q) = 0).
  { apply (su_nonneg_0 k (fun r => (del p r - K p r) * (del p r - K p r))); auto; [intros; apply Rle_0_sqr|]. rewrite B by auto. auto. }
  apply Rmult_integral in E. fold (K p q). destruct E; lra.
Qed.

(* ---------------------------------------------- Clebsch-Gordan coefficients without boundaries *)
Definition c (n m : Z) : R := sqrt (IZR (n + m + 1) * IZR (n - m)).
Definition inside (n m : Z) : bool := (- n <=? m)%Z && (m <=? n)%Z.
(** <n1 m1 n2 m2 | N m1+m2>, zero where this is not defined *)
Definition cg (n1 n2 N m1 m2 : Z) : R :=
  if inside n1 m1 && inside n2 m2 && inside N (m1 + m2) then clebsch_gordan n1 m1 n2 m2 N (m1 + m2) else 0.
Lemma inside_true : forall n m, inside n m = true <-> (- n <= m <= n)%Z.
Proof. intros. unfold inside. rewrite andb_true_iff, !Z.leb_le. tauto. Qed.
Lemma cg_in : forall n1 n2 N m1 m2, (- n1 <= m1 <= n1)%Z -> (- n2 <= m2 <= n2)%Z -> (- N <= m1 + m2 <= N)%Z -> cg n1 n2 N m1 m2 = clebsch_gordan n1 m1 n2 m2 N (m1 + m2).
Proof. intros. unfold cg. rewrite (proj2 (inside_true n1 m1)), (proj2 (inside_true n2 m2)), (proj2 (inside_true N (m1 + m2))) by auto. auto. Qed.
Lemma cg_out : forall n1 n2 N m1 m2, ~ ((- n1 <= m1 <= n1)%Z /\ (- n2 <= m2 <= n2)%Z /\ (- N <= m1 + m2 <= N)%Z) -> cg n1 n2 N m1 m2 = 0.
Proof.
  intros n1 n2 N m1 m2 H. unfold cg. destruct (inside n1 m1) eqn:A; auto. destruct (inside n2 m2) eqn:B; auto. destruct (inside N (m1 + m2)) eqn:D; auto.
  apply inside_true in A, B, D. tauto.
Qed.
Lemma c_zero : forall n m, (IZR (n + m + 1) * IZR (n - m) <= 0) -> c n m = 0.
Proof. intros. unfold c. apply sqrt_neg_0. auto. Qed.
Lemma c_out : forall n m, (0 <= n)%Z -> ~ (- n <= m < n)%Z -> c n m = 0.
Proof.
  intros n m Hn H. apply c_zero. rewrite <- mult_IZR. apply IZR_le. destruct (Z_lt_le_dec m (- n)).
  - apply Z.mul_nonpos_nonneg; lia.
  - apply Z.mul_nonneg_nonpos; lia.
Qed.
Lemma c_sq : forall n m, (- n - 1 <= m <= n)%Z -> c n m * c n m = IZR (n * (n + 1) - m * (m + 1)).
Proof. intros n m H. unfold c. rewrite sqrt_sqrt; [rewrite <- mult_IZR; f_equal; ring|]. rewrite <- mult_IZR. apply IZR_le. apply Z.mul_nonneg_nonneg; lia. Qed.
Lemma c_mirror : forall n m, c n (- m) = c n (m - 1).
Proof. intros. unfold c. replace (n + - m + 1)%Z with (n - (m - 1))%Z by lia. replace (n - - m)%Z with (n + (m - 1) + 1)%Z by lia. f_equal. ring. Qed.

Lemma sgn_sq : forall k, (-1) ^ k * (-1) ^ k = 1.
Proof. intros. rewrite <- pow_add. replace (k + k)%nat with (2 * k)%nat by lia. rewrite pow_mult. replace ((-1) ^ 2) with 1 by ring. apply pow1. Qed.
Section Coupling.
Variables n1 n2 N : Z.
Hypothesis H1 : (0 <= n1)%Z.
Hypothesis H2 : (0 <= n2)%Z.
Hypothesis HN : (Z.abs (n1 - n2) <= N <= n1 + n2)%Z.
Lemma cg_mirror : forall m1 m2, cg n1 n2 N (- m1) (- m2) = (-1) ^ Z.to_nat (n1 + n2 - N) * cg n1 n2 N m1 m2.
Proof.
  intros m1 m2. destruct (inside n1 m1 && inside n2 m2 && inside N (m1 + m2)) eqn:E.
  - rewrite !andb_true_iff, !inside_true in E. destruct E as ((A & B) & D). rewrite !cg_in by lia. rewrite <- cg_symmetry by lia. f_equal. lia.
  - rewrite !cg_out; [ring| |]; intros (A & B & D); cut (inside n1 m1 && inside n2 m2 && inside N (m1 + m2) = true); try congruence; rewrite !andb_true_iff, !inside_true; lia.
Qed.
(** the top state is annihilated *)
Lemma cg_top : forall m1 m2, (m1 + m2 = N + 1)%Z -> c n1 (m1 - 1) * cg n1 n2 N (m1 - 1) m2 + c n2 (m2 - 1) * cg n1 n2 N m1 (m2 - 1) = 0.
Proof.
  intros m1 m2 E. destruct (Z_lt_le_dec n1 m1) as [A|A]; [|destruct (Z_lt_le_dec n2 m2) as [B|B]].
  - rewrite (cg_out n1 n2 N m1) by lia. destruct (Z.eq_dec m1 (n1 + 1)) as [->|X]; [|rewrite cg_out by lia; ring].
    rewrite (c_out n1) by lia. ring.
  - rewrite (cg_out n1 n2 N (m1 - 1)) by lia. destruct (Z.eq_dec m2 (n2 + 1)) as [->|X]; [|rewrite cg_out by lia; ring].
    rewrite (c_out n2) by lia. ring.
  - assert (m1 >= N + 1 - n2 /\ m2 >= N + 1 - n1)%Z as (A' & B') by lia.
    rewrite !cg_in by lia. replace (m1 - 1 + m2)%Z with N by lia. replace (m1 + (m2 - 1))%Z with N by lia.
    pose proof (cg_top_step n1 (m1 - 1) n2 N ltac:(lia) HN ltac:(lia)) as T.
    replace m2 with (N + 1 - m1)%Z by lia. replace (N - (m1 - 1))%Z with (N + 1 - m1)%Z in T by lia. replace (m1 - 1 + 1)%Z with m1 in T by lia.
    replace (N + 1 - m1 - 1)%Z with (N - m1)%Z by lia. unfold c.
    replace (n1 + (m1 - 1) + 1)%Z with (n1 + m1)%Z by lia. replace (n1 + (m1 - 1) + 1)%Z with (n1 + m1)%Z in T by lia.
    replace (n2 - N + (m1 - 1) + 1)%Z with (n2 - (N - m1))%Z in T by lia. replace (n2 + N - (m1 - 1))%Z with (n2 + (N - m1) + 1)%Z in T by lia.
    rewrite (Rmult_comm (IZR (n1 + m1))), (Rmult_comm (IZR (n2 + (N - m1) + 1))). rewrite T. ring.
Qed.
(** lowering and raising *)
Lemma cg_lower : forall m1 m2, c N (m1 + m2) * cg n1 n2 N m1 m2 = c n1 m1 * cg n1 n2 N (m1 + 1) m2 + c n2 m2 * cg n1 n2 N m1 (m2 + 1).
Proof.
  intros m1 m2. destruct (Z_lt_le_dec m1 (- n1)); [rewrite (cg_out n1 n2 N m1 m2), (cg_out n1 n2 N m1 (m2 + 1)), (c_out n1 m1) by lia; ring|].
  destruct (Z_lt_le_dec n1 m1); [rewrite (cg_out n1 n2 N m1 m2), (cg_out n1 n2 N m1 (m2 + 1)), (c_out n1 m1) by lia; ring|].
  destruct (Z_lt_le_dec m2 (- n2)); [rewrite (cg_out n1 n2 N m1 m2), (cg_out n1 n2 N (m1 + 1) m2), (c_out n2 m2) by lia; ring|].
  destruct (Z_lt_le_dec n2 m2); [rewrite (cg_out n1 n2 N m1 m2), (cg_out n1 n2 N (m1 + 1) m2), (c_out n2 m2) by lia; ring|].
  destruct (Z_lt_le_dec (m1 + m2) (- N - 1)); [rewrite !cg_out by lia; ring|].
  destruct (Z_le_gt_dec N (m1 + m2)); [rewrite (cg_out n1 n2 N (m1 + 1) m2), (cg_out n1 n2 N m1 (m2 + 1)), (c_out N) by lia; ring|].
  destruct (Z.eq_dec (m1 + m2) (- N - 1)) as [E|E].
  - rewrite (cg_out n1 n2 N m1 m2) by lia. pose proof (cg_top (- m1) (- m2) ltac:(lia)) as T.
    replace (- m1 - 1)%Z with (- (m1 + 1))%Z in T by lia. replace (- m2 - 1)%Z with (- (m2 + 1))%Z in T by lia. rewrite !cg_mirror in T.
    rewrite !c_mirror in T. replace (m1 + 1 - 1)%Z with m1 in T by lia. replace (m2 + 1 - 1)%Z with m2 in T by lia.
    rewrite Rmult_0_r. symmetry. apply Rmult_eq_reg_l with ((-1) ^ Z.to_nat (n1 + n2 - N)); [|apply pow_nonzero; lra]. rewrite Rmult_0_r. rewrite <- T. ring.
  - rewrite (cg_in n1 n2 N m1 m2) by lia. unfold c at 1. rewrite cg_ladder by lia. f_equal.
    + destruct (Z.leb_spec (m1 + 1) n1); [rewrite cg_in by lia; unfold c; do 2 f_equal; lia | rewrite cg_out by lia; ring].
    + destruct (Z.leb_spec (m2 + 1) n2); [rewrite cg_in by lia; unfold c; do 2 f_equal; lia | rewrite cg_out by lia; ring].
Qed.
Lemma cg_raise : forall m1 m2, c N (m1 + m2 - 1) * cg n1 n2 N m1 m2 = c n1 (m1 - 1) * cg n1 n2 N (m1 - 1) m2 + c n2 (m2 - 1) * cg n1 n2 N m1 (m2 - 1).
Proof.
  intros m1 m2. pose proof (cg_lower (- m1) (- m2)) as L. replace (- m1 + - m2)%Z with (- (m1 + m2))%Z in L by lia.
  replace (- m1 + 1)%Z with (- (m1 - 1))%Z in L by lia. replace (- m2 + 1)%Z with (- (m2 - 1))%Z in L by lia. rewrite !c_mirror, !cg_mirror in L.
  apply Rmult_eq_reg_l with ((-1) ^ Z.to_nat (n1 + n2 - N)); [|apply pow_nonzero; lra]. rewrite Rmult_plus_distr_l. etransitivity; [|etransitivity; [exact L|]]; ring.
Qed.
End Coupling.

(* ---------------------------------------------- orthogonality and completeness *)
Section Orthogonal.
Variables n1 n2 : Z.
Hypothesis H1 : (0 <= n1)%Z.
Hypothesis H2 : (0 <= n2)%Z.
Definition ip (N N' M : Z) : R := zu (- n1) n1 (fun m => cg n1 n2 N m (M - m) * cg n1 n2 N' m (M - m)).
Lemma ip_step : forall N N' M, (Z.abs (n1 - n2) <= N <= n1 + n2)%Z -> (Z.abs (n1 - n2) <= N' <= n1 + n2)%Z -> c N' M * ip N N' M = c N M * ip N N' (M + 1).
Proof.
  intros N N' M HN HN'. unfold ip. rewrite <- !zu_scal.
  transitivity (zu (- n1) n1 (fun m => (fun k => c n1 (k - 1) * cg n1 n2 N (k - 1) (M - (k - 1)) * cg n1 n2 N' k (M + 1 - k)) (m + 1)%Z) +
    zu (- n1) n1 (fun m => c n2 (M - m) * cg n1 n2 N m (M - m) * cg n1 n2 N' m (M + 1 - m))).
  - rewrite <- zu_plus. apply zu_ext. intros m Hm. cbv beta. pose proof (cg_lower n1 n2 N' H1 H2 HN' m (M - m)) as L. replace (m + (M - m))%Z with M in L by lia.
    transitivity (cg n1 n2 N m (M - m) * (c N' M * cg n1 n2 N' m (M - m))); [ring|]. rewrite L.
    replace (m + 1 - 1)%Z with m by lia. replace (M + 1 - (m + 1))%Z with (M - m)%Z by lia. replace (M - m + 1)%Z with (M + 1 - m)%Z by lia. ring.
  - rewrite (zu_step n1 (fun k => c n1 (k - 1) * cg n1 n2 N (k - 1) (M - (k - 1)) * cg n1 n2 N' k (M + 1 - k))); [|auto|rewrite (c_out n1) by lia; ring | rewrite (cg_out n1 n2 N') by lia; ring].
    rewrite <- zu_plus. apply zu_ext. intros m Hm. pose proof (cg_raise n1 n2 N H1 H2 HN m (M + 1 - m)) as L.
    replace (m + (M + 1 - m) - 1)%Z with M in L by lia. replace (M - (m - 1))%Z with (M + 1 - m)%Z by lia. replace (M + 1 - m - 1)%Z with (M - m)%Z in L by lia.
    rewrite <- Rmult_assoc, L. ring.
Qed.
Lemma ip_sym : forall N N' M, ip N N' M = ip N' N M.
Proof. intros. unfold ip. apply zu_ext. intros. ring. Qed.
Lemma ip_other : forall N N' M, (Z.abs (n1 - n2) <= N <= n1 + n2)%Z -> (Z.abs (n1 - n2) <= N' <= n1 + n2)%Z -> N <> N' -> ip N N' M = 0.
Proof.
  intros N N' M HN HN' NE. destruct (Z_lt_le_dec N (Z.abs M)); [unfold ip; apply zu_0; intros; rewrite (cg_out n1 n2 N) by lia; ring|].
  destruct (Z_lt_le_dec N' (Z.abs M)); [unfold ip; apply zu_0; intros; rewrite (cg_out n1 n2 N') by lia; ring|].
  pose proof (ip_step N N' M HN HN') as A. pose proof (ip_step N' N M HN' HN) as B. rewrite !(ip_sym N' N) in B.
  assert (E: (c N' M * c N' M - c N M * c N M) * ip N N' M = 0).
  { transitivity (c N' M * (c N' M * ip N N' M) - c N M * (c N M * ip N N' M)); [ring|]. rewrite A, B. ring. }
  apply Rmult_integral in E. destruct E as [E|E]; auto. exfalso. rewrite !c_sq in E by lia. rewrite <- minus_IZR in E. apply eq_IZR in E. nia.
Qed.
Lemma ip_top : forall N, (Z.abs (n1 - n2) <= N <= n1 + n2)%Z -> ip N N N = 1.
Proof.
  intros N HN. rewrite <- (cg_top_norm n1 n2 N ltac:(lia) HN). unfold ip.
  rewrite <- (zu_widen (N - n2) n1) by (try lia; intros k Hk X; rewrite (cg_out n1 n2 N) by lia; ring).
  assert (R: forall k f, su (S k) f = sum_f_R0 f k) by (induction k; intros; [cbn; ring | cbn [su sum_f_R0] in *; rewrite IHk; auto]).
  unfold zu. replace (Z.to_nat (n1 - (N - n2) + 1)) with (S (Z.to_nat (n1 + n2 - N))) by lia. rewrite R, sum_rev. apply sum_eq. intros p Hp.
  replace (N - n2 + Z.of_nat (Z.to_nat (n1 + n2 - N) - p))%Z with (n1 - Z.of_nat p)%Z by lia. rewrite !cg_in by lia.
  replace (n1 - Z.of_nat p + (N - (n1 - Z.of_nat p)))%Z with N by lia. reflexivity.
Qed.
Lemma ip_same : forall N M, (Z.abs (n1 - n2) <= N <= n1 + n2)%Z -> (- N <= M <= N)%Z -> ip N N M = 1.
Proof.
  intros N M HN HM. assert (G: forall k, (Z.of_nat k <= 2 * N)%Z -> ip N N (N - Z.of_nat k) = 1).
  { induction k; intros Hk; [rewrite Z.sub_0_r; apply ip_top; auto|]. pose proof (ip_step N N (N - Z.of_nat (S k)) HN HN) as A.
    replace (N - Z.of_nat (S k) + 1)%Z with (N - Z.of_nat k)%Z in A by lia. rewrite IHk in A by lia.
    assert (NZ: c N (N - Z.of_nat (S k)) <> 0). { unfold c. apply Rgt_not_eq, sqrt_lt_R0. apply Rmult_lt_0_compat; apply IZR_lt; lia. }
    apply Rmult_eq_reg_l with (c N (N - Z.of_nat (S k))); auto. }
  specialize (G (Z.to_nat (N - M)) ltac:(lia)). rewrite Z2Nat.id in G by lia. replace (N - (N - M))%Z with M in G by lia. auto.
Qed.
Theorem cg_complete : forall m1 m2 k1 k2, (- n1 <= m1 <= n1)%Z -> (- n2 <= m2 <= n2)%Z -> (- n1 <= k1 <= n1)%Z -> (- n2 <= k2 <= n2)%Z -> (m1 + m2 = k1 + k2)%Z ->
  zu (Z.abs (n1 - n2)) (n1 + n2) (fun N => cg n1 n2 N m1 m2 * cg n1 n2 N k1 k2) = if (m1 =? k1)%Z then 1 else 0.
Proof.
  intros m1 m2 k1 k2 A1 A2 B1 B2 E. set (M := (m1 + m2)%Z).
  set (lo := Z.max (- n1) (M - n2)). set (hi := Z.min n1 (M + n2)). set (Lo := Z.max (Z.abs (n1 - n2)) (Z.abs M)).
  assert (L: (lo <= m1 <= hi)%Z /\ (lo <= k1 <= hi)%Z /\ (hi - lo = n1 + n2 - Lo)%Z) by (unfold lo, hi, Lo, M; lia). destruct L as (L1 & L2 & L3).
  set (k := Z.to_nat (hi - lo + 1)). set (U := fun i p : nat => cg n1 n2 (Lo + Z.of_nat i) (lo + Z.of_nat p) (M - (lo + Z.of_nat p))).
  assert (O: forall i j, (i < k)%nat -> (j < k)%nat -> su k (fun p => U i p * U j p) = del i j).
  { intros i j Hi Hj. transitivity (ip (Lo + Z.of_nat i) (Lo + Z.of_nat j) M).
    - unfold ip. rewrite <- (zu_widen lo hi) by (unfold lo, hi; try lia; intros q Hq X; rewrite cg_out by lia; ring). unfold zu, U, k. apply su_ext. auto.
    - destruct (Nat.eq_dec i j) as [->|X]; [rewrite del_same; apply ip_same; lia | rewrite del_other by auto; apply ip_other; lia]. }
  pose proof (complete k U O (Z.to_nat (m1 - lo)) (Z.to_nat (k1 - lo)) ltac:(lia) ltac:(lia)) as K.
  transitivity (su k (fun i => U i (Z.to_nat (m1 - lo)) * U i (Z.to_nat (k1 - lo)))).
  - rewrite <- (zu_widen Lo (n1 + n2)) by (try lia; intros q Hq X; rewrite (cg_out n1 n2 q m1) by (unfold Lo, M in *; lia); ring).
    unfold zu. replace (Z.to_nat (n1 + n2 - Lo + 1)) with k by lia. apply su_ext. intros i Hi. unfold U. f_equal; f_equal; lia.
  - rewrite K. unfold del. destruct (Z.eqb_spec m1 k1) as [->|X]; [rewrite Nat.eqb_refl; auto|]. destruct (Nat.eqb_spec (Z.to_nat (m1 - lo)) (Z.to_nat (k1 - lo))); auto. lia.
Qed.
End Orthogonal.

(* ---------------------------------------------- Wigner's d-functions *)
Definition pw (x : R) (z : Z) : R := x ^ Z.to_nat z.
(** one term of Wigner's formula without its sign; C, S: cosine and sine of half the angle *)
Definition wterm (n m m' : Z) (C S : R) (s : Z) : R :=
  pw C (2 * n + m' - m - 2 * s) * pw S (m - m' + 2 * s) * (ifact (n + m' - s) * ifact s * ifact (m - m' + s) * ifact (n - m - s)).
(** d^n_{m m'}(beta) (Wigner 1931), zero where this is not defined *)
Definition wd (n m m' : Z) (beta : R) : R :=
  if inside n m && inside n m' then
    sqrt (zfact (n + m) * zfact (n - m)) * sqrt (zfact (n + m') * zfact (n - m')) *
    su (Z.to_nat (2 * n + 1)) (fun s => (-1) ^ s * wterm n m m' (cos (beta / 2)) (sin (beta / 2)) (Z.of_nat s))
  else 0.
Lemma pw_cos : forall a x, (0 <= a)%Z -> is_derive (fun b => pw (cos (b / 2)) a) x (- (1 / 2) * IZR a * pw (cos (x / 2)) (a - 1) * sin (x / 2)).
Proof.
  intros a x H. unfold pw. auto_derive; auto. destruct (Z.eq_dec a 0) as [->|N]; [cbn; ring|].
  replace (Z.to_nat (a - 1)) with (pred (Z.to_nat a)) by lia. rewrite INR_IZR_INZ, Z2Nat.id by lia. unfold Rdiv. rewrite Rmult_1_l. ring.
Qed.
Lemma pw_sin : forall a x, (0 <= a)%Z -> is_derive (fun b => pw (sin (b / 2)) a) x (1 / 2 * IZR a * pw (sin (x / 2)) (a - 1) * cos (x / 2)).
Proof.
  intros a x H. unfold pw. auto_derive; auto. destruct (Z.eq_dec a 0) as [->|N]; [cbn; ring|].
  replace (Z.to_nat (a - 1)) with (pred (Z.to_nat a)) by lia. rewrite INR_IZR_INZ, Z2Nat.id by lia. unfold Rdiv. rewrite Rmult_1_l. ring.
Qed.
Lemma pw_up : forall x a, (0 <= a)%Z -> pw x (a + 1) = pw x a * x.
Proof. intros. unfold pw. replace (Z.to_nat (a + 1)) with (S (Z.to_nat a)) by lia. cbn [pow]. ring. Qed.
Lemma wterm_out : forall n m m' C S s, (n + m' - s < 0 \/ s < 0 \/ m - m' + s < 0 \/ n - m - s < 0)%Z -> wterm n m m' C S s = 0.
Proof. intros n m m' C S s H. unfold wterm. destruct H as [H|[H|[H|H]]]; rewrite (ifact_neg _ H); ring. Qed.
Lemma wterm_derive : forall n m m' s x, 
  is_derive (fun b => wterm n m m' (cos (b / 2)) (sin (b / 2)) s) x (1 / 2 * 
    ((IZR (n - m + 1 - s) * wterm n (m - 1) m' (cos (x / 2)) (sin (x / 2)) s - IZR (s + 1) * wterm n (m - 1) m' (cos (x / 2)) (sin (x / 2)) (s + 1)) 
    - (IZR (m - m' + s + 1) * wterm n (m + 1) m' (cos (x / 2)) (sin (x / 2)) s - IZR (n + m' - s + 1) * wterm n (m + 1) m' (cos (x / 2)) (sin (x / 2)) (s - 1)))).
Proof.
  intros n m m' s x. set (CC := cos (x / 2)). set (SS := sin (x / 2)).
  set (u := (n + m' - s)%Z). set (v := (n - m - s)%Z). set (y := (m - m' + s)%Z).
  assert (Ea: (2 * n + m' - m - 2 * s = u + v)%Z) by (unfold u, v; lia). assert (Eb: (m - m' + 2 * s = s + y)%Z) by (unfold y; lia).
  assert (A: IZR (s + 1) * wterm n (m - 1) m' CC SS (s + 1) = pw CC (u + v - 1) * pw SS (s + y + 1) * (IZR u * ifact u * ifact s * ifact y * ifact v)).
  { unfold wterm. replace (2 * n + m' - (m - 1) - 2 * (s + 1))%Z with (u + v - 1)%Z by (unfold u, v; lia). replace (m - 1 - m' + 2 * (s + 1))%Z with (s + y + 1)%Z by (unfold y; lia).
    replace (n + m' - (s + 1))%Z with (u - 1)%Z by (unfold u; lia). replace (m - 1 - m' + (s + 1))%Z with y by (unfold y; lia). replace (n - (m - 1) - (s + 1))%Z with v by (unfold v; lia).
    rewrite (ifact_step u). rewrite <- (ifact_step_eq (s + 1) s) by lia. ring. }
  assert (B: IZR (n - m + 1 - s) * wterm n (m - 1) m' CC SS s = pw CC (u + v + 1) * pw SS (s + y - 1) * (ifact u * ifact s * (IZR y * ifact y) * ifact v)).
  { unfold wterm. replace (2 * n + m' - (m - 1) - 2 * s)%Z with (u + v + 1)%Z by (unfold u, v; lia). replace (m - 1 - m' + 2 * s)%Z with (s + y - 1)%Z by (unfold y; lia).
    fold u. replace (m - 1 - m' + s)%Z with (y - 1)%Z by (unfold y; lia). replace (n - (m - 1) - s)%Z with (v + 1)%Z by (unfold v; lia). replace (n - m + 1 - s)%Z with (v + 1)%Z by (unfold v; lia).
    rewrite (ifact_step y). rewrite <- (ifact_step_eq (v + 1) v) by lia. ring. }
  assert (D: IZR (y + 1) * wterm n (m + 1) m' CC SS s = pw CC (u + v - 1) * pw SS (s + y + 1) * (ifact u * ifact s * ifact y * (IZR v * ifact v))).
  { unfold wterm. replace (2 * n + m' - (m + 1) - 2 * s)%Z with (u + v - 1)%Z by (unfold u, v; lia). replace (m + 1 - m' + 2 * s)%Z with (s + y + 1)%Z by (unfold y; lia).
    fold u. replace (m + 1 - m' + s)%Z with (y + 1)%Z by (unfold y; lia). replace (n - (m + 1) - s)%Z with (v - 1)%Z by (unfold v; lia). fold y.
    rewrite (ifact_step v). rewrite <- (ifact_step_eq (y + 1) y) by lia. ring. }
  assert (F: IZR (u + 1) * wterm n (m + 1) m' CC SS (s - 1) = pw CC (u + v + 1) * pw SS (s + y - 1) * (ifact u * (IZR s * ifact s) * ifact y * ifact v)).
  { unfold wterm. replace (2 * n + m' - (m + 1) - 2 * (s - 1))%Z with (u + v + 1)%Z by (unfold u, v; lia). replace (m + 1 - m' + 2 * (s - 1))%Z with (s + y - 1)%Z by (unfold y; lia).
    replace (n + m' - (s - 1))%Z with (u + 1)%Z by (unfold u; lia). replace (m + 1 - m' + (s - 1))%Z with y by (unfold y; lia). replace (n - (m + 1) - (s - 1))%Z with v by (unfold v; lia). fold u.
    rewrite (ifact_step s). rewrite <- (ifact_step_eq (u + 1) u) by lia. ring. }
  rewrite A, B, D, F. clear A B D F. unfold wterm. rewrite Ea, Eb. fold u v y.
  destruct (Z_lt_le_dec u 0) as [Hu|Hu]; [|destruct (Z_lt_le_dec v 0) as [Hv|Hv]; [|destruct (Z_lt_le_dec s 0) as [Hs|Hs]; [|destruct (Z_lt_le_dec y 0) as [Hy|Hy]]]].
  1-4: (match goal with H : (?z < 0)%Z |- _ => rewrite !(ifact_neg z H) end; match goal with |- is_derive ?f _ ?l => replace l with 0 by ring end; apply (is_derive_ext (fun _ => 0)); [intros t; match goal with |- @eq _ ?a ?b => change (@eq R a b) end; ring | apply (is_derive_const (V := R_NormedModule))]).
  set (K := ifact u * ifact s * ifact y * ifact v).
  apply is_derive_ext with (fun b => K * (pw (cos (b / 2)) (u + v) * pw (sin (b / 2)) (s + y))); [intros t; match goal with |- @eq _ ?a ?b => change (@eq R a b) end; unfold K; ring|].
  evar_last. { apply (is_derive_scal (fun b => pw (cos (b / 2)) (u + v) * pw (sin (b / 2)) (s + y))). apply (is_derive_mult (K := R_AbsRing)); [apply pw_cos; lia | apply pw_sin; lia | intros; apply Rmult_comm]. }
  unfold plus, mult. cbn. fold CC SS. rewrite (pw_up CC), (pw_up SS), !plus_IZR by lia. unfold K. field.
Qed.
Lemma su_shift : forall k f, su k (fun i => f (S i)) = su k f + f k - f 0%nat.
Proof. intros. pose proof (su_first k f) as E. cbn [su] in E. lra. Qed.
Lemma is_derive_su : forall k (f : nat -> R -> R) (f' : nat -> R) x, (forall i, (i < k)%nat -> is_derive (f i) x (f' i)) -> is_derive (fun b => su k (fun i => f i b)) x (su k f').
Proof.
  induction k; intros f f' x H; cbn [su]; [apply (is_derive_const (V := R_NormedModule))|].
  apply (is_derive_plus (fun b => su k (fun i => f i b)) (f k)); [apply IHk; intros; apply H; lia | apply H; lia].
Qed.
Section Wigner.
Variables n m' : Z.
Hypothesis Hn : (0 <= n)%Z.
Hypothesis Hm' : (- n <= m' <= n)%Z.
Definition wsum (m : Z) (b : R) : R := su (Z.to_nat (2 * n + 1)) (fun s => (-1) ^ s * wterm n m m' (cos (b / 2)) (sin (b / 2)) (Z.of_nat s)).
Lemma wsum_derive : forall m x, is_derive (wsum m) x (1 / 2 * (IZR (n - m + 1) * wsum (m - 1) x - IZR (n + m + 1) * wsum (m + 1) x)).
Proof.
  intros m x. unfold wsum. set (K := Z.to_nat (2 * n + 1)).
  evar_last. { apply is_derive_su. intros i Hi. apply (is_derive_scal (fun b => wterm n m m' (cos (b / 2)) (sin (b / 2)) (Z.of_nat i))). apply wterm_derive. }
  set (CC := cos (x / 2)). set (SS := sin (x / 2)).
  set (A := fun s : Z => wterm n (m - 1) m' CC SS s). set (B := fun s : Z => wterm n (m + 1) m' CC SS s).
  set (g := fun s : nat => (-1) ^ s * (IZR (Z.of_nat s) * A (Z.of_nat s))). set (h := fun s : nat => (-1) ^ s * (IZR (n + m' - Z.of_nat s + 1) * B (Z.of_nat s - 1)%Z)).
  assert (EA: su K (fun s => (-1) ^ s * (IZR (n - m + 1 - Z.of_nat s) * A (Z.of_nat s) - IZR (Z.of_nat s + 1) * A (Z.of_nat s + 1)%Z)) = IZR (n - m + 1) * su K (fun s => (-1) ^ s * A (Z.of_nat s))).
  { transitivity (su K (fun s => IZR (n - m + 1) * ((-1) ^ s * A (Z.of_nat s)) + (-1 * g s + g (S s)))).
    - apply su_ext. intros s Hs. unfold g. rewrite Nat2Z.inj_succ. unfold Z.succ. cbn [pow]. rewrite minus_IZR. ring.
    - rewrite su_plus, su_plus, !su_scal, su_shift. assert (G0: g 0%nat = 0) by (unfold g; cbn; ring).
      assert (GK: g K = 0) by (unfold g, A; rewrite wterm_out by lia; ring). rewrite G0, GK. ring. }
  assert (EB: su K (fun s => (-1) ^ s * (IZR (m - m' + Z.of_nat s + 1) * B (Z.of_nat s) - IZR (n + m' - Z.of_nat s + 1) * B (Z.of_nat s - 1)%Z)) = IZR (n + m + 1) * su K (fun s => (-1) ^ s * B (Z.of_nat s))).
  { transitivity (su K (fun s => IZR (n + m + 1) * ((-1) ^ s * B (Z.of_nat s)) + (-1 * h s + h (S s)))).
    - apply su_ext. intros s Hs. unfold h. rewrite Nat2Z.inj_succ. unfold Z.succ. replace (Z.of_nat s + 1 - 1)%Z with (Z.of_nat s) by lia. cbn [pow].
      replace (n + m' - (Z.of_nat s + 1) + 1)%Z with (n + m + 1 - (m - m' + Z.of_nat s + 1))%Z by lia. rewrite (minus_IZR (n + m + 1)). ring.
    - rewrite su_plus, su_plus, !su_scal, su_shift. assert (G0: h 0%nat = 0) by (unfold h, B; rewrite wterm_out by lia; ring).
      assert (GK: h K = 0). { unfold h, B. destruct (Z.eq_dec m' n) as [->|X]; [replace (n + n - Z.of_nat K + 1)%Z with 0%Z by lia; ring | rewrite wterm_out by lia; ring]. } rewrite G0, GK. ring. }
  fold (A 0%Z) in EA. change (fun s : nat => (-1) ^ s * wterm n (m - 1) m' CC SS (Z.of_nat s)) with (fun s : nat => (-1) ^ s * A (Z.of_nat s)).
  change (fun s : nat => (-1) ^ s * wterm n (m + 1) m' CC SS (Z.of_nat s)) with (fun s : nat => (-1) ^ s * B (Z.of_nat s)).
  rewrite <- EA, <- EB. match goal with |- @eq _ ?a ?b => change (@eq R a b) end.
  transitivity (1 / 2 * (su K (fun s => (-1) ^ s * (IZR (n - m + 1 - Z.of_nat s) * A (Z.of_nat s) - IZR (Z.of_nat s + 1) * A (Z.of_nat s + 1)%Z) +
     -1 * ((-1) ^ s * (IZR (m - m' + Z.of_nat s + 1) * B (Z.of_nat s) - IZR (n + m' - Z.of_nat s + 1) * B (Z.of_nat s - 1)%Z))))).
  - rewrite <- su_scal. apply su_ext. intros s Hs. unfold A, B. ring.
  - rewrite su_plus, su_scal. ring.
Qed.
(** The rotation equation: the functions d_{m m'} of the angle, m' fixed, turn into each other as the states of angular momentum do *)
Lemma wd_derive : forall m x, (- n <= m <= n)%Z -> is_derive (wd n m m') x (1 / 2 * (c n (m - 1) * wd n (m - 1) m' x - c n m * wd n (m + 1) m' x)).
Proof.
  intros m x Hm. apply (is_derive_ext (fun b => sw n m * sw n m' * wsum m b)).
  { intros b. unfold wd. rewrite (proj2 (inside_true n m)), (proj2 (inside_true n m')) by auto. reflexivity. }
  evar_last. { apply (is_derive_scal (wsum m)). apply wsum_derive. }
  match goal with |- @eq _ ?a ?b => change (@eq R a b) end.
  assert (EA: IZR (n - m + 1) * sw n m * sw n m' * wsum (m - 1) x = c n (m - 1) * wd n (m - 1) m' x).
  { unfold wd. rewrite (proj2 (inside_true n m')) by auto. destruct (inside n (m - 1)) eqn:E.
    - apply inside_true in E. cbn [andb]. pose proof (sw_down n (m - 1) ltac:(lia)) as D. unfold c.
      replace (n - (m - 1))%Z with (n - m + 1)%Z in * by lia. replace (m - 1 + 1)%Z with m in D by lia. rewrite <- D. unfold sw, wsum. replace (n - (m - 1))%Z with (n - m + 1)%Z by lia. ring.
    - cbn [andb]. assert (m = (- n)%Z) as -> by (destruct (Z.eq_dec m (- n)); auto; exfalso; rewrite (proj2 (inside_true n (m - 1))) in E by lia; discriminate).
      rewrite (c_out n) by lia. unfold wsum. rewrite su_0; [ring|]. intros k Hk. rewrite wterm_out by lia. ring. }
  assert (EB: IZR (n + m + 1) * sw n m * sw n m' * wsum (m + 1) x = c n m * wd n (m + 1) m' x).
  { unfold wd. rewrite (proj2 (inside_true n m')) by auto. destruct (inside n (m + 1)) eqn:E.
    - apply inside_true in E. cbn [andb]. pose proof (sw_up n m ltac:(lia)) as D. unfold c. rewrite <- D. unfold sw, wsum. ring.
    - cbn [andb]. assert (m = n) as -> by (destruct (Z.eq_dec m n); auto; exfalso; rewrite (proj2 (inside_true n (m + 1))) in E by lia; discriminate).
      rewrite (c_out n) by lia. unfold wsum. rewrite su_0; [ring|]. intros k Hk. rewrite wterm_out by lia. ring. }
  rewrite <- EA, <- EB. ring.
Qed.
Lemma wd_out : forall m x, ~ (- n <= m <= n)%Z -> wd n m m' x = 0.
Proof. intros m x H. unfold wd. destruct (inside n m) eqn:E; auto. apply inside_true in E. tauto. Qed.
(** no rotation *)
Lemma wd_0 : forall m, (- n <= m <= n)%Z -> wd n m m' 0 = if (m =? m')%Z then 1 else 0.
Proof.
  intros m Hm. unfold wd. rewrite (proj2 (inside_true n m)), (proj2 (inside_true n m')) by auto. cbn [andb].
  replace (0 / 2) with 0 by field. rewrite cos_0, sin_0. destruct (Z.eqb_spec m m') as [->|N].
  - rewrite (su_pick _ _ 0%nat); [|lia|].
    + unfold wterm. cbn [Z.of_nat]. replace (m' - m' + 2 * 0)%Z with 0%Z by lia. replace (m' - m' + 0)%Z with 0%Z by lia. rewrite !Z.sub_0_r. unfold pw. rewrite pow1. cbn [Z.to_nat pow].
      rewrite (ifact_nn 0), zfact_0 by lia. rewrite !ifact_nn by lia. rewrite sqrt_sqrt by (apply Rmult_le_pos; apply Rlt_le, zfact_pos). pose proof (zfact_pos (n + m')). pose proof (zfact_pos (n - m')). field. lra.
    + intros k Hk N. unfold wterm, pw. rewrite pow1. replace (Z.to_nat (m' - m' + 2 * Z.of_nat k)) with (S (2 * k - 1)) by lia. cbn [pow]. ring.
  - rewrite su_0; [ring|]. intros k Hk. destruct (Z_lt_le_dec (m - m' + Z.of_nat k) 0); [rewrite wterm_out by lia; ring|].
    unfold wterm, pw. replace (Z.to_nat (m - m' + 2 * Z.of_nat k)) with (S (Z.to_nat (m - m' + 2 * Z.of_nat k) - 1)) by lia. cbn [pow]. ring.
Qed.
End Wigner.

(* ---------------------------------------------- the Clebsch-Gordan series *)
Lemma turn_antisym : forall n (F : Z -> R), (0 <= n)%Z -> zu (- n) n (fun m => F m * (c n (m - 1) * F (m - 1)%Z - c n m * F (m + 1)%Z)) = 0.
Proof.
  intros n F Hn. set (f := fun k => c n (k - 1) * F (k - 1)%Z * F k).
  transitivity (zu (- n) n (fun m => f m + -1 * f (m + 1)%Z)).
  - apply zu_ext. intros k Hk. unfold f. replace (k + 1 - 1)%Z with k by lia. ring.
  - rewrite zu_plus, zu_scal, (zu_step n f); auto; [ring| |]; unfold f; rewrite (c_out n) by lia; ring.
Qed.
Lemma zu_nonneg_0 : forall a b f, (forall k, (a <= k <= b)%Z -> 0 <= f k) -> zu a b f = 0 -> forall k, (a <= k <= b)%Z -> f k = 0.
Proof.
  intros a b f H E k Hk. pose proof (su_nonneg_0 (Z.to_nat (b - a + 1)) (fun i => f (a + Z.of_nat i)%Z) ltac:(intros; apply H; lia) E (Z.to_nat (k - a)) ltac:(lia)) as A.
  cbv beta in A. replace (a + Z.of_nat (Z.to_nat (k - a)))%Z with k in A by lia. auto.
Qed.
Lemma zu_nonneg : forall a b f, (forall k, (a <= k <= b)%Z -> 0 <= f k) -> 0 <= zu a b f.
Proof. intros a b f H. apply su_nonneg. intros. apply H. lia. Qed.
Lemma is_derive_zu : forall a b (f : Z -> R -> R) (f' : Z -> R) x, (forall i, (a <= i <= b)%Z -> is_derive (f i) x (f' i)) -> is_derive (fun t => zu a b (fun i => f i t)) x (zu a b f').
Proof. intros. unfold zu. apply (is_derive_su _ (fun k t => f (a + Z.of_nat k)%Z t)). intros. apply H. lia. Qed.
Lemma constant : forall f : R -> R, (forall t, is_derive f t 0) -> forall x, f x = f 0.
Proof.
  intros f H x. destruct (Rtotal_order x 0) as [L|[->|L]]; auto.
  - apply (eq_is_derive f x 0); [intros; apply H | lra].
  - symmetry. apply (eq_is_derive f 0 x); [intros; apply H | lra].
Qed.
Definition turn (n : Z) (F : Z -> R) (m : Z) : R := 1 / 2 * (c n (m - 1) * F (m - 1)%Z - c n m * F (m + 1)%Z).
(** two systems that turn in the same way from the same start are the same *)
Lemma turn_unique : forall n1 n2 (F : Z -> Z -> R -> R), (0 <= n1)%Z -> (0 <= n2)%Z ->
  (forall m1 m2 x, (- n1 <= m1 <= n1)%Z -> (- n2 <= m2 <= n2)%Z -> is_derive (F m1 m2) x (turn n1 (fun m => F m m2 x) m1 + turn n2 (fun m => F m1 m x) m2)) ->
  (forall m1 m2, (- n1 <= m1 <= n1)%Z -> (- n2 <= m2 <= n2)%Z -> F m1 m2 0 = 0) ->
  forall m1 m2 x, (- n1 <= m1 <= n1)%Z -> (- n2 <= m2 <= n2)%Z -> F m1 m2 x = 0.
Proof.
  intros n1 n2 F H1 H2 D I m1 m2 x A1 A2.
  set (En := fun t => zu (- n1) n1 (fun m1 => zu (- n2) n2 (fun m2 => F m1 m2 t * F m1 m2 t))).
  assert (DE: forall t, is_derive En t 0).
  { intros t. unfold En. evar_last.
    { apply is_derive_zu. intros i Hi. apply is_derive_zu. intros j Hj. apply (is_derive_mult (K := R_AbsRing)); [apply D; auto | apply D; auto | intros; apply Rmult_comm]. }
    match goal with |- @eq _ ?a ?b => change (@eq R a b) end. unfold plus, mult. cbn.
    transitivity (zu (- n1) n1 (fun i => zu (- n2) n2 (fun j => F i j t * (c n1 (i - 1) * F (i - 1)%Z j t - c n1 i * F (i + 1)%Z j t))) +
                  zu (- n1) n1 (fun i => zu (- n2) n2 (fun j => F i j t * (c n2 (j - 1) * F i (j - 1)%Z t - c n2 j * F i (j + 1)%Z t)))).
    - rewrite <- zu_plus. apply zu_ext. intros i Hi. rewrite <- zu_plus. apply zu_ext. intros j Hj. unfold turn. field.
    - rewrite zu_swap. rewrite (zu_0 (- n2)), (zu_0 (- n1)); [ring| |].
      + intros i Hi. apply (turn_antisym n2 (fun j => F i j t)). auto.
      + intros j Hj. apply (turn_antisym n1 (fun i => F i j t)). auto. }
  assert (E0: En x = 0).
  { rewrite (constant En DE). unfold En. apply zu_0. intros i Hi. apply zu_0. intros j Hj. rewrite I by auto. ring. }
  unfold En in E0.
  pose proof (zu_nonneg_0 _ _ _ ltac:(intros k Hk; apply zu_nonneg; intros; apply Rle_0_sqr) E0 m1 A1) as E1. cbv beta in E1.
  pose proof (zu_nonneg_0 _ _ _ ltac:(intros k Hk; apply Rle_0_sqr) E1 m2 A2) as E2. cbv beta in E2. apply Rmult_integral in E2. tauto.
Qed.
Theorem cg_series : forall n1 n2 m1 m2 k1 k2 x, (0 <= n1)%Z -> (0 <= n2)%Z -> (- n1 <= m1 <= n1)%Z -> (- n2 <= m2 <= n2)%Z -> (- n1 <= k1 <= n1)%Z -> (- n2 <= k2 <= n2)%Z ->
  wd n1 m1 k1 x * wd n2 m2 k2 x = zu (Z.abs (n1 - n2)) (n1 + n2) (fun N => cg n1 n2 N m1 m2 * cg n1 n2 N k1 k2 * wd N (m1 + m2) (k1 + k2) x).
Proof.
  intros n1 n2 m1 m2 k1 k2 x H1 H2 A1 A2 B1 B2.
  set (X := fun i j t => wd n1 i k1 t * wd n2 j k2 t).
  set (Y := fun i j t => zu (Z.abs (n1 - n2)) (n1 + n2) (fun N => cg n1 n2 N i j * cg n1 n2 N k1 k2 * wd N (i + j) (k1 + k2) t)).
  assert (U: X m1 m2 x - Y m1 m2 x = 0); [|unfold X, Y in U; lra].
  apply (turn_unique n1 n2 (fun i j t => X i j t - Y i j t)); auto.
  - intros i j t Hi Hj. 
    assert (DX: is_derive (X i j) t (turn n1 (fun m => X m j t) i + turn n2 (fun m => X i m t) j)).
    { unfold X. evar_last. { apply (is_derive_mult (K := R_AbsRing)); [apply wd_derive; auto | apply wd_derive; auto | intros; apply Rmult_comm]. } unfold plus, mult, turn. cbn. field. }
    assert (DY: is_derive (Y i j) t (turn n1 (fun m => Y m j t) i + turn n2 (fun m => Y i m t) j)).
    { unfold Y. evar_last.
      { apply (is_derive_zu _ _ (fun N t => cg n1 n2 N i j * cg n1 n2 N k1 k2 * wd N (i + j) (k1 + k2) t) (fun N => cg n1 n2 N i j * cg n1 n2 N k1 k2 * (1 / 2 * (c N (i + j - 1) * wd N (i + j - 1) (k1 + k2) t - c N (i + j) * wd N (i + j + 1) (k1 + k2) t)))). intros N HN. destruct (inside N (i + j)) eqn:E1; [destruct (inside N (k1 + k2)) eqn:E2|].
        - apply inside_true in E1, E2. apply (is_derive_scal (wd N (i + j) (k1 + k2))). apply wd_derive; auto. lia.
        - assert (E: cg n1 n2 N k1 k2 = 0) by (apply cg_out; intros (_ & _ & V); apply inside_true in V; congruence). rewrite E.
          apply (is_derive_ext (fun _ => 0)); [intros; match goal with |- @eq _ ?a ?b => change (@eq R a b) end; ring|]. match goal with |- is_derive _ _ ?l => replace l with 0 by ring end. apply (is_derive_const (V := R_NormedModule)).
        - assert (E: cg n1 n2 N i j = 0) by (apply cg_out; intros (_ & _ & V); apply inside_true in V; congruence). rewrite E.
          apply (is_derive_ext (fun _ => 0)); [intros; match goal with |- @eq _ ?a ?b => change (@eq R a b) end; ring|]. match goal with |- is_derive _ _ ?l => replace l with 0 by ring end. apply (is_derive_const (V := R_NormedModule)). }
      match goal with |- @eq _ ?a ?b => change (@eq R a b) end.
      unfold turn. set (a := Z.abs (n1 - n2)). set (b := (n1 + n2)%Z).
      transitivity (1 / 2 * (c n1 (i - 1) * zu a b (fun N => cg n1 n2 N (i - 1) j * cg n1 n2 N k1 k2 * wd N (i - 1 + j) (k1 + k2) t) +
        c n2 (j - 1) * zu a b (fun N => cg n1 n2 N i (j - 1) * cg n1 n2 N k1 k2 * wd N (i + (j - 1)) (k1 + k2) t)) +
        - (1 / 2) * (c n1 i * zu a b (fun N => cg n1 n2 N (i + 1) j * cg n1 n2 N k1 k2 * wd N (i + 1 + j) (k1 + k2) t) +
        c n2 j * zu a b (fun N => cg n1 n2 N i (j + 1) * cg n1 n2 N k1 k2 * wd N (i + (j + 1)) (k1 + k2) t))); [|ring].
      rewrite <- !zu_scal, <- !zu_plus, <- !zu_scal, <- zu_plus. apply zu_ext. intros N HN. cbv beta.
      pose proof (cg_raise n1 n2 N H1 H2 HN i j) as R. pose proof (cg_lower n1 n2 N H1 H2 HN i j) as L.
      replace (i - 1 + j)%Z with (i + j - 1)%Z by lia. replace (i + (j - 1))%Z with (i + j - 1)%Z by lia.
      replace (i + 1 + j)%Z with (i + j + 1)%Z by lia. replace (i + (j + 1))%Z with (i + j + 1)%Z by lia.
      transitivity (1 / 2 * cg n1 n2 N k1 k2 * ((c N (i + j - 1) * cg n1 n2 N i j) * wd N (i + j - 1) (k1 + k2) t - (c N (i + j) * cg n1 n2 N i j) * wd N (i + j + 1) (k1 + k2) t)); [ring|].
      rewrite R, L. ring. }
    evar_last. { apply (is_derive_minus (X i j) (Y i j)); [exact DX | exact DY]. } unfold minus, plus, opp, turn. cbn. ring.
  - intros i j Hi Hj. unfold X, Y. rewrite !wd_0 by auto. destruct (Z.eq_dec (i + j) (k1 + k2)) as [E|E].
    + rewrite (zu_ext _ _ _ (fun N => cg n1 n2 N i j * cg n1 n2 N k1 k2)).
      * rewrite cg_complete by auto. destruct (Z.eqb_spec i k1) as [->|Q]; [|ring]. replace (j =? k2)%Z with true by (symmetry; apply Z.eqb_eq; lia). ring.
      * intros N HN. destruct (inside N (i + j)) eqn:V.
        -- apply inside_true in V. rewrite wd_0 by lia. rewrite (proj2 (Z.eqb_eq _ _) E). ring.
        -- rewrite cg_out; [ring|]. intros (_ & _ & W). apply inside_true in W. congruence.
    + rewrite zu_0.
      * destruct (Z.eqb_spec i k1) as [->|Q]; [|ring]. replace (j =? k2)%Z with false by (symmetry; apply Z.eqb_neq; lia). ring.
      * intros N HN. destruct (inside N (i + j)) eqn:V; [destruct (inside N (k1 + k2)) eqn:W|].
        -- apply inside_true in V, W. rewrite wd_0 by lia. rewrite (proj2 (Z.eqb_neq _ _) E). ring.
        -- rewrite (cg_out n1 n2 N k1); [ring|]. intros (_ & _ & Q). apply inside_true in Q. congruence.
        -- rewrite (cg_out n1 n2 N i); [ring|]. intros (_ & _ & Q). apply inside_true in Q. congruence.
Qed.

(* ---------------------------------------------- particular d-functions *)
Lemma wd_mirror : forall n m m' x, (0 <= n)%Z -> (- n <= m <= n)%Z -> (- n <= m' <= n)%Z -> wd n (- m) (- m') x = (-1) ^ Z.to_nat (Z.abs (m - m')) * wd n m m' x.
Proof.
  intros n m m' x Hn Hm Hm'. set (sg := fun k : Z => (-1) ^ Z.to_nat (Z.abs k)).
  assert (SG: forall k, sg (k + 1)%Z = - sg k /\ sg (k - 1)%Z = - sg k).
  { intros k. unfold sg. destruct (Z_lt_le_dec k 0).
    - replace (Z.to_nat (Z.abs (k - 1))) with (S (Z.to_nat (Z.abs k))) by lia. replace (Z.to_nat (Z.abs k)) with (S (Z.to_nat (Z.abs (k + 1)))) by lia. cbn [pow]. split; lra.
    - replace (Z.to_nat (Z.abs (k + 1))) with (S (Z.to_nat (Z.abs k))) by lia. destruct (Z.eq_dec k 0) as [->|N]; [replace (Z.to_nat (Z.abs (0 - 1))) with 1%nat by lia; replace (Z.to_nat (Z.abs 0)) with 0%nat by lia; cbn [pow]; split; lra|].
      replace (Z.to_nat (Z.abs k)) with (S (Z.to_nat (Z.abs (k - 1)))) by lia. cbn [pow]. split; lra. }
  assert (SQ: sg (m - m')%Z * sg (m - m')%Z = 1) by apply sgn_sq.
  assert (U: sg (m - m')%Z * wd n (- m) (- m') x - wd n m m' x = 0); [|fold (sg (m - m')%Z); transitivity (sg (m - m')%Z * (sg (m - m')%Z * wd n (- m) (- m') x)); [rewrite <- Rmult_assoc, SQ; ring | f_equal; lra]].
  apply (turn_unique n 0 (fun i _ t => sg (i - m')%Z * wd n (- i) (- m') t - wd n i m' t)) with (m2 := 0%Z); auto; try lia.
  - intros i j t Hi Hj. assert (j = 0%Z) as -> by lia. unfold turn at 2. rewrite (c_out 0 (0 - 1)), (c_out 0 0) by lia.
    evar_last. { apply (is_derive_minus (fun t => sg (i - m')%Z * wd n (- i) (- m') t) (wd n i m')); [apply (is_derive_scal (wd n (- i) (- m')))|]; apply wd_derive; lia. }
    unfold minus, plus, opp, turn. cbn. replace (- i - 1)%Z with (- (i + 1))%Z by lia. replace (- i + 1)%Z with (- (i - 1))%Z by lia.
    rewrite !c_mirror. replace (i + 1 - 1)%Z with i by lia.
    replace (i + 1 - m')%Z with (i - m' + 1)%Z by lia. replace (i - 1 - m')%Z with (i - m' - 1)%Z by lia. destruct (SG (i - m')%Z) as (-> & ->).
    match goal with |- @eq _ ?a ?b => change (@eq R a b) end. ring.
  - intros i j Hi Hj. rewrite !wd_0 by lia. destruct (Z.eqb_spec i m') as [->|N].
    + replace (- m' =? - m')%Z with true by (symmetry; apply Z.eqb_eq; lia). unfold sg. replace (m' - m')%Z with 0%Z by lia. cbn. ring.
    + replace (- i =? - m')%Z with false by (symmetry; apply Z.eqb_neq; lia). ring.
Qed.

Section Legendre.
Variables X Y : R.
(** binomial coefficients, terms and sums of Wigner's formula for m = m' = 0 *)
Definition bn (n s : Z) : R := zfact n * (ifact s * ifact (n - s)).
Definition lt (n : Z) (s : nat) : R := (-1) ^ s * (bn n (Z.of_nat s) * bn n (Z.of_nat s)) * (pw X (n - Z.of_nat s) * pw Y (Z.of_nat s)).
Definition ls (K : nat) (n : Z) : R := su K (lt n).
Lemma lt_out : forall n s, (n < Z.of_nat s)%Z -> lt n s = 0.
Proof. intros n s H. unfold lt, bn. rewrite (ifact_neg (n - Z.of_nat s)) by lia. ring. Qed.
Lemma ls_le : forall K n, (0 <= n)%Z -> (Z.to_nat n < K)%nat -> ls K n = ls (S (Z.to_nat n)) n.
Proof.
  intros K n Hn HK. unfold ls. replace K with (S (Z.to_nat n) + (K - S (Z.to_nat n)))%nat by lia. rewrite su_split, (su_0 (K - S (Z.to_nat n))); [ring|].
  intros. apply lt_out. lia.
Qed.
Lemma ls_bonnet : forall n K, (1 <= n)%Z -> (Z.to_nat n + 1 < K)%nat ->
  IZR (n + 1) * ls K (n + 1) = IZR (2 * n + 1) * (X - Y) * ls K n - IZR n * ((X + Y) * (X + Y)) * ls K (n - 1).
Proof.
  intros n K Hn HK. 
  assert (PX: forall a, (0 <= a)%Z -> X * pw X a = pw X (a + 1)) by (intros; rewrite pw_up by auto; ring).
  assert (PY: forall a, (0 <= a)%Z -> Y * pw Y a = pw Y (a + 1)) by (intros; rewrite pw_up by auto; ring).
  set (w := fun s : nat => (-1) ^ s * (pw X (n + 1 - Z.of_nat s) * pw Y (Z.of_nat s))).
  (* multiplication by X and by Y *)
  assert (MX: forall k (f : Z -> R), (forall s, (s < 0)%Z -> f s = 0) -> (forall s, (k < s)%Z -> f s = 0) -> (0 <= k)%Z -> (Z.to_nat k + 1 < K)%nat ->
     X * su K (fun s => (-1) ^ s * f (Z.of_nat s) * (pw X (k - Z.of_nat s) * pw Y (Z.of_nat s))) = su K (fun s => (-1) ^ s * f (Z.of_nat s) * (pw X (k + 1 - Z.of_nat s) * pw Y (Z.of_nat s)))).
  { intros k f F0 F1 Hk HK'. rewrite <- su_scal. apply su_ext. intros s Hs. destruct (Z_lt_le_dec k (Z.of_nat s)); [rewrite F1 by auto; ring|].
    replace (k + 1 - Z.of_nat s)%Z with (k - Z.of_nat s + 1)%Z by lia. rewrite <- PX by lia. ring. }
  assert (MY: forall k (f : Z -> R), (forall s, (s < 0)%Z -> f s = 0) -> (forall s, (k < s)%Z -> f s = 0) -> (0 <= k)%Z -> (Z.to_nat k + 1 < K)%nat ->
     Y * su K (fun s => (-1) ^ s * f (Z.of_nat s) * (pw X (k - Z.of_nat s) * pw Y (Z.of_nat s))) = - su K (fun s => (-1) ^ s * f (Z.of_nat s - 1)%Z * (pw X (k + 1 - Z.of_nat s) * pw Y (Z.of_nat s)))).
  { intros k f F0 F1 Hk HK'. set (g := fun s : nat => (-1) ^ s * f (Z.of_nat s - 1)%Z * (pw X (k + 1 - Z.of_nat s) * pw Y (Z.of_nat s))).
    transitivity (- su K (fun s => g (S s))).
    - replace (- su K (fun s => g (S s))) with (-1 * su K (fun s => g (S s))) by ring. rewrite <- !su_scal. apply su_ext. intros s Hs. unfold g. rewrite Nat2Z.inj_succ. unfold Z.succ.
      replace (Z.of_nat s + 1 - 1)%Z with (Z.of_nat s) by lia. replace (k + 1 - (Z.of_nat s + 1))%Z with (k - Z.of_nat s)%Z by lia. rewrite <- PY by lia. cbn [pow]. ring.
    - rewrite su_shift. assert (g 0%nat = 0) as -> by (unfold g; rewrite F0 by lia; ring). assert (g K = 0) as -> by (unfold g; rewrite F1 by lia; ring). ring. }
  set (f2 := fun s => bn n s * bn n s). set (f1 := fun s => bn (n - 1) s * bn (n - 1) s).
  assert (F2: (forall s, (s < 0)%Z -> f2 s = 0) /\ (forall s, (n < s)%Z -> f2 s = 0)) by (unfold f2, bn; split; intros s Hs; [rewrite (ifact_neg s) by lia | rewrite (ifact_neg (n - s)) by lia]; ring).
  assert (F1: (forall s, (s < 0)%Z -> f1 s = 0) /\ (forall s, (n - 1 < s)%Z -> f1 s = 0)) by (unfold f1, bn; split; intros s Hs; [rewrite (ifact_neg s) by lia | rewrite (ifact_neg (n - 1 - s)) by lia]; ring).
  destruct F2 as (F2a & F2b). destruct F1 as (F1a & F1b).
  set (f3 := fun s => f1 s - f1 (s - 1)%Z).
  assert (S1: (X + Y) * ls K (n - 1) = su K (fun s => (-1) ^ s * f3 (Z.of_nat s) * (pw X (n - Z.of_nat s) * pw Y (Z.of_nat s)))).
  { change (ls K (n - 1)) with (su K (fun s => (-1) ^ s * f1 (Z.of_nat s) * (pw X (n - 1 - Z.of_nat s) * pw Y (Z.of_nat s)))). rewrite Rmult_plus_distr_r. rewrite (MX (n - 1)%Z f1), (MY (n - 1)%Z f1) by (auto; lia). replace (n - 1 + 1)%Z with n by lia.
    match goal with |- ?a + - ?b = _ => replace (a + - b) with (a + -1 * b) by ring end. rewrite <- su_scal, <- su_plus. apply su_ext. intros. unfold f3. ring. }
  assert (F3a: forall s, (s < 0)%Z -> f3 s = 0) by (intros; unfold f3; rewrite !F1a by lia; ring).
  assert (F3b: forall s, (n < s)%Z -> f3 s = 0) by (intros; unfold f3; rewrite !F1b by lia; ring).
  assert (S2: (X + Y) * ((X + Y) * ls K (n - 1)) = su K (fun s => (f3 (Z.of_nat s) - f3 (Z.of_nat s - 1)%Z) * w s)).
  { rewrite S1, Rmult_plus_distr_r. rewrite (MX n f3), (MY n f3) by (auto; lia).
    match goal with |- ?a + - ?b = _ => replace (a + - b) with (a + -1 * b) by ring end. rewrite <- su_scal, <- su_plus. apply su_ext. intros. unfold w. ring. }
  assert (S3: (X - Y) * ls K n = su K (fun s => (f2 (Z.of_nat s) + f2 (Z.of_nat s - 1)%Z) * w s)).
  { change (ls K n) with (su K (fun s => (-1) ^ s * f2 (Z.of_nat s) * (pw X (n - Z.of_nat s) * pw Y (Z.of_nat s)))). replace (X - Y) with (X + -1 * Y) by ring. rewrite Rmult_plus_distr_r, Rmult_assoc. rewrite (MX n f2), (MY n f2) by (auto; lia).
    match goal with |- ?a + -1 * - ?b = _ => replace (a + -1 * - b) with (a + b) by ring end. rewrite <- su_plus. apply su_ext. intros. unfold w. ring. }
  replace (IZR (2 * n + 1) * (X - Y) * ls K n - IZR n * ((X + Y) * (X + Y)) * ls K (n - 1)) with (IZR (2 * n + 1) * ((X - Y) * ls K n) + - IZR n * ((X + Y) * ((X + Y) * ls K (n - 1)))) by ring.
  rewrite S2, S3. unfold ls. rewrite <- !su_scal, <- su_plus. apply su_ext. intros s Hs. unfold lt.
  transitivity (IZR (n + 1) * (bn (n + 1) (Z.of_nat s) * bn (n + 1) (Z.of_nat s)) * w s); [unfold w; ring|].
  cut (IZR (n + 1) * (bn (n + 1) (Z.of_nat s) * bn (n + 1) (Z.of_nat s)) = IZR (2 * n + 1) * (f2 (Z.of_nat s) + f2 (Z.of_nat s - 1)%Z) - IZR n * (f3 (Z.of_nat s) - f3 (Z.of_nat s - 1)%Z)); [intros ->; ring|].
  generalize (Z.of_nat s). clear s Hs. intros s. unfold f3, f2, f1, bn.
  set (e := ifact s * ifact (n + 1 - s)).
  assert (Z1: zfact (n + 1) = IZR (n + 1) * IZR n * zfact (n - 1)) by (rewrite zfact_S by lia; replace n with (n - 1 + 1)%Z at 2 by lia; rewrite (zfact_S (n - 1)) by lia; replace (n - 1 + 1)%Z with n by lia; ring).
  assert (Z2: zfact n = IZR n * zfact (n - 1)) by (replace n with (n - 1 + 1)%Z at 1 by lia; rewrite (zfact_S (n - 1)) by lia; replace (n - 1 + 1)%Z with n by lia; ring).
  assert (E1: ifact s * ifact (n - s) = IZR (n + 1 - s) * e) by (unfold e; rewrite <- (ifact_step_eq (n + 1 - s) (n - s)) by lia; ring).
  assert (E2: ifact (s - 1) * ifact (n - (s - 1)) = IZR s * e) by (unfold e; rewrite <- (ifact_step s); replace (n - (s - 1))%Z with (n + 1 - s)%Z by lia; ring).
  assert (E3: ifact s * ifact (n - 1 - s) = IZR (n + 1 - s) * IZR (n - s) * e).
  { unfold e. rewrite <- (ifact_step_eq (n - s) (n - 1 - s)) by lia. rewrite <- (ifact_step_eq (n + 1 - s) (n - s)) by lia. ring. }
  assert (E4: ifact (s - 1) * ifact (n - 1 - (s - 1)) = IZR s * IZR (n + 1 - s) * e).
  { unfold e. replace (n - 1 - (s - 1))%Z with (n - s)%Z by lia. rewrite <- (ifact_step s). rewrite <- (ifact_step_eq (n + 1 - s) (n - s)) by lia. ring. }
  assert (E5: ifact (s - 1 - 1) * ifact (n - 1 - (s - 1 - 1)) = IZR s * IZR (s - 1) * e).
  { unfold e. replace (n - 1 - (s - 1 - 1))%Z with (n + 1 - s)%Z by lia. rewrite <- (ifact_step (s - 1)). rewrite <- (ifact_step s). ring. }
  fold e. rewrite E1, E2, E3, E4, E5, Z1, Z2. rewrite !minus_IZR, !plus_IZR, mult_IZR. ring.
Qed.
End Legendre.
Lemma wd_00 : forall N x, wd (Z.of_nat N) 0 0 x = P N 0 (cos x).
Proof.
  intros N x. set (X := cos (x / 2) * cos (x / 2)). set (Y := sin (x / 2) * sin (x / 2)).
  assert (XY: X + Y = 1) by (unfold X, Y; pose proof (sin2_cos2 (x / 2)) as E; unfold Rsqr in E; lra).
  assert (CX: X - Y = cos x) by (unfold X, Y; replace x with (2 * (x / 2)) at 5 by field; rewrite cos_2a; ring).
  assert (E: forall N, ls X Y (S N) (Z.of_nat N) = P N 0 (cos x)).
  { assert (G: forall N, ls X Y (S N) (Z.of_nat N) = P N 0 (cos x) /\ ls X Y (S (S N)) (Z.of_nat (S N)) = P (S N) 0 (cos x)); [|intros M; apply G].
    induction N0 as [|M (I1 & I2)].
    - rewrite P_0_0, P_1_0. unfold ls, lt. cbn [su Z.of_nat Pos.of_succ_nat].
      assert (Z1: zfact 1 = 1) by (replace 1%Z with (0 + 1)%Z by lia; rewrite zfact_S, zfact_0 by lia; ring).
      assert (B0: bn 0 0 = 1) by (unfold bn; replace (0 - 0)%Z with 0%Z by lia; rewrite ifact_nn, zfact_0 by lia; field).
      assert (B1: bn 1 0 = 1) by (unfold bn; replace (1 - 0)%Z with 1%Z by lia; rewrite !ifact_nn, zfact_0, Z1 by lia; field).
      assert (B2: bn 1 1 = 1) by (unfold bn; replace (1 - 1)%Z with 0%Z by lia; rewrite !ifact_nn, zfact_0, Z1 by lia; field).
      rewrite B0, B1, B2. replace (0 - 0)%Z with 0%Z by lia. replace (1 - 0)%Z with 1%Z by lia. replace (1 - 1)%Z with 0%Z by lia.
      assert (W: forall z, pw z 0 = 1 /\ pw z 1 = z) by (intros z; unfold pw; replace (Z.to_nat 1) with 1%nat by lia; replace (Z.to_nat 0) with 0%nat by lia; cbn [pow]; split; ring).
      destruct (W X) as (-> & ->). destruct (W Y) as (-> & ->). cbn [pow]. rewrite <- CX. split; ring.
    - split; auto. pose proof (ls_bonnet X Y (Z.of_nat (S M)) (S (S (S M))) ltac:(lia) ltac:(lia)) as B.
      replace (Z.of_nat (S M) + 1)%Z with (Z.of_nat (S (S M))) in B by lia. replace (Z.of_nat (S M) - 1)%Z with (Z.of_nat M) in B by lia.
      rewrite (ls_le X Y _ (Z.of_nat (S M))), (ls_le X Y _ (Z.of_nat M)) in B by lia. rewrite !Nat2Z.id in B. rewrite I1, I2, XY, CX in B.
      pose proof (P_bonnet M (cos x)) as PB. rewrite <- !INR_IZR_INZ in B. rewrite plus_IZR, mult_IZR, <- INR_IZR_INZ in B.
      replace (M + 2)%nat with (S (S M)) in PB by lia. apply Rmult_eq_reg_l with (INR (S (S M))); [|apply not_0_INR; lia]. rewrite PB, B. ring. }
  rewrite <- E. unfold wd. rewrite (proj2 (inside_true (Z.of_nat N) 0)) by lia. cbn [andb]. replace (ls X Y (S N) (Z.of_nat N)) with (ls X Y (Z.to_nat (2 * Z.of_nat N + 1)) (Z.of_nat N)) by (rewrite ls_le by lia; rewrite Nat2Z.id; auto).
  unfold ls. rewrite sqrt_sqrt by (apply Rmult_le_pos; apply Rlt_le, zfact_pos). rewrite <- su_scal. apply su_ext. intros s Hs. unfold wterm, lt, bn.
  rewrite !Z.add_0_r, !Z.sub_0_r, !Z.add_0_l.
  destruct (Z_lt_le_dec (Z.of_nat N) (Z.of_nat s)); [rewrite (ifact_neg (Z.of_nat N - Z.of_nat s)) by lia; ring|].
  assert (EX: pw (cos (x / 2)) (2 * Z.of_nat N - 2 * Z.of_nat s) = pw X (Z.of_nat N - Z.of_nat s)).
  { unfold pw, X. rewrite Rpow_mult_distr, <- pow_add. f_equal. lia. }
  assert (EY: pw (sin (x / 2)) (2 * Z.of_nat s) = pw Y (Z.of_nat s)).
  { unfold pw, Y. rewrite Rpow_mult_distr, <- pow_add. f_equal. lia. }
  rewrite EX, EY. ring.
Qed.
