(** Rotation of spherical harmonics (specification side, nothing from the code).  The scalar harmonics are polynomials in Cartesian coordinates; the
    vector harmonics are combinations of scalar ones, so that no derivative at the poles is needed. *)
From Coq Require Import ZArith Reals Lra Lia Arith Bool.
From Coquelicot Require Import Coquelicot.
From Verif Require Import Racah Legendre Wigner Ortho Rotation.
Open Scope R_scope.

(* ---------------------------------------------- real and imaginary part of (x + i y)^m *)
Fixpoint cpair (m : nat) (x y : R) : R * R :=
  match m with O => (1, 0) | S k => (x * fst (cpair k x y) - y * snd (cpair k x y), x * snd (cpair k x y) + y * fst (cpair k x y)) end.
Definition hm (s : bool) (m : nat) (x y : R) : R := if s then fst (cpair m x y) else snd (cpair m x y).
Definition sg (s : bool) : R := if s then 1 else -1.
Lemma hm_rec : forall s m x y, x * hm s (S m) x y = 1 / 2 * (hm s (S (S m)) x y + (x * x + y * y) * hm s m x y).
Proof. intros s m x y. unfold hm. cbn [cpair fst snd]. destruct s; field. Qed.
Lemma hm_0 : forall s x y, x * hm s 0 x y = 1 / 2 * (hm s 1 x y + sg s * hm s 1 x y).
Proof. intros s x y. unfold hm, sg. cbn [cpair fst snd]. destruct s; field. Qed.
Lemma cpair_derive : forall m (X : R -> R) y b x', is_derive X b x' ->
  is_derive (fun b => fst (cpair m (X b) y)) b (INR m * fst (cpair (pred m) (X b) y) * x') /\
  is_derive (fun b => snd (cpair m (X b) y)) b (INR m * snd (cpair (pred m) (X b) y) * x').
Proof.
  induction m as [|m IH]; intros X y b x' H.
  - cbn [cpair fst snd INR]. rewrite !Rmult_0_l. split; apply (is_derive_const (V := R_NormedModule)).
  - destruct (IH X y b x' H) as (A & B). cbn [cpair fst snd]. cbn [pred].
    assert (R1: INR m * fst (cpair m (X b) y) = INR m * (X b * fst (cpair (pred m) (X b) y) - y * snd (cpair (pred m) (X b) y))) by (destruct m; [cbn [INR]; ring | reflexivity]).
    assert (R2: INR m * snd (cpair m (X b) y) = INR m * (X b * snd (cpair (pred m) (X b) y) + y * fst (cpair (pred m) (X b) y))) by (destruct m; [cbn [INR]; ring | reflexivity]).
    split.
    + evar_last. { apply (is_derive_minus (fun b => X b * fst (cpair m (X b) y)) (fun b => y * snd (cpair m (X b) y))).
        - apply (is_derive_mult (K := R_AbsRing)); [exact H | exact A | intros; apply Rmult_comm].
        - apply (is_derive_scal (fun b => snd (cpair m (X b) y))). exact B. }
      match goal with |- @eq _ ?a ?b => change (@eq R a b) end. unfold minus, plus, opp, mult. cbn -[cpair INR]. rewrite S_INR.
      transitivity (x' * (INR m * (X b * fst (cpair (pred m) (X b) y) - y * snd (cpair (pred m) (X b) y))) + x' * fst (cpair m (X b) y)); [ring|]. rewrite <- R1. ring.
    + evar_last. { apply (is_derive_plus (fun b => X b * snd (cpair m (X b) y)) (fun b => y * fst (cpair m (X b) y))).
        - apply (is_derive_mult (K := R_AbsRing)); [exact H | exact B | intros; apply Rmult_comm].
        - apply (is_derive_scal (fun b => fst (cpair m (X b) y))). exact A. }
      match goal with |- @eq _ ?a ?b => change (@eq R a b) end. unfold plus, mult. cbn -[cpair INR]. rewrite S_INR.
      transitivity (x' * (INR m * (X b * snd (cpair (pred m) (X b) y) + y * fst (cpair (pred m) (X b) y))) + x' * snd (cpair m (X b) y)); [ring|]. rewrite <- R2. ring.
Qed.
Lemma hm_derive : forall s m (X : R -> R) y b x', is_derive X b x' -> is_derive (fun b => hm s m (X b) y) b (INR m * hm s (pred m) (X b) y * x').
Proof. intros s m X y b x' H. destruct (cpair_derive m X y b x' H) as (A & B). unfold hm. destruct s; auto. Qed.
Lemma hm_polar : forall m r p, cpair m (r * cos p) (r * sin p) = (r ^ m * cos (INR m * p), r ^ m * sin (INR m * p)).
Proof.
  induction m as [|m IH]; intros r p; [cbn [cpair pow INR]; rewrite Rmult_0_l, cos_0, sin_0; f_equal; ring|].
  cbn [cpair]. rewrite IH. cbn [fst snd]. rewrite S_INR. replace ((INR m + 1) * p) with (INR m * p + p) by ring. rewrite cos_plus, sin_plus. cbn [pow]. f_equal; ring.
Qed.

(* ---------------------------------------------- scalar harmonics *)
Definition par (m : Z) : R := if (m <? 0)%Z then (-1) ^ Z.abs_nat m else 1.
Definition refl (s : bool) (m : Z) : R := if (m <? 0)%Z then sg s else 1.
Definition hy (s : bool) (n : nat) (m : Z) (x y z : R) : R := par m * refl s m * cnm n (Z.abs_nat m) * hm s (Z.abs_nat m) x y * P n (Z.abs_nat m) z.
Lemma sg_sq : forall s, sg s * sg s = 1.
Proof. intros []; unfold sg; ring. Qed.
Lemma hy_pos : forall s n k x y z, hy s n (Z.of_nat k) x y z = cnm n k * hm s k x y * P n k z.
Proof. intros. unfold hy, par, refl. replace (Z.of_nat k <? 0)%Z with false by (symmetry; apply Z.ltb_ge; lia). rewrite Zabs2Nat.id. ring. Qed.
Lemma hy_neg : forall s n k x y z, hy s n (- Z.of_nat k) x y z = (-1) ^ k * sg s * hy s n (Z.of_nat k) x y z.
Proof.
  intros. rewrite hy_pos. unfold hy, par, refl. replace (Z.abs_nat (- Z.of_nat k)) with k by lia. destruct k as [|k].
  - cbn [Z.of_nat Z.opp Z.ltb Z.compare]. unfold hm. destruct s; cbn [cpair fst snd sg pow]; ring.
  - replace (- Z.of_nat (S k) <? 0)%Z with true by (symmetry; apply Z.ltb_lt; lia). ring.
Qed.
Lemma c_cnm : forall n k, (k < n)%nat -> c (Z.of_nat n) (Z.of_nat k) * cnm n (S k) = cnm n k.
Proof.
  intros n k H. unfold c, cnm. rewrite <- sqrt_mult_alt.
  - f_equal. replace (n - k)%nat with (S (n - S k)) by lia. replace (n + S k)%nat with (S (n + k)) by lia. rewrite !fact_S_INR.
    replace (Z.of_nat n + Z.of_nat k + 1)%Z with (Z.of_nat (S (n + k))) by lia. replace (Z.of_nat n - Z.of_nat k)%Z with (Z.of_nat (S (n - S k))) by lia. rewrite <- !INR_IZR_INZ.
    field. split; [apply INR_fact | apply INR_S_neq].
  - apply Rmult_le_pos; apply IZR_le; lia.
Qed.
(** derivative along the rotation about the y axis *)
Definition hy' (s : bool) (n : nat) (m : Z) (x y z : R) : R :=
  par m * refl s m * cnm n (Z.abs_nat m) * (INR (Z.abs_nat m) * hm s (pred (Z.abs_nat m)) x y * z * P n (Z.abs_nat m) z - hm s (Z.abs_nat m) x y * (P n (S (Z.abs_nat m)) z * x)).
Lemma hy_turn_pos : forall s n k x y z, x * x + y * y + z * z = 1 -> (k <= n)%nat -> hy' s n (Z.of_nat k) x y z = turn (Z.of_nat n) (fun m => hy s n m x y z) (Z.of_nat k).
Proof.
  intros s n k x y z N Hk. unfold turn. replace (Z.of_nat k + 1)%Z with (Z.of_nat (S k)) by lia. rewrite (hy_pos s n (S k)).
  assert (UP: c (Z.of_nat n) (Z.of_nat k) * (cnm n (S k) * hm s (S k) x y * P n (S k) z) = cnm n k * hm s (S k) x y * P n (S k) z).
  { destruct (Nat.eq_dec k n) as [->|X]; [rewrite (P_high n (S n)) by lia; ring|]. rewrite <- (c_cnm n k) by lia. ring. }
  unfold hy', par, refl. replace (Z.of_nat k <? 0)%Z with false by (symmetry; apply Z.ltb_ge; lia). rewrite Zabs2Nat.id. rewrite UP.
  destruct k as [|k].
  - replace (Z.of_nat 0 - 1)%Z with (- Z.of_nat 1)%Z by lia. rewrite (c_mirror _ (Z.of_nat 1)). replace (Z.of_nat 1 - 1)%Z with (Z.of_nat 0) by lia. rewrite hy_neg, hy_pos.
    transitivity (- cnm n 0 * P n 1 z * (x * hm s 0 x y)); [cbn [INR]; ring|]. rewrite hm_0.
    assert (Q: c (Z.of_nat n) (Z.of_nat 0) * (cnm n 1 * hm s 1 x y * P n 1 z) = cnm n 0 * hm s 1 x y * P n 1 z).
    { destruct n as [|n]; [rewrite (P_high 0 1) by lia; ring|]. rewrite <- (c_cnm (S n) 0) by lia. ring. }
    transitivity (1 / 2 * ((-1) ^ 1 * sg s * (cnm n 0 * hm s 1 x y * P n 1 z) - cnm n 0 * hm s 1 x y * P n 1 z)); [field|]. rewrite <- Q. ring.
  - replace (Z.of_nat (S k) - 1)%Z with (Z.of_nat k) by lia. rewrite hy_pos. cbn [pred].
    assert (Q: c (Z.of_nat n) (Z.of_nat k) * (cnm n k * hm s k x y * P n k z) = (INR n * (INR n + 1) - INR k * (INR k + 1)) * (cnm n (S k) * hm s k x y * P n k z)).
    { rewrite <- (c_cnm n k) by lia. transitivity (c (Z.of_nat n) (Z.of_nat k) * c (Z.of_nat n) (Z.of_nat k) * (cnm n (S k) * hm s k x y * P n k z)); [ring|]. rewrite c_sq by lia.
      rewrite minus_IZR, !mult_IZR, !plus_IZR, <- !INR_IZR_INZ. ring. }
    rewrite Q. pose proof (associated n k z) as A.
    transitivity (cnm n (S k) * (INR (S k) * hm s k x y * z * P n (S k) z - P n (S (S k)) z * (x * hm s (S k) x y))); [ring|]. rewrite hm_rec.
    replace (x * x + y * y) with (1 - z * z) by lra. rewrite S_INR.
    assert (B: (1 - z * z) * P n (S (S k)) z = 2 * (INR k + 1) * z * P n (S k) z - (INR n * (INR n + 1) - INR k * (INR k + 1)) * P n k z) by lra.
    transitivity (cnm n (S k) * ((INR k + 1) * hm s k x y * z * P n (S k) z - 1 / 2 * (P n (S (S k)) z * hm s (S (S k)) x y + ((1 - z * z) * P n (S (S k)) z) * hm s k x y))); [ring|].
    rewrite B. field.
Qed.
Lemma hy_turn : forall s n m x y z, x * x + y * y + z * z = 1 -> (- Z.of_nat n <= m <= Z.of_nat n)%Z -> hy' s n m x y z = turn (Z.of_nat n) (fun m => hy s n m x y z) m.
Proof.
  intros s n m x y z N Hm. destruct (Z_le_gt_dec 0 m) as [A|A].
  - rewrite <- (Z2Nat.id m A) in *. apply hy_turn_pos; auto. lia.
  - set (k := Z.to_nat (- m)). assert (Ek: m = (- Z.of_nat (S (k - 1)))%Z) by (unfold k; lia). set (j := (k - 1)%nat) in *. clearbody j. clear k. subst m.
    pose proof (hy_turn_pos s n (S j) x y z N ltac:(lia)) as H.
    assert (L: hy' s n (- Z.of_nat (S j)) x y z = (-1) ^ S j * sg s * hy' s n (Z.of_nat (S j)) x y z).
    { unfold hy', par, refl. replace (- Z.of_nat (S j) <? 0)%Z with true by (symmetry; apply Z.ltb_lt; lia). replace (Z.of_nat (S j) <? 0)%Z with false by (symmetry; apply Z.ltb_ge; lia).
      replace (Z.abs_nat (- Z.of_nat (S j))) with (S j) by lia. rewrite Zabs2Nat.id. ring. }
    rewrite L, H. unfold turn. rewrite c_mirror. replace (- Z.of_nat (S j) - 1)%Z with (- Z.of_nat (S (S j)))%Z by lia. replace (- Z.of_nat (S j) + 1)%Z with (- Z.of_nat j)%Z by lia.
    replace (Z.of_nat (S j) - 1)%Z with (Z.of_nat j) by lia. replace (Z.of_nat (S j) + 1)%Z with (Z.of_nat (S (S j))) by lia. rewrite c_mirror. replace (Z.of_nat (S (S j)) - 1)%Z with (Z.of_nat (S j)) by lia.
    rewrite !hy_neg. cbn [pow]. ring.
Qed.
Lemma hy_derive : forall s n m (X Z : R -> R) y b, is_derive X b (Z b) -> is_derive Z b (- X b) -> X b * X b + y * y + Z b * Z b = 1 -> (- Z.of_nat n <= m <= Z.of_nat n)%Z ->
  is_derive (fun b => hy s n m (X b) y (Z b)) b (turn (Z.of_nat n) (fun m => hy s n m (X b) y (Z b)) m).
Proof.
  intros s n m X Z y b HX HZ N Hm. rewrite <- hy_turn by auto. unfold hy. set (k := Z.abs_nat m).
  apply (is_derive_ext (fun b => par m * refl s m * cnm n k * (hm s k (X b) y * P n k (Z b)))); [intros; match goal with |- @eq _ ?a ?b => change (@eq R a b) end; ring|].
  evar_last. { apply (is_derive_scal (fun b => hm s k (X b) y * P n k (Z b))). apply (is_derive_mult (K := R_AbsRing)); [apply hm_derive; exact HX | | intros; apply Rmult_comm].
    apply (is_derive_comp (P n k) Z); [apply is_derive_Reals, P_derivative | exact HZ]. }
  match goal with |- @eq _ ?a ?b => change (@eq R a b) end. unfold hy'. fold k. unfold plus, mult, scal. cbn -[hm INR P]. unfold mult. cbn -[hm INR P]. ring.
Qed.
Lemma hy_out : forall s n m x y z, ~ (- Z.of_nat n <= m <= Z.of_nat n)%Z -> hy s n m x y z = 0.
Proof. intros. unfold hy. rewrite P_high by lia. ring. Qed.
Lemma hy_derive_all : forall s n m (X Z : R -> R) y b, (forall b, is_derive X b (Z b)) -> (forall b, is_derive Z b (- X b)) -> (forall b, X b * X b + y * y + Z b * Z b = 1) ->
  is_derive (fun b => hy s n m (X b) y (Z b)) b (turn (Z.of_nat n) (fun m => hy s n m (X b) y (Z b)) m).
Proof.
  intros s n m X Z y b HX HZ N. destruct (inside (Z.of_nat n) m) eqn:I.
  - apply inside_true in I. apply hy_derive; auto.
  - assert (O: ~ (- Z.of_nat n <= m <= Z.of_nat n)%Z) by (rewrite <- inside_true, I; discriminate).
    apply (is_derive_ext (fun _ => 0)); [intros; match goal with |- @eq _ ?a ?b => change (@eq R a b) end; rewrite hy_out; auto|].
    match goal with |- is_derive _ _ ?l => replace l with 0 end; [apply (is_derive_const (V := R_NormedModule))|]. unfold turn. 
    assert (A: forall k, (k = m - 1 \/ k = m + 1)%Z -> forall q, (q = m - 1 \/ q = m)%Z -> (k = q \/ k = q + 1)%Z -> c (Z.of_nat n) q * hy s n k (X b) y (Z b) = 0).
    { intros k Hk q Hq Hkq. destruct (inside (Z.of_nat n) k) eqn:J; [|rewrite hy_out; [ring | rewrite <- inside_true, J; discriminate]]. apply inside_true in J. rewrite c_out by lia. ring. }
    rewrite !A by lia. ring.
Qed.

(* ---------------------------------------------- transport by a rotation about the y axis *)
Lemma turn_skew : forall n (F G : Z -> R), (0 <= n)%Z -> zu (- n) n (fun m => turn n F m * G m + F m * turn n G m) = 0.
Proof.
  intros n F G Hn. pose proof (turn_antisym n F Hn) as A. pose proof (turn_antisym n G Hn) as B. pose proof (turn_antisym n (fun m => F m + G m) Hn) as D. cbv beta in D.
  transitivity (1 / 2 * zu (- n) n (fun m => (F m + G m) * (c n (m - 1) * (F (m - 1)%Z + G (m - 1)%Z) - c n m * (F (m + 1)%Z + G (m + 1)%Z))) +
    (- (1 / 2) * zu (- n) n (fun m => F m * (c n (m - 1) * F (m - 1)%Z - c n m * F (m + 1)%Z)) + - (1 / 2) * zu (- n) n (fun m => G m * (c n (m - 1) * G (m - 1)%Z - c n m * G (m + 1)%Z)))).
  - rewrite <- !zu_scal, <- !zu_plus. apply zu_ext. intros k Hk. unfold turn. field.
  - rewrite A, B, D. ring.
Qed.
Lemma transport : forall n m1 (g : Z -> R -> R), (0 <= n)%Z -> (- n <= m1 <= n)%Z -> (forall m b, (- n <= m <= n)%Z -> is_derive (g m) b (turn n (fun m => g m b) m)) ->
  forall b, zu (- n) n (fun m => wd n m m1 b * g m b) = g m1 0.
Proof.
  intros n m1 g Hn Hm D b. set (S_ := fun b => zu (- n) n (fun m => wd n m m1 b * g m b)).
  change (S_ b = g m1 0). rewrite (constant S_).
  - unfold S_. rewrite (zu_pick _ _ _ m1); auto; [rewrite wd_0 by auto; rewrite Z.eqb_refl; ring|]. intros k Hk X. rewrite wd_0 by auto. replace (k =? m1)%Z with false by (symmetry; apply Z.eqb_neq; auto). ring.
  - intros t. evar_last.
    { apply is_derive_zu. intros i Hi. apply (is_derive_mult (K := R_AbsRing)); [apply wd_derive; auto | apply D; auto | intros; apply Rmult_comm]. }
    match goal with |- @eq _ ?a ?b => change (@eq R a b) end. unfold plus, mult. cbn. rewrite <- (turn_skew n (fun m => wd n m m1 t) (fun m => g m t)) by auto. apply zu_ext. intros k Hk. unfold turn. ring.
Qed.

(* ---------------------------------------------- vector harmonics *)
Definition va (n : Z) (y : Z -> R) (m : Z) : R := 1 / 2 * (c n (m - 1) * y (m - 1)%Z + c n m * y (m + 1)%Z).
Definition vc (y : Z -> R) (m : Z) : R := - IZR m * y m.
Lemma va_turn : forall n y m, (- n <= m <= n)%Z -> va n (turn n y) m - vc y m = turn n (va n y) m.
Proof.
  intros n y m H. unfold va, vc, turn. replace (m - 1 + 1)%Z with m by lia. replace (m + 1 - 1)%Z with m by lia.
  pose proof (c_sq n m ltac:(lia)) as A. pose proof (c_sq n (m - 1) ltac:(lia)) as B.
  replace (IZR (n * (n + 1) - m * (m + 1))) with (IZR (n * (n + 1) - (m - 1) * (m - 1 + 1)) - 2 * IZR m) in A by (rewrite !minus_IZR, !mult_IZR, !plus_IZR, !minus_IZR; ring).
  rewrite <- B in A. assert (Q: IZR m = 1 / 2 * (c n (m - 1) * c n (m - 1) - c n m * c n m)) by lra. rewrite Q. field.
Qed.
Lemma vc_turn : forall n y m, vc (turn n y) m + va n y m = turn n (vc y) m.
Proof. intros n y m. unfold va, vc, turn. rewrite minus_IZR, plus_IZR. field. Qed.
Section Rotate.
Variables (s : bool) (n : nat) (x y z : R).
Hypothesis unit : x * x + y * y + z * z = 1.
Let N := Z.of_nat n.
Let X b := x * cos b + z * sin b.
Let Z_ b := - x * sin b + z * cos b.
Let Y b := fun m => hy s n m (X b) y (Z_ b).
Lemma dX : forall b, is_derive X b (Z_ b).
Proof. intros b. unfold X, Z_. auto_derive; auto. ring. Qed.
Lemma dZ : forall b, is_derive Z_ b (- X b).
Proof. intros b. unfold X, Z_. auto_derive; auto. ring. Qed.
Lemma on_sphere : forall b, X b * X b + y * y + Z_ b * Z_ b = 1.
Proof. intros b. unfold X, Z_. pose proof (sin2_cos2 b) as H. unfold Rsqr in H. transitivity ((x * x + z * z) * (sin b * sin b + cos b * cos b) + y * y); [ring|]. rewrite H. lra. Qed.
Lemma dY : forall m b, is_derive (fun b => Y b m) b (turn N (Y b) m).
Proof. intros m b. unfold Y. apply (hy_derive_all s n m X Z_ y b); [apply dX | apply dZ | apply on_sphere]. Qed.
Lemma dva : forall m b, is_derive (fun b => va N (Y b) m) b (va N (turn N (Y b)) m).
Proof.
  intros m b. unfold va. apply (is_derive_scal (fun b => c N (m - 1) * Y b (m - 1)%Z + c N m * Y b (m + 1)%Z)).
  apply (is_derive_plus (fun b => c N (m - 1) * Y b (m - 1)%Z) (fun b => c N m * Y b (m + 1)%Z)); [apply (is_derive_scal (fun b => Y b (m - 1)%Z)) | apply (is_derive_scal (fun b => Y b (m + 1)%Z))]; apply dY.
Qed.
Lemma dvb : forall m b, is_derive (fun b => turn N (Y b) m) b (turn N (turn N (Y b)) m).
Proof.
  intros m b. unfold turn at 1 2. apply (is_derive_scal (fun b => c N (m - 1) * Y b (m - 1)%Z - c N m * Y b (m + 1)%Z)).
  apply (is_derive_minus (fun b => c N (m - 1) * Y b (m - 1)%Z) (fun b => c N m * Y b (m + 1)%Z)); [apply (is_derive_scal (fun b => Y b (m - 1)%Z)) | apply (is_derive_scal (fun b => Y b (m + 1)%Z))]; apply dY.
Qed.
Lemma dvc : forall m b, is_derive (fun b => vc (Y b) m) b (vc (turn N (Y b)) m).
Proof. intros m b. unfold vc. apply (is_derive_scal (fun b => Y b m)). apply dY. Qed.
Lemma turn_lin : forall (F G : Z -> R) p q m, turn N (fun m => p * F m + q * G m) m = p * turn N F m + q * turn N G m.
Proof. intros. unfold turn. ring. Qed.
(** the rotation of the three components *)
Lemma rotate_x : forall m1 b, (- N <= m1 <= N)%Z -> zu (- N) N (fun m => wd N m m1 b * (cos b * va N (Y b) m - sin b * vc (Y b) m)) = va N (Y 0) m1.
Proof.
  intros m1 b H. rewrite (transport N m1 (fun m b => cos b * va N (Y b) m - sin b * vc (Y b) m)); auto; [rewrite cos_0, sin_0; ring | unfold N; lia |].
  intros m t Hm. evar_last.
  { apply (is_derive_minus (fun b => cos b * va N (Y b) m) (fun b => sin b * vc (Y b) m)).
    - apply (is_derive_mult (K := R_AbsRing)); [apply is_derive_Reals, derivable_pt_lim_cos | apply dva | intros; apply Rmult_comm].
    - apply (is_derive_mult (K := R_AbsRing)); [apply is_derive_Reals, derivable_pt_lim_sin | apply dvc | intros; apply Rmult_comm]. }
  match goal with |- @eq _ ?a ?b => change (@eq R a b) end. unfold plus, minus, opp, mult. cbn -[va vc turn].
  transitivity (cos t * turn N (va N (Y t)) m + - sin t * turn N (vc (Y t)) m); [|unfold turn; ring]. rewrite <- va_turn, <- vc_turn by auto. ring.
Qed.
Lemma rotate_z : forall m1 b, (- N <= m1 <= N)%Z -> zu (- N) N (fun m => wd N m m1 b * (sin b * va N (Y b) m + cos b * vc (Y b) m)) = vc (Y 0) m1.
Proof.
  intros m1 b H. rewrite (transport N m1 (fun m b => sin b * va N (Y b) m + cos b * vc (Y b) m)); auto; [rewrite cos_0, sin_0; ring | unfold N; lia |].
  intros m t Hm. evar_last.
  { apply (is_derive_plus (fun b => sin b * va N (Y b) m) (fun b => cos b * vc (Y b) m)).
    - apply (is_derive_mult (K := R_AbsRing)); [apply is_derive_Reals, derivable_pt_lim_sin | apply dva | intros; apply Rmult_comm].
    - apply (is_derive_mult (K := R_AbsRing)); [apply is_derive_Reals, derivable_pt_lim_cos | apply dvc | intros; apply Rmult_comm]. }
  match goal with |- @eq _ ?a ?b => change (@eq R a b) end. unfold plus, minus, opp, mult. cbn -[va vc turn].
  transitivity (sin t * turn N (va N (Y t)) m + cos t * turn N (vc (Y t)) m); [|unfold turn; ring]. rewrite <- va_turn, <- vc_turn by auto. ring.
Qed.
Lemma rotate_y : forall m1 b, (- N <= m1 <= N)%Z -> zu (- N) N (fun m => wd N m m1 b * turn N (Y b) m) = turn N (Y 0) m1.
Proof.
  intros m1 b H. rewrite (transport N m1 (fun m b => turn N (Y b) m)); auto; [unfold N; lia |]. intros m t Hm. apply dvb.
Qed.
End Rotate.
(* ---------------------------------------------- in polar coordinates *)
Definition dz (n : nat) (m : Z) (t : R) : R := par m * dspec n (Z.abs_nat m) t.
Lemma hy_polar : forall n m t p, hy true n m (sin t * cos p) (sin t * sin p) (cos t) = dz n m t * cos (IZR m * p) /\
  hy false n m (sin t * cos p) (sin t * sin p) (cos t) = dz n m t * sin (IZR m * p).
Proof.
  intros n m t p. unfold hy, dz, dspec, hm. rewrite hm_polar. cbn [fst snd]. rewrite INR_IZR_INZ. unfold refl. destruct (Z.ltb_spec m 0).
  - replace (IZR (Z.of_nat (Z.abs_nat m)) * p) with (- (IZR m * p)) by (replace (Z.of_nat (Z.abs_nat m)) with (- m)%Z by lia; rewrite opp_IZR; ring). rewrite cos_neg, sin_neg. unfold sg. split; ring.
  - replace (Z.of_nat (Z.abs_nat m)) with m by lia. split; ring.
Qed.
Lemma dz_neg : forall n k t, dz n (- Z.of_nat k) t = (-1) ^ k * dz n (Z.of_nat k) t.
Proof.
  intros. unfold dz, par. replace (Z.of_nat k <? 0)%Z with false by (symmetry; apply Z.ltb_ge; lia). replace (Z.abs_nat (- Z.of_nat k)) with k by lia. rewrite Zabs2Nat.id. destruct k; [cbn; ring|].
  replace (- Z.of_nat (S k) <? 0)%Z with true by (symmetry; apply Z.ltb_lt; lia). ring.
Qed.
Lemma dz_pos : forall n k t, dz n (Z.of_nat k) t = dspec n k t.
Proof. intros. unfold dz, par. replace (Z.of_nat k <? 0)%Z with false by (symmetry; apply Z.ltb_ge; lia). rewrite Zabs2Nat.id. ring. Qed.
Lemma tau_pi_pos : forall n k t, (k <= n)%nat -> let y := fun m => dz n m t in
  turn (Z.of_nat n) y (Z.of_nat k) = dspec' n k t /\ va (Z.of_nat n) y (Z.of_nat k) = INR k * cos t * qspec n k t.
Proof.
  intros n k t Hk y. unfold turn, va. replace (Z.of_nat k + 1)%Z with (Z.of_nat (S k)) by lia.
  assert (UP: c (Z.of_nat n) (Z.of_nat k) * y (Z.of_nat (S k)) = cnm n k * sin t ^ S k * P n (S k) (cos t)).
  { unfold y. rewrite dz_pos. unfold dspec. destruct (Nat.eq_dec k n) as [->|X]; [rewrite (P_high n (S n)) by lia; ring|]. rewrite <- (c_cnm n k) by lia. ring. }
  rewrite UP. destruct k as [|k].
  - replace (Z.of_nat 0 - 1)%Z with (- Z.of_nat 1)%Z by lia. rewrite c_mirror. replace (Z.of_nat 1 - 1)%Z with (Z.of_nat 0) by lia. unfold y at 1 2. rewrite dz_neg. fold (y (Z.of_nat 1)).
    assert (EQ: c (Z.of_nat n) (Z.of_nat 0) * ((-1) ^ 1 * y (Z.of_nat 1)) = - (cnm n 0 * sin t ^ 1 * P n 1 (cos t))) by (rewrite <- UP; ring).
    rewrite EQ. unfold dspec'. cbn [INR pow pred]. split; field.
  - replace (Z.of_nat (S k) - 1)%Z with (Z.of_nat k) by lia.
    assert (EQ: c (Z.of_nat n) (Z.of_nat k) * y (Z.of_nat k) = (INR n * (INR n + 1) - INR k * (INR k + 1)) * (cnm n (S k) * sin t ^ k * P n k (cos t))).
    { unfold y. rewrite dz_pos. unfold dspec. rewrite <- (c_cnm n k) by lia. transitivity (c (Z.of_nat n) (Z.of_nat k) * c (Z.of_nat n) (Z.of_nat k) * (cnm n (S k) * sin t ^ k * P n k (cos t))); [ring|]. rewrite c_sq by lia.
      rewrite minus_IZR, !mult_IZR, !plus_IZR, <- !INR_IZR_INZ. ring. }
    rewrite EQ. pose proof (associated n k (cos t)) as A. pose proof (sin2_cos2 t) as T. unfold Rsqr in T.
    assert (B: (INR n * (INR n + 1) - INR k * (INR k + 1)) * P n k (cos t) = 2 * (INR k + 1) * cos t * P n (S k) (cos t) - sin t * sin t * P n (S (S k)) (cos t)).
    { replace (sin t * sin t) with (1 - cos t * cos t) by lra. lra. }
    replace ((INR n * (INR n + 1) - INR k * (INR k + 1)) * (cnm n (S k) * sin t ^ k * P n k (cos t)))
      with (cnm n (S k) * sin t ^ k * ((INR n * (INR n + 1) - INR k * (INR k + 1)) * P n k (cos t))) by ring.
    rewrite B. unfold dspec', qspec. rewrite S_INR. replace (S k - 1)%nat with k by lia. cbn [pred pow]. split; field.
Qed.
Lemma tau_pi : forall n m t, (- Z.of_nat n <= m <= Z.of_nat n)%Z -> let y := fun m => dz n m t in
  turn (Z.of_nat n) y m = par m * dspec' n (Z.abs_nat m) t /\ va (Z.of_nat n) y m = IZR m * cos t * (par m * qspec n (Z.abs_nat m) t).
Proof.
  intros n m t Hm y. destruct (Z_le_gt_dec 0 m) as [A|A].
  - destruct (tau_pi_pos n (Z.to_nat m) t ltac:(lia)) as (B & D). fold y in B, D. rewrite Z2Nat.id in B, D by lia. rewrite B, D. unfold par. replace (m <? 0)%Z with false by (symmetry; apply Z.ltb_ge; lia).
    rewrite INR_IZR_INZ, Z2Nat.id by lia. replace (Z.abs_nat m) with (Z.to_nat m) by lia. split; ring.
  - set (k := Z.to_nat (- m)). assert (Ek: m = (- Z.of_nat (S (k - 1)))%Z) by (unfold k; lia). set (j := (k - 1)%nat) in *. clearbody j. clear k. subst m.
    destruct (tau_pi_pos n (S j) t ltac:(lia)) as (B & D). fold y in B, D. unfold turn, va in *.
    replace (- Z.of_nat (S j) - 1)%Z with (- Z.of_nat (S (S j)))%Z by lia. replace (- Z.of_nat (S j) + 1)%Z with (- Z.of_nat j)%Z by lia. rewrite !c_mirror.
    replace (Z.of_nat (S j) - 1)%Z with (Z.of_nat j) in * by lia. replace (Z.of_nat (S j) + 1)%Z with (Z.of_nat (S (S j))) in * by lia. replace (Z.of_nat (S (S j)) - 1)%Z with (Z.of_nat (S j)) by lia.
    unfold y in *. rewrite !dz_neg. unfold par. replace (- Z.of_nat (S j) <? 0)%Z with true by (symmetry; apply Z.ltb_lt; lia). replace (Z.abs_nat (- Z.of_nat (S j))) with (S j) by lia.
    rewrite opp_IZR, <- INR_IZR_INZ. split.
    + rewrite <- B. cbn [pow]. ring.
    + transitivity (- (-1) ^ S j * (INR (S j) * cos t * qspec n (S j) t)); [rewrite <- D; cbn [pow]; ring | ring].
Qed.
