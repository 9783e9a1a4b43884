(** Parseval's identity for finite sums, and the sphere quadrature of the Wigner pairs. Used by Props_average.v. *)
From Coq Require Import List Arith Lia Bool ZArith Reals Lra Psatz.
From Coquelicot Require Import Coquelicot Complex.
From Verif Require Import Legendre GaussExact Wigner Ortho Matrix Optics Props_optics TClass Frames FramesFacts Props_frames Props_outputs.
Import ListNotations.
Local Open Scope R_scope.

(* ---------------------------------------------- sums *)
Lemma rsum_scal_r : forall {X} (l : list X) a f, rsum l (fun x => f x * a) = rsum l f * a.
Proof. intros. rewrite Rmult_comm, <- rsum_scal. apply rsum_ext. intros; ring. Qed.
Lemma rsum_prod : forall {X Y} (A : list X) (B : list Y) f, rsum (list_prod A B) f = rsum A (fun a => rsum B (fun b => f (a, b))).
Proof. induction A; intros; cbn [list_prod]; auto. rewrite rsum_app, rsum_cons, IHA. f_equal. apply rsum_map. Qed.
Lemma csum_prod : forall {X Y} (A : list X) (B : list Y) f, csum (list_prod A B) f = csum A (fun a => csum B (fun b => f (a, b))).
Proof. induction A; intros; cbn [list_prod]; auto. rewrite csum_app, IHA. change (csum (a :: A) (fun a0 => csum B (fun b => f (a0, b)))) with (csum B (fun b => f (a, b)) + csum A (fun a0 => csum B (fun b => f (a0, b))))%C. f_equal. apply csum_map. Qed.
Lemma csum_cons : forall {X} (x : X) l f, csum (x :: l) f = (f x + csum l f)%C.
Proof. reflexivity. Qed.
Lemma csum_nil : forall {X} (f : X -> C), csum [] f = RtoC 0.
Proof. reflexivity. Qed.
Lemma csum_swap : forall {X Y} (l : list X) (l' : list Y) f, csum l (fun x => csum l' (fun y => f x y)) = csum l' (fun y => csum l (fun x => f x y)).
Proof.
  induction l; intros l' f.
  - symmetry. apply csum_zero. auto.
  - rewrite csum_cons, IHl, <- csum_add. reflexivity.
Qed.
Lemma rsum_nonneg : forall {X} (l : list X) f, (forall x, In x l -> 0 <= f x) -> 0 <= rsum l f.
Proof. induction l; intros f H; rewrite ?rsum_cons, ?rsum_nil; [lra|]. assert (0 <= f a) by (apply H; now left). assert (0 <= rsum l f) by (apply IHl; intros; apply H; now right). lra. Qed.
Lemma rsum_le : forall {X} (l : list X) f g, (forall x, In x l -> f x <= g x) -> rsum l f <= rsum l g.
Proof. induction l; intros f g H; rewrite ?rsum_cons, ?rsum_nil; [lra|]. assert (f a <= g a) by (apply H; now left). assert (rsum l f <= rsum l g) by (apply IHl; intros; apply H; now right). lra. Qed.
Lemma rsum_Rabs : forall {X} (l : list X) f, Rabs (rsum l f) <= rsum l (fun x => Rabs (f x)).
Proof. induction l; intros; rewrite ?rsum_cons, ?rsum_nil; [rewrite Rabs_R0; lra|]. eapply Rle_trans; [apply Rabs_triang|]. specialize (IHl f). lra. Qed.
Lemma rsum_pick_in : forall {X} (dec : forall a b : X, {a = b} + {a <> b}) (l : list X) x g, NoDup l -> In x l -> rsum l (fun y => if dec x y then g y else 0) = g x.
Proof.
  induction l as [|a l IH]; intros x g ND I; [destruct I|]. inversion ND as [|? ? N1 N2]; subst. rewrite rsum_cons. destruct I as [ -> | I].
  - destruct (dec x x); [|contradiction]. rewrite rsum_zero; [ring|]. intros y Hy. destruct (dec x y); auto. subst. contradiction.
  - destruct (dec x a) as [ -> | N]; [contradiction|]. rewrite IH; auto. ring.
Qed.

(* ---------------------------------------------- Parseval *)
Section Parseval.
Context {X Y : Type} (dec : forall a b : X, {a = b} + {a <> b}) (l : list X) (ys : list Y) (w : Y -> R) (b : X -> Y -> R) (N : X -> R).
Hypothesis ND : NoDup l.
Hypothesis Gram : forall x x', In x l -> In x' l -> rsum ys (fun y => w y * (b x y * b x' y)) = if dec x x' then N x else 0.
Lemma parseval_real : forall f, rsum ys (fun y => w y * (rsum l (fun x => f x * b x y) * rsum l (fun x => f x * b x y))) = rsum l (fun x => N x * (f x * f x)).
Proof.
  intros f.
  transitivity (rsum ys (fun y => rsum l (fun x => rsum l (fun x' => f x * f x' * (w y * (b x y * b x' y)))))).
  { apply rsum_ext. intros y _. rewrite <- rsum_scal_r, <- rsum_scal. apply rsum_ext. intros x _. rewrite <- rsum_scal, <- rsum_scal. apply rsum_ext. intros x' _. ring. }
  rewrite rsum_swap. apply rsum_ext. intros x Hx. rewrite rsum_swap.
  transitivity (rsum l (fun x' => if dec x x' then N x * (f x * f x') else 0)).
  { apply rsum_ext. intros x' Hx'. rewrite rsum_scal, Gram by auto. destruct (dec x x'); ring. }
  rewrite (rsum_pick_in dec l x (fun x' => N x * (f x * f x'))); auto.
Qed.
Lemma parseval : forall f : X -> C, rsum ys (fun y => w y * norm2 (csum l (fun x => f x * RtoC (b x y))%C)) = rsum l (fun x => N x * norm2 (f x)).
Proof.
  intros f. rewrite (rsum_ext ys _ (fun y => w y * (rsum l (fun x => Re (f x) * b x y) * rsum l (fun x => Re (f x) * b x y)) + w y * (rsum l (fun x => Im (f x) * b x y) * rsum l (fun x => Im (f x) * b x y)))).
  - rewrite rsum_add, !parseval_real, <- rsum_add. apply rsum_ext. intros. unfold norm2. ring.
  - intros y _. unfold norm2.
    assert (E: csum l (fun x => f x * RtoC (b x y))%C = (rsum l (fun x => Re (f x) * b x y), rsum l (fun x => Im (f x) * b x y))).
    { clear. induction l as [|a l' IH]; [reflexivity|]. rewrite csum_cons, !rsum_cons, IH. destruct (f a) as (p, q). unfold Cplus, Cmult, RtoC. cbn [fst snd Re Im]. f_equal; ring. }
    rewrite E. cbn [Re Im fst snd]. ring.
Qed.
End Parseval.
Section Parseval2.
Context {X Y : Type} (dec : forall a b : X, {a = b} + {a <> b}) (l : list X) (ys : list Y) (w : Y -> R) (b : X -> Y -> R) (N : X -> R).
Hypothesis ND : NoDup l.
Hypothesis Gram : forall x x', In x l -> In x' l -> rsum ys (fun y => w y * (b x y * b x' y)) = if dec x x' then N x else 0.
Lemma parseval2 : forall M : X -> X -> C,
  rsum ys (fun y => rsum ys (fun z => w y * w z * norm2 (csum l (fun x => csum l (fun x' => M x x' * RtoC (b x y) * RtoC (b x' z))))%C)) = rsum l (fun x => rsum l (fun x' => N x * N x' * norm2 (M x x'))).
Proof.
  intros M. rewrite rsum_swap.
  transitivity (rsum ys (fun z => rsum l (fun x => w z * (N x * norm2 (csum l (fun x' => M x x' * RtoC (b x' z))%C))))).
  { apply rsum_ext. intros z _. rewrite rsum_scal. rewrite <- (parseval dec l ys w b N ND Gram). rewrite <- rsum_scal. apply rsum_ext. intros y _.
    rewrite (csum_ext l _ (fun x => csum l (fun x' => M x x' * RtoC (b x' z))%C * RtoC (b x y))%C); [ring|]. intros x _. rewrite Cmult_comm, <- csum_mul. apply csum_ext. intros; ring. }
  rewrite rsum_swap. apply rsum_ext. intros x _. transitivity (N x * rsum ys (fun z => w z * norm2 (csum l (fun x' => M x x' * RtoC (b x' z))%C))).
  { rewrite <- rsum_scal. apply rsum_ext. intros; ring. }
  rewrite (parseval dec l ys w b N ND Gram). rewrite <- rsum_scal. apply rsum_ext. intros; ring.
Qed.
End Parseval2.

(* ---------------------------------------------- quadrature over the sphere *)
(** the rule integrates all polynomials of degree below 2 ngauss over [-1, 1] (C49 for the rule the code makes) *)
Definition exact_rule (ngauss : nat) (x w : nat -> R) : Prop :=
  forall p, (length p <= 2 * ngauss)%nat -> is_RInt (eval p) (-1) 1 (rsum (seq 0 ngauss) (fun i => w i * eval p (x i))).
(** no point so close to the poles that the code replaces it by the pole *)
Definition usable (ngauss : nat) (x : nat -> R) : Prop := forall i, (i < ngauss)%nat -> -1 <= x i <= 1 /\ resolved (acos (x i)).
Definition wpi (m : Z) (n : nat) (t : R) : R := IZR m * d_over_sin t m n.
Definition wtau (m : Z) (n : nat) (t : R) : R := d_prime t m n.
Lemma sgn_sq : forall m, sgn m * sgn m = 1.
Proof. intros m. unfold sgn. destruct (m <? 0)%Z; [|ring]. rewrite <- Rpow_mult_distr. replace (-1 * -1) with 1 by ring. apply pow1. Qed.
Lemma IZR_abs_nat : forall m, IZR m = (if (m <? 0)%Z then -1 else 1) * INR (Z.abs_nat m).
Proof.
  intros m. rewrite INR_IZR_INZ. rewrite Zabs2Nat.id_abs. destruct (Z.ltb_spec m 0); [rewrite Z.abs_neq by lia; rewrite opp_IZR; ring|]. rewrite Z.abs_eq by lia. ring.
Qed.
Lemma even_form : forall m n n' t, wpi m n t * wpi m n' t + wtau m n t * wtau m n' t = gram_even n n' (Z.abs_nat m) t.
Proof.
  intros. unfold wpi, wtau, d_over_sin, d_prime, gram_even. rewrite IZR_abs_nat. pose proof (sgn_sq m) as E.
  set (e := if (m <? 0)%Z then -1 else 1). assert (E2: e * e = 1) by (unfold e; destruct (m <? 0)%Z; ring).
  transitivity ((e * e) * (sgn m * sgn m) * (INR (Z.abs_nat m) * qspec n (Z.abs_nat m) t * (INR (Z.abs_nat m) * qspec n' (Z.abs_nat m) t)) + (sgn m * sgn m) * (dspec' n (Z.abs_nat m) t * dspec' n' (Z.abs_nat m) t)); [ring|]. rewrite E, E2. ring.
Qed.
Lemma odd_form : forall m n n' t, wpi m n t * wtau m n' t + wtau m n t * wpi m n' t = (if (m <? 0)%Z then -1 else 1) * gram_odd n n' (Z.abs_nat m) t.
Proof.
  intros. unfold wpi, wtau, d_over_sin, d_prime, gram_odd. rewrite IZR_abs_nat. pose proof (sgn_sq m) as E.
  set (e := if (m <? 0)%Z then -1 else 1).
  transitivity (e * (sgn m * sgn m) * (INR (Z.abs_nat m) * qspec n (Z.abs_nat m) t * dspec' n' (Z.abs_nat m) t + dspec' n (Z.abs_nat m) t * (INR (Z.abs_nat m) * qspec n' (Z.abs_nat m) t))); [ring|]. rewrite E. ring.
Qed.
Section Rule.
Variables (nmax ngauss : nat) (x w : nat -> R).
Hypothesis Hg : (nmax < ngauss)%nat.
Hypothesis EX : exact_rule ngauss x w.
Hypothesis US : usable ngauss x.
Lemma rule_value : forall f p v, (length p <= 2 * ngauss)%nat -> (forall t, f t = eval p (cos t)) -> is_RInt (eval p) (-1) 1 v -> rsum (seq 0 ngauss) (fun i => w i * f (acos (x i))) = v.
Proof.
  intros f p v L E I. pose proof (EX p L) as J. pose proof (is_RInt_unique _ _ _ _ I) as U1. pose proof (is_RInt_unique _ _ _ _ J) as U2. rewrite U1 in U2.
  transitivity (rsum (seq 0 ngauss) (fun i => w i * eval p (x i))); [|symmetry; exact U2].
  apply rsum_ext. intros i Hi. apply in_seq in Hi. rewrite E, cos_acos; auto. apply US. lia.
Qed.
Lemma in_degrees : forall m n, In n (degrees nmax m) -> (Nat.max 1 (Z.abs_nat m) <= n <= nmax)%nat.
Proof. intros m n H. unfold degrees in H. apply in_seq in H. lia. Qed.
Lemma even_rule : forall m n n', In n (degrees nmax m) -> In n' (degrees nmax m) ->
  rsum (seq 0 ngauss) (fun i => w i * (wpi m n (acos (x i)) * wpi m n' (acos (x i)) + wtau m n (acos (x i)) * wtau m n' (acos (x i)))) = if Nat.eqb n n' then gram_norm n else 0.
Proof.
  intros m n n' H H'. apply in_degrees in H. apply in_degrees in H'. destruct (gram_even_integral n n' (Z.abs_nat m) ltac:(lia) ltac:(lia)) as (p & L & E & I).
  apply (rule_value (fun t => wpi m n t * wpi m n' t + wtau m n t * wtau m n' t) p); auto; [lia|]. intros t. rewrite even_form. apply E.
Qed.
Lemma odd_rule : forall m n n', In n (degrees nmax m) -> In n' (degrees nmax m) ->
  rsum (seq 0 ngauss) (fun i => w i * (wpi m n (acos (x i)) * wtau m n' (acos (x i)) + wtau m n (acos (x i)) * wpi m n' (acos (x i)))) = 0.
Proof.
  intros m n n' H H'. apply in_degrees in H. apply in_degrees in H'. destruct (gram_odd_integral n n' (Z.abs_nat m) ltac:(lia) ltac:(lia)) as (p & L & E & I).
  set (e := if (m <? 0)%Z then -1 else 1).
  transitivity (e * rsum (seq 0 ngauss) (fun i => w i * gram_odd n n' (Z.abs_nat m) (acos (x i)))).
  - rewrite <- rsum_scal. apply rsum_ext. intros i _. rewrite odd_form. fold e. ring.
  - rewrite (rule_value (gram_odd n n' (Z.abs_nat m)) p 0); auto; [ring|lia].
Qed.
(** the basis: degree and kind of wave (0 or 1), at a point of the sphere rule, polarisation 0 or 1 *)
Definition basis (m : Z) (q : nat * nat) (y : nat * nat) : R :=
  if Nat.eqb (snd q) (fst y) then wpi m (fst q) (acos (x (snd y))) else wtau m (fst q) (acos (x (snd y))).
Definition waves (m : Z) : list (nat * nat) := list_prod (degrees nmax m) [0; 1]%nat.
Definition points : list (nat * nat) := list_prod [0; 1]%nat (seq 0 ngauss).
Definition pair_dec : forall a b : nat * nat, {a = b} + {a <> b}.
Proof. decide equality; apply Nat.eq_dec. Defined.
Lemma waves_nodup : forall m, NoDup (waves m).
Proof.
  intros m. unfold waves. assert (ND: NoDup (degrees nmax m)) by apply seq_NoDup. induction (degrees nmax m) as [|n l IH]; cbn [list_prod]; [constructor|].
  inversion ND as [|? ? N1 N2]; subst. cbn [map app]. assert (A: forall i, ~ In (n, i) (list_prod l [0; 1]%nat)) by (intros i H; apply in_prod_iff in H; tauto).
  constructor; [intros [H|H]; [congruence|exact (A _ H)]|]. constructor; [apply A|auto].
Qed.
Lemma basis_gram : forall m q q', In q (waves m) -> In q' (waves m) ->
  rsum points (fun y => w (snd y) * (basis m q y * basis m q' y)) = if pair_dec q q' then gram_norm (fst q) else 0.
Proof.
  intros m (n, i) (n', j) H H'. apply in_prod_iff in H. apply in_prod_iff in H'. destruct H as (Hn & Hi). destruct H' as (Hn' & Hj).
  unfold points. rewrite rsum_prod, !rsum_cons, rsum_nil, Rplus_0_r, <- rsum_add. cbn [fst snd].
  assert (E: forall i, In i [0; 1]%nat -> i = 0%nat \/ i = 1%nat) by (cbn; intros; lia). apply E in Hi. apply E in Hj.
  destruct Hi as [ -> | -> ], Hj as [ -> | -> ]; unfold basis; cbn [fst snd Nat.eqb].
  - rewrite (rsum_ext _ _ (fun i => w i * (wpi m n (acos (x i)) * wpi m n' (acos (x i)) + wtau m n (acos (x i)) * wtau m n' (acos (x i))))) by (intros; ring). rewrite even_rule by auto.
    destruct (Nat.eqb_spec n n'), (pair_dec (n, 0%nat) (n', 0%nat)); congruence.
  - rewrite (rsum_ext _ _ (fun i => w i * (wpi m n (acos (x i)) * wtau m n' (acos (x i)) + wtau m n (acos (x i)) * wpi m n' (acos (x i))))) by (intros; ring). rewrite odd_rule by auto.
    destruct (pair_dec (n, 0%nat) (n', 1%nat)); congruence.
  - rewrite (rsum_ext _ _ (fun i => w i * (wpi m n (acos (x i)) * wtau m n' (acos (x i)) + wtau m n (acos (x i)) * wpi m n' (acos (x i))))) by (intros; ring). rewrite odd_rule by auto.
    destruct (pair_dec (n, 1%nat) (n', 0%nat)); congruence.
  - rewrite (rsum_ext _ _ (fun i => w i * (wpi m n (acos (x i)) * wpi m n' (acos (x i)) + wtau m n (acos (x i)) * wtau m n' (acos (x i))))) by (intros; ring). rewrite even_rule by auto.
    destruct (Nat.eqb_spec n n'), (pair_dec (n, 1%nat) (n', 1%nat)); congruence.
Qed.
End Rule.

(* ---------------------------------------------- azimuths *)
(** the rule integrates e^{i j phi} over [0, 2 pi] with an error of at most eps *)
Definition azimuth_rule (nmax ngauss : nat) (p v : nat -> R) (eps : R) : Prop :=
  forall j, (Z.abs j <= 2 * Z.of_nat nmax)%Z -> Cmod (csum (seq 0 ngauss) (fun b => RtoC (v b) * expi j (p b)) - RtoC (if (j =? 0)%Z then 2 * PI else 0))%C <= eps.
Lemma norm2_mult : forall a b, norm2 (a * b)%C = norm2 a * norm2 b.
Proof. intros (a, b) (c, d). unfold norm2, Cmult. cbn [Re Im fst snd]. ring. Qed.
Lemma norm2_Cmod : forall z, norm2 z = Cmod z * Cmod z.
Proof. intros (a, b). unfold norm2, Cmod. cbn [Re Im fst snd]. rewrite sqrt_sqrt; [ring|]. nra. Qed.
Lemma Re_le_Cmod : forall z, Rabs (Re z) <= Cmod z.
Proof. intros z. eapply Rle_trans; [|apply Rmax_Cmod]. unfold Re. apply Rmax_l. Qed.
Lemma cauchy : forall (l : list Z) (f : Z -> R), rsum l f * rsum l f <= INR (length l) * rsum l (fun m => f m * f m).
Proof.
  intros l f. induction l as [|a l IH]; [rewrite !rsum_nil; cbn; lra|]. rewrite !rsum_cons. cbn [length]. rewrite S_INR.
  set (s := rsum l f) in *. set (q := rsum l (fun m => f m * f m)) in *. set (n := INR (length l)) in *. assert (Hn: 0 <= n) by apply pos_INR.
  assert (Hq: 0 <= q) by (apply rsum_nonneg; intros; nra).
  destruct (Req_dec n 0) as [E|E]; [rewrite E in *; assert (s * s = 0) by nra; assert (s = 0) by nra; subst s; nra|].
  assert (0 < n) by lra. assert (2 * f a * s <= n * (f a * f a) + s * s / n).
  { apply Rmult_le_reg_l with n; auto. replace (n * (n * (f a * f a) + s * s / n)) with (n * n * (f a * f a) + s * s) by (field; lra). pose proof (Rle_0_sqr (n * f a - s)) as Q. unfold Rsqr in Q. nra. }
  assert (s * s / n <= q). { apply Rmult_le_reg_l with n; auto. replace (n * (s * s / n)) with (s * s) by (field; lra). lra. }
  nra.
Qed.
Lemma expi_conj_mult : forall m m' phi, (expi m (0 - phi) * Cconj (expi m' (0 - phi)))%C = expi (m' - m) phi.
Proof.
  intros. unfold expi, Cconj, Cmult. cbn [fst snd Re Im]. rewrite minus_IZR. replace (IZR m * (0 - phi)) with (- (IZR m * phi)) by ring. replace (IZR m' * (0 - phi)) with (- (IZR m' * phi)) by ring.
  rewrite !cos_neg, !sin_neg. replace ((IZR m' - IZR m) * phi) with (IZR m' * phi - IZR m * phi) by ring. rewrite cos_minus, sin_minus. f_equal; ring.
Qed.
Lemma conj_mult : forall a b, Cconj (a * b)%C = (Cconj a * Cconj b)%C.
Proof. intros (a, b) (c, d). unfold Cconj, Cmult. cbn [fst snd]. f_equal; ring. Qed.
Lemma mod_conj : forall a, Cmod (Cconj a) = Cmod a.
Proof. intros (a, b). unfold Cconj, Cmod. cbn [fst snd]. f_equal. ring. Qed.
Lemma norm2_Re : forall z, norm2 z = Re (z * Cconj z)%C.
Proof. intros (a, b). unfold norm2, Cconj, Cmult. cbn [Re Im fst snd]. ring. Qed.
Lemma csum_conj : forall {X} (l : list X) f, Cconj (csum l f) = csum l (fun x => Cconj (f x)).
Proof. induction l; intros; [unfold csum, Cconj, RtoC; cbn; f_equal; ring|]. rewrite !csum_cons, <- IHl. destruct (f a), (csum l f). unfold Cconj, Cplus. cbn [fst snd]. f_equal; ring. Qed.
Lemma csum_mul_r : forall {X} (l : list X) a f, csum l (fun x => f x * a)%C = (csum l f * a)%C.
Proof. intros. rewrite Cmult_comm, <- csum_mul. apply csum_ext. intros; ring. Qed.
Lemma Cmod_csum : forall {X} (l : list X) f, Cmod (csum l f) <= rsum l (fun x => Cmod (f x)).
Proof. induction l; intros; [rewrite csum_nil, Cmod_0, rsum_nil; lra|]. rewrite csum_cons, rsum_cons. eapply Rle_trans; [apply Cmod_triangle|]. specialize (IHl f). lra. Qed.
Lemma orders_length : forall nmax, length (orders nmax) = (2 * nmax + 1)%nat.
Proof. intros. unfold orders. rewrite map_length, seq_length. reflexivity. Qed.
Lemma orders_nodup : forall nmax, NoDup (orders nmax).
Proof. intros. unfold orders. apply FinFun.Injective_map_NoDup; [|apply seq_NoDup]. intros a b H. lia. Qed.
Lemma orders_in : forall nmax m, In m (orders nmax) -> (Z.abs m <= Z.of_nat nmax)%Z.
Proof. intros nmax m H. unfold orders in H. apply in_map_iff in H. destruct H as (k & <- & Hk). apply in_seq in Hk. lia. Qed.
Lemma azimuth_bound : forall nmax ngauss p v eps (A : Z -> C), azimuth_rule nmax ngauss p v eps ->
  Rabs (rsum (seq 0 ngauss) (fun b => v b * norm2 (csum (orders nmax) (fun m => expi m (0 - p b) * A m)%C)) - 2 * PI * rsum (orders nmax) (fun m => norm2 (A m)))
  <= eps * INR (2 * nmax + 1) * rsum (orders nmax) (fun m => norm2 (A m)).
Proof.
  intros nmax ngauss p v eps A H. set (E := fun j => csum (seq 0 ngauss) (fun b => RtoC (v b) * expi j (p b))%C). set (L := orders nmax).
  assert (HE: 0 <= eps). { eapply Rle_trans; [apply Cmod_ge_0|]. apply (H 0%Z). lia. }
  assert (X1: rsum (seq 0 ngauss) (fun b => v b * norm2 (csum L (fun m => expi m (0 - p b) * A m)%C)) = Re (csum L (fun m => csum L (fun m' => A m * Cconj (A m') * E (m' - m)%Z)%C))).
  { transitivity (Re (csum (seq 0 ngauss) (fun b => csum L (fun m => csum L (fun m' => A m * Cconj (A m') * (RtoC (v b) * expi (m' - m) (p b)))%C)))).
    - rewrite Re_csum. apply rsum_ext. intros b _. rewrite norm2_Re, csum_conj, <- csum_mul_r.
      replace (v b * Re (csum L (fun x => (expi x (0 - p b) * A x * csum L (fun x0 => Cconj (expi x0 (0 - p b) * A x0)))%C)))
        with (Re (RtoC (v b) * csum L (fun x => (expi x (0 - p b) * A x * csum L (fun x0 => Cconj (expi x0 (0 - p b) * A x0)))%C))%C).
      2:{ set (z := csum L _). destruct z. unfold Re, Cmult, RtoC. cbn [fst snd]. ring. }
      f_equal. rewrite <- csum_mul. apply csum_ext. intros m _. rewrite <- !csum_mul. apply csum_ext. intros m' _. rewrite <- expi_conj_mult. rewrite conj_mult. ring.
    - f_equal. rewrite csum_swap. apply csum_ext. intros m _. rewrite csum_swap. apply csum_ext. intros m' _. rewrite csum_mul. reflexivity. }
  assert (X2: 2 * PI * rsum L (fun m => norm2 (A m)) = Re (csum L (fun m => csum L (fun m' => A m * Cconj (A m') * RtoC (if (m' - m =? 0)%Z then 2 * PI else 0))%C))).
  { rewrite Re_csum, <- rsum_scal. apply rsum_ext. intros m Hm. rewrite Re_csum.
    rewrite (rsum_ext L _ (fun m' => if Z.eq_dec m m' then 2 * PI * Re (A m * Cconj (A m'))%C else 0)).
    - rewrite (rsum_pick_in Z.eq_dec L m (fun m' => 2 * PI * Re (A m * Cconj (A m'))%C)); [rewrite norm2_Re; reflexivity|apply orders_nodup|auto].
    - intros m' _. destruct (Z.eqb_spec (m' - m) 0), (Z.eq_dec m m'); try lia; [set (z := (A m * Cconj (A m'))%C)|set (z := (A m * Cconj (A m'))%C)]; destruct z; unfold Re, Cmult, RtoC; cbn [fst snd]; ring. }
  rewrite X1, X2.
  assert (D: Re (csum L (fun m => csum L (fun m' => A m * Cconj (A m') * E (m' - m)%Z)%C)) - Re (csum L (fun m => csum L (fun m' => A m * Cconj (A m') * RtoC (if (m' - m =? 0)%Z then 2 * PI else 0))%C))
    = Re (csum L (fun m => csum L (fun m' => A m * Cconj (A m') * (E (m' - m)%Z - RtoC (if (m' - m =? 0)%Z then 2 * PI else 0)))%C))).
  { transitivity (Re (csum L (fun m => csum L (fun m' => A m * Cconj (A m') * E (m' - m)%Z)%C) - csum L (fun m => csum L (fun m' => A m * Cconj (A m') * RtoC (if (m' - m =? 0)%Z then 2 * PI else 0))%C))%C); [unfold Re, Cminus, Cplus, Copp; cbn [fst snd]; ring|].
    f_equal. replace (csum L (fun m => csum L (fun m' => A m * Cconj (A m') * E (m' - m)%Z)%C)) with (csum L (fun m => csum L (fun m' => A m * Cconj (A m') * (E (m' - m)%Z - RtoC (if (m' - m =? 0)%Z then 2 * PI else 0)))%C) + csum L (fun m => csum L (fun m' => A m * Cconj (A m') * RtoC (if (m' - m =? 0)%Z then 2 * PI else 0))%C))%C; [ring|].
    rewrite <- csum_add. apply csum_ext. intros m _. rewrite <- csum_add. apply csum_ext. intros m' _. ring. }
  rewrite D. eapply Rle_trans; [apply Re_le_Cmod|]. eapply Rle_trans; [apply Cmod_csum|].
  apply Rle_trans with (rsum L (fun m => rsum L (fun m' => Cmod (A m) * Cmod (A m') * eps))).
  { apply rsum_le. intros m Hm. eapply Rle_trans; [apply Cmod_csum|]. apply rsum_le. intros m' Hm'. apply orders_in in Hm. apply orders_in in Hm'.
    rewrite !Cmod_mult, mod_conj. apply Rmult_le_compat_l; [apply Rmult_le_pos; apply Cmod_ge_0|]. apply H. lia. }
  replace (rsum L (fun m => rsum L (fun m' => Cmod (A m) * Cmod (A m') * eps))) with (eps * (rsum L (fun m => Cmod (A m)) * rsum L (fun m => Cmod (A m)))).
  2:{ rewrite <- rsum_scal_r, <- rsum_scal. apply rsum_ext. intros m _. rewrite <- !rsum_scal. apply rsum_ext. intros; ring. }
  rewrite Rmult_assoc. apply Rmult_le_compat_l; auto. rewrite (rsum_ext L (fun m => norm2 (A m)) (fun m => Cmod (A m) * Cmod (A m))) by (intros; apply norm2_Cmod).
  eapply Rle_trans; [apply cauchy|]. unfold L at 1. rewrite orders_length. lra.
Qed.
