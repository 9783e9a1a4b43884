(** C87: a sphere scatters and extinguishes light as in Mie's theory in every direction and for every orientation the program is asked for.
    Specification: first part; it uses the directions and field vectors of FramesFacts.v and the Mie coefficients of Props_mie.v. *)
From Coq Require Import List Arith Lia Bool ZArith Reals Lra Psatz Nsatz.
From Coquelicot Require Import Complex.
From Verif Require Import Legendre Wigner Addition Optics Props_optics TClass Frames FramesFacts Props_frames Props_mie.
From Verif Require Props_outputs Props_tclass.
Import ListNotations.
Open Scope R_scope.

(* ------------------------------------------------------------ specification *)
Definition vscal (a : C) (v : vec) : vec := let '(x, y, z) := v in (a * x, a * y, a * z)%C.
Definition vadd (u v : vec) : vec := let '(a, b, c) := u in let '(x, y, z) := v in (a + x, b + y, c + z)%C.
Definition vcross (u v : vec) : vec := let '(a, b, c) := u in let '(x, y, z) := v in (b * z - c * y, c * x - a * z, a * y - b * x)%C.
Definition vzero : vec := (RtoC 0, RtoC 0, RtoC 0).
Definition vsum {X} (l : list X) (f : X -> vec) : vec := fold_right (fun x a => vadd (f x) a) vzero l.
(** the part of X perpendicular to the unit vector u *)
Definition perp (u X : vec) : vec := vadd X (vscal (- dot u X)%C u).
(** pi_n and tau_n of Bohren & Huffman, eq. 4.46-4.47, as functions of mu = cos gamma: P_n'(mu) and mu P_n'(mu) - (1 - mu^2) P_n''(mu) *)
Definition pi_n (n : nat) (mu : R) : R := P n 1 mu.
Definition tau_n (n : nat) (mu : R) : R := mu * P n 1 mu - (1 - mu * mu) * P n 2 mu.
(** Bohren & Huffman, eq. 4.74, with nmax terms *)
Definition mie_S1 (nmax : nat) (a b : nat -> C) (mu : R) : C := csum (seq 1 nmax) (fun n => RtoC ((2 * INR n + 1) / (INR n * (INR n + 1))) * (a n * RtoC (pi_n n mu) + b n * RtoC (tau_n n mu)))%C.
Definition mie_S2 (nmax : nat) (a b : nat -> C) (mu : R) : C := csum (seq 1 nmax) (fun n => RtoC ((2 * INR n + 1) / (INR n * (INR n + 1))) * (a n * RtoC (tau_n n mu) + b n * RtoC (pi_n n mu)))%C.
(** the field W scattered in the direction u of a field V incident in the direction v: what is perpendicular to both directions is multiplied
    by i S1 / k, and the field in the plane of both directions by i S2 / k *)
Definition mie_scattered (nmax : nat) (k : R) (a b : nat -> C) (u v V W : vec) : Prop :=
  let mu := Re (dot u v) in
  (dot u V = RtoC 0 -> W = vscal (Ci * RtoC (1 / k) * mie_S1 nmax a b mu)%C V) /\
  (V = vadd u (vscal (- RtoC mu)%C v) -> W = vscal (Ci * RtoC (1 / k) * mie_S2 nmax a b mu)%C (vadd (vscal (RtoC mu) u) (vscal (RtoC (-1)) v))).

(* ------------------------------------------------------------ sums *)
Definition kappa (n : nat) : C := (- Ci * RtoC ((2 * INR n + 1) / (INR n * (INR n + 1))))%C.
Lemma prefactor_diag : forall n, (1 <= n)%nat -> prefactor n n = kappa n.
Proof.
  intros n H. unfold prefactor, kappa. assert (0 < INR n) by (apply lt_0_INR; lia).
  replace ((2 * INR n + 1) * (2 * INR n + 1) / (INR n * (INR n + 1) * (INR n * (INR n + 1)))) with (((2 * INR n + 1) / (INR n * (INR n + 1))) * ((2 * INR n + 1) / (INR n * (INR n + 1)))) by (field; lra).
  rewrite sqrt_square.
  2:{ apply Rlt_le. apply Rdiv_lt_0_compat; nra. }
  f_equal. replace (n + 1)%nat with (Datatypes.S n) by lia. cbn [ipow]. pose proof (ipow_nonzero n). assert (CI0: Ci <> RtoC 0) by (unfold Ci, RtoC; intros E; injection E; lra).
  transitivity (/ Ci)%C; [field; auto|]. assert (CII: (Ci * Ci = - RtoC 1)%C) by (unfold Ci, Cmult, Copp, RtoC; cbn [fst snd]; f_equal; ring).
  transitivity ((- (Ci * Ci)) / Ci)%C; [rewrite CII; field; auto|field; auto].
Qed.
Lemma csum_swap : forall {X Y} (l : list X) (l' : list Y) f, csum l (fun x => csum l' (fun y => f x y)) = csum l' (fun y => csum l (fun x => f x y)).
Proof.
  intros X Y l l' f. induction l as [|x l IH]; cbn [csum fold_right]; [symmetry; apply csum_zero; auto|].
  change (csum l' (fun y => f x y) + csum l (fun x => csum l' (fun y => f x y)) = csum l' (fun y => (f x y + csum l (fun x => f x y))))%C. rewrite IH, csum_add. reflexivity.
Qed.
Lemma csum_pick : forall l (F : nat -> C) k, NoDup l -> In k l -> csum l (fun n => if (n =? k)%nat then F n else RtoC 0) = F k.
Proof.
  induction l as [|x l IH]; intros F k D I; [destruct I|]. inversion D; subst.
  change (csum (x :: l) (fun n => if (n =? k)%nat then F n else RtoC 0)) with ((if (x =? k)%nat then F x else RtoC 0) + csum l (fun n => if (n =? k)%nat then F n else RtoC 0))%C.
  destruct I as [ -> | I].
  - rewrite Nat.eqb_refl, csum_zero; [ring|]. intros y Hy. destruct (Nat.eqb_spec y k); auto. subst. contradiction.
  - rewrite IH by auto. destruct (Nat.eqb_spec x k); [subst; contradiction|ring].
Qed.
Lemma triangle : forall nmax (f : nat -> nat -> C), (forall m n, (n < m)%nat -> f m n = RtoC 0) ->
  csum (seq 0 (nmax + 1)) (fun m => csum (seq (Nat.max m 1) (nmax + 1 - Nat.max m 1)) (fun n => f m n)) = csum (seq 1 nmax) (fun n => csum (seq 0 (nmax + 1)) (fun m => f m n)).
Proof.
  intros nmax f H. rewrite <- csum_swap. apply csum_ext. intros m Hm. apply in_seq in Hm.
  destruct (Nat.eq_dec nmax 0) as [ -> | N0]; [replace m with 0%nat by lia; reflexivity|].
  replace (seq 1 nmax) with (seq 1 (Nat.max m 1 - 1) ++ seq (Nat.max m 1) (nmax + 1 - Nat.max m 1)).
  - rewrite csum_app, (csum_zero (seq 1 _)); [ring|]. intros n Hn. apply in_seq in Hn. apply H. lia.
  - replace nmax with ((Nat.max m 1 - 1) + (nmax + 1 - Nat.max m 1))%nat at 2 by lia. rewrite seq_app. f_equal. f_equal. lia.
Qed.
(** sum over m with the weights 1 for m = 0 and 2 for m > 0 *)
Definition wt (m : nat) : R := if (m =? 0)%nat then 1 else 2.
Lemma csum_wsum : forall nmax n f, (n <= nmax)%nat -> (forall m, (n < m)%nat -> f m = 0) -> csum (seq 0 (nmax + 1)) (fun m => RtoC (wt m * f m)) = RtoC (wsum n f).
Proof.
  intros nmax n f L H.
  assert (G: forall k, (forall m, (n < m)%nat -> f m = 0) -> csum (seq 0 (k + 1)) (fun m => RtoC (wt m * f m)) = RtoC (f 0%nat + 2 * sm (fun i => f (Datatypes.S i)) k)).
  { intros k _. induction k as [|k IH].
    - cbn [seq csum fold_right Nat.add sm]. unfold wt. cbn [Nat.eqb]. rewrite Rmult_0_r, Rplus_0_r, Rmult_1_l. rewrite Cplus_0_r. reflexivity.
    - replace (Datatypes.S k + 1)%nat with (k + 1 + 1)%nat by lia. rewrite seq_app, csum_app, IH. cbn [seq csum fold_right Nat.add sm]. replace (k + 1)%nat with (Datatypes.S k) by lia. unfold wt. cbn [Nat.eqb].
      rewrite Cplus_0_r, <- RtoC_plus. f_equal. ring. }
  rewrite G by auto. unfold wsum. do 3 f_equal.
  assert (E: forall j, sm (fun i => f (Datatypes.S i)) (n + j) = sm (fun i => f (Datatypes.S i)) n).
  { induction j; [f_equal; lia|]. replace (n + Datatypes.S j)%nat with (Datatypes.S (n + j)) by lia. cbn [sm]. rewrite IHj, H by lia. ring. }
  replace nmax with (n + (nmax - n))%nat by lia. apply E.
Qed.

(* ------------------------------------------------------------ the amplitude matrix of the particle with its axis along z *)
(** the T-matrix couples no two waves and does not depend on m *)
Definition sphere_T (nmax : nat) (T : tmats) (t1 t2 : nat -> C) : Prop :=
  forall n n' m, (m <= n <= nmax)%nat -> (m <= n' <= nmax)%nat -> (1 <= n)%nat -> (1 <= n')%nat ->
  element nmax T 0 n m 0 n' m = (if (n =? n')%nat then t1 n else RtoC 0) /\ element nmax T 1 n m 1 n' m = (if (n =? n')%nat then t2 n else RtoC 0) /\
  element nmax T 0 n m 1 n' m = RtoC 0 /\ element nmax T 1 n m 0 n' m = RtoC 0.
Definition diag_tables (t1 t2 : nat -> C) (ti to : R) : angular :=
  mkAng (fun i j m n nn => if (n =? nn)%nat then match i, j with 0%nat, 0%nat => t1 n | 1%nat, 1%nat => t2 n | _, _ => RtoC 0 end else RtoC 0)
    (fun m n => qspec n m ti) (fun m n => dspec' n m ti) (fun m n => qspec n m to) (fun m n => dspec' n m to) prefactor.
Lemma fixed_axis_tables : forall nmax k T t1 t2 ti pi_ to po, sphere_T nmax T t1 t2 -> resolved ti -> resolved to ->
  fixed_axis nmax k T ti pi_ to po = amplitude (diag_tables t1 t2 ti to) nmax k (cos (po - pi_)) (sin (po - pi_)).
Proof.
  intros nmax k T t1 t2 ti pi_ to po ST Hi Ho. rewrite fixed_axis_phi. apply amplitude_ext. intros m n n' Hm Hn Hn'.
  destruct (resolved_tables ti nmax m n' Hi ltac:(lia) ltac:(lia)) as (I1 & I2). destruct (resolved_tables to nmax m n Ho ltac:(lia) ltac:(lia)) as (O1 & O2).
  unfold d_over_sin, d_prime, sgn in I1, I2, O1, O2. replace (Z.of_nat m <? 0)%Z with false in * by (symmetry; apply Z.ltb_ge; lia). rewrite Zabs2Nat.id, Rmult_1_l in *.
  unfold amp_term, diag_tables. cbn [dsin_in tau_in dsin_out tau_out cnn Optics.T]. rewrite I1, I2, O1, O2. rewrite (class_c_prefactor n n') by lia.
  destruct (ST n n' m ltac:(lia) ltac:(lia) ltac:(lia) ltac:(lia)) as (E1 & E2 & E3 & E4). rewrite E1, E2, E3, E4.
  destruct (Nat.eqb_spec n n'); reflexivity.
Qed.
Definition QQ (n : nat) (to ti phi : R) : R := cos phi * P n 1 (cosg to ti phi) - sin to * sin ti * (sin phi * sin phi) * P n 2 (cosg to ti phi).
Definition TT (n : nat) (to ti phi : R) : R := (sin to * sin ti + cos to * cos ti * cos phi) * P n 1 (cosg to ti phi) + dcosg to ti phi * dcosg ti to phi * P n 2 (cosg to ti phi).
Definition QT (n : nat) (to ti phi : R) : R := sin phi * (cos ti * P n 1 (cosg to ti phi) + sin ti * dcosg ti to phi * P n 2 (cosg to ti phi)).
Definition TQ (n : nat) (to ti phi : R) : R := sin phi * (cos to * P n 1 (cosg to ti phi) + sin to * dcosg to ti phi * P n 2 (cosg to ti phi)).
Definition diag_amp (nmax : nat) (k : R) (t1 t2 : nat -> C) (ti to phi : R) : amp :=
  let S f := (csum (seq 1 nmax) f * RtoC (1 / k))%C in
  mkAmp (S (fun n => kappa n * (t1 n * RtoC (QQ n to ti phi) + t2 n * RtoC (TT n to ti phi)))%C)
        (S (fun n => kappa n * (t1 n * RtoC (QT n to ti phi) + t2 n * RtoC (TQ n to ti phi)))%C)
        (S (fun n => - (kappa n * (t1 n * RtoC (TQ n to ti phi) + t2 n * RtoC (QT n to ti phi))))%C)
        (S (fun n => kappa n * (t1 n * RtoC (TT n to ti phi) + t2 n * RtoC (QQ n to ti phi)))%C).
Lemma q_high : forall n m t, (n < m)%nat -> qspec n m t = 0.
Proof. intros. unfold qspec. rewrite P_high by auto. ring. Qed.
(** one component of the sum *)
Lemma component : forall nmax (h : nat -> nat -> nat -> C) (c1 c2 : nat -> C) (f1 f2 : nat -> nat -> R) (F1 F2 : nat -> R),
  (forall m nn n, h m nn n = if (n =? nn)%nat then (c1 n * RtoC (wt m * f1 n m) + c2 n * RtoC (wt m * f2 n m))%C else RtoC 0) ->
  (forall n m, (n < m)%nat -> f1 n m = 0 /\ f2 n m = 0) -> (forall n, wsum n (f1 n) = F1 n /\ wsum n (f2 n) = F2 n) ->
  csum (seq 0 (nmax + 1)) (fun m => csum (seq (Nat.max m 1) (nmax + 1 - Nat.max m 1)) (fun nn => csum (seq (Nat.max m 1) (nmax + 1 - Nat.max m 1)) (fun n => h m nn n))) =
  csum (seq 1 nmax) (fun n => c1 n * RtoC (F1 n) + c2 n * RtoC (F2 n))%C.
Proof.
  intros nmax h c1 c2 f1 f2 F1 F2 Hh Z S.
  transitivity (csum (seq 0 (nmax + 1)) (fun m => csum (seq (Nat.max m 1) (nmax + 1 - Nat.max m 1)) (fun n => c1 n * RtoC (wt m * f1 n m) + c2 n * RtoC (wt m * f2 n m))))%C.
  - apply csum_ext. intros m _. apply csum_ext. intros nn Hn.
    rewrite (csum_ext _ _ (fun n => if (n =? nn)%nat then (fun n => c1 n * RtoC (wt m * f1 n m) + c2 n * RtoC (wt m * f2 n m))%C n else RtoC 0)) by (intros; apply Hh).
    rewrite csum_pick; auto using seq_NoDup.
  - rewrite (triangle nmax (fun m n => c1 n * RtoC (wt m * f1 n m) + c2 n * RtoC (wt m * f2 n m))%C).
    + apply csum_ext. intros n Hn. apply in_seq in Hn. destruct (S n) as (S1 & S2). rewrite csum_add, !csum_mul. rewrite !(csum_wsum nmax n), S1, S2 by (try lia; intros; apply Z; auto). reflexivity.
    + intros m n L. destruct (Z n m L) as (Z1 & Z2). rewrite Z1, Z2, Rmult_0_r. ring.
Qed.
Lemma wt_cos : forall m phi, m <> 0%nat -> RtoC (2 * Re (expi (Z.of_nat m) phi)) = RtoC (wt m * cos (INR m * phi)) /\ RtoC (2 * Im (expi (Z.of_nat m) phi)) = RtoC (wt m * sin (INR m * phi)).
Proof. intros m phi H. unfold expi, wt. cbn [Re Im fst snd]. rewrite <- INR_IZR_INZ. destruct (Nat.eqb_spec m 0); [contradiction|auto]. Qed.
Lemma diag_amplitude : forall nmax k t1 t2 ti to phi, amplitude (diag_tables t1 t2 ti to) nmax k (cos phi) (sin phi) = diag_amp nmax k t1 t2 ti to phi.
Proof.
  intros nmax k t1 t2 ti to phi. rewrite amplitude_sum. cbv zeta. unfold asum, mterm, asum. cbn [s0 s1 s2 s3]. unfold diag_amp.
  assert (K: forall n, prefactor n n = kappa n \/ n = 0%nat) by (intros [|n]; [auto|left; apply prefactor_diag; lia]).
  assert (Hi: forall n m, (n < m)%nat -> qspec n m ti = 0 /\ dspec' n m ti = 0) by (intros; split; [apply q_high|apply dspec'_low]; auto).
  assert (Ho: forall n m, (n < m)%nat -> qspec n m to = 0 /\ dspec' n m to = 0) by (intros; split; [apply q_high|apply dspec'_low]; auto).
  assert (KS: forall f : nat -> C, csum (seq 1 nmax) (fun n => prefactor n n * f n)%C = csum (seq 1 nmax) (fun n => kappa n * f n)%C).
  { intros f. apply csum_ext. intros n Hn. apply in_seq in Hn. rewrite prefactor_diag by lia. reflexivity. }
  assert (H: forall (c1 c2 : nat -> C) (F1 F2 : nat -> R), csum (seq 1 nmax) (fun n => prefactor n n * c1 n * RtoC (F1 n) + prefactor n n * c2 n * RtoC (F2 n))%C = csum (seq 1 nmax) (fun n => kappa n * (c1 n * RtoC (F1 n) + c2 n * RtoC (F2 n)))%C).
  { intros. rewrite <- (KS (fun n => c1 n * RtoC (F1 n) + c2 n * RtoC (F2 n))%C). apply csum_ext. intros. ring. }
  apply amp_eq; cbn [s0 s1 s2 s3]; f_equal.
  - rewrite <- H. apply component with (f1 := fun n m => cos (INR m * phi) * (INR m * qspec n m to * (INR m * qspec n m ti))) (f2 := fun n m => cos (INR m * phi) * (dspec' n m to * dspec' n m ti)).
    + intros m nn n. unfold amp_term, diag_tables. cbn [dsin_in tau_in dsin_out tau_out cnn Optics.T azero s0]. destruct (Nat.eqb_spec m 0) as [ -> | N]; cbn [s0].
      * destruct (Nat.eqb_spec n nn) as [ -> | ]; [|ring]. unfold wt. cbn [Nat.eqb INR]. rewrite !Rmult_0_l, cos_0, !Rmult_0_r, !Rmult_1_l, RtoC_mult. ring.
      * destruct (wt_cos m phi N) as (W & _). rewrite W. destruct (Nat.eqb_spec n nn) as [ -> | ]; [|ring]. push. ring.
    + intros n m L. destruct (Hi n m L) as (Z1 & Z2). rewrite Z1, Z2. split; ring.
    + intros n. split; [apply addition_qq|apply addition_tt].
  - rewrite <- H. apply component with (f1 := fun n m => sin (INR m * phi) * (INR m * qspec n m to * dspec' n m ti)) (f2 := fun n m => sin (INR m * phi) * (INR m * qspec n m ti * dspec' n m to)).
    + intros m nn n. unfold amp_term, diag_tables. cbn [dsin_in tau_in dsin_out tau_out cnn Optics.T azero s1]. destruct (Nat.eqb_spec m 0) as [ -> | N]; cbn [s1].
      * destruct (Nat.eqb_spec n nn) as [ -> | ]; [|ring]. cbn [INR]. rewrite !Rmult_0_l, sin_0, !Rmult_0_l, !Rmult_0_r. ring.
      * destruct (wt_cos m phi N) as (_ & W). rewrite W. destruct (Nat.eqb_spec n nn) as [ -> | ]; [|ring]. push. ring.
    + intros n m L. destruct (Hi n m L) as (Z1 & Z2). rewrite Z1, Z2. split; ring.
    + intros n. split; [apply addition_qt|]. rewrite addition_qt. unfold TQ. rewrite (cosg_sym ti to). reflexivity.
  - transitivity (csum (seq 1 nmax) (fun n => kappa n * (- t1 n * RtoC (TQ n to ti phi) + - t2 n * RtoC (QT n to ti phi))))%C; [|apply csum_ext; intros; ring].
    rewrite <- (H (fun n => - t1 n)%C (fun n => - t2 n)%C).
    apply component with (f1 := fun n m => sin (INR m * phi) * (INR m * qspec n m ti * dspec' n m to)) (f2 := fun n m => sin (INR m * phi) * (INR m * qspec n m to * dspec' n m ti)).
    + intros m nn n. unfold amp_term, diag_tables. cbn [dsin_in tau_in dsin_out tau_out cnn Optics.T azero s2]. destruct (Nat.eqb_spec m 0) as [ -> | N]; cbn [s2].
      * destruct (Nat.eqb_spec n nn) as [ -> | ]; [|ring]. cbn [INR]. rewrite !Rmult_0_l, sin_0, !Rmult_0_l, !Rmult_0_r. ring.
      * destruct (wt_cos m phi N) as (_ & W). rewrite W. destruct (Nat.eqb_spec n nn) as [ -> | ]; [|ring]. push. ring.
    + intros n m L. destruct (Hi n m L) as (Z1 & Z2). rewrite Z1, Z2. split; ring.
    + intros n. split; [|apply addition_qt]. rewrite addition_qt. unfold TQ. rewrite (cosg_sym ti to). reflexivity.
  - rewrite <- H. apply component with (f1 := fun n m => cos (INR m * phi) * (dspec' n m to * dspec' n m ti)) (f2 := fun n m => cos (INR m * phi) * (INR m * qspec n m to * (INR m * qspec n m ti))).
    + intros m nn n. unfold amp_term, diag_tables. cbn [dsin_in tau_in dsin_out tau_out cnn Optics.T azero s3]. destruct (Nat.eqb_spec m 0) as [ -> | N]; cbn [s3].
      * destruct (Nat.eqb_spec n nn) as [ -> | ]; [|ring]. unfold wt. cbn [Nat.eqb INR]. rewrite !Rmult_0_l, cos_0, !Rmult_0_r, !Rmult_1_l, RtoC_mult. ring.
      * destruct (wt_cos m phi N) as (W & _). rewrite W. destruct (Nat.eqb_spec n nn) as [ -> | ]; [|ring]. push. ring.
    + intros n m L. destruct (Hi n m L) as (Z1 & Z2). rewrite Z1, Z2. split; ring.
    + intros n. split; [apply addition_tt|apply addition_qq].
Qed.

(* ------------------------------------------------------------ the scattered field as a vector *)
Definition el (n : nat) (mu : R) (u v X : vec) : vec := vadd (vscal (RtoC (P n 2 mu) * dot u X)%C v) (vscal (RtoC (P n 1 mu)) X).
Definition mfield (nmax : nat) (k mu : R) (t1 t2 : nat -> C) (u v V : vec) : vec :=
  vsum (seq 1 nmax) (fun n => vscal (kappa n * RtoC (1 / k))%C (vadd (vscal (t2 n) (perp u (el n mu u v V))) (vscal (- t1 n)%C (vcross u (el n mu u v (vcross v V)))))).
Ltac unf3 := unfold vadd, vscal, vcross, perp, vzero, dot in *.
Lemma dot_vadd : forall z u v, dot z (vadd u v) = (dot z u + dot z v)%C.
Proof. intros ((z1, z2), z3) ((u1, u2), u3) ((v1, v2), v3). unf3. ring. Qed.
Lemma dot_vscal : forall z a v, dot z (vscal a v) = (a * dot z v)%C.
Proof. intros ((z1, z2), z3) a ((v1, v2), v3). unf3. ring. Qed.
Lemma dot_vsum : forall {X} (l : list X) f z, dot z (vsum l f) = csum l (fun x => dot z (f x)).
Proof.
  intros X l f z. induction l as [|x l IH].
  - destruct z as ((z1, z2), z3). cbn [vsum csum fold_right]. unf3. ring.
  - change (vsum (x :: l) f) with (vadd (f x) (vsum l f)). rewrite dot_vadd, IH. reflexivity.
Qed.
Lemma dot_comm : forall u v, dot u v = dot v u.
Proof. intros ((u1, u2), u3) ((v1, v2), v3). unf3. ring. Qed.
Ltac angles_ring := intros; vecs; unfold vadd, vscal, vcross, perp;
  repeat match goal with |- context [RtoC (cos ?x)] => let H := fresh "H" in pose proof (cs x) as H; generalize dependent (RtoC (cos x)) end;
  repeat match goal with |- context [RtoC (sin ?x)] => generalize dependent (RtoC (sin x)) end; intros.
Lemma zenith_cross : forall t p X, dot (zenith t p) (vcross (direction t p) X) = (- dot (azimuth p) X)%C.
Proof. intros t p ((x, y), z). vecs. unfold vcross. pose proof (cs t) as H1. pose proof (cs p) as H2.
  generalize dependent (RtoC (cos t)). generalize dependent (RtoC (sin t)). generalize dependent (RtoC (cos p)). generalize dependent (RtoC (sin p)). intros. ring [H1 H2]. Qed.
Lemma azimuth_cross : forall t p X, dot (azimuth p) (vcross (direction t p) X) = dot (zenith t p) X.
Proof. intros t p ((x, y), z). vecs. unfold vcross. pose proof (cs t) as H1. pose proof (cs p) as H2.
  generalize dependent (RtoC (cos t)). generalize dependent (RtoC (sin t)). generalize dependent (RtoC (cos p)). generalize dependent (RtoC (sin p)). intros. ring [H1 H2]. Qed.
Lemma field_sum : forall t p E, field t p E = vadd (vscal (fst E) (zenith t p)) (vscal (snd E) (azimuth p)).
Proof. reflexivity. Qed.
Lemma cross_field : forall t p E, vcross (direction t p) (field t p E) = vadd (vscal (fst E) (azimuth p)) (vscal (- snd E)%C (zenith t p)).
Proof. intros t p (x, y). vecs. unfold vcross, vadd, vscal. pose proof (cs t) as H1. pose proof (cs p) as H2.
  generalize dependent (RtoC (cos t)). generalize dependent (RtoC (sin t)). generalize dependent (RtoC (cos p)). generalize dependent (RtoC (sin p)). intros. apply vec_eq; ring [H1 H2]. Qed.
Lemma dots : forall to po ti pi_, let phi := po - pi_ in
  dot (zenith to po) (zenith ti pi_) = RtoC (sin to * sin ti + cos to * cos ti * cos phi) /\ dot (zenith to po) (azimuth pi_) = RtoC (cos to * sin phi) /\
  dot (azimuth po) (zenith ti pi_) = RtoC (- (cos ti * sin phi)) /\ dot (azimuth po) (azimuth pi_) = RtoC (cos phi) /\
  dot (direction to po) (zenith ti pi_) = RtoC (dcosg ti to phi) /\ dot (direction to po) (azimuth pi_) = RtoC (sin to * sin phi) /\
  dot (zenith to po) (direction ti pi_) = RtoC (dcosg to ti phi) /\ dot (azimuth po) (direction ti pi_) = RtoC (- (sin ti * sin phi)) /\
  dot (direction to po) (direction ti pi_) = RtoC (cosg to ti phi) /\ dot (zenith to po) (direction to po) = RtoC 0 /\ dot (azimuth po) (direction to po) = RtoC 0.
Proof.
  intros to po ti pi_ phi. unfold phi, dcosg, cosg. rewrite cos_minus, sin_minus. unfold direction, zenith, azimuth, real3, dot.
  pose proof (sin2_cos2 to) as E. pose proof (sin2_cos2 po) as E'. unfold Rsqr in E, E'.
  rewrite <- !RtoC_mult, <- !RtoC_plus. repeat match goal with |- _ /\ _ => split end; f_equal; try ring.
  transitivity (cos to * sin to * (sin po * sin po + cos po * cos po) - sin to * cos to); [ring|]. rewrite E'. ring.
Qed.
Lemma mfield_components : forall nmax k t1 t2 ti pi_ to po E,
  components to po (mfield nmax k (cosg to ti (po - pi_)) t1 t2 (direction to po) (direction ti pi_) (field ti pi_ E)) = apply (diag_amp nmax k t1 t2 ti to (po - pi_)) E.
Proof.
  intros nmax k t1 t2 ti pi_ to po (x, y). unfold mfield, components, apply, diag_amp. rewrite !dot_vsum. cbn [s0 s1 s2 s3 fst snd].
  destruct (dots to po ti pi_) as (D1 & D2 & D3 & D4 & D5 & D6 & D7 & D8 & D9 & D10 & D11). cbv zeta in *. set (phi := po - pi_) in *.
  rewrite cross_field, field_sum. cbn [fst snd].
  f_equal.
  - transitivity (csum (seq 1 nmax) (fun n => (RtoC (1 / k) * x) * (kappa n * (t1 n * RtoC (QQ n to ti phi) + t2 n * RtoC (TT n to ti phi))) + (RtoC (1 / k) * y) * (kappa n * (t1 n * RtoC (QT n to ti phi) + t2 n * RtoC (TQ n to ti phi))))%C).
    + apply csum_ext. intros n _. unfold perp, el. rewrite !dot_vscal, !dot_vadd, !dot_vscal, zenith_cross. rewrite !dot_vadd, !dot_vscal, !dot_vadd, !dot_vscal, D1, D2, D3, D4, D5, D6, D7, D8, D10.
      unfold QQ, TT, QT, TQ. repeat (rewrite RtoC_mult || rewrite RtoC_plus || rewrite RtoC_minus || rewrite RtoC_opp). ring.
    + rewrite csum_add, !csum_mul. ring.
  - transitivity (csum (seq 1 nmax) (fun n => (RtoC (1 / k) * x) * (- (kappa n * (t1 n * RtoC (TQ n to ti phi) + t2 n * RtoC (QT n to ti phi)))) + (RtoC (1 / k) * y) * (kappa n * (t1 n * RtoC (TT n to ti phi) + t2 n * RtoC (QQ n to ti phi))))%C).
    + apply csum_ext. intros n _. unfold perp, el. rewrite !dot_vscal, !dot_vadd, !dot_vscal, azimuth_cross. rewrite !dot_vadd, !dot_vscal, !dot_vadd, !dot_vscal, D1, D2, D3, D4, D5, D6, D7, D8, D11.
      unfold QQ, TT, QT, TQ. repeat (rewrite RtoC_mult || rewrite RtoC_plus || rewrite RtoC_minus || rewrite RtoC_opp). ring.
    + rewrite csum_add, !csum_mul. ring.
Qed.
Lemma vec_dots : forall u v, (forall z, dot z u = dot z v) -> u = v.
Proof.
  intros ((u1, u2), u3) ((v1, v2), v3) H.
  pose proof (H (RtoC 1, RtoC 0, RtoC 0)) as H1. pose proof (H (RtoC 0, RtoC 1, RtoC 0)) as H2. pose proof (H (RtoC 0, RtoC 0, RtoC 1)) as H3. unfold dot in *.
  apply vec_eq; [transitivity (RtoC 1 * u1 + RtoC 0 * u2 + RtoC 0 * u3)%C; [ring|rewrite H1; ring]|transitivity (RtoC 0 * u1 + RtoC 1 * u2 + RtoC 0 * u3)%C; [ring|rewrite H2; ring]|transitivity (RtoC 0 * u1 + RtoC 0 * u2 + RtoC 1 * u3)%C; [ring|rewrite H3; ring]].
Qed.
(** linear maps that keep dot and cross products *)
Section Rotate.
Variables al be : R.
Lemma body_vadd : forall u v, in_body al be (vadd u v) = vadd (in_body al be u) (in_body al be v).
Proof. intros. unfold in_body. rewrite !dot_vadd. reflexivity. Qed.
Lemma body_vscal : forall a v, in_body al be (vscal a v) = vscal a (in_body al be v).
Proof. intros. unfold in_body. rewrite !dot_vscal. reflexivity. Qed.
Lemma body_vcross : forall u v, in_body al be (vcross u v) = vcross (in_body al be u) (in_body al be v).
Proof.
  intros ((u1, u2), u3) ((v1, v2), v3). vecs. unfold vcross. pose proof (cs al) as H1. pose proof (cs be) as H2.
  generalize dependent (RtoC (cos al)). generalize dependent (RtoC (sin al)). generalize dependent (RtoC (cos be)). generalize dependent (RtoC (sin be)). intros. apply vec_eq; ring [H1 H2].
Qed.
Lemma body_vsum : forall {X} (l : list X) f, in_body al be (vsum l f) = vsum l (fun x => in_body al be (f x)).
Proof. intros X l f. induction l as [|x l IH]; [unfold in_body; cbn [vsum fold_right]; unfold vzero; vecs; apply vec_eq; ring|]. change (vsum (x :: l) f) with (vadd (f x) (vsum l f)). rewrite body_vadd, IH. reflexivity. Qed.
Lemma body_mfield : forall nmax k mu t1 t2 u v V, in_body al be (mfield nmax k mu t1 t2 u v V) = mfield nmax k mu t1 t2 (in_body al be u) (in_body al be v) (in_body al be V).
Proof.
  intros. unfold mfield. rewrite body_vsum. induction (seq 1 nmax) as [|n l IH]; [reflexivity|]. cbn [vsum fold_right] in *. unfold vsum in IH. rewrite IH. f_equal.
  unfold perp, el. rewrite !body_vscal, !body_vadd, !body_vscal, !body_vadd, !body_vscal, !body_vcross, !body_vadd, !body_vscal, !body_vcross. rewrite <- !body_vcross, !dot_in_body. rewrite !body_vcross.
  rewrite <- !(body_vscal _ v), <- !(body_vscal _ V), <- !body_vadd, dot_in_body. reflexivity.
Qed.
End Rotate.
Lemma mfield_perp : forall nmax k mu t1 t2 u v V, dot u u = RtoC 1 -> dot u (mfield nmax k mu t1 t2 u v V) = RtoC 0.
Proof.
  intros nmax k mu t1 t2 u v V U. unfold mfield. rewrite dot_vsum. apply csum_zero. intros n _. unfold perp. rewrite dot_vscal, dot_vadd, !dot_vscal, dot_vadd, dot_vscal, U.
  assert (Z: forall X, dot u (vcross u X) = RtoC 0) by (intros X; destruct u as ((u1, u2), u3), X as ((x, y), z); unf3; ring). rewrite Z. ring.
Qed.
Lemma direction_unit : forall t p, dot (direction t p) (direction t p) = RtoC 1.
Proof. intros. vecs. pose proof (cs t) as H1. pose proof (cs p) as H2.
  generalize dependent (RtoC (cos t)). generalize dependent (RtoC (sin t)). generalize dependent (RtoC (cos p)). generalize dependent (RtoC (sin p)). intros. ring [H1 H2]. Qed.

(** seen from the axis of the particle, the direction is a pole or not within 1e-10 of one (of the cosine), see Props_frames.resolved *)
Definition clear_of_axis (alpha beta theta phi : R) : Prop :=
  let c := Rabs (Re (dot (direction beta alpha) (direction theta phi))) in c = 1 \/ / 10000000000 < 1 - c.
Lemma clear_resolved : forall al be t p t' p', 0 <= t' <= PI -> in_body al be (direction t p) = direction t' p' -> clear_of_axis al be t p -> resolved t'.
Proof.
  intros al be t p t' p' R E H. unfold clear_of_axis in H.
  assert (C: dot (direction be al) (direction t p) = RtoC (cos t')).
  { pose proof (f_equal snd E) as F. exact F. }
  rewrite C in H. cbn [Re RtoC fst] in H. split; auto. destruct H as [H|H]; [|auto].
  unfold Rabs in H. destruct (Rcase_abs (cos t')).
  - right. left. rewrite <- (acos_cos t' R). replace (cos t') with (- (1)) by lra. rewrite acos_opp, acos_1. ring.
  - left. rewrite <- (acos_cos t' R), H. apply acos_1.
Qed.
(** the field scattered by a particle with such a T-matrix, for any orientation *)
Lemma oriented_mfield : forall nmax k T t1 t2 al be ti pi_ to po E, sphere_T nmax T t1 t2 -> clear_of_axis al be ti pi_ -> clear_of_axis al be to po ->
  field to po (apply (oriented nmax k T al be ti pi_ to po) E) = mfield nmax k (Re (dot (direction to po) (direction ti pi_))) t1 t2 (direction to po) (direction ti pi_) (field ti pi_ E).
Proof.
  intros nmax k T t1 t2 al be ti pi_ to po E ST Ci_ Co.
  destruct (C74_angles_exist al be ti pi_) as (ti' & pi' & Ri & Hi). destruct (C74_angles_exist al be to po) as (to' & po' & Ro & Ho).
  apply (in_body_inj al be). rewrite body_mfield, (C74_same_scattered_field nmax k T al be ti pi_ to po ti' pi' to' po' E Hi Ri Ho Ro).
  assert (Mu: Re (dot (direction to po) (direction ti pi_)) = cosg to' ti' (po' - pi')).
  { rewrite <- (dot_in_body al be), Hi, Ho. destruct (dots to' po' ti' pi') as (_ & _ & _ & _ & _ & _ & _ & _ & D9 & _). rewrite D9. reflexivity. }
  rewrite Mu, Hi, Ho. set (V := in_body al be (field ti pi_ E)).
  assert (PV: dot (direction ti' pi') V = RtoC 0) by (rewrite <- Hi; unfold V; rewrite dot_in_body; apply dot_dir_field).
  rewrite <- (field_components ti' pi' V PV) at 2.
  rewrite (fixed_axis_tables nmax k T t1 t2 ti' pi' to' po' ST) by (eapply clear_resolved; eauto). rewrite diag_amplitude, <- mfield_components.
  apply field_components. apply mfield_perp. apply direction_unit.
Qed.

(* ------------------------------------------------------------ the two polarisations *)
Lemma vsum_scal : forall {X} (l : list X) (f : X -> C) (g : X -> vec) V, (forall x, In x l -> g x = vscal (f x) V) -> vsum l g = vscal (csum l f) V.
Proof.
  intros X l f g V. induction l as [|x l IH]; intros H.
  - cbn [vsum csum fold_right]. destruct V as ((a, b), c). unfold vzero, vscal. apply vec_eq; ring.
  - change (vsum (x :: l) g) with (vadd (g x) (vsum l g)). rewrite IH by (intros; apply H; now right). rewrite H by now left. destruct V as ((a, b), c). cbn [csum fold_right]. unfold vadd, vscal. change (fold_right (fun x a => (f x + a)%C) (RtoC 0) l) with (csum l f). apply vec_eq; ring.
Qed.
Lemma gram : forall u v V, dot u u = RtoC 1 -> dot v v = RtoC 1 -> dot u V = RtoC 0 -> dot v V = RtoC 0 ->
  vscal (dot u (vcross v V)) (vcross u v) = vscal (RtoC 1 - dot u v * dot u v)%C V.
Proof.
  intros u v V Hu Hv HuV HvV.
  assert (A: vadd (vscal (dot u (vcross v V)) (vcross u v)) (vscal (- (dot u u * dot v v - dot u v * dot u v))%C V) = vcross (vcross u v) (vadd (vscal (dot u V) v) (vscal (- dot v V)%C u))).
  { clear. destruct u as ((u1, u2), u3), v as ((v1, v2), v3), V as ((a, b), c). unf3. apply vec_eq; ring. }
  rewrite Hu, Hv, HuV, HvV in A. set (X := vscal (dot u (vcross v V)) (vcross u v)) in *. set (Y := vcross u v) in *. clearbody X Y.
  destruct u as ((u1, u2), u3), v as ((v1, v2), v3), V as ((a, b), c), X as ((x1, x2), x3), Y as ((y1, y2), y3). unfold vadd, vscal, vcross in A. apply vec_inj in A. destruct A as (A1 & A2 & A3).
  set (g := dot (u1, u2, u3) (v1, v2, v3)) in *. clearbody g. unfold vscal. apply vec_eq.
  - replace x1 with ((x1 + - (RtoC 1 * RtoC 1 - g * g) * a) + (RtoC 1 - g * g) * a)%C by ring. rewrite A1. ring.
  - replace x2 with ((x2 + - (RtoC 1 * RtoC 1 - g * g) * b) + (RtoC 1 - g * g) * b)%C by ring. rewrite A2. ring.
  - replace x3 with ((x3 + - (RtoC 1 * RtoC 1 - g * g) * c) + (RtoC 1 - g * g) * c)%C by ring. rewrite A3. ring.
Qed.
Lemma triple : forall u v V, vcross u (vcross v V) = vadd (vscal (dot u V) v) (vscal (- dot u v)%C V).
Proof. intros ((u1, u2), u3) ((v1, v2), v3) ((a, b), c). unf3. apply vec_eq; ring. Qed.
Lemma cross_lin : forall u a X b Y, vcross u (vadd (vscal a X) (vscal b Y)) = vadd (vscal a (vcross u X)) (vscal b (vcross u Y)).
Proof. intros ((u1, u2), u3) a ((x1, x2), x3) b ((y1, y2), y3). unf3. apply vec_eq; ring. Qed.
Lemma vscal_vscal : forall a b v, vscal a (vscal b v) = vscal (a * b)%C v.
Proof. intros a b ((x, y), z). unfold vscal. apply vec_eq; ring. Qed.
Lemma mfield_mie : forall nmax k mu a b u v V, dot u u = RtoC 1 -> dot v v = RtoC 1 -> dot u v = RtoC mu -> dot v V = RtoC 0 ->
  mie_scattered nmax k a b u v V (mfield nmax k mu (fun n => - b n)%C (fun n => - a n)%C u v V).
Proof.
  intros nmax k mu a b u v V Hu Hv Huv HvV. unfold mie_scattered. rewrite Huv. cbn [Re RtoC fst]. fold (RtoC mu). split; intros H.
  - (* perpendicular *)
    unfold mfield.
    rewrite (vsum_scal _ (fun n => (Ci * RtoC (1 / k)) * (RtoC ((2 * INR n + 1) / (INR n * (INR n + 1))) * (a n * RtoC (pi_n n mu) + b n * RtoC (tau_n n mu))))%C _ V).
    + rewrite csum_mul. reflexivity.
    + intros n _. pose proof (gram u v V Hu Hv H HvV) as G. unfold el at 2. rewrite cross_lin, triple, H, Huv.
      rewrite <- (vscal_vscal (RtoC (P n 2 mu)) (dot u (vcross v V))), G, Huv. unfold perp, el. rewrite !dot_vadd, !dot_vscal, H. unfold kappa, pi_n, tau_n. rewrite !RtoC_minus, !RtoC_mult, !RtoC_minus, !RtoC_mult.
      destruct u as ((u1, u2), u3), v as ((v1, v2), v3), V as ((x, y), z). unfold vadd, vscal. apply vec_eq; ring.
  - (* in the plane *)
    unfold mfield.
    rewrite (vsum_scal _ (fun n => (Ci * RtoC (1 / k)) * (RtoC ((2 * INR n + 1) / (INR n * (INR n + 1))) * (a n * RtoC (tau_n n mu) + b n * RtoC (pi_n n mu))))%C _ (vadd (vscal (RtoC mu) u) (vscal (RtoC (-1)) v))).
    + rewrite csum_mul. reflexivity.
    + intros n _. assert (UV: dot u V = (RtoC 1 - RtoC mu * RtoC mu)%C) by (rewrite H, dot_vadd, dot_vscal, Hu, Huv; ring).
      assert (CV: vcross v V = vcross v u) by (rewrite H; destruct u as ((u1, u2), u3), v as ((v1, v2), v3); unf3; apply vec_eq; ring).
      assert (Z: dot u (vcross v u) = RtoC 0) by (destruct u as ((u1, u2), u3), v as ((v1, v2), v3); unf3; ring).
      rewrite CV. unfold el at 2. rewrite cross_lin, triple, Hu, Huv, Z. unfold perp, el. rewrite !dot_vadd, !dot_vscal, UV, Huv.
      unfold kappa, pi_n, tau_n. rewrite !RtoC_minus, !RtoC_mult, !RtoC_minus, !RtoC_mult. rewrite H. replace (RtoC (-1)) with (- RtoC 1)%C by (rewrite <- RtoC_opp; f_equal; lra).
      destruct u as ((u1, u2), u3), v as ((v1, v2), v3). unfold vadd, vscal, vcross. apply vec_eq; ring.
Qed.

(* ------------------------------------------------------------ forward *)
Lemma cosg_self : forall t, cosg t t 0 = 1 /\ dcosg t t 0 = 0.
Proof. intros. unfold cosg, dcosg. rewrite cos_0. pose proof (sin2_cos2 t) as E. unfold Rsqr in E. split; lra. Qed.
Lemma P1_at_1 : forall n, P n 1 1 = INR n * (INR n + 1) / 2.
Proof. intros. pose proof (Ortho.associated n 0 1) as E. rewrite P_at_1 in E. cbn [INR] in E. lra. Qed.
Definition forward_s (nmax : nat) (k : R) (t1 t2 : nat -> C) : C := (csum (seq 1 nmax) (fun n => - Ci * RtoC ((2 * INR n + 1) / 2) * (t1 n + t2 n)) * RtoC (1 / k))%C.
Lemma diag_amp_forward : forall nmax k t1 t2 t, diag_amp nmax k t1 t2 t t 0 = mkAmp (forward_s nmax k t1 t2) (RtoC 0) (RtoC 0) (forward_s nmax k t1 t2).
Proof.
  intros. unfold diag_amp, QQ, TT, QT, TQ. destruct (cosg_self t) as (C1 & C2). rewrite C1, C2, cos_0, sin_0. pose proof (sin2_cos2 t) as E. unfold Rsqr in E.
  assert (K: forall n, (1 <= n)%nat -> (kappa n * RtoC (P n 1 1) = - Ci * RtoC ((2 * INR n + 1) / 2))%C).
  { intros n Hn. rewrite P1_at_1. unfold kappa. rewrite <- Cmult_assoc, <- RtoC_mult. do 2 f_equal. assert (0 < INR n) by (apply lt_0_INR; lia). field. lra. }
  apply amp_eq; cbn [s0 s1 s2 s3]; unfold forward_s.
  - f_equal. apply csum_ext. intros n Hn. apply in_seq in Hn. rewrite <- K by lia. replace (1 * P n 1 1 - sin t * sin t * (0 * 0) * P n 2 1) with (P n 1 1) by ring.
    replace ((sin t * sin t + cos t * cos t * 1) * P n 1 1 + 0 * 0 * P n 2 1) with (P n 1 1) by (rewrite Rmult_1_r, E; ring). ring.
  - rewrite csum_zero; [ring|]. intros n _. rewrite !Rmult_0_l. ring.
  - rewrite csum_zero; [ring|]. intros n _. rewrite !Rmult_0_l. ring.
  - f_equal. apply csum_ext. intros n Hn. apply in_seq in Hn. rewrite <- K by lia. replace (1 * P n 1 1 - sin t * sin t * (0 * 0) * P n 2 1) with (P n 1 1) by ring.
    replace ((sin t * sin t + cos t * cos t * 1) * P n 1 1 + 0 * 0 * P n 2 1) with (P n 1 1) by (rewrite Rmult_1_r, E; ring). ring.
Qed.
(** close to the axis the program uses the values at the pole *)
Lemma unresolved_tables : forall t t0 nmax m, Rabs (1 - Rabs (cos t)) <= / 10000000000 -> (cos t < 0 -> t0 = PI) -> (0 <= cos t -> t0 = 0) ->
  forall a b a' b', wigner_dn_0m_sinx (cos t) a b nmax m = wigner_dn_0m_sinx (cos t0) a' b' nmax m.
Proof.
  intros t t0 nmax m H N Q a b a' b'. unfold wigner_dn_0m_sinx. destruct (Rle_dec (Rabs (1 - Rabs (cos t))) _) as [_|X]; [|contradiction].
  assert (C: cos t0 = 1 \/ cos t0 = -1) by (destruct (Rlt_dec (cos t) 0); [rewrite N, cos_PI by auto|rewrite Q, cos_0 by lra]; auto).
  destruct (Rle_dec (Rabs (1 - Rabs (cos t0))) _) as [_|X].
  - destruct (m =? 1)%nat; auto. destruct (Rlt_dec (cos t) 0) as [L|L]; destruct (Rlt_dec (cos t0) 0) as [L'|L']; auto; exfalso.
    + rewrite N, cos_PI in L' by auto. lra.
    + rewrite Q, cos_0 in L' by lra. lra.
  - exfalso. apply X. destruct C as [ -> | -> ]; [rewrite (Rabs_pos_eq 1) by lra|rewrite (Rabs_left (-1)) by lra; replace (- -1) with 1 by lra]; rewrite Rminus_diag_eq, Rabs_R0 by lra; lra.
Qed.
Lemma fixed_axis_forward : forall nmax k T t1 t2 t p, sphere_T nmax T t1 t2 -> 0 <= t <= PI ->
  fixed_axis nmax k T t p t p = mkAmp (forward_s nmax k t1 t2) (RtoC 0) (RtoC 0) (forward_s nmax k t1 t2).
Proof.
  intros nmax k T t1 t2 t p ST Ht.
  assert (RES: forall t, resolved t -> fixed_axis nmax k T t p t p = mkAmp (forward_s nmax k t1 t2) (RtoC 0) (RtoC 0) (forward_s nmax k t1 t2)).
  { intros s R. rewrite (fixed_axis_tables nmax k T t1 t2 s p s p ST R R), diag_amplitude. replace (p - p) with 0 by ring. apply diag_amp_forward. }
  destruct (Rle_dec (Rabs (1 - Rabs (cos t))) (/ 10000000000)) as [L|L].
  - set (t0 := if Rlt_dec (cos t) 0 then PI else 0). pose proof PI_RGT_0.
    rewrite <- (RES t0) by (unfold t0; destruct (Rlt_dec (cos t) 0); split; try lra; auto).
    rewrite !fixed_axis_phi. apply amplitude_ext. intros m n n' Hm Hn Hn'. unfold amp_term, sinx_tables. cbn [dsin_in tau_in dsin_out tau_out cnn Optics.T fst snd]. unfold dir_of. cbn [ct st inv].
    rewrite !(unresolved_tables t t0 nmax m L ltac:(unfold t0; intros; destruct (Rlt_dec (cos t) 0); auto; lra) ltac:(unfold t0; intros; destruct (Rlt_dec (cos t) 0); auto; lra) _ _ (sin t0) (if Req_EM_T (sin t0) 0 then 9000 else 1 / sin t0)). reflexivity.
  - apply RES. split; auto. right. right. pose proof (COS_bound t). assert (Rabs (cos t) <= 1) by (apply Rabs_le; lra). rewrite Rabs_pos_eq in L; lra.
Qed.
Lemma oriented_forward : forall nmax k T t1 t2 al be t p, sphere_T nmax T t1 t2 -> oriented nmax k T al be t p t p = mkAmp (forward_s nmax k t1 t2) (RtoC 0) (RtoC 0) (forward_s nmax k t1 t2).
Proof.
  intros nmax k T t1 t2 al be t p ST. apply apply_ext. intros E. apply (field_inj t p). apply (in_body_inj al be).
  destruct (C74_angles_exist al be t p) as (t' & p' & R & H). rewrite (C74_same_scattered_field nmax k T al be t p t p t' p' t' p' E H R H R).
  rewrite (fixed_axis_forward nmax k T t1 t2 t' p' ST R). set (s := forward_s nmax k t1 t2). set (V := in_body al be (field t p E)).
  assert (A: forall X, apply (mkAmp s (RtoC 0) (RtoC 0) s) X = (s * fst X, s * snd X)%C) by (intros; unfold apply; cbn [s0 s1 s2 s3]; f_equal; ring). rewrite !A.
  assert (F: forall t p X, field t p (s * fst X, s * snd X)%C = vscal s (field t p X)).
  { intros. rewrite !field_sum. cbn [fst snd]. destruct (zenith t0 p0) as ((z1, z2), z3), (azimuth p0) as ((a1, a2), a3). unfold vadd, vscal. apply vec_eq; ring. }
  rewrite !F, body_vscal. f_equal. apply field_components. rewrite <- H. unfold V. rewrite dot_in_body. apply dot_dir_field.
Qed.

(* ------------------------------------------------------------ C87 *)
Lemma sphere_object : forall p T T', is_sphere p -> construct p = Some T -> compute_additional_elements p T = Some T' -> sphere_T (p_nmax p) T' (fun n => - b_ p n)%C (fun n => - a_ p n)%C.
Proof. intros p T T' S E E' n n' m Hn Hn' H1 H1'. apply (C85_sphere p T T' S E E'); auto. Qed.
(** The scattered field: for every orientation of the object, and any two directions that are not within the cut-off of its axis *)
Lemma scattered_of : forall nmax k T a b alpha beta ti pi_ to po E, sphere_T nmax T (fun n => - b n)%C (fun n => - a n)%C ->
  clear_of_axis alpha beta ti pi_ -> clear_of_axis alpha beta to po ->
  mie_scattered nmax k a b (direction to po) (direction ti pi_) (field ti pi_ E) (field to po (apply (oriented nmax k T alpha beta ti pi_ to po) E)).
Proof.
  intros nmax k T a b al be ti pi_ to po E S Hi Ho. rewrite (oriented_mfield _ _ _ _ _ _ _ _ _ _ _ _ S Hi Ho).
  apply mfield_mie; auto using direction_unit, dot_dir_field. destruct (dots to po ti pi_) as (_ & _ & _ & _ & _ & _ & _ & _ & D9 & _). rewrite D9. reflexivity.
Qed.
Theorem C87_scattered_field : forall p T T' k alpha beta ti pi_ to po E, is_sphere p -> construct p = Some T -> compute_additional_elements p T = Some T' ->
  clear_of_axis alpha beta ti pi_ -> clear_of_axis alpha beta to po ->
  mie_scattered (p_nmax p) k (a_ p) (b_ p) (direction to po) (direction ti pi_) (field ti pi_ E) (field to po (apply (oriented (p_nmax p) k T' alpha beta ti pi_ to po) E)).
Proof. intros p T T' k al be ti pi_ to po E S C C' Hi Ho. apply scattered_of; auto. apply (sphere_object p T T' S C C'). Qed.
Print Assumptions C87_scattered_field.
Lemma extinction_of : forall nmax T' k a b alpha beta theta phi i j, sphere_T nmax T' (fun n => - b n)%C (fun n => - a n)%C -> (i < 4)%nat -> (j < 4)%nat ->
  get_extinction_matrix nmax k T' alpha beta theta phi i j =
  if (i =? j)%nat then 2 * PI / (k * k) * Props_outputs.rsum (seq 1 nmax) (fun n => (2 * INR n + 1) * Re (a n + b n)%C) else 0.
Proof.
  intros nmax T' k a b al be t ph i j S Hi Hj. unfold get_extinction_matrix. rewrite (oriented_forward _ _ _ _ _ _ _ _ _ S).
  set (s := forward_s _ _ _ _).
  assert (IM: Im s = 1 / (2 * k) * Props_outputs.rsum (seq 1 nmax) (fun n => (2 * INR n + 1) * Re (a n + b n)%C)).
  { unfold s, forward_s. assert (G: forall l, Im (csum l (fun n => - Ci * RtoC ((2 * INR n + 1) / 2) * (- b n + - a n))%C) = / 2 * Props_outputs.rsum l (fun n => (2 * INR n + 1) * Re (a n + b n)%C)).
    { induction l as [|n l IH]; [cbn; ring|]. rewrite Props_outputs.rsum_cons.
      change (csum (n :: l) ?f) with (f n + csum l f)%C. cbv beta. change (Im (?x + ?y)%C) with (Im x + Im y). rewrite IH. destruct (a n) as (a1, a2), (b n) as (b1, b2). cbn. field. }
    change (Im (?x * RtoC ?y)%C) with (Re x * 0 + Im x * y). rewrite G. unfold Rdiv. rewrite Rinv_mult. ring. }
  set (Q := Props_outputs.rsum _ _) in *. clearbody s Q. destruct s as (s1_, s2_). change (Im (s1_, s2_)) with s2_ in IM. subst s2_.
  destruct i as [|[|[|[|]]]], j as [|[|[|[|]]]]; try lia; cbn [Nat.eqb]; unfold extinction; cbn [s0 s1 s2 s3]; cbn [Re Im Cplus Cminus Copp RtoC fst snd]; unfold Rdiv; rewrite ?Rinv_mult; try ring; lra.
Qed.
(** Extinction: for every orientation and every direction the same cross section, that of Bohren & Huffman eq. 4.62, and no dichroism or birefringence *)
Theorem C87_extinction : forall p T T' k alpha beta theta phi i j, is_sphere p -> construct p = Some T -> compute_additional_elements p T = Some T' -> (i < 4)%nat -> (j < 4)%nat ->
  get_extinction_matrix (p_nmax p) k T' alpha beta theta phi i j =
  if (i =? j)%nat then 2 * PI / (k * k) * Props_outputs.rsum (seq 1 (p_nmax p)) (fun n => (2 * INR n + 1) * Re (a_ p n + b_ p n)%C) else 0.
Proof. intros p T T' k al be t ph i j S C C' Hi Hj. apply (extinction_of (p_nmax p) T' k (a_ p) (b_ p)); auto. apply (sphere_object p T T' S C C'). Qed.
Print Assumptions C87_extinction.

Definition vnorm2 (v : vec) : R := let '(a, b, c) := v in norm2 a + norm2 b + norm2 c.
Lemma norm2_mult : forall a b, norm2 (a * b)%C = norm2 a * norm2 b.
Proof. intros (a1, a2) (b1, b2). unfold norm2. cbn. ring. Qed.
Lemma vnorm2_vscal : forall a v, vnorm2 (vscal a v) = norm2 a * vnorm2 v.
Proof. intros a ((x, y), z). unfold vnorm2, vscal. rewrite !norm2_mult. ring. Qed.
Lemma vnorm2_field : forall t p E, vnorm2 (field t p E) = norm2 (fst E) + norm2 (snd E).
Proof.
  intros t p ((a, b), (c, d)). unfold field, zenith, azimuth, real3, vnorm2, norm2. cbn. pose proof (sin2_cos2 t) as H1. pose proof (sin2_cos2 p) as H2. unfold Rsqr in *.
  assert (E1: cos t * cos t = 1 - sin t * sin t) by lra. assert (E2: cos p * cos p = 1 - sin p * sin p) by lra. clear H1 H2.
  generalize dependent (cos t). generalize dependent (cos p). intros. ring [E1 E2].
Qed.
Lemma two_directions : forall W x y, let N E := norm2 (fst (apply W E)) + norm2 (snd (apply W E)) in
  N (RtoC y, RtoC (- x)) + N (RtoC x, RtoC y) = (x * x + y * y) * (norm2 (s0 W) + norm2 (s1 W) + norm2 (s2 W) + norm2 (s3 W)).
Proof. intros ((a, a'), (b, b'), (c, c'), (d, d')) x y N. unfold N, apply, norm2. cbn. ring. Qed.
Lemma pole_S : forall nmax a b mu, mu * mu = 1 -> norm2 (mie_S2 nmax a b mu) = norm2 (mie_S1 nmax a b mu).
Proof.
  intros nmax a b mu H. assert (E: mie_S2 nmax a b mu = (RtoC mu * mie_S1 nmax a b mu)%C).
  { unfold mie_S1, mie_S2. rewrite <- csum_mul. apply csum_ext. intros n _. unfold pi_n, tau_n. replace (mu * P n 1 mu - (1 - mu * mu) * P n 2 mu) with (mu * P n 1 mu) by (rewrite H; ring).
    assert (HC: (RtoC mu * RtoC mu = RtoC 1)%C) by (rewrite <- RtoC_mult, H; reflexivity). rewrite RtoC_mult. generalize dependent (RtoC mu). intros. ring [HC]. }
  rewrite E, norm2_mult. unfold norm2 at 1. cbn. replace (mu * mu + 0 * 0) with 1 by (rewrite H; ring). ring.
Qed.
Lemma intensity_of : forall nmax T' k a b alpha beta ti pi_ to po, sphere_T nmax T' (fun n => - b n)%C (fun n => - a n)%C ->
  clear_of_axis alpha beta ti pi_ -> clear_of_axis alpha beta to po -> let mu := Re (dot (direction to po) (direction ti pi_)) in
  get_scattering_matrix nmax k T' alpha beta ti pi_ to po 0 0 = / (2 * (k * k)) * (norm2 (mie_S1 nmax a b mu) + norm2 (mie_S2 nmax a b mu)).
Proof.
  intros nmax T' k a b al be ti pi_ to po S Hi Ho mu. unfold get_scattering_matrix. set (W := oriented _ _ _ _ _ _ _ _ _).
  pose proof (fun E => scattered_of nmax k T' a b al be ti pi_ to po E S Hi Ho) as M. fold W in M. unfold mie_scattered in M. cbv zeta in M. fold mu in M.
  set (S1 := mie_S1 _ _ _ mu) in *. set (S2 := mie_S2 _ _ _ mu) in *.
  assert (Z: scattering W 0 0 = / 2 * (norm2 (s0 W) + norm2 (s1 W) + norm2 (s2 W) + norm2 (s3 W))).
  { unfold scattering, norm2. destruct W as ((w1, w1'), (w2, w2'), (w3, w3'), (w4, w4')). cbn. ring. }
  rewrite Z. set (SS := _ + _ + _ + _) in *.
  set (u := direction to po) in *. set (v := direction ti pi_) in *.
  destruct (dots to po ti pi_) as (_ & _ & _ & _ & D5 & D6 & _ & _ & D9 & _). cbv zeta in *. fold u v in D5, D6, D9. set (x := dcosg ti to (po - pi_)) in *. set (y := sin to * sin (po - pi_)) in *.
  assert (UU: dot u u = RtoC 1) by apply direction_unit. assert (VV: dot v v = RtoC 1) by apply direction_unit.
  assert (DM: dot u v = RtoC mu) by (unfold mu; rewrite D9; reflexivity).
  assert (FX: field ti pi_ (RtoC x, RtoC y) = vadd u (vscal (- RtoC mu)%C v)).
  { assert (CU: components ti pi_ (vadd u (vscal (- RtoC mu)%C v)) = (RtoC x, RtoC y)).
    { unfold components. destruct (dots ti pi_ ti pi_) as (_ & _ & _ & _ & _ & _ & _ & _ & _ & A1 & A2). fold v in A1, A2. rewrite !dot_vadd, !dot_vscal, A1, A2, (dot_comm (zenith ti pi_)), (dot_comm (azimuth pi_)), D5, D6. f_equal; ring. }
    rewrite <- CU. apply field_components. fold v. rewrite dot_vadd, dot_vscal. rewrite VV, dot_comm, DM. ring. }
  assert (FY: field ti pi_ (RtoC y, RtoC (- x)) = vcross u v).
  { assert (CU: components ti pi_ (vcross u v) = (RtoC y, RtoC (- x))).
    { unfold components. assert (Y: forall z, dot z (vcross u v) = (- dot z (vcross v u))%C) by (intros ((z1, z2), z3); destruct u as ((u1, u2), u3), v as ((v1, v2), v3); unf3; ring).
      rewrite !Y. unfold v. rewrite zenith_cross, azimuth_cross, (dot_comm (zenith ti pi_)), (dot_comm (azimuth pi_)), D5, D6. rewrite RtoC_opp. f_equal; ring. }
    rewrite <- CU. apply field_components. fold v. clear. destruct u as ((u1, u2), u3), v as ((v1, v2), v3); unf3; ring. }
  assert (XY: x * x + y * y = 1 - mu * mu).
  { apply RtoC_inj. rewrite RtoC_plus, RtoC_minus, !RtoC_mult. pose proof (f_equal (fun V => dot u V) FX) as G. cbv beta in G. rewrite dot_vadd, dot_vscal, DM in G. rewrite UU in G.
    rewrite field_sum, dot_vadd, !dot_vscal in G. cbn [fst snd] in G. rewrite D5, D6 in G. rewrite G. ring. }
  assert (NS: forall s, norm2 (Ci * RtoC (1 / k) * s)%C = / (k * k) * norm2 s).
  { intros s. rewrite !norm2_mult. unfold norm2 at 1 2. cbn. unfold Rdiv. rewrite Rinv_mult. ring. }
  pose proof (two_directions W x y) as TD. cbv beta zeta in TD. fold SS in TD.
  destruct (Req_dec (mu * mu) 1) as [MM|MM].
  - assert (AV: forall E, dot u (field ti pi_ E) = RtoC 0).
    { intros E. assert (UV: u = vscal (RtoC mu) v).
      { assert (X0: x = 0) by nra. assert (Y0: y = 0) by nra. rewrite X0, Y0 in FX. rewrite field_zero in FX. clear -FX.
        destruct u as ((u1, u2), u3), v as ((v1, v2), v3). unfold vadd, vscal in FX |- *. apply vec_inj in FX. destruct FX as (F1 & F2 & F3). apply vec_eq.
        - replace u1 with ((u1 + - RtoC mu * v1) + RtoC mu * v1)%C by ring. rewrite <- F1. ring.
        - replace u2 with ((u2 + - RtoC mu * v2) + RtoC mu * v2)%C by ring. rewrite <- F2. ring.
        - replace u3 with ((u3 + - RtoC mu * v3) + RtoC mu * v3)%C by ring. rewrite <- F3. ring. }
      rewrite UV, dot_comm, dot_vscal, dot_comm. unfold v. rewrite dot_dir_field. ring. }
    assert (NE: forall E, norm2 (fst (apply W E)) + norm2 (snd (apply W E)) = / (k * k) * norm2 S1 * (norm2 (fst E) + norm2 (snd E))).
    { intros E. rewrite <- (vnorm2_field to po), (proj1 (M E) (AV E)), vnorm2_vscal, NS, vnorm2_field. reflexivity. }
    pose proof (two_directions W 1 0) as T1. cbv beta zeta in T1. rewrite !NE in T1. fold SS in T1. unfold S2. rewrite pole_S by auto. fold S1. unfold norm2 in T1 at 2 3 5 6. cbn in T1. rewrite Rinv_mult. lra.
  - apply Rmult_eq_reg_l with (1 - mu * mu); [|lra]. rewrite XY in TD.
    assert (N1: norm2 (fst (apply W (RtoC y, RtoC (- x)))) + norm2 (snd (apply W (RtoC y, RtoC (- x)))) = / (k * k) * norm2 S1 * (1 - mu * mu)).
    { rewrite <- (vnorm2_field to po), (proj1 (M (RtoC y, RtoC (- x)))), vnorm2_vscal, NS, vnorm2_field.
      - rewrite <- XY. clearbody x y. cbn [fst snd]. unfold norm2 at 2 3. cbn. ring.
      - rewrite FY. clear. destruct u as ((u1, u2), u3), v as ((v1, v2), v3); unf3; ring. }
    assert (N2: norm2 (fst (apply W (RtoC x, RtoC y))) + norm2 (snd (apply W (RtoC x, RtoC y))) = / (k * k) * norm2 S2 * (1 - mu * mu)).
    { rewrite <- (vnorm2_field to po), (proj2 (M (RtoC x, RtoC y)) FX), vnorm2_vscal, NS. f_equal.
      (* mu u - v, a vector of real components *)
      assert (MR: mu = sin to * cos po * (sin ti * cos pi_) + sin to * sin po * (sin ti * sin pi_) + cos to * cos ti) by (unfold mu, u, v, direction, real3, dot; cbn; ring).
      clear - MR. clearbody mu. unfold u, v, direction, real3. unfold vadd, vscal, vnorm2, norm2. cbn.
      pose proof (sin2_cos2 to) as A1. pose proof (sin2_cos2 po) as A2. pose proof (sin2_cos2 ti) as A3. pose proof (sin2_cos2 pi_) as A4. unfold Rsqr in *.
      transitivity (mu * mu * (sin to * sin to * (sin po * sin po + cos po * cos po) + cos to * cos to) + (sin ti * sin ti * (sin pi_ * sin pi_ + cos pi_ * cos pi_) + cos ti * cos ti) - 2 * mu * (sin to * cos po * (sin ti * cos pi_) + sin to * sin po * (sin ti * sin pi_) + cos to * cos ti)); [ring|].
      rewrite A2, A4, <- MR, !Rmult_1_r, A1, A3. ring. }
    rewrite N1, N2 in TD. rewrite Rinv_mult. lra.
Qed.
(** The intensity of scattered light for unpolarised incident light depends on the angle between the two directions only: (|S1|^2 + |S2|^2) / (2 k^2) *)
Theorem C87_intensity : forall p T T' k alpha beta ti pi_ to po, is_sphere p -> construct p = Some T -> compute_additional_elements p T = Some T' ->
  clear_of_axis alpha beta ti pi_ -> clear_of_axis alpha beta to po -> let mu := Re (dot (direction to po) (direction ti pi_)) in
  get_scattering_matrix (p_nmax p) k T' alpha beta ti pi_ to po 0 0 = / (2 * (k * k)) * (norm2 (mie_S1 (p_nmax p) (a_ p) (b_ p) mu) + norm2 (mie_S2 (p_nmax p) (a_ p) (b_ p) mu)).
Proof. intros p T T' k al be ti pi_ to po S C C' Hi Ho. apply (intensity_of (p_nmax p) T' k (a_ p) (b_ p)); auto. apply (sphere_object p T T' S C C'). Qed.
Print Assumptions C87_intensity.
